-Q theories Verif
theories/LibPy.v
theories/L_LibPy.v
theories/M_graph.v
theories/M_utils.v
theories/M_types.v
theories/M_sample.v
theories/S_graph.v
theories/L_graph.v
theories/S_utils.v
theories/L_utils.v
theories/S_types.v
theories/L_types.v
theories/L_eval.v
theories/L_sample.v
theories/P_utils.v
theories/P_types.v
theories/P_sample.v
theories/M_nuts_graph.v
theories/M_basic.v
theories/L_replace.v
theories/L_alloc.v
theories/S_basic.v
theories/L_inline.v
theories/L_loop.v
theories/L_clone.v
theories/L_basic.v
theories/L_scan.v
theories/L_init.v
theories/L_sampler.v
theories/M_target.v
theories/S_target.v
theories/L_target.v
theories/L_total.v
theories/E_basic.v
theories/E_scan.v
theories/P_basic.v
theories/M_subsume.v
theories/S_subsume.v
theories/L_subsume.v
theories/S_tensor.v
theories/L_tensor.v
theories/M_tracker.v
theories/S_tracker.v
theories/L_tracker.v
theories/P_tracker.v
theories/P_subsume.v
theories/LibDist.v
theories/L_dist.v
theories/M_ffbs.v
theories/S_ffbs.v
theories/L_ffbs.v
theories/P_ffbs.v
theories/S_density.v
theories/L_density.v
theories/M_crt.v
theories/S_crt.v
theories/L_crt.v
theories/M_dispersion.v
theories/S_dispersion.v
theories/L_dispersion.v
theories/P_crt.v
theories/M_gauss.v
theories/S_gauss.v
theories/L_gauss.v
theories/L_gauss_reg.v
theories/LibRfield.v
theories/P_gauss.v
theories/S_link.v
theories/L_link.v
theories/M_regression.v
theories/S_regression.v
theories/L_regression.v
theories/P_regression.v
theories/M_horseshoe.v
theories/S_horseshoe.v
theories/L_horseshoe.v
theories/L_halfcauchy.v
theories/P_horseshoe.v
theories/M_transforms.v
theories/S_transforms.v
theories/L_transforms.v
theories/P_transforms.v
theories/M_match.v
theories/S_match.v
theories/L_match.v
theories/L_match_fun.v
theories/P_match.v
theories/M_build.v
theories/M_code.v
theories/M_conjugates.v
theories/M_gibbs.v
theories/S_broadcast.v
theories/L_broadcast.v
theories/S_build.v
theories/L_build.v
theories/L_inner.v
theories/L_code.v
theories/S_code.v
theories/L_code_value.v
theories/S_horseshoe_graph.v
theories/L_horseshoe_graph.v
theories/L_finders.v
theories/L_discover.v
theories/S_conjugates.v
theories/L_elem_value.v
theories/L_array.v
theories/L_conjugates.v
theories/P_conjugates.v
theories/S_gibbs.v
theories/L_gibbs.v
theories/E_real.v
theories/P_gibbs.v
theories/P_target.v
theories/M_walk.v
theories/L_walk.v
theories/M_nuts.v
theories/M_nuts_step.v
theories/S_nuts.v
theories/L_nuts.v
theories/L_nuts_step.v
theories/L_nuts_value.v
theories/L_nuts_updates.v
theories/E_nuts.v
theories/P_nuts.v
theories/M_whole.v
theories/L_whole.v
theories/P_whole.v
theories/L_horseshoe_sweep.v
theories/E_code.v
theories/P_horseshoe_graph.v
theories/S_linalg.v
theories/L_linalg_mx.v
theories/L_linalg.v
theories/L_regression_graph.v
theories/L_kernel_runs.v
theories/S_regression_graph.v
theories/L_regression_step.v
theories/E_linalg.v
theories/P_regression_graph.v
theories/S_conditional.v
theories/L_conditional.v
theories/P_conditional.v
theories/S_discovery.v
theories/L_closed.v
theories/P_closed.v
theories/S_dispersion_graph.v
theories/L_dispersion_graph.v
theories/P_dispersion_graph.v
theories/M_pass.v
theories/S_copy.v
theories/L_pass.v
theories/L_copy.v
theories/P_copy.v
theories/S_sweep.v
theories/L_sweep.v
theories/E_sweep.v
theories/P_sweep.v
theories/S_exact.v
theories/L_exact.v
theories/P_exact.v
theories/M_ffbs_batch.v
theories/S_ffbs_batch.v
theories/P_ffbs_batch.v
theories/S_generators.v
theories/L_generators.v
theories/P_generators.v
theories/S_nuts_keeps.v
theories/L_nuts_inverse.v
theories/L_nuts_keeps.v
theories/P_nuts_keeps.v
theories/L_pairs.v
theories/L_trace.v
theories/L_made.v
theories/S_binomial.v
theories/L_binomial.v
theories/L_bbsampler.v
theories/E_binomial.v
theories/P_binomial.v
theories/S_twice.v
theories/L_twice.v
theories/P_twice.v
theories/M_inplace.v
theories/S_inplace.v
theories/L_inplace.v
theories/P_inplace.v
theories/M_ffbs_float.v
theories/S_ffbs_float.v
theories/L_ffbs_float.v
theories/P_ffbs_float.v
theories/M_crt_vector.v
theories/P_crt_vector.v
theories/L_ffbs_accuracy.v
theories/P_ffbs_accuracy.v
theories/M_ffbs_overflow.v
theories/S_ffbs_overflow.v
theories/L_ffbs_overflow.v
theories/P_ffbs_overflow.v
theories/S_crt_vector.v
theories/M_ffbs_graph.v
theories/L_ffbs_graph.v
theories/P_ffbs_graph.v
theories/S_ffbs_graph.v
theories/L_ffbs_value.v
theories/L_ffbs_value2.v
theories/P_ffbs_value.v
theories/M_crt_graph.v
theories/S_crt_graph.v
theories/L_crt_graph.v
theories/P_crt_graph.v
theories/M_forward_graph.v
theories/S_forward_graph.v
theories/L_forward_graph.v
theories/P_forward_graph.v
