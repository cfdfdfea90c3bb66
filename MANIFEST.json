{
 "claims": [
  {
   "property": "C01",
   "status": "proved",
   "theorems": [
    "C01_one_step_per_unobserved_variable",
    "C01_construct_sampler_returns",
    "C01_modelled_code_meets_the_contracts",
    "C01_modelled_code_returns_one_step_per_variable"
   ],
   "note": "For the model of construct_sampler; external code enters only through the contracts of S_basic.v, which the modelled finders, nuts.step and graph_inputs are proved to meet."
  },
  {
   "property": "C02",
   "status": "proved",
   "theorems": [
    "C02_placeholders"
   ],
   "note": ""
  },
  {
   "property": "C03",
   "status": "proved",
   "theorems": [
    "C03_steps_do_not_mention_the_model"
   ],
   "note": "Steps from discovered samplers; the NUTS step is not one of them."
  },
  {
   "property": "C04",
   "status": "proved",
   "theorems": [
    "C04_steps_acyclic"
   ],
   "note": ""
  },
  {
   "property": "C05",
   "status": "partial",
   "theorems": [
    "C05_systematic_scan_partial",
    "C05_systematic_scan_refuted"
   ],
   "note": "REFUTED in general: sampler graphs are rewritten in place, so a node shared by two samplers keeps the values substituted for the first. Proved when the samplers do not share nodes that read model variables."
  },
  {
   "property": "C06",
   "status": "proved",
   "theorems": [
    "C06_nuts_exactly_for_what_is_left"
   ],
   "note": ""
  },
  {
   "property": "C07",
   "status": "partial",
   "theorems": [
    "C07_nuts_target_partial",
    "C07_nuts_target_refuted"
   ],
   "note": "The variables given to NUTS are the unobserved ones without sampler, all others are conditioned on, and differences of the log-density equal those of the model's joint log-density, when no node of a term that involves a NUTS variable occurs in the graph of a discovered sampler. Without that it is false (refuted with the registered beta-binomial finder): the samplers' substitution rewrites the model in place. The change of variables is not part of this theorem."
  },
  {
   "property": "C08",
   "status": "proved",
   "theorems": [
    "C08_model_not_modified",
    "C08_construct_ir_fgraph_model_not_modified"
   ],
   "note": "Under the hypothesis that an observed value that also occurs inside the model is a leaf."
  },
  {
   "property": "C09",
   "status": "proved",
   "theorems": [
    "C09_unchosen_samplers_have_no_influence",
    "C09_step_is_the_last_discovered"
   ],
   "note": ""
  },
  {
   "property": "C10",
   "status": "proved",
   "theorems": [
    "C10_updates_of_chosen_steps",
    "C05_systematic_scan_partial"
   ],
   "note": "The values of the updates are covered by the second part of C05_systematic_scan_partial."
  },
  {
   "property": "C11",
   "status": "proved",
   "theorems": [
    "C11_reports_first_success_only",
    "C11_samplers_recorded",
    "C11_seen",
    "C11_changes_bounded"
   ],
   "note": ""
  },
  {
   "property": "C12",
   "status": "partial",
   "theorems": [
    "C12_stages_defined_iff",
    "C12_stages_exact",
    "C12_stages_partition_partial",
    "C12_stages_scan_order_iff",
    "C12_stages_scan_order_refuted"
   ],
   "note": "Partition and per-stage order proved. REFUTED: 'reading the stages gives the scan order' fails when steps with equal operators are interleaved; proved to hold iff equal operators are contiguous."
  },
  {
   "property": "C13",
   "status": "proved",
   "theorems": [
    "C13_subsumption_preserves_values",
    "C13_subsumption_extends_graph",
    "C13_inlining_preserves_values",
    "C13_round_trip"
   ],
   "note": ""
  },
  {
   "property": "C14",
   "status": "proved",
   "theorems": [
    "C14_rewrites_nothing_iff",
    "C14_no_missing_input",
    "C14_shared_argument_refused",
    "C14_make_node",
    "C13_round_trip"
   ],
   "note": "C13_round_trip contains that a second application rewrites nothing. C14_shared_argument_refused: an Elemwise with a shared-variable argument is never subsumed (TypeError)."
  },
  {
   "property": "C15",
   "status": "proved",
   "theorems": [
    "C15_remove_constants",
    "C15_remove_constants_idempotent",
    "C15_remove_constants_count",
    "C15_remove_constants_no_constant"
   ],
   "note": ""
  },
  {
   "property": "C16",
   "status": "proved",
   "theorems": [
    "C16_model_info_accepts_iff",
    "C16_model_info_error",
    "C16_model_info_fields"
   ],
   "note": ""
  },
  {
   "property": "C17",
   "status": "partial",
   "theorems": [
    "C17_values_to_rvs_refuted",
    "C17_values_to_rvs_partial",
    "C17_values_to_rvs_section_partial"
   ],
   "note": "REFUTED: two random variables may share a value variable; then one is lost. Proved when value variables are distinct, and a section property without that hypothesis."
  },
  {
   "property": "C18",
   "status": "partial",
   "theorems": [
    "C18_get_rv_updates_accepts_iff",
    "C18_get_rv_updates_exact",
    "C18_get_rv_updates_error",
    "C18_get_rv_updates_refuted"
   ],
   "note": "Exact result on success and exact condition of success proved. REFUTED: an RNG that is not a shared variable raises AttributeError."
  },
  {
   "property": "C19",
   "status": "proved",
   "theorems": [
    "C19_sample_prior",
    "C19_sample_prior_deterministic",
    "C19_shared_ancestor",
    "C19_sample_prior_exists"
   ],
   "note": ""
  },
  {
   "property": "C20",
   "status": "proved",
   "theorems": [
    "C20_ffbs_exact_posterior",
    "C20_ffbs_impossible_observations",
    "C20_wrong_number_of_matrices",
    "C20_evidence_nonneg",
    "C20_ffbs_states_valid",
    "C20_spec_sequences",
    "C20_spec_posterior_sums_to_one"
   ],
   "note": "Real arithmetic; base shapes without batch dimensions."
  },
  {
   "property": "C21",
   "status": "proved",
   "theorems": [
    "C21_bound_irrelevant",
    "C21_forward_bounded"
   ],
   "note": ""
  },
  {
   "property": "C22",
   "status": "proved",
   "theorems": [
    "C22_rue2005_law",
    "C22_cholesky_exists"
   ],
   "note": ""
  },
  {
   "property": "C23",
   "status": "proved",
   "theorems": [
    "C23_cong2017_law"
   ],
   "note": ""
  },
  {
   "property": "C24",
   "status": "proved",
   "theorems": [
    "C24_regression_posterior",
    "C24_algorithms_agree",
    "C24_spec_law_unique"
   ],
   "note": ""
  },
  {
   "property": "C25",
   "status": "partial",
   "theorems": [
    "C25_standard_deviations_iff_partial",
    "C25_standard_deviations_refuted"
   ],
   "note": "REFUTED: the argument is used as a precision, not as an inverse standard deviation. Proved: right exactly when every standard deviation is 1."
  },
  {
   "property": "C26",
   "status": "partial",
   "theorems": [
    "C26_bernoulli_matched_iff_partial",
    "C26_bernoulli_documented_iff_partial",
    "C26_bernoulli_refuted"
   ],
   "note": "REFUTED: the matched model is sigmoid(-X beta), the step is for sigmoid(+X beta), and the inverse prior standard deviation is used as the precision. Exact conditions proved for both links."
  },
  {
   "property": "C27",
   "status": "partial",
   "theorems": [
    "C27_nb_regression_iff_partial",
    "C27_nb_regression_refuted"
   ],
   "note": "REFUTED: the inverse prior standard deviation is used as the prior precision. Proved: right exactly when every standard deviation is 1."
  },
  {
   "property": "C28",
   "status": "proved",
   "theorems": [
    "C28_crt_joint_law",
    "C28_crt_entry_law",
    "C28_crt_support",
    "C28_crt_total",
    "C28_stirling_coefficients"
   ],
   "note": ""
  },
  {
   "property": "C29",
   "status": "partial",
   "theorems": [
    "C29_dispersion_iff_partial",
    "C29_dispersion_failure_probabilities_partial",
    "C29_dispersion_refuted"
   ],
   "note": "REFUTED: the step uses sum log(1-p) where the conditional needs sum log(p) for the success probabilities p of the matched model. Exact condition under which it is right proved; right if given failure probabilities."
  },
  {
   "property": "C30",
   "status": "proved",
   "theorems": [
    "C30_beta_binomial_posterior"
   ],
   "note": "for every graph in which the binomial's probability is the beta draw itself, arrays of any shape with broadcasting; the observation has the shape of the product. External: elementwise + and - on real arrays (real_ops), result ranks (builder_ok)"
  },
  {
   "property": "C31",
   "status": "partial",
   "theorems": [
    "C31_gamma_poisson_iff_partial",
    "C31_gamma_poisson_refuted"
   ],
   "note": "REFUTED: the code adds 1 to the stored scale as if it were the rate, so the step is the posterior exactly when every scale is 1 (iff proved for arrays of any shape)"
  },
  {
   "property": "C32",
   "status": "partial",
   "theorems": [
    "C32_beta_nb_iff_partial",
    "C32_beta_nb_refuted"
   ],
   "note": "REFUTED: the posterior is Beta(a + n, b + y), the code gives Beta(a + y, b + n), right exactly when every y equals its n (iff proved for arrays of any shape)"
  },
  {
   "property": "C33",
   "status": "partial",
   "theorems": [
    "C33_beta_binomial_shape_partial",
    "C33_gamma_poisson_shape_partial",
    "C33_beta_nb_shape_partial",
    "C33_shared_latent_refuted"
   ],
   "note": "REFUTED when the observation has more elements than the latent variable: the step draws one value per observation. Proved: the step can have the latent variable's shape exactly when the observation has that shape"
  },
  {
   "property": "C34",
   "status": "partial",
   "theorems": [
    "C34_horseshoe_match_partial",
    "C34_horseshoe_match_refuted"
   ],
   "note": "REFUTED in general: once at.mul(2, tau, lambda) has become a SubsumingElemwise the constant no longer shows, and a normal with that scale is taken for a horseshoe prior. Proved for every graph in which the product is a plain Elemwise or a SubsumingElemwise that applies mul to exactly its inputs: accepted iff the scale is a product of two half-Cauchy variables one of which has one element, ValueError otherwise"
  },
  {
   "property": "C35",
   "status": "partial",
   "theorems": [
    "C35_horseshoe_finder_partial",
    "C35_horseshoe_finder_refuted"
   ],
   "note": "REFUTED: mean and half-Cauchy parameters are not checked. Proved: the finder builds steps for every documented horseshoe prior, and only for a normal whose scale is a product of two half-Cauchy variables, one with one element"
  },
  {
   "property": "C36",
   "status": "partial",
   "theorems": [
    "C36_horseshoe_sweep_partial",
    "C36_horseshoe_sweep_refuted"
   ],
   "note": "holds for every dimension and all values when the argument of exponential is a rate (docstring); REFUTED for every input when it is a scale (numpy, Aesara)"
  },
  {
   "property": "C37",
   "status": "proved",
   "theorems": [
    "C37_half_cauchy_mixture"
   ],
   "note": "improper integral over (0, infinity) of the mixture density"
  },
  {
   "property": "C38",
   "status": "partial",
   "theorems": [
    "C38_match_form",
    "C38_match_partial",
    "C38_mixed_vector_accepted",
    "C38_other_exceptions",
    "C38_match_refuted"
   ],
   "note": "REFUTED in general: the check all(neg_one.data != -1) accepts a vector that contains one -1, and raises AttributeError/TypeError for variables and 0-d constants. Proved for all graphs: the form sigmoid(c * dot(X, beta)) is required, and for constant vectors of equal numbers acceptance is equivalent to the number being -1"
  },
  {
   "property": "C39",
   "status": "partial",
   "theorems": [
    "C39_no_exception_partial",
    "C39_bernoulli_raises_iff",
    "C39_nbinom_raises_iff",
    "C39_no_exception_refuted",
    "C39_scalar_scale_refuted"
   ],
   "note": "REFUTED for the two regression finders (for example a design matrix in a shared variable, or a scalar prior scale); exact conditions proved. The other four never raise on draws"
  },
  {
   "property": "C40",
   "status": "partial",
   "theorems": [
    "C40_location_scale_iff_partial",
    "C40_location_scale_refuted",
    "C40_student_t_never_matches"
   ],
   "note": "joint law with broadcasting, given the parameter values: equal iff the size is explicit or there is at most one element; REFUTED for size=None with several elements (a single noise variable is shared)"
  },
  {
   "property": "C41",
   "status": "partial",
   "theorems": [
    "C41_invgamma_exponential_iff_partial",
    "C41_invgamma_exponential_refuted"
   ],
   "note": "holds for all c when the argument of exponential is a rate; when it is a scale (numpy, Aesara) holds iff c = 1 everywhere: REFUTED"
  },
  {
   "property": "C42",
   "status": "partial",
   "theorems": [
    "C42_nuts_support_partial",
    "C42_nuts_returns",
    "C42_nuts_support_refuted"
   ],
   "note": "Proved for every model, order, shape and kernel when no support bound depends on a random variable of the model; the general claim is refuted (finding: the bounds are drawn again from the prior)."
  },
  {
   "property": "C43",
   "status": "proved",
   "theorems": [
    "C43_nuts_order"
   ],
   "note": "For every pair of enumeration orders and every kernel that moves each variable's component alike in both."
  },
  {
   "property": "C44",
   "status": "partial",
   "theorems": [
    "C44_nuts_updates_refuted",
    "C44_nuts_updates_partial"
   ],
   "note": "Refuted for every NUTS sampler the model builds (finding: updates are shifted, one generator of the trajectory is never advanced); the partial theorem says what the updates are."
  },
  {
   "property": "C45",
   "status": "partial",
   "theorems": [
    "C45_unification_sound",
    "C45_unification_complete",
    "C45_unification_value_partial",
    "C45_unification_value_refuted"
   ],
   "note": "REFUTED in general: a SubsumingElemwise that has absorbed a constant unifies with the pattern of the plain Elemwise but has another value. Proved for all graphs and linear patterns: unification succeeds exactly on instances and returns the instance; the value agrees when every subsumed node matched applies the Elemwise to exactly its inputs"
  },
  {
   "property": "C46",
   "status": "proved",
   "theorems": [
    "C46_steps_have_no_subsumption"
   ],
   "note": ""
  },
  {
   "property": "C47",
   "status": "partial",
   "theorems": [
    "C47_rebuild_on_constant_refuted",
    "C47_rebuild_partial"
   ],
   "note": "REFUTED for constants: they are dropped by position-blind filtering, so rebuilding raises ValueError or swaps arguments silently. Proved without constants."
  },
  {
   "property": "C48",
   "status": "partial",
   "theorems": [
    "C48_dispersion_updates_partial",
    "C48_dispersion_updates_refuted"
   ],
   "note": "REFUTED: in every dispersion step that is built, each of the two generators gets the next state of the other"
  },
  {
   "property": "C49",
   "status": "proved",
   "theorems": [
    "C49_discovery_only_adds"
   ],
   "note": "for every sequence of calls of the six registered finders on draws of the function graph. Assumes builder_ok; inner graphs of kernels are abstracted to their draws"
  },
  {
   "property": "C50",
   "status": "partial",
   "theorems": [
    "C50_inverse_mass_matrix_order_refuted"
   ],
   "note": "Refuted (finding: the layout of the inverse mass matrix follows the set iteration order)."
  },
  {
   "property": "C51",
   "status": "partial",
   "theorems": [
    "C51_horseshoe_kernel_partial",
    "C51_horseshoe_kernel_refuted"
   ],
   "note": "Proved for coefficient vectors when the argument of exponential is read as a rate, for every graph and every state. Refuted (findings): in numpy's reading (scale) the step is never a sweep; for coefficients in a matrix the gamma draw uses the number of rows instead of the number of coefficients, so the step is not a sweep in any reading."
  },
  {
   "property": "C52",
   "status": "partial",
   "theorems": [
    "C52_nbinom_kernel_partial",
    "C52_bernoulli_kernel_partial",
    "C52_nbinom_kernel_refuted",
    "C52_bernoulli_kernel_refuted"
   ],
   "note": "For every graph, state and size: the kernel's draws and result are described exactly, and its step is right if and only if all prior scales are one (and, for the matched Bernoulli model, X'(y - 1/2) = 0; for the model with the opposite sign without that). Refuted (findings) for prior scales other than one and for the Bernoulli sign. Not covered: designs that are not matrices, dispersions that are not single numbers."
  },
  {
   "property": "C53",
   "status": "partial",
   "theorems": [
    "C53_beta_binomial_iff_partial",
    "C53_gamma_poisson_iff_partial",
    "C53_beta_nb_iff_partial",
    "C53_shared_latent_refuted"
   ],
   "note": "The full claim (each conjugate step draws from the full conditional of the latent variable in the whole model) is false of the code: C53_shared_latent_refuted gives a model with two binomial observations of one p, where both steps ignore the other observation. Proved instead: the beta-binomial step is the full conditional exactly when the density of the other variables does not depend on p, and for a latent variable with one use the gamma-Poisson step is right exactly for unit scales and the beta-negative-binomial step exactly for y = n. Observations have the shape of the latent variable (C33 covers the others)."
  },
  {
   "property": "C54",
   "status": "proved",
   "theorems": [
    "C54_discovered_iff_supported",
    "C54_nuts_exactly_for_the_unsupported"
   ],
   "note": "both directions, for every schedule that calls each registered finder on each random variable of its family; the forms are those of the canonicalised clone of the model, and shared variables are assumed to be leaves; the conditions under which the regression finders raise are part of the form"
  },
  {
   "property": "C55",
   "status": "partial",
   "theorems": [
    "C55_dispersion_kernel_partial",
    "C55_dispersion_kernel_refuted"
   ],
   "note": "the kernel's graph, its inputs, generators and the values of the draws for every graph of the form; the gamma draw is from the conditional exactly if the linear predictors X beta sum to zero (the rate is computed from log(1 - p) with p the probability of a count), so the property is refuted in general; missing: the new coefficients are assumed to be declared as a vector, and the inner graph of the scan is represented by sample_CRT (C05) rather than evaluated"
  },
  {
   "property": "C56",
   "status": "proved",
   "theorems": [
    "C56_copy_has_the_density",
    "C56_copies_have_the_conditionals",
    "C56_copy_has_the_observations",
    "C56_rewriting_meets_contract"
   ],
   "note": "for every model and every order of visits; Aesara's own canonicalisation, which runs afterwards, is assumed to keep densities and to meet canon_ok"
  },
  {
   "property": "C57",
   "status": "partial",
   "theorems": [
    "C57_sampler_keeps_the_posterior_partial",
    "C57_sampler_keeps_the_posterior_refuted",
    "C57_exact_draws_keep_the_conditional",
    "C57_full_conditional_draws_keep_the_conditional",
    "C57_beta_binomial_step_keeps_the_conditional",
    "C57_draws_keep_iff",
    "C57_gamma_poisson_step_iff",
    "C57_beta_nb_step_iff"
   ],
   "note": "Proved for samplers whose graphs do not interfere (the exact condition of C05), given that each step leaves the conditional of its variables invariant and that the NUTS step is a function of the new values of the others; without the condition on the graphs it is refuted by two samplers that share a statistic. A step that draws from a density leaves the conditional invariant exactly when the density is the full conditional of C53: so the beta-binomial step does, the gamma-Poisson step exactly for unit scales and the beta-negative-binomial step exactly for y = n. The NUTS step is C61. Not connected to measure theory: laws are arbitrary functionals with the Fubini identity as a hypothesis."
  },
  {
   "property": "C58",
   "status": "partial",
   "theorems": [
    "C58_number_of_draws_partial",
    "C58_meaning_of_draws_partial",
    "C58_wrong_number_refuted",
    "C58_batch_refuted"
   ],
   "note": "False of the code: alphas are transposed to (M, B) before they are normalised and drawn along the last axis. At every time M states are drawn whatever the batch size B (an error unless B = M or B = 1), so the number of sequences is wrong unless B = M; for B = M = 2 the states drawn for an element do not follow its posterior (a state of probability 0 is drawn with probability 1/2). C58_meaning_of_draws_partial says what the numbers are when B = M: number i at time n is the index of an element of the batch whose number at time n + 1 is a possible successor of state i. The unbatched case is C20."
  },
  {
   "property": "C59",
   "status": "proved",
   "theorems": [
    "C59_one_reader"
   ],
   "note": "For every schedule of finder calls and every well formed graph whose constants are leaves: each shared variable created by the search is an input of one node only, among all nodes that the steps found and their updates depend on. A step built with OpFromGraph is one node."
  },
  {
   "property": "C60",
   "status": "partial",
   "theorems": [
    "C60_conjugate_steps_partial",
    "C60_kernel_steps_refuted"
   ],
   "note": "Proved for the steps of conjugates.py. Refuted for the steps of gibbs.py returned without updates, in every graph: the next values of their generators are default updates computed outside the step (C60_example: from a draw of the prior). The dispersion step is C48. Missing: nothing that is true of the code."
  },
  {
   "property": "C61",
   "status": "partial",
   "theorems": [
    "C61_nuts_keeps_the_conditional_partial"
   ],
   "note": "For every graph built by the NUTS step: if AeHMC's kernel leaves its target invariant and the target is the model's law carried to the transformed space (AePPL), the step leaves the conditional law of its variables invariant. For von Mises variables the kernel has to be periodic. Missing: supports whose bounds depend on the variables updated, for which the step is wrong (C42)."
  },
  {
   "property": "C62",
   "status": "proved",
   "theorems": [
    "C62_conjugate_sampler"
   ],
   "note": "From the caller's model to the invariance of its posterior: the discovery of the steps, their independence and their values are proved from the graph. Hypotheses: numpy's beta draws follow the beta law, and the Fubini identity of the reference measure. C62_example: a model of two dependent pairs."
  },
  {
   "property": "C63",
   "status": "partial",
   "theorems": [
    "C63_mixed_sampler_partial"
   ],
   "note": "The variables with a closed-form step are shown to be the beta priors, and the whole sampler keeps the posterior, if the NUTS step does what C61 says: computes its block from the current values of the others and leaves the conditional law of its variables invariant. That is a hypothesis here; C61 is about graphs of extended reals."
  },
  {
   "property": "C64",
   "status": "proved",
   "theorems": [
    "C64_earlier_samplers_keep_their_values",
    "C64_placeholders_are_not_shared",
    "C64_models_stay_usable"
   ],
   "note": "Values are compared at equal inputs, generators included. That the heaps between the calls have well-formed DimShuffles is a hypothesis on Aesara."
  },
  {
   "property": "C65",
   "status": "proved",
   "theorems": [
    "C65_outputs_are_the_variables",
    "C65_only_the_model_is_rewritten",
    "C65_values_kept",
    "C65_density_kept"
   ],
   "note": "For aemcmc's own rewriting; Aesara's canonicalisation, which runs after it, is assumed to keep values and densities."
  },
  {
   "property": "C66",
   "status": "partial",
   "theorems": [
    "C66_double_precision_refuted",
    "C66_no_underflow_partial",
    "C66_only_possible_sequences",
    "C66_accuracy_partial",
    "C66_no_overflow",
    "C66_no_failure_partial",
    "C66_accuracy_overflow_partial"
   ],
   "note": "False in general: alpha is divided by the bound at most once per step, so weights that shrink by more than the bound per step die out, and a draw from 17 possible observations gives NaN with the default bound. Proved: no NaN, for any number of observations, if every state has a next state that is not too improbable. Also a bound on the relative error of the probability of every sequence, quadratic in the number of observations, if all transitions and likelihoods are bounded away from zero. Nothing overflows if the rows of the matrices sum to one (C66_no_overflow, for any value given on overflow). Fused operations are not treated."
  },
  {
   "property": "C67",
   "status": "partial",
   "theorems": [
    "C67_vector_error_iff_partial",
    "C67_vector_refuted",
    "C67_single_concentration_partial",
    "C67_step_shape_iff_partial",
    "C67_step_shape_size_refuted",
    "C67_step_shape"
   ],
   "note": "REFUTED: the scan gives every count the whole vector of dispersions, so with n >= 2 dispersions it fails unless every count is 2 or n+1 and otherwise can return more tables than customers; the step has the dispersion's shape exactly if the dispersion is a scalar and the counts are a vector. Concentrations of rank two or more are not modelled."
  },
  {
   "property": "C68",
   "status": "proved",
   "theorems": [
    "C68_generators_advanced",
    "C68_two_generators",
    "C68_updates_needed",
    "C68_graph_computes_ffbs",
    "C68_forward_step_computes",
    "C68_forward_scan_computes"
   ],
   "note": "The forward scan is one node, which computes M_ffbs.forward; the graph of its inner function is a graph of its own (M_forward_graph) and computes M_ffbs.forward_step; the inner graph of the backward scan is on the same heap. Given values for the arguments, the graph draws what M_ffbs.ffbs_step says."
  },
  {
   "property": "C69",
   "status": "proved",
   "theorems": [
    "C69_generator_advanced",
    "C69_updates_needed",
    "C69_graph_computes_crt",
    "C69_counts_have_the_crt_law"
   ],
   "note": "The inner graph of the scan is on the same heap; that scan runs it once for each element of y, with independent draws, is M_crt.scan_CRT."
  }
 ]
}