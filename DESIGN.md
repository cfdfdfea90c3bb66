# A Rocq model of aemcmc

The code is read as text from /repo; nothing of it is executed. Model files cite file and lines.

## Layout (rocq/theories)

* `Lib*`      Python dicts, results with exceptions, finite distributions, the reals as a MathComp field.
* `M_*`       the model. No proofs. Every definition cites file and lines in /repo.
* `S_*`       independent specifications (reachability, contracts, densities, HMM posterior, Gaussian law, ...).
* `L_*`       proofs.
* `E_*`       concrete environments and models, used by the non-vacuity examples and the refutations.
* `P_*`       property theorems: statement, short proof from a lemma, `Print Assumptions`, non-vacuity examples.

| Code in /repo/aemcmc | Model | Specification | Theorems |
|---|---|---|---|
| (Aesara graphs: variables, nodes, clone, in-place replacement, evaluation) | M_graph, M_walk | S_graph | |
| basic.py 18-130, rewriting.py 54-100 (construct_ir_fgraph) | M_basic | S_basic | P_basic (C01-C06 C08-C10 C46), P_whole (C01, with M_whole) |
| rewriting.py 104-176 (SamplerTracker, sampler_finder) | M_tracker | S_tracker | P_tracker (C11) |
| rewriting.py 179-240, 268-392 (SubsumingElemwise, subsume, inline) | M_subsume, M_graph | S_subsume, S_tensor | P_subsume (C13 C14 C47) |
| rewriting.py 33-39, 54-100, 368-375 (construct_ir_fgraph, the rewriting of the copy) | M_basic, M_pass | S_copy | P_copy (C56) |
| rewriting.py 54-100 with clone=False | M_inplace | S_inplace | P_inplace (C65) |
| the random generators of the steps found (conjugates.py, gibbs.py) | M_build, M_gibbs, M_conjugates | S_generators | P_generators (C59 C60) |
| basic.py 18-130 as a transition kernel | M_basic, M_whole | S_sweep, S_exact, S_binomial | P_sweep, P_exact (C57), P_binomial (C62, C63) |
| basic.py 18-130, called again and again in one process | M_basic | S_twice | P_twice (C64) |
| rewriting.py 243-265 (unification rules) | M_match | S_match | P_match (C45) |
| types.py | M_types | S_types | P_types (C12) |
| utils.py (ModelInfo, get_rv_updates, remove_constants) | M_utils | S_utils | P_utils (C15-C18) |
| sample.py | M_sample | | P_sample (C19) |
| ffbs.py | M_ffbs | S_ffbs | P_ffbs (C20 C21) |
| ffbs.py in double precision (Flocq's rounding) | M_ffbs_float; M_ffbs_overflow (any value on overflow) | S_ffbs_float, S_ffbs_overflow | P_ffbs_float, P_ffbs_accuracy, P_ffbs_overflow (C66) |
| ffbs.py 66-131, the graph and its random generators | M_ffbs_graph | S_generators, S_ffbs_graph | P_ffbs_graph, P_ffbs_value (C68) |
| ffbs.py 83-91, the graph of forward_step | M_forward_graph | S_forward_graph | P_forward_graph (C68) |
| ffbs.py with a batch dimension | M_ffbs_batch | S_ffbs_batch | P_ffbs_batch (C58) |
| dists.py | M_gauss | S_gauss | P_gauss (C22 C23) |
| gibbs.py 30-131 | M_gauss | S_gauss | P_gauss (C24 C25) |
| gibbs.py 134-184, 314-364, 656-679 (patterns) | M_match | S_match | P_match (C34 C38) |
| gibbs.py 187-257 (horseshoe_posterior) | M_horseshoe | S_horseshoe | P_horseshoe (C36 C37) |
| gibbs.py 264-311, 569-653, 743-765 (finders), 44-50, 125-131, 241-257, 541-548, 724-731 and dists.py 52-58, 136-153 as the graphs they build | M_build, M_code, M_gibbs | S_build, S_gibbs, S_discovery | P_gibbs (C35 C39 C48 C49), P_closed (C54), P_dispersion_graph (C55) |
| gibbs.py 241-257, 264-308: the values of the graph it builds | M_code | S_code, S_horseshoe_graph | P_horseshoe_graph (C51) |
| gibbs.py 30-131, 481-650, 682-765, dists.py 32-153: the values of the graphs they build | M_code | S_code, S_linalg, S_regression_graph | P_regression_graph (C52) |
| gibbs.py 367-400 (sample_CRT) | M_crt | S_crt | P_crt (C28) |
| gibbs.py 387-400, the graph of sample_CRT and its random generator | M_crt_graph | S_generators, S_crt_graph | P_crt_graph (C69) |
| gibbs.py 367-478 for a vector of dispersions and counts of any rank | M_crt_vector | S_crt, S_crt_vector | P_crt_vector (C67) |
| gibbs.py 403-478 (dispersion) | M_dispersion | S_dispersion | P_crt (C29) |
| gibbs.py 481-548, 682-731 (regression steps) | M_regression | S_regression, S_link | P_regression (C26 C27) |
| conjugates.py | M_conjugates | S_conjugates, S_broadcast, S_conditional | P_conjugates (C30-C33), P_conditional (C53) |
| transforms.py 7-120 (the relations) | M_transforms | S_transforms | P_transforms (C40 C41) |
| nuts.py 44-145, 177-203 | M_nuts, M_nuts_step, M_target | S_nuts, S_target, S_nuts_keeps | P_nuts (C42 C43 C50), P_target (C07), P_nuts_keeps (C61) |
| nuts.py 148-174 (construct_sampler) | M_nuts_graph | S_nuts | P_nuts (C44) |

## Plan per property

| Id | What is modelled | How it is proved |
|----|------------------|------------------|
| C01 C02 C06 C09 C10 | `construct_sampler` over a heap of graph nodes, ordered dicts, sets with arbitrary enumeration | invariants of the loop over `fgraph.outputs` |
| C03 C04 | in-place `replace_all` on the heap, reachability | loop invariant: processed steps are closed under the model variables and acyclic |
| C05 | evaluation of heap graphs under an environment | substitution lemma for in-place replacement; refuted in general (shared nodes), proved when nodes are not shared |
| C07 | `joint_logprob` as the sum over random variables of a log density at evaluated parameters, read from the mutated heap | refuted by a model taken from the docs; proved when no other sampler was found |
| C08 | cloning in `construct_ir_fgraph`, frame of the in-place replacement | frame lemma |
| C11 | `SamplerTracker`, `sampler_finder` as a state machine over arbitrary call sequences | invariant by induction over calls |
| C12 | `Sampler.__post_init__` | induction; the "reading stages gives the scan order" half is refuted for equal operators |
| C13 C14 C15 | tensors as shape plus index function, DimShuffle, broadcasting, the rewrite and its inlining | equality of tensors, all ranks |
| C16 C17 | `ModelInfo.__post_init__` with exceptions | case analysis, dict lemmas; C17 refuted without distinct values |
| C18 C19 | heap walk, updates dict, scan | induction |
| C20 C21 | the FFBS program in a finite-distribution monad over the reals | induction over time |
| C22 C23 C24 C25 | matrices over an arbitrary real field with square roots | matrix algebra (mathcomp) |
| C26 C27 | logistic likelihoods over the reals, Gaussian kernels | completion of squares, exact characterisations of when the step is right |
| C28 C29 | CRT sampler in the distribution monad; Stirling numbers | induction over y |
| C30-C33 | matched parameters, call conventions, density kernels | real analysis identities; refutations |
| C34 C35 C38 C39 C45 | terms, unification, the match functions with exceptions | soundness of unification, case analysis |
| C36 C37 | densities of the scale mixture | kernels up to constants; improper integral (Coquelicot) |
| C40 C41 | the two relations, densities, shapes | change of variables; refutations |
| C42 C43 C44 C50 | transforms, ravel/unravel, the graph of the step, graph_inputs, pairing by position | values of the step for every kernel; order of the traversal; refutations |
| C46 | the inlining at the end of construct_sampler | loop invariant |
| C47 | SubsumingElemwise.make_node after constants were filtered | case analysis; refuted with constants |
| C48 | the graph the dispersion finder builds with the inner graph of its kernel, order of shared inputs (M_walk) | exact description; refuted for every step built |
| C49 | all calls of the registered finders | invariant over call sequences |
| C51 | the inner graph of the horseshoe kernel on the heap, its draws and their parameters as values | evaluation of the built graph for all values drawn, by induction over the code; refuted for numpy's exponential and for matrices |
| C52 | the inner graphs of the regression kernels on the heap with their draws as values, matrices as arrays | the code is evaluated for all values drawn and shown to be the functions of C26 and C27; refuted for prior scales other than one and for the Bernoulli sign |
| C53 | the joint log-density of a model (M_target) as a function of one variable, the steps of C30-C32 | the terms that mention the latent variable are isolated for every model; refuted by two observations of one variable |
| C54 | the registered finders under any schedule of calls (M_gibbs, M_tracker), inside construct_sampler | an invariant over the calls relates what was recorded to the supported forms, stated on the model graph (S_discovery); each finder is shown exact on every later heap |
| C55 | the graph of the dispersion step (M_gibbs `dispersion_inner`; the scan as one node) and the values it computes | evaluation of the built graph against a program (S_dispersion_graph); the program's gamma draw compared with the conditional of C36's model: equal exactly if the linear predictors sum to zero, so refuted in general |
| C56 | clone_nodes and subsume_pass (M_pass): the rewriter on any list of nodes | every clone reads the clones of what its original reads (invariant of the cloning loop), evaluation carried along in both directions; each visit replaces an output by one of the same value (C13) that does not reach it; Aesara's canonicalisation assumed to keep densities |
| C57 | the whole construct_sampler (M_basic); each step as a transition kernel over the values it reads and its own generators (S_sweep) | induction over the blocks in the order in which the scan visits them: the value of a step in the sampler's graph is its value at the new values of the earlier blocks and the old ones of the later; kernels that keep the conditional of their block keep the posterior (Fubini for the block is a hypothesis); refuted when samplers share a statistic (C05); a draw leaves the conditional invariant iff its density is the full conditional (S_exact), which C53 decides for the three conjugate steps |
| C58 | the FFBS program on inputs with one leading batch dimension, with numpy's broadcasting rule (M_ffbs_batch) | refuted: at every time M draws are made whatever the size B of the batch, an error unless B = M or B = 1; for B = M the axis of states is normalised and drawn along the batch, computed on an example; what the numbers drawn mean then is proved from the support of the draws |
| C59 | the heap after the search with the registered finders, for every sequence of calls | invariant over the calls: the steps of one call reach only the searched graph and objects of that call, and inside a call every new generator is read by one kernel or draw node |
| C60 | the same heaps; `next_value` is the explicit update, else the default update set by RandomStream.gen | conjugate finders: the only new generator's default update is the first output, the next state, of the draw that takes it as its first input (proved). Kernel finders returning no updates: no new generator's next value is an output of the step's node (refuted in every graph) |
| C61 | the graph built by `step` (M_nuts_step), evaluated with values x of the variables and states e of the generators; integrals are linear maps as in C57; the kernel is AeHMC's operation, its invariance and the change of variables between the model's density and the transformed one are hypotheses | the values computed by the step are backward(kernel(forward x)); forward undoes backward (logit, log, stick breaking), so the law of x carried forward is the target; angles need a periodic kernel because forward does not undo backward there. Missing: bounds of supports depending on updated variables, where the step is wrong (C42) |
| C62 | construct_sampler with the model's own discovery (M_whole) on graphs whose closed-form variables are beta priors of binomial variables (S_binomial); evaluation of the returned graph as in C57; numpy's beta draws are a hypothesis | from the log of the finders' calls: each beta variable gets one step, made by one call; the nodes of different calls are different and read only the model's variables, so the condition of C05/C57 on interference is proved and not assumed; the step's value is the draw at the posterior parameters; C53 and C57 give the invariance. |
| C63 | as C62, with a NUTS step for the variables without a closed form | as C62. Missing: that the NUTS step computes its block from the current values, and leaves the conditional of its variables invariant, is a hypothesis (C61 shows the second from AeHMC's contract) |
| C64 | the heap of Aesara objects that all calls share; construct_sampler runs in the heap the earlier calls left behind (M_basic) | each call only adds to the heap (C08), for which the invariant of the main loop says that no SubsumingElemwise of an earlier call is ever read; induction over the calls. Assumed: Aesara's DimShuffles are well formed in every heap. What a call reads from shared generators when it is run is not in question: values are compared at equal inputs |
| C65 | construct_ir_fgraph with clone=False (M_inplace), on the pass of M_pass | replacing a variable by an equal one keeps the value of every variable of the heap (induction on evaluation, both directions), induction over the visits. Assumed: the same of Aesara's canonicalisation |
| C66 | ffbs_step with every operation rounded to double (M_ffbs_float), sums in any order | only monotonicity of rounding is used: powers of two are exact, so one entry of the forward weights stays above a fixed power of two (induction over the observations); the products that the backward pass divides by are those of the forward pass. Refuted in general by a chain whose weights shrink by more than the bound at every step. Every sequence drawn is possible: a rounded product that is not zero has no zero factor. Accuracy: relative errors of 2^-53 are counted through both passes (`near`); the forward weights stay within a fixed ratio of each other, so nothing is rounded in the subnormal range. Overflow: M_ffbs_overflow takes the rounding function as an argument that is only known below 2^1024; the sum of the forward weights stays below 2^60 by induction, so every operation stays in range and the step is that of M_ffbs_float |
| C67 | sample_CRT with a vector of concentrations, broadcasting as in numpy (M_crt_vector); shapes of the dispersion step | induction over the counts and over the Bernoulli draws; shapes as lists. Refuted in general, exact conditions |
| C68 | the graph that ffbs_step builds, with the generators of both draws (M_ffbs_graph) | every node made by the code other than the draw and the scan reads no new generator (induction over the code), so the only readers of the two new generators are those two nodes; the scan's update is the one returned. Values: the operators are interpreted by the functions of M_ffbs (S_ffbs_graph) and the code is evaluated step by step, so that the weights of both draws and the sequences of the scan are those of M_ffbs.ffbs_step |
| C69 | the graph that sample_CRT builds, with the inner graph of its scan (M_crt_graph) | as C68: only the scan reads the new generator. Values: integers, numbers and lists interpret the operators (S_crt_graph); the draws with the probabilities that the graph computes, put through the result that it computes, have the law of M_crt.single_sample_CRT |

A property that is false of the code is recorded by a theorem `..._refuted` with a witness, next to a
`..._partial` theorem that says when it holds.

## External contracts

The dependencies (Aesara, AePPL, AeHMC, kanren, unification, etuples, numpy, scipy, polyagamma) are not
available here. What the model assumes of them, and where:

* `contracts` (S_basic.v): the canonicalisation of the measurable IR keeps outputs and old objects and brings in only
  new ones; the finders only add objects (for the six registered finders this is _proved_, C49); `in2out` visits every
  node; a set is enumerated once, in any order; `nuts.step` only adds objects (for the model of nuts.step this is
  _proved_, `step_spec`). `whole` (M_whole.v) puts the registered finders, nuts.step and graph_inputs together;
  `C01_modelled_code_meets_the_contracts` proves that it meets `contracts`, so that only Aesara's canonicalisation (for
  aemcmc's part of it the contract is _proved_, C56), the
  rewriter's calls and traversal, the set order and joint_logprob stay assumed.
* `model_ok` (S_basic.v): what is assumed of the caller: an acyclic graph without SubsumingElemwise in which a
  DimShuffle has one input and one output and constants are leaves, distinct keys that
  are random variables, observed values that do not depend on the model and are leaves when they occur inside it.
* `builder_ok` (S_build.v): ranks of Elemwise results and constants; the shared inputs of an OpFromGraph are listed in
  the order of Aesara's `graph_inputs`, modelled in M_walk. OpFromGraph refuses constants and shared variables as explicit inputs (TypeError).
* `real_ops` (S_conjugates.v): addition, subtraction and division of arrays mean that, with broadcasting (S_tensor.v).
* `ranks_ok`, `constants_ok`, `arithmetic_ok`, `sums_ok` (S_code.v): the declared rank of a result is that of its value;
  literals, elementwise operations (on the arguments where they are defined), `sum`, `shape[0]` mean that; a draw without
  a size has the shape its parameters broadcast to; exponential, gamma and Polya-Gamma draws are positive.
* `log_densities` (S_conditional.v): the log densities of beta, gamma, binomial, Poisson and negative-binomial variables.
* `linalg_ok` (S_linalg.v): products, transposes, `diag`, `set_subtensor` of the diagonal, slices, triangular and symmetric solves,
  Cholesky factors of positive definite matrices and `ifelse` on arrays mean that.
* `lp_ok` (S_nuts.v): joint_logprob only adds objects.
* RandomStream: every draw takes a generator of its own; `gen` appends (generator, next state) to the state updates and
  sets `default_update`. A generator is a leaf.
* `walk` (M_walk.v): `graph_inputs` is Aesara's depth-first traversal: last output first, inputs in order.
* Conventions of Aesara's random variables: `srng.gamma(shape, rate)` stores `1/rate` as the scale (pinned by
  tests/test_gibbs.py); `srng.exponential(x)`: both readings, rate and scale, are stated where they matter (C36, C41).
* AePPL: the table of default transforms and their formulas (M_nuts.v, M_nuts_step.v `aeppl_default`);
  joint_logprob is the sum of log densities (M_target.v).
* AeHMC: RaveledParamsMap concatenates and slices in order; the kernel draws a momentum with a generator of its own and
  hands position, momentum, its generators and the two parameters to one scan whose updates it returns. The trajectory
  itself is an arbitrary function `K` of these.
* kanren and unification: unification of terms with the rules for Elemwise; goals are relations.
* Random draws: independent weighted choices (finite distributions) in C20, C21, C28; standard normal vectors as
  arguments in C22-C27; densities elsewhere. The Polya-Gamma law enters through its tilting identity (S_link.v).

## Trusted base

Coq 8.16.1's kernel (and coqchk), the definitions in `M_*` as readings of the code, the definitions in `S_*` as
readings of the properties. No axiom is declared in this development. `Print Assumptions` for every theorem in
MANIFEST.json lists (standard library only):

| Axioms | Theorems |
|---|---|
| none | C01-C06, C08-C19 (all theorems), C20_spec_sequences, C22-C24, C25_..._iff_partial, C34, C35, C38, C39, C44-C49, C54, C56 (other theorems), C59, C60, C64, C65 (other theorems), C67_step_shape_*, C68 (other theorems) |
| sig_forall_dec | C56_copy_has_the_density, C65_density_kept |
| sig_forall_dec, functional_extensionality_dep | C57 (other theorems), C67 (other theorems), C07_nuts_target_refuted, C20_spec_posterior_sums_to_one, C28, C33, C69 |
| ... and sig_not_dec | C57_full_conditional_draws_keep_the_conditional, C57_draws_keep_iff, C20 (other theorems), C58 (other theorems), C21_bound_irrelevant, C40_student_t_never_matches, C68_graph_computes_ffbs, C68_forward_* |
| sig_forall_dec, functional_extensionality_dep, classic | C07_nuts_target_partial |
| sig_forall_dec, sig_not_dec, functional_extensionality_dep, classic | C21_forward_bounded, C29-C32, C36, C37, C40, C41, C42, C43, C50, C51, C53, C57_beta_binomial_step_keeps_the_conditional, C57_gamma_poisson_step_iff, C57_beta_nb_step_iff, C58_batch_refuted, C61, C62, C63, C66 |
| sig_forall_dec, sig_not_dec, functional_extensionality_dep, epsilon_statement | C25_standard_deviations_refuted |
| ... and classic | C26, C27, C52, C55 |

(`sig_forall_dec`, `sig_not_dec`: Coq.Reals.ClassicalDedekindReals; `functional_extensionality_dep`:
Coq.Logic.FunctionalExtensionality; `classic`: Coq.Logic.Classical_Prop; `epsilon_statement`: Coq.Logic.Epsilon.)

## What is not modelled

* Floating point: real numbers (or an ordered field with square roots) throughout, except in C66 (ffbs_step in double precision, with correctly rounded operations and no fused operations; overflow is excluded by C66_no_overflow). C21 is about a real-number bound.
* dtypes, names of variables, test values, error messages (the class of the exception is modelled), logging.
* The compilation and execution of graphs by Aesara; a graph means the value defined by `evals` (M_graph.v).
* The graph rewriting driver (in2out, EquilibriumDB, kanren search): finders and rewrites are modelled as functions
  called on nodes, in any order and number of calls; the exception raised by a node rewriter is a value.
* The inner graph of the scan in sample_CRT is in M_crt_graph (C69) only; the graph of the dispersion step (M_gibbs) has one node in its place. That scan runs its inner function once for each element, with independent draws, is part of M_crt and not derived from the graph.
* `OGraph kind ins outs` refers to the inner graph of a kernel on the same heap; Aesara makes a copy of it. The inner graph of the backward scan in M_ffbs_graph is built on the same heap too; that of the forward scan is in M_forward_graph, apart from the scan.
* More than one batch dimension in ffbs.py; broadcasting in the functions of M_gauss and M_regression (static sizes; M_code has the
  graphs with broadcasting, and C52 relates the two for an n x p design). Errors that Aesara raises while a graph is built, other
  than the TypeError and IndexError of C39.
* `__init__.py`, `_version.py`, type annotations, the registration of rewrites beyond the table of finders (M_gibbs.v).
