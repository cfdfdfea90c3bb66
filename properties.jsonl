{"id": "C01", "title": "One step per unobserved random variable", "statement": "construct_sampler returns in sample_steps exactly one entry for every random variable of the model that is not observed, keyed by the caller's own variable, and no entry for an observed variable.", "quantifier": "every model graph, every set of observed variables, every outcome of sampler discovery, every iteration order of the set of variables left to NUTS", "why_tests_cant": "Tests check three hand-built models; the claim is about the dict produced for every graph and discovery outcome.", "anchors": ["aemcmc/basic.py:construct_sampler", "aemcmc/rewriting.py:construct_ir_fgraph"]}
{"id": "C02", "title": "One fresh placeholder per unobserved variable", "statement": "The second result of construct_sampler maps every unobserved random variable (and nothing else) to its own placeholder: placeholders are new variables, pairwise distinct, without an owner, of the same type and name as the variable.", "quantifier": "every model graph and set of observed variables", "why_tests_cant": "Uniqueness and freshness are universally quantified over graphs.", "anchors": ["aemcmc/basic.py:construct_sampler"]}
{"id": "C03", "title": "Steps do not mention the model's random variables", "statement": "No sampling step built from a discovered sampler depends on a random variable of the model: every occurrence is replaced by its placeholder, its observed value or an already built step, so that evaluating a step never silently re-draws a model variable from its prior.", "quantifier": "every model graph, every discovered sampler graph, every order of the model variables", "why_tests_cant": "A dangling random variable is only visible on the particular graph that triggers it, and shows as slightly wrong samples.", "anchors": ["aemcmc/basic.py:construct_sampler", "aesara FunctionGraph.replace_all"]}
{"id": "C04", "title": "Steps remain acyclic", "statement": "After construct_sampler has substituted steps into one another in place, no step depends on itself: every step graph can be evaluated.", "quantifier": "every model graph, every discovered sampler graph (steps may share nodes with one another and with the model), every order", "why_tests_cant": "Cycles depend on sharing between arbitrary graphs.", "anchors": ["aemcmc/basic.py:construct_sampler"]}
{"id": "C05", "title": "Systematic scan", "statement": "Each discovered step, evaluated on placeholder values, is its sampler evaluated at the most recent value of every variable: the new value for variables whose step was built earlier, the placeholder value for the others, the observed value for observed ones. Variables that are outputs of one and the same kernel application are updated jointly, from the values current when that kernel is first used.", "quantifier": "every model, every discovered sampler graph, every values of placeholders, observations and RNG states", "why_tests_cant": "Using a stale value instead of a fresh one changes the invariant distribution, not the shape or the plausibility of samples; tests look at rough means.", "anchors": ["aemcmc/basic.py:construct_sampler"]}
{"id": "C06", "title": "NUTS is used exactly for what is left", "statement": "Variables for which no sampler was discovered are all updated by one NUTS step, variables with a discovered sampler are not; the parameters dict is empty when and only when no variable is left to NUTS.", "quantifier": "every discovery outcome, every iteration order of the set of leftover variables", "why_tests_cant": "Set iteration order is not controlled by a test.", "anchors": ["aemcmc/basic.py:construct_sampler", "aemcmc/nuts.py:construct_sampler"]}
{"id": "C07", "title": "NUTS targets the full conditional", "statement": "The log-density handed to NUTS is the joint log-density of the whole model as a function of the variables NUTS updates, all others held at their realized values.", "quantifier": "every model, every split of the unobserved variables between discovered samplers and NUTS, every values", "why_tests_cant": "The only test that mixes closed-form steps and NUTS checks the key set, not the density.", "anchors": ["aemcmc/basic.py:construct_sampler", "aemcmc/nuts.py:step"]}
{"id": "C08", "title": "The caller's model is not modified", "statement": "construct_sampler and construct_ir_fgraph leave every node of the graph passed by the caller as it was: the model can be reused afterwards.", "quantifier": "every heap of graph nodes, every observed set, every discovered sampler graph", "why_tests_cant": "In-place replacement reaches shared nodes; which ones depends on the graph.", "anchors": ["aemcmc/rewriting.py:construct_ir_fgraph", "aemcmc/basic.py:construct_sampler"]}
{"id": "C09", "title": "Choice among discovered samplers", "statement": "When several samplers were discovered for a variable, its step is the one discovered last; the others do not influence the result.", "quantifier": "every discovery history", "why_tests_cant": "Needs all histories.", "anchors": ["aemcmc/basic.py:construct_sampler"]}
{"id": "C10", "title": "Updates accompany their steps", "statement": "The updates returned with the sampler are those of the chosen discovered steps (rewritten consistently with the step) followed by those of the NUTS step; nothing else.", "quantifier": "every discovery outcome", "why_tests_cant": "Needs all discovery outcomes.", "anchors": ["aemcmc/basic.py:construct_sampler"]}
{"id": "C11", "title": "A sampler finder fires at most once per variable, on every schedule", "statement": "However often and in whatever order the rewriter calls the registered finders on the nodes of a graph, each (finder, variable) pair contributes its samplers at most once, in order of first success; the graph handed back is the node's own outputs; repeating calls cannot loop for ever.", "quantifier": "every sequence of rewriter calls, every finder behaviour", "why_tests_cant": "The rewriter's schedule (fixpoint iteration, ordering) is not controlled by a test.", "anchors": ["aemcmc/rewriting.py:sampler_finder", "aemcmc/rewriting.py:SamplerTracker"]}
{"id": "C12", "title": "Stages partition the variables in scan order", "statement": "Sampler.stages lists every variable of sample_steps exactly once, under the operator of its step, in the order of sample_steps; reading the stages one after the other gives the scan order.", "quantifier": "every sample_steps dict", "why_tests_cant": "Two steps may use equal operators; tests only count stages.", "anchors": ["aemcmc/types.py:Sampler.__post_init__"]}
{"id": "C13", "title": "Dimension-shuffle subsumption preserves values", "statement": "Replacing an Elemwise with DimShuffled inputs by a SubsumingElemwise and later inlining it computes the same tensor, for the original inputs and for any inputs substituted in the meantime.", "quantifier": "every elementwise operator, number of inputs, ranks, shapes, DimShuffle orders, tensors", "why_tests_cant": "Ranks, orders and sharing of inputs are unbounded.", "anchors": ["aemcmc/rewriting.py:local_elemwise_dimshuffle_subsume", "aemcmc/rewriting.py:inline_SubsumingElemwise", "aemcmc/rewriting.py:SubsumingElemwise"]}
{"id": "C14", "title": "SubsumingElemwise inputs line up with its inner graph", "statement": "A SubsumingElemwise node has as inputs exactly the non-constant arguments, in order, whether or not the caller passes the inner graph's shared variables; a second application rewrites nothing.", "quantifier": "every list of constant / shared / ordinary arguments", "why_tests_cant": "Combinations of constants and shared variables.", "anchors": ["aemcmc/rewriting.py:SubsumingElemwise.make_node", "aemcmc/utils.py:remove_constants"]}
{"id": "C15", "title": "remove_constants keeps order and multiplicity of the rest", "statement": "remove_constants returns the non-constant arguments in their order with their multiplicity, and is idempotent.", "quantifier": "every argument list", "why_tests_cant": "Unbounded lists.", "anchors": ["aemcmc/utils.py:remove_constants"]}
{"id": "C16", "title": "ModelInfo accepts exactly well-named models", "statement": "Building a ModelInfo succeeds if and only if every observed variable has a value and all variables have non-empty, pairwise distinct names; then names_to_vars is a bijection, and observed/unobserved variables partition the model in order with their values.", "quantifier": "every tuple of observed variables, value map and deterministic variables", "why_tests_cant": "All combinations of names and overlaps.", "anchors": ["aemcmc/utils.py:ModelInfo.__post_init__"]}
{"id": "C17", "title": "values_to_rvs inverts rvs_to_values", "statement": "For every accepted ModelInfo, values_to_rvs maps the value of each random variable back to that random variable.", "quantifier": "every accepted ModelInfo", "why_tests_cant": "Depends on values shared between variables.", "anchors": ["aemcmc/utils.py:ModelInfo"]}
{"id": "C18", "title": "get_rv_updates collects exactly the needed RNG updates", "statement": "get_rv_updates maps each shared or RNG variable on which the given random variables depend to its default update, or else to the update recorded in the stream, and contains nothing else; an assertion fails if the two disagree.", "quantifier": "every graph, stream history and set of random variables", "why_tests_cant": "Unbounded graphs; conflicting updates.", "anchors": ["aemcmc/utils.py:get_rv_updates"]}
{"id": "C19", "title": "sample_prior threads RNG states", "statement": "sample_prior(n) returns n joint draws: draw i is the requested variables evaluated at the RNG states after i updates, variables sharing an ancestor share its draw, RNGs the variables do not depend on are not advanced, and the returned updates are the states after n updates.", "quantifier": "every n, graph, RNG state", "why_tests_cant": "Statistical tests cannot see reused states for every n.", "anchors": ["aemcmc/sample.py:sample_prior"]}
{"id": "C20", "title": "FFBS draws from the exact posterior over state sequences", "statement": "ffbs_step returns a sequence of N states whose probability is the exact posterior probability of that sequence under the hidden Markov model with initial weights gamma_0, transition matrices Gammas and log-likelihoods log_lik.", "quantifier": "every N >= 1, number of states, non-negative weights and matrices (single or per-step), log-likelihoods (including minus infinity), every positive precision bound, every sequence", "why_tests_cant": "Tests use degenerate likelihoods where one sequence has almost all the mass.", "anchors": ["aemcmc/ffbs.py:ffbs_step"]}
{"id": "C21", "title": "FFBS rescaling is harmless and bounded", "statement": "The choice of lower_prec_bound never changes the distribution of the result, and with transition matrices whose rows sum to at most one the forward quantities always stay between 0 and 1.", "quantifier": "every model, sequence length and positive precision bound", "why_tests_cant": "Rescaling happens only on long or unlikely sequences.", "anchors": ["aemcmc/ffbs.py:ffbs_step"]}
{"id": "C22", "title": "multivariate_normal_rue2005 has the stated law", "statement": "The returned vector is m + T z for the standard normal vector z it draws, with Q m = b and T T' = Q^-1.", "quantifier": "every dimension, every symmetric positive definite Q (sparse or dense), every b", "why_tests_cant": "Tests use a diagonal 3x3 matrix and Monte Carlo tolerance.", "anchors": ["aemcmc/dists.py:multivariate_normal_rue2005"]}
{"id": "C23", "title": "multivariate_normal_cong2017 has the stated law", "statement": "The returned vector is m + T z for the standard normal vector z it draws, with Lambda m = Phi' Omega t and T T' = Lambda^-1 where Lambda = A + Phi' Omega Phi.", "quantifier": "all dimensions, every positive A and omega, every Phi, every t", "why_tests_cant": "Monte Carlo tolerance; fixed dimensions.", "anchors": ["aemcmc/dists.py:multivariate_normal_cong2017"]}
{"id": "C24", "title": "Regression posterior is the same whichever algorithm is chosen", "statement": "normal_regression_posterior draws from the posterior of beta for z ~ N(X beta, diag(omega)^-1) and a centred normal prior with precisions lmbdatau_inv, and the over- and under-determined algorithms have the same mean and covariance.", "quantifier": "all n, p (also n = p, n < p, n > p), X, z, positive omega and prior precisions", "why_tests_cant": "Two shapes tested by medians with 50% tolerance.", "anchors": ["aemcmc/gibbs.py:normal_regression_posterior"]}
{"id": "C25", "title": "Regression posterior honours prior standard deviations", "statement": "As documented, lmbdatau_inv holds the inverse prior standard deviations of beta, and the prior in the posterior drawn is the centred normal with these standard deviations.", "quantifier": "all X, z, omega, standard deviations", "why_tests_cant": "The existing tests use vague priors or unit standard deviations.", "anchors": ["aemcmc/gibbs.py:normal_regression_posterior", "aemcmc/gibbs.py:nbinom_normal_posterior", "aemcmc/gibbs.py:bern_normal_posterior"]}
{"id": "C26", "title": "Bernoulli regression step is a Gibbs step for the matched model", "statement": "For every model matched by bern_logistic_finder (Bernoulli observations with success probability sigmoid(-X beta), normal prior on beta) the generated step draws beta from its conditional given the Polya-Gamma variables and the observations.", "quantifier": "all X, y, beta, prior standard deviations, Polya-Gamma draws", "why_tests_cant": "The end-to-end test checks only the type of the step; the numeric test feeds data of the opposite sign convention.", "anchors": ["aemcmc/gibbs.py:bern_logistic_finder", "aemcmc/gibbs.py:bern_normal_posterior"]}
{"id": "C27", "title": "Negative-binomial regression step is a Gibbs step for the matched model", "statement": "For every model matched by nbinom_logistic_finder the generated beta step draws from the conditional of beta given the Polya-Gamma variables, the dispersion and the observations.", "quantifier": "all X, y, h, beta, prior standard deviations, Polya-Gamma draws", "why_tests_cant": "Rough means on one data set with prior standard deviation 200.", "anchors": ["aemcmc/gibbs.py:nbinom_logistic_finder", "aemcmc/gibbs.py:nbinom_normal_posterior"]}
{"id": "C28", "title": "sample_CRT has the Chinese-restaurant-table law", "statement": "Each entry of sample_CRT(y, h) has P(l) = s(y,l) h^l / (h (h+1) ... (h+y-1)) with s the unsigned Stirling numbers of the first kind, entries are independent and keep the layout of y; an entry is 0 exactly where y is 0 and otherwise between 1 and y.", "quantifier": "every array y, every h > 0, every value l", "why_tests_cant": "Tests compare one mean.", "anchors": ["aemcmc/gibbs.py:sample_CRT"]}
{"id": "C29", "title": "Dispersion step is a Gibbs step", "statement": "nbinom_dispersion_posterior, applied as nbinom_logistic_finder applies it, draws h from its conditional given the CRT counts, the observations and the success probabilities under the gamma prior of the model.", "quantifier": "every y, p, prior, counts", "why_tests_cant": "The test data are symmetric in p and 1-p, which hides a swap.", "anchors": ["aemcmc/gibbs.py:nbinom_dispersion_posterior", "aemcmc/gibbs.py:nbinom_logistic_finder"]}
{"id": "C30", "title": "Beta-binomial closed form is the posterior", "statement": "The step built for p ~ Beta(a, b), Y ~ Binomial(n, p) observed at y has density proportional to prior times likelihood.", "quantifier": "all a, b, n, y", "why_tests_cant": "Tests check two extreme points.", "anchors": ["aemcmc/conjugates.py:beta_binomial_conjugateo", "aemcmc/conjugates.py:local_beta_binomial_posterior"]}
{"id": "C31", "title": "Gamma-Poisson closed form is the posterior", "statement": "The step built for z ~ Gamma(shape a, rate b), Y ~ Poisson(z) observed at y has density proportional to prior times likelihood.", "quantifier": "all a, b, y", "why_tests_cant": "The test checks only the type of the step.", "anchors": ["aemcmc/conjugates.py:gamma_poisson_conjugateo", "aemcmc/conjugates.py:local_gamma_poisson_posterior"]}
{"id": "C32", "title": "Beta-negative-binomial closed form is the posterior", "statement": "The step built for p ~ Beta(a, b), Y ~ NB(n, p) observed at y has density proportional to prior times likelihood.", "quantifier": "all a, b, n, y", "why_tests_cant": "The test checks two extreme points computed with the same formula.", "anchors": ["aemcmc/conjugates.py:beta_negative_binomial_conjugateo", "aemcmc/conjugates.py:local_beta_negative_binomial_posterior"]}
{"id": "C33", "title": "Closed-form steps condition on all observations", "statement": "When the observed variable has several components that share one latent variable, the closed-form step has the shape of the latent variable and conditions on all components.", "quantifier": "every number of observations", "why_tests_cant": "Tests use a single scalar observation.", "anchors": ["aemcmc/conjugates.py"]}
{"id": "C34", "title": "Horseshoe matching", "statement": "horseshoe_match succeeds exactly on a normal whose scale is the product of two half-Cauchy variables of which one is scalar-like (rank 0 or static shape all ones); it returns (local, global) with the scalar-like one global, and otherwise raises ValueError.", "quantifier": "every expression graph, every shapes", "why_tests_cant": "Six graphs tested.", "anchors": ["aemcmc/gibbs.py:horseshoe_match"]}
{"id": "C35", "title": "Only horseshoe priors are sampled as horseshoe priors", "statement": "normal_horseshoe_finder only produces a step when the prior is the documented horseshoe: mean zero, half-Cauchy(0, 1) local and global scales.", "quantifier": "every expression graph", "why_tests_cant": "Tests never try a non-zero mean or another scale.", "anchors": ["aemcmc/gibbs.py:normal_horseshoe_finder", "aemcmc/gibbs.py:horseshoe_match"]}
{"id": "C36", "title": "Horseshoe step is a sequence of Gibbs updates", "statement": "Each draw in horseshoe_posterior is from the full conditional of its variable (auxiliary variables, local scales, global scale, in this order, each given the newest others) in the inverse-gamma mixture form of the horseshoe model.", "quantifier": "all dimensions, beta, sigma2, lambda2, tau2", "why_tests_cant": "The statistical test has 50% tolerance and passes the wrong arguments.", "anchors": ["aemcmc/gibbs.py:horseshoe_posterior"]}
{"id": "C37", "title": "Half-Cauchy is the stated mixture", "statement": "The inverse-gamma mixture used by horseshoe_posterior has the half-Cauchy(0,1) as marginal for the scale.", "quantifier": "every scale", "why_tests_cant": "An integral identity.", "anchors": ["aemcmc/gibbs.py:horseshoe_posterior"]}
{"id": "C38", "title": "Regression matching", "statement": "nbinom_sigmoid_dot_match and bern_sigmoid_dot_match return (X, h, beta) only for sigmoid(c * dot(X, beta)) with the constant c equal to -1 everywhere, and raise ValueError otherwise.", "quantifier": "every expression graph, every constant array c", "why_tests_cant": "Arrays of constants of every shape.", "anchors": ["aemcmc/gibbs.py:nbinom_sigmoid_dot_match", "aemcmc/gibbs.py:bern_sigmoid_dot_match"]}
{"id": "C39", "title": "Finders never fail", "statement": "On a node they do not support, the registered finders return nothing; they never raise.", "quantifier": "every node of every graph", "why_tests_cant": "All graphs.", "anchors": ["aemcmc/gibbs.py:nbinom_logistic_finder", "aemcmc/gibbs.py:bern_logistic_finder", "aemcmc/gibbs.py:normal_horseshoe_finder"]}
{"id": "C40", "title": "Location-scale transform preserves the distribution", "statement": "Where location_scale_transform relates P(mu, sd) to mu + sd * P(0, 1), both expressions have the same joint distribution.", "quantifier": "every distribution of the family, mu, sd > 0, sizes and shapes", "why_tests_cant": "Shapes are unbounded; the test checks operator names.", "anchors": ["aemcmc/transforms.py:location_scale_transform"]}
{"id": "C41", "title": "Inverse-gamma / exponential transform preserves the distribution", "statement": "Where invgamma_exponential relates InvGamma(1, c) to 1 / Exponential(c), both have the same distribution.", "quantifier": "every c > 0", "why_tests_cant": "The test checks operator names.", "anchors": ["aemcmc/transforms.py:invgamma_exponential"]}
{"id": "C42", "title": "NUTS step stays in the support and is the identity on rejection", "statement": "Whatever position the NUTS kernel returns, every updated variable lies in its support and has its own shape; if the kernel returns its starting position, every variable keeps its value.", "quantifier": "every number, shapes and order of variables, every position, every supported transform", "why_tests_cant": "All shapes and positions.", "anchors": ["aemcmc/nuts.py:step", "aemcmc/nuts.py:transform_forward", "aemcmc/nuts.py:transform_backward"]}
{"id": "C43", "title": "NUTS results do not depend on the set iteration order", "statement": "The value assigned to each variable by the NUTS step is the component of the position that belongs to that variable, for every order in which the leftover variables are enumerated.", "quantifier": "every enumeration order", "why_tests_cant": "Set iteration order varies between runs.", "anchors": ["aemcmc/basic.py:construct_sampler", "aemcmc/nuts.py:construct_sampler"]}
{"id": "C44", "title": "NUTS RNG updates are paired with their own RNG", "statement": "The updates returned by the NUTS construct_sampler assign to every shared RNG the next state computed from that same RNG.", "quantifier": "every model, with any shared variables", "why_tests_cant": "Depends on traversal orders.", "anchors": ["aemcmc/nuts.py:construct_sampler"]}
{"id": "C45", "title": "Pattern matching is sound", "statement": "When a relation or pattern unifies with an expression, the expression equals the pattern instantiated by the returned substitution (up to SubsumingElemwise standing for its Elemwise).", "quantifier": "every pattern, every expression", "why_tests_cant": "All terms.", "anchors": ["aemcmc/rewriting.py:_unify_SubsumingElemwise", "aemcmc/conjugates.py", "aemcmc/gibbs.py"]}
{"id": "C46", "title": "Built steps contain no internal operators", "statement": "No sampling step built from a discovered sampler contains a SubsumingElemwise, the operator that aemcmc introduces only for matching.", "quantifier": "every model graph, every discovered sampler graph, every nesting of SubsumingElemwise nodes", "why_tests_cant": "An operator left over depends on which nodes are shared and on the order of the expansion; a test sees a few graphs.", "anchors": ["aemcmc/basic.py:construct_sampler", "aemcmc/rewriting.py:expand_subsumptions"]}
{"id": "C47", "title": "A SubsumingElemwise can be rebuilt on other arguments", "statement": "Calling a SubsumingElemwise again on as many arguments as its node has inputs makes a node on exactly these arguments, and the position of every argument matters, also when some argument is a constant.", "quantifier": "every list of constant and non-constant arguments", "why_tests_cant": "Rewriters rebuild nodes on arbitrary replacements; a test fixes which arguments are constants.", "anchors": ["aemcmc/rewriting.py:SubsumingElemwise.make_node"]}
{"id": "C48", "title": "The dispersion step advances each of its random generators", "statement": "The updates of the step found for a negative-binomial dispersion assign to each of its two random generators the next state computed from that same generator.", "quantifier": "every graph in which the negative-binomial finder builds a dispersion step", "why_tests_cant": "Draws look random also when two generators exchange their states; which generator is paired with which state depends on the order in which Aesara lists shared inputs.", "anchors": ["aemcmc/gibbs.py:nbinom_logistic_finder"]}
{"id": "C49", "title": "Looking for samplers does not change the model", "statement": "Searching a model with the registered finders leaves every existing variable and node as it was; the steps found are built only from variables of the searched graph and new variables, and their updates are keyed by distinct variables that are not computed.", "quantifier": "every graph, every order and number of calls of the registered finders", "why_tests_cant": "All graphs and all rewriting orders.", "anchors": ["aemcmc/gibbs.py:normal_horseshoe_finder", "aemcmc/gibbs.py:nbinom_logistic_finder", "aemcmc/gibbs.py:bern_logistic_finder", "aemcmc/conjugates.py:local_gamma_poisson_posterior", "aemcmc/conjugates.py:local_beta_binomial_posterior", "aemcmc/conjugates.py:local_beta_negative_binomial_posterior", "aemcmc/rewriting.py:sampler_finder"]}
{"id": "C50", "title": "Sampler parameters mean the same for every set iteration order", "statement": "For the same step size and inverse mass matrix, the NUTS step assigns the same values whatever the order in which the leftover variables are enumerated.", "quantifier": "every model, every two enumeration orders, every kernel that treats the components of the position alike", "why_tests_cant": "The enumeration order is that of a Python set of objects hashed by address and varies between runs.", "anchors": ["aemcmc/basic.py:construct_sampler", "aemcmc/nuts.py:step"]}
{"id": "C51", "title": "The horseshoe step that is installed is a Gibbs sweep", "statement": "For a normal variable whose scale is the product of two half-Cauchy variables, the two posterior steps that the finder returns are outputs of one kernel that, at every state of the model, draws from the full conditionals of the horseshoe model, each draw with a random generator of its own that is advanced, at the squares of the current local and global scales, and returns the new scales.", "quantifier": "every graph with such a prior, every current value of the coefficients and of the scales, every number of coefficients, every shape of the coefficients", "why_tests_cant": "The kernel is an opaque compiled graph; sampling it gives neither its conditional densities nor its behaviour at all states and shapes.", "anchors": ["aemcmc/gibbs.py:normal_horseshoe_finder", "aemcmc/gibbs.py:horseshoe_posterior"]}
{"id": "C52", "title": "The regression steps that are installed draw the coefficients from their conditional", "statement": "For a negative-binomial or Bernoulli variable whose success probability is sigmoid(-(X @ beta)) with a normal prior on beta, the posterior step that the finder returns for beta is the output of a kernel that draws Polya-Gamma variables with the parameters of the augmented model (counts plus dispersion, or one; and X @ beta) and then, with normal draws, new coefficients from their conditional given the data and the Polya-Gamma variables, each draw with a random generator of its own that is advanced.", "quantifier": "every graph of that form, every number of observations and of coefficients (more or fewer), every design, data, current coefficients, prior scales and dispersion", "why_tests_cant": "The kernel is an opaque compiled graph; a sample gives neither the conditional density for all data and designs nor the parameters of the draws inside the kernel.", "anchors": ["aemcmc/gibbs.py:nbinom_logistic_finder", "aemcmc/gibbs.py:bern_logistic_finder", "aemcmc/gibbs.py:nbinom_normal_posterior", "aemcmc/gibbs.py:bern_normal_posterior", "aemcmc/gibbs.py:normal_regression_posterior", "aemcmc/dists.py:multivariate_normal_cong2017", "aemcmc/dists.py:multivariate_normal_rue2005"]}
{"id": "C53", "title": "A conjugate step draws from the full conditional in the whole model", "statement": "For a latent variable that the conjugate finders match with one of the observed variables, the returned step draws from a distribution whose density is proportional, as a function of the value of the latent variable, to the joint density of all variables of the model at their current values.", "quantifier": "every model graph, whatever else it contains; every current value of its variables; every shape", "why_tests_cant": "Tests use models with one observed variable per latent variable; whether other parts of a model change the conditional is a statement about all graphs that contain the pattern.", "anchors": ["aemcmc/conjugates.py:local_beta_binomial_posterior", "aemcmc/conjugates.py:local_gamma_poisson_posterior", "aemcmc/conjugates.py:local_beta_negative_binomial_posterior"]}
{"id": "C54", "title": "Exactly the supported variables get closed-form steps", "statement": "construct_sampler gives a variable a closed-form step exactly if the model has one of the supported forms at that variable: a beta probability of a binomial or negative-binomial variable, a gamma rate of a Poisson variable, one of the two half-Cauchy scales of a horseshoe prior, the coefficients of a logistic regression with Bernoulli or negative-binomial response, or the gamma dispersion of the latter. NUTS updates exactly the other unobserved variables.", "quantifier": "every model graph after canonicalisation, every order and repetition of the rewriter's calls that reaches every random variable", "why_tests_cant": "Tests check that a step is found in a few models; that nothing else is found, nothing is missed, and the order of the rewrites does not matter is a statement about all graphs and all schedules.", "anchors": ["aemcmc/basic.py:construct_sampler", "aemcmc/rewriting.py:sampler_finder", "aemcmc/gibbs.py:normal_horseshoe_finder", "aemcmc/gibbs.py:nbinom_logistic_finder", "aemcmc/gibbs.py:bern_logistic_finder", "aemcmc/conjugates.py:local_beta_binomial_posterior", "aemcmc/conjugates.py:local_gamma_poisson_posterior", "aemcmc/conjugates.py:local_beta_negative_binomial_posterior"]}
{"id": "C55", "title": "The dispersion step that is installed draws the dispersion from its conditional", "statement": "For a negative-binomial variable whose success probability is sigmoid(-(X @ beta)) with a normal prior on beta and a gamma prior on the dispersion, the posterior step that the finder returns for the dispersion is the output of a kernel that draws table counts for the observed counts and the current dispersion, and then the new dispersion from its conditional given the new coefficients, the data and the table counts, each draw with a random generator of its own.", "quantifier": "every graph of that form, every number of observations and of coefficients, every design, counts, coefficients, prior arguments, dispersion and table counts", "why_tests_cant": "The kernel is an opaque compiled graph; a sample from it does not show whether the rate of the gamma draw is right for all designs and coefficients, and the error cancels in symmetric designs.", "anchors": ["aemcmc/gibbs.py:nbinom_logistic_finder", "aemcmc/gibbs.py:nbinom_dispersion_posterior", "aemcmc/gibbs.py:sample_CRT"]}
{"id": "C56", "title": "Samplers are looked up in the caller's model", "statement": "The function graph that construct_ir_fgraph returns, in which construct_sampler looks for samplers, is a copy of the caller's model: it has one random variable for each random variable of the model, in the same order, each with the density of its original given the other variables, so the same joint log-density for all values of the random variables and data; the copies of the observed variables, and no others, are observed, with the values given by the caller. The rewriting of dimension shuffles that aemcmc applies to the copy changes none of this, whatever nodes it is applied to.", "quantifier": "every model, every set of observations, every order in which the rewriter visits nodes, all tensor values of any rank and shape, every meaning of scalar functions, other operators and log-densities", "why_tests_cant": "A rewrite that changes a value only for some ranks, shuffles or sharing patterns goes unnoticed in tests on a few models: the samplers found would then target another posterior without any error.", "anchors": ["aemcmc/rewriting.py:construct_ir_fgraph", "aemcmc/rewriting.py:local_elemwise_dimshuffle_subsume", "aemcmc/rewriting.py:sampler_ir_db"]}
{"id": "C57", "title": "One call of the sampler leaves the posterior invariant", "statement": "If the current values of the unobserved variables are distributed as the posterior of the model given the observations, then so are the values computed by the steps that construct_sampler returns, averaged over the states of the random generators, provided each step leaves the conditional law of its own variables given all the others invariant.", "quantifier": "every model and set of observations, every set of discovered samplers and variables left to NUTS, every domain of values, reference measure and posterior density, every meaning of the operators, all current values and generator states", "why_tests_cant": "A composition of correct steps can target the wrong distribution when one of them reads a stale value of another variable or shares a generator; each step alone passes its tests and the joint samples stay plausible.", "anchors": ["aemcmc/basic.py:construct_sampler", "aemcmc/gibbs.py:normal_horseshoe_finder", "aemcmc/gibbs.py:nbinom_logistic_finder", "aemcmc/conjugates.py:beta_binomial_conjugateo", "aemcmc/nuts.py:construct_sampler"]}
{"id": "C58", "title": "FFBS on a batch of sequences draws each sequence from its own posterior", "statement": "Called with initial weights of shape (B, M) and log-likelihoods of shape (B, M, N) (the documentation gives base shapes), ffbs_step returns one sequence of N states per element of the batch, distributed as the posterior of that element's hidden Markov model.", "quantifier": "every number of batch elements B, of states M and of times N, all initial weights, transition matrices and log-likelihoods for which every element's observations have positive probability", "why_tests_cant": "The only test uses one sequence. With B = M the shapes of the result are right and the draws are plausible states, so a wrong axis shows up only in the distribution of the draws.", "anchors": ["aemcmc/ffbs.py:ffbs_step"]}
{"id": "C59", "title": "The draws of a sampler do not share random generators", "statement": "Every random generator (shared variable) that the search for samplers creates is read by a single node among those from which the steps found and their updates are computed. So two draws, whether in one step or in the steps of two variables, are never made from the same generator state.", "quantifier": "every order in which the registered finders are called, every model graph and every pair of steps found in it", "why_tests_cant": "Two draws made from one generator state are perfectly dependent but each has the right marginal distribution; the existing tests check steps one at a time.", "anchors": ["aemcmc/gibbs.py:normal_horseshoe_finder", "aemcmc/gibbs.py:nbinom_logistic_finder", "aemcmc/gibbs.py:bern_logistic_finder", "aemcmc/conjugates.py", "aemcmc/rewriting.py:sampler_finder"]}
{"id": "C60", "title": "After a call of the sampler every random generator holds the state its draw left", "statement": "When a step has drawn from a random generator (shared variable), the value that the generator takes for the next call, by the updates returned with the step or else by its own default update, is the generator state that the draw returns. Otherwise the stream of random numbers restarts or follows another computation. True of the conjugate steps; false of the steps built as one graph operation and returned without updates, whose generators are advanced by draws computed beside the step, from draws of the priors instead of the values given to the step.", "quantifier": "every model graph, every call of a registered finder on it, every step it returns and every generator that the call created", "why_tests_cant": "The values of a single call have the right distribution and the generators do change between calls; what moves them is visible only in the graph of the updates.", "anchors": ["aemcmc/conjugates.py", "aemcmc/gibbs.py:normal_horseshoe_finder", "aemcmc/gibbs.py:nbinom_logistic_finder", "aemcmc/gibbs.py:bern_logistic_finder"]}
{"id": "C61", "title": "A NUTS step leaves the conditional law of its variables invariant", "statement": "The NUTS step transforms the values of its variables to an unconstrained space, moves them with AeHMC's kernel and transforms the result back. If the kernel leaves its target invariant, where the target is the law of the model carried to the unconstrained space, the step leaves the conditional law of its variables, given all the others, invariant.", "quantifier": "every model graph, every assignment of variables to NUTS, every kernel, every density and every family of test functions", "why_tests_cant": "It equates integrals over the continuous values and over the generator states; a sample can only show a large error.", "anchors": ["aemcmc/nuts.py:step", "aemcmc/nuts.py:transform_forward", "aemcmc/nuts.py:transform_backward"]}
{"id": "C62", "title": "The sampler built for beta-binomial models leaves the posterior invariant", "statement": "When every variable of the model that is not observed is a beta prior of one binomial variable, construct_sampler returns a sampler whose single call, applied to values drawn from the posterior with generator states drawn from their laws, returns values drawn from the posterior.", "quantifier": "every model graph with any number of beta-binomial pairs, of any shape, whose parameters are constants, data or other variables of the model; every order in which the rewriters call the finders and the sets are iterated; all values, data and generator states", "why_tests_cant": "It is a statement about the stationary law of the returned graph for every model; a test runs one chain of one model and can only show a large error.", "anchors": ["aemcmc/basic.py:construct_sampler", "aemcmc/conjugates.py:local_beta_binomial_posterior", "aemcmc/rewriting.py:sampler_finder"]}
{"id": "C63", "title": "A sampler that mixes beta-binomial steps with NUTS leaves the posterior invariant", "statement": "When some variables of the model are beta priors of one binomial variable and no closed form is known for the others, the variables that get a closed-form step are exactly those beta priors, NUTS samples exactly the others, and a single call of the returned sampler, applied to values drawn from the posterior, returns values drawn from the posterior.", "quantifier": "every model graph with any number of beta-binomial pairs, of any shape, whose parameters are constants, data or other variables of the model; every order in which the rewriters call the finders and the sets are iterated; all values, data and generator states", "why_tests_cant": "It is a statement about the stationary law of the returned graph for every model; a test runs one chain of one model and can only show a large error.", "anchors": ["aemcmc/basic.py:construct_sampler", "aemcmc/conjugates.py:local_beta_binomial_posterior", "aemcmc/rewriting.py:sampler_finder", "aemcmc/nuts.py:construct_sampler"]}
{"id": "C64", "title": "Building another sampler does not disturb the earlier ones or the models", "statement": "After any number of further calls of construct_sampler, for the same model or other models in the same process, every sampler returned earlier still computes the same steps, updates and initial values from the same inputs as right after it was built; no variable of a model has changed; the placeholders of different samplers are different variables; and the models can be used again with the same guarantees.", "quantifier": "every heap of graphs, any number of models in it and of calls of construct_sampler with any observations, finders and NUTS settings, all inputs", "why_tests_cant": "Graphs are mutable and are rewritten in place with clone=False, so a later call can corrupt an earlier result only for particular sharing patterns; tests build one sampler per model.", "anchors": ["aemcmc/basic.py:construct_sampler", "aemcmc/rewriting.py:construct_ir_fgraph", "aemcmc/rewriting.py:expand_subsumptions"]}
{"id": "C65", "title": "construct_ir_fgraph(clone=False) rewrites the caller's own model and leaves it the same model", "statement": "With clone=False the outputs of the returned graph are the model's random variables themselves, each mapped to itself, and the observations are those given. The model's graph is rewritten in place: every variable, also one computed from the model elsewhere, keeps its value, the joint log-density is unchanged, and no node outside the model is touched.", "quantifier": "every model graph, whatever nodes the rewriter visits in whatever order, tensors of any rank and shape, any scalar functions, all values of random variables and data", "why_tests_cant": "In-place rewriting is wrong only where graphs share nodes in particular ways; tests use clone=True and compare single graphs.", "anchors": ["aemcmc/rewriting.py:construct_ir_fgraph", "aemcmc/rewriting.py:local_elemwise_dimshuffle_subsume"]}
{"id": "C66", "title": "ffbs_step works in double precision: rescaling by lower_prec_bound keeps it from underflowing", "statement": "In double-precision arithmetic a draw of ffbs_step for observations that are possible under the model does not end in NaN, whatever the length of the sequence and the order in which sums are taken, every sequence it returns is possible under the model, and it is returned with its posterior probability up to a small relative error.", "quantifier": "every number of states and observations, every weights, transition matrices and log-likelihoods, every lower_prec_bound, every order of summation", "why_tests_cant": "Underflow needs long or lopsided sequences; tests run a few observations of moderate likelihood and compare averages.", "anchors": ["aemcmc/ffbs.py:ffbs_step"]}
{"id": "C67", "title": "sample_CRT and the dispersion step work for dispersions that differ between observations", "statement": "With a vector h, entry i of sample_CRT(y, h) has the Chinese-restaurant-table law of y_i and h_i and no call fails; the dispersion step that is built for a gamma prior of any size draws a value of the shape of the dispersion, whatever the size of the counts.", "quantifier": "every number of observations, every counts, every positive dispersions, every shape of dispersion and counts", "why_tests_cant": "Tests use a scalar dispersion and a vector of counts; shapes that broadcast by accident give numbers that look like table counts.", "anchors": ["aemcmc/gibbs.py:sample_CRT", "aemcmc/gibbs.py:nbinom_dispersion_posterior", "aemcmc/gibbs.py:nbinom_logistic_finder"]}
{"id": "C68", "title": "ffbs_step draws from generators of its own and advances each of them", "statement": "In a function that computes the states returned by ffbs_step, compiled with the updates that ffbs_step returns, every generator is read by one draw or one scan only and is left in the state that follows it: successive calls do not repeat draws, and no two draws of a call share a generator state. Without the returned updates the generator of the backward scan is not advanced. The weights of both draws and the order of the states returned are those of forward filtering and backward sampling.", "quantifier": "every graph already built, every initial probabilities, transition matrices and log likelihood variables", "why_tests_cant": "Tests seed one generator and compile with the updates; repeated states of a generator give draws that look random one at a time.", "anchors": ["aemcmc/ffbs.py:ffbs_step"]}
{"id": "C69", "title": "sample_CRT draws from one generator of its own, and its graph computes the table counts", "statement": "sample_CRT makes one new generator. In a function that computes its result, compiled with the updates it returns, only the scan reads that generator and it is left in the state that follows the scan; without the returned updates the scan does not advance it. For each element of y the scan draws Bernoulli variables with the success probabilities of the Chinese restaurant process, the count is zero when the element is below one and one plus the number of successes otherwise, and the counts get the shape of y.", "quantifier": "every graph already built, every variables y and h, all values of y and h", "why_tests_cant": "Tests compile with the updates and look at a few draws; a shared or stale generator, or a probability off by one, gives plausible counts.", "anchors": ["aemcmc/gibbs.py:sample_CRT"]}
