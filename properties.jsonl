{"id": "C01", "title": "The network is a normalized distribution", "statement": "For discrete leaves whose probabilities sum to one, the sum of exp(einet(x)[c]) over every possible data point x is exactly 1, for every class head c.", "quantifier": "every accepted configuration (top-down with einsum, linsum or linsum2 layers, and bottom-up), every depth, width, number of repetitions, channels and classes, every finite parameter setting, every random structure", "why_tests_cant": "A test can only enumerate tiny domains for a few random parameter draws; the claim is about all architectures, all weights and exponentially many data points.", "anchors": ["simple_einet/einet.py:Einet.forward", "simple_einet/layers/einsum.py:EinsumLayer.forward", "simple_einet/layers/linsum.py:LinsumLayer.forward", "simple_einet/layers/linsum.py:LinsumLayer2.forward", "simple_einet/layers/sum.py:SumLayer.forward", "simple_einet/layers/mixing.py:MixingLayer.forward", "simple_einet/layers/factorized_leaf.py"]}
{"id": "C02", "title": "marginalized_scopes sums the features out", "statement": "einet(x, marginalized_scopes=S) equals the log of the sum of exp(einet(x')) over all x' that agree with x outside S. The result does not depend on the values x has inside S.", "quantifier": "every accepted configuration, every parameter setting, every x, every set S of feature indices", "why_tests_cant": "There are exponentially many subsets S and data points; floating-point spot checks cannot establish an identity for all of them.", "anchors": ["simple_einet/layers/distributions/abstract_leaf.py:AbstractLeaf._marginalize_input", "simple_einet/layers/distributions/abstract_leaf.py:AbstractLeaf.forward", "simple_einet/einet.py:Einet.forward"]}
{"id": "C03", "title": "NaN entries are summed out, per row and per channel", "statement": "When marginalized_scopes is None, einet(x) equals the log of the sum of exp(einet(x')) over all x' that fill the NaN entries of x. Different rows of a batch may have different NaN patterns.", "quantifier": "every accepted configuration, every parameter setting, every pattern of missing entries in every row", "why_tests_cant": "The number of missing-value patterns is exponential in rows times features.", "anchors": ["simple_einet/layers/distributions/abstract_leaf.py:AbstractLeaf.forward", "simple_einet/layers/distributions/abstract_leaf.py:AbstractLeaf._marginalize_input"]}
{"id": "C04", "title": "With every feature missing the log-likelihood is exactly zero", "statement": "If all entries of a row are NaN, or marginalized_scopes lists every feature, every class log-likelihood of that row is exactly log 1 = 0.", "quantifier": "every accepted configuration and every finite parameter setting, any leaf family", "why_tests_cant": "A test checks this up to float error for some parameters; exactness for all parameters and sizes needs a proof.", "anchors": ["simple_einet/einet.py:Einet.forward", "simple_einet/layers/distributions/abstract_leaf.py:AbstractLeaf._marginalize_input"]}
{"id": "C05", "title": "An accepted configuration never fails on well-shaped data", "statement": "If the constructor succeeds and x has shape [N, num_channels, num_features] (or [N, num_features] for one channel, or [N, num_channels, H, W]), then einet(x) raises nothing and returns a finite tensor of shape [N, num_classes].", "quantifier": "every accepted configuration with univariate leaves, every batch size, every finite parameter setting, every in-support input or missing entries", "why_tests_cant": "Shape agreement between layers depends on depth, odd feature counts and padding; tests cover a grid of sizes only.", "anchors": ["simple_einet/einet.py:Einet.forward", "simple_einet/einet.py:Einet._build_structure_top_down", "simple_einet/einet.py:Einet._build_structure_bottom_up"]}
{"id": "C06", "title": "Rows of a batch are evaluated independently", "statement": "Row n of einet(x) depends only on row n of x: evaluating a batch equals evaluating its rows separately, in any order.", "quantifier": "every configuration, every batch size, every pair of batches that agree on one row", "why_tests_cant": "Cross-row leakage through broadcasting or in-place writes would only show up for particular shapes and values.", "anchors": ["simple_einet/einet.py:Einet.forward"]}
{"id": "C07", "title": "Unconditional samples follow the model distribution", "statement": "For a single-class model, einet.sample(num_samples=N) returns N independent rows and each row x is returned with probability exp(einet(x)).", "quantifier": "every accepted configuration and parameter setting, every N, every tuple of rows, all outcomes of the random number generator", "why_tests_cant": "A statistical test only detects gross errors for one architecture; the law is a statement about all random outcomes.", "anchors": ["simple_einet/einet.py:Einet.sample", "simple_einet/abstract_layers.py:AbstractSumLayer.sample", "simple_einet/layers/einsum.py:EinsumLayer._sample_from_weights", "simple_einet/layers/linsum.py:LinsumLayer._sample_from_weights", "simple_einet/layers/factorized_leaf.py:FactorizedLeaf._index_leaf_samples", "simple_einet/layers/factorized_leaf.py:FactorizedLeafSimple._index_leaf_samples"]}
{"id": "C08", "title": "Class-conditional samples follow the chosen class head", "statement": "For a multi-class model, einet.sample(num_samples=N, class_index=c) returns N independent rows and each row x has probability exp(einet(x)[c]).", "quantifier": "every accepted configuration with num_classes > 1, every class c, every N, all random outcomes", "why_tests_cant": "A law over all random outcomes and all architectures cannot be established by sampling.", "anchors": ["simple_einet/einet.py:Einet.sample"]}
{"id": "C09", "title": "Conditional samples follow the Bayes conditional", "statement": "For a single-class model, einet.sample(evidence=e) completes each row e_n to x with probability exp(einet(x)) / exp(einet(e_n)) if x agrees with e_n on the observed entries, and with probability 0 otherwise. Rows are independent.", "quantifier": "every accepted configuration and parameter setting, every evidence batch and missing-value pattern (NaN or marginalized_scopes), all random outcomes", "why_tests_cant": "The conditional law involves every evidence pattern and every random path; a test sees a handful.", "anchors": ["simple_einet/einet.py:Einet.sample", "simple_einet/sampling_utils.py:sampling_context", "simple_einet/abstract_layers.py:AbstractSumLayer.sample", "simple_einet/layers/einsum.py:EinsumLayer._condition_weights_on_evidence", "simple_einet/layers/linsum.py:LinsumLayer._condition_weights_on_evidence", "simple_einet/layers/sum.py:SumLayer._condition_weights_on_evidence", "simple_einet/layers/mixing.py:MixingLayer._condition_weights_on_evidence"]}
{"id": "C10", "title": "Sampling and posterior agree on the class prior", "statement": "For a multi-class model, sample() without a class index draws the class uniformly, as posterior() assumes; sample(evidence=e) draws the class from posterior(e).", "quantifier": "every multi-class configuration and parameter setting, every evidence", "why_tests_cant": "A mismatch of class frequencies is a statement about the distribution over random outcomes.", "anchors": ["simple_einet/einet.py:Einet.sample", "simple_einet/einet.py:Einet._build_structure_top_down", "simple_einet/einet.py:posterior"]}
{"id": "C11", "title": "Observed evidence is returned unchanged", "statement": "sample(evidence=e) and mpe(evidence=e) return a tensor of the shape of e in which every non-missing entry equals that of e, and every missing entry is filled with a value from the support of the leaf; with marginalized_scopes=S exactly the entries in S are replaced. The caller's tensor is not modified.", "quantifier": "every configuration, every evidence batch and missing pattern, every sampling mode, all random outcomes", "why_tests_cant": "Every missing-value pattern and every random outcome must be covered.", "anchors": ["simple_einet/einet.py:Einet.sample", "simple_einet/einet.py:Einet.mpe"]}
{"id": "C12", "title": "A list of class indices yields one sample per index", "statement": "sample(class_index=[c_1, ..., c_k]) returns k rows and row i is a sample of class c_i.", "quantifier": "every multi-class configuration, every list of class indices", "why_tests_cant": "The outcome depends on the list length for every length.", "anchors": ["simple_einet/einet.py:Einet.sample", "simple_einet/abstract_layers.py:AbstractSumLayer._check_context_shapes"]}
{"id": "C13", "title": "posterior() is Bayes' rule with a uniform prior", "statement": "exp(posterior(x)) is non-negative, sums to one over classes, equals p(x|c) / sum_k p(x|k), ranks classes as the class log-likelihoods do, and does not change when the same constant is added to every class log-likelihood.", "quantifier": "every number of classes and every matrix of finite class log-likelihoods", "why_tests_cant": "An identity over all real inputs.", "anchors": ["simple_einet/einet.py:Einet.posterior", "simple_einet/einet.py:posterior"]}
{"id": "C14", "title": "Projected weights are a probability vector at every temperature", "statement": "logits_to_log_weights returns logs of positive numbers that sum to one along the chosen dimension, for every temperature > 0; it preserves the order of the logits and ignores a constant shift.", "quantifier": "every logit tensor, every dimension, every positive temperature", "why_tests_cant": "An identity over all real inputs and shapes.", "anchors": ["simple_einet/abstract_layers.py:logits_to_log_weights"]}
{"id": "C15", "title": "The log-einsum-exp and logsumexp tricks are exact", "statement": "The stabilized computation of an einsum layer and of logsumexp(tensors, mask) equals the plain log of the weighted sum of exponentials, whatever maximum is subtracted.", "quantifier": "every finite input and weight tensor", "why_tests_cant": "An identity over all real inputs.", "anchors": ["simple_einet/layers/einsum.py:logsumexp", "simple_einet/layers/einsum.py:EinsumLayer.forward"]}
{"id": "C16", "title": "The random feature grouping is a balanced partition", "statement": "For every repetition each input feature belongs to exactly one group, no group is empty and group sizes differ by at most one.", "quantifier": "all num_features >= num_features_out >= 1, every shuffle of the group sizes and every random permutation", "why_tests_cant": "Factorially many random outcomes.", "anchors": ["simple_einet/layers/factorized_leaf.py:FactorizedLeaf.__init__", "simple_einet/layers/factorized_leaf.py:FactorizedLeafSimple.__init__"]}
{"id": "C17", "title": "Single-repetition leaves sample each feature from the component the likelihood uses", "statement": "With num_repetitions = 1, the component index used to sample feature f is the one chosen for the group that the forward pass puts f in.", "quantifier": "all feature counts, group counts and random permutations", "why_tests_cant": "Factorially many permutations; a wrong routing still yields well-shaped, plausible samples.", "anchors": ["simple_einet/layers/factorized_leaf.py:FactorizedLeafSimple.forward", "simple_einet/layers/factorized_leaf.py:FactorizedLeafSimple._index_leaf_samples"]}
{"id": "C18", "title": "Multi-repetition leaves sample each feature from the component the likelihood uses", "statement": "With num_repetitions > 1, the component index used to sample feature f in repetition r is the one chosen for the group that the forward pass puts f in.", "quantifier": "all feature counts, group counts, repetitions and random permutations", "why_tests_cant": "Factorially many permutations; a wrong routing still yields well-shaped, plausible samples.", "anchors": ["simple_einet/layers/factorized_leaf.py:FactorizedLeaf.forward", "simple_einet/layers/factorized_leaf.py:FactorizedLeaf._index_leaf_samples"]}
{"id": "C19", "title": "Permutations are inverted correctly", "statement": "invert_permutation(p) is the two-sided inverse of p; in a bottom-up network the sampled index that reaches feature f is the one chosen at the position to which the forward pass moved f.", "quantifier": "every permutation of every length, every repetition", "why_tests_cant": "Factorially many permutations.", "anchors": ["simple_einet/utils.py:invert_permutation", "simple_einet/einet.py:Einet.forward", "simple_einet/einet.py:Einet.sample", "simple_einet/einet.py:Einet._build_structure_bottom_up"]}
{"id": "C20", "title": "A validated configuration can be constructed", "statement": "If EinetConfig.assert_valid accepts a configuration then Einet(config) succeeds and the sizes of consecutive layers fit together.", "quantifier": "every configuration accepted by assert_valid", "why_tests_cant": "Infinitely many configurations.", "anchors": ["simple_einet/einet.py:EinetConfig.assert_valid", "simple_einet/einet.py:Einet._build_structure_top_down", "simple_einet/einet.py:Einet._build_structure_bottom_up"]}
{"id": "C21", "title": "check_valid enforces the bounds it is given", "statement": "check_valid(v, type, lo, hi) returns v if v has the type and lo <= v < hi, and raises otherwise.", "quantifier": "every value and every pair of bounds", "why_tests_cant": "Infinitely many values and bounds, including the boundary 0.", "anchors": ["simple_einet/type_checks.py:check_valid", "simple_einet/type_checks.py:_check_bounds", "simple_einet/type_checks.py:_check_type"]}
{"id": "C22", "title": "The leaf cache returns what an uncached call would", "statement": "A call einet(x, cache_index=i) returns the same as einet(x), for any earlier sequence of cached calls, cache resets and parameter updates.", "quantifier": "every history of forward, reset_cache and parameter-update calls", "why_tests_cant": "The property concerns all call histories.", "anchors": ["simple_einet/einet.py:Einet.forward", "simple_einet/einet.py:Einet.reset_cache"]}
{"id": "C23", "title": "A sampling call leaves no trace in the model", "statement": "After sample() or mpe() ends, normally or with an exception, later calls behave as if it had never been made: unconditional samples are not conditioned on old evidence.", "quantifier": "every history of forward, sample and mpe calls, and every point at which a call may raise", "why_tests_cant": "All histories and all crash points.", "anchors": ["simple_einet/sampling_utils.py:sampling_context", "simple_einet/abstract_layers.py:AbstractSumLayer.sample", "simple_einet/abstract_layers.py:AbstractSumLayer._enable_input_cache", "simple_einet/abstract_layers.py:AbstractSumLayer._disable_input_cache"]}
{"id": "C24", "title": "A seeded sampling call is reproducible and leaves the global generator alone", "statement": "sample(seed=s) returns the same result whatever the state of the global random number generator, and leaves that state as it was.", "quantifier": "every generator state, every seed, every history, and every point at which the call may raise", "why_tests_cant": "All generator states and crash points.", "anchors": ["simple_einet/sampling_utils.py:sampling_context", "simple_einet/einet.py:Einet.sample", "simple_einet/mixture.py:Mixture.sample"]}
{"id": "C25", "title": "Differentiable routing selects what index routing selects", "statement": "Selecting with one-hot encoded indices gives the value that gathering with the plain index gives, in every layer and leaf; the straight-through sample is exactly one-hot.", "quantifier": "every tensor, every index, every layer type", "why_tests_cant": "All indices and tensors.", "anchors": ["simple_einet/sampling_utils.py:index_one_hot", "simple_einet/sampling_utils.py:SIMPLE", "simple_einet/sampling_utils.py:sample_categorical_differentiably"]}
{"id": "C26", "title": "Einsum layers route the sampled pair to the right children", "statement": "The flat index k sampled at output feature d is decoded to the pair (i, j) that the forward pass weighs with entry k, and i goes to input feature 2d, j to input feature 2d+1.", "quantifier": "all numbers of channels, features, samples and all sampled indices", "why_tests_cant": "All sizes and indices.", "anchors": ["simple_einet/layers/einsum.py:EinsumLayer.__init__", "simple_einet/layers/einsum.py:EinsumLayer._sample_from_weights"]}
{"id": "C27", "title": "Odd feature counts are padded neutrally", "statement": "A linsum layer with an odd number of inputs gives the last output feature a single child and returns exactly one index per input feature when sampling.", "quantifier": "all feature counts, channel counts and inputs", "why_tests_cant": "All sizes.", "anchors": ["simple_einet/layers/linsum.py:LinsumLayer", "simple_einet/layers/linsum.py:LinsumLayer2"]}
{"id": "C28", "title": "Dropout never removes all children of a sum node", "statement": "With dropout in training mode, after the resampling loop every sum node keeps at least one child, so no output becomes -inf or NaN on finite inputs.", "quantifier": "every shape and every sequence of Bernoulli outcomes for which the loop ends", "why_tests_cant": "All random outcomes.", "anchors": ["simple_einet/layers/linsum.py:LinsumLayer.forward", "simple_einet/layers/linsum.py:LinsumLayer2.forward", "simple_einet/layers/sum.py:SumLayer.forward", "simple_einet/layers/mixing.py:MixingLayer.forward", "simple_einet/layers/einsum.py:EinsumLayer.__init__"]}
{"id": "C29", "title": "mpe() returns a most probable completion", "statement": "mpe(evidence=e) returns a completion of e whose likelihood is at least that of every other completion. It is deterministic.", "quantifier": "every configuration, parameter setting and evidence", "why_tests_cant": "The maximum ranges over exponentially many completions.", "anchors": ["simple_einet/einet.py:Einet.mpe", "simple_einet/einet.py:Einet.sample"]}
{"id": "C30", "title": "Leaf modes maximize the leaf probability", "statement": "The value a leaf returns for MPE is in its support and has maximal probability: Bernoulli, Binomial, Categorical and Normal.", "quantifier": "every parameter value", "why_tests_cant": "All real parameters and all support values.", "anchors": ["simple_einet/layers/distributions/abstract_leaf.py:dist_mode", "simple_einet/layers/distributions/normal.py:CustomNormal.mpe"]}
{"id": "C31", "title": "Mixture.forward returns results in input order", "statement": "Row j of mixture(x) is the log-likelihood of x_j under the component its cluster selects, for any cluster assignment; marginalized_scope is marginalized.", "quantifier": "every batch, every cluster assignment, every number of components", "why_tests_cant": "All assignments of rows to clusters.", "anchors": ["simple_einet/mixture.py:Mixture.forward", "simple_einet/mixture.py:Mixture._separate_data_by_cluster"]}
{"id": "C32", "title": "Mixture.sample returns the requested independent samples", "statement": "sample(num_samples=n) returns n rows and row j comes from the j-th drawn component; with evidence, row j completes evidence row j.", "quantifier": "every n, every sequence of drawn components, every evidence batch", "why_tests_cant": "All sequences of random components.", "anchors": ["simple_einet/mixture.py:Mixture.sample", "simple_einet/mixture.py:Mixture.mpe"]}
{"id": "C33", "title": "MultiDistributionLayer applies each distribution to its own features", "statement": "Output feature f is computed by the distribution whose scope lists f from input feature f; samples and parameters are returned in feature order.", "quantifier": "every assignment of features to distributions, in any order", "why_tests_cant": "Factorially many scope orders.", "anchors": ["simple_einet/layers/distributions/multidistribution.py:MultiDistributionLayer"]}
{"id": "C34", "title": "Multivariate leaves keep the features of one group together", "statement": "With leaf cardinality k, features g*k ... g*k+k-1 form group g in the likelihood, in the samples and in the selection of sampled components; any num_features works.", "quantifier": "all feature counts, cardinalities, leaves, repetitions", "why_tests_cant": "All sizes and indices.", "anchors": ["simple_einet/layers/distributions/multivariate_normal.py:CustomMultivariateNormalDist", "simple_einet/layers/factorized_leaf.py:FactorizedLeaf._index_leaf_samples"]}
{"id": "C35", "title": "The piecewise linear leaf is a density with the stated mode", "statement": "The interpolated function is non-negative, passes through its knots, integrates to one after initialization, and its MPE value maximizes it.", "quantifier": "every strictly increasing knot sequence and non-negative heights, every query point", "why_tests_cant": "All real knots and queries.", "anchors": ["simple_einet/layers/distributions/piecewise_linear.py:interp", "simple_einet/layers/distributions/piecewise_linear.py:PiecewiseLinear.initialize", "simple_einet/layers/distributions/piecewise_linear.py:PiecewiseLinearDist"]}
{"id": "C36", "title": "Piecewise linear samples lie in the domain", "statement": "Samples of a continuous piecewise linear leaf lie between its first and last knot; samples of a discrete one are values of its domain.", "quantifier": "every knot sequence and every random number", "why_tests_cant": "All random outcomes.", "anchors": ["simple_einet/layers/distributions/piecewise_linear.py:PiecewiseLinearDist.sample"]}
{"id": "C37", "title": "RatNormal parameters stay within the configured bounds", "statement": "sigma lies strictly between min_sigma and max_sigma and is positive; if min_mean and max_mean are given the mean lies strictly between them.", "quantifier": "every parameter value and every accepted bound configuration", "why_tests_cant": "All real parameters and bounds, including a bound of 0.", "anchors": ["simple_einet/layers/distributions/normal.py:RatNormal"]}
{"id": "C38", "title": "Preprocessed pixels are in the support of the configured leaf", "statement": "For pixels in [0,1], preprocessing to n bits yields values in the support of the leaf that get_distribution builds for the same n.", "quantifier": "every pixel value, every n_bits from 1 to 8", "why_tests_cant": "All real pixel values, including the boundary 1.", "anchors": ["simple_einet/utils.py:reduce_bits", "simple_einet/utils.py:preprocess", "simple_einet/dist.py:get_distribution"]}
{"id": "C39", "title": "TrainingSampler visits every index equally often", "statement": "In the infinite index stream every aligned block of `size` indices is a permutation of range(size) (or range(size) itself without shuffling).", "quantifier": "every size, every prefix of the infinite stream, every sequence of random permutations", "why_tests_cant": "Infinite executions.", "anchors": ["simple_einet/data.py:TrainingSampler"]}
{"id": "C40", "title": "ConvPc is a normalized distribution and its layer shapes fit", "statement": "For accepted configurations and data shapes the forward pass returns one finite log-likelihood per row and the probabilities of all images sum to one.", "quantifier": "every list of channels, kernel size, structure, order and matching data shape, every parameter setting", "why_tests_cant": "All architectures and exponentially many images.", "anchors": ["simple_einet/conv_pc.py:ConvPc", "simple_einet/conv_pc.py:SumLayer", "simple_einet/conv_pc.py:ProdConv", "simple_einet/conv_pc.py:SumProdLayer"]}
{"id": "C41", "title": "ConvPc samples conditionally on evidence", "statement": "ConvPc.sample(evidence=e) completes e, and afterwards the model is as before.", "quantifier": "every configuration, every evidence", "why_tests_cant": "All histories.", "anchors": ["simple_einet/conv_pc.py:ConvPc.sample", "simple_einet/conv_pc.py:sampling_context"]}
{"id": "C42", "title": "Product layers multiply disjoint groups of neighbours", "statement": "ProductLayer maps input feature i to output feature i // cardinality, each input is used exactly once, padding is neutral, and sampling hands each input the index of its product node; likewise CrossProductLayer for pairs.", "quantifier": "all feature counts and cardinalities", "why_tests_cant": "All sizes.", "anchors": ["simple_einet/layers/product.py:ProductLayer", "simple_einet/layers/product.py:CrossProductLayer", "simple_einet/layers/product.py:RootProductLayer"]}
{"id": "C43", "title": "init_einet_stats sets leaf means to data means", "statement": "After init_einet_stats the leaf means are the per-feature means of the data set, and the logarithm of the variance is always defined.", "quantifier": "every data set and every split into batches", "why_tests_cant": "All data sets and batch splits.", "anchors": ["simple_einet/sampling_utils.py:init_einet_stats"]}
{"id": "C44", "title": "Automatic histogram bins cover the data", "statement": "The bin edges are increasing, the first is at most every data value in range and the last at least every one, and there is at least one bin.", "quantifier": "every data vector and range", "why_tests_cant": "All real data.", "anchors": ["simple_einet/histogram.py:_get_bin_edges_torch", "simple_einet/histogram.py:_get_outer_edges_torch"]}
{"id": "C45", "title": "Train/validation splits use every example", "statement": "The split lengths computed for a data set of N examples are non-negative and sum to N.", "quantifier": "every N", "why_tests_cant": "Rounding depends on N for every N.", "anchors": ["simple_einet/data.py:get_datasets"]}
{"id": "C46", "title": "return_leaf_params returns the parameters of the selected leaves", "statement": "sample(return_leaf_params=True) returns for each sample, channel and feature the parameters of the leaf component from which that sample would be drawn.", "quantifier": "every configuration, every sampled path", "why_tests_cant": "All sampled paths.", "anchors": ["simple_einet/layers/factorized_leaf.py:FactorizedLeaf._index_leaf_params", "simple_einet/layers/factorized_leaf.py:FactorizedLeafSimple._index_leaf_params", "simple_einet/layers/distributions/abstract_leaf.py:dist_sample"]}
{"id": "C47", "title": "Leaf families are normalized distributions", "statement": "For every parameter value the Bernoulli, Binomial and Categorical leaf log-probabilities are finite on the support and their exponentials sum to one.", "quantifier": "every parameter value, every total_count and num_bins", "why_tests_cant": "All real parameters.", "anchors": ["simple_einet/layers/distributions/bernoulli.py:Bernoulli", "simple_einet/layers/distributions/binomial.py:Binomial", "simple_einet/layers/distributions/categorical.py:Categorical"]}
{"id": "C48", "title": "The likelihood is monotone in every leaf likelihood", "statement": "Raising the likelihood of any leaf, all else equal, never lowers the likelihood of the network; marginalizing more features never lowers it.", "quantifier": "every configuration, parameters and inputs", "why_tests_cant": "All inputs.", "anchors": ["simple_einet/einet.py:Einet.forward"]}
{"id": "C49", "title": "Piecewise linear samples follow the density", "statement": "The samples of a piecewise linear leaf are distributed according to the density that its log_prob evaluates; a discrete leaf draws each value with its probability.", "quantifier": "every knot sequence, every data set, every random number", "why_tests_cant": "A distribution over all random numbers.", "anchors": ["simple_einet/layers/distributions/piecewise_linear.py:PiecewiseLinearDist.sample", "simple_einet/layers/distributions/piecewise_linear.py:PiecewiseLinearDist._compute_cdf"]}
{"id": "C50", "title": "Initialization records the cluster frequencies", "statement": "PiecewiseLinear.initialize succeeds for every cluster assignment and stores for each leaf the fraction of the data in its cluster as mixture weight.", "quantifier": "every number of leaves, every assignment of rows to clusters", "why_tests_cant": "All assignments.", "anchors": ["simple_einet/layers/distributions/piecewise_linear.py:PiecewiseLinear.initialize"]}
{"id": "C51", "title": "ConvPc free samples follow the model", "statement": "ConvPc.sample(num_samples=n) returns n independent images distributed as exp(forward); with temperature_sums=T as the model whose logits are divided by T; with is_mpe every pixel is the mode of one of its leaves.", "quantifier": "every configuration whose sizes fit, every parameter setting, every n and T", "why_tests_cant": "Equality of distributions over all images.", "anchors": ["simple_einet/conv_pc.py:ConvPc.sample", "simple_einet/conv_pc.py:SumLayer.sample", "simple_einet/conv_pc.py:ProdConv.sample", "simple_einet/sampling_utils.py:index_one_hot"]}
{"id": "C52", "title": "Networks over continuous leaves are normalized densities", "statement": "If every leaf component is a density of total mass one (with respect to any integral, possibly different per channel and feature), then for every class exp(forward(x)) integrates to one over all entries, and for a partially observed x it equals the iterated integral of the joint likelihood over the missing entries, in any order.  Normal leaves with the Riemann integral over the real line are an instance for every mean and every log-variance.", "quantifier": "every configuration, structure and parameter setting, every leaf family with total mass one, every pattern of missing entries and marginalized scopes, every order of integration", "why_tests_cant": "An integral over a real-valued space of any dimension cannot be enumerated; quadrature only approximates it.", "anchors": ["simple_einet/einet.py:Einet.forward", "simple_einet/layers/distributions/normal.py:Normal", "simple_einet/layers/distributions/abstract_leaf.py:AbstractLeaf.forward"]}
{"id": "C53", "title": "Samples of networks over continuous leaves follow the density", "statement": "The expectation of every product of non-negative test functions (such as interval indicators) under sample(num_samples=n), sample(class_index=y) and sample(evidence=e) is the integral of the test against the density, the class density, the prior mixture of class densities, or the conditional density given the evidence.  For Normal leaves: the probability that the samples lie in given boxes is the integral of exp(forward) over the boxes.", "quantifier": "every configuration, structure, parameter setting, n, class, evidence and family of test functions", "why_tests_cant": "Equality of distributions on a continuous space.", "anchors": ["simple_einet/einet.py:Einet.sample", "simple_einet/sampling_utils.py:sampling_context", "simple_einet/layers/distributions/abstract_leaf.py:dist_sample"]}
{"id": "C54", "title": "Samples of a mixture follow the weighted components", "statement": "Mixture.sample(num_samples=n) returns n independent rows, each distributed as the sum over the components of weight times component likelihood.  sample(num_samples_per_cluster=m) returns m independent rows of every component, and sample(evidence=e) completes row n from the conditional law of the component that row n is assigned to.", "quantifier": "every mixture, parameter setting, weights, n, m, evidence and completion", "why_tests_cant": "Equality of joint distributions after a grouping and reordering step whose effect depends on the random cluster draw.", "anchors": ["simple_einet/mixture.py:Mixture.sample"]}
{"id": "C55", "title": "Temperatures sample from the tempered network", "statement": "sample(temperature_sums=Ts, temperature_leaves=Tl) draws from the network whose sum logits are divided by Ts and whose leaf distributions are tempered: Categorical leaves take probabilities proportional to p^(1/Tl), Normal leaves take variance Tl * sigma^2.  With evidence, the components are chosen by the leaves as they are and only the missing entries are drawn from the tempered leaves, and the result is the conditional distribution of the network with divided logits.", "quantifier": "every accepted network, number of classes, temperatures, evidence and sample", "why_tests_cant": "Equality of distributions for a continuum of temperatures.", "anchors": ["simple_einet/einet.py:Einet.sample", "simple_einet/layers/distributions/abstract_leaf.py:dist_sample", "simple_einet/abstract_layers.py:logits_to_log_weights"]}
{"id": "C56", "title": "Gumbel-max draws follow the softmax", "statement": "The one-hot rows returned by SIMPLE(log_weights=w, is_mpe=False) are independent across rows, and each row selects index k with a probability that differs from softmax(w)_k by at most (K + 2) * 1e-20, the price of the offsets inside sample_gumbel.", "quantifier": "every finite tensor of log weights of any shape (N, D, K), and every combination of selected indices", "why_tests_cant": "A volume of a set of noise tensors; sampling only estimates it, and far too coarsely to see an offset of 1e-20.", "anchors": ["simple_einet/sampling_utils.py:SIMPLE", "simple_einet/sampling_utils.py:sample_gumbel"]}
{"id": "C57", "title": "Differentiable sampling follows the network", "statement": "einet.sample(is_differentiable=True) draws from the same distribution as einet.sample(is_differentiable=False): averaged over the uniform numbers that torch.rand supplies and over the leaf draws, every bounded function of the samples has the same expectation up to a bias that is the sum over all categorical choices of K (K + 2) * 1e-20.  So samples follow the likelihood of the network, and samples given evidence follow the conditional likelihood.", "quantifier": "every accepted network, any number of samples, any evidence with any missing entries, every temperature other than zero, every bounded function of the sample tensor", "why_tests_cant": "An average over all noise tensors of all layers at once, with different code (one-hot products instead of gathers) on the two sides; tests compare a few histograms.", "anchors": ["simple_einet/einet.py:Einet.sample", "simple_einet/sampling_utils.py:SIMPLE", "simple_einet/sampling_utils.py:index_one_hot", "simple_einet/layers/sum.py:SumLayer.sample", "simple_einet/layers/einsum.py:EinsumLayer.sample", "simple_einet/layers/linsum.py:LinsumLayer.sample"]}
{"id": "C58", "title": "Multivariate leaves are Gaussian densities", "statement": "For every value of the parameters, MultivariateNormal builds a valid Cholesky factor; its log_prob is the Gaussian log-density with that mean and covariance L L^T, of total mass one with the mean as its only mode; loc + L eps follows it.  A top-down network over such leaves is a density of the features, and marginalized_scopes integrates out the groups it touches.", "quantifier": "all parameter values, cardinalities, group counts, channels, classes, complete data and scope tensors", "why_tests_cant": "Integrals over real vectors of any dimension for all real parameters.", "anchors": ["simple_einet/layers/distributions/multivariate_normal.py:MultivariateNormal", "simple_einet/layers/distributions/multivariate_normal.py:MultivariateNormal.log_prob", "simple_einet/layers/distributions/multivariate_normal.py:MultivariateNormal.scale_tril", "simple_einet/einet.py:Einet.forward"]}
{"id": "C59", "title": "Mixtures assign data to the nearest centroid", "statement": "After Mixture.initialize there is one weight per component, the weights are the relative frequencies of the clusters and sum to one, and every row is handled by the component whose centroid is nearest over the entries that are observed: missing entries and marginalized scopes are left out of the comparison.  Evidence is completed according to the mixture distribution given the observed entries.", "quantifier": "every data set, dataloader, clustering, centroids, batch with missing entries or marginalized scopes, any number of channels and components", "why_tests_cant": "Which component answers depends on all entries and centroids; wrong assignments still give plausible numbers.", "anchors": ["simple_einet/mixture.py:Mixture.initialize", "simple_einet/mixture.py:Mixture._predict_cluster", "simple_einet/mixture.py:Mixture._separate_data_by_cluster", "simple_einet/mixture.py:Mixture.sample"]}
{"id": "C60", "title": "The mixture likelihood is a distribution", "statement": "exp(mixture(x)), summed over all data points, is one, and it equals the probability that Mixture.sample(num_samples=1) returns x.", "quantifier": "every initialized mixture over discrete leaves, every data point and class", "why_tests_cant": "A sum over exponentially many data points.", "anchors": ["simple_einet/mixture.py:Mixture.forward", "simple_einet/mixture.py:Mixture.sample"]}
{"id": "C61", "title": "Generative training minimizes the negative log-likelihood", "statement": "log_likelihoods(einet(x)) is the log-density of each row under equal class priors, and with targets the log-likelihood of the row's class.  The generative losses of main.py and SpnGenerative are the mean negative log-density of the batch; whatever distribution the data follow, the expected loss is smallest, and equal to its entropy, exactly for a network whose density is that distribution.", "quantifier": "every accepted network, number of classes, batch with missing entries, targets and data distribution", "why_tests_cant": "An inequality over all data distributions and parameters; a loss that is off by a class-dependent term still decreases in training.", "anchors": ["main.py:log_likelihoods", "main.py:train", "models_pl.py:SpnGenerative.negative_log_likelihood"]}
{"id": "C62", "title": "Discriminative training minimizes the cross entropy of the posterior", "statement": "The loss of SpnDiscriminative, and of main.py with classification=True, is the mean of -log p(label | x): positive, and in expectation smallest exactly if the posterior equals the class frequencies.  The accuracy is the share of rows whose label is the most likely class; a loss below ln(2)/N leaves no mistake.  Labels that are not classes raise.", "quantifier": "every accepted network with several classes, batch, labels and class frequencies", "why_tests_cant": "An inequality over all class frequencies; the wrong conditional still trains.", "anchors": ["models_pl.py:SpnDiscriminative._get_cross_entropy_and_accuracy", "main.py:train", "simple_einet/einet.py:Einet.posterior"]}
{"id": "C63", "title": "calc_bpd is a code length in bits per pixel", "statement": "calc_bpd(log_p, shape, has_gauss_dist, n_bins) is the mean of -log2 P(image) / pixels for discrete leaves, and for Gaussian leaves on dequantized data its expectation over the noise is an upper bound for -log2 of the probability of the image's bin per pixel.  SpnGenerative.preprocess maps pixels into the support of the leaves.", "quantifier": "every accepted network, batch, number of bins and bits, and dequantization noise", "why_tests_cant": "An inequality between an expected logarithm and the logarithm of an integral.", "anchors": ["simple_einet/utils.py:calc_bpd", "models_pl.py:LitModel.preprocess"]}
{"id": "C64", "title": "Samples always follow a network with the learned parameters", "statement": "In every configuration the rows that Einet.sample draws without evidence are independent and follow one fixed normalized network whose sizes, leaves, sum layers, mixing layer and root layer are those of the sampled network; only the assignment of features to the groups of the input layer may differ, and it differs only where forward and sample disagree (C17, C18).  With one repetition it is the network that the constructor returns for another random permutation.", "quantifier": "every accepted network and configuration, number of samples, class argument, temperature; discrete leaves and leaves with densities", "why_tests_cant": "Which distribution the samples follow is a statement about all data points at once; where it is not the likelihood of the network, tests against the likelihood can only fail without saying what is drawn.", "anchors": ["simple_einet/einet.py:Einet.sample", "simple_einet/layers/factorized_leaf.py:FactorizedLeaf.sample", "simple_einet/layers/factorized_leaf.py:FactorizedLeafSimple.sample"]}
{"id": "C65", "title": "RatNormal leaves are Gaussians with bounded parameters", "statement": "A RatNormal leaf layer that the constructor accepts is a Normal layer whose standard deviations lie strictly between min_sigma and max_sigma, and whose means lie between min_mean and max_mean where they are given.  Networks over it integrate to one, samples drawn with standard normal noise follow the density at every temperature, and the parameters it reports are those of the density.", "quantifier": "every accepted combination of bounds, all parameters, inputs, temperatures and networks", "why_tests_cant": "Integrals over all real inputs for all real parameters.", "anchors": ["simple_einet/layers/distributions/normal.py:RatNormal", "simple_einet/layers/distributions/normal.py:RatNormal._project_params", "simple_einet/layers/distributions/normal.py:CustomNormal.sample", "simple_einet/layers/distributions/normal.py:CustomNormal.get_params"]}
{"id": "C66", "title": "PiecewiseLinear leaves are frequency tables with Laplace smoothing", "statement": "After initialize on a discrete domain 0..B-1 every component assigns to a value v the probability (count(v) + alpha) / (n + B alpha) of its cluster's data (uniform without data), draws values with exactly these probabilities, and returns the most frequent value as mode.  A network over such leaves is a probability distribution and sample follows it; without smoothing (alpha = 0) both hold up to the floor exp(-300) for unseen values.", "quantifier": "every domain size, alpha >= 0, data in the domain, clustering, accepted network, number of samples and class argument", "why_tests_cant": "Sums over exponentially many data points, and a floor of e^-300 that no test tolerance can see.", "anchors": ["simple_einet/layers/distributions/piecewise_linear.py:PiecewiseLinear.initialize", "simple_einet/layers/distributions/piecewise_linear.py:PiecewiseLinearDist.log_prob", "simple_einet/layers/distributions/piecewise_linear.py:PiecewiseLinearDist.sample", "simple_einet/layers/distributions/piecewise_linear.py:PiecewiseLinearDist.mpe"]}
{"id": "C67", "title": "The forward pass is numerically stable", "statement": "In floating-point arithmetic with precision t, einet(x) returns for every row and class the exact log-likelihood up to an error K t, where K depends on the network and on the size of the leaf log-probabilities, not on the row, on missing entries or on the order of summation.  In particular no intermediate sum underflows to zero however small the likelihood is, so the result is never -inf or nan.", "quantifier": "every accepted network, all data, missing entries, and all arithmetics with the stated accuracy below a threshold", "why_tests_cant": "All rounding behaviours and likelihoods far below the smallest floating-point number.", "anchors": ["simple_einet/layers/einsum.py:EinsumLayer.forward", "simple_einet/layers/linsum.py:LinsumLayer.forward", "simple_einet/layers/linsum.py:LinsumLayer2.forward", "simple_einet/layers/sum.py:SumLayer.forward", "simple_einet/layers/mixing.py:MixingLayer.forward", "simple_einet/einet.py:Einet.forward"]}
{"id": "C68", "title": "Differentiable samples of Binomial leaves", "statement": "With is_differentiable=True every entry drawn from a Binomial leaf is a number between 0 and total_count, given evidence is kept, the draws follow the Binomial distribution of the leaf, and the samples can be scored by the same network.", "quantifier": "every accepted network over Binomial leaves, all parameters, all noise, with and without evidence, in every mode", "why_tests_cant": "All noise values and networks; the law of a draw is a statement about probabilities, and a test of a few samples cannot tell a rounded from a real value that happens to be clipped.", "anchors": ["simple_einet/layers/distributions/binomial.py:DifferentiableBinomial.sample", "simple_einet/layers/distributions/binomial.py:DifferentiableBinomial.log_prob", "simple_einet/layers/distributions/binomial.py:Binomial._get_base_distribution", "simple_einet/einet.py:Einet.sample"]}
{"id": "C69", "title": "Samples can be completed in steps", "statement": "Completing evidence and then drawing some of the completed features again (sample(evidence=completed, marginalized_scopes=S)) has the distribution of completing once, so the order and grouping in which missing features are drawn does not matter.  In particular, drawing any features of unconditional samples again leaves their distribution unchanged.", "quantifier": "every accepted network, evidence, set of features that were not observed, batch size and sample", "why_tests_cant": "Equality of the distributions of one and of two random calls.", "anchors": ["simple_einet/einet.py:Einet.sample", "simple_einet/sampling_utils.py:sampling_context"]}
{"id": "C70", "title": "A saved model is restored by loading it", "statement": "model.load_state_dict(other.state_dict()) makes a model of the same configuration behave as the saved one: the same log-likelihoods and the same samples, whatever weights, permutations and group sizes both were built with.  Loading fails with RuntimeError exactly when keys or shapes differ.  The same holds for an initialized Mixture.", "quantifier": "every configuration, both random constructions, all parameter values of the saved model, every file", "why_tests_cant": "All parameter values and pairs of random constructions; a test compares one pair.", "anchors": ["simple_einet/einet.py:Einet.__init__", "simple_einet/layers/factorized_leaf.py:FactorizedLeaf.__init__", "simple_einet/mixture.py:Mixture.__init__", "simple_einet/mixture.py:Mixture.initialize", "main.py"]}
{"id": "C71", "title": "Small changes of the parameters change the results little", "statement": "If two models of one configuration and structure have logits that differ by at most delta and leaf log-probabilities that differ by at most eps, then every class log-likelihood differs by at most 2 delta n + eps m, where n is the number of sum nodes of one repetition (2^D - 1 for a top-down network of depth D, plus one for mixing) and m the number of observed entries.  Posteriors differ by at most twice that, a class predicted with a margin of twice that stays predicted, and where sampling follows the likelihood the probability of every batch of samples changes by at most the corresponding factor.", "quantifier": "every configuration, pair of parameter settings, batch, missing entries, marginalized scopes and class", "why_tests_cant": "All pairs of parameter settings; the bound holds for every input at once, however unlikely.", "anchors": ["simple_einet/einet.py:Einet.forward", "simple_einet/einet.py:Einet.posterior", "simple_einet/layers/einsum.py:EinsumLayer.forward", "simple_einet/layers/linsum.py:LinsumLayer.forward", "simple_einet/layers/linsum.py:LinsumLayer2.forward", "simple_einet/layers/sum.py:SumLayer.forward", "simple_einet/layers/mixing.py:MixingLayer.forward"]}
{"id": "C72", "title": "mpe completes every row on its own", "statement": "The completion of a row by mpe(evidence) depends on what is observed in that row only: not on the other rows, the number of rows, the layout of the batch, or whether missing values are marked by NaN or by marginalized_scopes.  Without evidence, sample(num_samples=N, is_mpe=True) returns N copies of one row, and with a list of classes row n is the row of class number n.  Mixture.mpe(evidence) completes every row as the component of its cluster completes that row alone; Mixture.mpe() returns the row of the first component of largest weight.", "quantifier": "every accepted configuration, weights, evidence, number of rows, class and mixture", "why_tests_cant": "All pairs of batches that share a row; a test fixes a few batches.", "anchors": ["simple_einet/einet.py:Einet.mpe", "simple_einet/einet.py:Einet.sample", "simple_einet/mixture.py:Mixture.mpe", "simple_einet/mixture.py:Mixture.sample"]}
{"id": "C73", "title": "Losses are differentiable with a bounded gradient", "statement": "Class log-likelihoods of complete and of partial rows are differentiable in all logits and in the leaf log-probabilities, and one gradient gives the derivative along every curve of parameters.  Its logit coefficients lie between -1 and 1, add up to zero at every sum node, and their absolute values add up to at most twice the number of sum nodes of one repetition.  Its leaf coefficients are not negative and add up to one over the components of every variable; missing variables contribute nothing.  Hence the generative and the classification loss of main.py and the loss of models_pl.py are differentiable, and their slopes are bounded for all batches at once.", "quantifier": "every accepted configuration, weights, batch, missing entries, marginalized scopes, class and curve of parameters", "why_tests_cant": "A limit over all small parameter changes, in every direction.", "anchors": ["simple_einet/einet.py:Einet.forward", "simple_einet/layers/einsum.py:EinsumLayer.forward", "simple_einet/layers/linsum.py:LinsumLayer.forward", "simple_einet/layers/linsum.py:LinsumLayer2.forward", "simple_einet/layers/sum.py:SumLayer.forward", "simple_einet/layers/mixing.py:MixingLayer.forward", "main.py:train", "models_pl.py:SpnGenerative.training_step"]}
{"id": "C74", "title": "Every class is a mixture of fully factorized distributions", "statement": "For every class there are finitely many components, each with a positive weight, one repetition and one leaf per feature, whose weights add up to one, such that the likelihood of every complete or partial row is the weighted sum of the products of the components' leaf densities.  Hence a log-likelihood lies between the sums of the smallest and of the largest leaf log-densities of the observed entries, and with one leaf per feature and one repetition it is the sum of the leaf log-densities whatever the weights are.", "quantifier": "every accepted configuration, weights, class, batch, missing entries and marginalized scopes", "why_tests_cant": "One set of components serves all inputs; a test evaluates some inputs.", "anchors": ["simple_einet/einet.py:Einet.forward", "simple_einet/layers/einsum.py:EinsumLayer.forward", "simple_einet/layers/linsum.py:LinsumLayer.forward", "simple_einet/layers/linsum.py:LinsumLayer2.forward", "simple_einet/layers/sum.py:SumLayer.forward", "simple_einet/layers/mixing.py:MixingLayer.forward", "simple_einet/layers/factorized_leaf.py:FactorizedLeaf.forward"]}
{"id": "C75", "title": "A convolutional circuit over continuous leaves is a density that sampling follows", "statement": "With leaves whose components have total mass one, the likelihoods of a ConvPc integrate to one over all images, the likelihood of an image with missing pixels is the integral over these pixels in any order, and sample(num_samples=N) returns independent images from that density.  In particular with Normal leaves: the probability that every pixel of a sampled image lies in its interval is the integral of the likelihood over that box.", "quantifier": "every accepted configuration with fitting sizes, weights, leaves, batch of images, set of missing pixels, number of samples and product of test functions", "why_tests_cant": "An integral over all images and a distribution over all samples.", "anchors": ["simple_einet/conv_pc.py:ConvPc.forward", "simple_einet/conv_pc.py:ConvPc.sample", "simple_einet/conv_pc.py:SumLayer.forward", "simple_einet/conv_pc.py:ProdConv.forward", "simple_einet/layers/distributions/normal.py:Normal"]}
{"id": "C76", "title": "A convolutional circuit is a mixture of products of pixel densities", "statement": "There are finitely many components, each with a positive weight and one leaf per pixel position shared by the channels, whose weights add up to one, such that the likelihood of every complete or partial image is the weighted sum of the products of the components' leaf densities.  Hence a log-likelihood lies between the sums of the smallest and of the largest leaf log-densities of the observed pixels.", "quantifier": "every accepted configuration with fitting sizes, weights, leaves, batch and missing pixels", "why_tests_cant": "One set of components serves all images.", "anchors": ["simple_einet/conv_pc.py:ConvPc.forward", "simple_einet/conv_pc.py:SumLayer.forward", "simple_einet/conv_pc.py:ProdConv.forward"]}
{"id": "C77", "title": "Small parameter changes change the results of a convolutional circuit by a bounded amount", "statement": "If two ConvPc models of one configuration have logits that differ by at most delta and leaf log-probabilities that differ by at most eps, then the log-likelihoods of every image differ by at most 2 * delta per position at which the model has a sum plus eps per observed pixel, and the probabilities with which sample returns given images differ by at most the corresponding factor.", "quantifier": "every accepted configuration with fitting sizes, pair of models, batch of images with missing pixels, number of samples", "why_tests_cant": "All pairs of parameter settings; the bound holds for every image at once.", "anchors": ["simple_einet/conv_pc.py:ConvPc.forward", "simple_einet/conv_pc.py:ConvPc.sample", "simple_einet/conv_pc.py:SumLayer.forward", "simple_einet/conv_pc.py:ProdConv.forward"]}
{"id": "C78", "title": "The training loss of a convolutional circuit is the mean negative log-likelihood, with a bounded gradient", "statement": "SpnGenerative.negative_log_likelihood of a ConvPc is the negative mean (sum) of the log-likelihoods of the batch.  Log-likelihoods are differentiable in all logits and leaf log-probabilities, and one gradient gives the derivative along every curve of parameters: its logit coefficients lie between -1 and 1, add up to zero over the inputs of every sum, and their absolute values add up to at most twice the number of sum positions; its leaf coefficients are not negative and add up to one over the components of every pixel.  Hence the slope of the loss is bounded for all batches at once.", "quantifier": "every accepted configuration with fitting sizes, weights, batch of images with missing pixels and curve of parameters", "why_tests_cant": "A limit over all small parameter changes, in every direction.", "anchors": ["simple_einet/conv_pc.py:ConvPc.forward", "simple_einet/conv_pc.py:SumLayer.forward", "simple_einet/conv_pc.py:ProdConv.forward", "models_pl.py:SpnGenerative.training_step", "models_pl.py:SpnGenerative.negative_log_likelihood"]}
{"id": "C79", "title": "A mixture of convolutional circuits samples and scores with its components", "statement": "For a Mixture built from a ConvPcConfig, entry n of the result of forward is the log-likelihood of image n under the component of its cluster, and no other state changes.  sample(num_samples=n) returns n images that are, up to their order, independent draws from the components weighted by the mixture weights; sample(num_samples_per_cluster=m) returns m independent draws of every component in order; every call without evidence returns images of the right shape, all pixels of one image from the leaves of one component.  Sampling given evidence completes the missing pixels.", "quantifier": "every accepted configuration with fitting sizes, number of components, weights, assignment of clusters, batch with missing pixels and number of samples", "why_tests_cant": "A distribution over all sets of images; the reordering by cluster must be right for every assignment.", "anchors": ["simple_einet/mixture.py:Mixture.__init__", "simple_einet/mixture.py:Mixture.forward", "simple_einet/mixture.py:Mixture.sample", "simple_einet/conv_pc.py:ConvPc.forward", "simple_einet/conv_pc.py:ConvPc.sample"]}
{"id": "C80", "title": "Generated images are modes of leaves on the scale of the data", "statement": "generate_samples(n, differentiable) of a generative Lightning model returns n independent images of the shape of the data: a class and one component of the mixture of products behind the likelihood are chosen by their weights, and every pixel is the mode of the chosen leaf on the scale of the data, so that preprocess maps it to a value that the leaves accept.  This holds for Einets, ConvPcs and mixtures of both, for both values of differentiable, and for every data set that get_data_shape knows.", "quantifier": "every shape of images, configuration, number of images, leaf family and random choice", "why_tests_cant": "A distribution over images and a statement about all configurations; the program only logs a grid that is normalized again, which hides scaling errors.", "anchors": ["models_pl.py:SpnGenerative.generate_samples", "models_pl.py:make_einet", "models_pl.py:make_convpc", "models_pl.py:LitModel.preprocess", "simple_einet/data.py:Shape.num_pixels"]}
{"id": "C81", "title": "Training steps lower the loss and keep the model valid", "statement": "The losses of the training programs (with and without labels, Lightning and discriminative) have a gradient in all logits and leaf log-probabilities.  Any sufficiently short step in a direction in which the loss falls to first order lowers the loss of the batch; in particular one step of gradient descent and the first step of Adam, unless all partial derivatives of logits are zero.  Whatever the gradients, an Adam step moves a parameter by at most a constant times the learning rate (less than 73 with the default betas), so that after any run the model is still one that the constructor accepts for its configuration, with finite log-likelihoods that moved by at most a multiple of the sum of the learning rates.  The schedule of the Lightning models starts at the configured rate and only falls.", "quantifier": "every accepted configuration, model, batch, loss, direction, leaf path, sequence of gradients and learning rates, and number of epochs", "why_tests_cant": "Derivatives, all step sizes below a bound, and training runs of every length with arbitrary gradients.", "anchors": ["main.py:train", "main.py:log_likelihoods", "models_pl.py:LitModel.configure_optimizers", "models_pl.py:SpnGenerative.negative_log_likelihood", "models_pl.py:SpnDiscriminative.cross_entropy_and_accuracy", "simple_einet/einet.py:Einet.forward"]}
{"id": "C82", "title": "Training with dropout scores below evaluation and never breaks the loss", "statement": "In training mode a forward pass of an Einet returns, for every outcome of the dropout draws, finite log-likelihoods that are at most those of evaluation mode; with nothing dropped they are equal.  So the likelihoods of all data points add up to at most one, the training losses (generative, with labels, Lightning) are numbers and at least the losses of evaluation mode.  In evaluation mode, and with rate zero, dropout has no effect; with a positive rate it has one for every layer type.", "quantifier": "every accepted configuration, network, dropout rate, outcome of all draws, batch and marginalized scopes", "why_tests_cant": "A statement about every outcome of the draws in every layer at once; a test sees a few masks, and losing a class or an IndexError takes a rare mask.", "anchors": ["simple_einet/einet.py:Einet.forward", "simple_einet/layers/linsum.py:LinsumLayer.forward", "simple_einet/layers/linsum.py:LinsumLayer2.forward", "simple_einet/layers/sum.py:SumLayer.forward", "simple_einet/layers/mixing.py:MixingLayer.forward", "simple_einet/layers/einsum.py:EinsumLayer.__init__", "main.py:train", "models_pl.py:SpnGenerative.negative_log_likelihood"]}
{"id": "C83", "title": "Training moves the leaf parameters against the loss", "statement": "Every training loss is differentiable in the parameters of Bernoulli, Binomial, Categorical and Normal leaves; the derivative for one component is minus the sum of its scores (value minus mean and so on) over the rows, weighted with non-negative shares that add up to 1/N per row.  A small gradient step, or a first Adam step, on all parameters of the model lowers the loss of the batch unless every derivative is zero; a component whose derivatives vanish has the weighted moments of the data.  A whole run of Adam keeps the model valid, moves every parameter by a bounded distance and, except for Normal leaves, every log-likelihood too.", "quantifier": "every accepted configuration and network with these leaves, parameters, batch with or without missing values, loss, hyperparameters and sequence of gradients", "why_tests_cant": "Quantifies over all parameters, directions and runs; a test compares a few finite differences, and does not meet parameters at which the clamp of the probabilities removes the gradient.", "anchors": ["main.py:train", "models_pl.py:LitModel.configure_optimizers", "simple_einet/layers/distributions/bernoulli.py:Bernoulli", "simple_einet/layers/distributions/binomial.py:Binomial", "simple_einet/layers/distributions/categorical.py:Categorical", "simple_einet/layers/distributions/normal.py:Normal"]}
{"id": "C84", "title": "Evaluation reports the data set, and training is a run over it", "statement": "The average loss that test() reports is the mean over all rows of minus the log-density, and the accuracy is the share of rows whose label is the first most likely class, in percent; neither depends on the order of the rows or on the batch size.  The loss of the data set is the mean of the batch losses weighted by their sizes, and with a uniformly shuffled loader the expected loss of every training batch is the loss of the data set.  train() never fails, uses every row once per epoch (the first three batches with --debug, the first one with --dry-run), is a run of the optimizer with a constant learning rate and ends with a valid network.", "quantifier": "every accepted configuration and network, data set with or without missing values, batch size, order of the rows, flags and number of epochs", "why_tests_cant": "Quantifies over all data sets, orders and batch sizes; a test runs one data set whose last batch happens to have more than one row.", "anchors": ["main.py:train", "main.py:test", "main.py:log_likelihoods", "simple_einet/data.py:build_dataloader"]}
{"id": "C85", "title": "Reconstructions keep half of an image and redraw the other half", "statement": "The reconstructions of main.py have the shape of the data.  The rows from half of the width on (round to even) show the pixels of the test images unchanged, whatever is drawn, differentiably or not, with or without the most probable explanation; the rows above are drawn from the conditional distribution of the model given the kept rows, and for the most probable explanation are modes of leaves that do not depend on any draw.  The sampled pictures are independent draws from the model.  This holds for grey and colour images and for tables.", "quantifier": "every accepted configuration and network, image size, number of channels, test images and draws", "why_tests_cant": "Quantifies over all networks, image sizes and draws; the script is run on MNIST, where there is one channel and width and height agree.", "anchors": ["main.py:__main__", "simple_einet/einet.py:Einet.sample", "simple_einet/einet.py:Einet.mpe", "simple_einet/data.py:Shape"]}
{"id": "C86", "title": "Gradients of differentiable samples", "statement": "A differentiable sample has the value of the leaf that was chosen.  The gradient of a choice is the gradient of the softmax of its logits, whatever the noise was.  Averaged over the noise, the gradient of a sample with respect to the leaf parameters and the logits of every sum layer is the gradient of the expected sample.", "quantifier": "every tensor of finite logits and leaf values, direction in which they move, temperature other than 0, noise, batch size and number of nodes and children", "why_tests_cant": "Quantifies over all logits, directions and noise and over the mean of the noise; a test evaluates one gradient, which is random.", "anchors": ["simple_einet/sampling_utils.py:SIMPLE", "simple_einet/sampling_utils.py:index_one_hot", "simple_einet/layers/sum.py:SumLayer._sample_from_weights", "simple_einet/layers/sum.py:SumLayer._select_weights"]}
{"id": "C87", "title": "Changes of the logits that do not change the model", "statement": "Two models whose logits differ by a constant per sum node, and whose leaves are equal, are the same model: forward returns the same log-likelihoods for complete and partial data, posterior the same class probabilities, and samples have the same law.  The log-likelihood of a class does not depend on the logits of the other classes in the last layer with weights and in the mixing layer.", "quantifier": "every accepted configuration, layer type and structure, all finite logits, all constants per node, every change of the heads of other classes, all data, masks and batch sizes", "why_tests_cant": "Quantifies over all shifts of all nodes and over all architectures; a test compares two models, up to rounding.", "anchors": ["simple_einet/layers/sum.py:SumLayer", "simple_einet/layers/einsum.py:EinsumLayer", "simple_einet/layers/linsum.py:LinsumLayer", "simple_einet/layers/mixing.py:MixingLayer", "simple_einet/einet.py:Einet.forward", "simple_einet/einet.py:Einet.posterior"]}
{"id": "C88", "title": "The catalogue of data sets fits the networks built from it", "statement": "A name that get_data_shape knows is a data set that get_datasets loads, and any other name raises KeyError.  Shapes are not empty, tables have one column, images are squares.  A loaded data set has a class number in get_data_num_classes, which is 0 exactly for data without labels, and its labels are below that number.  Batches of its items are accepted by a network with the channels and features that main.py derives from the shape, and main.py uses the class number of the data set.", "quantifier": "every string as a data set name, every accepted configuration of those sizes, all batch sizes", "why_tests_cant": "Quantifies over all strings and over all networks; tests load a few data sets, if any, since they need downloads.", "anchors": ["simple_einet/data.py:get_data_shape", "simple_einet/data.py:get_data_num_classes", "simple_einet/data.py:generate_data", "simple_einet/data.py:get_datasets", "simple_einet/data.py:is_1d_data", "simple_einet/data.py:is_classification_data", "main.py"]}
{"id": "C89", "title": "Training steps on a ConvPc keep it a distribution and lower the loss", "statement": "Training a ConvPc with Adam on any gradients leaves a model that the constructor returns for the same configuration and image size: the likelihoods of all images still sum to one, and log-likelihoods move by at most a bound linear in the learning rates.  The loss of a batch is differentiable in all logits and leaf log-probabilities; no partial derivative of a logit exceeds one, those of one sum add up to zero, and the sum of all their absolute values is bounded by the number of positions with sums.  Gradient descent and the first step of Adam lower the loss of the batch if the learning rate is small and some partial derivative of a logit is not zero.", "quantifier": "all accepted configurations and image sizes, all parameters, all runs of steps, all gradients, all batches with missing pixels, all cache contents", "why_tests_cant": "Quantifies over all runs, parameters and batches; whether a small step lowers the loss is a statement about limits.", "anchors": ["simple_einet/conv_pc.py:ConvPc.forward", "simple_einet/conv_pc.py:SumLayer.forward", "models_pl.py:SpnGenerative.negative_log_likelihood", "models_pl.py:LitModel.configure_optimizers"]}
{"id": "C90", "title": "A ConvPc is restored from its state dict, and other models refuse it", "statement": "Loading the state dict of any ConvPc into a ConvPc of the same configuration and image size succeeds and gives a model with the same log-likelihoods and the same samples.  Loading any dict succeeds exactly when keys and shapes agree, and raises RuntimeError otherwise; a model of other channels, another image size or another kernel size refuses the file.", "quantifier": "all configurations, image sizes, leaf classes, parameters, states of the caches and dicts", "why_tests_cant": "Quantifies over all configurations and all files; a wrong model that loads without an error cannot be seen by a test of one file.", "anchors": ["simple_einet/conv_pc.py:ConvPc.__init__", "simple_einet/conv_pc.py:SumProdLayer.__init__", "simple_einet/conv_pc.py:SumLayer.__init__", "main.py:__main__"]}
{"id": "C91", "title": "SumConv is a sum layer whose weights repeat from patch to patch, in both directions", "statement": "For images whose sizes are multiples of the kernel, SumConv returns at every position the log of a mixture of the input channels there, with weights softmax(logits) over the input channels that depend on the position inside the patch only, so it equals a SumLayer with the patch of logits repeated; other sizes raise AssertionError.  Sampling selects at every position a channel with these weights, and mpe one of greatest weight.", "quantifier": "all batch sizes, channels, kernels, image sizes, logits, inputs and parents", "why_tests_cant": "Quantifies over all shapes and values of a reshaping of seven axes; a wrong axis gives the right answer on square or symmetric test data.", "anchors": ["simple_einet/conv_pc.py:SumConv.forward", "simple_einet/conv_pc.py:SumConv._select_weights", "simple_einet/conv_pc.py:SumConv.sample"]}
{"id": "C92", "title": "A network over ConditionalBinomial leaves is a normalized distribution in which the first half of the features depends on the conditioning features", "statement": "With ConditionalBinomial leaves, a call on data without missing values returns the log-likelihood of a circuit of Binomials whose logits are base + cond_fn(images of the features cond_idxs) for the first half of the features and parameters for the second half.  The likelihoods of all data points sum to one, marginalized_scopes gives the sum over the values of these features, and missing values are marginalized as with every other leaf.", "quantifier": "all accepted networks of all structures and sizes, all square numbers of conditioned features, all total counts, parameters, cond_fn that return finite values, conditioning features, batches and scopes", "why_tests_cant": "The sum ranges over exponentially many data points and over all functions cond_fn; whether it is one depends on which features are conditioned on, which no test of single outputs shows.", "anchors": ["simple_einet/layers/distributions/binomial.py:ConditionalBinomial.forward", "simple_einet/layers/distributions/binomial.py:ConditionalBinomial.get_conditioned_distribution", "simple_einet/einet.py:Einet.forward"]}
{"id": "C93", "title": "Completing rows with ConditionalBinomial leaves draws from the conditional distribution of the likelihoods", "statement": "sample(evidence=e, marginalized_scopes=S) on a network over ConditionalBinomial leaves always returns, keeps every feature outside S, draws the features of S within the total count, and the completed rows have the conditional probabilities that the network's own likelihoods assign to them given the features outside S.  The same holds for features marked missing in the evidence, and without evidence samples follow the likelihoods.", "quantifier": "all accepted networks of all structures and sizes, all numbers of rows, all cond_fn that return finite values, conditioning features, parameters, evidence and scopes", "why_tests_cant": "The law ranges over exponentially many completions and all functions cond_fn; that logits are read from the caches of the evidence pass and gathered along the right axes only shows in the distribution, not in single samples.", "anchors": ["simple_einet/layers/distributions/binomial.py:ConditionalBinomial.sample", "simple_einet/layers/distributions/binomial.py:ConditionalBinomial.get_conditioned_distribution", "simple_einet/einet.py:Einet.sample"]}
{"id": "C94", "title": "mpe with ConditionalBinomial leaves is deterministic, keeps the evidence and fills in modes of the conditioned Binomials", "statement": "mpe(evidence=e, marginalized_scopes=S) on a network over ConditionalBinomial leaves draws nothing at random, returns evidence of the same shape, keeps every feature outside S, and gives every feature of S in every row a value of largest probability under one of its components, whose logits are those that the row's own conditioning features give.  The same holds for features marked missing and without evidence.", "quantifier": "all accepted networks of all structures and sizes, all numbers of rows, all cond_fn that return finite values, conditioning features, total counts, parameters, evidence and scopes", "why_tests_cant": "The modes depend on the row through an arbitrary cond_fn, and batches of one row take another branch than larger ones; tests fix one network, one function and one batch size.", "anchors": ["simple_einet/layers/distributions/binomial.py:ConditionalBinomial.sample", "simple_einet/layers/distributions/abstract_leaf.py:dist_mode", "simple_einet/einet.py:Einet.mpe"]}
