# property -> (status, note); read by gen_manifest.py
CLAIMS.update({
"C01": ("proved", "Every accepted configuration with leaves on a finite support."),
"C02": ("proved", "Every accepted configuration with leaves on a finite support."),
"C03": ("proved", "Every accepted configuration with leaves on a finite support."),
"C04": ("proved", "Every accepted configuration, any leaf family."),
"C05": ("proved", "3-dimensional input and every form that forward reshapes to it; see C05 theorems for scopes."),
"C06": ("proved", ""),
"C07": ("partial", "Proved when leaf routing of forward and sample agree (characterized by C17, C18); refuted otherwise."),
"C08": ("partial", "Same condition as C07."),
"C09": ("partial", "Same condition as C07."),
"C10": ("partial", "The class is drawn from the root parameters, not uniformly and not from the posterior: both refuted, the actual law proved."),
"C11": ("proved", "Every mode and outcome.  The heap model of Heap.v (references, views, in-place writes) shows that no tensor that existed before the call is written to."),
"C22": ("partial", "Proved for histories in which a cache index stands for one input until reset_cache and leaf parameters change only while the cache is empty.  Refuted otherwise: other data, other marginalized scopes, updated leaf parameters."),
"C23": ("partial", "Proved for histories in which no evidence call raises inside the sampling context; by C23_valid_partial these include all histories whose evidence is data for the network (with any marginalised scopes), for every generator that draws within range and support, and all such calls return.  Refuted for the others: the input caches stay enabled, later data fill them, later unconditional samples are conditioned on them or fail."),
"C24": ("partial", "Reproducibility proved for every object and generator state; the generator is restored whenever the call returns.  Refuted for calls that raise: the generator keeps the seeded state."),
"C12": ("partial", "Refuted when num_samples is not given; holds with num_samples equal to the list length, same condition as C07."),
"C13": ("proved", ""),
"C14": ("proved", ""),
"C15": ("partial", "logsumexp is exact along the last dimension only; refuted for other dimensions."),
"C16": ("partial", "Proved for FactorizedLeaf; FactorizedLeafSimple can leave a group empty (refuted)."),
"C17": ("partial", "Exact groups of both passes; they agree only under the stated conditions (refuted otherwise)."),
"C18": ("partial", "Exact groups of both passes; they agree only under the stated conditions (refuted otherwise)."),
"C19": ("proved", ""),
"C20": ("partial", "Exact characterization of constructible configurations; four kinds of accepted configurations cannot be built (refuted)."),
"C21": ("partial", "Bounds equal to 0 are ignored by the code (refuted); exact for all other bounds."),
"C26": ("proved", ""),
"C27": ("partial", "Forward padding of both layers and routing of LinsumLayer; LinsumLayer2 sampling and a single input feature are refuted."),
"C29": ("partial", "Deterministic; not optimal (refuted). Proved instead: with discrete leaves the result is within the factor (number of choices at the visited sum nodes) * B^(missing entries) of the evidence and so of every completion, in the class with the largest root logit; with one component and one repetition it is optimal in every class."),
"C48": ("proved", ""),
})
CLAIMS.update({
"C28": ("partial", "Proved for MixingLayer and single-repetition cases; LinsumLayer, LinsumLayer2 and SumLayer are refuted with exact conditions."),
"C38": ("partial", "Proved for Binomial and Gaussian leaves; the Categorical leaf has one bin too few (refuted, exact condition given)."),
"C39": ("proved", ""),
"C42": ("partial", "Forward passes and RootProductLayer; sample of ProductLayer and CrossProductLayer always raises (refuted)."),
"C43": ("partial", "Proved for equal batch sizes (mean) and batches of at least two rows (log-variance); refuted otherwise."),
"C44": ("proved", "Exact arithmetic; returns for finite data or a finite ordered range (C44_total).  C44_enough_bins: the numbers of bins of Sturges and of Freedman and Diaconis are lower bounds.  C44_quartiles: the quartiles in them are interpolated between order statistics."),
"C45": ("partial", "Proved for the splits by difference; the splits that round both parts fail exactly when N ends in 5."),
})
CLAIMS.update({
"C25": ("partial", "The straight-through sample is one-hot and one-hot selection equals gathering for finite values of any rank.  Every differentiable sample of a network is a possible index sample, and mpe results are equal, for class None.  Refuted: infinite unselected entries give NaN, integer classes and class lists raise.  The distributions are compared in C57 (equal up to the Gumbel noise offset of 1e-20)."),
})
CLAIMS.update({
"C30": ("partial", "Bernoulli, Categorical and Normal for every parameter; Binomial while the sigmoid stays below one and total_count + 1 <= 2^23.  Refuted outside: the mode is total_count + 1 when the sigmoid rounds to one."),
"C37": ("partial", "Proved for finite accepted bounds with min_sigma >= 0, max_sigma <> 0 and max_mean <> 0.  Refuted: negative min_sigma, both zero, infinite max_sigma, max_mean = 0.0, max_mean alone."),
"C47": ("proved", "Finite parameters; the sigmoid may round.  For Normal leaves, whose support is not finite, see C52_normal_mass."),
})
CLAIMS.update({
"C35": ("partial", "Proved for all increasing knots and for every initialized cell with usable data; consecutive discrete values also sum to one and get their frequencies.  Refuted: an empty continuous cluster gives NaN, log_prob is floored at -300 outside, discrete values with gaps do not sum to one.  Laplace smoothing is C66."),
"C36": ("partial", "Continuous samples proved; discrete samples are positions, which are values only for the domain 0..n-1 (refuted otherwise)."),
"C49": ("partial", "Each segment receives exactly its mass; discrete positions get the right probabilities.  Refuted inside a segment."),
"C50": ("partial", "Proved when the last cluster is not empty; refuted otherwise: initialize raises, or stores ones."),
})
CLAIMS.update({
"C31": ("partial", "Every row gets the log-likelihood under the component of its cluster, for any clusters.  Refuted: marginalized_scope is not passed on, so the joint log-likelihood is returned.  An empty batch raises."),
"C32": ("partial", "With evidence every result completes its own row from the component of its cluster.  Without evidence the number of rows per component is right, and num_samples_per_cluster orders them by component.  Refuted: the order for num_samples, and the number of rows with is_mpe."),
})
CLAIMS.update({
"C46": ("partial", "Top-down networks in index mode, every kind of request: drawing from the returned parameters (or taking their modes) gives the joint law of the samples.  Refuted: bottom-up networks always raise; the one-hot branch of the single-repetition leaf raises.  The parameter tensor of the leaf class is an input of the model."),
})
CLAIMS.update({
"C33": ("partial", "Scopes that list every feature once: likelihoods, samples (outcomes and joint law), modes, and whole networks over the layer.  get_params() is in scope order (refuted for unsorted scopes).  Refuted: the constructor accepts duplicate scopes and then ignores a feature."),
})
CLAIMS.update({
"C34": ("partial", "Features that fill the groups: likelihoods, tensor scopes, layer samples (outcomes, joint law, modes) and top-down network likelihoods use group g for features g*k .. g*k+k-1.  Refuted: other feature counts, missing values and scope lists raise; component selection uses group f mod G; one repetition returns only G features; bottom-up raises."),
})
CLAIMS.update({
"C40": ("partial", "Every accepted configuration: the forward pass returns iff the sizes fit (exact conditions), then one finite value per row, sum one over all images, missing pixels summed out, rows independent.  Refuted: the constructor accepts sizes and orders for which every forward pass raises, and one leaf component per pixel never works."),
"C41": ("partial", "Refuted: every call with evidence raises AttributeError and leaves the input caches enabled for ever; later free samples are then conditioned on the last likelihood call (witness 0.5 -> 0.82).  Proved: likelihoods do not depend on the caches."),
"C51": ("partial", "Discrete leaves: joint law of n samples, temperature, shape and origin of every pixel, also for is_mpe and mpe_at_leaves; no trace in the caches.  The Gumbel-max draw is modelled as categorical; C56 proves that this is exact up to (K + 2) 1e-20 per draw.  Refuted: return_leaf_params always raises."),
})
CLAIMS.update({
"C52": ("proved", "Any leaf family of total mass one and any integral (positive linear functional per entry); the Gaussian integral is proved for the Riemann integral of the standard library, so Normal networks are covered with no assumption."),
"C53": ("partial", "Proved in the configurations where forward and sample agree on the leaf groups (see C17, C18; the law is false elsewhere, C07).  What samples follow elsewhere is C64_densities.  The law of a single leaf draw is a hypothesis (leaf_law): it is torch.distributions' own sampler.  For Normal and RatNormal leaves the draws are followed down to standard normal noise in C55_normal_law_partial and C65."),
})
CLAIMS.update({
"C54": ("partial", "num_samples=n: the probability that all rows satisfy the same test is the n-th power of the mixture probability (any leaves), a single row follows the mixture exactly, and up to their order the n rows are n independent draws: the mean over all orders of the expected value of different tests of the rows is the product of the mixture values (any leaves), so that the mean probability of given rows over their orders is the product of their mixture likelihoods; per cluster and with evidence the full joint law.  Refuted: the rows of one call are not identically distributed, since grouping by cluster reorders them (the first of two rows has probability 5/16 where the mixture has 7/24).  The likelihood form needs the configurations of C07."),
})
CLAIMS.update({
"C55": ("partial", "Without evidence: sampling at temperature_sums=Ts is the same program as sampling at temperature one from the network with divided logits (any leaves, any mode); the resulting law for Categorical and Normal leaves at any leaf temperature above zero, the latter from standard normal noise.  With evidence: leaf temperatures at temperature_sums=1; at any temperature_sums the law is the likelihood of the network whose sum logits are divided and then increased by the evidence log-likelihoods that the undivided network stored (steer), which is the conditional of the divided network when there is one sum layer and one repetition.  Missing: configurations outside C07.  Refuted: with two repetitions that law is not the conditional of the divided network (C55_evidence_at_refuted); Binomial leaves ignore temperature_leaves; temperature 0 raises ValueError for Categorical leaves instead of taking the mode."),
})
CLAIMS.update({
"C56": ("proved", "Probability is the Jordan content of the set of uniform draws (Content.v).  The row probabilities sum to one exactly and are within (K + 2) 1e-20 of the softmax; the joint probability of all rows is the product.  Whole differentiable samples are C57."),
})
CLAIMS.update({
"C57": ("partial", "Without a given class (a given class raises, C25).  Any bounded function of the samples and any leaf draws for the equality with index sampling; with discrete leaves and one class the likelihood forms, in the configurations of C07.  The mean over the uniform numbers is a Darboux integral over the unit cube (Mean.v), unique by C57_mean_unique.  Leaf draws are the same draws in both modes; with Binomial leaves they are not (C68)."),
})
CLAIMS.update({
"C58": ("proved", "Integrals are iterated Riemann integrals over the real line, one coordinate at a time.  Top-down networks whose features fill the groups (others raise, C34); torch's solve_triangular is modelled as exact forward substitution; the standard normal noise is the one assumed of torch."),
})
CLAIMS.update({
"C59": ("partial", "Complete rows go to the first of the nearest centroids; the weights are the relative frequencies and sum to one; scaling data and centroids by total_count keeps the clusters; a dataloader is read until more than the limit is seen.  Refuted: one weight per component (trailing empty clusters have none); with marginalized scopes only channel 0 is compared; a row with a missing entry always goes to cluster 0, so evidence is completed by component 0 whatever the weights, the centroids and the observed values are; Binomial leaves initialized with counts get centroids on the wrong scale."),
"C60": ("partial", "The likelihood of a row is that of the component of its nearest centroid (any leaves); the sum over all data points is positive and at most the number of components, and one for a single component.  Refuted in general: two components with sum 13/12, and a row whose likelihood differs from its sampling probability.  The mixture weights do not enter the likelihood."),
})
CLAIMS.update({
"C61": ("partial", "Proved for log_likelihoods, for the loss of main.py (any number of classes) and, with one class, for SpnGenerative.  With several classes the loss of SpnGenerative averages log p(x | class) over the classes: an upper bound of the negative log-density, tight exactly if no row distinguishes the classes (C61_losses), and minimal exactly if every class has the distribution of the data (C61_proper_lightning).  Gradients are C73 and C81, optimizers C81."),
"C62": ("partial", "Proved for SpnDiscriminative.  Refuted for main.py: its classification loss is that of the joint density, the cross entropy plus the generative loss minus ln K (C62_classification), and differs from the cross entropy for some data point of every discrete network, unless there are exactly as many classes as data points."),
"C63": ("partial", "The dequantization bound is proved for every averaging functional over the noise.  Refuted for discrete leaves: the value exceeds the code length by log2(n_bins), since both branches are the same.  Pixels of 8-bit images are in the support of Binomial leaves for n_bits = 8 and, for white pixels, for no smaller n_bits."),
})

CLAIMS.update({
"C64": ("proved", "C64_samples for discrete leaves, C64_temperature at any temperature, C64_densities for leaves with densities (the law of one leaf draw is a hypothesis there).  The witnesses are the networks of C07_refuted."),
})

CLAIMS.update({
"C65": ("partial", "Proved for 0 <= min_sigma < max_sigma and no bounds or two bounds for the means (max_mean other than 0.0, C37); the law of the samples in the configurations of C07.  Refuted: both sigma bounds 0.0 are accepted and give log-probabilities, but sampling and get_params raise; min_mean without max_mean is ignored."),
})
CLAIMS.update({
"C66": ("partial", "The stored values, the leaf and the total are proved for every discrete domain 0..B-1; with alpha > 0 the network is a distribution and sampled exactly (configurations of C07).  Refuted for alpha = 0: a value that no component of an entry has seen makes the total exceed one; the excess and the distance between samples and likelihoods are bounded by (1 + B exp(-300))^(C F) - 1."),
})

CLAIMS.update({
"C67": ("proved", "C67_error gives the explicit bound, C67_first_order that it is at most K t.  Overflow is not modelled; the accuracy of the torch kernels is the hypothesis `accurate`; the rounding inside the leaf distributions is the parameter c t of leaf_within.  C67_exact: without rounding the entry-level program of Float.v is the forward pass of Einet.v; C67_logits: every network has a bound on its logits."),
})
CLAIMS.update({
"C68": ("partial", "Range and evidence hold for all noise and all modes.  The law of a draw is that of a clipped Normal variable (C68_draw_law), so it is not the Binomial distribution (C68_binomial_refuted), and every network over Binomial leaves has differentiable samples that its own forward rejects with a ValueError (C68_scored_refuted).  The standard normal noise is an expectation with the normal distribution function; the integral against the density is one (normal_noise_ok)."),
})
CLAIMS.update({
"C69": ("partial", "Both statements for one class, any evidence, any set of features that were not observed, discrete leaves and the configurations of C07.  With several classes the law of the two calls is given explicitly, and it differs from that of one call (C69_classes_refuted): every call draws the class anew from the root weights, whatever the evidence is (C10)."),
"C70": ("partial", "Proved for networks whose leaves keep everything in parameters and buffers, and as an exact condition for every file (C70_strict) and for mixtures (C70_mixture_partial).  Not true in general: a PiecewiseLinear leaf keeps its functions in plain attributes, so loading succeeds and every later call raises ValueError (C70_piecewise_refuted); a Mixture over data with several channels, or with an empty last cluster, cannot be loaded because initialize changes the shapes of its buffers (C70_mixture_refuted)."),
})
CLAIMS.update({
"C71": ("proved", "Logits are compared position by position; group sizes and permutations are the same in both models.  C71_sampling has the hypotheses of C07 (one class, consistent configuration, discrete leaves)."),
})
CLAIMS.update({
"C72": ("proved", "Leaves must accept a context and have a mode, as for C29.  The clusters of the rows are what predict_cluster returns for the whole evidence (C41)."),
})
CLAIMS.update({
"C73": ("proved", "The derivative is the one of the modelled function on the real numbers; automatic differentiation itself is not modelled.  C73_losses covers train_loss of main.py with and without classification and negative_log_likelihood with reduction mean.  Curves of leaves are given by the derivatives of their log-probabilities."),
})
CLAIMS.update({
"C74": ("proved", "The components depend on the model and the class only.  C74_bounds and C74_single follow from C74_mixture."),
})
CLAIMS.update({
"C75": ("proved", "The sizes must fit the kernels as in C40 (C40_sizes: exactly then the forward pass returns), and sampling is without evidence and with the cache off (C41).  Integrals are arbitrary positive linear functionals per channel and pixel, as for C52; the law of the samples is stated for products of test functions.  C75_normal and C75_normal_boxes instantiate them with the improper Riemann integral."),
"C76": ("proved", "The components depend on the model only, not on the image or the caches."),
})
CLAIMS.update({
"C77": ("proved", "The sizes must fit the kernels as in C40.  conv_positions is a closed form in the configuration; C77_sampling is for discrete leaves."),
"C78": ("proved", "The derivative is the one of the modelled function on the real numbers, as for C73.  Reduction mean for the slope of the loss; C78_loss also covers sum and the error for other values."),
})
CLAIMS.update({
"C79": ("partial", "Scoring and sampling without evidence are proved; the caches must be off, as they are until evidence is given.  The sentence about evidence is false (C79_evidence_refuted): every such call raises AttributeError and leaves the caches of the component of the first image enabled, as for a single ConvPc (C41).  C79_law (the same test for all images) and C79_unordered (different tests, mean over the orders: one call groups the images by component, C54_first_row_refuted) are for any leaves and temperature_sums; C79_one and C79_per_cluster are for discrete leaves.  The cluster of an image is what predict_cluster returns (C59)."),
})
CLAIMS.update({
"C80": ("partial", "C80_images is for all four kinds of model and differentiable=False; the leaf family must have a mode.  The laws C80_law and C80_conv_law are stated for products of test functions and for Einets and ConvPcs; for Einets the components are those of the likelihood for the consistent configurations (C07).  C80_mix_law and C80_conv_mix_law are for mixtures: up to their order, the images are independent draws from the components by their weights (within one call they are grouped by component, C54_first_row_refuted).  C80_differentiable_law: with differentiable=True the law for Einets is the same up to the offset of the Gumbel noise (C57); C80_differentiable_partial gives shape and values.  Refuted: differentiable=True raises for all models but Einets (C80_differentiable_refuted), images are divided by 255 although preprocess scales for Binomial leaves only (C80_scale_refuted; C80_round_trip is the Binomial case), and an Einet for the synthetic data sets cannot be built (C80_one_pixel_refuted).  Making and logging the image grid is not modelled."),
})
CLAIMS.update({
"C81": ("partial", "The sentence about the schedule is false for a single epoch: both milestones are epoch 0 and training uses a hundredth of the configured rate (C81_rates_refuted); C81_rates is for two epochs or more.  Everything else is proved.  torch.optim.Adam (defaults: no weight decay, no amsgrad) and MultiStepLR are external and modelled from their documentation on real numbers, and gradients are arbitrary numbers in C81_run and C81_drift; automatic differentiation is not modelled, C81_descent and C81_first_step take the gradient of the modelled loss (is_gradient; it exists by C81_gradient).  Leaves move along a differentiable path or stay.  The class weights of sample() have no gradient and never move (last part of C81_run).  Dropout is off (losses with dropout: C82); steps that train the leaves too: C83."),
})
CLAIMS.update({
"C82": ("partial", "Proved for all layer types: the bound (C82_below), evaluation mode (C82_off), nothing dropped (C82_nothing_dropped), the losses (C82_generative_loss, C82_lightning_loss, C82_labels_loss: at least the evaluation loss or infinite, never NaN) and the total mass (C82_mass).  Finite outputs are proved for einsum and linsum layers (C82_finite).  The rest is false: linsum networks can raise IndexError (C82_linsum_raises), linsum2 networks and networks of depth 0 with several repetitions can return minus infinity (C82_linsum2_refuted, C82_flat_refuted), and einsum networks with one repetition ignore the rate (C82_einsum_ignores_dropout).  A pass whose redrawing loop does not end within the fuel has no result."),
})
CLAIMS.update({
"C83": ("partial", "Proved: the scores of the four families (C83_scores), the gradient in all parameters and the shares (C83_gradient), descent by gradient and first Adam steps (C83_step), moments at stationary points (C83_moments), runs (C83_run) and drift (C83_steady, C83_drift).  Two parts are false of the code: a Bernoulli or Binomial parameter beyond ln(2^23 - 1) has no gradient, however wrong its prediction (C83_saturated_refuted), and log-likelihoods of Normal leaves have no uniform bound (C83_normal_refuted).  Parameters exactly at the corner of the clamp are excluded.  The sigmoid is exact; RatNormal and multivariate leaves are not trained here."),
})
CLAIMS.update({
"C84": ("partial", "Two parts are false of the code: a batch of a single row (the last one whenever the number of rows leaves 1 modulo the batch size) ends test() with TypeError (C84_single_refuted), and log_interval 0 ends train() with ZeroDivisionError (C84_log_refuted).  Everything else is proved: C84_report for all other batch sizes, C84_weighted and C84_unbiased for all.  DataLoader and Adam are external and modelled from their documentation, gradients are arbitrary in C84_training, dropout is off, and the accuracy printed during training is not modelled."),
})
CLAIMS.update({
"C85": ("partial", "Proved for one channel: what is kept (C85_reconstruct, all four ways of sampling), the most probable explanation (C85_mpe, C85_mpe_image) and, for consistent configurations with one class (C07, C09), the laws (C85_law_partial, C85_samples_partial; the latter for any number of channels; C85_density_partial for leaves with densities, as integrals over the redrawn rows).  The last sentence is false: with several channels and width above 1 every call raises IndexError (C85_channels_refuted), and for tables (width 1) nothing is redrawn (C85_tabular_refuted).  Temperatures are 1; making the grids is not modelled."),
})
CLAIMS.update({
"C86": ("partial", "Proved for the choices (C86_choice), for a sum layer above leaves (C86_sample, C86_unbiased) and for the lower of two sum layers (C86_two_layers, C86_lower_unbiased), up to the 1e-20 that the Gumbel noise adds.  For the upper of two sum layers the last sentence is false: C86_chain_refuted has all sampled gradients zero while the gradient of the expected sample is -1/90.  Automatic differentiation is modelled in forward mode; one repetition."),
})
CLAIMS.update({
"C87": ("proved", "C87_shift and C87_posterior for all accepted configurations; C87_sampling for the networks whose sampling law is their likelihood (C07): one class, consistent permutations, leaves with finitely many values.  C87_classes uses the step model of C81; C87_head shows that every network has such a last layer.  C87_ex is a concrete case of both."),
})
CLAIMS.update({
"C88": ("partial", "C88_shapes, C88_unknown, C88_items and C88_batch for all names.  C88_load_partial: fmnist-16 and synthetic data with an unknown tag have a shape and cannot be loaded (C88_load_refuted).  C88_classes_partial: digits has no class number, lsun and lfw have 0 classes although they count as classification data (C88_classes_refuted).  C88_labels_partial: the labels of synthetic data fit for three tags only (C88_labels_refuted).  C88_synth_refuted: the network that main.py builds for synthetic data rejects every batch of it.  C88_main_classes: ten classes are right for ten names only (C88_main_classes_refuted).  Loading itself is external."),
})
CLAIMS.update({
"C89": ("proved", "For configurations whose layers fit together (conv_fits, C40).  Adam is modelled from its documentation on real numbers as in C81; gradients are arbitrary numbers in C89_run, C89_normalized and C89_drift, and the gradient of the modelled loss (is_cgradient, which exists by C89_gradient) in C89_descent and C89_first_step.  Leaves move along a differentiable path or stay.  C89_normalized is for leaves with finitely many values.  C89_ex: a partial derivative of 2/5 and a step that lowers the loss; C89_run_ex: a run of three steps."),
})
CLAIMS.update({
"C90": ("partial", "C90_restored_partial: restoring, with equal samples while no cache is switched on and for leaves whose other attributes are equal (PiecewiseLinear keeps its densities outside the state dict, see C70).  C90_caches_refuted: the caches that a failed evidence call leaves on (C41) are not saved, so the copy samples differently from the model (1/2 against 82/100).  C90_identifies: bottom-up models of order sum-prod refuse files of other channels, image sizes or effective kernel sizes.  C90_transposed_refuted: a top-down model for W x H pixels loads the file of one for H x W pixels without an error.  torch's load_state_dict is modelled from its documentation with strict=True."),
})
CLAIMS.update({
"C91": ("partial", "The forward pass is proved (C91_forward, C91_between, C91_tiled, C91_rejects).  The sampling half is false: _select_weights normalizes over the rows of the image (dim=2) instead of the channels.  C91_weights and C91_draws say what is drawn instead, with and without evidence; on images of one row the channels are drawn uniformly (C91_uniform) and mpe always selects the first (C91_first_channel), which refutes the claim (C91_law_refuted, C91_mpe_refuted).  The class is exported but no other class builds it."),
})
CLAIMS.update({
"C92": ("partial", "The output is proved (C92_forward).  The likelihoods sum to one if all conditioning features are in the second half (C92_normalized); otherwise they need not: C92_first_half_refuted computes the total 1/2 + sigmoid(t).  marginalized_scopes without conditioning features gives the sum (C92_marginal).  Missing values make the call fail (C92_missing_refuted, C92_rejects_values), unlike every other leaf; so do counts of conditioning features that are not squares (C92_rejects_shapes).  cond_fn is an argument, assumed to return one finite value per channel, leaf, repetition and pixel.  sample: C93."),
})
CLAIMS.update({
"C93": ("partial", "Holds for top-down networks of one class with consistent groups (as C07), evidence [N, C, F] without missing values and scopes without conditioning features: C93_keeps (also for every number of classes and every scope), C93_contradiction, C93_conditional.  Refuted elsewhere: bottom-up networks never return (C93_bottom_up_refuted), nor calls without evidence (C93_free_refuted) or with missing values (C93_missing_refuted); redrawn conditioning features keep their old influence (C93_overlap_refuted).  is_mpe: C94.  Not modelled: evidence of other layouts (binomial.py:253 indexes dimension 2).  With several classes the class of a row is drawn from the prior and the rest given the class (C93_prior_partial), as for every leaf (C53)."),
})
CLAIMS.update({
"C94": ("partial", "Holds for top-down networks with evidence [N, C, F] without missing values (C94_modes).  Bottom-up networks, calls without evidence and evidence with missing values never return (C94_bottom_up_refuted, C94_free_refuted, C94_missing_refuted).  The sigmoid is that of real numbers: with logits so large that it rounds to one the mode would exceed the total count (C30_binomial_saturated_refuted).  That the component is not the most probable one overall is the subject of C29."),
})
