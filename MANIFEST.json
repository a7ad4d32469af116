{"claims": [
 {"property": "C01", "status": "proved", "theorems": ["C01_normalized", "C01_vectors_complete", "C01_vectors_nodup"], "note": "Every accepted configuration with leaves on a finite support."},
 {"property": "C02", "status": "proved", "theorems": ["C02_marginalized_scopes", "C02_scopes_ignored"], "note": "Every accepted configuration with leaves on a finite support."},
 {"property": "C03", "status": "proved", "theorems": ["C03_missing_entries"], "note": "Every accepted configuration with leaves on a finite support."},
 {"property": "C04", "status": "proved", "theorems": ["C04_all_missing", "C04_all_scopes"], "note": "Every accepted configuration, any leaf family."},
 {"property": "C05", "status": "proved", "theorems": ["C05_forward_total", "C05_forward_total_scopes"], "note": "3-dimensional input and every form that forward reshapes to it; see C05 theorems for scopes."},
 {"property": "C06", "status": "proved", "theorems": ["C06_rows_independent"], "note": ""},
 {"property": "C07", "status": "partial", "theorems": ["C07_free_samples_partial", "C07_refuted", "C07_repetitions_refuted"], "note": "Proved when leaf routing of forward and sample agree (characterized by C17, C18); refuted otherwise."},
 {"property": "C08", "status": "partial", "theorems": ["C08_class_samples_partial"], "note": "Same condition as C07."},
 {"property": "C09", "status": "partial", "theorems": ["C09_conditional_partial", "C09_disagreement_impossible_partial"], "note": "Same condition as C07."},
 {"property": "C10", "status": "partial", "theorems": ["C10_free_prior_partial", "C10_given_prior_partial", "C10_uniform_partial", "C10_uniform_refuted", "C10_posterior_refuted"], "note": "The class is drawn from the root parameters, not uniformly and not from the posterior: both refuted, the actual law proved."},
 {"property": "C11", "status": "proved", "theorems": ["C11_evidence_kept", "C11_tensors_kept"], "note": "Every mode and outcome.  The heap model of Heap.v (references, views, in-place writes) shows that no tensor that existed before the call is written to."},
 {"property": "C12", "status": "partial", "theorems": ["C12_class_list_fails", "C12_class_list_refuted", "C12_class_list_partial"], "note": "Refuted when num_samples is not given; holds with num_samples equal to the list length, same condition as C07."},
 {"property": "C13", "status": "proved", "theorems": ["C13_posterior_of", "C13_posterior_shift", "C13_posterior_network"], "note": ""},
 {"property": "C14", "status": "proved", "theorems": ["C14_weights_value", "C14_weights_sum", "C14_weights_order", "C14_weights_shift"], "note": ""},
 {"property": "C15", "status": "partial", "theorems": ["C15_einsum_exact", "C15_logsumexp_last_partial", "C15_logsumexp_dim_refuted", "C15_logsumexp_square_refuted"], "note": "logsumexp is exact along the last dimension only; refuted for other dimensions."},
 {"property": "C16", "status": "partial", "theorems": ["C16_scopes_balanced", "C16_simple_groups_partial", "C16_simple_empty_refuted"], "note": "Proved for FactorizedLeaf; FactorizedLeafSimple can leave a group empty (refuted)."},
 {"property": "C17", "status": "partial", "theorems": ["C17_forward_groups", "C17_sample_groups", "C17_same_groups_partial", "C17_refuted"], "note": "Exact groups of both passes; they agree only under the stated conditions (refuted otherwise)."},
 {"property": "C18", "status": "partial", "theorems": ["C18_same_groups_partial", "C18_refuted"], "note": "Exact groups of both passes; they agree only under the stated conditions (refuted otherwise)."},
 {"property": "C19", "status": "proved", "theorems": ["C19_invert_permutation", "C19_bottom_up"], "note": ""},
 {"property": "C20", "status": "partial", "theorems": ["C20_constructible_partial", "C20_sizes_fit", "C20_negative_depth_refuted", "C20_flat_bottom_up_refuted", "C20_no_dropout_refuted", "C20_negative_dropout_refuted"], "note": "Exact characterization of constructible configurations; four kinds of accepted configurations cannot be built (refuted)."},
 {"property": "C21", "status": "partial", "theorems": ["C21_check_valid_accepts", "C21_check_valid_exact_partial", "C21_check_valid_rejects_type", "C21_zero_bound_refuted"], "note": "Bounds equal to 0 are ignored by the code (refuted); exact for all other bounds."},
 {"property": "C22", "status": "partial", "theorems": ["C22_cached_tensor_kept", "C22_cache_partial", "C22_index_decides", "C22_other_data_refuted", "C22_other_scopes_refuted", "C22_update_refuted"], "note": "Proved for histories in which a cache index stands for one input until reset_cache and leaf parameters change only while the cache is empty.  Refuted otherwise: other data, other marginalized scopes, updated leaf parameters."},
 {"property": "C23", "status": "partial", "theorems": ["C23_no_trace_partial", "C23_conditioned_on_old_data", "C23_refuted", "C23_valid_partial"], "note": "Proved for histories in which no evidence call raises inside the sampling context; by C23_valid_partial these include all histories whose evidence is data for the network (with any marginalised scopes), for every generator that draws within range and support, and all such calls return.  Refuted for the others: the input caches stay enabled, later data fill them, later unconditional samples are conditioned on them or fail."},
 {"property": "C24", "status": "partial", "theorems": ["C24_seeded", "C24_generator_restored_partial", "C24_refuted"], "note": "Reproducibility proved for every object and generator state; the generator is restored whenever the call returns.  Refuted for calls that raise: the generator keeps the seeded state."},
 {"property": "C25", "status": "partial", "theorems": ["C25_straight_through", "C25_index_one_hot", "C25_infinite_refuted", "C25_sample_follows_partial", "C25_evidence_follows_partial", "C25_class_index_refuted", "C25_class_list_refuted"], "note": "The straight-through sample is one-hot and one-hot selection equals gathering for finite values of any rank.  Every differentiable sample of a network is a possible index sample, and mpe results are equal, for class None.  Refuted: infinite unselected entries give NaN, integer classes and class lists raise.  The distributions are compared in C57 (equal up to the Gumbel noise offset of 1e-20)."},
 {"property": "C26", "status": "proved", "theorems": ["C26_einsum_routes"], "note": ""},
 {"property": "C27", "status": "partial", "theorems": ["C27_linsum_padding_partial", "C27_linsum2_padding_partial", "C27_linsum_routes_partial", "C27_linsum2_sample_refuted", "C27_single_feature_refuted"], "note": "Forward padding of both layers and routing of LinsumLayer; LinsumLayer2 sampling and a single input feature are refuted."},
 {"property": "C28", "status": "partial", "theorems": ["C28_mixing", "C28_mixing_ends", "C28_mixing_diverges", "C28_linsum_partial", "C28_linsum_refuted", "C28_linsum2_partial", "C28_linsum2_refuted", "C28_sum_refuted", "C28_sum_single"], "note": "Proved for MixingLayer and single-repetition cases; LinsumLayer, LinsumLayer2 and SumLayer are refuted with exact conditions."},
 {"property": "C29", "status": "partial", "theorems": ["C29_guarantee_partial", "C29_guarantee_free_partial", "C29_one_component_partial", "C29_deterministic_partial", "C29_optimal_refuted"], "note": "Deterministic; not optimal (refuted). Proved instead: with discrete leaves the result is within the factor (number of choices at the visited sum nodes) * B^(missing entries) of the evidence and so of every completion, in the class with the largest root logit; with one component and one repetition it is optimal in every class."},
 {"property": "C30", "status": "partial", "theorems": ["C30_bernoulli", "C30_binomial_partial", "C30_binomial_saturated_refuted", "C30_binomial_large_refuted", "C30_categorical", "C30_normal"], "note": "Bernoulli, Categorical and Normal for every parameter; Binomial while the sigmoid stays below one and total_count + 1 <= 2^23.  Refuted outside: the mode is total_count + 1 when the sigmoid rounds to one."},
 {"property": "C31", "status": "partial", "theorems": ["C31_rows_partial", "C31_empty_raises", "C31_scope_refuted"], "note": "Every row gets the log-likelihood under the component of its cluster, for any clusters.  Refuted: marginalized_scope is not passed on, so the joint log-likelihood is returned.  An empty batch raises."},
 {"property": "C32", "status": "partial", "theorems": ["C32_evidence", "C32_rows_partial", "C32_count_partial", "C32_per_cluster", "C32_order_refuted", "C32_mpe_refuted"], "note": "With evidence every result completes its own row from the component of its cluster.  Without evidence the number of rows per component is right, and num_samples_per_cluster orders them by component.  Refuted: the order for num_samples, and the number of rows with is_mpe."},
 {"property": "C33", "status": "partial", "theorems": ["C33_accepted", "C33_forward", "C33_sample", "C33_sample_all", "C33_modes", "C33_params_partial", "C33_params_order_refuted", "C33_duplicates_refuted", "C33_joint_leaf", "C33_network_forward", "C33_network_sample", "C33_network_law"], "note": "Scopes that list every feature once: likelihoods, samples (outcomes and joint law), modes, and whole networks over the layer.  get_params() is in scope order (refuted for unsorted scopes).  Refuted: the constructor accepts duplicate scopes and then ignores a feature."},
 {"property": "C34", "status": "partial", "theorems": ["C34_forward", "C34_any_features_refuted", "C34_missing_refuted", "C34_marginalized", "C34_sample_all", "C34_sample_law", "C34_modes", "C34_select", "C34_select_modes", "C34_select_partial", "C34_select_refuted", "C34_single_repetition_refuted", "C34_network_forward", "C34_bottom_up_refuted"], "note": "Features that fill the groups: likelihoods, tensor scopes, layer samples (outcomes, joint law, modes) and top-down network likelihoods use group g for features g*k .. g*k+k-1.  Refuted: other feature counts, missing values and scope lists raise; component selection uses group f mod G; one repetition returns only G features; bottom-up raises."},
 {"property": "C35", "status": "partial", "theorems": ["C35_interpolation", "C35_density", "C35_empty_cluster_refuted", "C35_floor_refuted", "C35_discrete_sum", "C35_gap_refuted", "C35_frequencies"], "note": "Proved for all increasing knots and for every initialized cell with usable data; consecutive discrete values also sum to one and get their frequencies.  Refuted: an empty continuous cluster gives NaN, log_prob is floored at -300 outside, discrete values with gaps do not sum to one.  Laplace smoothing is C66."},
 {"property": "C36", "status": "partial", "theorems": ["C36_continuous", "C36_discrete_partial", "C36_discrete_refuted"], "note": "Continuous samples proved; discrete samples are positions, which are values only for the domain 0..n-1 (refuted otherwise)."},
 {"property": "C37", "status": "partial", "theorems": ["C37_sigma_partial", "C37_negative_refuted", "C37_zero_refuted", "C37_infinite_refuted", "C37_mean_partial", "C37_zero_mean_refuted", "C37_max_mean_only"], "note": "Proved for finite accepted bounds with min_sigma >= 0, max_sigma <> 0 and max_mean <> 0.  Refuted: negative min_sigma, both zero, infinite max_sigma, max_mean = 0.0, max_mean alone."},
 {"property": "C38", "status": "partial", "theorems": ["C38_binomial", "C38_categorical_partial", "C38_categorical_refuted", "C38_gauss"], "note": "Proved for Binomial and Gaussian leaves; the Categorical leaf has one bin too few (refuted, exact condition given)."},
 {"property": "C39", "status": "proved", "theorems": ["C39_blocks", "C39_balanced"], "note": ""},
 {"property": "C40", "status": "partial", "theorems": ["C40_forward", "C40_sizes", "C40_sum_to_one", "C40_missing", "C40_rows", "C40_single_refuted", "C40_misfit_refuted", "C40_order_refuted"], "note": "Every accepted configuration: the forward pass returns iff the sizes fit (exact conditions), then one finite value per row, sum one over all images, missing pixels summed out, rows independent.  Refuted: the constructor accepts sizes and orders for which every forward pass raises, and one leaf component per pixel never works."},
 {"property": "C41", "status": "partial", "theorems": ["C41_refuted", "C41_stuck", "C41_forward", "C41_contaminated_refuted"], "note": "Refuted: every call with evidence raises AttributeError and leaves the input caches enabled for ever; later free samples are then conditioned on the last likelihood call (witness 0.5 -> 0.82).  Proved: likelihoods do not depend on the caches."},
 {"property": "C42", "status": "partial", "theorems": ["C42_product", "C42_product_sample_refuted", "C42_product_sample_partial", "C42_cross", "C42_cross_odd_refuted", "C42_cross_sample_refuted", "C42_root", "C42_root_sample"], "note": "Forward passes and RootProductLayer; sample of ProductLayer and CrossProductLayer always raises (refuted)."},
 {"property": "C43", "status": "partial", "theorems": ["C43_mean_partial", "C43_mean_refuted", "C43_logvar_partial", "C43_logvar_refuted"], "note": "Proved for equal batch sizes (mean) and batches of at least two rows (log-variance); refuted otherwise."},
 {"property": "C44", "status": "proved", "theorems": ["C44_bins", "C44_total", "C44_enough_bins", "C44_quartiles"], "note": "Exact arithmetic; returns for finite data or a finite ordered range (C44_total).  C44_enough_bins: the numbers of bins of Sturges and of Freedman and Diaconis are lower bounds.  C44_quartiles: the quartiles in them are interpolated between order statistics."},
 {"property": "C45", "status": "partial", "theorems": ["C45_by_difference", "C45_by_rounding_partial", "C45_by_rounding_refuted"], "note": "Proved for the splits by difference; the splits that round both parts fail exactly when N ends in 5."},
 {"property": "C46", "status": "partial", "theorems": ["C46_components", "C46_law_partial", "C46_modes_partial", "C46_bottom_up_refuted", "C46_one_hot", "C46_one_hot_single_refuted"], "note": "Top-down networks in index mode, every kind of request: drawing from the returned parameters (or taking their modes) gives the joint law of the samples.  Refuted: bottom-up networks always raise; the one-hot branch of the single-repetition leaf raises.  The parameter tensor of the leaf class is an input of the model."},
 {"property": "C47", "status": "proved", "theorems": ["C47_bernoulli", "C47_binomial", "C47_categorical", "C47_network"], "note": "Finite parameters; the sigmoid may round.  For Normal leaves, whose support is not finite, see C52_normal_mass."},
 {"property": "C48", "status": "proved", "theorems": ["C48_monotone_leaves", "C48_monotone_missing", "C48_monotone_scopes"], "note": ""},
 {"property": "C49", "status": "partial", "theorems": ["C49_segments_partial", "C49_inside_refuted", "C49_discrete"], "note": "Each segment receives exactly its mass; discrete positions get the right probabilities.  Refuted inside a segment."},
 {"property": "C50", "status": "partial", "theorems": ["C50_weights_partial", "C50_first_only_refuted", "C50_empty_last_raises"], "note": "Proved when the last cluster is not empty; refuted otherwise: initialize raises, or stores ones."},
 {"property": "C51", "status": "partial", "theorems": ["C51_images", "C51_law", "C51_temperature", "C51_state", "C51_params_refuted"], "note": "Discrete leaves: joint law of n samples, temperature, shape and origin of every pixel, also for is_mpe and mpe_at_leaves; no trace in the caches.  The Gumbel-max draw is modelled as categorical; C56 proves that this is exact up to (K + 2) 1e-20 per draw.  Refuted: return_leaf_params always raises."},
 {"property": "C52", "status": "proved", "theorems": ["C52_marginal", "C52_normalized", "C52_unique", "C52_normal_mass", "C52_normal_network"], "note": "Any leaf family of total mass one and any integral (positive linear functional per entry); the Gaussian integral is proved for the Riemann integral of the standard library, so Normal networks are covered with no assumption."},
 {"property": "C53", "status": "partial", "theorems": ["C53_free_partial", "C53_class_partial", "C53_prior_partial", "C53_conditional_partial", "C53_given_prior_partial", "C53_normal_boxes_partial"], "note": "Proved in the configurations where forward and sample agree on the leaf groups (see C17, C18; the law is false elsewhere, C07).  What samples follow elsewhere is C64_densities.  The law of a single leaf draw is a hypothesis (leaf_law): it is torch.distributions' own sampler.  For Normal and RatNormal leaves the draws are followed down to standard normal noise in C55_normal_law_partial and C65."},
 {"property": "C54", "status": "partial", "theorems": ["C54_rows_partial", "C54_box_partial", "C54_one_partial", "C54_per_cluster_partial", "C54_evidence_partial", "C54_first_row_refuted", "C54_unordered", "C54_unordered_likelihood_partial"], "note": "num_samples=n: the probability that all rows satisfy the same test is the n-th power of the mixture probability (any leaves), a single row follows the mixture exactly, and up to their order the n rows are n independent draws: the mean over all orders of the expected value of different tests of the rows is the product of the mixture values (any leaves), so that the mean probability of given rows over their orders is the product of their mixture likelihoods; per cluster and with evidence the full joint law.  Refuted: the rows of one call are not identically distributed, since grouping by cluster reorders them (the first of two rows has probability 5/16 where the mixture has 7/24).  The likelihood form needs the configurations of C07."},
 {"property": "C55", "status": "partial", "theorems": ["C55_evidence_at_partial", "C55_evidence_flat_partial", "C55_evidence_at_refuted", "C55_program", "C55_law_partial", "C55_categorical", "C55_zero_categorical_refuted", "C55_categorical_law_partial", "C55_normal", "C55_normal_law_partial", "C55_normal_extremes", "C55_binomial_refuted", "C55_evidence_partial"], "note": "Without evidence: sampling at temperature_sums=Ts is the same program as sampling at temperature one from the network with divided logits (any leaves, any mode); the resulting law for Categorical and Normal leaves at any leaf temperature above zero, the latter from standard normal noise.  With evidence: leaf temperatures at temperature_sums=1; at any temperature_sums the law is the likelihood of the network whose sum logits are divided and then increased by the evidence log-likelihoods that the undivided network stored (steer), which is the conditional of the divided network when there is one sum layer and one repetition.  Missing: configurations outside C07.  Refuted: with two repetitions that law is not the conditional of the divided network (C55_evidence_at_refuted); Binomial leaves ignore temperature_leaves; temperature 0 raises ValueError for Categorical leaves instead of taking the mode."},
 {"property": "C56", "status": "proved", "theorems": ["C56_rows", "C56_joint"], "note": "Probability is the Jordan content of the set of uniform draws (Content.v).  The row probabilities sum to one exactly and are within (K + 2) 1e-20 of the softmax; the joint probability of all rows is the product.  Whole differentiable samples are C57."},
 {"property": "C57", "status": "partial", "theorems": ["C57_sample_law", "C57_evidence_law", "C57_free_samples_partial", "C57_conditional_partial", "C57_mean_unique"], "note": "Without a given class (a given class raises, C25).  Any bounded function of the samples and any leaf draws for the equality with index sampling; with discrete leaves and one class the likelihood forms, in the configurations of C07.  The mean over the uniform numbers is a Darboux integral over the unit cube (Mean.v), unique by C57_mean_unique.  Leaf draws are the same draws in both modes; with Binomial leaves they are not (C68)."},
 {"property": "C58", "status": "proved", "theorems": ["C58_valid", "C58_quadratic", "C58_mass", "C58_sample_law", "C58_mode", "C58_network_marginal", "C58_network_mass"], "note": "Integrals are iterated Riemann integrals over the real line, one coordinate at a time.  Top-down networks whose features fill the groups (others raise, C34); torch's solve_triangular is modelled as exact forward substitution; the standard normal noise is the one assumed of torch."},
 {"property": "C59", "status": "partial", "theorems": ["C59_nearest", "C59_missing", "C59_scopes_partial", "C59_weights", "C59_weights_refuted", "C59_loader", "C59_loader_refuted", "C59_initialize", "C59_scaled", "C59_counts_refuted", "C59_scopes_refuted", "C59_evidence", "C59_evidence_refuted"], "note": "Complete rows go to the first of the nearest centroids; the weights are the relative frequencies and sum to one; scaling data and centroids by total_count keeps the clusters; a dataloader is read until more than the limit is seen.  Refuted: one weight per component (trailing empty clusters have none); with marginalized scopes only channel 0 is compared; a row with a missing entry always goes to cluster 0, so evidence is completed by component 0 whatever the weights, the centroids and the observed values are; Binomial leaves initialized with counts get centroids on the wrong scale."},
 {"property": "C60", "status": "partial", "theorems": ["C60_row", "C60_total_partial", "C60_one_component", "C60_total_refuted", "C60_sample_refuted"], "note": "The likelihood of a row is that of the component of its nearest centroid (any leaves); the sum over all data points is positive and at most the number of components, and one for a single component.  Refuted in general: two components with sum 13/12, and a row whose likelihood differs from its sampling probability.  The mixture weights do not enter the likelihood."},
 {"property": "C61", "status": "partial", "theorems": ["C61_log_likelihoods", "C61_targets", "C61_generative", "C61_lightning", "C61_losses", "C61_proper", "C61_proper_lightning"], "note": "Proved for log_likelihoods, for the loss of main.py (any number of classes) and, with one class, for SpnGenerative.  With several classes the loss of SpnGenerative averages log p(x | class) over the classes: an upper bound of the negative log-density, tight exactly if no row distinguishes the classes (C61_losses), and minimal exactly if every class has the distribution of the data (C61_proper_lightning).  Gradients are C73 and C81, optimizers C81."},
 {"property": "C62", "status": "partial", "theorems": ["C62_discriminative", "C62_errors", "C62_proper", "C62_classification", "C62_classification_refuted"], "note": "Proved for SpnDiscriminative.  Refuted for main.py: its classification loss is that of the joint density, the cross entropy plus the generative loss minus ln K (C62_classification), and differs from the cross entropy for some data point of every discrete network, unless there are exactly as many classes as data points."},
 {"property": "C63", "status": "partial", "theorems": ["C63_bpd", "C63_dequantized", "C63_discrete_refuted", "C63_pixels", "C63_pixels_refuted"], "note": "The dequantization bound is proved for every averaging functional over the noise.  Refuted for discrete leaves: the value exceeds the code length by log2(n_bins), since both branches are the same.  Pixels of 8-bit images are in the support of Binomial leaves for n_bits = 8 and, for white pixels, for no smaller n_bits."},
 {"property": "C64", "status": "proved", "theorems": ["C64_samples", "C64_temperature", "C64_densities"], "note": "C64_samples for discrete leaves, C64_temperature at any temperature, C64_densities for leaves with densities (the law of one leaf draw is a hypothesis there).  The witnesses are the networks of C07_refuted."},
 {"property": "C65", "status": "partial", "theorems": ["C65_leaf", "C65_network", "C65_samples_partial", "C65_zero_refuted", "C65_min_mean_refuted"], "note": "Proved for 0 <= min_sigma < max_sigma and no bounds or two bounds for the means (max_mean other than 0.0, C37); the law of the samples in the configurations of C07.  Refuted: both sigma bounds 0.0 are accepted and give log-probabilities, but sampling and get_params raise; min_mean without max_mean is ignored."},
 {"property": "C66", "status": "partial", "theorems": ["C66_values", "C66_leaf", "C66_total", "C66_samples_partial", "C66_floor_refuted"], "note": "The stored values, the leaf and the total are proved for every discrete domain 0..B-1; with alpha > 0 the network is a distribution and sampled exactly (configurations of C07).  Refuted for alpha = 0: a value that no component of an entry has seen makes the total exceed one; the excess and the distance between samples and likelihoods are bounded by (1 + B exp(-300))^(C F) - 1."},
 {"property": "C67", "status": "proved", "theorems": ["C67_error", "C67_first_order", "C67_logits", "C67_exact"], "note": "C67_error gives the explicit bound, C67_first_order that it is at most K t.  Overflow is not modelled; the accuracy of the torch kernels is the hypothesis `accurate`; the rounding inside the leaf distributions is the parameter c t of leaf_within.  C67_exact: without rounding the entry-level program of Float.v is the forward pass of Einet.v; C67_logits: every network has a bound on its logits."},
 {"property": "C68", "status": "partial", "theorems": ["C68_draw_range", "C68_draw_law", "C68_binomial_refuted", "C68_range", "C68_evidence_range", "C68_scored_refuted"], "note": "Range and evidence hold for all noise and all modes.  The law of a draw is that of a clipped Normal variable (C68_draw_law), so it is not the Binomial distribution (C68_binomial_refuted), and every network over Binomial leaves has differentiable samples that its own forward rejects with a ValueError (C68_scored_refuted).  The standard normal noise is an expectation with the normal distribution function; the integral against the density is one (normal_noise_ok)."},
 {"property": "C69", "status": "partial", "theorems": ["C69_steps_partial", "C69_resample_partial", "C69_classes_partial", "C69_classes_refuted"], "note": "Both statements for one class, any evidence, any set of features that were not observed, discrete leaves and the configurations of C07.  With several classes the law of the two calls is given explicitly, and it differs from that of one call (C69_classes_refuted): every call draws the class anew from the root weights, whatever the evidence is (C10)."},
 {"property": "C70", "status": "partial", "theorems": ["C70_restored_partial", "C70_strict", "C70_piecewise_refuted", "C70_mixture_partial", "C70_mixture_refuted"], "note": "Proved for networks whose leaves keep everything in parameters and buffers, and as an exact condition for every file (C70_strict) and for mixtures (C70_mixture_partial).  Not true in general: a PiecewiseLinear leaf keeps its functions in plain attributes, so loading succeeds and every later call raises ValueError (C70_piecewise_refuted); a Mixture over data with several channels, or with an empty last cluster, cannot be loaded because initialize changes the shapes of its buffers (C70_mixture_refuted)."},
 {"property": "C71", "status": "proved", "theorems": ["C71_loglikelihood", "C71_prediction", "C71_posterior", "C71_sampling"], "note": "Logits are compared position by position; group sizes and permutations are the same in both models.  C71_sampling has the hypotheses of C07 (one class, consistent configuration, discrete leaves)."},
 {"property": "C72", "status": "proved", "theorems": ["C72_rows", "C72_alone", "C72_copies", "C72_class_list", "C72_mixture", "C72_mixture_free"], "note": "Leaves must accept a context and have a mode, as for C29.  The clusters of the rows are what predict_cluster returns for the whole evidence (C41)."},
 {"property": "C73", "status": "proved", "theorems": ["C73_gradient", "C73_speed", "C73_logit", "C73_losses"], "note": "The derivative is the one of the modelled function on the real numbers; automatic differentiation itself is not modelled.  C73_losses covers train_loss of main.py with and without classification and negative_log_likelihood with reduction mean.  Curves of leaves are given by the derivatives of their log-probabilities."},
 {"property": "C74", "status": "proved", "theorems": ["C74_mixture", "C74_bounds", "C74_single"], "note": "The components depend on the model and the class only.  C74_bounds and C74_single follow from C74_mixture."},
 {"property": "C75", "status": "proved", "theorems": ["C75_marginal", "C75_normalized", "C75_unique", "C75_samples", "C75_normal", "C75_normal_boxes"], "note": "The sizes must fit the kernels as in C40 (C40_sizes: exactly then the forward pass returns), and sampling is without evidence and with the cache off (C41).  Integrals are arbitrary positive linear functionals per channel and pixel, as for C52; the law of the samples is stated for products of test functions.  C75_normal and C75_normal_boxes instantiate them with the improper Riemann integral."},
 {"property": "C76", "status": "proved", "theorems": ["C76_mixture", "C76_bounds"], "note": "The components depend on the model only, not on the image or the caches."},
 {"property": "C77", "status": "proved", "theorems": ["C77_loglikelihood", "C77_sampling"], "note": "The sizes must fit the kernels as in C40.  conv_positions is a closed form in the configuration; C77_sampling is for discrete leaves."},
 {"property": "C78", "status": "proved", "theorems": ["C78_gradient", "C78_speed", "C78_logit", "C78_loss", "C78_losses"], "note": "The derivative is the one of the modelled function on the real numbers, as for C73.  Reduction mean for the slope of the loss; C78_loss also covers sum and the error for other values."},
 {"property": "C79", "status": "partial", "theorems": ["C79_rows", "C79_law", "C79_unordered", "C79_one", "C79_per_cluster", "C79_images", "C79_evidence_refuted"], "note": "Scoring and sampling without evidence are proved; the caches must be off, as they are until evidence is given.  The sentence about evidence is false (C79_evidence_refuted): every such call raises AttributeError and leaves the caches of the component of the first image enabled, as for a single ConvPc (C41).  C79_law (the same test for all images) and C79_unordered (different tests, mean over the orders: one call groups the images by component, C54_first_row_refuted) are for any leaves and temperature_sums; C79_one and C79_per_cluster are for discrete leaves.  The cluster of an image is what predict_cluster returns (C59)."},
 {"property": "C80", "status": "partial", "theorems": ["C80_mix_law", "C80_conv_mix_law", "C80_differentiable_law", "C80_images", "C80_differentiable_partial", "C80_differentiable_refuted", "C80_law", "C80_conv_law", "C80_round_trip", "C80_scale_refuted", "C80_one_pixel_refuted"], "note": "C80_images is for all four kinds of model and differentiable=False; the leaf family must have a mode.  The laws C80_law and C80_conv_law are stated for products of test functions and for Einets and ConvPcs; for Einets the components are those of the likelihood for the consistent configurations (C07).  C80_mix_law and C80_conv_mix_law are for mixtures: up to their order, the images are independent draws from the components by their weights (within one call they are grouped by component, C54_first_row_refuted).  C80_differentiable_law: with differentiable=True the law for Einets is the same up to the offset of the Gumbel noise (C57); C80_differentiable_partial gives shape and values.  Refuted: differentiable=True raises for all models but Einets (C80_differentiable_refuted), images are divided by 255 although preprocess scales for Binomial leaves only (C80_scale_refuted; C80_round_trip is the Binomial case), and an Einet for the synthetic data sets cannot be built (C80_one_pixel_refuted).  Making and logging the image grid is not modelled."},
 {"property": "C81", "status": "partial", "theorems": ["C81_adam", "C81_run", "C81_drift", "C81_gradient", "C81_descent", "C81_first_step", "C81_rates", "C81_rates_refuted"], "note": "The sentence about the schedule is false for a single epoch: both milestones are epoch 0 and training uses a hundredth of the configured rate (C81_rates_refuted); C81_rates is for two epochs or more.  Everything else is proved.  torch.optim.Adam (defaults: no weight decay, no amsgrad) and MultiStepLR are external and modelled from their documentation on real numbers, and gradients are arbitrary numbers in C81_run and C81_drift; automatic differentiation is not modelled, C81_descent and C81_first_step take the gradient of the modelled loss (is_gradient; it exists by C81_gradient).  Leaves move along a differentiable path or stay.  The class weights of sample() have no gradient and never move (last part of C81_run).  Dropout is off (losses with dropout: C82); steps that train the leaves too: C83."},
 {"property": "C82", "status": "partial", "theorems": ["C82_off", "C82_einsum_ignores_dropout", "C82_below", "C82_finite", "C82_nothing_dropped", "C82_linsum_raises", "C82_linsum2_refuted", "C82_flat_refuted", "C82_generative_loss", "C82_lightning_loss", "C82_labels_loss", "C82_mass"], "note": "Proved for all layer types: the bound (C82_below), evaluation mode (C82_off), nothing dropped (C82_nothing_dropped), the losses (C82_generative_loss, C82_lightning_loss, C82_labels_loss: at least the evaluation loss or infinite, never NaN) and the total mass (C82_mass).  Finite outputs are proved for einsum and linsum layers (C82_finite).  The rest is false: linsum networks can raise IndexError (C82_linsum_raises), linsum2 networks and networks of depth 0 with several repetitions can return minus infinity (C82_linsum2_refuted, C82_flat_refuted), and einsum networks with one repetition ignore the rate (C82_einsum_ignores_dropout).  A pass whose redrawing loop does not end within the fuel has no result."},
 {"property": "C83", "status": "partial", "theorems": ["C83_scores", "C83_gradient", "C83_step", "C83_saturated_refuted", "C83_moments", "C83_run", "C83_steady", "C83_normal_refuted", "C83_drift"], "note": "Proved: the scores of the four families (C83_scores), the gradient in all parameters and the shares (C83_gradient), descent by gradient and first Adam steps (C83_step), moments at stationary points (C83_moments), runs (C83_run) and drift (C83_steady, C83_drift).  Two parts are false of the code: a Bernoulli or Binomial parameter beyond ln(2^23 - 1) has no gradient, however wrong its prediction (C83_saturated_refuted), and log-likelihoods of Normal leaves have no uniform bound (C83_normal_refuted).  Parameters exactly at the corner of the clamp are excluded.  The sigmoid is exact; RatNormal and multivariate leaves are not trained here."},
 {"property": "C84", "status": "partial", "theorems": ["C84_report", "C84_single_refuted", "C84_empty", "C84_weighted", "C84_unbiased", "C84_training", "C84_rows", "C84_log_refuted"], "note": "Two parts are false of the code: a batch of a single row (the last one whenever the number of rows leaves 1 modulo the batch size) ends test() with TypeError (C84_single_refuted), and log_interval 0 ends train() with ZeroDivisionError (C84_log_refuted).  Everything else is proved: C84_report for all other batch sizes, C84_weighted and C84_unbiased for all.  DataLoader and Adam are external and modelled from their documentation, gradients are arbitrary in C84_training, dropout is off, and the accuracy printed during training is not modelled."},
 {"property": "C85", "status": "partial", "theorems": ["C85_reconstruct", "C85_law_partial", "C85_density_partial", "C85_channels_refuted", "C85_tabular_refuted", "C85_mpe", "C85_mpe_image", "C85_samples_partial"], "note": "Proved for one channel: what is kept (C85_reconstruct, all four ways of sampling), the most probable explanation (C85_mpe, C85_mpe_image) and, for consistent configurations with one class (C07, C09), the laws (C85_law_partial, C85_samples_partial; the latter for any number of channels; C85_density_partial for leaves with densities, as integrals over the redrawn rows).  The last sentence is false: with several channels and width above 1 every call raises IndexError (C85_channels_refuted), and for tables (width 1) nothing is redrawn (C85_tabular_refuted).  Temperatures are 1; making the grids is not modelled."},
 {"property": "C86", "status": "partial", "theorems": ["C86_choice", "C86_sample", "C86_unbiased", "C86_two_layers", "C86_lower_unbiased", "C86_chain_refuted"], "note": "Proved for the choices (C86_choice), for a sum layer above leaves (C86_sample, C86_unbiased) and for the lower of two sum layers (C86_two_layers, C86_lower_unbiased), up to the 1e-20 that the Gumbel noise adds.  For the upper of two sum layers the last sentence is false: C86_chain_refuted has all sampled gradients zero while the gradient of the expected sample is -1/90.  Automatic differentiation is modelled in forward mode; one repetition."},
 {"property": "C87", "status": "proved", "theorems": ["C87_shift", "C87_posterior", "C87_sampling", "C87_classes", "C87_head"], "note": "C87_shift and C87_posterior for all accepted configurations; C87_sampling for the networks whose sampling law is their likelihood (C07): one class, consistent permutations, leaves with finitely many values.  C87_classes uses the step model of C81; C87_head shows that every network has such a last layer.  C87_ex is a concrete case of both."},
 {"property": "C88", "status": "partial", "theorems": ["C88_shapes", "C88_load_partial", "C88_load_refuted", "C88_unknown", "C88_classes_partial", "C88_classes_refuted", "C88_labels_partial", "C88_labels_refuted", "C88_items", "C88_batch", "C88_synth_refuted", "C88_main_classes", "C88_main_classes_refuted"], "note": "C88_shapes, C88_unknown, C88_items and C88_batch for all names.  C88_load_partial: fmnist-16 and synthetic data with an unknown tag have a shape and cannot be loaded (C88_load_refuted).  C88_classes_partial: digits has no class number, lsun and lfw have 0 classes although they count as classification data (C88_classes_refuted).  C88_labels_partial: the labels of synthetic data fit for three tags only (C88_labels_refuted).  C88_synth_refuted: the network that main.py builds for synthetic data rejects every batch of it.  C88_main_classes: ten classes are right for ten names only (C88_main_classes_refuted).  Loading itself is external."},
 {"property": "C89", "status": "proved", "theorems": ["C89_run", "C89_normalized", "C89_drift", "C89_gradient", "C89_descent", "C89_first_step"], "note": "For configurations whose layers fit together (conv_fits, C40).  Adam is modelled from its documentation on real numbers as in C81; gradients are arbitrary numbers in C89_run, C89_normalized and C89_drift, and the gradient of the modelled loss (is_cgradient, which exists by C89_gradient) in C89_descent and C89_first_step.  Leaves move along a differentiable path or stay.  C89_normalized is for leaves with finitely many values.  C89_ex: a partial derivative of 2/5 and a step that lowers the loss; C89_run_ex: a run of three steps."},
 {"property": "C90", "status": "partial", "theorems": ["C90_restored_partial", "C90_strict", "C90_identifies", "C90_transposed_refuted", "C90_caches_refuted"], "note": "C90_restored_partial: restoring, with equal samples while no cache is switched on and for leaves whose other attributes are equal (PiecewiseLinear keeps its densities outside the state dict, see C70).  C90_caches_refuted: the caches that a failed evidence call leaves on (C41) are not saved, so the copy samples differently from the model (1/2 against 82/100).  C90_identifies: bottom-up models of order sum-prod refuse files of other channels, image sizes or effective kernel sizes.  C90_transposed_refuted: a top-down model for W x H pixels loads the file of one for H x W pixels without an error.  torch's load_state_dict is modelled from its documentation with strict=True."},
 {"property": "C91", "status": "partial", "theorems": ["C91_forward", "C91_between", "C91_tiled", "C91_rejects", "C91_weights", "C91_draws", "C91_uniform", "C91_first_channel", "C91_mpe_refuted", "C91_law_refuted"], "note": "The forward pass is proved (C91_forward, C91_between, C91_tiled, C91_rejects).  The sampling half is false: _select_weights normalizes over the rows of the image (dim=2) instead of the channels.  C91_weights and C91_draws say what is drawn instead, with and without evidence; on images of one row the channels are drawn uniformly (C91_uniform) and mpe always selects the first (C91_first_channel), which refutes the claim (C91_law_refuted, C91_mpe_refuted).  The class is exported but no other class builds it."},
 {"property": "C92", "status": "partial", "theorems": ["C92_forward", "C92_normalized", "C92_marginal", "C92_missing_refuted", "C92_rejects_values", "C92_rejects_shapes", "C92_first_half_refuted"], "note": "The output is proved (C92_forward).  The likelihoods sum to one if all conditioning features are in the second half (C92_normalized); otherwise they need not: C92_first_half_refuted computes the total 1/2 + sigmoid(t).  marginalized_scopes without conditioning features gives the sum (C92_marginal).  Missing values make the call fail (C92_missing_refuted, C92_rejects_values), unlike every other leaf; so do counts of conditioning features that are not squares (C92_rejects_shapes).  cond_fn is an argument, assumed to return one finite value per channel, leaf, repetition and pixel.  sample: C93."},
 {"property": "C93", "status": "partial", "theorems": ["C93_keeps", "C93_contradiction", "C93_conditional", "C93_prior_partial", "C93_bottom_up_refuted", "C93_free_refuted", "C93_missing_refuted", "C93_overlap_refuted"], "note": "Holds for top-down networks of one class with consistent groups (as C07), evidence [N, C, F] without missing values and scopes without conditioning features: C93_keeps (also for every number of classes and every scope), C93_contradiction, C93_conditional.  Refuted elsewhere: bottom-up networks never return (C93_bottom_up_refuted), nor calls without evidence (C93_free_refuted) or with missing values (C93_missing_refuted); redrawn conditioning features keep their old influence (C93_overlap_refuted).  is_mpe: C94.  Not modelled: evidence of other layouts (binomial.py:253 indexes dimension 2).  With several classes the class of a row is drawn from the prior and the rest given the class (C93_prior_partial), as for every leaf (C53)."},
 {"property": "C94", "status": "partial", "theorems": ["C94_modes", "C94_bottom_up_refuted", "C94_free_refuted", "C94_missing_refuted"], "note": "Holds for top-down networks with evidence [N, C, F] without missing values (C94_modes).  Bottom-up networks, calls without evidence and evidence with missing values never return (C94_bottom_up_refuted, C94_free_refuted, C94_missing_refuted).  The sigmoid is that of real numbers: with logits so large that it rounds to one the mode would exceed the total count (C30_binomial_saturated_refuted).  That the component is not the most probable one overall is the subject of C29."}
]}
