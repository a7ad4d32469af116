# Formal model of simple-einet

Source: `/repo` (braun-steven/simple-einet, pinned commit). Prover: Coq 8.16.1, standard library only.

## Approach

The library is a set of tensor programs: a forward pass that computes log-likelihoods, a top-down
sampling pass that draws indices and routes them to the leaves, and bookkeeping (caches, contexts,
random structure, configuration checks). The model follows the code function by function.

* **Tensors** (`Tensor.v`). A tensor is a shape and a function from index lists to entries. Every
  PyTorch operation used by the code is a Gallina function with PyTorch's shape rules. An operation
  that PyTorch rejects returns `Err`. So "no shape error" is a theorem, and a wrong `view`,
  `gather`, `expand` or `repeat` gives a wrong value in the model too.
* **Numbers** (`Num.v`). Entries of float tensors are `Fin x` (a real), `PInf`, `NInf` or `NaN`, with
  the IEEE rules for the special values and exact real arithmetic otherwise.
* **Randomness** (`Prob.v`). A sampling program is a tree of random draws: categorical draws and leaf
  draws. The tree has an expectation and a set of possible outcomes. "Every random outcome" is a
  statement about all branches; "has law p" is a statement about the expectation.
* **State** (`State.v`, `Heap.v`, `ConvPc.v`). Caches, the sampling context and the random number generator
  are explicit state; histories are lists of operations; exceptions are values.

Theorems about the network have two halves. First, the tensor program is proved equal to a small
circuit evaluator on reals. Second, the property is proved about that evaluator by induction over the
layers. The final statements mention only the modelled API and plain sums or products.

## What is trusted

* Coq's kernel (8.16.1), and the axioms that `Print Assumptions` lists (section "Axioms").
* That the Gallina transliteration matches the Python source, and that the tensor operations of
  `Tensor.v` match PyTorch's documented behaviour. Each definition cites file and lines.
* Floating-point rounding, overflow and underflow are **not** modelled, except in `Float.v`: elsewhere arithmetic
  on finite values is exact. `Float.v` repeats the forward pass of an Einet for one row in any arithmetic that meets the error
  bounds of `Float.accurate` (relative errors, underflow, sums in any order; no overflow). That torch kernels meet these bounds is assumed.
  It evaluates the contraction of `EinsumLayer` as (left * right) * weight; `opt_einsum` may contract in another order.
  `Family.v` lets `torch.sigmoid` return any value in [0, 1], so that rounding to 0
  or 1 is covered, and models the clamp of probabilities to [eps, 1 - eps].
* int64 overflow, autograd, devices, dtypes and memory layout are not modelled. In-place writes and
  views are modelled in `Heap.v` only.
* A `torch.distributions` object is its log-probability, mode, and a draw with that law
  (`Prob.leaf_expectation`). Support validation of `log_prob` is modelled. For continuous leaves the law of
  the draw is the hypothesis `Density.leaf_law` of C53; `C53_ex` shows an expectation that satisfies it.
* `torch.distributions.Categorical(logits=w)` draws index k with probability softmax(w)_k
  (`Prob.Cat`). In the convolutional circuits the code draws by the Gumbel-max trick
  (`ConvPc.cat_dim` models it as a categorical draw). C56 proves that this draw is categorical up to
  (K + 2) 1e-20, for `torch.rand` entries that fall into disjoint boxes with probability equal to
  their volume. In `Diff.v` the uniform numbers are explicit arguments; C57 averages over them
  (`Mean.mean`, a Darboux integral over the unit cube, with one coordinate per entry of each `torch.rand` call).
* The random number generator is an abstract state with a seeding function (`State.v`).
* External libraries: k-means (`fast_pytorch_kmeans`), scipy, sklearn, numpy's histogram estimators,
  torchvision data sets. Their results are arbitrary arguments of the model. `KMeans.max_sim` in mode
  "euclidean" is modelled as the argmax of 2ab - a^2 - b^2 over the centroids (`Cluster.euc_sim`), with NaN for NaN input.
* `torch.nn.NLLLoss` and `F.nll_loss` are modelled from their documentation (`Train.nll_loss`): minus the mean of the entries
  at the labels; a label that is not a class raises.

## Axioms

All axioms come from Coq's standard library. Letters used below:

* D: `ClassicalDedekindReals.sig_forall_dec`
* N: `ClassicalDedekindReals.sig_not_dec`
* F: `FunctionalExtensionality.functional_extensionality_dep`
* C: `Classical_Prop.classic`

D, N and F come with the real numbers. C enters through lemmas of the `Reals` library on `ln`, `exp`
and integrals. The table is generated by `tools/gen_axioms.py` from `Print Assumptions` for every theorem in
`MANIFEST.json`.

<!-- axioms:begin -->
| axioms | theorems |
|--------|----------|
| none | C01_vectors_complete, C01_vectors_nodup, C16_scopes_balanced, C19_invert_permutation, C33_accepted, C39_balanced, C39_blocks, C42_cross_sample_refuted, C42_product_sample_partial, C42_product_sample_refuted, C42_root_sample, C45_by_difference, C45_by_rounding_partial, C45_by_rounding_refuted, C59_loader, C59_loader_refuted, C70_strict, C84_rows, C88_classes_partial, C88_classes_refuted, C88_items, C88_labels_partial, C88_labels_refuted, C88_load_partial, C88_load_refuted, C88_main_classes, C88_main_classes_refuted, C88_shapes, C88_unknown, C90_identifies, C90_strict, C90_transposed_refuted |
| D | C33_joint_leaf, C33_params_order_refuted, C33_params_partial, C34_forward, C34_marginalized, C34_missing_refuted, C34_modes, C34_select_modes, C34_select_refuted, C36_discrete_partial, C42_cross_odd_refuted |
| F | C17_sample_groups |
| D, F | C19_bottom_up, C20_constructible_partial, C20_flat_bottom_up_refuted, C20_negative_depth_refuted, C20_negative_dropout_refuted, C20_no_dropout_refuted, C21_check_valid_accepts, C21_check_valid_exact_partial, C21_check_valid_rejects_type, C21_zero_bound_refuted, C25_index_one_hot, C25_infinite_refuted, C30_binomial_saturated_refuted, C38_binomial, C38_categorical_partial, C38_categorical_refuted, C38_gauss, C43_mean_partial, C43_mean_refuted, C44_quartiles, C46_one_hot, C46_one_hot_single_refuted, C50_empty_last_raises, C50_first_only_refuted, C50_weights_partial, C59_counts_refuted, C59_initialize, C59_missing, C59_nearest, C59_scopes_partial, C59_scopes_refuted, C59_weights, C59_weights_refuted, C63_pixels, C63_pixels_refuted, C67_logits, C80_one_pixel_refuted, C81_rates, C81_rates_refuted, C87_head, C88_batch |
| D, F, C | C59_scaled |
| D, N, F | C33_modes, C33_sample, C33_sample_all, C34_any_features_refuted, C34_sample_all, C34_sample_law, C34_select, C34_select_partial, C34_single_repetition_refuted, C37_infinite_refuted, C37_max_mean_only, C37_mean_partial, C37_negative_refuted, C37_sigma_partial, C37_zero_mean_refuted, C37_zero_refuted, C42_cross, C42_product, C42_root, C55_normal_extremes, C58_valid, C65_min_mean_refuted, C68_draw_range, C81_adam, C81_run, C83_run, C89_run |
| D, N, F, C | C01_normalized, C02_marginalized_scopes, C02_scopes_ignored, C03_missing_entries, C04_all_missing, C04_all_scopes, C05_forward_total, C05_forward_total_scopes, C06_rows_independent, C07_free_samples_partial, C07_refuted, C07_repetitions_refuted, C08_class_samples_partial, C09_conditional_partial, C09_disagreement_impossible_partial, C10_free_prior_partial, C10_given_prior_partial, C10_posterior_refuted, C10_uniform_partial, C10_uniform_refuted, C11_evidence_kept, C11_tensors_kept, C12_class_list_fails, C12_class_list_partial, C12_class_list_refuted, C13_posterior_network, C13_posterior_of, C13_posterior_shift, C14_weights_order, C14_weights_shift, C14_weights_sum, C14_weights_value, C15_einsum_exact, C15_logsumexp_dim_refuted, C15_logsumexp_last_partial, C15_logsumexp_square_refuted, C16_simple_empty_refuted, C16_simple_groups_partial, C17_forward_groups, C17_refuted, C17_same_groups_partial, C18_refuted, C18_same_groups_partial, C20_sizes_fit, C22_cache_partial, C22_cached_tensor_kept, C22_index_decides, C22_other_data_refuted, C22_other_scopes_refuted, C22_update_refuted, C23_conditioned_on_old_data, C23_no_trace_partial, C23_refuted, C23_valid_partial, C24_generator_restored_partial, C24_refuted, C24_seeded, C25_class_index_refuted, C25_class_list_refuted, C25_evidence_follows_partial, C25_sample_follows_partial, C25_straight_through, C26_einsum_routes, C27_linsum2_padding_partial, C27_linsum2_sample_refuted, C27_linsum_padding_partial, C27_linsum_routes_partial, C27_single_feature_refuted, C28_linsum2_partial, C28_linsum2_refuted, C28_linsum_partial, C28_linsum_refuted, C28_mixing, C28_mixing_diverges, C28_mixing_ends, C28_sum_refuted, C28_sum_single, C29_deterministic_partial, C29_guarantee_free_partial, C29_guarantee_partial, C29_one_component_partial, C29_optimal_refuted, C30_bernoulli, C30_binomial_large_refuted, C30_binomial_partial, C30_categorical, C30_normal, C31_empty_raises, C31_rows_partial, C31_scope_refuted, C32_count_partial, C32_evidence, C32_mpe_refuted, C32_order_refuted, C32_per_cluster, C32_rows_partial, C33_duplicates_refuted, C33_forward, C33_network_forward, C33_network_law, C33_network_sample, C34_bottom_up_refuted, C34_network_forward, C35_density, C35_discrete_sum, C35_empty_cluster_refuted, C35_floor_refuted, C35_frequencies, C35_gap_refuted, C35_interpolation, C36_continuous, C36_discrete_refuted, C40_forward, C40_misfit_refuted, C40_missing, C40_order_refuted, C40_rows, C40_single_refuted, C40_sizes, C40_sum_to_one, C41_contaminated_refuted, C41_forward, C41_refuted, C41_stuck, C43_logvar_partial, C43_logvar_refuted, C44_bins, C44_enough_bins, C44_total, C46_bottom_up_refuted, C46_components, C46_law_partial, C46_modes_partial, C47_bernoulli, C47_binomial, C47_categorical, C47_network, C48_monotone_leaves, C48_monotone_missing, C48_monotone_scopes, C49_discrete, C49_inside_refuted, C49_segments_partial, C51_images, C51_law, C51_params_refuted, C51_state, C51_temperature, C52_marginal, C52_normal_mass, C52_normal_network, C52_normalized, C52_unique, C53_class_partial, C53_conditional_partial, C53_free_partial, C53_given_prior_partial, C53_normal_boxes_partial, C53_prior_partial, C54_box_partial, C54_evidence_partial, C54_first_row_refuted, C54_one_partial, C54_per_cluster_partial, C54_rows_partial, C54_unordered, C54_unordered_likelihood_partial, C55_binomial_refuted, C55_categorical, C55_categorical_law_partial, C55_evidence_at_partial, C55_evidence_at_refuted, C55_evidence_flat_partial, C55_evidence_partial, C55_law_partial, C55_normal, C55_normal_law_partial, C55_program, C55_zero_categorical_refuted, C56_joint, C56_rows, C57_conditional_partial, C57_evidence_law, C57_free_samples_partial, C57_mean_unique, C57_sample_law, C58_mass, C58_mode, C58_network_marginal, C58_network_mass, C58_quadratic, C58_sample_law, C59_evidence, C59_evidence_refuted, C60_one_component, C60_row, C60_sample_refuted, C60_total_partial, C60_total_refuted, C61_generative, C61_lightning, C61_log_likelihoods, C61_losses, C61_proper, C61_proper_lightning, C61_targets, C62_classification, C62_classification_refuted, C62_discriminative, C62_errors, C62_proper, C63_bpd, C63_dequantized, C63_discrete_refuted, C64_densities, C64_samples, C64_temperature, C65_leaf, C65_network, C65_samples_partial, C65_zero_refuted, C66_floor_refuted, C66_leaf, C66_samples_partial, C66_total, C66_values, C67_error, C67_exact, C67_first_order, C68_binomial_refuted, C68_draw_law, C68_evidence_range, C68_range, C68_scored_refuted, C69_classes_partial, C69_classes_refuted, C69_resample_partial, C69_steps_partial, C70_mixture_partial, C70_mixture_refuted, C70_piecewise_refuted, C70_restored_partial, C71_loglikelihood, C71_posterior, C71_prediction, C71_sampling, C72_alone, C72_class_list, C72_copies, C72_mixture, C72_mixture_free, C72_rows, C73_gradient, C73_logit, C73_losses, C73_speed, C74_bounds, C74_mixture, C74_single, C75_marginal, C75_normal, C75_normal_boxes, C75_normalized, C75_samples, C75_unique, C76_bounds, C76_mixture, C77_loglikelihood, C77_sampling, C78_gradient, C78_logit, C78_loss, C78_losses, C78_speed, C79_evidence_refuted, C79_images, C79_law, C79_one, C79_per_cluster, C79_rows, C79_unordered, C80_conv_law, C80_conv_mix_law, C80_differentiable_law, C80_differentiable_partial, C80_differentiable_refuted, C80_images, C80_law, C80_mix_law, C80_round_trip, C80_scale_refuted, C81_descent, C81_drift, C81_first_step, C81_gradient, C82_below, C82_einsum_ignores_dropout, C82_finite, C82_flat_refuted, C82_generative_loss, C82_labels_loss, C82_lightning_loss, C82_linsum2_refuted, C82_linsum_raises, C82_mass, C82_nothing_dropped, C82_off, C83_drift, C83_gradient, C83_moments, C83_normal_refuted, C83_saturated_refuted, C83_scores, C83_steady, C83_step, C84_empty, C84_log_refuted, C84_report, C84_single_refuted, C84_training, C84_unbiased, C84_weighted, C85_channels_refuted, C85_density_partial, C85_law_partial, C85_mpe, C85_mpe_image, C85_reconstruct, C85_samples_partial, C85_tabular_refuted, C86_chain_refuted, C86_choice, C86_lower_unbiased, C86_sample, C86_two_layers, C86_unbiased, C87_classes, C87_posterior, C87_sampling, C87_shift, C88_synth_refuted, C89_descent, C89_drift, C89_first_step, C89_gradient, C89_normalized, C90_caches_refuted, C90_restored_partial, C91_between, C91_draws, C91_first_channel, C91_forward, C91_law_refuted, C91_mpe_refuted, C91_rejects, C91_tiled, C91_uniform, C91_weights, C92_first_half_refuted, C92_forward, C92_marginal, C92_missing_refuted, C92_normalized, C92_rejects_shapes, C92_rejects_values, C93_bottom_up_refuted, C93_conditional, C93_contradiction, C93_free_refuted, C93_keeps, C93_missing_refuted, C93_overlap_refuted, C93_prior_partial, C94_bottom_up_refuted, C94_free_refuted, C94_missing_refuted, C94_modes |
<!-- axioms:end -->

## What is modelled

Paths are relative to `/repo/simple_einet`.

| code | model | not modelled |
|------|-------|--------------|
| `abstract_layers.py` | `Layers.v`, `Build.v`, `State.v` | `ConditioningNetwork` (a neural network that no layer builds) |
| `layers/einsum.py`, `linsum.py`, `sum.py`, `mixing.py` | `Layers.v` (index branches), `Float.v` (forward with rounding), `Diff.v` (one-hot branches), `Dropout.v` (dropout loops), `DropNet.v` (whole passes with dropout), `Build.v` (constructors) | `extra_repr` |
| `layers/product.py` | `Layers.v` (RootProductLayer), `Product.v` (the others) | `extra_repr` |
| `layers/factorized_leaf.py` | `Leaf.v`, `Diff.v`, `Params.v`, `Mv.v`, `Build.v` | `extra_repr` |
| `layers/distributions/abstract_leaf.py` | `Leaf.v`, `Diff.v`, `Params.v`, `Family.v` (dist_mode), `Temper.v` (temperatures in dist_sample) | leaf dropout (`_apply_dropout` has no caller, so nothing is missing) |
| `.../bernoulli.py`, `binomial.py`, `categorical.py`, `normal.py` | `Family.v`, `LeafStep.v` (training their parameters), `Rat.v` (RatNormal layer), `DBinom.v` (DifferentiableBinomial), `CondBinom.v` (ConditionalBinomial, forward and sample), `CondMpe.v` (sample with is_mpe) | random initial values; evidence of other layouts than [N, C, F] in `ConditionalBinomial.sample`; `Mixture` in `mixture.py` (cannot be built with its default arguments, see the findings) |
| `.../multidistribution.py` | `MultiDist.v` | |
| `.../multivariate_normal.py` | `Mv.v` (layout, selection), `MvNormal.v` (scale_tril, log_prob, rsample) | rounding in the triangular solve |
| `.../piecewise_linear.py` | `Piecewise.v`; as leaves of a network with values 0..B-1: `PieceLeaf.v` | k-means; device moves |
| `einet.py` | `Build.v` (configuration, construction), `Einet.v` (forward, posterior, sample), `State.v` (caches, seed), `Heap.v` (in-place writes), `Diff.v`, `Params.v` | `extra_repr`, `__device` |
| `sampling_utils.py` | `Einet.v`, `State.v`, `Diff.v`, `Tangent.v`, `Data.v` (init_einet_stats) | `SIMPLE` with logits (never called); its law is C56, that of a whole pass C57 |
| `mixture.py` | `Mixture.v`, `Cluster.v`, `ConvMix.v` (mixtures of ConvPc) | the k-means fit |
| `conv_pc.py` | `ConvPc.v`, `SumConv.v` (SumConv, which no other class builds) | `prof` |
| `type_checks.py` | `TypeChecks.v` | `typing` generics |
| `dist.py`, `utils.py`, `data.py`, `histogram.py` | `Data.v` (reduce_bits, preprocess, get_distribution, TrainingSampler, split lengths, bin edges), `Catalog.v` (names, shapes, class numbers and branches of get_datasets) | data set download and parsing, `rdc` |
| `main.py`, `models_pl.py` | `Generate.v` (make_einet, generate_samples, Shape of `data.py`), `ConvTrain.v` (loss of a ConvPc), `ConvStep.v` (optimizer steps on a ConvPc), `ConvSave.v` (state dict of a ConvPc), `Train.v` (log_likelihoods, losses, accuracy, pixel scaling, calc_bpd of `utils.py`), `Step.v` (optimizer steps, learning rates), `Loop.v` (train, test, the epochs, loaders of `data.py`), `Recon.v` (samples, reconstructions and most probable explanations of `main.py`), `Tangent.v` (derivatives through `SIMPLE`, `index_one_hot` and the differentiable branches of `sum.py`), `Save.v` (saving and loading) | optimizers (modelled from their documentation), logging, image grids; notebooks |

Simplifications that matter:

* Evaluation mode, except in `Dropout.v` and `DropNet.v`. The mask of a dropout layer is an argument of `Layers.v`.
* Data entries are `option V`: `None` is NaN. Values `V` are abstract in the network model and
  real or integer in `Family.v` and `Piecewise.v`.
* Sums over all completions (C01-C03, C07-C09) need leaves with a finite support. C52 and C53 are the
  same properties for leaves with densities. There an integral is any positive linear functional
  (`Density.linear_integral`), and `Integral.improper` is the limit of Riemann integrals over growing intervals.
* One enable flag stands for the flags of all input caches (`State.v`), since they are set together.

## Plan per property

| id | modelled | how it is proved |
|----|----------|------------------|
| C01 | forward pass of the whole network | refinement to the circuit evaluator; each node is linear in the leaf values of each feature |
| C02 | forward pass with `marginalized_scopes` | same linearity |
| C03 | forward pass with NaN entries | same linearity |
| C04 | forward pass | induction over layers with all leaf values 1 |
| C05 | constructor and forward pass with shape errors | induction over layers |
| C06 | forward pass | from the refinement |
| C07 | sampling pass | induction over layers on the expectation of product test functions |
| C08 | sampling pass with `class_index` | same |
| C09 | sampling pass with caches filled by evidence | telescoping of conditional weights |
| C10 | class root layer | counterexample |
| C11 | evidence merge at the end of `sample` | all outcomes of the sampling tree |
| C12 | `class_index` list branch and context checks | direct; counterexample for the default `num_samples` |
| C13 | `posterior` | algebra on reals |
| C14 | `logits_to_log_weights` | algebra on reals |
| C15 | `logsumexp`, einsum forward | algebra on reals |
| C16 | scope construction | permutation and list induction |
| C17 | `FactorizedLeafSimple` routing | index arithmetic; counterexample |
| C18 | `FactorizedLeaf` routing | index arithmetic; counterexample |
| C19 | `invert_permutation`, permutation buffers | argsort specification |
| C20 | config check and constructors | case analysis, induction on depth; counterexamples |
| C21 | `check_valid` | case analysis; counterexample for bound 0 |
| C22 | leaf cache | state machine over call histories; counterexample for parameter updates |
| C23 | caches and sampling context | state machine; counterexample for exceptions; valid histories (PropTrace.v) |
| C24 | RNG state in `sampling_context` | state machine; counterexample for exceptions |
| C25 | one-hot routing | pointwise equality with gather |
| C26 | einsum index tables and views | index arithmetic |
| C27 | linsum padding | index arithmetic; counterexample for `LinsumLayer2` |
| C28 | dropout loops | invariant of the loop; counterexample for `SumLayer` |
| C29 | greedy MPE | determinism and argmax invariant; counterexample for global optimality; approximation guarantee by induction over the layers: each argmax keeps at least one choice's share of the value (`RefApprox.v`, `PropMpe.v`) |
| C30 | `dist_mode` | pmf ratio arguments; counterexample for Binomial with p = 1 |
| C31 | `Mixture.forward` | permutation argument; counterexample for marginalization |
| C32 | `Mixture.sample` | permutation argument; counterexample |
| C33 | `MultiDistributionLayer` | permutation argument; counterexamples |
| C34 | multivariate leaf layout | index arithmetic; counterexamples |
| C35 | `interp`, normalization, mode | induction on knots |
| C36 | piecewise linear sampling | order arguments; counterexample for discrete domains |
| C37 | `RatNormal` projection | algebra; counterexample for `max_mean = 0` |
| C38 | `reduce_bits`, `get_distribution` | floor arithmetic; counterexample for Categorical |
| C39 | `TrainingSampler` | stream prefix induction |
| C40 | ConvPc layers | shape arithmetic, linearity |
| C41 | ConvPc evidence sampling | counterexample |
| C42 | product layers | index arithmetic; counterexample for sampling |
| C43 | `init_einet_stats` | list algebra; counterexample for unequal batches |
| C44 | histogram bin edges | order arithmetic |
| C45 | split lengths | rounding arithmetic; counterexample |
| C46 | `_index_leaf_params` | pointwise; counterexamples |
| C47 | leaf families | sums over the support (binomial theorem) |
| C48 | forward pass | non-negative coefficients of the linear form |
| C49 | piecewise linear sampling law | integration over the uniform draw; counterexample inside a segment |
| C50 | mixture weights of `initialize` | list algebra; counterexample |
| C51 | ConvPc sampling | induction over layers on the expectation |
| C52 | forward pass over leaves with densities | the linear form of C01 with an abstract integral per entry; Gaussian integral from Wallis' product (`Gauss.v`, `Integral.v`) |
| C53 | sampling pass over leaves with densities | the expectation law of C07 with test functions |
| C54 | `Mixture.sample` | the expectation law of the components under the grouping permutation; a permanent is invariant under reordering (PropMixOrder.v); counterexample |
| C55 | temperatures in `sample`, `dist_sample` | program equality with the divided network; the laws of C07, C09, C53 for that network; change of variables for the noise |
| C56 | `SIMPLE` and `sample_gumbel` over tensors of uniform draws | Jordan content of the winning set by slices of boxes; the sums are compared with the antiderivative of the threshold product by the mean value theorem; product over rows |
| C57 | `Einet.sample(is_differentiable=True)` over all uniform numbers of one call | noise decomposed into finitely many sets with content, one per combination of indices (`NoiseLaw.law`, closed under sequencing because the calls of torch.rand read disjoint entries); Darboux mean of functions constant on the sets; total variation adds up over the choices |
| C58 | MultivariateNormal leaf and top-down networks over it | forward substitution inverts the lower triangular factor; affine substitution in the Riemann integral, one coordinate at a time (`Affine.v`, `RefMvNormal.v`); C52 over vectors, then vectors unfolded into features |
| C59 | `_predict_cluster`, `initialize` over all data, centroids and clusterings | argmax of the similarity is the first minimum of the squared distance; NaN rows by absorption; frequencies by counting |
| C60 | `Mixture.forward` with the predicted clusters | C31 and C59 row by row, C02 for the sums; witness computed on 32 data points |
| C61 | `train_loss`, `negative_log_likelihood`, `log_likelihoods` over all networks and batches | C01 and C05 for the values; Gibbs' and Jensen's inequalities with their equality cases from ln t <= t - 1 |
| C62 | `cross_entropy_and_accuracy`, `train_loss` with classification | C13 for the values, Gibbs over the classes; counting for the accuracy |
| C63 | `calc_bpd`, `lit_preprocess` | C61 for the values; Jensen for a positive linear functional |
| C64 | `sample` in every configuration | another permutation (one repetition) or the scopes as permutations (several) turn the sampling groups into forward groups; then C07's proof |
| C65 | `Rat.v` | the projected layer is a Normal layer; then C52, C53, C55 |
| C66 | `pl_init`, `PieceLeaf.v` | the stored heights are the smoothed frequencies; the network between the unfloored one and the one with the floor added everywhere (monotone, multilinear); C01, C07 |
| C67 | `Float.v` | per node: relative errors of the scaled exponentials and the sum, then of its logarithm (`RefFloat.v`); induction over the layers (`RefFloatNet.v`); the bounds are of first order in the precision (`RefFloatLin.v`) |
| C68 | `DBinom.v` | clipping is monotone, so the events about a draw are half lines of the noise; C25 for whole networks |
| C69 | `Einet.sample` twice | the second call as a function of the first result (C09); its mean is a product test of the first call |
| C70 | `state_dict`, `load_state_dict` of `Einet` and `Mixture` | two networks of one configuration have the same keys and shapes, by induction over the layers; keys are distinct |
| C71 | `Einet.forward`, `Einet.posterior`, `Einet.sample` of two models of one configuration | softmax weights change by a factor exp(2 delta); bounds are summed over the chain of layers, every node has one parent |
| C72 | `Einet.mpe`, `Mixture.mpe` | two runs in lock step: equal rows of contexts and cached values give equal choices in every layer; rows of a mixture are put back in order |
| C73 | `Einet.forward`, `train_loss`, `negative_log_likelihood` along curves of parameters | logarithmic derivatives through the chain of layers; a backward pass collects the coefficients, whose shares per repetition sum to one |
| C74 | `Einet.forward` | a product of sums is a sum over choice functions; induction over the chain of layers |
| C75 | `ConvPc.forward`, `ConvPc.sample` over leaves of any kind | the circuit is linear in every leaf value, so integrals pass through it; samples as for C51 |
| C76 | `ConvPc.forward` | the choice functions of C74 on the circuit of C40 |
| C77 | `ConvPc.forward`, `ConvPc.sample` under parameter changes | the bounds of C71 on the circuit of C40; closed form of the number of sum positions |
| C78 | `SpnGenerative` with a ConvPc | the gradients of C73 on the circuit of C40 |
| C79 | Mixture of ConvPc | the reordering of C32/C54 around the circuits of C40/C51 |
| C80 | generated images | law of mode sampling on the circuit (RefGenerate.v), components of C74/C76, reshape to images; mixtures and differentiable samples (PropGenMix.v) |
| C81 | training steps | a step gives a network that the constructor returns for a moved oracle (RefStep.v); gradient of the losses by C73; invariant m² <= c² v of the moments of Adam; drift by C71 |
| C82 | training mode with dropout | every layer with a mask is a sum over the kept children (RefDropNet.v), so it lies below the circuit; positive if something is kept along the right axis; explicit masks for the failures |
| C83 | training the leaf parameters | closed forms of the log-probabilities in the parameter (RefLeafStep.v: the clamped sigmoid is a clipped logit), chain rule into C81's gradient, sums rearranged by component; runs by induction from the right, reduced to C81 |
| C84 | evaluation and training loops | batches are the rows of the data set cut in groups (RefLoop.v), sums over groups are sums over a permutation of the rows (C61 per batch); training by induction over batches and epochs with the invariant "reached by a run of C83" |
| C85 | samples and reconstructions of main.py | the scopes are the pixels of the first rows (one channel); squeeze and view keep the row-major position of an entry; the rest by C07, C09, C11 and C25 |
| C86 | gradients of differentiable samples | tensors carry their derivative in one direction; the choice is one-hot with the derivative of the softmax; the cube of the noise is divided by the choice at one place (C56) and the mean taken over the parts |
| C87 | changes of the logits that do not change the model | the perturbation chain of C71 with the relation "shifted by a constant per node" and bound 0; for the classes, values of one class through the last layer and the products above it |
| C88 | the catalogue of data sets | cases of the tables; for names that contain other names, characters that removing a tag keeps |
| C89 | training steps on a ConvPc | a step gives a model that the constructor returns for a moved oracle (RefConvStep.v: place of each sum layer in the order of creation); gradient by C78, drift by C77, moments of Adam by C81 |
| C90 | saving and loading a ConvPc | names of the entries are distinct; two models of one configuration have layers of equal shapes; loading tracks every entry (lemmas of C70); shapes of bottom-up layers determine the configuration |
| C91 | SumConv | index arithmetic of the views (ravel and unravel of patches); log softmax and logsumexp of RefConv; law of independent categorical draws with unnormalized weights |
| C92 | ConditionalBinomial leaves | forward pass by `top_forward` (any leaf likelihoods); for a fixed second half the first half sums out to a value that does not depend on cond_fn (`net_completions`), then `class_sums`: equal sums on the classes of an equivalence |
| C93 | completing rows with ConditionalBinomial leaves | the walk of C07 (`core_law`) with leaves whose logits come from the cached evidence pass; leaf draws by gathering at five dimensions (`cb_select_ok`); the ratio of two network evaluations is the ratio of the likelihoods of C92 because the conditioning features are kept |
| C94 | mpe with ConditionalBinomial leaves | the walk with argmax returns one context (`walk_out`); the leaf of C93 with modes in place of draws; the Binomial probabilities rise up to floor(p (n + 1)) and fall afterwards (`bpmf_mode`) |

A property that the code violates is kept as stated. The violation is proved as a theorem named
`..._refuted` with a concrete witness, and the part that does hold is proved beside it.

## Findings

Behaviour of the code that a user would not expect, each proved as a theorem (most named
`..._refuted`) unless marked "read".

**Construction and checks**
* C20: a negative depth passes the checks for a plain int; top-down construction raises IndexError,
  bottom-up construction with depth <= 0 raises NameError. `dropout=None` and negative dropout pass the
  configuration check and fail in the layers.
* C21: bounds equal to 0 are never enforced by `check_valid`, and upper bounds are exclusive.
* C16: `FactorizedLeafSimple` can build a group without features.

**Likelihood**
* C15: the mask of `logsumexp` broadcasts along the last dimension only.
* C27: `LinsumLayer` with one feature returns an empty tensor. `LinsumLayer2` with an odd number of
  features returns one index too few when sampling.
* C28: with dropout `LinsumLayer` raises IndexError or mixes up children; `LinsumLayer2` raises unless
  sizes agree; `SumLayer` sums over repetitions; if every draw drops everything the loop never ends.
* C42: `sample` of `ProductLayer` and `CrossProductLayer` always raises AttributeError.

**Sampling**
* C17, C18: forward and sample pair features with leaf groups differently in some configurations (one
  repetition with 1 < num_features_out < num_features; several repetitions with num_features = 2^depth).
  There the samples do not follow the likelihood.
* C10: the class of an unconditional sample follows the root parameters; the stored class weights are unused.
* C12: a list of classes with the default `num_samples` gives wrong classes.
* C29: `mpe` is greedy and not the most probable completion; what holds is an approximation factor (`C29_guarantee_partial`).
* A Bernoulli leaf cannot be sampled (TypeError).
* C25: in differentiable mode an integer class raises AssertionError, a class list raises, and an
  infinite unselected entry turns the result into NaN.
* C46: `return_leaf_params` raises for every bottom-up network and for the one-hot branch of the single-repetition leaf.

**State**
* C22: the leaf cache is keyed by the index only, so other data, other scopes and updated parameters return stale values.
* C23, C24: `sampling_context` has no try/finally; after an exception the input caches stay enabled and
  the generator keeps the seeded state.
* C41: every ConvPc evidence call raises (`model.log_likelihood` does not exist) and leaves the caches
  enabled; later free samples are then conditioned on the last likelihood call.

**Leaves**
* C30, C47: the Binomial mode is total_count + 1 when the sigmoid rounds to one.
* C37: `RatNormal` accepts a negative `min_sigma`; both bounds 0 give sigma 1; `max_mean=0.0` is ignored; `max_mean` alone raises.
* C38: the Categorical leaf chosen by `get_distribution` has 2^n - 1 bins, one too few.
* C33: `MultiDistributionLayer` accepts duplicate scopes and then ignores a feature; `get_params` is in scope order.
* C34: with multivariate leaves the selected component belongs to group f mod G instead of f / k; missing values, scope lists and bottom-up networks raise.
* C35, C36, C49, C50: an empty continuous cluster gives NaN; the density is floored at exp(-300) outside;
  discrete values with gaps do not sum to one and discrete samples are positions; samples inside a
  segment are uniform; an empty last cluster makes `initialize` raise or store ones.
* C65: with `min_sigma = max_sigma = 0.0` the standard deviation is the Python float 1.0: `forward` works, `sample` and `get_params` raise.  `min_mean` alone is ignored.  `RatNormal.get_params` returns standard deviations while `sample(return_leaf_params=True)` returns log-variances.
* C66: without smoothing (`alpha=0`, the default) a value that no component of an entry has seen gets the log-probability -300, so the likelihoods of a network sum to more than one (by less than (1 + B e^-300)^n - 1) while such points are never sampled.

**Mixtures, convolutional circuits, data**
* C31: `marginalized_scope` is not passed to the components; an empty batch raises.
* C32: free samples are reordered; `is_mpe` returns one row for any `num_samples`; with evidence the class, seed and `mpe_at_leaves` are dropped.
* C54: the rows of `Mixture.sample(num_samples=n)` are grouped by cluster and put in the wrong order, so they are not
  identically distributed: the first of two rows follows another law than a single row.
* C59: `_predict_cluster` compares NaN entries, so every row with a missing entry goes to cluster 0: `sample(evidence=...)` and
  `mpe` complete it with component 0, whatever was observed.  With `marginalized_scopes` only the first channel is compared.
  `initialize` stores fewer weights than components when the last clusters are empty, and scales the centroids of Binomial
  leaves even if it was given counts.
* C60: `Mixture.forward` returns the likelihood under one component without the weights; it is not a distribution and differs
  from the law of `Mixture.sample`.
* C61: with several classes `SpnGenerative.negative_log_likelihood` averages the class-conditional log-likelihoods instead of taking the
  log of their mean: it is minimal only if every class has the distribution of the data.  `main.py` does take the log of the mean.
* C62: `main.py` with `--classification` computes the posterior, drops it and passes the class-conditional log-likelihoods to
  `nll_loss`: it trains the joint density.  `SpnDiscriminative` raises for mixtures (`Mixture` has no `posterior`) and for one class.
* C63: both branches of `calc_bpd` subtract log(n_bins) per pixel; for discrete leaves the result is log2(n_bins) too large.
  `LitModel.preprocess` multiplies by 255 whatever `n_bits` is, while the leaves have `total_count = 2^n_bits - 1`.
* C64: where sampling and likelihood disagree (C07), the samples follow the network with the same parameters whose input layer groups the features as `sample` does.  With one repetition that is the network of another random permutation, so samples look plausible although they do not follow the trained density.
* C55: `temperature_leaves` is used for Normal, RatNormal and Categorical leaves only; Binomial, Bernoulli and piecewise-linear
  leaves are sampled as if it were one.  Temperature 0 is not a greedy choice: Categorical leaves raise ValueError (all
  logits become -inf), Normal leaves return the mean.  A negative temperature gives NaN samples for Normal leaves.
  With evidence, temperature_sums divides the sum logits but not the likelihoods stored by the forward pass, so the samples
  follow neither the conditional distribution of the network nor that of the divided network as soon as there are two
  layers of sums (`C55_evidence_at_refuted`: 19/36 instead of 13/24); `steer` in RefSteer.v is the network they do follow.
* C68: with `is_differentiable=True` Binomial leaves draw real numbers (a clipped Normal variable), so almost no sample is a
  sequence of integers, and `forward` on a sample raises ValueError.
* C69: with several classes, drawing features of a sample again changes its distribution, since every call draws the class
  anew from the root weights (the point 00 of a small network has probability 15/64 before and 423/1792 after).
* C70: the functions of a `PiecewiseLinear` leaf are not in the state dict: a loaded model raises ValueError on every call.
  `Mixture.initialize` gives `centroids` one column per channel and feature, while `__init__` makes one per feature, and
  `mixture_weights` ends at the last non-empty cluster: with several channels, or an empty last cluster, a saved mixture
  cannot be loaded into a new one (RuntimeError).
* C40: `ConvPc` accepts sizes, orders and `channels[0] = 1` for which every forward pass raises.
* C51: `return_leaf_params` of `ConvPc` always raises.
* C78: `SpnDiscriminative` cannot be trained with `cfg.model == "convpc"`: `_get_cross_entropy_and_accuracy`
  (models_pl.py:291) calls `posterior`, which `ConvPc` does not define. `Mixture` does not define it either,
  so the same holds for `cfg.mixture`. Not modelled.
* C79: with evidence, `sample` and `mpe` of a Mixture of ConvPc raise `AttributeError`, since every component does
  (C41).  The component of the first image is left with enabled caches; the others are untouched.
* C81: a Lightning model trained for one epoch uses a hundredth of the configured learning rate: `int(0.7 * 1)` and `int(0.9 * 1)` are
  both 0, and MultiStepLR applies both milestones at the start (`C81_rates_refuted`).  The logits of the class sampling root are
  parameters of the model but get no gradient: training never moves the class weights that `sample()` uses (`C81_run`).
* C82: the documented "dropout probabilities for leaves and sum layers" do not reach all layers.  `EinsumLayer` does not pass its rate on, so
  an einsum network with one repetition ignores dropout (`C82_einsum_ignores_dropout`); `AbstractLeaf._apply_dropout` has no caller, so
  leaves never drop; the root sum layer of a bottom-up network is built without a rate.  With linsum layers a training step can raise
  IndexError (`C82_linsum_raises`); with linsum2 layers, and at depth 0 with several repetitions, a class can get likelihood zero and the
  loss becomes infinite (`C82_linsum2_refuted`, `C82_flat_refuted`).
* C83: `dist.Bernoulli(probs=sigmoid(p))` and `dist.Binomial(probs=sigmoid(p))` clamp the probabilities to [2^-23, 1 - 2^-23] before taking
  logits, so a parameter beyond ln(2^23 - 1) = 15.94 gets gradient zero and is never corrected by gradient descent, even when its
  predictions are all wrong (`C83_saturated_refuted`).  Passing the parameters as `logits=` would not have this effect.
* C84: `test_losses += lls.squeeze().cpu().tolist()` (main.py:123) raises TypeError for a batch of one row, so that evaluation fails whenever the number of
  rows leaves 1 modulo the batch size (`C84_single_refuted`); `--log-interval 0` raises ZeroDivisionError after the first step (`C84_log_refuted`).  The
  `StepLR` scheduler is created but never stepped (main.py:224-226): the learning rate is constant.
* C85: the reconstructions of main.py number the entries of all channels (main.py:309-310), but a scope of the model is a pixel: for images with several
  channels every call raises IndexError (`C85_channels_refuted`).  The number of rows to redraw is computed from the width, so that for the tabular data
  sets (width 1) nothing is redrawn and the pictures are the test rows (`C85_tabular_refuted`).
* C86: the gradients of differentiable samples are right on average for the leaves and the sum layer above them.  For layers further up they are biased:
  the one-hot parent index multiplies the logits of the chosen node, so that a change of the upper weights is taken for a change of these
  logits (`C86_chain_refuted`: every sampled gradient is zero, the gradient of the expected sample is -1/90).
* C88: the catalogue of data sets is not closed.  `fmnist-16` has a shape and ten classes, and get_datasets raises an exception for it; `digits` can be
  loaded and has no class number (KeyError); `lsun` and `lfw` are classification data with 0 classes.  Synthetic data has 3 or 9 labels for four of its
  seven tags, and 2 classes; main.py builds a network of two channels and one feature for it, and the network rejects the batches (N, 2).
  main.py uses ten classes for every data set.
* C80: `generate_samples(differentiable=True)` passes `is_differentiable`, which only `Einet.sample` takes: `TypeError` for
  ConvPc and Mixture.  Generated images are divided by 255 for every leaf family, while `preprocess` multiplies by 255 for
  Binomial leaves only: images of a model with Normal leaves are 255 times too dark.  `get_data_shape` gives the synthetic data
  sets two channels of one pixel, which EinetConfig rejects (num_features must be at least 2).
* C90: the layers of a top-down `ConvPc` do not depend on the image size, and the leaf only on the number of pixels: the file of a model for H x W
  pixels is loaded without an error by a model for W x H pixels (`C90_transposed_refuted`).  The input caches that a failed evidence call leaves
  on (C41) are not in the state dict: a loaded copy samples correctly while the model itself does not (`C90_caches_refuted`).
* C43: unequal batches give a wrong mean; a batch of one row gives NaN.
* C45: splits that round both parts fail exactly when N ends in 5.
* C92: `ConditionalBinomial` accepts any `cond_idxs`.  If one is in the first half of the features (the half that is conditioned), the network is not
  a distribution: for two binary features the likelihoods sum to 1/2 + sigmoid(t) (binomial.py:231-232).
* C92: `ConditionalBinomial.forward` replaces `AbstractLeaf.forward` and passes missing values to `log_prob`, which rejects them: no marginal inference by
  NaN, and no conditional sampling with NaN, because `Einet.sample` first evaluates the evidence.
* C93: with `ConditionalBinomial` leaves `sample` works only for top-down networks with evidence [N, C, F] without NaN and `marginalized_scopes`.  Without
  evidence it indexes `None` (binomial.py:252-253); evidence in image layout is indexed along the rows of the image; bottom-up networks fail
  because an index of three dimensions meets four (binomial.py:269-271).  Conditioning features in `marginalized_scopes` are redrawn, but
  the others are drawn given their old values.  `mpe_at_leaves` is ignored by this leaf (binomial.py:257).
* C92: `probs_conditioned_base` and `probs_unconditioned` are initialized in [0.5, 0.6] as if they were probabilities but are used as logits
  (binomial.py:178-183, 216).
* Read, not modelled: the leaf class `Mixture` cannot be built with a float dropout rate.  Its constructor passes (num_features, out_channels, num_repetitions, dropout) by position to
  `AbstractLeaf.__init__(num_features, num_channels, num_leaves, num_repetitions)`, so the default dropout 0.0 is checked as the number of
  repetitions and rejected (mixture.py:30); its forward calls the inner leaves without `marginalized_scopes` (mixture.py:57).
* C91: `SumConv._select_weights` normalizes over the rows of the image (conv_pc.py:265, `dim=2`) instead of the channels (the code after its
  `return` has `dim=1`): draws do not follow the weights of the forward pass, and on images of one row mpe always selects channel 0.
