{
 "claims": [
  {
   "property": "C01",
   "status": "proved",
   "theorems": [
    "C01_normalised",
    "C01_normalised_scope"
   ],
   "note": "sums over finite domains, series over N, improper Riemann integrals over R; aligned = equal feature_to_scope of the inputs of channel-wise Cats"
  },
  {
   "property": "C02",
   "status": "proved",
   "theorems": [
    "C02_nan_marginal"
   ],
   "note": ""
  },
  {
   "property": "C03",
   "status": "proved",
   "theorems": [
    "C03_all_missing"
   ],
   "note": "no alignment hypothesis needed"
  },
  {
   "property": "C04",
   "status": "proved",
   "theorems": [
    "C04_scope_only",
    "C04_feature_only"
   ],
   "note": ""
  },
  {
   "property": "C05",
   "status": "proved",
   "theorems": [
    "C05_marginalize",
    "C05_marginalize_single"
   ],
   "note": "leaf parameters are indexed by surviving feature; leaf classes overriding marginalized_params are not covered"
  },
  {
   "property": "C06",
   "status": "proved",
   "theorems": [
    "C06_weights_convex",
    "C06_assign_read",
    "C06_accepts_exactly"
   ],
   "note": "floats idealised as reals"
  },
  {
   "property": "C07",
   "status": "proved",
   "theorems": [
    "C07_smooth_decomposable",
    "C07_cat_accepts_exactly"
   ],
   "note": ""
  },
  {
   "property": "C08",
   "status": "proved",
   "theorems": [
    "C08_shape"
   ],
   "note": ""
  },
  {
   "property": "C09",
   "status": "proved",
   "theorems": [
    "C09_sample_follows_density",
    "C09_sample_new_follows_density",
    "C09_sample_expectations"
   ],
   "note": "torch Categorical / leaf distribution.sample are assumed to follow their stated densities"
  },
  {
   "property": "C10",
   "status": "proved",
   "theorems": [
    "C10_conditional_sampling",
    "C10_conditional_expectations"
   ],
   "note": ""
  },
  {
   "property": "C11",
   "status": "proved",
   "theorems": [
    "C11_sample_keeps",
    "C11_evidence_keeps"
   ],
   "note": ""
  },
  {
   "property": "C12",
   "status": "partial",
   "theorems": [
    "C12_mpe_refuted"
   ],
   "note": "False: weights .6/.4 over Bernoulli(.4)/Bernoulli(.9) gives mpe 0 with probability .4 while 1 has probability .6."
  },
  {
   "property": "C13",
   "status": "proved",
   "theorems": [
    "C13_cache_transparent",
    "C13_cache_same_data"
   ],
   "note": "Every DAG: fresh cache equals uncached evaluation and runs each module's body at most once."
  },
  {
   "property": "C14",
   "status": "partial",
   "theorems": [
    "C14_cache_reuse_refuted",
    "C14_cache_stale"
   ],
   "note": "False: the cache is keyed by module only, so the second batch gets the first batch's result (stale theorem: always)."
  },
  {
   "property": "C15",
   "status": "proved",
   "theorems": [
    "C15_em_monotone",
    "C15_em_monotone_leaves",
    "C15_em_succeeds"
   ],
   "note": "Tree-shaped circuits, all weights, any batch with positive leaf densities. Shared modules: C64; zero densities: C63."
  },
  {
   "property": "C16",
   "status": "proved",
   "theorems": [
    "C16_constructor",
    "C16_equality",
    "C16_join",
    "C16_join_comm",
    "C16_join_assoc",
    "C16_join_idem",
    "C16_join_all",
    "C16_all_pairwise_disjoint",
    "C16_all_equal",
    "C16_remove_from_query"
   ],
   "note": ""
  },
  {
   "property": "C17",
   "status": "partial",
   "theorems": [
    "C17_hash_sorted_partial",
    "C17_hash_refuted"
   ],
   "note": "The full statement is false of the code: C17_hash_refuted gives Scope([0,1]) == Scope([1,0]) with different CPython tuple hashes. Holds for scopes with sorted tuples."
  },
  {
   "property": "C18",
   "status": "proved",
   "theorems": [
    "C18_consecutive",
    "C18_consecutive_layout",
    "C18_interleaved",
    "C18_interleaved_layout",
    "C18_by_index",
    "C18_partition"
   ],
   "note": ""
  },
  {
   "property": "C19",
   "status": "proved",
   "theorems": [
    "C19_by_index_scopes"
   ],
   "note": "Other split modes: C66."
  },
  {
   "property": "C20",
   "status": "proved",
   "theorems": [
    "C20_accepts_partitions",
    "C20_rejects_others"
   ],
   "note": ""
  },
  {
   "property": "C21",
   "status": "proved",
   "theorems": [
    "C21_bijection",
    "C21_loglik",
    "C21_split",
    "C21_distribution",
    "C21_is_dist_meaning",
    "C21_circuits_are_inputs"
   ],
   "note": ""
  },
  {
   "property": "C22",
   "status": "proved",
   "theorems": [
    "C22_loglik_and_routing",
    "C22_split",
    "C22_distribution"
   ],
   "note": ""
  },
  {
   "property": "C23",
   "status": "proved",
   "theorems": [
    "C23_loglik",
    "C23_weights",
    "C23_distribution",
    "C23_selection",
    "C23_routing"
   ],
   "note": ""
  },
  {
   "property": "C24",
   "status": "proved",
   "theorems": [
    "C24_einsum_loglik",
    "C24_einsum_weights",
    "C24_einsum_distribution",
    "C24_einsum_sampling",
    "C24_linsum_loglik",
    "C24_linsum_distribution",
    "C24_linsum_sampling"
   ],
   "note": "Impossible rows: C71."
  },
  {
   "property": "C25",
   "status": "proved",
   "theorems": [
    "C25_loglik",
    "C25_distribution",
    "C25_sampling_one_channel"
   ],
   "note": "Several channels, constructor weights and declared shape: C76."
  },
  {
   "property": "C26",
   "status": "proved",
   "theorems": [
    "C26_consistent",
    "C26_atomic",
    "C26_batch",
    "C26_validate"
   ],
   "note": "Object model with explicit exceptional states; both index modes."
  },
  {
   "property": "C27",
   "status": "proved",
   "theorems": [
    "C27_accepts",
    "C27_route",
    "C27_soft_one_hot",
    "C27_soft_normalised"
   ],
   "note": "Integer and differentiable mode."
  },
  {
   "property": "C28",
   "status": "proved",
   "theorems": [
    "C28_signed_logsumexp",
    "C28_signed_eval"
   ],
   "note": "eps = 0; SignedSum weights zero or of magnitude at least 1e-30 (the code's clamp)."
  },
  {
   "property": "C29",
   "status": "proved",
   "theorems": [
    "C29_real_to_bounded",
    "C29_bounded_to_real",
    "C29_convex",
    "C29_convex_inverse"
   ],
   "note": "Without any bound: C88."
  },
  {
   "property": "C30",
   "status": "proved",
   "theorems": [
    "C30_families_normalised",
    "C30_discrete_normalised",
    "C30_mass_functions",
    "C30_circuit"
   ],
   "note": "torch log_prob formulas over exact reals; NegativeBinomial for natural total_count."
  },
  {
   "property": "C31",
   "status": "proved",
   "theorems": [
    "C31_mle_maximises",
    "C31_mle_admissible",
    "C31_categorical_near_optimal"
   ],
   "note": "Boundary data: C81; bias correction: C82, C83; weighted Laplace: C84."
  },
  {
   "property": "C32",
   "status": "proved",
   "theorems": [
    "C32_accepts",
    "C32_box",
    "C32_box_exact",
    "C32_leaf",
    "C32_succeeds",
    "C32_unbounded"
   ],
   "note": "Up to the 1e-40 clamp of the leaves, made explicit; families without cdf raise (C97)."
  },
  {
   "property": "C33",
   "status": "proved",
   "theorems": [
    "C33_accepts",
    "C33_probs",
    "C33_density",
    "C33_outside",
    "C33_normalised",
    "C33_mass",
    "C33_leaf",
    "C33_mode",
    "C33_mode_density",
    "C33_sampling",
    "C33_fit_raises",
    "C33_fit",
    "C33_fit_exact",
    "C33_fit_maximises",
    "C33_set_probs"
   ],
   "note": "Per (channel, repetition) entry; the min_prob floor is explicit. C99-C103 refute the stronger readings."
  },
  {
   "property": "C34",
   "status": "proved",
   "theorems": [
    "C34_accepts",
    "C34_order",
    "C34_loglik",
    "C34_invalid",
    "C34_normalised"
   ],
   "note": ""
  },
  {
   "property": "C35",
   "status": "proved",
   "theorems": [
    "C35_add_partition",
    "C35_post_order",
    "C35_post_order_distinct",
    "C35_regions"
   ],
   "note": ""
  },
  {
   "property": "C36",
   "status": "proved",
   "theorems": [
    "C36_partition",
    "C36_log_likelihood",
    "C36_scopes",
    "C36_sampling"
   ],
   "note": ""
  },
  {
   "property": "C37",
   "status": "proved",
   "theorems": [
    "C37_restores",
    "C37_inside"
   ],
   "note": ""
  },
  {
   "property": "C38",
   "status": "proved",
   "theorems": [
    "C38_bayes",
    "C38_classifier",
    "C38_predict",
    "C38_single_class"
   ],
   "note": ""
  },
  {
   "property": "C39",
   "status": "proved",
   "theorems": [
    "C39_prune_sums"
   ],
   "note": ""
  },
  {
   "property": "C40",
   "status": "proved",
   "theorems": [
    "C40_valid",
    "C40_default_scope",
    "C40_terminates",
    "C40_mixture",
    "C40_then_prune"
   ],
   "note": ""
  },
  {
   "property": "C41",
   "status": "proved",
   "theorems": [
    "C41_partitions",
    "C41_partitions_sampled",
    "C41_blocks",
    "C41_sampled_edges",
    "C41_chosen",
    "C41_default_samples",
    "C41_corr",
    "C41_valid",
    "C41_terminates",
    "C41_mixture",
    "C41_default_scope",
    "C41_rejects"
   ],
   "note": "Clustering, affinities, leaf estimation and random weights are parameters of the theorems; networkx is modelled by Kruskal with stable sorting."
  },
  {
   "property": "C42",
   "status": "proved",
   "theorems": [
    "C42_validates",
    "C42_normalised",
    "C42_semantics",
    "C42_training_rows",
    "C42_succeeds",
    "C42_evaluable",
    "C42_order"
   ],
   "note": "What a leaf computes after estimation is a parameter of the theorems (C104-C107 cover the tree)."
  },
  {
   "property": "C43",
   "status": "proved",
   "theorems": [
    "C43_em_driver",
    "C43_em_batched",
    "C43_zero_steps"
   ],
   "note": "All likelihood trajectories, floats incl. NaN and -inf. max_steps=0 raises."
  },
  {
   "property": "C44",
   "status": "proved",
   "theorems": [
    "C44_inner_product"
   ],
   "note": "All families listed in the quantifier; NegativeBinomial, LogNormal, Gamma, Histogram, PiecewiseLinear and CLTree inner products are not modelled; equal repetition counts."
  },
  {
   "property": "C45",
   "status": "proved",
   "theorems": [
    "C45_density",
    "C45_accepts"
   ],
   "note": "Z at least 1e-30 (the clamp)."
  },
  {
   "property": "C46",
   "status": "proved",
   "theorems": [
    "C46_detailed_balance",
    "C46_invariant",
    "C46_sampling_converges"
   ],
   "note": "Convergence for finite domains; proposals are assumed to be drawn from their density (C09/C10 cover the circuits' sampler)."
  },
  {
   "property": "C47",
   "status": "proved",
   "theorems": [
    "C47_builds_iff",
    "C47_result",
    "C47_density",
    "C47_normalised",
    "C47_bracketing",
    "C47_conservative",
    "C47_restores",
    "C47_nested"
   ],
   "note": "Devices, dtypes and non-finite weights are not modelled."
  },
  {
   "property": "C48",
   "status": "proved",
   "theorems": [
    "C48_marginals",
    "C48_entropy_defined",
    "C48_entropy",
    "C48_entropy_monotone",
    "C48_mutual_information",
    "C48_mutual_information_symmetric",
    "C48_conditional_mutual_information"
   ],
   "note": "Averaging aggregations (logmeanexp, first, or extent one); for logsumexp see C153."
  },
  {
   "property": "C49",
   "status": "proved",
   "theorems": [
    "C49_weights",
    "C49_mixture",
    "C49_set_weights",
    "C49_set_weights_accepts"
   ],
   "note": ""
  },
  {
   "property": "C50",
   "status": "proved",
   "theorems": [
    "C50_window_product",
    "C50_feature_scope",
    "C50_partition",
    "C50_normalised",
    "C50_marginal",
    "C50_scope"
   ],
   "note": ""
  },
  {
   "property": "C51",
   "status": "proved",
   "theorems": [
    "C51_columns",
    "C51_log_likelihood",
    "C51_log_likelihood_defined",
    "C51_sample",
    "C51_sample_with_evidence",
    "C51_sample_keeps",
    "C51_marginalize"
   ],
   "note": ""
  },
  {
   "property": "C52",
   "status": "proved",
   "theorems": [
    "C52_density",
    "C52_integral",
    "C52_mode",
    "C52_sampling",
    "C52_initialize",
    "C52_rejects",
    "C52_continuous",
    "C52_discrete",
    "C52_discrete_total"
   ],
   "note": "K-means is an arbitrary assignment; the routing of _sample by the sampling context is not modelled."
  },
  {
   "property": "C53",
   "status": "proved",
   "theorems": [
    "C53_topk_best",
    "C53_topk_complete",
    "C53_topk_checks"
   ],
   "note": ""
  },
  {
   "property": "C54",
   "status": "partial",
   "theorems": [
    "C54_rat_evidence_refuted"
   ],
   "note": "The property is false of the code; the theorem is its refutation."
  },
  {
   "property": "C55",
   "status": "proved",
   "theorems": [
    "C55_stats"
   ],
   "note": ""
  },
  {
   "property": "C56",
   "status": "partial",
   "theorems": [
    "C56_order_refuted"
   ],
   "note": "False: Product(Sum([leaf over [0,1], leaf over [1,0]])) is accepted and has total mass 1/2. The aligned case is C01."
  },
  {
   "property": "C57",
   "status": "partial",
   "theorems": [
    "C57_marginalize_reps_refuted"
   ],
   "note": "False: IndexError in Sum.marginalize when the Sum has more repetitions than feature_to_scope has columns."
  },
  {
   "property": "C58",
   "status": "partial",
   "theorems": [
    "C58_shape_refuted"
   ],
   "note": "False: Sum (default one repetition) over a five-repetition leaf returns five repetitions and declares one."
  },
  {
   "property": "C59",
   "status": "partial",
   "theorems": [
    "C59_sample_new_refuted"
   ],
   "note": "False: Product of leaves over {0} and {5} raises. The guarded statement is C09."
  },
  {
   "property": "C60",
   "status": "partial",
   "theorems": [
    "C60_conditional_raises_refuted"
   ],
   "note": "False: Sum([Sum(Uniform(0,2)),Sum(Uniform(0,1))]) with evidence 1. The guarded statement is C10."
  },
  {
   "property": "C61",
   "status": "partial",
   "theorems": [
    "C61_data_evidence_refuted"
   ],
   "note": "False: without a filled cache Sum._sample uses the prior weights."
  },
  {
   "property": "C62",
   "status": "partial",
   "theorems": [
    "C62_unfilled_refuted"
   ],
   "note": "False for unaligned inputs; aligned case in C11."
  },
  {
   "property": "C63",
   "status": "partial",
   "theorems": [
    "C63_em_nan_refuted",
    "C63_em_nan"
   ],
   "note": "False: a row with probability zero at any Sum makes all its new weights NaN (-inf minus -inf)."
  },
  {
   "property": "C64",
   "status": "partial",
   "theorems": [
    "C64_em_shared_refuted"
   ],
   "note": "False: a Sum reached twice is updated twice; likelihood of the batch .128 -> .125."
  },
  {
   "property": "C65",
   "status": "partial",
   "theorems": [
    "C65_nan_never_stops_refuted"
   ],
   "note": "False: NaN <= prev is False, so the loop runs all 2^64-1 steps."
  },
  {
   "property": "C66",
   "status": "partial",
   "theorems": [
    "C66_consecutive_scopes_refuted",
    "C66_interleaved_scopes_refuted"
   ],
   "note": "False: reshape instead of transpose; 4 features, 2 splits."
  },
  {
   "property": "C67",
   "status": "partial",
   "theorems": [
    "C67_number_of_splits_refuted",
    "C67_interleaved_merge_refuted"
   ],
   "note": "False: 5 features, 2 splits give 3 outputs / merging raises."
  },
  {
   "property": "C68",
   "status": "partial",
   "theorems": [
    "C68_outer_feature_to_scope_refuted"
   ],
   "note": "False."
  },
  {
   "property": "C69",
   "status": "partial",
   "theorems": [
    "C69_outer_shapes_refuted",
    "C69_elementwise_shapes_refuted"
   ],
   "note": "False."
  },
  {
   "property": "C70",
   "status": "partial",
   "theorems": [
    "C70_broadcast_sampling_refuted"
   ],
   "note": "False."
  },
  {
   "property": "C71",
   "status": "partial",
   "theorems": [
    "C71_einsum_impossible_refuted"
   ],
   "note": "False for every such row."
  },
  {
   "property": "C72",
   "status": "partial",
   "theorems": [
    "C72_interleaved_mask_partial",
    "C72_consecutive_mask_refuted"
   ],
   "note": "True for interleaved, false for consecutive splits."
  },
  {
   "property": "C73",
   "status": "partial",
   "theorems": [
    "C73_einsum_scopes_refuted"
   ],
   "note": "False."
  },
  {
   "property": "C74",
   "status": "partial",
   "theorems": [
    "C74_einsum_ignores_features_refuted"
   ],
   "note": "False."
  },
  {
   "property": "C75",
   "status": "partial",
   "theorems": [
    "C75_einsum_marginalize_refuted",
    "C75_einsum_marginalize_channels_refuted"
   ],
   "note": "False."
  },
  {
   "property": "C76",
   "status": "partial",
   "theorems": [
    "C76_sampling_channels_refuted",
    "C76_constructor_weights_refuted",
    "C76_declared_shape_refuted"
   ],
   "note": "False, all three parts."
  },
  {
   "property": "C77",
   "status": "partial",
   "theorems": [
    "C77_setter_refuted",
    "C77_mask_setter_refuted",
    "C77_update_refuted"
   ],
   "note": "False."
  },
  {
   "property": "C78",
   "status": "proved",
   "theorems": [
    "C78_typed",
    "C78_broadcast",
    "C78_repeat",
    "C78_scatter",
    "C78_slice"
   ],
   "note": ""
  },
  {
   "property": "C79",
   "status": "proved",
   "theorems": [
    "C79_index_agree",
    "C79_simple_one_hot"
   ],
   "note": "Exact arithmetic."
  },
  {
   "property": "C80",
   "status": "partial",
   "theorems": [
    "C80_neg_inf_refuted",
    "C80_no_device_refuted",
    "C80_device_partial"
   ],
   "note": "False; the device attribute exists for contexts built from routing tensors."
  },
  {
   "property": "C81",
   "status": "partial",
   "theorems": [
    "C81_boundary_refuted"
   ],
   "note": "False for every such data set."
  },
  {
   "property": "C82",
   "status": "proved",
   "theorems": [
    "C82_bias_corrected_single"
   ],
   "note": ""
  },
  {
   "property": "C83",
   "status": "partial",
   "theorems": [
    "C83_bias_corrected_refuted"
   ],
   "note": "False."
  },
  {
   "property": "C84",
   "status": "partial",
   "theorems": [
    "C84_weighted_laplace_refuted"
   ],
   "note": "False; equal weights: C31."
  },
  {
   "property": "C85",
   "status": "partial",
   "theorems": [
    "C85_ignore_everything_refuted"
   ],
   "note": "False."
  },
  {
   "property": "C86",
   "status": "partial",
   "theorems": [
    "C86_missing_raises_refuted"
   ],
   "note": "False; common supports: C87."
  },
  {
   "property": "C87",
   "status": "proved",
   "theorems": [
    "C87_validation"
   ],
   "note": ""
  },
  {
   "property": "C88",
   "status": "partial",
   "theorems": [
    "C88_unbounded_refuted"
   ],
   "note": "False for every input."
  },
  {
   "property": "C89",
   "status": "partial",
   "theorems": [
    "C89_socs_missing_refuted"
   ],
   "note": "Refuted: the theorem exhibits a counterexample to the listed claim."
  },
  {
   "property": "C90",
   "status": "partial",
   "theorems": [
    "C90_variable_order_refuted"
   ],
   "note": "Refuted by counterexample; C44 is the true guarded version."
  },
  {
   "property": "C91",
   "status": "partial",
   "theorems": [
    "C91_zero_weight_refuted"
   ],
   "note": "Refuted by counterexample."
  },
  {
   "property": "C92",
   "status": "partial",
   "theorems": [
    "C92_multichannel_sampling_refuted"
   ],
   "note": "Refuted by counterexample."
  },
  {
   "property": "C93",
   "status": "partial",
   "theorems": [
    "C93_exact_sampling_refuted"
   ],
   "note": "Refuted for every number of steps; C46 gives the convergence that does hold."
  },
  {
   "property": "C94",
   "status": "partial",
   "theorems": [
    "C94_socs_marginalize_refuted"
   ],
   "note": "Refuted by counterexample."
  },
  {
   "property": "C95",
   "status": "proved",
   "theorems": [
    "C95_build_socs"
   ],
   "note": ""
  },
  {
   "property": "C96",
   "status": "partial",
   "theorems": [
    "C96_exponential_unbounded_refuted"
   ],
   "note": "The property is false of the code; the theorem is its refutation."
  },
  {
   "property": "C97",
   "status": "partial",
   "theorems": [
    "C97_families_refuted"
   ],
   "note": "The property is false of the code; the theorem is its refutation."
  },
  {
   "property": "C98",
   "status": "partial",
   "theorems": [
    "C98_impossible_refuted"
   ],
   "note": "The property is false of the code; the theorem is its refutation."
  },
  {
   "property": "C99",
   "status": "partial",
   "theorems": [
    "C99_mode_refuted"
   ],
   "note": "The property is false of the code; the theorem is its refutation."
  },
  {
   "property": "C100",
   "status": "partial",
   "theorems": [
    "C100_mass_refuted"
   ],
   "note": "The property is false of the code; the theorem is its refutation."
  },
  {
   "property": "C101",
   "status": "partial",
   "theorems": [
    "C101_marginalize_refuted"
   ],
   "note": "The property is false of the code; the theorem is its refutation."
  },
  {
   "property": "C102",
   "status": "proved",
   "theorems": [
    "C102_auto_edges"
   ],
   "note": ""
  },
  {
   "property": "C103",
   "status": "partial",
   "theorems": [
    "C103_auto_fit_refuted"
   ],
   "note": "The property is false of the code; the theorem is its refutation."
  },
  {
   "property": "C104",
   "status": "proved",
   "theorems": [
    "C104_conditional"
   ],
   "note": ""
  },
  {
   "property": "C105",
   "status": "proved",
   "theorems": [
    "C105_mpe"
   ],
   "note": ""
  },
  {
   "property": "C106",
   "status": "proved",
   "theorems": [
    "C106_structure",
    "C106_prim"
   ],
   "note": ""
  },
  {
   "property": "C107",
   "status": "proved",
   "theorems": [
    "C107_tables"
   ],
   "note": ""
  },
  {
   "property": "C108",
   "status": "partial",
   "theorems": [
    "C108_cycle_accepted_refuted"
   ],
   "note": "The property is false of the code; the theorem is its refutation."
  },
  {
   "property": "C109",
   "status": "partial",
   "theorems": [
    "C109_marginalize_raises_refuted"
   ],
   "note": "The property is false of the code; the theorem is its refutation."
  },
  {
   "property": "C110",
   "status": "partial",
   "theorems": [
    "C110_sum_sampling_refuted"
   ],
   "note": "The property is false of the code; the theorem is its refutation."
  },
  {
   "property": "C111",
   "status": "partial",
   "theorems": [
    "C111_mle_structure_refuted"
   ],
   "note": "The property is false of the code; the theorem is its refutation."
  },
  {
   "property": "C112",
   "status": "partial",
   "theorems": [
    "C112_duplicate_regions_refuted"
   ],
   "note": "The property is false of the code; the theorem is its refutation."
  },
  {
   "property": "C113",
   "status": "partial",
   "theorems": [
    "C113_static_refuted"
   ],
   "note": "The property is false of the code; the theorem is its refutation."
  },
  {
   "property": "C114",
   "status": "partial",
   "theorems": [
    "C114_nested_refuted"
   ],
   "note": "The property is false of the code; the theorem is its refutation."
  },
  {
   "property": "C115",
   "status": "partial",
   "theorems": [
    "C115_inherited_refuted"
   ],
   "note": "The property is false of the code; the theorem is its refutation."
  },
  {
   "property": "C116",
   "status": "partial",
   "theorems": [
    "C116_zero_evidence_refuted"
   ],
   "note": "The property is false of the code; the theorem is its refutation."
  },
  {
   "property": "C117",
   "status": "proved",
   "theorems": [
    "C117_rat_sampling"
   ],
   "note": ""
  },
  {
   "property": "C118",
   "status": "proved",
   "theorems": [
    "C118_naive_bayes_prior",
    "C118_naive_bayes_counts"
   ],
   "note": ""
  },
  {
   "property": "C119",
   "status": "partial",
   "theorems": [
    "C119_root_node_refuted"
   ],
   "note": "The property is false of the code; the theorem is its refutation."
  },
  {
   "property": "C120",
   "status": "partial",
   "theorems": [
    "C120_impossible_feature_refuted"
   ],
   "note": "The property is false of the code; the theorem is its refutation."
  },
  {
   "property": "C121",
   "status": "partial",
   "theorems": [
    "C121_marginalize_raises_refuted"
   ],
   "note": "The property is false of the code; the theorem is its refutation."
  },
  {
   "property": "C122",
   "status": "partial",
   "theorems": [
    "C122_marginalize_regroups_refuted"
   ],
   "note": "The property is false of the code; the theorem is its refutation."
  },
  {
   "property": "C123",
   "status": "partial",
   "theorems": [
    "C123_wide_feature_refuted"
   ],
   "note": "The property is false of the code; the theorem is its refutation."
  },
  {
   "property": "C124",
   "status": "partial",
   "theorems": [
    "C124_prune_raises_refuted"
   ],
   "note": "The property is false of the code; the theorem is its refutation."
  },
  {
   "property": "C125",
   "status": "partial",
   "theorems": [
    "C125_termination_refuted"
   ],
   "note": "The property is false of the code; the theorem is its refutation."
  },
  {
   "property": "C126",
   "status": "partial",
   "theorems": [
    "C126_scope_coverage_refuted"
   ],
   "note": "The property is false of the code; the theorem is its refutation."
  },
  {
   "property": "C127",
   "status": "partial",
   "theorems": [
    "C127_leaf_channels_refuted"
   ],
   "note": "The property is false of the code; the theorem is its refutation."
  },
  {
   "property": "C128",
   "status": "partial",
   "theorems": [
    "C128_missing_value_refuted"
   ],
   "note": "The property is false of the code; the theorem is its refutation."
  },
  {
   "property": "C129",
   "status": "partial",
   "theorems": [
    "C129_unfitted_leaf_refuted"
   ],
   "note": "The property is false of the code; the theorem is its refutation."
  },
  {
   "property": "C130",
   "status": "partial",
   "theorems": [
    "C130_near_integers_refuted"
   ],
   "note": "The property is false of the code; the theorem is its refutation."
  },
  {
   "property": "C131",
   "status": "partial",
   "theorems": [
    "C131_impossible_values_refuted"
   ],
   "note": "The property is false of the code; the theorem is its refutation."
  },
  {
   "property": "C132",
   "status": "partial",
   "theorems": [
    "C132_partition_count_refuted"
   ],
   "note": "The property is false of the code; the theorem is its refutation."
  },
  {
   "property": "C133",
   "status": "partial",
   "theorems": [
    "C133_dropped_cluster_refuted"
   ],
   "note": "The property is false of the code; the theorem is its refutation."
  },
  {
   "property": "C134",
   "status": "partial",
   "theorems": [
    "C134_out_channels_refuted"
   ],
   "note": "The property is false of the code; the theorem is its refutation."
  },
  {
   "property": "C135",
   "status": "partial",
   "theorems": [
    "C135_scope_coverage_refuted"
   ],
   "note": "The property is false of the code; the theorem is its refutation."
  },
  {
   "property": "C136",
   "status": "partial",
   "theorems": [
    "C136_reported_refuted"
   ],
   "note": "The property is false of the code; the theorem is its refutation."
  },
  {
   "property": "C137",
   "status": "partial",
   "theorems": [
    "C137_sampling_refuted"
   ],
   "note": "The property is false of the code; the theorem is its refutation."
  },
  {
   "property": "C138",
   "status": "partial",
   "theorems": [
    "C138_index_refuted"
   ],
   "note": "The property is false of the code; the theorem is its refutation."
  },
  {
   "property": "C139",
   "status": "partial",
   "theorems": [
    "C139_discrete_refuted"
   ],
   "note": "The property is false of the code; the theorem is its refutation."
  },
  {
   "property": "C140",
   "status": "partial",
   "theorems": [
    "C140_shape_refuted"
   ],
   "note": "The property is false of the code; the theorem is its refutation."
  },
  {
   "property": "C141",
   "status": "partial",
   "theorems": [
    "C141_empty_refuted"
   ],
   "note": "The property is false of the code; the theorem is its refutation."
  },
  {
   "property": "C142",
   "status": "partial",
   "theorems": [
    "C142_marginalize_refuted"
   ],
   "note": "The property is false of the code; the theorem is its refutation."
  },
  {
   "property": "C143",
   "status": "partial",
   "theorems": [
    "C143_overlap_refuted"
   ],
   "note": "The property is false of the code; the theorem is its refutation."
  },
  {
   "property": "C144",
   "status": "partial",
   "theorems": [
    "C144_weight_position_refuted"
   ],
   "note": "The property is false of the code; the theorem is its refutation."
  },
  {
   "property": "C145",
   "status": "partial",
   "theorems": [
    "C145_nested_refuted"
   ],
   "note": "The property is false of the code; the theorem is its refutation."
  },
  {
   "property": "C146",
   "status": "proved",
   "theorems": [
    "C146_monte_carlo_unbiased"
   ],
   "note": "Rows are independent draws of the law C09 proves for sample()."
  },
  {
   "property": "C147",
   "status": "proved",
   "theorems": [
    "C147_conditional_probability"
   ],
   "note": ""
  },
  {
   "property": "C148",
   "status": "proved",
   "theorems": [
    "C148_weight_of_evidence",
    "C148_value",
    "C148_batch"
   ],
   "note": ""
  },
  {
   "property": "C149",
   "status": "proved",
   "theorems": [
    "C149_leave_one_out"
   ],
   "note": ""
  },
  {
   "property": "C150",
   "status": "partial",
   "theorems": [
    "C150_contiguous_refuted"
   ],
   "note": "The property is false of the code; the theorem is its refutation."
  },
  {
   "property": "C151",
   "status": "partial",
   "theorems": [
    "C151_missing_entry_refuted"
   ],
   "note": "The property is false of the code; the theorem is its refutation."
  },
  {
   "property": "C152",
   "status": "partial",
   "theorems": [
    "C152_monte_carlo_refuted"
   ],
   "note": "The property is false of the code; the theorem is its refutation."
  },
  {
   "property": "C153",
   "status": "partial",
   "theorems": [
    "C153_logsumexp_refuted"
   ],
   "note": "The property is false of the code; the theorem is its refutation."
  },
  {
   "property": "C154",
   "status": "proved",
   "theorems": [
    "C154_sample",
    "C154_sample_with_evidence",
    "C154_sample_finite",
    "C154_sample_with_evidence_finite"
   ],
   "note": ""
  },
  {
   "property": "C155",
   "status": "proved",
   "theorems": [
    "C155_density",
    "C155_sample",
    "C155_sample_with_evidence"
   ],
   "note": ""
  },
  {
   "property": "C156",
   "status": "partial",
   "theorems": [
    "C156_odd_padding_refuted"
   ],
   "note": "The property is false of the code; the theorem is its refutation."
  },
  {
   "property": "C157",
   "status": "partial",
   "theorems": [
    "C157_padding_sampler_refuted"
   ],
   "note": "The property is false of the code; the theorem is its refutation."
  },
  {
   "property": "C158",
   "status": "partial",
   "theorems": [
    "C158_dropped_pixels_refuted"
   ],
   "note": "The property is false of the code; the theorem is its refutation."
  },
  {
   "property": "C159",
   "status": "partial",
   "theorems": [
    "C159_small_image_sampling_refuted"
   ],
   "note": "The property is false of the code; the theorem is its refutation."
  },
  {
   "property": "C160",
   "status": "partial",
   "theorems": [
    "C160_em_monotone_refuted",
    "C160_em_ties_positions"
   ],
   "note": "The property is false of the code; the theorem is its refutation."
  },
  {
   "property": "C161",
   "status": "partial",
   "theorems": [
    "C161_marginalize_weights_refuted"
   ],
   "note": "The property is false of the code; the theorem is its refutation."
  },
  {
   "property": "C162",
   "status": "partial",
   "theorems": [
    "C162_marginalize_pixel_refuted"
   ],
   "note": "The property is false of the code; the theorem is its refutation."
  },
  {
   "property": "C163",
   "status": "partial",
   "theorems": [
    "C163_nonsquare_refuted"
   ],
   "note": "The property is false of the code; the theorem is its refutation."
  },
  {
   "property": "C164",
   "status": "partial",
   "theorems": [
    "C164_duplicate_rows_refuted"
   ],
   "note": "The property is false of the code; the theorem is its refutation."
  },
  {
   "property": "C165",
   "status": "partial",
   "theorems": [
    "C165_marginalized_wrapper_refuted"
   ],
   "note": "The property is false of the code; the theorem is its refutation."
  },
  {
   "property": "C166",
   "status": "partial",
   "theorems": [
    "C166_scope_order_refuted"
   ],
   "note": "The property is false of the code; the theorem is its refutation."
  },
  {
   "property": "C167",
   "status": "partial",
   "theorems": [
    "C167_transposed_image_refuted"
   ],
   "note": "The property is false of the code; the theorem is its refutation."
  },
  {
   "property": "C168",
   "status": "proved",
   "theorems": [
    "C168_kruskal_min",
    "C168_kruskal_max",
    "C168_kruskal_checks"
   ],
   "note": ""
  },
  {
   "property": "C169",
   "status": "partial",
   "theorems": [
    "C169_maximize_returns_one_refuted"
   ],
   "note": "The property is false of the code; the theorem is its refutation."
  },
  {
   "property": "C170",
   "status": "proved",
   "theorems": [
    "C170_dropout_trees"
   ],
   "note": ""
  },
  {
   "property": "C171",
   "status": "partial",
   "theorems": [
    "C171_dropout_loses_trees_refuted"
   ],
   "note": "The property is false of the code; the theorem is its refutation."
  },
  {
   "property": "C172",
   "status": "partial",
   "theorems": [
    "C172_dropout_checked",
    "C172_dropout_unchecked_refuted"
   ],
   "note": "The property is false of the code for one tree; the second theorem is its refutation."
  },
  {
   "property": "C173",
   "status": "proved",
   "theorems": [
    "C173_binary_tables"
   ],
   "note": ""
  },
  {
   "property": "C174",
   "status": "partial",
   "theorems": [
    "C174_negative_weights_refuted"
   ],
   "note": "The property is false of the code; the theorem is its refutation."
  },
  {
   "property": "C175",
   "status": "partial",
   "theorems": [
    "C175_nan_is_one_refuted",
    "C175_categorical_rejects_nan"
   ],
   "note": "The property is false of the binary functions; the first theorem is the refutation."
  },
  {
   "property": "C176",
   "status": "proved",
   "theorems": [
    "C176_mi_binary",
    "C176_mi_binary_unweighted"
   ],
   "note": ""
  },
  {
   "property": "C177",
   "status": "proved",
   "theorems": [
    "C177_mi_categorical",
    "C177_mi_categorical_unweighted",
    "C177_num_cats",
    "C177_chunk_size"
   ],
   "note": ""
  },
  {
   "property": "C178",
   "status": "proved",
   "theorems": [
    "C178_chow_liu_binary",
    "C178_chow_liu_categorical"
   ],
   "note": ""
  },
  {
   "property": "C179",
   "status": "proved",
   "theorems": [
    "C179_build",
    "C179_checks",
    "C179_latent_tree",
    "C179_normalised",
    "C179_initial"
   ],
   "note": ""
  },
  {
   "property": "C180",
   "status": "partial",
   "theorems": [
    "C180_random_init_refuted"
   ],
   "note": "The property is false of the code; the theorem is its refutation."
  },
  {
   "property": "C181",
   "status": "proved",
   "theorems": [
    "C181_binary",
    "C181_binary_rejects_nan",
    "C181_categorical",
    "C181_best_trees",
    "C181_normalised"
   ],
   "note": ""
  },
  {
   "property": "C182",
   "status": "proved",
   "theorems": [
    "C182_value"
   ],
   "note": ""
  },
  {
   "property": "C183",
   "status": "proved",
   "theorems": [
    "C183_normalised"
   ],
   "note": ""
  },
  {
   "property": "C184",
   "status": "proved",
   "theorems": [
    "C184_construction"
   ],
   "note": ""
  },
  {
   "property": "C185",
   "status": "partial",
   "theorems": [
    "C185_three_channels_refuted"
   ],
   "note": "The property is false of the code; the theorem is its refutation."
  },
  {
   "property": "C186",
   "status": "partial",
   "theorems": [
    "C186_num_splits_refuted"
   ],
   "note": "The property is false of the code; the theorem is its refutation."
  },
  {
   "property": "C187",
   "status": "proved",
   "theorems": [
    "C187_nan"
   ],
   "note": ""
  },
  {
   "property": "C188",
   "status": "partial",
   "theorems": [
    "C188_possible_row_refuted"
   ],
   "note": "The property is false of the code; the theorem is its refutation."
  },
  {
   "property": "C189",
   "status": "proved",
   "theorems": [
    "C189_value"
   ],
   "note": ""
  },
  {
   "property": "C190",
   "status": "proved",
   "theorems": [
    "C190_normalised"
   ],
   "note": ""
  },
  {
   "property": "C191",
   "status": "proved",
   "theorems": [
    "C191_construction"
   ],
   "note": ""
  },
  {
   "property": "C192",
   "status": "proved",
   "theorems": [
    "C192_nan"
   ],
   "note": ""
  },
  {
   "property": "C193",
   "status": "partial",
   "theorems": [
    "C193_possible_row_refuted"
   ],
   "note": "The property is false of the code; the theorem is its refutation."
  },
  {
   "property": "C194",
   "status": "proved",
   "theorems": [
    "C194_rat_posterior"
   ],
   "note": ""
  },
  {
   "property": "C195",
   "status": "proved",
   "theorems": [
    "C195_ein_posterior"
   ],
   "note": ""
  },
  {
   "property": "C196",
   "status": "proved",
   "theorems": [
    "C196_posterior_nan"
   ],
   "note": ""
  },
  {
   "property": "C197",
   "status": "proved",
   "theorems": [
    "C197_conditional"
   ],
   "note": ""
  },
  {
   "property": "C198",
   "status": "proved",
   "theorems": [
    "C198_unconditional"
   ],
   "note": ""
  },
  {
   "property": "C199",
   "status": "proved",
   "theorems": [
    "C199_general"
   ],
   "note": ""
  },
  {
   "property": "C200",
   "status": "proved",
   "theorems": [
    "C200_several_roots"
   ],
   "note": ""
  },
  {
   "property": "C201",
   "status": "partial",
   "theorems": [
    "C201_several_roots_refuted"
   ],
   "note": "The property is false of the code; the theorem is its refutation."
  },
  {
   "property": "C202",
   "status": "proved",
   "theorems": [
    "C202_sample_marginal"
   ],
   "note": ""
  },
  {
   "property": "C203",
   "status": "partial",
   "theorems": [
    "C203_sample_ignores_evidence_refuted"
   ],
   "note": "The property is false of the code; the theorem is its refutation."
  },
  {
   "property": "C204",
   "status": "proved",
   "theorems": [
    "C204_einet_conditional"
   ],
   "note": ""
  },
  {
   "property": "C205",
   "status": "proved",
   "theorems": [
    "C205_einet_classes"
   ],
   "note": ""
  },
  {
   "property": "C206",
   "status": "proved",
   "theorems": [
    "C206_rat_keeps",
    "C206_einet_keeps"
   ],
   "note": ""
  },
  {
   "property": "C207",
   "status": "partial",
   "theorems": [
    "C207_single_repetition_leaf_refuted"
   ],
   "note": "The property is false of the code; the theorem is its refutation."
  },
  {
   "property": "C208",
   "status": "proved",
   "theorems": [
    "C208_compiled_is_trained",
    "C208_accepts"
   ],
   "note": ""
  },
  {
   "property": "C209",
   "status": "proved",
   "theorems": [
    "C209_accepted"
   ],
   "note": ""
  },
  {
   "property": "C210",
   "status": "proved",
   "theorems": [
    "C210_normalised"
   ],
   "note": ""
  },
  {
   "property": "C211",
   "status": "proved",
   "theorems": [
    "C211_learner",
    "C211_models"
   ],
   "note": ""
  },
  {
   "property": "C212",
   "status": "proved",
   "theorems": [
    "C212_early_stopping",
    "C212_patience",
    "C212_plain"
   ],
   "note": ""
  },
  {
   "property": "C213",
   "status": "partial",
   "theorems": [
    "C213_best_refuted",
    "C213_nan_first"
   ],
   "note": "The property is false of the code; the theorem is its refutation."
  },
  {
   "property": "C214",
   "status": "proved",
   "theorems": [
    "C214_minibatches"
   ],
   "note": ""
  },
  {
   "property": "C215",
   "status": "proved",
   "theorems": [
    "C215_weights",
    "C215_unit"
   ],
   "note": ""
  },
  {
   "property": "C216",
   "status": "proved",
   "theorems": [
    "C216_accepted",
    "C216_value",
    "C216_is_trained"
   ],
   "note": ""
  },
  {
   "property": "C217",
   "status": "proved",
   "theorems": [
    "C217_normalised"
   ],
   "note": ""
  },
  {
   "property": "C218",
   "status": "proved",
   "theorems": [
    "C218_single_component"
   ],
   "note": ""
  },
  {
   "property": "C219",
   "status": "partial",
   "theorems": [
    "C219_sampling_refuted"
   ],
   "note": "The property is false of the code; the theorem is its refutation."
  },
  {
   "property": "C220",
   "status": "partial",
   "theorems": [
    "C220_marginalize_refuted"
   ],
   "note": "The property is false of the code; the theorem is its refutation."
  },
  {
   "property": "C221",
   "status": "proved",
   "theorems": [
    "C221_gradient_descent"
   ],
   "note": ""
  },
  {
   "property": "C222",
   "status": "proved",
   "theorems": [
    "C222_succeeds_iff",
    "C222_batches"
   ],
   "note": ""
  },
  {
   "property": "C223",
   "status": "proved",
   "theorems": [
    "C223_epoch_callback"
   ],
   "note": ""
  },
  {
   "property": "C224",
   "status": "partial",
   "theorems": [
    "C224_kept_lists_refuted",
    "C224_one_object"
   ],
   "note": "The property is false of the code; the theorem is its refutation."
  },
  {
   "property": "C225",
   "status": "proved",
   "theorems": [
    "C225_validation_schedule",
    "C225_no_influence"
   ],
   "note": ""
  },
  {
   "property": "C226",
   "status": "proved",
   "theorems": [
    "C226_exceptions"
   ],
   "note": ""
  },
  {
   "property": "C227",
   "status": "partial",
   "theorems": [
    "C227_mode_refuted",
    "C227_empty_loader_raises"
   ],
   "note": "The property is false of the code; the theorem is its refutation."
  },
  {
   "property": "C228",
   "status": "proved",
   "theorems": [
    "C228_accuracy"
   ],
   "note": ""
  },
  {
   "property": "C229",
   "status": "proved",
   "theorems": [
    "C229_default_rate"
   ],
   "note": ""
  },
  {
   "property": "C230",
   "status": "partial",
   "theorems": [
    "C230_first_rate_refuted",
    "C230_single_epoch"
   ],
   "note": "The property is false of the code; the theorem is its refutation."
  },
  {
   "property": "C231",
   "status": "proved",
   "theorems": [
    "C231_scores"
   ],
   "note": ""
  },
  {
   "property": "C232",
   "status": "proved",
   "theorems": [
    "C232_accepted"
   ],
   "note": ""
  },
  {
   "property": "C233",
   "status": "proved",
   "theorems": [
    "C233_normalised"
   ],
   "note": ""
  },
  {
   "property": "C234",
   "status": "partial",
   "theorems": [
    "C234_normalised_refuted",
    "C234_logsumexp_total"
   ],
   "note": "The property is false of the code; the theorem is its refutation."
  },
  {
   "property": "C235",
   "status": "proved",
   "theorems": [
    "C235_sample",
    "C235_rng_kept"
   ],
   "note": ""
  },
  {
   "property": "C236",
   "status": "partial",
   "theorems": [
    "C236_fresh_samples_refuted",
    "C236_unseeded_repeats"
   ],
   "note": "The property is false of the code; the theorem is its refutation."
  },
  {
   "property": "C237",
   "status": "proved",
   "theorems": [
    "C237_fit"
   ],
   "note": ""
  },
  {
   "property": "C238",
   "status": "partial",
   "theorems": [
    "C238_failed_fit_refuted",
    "C238_given_model"
   ],
   "note": "The property is false of the code; the theorem is its refutation."
  },
  {
   "property": "C239",
   "status": "proved",
   "theorems": [
    "C239_predict",
    "C239_labels_sorted",
    "C239_standard_labels"
   ],
   "note": ""
  },
  {
   "property": "C240",
   "status": "partial",
   "theorems": [
    "C240_missing_label_refuted",
    "C240_raises"
   ],
   "note": "The property is false of the code; the theorem is its refutation."
  },
  {
   "property": "C241",
   "status": "proved",
   "theorems": [
    "C241_groups",
    "C241_apart",
    "C241_raises"
   ],
   "note": ""
  },
  {
   "property": "C242",
   "status": "proved",
   "theorems": [
    "C242_value",
    "C242_features"
   ],
   "note": ""
  },
  {
   "property": "C243",
   "status": "proved",
   "theorems": [
    "C243_search"
   ],
   "note": ""
  },
  {
   "property": "C244",
   "status": "proved",
   "theorems": [
    "C244_ranks",
    "C244_invariant"
   ],
   "note": ""
  },
  {
   "property": "C245",
   "status": "partial",
   "theorems": [
    "C245_ties_refuted",
    "C245_constant"
   ],
   "note": "The property is false of the code; the theorem is its refutation."
  },
  {
   "property": "C246",
   "status": "partial",
   "theorems": [
    "C246_several_refuted",
    "C246_variables"
   ],
   "note": "The property is false of the code; the theorem is its refutation."
  },
  {
   "property": "C247",
   "status": "proved",
   "theorems": [
    "C247_construct"
   ],
   "note": ""
  },
  {
   "property": "C248",
   "status": "proved",
   "theorems": [
    "C248_value",
    "C248_total"
   ],
   "note": ""
  },
  {
   "property": "C249",
   "status": "partial",
   "theorems": [
    "C249_setter_refuted",
    "C249_setter",
    "C249_negative_as_zero"
   ],
   "note": "The property is false of the code; the theorem is its refutation."
  },
  {
   "property": "C250",
   "status": "proved",
   "theorems": [
    "C250_sample"
   ],
   "note": ""
  },
  {
   "property": "C251",
   "status": "partial",
   "theorems": [
    "C251_conditions_refuted"
   ],
   "note": "The property is false of the code; the theorem is its refutation."
  },
  {
   "property": "C252",
   "status": "proved",
   "theorems": [
    "C252_marginalize"
   ],
   "note": ""
  },
  {
   "property": "C253",
   "status": "proved",
   "theorems": [
    "C253_triple_product"
   ],
   "note": ""
  },
  {
   "property": "C254",
   "status": "proved",
   "theorems": [
    "C254_constructor"
   ],
   "note": ""
  },
  {
   "property": "C255",
   "status": "proved",
   "theorems": [
    "C255_density",
    "C255_accepts"
   ],
   "note": ""
  },
  {
   "property": "C256",
   "status": "partial",
   "theorems": [
    "C256_missing_refuted"
   ],
   "note": "The property is false of the code; the theorem is its refutation."
  },
  {
   "property": "C257",
   "status": "partial",
   "theorems": [
    "C257_marginalize_refuted"
   ],
   "note": "The property is false of the code; the theorem is its refutation."
  },
  {
   "property": "C258",
   "status": "partial",
   "theorems": [
    "C258_monotone_unchecked_refuted"
   ],
   "note": "The property is false of the code; the theorem is its refutation."
  },
  {
   "property": "C259",
   "status": "partial",
   "theorems": [
    "C259_underflow_refuted"
   ],
   "note": "The property is false of the code; the theorem is its refutation."
  },
  {
   "property": "C260",
   "status": "proved",
   "theorems": [
    "C260_accepts_iff"
   ],
   "note": ""
  },
  {
   "property": "C261",
   "status": "proved",
   "theorems": [
    "C261_pairwise",
    "C261_short"
   ],
   "note": ""
  },
  {
   "property": "C262",
   "status": "proved",
   "theorems": [
    "C262_inner_product"
   ],
   "note": ""
  },
  {
   "property": "C263",
   "status": "partial",
   "theorems": [
    "C263_no_inner_product_refuted"
   ],
   "note": "The property is false of the code; the theorem is its refutation."
  },
  {
   "property": "C264",
   "status": "partial",
   "theorems": [
    "C264_other_modules_refuted"
   ],
   "note": "The property is false of the code; the theorem is its refutation."
  },
  {
   "property": "C265",
   "status": "proved",
   "theorems": [
    "C265_region_tree",
    "C265_accepts",
    "C265_shape"
   ],
   "note": ""
  },
  {
   "property": "C266",
   "status": "proved",
   "theorems": [
    "C266_constructor"
   ],
   "note": ""
  },
  {
   "property": "C267",
   "status": "proved",
   "theorems": [
    "C267_even_trees"
   ],
   "note": ""
  },
  {
   "property": "C268",
   "status": "partial",
   "theorems": [
    "C268_units_refuted"
   ],
   "note": "The property is false of the code; the theorem is its refutation."
  },
  {
   "property": "C269",
   "status": "proved",
   "theorems": [
    "C269_components",
    "C269_density"
   ],
   "note": ""
  },
  {
   "property": "C270",
   "status": "proved",
   "theorems": [
    "C270_structured"
   ],
   "note": ""
  },
  {
   "property": "C271",
   "status": "proved",
   "theorems": [
    "C271_constructor",
    "C271_density"
   ],
   "note": ""
  },
  {
   "property": "C272",
   "status": "proved",
   "theorems": [
    "C272_initial_weights"
   ],
   "note": ""
  },
  {
   "property": "C273",
   "status": "partial",
   "theorems": [
    "C273_sampling_refuted"
   ],
   "note": "The property is false of the code; the theorem is its refutation."
  },
  {
   "property": "C274",
   "status": "partial",
   "theorems": [
    "C274_marginalize_refuted"
   ],
   "note": "The property is false of the code; the theorem is its refutation."
  },
  {
   "property": "C275",
   "status": "proved",
   "theorems": [
    "C275_accepts",
    "C275_result"
   ],
   "note": ""
  },
  {
   "property": "C276",
   "status": "proved",
   "theorems": [
    "C276_value",
    "C276_grid",
    "C276_end_to_end",
    "C276_by_scope"
   ],
   "note": ""
  },
  {
   "property": "C277",
   "status": "proved",
   "theorems": [
    "C277_marginal",
    "C277_total"
   ],
   "note": ""
  },
  {
   "property": "C278",
   "status": "partial",
   "theorems": [
    "C278_cp_refuted"
   ],
   "note": "The property is false of the code; the theorem is its refutation."
  },
  {
   "property": "C279",
   "status": "partial",
   "theorems": [
    "C279_alternatives_refuted"
   ],
   "note": "The property is false of the code; the theorem is its refutation."
  },
  {
   "property": "C280",
   "status": "partial",
   "theorems": [
    "C280_f_sharing_refuted"
   ],
   "note": "The property is false of the code; the theorem is its refutation."
  },
  {
   "property": "C281",
   "status": "partial",
   "theorems": [
    "C281_nary_groups_refuted"
   ],
   "note": "The property is false of the code; the theorem is its refutation."
  },
  {
   "property": "C282",
   "status": "proved",
   "theorems": [
    "C282_sos_seeds",
    "C282_exp_seeds"
   ],
   "note": ""
  },
  {
   "property": "C283",
   "status": "proved",
   "theorems": [
    "C283_end_to_end"
   ],
   "note": ""
  },
  {
   "property": "C284",
   "status": "proved",
   "theorems": [
    "C284_marginal",
    "C284_total"
   ],
   "note": ""
  },
  {
   "property": "C285",
   "status": "proved",
   "theorems": [
    "C285_groups"
   ],
   "note": ""
  },
  {
   "property": "C286",
   "status": "proved",
   "theorems": [
    "C286_recursion",
    "C286_weights"
   ],
   "note": ""
  },
  {
   "property": "C287",
   "status": "proved",
   "theorems": [
    "C287_total"
   ],
   "note": ""
  },
  {
   "property": "C288",
   "status": "proved",
   "theorems": [
    "C288_normalised",
    "C288_params",
    "C288_circuit"
   ],
   "note": ""
  },
  {
   "property": "C289",
   "status": "proved",
   "theorems": [
    "C289_chunks",
    "C289_tucker_auto"
   ],
   "note": ""
  },
  {
   "property": "C290",
   "status": "partial",
   "theorems": [
    "C290_single_region_refuted"
   ],
   "note": "The property is false of the code; the theorem is its refutation."
  },
  {
   "property": "C291",
   "status": "partial",
   "theorems": [
    "C291_categorical_refuted"
   ],
   "note": "The property is false of the code; the theorem is its refutation."
  },
  {
   "property": "C292",
   "status": "proved",
   "theorems": [
    "C292_missing_function"
   ],
   "note": ""
  },
  {
   "property": "C293",
   "status": "proved",
   "theorems": [
    "C293_latent_stats"
   ],
   "note": ""
  },
  {
   "property": "C294",
   "status": "proved",
   "theorems": [
    "C294_row_kl"
   ],
   "note": ""
  },
  {
   "property": "C295",
   "status": "proved",
   "theorems": [
    "C295_decode_mode"
   ],
   "note": ""
  },
  {
   "property": "C296",
   "status": "proved",
   "theorems": [
    "C296_kl_nonneg"
   ],
   "note": ""
  },
  {
   "property": "C297",
   "status": "proved",
   "theorems": [
    "C297_objective"
   ],
   "note": ""
  },
  {
   "property": "C298",
   "status": "proved",
   "theorems": [
    "C298_evaluate_batching"
   ],
   "note": ""
  },
  {
   "property": "C299",
   "status": "proved",
   "theorems": [
    "C299_fit"
   ],
   "note": ""
  },
  {
   "property": "C300",
   "status": "partial",
   "theorems": [
    "C300_any_iterable_refuted",
    "C300_generators_fail"
   ],
   "note": "The property is false of the code; the theorem is its refutation. Re-iterable data are C299."
  },
  {
   "property": "C301",
   "status": "proved",
   "theorems": [
    "C301_evaluate_pure"
   ],
   "note": ""
  },
  {
   "property": "C302",
   "status": "partial",
   "theorems": [
    "C302_mode_restored_refuted",
    "C302_raise"
   ],
   "note": "The property is false of the code; the theorem is its refutation."
  },
  {
   "property": "C303",
   "status": "proved",
   "theorems": [
    "C303_joint_encoder"
   ],
   "note": ""
  },
  {
   "property": "C304",
   "status": "proved",
   "theorems": [
    "C304_mpe_evidence",
    "C304_mpe"
   ],
   "note": ""
  },
  {
   "property": "C305",
   "status": "partial",
   "theorems": [
    "C305_rat_marginalize_refuted",
    "C305_raises"
   ],
   "note": "The property is false of the code; the theorem is its refutation."
  },
  {
   "property": "C306",
   "status": "partial",
   "theorems": [
    "C306_nothing_refuted",
    "C306_nothing_raises"
   ],
   "note": "The property is false of the code; the theorem is its refutation."
  },
  {
   "property": "C307",
   "status": "proved",
   "theorems": [
    "C307_whole",
    "C307_nothing"
   ],
   "note": ""
  },
  {
   "property": "C308",
   "status": "proved",
   "theorems": [
    "C308_density",
    "C308_normalised",
    "C308_circuit"
   ],
   "note": ""
  },
  {
   "property": "C309",
   "status": "proved",
   "theorems": [
    "C309_mode",
    "C309_mode_positive"
   ],
   "note": ""
  },
  {
   "property": "C310",
   "status": "proved",
   "theorems": [
    "C310_log_is_normal"
   ],
   "note": ""
  },
  {
   "property": "C311",
   "status": "proved",
   "theorems": [
    "C311_mle"
   ],
   "note": ""
  },
  {
   "property": "C312",
   "status": "proved",
   "theorems": [
    "C312_log_likelihood"
   ],
   "note": ""
  },
  {
   "property": "C313",
   "status": "partial",
   "theorems": [
    "C313_by_index_refuted",
    "C313_by_index_raises"
   ],
   "note": "The property is false of the code; the theorem is its refutation."
  },
  {
   "property": "C314",
   "status": "proved",
   "theorems": [
    "C314_split_marginalize"
   ],
   "note": ""
  },
  {
   "property": "C315",
   "status": "partial",
   "theorems": [
    "C315_count_refuted",
    "C315_output_count",
    "C315_too_few"
   ],
   "note": "The property is false of the code; the theorem is its refutation."
  },
  {
   "property": "C316",
   "status": "proved",
   "theorems": [
    "C316_bias_corrected"
   ],
   "note": ""
  },
  {
   "property": "C317",
   "status": "proved",
   "theorems": [
    "C317_interval"
   ],
   "note": ""
  },
  {
   "property": "C318",
   "status": "partial",
   "theorems": [
    "C318_unbounded_refuted",
    "C318_no_lower_bound",
    "C318_negative_bound"
   ],
   "note": "The property is false of the code; the theorem is its refutation."
  },
  {
   "property": "C319",
   "status": "proved",
   "theorems": [
    "C319_mle_leaf"
   ],
   "note": ""
  },
  {
   "property": "C320",
   "status": "partial",
   "theorems": [
    "C320_bias_corrected_refuted"
   ],
   "note": "The property is false of the code; the theorem is its refutation."
  }
 ]
}