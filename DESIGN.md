# Design

A machine-checked model of SPFlow (pinned commit, /repo) in Coq 8.16.1, in `rocq/theories`.

## Method
* Gallina functions mirror the Python branch by branch; every definition cites file and lines. Exceptions are values
  (`Err`, `Raise`). Proofs live in separate files; the property theorems are in the `P_*.v` files, each closed with
  `exact` (or a short adapter) and followed by `Print Assumptions` and a concrete instance showing that the hypotheses
  are satisfiable.
* `*Spec.v` files hold the vocabulary a theorem's statement uses beyond the model itself.
* Where the code violates a natural claim, the claim is kept as a property of its own, a theorem `..._refuted` proves
  a counterexample about the model, and the guarded claim that does hold is another property.
* Mutation testing: `seeded/LOG.jsonl` lists edits of the model (one realistic bug each), the claim each breaks and
  the theorems that then fail.

## Trusted base
* Coq's kernel (8.16.1) and standard library; Coquelicot (improper integrals, series) and its dependencies, which add no axioms.
* `Print Assumptions` of every property theorem lists a subset of: `ClassicalDedekindReals.sig_forall_dec`,
  `ClassicalDedekindReals.sig_not_dec`, `FunctionalExtensionality.functional_extensionality_dep`, `Classical_Prop.classic`
  (the standard library's axioms of the real numbers and of function extensionality). Theorems about lists and
  numbers only are closed under the global context.
* The reading of Python/torch/numpy/einops semantics documented in the comments.

## Idealisations (apply everywhere unless a definition says otherwise)
* Floats are real numbers; log-domain values are `lval` (-inf or a real). No rounding, overflow, underflow. (The
  maximum-likelihood model has NaN and infinities and an abstract `ulp`.)
* A batch is processed row by row. Tensors are functions from indices together with their extents.
* Randomness: `prog` (Ret/Raise/Choose/Draw) with expectation semantics: torch's Categorical draws index i with its
  probability and a leaf's `dist.sample` follows the leaf's density. Only integer (non-differentiable) routing.
* Weights that are stored as logits are compared through the softmax.

## What is modelled
| File | Code |
|---|---|
| ScopeModel | `spflow/meta/data/scope.py` |
| CircuitModel, MargModel | `modules/{leaves/leaf,sums/sum,products/product,ops/cat}.py`: constructors, shapes, feature_to_scope, log_likelihood, weights, marginalize |
| SampleModel | `sample`, `mpe`, `_sample` of the same modules, evidence cache, `Module.sample/_prepare_sample_data` |
| CacheModel | `utils/cache.py`: memoisation over a DAG of modules |
| EmModel, EmDagModel | `learn/expectation_maximization.py`, `Sum._expectation_maximization_step`; leaf updates abstract |
| SplitModel | `modules/ops/split*.py` |
| LayerModel | OuterProduct, ElementwiseProduct, ElementwiseSum, Einsum, Linsum, RepetitionMixing layers |
| CtxModel | `utils/sampling_context.py` as a mutable object; routing tensors |
| LeafModel, MleModel | leaf families (Bernoulli, Categorical, Binomial, Geometric, Poisson, NegativeBinomial, Hypergeometric, Uniform, Exponential, Laplace, Normal), projections, maximum-likelihood estimation |
| SignedModel | `utils/signed_semiring.py`, SignedSum, SignedCategorical, `inner_product_core.py` (pairwise), SOCS, `build_socs.py` |
| IvModel | `meta/data/interval_evidence.py`, `utils/range_inference.py`, interval scores of the leaf families |
| HistModel | `modules/leaves/histogram.py` (not the differentiable sampler), `utils/histogram.py` |
| CltModel | spflow/modules/leaves/cltree.py (all of it except the raising modes of sampling); leaf.py marginalize and column resolution as used by it |
| RegionModel | `meta/region_graph.py` (regions as finite values, set membership by hash and equality) |
| ReplaceModel | `utils/replace.py` over a class table with method resolution order (bound methods and descriptors other than staticmethod not modelled) |
| PosteriorModel | `utils/inference.py`, `interfaces/classifier.py`, posteriors and priors of RatSPN, Einet, NaiveBayes; `RatSPN.sample` |
| StatsModel | `utils/structure_stats.py` (not the text formatting) |
| FactorModel | `modules/rat/factorize.py` (random draws as arguments; not differentiable routing, nor marginalize of inputs whose features span several variables) |
| PruneModel | `learn/learn_spn.py` 22-80 (prune_sums, as a function from circuits to circuits) |
| LearnModel | `learn/learn_spn.py` 83-143, 178-423 (clustering, partitioning, leaf estimation and random weights are oracles; scopes without evidence; not partition_by_rdc / cluster_by_kmeans) |
| CnetModel | `learn/cnet.py` 32-59, 83-315 (leaf estimation is an oracle; ties of round() upwards; scopes without evidence) |
| PromModel | `learn/prometheus.py` 41-55, 82-105, 131-213, 239-602 (k-means and rdc are oracles; networkx graphs are edge lists, spanning trees by Kruskal with a stable sort; scopes without evidence) |
| PwlModel | `modules/leaves/piecewise_linear.py` except _sample's routing 713-830 (k-means is an oracle; torch.histogram with NaN densities is an error); `utils/domain.py` |
| DslModel | `dsl.py` (devices, dtypes, non-finite weights omitted) |
| MeasureModel | `measures/_utils.py`, `measures/information_theory.py`, `measures/weight_of_evidence.py` (seeding, devices, tensors below four dimensions omitted) |
| ConvModel | `modules/conv/sum_conv.py`, `modules/conv/prod_conv.py`, `modules/conv/utils.py`, `zoo/conv/conv_pc.py` (one row at a time; the marginalisation cache, devices and dtypes omitted) |
| ImageModel | `modules/wrapper/image_wrapper.py` over circuits of CircuitModel (one image at a time; EM delegation, devices, aliasing omitted) |
| MstModel | `zoo/hclt/topk_mst.py` (real weights, random masks as given functions) |
| HcltMiModel | `zoo/hclt/mi.py`, `zoo/hclt/chow_liu.py` (real arithmetic; dtype and device moves omitted) |
| HcltModel | zoo/hclt/learn.py (devices and dtypes not modelled) |
| StackModel | `zoo/rat/rat_spn.py`, `zoo/einet/einet.py`: construction and log_likelihood of the whole models (one data row; by_index splits not modelled) |
| StackPostModel | class posteriors and predictions of `zoo/rat/rat_spn.py`, `zoo/einet/einet.py` on the models of StackModel |
| StackSampleModel | sampling of `zoo/rat/rat_spn.py`, `zoo/einet/einet.py` through every layer of the models of StackModel (one data row, integer routing; the Gumbel routing of is_differentiable=True is not modelled) |
| CmsModel | `zoo/cms/{rqmc,continuous_mixtures,joint}.py`: component and mixture scores, compilation to circuits / tree mixtures, early stopping, mini-batches, the factorised learner, log_likelihood/sample/marginalize of the compiled tree mixture. Decoder network, optimiser and Sobol points are abstract; finite cells only |
| GdModel | `learn/gradient_descent.py`: the training loop as a state machine with metrics, callbacks, validation, modes, exceptions and the default MultiStepLR rates. Forward pass/loss, predictions and optimiser step are abstract; Python lists passed to callbacks are heap objects; callbacks do not raise |
| SkModel | `interfaces/sklearn.py`: aggregation of log-likelihood tensors, the estimator's fit/sample state machine (generator state explicit), the classifier wrapper's labels. Array conversion, dtypes, devices not modelled; learners, MLE and drawing abstract |
| RdcModel | `utils/rdc.py` (torch version, n = 1), `learn/learn_spn.py` partition_by_rdc. argsort, random projections and eigenvalue computation abstract; the median over n repetitions and the NumPy version not modelled |
| WsModel | `zoo/pic/weighted_sum.py` over circuits of leaves, Sum, Product and Cat; integer routing |
| TripleModel | `utils/inner_product_core.py` 619-1093 (triples of NegativeBinomial, Histogram, PiecewiseLinear leaves and the memo tables not modelled), `zoo/sos/exp_socs.py` |
| CompatModel | `utils/compatibility.py` (error messages not modelled; modules as finite graphs with object identities) |
| ZsModel | `zoo/sos/models.py` (generators are arbitrary functions of seed and place; counts are naturals; the forwarding methods log_likelihood, sample and marginalize are those of SOCS/ExpSOCS) |
| PicModel | `zoo/pic/pipeline.py` (rg2pic; pic2qpc with mode="expanded"), `zoo/pic/integral.py`, function groups of `functional_sharing.py` (the networks themselves are arbitrary functions); materialised modules are scope, shape and log-likelihood; the memo table and devices not modelled; tensorized mode not modelled |
| TqModel | `zoo/pic/tensorized/qpc.py` (the folded plan `_build_folded_layers`, InnerNet's normalisation, leaf types, `log_likelihood` for one row without missing entries) with `eval_tucker`/`eval_collapsed_cp`/`eval_mixing`/masked softmax of `tensorized/utils.py`; networks are arbitrary functions up to their last layer; the maximum subtraction of log_func_exp cancels in exact arithmetic and is left out; devices and the other layer classes not modelled |
| ApcModel | `zoo/apc/encoders/latent_stats.py` (per entry and per row; shape checks and record lookup not modelled; reals for floats, `eps` a parameter) |
| ApcTrainModel | `zoo/apc/model.py` loss_components and `zoo/apc/train.py` (encoder answers, decoder and likelihoods are arbitrary functions of the sample, so sampling noise is fixed per sample; backward, clipping and optimizer step are one arbitrary update; the loss of an empty batch is an error instead of NaN) |
| ApcEncModel | `zoo/apc/encoders/einet_joint_encoder.py` construction and `joint_pc_base.py` evidence and likelihoods, on the Einet model (StackModel); posterior sampling not modelled |
| MpeSpec | specification only (positivity of sum weights, modes of leaves); the theorems of C304 are about SampleModel and CircuitModel |
| RatMargModel | `zoo/rat/rat_spn.py` marginalize on the stacks of StackModel (Sum/RepetitionMixingLayer/product cases; the masking of weights after a partial request and the layers below are left out: no RatSPN request reaches them) |
| LogNormalModel | `leaves/log_normal.py` (log_prob, mode, supported value, one-row log_likelihood with validation, per-entry MLE); conditional parameters, sampling and values ≤ 0 in the MLE are not modelled | C308-C312: change of variables ln, limit of the normal integral at 0+, completion of squares, reduction of the MLE to the normal one |
| SplitMargModel | `modules/ops/split.py` marginalize for the three split classes along features, over inputs of CircuitModel (marginalize of MargModel); dim 0 and 2 not modelled | C313-C315: by C05 for the input, locality when nothing is named, counting of chunks |
| LogNormalIvModel | interval evidence on a log-normal leaf (leaf.py default implementation, torch's LogNormal.cdf as the normal cdf of the logarithm) | C317, C318: the antiderivative of C308 and the interval lemma of C32 |
| LogNormalFitModel | maximum_likelihood_estimation of a whole log-normal leaf (leaf.py: NaN rows, weight normalisation, one estimate per entry) | C319, C320: C310 through the column lemmas of MleModel; a two-feature counterexample |

## What is not modelled
GPU/dtype handling, autograd and gradient-descent training, differentiable (one-hot) sampling through whole circuits,
conditional leaves with parameter networks, visualisation and display utilities, the scikit-learn interface,
einet/apc/cms/pic model zoo entries, rdc, and everything named in a definition's comment.

## Per property
* **C01 Circuits are normalised distributions** (proved) — CircuitModel (module inductive: leaf/Sum/Product/Cat with the constructors' checks, `evalm` = log_likelihood). Proof: C02 iterated over the feature's scope, for an abstract linear per-variable functional, instantiated with finite sums, series and improper Riemann integrals. Theorems: `C01_normalised`, `C01_normalised_scope`. sums over finite domains, series over N, improper Riemann integrals over R; aligned = equal feature_to_scope of the inputs of channel-wise Cats
* **C02 NaN entries marginalise exactly** (proved) — Same model; induction over the module, linearity at Sum, locality + decomposability at Product. Theorems: `C02_nan_marginal`. 
* **C03 A fully missing row has probability one** (proved) — Same model; induction over the module. Theorems: `C03_all_missing`. no alignment hypothesis needed
* **C04 Likelihood depends only on the scope** (proved) — Same model; induction over the module. Theorems: `C04_scope_only`, `C04_feature_only`. 
* **C05 Structural marginalisation equals NaN marginalisation** (proved) — Model of the four marginalize methods; induction over the module, weight masking vs. surviving features. The broadcast-repetition case is expected to be refuted (IndexError). Theorems: `C05_marginalize`, `C05_marginalize_single`. leaf parameters are indexed by surviving feature; leaf classes overriding marginalized_params are not covered
* **C06 Sum weights always form convex combinations** (proved) — Model of the weights/log_weights setters, getters and EM update as operations on a logits tensor; invariant over operation lists. Theorems: `C06_weights_convex`, `C06_assign_read`, `C06_accepts_exactly`. floats idealised as reals
* **C07 Constructors only build smooth and decomposable circuits** (proved) — `mk_cat`, `mk_product`, `mk_sum` return Err/Ok like the Python constructors; theorem about every built module. Theorems: `C07_smooth_decomposable`, `C07_cat_accepts_exactly`. 
* **C08 Declared output shape is the actual output shape** (proved) — Shape function of the tensors log_likelihood really returns (with broadcasting) against out_shape; expected refutation for Sum's default num_repetitions. Theorems: `C08_shape`. 
* **C09 Unconditional sampling follows the density** (proved) — Sampling as a finite weighted list of outcomes (per row); expectation identity for every test function, by induction over the module. Theorems: `C09_sample_follows_density`, `C09_sample_new_follows_density`, `C09_sample_expectations`. torch Categorical / leaf distribution.sample are assumed to follow their stated densities
* **C10 Sampling with evidence follows the exact conditional** (proved) — As C09 with the cached evidence log-likelihoods; sample(data=e) without cache expected to be refuted. Theorems: `C10_conditional_sampling`, `C10_conditional_expectations`. 
* **C11 Sampling never changes evidence** (proved) — As C09: frame condition on every outcome. Theorems: `C11_sample_keeps`, `C11_evidence_keeps`. 
* **C12 mpe returns a most probable completion** (partial) — Greedy argmax pass modelled; expected refutation (mixture of a diffuse heavy and a peaked light component); positive part for sum-free circuits. Theorems: `C12_mpe_refuted`. False: weights .6/.4 over Bernoulli(.4)/Bernoulli(.9) gives mpe 0 with probability .4 while 1 has probability .6.
* **C13 Caching is transparent within one call and evaluates each module once** (proved) — DAG evaluation with a memo table keyed by module identity, plus an evaluation counter; simulation proof. Theorems: `C13_cache_transparent`, `C13_cache_same_data`. Every DAG: fresh cache equals uncached evaluation and runs each module's body at most once.
* **C14 A cache can be reused for different data** (partial) — Same model, two calls; expected refutation. Theorems: `C14_cache_reuse_refuted`, `C14_cache_stale`. False: the cache is keyed by module only, so the second batch gets the first batch's result (stale theorem: always).
* **C15 An EM step never decreases the data log-likelihood** (proved) — EM update on all sum weights of a circuit tree; proof by Gibbs' inequality. Theorems: `C15_em_monotone`, `C15_em_monotone_leaves`, `C15_em_succeeds`. Tree-shaped circuits, all weights, any batch with positive leaf densities. Shared modules: C64; zero densities: C63.
* **C16 Scope algebra** (proved) — Scope operations on lists of Z (constructor checks, join with sort). Theorems: `C16_constructor`, `C16_equality`, `C16_join`, `C16_join_comm`, `C16_join_assoc`, `C16_join_idem`, `C16_join_all`, `C16_all_pairwise_disjoint`, `C16_all_equal`, `C16_remove_from_query`. 
* **C17 Equal scopes hash equally** (partial) — Hash of a frozen dataclass = hash of the field tuple; expected refutation for permuted queries. Theorems: `C17_hash_sorted_partial`, `C17_hash_refuted`. The full statement is false of the code: C17_hash_refuted gives Scope([0,1]) == Scope([1,0]) with different CPython tuple hashes. Holds for scopes with sorted tuples.
* **C18 Splitting and merging features are inverse** (proved) — Split/merge on lists for the three modes. Theorems: `C18_consecutive`, `C18_consecutive_layout`, `C18_interleaved`, `C18_interleaved_layout`, `C18_by_index`, `C18_partition`. 
* **C19 A by-index split's feature_to_scope names the variables its outputs depend on** (proved) — np.array reshapes on lists; expected refutations. Theorems: `C19_by_index_scopes`. Other split modes: C66.
* **C20 SplitByIndex accepts exactly the partitions** (proved) — Constructor check as boolean function; iff a permutation of seq. Theorems: `C20_accepts_partitions`, `C20_rejects_others`. 
* **C21 OuterProduct enumerates every channel combination exactly once** (proved) — Mixed radix unravel on lists. Theorems: `C21_bijection`, `C21_loglik`, `C21_split`, `C21_distribution`, `C21_is_dist_meaning`, `C21_circuits_are_inputs`. 
* **C22 ElementwiseProduct pairs equal channels** (proved) — Broadcast channel indexing. Theorems: `C22_loglik_and_routing`, `C22_split`, `C22_distribution`. 
* **C23 ElementwiseSum mixes position-wise** (proved) — Weights over stacked inputs. Theorems: `C23_loglik`, `C23_weights`, `C23_distribution`, `C23_selection`, `C23_routing`. 
* **C24 Einsum and Linsum layers compute the documented contraction** (proved) — log-einsum-exp as in the code, with max subtraction (-inf case). Theorems: `C24_einsum_loglik`, `C24_einsum_weights`, `C24_einsum_distribution`, `C24_einsum_sampling`, `C24_linsum_loglik`, `C24_linsum_distribution`, `C24_linsum_sampling`. Impossible rows: C71.
* **C25 RepetitionMixingLayer is a mixture over repetitions** (proved) — Initialisation and shape as in the code; expected refutations. Theorems: `C25_loglik`, `C25_distribution`, `C25_sampling_one_channel`. Several channels, constructor weights and declared shape: C76.
* **C26 Sampling contexts stay consistent** (proved) — Context state machine; invariant over operation lists; expected refutation for the single setters. Theorems: `C26_consistent`, `C26_atomic`, `C26_batch`, `C26_validate`. Object model with explicit exceptional states; both index modes.
* **C27 Channel routing assigns every active entry to exactly one child** (proved) — Offsets loop on lists. Theorems: `C27_accepts`, `C27_route`, `C27_soft_one_hot`, `C27_soft_normalised`. Integer and differentiable mode.
* **C28 Signed log-sum-exp is exact** (proved) — Signed values as (log magnitude, sign). Theorems: `C28_signed_logsumexp`, `C28_signed_eval`. eps = 0; SignedSum weights zero or of magnitude at least 1e-30 (the code's clamp).
* **C29 Parameter projections are inverse** (proved) — Real functions as in projections.py. Theorems: `C29_real_to_bounded`, `C29_bounded_to_real`, `C29_convex`, `C29_convex_inverse`. Without any bound: C88.
* **C30 Leaf families are normalised for all parameters** (proved) — Closed forms over R; binomial theorem, geometric and exponential series, improper integrals (Coquelicot). Theorems: `C30_families_normalised`, `C30_discrete_normalised`, `C30_mass_functions`, `C30_circuit`. torch log_prob formulas over exact reals; NegativeBinomial for natural total_count.
* **C31 Leaf maximum likelihood estimates are admissible and optimal** (proved) — Weighted estimators; Gibbs' inequality / concavity of ln. Theorems: `C31_mle_maximises`, `C31_mle_admissible`, `C31_categorical_near_optimal`. Boundary data: C81; bias correction: C82, C83; weighted Laplace: C84.
* **C32 Interval evidence gives the probability of the box** (proved) — evalm with interval leaf scores; expected refutation for atoms at `low`. Theorems: `C32_accepts`, `C32_box`, `C32_box_exact`, `C32_leaf`, `C32_succeeds`, `C32_unbounded`. Up to the 1e-40 clamp of the leaves, made explicit; families without cdf raise (C97).
* **C33 Histogram leaf is a density** (proved) — Histogram formulae on lists. Theorems: `C33_accepts`, `C33_probs`, `C33_density`, `C33_outside`, `C33_normalised`, `C33_mass`, `C33_leaf`, `C33_mode`, `C33_mode_density`, `C33_sampling`, `C33_fit_raises`, `C33_fit`, `C33_fit_exact`, `C33_fit_maximises`, `C33_set_probs`. Per (channel, repetition) entry; the min_prob floor is explicit. C99-C103 refute the stronger readings.
* **C34 Chow-Liu tree leaf is an exact tree distribution** (proved) — Rooted tree as parent vector, message passing as in the code. Theorems: `C34_accepts`, `C34_order`, `C34_loglik`, `C34_invalid`, `C34_normalised`. 
* **C35 Region graph traversal and validation** (proved) — Region/partition graph as lists; traversal with fuel. Theorems: `C35_add_partition`, `C35_post_order`, `C35_post_order_distinct`, `C35_regions`. 
* **C36 Random factorisation partitions the features** (proved) — Permutation chunks. Theorems: `C36_partition`, `C36_log_likelihood`, `C36_scopes`, `C36_sampling`. 
* **C37 replace() restores the replaced attribute on every exit** (proved) — Attribute store as a map; body as an arbitrary outcome. Theorems: `C37_restores`, `C37_inside`. 
* **C38 Posterior probabilities follow Bayes' rule** (proved) — Softmax over R. Theorems: `C38_bayes`, `C38_classifier`, `C38_predict`, `C38_single_class`. 
* **C39 prune_sums preserves the distribution** (proved) — prune_sums on the circuit model. Theorems: `C39_prune_sums`. 
* **C40 learn_spn returns a valid circuit over the requested scope** (proved) — learn_spn with oracle functions and fuel. Theorems: `C40_valid`, `C40_default_scope`, `C40_terminates`, `C40_mixture`, `C40_then_prune`. 
* **C41 learn_prometheus decomposes properly, terminates and returns a valid circuit** (proved) — Partition refinement by removing spanning tree edges. Theorems: `C41_partitions`, `C41_partitions_sampled`, `C41_blocks`, `C41_sampled_edges`, `C41_chosen`, `C41_default_samples`, `C41_corr`, `C41_valid`, `C41_terminates`, `C41_mixture`, `C41_default_scope`, `C41_rejects`. Clustering, affinities, leaf estimation and random weights are parameters of the theorems; networkx is modelled by Kruskal with stable sorting.
* **C42 learn_cnet returns a normalised cutset network** (proved) — learn_cnet on lists of rows. Theorems: `C42_validates`, `C42_normalised`, `C42_semantics`, `C42_training_rows`, `C42_succeeds`, `C42_evaluable`, `C42_order`. What a leaf computes after estimation is a parameter of the theorems (C104-C107 cover the tree).
* **C43 The EM driver stops correctly and reports its history** (proved) — EM driver over an abstract likelihood sequence. Theorems: `C43_em_driver`, `C43_em_batched`, `C43_zero_steps`. All likelihood trajectories, floats incl. NaN and -inf. max_steps=0 raises.
* **C44 inner_product is the exact inner product of the two circuits** (proved) — Recursion of inner_product_core on pairs of modules. Theorems: `C44_inner_product`. All families listed in the quantifier; NegativeBinomial, LogNormal, Gamma, Histogram, PiecewiseLinear and CLTree inner products are not modelled; equal repetition counts.
* **C45 Sum-of-compatible-squares circuits are normalised** (proved) — SOCS on top of C44. Theorems: `C45_density`, `C45_accepts`. Z at least 1e-30 (the clamp).
* **C46 SOCS sampling targets its density** (proved) — Finite state independence MH kernel. Theorems: `C46_detailed_balance`, `C46_invariant`, `C46_sampling_converges`. Convergence for finite domains; proposals are assumed to be drawn from their density (C09/C10 cover the circuits' sampler).
* **C47 The DSL builds the circuit it spells** (proved) — DSL terms as an inductive type. Theorems: `C47_builds_iff`, `C47_result`, `C47_density`, `C47_normalised`, `C47_bracketing`, `C47_conservative`, `C47_restores`, `C47_nested`. Devices, dtypes and non-finite weights are not modelled.
* **C48 Exact information measures obey their laws** (proved) — Finite distributions over R. Theorems: `C48_marginals`, `C48_entropy_defined`, `C48_entropy`, `C48_entropy_monotone`, `C48_mutual_information`, `C48_mutual_information_symmetric`, `C48_conditional_mutual_information`. Averaging aggregations (logmeanexp, first, or extent one); for logsumexp see C153.
* **C49 Convolutional sums use the weight of their own kernel position** (proved) — Index arithmetic of the rearranges. Theorems: `C49_weights`, `C49_mixture`, `C49_set_weights`, `C49_set_weights_accepts`. 
* **C50 Convolutional products cover each pixel once** (proved) — Index arithmetic of windows; expected refutations. Theorems: `C50_window_product`, `C50_feature_scope`, `C50_partition`, `C50_normalised`, `C50_marginal`, `C50_scope`. 
* **C51 ImageWrapper is the wrapped module on flattened pixels** (proved) — Index arithmetic. Theorems: `C51_columns`, `C51_log_likelihood`, `C51_log_likelihood_defined`, `C51_sample`, `C51_sample_with_evidence`, `C51_sample_keeps`, `C51_marginalize`. 
* **C52 PiecewiseLinear evaluates a normalised polygon fitted to the data** (proved) — Piecewise linear functions on knot lists. Theorems: `C52_density`, `C52_integral`, `C52_mode`, `C52_sampling`, `C52_initialize`, `C52_rejects`, `C52_continuous`, `C52_discrete`, `C52_discrete_total`. K-means is an arbitrary assignment; the routing of _sample by the sampling context is not modelled.
* **C53 topk_mst returns the k best spanning trees** (proved) — Kruskal/Prim on weight matrices. Theorems: `C53_topk_best`, `C53_topk_complete`, `C53_topk_checks`. 
* **C54 RatSPN sampling with evidence conditions the class** (partial) — Two-level mixture; expected refutation. Theorems: `C54_rat_evidence_refuted`. The property is false of the code; the theorem is its refutation.
* **C55 Structure statistics count every module once** (proved) — Graph traversal with visited set. Theorems: `C55_stats`. 
* **C56 Mixing inputs that list the same variables in another order** (partial) — Theorems: `C56_order_refuted`. False: Product(Sum([leaf over [0,1], leaf over [1,0]])) is accepted and has total mass 1/2. The aligned case is C01.
* **C57 marginalize never raises for circuits with mixed repetitions** (partial) — Theorems: `C57_marginalize_reps_refuted`. False: IndexError in Sum.marginalize when the Sum has more repetitions than feature_to_scope has columns.
* **C58 Declared output shape with mixed repetitions** (partial) — Theorems: `C58_shape_refuted`. False: Sum (default one repetition) over a five-repetition leaf returns five repetitions and declares one.
* **C59 sample(num_samples) works for every scope** (partial) — Theorems: `C59_sample_new_refuted`. False: Product of leaves over {0} and {5} raises. The guarded statement is C09.
* **C60 Conditional sampling succeeds for every evidence of positive probability** (partial) — Theorems: `C60_conditional_raises_refuted`. False: Sum([Sum(Uniform(0,2)),Sum(Uniform(0,1))]) with evidence 1. The guarded statement is C10.
* **C61 sample(data=e) conditions on the evidence in data** (partial) — Theorems: `C61_data_evidence_refuted`. False: without a filled cache Sum._sample uses the prior weights.
* **C62 Sampling fills every missing cell of the scope** (partial) — Theorems: `C62_unfilled_refuted`. False for unaligned inputs; aligned case in C11.
* **C63 An EM step keeps a model with positive likelihood finite** (partial) — Theorems: `C63_em_nan_refuted`, `C63_em_nan`. False: a row with probability zero at any Sum makes all its new weights NaN (-inf minus -inf).
* **C64 An EM step on a circuit with shared modules does not decrease the likelihood** (partial) — Theorems: `C64_em_shared_refuted`. False: a Sum reached twice is updated twice; likelihood of the batch .128 -> .125.
* **C65 The EM driver stops when the likelihood no longer improves, also for NaN** (partial) — Theorems: `C65_nan_never_stops_refuted`. False: NaN <= prev is False, so the loop runs all 2^64-1 steps.
* **C66 Consecutive and interleaved splits report the scopes of their outputs** (partial) — Theorems: `C66_consecutive_scopes_refuted`, `C66_interleaved_scopes_refuted`. False: reshape instead of transpose; 4 features, 2 splits.
* **C67 Splits work for feature counts that are not divisible** (partial) — Theorems: `C67_number_of_splits_refuted`, `C67_interleaved_merge_refuted`. False: 5 features, 2 splits give 3 outputs / merging raises.
* **C68 OuterProduct.feature_to_scope has one entry per output feature** (partial) — Theorems: `C68_outer_feature_to_scope_refuted`. False.
* **C69 Shapes accepted by product layers can be evaluated** (partial) — Theorems: `C69_outer_shapes_refuted`, `C69_elementwise_shapes_refuted`. False.
* **C70 ElementwiseSum samples from broadcast inputs** (partial) — Theorems: `C70_broadcast_sampling_refuted`. False.
* **C71 EinsumLayer gives impossible rows log-likelihood -inf** (partial) — Theorems: `C71_einsum_impossible_refuted`. False for every such row.
* **C72 Einsum/Linsum layers route mask and channel alike through a split** (partial) — Theorems: `C72_interleaved_mask_partial`, `C72_consecutive_mask_refuted`. True for interleaved, false for consecutive splits.
* **C73 Einsum/Linsum feature_to_scope names the combined features** (partial) — Theorems: `C73_einsum_scopes_refuted`. False.
* **C74 EinsumLayer uses every input feature** (partial) — Theorems: `C74_einsum_ignores_features_refuted`. False.
* **C75 Marginalising an EinsumLayer keeps its distribution** (partial) — Theorems: `C75_einsum_marginalize_refuted`, `C75_einsum_marginalize_channels_refuted`. False.
* **C76 RepetitionMixingLayer with several channels, given weights, declared shape** (partial) — Theorems: `C76_sampling_channels_refuted`, `C76_constructor_weights_refuted`, `C76_declared_shape_refuted`. False, all three parts.
* **C77 Property setters and partial updates keep contexts consistent** (partial) — Theorems: `C77_setter_refuted`, `C77_mask_setter_refuted`, `C77_update_refuted`. False.
* **C78 Width adaptations keep the routing** (proved) — Theorems: `C78_typed`, `C78_broadcast`, `C78_repeat`, `C78_scatter`, `C78_slice`. 
* **C79 Integer and one-hot indexing agree** (proved) — Theorems: `C79_index_agree`, `C79_simple_one_hot`. Exact arithmetic.
* **C80 Differentiable indexing with -inf, device attribute** (partial) — Theorems: `C80_neg_inf_refuted`, `C80_no_device_refuted`, `C80_device_partial`. False; the device attribute exists for contexts built from routing tensors.
* **C81 Estimates on boundary data are finite** (partial) — Theorems: `C81_boundary_refuted`. False for every such data set.
* **C82 Bias correction gives the unbiased variance (single entry)** (proved) — Theorems: `C82_bias_corrected_single`. 
* **C83 Bias correction gives the unbiased variance (every leaf)** (partial) — Theorems: `C83_bias_corrected_refuted`. False.
* **C84 Weighted Laplace estimates are optimal** (partial) — Theorems: `C84_weighted_laplace_refuted`. False; equal weights: C31.
* **C85 nan_strategy='ignore' raises when nothing is left** (partial) — Theorems: `C85_ignore_everything_refuted`. False.
* **C86 Missing cells never make log_likelihood raise** (partial) — Theorems: `C86_missing_raises_refuted`. False; common supports: C87.
* **C87 Leaf log_likelihood validates exactly the observed cells** (proved) — Theorems: `C87_validation`. 
* **C88 Projections without bounds are the identity** (partial) — Theorems: `C88_unbounded_refuted`. False for every input.
* **C89 SOCS.log_likelihood under missing values is the exact marginal** (partial) — Theorems: `C89_socs_missing_refuted`. Refuted: the theorem exhibits a counterexample to the listed claim.
* **C90 Inner products do not depend on the order in which leaves list their variables** (partial) — Theorems: `C90_variable_order_refuted`. Refuted by counterexample; C44 is the true guarded version.
* **C91 Assignments with value zero have density zero in a SOCS** (partial) — Theorems: `C91_zero_weight_refuted`. Refuted by counterexample.
* **C92 Every scalar SOCS that can be evaluated can be sampled** (partial) — Theorems: `C92_multichannel_sampling_refuted`. Refuted by counterexample.
* **C93 SOCS.sample is exact** (partial) — Theorems: `C93_exact_sampling_refuted`. Refuted for every number of steps; C46 gives the convergence that does hold.
* **C94 SOCS.marginalize represents the marginal density** (partial) — Theorems: `C94_socs_marginalize_refuted`. Refuted by counterexample.
* **C95 build_socs components are compatible** (proved) — Theorems: `C95_build_socs`. 
* **C96 NaN bounds are unbounded for every family** (partial) — Theorems: `C96_exponential_unbounded_refuted`. The property is false of the code; the theorem is its refutation.
* **C97 Every leaf family supports interval evidence** (partial) — Theorems: `C97_families_refuted`. The property is false of the code; the theorem is its refutation.
* **C98 Impossible intervals score -inf** (partial) — Theorems: `C98_impossible_refuted`. The property is false of the code; the theorem is its refutation.
* **C99 Histogram mpe maximises the density** (partial) — Theorems: `C99_mode_refuted`. The property is false of the code; the theorem is its refutation.
* **C100 Every histogram integrates to one** (partial) — Theorems: `C100_mass_refuted`. The property is false of the code; the theorem is its refutation.
* **C101 Marginalising keeps histogram leaves** (partial) — Theorems: `C101_marginalize_refuted`. The property is false of the code; the theorem is its refutation.
* **C102 Automatic bin edges** (proved) — Theorems: `C102_auto_edges`. 
* **C103 Automatic edges fit their own data** (partial) — Theorems: `C103_auto_fit_refuted`. The property is false of the code; the theorem is its refutation.
* **C104 Chow-Liu tree sampling is the exact conditional** (proved) — Theorems: `C104_conditional`. 
* **C105 Chow-Liu tree mpe is a maximiser** (proved) — Theorems: `C105_mpe`. 
* **C106 Learned Chow-Liu structure is a maximum spanning tree** (proved) — Theorems: `C106_structure`, `C106_prim`. 
* **C107 Chow-Liu tables are smoothed frequencies** (proved) — Theorems: `C107_tables`. 
* **C108 Only trees are accepted as parent vectors** (partial) — Theorems: `C108_cycle_accepted_refuted`. The property is false of the code; the theorem is its refutation.
* **C109 CLTree marginalize** (partial) — Theorems: `C109_marginalize_raises_refuted`. The property is false of the code; the theorem is its refutation.
* **C110 Sampling a Sum over a CLTree** (partial) — Theorems: `C110_sum_sampling_refuted`. The property is false of the code; the theorem is its refutation.
* **C111 MLE learns the structure of fit_structure** (partial) — Theorems: `C111_mle_structure_refuted`. The property is false of the code; the theorem is its refutation.
* **C112 Equal regions are listed once** (partial) — Theorems: `C112_duplicate_regions_refuted`. The property is false of the code; the theorem is its refutation.
* **C113 replace() of a static method is undone** (partial) — Theorems: `C113_static_refuted`. The property is false of the code; the theorem is its refutation.
* **C114 replace() can be nested on the same attribute** (partial) — Theorems: `C114_nested_refuted`. The property is false of the code; the theorem is its refutation.
* **C115 replace() affects only the named class** (partial) — Theorems: `C115_inherited_refuted`. The property is false of the code; the theorem is its refutation.
* **C116 Posterior of an impossible row** (partial) — Theorems: `C116_zero_evidence_refuted`. The property is false of the code; the theorem is its refutation.
* **C117 RatSPN samples from its mixture** (proved) — Theorems: `C117_rat_sampling`. 
* **C118 Naive Bayes priors** (proved) — Theorems: `C118_naive_bayes_prior`, `C118_naive_bayes_counts`. 
* **C119 Structure statistics of every model** (partial) — Theorems: `C119_root_node_refuted`. The property is false of the code; the theorem is its refutation.
* **C120 An impossible feature affects only its own group** (partial) — Theorems: `C120_impossible_feature_refuted`. The property is false of the code; the theorem is its refutation.
* **C121 Factorize can be marginalised** (partial) — Theorems: `C121_marginalize_raises_refuted`. The property is false of the code; the theorem is its refutation.
* **C122 Marginalising keeps the grouping** (partial) — Theorems: `C122_marginalize_regroups_refuted`. The property is false of the code; the theorem is its refutation.
* **C123 Every input feature enters once** (partial) — Theorems: `C123_wide_feature_refuted`. The property is false of the code; the theorem is its refutation.
* **C124 prune_sums accepts every circuit** (partial) — Theorems: `C124_prune_raises_refuted`. The property is false of the code; the theorem is its refutation.
* **C125 learn_spn always terminates** (partial) — Theorems: `C125_termination_refuted`. The property is false of the code; the theorem is its refutation.
* **C126 learn_spn covers an explicit scope** (partial) — Theorems: `C126_scope_coverage_refuted`. The property is false of the code; the theorem is its refutation.
* **C127 learn_spn accepts leaf modules with different channel counts** (partial) — Theorems: `C127_leaf_channels_refuted`. The property is false of the code; the theorem is its refutation.
* **C128 learn_cnet accepts every valid discrete data set** (partial) — Theorems: `C128_missing_value_refuted`. The property is false of the code; the theorem is its refutation.
* **C129 A learned cutset network can be evaluated** (partial) — Theorems: `C129_unfitted_leaf_refuted`. The property is false of the code; the theorem is its refutation.
* **C130 learn_cnet uses every accepted row** (partial) — Theorems: `C130_near_integers_refuted`. The property is false of the code; the theorem is its refutation.
* **C131 Leaves respect the declared cardinalities** (partial) — Theorems: `C131_impossible_values_refuted`. The property is false of the code; the theorem is its refutation.
* **C132 Severing yields d-1 decompositions starting with two components** (partial) — Theorems: `C132_partition_count_refuted`. The property is false of the code; the theorem is its refutation.
* **C133 Every cluster of rows contributes to the learned mixture** (partial) — Theorems: `C133_dropped_cluster_refuted`. The property is false of the code; the theorem is its refutation.
* **C134 learn_prometheus returns out_channels channels** (partial) — Theorems: `C134_out_channels_refuted`. The property is false of the code; the theorem is its refutation.
* **C135 learn_prometheus covers an explicit scope or raises** (partial) — Theorems: `C135_scope_coverage_refuted`. The property is false of the code; the theorem is its refutation.
* **C136 Reported likelihoods of PiecewiseLinear integrate to one** (partial) — Theorems: `C136_reported_refuted`. The property is false of the code; the theorem is its refutation.
* **C137 Continuous samples of PiecewiseLinear follow its density** (partial) — Theorems: `C137_sampling_refuted`. The property is false of the code; the theorem is its refutation.
* **C138 Discrete samples of PiecewiseLinear lie in the domain** (partial) — Theorems: `C138_index_refuted`. The property is false of the code; the theorem is its refutation.
* **C139 Likelihoods over a discrete domain sum to one** (partial) — Theorems: `C139_discrete_refuted`. The property is false of the code; the theorem is its refutation.
* **C140 PiecewiseLinear log_likelihood has the leaf shape** (partial) — Theorems: `C140_shape_refuted`. The property is false of the code; the theorem is its refutation.
* **C141 Empty clusters get a density on the domain** (partial) — Theorems: `C141_empty_refuted`. The property is false of the code; the theorem is its refutation.
* **C142 PiecewiseLinear leaves can be marginalised structurally** (partial) — Theorems: `C142_marginalize_refuted`. The property is false of the code; the theorem is its refutation.
* **C143 Overlapping dsl() contexts restore the operators** (partial) — Theorems: `C143_overlap_refuted`. The property is false of the code; the theorem is its refutation.
* **C144 A weight may stand anywhere in a product** (partial) — Theorems: `C144_weight_position_refuted`. The property is false of the code; the theorem is its refutation.
* **C145 Nested mixtures follow the arithmetic of their weights** (partial) — Theorems: `C145_nested_refuted`. The property is false of the code; the theorem is its refutation.
* **C146 Monte-Carlo measures are unbiased** (proved) — Theorems: `C146_monte_carlo_unbiased`. Rows are independent draws of the law C09 proves for sample().
* **C147 conditional_probability is a conditional distribution** (proved) — Theorems: `C147_conditional_probability`. 
* **C148 Weight of evidence behaves like a log-odds difference** (proved) — Theorems: `C148_weight_of_evidence`, `C148_value`, `C148_batch`. 
* **C149 Leave-one-out attributions** (proved) — Theorems: `C149_leave_one_out`. 
* **C150 Exact measures work for any scope** (partial) — Theorems: `C150_contiguous_refuted`. The property is false of the code; the theorem is its refutation.
* **C151 Leave-one-out leaves missing entries NaN** (partial) — Theorems: `C151_missing_entry_refuted`. The property is false of the code; the theorem is its refutation.
* **C152 Monte-Carlo entropy estimates the exact entropy by default** (partial) — Theorems: `C152_monte_carlo_refuted`. The property is false of the code; the theorem is its refutation.
* **C153 Entropy is non-negative for every aggregation** (partial) — Theorems: `C153_logsumexp_refuted`. The property is false of the code; the theorem is its refutation.
* **C154 Convolutional circuits sample their own distribution** (proved) — Theorems: `C154_sample`, `C154_sample_with_evidence`, `C154_sample_finite`, `C154_sample_with_evidence_finite`. 
* **C155 ConvPc is a normalised density it can sample from** (proved) — Theorems: `C155_density`, `C155_sample`, `C155_sample_with_evidence`. 
* **C156 ConvPc works for every image size** (partial) — Theorems: `C156_odd_padding_refuted`. The property is false of the code; the theorem is its refutation.
* **C157 Padded convolutional models sample their own distribution** (partial) — Theorems: `C157_padding_sampler_refuted`. The property is false of the code; the theorem is its refutation.
* **C158 A ProdConv is a distribution over its scope** (partial) — Theorems: `C158_dropped_pixels_refuted`. The property is false of the code; the theorem is its refutation.
* **C159 Whatever can be evaluated can be sampled** (partial) — Theorems: `C159_small_image_sampling_refuted`. The property is false of the code; the theorem is its refutation.
* **C160 EM on a SumConv never decreases the likelihood** (partial) — Theorems: `C160_em_monotone_refuted`, `C160_em_ties_positions`. The property is false of the code; the theorem is its refutation.
* **C161 SumConv.marginalize keeps the weights** (partial) — Theorems: `C161_marginalize_weights_refuted`. The property is false of the code; the theorem is its refutation.
* **C162 ConvPc can marginalise any pixels** (partial) — Theorems: `C162_marginalize_pixel_refuted`. The property is false of the code; the theorem is its refutation.
* **C163 ConvPc's patches are rectangles of the image** (partial) — Theorems: `C163_nonsquare_refuted`. The property is false of the code; the theorem is its refutation.
* **C164 Selected rows form a set** (partial) — Theorems: `C164_duplicate_rows_refuted`. The property is false of the code; the theorem is its refutation.
* **C165 A marginalised wrapper evaluates images of its own size** (partial) — Theorems: `C165_marginalized_wrapper_refuted`. The property is false of the code; the theorem is its refutation.
* **C166 marginalize and log_likelihood agree on pixel positions** (partial) — Theorems: `C166_scope_order_refuted`. The property is false of the code; the theorem is its refutation.
* **C167 sample keeps the observed pixels of every image it accepts** (partial) — Theorems: `C167_transposed_image_refuted`. The property is false of the code; the theorem is its refutation.
* **C168 kruskal_mst_complete returns an optimal spanning tree** (proved) — Theorems: `C168_kruskal_min`, `C168_kruskal_max`, `C168_kruskal_checks`. 
* **C169 topk_mst with minimize=False returns the k heaviest trees** (partial) — Theorems: `C169_maximize_returns_one_refuted`. The property is false of the code; the theorem is its refutation.
* **C170 Edge dropout keeps distinct spanning trees** (proved) — Theorems: `C170_dropout_trees`. 
* **C171 Dropout does not lose trees** (partial) — Theorems: `C171_dropout_loses_trees_refuted`. The property is false of the code; the theorem is its refutation.
* **C172 dropout_prob is validated** (partial) — Theorems: `C172_dropout_checked`, `C172_dropout_unchecked_refuted`. The property is false of the code for one tree; the second theorem is its refutation.
* **C173 Binary pairwise tables are consistent distributions** (proved) — Theorems: `C173_binary_tables`. 
* **C174 Negative sample weights are rejected** (partial) — Theorems: `C174_negative_weights_refuted`. The property is false of the code; the theorem is its refutation.
* **C175 Missing values are rejected when learning Chow-Liu trees** (partial) — Theorems: `C175_nan_is_one_refuted`, `C175_categorical_rejects_nan`. The property is false of the binary functions; the first theorem is the refutation.
* **C176 pairwise_mi_binary is the mutual information** (proved) — Theorems: `C176_mi_binary`, `C176_mi_binary_unweighted`. 
* **C177 pairwise_mi_categorical is the mutual information whatever the chunk size** (proved) — Theorems: `C177_mi_categorical`, `C177_mi_categorical_unweighted`, `C177_num_cats`, `C177_chunk_size`. 
* **C178 Chow-Liu learning returns the trees of largest total mutual information** (proved) — Theorems: `C178_chow_liu_binary`, `C178_chow_liu_categorical`. 
* **C179 A hidden Chow-Liu tree circuit is a latent tree model** (proved) — Theorems: `C179_build`, `C179_checks`, `C179_latent_tree`, `C179_normalised`, `C179_initial`. 
* **C180 init="random" gives a trainable dependence between variables** (partial) — Theorems: `C180_random_init_refuted`. The property is false of the code; the theorem is its refutation.
* **C181 HCLT learning returns the normalised mixture over the best trees** (proved) — Theorems: `C181_binary`, `C181_binary_rejects_nan`, `C181_categorical`, `C181_best_trees`, `C181_normalised`. 
* **C182 RatSPN.log_likelihood is the log of the region-graph mixture** (proved) — Theorems: `C182_value`. 
* **C183 A RatSPN is a normalised distribution** (proved) — Theorems: `C183_normalised`. 
* **C184 Which RatSPN architectures are accepted** (proved) — Theorems: `C184_construction`. 
* **C185 RatSPN accepts every architecture satisfying its documented requirements** (partial) — Theorems: `C185_three_channels_refuted`. The property is false of the code; the theorem is its refutation.
* **C186 RatSPN supports num_splits of two or more** (partial) — Theorems: `C186_num_splits_refuted`. The property is false of the code; the theorem is its refutation.
* **C187 When RatSPN.log_likelihood is NaN** (proved) — Theorems: `C187_nan`. 
* **C188 Rows of positive probability get their log-probability** (partial) — Theorems: `C188_possible_row_refuted`. The property is false of the code; the theorem is its refutation.
* **C189 Einet.log_likelihood is the log of the region-graph mixture** (proved) — Theorems: `C189_value`. 
* **C190 An Einet is a normalised distribution** (proved) — Theorems: `C190_normalised`. 
* **C191 Which Einet architectures are accepted** (proved) — Theorems: `C191_construction`. 
* **C192 When Einet.log_likelihood is NaN** (proved) — Theorems: `C192_nan`. 
* **C193 Rows of positive probability get their log-probability from an Einet** (partial) — Theorems: `C193_possible_row_refuted`. The property is false of the code; the theorem is its refutation.
* **C194 RatSPN posteriors are Bayes' rule** (proved) — Theorems: `C194_rat_posterior`. 
* **C195 Einet posteriors are Bayes' rule** (proved) — Theorems: `C195_ein_posterior`. 
* **C196 When class posteriors are NaN** (proved) — Theorems: `C196_posterior_nan`. 
* **C197 RatSPN.sample_with_evidence draws from the conditional (one root node)** (proved) — Theorems: `C197_conditional`. 
* **C198 RatSPN.sample draws from the model** (proved) — Theorems: `C198_unconditional`. 
* **C199 RatSPN conditional sampling with continuous leaves** (proved) — Theorems: `C199_general`. 
* **C200 RatSPN.sample_with_evidence with several root nodes** (proved) — Theorems: `C200_several_roots`. 
* **C201 Conditional sampling with several root nodes** (partial) — Theorems: `C201_several_roots_refuted`. The property is false of the code; the theorem is its refutation.
* **C202 RatSPN.sample(data) ignores the observed cells** (proved) — Theorems: `C202_sample_marginal`. 
* **C203 RatSPN.sample(data) conditions on the observed cells** (partial) — Theorems: `C203_sample_ignores_evidence_refuted`. The property is false of the code; the theorem is its refutation.
* **C204 Einet.sample(data) draws from the conditional (one class)** (proved) — Theorems: `C204_einet_conditional`. 
* **C205 Einet.sample(data) with several classes** (proved) — Theorems: `C205_einet_classes`. 
* **C206 RatSPN and Einet sampling keeps observed cells** (proved) — Theorems: `C206_rat_keeps`, `C206_einet_keeps`. 
* **C207 A RatSPN that can evaluate rows can be sampled** (partial) — Theorems: `C207_single_repetition_leaf_refuted`. The property is false of the code; the theorem is its refutation.
* **C208 A compiled continuous mixture is the trained density** (proved) — Theorems: `C208_compiled_is_trained`, `C208_accepts`. 
* **C209 Which factorised mixtures are compiled** (proved) — Theorems: `C209_accepted`. 
* **C210 Compiled factorised mixtures are normalised** (proved) — Theorems: `C210_normalised`. 
* **C211 The continuous-mixture learner returns its best evaluated model** (proved) — Theorems: `C211_learner`, `C211_models`. 
* **C212 Early stopping keeps the best state** (proved) — Theorems: `C212_early_stopping`, `C212_patience`, `C212_plain`. 
* **C213 Early stopping with undefined scores** (partial) — Theorems: `C213_best_refuted`, `C213_nan_first`. The property is false of the code; the theorem is its refutation.
* **C214 Mini-batches visit every row once** (proved) — Theorems: `C214_minibatches`. 
* **C215 Integration points** (proved) — Theorems: `C215_weights`, `C215_unit`. 
* **C216 A compiled Chow-Liu mixture is the trained density** (proved) — Theorems: `C216_accepted`, `C216_value`, `C216_is_trained`. 
* **C217 Compiled Chow-Liu mixtures are normalised** (proved) — Theorems: `C217_normalised`. 
* **C218 Sampling a one-component Chow-Liu mixture** (proved) — Theorems: `C218_single_component`. 
* **C219 Sampling Chow-Liu mixtures** (partial) — Theorems: `C219_sampling_refuted`. The property is false of the code; the theorem is its refutation.
* **C220 Marginalising Chow-Liu mixtures** (partial) — Theorems: `C220_marginalize_refuted`. The property is false of the code; the theorem is its refutation.
* **C221 Training is gradient descent** (proved) — Theorems: `C221_gradient_descent`. 
* **C222 When training returns** (proved) — Theorems: `C222_succeeds_iff`, `C222_batches`. 
* **C223 Epoch callbacks** (proved) — Theorems: `C223_epoch_callback`. 
* **C224 Keeping the lists passed to callback_epoch** (partial) — Theorems: `C224_kept_lists_refuted`, `C224_one_object`. The property is false of the code; the theorem is its refutation.
* **C225 Validation** (proved) — Theorems: `C225_validation_schedule`, `C225_no_influence`. 
* **C226 Training interrupted by an exception** (proved) — Theorems: `C226_exceptions`. 
* **C227 Model mode after an exception** (partial) — Theorems: `C227_mode_refuted`, `C227_empty_loader_raises`. The property is false of the code; the theorem is its refutation.
* **C228 Training accuracy** (proved) — Theorems: `C228_accuracy`. 
* **C229 Default learning-rate schedule** (proved) — Theorems: `C229_default_rate`. 
* **C230 Default learning rate of the first epoch** (partial) — Theorems: `C230_first_rate_refuted`, `C230_single_epoch`. The property is false of the code; the theorem is its refutation.
* **C231 score_samples** (proved) — Theorems: `C231_scores`. 
* **C232 Which aggregations are accepted** (proved) — Theorems: `C232_accepted`. 
* **C233 Scores are log-densities** (proved) — Theorems: `C233_normalised`. 
* **C234 Scores with logsumexp** (partial) — Theorems: `C234_normalised_refuted`, `C234_logsumexp_total`. The property is false of the code; the theorem is its refutation.
* **C235 Seeded sampling of the estimator** (proved) — Theorems: `C235_sample`, `C235_rng_kept`. 
* **C236 Unseeded sampling of the estimator** (partial) — Theorems: `C236_fresh_samples_refuted`, `C236_unseeded_repeats`. The property is false of the code; the theorem is its refutation.
* **C237 fit of the density estimator** (proved) — Theorems: `C237_fit`. 
* **C238 A failed fit** (partial) — Theorems: `C238_failed_fit_refuted`, `C238_given_model`. The property is false of the code; the theorem is its refutation.
* **C239 The classifier wrapper predicts labels by rank** (proved) — Theorems: `C239_predict`, `C239_labels_sorted`, `C239_standard_labels`. 
* **C240 Labels missing from fit** (partial) — Theorems: `C240_missing_label_refuted`, `C240_raises`. The property is false of the code; the theorem is its refutation.
* **C241 RDC partitioning** (proved) — Theorems: `C241_groups`, `C241_apart`, `C241_raises`. 
* **C242 Value of the RDC** (proved) — Theorems: `C242_value`, `C242_features`. 
* **C243 The RDC search ends** (proved) — Theorems: `C243_search`. 
* **C244 RDC depends only on the order** (proved) — Theorems: `C244_ranks`, `C244_invariant`. 
* **C245 Ranks of ties** (partial) — Theorems: `C245_ties_refuted`, `C245_constant`. The property is false of the code; the theorem is its refutation.
* **C246 RDC of several variables** (partial) — Theorems: `C246_several_refuted`, `C246_variables`. The property is false of the code; the theorem is its refutation.
* **C247 What WeightedSum accepts** (proved) — Theorems: `C247_construct`. 
* **C248 WeightedSum likelihood** (proved) — Theorems: `C248_value`, `C248_total`. 
* **C249 WeightedSum weights stay non-negative** (partial) — Theorems: `C249_setter_refuted`, `C249_setter`, `C249_negative_as_zero`. The property is false of the code; the theorem is its refutation.
* **C250 Sampling from WeightedSum** (proved) — Theorems: `C250_sample`. 
* **C251 WeightedSum samples given evidence** (partial) — Theorems: `C251_conditions_refuted`. The property is false of the code; the theorem is its refutation.
* **C252 Marginalizing WeightedSum** (proved) — Theorems: `C252_marginalize`. 
* **C253 Triple products are integrals** (proved) — Theorems: `C253_triple_product`. 
* **C254 What ExpSOCS accepts** (proved) — Theorems: `C254_constructor`. 
* **C255 ExpSOCS is a normalised density** (proved) — Theorems: `C255_density`, `C255_accepts`. 
* **C256 ExpSOCS with missing values** (partial) — Theorems: `C256_missing_refuted`. The property is false of the code; the theorem is its refutation.
* **C257 Marginalizing ExpSOCS** (partial) — Theorems: `C257_marginalize_refuted`. The property is false of the code; the theorem is its refutation.
* **C258 ExpSOCS rejects a non-monotone circuit** (partial) — Theorems: `C258_monotone_unchecked_refuted`. The property is false of the code; the theorem is its refutation.
* **C259 SOCS stays normalised for many variables** (partial) — Theorems: `C259_underflow_refuted`. The property is false of the code; the theorem is its refutation.
* **C260 What the compatibility check accepts** (proved) — Theorems: `C260_accepts_iff`. 
* **C261 Compatibility is pairwise** (proved) — Theorems: `C261_pairwise`, `C261_short`. 
* **C262 Compatible components have inner products** (proved) — Theorems: `C262_inner_product`. 
* **C263 Compatibility suffices for inner products** (partial) — Theorems: `C263_no_inner_product_refuted`. The property is false of the code; the theorem is its refutation.
* **C264 Compatibility compares whole circuits** (partial) — Theorems: `C264_other_modules_refuted`. The property is false of the code; the theorem is its refutation.
* **C265 Region trees of the SOS models** (proved) — Theorems: `C265_region_tree`, `C265_accepts`, `C265_shape`. 
* **C266 What SOSModel accepts** (proved) — Theorems: `C266_constructor`. 
* **C267 Region trees without mixed nodes** (proved) — Theorems: `C267_even_trees`. 
* **C268 Independent unit counts** (partial) — Theorems: `C268_units_refuted`. The property is false of the code; the theorem is its refutation.
* **C269 SOSModel is a normalised density** (proved) — Theorems: `C269_components`, `C269_density`. 
* **C270 Structured-decomposable SOS components** (proved) — Theorems: `C270_structured`. 
* **C271 ExpSOSModel is a normalised density** (proved) — Theorems: `C271_constructor`, `C271_density`. 
* **C272 Initial SOS weights** (proved) — Theorems: `C272_initial_weights`. 
* **C273 SOSModel can be sampled** (partial) — Theorems: `C273_sampling_refuted`. The property is false of the code; the theorem is its refutation.
* **C274 SOSModel can be marginalised** (partial) — Theorems: `C274_marginalize_refuted`. The property is false of the code; the theorem is its refutation.
* **C275 Region graphs rg2pic accepts** (proved) — Theorems: `C275_accepts`, `C275_result`. 
* **C276 pic2qpc materialises the PIC** (proved) — Theorems: `C276_value`, `C276_grid`, `C276_end_to_end`, `C276_by_scope`. 
* **C277 Mass of a materialised PIC** (proved) — Theorems: `C277_marginal`, `C277_total`. 
* **C278 CP merges** (partial) — Theorems: `C278_cp_refuted`. The property is false of the code; the theorem is its refutation.
* **C279 Alternative partitions become sums** (partial) — Theorems: `C279_alternatives_refuted`. The property is false of the code; the theorem is its refutation.
* **C280 F-sharing** (partial) — Theorems: `C280_f_sharing_refuted`. The property is false of the code; the theorem is its refutation.
* **C281 Function groups on n-ary partitions** (partial) — Theorems: `C281_nary_groups_refuted`. The property is false of the code; the theorem is its refutation.
* **C282 Independent seeds of SOS components** (proved) — Theorems: `C282_sos_seeds`, `C282_exp_seeds`. 
* **C283 Materialising PICs with C-sharing** (proved) — Theorems: `C283_end_to_end`. 
* **C284 Mass of a materialised PIC with C-sharing** (proved) — Theorems: `C284_marginal`, `C284_total`. 
* **C285 Which integrals share a function group** (proved) — Theorems: `C285_groups`. 
* **C286 A tensorized QPC computes the recursion over its region graph** (proved) — Theorems: `C286_recursion`, `C286_weights`. 
* **C287 Total mass of a tensorized QPC** (proved) — Theorems: `C287_total`. 
* **C288 Leaf types of a tensorized QPC are normalised** (proved) — Theorems: `C288_normalised`, `C288_params`, `C288_circuit`. 
* **C289 Chunking and layer class do not change a tensorized QPC** (proved) — Theorems: `C289_chunks`, `C289_tucker_auto`. 
* **C290 A tensorized QPC accepts what it can evaluate** (partial) — Theorems: `C290_single_region_refuted`. The property is false of the code; the theorem is its refutation.
* **C291 Values outside the categories of a tensorized QPC** (partial) — Theorems: `C291_categorical_refuted`. The property is false of the code; the theorem is its refutation.
* **C292 Integrals without a weighting function** (proved) — Theorems: `C292_missing_function`. 
* **C293 APC latent statistics** (proved) — Theorems: `C293_latent_stats`. 
* **C294 APC KL of a latent row** (proved) — Theorems: `C294_row_kl`. 
* **C295 APC deterministic decoding** (proved) — Theorems: `C295_decode_mode`. 
* **C296 APC KL is never negative** (proved) — Theorems: `C296_kl_nonneg`. 
* **C297 APC objective** (proved) — Theorems: `C297_objective`. 
* **C298 APC evaluation and batching** (proved) — Theorems: `C298_evaluate_batching`. 
* **C299 APC training history** (proved) — Theorems: `C299_fit`. 
* **C300 Iterables as APC training data** (partial) — Theorems: `C300_any_iterable_refuted`, `C300_generators_fail`. The property is false of the code; the theorem is its refutation. Re-iterable data are C299.
* **C301 APC evaluation leaves the model alone** (proved) — Theorems: `C301_evaluate_pure`. 
* **C302 APC evaluation restores training mode** (partial) — Theorems: `C302_mode_restored_refuted`, `C302_raise`. The property is false of the code; the theorem is its refutation.
* **C303 The joint encoder's likelihoods** (proved) — Theorems: `C303_joint_encoder`. 
* **C304 mpe never returns an impossible row** (proved) — Theorems: `C304_mpe_evidence`, `C304_mpe`. 
* **C305 A RatSPN can be marginalised** (partial) — Theorems: `C305_rat_marginalize_refuted`, `C305_raises`. The property is false of the code; the theorem is its refutation.
* **C306 Marginalising nothing keeps a RatSPN** (partial) — Theorems: `C306_nothing_refuted`, `C306_nothing_raises`. The property is false of the code; the theorem is its refutation.
* **C307 RatSPN.marginalize of all or none of the variables** (proved) — Theorems: `C307_whole`, `C307_nothing`. 
* **C308 A log-normal leaf is a normalised density** (proved) — Theorems: `C308_density`, `C308_normalised`, `C308_circuit`. 
* **C309 The log-normal mode is the density's unique maximiser** (proved) — Theorems: `C309_mode`, `C309_mode_positive`. 
* **C310 A log-normal leaf is a normal leaf of the logarithm** (proved) — Theorems: `C310_log_is_normal`. 
* **C311 Log-normal MLE maximises the likelihood** (proved) — Theorems: `C311_mle`. 
* **C312 Log-normal log_likelihood on missing and invalid cells** (proved) — Theorems: `C312_log_likelihood`. 
* **C313 A SplitByIndex can be marginalised** (partial) — Theorems: `C313_by_index_refuted`, `C313_by_index_raises`. The property is false of the code; the theorem is its refutation.
* **C314 Marginalising a consecutive or interleaved split deals out the marginal** (proved) — Theorems: `C314_split_marginalize`. 
* **C315 A marginalised consecutive split keeps its number of outputs** (partial) — Theorems: `C315_count_refuted`, `C315_output_count`, `C315_too_few`. The property is false of the code; the theorem is its refutation.
* **C316 Bias-corrected log-normal MLE is unbiased for one entry** (proved) — Theorems: `C316_bias_corrected`. 
* **C317 Interval likelihood of a log-normal leaf with a lower bound** (proved) — Theorems: `C317_interval`. 
* **C318 Interval evidence on a log-normal leaf may leave the lower side open** (partial) — Theorems: `C318_unbounded_refuted`, `C318_no_lower_bound`, `C318_negative_bound`. The property is false of the code; the theorem is its refutation.
* **C319 maximum_likelihood_estimation of a log-normal leaf attains the maximum** (proved) — Theorems: `C319_mle_leaf`. 
* **C320 Bias correction stores the unbiased variance of the logarithms** (partial) — Theorems: `C320_bias_corrected_refuted`. The property is false of the code; the theorem is its refutation.
