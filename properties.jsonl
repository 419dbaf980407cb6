{"id": "C01", "title": "Circuits are normalised distributions", "statement": "For every circuit assembled through the public constructors from leaf modules whose densities integrate to one, Sum, Product and Cat, whose channel-wise concatenations have inputs with equal feature_to_scope, the value exp(log_likelihood(x)) at every output feature, channel and repetition, summed/integrated over all values of the variables in that feature's scope, is exactly 1.", "quantifier": "every circuit structure, size, depth, weight tensor, leaf family with unit mass, output index", "why_tests_cant": "A test evaluates a few hand-made circuits over tiny domains; normalisation is a statement about every structure and every weight vector, by induction over the circuit.", "anchors": ["spflow/modules/sums/sum.py:Sum.log_likelihood", "spflow/modules/products/product.py:Product.log_likelihood", "spflow/modules/ops/cat.py:Cat.log_likelihood", "spflow/modules/leaves/leaf.py:LeafModule.log_likelihood"]}
{"id": "C02", "title": "NaN entries marginalise exactly", "statement": "In the circuits of C01, setting any set of cells in an output feature's scope to NaN makes log_likelihood at that feature return the logarithm of the sum/integral of the density over all values of those cells, the other cells unchanged.", "quantifier": "every circuit, data row, set of missing cells and output index", "why_tests_cant": "Tests compare one marginal of one model; the claim ranges over all 2^n missingness patterns of all circuits.", "anchors": ["spflow/modules/leaves/leaf.py:LeafModule.log_likelihood", "spflow/modules/sums/sum.py:Sum.log_likelihood", "spflow/modules/products/product.py:Product.log_likelihood"]}
{"id": "C03", "title": "A fully missing row has probability one", "statement": "log_likelihood of a row in which every in-scope cell is NaN is 0 (probability exactly 1) at every output index.", "quantifier": "every circuit, every output index", "why_tests_cant": "Holds by induction over arbitrary circuits, tests only sample structures.", "anchors": ["spflow/modules/leaves/leaf.py:LeafModule.log_likelihood", "spflow/modules/sums/sum.py:Sum.log_likelihood"]}
{"id": "C04", "title": "Likelihood depends only on the scope", "statement": "log_likelihood of a module depends only on the columns in its scope: two rows agreeing on every in-scope column get the same result, whatever the other columns contain (including NaN).", "quantifier": "every circuit, every pair of rows agreeing on the scope", "why_tests_cant": "Non-interference over an unbounded input space.", "anchors": ["spflow/modules/leaves/leaf.py:LeafModule._resolve_scope_columns", "spflow/modules/module.py:Module.log_likelihood"]}
{"id": "C05", "title": "Structural marginalisation equals NaN marginalisation", "statement": "For a circuit m as in C01 (unconditional leaves, every Sum with at most as many repetitions as its input) and a set S of variables, m.marginalize(S) never raises and returns None exactly when S covers the scope of m; otherwise it returns a module over scope minus S whose log_likelihood on any row equals, at the surviving features, m.log_likelihood of the row with the cells in S set to NaN.", "quantifier": "every circuit of leaves, Sum, Product and Cat, every S, every row, prune on or off", "why_tests_cant": "Equality of two programs on all inputs; pruning and weight masking have many structure-dependent cases.", "anchors": ["spflow/modules/sums/sum.py:Sum.marginalize", "spflow/modules/products/product.py:Product.marginalize", "spflow/modules/ops/cat.py:Cat.marginalize", "spflow/modules/leaves/leaf.py:LeafModule.marginalize"]}
{"id": "C06", "title": "Sum weights always form convex combinations", "statement": "After construction and after any accepted assignment to weights (or of finite values to log_weights) the weights of a Sum read back as strictly positive numbers that sum to one over the input channels of every (feature, output channel, repetition). Assigning weights succeeds exactly for positive tensors of the right shape whose sums are one up to torch.allclose tolerance, and reads back the assigned values divided by their sum (the assigned values themselves when they sum to exactly one).", "quantifier": "every sequence of constructor / setter / EM operations with arbitrary tensors", "why_tests_cant": "An invariant over all histories of updates.", "anchors": ["spflow/modules/sums/sum.py:Sum.weights", "spflow/modules/sums/sum.py:Sum.log_weights", "spflow/modules/sums/sum.py:Sum._expectation_maximization_step", "spflow/utils/projections.py:proj_convex_to_real"]}
{"id": "C07", "title": "Constructors only build smooth and decomposable circuits", "statement": "If constructing a Cat/Product/Sum succeeds then at every node of the resulting circuit the inputs multiplied together have pairwise disjoint scopes, the inputs mixed together have equal scopes, and the node's scope is the union of its inputs' scopes; Cat raises exactly when its inputs violate these conditions or have different channel (dim=1) / feature (dim=2) counts.", "quantifier": "every sequence of constructor calls", "why_tests_cant": "Accept/reject decision over an unbounded space of structures.", "anchors": ["spflow/modules/ops/cat.py:Cat.__init__", "spflow/modules/products/product.py:Product.__init__", "spflow/modules/sums/sum.py:Sum.__init__"]}
{"id": "C08", "title": "Declared output shape is the actual output shape", "statement": "For every successfully constructed circuit whose leaves and sums all have the same number of repetitions, log_likelihood on a batch of n rows succeeds and returns a tensor of shape (n, out_shape.features, out_shape.channels, out_shape.repetitions).", "quantifier": "every circuit, every batch size", "why_tests_cant": "Broadcasting silently produces other shapes for parameter combinations no test enumerates.", "anchors": ["spflow/modules/sums/sum.py:Sum.log_likelihood", "spflow/modules/ops/cat.py:Cat.__init__", "spflow/modules/module_shape.py:ModuleShape"]}
{"id": "C09", "title": "Unconditional sampling follows the density", "statement": "For a circuit as in C01 (equal feature_to_scope in channel-wise concatenations), sample(data=x) on a row whose scope cells are all NaN, and sample(num_samples=n) when the scope is {0..n-1}, never raise and return each complete assignment y with probability exactly exp(log_likelihood(y)) (channel 0, repetition 0; product over output features); for infinite domains the expectations of all non-negative product test functions agree.", "quantifier": "every circuit, every assignment, every output channel", "why_tests_cant": "Frequencies can be tested only approximately and for a few models.", "anchors": ["spflow/modules/module.py:Module.sample", "spflow/modules/sums/sum.py:Sum._sample", "spflow/modules/ops/cat.py:Cat._sample", "spflow/modules/leaves/leaf.py:LeafModule._sample"]}
{"id": "C10", "title": "Sampling with evidence follows the exact conditional", "statement": "For a circuit as in C09, sample_with_evidence(e) never raises and returns each completion y of the partial row e with probability exp(log_likelihood(y) - log_likelihood(e)), whenever e has positive probability at every Sum of the circuit.", "quantifier": "every circuit, every evidence row, every completion", "why_tests_cant": "Conditional frequencies over all evidence patterns.", "anchors": ["spflow/modules/module.py:Module.sample_with_evidence", "spflow/modules/module.py:Module.sample", "spflow/modules/sums/sum.py:Sum._sample"]}
{"id": "C11", "title": "Sampling never changes evidence", "statement": "Every possible result of sample, mpe and sample_with_evidence keeps every non-NaN cell of the given row; if the data has a column for every scope variable it keeps every cell outside the scope, and, for aligned circuits, has a non-NaN value in every scope cell.", "quantifier": "every circuit, row, random outcome and routing context", "why_tests_cant": "Frame condition over all random outcomes.", "anchors": ["spflow/modules/leaves/leaf.py:LeafModule._sample", "spflow/modules/module.py:Module.sample"]}
{"id": "C12", "title": "mpe returns a most probable completion", "statement": "mpe(data=e) returns a completion of e whose log_likelihood is maximal among all completions of e.", "quantifier": "every circuit, every evidence row", "why_tests_cant": "Optimality over exponentially many completions; the implementation is a greedy top-down pass.", "anchors": ["spflow/modules/module.py:Module.mpe", "spflow/modules/sums/sum.py:Sum._sample", "spflow/utils/sampling_context.py:sample_from_logits"]}
{"id": "C13", "title": "Caching is transparent within one call and evaluates each module once", "statement": "log_likelihood with a fresh cache returns the same tensor as evaluation without caching, even when modules are shared (the circuit is a DAG), and evaluates every distinct module at most once.", "quantifier": "every DAG of modules, every data batch", "why_tests_cant": "Memoisation bugs show on particular sharing patterns only.", "anchors": ["spflow/utils/cache.py:cached", "spflow/utils/cache.py:Cache"]}
{"id": "C14", "title": "A cache can be reused for different data", "statement": "Passing the same Cache object to log_likelihood for two different batches returns the log-likelihood of the second batch for the second call.", "quantifier": "every module, every pair of batches", "why_tests_cant": "Histories of calls sharing a mutable cache.", "anchors": ["spflow/utils/cache.py:cached"]}
{"id": "C15", "title": "An EM step never decreases the data log-likelihood", "statement": "One EM step on all the sum weights of a circuit without shared modules does not decrease the total log_likelihood of the data batch the step was computed on, and keeps every log-likelihood finite, provided every leaf gives every row positive density; the same holds when leaf updates do not decrease the leaves' own weighted log-likelihood.", "quantifier": "every tree-shaped circuit, weight assignment and batch with positive leaf densities", "why_tests_cant": "Monotonicity for all models and data is an analytic theorem.", "anchors": ["spflow/modules/sums/sum.py:Sum._expectation_maximization_step", "spflow/learn/expectation_maximization.py:expectation_maximization"]}
{"id": "C16", "title": "Scope algebra", "statement": "Scope construction rejects negative indices, duplicates, query/evidence overlap and an evidence without query and accepts everything else; join is the union of the queries (evidence: union minus the joined query), commutative, associative and idempotent up to equality; all_pairwise_disjoint and all_equal decide exactly what they say; remove_from_query removes exactly that variable.", "quantifier": "all lists of integers, all lists of scopes", "why_tests_cant": "Algebraic laws over all index sets.", "anchors": ["spflow/meta/data/scope.py:Scope"]}
{"id": "C17", "title": "Equal scopes hash equally", "statement": "If two Scope objects compare equal then their hashes are equal, so scopes can be dictionary keys or set members.", "quantifier": "all pairs of scopes", "why_tests_cant": "Needs all permutations of all queries.", "anchors": ["spflow/meta/data/scope.py:Scope.__eq__", "spflow/meta/data/scope.py:Scope"]}
{"id": "C18", "title": "Splitting and merging features are inverse", "statement": "For the consecutive, interleaved and by-index split modes, distributing the input features over the splits and merging the split outputs back restores the original feature order, and every input feature lands in exactly one split.", "quantifier": "every number of features that the number of splits divides (consecutive: any), every valid index list", "why_tests_cant": "Index arithmetic over all sizes.", "anchors": ["spflow/modules/ops/split.py:Split", "spflow/modules/ops/split_consecutive.py:SplitConsecutive", "spflow/modules/ops/split_interleaved.py:SplitInterleaved", "spflow/modules/ops/split_by_index.py:SplitByIndex"]}
{"id": "C19", "title": "A by-index split's feature_to_scope names the variables its outputs depend on", "statement": "For each output i and feature j of a SplitByIndex, feature_to_scope reports the scope of the input feature that log_likelihood returns at that position, and the padding marker beyond the group's length.", "quantifier": "every index list, sizes, repetitions", "why_tests_cant": "Layout agreement between two independent index computations for all sizes.", "anchors": ["spflow/modules/ops/split_by_index.py:SplitByIndex.feature_to_scope"]}
{"id": "C20", "title": "SplitByIndex accepts exactly the partitions", "statement": "SplitByIndex(indices) succeeds if and only if the index lists together contain each of 0..features-1 exactly once (groups may be empty), and raises otherwise.", "quantifier": "all lists of index lists, all feature counts", "why_tests_cant": "Decision procedure over unbounded inputs.", "anchors": ["spflow/modules/ops/split_by_index.py:SplitByIndex.__init__"]}
{"id": "C21", "title": "OuterProduct enumerates every channel combination exactly once", "statement": "With S inputs of C channels OuterProduct has C^S output channels, the map from output channel to the tuple of input channels is a bijection, log_likelihood at an output channel is the sum of the inputs' log-likelihoods at that tuple, and sampling decodes an output channel into the same tuple.", "quantifier": "every number of inputs, channel counts, output channels", "why_tests_cant": "Bijectivity for all sizes and agreement of two separate index computations.", "anchors": ["spflow/modules/products/outer_product.py:OuterProduct", "spflow/modules/products/outer_product.py:OuterProduct.unraveled_channel_indices"]}
{"id": "C22", "title": "ElementwiseProduct pairs equal channels", "statement": "ElementwiseProduct combines channel c of every input (single-channel inputs are broadcast), its distribution is the product of its inputs' distributions, and sampling routes the same channel to every input.", "quantifier": "all inputs, channel counts, features", "why_tests_cant": "All broadcast combinations.", "anchors": ["spflow/modules/products/elementwise_product.py:ElementwiseProduct"]}
{"id": "C23", "title": "ElementwiseSum mixes position-wise", "statement": "ElementwiseSum mixes, for each feature and channel position, the corresponding channels of its inputs (single-channel inputs are broadcast) with weights that sum to one; the output is normalised when the inputs are; sampling picks input i with the prior resp. posterior of its weight and, when all inputs have the same number of channels, routes the same channel position.", "quantifier": "all inputs, channel counts and weights", "why_tests_cant": "All channel ravelings.", "anchors": ["spflow/modules/sums/elementwise_sum.py:ElementwiseSum"]}
{"id": "C24", "title": "Einsum and Linsum layers compute the documented contraction", "statement": "On every row that some channel of each side can explain, EinsumLayer.log_likelihood at output channel o equals log sum_ij W[o,i,j] exp(l_i + r_j) whatever contraction schedule is chosen, LinsumLayer (on all rows) the diagonal version; the weights are positive and sum to one; with normalised inputs over disjoint scopes the output is normalised and marginalises exactly; sampling draws (i,j) from the prior resp. the posterior of the weighted pairs.", "quantifier": "all channel counts, weights, contraction schedules, inputs", "why_tests_cant": "Numerical log-einsum-exp is tested on random tensors only, never on zero-probability inputs.", "anchors": ["spflow/modules/einsum/einsum_layer.py:EinsumLayer.log_likelihood", "spflow/modules/einsum/linsum_layer.py:LinsumLayer.log_likelihood"]}
{"id": "C25", "title": "RepetitionMixingLayer is a mixture over repetitions", "statement": "RepetitionMixingLayer.log_likelihood is, per feature and channel, the mixture of the repetitions with weights that sum to one; it is normalised when its input is; with one channel its sampling draws the repetition from the prior resp. posterior of those weights.", "quantifier": "all shapes and weights", "why_tests_cant": "Normalisation axis errors survive shape-only tests.", "anchors": ["spflow/modules/sums/repetition_mixing_layer.py:RepetitionMixingLayer"]}
{"id": "C26", "title": "Sampling contexts stay consistent", "statement": "Every SamplingContext reachable from its constructor through update with repetition_index, the repetition_index setter, the width adaptations (broadcast, repeat, scatter), the strict channel update, with_routing and copy has channel_index and mask of one batch size and feature width and repetition_index of the same batch size; with the channel_index and mask setters included the batch sizes still agree; a rejected operation leaves the context unchanged; a context accepted by validate_sampling_context is consistent and of an allowed width.", "quantifier": "all operation sequences", "why_tests_cant": "An invariant over all histories.", "anchors": ["spflow/utils/sampling_context.py:SamplingContext"]}
{"id": "C27", "title": "Channel routing assigns every active entry to exactly one child", "statement": "route_channel_offsets maps each active (row, feature) with a valid concatenated channel index to exactly one child, with local channel equal to the global channel minus the child's offset and within the child's channel count; inactive entries are routed to no child.", "quantifier": "all channel count lists, channel indices and masks", "why_tests_cant": "Offset arithmetic over all sizes.", "anchors": ["spflow/utils/sampling_context.py:SamplingContext.route_channel_offsets"]}
{"id": "C28", "title": "Signed log-sum-exp is exact", "statement": "signed_logsumexp of (log|a_i|, sign a_i) returns the log-magnitude and sign of sum_i a_i, including zero terms and exact cancellation, and SignedSum.signed_logabs_and_sign is the signed linear combination of its input values.", "quantifier": "all finite lists of real values", "why_tests_cant": "Cancellation and zero cases are measure-zero for random tests.", "anchors": ["spflow/utils/signed_semiring.py:signed_logsumexp", "spflow/modules/sums/signed_sum.py:SignedSum"]}
{"id": "C29", "title": "Parameter projections are inverse", "statement": "Whenever at least one bound is given (and lb<ub), proj_real_to_bounded maps every real strictly inside the bounds and proj_bounded_to_real inverts it, and conversely every value inside the bounds is the projection of its preimage; proj_real_to_convex yields positive vectors summing to one and inverts proj_convex_to_real on the open simplex.", "quantifier": "all real vectors, all bounds lb<ub (either may be missing)", "why_tests_cant": "All reals; boundary behaviour.", "anchors": ["spflow/utils/projections.py"]}
{"id": "C30", "title": "Leaf families are normalised for all parameters", "statement": "For every admissible parameter the exponentiated log-probability of the Bernoulli, Categorical, Binomial, Geometric, Poisson, NegativeBinomial, Hypergeometric, Uniform, Exponential, Laplace and Normal leaf sums/integrates to one over its range and is the textbook mass function; circuits built on such leaves are normalised.", "quantifier": "all admissible parameters", "why_tests_cant": "Analytic identities.", "anchors": ["spflow/modules/leaves/bernoulli.py", "spflow/modules/leaves/categorical.py", "spflow/modules/leaves/binomial.py", "spflow/modules/leaves/geometric.py", "spflow/modules/leaves/uniform.py", "spflow/modules/leaves/exponential.py"]}
{"id": "C31", "title": "Leaf maximum likelihood estimates are admissible and optimal", "statement": "maximum_likelihood_estimation(bias_correction=False) on non-negatively weighted data stores, at every (feature, channel, repetition) entry whose complete rows lie in the support and do not force a parameter to the end of its range, finite parameters that maximise the weighted log-likelihood within the family (Bernoulli, Categorical, Binomial, Geometric, Poisson, NegativeBinomial, Exponential, Normal; Laplace with equal weights). On any in-support data Categorical, Binomial, Poisson, NegativeBinomial, Normal and Laplace store finite parameters, and Categorical is within weight*K*1e-10 of the optimum.", "quantifier": "all leaf shapes, all non-empty weighted data sets, all parameters compared against", "why_tests_cant": "Optimality over all parameters and all data, including degenerate data.", "anchors": ["spflow/modules/leaves/leaf.py:LeafModule.maximum_likelihood_estimation", "spflow/utils/leaves.py:_handle_mle_edge_cases", "spflow/modules/leaves/bernoulli.py:Bernoulli._mle_update_statistics"]}
{"id": "C32", "title": "Interval evidence gives the probability of the box", "statement": "log_likelihood of an IntervalEvidence accepts exactly pairs of equally shaped tables with low <= high wherever both are finite, and returns for every output the log-probability that every variable lies in its closed interval [low, high] (NaN = unbounded side): never below it, and above it by at most 1e-40 per variable; exactly it when every leaf gives its interval at least 1e-40. With no bounds the result is 0. The call succeeds exactly when every leaf's family implements intervals.", "quantifier": "all circuits, all interval pairs", "why_tests_cant": "All boxes, including atoms at the bounds.", "anchors": ["spflow/meta/data/interval_evidence.py:IntervalEvidence", "spflow/modules/leaves/leaf.py:LeafModule._log_likelihood_interval"]}
{"id": "C33", "title": "Histogram leaf is a density", "statement": "A Histogram leaf is accepted exactly for strictly increasing edges with one parameter per bin. Its log-likelihood is that of the piecewise constant density p(bin)/width(bin) on [first edge, last edge), floored at min_prob/greatest width; it integrates to one iff no bin is floored, and otherwise to at most 1 + nbins*min_prob. The mode is the midpoint of a bin of greatest probability (a density maximiser if the bins have equal width). Samples follow the density. Fitting raises on samples outside the support; otherwise every bin gets its relative frequency (exactly if none is below min_prob, and then the likelihood is maximal).", "quantifier": "all bin edges, probabilities and data", "why_tests_cant": "All bin layouts, e.g. unequal widths.", "anchors": ["spflow/modules/leaves/histogram.py:Histogram", "spflow/modules/leaves/histogram.py:HistogramDist"]}
{"id": "C34", "title": "Chow-Liu tree leaf is an exact tree distribution", "statement": "For a CLTree leaf whose parent vector is a rooted tree: construction succeeds exactly for K >= 2, alpha > 0 and at least two features; log_likelihood of a row is the product of the conditional probabilities summed over the NaN cells (whatever the other rows of the batch are), stored at feature 0 with log 1 at the others; rows with a cell that is not a category raise; with normalised tables all complete rows have total probability one.", "quantifier": "all trees, tables, batches, missingness patterns", "why_tests_cant": "Message passing over all trees and evidence patterns.", "anchors": ["spflow/modules/leaves/cltree.py:CLTree"]}
{"id": "C35", "title": "Region graph traversal and validation", "statement": "Region.add_partition accepts exactly the non-empty, pairwise disjoint decompositions whose union is the region's scope and appends them; RegionGraph.post_order and .regions list every region of the graph (up to equality) and only those, post_order after all parts of each region and with the root last; when scopes are stored sorted no two listed regions are equal.", "quantifier": "all region graphs", "why_tests_cant": "All graphs, arbitrary sharing and depth.", "anchors": ["spflow/meta/region_graph.py:Region.add_partition", "spflow/meta/region_graph.py:RegionGraph.post_order", "spflow/meta/region_graph.py:RegionGraph.regions"]}
{"id": "C36", "title": "Random factorisation partitions the features", "statement": "For every random draw: Factorize is constructed exactly when the scope has at least 2^depth variables, and then in every repetition each feature is in exactly one of the 2^depth groups, no group is empty and sizes differ by at most one; each output's log-likelihood is the sum over its group (finite inputs) and its scope the union of its group's scopes; sampling routes an output's channel and mask to exactly its group, so the routed features have the probability of the chosen outputs.", "quantifier": "all feature counts, depths, repetitions, shuffles and permutations, inputs and sampling contexts", "why_tests_cant": "All random draws and sizes.", "anchors": ["spflow/modules/rat/factorize.py:Factorize._factorize", "spflow/modules/rat/factorize.py:Factorize.log_likelihood", "spflow/modules/rat/factorize.py:Factorize.feature_to_scope", "spflow/modules/rat/factorize.py:Factorize._route_sampling_integer"]}
{"id": "C37", "title": "replace() restores the replaced attribute on every exit", "statement": "For any program of nested and sequential replace() contexts over ordinary methods, ending normally or by an exception at any point, every class attribute afterwards is what it was before; inside a context the attribute is the replacement (behind @cached iff the original was decorated) for the owning class and everything that inherits it, and every other attribute is unchanged.", "quantifier": "all class hierarchies, programs, nestings and exits", "why_tests_cant": "All nestings and exit points.", "anchors": ["spflow/utils/replace.py:replace", "spflow/utils/replace.py:_extract_class_and_name"]}
{"id": "C38", "title": "Posterior probabilities follow Bayes' rule", "statement": "For every row with positive probability, log_posterior / predict_proba of RatSPN, Einet and NaiveBayes return prior (the root mixture weights) times class likelihood divided by the model's likelihood of the row; they sum to one; predict returns a class maximising the posterior; a single-class model raises.", "quantifier": "all likelihood tensors, priors, circuits and rows", "why_tests_cant": "All circuits and rows.", "anchors": ["spflow/utils/inference.py:log_posterior", "spflow/interfaces/classifier.py:Classifier.predict", "spflow/zoo/rat/rat_spn.py:RatSPN.log_posterior", "spflow/zoo/naive_bayes.py:NaiveBayes.log_posterior"]}
{"id": "C39", "title": "prune_sums preserves the distribution", "statement": "For every circuit in which a Sum mixes over channels and Sums feeding another Sum have one output channel (as learn_spn builds them), prune_sums returns a circuit of the same shape, scope and probability on every row, in which no Sum over a Cat of Sums is left.", "quantifier": "all such circuits, rows", "why_tests_cant": "Program equivalence over all structures.", "anchors": ["spflow/learn/learn_spn.py:prune_sums"]}
{"id": "C40", "title": "learn_spn returns a valid circuit over the requested scope", "statement": "For every data set, clustering, partitioning, leaf estimation and random weights (leaf modules disjoint, covering the scope, with equal channel counts): if learn_spn ends it returns a smooth, decomposable circuit over exactly the requested scope with the declared shape, whose leaves are the estimated ones and which is normalised if they are; it raises only if a leaf estimation raises. A clustering step is the mixture weighted by cluster shares. It ends if the clustering splits every large enough slice. Its results can be pruned without changing them.", "quantifier": "all data sets and all behaviours of the clustering / independence-test / estimation procedures", "why_tests_cant": "Adversarial oracles and all data.", "anchors": ["spflow/learn/learn_spn.py:learn_spn", "spflow/learn/learn_spn.py:_adapt_product_inputs"]}
{"id": "C41", "title": "learn_prometheus decomposes properly, terminates and returns a valid circuit", "statement": "For every affinity matrix (or set of sampled edges) the decompositions considered by learn_prometheus split the scope into at least two non-empty disjoint blocks covering it, refine each other one block at a time down to single variables and are the groups joined by affinities above a rising threshold; there are d-1 of them exactly if all variables are joined by nonzero affinities (always in sampled mode). Sampled edges are exactly the chosen pairs. For every clustering, affinity, leaf estimation and random weights learn_prometheus terminates, raises only if a helper raises, and returns a valid normalised circuit over exactly the scope built from estimated leaves: the mixture of all products weighted by cluster share over the number of decompositions.", "quantifier": "all affinity matrices, sampled edges, clusterings, leaf estimators, data sets, scopes, parameters", "why_tests_cant": "Recursion over all data sets and helper results.", "anchors": ["spflow/learn/prometheus.py:learn_prometheus", "spflow/learn/prometheus.py:_learn_prometheus_single_channel", "spflow/learn/prometheus.py:_mst_partitions_from_affinity", "spflow/learn/prometheus.py:_mst_partitions_from_sampled_edges", "spflow/learn/prometheus.py:_sampled_edges_corr", "spflow/learn/prometheus.py:_affinity_corr"]}
{"id": "C42", "title": "learn_cnet returns a normalised cutset network", "statement": "For every leaf estimation, data set, scope, order and parameters: learn_cnet accepts only complete data in range; the circuit has exactly the requested scope and is normalised if the leaves are; on exact integer data a complete row gets the share of the training rows that agree with it on the conditioned prefix of the order times the probability of the leaf fitted on exactly these rows (zero if there are none), so training rows get positive probability; learning succeeds whenever no slice misses some but not all-but-one of a variable's values, in particular on binary data; the result can be evaluated if no combination of values occurs exactly once; the default order is a permutation of the scope by non-increasing empirical entropy.", "quantifier": "all data sets, scopes, orders, parameters, leaf estimators", "why_tests_cant": "Recursion over all data sets and orders.", "anchors": ["spflow/learn/cnet.py:learn_cnet", "spflow/learn/cnet.py:_create_leaf", "spflow/learn/cnet.py:_compute_entropy", "spflow/learn/cnet.py:_validate_discrete_data"]}
{"id": "C43", "title": "The EM driver stops correctly and reports its history", "statement": "expectation_maximization runs at most max_steps steps, returns one average log-likelihood per executed evaluation, stops at the first evaluation that does not improve, and leaves the model in the state of the last executed update.", "quantifier": "all likelihood sequences", "why_tests_cant": "All trajectories.", "anchors": ["spflow/learn/expectation_maximization.py:expectation_maximization"]}
{"id": "C44", "title": "inner_product is the exact inner product of the two circuits", "statement": "inner_product_matrix(p,q) equals the sum (discrete variables) or integral (real variables) over all complete assignments of p(x)q(x) at every pair of output channels, for circuits the function accepts whose leaves list their variables in ascending order.", "quantifier": "all pairs of compatible circuits (Sum, SignedSum, Product, Cat; Bernoulli, Categorical, SignedCategorical, Binomial, Geometric, Poisson, Hypergeometric, Uniform, Exponential, Laplace, Normal leaves), all parameters outside the documented clamps", "why_tests_cant": "Exact algebraic identity for all structures.", "anchors": ["spflow/utils/inner_product_core.py", "spflow/utils/inner_product.py"]}
{"id": "C45", "title": "Sum-of-compatible-squares circuits are normalised", "statement": "On complete rows SOCS.log_likelihood is the log of sum_i c_i(x)^2 / Z, Z is the sum or integral of sum_i c_i^2 over all complete assignments, the total mass is one, and no row inside the leaves' supports raises.", "quantifier": "all lists of compatible component circuits, all complete rows", "why_tests_cant": "All structures and signed weights.", "anchors": ["spflow/modules/sos/socs.py:SOCS.log_likelihood", "spflow/modules/sos/socs.py:SOCS._log_partition"]}
{"id": "C46", "title": "SOCS sampling targets its density", "statement": "The Metropolis-Hastings transition used for sampling a component satisfies detailed balance with respect to the squared component, any number of steps leaves that target invariant, components are chosen with probability proportional to their partition functions, and over finite domains the distribution of SOCS.sample converges geometrically to the SOCS density as the number of MCMC steps grows.", "quantifier": "all proposals and targets; all component lists over finite domains, all numbers of steps", "why_tests_cant": "Stationarity is a statement about the exact kernel.", "anchors": ["spflow/modules/sos/socs.py:SOCS._sample"]}
{"id": "C47", "title": "The DSL builds the circuit it spells", "statement": "build() of a DSL expression succeeds exactly when products have at least two factors with disjoint scopes and equal channels and repetitions, mixtures at least two single-channel terms with equal scopes, features and repetitions and positive weights, and no weighted term stands where a circuit is needed; the result is a valid circuit with the expression's variables and shape. For expressions over single-feature modules whose inner mixtures are normalised the density is the arithmetic of the source divided by its total weight (w1*a + w2*b has weights w_i / sum w, a*b is the product), independent of the bracketing of sums, and it integrates to one for normalised leaves. dsl() only gives meaning to expressions that raise outside it; leaving it, normally or by exception, nested or not, restores the module operators, and uses see the operators of the block they are written in.", "quantifier": "all expressions, modules, weights, rows, and all programs with nested dsl() blocks and exceptions", "why_tests_cant": "All expression trees and control flows.", "anchors": ["spflow/dsl.py:Term", "spflow/dsl.py:ProductExpr", "spflow/dsl.py:WeightedExpr", "spflow/dsl.py:SumExpr", "spflow/dsl.py:build", "spflow/dsl.py:dsl", "spflow/dsl.py:_make_sum_weights", "spflow/dsl.py:_validate_product_modules", "spflow/dsl.py:_validate_sum_modules"]}
{"id": "C48", "title": "Exact information measures obey their laws", "statement": "entropy(method='exact') succeeds exactly when the scope is non-empty, every requested variable has leaves that all agree on one finite number of states, and the model's variables are column indices below their number; its value is then Shannon's entropy of the circuit's marginal, between 0 and the log of the number of states, and grows with the scope. mutual_information is non-negative, symmetric, at most either entropy and zero exactly for independent blocks; conditional_mutual_information is non-negative and zero exactly for conditionally independent blocks.", "quantifier": "all circuits with normalised leaves, averaging aggregations, variable subsets", "why_tests_cant": "Inequalities over all distributions.", "anchors": ["spflow/measures/information_theory.py:entropy", "spflow/measures/information_theory.py:mutual_information", "spflow/measures/information_theory.py:conditional_mutual_information", "spflow/measures/_utils.py:infer_discrete_domains", "spflow/measures/_utils.py:reduce_log_likelihood"]}
{"id": "C49", "title": "Convolutional sums use the weight of their own kernel position", "statement": "SumConv's output at pixel (h,w) is a convex mixture over input channels at the same pixel with the weights of position (h mod K, w mod K) (position 0 for images smaller than the kernel); weights are positive and sum to one over the input channels; assigning weights is accepted for positive weights of the right shape summing to one and reading them back gives the assigned values.", "quantifier": "all image sizes, kernel sizes, weights, inputs", "why_tests_cant": "Tensor reshapes over all sizes.", "anchors": ["spflow/modules/conv/sum_conv.py:SumConv"]}
{"id": "C50", "title": "Convolutional products cover each pixel once", "statement": "ProdConv's output is the product over the pixels of its kernel window and its scope their variables; every pixel belongs to exactly one window exactly when the windows reach the far edges; outputs of any circuit of Sum, Product, SumConv and ProdConv are normalised distributions of their feature's variables whose marginals are computed by NaN, and if no pixel is dropped the features partition the scope.", "quantifier": "all image, kernel and padding sizes, circuits, rows", "why_tests_cant": "Index arithmetic with padding/truncation over all sizes.", "anchors": ["spflow/modules/conv/prod_conv.py:ProdConv"]}
{"id": "C51", "title": "ImageWrapper is the wrapped module on flattened pixels", "statement": "Pixel (c,h,w) is column c*H*W+h*W+w, one to one, and flattening and reshaping are inverse. log_likelihood of a (C,H,W) image is the wrapped module's on those columns, and raises exactly for other sizes or when the scope is not 0..C*H*W-1. sample() and sample_with_evidence() return each complete picture with its (conditional) probability, keep observed pixels and leave none missing. marginalize removes exactly the pixels of the selected distinct channels, rows and columns (negative indices from the end) of a scope listed in order, returns None exactly when nothing is left, and its log-likelihood is that of NaN pixels.", "quantifier": "all circuits, image sizes, images, evidence, selections", "why_tests_cant": "Index arithmetic and probability laws for all sizes and circuits.", "anchors": ["spflow/modules/wrapper/image_wrapper.py:ImageWrapper", "spflow/modules/wrapper/image_wrapper.py:ImageWrapper.marginalize", "spflow/modules/wrapper/image_wrapper.py:ImageWrapper.log_likelihood", "spflow/modules/wrapper/image_wrapper.py:ImageWrapper.sample"]}
{"id": "C52", "title": "PiecewiseLinear evaluates a normalised polygon fitted to the data", "statement": "For all valid knots a PiecewiseLinear leaf reports the height of the polygon through the knots (plus 1e-10), 0 outside them; the polygon integrates to its trapezoid area, the mode is a knot of greatest density, and continuous samples fall between two consecutive knots with the probability of the area there. initialize() accepts every data set and clustering with proper domains and gives every (feature, channel, repetition) entry valid knots of area one fitted to its cluster's values; missing values score 0. Continuous: equal-width bins covering the data, density at bin midpoints proportional to count over width plus alpha. Discrete unit-spaced domains: smoothed relative frequencies that sum to one, and for the domain 0..k-1 samples follow them.", "quantifier": "all knot vectors, data sets, clusterings, domains, alpha >= 0, evaluation points", "why_tests_cant": "All real knot layouts, data sets and clusterings.", "anchors": ["spflow/modules/leaves/piecewise_linear.py:PiecewiseLinearDist.log_prob", "spflow/modules/leaves/piecewise_linear.py:PiecewiseLinearDist.sample", "spflow/modules/leaves/piecewise_linear.py:PiecewiseLinearDist.mode", "spflow/modules/leaves/piecewise_linear.py:PiecewiseLinear.initialize", "spflow/modules/leaves/piecewise_linear.py:PiecewiseLinear.log_likelihood"]}
{"id": "C53", "title": "topk_mst returns the k best spanning trees", "statement": "For every weight matrix without NaN and no dropout, topk_mst returns between one and num_trees distinct spanning trees in order of increasing total weight, and every spanning tree is either returned or, when num_trees trees came back, weighs at least as much as each of them; fewer than num_trees come back only when all were returned. NaN, empty and non-square matrices and num_trees < 1 are rejected.", "quantifier": "all sizes, weight matrices, numbers of trees", "why_tests_cant": "Optimality over all spanning trees.", "anchors": ["spflow/zoo/hclt/topk_mst.py:topk_mst", "spflow/zoo/hclt/topk_mst.py:_mst_with_constraints"]}
{"id": "C54", "title": "RatSPN sampling with evidence conditions the class", "statement": "(Refuted) RatSPN.sample_with_evidence with several root nodes draws completions from the conditional distribution of its mixture: the class is drawn from the prior, ignoring the evidence.", "quantifier": "witness", "why_tests_cant": "Counterexample to a universal claim.", "anchors": ["spflow/zoo/rat/rat_spn.py:RatSPN.sample"]}
{"id": "C55", "title": "Structure statistics count every module once", "statement": "get_structure_stats reports the number of distinct modules reachable through child references, the number of references, per-class and scope-size counts over those modules, the number of scalars in distinct parameter storages, the number of nodes on a longest path, and the modules referenced more than once; it raises exactly when the graph has a cycle.", "quantifier": "all module graphs", "why_tests_cant": "All DAGs and cyclic graphs.", "anchors": ["spflow/utils/structure_stats.py:get_structure_stats", "spflow/utils/structure_stats.py:_iter_structure_children"]}
{"id": "C56", "title": "Mixing inputs that list the same variables in another order", "statement": "A circuit accepted by the constructors is normalised also when the inputs of a Sum/Cat over channels enumerate the same variables in different orders.", "quantifier": "every circuit accepted by the constructors", "why_tests_cant": "Needs two inputs with equal scopes and different orders; tests always use the same order.", "anchors": ["spflow/modules/ops/cat.py:Cat.__init__", "spflow/modules/sums/sum.py:Sum.__init__"]}
{"id": "C57", "title": "marginalize never raises for circuits with mixed repetitions", "statement": "Sum.marginalize succeeds for every constructed circuit, also when a Sum has more repetitions than its input.", "quantifier": "every constructed circuit and every set of variables", "why_tests_cant": "Repetition broadcasting combines with structural marginalisation only for particular shape combinations.", "anchors": ["spflow/modules/sums/sum.py:Sum.marginalize"]}
{"id": "C58", "title": "Declared output shape with mixed repetitions", "statement": "out_shape.repetitions is the repetition extent of the returned log-likelihood also when a Sum has fewer repetitions than its input (the default num_repetitions=1).", "quantifier": "every constructed circuit", "why_tests_cant": "Broadcasting hides the mismatch unless repetitions differ.", "anchors": ["spflow/modules/sums/sum.py:Sum.__init__", "spflow/modules/sums/sum.py:Sum.log_likelihood"]}
{"id": "C59", "title": "sample(num_samples) works for every scope", "statement": "sample(num_samples=n) on a constructed circuit returns samples, whatever variable indices its scope contains.", "quantifier": "every constructed circuit", "why_tests_cant": "Tests use scopes {0..n-1}; scopes with gaps address columns outside the allocated tensor.", "anchors": ["spflow/modules/module.py:Module._prepare_sample_data", "spflow/modules/leaves/leaf.py:LeafModule._resolve_scope_columns"]}
{"id": "C60", "title": "Conditional sampling succeeds for every evidence of positive probability", "statement": "sample_with_evidence(e) returns a sample for every row e with positive probability under the circuit.", "quantifier": "every circuit and evidence row with positive probability", "why_tests_cant": "Fails only when an unselected Sum assigns the evidence probability exactly zero.", "anchors": ["spflow/modules/module.py:Module.sample_with_evidence", "spflow/modules/sums/sum.py:Sum._sample"]}
{"id": "C61", "title": "sample(data=e) conditions on the evidence in data", "statement": "sample(data=e), documented to handle conditional sampling through evidence in the data tensor, returns each completion y of e with probability exp(log_likelihood(y) - log_likelihood(e)).", "quantifier": "every circuit, evidence row and completion", "why_tests_cant": "The samples look plausible; only the distribution is wrong.", "anchors": ["spflow/modules/module.py:Module.sample", "spflow/modules/sums/sum.py:Sum._sample"]}
{"id": "C62", "title": "Sampling fills every missing cell of the scope", "statement": "Every result of sample has a non-NaN value in every scope cell, for every constructed circuit.", "quantifier": "every constructed circuit and random outcome", "why_tests_cant": "Depends on the random channel choices and on the variable order of the inputs.", "anchors": ["spflow/modules/ops/cat.py:Cat.__init__", "spflow/modules/leaves/leaf.py:LeafModule._sample"]}
{"id": "C63", "title": "An EM step keeps a model with positive likelihood finite", "statement": "If every row of the batch has positive likelihood under the circuit, the weights after one EM step are numbers (not NaN).", "quantifier": "every circuit and batch with positive likelihood", "why_tests_cant": "Needs a row that some inner Sum, but not the root, gives probability zero.", "anchors": ["spflow/modules/sums/sum.py:Sum._expectation_maximization_step"]}
{"id": "C64", "title": "An EM step on a circuit with shared modules does not decrease the likelihood", "statement": "One EM step on a circuit in which modules are used by several parents does not decrease the batch's total log_likelihood.", "quantifier": "every DAG and batch", "why_tests_cant": "Only some sharing patterns and weights show the decrease.", "anchors": ["spflow/modules/module.py:Module._expectation_maximization_step", "spflow/modules/sums/sum.py:Sum._expectation_maximization_step"]}
{"id": "C65", "title": "The EM driver stops when the likelihood no longer improves, also for NaN", "statement": "expectation_maximization with default max_steps stops once the average log-likelihood is not larger than before, including when it is NaN.", "quantifier": "every likelihood sequence", "why_tests_cant": "NaN trajectories.", "anchors": ["spflow/learn/expectation_maximization.py:expectation_maximization"]}
{"id": "C66", "title": "Consecutive and interleaved splits report the scopes of their outputs", "statement": "For each split output i and feature j, feature_to_scope of SplitConsecutive / SplitInterleaved reports the scope of the input feature that log_likelihood returns at that position.", "quantifier": "all sizes", "why_tests_cant": "Symmetric sizes hide the transposition.", "anchors": ["spflow/modules/ops/split_consecutive.py:SplitConsecutive.feature_to_scope", "spflow/modules/ops/split_interleaved.py:SplitInterleaved.feature_to_scope"]}
{"id": "C67", "title": "Splits work for feature counts that are not divisible", "statement": "A split with num_splits=n of at least n features returns n outputs which merge back to the input.", "quantifier": "all feature counts F >= n", "why_tests_cant": "Needs non-divisible sizes.", "anchors": ["spflow/modules/ops/split_consecutive.py:SplitConsecutive.log_likelihood", "spflow/modules/ops/split_interleaved.py:SplitInterleaved.merge_split_tensors"]}
{"id": "C68", "title": "OuterProduct.feature_to_scope has one entry per output feature", "statement": "OuterProduct.feature_to_scope lists one scope per output feature. (False for inputs with more than one feature: the scopes of all feature combinations are listed.)", "quantifier": "all inputs", "why_tests_cant": "True or false for every shape; tests only use the shapes where both readings agree.", "anchors": ["spflow/modules/products/outer_product.py:OuterProduct.feature_to_scope"]}
{"id": "C69", "title": "Shapes accepted by product layers can be evaluated", "statement": "Inputs whose shapes an OuterProduct or ElementwiseProduct accepts can be evaluated, including the feature broadcasting the documentation promises. (False: features (2,3) resp. (3,1).)", "quantifier": "all shapes", "why_tests_cant": "True or false for every shape; tests only use the shapes where both readings agree.", "anchors": ["spflow/modules/products/outer_product.py:OuterProduct.check_shapes", "spflow/modules/products/elementwise_product.py:ElementwiseProduct.check_shapes"]}
{"id": "C70", "title": "ElementwiseSum samples from broadcast inputs", "statement": "Every channel of an ElementwiseSum whose log_likelihood can be evaluated can be sampled. (False: a single-channel input is broadcast by log_likelihood but receives an out-of-range channel when sampled.)", "quantifier": "all inputs, channels", "why_tests_cant": "True or false for every shape; tests only use the shapes where both readings agree.", "anchors": ["spflow/modules/sums/elementwise_sum.py:ElementwiseSum._sample"]}
{"id": "C71", "title": "EinsumLayer gives impossible rows log-likelihood -inf", "statement": "EinsumLayer.log_likelihood is -inf on a row that one side cannot explain. (False: it is NaN for every such row, for every contraction schedule.)", "quantifier": "all rows, shapes, weights", "why_tests_cant": "Tests use leaves with full support.", "anchors": ["spflow/modules/einsum/einsum_layer.py:EinsumLayer.log_likelihood"]}
{"id": "C72", "title": "Einsum/Linsum layers route mask and channel alike through a split", "statement": "When an EinsumLayer or LinsumLayer with one split input is sampled, the input feature that feeds an output feature receives that output feature's mask and channel. (True for interleaved, false for consecutive splits.)", "quantifier": "all masks, channels, features", "why_tests_cant": "True or false for every shape; tests only use the shapes where both readings agree.", "anchors": ["spflow/modules/einsum/einsum_layer.py:EinsumLayer._sample", "spflow/modules/einsum/linsum_layer.py:LinsumLayer._sample"]}
{"id": "C73", "title": "Einsum/Linsum feature_to_scope names the combined features", "statement": "feature_to_scope of an EinsumLayer or LinsumLayer over one split input joins the scopes of the two input features that output feature combines. (False for the default consecutive split.)", "quantifier": "all inputs with one split", "why_tests_cant": "True or false for every shape; tests only use the shapes where both readings agree.", "anchors": ["spflow/modules/einsum/einsum_layer.py:EinsumLayer.feature_to_scope", "spflow/modules/einsum/linsum_layer.py:LinsumLayer.feature_to_scope"]}
{"id": "C74", "title": "EinsumLayer uses every input feature", "statement": "An EinsumLayer's log_likelihood depends on every feature of its input or rejects the input. (False: a split into more than two parts is accepted and the other parts are ignored.)", "quantifier": "all split inputs", "why_tests_cant": "True or false for every shape; tests only use the shapes where both readings agree.", "anchors": ["spflow/modules/einsum/einsum_layer.py:EinsumLayer.__init__", "spflow/modules/einsum/einsum_layer.py:EinsumLayer.log_likelihood"]}
{"id": "C75", "title": "Marginalising an EinsumLayer keeps its distribution", "statement": "marginalize of an EinsumLayer computes the marginal of the layer and keeps its number of channels. (False: the weights are replaced by random ones, and a layer that loses one input is replaced by the other input.)", "quantifier": "all layers and variable sets", "why_tests_cant": "Tests check shapes of the marginalised layer.", "anchors": ["spflow/modules/einsum/einsum_layer.py:EinsumLayer.marginalize", "spflow/modules/einsum/linsum_layer.py:LinsumLayer.marginalize"]}
{"id": "C76", "title": "RepetitionMixingLayer with several channels, given weights, declared shape", "statement": "RepetitionMixingLayer samples the repetition of a channel from that channel's weights, accepts convex weights in its constructor and declares the shape it computes. (All three are false.)", "quantifier": "all shapes and weights", "why_tests_cant": "True or false for every shape; tests only use the shapes where both readings agree.", "anchors": ["spflow/modules/sums/repetition_mixing_layer.py:RepetitionMixingLayer"]}
{"id": "C77", "title": "Property setters and partial updates keep contexts consistent", "statement": "Assigning ctx.channel_index or ctx.mask keeps the two widths equal, and ctx.update(channel_index, mask) keeps the batch size of repetition_index equal to theirs. (False.)", "quantifier": "all contexts and tensors", "why_tests_cant": "Each setter validates what tests try; the broken combination is only visible as an invariant.", "anchors": ["spflow/utils/sampling_context.py:SamplingContext"]}
{"id": "C78", "title": "Width adaptations keep the routing", "statement": "broadcast_feature_width copies the single column to every feature, repeat_split_feature_width gives feature f the entries of feature f mod F, scatter_split_groups accepts exactly partitions of range(n) into groups of the current width and puts column k at group[k] for every group, slice_feature_ranges returns exactly the columns of each range; nothing else changes.", "quantifier": "all consistent contexts, widths, groups and ranges", "why_tests_cant": "Index arithmetic over all sizes.", "anchors": ["spflow/utils/sampling_context.py:SamplingContext"]}
{"id": "C79", "title": "Integer and one-hot indexing agree", "statement": "index_tensor with an integer index and with its one-hot encoding return the same value on finite tensors, and SIMPLE returns a one-hot vector at an argmax of the perturbed logits.", "quantifier": "all tensors, indices and noise", "why_tests_cant": "Ranges over all real tensors.", "anchors": ["spflow/utils/sampling_context.py:index_tensor", "spflow/utils/sampling_context.py:SIMPLE"]}
{"id": "C80", "title": "Differentiable indexing with -inf, device attribute", "statement": "One-hot indexing agrees with integer indexing also when other entries are -inf, and every SamplingContext has its documented device attribute. (Both false.)", "quantifier": "all tensors; all constructions", "why_tests_cant": "Needs the exceptional value or the untested constructor path.", "anchors": ["spflow/utils/sampling_context.py:index_tensor", "spflow/utils/sampling_context.py:SamplingContext.__init__"]}
{"id": "C81", "title": "Estimates on boundary data are finite", "statement": "maximum_likelihood_estimation stores finite parameters on any data in the support. (False: all-ones Bernoulli data, all-zeros Geometric or Exponential data store infinite parameters.)", "quantifier": "all data sets of the boundary value, any length", "why_tests_cant": "Quantifies over all data sets and families.", "anchors": ["spflow/modules/leaves/leaf.py:LeafModule.maximum_likelihood_estimation", "spflow/utils/leaves.py:apply_nan_strategy", "spflow/utils/leaves.py:_handle_mle_edge_cases"]}
{"id": "C82", "title": "Bias correction gives the unbiased variance (single entry)", "statement": "For a univariate Normal leaf with one channel and one repetition and unweighted complete data with at least two distinct values, maximum_likelihood_estimation(bias_correction=True) stores the sample mean and the scale whose square is the unbiased sample variance.", "quantifier": "all data sets", "why_tests_cant": "All data sets.", "anchors": ["spflow/modules/leaves/normal.py:Normal._compute_parameter_estimates", "spflow/modules/leaves/leaf.py:LeafModule.maximum_likelihood_estimation", "spflow/utils/leaves.py:apply_nan_strategy", "spflow/utils/leaves.py:_handle_mle_edge_cases"]}
{"id": "C83", "title": "Bias correction gives the unbiased variance (every leaf)", "statement": "The same for leaves with several features, channels or repetitions. (False: weights are normalised over all entries, so the sample size is divided by their number; 3 samples and 4 features give scale 1e-8, 2 samples and 2 features give an infinite scale. bias_correction=True is the default.)", "quantifier": "all leaf shapes and data sets", "why_tests_cant": "Needs small samples relative to the number of entries.", "anchors": ["spflow/modules/leaves/leaf.py:LeafModule.maximum_likelihood_estimation", "spflow/utils/leaves.py:apply_nan_strategy", "spflow/utils/leaves.py:_handle_mle_edge_cases"]}
{"id": "C84", "title": "Weighted Laplace estimates are optimal", "statement": "The Laplace estimate maximises the weighted likelihood. (False: the location is the unweighted median.)", "quantifier": "all weighted data sets", "why_tests_cant": "All weights.", "anchors": ["spflow/modules/leaves/laplace.py:Laplace._compute_parameter_estimates"]}
{"id": "C85", "title": "nan_strategy='ignore' raises when nothing is left", "statement": "maximum_likelihood_estimation raises when every row has a missing cell. (False: it raises only when all cells are missing; otherwise parameters are overwritten by 1e-8 and means by NaN.)", "quantifier": "all data sets", "why_tests_cant": "A corner of the data space.", "anchors": ["spflow/modules/leaves/leaf.py:LeafModule.maximum_likelihood_estimation", "spflow/utils/leaves.py:apply_nan_strategy", "spflow/utils/leaves.py:_handle_mle_edge_cases"]}
{"id": "C86", "title": "Missing cells never make log_likelihood raise", "statement": "log_likelihood does not raise because a cell is NaN. (False: the value imputed before scoring comes from channel 0; a Uniform leaf whose channels have disjoint supports, or a Categorical leaf with one category, raises on NaN.)", "quantifier": "all leaves and rows", "why_tests_cant": "Parameter-dependent.", "anchors": ["spflow/modules/leaves/leaf.py:LeafModule.log_likelihood"]}
{"id": "C87", "title": "Leaf log_likelihood validates exactly the observed cells", "statement": "For a leaf whose channels and repetitions share the support of each feature (and whose imputed value lies in it), log_likelihood raises exactly when an observed cell lies outside the support, and otherwise returns the family's log-probability, 0 at missing cells.", "quantifier": "all leaves and rows", "why_tests_cant": "All families, shapes and rows.", "anchors": ["spflow/modules/leaves/leaf.py:LeafModule.log_likelihood"]}
{"id": "C88", "title": "Projections without bounds are the identity", "statement": "proj_real_to_bounded and proj_bounded_to_real work with their default bounds (None). (False: both raise TypeError.)", "quantifier": "all inputs", "why_tests_cant": "Default arguments untested.", "anchors": ["spflow/utils/projections.py"]}
{"id": "C89", "title": "SOCS.log_likelihood under missing values is the exact marginal", "statement": "With NaN cells SOCS.log_likelihood returns the log of the marginal density of the observed cells. REFUTED: the components are marginalised before squaring, a fully missing row can get density 2.", "quantifier": "all components, rows, missingness patterns", "why_tests_cant": "The claim is a universally quantified equality; a counterexample settles it.", "anchors": ["spflow/modules/sos/socs.py:SOCS.log_likelihood"]}
{"id": "C90", "title": "Inner products do not depend on the order in which leaves list their variables", "statement": "inner_product_matrix of two circuits with equal scopes is the exact inner product whatever the variable order of their leaves. REFUTED: features are paired by position.", "quantifier": "all pairs of circuits with equal scopes", "why_tests_cant": "Default-built circuits always list variables in ascending order.", "anchors": ["spflow/utils/inner_product_core.py:inner_product_matrix", "spflow/utils/inner_product_core.py:leaf_inner_product"]}
{"id": "C91", "title": "Assignments with value zero have density zero in a SOCS", "statement": "If every component evaluates to zero on a row, SOCS.log_likelihood is -inf. REFUTED: a SignedCategorical root clamps the magnitude of a zero weight to 1e-30.", "quantifier": "all components and rows", "why_tests_cant": "Zero weights have measure zero under random initialisation.", "anchors": ["spflow/zoo/sos/signed_categorical.py:SignedCategorical.signed_logabs_and_sign", "spflow/modules/sos/socs.py:SOCS"]}
{"id": "C92", "title": "Every scalar SOCS that can be evaluated can be sampled", "statement": "SOCS.sample succeeds for every scalar-output SOCS whose log_likelihood succeeds. REFUTED: the proposal builder hands weights together with out_channels > 1 to Sum, which raises.", "quantifier": "all scalar-output SOCS", "why_tests_cant": "Depends on the inner structure of the component.", "anchors": ["spflow/learn/build_socs.py:build_abs_weight_proposal", "spflow/modules/sos/socs.py:SOCS._sample"]}
{"id": "C93", "title": "SOCS.sample is exact", "statement": "The distribution of SOCS.sample equals the SOCS density. REFUTED: a finite number of independence-MH steps leaves a bias; for the square of (2/3,1/3) it is exactly (2/15)/6^steps.", "quantifier": "all components and numbers of steps", "why_tests_cant": "The bias is far below what a statistical test can detect.", "anchors": ["spflow/modules/sos/socs.py:SOCS._sample"]}
{"id": "C94", "title": "SOCS.marginalize represents the marginal density", "statement": "SOCS.marginalize(vars) has as density the sum of the original density over vars. REFUTED: it squares the components' marginals.", "quantifier": "all components and variable sets", "why_tests_cant": "Universally quantified equality; settled by a counterexample.", "anchors": ["spflow/modules/sos/socs.py:SOCS.marginalize"]}
{"id": "C95", "title": "build_socs components are compatible", "statement": "The components build_socs derives from a template have the template's scope, output shape, feature_to_scope and leaves, and the SOCS constructor accepts them.", "quantifier": "all templates, numbers of components, sign flips and noise", "why_tests_cant": "Holds for all random choices.", "anchors": ["spflow/learn/build_socs.py:build_socs"]}
{"id": "C96", "title": "NaN bounds are unbounded for every family", "statement": "(Refuted) A NaN lower bound means 'no lower bound' for every leaf family that supports intervals: an Exponential leaf raises instead, because the -inf passed to its cdf is outside its support.", "quantifier": "all rates and upper bounds", "why_tests_cant": "Whole family of inputs.", "anchors": ["spflow/modules/leaves/leaf.py:LeafModule._log_likelihood_interval", "spflow/modules/leaves/exponential.py"]}
{"id": "C97", "title": "Every leaf family supports interval evidence", "statement": "(Refuted) Interval evidence works for every leaf family: Binomial, Geometric, Poisson, NegativeBinomial and Hypergeometric leaves raise for every interval.", "quantifier": "all parameters and intervals", "why_tests_cant": "All intervals.", "anchors": ["spflow/modules/leaves/leaf.py:LeafModule._log_likelihood_interval"]}
{"id": "C98", "title": "Impossible intervals score -inf", "statement": "(Refuted) An interval of probability zero gets log-likelihood -inf: the mass is clamped at 1e-40, e.g. a Bernoulli leaf on [2, 3].", "quantifier": "witness", "why_tests_cant": "Counterexample to a universal claim.", "anchors": ["spflow/modules/leaves/bernoulli.py:Bernoulli._log_likelihood_interval"]}
{"id": "C99", "title": "Histogram mpe maximises the density", "statement": "(Refuted) mpe of a Histogram leaf returns a point of maximal density: it takes the most probable bin, which for unequal widths need not be the densest.", "quantifier": "witness", "why_tests_cant": "Counterexample to a universal claim.", "anchors": ["spflow/modules/leaves/histogram.py:HistogramDist.mode"]}
{"id": "C100", "title": "Every histogram integrates to one", "statement": "(Refuted) A Histogram leaf integrates to one for all probabilities: the min_prob floor of log_prob is not compensated.", "quantifier": "witness", "why_tests_cant": "Counterexample to a universal claim.", "anchors": ["spflow/modules/leaves/histogram.py:HistogramDist.log_prob"]}
{"id": "C101", "title": "Marginalising keeps histogram leaves", "statement": "(Refuted) Marginalising other variables leaves the likelihoods of a Histogram leaf unchanged: the copy is built without min_prob.", "quantifier": "witness", "why_tests_cant": "Counterexample to a universal claim.", "anchors": ["spflow/modules/leaves/histogram.py:Histogram.marginalize"]}
{"id": "C102", "title": "Automatic bin edges", "statement": "get_bin_edges_torch returns at least two equally spaced strictly increasing edges from the smallest to the greatest value (or the given range) that Histogram accepts.", "quantifier": "all data sets and ranges", "why_tests_cant": "All data sets.", "anchors": ["spflow/utils/histogram.py:get_bin_edges_torch"]}
{"id": "C103", "title": "Automatic edges fit their own data", "statement": "(Refuted) A Histogram leaf on the automatic edges of a data set can be fitted to it: for every data set with two distinct values fitting raises and the greatest value has log-likelihood -inf.", "quantifier": "all non-constant data sets", "why_tests_cant": "All data sets.", "anchors": ["spflow/utils/histogram.py:get_bin_edges_torch", "spflow/modules/leaves/histogram.py:Histogram._compute_parameter_estimates"]}
{"id": "C104", "title": "Chow-Liu tree sampling is the exact conditional", "statement": "sample of a CLTree leaf with a rooted tree fills the requested NaN cells from the exact conditional distribution given the observed cells and never raises when the evidence has positive probability.", "quantifier": "all trees, tables, evidence, test functions", "why_tests_cant": "Distributional claim over all evidence patterns.", "anchors": ["spflow/modules/leaves/cltree.py:CLTree._sample"]}
{"id": "C105", "title": "Chow-Liu tree mpe is a maximiser", "statement": "mpe of a CLTree leaf completes a row by an assignment of maximal joint probability among all completions.", "quantifier": "all trees, tables, evidence", "why_tests_cant": "Maximum over exponentially many completions.", "anchors": ["spflow/modules/leaves/cltree.py:CLTree._sample"]}
{"id": "C106", "title": "Learned Chow-Liu structure is a maximum spanning tree", "statement": "fit_structure returns a rooted tree over all features whose total (smoothed) mutual information is maximal among all spanning trees.", "quantifier": "all data sets, weights, scopes; all spanning trees", "why_tests_cant": "Optimality over all spanning trees.", "anchors": ["spflow/modules/leaves/cltree.py:_prim_maximum_spanning_tree", "spflow/modules/leaves/cltree.py:CLTree.fit_structure"]}
{"id": "C107", "title": "Chow-Liu tables are smoothed frequencies", "statement": "Tables estimated from weighted complete data are (alpha + weight of rows with that value and parent value)/(K alpha + weight of rows with that parent value), floored at 1e-12; columns sum to between 1 and 1 + K*1e-12, exactly 1 if nothing is floored, and then maximise the smoothed log-likelihood of the column.", "quantifier": "all weighted data sets", "why_tests_cant": "Optimality over all conditional tables.", "anchors": ["spflow/modules/leaves/cltree.py:CLTree.maximum_likelihood_estimation"]}
{"id": "C108", "title": "Only trees are accepted as parent vectors", "statement": "(Refuted) A CLTree parent vector is accepted only if it is a rooted tree: two nodes that are each other's parent are accepted; complete rows then sum to 2 while the all-NaN row has probability 1, and sampling returns uninitialised memory.", "quantifier": "witness", "why_tests_cant": "Counterexample to a universal claim.", "anchors": ["spflow/modules/leaves/cltree.py:_compute_orders_from_parents", "spflow/modules/leaves/cltree.py:CLTree._has_learned_structure"]}
{"id": "C109", "title": "CLTree marginalize", "statement": "(Refuted) marginalize of a CLTree leaf returns the leaf of the remaining variables: it raises for every proper subset (the constructor call lacks K).", "quantifier": "all leaves and proper subsets", "why_tests_cant": "All subsets.", "anchors": ["spflow/modules/leaves/leaf.py:LeafModule.marginalize"]}
{"id": "C110", "title": "Sampling a Sum over a CLTree", "statement": "(Refuted) A Sum over a CLTree with two channels can be sampled: every feature draws its channel independently and the leaf raises when they differ.", "quantifier": "witness", "why_tests_cant": "Counterexample to a universal claim.", "anchors": ["spflow/modules/leaves/cltree.py:CLTree._sample", "spflow/modules/sums/sum.py:Sum._sample"]}
{"id": "C111", "title": "MLE learns the structure of fit_structure", "statement": "(Refuted) maximum_likelihood_estimation without a structure learns a maximum spanning tree of its scoped data: the scope's column selection is applied twice, so with scope (1,2,0) the learnt tree is not maximal.", "quantifier": "witness", "why_tests_cant": "Counterexample to a universal claim.", "anchors": ["spflow/modules/leaves/cltree.py:CLTree.maximum_likelihood_estimation"]}
{"id": "C112", "title": "Equal regions are listed once", "statement": "(Refuted) RegionGraph.post_order lists no two equal regions: regions over Scope([0,1]) and Scope([1,0]) are equal but hash differently, so both are listed.", "quantifier": "witness", "why_tests_cant": "Counterexample to a universal claim.", "anchors": ["spflow/meta/region_graph.py:RegionGraph.post_order", "spflow/meta/data/scope.py:Scope"]}
{"id": "C113", "title": "replace() of a static method is undone", "statement": "(Refuted) After replace(Class.static_method, f) the class attribute is the original: the staticmethod has become a plain function.", "quantifier": "witness", "why_tests_cant": "Counterexample to a universal claim.", "anchors": ["spflow/utils/replace.py:replace"]}
{"id": "C114", "title": "replace() can be nested on the same attribute", "statement": "(Refuted) replace(C.m, g) may be entered inside replace(C.m, f): C.m then is f, whose qualname names no class, and ValueError is raised.", "quantifier": "witness", "why_tests_cant": "Counterexample to a universal claim.", "anchors": ["spflow/utils/replace.py:_extract_class_and_name"]}
{"id": "C115", "title": "replace() affects only the named class", "statement": "(Refuted) replace(Normal.log_likelihood, f) changes only Normal and its subclasses: the method is defined in the base class, so every other leaf class changes too.", "quantifier": "witness", "why_tests_cant": "Counterexample to a universal claim.", "anchors": ["spflow/utils/replace.py:_extract_class_and_name"]}
{"id": "C116", "title": "Posterior of an impossible row", "statement": "(Refuted) predict_proba returns a probability vector for every row: for a row of probability zero all entries are NaN.", "quantifier": "witness", "why_tests_cant": "Counterexample to a universal claim.", "anchors": ["spflow/utils/inference.py:log_posterior"]}
{"id": "C117", "title": "RatSPN samples from its mixture", "statement": "RatSPN.sample of fresh rows with num_repetitions=1 (class channel drawn from the root weights, then the class circuit) draws each assignment with its probability under log_likelihood.", "quantifier": "all circuits below the root, assignments", "why_tests_cant": "Distributional claim for all circuits.", "anchors": ["spflow/zoo/rat/rat_spn.py:RatSPN.sample"]}
{"id": "C118", "title": "Naive Bayes priors", "statement": "NaiveBayes accepts exactly the strictly positive class priors and stores them normalised (uniform by default); after supervised estimation the prior is positive, sums to one and equals (class count + eps)/(number of rows + classes*eps).", "quantifier": "all priors, label vectors", "why_tests_cant": "All priors and label vectors.", "anchors": ["spflow/zoo/naive_bayes.py:NaiveBayes._build_prior_weights", "spflow/zoo/naive_bayes.py:NaiveBayes._normalize_empirical_prior"]}
{"id": "C119", "title": "Structure statistics of every model", "statement": "(Refuted) get_structure_stats counts the circuit of every model: Einet and NaiveBayes keep theirs in root_node, which is followed for RatSPN only, so one node and no parameters are reported.", "quantifier": "witness", "why_tests_cant": "Counterexample to a universal claim.", "anchors": ["spflow/utils/structure_stats.py:_iter_structure_children"]}
{"id": "C120", "title": "An impossible feature affects only its own group", "statement": "(Refuted) A feature of probability zero makes only its own group's output impossible: the einsum multiplies -inf by 0, so every other group's output is NaN.", "quantifier": "witness", "why_tests_cant": "Counterexample to a universal claim.", "anchors": ["spflow/modules/rat/factorize.py:Factorize.log_likelihood"]}
{"id": "C121", "title": "Factorize can be marginalised", "statement": "(Refuted) Factorize.marginalize of part of the scope returns a module: it raises StructureError when fewer than 2^depth variables remain.", "quantifier": "witness", "why_tests_cant": "Counterexample to a universal claim.", "anchors": ["spflow/modules/rat/factorize.py:Factorize.marginalize"]}
{"id": "C122", "title": "Marginalising keeps the grouping", "statement": "(Refuted) Factorize.marginalize keeps the groups of the remaining variables: the groups are drawn afresh.", "quantifier": "witness", "why_tests_cant": "Counterexample to a universal claim.", "anchors": ["spflow/modules/rat/factorize.py:Factorize.marginalize"]}
{"id": "C123", "title": "Every input feature enters once", "statement": "(Refuted) Every input feature enters exactly one output: the matrix has one row per variable of the scope, so a single feature over two variables is counted in both outputs.", "quantifier": "witness", "why_tests_cant": "Counterexample to a universal claim.", "anchors": ["spflow/modules/rat/factorize.py:Factorize._factorize", "spflow/modules/rat/factorize.py:Factorize.log_likelihood"]}
{"id": "C124", "title": "prune_sums accepts every circuit", "statement": "(Refuted) prune_sums returns a circuit for every valid circuit: it raises on a Sum over a Cat of two-channel Sums (the scaled weights no longer sum to one).", "quantifier": "witness", "why_tests_cant": "Counterexample to a universal claim.", "anchors": ["spflow/learn/learn_spn.py:prune_sums"]}
{"id": "C125", "title": "learn_spn always terminates", "statement": "(Refuted) learn_spn terminates for every clustering and partitioning procedure: with one cluster and one block it calls itself on the same data for ever.", "quantifier": "witness", "why_tests_cant": "Counterexample to a universal claim.", "anchors": ["spflow/learn/learn_spn.py:learn_spn"]}
{"id": "C126", "title": "learn_spn covers an explicit scope", "statement": "(Refuted) learn_spn with an explicit scope returns a circuit over that scope or raises: variables without a leaf module are dropped silently.", "quantifier": "witness", "why_tests_cant": "Counterexample to a universal claim.", "anchors": ["spflow/learn/learn_spn.py:learn_spn"]}
{"id": "C127", "title": "learn_spn accepts leaf modules with different channel counts", "statement": "(Refuted) learn_spn succeeds on disjoint leaf modules: with different channel counts the product over them raises.", "quantifier": "witness", "why_tests_cant": "Counterexample to a universal claim.", "anchors": ["spflow/learn/learn_spn.py:learn_spn"]}
{"id": "C128", "title": "learn_cnet accepts every valid discrete data set", "statement": "(Refuted) learn_cnet succeeds on every complete data set with integer values below the cardinalities: if a conditioning variable misses a value but has two others, the zero weight is rejected and it raises, with default arguments and in every order.", "quantifier": "witness, all orders and leaf estimators", "why_tests_cant": "Counterexample to a universal claim.", "anchors": ["spflow/learn/cnet.py:learn_cnet", "spflow/modules/sums/sum.py:Sum.weights"]}
{"id": "C129", "title": "A learned cutset network can be evaluated", "statement": "(Refuted) log_likelihood of a learned cutset network succeeds: a slice with one row and two remaining variables gets a Chow-Liu tree without structure, so every evaluation raises.", "quantifier": "witness, all orders and rows", "why_tests_cant": "Counterexample to a universal claim.", "anchors": ["spflow/learn/cnet.py:_create_leaf", "spflow/modules/leaves/cltree.py:CLTree"]}
{"id": "C130", "title": "learn_cnet uses every accepted row", "statement": "(Refuted) Every row accepted by the integrality check is used: rows with values such as 1.000001 match no branch, the weights become uniform and the leaves are never estimated.", "quantifier": "witness", "why_tests_cant": "Counterexample to a universal claim.", "anchors": ["spflow/learn/cnet.py:_validate_discrete_data", "spflow/learn/cnet.py:learn_cnet"]}
{"id": "C131", "title": "Leaves respect the declared cardinalities", "statement": "(Refuted) The multivariate leaves of a cutset network put no mass on values outside a variable's declared cardinality: the tree uses the largest cardinality for all variables and smoothing gives every value positive probability, so the declared values sum to less than one.", "quantifier": "all data sets, parents, smoothing parameters", "why_tests_cant": "Counterexample to a universal claim.", "anchors": ["spflow/learn/cnet.py:_create_leaf", "spflow/modules/leaves/cltree.py:CLTree"]}
{"id": "C132", "title": "Severing yields d-1 decompositions starting with two components", "statement": "(Refuted) The decompositions of d variables start with two components and there are d-1 of them: with a constant column in a cluster there are always fewer and the first has more than two components.", "quantifier": "all data sets with a constant column, d >= 3", "why_tests_cant": "Counterexample to a universal claim.", "anchors": ["spflow/learn/prometheus.py:_mst_partitions_from_affinity", "spflow/learn/prometheus.py:_affinity_corr"]}
{"id": "C133", "title": "Every cluster of rows contributes to the learned mixture", "statement": "(Refuted) Every cluster contributes to the mixture with its share of the rows: a cluster with pairwise zero affinities (e.g. identical rows) yields no product and disappears; the most frequent training row can get probability zero.", "quantifier": "witness", "why_tests_cant": "Counterexample to a universal claim.", "anchors": ["spflow/learn/prometheus.py:_learn_prometheus_single_channel"]}
{"id": "C134", "title": "learn_prometheus returns out_channels channels", "statement": "(Refuted) The learned circuit has out_channels channels: when the recursion stops at once the leaves' channels are returned.", "quantifier": "witness", "why_tests_cant": "Counterexample to a universal claim.", "anchors": ["spflow/learn/prometheus.py:learn_prometheus"]}
{"id": "C135", "title": "learn_prometheus covers an explicit scope or raises", "statement": "(Refuted) The result covers every variable of an explicit scope (or an error is raised): variables without a leaf module are dropped silently when the slice is small.", "quantifier": "witness", "why_tests_cant": "Counterexample to a universal claim.", "anchors": ["spflow/learn/prometheus.py:_create_partitioned_mv_leaf"]}
{"id": "C136", "title": "Reported likelihoods of PiecewiseLinear integrate to one", "statement": "(Refuted) The likelihoods exp(log_likelihood) of a PiecewiseLinear leaf integrate to one: 1e-10 is added everywhere, so they have no finite integral.", "quantifier": "all knot vectors", "why_tests_cant": "Counterexample to a universal claim.", "anchors": ["spflow/modules/leaves/piecewise_linear.py:PiecewiseLinearDist.log_prob"]}
{"id": "C137", "title": "Continuous samples of PiecewiseLinear follow its density", "statement": "(Refuted) Samples follow the density: within a piece samples are uniform although the density is linear; for the leaf fitted to one value a quarter instead of an eighth of the samples lies below the middle of the first piece.", "quantifier": "witness", "why_tests_cant": "Counterexample to a universal claim.", "anchors": ["spflow/modules/leaves/piecewise_linear.py:PiecewiseLinearDist.sample"]}
{"id": "C138", "title": "Discrete samples of PiecewiseLinear lie in the domain", "statement": "(Refuted) Sampling a discrete feature returns values of its domain: it returns the index of the value; with domain {1, 2} it can return 0, which has density 0.", "quantifier": "witness", "why_tests_cant": "Counterexample to a universal claim.", "anchors": ["spflow/modules/leaves/piecewise_linear.py:PiecewiseLinearDist.sample"]}
{"id": "C139", "title": "Likelihoods over a discrete domain sum to one", "statement": "(Refuted) The likelihoods of the values of a discrete feature sum to one: for the domain {0, 10} they sum to 2/11 whatever the data.", "quantifier": "all data sets over {0, 10}", "why_tests_cant": "Counterexample to a universal claim.", "anchors": ["spflow/modules/leaves/piecewise_linear.py:PiecewiseLinear.initialize"]}
{"id": "C140", "title": "PiecewiseLinear log_likelihood has the leaf shape", "statement": "(Refuted) log_likelihood returns a (batch, features, channels, repetitions) tensor like other leaves: it has five dimensions, so the leaf cannot feed sums and products.", "quantifier": "all leaves and batches", "why_tests_cant": "Counterexample to a universal claim.", "anchors": ["spflow/modules/leaves/piecewise_linear.py:PiecewiseLinear.log_likelihood"]}
{"id": "C141", "title": "Empty clusters get a density on the domain", "statement": "(Refuted) A cluster without data gets a density supported on the feature's domain: an upper bound of 0 is treated as missing and replaced by 1.", "quantifier": "witness", "why_tests_cant": "Counterexample to a universal claim.", "anchors": ["spflow/modules/leaves/piecewise_linear.py:PiecewiseLinear.initialize"]}
{"id": "C142", "title": "PiecewiseLinear leaves can be marginalised structurally", "statement": "(Refuted) marginalize() of a PiecewiseLinear leaf returns a leaf over the remaining variables: it raises whenever a variable remains.", "quantifier": "all leaves, all variable sets", "why_tests_cant": "Counterexample to a universal claim.", "anchors": ["spflow/modules/leaves/leaf.py:LeafModule.marginalize", "spflow/modules/leaves/piecewise_linear.py:PiecewiseLinear.params"]}
{"id": "C143", "title": "Overlapping dsl() contexts restore the operators", "statement": "(Refuted) After every entered dsl() context has been left, Module's operators are the original ones: two contexts (threads, generators) that overlap without nesting leave the class patched with the first context's functions.", "quantifier": "all initial operator states", "why_tests_cant": "Counterexample to a universal claim.", "anchors": ["spflow/dsl.py:dsl"]}
{"id": "C144", "title": "A weight may stand anywhere in a product", "statement": "(Refuted) Expressions with the same arithmetic build alike: 0.5*A*B + ... builds, A*(0.5*B) inside a mixture is accepted but build() raises.", "quantifier": "witness", "why_tests_cant": "Counterexample to a universal claim.", "anchors": ["spflow/dsl.py:WeightedExpr.__mul__", "spflow/dsl.py:as_expr"]}
{"id": "C145", "title": "Nested mixtures follow the arithmetic of their weights", "statement": "(Refuted) 0.5*(2*A + 2*B) + 0.5*C is the mixture proportional to its arithmetic: the inner mixture is renormalised on its own, giving A and B weight 1/4 instead of 2/5.", "quantifier": "all circuits A, B, C", "why_tests_cant": "Counterexample to a universal claim.", "anchors": ["spflow/dsl.py:SumExpr.build"]}
{"id": "C146", "title": "Monte-Carlo measures are unbiased", "statement": "If the aggregation reads channel 0 and repetition 0 (single-output circuits, or 'first'), the expectation of the Monte-Carlo entropy and mutual information over n independent rows of the distribution sample() draws from is the exact value.", "quantifier": "all discrete circuits, scopes and sample counts", "why_tests_cant": "A statement about expectations.", "anchors": ["spflow/measures/information_theory.py:entropy", "spflow/measures/information_theory.py:mutual_information"]}
{"id": "C147", "title": "conditional_probability is a conditional distribution", "statement": "For any aggregation, conditional_probability values lie in [0,1], equal p(y,e)/p(e), sum to one over the target's states, do not depend on the target's column in the evidence, and are NaN exactly when the evidence has probability zero.", "quantifier": "all circuits, targets, evidence rows", "why_tests_cant": "All distributions and evidence.", "anchors": ["spflow/measures/weight_of_evidence.py:conditional_probability"]}
{"id": "C148", "title": "Weight of evidence behaves like a log-odds difference", "statement": "WoE is antisymmetric and additive along chains of evidence, zero for equal evidence, positive only if the full evidence makes the target more likely, and bounded by 2 log((1-eps)/eps); the batch result is the row result.", "quantifier": "all circuits, evidence pairs, n, k and eps in (0,1/2)", "why_tests_cant": "All distributions and evidence.", "anchors": ["spflow/measures/weight_of_evidence.py:weight_of_evidence"]}
{"id": "C149", "title": "Leave-one-out attributions", "statement": "For every present feature the leave-one-out entry is the weight of evidence of the row against the row without that feature; the target's column and columns no row observes are NaN.", "quantifier": "all circuits, batches and targets", "why_tests_cant": "All batches and missing patterns.", "anchors": ["spflow/measures/weight_of_evidence.py:weight_of_evidence_leave_one_out"]}
{"id": "C150", "title": "Exact measures work for any scope", "statement": "(Refuted) entropy(method='exact') works for circuits over any variables: it builds a data tensor with as many columns as variables, so circuits whose variables are not 0..d-1 raise for every subset.", "quantifier": "all circuits with a variable index >= number of variables", "why_tests_cant": "Counterexample to a universal claim.", "anchors": ["spflow/measures/information_theory.py:entropy"]}
{"id": "C151", "title": "Leave-one-out leaves missing entries NaN", "statement": "(Refuted) Missing features stay NaN in the attributions: a missing entry gets 0 as soon as another row of the batch has that feature.", "quantifier": "all batches with a partially observed column", "why_tests_cant": "Counterexample to a universal claim.", "anchors": ["spflow/measures/weight_of_evidence.py:weight_of_evidence_leave_one_out"]}
{"id": "C152", "title": "Monte-Carlo entropy estimates the exact entropy by default", "statement": "(Refuted) With the default aggregation the Monte-Carlo entropy is an unbiased estimate of the exact one: for circuits with several output channels rows are drawn from channel 0 but scored with the channel average.", "quantifier": "every sample count, witness circuit", "why_tests_cant": "Counterexample to a universal claim.", "anchors": ["spflow/measures/information_theory.py:entropy", "spflow/measures/_utils.py:reduce_log_likelihood"]}
{"id": "C153", "title": "Entropy is non-negative for every aggregation", "statement": "(Refuted) entropy is non-negative for every documented aggregation: 'logsumexp' over two channels gives values above one and a negative entropy.", "quantifier": "witness", "why_tests_cant": "Counterexample to a universal claim.", "anchors": ["spflow/measures/information_theory.py:entropy", "spflow/measures/_utils.py:reduce_log_likelihood"]}
{"id": "C154", "title": "Convolutional circuits sample their own distribution", "statement": "If every ProdConv kernel divides its image and there is no padding, sample() of a circuit of Sum, Product, SumConv and ProdConv over any module draws a row with probability equal to its likelihood, and sample_with_evidence draws the missing pixels with their conditional probability given the observed ones.", "quantifier": "all such circuits, evidence rows with positive sums", "why_tests_cant": "Probability laws over all circuits.", "anchors": ["spflow/modules/conv/sum_conv.py:SumConv", "spflow/modules/conv/prod_conv.py:ProdConv"]}
{"id": "C155", "title": "ConvPc is a normalised density it can sample from", "statement": "For an n by n image whose padding to k^depth is symmetric, ConvPc builds, has one output and its likelihood is a normalised density of all pixels with NaN marginalisation; if k^depth divides n, sample() follows it, and a batch with observed and missing pixels is completed by the conditional of each row.", "quantifier": "all leaves, image sizes, channels, depths, kernels, weights", "why_tests_cant": "All sizes and weights.", "anchors": ["spflow/zoo/conv/conv_pc.py:ConvPc"]}
{"id": "C156", "title": "ConvPc works for every image size", "statement": "(Refuted) Any image size can be used: whenever the padding would have to be asymmetric the model is built but every evaluation raises.", "quantifier": "all leaves, sizes with odd total padding", "why_tests_cant": "Counterexample to a universal claim.", "anchors": ["spflow/zoo/conv/conv_pc.py:ConvPc"]}
{"id": "C157", "title": "Padded convolutional models sample their own distribution", "statement": "(Refuted) The sampler of a padded ConvPc follows its density: with padding, channels are routed from the wrong grid position; a 1 by 1 image with kernel 3 has probability 5/8 of a one but samples one with probability 3/8.", "quantifier": "witness", "why_tests_cant": "Counterexample to a universal claim.", "anchors": ["spflow/modules/conv/prod_conv.py:ProdConv", "spflow/zoo/conv/conv_pc.py:ConvPc"]}
{"id": "C158", "title": "A ProdConv is a distribution over its scope", "statement": "(Refuted) A ProdConv whose kernel does not divide the image is a distribution over its scope: pixels outside all windows stay in the scope without being modelled and sampling raises.", "quantifier": "witness", "why_tests_cant": "Counterexample to a universal claim.", "anchors": ["spflow/modules/conv/prod_conv.py:ProdConv"]}
{"id": "C159", "title": "Whatever can be evaluated can be sampled", "statement": "(Refuted) A SumConv on an image smaller than its kernel evaluates to a normalised distribution but sampling raises, with and without evidence.", "quantifier": "witness, all evidence", "why_tests_cant": "Counterexample to a universal claim.", "anchors": ["spflow/modules/conv/sum_conv.py:SumConv"]}
{"id": "C160", "title": "EM on a SumConv never decreases the likelihood", "statement": "(Refuted) One EM step of SumConv does not decrease the likelihood: the update writes one set of weights to all kernel positions; for a witness every cached value and gradient gives a strictly lower likelihood.", "quantifier": "witness model, all batches of cached statistics", "why_tests_cant": "Counterexample to a universal claim.", "anchors": ["spflow/modules/conv/sum_conv.py:SumConv.expectation_maximization"]}
{"id": "C161", "title": "SumConv.marginalize keeps the weights", "statement": "(Refuted) Marginalising keeps the trained weights: the result carries freshly drawn weights even when no variable is removed.", "quantifier": "witness, all random draws", "why_tests_cant": "Counterexample to a universal claim.", "anchors": ["spflow/modules/conv/sum_conv.py:SumConv.marginalize"]}
{"id": "C162", "title": "ConvPc can marginalise any pixels", "statement": "(Refuted) Any set of pixels can be marginalised out of a ConvPc: removing one pixel of a 2 by 2 image raises.", "quantifier": "all channels, weights", "why_tests_cant": "Counterexample to a universal claim.", "anchors": ["spflow/zoo/conv/conv_pc.py:ConvPc", "spflow/modules/conv/sum_conv.py:SumConv.marginalize", "spflow/modules/conv/prod_conv.py:ProdConv.marginalize"]}
{"id": "C163", "title": "ConvPc's patches are rectangles of the image", "statement": "(Refuted) For non-square images the patches are rectangles of the image: a 4 by 16 image is laid out as 8 by 8, so the first patch is the whole first image row.", "quantifier": "all channels, weights", "why_tests_cant": "Counterexample to a universal claim.", "anchors": ["spflow/zoo/conv/conv_pc.py:ConvPc", "spflow/modules/conv/prod_conv.py:ProdConv"]}
{"id": "C164", "title": "Selected rows form a set", "statement": "(Refuted) Naming a row twice in the marginalisation context removes it once: for every image with at least two rows it raises.", "quantifier": "all circuits, images with two rows, rows", "why_tests_cant": "Counterexample to a universal claim.", "anchors": ["spflow/modules/wrapper/image_wrapper.py:ImageWrapper.marginalize"]}
{"id": "C165", "title": "A marginalised wrapper evaluates images of its own size", "statement": "(Refuted) The wrapper marginalize returns can evaluate images of its own size: whenever something was removed and the last pixel was not, every log_likelihood and sample_with_evidence raises, because variables keep their old column numbers.", "quantifier": "all circuits, sizes, selections not containing the last channel, row or column", "why_tests_cant": "Counterexample to a universal claim.", "anchors": ["spflow/modules/wrapper/image_wrapper.py:ImageWrapper.marginalize", "spflow/modules/wrapper/image_wrapper.py:ImageWrapper.log_likelihood"]}
{"id": "C166", "title": "marginalize and log_likelihood agree on pixel positions", "statement": "(Refuted) Marginalising column w removes the pixels log_likelihood reads from column w, for every accepted module: it uses positions in the scope's list, so a scope listed as (1,0) loses the other pixel.", "quantifier": "witness, all images", "why_tests_cant": "Counterexample to a universal claim.", "anchors": ["spflow/modules/wrapper/image_wrapper.py:ImageWrapper.marginalize"]}
{"id": "C167", "title": "sample keeps the observed pixels of every image it accepts", "statement": "(Refuted) sample accepts images of the wrong height and width with the right number of pixels (which log_likelihood rejects) and returns them in another shape with pixels moved.", "quantifier": "witness wrapper, all images", "why_tests_cant": "Counterexample to a universal claim.", "anchors": ["spflow/modules/wrapper/image_wrapper.py:ImageWrapper.sample", "spflow/modules/wrapper/image_wrapper.py:ImageWrapper.flatten"]}
{"id": "C168", "title": "kruskal_mst_complete returns an optimal spanning tree", "statement": "For every dense matrix of finite weights kruskal_mst_complete returns a spanning tree of minimum (minimize=False: maximum) total weight; it raises exactly for NaN, empty and non-square matrices.", "quantifier": "all sizes and matrices", "why_tests_cant": "Optimality over all spanning trees.", "anchors": ["spflow/zoo/hclt/topk_mst.py:kruskal_mst_complete"]}
{"id": "C169", "title": "topk_mst with minimize=False returns the k heaviest trees", "statement": "(Refuted) With minimize=False one tree is returned whatever num_trees and the weights, because included and excluded edges keep the infinities of the minimisation.", "quantifier": "all sizes, weight matrices, numbers of trees", "why_tests_cant": "Counterexample to a universal claim.", "anchors": ["spflow/zoo/hclt/topk_mst.py:topk_mst", "spflow/zoo/hclt/topk_mst.py:_mst_with_constraints"]}
{"id": "C170", "title": "Edge dropout keeps distinct spanning trees", "statement": "With dropout_prob in [0,1) and any random masks topk_mst returns between one and num_trees distinct spanning trees, the first of minimum weight.", "quantifier": "all sizes, weight matrices, masks, probabilities", "why_tests_cant": "All matrices and random draws.", "anchors": ["spflow/zoo/hclt/topk_mst.py:topk_mst"]}
{"id": "C171", "title": "Dropout does not lose trees", "statement": "(Refuted) With edge dropout topk_mst returns num_trees trees whenever that many exist: a dropped edge and an excluded edge both weigh infinity and the tie can discard the branch.", "quantifier": "witness matrix, probability and masks", "why_tests_cant": "Counterexample to a universal claim.", "anchors": ["spflow/zoo/hclt/topk_mst.py:_mst_with_constraints"]}
{"id": "C172", "title": "dropout_prob is validated", "statement": "For two or more nodes and trees a dropout_prob outside [0,1) is rejected. (Refuted for num_trees=1: every dropout_prob is accepted.)", "quantifier": "all sizes, weight matrices, probabilities", "why_tests_cant": "Counterexample to a universal claim.", "anchors": ["spflow/zoo/hclt/topk_mst.py:topk_mst"]}
{"id": "C173", "title": "Binary pairwise tables are consistent distributions", "statement": "For all binary data, non-negative weights and pseudocounts, entry (i,j) of pairwise_marginal_binary is the table of the weighted frequencies of the four value pairs with the pseudocount spread evenly over them; (j,i) is its transpose, the diagonal holds the marginals with no mass on 01 and 10, and rows and columns of every table sum to the marginals, which sum to one.", "quantifier": "all data, weights, pseudocounts, pairs", "why_tests_cant": "All data sets and weights.", "anchors": ["spflow/zoo/hclt/mi.py:pairwise_marginal_binary"]}
{"id": "C174", "title": "Negative sample weights are rejected", "statement": "(Refuted) Finite weights give tables of probabilities: negative weights pass every check and give an entry of two.", "quantifier": "witness data and weights", "why_tests_cant": "Counterexample to a universal claim.", "anchors": ["spflow/zoo/hclt/mi.py:pairwise_marginal_binary"]}
{"id": "C175", "title": "Missing values are rejected when learning Chow-Liu trees", "statement": "The categorical functions raise on any NaN. (Refuted for binary data: NaN is silently counted as the value 1, in the mutual information and in the trees, for all data.)", "quantifier": "all data, weights, parameters", "why_tests_cant": "Counterexample to a universal claim.", "anchors": ["spflow/zoo/hclt/mi.py:pairwise_mi_binary", "spflow/zoo/hclt/chow_liu.py:learn_chow_liu_trees_binary", "spflow/zoo/hclt/mi.py:pairwise_mi_categorical"]}
{"id": "C176", "title": "pairwise_mi_binary is the mutual information", "statement": "When no possible pair of values has frequency below eps (and no product of marginals), entry (i,j) is the mutual information of the smoothed table, the diagonal is the entropy, the matrix is symmetric and non-negative off the diagonal. This covers all unweighted data with at most 250000 rows plus pseudocount, the pseudocount zero or at least one.", "quantifier": "all data, weights, pseudocounts, pairs", "why_tests_cant": "All data sets; logarithms clamped at eps.", "anchors": ["spflow/zoo/hclt/mi.py:pairwise_mi_binary"]}
{"id": "C177", "title": "pairwise_mi_categorical is the mutual information whatever the chunk size", "statement": "The same for categorical data with K values (pseudocount scaled by the mean weight), under every chunk_size_pairs; all unweighted data with K*K*(rows+pseudocount) at most 10^12. Without any such condition the result does not depend on chunk_size_pairs.", "quantifier": "all data, category counts, weights, pseudocounts, chunk sizes", "why_tests_cant": "All data sets and chunkings.", "anchors": ["spflow/zoo/hclt/mi.py:pairwise_mi_categorical"]}
{"id": "C178", "title": "Chow-Liu learning returns the trees of largest total mutual information", "statement": "learn_chow_liu_trees_binary and _categorical return the num_trees distinct spanning trees of largest total mutual information of the smoothed pair tables, best first (all trees when there are fewer), and the single-tree functions the best one, when no possible value pair is rarer than 1e-12.", "quantifier": "all data, weights, pseudocounts, numbers of trees", "why_tests_cant": "Optimality over all spanning trees and data sets.", "anchors": ["spflow/zoo/hclt/chow_liu.py:learn_chow_liu_trees_binary", "spflow/zoo/hclt/chow_liu.py:learn_chow_liu_tree_binary", "spflow/zoo/hclt/chow_liu.py:learn_chow_liu_trees_categorical", "spflow/zoo/hclt/chow_liu.py:learn_chow_liu_tree_categorical"]}
{"id": "C179", "title": "A hidden Chow-Liu tree circuit is a latent tree model", "statement": "For every spanning tree and every number of hidden states the circuit is built, over exactly the given variables with one output; with uniform initialisation its likelihood is, for all parameters training may reach, the sum over all hidden states of the tree-structured prior (transition matrices along the given tree, rooted at variable 0) times one emission per variable; it is normalised and marginalises missing values for all parameters and both initialisations; before training the variables are independent mixtures. Bad trees (wrong number of edges, indices out of range, self-edges) and zero states are rejected.", "quantifier": "all spanning trees, hidden state counts, parameters, rows", "why_tests_cant": "Unbounded trees, all parameters; an exponential sum.", "anchors": ["spflow/zoo/hclt/learn.py:_build_hclt_from_tree", "spflow/zoo/hclt/learn.py:_edges_to_adjacency"]}
{"id": "C180", "title": "init=\"random\" gives a trainable dependence between variables", "statement": "(Refuted) With init=\"random\" every transition Sum gets one output channel, broadcast over the parent's states: for all trees, state counts and parameters reached by training the variables are independent.", "quantifier": "all trees, parameters, rows", "why_tests_cant": "Counterexample to a universal claim.", "anchors": ["spflow/zoo/hclt/learn.py:_build_hclt_from_tree"]}
{"id": "C181", "title": "HCLT learning returns the normalised mixture over the best trees", "statement": "learn_hclt_binary and learn_hclt_categorical succeed whenever the tree search does and return the mixture (uniform, or random positive weights) of one circuit per tree found, in order; without dropout and rare value pairs these are the num_trees spanning trees of largest total mutual information; the mixture stays normalised under any training; NaN data is rejected.", "quantifier": "all data, weights, tree counts, initialisations, parameters", "why_tests_cant": "All data sets, optimality over all trees.", "anchors": ["spflow/zoo/hclt/learn.py:learn_hclt_binary", "spflow/zoo/hclt/learn.py:learn_hclt_categorical"]}
{"id": "C182", "title": "RatSPN.log_likelihood is the log of the region-graph mixture", "statement": "For every RatSPN that can be constructed with two-part splits, every choice of random groups and all parameters: the variables of each repetition are partitioned into 2^depth groups, and for rows whose leaf log-likelihoods are finite log_likelihood returns, in shape (1,1,1), the log of the mixture over root nodes and repetitions of the recursively defined region densities (softmax-weighted sums of elementwise or outer products of the two child regions, groups being products of leaf densities).", "quantifier": "all leaves, widths, depths, repetitions, split modes, random groups, weights, rows", "why_tests_cant": "Unbounded depth and widths, all parameters.", "anchors": ["spflow/zoo/rat/rat_spn.py:RatSPN.__init__", "spflow/zoo/rat/rat_spn.py:RatSPN.create_spn", "spflow/zoo/rat/rat_spn.py:RatSPN.log_likelihood"]}
{"id": "C183", "title": "A RatSPN is a normalised distribution", "statement": "For every constructible RatSPN and all parameters, the exponential of log_likelihood sums to one over all complete rows, and leaving variables missing sums them out.", "quantifier": "all architectures, groups, weights, leaf families, rows", "why_tests_cant": "Exponential sums over all assignments.", "anchors": ["spflow/zoo/rat/rat_spn.py:RatSPN.__init__", "spflow/zoo/rat/rat_spn.py:RatSPN.create_spn", "spflow/zoo/rat/rat_spn.py:RatSPN.log_likelihood"]}
{"id": "C184", "title": "Which RatSPN architectures are accepted", "statement": "With two-part splits the constructor succeeds exactly if root, region and split counts and depth are in range, there are at least 2^depth variables, and no elementwise product is put on a three-channel layer with more than two regions.", "quantifier": "all arguments", "why_tests_cant": "All sizes.", "anchors": ["spflow/zoo/rat/rat_spn.py:RatSPN.__init__", "spflow/zoo/rat/rat_spn.py:RatSPN.create_spn", "spflow/zoo/rat/rat_spn.py:RatSPN.log_likelihood"]}
{"id": "C185", "title": "RatSPN accepts every architecture satisfying its documented requirements", "statement": "(Refuted) With elementwise products and three leaf channels (depth >= 2) or three region nodes (depth >= 3) the constructor always raises ShapeError.", "quantifier": "all such architectures", "why_tests_cant": "Counterexample to a universal claim.", "anchors": ["spflow/zoo/rat/rat_spn.py:RatSPN.create_spn", "spflow/modules/products/elementwise_product.py:ElementwiseProduct.check_shapes", "spflow/modules/ops/split.py:Split.get_out_shapes"]}
{"id": "C186", "title": "RatSPN supports num_splits of two or more", "statement": "(Refuted) With three or more parts no RatSPN that can be constructed evaluates any row: log_likelihood always raises.", "quantifier": "all leaves, depths, split modes, num_splits >= 3, rows", "why_tests_cant": "Counterexample to a universal claim.", "anchors": ["spflow/zoo/rat/rat_spn.py:RatSPN.__init__", "spflow/zoo/rat/rat_spn.py:RatSPN.create_spn"]}
{"id": "C187", "title": "When RatSPN.log_likelihood is NaN", "statement": "log_likelihood of a constructed RatSPN is NaN exactly if some observed value is impossible (-inf) under some channel of its leaf, and is never -inf.", "quantifier": "all architectures, groups, weights, rows", "why_tests_cant": "All rows and architectures.", "anchors": ["spflow/zoo/rat/rat_spn.py:RatSPN.__init__", "spflow/zoo/rat/rat_spn.py:RatSPN.create_spn", "spflow/zoo/rat/rat_spn.py:RatSPN.log_likelihood", "spflow/modules/ops/factorize.py:Factorize.log_likelihood"]}
{"id": "C188", "title": "Rows of positive probability get their log-probability", "statement": "(Refuted) A row of probability 1/8 under a RatSPN with a deterministic leaf channel gets NaN.", "quantifier": "all models and rows", "why_tests_cant": "Counterexample to a universal claim.", "anchors": ["spflow/zoo/rat/rat_spn.py:RatSPN.__init__", "spflow/zoo/rat/rat_spn.py:RatSPN.create_spn", "spflow/zoo/rat/rat_spn.py:RatSPN.log_likelihood", "spflow/modules/ops/factorize.py:Factorize.log_likelihood"]}
{"id": "C189", "title": "Einet.log_likelihood is the log of the region-graph mixture", "statement": "For every Einet that can be constructed (top-down or bottom-up, linsum or einsum layers), every choice of random groups and all parameters: the variables of each repetition are partitioned into the groups, and for rows whose leaf log-likelihoods are finite log_likelihood returns, in shape (1,1,1), the log of the mixture over classes and repetitions of the recursively defined region densities.", "quantifier": "all leaves, classes, widths, depths, repetitions, layer types, structures, random groups, weights, rows", "why_tests_cant": "Unbounded depth and widths, all parameters.", "anchors": ["spflow/zoo/einet/einet.py:Einet.__init__", "spflow/zoo/einet/einet.py:Einet._build_structure_top_down", "spflow/zoo/einet/einet.py:Einet._build_structure_bottom_up", "spflow/zoo/einet/einet.py:Einet._finalize_root", "spflow/zoo/einet/einet.py:Einet.log_likelihood"]}
{"id": "C190", "title": "An Einet is a normalised distribution", "statement": "For every constructible Einet and all parameters, the exponential of log_likelihood sums to one over all complete rows, and leaving variables missing sums them out.", "quantifier": "all architectures, groups, weights, leaf families, rows", "why_tests_cant": "Exponential sums over all assignments.", "anchors": ["spflow/zoo/einet/einet.py:Einet.__init__", "spflow/zoo/einet/einet.py:Einet._build_structure_top_down", "spflow/zoo/einet/einet.py:Einet._build_structure_bottom_up", "spflow/zoo/einet/einet.py:Einet._finalize_root", "spflow/zoo/einet/einet.py:Einet.log_likelihood"]}
{"id": "C191", "title": "Which Einet architectures are accepted", "statement": "The constructor succeeds exactly if classes, sums, leaves and repetitions are at least one and there are at least 2^depth variables.", "quantifier": "all arguments", "why_tests_cant": "All sizes.", "anchors": ["spflow/zoo/einet/einet.py:Einet.__init__", "spflow/zoo/einet/einet.py:Einet._build_structure_top_down", "spflow/zoo/einet/einet.py:Einet._build_structure_bottom_up", "spflow/zoo/einet/einet.py:Einet._finalize_root", "spflow/zoo/einet/einet.py:Einet.log_likelihood"]}
{"id": "C192", "title": "When Einet.log_likelihood is NaN", "statement": "With two or more groups of variables, log_likelihood is NaN exactly if some observed value is impossible (-inf) under some channel of its leaf, and is never -inf.", "quantifier": "all architectures, groups, weights, rows", "why_tests_cant": "All rows and architectures.", "anchors": ["spflow/zoo/einet/einet.py:Einet.__init__", "spflow/zoo/einet/einet.py:Einet._build_structure_top_down", "spflow/zoo/einet/einet.py:Einet._build_structure_bottom_up", "spflow/zoo/einet/einet.py:Einet._finalize_root", "spflow/zoo/einet/einet.py:Einet.log_likelihood", "spflow/modules/ops/factorize.py:Factorize.log_likelihood"]}
{"id": "C193", "title": "Rows of positive probability get their log-probability from an Einet", "statement": "(Refuted) A row of probability 1/8 under an Einet with a deterministic leaf channel gets NaN.", "quantifier": "all models and rows", "why_tests_cant": "Counterexample to a universal claim.", "anchors": ["spflow/zoo/einet/einet.py:Einet.__init__", "spflow/zoo/einet/einet.py:Einet._build_structure_top_down", "spflow/zoo/einet/einet.py:Einet._build_structure_bottom_up", "spflow/zoo/einet/einet.py:Einet._finalize_root", "spflow/zoo/einet/einet.py:Einet.log_likelihood", "spflow/modules/ops/factorize.py:Factorize.log_likelihood"]}
{"id": "C194", "title": "RatSPN posteriors are Bayes' rule", "statement": "With two or more root nodes and finite leaf log-likelihoods, log_posterior of class q is ln(prior_q * density_q(x) / density(x)) with the softmax of the root logits as prior and the repetition mixture of root channel q as class density; predict_proba sums to one; predict returns the first class of greatest posterior.", "quantifier": "all constructible RatSPNs, weights, rows", "why_tests_cant": "All parameters and rows.", "anchors": ["spflow/zoo/rat/rat_spn.py:RatSPN.log_posterior", "spflow/zoo/rat/rat_spn.py:RatSPN.predict_proba", "spflow/utils/inference.py:log_posterior", "spflow/interfaces/classifier.py:Classifier.predict"]}
{"id": "C195", "title": "Einet posteriors are Bayes' rule", "statement": "The same for Einet: log_posterior of class q is ln(prior_q * density_q(x) / density(x)), predict_proba sums to one, predict returns the first class of greatest posterior.", "quantifier": "all constructible Einets, weights, rows", "why_tests_cant": "All parameters and rows.", "anchors": ["spflow/zoo/einet/einet.py:Einet.log_posterior", "spflow/zoo/einet/einet.py:Einet.predict_proba", "spflow/utils/inference.py:log_posterior", "spflow/interfaces/classifier.py:Classifier.predict"]}
{"id": "C196", "title": "When class posteriors are NaN", "statement": "An observed value impossible under one channel of its leaf makes every class probability of a RatSPN (and of an Einet with two or more groups) NaN and class 0 the prediction; a single class raises.", "quantifier": "all constructible models, weights, rows", "why_tests_cant": "All rows and architectures.", "anchors": ["spflow/zoo/rat/rat_spn.py:RatSPN.predict_proba", "spflow/zoo/einet/einet.py:Einet.predict_proba"]}
{"id": "C197", "title": "RatSPN.sample_with_evidence draws from the conditional (one root node)", "statement": "For every constructible RatSPN with one root node (any depth, repetitions, region sums, split mode, outer or elementwise products) whose leaves have the model's number of repetitions: sample_with_evidence completes a row so that each completion has probability density(completed row) / density(evidence), where log_likelihood is the logarithm of that density.", "quantifier": "all architectures, groups, weights, leaves, finite domains, evidence rows and completions", "why_tests_cant": "Distributional claim for all architectures and weights; a test compares frequencies of a few.", "anchors": ["spflow/zoo/rat/rat_spn.py:RatSPN._sample", "spflow/modules/module.py:Module.sample", "spflow/modules/module.py:Module.sample_with_evidence", "spflow/modules/sums/sum.py:Sum._sample", "spflow/modules/sums/repetition_mixing_layer.py:RepetitionMixingLayer._sample", "spflow/modules/products/base_product.py:BaseProduct._sample", "spflow/modules/ops/factorize.py:Factorize._sample"]}
{"id": "C198", "title": "RatSPN.sample draws from the model", "statement": "For one root node or one repetition, sample() of a row with no observed cell draws each complete row with its probability under the model.", "quantifier": "all architectures, weights, leaves, assignments", "why_tests_cant": "Distributional claim for all architectures and weights; a test compares frequencies of a few.", "anchors": ["spflow/zoo/rat/rat_spn.py:RatSPN._sample", "spflow/modules/module.py:Module.sample", "spflow/modules/module.py:Module.sample_with_evidence", "spflow/modules/sums/sum.py:Sum._sample", "spflow/modules/sums/repetition_mixing_layer.py:RepetitionMixingLayer._sample", "spflow/modules/products/base_product.py:BaseProduct._sample", "spflow/modules/ops/factorize.py:Factorize._sample"]}
{"id": "C199", "title": "RatSPN conditional sampling with continuous leaves", "statement": "For arbitrary (continuous, countable or finite) leaf domains and non-negative test functions of the missing cells, the expected product of the tests under sample_with_evidence (one root node) is the root class evaluated on the leaves' expectations of the tests, divided by the density of the evidence.", "quantifier": "all architectures, weights, leaves, domains, test functions, evidence rows", "why_tests_cant": "Distributional claim for all architectures and weights; a test compares frequencies of a few.", "anchors": ["spflow/zoo/rat/rat_spn.py:RatSPN._sample", "spflow/modules/module.py:Module.sample", "spflow/modules/module.py:Module.sample_with_evidence", "spflow/modules/sums/sum.py:Sum._sample", "spflow/modules/sums/repetition_mixing_layer.py:RepetitionMixingLayer._sample", "spflow/modules/products/base_product.py:BaseProduct._sample", "spflow/modules/ops/factorize.py:Factorize._sample"]}
{"id": "C200", "title": "RatSPN.sample_with_evidence with several root nodes", "statement": "With several root nodes and one repetition the root node is drawn from the prior (not the posterior given the evidence) and the row completed under that node: the law of the completion is the prior mixture of the nodes' conditionals.", "quantifier": "all architectures, weights, leaves, evidence rows", "why_tests_cant": "Distributional claim for all architectures and weights; a test compares frequencies of a few.", "anchors": ["spflow/zoo/rat/rat_spn.py:RatSPN._sample", "spflow/modules/module.py:Module.sample", "spflow/modules/module.py:Module.sample_with_evidence"]}
{"id": "C201", "title": "Conditional sampling with several root nodes", "statement": "(Refuted) sample_with_evidence of a RatSPN with two root nodes draws a completion with probability exp(log_likelihood(completed) - log_likelihood(evidence)).", "quantifier": "all models and rows", "why_tests_cant": "Counterexample to a universal claim.", "anchors": ["spflow/zoo/rat/rat_spn.py:RatSPN._sample", "spflow/modules/module.py:Module.sample", "spflow/modules/module.py:Module.sample_with_evidence"]}
{"id": "C202", "title": "RatSPN.sample(data) ignores the observed cells", "statement": "sample(data=row) on a partly observed row draws the missing cells from the model's marginal over them, whatever the observed cells hold.", "quantifier": "all architectures, weights, leaves, rows", "why_tests_cant": "Distributional claim for all architectures and weights; a test compares frequencies of a few.", "anchors": ["spflow/zoo/rat/rat_spn.py:RatSPN._sample", "spflow/modules/module.py:Module.sample", "spflow/modules/module.py:Module.sample_with_evidence"]}
{"id": "C203", "title": "RatSPN.sample(data) conditions on the observed cells", "statement": "(Refuted) sample(data=row) completes the row with probability exp(log_likelihood(completed) - log_likelihood(row)).", "quantifier": "all models and rows", "why_tests_cant": "Counterexample to a universal claim.", "anchors": ["spflow/zoo/rat/rat_spn.py:RatSPN._sample", "spflow/modules/module.py:Module.sample", "spflow/modules/module.py:Module.sample_with_evidence"]}
{"id": "C204", "title": "Einet.sample(data) draws from the conditional (one class)", "statement": "For every constructible Einet with one class and every batch: every row of the batch is completed with probability density(completed) / density(row), whether the batch is empty of observations, partly observed or complete.", "quantifier": "all architectures (top-down, bottom-up, linsum, einsum), weights, leaves, batches, rows", "why_tests_cant": "Distributional claim for all architectures and weights; a test compares frequencies of a few.", "anchors": ["spflow/zoo/einet/einet.py:Einet._sample", "spflow/zoo/einet/einet.py:Einet._has_partial_evidence"]}
{"id": "C205", "title": "Einet.sample(data) with several classes", "statement": "With several classes and one repetition the class is drawn from the prior: the completion follows the prior mixture of the class conditionals; on rows with no observed cell this is the model's distribution.", "quantifier": "all architectures, weights, leaves, batches, rows", "why_tests_cant": "Distributional claim for all architectures and weights; a test compares frequencies of a few.", "anchors": ["spflow/zoo/einet/einet.py:Einet._sample", "spflow/zoo/einet/einet.py:Einet._has_partial_evidence"]}
{"id": "C206", "title": "RatSPN and Einet sampling keeps observed cells", "statement": "sample and sample_with_evidence, with or without is_mpe, never change an observed cell nor a cell outside the scope, and ordinary sampling leaves no cell of the scope missing.", "quantifier": "all architectures, rows, random outcomes", "why_tests_cant": "All random outcomes.", "anchors": ["spflow/zoo/rat/rat_spn.py:RatSPN._sample", "spflow/modules/module.py:Module.sample", "spflow/modules/module.py:Module.sample_with_evidence", "spflow/zoo/einet/einet.py:Einet._sample", "spflow/zoo/einet/einet.py:Einet._has_partial_evidence"]}
{"id": "C207", "title": "A RatSPN that can evaluate rows can be sampled", "statement": "(Refuted) With leaves of one repetition and a model of several, log_likelihood broadcasts and works, but sample() raises as soon as a repetition other than 0 is drawn, which happens with positive probability for every such model.", "quantifier": "all single-root RatSPNs over a one-repetition leaf", "why_tests_cant": "Holds for every such model and weights.", "anchors": ["spflow/zoo/rat/rat_spn.py:RatSPN._sample", "spflow/modules/module.py:Module.sample", "spflow/modules/module.py:Module.sample_with_evidence", "spflow/modules/leaves/leaf.py:LeafModule._sample", "spflow/utils/sampling_context.py:validate_sampling_context"]}
{"id": "C208", "title": "A compiled continuous mixture is the trained density", "statement": "The Sum returned by compiling a factorised continuous mixture gives every row (with any missing cells) exactly the log-likelihood training computed for it, the logarithm of the weighted mixture of decoded Bernoulli/Categorical/Normal products; and its leaves accept exactly the rows training accepts (cells missing or in the family's range).", "quantifier": "all families, numbers of features, points, decoder outputs, weights summing to one, rows", "why_tests_cant": "All decoder outputs and rows.", "anchors": ["spflow/zoo/cms/continuous_mixtures.py:_factorized_component_ll", "spflow/zoo/cms/continuous_mixtures.py:_mixture_log_likelihood_from_component_ll", "spflow/zoo/cms/continuous_mixtures.py:_compile_factorized"]}
{"id": "C209", "title": "Which factorised mixtures are compiled", "statement": "Compiling succeeds exactly when there is at least one integration point and feature, categorical mixtures state their number of categories, and the weights are positive and sum to one within 1e-6.", "quantifier": "all arguments", "why_tests_cant": "All argument combinations.", "anchors": ["spflow/zoo/cms/continuous_mixtures.py:_compile_factorized", "spflow/zoo/cms/continuous_mixtures.py:_broadcast_weights"]}
{"id": "C210", "title": "Compiled factorised mixtures are normalised", "statement": "The density of a compiled factorised mixture integrates (sums) to one over the ranges of its variables.", "quantifier": "all compiled mixtures", "why_tests_cant": "Integral over all rows for all parameters.", "anchors": ["spflow/zoo/cms/continuous_mixtures.py:_compile_factorized"]}
{"id": "C211", "title": "The continuous-mixture learner returns its best evaluated model", "statement": "Without latent optimisation and with non-empty evaluation data, learn_continuous_mixture_factorized returns the model of the epoch with the highest mean log-likelihood on the validation (or training) rows among the evaluated epochs (the earliest such), it stops before num_epochs only after `patience` epochs without improvement; with neither validation data nor patience it returns the last epoch's model. All rows must be in the family's range.", "quantifier": "all data, decoders, optimiser behaviours, epochs, patience", "why_tests_cant": "All training trajectories.", "anchors": ["spflow/zoo/cms/continuous_mixtures.py:learn_continuous_mixture_factorized"]}
{"id": "C212", "title": "Early stopping keeps the best state", "statement": "For any evaluation score that is a number in the first epoch, the returned state is that of the first epoch with the maximal score among the evaluated epochs; evaluation stops early only after exactly `patience` epochs without a new best, and never sooner.", "quantifier": "all score sequences (later ones may be NaN), epochs, patience", "why_tests_cant": "All trajectories.", "anchors": ["spflow/zoo/cms/continuous_mixtures.py:learn_continuous_mixture_factorized", "spflow/zoo/cms/continuous_mixtures.py:_latent_opt_factorized", "spflow/zoo/cms/continuous_mixtures.py:learn_continuous_mixture_cltree"]}
{"id": "C213", "title": "Early stopping with undefined scores", "statement": "(Refuted) The returned state has the best score of the evaluated epochs whatever the scores: if the first epoch's score is NaN (e.g. empty validation data), no later epoch ever replaces it.", "quantifier": "all trajectories whose first score is NaN", "why_tests_cant": "Counterexample to a universal claim.", "anchors": ["spflow/zoo/cms/continuous_mixtures.py:learn_continuous_mixture_factorized"]}
{"id": "C214", "title": "Mini-batches visit every row once", "statement": "One epoch's mini-batches contain every row exactly once; every batch has batch_size rows except possibly the last.", "quantifier": "all numbers of rows, batch sizes, permutations", "why_tests_cant": "All permutations.", "anchors": ["spflow/zoo/cms/continuous_mixtures.py:_iter_minibatches"]}
{"id": "C215", "title": "Integration points", "statement": "rqmc_sobol_normal accepts exactly positive numbers of points and dimensions, its weights are positive and sum to one, and the shifted unit points lie in [eps, 1-eps] and equal the Sobol point plus the shift modulo one unless clamped.", "quantifier": "all numbers of points, points, shifts", "why_tests_cant": "All shifts.", "anchors": ["spflow/zoo/cms/rqmc.py:rqmc_sobol_normal"]}
{"id": "C216", "title": "A compiled Chow-Liu mixture is the trained density", "statement": "Compiling a mixture of Chow-Liu trees over a common rooted tree succeeds exactly for >=2 features and categories, positive smoothing, and positive weights summing to one within 1e-6; its log_likelihood of a row with any missing cells is the log of the weighted sum of the trees' marginals, on complete rows exactly the training objective; rows with values outside the categories raise.", "quantifier": "all trees, decoder outputs, weights, batches", "why_tests_cant": "All trees, tables, rows.", "anchors": ["spflow/zoo/cms/continuous_mixtures.py:_compile_cltree", "spflow/zoo/cms/continuous_mixtures.py:_decode_cltree_cpts", "spflow/zoo/cms/joint.py:JointLogLikelihood.log_likelihood"]}
{"id": "C217", "title": "Compiled Chow-Liu mixtures are normalised", "statement": "The decoded conditional tables are normalised and the compiled mixture's probabilities sum to one over all complete rows.", "quantifier": "all compiled mixtures", "why_tests_cant": "Sum over all rows for all parameters.", "anchors": ["spflow/zoo/cms/continuous_mixtures.py:_compile_cltree"]}
{"id": "C218", "title": "Sampling a one-component Chow-Liu mixture", "statement": "With one component, sample(data) completes a row from the exact conditional distribution given its observed cells.", "quantifier": "all trees, tables, rows, test functions", "why_tests_cant": "Distributional claim for all models.", "anchors": ["spflow/zoo/cms/joint.py:JointLogLikelihood.sample"]}
{"id": "C219", "title": "Sampling Chow-Liu mixtures", "statement": "(Refuted) sample() of a compiled Chow-Liu mixture draws each row with its probability under log_likelihood: with two components each feature draws its component independently.", "quantifier": "all compiled mixtures", "why_tests_cant": "Counterexample to a universal claim.", "anchors": ["spflow/zoo/cms/joint.py:JointLogLikelihood.sample", "spflow/modules/sums/sum.py:Sum._sample", "spflow/modules/leaves/cltree.py:CLTree._sample"]}
{"id": "C220", "title": "Marginalising Chow-Liu mixtures", "statement": "(Refuted) A compiled Chow-Liu mixture can be marginalised: every request to remove some but not all variables raises. (Removing nothing returns an equal model, removing everything None.)", "quantifier": "all compiled mixtures and requests", "why_tests_cant": "Holds for every mixture.", "anchors": ["spflow/zoo/cms/joint.py:JointLogLikelihood.marginalize", "spflow/modules/leaves/leaf.py:LeafModule.marginalize"]}
{"id": "C221", "title": "Training is gradient descent", "statement": "When train_gradient_descent returns, it has done `epochs` passes over the batches in order, one optimiser step per batch at that epoch's learning rate, starting from the given parameters; callback_batch was called once per step with the loss before the step and the step number; the scheduler was stepped once per epoch; the model is in training mode.", "quantifier": "all models, losses, optimisers, batches, epochs, validation loaders", "why_tests_cant": "All training histories.", "anchors": ["spflow/learn/gradient_descent.py:train_gradient_descent", "spflow/learn/gradient_descent.py:_process_training_batch"]}
{"id": "C222", "title": "When training returns", "statement": "train_gradient_descent returns (rather than raises) exactly if epochs is positive, classification gets a Classifier, every batch has the right shape, every training and due validation loss is defined, the validation loader (if any) is not empty, and the training loader is not empty when verbose.", "quantifier": "all models, batches, arguments", "why_tests_cant": "All histories.", "anchors": ["spflow/learn/gradient_descent.py:train_gradient_descent", "spflow/learn/gradient_descent.py:_extract_batch_data"]}
{"id": "C223", "title": "Epoch callbacks", "statement": "callback_epoch is called once per epoch, in order, and at that moment sees the losses of exactly that epoch's training batches.", "quantifier": "all models, batches, epochs", "why_tests_cant": "All histories.", "anchors": ["spflow/learn/gradient_descent.py:train_gradient_descent", "spflow/learn/gradient_descent.py:TrainingMetrics.reset_epoch_metrics"]}
{"id": "C224", "title": "Keeping the lists passed to callback_epoch", "statement": "(Refuted) The list an epoch callback received still holds that epoch's losses after training: every call gets the same list object, which finally holds the last epoch's losses.", "quantifier": "all models, batches, epochs", "why_tests_cant": "Counterexample to a universal claim.", "anchors": ["spflow/learn/gradient_descent.py:train_gradient_descent", "spflow/learn/gradient_descent.py:TrainingMetrics.reset_epoch_metrics"]}
{"id": "C225", "title": "Validation", "statement": "Validation runs after epochs 0, 10, 20, ... only, calling callback_batch for each validation batch with the loss under the current parameters and the number of training steps so far; it does not influence parameters, training callbacks or epoch callbacks.", "quantifier": "all models, loaders, epochs", "why_tests_cant": "All histories.", "anchors": ["spflow/learn/gradient_descent.py:train_gradient_descent", "spflow/learn/gradient_descent.py:_run_validation_epoch"]}
{"id": "C226", "title": "Training interrupted by an exception", "statement": "If training raises, the parameters are those after some number k of complete steps, callback_batch was called exactly for these k steps; with a non-positive number of epochs or a model that is no Classifier nothing was changed or called.", "quantifier": "all models, loaders, points of failure", "why_tests_cant": "All failure points.", "anchors": ["spflow/learn/gradient_descent.py:train_gradient_descent"]}
{"id": "C227", "title": "Model mode after an exception", "statement": "(Refuted) Training that raises leaves the model in training mode: an exception during validation leaves it in evaluation mode. An empty validation loader always raises.", "quantifier": "all models, loaders", "why_tests_cant": "Counterexample to a universal claim.", "anchors": ["spflow/learn/gradient_descent.py:_run_validation_epoch"]}
{"id": "C228", "title": "Training accuracy", "statement": "The logged training accuracy is the percentage of correct predictions in the last epoch, each made before its batch's update, and lies in [0, 100].", "quantifier": "all classification tasks", "why_tests_cant": "All histories.", "anchors": ["spflow/learn/gradient_descent.py:TrainingMetrics.get_train_accuracy", "spflow/learn/gradient_descent.py:TrainingMetrics.update_train_batch"]}
{"id": "C229", "title": "Default learning-rate schedule", "statement": "With at least two epochs, the default learning rate is lr in the first half, lr/10 up to three quarters and lr/100 after that.", "quantifier": "all lr, epochs", "why_tests_cant": "All numbers of epochs.", "anchors": ["spflow/learn/gradient_descent.py:train_gradient_descent"]}
{"id": "C230", "title": "Default learning rate of the first epoch", "statement": "(Refuted) Training with the default scheduler starts at lr: a single epoch runs at lr/100.", "quantifier": "all lr, epochs", "why_tests_cant": "Counterexample to a universal claim.", "anchors": ["spflow/learn/gradient_descent.py:train_gradient_descent"]}
{"id": "C231", "title": "score_samples", "statement": "score_samples returns per row the logarithm of the chosen aggregation (mean, sum or first entry, of channels over repetitions) of the product over features of the model's probabilities.", "quantifier": "all circuits, rows, aggregations", "why_tests_cant": "All models and rows.", "anchors": ["spflow/interfaces/sklearn.py:SPFlowDensityEstimator.score_samples", "spflow/interfaces/sklearn.py:_reduce_log_likelihood"]}
{"id": "C232", "title": "Which aggregations are accepted", "statement": "For a circuit whose log_likelihood is defined, scoring fails exactly if a non-empty batch meets an unknown aggregation name on a dimension of more than one entry; unknown names pass unnoticed otherwise.", "quantifier": "all circuits, aggregation names, batches", "why_tests_cant": "All shapes.", "anchors": ["spflow/interfaces/sklearn.py:_reduce_log_likelihood"]}
{"id": "C233", "title": "Scores are log-densities", "statement": "With mean or first-entry aggregation, the exponentials of score_samples sum (integrate) to one over all rows, for any number of features, channels and repetitions.", "quantifier": "all circuits with normalised leaves", "why_tests_cant": "Integral over all rows for all models.", "anchors": ["spflow/interfaces/sklearn.py:SPFlowDensityEstimator.score_samples"]}
{"id": "C234", "title": "Scores with logsumexp", "statement": "(Refuted) Whatever aggregation is chosen the scores are log-densities: with logsumexp the total is channels times repetitions.", "quantifier": "all circuits, aggregations", "why_tests_cant": "Counterexample to a universal claim.", "anchors": ["spflow/interfaces/sklearn.py:_reduce_log_likelihood"]}
{"id": "C235", "title": "Seeded sampling of the estimator", "statement": "sample(n, random_state=z) returns what the fitted model draws right after torch.manual_seed(z), independent of the global generator; sample() never changes the global generator.", "quantifier": "all models, seeds, generator states", "why_tests_cant": "All generator states.", "anchors": ["spflow/interfaces/sklearn.py:SPFlowDensityEstimator.sample"]}
{"id": "C236", "title": "Unseeded sampling of the estimator", "statement": "(Refuted) Successive sample() calls without random_state draw new samples: fork_rng restores the generator, so every repetition of the call returns the same samples.", "quantifier": "all fitted estimators, generator states", "why_tests_cant": "Counterexample to a universal claim.", "anchors": ["spflow/interfaces/sklearn.py:SPFlowDensityEstimator.sample"]}
{"id": "C237", "title": "fit of the density estimator", "statement": "A fit that returns stores the learned circuit, or the given model (trained by MLE if fit_params); n_features_in_ is the data's width; a given model is trained in place (model_ is model).", "quantifier": "all models, data, learners", "why_tests_cant": "All estimator states.", "anchors": ["spflow/interfaces/sklearn.py:SPFlowDensityEstimator.fit"]}
{"id": "C238", "title": "A failed fit", "statement": "(Refuted) If fit raises the estimator is not fitted: with a given model it always counts as fitted afterwards.", "quantifier": "all estimators", "why_tests_cant": "Counterexample to a universal claim.", "anchors": ["spflow/interfaces/sklearn.py:SPFlowDensityEstimator.fit"]}
{"id": "C239", "title": "The classifier wrapper predicts labels by rank", "statement": "predict returns for each row the label whose rank among the sorted distinct labels passed to fit is the arg max class of the model; when these labels are exactly 0..K-1 it agrees with the model's own predict.", "quantifier": "all labels, models, rows", "why_tests_cant": "All label sets and models.", "anchors": ["spflow/interfaces/sklearn.py:SPFlowClassifier.fit", "spflow/interfaces/sklearn.py:SPFlowClassifier.predict", "spflow/interfaces/classifier.py:Classifier.predict"]}
{"id": "C240", "title": "Labels missing from fit", "statement": "(Refuted) predict agrees with the model's predict for integer labels below K even if some class is missing in the labels passed to fit: later classes are shifted, and the last ones raise.", "quantifier": "all labels, models", "why_tests_cant": "Counterexample to a universal claim.", "anchors": ["spflow/interfaces/sklearn.py:SPFlowClassifier.predict"]}
{"id": "C241", "title": "RDC partitioning", "statement": "partition_by_rdc gives two features the same id exactly if they are joined by a chain of pairs whose coefficient is nonzero and at least the threshold; ids start at 1 and increase by at most one over the earlier features; features with different ids have a coefficient below the threshold or zero; it raises exactly if computing some coefficient does, and restores the default dtype.", "quantifier": "all numbers of features, thresholds, coefficients", "why_tests_cant": "All graphs.", "anchors": ["spflow/learn/learn_spn.py:partition_by_rdc"]}
{"id": "C242", "title": "Value of the RDC", "statement": "A returned RDC lies in [0, 1] and is the square root of the largest canonical correlation of some number of features for which all of them are real and in [0, 1].", "quantifier": "all samples, projections, eigenvalue routines", "why_tests_cant": "All inputs.", "anchors": ["spflow/utils/rdc.py:rdc"]}
{"id": "C243", "title": "The RDC search ends", "statement": "The search for the number of features ends after at most 2k+1 rounds; it returns if one feature already gives valid correlations, raises if no number does, and picks the largest valid number if validity is downward closed.", "quantifier": "all eigenvalue routines and k >= 1", "why_tests_cant": "Termination for all histories of valid and invalid outcomes.", "anchors": ["spflow/utils/rdc.py:rdc"]}
{"id": "C244", "title": "RDC depends only on the order", "statement": "For any correct argsort the ranks are a permutation of 1..n that respects the order, and for distinct values the rank is one plus the number of smaller values; hence the RDC is unchanged by strictly increasing transformations of either variable.", "quantifier": "all samples without ties, increasing maps, argsorts", "why_tests_cant": "All transformations.", "anchors": ["spflow/utils/rdc.py:rankdata_ordinal", "spflow/utils/rdc.py:rdc"]}
{"id": "C245", "title": "Ranks of ties", "statement": "(Refuted) Equal values get equal ranks: they never do; a constant feature is ranked like some sample of n distinct values.", "quantifier": "all argsorts, samples", "why_tests_cant": "Counterexample to a universal claim.", "anchors": ["spflow/utils/rdc.py:rankdata_ordinal"]}
{"id": "C246", "title": "RDC of several variables", "statement": "(Refuted) Inputs of shape (samples, variables) with several variables are accepted, as documented: the coefficient is only ever computed for exactly one variable on either side.", "quantifier": "all inputs", "why_tests_cant": "Counterexample to a universal claim.", "anchors": ["spflow/utils/rdc.py:rdc"]}
{"id": "C247", "title": "What WeightedSum accepts", "statement": "WeightedSum(inputs, weights) succeeds exactly if every weight is non-negative, the weights' feature dimension is the input's or one, and their input dimension is the input's number of channels; the stored weights are the given ones, repeated over features if there was only one, and the output shape is (features, out channels, weight repetitions).", "quantifier": "all circuits and weight tensors", "why_tests_cant": "All shapes and weights.", "anchors": ["spflow/zoo/pic/weighted_sum.py:WeightedSum.__init__"]}
{"id": "C248", "title": "WeightedSum likelihood", "statement": "The likelihood of a WeightedSum at each feature, channel and repetition is the sum over input channels of raw weight times input likelihood; summed over the values of the feature's variables it is the sum of the weights.", "quantifier": "all built circuits, non-negative weights, rows", "why_tests_cant": "Universal over circuits, weights, inputs.", "anchors": ["spflow/zoo/pic/weighted_sum.py:WeightedSum.log_likelihood"]}
{"id": "C249", "title": "WeightedSum weights stay non-negative", "statement": "(Refuted) Assigning weights keeps them non-negative like the constructor demands: the setter checks only the shape, and a negative weight then counts as zero in the likelihood.", "quantifier": "all weights", "why_tests_cant": "Counterexample to a universal claim.", "anchors": ["spflow/zoo/pic/weighted_sum.py:WeightedSum.weights"]}
{"id": "C250", "title": "Sampling from WeightedSum", "statement": "sample() of a WeightedSum yields a value with probability the product over features of its likelihood divided by the sum of the feature's weights; if some feature's weights are all zero it never returns a sample.", "quantifier": "all built circuits, non-negative weights, values", "why_tests_cant": "Universal over circuits, weights, values.", "anchors": ["spflow/zoo/pic/weighted_sum.py:WeightedSum._sample"]}
{"id": "C251", "title": "WeightedSum samples given evidence", "statement": "(Refuted) sample_with_evidence of a normalised WeightedSum samples from the conditional distribution: it draws the channel from the prior weights.", "quantifier": "all circuits, evidence", "why_tests_cant": "Counterexample to a universal claim.", "anchors": ["spflow/zoo/pic/weighted_sum.py:WeightedSum._sample"]}
{"id": "C252", "title": "Marginalizing WeightedSum", "statement": "marginalize(V) of a WeightedSum returns None exactly if all variables are in V; otherwise it returns a WeightedSum over the remaining variables whose log-likelihood at each kept feature is the original's with the variables of V missing.", "quantifier": "all built circuits, variable sets, prune flags, rows", "why_tests_cant": "Universal over circuits and variable sets.", "anchors": ["spflow/zoo/pic/weighted_sum.py:WeightedSum.marginalize"]}
{"id": "C253", "title": "Triple products are integrals", "statement": "Whenever triple_product_tensor(a, b, c) returns, its entry for feature f, channels i, j, k and repetition r is the sum or integral over all assignments of f's variables of the product of the three circuits' values there.", "quantifier": "all triples of signed circuits with sorted leaves of the supported families (parameters outside the clamping ranges), all positions", "why_tests_cant": "Universal over circuits; integrals cannot be tested.", "anchors": ["spflow/utils/inner_product_core.py:triple_product_tensor"]}
{"id": "C254", "title": "What ExpSOCS accepts", "statement": "ExpSOCS(monotone, components) succeeds exactly if there is a component, all circuits have output shape (1,1,1), and every component has the monotone circuit's scope.", "quantifier": "all circuits", "why_tests_cant": "All shapes and scopes.", "anchors": ["spflow/zoo/sos/exp_socs.py:ExpSOCS.__init__"]}
{"id": "C255", "title": "ExpSOCS is a normalised density", "statement": "At a complete row ExpSOCS.log_likelihood is the log of m(x) times the sum of the squared components over Z, where Z is the sum or integral of that numerator over all assignments; total mass is one. It assumes Z >= 1e-30. It does not raise on rows in the leaves' supports if the monotone circuit is monotone.", "quantifier": "all ExpSOCS models over supported leaves, all rows", "why_tests_cant": "Universal over models and rows; integrals.", "anchors": ["spflow/zoo/sos/exp_socs.py:ExpSOCS.log_likelihood", "spflow/zoo/sos/exp_socs.py:ExpSOCS._log_partition"]}
{"id": "C256", "title": "ExpSOCS with missing values", "statement": "(Refuted) With missing cells ExpSOCS.log_likelihood is the marginal log-likelihood: a row with nothing observed can have density 4.", "quantifier": "all models and rows with missing cells", "why_tests_cant": "Counterexample to a universal claim.", "anchors": ["spflow/zoo/sos/exp_socs.py:ExpSOCS.log_likelihood"]}
{"id": "C257", "title": "Marginalizing ExpSOCS", "statement": "(Refuted) marginalize returns a model whose density is the marginal of the original density: it combines the marginals of the circuits instead.", "quantifier": "all models and variable sets", "why_tests_cant": "Counterexample to a universal claim.", "anchors": ["spflow/zoo/sos/exp_socs.py:ExpSOCS.marginalize"]}
{"id": "C258", "title": "ExpSOCS rejects a non-monotone circuit", "statement": "(Refuted) The constructor checks that `monotone` is monotone: a SignedSum is accepted, and then every log_likelihood call raises.", "quantifier": "all circuits", "why_tests_cant": "Counterexample to a universal claim.", "anchors": ["spflow/zoo/sos/exp_socs.py:ExpSOCS.__init__"]}
{"id": "C259", "title": "SOCS stays normalised for many variables", "statement": "(Refuted) The total mass of SOCS.log_likelihood is one whatever the number of variables: the partition function is clamped at 1e-30, so for a hundred uniform binary variables the mass is below one.", "quantifier": "all SOCS models", "why_tests_cant": "Counterexample to a universal claim.", "anchors": ["spflow/modules/sos/socs.py:SOCS._log_partition", "spflow/modules/sos/socs.py:SOCS.log_likelihood"]}
{"id": "C260", "title": "What the compatibility check accepts", "statement": "check_compatible_components accepts exactly if every component has, at every path through Cat, Sum, SignedSum and Product modules, a module of the same class, scope, output shape, Cat dimension, arity, number of states and Chow-Liu tree as the first component; sharing of submodules makes no difference.", "quantifier": "all lists of finite module graphs", "why_tests_cant": "All graphs and sharings.", "anchors": ["spflow/utils/compatibility.py:check_compatible_components", "spflow/utils/compatibility.py:_check_pair"]}
{"id": "C261", "title": "Compatibility is pairwise", "statement": "If check_compatible_components accepts, any two of the components are compatible with each other; empty and one-element lists are accepted.", "quantifier": "all lists of modules", "why_tests_cant": "All lists.", "anchors": ["spflow/utils/compatibility.py:check_compatible_components", "spflow/utils/compatibility.py:_check_pair"]}
{"id": "C262", "title": "Compatible components have inner products", "statement": "If two circuits pass check_compatible_components, concatenate only along features, and every leaf is of one class with a closed-form inner product (not Hypergeometric or NegativeBinomial), inner_product_matrix does not raise on them.", "quantifier": "all signed circuits", "why_tests_cant": "Universal over circuits.", "anchors": ["spflow/utils/compatibility.py:check_compatible_components", "spflow/utils/compatibility.py:_check_pair", "spflow/utils/inner_product_core.py:inner_product_matrix"]}
{"id": "C263", "title": "Compatibility suffices for inner products", "statement": "(Refuted) Whenever check_compatible_components accepts, inner_product_matrix is defined: Hypergeometric leaves with different population sizes, or a Cat along channels of leaves of different classes, are accepted although it raises.", "quantifier": "all components", "why_tests_cant": "Counterexample to a universal claim.", "anchors": ["spflow/utils/compatibility.py:check_compatible_components", "spflow/utils/compatibility.py:_check_pair", "spflow/utils/inner_product_core.py:inner_product_matrix"]}
{"id": "C264", "title": "Compatibility compares whole circuits", "statement": "(Refuted) Accepted circuits decompose their variables alike: the inputs of module types other than Cat, Sum, SignedSum and Product are not compared.", "quantifier": "all modules", "why_tests_cant": "Counterexample to a universal claim.", "anchors": ["spflow/utils/compatibility.py:check_compatible_components", "spflow/utils/compatibility.py:_check_pair", "spflow/utils/compatibility.py:_children"]}
{"id": "C265", "title": "Region trees of the SOS models", "statement": "Every region graph (rnd-bt, rnd-lt, lt, qt, qt-2, qt-4) covers the variables 0..n-1 exactly once: the root holds all of them, each inner node has at least two children that divide its variables up, the leaves are single variables (quad trees: single pixels with one variable per image channel); only an unknown graph or a quad tree without an image shape is rejected; random binary trees halve the variables at every node, linear trees split off one variable at a time, qt-2 halves the longer side of a patch, qt and qt-4 cut it into quadrants.", "quantifier": "all variable counts, image shapes, region graphs and shuffles", "why_tests_cant": "All sizes and seeds.", "anchors": ["spflow/zoo/sos/models.py:_build_tree", "spflow/zoo/sos/models.py:_build_quadtree_patch", "spflow/zoo/sos/models.py:_build_random_binary_tree", "spflow/zoo/sos/models.py:_build_linear_tree_from_order"]}
{"id": "C266", "title": "What SOSModel accepts", "statement": "SOSModel(...) succeeds exactly for positive counts, an image shape matching num_variables, a known region graph (quad trees need the image), the number of states (positive for signed inputs) and either num_input_units = num_sum_units or region trees without a node having both a leaf and an inner node as children.", "quantifier": "all constructor arguments and seeds", "why_tests_cant": "All arguments and seeds.", "anchors": ["spflow/zoo/sos/models.py:SOSModel.__init__", "spflow/zoo/sos/models.py:_validate_model_common", "spflow/zoo/sos/models.py:_instantiate_tree"]}
{"id": "C267", "title": "Region trees without mixed nodes", "statement": "Linear trees have no node with both a leaf and an inner child exactly for n <= 2, random binary trees exactly when n is a power of two, quad trees whenever both image sides are powers of two.", "quantifier": "all sizes, image shapes and shuffles", "why_tests_cant": "All sizes.", "anchors": ["spflow/zoo/sos/models.py:_build_tree"]}
{"id": "C268", "title": "Independent unit counts", "statement": "(Refuted) SOSModel accepts any positive num_input_units and num_sum_units: with different counts every linear tree over three or more variables and every random binary tree over a number of variables that is not a power of two makes the constructor raise.", "quantifier": "all constructor arguments", "why_tests_cant": "Counterexample to a universal claim.", "anchors": ["spflow/zoo/sos/models.py:SOSModel.__init__", "spflow/zoo/sos/models.py:_instantiate_tree"]}
{"id": "C269", "title": "SOSModel is a normalised density", "statement": "SOSModel has num_squares components (twice as many if complex), each over the variables 0..n-1 with one output; its partition function is always computable; log_likelihood never raises on rows of admissible values and is the log of the normalised sum of squares, which has total mass one (Z at least 1e-30).", "quantifier": "all constructor arguments, seeds and rows", "why_tests_cant": "Universal over arguments and an integral over all rows.", "anchors": ["spflow/zoo/sos/models.py:SOSModel", "spflow/modules/sos/socs.py:SOCS"]}
{"id": "C270", "title": "Structured-decomposable SOS components", "statement": "With structured_decomposable=True any two components of an SOSModel have an inner product, equal to the sum or integral of the product of their functions over all rows.", "quantifier": "all constructor arguments and seeds", "why_tests_cant": "All pairs, integral over all rows.", "anchors": ["spflow/zoo/sos/models.py:_structure_seed", "spflow/utils/inner_product_core.py:inner_product_matrix"]}
{"id": "C271", "title": "ExpSOSModel is a normalised density", "statement": "ExpSOSModel(...) succeeds exactly for valid arguments with equal unit counts in both circuits or a region tree without mixed nodes; it has one component (two if complex) compatible with its monotone circuit, and log_likelihood never raises on admissible rows and is the log of m(x) sum_i c_i(x)^2 / Z with total mass one.", "quantifier": "all constructor arguments, seeds and rows", "why_tests_cant": "Universal over arguments and an integral over all rows.", "anchors": ["spflow/zoo/sos/models.py:ExpSOSModel", "spflow/modules/sos/exp_socs.py:ExpSOCS"]}
{"id": "C272", "title": "Initial SOS weights", "statement": "All initial signed weights of an SOSModel lie in [-2,2) for at most two variables and in [0,1) for more; in the latter case every component is initially a nonnegative function.", "quantifier": "all constructor arguments, seeds and rows", "why_tests_cant": "All seeds and rows.", "anchors": ["spflow/zoo/sos/models.py:_signed_init_bounds", "spflow/zoo/sos/models.py:_rand_uniform"]}
{"id": "C273", "title": "SOSModel can be sampled", "statement": "(Refuted) sample() works for every SOSModel: over more than one variable (pixel) with num_sum_units >= 2 it always raises.", "quantifier": "all constructor arguments, rows and step counts", "why_tests_cant": "Counterexample to a universal claim.", "anchors": ["spflow/zoo/sos/models.py:SOSModel.sample", "spflow/utils/build_socs.py:build_abs_weight_proposal"]}
{"id": "C274", "title": "SOSModel can be marginalised", "statement": "(Refuted) marginalize() works for every SOSModel: over more than one variable (pixel) it raises for every list of variables, even the empty one.", "quantifier": "all constructor arguments and variable lists", "why_tests_cant": "Counterexample to a universal claim.", "anchors": ["spflow/zoo/sos/models.py:SOSModel.marginalize", "spflow/modules/sums/signed_sum.py:SignedSum.marginalize"]}
{"id": "C275", "title": "Region graphs rg2pic accepts", "statement": "rg2pic succeeds exactly when the region graph is a single region, or the merge strategy is not CP and only the root has alternative partitions; the result is a well-formed PIC over exactly the variables of the root, in which every latent variable is integrated out.", "quantifier": "all region graphs (partitions of any arity, shared regions), merge strategies, input units, weighting functions and sum weights following the factories' protocol", "why_tests_cant": "All region graphs and factories.", "anchors": ["spflow/zoo/pic/pipeline.py:rg2pic", "spflow/zoo/pic/pipeline.py:_merge_units", "spflow/zoo/pic/pipeline.py:PICProduct", "spflow/zoo/pic/pipeline.py:PICSum"]}
{"id": "C276", "title": "pic2qpc materialises the PIC", "statement": "With non-negative quadrature weights pic2qpc succeeds on every well-formed PIC without function groups; the circuit has the PIC's scope, one feature and one channel per assignment of quadrature points to the free latents, and its likelihood is the PIC's value with every integral replaced by the quadrature rule; the weighting function receives the integrated latents left factor first.", "quantifier": "all PICs, quadrature rules, weighting functions, rows and latent assignments", "why_tests_cant": "All PICs, rules and rows.", "anchors": ["spflow/zoo/pic/pipeline.py:pic2qpc", "spflow/zoo/pic/integral.py:Integral", "spflow/zoo/pic/weighted_sum.py:WeightedSum"]}
{"id": "C277", "title": "Mass of a materialised PIC", "statement": "If the input units are densities for each value of their latents, summing (integrating) the circuit pic2qpc returns over a variable equals evaluating it with that variable missing; its total mass is the quadrature of the weighting functions alone, and one when these are conditional densities under the rule and the sum weights sum to one.", "quantifier": "all PICs without function groups, rules, domains and rows", "why_tests_cant": "An integral over all rows for all circuits.", "anchors": ["spflow/zoo/pic/pipeline.py:pic2qpc", "spflow/zoo/pic/pipeline.py:rg2pic"]}
{"id": "C278", "title": "CP merges", "statement": "(Refuted) rg2pic works with merge_strategy=MergeStrategy.CP: it raises for every region graph that has a partition.", "quantifier": "all region graphs and factories", "why_tests_cant": "Counterexample to a universal claim.", "anchors": ["spflow/zoo/pic/pipeline.py:rg2pic", "spflow/zoo/pic/pipeline.py:_merge_units"]}
{"id": "C279", "title": "Alternative partitions become sums", "statement": "(Refuted) rg2pic turns alternative partitions of any region into a weighted sum: for any region other than the root with two or more partitions it raises.", "quantifier": "all region graphs, strategies and factories", "why_tests_cant": "Counterexample to a universal claim.", "anchors": ["spflow/zoo/pic/pipeline.py:rg2pic", "spflow/zoo/pic/pipeline.py:PICSum"]}
{"id": "C280", "title": "F-sharing", "statement": "(Refuted) pic2qpc materialises PICs whose integrals share one function (F-sharing): with two integrals in a group it always raises.", "quantifier": "all rules, input units, functions and recursion depths, on a four-variable tree", "why_tests_cant": "Counterexample to a universal claim.", "anchors": ["spflow/zoo/pic/pipeline.py:pic2qpc", "spflow/zoo/pic/functional_sharing.py:FunctionGroup.evaluate_batched"]}
{"id": "C281", "title": "Function groups on n-ary partitions", "statement": "(Refuted) pic2qpc terminates on every PIC that rg2pic builds with integral_group_factory: for a partition into four regions it recurses forever.", "quantifier": "all rules, input units, functions, sharing types and recursion depths", "why_tests_cant": "Counterexample to a universal claim.", "anchors": ["spflow/zoo/pic/pipeline.py:pic2qpc", "spflow/zoo/pic/pipeline.py:_maybe_attach_function_group"]}
{"id": "C282", "title": "Independent seeds of SOS components", "statement": "Component j of an SOSModel depends on the generator seeded with seed + 10000 + j and on the shuffles only (real and imaginary parts count separately), so different components never share a generator; likewise seed + 20000 for the monotone circuit and seed + 21000 + j for the components of an ExpSOSModel.", "quantifier": "all constructor arguments, seeds and generator outputs", "why_tests_cant": "A dependence statement over all generator outputs.", "anchors": ["spflow/zoo/sos/models.py:SOSModel.__init__", "spflow/zoo/sos/models.py:ExpSOSModel.__init__"]}
{"id": "C283", "title": "Materialising PICs with C-sharing", "statement": "With an integral_group_factory that returns C-sharing groups and a region graph whose partitions all have two regions, pic2qpc succeeds on whatever rg2pic built; the circuit is over the variables of the root, has one feature, channel and repetition, and its likelihood is the PIC's value under the quadrature rule, where head h of group k is the weighting function of the integral with that head.", "quantifier": "all binary region graphs rg2pic accepts, rules, input units, head functions, rows", "why_tests_cant": "All region graphs and functions.", "anchors": ["spflow/zoo/pic/pipeline.py:pic2qpc", "spflow/zoo/pic/pipeline.py:rg2pic", "spflow/zoo/pic/functional_sharing.py:FunctionGroup"]}
{"id": "C284", "title": "Mass of a materialised PIC with C-sharing", "statement": "Under the conditions of C283 and with density input units, summing the circuit over a variable equals evaluating it with that variable missing, and its total mass is the quadrature of the heads alone (one when they are conditional densities under the rule).", "quantifier": "all binary region graphs, rules, heads, domains and rows", "why_tests_cant": "An integral over all rows for all circuits.", "anchors": ["spflow/zoo/pic/pipeline.py:pic2qpc", "spflow/zoo/pic/pipeline.py:rg2pic"]}
{"id": "C285", "title": "Which integrals share a function group", "statement": "In whatever rg2pic returns, groups have pairwise different keys (depth, number of conditioned latents, number of integrated latents), every unit of a group matches its key and has at least one conditioned latent, the sharing type is the one the factory returned for the key, and the i-th unit uses head i, so no two integrals get the same head.", "quantifier": "all region graphs, factories and strategies", "why_tests_cant": "All region graphs and factories.", "anchors": ["spflow/zoo/pic/pipeline.py:_maybe_attach_function_group", "spflow/zoo/pic/pipeline.py:rg2pic", "spflow/zoo/pic/functional_sharing.py:FunctionGroup.add_unit"]}
{"id": "C286", "title": "A tensorized QPC computes the recursion over its region graph", "statement": "For a region graph with sorted scopes, partitions into at least two disjoint regions and univariate leaves, with one class, log_likelihood succeeds and its exponential is a recursion over the region graph: a unit of a leaf region is the density of its variable, a partition of a height of binary partitions is the sum over pairs of child units weighted by the quadrature-normalised network output (Tucker), any other partition is the product over its regions of weighted sums (CP), and a region with several partitions is their softmax mixture. Folding, padding, masking, the order of layers and the meshgrid do not matter. All weights sum to one over the integrated units.", "quantifier": "all region graphs (alternatives and n-ary partitions included), quadrature rules, non-negative network functions, mixing logits, layer classes, rows", "why_tests_cant": "All region graphs, rules and networks; tests compare a few hand-built cases.", "anchors": ["spflow/zoo/pic/tensorized/qpc.py:TensorizedQPC.log_likelihood", "spflow/zoo/pic/tensorized/qpc.py:_build_folded_layers", "spflow/zoo/pic/tensorized/qpc.py:InnerNet.forward", "spflow/zoo/pic/tensorized/utils.py:eval_tucker", "spflow/zoo/pic/tensorized/utils.py:eval_collapsed_cp", "spflow/zoo/pic/tensorized/utils.py:eval_mixing"]}
{"id": "C287", "title": "Total mass of a tensorized QPC", "statement": "Under the conditions of C286, if every input unit is a normalised density over the domain of its variable, the likelihoods of all rows sum (or integrate) to one.", "quantifier": "all region graphs, rules, networks and domains", "why_tests_cant": "An integral over all rows for all circuits.", "anchors": ["spflow/zoo/pic/tensorized/qpc.py:TensorizedQPC.log_likelihood", "spflow/zoo/pic/tensorized/qpc.py:_build_folded_layers", "spflow/zoo/pic/tensorized/qpc.py:InnerNet.forward", "spflow/zoo/pic/tensorized/utils.py:eval_tucker", "spflow/zoo/pic/tensorized/utils.py:eval_collapsed_cp", "spflow/zoo/pic/tensorized/utils.py:eval_mixing"]}
{"id": "C288", "title": "Leaf types of a tensorized QPC are normalised", "statement": "For every leaf type (normal, Bernoulli, categorical with at least two categories) and all network outputs, with or without F-sharing, the input densities sum or integrate to one, they do not depend on the number of chunks, and so the total mass of the circuit is one.", "quantifier": "all network outputs, leaf types, sharing modes and region graphs", "why_tests_cant": "An integral for every parameter value.", "anchors": ["spflow/zoo/pic/tensorized/qpc.py:TensorizedQPC._leaf_log_likelihood", "spflow/zoo/pic/tensorized/qpc.py:InputNet.forward"]}
{"id": "C289", "title": "Chunking and layer class do not change a tensorized QPC", "statement": "n_chunks is only an evaluation strategy: any two positive numbers of chunks give the same log-likelihood; layer_cls 'tucker' gives the same result as 'auto' on every region graph.", "quantifier": "all region graphs, rules, networks and chunk counts", "why_tests_cant": "Equality of two evaluation orders for all inputs.", "anchors": ["spflow/zoo/pic/tensorized/qpc.py:InnerNet.forward", "spflow/zoo/pic/tensorized/qpc.py:_build_folded_layers"]}
{"id": "C290", "title": "A tensorized QPC accepts what it can evaluate", "statement": "If the constructor accepts a region graph, log_likelihood succeeds with the documented shape, including the region graph that is a single univariate region.", "quantifier": "all region graphs with univariate leaves", "why_tests_cant": "All region graphs, degenerate ones included.", "anchors": ["spflow/zoo/pic/tensorized/qpc.py:TensorizedQPC.__init__", "spflow/zoo/pic/tensorized/qpc.py:TensorizedQPC.log_likelihood"]}
{"id": "C291", "title": "Values outside the categories of a tensorized QPC", "statement": "A categorical input unit rejects a value outside of its categories or gives it probability zero.", "quantifier": "all category counts, logits and values", "why_tests_cant": "All values outside of the domain.", "anchors": ["spflow/zoo/pic/tensorized/qpc.py:TensorizedQPC._leaf_log_likelihood"]}
{"id": "C292", "title": "Integrals without a weighting function", "statement": "If any integral unit of a PIC, at any depth, has no weighting function (neither its own nor a group's), materialising the PIC raises instead of treating it as some default.", "quantifier": "all PICs, groups, rules and depths", "why_tests_cant": "All circuits and positions of the unit.", "anchors": ["spflow/zoo/pic/pipeline.py:pic2qpc"]}
{"id": "C293", "title": "APC latent statistics", "statement": "For parameters the numerical clamps leave alone, the latent statistics an encoder returns for a latent dimension are the mean and log-variance of the leaf distribution that dimension is drawn from (the variance as long as it is at least the smallest resolvable number), and its KL entry is the Kullback-Leibler divergence of that distribution from the family's prior (standard normal, fair coin, fair binomial, uniform).", "quantifier": "all Normal, Bernoulli, Binomial and Categorical parameters, all total counts and numbers of classes", "why_tests_cant": "Integrals over the reals and sums over all classes and counts.", "anchors": ["spflow/zoo/apc/encoders/latent_stats.py:latent_stats_from_leaf_record"]}
{"id": "C294", "title": "APC KL of a latent row", "statement": "For parameters the clamps leave alone, the KL term of a sample equals the Kullback-Leibler divergence between the joint (independent) distribution of its whole latent row and the joint prior.", "quantifier": "all latent widths, all mixtures of families and parameters", "why_tests_cant": "An integral over rows of unbounded width.", "anchors": ["spflow/zoo/apc/encoders/latent_stats.py:latent_stats_from_leaf_record"]}
{"id": "C295", "title": "APC deterministic decoding", "statement": "The latent value used for deterministic decoding is a most probable value of the latent's distribution (mean of a Normal, the likelier side of a coin, the mode of a Binomial, the likeliest class), as long as probabilities are resolvable by the clamps.", "quantifier": "all families, parameters, total counts, numbers of classes", "why_tests_cant": "All parameters and all competing values.", "anchors": ["spflow/zoo/apc/encoders/latent_stats.py:latent_stats_from_leaf_record"]}
{"id": "C296", "title": "APC KL is never negative", "statement": "The KL term of a sample is never negative, for any parameters (given as logits or as probabilities, valid or not), also where the clamps change them.", "quantifier": "all latent rows, families and parameters, clamps below one half", "why_tests_cant": "All real parameters.", "anchors": ["spflow/zoo/apc/encoders/latent_stats.py:latent_stats_from_leaf_record"]}
{"id": "C297", "title": "APC objective", "statement": "On a non-empty batch the loss components are the batch means of the samples' reconstruction error, KL divergence and negative log-likelihood, a component of weight zero being zero, and the total is their weighted sum; the loss is defined exactly if every sample's terms are.", "quantifier": "all batches, configurations, encoders and decoders", "why_tests_cant": "All batch sizes, configurations and networks.", "anchors": ["spflow/zoo/apc/model.py:AutoencodingPC.loss_components"]}
{"id": "C298", "title": "APC evaluation and batching", "statement": "Evaluating a data set in eval mode gives the same metrics however the data are cut into (non-empty) batches, in particular for every batch size, namely the loss components of the whole set.", "quantifier": "all data sets, cuts into batches and batch sizes; encoders without randomness", "why_tests_cant": "All cuts of all data sets.", "anchors": ["spflow/zoo/apc/train.py:evaluate_apc"]}
{"id": "C299", "title": "APC training history", "statement": "After a successful fit, row e of the history carries the epoch number, the means of the metrics of the batches trained on in that epoch, weighted by batch size and taken at the parameters each step started from, and the validation metrics of the parameters reached at the end of the epoch; the parameters are those after all the updates in order. Fitting succeeds if no batch raises and every epoch yields samples.", "quantifier": "all losses, updates, data, epoch counts", "why_tests_cant": "All histories of updates.", "anchors": ["spflow/zoo/apc/train.py:fit_apc", "spflow/zoo/apc/train.py:evaluate_apc", "spflow/zoo/apc/train.py:train_apc_step"]}
{"id": "C300", "title": "Iterables as APC training data", "statement": "Training and validation data may be any iterable of batches, as documented.", "quantifier": "all iterables of batches, epoch counts", "why_tests_cant": "A one-shot iterable is only exhausted in the second epoch.", "anchors": ["spflow/zoo/apc/train.py:fit_apc", "spflow/zoo/apc/train.py:evaluate_apc", "spflow/zoo/apc/train.py:train_apc_step"]}
{"id": "C301", "title": "APC evaluation leaves the model alone", "statement": "Evaluating changes neither the parameters nor, if no batch raises, the training mode.", "quantifier": "all models, data and losses", "why_tests_cant": "All data sets and modes.", "anchors": ["spflow/zoo/apc/train.py:evaluate_apc"]}
{"id": "C302", "title": "APC evaluation restores training mode", "statement": "After an evaluation the model is in the mode it was in before, also if a batch raised.", "quantifier": "all models and data", "why_tests_cant": "Error paths are not tested.", "anchors": ["spflow/zoo/apc/train.py:evaluate_apc"]}
{"id": "C303", "title": "The joint encoder's likelihoods", "statement": "An Einet joint encoder describes one normalised joint distribution of data and latent rows: joint_log_likelihood is its logarithm, log_likelihood_x is the logarithm of its sum (integral) over all latent rows, and the latter sums to one over all data rows.", "quantifier": "all widths, leaf modules with normalised leaves, depths, repetitions, layer types, parameters, random orders", "why_tests_cant": "Sums over all rows of unbounded width.", "anchors": ["spflow/zoo/apc/encoders/einet_joint_encoder.py:EinetJointEncoder", "spflow/zoo/apc/encoders/joint_pc_base.py:JointPcEncoderBase.joint_log_likelihood", "spflow/zoo/apc/encoders/joint_pc_base.py:JointPcEncoderBase.log_likelihood_x"]}
{"id": "C304", "title": "mpe never returns an impossible row", "statement": "For circuits over discrete (finite or countable) variables whose leaves report a mode of positive probability, mpe succeeds, and the completion it returns has positive probability; with evidence this holds when the evidence has positive probability at every Sum. (It need not be the most probable completion, C12.)", "quantifier": "all circuits, parameters, evidence rows, table widths", "why_tests_cant": "All circuits, parameters and evidence; a wrong routing of one argmax can leave the support.", "anchors": ["spflow/modules/module.py:Module.mpe", "spflow/modules/sums/sum.py:Sum._sample", "spflow/modules/leaves/leaf.py:LeafModule._sample", "spflow/utils/sampling_context.py:sample_from_logits"]}
{"id": "C305", "title": "A RatSPN can be marginalised", "statement": "(Refuted) RatSPN.marginalize of some but not all variables returns a module: it raises for every architecture, every parameter and every such request.", "quantifier": "all architectures, leaves, parameters and requests", "why_tests_cant": "It raises for every architecture; no test asks.", "anchors": ["spflow/zoo/rat/rat_spn.py:RatSPN.marginalize", "spflow/modules/sums/sum.py:Sum.marginalize", "spflow/modules/sums/repetition_mixing_layer.py:RepetitionMixingLayer", "spflow/modules/products/base_product.py:BaseProduct.marginalize"]}
{"id": "C306", "title": "Marginalising nothing keeps a RatSPN", "statement": "(Refuted) RatSPN.marginalize with no variable of the model returns an equivalent model: with one root node and at least two repetitions it raises.", "quantifier": "all RatSPNs with one root node and several repetitions, all such requests", "why_tests_cant": "All architectures and parameters.", "anchors": ["spflow/zoo/rat/rat_spn.py:RatSPN.marginalize", "spflow/modules/sums/sum.py:Sum.marginalize", "spflow/modules/sums/repetition_mixing_layer.py:RepetitionMixingLayer", "spflow/modules/products/base_product.py:BaseProduct.marginalize"]}
{"id": "C307", "title": "RatSPN.marginalize of all or none of the variables", "statement": "RatSPN.marginalize returns None when every variable is named. When none is, and there are several root nodes or one repetition, it returns a module of the same shape with the same log-likelihoods on every row the model evaluates.", "quantifier": "all RatSPNs, parameters, requests and data rows", "why_tests_cant": "All architectures, parameters and rows; the weights take a round trip through softmax and log.", "anchors": ["spflow/zoo/rat/rat_spn.py:RatSPN.marginalize", "spflow/modules/sums/sum.py:Sum.marginalize", "spflow/modules/sums/repetition_mixing_layer.py:RepetitionMixingLayer", "spflow/modules/products/base_product.py:BaseProduct.marginalize"]}
{"id": "C308", "title": "A log-normal leaf is a normalised density", "statement": "exp(log_prob) of a LogNormal leaf is the log-normal density of its loc and scale, zero outside the positive reals; it integrates to one over the reals, and a circuit over LogNormal leaves is a normalised joint density.", "quantifier": "all parameters, entries and values; all built circuits over such leaves", "why_tests_cant": "an improper integral over the reals and every parameter: a test samples finitely many points", "anchors": ["spflow/modules/leaves/log_normal.py:LogNormal", "spflow/modules/leaves/leaf.py:LeafModule.log_likelihood"]}
{"id": "C309", "title": "The log-normal mode is the density's unique maximiser", "statement": "The value MPE writes for a LogNormal leaf is positive, has the highest density of all reals, and no other value has it.", "quantifier": "all parameters and all values", "why_tests_cant": "no finite set of competitors settles a maximum over the reals", "anchors": ["spflow/modules/leaves/log_normal.py:LogNormal", "spflow/modules/leaves/leaf.py:LeafModule.log_likelihood", "spflow/modules/leaves/leaf.py:LeafModule.mode"]}
{"id": "C310", "title": "A log-normal leaf is a normal leaf of the logarithm", "statement": "The probability a LogNormal leaf gives to an interval of positive values is the one a Normal leaf with the same loc and scale gives to the interval of their logarithms.", "quantifier": "all parameters and all positive intervals", "why_tests_cant": "an identity of integrals over all parameters and intervals", "anchors": ["spflow/modules/leaves/log_normal.py:LogNormal", "spflow/modules/leaves/leaf.py:LeafModule.log_likelihood", "spflow/modules/leaves/normal.py:Normal"]}
{"id": "C311", "title": "Log-normal MLE maximises the likelihood", "statement": "Without bias correction, maximum_likelihood_estimation of a LogNormal leaf on positive data with positive weights, two values different, stores parameters whose weighted log-likelihood no other parameters exceed.", "quantifier": "all samples, weights and competing parameters", "why_tests_cant": "a maximum over all parameters for every data set", "anchors": ["spflow/modules/leaves/log_normal.py:LogNormal._compute_parameter_estimates", "spflow/modules/leaves/log_normal.py:LogNormal._set_mle_parameters", "spflow/utils/leaves.py:_handle_mle_edge_cases"]}
{"id": "C312", "title": "Log-normal log_likelihood on missing and invalid cells", "statement": "With validation, log_likelihood of a row raises when a cell of the scope is zero or negative; otherwise every entry is the density of its cell, and 0 (probability one) where the cell is missing.", "quantifier": "all leaves, parameters, rows and patterns of missing cells", "why_tests_cant": "every row and missing pattern, not the sampled ones", "anchors": ["spflow/modules/leaves/log_normal.py:LogNormal", "spflow/modules/leaves/leaf.py:LeafModule.log_likelihood"]}
{"id": "C313", "title": "A SplitByIndex can be marginalised", "statement": "(Refuted) marginalize of a SplitByIndex returns a module: it raises for every input, every partition and every request that names a variable of the input and leaves at least two features, because the class is rebuilt with an argument its constructor does not take.", "quantifier": "all inputs marginalize handles, partitions and sets of variables", "why_tests_cant": "the failure holds for every input and request, and the success that is claimed would have to", "anchors": ["spflow/modules/ops/split.py:Split.marginalize", "spflow/modules/ops/split_by_index.py:SplitByIndex.__init__"]}
{"id": "C314", "title": "Marginalising a consecutive or interleaved split deals out the marginal", "statement": "marginalize of a SplitConsecutive or SplitInterleaved never raises, returns None exactly when every variable is named, the surviving feature when pruning leaves one, and otherwise a split whose outputs are the surviving features' log-likelihoods with the named variables missing, in order, dealt the same way to the same number of splits.", "quantifier": "all inputs marginalize handles, sets of variables, pruning flags, numbers of splits and rows", "why_tests_cant": "every circuit, subset of variables and row", "anchors": ["spflow/modules/ops/split.py:Split.marginalize", "spflow/modules/ops/split_consecutive.py:SplitConsecutive.log_likelihood", "spflow/modules/ops/split_interleaved.py:SplitInterleaved.log_likelihood"]}
{"id": "C315", "title": "A marginalised consecutive split keeps its number of outputs", "statement": "(Refuted) After marginalize a SplitConsecutive returns as many outputs as before: one of 2n features into n splits returns 2n-1 outputs once one feature is gone, and with fewer features than splits its log_likelihood raises.", "quantifier": "all numbers of splits from two, all inputs with 2n features, all requests removing one", "why_tests_cant": "the count must be kept for every input and request", "anchors": ["spflow/modules/ops/split.py:Split.marginalize", "spflow/modules/ops/split_consecutive.py:SplitConsecutive.log_likelihood"]}
{"id": "C316", "title": "Bias-corrected log-normal MLE is unbiased for one entry", "statement": "With bias correction, maximum_likelihood_estimation of a LogNormal leaf of one entry on unweighted positive data, two values different, stores the mean of the logarithms and a scale whose square is their unbiased variance.", "quantifier": "all positive samples", "why_tests_cant": "every sample, of every size", "anchors": ["spflow/modules/leaves/log_normal.py:LogNormal._compute_parameter_estimates"]}
{"id": "C317", "title": "Interval likelihood of a log-normal leaf with a lower bound", "statement": "When the lower bound is a non-negative number and the upper bound one or absent, log_likelihood of interval evidence on a LogNormal leaf is the logarithm of the probability of the interval (of 1e-40 when that is larger).", "quantifier": "all parameters and all such intervals, finite or unbounded above", "why_tests_cant": "an integral over every interval for every parameter", "anchors": ["spflow/modules/leaves/leaf.py:LeafModule._log_likelihood_interval", "spflow/modules/leaves/log_normal.py:LogNormal"]}
{"id": "C318", "title": "Interval evidence on a log-normal leaf may leave the lower side open", "statement": "(Refuted) A missing bound means the side is unbounded on a LogNormal leaf: without a lower bound, or with a negative one, the call raises for all parameters.", "quantifier": "all parameters and upper bounds", "why_tests_cant": "the failure holds for all parameters and bounds, and the success that is claimed would have to", "anchors": ["spflow/modules/leaves/leaf.py:LeafModule._log_likelihood_interval", "spflow/modules/leaves/log_normal.py:LogNormal"]}
{"id": "C319", "title": "maximum_likelihood_estimation of a log-normal leaf attains the maximum", "statement": "Without bias correction, when the complete rows carry at least two distinct positive values at an entry, no parameters of the log-normal density give those rows a larger weighted log-likelihood than the ones stored by maximum_likelihood_estimation, whatever the nan strategy.", "quantifier": "all leaf shapes, entries, data, missing values, non-negative weights, nan strategies", "why_tests_cant": "a maximum over all parameters, for every data set", "anchors": ["spflow/modules/leaves/leaf.py:LeafModule.maximum_likelihood_estimation", "spflow/modules/leaves/log_normal.py:LogNormal._compute_parameter_estimates"]}
{"id": "C320", "title": "Bias correction stores the unbiased variance of the logarithms", "statement": "(Refuted) With bias_correction and unit weights, the squared scale stored for a feature of a LogNormal leaf is the unbiased variance of the logarithms of its values, whatever the number of features: with two features the values 1 and e^2 of each store an infinite scale.", "quantifier": "all leaf shapes and data sets with at least two distinct positive values", "why_tests_cant": "a claim for all shapes; tests on one feature miss it", "anchors": ["spflow/modules/leaves/leaf.py:LeafModule.maximum_likelihood_estimation", "spflow/modules/leaves/log_normal.py:LogNormal._compute_parameter_estimates"]}
