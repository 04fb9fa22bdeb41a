# Formal model of jpt-dev in Coq 8.16.1: design

The development models the source in `/repo/src/jpt` function by function and proves (or refutes) the 89 properties of
`properties.jsonl`. There are 445 property theorems. Names start with the property id. The suffix `_partial` marks a theorem
with a guard that the English property does not have. The suffix `_refuted` marks a proof that the unguarded claim is false of the
code, with a witness or for all inputs.

## 1. Numbers

The code works with IEEE-754 doubles. The model uses a different representation in each layer, chosen after what decides the semantics there.

* **Interval layer** (`base/intervals.pyx`): the *spacing* of doubles is the semantics (`x + eps` is the next representable number).
  A double is its *ordinal*: an integer `k` in `[-ORD_INF, ORD_INF]`, `0` for zero (both zeros are identified), `k+1` the next larger
  double, `+-ORD_INF` the infinities (`ORD_INF = 0x7FF0000000000000`). `nextafter` is `+-1`. `x + eps = nextafter(x, x+1)` does **not**
  move when the float addition `x + 1` is absorbed; this is decided bit-exactly (`adds_one`, `subs_one`). NaN is excluded.
* **Functions, distributions, trees, impurity, Gaussian, search**: exact rationals `Q` compared with `==`, with explicit infinities
  where the code stores them. Rounding is *not* modelled. This is the main simplification; each file says so. Where rounding or absorption
  of a bound matters (piecewise functions, numeric distributions) pieces carry ordinal bounds and `FloatVal.v` gives their rational values.
* **Search costs**: `-log w` is represented by `w`; sums of costs become products, order is reversed.
* **Scalers**: the reals of the standard library (square roots are needed).
* **Sorting of sample indices**: integer keys in the order of the values.

Exceptions are values (`Err e`). Mutation is state passing, with aliasing modelled where a method changes its receiver or argument. Loops are
structural recursion or explicit fuel; the theorems show the fuel is sufficient. Random sources, split oracles, `heapq`, belief propagation,
the leaf number returned by `encode` are universally quantified arguments, with a contract where one is needed and an instance that meets it.

## 2. Modelled code

| source | Coq model | modelled | not modelled |
|---|---|---|---|
| `base/intervals.pyx` | `FloatLine`, `IntervalModel`, `IntervalJson` | both classes: construction, emptiness, membership, (dis)jointness, containment, intersection, union, difference, complement, simplify, contiguous, ends, bounds, size, equality, hash, ordering, mirror, chop, transform, sampling, linspace, JSON | parsing and printing, pickling, `__round__`, `any_point`, NaN |
| `base/functions.pyx` | `FunctionModel` (+ proofs) | Undefined/Constant/Linear/Quadratic arithmetic, evaluation, shift, mirror, inversion, intersections, integrals, fitting; piecewise evaluation, `+`, `*`, `simplify`, `overwrite`, `split`, `xshift`, `xmirror`, `integrate`, `differentiate`, `invert`, `crop`, `rectify`, `from_points`, `eq`, maxima | Hinge/Jump/Impulse/Gaussian functions, `approximate`, `convolution`, `combine`/`min`/`max`/`abs`, `lt`/`gt`, `round`, string forms |
| `base/cutils`, `base/utils.py`, `base/sampling.py` | `SortModel`, `UtilModel` | introsort, heapsort, bisect, sums, means; `normalized`, `Heap`, `list2intset`, `Conditional`-free helpers, roulette wheel | plotting helpers, CSV/ARFF conversion, `entropy`, `gini` helpers |
| `distributions/univariate/multinomial.py`, `integer.py` | `DiscreteModel` | fit, set, p/_p, crop, merge, update, mpe, k_mpe, expectation, variance, moments, cdf, addition, KL, Jaccard, JSON, equality, samples | plotting, Bool printing, hashing |
| `distributions/quantile/*.pyx` | `NumericModel` | regression of the cdf, fit, crop, merge, cdf/ppf/pdf construction, `pdf_to_cdf` (`GapModel`), JSON (`MixedJson`) | `from_pdf` |
| `distributions/univariate/numeric.py` | `NumericModel`, `GapModel`, `VarModel`, `JaccardModel`, `KlModel` | `_p`, fit, merge, update, crop of sets, point distributions, `insert_convex_fragments`, `jaccard_similarity`, `kl_divergence` | `__add__`, `approximate`, plotting |
| `distributions/utils.py` | `ScalerModel` | `DataScaler`, proxy, special values | `OrderedDictProxy` |
| `distributions/univariate/gaussian.py` | `GaussModel` | update, retract, merge, mean/variance, regression | pdf/cdf/sample (SciPy), plotting |
| `variables.py` | `VarModel` | variables and their JSON, `VariableMap`, label and value assignments | `infer_from_dataframe`, pretty printing |
| `learning/impurity.pyx` | `ImpurityModel` | all of the split search | debugging output |
| `trees.py` | `TreeModel`, `LearnModel`, `TreeJson`, `TreeJsonDiscrete`, `MixedJson`; instances `TreeDiscrete`, `NumericTree`, `MixedTree`, `MixedPosterior`, `MixedCond`, `MixedMoment`, `LearnMixed`, `GapTree`; effects of queries `TreeEffect`; queries written with labels `BindModel`, `ReverseModel`; sampling `SampleModel`; consistency with evidence `ConsistModel` | `learn`/`c45`/node creation, `postprocess_leaves`, paths, `apply`, `encode`, `pdf`, `likelihood`, `infer`, `posterior`, `expectation`, `mpe`, `conditional_jpt`, `prune`, `normalize`, `multiply_by_leaf_prior`, moments, similarity, JSON, `copy`, `__eq__`, `bind`, `_preprocess_query`, `reverse`, `sample`, `consistent_with` | blurring of numbers in `_preprocess_query`, plotting, preprocessing of data frames, multi-core plumbing |
| `inference/mpe.py` | `MpeModel` | search state, constraints, solver, leaf-wise search, k-MPE of a tree | |
| `sequential_trees.py` | `SeqModel` | transition model, grounding, independent marginals | window expansion of data, `ground_fglib`; `mpe` and `probability` raise NotImplementedError |
| `distributions/multivariate.py`, `mlflow_wrapper.py` | none | | SciPy integrals, mlflow |

Every definition carries a comment with the file and lines it models and says where it simplifies.

## 3. Properties

| id | property | model and proof | status | what is proved, what is missing or refuted |
|---|---|---|---|---|
| C01 | Interval membership means what the bracket notation says | `ContinuousSet` operations branch by branch on ordinals; case analysis over flags and positions, `lia`; witnesses by `vm_compute` | proved | Membership of every double in every interval and real set. |
| C02 | isempty() is true exactly for intervals without members | `ContinuousSet` operations branch by branch on ordinals; case analysis over flags and positions, `lia`; witnesses by `vm_compute` | partial | Exact for bounds below 2^53 in magnitude; emptiness is sound for all bounds. False beyond 2^54 (refuted). |
| C03 | Interval intersection is exact | `ContinuousSet` operations branch by branch on ordinals; case analysis over flags and positions, `lia`; witnesses by `vm_compute` | proved | Exact for every pair of constructible intervals. |
| C04 | Interval difference is exact | `ContinuousSet` operations branch by branch on ordinals; case analysis over flags and positions, `lia`; witnesses by `vm_compute` | partial | Exact when no two bounds are adjacent doubles and bounds are moderate; the situation in which ValueError is raised is characterised exactly; the unguarded claim is refuted. |
| C05 | Interval union is exact | `ContinuousSet` operations branch by branch on ordinals; case analysis over flags and positions, `lia`; witnesses by `vm_compute` | partial | Exact for moderate bounds; refuted beyond 2^53 (ValueError). |
| C06 | Complement is exact and involutive on members | `ContinuousSet` operations branch by branch on ordinals; case analysis over flags and positions, `lia`; witnesses by `vm_compute` | proved | Exact for every constructible interval (a point at infinity excepted); for real sets see C11_complement_partial. |
| C07 | intersects/isdisjoint decide existence of a common member, symmetrically | `ContinuousSet` operations branch by branch on ordinals; case analysis over flags and positions, `lia`; witnesses by `vm_compute` | partial | Complete for all bounds; sound for non-empty receiver without adjacent bounds; otherwise refuted. |
| C08 | contains_interval decides the subset relation | `ContinuousSet` operations branch by branch on ordinals; case analysis over flags and positions, `lia`; witnesses by `vm_compute` | partial | Exact for moderate bounds and non-empty argument; refuted otherwise. |
| C09 | Equality of intervals is equality of member sets, and equal intervals hash equally | `ContinuousSet` operations branch by branch on ordinals; case analysis over flags and positions, `lia`; witnesses by `vm_compute` | partial | Equality exact for moderate bounds; hash consistency is refuted. |
| C10 | RealSet.simplify preserves the set and yields ascending, non-contiguous, non-empty pieces | `RealSet.simplify` loop; induction over the pieces with a disjointness and order invariant | partial | Exact and canonical for ascending or left-closed inputs without adjacent bounds; element loss is refuted with a witness elsewhere. |
| C11 | RealSet union, intersection and difference are exact | `RealSet.simplify` loop; induction over the pieces with a disjointness and order invariant | partial | Same guards as C10; element loss in union refuted with a witness. |
| C12 | chop() partitions an interval | `ContinuousSet` operations branch by branch on ordinals; case analysis over flags and positions, `lia`; witnesses by `vm_compute` | partial | All intervals with moderate bounds, all finite points except -FLT_MAX, for which an empty piece is produced (refuted). |
| C13 | Mirroring negates members | `ContinuousSet` operations branch by branch on ordinals; case analysis over flags and positions, `lia`; witnesses by `vm_compute` | proved | All intervals and real sets. |
| C14 | Interval comparison is sound | `ContinuousSet` operations branch by branch on ordinals; case analysis over flags and positions, `lia`; witnesses by `vm_compute` | partial | Moderate bounds; refuted beyond 2^54. |
| C15 | Serialisation of intervals and real sets is lossless | encoders into a small JSON datatype; round trip by induction | partial | Intervals round-trip; the RealSet round trip always fails (refuted for every real set). |
| C16 | Elementary function arithmetic is pointwise | constant/linear/quadratic functions over `Q`; `ring`/`field` | partial | Pointwise whenever the operation succeeds, total for constant/linear operands, commutative where both orders succeed. Refuted in general: whether an operation raises depends on operand order (Quadratic+Linear vs Linear+Quadratic, Undefined+Linear vs Linear+Undefined), += can raise where + does not. Exact rational coefficients (no rounding). |
| C17 | Linear interpolation, root and inversion are exact | constant/linear/quadratic functions over `Q`; `ring`/`field` | proved | Exact rational coefficients (no rounding). A finding on intersects() of identical lines is recorded as C17_intersects_refuted. |
| C18 | Piecewise addition and multiplication are pointwise | piecewise functions as lists of (interval, function); induction over pieces | partial | Adding/multiplying/stretching a piecewise function by a constant or linear function is proved pointwise and total; the sum of two piecewise functions raises TypeError in the cases of C18_gap_refuted and C18_undefined_refuted. |
| C19 | Shift and mirror of piecewise functions | piecewise functions as lists of (interval, function); induction over pieces | partial | Values of mirrored and shifted functions proved at every double (shift: when the subtraction of the bounds is exact); integral preserved by shifting; integral preservation by mirroring is false (C19_xmirror_integral_refuted). |
| C20 | The piecewise integral is additive and inverts differentiation | piecewise functions as lists of (interval, function); induction over pieces | proved | For half-open constant/linear pieces, exact rational arithmetic. |
| C21 | Fitted cumulative distributions are proper CDFs | sample sorting and counting, work list of the cdf regressor; induction over samples and work list | proved | Exact arithmetic for cdf values; every non-empty sample of finite doubles, every tolerance, with and without additional end points. |
| C22 | The CDF regressor returns a strictly increasing selection of sample indices including both ends | sample sorting and counting, work list of the cdf regressor; induction over samples and work list | proved | Exact arithmetic; also the optimality of each split. |
| C23 | Probability of an interval is the CDF difference, and probability is additive and monotone | piecewise linear cdfs with ordinal bounds: `_p`, `crop`, merge sweep, `ppf`; induction over pieces | partial | Difference formula and additivity for cdfs without a jump, i.e. fitted to samples whose minimum occurs once; range, total mass and monotonicity for all fitted non-point distributions; point distributions below 2^53. With a repeated minimum the difference formula still holds for every interval that does not end at the minimum (C23_repeated_minimum). Additivity is refuted for samples with a repeated minimum. |
| C24 | Cropping a numeric distribution conditions it | piecewise linear cdfs with ordinal bounds: `_p`, `crop`, merge sweep, `ppf`; induction over pieces | partial | crop of an interval proved for cdfs that are continuous inside the interval, when each cut piece keeps at least two doubles and the interval has positive probability between its first and last double; fitted distributions meet this inside the range of the samples (C24_fitted). Refuted in general: intervals of probability 0 touching the support are not refused, jumps inside the interval are scaled wrongly, restrictions beyond the largest sample give cdf values above 1, points are never refused, unions get equal weights. Cropping to a point changes the receiver itself (C24_receiver_changed_refuted), so that the restriction to two points keeps only the second (C24_points_refuted). A distribution in one point keeps its point if the interval begins below it (C24_point); at the closed lower bound it is moved to the upper bound, or refused with AssertionError for a ray (C24_point_moved_refuted). |
| C25 | Merging numeric distributions yields the weighted mixture | piecewise linear cdfs with ordinal bounds: `_p`, `crop`, merge sweep, `ppf`; induction over pieces | partial | Proved for any number of continuous cdfs and point distributions with weights that sum to 1, when no density of the mixture is in (0, 1e-8]: merged(x) = sum w_i F_i(x) for every x and the result is proper; closed under merging; the density of the result is the mixture of the densities; the exact loss for cdfs with jumps and the place where the merged cdf reaches 1. Refuted in general: jumps of non-point cdfs (repeated smallest sample) are dropped, densities of 1e-8 or less are dropped. |
| C26 | ppf is the inverse of the cdf | inverse pieces over `Q`; induction over the pieces with the invariant that the remaining pieces climb from the current height to 1 | partial | Proved for every cdf of any number of pieces that rises continuously to 1 with slopes of at least 1e-4 (the code's threshold for an invertible function): cdf(ppf(y)) = y for 0 <= y <= 1, ppf(cdf(x)) = x on rising stretches, undefined outside [0,1]. C26_fitted: distributions fitted to samples with a unique minimum meet the continuity hypothesis. The full claim is refuted for flatter slopes (no quantile function, or a wrong one) and for a jump at the minimum (quantiles below the support); a point distribution has no quantile below 1. Probabilities are rationals in the model, not doubles. |
| C27 | Categorical probabilities form a probability measure | parameter vectors over `Q`; induction over vectors | proved | Fitting on labelled data gives relative frequencies and a probability measure; p() of label collections (with duplicates) is exact for symbolic and integer types; unknown labels raise. |
| C28 | Cropping a categorical distribution conditions it | parameter vectors over `Q`; induction over vectors | partial | Proved for integer types and for collections of labels of symbolic types, including that no other object changes. False for a bare label of probability zero of a symbolic type (C28_single_label_refuted). |
| C29 | Merging categorical distributions yields the weighted mixture | parameter vectors over `Q`; induction over vectors | proved | merge and update; the sum of the result is the sum of the weights, which is within 1e-10 of 1. Surplus weights and self-update are refuted corner cases. |
| C30 | k-MPE of a categorical distribution enumerates the likelihood levels in descending order | parameter vectors over `Q`; induction over vectors | partial | Everything but coverage of zero-probability states, which is refuted. |
| C31 | Label and value spaces of categorical domains are in bijection | parameter vectors over `Q`; induction over vectors | proved | Single labels and collections, symbolic and integer types. |
| C32 | Adding independent integer variables convolves their distributions | parameter vectors over `Q`; induction over vectors | proved | Convolution, normalisation and additivity of the expectation for all ranges. |
| C33 | Scaling of numeric data is invertible | scaler over the reals; field arithmetic | proved | Over the real numbers of the standard library (its three axioms); an empty data column is refuted (all results undefined), hence the quantifier. |
| C34 | Incremental Gaussian statistics equal the batch statistics | incremental mean/covariance over `Q`; induction over the update history, refinement to batch statistics | partial | Mean and covariance after any history of weighted updates equal the batch values (exact rationals); retract undoes update for all but the last remaining sample, where it raises or leaves an unusable state (refuted); precision and re-estimation are refuted. |
| C35 | Learning partitions the training data | work-queue machine of `c45` over split oracles, node tables; invariants over the queue | partial | Proved for every family of leaf distributions, all data, all settings: termination, tree shape, exactly one leaf per row, counts, priors, fitted rows. Missing: numeric columns whose computed midpoint coincides with the smaller value (adjacent doubles), where the claim is false (C35_adjacent_refuted). C35_learn_mixed_partial: for tables with numeric, symbolic and integer columns learning returns a tree whose leaves are fitted to their rows and to which the theorems on trees with numeric variables apply (without close_convex_gaps). |
| C36 | Hyper-parameters are honoured | work-queue machine of `c45` over split oracles, node tables; invariants over the queue | partial | max_depth >= 1, min_samples_leaf, min_impurity_improvement and greedy optimality proved under the hypotheses of C54. False without them: max_depth=0 means unlimited, min_samples_leaf violated for symbolic features without symbolic targets (refutations). max_leaves is never read by the code. |
| C37 | The leaves of a learnt tree partition the space of worlds | work-queue machine of `c45` over split oracles, node tables; invariants over the queue | partial | Proved for every tree whose splits partition the domain and for every tree learnt from symbolic and integer columns (C37_learnt_discrete). False for numeric splits at the boundary: C37_boundary_refuted. C37_learnt_mixed_partial: for trees learnt from tables with numeric columns, every world whose numeric values are off the split points. |
| C38 | apply() finds every leaf compatible with a query exactly once | work-queue machine of `c45` over split oracles, node tables; invariants over the queue | proved | For every tree shape and every family of value sets; read in terms of values for symbolic and integer variables; unknown variables raise. |
| C39 | infer() is a conditional probability | inference functions on node tables with abstract leaf distributions and their instances for discrete, numeric and mixed variables; refinement to sums over worlds; unions of intervals by reduction of each cdf to finitely many weighted points | partial | For symbolic and integer variables and every query/evidence over distinct variables: conditional probability over worlds, in [0,1], unsatisfiable exactly if P(e)=0. For shared variables the claim is false (C39_infer_same_refuted); what is computed instead is C39_infer_shared. C39_infer_any covers every leaf distribution family with the stated contract. C39_infer_mixed_partial and C39_infer_fitted_partial prove it for trees over numeric, symbolic and integer variables together; the numeric events are intervals whose bounds (with those of the splits) are not neighbouring doubles and at which no cdf jumps. C39_infer_union_partial: the same for unions of such intervals (in ascending order) as query or evidence; C39_infer_split: splitting an interval into a union does not change the answer. C39_learnt_mixed_partial: the same for every tree learnt from a table with numeric columns. |
| C40 | posterior() agrees with infer() | inference functions on node tables with abstract leaf distributions and their instances for discrete, numeric and mixed variables; refinement to sums over worlds; unions of intervals by reduction of each cdf to finitely many weighted points | partial | Proved for all variables without evidence and for evidence variables on the paths of the contributing leaves; otherwise false (C40_posterior_refuted). Numeric variables in mixed trees: posterior cdf = weighted average of the leaf cdfs and = infer of (-inf, x] when the leaf cdfs are continuous, also with interval evidence on the asked variable if it is on the path; for leaf cdfs with jumps the exact loss; on a fitted tree the posterior contradicts infer (C40_posterior_fitted_refuted). |
| C41 | conditional_jpt() represents the conditional distribution | inference functions on node tables with abstract leaf distributions and their instances for discrete, numeric and mixed variables; refinement to sums over worlds; unions of intervals by reduction of each cdf to finitely many weighted points | partial | Proved for trees whose decision nodes have two children (all learnt trees), all queries and evidence including shared variables. False for trees with one-child nodes, i.e. for conditioning twice (C41_twice_refuted). Trees with numeric variables (C41_conditional_mixed_partial): leaves, measure, inference and variable distributions for evidence in intervals which every possible leaf distribution can be restricted to exactly (continuous cdf or point above the lower bound), densities 0 or above 1e-8. |
| C42 | expectation()/moment() are linear in the leaves | inference functions on node tables with abstract leaf distributions and their instances for discrete, numeric and mixed variables; refinement to sums over worlds; unions of intervals by reduction of each cdf to finitely many weighted points | partial | Symbolic and integer variables, under the side condition of C40 for evidence variables (C42_expectation_partial, C42_moment_partial); numeric variables without evidence whose leaf distributions are continuous with piece ends that are no neighbouring doubles (C42_mixed_partial). A leaf in which the variable always has the same value adds 0 instead of the value: C42_points_refuted. |
| C43 | mpe() returns the most likely explanation | inference functions on node tables with abstract leaf distributions and their instances for discrete, numeric and mixed variables; refinement to sums over worlds; unions of intervals by reduction of each cdf to finitely many weighted points | partial | Trees whose decision nodes have two children: symbolic and integer variables (C43_mpe_partial); numeric variables whose leaf distributions are continuous with piece ends that are no neighbouring doubles, or points (C43_mixed_partial), except for the largest number of an interval in the evidence. |
| C44 | kmpe() enumerates explanations in non-increasing likelihood, completely and without repetition | branch and bound as a step machine; invariant: solutions, pruned and open states cover all combinations | partial | Branch-and-bound proved to terminate and to enumerate every combination once, in order, when at most the variable examined last is symbolic and its states are single values; over several leaves completeness is proved. Refuted: two symbolic variables (never terminates), states with several values (order), symbolic before numeric (repetitions), several leaves (order). Costs are exact. |
| C45 | prune() preserves probability mass and marginals | inference functions on node tables with abstract leaf distributions and their instances for discrete, numeric and mixed variables; refinement to sums over worlds; unions of intervals by reduction of each cdf to finitely many weighted points | partial | Symbolic and integer variables, without the approximate option: termination, total prior, sample counts, all single-variable marginals, and no mergeable siblings remain. Requires two children per decision node (one-child nodes raise: C45_one_child_refuted). |
| C46 | JPT serialisation round-trips | encoders of trees into a JSON datatype; round trip by induction over the node list with the invariant that the part read so far is the original restricted to the nodes seen; order of nodes as an invariant of learning | partial | Reading what was written gives back all nodes, paths, priors, distributions, hyperparameters, dependencies and minimal distances for every writable tree (C46_json_partial); a copy also has the same variables (C46_copy). Which trees equal their image is characterised exactly (C46_equal, C46_copy_equal, C46_known, C46_default_dependencies). Learnt, conditioned and pruned trees are listed in the order reading needs (C46_learnt, C46_conditioned, C46_pruned), and trees over symbolic and integer variables are writable (C46_discrete, C46_discrete_equal). Missing because false: settings are lost (C46_settings_refuted) and trees with targets differ from their image and copy (C46_targets_refuted). Trees over numeric, symbolic and integer variables are writable (C46_mixed), every tree learnt from such a table is read back and copied with the same nodes and distributions (C46_mixed_learnt), and equality is characterised exactly (C46_mixed_equal); a numeric variable whose domain is a subclass of Numeric changes (C46_subclass_refuted). |
| C47 | VariableMap behaves like a finite map keyed by variable name | maps refined to their history of operations; round trips of encoders | proved | every history of set, delete, update, += and -= on a fresh map: look-ups, membership, iteration order and exactly when operations raise; copies and JSON as well. Refuted: deleting makes a declared name unknown, JSON loses declared variables without a value, deep copies lose other kinds of values. |
| C48 | normalized() keeps proportions and sums to one | list functions over `Q` and `Z`; induction | partial | Lists and float arrays: proved for all inputs (signs, zero replacement, exact raising conditions). For numpy integer arrays the claim is false (C48_int_array_refuted). |
| C49 | The index sort used in learning sorts and keeps values and indices paired | arrays, heap with abstract `heapq`, roulette wheel; array invariants, permutation, refinement to a FIFO priority queue | proved | introsort/heapsort for every depth bound, array and n. |
| C50 | bisect() returns a valid insertion point | arrays, heap with abstract `heapq`, roulette wheel; array invariants, permutation, refinement to a FIFO priority queue | proved | All non-empty arrays; the empty array is out of contract (C50_bisect_empty_refuted). |
| C51 | Heap pops in key order, first-in-first-out on ties | arrays, heap with abstract `heapq`, roulette wheel; array invariants, permutation, refinement to a FIFO priority queue | proved | Every history of pushes and pops, for any heapq meeting its documentation (instance given). __delitem__ breaks the order (C51_delitem_refuted). |
| C52 | Roulette-wheel sampling selects proportionally to weight | arrays, heap with abstract `heapq`, roulette wheel; array invariants, permutation, refinement to a FIFO priority queue | partial | All 0 < x <= total; at x = 0 an element of weight zero is selected (refuted). |
| C53 | Split search statistics are exact | impurity statistics and split loop; prefix-sum invariants, law of total variance | partial | Totals, running left/right sums and histograms, population variance and Gini value proved for all data; Gini range proved when symbols are below the listed domain size, which holds when every symbolic variable is a target (C53_symbol_counts) and is refuted otherwise (C53_gini_range_refuted). Exact rationals instead of doubles. |
| C54 | The reported split is the best legal split | impurity statistics and split loop; prefix-sum invariants, law of total variance | partial | Optimality, legality and exactness of the reported split proved for all data and blocks under full (default) dependencies and a symbolic target whenever there is a symbolic feature; refuted without the latter (C54_sample_count_refuted) and for sparse dependencies. Improvement >= 0, and <= 1 with at most one varying numeric target; refuted in general (3/2 reached; negative with inverted impurity). |
| C55 | likelihood() of a world is the prior-weighted product of leaf densities and agrees with pdf() | inference functions on node tables with abstract leaf distributions and their instances for discrete, numeric and mixed variables; refinement to sums over worlds; unions of intervals by reduction of each cdf to finitely many weighted points | partial | likelihood() proved, also for trees with numeric variables (slope of the cdf, 1 at the point of a point distribution); pdf() agrees if labels equal values, otherwise it raises or differs (C55_pdf_refuted). |
| C56 | Jaccard similarity is a similarity measure | similarity sums over `Q`; algebra. Numeric: the loop over the slices between piece ends equals the sum over all doubles of min and max of the densities; induction over the sorted ends | partial | Categorical, integer and numeric distributions. Integer: compared position by position, right only for the same range (C56_integer_ranges_refuted). Numeric: distributions with densities, piece ends below 2^53, and the computed centre of every slice inside the slice; for two single values whose doubles have odd mantissas the result is NaN instead of 0 (C56_points_refuted). C56_learnt_partial applies it to learnt distributions. |
| C57 | Sequence marginals are aligned with their time steps | counting of consecutive pairs; names of steps as decimal strings, sorting; belief propagation as oracle | partial | Transition model proved for all data. Alignment proved up to ten steps with ascending leaf numbers (C57_alignment_partial); from eleven steps on it is false for every input (C57_alignment_refuted). Also refuted: leaf priors are counted twice, impossible leaves keep weight, marginals are paired with sorted instead of inserted leaf numbers, refitting keeps stale leaves. Belief propagation itself is an oracle. |
| C58 | Samples lie in the support | sampling with every outcome of the random source; case analysis; telescoping sum of piece probabilities | partial | Intervals, real sets and categorical distributions (for u > 0; u = 0 refuted). Numeric distributions: for continuous cdfs whose last piece exceeds 1 by at most 2^-26 the pieces are chosen with exactly their probabilities and every sample has positive density (C58_numeric_partial); single values (C58_numeric_point). Refuted: sampling raises ValueError if the least sample occurs twice (C58_numeric_jump_refuted) or samples are very close (C58_numeric_close_refuted). |
| C59 | Type equivalence of categorical domains means equal domains | parameter vectors over `Q`; induction over vectors | partial | Same-size domains; refuted for domains of different size (prefix comparison). |
| C60 | Moments of integer distributions are consistent | parameter vectors over `Q`; induction over vectors | proved | All integer distributions, exact arithmetic. |
| C61 | The divergence of categorical distributions is a divergence | parameter vectors over `Q`; induction over vectors | proved | All probability vectors, exact arithmetic. |
| C62 | linspace() returns equally spaced samples including both ends | list functions over `Q` and `Z`; induction | partial | All n except n = 1, where the claim is refuted. |
| C63 | list2intset() is the set of integers between its bounds | list functions over `Q` and `Z`; induction | proved |  |
| C64 | Cropping and splitting keep the values | piecewise functions as lists of (interval, function); induction over pieces | proved |  |
| C65 | from_points() interpolates linearly | piecewise functions as lists of (interval, function); induction over pieces | proved | Abscissae below 2^53 in magnitude (beyond, the closing of the last piece has no effect). |
| C66 | simplify() does not change the function | piecewise functions as lists of (interval, function); induction over pieces | partial | Result equal and minimal, for ascending non-empty pieces; "f is left unchanged" is false (C66_receiver_refuted). |
| C67 | Equal piecewise functions have equal values | piecewise functions as lists of (interval, function); induction over pieces | partial | Holds for equal numbers of pieces; false otherwise (C67_eq_refuted): only the common prefix is compared. |
| C68 | Re-weighting the leaves keeps the shape and gives a distribution | inference functions on node tables with abstract leaf distributions and their instances for discrete, numeric and mixed variables; refinement to sums over worlds; unions of intervals by reduction of each cdf to finitely many weighted points | proved | normalize() and multiply_by_leaf_prior() on trees over symbolic and integer variables. |
| C69 | A learnt tree reproduces the marginals of its training data | inference functions on node tables with abstract leaf distributions and their instances for discrete, numeric and mixed variables; refinement to sums over worlds; unions of intervals by reduction of each cdf to finitely many weighted points | proved | Symbolic and integer columns, exact arithmetic. For tables that also have numeric columns C69_mixed_marginals_partial: marginals of symbolic and integer variables are relative frequencies, those of numeric variables the mixture of the fitted leaf cdfs weighted by row shares. |
| C70 | The fitted cdf stays within the precision | sample sorting and counting, work list of the cdf regressor; induction over samples and work list | partial | Refuted: a stretch that no single split improves is kept. |
| C71 | Rectifying keeps the intervals and averages each piece | sample sorting and counting, work list of the cdf regressor; induction over samples and work list | proved |  |
| C72 | Updating a numeric distribution moves it towards the other one | piecewise linear cdfs with ordinal bounds: `_p`, `crop`, merge sweep, `ppf`; induction over pieces | partial | The code merges with weights 1/(1+w) and w/(1+w) (proved); with 1-w and w it is refuted. |
| C73 | A variable survives the JSON round trip | maps refined to their history of operations; round trips of encoders | partial | kind, name and domain survive; settings are always reset to the defaults, so equality holds exactly for default settings (refuted otherwise). |
| C74 | Assignments hold admissible values only | maps refined to their history of operations; round trips of encoders | partial | proved when entries are set by variable and variables have distinct names; refuted: setting by name is unchecked, value assignments do not check sets, a second variable of the same name. |
| C75 | Shifting, scaling and adding Gaussians describes the transformed samples | incremental mean/covariance over `Q`; induction over the update history, refinement to batch statistics | partial | Exact for the reported mean and covariance; the result forgets its weights so that later updates are wrong (refuted). |
| C76 | Linear regression of a Gaussian is the least-squares line of its samples | incremental mean/covariance over `Q`; induction over the update history, refinement to batch statistics | partial | Minimality proved for variances not below the code's threshold; below 1e-8 a perfect fit is reported (refuted). |
| C77 | Distributions survive JSON, pickling and deep copies | encoders into a JSON datatype; induction over labels and parameters | partial | Types and the parameters of symbolic and integer distributions survive their own JSON (C77_type, C77_json_partial), and so do numeric distributions with constant and linear pieces, which all distributions the library makes have (C77_numeric_json_partial, C77_numeric_made). Numeric types survive exactly if they are Numeric or have a scaler (C77_numeric_type_partial, C77_subclass_refuted). Pickling or deep copying any distribution fails (C77_pickle_refuted, C77_numeric_pickle_refuted). |
| C78 | Queries do not change the model | state of the tree after each call beside its answer, sequences of calls; induction over the sequence | partial | Proved for all sequences of queries on symbolic/integer trees (C78_discrete) and on trees with numeric variables as long as no evidence for a variable that is asked for meets the path of a leaf in a single double (C78_sequences_partial, C78_other_variables). Refuted in general: posterior with point evidence replaces the distribution in the leaf by a Dirac impulse (C78_point_spoils, C78_queries_change_the_model_refuted). mpe, k_mpe and sampling are not among the calls. |
| C79 | Expectation, variance and moments of a numeric distribution are the integrals of its cdf | Riemann-Stieltjes sums as specification; antiderivatives of powers between the sums, induction over partitions and pieces | partial | Proved for every cdf (any number of pieces) that rises continuously to 1 and has no rising piece of a single double: each moment is the Riemann-Stieltjes integral (between all lower and upper sums), exactly for continuous cdfs (C79_continuous), otherwise up to the mass the last piece puts beyond the largest sample (C79_moment_partial); the sums determine the integral (C79_integral_unique); the mean lies in the support (C79_mean_between), the variance is not negative (C79_variance). C79_fitted: fitted distributions meet the hypotheses if the least sample occurs once and no two samples are neighbouring doubles. Refuted otherwise: a jump at the minimum loses mass, so that the expectation of 1, 1, 2 is below 1 (C79_jump_refuted), neighbouring doubles lose mass (C79_neighbours_refuted), moments of a single value around another value are wrong (C79_point_center_refuted). Arithmetic over the rationals. |
| C80 | The most probable states of a numeric distribution are exactly the values of highest density | level sets of the density as specification; filtering and simplifying pieces, insertion sort | partial | Proved for every cdf that is not concentrated in a point, rises on bounded pieces and whose rising pieces have moderate bounds that are not neighbouring doubles: mpe is exactly the set of the values of highest density (C80_mpe); k_mpe lists every positive density with exactly its values in descending order and k_mpe(k) is its prefix (C80_k_mpe_partial); fitted distributions meet the hypotheses if no two samples are neighbouring doubles (C80_fitted); single values (C80_point). Refuted: k_mpe lists the same entry once per piece of that density, e.g. for samples 0, 1, 4, 5 (C80_repeated_refuted). |
| C81 | Trees that compare equal are interchangeable | dictionaries of equal size and one inclusion give a permutation of the leaves; congruence of joint and infer; pieces of total functions end together | partial | Trees over symbolic and integer variables: same variables with same settings (C81_variables), same joint distribution (C81_joint), same answers of infer (C81_infer), reflexive and symmetric (C81_reflexive, C81_symmetric). Numeric distributions with bounds below 2^53, among them all fitted ones: same cdf and same probability of every interval (C81_numeric, C81_fitted), although only the common prefix of the pieces is compared (C67). Missing: the two parts are not combined for trees with numeric variables. |
| C82 | Training data is possible under the learnt model | inference functions on node tables with abstract leaf distributions and their instances for discrete, numeric and mixed variables; refinement to sums over worlds; unions of intervals by reduction of each cdf to finitely many weighted points | partial | Proved for every table whose split points are not neighbouring doubles and are taken by at most one row (trainable), with close_convex_gaps=False. Refuted for close_convex_gaps=True, the default (C82_closed_refuted). Missing: other tables. |
| C83 | Closing the gaps gives every point of the hull a positive density | cdf of the gaps merged with the fitted cdf: density and value of a merge from its events; overwriting and integrating a density symbolically; search for counterexamples by computation | partial | Proved for leaf distributions fitted to numbers below 2^53 with at least one gap, when no density of the result is 1e-8 or less: the exact density, positive in the whole hull and only there, and the exact cdf; a leaf with one value becomes uniform on its hull if the hull is not too narrow; other parts of the tree stay as they are. Refuted otherwise: the upper end of the hull, wide gaps, repeated least values, narrow hulls. |
| C84 | Piecewise functions survive serialisation | encoders into a JSON datatype; induction over the pieces | partial | A function is read back unchanged exactly if its pieces are constant or linear and its intervals in order; otherwise reading fails and nothing is changed silently. Quadratic pieces, which products produce, cannot be read. |
| C85 | Queries mean what they say | specification of what each kind of object describes; invariant of the variable map over the dictionary; closed infinite bounds reduced to open ones by a retraction of the contract of inference | partial | Acceptance and meaning are proved for every dictionary over the variables of the tree; labels which a scaler merges with a bound are left open, and blurred numbers are not covered. The answer of infer is proved for numbers, lists and intervals with bounds in the grid, also for closed infinite bounds (C85_infer_partial), and for unions of intervals that are open at infinity and stay in ascending order after scaling (C85_infer_union_partial). Refuted: a variable of another tree with the same name is taken for the own one; bind accepts integers outside the domain, which only infer rejects. |
| C86 | Reverse lookup ranks the matching leaves | invariant of the variable map with unknown keys filtered out; insertion sort is stable and sorted; probabilities from the contract of the leaves | partial | Trees over numeric and discrete variables, every dictionary of sayable things; numeric sets are intervals and unions of intervals with bounds on the grid of the leaf. Missing: blurred numbers, unions closed at infinity, bounds that are neighbouring doubles. |
| C87 | Sampled rows come from the joint distribution | invariant of the table over the loop over leaves (positions of a leaf are increasing, counted by earlier occurrences); roulette wheel theorem C52; C58 for numeric distributions | partial | Rows, fresh outcomes and shares for every tree and random source. Success and possible values: numeric distributions are single values or continuous cdfs (jumps are refused by the random source, C58), the outcome 0 of the roulette wheel excepted. |
| C88 | A node is called consistent with evidence iff it can be reached | `ConsistModel` follows `Node.consistent_with` case by case; worlds, reaching a node and agreeing with evidence are defined on values. Induction over the path and the evidence; the leaf version reuses the measure of the mixed trees. | partial | Proved for intervals, sets of values, and single values that are no bounds of splits; for leaves, sets only. Refuted: a value at which a split was made is assigned to the wrong side (C88_bound_refuted); unions of intervals raise TypeError (C88_union_refuted). Intervals of a single number are left out for leaves. |
| C89 | The divergence of numeric distributions is a divergence | the loop over the slices between piece ends; the difference of the cdfs does not rise and is 0 at both ends, hence 0 everywhere; induction over the sorted ends | partial | Continuous cdfs with a rising piece of at least three doubles and piece ends below 2^53. Single values are counted twice, so that the divergence of two of them is 2 (C89_points_refuted); it is not symmetric (C89_symmetry_refuted). Learnt distributions have an end one double past the last sample: for them, if two samples differ, the divergence is within [0, 1] and 0 exactly if the cdfs agree at every piece end (C89_learnt_partial), so densities that differ by one double are not told apart (C89_learnt_zero_refuted). Divergence from or to a learnt single value is not covered. |

## 4. Findings

Proved refutations, by property. Each theorem states the claim it refutes in the comment above it.

* **C02** (isempty() is true exactly for intervals without members): `C02_isempty_refuted`, `C02_size_refuted`
* **C04** (Interval difference is exact): `C04_difference_refuted`
* **C05** (Interval union is exact): `C05_union_refuted`
* **C07** (intersects/isdisjoint decide existence of a common member, symmetrically): `C07_intersects_refuted`, `C07_intersects_adjacent_refuted`
* **C08** (contains_interval decides the subset relation): `C08_contains_interval_refuted`, `C08_contains_proper_refuted`, `C08_contains_realset_refuted`
* **C09** (Equality of intervals is equality of member sets, and equal intervals hash equally): `C09_hash_refuted`, `C09_eq_refuted`
* **C10** (RealSet.simplify preserves the set and yields ascending, non-contiguous, non-empty pieces): `C10_simplify_refuted`
* **C11** (RealSet union, intersection and difference are exact): `C11_union_refuted`
* **C12** (chop() partitions an interval): `C12_chop_refuted`
* **C14** (Interval comparison is sound): `C14_comparator_refuted`
* **C15** (Serialisation of intervals and real sets is lossless): `C15_json_realset_refuted`
* **C16** (Elementary function arithmetic is pointwise): `C16_quadratic_order_refuted`, `C16_undefined_order_refuted`, `C16_inplace_refuted`, `C16_quadratic_product_refuted`
* **C17** (Linear interpolation, root and inversion are exact): `C17_intersects_refuted`
* **C18** (Piecewise addition and multiplication are pointwise): `C18_gap_refuted`, `C18_undefined_refuted`
* **C19** (Shift and mirror of piecewise functions): `C19_xmirror_integral_refuted`
* **C23** (Probability of an interval is the CDF difference, and probability is additive and monotone): `C23_additive_refuted`, `C23_point_refuted`
* **C24** (Cropping a numeric distribution conditions it): `C24_zero_refuted`, `C24_jump_refuted`, `C24_beyond_refuted`, `C24_point_refuted`, `C24_union_refuted`, `C24_receiver_changed_refuted`, `C24_points_refuted`, `C24_point_moved_refuted`
* **C25** (Merging numeric distributions yields the weighted mixture): `C25_jump_refuted`, `C25_density_refuted`
* **C26** (ppf is the inverse of the cdf): `C26_flat_refuted`, `C26_flat_value_refuted`, `C26_jump_refuted`
* **C28** (Cropping a categorical distribution conditions it): `C28_single_label_refuted`
* **C29** (Merging categorical distributions yields the weighted mixture): `C29_surplus_weights_refuted`, `C29_self_update_refuted`
* **C30** (k-MPE of a categorical distribution enumerates the likelihood levels in descending order): `C30_covers_every_state_refuted`
* **C33** (Scaling of numeric data is invertible): `C33_empty_refuted`
* **C34** (Incremental Gaussian statistics equal the batch statistics): `C34_precision_refuted`, `C34_retract_last_refuted`, `C34_retract_stuck_refuted`, `C34_estimate_refuted`
* **C35** (Learning partitions the training data): `C35_adjacent_refuted`
* **C36** (Hyper-parameters are honoured): `C36_max_depth_zero_refuted`, `C36_min_samples_refuted`
* **C37** (The leaves of a learnt tree partition the space of worlds): `C37_boundary_refuted`
* **C39** (infer() is a conditional probability): `C39_infer_same_refuted`
* **C40** (posterior() agrees with infer()): `C40_posterior_refuted`, `C40_posterior_fitted_refuted`
* **C41** (conditional_jpt() represents the conditional distribution): `C41_twice_refuted`
* **C42** (expectation()/moment() are linear in the leaves): `C42_points_refuted`
* **C44** (kmpe() enumerates explanations in non-increasing likelihood, completely and without repetition): `C44_two_symbolic_refuted`, `C44_symbolic_order_refuted`, `C44_repeated_refuted`, `C44_leaves_order_refuted`
* **C45** (prune() preserves probability mass and marginals): `C45_one_child_refuted`
* **C46** (JPT serialisation round-trips): `C46_settings_refuted`, `C46_targets_refuted`, `C46_subclass_refuted`
* **C47** (VariableMap behaves like a finite map keyed by variable name): `C47_delete_forgets_refuted`, `C47_json_declared_refuted`, `C47_deepcopy_refuted`
* **C48** (normalized() keeps proportions and sums to one): `C48_int_array_refuted`
* **C50** (bisect() returns a valid insertion point): `C50_bisect_empty_refuted`
* **C51** (Heap pops in key order, first-in-first-out on ties): `C51_delitem_refuted`
* **C52** (Roulette-wheel sampling selects proportionally to weight): `C52_roulette_zero_refuted`
* **C53** (Split search statistics are exact): `C53_gini_range_refuted`
* **C54** (The reported split is the best legal split): `C54_improvement_range_refuted`, `C54_inverted_refuted`, `C54_sample_count_refuted`, `C54_sparse_dependencies_refuted`
* **C55** (likelihood() of a world is the prior-weighted product of leaf densities and agrees with pdf()): `C55_pdf_refuted`
* **C56** (Jaccard similarity is a similarity measure): `C56_points_refuted`, `C56_integer_ranges_refuted`
* **C57** (Sequence marginals are aligned with their time steps): `C57_refit_refuted`, `C57_alignment_refuted`, `C57_prior_twice_refuted`, `C57_impossible_leaf_refuted`, `C57_leaf_order_refuted`
* **C58** (Samples lie in the support): `C58_realset_sample_refuted`, `C58_categorical_sample_refuted`, `C58_numeric_jump_refuted`, `C58_numeric_close_refuted`
* **C59** (Type equivalence of categorical domains means equal domains): `C59_equivalence_refuted`
* **C62** (linspace() returns equally spaced samples including both ends): `C62_single_sample_refuted`
* **C66** (simplify() does not change the function): `C66_receiver_refuted`
* **C67** (Equal piecewise functions have equal values): `C67_eq_refuted`
* **C70** (The fitted cdf stays within the precision): `C70_precision_refuted`
* **C72** (Updating a numeric distribution moves it towards the other one): `C72_update_refuted`
* **C73** (A variable survives the JSON round trip): `C73_settings_lost_refuted`
* **C74** (Assignments hold admissible values only): `C74_by_name_refuted`, `C74_value_set_refuted`, `C74_same_name_refuted`
* **C75** (Shifting, scaling and adding Gaussians describes the transformed samples): `C75_update_after_refuted`
* **C76** (Linear regression of a Gaussian is the least-squares line of its samples): `C76_small_refuted`
* **C77** (Distributions survive JSON, pickling and deep copies): `C77_pickle_refuted`, `C77_numeric_pickle_refuted`, `C77_subclass_refuted`
* **C78** (Queries do not change the model): `C78_queries_change_the_model_refuted`, `C78_expectation_moment_refuted`
* **C79** (Expectation, variance and moments of a numeric distribution are the integrals of its cdf): `C79_point_center_refuted`, `C79_jump_refuted`, `C79_neighbours_refuted`
* **C80** (The most probable states of a numeric distribution are exactly the values of highest density): `C80_repeated_refuted`
* **C82** (Training data is possible under the learnt model): `C82_closed_refuted`
* **C83** (Closing the gaps gives every point of the hull a positive density): `C83_top_refuted`, `C83_thin_refuted`, `C83_mass_refuted`, `C83_error_refuted`
* **C84** (Piecewise functions survive serialisation): `C84_quadratic_refuted`
* **C85** (Queries mean what they say): `C85_foreign_refuted`, `C85_bind_integers_refuted`
* **C88** (A node is called consistent with evidence iff it can be reached): `C88_bound_refuted`, `C88_union_refuted`
* **C89** (The divergence of numeric distributions is a divergence): `C89_symmetry_refuted`, `C89_points_refuted`, `C89_learnt_zero_refuted`

The most consequential ones in words:

* Real sets lose elements in union/simplify when bounds are adjacent doubles or pieces come in the wrong order (C10, C11); JSON of a real set never round-trips (C15); hashing is inconsistent with equality (C09).
* Samples whose smallest value occurs more than once give a cdf with a jump; probabilities are then not additive (C23), merging drops the jump (C25), cropping scales it wrongly (C24), quantiles fall below the support (C26).
* Stretches of a cdf flatter than 1e-4 count as not invertible: samples spread over more than 10000 units may have no quantile function, or a wrong one (C26).
* `max_depth=0` means unlimited; `max_leaves` is never used; `min_samples_leaf` can be violated (C36). Adjacent doubles put a row into the wrong leaf (C35), `encode` returns the left leaf at a split value (C37).
* The impurity of a symbolic feature without symbolic targets is computed from sample counts (C54); improvements above 1 and negative ones are reachable (C54); Gini values above 1 (C53).
* Restricting a distribution in one point to an interval that begins with the point moves it to the largest number of the interval, and raises AssertionError if the interval has no upper bound, although its probability is 1 (C24_point_moved_refuted).
* Conditioning an already conditioned tree raises (C41); queries that share variables with the evidence are wrong in `infer` (C39); posteriors of evidence variables off the path are wrong (C40). The posterior of a fitted numeric variable drops the jumps of the leaf cdfs and contradicts `infer` (C40).
* `Numeric._moment` ignores jumps of the cdf and pieces that contain a single double: the expectation of a distribution fitted to 1, 1, 2 is about 0.75; for a Dirac impulse the center of the moment is ignored (C79). In a tree, a leaf in which the variable always has the same value adds nothing to the expectation (C42).
* `Numeric.k_mpe` lists the same entry once for every piece with that density, e.g. for samples 0, 1, 4, 5 (C80).
* Sampling from a numeric distribution raises ValueError if the least training value occurs more than once or values are extremely close: the piece probabilities do not sum to 1 (C58).
* `posterior`, `expectation` and `moment` with point evidence on a split variable overwrite the distribution stored in the leaf; later answers are wrong (C78).
* Learning with the default `close_convex_gaps=True`: a leaf whose values of a numeric variable are all the same and which has no upper bound loses that value (likelihood 0 for training rows, C82, C83); wide gaps stay open, the mass of a repeated least value moves to the upper end of the hull, and narrow leaves raise ValueError (C83).
* Most probable explanations: two symbolic variables in one leaf make k-MPE run forever; the order over leaves is ascending instead of descending (C44).
* Sequences of eleven or more steps get permuted marginals; leaf priors are counted twice; excluded leaves regain weight (C57).
* Trees: variable settings are lost through JSON; a tree with target variables is not equal to its own copy (C46). No distribution can be pickled or deep-copied; a numeric type derived from Numeric is read as Numeric, so that a tree over it differs from its image (C77, C46). A piecewise function with a quadratic piece is written but cannot be read (C84).
* Incremental Gaussian statistics: retracting the last sample fails; re-estimation and merging forget weights (C34, C75).
* Variables: settings and undeclared entries are lost through JSON (C47, C73); assignments are unchecked when set by name (C74).
* A Variable object of another tree is silently taken for the variable of the same name (C85): the check for identity comes after names have been resolved and can never fail for a dictionary. `bind` checks labels of symbolic variables but not of integer ones.
* `consistent_with` compares single numbers with `lower < x <= upper` although splits are at `x < s` and `x >= s`, so that the split value is assigned to the wrong child; unions of intervals raise (C88).
* `Numeric.jaccard_similarity` evaluates the densities at the centre of neighbouring doubles, which is rounded to the even one. Two different single values at doubles with odd mantissas (0.3 and 0.9) have similarity NaN instead of 0 (`C56_points_refuted`). `Integer.jaccard_similarity` compares positions, not integers: distributions without a common integer can have similarity 1.
* `Numeric.kl_divergence` sums over closed intervals between neighbouring ends: the probability of a single value is counted twice, and the divergence of two single values is 2 (`C89_points_refuted`).

## 5. Cannot be expressed

Plotting, graphviz rendering, logging, pickle/bz2 byte formats, CSV/ARFF conversion, the mlflow wrapper, SciPy's multivariate normal
integrals, the numerical error of floating-point arithmetic (except for the spacing of interval bounds) and wall-clock behaviour have no
model here and are outside all theorems. Belief propagation of the external `factorgraph` package is an oracle argument in C57.

## 6. Trusted base

* Coq 8.16.1: kernel (including `vm_compute`) and standard library. No other library is used. No axiom, parameter or admitted proof is declared; no kernel check is switched off.
* The correspondence of the Coq definitions to the Python/Cython source, checked by reading only. The seeded-bug log `seeded/LOG.jsonl` records how the theorems react to edits of the model.
* Exact instead of rounded arithmetic as described in section 1.

`Print Assumptions` for the theorems:

* 437 theorems: *Closed under the global context* (no axioms): every theorem listed in MANIFEST.json except those named below.
* `C33_special`: `ClassicalDedekindReals.sig_forall_dec`, `FunctionalExtensionality.functional_extensionality_dep`.
* `C33_scale`, `C33_round_trip`, `C33_proxy_round_trip`, `C33_standardised`, `C33_monotone`, `C33_numeric_type`, `C33_empty_refuted`: `ClassicalDedekindReals.sig_not_dec`, `ClassicalDedekindReals.sig_forall_dec`, `FunctionalExtensionality.functional_extensionality_dep`.

The axioms are those of the standard library's real numbers (`Reals`), used for square roots in the scaler only.
