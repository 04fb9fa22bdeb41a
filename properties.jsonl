{"id": "C01", "title": "Interval membership means what the bracket notation says", "statement": "For an interval A with bounds l<=u and left/right flags, `v in A` (contains_value) is true exactly when v lies between l and u, strictly at an excluded end.", "quantifier": "every pair of double bounds, every combination of inclusive/exclusive flags, every double v", "why_tests_cant": "membership is computed through intersects() on a degenerate interval and next-representable-number arithmetic; the corner cases (adjacent doubles, infinities, |x| >= 2^53 where x+1 absorbs) are far too many to enumerate", "anchors": ["src/jpt/base/intervals.pyx: ContinuousSet.contains_value", "src/jpt/base/intervals.pyx: ContinuousSet.intersects", "src/jpt/base/constants.py: Epsilon"]}
{"id": "C02", "title": "isempty() is true exactly for intervals without members", "statement": "A.isempty() returns true if and only if no double is a member of A.", "quantifier": "every interval that the constructor accepts", "why_tests_cant": "depends on spacing of doubles at every magnitude", "anchors": ["src/jpt/base/intervals.pyx: ContinuousSet.isempty"]}
{"id": "C03", "title": "Interval intersection is exact", "statement": "For intervals A, B: v in A.intersection(B) iff v in A and v in B; the result never raises.", "quantifier": "every pair of intervals, every v", "why_tests_cant": "all relative positions x all flag combinations x all magnitudes", "anchors": ["src/jpt/base/intervals.pyx: ContinuousSet.intersection"]}
{"id": "C04", "title": "Interval difference is exact", "statement": "For intervals A, B: v in A.difference(B) iff v in A and v not in B.", "quantifier": "every pair of intervals, every v", "why_tests_cant": "all relative positions x all flag combinations", "anchors": ["src/jpt/base/intervals.pyx: ContinuousSet.difference"]}
{"id": "C05", "title": "Interval union is exact", "statement": "For intervals A, B: v in A.union(B) iff v in A or v in B.", "quantifier": "every pair of intervals, every v", "why_tests_cant": "all relative positions x all flag combinations", "anchors": ["src/jpt/base/intervals.pyx: ContinuousSet.union", "src/jpt/base/intervals.pyx: RealSet.simplify"]}
{"id": "C06", "title": "Complement is exact and involutive on members", "statement": "v in A.complement() iff v not in A, for every double v other than +-infinity.", "quantifier": "every interval, every finite v", "why_tests_cant": "all flag combinations and magnitudes", "anchors": ["src/jpt/base/intervals.pyx: ContinuousSet.complement", "src/jpt/base/intervals.pyx: RealSet.complement"]}
{"id": "C07", "title": "intersects/isdisjoint decide existence of a common member, symmetrically", "statement": "A.intersects(B) iff some double belongs to both; A.isdisjoint(B) is its negation; both are symmetric in A and B.", "quantifier": "every pair of intervals", "why_tests_cant": "universally quantified over v on one side, existential on the other", "anchors": ["src/jpt/base/intervals.pyx: ContinuousSet.intersects", "src/jpt/base/intervals.pyx: ContinuousSet.isdisjoint"]}
{"id": "C08", "title": "contains_interval decides the subset relation", "statement": "A.contains_interval(B) is true iff every member of B is a member of A (B non-empty, A non-empty); with proper_containment it is additionally strict.", "quantifier": "every pair of intervals", "why_tests_cant": "quantifies over all members", "anchors": ["src/jpt/base/intervals.pyx: ContinuousSet.contains_interval"]}
{"id": "C09", "title": "Equality of intervals is equality of member sets, and equal intervals hash equally", "statement": "A == B iff A and B have the same members; == is an equivalence relation; A == B implies hash(A) == hash(B).", "quantifier": "every pair/triple of intervals", "why_tests_cant": "quantifies over all members; hash agreement must hold for all equal pairs", "anchors": ["src/jpt/base/intervals.pyx: ContinuousSet.__eq__", "src/jpt/base/intervals.pyx: ContinuousSet.__hash__"]}
{"id": "C10", "title": "RealSet.simplify preserves the set and yields ascending, non-contiguous, non-empty pieces", "statement": "For every list of intervals, RealSet(L).simplify() has exactly the members of the union of L, and its pieces are non-empty, pairwise disjoint and ascending.", "quantifier": "every list of intervals of any length in any order", "why_tests_cant": "unbounded number of intervals in arbitrary order/overlap; needs induction", "anchors": ["src/jpt/base/intervals.pyx: RealSet.simplify", "src/jpt/base/intervals.pyx: ContinuousSet.contiguous"]}
{"id": "C11", "title": "RealSet union, intersection and difference are exact", "statement": "v in S.op(T) iff the corresponding boolean combination of v in S and v in T.", "quantifier": "every pair of real sets / intervals with any number of pieces, every v", "why_tests_cant": "unbounded numbers of pieces", "anchors": ["src/jpt/base/intervals.pyx: RealSet.union", "src/jpt/base/intervals.pyx: RealSet.intersection", "src/jpt/base/intervals.pyx: RealSet.difference"]}
{"id": "C12", "title": "chop() partitions an interval", "statement": "A.chop(points) yields intervals whose members together are exactly the members of A, pairwise disjoint, in ascending order, and no piece contains a chop point in its interior.", "quantifier": "every interval, every ascending list of points", "why_tests_cant": "unbounded number of chop points", "anchors": ["src/jpt/base/intervals.pyx: ContinuousSet.chop"]}
{"id": "C13", "title": "Mirroring negates members", "statement": "v in A.xmirror() iff -v in A, for intervals and for real sets; mirroring twice is the identity on members.", "quantifier": "every interval / list of intervals, every v", "why_tests_cant": "unbounded number of pieces", "anchors": ["src/jpt/base/intervals.pyx: ContinuousSet.xmirror", "src/jpt/base/intervals.pyx: RealSet.xmirror"]}
{"id": "C14", "title": "Interval comparison is sound", "statement": "A < B succeeds only for disjoint A, B, and then every member of A is smaller than every member of B; for overlapping intervals ValueError is raised; the relation is irreflexive, transitive and total on disjoint non-empty intervals.", "quantifier": "every pair/triple of intervals", "why_tests_cant": "universally quantified order relation", "anchors": ["src/jpt/base/intervals.pyx: ContinuousSet.comparator"]}
{"id": "C15", "title": "Serialisation of intervals and real sets is lossless", "statement": "from_json(to_json(S)) == S for intervals and for real sets with any number of pieces.", "quantifier": "every interval / every list of intervals", "why_tests_cant": "round-trip over unbounded structures", "anchors": ["src/jpt/base/intervals.pyx: ContinuousSet.to_json", "src/jpt/base/intervals.pyx: RealSet.to_json", "src/jpt/base/intervals.pyx: RealSet.from_json"]}
{"id": "C16", "title": "Elementary function arithmetic is pointwise", "statement": "(f+g)(x) = f(x)+g(x), (f*g)(x) = f(x)*g(x), (f*-1)(x) = -f(x), for constant, linear and quadratic functions wherever the operation does not raise; the operations are commutative.", "quantifier": "all coefficients, all x", "why_tests_cant": "quantified over all reals and coefficients", "anchors": ["src/jpt/base/functions.pyx: ConstantFunction", "src/jpt/base/functions.pyx: LinearFunction", "src/jpt/base/functions.pyx: QuadraticFunction"]}
{"id": "C17", "title": "Linear interpolation, root and inversion are exact", "statement": "LinearFunction.from_points(p,q) passes through p and q; root(f) is a zero of f; invert(f)(f(x)) = x.", "quantifier": "all points with distinct x, all slopes != 0, all x", "why_tests_cant": "quantified over all reals", "anchors": ["src/jpt/base/functions.pyx: LinearFunction.from_points", "src/jpt/base/functions.pyx: LinearFunction.root", "src/jpt/base/functions.pyx: LinearFunction.invert"]}
{"id": "C18", "title": "Piecewise addition and multiplication are pointwise", "statement": "For piecewise functions f, g and every x where both are defined, (f+g)(x) = f(x)+g(x) and (f*g)(x) = f(x)*g(x); outside the common domain the result is undefined.", "quantifier": "every pair of piecewise functions with any number of pieces, every x", "why_tests_cant": "unbounded number of pieces with arbitrary interleaving of knots", "anchors": ["src/jpt/base/functions.pyx: PiecewiseFunction.add", "src/jpt/base/functions.pyx: PiecewiseFunction.mul"]}
{"id": "C19", "title": "Shift and mirror of piecewise functions", "statement": "f.xmirror()(x) = f(-x) and f.xshift(d)(x) = f(x+d) for every x strictly inside the pieces; both preserve the total integral.", "quantifier": "every piecewise function, shift and x", "why_tests_cant": "unbounded number of pieces", "anchors": ["src/jpt/base/functions.pyx: PiecewiseFunction.xshift", "src/jpt/base/functions.pyx: PiecewiseFunction.xmirror"]}
{"id": "C20", "title": "The piecewise integral is additive and inverts differentiation", "statement": "The integral over [a,c) is the sum of the integrals over [a,b) and [b,c); for a continuous piecewise linear F, integrating F.differentiate() over [a,b) gives F(b)-F(a).", "quantifier": "every piecewise function with any number of pieces, all a<=b<=c in the domain", "why_tests_cant": "unbounded number of pieces", "anchors": ["src/jpt/base/functions.pyx: PiecewiseFunction.integrate", "src/jpt/base/functions.pyx: PiecewiseFunction.differentiate"]}
{"id": "C21", "title": "Fitted cumulative distributions are proper CDFs", "statement": "After QuantileDistribution.fit on any non-empty sample the cdf is 0 left of the smallest sample, 1 from the largest sample on, monotone non-decreasing and within [0,1].", "quantifier": "every non-empty list of samples (any order, duplicates) and any set of interpolation knots chosen by the regressor", "why_tests_cant": "unbounded samples, arbitrary order and multiplicity", "anchors": ["src/jpt/distributions/quantile/quantiles.pyx: QuantileDistribution.fit", "src/jpt/distributions/quantile/cdfreg.pyx: CDFRegressor"]}
{"id": "C22", "title": "The CDF regressor returns a strictly increasing selection of sample indices including both ends", "statement": "CDFRegressor.fit terminates; support points are samples, strictly increasing, and contain the first and last sample.", "quantifier": "every data size, every error tolerance, every split choice", "why_tests_cant": "unbounded recursion over data ranges", "anchors": ["src/jpt/distributions/quantile/cdfreg.pyx: CDFRegressor.fit", "src/jpt/distributions/quantile/cdfreg.pyx: CDFRegressor._forward", "src/jpt/distributions/quantile/cdfreg.pyx: CDFRegressor._backward"]}
{"id": "C23", "title": "Probability of an interval is the CDF difference, and probability is additive and monotone", "statement": "For a numeric distribution, P(A) in [0,1]; for disjoint contiguous A, B: P(A u B) = P(A)+P(B); A subset B implies P(A) <= P(B); P(R) = 1.", "quantifier": "every proper piecewise linear CDF, all intervals", "why_tests_cant": "quantified over all intervals and CDFs", "anchors": ["src/jpt/distributions/univariate/numeric.py: Numeric._p", "src/jpt/distributions/univariate/numeric.py: Numeric.cdf"]}
{"id": "C24", "title": "Cropping a numeric distribution conditions it", "statement": "crop([a,b)) raises Unsatisfiability iff P([a,b)) = 0; otherwise the cropped cdf at x in [a,b] is (F(x)-F(a))/(F(b)-F(a)), 0 below a and 1 above b.", "quantifier": "every proper CDF with any number of pieces, all a<b, all x", "why_tests_cant": "unbounded number of pieces", "anchors": ["src/jpt/distributions/quantile/quantiles.pyx: QuantileDistribution.crop", "src/jpt/distributions/univariate/numeric.py: Numeric._crop"]}
{"id": "C25", "title": "Merging numeric distributions yields the weighted mixture", "statement": "The merged cdf at x equals sum_i w_i F_i(x) for every x, and is again a proper CDF.", "quantifier": "any number of distributions with any number of pieces, any weights summing to 1, all x", "why_tests_cant": "unbounded sweep over breakpoints", "anchors": ["src/jpt/distributions/quantile/quantiles.pyx: QuantileDistribution.merge", "src/jpt/distributions/univariate/numeric.py: Numeric.merge"]}
{"id": "C26", "title": "ppf is the inverse of the cdf", "statement": "For a strictly increasing stretch, ppf(cdf(x)) = x and cdf(ppf(y)) = y for y in (0,1).", "quantifier": "every proper piecewise linear CDF, all x in the support, all y in (0,1)", "why_tests_cant": "unbounded pieces, flat stretches", "anchors": ["src/jpt/distributions/quantile/quantiles.pyx: QuantileDistribution.ppf"]}
{"id": "C27", "title": "Categorical probabilities form a probability measure", "statement": "For a fitted multinomial/integer distribution: P(S) >= 0, P(domain) = 1, P(S u T) = P(S)+P(T) for disjoint S,T, P(S) = count of samples in S / number of samples.", "quantifier": "every domain size, every non-empty data column, all sets of values", "why_tests_cant": "unbounded domains and data", "anchors": ["src/jpt/distributions/univariate/multinomial.py: Multinomial._p", "src/jpt/distributions/univariate/multinomial.py: Multinomial._fit", "src/jpt/distributions/univariate/integer.py: Integer._p"]}
{"id": "C28", "title": "Cropping a categorical distribution conditions it", "statement": "crop(S) raises Unsatisfiability iff P(S)=0; otherwise P_cropped(T) = P(S n T)/P(S); the receiver is unchanged.", "quantifier": "every parameter vector, all S, T", "why_tests_cant": "unbounded domains", "anchors": ["src/jpt/distributions/univariate/multinomial.py: Multinomial._crop", "src/jpt/distributions/univariate/integer.py: Integer._crop"]}
{"id": "C29", "title": "Merging categorical distributions yields the weighted mixture", "statement": "merge(dists, weights).P(S) = sum_i w_i P_i(S), and the result is normalised; weights not summing to 1 are rejected.", "quantifier": "any number of distributions over any domain, all weight vectors, all S", "why_tests_cant": "unbounded lists", "anchors": ["src/jpt/distributions/univariate/multinomial.py: Multinomial.merge", "src/jpt/distributions/univariate/integer.py: Integer.merge"]}
{"id": "C30", "title": "k-MPE of a categorical distribution enumerates the likelihood levels in descending order", "statement": "k_mpe() yields sets of states, each containing exactly the states of one likelihood, with strictly decreasing likelihoods, covering every state; mpe() is the first.", "quantifier": "every parameter vector", "why_tests_cant": "unbounded domains with ties", "anchors": ["src/jpt/distributions/univariate/multinomial.py: Multinomial._k_mpe", "src/jpt/distributions/univariate/integer.py: Integer._k_mpe"]}
{"id": "C31", "title": "Label and value spaces of categorical domains are in bijection", "statement": "value2label(label2value(S)) = S and conversely, for single items and sets, for symbolic types with any distinct labels and integer types with any bounds; unknown labels are rejected.", "quantifier": "all label lists without duplicates, all integer ranges, all subsets", "why_tests_cant": "unbounded domains", "anchors": ["src/jpt/distributions/univariate/multinomial.py: SymbolicType", "src/jpt/distributions/univariate/multinomial.py: Multinomial.label2value", "src/jpt/distributions/univariate/integer.py: IntegerType", "src/jpt/distributions/utils.py: OrderedDictProxy"]}
{"id": "C32", "title": "Adding independent integer variables convolves their distributions", "statement": "P(X+Y=k) = sum_{i+j=k} P(X=i)P(Y=j), the result is normalised and its expectation is the sum of expectations.", "quantifier": "every two integer distributions over any ranges", "why_tests_cant": "unbounded domains", "anchors": ["src/jpt/distributions/univariate/integer.py: Integer.add", "src/jpt/distributions/univariate/integer.py: Integer.expectation"]}
{"id": "C33", "title": "Scaling of numeric data is invertible", "statement": "inverse_transform(transform(x)) = x and vice versa; None/NaN are mapped to the neutral value and infinities are fixed points; a constant column does not divide by zero.", "quantifier": "every non-empty data column, every x", "why_tests_cant": "quantified over all data", "anchors": ["src/jpt/distributions/utils.py: DataScaler", "src/jpt/distributions/utils.py: DataScalerProxy"]}
{"id": "C34", "title": "Incremental Gaussian statistics equal the batch statistics", "statement": "After any sequence of update() calls mean and covariance equal those of the whole sample; retract() undoes update().", "quantifier": "every sequence of samples, of any length", "why_tests_cant": "histories of unbounded length", "anchors": ["src/jpt/distributions/univariate/gaussian.py: Gaussian.update", "src/jpt/distributions/univariate/gaussian.py: Gaussian.retract"]}
{"id": "C35", "title": "Learning partitions the training data", "statement": "learn() terminates; every training row is assigned to exactly one leaf, leaf sample counts sum to the number of rows, leaf priors are positive and sum to 1, and every row satisfies the path constraints of its leaf.", "quantifier": "every non-empty data matrix, every choice of split returned by the split search, every hyperparameter setting", "why_tests_cant": "unbounded trees; depends on in-place reordering of a shared index array", "anchors": ["src/jpt/trees.py: JPT.learn", "src/jpt/trees.py: JPT.c45", "src/jpt/learning/impurity.pyx: Impurity.compute_best_split"]}
{"id": "C36", "title": "Hyper-parameters are honoured", "statement": "No leaf is deeper than max_depth; no leaf has fewer than min_samples_leaf samples (when the data has at least that many); every split improves impurity by at least min_impurity_improvement.", "quantifier": "every data set and hyperparameter setting", "why_tests_cant": "unbounded trees and data", "anchors": ["src/jpt/trees.py: JPT.c45", "src/jpt/learning/impurity.pyx: Impurity.evaluate_variable"]}
{"id": "C37", "title": "The leaves of a learnt tree partition the space of worlds", "statement": "For every world (full assignment) exactly one leaf path is satisfied; encode() returns that leaf.", "quantifier": "every tree produced by learn, every world", "why_tests_cant": "all trees and all worlds", "anchors": ["src/jpt/trees.py: JPT.encode", "src/jpt/trees.py: Node.contains", "src/jpt/trees.py: Node.path"]}
{"id": "C38", "title": "apply() finds every leaf compatible with a query exactly once", "statement": "apply(q) yields each leaf whose path constraints are all compatible with q exactly once, and no other leaf.", "quantifier": "every tree shape and every query", "why_tests_cant": "unbounded trees", "anchors": ["src/jpt/trees.py: JPT.apply"]}
{"id": "C39", "title": "infer() is a conditional probability", "statement": "infer(q,e) = P(q and e)/P(e) with respect to the mixture the tree represents; it lies in [0,1]; infer({},e)=1; infer(q,q)=1; unsatisfiable evidence raises/returns None iff P(e)=0.", "quantifier": "every tree, every query and evidence", "why_tests_cant": "all trees, all queries", "anchors": ["src/jpt/trees.py: JPT.infer"]}
{"id": "C40", "title": "posterior() agrees with infer()", "statement": "For every variable X, posterior(e)[X].p(S) = infer(X in S | e).", "quantifier": "every tree, evidence, variable and set", "why_tests_cant": "all trees, all queries", "anchors": ["src/jpt/trees.py: JPT.posterior"]}
{"id": "C41", "title": "conditional_jpt() represents the conditional distribution", "statement": "conditional_jpt(e).infer(q) = infer(q|e); leaf priors of the result sum to 1; exactly the leaves with P_leaf(e)>0 survive; the original tree is unchanged; no decision node without children survives.", "quantifier": "every tree shape, evidence and query", "why_tests_cant": "unbounded trees; work-list algorithm with deletions", "anchors": ["src/jpt/trees.py: JPT.conditional_jpt"]}
{"id": "C42", "title": "expectation()/moment() are linear in the leaves", "statement": "expectation(e)[X] equals the sum over leaves of posterior leaf weight times leaf expectation.", "quantifier": "every tree and evidence", "why_tests_cant": "all trees", "anchors": ["src/jpt/trees.py: JPT.expectation", "src/jpt/trees.py: JPT.moment"]}
{"id": "C43", "title": "mpe() returns the most likely explanation", "statement": "The likelihood returned by mpe(e) is an upper bound of the (conditional) density of every world in every leaf, and every returned assignment attains it.", "quantifier": "every tree, evidence and world", "why_tests_cant": "universally quantified over worlds", "anchors": ["src/jpt/trees.py: JPT.mpe", "src/jpt/trees.py: Leaf.mpe"]}
{"id": "C44", "title": "kmpe() enumerates explanations in non-increasing likelihood, completely and without repetition", "statement": "For every tree the sequence produced by kmpe() has non-increasing likelihoods and contains every combination of per-variable likelihood levels of every leaf exactly once; it terminates.", "quantifier": "every set of distributions, every number of variables, every k", "why_tests_cant": "branch-and-bound over unbounded search trees", "anchors": ["src/jpt/inference/mpe.py: MPESolver.solve", "src/jpt/trees.py: JPT.kmpe", "src/jpt/variables.py: VariableMap.copy"]}
{"id": "C45", "title": "prune() preserves probability mass and marginals", "statement": "prune() terminates; total prior and the marginal of every variable are unchanged; sample counts add up.", "quantifier": "every tree and every similarity threshold", "why_tests_cant": "unbounded trees, arbitrary merge orders", "anchors": ["src/jpt/trees.py: JPT.prune"]}
{"id": "C46", "title": "JPT serialisation round-trips", "statement": "from_json(to_json(t)) == t: same nodes, paths, priors, distributions, variables and settings.", "quantifier": "every tree and every variable configuration", "why_tests_cant": "unbounded trees", "anchors": ["src/jpt/trees.py: JPT.to_json", "src/jpt/trees.py: JPT.from_json", "src/jpt/variables.py: Variable.to_json", "src/jpt/variables.py: NumericVariable.from_json"]}
{"id": "C47", "title": "VariableMap behaves like a finite map keyed by variable name", "statement": "After any sequence of set/delete/update/+=/-= operations, lookups by variable or by name give the last value written, and keys appear in first-insertion order.", "quantifier": "every history of operations", "why_tests_cant": "histories of unbounded length", "anchors": ["src/jpt/variables.py: VariableMap"]}
{"id": "C48", "title": "normalized() keeps proportions and sums to one", "statement": "normalized(w) sums to 1, keeps ratios (up to the optional zero replacement), and raises exactly for negative entries or an all-zero vector.", "quantifier": "every weight vector of any length", "why_tests_cant": "unbounded vectors", "anchors": ["src/jpt/base/utils.py: normalized"]}
{"id": "C49", "title": "The index sort used in learning sorts and keeps values and indices paired", "statement": "sort(X, idx, n) leaves X[0..n) ascending and applies the same permutation to idx; entries from n on are untouched.", "quantifier": "every array of doubles (no NaN) and every n", "why_tests_cant": "recursion with fallback to heapsort; sizes unbounded", "anchors": ["src/jpt/base/cutils.pxd: sort", "src/jpt/base/cutils.pxd: introsort", "src/jpt/base/cutils.pxd: heapsort", "src/jpt/base/cutils.pxd: sift_down"]}
{"id": "C50", "title": "bisect() returns a valid insertion point", "statement": "For an ascending array, inserting v at bisect(X,v) keeps it ascending; the search terminates and reads only inside the array.", "quantifier": "every ascending array and every v", "why_tests_cant": "unbounded arrays", "anchors": ["src/jpt/base/cutils.pxd: _bisect"]}
{"id": "C51", "title": "Heap pops in key order, first-in-first-out on ties", "statement": "After any sequence of pushes and pops, pop() returns an element with the smallest key, the oldest among equals; no element is lost or duplicated.", "quantifier": "every history of pushes and pops", "why_tests_cant": "histories of unbounded length", "anchors": ["src/jpt/base/utils.py: Heap"]}
{"id": "C52", "title": "Roulette-wheel sampling selects proportionally to weight", "statement": "index(x) is the unique i with cum[i-1] < x <= cum[i] for 0<x<=total, so element i owns a segment of length w_i; elements of weight 0 are never selected; other x raise IndexError.", "quantifier": "every weight vector, every x", "why_tests_cant": "unbounded vectors", "anchors": ["src/jpt/base/sampling.py: RouletteWheelSampler"]}
{"id": "C53", "title": "Split search statistics are exact", "statement": "Running left/right sums and histograms at split position i equal the sums/histograms over the first i+1 / remaining rows; the computed variances are the population variances and the Gini impurities lie in [0,1].", "quantifier": "every data matrix, ordering and split position", "why_tests_cant": "unbounded data; incremental in-place updates", "anchors": ["src/jpt/learning/impurity.pyx: update_numeric_stats_with_dependencies", "src/jpt/learning/impurity.pyx: variances", "src/jpt/learning/impurity.pyx: gini_impurity"]}
{"id": "C54", "title": "The reported split is the best legal split", "statement": "compute_best_split returns the maximum improvement over all features and all legal split positions; the reported improvement of any split lies in [0,1].", "quantifier": "every data matrix and target/feature configuration", "why_tests_cant": "unbounded data", "anchors": ["src/jpt/learning/impurity.pyx: Impurity.evaluate_variable", "src/jpt/learning/impurity.pyx: compute_var_improvements"]}
{"id": "C55", "title": "likelihood() of a world is the prior-weighted product of leaf densities and agrees with pdf()", "statement": "likelihood(row) = sum over leaves of prior * product of per-variable densities and equals pdf(row) when leaf densities vanish outside leaf paths.", "quantifier": "every tree and row", "why_tests_cant": "all trees, all worlds", "anchors": ["src/jpt/trees.py: JPT.likelihood", "src/jpt/trees.py: JPT.pdf", "src/jpt/trees.py: Leaf.parallel_likelihood"]}
{"id": "C56", "title": "Jaccard similarity is a similarity measure", "statement": "jaccard_similarity is symmetric, lies in [0,1] and equals 1 for identical distributions.", "quantifier": "every pair of distributions", "why_tests_cant": "quantified over all distributions", "anchors": ["src/jpt/distributions/univariate/multinomial.py: Multinomial.jaccard_similarity", "src/jpt/distributions/univariate/integer.py: Integer.jaccard_similarity", "src/jpt/distributions/univariate/numeric.py: Numeric.jaccard_similarity"]}
{"id": "C57", "title": "Sequence marginals are aligned with their time steps", "statement": "independent_marginals(e_0..e_{n-1}) returns as i-th tree the one conditioned on e_i and reweighted with the i-th marginal; transition frequencies sum to 1.", "quantifier": "every sequence length", "why_tests_cant": "only sequences longer than any tested one reveal misalignment", "anchors": ["src/jpt/sequential_trees.py: SequentialJPT.independent_marginals", "src/jpt/sequential_trees.py: SequentialJPT.fit"]}
{"id": "C58", "title": "Samples lie in the support", "statement": "Every value drawn from an interval, a real set, a categorical or a numeric distribution belongs to the set / has positive probability, for every outcome of the random generator.", "quantifier": "every set or distribution, every outcome of the random source", "why_tests_cant": "quantifies over all random outcomes", "anchors": ["src/jpt/base/intervals.pyx: RealSet.sample", "src/jpt/base/intervals.pyx: ContinuousSet.sample", "src/jpt/distributions/univariate/multinomial.py: Multinomial._sample", "src/jpt/distributions/quantile/quantiles.pyx: QuantileDistribution.sample"]}
{"id": "C59", "title": "Type equivalence of categorical domains means equal domains", "statement": "equiv() between two symbolic or integer types of the same name holds iff they have the same labels in the same order.", "quantifier": "every two label lists", "why_tests_cant": "comparison loops over label lists of unbounded and different length", "anchors": ["src/jpt/distributions/utils.py: OrderedDictProxy.__eq__", "src/jpt/distributions/univariate/multinomial.py: Multinomial.equiv", "src/jpt/distributions/univariate/integer.py: Integer.equiv"]}
{"id": "C60", "title": "Moments of integer distributions are consistent", "statement": "expectation() is the first moment and lies between the smallest and largest label; variance() is non-negative, equals E[X^2]-E[X]^2 and the second central moment.", "quantifier": "every integer distribution", "why_tests_cant": "unbounded domains", "anchors": ["src/jpt/distributions/univariate/integer.py: Integer.expectation", "src/jpt/distributions/univariate/integer.py: Integer.variance", "src/jpt/distributions/univariate/integer.py: Integer.moment"]}
{"id": "C61", "title": "The divergence of categorical distributions is a divergence", "statement": "kl_divergence(p, q) is never negative, and is zero iff p and q are the same distribution.", "quantifier": "every two probability vectors of the same length", "why_tests_cant": "unbounded domains", "anchors": ["src/jpt/distributions/univariate/multinomial.py: Multinomial.kl_divergence", "src/jpt/distributions/univariate/integer.py: Integer.kl_divergence"]}
{"id": "C62", "title": "linspace() returns equally spaced samples including both ends", "statement": "linspace(a, b, n) has n elements, the i-th is a + i*(b-a)/(n-1), the last is b; for n=1 it is the centroid of a and b.", "quantifier": "every a, b and n", "why_tests_cant": "unbounded n", "anchors": ["src/jpt/base/cutils.pxd: linspace"]}
{"id": "C63", "title": "list2intset() is the set of integers between its bounds", "statement": "list2intset([lo, hi]) contains exactly the integers k with lo <= k <= hi.", "quantifier": "every pair of integer bounds", "why_tests_cant": "unbounded bounds", "anchors": ["src/jpt/base/utils.py: list2intset"]}
{"id": "C64", "title": "Cropping and splitting keep the values", "statement": "f.crop(i) is defined exactly on the part of the domain inside i and has the values of f there; f.split(s) returns one function for x < s and one for x >= s with the values of f; split raises exactly when s is outside the domain.", "quantifier": "every piecewise function, interval and split point", "why_tests_cant": "unbounded number of pieces and points", "anchors": ["src/jpt/base/functions.pyx: PiecewiseFunction.crop, split"]}
{"id": "C65", "title": "from_points() interpolates linearly", "statement": "PiecewiseFunction.from_points(points) is defined between the first and the last point, passes through every point and is the straight line between neighbours.", "quantifier": "every list of at least two points with increasing x", "why_tests_cant": "unbounded number of points", "anchors": ["src/jpt/base/functions.pyx: PiecewiseFunction.from_points"]}
{"id": "C66", "title": "simplify() does not change the function", "statement": "f.simplify() has the same domain and the same values as f, neighbouring pieces of the result are not mergeable, and f itself is left unchanged.", "quantifier": "every piecewise function with disjoint pieces", "why_tests_cant": "unbounded number of pieces", "anchors": ["src/jpt/base/functions.pyx: PiecewiseFunction.simplify"]}
{"id": "C67", "title": "Equal piecewise functions have equal values", "statement": "f == g implies that f and g have the same domain and the same values.", "quantifier": "every pair of piecewise functions", "why_tests_cant": "unbounded number of pieces", "anchors": ["src/jpt/base/functions.pyx: PiecewiseFunction.__eq__"]}
{"id": "C68", "title": "Re-weighting the leaves keeps the shape and gives a distribution", "statement": "normalize() and multiply_by_leaf_prior(f) only change leaf priors: afterwards the priors sum to one, the joint density of every world is sum(prior*f*density)/sum(prior*f), and a total weight of zero raises Unsatisfiability.", "quantifier": "every tree and every non-negative factor per leaf", "why_tests_cant": "unbounded number of leaves and worlds", "anchors": ["src/jpt/trees.py: JPT.normalize, JPT.multiply_by_leaf_prior"]}
{"id": "C69", "title": "A learnt tree reproduces the marginals of its training data", "statement": "For symbolic and integer variables, the tree returned by learn() is well-formed, each leaf distribution is the relative frequency in the rows of that leaf, and the probability that infer() returns for an event of a single variable is the relative frequency of that event in the training data.", "quantifier": "every non-empty data matrix of coded values, every hyperparameter setting, every single-variable event", "why_tests_cant": "all data sets and trees; the identity relies on leaves partitioning the rows exactly", "anchors": ["src/jpt/trees.py: JPT.learn", "src/jpt/trees.py: JPT.c45", "src/jpt/trees.py: JPT.infer", "src/jpt/distributions/univariate/multinomial.py: Multinomial._fit", "src/jpt/distributions/univariate/integer.py: Integer._fit"]}
{"id": "C70", "title": "The fitted cdf stays within the precision", "statement": "Between two consecutive support points the mean squared deviation of the fitted cdf from the empirical quantiles is at most the square of the precision passed to the distribution.", "quantifier": "every sample and every precision", "why_tests_cant": "unbounded samples; the regressor is greedy and may stop at any stretch", "anchors": ["src/jpt/distributions/quantile/cdfreg.pyx: CDFRegressor.fit", "src/jpt/distributions/univariate/numeric.py: Numeric._fit"]}
{"id": "C71", "title": "Rectifying keeps the intervals and averages each piece", "statement": "rectify() keeps the intervals of a piecewise function and replaces each linear piece on a bounded interval by the mean of its values at both ends; it raises ValueError for a non-constant linear piece on an unbounded interval.", "quantifier": "every piecewise function of constant and linear pieces", "why_tests_cant": "unbounded number of pieces and arbitrary coefficients", "anchors": ["src/jpt/base/functions.pyx: PiecewiseFunction.rectify"]}
{"id": "C72", "title": "Updating a numeric distribution moves it towards the other one", "statement": "update(d, w) for 0 <= w <= 1 makes the receiver the weighted mean of itself (weight 1-w) and d (weight w), as for symbolic distributions.", "quantifier": "every two numeric distributions, every weight in [0, 1], every x", "why_tests_cant": "the cdfs have unboundedly many pieces", "anchors": ["src/jpt/distributions/univariate/numeric.py: Numeric.update", "src/jpt/distributions/univariate/multinomial.py: Multinomial.update"]}
{"id": "C73", "title": "A variable survives the JSON round trip", "statement": "Variable.from_json(v.to_json()) equals v: same class, name, domain and settings.", "quantifier": "every variable of each class with any settings", "why_tests_cant": "settings take arbitrary values", "anchors": ["src/jpt/variables.py: Variable.to_json", "src/jpt/variables.py: Variable.from_json", "src/jpt/variables.py: NumericVariable.from_json", "src/jpt/variables.py: SymbolicVariable.from_json", "src/jpt/variables.py: IntegerVariable.from_json", "src/jpt/variables.py: Variable.__init__"]}
{"id": "C74", "title": "Assignments hold admissible values only", "statement": "However a LabelAssignment (ValueAssignment) was built and modified, a numeric variable is mapped to a number or number set and a symbolic one to labels (values) of its domain; anything else raises TypeError.", "quantifier": "every history of operations on assignments", "why_tests_cant": "histories of unbounded length", "anchors": ["src/jpt/variables.py: LabelAssignment.__setitem__", "src/jpt/variables.py: ValueAssignment.__setitem__", "src/jpt/variables.py: VariableMap.update", "src/jpt/variables.py: VariableMap.__iadd__"]}
{"id": "C75", "title": "Shifting, scaling and adding Gaussians describes the transformed samples", "statement": "Adding a number to, or multiplying, a Gaussian estimated from samples gives the mean and (co)variance of the shifted or scaled samples; the sum of two Gaussians has the added means and covariances.", "quantifier": "every list of weighted samples, every shift and factor", "why_tests_cant": "arbitrary samples", "anchors": ["src/jpt/distributions/univariate/gaussian.py: Gaussian.__add__", "src/jpt/distributions/univariate/gaussian.py: Gaussian.__mul__"]}
{"id": "C76", "title": "Linear regression of a Gaussian is the least-squares line of its samples", "statement": "linreg() of a two-dimensional Gaussian estimated from samples returns intercept and slope minimising the weighted sum of squared residuals of those samples.", "quantifier": "every list of weighted samples with non-degenerate variance, every competing line", "why_tests_cant": "minimality over all lines and samples", "anchors": ["src/jpt/distributions/univariate/gaussian.py: Gaussian.linreg"]}
{"id": "C77", "title": "Distributions survive JSON, pickling and deep copies", "statement": "Reading what a distribution or its type wrote gives an equal one; so do pickle.loads(pickle.dumps(d)) and copy.deepcopy(d).", "quantifier": "every symbolic or integer type, every distribution of it", "why_tests_cant": "all label sets and parameter vectors", "anchors": ["src/jpt/distributions/univariate/distribution.py: Distribution.__setstate__", "src/jpt/distributions/univariate/distribution.py: Distribution.from_json", "src/jpt/distributions/univariate/multinomial.py: Multinomial.from_json", "src/jpt/distributions/univariate/integer.py: Integer.from_json"]}
{"id": "C78", "title": "Queries do not change the model", "statement": "Every call to infer, posterior, expectation, moment, pdf, likelihood or encode returns what it would return on a freshly loaded copy of the tree, whatever calls came before, and the tree afterwards equals the tree before.", "quantifier": "every tree, every finite sequence of queries", "why_tests_cant": "all histories of queries; the effect of one call only shows in the answer to a later one", "anchors": ["src/jpt/trees.py: JPT.posterior", "src/jpt/trees.py: JPT.expectation", "src/jpt/trees.py: JPT.moment", "src/jpt/distributions/univariate/numeric.py: Numeric._crop", "src/jpt/distributions/univariate/numeric.py: Numeric.create_dirac_impulse"]}
{"id": "C79", "title": "Expectation, variance and moments of a numeric distribution are the integrals of its cdf", "statement": "For a numeric distribution, moment(n, c) is the Stieltjes integral of (x - c)^n against its cdf; expectation() is the first moment around 0 and lies within the support, variance() is the second moment around the expectation and is not negative.", "quantifier": "all numeric distributions (any number of pieces), all orders n, all centers c, all distributions fitted to samples", "why_tests_cant": "Tests compare a few distributions with sampled means; the integral identity has to hold for every cdf, order and center.", "anchors": ["src/jpt/distributions/univariate/numeric.py: Numeric._moment", "src/jpt/distributions/univariate/numeric.py: Numeric.expectation", "src/jpt/distributions/univariate/numeric.py: Numeric.variance", "src/jpt/distributions/univariate/numeric.py: Numeric.moment"]}
{"id": "C80", "title": "The most probable states of a numeric distribution are exactly the values of highest density", "statement": "For a numeric distribution, mpe() returns exactly the set of all values whose density is the largest one, and that density; k_mpe() lists, in descending order and without repetitions, each positive density together with exactly the values that have it, and k_mpe(k) its first k entries.", "quantifier": "all numeric distributions (any number of pieces), all k, all distributions fitted to samples", "why_tests_cant": "Tests look at one or two distributions with few pieces; that no value of the same density is missed and none is added has to hold for every cdf.", "anchors": ["src/jpt/distributions/univariate/numeric.py: Numeric._mpe", "src/jpt/distributions/univariate/numeric.py: Numeric._k_mpe", "src/jpt/distributions/univariate/numeric.py: Numeric.mpe", "src/jpt/distributions/univariate/numeric.py: Numeric.k_mpe"]}
{"id": "C81", "title": "Trees that compare equal are interchangeable", "statement": "If t1 == t2 for two trees, they have the same variables, represent the same joint distribution and answer every infer() query alike; == on trees is reflexive and symmetric, and numeric distributions that compare equal assign the same probability to every interval.", "quantifier": "all pairs of trees, all queries and evidences; all pairs of numeric distributions, all intervals", "why_tests_cant": "A test compares a tree with one copy; that equality never identifies trees with different answers quantifies over all pairs of trees and all queries.", "anchors": ["src/jpt/trees.py: JPT.__eq__", "src/jpt/trees.py: Leaf.__eq__", "src/jpt/trees.py: DecisionNode.__eq__", "src/jpt/variables.py: Variable.__eq__", "src/jpt/variables.py: VariableMap.__eq__", "src/jpt/distributions/univariate/numeric.py: Numeric.__eq__", "src/jpt/distributions/quantile/quantiles.pyx: QuantileDistribution.__eq__"]}
{"id": "C82", "title": "Training data is possible under the learnt model", "statement": "After JPT.learn(data), with or without numeric columns, likelihood() of every row of the training data is positive: no training row falls outside the support of the leaf distributions and no row gets lost between the leaves.", "quantifier": "all tables (any number of rows, numeric, symbolic and integer columns), all settings of min_samples_leaf, min_impurity_improvement and max_depth, all rows of the table", "why_tests_cant": "A test evaluates the likelihood of one table; whether some table has a row on a split point, at the end of a fitted cdf or with a duplicated value whose density vanishes needs all tables.", "anchors": ["src/jpt/trees.py: JPT.learn", "src/jpt/trees.py: JPT.likelihood", "src/jpt/trees.py: JPT.c45", "src/jpt/distributions/univariate/numeric.py: Numeric._fit", "src/jpt/distributions/quantile/quantiles.pyx: QuantileDistribution.fit"]}
{"id": "C83", "title": "Closing the gaps gives every point of the hull a positive density", "statement": "After learning with close_convex_gaps, in every leaf the density of each numeric variable on the path is positive exactly on the hull of the training values and the finite bounds of the path: the cdf is 0 below, 1 above, and within it is (1 - e) times the fitted cdf plus e times the mean of the uniform distributions of the gaps, e = 1 / (2 * number of samples). Learning does not fail, training values stay possible, and nothing else in the tree changes.", "quantifier": "all samples of a leaf, all intervals on its path, all numbers of samples, all points", "why_tests_cant": "Tests look at one learnt tree; the density at each real number of the hull and the placement of the bounds (included or not) need all samples and paths.", "anchors": ["src/jpt/trees.py: JPT.postprocess_leaves", "src/jpt/trees.py: JPT.learn", "src/jpt/distributions/univariate/numeric.py: Numeric.insert_convex_fragments", "src/jpt/distributions/quantile/quantiles.pyx: QuantileDistribution.pdf_to_cdf"]}
{"id": "C84", "title": "Piecewise functions survive serialisation", "statement": "PiecewiseFunction.from_json(f.to_json()) is f again: the same intervals and the same function on each of them.", "quantifier": "all piecewise functions", "why_tests_cant": "A test serialises a few functions; a kind of piece whose writer and reader disagree is only found if it occurs in one of them.", "anchors": ["src/jpt/base/functions.pyx:PiecewiseFunction.to_json", "src/jpt/base/functions.pyx:PiecewiseFunction.from_json", "src/jpt/base/functions.pyx:LinearFunction.from_json", "src/jpt/base/functions.pyx:QuadraticFunction.to_json"]}
{"id": "C85", "title": "Queries mean what they say", "statement": "A query or evidence may be a dictionary from variable names or Variable objects to numbers, lists, intervals, unions, labels or sets of labels. It is accepted exactly if every key which is not mapped to None names a variable of the tree and the object can be said of that variable; then the variables restricted are exactly those mentioned, each to exactly the labels the object describes: the number itself, the numbers between the two ends of a list (None: no bound), the members of an interval or union, the listed labels, for an integer variable the integers from the first to the last. infer answers with the conditional probability of these sets. Variables of other trees and labels a variable does not have are rejected by bind.", "quantifier": "every list of variables with different names, every dictionary, every monotone scaler, every tree over numeric and discrete variables", "why_tests_cant": "The kinds of objects, keys, bounds and domains combine without limit; closed infinite bounds, None entries, repeated mentions by name and object, and the scaling of bounds interact.", "anchors": ["src/jpt/trees.py:JPT.bind", "src/jpt/trees.py:JPT._preprocess_query", "src/jpt/trees.py:JPT._check_variable_assignment", "src/jpt/trees.py:JPT.infer", "src/jpt/variables.py:LabelAssignment", "src/jpt/variables.py:LabelAssignment.value_assignment", "src/jpt/base/utils.py:list2interval", "src/jpt/base/utils.py:list2intset"]}
{"id": "C86", "title": "Reverse lookup ranks the matching leaves", "statement": "jpt.reverse(query, confidence) answers with the leaves under which every variable of the tree takes a value in the set asked for with at least the given probability, and with those probabilities, one per variable in the order of the variables. Variables not mentioned, or mapped to None, do not restrict; unknown keys are ignored, and the answer is empty if no key names a variable. Leaves with a greater sum of probabilities come first, leaves with equal sums stay in the order of the tree.", "quantifier": "every tree over numeric and discrete variables, every dictionary, every threshold", "why_tests_cant": "The answer is a ranking of all leaves by probabilities of arbitrary sets; a wrong default for one kind of variable, a strict threshold or an unstable order only shows for particular trees and queries.", "anchors": ["src/jpt/trees.py:JPT.reverse", "src/jpt/trees.py:JPT._preprocess_query"]}
{"id": "C87", "title": "Sampled rows come from the joint distribution", "statement": "jpt.sample(amount) returns amount rows. Row i is drawn from the leaf chosen for it, which has positive prior, and each entry is the label of a value drawn from that leaf's distribution of the variable, each with its own outcome of the random source; no outcome serves two rows. Every row can be observed: each value has positive probability or density in its leaf. The share of outcomes which yield a value of a symbolic or integer variable is the probability of the value.", "quantifier": "every tree, every number of rows, every sequence of leaves and every outcome of the random source", "why_tests_cant": "A test with random numbers sees a few outcomes and cannot tell a slightly wrong distribution, or rows that share their randomness, from chance.", "anchors": ["src/jpt/trees.py:JPT.sample", "src/jpt/trees.py:Leaf.sample", "src/jpt/base/sampling.py:wsample", "src/jpt/distributions/univariate/numeric.py:Numeric._sample", "src/jpt/distributions/univariate/integer.py:Integer._sample", "src/jpt/distributions/univariate/multinomial.py:Multinomial._sample"]}
{"id": "C88", "title": "A node is called consistent with evidence iff it can be reached", "statement": "A node of a tree answers that it is consistent with some evidence exactly if there is an assignment of values to all variables that satisfies every decision on the way to the node and agrees with the evidence. A leaf answers so exactly if the evidence has positive probability under its distributions, and then the path to the leaf is consistent with the evidence too.", "quantifier": "every path, every collection of variables, every assignment of single values and sets of values to variables", "why_tests_cant": "The answer combines several decisions on the same variable with intervals whose ends may be open or closed; tests check a few combinations and never the value at which a split was made.", "anchors": ["src/jpt/trees.py:Node.consistent_with", "src/jpt/trees.py:Leaf.consistent_with", "src/jpt/trees.py:Leaf.path_consistent_with", "src/jpt/trees.py:Leaf.probability"]}
{"id": "C89", "title": "The divergence of numeric distributions is a divergence", "statement": "kl_divergence(p, q) of two numeric distributions is never negative, at most 1, and zero iff p and q are the same distribution.", "quantifier": "every two numeric distributions of the same type", "why_tests_cant": "unbounded domains and any number and position of pieces", "anchors": ["src/jpt/distributions/univariate/numeric.py: Numeric.kl_divergence"]}
