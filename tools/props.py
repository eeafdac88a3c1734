# Source of properties.jsonl: run  python3 tools/props.py > properties.jsonl
import json
P = []
def prop(id, title, statement, quantifier, why, anchors):
    P.append(dict(id=id, title=title, statement=statement, quantifier=quantifier, why_tests_cant=why, anchors=anchors))

prop("C01", "Evaluating a well-sized curve never panics",
 "If a curve was accepted by Curve::new from p, a knot vector of n+p+2 entries and n+1 control points, then evaluate(u) and evaluate_derivative(u, k) return normally: no index is out of bounds, no usize subtraction underflows, the span search terminates, and an Ok value has one component per coordinate.",
 "all degrees, segment counts, dimensions, knot values (also unsorted, NaN, infinite), control points, parameters u and derivative orders k, in every number system",
 "A test fixes p, n and a few knots; index arithmetic such as l-(p-k) or n+1-k can underflow only for particular combinations of p, n, k and knot multiplicities.",
 ["src/curve/mod.rs: Curve::new, Curve::evaluate, Curve::evaluate_derivative", "src/curve/knots/mod.rs: Knots::find_idx, Knots::evaluate", "src/curve/basis/mod.rs: basis"])
prop("C02", "Parameters outside [0, 1] are rejected, parameters inside are not",
 "evaluate_derivative(u, k) returns Err(ParameterOutOfBounds{u, 0, 1}) exactly when 0 <= u <= 1 is false (NaN included), before anything else is looked at; for u in [0, 1] on a well-sized curve it never returns an error.",
 "all curves, all f64 values u, all orders k",
 "Tests sample a few values; the claim is about every f64 including NaN, infinities, -0.0 and the neighbours of 0 and 1.",
 ["src/curve/mod.rs: Curve::evaluate_derivative, CurveError::ParameterOutOfBounds"])
prop("C03", "Evaluation returns the B-spline sum",
 "On a sorted knot vector of n+p+2 entries evaluate(u) is the full Cox-de Boor sum over all n+1 control points, with the last span closed on the right; evaluate_derivative(u, k) is the same sum for degree p-k, the knot vector without its first and last k entries, and the k-th difference-quotient control points. The restriction of the sum to the indices from l-(p-k) on loses nothing.",
 "all p <= n, all sorted knot vectors (clamped or not, repeated knots allowed), all control points of any dimension, all u in [0, 1], all k <= p, exact arithmetic",
 "The span search stops early at repeated knots, so the window of summed indices depends on the multiplicity pattern; a finite set of curves cannot cover all patterns.",
 ["src/curve/mod.rs: Curve::evaluate_derivative", "src/curve/knots/mod.rs: Knots::find_idx (LeftOrEqual)", "src/curve/basis/mod.rs: basis", "src/curve/points/mod.rs: ControlPoints::derive"])
prop("C04", "Basis functions are non-negative, locally supported and sum to one",
 "For a clamped sorted knot vector and u in [0, 1], Knots::evaluate(0, i, p, u) is >= 0 for every i in 0..=n, is 0 unless U[i] <= u <= U[i+p+1], and the n+1 values sum to exactly 1.",
 "all degrees, segment counts, clamped sorted knot vectors and u in [0, 1], exact arithmetic",
 "Partition of unity and positivity are identities over a continuum of u and knots; the unit tests check a handful of rationals.",
 ["src/curve/basis/mod.rs: basis", "src/curve/knots/mod.rs: Knots::evaluate"])
prop("C05", "A curve point lies in the convex hull of the p+1 active control points",
 "For p <= j <= n and u in [U[j], U[j+1]], evaluate(u) is a combination of the p+1 control points P[j-p], ..., P[j] with non-negative weights that sum to 1. (At the right end of the span this needs the knot there to occur at most p times: a curve may jump at a knot of multiplicity p+1.)",
 "all clamped sorted curves in any dimension, all spans j, all u in the span, exact arithmetic",
 "It quantifies over all control polygons, knot patterns and parameters.",
 ["src/curve/mod.rs: Curve::evaluate", "src/curve/basis/mod.rs: basis"])
prop("C06", "A clamped curve starts at the first and ends at the last control point",
 "evaluate(0.0) returns the first control point and evaluate(1.0) the last one.",
 "all clamped sorted curves of any degree, size and dimension, exact arithmetic",
 "The end value relies on the closing clause of the degree-0 basis function reaching every degree and every internal knot pattern.",
 ["src/curve/mod.rs: Curve::evaluate", "src/curve/basis/mod.rs: basis"])
prop("C07", "Derivatives of order above the degree are zero",
 "For k > p and u in [0, 1], evaluate_derivative(u, k) returns Ok of the zero vector with one component per coordinate.",
 "all curves, all u in [0, 1], all k > p, in every number system",
 "k is unbounded; the code must not touch the derivative caches, which have only p+1 entries.",
 ["src/curve/mod.rs: Curve::evaluate_derivative"])
prop("C08", "evaluate_derivative(u, k+1) is the derivative of evaluate_derivative(u, k)",
 "In every coordinate, the difference quotients of v -> evaluate_derivative(v, k) on [0, 1] converge to evaluate_derivative(u, k+1) as v -> u, for k < p, at every u whose multiplicity as an internal knot is at most p-k-1 (one-sided at 0 and 1). At a knot of higher multiplicity it is the right-hand derivative.",
 "all clamped sorted curves, all k < p, all u in [0, 1], exact arithmetic",
 "Being a derivative is a limit statement; tests compare with finitely many hand-computed numbers.",
 ["src/curve/mod.rs: Curve::evaluate_derivative", "src/curve/points/mod.rs: ControlPoints::derive, derive_single_point", "src/curve/knots/mod.rs: Knots::derive"])
prop("C09", "The curve has p-m continuous derivatives at a knot of multiplicity m",
 "v -> evaluate_derivative(v, k) is continuous on [0, 1] at every u whose multiplicity as an internal knot is at most p-k.",
 "all clamped sorted curves, all k <= p, all u in [0, 1], exact arithmetic",
 "Continuity is a statement about all parameters near u.",
 ["src/curve/mod.rs: Curve::evaluate_derivative", "src/curve/basis/mod.rs: basis"])
prop("C10", "Local control: a control point influences only p+1 spans",
 "If two curves with the same knots differ only in control point i, they evaluate to the same point at every u outside [U[i], U[i+p+1]].",
 "all clamped sorted knot vectors, all pairs of control polygons differing in one point, all u, exact arithmetic",
 "Ranges over pairs of curves.",
 ["src/curve/mod.rs: Curve::evaluate", "src/curve/basis/mod.rs: basis"])
prop("C11", "Affine invariance",
 "Applying an affine map (matrix and translation) to the control points and then evaluating gives the affine image of the evaluated point.",
 "all clamped sorted curves, all affine maps between spaces of any dimensions, all u in [0, 1], exact arithmetic",
 "Ranges over all affine maps.",
 ["src/curve/mod.rs: Curve::evaluate"])
prop("C12", "The derivative curve evaluates to the derivative",
 "For k <= p, get_derivative_curve(k) returns a curve of degree p-k and n+1-k control points whose evaluate(u) equals evaluate_derivative(u, k) of the original for every u, including the error for u outside [0, 1].",
 "all well-sized curves accepted by Curve::new with any knots, all k <= p, all u, in every number system",
 "Ranges over all orders and parameters; the two computations take different paths through knot vectors and the span search.",
 ["src/curve/mod.rs: Curve::get_derivative_curve, Curve::evaluate_derivative"])
prop("C13", "Reversing a curve reverses its parametrisation",
 "After reverse(), evaluate(u) equals the old evaluate(1-u), and evaluate_derivative(u, k) equals (-1)^k times the old evaluate_derivative(1-u, k) at every u that is not an internal knot, or is one of multiplicity at most p-k.",
 "all clamped sorted curves, all k <= p, all u in [0, 1], exact arithmetic",
 "The half-open spans of the basis change sides under reversal, so the claim at knots depends on multiplicities.",
 ["src/curve/mod.rs: Curve::reverse", "src/manipulation/reverse.rs: reverse, reversed", "src/curve/knots/mod.rs: reverse", "src/curve/points/mod.rs: ControlPoints::reverse"])
prop("C14", "Reversing twice gives back the curve",
 "reverse() applied twice returns exactly the original knots, control points and derivative caches.",
 "all curves accepted by Curve::new, exact arithmetic (a binary64 counterexample is property C42)",
 "In floats small test numbers round-trip; the exact statement is for all knots and points.",
 ["src/curve/mod.rs: Curve::reverse", "src/curve/knots/mod.rs: reverse", "src/curve/points/mod.rs: reverse"])
prop("C15", "Derivative caches stay coherent",
 "Every curve obtained from Curve::new followed by any sequence of insert, insert_times, reverse and split steps is identical (knots, points, all cached derivatives, k_max) to the curve Curve::new would build from its current knot vector and control points.",
 "all initial curves with sorted clamped knots, all finite sequences of manipulations that return, exact arithmetic",
 "Unbounded sequences of operations; a stale cache shows only when a later derivative is evaluated.",
 ["src/curve/mod.rs: Curve::new, Curve::reverse, Curve::insert, calculate_derivatives", "src/manipulation/insert.rs: insert", "src/manipulation/split.rs: split"])
prop("C16", "Inserting a knot does not change the curve",
 "If no internal knot smaller than u is repeated, insert(u) returns Ok and the new curve has the same value, the same derivatives of every order and the same errors at every parameter as the old one; insert_times(u, x) likewise, as long as u ends up at most p+1 times in the knot vector.",
 "all clamped sorted curves, all u in (0, 1) with multiplicity at most p in the knot vector and no repeated internal knot below u, all evaluation parameters, exact arithmetic",
 "Equality of two piecewise polynomial functions for all knots, control points and parameters.",
 ["src/manipulation/insert.rs: insert", "src/curve/mod.rs: Curve::insert"])
prop("C17", "Knot insertion: errors and size of the result",
 "insert(u) leaves the curve untouched and returns OutOfBounds iff u <= 0 or u >= 1; otherwise it leaves it untouched and returns a multiplicity error iff u occurs more than p times; otherwise it returns Ok and the curve has one more control point and one more knot, namely u, and the same degree and dimension.",
 "all well-sized curves, all u",
 "Ranges over all multiplicity patterns and parameters.",
 ["src/manipulation/insert.rs: insert, InsertError", "src/curve/mod.rs: Curve::insert"])
prop("C18", "Splitting reproduces the two halves",
 "If no internal knot smaller than u is repeated, split(u) returns Ok((left, right)) with left.evaluate(t) = evaluate(t*u) and right.evaluate(t) = evaluate(u + t*(1-u)) for every t in [0, 1], both of the same degree and dimension and clamped on [0, 1]; the k-th derivatives of the halves are u^k and (1-u)^k times those of the original (at the right end of the left half if the multiplicity of u is at most p-k).",
 "all clamped sorted curves, all u in (0, 1) with multiplicity at most p, all t in [0, 1], exact arithmetic",
 "Equality of functions on a continuum for all curves and split points; tests check one polygon.",
 ["src/manipulation/split.rs: split, split_and_normalize", "src/curve/mod.rs: Curve::split"])
prop("C19", "Split errors",
 "split(u) returns OutOfBounds iff u <= 0 or u >= 1 (in every number system), and on a sorted clamped curve without repeated internal knots below u it returns MultiplicityTooHigh iff the knot u occurs more than p times and Ok otherwise.",
 "all curves, all u",
 "Ranges over all parameters and multiplicities.",
 ["src/manipulation/split.rs: split_and_normalize, SplitError"])
prop("C20", "Uniform knot vectors",
 "knots::methods::uniform(p, n) returns Err(DegreeTooLow) iff p = 0, Err(DegreeAndSegmentsMismatch) iff p >= 1 and n < p, and otherwise a knot vector with n+p+2 entries, p+1 zeros, internal knots i/(n-p+1), p+1 ones: sorted, clamped, strictly increasing in the interior, accepted by is_clamped, is_normed, is_sorted and is_uniform.",
 "all p and n, exact arithmetic",
 "Unbounded p and n.",
 ["src/curve/knots/methods.rs: uniform, inputCheck", "src/curve/knots/mod.rs: is_clamped, is_normed, is_sorted, is_uniform"])
prop("C21", "Averaged knot vectors",
 "knots::methods::averaging(p, n, params) with n+1 non-decreasing parameters in [0, 1] returns a clamped sorted knot vector whose internal knot j is the mean of parameters j..j+p-1; with strictly increasing parameters the internal knots are strictly increasing and strictly inside (0, 1).",
 "all 1 <= p <= n and all admissible parameter vectors, exact arithmetic",
 "Unbounded p, n and parameters.",
 ["src/curve/knots/methods.rs: averaging"])
prop("C22", "de Boor knot vectors contain a parameter in every span",
 "knots::methods::de_boor(p, n, params) with n+1 strictly increasing parameters from 0 to 1 does not panic, returns a clamped sorted knot vector, and every knot span contains at least one parameter, as its documentation guarantees.",
 "all 1 <= p <= n and all strictly increasing parameter vectors from 0 to 1, exact arithmetic",
 "The documentation states a guarantee for all inputs; tests check three small vectors.",
 ["src/curve/knots/methods.rs: de_boor"])
prop("C23", "Generated parameters run from 0 to 1",
 "For m >= 1 segments equally_spaced gives g/m for g = 0..m; chord_length and centripetal give, for data without coincident neighbours, m+1 strictly increasing values from 0 to 1 whose increments are proportional to the chord lengths (resp. their square roots).",
 "all m >= 1 and all data points of any dimension, exact arithmetic",
 "Unbounded number of points; the last parameter is overwritten by 1, which is consistent only if the increments sum to one.",
 ["src/curve/parameters/methods.rs: equally_spaced, chord_length, centripetal", "src/curve/parameters/mod.rs: generate"])
prop("C24", "Interpolation succeeds, passes through the data and is the only such curve",
 "If the linear solver solves every system that has a solution, generate(Interpolation{degree, points}) returns Ok for 1 <= p <= m; the curve has clamped uniform knots, evaluate(g/m) equals data point g for every g = 0..m, and no other control points with these knots do this. Degree 0 and p > m give the errors DegreeTooLow and DegreeAndSegmentsMismatch.",
 "all degrees 1 <= p <= m, all data points, all solvers that solve the solvable systems, all competing curves, exact arithmetic",
 "Unbounded data and degrees; existence and uniqueness are the Schoenberg-Whitney theorem. Tests check points on a line.",
 ["src/curve/generation/mod.rs: generate (Interpolation)", "src/curve/points/methods/interpolation.rs: interpolate"])
prop("C25", "The loose-ends fit exists and is the unique minimiser of the penalised squared error",
 "If the solver solves every system that has a solution, generate(LeastSquaresFit{.., LooseEnds, penalization}) returns Ok for 1 <= p <= n <= m, lambda >= 0, 1 <= kappa <= n-1; its clamped uniform-knot curve minimises the sum of squared distances of the data points from the curve at g/m plus lambda times the sum of squared kappa-th differences of the control points over all curves with these knots, and any curve that does as well has the same control points.",
 "all degrees, data points, intended segment counts, lambda >= 0, 1 <= kappa <= n-1, all competing control polygons, all such solvers, exact arithmetic",
 "A minimum over an infinite set of competitors.",
 ["src/curve/points/methods/fit/loose.rs: fit", "src/curve/points/methods/fit/mod.rs: compute_svd, difference_operator"])
prop("C26", "The fixed-ends fit exists, keeps the end points and is the unique minimiser",
 "Under the same solver assumption generate(LeastSquaresFit{.., FixedEnds, penalization}) returns Ok for 1 <= p <= n, 2 <= n <= m, lambda >= 0, 1 <= kappa <= n-2; evaluate(0) and evaluate(1) are the first and last data point, and among the curves with the same knots and end points it is the only minimiser of the sum of squared errors plus lambda times the squared kappa-th differences of the inner control points.",
 "all degrees, data points, intended segment counts, penalisations, competing curves, all such solvers, exact arithmetic",
 "A minimum over an infinite set of competitors.",
 ["src/curve/points/methods/fit/fixed.rs: fit"])
prop("C27", "Least-squares fits report bad input as errors",
 "generate(LeastSquaresFit) with a degree p >= 1, n >= p, n <= m, lambda >= 0 and kappa <= n-1 returns Ok or Err and does not panic.",
 "all inputs of generate(LeastSquaresFit), any solver that returns",
 "The accepted inputs form an unbounded set; the panicking ones are isolated combinations of kappa and n.",
 ["src/curve/points/methods/fit/mod.rs: input_checks, compute_svd", "src/curve/points/methods/fit/fixed.rs: calculate_finite_difference_matrix", "src/curve/points/methods/fit/loose.rs: calculate_finite_difference_matrix"])
prop("C28", "The penalty matrix holds the finite differences",
 "For kappa >= 1 row i of the difference matrix has entry (-1)^(kappa-d) * binomial(kappa, d) in column i+d and zeros elsewhere; applied to points it gives their kappa-th forward differences.",
 "all kappa, rows and columns",
 "Unbounded kappa.",
 ["src/curve/points/methods/fit/mod.rs: difference_operator"])
prop("C29", "Merge refuses incompatible curves with the right error",
 "merge, merge_from, merge_to return DegreeMismatch, DimensionMismatch, UnclampedCurve, UnnormedCurve, TooManyConstraints exactly in this order of precedence when degrees differ, dimensions differ, a curve is not clamped, not normed, or the number of constraints is not below the degree.",
 "all pairs of curves accepted by Curve::new without NaN knots, all constraint lists",
 "Combinations of failing conditions and their precedence are unbounded.",
 ["src/manipulation/merge.rs: merge_with_constraints, MergeError"])
prop("C30", "Shape of a merged curve",
 "Merging two clamped normed sorted curves of the same degree with m and o segments, when it returns Ok, gives a curve of the same degree and dimension with m+o+2-p control points whose knot vector is the left one compressed to [0, 1/2] followed by the right one compressed to [1/2, 1], the joint knot 1/2 having multiplicity one.",
 "all pairs of clamped sorted curves, all constraints, any solver, exact arithmetic",
 "Unbounded knots and points.",
 ["src/manipulation/merge.rs: adjust_knots, create_merged_knot_vector, generate_control_point_vector_of_merged_spline"])
prop("C31", "Merging moves the fewest points and joins smoothly (degree 1 and 2)",
 "For two curves of degree p = 1 or 2 with equally many control points, and a solver that solves every solvable system, merging succeeds. On [0, 1/2] the result is the first curve with only its last p control points moved, run at double speed; on [1/2, 1] it is the second curve with only its first p control points moved. The two moved curves meet with the same point and the same derivatives up to order p-1, and the sum of the squared distances by which control points were moved is the smallest possible under these conditions and the given point constraints.",
 "all pairs of clamped sorted curves of degree 1 or 2 with equally many control points, all admissible constraint lists, all solvers that solve solvable systems, exact arithmetic",
 "Equality of functions at every parameter and optimality against infinitely many alternatives, for all curves.",
 ["src/manipulation/merge.rs: merge, merge_with_constraints, construct_Nmat, calculateKconst, adjust_shifted_control_points"])
prop("C32", "Constrained points stay where they are (degree 2)",
 "For degree 2 and equally many control points, if the solver solves every solvable system: the merged curve at u/2 is the point of the first curve at u for every constrained parameter u of the first curve, and at (1+u)/2 the point of the second curve at u for every constrained parameter u of the second. In particular merge_from keeps the end point of the first curve and merge_to the start point of the second as the joint.",
 "all pairs of clamped sorted quadratic curves with equally many control points, all constraint lists the merge accepts, all solvers that solve solvable systems, exact arithmetic",
 "Ranges over all curves, parameters and solvers.",
 ["src/manipulation/merge.rs: merge_from, merge_to, calculateGV, calculateHW, calculateIpV, calculateJppW"])
prop("C33", "Merging curves with different segment counts works",
 "merge(a, b) of two curves of the same degree and dimension but different numbers of control points returns a curve that still starts at the start of a and ends at the end of b.",
 "all pairs of clamped normed curves of equal degree",
 "The unit tests only merge curves with equal numbers of points.",
 ["src/manipulation/merge.rs: adjust_shifted_control_points_of_both_splines"])
prop("C34", "Merging curves that already fit together changes nothing (degree 3 and up)",
 "Merging two pieces of the same constant curve gives that constant curve, for every degree.",
 "all degrees",
 "The unit tests stop at degree 2.",
 ["src/manipulation/merge.rs: adjust_shifted_control_points, generateDerivativeControlPoint"])
prop("C35", "The span search returns the span of the parameter",
 "On a sorted vector find_idx(u, k, Left) returns the last domain index whose knot is < u (first domain index if there is none), LeftOrEqual the last one whose knot is <= u capped at n-k provided no internal knot <= u is repeated, Right the first whose knot is > u, RightOrEqual (k < p) the first whose knot is >= u provided no internal knot >= u is repeated. LeftOrEqual never panics in any number system and its result always lies in p-k..=n-k. The bisection find_index returns None left of the domain and otherwise the last index up to n+1-k whose knot is <= u, repeated knots or not.",
 "all sorted knot vectors of n+p+2 entries, all u, all k <= p",
 "Loops over unbounded vectors.",
 ["src/curve/knots/mod.rs: Knots::find_idx"])
prop("C36", "The predicates on knot vectors mean what they say",
 "is_sorted is true iff the knots are non-decreasing; is_clamped iff the first p+1 are 0 and the last p+1 are 1; is_normed iff the smallest is 0 and the largest is 1; is_uniform iff the vector is the one uniform(p, n) builds.",
 "all knot vectors, exact arithmetic; is_sorted and is_clamped in every number system",
 "Unbounded vectors.",
 ["src/curve/knots/mod.rs: is_sorted, is_clamped, is_normed, is_uniform"])
prop("C37", "Normalising and rescaling knots are the affine maps they claim to be",
 "rescale((a, b), (c, d)) with a <> b maps every knot x to c + (x-a)/(b-a)*(d-c); normalize maps a non-constant vector onto one with minimum 0 and maximum 1, keeps the order of the knots, and leaves a vector with minimum 0 and maximum 1 unchanged.",
 "all knot vectors and limits, exact arithmetic",
 "Unbounded vectors, continuum of values.",
 ["src/curve/knots/mod.rs: Knots::rescale, Knots::normalize, rescale, normalize, rescaled_knot"])
prop("C38", "Curve::new accepts exactly n >= p and fills all caches",
 "For at least one control point and a knot vector of n+p+2 entries Curve::new returns Err(DegreeAndSegmentsMismatch{p, n}) iff n < p, and otherwise a curve with max_derivative() = p, knot vectors of lengths n+p+2-2k and point matrices with n+1-k columns for k = 0..p.",
 "all p, n, dimensions, knots and points; exact arithmetic and binary64",
 "Unbounded sizes.",
 ["src/curve/mod.rs: Curve::new, max_derivative", "src/curve/knots/mod.rs: Knots::derive", "src/curve/points/mod.rs: ControlPoints::derive"])
prop("C39", "Evaluation of a sorted clamped curve with finite data is never NaN in binary64",
 "If all knots, control points and u are finite, the knots clamped to [0, 1] and sorted, evaluate(u) returns finite numbers.",
 "all binary64 inputs",
 "A division can overflow and be multiplied by a zero basis value only for knots closer together than about 1e-308.",
 ["src/curve/basis/mod.rs: basis", "src/curve/mod.rs: Curve::evaluate"])
prop("C40", "The knot vector and the points are not cross-checked by Curve::new",
 "A curve accepted by Curve::new can be evaluated at every parameter in [0, 1] without panicking.",
 "all knots and points accepted by Curve::new (no assumption on the knot count)",
 "Users rely on an Ok from the constructor; the mismatching sizes form an unbounded set.",
 ["src/curve/mod.rs: Curve::new, Curve::evaluate"])
prop("C41", "Inserting a knot keeps the knot vector sorted and the curve unchanged at every u",
 "For a sorted clamped curve and every u in (0, 1) with multiplicity below p, insert(u) leaves the knots sorted and the curve unchanged (also when a repeated internal knot lies below u).",
 "all clamped sorted curves, all u in (0, 1)",
 "Only knot vectors with a repeated internal knot left of u show a difference.",
 ["src/manipulation/insert.rs: insert", "src/curve/knots/mod.rs: Knots::find_idx (LeftOrEqual)"])
prop("C42", "Reversing twice gives back the knots in binary64",
 "reverse() twice returns the original knots bit for bit.",
 "all binary64 curves",
 "Test knots such as 0.25 round-trip exactly.",
 ["src/curve/knots/mod.rs: reverse"])
prop("C43", "A failing insert_times leaves the curve unchanged",
 "If insert_times(u, x) returns an error, the curve is the same as before the call.",
 "all curves, u and x",
 "Only runs that fail after a first success show a difference.",
 ["src/curve/mod.rs: Curve::insert_times"])
prop("C44", "Between two knots the curve is a polynomial of degree at most p",
 "On each half-open knot span every coordinate of evaluate(u) is given by one polynomial of degree at most p.",
 "all clamped sorted curves, all spans, exact arithmetic",
 "A statement about a continuum of parameters.",
 ["src/curve/mod.rs: Curve::evaluate", "src/curve/basis/mod.rs: basis"])
prop("C45", "Evaluation stays an affine combination of the control points for unclamped knots",
 "For every sorted knot vector and every u in [0, 1] inside the domain [U[p], U[n+1]] the basis functions sum to 1.",
 "all sorted knot vectors",
 "Only vectors whose knot n+1 equals u and differs from knot n+2 show a difference.",
 ["src/curve/basis/mod.rs: basis"])
prop("C46", "Manual generation: errors and result",
 "generate(Manual{degree, points, knots}) returns Err(DegreeAndSegmentsMismatch) iff there are at most `degree` points, Err(DegreeTooLow) for degree 0 with generated knots, with generated knots otherwise a clamped curve of the requested degree with exactly the given control points on the knots that the generator returns, and with given knots whatever Curve::new returns for them.",
 "all degrees, point matrices with at least one point, knot generation methods, exact arithmetic",
 "Unbounded inputs.",
 ["src/curve/generation/mod.rs: generate (Manual)", "src/curve/knots/mod.rs: generate"])
prop("C47", "prepend_constrained keeps each curve's own constraints",
 "prepend_constrained(cs, other, co) constrains self at the parameters cs and other at the parameters co.",
 "all curves and constraints",
 "No unit test calls it; swapped arguments show only for asymmetric constraints.",
 ["src/curve/mod.rs: Curve::prepend_constrained"])
prop("C48", "segments_derivative(k) counts the segments of the k-th derivative",
 "Knots::segments_derivative(k) returns n-k for every k <= p.",
 "all knots and k <= p",
 "The subtraction p + 2 - 2k underflows only for k above p/2 + 1.",
 ["src/curve/knots/mod.rs: Knots::segments_derivative"])
prop("C49", "A derivative curve is a full curve",
 "The curve returned by get_derivative_curve(k) supports max_derivative() and evaluate_derivative(u, j) for every j like any other curve.",
 "all curves and k < p",
 "The unit test only evaluates the derivative curve itself.",
 ["src/curve/mod.rs: Curve::get_derivative_curve, Curve::max_derivative"])
prop("C50", "split reports a too high multiplicity as an error",
 "split(u) on a sorted clamped curve returns Ok or Err and does not panic.",
 "all sorted clamped curves, all u",
 "Only knot vectors with two repeated internal knots, the right one of multiplicity p+1, show the panic.",
 ["src/manipulation/split.rs: split_and_normalize", "src/curve/knots/mod.rs: Knots::find_idx (LeftOrEqual)"])
prop("C51", "The search from the right works for every derivative order",
 "find_idx(u, k, RightOrEqual) returns a domain index for every k <= p and u.",
 "all knot vectors, all u, all k <= p",
 "Only k = p with u at or below the first domain knot shows the underflow.",
 ["src/curve/knots/mod.rs: Knots::find_idx (RightOrEqual)"])
prop("C52", "Manual generation honours the requested degree",
 "generate(Manual{degree, points, knots: Manual{knots}}) returns an error or a curve of degree `degree`.",
 "all degrees, points and given knots",
 "Every test passes knots of the requested degree; the request is silently ignored otherwise.",
 ["src/curve/generation/mod.rs: generate (Manual)"])
prop("C53", "Normalised knots are consistent",
 "After Knots::normalize the derivative knot vectors are those which Knots::new computes from the normalised vector.",
 "all non-constant knot vectors",
 "The derivative vectors are not visible in tests on clamped knots, where both agree; only unclamped knots differ.",
 ["src/curve/knots/mod.rs: Knots::normalize"])
prop("C54", "Which inputs a least-squares fit accepts and which error it reports",
 "With a solver that returns: degree 0 gives DegreeTooLow; n < p DegreeAndSegmentsMismatch; m < n the data segment error; kappa > n-1 the kappa error; negative lambda NegativeLambda; otherwise the loose fit returns Ok, and so does the fixed fit for n >= 2 and kappa <= n-2.",
 "all inputs of generate(LeastSquaresFit), all solvers that return, exact arithmetic",
 "Unbounded combinations of degree, counts and penalisation.",
 ["src/curve/generation/mod.rs: generate (LeastSquaresFit)", "src/curve/points/methods/fit/mod.rs: input_checks, compute_svd"])
prop("C55", "Interpolating or fitting samples of a curve gives that curve back",
 "If the data points are evaluate(g/m) of a curve with clamped uniform knots, degree p and n segments, then Interpolation (n = m), the loose fit (n <= m) and the fixed fit (2 <= n <= m) return exactly that curve, provided the penalty of its control points is zero (in particular without penalisation).",
 "all curves with uniform knots, all m >= n, all solvers that solve the solvable systems, exact arithmetic",
 "Ranges over all curves and data counts.",
 ["src/curve/generation/mod.rs: generate", "src/curve/points/methods/interpolation.rs: interpolate", "src/curve/points/methods/fit/loose.rs: fit", "src/curve/points/methods/fit/fixed.rs: fit"])
prop("C56", "A penalisation with lambda 0 or kappa 0 has no effect",
 "For an accepted input, generate(LeastSquaresFit) with penalisation lambda = 0, or with lambda >= 0 and kappa = 0, returns the same result as without penalisation.",
 "all accepted inputs, any solver, exact arithmetic",
 "Unbounded inputs; kappa = 0 silently penalises nothing.",
 ["src/curve/points/methods/fit/mod.rs: compute_svd, difference_operator"])
prop("C57", "Merging never touches control points away from the joint",
 "Merging two curves of any degree p >= 1 with equally many control points succeeds whatever matrix the solver returns, as long as it has the right size. All but the last p control points of the first curve and all but the first p of the second appear unchanged in the result, so the merged curve starts where the first curve starts and ends where the second ends.",
 "all degrees, all pairs of clamped sorted curves with equally many control points, all constraint lists shorter than the degree, all solvers that return matrices of the right size, exact arithmetic",
 "Ranges over all curves and all solver results; includes the absence of panics in the index arithmetic for every degree.",
 ["src/manipulation/merge.rs: merge_with_constraints, generate_shifted_control_point_vectors_of_spline1and2, adjust_shifted_control_points, generate_control_point_vector_of_merged_spline"])
prop("C58", "Evaluation in binary64 is accurate",
 "For a clamped sorted curve of degree p <= 100 with finite knots of which no two distinct neighbours are closer than 2^-1000, finite control points with coordinates of size at most M (2^-1000 <= M <= 2^1022) and a finite parameter in [0, 1], evaluate returns finite numbers, each within (6 p + 3) 2^-53 M of the value that exact arithmetic gives for the same data.",
 "all binary64 clamped sorted curves as described, all dimensions and numbers of points, all binary64 parameters in [0, 1]",
 "Ranges over all binary64 inputs; an error bound for the recursion needs an analysis of every rounding, and NaN or overflow would only show on rare data (see C39).",
 ["src/curve/basis/mod.rs: basis", "src/curve/mod.rs: Curve::evaluate", "src/curve/knots/mod.rs: Knots::evaluate"])
prop("C59", "Basis functions in binary64 stay non-negative, local and sum to one up to rounding",
 "On knots as in C58, every basis function value returned by Knots::evaluate is finite, non-negative, exactly 0 where the parameter lies outside the support, and within a relative error of (5 p + 1) 2^-53 (plus 2^-700) of the exact value; the values sum to one within (5 p + 1) 2^-53.",
 "all binary64 clamped sorted knot vectors without absurdly close neighbours, degrees up to 100, all binary64 parameters in [0, 1]",
 "Ranges over all binary64 knot vectors; non-negativity and exact zeros under rounding cannot be sampled exhaustively.",
 ["src/curve/basis/mod.rs: basis", "src/curve/knots/mod.rs: Knots::evaluate"])
prop("C60", "In binary64 a clamped curve starts and ends exactly in its outer control points",
 "For knots as in C58 and finite control points, of any degree and size, evaluate(0.0) (also evaluate(-0.0)) returns the first control point and evaluate(1.0) the last one, without any rounding error.",
 "all binary64 clamped sorted curves without absurdly close knots, every degree",
 "Exact equality of floating-point results over all knot vectors and degrees.",
 ["src/curve/basis/mod.rs: basis", "src/curve/mod.rs: Curve::evaluate"])
prop("C61", "Uniform knots in binary64 are strictly increasing, correctly rounded and recognised",
 "For 1 <= p <= n with fewer than 2^51 interior knots, the uniform generator succeeds in binary64; the knots are clamped, sorted, strictly increasing from place p to place n + 1, each within 2^-53 of i / (n - p + 1), satisfy the conditions of C58, and is_clamped, is_sorted and is_uniform all return true on them.",
 "all degrees and segment counts up to 2^51 interior knots, binary64",
 "Rounded divisions could collapse neighbouring knots for some segment count; the range is far too large to enumerate.",
 ["src/curve/knots/methods.rs: uniform", "src/curve/knots/mod.rs: is_clamped, is_sorted, is_uniform"])
prop("C62", "Equally spaced parameters in binary64 increase strictly from 0 to 1",
 "For 1 <= m <= 2^51 the m + 1 equally spaced parameters are finite, strictly increasing, start at 0 and end at 1 exactly and are within 2^-53 of g / m.",
 "all segment counts up to 2^51, binary64",
 "Rounding could make two parameters coincide or miss 1.0 for some m.",
 ["src/curve/parameters/methods.rs: equally_spaced"])
prop("C63", "Splitting without normalisation leaves the parts on their own parameter range",
 "split_and_normalize(c, u, flags) succeeds exactly with the parts of split for flags that are set; a part that is not normalised returns, at every parameter of its own range ([0, u] for the left, [u, 1] for the right part), the same point and the same derivatives as the original curve.",
 "all clamped sorted curves, all u in (0, 1) with multiplicity at most p and no repeated knot below u, all four flag combinations, all parameters, all derivative orders up to p, exact arithmetic",
 "Continuum of curves and parameters; the unit tests look at one curve.",
 ["src/manipulation/split.rs: split_and_normalize, split"])
prop("C64", "Mapping the knots affinely reparametrises the curve",
 "A curve with the same control points over the knots a x + b (a > 0) returns at a u + b what the original returns at u; its k-th derivative is the original one divided by a^k.",
 "all sorted knot vectors (clamped or not), all control points, all a > 0 and b, all parameters for which both sides lie in [0, 1], all k <= p, exact arithmetic",
 "Continuum of knot vectors, maps and parameters.",
 ["src/curve/mod.rs: Curve::new, evaluate_derivative", "src/curve/knots/mod.rs: rescale", "src/curve/basis/mod.rs: basis"])
prop("C65", "append puts the other curve behind, prepend in front, and both panic where merge refuses",
 "For clamped curves of degree p >= 1 with equally many control points, append(other) succeeds, is merge(self, other), starts where self starts and ends where other ends; prepend(other) is merge(other, self), starts where other starts and ends where self ends; the constrained variants likewise. If degrees or dimensions differ, or a curve is not clamped or not normed, all four panic.",
 "all degrees, all such curves, all constraint lists shorter than p, all solvers that return matrices of the right size, exact arithmetic",
 "Ranges over all curves and all solver results; the examples in the documentation check one pair of curves.",
 ["src/curve/mod.rs: append, prepend, append_constrained, prepend_constrained"])
prop("C66", "A curve crosses a hyperplane no more often than its control polygon",
 "If the points of the curve at k + 1 increasing parameters lie strictly on alternating sides of a hyperplane, there are k + 1 control points, in the order of the polygon, on the same alternating sides.",
 "all degrees, dimensions, clamped sorted knots (any multiplicities), control points, hyperplanes, numbers of crossings and parameters, exact arithmetic",
 "Quantifies over all hyperplanes and all choices of parameters of all curves; the reason is a refinement argument, not a value.",
 ["src/curve/mod.rs: Curve::evaluate", "src/curve/basis/mod.rs: basis"])
prop("C67", "Control points that advance in a direction give a curve that advances",
 "If a linear functional does not decrease along the control points, it does not decrease along the curve.",
 "all degrees, dimensions, clamped sorted knots, control points, linear functionals and pairs of parameters, exact arithmetic",
 "A test compares finitely many pairs of parameters on one curve.",
 ["src/curve/mod.rs: Curve::evaluate"])
prop("C68", "A curve is not longer than its control polygon",
 "The total length of any chain of chords between points of the curve at non-decreasing parameters is at most the length of the control polygon.",
 "all degrees, dimensions, clamped sorted knots, control points, chains of any length, exact arithmetic",
 "Supremum over all chains of chords of all curves.",
 ["src/curve/mod.rs: Curve::evaluate"])
prop("C69", "A curve determines its control points",
 "Two clamped curves with the same knots that return the same point at every parameter have the same control points, provided no knot occurs p + 2 times in a row.",
 "all degrees, dimensions, clamped sorted knots with U[i] < U[i+p+1], all pairs of control point matrices, exact arithmetic",
 "Linear independence of the basis functions cannot be sampled.",
 ["src/curve/mod.rs: Curve::evaluate", "src/curve/basis/mod.rs: basis"])
prop("C70", "Linear precision",
 "If the control points lie on a line at the averages of p successive knots, the curve is that line traversed at constant speed.",
 "all degrees p >= 1, clamped sorted knots, lines in any dimension, all parameters, exact arithmetic",
 "Continuum of parameters and knot vectors.",
 ["src/curve/mod.rs: Curve::evaluate", "src/curve/basis/mod.rs: basis"])
prop("C71", "Interpolation and fits follow affine maps of the data",
 "If every data point is mapped by x -> A x + b (also between spaces of different dimension), the interpolating curve, the loose-ends fit and the fixed-ends fit, with or without penalisation, are mapped by the same map at every parameter.",
 "all degrees, segment counts, data, linear maps A, offsets b, penalisations with 1 <= kappa within bounds and lambda >= 0, all parameters; exact arithmetic, any solver that solves solvable systems",
 "Quantifies over all maps and all data; the linear systems differ from case to case.",
 ["src/curve/generation/mod.rs: generate", "src/curve/points/methods/interpolation.rs: interpolate", "src/curve/points/methods/fit/loose.rs: fit", "src/curve/points/methods/fit/fixed.rs: fit"])
prop("C72", "Interpolation and fits of reversed data give the reversed curve",
 "For data in reverse order, interpolation, the loose-ends fit and the fixed-ends fit (with or without penalisation) return exactly the curve that reverse() makes of the curve for the original data.",
 "all degrees, segment counts, data, penalisations as in C71; exact arithmetic, any solver that solves solvable systems",
 "Symmetry over all data sets; a test shows it for one.",
 ["src/curve/generation/mod.rs: generate", "src/manipulation/reverse.rs: reverse", "src/curve/points/methods/interpolation.rs: interpolate", "src/curve/points/methods/fit/loose.rs: fit", "src/curve/points/methods/fit/fixed.rs: fit"])
prop("C73", "Equally spaced data on a line give the line",
 "If the data points are equally spaced on a line, interpolation and both unpenalised fits return that line, traversed at constant speed.",
 "all lines in any dimension, all degrees and admissible segment and data counts, all parameters; exact arithmetic, any solver that solves solvable systems",
 "Continuum of parameters, unbounded degrees.",
 ["src/curve/generation/mod.rs: generate", "src/curve/points/methods/interpolation.rs: interpolate", "src/curve/points/methods/fit/loose.rs: fit", "src/curve/points/methods/fit/fixed.rs: fit"])
prop("C74", "Knot insertion in binary64 moves the curve only by rounding",
 "On curves as in C58 (M <= 2^1019), inserting a finite parameter strictly between 0 and 1 x times, with multiplicity at most p + 1 afterwards, at most simple knots below it and not closer than 2^-1000 to a different knot, succeeds; the knots gain exactly x copies of the parameter, the new control points are finite and of size at most (1 + 11 x 2^-53) M, and every evaluation afterwards is within (6 p + 11 x + 4) 2^-53 M of the exact evaluation of the curve before.",
 "all binary64 curves as described, degrees up to 100, all dimensions and numbers of points, all parameters inserted and evaluated",
 "Needs an error analysis of the point formula for all inputs; a bug in the weights that only shows as a slow drift passes tests with tolerance.",
 ["src/manipulation/insert.rs: insert", "src/curve/mod.rs: Curve::insert_times"])
prop("C75", "Derivatives in binary64 are accurate",
 "On curves as in C58 in which different knots differ by at least h, evaluate_derivative(u, k) for k <= p returns finite numbers within (6 p + 4) 2^-53 M (2 p / h)^k of the exact derivative, as long as M (2 p / h)^k <= 2^1020.",
 "all binary64 curves as described, degrees up to 100, all orders up to the degree, all binary64 parameters in [0, 1]",
 "Cancellation in the differences of control points; needs an error analysis for all inputs.",
 ["src/curve/points/mod.rs: derive", "src/curve/points/mod.rs: derive_single_point", "src/curve/mod.rs: Curve::evaluate_derivative"])
prop("C76", "In binary64 the curve stays in the bounding box of its active control points up to rounding",
 "For a parameter in the j-th knot interval every coordinate returned by evaluate lies between the least and the greatest coordinate of the p + 1 active control points, enlarged by (6 p + 3) 2^-53 M.",
 "all binary64 curves as in C58, all knot intervals and parameters in them (at a right end knot of full multiplicity p + 1 only for u = 1)",
 "Range over all binary64 inputs.",
 ["src/curve/mod.rs: Curve::evaluate", "src/curve/basis/mod.rs: basis"])

prop("C77", "A derivative lies in the hull of differences of control points",
 "For a parameter in the j-th knot interval and k <= p, evaluate_derivative(u, k) is a convex combination of p - k + 1 divided differences of order k of the active control points.",
 "all degrees, dimensions, clamped sorted knots, control points, orders k <= p, knot intervals and parameters in them, exact arithmetic",
 "Ranges over a continuum of parameters and over all orders.",
 ["src/curve/mod.rs: Curve::evaluate_derivative", "src/curve/points/mod.rs: derive"])
prop("C78", "Speed limit",
 "If p times every leg of the control polygon is at most L times its knot distance and no internal knot occurs more than p times, then the distance between the points at u and v is at most L |v - u|.",
 "all degrees p >= 1, dimensions, clamped sorted knots, control points, bounds L, pairs of parameters, exact arithmetic",
 "A Lipschitz bound for all pairs of parameters of all curves.",
 ["src/curve/mod.rs: Curve::evaluate"])
prop("C79", "Derivatives at the ends",
 "The k-th derivative at 0 and at 1 is the first and the last k-th divided difference of the control points; the first derivative at 0 is p / U[p+1] (P1 - P0), at 1 it is p / (1 - U[n]) (Pn - Pn-1).",
 "all degrees, dimensions, clamped sorted knots, control points and orders k <= p, exact arithmetic",
 "Unbounded degrees and orders; a test fixes one curve.",
 ["src/curve/mod.rs: Curve::evaluate_derivative", "src/curve/points/mod.rs: derive"])
prop("C80", "Stability and superposition",
 "If no control point moves by more than e, no point of the curve does. If control points are a P + b Q, the values and all derivatives are a times those of P plus b times those of Q.",
 "all degrees, dimensions, clamped sorted knots, control points, factors, parameters and orders, exact arithmetic",
 "Perturbations of all sizes and directions, continuum of parameters.",
 ["src/curve/mod.rs: Curve::evaluate, Curve::evaluate_derivative"])
prop("C81", "Strictly advancing control points exclude self-intersections",
 "If a linear functional increases strictly along the control points, it increases strictly along the curve; then evaluate never returns the same point for two different parameters.",
 "all degrees p >= 1, dimensions, clamped sorted knots (any multiplicities), control points, functionals and pairs of parameters, exact arithmetic",
 "Injectivity over a continuum cannot be sampled.",
 ["src/curve/mod.rs: Curve::evaluate"])
prop("C82", "Without internal knots the curve is a Bezier curve",
 "If there are p + 1 control points, evaluate(u) is the sum of binomial(p, i) u^i (1 - u)^(p - i) P_i.",
 "all degrees, dimensions, control points and parameters in [0, 1], exact arithmetic",
 "Closed form for unbounded degree.",
 ["src/curve/mod.rs: Curve::evaluate", "src/curve/basis/mod.rs: basis"])
prop("C83", "Degree 0 and degree 1",
 "A curve of degree 0 is the control point of the knot interval; a curve of degree 1 interpolates linearly between two successive control points in each knot interval.",
 "all clamped sorted knots, dimensions, control points, parameters (for degree 1 a right end of an interval that is a repeated internal knot belongs to the next interval), exact arithmetic",
 "Continuum of parameters and knot vectors, including repeated knots.",
 ["src/curve/mod.rs: Curve::evaluate", "src/curve/basis/mod.rs: basis"])
prop("C84", "A curve passes through a control point at a knot of multiplicity p",
 "If U[b+1] = ... = U[b+p] = u < U[b+p+1] then evaluate(u) = P_b. After inserting u up to multiplicity p, evaluate(u) of the original curve is one of the new control points.",
 "all degrees, dimensions, clamped sorted knots, control points; insertion for p >= 1, 0 < u < 1, at most simple knots below u, exact arithmetic",
 "All knots of all curves; rests on exact agreement of two different algorithms.",
 ["src/curve/mod.rs: Curve::evaluate, Curve::insert_times", "src/manipulation/insert.rs: insert"])
prop("C85", "The order of knot insertions does not matter",
 "If a list of parameters can be inserted one after the other, then so can any permutation of it, and the resulting curve is identical.",
 "all clamped curves, all lists of parameters in (0, 1) whose multiplicity stays at most p + 1 and below which all knots, old and new, are simple, all permutations, exact arithmetic",
 "Factorially many orders; equality of the whole curve structures.",
 ["src/manipulation/insert.rs: insert", "src/curve/mod.rs: Curve::insert"])
prop("C86", "Knot insertion cuts corners",
 "insert replaces the control points by points on the legs of the old polygon, in the proportion (u - U[i]) : (U[i+p] - u) for the p legs near u; all other control points stay; the polygon does not become longer.",
 "all clamped curves, all parameters in (0, 1) of multiplicity at most p with at most simple knots below, exact arithmetic",
 "Formula for all degrees and indices; length comparison over all polygons.",
 ["src/manipulation/insert.rs: insert"])
prop("C87", "Control points approach the curve under refinement",
 "With L as in C78: after any insertions such that p successive knot intervals are together at most h long, every control point is within L h of every point of the curve in its support.",
 "all clamped curves of degree p >= 1, all lists of inserted parameters as in C85, all h, control points and parameters, exact arithmetic",
 "A limit statement over all refinements.",
 ["src/manipulation/insert.rs: insert", "src/curve/mod.rs: Curve::evaluate"])

prop("C88", "A fit with as many segments as data segments is the interpolation",
 "LeastSquaresFit without penalty and with as many segments as there are data segments generates the same curve as Interpolation, with loose and with fixed ends.",
 "all degrees p >= 1, data of any dimension and number, exact arithmetic, any solver that returns least-squares solutions",
 "Equality of two different generation paths for all data.",
 ["src/curve/generation/mod.rs: generate", "src/curve/points/methods/interpolation.rs: interpolate", "src/curve/points/methods/fit/loose.rs: fit", "src/curve/points/methods/fit/fixed.rs: fit"])
prop("C89", "The penalty trades error for smoothness",
 "With a larger lambda the squared error of the fit is not smaller and the sum of squared differences of order kappa of its control points is not larger.",
 "all data, degrees, numbers of segments, both kinds of ends, orders kappa, pairs lambda1 <= lambda2, exact arithmetic, any good solver",
 "Monotonicity in a real parameter for all data.",
 ["src/curve/generation/mod.rs: generate", "src/curve/points/methods/fit/loose.rs: fit", "src/curve/points/methods/fit/fixed.rs: fit"])
prop("C90", "What the error of a fit depends on",
 "Without penalty, the error with fixed ends is at least the error with loose ends; k times as many knot intervals do not increase the error of the loose fit.",
 "all data, degrees, numbers of segments and factors k, exact arithmetic, any good solver",
 "Inequality between the results of two optimisations for all data.",
 ["src/curve/generation/mod.rs: generate", "src/curve/points/methods/fit/loose.rs: fit", "src/curve/points/methods/fit/fixed.rs: fit"])
prop("C91", "Residuals of a fit",
 "The residuals of the loose fit without penalty are orthogonal to the samples of every curve with its knots, so any such curve has the error of the fit plus its squared distance from the fit. With or without penalty the samples of the loose fit have the centre of mass of the data.",
 "all data, degrees, numbers of segments, penalties, competing curves, exact arithmetic, any good solver",
 "Ranges over all competing curves.",
 ["src/curve/generation/mod.rs: generate", "src/curve/points/methods/fit/loose.rs: fit", "src/curve/points/methods/fit/fixed.rs: fit"])
prop("C92", "Noise in the data is not amplified",
 "If the data of a loose fit change, with or without penalty, the sum of squared changes of its samples is at most the sum of squared changes of the data, in each coordinate.",
 "all pairs of data sets, degrees, numbers of segments and penalties, exact arithmetic, any good solver",
 "Stability bound over all perturbations.",
 ["src/curve/generation/mod.rs: generate", "src/curve/points/methods/fit/loose.rs: fit", "src/curve/points/methods/fit/fixed.rs: fit"])
prop("C93", "Curves that meet smoothly are merged unchanged; splitting and merging is the identity",
 "If the second curve continues the first with the same point and derivatives up to order p - 1, the merged curve runs through both unchanged, one in each half of [0, 1]. Hence merging the two parts of a split at 1/2 with equally many points gives a curve with the values of the original.",
 "degrees 1 and 2, equally many control points, all clamped knots, points and dimensions, constraints fewer than p, exact arithmetic, any good solver; the split at a knot that is at most simple with at most simple knots below",
 "A round trip through split, insertion, the constrained least-squares problem and knot joining for all curves and parameters.",
 ["src/manipulation/merge.rs: merge", "src/manipulation/split.rs: split"])
prop("C94", "Merging commutes with reversal",
 "Merging the reversed curves in the opposite order gives the merged curve run backwards. With constraints the same holds if every constrained parameter u is replaced by 1 - u, and merge_from of two curves becomes merge_to of the reversed ones.",
 "degrees 1 and 2, equally many control points, all clamped knots of internal multiplicity at most p, all points, dimensions and parameters, exact arithmetic, any good solver",
 "Symmetry of an optimisation over all pairs of curves.",
 ["src/manipulation/merge.rs: merge, merge_from, merge_to, merge_with_constraints", "src/manipulation/reverse.rs: reverse"])
prop("C95", "Merging follows affine maps",
 "If all control points of both curves are mapped by x -> A x + b, also to another dimension, every point of the merged curve is mapped by the same map.",
 "degrees 1 and 2, equally many control points, all clamped knots, points, dimensions, maps, fewer than p constraints, all parameters, exact arithmetic, any good solver",
 "Ranges over all affine maps and pairs of curves.",
 ["src/manipulation/merge.rs: merge, merge_with_constraints"])
prop("C96", "The result does not depend on the linear solver",
 "Two solvers that both solve every solvable system lead to the same interpolation, the same loose and fixed fits and the same merged curve.",
 "all pairs of solvers; interpolation and fits for all data as in C24 - C26, merging in degrees 1 and 2 with equally many control points, exact arithmetic",
 "Ranges over all solver implementations.",
 ["src/curve/generation/mod.rs: generate", "src/curve/points/methods/interpolation.rs: interpolate", "src/curve/points/methods/fit/loose.rs: fit", "src/curve/points/methods/fit/fixed.rs: fit", "src/manipulation/merge.rs: merge_with_constraints"])
prop("C97", "Chord-length and centripetal parameters are in order",
 "For distinct data points the generated parameters increase from 0 to 1.",
 "all finite data in binary64",
 "The order can break by one rounding error in rare inputs.",
 ["src/curve/parameters/methods.rs: chord_length, centripetal"])
prop("C98", "Parameters of distinct finite points are numbers",
 "For distinct finite data points no chord-length or centripetal parameter is NaN.",
 "all finite data in binary64",
 "Underflow and overflow happen only at extreme magnitudes.",
 ["src/curve/parameters/methods.rs: chord_length, centripetal"])
prop("C99", "Chord-length and centripetal parameters are accurate in binary64",
 "The computed parameters are finite, begin with 0, end with 1, are in order except perhaps for the last one, and each is within (m + dim + 6) 2^-52 of the exact parameter of the same points.",
 "all data of up to 2^20 + 1 points in up to 2^20 dimensions with coordinates at most 2^500 in size that are equal or at least 2^-500 apart, not all points equal",
 "Ranges over all data of any number of points; a bound on accumulated rounding errors.",
 ["src/curve/parameters/methods.rs: chord_length, centripetal"])
prop("C100", "Averaged knots are accurate and stay sorted in binary64",
 "Averaging succeeds, each knot is within (p + 2) 2^-53 of the exact average of the same parameters, and sorted parameters give sorted knots in spite of rounding.",
 "all degrees up to 2^24, numbers of segments and finite parameters in [0, 1]",
 "Monotonicity under rounding for all inputs.",
 ["src/curve/knots/methods.rs: averaging"])
prop("C101", "De Boor knots are accurate in binary64",
 "De Boor's method succeeds and each knot is within (n + 6) 2^-52 of the exact one for the same parameters, although truncation may select another interval.",
 "all degrees, up to 2^40 segments, all finite parameters in [0, 1]",
 "The truncated index jumps between intervals; only a proof covers all cases.",
 ["src/curve/knots/methods.rs: de_boor"])
prop("C102", "De Boor knots of sorted parameters are sorted in binary64",
 "Sorted parameters give a sorted knot vector.",
 "all sorted finite parameters in [0, 1] in binary64",
 "Fails only for parameters that differ by one unit in the last place.",
 ["src/curve/knots/methods.rs: de_boor"])
prop("C103", "Local control holds exactly in binary64",
 "Between two neighbouring knots the computed point does not change at all when control points that do not belong to this span are moved.",
 "all degrees up to 100, knots, dimensions, parameters and finite far control points in binary64",
 "The program multiplies far control points with computed basis values, which must be exact zeros for all inputs.",
 ["src/curve/mod.rs: evaluate", "src/curve/basis/mod.rs: evaluate"])
prop("C104", "Far control points cannot spoil a point of the curve",
 "Between two neighbouring knots the computed point does not depend on control points that do not belong to this span, whatever their value.",
 "all control points in binary64, also infinite ones",
 "Needs an infinite coordinate elsewhere.",
 ["src/curve/mod.rs: evaluate"])
prop("C105", "Coordinates do not influence each other",
 "Reducing the control points to some of their coordinates, in any order, gives a curve that after any sequence of insertions, reversals, splits and derivations evaluates to exactly these coordinates of the full result, and panics or fails exactly when the full curve does.",
 "all number systems including binary64, degrees, knots (also unsorted), control points, lists of coordinates, sequences of edits, parameters and derivatives",
 "Ranges over all sequences of edits and all number systems.",
 ["src/curve/mod.rs: evaluate_derivative, insert_times, reverse, get_derivative_curve", "src/manipulation/split.rs: split_and_normalize", "src/manipulation/insert.rs: insert"])
prop("C106", "Mirroring is exact in binary64",
 "Flipping the sign of some coordinates of all control points flips the sign of these coordinates of every computed value, without any rounding difference (zeros may differ in sign), also when infinities or NaN occur and after any sequence of edits.",
 "all knots, control points in binary64 including infinities and NaN, choices of coordinates, sequences of edits, parameters and derivatives",
 "Exact equality of rounded results over all inputs.",
 ["src/curve/mod.rs: evaluate_derivative, insert_times, reverse, get_derivative_curve", "src/manipulation/split.rs: split_and_normalize", "src/manipulation/insert.rs: insert"])
prop("C107", "Repeated reversal settles in binary64",
 "Reversing a curve twice gives back the control points exactly and every knot to within 2^-54; a third reversal gives exactly the result of the first one, so nothing drifts; knots that are multiples of 2^-53 come back exactly.",
 "all curves with finite clamped sorted knots and finite control points in binary64",
 "Rounding of 1 - u for every representable knot.",
 ["src/curve/mod.rs: reverse", "src/manipulation/reverse.rs: reverse", "src/curve/knots/mod.rs: reverse"])
prop("C108", "The curve depends continuously on its knots",
 "Moving the knots by at most dl, without opening new spans, moves every point of the curve by at most 6 p r dl / h in each coordinate, where r is half the range of the coordinate over the control points and h the shortest span.",
 "all degrees of at least 1, dimensions, clamped sorted knots with inner multiplicity at most the degree, control points and parameters",
 "A bound over all knot vectors and all perturbations.",
 ["src/curve/mod.rs: evaluate", "src/curve/basis/mod.rs: evaluate"])
prop("C109", "Uniform generation is accurate from the points to the evaluated curve",
 "Generating a curve with uniform knots from given control points succeeds in binary64, and every evaluated coordinate is within (6 p + 3 + 6 p (n - p + 1)) 2^-53 M of the one computed without rounding.",
 "all degrees up to 100, fewer than 2^51 inner knots, dimensions, finite control points of size at most M and parameters in [0, 1]",
 "Combines rounding of the knots with rounding of the evaluation for all inputs.",
 ["src/curve/generation/mod.rs: generate", "src/curve/knots/methods.rs: uniform", "src/curve/mod.rs: evaluate"])
prop("C110", "The reversed curve is accurate in binary64",
 "The computed reversal evaluated at u is within (6 p + 3 + 3 p / h) 2^-53 M of the exact original curve at 1 - u, where h is the shortest span.",
 "all degrees up to 100, curves with clamped finite knots of inner multiplicity at most the degree and spans of at least h >= 2^-52, finite control points of size at most M and parameters in [0, 1]",
 "Combines rounding of the knots with rounding of the evaluation for all inputs.",
 ["src/curve/mod.rs: reverse, evaluate", "src/manipulation/reverse.rs: reverse", "src/curve/knots/mod.rs: reverse"])
prop("C111", "Every manual generation method is accurate from the points to the evaluated curve",
 "For each of the nine combinations of parameter and knot method, generation succeeds in binary64, and every evaluated coordinate is within (6 p + 3 + 12 p (2 n + dim + 12) / h) 2^-53 M of the one computed without rounding, where h is the least distance of neighbouring exact parameters and knots.",
 "all degrees up to 100, up to 2^20 + 1 points in up to 2^20 dimensions with coordinates at most 2^500 in size that are equal or at least 2^-500 apart, with exact parameters and knots at least 3 (2 n + dim + 12) 2^-52 apart",
 "Errors pass through lengths, sums, averages, truncation and the recursive basis; only a proof bounds all of them together.",
 ["src/curve/generation/mod.rs: generate", "src/curve/parameters/methods.rs: equally_spaced, chord_length, centripetal", "src/curve/knots/methods.rs: uniform, de_boor, averaging", "src/curve/mod.rs: evaluate"])
prop("C112", "insert and split reject every parameter that is not strictly between 0 and 1",
 "insert(u) and split(u) return an error unless 0 < u < 1; in particular NaN is rejected and the curve is left alone.",
 "all curves and all f64 values u",
 "NaN fails every comparison, so the check `u <= 0 || u >= 1` lets it through; the effect on each curve has to be derived.",
 ["src/manipulation/insert.rs: insert", "src/manipulation/split.rs: split_and_normalize"])
prop("C113", "Interpolation in binary64 passes the data up to the residual of the linear solver",
 "The matrix given to the linear solver holds the computed basis functions at the computed parameters. If the solver returns finite numbers of size at most M that leave at most r over in each equation, generation succeeds and the curve evaluated at each computed parameter is within r + (11 p + 5) 2^-53 M of the data point.",
 "all degrees up to 100, fewer than 2^50 data points, dimensions, data, solvers and residuals",
 "Rounding in the matrix and in the evaluation, for every solver.",
 ["src/curve/generation/mod.rs: generate", "src/curve/points/methods/interpolation.rs: interpolate", "src/curve/mod.rs: evaluate"])
prop("C114", "In binary64 the curve stays exactly in the box of its control points and is exactly monotone for monotone control points",
 "Every evaluated coordinate lies between the least and the largest coordinate of the control points; a curve with constant control points is constant.",
 "all curves and parameters in binary64",
 "The sum of the rounded basis functions is one for many parameters and differs in the last bit for others.",
 ["src/curve/mod.rs: evaluate", "src/curve/basis/mod.rs: evaluate"])
prop("C115", "A fit is as good as the linear solver is exact",
 "The linear solver is asked to solve one solvable system fixed by the input. Whatever it returns, generation succeeds, and if it leaves at most r over in each equation, the penalised squared error of the fitted curve exceeds that of no other curve over the same knots by more than 2 r times the sum of the coordinate distances of their control points. With fixed ends the ends are kept exactly.",
 "all degrees, numbers of segments and data points, dimensions, data, penalisations, solvers and residuals, exact reals apart from the solver",
 "An iterative solver never leaves exactly zero; how its residual enters the error is a statement about all residuals and all competing curves.",
 ["src/curve/generation/mod.rs: generate", "src/curve/points/methods/fit/loose.rs: fit", "src/curve/points/methods/fit/fixed.rs: fit"])
prop("C116", "Between knots of multiplicity p the curve is a Bezier curve, and insertion leads there",
 "Between neighbouring knots that are both repeated p times the curve is the Bezier curve of the p+1 control points of that span. A curve with simple internal knots can be brought to this form by inserting its knots, largest first; the insertions do not fail and do not change the curve.",
 "all degrees p >= 1, knot vectors, control points, spans and parameters",
 "Symbolic in the degree and the knots; the order of the insertions matters because insert mishandles repeated knots below the new one.",
 ["src/curve/mod.rs: evaluate", "src/manipulation/insert.rs: insert"])
prop("C117", "The two parts of a split curve are accurate in binary64",
 "Splitting a clamped curve in binary64 at u succeeds, and for every parameter t in [0, 1] the left part evaluates to the exact curve at t u and the right part to the exact curve at u + t (1 - u), each up to (18 p + 4 + 27 p / g) 2^-53 times the largest coordinate, where g is the least distance of different numbers among the knots and u. The bound covers the inserted knots, the normalised knot vectors and the evaluation.",
 "all degrees up to 100, clamped binary64 knots with internal multiplicities up to p and simple below u, all finite control points, split parameters and evaluation parameters",
 "The knots of both parts are rounded by the normalisation, so no computed value can be compared with an expected constant; the bound is over all knots, points and parameters.",
 ["src/manipulation/split.rs: split", "src/manipulation/split.rs: split_and_normalize", "src/curve/knots/mod.rs: normalize", "src/curve/mod.rs: evaluate"])
prop("C118", "Searches and predicates take the same decisions in binary64",
 "For finite knots, sorted or not, and every finite parameter, the four searches for every derivative order, the multiplicity of a parameter, and the predicates is_sorted, is_clamped and is_normed return in binary64 exactly what they return for the same numbers in exact arithmetic, panics included.",
 "all finite binary64 knot vectors of n + p + 2 knots with p <= n, all finite parameters, all derivative orders up to p, all four search kinds",
 "A test compares a handful of parameters; that no comparison is ever decided differently because of rounding is a statement about all pairs of numbers.",
 ["src/curve/knots/mod.rs: find_idx", "src/curve/knots/mod.rs: multiplicity", "src/curve/knots/mod.rs: is_sorted", "src/curve/knots/mod.rs: is_clamped", "src/curve/knots/mod.rs: is_normed"])
prop("C119", "A convex control polygon gives a convex function",
 "If the control points, plotted over the averages of p successive knots, form a convex polygon in some direction, then the height of the curve in that direction is a convex function of the parameter: the height at a mixture of two parameters is at most the mixture of the heights.",
 "all clamped curves of degree at least 1 with internal multiplicities up to p, all directions, all pairs of parameters and mixtures",
 "Convexity is an inequality over all triples of parameters.",
 ["src/curve/mod.rs: evaluate", "src/curve/basis/mod.rs: evaluate"])
prop("C120", "Control points sampled from a function give a curve close to the function",
 "If control point i is the value of a function at the average of the p knots after number i, the curve differs from the function nowhere by more than the function varies over (p + 1) / 2 times the longest knot interval. Hence, for every degree, every continuous function is approximated within every tolerance by such a curve with uniform knots and sufficiently many segments.",
 "all degrees from 1, all clamped knots, all functions and dimensions, all parameters; all continuous functions and tolerances",
 "Approximation within every tolerance and of every continuous function cannot be tested.",
 ["src/curve/mod.rs: evaluate", "src/curve/knots/methods.rs: uniform"])
prop("C121", "Every curve is the derivative of a curve, and its integral is a weighted sum of its control points",
 "The curve with one more knot at each end and the partial sums of (U[i+p+1] - U[i]) / (p + 1) times the control points as its control points has the given curve as first derivative, and its derivatives of all orders as further derivatives. If the curve is continuous, the Riemann integral of each coordinate over [0, 1] exists and is the sum of all these weighted control points.",
 "all clamped curves with internal multiplicities up to p + 1 (up to p for the integral), all parameters, derivative orders and coordinates",
 "An integral can only be approximated by sampling, and the derivative identity is over all parameters and orders.",
 ["src/curve/mod.rs: evaluate_derivative", "src/curve/points/mod.rs: derive"])
prop("C122", "Every call comes to an end",
 "No call runs forever. Whatever the knots (unsorted, of the wrong length, NaN or infinite), the control points, the parameter, the order and the options, the searches, evaluation, derivative curves, insertion, splitting, reversal, generation and merging return, with a value or an error, or panic. For generation and merging this assumes that the decomposition used to solve linear systems comes to an end.",
 "all curves, well-formed or not, all parameters, orders and options, all number systems whose divisions end, binary64 included; all solvers that come to an end",
 "A test that hangs reveals one bad input; that no input hangs is a statement about all of them.",
 ["src/curve/knots/mod.rs: find_idx", "src/curve/mod.rs: evaluate_derivative", "src/manipulation/insert.rs: insert", "src/manipulation/split.rs: split_and_normalize", "src/manipulation/merge.rs: merge_with_constraints", "src/curve/generation/mod.rs: generate"])
prop("C123", "Linear maps and sums of curves survive every edit",
 "Applying a linear map to the control points, also one that changes the dimension such as a projection, commutes with every sequence of insertions, splits, reversals and derivative curves followed by an evaluation, errors and panics included. Two curves over the same knots can be combined linearly before or after such a sequence: the outcomes are the same, and the points are the linear combination.",
 "all knots, degrees, dimensions and control points, well-formed or not, all matrices, all factors, all finite sequences of edits, all parameters and orders; exact arithmetic",
 "Every edit works on all coordinates with shared coefficients; a coefficient that depended on the points would show only for particular data and particular sequences.",
 ["src/curve/mod.rs: evaluate_derivative", "src/curve/mod.rs: get_derivative_curve", "src/manipulation/insert.rs: insert", "src/manipulation/split.rs: split_and_normalize", "src/manipulation/reverse.rs: reverse"])
prop("C124", "A curve object is determined by its internal knots and its points",
 "Two curves of the same degree whose internal knots have the same multiplicities and which show the same points on [0, 1] are equal objects: same control points, same cached derivative points. The two parts of a split have exactly the internal knots of the curve on their side, stretched to [0, 1].",
 "all clamped curves with internal multiplicities up to p + 1; for the split all interior parameters of multiplicity up to p with simple knots before; exact arithmetic",
 "It compares all curves with all others on a continuum of parameters.",
 ["src/curve/mod.rs: evaluate", "src/curve/points/mod.rs: derive", "src/manipulation/split.rs: split_and_normalize"])
prop("C125", "Reversal, insertion and splitting commute",
 "Inserting u and then reversing gives the same object as reversing and then inserting 1 - u. Splitting at u and reversing both parts gives the parts, in the other order, of the split of the reversed curve at 1 - u. Inserting v and then splitting at u gives the same objects as splitting and then inserting the stretched v into the part it falls in.",
 "all clamped curves and interior parameters, other internal knots simple; exact arithmetic",
 "Each side is a chain of two or three searches and point computations; agreement at sampled curves does not cover the positions of u, v and the knots.",
 ["src/manipulation/insert.rs: insert", "src/manipulation/split.rs: split_and_normalize", "src/manipulation/reverse.rs: reverse", "src/curve/knots/mod.rs: find_idx"])
prop("C126", "A heavy penalty flattens the fit",
 "In a penalised fit, the squared data error plus lambda times the sum of squared differences of order kappa never exceeds a bound that does not depend on lambda, hence the differences vanish like 1 / lambda. With loose ends the bound is the error of any single point, and with kappa = 1 the fitted curve tends, uniformly on [0, 1], to the centre of mass of the data.",
 "all data, degrees, segment counts and admissible kappa, all lambda; all exact solvers; exact arithmetic",
 "It is a limit over all lambda.",
 ["src/curve/points/methods/fit/loose.rs: fit", "src/curve/points/methods/fit/fixed.rs: fit", "src/curve/points/methods/fit/mod.rs: compute_svd", "src/curve/generation/mod.rs: generate"])
prop("C127", "Interpolation of degree one is the polygon",
 "Generating an interpolation of degree one returns a curve with the data as control points and uniform knots; between the parameters g / m and (g + 1) / m it runs along the segment from data point g to data point g + 1 at constant speed.",
 "all numbers of data points and dimensions, all data, all parameters; all exact solvers; exact arithmetic",
 "It fixes the value at every parameter for every data set.",
 ["src/curve/points/methods/interpolation.rs: interpolate", "src/curve/generation/mod.rs: generate", "src/curve/knots/methods.rs: uniform"])
prop("C128", "Generated curves follow similarities of the control polygon",
 "With knots chosen from the control points, two polygons whose neighbouring distances are proportional get the same knots, whatever the dimensions. Hence moving, turning, mirroring or scaling the polygon does the same to every point of the curve. If all neighbouring distances are equal, the three methods of choosing parameters give the same curve.",
 "all polygons without repeated neighbours, all degrees up to the number of segments, the nine combinations of methods; exact arithmetic",
 "It relates the outcomes for all pairs of similar polygons.",
 ["src/curve/parameters/methods.rs: chord_length", "src/curve/parameters/methods.rs: centripetal", "src/curve/knots/methods.rs: averaging", "src/curve/knots/methods.rs: de_boor", "src/curve/generation/mod.rs: generate"])
prop("C129", "The reversed polygon generates the reversed curve (uniform and averaged knots)",
 "Generating from the control points in reverse order returns exactly the object that reverse makes of the curve generated from the control points, for uniform and for averaged knots and each method of choosing parameters.",
 "all polygons without repeated neighbours, all degrees up to the number of segments; exact arithmetic",
 "An index off by one in the averages goes unnoticed with symmetric data.",
 ["src/curve/knots/methods.rs: averaging", "src/curve/knots/methods.rs: uniform", "src/curve/parameters/methods.rs: chord_length", "src/manipulation/reverse.rs: reverse"])
prop("C130", "The reversed polygon generates the reversed curve (de Boor's knots)",
 "Generating from the control points in reverse order with de Boor's knots returns the reversed curve. Refuted: for equally spaced parameters, every degree p >= 1 and every polygon with more than p segments n, each internal knot of the two curves differs by 1 / n.",
 "all polygons without repeated neighbours and all degrees below the number of segments; exact arithmetic",
 "The failure occurs for every input with internal knots, its size is a formula in n.",
 ["src/curve/knots/methods.rs: de_boor", "src/manipulation/reverse.rs: reverse", "src/curve/generation/mod.rs: generate"])
prop("C131", "Insertion and splitting in binary64 decide as in exact arithmetic",
 "Over finite sorted clamped knots, a binary64 insertion reports out of bounds or a too high multiplicity exactly when exact arithmetic does, with the same multiplicity, and otherwise succeeds with the same knots. A binary64 split reports the same errors, and otherwise its parts have the sizes of exact arithmetic and, if not normalised, the same knots. Inserting a knot x times succeeds as long as its multiplicity stays at most p + 1.",
 "all degrees, sizes and finite clamped binary64 knots, all binary64 control points, NaN and infinities included, all finite parameters with simple knots before, all normalisation flags",
 "The comparisons decide between errors, panics and results; whether rounding flips one of them cannot be seen from sampled inputs.",
 ["src/manipulation/insert.rs: insert", "src/manipulation/split.rs: split_and_normalize", "src/curve/knots/mod.rs: find_idx", "src/curve/mod.rs: insert_times"])
prop("C132", "Polynomials are reproduced",
 "Over every clamped knot vector every polynomial of degree at most p is a curve: the control points are the elementary symmetric polynomials of the p knots after each index, divided by binomial numbers. Hence interpolating or fitting equally spaced samples of a polynomial of degree at most p returns a curve that is the polynomial on the whole of [0, 1], and for any data the fit with loose ends is at least as close to the data as every polynomial of degree at most p.",
 "all degrees, clamped knots of any multiplicities, dimensions, polynomials, numbers of segments and data; all exact solvers; fits without penalty; exact arithmetic",
 "It is an identity in the knots, the coefficients and the parameter.",
 ["src/curve/mod.rs: evaluate", "src/curve/basis/mod.rs", "src/curve/points/methods/interpolation.rs: interpolate", "src/curve/points/methods/fit/loose.rs: fit", "src/curve/points/methods/fit/fixed.rs: fit", "src/curve/generation/mod.rs: generate"])
prop("C133", "Control points sampled from a smooth function are accurate to second order",
 "If each control point is the value of a function at the average of the p knots after its index and the derivative of the function has Lipschitz constant M, the curve differs from the function by at most M / 2 * ((p + 1) / 2 * h)^2 where h is the largest knot distance.",
 "all clamped curves of degree at least 1, all functions with Lipschitz derivative, all parameters in [0, 1]; exact arithmetic",
 "It bounds an error for all functions on a continuum.",
 ["src/curve/mod.rs: evaluate", "src/curve/basis/mod.rs"])
prop("C134", "Insertion is local and splitting watertight in binary64",
 "A binary64 insertion into span l copies the control points up to l - p and from l on without changing a bit and puts the knot at place l + 1; the first and the last control point never change. A binary64 split leaves no gap: the left part evaluated at 1 and the right part evaluated at 0 give the same numbers, and the outer ends are exactly the outer control points of the curve.",
 "insertion: all finite clamped knots and all binary64 control points, NaN and infinities included; split: all finite curves up to degree 100 with distinct knots at least 2^-49 apart, all finite interior parameters; simple knots before the parameter",
 "A gap of one rounding error would show only for particular numbers.",
 ["src/manipulation/insert.rs: insert", "src/manipulation/split.rs: split_and_normalize", "src/curve/mod.rs: evaluate"])
prop("C135", "Merging in binary64",
 "Over finite knots a binary64 merge reports the errors of exact arithmetic in the same order. If the checks pass and the solver returns matrices of the right size, it succeeds when the second curve has at least as many points as the first and fewer than p more, and panics otherwise, whatever the control points are. The knots of the merged curve are sorted, exactly 0 and 1 at the ends and within 2^-52 of the joined knots, and no two different knots collapse if different knots of each curve are at least 2^-49 apart. The control points away from the joint are copied bit by bit.",
 "all degrees, sizes, finite clamped binary64 knots, all binary64 control points, NaN and infinities included, all constraint lists, all solvers that return matrices of the right size",
 "Comparisons and knot arithmetic round; a flipped decision or an unsorted knot would show only for particular numbers.",
 ["src/manipulation/merge.rs: merge_with_constraints", "src/curve/knots/mod.rs: is_clamped, is_normed"])
prop("C136", "Which segment counts can be merged",
 "With clamped curves of equal degree p and dimension and fewer than p constraints, merging succeeds exactly when the second curve has at least as many points as the first and fewer than p more. Then the knots of the result are the joined knots and the control points of both curves away from the joint are kept. In all other cases it panics.",
 "all degrees, clamped curves of any sizes, constraint lists shorter than the degree, all solvers that return matrices of the right size; exact arithmetic",
 "Ranges over all pairs of sizes; the panic comes from index arithmetic that depends on their difference.",
 ["src/manipulation/merge.rs: merge_with_constraints, adjust_shifted_control_points"])
prop("C137", "Knots that are not numbers",
 "A NaN among the knots makes is_normed panic and is_sorted answer no; without NaN, infinities included, is_normed answers whether the smallest knot is 0 and the largest 1. So merging panics if the first curve has a NaN knot between clamped ends, or if the first curve is normed and the second has one.",
 "all binary64 knot vectors with at least two knots, all degrees, control points and constraints",
 "Comparisons with NaN are all false; a search for the minimum can return different knots depending on where the NaN stands.",
 ["src/curve/knots/mod.rs: is_normed, is_sorted", "src/manipulation/merge.rs: merge_with_constraints"])
prop("C138", "The control points are well conditioned",
 "For each degree there is one constant, independent of the knots, such that two curves over the same clamped knots that differ by at most e on the support of a control point have control points that differ by at most the constant times e there. Hence close curves have close derivatives: those of order k differ by at most a constant times e / h^k where p + 1 - k successive spans are at least h long.",
 "all degrees, clamped knots of any multiplicities and distances, all curves, all derivative orders up to the degree; exact arithmetic",
 "The constant must hold for all knot vectors at once, however uneven.",
 ["src/curve/mod.rs: evaluate, evaluate_derivative", "src/curve/basis/mod.rs"])
prop("C139", "Which control points have no influence",
 "A control point whose p + 2 knots coincide has no influence on the curve.",
 "all degrees, clamped curves, control points; exact arithmetic",
 "Depends on the convention 0/0 = 0 at every level of the recursion.",
 ["src/curve/mod.rs: evaluate", "src/curve/basis/mod.rs"])
prop("C140", "Curves approximate smooth functions with order p + 1",
 "For each degree p there is one constant K such that over any clamped knots with spans of at most h some curve stays within K M h^(p+1), in every coordinate, of a function whose derivative of order p has the Lipschitz constant M; the curve starts and ends at the values of the function.",
 "all degrees from 1, clamped knots of any multiplicities, dimensions, functions; exact arithmetic",
 "One constant for all functions and all knot vectors.",
 ["src/curve/mod.rs: new, evaluate", "src/curve/basis/mod.rs"])
prop("C141", "Fits of samples of a function",
 "If the data are samples of a function at the equally spaced parameters with an error of at most s per coordinate, the root mean square residual per coordinate of the fit without penalty is at most s plus K M h^(p+1), where h = 1 / (n - p + 1) and M is the Lipschitz constant of the derivative of order p; for ends fixed at exact values, too. A second order bound holds with an explicit constant, and for samples of any continuous function the residual becomes as small as wanted with enough segments.",
 "all degrees, dimensions, functions, numbers of segments and data points n <= m; exact arithmetic and an exact solver",
 "Convergence is a statement about all sizes at once.",
 ["src/curve/generation/mod.rs: generate", "src/curve/points/methods/fit/loose.rs: fit", "src/curve/points/methods/fit/fixed.rs: fit"])
prop("C142", "Superposition of data",
 "Interpolation and both fits, with or without penalty, turn a a combination a Q1 + b Q2 of two data sets into the curve whose values are a times those of the first curve plus b times those of the second.".replace("a a ", "a "),
 "all data, dimensions, degrees, factors, penalties; exact arithmetic and an exact solver",
 "Linearity relates three runs for all pairs of inputs.",
 ["src/curve/generation/mod.rs: generate", "src/curve/points/methods/interpolation.rs: interpolate", "src/curve/points/methods/fit/loose.rs: fit", "src/curve/points/methods/fit/fixed.rs: fit"])
prop("C143", "Derivatives of sampled curves",
 "If the control points are the values of a differentiable function at the averages of p successive knots, the derivative of the curve differs from the derivative of the function by at most the variation of the latter over (p + 1) / 2 spans; so it converges if the derivative is continuous.",
 "all degrees from 1, clamped knots of any multiplicities, dimensions, functions; exact arithmetic",
 "Holds at every parameter, knots included, for every function.",
 ["src/curve/mod.rs: evaluate_derivative", "src/curve/points/mod.rs: derive"])
prop("C144", "Sorted knots that are not clamped",
 "Inside the domain [U[p], U[n+1]) every point is a convex combination of the p+1 active control points and evaluate_derivative(u, k+1) is the derivative of evaluate_derivative(u, k); elsewhere in [0, 1], except at U[n+1], the weights are non-negative and sum to at most one.",
 "all degrees, dimensions and sorted knot vectors, clamped or not; exact arithmetic",
 "Quantifies over all knot vectors and the limit in the derivative.",
 ["src/curve/mod.rs: evaluate, evaluate_derivative", "src/curve/basis/mod.rs: basis", "src/curve/knots/mod.rs: find_idx"])
prop("C145", "Control points that are hit exactly in binary64",
 "At a knot of multiplicity p the binary64 evaluation is exactly a control point; a curve of degree one with distinct internal knots passes exactly through all its control points.",
 "all degrees, dimensions, separated clamped knots and finite control points in binary64",
 "Quantifies over all binary64 knots and points; equality of rounded results on samples says nothing about the others.",
 ["src/curve/mod.rs: evaluate", "src/curve/basis/mod.rs: basis"])
prop("C146", "Derivative curves can be edited",
 "A derivative curve behaves under evaluate, insert, split, reverse and merge (with any constraints) exactly like the curve Curve::new makes of its knots and points; a successful insertion turns it into that full curve. In exact arithmetic inserting into or splitting the k-th derivative curve of a clamped curve gives full clamped curves that trace the k-th derivative.",
 "all curves, orders k up to the degree, parameters, constraint lists and solvers, in every number system; the tracing in exact arithmetic for all clamped curves",
 "Quantifies over all curves, edits and solvers; a derivative curve carries no caches of its own (C49), and tests of single edits do not show that none of the operations ever reads them.",
 ["src/curve/mod.rs: get_derivative_curve", "src/curve/mod.rs: insert_times", "src/manipulation/insert.rs: insert", "src/manipulation/split.rs: split_and_normalize", "src/manipulation/reverse.rs: reverse", "src/manipulation/merge.rs: merge_with_constraints"])
prop("C147", "Programs follow linear maps, coordinates and mirroring",
 "Take any program that makes curves (Curve::new, uniform generation, interpolation, least-squares fits), edits them (insert, reverse, split, derivative) and merges them, constrained or not. In exact arithmetic, running it on points mapped by a matrix gives the same errors, the same panics and the mapped points. In every number system, binary64 included, a program without least-squares fits computes each coordinate from that coordinate of the points alone; in binary64 flipping the signs of a coordinate of all points flips it in every result. The linear solver is assumed to map its solutions along.",
 "all programs of any length, point sets, dimensions, matrices, coordinate selections, parameters, derivative orders and solvers that follow the map",
 "Quantifies over all compositions of the API; tests run single calls on single data sets, mostly one-dimensional, and cannot show that no combination ever mixes coordinates or depends on their size.",
 ["src/curve/mod.rs: new", "src/curve/generation/mod.rs: generate", "src/curve/points/methods/interpolation.rs: interpolate", "src/curve/points/methods/fit/loose.rs: fit", "src/curve/points/methods/fit/fixed.rs: fit", "src/manipulation/insert.rs: insert", "src/manipulation/split.rs: split_and_normalize", "src/manipulation/reverse.rs: reverse", "src/manipulation/merge.rs: merge_with_constraints"])
prop("C148", "Derivatives after edits are accurate in binary64",
 "In binary64, after inserting a knot any number of times, reversing, or splitting, evaluate_derivative returns finite numbers that agree with the exact derivative of the unedited curve: unchanged after insertion, mirrored with sign (-1)^k after reversal, scaled by the k-th power of the length of the part after splitting. The error is a stated small multiple of 2^-53 times the size of the points times (2p/h)^k or (4p/g)^k, where h or g is the smallest distance of different knots.",
 "all binary64 curves of degree up to 100 in any dimension with knots a distance apart, all parameters, all inserted knots and multiplicities, all splitting parameters, all derivative orders for which the curve is smooth enough",
 "Rounding errors of points, knots and cached derivatives compound over unboundedly many inputs; tests compare a few sampled values with hand-picked tolerances and almost never derivatives of edited curves.",
 ["src/curve/mod.rs: evaluate_derivative", "src/curve/points/mod.rs: derive", "src/manipulation/insert.rs: insert", "src/manipulation/reverse.rs: reverse", "src/manipulation/split.rs: split_and_normalize"])
prop("C149", "Derivatives of generated curves are accurate in binary64",
 "Moving the knots of a curve by at most dl moves its k-th derivative by at most (6p+4)(dl/h) times M(4p/h)^k, where h is the smallest distance of different knots and M bounds the points. Hence in binary64 manual generation, with uniform knots or with any of the parameter and knot methods, succeeds, and evaluate_derivative of the generated curve returns finite numbers within a stated small multiple of 2^-53 times M(4p/h)^k of the exact k-th derivative of the exactly generated curve.",
 "all control points of bounded size, all degrees up to 100, all numbers of points up to 2^20 (2^51 for uniform knots), all dimensions, all parameter and knot methods whose exact parameters and knots are a distance h apart, all derivative orders below the degree, all parameters",
 "Rounding errors of distances, parameters, knots and derived points compound over unboundedly many inputs; tests evaluate a few generated curves with hand-picked tolerances and do not look at their derivatives.",
 ["src/curve/generation/mod.rs: generate", "src/curve/knots/methods.rs: uniform, averaging, de_boor", "src/curve/parameters/methods.rs: equally_spaced, centripetal, chord_length", "src/curve/mod.rs: evaluate_derivative", "src/curve/points/mod.rs: derive"])
prop("C150", "Merging passes solver errors on without amplifying them",
 "Merging two curves asks the linear solver about one system, which depends on the curves and constraints only and has a solution. For degrees 1 and 2 and equally many control points, two solvers whose answers differ by at most e in every entry give merged curves that differ by at most e at every parameter. In binary64, when the solver's answer to the computed system is within e of a solution of the exact system, merging succeeds and evaluate returns finite numbers within e + (24p+15+96p/g) 2^-53 M of the exactly merged curve, where M bounds points and answer and g is the smallest distance of different knots.",
 "all pairs of clamped normed curves of degree 1 or 2 with equally many points in any dimension, all numbers of points, all knots (a distance g >= 2^-49 apart in binary64), all constraint parameters, all solvers, all error bounds, all evaluation parameters",
 "A test runs one solver on a few pairs of curves; it cannot bound the effect of every possible error of the solver, nor the accumulated rounding of knots and points for all inputs.",
 ["src/manipulation/merge.rs: merge_with_constraints, solve_linear_equation_system, generate_shifted_control_point_vectors_of_spline1and2, create_merged_knot_vector", "src/curve/points/methods/fit/mod.rs: compute_svd", "src/curve/mod.rs: evaluate"])
prop("C151", "Rounding errors only add up over long runs of edits",
 "Take a curve of binary64 numbers and apply up to a million edits one after the other, each an insertion (up to the multiplicity p), a reversal, or keeping the left or right part of a normalised split. If at every stage different knots and the edited parameter are at least g apart, no inner knot occurs more than p times and no knot below the parameter is repeated, then no edit fails or panics, and evaluate on the final curve returns finite numbers within (6p+4 + N(12p+28p/g)) 2^-53 M of the exact original curve at the corresponding parameter, where N is the number of edits and M bounds the original points.",
 "all clamped normed curves of finite binary64 numbers of degree 1 to 100 in any dimension, all runs of up to 2^20 insertions, reversals and splits in any order with any parameters meeting the spacing condition, all evaluation parameters",
 "A test runs a few short sequences; it cannot show that errors add up instead of being amplified in every order of edits, nor bound them for all curves and parameters.",
 ["src/manipulation/insert.rs: insert", "src/manipulation/reverse.rs: reverse", "src/manipulation/split.rs: split_and_normalize", "src/curve/mod.rs: evaluate, insert_times"])
prop("C152", "Any run of edits gives the original curve on a part of its range",
 "Apply any finite run of knot insertions, reversals and normalised splits (keeping the left or right part) to a curve in exact arithmetic. Whether every step succeeds can be told beforehand from the internal knots and their multiplicities alone. The result evaluates at t to the original curve at the parameter obtained by going backwards through the run; its internal knots are those of the original mapped along plus the inserted ones, with these multiplicities; and its k-th derivative is that of the original times the k-th power of the product of the single factors (-1, u, 1-u), wherever the curve is k times continuously differentiable.",
 "all clamped normed curves of any degree, size and dimension with internal multiplicities at most the degree, all finite runs of insertions, reversals and splits with any parameters such that no knot below an inserted or split parameter is repeated and inserted multiplicities stay within the degree, all parameters, all derivative orders",
 "The number of runs is infinite and each new edit works on the stored result of the previous ones; tests check single edits or a few short chains.",
 ["src/manipulation/insert.rs: insert", "src/manipulation/reverse.rs: reverse", "src/manipulation/split.rs: split_and_normalize", "src/curve/mod.rs: evaluate, evaluate_derivative, insert_times"])
prop("C153", "From the control points through a run of edits, errors only add up",
 "Generating a curve from control points, editing it by any run of up to a million insertions, reversals and splits, and evaluating the result in binary64 gives the value that the exactly generated curve has at the parameter computed backwards through the edits. The error bound is the sum of one term for generation, one term for each edit and one for evaluation, each a small multiple of the rounding unit times the size of the points, divided by the smallest distance between different knots.",
 "all control points of bounded size in any dimension, all degrees up to 100, uniform knots (up to 2^51 inner knots) and all nine combinations of parameter and knot methods (up to 2^20 points), all runs of up to 2^20 edits whose parameters keep a distance g >= 2^-49 from other knots, all parameters",
 "The error passes through three stages of floating-point code whose inputs are themselves rounded; tests sample a few chains of calls with a loose tolerance and have no exact reference.",
 ["src/curve/generation/mod.rs: generate", "src/curve/parameters/methods.rs: equally_spaced, chord_length, centripetal", "src/curve/knots/methods.rs: uniform, de_boor, averaging", "src/manipulation/insert.rs: insert", "src/manipulation/split.rs: split", "src/manipulation/reverse.rs: reverse", "src/curve/mod.rs: evaluate"])
prop("C154", "Cached derivatives matter for derivatives only",
 "Two curve objects with the same degree, knot vector and control points behave the same under evaluate, insert, split and Curve::new, whatever stale or overwritten derivative data they carry: same values, same errors, same panics. For merging it is enough that the knots agree; cached derivative points are not used.",
 "all curve objects reachable or not by writing to the public fields, all parameters, all solvers, every number system including binary64 with NaN",
 "Public mutable access makes arbitrarily inconsistent objects possible; tests only build consistent ones through the constructors.",
 ["src/curve/knots/mod.rs: Knots, vector_mut, vector_derivative_mut, derive", "src/curve/points/mod.rs: ControlPoints, matrix_mut, matrix_derivative_mut, get_mut, derive", "src/curve/mod.rs: Curve, evaluate, insert, split, new", "src/manipulation/insert.rs: insert", "src/manipulation/split.rs: split", "src/manipulation/merge.rs: merge_with_constraints"])
prop("C155", "Recomputing derivatives repairs a curve edited in place",
 "Whatever was written to a curve object through its public fields, calling knots.derive() and points.derive(&knots), in either order, turns it into exactly the curve that Curve::new builds from the present knot vector and control points, as long as their numbers fit the degree. Neither the knots nor the points nor the evaluated curve change.",
 "all curve objects with arbitrary cached data, all degrees, knots and points of matching sizes, every number system",
 "The claim is about every possible stale state; tests can only try a few.",
 ["src/curve/knots/mod.rs: Knots, vector_mut, vector_derivative_mut, derive", "src/curve/points/mod.rs: ControlPoints, matrix_mut, matrix_derivative_mut, get_mut, derive", "src/curve/mod.rs: Curve, new"])
prop("C156", "Moving a control point in place",
 "After assigning a new point through points.get_mut(i), evaluate follows at once: the curve moves by the difference times the i-th basis function. Derivatives of order one and higher stay exactly what they were until points.derive(&knots) is called; after that call the curve is the one built from the moved points.",
 "all clamped curves, all indices, all new points, all parameters, all derivative orders; the stale derivatives in every number system and for arbitrary reassignments of all points",
 "Tests evaluate after construction, never between a write through the public field and the recomputation, and cannot show that nothing at all changes in the derivatives.",
 ["src/curve/points/mod.rs: ControlPoints, matrix_mut, matrix_derivative_mut, get_mut, derive", "src/curve/mod.rs: Curve, evaluate, evaluate_derivative"])
prop("C157", "Moving knots in place",
 "After assigning other knots through knots.vector_mut(), evaluate follows at once, while derivatives of order one and higher stay exactly what they were. Calling both knots.derive() and points.derive(&knots), in either order, makes the curve the one of the new knots; either call alone is not enough.",
 "all clamped curves, all clamped replacement knot vectors of the same length, all parameters and derivative orders; the stale derivatives in every number system and for arbitrary knots",
 "Tests never edit knots in place, and no finite set of edits shows that all derivatives stay stale and that both calls repair every one.",
 ["src/curve/knots/mod.rs: Knots, vector_mut, vector_derivative_mut, derive", "src/curve/points/mod.rs: ControlPoints, matrix_mut, matrix_derivative_mut, get_mut, derive", "src/curve/mod.rs: Curve, evaluate, evaluate_derivative"])
prop("C158", "Rescaling knots in place and derivatives",
 "After knots.rescale((0,1),(a,b)) on the knots of a curve, evaluate_derivative at the rescaled parameter still returns the derivative with respect to the old parameter, of every order. Only after points.derive(&knots) does it return the derivative with respect to the new parameter, which is the old one divided by (b-a)^k.",
 "all clamped curves, all target intervals a < b, all parameters whose rescaled value lies in [0,1], all orders up to the degree",
 "The two derivatives differ by a factor that a test sees only if it rescales in place, differentiates, and knows the exact value.",
 ["src/curve/knots/mod.rs: rescale", "src/curve/points/mod.rs: derive", "src/curve/mod.rs: evaluate_derivative"])
prop("C159", "Reversing the control points in place",
 "points.reverse() alone does exactly what Curve::reverse does, for values and all cached derivatives, when the knot vector is symmetric about the middle of its range.",
 "all clamped curves with symmetric knots, any degree, number of points and dimension",
 "Equality of the whole object for every symmetric knot vector cannot be sampled; tests reverse whole curves only.",
 ["src/curve/points/mod.rs: reverse", "src/curve/mod.rs: reverse", "src/curve/knots/mod.rs: reverse"])
prop("C160", "Insertion cuts the corners of every derivative's polygon",
 "Inserting a knot replaces the control points of the k-th derivative by points on the legs of their polygon, the end points staying the same, for every order k up to which the curve stays smooth at the new knot. So any half space that holds all k-th derivative points still holds them: a monotone control polygon stays monotone, a convex one convex.",
 "all clamped curves, all admissible parameters with simple knots before them, all derivative orders k with multiplicity at most degree - k, all directions and bounds",
 "A statement on convex combinations for all polygons, orders and parameters; tests compare numbers for a few insertions.",
 ["src/manipulation/insert.rs: insert", "src/curve/points/mod.rs: matrix_derivative", "src/curve/mod.rs: insert"])
prop("C161", "Control polygons converge quadratically under refinement",
 "Plotted over the knot averages, the control polygon of a curve stays within M h^2 / 2 of the curve, where M bounds the control points of the second derivative and h the length of p neighbouring knot intervals. Inserting knots does not increase M, so the polygon of the refined curve is within M h^2 / 2 of the original curve, with h the spacing after the insertions.",
 "all clamped curves of degree at least two with inner knots of multiplicity below the degree, all runs of insertions that respect this, all points of all legs of the polygon",
 "An error bound for all curves, all refinements and all points; tests can only sample distances.",
 ["src/manipulation/insert.rs: insert", "src/curve/mod.rs: evaluate, insert", "src/curve/points/mod.rs: matrix_derivative"])
prop("C162", "Interpolation passes through its data although small singular values are dropped",
 "The curve generated by interpolation passes through every data point, the linear system being solved by a singular value decomposition that takes singular values up to sqrt(f64::EPSILON) for zero.",
 "all degrees, all numbers of data, all data, all exact decompositions with that cutoff",
 "The failure needs long data of a special shape (cubic, 151 points) and is not an effect of rounding; tests interpolate a handful of points.",
 ["src/curve/points/methods/interpolation.rs: interpolate", "src/curve/generation/mod.rs: generate"])
prop("C163", "When dropping small singular values does no harm",
 "With a cutoff eps, interpolation of degree p passes through all data sets of m + 1 points if and only if no curve has values at the data parameters whose squares sum up to at most eps^2 times the squares of its control points; for degree one this always holds; for all degrees and sizes there is a threshold below which it holds. Without the condition a curve of the right kind is still returned, with control points at most 1 / eps times the data and an error at most that of the zero curve. Least squares fits with fixed or loose ends and any penalty return what an exact solver returns if the sums of squares of values exceed eps times those of the control points.",
 "all cutoffs, all exact decompositions with that cutoff, all degrees, numbers of control points and data, all data, all penalties",
 "An equivalence over all data sets and all solvers; tests can only observe single systems.",
 ["src/curve/points/methods/interpolation.rs: interpolate", "src/curve/points/methods/fit/loose.rs: fit", "src/curve/points/methods/fit/fixed.rs: fit"])
prop("C164", "The read accessors name the right knots and control points",
 "On a knot vector of degree p with n segments: vector_derivative(k) is the vector without its first and last k knots, len(k) its length, internal() the knots p + 1 to n, domain() and domain_derivative(k) the knots p to n + 1 for every k, and the accessors by index return exactly these knots or panic outside them. multiplicity(u) is the number of occurrences for inner knots and 1 at the two ends. A curve has n + 1 - k control points of the k-th derivative for k up to the degree, and nothing beyond. With fewer than 2 p + 2 knots these accessors panic.",
 "all number systems, all degrees, all numbers of knots, all knot values, all indices and derivative orders",
 "Off-by-one errors show only at the border indices for each degree and length; tests read a few entries of one vector.",
 ["src/curve/knots/mod.rs: vector_derivative, len, internal_count, internal, internal_knot, domain_count, domain, domain_derivative, domain_knot, multiplicity", "src/curve/points/mod.rs: count, count_derivative, segments, matrix_derivative", "src/curve/mod.rs: degree, segments, dimension, max_derivative"])
prop("C165", "Reversing data points and reading control points do just that",
 "DataPoints::reverse reverses the order of the points and changes nothing else; applied twice it gives the data back. Interpolating the reversed data gives the reversed curve and the other way round. get(i) on the control points of a curve returns the i-th control point and panics beyond the last; is_empty() is false unless the dimension is 0.",
 "all matrices, all number systems for reverse, get and is_empty; for interpolation all degrees and data in exact arithmetic, any solver that solves solvable systems",
 "Swapping halves goes wrong for even or odd counts only; tests use one size.",
 ["src/curve/points/mod.rs: DataPoints::reverse, get, is_empty", "src/curve/generation/mod.rs: generate", "src/manipulation/reverse.rs: reverse"])
prop("C166", "A curve has no more ups and downs than its control polygon, and smaller ones",
 "Whenever the height of a clamped curve in some direction goes up and down at increasing parameters, there are control points in the same order that are at least as high at every peak and at least as low at every valley. The same holds for every derivative and the divided differences of the control points, and the path of a derivative is not longer than the polygon of these differences.",
 "all clamped curves, all directions, all increasing sequences of parameters, all derivative orders up to the degree; exact arithmetic",
 "A statement on all samplings of all curves; a test samples a few curves.",
 ["src/curve/mod.rs: evaluate, evaluate_derivative"])
prop("C167", "Turns and inflections of a curve are turns and inflections of its control polygon",
 "Where the k-th derivative in some direction, compared with any level, changes its sign several times, the divided differences of order k of the control points change theirs at least as often, with the same signs in the same order. For k = 1: where the curve moves forward and backward in turns, so do the legs of the control polygon.",
 "all clamped curves, all directions and levels, all increasing sequences of parameters, all derivative orders up to the degree; exact arithmetic",
 "A statement on all samplings of all curves; a test samples a few curves.",
 ["src/curve/mod.rs: evaluate_derivative"])
prop("C168", "A polyline through sampled points follows the curve with an error of second order",
 "The chord between two points of a clamped curve stays within M (b - a)^2 t (1 - t) / 2 of the curve, where M bounds the control points of the second derivative, so the polyline through N + 1 equally spaced samples stays within M / (8 N^2). A step along the tangent stays within M (b - a)^2 / 2. The same holds for every derivative with the control points two orders up.",
 "all clamped curves of degree at least k + 2 whose inner knots have multiplicity at most p - k - 1, all pairs of parameters and all sample counts; exact arithmetic",
 "A statement on all parameters of all curves; a test measures a few samples.",
 ["src/curve/mod.rs: evaluate, evaluate_derivative"])
prop("C169", "Points computed in binary64 can be used for drawing and root finding",
 "Values computed at nearby parameters differ by at most the slope of the control polygon times the distance plus twice the rounding bound. If the computed values at two parameters lie on opposite sides of a level, each by more than the rounding bound, the exact curve takes the level between them. The polyline through computed points stays within K (v - u)^2 / 8 plus the rounding bound of the exact curve.",
 "all binary64 clamped curves of degree 1 to 100 with points bounded by M between 2^-1000 and 2^1022, all finite parameters in [0, 1], all coordinates and levels; binary64 arithmetic",
 "A statement on all floating-point curves and parameters; a test samples a few.",
 ["src/curve/mod.rs: evaluate"])
prop("C170", "Constrained points survive a merge although small singular values are dropped",
 "Merging two clamped curves of degree 2 with a constraint leaves the constrained point where it is, the linear system being solved by a singular value decomposition that takes singular values up to sqrt(f64::EPSILON) for zero.",
 "all pairs of clamped curves of degree 2 with equally many control points, all constraint parameters in [0, 1], all exact decompositions with that cutoff",
 "The failure needs a constraint within about 2^-13 of the far end of a curve and is not an effect of rounding; tests constrain points in the middle.",
 ["src/manipulation/merge.rs: merge_with_constraints"])
prop("C171", "When dropping small singular values does no harm to a merge",
 "With any cutoff below 1/25, so also with the library's, merging curves of degree 1 or 2, and for degree 2 merging with the end of the first or the start of the second curve held, returns what an exact solver returns, whatever the knots and control points are. A merge with a constraint does so too if the movable control points have a share in the constrained point whose square exceeds 25 times the cutoff.",
 "all cutoffs eps with 0 <= eps < 1/25, all exact decompositions with that cutoff, all pairs of clamped curves of degree 1 or 2, all constraint parameters with a large enough share",
 "A statement over all knots, curves and decompositions; a test runs one decomposition on a few curves.",
 ["src/manipulation/merge.rs: merge, merge_from, merge_to, merge_with_constraints"])
prop("C172", "What a debug build does differently",
 "A debug build generates the same curve as a release build or panics. It can panic only for the centripetal method, and does so if and only if the square roots of the chord lengths add up to less than 2^-26; one pair of neighbouring points at least f64::EPSILON apart excludes it. In binary64 the limit is met up to a relative error of 2^-30, and a NaN coordinate always leads to the panic.",
 "all generation requests in any arithmetic; all points, degrees and knot methods in exact arithmetic; all tame points with at most 2^20 segments and dimensions in binary64",
 "Tests run in one build profile on points of ordinary size.",
 ["src/curve/parameters/methods.rs: centripetal", "src/curve/generation/mod.rs: generate"])
prop("C173", "Debug and release builds generate the same curves",
 "Generating a curve gives the same result in a debug and in a release build.",
 "all control polygons with distinct neighbouring points, all degrees and knot methods, centripetal parameters",
 "The failure needs very small polygons and two builds; tests run one build on points of ordinary size.",
 ["src/curve/parameters/methods.rs: centripetal", "src/curve/generation/mod.rs: generate"])
prop("C174", "The length of a curve",
 "Every part of a curve has exactly one length, the supremum of the lengths of polylines through its points. It is at least the distance of the ends and at most the length of the control polygon, adds up over neighbouring parts, and is bounded by the speed. Inserting a knot keeps the length of every part and never lengthens the control polygon; reversing keeps it; the two halves of a split have the lengths of the parts. The control polygon is longer than the curve by at most n M h^2 and the polyline through N + 1 equally spaced samples shorter by at most M / N, and the mean of the lengths of the first derivatives at N equally spaced parameters differs by at most 3/2 M / N, where M bounds the control points of the second derivative and h the differences of knots p apart.",
 "all clamped curves of any degree, size and dimension, all parts, all numbers of samples",
 "The length is a supremum over all polylines; tests can compare some polylines with some numbers.",
 ["src/curve/mod.rs: evaluate", "src/curve/mod.rs: insert", "src/curve/mod.rs: split", "src/curve/mod.rs: reverse"])
prop("C175", "Lengths measured on computed points",
 "The length of the polyline through points that binary64 evaluation returns at m + 1 increasing parameters exceeds the length of the exact curve between the first and the last parameter by at most the rounding errors 2 m sqrt(dim) (6 p + 3) 2^-53 M, and differs from it by at most that and K h times the difference of the two parameters, where h is the longest step and K bounds the control points of the second derivative.",
 "all clamped binary64 curves of degree up to 100, all increasing sequences of parameters in [0, 1]",
 "The bound relates computed points to a supremum over all points of the exact curve.",
 ["src/curve/mod.rs: evaluate"])
prop("C176", "Curves can be divided into parts of equal length",
 "On a curve without jumps every length between zero and the length of a part is the length of some beginning of that part, and the rest has the remaining length. For every m there are parameters from 0 to 1 in increasing order that divide the curve into m parts of equal length, and neighbouring points of the division are at most that far apart.",
 "all clamped curves of degree at least one with internal knots of multiplicity at most the degree, all parts, lengths and numbers of parts",
 "The parameters are found by a limit; tests could only search for them approximately.",
 ["src/curve/mod.rs: evaluate"])
prop("C177", "Antiderivatives and means of curves",
 "Every curve is the derivative of a curve of the next degree: one more 0 and 1 in the knots and control points that add up the given ones, each weighted with the length of its support divided by p + 1. All derivatives agree too. So the mean of the points at N equally spaced parameters differs from the mean of the control points with these weights by at most K / (2 N), where K bounds the control points of the first derivative.",
 "all clamped curves of any degree, size and dimension with internal knots of multiplicity at most p + 1 (p for the mean), all orders of derivatives, all parameters, all numbers of samples",
 "The statement compares two curves at all parameters and holds for every number of samples; tests see finitely many.",
 ["src/curve/mod.rs: evaluate", "src/curve/mod.rs: evaluate_derivative", "src/curve/mod.rs: new"])
prop("C178", "The mean of computed points",
 "The mean of the points that binary64 evaluation returns at parameters within h of 0, 1/N, ..., (N-1)/N differs in every coordinate from the mean of the control points, weighted with the lengths of their supports, by at most K / (2 N) + K h plus the rounding error (6 p + 3) 2^-53 M of an evaluation, where K bounds the control points of the first derivative.",
 "all clamped binary64 curves of degree 1 to 100 without jumps, all numbers of samples, all parameters that near to the equally spaced ones",
 "The bound relates computed points to exact sums, for every number of samples.",
 ["src/curve/mod.rs: evaluate"])
for p in P:
    print(json.dumps(p, ensure_ascii=False))
