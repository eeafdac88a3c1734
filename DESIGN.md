# Design

A Rocq (Coq 8.16.1) model of the `bsplines` crate in `/repo`, and machine-checked
proofs of the properties listed in `properties.jsonl`.

## Trusted base

* The Coq 8.16.1 kernel (and `coqchk` for the independent re-check).
* The axioms printed by `Print Assumptions` under each theorem. Theorems over the
  exact reals rest on the axioms of the standard library's `Reals`
  (`ClassicalDedekindReals.sig_forall_dec`, `ClassicalDedekindReals.sig_not_dec`,
  `FunctionalExtensionality.functional_extensionality_dep`, for some also
  `Classical_Prop.classic`). Theorems over every number system and over the rationals
  are closed under the global context. Theorems that touch binary64 use Flocq,
  which is built on `Reals` and brings the same standard library axioms and no
  other. The table "Axioms per theorem" at the end lists them. There are no axioms
  of our own.
* The hand translation of the Rust code into the model files `Num.v`, `Vec.v` and
  `M*.v`. Each definition cites the file and lines it was written from.
  `Conformance.v` repeats every unit test of the crate on the model, with the literals
  of the Rust source, and checks the expected values: bit for bit in binary64 where the
  decomposition is not involved, over the rationals for merging.
* The specification file `Spec.v` and the vocabulary files `Api.v`, `ApiF.v`, `ApiF2.v`, `ApiF3.v`, `ApiC.v`, `ApiN.v`, `ApiS.v`, `ApiM.v`, `ApiT.v`, `ApiL.v`, `ApiK.v`, `ApiJ.v`, `ApiO.v` (what the
  theorems mean).
* For the theorems about fits, interpolation and merging: the solver assumption below.

## What is modelled

The model is one set of Coq functions over a record `Num` of number operations
without laws. It is run on three number systems:

| system | file | use |
|---|---|---|
| exact reals | `RNum.v` | theorems "exact arithmetic"; division by zero is the outcome `Undef` |
| canonical rationals | `QNum.v` | running the model, refutations with a concrete witness |
| IEEE binary64, round to nearest even | `F64.v` (Flocq) | statements about `f64` |

A theorem quantified over every `Num` holds for `f64` in particular.

Every modelled Rust function returns an outcome: `Val v`, `Panic` (index out of
bounds, `usize` underflow, failed `assert!`, `unwrap` of an error, nalgebra
dimension mismatch), `Undef` (exact division by zero, where `f64` would produce an
infinity or NaN) or `Diverge` (loop fuel exhausted). Rust's `Result` is kept as
data inside the outcome. A `&mut self` method returns the new state.

| file | Rust source |
|---|---|
| `Num.v` | outcomes, `usize` subtraction, loops, number operations |
| `Vec.v` | the part of nalgebra that is used, `src/types.rs` |
| `MKnots.v` | `src/curve/basis/mod.rs`, `src/curve/knots/mod.rs`, `src/curve/knots/methods.rs`, `src/curve/parameters/methods.rs: equally_spaced` |
| `MPoints.v` | `src/curve/points/mod.rs`, `src/curve/parameters/` |
| `MCurve.v` | `src/curve/mod.rs`, `src/manipulation/{insert,split,reverse}.rs` |
| `MFit.v` | `src/curve/points/methods/` |
| `MMerge.v` | `src/manipulation/merge.rs`, merging methods of `src/curve/mod.rs` |
| `MDirect.v` | writes through the public fields `knots` and `points` of `Curve`: `vector_mut`, `vector_derivative_mut`, `matrix_mut`, `matrix_derivative_mut`, `get`, `get_mut`, `is_empty`, and the in-place methods of both; a mutable borrow is a function from the old to the new content |
| `MGenerate.v` | `src/curve/generation/mod.rs` |
| `MDebug.v` | generation in debug builds, with the one `debug_assert!` of the crate |

Simplifications, each also stated at its definition:

* `usize` underflow panics (as in debug builds); `usize` overflow beyond 64 bits is
  not modelled; `isize` is unbounded.
* nalgebra's singular value decomposition is not modelled. It is an argument
  `svd : matrix -> matrix -> outcome matrix` of the modelled functions, and every
  theorem is quantified over it. Theorems that need a solution assume
  `good_solver svd` (`Api.v`): whenever the system `A X = B` has a solution, `svd A B`
  is one. Theorems that need none assume `returning_solver` (a matrix of the right
  size) or nothing. The real decomposition drops singular values up to
  `sqrt(EPSILON)`; C162, C163, C170 and C171 are about exact solvers that do so
  (`cutoff_solver`, `ApiV.v`) and say when they can be replaced by a
  `good_solver`. The real decomposition also computes in floating point; C113 and C115
  bound the effect of a residual, nothing here bounds the residual itself.
  The wrapper keeps nalgebra's panics on an empty matrix and on a row mismatch.
* The `debug_assert!` in `centripetal` is in `MDebug.v` only; every other file is about
  release builds in this respect.
* The summation order of nalgebra's matrix product is fixed to left-to-right
  (irrelevant for exact arithmetic; no binary64 theorem uses a matrix product).
* Binary64 is round-to-nearest-even with one NaN; fused operations and extended
  intermediate precision do not occur (Rust guarantees neither is used).
* Not modelled: error message strings, `Debug`/`Display`, memory allocation, the
  plotting example crate, `test_data_points`, the unused private functions
  `is_valid` and `rescaled`.

## Specification

`Spec.v` is independent of the model's helpers. Knots are functions `nat -> R`
and the sums are finite sums of reals. It contains the textbook Cox-de Boor
recursion with the convention 0/0 = 0, the predicate "clamped and sorted",
difference-quotient limits relative to [0, 1], polynomials as coefficient lists,
forward differences, sums of squares, and affine maps. The link from Rust objects
to the specification is `built p U P c`: the curve `c` is what
`Curve::new(Knots::new(p, U), ControlPoints::new(P))` returned.

## Layers of proofs

1. Structural lemmas for every `Num`: lengths, index bounds, loops (`Hoare.v`,
   `Lists.v`, `Struct.v`, `Facts2.v`, `Facts4.v`, `Merge1.v`).
2. B-spline mathematics over `nat -> R` knots (`BMath*.v`): support, partition of unity,
   positivity, derivative formula, agreement of neighbouring pieces at a knot, knot
   insertion, locality, affine reparametrisation and reversal. `SW.v`: interpolation
   by splines has exactly one solution under the Schoenberg-Whitney condition.
   `LinAlg.v`: normal equations are solvable, injective square systems are solvable.
3. Bridge lemmas (`Bridge.v`): the real instance of the model computes the specification.
4. The operations: `Facts1.v` evaluation, `Facts3.v` reversal, `Facts5-6.v` insertion,
   `Facts7.v` knot lists, `Facts8-9.v`, `Split2.v` splitting, `Shape1.v` corner cutting, `Shape2.v`, `Shape3.v` shape, `Insert2.v` order and limit of insertions, `Facts10.v` coherence,
   `Facts11.v` refutations, `Gen1-4.v` generation, `Fit1-10.v` interpolation and fits,
   `Merge2-13.v`, `MergeQ.v` merging, `Stab.v` moved knots, `FitNear.v` residuals, `Shape5.v` Bezier pieces, `Shape6.v`, `Shape7.v`, `Shape8.v` convexity, approximation, integrals, `Marsden.v` polynomials, `Cond.v` conditioning, `Jackson.v` order of approximation, `Float1-27.v` rounding errors, `Coord.v`, `Coord2.v`, `Coord3.v` related control points, `Rev2.v` commuting edits, `FitHeavy.v` heavy penalties, `FitLine.v` degree one, `Gen5.v` similar and reversed polygons, `Total.v` termination.
5. Property files `P_*.v`: only statements, closed by `exact`, with the examples and
   `Print Assumptions`. `Samples.v`, `SamplesB.v` and `Float8.v` hold the curves used in
   the examples.

`tools/mutate.py` runs the wrong programs of `tools/mutants.py` through the proofs; the
results are in `seeded/LOG.jsonl`.

## Properties

"∀Num" = proved for every number system; "R" = exact reals; "Q" = concrete rational
witness; "f64" = Flocq binary64.

| id | modelled by | how it is proved |
|---|---|---|
| C01 | `curve_new`, `evaluate_derivative`, `find_idx`, `basis` | ∀Num: loop invariant `p-k <= i <= n-k` for the span search, index bounds by induction on the degree |
| C02 | `evaluate_derivative` | ∀Num: case analysis on the guard |
| C03 | `evaluate_derivative` | R: `basis` equals Cox-de Boor by induction on the degree; terms below the window vanish by local support |
| C04 | `kevaluate` | R: induction on the degree with the piece indicator as base |
| C05 | `evaluate` | R: C03 and C04 |
| C06 | `evaluate` | R: the end basis functions are 1 by induction |
| C07 | `evaluate_derivative` | ∀Num: by computation |
| C08 | `evaluate_derivative`, `points_derive` | R: derivative formula of each polynomial piece, agreement of the left and right pieces at a knot for degrees >= multiplicity |
| C09 | same | R: same agreement lemma plus continuity of polynomials |
| C10 | `evaluate` | R: local support |
| C11 | `evaluate` | R: linearity and partition of unity |
| C12 | `get_derivative_curve` | R: both sides are the same sum |
| C13 | `reverse` | R: reversal of the Cox-de Boor recursion, agreement lemma at knots |
| C14 | `reverse` | R: list reversal is an involution, 1-(1-x) = x |
| C15 | `curve_new`, `insert`, `reverse`, `split` | R: each operation returns a `built` curve; induction on the sequence |
| C16 | `insert` | R: Boehm's identity by induction on the degree |
| C17 | `insert` | ∀Num for the errors, R for success |
| C18 | `split` | R: C16, locality of pieces, affine reparametrisation |
| C19 | `split` | ∀Num / R |
| C20 | `uniform` | R: loop invariant |
| C21 | `averaging` | R: loop invariant, monotonicity of means |
| C22 | `de_boor` | R: loop invariant, integer part bounds, pigeonhole between consecutive products j*d |
| C23 | `equally_spaced`, `chord_length`, `centripetal` | R: loop invariant |
| C24 | `generate` (Interpolation) | R: rows of the collocation system are evaluations (C03) |
| C25 | `loose_fit` | R: normal equations imply the minimum (sum of squares expansion) |
| C26 | `fixed_fit` | R: same, and C06 |
| C27 | `fixed_fit`, `loose_fit` | loose: R no panic; fixed: refuted with a witness |
| C28 | `difference_operator` | induction on kappa with Pascal's rule |
| C29 | `merge_with_constraints` | case analysis, predicates of C36 |
| C30 | `merge_with_constraints` | R: list computations |
| C31 | `merge` | R: end-derivative functionals, explicit for degrees 1 and 2 |
| C32 | `merge_from`, `merge_to` | R: constraint rows of the system |
| C33 | `merge` | Q: refuted with a witness |
| C34 | `merge` | R: refuted for every degree from 3 on, with a witness over Q at degree 3 |
| C35 | `find_idx` | ∀Num bounds, R characterisation by loop invariant |
| C36 | predicates | ∀Num / R induction on lists |
| C37 | `vec_rescale`, `vec_normalize` | R: induction on lists |
| C38 | `curve_new` | ∀Num shape, R and f64 totality |
| C39 | `evaluate` | f64: refuted with a witness (subnormal knot gap) |
| C40 | `curve_new`, `evaluate` | Q: refuted with a witness |
| C41 | `insert` | Q: refuted with a witness (repeated knot below u) |
| C42 | `reverse` | f64: refuted with a witness |
| C43 | `insert_times` | Q: refuted with a witness |
| C44 | `evaluate` | R: pieces are polynomials by induction on the degree |
| C45 | `kevaluate` | Q: refuted with a witness (unclamped end) |
| C46 | `generate` (Manual) | R: dispatch, C20-C23 |
| C47 | `prepend_constrained` | Q: refuted with a witness |
| C48 | `segments_derivative` | Q: refuted with a witness, panics and wrong count |
| C49 | `get_derivative_curve` | Q: refuted with a witness |
| C50 | `split` | f64: refuted with a witness (repeated knot below u) |
| C51 | `find_idx` | refuted for every knot vector without repeated domain knots |
| C52 | `generate` (Manual) | refuted: given knots decide the degree |
| C53 | `knots_normalize` | R: refuted with a witness |
| C54 | `generate` (LeastSquaresFit) | R: all error cases; success by `SW.v` and positive definiteness |
| C55 | `interpolate`, `loose_fit`, `fixed_fit` | R: uniqueness of the minimiser, reproduction of spline data |
| C56 | `loose_fit`, `fixed_fit` | R: the penalised normal equations with a zero penalty term |
| C57 | `merge` | R: only the points next to the joint enter the assembly loops |
| C58 | `evaluate` | f64: error analysis of the recursion by induction on the degree, then of the sum |
| C59 | `kevaluate` | f64: same |
| C60 | `evaluate` | f64: at the ends every product is by an exact 0 or 1 |
| C61, C62 | `uniform`, `equally_spaced` | f64: one rounding per entry, monotonicity of rounding |
| C63, C64 | `split_and_normalize`, `curve_new` | R: affine invariance of the recursion and of the derivative points |
| C65 | `append`, `prepend` | R: the merge with the order of the curves, and its errors |
| C66 | curve, control points | R: variation diminishing: sign changes of an affine functional |
| C67 | curve, control points | R: monotone control points give a monotone curve |
| C68 | curve, control points | R: chains of chords are not longer than the control polygon |
| C69 | curve, control points | R: equal curves over equal knots have equal control points |
| C70 | curve, control points | R: control points at the knot averages of a line give the line |
| C71 | `generate(Interpolation / LeastSquaresFit)` | R: affine maps of the data map the curve |
| C72 | `generate`, `reverse` | R: reversed data give the reversed curve |
| C73 | `generate(Interpolation / LeastSquaresFit)` | R: data on a line give the line |
| C74 | `insert_times` | f64: error of one new point, then of the curve, then induction on the number of insertions |
| C75 | `points_derive`, `evaluate_derivative` | f64: error of the difference quotients by induction on the order |
| C76 | `evaluate` | f64: C05 and C58 |
| C77 | derivative | R: weights from local support and partition of unity on the derived knots |
| C78 | curve | R: C77 for k = 1, continuity, mean value inequality with right derivatives |
| C79 | derivative | R: end interpolation of the derivative curve |
| C80 | curve, derivative | R: linear in the control points, convex weights |
| C81 | curve | R: strict version of C67 |
| C82 | curve | R: the recursion without internal knots gives the Bernstein polynomials |
| C83 | curve | R: degrees 0 and 1 in closed form |
| C84 | curve, `insert_times` | R: at a knot of multiplicity p one basis function is 1 |
| C85 | `insert` | R: knots as sorted permutations, control points unique (C69) |
| C86 | `insert` | R: the point formula; its weights lie in [0, 1] |
| C87 | `insert`, curve | R: insertion keeps the bound on the legs; hull property |
| C88 | fits, interpolation | R: error 0 is possible and the minimum is unique |
| C89 | fits | R: the two optimality conditions added |
| C90 | fits | R: one admissible set contains the other; knot insertion embeds the coarse curves |
| C91, C92 | fits | R: stationarity of the minimum |
| C93 | `merge`, `split` | R: the smallest change is unique, and no change is admissible |
| C94, C95 | `merge`, `merge_from`, `merge_to`, `merge_with_constraints`, `reverse` | R: the maps carry the optimality conditions over |
| C96 | `generate`, `merge` | R: uniqueness of the minimum |
| C97, C98, C102, C104 | `chord_length`, `centripetal`, `de_boor`, `evaluate` | F64: refuted by computed witnesses |
| C99 | `chord_length`, `centripetal` | F64 against R: relative errors of sums, square roots, quotients |
| C100, C101 | `averaging`, `de_boor` | F64 against R |
| C103 | `evaluate` | F64: basis functions out of reach are exact zeros |
| C105, C106 | all edits, `evaluate_derivative` | any `Num` / F64: a relation between points that survives addition and scaling survives everything |
| C107, C110 | `reverse` | F64: `1 - u` is exact after the first rounding; knots moved by at most 2^-54 |
| C108 | `evaluate` | R: basis functions under moved knots, degree by degree |
| C109, C111 | `generate` (manual) | F64: parameters and knots within a bound (C99-C101), then C108 and the evaluation bound |
| C112 | `insert`, `split` | F64: NaN fails both comparisons of the bounds check |
| C113 | `generate` (interpolation) | F64: collocation matrix of computed basis values (C59), the solver is an oracle |
| C114 | `evaluate` | F64: computed witness |
| C115 | `generate` (least squares) | RNum; the solver is an oracle with a residual |
| C116 | `evaluate`, `insert` | RNum; repeated insertion |
| C117 | `split`, `evaluate` | F64 against RNum |
| C118 | `find_idx`, `multiplicity`, `is_sorted`, `is_clamped`, `is_normed` | F64 against RNum |
| C119 | `evaluate` | RNum |
| C120 | `evaluate`, `uniform` | RNum |
| C121 | `evaluate_derivative` | RNum |
| C122 | all public calls | ∀Num, F64 |
| C123 | edits, evaluation | R |
| C124 | evaluate, split | R |
| C125 | insert, split, reverse | R |
| C126 | generate (fits) | R |
| C127 | generate (interpolation) | R |
| C128 | generate (manual) | R |
| C129 | generate (manual), reverse | R |
| C130 | generate (manual), reverse | R, refuted |
| C131 | insert, split | binary64 |
| C132 | evaluate, generate (interpolation, fits) | R |
| C133 | evaluate | R |
| C134 | insert, split, evaluate | binary64 |
| C135 | merge | binary64 |
| C136 | merge | R |
| C137 | is_normed, is_sorted, merge | binary64 |
| C138 | evaluate, evaluate_derivative | R |
| C139 | evaluate | R |
| C140 | new, evaluate | R |
| C141 | generate (fits) | R, exact solver |
| C142 | generate (interpolation, fits) | R, exact solver |
| C143 | evaluate_derivative | R |
| C144 | evaluate, evaluate_derivative | R |
| C145 | evaluate | binary64 |
| C146 | get_derivative_curve, insert, split, reverse, merge | every number system; exact |
| C147 | new, generate, insert, split, reverse, merge | exact; every number system; binary64 |
| C148 | evaluate_derivative after insert, reverse, split | binary64 |
| C149 | generate with uniform or computed knots, then evaluate_derivative | exact, binary64 |
| C150 | merge_with_constraints, degrees 1 and 2, any solver answer | exact, binary64 |
| C151 | insert_times, reverse, split in any order, then evaluate | binary64 |
| C152 | insert_times, reverse, split in any order, then evaluate and evaluate_derivative | exact |
| C153 | `generate`, `insert_times`, `split`, `reverse`, `evaluate` | F64: the generated curve is near the exact one at every real parameter (C108), then C151 |
| C154 | writes through `curve.knots`, `curve.points`; `evaluate`, `insert`, `split`, `merge` | any: these read level 0 of the caches only |
| C155 | `knots.derive`, `points.derive` | any: both recompute all levels from level 0 |
| C156 | `points.get_mut`, `points.matrix_mut` | R: level 0 is replaced, the sum over basis functions is linear; any: levels above 0 are untouched |
| C157 | `knots.vector_mut` | R and any, as C156 |
| C158 | `knots.rescale`, `points.derive` | R: basis functions of mapped knots, with old and new derivative points |
| C159 | `points.reverse` | R: symmetric knots are a fixed point of `knots.reverse` |
| C160 | `insert`, `points.matrix_derivative` | R: derivative points after insertion as convex combinations |
| C161 | `insert`, `evaluate`, `points.matrix_derivative` | R: linear precision, sums over the triangle of differences of first derivative points |
| C162 | `generate` (`Interpolation`) | R: a rational B-spline table and integer data, checked by computation; every decomposition with the cutoff loses them (refuted) |
| C163 | `generate` (`Interpolation`, `LeastSquaresFit`) | R: existence of singular value decompositions, truncated solutions, Rayleigh quotients of the normal matrix |
| C164 | read accessors of `Knots`, `ControlPoints`, `Curve` | any number system: what each index reads, and where it panics |
| C165 | `DataPoints::reverse`, `get`, `is_empty` | any number system; interpolation of reversed data in exact arithmetic |
| C166 | `evaluate`, `evaluate_derivative` | peaks and valleys against the control polygon, every derivative |
| C167 | `evaluate_derivative` | sign changes of derivatives against divided differences of the points |
| C168 | `evaluate`, `evaluate_derivative` | chords, polylines through samples and tangents against the curve |
| C169 | `evaluate` | binary64: nearby parameters, certified crossings, rendered polylines |
| C170 | `merge_with_constraints` | refuted: a constraint lost by the cutoff of the decomposition |
| C171 | `merge`, `merge_from`, `merge_to`, `merge_with_constraints` | the cutoff of the decomposition does not change merges of degree 1 and 2 |
| C172 | `generate`, `centripetal` | debug builds: same curve or panic, exactly when |
| C173 | `generate`, `centripetal` | refuted: both builds generate the same curves |
| C174 | `evaluate`, `insert`, `split`, `reverse` | the length of a curve; polygons and samples against it |
| C175 | `evaluate` | lengths measured on points computed in binary64 |
| C176 | `evaluate` | parts of equal length |
| C177 | `new`, `evaluate`, `evaluate_derivative` | antiderivatives, mean of sampled points |
| C178 | `evaluate` | mean of points computed in binary64 |

## Axioms per theorem

What `Print Assumptions` lists, as written by `tools/axioms.py`.

| axioms | theorems |
|---|---|
| none | `C01_never_panics`, `C02_outside_rejected`, `C02_inside_accepted`, `C07_high_order_zero`, `C105_coordinates`, `C12_derivative_curve`, `C12_order_above_degree_panics`, `C122_searches_end`, `C122_curve_calls_end`, `C122_generation_and_merge_end`, `C146_edits`, `C147_coordinates`, `C15_coherent_any`, `C154_evaluate`, `C154_insert`, `C154_insert_times`, `C154_split`, `C154_new`, `C154_merge`, `C155_refresh`, `C155_orders`, `C155_same_curve`, `C156_stale`, `C157_stale`, `C164_knots`, `C164_short`, `C164_curve`, `C165_data_reverse`, `C165_get`, `C17_insert_any`, `C172_same_or_panic`, `C172_only_centripetal`, `C19_split_out_of_bounds`, `C20_uniform_errors`, `C21_generator_errors`, `C24_errors`, `C28_entries`, `C29_entry_points`, `C33_constants_refuted`, `C33_solver_exact`, `C34_constant_cubics_refuted`, `C35_in_domain`, `C36_is_sorted_any`, `C36_is_clamped_any`, `C38_curve_new`, `C40_size_cases`, `C46_too_few_points`, `C46_degree_zero_uniform`, `C46_degree_zero_method`, `C46_given_knots`, `C47_prepend_constrained_refuted`, `C48_segments_derivative_refuted`, `C51_right_or_equal_top_refuted`, `C52_degree_of_the_knots_refuted` |
| `ClassicalDedekindReals.sig_forall_dec`, `FunctionalExtensionality.functional_extensionality_dep` | `C28_differences` |
| `ClassicalDedekindReals.sig_forall_dec`, `ClassicalDedekindReals.sig_not_dec`, `FunctionalExtensionality.functional_extensionality_dep` | `C01_exact_returns`, `C02_exact_range`, `C03_evaluate`, `C03_evaluate_derivative`, `C04_basis_functions`, `C05_convex_hull`, `C06_end_points`, `C08_derivative`, `C08_right_derivative`, `C09_continuity`, `C10_local_control`, `C11_affine_invariance`, `C116_bezier_piece`, `C116_decomposition`, `C119_convex`, `C120_sampled`, `C121_antiderivative`, `C123_linear_map`, `C123_superposition`, `C124_same_points_same_curve`, `C124_knots_of_the_parts`, `C125_reverse_and_insert`, `C125_reverse_and_split`, `C125_insert_and_split`, `C128_similar_polygons`, `C128_similarity`, `C128_equidistant`, `C129_reversed_polygon`, `C13_reverse`, `C130_reversed_polygon_de_boor_refuted`, `C132_polynomial_precision`, `C136_merge_sizes`, `C136_merge_panics`, `C138_condition`, `C138_derivatives`, `C139_idle_point`, `C14_reverse_twice`, `C144_convex_hull`, `C144_weights`, `C144_derivative`, `C146_insert`, `C146_split`, `C147_linear`, `C15_coherent`, `C150_solver`, `C152_run`, `C156_point`, `C157_knots`, `C158_rescale`, `C159_points`, `C16_insert`, `C16_insert_times`, `C160_cuts`, `C160_halfspace`, `C161_polygon`, `C161_refinement`, `C163_interpolation_bounds`, `C164_multiplicity`, `C166_peaks`, `C166_derivative_peaks`, `C166_derivative_length`, `C167_derivative_variation`, `C167_turns`, `C17_insert_exact`, `C170_lost`, `C172_limit`, `C172_far`, `C173_builds_refuted`, `C174_exists`, `C174_additive`, `C174_insert`, `C174_reverse`, `C174_split`, `C174_control`, `C177_antiderivative`, `C18_split`, `C19_split_cases`, `C20_uniform`, `C21_averaging`, `C22_de_boor`, `C23_equally_spaced`, `C23_chord_length`, `C23_centripetal`, `C23_increasing`, `C27_one_segment_refuted`, `C27_kappa_refuted`, `C29_merge_errors`, `C30_merged_shape`, `C31_merged_curve`, `C32_constrained_points`, `C32_merge_from_to`, `C33_segment_counts_refuted`, `C34_constants_refuted`, `C35_left`, `C35_left_or_equal`, `C35_right`, `C35_right_or_equal`, `C35_bisection`, `C36_is_sorted`, `C36_is_clamped`, `C36_is_normed`, `C36_is_uniform`, `C37_rescale`, `C37_normalize`, `C37_normalize_clamped`, `C37_rescaled_knot`, `C40_missing_points`, `C43_insert_times_atomic_refuted`, `C44_piecewise_polynomial`, `C45_doubled_refuted`, `C46_uniform`, `C46_method`, `C47_holds_the_other_refuted`, `C50_behind_repeated_exact_refuted`, `C53_normalize_coherent_refuted`, `C53_coherent_iff`, `C54_degree_zero`, `C54_few_segments`, `C54_few_data`, `C54_kappa`, `C54_loose`, `C54_fixed`, `C56_no_effect`, `C57_untouched_points`, `C63_split_flags`, `C64_mapped_knots`, `C65_append_prepend`, `C66_variation_diminishing`, `C67_monotone`, `C68_length`, `C69_points_unique`, `C70_linear_precision`, `C77_derivative_hull`, `C79_end_derivatives`, `C79_end_tangents`, `C80_stability`, `C80_superposition`, `C81_strictly_monotone`, `C81_no_self_intersection`, `C82_bezier`, `C83_steps`, `C83_polyline`, `C84_knot_point`, `C84_insert_to_point`, `C85_insert_order`, `C86_corner_cutting`, `C87_refinement`, `C93_smooth`, `C93_split_and_merge`, `C94_reverse`, `C94_constraints`, `C94_merge_from`, `C95_affine`, `C96_merge` |
| `ClassicalDedekindReals.sig_forall_dec`, `ClassicalDedekindReals.sig_not_dec`, `Classical_Prop.classic`, `FunctionalExtensionality.functional_extensionality_dep` | `C01_binary64_returns`, `C100_averaging`, `C101_de_boor`, `C102_de_boor_sorted_refuted`, `C103_local`, `C104_local_infinite_refuted`, `C104_spoiled_refuted`, `C106_mirror`, `C107_reverse_settles`, `C108_knots_stable`, `C109_uniform`, `C110_reverse_accuracy`, `C111_method`, `C112_nan_rejected_refuted`, `C113_interpolation`, `C114_constant_refuted`, `C117_split_accuracy`, `C118_same_decisions`, `C120_approximation`, `C121_integral`, `C122_binary64`, `C126_loose`, `C126_fixed`, `C126_limit`, `C127_polygon`, `C131_insert`, `C131_insert_times`, `C131_split`, `C132_interpolation`, `C132_fit`, `C132_beats_polynomials`, `C133_second_order`, `C134_insert_local`, `C134_insert_ends`, `C134_watertight`, `C135_merge_errors_binary64`, `C135_merge_binary64`, `C135_merge_panics_binary64`, `C137_nan_knots`, `C137_number_knots`, `C137_merge`, `C140_order`, `C141_order`, `C141_second_order`, `C141_continuous`, `C142_interpolation`, `C142_loose`, `C142_fixed`, `C143_sampled_derivative`, `C145_knot_point`, `C145_polygon`, `C146_rebuilds`, `C147_mirror`, `C148_insert`, `C148_reverse`, `C148_split`, `C149_knots`, `C149_uniform`, `C149_method`, `C150_binary64`, `C151_edits`, `C153_uniform`, `C153_method`, `C163_threshold`, `C165_interpolation`, `C168_chord`, `C168_polyline`, `C168_tangent`, `C169_nearby`, `C169_crossing`, `C169_rendered`, `C172_binary64`, `C172_nan`, `C173_tiny_refuted`, `C174_speed`, `C174_samples`, `C174_speeds`, `C175_below`, `C175_measured`, `C176_reached`, `C176_equal_parts`, `C177_mean`, `C178_mean`, `C24_interpolation`, `C25_loose`, `C26_fixed`, `C39_finite_refuted`, `C40_accepted_curves_evaluate_refuted`, `C41_insert_everywhere_refuted`, `C42_reverse_twice_binary64_refuted`, `C42_which_knots_return`, `C45_unclamped_affine_refuted`, `C49_derivative_curve_is_full_refuted`, `C50_split_returns_refuted`, `C50_behind_repeated_refuted`, `C52_requested_degree_refuted`, `C55_interpolation`, `C55_loose`, `C55_fixed`, `C58_accuracy`, `C59_basis`, `C60_ends`, `C61_uniform`, `C62_equally_spaced`, `C65_panics`, `C71_interpolation`, `C71_loose`, `C71_fixed`, `C72_interpolation`, `C72_loose`, `C72_fixed`, `C73_interpolation`, `C73_fit`, `C74_insert`, `C75_derivatives`, `C76_box`, `C78_speed`, `C88_fit_is_interpolation`, `C89_loose`, `C89_fixed`, `C90_fixed_ends`, `C90_more_segments`, `C91_orthogonal`, `C91_centre_of_mass`, `C92_noise`, `C96_interpolation`, `C96_loose`, `C96_fixed`, `C97_chord_order_refuted`, `C97_centripetal_order_refuted`, `C98_parameters_finite_refuted`, `C99_chord_length`, `C99_centripetal` |
| `ClassicalDedekindReals.sig_forall_dec`, `ClassicalDedekindReals.sig_not_dec`, `ClassicalEpsilon.constructive_indefinite_description`, `Classical_Prop.classic`, `FunctionalExtensionality.functional_extensionality_dep` | `C115_loose`, `C115_fixed`, `C162_interpolation_cutoff_refuted`, `C162_lost`, `C163_interpolation_iff`, `C163_degree_one`, `C163_fits`, `C163_interpolation`, `C170_constraints_cutoff_refuted`, `C171_merges`, `C171_constraints` |
