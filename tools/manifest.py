#!/usr/bin/env python3
"""Writes MANIFEST.json: python3 tools/manifest.py > MANIFEST.json"""
import json
C = []
def claim(prop, status, theorems, note):
    C.append({"property": prop, "status": status, "theorems": theorems.split(), "note": note})

claim("C01", "proved", "C01_never_panics C01_binary64_returns C01_exact_returns",
      "Every number system; binary64 and exact reals always return. P_Eval.v")
claim("C02", "proved", "C02_outside_rejected C02_inside_accepted C02_exact_range", "P_Eval.v")
claim("C03", "proved", "C03_evaluate C03_evaluate_derivative",
      "Proved for every sorted knot vector, clamped or not. P_Eval.v")
claim("C04", "proved", "C04_basis_functions", "P_Basis.v")
claim("C05", "proved", "C05_convex_hull", "Stated with explicit convex weights. P_Basis.v")
claim("C06", "proved", "C06_end_points", "P_Basis.v")
claim("C07", "proved", "C07_high_order_zero", "P_Eval.v")
claim("C08", "proved", "C08_derivative C08_right_derivative", "P_Deriv.v")
claim("C09", "proved", "C09_continuity", "P_Deriv.v")
claim("C10", "proved", "C10_local_control", "P_Basis.v")
claim("C11", "proved", "C11_affine_invariance", "P_Basis.v")
claim("C12", "proved", "C12_derivative_curve C12_order_above_degree_panics", "Every number system. P_Deriv.v")
claim("C44", "proved", "C44_piecewise_polynomial", "P_Basis.v")
claim("C49", "partial", "C49_derivative_curve_is_full_refuted",
      "refuted: for every curve and k < p the derivative curve panics in max_derivative and in every further derivative. P_Deriv.v")
claim("C13", "proved", "C13_reverse", "P_Reverse.v")
claim("C14", "proved", "C14_reverse_twice", "P_Reverse.v")
claim("C15", "proved", "C15_coherent C15_coherent_any", "With reverse over the reals, without reverse in every number system. P_Coherent.v")
claim("C16", "proved", "C16_insert C16_insert_times", "P_Insert.v")
claim("C17", "proved", "C17_insert_any C17_insert_exact", "P_Insert.v")
claim("C18", "proved", "C18_split", "P_Split.v")
claim("C19", "proved", "C19_split_out_of_bounds C19_split_cases", "P_Split.v")
claim("C35", "proved", "C35_left C35_left_or_equal C35_right C35_right_or_equal C35_in_domain C35_bisection", "P_Search.v, P_Views2.v")
claim("C38", "proved", "C38_curve_new", "P_New.v")
claim("C39", "partial", "C39_finite_refuted", "refuted: NaN for the knots 0 0 2^-1040 1 1. P_New.v")
claim("C40", "partial", "C40_accepted_curves_evaluate_refuted C40_size_cases C40_missing_points", "refuted: Bezier knots with four points; in general one knot too few is accepted and makes every evaluation panic, and missing points count as the origin. P_New.v, P_Free.v")
claim("C41", "partial", "C41_insert_everywhere_refuted", "refuted: for every curve with a repeated internal knot below u the new knots are unsorted; a concrete curve changes its value. C16 is the true restriction. P_Insert.v")
claim("C42", "partial", "C42_reverse_twice_binary64_refuted C42_which_knots_return", "refuted: the knot 2^-60 comes back as 0; exactly the multiples of 2^-53 come back. P_Reverse.v, P_General.v")
claim("C43", "partial", "C43_insert_times_atomic_refuted", "refuted for every curve: the insertions before the error stay. P_Insert.v")
claim("C45", "partial", "C45_unclamped_affine_refuted C45_doubled_refuted", "refuted: the last domain knot is counted twice, for all knots not clamped at the end. P_New.v, P_Free.v")
claim("C48", "partial", "C48_segments_derivative_refuted", "refuted for every knot vector: the value is n, or a panic. P_Search.v")
claim("C50", "partial", "C50_split_returns_refuted C50_behind_repeated_refuted C50_behind_repeated_exact_refuted", "refuted: degree 1, knots 0 0 1/4 1/4 3/4 3/4 1 1; in general at every repeated knot behind another repeated knot. C19 is the true restriction. P_Split.v, P_General.v")
claim("C51", "partial", "C51_right_or_equal_top_refuted", "refuted for every knot vector without repeated domain knots. C35 is the true restriction. P_Search.v")
claim("C20", "proved", "C20_uniform C20_uniform_errors", "P_Knots.v")
claim("C21", "proved", "C21_averaging C21_generator_errors", "P_Knots.v")
claim("C22", "proved", "C22_de_boor", "P_Knots.v")
claim("C23", "proved", "C23_equally_spaced C23_chord_length C23_centripetal C23_increasing", "P_Knots.v")
claim("C36", "proved", "C36_is_sorted C36_is_clamped C36_is_normed C36_is_uniform C36_is_sorted_any C36_is_clamped_any", "P_Knots.v")
claim("C37", "proved", "C37_rescale C37_normalize C37_normalize_clamped C37_rescaled_knot", "P_Knots.v, P_Views2.v")
claim("C46", "proved", "C46_too_few_points C46_degree_zero_uniform C46_degree_zero_method C46_given_knots C46_uniform C46_method", "P_Manual.v")
claim("C52", "partial", "C52_requested_degree_refuted C52_degree_of_the_knots_refuted", "refuted: degree 3 requested, degree 1 delivered; the degree is always that of the knots. P_Manual.v, P_General.v")
claim("C53", "partial", "C53_normalize_coherent_refuted C53_coherent_iff", "refuted: degree 1, knots 0 1 2 3; C53_coherent_iff says for which knots it holds. P_Knots.v, P_General.v")
claim("C24", "proved", "C24_interpolation C24_errors", "For every solver that solves the solvable systems. P_Fit.v")
claim("C25", "proved", "C25_loose", "For every solver that solves the solvable systems. P_Fit.v")
claim("C26", "proved", "C26_fixed", "For every solver that solves the solvable systems. P_Fit.v")
claim("C27", "partial", "C27_one_segment_refuted C27_kappa_refuted", "refuted: the fixed-ends fit panics for n = 1 and for every input with kappa = n - 1. C54 is the true restriction. P_Fit.v")
claim("C28", "proved", "C28_entries C28_differences", "P_Fit.v")
claim("C54", "proved", "C54_degree_zero C54_few_segments C54_few_data C54_kappa C54_loose C54_fixed", "P_Fit.v")
claim("C55", "proved", "C55_interpolation C55_loose C55_fixed", "P_Fit.v")
claim("C56", "proved", "C56_no_effect", "P_Fit.v")
claim("C29", "proved", "C29_merge_errors C29_entry_points", "for all curves the constructor accepts, clamped or not, any solver, exact arithmetic")
claim("C30", "proved", "C30_merged_shape", "all degrees, any solver")
claim("C33", "partial", "C33_segment_counts_refuted C33_constants_refuted C33_solver_exact", "refuted: no solver makes the merge succeed unless m <= o < m + p (proved for all curves); for o = m + 1 a constant is not reproduced")
claim("C34", "partial", "C34_constants_refuted C34_constant_cubics_refuted", "refuted for every degree from 3 on, every knot vector and every constant other than zero; e.g. the constant cubic 1 merged with itself is 4/3 at the joint")
claim("C47", "partial", "C47_prepend_constrained_refuted C47_holds_the_other_refuted", "refuted: the constraint lists are swapped, for all quadratic curves. P_Merge.v, P_Free.v")
claim("C31", "proved", "C31_merged_curve", "degrees 1 and 2; higher degrees are refuted by C34. Exact arithmetic, solver assumed to solve solvable systems.")
claim("C32", "proved", "C32_constrained_points C32_merge_from_to", "exact arithmetic, solver assumed to solve solvable systems")
claim("C57", "proved", "C57_untouched_points", "any degree; no assumption on what the solver returns beyond its size")
claim("C58", "proved", "C58_accuracy", "binary64 with the rounding of Flocq; the restricted true version of C39")
claim("C59", "proved", "C59_basis", "binary64")
claim("C60", "proved", "C60_ends", "binary64, any degree")
claim("C61", "proved", "C61_uniform", "binary64")
claim("C62", "proved", "C62_equally_spaced", "binary64")
claim("C63", "proved", "C63_split_flags", "P_Split.v")
claim("C64", "proved", "C64_mapped_knots", "P_Split.v")
claim("C65", "proved", "C65_append_prepend C65_panics", "P_Merge.v; which curve the constraints apply to is refuted for prepend_constrained, see C47")
claim("C66", "proved", "C66_variation_diminishing", "P_Shape.v")
claim("C67", "proved", "C67_monotone", "P_Shape.v")
claim("C68", "proved", "C68_length", "P_Shape.v")
claim("C69", "proved", "C69_points_unique", "P_Shape.v")
claim("C70", "proved", "C70_linear_precision", "P_Shape.v")
claim("C71", "proved", "C71_interpolation C71_loose C71_fixed", "P_FitMaps.v")
claim("C72", "proved", "C72_interpolation C72_loose C72_fixed", "P_FitMaps.v")
claim("C73", "proved", "C73_interpolation C73_fit", "P_FitMaps.v")
claim("C74", "proved", "C74_insert", "binary64, P_Float2.v; behind a repeated internal knot insertion is wrong already in exact arithmetic, see C41")
claim("C75", "proved", "C75_derivatives", "binary64, P_Float2.v")
claim("C76", "proved", "C76_box", "binary64, P_Float2.v")
claim("C77", "proved", "C77_derivative_hull", "P_Shape2.v")
claim("C78", "proved", "C78_speed", "P_Shape2.v")
claim("C79", "proved", "C79_end_derivatives C79_end_tangents", "P_Shape2.v")
claim("C80", "proved", "C80_stability C80_superposition", "P_Shape2.v")
claim("C81", "proved", "C81_strictly_monotone C81_no_self_intersection", "P_Shape2.v")
claim("C82", "proved", "C82_bezier", "P_Shape2.v")
claim("C83", "proved", "C83_steps C83_polyline", "P_Shape2.v")
claim("C84", "proved", "C84_knot_point C84_insert_to_point", "P_Shape2.v")
claim("C85", "proved", "C85_insert_order", "P_Shape2.v")
claim("C86", "proved", "C86_corner_cutting", "P_Shape2.v")
claim("C87", "proved", "C87_refinement", "P_Shape2.v")
claim("C88", "proved", "C88_fit_is_interpolation", "P_Fit2.v")
claim("C89", "proved", "C89_loose C89_fixed", "P_Fit2.v")
claim("C90", "proved", "C90_fixed_ends C90_more_segments", "P_Fit2.v")
claim("C91", "proved", "C91_orthogonal C91_centre_of_mass", "P_Fit2.v")
claim("C92", "proved", "C92_noise", "P_Fit2.v")
claim("C93", "proved", "C93_smooth C93_split_and_merge", "P_Merge2.v; degrees 1 and 2 as in C31")
claim("C94", "proved", "C94_reverse C94_constraints C94_merge_from", "P_Merge2.v, P_Merge4.v; degrees 1 and 2 as in C31")
claim("C95", "proved", "C95_affine", "P_Merge2.v; degrees 1 and 2 as in C31")
claim("C96", "proved", "C96_interpolation C96_loose C96_fixed C96_merge", "P_Merge2.v; merging in degrees 1 and 2 as in C31")
claim("C97", "partial", "C97_chord_order_refuted C97_centripetal_order_refuted", "refuted: 1-D data 51 39 20 2 0 2^-200 give a last but one parameter above 1; C99 is the true part; P_Float3.v")
claim("C98", "partial", "C98_parameters_finite_refuted", "refuted: points 2^-700 or 2^600 apart give NaN; C99 is the true part; P_Float3.v")
claim("C99", "proved", "C99_chord_length C99_centripetal", "P_Float3.v")
claim("C100", "proved", "C100_averaging", "P_Float3.v")
claim("C101", "proved", "C101_de_boor", "P_Float3.v")
claim("C102", "partial", "C102_de_boor_sorted_refuted", "refuted: degree 3, eight parameters of which six are neighbouring numbers; P_Float3.v")
claim("C103", "proved", "C103_local", "P_Float3.v")
claim("C104", "partial", "C104_local_infinite_refuted C104_spoiled_refuted", "refuted: zero times infinity, on every curve; C103 is the true part; P_Float3.v, P_General.v")
claim("C105", "proved", "C105_coordinates", "P_Float3.v; for every Num")
claim("C106", "proved", "C106_mirror", "P_Float3.v")
claim("C107", "proved", "C107_reverse_settles", "P_Float4.v")
claim("C108", "proved", "C108_knots_stable", "P_Float4.v")
claim("C109", "proved", "C109_uniform", "P_Float4.v")
claim("C110", "proved", "C110_reverse_accuracy", "P_Float4.v")
claim("C111", "proved", "C111_method", "P_Float4.v")
claim("C112", "partial", "C112_nan_rejected_refuted", "refuted: NaN passes the bounds check of insert and split on every curve; all other parameters are covered by C17 and C19. P_Float5.v")
claim("C113", "proved", "C113_interpolation", "P_Float5.v")
claim("C114", "partial", "C114_constant_refuted", "refuted: a constant quadratic curve is above its constant at u = 0.2 and below at 1/30. The true version, up to rounding, is C76. P_Float5.v")
claim("C115", "proved", "C115_loose C115_fixed", "the solver is an oracle, all other steps are exact. P_Fit3.v")
claim("C116", "proved", "C116_bezier_piece C116_decomposition", "P_Shape3.v")
claim("C117", "proved", "C117_split_accuracy", "rounded knots are handled through C108. P_Float6.v")
claim("C118", "proved", "C118_same_decisions", "P_Float7.v")
claim("C119", "proved", "C119_convex", "from variation diminishing (C66) and linear precision (C70). P_Shape4.v")
claim("C120", "proved", "C120_sampled C120_approximation", "P_Shape4.v")
claim("C121", "proved", "C121_antiderivative C121_integral", "the integral is the Riemann integral of the standard library. P_Shape4.v")
claim("C122", "proved", "C122_searches_end C122_curve_calls_end C122_generation_and_merge_end C122_binary64", "the model runs loops with fuel and reports Diverge when it is used up; this never happens. The solver is assumed to end. P_Total.v")
claim("C123", "proved", "C123_linear_map C123_superposition", "P_Maps.v; an edit is an insertion, one side of a split, a reversal or a derivative curve")
claim("C124", "proved", "C124_same_points_same_curve C124_knots_of_the_parts", "P_Maps.v")
claim("C125", "proved", "C125_reverse_and_insert C125_reverse_and_split C125_insert_and_split", "other internal knots simple, since insertion miscounts multiplicities otherwise (C41). P_Maps.v")
claim("C126", "proved", "C126_loose C126_fixed C126_limit", "assumes a solver that solves solvable systems. P_Fit4.v")
claim("C127", "proved", "C127_polygon", "assumes a solver that solves solvable systems. P_Fit4.v")
claim("C128", "proved", "C128_similar_polygons C128_similarity C128_equidistant", "P_Manual2.v")
claim("C129", "proved", "C129_reversed_polygon", "P_Manual2.v; for de Boor's knots see C130")
claim("C130", "partial", "C130_reversed_polygon_de_boor_refuted", "refuted: for every degree and polygon with internal knots, equally spaced parameters. P_Manual2.v")
claim("C131", "proved", "C131_insert C131_insert_times C131_split", "P_Float8.v")
claim("C132", "proved", "C132_polynomial_precision C132_interpolation C132_fit C132_beats_polynomials", "the last three assume a solver that solves solvable systems. P_Poly.v")
claim("C133", "proved", "C133_second_order", "P_Poly.v")
claim("C134", "proved", "C134_insert_local C134_insert_ends C134_watertight", "P_Float8.v")
claim("C135", "proved", "C135_merge_errors_binary64 C135_merge_binary64 C135_merge_panics_binary64", "P_Merge3.v")
claim("C136", "proved", "C136_merge_sizes C136_merge_panics", "the sizes that panic are those of C33. P_Merge3.v")
claim("C137", "proved", "C137_nan_knots C137_number_knots C137_merge", "P_Float9.v")
claim("C138", "proved", "C138_condition C138_derivatives", "P_Cond.v")
claim("C139", "proved", "C139_idle_point", "with C69 this tells exactly when a curve determines its control points. P_Cond.v")
claim("C140", "proved", "C140_order", "P_Order.v")
claim("C141", "proved", "C141_order C141_second_order C141_continuous", "P_Order.v")
claim("C142", "proved", "C142_interpolation C142_loose C142_fixed", "P_Order.v")
claim("C143", "proved", "C143_sampled_derivative", "P_Order.v")
claim("C144", "proved", "C144_convex_hull C144_weights C144_derivative", "P_Free.v; what happens at U[n+1] is C45")
claim("C145", "proved", "C145_knot_point C145_polygon", "P_Float10.v")
claim("C146", "proved", "C146_edits C146_rebuilds C146_insert C146_split", "P_Derived.v")
claim("C147", "proved", "C147_linear C147_coordinates C147_mirror", "P_Program.v")
claim("C148", "proved", "C148_insert C148_reverse C148_split", "P_Float11.v")
claim("C149", "proved", "C149_knots C149_uniform C149_method", "P_Float12.v")
claim("C150", "proved", "C150_solver C150_binary64", "P_Float13.v")
claim("C151", "proved", "C151_edits", "P_Float14.v")
claim("C152", "proved", "C152_run", "P_Run.v")
claim("C153", "proved", "C153_uniform C153_method", "P_Float15.v; edits as in C151")
claim("C154", "proved", "C154_evaluate C154_insert C154_insert_times C154_split C154_new C154_merge", "P_Direct.v")
claim("C155", "proved", "C155_refresh C155_orders C155_same_curve", "P_Direct.v")
claim("C156", "proved", "C156_point C156_stale", "P_Direct.v")
claim("C157", "proved", "C157_knots C157_stale", "P_Direct.v; that either call alone is not enough is shown by the example C157_both_needed")
claim("C158", "proved", "C158_rescale", "P_Direct.v")
claim("C159", "proved", "C159_points", "P_Direct.v")
claim("C160", "proved", "C160_cuts C160_halfspace", "P_Refine.v")
claim("C161", "proved", "C161_polygon C161_refinement", "P_Refine.v")
claim("C162", "partial", "C162_interpolation_cutoff_refuted C162_lost", "refuted: 151 integers of at most 31 bits for which the cubic misses 99 percent of the data; C163 says when the claim holds; P_Cutoff.v")
claim("C163", "proved", "C163_interpolation_iff C163_degree_one C163_interpolation_bounds C163_fits C163_interpolation C163_threshold", "P_Cutoff.v")
claim("C164", "proved", "C164_knots C164_short C164_multiplicity C164_curve", "P_Views.v")
claim("C165", "proved", "C165_data_reverse C165_interpolation C165_get", "P_Views2.v")
claim("C166", "proved", "C166_peaks C166_derivative_peaks C166_derivative_length", "P_Peaks.v")
claim("C167", "proved", "C167_derivative_variation C167_turns", "P_Peaks.v")
claim("C168", "proved", "C168_chord C168_polyline C168_tangent", "P_Sampling.v")
claim("C169", "proved", "C169_nearby C169_crossing C169_rendered", "P_Sampling.v")
claim("C170", "partial", "C170_constraints_cutoff_refuted C170_lost", "refuted: a point at 2^-15 of a constant curve is moved by at least 2^-17; C171 says when the claim holds; P_Cutoff2.v")
claim("C171", "proved", "C171_merges C171_constraints", "P_Cutoff2.v; degree 1 and 2")
claim("C172", "proved", "C172_same_or_panic C172_only_centripetal C172_limit C172_far C172_binary64 C172_nan", "P_Debug.v")
claim("C173", "partial", "C173_builds_refuted C173_tiny_refuted", "refuted: every control polygon has a small copy for which the debug build panics; C172 says exactly when; P_Debug.v")
claim("C174", "proved", "C174_exists C174_additive C174_speed C174_insert C174_reverse C174_split C174_control C174_samples C174_speeds", "P_Length.v")
claim("C175", "proved", "C175_below C175_measured", "evaluation in binary64; the sum of the distances itself is exact; P_Length.v")
claim("C176", "proved", "C176_reached C176_equal_parts", "P_Length.v")
claim("C177", "proved", "C177_antiderivative C177_mean", "P_Mean.v")
claim("C178", "proved", "C178_mean", "evaluation in binary64; the mean of the computed points itself is exact; P_Mean.v")
C.sort(key=lambda c: c["property"])
print(json.dumps({"claims": C}, indent=1))
