{
 "claims": [
  {
   "property": "C01",
   "status": "proved",
   "theorems": [
    "C01_never_panics",
    "C01_binary64_returns",
    "C01_exact_returns"
   ],
   "note": "Every number system; binary64 and exact reals always return. P_Eval.v"
  },
  {
   "property": "C02",
   "status": "proved",
   "theorems": [
    "C02_outside_rejected",
    "C02_inside_accepted",
    "C02_exact_range"
   ],
   "note": "P_Eval.v"
  },
  {
   "property": "C03",
   "status": "proved",
   "theorems": [
    "C03_evaluate",
    "C03_evaluate_derivative"
   ],
   "note": "Proved for every sorted knot vector, clamped or not. P_Eval.v"
  },
  {
   "property": "C04",
   "status": "proved",
   "theorems": [
    "C04_basis_functions"
   ],
   "note": "P_Basis.v"
  },
  {
   "property": "C05",
   "status": "proved",
   "theorems": [
    "C05_convex_hull"
   ],
   "note": "Stated with explicit convex weights. P_Basis.v"
  },
  {
   "property": "C06",
   "status": "proved",
   "theorems": [
    "C06_end_points"
   ],
   "note": "P_Basis.v"
  },
  {
   "property": "C07",
   "status": "proved",
   "theorems": [
    "C07_high_order_zero"
   ],
   "note": "P_Eval.v"
  },
  {
   "property": "C08",
   "status": "proved",
   "theorems": [
    "C08_derivative",
    "C08_right_derivative"
   ],
   "note": "P_Deriv.v"
  },
  {
   "property": "C09",
   "status": "proved",
   "theorems": [
    "C09_continuity"
   ],
   "note": "P_Deriv.v"
  },
  {
   "property": "C10",
   "status": "proved",
   "theorems": [
    "C10_local_control"
   ],
   "note": "P_Basis.v"
  },
  {
   "property": "C100",
   "status": "proved",
   "theorems": [
    "C100_averaging"
   ],
   "note": "P_Float3.v"
  },
  {
   "property": "C101",
   "status": "proved",
   "theorems": [
    "C101_de_boor"
   ],
   "note": "P_Float3.v"
  },
  {
   "property": "C102",
   "status": "partial",
   "theorems": [
    "C102_de_boor_sorted_refuted"
   ],
   "note": "refuted: degree 3, eight parameters of which six are neighbouring numbers; P_Float3.v"
  },
  {
   "property": "C103",
   "status": "proved",
   "theorems": [
    "C103_local"
   ],
   "note": "P_Float3.v"
  },
  {
   "property": "C104",
   "status": "partial",
   "theorems": [
    "C104_local_infinite_refuted",
    "C104_spoiled_refuted"
   ],
   "note": "refuted: zero times infinity, on every curve; C103 is the true part; P_Float3.v, P_General.v"
  },
  {
   "property": "C105",
   "status": "proved",
   "theorems": [
    "C105_coordinates"
   ],
   "note": "P_Float3.v; for every Num"
  },
  {
   "property": "C106",
   "status": "proved",
   "theorems": [
    "C106_mirror"
   ],
   "note": "P_Float3.v"
  },
  {
   "property": "C107",
   "status": "proved",
   "theorems": [
    "C107_reverse_settles"
   ],
   "note": "P_Float4.v"
  },
  {
   "property": "C108",
   "status": "proved",
   "theorems": [
    "C108_knots_stable"
   ],
   "note": "P_Float4.v"
  },
  {
   "property": "C109",
   "status": "proved",
   "theorems": [
    "C109_uniform"
   ],
   "note": "P_Float4.v"
  },
  {
   "property": "C11",
   "status": "proved",
   "theorems": [
    "C11_affine_invariance"
   ],
   "note": "P_Basis.v"
  },
  {
   "property": "C110",
   "status": "proved",
   "theorems": [
    "C110_reverse_accuracy"
   ],
   "note": "P_Float4.v"
  },
  {
   "property": "C111",
   "status": "proved",
   "theorems": [
    "C111_method"
   ],
   "note": "P_Float4.v"
  },
  {
   "property": "C112",
   "status": "partial",
   "theorems": [
    "C112_nan_rejected_refuted"
   ],
   "note": "refuted: NaN passes the bounds check of insert and split on every curve; all other parameters are covered by C17 and C19. P_Float5.v"
  },
  {
   "property": "C113",
   "status": "proved",
   "theorems": [
    "C113_interpolation"
   ],
   "note": "P_Float5.v"
  },
  {
   "property": "C114",
   "status": "partial",
   "theorems": [
    "C114_constant_refuted"
   ],
   "note": "refuted: a constant quadratic curve is above its constant at u = 0.2 and below at 1/30. The true version, up to rounding, is C76. P_Float5.v"
  },
  {
   "property": "C115",
   "status": "proved",
   "theorems": [
    "C115_loose",
    "C115_fixed"
   ],
   "note": "the solver is an oracle, all other steps are exact. P_Fit3.v"
  },
  {
   "property": "C116",
   "status": "proved",
   "theorems": [
    "C116_bezier_piece",
    "C116_decomposition"
   ],
   "note": "P_Shape3.v"
  },
  {
   "property": "C117",
   "status": "proved",
   "theorems": [
    "C117_split_accuracy"
   ],
   "note": "rounded knots are handled through C108. P_Float6.v"
  },
  {
   "property": "C118",
   "status": "proved",
   "theorems": [
    "C118_same_decisions"
   ],
   "note": "P_Float7.v"
  },
  {
   "property": "C119",
   "status": "proved",
   "theorems": [
    "C119_convex"
   ],
   "note": "from variation diminishing (C66) and linear precision (C70). P_Shape4.v"
  },
  {
   "property": "C12",
   "status": "proved",
   "theorems": [
    "C12_derivative_curve",
    "C12_order_above_degree_panics"
   ],
   "note": "Every number system. P_Deriv.v"
  },
  {
   "property": "C120",
   "status": "proved",
   "theorems": [
    "C120_sampled",
    "C120_approximation"
   ],
   "note": "P_Shape4.v"
  },
  {
   "property": "C121",
   "status": "proved",
   "theorems": [
    "C121_antiderivative",
    "C121_integral"
   ],
   "note": "the integral is the Riemann integral of the standard library. P_Shape4.v"
  },
  {
   "property": "C122",
   "status": "proved",
   "theorems": [
    "C122_searches_end",
    "C122_curve_calls_end",
    "C122_generation_and_merge_end",
    "C122_binary64"
   ],
   "note": "the model runs loops with fuel and reports Diverge when it is used up; this never happens. The solver is assumed to end. P_Total.v"
  },
  {
   "property": "C123",
   "status": "proved",
   "theorems": [
    "C123_linear_map",
    "C123_superposition"
   ],
   "note": "P_Maps.v; an edit is an insertion, one side of a split, a reversal or a derivative curve"
  },
  {
   "property": "C124",
   "status": "proved",
   "theorems": [
    "C124_same_points_same_curve",
    "C124_knots_of_the_parts"
   ],
   "note": "P_Maps.v"
  },
  {
   "property": "C125",
   "status": "proved",
   "theorems": [
    "C125_reverse_and_insert",
    "C125_reverse_and_split",
    "C125_insert_and_split"
   ],
   "note": "other internal knots simple, since insertion miscounts multiplicities otherwise (C41). P_Maps.v"
  },
  {
   "property": "C126",
   "status": "proved",
   "theorems": [
    "C126_loose",
    "C126_fixed",
    "C126_limit"
   ],
   "note": "assumes a solver that solves solvable systems. P_Fit4.v"
  },
  {
   "property": "C127",
   "status": "proved",
   "theorems": [
    "C127_polygon"
   ],
   "note": "assumes a solver that solves solvable systems. P_Fit4.v"
  },
  {
   "property": "C128",
   "status": "proved",
   "theorems": [
    "C128_similar_polygons",
    "C128_similarity",
    "C128_equidistant"
   ],
   "note": "P_Manual2.v"
  },
  {
   "property": "C129",
   "status": "proved",
   "theorems": [
    "C129_reversed_polygon"
   ],
   "note": "P_Manual2.v; for de Boor's knots see C130"
  },
  {
   "property": "C13",
   "status": "proved",
   "theorems": [
    "C13_reverse"
   ],
   "note": "P_Reverse.v"
  },
  {
   "property": "C130",
   "status": "partial",
   "theorems": [
    "C130_reversed_polygon_de_boor_refuted"
   ],
   "note": "refuted: for every degree and polygon with internal knots, equally spaced parameters. P_Manual2.v"
  },
  {
   "property": "C131",
   "status": "proved",
   "theorems": [
    "C131_insert",
    "C131_insert_times",
    "C131_split"
   ],
   "note": "P_Float8.v"
  },
  {
   "property": "C132",
   "status": "proved",
   "theorems": [
    "C132_polynomial_precision",
    "C132_interpolation",
    "C132_fit",
    "C132_beats_polynomials"
   ],
   "note": "the last three assume a solver that solves solvable systems. P_Poly.v"
  },
  {
   "property": "C133",
   "status": "proved",
   "theorems": [
    "C133_second_order"
   ],
   "note": "P_Poly.v"
  },
  {
   "property": "C134",
   "status": "proved",
   "theorems": [
    "C134_insert_local",
    "C134_insert_ends",
    "C134_watertight"
   ],
   "note": "P_Float8.v"
  },
  {
   "property": "C135",
   "status": "proved",
   "theorems": [
    "C135_merge_errors_binary64",
    "C135_merge_binary64",
    "C135_merge_panics_binary64"
   ],
   "note": "P_Merge3.v"
  },
  {
   "property": "C136",
   "status": "proved",
   "theorems": [
    "C136_merge_sizes",
    "C136_merge_panics"
   ],
   "note": "the sizes that panic are those of C33. P_Merge3.v"
  },
  {
   "property": "C137",
   "status": "proved",
   "theorems": [
    "C137_nan_knots",
    "C137_number_knots",
    "C137_merge"
   ],
   "note": "P_Float9.v"
  },
  {
   "property": "C138",
   "status": "proved",
   "theorems": [
    "C138_condition",
    "C138_derivatives"
   ],
   "note": "P_Cond.v"
  },
  {
   "property": "C139",
   "status": "proved",
   "theorems": [
    "C139_idle_point"
   ],
   "note": "with C69 this tells exactly when a curve determines its control points. P_Cond.v"
  },
  {
   "property": "C14",
   "status": "proved",
   "theorems": [
    "C14_reverse_twice"
   ],
   "note": "P_Reverse.v"
  },
  {
   "property": "C140",
   "status": "proved",
   "theorems": [
    "C140_order"
   ],
   "note": "P_Order.v"
  },
  {
   "property": "C141",
   "status": "proved",
   "theorems": [
    "C141_order",
    "C141_second_order",
    "C141_continuous"
   ],
   "note": "P_Order.v"
  },
  {
   "property": "C142",
   "status": "proved",
   "theorems": [
    "C142_interpolation",
    "C142_loose",
    "C142_fixed"
   ],
   "note": "P_Order.v"
  },
  {
   "property": "C143",
   "status": "proved",
   "theorems": [
    "C143_sampled_derivative"
   ],
   "note": "P_Order.v"
  },
  {
   "property": "C144",
   "status": "proved",
   "theorems": [
    "C144_convex_hull",
    "C144_weights",
    "C144_derivative"
   ],
   "note": "P_Free.v; what happens at U[n+1] is C45"
  },
  {
   "property": "C145",
   "status": "proved",
   "theorems": [
    "C145_knot_point",
    "C145_polygon"
   ],
   "note": "P_Float10.v"
  },
  {
   "property": "C146",
   "status": "proved",
   "theorems": [
    "C146_edits",
    "C146_rebuilds",
    "C146_insert",
    "C146_split"
   ],
   "note": "P_Derived.v"
  },
  {
   "property": "C147",
   "status": "proved",
   "theorems": [
    "C147_linear",
    "C147_coordinates",
    "C147_mirror"
   ],
   "note": "P_Program.v"
  },
  {
   "property": "C148",
   "status": "proved",
   "theorems": [
    "C148_insert",
    "C148_reverse",
    "C148_split"
   ],
   "note": "P_Float11.v"
  },
  {
   "property": "C149",
   "status": "proved",
   "theorems": [
    "C149_knots",
    "C149_uniform",
    "C149_method"
   ],
   "note": "P_Float12.v"
  },
  {
   "property": "C15",
   "status": "proved",
   "theorems": [
    "C15_coherent",
    "C15_coherent_any"
   ],
   "note": "With reverse over the reals, without reverse in every number system. P_Coherent.v"
  },
  {
   "property": "C150",
   "status": "proved",
   "theorems": [
    "C150_solver",
    "C150_binary64"
   ],
   "note": "P_Float13.v"
  },
  {
   "property": "C151",
   "status": "proved",
   "theorems": [
    "C151_edits"
   ],
   "note": "P_Float14.v"
  },
  {
   "property": "C152",
   "status": "proved",
   "theorems": [
    "C152_run"
   ],
   "note": "P_Run.v"
  },
  {
   "property": "C153",
   "status": "proved",
   "theorems": [
    "C153_uniform",
    "C153_method"
   ],
   "note": "P_Float15.v; edits as in C151"
  },
  {
   "property": "C154",
   "status": "proved",
   "theorems": [
    "C154_evaluate",
    "C154_insert",
    "C154_insert_times",
    "C154_split",
    "C154_new",
    "C154_merge"
   ],
   "note": "P_Direct.v"
  },
  {
   "property": "C155",
   "status": "proved",
   "theorems": [
    "C155_refresh",
    "C155_orders",
    "C155_same_curve"
   ],
   "note": "P_Direct.v"
  },
  {
   "property": "C156",
   "status": "proved",
   "theorems": [
    "C156_point",
    "C156_stale"
   ],
   "note": "P_Direct.v"
  },
  {
   "property": "C157",
   "status": "proved",
   "theorems": [
    "C157_knots",
    "C157_stale"
   ],
   "note": "P_Direct.v; that either call alone is not enough is shown by the example C157_both_needed"
  },
  {
   "property": "C158",
   "status": "proved",
   "theorems": [
    "C158_rescale"
   ],
   "note": "P_Direct.v"
  },
  {
   "property": "C159",
   "status": "proved",
   "theorems": [
    "C159_points"
   ],
   "note": "P_Direct.v"
  },
  {
   "property": "C16",
   "status": "proved",
   "theorems": [
    "C16_insert",
    "C16_insert_times"
   ],
   "note": "P_Insert.v"
  },
  {
   "property": "C160",
   "status": "proved",
   "theorems": [
    "C160_cuts",
    "C160_halfspace"
   ],
   "note": "P_Refine.v"
  },
  {
   "property": "C161",
   "status": "proved",
   "theorems": [
    "C161_polygon",
    "C161_refinement"
   ],
   "note": "P_Refine.v"
  },
  {
   "property": "C162",
   "status": "partial",
   "theorems": [
    "C162_interpolation_cutoff_refuted",
    "C162_lost"
   ],
   "note": "refuted: 151 integers of at most 31 bits for which the cubic misses 99 percent of the data; C163 says when the claim holds; P_Cutoff.v"
  },
  {
   "property": "C163",
   "status": "proved",
   "theorems": [
    "C163_interpolation_iff",
    "C163_degree_one",
    "C163_interpolation_bounds",
    "C163_fits",
    "C163_interpolation",
    "C163_threshold"
   ],
   "note": "P_Cutoff.v"
  },
  {
   "property": "C164",
   "status": "proved",
   "theorems": [
    "C164_knots",
    "C164_short",
    "C164_multiplicity",
    "C164_curve"
   ],
   "note": "P_Views.v"
  },
  {
   "property": "C165",
   "status": "proved",
   "theorems": [
    "C165_data_reverse",
    "C165_interpolation",
    "C165_get"
   ],
   "note": "P_Views2.v"
  },
  {
   "property": "C166",
   "status": "proved",
   "theorems": [
    "C166_peaks",
    "C166_derivative_peaks",
    "C166_derivative_length"
   ],
   "note": "P_Peaks.v"
  },
  {
   "property": "C167",
   "status": "proved",
   "theorems": [
    "C167_derivative_variation",
    "C167_turns"
   ],
   "note": "P_Peaks.v"
  },
  {
   "property": "C168",
   "status": "proved",
   "theorems": [
    "C168_chord",
    "C168_polyline",
    "C168_tangent"
   ],
   "note": "P_Sampling.v"
  },
  {
   "property": "C169",
   "status": "proved",
   "theorems": [
    "C169_nearby",
    "C169_crossing",
    "C169_rendered"
   ],
   "note": "P_Sampling.v"
  },
  {
   "property": "C17",
   "status": "proved",
   "theorems": [
    "C17_insert_any",
    "C17_insert_exact"
   ],
   "note": "P_Insert.v"
  },
  {
   "property": "C170",
   "status": "partial",
   "theorems": [
    "C170_constraints_cutoff_refuted",
    "C170_lost"
   ],
   "note": "refuted: a point at 2^-15 of a constant curve is moved by at least 2^-17; C171 says when the claim holds; P_Cutoff2.v"
  },
  {
   "property": "C171",
   "status": "proved",
   "theorems": [
    "C171_merges",
    "C171_constraints"
   ],
   "note": "P_Cutoff2.v; degree 1 and 2"
  },
  {
   "property": "C172",
   "status": "proved",
   "theorems": [
    "C172_same_or_panic",
    "C172_only_centripetal",
    "C172_limit",
    "C172_far",
    "C172_binary64",
    "C172_nan"
   ],
   "note": "P_Debug.v"
  },
  {
   "property": "C173",
   "status": "partial",
   "theorems": [
    "C173_builds_refuted",
    "C173_tiny_refuted"
   ],
   "note": "refuted: every control polygon has a small copy for which the debug build panics; C172 says exactly when; P_Debug.v"
  },
  {
   "property": "C174",
   "status": "proved",
   "theorems": [
    "C174_exists",
    "C174_additive",
    "C174_speed",
    "C174_insert",
    "C174_reverse",
    "C174_split",
    "C174_control",
    "C174_samples",
    "C174_speeds"
   ],
   "note": "P_Length.v"
  },
  {
   "property": "C175",
   "status": "proved",
   "theorems": [
    "C175_below",
    "C175_measured"
   ],
   "note": "evaluation in binary64; the sum of the distances itself is exact; P_Length.v"
  },
  {
   "property": "C176",
   "status": "proved",
   "theorems": [
    "C176_reached",
    "C176_equal_parts"
   ],
   "note": "P_Length.v"
  },
  {
   "property": "C177",
   "status": "proved",
   "theorems": [
    "C177_antiderivative",
    "C177_mean"
   ],
   "note": "P_Mean.v"
  },
  {
   "property": "C178",
   "status": "proved",
   "theorems": [
    "C178_mean"
   ],
   "note": "evaluation in binary64; the mean of the computed points itself is exact; P_Mean.v"
  },
  {
   "property": "C18",
   "status": "proved",
   "theorems": [
    "C18_split"
   ],
   "note": "P_Split.v"
  },
  {
   "property": "C19",
   "status": "proved",
   "theorems": [
    "C19_split_out_of_bounds",
    "C19_split_cases"
   ],
   "note": "P_Split.v"
  },
  {
   "property": "C20",
   "status": "proved",
   "theorems": [
    "C20_uniform",
    "C20_uniform_errors"
   ],
   "note": "P_Knots.v"
  },
  {
   "property": "C21",
   "status": "proved",
   "theorems": [
    "C21_averaging",
    "C21_generator_errors"
   ],
   "note": "P_Knots.v"
  },
  {
   "property": "C22",
   "status": "proved",
   "theorems": [
    "C22_de_boor"
   ],
   "note": "P_Knots.v"
  },
  {
   "property": "C23",
   "status": "proved",
   "theorems": [
    "C23_equally_spaced",
    "C23_chord_length",
    "C23_centripetal",
    "C23_increasing"
   ],
   "note": "P_Knots.v"
  },
  {
   "property": "C24",
   "status": "proved",
   "theorems": [
    "C24_interpolation",
    "C24_errors"
   ],
   "note": "For every solver that solves the solvable systems. P_Fit.v"
  },
  {
   "property": "C25",
   "status": "proved",
   "theorems": [
    "C25_loose"
   ],
   "note": "For every solver that solves the solvable systems. P_Fit.v"
  },
  {
   "property": "C26",
   "status": "proved",
   "theorems": [
    "C26_fixed"
   ],
   "note": "For every solver that solves the solvable systems. P_Fit.v"
  },
  {
   "property": "C27",
   "status": "partial",
   "theorems": [
    "C27_one_segment_refuted",
    "C27_kappa_refuted"
   ],
   "note": "refuted: the fixed-ends fit panics for n = 1 and for every input with kappa = n - 1. C54 is the true restriction. P_Fit.v"
  },
  {
   "property": "C28",
   "status": "proved",
   "theorems": [
    "C28_entries",
    "C28_differences"
   ],
   "note": "P_Fit.v"
  },
  {
   "property": "C29",
   "status": "proved",
   "theorems": [
    "C29_merge_errors",
    "C29_entry_points"
   ],
   "note": "for all curves the constructor accepts, clamped or not, any solver, exact arithmetic"
  },
  {
   "property": "C30",
   "status": "proved",
   "theorems": [
    "C30_merged_shape"
   ],
   "note": "all degrees, any solver"
  },
  {
   "property": "C31",
   "status": "proved",
   "theorems": [
    "C31_merged_curve"
   ],
   "note": "degrees 1 and 2; higher degrees are refuted by C34. Exact arithmetic, solver assumed to solve solvable systems."
  },
  {
   "property": "C32",
   "status": "proved",
   "theorems": [
    "C32_constrained_points",
    "C32_merge_from_to"
   ],
   "note": "exact arithmetic, solver assumed to solve solvable systems"
  },
  {
   "property": "C33",
   "status": "partial",
   "theorems": [
    "C33_segment_counts_refuted",
    "C33_constants_refuted",
    "C33_solver_exact"
   ],
   "note": "refuted: no solver makes the merge succeed unless m <= o < m + p (proved for all curves); for o = m + 1 a constant is not reproduced"
  },
  {
   "property": "C34",
   "status": "partial",
   "theorems": [
    "C34_constants_refuted",
    "C34_constant_cubics_refuted"
   ],
   "note": "refuted for every degree from 3 on, every knot vector and every constant other than zero; e.g. the constant cubic 1 merged with itself is 4/3 at the joint"
  },
  {
   "property": "C35",
   "status": "proved",
   "theorems": [
    "C35_left",
    "C35_left_or_equal",
    "C35_right",
    "C35_right_or_equal",
    "C35_in_domain",
    "C35_bisection"
   ],
   "note": "P_Search.v, P_Views2.v"
  },
  {
   "property": "C36",
   "status": "proved",
   "theorems": [
    "C36_is_sorted",
    "C36_is_clamped",
    "C36_is_normed",
    "C36_is_uniform",
    "C36_is_sorted_any",
    "C36_is_clamped_any"
   ],
   "note": "P_Knots.v"
  },
  {
   "property": "C37",
   "status": "proved",
   "theorems": [
    "C37_rescale",
    "C37_normalize",
    "C37_normalize_clamped",
    "C37_rescaled_knot"
   ],
   "note": "P_Knots.v, P_Views2.v"
  },
  {
   "property": "C38",
   "status": "proved",
   "theorems": [
    "C38_curve_new"
   ],
   "note": "P_New.v"
  },
  {
   "property": "C39",
   "status": "partial",
   "theorems": [
    "C39_finite_refuted"
   ],
   "note": "refuted: NaN for the knots 0 0 2^-1040 1 1. P_New.v"
  },
  {
   "property": "C40",
   "status": "partial",
   "theorems": [
    "C40_accepted_curves_evaluate_refuted",
    "C40_size_cases",
    "C40_missing_points"
   ],
   "note": "refuted: Bezier knots with four points; in general one knot too few is accepted and makes every evaluation panic, and missing points count as the origin. P_New.v, P_Free.v"
  },
  {
   "property": "C41",
   "status": "partial",
   "theorems": [
    "C41_insert_everywhere_refuted"
   ],
   "note": "refuted: for every curve with a repeated internal knot below u the new knots are unsorted; a concrete curve changes its value. C16 is the true restriction. P_Insert.v"
  },
  {
   "property": "C42",
   "status": "partial",
   "theorems": [
    "C42_reverse_twice_binary64_refuted",
    "C42_which_knots_return"
   ],
   "note": "refuted: the knot 2^-60 comes back as 0; exactly the multiples of 2^-53 come back. P_Reverse.v, P_General.v"
  },
  {
   "property": "C43",
   "status": "partial",
   "theorems": [
    "C43_insert_times_atomic_refuted"
   ],
   "note": "refuted for every curve: the insertions before the error stay. P_Insert.v"
  },
  {
   "property": "C44",
   "status": "proved",
   "theorems": [
    "C44_piecewise_polynomial"
   ],
   "note": "P_Basis.v"
  },
  {
   "property": "C45",
   "status": "partial",
   "theorems": [
    "C45_unclamped_affine_refuted",
    "C45_doubled_refuted"
   ],
   "note": "refuted: the last domain knot is counted twice, for all knots not clamped at the end. P_New.v, P_Free.v"
  },
  {
   "property": "C46",
   "status": "proved",
   "theorems": [
    "C46_too_few_points",
    "C46_degree_zero_uniform",
    "C46_degree_zero_method",
    "C46_given_knots",
    "C46_uniform",
    "C46_method"
   ],
   "note": "P_Manual.v"
  },
  {
   "property": "C47",
   "status": "partial",
   "theorems": [
    "C47_prepend_constrained_refuted",
    "C47_holds_the_other_refuted"
   ],
   "note": "refuted: the constraint lists are swapped, for all quadratic curves. P_Merge.v, P_Free.v"
  },
  {
   "property": "C48",
   "status": "partial",
   "theorems": [
    "C48_segments_derivative_refuted"
   ],
   "note": "refuted for every knot vector: the value is n, or a panic. P_Search.v"
  },
  {
   "property": "C49",
   "status": "partial",
   "theorems": [
    "C49_derivative_curve_is_full_refuted"
   ],
   "note": "refuted: for every curve and k < p the derivative curve panics in max_derivative and in every further derivative. P_Deriv.v"
  },
  {
   "property": "C50",
   "status": "partial",
   "theorems": [
    "C50_split_returns_refuted",
    "C50_behind_repeated_refuted",
    "C50_behind_repeated_exact_refuted"
   ],
   "note": "refuted: degree 1, knots 0 0 1/4 1/4 3/4 3/4 1 1; in general at every repeated knot behind another repeated knot. C19 is the true restriction. P_Split.v, P_General.v"
  },
  {
   "property": "C51",
   "status": "partial",
   "theorems": [
    "C51_right_or_equal_top_refuted"
   ],
   "note": "refuted for every knot vector without repeated domain knots. C35 is the true restriction. P_Search.v"
  },
  {
   "property": "C52",
   "status": "partial",
   "theorems": [
    "C52_requested_degree_refuted",
    "C52_degree_of_the_knots_refuted"
   ],
   "note": "refuted: degree 3 requested, degree 1 delivered; the degree is always that of the knots. P_Manual.v, P_General.v"
  },
  {
   "property": "C53",
   "status": "partial",
   "theorems": [
    "C53_normalize_coherent_refuted",
    "C53_coherent_iff"
   ],
   "note": "refuted: degree 1, knots 0 1 2 3; C53_coherent_iff says for which knots it holds. P_Knots.v, P_General.v"
  },
  {
   "property": "C54",
   "status": "proved",
   "theorems": [
    "C54_degree_zero",
    "C54_few_segments",
    "C54_few_data",
    "C54_kappa",
    "C54_loose",
    "C54_fixed"
   ],
   "note": "P_Fit.v"
  },
  {
   "property": "C55",
   "status": "proved",
   "theorems": [
    "C55_interpolation",
    "C55_loose",
    "C55_fixed"
   ],
   "note": "P_Fit.v"
  },
  {
   "property": "C56",
   "status": "proved",
   "theorems": [
    "C56_no_effect"
   ],
   "note": "P_Fit.v"
  },
  {
   "property": "C57",
   "status": "proved",
   "theorems": [
    "C57_untouched_points"
   ],
   "note": "any degree; no assumption on what the solver returns beyond its size"
  },
  {
   "property": "C58",
   "status": "proved",
   "theorems": [
    "C58_accuracy"
   ],
   "note": "binary64 with the rounding of Flocq; the restricted true version of C39"
  },
  {
   "property": "C59",
   "status": "proved",
   "theorems": [
    "C59_basis"
   ],
   "note": "binary64"
  },
  {
   "property": "C60",
   "status": "proved",
   "theorems": [
    "C60_ends"
   ],
   "note": "binary64, any degree"
  },
  {
   "property": "C61",
   "status": "proved",
   "theorems": [
    "C61_uniform"
   ],
   "note": "binary64"
  },
  {
   "property": "C62",
   "status": "proved",
   "theorems": [
    "C62_equally_spaced"
   ],
   "note": "binary64"
  },
  {
   "property": "C63",
   "status": "proved",
   "theorems": [
    "C63_split_flags"
   ],
   "note": "P_Split.v"
  },
  {
   "property": "C64",
   "status": "proved",
   "theorems": [
    "C64_mapped_knots"
   ],
   "note": "P_Split.v"
  },
  {
   "property": "C65",
   "status": "proved",
   "theorems": [
    "C65_append_prepend",
    "C65_panics"
   ],
   "note": "P_Merge.v; which curve the constraints apply to is refuted for prepend_constrained, see C47"
  },
  {
   "property": "C66",
   "status": "proved",
   "theorems": [
    "C66_variation_diminishing"
   ],
   "note": "P_Shape.v"
  },
  {
   "property": "C67",
   "status": "proved",
   "theorems": [
    "C67_monotone"
   ],
   "note": "P_Shape.v"
  },
  {
   "property": "C68",
   "status": "proved",
   "theorems": [
    "C68_length"
   ],
   "note": "P_Shape.v"
  },
  {
   "property": "C69",
   "status": "proved",
   "theorems": [
    "C69_points_unique"
   ],
   "note": "P_Shape.v"
  },
  {
   "property": "C70",
   "status": "proved",
   "theorems": [
    "C70_linear_precision"
   ],
   "note": "P_Shape.v"
  },
  {
   "property": "C71",
   "status": "proved",
   "theorems": [
    "C71_interpolation",
    "C71_loose",
    "C71_fixed"
   ],
   "note": "P_FitMaps.v"
  },
  {
   "property": "C72",
   "status": "proved",
   "theorems": [
    "C72_interpolation",
    "C72_loose",
    "C72_fixed"
   ],
   "note": "P_FitMaps.v"
  },
  {
   "property": "C73",
   "status": "proved",
   "theorems": [
    "C73_interpolation",
    "C73_fit"
   ],
   "note": "P_FitMaps.v"
  },
  {
   "property": "C74",
   "status": "proved",
   "theorems": [
    "C74_insert"
   ],
   "note": "binary64, P_Float2.v; behind a repeated internal knot insertion is wrong already in exact arithmetic, see C41"
  },
  {
   "property": "C75",
   "status": "proved",
   "theorems": [
    "C75_derivatives"
   ],
   "note": "binary64, P_Float2.v"
  },
  {
   "property": "C76",
   "status": "proved",
   "theorems": [
    "C76_box"
   ],
   "note": "binary64, P_Float2.v"
  },
  {
   "property": "C77",
   "status": "proved",
   "theorems": [
    "C77_derivative_hull"
   ],
   "note": "P_Shape2.v"
  },
  {
   "property": "C78",
   "status": "proved",
   "theorems": [
    "C78_speed"
   ],
   "note": "P_Shape2.v"
  },
  {
   "property": "C79",
   "status": "proved",
   "theorems": [
    "C79_end_derivatives",
    "C79_end_tangents"
   ],
   "note": "P_Shape2.v"
  },
  {
   "property": "C80",
   "status": "proved",
   "theorems": [
    "C80_stability",
    "C80_superposition"
   ],
   "note": "P_Shape2.v"
  },
  {
   "property": "C81",
   "status": "proved",
   "theorems": [
    "C81_strictly_monotone",
    "C81_no_self_intersection"
   ],
   "note": "P_Shape2.v"
  },
  {
   "property": "C82",
   "status": "proved",
   "theorems": [
    "C82_bezier"
   ],
   "note": "P_Shape2.v"
  },
  {
   "property": "C83",
   "status": "proved",
   "theorems": [
    "C83_steps",
    "C83_polyline"
   ],
   "note": "P_Shape2.v"
  },
  {
   "property": "C84",
   "status": "proved",
   "theorems": [
    "C84_knot_point",
    "C84_insert_to_point"
   ],
   "note": "P_Shape2.v"
  },
  {
   "property": "C85",
   "status": "proved",
   "theorems": [
    "C85_insert_order"
   ],
   "note": "P_Shape2.v"
  },
  {
   "property": "C86",
   "status": "proved",
   "theorems": [
    "C86_corner_cutting"
   ],
   "note": "P_Shape2.v"
  },
  {
   "property": "C87",
   "status": "proved",
   "theorems": [
    "C87_refinement"
   ],
   "note": "P_Shape2.v"
  },
  {
   "property": "C88",
   "status": "proved",
   "theorems": [
    "C88_fit_is_interpolation"
   ],
   "note": "P_Fit2.v"
  },
  {
   "property": "C89",
   "status": "proved",
   "theorems": [
    "C89_loose",
    "C89_fixed"
   ],
   "note": "P_Fit2.v"
  },
  {
   "property": "C90",
   "status": "proved",
   "theorems": [
    "C90_fixed_ends",
    "C90_more_segments"
   ],
   "note": "P_Fit2.v"
  },
  {
   "property": "C91",
   "status": "proved",
   "theorems": [
    "C91_orthogonal",
    "C91_centre_of_mass"
   ],
   "note": "P_Fit2.v"
  },
  {
   "property": "C92",
   "status": "proved",
   "theorems": [
    "C92_noise"
   ],
   "note": "P_Fit2.v"
  },
  {
   "property": "C93",
   "status": "proved",
   "theorems": [
    "C93_smooth",
    "C93_split_and_merge"
   ],
   "note": "P_Merge2.v; degrees 1 and 2 as in C31"
  },
  {
   "property": "C94",
   "status": "proved",
   "theorems": [
    "C94_reverse",
    "C94_constraints",
    "C94_merge_from"
   ],
   "note": "P_Merge2.v, P_Merge4.v; degrees 1 and 2 as in C31"
  },
  {
   "property": "C95",
   "status": "proved",
   "theorems": [
    "C95_affine"
   ],
   "note": "P_Merge2.v; degrees 1 and 2 as in C31"
  },
  {
   "property": "C96",
   "status": "proved",
   "theorems": [
    "C96_interpolation",
    "C96_loose",
    "C96_fixed",
    "C96_merge"
   ],
   "note": "P_Merge2.v; merging in degrees 1 and 2 as in C31"
  },
  {
   "property": "C97",
   "status": "partial",
   "theorems": [
    "C97_chord_order_refuted",
    "C97_centripetal_order_refuted"
   ],
   "note": "refuted: 1-D data 51 39 20 2 0 2^-200 give a last but one parameter above 1; C99 is the true part; P_Float3.v"
  },
  {
   "property": "C98",
   "status": "partial",
   "theorems": [
    "C98_parameters_finite_refuted"
   ],
   "note": "refuted: points 2^-700 or 2^600 apart give NaN; C99 is the true part; P_Float3.v"
  },
  {
   "property": "C99",
   "status": "proved",
   "theorems": [
    "C99_chord_length",
    "C99_centripetal"
   ],
   "note": "P_Float3.v"
  }
 ]
}
