"""Wrong programs: each one edits the model the way a realistic bug in the crate
would.  edits: (file, text to replace - must occur once -, replacement)."""
MUTANTS = []
def m(name, definition, what, breaks, *edits):
    MUTANTS.append(dict(name=name, definition=definition, what=what, breaks=breaks, edits=list(edits)))

K, P, C, F, G, X = "MKnots", "MPoints", "MCurve", "MFit", "MGenerate", "MMerge"

# --- basis and knots
m("basis_open_end", "basis", "the last span is not closed on the right (u == U[n+1] gives 0)", "C06 C04 C03",
  (K, "if (u ==? x)%num then Val n1 else Val n0", "if (u ==? x)%num then Val n0 else Val n0"))
m("basis_closed_spans", "basis", "every span is closed on the right (u <= U[i+1])", "C04 C03",
  (K, "Val (u <? b)%num else Val false", "Val (u <=? b)%num else Val false"))
m("basis_den", "basis", "second summand divided by U[i+p+1]-U[i] like the first", "C04 C03 C05",
  (K, "w <- ndiv (z - u)%num (y - x)%num", "x0 <- vget Uk i;; w <- ndiv (z - u)%num (y - x0)%num"))
m("derive_knots_front", "knots_derive", "derivative knots drop the last two entries instead of one on each side", "C03 C08 C12",
  (K, "seg <- segment prev 1 len2", "seg <- segment prev 0 len2"))
m("find_le_strict", "find_idx LeftOrEqual", "compares with < instead of <=", "C35 C16",
  (K, "Val ((x <=? u)%num && (i + 1 <? lim))", "Val ((x <? u)%num && (i + 1 <? lim))"))
m("find_le_cap", "find_idx LeftOrEqual", "cap one too high (i+1 <= n+1-k)", "C35 C06",
  (K, "Val ((x <=? u)%num && (i + 1 <? lim))", "Val ((x <=? u)%num && (i + 1 <=? lim))"))
m("find_right_eq", "find_idx Right", "compares with <= instead of <", "C35",
  (K, "if (u <? x)%num then i2 <- usub i 1;; Val (pk <? i2) else Val false", "if (u <=? x)%num then i2 <- usub i 1;; Val (pk <? i2) else Val false"))
m("find_left_eq", "find_idx Left", "compares with <= instead of <", "C35",
  (K, "(fun i => x <- vget v (i + 1);; Val ((x <? u)%num && (i + 1 <? lim)))", "(fun i => x <- vget v (i + 1);; Val ((x <=? u)%num && (i + 1 <? lim)))"))
m("clamped_p", "is_clamped", "looks at p knots on either side instead of p+1", "C36 C29",
  (K, "let c := kp kn + 1 in", "let c := kp kn in"))
m("normed_min_only", "is_normed", "forgets the maximum", "C36 C29",
  (K, "(match mx with Some x => (x ==? n1)%num | None => false end)", "(match mx with Some x => true | None => false end)"))
m("sorted_strict", "is_sorted", "demands strictly increasing knots", "C36 C20",
  (K, "| y :: r => (x <=? y)%num && sorted_from y r", "| y :: r => (x <? y)%num && sorted_from y r"))
m("reverse_no_flip", "reverse (knots)", "forgets to map u to 1-u", "C13 C14",
  (K, "Val (vmul_scalar (vadd_scalar w (nofZ (-1))) (nofZ (-1)))", "Val w"))
m("rescale_no_shift", "rescale", "forgets to add the new lower limit", "C37",
  (K, "    vadd v3 (repeat (fst new_lim) n).", "    vadd v3 (repeat n0 n)."))
m("uniform_step", "uniform", "step 1/(n-p+2) instead of 1/(n-p+1)", "C20",
  (K, "x <- ndiv (nofnat i) (nofnat (ic + 1))", "x <- ndiv (nofnat i) (nofnat (ic + 2))"))
m("averaging_window", "averaging", "sums p+1 parameters", "C21",
  (K, "lim <- usub (j + p) 1;;", "lim <- usub (j + p) 0;;"))
m("de_boor_alpha", "de_boor", "alpha and 1-alpha exchanged", "C22",
  (K, "((n1 - alpha) * x + alpha * y)%num", "(alpha * x + (n1 - alpha) * y)%num"))
m("de_boor_d", "de_boor", "d = n/(n-p+1) instead of (n+1)/(n-p+1)", "C22",
  (K, "d <- ndiv (nofnat (n + 1)) (nofnat (ic + 1))", "d <- ndiv (nofnat n) (nofnat (ic + 1))"))
m("clamp_tail_late", "uniform/averaging/de_boor", "the closing ones start one entry late", "C20 C21 C22",
  (K, "(range (n + 1) (length U)) U.", "(range (n + 2) (length U)) U."))
m("input_check_le", "inputCheck", "refuses n = p", "C20 C21 C24",
  (K, "if segments <? degree then Err (DegreeAndSegmentsMismatch degree segments)", "if segments <=? degree then Err (DegreeAndSegmentsMismatch degree segments)"))
m("is_uniform_len", "is_uniform", "compares lengths only", "C36",
  (K, "Val (Ok (vec_eqb v w))", "Val (Ok (length v =? length w))"))
m("equally_spaced_m1", "equally_spaced", "divides by m+1", "C23",
  (K, "x <- ndiv (nofnat g) (nofnat m)", "x <- ndiv (nofnat g) (nofnat (m + 1))"))
m("segments_degree", "segments_derivative", "len - (p+1-2k)", "C48 C20 everything using segments()",
  (K, "d <- usub (kp kn + 2) (2 * k)", "d <- usub (kp kn + 1) (2 * k)"))

# --- points and parameters
m("derive_factor", "derive_single_point", "factor p-k instead of p-k+1", "C08 C03",
  (P, "s <- ndiv (nofnat (pk + 1)) (a - b)%num", "s <- ndiv (nofnat pk) (a - b)%num"))
m("derive_order", "derive_single_point", "P[i]-P[i+1] instead of P[i+1]-P[i]", "C08 C03",
  (P, "d <- vsub hi lo", "d <- vsub lo hi"))
m("reverse_no_sign", "ControlPoints::reverse", "odd derivatives keep their sign", "C13 C15",
  (P, "let m := if k mod 2 =? 1 then mscale (nofZ (-1)) m else m in", "let m := m in"))
m("reverse_sign_all", "ControlPoints::reverse", "every derivative of order >= 1 changes sign", "C13 C15",
  (P, "if k mod 2 =? 1 then", "if 1 <=? k then"))
m("chord_no_sum", "chord_length", "increments not accumulated", "C23",
  (P, "x <- ndiv c sum;;\n                      vset w g (prev + x)%num", "x <- ndiv c sum;;\n                      vset w g x"))
m("centripetal_sum", "centripetal", "total without square roots", "C23",
  (P, "Val (s + nsqrt c)%num) (rangei 1 m) n0", "Val (s + c)%num) (rangei 1 m) n0"))
m("params_swap", "parameters::generate", "ChordLength and Centripetal exchanged", "C23 C46",
  (P, "| ChordLength => chord_length points\n    | Centripetal => centripetal points", "| ChordLength => centripetal points\n    | Centripetal => chord_length points"))
m("derive_short", "ControlPoints::derive", "the highest derivative is not computed but k_max is p", "C01 C38",
  (P, "(rangei 1 p) cp0;;", "(range 1 p) cp0;;"))

# --- curve
m("new_le", "Curve::new", "refuses n = p", "C38",
  (C, "if n <? p then Val (Err (DegreeAndSegmentsMismatch p n))", "if n <=? p then Val (Err (DegreeAndSegmentsMismatch p n))"))
m("eval_reject_one", "evaluate_derivative", "refuses u = 1", "C02 C06",
  (C, "(n0 <=? u)%num && (u <=? n1)%num", "(n0 <=? u)%num && (u <? n1)%num"))
m("eval_lo", "evaluate_derivative", "the sum starts one index too late", "C03 C05",
  (C, "(rangei lo hi) value", "(rangei (lo + 1) hi) value"))
m("eval_hi", "evaluate_derivative", "the sum stops one index too early", "C03 C06",
  (C, "(rangei lo hi) value", "(range lo hi) value"))
m("eval_k_eq_p", "evaluate_derivative", "order k = p gives zero", "C03 C08",
  (C, "if k <=? p then\n        n <- segments c", "if k <? p then\n        n <- segments c"))
m("deriv_curve_degree", "get_derivative_curve", "keeps the degree", "C12",
  (C, "kn <- knots_new d v;;\n    P <- matrix_derivative", "kn <- knots_new (degree c) v;;\n    P <- matrix_derivative"))
m("insert_alpha", "insert", "alpha and 1-alpha exchanged", "C16",
  (C, "r <- vadd (vscale (n1 - alpha)%num a) (vscale alpha b)", "r <- vadd (vscale alpha a) (vscale (n1 - alpha)%num b)"))
m("insert_stale", "insert", "derivative caches are not recomputed", "C15 C16",
  (C, "c' <- calculate_derivatives\n                (mkCurve (mkKnots uk (kp (cknots c)) (kk_max (cknots c)))\n                         (mkCP pk (pk_max (cpoints c))))",
      "c' <- Val\n                (mkCurve (mkKnots uk (kp (cknots c)) (kk_max (cknots c)))\n                         (mkCP pk (pk_max (cpoints c))))"))
m("insert_mult", "insert", "error already for multiplicity p", "C17",
  (C, "if p <? m then Val (c, Err (IMultiplicityError u m p))", "if p <=? m then Val (c, Err (IMultiplicityError u m p))"))
m("insert_zero", "insert", "accepts u = 0", "C17",
  (C, "if (u <=? n0)%num || (n1 <=? u)%num then Val (c, Err (IOutOfBounds u n0 n1))", "if (u <? n0)%num || (n1 <=? u)%num then Val (c, Err (IOutOfBounds u n0 n1))"))
m("insert_times_once", "insert_times", "inserts one time less", "C16",
  (C, "| Ok _ => insert_times c' u x'", "| Ok _ => insert_times c' u (x' - 1)"))
m("insert_times_swallow", "insert_times", "errors are swallowed", "C43 C16",
  (C, "| Err e => Val (c', Err e)\n        | Ok _ => insert_times c' u x'", "| Err e => Val (c', Ok tt)\n        | Ok _ => insert_times c' u x'"))
m("split_right_h", "split", "the right part starts one knot too late when u is a knot", "C18",
  (C, "rp <- split_right U P p h u at_knot (snd flags)", "rp <- split_right U P p (l + 1) u at_knot (snd flags)"))
m("split_no_norm", "split", "the right part is not normalised", "C18",
  (C, "split_and_normalize c u (true, true)", "split_and_normalize c u (true, false)"))
m("split_flags", "split_and_normalize", "flags of left and right exchanged", "no property yet",
  (C, "lp <- split_left U P p (h + p) u at_knot (fst flags)", "lp <- split_left U P p (h + p) u at_knot (snd flags)"),
  (C, "rp <- split_right U P p h u at_knot (snd flags)", "rp <- split_right U P p h u at_knot (fst flags)"))
m("split_mult", "split", "error already for multiplicity p", "C19",
  (C, "if p <? mult then Val (Err (MultiplicityTooHigh u p mult))", "if p <=? mult then Val (Err (MultiplicityTooHigh u p mult))"))

# --- interpolation and fits
m("colloc_transposed", "interpolate", "the collocation matrix is transposed", "C24",
  (F, "mset N g i b) (rangei 0 m) N)", "mset N i g b) (rangei 0 m) N)"))
m("fit_data_check", "input_checks", "refuses n = m", "C54 C25",
  (F, "if m <? n then Val (Err (RequestedPolynomialSegmentAndDataSegementMismatch n m))", "if m <=? n then Val (Err (RequestedPolynomialSegmentAndDataSegementMismatch n m))"))
m("fit_kappa_check", "input_checks", "refuses kappa = n-1", "C54 C25",
  (F, "if n1 <? kappa pen then", "if n1 <=? kappa pen then"))
m("diff_sign", "difference_operator", "differences with the opposite sign", "C28",
  (F, "if i =? j then (-1)%Z else if i + 1 =? j then 1%Z else 0%Z", "if i =? j then 1%Z else if i + 1 =? j then (-1)%Z else 0%Z"))
m("diff_binomial", "difference_operator", "higher differences add instead of subtract", "C28 C25",
  (F, "(difference_operator k (i + 1) j - difference_operator k i j)%Z", "(difference_operator k (i + 1) j + difference_operator k i j)%Z"))
m("lambda_squared", "compute_svd", "penalty weighted with lambda squared", "C25 C26",
  (F, "mat' <- madd mat (mscale l dtd)", "mat' <- madd mat (mscale (l * l)%num dtd)"))
m("lambda_negative", "compute_svd", "negative lambda accepted", "C54",
  (F, "if (l <? n0)%num then Val (Err (NegativeLambda l))", "if false then Val (Err (NegativeLambda l))"))
m("loose_diff_rows", "loose finite differences", "the last row of differences is missing", "C25 C28",
  (F, "nk <- usub n kappa;;\n    foldM (fun D i =>\n             foldM (fun D j => mset D i j (nofZ (difference_operator kappa i j))) (rangei 0 n) D)\n          (rangei 0 nk) (mzeros rows (n + 1)).",
      "nk <- usub n kappa;;\n    foldM (fun D i =>\n             foldM (fun D j => mset D i j (nofZ (difference_operator kappa i j))) (rangei 0 n) D)\n          (range 0 nk) (mzeros rows (n + 1))."))
m("fixed_q_last", "fixed fit, q vectors", "the share of the last point is not subtracted", "C26",
  (F, "c <- vsub c (vscale bn pm);;\n             mset_col Q g c)", "c <- vsub c (vscale n0 pm);;\n             mset_col Q g c)"))
m("fixed_last_point", "fixed fit", "the last control point is the data point number n", "C26",
  (F, "pm <- mcol points m;;\n            cp <- mset_col cp n pm;;", "pm <- mcol points n;;\n            cp <- mset_col cp n pm;;"))
m("fixed_accum", "fixed fit, constant terms", "the accumulator is not reset", "C26",
  (F, "(vmul_scalar accum n0)", "accum"))

# --- generation
m("manual_le", "generate(Manual)", "refuses n = p", "C46",
  (G, "if n <? degree then", "if n <=? degree then"))
m("interp_knots", "generate(Interpolation)", "averaged knots", "C24",
  (G, "knots <- knots_generate degree n params KUniform", "knots <- knots_generate degree n params KAveraging"))
m("fit_methods_swapped", "generate(LeastSquaresFit)", "FixedEnds and LooseEnds exchanged", "C25 C26",
  (G, "| FixedEnds => fixed_fit svd kn points params pen\n                  | LooseEnds => loose_fit svd kn points params pen",
      "| LooseEnds => fixed_fit svd kn points params pen\n                  | FixedEnds => loose_fit svd kn points params pen"))
m("knots_swap", "knots::generate", "DeBoor and Averaging exchanged", "C46",
  (K, "| KDeBoor => de_boor degree segments params\n    | KAveraging => averaging degree segments params",
      "| KDeBoor => averaging degree segments params\n    | KAveraging => de_boor degree segments params"))

# --- merge
m("merge_kw_sign", "calculateKW", "sign forgotten", "C31",
  (X, "Val (mscale (nofZ (-1)) KW).", "Val KW."))
m("merge_iv_half", "calculateIV", "not halved (JW is)", "C31 (minimality)",
  (X, "Val (mscale nhalf IV).", "Val IV."))
m("merge_shift_swap", "generate_shifted_control_points", "shifts of the two curves exchanged", "C31",
  (X, "d1 <- mcolumns shifts 0 p;;", "d1 <- mcolumns shifts p p;;"),
  (X, "d2 <- mcolumns shifts p p;;", "d2 <- mcolumns shifts 0 p;;"))
m("merge_knots_no_shift", "adjust_knots", "knots of the other curve not moved by one", "C30 C31",
  (X, "tail_set R p (vadd_scalar s n1)", "tail_set R p s"))
m("merge_knots_scale", "create_merged_knot_vector", "divides by the joint knot instead of the last", "C30",
  (X, "x <- vget U (m + o + 2)", "x <- vget U (m + 1)"))
m("merge_points_r", "generate_control_point_vector", "takes the first columns of the right points", "C31 C57",
  (X, "s2 <- usub (ncols Tadj) r;;\n    src <- mcolumns Tadj s2 r", "src <- mcolumns Tadj 0 r"))
m("merge_too_many", "merge_with_constraints", "accepts p constraints", "C29",
  (X, "if p_a <=? total then Val (Err (TooManyConstraints total p_a))", "if p_a <? total then Val (Err (TooManyConstraints total p_a))"))
m("merge_clamped_left", "merge_with_constraints", "the right curve is not checked for being clamped", "C29",
  (X, "x <- is_clamped (cknots cb);; Val (negb x)", "x <- is_clamped (cknots cb);; Val false"))
m("merge_from_start", "merge_from", "constrains the start of the first curve instead of its end", "C32",
  (X, "merge_with_constraints (mkCC a [n1]) (mkCC b [])", "merge_with_constraints (mkCC a [n0]) (mkCC b [])"))
m("merge_gv_shift", "calculateGV", "constraint rows use the wrong control points", "C32",
  (X, "b <- basis V0 p i 0 m u;;\n                      mset GV g c b)", "b <- basis V0 p (i - 1) 0 m u;;\n                      mset GV g c b)"))
m("append_swapped", "append", "merges in the wrong order", "no property yet",
  (X, "r <- merge self other;; unwrap r", "r <- merge other self;; unwrap r"))
m("merge_adjust_den", "adjust_shifted_control_points", "divides by p-k+1", "C31",
  (X, "s <- ndiv (a - b)%num (nofnat pk);;\n                             i1", "s <- ndiv (a - b)%num (nofnat (pk + 1));;\n                             i1"))
m("merge_kconst_sign", "calculateKconst", "constant terms with the opposite sign", "C31",
  (X, "new <- vsub old sum", "new <- vadd old sum"))
m("merge_prefactor", "prefactor", "factor p-k instead of p-k+1", "C31",
  (X, "pk <- usub (p + 1) (S k')", "pk <- usub p (S k')"))

# --- second round: bugs that exact arithmetic hides, and functions not edited so far
m("chord_no_pin", "chord_length", "the last parameter is accumulated instead of being set to 1", "C99",
  (P, """               (range 1 m) (vzeros (m + 1));;
    u_bar <- vset u_bar m n1;;
    Val (mkParams u_bar m).

  (** parameters/methods.rs:25-47""", """               (rangei 1 m) (vzeros (m + 1));;
    Val (mkParams u_bar m).

  (** parameters/methods.rs:25-47"""))
m("uniform_accumulate", "uniform", "knots are accumulated steps instead of quotients", "C59",
  (K, "x <- ndiv (nofnat i) (nofnat (ic + 1));; vset w (degree + i) x", "x <- ndiv n1 (nofnat (ic + 1));; y <- vget w (degree + i - 1);; vset w (degree + i) (y + x)%num"))
m("equally_reciprocal", "equally_spaced", "multiplies with 1/m instead of dividing, last one included", "C59",
  (K, "x <- ndiv (nofnat g) (nofnat m);; vset w g x)\n               (range 1 m) (vzeros (m + 1));;\n    u_bar <- vset u_bar m n1;;",
      "x <- ndiv n1 (nofnat m);; vset w g (nofnat g * x)%num)\n               (rangei 1 m) (vzeros (m + 1));;"))
m("averaging_divisor", "averaging", "divides by p + 1 instead of p", "C21 C100",
  (K, "y <- ndiv s (nofnat p);;", "y <- ndiv s (nofnat (p + 1));;"))
m("norm_l1", "norm", "sum of absolute values instead of the Euclidean norm", "C23 C99",
  ("Vec", "nsqrt (fold_left (fun s x => s + x * x) a n0)", "fold_left (fun s x => s + nsqrt (x * x)) a n0"))
m("norm_no_sqrt", "norm", "squared distance instead of distance", "C23 C99",
  ("Vec", "nsqrt (fold_left (fun s x => s + x * x) a n0)", "fold_left (fun s x => s + x * x) a n0"))
m("mat_reverse_short", "reverse (points)", "one exchange too few", "C13 C14",
  (P, "(range 0 (nc / 2)) (mcols m)", "(range 0 (nc / 2 - 1)) (mcols m)"))
m("insert_range", "insert", "the first blended control point is skipped", "C16",
  (C, "(rangei (lp + 1) l) P_new", "(rangei (lp + 2) l) P_new"))
m("insert_span", "insert", "the knot is put one place too early", "C16 C17",
  (C, "insert_row U_old (l + 1) u", "insert_row U_old l u"))
m("deriv_curve_points", "get_derivative_curve", "takes the control points of the curve itself", "C12",
  (C, "P <- matrix_derivative (cpoints c) k;;\n    Val (mkCurve kn (cp_new P))", "P <- matrix_derivative (cpoints c) 0;;\n    Val (mkCurve kn (cp_new P))"))
m("split_reps", "split_and_normalize", "one insertion too many", "C18 C19",
  (C, "reps <- usub p mult", "reps <- usub (p + 1) mult"))
m("split_parts_swapped", "split_and_normalize", "the parts are returned in the wrong order", "C18",
  (C, "| Ok rp => Val (Ok (lp, rp))", "| Ok rp => Val (Ok (rp, lp))"))
m("reverse_points_only", "reverse", "knots are not reversed", "C13",
  (C, "kn <- knots_reverse (cknots c);;\n    cp <- points_reverse", "kn <- Val (cknots c);;\n    cp <- points_reverse"))
m("eval_no_basis_k", "evaluate_derivative", "basis functions of the curve itself for every derivative", "C03 C08",
  (C, "b <- kevaluate (cknots c) k i p u", "b <- kevaluate (cknots c) 0 i p u"))
m("mult_le", "multiplicity", "counts all knots up to u", "C16 C41",
  (K, "filter (fun x => (x ==? u)%num)", "filter (fun x => (x <=? u)%num)"))
m("normalize_max_only", "normalize", "divides by the maximum without shifting", "C53 C18",
  (K, "vec_rescale v (vmin v, vmax v) (n0, n1)", "vec_rescale v (n0, vmax v) (n0, n1)"))
m("vmin_first", "min", "the first component instead of the least one", "C36 C53",
  ("Vec", "match a with [] => n0 | x :: r => fold_left nmin r x end", "match a with [] => n0 | x :: r => x end"))
m("fixed_first_point", "fixed fit", "the first control point is the second data point", "C26",
  (F, "p0 <- mcol points 0;;\n            cp <- mset_col cp 0 p0", "p0 <- mcol points 1;;\n            cp <- mset_col cp 0 p0"))
m("fixed_diff_rows", "fixed finite differences", "one row of differences missing", "C26 C54",
  (F, "(rangei 0 nk2) (mzeros rows n1)", "(range 0 nk2) (mzeros rows n1)"))
m("loose_params", "loose fit", "the basis is evaluated at the previous parameter", "C25",
  (F, "u <- vget (pvector params) g;;\n             foldM (fun N i => b <- kevaluate kn 0 i p u;; mset N g i b) (rangei 0 n) N)", "u <- vget (pvector params) (g - 1);;\n             foldM (fun N i => b <- kevaluate kn 0 i p u;; mset N g i b) (rangei 0 n) N)"))
m("manual_uniform", "generate(Manual)", "manual knots are ignored", "C28",
  (G, "| GManual kn => Val (Ok kn)", "| GManual kn => uniform p n"))
m("fit_segments", "generate(LeastSquaresFit)", "one segment too many", "C25 C26",
  (G, "knots <- knots_generate degree intended_segments params KUniform", "knots <- knots_generate degree (intended_segments + 1) params KUniform"))
m("merge_dim_check", "merge_with_constraints", "dimensions are not compared", "C29",
  (X, "if negb (da =? db) then", "if negb (da =? da) then"))
m("merge_normed_check", "merge_with_constraints", "only the first curve is checked for being normed", "C29",
  (X, "x <- is_normed (cknots cb);; Val (negb x)", "x <- is_normed (cknots cb);; Val false"))
m("prepend_appends", "prepend", "appends", "C65",
  (X, "Definition prepend (self other : Curve) : M Curve := r <- merge other self;; unwrap r", "Definition prepend (self other : Curve) : M Curve := r <- merge self other;; unwrap r"))
m("merge_to_end", "merge_to", "constrains the end of the second curve", "C32",
  (X, "merge_with_constraints (mkCC a []) (mkCC b [n0])", "merge_with_constraints (mkCC a []) (mkCC b [n1])"))
m("merge_points_count", "generate_control_point_vector", "one control point of the second curve is lost", "C30 C31",
  (X, "r <- usub (n2 + 1) p;;", "r <- usub n2 p;;"))

# --- third round
m("find_le_stuck", "find_idx LeftOrEqual", "at a repeated knot the loop neither advances nor stops", "C122 C35",
  (K, "x <- vget v (i + 1);; y <- vget v i;; Val (i, (x ==? y)%num))\n          pk", "x <- vget v (i + 1);; y <- vget v i;; Val ((if (x ==? y)%num then i - 1 else i), false))\n          pk"))
m("find_le_no_break", "find_idx LeftOrEqual", "does not stop at a repeated knot", "C35 (as the code has it), C41",
  (K, "x <- vget v (i + 1);; y <- vget v i;; Val (i, (x ==? y)%num))\n          pk", "x <- vget v (i + 1);; y <- vget v i;; Val (i, false))\n          pk"))
m("find_req_no_break", "find_idx RightOrEqual", "does not stop at a repeated knot", "C35",
  (K, "i1 <- usub i 1;; x <- vget v i1;; y <- vget v i;; Val (i, (x ==? y)%num))", "i1 <- usub i 1;; x <- vget v i1;; y <- vget v i;; Val (i, false))"))
m("eval_accepts_nan", "evaluate_derivative", "rejects u < 0 and u > 1, so that NaN is let in", "C02",
  (C, "if negb ((n0 <=? u)%num && (u <=? n1)%num) then", "if ((u <? n0)%num || (n1 <? u)%num) then"))
m("insert_rejects_nan", "insert", "accepts only 0 < u < 1, so that NaN is an error", "C112 (as the code has it), C17",
  (C, "if (u <=? n0)%num || (n1 <=? u)%num then Val (c, Err", "if negb ((n0 <? u)%num && (u <? n1)%num) then Val (c, Err"))
m("de_boor_round", "de_boor", "rounds j * d to the nearest integer instead of down", "C22 C101",
  (K, "Z.to_nat (ntrunc jd)", "Z.to_nat (ntrunc (jd + nhalf)%num)"))
m("basis_guard", "basis", "the guard of the second summand looks at the first pair of knots", "C03 C04 C01",
  (K, "a2 <- vget Uk (i + 1 + S h);;\n        b2 <- vget Uk (i + 1);;", "a2 <- vget Uk (i + S h);;\n        b2 <- vget Uk i;;"))
m("derive_guard", "derive_single_point", "for equal knots the previous difference is kept instead of zero", "C08 C12 for internal multiplicity p + 1",
  (P, "then d <- cp_dimension cp;; Val (vzeros d)", "then derive_single_point cp kn k' i"))
m("multiplicity_all", "multiplicity", "counts among all knots instead of the domain", "C36",
  (K, "d <- domain kn;; Val (length (filter", "d <- vector kn;; Val (length (filter"))
m("normed_ends", "is_normed", "looks at the first and last knot instead of the smallest and largest", "C36",
  (K, "mn <- min_by v;;\n    mx <- max_by v;;", "let mn := nth_error v 0 in let mx := nth_error v (length v - 1) in"))
m("normed_nan", "is_normed", "a NaN compares equal instead of panicking", "C36",
  (K, "else if (b <=? a)%num then Val true else Panic", "else if (b <=? a)%num then Val true else Val false"))
m("kmax_zero", "Knots::derive", "does not record the available derivatives", "C38",
  (K, "Val (mkKnots uk p p)", "Val (mkKnots uk p (kk_max kn))"))
m("reverse_knots_first", "Knots::reverse", "reverses the knots but not the cached derivative knots", "C13 C15",
  (K, "uk <- mapM vec_reverse (Uk kn);;", "v <- vget (Uk kn) 0;; w <- vec_reverse v;; uk <- vset (Uk kn) 0 w;;"))
m("reverse_points_first", "ControlPoints::reverse", "reverses the points but not the cached derivatives", "C13 C15",
  (P, "(rangei 0 (pk_max cp)) (Pk cp)", "(rangei 0 0) (Pk cp)"))
m("insert_bottom", "insert", "copies one column too few behind the new points", "C16 C15",
  (C, "bot_cols <- usub control_point_count l;;", "b0 <- usub control_point_count l;; bot_cols <- usub b0 1;;"))
m("new_stale", "Curve::new", "does not compute the derivatives", "C38 C08",
  (C, "else c <- calculate_derivatives (mkCurve kn cp);; Val (Ok c)", "else Val (Ok (mkCurve kn cp))"))
m("max_derivative_points", "max_derivative", "returns the number of derivative orders including zero", "C38",
  (C, "_ <- assert (a =? b);; Val a", "_ <- assert (a =? b);; Val (a + 1)"))
m("split_left_end", "split", "the closing knot of the left part is the knot before it", "C18",
  (C, "U_left <- vset U_left h u;;", "x <- vget U (h - 1);; U_left <- vset U_left h x;;"))
m("averaging_clamps", "averaging", "averages p + 1 parameters starting one too early and divides by p + 1", "C21 C100",
  (K, "s <- foldM (fun s i => x <- vget U_bar i;; Val (s + x)%num) (rangei j lim) n0;;\n                      y <- ndiv s (nofnat p);;", "s <- foldM (fun s i => x <- vget U_bar i;; Val (s + x)%num) (rangei (j - 1) lim) n0;;\n                      y <- ndiv s (nofnat (p + 1));;"))

# --- writes through the public fields
D = "MDirect"
m("direct_get_mut", "ControlPoints::get_mut", "the view is that of the following column", "C156",
  (D, "w <- f v;; mset_col m i w)", "w <- f v;; mset_col m (i + 1) w)"))
m("direct_matrix_mut", "ControlPoints::matrix_mut", "hands out the matrix of first derivatives", "C156",
  (D, "m <- vget (Pk cp) 0;; w <- f m;; pk <- vset (Pk cp) 0 w;; Val (mkCP pk (pk_max cp)).\n  (** points/mod.rs:114", "m <- vget (Pk cp) 1;; w <- f m;; pk <- vset (Pk cp) 1 w;; Val (mkCP pk (pk_max cp)).\n  (** points/mod.rs:114"))
m("direct_vector_mut", "Knots::vector_mut", "hands out the knots of the first derivative", "C157",
  (D, "M Knots := vector_derivative_mut kn 0 f.", "M Knots := vector_derivative_mut kn 1 f."))
m("direct_write_derives", "Knots::vector_mut", "recomputes the derivative knots on every write", "C157 (derivatives stay what they were)",
  (D, "M Knots := vector_derivative_mut kn 0 f.", "M Knots := kn <- vector_derivative_mut kn 0 f;; knots_derive kn."))
m("direct_derive_swapped", "points.derive", "derives the points of the reversed knots", "C155 C156",
  (D, "on_points (points_derive (cpoints c) (cknots c))", "on_points (kn <- knots_reverse (cknots c);; points_derive (cpoints c) kn)"))
m("derive_points_keep", "ControlPoints::derive", "does not drop the old derivatives before it appends the new ones", "C155 C156 C158",
  (P, "mkCP (firstn 1 (Pk cp)) (pk_max cp)", "mkCP (Pk cp) (pk_max cp)"))
m("derive_knots_keep", "Knots::derive", "does not drop the old derivative knots before it appends the new ones", "C155 C157",
  (K, "firstn 1 (Uk kn)", "Uk kn"))

# --- debug builds
B = "MDebug"
m("debug_limit", "centripetal (debug)", "the limit is EPSILON instead of its square root", "C172",
  (B, "(seq 0 26)", "(seq 0 52)"))
m("debug_strict", "centripetal (debug)", "a sum of exactly 2^-26 fails the assertion", "C172",
  (B, "negb (sqrt_epsilon <=? sum)%num", "negb (sqrt_epsilon <? sum)%num"))
m("debug_nan", "centripetal (debug)", "the assertion is written as sum < limit => panic, which lets NaN pass", "C172",
  (B, "negb (sqrt_epsilon <=? sum)%num", "(sum <? sqrt_epsilon)%num"))
m("debug_lengths", "centripetal (debug)", "adds up chord lengths instead of their square roots", "C172",
  (B, "Val (s + nsqrt c)%num", "Val (s + c)%num"))
m("debug_chord", "parameters::generate (debug)", "checks chord-length parameters too", "C172",
  (B, "| ChordLength => chord_length points", "| ChordLength => _ <- centripetal_debug points;; chord_length points"))
