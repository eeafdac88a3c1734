(** * Properties of curves changed in place through their public fields *)

From Coq Require Import ZArith Reals List Bool Arith Lia Lra QArith Qcanon.
From Verif Require Import Num Vec MKnots MPoints MCurve MFit MMerge MDirect RNum QNum QSolve F64 Lists Spec Api ApiU Bridge Struct Divisions Facts1 Facts11 MergeQ Samples Direct1 Direct2.
Import ListNotations.
Local Open Scope R_scope.

(** ** C154.  What cached derivatives are used for.  Two curve objects with the same
    degree, knot vector and control points but arbitrary cached derivatives are the same
    for [evaluate], for insertions (which either do the same or report the same
    error), for splits and for [Curve::new]; in every number system, binary64 included.
    For a merge it is enough that the knots with their caches and the control points
    agree: the cached derivative points are not looked at. *)
Theorem C154_evaluate : forall (K : Num) (c c' : Curve K) u, alike c c' -> evaluate c u = evaluate c' u.
Proof. exact (fun K => evaluate_al). Qed.
Print Assumptions C154_evaluate.

Theorem C154_insert : forall (K : Num) (c c' : Curve K) u, alike c c' ->
  insert c u = insert c' u \/ exists c1 c2 e, insert c u = Val (c1, Err e) /\ insert c' u = Val (c2, Err e) /\ alike c1 c2.
Proof. exact (fun K => insert_alike_fact). Qed.
Print Assumptions C154_insert.

Theorem C154_insert_times : forall (K : Num) times (c c' : Curve K) u, alike c c' ->
  insert_times c u (S times) = insert_times c' u (S times) \/
  exists c1 c2 e, insert_times c u (S times) = Val (c1, Err e) /\ insert_times c' u (S times) = Val (c2, Err e) /\ alike c1 c2.
Proof. exact (fun K => insert_times_al). Qed.
Print Assumptions C154_insert_times.

Theorem C154_split : forall (K : Num) (c c' : Curve K) u flags, alike c c' -> split_and_normalize c u flags = split_and_normalize c' u flags.
Proof. exact (fun K => split_al). Qed.
Print Assumptions C154_split.

Theorem C154_new : forall (K : Num) (c c' : Curve K), alike c c' -> curve_new (cknots c) (cpoints c) = curve_new (cknots c') (cpoints c').
Proof. exact (fun K => new_alike_fact). Qed.
Print Assumptions C154_new.

Theorem C154_merge : forall (K : Num) svd (a a' b b' : Curve K) pa pb, alike_points a a' -> alike_points b b' ->
  merge_with_constraints svd (mkCC a pa) (mkCC b pb) = merge_with_constraints svd (mkCC a' pa) (mkCC b' pb).
Proof. exact (fun K => merge_al). Qed.
Print Assumptions C154_merge.

(** a curve, and one that is alike but whose derivative points have been overwritten,
    so that its derivative is another one *)
Definition zero_points (m : Mat QNum) : M (Mat QNum) := Val (mzeros (nrows m) (ncols m)).
Example C154_example : exists c c' : Curve QNum, built 2 (two_knots 2) (qrow [1; 3; 2; 5]%Z) c /\
  accessed c [APointsDerivative 1 zero_points] = Val c' /\ alike c c' /\ alike_points c c' /\
  evaluate c' (q 1 2) = Val (Ok [q 5 2]) /\
  evaluate_derivative c (q 1 2) 1 = Val (Ok [q (-2) 1]) /\ evaluate_derivative c' (q 1 2) 1 = Val (Ok [q 0 1]).
Proof.
  assert (T : okb (qbuild 2 (two_knots 2) (qrow [1; 3; 2; 5]%Z)) (fun c => valb (accessed c [APointsDerivative 1 zero_points]) (fun c' =>
    qis (evaluate c' (q 1 2)) (q 5 2) && (qis (evaluate_derivative c (q 1 2) 1) (q (-2) 1) && qis (evaluate_derivative c' (q 1 2) 1) (q 0 1)))) = true) by (vm_compute; reflexivity).
  apply okb_ex in T. destruct T as [c [E T]]. apply valb_ex in T. destruct T as [c' [E1 T]]. apply andb_prop in T. destruct T as [T1 T]. apply andb_prop in T. destruct T as [T2 T3].
  apply qis_ex in T1, T2, T3. exists c, c'. split; [apply qbuild_built; exact E|]. split; [exact E1|].
  assert (A : alike_points c c').
  { unfold accessed in E1. cbn [foldM access_once] in E1. unfold matrix_derivative_mut in E1. destruct c as [kn [pk km]]. cbn [cpoints cknots pk_max Pk] in *.
    destruct (assert (1 <=? km)%nat); try discriminate E1. cbn [bind] in E1. destruct pk as [|P0 [|P1 pk]]; try discriminate E1. inversion E1. split; reflexivity. }
  split; [|split; [exact A|auto]]. destruct A as [A B]. unfold alike, degree. rewrite A, B. auto.
Qed.

(** ** C155.  Refreshing.  Whatever has been done to a curve object in place, the two
    calls [knots.derive()] and [points.derive(&knots)], in either order, make it exactly
    the curve that [Curve::new] builds from its present knot vector and control points,
    provided their numbers fit; in every number system.  Refreshing changes neither. *)
Theorem C155_refresh : forall (K : Num) p n dim (U : list K) P (c : Curve K), sized p n dim U P ->
  degree c = p -> vector (cknots c) = Val U -> cp_matrix (cpoints c) = Val P ->
  forall c', refresh c = Val c' <-> built p U P c'.
Proof. exact (fun K => built_refresh). Qed.
Print Assumptions C155_refresh.

Theorem C155_orders : forall (K : Num) (c : Curve K) U, vector (cknots c) = Val U -> (2 * degree c <= length U)%nat ->
  refresh_backwards c = refresh c.
Proof. exact (fun K => refresh_orders). Qed.
Print Assumptions C155_orders.

Theorem C155_same_curve : forall (K : Num) p n dim (U : list K) P (c c' : Curve K), (forall x y : K, ndiv x y <> Panic /\ ndiv x y <> Diverge) -> sized p n dim U P ->
  degree c = p -> vector (cknots c) = Val U -> cp_matrix (cpoints c) = Val P ->
  refresh c = Val c' -> alike c c'.
Proof. exact @refresh_alike. Qed.
Print Assumptions C155_same_curve.

(** a curve whose knots, derivative knots and derivative points have been overwritten:
    it is refreshed to the curve of its knots *)
Definition scribbled : list (access QNum) :=
  [AKnots (fun _ => Val (bezier_knots 2 ++ [q 7 1])); APointsDerivative 1 zero_points; AKnotsDerivative 1 (fun _ => Val [q 9 1]); AKnots (fun _ => Val [q 0 1; q 0 1; q 0 1; q 1 3; q 1 1; q 1 1; q 1 1])].
Example C155_example : exists c c' c1 : Curve QNum, built 2 (two_knots 2) (qrow [1; 3; 2; 5]%Z) c /\ accessed c scribbled = Val c' /\
  refresh c' = Val c1 /\ refresh_backwards c' = Val c1 /\ built 2 [q 0 1; q 0 1; q 0 1; q 1 3; q 1 1; q 1 1; q 1 1] (qrow [1; 3; 2; 5]%Z) c1.
Proof.
  assert (T : okb (qbuild 2 (two_knots 2) (qrow [1; 3; 2; 5]%Z)) (fun c => valb (accessed c scribbled) (fun c' => valb (refresh c') (fun _ => (degree c' =? 2)%nat))) = true) by (vm_compute; reflexivity).
  apply okb_ex in T. destruct T as [c [E T]]. apply valb_ex in T. destruct T as [c' [E1 T]]. apply valb_ex in T. destruct T as [c1 [E2 T]]. apply Nat.eqb_eq in T.
  assert (B := qbuild_built _ _ _ _ E).
  assert (SZ : sized 2 3 1 (two_knots 2) (qrow [1; 3; 2; 5]%Z)) by (apply sized_qrow; try reflexivity; lia).
  assert (W := sized_wf False gdiv_Q 2 3 1 _ _ c SZ B).
  assert (V : vector (cknots c') = Val [q 0 1; q 0 1; q 0 1; q 1 3; q 1 1; q 1 1; q 1 1] /\ cp_matrix (cpoints c') = Val (qrow [1; 3; 2; 5]%Z)).
  { unfold accessed, scribbled in E1. cbn [foldM access_once] in E1. destruct c as [kn [pk km]]. destruct W as [Wd Wl Ws Wk Wm Wh Wp Wpt]. cbn [cpoints cknots pk_max Pk] in *. subst kn.
    destruct pk as [|P0 [|P1 [|P2 [|? ?]]]]; try discriminate Wp. cbn [nth] in Wh. subst P0 km. cbn in E1. inversion E1. split; reflexivity. }
  destruct V as [V1 V2]. exists c, c', c1. split; [exact B|]. split; [exact E1|]. split; [exact E2|]. split.
  - rewrite (C155_orders QNum c' _ V1); [exact E2|]. rewrite T. cbn. lia.
  - apply (C155_refresh QNum 2 3 1 _ _ c'); try assumption.
Qed.

(** ** C156.  Moving a control point in place.  After [points.get_mut(i)] is assigned a
    new point, [evaluate] follows at once: the curve moves by the difference times the
    i-th basis function.  All derivatives of order 1 and higher stay what they were,
    until [points.derive(&knots)] is called, which makes the curve that of the moved
    points.  (The basis function is that of [Spec].) *)
Theorem C156_point : forall p n dim U P c i v, clamped_curve p n dim U P c -> (i <= n)%nat -> length v = dim ->
  exists c' c'', accessed c [APoint i (fun _ => Val v)] = Val c' /\ accessed c' [ADerivePoints] = Val c'' /\
    clamped_curve p n dim U (set_point P i v) c'' /\
    (forall u k, (1 <= k)%nat -> evaluate_derivative c' u k = evaluate_derivative c u k) /\
    (forall u, evaluate c' u = evaluate c'' u) /\
    forall u, 0 <= u <= 1 -> exists f, returns (evaluate c u) dim f /\
      returns (evaluate c' u) dim (fun d => f d + bspline (kfun U) n p i u * (nth d v 0 - ent P i d)).
Proof. exact move_point. Qed.
Print Assumptions C156_point.

(** The same in every number system, for all control points at once: an assignment that
    keeps their number and dimension changes no derivative of order 1 or higher. *)
Theorem C156_stale : forall (K : Num) (c : Curve K) f c' P P' u k, accessed c [APoints f] = Val c' ->
  cp_matrix (cpoints c) = Val P -> f P = Val P' -> nrows P' = nrows P -> ncols P' = ncols P -> (1 <= k)%nat ->
  evaluate_derivative c' u k = evaluate_derivative c u k.
Proof. exact (fun K => stale_points). Qed.
Print Assumptions C156_stale.

(** the second of four points is moved: value, stale derivative and fresh derivative *)
Example C156_example : exists c c' c'' : Curve QNum, built 2 (two_knots 2) (qrow [1; 3; 2; 5]%Z) c /\
  accessed c [APoint 1 (fun _ => Val [q 7 1])] = Val c' /\ accessed c' [ADerivePoints] = Val c'' /\
  evaluate c (q 1 2) = Val (Ok [q 5 2]) /\ evaluate c' (q 1 2) = Val (Ok [q 9 2]) /\
  evaluate_derivative c (q 1 2) 1 = Val (Ok [q (-2) 1]) /\ evaluate_derivative c' (q 1 2) 1 = Val (Ok [q (-2) 1]) /\
  evaluate_derivative c'' (q 1 2) 1 = Val (Ok [q (-10) 1]).
Proof.
  assert (T : okb (qbuild 2 (two_knots 2) (qrow [1; 3; 2; 5]%Z)) (fun c => valb (accessed c [APoint 1 (fun _ => Val [q 7 1])]) (fun c' => valb (accessed c' [ADerivePoints]) (fun c'' =>
    (qis (evaluate c (q 1 2)) (q 5 2) && (qis (evaluate c' (q 1 2)) (q 9 2) &&
    (qis (evaluate_derivative c (q 1 2) 1) (q (-2) 1) && (qis (evaluate_derivative c' (q 1 2) 1) (q (-2) 1) && qis (evaluate_derivative c'' (q 1 2) 1) (q (-10) 1)))))))) = true) by (vm_compute; reflexivity).
  apply okb_ex in T. destruct T as [c [E T]]. apply valb_ex in T. destruct T as [c' [E1 T]]. apply valb_ex in T. destruct T as [c'' [E2 T]].
  apply andb_prop in T. destruct T as [T1 T]. apply andb_prop in T. destruct T as [T2 T]. apply andb_prop in T. destruct T as [T3 T]. apply andb_prop in T. destruct T as [T4 T5].
  apply qis_ex in T1, T2, T3, T4, T5. exists c, c', c''. split; [apply qbuild_built; exact E|]. auto 10.
Qed.
Example C156_sample : exists c, clamped_curve 2 3 2 U_a P_a c.
Proof. exact curve_a. Qed.

(** ** C157.  Moving knots in place.  After [knots.vector_mut()] is assigned other knots,
    [evaluate] follows at once, all derivatives of order 1 and higher stay what they
    were, and the two calls that recompute derivatives, in either order, make the curve
    that of the new knots. *)
Theorem C157_knots : forall p n dim U V P c, clamped_curve p n dim U P c -> clamped p n V ->
  exists c' c'', accessed c [AKnots (fun _ => Val V)] = Val c' /\ refresh c' = Val c'' /\ refresh_backwards c' = Val c'' /\ clamped_curve p n dim V P c'' /\
    (forall u k, (1 <= k)%nat -> evaluate_derivative c' u k = evaluate_derivative c u k) /\
    forall u, evaluate c' u = evaluate c'' u.
Proof. exact move_knots. Qed.
Print Assumptions C157_knots.

Theorem C157_stale : forall (K : Num) (c : Curve K) f c' U U' u k, accessed c [AKnots f] = Val c' ->
  vector (cknots c) = Val U -> f U = Val U' -> length U' = length U -> (1 <= k)%nat ->
  evaluate_derivative c' u k = evaluate_derivative c u k.
Proof. exact (fun K => stale_knots). Qed.
Print Assumptions C157_stale.

(** One of the two calls is not enough: the inner knot is moved from 1/2 to 1/4; the
    derivative at 3/8 then differs between the stale curve, the curve whose points or
    whose knots alone are derived, and the refreshed curve. *)
Example C157_both_needed : exists c c' c1 c2 c3 : Curve QNum, built 2 (two_knots 2) (qrow [1; 3; 2; 5]%Z) c /\
  accessed c [AKnots (fun _ => Val [q 0 1; q 0 1; q 0 1; q 1 4; q 1 1; q 1 1; q 1 1])] = Val c' /\
  accessed c' [ADerivePoints] = Val c1 /\ accessed c' [ADeriveKnots] = Val c2 /\ refresh c' = Val c3 /\
  evaluate_derivative c' (q 3 8) 1 = Val (Ok [q 1 2]) /\ evaluate_derivative c1 (q 3 8) 1 = Val (Ok [q 5 2]) /\
  evaluate_derivative c2 (q 3 8) 1 = Val (Ok [q 1 3]) /\ evaluate_derivative c3 (q 3 8) 1 = Val (Ok [q (-1) 3]).
Proof.
  assert (T : okb (qbuild 2 (two_knots 2) (qrow [1; 3; 2; 5]%Z)) (fun c => valb (accessed c [AKnots (fun _ => Val [q 0 1; q 0 1; q 0 1; q 1 4; q 1 1; q 1 1; q 1 1])]) (fun c' =>
    valb (accessed c' [ADerivePoints]) (fun c1 => valb (accessed c' [ADeriveKnots]) (fun c2 => valb (refresh c') (fun c3 =>
    (qis (evaluate_derivative c' (q 3 8) 1) (q 1 2) && (qis (evaluate_derivative c1 (q 3 8) 1) (q 5 2) &&
    (qis (evaluate_derivative c2 (q 3 8) 1) (q 1 3) && qis (evaluate_derivative c3 (q 3 8) 1) (q (-1) 3))))))))) = true) by (vm_compute; reflexivity).
  apply okb_ex in T. destruct T as [c [E T]]. apply valb_ex in T. destruct T as [c' [E1 T]]. apply valb_ex in T. destruct T as [c1 [E2 T]]. apply valb_ex in T. destruct T as [c2 [E3 T]]. apply valb_ex in T. destruct T as [c3 [E4 T]].
  apply andb_prop in T. destruct T as [T1 T]. apply andb_prop in T. destruct T as [T2 T]. apply andb_prop in T. destruct T as [T3 T4].
  apply qis_ex in T1, T2, T3, T4. exists c, c', c1, c2, c3. split; [apply qbuild_built; exact E|]. auto 12.
Qed.

(** ** C158.  Rescaling the knots in place.  After [knots.rescale((0, 1), (a, b))] the
    curve is the old one in the new parameter.  [evaluate_derivative] at the new
    parameter still returns the derivative with respect to the old one, until
    [points.derive(&knots)] is called; after that it returns the old derivative divided
    by [(b - a)^k].  (Parameters outside 0 to 1 are rejected before and after.) *)
Theorem C158_rescale : forall p n dim U P c a b, clamped_curve p n dim U P c -> a < b ->
  exists c' c'', accessed c [ARescaleKnots (0, 1) (a, b)] = Val c' /\ accessed c' [ADerivePoints] = Val c'' /\
    built p (map (fun x => a + (b - a) * x) U) P c'' /\
    forall u k, 0 <= u <= 1 -> 0 <= a + (b - a) * u <= 1 -> (k <= p)%nat -> exists f, returns (evaluate_derivative c u k) dim f /\
      returns (evaluate_derivative c' (a + (b - a) * u) k) dim f /\
      returns (evaluate_derivative c'' (a + (b - a) * u) k) dim (fun d => f d / (b - a) ^ k).
Proof. exact rescale_in_place. Qed.
Print Assumptions C158_rescale.

(** the knots are halved: the derivative at 1/4 is the old one at 1/2, and twice that
    after the points have been derived *)
Example C158_example : exists c c' c'' : Curve QNum, built 2 (two_knots 2) (qrow [1; 3; 2; 5]%Z) c /\
  accessed c [ARescaleKnots (q 0 1, q 1 1) (q 0 1, q 1 2)] = Val c' /\ accessed c' [ADerivePoints] = Val c'' /\
  evaluate_derivative c (q 1 2) 1 = Val (Ok [q (-2) 1]) /\ evaluate_derivative c' (q 1 4) 1 = Val (Ok [q (-2) 1]) /\
  evaluate_derivative c'' (q 1 4) 1 = Val (Ok [q (-4) 1]).
Proof.
  assert (T : okb (qbuild 2 (two_knots 2) (qrow [1; 3; 2; 5]%Z)) (fun c => valb (accessed c [ARescaleKnots (q 0 1, q 1 1) (q 0 1, q 1 2)]) (fun c' =>
    valb (accessed c' [ADerivePoints]) (fun c'' =>
    (qis (evaluate_derivative c (q 1 2) 1) (q (-2) 1) && (qis (evaluate_derivative c' (q 1 4) 1) (q (-2) 1) &&
    qis (evaluate_derivative c'' (q 1 4) 1) (q (-4) 1)))))) = true) by (vm_compute; reflexivity).
  apply okb_ex in T. destruct T as [c [E T]]. apply valb_ex in T. destruct T as [c' [E1 T]]. apply valb_ex in T. destruct T as [c'' [E2 T]].
  apply andb_prop in T. destruct T as [T1 T]. apply andb_prop in T. destruct T as [T2 T3].
  apply qis_ex in T1, T2, T3. exists c, c', c''. split; [apply qbuild_built; exact E|]. auto 12.
Qed.

(** ** C159.  Reversing the points in place.  [points.reverse()] alone, without the
    knots, does exactly what [Curve::reverse] does if the knot vector is symmetric. *)
Theorem C159_points : forall p n dim U P c, clamped_curve p n dim U P c ->
  (forall i, (i < length U)%nat -> nth i U 0 = 1 - nth (length U - 1 - i) U 0) ->
  accessed c [AReversePoints] = reverse c.
Proof. exact reverse_points_in_place. Qed.
Print Assumptions C159_points.

Example C159_sample : (exists c, clamped_curve 2 3 2 U_a P_a c) /\ forall i, (i < length U_a)%nat -> nth i U_a 0 = 1 - nth (length U_a - 1 - i) U_a 0.
Proof. split; [exact curve_a|]. intros i Hi. unfold U_a in *. cbn in Hi. do 7 (destruct i as [|i]; [cbn; lra|]). lia. Qed.

(** without symmetry it is another curve *)
Definition skew_knots : list QNum := [q 0 1; q 0 1; q 0 1; q 1 4; q 1 1; q 1 1; q 1 1].
Example C159_skew : exists c c1 c2 : Curve QNum, built 2 skew_knots (qrow [1; 3; 2; 5]%Z) c /\
  accessed c [AReversePoints] = Val c1 /\ reverse c = Val c2 /\
  evaluate c1 (q 1 2) = Val (Ok [q 22 9]) /\ evaluate c2 (q 1 2) = Val (Ok [q 8 3]).
Proof.
  assert (T : okb (qbuild 2 skew_knots (qrow [1; 3; 2; 5]%Z)) (fun c => valb (accessed c [AReversePoints]) (fun c1 => valb (reverse c) (fun c2 =>
    qis (evaluate c1 (q 1 2)) (q 22 9) && qis (evaluate c2 (q 1 2)) (q 8 3)))) = true) by (vm_compute; reflexivity).
  apply okb_ex in T. destruct T as [c [E T]]. apply valb_ex in T. destruct T as [c1 [E1 T]]. apply valb_ex in T. destruct T as [c2 [E2 T]].
  apply andb_prop in T. destruct T as [T1 T2]. apply qis_ex in T1, T2. exists c, c1, c2. split; [apply qbuild_built; exact E|]. auto.
Qed.
