(** * Properties C74 to C76: insertion, derivatives and the bounding box in binary64 *)

From Coq Require Import ZArith Reals List Bool Arith Lra Lia Permutation.
From Flocq Require Import Core.Core IEEE754.BinarySingleNaN.
From Verif Require Import Num Vec MKnots MPoints MCurve RNum F64 Lists Spec Api ApiF Facts11 Samples Float1 Float5 Float6 Float7 Float8 Float9 Float10.
Import ListNotations.
Local Open Scope R_scope.

(** ** C74.  Inserting a knot [x] times in binary64 succeeds, adds exactly that knot,
    keeps all coordinates finite, and moves no point of the curve by more than
    rounding: every later evaluation is within [(6 p + 11 x + 4) 2^-53 M] of the exact
    evaluation of the curve before the insertion. *)
Theorem C74_insert : forall x p n dim (U : list f64) P M c P' cR (u : f64), float_curve p n dim U P M c -> same_points n dim P P' ->
  clamped_curve p n dim (map val U) P' cR -> (p <= 100)%nat -> / 2 ^ 1000 <= M <= 2 ^ 1019 -> finite u -> 0 < val u < 1 ->
  (forall y, In y (map val U) -> y <> val u -> / 2 ^ 1000 <= Rabs (y - val u)) ->
  (mult (map val U) (val u) + x <= p + 1)%nat -> simple_below (map val U) (val u) ->
  exists c' U' Q, @insert_times F64 c u x = Val (c', Ok tt) /\ Permutation (repeat u x ++ U) U' /\
    float_curve p (n + x) dim U' Q ((1 + 11 * INR x * / 2 ^ 53) * M) c' /\
    forall t, finite t -> 0 <= val t <= 1 -> exists f, returns (evaluate cR (val t)) dim f /\
      returns_within (@evaluate F64 c' t) dim f ((6 * INR p + 11 * INR x + 4) * / 2 ^ 53 * M).
Proof. exact insert_times_close. Qed.
Print Assumptions C74_insert.

(** twice at the knot 1/4 that is already there once *)
Example C74_hypotheses : exists c cR, float_curve 2 3 1 U_f P_f 2 c /\ same_points 3 1 P_f PR_f /\ clamped_curve 2 3 1 (map val U_f) PR_f cR /\
  / 2 ^ 1000 <= 2 <= 2 ^ 1019 /\ finite (q4 1) /\ 0 < val (q4 1) < 1 /\
  (forall y, In y (map val U_f) -> y <> val (q4 1) -> / 2 ^ 1000 <= Rabs (y - val (q4 1))) /\
  (mult (map val U_f) (val (q4 1)) + 2 <= 2 + 1)%nat /\ simple_below (map val U_f) (val (q4 1)).
Proof.
  destruct curve_f as [c H]. destruct (clamped_curve_ex 2 3 1 (map val U_f) PR_f) as [cR HR]; [apply H|apply same_f|].
  exists c, cR. split; [exact H|]. split; [exact same_f|]. split; [exact HR|]. assert (S := small_1000).
  split. { split; [lra|]. change 1019%nat with (1 + 1018)%nat. rewrite pow_add, pow_1. assert (1 <= 2 ^ 1018) by (apply pow_R1_Rle; lra). lra. }
  rewrite val_U_f, val_q4_1. split; [reflexivity|]. split; [lra|]. split.
  - intros y Hy Hne. apply Rle_trans with (1 := S). simpl in Hy. repeat destruct Hy as [<-|Hy]; try contradiction; try (exfalso; lra).
    + rewrite Rabs_minus_sym, Rabs_pos_eq; lra.
    + rewrite Rabs_minus_sym, Rabs_pos_eq; lra.
    + rewrite Rabs_minus_sym, Rabs_pos_eq; lra.
    + rewrite Rabs_pos_eq; lra.
    + rewrite Rabs_pos_eq; lra.
    + rewrite Rabs_pos_eq; lra.
  - split.
    + unfold mult. cbn [count_occ]. repeat destruct (Req_EM_T _ _); try lra; lia.
    + intros y Hy. unfold mult. cbn [count_occ]. repeat destruct (Req_EM_T _ _); try lra; lia.
Qed.

(** ** C75.  The [k]-th derivative in binary64: within [(6 p + 4) 2^-53 M (2 p / h)^k] of
    the exact one, where [h] is the smallest distance of two different knots. *)
Theorem C75_derivatives : forall p n dim (U : list f64) P M c P' cR (u : f64) k h, float_curve p n dim U P M c -> same_points n dim P P' ->
  clamped_curve p n dim (map val U) P' cR -> (p <= 100)%nat -> (k <= p)%nat -> / 2 ^ 1000 <= M -> / 2 ^ 1000 <= h ->
  (forall i j, (j < length U)%nat -> nth i (map val U) 0 < nth j (map val U) 0 -> h <= nth j (map val U) 0 - nth i (map val U) 0) ->
  M * (2 * INR p / h) ^ k <= 2 ^ 1020 -> finite u -> 0 <= val u <= 1 ->
  exists f, returns (evaluate_derivative cR (val u) k) dim f /\
    returns_within (@evaluate_derivative F64 c u k) dim f ((6 * INR p + 4) * / 2 ^ 53 * (M * (2 * INR p / h) ^ k)).
Proof. exact derivative_F64. Qed.
Print Assumptions C75_derivatives.

(** first and second derivative of the same curve *)
Example C75_hypotheses : exists c cR, float_curve 2 3 1 U_f P_f 2 c /\ same_points 3 1 P_f PR_f /\ clamped_curve 2 3 1 (map val U_f) PR_f cR /\
  / 2 ^ 1000 <= 2 /\ / 2 ^ 1000 <= 1 / 4 /\
  (forall i j, (j < length U_f)%nat -> nth i (map val U_f) 0 < nth j (map val U_f) 0 -> 1 / 4 <= nth j (map val U_f) 0 - nth i (map val U_f) 0) /\
  2 * (2 * INR 2 / (1 / 4)) ^ 1 <= 2 ^ 1020 /\ 2 * (2 * INR 2 / (1 / 4)) ^ 2 <= 2 ^ 1020 /\ finite (q4 3) /\ 0 <= val (q4 3) <= 1.
Proof.
  destruct curve_f as [c H]. destruct (clamped_curve_ex 2 3 1 (map val U_f) PR_f) as [cR HR]; [apply H|apply same_f|].
  exists c, cR. split; [exact H|]. split; [exact same_f|]. split; [exact HR|]. assert (S := small_1000).
  split; [lra|]. split; [lra|].
  assert (B : 512 <= 2 ^ 1020).
  { change 1020%nat with (9 + 1011)%nat. rewrite pow_add. assert (1 <= 2 ^ 1011) by (apply pow_R1_Rle; lra). simpl (2 ^ 9). lra. }
  split; [|split; [simpl (INR 2); simpl pow; lra|split; [simpl (INR 2); simpl (_ ^ 2); lra|split; [reflexivity|rewrite val_q4_3; lra]]]].
  rewrite val_U_f. intros i j Hj. change (length U_f) with 7%nat in Hj.
  destruct (le_lt_dec 7 i) as [Hi|Hi].
  - rewrite (nth_overflow _ _ (n := i)) by (simpl; lia).
    destruct j as [|[|[|[|[|[|[|j]]]]]]]; simpl; try lra; lia.
  - destruct i as [|[|[|[|[|[|[|i]]]]]]]; try lia; destruct j as [|[|[|[|[|[|[|j]]]]]]]; simpl; try lra; lia.
Qed.

(** ** C76.  In binary64 a curve point leaves the bounding box of its [p + 1] active
    control points by at most [(6 p + 3) 2^-53 M]. *)
Theorem C76_box : forall p n dim (U : list f64) P M c (u : f64) j, float_curve p n dim U P M c -> (p <= 100)%nat -> / 2 ^ 1000 <= M <= 2 ^ 1022 ->
  finite u -> (p <= j <= n)%nat -> nth j (map val U) 0 <= val u <= nth (S j) (map val U) 0 ->
  (val u < nth (S j) (map val U) 0 \/ val u = 1 \/ (mult (map val U) (val u) <= p)%nat) ->
  exists v, @evaluate F64 c u = Val (Ok v) /\ length v = dim /\
    forall d lo hi, (d < dim)%nat -> (forall i, (j - p <= i <= j)%nat -> lo <= val (ent P i d) <= hi) ->
      finite (nth d v (@n0 F64)) /\
      lo - (6 * INR p + 3) * / 2 ^ 53 * M <= val (nth d v (@n0 F64)) <= hi + (6 * INR p + 3) * / 2 ^ 53 * M.
Proof. exact box_F64. Qed.
Print Assumptions C76_box.

(** in the first span *)
Example C76_hypotheses : exists c, float_curve 2 3 1 U_f P_f 2 c /\ / 2 ^ 1000 <= 2 <= 2 ^ 1022 /\ finite (q4 1) /\ (2 <= 2 <= 3)%nat /\
  nth 2 (map val U_f) 0 <= val (q4 1) <= nth 3 (map val U_f) 0 /\ (mult (map val U_f) (val (q4 1)) <= 2)%nat /\
  forall i, (2 - 2 <= i <= 2)%nat -> -3 / 2 <= val (ent P_f i 0) <= 1.
Proof.
  destruct curve_f as [c H]. exists c. split; [exact H|]. assert (S := small_1000).
  split. { split; [lra|]. change 1022%nat with (1 + 1021)%nat. rewrite pow_add, pow_1. assert (1 <= 2 ^ 1021) by (apply pow_R1_Rle; lra). lra. }
  split; [reflexivity|]. split; [lia|]. rewrite val_U_f, val_q4_1. split; [simpl; lra|]. split.
  - unfold mult. cbn [count_occ]. repeat destruct (Req_EM_T _ _); try lra; lia.
  - intros i Hi. destruct i as [|[|[|i]]]; [| | |lia].
    + change (-3 / 2 <= val (q4 0) <= 1). rewrite val_q4_0. lra.
    + change (-3 / 2 <= val (q4 4) <= 1). rewrite val_q4_4. lra.
    + change (-3 / 2 <= val (q4 (-6)) <= 1). rewrite val_q4_m6. lra.
Qed.
