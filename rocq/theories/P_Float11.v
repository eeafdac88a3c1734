(** * Property C148: derivatives after edits in binary64 *)

From Coq Require Import ZArith Reals List Bool Arith Lra Lia Permutation.
From Flocq Require Import Core.Core IEEE754.BinarySingleNaN.
From Verif Require Import Num Vec MKnots MPoints MCurve RNum F64 Lists Spec Api ApiF ApiF3 Facts11 Samples Float1 Float8 Float29 Float30 Float31.
Import ListNotations.
Local Open Scope R_scope.

(** ** C148.  Derivatives of edited curves in binary64.  [h] (or [g]) is the smallest distance
    between different knots, the inserted or splitting parameter included.  After inserting a
    knot [x] times the [k]-th derivative at any parameter is the exact [k]-th derivative of the
    curve before, up to rounding. *)
Theorem C148_insert : forall x p n dim (U : list f64) P M c P' cR (u : f64) h k, float_curve p n dim U P M c -> same_points n dim P P' ->
  clamped_curve p n dim (map val U) P' cR -> (p <= 100)%nat -> (k <= p)%nat -> / 2 ^ 1000 <= M <= 2 ^ 1019 -> finite u -> 0 < val u < 1 ->
  (mult (map val U) (val u) + x <= p + 1)%nat -> simple_below (map val U) (val u) ->
  / 2 ^ 1000 <= h -> wide h (val u :: map val U) -> M * (2 * INR p / h) ^ k <= 2 ^ 1019 ->
  exists c', @insert_times F64 c u x = Val (c', Ok tt) /\
    forall t, finite t -> 0 <= val t <= 1 -> exists f, returns (evaluate_derivative cR (val t) k) dim f /\
      returns_within (@evaluate_derivative F64 c' t k) dim f ((6 * INR p + 11 * INR x + 5) * / 2 ^ 53 * (M * (2 * INR p / h) ^ k)).
Proof. exact insert_times_derivatives. Qed.
Print Assumptions C148_insert.

(** the reversed curve has the mirrored derivatives, the odd ones with the other sign *)
Theorem C148_reverse : forall p n dim (U : list f64) P M c P' cR h k, float_curve p n dim U P M c -> same_points n dim P P' ->
  clamped_curve p n dim (map val U) P' cR -> (k < p)%nat -> (p <= 100)%nat -> / 2 ^ 1000 <= M ->
  (forall x, 0 < x < 1 -> (mult (map val U) x <= p - k)%nat) -> / 2 ^ 52 <= h ->
  (forall i, (p <= i <= n)%nat -> nth i (map val U) 0 < nth (S i) (map val U) 0 -> h <= nth (S i) (map val U) 0 - nth i (map val U) 0) ->
  M * (2 * INR p / h) ^ k <= 2 ^ 1020 ->
  exists c', @reverse F64 c = Val c' /\
    forall u, finite u -> 0 <= val u <= 1 ->
    exists f, returns (evaluate_derivative cR (1 - val u) k) dim f /\
      returns_within (@evaluate_derivative F64 c' u k) dim (fun d => (-1) ^ k * f d) ((6 * INR p + 4 + 3 * INR p / h) * / 2 ^ 53 * (M * (2 * INR p / h) ^ k)).
Proof. exact reverse_derivatives. Qed.
Print Assumptions C148_reverse.

(** the parts of a split curve have the derivatives of the whole curve, scaled by the
    [k]-th power of the length of the part *)
Theorem C148_split : forall p n dim (U : list f64) P M c P' cR (u : f64) g k, float_curve p n dim U P M c -> same_points n dim P P' ->
  clamped_curve p n dim (map val U) P' cR -> (k < p)%nat -> (p <= 100)%nat -> / 2 ^ 1000 <= M <= 2 ^ 1019 -> finite u -> 0 < val u < 1 ->
  (forall x, 0 < x < 1 -> (mult (map val U) x <= p - k)%nat) -> simple_below (map val U) (val u) ->
  / 2 ^ 49 <= g -> wide g (val u :: map val U) -> M * (4 * INR p / g) ^ k <= 2 ^ 1019 ->
  exists cl cr, @split F64 c u = Val (Ok (cl, cr)) /\
    forall t, finite t -> 0 <= val t <= 1 ->
      (exists f, returns (evaluate_derivative cR (val t * val u) k) dim f /\
        returns_within (@evaluate_derivative F64 cl t k) dim (fun d => val u ^ k * f d) ((17 * INR p + 5 + (24 * INR p + 17) / g) * / 2 ^ 53 * (M * (4 * INR p / g) ^ k))) /\
      (exists f, returns (evaluate_derivative cR (val u + val t * (1 - val u)) k) dim f /\
        returns_within (@evaluate_derivative F64 cr t k) dim (fun d => (1 - val u) ^ k * f d) ((17 * INR p + 5 + (24 * INR p + 17) / g) * / 2 ^ 53 * (M * (4 * INR p / g) ^ k))).
Proof. exact split_derivatives. Qed.
Print Assumptions C148_split.

(** the first derivative of a quadratic curve with the simple knot 1/4: insert 3/4, reverse,
    split at 3/4 *)
Example C148_hypotheses : exists c cR, float_curve 2 3 1 U_f P_f 2 c /\ same_points 3 1 P_f PR_f /\ clamped_curve 2 3 1 (map val U_f) PR_f cR /\
  / 2 ^ 1000 <= 2 <= 2 ^ 1019 /\ finite (q4 3) /\ 0 < val (q4 3) < 1 /\
  (mult (map val U_f) (val (q4 3)) + 2 <= 2 + 1)%nat /\ simple_below (map val U_f) (val (q4 3)) /\
  (forall x, 0 < x < 1 -> (mult (map val U_f) x <= 2 - 1)%nat) /\ / 2 ^ 49 <= 1 / 4 /\ / 2 ^ 52 <= 1 / 4 /\ / 2 ^ 1000 <= 1 / 4 /\
  wide (1 / 4) (val (q4 3) :: map val U_f) /\
  (forall i, (2 <= i <= 3)%nat -> nth i (map val U_f) 0 < nth (S i) (map val U_f) 0 -> 1 / 4 <= nth (S i) (map val U_f) 0 - nth i (map val U_f) 0) /\
  2 * (4 * INR 2 / (1 / 4)) ^ 1 <= 2 ^ 1019 /\ 2 * (2 * INR 2 / (1 / 4)) ^ 1 <= 2 ^ 1019.
Proof.
  destruct curve_f as [c H]. assert (C := proj1 (proj2 (proj1 H))).
  destruct (clamped_curve_ex 2 3 1 (map val U_f) PR_f C (proj1 same_f)) as [cR HR]. exists c, cR.
  split; [exact H|]. split; [exact same_f|]. split; [exact HR|]. rewrite val_U_f, val_q4_3. assert (S := small_1000).
  assert (B : 512 <= 2 ^ 1019).
  { change 1019%nat with (9 + 1010)%nat. rewrite pow_add. assert (1 <= 2 ^ 1010) by (apply pow_R1_Rle; lra). simpl (2 ^ 9). lra. }
  split; [lra|]. split; [reflexivity|]. split; [lra|].
  split. { unfold mult. cbn [count_occ]. repeat (destruct (Req_EM_T _ _); try lra); lia. }
  split. { intros x Hx. unfold mult. cbn [count_occ]. repeat (destruct (Req_EM_T _ _); try lra); lia. }
  split. { intros x Hx. unfold mult. cbn [count_occ]. repeat (destruct (Req_EM_T _ _); try lra); lia. }
  split. { apply Rle_trans with (/ 4); [|lra]. apply Rinv_le_contravar; [lra|]. change 49%nat with (2 + 47)%nat. rewrite pow_add. assert (1 <= 2 ^ 47) by (apply pow_R1_Rle; lra). lra. }
  split. { apply Rle_trans with (/ 4); [|lra]. apply Rinv_le_contravar; [lra|]. change 52%nat with (2 + 50)%nat. rewrite pow_add. assert (1 <= 2 ^ 50) by (apply pow_R1_Rle; lra). lra. }
  split; [lra|].
  split. { intros x y Hx Hy Lt. cbn [In] in Hx, Hy. intuition lra. }
  split. { intros i Hi. destruct i as [|[|[|[|i]]]]; try lia; simpl; lra. }
  simpl (INR 2). split; simpl pow; lra.
Qed.
