(** * Splitting in binary64 *)

From Coq Require Import ZArith Reals List Bool Arith Lia Lra.
From Flocq Require Import IEEE754.BinarySingleNaN.
From Verif Require Import Num Vec MKnots MPoints MCurve RNum F64 Lists Spec Api ApiF ApiF3 Bridge Facts11 Samples Float8 Float17 Float21.
Import ListNotations.
Local Open Scope R_scope.

(** ** C117.  Both parts of a curve split in binary64 run along the exact curve: the left part at
    [t] lies near the exact curve at [t * u], the right part near the exact curve at [u + t * (1 - u)].
    Different knots, and [u] if it is not a knot, are at least [g] apart. *)
Theorem C117_split_accuracy : forall p n dim (U : list f64) P M c P' cR (u : f64) g, float_curve p n dim U P M c -> same_points n dim P P' ->
  clamped_curve p n dim (map val U) P' cR -> (1 <= p <= 100)%nat -> / 2 ^ 1000 <= M <= 2 ^ 1019 -> finite u -> 0 < val u < 1 ->
  (forall x, 0 < x < 1 -> (mult (map val U) x <= p)%nat) -> simple_below (map val U) (val u) ->
  / 2 ^ 49 <= g -> wide g (val u :: map val U) ->
  exists cl cr, @split F64 c u = Val (Ok (cl, cr)) /\
    forall t, finite t -> 0 <= val t <= 1 ->
      (exists f, returns (evaluate cR (val t * val u)) dim f /\
         returns_within (@evaluate F64 cl t) dim f ((18 * INR p + 4 + 27 * INR p / g) * / 2 ^ 53 * M)) /\
      (exists f, returns (evaluate cR (val u + val t * (1 - val u))) dim f /\
         returns_within (@evaluate F64 cr t) dim f ((18 * INR p + 4 + 27 * INR p / g) * / 2 ^ 53 * M)).
Proof. exact split_accuracy. Qed.
Print Assumptions C117_split_accuracy.

(** split at 3/4 between the knots 1/4 and 1 *)
Example C117_hypotheses : exists c cR, float_curve 2 3 1 U_f P_f 2 c /\ same_points 3 1 P_f PR_f /\ clamped_curve 2 3 1 (map val U_f) PR_f cR /\
  (1 <= 2 <= 100)%nat /\ / 2 ^ 1000 <= 2 <= 2 ^ 1019 /\ finite (q4 3) /\ 0 < val (q4 3) < 1 /\
  (forall x, 0 < x < 1 -> (mult (map val U_f) x <= 2)%nat) /\ simple_below (map val U_f) (val (q4 3)) /\
  / 2 ^ 49 <= 1 / 4 /\ wide (1 / 4) (val (q4 3) :: map val U_f).
Proof.
  destruct curve_f as [c H]. assert (C := proj1 (proj2 (proj1 H))).
  destruct (clamped_curve_ex 2 3 1 (map val U_f) PR_f C (proj1 same_f)) as [cR HR]. exists c, cR.
  split; [exact H|]. split; [exact same_f|]. split; [exact HR|]. split; [lia|]. rewrite val_U_f, val_q4_3. split.
  { assert (1 <= 2 ^ 999) by (apply pow_R1_Rle; lra). assert (1 <= 2 ^ 1018) by (apply pow_R1_Rle; lra). split.
    - apply Rle_trans with (/ 1); [|lra]. apply Rinv_le_contravar; [lra|]. apply pow_R1_Rle. lra.
    - change 1019%nat with (S 1018). cbn [pow]. lra. }
  split; [reflexivity|]. split; [lra|].
  split. { intros x Hx. unfold mult. cbn [count_occ]. repeat (destruct (Req_EM_T _ _); try lra); lia. }
  split. { intros x Hx. unfold mult. cbn [count_occ]. repeat (destruct (Req_EM_T _ _); try lra); lia. }
  split. { apply Rle_trans with (/ 4); [|lra]. apply Rinv_le_contravar; [lra|]. change 49%nat with (2 + 47)%nat. rewrite pow_add. assert (1 <= 2 ^ 47) by (apply pow_R1_Rle; lra). lra. }
  intros x y Hx Hy Lt. cbn [In] in Hx, Hy. intuition lra.
Qed.
