(** * Property C151: rounding errors only add up over a run of edits *)

From Coq Require Import ZArith Reals List Bool Arith Lra Lia.
From Verif Require Import Num Vec MKnots MPoints MCurve RNum F64 Lists Struct Spec Api ApiF ApiF3 ApiC ApiQ Bridge Facts1 Facts11 Samples Float1 Float8 Float35 Float36.
Import ListNotations.
Local Open Scope R_scope.

(** ** C151.  A million insertions, reversals and splits, one after the other, return a curve
    whose values are those of the original curve at the corresponding parameter, up to an
    error that grows in proportion to the number of edits. *)
Theorem C151_edits : forall p n dim (U : list f64) P M c P' cR g es,
  float_curve p n dim U P M c -> same_points n dim P P' -> clamped_curve p n dim (map val U) P' cR ->
  (1 <= p <= 100)%nat -> / 2 ^ 1000 <= M <= 2 ^ 1018 -> / 2 ^ 49 <= g -> careful p g c es -> INR (length es) <= 2 ^ 20 ->
  exists c', edited c es = Val c' /\
    forall t, finite t -> 0 <= val t <= 1 ->
    exists f, returns (evaluate cR (original es (val t))) dim f /\
      returns_within (@evaluate F64 c' t) dim f ((6 * INR p + 4 + INR (length es) * (12 * INR p + 28 * INR p / g)) * / 2 ^ 53 * M).
Proof. exact edits_accurate. Qed.
Print Assumptions C151_edits.

(** the quadratic on the knots 0 0 0 1/4 1 1 1: insert 1/2, reverse, keep the left half, insert
    1/4 twice, keep what is right of it *)
Example C151_edits_hypotheses : exists c cR, float_curve 2 3 1 U_f P_f 2 c /\ same_points 3 1 P_f PR_f /\ clamped_curve 2 3 1 (map val U_f) PR_f cR /\
  (1 <= 2 <= 100)%nat /\ / 2 ^ 1000 <= 2 <= 2 ^ 1018 /\ / 2 ^ 49 <= 1 / 4 /\ careful 2 (1 / 4) c run_f /\ INR (length run_f) <= 2 ^ 20.
Proof.
  destruct run_f_careful as [c [H Ca]]. destruct (clamped_curve_ex 2 3 1 (map val U_f) PR_f) as [cR HR]; [apply H|apply same_f|]. exists c, cR.
  split; [exact H|]. split; [exact same_f|]. split; [exact HR|]. split; [lia|]. split; [|split; [simpl; lra|split; [exact Ca|]]].
  - split; [apply Rle_trans with (/ 1); [|lra]; apply Rinv_le_contravar; [lra|]; apply pow_R1_Rle; lra|]. change 1018%nat with (1 + 1017)%nat. rewrite pow_add. assert (1 <= 2 ^ 1017) by (apply pow_R1_Rle; lra). simpl (2 ^ 1). lra.
  - unfold run_f. cbn [length INR]. replace (2 ^ 20) with 1048576 by (cbn [pow]; lra). lra.
Qed.

(** where the parameter 1/2 of the result lies on the original curve *)
Example C151_original : original run_f (1 / 2) = 1 - (1 / 4 + 1 / 2 * (1 - 1 / 4)) * (1 / 2).
Proof. unfold run_f. cbn [original comes_from]. rewrite val_q4_1, val_q4_2. reflexivity. Qed.
