(** * Concrete curves used to show that the hypotheses of the theorems can be met *)

From Coq Require Import ZArith Reals List Bool Arith Lia Lra.
From Verif Require Import Num Vec MKnots MPoints MCurve RNum Lists Struct Spec Api Bridge.
Import ListNotations.
Local Open Scope R_scope.

Lemma sorted_steps (U : list R) : (forall i, (S i < length U)%nat -> nth i U 0 <= nth (S i) U 0) -> sorted U.
Proof.
  intros H i j Hij. induction Hij as [|j Hij IH]; intros Hj; [lra|].
  assert (T := H j Hj). specialize (IH ltac:(lia)). lra.
Qed.

Ltac cases i := do 12 (destruct i as [|i]; [simpl; try lia; try lra|]); simpl; try lia.

(** a quadratic curve in the plane with one internal knot *)
Definition U_a : list R := [0; 0; 0; 1/2; 1; 1; 1].
Definition P_a : Mat RNum := mkMat 2 [[0; 0]; [1; 2]; [3; 2]; [4; -1]].

Lemma U_a_clamped : clamped 2 3 U_a.
Proof.
  split; unfold U_a.
  - lia.
  - reflexivity.
  - apply sorted_steps. intros i Hi. simpl length in Hi. cases i.
  - intros i Hi. cases i.
  - intros i Hi Hj. simpl length in Hj. cases i.
  - intros i Hi Hj. cases i.
Qed.
Lemma P_a_shape : shape 2 4 P_a.
Proof. split; [reflexivity|]. split; [reflexivity|]. intros i Hi. cases i. Qed.

(** a cubic curve on the line with a double internal knot *)
Definition U_b : list R := [0; 0; 0; 0; 1/4; 1/4; 3/4; 1; 1; 1; 1].
Definition P_b : Mat RNum := mkMat 1 [[0]; [1]; [-1]; [2]; [5]; [3]; [4]].

Lemma U_b_clamped : clamped 3 6 U_b.
Proof.
  split; unfold U_b.
  - lia.
  - reflexivity.
  - apply sorted_steps. intros i Hi. simpl length in Hi. cases i.
  - intros i Hi. cases i.
  - intros i Hi Hj. simpl length in Hj. cases i.
  - intros i Hi Hj. cases i.
Qed.
Lemma P_b_shape : shape 1 7 P_b.
Proof. split; [reflexivity|]. split; [reflexivity|]. intros i Hi. cases i. Qed.

Lemma clamped_curve_ex p n dim U P : clamped p n U -> shape dim (S n) P -> exists c, clamped_curve p n dim U P c.
Proof.
  intros C S. destruct (built_ex p n dim U P) as [c Hc]; try apply C; try assumption.
  exists c. split; [exact C|]. split; [exact S|exact Hc].
Qed.

Lemma curve_a : exists c, clamped_curve 2 3 2 U_a P_a c.
Proof. apply clamped_curve_ex; [apply U_a_clamped|apply P_a_shape]. Qed.
Lemma curve_b : exists c, clamped_curve 3 6 1 U_b P_b c.
Proof. apply clamped_curve_ex; [apply U_b_clamped|apply P_b_shape]. Qed.

Lemma mult_a : mult U_a (1/2) = 1%nat.
Proof. unfold mult, U_a. simpl. repeat destruct Req_EM_T; try lra; reflexivity. Qed.
Lemma mult_b : mult U_b (1/4) = 2%nat.
Proof. unfold mult, U_b. simpl. repeat destruct Req_EM_T; try lra; reflexivity. Qed.


Lemma simple_a (u : R) : u <= 1 -> simple_below U_a u.
Proof. intros H x Hx. unfold mult, U_a. cbn [count_occ]. repeat destruct Req_EM_T; try lra; lia. Qed.
Lemma simple_b (u : R) : u <= 1/4 -> simple_below U_b u.
Proof. intros H x Hx. unfold mult, U_b. cbn [count_occ]. repeat destruct Req_EM_T; try lra; lia. Qed.
Lemma mult_b_le (x : R) : 0 < x < 1 -> (mult U_b x <= 3)%nat.
Proof. intros Hx. unfold mult, U_b. cbn [count_occ]. repeat destruct Req_EM_T; try lra; lia. Qed.
Lemma mult_a_4 : mult U_a (1/4) = 0%nat.
Proof. unfold mult, U_a. cbn [count_occ]. repeat destruct Req_EM_T; try lra; reflexivity. Qed.
