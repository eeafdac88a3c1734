(** * A curve in binary64 for the examples *)

From Coq Require Import ZArith Reals List Bool Arith Lia Lra.
From Flocq Require Import Core.Core IEEE754.BinarySingleNaN.
From Verif Require Import Num Vec MKnots MPoints MCurve RNum F64 Lists Hoare Struct Spec Api ApiF Bridge Facts1 Facts11 Samples Float1.
Import ListNotations.
Local Open Scope R_scope.

Definition U_f : list f64 := map q4 [0; 0; 0; 1; 4; 4; 4]%Z.
Definition P_f : Mat F64 := row [0; 4; -6; 3]%Z.

Lemma q4_SF x : SF2R radix2 (B2SF x) = val x.
Proof. apply SF2R_B2SF. Qed.

Lemma val_q4_0 : val (q4 0) = 0. Proof. rewrite <- q4_SF. vm_compute B2SF. reflexivity. Qed.
Lemma val_q4_4 : val (q4 4) = 1. Proof. rewrite <- q4_SF. vm_compute B2SF. unfold SF2R, F2R. cbn -[IZR]. simpl bpow. lra. Qed.
Lemma val_q4_1 : val (q4 1) = 1 / 4. Proof. rewrite <- q4_SF. vm_compute B2SF. unfold SF2R, F2R. cbn -[IZR]. lra. Qed.
Lemma val_q4_m6 : val (q4 (-6)) = -3 / 2. Proof. rewrite <- q4_SF. vm_compute B2SF. unfold SF2R, F2R. cbn -[IZR]. lra. Qed.
Lemma val_q4_3 : val (q4 3) = 3 / 4. Proof. rewrite <- q4_SF. vm_compute B2SF. unfold SF2R, F2R. cbn -[IZR]. lra. Qed.

Lemma val_U_f : map val U_f = [0; 0; 0; 1 / 4; 1; 1; 1].
Proof. unfold U_f. cbn [map]. rewrite val_q4_0, val_q4_1, val_q4_4. reflexivity. Qed.

Lemma small_1000 : / 2 ^ 1000 <= / 4.
Proof. apply Rinv_le_contravar; [lra|]. change 1000%nat with (2 + 998)%nat. rewrite pow_add. assert (1 <= 2 ^ 998) by (apply pow_R1_Rle; lra). simpl (2 ^ 2). lra. Qed.

Lemma U_f_float : float_knots 2 3 U_f.
Proof.
  split; [|rewrite val_U_f; split].
  - intros x Hx. simpl in Hx. repeat destruct Hx as [<-|Hx]; try reflexivity. contradiction.
  - split; try (simpl; lia).
    + apply sorted_steps. intros i Hi. simpl in Hi. cases i.
    + intros i Hi. cases i.
    + intros i H1 H2. simpl in H2. cases i.
    + intros i H1 H2. cases i.
  - assert (S := small_1000). intros i Hi Hne. simpl in Hi.
    destruct i as [|[|[|[|[|[|i]]]]]]; simpl in Hne |- *; try lra; try lia.
Qed.

Lemma P_f_pts i d : (i <= 3)%nat -> (d < 1)%nat -> finite (ent P_f i d) /\ Rabs (val (ent P_f i d)) <= 2.
Proof.
  intros Hi Hd. destruct d; [|lia].
  destruct i as [|[|[|[|i]]]]; [| | | |lia]; (split; [reflexivity|]).
  - change (Rabs (val (q4 0)) <= 2). rewrite val_q4_0, Rabs_R0. lra.
  - change (Rabs (val (q4 4)) <= 2). rewrite val_q4_4, Rabs_R1. lra.
  - change (Rabs (val (q4 (-6))) <= 2). rewrite val_q4_m6. apply Rabs_le. lra.
  - change (Rabs (val (q4 3)) <= 2). rewrite val_q4_3. apply Rabs_le. lra.
Qed.

Lemma curve_f : exists c, float_curve 2 3 1 U_f P_f 2 c.
Proof.
  destruct (okb_ex (build 2 U_f P_f) (fun _ => true)) as [c [E _]]; [vm_compute; reflexivity|].
  assert (Hc := build_built 2 U_f P_f c E). clear E. exists c. split; [exact U_f_float|]. split; [split; [reflexivity|split; [reflexivity|intros i Hi; cases i]]|]. split; [exact P_f_pts|exact Hc].
Qed.

Definition PR_f : Mat RNum := mkMat 1 [[0]; [1]; [-3 / 2]; [3 / 4]].

Lemma same_f : same_points 3 1 P_f PR_f.
Proof.
  split; [split; [reflexivity|split; [reflexivity|intros i Hi; cases i]]|].
  intros i d Hi Hd. destruct d; [|lia].
  destruct i as [|[|[|[|i]]]]; [| | | |lia].
  - change (0 = val (q4 0)). rewrite val_q4_0. reflexivity.
  - change (1 = val (q4 4)). rewrite val_q4_4. reflexivity.
  - change (-3 / 2 = val (q4 (-6))). rewrite val_q4_m6. reflexivity.
  - change (3 / 4 = val (q4 3)). rewrite val_q4_3. reflexivity.
Qed.
