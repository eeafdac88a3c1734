(** * What the merged curve is, in degrees 1 and 2 *)

From Coq Require Import ZArith Reals List Bool Arith Lia Lra.
From Verif Require Import Num Vec MKnots MPoints MCurve MFit MMerge RNum Hoare Lists Struct Spec BMath BMath2 BMath3 BMath4 Api Bridge Facts1 Facts3 Samples Gen3 LinAlg Fit1 Fit3 Fit4 Merge1 Merge2 Merge3 Merge4 Merge5 Merge6 Merge7 Merge8.
Import ListNotations.
Local Open Scope R_scope.

Section Joined.
  Variables (p m o : nat) (V W : nat -> R).
  Hypotheses (CV : fclamped p m V) (CW : fclamped p o W) (Hp : (1 <= p)%nat).

  (** both knot vectors side by side, with [p] copies of 1/2 in between *)
  Definition jk (i : nat) : R := if (i <=? m)%nat then V i / 2 else (1 + W (i - m)%nat) / 2.

  Lemma jk_run i : (m < i <= m + p)%nat -> jk i = 1 / 2.
  Proof. intros Hi. unfold jk. cmp. rewrite (fc_zero _ _ _ CW) by lia. lra. Qed.
  Lemma jk_clamped : fclamped p (m + o) jk.
  Proof.
    assert (DV := fc_deg _ _ _ CV). assert (DW := fc_deg _ _ _ CW). split.
    - lia.
    - intros i j Hij. unfold jk. destruct (Nat.leb_spec i m), (Nat.leb_spec j m); try lia.
      + assert (T := fc_mono _ _ _ CV i j Hij). lra.
      + assert (T := U_range p m V CV i). assert (T' := U_range p o W CW (j - m)). lra.
      + assert (T := fc_mono _ _ _ CW (i - m)%nat (j - m)%nat ltac:(lia)). lra.
    - intros i Hi. unfold jk. cmp. rewrite (fc_zero _ _ _ CV) by lia. lra.
    - intros i Hi. unfold jk. cmp. rewrite (fc_one _ _ _ CW) by lia. lra.
    - intros i Hi. unfold jk. destruct (Nat.leb_spec i m).
      + assert (T := fc_inner _ _ _ CV i ltac:(lia)). lra.
      + assert (T := U_range p o W CW (i - m)). assert (T' := U_lt1 p o W CW (i - m) ltac:(lia)). lra.
  Qed.

  Let Hu : 0 < 1 / 2 < 1.
  Proof. lra. Qed.
  Let Hb : jk m < 1 / 2.
  Proof. unfold jk. cmp. assert (T := U_lt1 p m V CV m ltac:(lia)). lra. Qed.
  Let Hr : 1 / 2 < jk (S (m + p)).
  Proof. unfold jk. cmp. assert (T := U_pos p o W CW (S (m + p) - m) ltac:(lia)). lra. Qed.
  Let Hbn : (p <= m /\ m + p <= m + o)%nat.
  Proof. assert (DV := fc_deg _ _ _ CV). assert (DW := fc_deg _ _ _ CW). lia. Qed.

  Lemma jk_left (P : nat -> R) t : 0 <= t <= 1 -> spline jk (m + o) p P (t / 2) = spline V m p P t.
  Proof.
    intros Ht. replace (t / 2) with (t * (1 / 2)) by lra. symmetry. refine (split_left_spline p (m + o) jk jk_clamped m (1 / 2) Hu Hb jk_run Hr Hbn V _ _ P t Ht).
    - intros i Hi. unfold jk. destruct (Nat.leb_spec i m); [lra|]. rewrite (fc_zero _ _ _ CW) by lia. rewrite (fc_one _ _ _ CV) by lia. lra.
    - intros i Hi. apply (fc_one _ _ _ CV). lia.
  Qed.
  Lemma jk_right (P : nat -> R) t : 0 <= t <= 1 -> spline jk (m + o) p P ((1 + t) / 2) = spline W o p (fun i => P (m + i)%nat) t.
  Proof.
    intros Ht. replace ((1 + t) / 2) with (1 / 2 + t * (1 - 1 / 2)) by lra. symmetry.
    assert (T := split_right_spline p (m + o) jk jk_clamped m (1 / 2) Hu Hb jk_run Hr Hbn W). replace (m + o - m)%nat with o in T by lia. apply T; [| |exact Ht].
    - apply (fc_zero _ _ _ CW). lia.
    - intros i Hi. unfold jk. cmp. replace (m + i - m)%nat with i by lia. lra.
  Qed.
End Joined.

Lemma spline_ext U n p P Q u : (forall i, (i <= n)%nat -> P i = Q i) -> spline U n p P u = spline U n p Q u.
Proof. intros H. unfold spline. apply rsum_ext. intros i Hi. rewrite H by lia. reflexivity. Qed.
Lemma spline_kext U U' n p P u : (forall i, U i = U' i) -> spline U n p P u = spline U' n p P u.
Proof.
  intros H. unfold spline. apply rsum_ext. intros i _. f_equal. apply bspline_ext. exact H.
Qed.

Section Degrees.
  Variables (p m o : nat) (V W : list R) (U : list R).
  Hypotheses (CV : clamped p m V) (CW : clamped p o W) (J : joined_knots p m o V W U) (CU : clamped p (m + o + 1 - p) U).
  Variables (S_ T_ Q : nat -> R).
  Hypothesis (HS : forall i, (i < m)%nat -> (i <= m - p + 1)%nat -> Q i = S_ i).
  Hypothesis (HT : forall j, (p - 1 <= j <= o)%nat -> Q (m + 1 - p + j)%nat = T_ j).
  Hypothesis (HJ : forall k, (k < p)%nat -> dpoints (kfun V) p S_ k (m - k) = dpoints (kfun W) p T_ k 0).
  Let FV := kfun_clamped p m V CV.
  Let FW := kfun_clamped p o W CW.
  Let FU := kfun_clamped p (m + o + 1 - p) U CU.

  (** the points on the finer knots *)
  Definition jp (i : nat) : R := if (i <? m)%nat then S_ i else T_ (i - m)%nat.

  Lemma joint_knot i : (i <= m + 1)%nat -> kfun U i = kfun V i / 2.
  Proof.
    intros Hi. assert (L := cl_len _ _ _ CV). assert (LU := cl_len _ _ _ CU). assert (DW := cl_deg _ _ _ CW). assert (DV := cl_deg _ _ _ CV). rewrite !kfun_nth by lia. apply J. exact Hi.
  Qed.
  Lemma joint_knot' i : (m + 1 <= i)%nat -> kfun U i = (1 + kfun W (i + p - (m + 1))) / 2.
  Proof.
    intros Hi. assert (L := cl_len _ _ _ CW). assert (LU := cl_len _ _ _ CU). assert (DW := cl_deg _ _ _ CW). assert (DV := cl_deg _ _ _ CV).
    destruct (Nat.lt_ge_cases i (m + o + 3)) as [H|H].
    - rewrite !kfun_nth by lia. destruct J as [_ [_ J3]]. rewrite <- J3 by lia. f_equal. lia.
    - rewrite (fc_one _ _ _ FU) by lia. rewrite (fc_one _ _ _ FW) by lia. lra.
  Qed.

  Lemma same_point : (1 <= p)%nat -> S_ m = T_ 0%nat.
  Proof. intros Hp. assert (T := HJ 0%nat ltac:(lia)). cbn [dpoints] in T. rewrite Nat.sub_0_r in T. exact T. Qed.

  Lemma merged_jk t : p = 1%nat \/ p = 2%nat -> 0 <= t <= 1 -> spline (kfun U) (m + o + 1 - p) p Q t = spline (jk m (kfun V) (kfun W)) (m + o) p jp t.
  Proof.
    intros H12 Ht. assert (DV := cl_deg _ _ _ CV). assert (DW := cl_deg _ _ _ CW). assert (JK := joint_knot). assert (JK' := joint_knot'). assert (SP := same_point). destruct H12 as [E|E]; subst p.
    - replace (m + o + 1 - 1)%nat with (m + o)%nat by lia. rewrite (spline_kext (kfun U) (jk m (kfun V) (kfun W))).
      + apply spline_ext. intros i Hi. unfold jp. destruct (Nat.ltb_spec i m) as [H|H]; [apply HS; lia|]. rewrite <- HT by lia. f_equal. lia.
      + intros i. unfold jk. destruct (Nat.leb_spec i m); [apply JK; lia|]. rewrite JK' by lia. do 3 f_equal. lia.
    - replace (m + o + 1 - 2)%nat with (m + o - 1)%nat in * by lia.
      assert (K1 : kfun U (m + 1) = 1 / 2) by (rewrite JK by lia; rewrite (fc_one _ _ _ FV) by lia; lra).
      assert (K2 : kfun U m = kfun V m / 2) by (apply JK; lia).
      assert (K3 : kfun U (m + 2) = (1 + kfun W 3) / 2) by (rewrite JK' by lia; do 3 f_equal; lia).
      assert (KV := U_lt1 2 m (kfun V) FV m ltac:(lia)). assert (KW := U_pos 2 o (kfun W) FW 3 ltac:(lia)).
      rewrite <- (spline_insert 2 (m + o - 1) (kfun U) FU (m + 1) (1 / 2) ltac:(lra) ltac:(lia)) by (try (replace (S (m + 1)) with (m + 2)%nat by lia; rewrite K1, K3; lra); exact Ht).
      replace (S (m + o - 1)) with (m + o)%nat by lia.
      rewrite (spline_kext (ins_knots (kfun U) (m + 1) (1 / 2)) (jk m (kfun V) (kfun W))).
      + apply spline_ext. intros i Hi. unfold ins_coef, jp.
        destruct (Nat.leb_spec (i + 2) (m + 1)) as [H1|H1]; [cmp; rewrite HS by lia; ring|].
        destruct (Nat.ltb_spec (m + 1) i) as [H2|H2].
        * cmp. rewrite <- (HT (i - m)) by lia. replace (m + 1 - 2 + (i - m))%nat with (i - 1)%nat by lia. ring.
        * destruct (Nat.eq_dec i (m + 1)) as [->|Ne].
          -- rewrite K1. replace (1 / 2 - 1 / 2) with 0 by lra. unfold ratio at 1 2. cmp. destruct (Req_EM_T _ 0); rewrite <- (HT (m + 1 - m)) by lia; replace (m + 1 - 2 + (m + 1 - m))%nat with (m + 1 - 1)%nat by lia; unfold Rdiv; ring.
          -- replace i with m by lia. cmp. rewrite K2, K3. rewrite Nat.sub_diag. rewrite ratio_nz by lra.
             assert (Q1 : Q m = T_ 1%nat) by (rewrite <- HT by lia; f_equal; lia). assert (Q0 : Q (m - 1)%nat = S_ (m - 1)%nat) by (apply HS; lia). rewrite Q1, Q0.
             assert (T := HJ 1%nat ltac:(lia)). cbn [dpoints] in T. replace (S (m - 1)) with m in T by lia. rewrite SP in T by lia.
             replace (m - 1 + 2 + 1)%nat with (m + 2)%nat in T by lia. replace (m - 1 + 1)%nat with m in T by lia. cbn [Nat.add] in T.
             rewrite (fc_one _ _ _ FV (m + 2)) in T by lia. rewrite (fc_zero _ _ _ FW 1) in T by lia. rewrite !ratio_nz in T by lra. change (INR (2 - 0)) with (INR 2) in T. simpl INR in T.
             apply (f_equal (fun x => x * ((1 - kfun V m) * kfun W 3))) in T. field_simplify in T; [|lra|lra].
             apply (Rmult_eq_reg_r (1 + kfun W 3 - kfun V m)); [|lra]. field_simplify; [|lra]. lra.
      + intros i. unfold ins_knots, jk. destruct (Nat.leb_spec i m), (Nat.leb_spec i (m + 1)); try lia.
        * apply JK. lia.
        * replace i with (m + 1)%nat by lia. rewrite K1. rewrite (fc_zero _ _ _ FW) by lia. lra.
        * destruct (Nat.eqb_spec i (m + 1 + 1)) as [->|]; [rewrite (fc_zero _ _ _ FW) by lia; lra|]. rewrite JK' by lia. do 3 f_equal. lia.
  Qed.

  Lemma merged_left t : p = 1%nat \/ p = 2%nat -> 0 <= t <= 1 -> spline (kfun U) (m + o + 1 - p) p Q (t / 2) = spline (kfun V) m p S_ t.
  Proof.
    intros H12 Ht. rewrite merged_jk by (try lra; assumption). rewrite (jk_left p m o (kfun V) (kfun W) FV FW ltac:(lia)) by exact Ht.
    apply spline_ext. intros i Hi. unfold jp. destruct (Nat.ltb_spec i m); [reflexivity|]. replace i with m by lia. rewrite Nat.sub_diag. symmetry. apply same_point. lia.
  Qed.
  Lemma merged_right t : p = 1%nat \/ p = 2%nat -> 0 <= t <= 1 -> spline (kfun U) (m + o + 1 - p) p Q ((1 + t) / 2) = spline (kfun W) o p T_ t.
  Proof.
    intros H12 Ht. rewrite merged_jk by (try lra; assumption). rewrite (jk_right p m o (kfun V) (kfun W) FV FW ltac:(lia)) by exact Ht.
    apply spline_ext. intros i Hi. unfold jp. cmp. f_equal. lia.
  Qed.
End Degrees.
