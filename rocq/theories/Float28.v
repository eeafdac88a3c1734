(** * At a knot of multiplicity [p] the binary64 curve passes exactly through a control point *)

From Coq Require Import ZArith Reals List Bool Arith Lia Lra Psatz.
From Flocq Require Import Core.Core IEEE754.BinarySingleNaN.
From Verif Require Import Num Vec MKnots MPoints MCurve F64 RNum Lists Hoare Struct Divisions Spec BMath BMath2 BMath3 Api Bridge Facts1 ApiF Float1 Float2 Float3 Float4 Float5.
Import ListNotations.
Local Open Scope R_scope.

Section Run.
  Variables (v : list f64) (n k : nat) (u : f64).
  Let V : list R := map val v.
  Hypothesis Hfin : forall x, In x v -> fin x = true.
  Hypothesis Hmono : mono (kfun V).
  Hypothesis Hrange : forall x, In x V -> 0 <= x <= 1.
  Hypothesis Hgap : forall i, (i + 1 < length v)%nat -> nth i V 0 <> nth (i + 1) V 0 -> pow2 (-1000) <= nth (i + 1) V 0 - nth i V 0.
  Hypothesis Hu : fin u = true.
  Hypothesis Hkn : (k <= n)%nat.
  Hypothesis Hlen : (n + 1 - k < length v)%nat.

  Ltac sel X s E := match goal with |- context [bind (if ?b then ?x else ?y) _] => replace (if b then x else y) with (@Val (T F64) s) by (symmetry; exact E) end; cbn [bind].

  (** the knots [j - r + 1 .. j] are [u], the next one is larger *)
  Lemma basis_run j r : 0 <= val u <= 1 -> (j <= n - k)%nat -> kfun V j <= val u -> (forall i, (j - r < i <= j)%nat -> kfun V i = val u) -> val u < kfun V (S j) ->
    forall q i, (q <= j)%nat -> (q <= r)%nat -> (i + q + 1 < length v)%nat -> (j + 1 < length v)%nat ->
    exists b, @basis F64 v q i k n u = Val b /\ fin b = true /\ val b = delta (j - q) i.
  Proof.
    intros E1 Hj Hj0 Hzero Hlt.
    assert (Hs : in_span (kfun V) (n - k) (val u) j).
    { unfold in_span. split; [lra|]. split; [lra|]. left. lra. }
    assert (Hd : forall i, span_ind (kfun V) (n - k) (val u) i = delta j i).
    { intros i. unfold span_ind, delta.
      destruct (lt_eq_lt_dec i j) as [[Hi|Hi]|Hi].
      - assert (kfun V (S i) <= kfun V j) by (apply Hmono; lia).
        replace (i =? n - k)%nat with false by (symmetry; apply Nat.eqb_neq; lia).
        replace (i =? j)%nat with false by (symmetry; apply Nat.eqb_neq; lia).
        destruct (Rle_dec _ _); [|reflexivity]. destruct (Rlt_dec _ _); [lra|reflexivity].
      - subst i. rewrite Nat.eqb_refl. destruct (Rle_dec _ _); [|lra].
        destruct (Rlt_dec _ _); [reflexivity|lra].
      - replace (i =? j)%nat with false by (symmetry; apply Nat.eqb_neq; lia).
        assert (kfun V (S j) <= kfun V i) by (apply Hmono; lia).
        destruct (Rle_dec _ _); [lra|reflexivity]. }
    assert (Z0 := n0_ok).
    induction q as [|h IH]; intros i Hq Hr Hl Hjl.
    - rewrite Nat.sub_0_r. apply (base_exact v n k u Hfin Hmono Hrange Hgap Hu Hkn Hlen); try assumption; lia.
    - destruct (IH i ltac:(lia) ltac:(lia) ltac:(lia) Hjl) as [r1 [B1 [F1 V1]]].
      destruct (IH (i + 1)%nat ltac:(lia) ltac:(lia) ltac:(lia) Hjl) as [r2 [B2 [F2 V2]]].
      cbn [basis]. replace (i + h + 1)%nat with (i + S h)%nat by lia. replace (i + 1 + h + 1)%nat with (i + 1 + S h)%nat by lia.
      rewrite !(vg v) by lia. cbn [bind ndiv F64 neqb nsub nmul nadd]. rewrite B1, B2. cbn [bind].
      rewrite !eqb_val by (apply (v_fin v Hfin); lia).
      assert (S1 : exists s, (if Req_bool (val (nth (i + S h) v (@n0 F64))) (val (nth i v (@n0 F64))) then Val (@n0 F64)
          else Val (Bmult mode_NE (Bdiv mode_NE (Bminus mode_NE u (nth i v (@n0 F64)))
                 (Bminus mode_NE (nth (i + S h) v (@n0 F64)) (nth i v (@n0 F64)))) r1)) = Val s /\ fin s = true /\ val s = 0).
      { assert (Fi := v_fin v Hfin i ltac:(lia)). assert (Ri := v_range v Hrange i ltac:(lia)).
        assert (Fh := v_fin v Hfin (i + S h) ltac:(lia)). assert (Rh := v_range v Hrange (i + S h) ltac:(lia)).
        destruct (Req_bool_spec (val (nth (i + S h) v (@n0 F64))) (val (nth i v (@n0 F64)))) as [Q|Q];
          [eexists; split; [reflexivity|]; exact Z0|].
        eexists. split; [reflexivity|].
        destruct (Nat.eq_dec i (j - h)) as [Ei|Ei].
        - assert (X1 : val (nth i v (@n0 F64)) = val u) by (rewrite <- (V_kfun v) by lia; apply Hzero; lia).
          destruct (sub_exact u (nth i v (@n0 F64)) (@n0 F64) Hu Fi ltac:(rewrite (proj2 Z0); lra)) as [K1 K2]. rewrite (proj2 Z0) in K2.
          destruct (sub_nz (nth (i + S h) v (@n0 F64)) (nth i v (@n0 F64)) Fh Fi Rh Ri Q) as [G1 [G2 G3]].
          destruct (div_0 _ _ K1 K2 G3) as [D1 D2]. apply mul_0_l; assumption.
        - rewrite delta_ne in V1 by exact Ei. apply mul_0_r; try assumption.
          apply (weight_fin v n k Hfin Hmono Hrange Hgap Hkn Hlen i (i + S h)); try assumption; try lia; try lra; congruence. }
      destruct S1 as [s1 [Es1 [Fs1 Vs1]]].
      assert (S2 : exists s, (if Req_bool (val (nth (i + 1 + S h) v (@n0 F64))) (val (nth (i + 1) v (@n0 F64))) then Val (@n0 F64)
          else Val (Bmult mode_NE (Bdiv mode_NE (Bminus mode_NE (nth (i + 1 + S h) v (@n0 F64)) u)
                 (Bminus mode_NE (nth (i + 1 + S h) v (@n0 F64)) (nth (i + 1) v (@n0 F64)))) r2)) = Val s /\ fin s = true /\ val s = delta (j - S h) i).
      { assert (Fi := v_fin v Hfin (i + 1) ltac:(lia)). assert (Ri := v_range v Hrange (i + 1) ltac:(lia)).
        assert (Fh := v_fin v Hfin (i + 1 + S h) ltac:(lia)). assert (Rh := v_range v Hrange (i + 1 + S h) ltac:(lia)).
        destruct (Nat.eq_dec i (j - S h)) as [Ei|Ei].
        - assert (X0 : val (nth (i + 1) v (@n0 F64)) = val u) by (rewrite <- (V_kfun v) by lia; apply Hzero; lia).
          assert (X1 : val u < val (nth (i + 1 + S h) v (@n0 F64))).
          { rewrite <- (V_kfun v) by lia. replace (i + 1 + S h)%nat with (S j) by lia. exact Hlt. }
          destruct (Req_bool_spec (val (nth (i + 1 + S h) v (@n0 F64))) (val (nth (i + 1) v (@n0 F64)))) as [Q|Q]; [lra|].
          destruct (sub_nz (nth (i + 1 + S h) v (@n0 F64)) (nth (i + 1) v (@n0 F64)) Fh Fi Rh Ri Q) as [G1 [G2 G3]].
          destruct (sub_nz (nth (i + 1 + S h) v (@n0 F64)) u Fh Hu Rh ltac:(lra) ltac:(lra)) as [K1 [K2 K3]].
          assert (KE : val (Bminus mode_NE (nth (i + 1 + S h) v (@n0 F64)) u) = val (Bminus mode_NE (nth (i + 1 + S h) v (@n0 F64)) (nth (i + 1) v (@n0 F64)))).
          { rewrite G2, K2, X0. reflexivity. }
          destruct (div_self _ _ K1 KE G3) as [D1 D2].
          replace (i + 1)%nat with (j - h)%nat in V2 by lia. rewrite delta_eq in V2.
          replace (delta (j - S h) i) with 1 by (rewrite Ei, delta_eq; reflexivity).
          eexists. split; [reflexivity|]. apply mul_1_1; assumption.
        - rewrite delta_ne in V2 by lia. rewrite delta_ne by exact Ei.
          destruct (Req_bool_spec (val (nth (i + 1 + S h) v (@n0 F64))) (val (nth (i + 1) v (@n0 F64)))) as [Q|Q].
          + eexists. split; [reflexivity|]. exact Z0.
          + eexists. split; [reflexivity|]. apply mul_0_r; try assumption.
            apply (weight_fin v n k Hfin Hmono Hrange Hgap Hkn Hlen (i + 1) (i + 1 + S h)); try assumption; try lia; try lra; congruence. }
      destruct S2 as [s2 [Es2 [Fs2 Vs2]]].
      sel x s1 Es1. sel x s2 Es2.
      eexists. split; [reflexivity|]. rewrite <- Vs2. apply add_exact; try assumption. rewrite Vs1. ring.
  Qed.
End Run.

Theorem knot_point_F64 p n dim (U : list f64) P M c (u : f64) b : float_curve p n dim U P M c -> finite u -> (b + p <= n)%nat ->
  nth (b + p) (map val U) 0 <= val u < nth (b + p + 1) (map val U) 0 -> (forall i, (b < i <= b + p)%nat -> nth i (map val U) 0 = val u) ->
  returns_within (@evaluate F64 c u) dim (fun d => val (ent P b d)) 0.
Proof.
  intros FCu Fu Hb Hs0 Hrun. assert (W := float_wf _ _ _ _ _ _ _ FCu). destruct FCu as [K [HS [B Bu]]].
  destruct (float_kderiv p n U 0 K ltac:(lia)) as [Lv [Fv [Cv Sv]]]. assert (HP := wf_head _ _ _ _ _ _ W).
  rewrite !Nat.sub_0_r in *. assert (FC := kfun_clamped _ _ _ Cv). assert (Hpn := wf_deg _ _ _ _ _ _ W).
  assert (K0 : @kderiv f64 0 U = U) by apply kderiv_0. rewrite K0 in *. assert (LU := cl_len _ _ _ Cv).
  assert (Hu : 0 <= val u <= 1).
  { assert (A := clamped_range _ _ _ (nth (b + p) (map val U) 0) Cv ltac:(apply nth_In; rewrite LU; lia)).
    assert (A' := clamped_range _ _ _ (nth (b + p + 1) (map val U) 0) Cv ltac:(apply nth_In; rewrite LU; lia)). lra. }
  assert (Hk : forall i, (i < n + p + 2)%nat -> kfun (map val U) i = nth i (map val U) 0) by (intros i Hi; apply kfun_nth; rewrite LU; exact Hi).
  assert (Hs : in_span (kfun (map val U)) n (val u) (b + p)).
  { unfold in_span. rewrite !Hk by lia. replace (S (b + p)) with (b + p + 1)%nat by lia. split; [lra|]. split; [lra|]. left. lra. }
  destruct (eval_unfold p n dim U P c 0 u (b + p) W K ltac:(lia) Fu Hu ltac:(lia)) as [lo [Hlo HE]].
  { rewrite K0, Nat.sub_0_r. exact Hs. }
  rewrite HP, K0 in HE. rewrite !Nat.sub_0_r in *.
  destruct (sum_exact U n 0 p dim u P lo b) as [r [Er [Lr Hr]]].
  - lia.
  - exact HS.
  - intros i d Hi Hd. apply B; [lia|exact Hd].
  - intros i Hi. rewrite Nat.sub_0_r in Hi.
    destruct (basis_run U n 0 u Fv (fc_mono _ _ _ FC) (fun x => clamped_range _ _ _ x Cv) (separated_gap _ Sv) Fu ltac:(lia) ltac:(lia) (b + p) p Hu ltac:(lia)) with (q := p) (i := i) as [w Hw]; try lia.
    + rewrite Hk by lia. lra.
    + intros t Ht. rewrite Hk by lia. apply Hrun. lia.
    + rewrite Hk by lia. replace (S (b + p)) with (b + p + 1)%nat by lia. lra.
    + replace (b + p - p)%nat with b in Hw by lia. exists w. exact Hw.
  - lia.
  - exists r. split; [|split; [exact Lr|]].
    + apply HE. rewrite <- Er, Nat.sub_0_r. reflexivity.
    + intros d Hd. destruct (Hr d Hd) as [F V]. split; [exact F|]. rewrite Rminus_diag_eq by exact V. rewrite Rabs_R0. lra.
Qed.

(** degree one: the polygon passes exactly through all its corners *)
Theorem polygon_F64 n dim (U : list f64) P M c : float_curve 1 n dim U P M c ->
  (forall i, (1 <= i <= n)%nat -> nth i (map val U) 0 < nth (i + 1) (map val U) 0) ->
  forall i, (i <= n)%nat -> returns_within (@evaluate F64 c (nth (i + 1) U (@n0 F64))) dim (fun d => val (ent P i d)) 0.
Proof.
  intros H Hs i Hi. assert (K := proj1 H). assert (C := proj1 (proj2 K)). assert (LU := cl_len _ _ _ C).
  assert (L : length U = (n + 1 + 2)%nat) by (rewrite <- LU, map_length; reflexivity).
  assert (N : forall j, (j < n + 1 + 2)%nat -> nth j (map val U) 0 = val (nth j U (@n0 F64))).
  { intros j Hj. rewrite (nth_indep _ 0 (val (@n0 F64))) by (rewrite LU; exact Hj). apply map_nth. }
  assert (F : finite (nth (i + 1) U (@n0 F64))) by (apply (proj1 K); apply nth_In; rewrite L; lia).
  destruct (Nat.eq_dec i n) as [->|Hn].
  - apply (proj2 (ends_F64 1 n dim U P M c _ H F)). rewrite <- N by lia. apply (cl_one _ _ _ C); rewrite ?LU; lia.
  - apply (knot_point_F64 1 n dim U P M c _ i H F); [lia| |].
    + rewrite <- N by lia. split; [lra|]. apply Hs. lia.
    + intros j Hj. replace j with (i + 1)%nat by lia. apply N. lia.
Qed.
