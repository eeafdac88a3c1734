(** * General forms of two departures in binary64: reversal and infinite points *)

From Coq Require Import ZArith Reals List Bool Arith Lia Lra Psatz.
From Flocq Require Import Core.Core IEEE754.BinarySingleNaN.
From Verif Require Import Num Vec MKnots MPoints MCurve F64 RNum Lists Hoare Struct Divisions Spec BMath BMath2 BMath3 Api Bridge Facts1 Facts5 ApiF ApiF2 Float1 Float2 Float3 Float4 Float5 Float7 Float13 Float15.
Import ListNotations.
Local Open Scope R_scope.

(** ** reversing twice *)
Lemma reverse_back p n dim (U : list f64) P c : float_knots p n U -> shape dim (S n) P -> @built F64 p U P c ->
  exists c1 c2 V, @reverse F64 c = Val c1 /\ @reverse F64 c1 = Val c2 /\ vector (cknots c2) = Val V /\
    forall i, (i < n + p + 2)%nat -> (val (nth i V (@n0 F64)) = val (nth i U (@n0 F64)) <-> exists m, val (nth i U (@n0 F64)) = IZR m / 2 ^ 53).
Proof.
  intros FK SP B. assert (FU := float_unit p n U FK). assert (C := proj1 (proj2 FK)). assert (LU := cl_len _ _ _ C).
  assert (L : length U = (n + p + 2)%nat) by (rewrite <- LU, map_length; reflexivity).
  assert (W : @wf F64 p n dim U P c) by (apply (sized_wf False gdiv_F64); [split; [exact (cl_deg _ _ _ C)|split; [exact L|exact SP]]|exact B]).
  destruct (reverse_struct p n dim U P c W) as [c1 [E1 [W1 K1]]].
  destruct (reverse_struct p n dim _ _ c1 W1) as [c2 [E2 [W2 K2]]].
  assert (V2 : @vrevK F64 (@vrevK F64 U) = map (fun x => frev (frev x)) U).
  { rewrite !vrevK_frev. rewrite <- map_rev, rev_involutive, map_map. reflexivity. }
  exists c1, c2, (@vrevK F64 (@vrevK F64 U)). split; [exact E1|]. split; [exact E2|].
  split; [rewrite (wf_knots _ _ _ _ _ _ W2); apply (@knots_of_vector F64)|].
  rewrite V2. change (T F64) with f64. intros i Hi.
  rewrite (nth_indep _ (@n0 F64) (frev (frev (@n0 F64)))) by (rewrite map_length, L; exact Hi). rewrite (map_nth (fun x => frev (frev x))).
  set (x := nth i U (@n0 F64)). destruct (FU x ltac:(apply nth_In; rewrite L; exact Hi)) as [F R].
  destruct (frev_ok x F R) as [F1 _]. assert (G1 := frev_grid x F R).
  change (nth i U (@n0 F64)) with x. rewrite (frev_exact _ F1 G1). split.
  - intros E. destruct G1 as [m [_ Em]]. exists (2 ^ 53 - m)%Z. rewrite <- E, Em, minus_IZR.
    assert (E53 := eps_53). assert (Ee := eps_pow). unfold Rdiv. rewrite Ee. nra.
  - intros [m Em]. assert (GX : grid (val x)).
    { assert (EM : val x = IZR m * eps) by (rewrite Em, <- eps_pow; reflexivity). exists m. split; [|exact EM]. rewrite EM in R.
      assert (Ep := eps_pos). assert (E := eps_53). split; apply le_IZR; nra. }
    rewrite (frev_exact _ F GX). ring.
Qed.

(** ** an infinite or NaN control point behind the span *)
Lemma nan_plus_l (x y : f64) : is_nan x = true -> is_nan (Bplus mode_NE x y) = true.
Proof. destruct x; try discriminate. reflexivity. Qed.
Lemma nan_plus_r (x y : f64) : is_nan y = true -> is_nan (Bplus mode_NE x y) = true.
Proof. destruct y; try discriminate. destruct x as [|[|]| |]; reflexivity. Qed.
Lemma zero_times (x y : f64) : fin x = true -> val x = 0 -> fin y = false -> is_nan (Bmult mode_NE x y) = true.
Proof. intros F V Y. destruct (zero_form x F V) as [s ->]. destruct y; try discriminate; reflexivity. Qed.

Lemma spoiled p n dim (U : list f64) P c (u : f64) j i d : float_knots p n U -> shape dim (S n) P ->
  @built F64 p U P c -> (p <= 100)%nat -> finite u -> (p <= j <= n)%nat ->
  nth j (map val U) 0 <= val u < nth (S j) (map val U) 0 ->
  (j < i <= n)%nat -> (d < dim)%nat -> is_finite (ent P i d) = false ->
  exists v, @evaluate F64 c u = Val (Ok v) /\ length v = dim /\ is_nan (nth d v (@n0 F64)) = true.
Proof.
  intros FK SP B Hp Fu Hj Hs Hi Hd Hinf. assert (C := proj1 (proj2 FK)). assert (LU0 := cl_len _ _ _ C).
  assert (L : length U = (n + p + 2)%nat) by (rewrite <- LU0, map_length; reflexivity).
  assert (W : @wf F64 p n dim U P c) by (apply (sized_wf False gdiv_F64); [split; [exact (cl_deg _ _ _ C)|split; [exact L|exact SP]]|exact B]).
  assert (Hs' : in_span (kfun (map val U)) n (val u) j).
  { unfold in_span. rewrite !kfun_nth by (rewrite LU0; lia). split; [lra|]. split; [lra|]. left. lra. }
  assert (Hu : 0 <= val u <= 1).
  { assert (A := clamped_range _ _ _ (nth j (map val U) 0) C ltac:(apply nth_In; rewrite LU0; lia)).
    assert (A' := clamped_range _ _ _ (nth (S j) (map val U) 0) C ltac:(apply nth_In; rewrite LU0; lia)). lra. }
  assert (K0 : @kderiv f64 0 U = U) by apply kderiv_0.
  destruct (eval_unfold p n dim U P c 0 u j W FK ltac:(lia) Fu Hu) as [lo [Hlo HE]].
  { lia. } { rewrite K0, Nat.sub_0_r. exact Hs'. }
  rewrite K0, !Nat.sub_0_r in HE. rewrite Nat.sub_0_r in Hlo. rewrite (wf_head _ _ _ _ _ _ W) in HE.
  destruct FK as [Fv [Cv Sv]]. assert (FC := kfun_clamped _ _ _ Cv).
  assert (BB : forall i, (i <= n)%nat -> exists b, @basis F64 U p i 0 n u = Val b /\ fin b = true /\ ((i < j - p \/ j < i)%nat -> val b = 0)).
  { intros i' Hi'. destruct (basis_near U n 0 j u) with (q := p) (i := i') as [b [Eb [Fb [_ Zb]]]]; try assumption; try lia.
    - apply (fc_mono _ _ _ FC).
    - intros x Hx. apply (clamped_range _ _ _ x Cv Hx).
    - apply separated_gap. exact Sv.
    - rewrite Nat.sub_0_r. exact Hs'.
    - intros i''. rewrite Nat.sub_0_r. apply (span_delta _ _ _ FC); [lia|exact Hs'].
    - exists b. split; [exact Eb|]. split; [exact Fb|]. intros H. apply Zb. lia. }
  set (body := fun value i => b <- @basis F64 U p i 0 n u;; x <- @mcol F64 P i;; @vadd F64 value (@vscale F64 b x)).
  assert (HB : forall v i, (lo <= i <= n)%nat -> length v = dim -> exists w, body v i = Val w /\ length w = dim /\
       forall d, (d < dim)%nat -> nth d w (@n0 F64) = Bplus mode_NE (nth d v (@n0 F64)) (Bmult mode_NE (bval U p n u i) (ent P i d))).
  { intros v i' Hi' Lv. destruct (BB i' ltac:(lia)) as [b [Eb [Fb Zb]]]. unfold body. rewrite Eb. cbn [bind]. rewrite (mcol_val _ _ _ i' SP) by lia. cbn [bind].
    destruct (@vadd_val F64 v (@vscale F64 b (nth i' (mcols P) []))) as [w [E [Lw Hw]]].
    { rewrite vscale_length. destruct SP as [_ [_ SP]]. rewrite SP by lia. exact Lv. }
    exists w. split; [exact E|]. split; [etransitivity; [exact Lw|exact Lv]|]. intros d' Hd'.
    assert (H' := Hw d' (@n0 F64) ltac:(change (T F64) with f64 in *; lia)). change (T F64) with f64 in *. change (binary_float 53 1024) with f64 in *. rewrite H'.
    assert (N := @nth_vscale F64 b (nth i' (mcols P) []) d' (@n0 F64) ltac:(destruct SP as [_ [_ SP]]; rewrite SP by lia; exact Hd')).
    change (T F64) with f64 in *. rewrite N. unfold bval. rewrite Eb. reflexivity. }
  assert (T : ok False (foldM body (rangei lo n) (@vzeros F64 dim)) (fun r => length r = dim /\ is_nan (nth d r (@n0 F64)) = true)).
  { unfold rangei.
    assert (T : ok False (foldM body (seq lo (n + 1 - lo)) (@vzeros F64 dim))
      (fun r => length r = dim /\ ((i < lo + (n + 1 - lo))%nat -> is_nan (nth d r (@n0 F64)) = true))).
    { apply (ok_foldM_seq False _ (fun k r => length r = dim /\ ((i < k)%nat -> is_nan (nth d r (@n0 F64)) = true))).
      - split; [apply vzeros_length|]. intros; lia.
      - intros k v Hk [Lv Hv]. destruct (HB v k ltac:(lia) Lv) as [w [E [Lw Hw]]]. rewrite E. cbn [ok]. split; [exact Lw|].
        intros Hik. change (T F64) with f64 in *. rewrite Hw by exact Hd.
        destruct (Nat.eq_dec k i) as [->|Hne].
        + apply nan_plus_r. destruct (BB i ltac:(lia)) as [b [Eb [Fb Zb]]]. unfold bval. rewrite Eb.
          apply zero_times; [exact Fb|apply Zb; lia|exact Hinf].
        + apply nan_plus_l. apply Hv. lia. }
    eapply ok_weaken; [exact T|]. intros r [Lr Hr]. split; [exact Lr|]. apply Hr. lia. }
  apply ok_val_ex in T. destruct T as [r [E [Lr Hr]]]. exists r. split; [apply HE; exact E|]. split; [exact Lr|exact Hr].
Qed.
