(** * Interpolation in binary64, up to what the linear solver leaves over *)

From Coq Require Import ZArith Reals List Bool Arith Lia Lra Psatz.
From Flocq Require Import Core.Core IEEE754.BinarySingleNaN.
From Verif Require Import Num Vec MKnots MPoints MCurve MFit MGenerate RNum F64 Hoare Lists Struct Divisions Spec Samples BMath BMath2 BMath3 BMath4 SW Api ApiF ApiF2 Bridge Facts1 Facts3 Float1 Float4 Float5 Float6 Float7 Float8 Float14 Float16 Float17 Gen1 Gen2 Gen3 Gen4 Fit1 Fit2.
Import ListNotations.
Local Open Scope R_scope.

Lemma collocation_gen (K : Num) p n (kn : Knots K) (D : Mat K) (v : list K) s dim (b : nat -> nat -> K) : kdegree kn = p -> shape dim (S n) D -> length v = (n + 1)%nat ->
  (forall g i, (g <= n)%nat -> (i <= n)%nat -> kevaluate kn 0 i p (nth g v n0) = Val (b g i)) ->
  exists N, collocation kn D (mkParams v s) = Val N /\ shape (S n) (S n) N /\ forall g i, (g <= n)%nat -> (i <= n)%nat -> ent N i g = b g i.
Proof.
  intros KD SQ Lv HB. unfold collocation, dp_segments. assert (EN : ncols D = S n) by apply SQ. rewrite EN, KD. rewrite usub_ok by lia. cbn [bind].
  replace (S n - 1)%nat with n by lia. unfold rangei. replace (n + 1 - 0)%nat with (S n) by lia.
  destruct (@fill_matrix K (fun N i => foldM (fun N g => u <- vget v g;; b <- kevaluate kn 0 i p u;; mset N g i b) (seq 0 (S n)) N)
    b false 0 (S n) (S n)) as [N [E [SN H]]].
  - intros N i SN Hi. cbn [plus] in Hi.
    destruct (@fill_col K (fun N g => u <- vget v g;; b <- kevaluate kn 0 i p u;; mset N g i b) (fun g => b g i) 0 (S n) N (S n) (S n) i) as [N' [E [S' H]]]; try assumption; try lia.
    + intros M g SM Hg. rewrite (vget_nth v g n0) by lia. cbn [bind]. rewrite HB by lia. cbn [bind]. rewrite Nat.sub_0_r. reflexivity.
    + exists N'. split; [exact E|]. split; [exact S'|]. intros x y Hx Hy. rewrite H by assumption. rewrite Nat.sub_0_r.
      destruct (Nat.eqb_spec y i) as [->|]; reflexivity.
  - exists N. split; [exact E|]. split; [exact SN|]. intros g i Hg Hi. apply H; lia.
Qed.

(** the values of all basis functions at all parameters *)
Lemma collocation_F64 p m (U : list f64) (v : list f64) : float_knots p m U -> (1 <= p <= 100)%nat ->
  (forall g, (g <= m)%nat -> finite (nth g v (@n0 F64)) /\ 0 <= val (nth g v (@n0 F64)) <= 1) ->
  exists b : nat -> nat -> f64, forall g i, (g <= m)%nat -> (i <= m)%nat ->
    kevaluate (@knots_of F64 p U) 0 i p (nth g v (@n0 F64)) = Val (b g i) /\ finite (b g i) /\ 0 <= val (b g i) /\
    Rabs (val (b g i) - bspline (kfun (map val U)) m p i (val (nth g v (@n0 F64)))) <= (5 * INR p + 1) * / 2 ^ 53 * bspline (kfun (map val U)) m p i (val (nth g v (@n0 F64))) + / 2 ^ 700.
Proof.
  intros FK Hp Hv. destruct FK as [Ff [C Sep]]. assert (L := cl_len _ _ _ C). assert (Dg := cl_deg _ _ _ C). assert (LU : length U = (m + p + 2)%nat) by (rewrite map_length in L; exact L).
  assert (A : forall g, (g <= m)%nat -> exists b : nat -> f64, forall i, (i <= m)%nat ->
    kevaluate (@knots_of F64 p U) 0 i p (nth g v (@n0 F64)) = Val (b i) /\ finite (b i) /\ 0 <= val (b i) /\
    Rabs (val (b i) - bspline (kfun (map val U)) m p i (val (nth g v (@n0 F64)))) <= (5 * INR p + 1) * / 2 ^ 53 * bspline (kfun (map val U)) m p i (val (nth g v (@n0 F64))) + / 2 ^ 700).
  { intros g Hg. destruct (Hv g Hg) as [F1 F2].
    destruct (basis_F64 p m U (@knots_of F64 p U) (@knots_of RNum p (map val U)) (nth g v (@n0 F64)) (fun i => bspline (kfun (map val U)) m p i (val (nth g v (@n0 F64)))))
      as [b [Hb _]].
    - split; [exact Ff|split; [exact C|exact Sep]].
    - lia.
    - apply (@knots_new_val F64 p U). change (T F64) with f64. unfold f64 in *. lia.
    - apply (@knots_new_val RNum p (map val U)). rn. lia.
    - exact F1.
    - exact F2.
    - intros i Hi. apply (kevaluate_R p m (map val U)); try assumption; try lia. exact (cl_sorted _ _ _ C).
    - exists b. intros i Hi. destruct (Hb i Hi) as [B1 [B2 [B3 [B4 _]]]]. auto. }
  assert (Ch : forall m', (m' <= S m)%nat -> exists b : nat -> nat -> f64, forall g i, (g < m')%nat -> (i <= m)%nat ->
    kevaluate (@knots_of F64 p U) 0 i p (nth g v (@n0 F64)) = Val (b g i) /\ finite (b g i) /\ 0 <= val (b g i) /\
    Rabs (val (b g i) - bspline (kfun (map val U)) m p i (val (nth g v (@n0 F64)))) <= (5 * INR p + 1) * / 2 ^ 53 * bspline (kfun (map val U)) m p i (val (nth g v (@n0 F64))) + / 2 ^ 700).
  { induction m' as [|m' IH]; intros Hm; [exists (fun _ _ => @n0 F64); intros; lia|].
    destruct (IH ltac:(lia)) as [b Hb]. destruct (A m' ltac:(lia)) as [b' Hb'].
    exists (fun g => if (g =? m')%nat then b' else b g). intros g i Hg Hi. destruct (Nat.eqb_spec g m') as [->|]; [apply Hb'; exact Hi|apply Hb; lia]. }
  destruct (Ch (S m) ltac:(lia)) as [b Hb]. exists b. intros g i Hg Hi. apply Hb; lia.
Qed.

Lemma tiny_sum m : (Z.of_nat m < 2 ^ 50)%Z -> INR (S m) * / 2 ^ 700 <= / 2 ^ 53.
Proof.
  intros Hb. assert (A : INR (S m) <= 2 ^ 50).
  { assert (H : (Z.of_nat (S m) <= 2 ^ 50)%Z) by lia. rewrite INR_IZR_INZ. apply IZR_le in H. change (IZR (2 ^ 50)) with 1125899906842624 in H. lra. }
  assert (P := pow_lt 2 53 ltac:(lra)). assert (Q := pow_lt 2 700 ltac:(lra)).
  apply (Rmult_le_reg_r (2 ^ 700)); [exact Q|]. rewrite Rmult_assoc, Rinv_l, Rmult_1_r by lra.
  apply Rle_trans with (2 ^ 50); [exact A|]. change 700%nat with (53 + (50 + 597))%nat. rewrite pow_add, <- Rmult_assoc, Rinv_l, Rmult_1_l by lra.
  rewrite pow_add. assert (1 <= 2 ^ 597) by (apply pow_R1_Rle; lra). assert (0 < 2 ^ 50) by (apply pow_lt; lra). nra.
Qed.

Theorem interpolation_F64 p m dim (D : Mat F64) : (1 <= p <= m)%nat -> (p <= 100)%nat -> (Z.of_nat m < 2 ^ 50)%Z -> shape dim (S m) D ->
  exists kn v A, @uniform F64 p m = Val (Ok kn) /\ @equally_spaced F64 m = Val (mkParams v m) /\ shape (S m) (S m) A /\
    (forall g i, (g <= m)%nat -> (i <= m)%nat -> kevaluate kn 0 i p (nth g v (@n0 F64)) = Val (ent A i g)) /\
    forall (svd : Mat F64 -> Mat F64 -> Num.M (Mat F64)) (X : Mat F64) (r M : R),
      svd A (mtranspose D) = Val X -> shape (S m) dim X ->
      (forall i d, (i <= m)%nat -> (d < dim)%nat -> finite (ent X d i) /\ Rabs (val (ent X d i)) <= M) ->
      (forall g d, (g <= m)%nat -> (d < dim)%nat -> Rabs (rsum (fun i => val (ent A i g) * val (ent X d i)) (S m) - val (ent D g d)) <= r) ->
      / 2 ^ 1000 <= M <= 2 ^ 1022 ->
      exists c, generate svd (Interpolation p D) = Val (Ok c) /\
        forall g, (g <= m)%nat -> returns_within (@evaluate F64 c (nth g v (@n0 F64))) dim (fun d => val (ent D g d)) (r + (11 * INR p + 5) * / 2 ^ 53 * M).
Proof.
  intros Hp Hp1 Hb SD. assert (Hb' : (Z.of_nat (m - p + 1) <= 2 ^ 51)%Z) by lia.
  assert (FK := uniff_knots p m Hb' ltac:(lia)). assert (L := uniff_length p m). set (U := uniff p m) in *.
  destruct (equally_spaced_F64 m ltac:(lia) ltac:(lia)) as [v [EV [Lv [Hv [Hs [H0 H1]]]]]].
  assert (Rg : forall g, (g <= m)%nat -> 0 <= val (nth g v (@n0 F64)) <= 1).
  { assert (Up : forall k g, (g + k <= m)%nat -> val (nth g v (@n0 F64)) <= val (nth (g + k) v (@n0 F64))).
    { induction k as [|k IH]; intros g Hg; [rewrite Nat.add_0_r; lra|]. eapply Rle_trans; [apply IH; lia|]. replace (g + S k)%nat with (S (g + k)) by lia.
      left. apply Hs. lia. }
    intros g Hg. split; [rewrite <- H0; apply (Up g 0%nat); lia|rewrite <- H1; replace m with (g + (m - g))%nat by lia; apply Up; lia]. }
  assert (HV : forall g, (g <= m)%nat -> finite (nth g v (@n0 F64)) /\ 0 <= val (nth g v (@n0 F64)) <= 1) by (intros g Hg; split; [apply Hv|apply Rg]; exact Hg).
  destruct (collocation_F64 p m U v FK ltac:(lia) HV) as [b Hbb].
  destruct (collocation_gen F64 p m (@knots_of F64 p U) D v m dim b eq_refl SD Lv) as [A [EA [SA HA]]]; [intros g i Hg Hi; apply Hbb; assumption|].
  exists (@knots_of F64 p U), v, A. split; [apply uniform_F64_eq; exact Hp|]. split; [exact EV|]. split; [exact SA|].
  split; [intros g i Hg Hi; rewrite HA by assumption; apply Hbb; assumption|].
  intros svd X r M ES SX HX HR HM.
  cbn [generate]. unfold params_generate, dp_segments. assert (NQ : ncols D = S m) by apply SD. rewrite NQ, usub_ok by lia. cbn [bind].
  replace (S m - 1)%nat with m by lia. rewrite EV. cbn [bind knots_generate]. rewrite uniform_F64_eq by exact Hp. cbn [bind]. fold U.
  unfold interpolate. rewrite EA. cbn [bind].
  assert (NC : ncols A = S m) by apply SA. assert (NR : nrows A = S m) by apply SA. assert (ST := @mtranspose_shape F64 dim (S m) D SD).
  assert (TR : nrows (mtranspose D) = S m) by apply ST.
  unfold svd_solve, mis_empty. rewrite NC, NR, TR, Nat.eqb_refl. cbn [Nat.eqb orb]. rewrite ES. cbn [bind].
  assert (SC := @mtranspose_shape F64 _ _ X SX). set (P := mtranspose X) in *.
  assert (EP : forall i d, (i <= m)%nat -> (d < dim)%nat -> ent P i d = ent X d i) by (intros i d Hi Hd; apply (@ent_mtranspose F64 (S m) dim X i d SX); [lia|exact Hd]).
  assert (SZ : @sized F64 p m dim U P) by (split; [lia|split; [exact L|exact SC]]).
  destruct (built_ex_gen F64 gdiv_F64 p m dim U P SZ) as [c BC].
  assert (FC : float_curve p m dim U P M c).
  { split; [exact FK|]. split; [exact SC|]. split; [|exact BC]. intros i d Hi Hd. rewrite EP by assumption. apply HX; assumption. }
  destruct BC as [kn [EK EC]]. rewrite (@knots_new_val F64 p U) in EK by (change (T F64) with f64; unfold f64 in *; lia). injection EK as <-.
  exists c. split; [exact EC|]. intros g Hg. destruct (HV g Hg) as [F1 F2].
  destruct (eval_F64 p m dim U P M c (nth g v (@n0 F64)) FC Hp1 HM F1 F2) as [w [E1 [E2 E3]]].
  exists w. split; [exact E1|]. split; [exact E2|]. intros d Hd. destruct (E3 d Hd) as [E4 E5]. split; [exact E4|].
  assert (C := proj1 (proj2 FK)). assert (KC := kfun_clamped p m _ C). assert (E53 : 0 < / 2 ^ 53) by (apply Rinv_0_lt_compat, pow_lt; lra).
  set (u := val (nth g v (@n0 F64))) in *. set (x := fun i => val (ent X d i)).
  assert (M0 : 0 <= M) by (assert (0 < / 2 ^ 1000) by (apply Rinv_0_lt_compat, pow_lt; lra); lra).
  assert (S1 : Rabs (spline (kfun (map val U)) m p (fun i => val (ent P i d)) u - rsum (fun i => val (ent A i g) * x i) (S m)) <= (5 * INR p + 2) * / 2 ^ 53 * M).
  { unfold spline. rewrite (rsum_ext _ (fun i => bspline (kfun (map val U)) m p i u * x i)) by (intros i Hi; rewrite EP by (try assumption; lia); reflexivity).
    rewrite <- rsum_minus.
    apply Rle_trans with (rsum (fun i => ((5 * INR p + 1) * / 2 ^ 53 * bspline (kfun (map val U)) m p i u + / 2 ^ 700) * M) (S m)).
    - eapply Rle_trans; [apply rsum_abs|]. apply BMath.rsum_le. intros i Hi. cbv beta.
      replace (bspline (kfun (map val U)) m p i u * x i - val (ent A i g) * x i) with ((bspline (kfun (map val U)) m p i u - val (ent A i g)) * x i) by ring.
      rewrite Rabs_mult. rewrite HA by lia. destruct (Hbb g i Hg ltac:(lia)) as [_ [_ [_ B4]]]. fold u in B4. rewrite Rabs_minus_sym.
      apply Rmult_le_compat; [apply Rabs_pos|apply Rabs_pos|exact B4|]. apply HX; [lia|exact Hd].
    - rewrite rsum_scal_r, rsum_plus, rsum_scal. rewrite rsum_c.
      assert (PU : rsum (fun i => bspline (kfun (map val U)) m p i u) (S m) = 1) by (apply (bspline_sum p); [exact KC|exact F2]).
      rewrite PU, Rmult_1_r. apply Rmult_le_compat_r; [exact M0|]. assert (Q := tiny_sum m Hb). lra. }
  assert (S2 := HR g d Hg Hd). fold x in S2.
  change (fun i => val (ent A i g) * val (ent X d i)) with (fun i => val (ent A i g) * x i) in S2.
  apply abs_both in E5. apply abs_both in S1. apply abs_both in S2. apply Rabs_le.
  assert (Z : (11 * INR p + 5) * / 2 ^ 53 * M = (6 * INR p + 3) * / 2 ^ 53 * M + (5 * INR p + 2) * / 2 ^ 53 * M) by ring. rewrite Z. lra.
Qed.
