(** * Derivatives in binary64 *)

From Coq Require Import ZArith Reals List Bool Arith Lia Lra Psatz Permutation.
From Flocq Require Import Core.Core IEEE754.BinarySingleNaN.
From Verif Require Import Num Vec MKnots MPoints MCurve RNum F64 Lists Hoare Struct Divisions Spec BMath BMath2 BMath3 BMath4 Api ApiF Bridge Facts1 Facts4 Facts5 Facts6 Float1 Float2 Float3 Float4 Float5 Float6 Float7 Float9.
Import ListNotations.

(** what holds of every computed derivative point holds of the cached ones *)
Section Cached.
  Context {K : Num}.

  Lemma points_derive_each ud p (U : list K) n dim (P : Mat K) rest km (Q : nat -> nat -> nat -> K -> Prop) :
    p <= n -> length U = n + p + 2 -> shape dim (S n) P ->
    (forall k i r km, k <= p -> i + k <= n -> ok ud (derive_single_point (mkCP (P :: r) km) (knots_of p U) k i)
       (fun v => length v = dim /\ forall d, d < dim -> Q k i d (nth d v n0))) ->
    ok ud (points_derive (mkCP (P :: rest) km) (knots_of p U))
      (fun cp => forall k i d, k <= p -> i + k <= n -> d < dim -> Q k i d (ent (nth k (Pk cp) (mzeros 0 0)) i d)).
  Proof.
    intros Hpn HL HP HQ.
    unfold points_derive. rewrite (cp_segments_val P rest km dim n HP). cbn [bind Pk firstn kdegree kp knots_of pk_max].
    fold (knots_of p U).
    eapply ok_bind with (Q := fun cp => forall k i d, k < p + 1 -> i + k <= n -> d < dim ->
         Q k i d (ent (nth k (Pk cp) (mzeros 0 0)) i d)).
    - eapply ok_weaken; [apply (ok_foldM_rangei ud _ (fun j cp => (exists r, Pk cp = P :: r /\ length (P :: r) = j) /\
         forall k i d, k < j -> i + k <= n -> d < dim -> Q k i d (ent (nth k (Pk cp) (mzeros 0 0)) i d)))|].
      + lia.
      + split; [exists []; split; reflexivity|]. intros k i d Hk Hi Hd. replace k with 0 in * by lia.
        assert (T := HQ 0 i [] 0 ltac:(lia) Hi). cbn [derive_single_point Pk] in T. unfold vget at 1 in T. cbn [nth_error bind] in T.
        rewrite (mcol_val P dim (S n)) in T by (try exact HP; lia). cbn [ok] in T. apply (proj2 T d Hd).
      + intros k [pk0 km0] Hk [[r [E Lr]] Hs]. cbn [Pk] in E. subst pk0. cbn [length] in Lr.
        rewrite usub_ok by lia. cbn [bind]. rewrite (cp_dimension_val P r km0 dim (S n) HP). cbn [bind].
        eapply ok_bind.
        * apply (ok_foldM_range ud _ (fun j Pm => shape dim (n - k + 1) Pm /\ forall i d, i < j -> d < dim -> Q k i d (ent Pm i d))).
          -- lia.
          -- split; [apply mzeros_shape|]. intros; lia.
          -- intros i Pm Hi [HPm HPe].
             eapply ok_bind; [apply (HQ k i r km0); lia|].
             intros v [Lv Hv]. rewrite (mset_col_val Pm dim (n - k + 1)) by (try assumption; lia).
             cbn [ok]. split; [apply upd_shape; [assumption|lia|assumption]|].
             intros j d Hj Hd. rewrite ent_upd by (destruct HPm as [_ [-> _]]; lia).
             destruct (Nat.eqb_spec j i) as [->|Hne]; [apply Hv; exact Hd|]. apply HPe; [lia|exact Hd].
        * intros Pm [HPm HPe]. cbn [ok Pk]. split.
          { exists (r ++ [Pm]). split; [reflexivity|]. cbn [length]. rewrite app_length. simpl. lia. }
          intros j i d Hj Hi Hd. destruct (Nat.eq_dec j k) as [->|Hne].
          { rewrite app_nth2 by (cbn [length]; lia). cbn [length].
            replace (k - S (length r)) with 0 by lia. cbn [nth]. apply HPe; [lia|exact Hd]. }
          { rewrite app_nth1 by (cbn [length]; lia). apply Hs; try assumption. lia. }
      + intros cp [_ H]. exact H.
    - intros cp H. cbn [ok Pk]. intros k i d Hk. apply H. lia.
  Qed.

  Lemma built_each ud p (U : list K) n dim (P : Mat K) c (Q : nat -> nat -> nat -> K -> Prop) :
    p <= n -> length U = n + p + 2 -> shape dim (S n) P -> built p U P c ->
    (forall k i r km, k <= p -> i + k <= n -> ok ud (derive_single_point (mkCP (P :: r) km) (knots_of p U) k i)
       (fun v => length v = dim /\ forall d, d < dim -> Q k i d (nth d v n0))) ->
    forall k i d, k <= p -> i + k <= n -> d < dim -> Q k i d (ent (nth k (Pk (cpoints c)) (mzeros 0 0)) i d).
  Proof.
    intros Hpn HL HP [kn [E1 E2]] HQ. rewrite knots_new_val in E1 by lia. injection E1 as <-.
    unfold curve_new in E2. unfold cp_new at 1 in E2. rewrite (cp_segments_val P [] 0 dim n HP) in E2. cbn [bind kdegree kp knots_of] in E2.
    replace (n <? p) with false in E2 by (symmetry; apply Nat.ltb_ge; lia). fold (knots_of p U) in E2.
    unfold calculate_derivatives in E2. cbn [cknots cpoints] in E2. 
    rewrite (knots_derive_val _ (kderiv 0 U) (map (fun k => kderiv k U) (seq 1 p))) in E2.
    2:{ reflexivity. }
    2:{ cbn [kp knots_of]. rewrite kderiv_length. lia. }
    cbn [bind kp knots_of] in E2. rewrite kderiv_0 in E2. fold (knots_of p U) in E2.
    assert (T := points_derive_each ud p U n dim P [] 0 Q Hpn HL HP HQ). change (mkCP [P] 0) with (cp_new P) in T.
    destruct (points_derive (cp_new P) (knots_of p U)) as [cp| | |]; cbn [bind] in *; try discriminate.
    injection E2 as <-. cbn [cpoints ok] in *. exact T.
  Qed.
End Cached.

Local Open Scope R_scope.

Lemma factor_abs2 g : / kap ^ 2 <= g <= kap ^ 2 -> Rabs (g - 1) <= 201 / 100 * eps.
Proof.
  intros [H1 H2]. assert (Ep := eps_pos). assert (Ev := eps_val). assert (K := kpow_ge1 2). assert (KP := kpow_pos 2).
  assert (K2 : kap ^ 2 <= 1 + 201 / 100 * eps).
  { unfold kap. replace ((1 + eps) ^ 2) with (1 + 2 * eps + eps * eps) by ring.
    assert (eps * eps <= / 100 * eps) by (apply Rmult_le_compat_r; rewrite Ev; lra). lra. }
  assert (1 - (kap ^ 2 - 1) <= / kap ^ 2).
  { apply (Rmult_le_reg_r (kap ^ 2)); [exact KP|]. rewrite Rinv_l by lra. nra. }
  apply Rabs_le. lra.
Qed.

(** one step of the recursion for derivative points *)
Lemma dstep_ok (hi lo a b : f64) (q p : nat) D1 D0 B c h : (1 <= q <= p)%nat -> (p <= 100)%nat ->
  fin a = true -> fin b = true -> 0 <= val a <= 1 -> 0 <= val b <= 1 -> pow2 (-1000) <= h -> h <= val a - val b ->
  fin hi = true -> fin lo = true -> Rabs D1 <= B -> Rabs D0 <= B -> 0 <= c <= 1000 ->
  Rabs (val hi - D1) <= c * eps * B -> Rabs (val lo - D0) <= c * eps * B ->
  pow2 (-1000) <= B -> B * (2 * INR p / h) <= pow2 1020 ->
  let r := Bmult mode_NE (Bdiv mode_NE (@nofnat F64 q) (Bminus mode_NE a b)) (Bminus mode_NE hi lo) in
  fin r = true /\ Rabs (val r - INR q * (D1 - D0) / (val a - val b)) <= (c + 5) * eps * (B * (2 * INR p / h)) /\
  Rabs (INR q * (D1 - D0) / (val a - val b)) <= B * (2 * INR p / h).
Proof.
  intros Hq Hp Fa Fb Ra Rb Hh Hgap Fhi Flo HD1 HD0 Hc E1 E0 HB HBp r.
  assert (Ep := eps_pos). assert (Ev := eps_val). assert (Et := eta_pos). assert (Es := eta_eps1).
  assert (P0 : 0 < h) by (apply Rlt_le_trans with (2 := Hh); apply bpow_gt_0).
  assert (B0 : 0 < B) by (apply Rlt_le_trans with (2 := HB); apply bpow_gt_0).
  assert (Iq : 1 <= INR q) by (change 1 with (INR 1); apply le_INR; lia).
  assert (Iqp : INR q <= INR p) by (apply le_INR; lia).
  assert (Ip : INR p <= 100) by (replace 100 with (INR 100) by (rewrite INR_IZR_INZ; reflexivity); apply le_INR; lia).
  set (de := val a - val b) in *. assert (De : 0 < de <= 1) by (unfold de in *; lra).
  set (S := INR q / de). set (sg := 2 * INR p / h) in *.
  assert (S1 : 1 <= S).
  { unfold S. apply (Rmult_le_reg_r de); [lra|]. unfold Rdiv. rewrite Rmult_assoc, Rinv_l by lra. lra. }
  assert (S2 : 2 * S <= sg).
  { unfold S, sg, Rdiv. rewrite <- Rmult_assoc. apply Rmult_le_compat; [lra|left; apply Rinv_0_lt_compat; lra|lra|].
    apply Rinv_le_contravar; lra. }
  assert (Bs : B * 2 <= pow2 1020) by (apply Rle_trans with (2 := HBp); apply Rmult_le_compat_l; lra).
  assert (c * eps <= / 1000) by (apply Rle_trans with (1000 * eps); [apply Rmult_le_compat_r; lra|rewrite Ev; lra]).
  assert (ceB : 0 <= c * eps * B <= / 1000 * B).
  { split; [apply Rmult_le_pos; [apply Rmult_le_pos|]; lra|apply Rmult_le_compat_r; lra]. }
  (* the factor *)
  destruct (nofnat_F64 q ltac:(lia)) as [Fq Vq].
  destruct (sub_ok a b 0 ltac:(lia) Fa Fb) as [Fd Vd]; [change (pow2 0) with 1; fold de; rewrite Rabs_pos_eq; lra|]. fold de in Vd.
  destruct (rnd_minus (val a) (val b) (fmt_val _) (fmt_val _)) as [g2 [Hg2 Eg2]]. fold de in Eg2. rewrite Eg2 in Vd.
  assert (KI := kinv_bounds). assert (G2 : 0 < g2) by lra. assert (KS := kap_small).
  assert (Dn : val (Bminus mode_NE a b) <> 0) by (rewrite Vd; apply Rmult_integral_contrapositive; split; lra).
  assert (Q1 : INR q / (de * g2) = S * / g2) by (unfold S; field; split; lra).
  assert (Ig2 := factor_inv 1 g2 (factor1 g2 Hg2)). rewrite pow_1 in Ig2.
  assert (Bq : Rabs (val (@nofnat F64 q) / val (Bminus mode_NE a b)) <= pow2 1008).
  { rewrite Vq, Vd, Q1. rewrite Rabs_pos_eq by (apply Rmult_le_pos; lra).
    apply Rle_trans with (S * 2); [apply Rmult_le_compat_l; lra|].
    assert (S <= 128 * pow2 1000).
    { unfold S, Rdiv. replace (pow2 1000) with (/ pow2 (-1000)) by (rewrite <- bpow_opp; reflexivity).
      apply Rmult_le_compat; [lra|left; apply Rinv_0_lt_compat; lra|lra|]. apply Rinv_le_contravar; [apply bpow_gt_0|lra]. }
    replace (pow2 1008) with (256 * pow2 1000); [lra|]. change 256 with (pow2 8). rewrite <- bpow_plus. reflexivity. }
  destruct (div_ok (@nofnat F64 q) (Bminus mode_NE a b) 1008 ltac:(lia) Fq Dn Bq) as [Fs Vs]. rewrite Vq, Vd, Q1 in Vs.
  destruct (rnd_any (S * / g2)) as [g3 [t3 [Hg3 [Ht3 Eg3]]]]. rewrite Eg3 in Vs.
  set (s := Bdiv mode_NE (@nofnat F64 q) (Bminus mode_NE a b)) in *.
  assert (Gf : / kap ^ 2 <= / g2 * g3 <= kap ^ 2) by (apply (factor_mul 1 1); rewrite pow_1; assumption).
  assert (Gf2 := factor_abs2 _ Gf).
  assert (Es1 : Rabs (val s - S) <= 202 / 100 * eps * S).
  { rewrite Vs. replace (S * / g2 * g3 + t3 - S) with (S * (/ g2 * g3 - 1) + t3) by ring.
    apply Rle_trans with (1 := Rabs_triang _ _). rewrite Rabs_mult, (Rabs_pos_eq S) by lra.
    assert (S * Rabs (/ g2 * g3 - 1) <= S * (201 / 100 * eps)) by (apply Rmult_le_compat_l; lra).
    assert (eps * 1 <= eps * S) by (apply Rmult_le_compat_l; lra). lra. }
  assert (As : Rabs (val s) <= S * (1 + 3 * eps)).
  { replace (val s) with (S + (val s - S)) by ring. apply Rle_trans with (1 := Rabs_triang _ _). rewrite (Rabs_pos_eq S) by lra.
    assert (0 <= eps * S) by (apply Rmult_le_pos; lra). lra. }
  (* the difference *)
  set (De1 := D1 - D0). assert (HDe : Rabs De1 <= 2 * B).
  { unfold De1. replace (D1 - D0) with (D1 + - D0) by ring. apply Rle_trans with (1 := Rabs_triang _ _). rewrite Rabs_Ropp. lra. }
  assert (Ed : Rabs (val hi - val lo - De1) <= 2 * (c * eps * B)).
  { replace (val hi - val lo - De1) with ((val hi - D1) + - (val lo - D0)) by (unfold De1; ring). apply Rle_trans with (1 := Rabs_triang _ _). rewrite Rabs_Ropp. lra. }
  assert (Ad : Rabs (val hi - val lo) <= 201 / 100 * B).
  { replace (val hi - val lo) with (De1 + (val hi - val lo - De1)) by ring. apply Rle_trans with (1 := Rabs_triang _ _). lra. }
  destruct (sub_ok hi lo 1021 ltac:(lia) Fhi Flo) as [Ff Vf].
  { apply Rle_trans with (1 := Ad). change (pow2 1021) with (pow2 (1020 + 1)). rewrite bpow_plus. change (pow2 1) with 2. lra. }
  destruct (rnd_minus (val hi) (val lo) (fmt_val _) (fmt_val _)) as [g [Hg Eg]]. rewrite Eg in Vf.
  destruct (factor_abs g Hg) as [G1 _]. unfold kap in G1.
  set (df := Bminus mode_NE hi lo) in *.
  assert (EB : 0 < eps * B) by (apply Rmult_lt_0_compat; assumption).
  assert (Ef : Rabs (val df - De1) <= (2 * c + 201 / 100) * (eps * B)).
  { rewrite Vf. replace ((val hi - val lo) * g - De1) with ((val hi - val lo) * (g - 1) + (val hi - val lo - De1)) by ring.
    apply Rle_trans with (1 := Rabs_triang _ _). rewrite Rabs_mult.
    assert (Rabs (val hi - val lo) * Rabs (g - 1) <= 201 / 100 * B * eps) by (apply Rmult_le_compat; try apply Rabs_pos; lra). lra. }
  (* their product *)
  assert (SB : 0 < S * (eps * B)) by (apply Rmult_lt_0_compat; lra).
  assert (Ex : INR q * De1 / de = S * De1) by (unfold S; field; lra). rewrite Ex.
  assert (Epr : Rabs (val s * val df - S * De1) <= (2 * c + 607 / 100) * (S * (eps * B))).
  { replace (val s * val df - S * De1) with (val s * (val df - De1) + (val s - S) * De1) by ring.
    apply Rle_trans with (1 := Rabs_triang _ _). rewrite !Rabs_mult.
    assert (X1 : Rabs (val s) * Rabs (val df - De1) <= S * (1 + 3 * eps) * ((2 * c + 201 / 100) * (eps * B))) by (apply Rmult_le_compat; try apply Rabs_pos; assumption).
    assert (X2 : Rabs (val s - S) * Rabs De1 <= 202 / 100 * eps * S * (2 * B)) by (apply Rmult_le_compat; try apply Rabs_pos; assumption).
    assert (X3 : S * (1 + 3 * eps) * ((2 * c + 201 / 100) * (eps * B)) <= (2 * c + 202 / 100) * (S * (eps * B))).
    { replace (S * (1 + 3 * eps) * ((2 * c + 201 / 100) * (eps * B))) with ((1 + 3 * eps) * (2 * c + 201 / 100) * (S * (eps * B))) by ring.
      apply Rmult_le_compat_r; [lra|]. replace ((1 + 3 * eps) * (2 * c + 201 / 100)) with (2 * c + 201 / 100 + (6 * (c * eps) + 603 / 100 * eps)) by field.
      assert (c * eps <= 1000 * eps) by (apply Rmult_le_compat_r; lra). rewrite Ev in *. lra. }
    lra. }
  assert (Apr : Rabs (S * De1) <= 2 * S * B).
  { rewrite Rabs_mult, (Rabs_pos_eq S) by lra. assert (S * Rabs De1 <= S * (2 * B)) by (apply Rmult_le_compat_l; lra). lra. }
  assert (SB1 : 2 * S * B <= B * sg) by (rewrite (Rmult_comm B); apply Rmult_le_compat_r; lra).
  assert (Bpr : Rabs (val s * val df) <= 202 / 100 * (S * B)).
  { replace (val s * val df) with (S * De1 + (val s * val df - S * De1)) by ring. apply Rle_trans with (1 := Rabs_triang _ _).
    assert ((2 * c + 607 / 100) * (S * (eps * B)) <= / 100 * (S * B)).
    { replace ((2 * c + 607 / 100) * (S * (eps * B))) with ((2 * (c * eps) + 607 / 100 * eps) * (S * B)) by ring.
      apply Rmult_le_compat_r; [apply Rmult_le_pos; lra|]. rewrite Ev in *. lra. }
    assert (0 < S * B) by (apply Rmult_lt_0_compat; lra). lra. }
  destruct (mul_ok s df 1021 ltac:(lia) Fs Ff) as [Fr Vr].
  { apply Rle_trans with (1 := Bpr). change (pow2 1021) with (pow2 (1020 + 1)). rewrite bpow_plus. change (pow2 1) with 2. lra. }
  destruct (rnd_any (val s * val df)) as [g4 [t4 [Hg4 [Ht4 Eg4]]]]. rewrite Eg4 in Vr. destruct (factor_abs g4 Hg4) as [G4 _]. unfold kap in G4.
  split; [exact Fr|]. split; [|lra].
  fold s. fold df. unfold r. fold s. fold df. rewrite Vr. replace (val s * val df * g4 + t4 - S * De1) with (val s * val df * (g4 - 1) + t4 + (val s * val df - S * De1)) by ring.
  apply Rle_trans with (1 := Rabs_triang _ _). assert (T1 := Rabs_triang (val s * val df * (g4 - 1)) t4). rewrite Rabs_mult in T1.
  assert (Rabs (val s * val df) * Rabs (g4 - 1) <= 202 / 100 * (S * B) * eps) by (apply Rmult_le_compat; try apply Rabs_pos; lra).
  assert (0 < S * B) by (apply Rmult_lt_0_compat; lra).
  assert (Hb := eta_eps B HB). assert (eps * B <= S * (eps * B)) by (rewrite <- (Rmult_1_l (eps * B)) at 1; apply Rmult_le_compat_r; lra).
  assert (F : (c + 5) * eps * (2 * S * B) <= (c + 5) * eps * (B * sg)) by (apply Rmult_le_compat_l; [apply Rmult_le_pos; lra|exact SB1]).
  lra.
Qed.

(** different knots differ by at least [h] *)
Definition spaced (U : list R) (h : R) : Prop :=
  forall i j, (j < length U)%nat -> nth i U 0 < nth j U 0 -> h <= nth j U 0 - nth i U 0.

Lemma pow_scale M s k : M * s ^ S k = M * s ^ k * s.
Proof. cbn [pow]. ring. Qed.

Section Points.
  Variables (p n dim : nat) (U : list f64) (P : Mat F64) (M h : R) (k0 : nat).
  Hypothesis FK : float_knots p n U.
  Hypothesis SP : shape dim (S n) P.
  Hypothesis HP : forall i d, (i <= n)%nat -> (d < dim)%nat -> finite (ent P i d) /\ Rabs (val (ent P i d)) <= M.
  Hypothesis Hp : (p <= 100)%nat.
  Hypothesis Hh : pow2 (-1000) <= h.
  Hypothesis Hs : spaced (map val U) h.
  Hypothesis HM : pow2 (-1000) <= M.
  Hypothesis Hk0 : (k0 <= p)%nat.
  Let sg := 2 * INR p / h.
  Hypothesis HB : M * sg ^ k0 <= pow2 1020.

  Let C : clamped p n (map val U) := proj1 (proj2 FK).

  Lemma len_U : length U = (n + p + 2)%nat.
  Proof. rewrite <- (cl_len _ _ _ C), map_length. reflexivity. Qed.

  Lemma h_pos : 0 < h. Proof. apply Rlt_le_trans with (2 := Hh). apply bpow_gt_0. Qed.
  Lemma M_pos : 0 < M. Proof. apply Rlt_le_trans with (2 := HM). apply bpow_gt_0. Qed.

  Lemma h_le1 : h <= 1.
  Proof.
    assert (D := cl_deg _ _ _ C). assert (L := cl_len _ _ _ C).
    assert (T := Hs 0%nat (n + 1)%nat). rewrite (cl_zero _ _ _ C), (cl_one _ _ _ C) in T; try lia. specialize (T ltac:(lia)). lra.
    all: try (rewrite L; lia).
  Qed.

  Lemma sg_ge1 : (1 <= p)%nat -> 1 <= sg.
  Proof.
    intros H. unfold sg. assert (T := h_le1). assert (T2 := h_pos). assert (1 <= INR p) by (change 1 with (INR 1); apply le_INR; lia).
    apply (Rmult_le_reg_r h); [lra|]. unfold Rdiv. rewrite Rmult_assoc, Rinv_l by lra. lra.
  Qed.

  Lemma sg_nonneg : 0 <= sg.
  Proof. unfold sg. apply Rmult_le_pos; [assert (T := pos_INR p); lra|left; apply Rinv_0_lt_compat, h_pos]. Qed.

  Lemma level k : (k <= k0)%nat -> pow2 (-1000) <= M * sg ^ k <= pow2 1020.
  Proof.
    intros Hk. destruct k as [|k]; [|assert (G := sg_ge1 ltac:(lia))].
    - rewrite pow_O, Rmult_1_r. split; [exact HM|]. destruct (Nat.eq_dec k0 0) as [E|E]; [rewrite E, pow_O in HB; lra|].
      apply Rle_trans with (2 := HB). rewrite <- (Rmult_1_r M) at 1. apply Rmult_le_compat_l; [apply Rlt_le, M_pos|]. apply pow_R1_Rle, sg_ge1. lia.
    - split.
      + apply Rle_trans with (1 := HM). rewrite <- (Rmult_1_r M) at 1. apply Rmult_le_compat_l; [apply Rlt_le, M_pos|]. apply pow_R1_Rle. exact G.
      + apply Rle_trans with (2 := HB). apply Rmult_le_compat_l; [apply Rlt_le, M_pos|]. apply Rle_pow; [exact G|exact Hk].
  Qed.

  Definition close_point (k i d : nat) (x : F64) : Prop := (k <= k0)%nat ->
    finite (x : f64) /\ Rabs (val x - dpoints (kfun (map val U)) p (fun i => val (ent P i d)) k i) <= 5 * INR k * eps * (M * sg ^ k) /\
    Rabs (dpoints (kfun (map val U)) p (fun i => val (ent P i d)) k i) <= M * sg ^ k.

  Lemma derive_F64 k : forall i r km, (k <= p)%nat -> (i + k <= n)%nat ->
    ok False (@derive_single_point F64 (mkCP (P :: r) km) (knots_of p U) k i)
      (fun v => length v = dim /\ forall d, (d < dim)%nat -> close_point k i d (nth d v (@n0 F64))).
  Proof.
    assert (LU := len_U). assert (M0 := M_pos). assert (Ep := eps_pos). assert (L := cl_len _ _ _ C).
    induction k as [|k IH]; intros i r km Hk Hi.
    - cbn [derive_single_point Pk]. unfold vget at 1. cbn [nth_error bind].
      rewrite (mcol_val P dim (S n)) by (try exact SP; lia). cbn [ok]. split; [apply SP; lia|].
      intros d Hd _. cbn [dpoints INR pow]. destruct (HP i d ltac:(lia) Hd) as [F1 B1].
      change (nth d (nth i (mcols P) []) (@n0 F64)) with (ent P i d). split; [exact F1|]. split; [|lra].
      rewrite Rminus_diag_eq, Rabs_R0 by reflexivity. lra.
    - destruct (le_lt_dec (S k) k0) as [Hk'|Hk'].
      2:{ eapply ok_weaken; [apply (derive_point_ok False gdiv_F64 p U n dim P r km); try assumption; lia|].
          intros v Lv. split; [exact Lv|]. intros d _ Hc. lia. }
      cbn [derive_single_point]. rewrite knots_of_vector. cbn [bind kdegree kp knots_of]. fold (@knots_of F64 p U).
      rewrite (@vget_nth (Num.T F64) U (i + p + 1) (@n0 F64)) by (change (Num.T F64) with f64; lia). cbn [bind].
      rewrite (@vget_nth (Num.T F64) U (i + S k) (@n0 F64)) by (change (Num.T F64) with f64; lia). cbn [bind].
      assert (Fa : finite (nth (i + p + 1) U (@n0 F64))) by (apply FK, nth_In; lia).
      assert (Fb : finite (nth (i + S k) U (@n0 F64))) by (apply FK, nth_In; lia).
      assert (Ka : kfun (map val U) (i + p + 1) = val (nth (i + p + 1) U (@n0 F64))) by (rewrite kfun_nth by lia; apply nth_val; lia).
      assert (Kb : kfun (map val U) (i + S k) = val (nth (i + S k) U (@n0 F64))) by (rewrite kfun_nth by lia; apply nth_val; lia).
      assert (Ra : 0 <= val (nth (i + p + 1) U (@n0 F64)) <= 1) by (rewrite <- nth_val by lia; apply (clamped_range _ _ _ _ C), nth_In; lia).
      assert (Rb : 0 <= val (nth (i + S k) U (@n0 F64)) <= 1) by (rewrite <- nth_val by lia; apply (clamped_range _ _ _ _ C), nth_In; lia).
      change (@neqb F64 (nth (i + p + 1) U (@n0 F64)) (nth (i + S k) U (@n0 F64))) with (Beqb (nth (i + p + 1) U (@n0 F64)) (nth (i + S k) U (@n0 F64))).
      rewrite eqb_val by assumption.
      assert (LV := level (S k) Hk').
      destruct (Req_bool_spec (val (nth (i + p + 1) U (@n0 F64))) (val (nth (i + S k) U (@n0 F64)))) as [E|E].
      + rewrite (cp_dimension_val P r km dim (S n) SP). cbn [bind ok]. split; [apply vzeros_length|].
        intros d Hd _. cbn [dpoints]. rewrite Ka, Kb, E, (Rminus_diag_eq _ _ eq_refl), ratio_0.
        unfold vzeros. rewrite nth_repeat. split; [apply n0_ok|]. rewrite (proj2 n0_ok). rewrite Rminus_0_r, Rabs_R0.
        assert (B0 := bpow_gt_0 radix2 (-1000)). split; [|lra]. apply Rmult_le_pos; [apply Rmult_le_pos; [assert (T := pos_INR (S k)); lra|lra]|lra].
      + rewrite usub_ok by lia. cbn [bind].
        assert (Hlt : val (nth (i + S k) U (@n0 F64)) < val (nth (i + p + 1) U (@n0 F64))).
        { assert (T : nth (i + S k) (map val U) 0 <= nth (i + p + 1) (map val U) 0) by (apply (cl_sorted _ _ _ C); lia).
          rewrite !nth_val in T by lia. lra. }
        assert (Hg := Hs (i + S k)%nat (i + p + 1)%nat ltac:(lia)). rewrite !nth_val in Hg by lia. specialize (Hg Hlt).
        change (@ndiv F64) with (fun x y : f64 => Val (Bdiv mode_NE x y)). cbn beta. cbn [bind].
        eapply ok_bind; [apply IH; lia|]. intros hi [Lhi Hhi].
        eapply ok_bind; [apply IH; lia|]. intros lo [Llo Hlo].
        destruct (@vsub_val F64 hi lo) as [df [Ed [Ld Hd]]]; [congruence|]. rewrite Ed. cbn [bind ok].
        split; [rewrite (@vscale_length F64); congruence|]. intros c Hc _.
        rewrite (@nth_vscale F64) by (rewrite Ld, Lhi; exact Hc). rewrite Hd by (rewrite Lhi; exact Hc).
        destruct (Hhi c Hc ltac:(lia)) as [F1 [E1 B1]]. destruct (Hlo c Hc ltac:(lia)) as [F0 [E0 B0]].
        assert (LV' := level k ltac:(lia)).
        replace (i + 1)%nat with (S i) in * by lia. replace (p - S k + 1)%nat with (p - k)%nat by lia.
        set (D1 := dpoints (kfun (map val U)) p (fun i => val (ent P i c)) k (S i)) in *.
        set (D0 := dpoints (kfun (map val U)) p (fun i => val (ent P i c)) k i) in *.
        assert (Ik : 0 <= 5 * INR k <= 1000).
        { split; [assert (T := pos_INR k); lra|]. replace 1000 with (5 * INR 200) by (rewrite INR_IZR_INZ; simpl; lra).
          apply Rmult_le_compat_l; [lra|]. apply le_INR. lia. }
        destruct (dstep_ok (nth c hi (@n0 F64)) (nth c lo (@n0 F64)) (nth (i + p + 1) U (@n0 F64)) (nth (i + S k) U (@n0 F64))
          (p - k) p D1 D0 (M * sg ^ k) (5 * INR k) h) as [Fr [Er Br]]; try assumption; try lia; try lra.
        { fold sg. rewrite <- pow_scale. apply LV. }
        fold sg in Er, Br. rewrite <- pow_scale in Er, Br. split; [exact Fr|].
        cbn [dpoints]. fold D1 D0. rewrite Ka, Kb. rewrite ratio_nz by lra. split; [|exact Br].
        rewrite S_INR. replace (5 * (INR k + 1)) with (5 * INR k + 5) by ring. exact Er.
  Qed.
End Points.

Lemma dpoints_agree U p P Q k : forall i, (forall j, (i <= j <= i + k)%nat -> P j = Q j) -> dpoints U p P k i = dpoints U p Q k i.
Proof.
  induction k as [|k IH]; intros i H; cbn [dpoints]; [apply H; lia|]. rewrite (IH (S i)), (IH i) by (intros; apply H; lia). reflexivity.
Qed.

Theorem derivative_F64 p n dim (U : list f64) P M c P' cR (u : f64) k h : float_curve p n dim U P M c -> same_points n dim P P' ->
  clamped_curve p n dim (map val U) P' cR -> (p <= 100)%nat -> (k <= p)%nat -> / 2 ^ 1000 <= M -> / 2 ^ 1000 <= h ->
  (forall i j, (j < length U)%nat -> nth i (map val U) 0 < nth j (map val U) 0 -> h <= nth j (map val U) 0 - nth i (map val U) 0) ->
  M * (2 * INR p / h) ^ k <= 2 ^ 1020 -> finite u -> 0 <= val u <= 1 ->
  exists f, returns (evaluate_derivative cR (val u) k) dim f /\
    returns_within (@evaluate_derivative F64 c u k) dim f ((6 * INR p + 4) * / 2 ^ 53 * (M * (2 * INR p / h) ^ k)).
Proof.
  intros H SPt HR Hp Hk HM Hh Hs HB Fu Hu. assert (W := float_wf _ _ _ _ _ _ _ H). destruct H as [FK [SP [HP Bu]]].
  assert (Ep := eps_pos). assert (Ev := eps_val). assert (C := proj1 (proj2 FK)). assert (L := cl_len _ _ _ C).
  assert (E2 : 2 ^ 1020 = pow2 1020) by (rewrite (bpow_powerRZ radix2 1020); reflexivity).
  rewrite pow2_1000 in HM, Hh. rewrite E2 in HB.
  assert (Hs' : spaced (map val U) h) by (intros i j Hj; apply Hs; rewrite map_length in Hj; exact Hj).
  set (B := M * (2 * INR p / h) ^ k) in *.
  assert (LV := level p n U M h k FK Hp Hh Hs' HM Hk HB k ltac:(lia)). fold B in LV.
  assert (B0 : 0 < B) by (apply Rlt_le_trans with (2 := proj1 LV); apply bpow_gt_0).
  assert (Q := built_each False p U n dim P c (close_point p U P M h k) (wf_deg _ _ _ _ _ _ W) (wf_len _ _ _ _ _ _ W) SP Bu
    ltac:(intros k' i r km Hk' Hi; apply (derive_F64 p n); assumption) k).
  set (Pt := fun i d => ent (nth k (Pk (cpoints c)) (mzeros 0 0)) i d) in *.
  set (De := fun i d => dpoints (kfun (map val U)) p (fun i => val (ent P i d)) k i).
  assert (Ik : 0 <= INR k <= 100) by (split; [apply pos_INR|replace 100 with (INR 100) by (rewrite INR_IZR_INZ; reflexivity); apply le_INR; lia]).
  assert (Ip : INR k <= INR p) by (apply le_INR; exact Hk).
  assert (Q' : forall i d, (i <= n - k)%nat -> (d < dim)%nat -> finite (Pt i d) /\ Rabs (val (Pt i d) - De i d) <= 5 * INR k * eps * B /\ Rabs (val (Pt i d)) <= (1 + 500 * eps) * B).
  { intros i d Hi Hd. assert (D := cl_deg _ _ _ C). destruct (Q i d Hk ltac:(lia) Hd ltac:(lia)) as [Q1 [Q2 Q3]]. fold B in Q2, Q3. fold (De i d) in Q2, Q3. fold (Pt i d) in Q1, Q2.
    split; [exact Q1|]. split; [exact Q2|]. replace (val (Pt i d)) with (De i d + (val (Pt i d) - De i d)) by ring.
    apply Rle_trans with (1 := Rabs_triang _ _).
    assert (5 * INR k * eps * B <= 500 * eps * B) by (apply Rmult_le_compat_r; [lra|apply Rmult_le_compat_r; lra]). lra. }
  assert (T := evalk_F64 p n dim U P c k u ((1 + 500 * eps) * B) W FK Hk ltac:(lia)).
  destruct T as [w [Ew [Lw Hw]]]; try assumption.
  { intros i d Hi Hd. destruct (Q' i d Hi Hd) as [Q1 [_ Q3]]. split; [exact Q1|exact Q3]. }
  { split.
    - apply Rle_trans with (1 := proj1 LV). rewrite <- (Rmult_1_l B) at 1. apply Rmult_le_compat_r; lra.
    - change (pow2 1022) with (pow2 (2 + 1020)). rewrite bpow_plus. change (pow2 2) with 4. apply Rmult_le_compat; rewrite ?Ev; lra. }
  exists (fun d => dspline (kfun (map val U)) n p (fun i => ent P' i d) k (val u)). split; [exact (cc_eval p n dim _ P' cR (val u) k HR Hu Hk)|].
  exists w. split; [exact Ew|]. split; [exact Lw|]. intros d Hd. destruct (Hw d Hd) as [W1 W2]. split; [exact W1|].
  rewrite eps_pow.
  assert (Ex : dspline (kfun (map val U)) n p (fun i => ent P' i d) k (val u) = rsum (fun i => bspline (shift k (kfun (map val U))) (n - k) (p - k) i (val u) * De i d) (S (n - k))).
  { unfold dspline. apply rsum_ext. intros i Hi. f_equal. apply dpoints_agree. intros j Hj. assert (D := cl_deg _ _ _ C). apply (proj2 SPt); [lia|exact Hd]. }
  rewrite Ex.
  assert (FC := fclamped_shift p n (kfun (map val U)) k (kfun_clamped _ _ _ C) Hk).
  assert (X := spline_diff (p - k) (n - k) _ (fun i => val (Pt i d)) (fun i => De i d) (val u) (5 * INR k * eps * B) FC Hu ltac:(intros i Hi; apply (Q' i d Hi Hd))).
  unfold spline in X. unfold Pt in X at 1.
  match goal with |- Rabs (?a - ?b) <= _ => match type of X with Rabs (?c - _) <= _ => replace (a - b) with ((a - c) + (c - b)) by ring end end.
  apply Rle_trans with (1 := Rabs_triang _ _).
  rewrite minus_INR in W2 by exact Hk.
  assert (EB : 0 < eps * B) by (apply Rmult_lt_0_compat; assumption).
  assert (X3 : (6 * (INR p - INR k) + 3) * eps * ((1 + 500 * eps) * B) <= (6 * (INR p - INR k) + 4) * (eps * B)).
  { replace ((6 * (INR p - INR k) + 3) * eps * ((1 + 500 * eps) * B)) with (((6 * (INR p - INR k) + 3) * (1 + 500 * eps)) * (eps * B)) by ring.
    apply Rmult_le_compat_r; [lra|]. assert (INR p <= 100) by (replace 100 with (INR 100) by (rewrite INR_IZR_INZ; reflexivity); apply le_INR; exact Hp).
    rewrite Ev. nra. }
  assert (0 <= INR k * (eps * B)) by (apply Rmult_le_pos; lra).
  lra.
Qed.

Lemma box_arith a lo hi s tol : - tol <= a - s <= tol -> lo <= s -> s <= hi -> lo - tol <= a <= hi + tol.
Proof. lra. Qed.

Theorem box_F64 p n dim (U : list f64) P M c (u : f64) j : float_curve p n dim U P M c -> (p <= 100)%nat -> / 2 ^ 1000 <= M <= 2 ^ 1022 ->
  finite u -> (p <= j <= n)%nat -> nth j (map val U) 0 <= val u <= nth (S j) (map val U) 0 ->
  (val u < nth (S j) (map val U) 0 \/ val u = 1 \/ (mult (map val U) (val u) <= p)%nat) ->
  exists v, @evaluate F64 c u = Val (Ok v) /\ length v = dim /\
    forall d lo hi, (d < dim)%nat -> (forall i, (j - p <= i <= j)%nat -> lo <= val (ent P i d) <= hi) ->
      finite (nth d v (@n0 F64)) /\
      lo - (6 * INR p + 3) * / 2 ^ 53 * M <= val (nth d v (@n0 F64)) <= hi + (6 * INR p + 3) * / 2 ^ 53 * M.
Proof.
  intros H Hp HM Fu Hj Hu Hm. assert (C := proj1 (proj2 (proj1 H))). assert (L := cl_len _ _ _ C).
  assert (Hu01 : 0 <= val u <= 1).
  { assert (A := clamped_range _ _ _ (nth j (map val U) 0) C ltac:(apply nth_In; lia)).
    assert (B := clamped_range _ _ _ (nth (S j) (map val U) 0) C ltac:(apply nth_In; lia)). lra. }
  destruct (eval_F64 p n dim U P M c u H Hp HM Fu Hu01) as [v [Ev [Lv Hv]]].
  exists v. split; [exact Ev|]. split; [exact Lv|]. intros d lo hi Hd Hb. destruct (Hv d Hd) as [F1 B1]. split; [exact F1|].
  destruct (hull_weights p n (map val U) j (val u) C Hj Hu Hm) as [w [W1 [W2 W3]]]. rewrite W3 in B1. cbv beta in B1. apply Rabs_le_inv in B1.
  assert (B2 : lo <= rsum (fun i => w i * val (ent P (j - p + i) d)) (S p)).
  { rewrite <- (Rmult_1_l lo), <- W2, <- rsum_scal_r. apply rsum_le. intros i Hi. apply Rmult_le_compat_l; [apply W1; lia|]. apply Hb. lia. }
  assert (B3 : rsum (fun i => w i * val (ent P (j - p + i) d)) (S p) <= hi).
  { rewrite <- (Rmult_1_l hi), <- W2, <- rsum_scal_r. apply rsum_le. intros i Hi. apply Rmult_le_compat_l; [apply W1; lia|]. apply Hb. lia. }
  exact (box_arith _ _ _ _ _ B1 B2 B3).
Qed.
