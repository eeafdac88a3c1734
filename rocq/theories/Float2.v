(** * Basis functions computed in binary64 are close to the exact ones *)

From Coq Require Import ZArith Reals List Bool Arith Lia Lra Psatz.
From Flocq Require Import Core.Core IEEE754.BinarySingleNaN.
From Verif Require Import Num Vec MKnots F64 Lists Hoare Struct Spec BMath BMath2 BMath3 Float1.
Local Open Scope R_scope.

(** [xh] is the non-negative number [x] up to [m] roundings and an absolute error [b] *)
Definition near (m : nat) (b xh x : R) : Prop := 0 <= xh /\ x * / kap ^ m - b <= xh <= x * kap ^ m + b.

Lemma kap_small : kap <= 101 / 100.
Proof. unfold kap. rewrite eps_val. lra. Qed.
Lemma kap3_small : kap ^ 3 <= 11 / 10.
Proof. assert (T := kap_small). assert (P := kap_gt1). simpl. nra. Qed.
Lemma kinv_bounds : 0 < / kap <= 1.
Proof. assert (T := kinv_pos 1). assert (T' := kinv_le1 1). rewrite pow_1 in *. lra. Qed.

Lemma eta_small : eta <= 1 / 100.
Proof.
  unfold eta. apply Rle_trans with (pow2 (-10)); [apply bpow_le; lia|]. simpl. lra.
Qed.

(** a product of two factors close to one *)
Lemma factor_mul m m' g g' : / kap ^ m <= g <= kap ^ m -> / kap ^ m' <= g' <= kap ^ m' ->
  / kap ^ (m + m') <= g * g' <= kap ^ (m + m').
Proof.
  intros [A B] [C D]. rewrite pow_add, Rinv_mult.
  assert (T := kinv_pos m). assert (T' := kinv_pos m'). split; apply Rmult_le_compat; lra.
Qed.
Lemma factor_inv m g : / kap ^ m <= g <= kap ^ m -> / kap ^ m <= / g <= kap ^ m.
Proof.
  intros [A B]. assert (T := kinv_pos m). assert (T' := kpow_pos m). split.
  - apply Rinv_le_contravar; lra.
  - rewrite <- (Rinv_inv (kap ^ m)). apply Rinv_le_contravar; lra.
Qed.
Lemma factor1 g : / kap <= g <= kap -> / kap ^ 1 <= g <= kap ^ 1.
Proof. rewrite pow_1. auto. Qed.

Lemma near_weight a c g1 g2 g3 t wh : 0 <= a -> 0 < c ->
  / kap <= g1 <= kap -> / kap <= g2 <= kap -> / kap <= g3 <= kap -> Rabs t <= eta ->
  0 <= wh -> wh = (a * g1) / (c * g2) * g3 + t -> near 3 eta wh (a / c).
Proof.
  intros Ha Hc H1 H2 H3 Ht H0 E. split; [exact H0|].
  assert (G : / kap ^ 3 <= g1 * / g2 * g3 <= kap ^ 3).
  { apply (factor_mul 2 1); [|apply factor1; exact H3]. apply (factor_mul 1 1); [apply factor1; exact H1|].
    apply factor_inv, factor1. exact H2. }
  assert (P2 : 0 < g2) by (assert (T := kinv_bounds); lra).
  assert (E' : wh = a / c * (g1 * / g2 * g3) + t) by (rewrite E; field; split; lra).
  assert (Q : 0 <= a / c) by (apply Rmult_le_pos; [lra|]; left; apply Rinv_0_lt_compat; exact Hc).
  apply Rabs_le_inv in Ht. rewrite E'. split.
  - assert (a / c * / kap ^ 3 <= a / c * (g1 * / g2 * g3)) by (apply Rmult_le_compat_l; lra). lra.
  - assert (a / c * (g1 * / g2 * g3) <= a / c * kap ^ 3) by (apply Rmult_le_compat_l; lra). lra.
Qed.

Lemma near_prod m b wh w rh r g t : 0 <= w <= 1 -> 0 <= r <= 1 -> 0 <= b <= 1 -> kap ^ m <= 2 ->
  near 3 eta wh w -> near m b rh r -> / kap <= g <= kap -> Rabs t <= eta -> 0 <= wh * rh * g + t ->
  near (m + 4) (2 * b + 6 * eta) (wh * rh * g + t) (w * r).
Proof.
  intros Hw Hr Hb Hm [W0 [W1 W2]] [R0 [R1 R2]] Hg Ht H0. split; [exact H0|].
  assert (K3 := kap3_small). assert (K3' := kpow_ge1 3). assert (Km := kpow_ge1 m). assert (K := kap_small). assert (K' := kap_gt1).
  assert (E := eta_pos). assert (E' := eta_small). assert (I3 := kinv_pos 3). assert (I3' := kinv_le1 3).
  assert (Im := kinv_pos m). assert (Im' := kinv_le1 m). assert (KI := kinv_bounds). apply Rabs_le_inv in Ht.
  assert (Wb : wh <= 12 / 10) by nra. assert (Rb : rh <= 3) by nra.
  replace (m + 4)%nat with (3 + m + 1)%nat by lia.
  rewrite !(pow_add kap (3 + m) 1), !(pow_add kap 3 m), !pow_1.
  assert (P0 : 0 <= wh * rh) by (apply Rmult_le_pos; lra). split.
  - assert (L : (w * / kap ^ 3) * (r * / kap ^ m) <= wh * rh + (12 / 10 * b + 4 * eta)).
    { assert (A1 : 0 <= w * / kap ^ 3) by (apply Rmult_le_pos; lra). assert (A2 : 0 <= r * / kap ^ m) by (apply Rmult_le_pos; lra).
      apply Rle_trans with ((wh + eta) * (rh + b)); [apply Rmult_le_compat; lra|]. nra. }
    rewrite !Rinv_mult.
    assert (A : 0 <= w * / kap ^ 3 * (r * / kap ^ m)) by (apply Rmult_le_pos; apply Rmult_le_pos; lra).
    replace (w * r * (/ kap ^ 3 * / kap ^ m * / kap)) with ((w * / kap ^ 3) * (r * / kap ^ m) * / kap) by ring.
    set (X := w * / kap ^ 3 * (r * / kap ^ m)) in *. set (c := 12 / 10 * b + 4 * eta) in *.
    assert (B1 : X * / kap <= (wh * rh + c) * / kap) by (apply Rmult_le_compat_r; lra).
    assert (B2 : wh * rh * / kap <= wh * rh * g) by (apply Rmult_le_compat_l; lra).
    assert (B3 : c * / kap <= c * 1) by (apply Rmult_le_compat_l; unfold c; lra). unfold c in *. lra.
  - assert (U : wh * rh <= (w * kap ^ 3) * (r * kap ^ m) + (11 / 10 * b + 3 * eta)).
    { apply Rle_trans with ((w * kap ^ 3 + eta) * (r * kap ^ m + b)); [apply Rmult_le_compat; lra|].
      assert (0 <= w * kap ^ 3 <= 11 / 10) by nra. assert (0 <= r * kap ^ m <= 2) by nra. nra. }
    replace (w * r * (kap ^ 3 * kap ^ m * kap)) with ((w * kap ^ 3) * (r * kap ^ m) * kap) by ring.
    set (X := w * kap ^ 3 * (r * kap ^ m)) in *. set (c := 11 / 10 * b + 3 * eta) in *.
    assert (B1 : wh * rh * g <= wh * rh * kap) by (apply Rmult_le_compat_l; lra).
    assert (B2 : wh * rh * kap <= (X + c) * kap) by (apply Rmult_le_compat_r; lra).
    assert (B3 : c * kap <= c * (101 / 100)) by (apply Rmult_le_compat_l; unfold c; lra). unfold c in *. lra.
Qed.

Lemma near_sum m b s1h s1 s2h s2 g : 0 <= b -> near m b s1h s1 -> near m b s2h s2 -> / kap <= g <= kap ->
  near (m + 1) (202 / 100 * b) ((s1h + s2h) * g) (s1 + s2).
Proof.
  intros Hb [P1 [A1 B1]] [P2 [A2 B2]] Hg. assert (K := kap_small). assert (K' := kap_gt1). assert (KI := kinv_bounds).
  assert (Im := kinv_pos m).
  split; [apply Rmult_le_pos; lra|]. rewrite pow_add, pow_1, Rinv_mult. split.
  - replace ((s1 + s2) * (/ kap ^ m * / kap)) with ((s1 * / kap ^ m + s2 * / kap ^ m) * / kap) by ring.
    assert ((s1 * / kap ^ m + s2 * / kap ^ m) * / kap <= (s1h + s2h + 2 * b) * / kap) by (apply Rmult_le_compat_r; lra).
    assert ((s1h + s2h) * / kap <= (s1h + s2h) * g) by (apply Rmult_le_compat_l; lra).
    assert (2 * b * / kap <= 2 * b * 1) by (apply Rmult_le_compat_l; lra). lra.
  - replace ((s1 + s2) * (kap ^ m * kap)) with ((s1 * kap ^ m + s2 * kap ^ m) * kap) by ring.
    assert ((s1h + s2h) * g <= (s1h + s2h) * kap) by (apply Rmult_le_compat_l; lra).
    assert ((s1h + s2h) * kap <= (s1 * kap ^ m + s2 * kap ^ m + 2 * b) * kap) by (apply Rmult_le_compat_r; lra).
    assert (2 * b * kap <= 2 * b * (101 / 100)) by (apply Rmult_le_compat_l; lra). lra.
Qed.

Lemma near_weaken m b b' xh x : b <= b' -> near m b xh x -> near m b' xh x.
Proof. intros H [A B]. split; [exact A|lra]. Qed.
Lemma near_0 m b : 0 <= b -> near m b 0 0.
Proof. intros H. split; lra. Qed.

(** the absolute error after [q] levels *)
Definition abserr (q : nat) : R := 4 * (6 ^ q - 1) * eta.

Lemma abserr_nonneg q : 0 <= abserr q.
Proof.
  unfold abserr. assert (1 <= 6 ^ q) by (apply pow_R1_Rle; lra). assert (E := eta_pos).
  apply Rmult_le_pos; lra.
Qed.

Lemma pow8 q : 8 ^ q = pow2 (3 * Z.of_nat q).
Proof.
  induction q as [|q IH]; [reflexivity|]. cbn [pow]. rewrite IH.
  replace (3 * Z.of_nat (S q))%Z with (3 + 3 * Z.of_nat q)%Z by lia. rewrite bpow_plus. reflexivity.
Qed.

Lemma abserr_bound q : (q <= 100)%nat -> abserr q <= pow2 (-770).
Proof.
  intros H. unfold abserr. assert (E := eta_pos).
  assert (A : 6 ^ q <= pow2 300).
  { apply Rle_trans with (8 ^ q); [apply pow_incr; lra|]. rewrite pow8. apply bpow_le. lia. }
  apply Rle_trans with (4 * pow2 300 * eta); [apply Rmult_le_compat_r; lra|].
  change 4 with (pow2 2). unfold eta. rewrite <- !bpow_plus. apply bpow_le. lia.
Qed.

Lemma abserr_le1 q : (q <= 100)%nat -> abserr q <= 1.
Proof. intros H. apply Rle_trans with (1 := abserr_bound q H). change 1 with (pow2 0). apply bpow_le. lia. Qed.

Lemma abserr_step q : 202 / 100 * (2 * abserr q + 6 * eta) <= abserr (S q).
Proof.
  unfold abserr. cbn [pow]. assert (E := eta_pos). assert (1 <= 6 ^ q) by (apply pow_R1_Rle; lra).
  assert (0 <= (6 ^ q - 1) * eta) by (apply Rmult_le_pos; lra). nra.
Qed.

Lemma eps_count q c : (q <= 1000)%nat -> (c <= 1000)%nat -> INR (q * c) * eps <= 1 / 2.
Proof.
  intros Hq Hc. rewrite eps_val. assert (INR (q * c) <= 1000000).
  { replace 1000000 with (INR (1000 * 1000)) by (rewrite mult_INR, INR_IZR_INZ; simpl; lra). apply le_INR. apply Nat.mul_le_mono; assumption. }
  lra.
Qed.

Section Basis.
  Variables (v : list f64) (n k j : nat) (u : f64).
  Let V : list R := map val v.
  Hypothesis Hfin : forall x, In x v -> fin x = true.
  Hypothesis Hmono : mono (kfun V).
  Hypothesis Hrange : forall x, In x V -> 0 <= x <= 1.
  Hypothesis Hgap : forall i, (i + 1 < length v)%nat -> nth i V 0 <> nth (i + 1) V 0 -> pow2 (-1000) <= nth (i + 1) V 0 - nth i V 0.
  Hypothesis Hu : fin u = true.
  Hypothesis Hu01 : 0 <= val u <= 1.
  Hypothesis Hkn : (k <= n)%nat.
  Hypothesis Hlen : (n + 1 - k < length v)%nat.
  Hypothesis Hj : (j <= n - k)%nat.
  Hypothesis Hspan : in_span (kfun V) (n - k) (val u) j.
  Hypothesis Hdelta : forall i, span_ind (kfun V) (n - k) (val u) i = delta j i.

  Let LV : length V = length v. Proof. apply map_length. Qed.

  Lemma V_nth i : (i < length v)%nat -> nth i V 0 = val (nth i v (@n0 F64)).
  Proof. intros H. unfold V. rewrite (nth_indep _ 0 (val (@n0 F64))) by (rewrite map_length; exact H). apply map_nth. Qed.
  Lemma V_kfun i : (i < length v)%nat -> kfun V i = val (nth i v (@n0 F64)).
  Proof. intros H. rewrite kfun_nth by (rewrite LV; exact H). apply V_nth. exact H. Qed.
  Lemma v_fin i : (i < length v)%nat -> fin (nth i v (@n0 F64)) = true.
  Proof. intros H. apply Hfin, nth_In. exact H. Qed.
  Lemma v_range i : (i < length v)%nat -> 0 <= val (nth i v (@n0 F64)) <= 1.
  Proof. intros H. rewrite <- V_nth by exact H. apply Hrange, nth_In. rewrite LV. exact H. Qed.

  Lemma v_mono a b : (a <= b < length v)%nat -> val (nth a v (@n0 F64)) <= val (nth b v (@n0 F64)).
  Proof using Hmono. clear Hspan Hdelta Hkn Hlen Hj. intros H. rewrite <- !V_kfun by lia. apply Hmono. lia. Qed.

  Lemma gap a b : (a <= b < length v)%nat -> val (nth a v (@n0 F64)) <> val (nth b v (@n0 F64)) ->
    pow2 (-1000) <= val (nth b v (@n0 F64)) - val (nth a v (@n0 F64)).
  Proof using Hmono Hgap. clear Hspan Hdelta Hkn Hlen Hj.
    intros [H1 H2]. induction H1 as [|b H1 IH]; [congruence|]. intros Hne.
    assert (M1 := v_mono a b ltac:(lia)). assert (M2 := v_mono b (S b) ltac:(lia)).
    destruct (Req_dec (val (nth b v (@n0 F64))) (val (nth (S b) v (@n0 F64)))) as [E|E].
    - rewrite <- E. apply IH; [lia|]. congruence.
    - assert (G := Hgap b ltac:(lia)). rewrite !V_nth in G by lia. replace (b + 1)%nat with (S b) in G by lia.
      specialize (G E). lra.
  Qed.

  (** a weight of the recursion: numerator [d], denominator from knots [a < b] *)
  Lemma weight_ok a b (d : f64) x : (a <= b < length v)%nat -> val (nth a v (@n0 F64)) <> val (nth b v (@n0 F64)) ->
    fin d = true -> val d = rnd x -> Rabs x <= 1 -> 
    let dn := Bminus mode_NE (nth b v (@n0 F64)) (nth a v (@n0 F64)) in
    fin (Bdiv mode_NE d dn) = true /\
    ((exists y z, x = y - z /\ fmt y /\ fmt z) -> 0 <= x ->
      near 3 eta (val (Bdiv mode_NE d dn)) (x / (val (nth b v (@n0 F64)) - val (nth a v (@n0 F64))))).
  Proof using Hfin Hmono Hrange Hgap. clear Hspan Hdelta Hkn Hlen Hj.
    intros Hab Hne Hd Ed Hx dn. assert (G := gap a b Hab Hne).
    assert (Ra := v_range a ltac:(lia)). assert (Rb := v_range b ltac:(lia)).
    set (xa := nth a v (@n0 F64)) in *. set (xb := nth b v (@n0 F64)) in *.
    destruct (sub_ok xb xa 0 ltac:(lia)) as [F1 E1]; [apply v_fin; lia|apply v_fin; lia|simpl; rewrite Rabs_pos_eq; assert (T := bpow_gt_0 radix2 (-1000)); lra|].
    fold dn in F1, E1.
    destruct (rnd_minus (val xb) (val xa) (fmt_val _) (fmt_val _)) as [g2 [Hg2 Eg2]]. rewrite Eg2 in E1.
    assert (T := bpow_gt_0 radix2 (-1000)). assert (KI := kinv_bounds). assert (KS := kap_small).
    assert (Pdn : 0 < val dn) by (rewrite E1; apply Rmult_lt_0_compat; lra).
    assert (Ldn : pow2 (-1001) <= val dn).
    { rewrite E1. apply Rle_trans with (pow2 (-1000) * / 2); [change (/ 2) with (pow2 (-1)); rewrite <- bpow_plus; apply bpow_le; lia|].
      apply Rmult_le_compat; try lra. apply Rle_trans with (/ kap); [|lra]. apply Rinv_le_contravar; [apply kap_pos|lra]. }
    assert (Bd : Rabs (val d) <= pow2 0) by (rewrite Ed; apply rnd_abs_le; [lia|exact Hx]).
    assert (Bq : Rabs (val d / val dn) <= pow2 1001).
    { unfold Rdiv. rewrite Rabs_mult, Rabs_inv, (Rabs_pos_eq (val dn)) by lra.
      replace (pow2 1001) with (pow2 0 * / pow2 (-1001)) by (rewrite <- bpow_opp, <- bpow_plus; reflexivity).
      apply Rmult_le_compat; [apply Rabs_pos|left; apply Rinv_0_lt_compat; exact Pdn|exact Bd|].
      apply Rinv_le_contravar; [apply bpow_gt_0|exact Ldn]. }
    destruct (div_ok d dn 1001 ltac:(lia) Hd ltac:(lra) Bq) as [F2 E2]. split; [exact F2|].
    intros [y [z [Exyz [Fy Fz]]]] Hx0. destruct (rnd_minus y z Fy Fz) as [g1 [Hg1 Eg1]]. rewrite <- Exyz in Eg1.
    destruct (rnd_any (val d / val dn)) as [g3 [t [Hg3 [Ht Eg3]]]].
    apply (near_weight x (val xb - val xa) g1 g2 g3 t); try assumption; try lra.
    - rewrite E2. apply rnd_ge0. apply Rmult_le_pos; [rewrite Ed; apply rnd_ge0; exact Hx0|left; apply Rinv_0_lt_compat; exact Pdn].
    - rewrite E2, Eg3, Ed, Eg1, E1. reflexivity.
  Qed.

  (** one summand of the recursion *)
  Lemma summand_ok q i a b (d : f64) x (rh : f64) r : (q < 100)%nat -> (a <= b < length v)%nat -> 
    val (nth a v (@n0 F64)) <> val (nth b v (@n0 F64)) ->
    fin d = true -> val d = rnd x -> Rabs x <= 1 -> (exists y z, x = y - z /\ fmt y /\ fmt z) ->
    fin rh = true -> near (5 * q) (abserr q) (val rh) r -> 0 <= r <= 1 -> ((j < i \/ i + q < j)%nat -> val rh = 0 /\ r = 0) ->
    ((i <= j <= i + q)%nat -> 0 <= x <= val (nth b v (@n0 F64)) - val (nth a v (@n0 F64))) ->
    let s := Bmult mode_NE (Bdiv mode_NE d (Bminus mode_NE (nth b v (@n0 F64)) (nth a v (@n0 F64)))) rh in
    fin s = true /\ near (5 * q + 4) (2 * abserr q + 6 * eta) (val s) (x / (val (nth b v (@n0 F64)) - val (nth a v (@n0 F64))) * r) /\
    ((j < i \/ i + q < j)%nat -> val s = 0).
  Proof.
    intros Hq Hab Hne Hd Ed Hx Hdiff Hrh Nr Hr Hz Hin s.
    destruct (weight_ok a b d x Hab Hne Hd Ed Hx) as [F1 N1]. specialize (N1 Hdiff).
    set (w := Bdiv mode_NE d (Bminus mode_NE (nth b v (@n0 F64)) (nth a v (@n0 F64)))) in *.
    set (den := val (nth b v (@n0 F64)) - val (nth a v (@n0 F64))) in *.
    assert (E := eta_pos). assert (A0 := abserr_nonneg q).
    destruct (le_lt_dec i j) as [H1|H1]; [destruct (le_lt_dec j (i + q)) as [H2|H2]|].
    2,3: (destruct (Hz ltac:(lia)) as [Z1 Z2];
      assert (P0 : Rabs (val w * val rh) <= pow2 0) by (rewrite Z1, Rmult_0_r, Rabs_R0; apply bpow_ge_0);
      destruct (mul_ok w rh 0 ltac:(lia) F1 Hrh P0) as [F2 E2]; rewrite Z1, Rmult_0_r, rnd_0 in E2;
      split; [exact F2|]; split; [|intros _; exact E2];
      unfold s; rewrite E2, Z2, Rmult_0_r; apply near_0; lra).
    specialize (Hin ltac:(lia)). specialize (N1 ltac:(lra)).
    assert (G := gap a b Hab Hne). assert (T := bpow_gt_0 radix2 (-1000)). fold den in G.
    assert (Hw : 0 <= x / den <= 1).
    { split; [apply Rmult_le_pos; [lra|left; apply Rinv_0_lt_compat; lra]|].
      apply (Rmult_le_reg_r den); [lra|]. unfold Rdiv. rewrite Rmult_assoc, Rinv_l by lra. lra. }
    assert (K2 : kap ^ (5 * q) <= 2) by (apply kpow_le2; apply eps_count; lia).
    assert (A1 := abserr_le1 q ltac:(lia)).
    assert (Wb : val w <= 2).
    { destruct N1 as [_ [_ N1]]. assert (K3 := kap3_small). assert (Es := eta_small). assert (K3' := kpow_ge1 3). nra. }
    assert (Rb : val rh <= 3).
    { destruct Nr as [_ [_ N2]]. assert (K3' := kpow_ge1 (5 * q)). nra. }
    assert (W0 : 0 <= val w) by apply N1. assert (R0 : 0 <= val rh) by apply Nr.
    assert (P0 : Rabs (val w * val rh) <= pow2 3).
    { rewrite Rabs_pos_eq by (apply Rmult_le_pos; lra). simpl. nra. }
    destruct (mul_ok w rh 3 ltac:(lia) F1 Hrh P0) as [F2 E2]. split; [exact F2|].
    split; [|intros Hc; exfalso; lia].
    destruct (rnd_any (val w * val rh)) as [g [t [Hg [Ht Eg]]]].
    assert (S0 : 0 <= val w * val rh * g + t) by (rewrite <- Eg; apply rnd_ge0, Rmult_le_pos; lra).
    unfold s. rewrite E2, Eg. apply (near_prod (5 * q) (abserr q)); try assumption. lra.
  Qed.

  Lemma Hle : kfun V j <= val u <= kfun V (S j).
  Proof. destruct Hspan as [? [? [?|[E ?]]]]; [lra|]. rewrite E in *. lra. Qed.

  Lemma bspline_cox q i : bspline (kfun V) (n - k) q i (val u) = cox (delta j) (kfun V) q i (val u).
  Proof. unfold bspline. apply cox_ext; [|reflexivity]. intros b _. apply Hdelta. Qed.

  Lemma bspline_01 q i : (q <= j)%nat -> 0 <= bspline (kfun V) (n - k) q i (val u) <= 1.
  Proof.
    intros Hq. assert (L := Hle).
    assert (NN : forall i, 0 <= cox (delta j) (kfun V) q i (val u)) by (intros; apply piece_nonneg; assumption).
    rewrite bspline_cox. split; [apply NN|].
    assert (PS := piece_sum (kfun V) Hmono j (proj1 Hspan) q (val u) (S (i + j)) Hq ltac:(lia)).
    replace (S (i + j)) with (i + S j)%nat in PS by lia. rewrite rsum_add, rsum_first, Nat.add_0_r in PS.
    assert (A := rsum_nonneg (fun i => cox (delta j) (kfun V) q i (val u)) i (fun a _ => NN a)).
    assert (B := rsum_nonneg (fun a => cox (delta j) (kfun V) q (i + S a) (val u)) j (fun a _ => NN (i + S a)%nat)).
    lra.
  Qed.

  Lemma bspline_off q i : (j < i \/ i + q < j)%nat -> bspline (kfun V) (n - k) q i (val u) = 0.
  Proof. intros H. rewrite bspline_cox. apply piece_support. exact H. Qed.

  Lemma vg i : (i < length v)%nat -> @vget (T F64) v i = Val (nth i v (@n0 F64)).
  Proof. intros H. apply (@vget_nth (T F64)). exact H. Qed.

  Lemma basis_near : forall q i, (q <= 100)%nat -> (q <= j)%nat -> (i + q + 1 < length v)%nat ->
    exists b, basis v q i k n u = Val b /\ fin b = true /\
      near (5 * q) (abserr q) (val b) (bspline (kfun V) (n - k) q i (val u)) /\
      ((j < i \/ i + q < j)%nat -> val b = 0).
  Proof.
    assert (Z0 := n0_ok). assert (Z1 := n1_ok). assert (LE := Hle).
    induction q as [|h IH]; intros i Hq Hqj Hi.
    - exists (if (i =? j)%nat then @n1 F64 else @n0 F64). split.
      + cbn [basis]. rewrite (vg i) by lia. cbn [bind].
        assert (D := Hdelta i). unfold span_ind, delta in D. rewrite V_kfun in D by lia.
        rewrite (V_kfun (S i)) in D by lia. rewrite (V_kfun (S (n - k))) in D by lia.
        cbn [nleb F64]. rewrite leb_val by (try apply v_fin; try exact Hu; lia).
        rewrite (vg (i + 1)) by lia. cbn [bind].
        cbn [nltb F64]. rewrite ltb_val by (try apply v_fin; try exact Hu; lia).
        rewrite (usub_ok n k) by lia. rewrite (usub_ok (n + 1) k) by lia. cbn [bind].
        rewrite (vg (n + 1 - k)) by lia. cbn [bind].
        cbn [neqb F64]. rewrite eqb_val by (try apply v_fin; try exact Hu; lia).
        replace (n + 1 - k)%nat with (S (n - k)) by lia. replace (i + 1)%nat with (S i) by lia.
        destruct (Rle_bool_spec (val (nth i v (@n0 F64))) (val u)) as [H1|H1].
        * cbn [bind]. destruct (Rlt_bool_spec (val u) (val (nth (S i) v (@n0 F64)))) as [H2|H2].
          -- destruct (Rle_dec _ _) as [X|X]; [|lra]. destruct (Rlt_dec _ _) as [Y|Y]; [|lra].
             destruct (i =? j)%nat; [reflexivity|lra].
          -- destruct (Rle_dec _ _) as [X|X]; [|lra]. destruct (Rlt_dec _ _) as [Y|Y]; [lra|].
             destruct (i =? n - k)%nat eqn:Ei.
             ++ destruct (Req_bool_spec (val u) (val (nth (S (n - k)) v (@n0 F64)))) as [H3|H3];
                destruct (Req_EM_T _ _) as [W|W]; try contradiction; destruct (i =? j)%nat; try lra; reflexivity.
             ++ destruct (i =? j)%nat; [lra|reflexivity].
        * cbn [bind]. destruct (Rle_dec _ _) as [X|X]; [lra|]. destruct (i =? j)%nat eqn:Ej; [lra|].
          destruct (i =? n - k)%nat eqn:Ei; [|reflexivity].
          destruct (Req_bool_spec (val u) (val (nth (S (n - k)) v (@n0 F64)))) as [H3|H3]; [|reflexivity].
          apply Nat.eqb_eq in Ei. subst i. assert (M := v_mono (n - k) (S (n - k)) ltac:(lia)). lra.
      + unfold bspline. cbn [cox]. rewrite Hdelta. unfold delta.
        destruct (i =? j)%nat eqn:Ei.
        * split; [apply Z1|]. split; [|intros H; apply Nat.eqb_eq in Ei; lia].
          rewrite (proj2 Z1). unfold near, abserr. simpl. lra.
        * split; [apply Z0|]. split; [|intros _; apply Z0]. rewrite (proj2 Z0). apply near_0, abserr_nonneg.
    - destruct (IH i ltac:(lia) ltac:(lia) ltac:(lia)) as [r1 [E1 [F1 [N1 O1]]]].
      destruct (IH (i + 1)%nat ltac:(lia) ltac:(lia) ltac:(lia)) as [r2 [E2 [F2 [N2 O2]]]].
      cbn [basis]. replace (i + h + 1)%nat with (i + S h)%nat by lia. replace (i + 1 + h + 1)%nat with (i + 1 + S h)%nat by lia.
      rewrite !(vg _) by lia. cbn [bind ndiv F64 neqb nsub nmul nadd]. rewrite E1, E2. cbn [bind].
      rewrite !eqb_val by (apply v_fin; lia).
      unfold bspline in *. cbn [cox].
      replace (S i + S h)%nat with (i + 1 + S h)%nat by lia. replace (S i) with (i + 1)%nat by lia.
      rewrite !V_kfun by lia.
      set (c1 := cox (span_ind (kfun V) (n - k) (val u)) (kfun V) h i (val u)) in *.
      set (c2 := cox (span_ind (kfun V) (n - k) (val u)) (kfun V) h (i + 1) (val u)) in *.
      assert (C1 : 0 <= c1 <= 1) by (apply bspline_01; lia).
      assert (C2 : 0 <= c2 <= 1) by (apply bspline_01; lia).
      assert (Ru := Hu01). assert (A0 := abserr_nonneg h). assert (Ep := eta_pos).
      assert (S1 : exists s1, (if Req_bool (val (nth (i + S h) v (@n0 F64))) (val (nth i v (@n0 F64))) then Val (@n0 F64)
          else Val (Bmult mode_NE (Bdiv mode_NE (Bminus mode_NE u (nth i v (@n0 F64)))
                 (Bminus mode_NE (nth (i + S h) v (@n0 F64)) (nth i v (@n0 F64)))) r1)) = Val s1 /\ fin s1 = true /\
          near (5 * h + 4) (2 * abserr h + 6 * eta) (val s1)
            (ratio (val u - val (nth i v (@n0 F64))) (val (nth (i + S h) v (@n0 F64)) - val (nth i v (@n0 F64))) * c1) /\
          ((j < i \/ i + h < j)%nat -> val s1 = 0)).
      { unfold ratio.
        assert (Ri := v_range i ltac:(lia)).
        destruct (Req_bool_spec (val (nth (i + S h) v (@n0 F64))) (val (nth i v (@n0 F64)))) as [Q|Q].
        - exists (@n0 F64). split; [reflexivity|]. split; [apply Z0|]. split; [|intros _; apply Z0].
          destruct (Req_EM_T _ _) as [_|X]; [|lra]. rewrite (proj2 Z0), Rmult_0_l. apply near_0. lra.
        - destruct (sub_ok u (nth i v (@n0 F64)) 0 ltac:(lia) Hu (v_fin i ltac:(lia))) as [Fd Ed];
            [change (pow2 0) with 1; apply Rabs_le; lra|].
          destruct (Req_EM_T _ _) as [X|_]; [lra|].
          destruct (summand_ok h i i (i + S h) _ _ r1 c1 ltac:(lia) ltac:(lia) (not_eq_sym Q) Fd Ed) as [X1 [X2 X3]];
            [apply Rabs_le; lra|exists (val u), (val (nth i v (@n0 F64))); split; [reflexivity|split; apply fmt_val]|exact F1|exact N1|exact C1| | |].
          + intros H. split; [apply O1; exact H|]. apply bspline_off. exact H.
          + intros H. assert (M1 := Hmono i j ltac:(lia)). assert (M2 := Hmono (S j) (i + S h)%nat ltac:(lia)).
            rewrite V_kfun in M1 by lia. rewrite (V_kfun (i + S h)) in M2 by lia. lra.
          + eexists. split; [reflexivity|]. split; [exact X1|]. split; [exact X2|exact X3]. }
      assert (S2 : exists s2, (if Req_bool (val (nth (i + 1 + S h) v (@n0 F64))) (val (nth (i + 1) v (@n0 F64))) then Val (@n0 F64)
          else Val (Bmult mode_NE (Bdiv mode_NE (Bminus mode_NE (nth (i + 1 + S h) v (@n0 F64)) u)
                 (Bminus mode_NE (nth (i + 1 + S h) v (@n0 F64)) (nth (i + 1) v (@n0 F64)))) r2)) = Val s2 /\ fin s2 = true /\
          near (5 * h + 4) (2 * abserr h + 6 * eta) (val s2)
            (ratio (val (nth (i + 1 + S h) v (@n0 F64)) - val u) (val (nth (i + 1 + S h) v (@n0 F64)) - val (nth (i + 1) v (@n0 F64))) * c2) /\
          ((j < i + 1 \/ i + 1 + h < j)%nat -> val s2 = 0)).
      { unfold ratio.
        assert (Ri := v_range (i + 1 + S h) ltac:(lia)).
        destruct (Req_bool_spec (val (nth (i + 1 + S h) v (@n0 F64))) (val (nth (i + 1) v (@n0 F64)))) as [Q|Q].
        - exists (@n0 F64). split; [reflexivity|]. split; [apply Z0|]. split; [|intros _; apply Z0].
          destruct (Req_EM_T _ _) as [_|X]; [|lra]. rewrite (proj2 Z0), Rmult_0_l. apply near_0. lra.
        - destruct (sub_ok (nth (i + 1 + S h) v (@n0 F64)) u 0 ltac:(lia) (v_fin (i + 1 + S h) ltac:(lia)) Hu) as [Fd Ed];
            [change (pow2 0) with 1; apply Rabs_le; lra|].
          destruct (Req_EM_T _ _) as [X|_]; [lra|].
          destruct (summand_ok h (i + 1) (i + 1) (i + 1 + S h) _ _ r2 c2 ltac:(lia) ltac:(lia) (not_eq_sym Q) Fd Ed) as [X1 [X2 X3]];
            [apply Rabs_le; lra|exists (val (nth (i + 1 + S h) v (@n0 F64))), (val u); split; [reflexivity|split; apply fmt_val]|exact F2|exact N2|exact C2| | |].
          + intros H. split; [apply O2; exact H|]. apply bspline_off. exact H.
          + intros H. assert (M1 := Hmono (i + 1)%nat j ltac:(lia)). assert (M2 := Hmono (S j) (i + 1 + S h)%nat ltac:(lia)).
            rewrite V_kfun in M1 by lia. rewrite (V_kfun (i + 1 + S h)) in M2 by lia. lra.
          + eexists. split; [reflexivity|]. split; [exact X1|]. split; [exact X2|exact X3]. }
      destruct S1 as [s1 [Es1 [Fs1 [Ns1 Os1]]]]. destruct S2 as [s2 [Es2 [Fs2 [Ns2 Os2]]]].
      match goal with |- context [bind (if ?b then ?x else ?y) _] => replace (if b then x else y) with (@Val (T F64) s1) by (symmetry; exact Es1) end.
      cbn [bind].
      match goal with |- context [bind (if ?b then ?x else ?y) _] => replace (if b then x else y) with (@Val (T F64) s2) by (symmetry; exact Es2) end.
      cbn [bind].
      set (x1 := ratio (val u - _) _ * c1) in *. set (x2 := ratio (_ - val u) _ * c2) in *.
      assert (X01 : 0 <= x1 + x2 <= 1).
      { assert (T := bspline_01 (S h) i ltac:(lia)). unfold bspline in T. cbn [cox] in T.
        replace (S i + S h)%nat with (i + 1 + S h)%nat in T by lia. replace (S i) with (i + 1)%nat in T by lia.
        rewrite !V_kfun in T by lia. exact T. }
      assert (A1 := abserr_le1 (S h) Hq). assert (A2 := abserr_step h).
      assert (K2 : kap ^ (5 * h + 4) <= 2).
      { apply kpow_le2. apply Rle_trans with (INR (1000 * 1) * eps); [|apply eps_count; lia].
        apply Rmult_le_compat_r; [left; apply eps_pos|]. apply le_INR. lia. }
      assert (P1 : 0 <= val s1) by apply Ns1. assert (P2 : 0 <= val s2) by apply Ns2.
      assert (PX : Rabs (val s1 + val s2) <= pow2 3).
      { rewrite Rabs_pos_eq by lra. destruct Ns1 as [_ [_ U1]]. destruct Ns2 as [_ [_ U2]].
        assert ((x1 + x2) * kap ^ (5 * h + 4) <= 1 * 2) by (apply Rmult_le_compat; try lra; left; apply kpow_pos).
        simpl. lra. }
      destruct (add_ok s1 s2 3 ltac:(lia) Fs1 Fs2 PX) as [Fs Es].
      eexists. split; [reflexivity|]. split; [exact Fs|]. rewrite Es.
      destruct (rnd_plus (val s1) (val s2) (fmt_val _) (fmt_val _)) as [g [Hg Eg]].
      split.
      + rewrite Eg. replace (5 * S h)%nat with (5 * h + 4 + 1)%nat by lia.
        apply near_weaken with (1 := A2). apply near_sum; try assumption. lra.
      + intros H. rewrite Os1, Os2 by lia. rewrite Rplus_0_l. apply rnd_0.
  Qed.
End Basis.
