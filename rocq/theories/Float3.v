(** * Curve evaluation in binary64 is close to the exact evaluation *)

From Coq Require Import ZArith Reals List Bool Arith Lia Lra Psatz.
From Flocq Require Import Core.Core IEEE754.BinarySingleNaN.
From Verif Require Import Num Vec MKnots MPoints MCurve F64 Lists Hoare Struct Spec BMath BMath2 BMath3 Api Float1 Float2.
Import ListNotations.
Local Open Scope R_scope.

(** ** One step of the sum, on one coordinate *)
Definition sumerr (m c : nat) (beta W : R) : R := W * (kap ^ (m + 1 + c) - 1) + INR c * beta * kap ^ c.

Lemma near_abs m b xh x : 0 <= x -> near m b xh x -> Rabs (xh - x) <= x * (kap ^ m - 1) + b.
Proof.
  intros Hx [_ [A B]]. assert (K := kpow_ge1 m). assert (K0 := kpow_pos m).
  assert (I : 2 - kap ^ m <= / kap ^ m).
  { apply (Rmult_le_reg_r (kap ^ m)); [exact K0|]. rewrite Rinv_l by lra. nra. }
  assert (x * (2 - kap ^ m) <= x * / kap ^ m) by (apply Rmult_le_compat_l; lra).
  apply Rabs_le. lra.
Qed.

Lemma factor_abs g : / kap <= g <= kap -> Rabs (g - 1) <= kap - 1 /\ 0 < g.
Proof.
  intros H. assert (K := kap_gt1). assert (I : 2 - kap <= / kap).
  { apply (Rmult_le_reg_r kap); [lra|]. rewrite Rinv_l by lra. nra. }
  assert (T := kinv_bounds). split; [apply Rabs_le; lra|lra].
Qed.

(** a product [N_i * P_i] *)
Lemma prod_err m b N nh P M g t : 0 <= N -> 0 <= b -> near m b nh N -> Rabs P <= M ->
  / kap <= g <= kap -> Rabs t <= eta ->
  Rabs (nh * P * g + t - N * P) <= N * M * (kap ^ (m + 1) - 1) + (b * M * kap + eta).
Proof.
  intros HN Hb Hn HP Hg Ht. assert (A := near_abs m b nh N HN Hn). destruct (factor_abs g Hg) as [G G0].
  replace (nh * P * g + t - N * P) with ((nh - N) * P * g + N * P * (g - 1) + t) by ring.
  assert (M0 : 0 <= M) by (apply Rle_trans with (2 := HP); apply Rabs_pos).
  apply Rle_trans with (1 := Rabs_triang _ _). assert (H1 := Rabs_triang ((nh - N) * P * g) (N * P * (g - 1))).
  rewrite !Rabs_mult in H1. rewrite (Rabs_pos_eq N HN), (Rabs_pos_eq g) in H1 by lra.
  assert (K := kap_gt1). assert (Km := kpow_ge1 m).
  set (X := N * (kap ^ m - 1) + b) in *.
  assert (H2 : Rabs (nh - N) * Rabs P * g <= X * M * kap).
  { apply Rmult_le_compat; try lra; [apply Rmult_le_pos; apply Rabs_pos|]. apply Rmult_le_compat; try apply Rabs_pos; assumption. }
  assert (H3 : N * Rabs P * Rabs (g - 1) <= N * M * (kap - 1)).
  { apply Rmult_le_compat; try apply Rabs_pos; try assumption; [apply Rmult_le_pos; [lra|apply Rabs_pos]|apply Rmult_le_compat_l; assumption]. }
  rewrite pow_add, pow_1. unfold X in H2. lra.
Qed.

Lemma sum_err m c beta W T0 s a aP M p g : 0 <= beta -> 0 <= W -> 0 <= a -> 0 <= M -> Rabs aP <= a * M -> Rabs T0 <= W ->
  Rabs (s - T0) <= sumerr m c beta W -> Rabs (p - aP) <= a * M * (kap ^ (m + 1) - 1) + beta -> / kap <= g <= kap ->
  Rabs (s + p - (T0 + aP)) <= sumerr m (S c) beta (W + a * M) /\
  Rabs ((s + p) * g - (T0 + aP)) <= sumerr m (S c) beta (W + a * M).
Proof.
  intros Hb HW Ha HM HaP HT Hs Hp Hg. destruct (factor_abs g Hg) as [G G0]. assert (K := kap_gt1).
  assert (AM : 0 <= a * M) by (apply Rmult_le_pos; assumption).
  assert (B1 : Rabs (s + p - (T0 + aP)) <= (W + a * M) * (kap ^ (m + 1 + c) - 1) + INR (S c) * beta * kap ^ c).
  { replace (s + p - (T0 + aP)) with ((s - T0) + (p - aP)) by ring. apply Rle_trans with (1 := Rabs_triang _ _).
    rewrite S_INR. unfold sumerr in Hs.
    assert (a * M * (kap ^ (m + 1) - 1) <= a * M * (kap ^ (m + 1 + c) - 1)).
    { apply Rmult_le_compat_l; [exact AM|]. assert (T := kpow_mono (m + 1) (m + 1 + c) ltac:(lia)). lra. }
    assert (beta <= beta * kap ^ c) by (assert (T := kpow_ge1 c); nra). lra. }
  assert (P1 : 0 <= (W + a * M) * (kap ^ (m + 1 + c) - 1)).
  { apply Rmult_le_pos; [lra|]. assert (T := kpow_ge1 (m + 1 + c)). lra. }
  assert (P2 : 0 <= INR (S c) * beta * kap ^ c).
  { apply Rmult_le_pos; [apply Rmult_le_pos; [apply pos_INR|exact Hb]|left; apply kpow_pos]. }
  assert (EQ : sumerr m (S c) beta (W + a * M) =
    ((W + a * M) * (kap ^ (m + 1 + c) - 1) + INR (S c) * beta * kap ^ c) * kap + (W + a * M) * (kap - 1)).
  { unfold sumerr. replace (m + 1 + S c)%nat with (S (m + 1 + c)) by lia. cbn [pow]. ring. }
  assert (P3 : 0 <= (W + a * M) * (kap - 1)) by (apply Rmult_le_pos; lra).
  split.
  - rewrite EQ. nra.
  - replace ((s + p) * g - (T0 + aP)) with ((s + p - (T0 + aP)) * g + (T0 + aP) * (g - 1)) by ring.
    apply Rle_trans with (1 := Rabs_triang _ _). rewrite !Rabs_mult, (Rabs_pos_eq g) by lra. rewrite EQ.
    apply Rplus_le_compat; apply Rmult_le_compat; try apply Rabs_pos; try lra.
    apply Rle_trans with (1 := Rabs_triang _ _). lra.
Qed.

(** ** The size of the accumulated error *)
Lemma sumerr_total p c b M : (p <= 100)%nat -> (c <= p + 1)%nat -> b = abserr p -> pow2 (-1000) <= M ->
  sumerr (5 * p) c (b * M * kap + eta) M <= (6 * INR p + 3) * eps * M.
Proof.
  intros Hp Hc -> HM. assert (M0 : 0 < M) by (apply Rlt_le_trans with (2 := HM); apply bpow_gt_0).
  unfold sumerr. assert (Ep := eps_pos).
  assert (Ip : 0 <= INR p <= 100) by (split; [apply pos_INR|replace 100 with (INR 100) by (rewrite INR_IZR_INZ; reflexivity); apply le_INR; exact Hp]).
  set (N := (5 * p + 1 + c)%nat).
  assert (IN : INR N <= 6 * INR p + 2).
  { replace (6 * INR p + 2) with (INR (6 * p + 2)) by (rewrite plus_INR, mult_INR, !(INR_IZR_INZ 6), (INR_IZR_INZ 2); simpl; lra).
    apply le_INR. unfold N. lia. }
  assert (N0 := pos_INR N). assert (Ev := eps_val).
  assert (KB : kap ^ N <= 1 + INR N * eps + (INR N * eps) ^ 2) by (apply kpow_bound; rewrite Ev; lra).
  assert (Q : (INR N * eps) ^ 2 <= eps / 2).
  { replace ((INR N * eps) ^ 2) with (INR N * INR N * eps * eps) by ring.
    assert (INR N * INR N * eps <= 1 / 2).
    { assert (INR N * INR N <= 1000 * 1000) by (apply Rmult_le_compat; lra).
      apply Rle_trans with (1000 * 1000 * eps); [apply Rmult_le_compat_r; lra|]. rewrite Ev. lra. }
    apply Rle_trans with (1 / 2 * eps); [apply Rmult_le_compat_r; lra|lra]. }
  assert (T1 : M * (kap ^ N - 1) <= M * (INR N * eps + eps / 2)) by (apply Rmult_le_compat_l; lra).
  assert (C2 : kap ^ c <= 2).
  { apply kpow_le2. replace c with (c * 1)%nat by lia. apply eps_count; lia. }
  assert (Ic : 0 <= INR c <= 101).
  { split; [apply pos_INR|]. replace 101 with (INR 101) by (rewrite INR_IZR_INZ; reflexivity). apply le_INR. lia. }
  set (beta := abserr p * M * kap + eta).
  assert (A0 := abserr_nonneg p). assert (K := kap_gt1). assert (K' := kap_small). assert (E0 := eta_pos).
  assert (B0 : 0 <= beta) by (unfold beta; assert (0 <= abserr p * M * kap) by (apply Rmult_le_pos; [apply Rmult_le_pos; lra|lra]); lra).
  assert (T2 : INR c * beta * kap ^ c <= 256 * beta).
  { assert (K0 := kpow_pos c). apply Rle_trans with (101 * beta * 2); [|lra].
    apply Rmult_le_compat; try lra; [apply Rmult_le_pos; lra|]. apply Rmult_le_compat_r; lra. }
  assert (AB := abserr_bound p Hp).
  assert (T3 : 256 * beta <= M * (eps / 2)).
  { assert (abserr p * M * kap <= pow2 (-770) * M * 2).
    { apply Rmult_le_compat; try lra; [apply Rmult_le_pos; lra|]. apply Rmult_le_compat_r; lra. }
    assert (eta <= pow2 (-70) * M).
    { apply Rle_trans with (pow2 (-70) * pow2 (-1000)); [unfold eta; rewrite <- bpow_plus; apply bpow_le; lia|].
      apply Rmult_le_compat_l; [apply bpow_ge_0|exact HM]. }
    assert (pow2 (-770) <= pow2 (-70)) by (apply bpow_le; lia).
    assert (256 * (pow2 (-70) * 3) <= eps / 2).
    { unfold eps. replace (pow2 (-53)) with (1024 * pow2 (-63)) by (change 1024 with (pow2 10); rewrite <- bpow_plus; reflexivity).
      replace (pow2 (-63)) with (128 * pow2 (-70)) by (change 128 with (pow2 7); rewrite <- bpow_plus; reflexivity).
      assert (0 < pow2 (-70)) by apply bpow_gt_0. lra. }
    unfold beta. assert (pow2 (-770) * M <= pow2 (-70) * M) by (apply Rmult_le_compat_r; lra).
    assert (M * (256 * (pow2 (-70) * 3)) <= M * (eps / 2)) by (apply Rmult_le_compat_l; lra). lra. }
  assert (M * INR N * eps <= M * (6 * INR p + 2) * eps) by (apply Rmult_le_compat_r; [lra|apply Rmult_le_compat_l; lra]).
  lra.
Qed.

Lemma sumerr_mono m c c' beta W W' : 0 <= beta -> 0 <= W <= W' -> (c <= c')%nat -> sumerr m c beta W <= sumerr m c' beta W'.
Proof.
  intros Hb HW Hc. unfold sumerr.
  assert (A := kpow_mono (m + 1 + c) (m + 1 + c') ltac:(lia)). assert (B := kpow_mono c c' Hc).
  assert (A1 := kpow_ge1 (m + 1 + c)). assert (B1 := kpow_ge1 c). assert (I := le_INR _ _ Hc). assert (I0 := pos_INR c).
  apply Rplus_le_compat; apply Rmult_le_compat; try lra; [apply Rmult_le_pos; lra|apply Rmult_le_compat_r; lra].
Qed.

(** ** The whole sum *)
Section Sum.
  Variables (v : list f64) (n k j q dim : nat) (u : f64) (Q : Mat F64) (M : R).
  Let V : list R := map val v.
  Hypothesis Hfin : forall x, In x v -> fin x = true.
  Hypothesis Hmono : mono (kfun V).
  Hypothesis Hrange : forall x, In x V -> 0 <= x <= 1.
  Hypothesis Hgap : forall i, (i + 1 < length v)%nat -> nth i V 0 <> nth (i + 1) V 0 -> pow2 (-1000) <= nth (i + 1) V 0 - nth i V 0.
  Hypothesis Hu : fin u = true.
  Hypothesis Hu01 : 0 <= val u <= 1.
  Hypothesis Hkn : (k <= n)%nat.
  Hypothesis Hj : (j <= n - k)%nat.
  Hypothesis Hspan : in_span (kfun V) (n - k) (val u) j.
  Hypothesis Hdelta : forall i, span_ind (kfun V) (n - k) (val u) i = delta j i.
  Hypothesis Hq : (q <= 100)%nat.
  Hypothesis Hqj : (q <= j)%nat.
  Hypothesis Hlen : length v = (n - k + q + 2)%nat.
  Hypothesis HQ : shape dim (S n - k) Q.
  Hypothesis HQf : forall i d, (i <= n - k)%nat -> (d < dim)%nat -> fin (ent Q i d) = true /\ Rabs (val (ent Q i d)) <= M.
  Hypothesis HM : pow2 (-1000) <= M <= pow2 1022.

  Let N i := bspline (kfun V) (n - k) q i (val u).
  Let step (value : list f64) (i : nat) : Num.M (list f64) :=
    b <- @basis F64 v q i k n u;;
    x <- @mcol F64 Q i;;
    @vadd F64 value (@vscale F64 b x).
  (** how many of the indices below [i] have a basis function that is not zero *)
  Let cnt i := (Nat.min i (j + 1) - (j - q))%nat.
  Let beta := abserr q * M * kap + eta.

  Let M0 : 0 < M.
  Proof. apply Rlt_le_trans with (2 := proj1 HM). apply bpow_gt_0. Qed.
  Let N01 i : 0 <= N i <= 1. 
  Proof. apply (bspline_01 v n k j u); try assumption. lia. Qed.

  Lemma N_sum i : (i <= n - k + 1)%nat -> 0 <= rsum (fun t => N t * M) i <= M.
  Proof.
    intros Hi. assert (M0 := M0). split.
    - apply rsum_nonneg. intros t _. apply Rmult_le_pos; [apply N01|lra].
    - rewrite rsum_scal_r. rewrite <- (Rmult_1_l M) at 2. apply Rmult_le_compat_r; [lra|].
      assert (E : rsum N (S (n - k)) = 1).
      { etransitivity; [|apply (piece_sum (kfun V) Hmono j (proj1 Hspan) q (val u) (S (n - k))); lia].
        apply rsum_ext. intros t _. apply bspline_cox. exact Hdelta. }
      rewrite <- E. replace (S (n - k)) with (i + (S (n - k) - i))%nat by lia. rewrite rsum_add.
      assert (0 <= rsum (fun t => N (i + t)%nat) (S (n - k) - i)) by (apply rsum_nonneg; intros; apply N01). lra.
  Qed.

  Let beta0 : 0 <= beta.
  Proof.
    unfold beta. assert (A0 := abserr_nonneg q). assert (K := kap_gt1). assert (E0 := eta_pos). assert (M0 := M0).
    assert (0 <= abserr q * M * kap) by (apply Rmult_le_pos; [apply Rmult_le_pos; lra|lra]). lra.
  Qed.

  (** one coordinate *)
  Lemma step_ok i d (b s : f64) : (i <= n - k)%nat -> (d < dim)%nat ->
    fin b = true -> near (5 * q) (abserr q) (val b) (N i) -> ((j < i \/ i + q < j)%nat -> val b = 0) ->
    fin s = true -> 
    Rabs (val s - rsum (fun t => N t * val (ent Q t d)) i) <= sumerr (5 * q) (cnt i) beta (rsum (fun t => N t * M) i) ->
    let r := Bplus mode_NE s (Bmult mode_NE b (ent Q i d)) in
    fin r = true /\
    Rabs (val r - rsum (fun t => N t * val (ent Q t d)) (S i)) <= sumerr (5 * q) (cnt (S i)) beta (rsum (fun t => N t * M) (S i)).
  Proof.
    intros Hi Hd Fb Nb Ob Fs Hs r. assert (M0 := M0). destruct (HQf i d Hi Hd) as [FP BP].
    assert (Ni := N01 i). assert (WS := N_sum i ltac:(lia)). assert (WS' := N_sum (S i) ltac:(lia)).
    assert (b0 := beta0).
    set (x := ent Q i d) in *. set (T0 := rsum (fun t => N t * val (ent Q t d)) i) in *.
    set (W := rsum (fun t => N t * M) i) in *.
    assert (HT : Rabs T0 <= W).
    { unfold T0, W. clear - HQf N01 Hi Hd. induction i as [|i IH]; cbn [rsum]; [rewrite Rabs_R0; lra|].
      apply Rle_trans with (1 := Rabs_triang _ _). apply Rplus_le_compat; [apply IH; lia|].
      rewrite Rabs_mult, (Rabs_pos_eq (N i)) by apply N01. apply Rmult_le_compat_l; [apply N01|]. apply HQf; [lia|exact Hd]. }
    assert (Tot : forall c, (c <= q + 1)%nat -> forall W', 0 <= W' <= M -> sumerr (5 * q) c beta W' <= M).
    { intros c Hc W' HW'. apply Rle_trans with (sumerr (5 * q) (q + 1) beta M).
      - apply sumerr_mono; try assumption.
      - apply Rle_trans with (1 := sumerr_total q (q + 1) _ M Hq ltac:(lia) eq_refl (proj1 HM)).
        assert (Ip : 0 <= INR q <= 100) by (split; [apply pos_INR|replace 100 with (INR 100) by (rewrite INR_IZR_INZ; reflexivity); apply le_INR; exact Hq]).
        assert (Ev := eps_val). assert ((6 * INR q + 3) * eps <= 1) by (rewrite Ev; lra). nra. }
    cbn [rsum] in *. fold x T0 W. fold W in WS'.
    assert (HP2 : 2 * M <= pow2 1023).
    { replace (pow2 1023) with (2 * pow2 1022) by (change 2 with (pow2 1); rewrite <- bpow_plus; reflexivity). lra. }
    destruct (le_lt_dec (j - q) i) as [H1|H1]; [destruct (le_lt_dec i j) as [H2|H2]|].
    2,3: (assert (Z := Ob ltac:(lia));
      assert (NZ : N i = 0) by (apply (bspline_off v n k j u Hdelta); lia);
      assert (P0 : Rabs (val b * val x) <= pow2 0) by (rewrite Z, Rmult_0_l, Rabs_R0; apply bpow_ge_0);
      destruct (mul_ok b x 0 ltac:(lia) Fb FP P0) as [F2 E2]; rewrite Z, Rmult_0_l, rnd_0 in E2;
      assert (S0 : Rabs (val s + val (Bmult mode_NE b x)) <= pow2 1023) by
       (rewrite E2, Rplus_0_r; replace (val s) with ((val s - T0) + T0) by ring;
        apply Rle_trans with (1 := Rabs_triang _ _);
        assert (CC : (cnt i <= q + 1)%nat) by (unfold cnt; lia); assert (TT := Tot (cnt i) CC W WS); lra);
      destruct (add_ok s _ 1023 ltac:(lia) Fs F2 S0) as [F3 E3]; split; [exact F3|];
      unfold r; rewrite E3, E2, Rplus_0_r, (rnd_fmt (val s)) by apply fmt_val;
      rewrite NZ, !Rmult_0_l, !Rplus_0_r;
      replace (cnt (S i)) with (cnt i) by (unfold cnt; lia); exact Hs).
    (* inside the support *)
    assert (CS : cnt (S i) = S (cnt i)) by (unfold cnt; lia).
    assert (CC : (S (cnt i) <= q + 1)%nat) by (unfold cnt; lia).
    assert (K2 : kap ^ (5 * q + 1) <= 2).
    { apply kpow_le2. replace (5 * q + 1)%nat with ((5 * q + 1) * 1)%nat by lia. apply eps_count; lia. }
    assert (A0 := abserr_nonneg q). assert (A1 := abserr_le1 q Hq).
    destruct (rnd_any (val b * val x)) as [g [t [Hg [Ht Eg]]]].
    assert (PE := prod_err (5 * q) (abserr q) (N i) (val b) (val x) M g t (proj1 Ni) A0 Nb BP Hg Ht). fold beta in PE.
    rewrite <- Eg in PE.
    assert (K2' : kap ^ (5 * q) <= 3 / 2).
    { assert (T := kpow_bound (5 * q)). assert (Ev := eps_val).
      assert (INR (5 * q) <= 1000) by (replace 1000 with (INR 1000) by (rewrite INR_IZR_INZ; reflexivity); apply le_INR; lia).
      assert (0 <= INR (5 * q)) by apply pos_INR. assert (E1 : 0 <= INR (5 * q) * eps <= 1 / 4) by (rewrite Ev; split; nra).
      specialize (T ltac:(lra)). nra. }
    assert (BB : 0 <= val b <= 2).
    { destruct Nb as [? [_ Nb2]]. assert (abserr q <= 1 / 2).
      { apply Rle_trans with (1 := abserr_bound q Hq). apply Rle_trans with (pow2 (-1)); [apply bpow_le; lia|simpl; lra]. }
      assert (N i * kap ^ (5 * q) <= 1 * (3 / 2)) by (apply Rmult_le_compat; try lra; left; apply kpow_pos). lra. }
    assert (PB : Rabs (val b * val x) <= pow2 1023).
    { rewrite Rabs_mult, (Rabs_pos_eq (val b)) by lra. apply Rle_trans with (2 * M); [|exact HP2].
      apply Rmult_le_compat; try lra. apply Rabs_pos. }
    destruct (mul_ok b x 1023 ltac:(lia) Fb FP PB) as [F2 E2]. rewrite <- E2 in PE.
    set (pr := Bmult mode_NE b x) in *.
    destruct (rnd_plus (val s) (val pr) (fmt_val _) (fmt_val _)) as [g' [Hg' Eg']].
    assert (NP : Rabs (N i * val x) <= N i * M).
    { rewrite Rabs_mult, (Rabs_pos_eq (N i)) by lra. apply Rmult_le_compat_l; lra. }
    destruct (sum_err (5 * q) (cnt i) beta W T0 (val s) (N i) (N i * val x) M (val pr) g' b0 (proj1 WS) (proj1 Ni) ltac:(lra) NP HT Hs PE Hg') as [X1 X2].
    assert (SB : Rabs (val s + val pr) <= pow2 1023).
    { replace (val s + val pr) with ((val s + val pr - (T0 + N i * val x)) + (T0 + N i * val x)) by ring.
      apply Rle_trans with (1 := Rabs_triang _ _).
      assert (TT := Tot (S (cnt i)) CC (W + N i * M) WS').
      assert (T3 := Rabs_triang T0 (N i * val x)). lra. }
    destruct (add_ok s pr 1023 ltac:(lia) Fs F2 SB) as [F3 E3]. split; [exact F3|].
    unfold r. fold pr. rewrite E3, Eg', CS. exact X2.
  Qed.

  Lemma sum_ok lo : (lo <= j - q)%nat ->
    exists r, foldM step (rangei lo (n - k)) (@vzeros F64 dim) = Val r /\ length r = dim /\
      forall d, (d < dim)%nat -> fin (nth d r (@n0 F64)) = true /\
        Rabs (val (nth d r (@n0 F64)) - rsum (fun t => N t * val (ent Q t d)) (S (n - k))) <= (6 * INR q + 3) * eps * M.
  Proof.
    intros Hlo. assert (M0 := M0).
    set (Inv := fun i (r : list f64) => length r = dim /\ forall d, (d < dim)%nat -> fin (nth d r (@n0 F64)) = true /\
        Rabs (val (nth d r (@n0 F64)) - rsum (fun t => N t * val (ent Q t d)) i) <=
        sumerr (5 * q) (cnt i) beta (rsum (fun t => N t * M) i)).
    assert (OK : ok False (foldM step (rangei lo (n - k)) (@vzeros F64 dim)) (Inv (n - k + 1)%nat)).
    { apply ok_foldM_rangei; [lia| |].
      - split; [apply vzeros_length|]. intros d Hd. unfold vzeros. rewrite nth_repeat. split; [apply n0_ok|].
        rewrite (proj2 n0_ok). assert (Z : forall t, (t < lo)%nat -> N t = 0) by (intros t Ht; apply (bspline_off v n k j u Hdelta); lia).
        rewrite (rsum_zero (fun t => N t * val (ent Q t d))) by (intros t Ht; rewrite Z by exact Ht; apply Rmult_0_l).
        rewrite (rsum_zero (fun t => N t * M)) by (intros t Ht; rewrite Z by exact Ht; apply Rmult_0_l).
        rewrite Rminus_0_r, Rabs_R0. unfold sumerr. replace (cnt lo) with 0%nat by (unfold cnt; lia). simpl. lra.
      - intros i s Hi [Ls Hs]. unfold step.
        destruct (basis_near v n k j u Hfin Hmono Hrange Hgap Hu Hu01 Hkn ltac:(lia) Hj Hspan Hdelta q i Hq Hqj ltac:(lia)) as [b [Eb [Fb [Nb Ob]]]].
        rewrite Eb. cbn [bind]. rewrite (mcol_val Q dim (S n - k)) by (try exact HQ; lia). cbn [bind].
        destruct HQ as [_ [_ HQl]]. specialize (HQl i ltac:(lia)).
        destruct (@vadd_val F64 s (@vscale F64 b (nth i (mcols Q) []))) as [r [Er [Lr Hr]]].
        { rewrite vscale_length. transitivity dim; [exact Ls|symmetry; exact HQl]. }
        rewrite Er. cbn [ok]. split; [transitivity (length s); [exact Lr|exact Ls]|]. intros d Hd.
        rewrite Hr by (apply Nat.lt_le_trans with (1 := Hd); apply Nat.eq_le_incl; symmetry; exact Ls).
        rewrite nth_vscale by (rewrite HQl; exact Hd).
        destruct (Hs d Hd) as [Fs Es]. apply (step_ok i d b (nth d s (@n0 F64))); try assumption. lia. }
    apply ok_val_ex in OK. destruct OK as [r [Er [Lr Hr]]]. exists r. split; [exact Er|]. split; [exact Lr|].
    intros d Hd. destruct (Hr d Hd) as [F E]. split; [exact F|].
    replace (n - k + 1)%nat with (S (n - k)) in E by lia. apply Rle_trans with (1 := E).
    apply Rle_trans with (sumerr (5 * q) (q + 1) beta M).
    - apply sumerr_mono; [exact beta0|apply N_sum; lia|unfold cnt; lia].
    - apply (sumerr_total q (q + 1) (abserr q) M); [exact Hq|lia|reflexivity|apply HM].
  Qed.
End Sum.
