(** * Averaged knots and chord-length parameters in binary64 *)

From Coq Require Import ZArith Reals List Bool Arith Lia Lra Psatz.
From Flocq Require Import Core.Core Relative IEEE754.BinarySingleNaN.
From Verif Require Import Num Vec MKnots MPoints MCurve F64 RNum Lists Hoare Struct Divisions Spec BMath BMath2 BMath3 Api Bridge Facts1 Gen1 Gen2 Gen3 ApiF ApiF2 Float1 Float2 Float3 Float4 Float5 Float6 Float9.
Import ListNotations.
Local Open Scope R_scope.

(** ** [x] is [y] up to [k] roundings *)
Definition rel (k : nat) (x y : R) : Prop := exists g, / kap ^ k <= g <= kap ^ k /\ x = y * g.

Lemma factor_weaken k k' g : (k <= k')%nat -> / kap ^ k <= g <= kap ^ k -> / kap ^ k' <= g <= kap ^ k'.
Proof.
  intros H [A B]. assert (T := kpow_mono k k' H). assert (P := kpow_pos k). split; [|lra].
  apply Rle_trans with (/ kap ^ k); [|exact A]. apply Rinv_le_contravar; assumption.
Qed.
Lemma factor_one k : / kap ^ k <= 1 <= kap ^ k.
Proof. split; [apply kinv_le1|apply kpow_ge1]. Qed.
Lemma factor_pos k g : / kap ^ k <= g <= kap ^ k -> 0 < g.
Proof. intros H. assert (T := kinv_pos k). lra. Qed.

Lemma rel_refl k x : rel k x x.
Proof. exists 1. split; [apply factor_one|ring]. Qed.
Lemma rel_weaken k k' x y : (k <= k')%nat -> rel k x y -> rel k' x y.
Proof. intros H [g [G E]]. exists g. split; [apply (factor_weaken k); assumption|exact E]. Qed.
Lemma rel_trans a b x y z : rel a x y -> rel b y z -> rel (a + b) x z.
Proof. intros [g [G E]] [h [H F]]. exists (g * h). split; [apply factor_mul; assumption|]. rewrite E, F. ring. Qed.
Lemma rel_mul a b x y x' y' : rel a x y -> rel b x' y' -> rel (a + b) (x * x') (y * y').
Proof. intros [g [G E]] [h [H F]]. exists (g * h). split; [apply factor_mul; assumption|]. rewrite E, F. ring. Qed.
Lemma rel_div a b x y x' y' : y' <> 0 -> rel a x y -> rel b x' y' -> rel (a + b) (x / x') (y / y').
Proof.
  intros N [g [G E]] [h [H F]]. exists (g * / h). split; [apply factor_mul; [exact G|apply factor_inv; exact H]|].
  assert (T := factor_pos b h H). rewrite E, F. field. split; lra.
Qed.
Lemma rel_plus k x y x' y' : 0 <= y -> 0 <= y' -> rel k x y -> rel k x' y' -> rel k (x + x') (y + y').
Proof.
  intros Hy Hy' [g [G E]] [h [H F]]. destruct (Req_dec (y + y') 0) as [Z|Z].
  - exists 1. split; [apply factor_one|]. assert (y = 0) by lra. assert (y' = 0) by lra. subst. lra.
  - exists ((y * g + y' * h) / (y + y')). assert (P : 0 < y + y') by lra. split.
    + split.
      * apply (Rmult_le_reg_r (y + y')); [exact P|]. unfold Rdiv. rewrite (Rmult_assoc _ _ (y + y')), Rinv_l by lra. rewrite Rmult_1_r.
        assert (y * / kap ^ k <= y * g) by (apply Rmult_le_compat_l; lra). assert (y' * / kap ^ k <= y' * h) by (apply Rmult_le_compat_l; lra). lra.
      * apply (Rmult_le_reg_r (y + y')); [exact P|]. unfold Rdiv. rewrite (Rmult_assoc _ _ (y + y')), Rinv_l by lra. rewrite Rmult_1_r.
        assert (y * g <= y * kap ^ k) by (apply Rmult_le_compat_l; lra). assert (y' * h <= y' * kap ^ k) by (apply Rmult_le_compat_l; lra). lra.
    + rewrite E, F. field. exact Z.
Qed.
Lemma rel_sqrt k x y : 0 <= y -> rel k x y -> rel k (sqrt x) (sqrt y).
Proof.
  intros Hy [g [G E]]. assert (P := factor_pos k g G). assert (K := kpow_ge1 k). assert (I := kinv_le1 k). assert (I0 := kinv_pos k).
  exists (sqrt g). split; [|rewrite E; apply sqrt_mult; lra]. split.
  - apply Rle_trans with (sqrt (/ kap ^ k * / kap ^ k)); [rewrite sqrt_square by lra; lra|]. apply sqrt_le_1; nra.
  - apply Rle_trans with (sqrt (kap ^ k * kap ^ k)); [|rewrite sqrt_square by lra; lra]. apply sqrt_le_1; nra.
Qed.
Lemma rel_nonneg k x y : 0 <= y -> rel k x y -> 0 <= x.
Proof. intros H [g [G ->]]. assert (T := factor_pos k g G). apply Rmult_le_pos; lra. Qed.
Lemma rel_pos k x y : 0 < y -> rel k x y -> 0 < x.
Proof. intros H [g [G ->]]. assert (T := factor_pos k g G). apply Rmult_lt_0_compat; lra. Qed.

(** rounding a number that is zero or not tiny *)
Lemma rel_rnd x : x = 0 \/ pow2 (-1022) <= Rabs x -> rel 1 (rnd x) x.
Proof.
  intros [->|H].
  - exists 1. split; [apply factor_one|]. rewrite rnd_0. ring.
  - destruct (relative_error_N_FLX'_ex radix2 53 ltac:(reflexivity) (fun x => negb (Z.even x)) x) as [d [Hd E]].
    rewrite u_ro_eps in Hd. exists (1 + d). split; [apply factor1, factor; exact Hd|].
    rewrite <- E. apply (round_FLT_FLX radix2 (-1074) 53). exact H.
Qed.

Lemma rel_near K eta' x y z : 0 <= y -> 0 <= x -> rel K z y -> Rabs (x - z) <= eta' -> near K eta' x y.
Proof.
  intros Hy Hx [g [G ->]] H. apply Rabs_le_inv in H. split; [exact Hx|].
  assert (y * / kap ^ K <= y * g) by (apply Rmult_le_compat_l; lra). assert (y * g <= y * kap ^ K) by (apply Rmult_le_compat_l; lra). lra.
Qed.

(** ** Sums *)
Fixpoint fsum (w : nat -> f64) (m : nat) : f64 :=
  match m with O => @n0 F64 | S m' => Bplus mode_NE (fsum w m') (w m') end.

Lemma fmt_INR m e : (Z.of_nat m <= 2 ^ 53)%Z -> (-1074 <= e)%Z -> fmt (INR m * pow2 e).
Proof.
  intros Hm He. destruct (Z.eq_dec (Z.of_nat m) (2 ^ 53)) as [E|E].
  - rewrite INR_IZR_INZ, E. change (2 ^ 53)%Z with (radix2 ^ 53)%Z. rewrite IZR_Zpower by lia. rewrite <- bpow_plus. apply fmt_pow2. lia.
  - apply generic_format_FLT with (emin := (-1074)%Z) (prec := 53%Z). exists (Float radix2 (Z.of_nat m) e).
    + unfold F2R. cbn [Fnum Fexp]. rewrite INR_IZR_INZ. reflexivity.
    + cbn [Fnum]. change (radix2 ^ 53)%Z with (2 ^ 53)%Z. lia.
    + cbn [Fexp]. lia.
Qed.

Lemma INR_pow2 m a : (0 <= a)%Z -> (Z.of_nat m <= 2 ^ a)%Z -> INR m <= pow2 a.
Proof. intros Ha H. rewrite INR_IZR_INZ, <- IZR_Zpower by exact Ha. apply IZR_le. exact H. Qed.

Lemma fsum_ok w m a e : (0 <= a <= 53)%Z -> (-1074 <= e)%Z -> (a + e < 1024)%Z -> (Z.of_nat m <= 2 ^ a)%Z ->
  (forall i, (i < m)%nat -> fin (w i) = true /\ 0 <= val (w i) <= pow2 e) ->
  fin (fsum w m) = true /\ 0 <= val (fsum w m) <= INR m * pow2 e /\ rel m (val (fsum w m)) (rsum (fun i => val (w i)) m).
Proof.
  intros Ha He Hae. assert (Pe := bpow_gt_0 radix2 e).
  assert (A53 : (2 ^ a <= 2 ^ 53)%Z) by (apply Z.pow_le_mono_r; lia).
  induction m as [|m IH]; intros Hm Hw.
  - cbn [fsum rsum]. destruct n0_ok as [F V]. rewrite V. split; [exact F|]. split; [simpl; lra|apply rel_refl].
  - destruct (IH ltac:(lia) ltac:(intros; apply Hw; lia)) as [F [V R]]. destruct (Hw m ltac:(lia)) as [Fm Vm].
    assert (Pm := pos_INR m). assert (B : val (fsum w m) + val (w m) <= INR (S m) * pow2 e) by (rewrite S_INR; lra).
    assert (B2 : INR (S m) * pow2 e <= pow2 (a + e)).
    { rewrite bpow_plus. apply Rmult_le_compat_r; [lra|]. apply INR_pow2; [lia|exact Hm]. }
    cbn [fsum]. destruct (add_ok (fsum w m) (w m) (a + e) ltac:(lia) F Fm) as [F' E]; [rewrite Rabs_pos_eq by lra; lra|].
    split; [exact F'|]. rewrite E. split.
    + split; [apply rnd_ge0; lra|]. rewrite <- (rnd_fmt (INR (S m) * pow2 e)) by (apply fmt_INR; lia). apply rnd_le. exact B.
    + destruct (rnd_plus _ _ (fmt_val (fsum w m)) (fmt_val (w m))) as [g [G Eg]]. rewrite Eg. cbn [rsum].
      replace (S m) with (1 + m)%nat by lia. apply rel_trans with (val (fsum w m) + val (w m)); [exists g; split; [apply factor1; exact G|reflexivity]|].
      apply rel_plus; [apply rsum_nonneg; intros i Hi; apply Hw; lia|apply Vm|exact R|apply rel_refl].
Qed.

Lemma fsum_mono w w' m a e : (0 <= a <= 53)%Z -> (-1074 <= e)%Z -> (a + e < 1024)%Z -> (Z.of_nat m <= 2 ^ a)%Z ->
  (forall i, (i < m)%nat -> fin (w i) = true /\ 0 <= val (w i) <= pow2 e) ->
  (forall i, (i < m)%nat -> fin (w' i) = true /\ 0 <= val (w' i) <= pow2 e) ->
  (forall i, (i < m)%nat -> val (w i) <= val (w' i)) -> val (fsum w m) <= val (fsum w' m).
Proof.
  intros Ha He Hae. assert (Pe := bpow_gt_0 radix2 e).
  induction m as [|m IH]; intros Hm Hw Hw' H; [apply Rle_refl|]. cbn [fsum].
  assert (G : forall w, (forall i, (i < S m)%nat -> fin (w i) = true /\ 0 <= val (w i) <= pow2 e) -> val (Bplus mode_NE (fsum w m) (w m)) = rnd (val (fsum w m) + val (w m))).
  { intros x Hx. destruct (fsum_ok x m a e Ha He Hae ltac:(lia) ltac:(intros; apply Hx; lia)) as [F [V _]]. destruct (Hx m ltac:(lia)) as [Fm Vm].
    apply (add_ok _ _ (a + e) ltac:(lia) F Fm). rewrite Rabs_pos_eq by lra.
    apply Rle_trans with (INR (S m) * pow2 e); [rewrite S_INR; lra|]. rewrite bpow_plus. apply Rmult_le_compat_r; [lra|]. apply INR_pow2; [lia|exact Hm]. }
  rewrite (G w Hw), (G w' Hw'). apply rnd_le.
  specialize (IH ltac:(lia) ltac:(intros; apply Hw; lia) ltac:(intros; apply Hw'; lia) ltac:(intros; apply H; lia)).
  assert (T := H m ltac:(lia)). lra.
Qed.

Lemma fsum_ge w m a e i : (0 <= a <= 53)%Z -> (-1074 <= e)%Z -> (a + e < 1024)%Z -> (Z.of_nat m <= 2 ^ a)%Z ->
  (forall i, (i < m)%nat -> fin (w i) = true /\ 0 <= val (w i) <= pow2 e) -> (i < m)%nat -> val (w i) <= val (fsum w m).
Proof.
  intros Ha He Hae. assert (Pe := bpow_gt_0 radix2 e).
  induction m as [|m IH]; intros Hm Hw Hi; [lia|]. cbn [fsum].
  destruct (fsum_ok w m a e Ha He Hae ltac:(lia) ltac:(intros; apply Hw; lia)) as [F [V _]]. destruct (Hw m ltac:(lia)) as [Fm Vm].
  assert (E : val (Bplus mode_NE (fsum w m) (w m)) = rnd (val (fsum w m) + val (w m))).
  { apply (add_ok _ _ (a + e) ltac:(lia) F Fm). rewrite Rabs_pos_eq by lra.
    apply Rle_trans with (INR (S m) * pow2 e); [rewrite S_INR; lra|]. rewrite bpow_plus. apply Rmult_le_compat_r; [lra|]. apply INR_pow2; [lia|exact Hm]. }
  rewrite E. destruct (Nat.eq_dec i m) as [->|N].
  - rewrite <- (rnd_fmt (val (w m))) at 1 by apply fmt_val. apply rnd_le. lra.
  - apply Rle_trans with (val (fsum w m)); [apply IH; [lia|intros; apply Hw; lia|lia]|].
    rewrite <- (rnd_fmt (val (fsum w m))) at 1 by apply fmt_val. apply rnd_le. lra.
Qed.

Lemma fsum_ext w w' m : (forall i, (i < m)%nat -> w i = w' i) -> fsum w m = fsum w' m.
Proof. induction m as [|m IH]; intros H; [reflexivity|]. cbn [fsum]. rewrite IH by (intros; apply H; lia). rewrite H by lia. reflexivity. Qed.

Lemma foldM_fsum (body : f64 -> nat -> M f64) (w : nat -> f64) a m : (forall s i, (a <= i < a + m)%nat -> body s i = Val (Bplus mode_NE s (w (i - a)%nat))) ->
  foldM body (seq a m) (@n0 F64) = Val (fsum w m).
Proof.
  intros H.
  assert (T : ok False (foldM body (seq a m) (@n0 F64)) (fun s => s = fsum w (a + m - a))).
  { apply (ok_foldM_seq False _ (fun j s => s = fsum w (j - a))).
    - rewrite Nat.sub_diag. reflexivity.
    - intros i s Hi ->. rewrite H by exact Hi. cbn [ok].
      replace (1 + i - a)%nat with (S (i - a)) by lia. reflexivity. }
  apply ok_val_ex in T. destruct T as [s [E ->]]. rewrite E. do 2 f_equal. lia.
Qed.

(** the absolute error left by [k] roundings of a number in [0, 1] *)
Lemma near_abs k b xh x : near k b xh x -> 0 <= x <= 1 -> (Z.of_nat k <= 2 ^ 25)%Z -> Rabs (xh - x) <= INR k * eps + eps / 8 + b.
Proof.
  intros [H0 [A B]] Hx Hk. assert (P := pos_INR k). assert (Ep := eps_pos).
  assert (Kb : INR k * eps <= / 2 ^ 28).
  { rewrite INR_IZR_INZ. apply IZR_le in Hk. change (IZR (2 ^ 25)) with 33554432 in Hk. rewrite eps_val. lra. }
  assert (K := kpow_bound k ltac:(lra)). assert (K1 := kpow_ge1 k). assert (I := kinv_pos k). assert (I1 := kinv_le1 k).
  assert (S : (INR k * eps) ^ 2 <= eps / 8).
  { assert (INR k <= 2 ^ 25) by (rewrite INR_IZR_INZ; apply IZR_le in Hk; change (IZR (2 ^ 25)) with 33554432 in Hk; lra).
    replace ((INR k * eps) ^ 2) with (INR k * (INR k * eps) * eps) by ring. unfold Rdiv. rewrite (Rmult_comm eps). apply Rmult_le_compat_r; [lra|].
    apply Rle_trans with (2 ^ 25 * / 2 ^ 28); [|lra]. apply Rmult_le_compat; try lra. apply Rmult_le_pos; lra. }
  assert (U : kap ^ k - 1 <= INR k * eps + eps / 8) by lra.
  assert (L : 1 - / kap ^ k <= kap ^ k - 1).
  { assert (E : kap ^ k * / kap ^ k = 1) by (apply Rinv_r; lra). nra. }
  apply Rabs_le. split.
  - assert (x * (1 - / kap ^ k) <= 1 * (1 - / kap ^ k)) by (apply Rmult_le_compat_r; lra). lra.
  - assert (x * (kap ^ k - 1) <= 1 * (kap ^ k - 1)) by (apply Rmult_le_compat_r; lra). lra.
Qed.

(** ** Averaged knots *)
Definition favg (p : nat) (v : list f64) (j : nat) : f64 :=
  Bdiv mode_NE (fsum (fun k => nth (j + k) v (@n0 F64)) p) (@nofnat F64 p).

Lemma averaging_F64 p n (v : list f64) s : (1 <= p <= n)%nat -> length v = (n + 1)%nat ->
  @averaging F64 p n (mkParams v s) = Val (Ok (@knots_of F64 p (@fill_knots F64 p n (favg p v)))).
Proof.
  intros H L. unfold averaging. rewrite inputCheck_ok by exact H. rewrite usub_ok by lia. cbn [bind pvector].
  apply (@build_knots F64 _ (favg p v)); [lia|].
  intros w j Hw Hj. rewrite usub_ok by lia. cbn [bind]. unfold rangei.
  replace (j + p - 1 + 1 - j)%nat with p by lia.
  rewrite (foldM_fsum _ (fun k => nth (j + k) v (@n0 F64)) j p); [reflexivity|].
  intros x i Hi. assert (E := @vget_nth F64 v i (@n0 F64) ltac:(change (T F64) with f64; lia)). rewrite E. cbn [bind].
  replace (j + (i - j))%nat with i by lia. reflexivity.
Qed.


Lemma favg_ok p n v j : (1 <= p <= n)%nat -> (Z.of_nat p <= 2 ^ 24)%Z -> length v = (n + 1)%nat -> unit_list v -> (1 <= j <= n - p)%nat ->
  fin (favg p v j) = true /\ 0 <= val (favg p v j) <= 1 /\ Rabs (val (favg p v j) - avg p (map val v) j) <= INR (p + 2) * eps.
Proof.
  intros Hp Hb L Hv Hj.
  assert (Hw : forall i, (i < p)%nat -> fin (nth (j + i) v (@n0 F64)) = true /\ 0 <= val (nth (j + i) v (@n0 F64)) <= pow2 0).
  { intros i Hi. apply Hv. apply nth_In. change (binary_float 53 1024) with f64. lia. }
  destruct (fsum_ok (fun k => nth (j + k) v (@n0 F64)) p 24 0 ltac:(lia) ltac:(lia) ltac:(lia) Hb Hw) as [F [V R]].
  change (pow2 0) with 1 in V. rewrite Rmult_1_r in V.
  destruct (nofnat_F64 p ltac:(lia)) as [Fp Vp]. assert (Pp : 1 <= INR p) by (apply (le_INR 1); lia).
  assert (Q : 0 <= val (fsum (fun k => nth (j + k) v (@n0 F64)) p) / INR p <= 1).
  { split; [apply Rmult_le_pos; [apply V|left; apply Rinv_0_lt_compat; lra]|].
    apply (Rmult_le_reg_r (INR p)); [lra|]. unfold Rdiv. rewrite Rmult_assoc, Rinv_l by lra. lra. }
  destruct (div_ok (fsum (fun k => nth (j + k) v (@n0 F64)) p) (@nofnat F64 p) 0 ltac:(lia) F) as [F' E].
  { rewrite Vp. lra. }
  { rewrite Vp. rewrite Rabs_pos_eq by apply Q. change (pow2 0) with 1. apply Q. }
  fold (favg p v j) in F', E. rewrite Vp in E. split; [exact F'|]. split.
  { rewrite E. split; [apply rnd_ge0; apply Q|]. rewrite <- (rnd_fmt 1 fmt_1). apply rnd_le. apply Q. }
  set (s := fsum (fun k => nth (j + k) v (@n0 F64)) p) in *.
  assert (ES : rsum (fun i => val (nth (j + i) v (@n0 F64))) p = rsum (fun k => nth (j + k) (map val v) 0) p).
  { apply rsum_eq. intros i Hi. symmetry. apply nth_val. change (binary_float 53 1024) with f64. lia. }
  rewrite ES in R.
  assert (A01 : 0 <= avg p (map val v) j <= 1).
  { apply avg_bounds; [lia|]. intros k Hk. rewrite nth_val by (change (binary_float 53 1024) with f64; lia). apply (Hw k Hk). }
  destruct (rnd_any (val s / INR p)) as [g [t [Hg [Ht Eg]]]].
  assert (N : near (p + 1) eta (val (favg p v j)) (avg p (map val v) j)).
  { apply rel_near with (val s / INR p * g); [apply A01|rewrite E; apply rnd_ge0; apply Q| |].
    - rewrite Nat.add_comm. apply rel_trans with (val s / INR p); [exists g; split; [apply factor1; exact Hg|reflexivity]|].
      unfold avg. rewrite <- (Nat.add_0_r p) at 1. apply rel_div; [lra|exact R|apply rel_refl].
    - rewrite E, Eg. replace (val s / INR p * g + t - val s / INR p * g) with t by ring. exact Ht. }
  apply Rle_trans with (1 := near_abs _ _ _ _ N A01 ltac:(lia)).
  assert (T := eta_eps1). assert (Ep := eps_pos). replace (INR (p + 2)) with (INR (p + 1) + 1) by (rewrite !plus_INR; simpl; ring). assert (Et := eta_pos). lra.
Qed.

Lemma favg_mono p n v j j' : (1 <= p <= n)%nat -> (Z.of_nat p <= 2 ^ 24)%Z -> length v = (n + 1)%nat -> unit_list v -> sorted (map val v) ->
  (1 <= j <= j')%nat -> (j' <= n - p)%nat -> val (favg p v j) <= val (favg p v j').
Proof.
  intros Hp Hb L Hv Hs Hj Hj'.
  assert (Hw : forall a, (a <= n - p)%nat -> forall i, (i < p)%nat -> fin (nth (a + i) v (@n0 F64)) = true /\ 0 <= val (nth (a + i) v (@n0 F64)) <= pow2 0).
  { intros a Ha i Hi. apply Hv. apply nth_In. change (binary_float 53 1024) with f64. lia. }
  assert (Q : forall a, (a <= n - p)%nat -> val (favg p v a) = rnd (val (fsum (fun k => nth (a + k) v (@n0 F64)) p) / INR p)).
  { intros a Ha. destruct (fsum_ok (fun k => nth (a + k) v (@n0 F64)) p 24 0 ltac:(lia) ltac:(lia) ltac:(lia) Hb (Hw a Ha)) as [F [V R]].
    change (pow2 0) with 1 in V. rewrite Rmult_1_r in V.
    destruct (nofnat_F64 p ltac:(lia)) as [Fp Vp]. assert (Pp : 1 <= INR p) by (apply (le_INR 1); lia).
    destruct (div_ok (fsum (fun k => nth (a + k) v (@n0 F64)) p) (@nofnat F64 p) 0 ltac:(lia) F) as [F' E].
    { rewrite Vp. lra. }
    { rewrite Vp. rewrite Rabs_pos_eq; [|apply Rmult_le_pos; [apply V|left; apply Rinv_0_lt_compat; lra]]. change (pow2 0) with 1.
      apply (Rmult_le_reg_r (INR p)); [lra|]. unfold Rdiv. rewrite Rmult_assoc, Rinv_l by lra. lra. }
    rewrite Vp in E. exact E. }
  rewrite !Q by lia. apply rnd_le. apply div_le; [apply INR_pos; lia|].
  apply (fsum_mono _ _ p 24 0); try lia; [apply Hw; lia|apply Hw; lia|].
  intros i Hi. rewrite <- !nth_val by (change (binary_float 53 1024) with f64; lia). apply Hs; [lia|]. rewrite map_length. change (binary_float 53 1024) with f64. lia.
Qed.

Lemma map_fill p n (f : nat -> f64) : map val (@fill_knots F64 p n f) = @fill_knots RNum p n (fun i => val (f i)).
Proof.
  unfold fill_knots. rewrite map_map. apply map_ext. intros k. destruct (k <=? p)%nat; [apply n0_ok|]. destruct (k <=? n)%nat; [reflexivity|apply n1_ok].
Qed.

Lemma fill_close p n (f : nat -> f64) (g : nat -> R) e : 0 <= e ->
  (forall i, (1 <= i <= n - p)%nat -> fin (f i) = true /\ Rabs (val (f i) - g i) <= e) ->
  close_to (@fill_knots F64 p n f) (@fill_knots RNum p n g) e.
Proof.
  intros He H. split; [rewrite (@fill_length F64), (@fill_length RNum); reflexivity|].
  intros i Hi. assert (Hi' : (i < n + p + 2)%nat) by (assert (TL := @fill_length F64 p n f); change (T F64) with f64 in *; lia).
  assert (N1 := @nth_fill F64 p n f i Hi'). assert (N2 := nth_fill_R p n g i Hi').
  change (T F64) with f64 in *. rewrite N1. change (T RNum) with R in *. rewrite N2.
  destruct (Nat.leb_spec i p).
  - destruct n0_ok as [F V]. split; [exact F|]. rewrite V, Rminus_diag_eq, Rabs_R0 by reflexivity. exact He.
  - destruct (Nat.leb_spec i n); [apply H; lia|].
    destruct n1_ok as [F V]. split; [exact F|]. rewrite V, Rminus_diag_eq, Rabs_R0 by reflexivity. exact He.
Qed.

(** ** Cumulative parameters *)
Fixpoint fcum (w : nat -> f64) (s : f64) (g : nat) : f64 :=
  match g with O => @n0 F64 | S g' => Bplus mode_NE (fcum w s g') (Bdiv mode_NE (w g') s) end.

Section Cumulative.
  Variables (m k : nat) (w : nat -> f64) (W : nat -> R).
  Hypothesis Hm : (1 <= m)%nat.
  Hypothesis Hb : (Z.of_nat m <= 2 ^ 20)%Z.
  Hypothesis Hk : (Z.of_nat k <= 2 ^ 21)%Z.
  Hypothesis Hw : forall i, (i < m)%nat -> fin (w i) = true /\ 0 <= val (w i) <= pow2 1000.
  Hypothesis HW : forall i, (i < m)%nat -> 0 <= W i /\ rel k (val (w i)) (W i).
  Hypothesis Hpos : exists i, (i < m)%nat /\ 0 < W i.

  Let s := fsum w m.

  Lemma total_pos : 0 < rsum W m.
  Proof. destruct Hpos as [i [Hi Pi]]. apply rsum_pos_one with i; [exact Hi|intros j Hj; apply HW; exact Hj|exact Pi]. Qed.

  Lemma rel_rsum : forall n, (n <= m)%nat -> rel k (rsum (fun i => val (w i)) n) (rsum W n).
  Proof.
    induction n as [|n IH]; intros Hn; [apply rel_refl|]. cbn [rsum]. apply rel_plus; [apply rsum_nonneg; intros; apply HW; lia|apply HW; lia|apply IH; lia|apply HW; lia].
  Qed.

  Lemma sum_fact : fin s = true /\ 0 < val s /\ rel (m + k) (val s) (rsum W m) /\ forall i, (i < m)%nat -> val (w i) <= val s.
  Proof.
    destruct (fsum_ok w m 20 1000 ltac:(lia) ltac:(lia) ltac:(lia) Hb Hw) as [F [V R]].
    assert (R2 : rel (m + k) (val s) (rsum W m)) by (apply rel_trans with (1 := R); apply rel_rsum; lia).
    split; [exact F|]. split; [apply (rel_pos _ _ _ total_pos R2)|]. split; [exact R2|].
    intros i Hi. apply (fsum_ge w m 20 1000); try lia; assumption.
  Qed.

  Lemma step_fact i : (i < m)%nat -> fin (Bdiv mode_NE (w i) s) = true /\ 0 <= val (Bdiv mode_NE (w i) s) <= 1 /\
    near (m + 2 * k + 1) eta (val (Bdiv mode_NE (w i) s)) (W i / rsum W m).
  Proof.
    intros Hi. destruct sum_fact as [F [Ps [R G]]]. destruct (Hw i Hi) as [Fi Vi]. specialize (G i Hi). assert (Tp := total_pos).
    assert (Q : 0 <= val (w i) / val s <= 1).
    { split; [apply Rmult_le_pos; [apply Vi|left; apply Rinv_0_lt_compat; lra]|].
      apply (Rmult_le_reg_r (val s)); [lra|]. unfold Rdiv. rewrite Rmult_assoc, Rinv_l by lra. lra. }
    destruct (div_ok (w i) s 0 ltac:(lia) Fi) as [F' E]; [lra|rewrite Rabs_pos_eq by apply Q; change (pow2 0) with 1; apply Q|].
    split; [exact F'|]. rewrite E. split.
    { split; [apply rnd_ge0; apply Q|]. rewrite <- (rnd_fmt 1 fmt_1). apply rnd_le. apply Q. }
    destruct (rnd_any (val (w i) / val s)) as [g [t [Hg [Ht Eg]]]]. destruct (HW i Hi) as [P0 Ri].
    apply rel_near with (val (w i) / val s * g); [apply Rmult_le_pos; [exact P0|left; apply Rinv_0_lt_compat; exact Tp]|apply rnd_ge0; apply Q| |].
    - replace (m + 2 * k + 1)%nat with (1 + (k + (m + k)))%nat by lia.
      apply rel_trans with (val (w i) / val s); [exists g; split; [apply factor1; exact Hg|reflexivity]|]. apply rel_div; [lra|exact Ri|exact R].
    - rewrite Eg. replace (val (w i) / val s * g + t - val (w i) / val s * g) with t by ring. exact Ht.
  Qed.

  Lemma cum_fact : forall g, (g <= m)%nat -> fin (fcum w s g) = true /\ 0 <= val (fcum w s g) <= INR g /\
    near (m + 2 * k + 1 + g) (INR g * kap ^ g * eta) (val (fcum w s g)) (rsum W g / rsum W m) /\
    (forall h, (h <= g)%nat -> val (fcum w s h) <= val (fcum w s g)).
  Proof.
    assert (Tp := total_pos).
    induction g as [|g IH]; intros Hg.
    - cbn [fcum rsum]. destruct n0_ok as [F V]. rewrite V. split; [exact F|]. split; [simpl; lra|]. split.
      + replace (0 / rsum W m) with 0 by (field; lra). apply near_0. simpl. lra.
      + intros h Hh. replace h with 0%nat by lia. cbn [fcum]. rewrite V. lra.
    - destruct (IH ltac:(lia)) as [F [V [[N0 [N1 N2]] Mo]]]. destruct (step_fact g ltac:(lia)) as [F2 [V2 [Q0 [Q1 Q2]]]].
      assert (Ig : INR (S g) <= pow2 20) by (apply INR_pow2; lia). rewrite S_INR in *.
      assert (Pg := pos_INR g).
      cbn [fcum]. destruct (add_ok (fcum w s g) (Bdiv mode_NE (w g) s) 20 ltac:(lia) F F2) as [F' E]; [rewrite Rabs_pos_eq by lra; lra|].
      split; [exact F'|]. rewrite E. split; [|split].
      + split; [apply rnd_ge0; lra|]. rewrite <- (rnd_fmt (INR g + 1)); [apply rnd_le; lra|].
        assert (T := fmt_INR (S g) 0 ltac:(lia) ltac:(lia)). change (pow2 0) with 1 in T. rewrite Rmult_1_r, S_INR in T. exact T.
      + destruct (rnd_plus _ _ (fmt_val (fcum w s g)) (fmt_val (Bdiv mode_NE (w g) s))) as [h [H Eh]]. rewrite Eh.
        set (c := val (fcum w s g)) in *. set (q := val (Bdiv mode_NE (w g) s)) in *.
        cbn [rsum]. replace ((rsum W g + W g) / rsum W m) with (rsum W g / rsum W m + W g / rsum W m) by (field; lra).
        assert (X0 : 0 <= rsum W g / rsum W m) by (apply Rmult_le_pos; [apply rsum_nonneg; intros; apply HW; lia|left; apply Rinv_0_lt_compat; exact Tp]).
        assert (x0 : 0 <= W g / rsum W m) by (apply Rmult_le_pos; [apply HW; lia|left; apply Rinv_0_lt_compat; exact Tp]).
        set (X := rsum W g / rsum W m) in *. set (x := W g / rsum W m) in *. set (K := (m + 2 * k + 1)%nat) in *.
        unfold near. replace (K + S g)%nat with (K + g + 1)%nat by lia. rewrite (pow_add kap (K + g) 1), pow_1, Rinv_mult. cbn [pow].
        assert (KI := kinv_bounds). assert (Kp := kap_gt1). assert (Et := eta_pos). assert (Kg := kpow_ge1 g).
        assert (A1 : kap ^ K <= kap ^ (K + g)) by (apply kpow_mono; lia).
        assert (A2 : / kap ^ (K + g) <= / kap ^ K) by (apply Rinv_le_contravar; [apply kpow_pos|exact A1]).
        assert (A3 := kinv_pos (K + g)).
        assert (B : 0 <= INR g * kap ^ g * eta) by (apply Rmult_le_pos; [apply Rmult_le_pos; lra|lra]).
        assert (B2 : INR g * kap ^ g * eta + eta <= (INR g + 1) * kap ^ g * eta) by nra.
        set (b := INR g * kap ^ g * eta) in *. set (b' := (INR g + 1) * kap ^ g * eta) in *.
        replace ((INR g + 1) * (kap * kap ^ g) * eta) with (b' * kap) by (unfold b'; ring).
        split; [apply Rmult_le_pos; lra|]. split.
        * apply Rle_trans with ((c + q) * / kap); [|apply Rmult_le_compat_l; lra].
          assert (C1 : (X + x) * / kap ^ (K + g) - b' <= c + q).
          { assert (x * / kap ^ (K + g) <= x * / kap ^ K) by (apply Rmult_le_compat_l; lra). lra. }
          assert (C2 : ((X + x) * / kap ^ (K + g) - b') * / kap <= (c + q) * / kap) by (apply Rmult_le_compat_r; lra).
          assert (C3 : b' * / kap <= b' * kap) by (apply Rmult_le_compat_l; lra). lra.
        * apply Rle_trans with ((c + q) * kap); [apply Rmult_le_compat_l; lra|].
          assert (C1 : c + q <= (X + x) * kap ^ (K + g) + b').
          { assert (x * kap ^ K <= x * kap ^ (K + g)) by (apply Rmult_le_compat_l; lra). lra. }
          assert (C2 : (c + q) * kap <= ((X + x) * kap ^ (K + g) + b') * kap) by (apply Rmult_le_compat_r; lra). lra.
      + intros h Hh. destruct (Nat.eq_dec h (S g)) as [->|Nh]; [cbn [fcum]; rewrite E; lra|].
        apply Rle_trans with (val (fcum w s g)); [apply Mo; lia|].
        rewrite <- (rnd_fmt (val (fcum w s g))) at 1 by apply fmt_val. apply rnd_le. lra.
  Qed.

  Lemma cum_close g : (g <= m)%nat -> Rabs (val (fcum w s g) - rsum W g / rsum W m) <= INR (2 * m + 2 * k + 2) * eps.
  Proof.
    intros Hg. destruct (cum_fact g Hg) as [_ [_ [N _]]]. assert (Tp := total_pos). assert (Ep := eps_pos). assert (Et := eta_pos).
    assert (X01 : 0 <= rsum W g / rsum W m <= 1).
    { split; [apply Rmult_le_pos; [apply rsum_nonneg; intros; apply HW; lia|left; apply Rinv_0_lt_compat; exact Tp]|].
      apply (Rmult_le_reg_r (rsum W m)); [exact Tp|]. unfold Rdiv. rewrite Rmult_assoc, Rinv_l by lra. rewrite Rmult_1_r, Rmult_1_l.
      clear -Hg HW. induction Hg as [|m' Hg IH]; [lra|]. cbn [rsum]. assert (0 <= W m') by (apply HW; lia).
      assert (rsum W g <= rsum W m') by (apply IH; intros; apply HW; lia). lra. }
    apply Rle_trans with (1 := near_abs _ _ _ _ N X01 ltac:(lia)).
    assert (Ig : INR g <= 2 ^ 20).
    { apply Rle_trans with (pow2 20); [apply INR_pow2; lia|]. rewrite <- (IZR_Zpower radix2) by lia. change (IZR (radix2 ^ 20)) with 1048576. lra. }
    assert (Pg := pos_INR g).
    assert (K2 : kap ^ g <= 2) by (apply kpow_le2; rewrite eps_val; lra).
    assert (Kg := kpow_ge1 g).
    assert (B : INR g * kap ^ g * eta <= eps / 8).
    { apply Rle_trans with (2 ^ 21 * eta).
      - apply Rmult_le_compat_r; [lra|]. apply Rle_trans with (2 ^ 20 * 2); [apply Rmult_le_compat; lra|lra].
      - unfold eta, eps. replace (2 ^ 21) with (pow2 21) by (rewrite <- (IZR_Zpower radix2) by lia; change (IZR (radix2 ^ 21)) with 2097152; lra).
        rewrite <- bpow_plus. apply Rle_trans with (pow2 (-56)); [apply bpow_le; lia|].
        replace (-56)%Z with (-53 + -3)%Z by lia. rewrite bpow_plus. change (pow2 (-3)) with (/ 8). lra. }
    assert (I : INR (m + 2 * k + 1 + g) + 1 <= INR (2 * m + 2 * k + 2)) by (rewrite <- S_INR; apply le_INR; lia).
    assert ((INR (m + 2 * k + 1 + g) + 1) * eps <= INR (2 * m + 2 * k + 2) * eps) by (apply Rmult_le_compat_r; lra). lra.
  Qed.
End Cumulative.

(** ** Chords *)
Definition fdel (P : Mat F64) (g d : nat) : f64 := Bminus mode_NE (ent P (S g) d) (ent P g d).
Definition fchord (P : Mat F64) (dim g : nat) : f64 := Bsqrt mode_NE (fsum (fun d => Bmult mode_NE (fdel P g d) (fdel P g d)) dim).

Lemma fold_fsum (a : list f64) : fold_left (fun s x => Bplus mode_NE s (Bmult mode_NE x x)) a (@n0 F64) = fsum (fun d => Bmult mode_NE (nth d a (@n0 F64)) (nth d a (@n0 F64))) (length a).
Proof.
  induction a as [|x a IH] using rev_ind; [reflexivity|]. rewrite fold_left_app. cbn [fold_left].
  transitivity (Bplus mode_NE (fsum (fun d => Bmult mode_NE (nth d a (@n0 F64)) (nth d a (@n0 F64))) (length a)) (Bmult mode_NE x x)); [f_equal; exact IH|].
  rewrite app_length. cbn [length]. rewrite Nat.add_1_r. cbn [fsum]. f_equal.
  - apply fsum_ext. intros i Hi. rewrite !app_nth1 by exact Hi. reflexivity.
  - rewrite !app_nth2 by lia. rewrite Nat.sub_diag. reflexivity.
Qed.

Lemma chord_F64 (P : Mat F64) dim m g : shape dim (S m) P -> (g < m)%nat -> @chord F64 P (S g) = Val (fchord P dim g).
Proof.
  intros S Hg. unfold chord. rewrite (mcol_val _ _ _ (Datatypes.S g) S) by lia. cbn [bind]. rewrite usub_ok by lia. cbn [bind].
  replace (Datatypes.S g - 1)%nat with g by lia.
  rewrite (mcol_val _ _ _ g S) by lia. cbn [bind]. destruct S as [S1 [S2 S3]].
  destruct (@vsub_val F64 (nth (Datatypes.S g) (mcols P) []) (nth g (mcols P) [])) as [c [E [L H]]]; [rewrite !S3 by lia; reflexivity|].
  rewrite E. cbn [bind]. unfold vnorm, fchord. f_equal. cbn [nsqrt F64]. f_equal. etransitivity; [exact (fold_fsum c)|].
  assert (L' : @length f64 c = dim) by (etransitivity; [exact L|]; apply S3; lia). rewrite L'.
  apply fsum_ext. intros d Hd. assert (H' := H d (@n0 F64) ltac:(rewrite S3 by lia; exact Hd)).
  change (T F64) with f64 in H'. change (binary_float 53 1024) with f64 in *. rewrite H'. reflexivity.
Qed.

Lemma pow2_500 : 2 ^ 500 = pow2 500.
Proof. rewrite <- (IZR_Zpower radix2) by lia. rewrite pow_IZR. f_equal. Qed.
Lemma pow2_m500 : / 2 ^ 500 = pow2 (-500).
Proof. rewrite pow2_500. rewrite <- bpow_opp. reflexivity. Qed.

Lemma sqrt_pow2 e : sqrt (pow2 (2 * e)) = pow2 e.
Proof. replace (2 * e)%Z with (e + e)%Z by lia. rewrite bpow_plus. apply sqrt_square. apply bpow_ge_0. Qed.

Lemma del_fact m dim P g d : tame m dim P -> (g < m)%nat -> (d < dim)%nat ->
  fin (fdel P g d) = true /\ Rabs (val (fdel P g d)) <= pow2 501 /\ rel 1 (val (fdel P g d)) (val (ent P (S g) d) - val (ent P g d)) /\
  (val (fdel P g d) = 0 \/ pow2 (-500) <= Rabs (val (fdel P g d))).
Proof.
  intros [S [F G]] Hg Hd. destruct (F (Datatypes.S g) d ltac:(lia) Hd) as [F1 V1]. destruct (F g d ltac:(lia) Hd) as [F0 V0].
  specialize (G g d Hg Hd). rewrite pow2_500 in V1, V0. rewrite pow2_m500 in G.
  assert (B : Rabs (val (ent P (Datatypes.S g) d) - val (ent P g d)) <= pow2 501).
  { replace (pow2 501) with (pow2 500 + pow2 500) by (change 501%Z with (1 + 500)%Z; rewrite bpow_plus; change (pow2 1) with 2; ring).
    unfold Rminus. apply Rle_trans with (1 := Rabs_triang _ _). rewrite Rabs_Ropp. lra. }
  destruct (sub_ok _ _ 501 ltac:(lia) F1 F0 B) as [F' E]. unfold fdel. split; [exact F'|].
  set (y := val (ent P (Datatypes.S g) d) - val (ent P g d)) in *.
  split; [rewrite E; apply rnd_abs_le; [lia|exact B]|]. split.
  - destruct (rnd_minus _ _ (fmt_val (ent P (Datatypes.S g) d)) (fmt_val (ent P g d))) as [h [H Eh]].
    exists h. split; [apply factor1; exact H|]. rewrite E. exact Eh.
  - rewrite E. destruct G as [G|G].
    + left. unfold y. rewrite G, Rminus_diag_eq by reflexivity. apply rnd_0.
    + right. apply abs_round_ge_generic; try typeclasses eauto; [apply fmt_pow2; lia|exact G].
Qed.

Lemma sq_fact m dim P g d : tame m dim P -> (g < m)%nat -> (d < dim)%nat ->
  fin (Bmult mode_NE (fdel P g d) (fdel P g d)) = true /\ 0 <= val (Bmult mode_NE (fdel P g d) (fdel P g d)) <= pow2 1002 /\
  rel 3 (val (Bmult mode_NE (fdel P g d) (fdel P g d))) ((val (ent P (S g) d) - val (ent P g d)) * (val (ent P (S g) d) - val (ent P g d))) /\
  (val (Bmult mode_NE (fdel P g d) (fdel P g d)) = 0 \/ pow2 (-1000) <= val (Bmult mode_NE (fdel P g d) (fdel P g d))).
Proof.
  intros H Hg Hd. destruct (del_fact m dim P g d H Hg Hd) as [F [B [R Z]]]. set (x := fdel P g d) in *.
  assert (Q : 0 <= val x * val x) by (assert (T := Rle_0_sqr (val x)); exact T).
  assert (AB : val x * val x = Rabs (val x) * Rabs (val x)) by (rewrite <- Rabs_mult, Rabs_pos_eq by exact Q; reflexivity).
  assert (U : val x * val x <= pow2 1002).
  { rewrite AB. change 1002%Z with (501 + 501)%Z. rewrite bpow_plus. apply Rmult_le_compat; try assumption; apply Rabs_pos. }
  destruct (mul_ok x x 1002 ltac:(lia) F F) as [F' E]; [rewrite Rabs_pos_eq by exact Q; exact U|].
  assert (Z2 : val x * val x = 0 \/ pow2 (-1000) <= val x * val x).
  { destruct Z as [Z|Z]; [left; rewrite Z; ring|right]. rewrite AB. change (-1000)%Z with (-500 + -500)%Z. rewrite bpow_plus.
    apply Rmult_le_compat; try assumption; apply bpow_ge_0. }
  split; [exact F'|]. rewrite E. split; [|split].
  - split; [apply rnd_ge0; exact Q|]. rewrite <- (rnd_fmt (pow2 1002)) by (apply fmt_pow2; lia). apply rnd_le. exact U.
  - change 3%nat with (1 + (1 + 1))%nat. apply rel_trans with (val x * val x); [|apply rel_mul; exact R].
    apply rel_rnd. destruct Z2 as [Z2|Z2]; [left; exact Z2|right]. rewrite Rabs_pos_eq by exact Q. apply Rle_trans with (pow2 (-1000)); [apply bpow_le; lia|exact Z2].
  - destruct Z2 as [Z2|Z2]; [left; rewrite Z2; apply rnd_0|right]. rewrite <- (rnd_fmt (pow2 (-1000))) by (apply fmt_pow2; lia). apply rnd_le. exact Z2.
Qed.

Lemma sqrt_ok (x : f64) : fin x = true -> 0 <= val x -> fin (Bsqrt mode_NE x) = true /\ val (Bsqrt mode_NE x) = rnd (sqrt (val x)).
Proof.
  intros F V. destruct (Bsqrt_correct 53 1024 prec53 emax1024 mode_NE x) as [A [B _]]. split; [|exact A]. rewrite B.
  destruct x as [s|s| |s mx ex He]; try discriminate; [reflexivity|]. destruct s; [|reflexivity].
  exfalso. revert V. apply Rlt_not_le. cbn [B2R]. apply F2R_lt_0. reflexivity.
Qed.

(** the square root of a number that is zero or between [2^2a] and [2^2b] *)
Lemma sqrt_fact (x : f64) k X a b : fin x = true -> 0 <= X -> rel k (val x) X -> val x = 0 \/ pow2 (2 * a) <= val x -> val x <= pow2 (2 * b) -> (-500 <= a)%Z -> (-500 <= b)%Z ->
  fin (Bsqrt mode_NE x) = true /\ 0 <= val (Bsqrt mode_NE x) <= pow2 b /\ rel (k + 1) (val (Bsqrt mode_NE x)) (sqrt X) /\
  (val (Bsqrt mode_NE x) = 0 \/ pow2 a <= val (Bsqrt mode_NE x)).
Proof.
  intros F X0 R Z U Ha Hb. assert (V := rel_nonneg _ _ _ X0 R). destruct (sqrt_ok x F V) as [F' E].
  assert (Q := sqrt_pos (val x)).
  assert (Z2 : sqrt (val x) = 0 \/ pow2 a <= sqrt (val x)).
  { destruct Z as [Z|Z]; [left; rewrite Z; apply sqrt_0|right]. rewrite <- sqrt_pow2. apply sqrt_le_1; [apply bpow_ge_0|exact V|exact Z]. }
  assert (U2 : sqrt (val x) <= pow2 b) by (rewrite <- sqrt_pow2; apply sqrt_le_1; [exact V|apply bpow_ge_0|exact U]).
  split; [exact F'|]. rewrite E. split; [|split].
  - split; [apply rnd_ge0; exact Q|]. rewrite <- (rnd_fmt (pow2 b)) by (apply fmt_pow2; lia). apply rnd_le. exact U2.
  - rewrite Nat.add_comm. apply rel_trans with (sqrt (val x)); [|apply rel_sqrt; assumption].
    apply rel_rnd. destruct Z2 as [Z2|Z2]; [left; exact Z2|right]. rewrite Rabs_pos_eq by exact Q. apply Rle_trans with (pow2 a); [apply bpow_le; lia|exact Z2].
  - destruct Z2 as [Z2|Z2]; [left; rewrite Z2; apply rnd_0|right]. rewrite <- (rnd_fmt (pow2 a)) by (apply fmt_pow2; lia). apply rnd_le. exact Z2.
Qed.

Lemma fsum_zero_or w m a e c : (0 <= a <= 53)%Z -> (-1074 <= e)%Z -> (a + e < 1024)%Z -> (Z.of_nat m <= 2 ^ a)%Z ->
  (forall i, (i < m)%nat -> fin (w i) = true /\ 0 <= val (w i) <= pow2 e) ->
  (forall i, (i < m)%nat -> val (w i) = 0 \/ c <= val (w i)) -> val (fsum w m) = 0 \/ c <= val (fsum w m).
Proof.
  intros Ha He Hae Hm Hw Hc.
  assert (D : (forall i, (i < m)%nat -> val (w i) = 0) \/ exists i, (i < m)%nat /\ c <= val (w i)).
  { clear Hm Hw. induction m as [|m IH]; [left; lia|]. destruct (IH ltac:(intros; apply Hc; lia)) as [H|[i [Hi H]]]; [|right; exists i; split; [lia|exact H]].
    destruct (Hc m ltac:(lia)) as [H'|H']; [left|right; exists m; split; [lia|exact H']].
    intros i Hi. destruct (Nat.eq_dec i m) as [->|N]; [exact H'|apply H; lia]. }
  destruct D as [H|[i [Hi H]]].
  - left. destruct (fsum_ok w m a e Ha He Hae Hm Hw) as [_ [_ [g [_ E]]]]. rewrite E.
    rewrite (rsum_eq _ (fun _ => 0)) by (intros; apply H; assumption). rewrite rsum_c. ring.
  - right. apply Rle_trans with (1 := H). apply (fsum_ge w m a e); try lia; assumption.
Qed.

Lemma rsum_rel k f g n : (forall i, (i < n)%nat -> 0 <= g i /\ rel k (f i) (g i)) -> rel k (rsum f n) (rsum g n).
Proof.
  induction n as [|n IH]; intros H; [apply rel_refl|]. cbn [rsum].
  apply rel_plus; [apply rsum_nonneg; intros; apply H; lia|apply H; lia|apply IH; intros; apply H; lia|apply H; lia].
Qed.

Lemma chord_fact m dim P g : tame m dim P -> (Z.of_nat dim <= 2 ^ 20)%Z -> (g < m)%nat ->
  fin (fchord P dim g) = true /\ 0 <= val (fchord P dim g) <= pow2 511 /\
  rel (dim + 4) (val (fchord P dim g)) (sqrt (rsum (fun d => (val (ent P (S g) d) - val (ent P g d)) * (val (ent P (S g) d) - val (ent P g d))) dim)) /\
  (val (fchord P dim g) = 0 \/ pow2 (-500) <= val (fchord P dim g)).
Proof.
  intros H Hd Hg. set (w := fun d => Bmult mode_NE (fdel P g d) (fdel P g d)).
  assert (Hw : forall d, (d < dim)%nat -> fin (w d) = true /\ 0 <= val (w d) <= pow2 1002) by (intros d Hd'; destruct (sq_fact m dim P g d H Hg Hd') as [A [B _]]; split; assumption).
  destruct (fsum_ok w dim 20 1002 ltac:(lia) ltac:(lia) ltac:(lia) Hd Hw) as [F [V R]].
  replace (dim + 4)%nat with (dim + 3 + 1)%nat by lia.
  apply sqrt_fact; [exact F|apply rsum_nonneg; intros i Hi; apply Rle_0_sqr| | | |lia|lia].
  - apply rel_trans with (1 := R). apply rsum_rel. intros d Hd'. split; [apply Rle_0_sqr|]. apply (sq_fact m dim P g d H Hg Hd').
  - apply (fsum_zero_or w dim 20 1002 _ ltac:(lia) ltac:(lia) ltac:(lia) Hd Hw). intros d Hd'. apply (sq_fact m dim P g d H Hg Hd').
  - apply Rle_trans with (1 := proj2 V). change (2 * 511)%Z with (20 + 1002)%Z. rewrite bpow_plus. apply Rmult_le_compat_r; [apply bpow_ge_0|].
    apply INR_pow2; [lia|exact Hd].
Qed.

Lemma cum_loop (f : nat -> M f64) (w : nat -> f64) (s : f64) m : (1 <= m)%nat -> (forall g, (g < m)%nat -> f (S g) = Val (w g)) ->
  exists v, foldM (fun u g => c <- f g;; g1 <- usub g 1;; prev <- vget u g1;; x <- @ndiv F64 c s;; vset u g (@nadd F64 prev x)) (range 1 m) (@vzeros F64 (m + 1)) = Val v /\
    length v = (m + 1)%nat /\ forall g, (g < m)%nat -> nth g v (@n0 F64) = fcum w s g.
Proof.
  intros Hm H. unfold range.
  assert (Q : ok False (foldM (fun u g => c <- f g;; g1 <- usub g 1;; prev <- vget u g1;; x <- @ndiv F64 c s;; vset u g (@nadd F64 prev x)) (seq 1 (m - 1)) (@vzeros F64 (m + 1)))
    (fun v => length v = (m + 1)%nat /\ forall g, (g < 1 + (m - 1))%nat -> nth g v (@n0 F64) = fcum w s g)).
  { apply (ok_foldM_seq False _ (fun j v => length v = (m + 1)%nat /\ forall g, (g < j)%nat -> nth g v (@n0 F64) = fcum w s g)).
    - split; [apply vzeros_length|]. intros g Hg. replace g with 0%nat by lia. apply (@nth_vzeros F64).
    - intros i v Hi [L Hv]. replace i with (S (i - 1)) at 1 by lia. rewrite H by lia. cbn [bind]. rewrite usub_ok by lia. cbn [bind].
      assert (E := @vget_nth F64 v (i - 1) (@n0 F64) ltac:(lia)). rewrite E. cbn [bind ndiv F64].
      assert (E2 := @vset_val F64 v i (Bplus mode_NE (nth (i - 1) v (@n0 F64)) (Bdiv mode_NE (w (i - 1)%nat) s)) ltac:(lia)).
      cbn [nadd F64]. rewrite E2. cbn [ok]. rewrite upd_length. split; [exact L|].
      intros g Hg. rewrite nth_upd by lia. destruct (Nat.eqb_spec g i) as [->|Hgi]; [|apply Hv; lia].
      rewrite Hv by lia. replace i with (S (i - 1)) at 3 by lia. reflexivity. }
  apply ok_val_ex in Q. destruct Q as [v [E [L Hv]]]. exists v. split; [exact E|]. split; [exact L|]. intros g Hg. apply Hv. lia.
Qed.

(** what both generators do with their chord weights *)
Lemma cum_params m k w W v : (1 <= m)%nat -> (Z.of_nat m <= 2 ^ 20)%Z -> (Z.of_nat k <= 2 ^ 21)%Z ->
  (forall i, (i < m)%nat -> fin (w i) = true /\ 0 <= val (w i) <= pow2 1000) ->
  (forall i, (i < m)%nat -> 0 <= W i /\ rel k (val (w i)) (W i)) -> (exists i, (i < m)%nat /\ 0 < W i) ->
  length v = (m + 1)%nat -> (forall g, (g < m)%nat -> nth g v (@n0 F64) = fcum w (fsum w m) g) ->
  float_params m (upd v m (@n1 F64)) /\
  forall x, proportional x m W -> close_to (upd v m (@n1 F64)) x (INR (2 * m + 2 * k + 2) * eps).
Proof.
  intros Hm Hb Hk Hw HW Hp L Hv. set (s := fsum w m) in *.
  assert (C := cum_fact m k w W Hm Hb Hw HW Hp). fold s in C.
  assert (N : forall g, (g < m + 1)%nat -> nth g (upd v m (@n1 F64)) (@n0 F64) = if (g =? m)%nat then @n1 F64 else fcum w s g).
  { intros g Hg. rewrite nth_upd by lia. destruct (Nat.eqb_spec g m); [reflexivity|]. apply Hv. lia. }
  destruct n1_ok as [F1 V1]. destruct n0_ok as [F0 V0].
  assert (FN : forall g, (g < m + 1)%nat -> finite (nth g (upd v m (@n1 F64)) (@n0 F64))).
  { intros g Hg. change (T F64) with f64 in *. rewrite N by exact Hg. destruct (g =? m)%nat eqn:E; [exact F1|]. apply C. lia. }
  assert (LU : length (upd v m (@n1 F64)) = (m + 1)%nat) by (rewrite upd_length; exact L).
  split.
  - split; [exact LU|]. split; [|split; [|split]].
    + intros x Hx. destruct (In_nth _ _ (@n0 F64) Hx) as [g [Hg <-]]. change (binary_float 53 1024) with f64 in *. apply FN. lia.
    + change (T F64) with f64 in *. rewrite N by lia. destruct (Nat.eqb_spec 0 m); [lia|]. exact V0.
    + change (T F64) with f64 in *. rewrite N by lia. rewrite Nat.eqb_refl. exact V1.
    + intros g h Hgh Hh. change (T F64) with f64 in *. rewrite !N by lia. destruct (Nat.eqb_spec g m); [lia|]. destruct (Nat.eqb_spec h m); [lia|]. apply C; lia.
  - intros x [Lx [X0 [X1 X]]]. assert (TP : 0 < rsum W m) by (apply (total_pos m k w W); assumption).
    split; [etransitivity; [exact LU|symmetry; exact Lx]|]. intros g Hg0. assert (Hg : (g < m + 1)%nat) by (rewrite <- LU; exact Hg0). clear Hg0. split; [apply FN; exact Hg|].
    assert (XE : forall g, (g <= m)%nat -> nth g x 0 = rsum W g / rsum W m).
    { induction g0 as [|h IH]; intros Hh; [rewrite X0; simpl; lra|]. assert (D := X h ltac:(lia)). cbn [rsum]. specialize (IH ltac:(lia)).
      apply (Rmult_eq_reg_r (rsum W m)); [|lra]. unfold Rdiv. rewrite Rmult_assoc, Rinv_l by lra.
      rewrite IH in D. replace ((nth (S h) x 0 - rsum W h / rsum W m) * rsum W m) with (nth (S h) x 0 * rsum W m - rsum W h) in D by (field; lra). lra. }
    change (T F64) with f64 in *. rewrite N by exact Hg. destruct (Nat.eqb_spec g m) as [->|Ng].
    + assert (E1 : val (@n1 F64) - nth m x 0 = 0) by (rewrite X1; change (val (@n1 F64) - 1 = 0); rewrite V1; ring).
      rewrite E1, Rabs_R0. apply Rmult_le_pos; [apply pos_INR|left; apply eps_pos].
    + rewrite XE by lia. apply (cum_close m k w W); try assumption. lia.
Qed.

Lemma distance_val m dim P P' g : same_points m dim P P' -> (g < m)%nat ->
  distance P' dim (S g) g = sqrt (rsum (fun d => (val (ent P (S g) d) - val (ent P g d)) * (val (ent P (S g) d) - val (ent P g d))) dim).
Proof.
  intros [S H] Hg. unfold distance. f_equal. apply rsum_eq. intros d Hd. rewrite !H by lia. reflexivity.
Qed.

Lemma moving_R m dim P P' : same_points m dim P P' -> moving m dim P -> exists g, (g < m)%nat /\ exists d, (d < dim)%nat /\ ent P' g d <> ent P' (S g) d.
Proof. intros [S H] [g [d [Hg [Hd N]]]]. exists g. split; [exact Hg|]. exists d. split; [exact Hd|]. rewrite !H by lia. congruence. Qed.

Lemma params_error m dim e : (e <= 2 * m + 2 * (dim + 5) + 2)%nat -> INR e * eps <= INR (m + dim + 6) / 2 ^ 52.
Proof.
  intros H. assert (E : INR e <= 2 * INR (m + dim + 6)). { change 2 with (INR 2). rewrite <- mult_INR. apply le_INR. lia. }
  rewrite eps_val. unfold Rdiv. lra.
Qed.

Lemma close_weaken v w e e' : e <= e' -> close_to v w e -> close_to v w e'.
Proof. intros H [L C]. split; [exact L|]. intros i Hi. destruct (C i Hi). split; [assumption|lra]. Qed.

Theorem chord_length_F64 m dim P P' : tame m dim P -> same_points m dim P P' -> moving m dim P -> (1 <= m)%nat -> (Z.of_nat m <= 2 ^ 20)%Z -> (Z.of_nat dim <= 2 ^ 20)%Z ->
  exists v w, @chord_length F64 P = Val (mkParams v m) /\ @chord_length RNum P' = Val (mkParams w m) /\
    float_params m v /\ close_to v w (INR (m + dim + 6) / 2 ^ 52).
Proof.
  intros H SP Mv Hm Hb Hd. assert (S := proj1 H). assert (S' := proj1 SP).
  replace (Datatypes.S m) with (m + 1)%nat in S' by lia.
  destruct (chord_length_R P' dim m S' Hm (or_intror (moving_R _ _ _ _ SP Mv))) as [x [EX PX]].
  set (W := fun g => distance P' dim (Datatypes.S g) g) in PX.
  assert (Hw : forall i, (i < m)%nat -> fin (fchord P dim i) = true /\ 0 <= val (fchord P dim i) <= pow2 1000).
  { intros i Hi. destruct (chord_fact m dim P i H Hd Hi) as [A [B _]]. split; [exact A|]. split; [apply B|]. apply Rle_trans with (pow2 511); [apply B|apply bpow_le; lia]. }
  assert (HW : forall i, (i < m)%nat -> 0 <= W i /\ rel (dim + 4) (val (fchord P dim i)) (W i)).
  { intros i Hi. unfold W. split; [apply distance_nonneg|]. rewrite (distance_val m dim P P' i SP Hi). apply (chord_fact m dim P i H Hd Hi). }
  assert (HP : exists i, (i < m)%nat /\ 0 < W i).
  { destruct (moving_R _ _ _ _ SP Mv) as [g [Hg [d [Hd' N]]]]. exists g. split; [exact Hg|]. apply distance_pos. exists d. split; [exact Hd'|]. congruence. }
  unfold chord_length at 1, dp_segments. assert (EN : ncols P = (m + 1)%nat) by (etransitivity; [apply S|lia]). rewrite EN, usub_ok by lia. cbn [bind].
  replace (m + 1 - 1)%nat with m by lia. unfold rangei. replace (m + 1 - 1)%nat with m by lia.
  rewrite (foldM_fsum _ (fchord P dim) 1 m).
  2:{ intros s i Hi. replace i with (Datatypes.S (i - 1)) by lia. rewrite (chord_F64 P dim m (i - 1) S) by lia. cbn [bind]. replace (Datatypes.S (i - 1) - 1)%nat with (i - 1)%nat by lia. reflexivity. }
  cbn [bind]. destruct (cum_loop (@chord F64 P) (fchord P dim) (fsum (fchord P dim) m) m Hm) as [v [E [L Hv]]].
  { intros g Hg. apply (chord_F64 P dim m g S Hg). }
  change (T F64) with f64 in *. change (binary_float 53 1024) with f64 in *. rewrite E. cbn [bind].
  rewrite vset_val by lia. cbn [bind].
  destruct (cum_params m (dim + 4) (fchord P dim) W v Hm Hb ltac:(lia) Hw HW HP L Hv) as [A B].
  eexists. exists x. split; [reflexivity|]. split; [exact EX|]. split; [exact A|].
  apply close_weaken with (2 := B x PX). apply params_error. lia.
Qed.

Theorem centripetal_F64 m dim P P' : tame m dim P -> same_points m dim P P' -> moving m dim P -> (1 <= m)%nat -> (Z.of_nat m <= 2 ^ 20)%Z -> (Z.of_nat dim <= 2 ^ 20)%Z ->
  exists v w, @centripetal F64 P = Val (mkParams v m) /\ @centripetal RNum P' = Val (mkParams w m) /\
    float_params m v /\ close_to v w (INR (m + dim + 6) / 2 ^ 52).
Proof.
  intros H SP Mv Hm Hb Hd. assert (S := proj1 H). assert (S' := proj1 SP).
  replace (Datatypes.S m) with (m + 1)%nat in S' by lia.
  destruct (centripetal_R P' dim m S' Hm (or_intror (moving_R _ _ _ _ SP Mv))) as [x [EX PX]].
  set (W := fun g => sqrt (distance P' dim (Datatypes.S g) g)) in PX.
  set (w := fun g => Bsqrt mode_NE (fchord P dim g)).
  assert (Hs : forall i, (i < m)%nat -> fin (w i) = true /\ 0 <= val (w i) <= pow2 256 /\ rel (dim + 4 + 1) (val (w i)) (W i) /\ (val (w i) = 0 \/ pow2 (-250) <= val (w i))).
  { intros i Hi. destruct (chord_fact m dim P i H Hd Hi) as [A [B [C D]]]. unfold w, W. rewrite (distance_val m dim P P' i SP Hi).
    apply sqrt_fact; try assumption; try lia; [apply sqrt_pos|]. apply Rle_trans with (pow2 511); [apply B|apply bpow_le; lia]. }
  assert (Hw : forall i, (i < m)%nat -> fin (w i) = true /\ 0 <= val (w i) <= pow2 1000).
  { intros i Hi. destruct (Hs i Hi) as [A [B _]]. split; [exact A|]. split; [apply B|]. apply Rle_trans with (pow2 256); [apply B|apply bpow_le; lia]. }
  assert (HW : forall i, (i < m)%nat -> 0 <= W i /\ rel (dim + 4 + 1) (val (w i)) (W i)).
  { intros i Hi. split; [apply sqrt_pos|]. apply (Hs i Hi). }
  assert (HP : exists i, (i < m)%nat /\ 0 < W i).
  { destruct (moving_R _ _ _ _ SP Mv) as [g [Hg [d [Hd' N]]]]. exists g. split; [exact Hg|]. apply sqrt_lt_R0, distance_pos. exists d. split; [exact Hd'|]. congruence. }
  unfold centripetal at 1, dp_segments. assert (EN : ncols P = (m + 1)%nat) by (etransitivity; [apply S|lia]). rewrite EN, usub_ok by lia. cbn [bind].
  replace (m + 1 - 1)%nat with m by lia. unfold rangei. replace (m + 1 - 1)%nat with m by lia.
  rewrite (foldM_fsum _ w 1 m).
  2:{ intros s i Hi. replace i with (Datatypes.S (i - 1)) by lia. rewrite (chord_F64 P dim m (i - 1) S) by lia. cbn [bind]. unfold w. replace (Datatypes.S (i - 1) - 1)%nat with (i - 1)%nat by lia. reflexivity. }
  cbn [bind]. destruct (cum_loop (fun g => c <- @chord F64 P g;; Val (Bsqrt mode_NE c)) w (fsum w m) m Hm) as [v [E [L Hv]]].
  { intros g Hg. rewrite (chord_F64 P dim m g S Hg). reflexivity. }
  match goal with |- context [foldM ?b (range 1 m) ?z] => assert (E2 : foldM b (range 1 m) z = Val v) end.
  { rewrite <- E. apply foldM_ext. intros s g _. destruct (@chord F64 P g); reflexivity. }
  rewrite E2. cbn [bind].
  change (T F64) with f64 in *. change (binary_float 53 1024) with f64 in *.
  rewrite vset_val by lia. cbn [bind].
  destruct (cum_params m (dim + 4 + 1) w W v Hm Hb ltac:(lia) Hw HW HP L Hv) as [A B].
  eexists. exists x. split; [reflexivity|]. split; [exact EX|]. split; [exact A|].
  apply close_weaken with (2 := B x PX). apply params_error. lia.
Qed.

Theorem averaged_F64 p n (v : list f64) s : (1 <= p <= n)%nat -> (Z.of_nat p <= 2 ^ 24)%Z -> length v = (n + 1)%nat -> unit_list v ->
  exists U V, @averaging F64 p n (mkParams v s) = Val (Ok (knots_of p U)) /\ @averaging RNum p n (mkParams (map val v) s) = Val (Ok (knots_of p V)) /\
    close_to U V (INR (p + 2) / 2 ^ 53) /\ (sorted (map val v) -> sorted (map val U)).
Proof.
  intros Hp Hb L Hv. assert (Lm : length (map val v) = (n + 1)%nat) by (rewrite map_length; exact L).
  eexists. eexists. split; [apply averaging_F64; assumption|]. split; [apply averaging_R; assumption|]. split.
  - assert (Ep := eps_pos). replace (INR (p + 2) / 2 ^ 53) with (INR (p + 2) * eps) by (rewrite eps_val; unfold Rdiv; lra).
    apply fill_close; [apply Rmult_le_pos; [apply pos_INR|lra]|].
    intros i Hi. destruct (favg_ok p n v i Hp Hb L Hv Hi) as [A [B C]]. split; assumption.
  - intros Hs. rewrite map_fill. apply fill_sorted; [lia| |].
    + intros i Hi. apply (favg_ok p n v i Hp Hb L Hv Hi).
    + intros i Hi Hi'. apply (favg_mono p n); try assumption; lia.
Qed.
