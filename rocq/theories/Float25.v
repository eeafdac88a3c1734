(** * Merging in binary64 *)

From Coq Require Import ZArith Reals List Bool Arith Lia Lra Psatz.
From Flocq Require Import Core.Core Mult_error IEEE754.BinarySingleNaN.
From Verif Require Import Num Vec MKnots MPoints MCurve MFit MMerge RNum F64 Hoare Lists Struct Spec BMath3 Api ApiF ApiF3 ApiJ ApiK Bridge Divisions Facts1 Facts3 Facts8 Gen2 Gen3 Merge1 Merge14 Merge15 Merge16 Float1 Float2 Float3 Float15 Float22.
Import ListNotations.
Local Open Scope R_scope.

Lemma eps_2 : / 2 ^ 52 = 2 * eps.
Proof. rewrite eps_val. lra. Qed.

Lemma eta_eps : eta <= eps / 4.
Proof. unfold eta, eps. replace (pow2 (-53) / 4) with (pow2 (-55)); [apply bpow_le; lia|]. replace (-53)%Z with (-55 + 2)%Z by lia. rewrite bpow_plus. change (pow2 2) with 4. field. Qed.

Lemma kap_near g : / kap <= g <= kap -> Rabs (g - 1) <= eps.
Proof. intros H. destruct (factor_abs g H) as [T _]. unfold kap in T at 1. assert (kap - 1 = eps) by (unfold kap; ring). lra. Qed.

Lemma rnd_near x B : Rabs x <= B -> Rabs (rnd x - x) <= B * eps + eta.
Proof.
  intros H. destruct (rnd_any x) as [g [t [Hg [Ht ->]]]]. replace (x * g + t - x) with (x * (g - 1) + t) by ring. eapply Rle_trans; [apply Rabs_triang|].
  rewrite Rabs_mult. assert (K := kap_near g Hg). assert (0 <= Rabs x) by apply Rabs_pos. assert (0 <= Rabs (g - 1)) by apply Rabs_pos. assert (E := eps_pos).
  apply Rplus_le_compat; [apply Rmult_le_compat; assumption|exact Ht].
Qed.

Lemma rnd_near_plus x y B : fmt x -> fmt y -> Rabs (x + y) <= B -> Rabs (rnd (x + y) - (x + y)) <= B * eps.
Proof.
  intros F1 F2 H. destruct (rnd_plus x y F1 F2) as [g [Hg ->]]. replace ((x + y) * g - (x + y)) with ((x + y) * (g - 1)) by ring. rewrite Rabs_mult.
  assert (K := kap_near g Hg). apply Rmult_le_compat; try apply Rabs_pos; assumption.
Qed.

(** ** what happens to a knot of the left and of the right curve *)
Definition lo (v : R) : R := rnd (v / 2).
Definition hi (w : R) : R := rnd (rnd (rnd (1 - rnd (1 - w)) + 1) / 2).

Lemma fmt_2 : fmt 2.
Proof. change 2 with (pow2 1). apply fmt_pow2. lia. Qed.
Lemma fmt_half : fmt (/ 2).
Proof. change (/ 2) with (pow2 (-1)). apply fmt_pow2. lia. Qed.

Lemma lo_le v v' : v <= v' -> lo v <= lo v'. Proof. intros H. apply rnd_le. lra. Qed.
Lemma hi_le w w' : w <= w' -> hi w <= hi w'.
Proof. intros H. unfold hi. apply rnd_le. apply Rmult_le_compat_r; [lra|]. apply rnd_le. apply Rplus_le_compat_r. apply rnd_le. apply Rplus_le_compat_l. apply Ropp_le_contravar. apply rnd_le. lra. Qed.
Lemma lo_0 : lo 0 = 0. Proof. unfold lo. replace (0 / 2) with 0 by lra. apply rnd_0. Qed.
Lemma lo_1 : lo 1 = / 2. Proof. unfold lo. replace (1 / 2) with (/ 2) by lra. apply rnd_fmt, fmt_half. Qed.
Lemma hi_0 : hi 0 = / 2.
Proof. unfold hi. rewrite Rminus_0_r, (rnd_fmt 1 fmt_1). replace (1 - 1) with 0 by lra. rewrite rnd_0, Rplus_0_l, (rnd_fmt 1 fmt_1). replace (1 / 2) with (/ 2) by lra. apply rnd_fmt, fmt_half. Qed.
Lemma hi_1 : hi 1 = 1.
Proof. unfold hi. replace (1 - 1) with 0 by lra. rewrite rnd_0, Rminus_0_r, (rnd_fmt 1 fmt_1). replace (1 + 1) with 2 by lra. rewrite (rnd_fmt 2 fmt_2). replace (2 / 2) with 1 by lra. apply rnd_fmt, fmt_1. Qed.

Lemma lo_near v : 0 <= v <= 1 -> Rabs (lo v - v / 2) <= / 2 ^ 52.
Proof. intros H. unfold lo. assert (T := rnd_near (v / 2) (/ 2) ltac:(apply Rabs_le; lra)). assert (E := eta_eps). assert (P := eps_pos). rewrite eps_2. lra. Qed.

Lemma half_fmt y : fmt y -> 1 <= y -> rnd (y / 2) = y / 2.
Proof.
  intros F H. apply rnd_fmt. change (y / 2) with (y * / 2). change (/ 2) with (pow2 (-1)). apply (mult_bpow_exact_FLT radix2 (-1074) 53); [exact F|].
  assert (M : (1 <= mag radix2 y)%Z). { apply mag_ge_bpow. change (pow2 (1 - 1)) with 1. rewrite Rabs_pos_eq by lra. exact H. } lia.
Qed.

Lemma fmt_rnd x : fmt (rnd x). Proof. apply generic_format_round; typeclasses eauto. Qed.

Lemma grid_rnd w : fmt w -> 0 <= w <= 1 -> grid (rnd (1 - w)).
Proof.
  intros F H. destruct (Rle_lt_dec w (/ 2)) as [L|L].
  - apply grid_big; [apply fmt_rnd|]. split; [apply Rle_trans with (rnd (/ 2)); [rewrite (rnd_fmt (/ 2) fmt_half)|apply rnd_le]|apply Rle_trans with (rnd 1); [apply rnd_le|rewrite (rnd_fmt 1 fmt_1)]]; lra.
  - assert (G : grid (1 - w)) by (apply grid_flip, grid_big; [exact F|lra]). rewrite rnd_fmt by (apply grid_fmt, G). exact G.
Qed.

Lemma hi_near w : fmt w -> 0 <= w <= 1 -> Rabs (hi w - (1 + w) / 2) <= / 2 ^ 52.
Proof.
  intros F H. assert (P := eps_pos). set (r := rnd (1 - w)). assert (Er : Rabs (r - (1 - w)) <= 1 * eps) by (unfold r, Rminus; apply (rnd_near_plus 1 (- w)); [apply fmt_1|apply fmt_opp, F|apply Rabs_le; lra]).
  assert (Rr : 0 <= r <= 1). { split; [apply rnd_ge0; lra|]. apply Rle_trans with (rnd 1); [apply rnd_le|rewrite (rnd_fmt 1 fmt_1)]; lra. }
  set (s := rnd (1 - r)). assert (Rs : 0 <= s <= 1). { split; [apply rnd_ge0; lra|]. apply Rle_trans with (rnd 1); [apply rnd_le|rewrite (rnd_fmt 1 fmt_1)]; lra. }
  assert (Es : s = 1 - r). { unfold s. apply rnd_fmt, grid_fmt, grid_flip. unfold r. apply grid_rnd; [exact F|exact H]. }
  set (y := rnd (s + 1)). assert (Ey : Rabs (y - (s + 1)) <= 2 * eps) by (apply (rnd_near_plus s 1); [apply fmt_rnd|apply fmt_1|apply Rabs_le; lra]).
  assert (Ry : 1 <= y). { apply Rle_trans with (rnd 1); [rewrite (rnd_fmt 1 fmt_1)|apply rnd_le]; lra. }
  unfold hi. fold r. fold s. fold y. rewrite (half_fmt y (fmt_rnd _) Ry). rewrite eps_2. replace (y / 2 - (1 + w) / 2) with ((y - (s + 1)) / 2 + - (r - (1 - w)) / 2) by (rewrite Es; field).
  apply Rabs_le_inv in Ey. apply Rabs_le_inv in Er. apply Rabs_le. lra.
Qed.
