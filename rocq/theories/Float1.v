(** * Rounding errors of binary64 *)

From Coq Require Import ZArith Reals List Bool Arith Lia Lra Psatz.
From Flocq Require Import Core.Core Relative Plus_error IEEE754.BinarySingleNaN.
From Verif Require Import Num F64.
Local Open Scope R_scope.

Notation pow2 := (bpow radix2).
Notation fin := (@is_finite 53 1024).
Notation val := (@B2R 53 1024).
Notation rnd := (round radix2 (SpecFloat.fexp 53 1024) (round_mode mode_NE)).
Notation fmt := (generic_format radix2 (SpecFloat.fexp 53 1024)).

#[global] Instance fexp_valid : Valid_exp (SpecFloat.fexp 53 1024) := FLT_exp_valid (-1074) 53.
#[global] Instance fexp_mono : Monotone_exp (SpecFloat.fexp 53 1024) := FLT_exp_monotone (-1074) 53.

(** the unit roundoff, half the smallest positive number, and one plus the unit roundoff *)
Definition eps : R := pow2 (-53).
Definition eta : R := pow2 (-1075).
Definition kap : R := 1 + eps.

Lemma eps_pos : 0 < eps. Proof. apply bpow_gt_0. Qed.
Lemma eta_pos : 0 < eta. Proof. apply bpow_gt_0. Qed.
Lemma eps_val : eps = / 9007199254740992.
Proof. unfold eps. simpl. reflexivity. Qed.
Lemma kap_gt1 : 1 < kap. Proof. unfold kap. assert (T := eps_pos). lra. Qed.
Lemma kap_pos : 0 < kap. Proof. assert (T := kap_gt1). lra. Qed.

Lemma fmt_val x : fmt (val x).
Proof. apply generic_format_B2R. Qed.
Lemma fmt_pow2 e : (-1074 <= e)%Z -> fmt (pow2 e).
Proof. intros H. apply generic_format_bpow. unfold SpecFloat.fexp, SpecFloat.emin. lia. Qed.
Lemma rnd_fmt x : fmt x -> rnd x = x.
Proof. intros H. apply round_generic; [apply valid_rnd_N|exact H]. Qed.
Lemma rnd_0 : rnd 0 = 0.
Proof. apply round_0. apply valid_rnd_N. Qed.
Lemma rnd_le x y : x <= y -> rnd x <= rnd y.
Proof. apply round_le; typeclasses eauto. Qed.
Lemma rnd_ge0 x : 0 <= x -> 0 <= rnd x.
Proof. intros H. rewrite <- rnd_0. apply rnd_le. exact H. Qed.
Lemma fmt_1 : fmt 1.
Proof. change 1 with (pow2 0). apply fmt_pow2. lia. Qed.

Lemma rnd_abs_le x e : (-1074 <= e)%Z -> Rabs x <= pow2 e -> Rabs (rnd x) <= pow2 e.
Proof. intros He H. apply abs_round_le_generic; try typeclasses eauto; [apply fmt_pow2; exact He|exact H]. Qed.

(** ** Relative errors *)
Lemma u_ro_eps : u_ro radix2 53 = eps.
Proof. unfold u_ro, eps. change (-53 + 1)%Z with (-52)%Z. change (-53)%Z with (-52 + -1)%Z. rewrite bpow_plus. simpl. lra. Qed.

Lemma factor d : Rabs d <= eps / (1 + eps) -> / kap <= 1 + d <= kap.
Proof.
  intros H. assert (T := eps_pos). apply Rabs_le_inv in H.
  assert (E : eps / (1 + eps) = 1 - / kap) by (unfold kap; field; lra).
  assert (K1 : / kap > 0) by (apply Rinv_0_lt_compat, kap_pos).
  rewrite E in H. split; [lra|].
  assert (1 - / kap <= eps).
  { rewrite <- E. apply (Rmult_le_reg_r (1 + eps)); [lra|]. unfold Rdiv. rewrite Rmult_assoc, Rinv_l by lra. nra. }
  unfold kap. lra.
Qed.

Lemma rnd_plus x y : fmt x -> fmt y -> exists g, / kap <= g <= kap /\ rnd (x + y) = (x + y) * g.
Proof.
  intros Hx Hy. destruct (FLT_plus_error_N_ex radix2 (-1074) 53 (fun x => negb (Z.even x)) x y Hx Hy) as [d [Hd E]].
  rewrite u_ro_eps in Hd. exists (1 + d). split; [apply factor; exact Hd|exact E].
Qed.

Lemma fmt_opp x : fmt x -> fmt (- x).
Proof. apply generic_format_opp. Qed.

Lemma rnd_minus x y : fmt x -> fmt y -> exists g, / kap <= g <= kap /\ rnd (x - y) = (x - y) * g.
Proof. intros Hx Hy. apply (rnd_plus x (- y) Hx (fmt_opp y Hy)). Qed.

Lemma rnd_any x : exists g t, / kap <= g <= kap /\ Rabs t <= eta /\ rnd x = x * g + t.
Proof.
  destruct (relative_error_N_FLT'_ex radix2 (-1074) 53 ltac:(reflexivity) (fun x => negb (Z.even x)) x) as [d [t [Hd [Ht [_ E]]]]].
  rewrite u_ro_eps in Hd. exists (1 + d), t. split; [apply factor; exact Hd|]. split; [|exact E].
  unfold eta. replace (-1075)%Z with (-1074 + -1)%Z by reflexivity. rewrite bpow_plus. simpl (pow2 (-1)).
  rewrite Rmult_comm. exact Ht.
Qed.

(** ** The operations *)
Lemma lt_emax x e : (-1074 <= e < 1024)%Z -> Rabs x <= pow2 e -> Rlt_bool (Rabs (rnd x)) (pow2 1024) = true.
Proof.
  intros He H. apply Rlt_bool_true. apply Rle_lt_trans with (pow2 e); [apply rnd_abs_le; [lia|exact H]|].
  apply bpow_lt. lia.
Qed.

Lemma add_ok x y e : (-1074 <= e < 1024)%Z -> fin x = true -> fin y = true -> Rabs (val x + val y) <= pow2 e ->
  fin (Bplus mode_NE x y) = true /\ val (Bplus mode_NE x y) = rnd (val x + val y).
Proof.
  intros He Hx Hy H. assert (T := Bplus_correct 53 1024 prec53 emax1024 mode_NE x y Hx Hy).
  rewrite (lt_emax _ e He H) in T. destruct T as [T1 [T2 _]]. split; assumption.
Qed.

Lemma sub_ok x y e : (-1074 <= e < 1024)%Z -> fin x = true -> fin y = true -> Rabs (val x - val y) <= pow2 e ->
  fin (Bminus mode_NE x y) = true /\ val (Bminus mode_NE x y) = rnd (val x - val y).
Proof.
  intros He Hx Hy H. assert (T := Bminus_correct 53 1024 prec53 emax1024 mode_NE x y Hx Hy).
  rewrite (lt_emax _ e He H) in T. destruct T as [T1 [T2 _]]. split; assumption.
Qed.

Lemma mul_ok x y e : (-1074 <= e < 1024)%Z -> fin x = true -> fin y = true -> Rabs (val x * val y) <= pow2 e ->
  fin (Bmult mode_NE x y) = true /\ val (Bmult mode_NE x y) = rnd (val x * val y).
Proof.
  intros He Hx Hy H. assert (T := Bmult_correct 53 1024 prec53 emax1024 mode_NE x y).
  rewrite (lt_emax _ e He H) in T. destruct T as [T1 [T2 _]]. rewrite Hx, Hy in T2. split; assumption.
Qed.

Lemma div_ok x y e : (-1074 <= e < 1024)%Z -> fin x = true -> val y <> 0 -> Rabs (val x / val y) <= pow2 e ->
  fin (Bdiv mode_NE x y) = true /\ val (Bdiv mode_NE x y) = rnd (val x / val y).
Proof.
  intros He Hx Hy H. assert (T := Bdiv_correct 53 1024 prec53 emax1024 mode_NE x y Hy).
  rewrite (lt_emax _ e He H) in T. destruct T as [T1 [T2 _]]. rewrite Hx in T2. split; assumption.
Qed.

Lemma leb_val x y : fin x = true -> fin y = true -> Bleb x y = Rle_bool (val x) (val y).
Proof. apply Bleb_correct. Qed.
Lemma ltb_val x y : fin x = true -> fin y = true -> Bltb x y = Rlt_bool (val x) (val y).
Proof. apply Bltb_correct. Qed.
Lemma eqb_val x y : fin x = true -> fin y = true -> Beqb x y = Req_bool (val x) (val y).
Proof. apply Beqb_correct. Qed.

(** whole numbers *)
Lemma ofZ_ok z : (Z.abs z <= 2 ^ 53)%Z -> fin (fmk z 0) = true /\ val (fmk z 0) = IZR z.
Proof.
  intros Hz. assert (T := binary_normalize_correct 53 1024 prec53 emax1024 mode_NE z 0 false). cbv zeta in T.
  assert (E : F2R (Float radix2 z 0) = IZR z) by (unfold F2R; simpl; ring). rewrite E in T.
  assert (B : Rabs (IZR z) <= pow2 53).
  { rewrite <- abs_IZR. rewrite <- (IZR_Zpower radix2) by lia. apply IZR_le. exact Hz. }
  rewrite (lt_emax _ 53 ltac:(lia) B) in T. destruct T as [T1 [T2 _]]. split; [exact T2|].
  unfold fmk. rewrite T1. apply rnd_fmt.
  destruct (Z.eq_dec (Z.abs z) (2 ^ 53)) as [Ez|Ez].
  - assert (F := fmt_pow2 53 ltac:(lia)). rewrite <- (IZR_Zpower radix2) in F by lia. change (radix2 ^ 53)%Z with (2 ^ 53)%Z in F.
    destruct (Z.abs_eq_or_opp z) as [A|A]; [rewrite <- A, Ez; exact F|].
    replace z with (- Z.abs z)%Z by lia. rewrite Ez, opp_IZR. apply fmt_opp. exact F.
  - apply generic_format_FLT with (emin := (-1074)%Z) (prec := 53%Z). exists (Float radix2 z 0); [symmetry; exact E|simpl; lia|simpl; lia].
Qed.

Lemma n0_ok : fin (@n0 F64) = true /\ val (@n0 F64) = 0.
Proof. apply (ofZ_ok 0). lia. Qed.
Lemma n1_ok : fin (@n1 F64) = true /\ val (@n1 F64) = 1.
Proof. apply (ofZ_ok 1). lia. Qed.

(** ** Powers of [kap] *)
Lemma kpow_pos m : 0 < kap ^ m. Proof. apply pow_lt, kap_pos. Qed.
Lemma kpow_ge1 m : 1 <= kap ^ m. Proof. apply pow_R1_Rle. assert (T := kap_gt1). lra. Qed.
Lemma kinv_pos m : 0 < / kap ^ m. Proof. apply Rinv_0_lt_compat, kpow_pos. Qed.
Lemma kinv_le1 m : / kap ^ m <= 1.
Proof. rewrite <- Rinv_1. apply Rinv_le_contravar; [lra|apply kpow_ge1]. Qed.
Lemma kpow_mono m m' : (m <= m')%nat -> kap ^ m <= kap ^ m'.
Proof. intros H. apply Rle_pow; [assert (T := kap_gt1); lra|exact H]. Qed.

(** [kap ^ m] is [1 + m * eps] up to second order *)
Lemma kpow_bound m : INR m * eps <= 1 / 2 -> kap ^ m <= 1 + INR m * eps + (INR m * eps) ^ 2.
Proof.
  assert (T := eps_pos). induction m as [|m IH]; intros H.
  - simpl. lra.
  - rewrite S_INR in *. assert (P := pos_INR m). cbn [pow]. unfold kap at 1.
    assert (Hm : INR m * eps <= 1 / 2) by nra. specialize (IH Hm).
    apply Rle_trans with ((1 + eps) * (1 + INR m * eps + (INR m * eps) ^ 2)); [apply Rmult_le_compat_l; lra|].
    set (a := INR m * eps) in *. assert (0 <= a) by (unfold a; apply Rmult_le_pos; lra). replace ((INR m + 1) * eps) with (a + eps) by (unfold a; ring).
    assert (0 <= eps * a) by nra. assert (eps * a * a <= eps * a * 1) by (apply Rmult_le_compat_l; lra).
    assert (0 <= eps * eps) by nra. lra.
Qed.

Lemma kpow_le2 m : INR m * eps <= 1 / 2 -> kap ^ m <= 2.
Proof.
  intros H. assert (T := kpow_bound m H). assert (E := eps_pos). assert (P := pos_INR m). assert (0 <= INR m * eps) by nra. nra.
Qed.
