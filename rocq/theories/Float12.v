(** * De Boor's knots in binary64 *)

From Coq Require Import ZArith Reals List Bool Arith Lia Lra Psatz.
From Flocq Require Import Core.Core IEEE754.BinarySingleNaN.
From Verif Require Import Num Vec MKnots MPoints MCurve F64 RNum Lists Hoare Struct Divisions Spec BMath BMath2 BMath3 Api Bridge Facts1 Gen1 Gen2 Gen3 ApiF ApiF2 Float1 Float2 Float3 Float4 Float5 Float6 Float9 Float11.
Import ListNotations.
Local Open Scope R_scope.

(** ** A polyline is not steeper than its steepest leg *)
Definition cl (x : R) : R := Rmax 0 (Rmin x 1).

Lemma cl_low x : x <= 0 -> cl x = 0.
Proof. intros H. unfold cl. rewrite Rmin_left by lra. apply Rmax_left. exact H. Qed.
Lemma cl_high x : 1 <= x -> cl x = 1.
Proof. intros H. unfold cl. rewrite Rmin_right by lra. apply Rmax_right. lra. Qed.
Lemma cl_mid x : 0 <= x <= 1 -> cl x = x.
Proof. intros H. unfold cl. rewrite Rmin_left by lra. apply Rmax_right. lra. Qed.
Lemma cl_mono x y : x <= y -> cl x <= cl y.
Proof. intros H. unfold cl. apply Rle_max_compat_l. apply Rle_min_compat_r. exact H. Qed.

Definition pl (h : nat -> R) (n : nat) (t : R) : R := rsum (fun k => h k * cl (t - INR (S k))) n.

Lemma pl_at h n i a : (1 <= i <= n)%nat -> 0 <= a <= 1 -> pl h n (INR i + a) = rsum h (i - 1) + h (i - 1)%nat * a.
Proof.
  intros [H1 H2] Ha. unfold pl. induction H2 as [|n H2 IH].
  - destruct i as [|i]; [lia|]. replace (S i - 1)%nat with i by lia. cbn [rsum]. f_equal.
    + apply rsum_eq. intros k Hk. rewrite cl_high; [ring|]. assert (INR (S (S k)) <= INR (S i)) by (apply le_INR; lia). rewrite (S_INR (S k)) in *. lra.
    + rewrite cl_mid; [|lra]. ring.
  - cbn [rsum]. rewrite IH. rewrite cl_low; [ring|]. assert (INR i <= INR n) by (apply le_INR; lia). rewrite S_INR. lra.
Qed.

Lemma tele (v : nat -> R) n : rsum (fun k => v (S k) - v k) n = v n - v 0%nat.
Proof. induction n as [|n IH]; [cbn; lra|]. cbn [rsum]. rewrite IH. lra. Qed.

Lemma pl_lip h n s t : (forall k, (k < n)%nat -> Rabs (h k) <= 1) -> s <= t -> Rabs (pl h n t - pl h n s) <= pl (fun _ => 1) n t - pl (fun _ => 1) n s.
Proof.
  intros Hh Hst. unfold pl. induction n as [|n IH].
  - cbn [rsum]. rewrite Rminus_diag_eq, Rabs_R0 by reflexivity. lra.
  - cbn [rsum]. specialize (IH ltac:(intros; apply Hh; lia)). assert (H := Hh n ltac:(lia)). assert (C := cl_mono (s - INR (S n)) (t - INR (S n)) ltac:(lra)).
    set (A := rsum (fun k => h k * cl (t - INR (S k))) n) in *. set (B := rsum (fun k => h k * cl (s - INR (S k))) n) in *.
    set (x := cl (s - INR (S n))) in *. set (y := cl (t - INR (S n))) in *.
    replace (A + h n * y - (B + h n * x)) with ((A - B) + h n * (y - x)) by ring. apply Rle_trans with (1 := Rabs_triang _ _).
    rewrite Rabs_mult, (Rabs_pos_eq (y - x)) by lra.
    assert (Rabs (h n) * (y - x) <= 1 * (y - x)) by (apply Rmult_le_compat_r; lra). lra.
Qed.

(** the polyline through the points [(i + 1, v i)] *)
Definition poly (v : nat -> R) (i : nat) (a : R) : R := (1 - a) * v (i - 1)%nat + a * v i.

Lemma poly_lip v n i a j b : (1 <= i <= n)%nat -> (1 <= j <= n)%nat -> 0 <= a <= 1 -> 0 <= b <= 1 -> (forall k, (k <= n)%nat -> 0 <= v k <= 1) ->
  Rabs (poly v i a - poly v j b) <= Rabs ((INR i + a) - (INR j + b)).
Proof.
  intros Hi Hj Ha Hb Hv.
  assert (G : forall i a j b, (1 <= i <= n)%nat -> (1 <= j <= n)%nat -> 0 <= a <= 1 -> 0 <= b <= 1 -> INR i + a <= INR j + b ->
    Rabs (poly v j b - poly v i a) <= (INR j + b) - (INR i + a)).
  { clear i a j b Hi Hj Ha Hb. intros i a j b Hi Hj Ha Hb H.
    set (h := fun k => v (S k) - v k).
    assert (P : forall i a, (1 <= i <= n)%nat -> 0 <= a <= 1 -> poly v i a = v 0%nat + pl h n (INR i + a)).
    { intros k c Hk Hc. rewrite pl_at by assumption. unfold h. rewrite (tele v). unfold poly. replace (S (k - 1)) with k by lia. ring. }
    assert (O : forall i a, (1 <= i <= n)%nat -> 0 <= a <= 1 -> pl (fun _ => 1) n (INR i + a) = INR i + a - 1).
    { intros k c Hk Hc. rewrite pl_at by assumption. rewrite rsum_c. rewrite minus_INR by lia. simpl. ring. }
    rewrite !P by assumption. assert (L := pl_lip h n (INR i + a) (INR j + b)).
    rewrite !O in L by assumption.
    replace (v 0%nat + pl h n (INR j + b) - (v 0%nat + pl h n (INR i + a))) with (pl h n (INR j + b) - pl h n (INR i + a)) by ring.
    assert (Q : Rabs (pl h n (INR j + b) - pl h n (INR i + a)) <= INR j + b - 1 - (INR i + a - 1)); [|lra].
    apply L; [|exact H]. intros k Hk. unfold h. assert (A := Hv (S k) ltac:(lia)). assert (B := Hv k ltac:(lia)). apply Rabs_le. lra. }
  destruct (Rle_dec (INR i + a) (INR j + b)) as [H|H].
  - rewrite (Rabs_minus_sym (poly v i a)), (Rabs_minus_sym (INR i + a)). rewrite (Rabs_pos_eq (INR j + b - _)) by lra. apply G; assumption.
  - rewrite (Rabs_pos_eq (INR i + a - _)) by lra. apply G; try assumption. lra.
Qed.

(** ** The place computed in binary64 *)
Lemma trunc_val (x : f64) : 0 <= val x -> INR (Z.to_nat (Btrunc x)) <= val x < INR (Z.to_nat (Btrunc x)) + 1.
Proof.
  intros H. assert (T := Btrunc_correct 53 1024 emax1024 x).
  assert (E : IZR (Btrunc x) = IZR (Zfloor (val x))).
  { rewrite T. unfold round, F2R, scaled_mantissa, cexp, FIX_exp. cbn [Fnum Fexp]. change (- 0)%Z with 0%Z. change (pow2 0) with 1. rewrite !Rmult_1_r. rewrite Ztrunc_floor by exact H. reflexivity. }
  apply eq_IZR in E. rewrite E. assert (F : (0 <= Zfloor (val x))%Z) by (apply Zfloor_lub; exact H).
  rewrite INR_IZR_INZ, Z2Nat.id by exact F. split; [apply Zfloor_lb|apply Zfloor_ub].
Qed.

Definition fjd (p n j : nat) : f64 := Bmult mode_NE (@nofnat F64 j) (Bdiv mode_NE (@nofnat F64 (n + 1)) (@nofnat F64 (n - p + 1))).
Definition fdi (p n j : nat) : nat := Z.to_nat (Btrunc (fjd p n j)).
Definition fda (p n j : nat) : f64 := Bminus mode_NE (fjd p n j) (@nofnat F64 (fdi p n j)).
Definition fdbk (p n : nat) (v : list f64) (j : nat) : f64 :=
  Bplus mode_NE (Bmult mode_NE (Bminus mode_NE (@n1 F64) (fda p n j)) (nth (fdi p n j - 1) v (@n0 F64)))
    (Bmult mode_NE (fda p n j) (nth (fdi p n j) v (@n0 F64))).

Lemma INR_2p40 n : (Z.of_nat n <= 2 ^ 40)%Z -> INR n <= 1099511627776.
Proof. intros H. rewrite INR_IZR_INZ. apply IZR_le in H. change (IZR (2 ^ 40)) with 1099511627776 in H. exact H. Qed.

Lemma jd_fact p n j : (1 <= p <= n)%nat -> (Z.of_nat n <= 2 ^ 40)%Z -> (1 <= j <= n - p)%nat ->
  fin (fjd p n j) = true /\ 1 <= val (fjd p n j) /\ Rabs (val (fjd p n j) - INR j * (INR (n + 1) / INR (n - p + 1))) <= INR (2 * n + 1) * eps /\
  (1 <= fdi p n j <= n)%nat /\ INR (fdi p n j) <= val (fjd p n j) < INR (fdi p n j) + 1.
Proof.
  intros Hp Hb Hj. destruct (nofnat_F64 j ltac:(lia)) as [Fj Vj]. destruct (nofnat_F64 (n + 1) ltac:(lia)) as [Fn Vn]. destruct (nofnat_F64 (n - p + 1) ltac:(lia)) as [Fm Vm].
  assert (Pm : 1 <= INR (n - p + 1)) by (apply (le_INR 1); lia). assert (Pj : 1 <= INR j) by (apply (le_INR 1); lia).
  assert (Bn := INR_2p40 n Hb). assert (Nn : INR (n + 1) = INR n + 1) by (rewrite plus_INR; reflexivity).
  assert (D : 1 <= INR (n + 1) / INR (n - p + 1)).
  { apply (Rmult_le_reg_r (INR (n - p + 1))); [lra|]. unfold Rdiv. rewrite Rmult_assoc, Rinv_l by lra. rewrite Rmult_1_l, Rmult_1_r. apply le_INR. lia. }
  assert (D2 : INR (n + 1) / INR (n - p + 1) <= INR (n + 1)).
  { apply (Rmult_le_reg_r (INR (n - p + 1))); [lra|]. unfold Rdiv. rewrite Rmult_assoc, Rinv_l by lra. assert (0 <= INR (n + 1)) by apply pos_INR. nra. }
  set (d := INR (n + 1) / INR (n - p + 1)) in *.
  assert (JU : INR j * d <= INR n).
  { assert (Dm : INR (n - p + 1) * d = INR (n + 1)) by (unfold d; field; lra).
    replace (INR (n - p + 1)) with (INR (n - p) + 1) in Dm by (rewrite (plus_INR (n - p)); simpl; lra).
    assert (INR j * d <= INR (n - p) * d) by (apply Rmult_le_compat_r; [lra|apply le_INR; lia]). lra. }
  destruct (div_ok (@nofnat F64 (n + 1)) (@nofnat F64 (n - p + 1)) 60 ltac:(lia) Fn) as [Fd Ed].
  { rewrite Vm. lra. }
  { rewrite Vn, Vm. fold d. rewrite Rabs_pos_eq by lra. rewrite <- (IZR_Zpower radix2) by lia. change (IZR (radix2 ^ 60)) with 1152921504606846976. lra. }
  rewrite Vn, Vm in Ed. fold d in Ed. set (dh := Bdiv mode_NE (@nofnat F64 (n + 1)) (@nofnat F64 (n - p + 1))) in *.
  assert (N1022 : pow2 (-1022) <= 1) by (change 1 with (pow2 0); apply bpow_le; lia).
  assert (Rd : rel 1 (val dh) d) by (rewrite Ed; apply rel_rnd; right; rewrite Rabs_pos_eq by lra; lra).
  assert (D1 : 1 <= val dh) by (rewrite Ed; rewrite <- (rnd_fmt 1 fmt_1) at 1; apply rnd_le; exact D).
  assert (Dh2 : val dh <= 2 * d).
  { destruct Rd as [g [[_ G] E]]. rewrite E. rewrite pow_1 in G. assert (K := kap_small). nra. }
  assert (J1 : 1 <= INR j * val dh) by nra.
  assert (JB : INR j * val dh <= 2 * INR n) by nra.
  destruct (mul_ok (@nofnat F64 j) dh 60 ltac:(lia) Fj Fd) as [F E].
  { rewrite Vj. rewrite Rabs_pos_eq by lra. rewrite <- (IZR_Zpower radix2) by lia. change (IZR (radix2 ^ 60)) with 1152921504606846976. lra. }
  change (Bmult mode_NE (@nofnat F64 j) dh) with (fjd p n j) in F, E. rewrite Vj in E. split; [exact F|].
  assert (V1 : 1 <= val (fjd p n j)) by (rewrite E; rewrite <- (rnd_fmt 1 fmt_1) at 1; apply rnd_le; exact J1).
  split; [exact V1|].
  assert (R : rel 2 (val (fjd p n j)) (INR j * d)).
  { change 2%nat with (1 + (0 + 1))%nat. apply rel_trans with (INR j * val dh); [rewrite E; apply rel_rnd; right; rewrite Rabs_pos_eq by lra; lra|].
    apply rel_mul; [apply rel_refl|exact Rd]. }
  assert (Ep := eps_pos).
  assert (A : Rabs (val (fjd p n j) - INR j * d) <= INR (2 * n + 1) * eps).
  { destruct R as [g [G EG]]. rewrite EG. replace (INR j * d * g - INR j * d) with (INR j * d * (g - 1)) by ring.
    rewrite Rabs_mult, (Rabs_pos_eq (INR j * d)) by nra.
    assert (G2 : Rabs (g - 1) <= 2 * eps + eps * eps).
    { assert (K : kap ^ 2 = 1 + 2 * eps + eps * eps) by (unfold kap; ring). assert (K1 := kpow_ge1 2). assert (KP := kpow_pos 2).
      assert (1 - (kap ^ 2 - 1) <= / kap ^ 2) by (apply (Rmult_le_reg_r (kap ^ 2)); [exact KP|]; rewrite Rinv_l by lra; nra).
      apply Rabs_le. lra. }
    apply Rle_trans with (INR n * (2 * eps + eps * eps)); [apply Rmult_le_compat; try nra; apply Rabs_pos|].
    replace (INR (2 * n + 1)) with (2 * INR n + 1) by (rewrite plus_INR, mult_INR; simpl; ring).
    assert (INR n * eps <= 1) by (rewrite eps_val; lra). nra. }
  split; [exact A|].
  assert (T := trunc_val (fjd p n j) ltac:(lra)). fold (fdi p n j) in T.
  split; [|exact T].
  assert (U : val (fjd p n j) < INR n + 1).
  { apply Rabs_le_inv in A. assert (INR (2 * n + 1) * eps < 1); [|lra].
    replace (INR (2 * n + 1)) with (2 * INR n + 1) by (rewrite plus_INR, mult_INR; simpl; ring). rewrite eps_val. lra. }
  split.
  - apply Nat.nlt_ge. intros C. assert (fdi p n j = 0)%nat as E0 by lia. rewrite E0 in T. simpl in T. lra.
  - apply Nat.nlt_ge. intros C. assert (INR (n + 1) <= INR (fdi p n j)) by (apply le_INR; lia). lra.
Qed.

Lemma de_boor_F64 p n (v : list f64) s : (1 <= p <= n)%nat -> (Z.of_nat n <= 2 ^ 40)%Z -> length v = (n + 1)%nat ->
  @de_boor F64 p n (mkParams v s) = Val (Ok (@knots_of F64 p (@fill_knots F64 p n (fdbk p n v)))).
Proof.
  intros H Hb L. unfold de_boor. rewrite inputCheck_ok by exact H. rewrite usub_ok by lia. cbn [bind pvector ndiv F64].
  apply (@build_knots F64 _ (fdbk p n v)); [lia|].
  intros w j Hw Hj. destruct (jd_fact p n j H Hb Hj) as [_ [_ [_ [I _]]]].
  change (Z.to_nat (@ntrunc F64 (@nofnat F64 j * Bdiv mode_NE (@nofnat F64 (n + 1)) (@nofnat F64 (n - p + 1)))%num)) with (fdi p n j).
  rewrite usub_ok by lia. cbn [bind].
  assert (E1 := @vget_nth F64 v (fdi p n j - 1) (@n0 F64) ltac:(change (T F64) with f64; lia)). rewrite E1. cbn [bind].
  assert (E2 := @vget_nth F64 v (fdi p n j) (@n0 F64) ltac:(change (T F64) with f64; lia)). rewrite E2. cbn [bind]. reflexivity.
Qed.

Lemma fin_plus_r (x y : f64) : fin x = true -> fin (Bplus mode_NE x y) = true -> fin y = true.
Proof. destruct x as [sx|sx| |sx mx ex Hx]; destruct y as [sy|sy| |sy my ey Hy]; intros A B; try reflexivity; try discriminate. Qed.

Lemma fdbk_ok p n v j : (1 <= p <= n)%nat -> (Z.of_nat n <= 2 ^ 40)%Z -> length v = (n + 1)%nat -> unit_list v -> (1 <= j <= n - p)%nat ->
  fin (fdbk p n v j) = true /\ Rabs (val (fdbk p n v j) - dbk p n (map val v) j) <= INR (2 * n + 12) * eps.
Proof.
  intros Hp Hb L Hv Hj. destruct (jd_fact p n j Hp Hb Hj) as [Fj [V1 [A [I T]]]].
  destruct (nofnat_F64 (fdi p n j) ltac:(lia)) as [Fi Vi]. assert (Ep := eps_pos).
  destruct (sub_ok (fjd p n j) (@nofnat F64 (fdi p n j)) 0 ltac:(lia) Fj Fi) as [Fa Ea]; [rewrite Vi; change (pow2 0) with 1; apply Rabs_le; lra|].
  fold (fda p n j) in Fa, Ea. rewrite Vi in Ea. set (al := val (fjd p n j) - INR (fdi p n j)) in *.
  assert (a01 : 0 <= al <= 1) by (unfold al; lra).
  assert (N : near 3 eta (val (fda p n j)) al).
  { rewrite Ea. destruct (rnd_minus (val (fjd p n j)) (val (@nofnat F64 (fdi p n j))) (fmt_val _) (fmt_val _)) as [g [G E]]. rewrite Vi in E. fold al in E.
    apply rel_near with (rnd al); [apply a01|apply rnd_ge0; apply a01| |].
    - apply (rel_weaken 1); [lia|]. exists g. split; [apply factor1; exact G|exact E].
    - rewrite Rminus_diag_eq, Rabs_R0 by reflexivity. apply Rlt_le, eta_pos. }
  assert (HN : forall i, (i <= n)%nat -> fin (nth i v (@n0 F64)) = true /\ 0 <= val (nth i v (@n0 F64)) <= 1).
  { intros i Hi. apply Hv. apply nth_In. change (binary_float 53 1024) with f64. lia. }
  destruct (HN (fdi p n j - 1)%nat ltac:(lia)) as [Fx Vx]. destruct (HN (fdi p n j) ltac:(lia)) as [Fy Vy].
  set (x := nth (fdi p n j - 1) v (@n0 F64)) in *. set (y := nth (fdi p n j) v (@n0 F64)) in *.
  destruct (comb_ok (fda p n j) x y al 1 Fa N a01 Fx Fy) as [F E].
  { rewrite Rabs_pos_eq; lra. } { rewrite Rabs_pos_eq; lra. }
  { split; change 1 with (pow2 0); apply bpow_le; lia. }
  fold (fdbk p n v j) in F, E. change (Bplus mode_NE (Bmult mode_NE (Bminus mode_NE (@n1 F64) (fda p n j)) x) (Bmult mode_NE (fda p n j) y)) with (fdbk p n v j) in F, E.
  assert (F' := fin_plus_r _ _ (proj1 n0_ok) F).
  destruct (add_exact (@n0 F64) (fdbk p n v j) (fdbk p n v j) (proj1 n0_ok) F') as [_ E0]; [rewrite (proj2 n0_ok); ring|].
  rewrite E0 in E. split; [exact F'|].
  destruct (db_facts p n j Hp Hj) as [DI [DA _]].
  set (V := fun i => nth i (map val v) 0).
  assert (HV : forall k, (k <= n)%nat -> V k = val (nth k v (@n0 F64))) by (intros k Hk; apply nth_val; change (binary_float 53 1024) with f64; lia).
  assert (Q := poly_lip V n (fdi p n j) al (dbi p n j) (dba p n j) I ltac:(lia) a01 ltac:(lra)).
  assert (Q' : Rabs (poly V (fdi p n j) al - poly V (dbi p n j) (dba p n j)) <= INR (2 * n + 1) * eps).
  { apply Rle_trans with (1 := Q ltac:(intros k Hk; rewrite HV by exact Hk; apply HN; exact Hk)). 
    replace (INR (fdi p n j) + al) with (val (fjd p n j)) by (unfold al; ring).
    replace (INR (dbi p n j) + dba p n j) with (INR j * (INR (n + 1) / INR (n - p + 1))) by (unfold dba; ring). exact A. }
  assert (E2 : poly V (fdi p n j) al = (1 - al) * val x + al * val y) by (unfold poly; rewrite !HV by lia; reflexivity).
  rewrite E2 in Q'. change (dbk p n (map val v) j) with (poly V (dbi p n j) (dba p n j)).
  set (ex := (1 - al) * val x + al * val y) in *. set (pp := poly V (dbi p n j) (dba p n j)) in *.
  replace (val (fdbk p n v j) - pp) with ((val (fdbk p n v j) - ex) + (ex - pp)) by ring.
  apply Rle_trans with (1 := Rabs_triang _ _).
  replace (INR (2 * n + 12)) with (INR (2 * n + 1) + 11) by (rewrite !plus_INR; simpl; ring). lra.
Qed.

Theorem de_boor_close p n (v : list f64) s : (1 <= p <= n)%nat -> (Z.of_nat n <= 2 ^ 40)%Z -> length v = (n + 1)%nat -> unit_list v ->
  exists U V, @de_boor F64 p n (mkParams v s) = Val (Ok (knots_of p U)) /\ @de_boor RNum p n (mkParams (map val v) s) = Val (Ok (knots_of p V)) /\
    close_to U V (INR (n + 6) / 2 ^ 52).
Proof.
  intros Hp Hb L Hv. assert (Lm : length (map val v) = (n + 1)%nat) by (rewrite map_length; exact L).
  eexists. eexists. split; [apply de_boor_F64; assumption|]. split; [apply de_boor_R; assumption|].
  assert (Ep := eps_pos).
  replace (INR (n + 6) / 2 ^ 52) with (INR (2 * n + 12) * eps).
  2:{ rewrite eps_val. replace (2 * n + 12)%nat with (2 * (n + 6))%nat by lia. rewrite mult_INR. change (INR 2) with 2. unfold Rdiv. lra. }
  apply fill_close; [apply Rmult_le_pos; [apply pos_INR|lra]|].
  intros i Hi. apply (fdbk_ok p n v i Hp Hb L Hv Hi).
Qed.
