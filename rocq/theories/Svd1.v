(** * Every real matrix has a singular value decomposition *)

From Coq Require Import Reals Arith Lia Lra.
From Verif Require Import Spec BMath LinAlg.
Local Open Scope R_scope.

(** ** Lipschitz functions on a cube have a maximum *)
Definition cube (n : nat) (v : nat -> R) : Prop := forall i, (i < n)%nat -> -1 <= v i <= 1.
Definition lip (n : nat) (f : (nat -> R) -> R) : Prop :=
  exists L, 0 <= L /\ forall v w, cube n v -> cube n w -> Rabs (f v - f w) <= L * rsum (fun i => Rabs (v i - w i)) n.

Lemma rsum_le_ f g n : (forall i, (i < n)%nat -> f i <= g i) -> rsum f n <= rsum g n.
Proof. induction n as [|n IH]; intros H; cbn [rsum]; [lra|]. assert (T := H n ltac:(lia)). assert (T2 := IH ltac:(intros; apply H; lia)). lra. Qed.
Lemma dist_nonneg v w n : 0 <= rsum (fun i => Rabs (v i - w i)) n.
Proof. apply rsum_nonneg. intros. apply Rabs_pos. Qed.

Lemma lip_const n c : lip n (fun _ => c).
Proof. exists 0. split; [lra|]. intros. rewrite Rminus_diag_eq by reflexivity. rewrite Rabs_R0. lra. Qed.

Lemma term_le (h : nat -> R) n j : (forall i, 0 <= h i) -> (j < n)%nat -> h j <= rsum h n.
Proof.
  intros H Hj. induction n as [|n IH]; [lia|]. cbn [rsum]. assert (T := H n). destruct (Nat.eq_dec j n) as [->|].
  - assert (0 <= rsum h n) by (apply rsum_nonneg; intros; apply H). lra.
  - assert (T2 := IH ltac:(lia)). lra.
Qed.

Lemma lip_coord n j : (j < n)%nat -> lip n (fun v => v j).
Proof. intros Hj. exists 1. split; [lra|]. intros v w _ _. rewrite Rmult_1_l. apply (term_le (fun i => Rabs (v i - w i)) n j); [intros; apply Rabs_pos|exact Hj]. Qed.

Lemma lip_plus n f g : lip n f -> lip n g -> lip n (fun v => f v + g v).
Proof.
  intros [L [L0 HL]] [K [K0 HK]]. exists (L + K). split; [lra|]. intros v w Hv Hw.
  replace (f v + g v - (f w + g w)) with (f v - f w + (g v - g w)) by ring. eapply Rle_trans; [apply Rabs_triang|].
  assert (A := HL v w Hv Hw). assert (B := HK v w Hv Hw). lra.
Qed.

Lemma lip_bound n f : lip n f -> exists B, 0 <= B /\ forall v, cube n v -> Rabs (f v) <= B.
Proof.
  intros [L [L0 HL]]. exists (Rabs (f (fun _ => 0)) + L * INR n). assert (N := pos_INR n). split; [assert (T := Rabs_pos (f (fun _ => 0))); nra|]. intros v Hv.
  assert (T := HL v (fun _ => 0) Hv ltac:(intros i Hi; lra)).
  assert (D : rsum (fun i => Rabs (v i - 0)) n <= INR n).
  { clear - Hv. induction n as [|n IH]; [cbn; lra|]. cbn [rsum]. rewrite S_INR. assert (T := Hv n ltac:(lia)). assert (T2 := IH ltac:(intros i Hi; apply Hv; lia)).
    rewrite Rminus_0_r in *. assert (Rabs (v n) <= 1) by (apply Rabs_le; lra). lra. }
  replace (f v) with (f (fun _ => 0) + (f v - f (fun _ => 0))) by ring. eapply Rle_trans; [apply Rabs_triang|]. nra.
Qed.

Lemma lip_mult n f g : lip n f -> lip n g -> lip n (fun v => f v * g v).
Proof.
  intros F G. destruct (lip_bound n f F) as [B [B0 HB]]. destruct (lip_bound n g G) as [C [C0 HC]]. destruct F as [L [L0 HL]], G as [K [K0 HK]].
  exists (B * K + C * L). split; [nra|]. intros v w Hv Hw.
  replace (f v * g v - f w * g w) with (f v * (g v - g w) + g w * (f v - f w)) by ring. eapply Rle_trans; [apply Rabs_triang|]. rewrite !Rabs_mult.
  assert (A1 := HL v w Hv Hw). assert (A2 := HK v w Hv Hw). assert (A3 := HB v Hv). assert (A4 := HC w Hw).
  assert (P1 := Rabs_pos (f v)). assert (P2 := Rabs_pos (g w)). assert (P3 := Rabs_pos (f v - f w)). assert (P4 := Rabs_pos (g v - g w)).
  assert (D := dist_nonneg v w n). set (d := rsum _ n) in *.
  assert (Rabs (f v) * Rabs (g v - g w) <= B * (K * d)) by (apply Rmult_le_compat; assumption).
  assert (Rabs (g w) * Rabs (f v - f w) <= C * (L * d)) by (apply Rmult_le_compat; assumption). nra.
Qed.

Lemma lip_rsum n (f : nat -> (nat -> R) -> R) k : (forall j, (j < k)%nat -> lip n (f j)) -> lip n (fun v => rsum (fun j => f j v) k).
Proof.
  induction k as [|k IH]; intros H; cbn [rsum]; [apply lip_const|]. apply (lip_plus n (fun v => rsum (fun j => f j v) k) (f k)); [apply IH; intros; apply H; lia|apply H; lia].
Qed.

Lemma lip_inv n f : lip n f -> (forall v, cube n v -> 1 <= f v) -> lip n (fun v => / f v).
Proof.
  intros [L [L0 HL]] H. exists L. split; [exact L0|]. intros v w Hv Hw. assert (A := H v Hv). assert (B := H w Hw). eapply Rle_trans; [|apply (HL v w Hv Hw)].
  replace (/ f v - / f w) with ((f w - f v) * (/ f v * / f w)) by (field; lra). rewrite Rabs_mult, (Rabs_minus_sym (f w)).
  assert (I1 : 0 < / f v <= 1) by (split; [apply Rinv_0_lt_compat; lra|rewrite <- Rinv_1; apply Rinv_le_contravar; lra]).
  assert (I2 : 0 < / f w <= 1) by (split; [apply Rinv_0_lt_compat; lra|rewrite <- Rinv_1; apply Rinv_le_contravar; lra]).
  assert (P := Rabs_pos (f v - f w)). assert (I3 : 0 <= / f v * / f w <= 1) by nra. rewrite (Rabs_right (/ f v * / f w)) by lra. nra.
Qed.

Definition set_at (n : nat) (x : R) (v : nat -> R) (i : nat) : R := if (i =? n)%nat then x else v i.
Definition clip (x : R) : R := Rmax (-1) (Rmin 1 x).
Lemma clip_in x : -1 <= clip x <= 1.
Proof. unfold clip, Rmax, Rmin. repeat destruct Rle_dec; lra. Qed.
Lemma clip_id x : -1 <= x <= 1 -> clip x = x.
Proof. unfold clip, Rmax, Rmin. repeat destruct Rle_dec; lra. Qed.
Lemma clip_lip x y : Rabs (clip x - clip y) <= Rabs (x - y).
Proof. unfold clip, Rmax, Rmin, Rabs. repeat destruct Rle_dec; repeat destruct Rcase_abs; lra. Qed.

Lemma set_cube n x v : -1 <= x <= 1 -> cube n v -> cube (S n) (set_at n x v).
Proof. intros Hx Hv i Hi. unfold set_at. destruct (Nat.eqb_spec i n); [exact Hx|apply Hv; lia]. Qed.
Lemma set_dist n x y v w : rsum (fun i => Rabs (set_at n x v i - set_at n y w i)) (S n) = rsum (fun i => Rabs (v i - w i)) n + Rabs (x - y).
Proof.
  cbn [rsum]. unfold set_at at 3 4. rewrite Nat.eqb_refl. f_equal. apply rsum_ext. intros i Hi. unfold set_at. replace (i =? n)%nat with false by (symmetry; apply Nat.eqb_neq; lia). reflexivity.
Qed.

Theorem cube_max n : forall f, lip n f -> exists v, cube n v /\ forall w, cube n w -> f w <= f v.
Proof.
  induction n as [|n IH]; intros f LF.
  - exists (fun _ => 0). split; [intros i Hi; lia|]. intros w Hw. destruct LF as [L [_ HL]]. assert (T := HL w (fun _ => 0) Hw ltac:(intros i Hi; lia)). cbn [rsum] in T. rewrite Rmult_0_r in T.
    assert (P := Rle_abs (f w - f (fun _ => 0))). lra.
  - destruct LF as [L [L0 HL]].
    assert (LX : forall x, lip n (fun v => f (set_at n (clip x) v))).
    { intros x. exists L. split; [exact L0|]. intros v w Hv Hw. eapply Rle_trans; [apply HL; apply set_cube; try assumption; apply clip_in|].
      rewrite set_dist, Rminus_diag_eq by reflexivity. rewrite Rabs_R0. lra. }
    assert (EM : forall x, exists v, cube n v /\ forall w, cube n w -> f (set_at n (clip x) w) <= f (set_at n (clip x) v)) by (intros x; apply (IH _ (LX x))).
    set (E := fun x y => exists v, cube n v /\ y = f (set_at n (clip x) v)).
    assert (BE : forall x, bound (E x)). { intros x. destruct (EM x) as [v [Hv M]]. exists (f (set_at n (clip x) v)). intros y [w [Hw ->]]. apply M. exact Hw. }
    assert (NE : forall x, exists y, E x y). { intros x. exists (f (set_at n (clip x) (fun _ => 0))), (fun _ => 0). split; [intros i Hi; lra|reflexivity]. }
    set (g := fun x => proj1_sig (completeness (E x) (BE x) (NE x))).
    assert (GE : forall x v, cube n v -> f (set_at n (clip x) v) <= g x).
    { intros x v Hv. unfold g. destruct (completeness (E x) (BE x) (NE x)) as [y [Y1 Y2]]. cbn [proj1_sig]. apply Y1. exists v. split; [exact Hv|reflexivity]. }
    assert (GA : forall x, exists v, cube n v /\ g x = f (set_at n (clip x) v)).
    { intros x. destruct (EM x) as [v [Hv M]]. exists v. split; [exact Hv|]. apply Rle_antisym; [|apply GE; exact Hv].
      unfold g. destruct (completeness (E x) (BE x) (NE x)) as [y [Y1 Y2]]. cbn [proj1_sig]. apply Y2. intros z [w [Hw ->]]. apply M. exact Hw. }
    assert (GL : forall x y, g x - g y <= L * Rabs (x - y)).
    { intros x y. destruct (GA x) as [v [Hv Ev]]. assert (T := GE y v Hv). rewrite Ev.
      assert (D := HL (set_at n (clip x) v) (set_at n (clip y) v) ltac:(apply set_cube; [apply clip_in|exact Hv]) ltac:(apply set_cube; [apply clip_in|exact Hv])).
      rewrite set_dist in D. rewrite (rsum_ext _ (fun _ => 0)) in D by (intros i Hi; rewrite Rminus_diag_eq by reflexivity; apply Rabs_R0). rewrite rsum_0, Rplus_0_l in D.
      assert (C := clip_lip x y). assert (D2 := Rle_abs (f (set_at n (clip x) v) - f (set_at n (clip y) v))). nra. }
    assert (GC : forall x, continuity_pt g x).
    { intros x. unfold continuity_pt, continue_in, limit1_in, limit_in. intros e He. exists (e / (L + 1)). split; [apply Rdiv_lt_0_compat; lra|].
      intros y [_ Hy]. cbn in *. unfold R_dist in *. assert (A := GL y x). assert (B := GL x y). rewrite (Rabs_minus_sym x y) in B.
      assert (L * Rabs (y - x) < e).
      { assert (P := Rabs_pos (y - x)). apply Rle_lt_trans with ((L + 1) * Rabs (y - x)); [nra|]. apply (Rmult_lt_compat_l (L + 1)) in Hy; [|lra]. replace ((L + 1) * (e / (L + 1))) with e in Hy by (field; lra). exact Hy. }
      apply Rabs_def1; lra. }
    destruct (continuity_ab_maj g (-1) 1 ltac:(lra) ltac:(intros c _; apply GC)) as [x [MX Hx]]. destruct (GA x) as [v [Hv Ev]].
    exists (set_at n x v). split; [apply set_cube; assumption|]. intros w Hw. rewrite (clip_id x Hx) in Ev. rewrite <- Ev.
    assert (Hn := Hw n ltac:(lia)). apply Rle_trans with (g (w n)); [|apply MX; exact Hn].
    assert (T := GE (w n) w ltac:(intros i Hi; apply Hw; lia)). rewrite (clip_id _ Hn) in T. eapply Rle_trans; [|exact T].
    assert (Q := HL w (set_at n (w n) w) Hw ltac:(apply set_cube; [exact Hn|intros i Hi; apply Hw; lia])).
    rewrite (rsum_ext _ (fun _ => 0)) in Q. 2:{ intros i Hi. unfold set_at. destruct (Nat.eqb_spec i n) as [->|]; rewrite Rminus_diag_eq by reflexivity; apply Rabs_R0. }
    rewrite rsum_0, Rmult_0_r in Q. assert (D2 := Rle_abs (f w - f (set_at n (w n) w))). lra.
Qed.

(** ** a vector that is stretched most *)
Section Rayleigh.
  Variables (r c : nat) (a : nat -> nat -> R).
  Definition image (x : nat -> R) : nat -> R := comb a x c.
  Definition stretch (x : nat -> R) : R := ip r (image x) (image x).

  Lemma comb_lin x y s t : image (fun i => x i + s * y i) t = image x t + s * image y t.
  Proof. unfold image, comb. rewrite <- rsum_scal, <- rsum_plus. apply rsum_ext. intros; ring. Qed.
  Lemma image_ext x y t : (forall i, (i < c)%nat -> x i = y i) -> image x t = image y t.
  Proof. intros H. apply rsum_ext. intros i Hi. rewrite H by exact Hi. reflexivity. Qed.
  Lemma image_scal s x t : image (fun i => s * x i) t = s * image x t.
  Proof. unfold image, comb. rewrite <- rsum_scal. apply rsum_ext. intros; ring. Qed.
  Lemma stretch_scal s x : stretch (fun i => s * x i) = s ^ 2 * stretch x.
  Proof. unfold stretch, ip. rewrite <- rsum_scal. apply rsum_ext. intros t _. rewrite image_scal. ring. Qed.
  Lemma stretch_ext x y : (forall i, (i < c)%nat -> x i = y i) -> stretch x = stretch y.
  Proof. intros H. unfold stretch, ip. apply rsum_ext. intros t _. rewrite (image_ext x y t H). reflexivity. Qed.
  Lemma stretch_nonneg x : 0 <= stretch x.
  Proof. apply rsum_nonneg. intros. apply Rle_0_sqr. Qed.
  Lemma ip_scal2 (x : nat -> R) s : ip c (fun i => s * x i) (fun i => s * x i) = s ^ 2 * ip c x x.
  Proof. unfold ip. rewrite <- rsum_scal. apply rsum_ext. intros; ring. Qed.

  Definition ratio_of (x : nat -> R) : R := stretch x * / ip c x x.

  Lemma face_one j v : (j < c)%nat -> 1 <= ip c (set_at j 1 v) (set_at j 1 v).
  Proof.
    intros Hj. assert (T := term_le (fun t => set_at j 1 v t * set_at j 1 v t) c j ltac:(intros; apply Rle_0_sqr) Hj). cbv beta in T.
    replace (set_at j 1 v j) with 1 in T by (unfold set_at; rewrite Nat.eqb_refl; reflexivity). unfold ip. lra.
  Qed.
  Lemma lip_set j i : (i < c)%nat -> lip c (fun v => set_at j 1 v i).
  Proof. intros Hi. unfold set_at. destruct (i =? j)%nat; [apply lip_const|apply lip_coord; exact Hi]. Qed.
  Lemma lip_face j : (j < c)%nat -> lip c (fun v => ratio_of (set_at j 1 v)).
  Proof.
    intros Hj. unfold ratio_of. apply (lip_mult c (fun v => stretch (set_at j 1 v)) (fun v => / ip c (set_at j 1 v) (set_at j 1 v))).
    - unfold stretch, ip, image, comb. apply (lip_rsum c (fun t v => rsum (fun i => a i t * set_at j 1 v i) c * rsum (fun i => a i t * set_at j 1 v i) c)). intros t _.
      assert (L : lip c (fun v => rsum (fun i => a i t * set_at j 1 v i) c)).
      { apply (lip_rsum c (fun i v => a i t * set_at j 1 v i)). intros i Hi. apply (lip_mult c (fun _ => a i t)); [apply lip_const|apply lip_set; exact Hi]. }
      apply lip_mult; exact L.
    - apply lip_inv; [|intros v _; apply face_one; exact Hj]. unfold ip. apply (lip_rsum c (fun i v => set_at j 1 v i * set_at j 1 v i)). intros i Hi. apply lip_mult; apply lip_set; exact Hi.
  Qed.

  Lemma best_face k : (1 <= k <= c)%nat -> exists v, 1 <= ip c v v /\ forall j w, (j < k)%nat -> cube c w -> ratio_of (set_at j 1 w) <= ratio_of v.
  Proof.
    induction k as [|k IH]; intros Hk; [lia|]. destruct (cube_max c _ (lip_face k ltac:(lia))) as [v [Hv M]].
    destruct (Nat.eq_dec k 0) as [->|].
    - exists (set_at 0 1 v). split; [apply face_one; lia|]. intros j w Hj Hw. replace j with 0%nat by lia. apply M. exact Hw.
    - destruct (IH ltac:(lia)) as [x [X1 X2]]. destruct (Rle_dec (ratio_of x) (ratio_of (set_at k 1 v))) as [L|L].
      + exists (set_at k 1 v). split; [apply face_one; lia|]. intros j w Hj Hw. destruct (Nat.eq_dec j k) as [->|]; [apply M; exact Hw|]. eapply Rle_trans; [apply X2; [lia|exact Hw]|exact L].
      + exists x. split; [exact X1|]. intros j w Hj Hw. destruct (Nat.eq_dec j k) as [->|]; [|apply X2; [lia|exact Hw]]. assert (T := M w Hw). cbv beta in T. lra.
  Qed.

  Lemma largest_coord (w : nat -> R) k : (1 <= k)%nat -> exists j, (j < k)%nat /\ forall i, (i < k)%nat -> Rabs (w i) <= Rabs (w j).
  Proof.
    induction k as [|k IH]; intros Hk; [lia|]. destruct (Nat.eq_dec k 0) as [->|]; [exists 0%nat; split; [lia|]; intros i Hi; replace i with 0%nat by lia; lra|].
    destruct (IH ltac:(lia)) as [j [Hj M]]. destruct (Rle_dec (Rabs (w j)) (Rabs (w k))) as [L|L].
    - exists k. split; [lia|]. intros i Hi. destruct (Nat.eq_dec i k) as [->|]; [lra|]. eapply Rle_trans; [apply M; lia|exact L].
    - exists j. split; [lia|]. intros i Hi. destruct (Nat.eq_dec i k) as [->|]; [lra|apply M; lia].
  Qed.

  Lemma rayleigh : (1 <= c)%nat -> exists v, ip c v v = 1 /\ forall w, stretch w <= stretch v * ip c w w.
  Proof.
    intros Hc. destruct (best_face c ltac:(lia)) as [v [V1 M]]. set (s := / sqrt (ip c v v)).
    assert (SQ : sqrt (ip c v v) * sqrt (ip c v v) = ip c v v) by (apply sqrt_sqrt; lra).
    assert (S0 : 0 < sqrt (ip c v v)) by (apply sqrt_lt_R0; lra).
    assert (S2 : s ^ 2 = / ip c v v) by (transitivity (/ (sqrt (ip c v v) * sqrt (ip c v v))); [unfold s; field; lra|rewrite SQ; reflexivity]).
    exists (fun i => s * v i). split; [rewrite ip_scal2, S2; field; lra|].
    intros w. rewrite stretch_scal, S2. replace (/ ip c v v * stretch v) with (ratio_of v) by (unfold ratio_of; ring).
    destruct (largest_coord w c Hc) as [j [Hj L]]. destruct (Req_dec (w j) 0) as [Z|NZ].
    - assert (W : forall i, (i < c)%nat -> w i = 0).
      { intros i Hi. assert (T := L i Hi). rewrite Z, Rabs_R0 in T. assert (P := Rabs_pos (w i)). destruct (Req_dec (w i) 0) as [|N]; [assumption|]. apply Rabs_no_R0 in N. lra. }
      rewrite (stretch_ext w (fun i => 0 * w i)) by (intros i Hi; rewrite (W i Hi); ring). rewrite stretch_scal.
      replace (ip c w w) with 0 by (symmetry; unfold ip; apply rsum_zero; intros t Ht; rewrite (W t Ht); ring). lra.
    - assert (E : forall i, set_at j 1 (fun i => / w j * w i) i = / w j * w i) by (intros i; unfold set_at; destruct (Nat.eqb_spec i j) as [->|]; [field; exact NZ|reflexivity]).
      assert (T := M j (fun i => / w j * w i) Hj). unfold ratio_of at 1 in T. rewrite (stretch_ext _ (fun i => / w j * w i)) in T by (intros i _; apply E). rewrite stretch_scal in T.
      assert (I : ip c (set_at j 1 (fun i => / w j * w i)) (set_at j 1 (fun i => / w j * w i)) = (/ w j) ^ 2 * ip c w w).
      { rewrite <- ip_scal2. unfold ip. apply rsum_ext. intros t _. rewrite E. reflexivity. }
      assert (F := face_one j (fun i => / w j * w i) Hj). rewrite I in T, F.
      assert (J : 0 < (/ w j) ^ 2) by (assert (T1 := Rinv_neq_0_compat _ NZ); assert (T2 := Rsqr_pos_lt _ T1); unfold Rsqr in T2; cbn; lra).
      assert (IP : 0 < ip c w w) by nra.
      assert (CB : cube c (fun i => / w j * w i)).
      { intros i Hi. assert (T1 := L i Hi). assert (P : 0 < Rabs (w j)) by (apply Rabs_pos_lt; exact NZ).
        assert (Q : Rabs (/ w j * w i) <= 1).
        { rewrite Rabs_mult, Rabs_inv. apply (Rmult_le_reg_l (Rabs (w j))); [exact P|]. rewrite <- Rmult_assoc, Rinv_r by lra. lra. }
        unfold Rabs in Q. destruct Rcase_abs in Q; lra. }
      specialize (T CB). replace ((/ w j) ^ 2 * stretch w * / ((/ w j) ^ 2 * ip c w w)) with (stretch w * / ip c w w) in T by (field; repeat split; lra || exact NZ).
      apply (Rmult_le_compat_r (ip c w w)) in T; [|lra]. rewrite Rmult_assoc, Rinv_l, Rmult_1_r in T by lra. exact T.
  Qed.

  (** at the maximum, [A^T A v = S v] *)
  Lemma rayleigh_eigen v : ip c v v = 1 -> (forall w, stretch w <= stretch v * ip c w w) -> forall w, ip r (image v) (image w) = stretch v * ip c v w.
  Proof.
    intros V1 M w. set (d := ip r (image v) (image w) - stretch v * ip c v w). set (k := stretch v * ip c w w - stretch w).
    assert (Q : forall s, 2 * s * d <= s ^ 2 * k).
    { intros s. assert (T := M (fun i => v i + s * w i)).
      assert (E1 : stretch (fun i => v i + s * w i) = stretch v + 2 * s * ip r (image v) (image w) + s ^ 2 * stretch w).
      { unfold stretch, ip. rewrite <- !rsum_scal, <- !rsum_plus. apply rsum_ext. intros t _. rewrite comb_lin. ring. }
      assert (E2 : ip c (fun i => v i + s * w i) (fun i => v i + s * w i) = 1 + 2 * s * ip c v w + s ^ 2 * ip c w w).
      { rewrite <- V1. unfold ip. rewrite <- !rsum_scal, <- !rsum_plus. apply rsum_ext. intros t _. ring. }
      rewrite E1, E2 in T. unfold d, k. nra. }
    assert (K0 : 0 <= k) by (unfold k; assert (T := M w); lra).
    assert (D : d = 0); [|unfold d in D; lra].
    destruct (Req_dec d 0) as [|N]; [assumption|exfalso]. assert (T := Q (d / (k + 1))).
    replace (2 * (d / (k + 1)) * d) with (2 * d ^ 2 / (k + 1)) in T by (field; lra).
    replace ((d / (k + 1)) ^ 2 * k) with (d ^ 2 / (k + 1) * (k / (k + 1))) in T by (field; lra).
    assert (D2 : 0 < d ^ 2) by (assert (T2 := Rsqr_pos_lt _ N); unfold Rsqr in T2; cbn; lra).
    assert (A : 0 < d ^ 2 / (k + 1)) by (apply Rdiv_lt_0_compat; lra). assert (B : k / (k + 1) <= 1) by (apply (Rmult_le_reg_r (k + 1)); [lra|]; unfold Rdiv; rewrite Rmult_assoc, Rinv_l by lra; lra).
    replace (2 * d ^ 2 / (k + 1)) with (2 * (d ^ 2 / (k + 1))) in T by (field; lra). nra.
  Qed.
End Rayleigh.

(** ** orthonormal families *)
Definition ortho (k len : nat) (v : nat -> nat -> R) : Prop :=
  forall i j, (i < k)%nat -> (j < k)%nat -> ip len (v i) (v j) = if (i =? j)%nat then 1 else 0.
Definition add_at (k : nat) (x : nat -> R) (v : nat -> nat -> R) (i : nat) : nat -> R := if (i =? k)%nat then x else v i.

Lemma add_new k x v : add_at k x v k = x. Proof. unfold add_at. rewrite Nat.eqb_refl. reflexivity. Qed.
Lemma add_old k x v i : (i < k)%nat -> add_at k x v i = v i.
Proof. intros H. unfold add_at. replace (i =? k)%nat with false by (symmetry; apply Nat.eqb_neq; lia). reflexivity. Qed.

Lemma ortho_add k len v x : ortho k len v -> ip len x x = 1 -> (forall i, (i < k)%nat -> ip len x (v i) = 0) -> ortho (S k) len (add_at k x v).
Proof.
  intros O X1 X2 i j Hi Hj. destruct (Nat.eq_dec i k) as [->|]; destruct (Nat.eq_dec j k) as [->|]; rewrite ?add_new, ?(add_old k x v i), ?(add_old k x v j) by lia.
  - rewrite Nat.eqb_refl. exact X1.
  - replace (k =? j)%nat with false by (symmetry; apply Nat.eqb_neq; lia). apply X2. lia.
  - replace (i =? k)%nat with false by (symmetry; apply Nat.eqb_neq; lia). rewrite ip_sym. apply X2. lia.
  - apply O; lia.
Qed.

Lemma ip_combo len (x : nat -> R) (al : nat -> R) v k : ip len x (fun t => rsum (fun i => al i * v i t) k) = rsum (fun i => al i * ip len x (v i)) k.
Proof.
  unfold ip. rewrite (rsum_ext _ (fun t => rsum (fun i => al i * (x t * v i t)) k)).
  - rewrite rsum_swap. apply rsum_ext. intros i _. rewrite rsum_scal. reflexivity.
  - intros t _. rewrite <- rsum_scal. apply rsum_ext. intros; ring.
Qed.
Lemma ortho_pick k len v (al : nat -> R) j : ortho k len v -> (j < k)%nat -> ip len (v j) (fun t => rsum (fun i => al i * v i t) k) = al j.
Proof.
  intros O Hj. rewrite ip_combo. rewrite (rsum_single _ k j Hj).
  - rewrite O by assumption. rewrite Nat.eqb_refl. ring.
  - intros i Hi Ne. rewrite O by assumption. replace (j =? i)%nat with false by (symmetry; apply Nat.eqb_neq; lia). ring.
Qed.

Lemma ortho_few k len v : ortho k len v -> (k <= len)%nat.
Proof.
  intros O. destruct (le_lt_dec k len) as [|H]; [assumption|exfalso].
  destruct (nontrivial len k (fun t i => v i t) H) as [al [[j [Hj Nj]] Z]]. apply Nj. rewrite <- (ortho_pick k len v al j O Hj).
  unfold ip. apply rsum_zero. intros t Ht. rewrite (rsum_ext _ (fun i => v i t * al i)) by (intros; ring). rewrite Z by exact Ht. ring.
Qed.

(** [len] of them span everything: what is orthogonal to all is zero *)
Lemma ortho_full len v x : ortho len len v -> (forall i, (i < len)%nat -> ip len x (v i) = 0) -> forall t, (t < len)%nat -> x t = 0.
Proof.
  intros O Z. apply ip_zero. destruct (Req_dec (ip len x x) 0) as [|N]; [assumption|exfalso].
  assert (P : 0 < ip len x x) by (assert (0 <= ip len x x) by (apply rsum_nonneg; intros; apply Rle_0_sqr); lra).
  assert (SQ : sqrt (ip len x x) * sqrt (ip len x x) = ip len x x) by (apply sqrt_sqrt; lra). assert (S0 : 0 < sqrt (ip len x x)) by (apply sqrt_lt_R0; lra).
  assert (T := ortho_few (S len) len (add_at len (fun t => / sqrt (ip len x x) * x t) v)). enough (S len <= len)%nat by lia. apply T. apply ortho_add; [exact O| |].
  - rewrite ip_scal2. apply (Rmult_eq_reg_l (sqrt (ip len x x) * sqrt (ip len x x))); [|nra]. rewrite Rmult_1_r. transitivity (ip len x x); [field; lra|symmetry; exact SQ].
  - intros i Hi. rewrite ip_scal, (Z i Hi). ring.
Qed.

(** ** the decomposition *)
Lemma svd_steps r c d : forall j a w, (j + d = c)%nat -> ortho j c w -> (forall l t, (l < j)%nat -> (t < r)%nat -> image c a (w l) t = 0) ->
  exists k s u v, ortho k r u /\ ortho k c v /\ (forall i, (i < k)%nat -> 0 < s i) /\ (forall i l, (i < k)%nat -> (l < j)%nat -> ip c (v i) (w l) = 0) /\
    forall i t, (i < c)%nat -> (t < r)%nat -> a i t = rsum (fun l => s l * u l t * v l i) k.
Proof.
  assert (Z0 : forall j a w, (forall i t, (i < c)%nat -> (t < r)%nat -> a i t = 0) -> exists k s u v, ortho k r u /\ ortho k c v /\ (forall i, (i < k)%nat -> 0 < s i) /\ (forall i l, (i < k)%nat -> (l < j)%nat -> ip c (v i) (w l) = 0) /\
    forall i t, (i < c)%nat -> (t < r)%nat -> a i t = rsum (fun l => s l * u l t * v l i) k).
  { intros j a w Z. exists 0%nat, (fun _ => 0), (fun _ _ => 0), (fun _ _ => 0). repeat split; try (intros i Hi; lia); try (intros i l Hi; lia). intros i t Hi Ht. cbn [rsum]. apply Z; assumption. }
  induction d as [|d IH]; intros j a w Hj O KW.
  - apply Z0. intros i t Hi Ht. assert (j = c) by lia. subst j.
    apply (ortho_full c w (fun i => a i t) O); [|exact Hi]. intros l Hl. exact (KW l t Hl Ht).
  - destruct (rayleigh r c a ltac:(lia)) as [v [V1 M]]. destruct (Req_dec (stretch r c a v) 0) as [SZ|SN].
    + apply Z0. intros i t Hi Ht. assert (T := M (fun x => if (x =? i)%nat then 1 else 0)). rewrite SZ, Rmult_0_l in T.
      assert (T2 : stretch r c a (fun x => if (x =? i)%nat then 1 else 0) = 0) by (apply Rle_antisym; [exact T|apply stretch_nonneg]).
      assert (T3 := ip_zero r _ T2 t Ht). unfold image, comb in T3. rewrite (rsum_single _ c i Hi) in T3.
      * rewrite Nat.eqb_refl in T3. lra.
      * intros x Hx Ne. replace (x =? i)%nat with false by (symmetry; apply Nat.eqb_neq; exact Ne). ring.
    + assert (EG := rayleigh_eigen r c a v V1 M). assert (SP : 0 < stretch r c a v) by (assert (T := stretch_nonneg r c a v); lra).
      set (S2 := stretch r c a v) in *. set (s := sqrt S2). assert (s0 : 0 < s) by (apply sqrt_lt_R0; exact SP). assert (ss : s * s = S2) by (apply sqrt_sqrt; lra).
      set (u := fun t => / s * image c a v t).
      assert (U1 : ip r u u = 1).
      { unfold u. rewrite ip_scal2. change (ip r (image c a v) (image c a v)) with S2. rewrite <- ss. field. lra. }
      assert (VW : forall l, (l < j)%nat -> ip c v (w l) = 0).
      { intros l Hl. assert (T := EG (w l)). assert (Z : ip r (image c a v) (image c a (w l)) = 0) by (unfold ip; apply rsum_zero; intros t Ht; rewrite (KW l t Hl Ht); ring).
        rewrite Z in T. apply (Rmult_eq_reg_l S2); lra. }
      set (a' := fun i t => a i t - s * u t * v i).
      assert (IM : forall x t, image c a' x t = image c a x t - s * u t * ip c v x).
      { intros x t. unfold image, comb, a', ip. rewrite <- rsum_scal, <- rsum_minus. apply rsum_ext. intros; ring. }
      destruct (IH (S j) a' (add_at j v w) ltac:(lia)) as (k & s' & u' & v' & O1 & O2 & P & VV & E).
      * apply ortho_add; [exact O|exact V1|exact VW].
      * intros l t Hl Ht. rewrite IM. destruct (Nat.eq_dec l j) as [->|].
        -- rewrite add_new, V1. unfold u. field. lra.
        -- rewrite add_old by lia. rewrite VW, KW by (try exact Ht; lia). ring.
      * assert (VN : forall i, (i < k)%nat -> ip c v (v' i) = 0) by (intros i Hi; assert (T := VV i j Hi ltac:(lia)); rewrite add_new in T; rewrite ip_sym; exact T).
        assert (UN : forall i, (i < k)%nat -> ip r u (u' i) = 0).
        { intros i Hi. assert (EI : forall t, (t < r)%nat -> image c a' (v' i) t = s' i * u' i t).
          { intros t Ht. unfold image, comb. rewrite (rsum_ext _ (fun x => v' i x * rsum (fun l => s' l * u' l t * v' l x) k)) by (intros x Hx; rewrite E by assumption; ring).
            change (ip c (v' i) (fun x => rsum (fun l => s' l * u' l t * v' l x) k) = s' i * u' i t). apply (ortho_pick k c v' (fun l => s' l * u' l t) i O2 Hi). }
          assert (T : ip r u (fun t => s' i * u' i t) = 0).
          { rewrite (ip_sym r u), <- (ip_ext r (image c a' (v' i)) _ u EI). rewrite (ip_ext r _ (image c a (v' i)) u) by (intros t Ht; rewrite IM, (VN i Hi); ring).
            rewrite ip_sym. unfold u. rewrite ip_scal, EG, (VN i Hi). ring. }
          rewrite ip_sym, ip_scal, ip_sym in T. assert (Pi := P i Hi). apply (Rmult_eq_reg_l (s' i)); lra. }
        exists (S k), (fun i => if (i =? k)%nat then s else s' i), (add_at k u u'), (add_at k v v'). split; [apply ortho_add; assumption|]. split; [apply ortho_add; assumption|]. split; [|split].
        -- intros i Hi. destruct (Nat.eqb_spec i k); [exact s0|apply P; lia].
        -- intros i l Hi Hl. destruct (Nat.eq_dec i k) as [->|]; [rewrite add_new; apply VW; exact Hl|]. rewrite add_old by lia. assert (T := VV i l ltac:(lia) ltac:(lia)). rewrite add_old in T by exact Hl. exact T.
        -- intros i t Hi Ht. cbn [rsum]. rewrite Nat.eqb_refl, !add_new. rewrite (rsum_ext _ (fun l => s' l * u' l t * v' l i)).
           ++ rewrite <- E by assumption. unfold a'. ring.
           ++ intros l Hl. replace (l =? k)%nat with false by (symmetry; apply Nat.eqb_neq; lia). rewrite !add_old by exact Hl. reflexivity.
Qed.

Theorem svd_exists r c a : exists k s u v, ortho k r u /\ ortho k c v /\ (forall i, (i < k)%nat -> 0 < s i) /\
  forall i t, (i < c)%nat -> (t < r)%nat -> a i t = rsum (fun l => s l * u l t * v l i) k.
Proof.
  destruct (svd_steps r c c 0 a (fun _ _ => 0) ltac:(lia) ltac:(intros i j Hi; lia) ltac:(intros l t Hl; lia)) as (k & s & u & v & A & B & C & _ & D).
  exists k, s, u, v. repeat split; assumption.
Qed.
