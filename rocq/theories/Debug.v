(** * Debug builds against release builds *)

From Coq Require Import ZArith Reals List Bool Arith Lia Lra Psatz.
From Flocq Require Import Core.Core Relative IEEE754.BinarySingleNaN.
From Verif Require Import Num Vec MKnots MPoints MCurve MFit MGenerate MDebug F64 RNum Lists Hoare Struct Divisions Spec BMath BMath2 BMath3 Api Bridge Facts1 Gen1 Gen2 Gen3 Gen4 ApiF ApiF2 Float1 Float2 Float3 Float4 Float5 Float6 Float9 Float11 Float20 Float27 Float8 Facts11 Universal Samples.
Import ListNotations.
Local Open Scope R_scope.

Section Any.
  Context {K : Num} (svd : Mat K -> Mat K -> M (Mat K)).

  Lemma centripetal_cases (P : Mat K) : centripetal_debug P = centripetal P \/ centripetal_debug P = Panic.
  Proof.
    unfold centripetal_debug, centripetal. destruct (dp_segments P) as [m| | |]; cbn [bind]; auto.
    destruct (foldM _ (rangei 1 m) n0) as [s| | |]; cbn [bind]; auto. destruct (nleb sqrt_epsilon s); cbn [negb]; auto.
  Qed.

  Lemma debug_cases g : generate_debug svd g = generate svd g \/ generate_debug svd g = Panic.
  Proof.
    destruct g as [p cp [|kn|[| |] km]|p P|p P n fm pen]; try (left; reflexivity). cbn [generate_debug generate params_generate_debug params_generate].
    destruct (cp_segments cp) as [n| | |]; cbn [bind]; auto. destruct (n <? p)%nat; auto. destruct (cp_matrix cp) as [P| | |]; cbn [bind]; auto.
    destruct (centripetal_cases P) as [-> | ->]; auto.
  Qed.

  Lemma debug_same g : (forall p cp km, g <> Manual p cp (GMethod Centripetal km)) -> generate_debug svd g = generate svd g.
  Proof. intros H. destruct g as [p cp [|kn|[| |] km]|p P|p P n fm pen]; try reflexivity. exfalso. eapply H. reflexivity. Qed.

  Lemma debug_step dim n p P km : shape dim (S n) P -> (p <= n)%nat ->
    (centripetal_debug P = Panic -> generate_debug svd (Manual p (cp_new P) (GMethod Centripetal km)) = Panic) /\
    (centripetal_debug P = centripetal P -> generate_debug svd (Manual p (cp_new P) (GMethod Centripetal km)) = generate svd (Manual p (cp_new P) (GMethod Centripetal km))).
  Proof.
    intros S H. cbn [generate_debug generate params_generate_debug params_generate]. unfold cp_new. rewrite (cp_segments_val P [] 0 dim n S). cbn [bind].
    replace (n <? p)%nat with false by (symmetry; apply Nat.ltb_ge; exact H). split; intros E; cbn; rewrite E; reflexivity.
  Qed.
End Any.

(** ** Exact arithmetic *)
Lemma rsum_ge_one f n i : (i < n)%nat -> (forall j, (j < n)%nat -> 0 <= f j) -> f i <= rsum f n.
Proof.
  revert i. induction n as [|n IH]; intros i Hi P; [lia|]. cbn [rsum]. destruct (Nat.eq_dec i n) as [->|N].
  - assert (0 <= rsum f n) by (apply rsum_nonneg; intros; apply P; lia). lra.
  - assert (f i <= rsum f n) by (apply IH; [lia|intros; apply P; lia]). assert (0 <= f n) by (apply P; lia). lra.
Qed.

Lemma limit_R : @sqrt_epsilon RNum = / 2 ^ 26.
Proof. unfold sqrt_epsilon. cbn [seq fold_left]. rn. field. Qed.

Lemma centripetal_debug_R (P : Mat RNum) dim m : shape dim (S m) P ->
  centripetal_debug P = if Rle_dec (/ 2 ^ 26) (rsum (fun g => sqrt (distance P dim (S g) g)) m) then centripetal P else Panic.
Proof.
  intros S0. assert (S : shape dim (m + 1) P) by (replace (m + 1)%nat with (Datatypes.S m) by lia; exact S0).
  unfold centripetal_debug, centripetal, dp_segments. assert (EN : ncols P = (m + 1)%nat) by apply S. rewrite EN, usub_ok by lia. cbn [bind].
  replace (m + 1 - 1)%nat with m by lia.
  set (w := fun g => sqrt (distance P dim (Datatypes.S g) g)).
  set (f := fun g => c <- @chord RNum P g;; Val (sqrt c)).
  assert (HC : forall g, (1 <= g <= m)%nat -> f g = Val (w (g - 1)%nat)).
  { intros g Hg. unfold f. rewrite (chord_R P dim m g S Hg). cbn [bind]. unfold w. replace (Datatypes.S (g - 1)) with g by lia. reflexivity. }
  assert (E1 : foldM (fun s g => c <- @chord RNum P g;; Val (@nadd RNum s (nsqrt c))) (rangei 1 m) n0 = Val (rsum w m)).
  { rewrite <- (rsum_eq (fun g => w (Datatypes.S g - 1)%nat) w) by (intros; f_equal; lia).
    rewrite <- (Gen2.foldM_sum f (fun g => w (g - 1)%nat) m HC). apply foldM_ext. intros s g _. unfold f. destruct (chord P g); reflexivity. }
  rewrite E1. cbn [bind]. rewrite limit_R. cbn [nleb RNum]. unfold Rleb. destruct (Rle_dec (/ 2 ^ 26) (rsum w m)); reflexivity.
Qed.

Theorem debug_exact svd p n dim (P : Mat RNum) km : shape dim (S n) P -> (p <= n)%nat ->
  (/ 2 ^ 26 <= rsum (fun g => sqrt (distance P dim (S g) g)) n -> generate_debug svd (Manual p (cp_new P) (GMethod Centripetal km)) = generate svd (Manual p (cp_new P) (GMethod Centripetal km))) /\
  (rsum (fun g => sqrt (distance P dim (S g) g)) n < / 2 ^ 26 -> generate_debug svd (Manual p (cp_new P) (GMethod Centripetal km)) = Panic).
Proof.
  intros S H. assert (E := centripetal_debug_R P dim n S). destruct (debug_step svd dim n p P km S H) as [A B].
  split; intros L; destruct (Rle_dec (/ 2 ^ 26) (rsum (fun g => sqrt (distance P dim (Datatypes.S g) g)) n)); try lra; auto.
Qed.

Theorem debug_far svd p n dim (P : Mat RNum) km g : shape dim (S n) P -> (p <= n)%nat -> (g < n)%nat -> / 2 ^ 52 <= distance P dim (S g) g ->
  generate_debug svd (Manual p (cp_new P) (GMethod Centripetal km)) = generate svd (Manual p (cp_new P) (GMethod Centripetal km)).
Proof.
  intros S H Hg D. apply (debug_exact svd p n dim P km S H). apply Rle_trans with (sqrt (distance P dim (Datatypes.S g) g)).
  - rewrite <- (sqrt_Rsqr (/ 2 ^ 26)) by lra. apply sqrt_le_1_alt. unfold Rsqr. lra.
  - apply (rsum_ge_one (fun g => sqrt (distance P dim (Datatypes.S g) g))); [exact Hg|]. intros i _. apply sqrt_pos.
Qed.

(** small copies *)
Lemma distance_scale (P P' : Mat RNum) dim s i j : 0 <= s -> (forall d, (d < dim)%nat -> ent P' i d = s * ent P i d) -> (forall d, (d < dim)%nat -> ent P' j d = s * ent P j d) ->
  distance P' dim i j = s * distance P dim i j.
Proof.
  intros Hs Hi Hj. unfold distance. rewrite <- (sqrt_Rsqr s) at 1 by exact Hs. rewrite <- sqrt_mult_alt by apply Rle_0_sqr. f_equal. unfold Rsqr. rewrite <- rsum_scal.
  apply rsum_eq. intros d Hd. rewrite Hi, Hj by exact Hd. ring.
Qed.
Theorem debug_small n dim (P : Mat RNum) : shape dim (S n) P -> exists s, 0 < s /\ forall svd p km t (P' : Mat RNum), (p <= n)%nat -> 0 < t <= s -> shape dim (S n) P' ->
  (forall i d, (i <= n)%nat -> (d < dim)%nat -> ent P' i d = t * ent P i d) ->
  generate_debug svd (Manual p (cp_new P') (GMethod Centripetal km)) = Panic.
Proof.
  intros S. set (w := fun g => sqrt (distance P dim (Datatypes.S g) g)). assert (W : 0 <= rsum w n) by (apply rsum_nonneg; intros; apply sqrt_pos).
  set (r := / 2 ^ 27 / (1 + rsum w n)). assert (Hr : 0 < r) by (unfold r; apply Rdiv_lt_0_compat; lra).
  exists (r * r). split; [apply Rmult_lt_0_compat; exact Hr|]. intros svd p km t P' Hp Ht S' H. apply (debug_exact svd p n dim P' km S' Hp).
  apply Rle_lt_trans with (r * rsum w n).
  - rewrite <- rsum_scal. apply BMath.rsum_le. intros g Hg. rewrite (distance_scale P P' dim t) by (try lra; intros; apply H; lia).
    rewrite sqrt_mult_alt by lra. apply Rmult_le_compat_r; [apply sqrt_pos|]. rewrite <- (sqrt_square r) by lra. apply sqrt_le_1_alt. lra.
  - apply Rlt_le_trans with (r * (1 + rsum w n)); [nra|]. unfold r. replace (/ 2 ^ 27 / (1 + rsum w n) * (1 + rsum w n)) with (/ 2 ^ 27) by (field; lra). lra.
Qed.

(** ** Binary64 *)
Lemma limit_F : fin (@sqrt_epsilon F64) = true /\ val (@sqrt_epsilon F64) = / 2 ^ 26.
Proof.
  split; [vm_compute; reflexivity|]. rewrite <- SF2R_B2SF. vm_compute B2SF. unfold SF2R, F2R. cbn -[IZR]. lra.
Qed.

Lemma debug_F (P : Mat F64) dim m : shape dim (S m) P ->
  centripetal_debug P = if @nleb F64 sqrt_epsilon (fsum (fun g => Bsqrt mode_NE (fchord P dim g)) m) then centripetal P else Panic.
Proof.
  intros S. unfold centripetal_debug, centripetal, dp_segments. assert (EN : ncols P = (m + 1)%nat) by (etransitivity; [apply S|lia]). rewrite EN, usub_ok by lia. cbn [bind].
  replace (m + 1 - 1)%nat with m by lia. unfold rangei. replace (m + 1 - 1)%nat with m by lia.
  rewrite (foldM_fsum _ (fun g => Bsqrt mode_NE (fchord P dim g)) 1 m).
  2:{ intros s i Hi. replace i with (Datatypes.S (i - 1)) by lia. rewrite (chord_F64 P dim m (i - 1) S) by lia. cbn [bind]. replace (Datatypes.S (i - 1) - 1)%nat with (i - 1)%nat by lia. reflexivity. }
  cbn [bind]. destruct (@nleb F64 sqrt_epsilon _); reflexivity.
Qed.

Lemma rel_sums k (a b : nat -> R) n : (forall i, (i < n)%nat -> 0 <= b i /\ rel k (a i) (b i)) -> rel k (rsum a n) (rsum b n).
Proof.
  induction n as [|n IH]; intros H; [apply rel_refl|]. cbn [rsum]. apply rel_plus; [apply rsum_nonneg; intros; apply H; lia|apply H; lia|apply IH; intros; apply H; lia|apply H; lia].
Qed.
Theorem debug_float svd p m dim (P : Mat F64) (P' : Mat RNum) km : tame m dim P -> same_points m dim P P' -> (Z.of_nat m <= 2 ^ 20)%Z -> (Z.of_nat dim <= 2 ^ 20)%Z -> (p <= m)%nat ->
  (/ 2 ^ 26 * (1 + / 2 ^ 30) <= rsum (fun g => sqrt (distance P' dim (S g) g)) m -> generate_debug svd (Manual p (cp_new P) (GMethod Centripetal km)) = generate svd (Manual p (cp_new P) (GMethod Centripetal km))) /\
  (rsum (fun g => sqrt (distance P' dim (S g) g)) m <= / 2 ^ 26 * (1 - / 2 ^ 30) -> generate_debug svd (Manual p (cp_new P) (GMethod Centripetal km)) = Panic).
Proof.
  intros H SP Hb Hd Hp. assert (S := proj1 H).
  set (W := fun g => sqrt (distance P' dim (Datatypes.S g) g)).
  set (w := fun g => Bsqrt mode_NE (fchord P dim g)).
  assert (Hs : forall i, (i < m)%nat -> fin (w i) = true /\ 0 <= val (w i) <= pow2 256 /\ rel (dim + 4 + 1) (val (w i)) (W i) /\ (val (w i) = 0 \/ pow2 (-250) <= val (w i))).
  { intros i Hi. destruct (chord_fact m dim P i H Hd Hi) as [A [B [C D]]]. unfold w, W. rewrite (distance_val m dim P P' i SP Hi).
    apply sqrt_fact; try assumption; try lia; [apply sqrt_pos|]. apply Rle_trans with (pow2 511); [apply B|apply bpow_le; lia]. }
  destruct (fsum_ok w m 20 256 ltac:(lia) ltac:(lia) ltac:(lia) Hb ltac:(intros i Hi; destruct (Hs i Hi) as (A & B & _); split; assumption)) as [F [V R]].
  assert (R2 : rel (m + (dim + 4 + 1)) (val (fsum w m)) (rsum W m)).
  { apply rel_trans with (1 := R). apply rel_sums. intros i Hi. split; [apply sqrt_pos|apply (Hs i Hi)]. }
  assert (W0 : 0 <= rsum W m) by (apply rsum_nonneg; intros; apply sqrt_pos).
  destruct R2 as [g [G E]]. set (k := (m + (dim + 4 + 1))%nat) in G.
  assert (Hk : INR k * eps <= / 2 ^ 31).
  { rewrite eps_val. assert (IK : INR k <= 2 ^ 22). { rewrite INR_IZR_INZ. apply Rle_trans with (IZR 4194304); [apply IZR_le; unfold k; lia|lra]. }
    assert (P0 := pos_INR k). apply Rle_trans with (2 ^ 22 * / 2 ^ 53); [|lra]. apply Rmult_le_compat; lra. }
  assert (K0 : 0 <= INR k * eps) by (apply Rmult_le_pos; [apply pos_INR|left; apply eps_pos]).
  assert (KB := kpow_bound k ltac:(apply Rle_trans with (1 := Hk); lra)). assert (KB2 : kap ^ k <= 1 + / 2 ^ 31 + / 2 ^ 40).
  { assert (SQ : (INR k * eps) ^ 2 <= / 2 ^ 31 * / 2 ^ 31) by (replace ((INR k * eps) ^ 2) with (INR k * eps * (INR k * eps)) by ring; apply Rmult_le_compat; lra). lra. }
  assert (KI : 1 - / 2 ^ 31 - / 2 ^ 40 <= / kap ^ k).
  { apply Rmult_le_reg_r with (kap ^ k); [apply kpow_pos|]. rewrite Rinv_l by (assert (T := kpow_pos k); lra).
    apply Rle_trans with ((1 - / 2 ^ 31 - / 2 ^ 40) * (1 + / 2 ^ 31 + / 2 ^ 40)); [apply Rmult_le_compat_l; lra|lra]. }
  destruct limit_F as [FL VL].
  assert (D := debug_F P dim m S). fold w in D. rewrite (leb_R _ _ FL F) in D. rewrite VL in D. cbn [nleb RNum] in D. unfold Rleb in D.
  destruct (debug_step svd dim m p P km S Hp) as [A B].
  split; intros L; destruct (Rle_dec (/ 2 ^ 26) (val (fsum w m))) as [C|C].
  - apply B, D.
  - exfalso. apply C. rewrite E. apply Rle_trans with ((/ 2 ^ 26 * (1 + / 2 ^ 30)) * (1 - / 2 ^ 31 - / 2 ^ 40)); [lra|]. apply Rmult_le_compat; lra.
  - exfalso. rewrite E in C. assert (rsum W m * g <= (/ 2 ^ 26 * (1 - / 2 ^ 30)) * (1 + / 2 ^ 31 + / 2 ^ 40)) by (apply Rmult_le_compat; lra). lra.
  - apply A, D.
Qed.

(** NaN among the data *)
Lemma nan_minus_l (x y : f64) : is_nan x = true -> is_nan (Bminus mode_NE x y) = true.
Proof. destruct x; try discriminate. reflexivity. Qed.
Lemma nan_minus_r (x y : f64) : is_nan y = true -> is_nan (Bminus mode_NE x y) = true.
Proof. destruct y; try discriminate. destruct x as [|[|]| |]; reflexivity. Qed.
Lemma nan_square (x : f64) : is_nan x = true -> is_nan (Bmult mode_NE x x) = true.
Proof. destruct x; try discriminate. reflexivity. Qed.
Lemma nan_sqrt (x : f64) : is_nan x = true -> is_nan (Bsqrt mode_NE x) = true.
Proof. destruct x; try discriminate. reflexivity. Qed.
Lemma nan_fsum w m i : (i < m)%nat -> is_nan (w i) = true -> is_nan (fsum w m) = true.
Proof.
  revert i. induction m as [|m IH]; intros i Hi N; [lia|]. cbn [fsum]. destruct (Nat.eq_dec i m) as [->|Ni]; [apply nan_plus_r, N|]. apply nan_plus_l, (IH i); [lia|exact N].
Qed.

Theorem debug_nan svd p m dim (P : Mat F64) km i d : shape dim (S m) P -> (1 <= m)%nat -> (p <= m)%nat -> (i <= m)%nat -> (d < dim)%nat -> is_nan (ent P i d) = true ->
  generate_debug svd (Manual p (cp_new P) (GMethod Centripetal km)) = Panic.
Proof.
  intros S Hm Hp Hi Hd N. apply (debug_step svd dim m p P km S Hp). rewrite (debug_F P dim m S). rewrite nan_leb; [reflexivity|]. right.
  assert (C : exists g, (g < m)%nat /\ is_nan (fdel P g d) = true).
  { destruct (Nat.eq_dec i m) as [->|Ni].
    - exists (m - 1)%nat. split; [lia|]. unfold fdel. apply nan_minus_l. replace (Datatypes.S (m - 1)) with m by lia. exact N.
    - exists i. split; [lia|]. apply nan_minus_r, N. }
  destruct C as [g [Hg C]]. apply (nan_fsum _ m g Hg). apply nan_sqrt. unfold fchord. apply nan_sqrt. apply (nan_fsum _ dim d Hd). apply nan_square, C.
Qed.

Definition shrunk (t : R) (P : Mat RNum) : Mat RNum := mkMat (nrows P) (map (map (Rmult t)) (mcols P)).
Lemma shrunk_shape t P dim n : shape dim n P -> shape dim n (shrunk t P).
Proof.
  intros (A & B & C). split; [exact A|]. split; [unfold shrunk; cbn [mcols]; rewrite map_length; exact B|]. intros i Hi. unfold shrunk; cbn [mcols].
  rewrite (nth_indep _ _ (map (Rmult t) [])) by (rewrite map_length; change (T RNum) with R in *; lia). rewrite map_nth, map_length. apply C, Hi.
Qed.
Lemma shrunk_ent t (P : Mat RNum) i d : ent (shrunk t P) i d = t * ent P i d.
Proof.
  unfold ent, shrunk. cbn [mcols]. change (@nil (T RNum)) with (map (Rmult t) []) at 1. rewrite map_nth. change (@n0 RNum) with 0. replace 0 with (t * 0) at 1 by ring. apply map_nth.
Qed.

Theorem profiles_differ n dim (P : Mat RNum) p km : shape dim (S n) P -> (1 <= p <= n)%nat ->
  (forall g, (g < n)%nat -> exists d, (d < dim)%nat /\ ent P g d <> ent P (S g) d) ->
  exists t P', 0 < t /\ shape dim (S n) P' /\ (forall i d, (i <= n)%nat -> (d < dim)%nat -> ent P' i d = t * ent P i d) /\
    forall svd, (exists U c, generate svd (Manual p (cp_new P') (GMethod Centripetal km)) = Val (Ok c) /\ clamped_curve p n dim U P' c) /\
                generate_debug svd (Manual p (cp_new P') (GMethod Centripetal km)) = Panic.
Proof.
  intros S Hp D. destruct (debug_small n dim P S) as (t & Ht & H). exists t, (shrunk t P). assert (S' := shrunk_shape t P dim _ S).
  split; [exact Ht|]. split; [exact S'|]. split; [intros i d _ _; apply shrunk_ent|]. intros svd. split.
  - destruct (manual_method svd p n dim (shrunk t P) Centripetal km S' Hp) as (pa & kn & U & c & _ & _ & _ & E & C); [|exists U, c; split; assumption].
    intros g Hg. destruct (D g Hg) as (d & Hd & N). exists d. split; [exact Hd|]. rewrite !shrunk_ent. intros C. apply N. apply Rmult_eq_reg_l with t; [exact C|lra].
  - apply (H svd p km t); [lia|lra|exact S'|]. intros i d _ _. apply shrunk_ent.
Qed.

Definition tiny : Mat F64 := mkMat 1 [[fmk 0 0]; [fmk 1 (-60)]; [fmk 3 (-60)]].
Lemma tiny_shape : shape 1 3 tiny.
Proof. split; [reflexivity|]. split; [reflexivity|]. intros [|[|[|i]]] Hi; try reflexivity. lia. Qed.

Definition panics {A} (r : M A) : bool := match r with Panic => true | _ => false end.
Lemma panics_ex {A} (r : M A) : panics r = true -> r = Panic.
Proof. destruct r; try discriminate. reflexivity. Qed.

Lemma tiny_differs (svd : Mat F64 -> Mat F64 -> M (Mat F64)) :
  generate_debug svd (Manual 2 (cp_new tiny) (GMethod Centripetal KDeBoor)) = Panic /\
  exists c x, generate svd (Manual 2 (cp_new tiny) (GMethod Centripetal KDeBoor)) = Val (Ok c) /\ evaluate c (fmk 1 (-1)) = Val (Ok [x]) /\ finite x.
Proof.
  split; [apply panics_ex; vm_compute; reflexivity|].
  destruct (okb_ex (generate svd (Manual 2 (cp_new tiny) (GMethod Centripetal KDeBoor))) (fun c => okb (evaluate c (fmk 1 (-1))) (fun v => match v with [x] => is_finite x | _ => false end))) as [c [E H]]; [vm_compute; reflexivity|].
  apply okb_ex in H. destruct H as [v [E2 H]]. destruct v as [|x [|y v]]; try discriminate. exists c, x. split; [exact E|]. split; [exact E2|exact H].
Qed.

Lemma tame_f : tame 3 1 P_f.
Proof.
  assert (B : 1 <= 2 ^ 500) by (apply pow_R1_Rle; lra).
  assert (B' : 4 <= 2 ^ 500) by (change 500%nat with (2 + 498)%nat; rewrite pow_add; assert (1 <= 2 ^ 498) by (apply pow_R1_Rle; lra); lra).
  assert (I : / 2 ^ 500 <= 1 / 4) by (apply Rle_trans with (/ 4); [apply Rinv_le_contravar; lra|lra]).
  assert (Sh : shape 1 4 P_f) by (split; [reflexivity|split; [reflexivity|intros i Hi; cases i]]).
  split; [exact Sh|]. split.
  - intros i d Hi Hd. destruct (P_f_pts i d Hi Hd) as [A C]. split; [exact A|]. lra.
  - intros i d Hi Hd. right. destruct d; [|lia]. apply Rle_trans with (1 := I).
    destruct i as [|[|[|i]]]; [| | |lia].
    + change (1 / 4 <= Rabs (val (q4 4) - val (q4 0))). rewrite val_q4_0, val_q4_4, Rabs_pos_eq; lra.
    + change (1 / 4 <= Rabs (val (q4 (-6)) - val (q4 4))). rewrite val_q4_m6, val_q4_4, <- Rabs_Ropp, Rabs_pos_eq; lra.
    + change (1 / 4 <= Rabs (val (q4 3) - val (q4 (-6)))). rewrite val_q4_m6, val_q4_3, Rabs_pos_eq; lra.
Qed.
