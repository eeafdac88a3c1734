(** * The condition that the cutoff does no harm: when it holds *)

From Coq Require Import ZArith QArith Qreals Reals List Bool Arith Lia Lra Psatz.
From Verif Require Import Num Vec MKnots MPoints MCurve MFit MGenerate RNum Hoare Lists Struct Spec BMath BMath2 BMath3 Api ApiV Bridge Facts1 Gen1 Gen2 Gen3 Gen4 LinAlg Fit1 Fit2 Fit3 Fit5 Fit6 Fit7 Svd1 Svd2 Svd3 Svd5.
Import ListNotations.
Local Open Scope R_scope.

Lemma min_positive (s : nat -> R) k : (forall i, (i < k)%nat -> 0 < s i) -> exists t, 0 < t /\ forall i, (i < k)%nat -> t < s i.
Proof.
  induction k as [|k IH]; intros H; [exists 1; split; [lra|intros; lia]|].
  destruct IH as [t [T0 T]]; [intros; apply H; lia|]. assert (K := H k ltac:(lia)). exists (Rmin t (s k / 2)). split.
  - apply Rmin_pos; lra.
  - intros i Hi. destruct (Nat.eq_dec i k) as [->|N]; [eapply Rle_lt_trans; [apply Rmin_r|lra]|]. eapply Rle_lt_trans; [apply Rmin_l|]. apply T. lia.
Qed.

Lemma spline_ip p n U x u : spline (kfun U) n p x u = comb (fun i _ => bspline (kfun U) n p i u) x (S n) 0.
Proof. reflexivity. Qed.

Lemma distinct_of p n m e U : (1 <= m)%nat -> clamped p n U -> uniform_knots p n U ->
  (forall x, (exists i, (i <= n)%nat /\ x i <> 0) -> e * ip (S n) x x < rsum (fun g => spline (kfun U) n p x (INR g / INR m) ^ 2) (S m)) -> distinct p n m e.
Proof.
  intros Hm CL UK H U2 C c f HC UK2 HF NZ. assert (EU := uniform_list p n U U2 CL (proj1 HC) UK UK2). subst U2.
  assert (V : forall g, (g <= m)%nat -> f g = spline (kfun U) n p (fun i => ent C i 0) (INR g / INR m)).
  { intros g Hg. destruct (HF g Hg) as [x [Ex [_ Vx]]]. destruct (cc_eval0 p n 1 U C c (INR g / INR m) HC ltac:(apply frac01; lia)) as [x' [Ex' [_ Vx']]]. rewrite Ex in Ex'. injection Ex' as <-. rewrite <- (Vx 0%nat), (Vx' 0%nat) by lia. reflexivity. }
  rewrite (rsum_ext (fun g => f g ^ 2) (fun g => spline (kfun U) n p (fun i => ent C i 0) (INR g / INR m) ^ 2)) by (intros g Hg; rewrite V by lia; reflexivity).
  eapply Rle_lt_trans; [|apply (H (fun i => ent C i 0) NZ)]. apply Req_le. f_equal. unfold ip. apply rsum_ext. intros; ring.
Qed.

Theorem distinct_some p n m : (1 <= p <= n)%nat -> (n <= m)%nat -> exists e, 0 < e /\ distinct p n m e.
Proof.
  intros Hp Hm. destruct (uniform_fact p n Hp) as (kn & U & A & B & V & CL & VU & _). assert (UK := uniform_values p n U CL VU).
  set (a := fun i g => bspline (kfun U) n p i (INR g / INR m)).
  assert (IM : forall x g, image (S n) a x g = spline (kfun U) n p x (INR g / INR m)) by reflexivity.
  destruct (svd_exists (S m) (S n) a) as (k & s & u & v & OU & OV & P & E). destruct (min_positive s k P) as [t [T0 T]].
  exists (t ^ 2). split; [apply pow_lt; exact T0|]. apply (distinct_of p n m (t ^ 2) U ltac:(lia) CL UK). intros x [i0 [Hi0 NZ]].
  assert (REC : forall i, (i < S n)%nat -> x i = rsum (fun l => ip (S n) (v l) x * v l i) k).
  { intros i Hi. apply Rminus_diag_uniq. apply (uniform_determined p n U CL UK ltac:(lia) m Hm (fun i => x i - rsum (fun l => ip (S n) (v l) x * v l i) k)); [|lia].
    intros g Hg. rewrite <- IM. rewrite (image_dec (S m) (S n) k a s u v E) by lia. apply rsum_zero. intros l Hl.
    assert (Z : ip (S n) (v l) (fun i => x i - rsum (fun l => ip (S n) (v l) x * v l i) k) = 0).
    { rewrite ip_sym, ip_sub. rewrite (ip_sym (S n) (fun t => rsum _ k) (v l)). rewrite (ortho_pick k (S n) v _ l OV Hl). rewrite ip_sym. ring. }
    rewrite Z. ring. }
  assert (NX : ip (S n) x x = rsum (fun l => ip (S n) (v l) x ^ 2) k) by (rewrite (ip_ext2 (S n) x x _ _ REC REC) at 1; apply (combo_norm k (S n) v _ OV)).
  assert (NI : rsum (fun g => spline (kfun U) n p x (INR g / INR m) ^ 2) (S m) = rsum (fun l => (s l * ip (S n) (v l) x) ^ 2) k).
  { rewrite <- (combo_norm k (S m) u _ OU). unfold ip at 1. apply rsum_ext. intros g Hg. rewrite <- IM. rewrite (image_dec (S m) (S n) k a s u v E) by lia. ring. }
  rewrite NI, NX. rewrite <- rsum_scal.
  assert (PX : 0 < ip (S n) x x).
  { apply Rlt_le_trans with (x i0 * x i0); [apply Rsqr_pos_lt; exact NZ|]. apply (rsum_ge_one (fun t => x t * x t) (S n) i0); [lia|]. intros. apply Rle_0_sqr. }
  (* some coefficient is not zero *)
  destruct (Rlt_le_dec (rsum (fun l => t ^ 2 * ip (S n) (v l) x ^ 2) k) (rsum (fun l => (s l * ip (S n) (v l) x) ^ 2) k)) as [|L]; [assumption|exfalso].
  assert (D : rsum (fun l => (s l ^ 2 - t ^ 2) * ip (S n) (v l) x ^ 2) k <= 0).
  { rewrite (rsum_ext _ (fun l => (s l * ip (S n) (v l) x) ^ 2 + (-1) * (t ^ 2 * ip (S n) (v l) x ^ 2))) by (intros; ring). rewrite rsum_plus, rsum_scal. lra. }
  assert (ZC : forall l, (l < k)%nat -> ip (S n) (v l) x ^ 2 = 0).
  { intros l Hl. assert (Q := rsum_ge_one (fun l => (s l ^ 2 - t ^ 2) * ip (S n) (v l) x ^ 2) k l Hl).
    assert (GE : forall j, (j < k)%nat -> 0 < s j ^ 2 - t ^ 2) by (intros j Hj; assert (J := T j Hj); nra).
    assert (Q1 : (s l ^ 2 - t ^ 2) * ip (S n) (v l) x ^ 2 <= 0). { eapply Rle_trans; [apply Q|exact D]. intros j Hj. apply Rmult_le_pos; [apply Rlt_le, GE, Hj|apply pow2_ge_0]. }
    assert (Q2 := GE l Hl). assert (Q3 := pow2_ge_0 (ip (S n) (v l) x)). nra. }
  rewrite NX in PX. rewrite rsum_zero in PX by (intros l Hl; apply ZC; exact Hl). lra.
Qed.

(** smaller thresholds are weaker *)
Lemma distinct_less p n m e e' : e' <= e -> distinct p n m e -> distinct p n m e'.
Proof.
  intros L D U C c f HC UK HF NZ. eapply Rle_lt_trans; [|apply (D U C c f HC UK HF NZ)]. apply Rmult_le_compat_r; [|exact L]. apply rsum_nonneg. intros. apply pow2_ge_0.
Qed.

(** the parabola through three points *)
Lemma distinct_parabola : distinct 2 2 2 (1 / 16).
Proof.
  destruct (uniform_fact 2 2 ltac:(lia)) as (kn & U & A & B & V & CL & VU & _). assert (UK := uniform_values 2 2 U CL VU).
  apply (distinct_of 2 2 2 (1 / 16) U ltac:(lia) CL UK). intros x [i0 [Hi0 NZ]].
  assert (BS : forall g i, bspline (kfun U) 2 2 i (INR g / INR 2) = Q2R (qcox (qind (quni 2 2) 2 (Z.of_nat g # 2)) (quni 2 2) 2 i (Z.of_nat g # 2))).
  { intros g i. rewrite (Q2R_bspline _ (kfun U)) by (intros j; apply (quni_kfun 2 2 U j CL UK)). f_equal. symmetry. apply (Q2R_frac g 2). lia. }
  assert (SP : forall g, spline (kfun U) 2 2 x (INR g / INR 2) = rsum (fun i => Q2R (qcox (qind (quni 2 2) 2 (Z.of_nat g # 2)) (quni 2 2) 2 i (Z.of_nat g # 2)) * x i) 3) by (intros g; unfold spline; apply rsum_ext; intros i Hi; rewrite BS; reflexivity).
  rewrite (rsum_ext _ (fun g => rsum (fun i => Q2R (qcox (qind (quni 2 2) 2 (Z.of_nat g # 2)) (quni 2 2) 2 i (Z.of_nat g # 2)) * x i) 3 ^ 2)) by (intros g Hg; rewrite SP; reflexivity).
  cbn [rsum]. unfold ip. cbn [rsum].
  repeat match goal with |- context [Q2R (qcox ?a ?b ?c ?d ?e)] => let q := eval vm_compute in (qcox a b c d e) in replace (Q2R (qcox a b c d e)) with (Q2R q) by (vm_compute; reflexivity) end.
  unfold Q2R. cbn [Qnum Qden].
  assert (PX : 0 < x 0%nat * x 0%nat + x 1%nat * x 1%nat + x 2%nat * x 2%nat).
  { assert (A0 := Rle_0_sqr (x 0%nat)). assert (A1 := Rle_0_sqr (x 1%nat)). assert (A2 := Rle_0_sqr (x 2%nat)). unfold Rsqr in *. assert (Q := Rsqr_pos_lt (x i0) NZ). unfold Rsqr in Q.
    destruct (Nat.eq_dec i0 0) as [->|]; [lra|]. destruct (Nat.eq_dec i0 1) as [->|]; [lra|]. assert (i0 = 2)%nat by lia. subst i0. lra. }
  set (a := x 0%nat) in *. set (b := x 1%nat) in *. set (c := x 2%nat) in *. clearbody a b c.
  assert (K : 0 <= (a - c) ^ 2 /\ 0 <= (2 * (a + c) + b) ^ 2 /\ 0 <= (a + c) ^ 2) by (repeat split; apply pow2_ge_0). nra.
Qed.

Theorem distinct_threshold p n m : (1 <= p <= n)%nat -> (n <= m)%nat -> exists e, 0 < e /\ forall e', e' <= e -> distinct p n m e'.
Proof. intros Hp Hm. destruct (distinct_some p n m Hp Hm) as [e [E0 D]]. exists e. split; [exact E0|]. intros e' L. apply (distinct_less p n m e e' L D). Qed.

Theorem degree_one_exact eps svd m dim (Q : Mat RNum) : 0 <= eps < 1 -> cutoff_solver eps svd -> (1 <= m)%nat -> shape dim (S m) Q ->
  exists c, generate svd (Interpolation 1 Q) = Val (Ok c) /\ forall g, (g <= m)%nat -> returns (evaluate c (INR g / INR m)) dim (fun d => ent Q g d).
Proof.
  intros He CS Hm SQ. apply (proj1 (interpolation_iff eps svd 1 m ltac:(lra) CS ltac:(lia))); [|exact SQ]. apply distinct_one; [exact Hm|]. nra.
Qed.

Definition small_check (k : Z) (l : list Z) : bool := forallb (fun z => Z.abs z <=? k)%Z l.
Lemma small_sound k l g : (0 <= k)%Z -> small_check k l = true -> (Z.abs (nth g l 0%Z) <= k)%Z.
Proof.
  intros K H. unfold small_check in H. rewrite forallb_forall in H. destruct (le_lt_dec (length l) g) as [L|L]; [rewrite nth_overflow by exact L; cbn; exact K|].
  apply Z.leb_le, H, nth_In, L.
Qed.
Lemma lost_small : small_check (2 ^ 30) lost_list = true.
Proof. vm_compute. reflexivity. Qed.
Theorem lost_integers : exists Q, shape 1 151 Q /\ (forall g, (g <= 150)%nat -> exists z, (Z.abs z <= 2 ^ 30)%Z /\ ent Q g 0 = IZR z) /\ 10 ^ 18 <= squares Q 1 151 /\
  forall svd, cutoff_solver (/ 2 ^ 26) svd -> exists c e, generate svd (Interpolation 3 Q) = Val (Ok c) /\ data_error c 1 150 Q e /\ 99 / 100 * squares Q 1 151 <= e.
Proof.
  exists lost_data. split; [apply mat_of_shape|]. split; [|split].
  - intros g Hg. exists (nth g lost_list 0%Z). split; [apply small_sound; [discriminate|exact lost_small]|]. unfold lost_data, data_of. rewrite ent_mat_of by lia. reflexivity.
  - destruct (lost _ (some_cutoff_solver (/ 2 ^ 26))) as (c & e & _ & _ & _ & L). exact L.
  - intros svd CS. destruct (lost svd CS) as (c & e & G & D & E & _). exists c, e. split; [exact G|]. split; [exact D|exact E].
Qed.

Lemma exact_error c dim m (Q : Mat RNum) e : (forall g, (g <= m)%nat -> returns (evaluate c (INR g / INR m)) dim (fun d => ent Q g d)) -> data_error c dim m Q e -> e = 0.
Proof.
  intros H [f [F E]]. rewrite E. apply rsum_zero. intros g Hg. apply rsum_zero. intros d Hd.
  destruct (H g ltac:(lia)) as [x [Ex [_ Vx]]]. destruct (F g ltac:(lia)) as [x' [Ex' [_ Vx']]]. rewrite Ex in Ex'. injection Ex' as <-. rewrite <- Vx, <- Vx' by exact Hd. rn. ring.
Qed.
Theorem cutoff_refuted : ~ forall svd p m dim (Q : Mat RNum), cutoff_solver (/ 2 ^ 26) svd -> (1 <= p <= m)%nat -> shape dim (S m) Q ->
    exists c, generate svd (Interpolation p Q) = Val (Ok c) /\ forall g, (g <= m)%nat -> returns (evaluate c (INR g / INR m)) dim (fun d => ent Q g d).
Proof.
  intros H. destruct lost_integers as (Q & SQ & _ & L & K). assert (CS := some_cutoff_solver (/ 2 ^ 26)).
  destruct (K _ CS) as (c & e & G & D & E). destruct (H _ 3%nat 150%nat 1%nat Q CS ltac:(lia) SQ) as (c' & G' & I'). rewrite G in G'. injection G' as <-.
  assert (Z := exact_error c 1 150 Q e I' D). lra.
Qed.
Theorem cubic_not_distinct : ~ distinct 3 150 150 ((/ 2 ^ 26) ^ 2).
Proof.
  intros D0. destruct lost_integers as (Q & SQ & _ & L & K). assert (CS := some_cutoff_solver (/ 2 ^ 26)).
  destruct (K _ CS) as (c & e & G & D & E).
  destruct (proj1 (interpolation_iff (/ 2 ^ 26) _ 3 150 ltac:(apply Rlt_le, Rinv_0_lt_compat; lra) CS ltac:(lia)) D0 1%nat Q SQ) as (c' & G' & I'). rewrite G in G'. injection G' as <-.
  assert (Z := exact_error c 1 150 Q e I' D). lra.
Qed.
