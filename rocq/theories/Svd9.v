(** * A merge whose constraint is lost because its singular value is small *)

From Coq Require Import ZArith Reals List Bool Arith Lia Lra.
From Verif Require Import Num Vec MKnots MPoints MCurve MFit MMerge RNum Hoare Lists Struct Spec BMath BMath2 BMath3 Api ApiV ApiW Bridge Samples Facts1 Facts3 Gen3 LinAlg Fit1 Fit3 Fit4 Fit7 Merge1 Merge2 Merge3 Merge4 Merge5 Merge6 Merge7 Merge8 Merge9 Merge10 Shape1 Shape3 Svd1 Svd2 Svd3 Svd7 Svd8.
Import ListNotations.
Local Open Scope R_scope.

(** ** two facts on truncated solutions *)
Section Facts.
  Variables (r c k : nat) (a : nat -> nat -> R) (s : nat -> R) (u v : nat -> nat -> R) (eps : R).
  Hypotheses (OU : ortho k r u) (OV : ortho k c v) (S0 : forall i, (i < k)%nat -> 0 <= s i).
  Hypothesis E : forall i t, (i < c)%nat -> (t < r)%nat -> a i t = rsum (fun l => s l * u l t * v l i) k.
  Hypothesis HE : 0 <= eps.
  Notation X b := (cut_solution r k s u v eps b).

  Lemma bessel_all b : rsum (fun l => ip r (u l) b ^ 2) k <= ip r b b.
  Proof using OU OV.
    assert (T := bessel r c k (fun i t => rsum (fun l => 1 * u l t * v l i) k) (fun _ => 1) u v 0 OU OV ltac:(reflexivity) ltac:(lra) b).
    rewrite (rsum_ext _ (fun l => ip r (u l) b ^ 2)) in T; [exact T|]. intros l Hl. unfold kept. destruct Rlt_dec; lra.
  Qed.
  (** what is left over is nearly orthogonal to the columns of the matrix *)
  Lemma left_over b i : (i < c)%nat -> ip r (a i) (fun t => b t - image c a (X b) t) ^ 2 <= eps ^ 2 * ip r b b.
  Proof using OU OV S0 E HE.
    intros Hi. set (e := fun t => b t - image c a (X b) t).
    assert (UE : forall l, (l < k)%nat -> ip r (u l) e = if Rlt_dec eps (s l) then 0 else ip r (u l) b).
    { intros l Hl. rewrite ip_sym. unfold e. rewrite ip_sub. rewrite (ip_sym r b).
      rewrite (ip_ext r (image c a (X b)) (fun t => rsum (fun l => kept s eps l (ip r (u l) b) * u l t) k)) by (intros t Ht; apply (cut_image r c k a s u v eps OV E HE b t Ht)).
      rewrite (ip_sym r _ (u l)), (ortho_pick k r u (fun l => kept s eps l (ip r (u l) b)) l OU Hl). unfold kept. destruct Rlt_dec; ring. }
    set (f := fun i => rsum (fun l => (s l * ip r (u l) e) * v l i) k).
    assert (AI : ip r (a i) e = f i).
    { unfold f. rewrite (ip_ext r (a i) (fun t => rsum (fun l => s l * v l i * u l t) k) e) by (intros t Ht; rewrite E by assumption; apply rsum_ext; intros; ring).
      rewrite ip_sym, ip_combo. apply rsum_ext. intros l Hl. rewrite (ip_sym r e). ring. }
    rewrite AI. apply Rle_trans with (ip c f f).
    - replace (f i ^ 2) with (f i * f i) by ring. unfold ip. apply (rsum_ge_one (fun j => f j * f j) c i Hi). intros j _. apply Rle_0_sqr.
    - unfold f. rewrite (combo_norm k c v _ OV). apply Rle_trans with (rsum (fun l => eps ^ 2 * ip r (u l) b ^ 2) k); [|rewrite rsum_scal; apply Rmult_le_compat_l; [apply pow2_ge_0|apply bessel_all]].
      apply BMath.rsum_le. intros l Hl. rewrite UE by exact Hl. assert (T := S0 l Hl). assert (P := pow2_ge_0 (ip r (u l) b)). rewrite Rpow_mult_distr.
      destruct Rlt_dec as [L|L]; [replace (0 ^ 2) with 0 by ring; assert (Q := pow2_ge_0 eps); nra|]. apply Rmult_le_compat_r; [exact P|]. nra.
  Qed.
  (** the answer is nearly orthogonal to what the matrix nearly annihilates *)
  Lemma near_kernel b q : (eps * ip c (X b) q) ^ 2 <= ip c (X b) (X b) * ip r (image c a q) (image c a q).
  Proof using OU OV S0 E HE.
    assert (E1 : ip c (X b) q = rsum (fun l => kept s eps l (ip r (u l) b / s l) * ip c (v l) q) k).
    { rewrite (ip_ext c (X b) (fun i => rsum (fun l => kept s eps l (ip r (u l) b / s l) * v l i) k) q) by (intros i Hi; unfold cut_solution; apply rsum_ext; intros l Hl; unfold kept; destruct Rlt_dec; ring).
      rewrite ip_sym, ip_combo. apply rsum_ext. intros l Hl. rewrite (ip_sym c q). reflexivity. }
    rewrite (cut_norm r c k s u v eps OV).
    assert (E2 : ip r (image c a q) (image c a q) = rsum (fun l => (s l * ip c (v l) q) ^ 2) k).
    { rewrite <- (combo_norm k r u (fun l => s l * ip c (v l) q) OU). apply ip_ext2; intros t Ht; apply (image_dec r c k a s u v E q t Ht). }
    rewrite E2.
    assert (C := cauchy (fun l => kept s eps l (ip r (u l) b / s l)) (fun l => if Rlt_dec eps (s l) then eps * ip c (v l) q else 0) k).
    cbv beta in C. replace (rsum (fun d => kept s eps d (ip r (u d) b / s d) * (if Rlt_dec eps (s d) then eps * ip c (v d) q else 0)) k) with (eps * ip c (X b) q) in C.
    2:{ rewrite E1, <- rsum_scal. apply rsum_ext. intros l Hl. unfold kept. destruct Rlt_dec; ring. }
    eapply Rle_trans; [exact C|]. apply Rmult_le_compat.
    - apply rsum_nonneg. intros; apply pow2_ge_0.
    - apply rsum_nonneg. intros; apply pow2_ge_0.
    - apply Req_le. apply rsum_ext. intros l Hl. unfold kept. destruct Rlt_dec; ring.
    - apply BMath.rsum_le. intros l Hl. destruct Rlt_dec as [L|L].
      + rewrite !Rpow_mult_distr. apply Rmult_le_compat_r; [apply pow2_ge_0|]. nra.
      + replace (0 ^ 2) with 0 by ring. apply pow2_ge_0.
  Qed.
End Facts.

(** ** the numbers of the example *)
Definition g0 : R := 32767 / 536870912.
Definition g1 : R := 1 / 1073741824.
Definition h01 : R := (3 * g0 ^ 2 + 2 * g0 * g1 + g1 ^ 2) / 8.

Lemma small_h : h01 <= / 2 ^ 26 / 8.
Proof. unfold h01, g0, g1. lra. Qed.
Lemma h_pos : 0 <= h01.
Proof. unfold h01, g0, g1. lra. Qed.

Lemma abs_sq x y : 0 <= y -> x ^ 2 <= y ^ 2 -> - y <= x <= y.
Proof. intros Hy H. split; apply Rnot_lt_le; intros L; nra. Qed.

Lemma numbers x1 x2 x3 x4 m1 m2 l e0 e1 e2 e3 e4 e5 e6 N z :
  x1 - m2 - g0 / 2 * l + e0 = 0 -> x2 + m1 / 2 + m2 - g1 / 2 * l + e1 = 0 -> x3 - m1 / 2 + m2 + e2 = 0 -> x4 - m2 + e3 = 0 -> x2 - x3 + e4 = 0 -> -2 * x1 + 2 * x2 + 2 * x3 - 2 * x4 + e5 = 2 ->
  - (1/1000000) <= e0 - 2 * e5 + g0 * e6 <= 1/1000000 -> - (1/1000000) <= e1 + e4 + 2 * e5 + g1 * e6 <= 1/1000000 -> - (1/1000000) <= e2 - e4 + 2 * e5 <= 1/1000000 -> - (1/1000000) <= e3 - 2 * e5 <= 1/1000000 ->
  - (1/1000000) <= e1 / 2 - e2 / 2 <= 1/1000000 -> - (1/1000000) <= - e0 + e1 + e2 - e3 <= 1/1000000 -> -2 <= e6 <= 2 ->
  N = x1 ^ 2 + x2 ^ 2 + x3 ^ 2 + x4 ^ 2 + m1 ^ 2 + m2 ^ 2 + l ^ 2 ->
  z = (3 * g0 + g1) / 8 * x1 + (g0 + g1) / 8 * x2 + (g0 + g1) / 8 * x3 + (g1 - g0) / 8 * x4 + g1 / 2 * m1 + (g1 - g0) / 8 * m2 + l ->
  (/ 2 ^ 26 * z) ^ 2 <= N * h01 ^ 2 -> x1 <= - (1/5) /\ x1 + 1 + x4 <= 2.
Proof.
  intros R1 R2 R3 R4 R5 R6 C1 C2 C3 C4 C5 C6 C7 EN EZ K.
  assert (NP : 0 <= N) by (rewrite EN; repeat apply Rplus_le_le_0_compat; apply pow2_ge_0).
  assert (K2 : z ^ 2 <= N / 64).
  { assert (h01 ^ 2 <= (/ 2 ^ 26 / 8) ^ 2) by (apply pow_incr; split; [apply h_pos|apply small_h]). assert (N * h01 ^ 2 <= N * (/ 2 ^ 26 / 8) ^ 2) by (apply Rmult_le_compat_l; assumption).
    set (t := / 2 ^ 26) in *. assert (T : 0 < t) by (apply Rinv_0_lt_compat; apply pow_lt; lra). apply Rmult_le_reg_l with (t ^ 2); [nra|]. nra. }
  clear K. unfold g0, g1 in *.
  assert (B0 : -1/1000 <= e0 <= 1/1000) by lra. assert (B1 : -1/1000 <= e1 <= 1/1000) by lra. assert (B2 : -1/1000 <= e2 <= 1/1000) by lra. assert (B3 : -1/1000 <= e3 <= 1/1000) by lra.
  assert (B4 : -1/1000 <= e4 <= 1/1000) by lra. assert (B5 : -1/1000 <= e5 <= 1/1000) by lra. clear C1 C2 C3 C4 C5 C6 C7.
  set (L := Rabs l). assert (L1 : - L <= l <= L) by (unfold L; split; [assert (T := Rle_abs (- l)); rewrite Rabs_Ropp in T; lra|apply Rle_abs]).
  assert (L0 : 0 <= L) by apply Rabs_pos. assert (LL : l ^ 2 = L ^ 2) by (unfold L; symmetry; apply pow2_abs).
  assert (M2 : - 1/4 - 1/100 - L / 1000 <= m2 <= - 1/4 + 1/100 + L / 1000) by lra.
  assert (M1 : - 1/100 - L / 1000 <= m1 <= 1/100 + L / 1000) by lra.
  assert (X1 : - 1/4 - 1/50 - L / 500 <= x1 <= - 1/4 + 1/50 + L / 500) by lra.
  assert (X2 : 1/4 - 1/50 - L / 500 <= x2 <= 1/4 + 1/50 + L / 500) by lra.
  assert (X3 : 1/4 - 1/50 - L / 500 <= x3 <= 1/4 + 1/50 + L / 500) by lra.
  assert (X4 : - 1/4 - 1/50 - L / 500 <= x4 <= - 1/4 + 1/50 + L / 500) by lra.
  assert (Z : - (1 + L) / 1000 <= z - l <= (1 + L) / 1000) by lra.
  clear R1 R2 R3 R4 R5 R6 B0 B1 B2 B3 B4 B5 EZ.
  enough (L <= 1) by lra. apply Rnot_lt_le. intros LT.
  assert (Q : forall x, - L <= x <= L -> x ^ 2 <= L ^ 2) by (intros x Hx; nra).
  assert (N <= 7 * L ^ 2) by (rewrite EN, LL; assert (T1 := Q x1 ltac:(lra)); assert (T2 := Q x2 ltac:(lra)); assert (T3 := Q x3 ltac:(lra)); assert (T4 := Q x4 ltac:(lra)); assert (T5 := Q m1 ltac:(lra)); assert (T6 := Q m2 ltac:(lra)); lra).
  assert (ZA : (1/2 * L) ^ 2 <= z ^ 2).
  { assert (AZ : z ^ 2 = Rabs z ^ 2) by (symmetry; apply pow2_abs). rewrite AZ. apply pow_incr. split; [lra|].
    unfold L in *. revert Z LT L1. unfold Rabs. destruct (Rcase_abs l), (Rcase_abs z); intros; lra. }
  nra.
Qed.

(** ** two parabolas *)
Definition U_2 : list R := [0; 0; 0; 1; 1; 1].
Definition P_2 : Mat RNum := mkMat 1 [[0]; [0]; [0]].
Definition Q_2 : Mat RNum := mkMat 1 [[0]; [1]; [0]].
Lemma U_2_clamped : clamped 2 2 U_2.
Proof.
  split.
  - lia.
  - reflexivity.
  - apply sorted_steps. intros i Hi. simpl length in Hi. cases i.
  - intros i Hi. cases i.
  - intros i Hi Hj. simpl length in Hj. cases i.
  - intros i Hi Hj. cases i.
Qed.
Lemma P_2_shape : shape 1 3 P_2. Proof. split; [reflexivity|]. split; [reflexivity|]. intros i Hi. cases i. Qed.
Lemma Q_2_shape : shape 1 3 Q_2. Proof. split; [reflexivity|]. split; [reflexivity|]. intros i Hi. cases i. Qed.

Lemma parabola (C : nat -> R) u : 0 <= u <= 1 -> spline (kfun U_2) 2 2 C u = (1 - u) ^ 2 * C 0%nat + 2 * u * (1 - u) * C 1%nat + u ^ 2 * C 2%nat.
Proof.
  intros Hu. assert (F := kfun_clamped 2 2 U_2 U_2_clamped).
  destruct (span_ex 2 2 _ F u Hu) as [j [J1 J2]]. assert (j = 2%nat) by lia. subst j.
  rewrite (spline_piece 2 2 _ F _ u 2 ltac:(lia) J2). unfold pfun.
  assert (B : forall i, (i <= 2)%nat -> cox (delta 2) (kfun U_2) 2 i u = INR (binomial 2 i) * u ^ i * (1 - u) ^ (2 - i)) by (intros i Hi; apply (bernstein 2 (kfun U_2) u ltac:(apply F) ltac:(apply F) 2 i ltac:(lia) ltac:(lia))).
  cbn [rsum]. rewrite !B by lia. cbn. ring.
Qed.
Lemma parabola_basis i u : 0 <= u <= 1 -> (i <= 2)%nat -> bspline (kfun U_2) 2 2 i u = match i with 0%nat => (1 - u) ^ 2 | 1%nat => 2 * u * (1 - u) | _ => u ^ 2 end.
Proof.
  intros Hu Hi. transitivity (spline (kfun U_2) 2 2 (fun j => if (j =? i)%nat then 1 else 0) u).
  - unfold spline. rewrite (rsum_single _ 3 i ltac:(lia)); [rewrite Nat.eqb_refl; ring|]. intros j Hj N. replace (j =? i)%nat with false by (symmetry; apply Nat.eqb_neq; exact N). ring.
  - rewrite parabola by exact Hu. destruct i as [|[|[|i]]]; cbn [Nat.eqb]; try ring. lia.
Qed.
Lemma knot_2 i : (i <= 2)%nat -> kfun U_2 i = 0.
Proof. apply (fc_zero _ _ _ (kfun_clamped 2 2 U_2 U_2_clamped)). Qed.
Lemma knot_3 i : (2 < i)%nat -> kfun U_2 i = 1.
Proof. apply (fc_one _ _ _ (kfun_clamped 2 2 U_2 U_2_clamped)). Qed.

Definition con2 (r j : nat) : R :=
  match r, j with 0%nat, 1%nat => 1 | 0%nat, 2%nat => -1 | 1%nat, 0%nat => -2 | 1%nat, 1%nat => 2 | 1%nat, 2%nat => 2 | 1%nat, 3%nat => -2 | 2%nat, 0%nat => g0 | 2%nat, 1%nat => g1 | _, _ => 0 end.
Lemma con2_eq r j : (r < 3)%nat -> (j < 4)%nat -> @con 2 2 U_2 2 U_2 [/ 2 ^ 15] [] r j = con2 r j.
Proof.
  intros Hr Hj. destruct (rows_meet U_2_clamped (o := 2) (W := U_2) [/ 2 ^ 15] []) as (E1 & E2 & E3 & E4).
  destruct (rows_speed U_2_clamped U_2_clamped [/ 2 ^ 15] []) as (F1 & F2 & F3 & F4). rewrite knot_2 in F1, F2 by lia. rewrite knot_3 in F3, F4 by lia.
  assert (Hu : 0 <= / 2 ^ 15 <= 1) by lra.
  destruct r as [|[|[|r]]]; [| | |lia]; (destruct j as [|[|[|[|j]]]]; [| | | |lia]); rewrite ?E1, ?E2, ?E3, ?E4, ?F1, ?F2, ?F3, ?F4; cbn [con2]; try lra;
    unfold con, gl, gr; cbn [length Nat.ltb Nat.leb Nat.add Nat.sub nth]; try reflexivity; rewrite parabola_basis by (try exact Hu; lia); unfold g0, g1; field.
Qed.
Definition rhs2 (r : nat) : R := if (r =? 1)%nat then 2 else 0.
Lemma rhs2_eq r : (r < 3)%nat -> @crhs 2 2 U_2 P_2 U_2 Q_2 0 r = rhs2 r.
Proof.
  intros Hr. unfold crhs, gap, rhs2. destruct r as [|[|[|r]]]; [| | |lia]; cbn [Nat.ltb Nat.leb Nat.eqb dpoints Nat.sub Nat.add]; try reflexivity.
  - unfold ent, P_2, Q_2. cbn. lra.
  - rewrite (knot_2 1), (knot_2 2), (knot_3 3), (knot_3 4) by lia. rewrite !ratio_nz by lra. unfold ent, P_2, Q_2. cbn. lra.
Qed.

Definition mat2 (t y : nat) : R := bordered 4 con2 (@sg 2) t y.
Definition ker2 (i : nat) : R := match i with 0%nat => (3 * g0 + g1) / 8 | 1%nat => (g0 + g1) / 8 | 2%nat => (g0 + g1) / 8 | 3%nat => (g1 - g0) / 8 | 4%nat => g1 / 2 | 5%nat => (g1 - g0) / 8 | _ => 1 end.
Ltac mat := unfold mat2, bordered, sg, delta; cbn [Nat.ltb Nat.leb Nat.sub Nat.eqb con2].

Theorem lost_constraint svd a b : cutoff_solver (/ 2 ^ 26) svd -> clamped_curve 2 2 1 U_2 P_2 a -> clamped_curve 2 2 1 U_2 Q_2 b ->
  exists c f, merge_with_constraints svd (mkCC a [/ 2 ^ 15]) (mkCC b []) = Val (Ok c) /\ returns (evaluate c (/ 2 ^ 15 / 2)) 1 (fun _ => f) /\ f <= - / 2 ^ 17.
Proof.
  intros CS HA HB. set (eps := / 2 ^ 26) in *. assert (He : 0 <= eps) by (unfold eps; lra).
  destruct (Nmat_R HA HB [/ 2 ^ 15] [] ltac:(lia)) as [N [EN [SN HN]]]. destruct (ConstMat_R HA HB ltac:(lia) 1) as [C [EC [SC HC]]].
  change (3 * 2 + length [/ 2 ^ 15] + length (@nil R))%nat with 7%nat in SN, HN. change (3 * 2 + 1)%nat with 7%nat in SC, HC.
  assert (ST := mtranspose_shape 1 7 C SC).
  assert (EA : forall y t, (y < 7)%nat -> (t < 7)%nat -> ent N y t = mat2 t y).
  { intros y t Hy Ht. rewrite HN by assumption. unfold Nf, mat2, bordered. change (2 * 2)%nat with 4%nat. destruct (Nat.ltb_spec t 4), (Nat.ltb_spec y 4); try reflexivity; rewrite con2_eq by lia; reflexivity. }
  assert (EB : forall t, (t < 7)%nat -> ent (mtranspose C) 0 t = if (t =? 5)%nat then 2 else 0).
  { intros t Ht. rewrite (ent_mtranspose_R 1 7 C 0 t SC) by lia. rewrite HC by lia. change (2 * 2)%nat with 4%nat. change (3 * 2)%nat with 6%nat.
    assert (G0 := rhs2_eq 0 ltac:(lia)). assert (G1 := rhs2_eq 1 ltac:(lia)). unfold crhs, rhs2 in G0, G1. cbn [Nat.ltb Nat.leb Nat.eqb] in G0, G1.
    do 7 (destruct t as [|t]; [cbn [Nat.ltb Nat.leb Nat.eqb andb Nat.sub]; first [reflexivity|exact G0|exact G1]|]). lia. }
  assert (N1 : nrows N = 7%nat) by apply SN. assert (N2 : ncols N = 7%nat) by apply SN. assert (N3 : nrows (mtranspose C) = 7%nat) by apply ST. assert (N4 : ncols (mtranspose C) = 1%nat) by apply ST.
  destruct (CS N (mtranspose C) ltac:(congruence)) as [X [EX TX]]. assert (SX : shape 7 1 X) by (destruct TX as (_ & T & _); rewrite N2, N4 in T; exact T).
  assert (SOL : @solve_linear_equation_system RNum svd (mkCC a [/ 2 ^ 15]) (mkCC b []) = Val (mtranspose X)).
  { unfold solve_linear_equation_system. rn. rewrite EN. cbn [bind cc_curve cc_params length Nat.add]. rewrite EC. cbn [bind]. unfold svd_solve.
    assert (NE : mis_empty N = false) by (unfold mis_empty; rewrite N1, N2; reflexivity). rewrite NE, N1, N3. cbn [Nat.eqb]. rewrite EX. reflexivity. }
  destruct (merge_assembles HA HB [/ 2 ^ 15] [] ltac:(lia) svd (mtranspose X) ltac:(cbn; lia) SOL (mtranspose_shape 7 1 X SX)) as [c [U [Q [E [J [CC [S' [T' [SS [ST' [ES [ET [QS [QT _]]]]]]]]]]]]]].
  destruct (truncated_columns eps N (mtranspose C) X TX) as (k & s & u & v & OU & OV & P & EN' & XX). rewrite N1, N2, N4 in *.
  set (bb := fun t => ent (mtranspose C) 0 t) in *. set (cs := cut_solution 7 k s u v eps bb) in *.
  assert (XC : forall i, (i < 7)%nat -> cs i = ent X 0 i) by (intros i Hi; rewrite XX by lia; reflexivity).
  set (e := fun t => bb t - image 7 (ent N) cs t).
  assert (BB : ip 7 bb bb = 4) by (unfold ip, bb; cbn [rsum]; rewrite !EB by lia; cbn [Nat.eqb]; ring).
  assert (IM : forall x t, (t < 7)%nat -> image 7 (ent N) x t = rsum (fun y => mat2 t y * x y) 7) by (intros x t Ht; unfold image, comb; apply rsum_ext; intros y Hy; rewrite EA by lia; reflexivity).
  assert (LO : forall i, (i < 7)%nat -> - (1 / 1000000) <= rsum (fun t => mat2 t i * e t) 7 <= 1 / 1000000).
  { intros i Hi. assert (T := left_over 7 7 k (ent N) s u v eps OU OV P EN' He bb i Hi). fold cs in T. change (fun t => bb t - image 7 (ent N) cs t) with e in T. rewrite BB in T.
    replace (ip 7 (ent N i) e) with (rsum (fun t => mat2 t i * e t) 7) in T by (unfold ip; apply rsum_ext; intros t Ht; rewrite EA by lia; reflexivity).
    apply abs_sq; [lra|]. eapply Rle_trans; [exact T|]. unfold eps. lra. }
  assert (E6 : -2 <= e 6%nat <= 2).
  { apply abs_sq; [lra|]. assert (T := cut_residual 7 7 k (ent N) s u v eps OU OV EN' He bb). fold cs in T. rewrite BB in T.
    apply Rle_trans with (ip 7 (fun t => image 7 (ent N) cs t - bb t) (fun t => image 7 (ent N) cs t - bb t)); [|lra].
    replace (e 6%nat ^ 2) with ((image 7 (ent N) cs 6 - bb 6%nat) * (image 7 (ent N) cs 6 - bb 6%nat)) by (unfold e; ring).
    unfold ip. apply (rsum_ge_one (fun t => (image 7 (ent N) cs t - bb t) * (image 7 (ent N) cs t - bb t)) 7 6 ltac:(lia)). intros j _. apply Rle_0_sqr. }
  assert (NK := near_kernel 7 7 k (ent N) s u v eps OU OV P EN' He bb ker2). fold cs in NK.
  replace (ip 7 (image 7 (ent N) ker2) (image 7 (ent N) ker2)) with (h01 ^ 2) in NK.
  2:{ unfold ip. cbn [rsum]. rewrite !IM by lia. cbn [rsum]. mat. cbn [ker2]. unfold h01. field. }
  assert (RE : forall t, (t < 7)%nat -> rsum (fun y => mat2 t y * cs y) 7 + e t = if (t =? 5)%nat then 2 else 0) by (intros t Ht; transitivity (bb t); [unfold e; rewrite IM by exact Ht; cbn [T RNum]; ring|exact (EB t Ht)]).
  assert (X5 : cs 0%nat <= - (1 / 5) /\ cs 0%nat + 1 + cs 3%nat <= 2).
  { apply (numbers (cs 0%nat) (cs 1%nat) (cs 2%nat) (cs 3%nat) (cs 4%nat) (cs 5%nat) (cs 6%nat) (e 0%nat) (e 1%nat) (e 2%nat) (e 3%nat) (e 4%nat) (e 5%nat) (e 6%nat) (ip 7 cs cs) (ip 7 cs ker2)).
    - assert (T := RE 0%nat ltac:(lia)). revert T. cbn [rsum]. mat. intros T. lra.
    - assert (T := RE 1%nat ltac:(lia)). revert T. cbn [rsum]. mat. intros T. lra.
    - assert (T := RE 2%nat ltac:(lia)). revert T. cbn [rsum]. mat. intros T. lra.
    - assert (T := RE 3%nat ltac:(lia)). revert T. cbn [rsum]. mat. intros T. lra.
    - assert (T := RE 4%nat ltac:(lia)). revert T. cbn [rsum]. mat. intros T. lra.
    - assert (T := RE 5%nat ltac:(lia)). revert T. cbn [rsum]. mat. intros T. lra.
    - assert (T := LO 0%nat ltac:(lia)). revert T. cbn [rsum]. mat. intros T. lra.
    - assert (T := LO 1%nat ltac:(lia)). revert T. cbn [rsum]. mat. intros T. lra.
    - assert (T := LO 2%nat ltac:(lia)). revert T. cbn [rsum]. mat. intros T. lra.
    - assert (T := LO 3%nat ltac:(lia)). revert T. cbn [rsum]. mat. intros T. lra.
    - assert (T := LO 4%nat ltac:(lia)). revert T. cbn [rsum]. mat. intros T. lra.
    - assert (T := LO 5%nat ltac:(lia)). revert T. cbn [rsum]. mat. intros T. lra.
    - exact E6.
    - unfold ip. cbn [rsum]. ring.
    - unfold ip. cbn [rsum ker2]. ring.
    - exact NK. }
  exists c. assert (Hu : 0 <= / 2 ^ 15 <= 1) by lra.
  assert (EX' : forall j, (j < 7)%nat -> ent (mtranspose X) j 0 = cs j) by (intros j Hj; rewrite XC by exact Hj; apply (ent_mtranspose_R 7 1 X j 0 SX); lia).
  assert (Q0 : ent Q 0 0 = 0) by (rewrite QS by lia; rewrite ES by lia; cbn [Nat.ltb Nat.leb Nat.sub Nat.add]; unfold P_2, ent; cbn; lra).
  assert (Q1 : ent Q 1 0 = cs 0%nat) by (rewrite QS by lia; rewrite ES by lia; cbn [Nat.ltb Nat.leb Nat.sub Nat.add]; rewrite EX' by lia; unfold P_2, ent; cbn; lra).
  assert (Q2 : ent Q 2 0 = 1 + cs 3%nat) by (assert (T := QT 1%nat 0%nat ltac:(lia) ltac:(lia)); cbn [Nat.sub Nat.add] in T; rewrite T, ET by lia; cbn [Nat.ltb Nat.leb Nat.sub Nat.add]; rewrite EX' by lia; unfold Q_2, ent; cbn; lra).
  set (mid := (ent Q 1 0 + ent Q 2 0) / 2).
  set (SL := fun i => match i with 0%nat => ent Q 0 0 | 1%nat => ent Q 1 0 | _ => mid end). set (TR := fun i => match i with 0%nat => mid | 1%nat => ent Q 2 0 | _ => ent Q 3 0 end).
  assert (ML := merged_left 2 2 2 U_2 U_2 U U_2_clamped U_2_clamped J (proj1 CC) SL TR (fun i => ent Q i 0)).
  exists ((1 - / 2 ^ 15) ^ 2 * SL 0%nat + 2 * / 2 ^ 15 * (1 - / 2 ^ 15) * SL 1%nat + (/ 2 ^ 15) ^ 2 * SL 2%nat). split; [exact E|]. split.
  - eapply returns_ext; [apply (cc_eval0 _ _ _ _ _ _ (/ 2 ^ 15 / 2) CC); lra|]. intros d Hd. replace d with 0%nat by lia. cbv beta. rewrite <- parabola by exact Hu. apply ML.
    + intros i Hi Hi'. destruct i as [|[|i]]; [reflexivity|reflexivity|lia].
    + intros j Hj. destruct j as [|[|[|j]]]; [lia|reflexivity|reflexivity|lia].
    + intros k' Hk. destruct k' as [|[|k']]; [reflexivity| |lia]. cbn [dpoints Nat.sub Nat.add]. rewrite (knot_2 1), (knot_2 2), (knot_3 3), (knot_3 4) by lia. rewrite !ratio_nz by lra. cbn [SL TR]. unfold mid. field.
    + right. reflexivity.
    + exact Hu.
  - cbn [SL]. unfold mid. rewrite Q0, Q1, Q2. lra.
Qed.

Theorem constraints_lost : ~ forall svd m dim V P a W Q b pa pb, cutoff_solver (/ 2 ^ 26) svd -> clamped_curve 2 m dim V P a -> clamped_curve 2 m dim W Q b ->
  (length pa + length pb < 2)%nat -> (forall u, In u pa -> 0 <= u <= 1) -> (forall u, In u pb -> 0 <= u <= 1) ->
  exists c, merge_with_constraints svd (mkCC a pa) (mkCC b pb) = Val (Ok c) /\
    (forall u, In u pa -> agree dim 0 c (u / 2) a u) /\ (forall u, In u pb -> agree dim 0 c ((1 + u) / 2) b u).
Proof.
  intros H. destruct (clamped_curve_ex 2 2 1 U_2 P_2 U_2_clamped P_2_shape) as [a HA]. destruct (clamped_curve_ex 2 2 1 U_2 Q_2 U_2_clamped Q_2_shape) as [b HB].
  assert (CS := some_cutoff_solver (/ 2 ^ 26)). assert (Hu : 0 <= / 2 ^ 15 <= 1) by lra.
  destruct (H _ 2%nat 1%nat U_2 P_2 a U_2 Q_2 b [/ 2 ^ 15] [] CS HA HB ltac:(cbn; lia) ltac:(intros u [<- | []]; exact Hu) ltac:(intros u [])) as (c & E & A & _).
  destruct (lost_constraint _ a b CS HA HB) as (c' & f & E' & R1 & L). assert (E2 := eq_trans (eq_sym E) E'). injection E2 as <-.
  destruct (A _ (or_introl eq_refl)) as (g & G1 & G2). assert (G := returns_unique _ 1 _ _ 0 G2 (cc_eval _ _ _ _ _ _ (/ 2 ^ 15) 0 HA Hu ltac:(lia)) ltac:(lia)). cbv beta in G. rewrite dspline_0, parabola in G by exact Hu.
  assert (F := returns_unique _ 1 _ _ 0 R1 G1 ltac:(lia)). cbv beta in F. rewrite F, G in L. unfold ent, P_2 in L. cbn [mcols nth] in L. revert L. cbn. lra.
Qed.

Lemma pull_middle : pull_last 2 2 U_2 (1 / 2) (3 / 4) /\ pull_first 2 2 U_2 (1 / 2) (3 / 4).
Proof.
  split.
  - set (P := mkMat 1 [[0]; [1]; [1]] : Mat RNum). destruct (clamped_curve_ex 2 2 1 U_2 P U_2_clamped) as [h H]; [split; [reflexivity|]; split; [reflexivity|]; intros j Hj; cases j|].
    exists P, h. split; [exact H|]. split; [intros [|[|[|j]]] Hj; [reflexivity | reflexivity | reflexivity | lia]|]. eapply returns_ext; [apply (cc_eval0 _ _ _ _ _ _ (1 / 2) H); lra|]. intros d Hd. replace d with 0%nat by lia. cbv beta. rewrite parabola by lra. unfold ent, P. cbn. lra.
  - set (P := mkMat 1 [[1]; [1]; [0]] : Mat RNum). destruct (clamped_curve_ex 2 2 1 U_2 P U_2_clamped) as [h H]; [split; [reflexivity|]; split; [reflexivity|]; intros j Hj; cases j|].
    exists P, h. split; [exact H|]. split; [intros [|[|[|j]]] Hj; [reflexivity | reflexivity | reflexivity | lia]|]. eapply returns_ext; [apply (cc_eval0 _ _ _ _ _ _ (1 / 2) H); lra|]. intros d Hd. replace d with 0%nat by lia. cbv beta. rewrite parabola by lra. unfold ent, P. cbn. lra.
Qed.
