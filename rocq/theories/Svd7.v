(** * Merging with a solver that drops small singular values *)

From Coq Require Import ZArith Reals List Bool Arith Lia Lra.
From Verif Require Import Num Vec MKnots MPoints MCurve MFit MMerge RNum Hoare Lists Struct Spec BMath BMath2 BMath3 Api ApiV Bridge Facts1 Gen3 LinAlg Fit1 Fit3 Fit4 Merge1 Merge2 Merge3 Merge4 Merge5 Merge6 Merge7 Merge8 Merge9 Merge10 Svd1 Svd2 Svd3.
Import ListNotations.
Local Open Scope R_scope.

(** ** a bordered system has no small singular value if its constraints are independent enough *)
Section Lower.
  Variables (n q : nat) (con : nat -> nat -> R) (sg : nat -> R) (l : R).
  Hypothesis (Hsg : forall r, sg r ^ 2 = / 4) (Hl : 1 <= l).
  Hypothesis HL : forall v, ip q v v <= l * ip n (fun j => rsum (fun r => con r j * v r) q) (fun j => rsum (fun r => con r j * v r) q).

  Lemma young len (x y : nat -> R) t : 0 < t -> ip len x y <= t * ip len x x + / (4 * t) * ip len y y.
  Proof.
    intros Ht. assert (H : 0 <= rsum (fun i => (t * x i - / 2 * y i) ^ 2) len) by (apply rsum_nonneg; intros; apply pow2_ge_0).
    rewrite (rsum_ext _ (fun i => t ^ 2 * (x i * x i) + (- t * (x i * y i) + / 4 * (y i * y i)))) in H by (intros; field).
    rewrite !rsum_plus, !rsum_scal in H. unfold ip. apply Rmult_le_reg_l with t; [exact Ht|].
    replace (t * (t * rsum (fun i => x i * x i) len + / (4 * t) * rsum (fun i => y i * y i) len)) with (t ^ 2 * rsum (fun i => x i * x i) len + / 4 * rsum (fun i => y i * y i) len) by (field; lra). lra.
  Qed.

  Lemma bordered_large eps s x y : 0 <= eps -> eps * (4 * l) < 1 -> 0 <= s -> ip (n + q) x x = 1 -> ip (n + q) y y = 1 ->
    (forall t, (t < n + q)%nat -> rsum (fun i => bordered n con sg t i * x i) (n + q) = s * y t) -> eps < s.
  Proof using Hsg Hl HL.
    intros He HE Hs X1 Y1 E.
    set (v := fun r => sg r * x (n + r)%nat). set (w := fun j => rsum (fun r => con r j * v r) q).
    assert (T : forall j, (j < n)%nat -> x j + w j = s * y j) by (intros j Hj; rewrite <- E by lia; rewrite bordered_top by exact Hj; reflexivity).
    assert (B : forall r, (r < q)%nat -> rsum (fun j => con r j * x j) n = s * y (n + r)%nat) by (intros r Hr; rewrite <- E by lia; rewrite bordered_bottom; reflexivity).
    unfold ip in X1, Y1. rewrite rsum_add in X1, Y1. fold (ip n x x) in X1. fold (ip n y y) in Y1. fold (ip q (fun r => y (n + r)%nat) (fun r => y (n + r)%nat)) in Y1.
    set (yy := ip n y y) in *. set (zz := ip q (fun r => y (n + r)%nat) (fun r => y (n + r)%nat)) in *.
    assert (MU : rsum (fun r => x (n + r)%nat * x (n + r)%nat) q = 4 * ip q v v).
    { unfold ip. rewrite <- rsum_scal. apply rsum_ext. intros r _. unfold v. replace (4 * (sg r * x (n + r)%nat * (sg r * x (n + r)%nat))) with (4 * sg r ^ 2 * (x (n + r)%nat * x (n + r)%nat)) by ring. rewrite Hsg. field. }
    assert (XW : ip n x w = s * ip q (fun r => y (n + r)%nat) v).
    { unfold ip, w. rewrite <- rsum_scal. rewrite (rsum_ext _ (fun j => rsum (fun r => con r j * x j * v r) q)) by (intros j _; rewrite <- rsum_scal; apply rsum_ext; intros; ring).
      rewrite rsum_swap. apply rsum_ext. intros r Hr. rewrite <- Rmult_assoc, <- (B r Hr). rewrite Rmult_comm, <- rsum_scal. apply rsum_ext. intros; ring. }
    assert (WW : ip n w w = s * ip n y w - ip n x w).
    { unfold ip. rewrite <- rsum_scal. unfold Rminus. replace (- rsum (fun t => x t * w t) n) with (-1 * rsum (fun t => x t * w t) n) by ring. rewrite <- rsum_scal, <- rsum_plus. apply rsum_ext. intros j Hj. replace (w j) with (s * y j - x j) at 1 by (rewrite <- T by exact Hj; ring). ring. }
    assert (VW := HL v). fold w in VW.
    assert (WP : 0 <= ip n w w) by (apply rsum_nonneg; intros; nra). assert (VP : 0 <= ip q v v) by (apply rsum_nonneg; intros; nra).
    assert (YP : 0 <= yy) by (apply rsum_nonneg; intros; nra). assert (ZP : 0 <= zz) by (apply rsum_nonneg; intros; nra).
    assert (Q1 : s * ip n y w <= s ^ 2 * yy + / 4 * ip n w w).
    { assert (T1 := young n (fun i => s * y i) w 1 ltac:(lra)). rewrite ip_scal in T1.
      replace (ip n (fun i => s * y i) (fun t => s * y t)) with (s ^ 2 * yy) in T1 by (unfold yy, ip; rewrite <- rsum_scal; apply rsum_ext; intros; ring). lra. }
    assert (Q2 : - (s * ip q (fun r => y (n + r)%nat) v) <= l * s ^ 2 * zz + / 4 * ip n w w).
    { assert (T1 := young q (fun r => - s * y (n + r)%nat) v l ltac:(lra)). rewrite ip_scal in T1.
      replace (ip q (fun r => - s * y (n + r)%nat) (fun t => - s * y (n + t)%nat)) with (s ^ 2 * zz) in T1 by (unfold zz, ip; rewrite <- rsum_scal; apply rsum_ext; intros; ring).
      apply Rle_trans with (l * (s ^ 2 * zz) + / (4 * l) * ip q v v); [lra|]. assert (/ (4 * l) * ip q v v <= / 4 * ip n w w); [|lra].
      apply Rle_trans with (/ (4 * l) * (l * ip n w w)); [apply Rmult_le_compat_l; [apply Rlt_le, Rinv_0_lt_compat; lra|exact VW]|]. apply Req_le. field. lra. }
    assert (S2 : 0 <= s ^ 2) by apply pow2_ge_0.
    assert (W2 : ip n w w <= 2 * (l * s ^ 2)).
    { assert (s ^ 2 * yy + l * s ^ 2 * zz <= l * s ^ 2); [|lra]. replace (s ^ 2 * yy + l * s ^ 2 * zz) with (l * s ^ 2 * (yy + zz) - (l - 1) * (s ^ 2 * yy)) by ring. rewrite Y1.
      assert (0 <= (l - 1) * (s ^ 2 * yy)) by (apply Rmult_le_pos; [lra|apply Rmult_le_pos; assumption]). lra. }
    assert (X2 : ip n x x <= 2 * (s ^ 2 * yy) + 2 * ip n w w).
    { unfold yy, ip. rewrite <- !rsum_scal, <- rsum_plus. apply rsum_le. intros j Hj. replace (x j) with (s * y j - w j) by (rewrite <- T by exact Hj; ring). assert (0 <= (s * y j + w j) ^ 2) by apply pow2_ge_0. nra. }
    rewrite MU in X1. apply Rnot_le_lt. intros LE.
    assert (SE : s ^ 2 <= eps ^ 2) by nra. assert (L2 : l * s ^ 2 <= l * l * s ^ 2) by nra.
    assert (SY : s ^ 2 * yy <= s ^ 2) by nra. assert (LS : s ^ 2 <= l * l * s ^ 2) by nra.
    assert (V2 : ip q v v <= 2 * (l * l * s ^ 2)) by nra.
    assert (14 * (l * l * s ^ 2) >= 1) by lra. assert (l * l * s ^ 2 <= l * l * eps ^ 2) by (apply Rmult_le_compat_l; nra).
    assert (0 <= eps * (4 * l)) by nra. assert ((eps * (4 * l)) ^ 2 < 1) by nra. lra.
  Qed.
End Lower.

(** ** the constraints of a merge of degree one or two *)
Section Rows.
  Context {m o : nat} {V W : list R} (CV : clamped 2 m V) (CW : clamped 2 o W) (pa pb : list R).
  Notation con := (@con 2 m V o W pa pb).
  Notation A := (2 / (1 - kfun V m)).
  Notation B := (2 / kfun W 3).

  Lemma last_speed : 2 <= A.
  Proof using CV.
    assert (F := kfun_clamped 2 m V CV). assert (D := cl_deg _ _ _ CV). assert (H : 0 <= kfun V m < 1).
    { destruct (Nat.eq_dec m 2) as [-> | N]; [rewrite (fc_zero _ _ _ F) by lia; lra|]. assert (T := fc_inner _ _ _ F m ltac:(lia)). lra. }
    apply Rmult_le_reg_r with (1 - kfun V m); [lra|]. unfold Rdiv. rewrite Rmult_assoc, Rinv_l by lra. lra.
  Qed.
  Lemma first_speed : 2 <= B.
  Proof using CW.
    assert (F := kfun_clamped 2 o W CW). assert (D := cl_deg _ _ _ CW). assert (H : 0 < kfun W 3 <= 1).
    { destruct (Nat.eq_dec o 2) as [-> | N]; [rewrite (fc_one _ _ _ F) by lia; lra|]. assert (T := fc_inner _ _ _ F 3 ltac:(lia)). lra. }
    apply Rmult_le_reg_r with (kfun W 3); [lra|]. unfold Rdiv. rewrite Rmult_assoc, Rinv_l by lra. lra.
  Qed.
  Lemma rows_meet : con 0 0 = 0 /\ con 0 1 = 1 /\ con 0 2 = -1 /\ con 0 3 = 0.
  Proof using CV.
    assert (D := cl_deg _ _ _ CV). unfold Merge4.con, lc, rc. cbn [Nat.ltb Nat.leb dpoints Nat.sub]. rewrite !Nat.sub_0_r. unfold delta.
    replace (m + 1 - 2 + 0)%nat with (m - 1)%nat by lia. replace (m + 1 - 2 + 1)%nat with m by lia. rewrite Nat.eqb_refl.
    replace (m =? m - 1)%nat with false by (symmetry; apply Nat.eqb_neq; lia). cbn [Nat.eqb]. repeat split; lra.
  Qed.
  Lemma rows_speed : con 1 0 = - A /\ con 1 1 = A /\ con 1 2 = B /\ con 1 3 = - B.
  Proof using CV CW.
    assert (D := cl_deg _ _ _ CV). assert (F := kfun_clamped 2 m V CV). assert (G := kfun_clamped 2 o W CW).
    assert (HA := last_speed). assert (HB := first_speed).
    assert (NA : 1 - kfun V m <> 0). { intros Z. unfold Rdiv in HA. rewrite Z, Rinv_0 in HA. lra. }
    assert (NB : kfun W 3 <> 0). { intros Z. unfold Rdiv in HB. rewrite Z, Rinv_0 in HB. lra. }
    unfold Merge4.con, lc, rc. cbn [Nat.ltb Nat.leb dpoints Nat.sub Nat.add]. unfold delta.
    replace (m + 1 - 2 + 0)%nat with (m - 1)%nat by lia. replace (m + 1 - 2 + 1)%nat with m by lia. replace (S (m - 1)) with m by lia. rewrite !Nat.eqb_refl.
    replace (m =? m - 1)%nat with false by (symmetry; apply Nat.eqb_neq; lia). replace (m - 1 =? m)%nat with false by (symmetry; apply Nat.eqb_neq; lia). cbn [Nat.eqb].
    replace (m - 1 + 1)%nat with m by lia. rewrite (fc_one _ _ _ F (m - 1 + 2 + 1)) by lia. rewrite (fc_zero _ _ _ G 1) by lia. replace (kfun W 3 - 0) with (kfun W 3) by ring.
    rewrite !ratio_nz by assumption. cbn [INR]. repeat split; field; assumption.
  Qed.
  Lemma rows_bound0 v : ip 2 v v <= 9 / 4 * ip 4 (fun j => rsum (fun r => con r j * v r) 2) (fun j => rsum (fun r => con r j * v r) 2).
  Proof using CV CW.
    destruct rows_meet as (E1 & E2 & E3 & E4). destruct rows_speed as (F1 & F2 & F3 & F4). unfold ip. cbn [rsum]. rewrite E1, E2, E3, E4, F1, F2, F3, F4.
    assert (HA := last_speed). assert (HB := first_speed). generalize (v 0%nat) (v 1%nat). intros x y. set (a := A) in *. set (b := B) in *. clearbody a b.
    assert (x * x <= 2 * ((- x + b * y) * (- x + b * y)) + 2 * ((b * y) * (b * y))) by (assert (0 <= (2 * (b * y) - x) ^ 2) by apply pow2_ge_0; nra).
    assert (4 * (y * y) <= (b * y) * (b * y)) by (assert (0 <= (b - 2) * (b + 2) * (y * y)) by (apply Rmult_le_pos; nra); nra).
    assert (0 <= (a * y) * (a * y)) by apply Rle_0_sqr. assert (0 <= (x + a * y) * (x + a * y)) by apply Rle_0_sqr. assert (0 <= (- x + b * y) * (- x + b * y)) by apply Rle_0_sqr. nra.
  Qed.

  Lemma sum4 a b c d : (a + b + c + d) ^ 2 <= 4 * (0 + a * a + b * b + c * c + d * d).
  Proof using. assert (0 <= (a - b) ^ 2 + (a - c) ^ 2 + (a - d) ^ 2 + (b - c) ^ 2 + (b - d) ^ 2 + (c - d) ^ 2) by (repeat apply Rplus_le_le_0_compat; apply pow2_ge_0). nra. Qed.
  Lemma three_bound g N x y z : 0 <= N -> g <> 0 -> x * x <= 2 * N -> y * y <= / 4 * N -> (g * z) ^ 2 <= 4 * N -> 0 + x * x + y * y + z * z <= (9 / 4 + 4 / g ^ 2) * N.
  Proof using.
    intros HN Hg X Y Z. assert (G : 0 < g ^ 2) by nra. assert (z * z <= 4 / g ^ 2 * N); [|lra]. apply Rmult_le_reg_l with (g ^ 2); [exact G|].
    replace (g ^ 2 * (4 / g ^ 2 * N)) with (4 * N) by (field; lra). replace (g ^ 2 * (z * z)) with ((g * z) ^ 2) by ring. exact Z.
  Qed.
  Lemma rows_bound_left v u g : pa = [u] -> pb = [] -> g = bspline (kfun V) m 2 (m - 1) u + bspline (kfun V) m 2 m u -> g <> 0 ->
    ip 3 v v <= (9 / 4 + 4 / g ^ 2) * ip 4 (fun j => rsum (fun r => con r j * v r) 3) (fun j => rsum (fun r => con r j * v r) 3).
  Proof using CV CW.
    intros Ea Eb Eg Hg. destruct rows_meet as (E1 & E2 & E3 & E4). destruct rows_speed as (F1 & F2 & F3 & F4). assert (D := cl_deg _ _ _ CV).
    assert (G : con 2 0 = bspline (kfun V) m 2 (m - 1) u /\ con 2 1 = bspline (kfun V) m 2 m u /\ con 2 2 = 0 /\ con 2 3 = 0).
    { rewrite Ea, Eb. unfold Merge4.con, gl. cbn [length Nat.ltb Nat.leb Nat.add Nat.sub nth]. replace (m + 1 - 2 + 0)%nat with (m - 1)%nat by lia. replace (m + 1 - 2 + 1)%nat with m by lia. repeat split. }
    destruct G as (G1 & G2 & G3 & G4). unfold ip. cbn [rsum]. rewrite E1, E2, E3, E4, F1, F2, F3, F4, G1, G2, G3, G4.
    assert (HA := last_speed). assert (HB := first_speed). set (g0 := bspline _ _ _ _ _) in *. set (g1 := bspline _ _ _ m _) in *. clearbody g0 g1.
    generalize (v 0%nat) (v 1%nat) (v 2%nat). intros x y z. set (a := A) in *. set (b := B) in *. clearbody a b.
    set (w1 := 0 + 0 * x + - a * y + g0 * z). set (w2 := 0 + 1 * x + a * y + g1 * z). set (w3 := 0 + -1 * x + b * y + 0 * z). set (w4 := 0 + 0 * x + - b * y + 0 * z).
    assert (T := sum4 w1 w2 w3 w4). set (N := 0 + w1 * w1 + w2 * w2 + w3 * w3 + w4 * w4) in *. assert (N1 := Rle_0_sqr w1). assert (N2 := Rle_0_sqr w2). assert (N3 := Rle_0_sqr w3). assert (N4 := Rle_0_sqr w4). unfold Rsqr in *.
    apply (three_bound g); [unfold N; lra|exact Hg| | |].
    - assert (Q : x = - w3 - w4) by (unfold w3, w4; ring). rewrite Q. assert (0 <= (w3 - w4) ^ 2) by apply pow2_ge_0. unfold N. nra.
    - assert (Q : 4 * (y * y) <= w4 * w4). { unfold w4. assert (0 <= (b - 2) * (b + 2) * (y * y)) by (apply Rmult_le_pos; nra). nra. } unfold N. lra.
    - replace (g * z) with (w1 + w2 + w3 + w4) by (rewrite Eg; unfold w1, w2, w3, w4; ring). exact T.
  Qed.
  Lemma rows_bound_right v u g : pa = [] -> pb = [u] -> g = bspline (kfun W) o 2 0 u + bspline (kfun W) o 2 1 u -> g <> 0 ->
    ip 3 v v <= (9 / 4 + 4 / g ^ 2) * ip 4 (fun j => rsum (fun r => con r j * v r) 3) (fun j => rsum (fun r => con r j * v r) 3).
  Proof using CV CW.
    intros Ea Eb Eg Hg. destruct rows_meet as (E1 & E2 & E3 & E4). destruct rows_speed as (F1 & F2 & F3 & F4). assert (D := cl_deg _ _ _ CV).
    assert (G : con 2 0 = 0 /\ con 2 1 = 0 /\ con 2 2 = bspline (kfun W) o 2 0 u /\ con 2 3 = bspline (kfun W) o 2 1 u).
    { rewrite Ea, Eb. unfold Merge4.con, gr. cbn [length Nat.ltb Nat.leb Nat.add Nat.sub nth]. repeat split. }
    destruct G as (G1 & G2 & G3 & G4). unfold ip. cbn [rsum]. rewrite E1, E2, E3, E4, F1, F2, F3, F4, G1, G2, G3, G4.
    assert (HA := last_speed). assert (HB := first_speed). set (g0 := bspline _ _ _ 0 _) in *. set (g1 := bspline _ _ _ 1 _) in *. clearbody g0 g1.
    generalize (v 0%nat) (v 1%nat) (v 2%nat). intros x y z. set (a := A) in *. set (b := B) in *. clearbody a b.
    set (w1 := 0 + 0 * x + - a * y + 0 * z). set (w2 := 0 + 1 * x + a * y + 0 * z). set (w3 := 0 + -1 * x + b * y + g0 * z). set (w4 := 0 + 0 * x + - b * y + g1 * z).
    assert (T := sum4 w1 w2 w3 w4). set (N := 0 + w1 * w1 + w2 * w2 + w3 * w3 + w4 * w4) in *. assert (N1 := Rle_0_sqr w1). assert (N2 := Rle_0_sqr w2). assert (N3 := Rle_0_sqr w3). assert (N4 := Rle_0_sqr w4). unfold Rsqr in *.
    apply (three_bound g); [unfold N; lra|exact Hg| | |].
    - assert (Q : x = w1 + w2) by (unfold w1, w2; ring). rewrite Q. assert (0 <= (w1 - w2) ^ 2) by apply pow2_ge_0. unfold N. nra.
    - assert (Q : 4 * (y * y) <= w1 * w1). { unfold w1. assert (0 <= (a - 2) * (a + 2) * (y * y)) by (apply Rmult_le_pos; nra). nra. } unfold N. lra.
    - replace (g * z) with (w1 + w2 + w3 + w4) by (rewrite Eg; unfold w1, w2, w3, w4; ring). exact T.
  Qed.
End Rows.

Lemma rows_bound_one m o V W v : clamped 1 m V -> clamped 1 o W -> ip 1 v v <= 1 * ip 2 (fun j => rsum (fun r => @con 1 m V o W [] [] r j * v r) 1) (fun j => rsum (fun r => @con 1 m V o W [] [] r j * v r) 1).
Proof.
  intros CV CW. assert (D := cl_deg _ _ _ CV). unfold ip. cbn [rsum]. unfold con, lc, rc. cbn [Nat.ltb Nat.leb dpoints Nat.sub Nat.add]. unfold delta.
  replace (m + 1 - 1 + 0)%nat with m by lia. rewrite Nat.sub_0_r, Nat.eqb_refl. cbn [Nat.eqb]. generalize (v 0%nat). intros x. nra.
Qed.
