(** * Knot insertion in binary64 *)

From Coq Require Import ZArith Reals List Bool Arith Lia Lra Psatz Permutation.
From Flocq Require Import Core.Core IEEE754.BinarySingleNaN.
From Verif Require Import Num Vec MKnots MPoints MCurve RNum F64 Lists Hoare Struct Divisions Spec BMath BMath2 BMath3 BMath4 Api ApiF Bridge Facts1 Facts4 Facts5 Facts6 Float1 Float2 Float3 Float4 Float5 Float7.
Import ListNotations.
Local Open Scope R_scope.

Lemma eta_eps M : pow2 (-1000) <= M -> 100 * eta <= eps * M.
Proof.
  intros H. apply Rle_trans with (eps * pow2 (-1000)); [|apply Rmult_le_compat_l; [apply Rlt_le, eps_pos|exact H]].
  unfold eta, eps. apply Rle_trans with (pow2 7 * pow2 (-1075)).
  - apply Rmult_le_compat_r; [apply bpow_ge_0|]. simpl. lra.
  - rewrite <- !bpow_plus. apply bpow_le. lia.
Qed.

Lemma eta_eps1 : 100 * eta <= eps.
Proof. assert (T := eta_eps 1). rewrite Rmult_1_r in T. apply T. change 1 with (pow2 0). apply bpow_le. lia. Qed.

Lemma mul_err a b M e A B : Rabs (a - A) <= e -> Rabs b <= M -> B = b -> Rabs (a * b - A * B) <= e * M.
Proof.
  intros H1 H2 ->. replace (a * b - A * b) with ((a - A) * b) by ring. rewrite Rabs_mult.
  apply Rmult_le_compat; try apply Rabs_pos; assumption.
Qed.

(** rounding a product of a factor of size at most 2 and a coordinate *)
Lemma prod_rnd (w a : f64) W M : fin w = true -> fin a = true -> Rabs (val w) <= W -> 0 <= W <= 2 -> Rabs (val a) <= M -> M <= pow2 1020 ->
  fin (Bmult mode_NE w a) = true /\ Rabs (val (Bmult mode_NE w a) - val w * val a) <= W * M * eps + eta.
Proof.
  intros Fw Fa Hw HW Ha HM. assert (M0 : 0 <= M) by (apply Rle_trans with (2 := Ha); apply Rabs_pos).
  assert (B : Rabs (val w * val a) <= W * M) by (rewrite Rabs_mult; apply Rmult_le_compat; try apply Rabs_pos; assumption).
  assert (B1 : W * M <= pow2 1021).
  { change (pow2 1021) with (pow2 (1 + 1020)). rewrite bpow_plus. change (pow2 1) with 2. apply Rmult_le_compat; lra. }
  destruct (mul_ok w a 1021 ltac:(lia) Fw Fa ltac:(lra)) as [F E]. split; [exact F|]. rewrite E.
  destruct (rnd_any (val w * val a)) as [g [t [Hg [Ht ->]]]]. destruct (factor_abs g Hg) as [G1 _]. unfold kap in G1.
  replace (val w * val a * g + t - val w * val a) with (val w * val a * (g - 1) + t) by ring.
  apply Rle_trans with (1 := Rabs_triang _ _). rewrite Rabs_mult.
  assert (Rabs (val w * val a) * Rabs (g - 1) <= W * M * eps) by (apply Rmult_le_compat; try apply Rabs_pos; lra). lra.
Qed.

(** one new coordinate *)
Lemma comb_ok (al a b : f64) alpha M : fin al = true -> near 3 eta (val al) alpha -> 0 <= alpha <= 1 ->
  fin a = true -> fin b = true -> Rabs (val a) <= M -> Rabs (val b) <= M -> pow2 (-1000) <= M <= pow2 1020 ->
  let r := Bplus mode_NE (@n0 F64) (Bplus mode_NE (Bmult mode_NE (Bminus mode_NE (@n1 F64) al) a) (Bmult mode_NE al b)) in
  fin r = true /\ Rabs (val r - ((1 - alpha) * val a + alpha * val b)) <= 10 * eps * M.
Proof.
  intros Fal Nal Ha01 Fa Fb Ba Bb HM r.
  assert (Ep := eps_pos). assert (Ev := eps_val). assert (Et := eta_pos). assert (E1 := eta_eps1). assert (E2 := eta_eps M (proj1 HM)).
  assert (M0 : 0 < M) by (apply Rlt_le_trans with (2 := proj1 HM); apply bpow_gt_0).
  assert (Es : eps <= / 1000000) by (rewrite Ev; lra).
  assert (A1 : Rabs (val al - alpha) <= 31 / 10 * eps).
  { apply Rle_trans with (1 := near_abs _ _ _ _ (proj1 Ha01) Nal). unfold kap.
    replace ((1 + eps) ^ 3 - 1) with (eps * (3 + 3 * eps + eps * eps)) by ring.
    assert (Q : eps * (3 + 3 * eps + eps * eps) <= 301 / 100 * eps) by (rewrite Rmult_comm; apply Rmult_le_compat_r; [lra|nra]).
    assert (Q0 : 0 <= eps * (3 + 3 * eps + eps * eps)) by (apply Rmult_le_pos; nra).
    assert (alpha * (eps * (3 + 3 * eps + eps * eps)) <= 1 * (301 / 100 * eps)) by (apply Rmult_le_compat; lra). lra. }
  assert (A2 := Rabs_le_inv _ _ A1).
  destruct (sub_ok (@n1 F64) al 1 ltac:(lia) (proj1 n1_ok) Fal) as [F1 V1].
  { rewrite (proj2 n1_ok). change (pow2 1) with 2. apply Rabs_le. lra. }
  rewrite (proj2 n1_ok) in V1. destruct (rnd_minus 1 (val al) fmt_1 (fmt_val _)) as [g [Hg Eg]]. rewrite Eg in V1.
  destruct (factor_abs g Hg) as [G1 _]. unfold kap in G1.
  set (be := Bminus mode_NE (@n1 F64) al) in *.
  assert (B1 : Rabs (val be - (1 - alpha)) <= 42 / 10 * eps).
  { rewrite V1. replace ((1 - val al) * g - (1 - alpha)) with ((1 - val al) * (g - 1) + (alpha - val al)) by ring.
    apply Rle_trans with (1 := Rabs_triang _ _). rewrite Rabs_mult.
    assert (Rabs (1 - val al) <= 11 / 10) by (apply Rabs_le; lra).
    assert (Rabs (1 - val al) * Rabs (g - 1) <= 11 / 10 * eps) by (apply Rmult_le_compat; try apply Rabs_pos; lra).
    rewrite (Rabs_minus_sym alpha). lra. }
  assert (B2 := Rabs_le_inv _ _ B1).
  destruct (prod_rnd be a (1 - alpha + 42 / 10 * eps) M F1 Fa ltac:(apply Rabs_le; lra) ltac:(lra) Ba (proj2 HM)) as [F2 C1].
  destruct (prod_rnd al b (alpha + 31 / 10 * eps) M Fal Fb ltac:(apply Rabs_le; lra) ltac:(lra) Bb (proj2 HM)) as [F3 C2].
  set (m1 := Bmult mode_NE be a) in *. set (m2 := Bmult mode_NE al b) in *.
  assert (D1 := mul_err (val be) (val a) M _ (1 - alpha) (val a) B1 Ba eq_refl).
  assert (D2 := mul_err (val al) (val b) M _ alpha (val b) A1 Bb eq_refl).
  set (ex := (1 - alpha) * val a + alpha * val b).
  assert (X : Rabs ex <= M).
  { unfold ex. apply Rle_trans with (1 := Rabs_triang _ _). rewrite !Rabs_mult, (Rabs_pos_eq (1 - alpha)), (Rabs_pos_eq alpha) by lra.
    assert ((1 - alpha) * Rabs (val a) <= (1 - alpha) * M) by (apply Rmult_le_compat_l; lra).
    assert (alpha * Rabs (val b) <= alpha * M) by (apply Rmult_le_compat_l; lra). lra. }
  assert (EM : 0 < eps * M) by (apply Rmult_lt_0_compat; assumption).
  assert (S1 : Rabs (val m1 + val m2 - ex) <= 85 / 10 * (eps * M)).
  { replace (val m1 + val m2 - ex) with ((val m1 - val be * val a) + (val be * val a - (1 - alpha) * val a)
       + ((val m2 - val al * val b) + (val al * val b - alpha * val b))) by (unfold ex; ring).
    apply Rle_trans with (1 := Rabs_triang _ _).
    assert (T1 := Rabs_triang (val m1 - val be * val a) (val be * val a - (1 - alpha) * val a)).
    assert (T2 := Rabs_triang (val m2 - val al * val b) (val al * val b - alpha * val b)).
    assert (Q : (1 - alpha + 42 / 10 * eps) * M * eps + (alpha + 31 / 10 * eps) * M * eps <= 101 / 100 * (eps * M)).
    { replace ((1 - alpha + 42 / 10 * eps) * M * eps + (alpha + 31 / 10 * eps) * M * eps) with ((1 + 73 / 10 * eps) * (eps * M)) by field.
      apply Rmult_le_compat_r; lra. }
    lra. }
  assert (X1 : Rabs (val m1 + val m2) <= 101 / 100 * M).
  { replace (val m1 + val m2) with (ex + (val m1 + val m2 - ex)) by ring. apply Rle_trans with (1 := Rabs_triang _ _).
    assert (85 / 10 * (eps * M) <= / 100 * M) by (rewrite <- Rmult_assoc; apply Rmult_le_compat_r; lra). lra. }
  destruct (add_ok m1 m2 1021 ltac:(lia) F2 F3) as [F4 V4].
  { apply Rle_trans with (1 := X1). change (pow2 1021) with (pow2 (1 + 1020)). rewrite bpow_plus. change (pow2 1) with 2. lra. }
  destruct (rnd_plus (val m1) (val m2) (fmt_val _) (fmt_val _)) as [h [Hh Eh]]. rewrite Eh in V4.
  destruct (factor_abs h Hh) as [H1 _]. unfold kap in H1.
  destruct (add_exact (@n0 F64) (Bplus mode_NE m1 m2) (Bplus mode_NE m1 m2) (proj1 n0_ok) F4) as [F5 V5]; [rewrite (proj2 n0_ok); ring|].
  split; [exact F5|]. unfold r. rewrite V5, V4. fold ex.
  replace ((val m1 + val m2) * h - ex) with ((val m1 + val m2) * (h - 1) + (val m1 + val m2 - ex)) by ring.
  apply Rle_trans with (1 := Rabs_triang _ _). rewrite Rabs_mult.
  assert (Rabs (val m1 + val m2) * Rabs (h - 1) <= 101 / 100 * M * eps) by (apply Rmult_le_compat; try apply Rabs_pos; lra).
  lra.
Qed.

(** ** Search and multiplicity give the same answers as on the exact knots *)
Lemma nth_val (U : list f64) i : (i < length U)%nat -> nth i (map val U) 0 = val (nth i U (@n0 F64)).
Proof. intros H. rewrite (nth_indep _ 0 (val (@n0 F64))) by (rewrite map_length; exact H). apply map_nth. Qed.

Lemma dcount_F64 p n (U : list f64) (u : f64) : (forall x, In x U -> finite x) -> finite u ->
  @dcount F64 p n U u = @dcount RNum p n (map val U) (val u).
Proof.
  intros Hf Fu. unfold dcount. rn.
  change (@skipn (T F64) p U) with (@skipn f64 p U). rewrite skipn_map, firstn_map.
  assert (Hi : forall x, In x (firstn (n - p + 2) (skipn p U)) -> finite x).
  { intros x Hx. apply Hf. rewrite <- (firstn_skipn p U). apply in_or_app. right.
    rewrite <- (firstn_skipn (n - p + 2) (skipn p U)). apply in_or_app. left. exact Hx. }
  change (@firstn (T F64)) with (@firstn f64). change (@skipn (binary_float 53 1024)) with (@skipn f64). change (@firstn (binary_float 53 1024)) with (@firstn f64).
  induction (firstn (n - p + 2) (skipn p U)) as [|x l IH]; [reflexivity|].
  cbn [filter map]. change (@neqb F64 x u) with (Beqb x u). rewrite eqb_val by (try exact Fu; apply Hi; left; reflexivity).
  unfold Reqb. destruct (Req_bool_spec (val x) (val u)), (Req_EM_T (val x) (val u)); try contradiction; cbn [length]; rewrite IH; try reflexivity; intros y Hy; apply Hi; right; exact Hy.
Qed.

Lemma find_insert_F64 p n (U : list f64) (u : f64) l : float_knots p n U -> finite u -> 0 < val u < 1 -> simple_below (map val U) (val u) ->
  @find_idx F64 (knots_of p U) u 0 CLeftOrEqual = Val l ->
  (p <= l <= n)%nat /\ nth l (map val U) 0 <= val u <= nth (l + 1) (map val U) 0.
Proof.
  intros [Ff [C _]] Fu Hu Hs E. assert (L := cl_len _ _ _ C). assert (L' := L). rewrite map_length in L'. assert (D := cl_deg _ _ _ C).
  change (binary_float 53 1024) with f64 in *.
  assert (F := @find_le_spec F64 False p n 0 U u ltac:(change (T F64) with f64; lia) D ltac:(lia)). rewrite E in F. cbn [ok] in F.
  destruct F as [F1 [F2 [F3 F4]]]. cbn [plus] in *. rewrite !Nat.sub_0_r in *. change (T F64) with f64 in *.
  assert (Fn : forall i, (i < length U)%nat -> finite (nth i U (@n0 F64))) by (intros i Hi; apply Ff, nth_In; exact Hi).
  split; [exact F1|]. rewrite !nth_val by lia.
  assert (G : val (nth l U (@n0 F64)) <= val u).
  { destruct F2 as [->|F2].
    - rewrite <- nth_val by lia. rewrite (cl_zero _ _ _ C) by lia. lra.
    - change (Bleb (nth l U (@n0 F64)) u = true) in F2. rewrite leb_val in F2 by (try exact Fu; apply Fn; lia).
      revert F2. case Rle_bool_spec; [auto|discriminate]. }
  split; [exact G|]. destruct F3 as [F3|[F3|[F3 F5]]].
  - change (Bleb (nth (l + 1) U (@n0 F64)) u = false) in F3. rewrite leb_val in F3 by (try exact Fu; apply Fn; lia).
    revert F3. case Rle_bool_spec; [discriminate|lra].
  - subst l. rewrite <- nth_val by lia. rewrite (cl_one _ _ _ C) by lia. lra.
  - change (Beqb (nth (l + 1) U (@n0 F64)) (nth l U (@n0 F64)) = true) in F5.
    rewrite eqb_val in F5 by (apply Fn; lia). assert (F6 : val (nth (l + 1) U (@n0 F64)) = val (nth l U (@n0 F64))).
    { revert F5. case Req_bool_spec; [auto|discriminate]. }
    destruct (Rle_lt_or_eq_dec _ _ G) as [G'|G']; [exfalso|lra].
    assert (T := run_mult p n (map val U) l (l + 1) C ltac:(split; [lia|]; eapply Nat.lt_le_trans; [|apply Nat.eq_le_incl; symmetry; exact L]; lia) ltac:(rewrite !nth_val by lia; symmetry; exact F6)).
    assert (I := cl_inner _ _ _ C l ltac:(lia) ltac:(lia)). rewrite nth_val in T, I by lia.
    specialize (Hs (val (nth l U (@n0 F64))) ltac:(lra)). replace (l + 1 - l)%nat with 1%nat in T by lia.
    exact (Nat.nle_succ_diag_l 1 (Nat.le_trans _ _ _ T Hs)).
Qed.

Lemma map_insU (U : list f64) l u : map val (insU U l u) = insU (map val U) l (val u).
Proof. unfold insU. rewrite map_app. cbn [map]. rewrite firstn_map, skipn_map. reflexivity. Qed.

Lemma in_insU {A} (U : list A) l u x : In x (insU U l u) -> x = u \/ In x U.
Proof.
  intros H. apply (Permutation_in _ (Permutation_sym (insU_perm U l u))) in H. destruct H as [H|H]; [left; congruence|right; exact H].
Qed.

(** the new knot is no closer than [2^-1000] to a different knot *)
Definition apart (U : list R) (u : R) : Prop := forall y, In y U -> y <> u -> / 2 ^ 1000 <= Rabs (y - u).

Lemma insU_separated (U : list R) l u : separated U -> apart U u -> (l + 1 < length U)%nat -> nth l U 0 <= u <= nth (l + 1) U 0 ->
  separated (insU U l u).
Proof.
  intros S A Hl Hu i Hi Hne. rewrite insU_length in Hi by lia. rewrite !nth_insU in * by lia.
  destruct (Nat.leb_spec i l), (Nat.leb_spec (i + 1) l); try lia.
  - apply S; [lia|exact Hne].
  - assert (i = l) by lia. subst i. rewrite Nat.eqb_refl in *. 
    assert (T := A (nth l U 0) ltac:(apply nth_In; lia) Hne). rewrite Rabs_minus_sym, Rabs_pos_eq in T by lra. exact T.
  - destruct (Nat.eqb_spec i (l + 1)) as [->|Hil].
    + replace (l + 1 + 1 =? l + 1)%nat with false in * by (symmetry; apply Nat.eqb_neq; lia).
      replace (l + 1 + 1 - 1)%nat with (l + 1)%nat in * by lia.
      assert (T := A (nth (l + 1) U 0) ltac:(apply nth_In; lia) ltac:(congruence)). rewrite Rabs_pos_eq in T by lra. exact T.
    + replace (i + 1 =? l + 1)%nat with false in * by (symmetry; apply Nat.eqb_neq; lia).
      replace (i + 1 - 1)%nat with (i - 1 + 1)%nat in * by lia. apply S; [lia|exact Hne].
Qed.

Lemma spline_diff p n U (P Q : nat -> R) t e : fclamped p n U -> 0 <= t <= 1 -> (forall i, (i <= n)%nat -> Rabs (P i - Q i) <= e) ->
  Rabs (spline U n p P t - spline U n p Q t) <= e.
Proof.
  intros C Ht H. unfold spline. rewrite <- rsum_minus. apply Rle_trans with (1 := rsum_abs _ _).
  apply Rle_trans with (rsum (fun i => bspline U n p i t * e) (S n)).
  - apply rsum_le. intros i Hi.
    replace (bspline U n p i t * P i - bspline U n p i t * Q i) with (bspline U n p i t * (P i - Q i)) by ring.
    rewrite Rabs_mult, (Rabs_pos_eq (bspline U n p i t)) by (apply (bspline_nonneg p n U C); lra).
    apply Rmult_le_compat_l; [apply (bspline_nonneg p n U C); lra|apply H; lia].
  - rewrite rsum_scal_r, (bspline_sum p n U C t Ht). lra.
Qed.

Lemma open_F64 (u : f64) : finite u -> 0 < val u < 1 -> ((u : F64) <=? @n0 F64)%num || (@n1 F64 <=? (u : F64))%num = false.
Proof.
  intros Fu Hu. change (Bleb u (@n0 F64) || Bleb (@n1 F64) u = false).
  rewrite !leb_val by (try exact Fu; try apply n0_ok; apply n1_ok). rewrite (proj2 n0_ok), (proj2 n1_ok).
  rewrite !Rle_bool_false by lra. reflexivity.
Qed.

(** the weight of one new point *)
Lemma alpha_ok p n (U : list f64) (u : f64) l i : float_knots p n U -> finite u -> (p <= l <= n)%nat -> (l - p < i <= l)%nat ->
  nth l (map val U) 0 <= val u <= nth (l + 1) (map val U) 0 -> nth i (map val U) 0 < nth (i + p) (map val U) 0 ->
  let al := Bdiv mode_NE (Bminus mode_NE u (nth i U (@n0 F64))) (Bminus mode_NE (nth (i + p) U (@n0 F64)) (nth i U (@n0 F64))) in
  let a := (val u - nth i (map val U) 0) / (nth (i + p) (map val U) 0 - nth i (map val U) 0) in
  fin al = true /\ near 3 eta (val al) a /\ 0 <= a <= 1.
Proof.
  intros [Ff [C Sep]] Fu Hl Hi Hlu Hlt al a. assert (L := cl_len _ _ _ C). assert (L' := L). rewrite map_length in L'. assert (D := cl_deg _ _ _ C).
  change (@length (binary_float 53 1024) U) with (@length f64 U) in L'.
  assert (M1 : nth i (map val U) 0 <= nth l (map val U) 0) by (apply (cl_sorted _ _ _ C); [lia|eapply Nat.lt_le_trans; [|apply Nat.eq_le_incl; symmetry; exact L]; lia]).
  assert (M2 : nth (l + 1) (map val U) 0 <= nth (i + p) (map val U) 0) by (apply (cl_sorted _ _ _ C); [lia|eapply Nat.lt_le_trans; [|apply Nat.eq_le_incl; symmetry; exact L]; lia]).
  assert (R1 : 0 <= nth i (map val U) 0 <= 1) by (apply (clamped_range _ _ _ _ C), nth_In; eapply Nat.lt_le_trans; [|apply Nat.eq_le_incl; symmetry; exact L]; lia).
  assert (R2 : 0 <= nth (i + p) (map val U) 0 <= 1) by (apply (clamped_range _ _ _ _ C), nth_In; eapply Nat.lt_le_trans; [|apply Nat.eq_le_incl; symmetry; exact L]; lia).
  assert (A01 : 0 <= a <= 1).
  { unfold a. split; [apply Rmult_le_pos; [lra|left; apply Rinv_0_lt_compat; lra]|].
    apply (Rmult_le_reg_r (nth (i + p) (map val U) 0 - nth i (map val U) 0)); [lra|]. unfold Rdiv. rewrite Rmult_assoc, Rinv_l by lra. lra. }
  assert (Fi : fin (nth i U (@n0 F64)) = true) by (apply Ff, nth_In; lia).
  destruct (sub_ok u (nth i U (@n0 F64)) 0 ltac:(lia) Fu Fi) as [Fd Ed].
  { change (pow2 0) with 1. rewrite <- nth_val by lia. apply Rabs_le. lra. }
  destruct (weight_ok U Ff (fc_mono _ _ _ (kfun_clamped _ _ _ C)) (fun x Hx => clamped_range _ _ _ x C Hx) (separated_gap U Sep)
    i (i + p) (Bminus mode_NE u (nth i U (@n0 F64))) (val u - val (nth i U (@n0 F64)))) as [W1 W2].
  - lia.
  - rewrite <- !nth_val by lia. lra.
  - exact Fd.
  - exact Ed.
  - rewrite <- nth_val by lia. apply Rabs_le. lra.
  - split; [exact W1|]. split; [|exact A01]. unfold a. rewrite !nth_val by lia. apply W2.
    + exists (val u), (val (nth i U (@n0 F64))). split; [reflexivity|]. split; apply fmt_val.
    + rewrite <- nth_val by lia. lra.
Qed.

Theorem insert_F64 p n dim (U : list f64) P M c (u : f64) : float_curve p n dim U P M c -> pow2 (-1000) <= M <= pow2 1020 ->
  finite u -> 0 < val u < 1 -> apart (map val U) (val u) -> (mult (map val U) (val u) <= p)%nat -> simple_below (map val U) (val u) ->
  exists c' U' P', @insert F64 c u = Val (c', Ok tt) /\ float_curve p (S n) dim U' P' (M * (1 + 10 * eps)) c' /\ Permutation (u :: U) U' /\
    forall d t, (d < dim)%nat -> 0 <= t <= 1 ->
      Rabs (spline (kfun (map val U')) (S n) p (fun i => val (ent P' i d)) t - spline (kfun (map val U)) n p (fun i => val (ent P i d)) t) <= 10 * eps * M.
Proof.
  intros H HM Fu Hu Ha Hm Hs. assert (W := float_wf _ _ _ _ _ _ _ H). destruct H as [FK [SP [HP Bu]]].
  assert (C := proj1 (proj2 FK)). assert (L := cl_len _ _ _ C). assert (L' := L). rewrite map_length in L'. assert (D := cl_deg _ _ _ C).
  change (@length (binary_float 53 1024) U) with (@length f64 U) in L'.
  assert (T := @insert_gen F64 False gdiv_F64 p n dim U P c u W (open_F64 u Fu Hu)
    ltac:(rewrite (dcount_F64 p n U u (proj1 FK) Fu), (dcount_R p n _ _ C Hu); exact Hm) ltac:(intros; eexists; reflexivity)).
  apply ok_val_ex in T. destruct T as [[c' r] [E [l [P' [F [Hl [EP [Er [W' B']]]]]]]]]. cbn [fst snd] in *. subst r.
  destruct (find_insert_F64 p n U u l FK Fu Hu Hs F) as [_ Hlu].
  assert (Hd : forall i, (l - p < i <= l)%nat -> nth i (map val U) 0 < nth (i + p) (map val U) 0).
  { intros i Hi. apply (insert_division_simple p n (map val U) (val u) l i); assumption. }
  set (al := fun i => Bdiv mode_NE (Bminus mode_NE u (nth i U (@n0 F64))) (Bminus mode_NE (nth (i + p) U (@n0 F64)) (nth i U (@n0 F64)))).
  destruct (@insert_points_val F64 U P dim p n l u al (wf_len _ _ _ _ _ _ W) SP Hl ltac:(intros; reflexivity)) as [P2 [E2 [SP' EP']]].
  rewrite EP in E2. injection E2 as <-.
  assert (M0 : 0 < M) by (apply Rlt_le_trans with (2 := proj1 HM); apply bpow_gt_0). assert (Ep := eps_pos).
  assert (EM : 0 < eps * M) by (apply Rmult_lt_0_compat; assumption).
  set (ex := fun i d => ins_coef (kfun (map val U)) l (val u) p i * val (ent P i d) + (1 - ins_coef (kfun (map val U)) l (val u) p i) * val (ent P (i - 1) d)).
  assert (LM : length (map val U) = (n + p + 2)%nat) by exact L.
  (* every new coordinate *)
  assert (Q : forall i d, (i <= S n)%nat -> (d < dim)%nat -> finite (ent P' i d) /\ Rabs (val (ent P' i d) - ex i d) <= 10 * eps * M /\ Rabs (ex i d) <= M).
  { intros i d Hi Hdd. rewrite (EP' i d Hi Hdd). unfold ex, ins_coef. destruct (Nat.leb_spec i (l - p)) as [H1|H1].
    - replace (i + p <=? l)%nat with true by (symmetry; apply Nat.leb_le; lia).
      destruct (HP i d ltac:(lia) Hdd) as [F1 B1]. split; [exact F1|].
      replace (1 * val (ent P i d) + (1 - 1) * val (ent P (i - 1) d)) with (val (ent P i d)) by ring.
      split; [|exact B1]. rewrite Rminus_diag_eq, Rabs_R0 by reflexivity. lra.
    - replace (i + p <=? l)%nat with false by (symmetry; apply Nat.leb_gt; lia).
      destruct (Nat.leb_spec i l) as [H2|H2].
      + replace (l <? i)%nat with false by (symmetry; apply Nat.ltb_ge; lia).
        destruct (alpha_ok p n U u l i FK Fu Hl ltac:(lia) Hlu (Hd i ltac:(lia))) as [A1 [A2 A3]]. fold (al i) in A1, A2.
        destruct (HP (i - 1)%nat d ltac:(lia) Hdd) as [F1 B1]. destruct (HP i d ltac:(lia) Hdd) as [F2 B2].
        destruct (comb_ok (al i) (ent P (i - 1) d) (ent P i d) _ M A1 A2 A3 F1 F2 B1 B2 HM) as [F3 B3].
        set (a := (val u - nth i (map val U) 0) / (nth (i + p) (map val U) 0 - nth i (map val U) 0)) in *.
        assert (Ea : ratio (val u - kfun (map val U) i) (kfun (map val U) (i + p) - kfun (map val U) i) = a).
        { rewrite !kfun_nth by lia. unfold ratio, a. specialize (Hd i ltac:(lia)).
          destruct (Req_EM_T (nth (i + p) (map val U) 0 - nth i (map val U) 0) 0); [lra|reflexivity]. }
        rewrite Ea. replace (a * val (ent P i d) + (1 - a) * val (ent P (i - 1) d)) with ((1 - a) * val (ent P (i - 1) d) + a * val (ent P i d)) by ring.
        split; [exact F3|]. split; [exact B3|].
        apply Rle_trans with (1 := Rabs_triang _ _). rewrite !Rabs_mult, (Rabs_pos_eq (1 - a)), (Rabs_pos_eq a) by lra.
        assert ((1 - a) * Rabs (val (ent P (i - 1) d)) <= (1 - a) * M) by (apply Rmult_le_compat_l; lra).
        assert (a * Rabs (val (ent P i d)) <= a * M) by (apply Rmult_le_compat_l; lra). lra.
      + replace (l <? i)%nat with true by (symmetry; apply Nat.ltb_lt; lia).
        destruct (HP (i - 1)%nat d ltac:(lia) Hdd) as [F1 B1]. split; [exact F1|].
        replace (0 * val (ent P i d) + (1 - 0) * val (ent P (i - 1) d)) with (val (ent P (i - 1) d)) by ring.
        split; [|exact B1]. rewrite Rminus_diag_eq, Rabs_R0 by reflexivity. lra. }
  assert (C' : clamped p (S n) (map val (insU U l u))) by (rewrite map_insU; apply (insU_clamped p n); assumption).
  exists c', (insU U l u), P'. split; [exact E|]. split; [|split; [apply insU_perm|]].
  - split; [|split; [exact SP'|split; [|exact B']]].
    + split; [|split; [exact C'|rewrite map_insU; apply insU_separated; [apply FK|exact Ha|lia|exact Hlu]]].
      intros x Hx. apply in_insU in Hx. destruct Hx as [->|Hx]; [exact Fu|apply FK; exact Hx].
    + intros i d Hi Hdd. destruct (Q i d Hi Hdd) as [Q1 [Q2 Q3]]. split; [exact Q1|].
      replace (val (ent P' i d)) with (ex i d + (val (ent P' i d) - ex i d)) by ring. apply Rle_trans with (1 := Rabs_triang _ _). lra.
  - intros d t Hdd Ht.
    rewrite <- (spline_insert p n (kfun (map val U)) (kfun_clamped _ _ _ C) l (val u) Hu Hl) by (try exact Ht; replace (S l) with (l + 1)%nat by lia; rewrite !kfun_nth by lia; exact Hlu).
    assert (EX : spline (ins_knots (kfun (map val U)) l (val u)) (S n) p
        (fun i => ins_coef (kfun (map val U)) l (val u) p i * val (ent P i d) + (1 - ins_coef (kfun (map val U)) l (val u) p i) * val (ent P (i - 1) d)) t
      = spline (kfun (map val (insU U l u))) (S n) p (fun i => ex i d) t).
    { unfold spline. apply rsum_ext. intros i Hi. f_equal. apply bspline_ext. intros a. symmetry. rewrite map_insU. apply kfun_insU. lia. }
    rewrite EX. apply spline_diff; [apply kfun_clamped; exact C'|exact Ht|]. intros i Hi. apply (Q i d Hi Hdd).
Qed.

Lemma apart_perm U V u : apart U u -> Permutation (u :: U) V -> apart V u.
Proof. intros H Pe y Hy Hne. apply (Permutation_in _ (Permutation_sym Pe)) in Hy. destruct Hy as [Hy|Hy]; [congruence|apply H; assumption]. Qed.

Lemma grow_bound x : (x <= 200)%nat -> (1 + 10 * eps) ^ x <= 1 + 11 * INR x * eps.
Proof.
  assert (Ep := eps_pos). assert (Ev := eps_val). induction x as [|x IH]; intros Hx; [simpl; lra|].
  rewrite S_INR. cbn [pow]. specialize (IH ltac:(lia)).
  assert (I : 0 <= INR x <= 200) by (split; [apply pos_INR|replace 200 with (INR 200) by (rewrite INR_IZR_INZ; reflexivity); apply le_INR; lia]).
  apply Rle_trans with ((1 + 10 * eps) * (1 + 11 * INR x * eps)); [apply Rmult_le_compat_l; lra|].
  assert (INR x * eps <= / 200) by (apply Rle_trans with (200 * eps); [apply Rmult_le_compat_r; lra|rewrite Ev; lra]).
  assert (INR x * eps * eps <= / 200 * eps) by (apply Rmult_le_compat_r; lra). nra.
Qed.

Lemma insert_times_F64 x : forall p n dim (U : list f64) P M c (u : f64), float_curve p n dim U P M c -> (p <= 100)%nat ->
  pow2 (-1000) <= M -> M * (1 + 10 * eps) ^ x <= pow2 1020 ->
  finite u -> 0 < val u < 1 -> apart (map val U) (val u) -> (mult (map val U) (val u) + x <= p + 1)%nat -> simple_below (map val U) (val u) ->
  exists c' U' P', @insert_times F64 c u x = Val (c', Ok tt) /\ float_curve p (n + x) dim U' P' (M * (1 + 10 * eps) ^ x) c' /\ Permutation (repeat u x ++ U) U' /\
    forall d t, (d < dim)%nat -> 0 <= t <= 1 ->
      Rabs (spline (kfun (map val U')) (n + x) p (fun i => val (ent P' i d)) t - spline (kfun (map val U)) n p (fun i => val (ent P i d)) t)
      <= M * ((1 + 10 * eps) ^ x - 1).
Proof.
  induction x as [|x IH]; intros p n dim U P M c u H Hp HM HM2 Fu Hu Ha Hm Hs.
  - exists c, U, P. split; [reflexivity|]. rewrite Nat.add_0_r. cbn [pow]. rewrite Rmult_1_r. split; [exact H|]. split; [apply Permutation_refl|].
    intros d t _ _. rewrite Rminus_diag_eq, Rabs_R0 by reflexivity. lra.
  - assert (Ep := eps_pos). assert (M0 : 0 < M) by (apply Rlt_le_trans with (2 := HM); apply bpow_gt_0).
    assert (G1 : 1 <= (1 + 10 * eps) ^ S x) by (apply pow_R1_Rle; lra).
    destruct (insert_F64 p n dim U P M c u H) as [c1 [U1 [P1 [E1 [H1 [Q1 S1]]]]]]; try assumption; try lia.
    { split; [exact HM|]. apply Rle_trans with (2 := HM2). rewrite <- (Rmult_1_r M) at 1. apply Rmult_le_compat_l; lra. }
    assert (Q1' : Permutation (val u :: map val U) (map val U1)) by (apply (Permutation_map val) in Q1; exact Q1).
    destruct (IH p (S n) dim U1 P1 (M * (1 + 10 * eps)) c1 u H1 Hp) as [c2 [U2 [P2 [E2 [H2 [Q2 S2]]]]]]; try assumption.
    + apply Rle_trans with (1 := HM). rewrite <- (Rmult_1_r M) at 1. apply Rmult_le_compat_l; lra.
    + cbn [pow] in HM2. rewrite Rmult_assoc. exact HM2.
    + apply (apart_perm (map val U)); assumption.
    + rewrite (mult_insert _ _ _ Q1'). lia.
    + apply (simple_perm (map val U) _ _ Hs Q1').
    + exists c2, U2, P2. split; [|split; [|split]].
      * cbn [insert_times]. rewrite E1. cbn [bind]. exact E2.
      * replace (n + S x)%nat with (S n + x)%nat by lia. cbn [pow]. rewrite <- Rmult_assoc. exact H2.
      * cbn [repeat]. apply Permutation_trans with (2 := Q2). cbn [app]. apply Permutation_trans with (1 := Permutation_middle (repeat u x) U u).
        apply Permutation_app_head. exact Q1.
      * intros d t Hd Ht. replace (n + S x)%nat with (S n + x)%nat by lia.
        assert (X1 := S1 d t Hd Ht). assert (X2 := S2 d t Hd Ht). cbn [pow].
        match goal with |- Rabs (?a - ?b) <= _ => match type of X2 with Rabs (_ - ?c) <= _ => replace (a - b) with ((a - c) + (c - b)) by ring end end.
        apply Rle_trans with (1 := Rabs_triang _ _). lra.
Qed.

Theorem insert_times_close x p n dim (U : list f64) P M c P' cR (u : f64) : float_curve p n dim U P M c -> same_points n dim P P' ->
  clamped_curve p n dim (map val U) P' cR -> (p <= 100)%nat -> / 2 ^ 1000 <= M <= 2 ^ 1019 -> finite u -> 0 < val u < 1 ->
  (forall y, In y (map val U) -> y <> val u -> / 2 ^ 1000 <= Rabs (y - val u)) ->
  (mult (map val U) (val u) + x <= p + 1)%nat -> simple_below (map val U) (val u) ->
  exists c' U' Q, @insert_times F64 c u x = Val (c', Ok tt) /\ Permutation (repeat u x ++ U) U' /\
    float_curve p (n + x) dim U' Q ((1 + 11 * INR x * / 2 ^ 53) * M) c' /\
    forall t, finite t -> 0 <= val t <= 1 -> exists f, returns (evaluate cR (val t)) dim f /\
      returns_within (@evaluate F64 c' t) dim f ((6 * INR p + 11 * INR x + 4) * / 2 ^ 53 * M).
Proof.
  intros H SPt HR Hp HM Fu Hu Ha Hm Hs. assert (Ep := eps_pos). assert (Ev := eps_val).
  assert (E2 : 2 ^ 1019 = pow2 1019) by (rewrite (bpow_powerRZ radix2 1019); reflexivity).
  assert (E3 : 2 ^ 1022 = pow2 1022) by (rewrite (bpow_powerRZ radix2 1022); reflexivity).
  assert (HM' := HM). rewrite pow2_1000, E2 in HM'.
  assert (M0 : 0 < M) by (apply Rlt_le_trans with (2 := proj1 HM'); apply bpow_gt_0).
  assert (G := grow_bound x ltac:(lia)). assert (G1 : 1 <= (1 + 10 * eps) ^ x) by (apply pow_R1_Rle; lra).
  assert (I : 0 <= INR x <= 101) by (split; [apply pos_INR|replace 101 with (INR 101) by (rewrite INR_IZR_INZ; reflexivity); apply le_INR; lia]).
  assert (Ip : 0 <= INR p <= 100) by (split; [apply pos_INR|replace 100 with (INR 100) by (rewrite INR_IZR_INZ; reflexivity); apply le_INR; exact Hp]).
  assert (XE : 0 <= INR x * eps <= / 100000) by (split; [apply Rmult_le_pos; lra|apply Rle_trans with (101 * eps); [apply Rmult_le_compat_r; lra|rewrite Ev; lra]]).
  rewrite eps_pow.
  destruct (insert_times_F64 x p n dim U P M c u H Hp (proj1 HM')) as [c' [U' [Q [E [HF [Pe Hc]]]]]]; try assumption.
  { change (pow2 1020) with (pow2 (1019 + 1)). rewrite bpow_plus. change (pow2 1) with 2. apply Rmult_le_compat; lra. }
  assert (MX : M * (1 + 10 * eps) ^ x <= (1 + 11 * INR x * eps) * M) by (rewrite (Rmult_comm _ M); apply Rmult_le_compat_l; lra).
  assert (HF' : float_curve p (n + x) dim U' Q ((1 + 11 * INR x * eps) * M) c').
  { destruct HF as [A1 [A2 [A3 A4]]]. split; [exact A1|]. split; [exact A2|]. split; [|exact A4].
    intros i d Hi Hd. destruct (A3 i d Hi Hd) as [B1 B2]. split; [exact B1|lra]. }
  exists c', U', Q. split; [exact E|]. split; [exact Pe|]. split; [exact HF'|].
  intros t Ft Ht.
  assert (ER := cc_eval0 p n dim (map val U) P' cR (val t) HR Ht).
  exists (fun d => spline (kfun (map val U)) n p (fun i => val (ent P i d)) (val t)). split.
  { eapply returns_ext; [exact ER|]. intros d Hd. unfold spline. apply rsum_ext. intros i Hi. rewrite (proj2 SPt i d ltac:(lia) Hd). reflexivity. }
  destruct (eval_F64 p (n + x) dim U' Q _ c' t HF' Hp) as [w [Ew [Lw Hw]]]; try assumption.
  { split.
    - apply Rle_trans with (1 := proj1 HM). rewrite <- (Rmult_1_l M) at 1. apply Rmult_le_compat_r; lra.
    - rewrite E3. apply Rle_trans with (2 * pow2 1019); [apply Rmult_le_compat; lra|]. change 2 with (pow2 1) at 1. rewrite <- bpow_plus. apply bpow_le. lia. }
  rewrite eps_pow in Hw.
  exists w. split; [exact Ew|]. split; [exact Lw|]. intros d Hd. destruct (Hw d Hd) as [W1 W2]. split; [exact W1|].
  assert (X := Hc d (val t) Hd Ht).
  match goal with |- Rabs (?a - ?b) <= _ => match type of X with Rabs (?c - _) <= _ => replace (a - b) with ((a - c) + (c - b)) by ring end end.
  apply Rle_trans with (1 := Rabs_triang _ _).
  assert (EM : 0 < eps * M) by (apply Rmult_lt_0_compat; assumption).
  assert (X2 : M * ((1 + 10 * eps) ^ x - 1) <= 11 * INR x * (eps * M)).
  { replace (11 * INR x * (eps * M)) with (M * (11 * INR x * eps)) by ring. apply Rmult_le_compat_l; lra. }
  assert (X3 : (6 * INR p + 3) * eps * ((1 + 11 * INR x * eps) * M) <= (6 * INR p + 4) * (eps * M)).
  { replace ((6 * INR p + 3) * eps * ((1 + 11 * INR x * eps) * M)) with (((6 * INR p + 3) * (1 + 11 * (INR x * eps))) * (eps * M)) by ring.
    apply Rmult_le_compat_r; [lra|]. nra. }
  lra.
Qed.
