(** * What a large penalty factor does to a fit *)

From Coq Require Import ZArith Reals List Bool Arith Lia Lra.
From Verif Require Import Num Vec MKnots MPoints MCurve MFit MGenerate RNum Lists Spec Api BMath BMath2 BMath3 Bridge Facts1 Samples Fit3 Fit6 Fit7 Fit8 Fit10 Shape6.
Import ListNotations.
Local Open Scope R_scope.

Lemma rsum_near f a D n w : (forall i, (i < n)%nat -> 0 <= w i) -> rsum w n = 1 -> (forall i, (i < n)%nat -> Rabs (f i - a) <= D) ->
  Rabs (rsum (fun i => w i * f i) n - a) <= D.
Proof.
  intros Hw S H. replace (rsum (fun i => w i * f i) n - a) with (rsum (fun i => w i * (f i - a)) n).
  - assert (G : Rabs (rsum (fun i => w i * (f i - a)) n) <= rsum w n * D).
    { clear S. induction n as [|n IH]; simpl; [rewrite Rabs_R0; lra|].
      eapply Rle_trans; [apply Rabs_triang|]. rewrite Rabs_mult, (Rabs_pos_eq (w n)) by (apply Hw; lia).
      assert (A := IH ltac:(intros; apply Hw; lia) ltac:(intros; apply H; lia)).
      assert (B := H n ltac:(lia)). assert (C := Hw n ltac:(lia)). nra. }
    rewrite S in G. lra.
  - rewrite (rsum_ext _ (fun i => w i * f i + - a * w i)) by (intros; ring). rewrite rsum_plus, rsum_scal, S. ring.
Qed.

Lemma spline_near p n U P a D u : fclamped p n U -> 0 <= u <= 1 -> (forall i, (i <= n)%nat -> Rabs (P i - a) <= D) -> Rabs (spline U n p P u - a) <= D.
Proof.
  intros C Hu H. apply rsum_near.
  - intros i Hi. apply (bspline_nonneg p n U C). exact Hu.
  - apply (bspline_sum p n U C). exact Hu.
  - intros i Hi. apply H. lia.
Qed.

Lemma grid_range g m : (g <= m)%nat -> (1 <= m)%nat -> 0 <= INR g / INR m <= 1.
Proof.
  intros H M. assert (A : 0 < INR m) by (apply lt_0_INR; lia). assert (B := pos_INR g). assert (C : INR g <= INR m) by (apply le_INR; exact H).
  split; [apply Rmult_le_pos; [exact B|apply Rlt_le, Rinv_0_lt_compat, A]|].
  apply (Rmult_le_reg_r (INR m)); [exact A|]. unfold Rdiv. rewrite Rmult_assoc, Rinv_l by lra. lra.
Qed.

(** the error of a curve with clamped knots *)
Lemma error_of p n dim U C c m Q : clamped_curve p n dim U C c -> (1 <= m)%nat ->
  data_error c dim m Q (rsum (fun g => rsum (fun d => (spline (kfun U) n p (fun i => ent C i d) (INR g / INR m) - ent Q g d) ^ 2) dim) (S m)).
Proof.
  intros H M. exists (fun g d => spline (kfun U) n p (fun i => ent C i d) (INR g / INR m)). split; [|reflexivity].
  intros g Hg. apply (cc_eval0 p n dim U C c); [exact H|]. apply grid_range; assumption.
Qed.

Lemma loose_heavy svd p n m dim (Q : Mat RNum) k l : good_solver svd -> shape dim (S m) Q -> (1 <= p <= n)%nat -> (n <= m)%nat ->
  (1 <= k <= n - 1)%nat -> 0 <= l ->
  exists U C c e, generate svd (LeastSquaresFit p Q n LooseEnds (Some (mkPen l k))) = Val (Ok c) /\
    clamped_curve p n dim U C c /\ data_error c dim m Q e /\ 0 <= e /\
    forall a : nat -> R, e + l * roughness k (S n - k) 0 dim C <= rsum (fun g => rsum (fun d => (a d - ent Q g d) ^ 2) dim) (S m).
Proof.
  intros GS SQ Hp Hm Hk Hl.
  destruct (loose_fit_fact svd p n m dim Q (Some (@mkPen RNum l k)) GS SQ Hp Hm) as [U [C [c [e [E [HC [_ [DE UN]]]]]]]]; [intros q Eq; injection Eq as <-; cbn [lambda kappa]; rn; split; [exact Hl|exact Hk]|].
  exists U, C, c, e. split; [exact E|]. split; [exact HC|]. split; [exact DE|]. split.
  { destruct DE as [f [_ ->]]. apply rsum_nonneg. intros g _. apply rsum_nonneg. intros d _. apply pow2_ge_0. }
  intros a. set (C' := mat_of dim (S n) (fun d _ => a d)).
  destruct (clamped_curve_ex p n dim U C' (proj1 HC) (mat_of_shape dim (S n) _)) as [c' HC'].
  destruct (UN C' c' _ HC' (error_of p n dim U C' c' m Q HC' ltac:(lia))) as [A _]. unfold penalty in A. cbn [lambda kappa] in A.
  replace (roughness k (S n - k) 0 dim C') with 0 in A.
  - assert (B : rsum (fun g => rsum (fun d => (spline (kfun U) n p (fun i => ent C' i d) (INR g / INR m) - ent Q g d) ^ 2) dim) (S m) = rsum (fun g => rsum (fun d => (a d - ent Q g d) ^ 2) dim) (S m)).
    { apply rsum_ext. intros g Hg. apply rsum_ext. intros d Hd. do 2 f_equal.
      rewrite <- (spline_const p n (kfun U) (a d) (INR g / INR m) (kfun_clamped p n U (proj1 HC))) by (apply grid_range; lia).
      unfold spline. apply rsum_ext. intros i Hi. unfold C'. rewrite ent_mat_of by lia. reflexivity. }
    rewrite B in A. rn. lra.
  - symmetry. unfold roughness. apply rsum_zero. intros r Hr. apply rsum_zero. intros d Hd.
    rewrite (fdiff_ext k _ (fun _ => a d)); [rewrite fdiff_const by lia; ring|].
    intros j Hj. unfold C'. rewrite ent_mat_of by lia. reflexivity.
Qed.

Lemma fixed_heavy svd p n m dim (Q : Mat RNum) k : good_solver svd -> shape dim (S m) Q -> (1 <= p <= n)%nat -> (2 <= n <= m)%nat ->
  (1 <= k <= n - 2)%nat -> exists B, forall l, 0 <= l ->
  exists U C c e, generate svd (LeastSquaresFit p Q n FixedEnds (Some (mkPen l k))) = Val (Ok c) /\
    clamped_curve p n dim U C c /\ data_error c dim m Q e /\ 0 <= e /\ e + l * roughness k (n - 1 - k) 1 dim C <= B.
Proof.
  intros GS SQ Hp Hm Hk.
  set (C' := mat_of dim (S n) (fun d i => if (i =? n)%nat then ent Q m d else ent Q 0 d)).
  assert (F := fun l (Hl : 0 <= l) => fixed_fit_fact svd p n m dim Q (Some (@mkPen RNum l k)) GS SQ Hp Hm
    ltac:(intros q Eq; injection Eq as <-; cbn [lambda kappa]; rn; split; [exact Hl|exact Hk])).
  destruct (F 0 ltac:(lra)) as [U [C0 [c0 [e0 [_ [HC0 [UK0 _]]]]]]].
  destruct (clamped_curve_ex p n dim U C' (proj1 HC0) (mat_of_shape dim (S n) _)) as [c' HC'].
  assert (DE' := error_of p n dim U C' c' m Q HC' ltac:(lia)). destruct DE' as [f' DE'].
  eexists. intros l Hl. destruct (F l Hl) as [U1 [C [c [e [E [HC [UK [DE [_ [_ UN]]]]]]]]]].
  assert (U = U1) as <- by (apply (uniform_list p n); [apply HC0|apply HC|exact UK0|exact UK]).
  exists U, C, c, e. split; [exact E|]. split; [exact HC|]. split; [exact DE|]. split.
  { destruct DE as [f [_ ->]]. apply rsum_nonneg. intros g _. apply rsum_nonneg. intros d _. apply pow2_ge_0. }
  destruct (UN C' c' _ HC' (ex_intro _ f' DE')) as [A _].
  - eapply returns_ext; [apply (cc_eval0 p n dim U C' c' 0 HC'); lra|]. intros d Hd. cbv beta.
    rewrite (spline_at_0 p n (kfun U) (kfun_clamped p n U (proj1 HC))). unfold C'. rewrite ent_mat_of by lia.
    destruct (Nat.eqb_spec 0 n); [lia|reflexivity].
  - eapply returns_ext; [apply (cc_eval0 p n dim U C' c' 1 HC'); lra|]. intros d Hd. cbv beta.
    rewrite (spline_at_1 p n (kfun U) (kfun_clamped p n U (proj1 HC))). unfold C'. rewrite ent_mat_of by lia.
    rewrite Nat.eqb_refl. reflexivity.
  - unfold penalty in A. cbn [lambda kappa] in A.
    replace (roughness k (n - 1 - k) 1 dim C') with 0 in A.
    + rn. rewrite Rmult_0_r, Rplus_0_r in A. exact A.
    + symmetry. unfold roughness. apply rsum_zero. intros r Hr. apply rsum_zero. intros d Hd.
      rewrite (fdiff_ext k _ (fun _ => ent Q 0 d)); [rewrite fdiff_const by lia; ring|].
      intros j Hj. unfold C'. rewrite ent_mat_of by lia. destruct (Nat.eqb_spec (1 + j) n); [lia|reflexivity].
Qed.

Lemma term_le f n i : (i < n)%nat -> (forall j, (j < n)%nat -> 0 <= f j) -> f i <= rsum f n.
Proof.
  induction n as [|n IH]; intros Hi H; [lia|]. simpl. assert (A := H n ltac:(lia)).
  destruct (Nat.eq_dec i n) as [->|N].
  - assert (B : 0 <= rsum f n) by (apply rsum_nonneg; intros j Hj; apply H; lia). lra.
  - assert (B := IH ltac:(lia) ltac:(intros; apply H; lia)). lra.
Qed.

Lemma mean_near f a D n : (1 <= n)%nat -> (forall i, (i < n)%nat -> Rabs (f i - a) <= D) -> Rabs (rsum f n / INR n - a) <= D.
Proof.
  intros Hn H. assert (A : 0 < INR n) by (apply lt_0_INR; lia).
  replace (rsum f n / INR n) with (rsum (fun i => / INR n * f i) n) by (rewrite rsum_scal; field; lra).
  apply rsum_near; [| |exact H].
  - intros i _. apply Rlt_le, Rinv_0_lt_compat, A.
  - rewrite rsum_const. field. lra.
Qed.

Lemma steps_near (f : nat -> R) s n : (forall i, (i < n)%nat -> Rabs (f (S i) - f i) <= s) -> forall i, (i <= n)%nat -> Rabs (f i - f 0%nat) <= INR i * s.
Proof.
  intros H. induction i as [|i IH]; intros Hi; [rewrite Rminus_diag_eq, Rabs_R0 by reflexivity; simpl; lra|].
  assert (A := IH ltac:(lia)). assert (B := H i ltac:(lia)). rewrite S_INR.
  replace (f (S i) - f 0%nat) with ((f (S i) - f i) + (f i - f 0%nat)) by ring.
  eapply Rle_trans; [apply Rabs_triang|]. lra.
Qed.

Lemma heavy_limit svd p n m dim (Q : Mat RNum) : good_solver svd -> shape dim (S m) Q -> (1 <= p <= n)%nat -> (2 <= n <= m)%nat ->
  forall eps, 0 < eps -> exists L, forall l, L <= l ->
  exists c, generate svd (LeastSquaresFit p Q n LooseEnds (Some (mkPen l 1))) = Val (Ok c) /\
    forall u, 0 <= u <= 1 -> exists f, returns (evaluate c u) dim f /\
      forall d, (d < dim)%nat -> Rabs (f d - rsum (fun g => ent Q g d) (S m) / INR (S m)) <= eps.
Proof.
  intros GS SQ Hp Hm eps He. set (B := rsum (fun g => rsum (fun d => (0 - ent Q g d) ^ 2) dim) (S m)).
  assert (PB : 0 <= B) by (apply rsum_nonneg; intros g _; apply rsum_nonneg; intros d _; apply pow2_ge_0).
  assert (Pn : 0 < INR n) by (apply lt_0_INR; lia). set (s := eps / (2 * INR n)).
  assert (Ps : 0 < s) by (unfold s; apply Rdiv_lt_0_compat; lra).
  exists (B / s ^ 2 + 1). intros l Hl.
  assert (Ps2 : 0 < s ^ 2) by (apply pow_lt, Ps).
  assert (PBs : 0 <= B / s ^ 2) by (apply Rmult_le_pos; [exact PB|apply Rlt_le, Rinv_0_lt_compat, Ps2]).
  assert (Pl : 0 < l) by lra.
  destruct (loose_heavy svd p n m dim Q 1 l GS SQ Hp ltac:(lia) ltac:(lia) ltac:(lra)) as [U [C [c [e [E [HC [DE [Pe A]]]]]]]].
  exists c. split; [exact E|]. specialize (A (fun _ => 0)). change (e + l * roughness 1 (S n - 1) 0 dim C <= B) in A.
  assert (RR : roughness 1 (S n - 1) 0 dim C <= s ^ 2).
  { assert (X : l * roughness 1 (S n - 1) 0 dim C <= B) by lra.
    assert (Y : B <= l * s ^ 2).
    { assert (Z : B / s ^ 2 * s ^ 2 <= l * s ^ 2) by (apply Rmult_le_compat_r; lra). replace (B / s ^ 2 * s ^ 2) with B in Z by (field; lra). exact Z. }
    apply (Rmult_le_reg_l l); lra. }
  assert (ST : forall d, (d < dim)%nat -> forall i, (i < n)%nat -> Rabs (ent C (S i) d - ent C i d) <= s).
  { intros d Hd i Hi.
    assert (X : (ent C (S i) d - ent C i d) ^ 2 <= s ^ 2).
    { eapply Rle_trans; [|exact RR]. unfold roughness.
      eapply Rle_trans; [|apply (term_le (fun r => rsum (fun d => fdiff 1 (fun i => ent C (0 + i) d) r ^ 2) dim) (S n - 1) i ltac:(lia))].
      - cbv beta. eapply Rle_trans; [|apply (term_le (fun d => fdiff 1 (fun i => ent C (0 + i) d) i ^ 2) dim d Hd)]; [cbn [fdiff Nat.add]; lra|].
        intros j _. apply pow2_ge_0.
      - intros j _. apply rsum_nonneg. intros d' _. apply pow2_ge_0. }
    apply Rabs_le. assert (Y := Rabs_pos (ent C (S i) d - ent C i d)). split; nra. }
  assert (NR : forall d, (d < dim)%nat -> forall u, 0 <= u <= 1 -> Rabs (spline (kfun U) n p (fun i => ent C i d) u - ent C 0 d) <= eps / 2).
  { intros d Hd u Hu. apply (spline_near p n); [apply kfun_clamped; apply HC|exact Hu|]. intros i Hi.
    eapply Rle_trans; [apply (steps_near (fun i => ent C i d) s n (ST d Hd) i Hi)|].
    assert (X : INR i <= INR n) by (apply le_INR; exact Hi). assert (Y : INR n * s = eps / 2) by (unfold s; field; lra). nra. }
  destruct (centre_of_mass svd p n m dim (Some (@mkPen RNum l 1)) GS Hp ltac:(lia)) with (Q := Q) as [c2 [E2 CM]]; [|exact SQ|].
  { intros q Eq; injection Eq as <-; cbn [lambda kappa]; rn; split; [lra|lia]. }
  rewrite E in E2. injection E2 as <-.
  specialize (CM (fun g d => spline (kfun U) n p (fun i => ent C i d) (INR g / INR m))).
  assert (SM : samples m dim c (fun g d => spline (kfun U) n p (fun i => ent C i d) (INR g / INR m))).
  { intros g Hg. apply (cc_eval0 p n dim U C c); [exact HC|]. apply grid_range; lia. }
  specialize (CM SM).
  intros u Hu. exists (fun d => spline (kfun U) n p (fun i => ent C i d) u). split; [apply (cc_eval0 p n dim U C c u HC Hu)|].
  intros d Hd. rewrite <- (CM d Hd).
  assert (X := NR d Hd u Hu). assert (Y := mean_near (fun g => spline (kfun U) n p (fun i => ent C i d) (INR g / INR m)) (ent C 0 d) (eps / 2) (S m) ltac:(lia)
    ltac:(intros g Hg; apply NR; [exact Hd|apply grid_range; lia])).
  replace (spline (kfun U) n p (fun i => ent C i d) u - rsum (fun g => spline (kfun U) n p (fun i => ent C i d) (INR g / INR m)) (S m) / INR (S m))
    with ((spline (kfun U) n p (fun i => ent C i d) u - ent C 0 d) - (rsum (fun g => spline (kfun U) n p (fun i => ent C i d) (INR g / INR m)) (S m) / INR (S m) - ent C 0 d)) by ring.
  eapply Rle_trans; [apply Rabs_triang|]. rewrite Rabs_Ropp. lra.
Qed.
