(** * Least squares fits with a solver that drops small singular values *)

From Coq Require Import ZArith Reals List Bool Arith Lia Lra ClassicalEpsilon.
From Verif Require Import Num Vec MKnots MPoints MCurve MFit MGenerate RNum Hoare Lists Struct Spec BMath BMath2 BMath3 Api ApiV Bridge Facts1 Gen1 Gen2 Gen3 Gen4 LinAlg SW Fit1 Fit2 Fit3 Fit4 Fit5 Fit6 Fit7 FitNear Svd1 Svd2 Svd3.
Import ListNotations.
Local Open Scope R_scope.

Lemma ip_image_gram rows cols (a : nat -> nat -> R) (x : nat -> R) :
  rsum (fun i => x i * rsum (fun j => rsum (fun g => a i g * a j g) rows * x j) cols) cols = ip rows (image cols a x) (image cols a x).
Proof.
  transitivity (rsum (fun i => rsum (fun g => a i g * x i * image cols a x g) rows) cols).
  - apply rsum_ext. intros i Hi. rewrite (rsum_ext _ (fun j => rsum (fun g => a i g * (a j g * x j)) rows)).
    + rewrite rsum_swap. rewrite <- rsum_scal. apply rsum_ext. intros g Hg. unfold image, comb. rewrite rsum_scal. ring.
    + intros j Hj. rewrite <- rsum_scal_r. apply rsum_ext. intros; ring.
  - rewrite rsum_swap. unfold ip. apply rsum_ext. intros g Hg. rewrite rsum_scal_r. f_equal. 
Qed.

Lemma normal_form kn (N : Mat RNum) pen fd A rows cols x : shape rows cols N -> @normal_matrix RNum kn N pen fd = Val (Ok A) ->
  (forall q Dm, pen = Some q -> fd (kappa q) kn = Val Dm -> exists k, shape k cols Dm) ->
  shape cols cols A /\ ip rows (image cols (ent N) x) (image cols (ent N) x) <= ip cols x (image cols (ent A) x).
Proof.
  intros SN EA SD. assert (T := normal_R kn N pen fd A rows cols SN EA). destruct pen as [q|].
  - destruct T as [T0 [Dm [ED T]]]. destruct (SD q Dm eq_refl ED) as [k Sk]. destruct (T k Sk) as [SA HA]. split; [exact SA|].
    unfold ip at 2. unfold image at 3, comb.
    rewrite (rsum_ext (fun t => x t * _) (fun i => x i * rsum (fun j => rsum (fun g => ent N i g * ent N j g) rows * x j) cols + lambda q * (x i * rsum (fun j => rsum (fun g => ent Dm i g * ent Dm j g) k * x j) cols))).
    + rewrite rsum_plus, rsum_scal, !ip_image_gram. assert (0 <= ip k (image cols (ent Dm) x) (image cols (ent Dm) x)) by (unfold ip; apply rsum_nonneg; intros; apply Rle_0_sqr). nra.
    + intros i Hi. transitivity (x i * (rsum (fun j => rsum (fun g => ent N i g * ent N j g) rows * x j) cols + lambda q * rsum (fun j => rsum (fun g => ent Dm i g * ent Dm j g) k * x j) cols)); [|ring].
      f_equal. rewrite <- rsum_scal, <- rsum_plus. apply rsum_ext. intros j Hj. rewrite HA by assumption. ring.
  - destruct T as [SA HA]. split; [exact SA|]. apply Req_le. rewrite <- ip_image_gram. unfold ip, image, comb. apply rsum_ext. intros i Hi. f_equal. apply rsum_ext. intros j Hj. rewrite HA by assumption. ring.
Qed.

Lemma singular_rayleigh len (x y z : nat -> R) s : 0 <= s -> ip len x x = 1 -> ip len y y = 1 -> (forall t, (t < len)%nat -> z t = s * y t) -> ip len x z <= s.
Proof.
  intros S0 X1 Y1 E. assert (H : 0 <= rsum (fun t => (x t - y t) * (x t - y t)) len) by (apply rsum_nonneg; intros; apply Rle_0_sqr).
  rewrite (rsum_ext _ (fun t => x t * x t + y t * y t + (-2) * (x t * y t))) in H by (intros; ring). rewrite !rsum_plus, rsum_scal in H.
  change (ip len x x + ip len y y + -2 * ip len x y >= 0) in H || change (0 <= ip len x x + ip len y y + -2 * ip len x y) in H.
  assert (EZ : ip len x z = s * ip len x y) by (unfold ip; rewrite <- rsum_scal; apply rsum_ext; intros t Ht; rewrite E by exact Ht; ring). rewrite EZ. nra.
Qed.

(** the two solvers agree on a normal system *)
Lemma system_same eps svd kn (N : Mat RNum) pen fd A B rows cols dim b : 0 <= eps -> cutoff_solver eps svd -> shape rows cols N -> @normal_matrix RNum kn N pen fd = Val (Ok A) ->
  (forall q Dm, pen = Some q -> fd (kappa q) kn = Val Dm -> exists k, shape k cols Dm) -> shape cols dim B ->
  (forall i d, (i < cols)%nat -> (d < dim)%nat -> ent B d i = rsum (fun g => ent N i g * b g d) rows) ->
  (forall x, ip cols x x = 1 -> eps < ip rows (image cols (ent N) x) (image cols (ent N) x)) -> svd_solve svd A B = svd_solve (patched svd) A B.
Proof.
  intros He CS SN EA SD SB HB HX. destruct (system_solvable pen kn N fd A B rows cols dim b SN EA SD SB HB) as [Y HY].
  assert (SA := proj1 (normal_form kn N pen fd A rows cols (fun _ => 0) SN EA SD)).
  assert (NA : nrows A = cols) by apply SA. assert (CA : ncols A = cols) by apply SA. assert (NB : nrows B = cols) by apply SB.
  destruct (CS A B ltac:(congruence)) as [X [EX TX]]. unfold svd_solve. rewrite (patched_same svd A B X EX); [reflexivity|].
  apply (truncated_solves eps A B X Y He TX HY). rewrite NA, CA. intros s x y S0 X1 Y1 E.
  apply Rlt_le_trans with (1 := HX x X1). eapply Rle_trans; [apply (normal_form kn N pen fd A rows cols x SN EA SD)|].
  apply (singular_rayleigh cols x y _ s S0 X1 Y1 E).
Qed.

Theorem loose_transfer eps svd p n m dim (Q : Mat RNum) pen : 0 <= eps -> cutoff_solver eps svd -> shape dim (S m) Q -> (1 <= p <= n)%nat -> (n <= m)%nat -> distinct p n m eps ->
  generate svd (LeastSquaresFit p Q n LooseEnds pen) = generate (patched svd) (LeastSquaresFit p Q n LooseEnds pen).
Proof.
  intros He CS SQ Hp Hm D. assert (SQ' : shape dim (m + 1) Q) by (replace (m + 1)%nat with (S m) by lia; exact SQ).
  destruct (lsf_steps p n m dim Q SQ Hp ltac:(lia)) as (v & U & Lv & Hv & A & B & CL & G). rewrite !G. clear G.
  assert (UK : uniform_knots p n U). { destruct (uniform_fact p n Hp) as (kn2 & U2 & A2 & B2 & V2 & CL2 & VU & _). rewrite A in A2. injection A2 as <-. rewrite (@knots_of_vector RNum) in V2. injection V2 as <-. apply (uniform_values p n U CL VU). }
  f_equal. unfold loose_fit. rewrite (checks_rest p n m dim U Q v (cl_len _ _ _ CL) Hp SQ') by exact Hm.
  destruct (match pen with Some q => if (n - 1 <? kappa q)%nat then Val (Err (RequestedPolynomialSegmentAndPenalizationKappaMismatch n (kappa q))) else Val (Ok tt) | None => Val (Ok tt) end) as [[u|e]| | |]; cbn [bind]; try reflexivity.
  destruct (loose_coefficients_R p n U (cl_len _ _ _ CL) ltac:(lia) (cl_sorted _ _ _ CL) dim m Q v m SQ' Lv) as [N [EN [SN HN]]]. rewrite EN. cbn [bind].
  destruct (normal_matrix (knots_of p U) N pen loose_difference) as [[X|e]| | |] eqn:EX; cbn [bind]; try reflexivity.
  destruct (mmul_R (n + 1) (m + 1) dim _ _ (mtranspose_shape _ _ _ SN) (mtranspose_shape _ _ _ SQ')) as [Bm [EB [SB HB]]]. rewrite EB. cbn [bind]. f_equal.
  apply (system_same eps svd (knots_of p U) N pen loose_difference X Bm (m + 1) (n + 1) dim (fun g d => ent Q g d) He CS SN EX).
  - intros q Dm Eq ED. unfold loose_difference in ED. rewrite (@knots_of_segments RNum p U n (cl_len _ _ _ CL)) in ED. cbn [bind] in ED. destruct (Nat.leb_spec (kappa q) n) as [K|K]; [|discriminate ED].
    destruct (loose_difference_R p n U (cl_len _ _ _ CL) ltac:(lia) (kappa q) K) as [Dm' [ED' [SD _]]]. unfold loose_difference in ED'. rewrite (@knots_of_segments RNum p U n (cl_len _ _ _ CL)) in ED'. cbn [bind] in ED'.
    replace (kappa q <=? n)%nat with true in ED' by (symmetry; apply Nat.leb_le; exact K). rewrite ED' in ED. injection ED as <-. eexists. exact SD.
  - exact SB.
  - intros i d Hi Hd. rewrite HB by assumption. apply rsum_ext. intros g Hg. rewrite (ent_mtranspose_R (m + 1) (n + 1) N g i SN Hg Hi), (ent_mtranspose_R dim (m + 1) Q d g SQ' Hd Hg). reflexivity.
  - replace (n + 1)%nat with (S n) by lia. replace (m + 1)%nat with (S m) by lia. intros x X1. eapply Rlt_le_trans; [apply (distinct_spline p n m eps U x ltac:(lia) D CL UK X1)|].
    apply Req_le. unfold ip. apply rsum_ext. intros g Hg. rewrite (collocation_image p n m U N x g) by (try lia; intros g' i Hg' Hi; rewrite HN, Hv by lia; reflexivity). ring.
Qed.

Theorem fixed_transfer eps svd p n m dim (Q : Mat RNum) pen : 0 <= eps -> cutoff_solver eps svd -> shape dim (S m) Q -> (1 <= p <= n)%nat -> (n <= m)%nat -> distinct p n m eps ->
  generate svd (LeastSquaresFit p Q n FixedEnds pen) = generate (patched svd) (LeastSquaresFit p Q n FixedEnds pen).
Proof.
  intros He CS SQ Hp Hm D. assert (SQ' : shape dim (m + 1) Q) by (replace (m + 1)%nat with (S m) by lia; exact SQ).
  destruct (lsf_steps p n m dim Q SQ Hp ltac:(lia)) as (v & U & Lv & Hv & A & B & CL & G). rewrite !G. clear G.
  assert (UK : uniform_knots p n U). { destruct (uniform_fact p n Hp) as (kn2 & U2 & A2 & B2 & V2 & CL2 & VU & _). rewrite A in A2. injection A2 as <-. rewrite (@knots_of_vector RNum) in V2. injection V2 as <-. apply (uniform_values p n U CL VU). }
  f_equal. unfold fixed_fit. rewrite (checks_rest p n m dim U Q v (cl_len _ _ _ CL) Hp SQ') by exact Hm.
  destruct (match pen with Some q => if (n - 1 <? kappa q)%nat then Val (Err (RequestedPolynomialSegmentAndPenalizationKappaMismatch n (kappa q))) else Val (Ok tt) | None => Val (Ok tt) end) as [[u|e]| | |]; cbn [bind]; try reflexivity.
  destruct (qvectors_R p n U (cl_len _ _ _ CL) ltac:(lia) (cl_sorted _ _ _ CL) dim m Q v m SQ' Lv ltac:(lia)) as [W [EW [SW _]]]. rewrite EW. cbn [bind].
  destruct (constant_terms_R p n U (cl_len _ _ _ CL) ltac:(lia) (cl_sorted _ _ _ CL) dim m Q W v m SQ' SW Lv ltac:(lia) ltac:(lia)) as [Z [EZ [SZ HZ]]]. rewrite EZ. cbn [bind].
  destruct (fixed_coefficients_R p n U (cl_len _ _ _ CL) ltac:(lia) (cl_sorted _ _ _ CL) dim m Q v m SQ' Lv ltac:(lia) ltac:(lia)) as [N [EN [SN HN]]]. rewrite EN. cbn [bind].
  destruct (normal_matrix (knots_of p U) N pen fixed_difference) as [[X|e]| | |] eqn:EX; cbn [bind]; try reflexivity. f_equal.
  assert (ST := mtranspose_shape _ _ _ SZ).
  apply (system_same eps svd (knots_of p U) N pen fixed_difference X (mtranspose Z) (m - 1) (n - 1) dim (fun g d => ent W (1 + g) d) He CS SN EX).
  - intros q Dm Eq ED. destruct (fixed_difference_inv p n U (cl_len _ _ _ CL) _ _ ED) as [I1 I2]. destruct (fixed_difference_R p n U (cl_len _ _ _ CL) ltac:(lia) (kappa q) I1 I2) as [Dm' [ED' [SD _]]]. rewrite ED' in ED. injection ED as <-. eexists. exact SD.
  - exact ST.
  - intros i d Hi Hd. rewrite (ent_mtranspose_R dim (n - 1) Z d i SZ Hd Hi). rewrite HZ by assumption. apply rsum_ext. intros g Hg. rewrite HN by assumption. reflexivity.
  - intros x X1. set (x' := fun i => if (i =? 0)%nat then 0 else if (i =? n)%nat then 0 else x (i - 1)%nat).
    assert (N2 : (2 <= n)%nat). { destruct n as [|[|n']]; [lia| |lia]. unfold ip in X1. simpl in X1. lra. }
    assert (X'0 : x' 0%nat = 0) by reflexivity. assert (X'n : x' n = 0) by (unfold x'; rewrite Nat.eqb_refl; destruct (n =? 0)%nat; reflexivity).
    assert (X'i : forall i, (i < n - 1)%nat -> x' (S i) = x i). { intros i Hi. unfold x'. replace (S i =? 0)%nat with false by reflexivity. replace (S i =? n)%nat with false by (symmetry; apply Nat.eqb_neq; lia). replace (S i - 1)%nat with i by lia. reflexivity. }
    assert (F := kfun_clamped p n U CL).
    assert (SPL : forall f, rsum f (S n) = f 0%nat + rsum (fun i => f (S i)) (n - 1) + f n).
    { intros f. rewrite rsum_first. replace n with (S (n - 1)) at 1 by lia. cbn [rsum]. replace (S (n - 1)) with n by lia. ring. }
    assert (SPLm : forall f, rsum f (S m) = f 0%nat + rsum (fun i => f (S i)) (m - 1) + f m).
    { intros f. rewrite rsum_first. replace m with (S (m - 1)) at 1 by lia. cbn [rsum]. replace (S (m - 1)) with m by lia. ring. }
    assert (X1' : ip (S n) x' x' = 1). { rewrite <- X1. unfold ip. rewrite SPL, X'0, X'n. rewrite (rsum_ext (fun i => x' (S i) * x' (S i)) (fun i => x i * x i)) by (intros i Hi; rewrite X'i by exact Hi; reflexivity). ring. }
    eapply Rlt_le_trans; [apply (distinct_spline p n m eps U x' ltac:(lia) D CL UK X1')|]. rewrite SPLm.
    replace (INR 0 / INR m) with 0 by (cbn [INR]; unfold Rdiv; ring). assert (M0 : INR m <> 0) by (apply not_0_INR; lia). replace (INR m / INR m) with 1 by (field; exact M0).
    rewrite (spline_at_0 p n (kfun U) F), (spline_at_1 p n (kfun U) F), X'0, X'n.
    apply Req_le. transitivity (rsum (fun i => spline (kfun U) n p x' (INR (S i) / INR m) ^ 2) (m - 1)); [ring|]. unfold ip. apply rsum_ext. intros g Hg.
    assert (EI : spline (kfun U) n p x' (INR (S g) / INR m) = image (n - 1) (ent N) x g).
    { unfold spline. rewrite SPL, X'0, X'n. transitivity (rsum (fun i => bspline (kfun U) n p (S i) (INR (S g) / INR m) * x' (S i)) (n - 1)); [ring|]. unfold image, comb. apply rsum_ext. intros i Hi. rewrite X'i by exact Hi. rewrite HN by assumption. cbn [plus]. rewrite Hv by lia. reflexivity. }
    rewrite EI. ring.
Qed.

Theorem fits_transfer eps svd p n m : 0 <= eps -> cutoff_solver eps svd -> (1 <= p <= n)%nat -> (n <= m)%nat -> distinct p n m eps ->
  exists svd', good_solver svd' /\ forall dim (Q : Mat RNum) me pen, shape dim (S m) Q ->
    generate svd (LeastSquaresFit p Q n me pen) = generate svd' (LeastSquaresFit p Q n me pen).
Proof.
  intros He CS Hp Hm D. exists (patched svd). split; [apply patched_good|]. intros dim Q me pen SQ.
  destruct me; [apply (fixed_transfer eps svd p n m dim Q pen)|apply (loose_transfer eps svd p n m dim Q pen)]; assumption.
Qed.
