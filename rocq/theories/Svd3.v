(** * Interpolation and fits with a solver that drops small singular values *)

From Coq Require Import ZArith Reals List Bool Arith Lia Lra ClassicalEpsilon.
From Verif Require Import Num Vec MKnots MPoints MCurve MFit MGenerate RNum Hoare Lists Struct Spec BMath BMath2 BMath3 Api ApiV Bridge Facts1 Gen1 Gen2 Gen3 Gen4 LinAlg SW Fit1 Fit2 Fit3 Fit4 Fit5 Fit6 Fit7 FitNear Shape3 Svd1 Svd2.
Import ListNotations.
Local Open Scope R_scope.

(** ** a solver that is right wherever the given one is, and where it is not *)
Definition patched (svd : Mat RNum -> Mat RNum -> M (Mat RNum)) (A B : Mat RNum) : M (Mat RNum) :=
  if excluded_middle_informative (exists X, svd A B = Val X /\ solves A B X) then svd A B else some_solver A B.
Lemma patched_good svd : good_solver (patched svd).
Proof.
  intros A B X H. unfold patched. destruct excluded_middle_informative as [E|E]; [exact E|]. apply (some_solver_good A B X H).
Qed.
Lemma patched_same svd A B X : svd A B = Val X -> solves A B X -> patched svd A B = svd A B.
Proof. intros E H. unfold patched. destruct excluded_middle_informative as [?|N]; [reflexivity|]. destruct N. exists X. split; assumption. Qed.

(** ** a truncated solution is a solution when no singular value is dropped *)
Lemma truncated_solves eps A B X Y : 0 <= eps -> truncated eps A B X -> solves A B Y ->
  (forall s x y, 0 <= s -> ip (ncols A) x x = 1 -> ip (nrows A) y y = 1 -> (forall t, (t < nrows A)%nat -> image (ncols A) (ent A) x t = s * y t) -> eps < s) -> solves A B X.
Proof.
  intros He T [EN [SY HY]] HS. assert (SX : shape (ncols A) (ncols B) X) by apply T.
  destruct (truncated_columns eps A B X T) as (k & s & u & v & OU & OV & P & E & EX).
  split; [exact EN|]. split; [exact SX|]. intros t d Ht Hd.
  transitivity (image (ncols A) (ent A) (cut_solution (nrows A) k s u v eps (fun t => ent B d t)) t).
  - unfold image, comb. apply rsum_ext. intros i Hi. rewrite EX by assumption. reflexivity.
  - apply (cut_exact (nrows A) (ncols A) k (ent A) s u v eps OU OV E He (fun t => ent B d t) (fun i => ent Y d i)); [|..|exact Ht].
    + intros t' Ht'. unfold image, comb. apply HY; assumption.
    + intros l Hl. right. apply (HS (s l) (v l) (u l)); [apply P; exact Hl| | |].
      * rewrite OV by exact Hl. rewrite Nat.eqb_refl. reflexivity.
      * rewrite OU by exact Hl. rewrite Nat.eqb_refl. reflexivity.
      * intros t' Ht'. rewrite (image_dec (nrows A) (ncols A) k _ s u v E (v l) t' Ht'). rewrite (rsum_single _ k l Hl).
        -- rewrite OV by exact Hl. rewrite Nat.eqb_refl. ring.
        -- intros j Hj Ne. rewrite OV by assumption. replace (j =? l)%nat with false by (symmetry; apply Nat.eqb_neq; exact Ne). ring.
Qed.

(** ** interpolation *)
Lemma interp_step p m dim (Q : Mat RNum) : (1 <= p <= m)%nat -> shape dim (S m) Q ->
  exists U N, clamped p m U /\ uniform_knots p m U /\ @knots_new RNum p U = Val (knots_of p U) /\ shape (S m) (S m) N /\
    (forall g i, (g <= m)%nat -> (i <= m)%nat -> ent N i g = bspline (kfun U) m p i (INR g / INR m)) /\
    forall svd, generate svd (Interpolation p Q) = (X <- svd N (mtranspose Q);; curve_new (knots_of p U) (cp_new (mtranspose X))).
Proof.
  intros Hp SQ. assert (NQ : ncols Q = S m) by apply SQ.
  destruct (equally_spaced_R m ltac:(lia)) as [v [EV [Lv Hv]]].
  destruct (uniform_fact p m Hp) as [kn [U [A [B [V [CL [VU _]]]]]]].
  destruct (knots_new_inv p U kn B) as [-> _]. assert (UK := uniform_values p m U CL VU).
  destruct (collocation_R p m U (cl_len _ _ _ CL) ltac:(lia) (cl_sorted _ _ _ CL) dim Q v m SQ Lv) as [N [EN [SN HN]]].
  exists U, N. split; [exact CL|]. split; [exact UK|]. split; [exact B|]. split; [exact SN|]. split; [intros g i Hg Hi; rewrite (HN g i Hg Hi), (Hv g Hg); reflexivity|].
  intros svd. cbn [generate]. unfold params_generate, dp_segments. rewrite NQ. rewrite usub_ok by lia. cbn [bind]. replace (S m - 1)%nat with m by lia.
  rewrite EV. cbn [bind knots_generate]. rewrite A. cbn [bind]. unfold interpolate. rn. rewrite EN. cbn [bind].
  assert (ST := @mtranspose_shape RNum dim (S m) Q SQ).
  assert (NC : ncols N = S m) by apply SN. assert (NR : nrows N = S m) by apply SN. assert (TR : nrows (mtranspose Q) = S m) by apply ST.
  unfold svd_solve, mis_empty. rewrite NC, NR, TR, Nat.eqb_refl. cbn [Nat.eqb orb]. destruct (svd N (mtranspose Q)); reflexivity.
Qed.

Lemma collocation_image p n m U (N : Mat RNum) x g : (forall g i, (g <= m)%nat -> (i <= n)%nat -> ent N i g = bspline (kfun U) n p i (INR g / INR m)) -> (g <= m)%nat ->
  image (S n) (ent N) x g = spline (kfun U) n p x (INR g / INR m).
Proof. intros HN Hg. unfold image, comb, spline. apply rsum_ext. intros i Hi. rewrite HN by lia. reflexivity. Qed.

Lemma collocation_solvable p m dim U (N Q : Mat RNum) : (1 <= p)%nat -> clamped p m U -> uniform_knots p m U -> shape (S m) (S m) N -> shape dim (S m) Q ->
  (forall g i, (g <= m)%nat -> (i <= m)%nat -> ent N i g = bspline (kfun U) m p i (INR g / INR m)) -> exists Y, solves N (mtranspose Q) Y.
Proof.
  intros Hp CL UK SN SQ HN. assert (PN := cl_deg _ _ _ CL). apply (solvable N (mtranspose Q) (S m) (S m) dim SN (@mtranspose_shape RNum _ _ Q SQ)). intros d Hd.
  apply (square_solvable (S m) (fun g i => ent N i g) (fun g => ent (mtranspose Q) d g)).
  intros c Hc i Hi. apply (uniform_determined p m U CL UK Hp m (le_n m) c); [|lia]. intros g Hg. rewrite <- (collocation_image p m m U N c g HN Hg). apply Hc. lia.
Qed.

(** the condition on curves, for splines *)
Lemma distinct_spline p n m e U x : (1 <= m)%nat -> distinct p n m e -> clamped p n U -> uniform_knots p n U -> ip (S n) x x = 1 ->
  e < rsum (fun g => spline (kfun U) n p x (INR g / INR m) ^ 2) (S m).
Proof.
  intros Hm D CL UK X1. destruct (new_curve p n 1 U (mat_of 1 (S n) (fun _ i => x i)) CL (mat_of_shape _ _ _)) as [c HC].
  assert (T := D U (mat_of 1 (S n) (fun _ i => x i)) c (fun g => spline (kfun U) n p x (INR g / INR m)) HC UK).
  rewrite (rsum_ext (fun i => ent _ i 0 ^ 2) (fun i => x i * x i)) in T by (intros i Hi; rewrite ent_mat_of by lia; ring).
  change (rsum (fun i => x i * x i) (S n)) with (ip (S n) x x) in T. rewrite X1, Rmult_1_r in T. apply T.
  - intros g Hg. eapply returns_ext; [apply (cc_eval0 p n 1 U _ c (INR g / INR m) HC ltac:(apply frac01; lia))|]. intros d Hd. cbv beta. unfold spline. apply rsum_ext. intros i Hi. rewrite ent_mat_of by lia. reflexivity.
  - destruct (excluded_middle_informative (exists i, (i <= n)%nat /\ x i <> 0)) as [[i [Hi NZ]]|NE].
    + exists i. split; [exact Hi|]. rewrite ent_mat_of by lia. exact NZ.
    + exfalso. assert (Z : ip (S n) x x = 0); [|lra]. unfold ip. apply rsum_zero. intros i Hi. destruct (Req_dec (x i) 0) as [->|N]; [ring|]. destruct NE. exists i. split; [lia|exact N].
Qed.

Theorem interpolation_transfer eps svd p m : 0 <= eps -> cutoff_solver eps svd -> (1 <= p <= m)%nat -> distinct p m m (eps ^ 2) ->
  exists svd', good_solver svd' /\ forall dim (Q : Mat RNum), shape dim (S m) Q -> generate svd (Interpolation p Q) = generate svd' (Interpolation p Q).
Proof.
  intros He CS Hp D. exists (patched svd). split; [apply patched_good|]. intros dim Q SQ.
  destruct (interp_step p m dim Q Hp SQ) as (U & N & CL & UK & _ & SN & HN & G). rewrite !G.
  assert (NR : nrows N = S m) by apply SN. assert (NC : ncols N = S m) by apply SN. assert (TR : nrows (mtranspose Q) = S m) by apply (@mtranspose_shape RNum _ _ Q SQ).
  destruct (CS N (mtranspose Q) ltac:(congruence)) as [X [EX TX]]. destruct (collocation_solvable p m dim U N Q ltac:(lia) CL UK SN SQ HN) as [Y HY].
  rewrite (patched_same svd N (mtranspose Q) X EX); [reflexivity|]. apply (truncated_solves eps N (mtranspose Q) X Y He TX HY).
  rewrite NR, NC. intros s x y S0 X1 Y1 SV. assert (T := distinct_spline p m m (eps ^ 2) U x ltac:(lia) D CL UK X1).
  rewrite (rsum_ext _ (fun g => s ^ 2 * (y g * y g))) in T by (intros g Hg; rewrite <- (collocation_image p m m U N x g HN) by lia; rewrite SV by exact Hg; ring).
  rewrite rsum_scal in T. change (rsum (fun g => y g * y g) (S m)) with (ip (S m) y y) in T. rewrite Y1 in T. cbn in T. nra.
Qed.

(** what the truncated solution is, in any case *)
Lemma interp_truncated eps svd p m dim (Q : Mat RNum) : 0 <= eps -> cutoff_solver eps svd -> (1 <= p <= m)%nat -> shape dim (S m) Q ->
  exists U N C c k s u v, generate svd (Interpolation p Q) = Val (Ok c) /\ clamped_curve p m dim U C c /\ uniform_knots p m U /\
    shape (S m) (S m) N /\ (forall g i, (g <= m)%nat -> (i <= m)%nat -> ent N i g = bspline (kfun U) m p i (INR g / INR m)) /\
    ortho k (S m) u /\ ortho k (S m) v /\ (forall i, (i < k)%nat -> 0 <= s i) /\
    (forall i t, (i < S m)%nat -> (t < S m)%nat -> ent N i t = rsum (fun l => s l * u l t * v l i) k) /\
    forall i d, (i <= m)%nat -> (d < dim)%nat -> ent C i d = cut_solution (S m) k s u v eps (fun t => ent Q t d) i.
Proof.
  intros He CS Hp SQ. destruct (interp_step p m dim Q Hp SQ) as (U & N & CL & UK & B & SN & HN & G).
  assert (ST := @mtranspose_shape RNum _ _ Q SQ). assert (NR : nrows N = S m) by apply SN. assert (NC : ncols N = S m) by apply SN. assert (TR : nrows (mtranspose Q) = S m) by apply ST. assert (TC : ncols (mtranspose Q) = dim) by apply ST.
  destruct (CS N (mtranspose Q) ltac:(congruence)) as [X [EX TX]]. assert (SX : shape (S m) dim X) by (rewrite <- NC, <- TC; apply TX). assert (SC := @mtranspose_shape RNum _ _ X SX).
  destruct (curve_new_clamped p m dim U (mtranspose X) _ CL SC B) as [c [Ec HC]].
  destruct (truncated_columns eps N (mtranspose Q) X TX) as (k & s & u & v & OU & OV & P & E & XX). rewrite NR, NC in *. rewrite TC in XX.
  exists U, N, (mtranspose X), c, k, s, u, v. split; [rewrite G, EX; exact Ec|]. repeat (split; [assumption|]).
  intros i d Hi Hd. rewrite (ent_mtranspose_R (S m) dim X i d SX) by lia. rewrite XX by lia. unfold cut_solution, kept. apply rsum_ext. intros l Hl. destruct Rlt_dec; [|reflexivity]. do 2 f_equal.
  unfold ip. apply rsum_ext. intros t Ht. rewrite (ent_mtranspose_R dim (S m) Q d t SQ) by lia. reflexivity.
Qed.

Lemma interp_error p m dim U N (Q C : Mat RNum) c k s u v eps : (1 <= m)%nat -> clamped_curve p m dim U C c ->
  (forall g i, (g <= m)%nat -> (i <= m)%nat -> ent N i g = bspline (kfun U) m p i (INR g / INR m)) ->
  (forall i d, (i <= m)%nat -> (d < dim)%nat -> ent C i d = cut_solution (S m) k s u v eps (fun t => ent Q t d) i) ->
  data_error c dim m Q (rsum (fun d => ip (S m) (fun t => image (S m) (ent N) (cut_solution (S m) k s u v eps (fun t => ent Q t d)) t - ent Q t d)
    (fun t => image (S m) (ent N) (cut_solution (S m) k s u v eps (fun t => ent Q t d)) t - ent Q t d)) dim).
Proof.
  intros Hm HC HN XX. apply (data_error_val p m dim m U C c Q _ HC Hm). unfold fit_error. rewrite rsum_swap. apply rsum_ext. intros d Hd. unfold ip. apply rsum_ext. intros g Hg.
  rewrite (collocation_image p m m U N _ g HN) by lia.
  rewrite (spline_ext (kfun U) m p (fun i => ent C i d) (cut_solution (S m) k s u v eps (fun t => ent Q t d)) (INR g / INR m)) by (intros i Hi; apply XX; assumption). ring.
Qed.

Lemma squares_swap (Q : Mat RNum) dim m : squares Q dim m = rsum (fun d => ip m (fun t => ent Q t d) (fun t => ent Q t d)) dim.
Proof. unfold squares. rewrite rsum_swap. apply rsum_ext. intros d Hd. unfold ip. apply rsum_ext. intros; ring. Qed.

Theorem interpolation_always eps svd p m dim (Q : Mat RNum) : 0 <= eps -> cutoff_solver eps svd -> (1 <= p <= m)%nat -> shape dim (S m) Q ->
  exists U C c e, generate svd (Interpolation p Q) = Val (Ok c) /\ clamped_curve p m dim U C c /\ uniform_knots p m U /\
    eps ^ 2 * squares C dim (S m) <= squares Q dim (S m) /\ data_error c dim m Q e /\ e <= squares Q dim (S m).
Proof.
  intros He CS Hp SQ. destruct (interp_truncated eps svd p m dim Q He CS Hp SQ) as (U & N & C & c & k & s & u & v & G & HC & UK & SN & HN & OU & OV & P & E & XX).
  eexists U, C, c, _. split; [exact G|]. split; [exact HC|]. split; [exact UK|]. split; [|split; [apply (interp_error p m dim U N Q C c k s u v eps ltac:(lia) HC HN XX)|]].
  - rewrite !squares_swap, <- rsum_scal. apply BMath.rsum_le. intros d Hd.
    rewrite (ip_ext2 (S m) _ _ (cut_solution (S m) k s u v eps (fun t => ent Q t d)) (cut_solution (S m) k s u v eps (fun t => ent Q t d))) by (intros t Ht; apply XX; lia).
    apply (cut_bound (S m) (S m) k (ent N) s u v eps OU OV E He (fun t => ent Q t d)).
  - rewrite squares_swap. apply BMath.rsum_le. intros d Hd. apply (cut_residual (S m) (S m) k (ent N) s u v eps OU OV E He).
Qed.

Theorem interpolation_iff eps svd p m : 0 <= eps -> cutoff_solver eps svd -> (1 <= p <= m)%nat ->
  (distinct p m m (eps ^ 2) <-> forall dim (Q : Mat RNum), shape dim (S m) Q -> exists c, generate svd (Interpolation p Q) = Val (Ok c) /\
     forall g, (g <= m)%nat -> returns (evaluate c (INR g / INR m)) dim (fun d => ent Q g d)).
Proof.
  intros He CS Hp. split.
  - intros D dim Q SQ. destruct (interpolation_transfer eps svd p m He CS Hp D) as [svd' [GS TR]]. rewrite (TR dim Q SQ).
    destruct (interpolation_fact svd' p m dim Q GS Hp SQ) as (U & C & c & A & _ & _ & H & _). exists c. split; assumption.
  - intros H U C c f HC UK HF [i0 [Hi0 NZ]]. apply Rnot_le_lt. intros LE.
    set (Q := mat_of 1 (S m) (fun _ g => f g)). assert (SQ : shape 1 (S m) Q) by apply mat_of_shape. assert (EQ : forall g, (g <= m)%nat -> ent Q g 0 = f g) by (intros g Hg; unfold Q; apply ent_mat_of; lia).
    destruct (H 1%nat Q SQ) as [c1 [G1 I1]].
    destruct (interp_truncated eps svd p m 1 Q He CS Hp SQ) as (U2 & N & C2 & c2 & k & s & u & v & G2 & HC2 & UK2 & SN & HN & OU & OV & P & E & XX).
    rewrite G1 in G2. injection G2 as <-. assert (EU := uniform_list p m U U2 (proj1 HC) (proj1 HC2) UK UK2). subst U2.
    assert (VC : forall g, (g <= m)%nat -> f g = spline (kfun U) m p (fun i => ent C i 0) (INR g / INR m)).
    { intros g Hg. destruct (HF g Hg) as [x [Ex [_ Vx]]]. destruct (cc_eval0 p m 1 U C c (INR g / INR m) HC ltac:(apply frac01; lia)) as [x' [Ex' [_ Vx']]]. rewrite Ex in Ex'. injection Ex' as <-. rewrite <- (Vx 0%nat), (Vx' 0%nat) by lia. reflexivity. }
    assert (VC2 : forall g, (g <= m)%nat -> f g = spline (kfun U) m p (fun i => ent C2 i 0) (INR g / INR m)).
    { intros g Hg. destruct (I1 g Hg) as [x [Ex [_ Vx]]]. destruct (cc_eval0 p m 1 U C2 c1 (INR g / INR m) HC2 ltac:(apply frac01; lia)) as [x' [Ex' [_ Vx']]]. rewrite Ex in Ex'. injection Ex' as <-. rewrite <- (EQ g Hg), <- (Vx 0%nat), (Vx' 0%nat) by lia. reflexivity. }
    apply (cut_lost (S m) (S m) k (ent N) s u v eps OU OV E He (fun i => ent C i 0) (fun t => ent Q t 0)).
    + intros t Ht. rewrite (collocation_image p m m U N _ t HN) by lia. rewrite EQ by lia. symmetry. apply VC. lia.
    + intros Z. apply NZ. apply (ip_zero (S m) (fun i => ent C i 0) Z i0). lia.
    + eapply Rle_trans; [|eapply Rle_trans; [exact LE|]]; apply Req_le; [unfold ip; apply rsum_ext; intros t Ht; rewrite EQ by lia; ring|f_equal; unfold ip; apply rsum_ext; intros; ring].
    + intros i Hi. rewrite <- (XX i 0%nat) by lia. apply Rminus_diag_uniq.
      apply (uniform_determined p m U (proj1 HC) UK ltac:(lia) m (le_n m) (fun i => ent C2 i 0 - ent C i 0)); [|lia]. intros g Hg. rewrite spline_sub, <- VC, <- VC2 by exact Hg. ring.
Qed.

(** data that are lost *)
Theorem interpolation_lost eps svd p m (Q : Mat RNum) U th : 0 < eps -> cutoff_solver eps svd -> (1 <= p <= m)%nat -> shape 1 (S m) Q -> clamped p m U -> uniform_knots p m U ->
  rsum (fun i => rsum (fun g => bspline (kfun U) m p i (INR g / INR m) * ent Q g 0) (S m) ^ 2) (S m) <= th * eps ^ 2 * squares Q 1 (S m) ->
  exists c e, generate svd (Interpolation p Q) = Val (Ok c) /\ data_error c 1 m Q e /\ (1 - th) * squares Q 1 (S m) <= e.
Proof.
  intros He CS Hp SQ CL UK H. destruct (interp_truncated eps svd p m 1 Q ltac:(lra) CS Hp SQ) as (U2 & N & C2 & c2 & k & s & u & v & G2 & HC2 & UK2 & SN & HN & OU & OV & P & E & XX).
  assert (EU := uniform_list p m U U2 CL (proj1 HC2) UK UK2). subst U2.
  eexists c2, _. split; [exact G2|]. split; [apply (interp_error p m 1 U N Q C2 c2 k s u v eps ltac:(lia) HC2 HN XX)|]. cbn [rsum]. rewrite Rplus_0_l.
  assert (SQE : squares Q 1 (S m) = ip (S m) (fun t => ent Q t 0) (fun t => ent Q t 0)) by (rewrite squares_swap; cbn [rsum]; ring).
  rewrite SQE in *. apply (cut_miss (S m) (S m) k (ent N) s u v eps OU OV E ltac:(lra)); [|exact He].
  eapply Rle_trans; [|exact H]. apply Req_le. unfold ip at 1. apply rsum_ext. intros i Hi.
  assert (Q1 : ip (S m) (ent N i) (fun t => ent Q t 0) = rsum (fun g => bspline (kfun U) m p i (INR g / INR m) * ent Q g 0) (S m)) by (unfold ip; apply rsum_ext; intros g Hg; rewrite HN by lia; reflexivity).
  rewrite Q1. ring.
Qed.

Lemma rsum_ge_one f n i : (i < n)%nat -> (forall j, (j < n)%nat -> 0 <= f j) -> f i <= rsum f n.
Proof.
  revert i. induction n as [|n IH]; intros i Hi P; [lia|]. cbn [rsum]. destruct (Nat.eq_dec i n) as [->|N].
  - assert (0 <= rsum f n) by (apply rsum_nonneg; intros; apply P; lia). lra.
  - assert (f i <= rsum f n) by (apply IH; [lia|intros; apply P; lia]). assert (0 <= f n) by (apply P; lia). lra.
Qed.

(** degree one: nothing is ever dropped *)
Lemma polyline_data m U (C : Mat RNum) c g : (1 <= m)%nat -> clamped_curve 1 m 1 U C c -> uniform_knots 1 m U -> (g <= m)%nat -> returns (evaluate c (INR g / INR m)) 1 (fun d => ent C g d).
Proof.
  intros Hm HC UK Hg. assert (M0 : 0 < INR m) by (apply lt_0_INR; lia).
  assert (UV : forall i, (1 <= i <= m + 1)%nat -> nth i U 0 = INR (i - 1) / INR m) by (intros i Hi; rewrite UK by lia; do 2 f_equal; lia).
  assert (ST : forall j, (1 <= j <= m)%nat -> nth (S j) U 0 = nth j U 0 + / INR m).
  { intros j Hj. rewrite !UV by lia. replace (S j - 1)%nat with (S (j - 1)) by lia. rewrite S_INR. field. lra. }
  assert (I0 : 0 < / INR m) by (apply Rinv_0_lt_compat; exact M0).
  destruct (le_lt_dec m g) as [L|L].
  - assert (g = m) by lia. subst g. assert (K := UV (S m) ltac:(lia)). replace (S m - 1)%nat with m in K by lia. assert (K2 := ST m ltac:(lia)).
    assert (K1 : INR m / INR m = 1) by (field; lra). rewrite K1 in *.
    eapply returns_ext; [apply (polyline m 1 U C c m 1 HC); [lia| | |]; lra|]. intros d Hd. cbv beta. rewrite K. field. lra.
  - assert (K := UV (S g) ltac:(lia)). replace (S g - 1)%nat with g in K by lia. assert (K2 := ST (S g) ltac:(lia)).
    eapply returns_ext; [apply (polyline m 1 U C c (S g) (INR g / INR m) HC); [lia| | |]; lra|]. intros d Hd. cbv beta. rewrite K2, K. replace (S g - 1)%nat with g by lia. field. lra.
Qed.
Lemma distinct_one m e : (1 <= m)%nat -> e < 1 -> distinct 1 m m e.
Proof.
  intros Hm He U C c f HC UK HF [i0 [Hi0 NZ]].
  assert (V : forall g, (g <= m)%nat -> f g = ent C g 0).
  { intros g Hg. destruct (HF g Hg) as [x [Ex [_ Vx]]]. destruct (polyline_data m U C c g Hm HC UK Hg) as [x' [Ex' [_ Vx']]]. rewrite Ex in Ex'. injection Ex' as <-. rewrite <- (Vx 0%nat), (Vx' 0%nat) by lia. reflexivity. }
  rewrite (rsum_ext (fun g => f g ^ 2) (fun g => ent C g 0 ^ 2)) by (intros g Hg; rewrite V by lia; reflexivity).
  assert (P : 0 < rsum (fun g => ent C g 0 ^ 2) (S m)).
  { apply Rlt_le_trans with (ent C i0 0 ^ 2); [cbn; rewrite Rmult_1_r; apply Rsqr_pos_lt; exact NZ|]. apply (rsum_ge_one (fun g => ent C g 0 ^ 2) (S m) i0); [lia|]. intros. apply pow2_ge_0. }
  nra.
Qed.
