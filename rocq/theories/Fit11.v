(** * Fits of samples of a function *)

From Coq Require Import Reals List Arith Lra Lia.
From Verif Require Import Num Vec MKnots MPoints MCurve MFit MGenerate RNum Lists Spec BMath BMath2 BMath3 BMath4 SW Api ApiS Bridge Facts1 Shape1 Shape2 Shape3 Stab Shape6 Shape8 Fit3 Fit5 Fit6 Fit7.
Import ListNotations.
Local Open Scope R_scope.

(** a curve of the family that is near the data at every parameter bounds the error *)
Lemma near_error p n m dim U C c (Q : Mat RNum) b e : clamped_curve p n dim U C c -> (1 <= m)%nat ->
  (forall g, (g <= m)%nat -> exists x, evaluate c (INR g / INR m) = Val (Ok x) /\ length x = dim /\ forall d, (d < dim)%nat -> Rabs (nth d x 0 - ent Q g d) <= b) ->
  data_error c dim m Q e -> e <= INR (S m) * (INR dim * b ^ 2).
Proof.
  intros HC Hm Near [f [Hf ->]].
  rewrite <- rsum_const. apply rsum_le. intros g Hg. rewrite <- rsum_const. apply rsum_le. intros d Hd.
  destruct (Near g ltac:(lia)) as [x [E [L B]]]. destruct (Hf g ltac:(lia)) as [y [E' [L' V]]]. rewrite E in E'. injection E' as <-.
  rewrite <- (V d Hd). rewrite <- (pow2_abs (nth d x 0 - _)). apply pow_incr. split; [apply Rabs_pos|apply B; exact Hd].
Qed.

Lemma uniform_step p n U i : uniform_knots p n U -> (p <= i <= n)%nat -> nth (S i) U 0 - nth i U 0 <= / INR (n - p + 1).
Proof.
  intros Hu Hi. rewrite (Hu i) by lia. rewrite (Hu (S i)) by lia. assert (Q : 0 < INR (n - p + 1)) by (apply lt_0_INR; lia).
  replace (S i - p)%nat with (S (i - p)) by lia. rewrite S_INR. right. field. lra.
Qed.

(** the curve with sampled control points *)
Lemma sampled_curve p n dim U (f : nat -> R -> R) : clamped p n U ->
  exists C c, clamped_curve p n dim U C c /\ forall i d, (i <= n)%nat -> (d < dim)%nat -> ent C i d = f d (average U p i).
Proof.
  intros CL. destruct (new_curve p n dim U (mat_of dim (S n) (fun d i => f d (average U p i))) CL (mat_of_shape _ _ _)) as [c H].
  eexists. exists c. split; [exact H|]. intros i d Hi Hd. rewrite ent_mat_of by lia. reflexivity.
Qed.

Lemma average_first p n U : clamped p n U -> (1 <= p)%nat -> average U p 0 = 0.
Proof.
  intros C Hp. rewrite (avg_average p n) by (try lia; exact C). unfold avg. rewrite rsum_zero; [unfold Rdiv; ring|].
  intros k Hk. apply (fc_zero _ _ _ (kfun_clamped _ _ _ C)). lia.
Qed.
Lemma average_last p n U : clamped p n U -> (1 <= p)%nat -> average U p n = 1.
Proof.
  intros C Hp. rewrite (avg_average p n) by (try lia; exact C). unfold avg. rewrite (rsum_ext _ (fun _ => 1)).
  - rewrite rsum_const. field. apply not_0_INR. lia.
  - intros k Hk. apply (fc_one _ _ _ (kfun_clamped _ _ _ C)). lia.
Qed.

Section Samples.
  Variables (p n m dim : nat) (f : nat -> R -> R) (Q : Mat RNum) (b s : R).
  Hypothesis Hp : (1 <= p <= n)%nat.
  Hypothesis Near : forall U C c, clamped_curve p n dim U C c -> uniform_knots p n U ->
    (forall i d, (i <= n)%nat -> (d < dim)%nat -> ent C i d = f d (average U p i)) ->
    forall u, 0 <= u <= 1 -> exists x, evaluate c u = Val (Ok x) /\ length x = dim /\ forall d, (d < dim)%nat -> Rabs (nth d x 0 - f d u) <= b.
  Hypothesis Noise : forall g d, (g <= m)%nat -> (d < dim)%nat -> Rabs (ent Q g d - f d (INR g / INR m)) <= s.

  Lemma sampled_error U C c e : (1 <= m)%nat -> clamped_curve p n dim U C c -> uniform_knots p n U ->
    (forall i d, (i <= n)%nat -> (d < dim)%nat -> ent C i d = f d (average U p i)) -> data_error c dim m Q e -> e <= INR (S m) * (INR dim * (s + b) ^ 2).
  Proof.
    intros Hm H UK HC. apply (near_error p n m dim U C c Q (s + b) e H Hm). intros g Hg.
    destruct (Near U C c H UK HC (INR g / INR m) ltac:(apply frac01; lia)) as [x [E [L B]]]. exists x. split; [exact E|]. split; [exact L|].
    intros d Hd. assert (T1 := B d Hd). assert (T2 := Noise g d Hg Hd).
    replace (nth d x 0 - ent Q g d) with ((nth d x 0 - f d (INR g / INR m)) + - (ent Q g d - f d (INR g / INR m))) by ring.
    eapply Rle_trans; [apply Rabs_triang|]. rewrite Rabs_Ropp. lra.
  Qed.

  Lemma loose_samples svd : good_solver svd -> shape dim (S m) Q -> (n <= m)%nat ->
    exists c e, generate svd (LeastSquaresFit p Q n LooseEnds None) = Val (Ok c) /\ data_error c dim m Q e /\ e <= INR (S m) * (INR dim * (s + b) ^ 2).
  Proof.
    intros GS SQ Hm. destruct (loose_fit_fact svd p n m dim Q None GS SQ Hp Hm ltac:(discriminate)) as [U [C [c [e [E [HC [UK [DE UN]]]]]]]].
    exists c, e. split; [exact E|]. split; [exact DE|].
    destruct (sampled_curve p n dim U f (proj1 HC)) as [C' [c' [H' S']]].
    assert (DE' := proj2 (data_error_val p n dim m U C' c' Q _ H' ltac:(lia)) eq_refl).
    destruct (UN C' c' _ H' DE') as [A _]. cbn [penalty] in A. assert (B := sampled_error U C' c' _ ltac:(lia) H' UK S' DE'). lra.
  Qed.

  Lemma fixed_samples svd : good_solver svd -> shape dim (S m) Q -> (2 <= n <= m)%nat -> (forall d, (d < dim)%nat -> ent Q 0 d = f d 0) -> (forall d, (d < dim)%nat -> ent Q m d = f d 1) ->
    exists c e, generate svd (LeastSquaresFit p Q n FixedEnds None) = Val (Ok c) /\ data_error c dim m Q e /\ e <= INR (S m) * (INR dim * (s + b) ^ 2).
  Proof.
    intros GS SQ Hm Q0 Q1. destruct (fixed_fit_fact svd p n m dim Q None GS SQ Hp Hm ltac:(discriminate)) as [U [C [c [e [E [HC [UK [DE [E0 [E1 UN]]]]]]]]]].
    exists c, e. split; [exact E|]. split; [exact DE|].
    destruct (sampled_curve p n dim U f (proj1 HC)) as [C' [c' [H' S']]].
    assert (DE' := proj2 (data_error_val p n dim m U C' c' Q _ H' ltac:(lia)) eq_refl).
    destruct (end_values p n dim U C' c' (fun d => ent Q 0 d) (fun d => ent Q m d) H') as [V0 V1].
    destruct (UN C' c' _ H' DE') as [A _].
    - apply V0. intros d Hd. rewrite S', (average_first p n), Q0 by (try lia; try apply HC; exact Hd). reflexivity.
    - apply V1. intros d Hd. rewrite S', (average_last p n), Q1 by (try lia; try apply HC; exact Hd). reflexivity.
    - cbn [penalty] in A. assert (B := sampled_error U C' c' _ ltac:(lia) H' UK S' DE'). lra.
  Qed.
End Samples.

Lemma smooth_near p n dim (f f' : nat -> R -> R) M : (1 <= p <= n)%nat ->
  (forall d x, (d < dim)%nat -> 0 <= x <= 1 -> derivable_pt_lim (f d) x (f' d x)) ->
  (forall d x y, (d < dim)%nat -> 0 <= x <= 1 -> 0 <= y <= 1 -> Rabs (f' d x - f' d y) <= M * Rabs (x - y)) ->
  forall U C c, clamped_curve p n dim U C c -> uniform_knots p n U ->
    (forall i d, (i <= n)%nat -> (d < dim)%nat -> ent C i d = f d (average U p i)) ->
    forall u, 0 <= u <= 1 -> exists x, evaluate c u = Val (Ok x) /\ length x = dim /\ forall d, (d < dim)%nat -> Rabs (nth d x 0 - f d u) <= M / 2 * ((INR p + 1) / 2 * / INR (n - p + 1)) ^ 2.
Proof.
  intros Hp Hf Lip U C c H UK HC. apply (second_order p n dim U C c f f' _ M H ltac:(lia)); try assumption.
  intros i Hi. apply (uniform_step p n U i UK Hi).
Qed.

Lemma loose_smooth svd p n m dim (Q : Mat RNum) (f f' : nat -> R -> R) M s : good_solver svd -> shape dim (S m) Q -> (1 <= p <= n)%nat -> (n <= m)%nat ->
  (forall d x, (d < dim)%nat -> 0 <= x <= 1 -> derivable_pt_lim (f d) x (f' d x)) ->
  (forall d x y, (d < dim)%nat -> 0 <= x <= 1 -> 0 <= y <= 1 -> Rabs (f' d x - f' d y) <= M * Rabs (x - y)) ->
  (forall g d, (g <= m)%nat -> (d < dim)%nat -> Rabs (ent Q g d - f d (INR g / INR m)) <= s) ->
  exists c e, generate svd (LeastSquaresFit p Q n LooseEnds None) = Val (Ok c) /\ data_error c dim m Q e /\
    e <= INR (S m) * (INR dim * (s + M / 2 * ((INR p + 1) / 2 * / INR (n - p + 1)) ^ 2) ^ 2).
Proof.
  intros GS SQ Hp Hm Hf Lip Noise. apply (loose_samples p n m dim f Q _ s Hp); try assumption. apply (smooth_near p n dim f f' M); assumption.
Qed.

Lemma fixed_smooth svd p n m dim (Q : Mat RNum) (f f' : nat -> R -> R) M s : good_solver svd -> shape dim (S m) Q -> (1 <= p <= n)%nat -> (2 <= n <= m)%nat ->
  (forall d x, (d < dim)%nat -> 0 <= x <= 1 -> derivable_pt_lim (f d) x (f' d x)) ->
  (forall d x y, (d < dim)%nat -> 0 <= x <= 1 -> 0 <= y <= 1 -> Rabs (f' d x - f' d y) <= M * Rabs (x - y)) ->
  (forall g d, (g <= m)%nat -> (d < dim)%nat -> Rabs (ent Q g d - f d (INR g / INR m)) <= s) ->
  (forall d, (d < dim)%nat -> ent Q 0 d = f d 0 /\ ent Q m d = f d 1) ->
  exists c e, generate svd (LeastSquaresFit p Q n FixedEnds None) = Val (Ok c) /\ data_error c dim m Q e /\
    e <= INR (S m) * (INR dim * (s + M / 2 * ((INR p + 1) / 2 * / INR (n - p + 1)) ^ 2) ^ 2).
Proof.
  intros GS SQ Hp Hm Hf Lip Noise Ends. apply (fixed_samples p n m dim f Q _ s Hp); try assumption; [|intros; apply Ends; assumption|intros; apply Ends; assumption].
  apply (smooth_near p n dim f f' M); assumption.
Qed.

(** every continuous function: the mean square residual becomes as small as wanted *)
Lemma loose_continuous svd p dim (f : nat -> R -> R) b : good_solver svd -> (1 <= p)%nat -> 0 < b -> (forall d x, (d < dim)%nat -> 0 <= x <= 1 -> continuous_on01 (f d) x) ->
  exists N, forall n m (Q : Mat RNum), (N <= n)%nat -> (n <= m)%nat -> shape dim (S m) Q ->
    (forall g d, (g <= m)%nat -> (d < dim)%nat -> ent Q g d = f d (INR g / INR m)) ->
    exists c e, generate svd (LeastSquaresFit p Q n LooseEnds None) = Val (Ok c) /\ data_error c dim m Q e /\ e <= INR (S m) * (INR dim * b ^ 2).
Proof.
  intros GS Hp Hb Hc. destruct (approximation p dim f b Hp Hb Hc) as [N HN]. exists (N + p)%nat. intros n m Q Hn Hm SQ HQ.
  replace (b ^ 2) with ((0 + b) ^ 2) by ring. apply (loose_samples p n m dim f Q b 0 ltac:(lia)); try assumption.
  - intros U C c H UK HC. apply (HN n U C c ltac:(lia) H UK HC).
  - intros g d Hg Hd. rewrite HQ by assumption. rewrite Rminus_diag_eq by reflexivity. rewrite Rabs_R0. lra.
Qed.
