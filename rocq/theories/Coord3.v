(** * Linear maps of the control points commute with every edit *)

From Coq Require Import ZArith Reals List Bool Arith Lia Lra.
From Verif Require Import Num Vec MKnots MPoints MCurve RNum Lists Spec Api ApiC ApiL BMath Bridge Coord Coord2.
Import ListNotations.
Local Open Scope R_scope.

Section Linear.
  Context (A : nat -> nat -> R) (dim dim' : nat).

  Definition lrel (a b : list RNum) : Prop := length a = dim /\ b = linear A dim dim' a.

  Lemma linear_length v : length (linear A dim dim' v) = dim'.
  Proof. unfold linear. rewrite map_length, seq_length. reflexivity. Qed.

  Lemma linear_nth v e : (e < dim')%nat -> nth e (linear A dim dim' v) 0 = rsum (fun d => A e d * nth d v 0) dim.
  Proof.
    intros He. unfold linear. rewrite (nth_indep _ 0 (rsum (fun d => A 0%nat d * nth d v 0) dim)) by (rewrite map_length, seq_length; exact He).
    rewrite (map_nth (fun e => rsum (fun d => A e d * nth d v 0) dim) (seq 0 dim') 0%nat e).
    rewrite seq_nth by exact He. reflexivity.
  Qed.

  Lemma lrel_zip (f : R -> R -> R) s t (Hf : forall x y, f x y = s * x + t * y) (a b a' b' : list RNum) :
    lrel a b -> lrel a' b' -> rM lrel (zipM (K := RNum) f a a') (zipM (K := RNum) f b b').
  Proof.
    intros [Ha ->] [Ha' ->]. destruct (zipM_val (K := RNum) f a a') as [c [E [Hc N]]]; [congruence|].
    destruct (zipM_val (K := RNum) f (linear A dim dim' a) (linear A dim dim' a')) as [g [E' [Hg N']]]; [rewrite !linear_length; reflexivity|].
    rewrite E, E'. split; [congruence|].
    rewrite linear_length in Hg. apply (nth_ext _ _ 0 0); [rewrite linear_length; exact Hg|].
    intros e He0. assert (He : (e < dim')%nat) by (rewrite <- Hg; exact He0). rewrite linear_nth by exact He.
    assert (X : nth e g 0 = f (nth e (linear A dim dim' a) 0) (nth e (linear A dim dim' a') 0)).
    { apply (N' e 0). rewrite linear_length. exact He. }
    transitivity (f (nth e (linear A dim dim' a) 0) (nth e (linear A dim dim' a') 0)); [exact X|].
    rewrite !linear_nth, Hf by exact He. rewrite <- !rsum_scal, <- rsum_plus. apply rsum_ext. intros d Hd.
    assert (Y : nth d c 0 = f (nth d a 0) (nth d a' 0)) by (apply (N d 0); rewrite Ha; exact Hd).
    change (T RNum) with R in *. rewrite Y, Hf. ring.
  Qed.

  Lemma lrel_map s (a b : list RNum) : lrel a b -> lrel (map (fun x => s * x) a) (map (fun x => s * x) b).
  Proof.
    intros [Ha ->]. split; [rewrite map_length; exact Ha|].
    apply (nth_ext _ _ 0 0); [rewrite map_length, !linear_length; reflexivity|].
    intros e He. rewrite map_length, linear_length in He. rewrite linear_nth by exact He.
    rewrite (nth_indep _ 0 (s * 0)) by (rewrite map_length, linear_length; exact He).
    rewrite (map_nth (fun x => s * x)), linear_nth by exact He. rewrite <- rsum_scal. apply rsum_ext. intros d Hd.
    rewrite (nth_indep (map _ a) 0 (s * 0)) by (rewrite map_length; rn; lia). rewrite (map_nth (fun x => s * x)). ring.
  Qed.

  Lemma linear_fact p (U : list RNum) P m c : shape dim m P -> built p U P c ->
    exists c1, built p U (linear_points A dim dim' P) c1 /\
      forall es u k, evaluate_edited c1 es u k = mapped (linear A dim dim') (evaluate_edited c es u k).
  Proof.
    intros [S1 [S2 S3]] B.
    assert (Hr : rmat (K := RNum) dim dim' lrel P (linear_points A dim dim' P)).
    { split; [exact S1|]. split; [reflexivity|]. simpl.
      assert (F : forall v, In v (mcols P) -> length v = dim).
      { intros v Hv. destruct (In_nth _ _ [] Hv) as [i [Hi <-]]. apply S3. unfold ncols in *. lia. }
      clear S2 S3. induction (mcols P) as [|v l IH]; simpl; constructor.
      - split; [apply F; left; reflexivity|reflexivity].
      - apply IH. intros w Hw. apply F. right. exact Hw. }
    assert (Z : lrel (vzeros dim) (vzeros dim')).
    { split; [apply repeat_length|]. apply (nth_ext _ _ 0 0); [unfold vzeros; rewrite repeat_length, linear_length; reflexivity|].
      intros e He. unfold vzeros in *. rewrite repeat_length in He. rewrite linear_nth by exact He.
      change (@n0 RNum) with 0. rewrite nth_repeat. symmetry. rewrite (rsum_ext _ (fun _ => 0)).
      - clear. induction dim as [|q IH]; simpl; [reflexivity|]. rewrite IH. lra.
      - intros d Hd. rewrite nth_repeat. ring. }
    assert (Sc : forall s a b, lrel a b -> lrel (vscale s a) (vscale s b)).
    { intros s a b H. apply (lrel_map s a b H). }
    assert (Mu : forall s a b, lrel a b -> lrel (vmul_scalar a s) (vmul_scalar b s)).
    { intros s a b H. assert (X : forall l : list RNum, vmul_scalar l s = map (fun x => s * x) l).
      { intros l. unfold vmul_scalar. apply map_ext. intros x. rn. ring. }
      rewrite !X. apply (lrel_map s a b H). }
    assert (PL : forall a b, lrel a b -> length a = dim) by (intros a b [H _]; exact H).
    assert (PR : forall a b, lrel a b -> length b = dim').
    { intros a b [_ ->]. apply linear_length. }
    assert (Ad : forall a b a' b', lrel a b -> lrel a' b' -> rM lrel (vadd a a') (vadd b b')).
    { intros a b a' b'. apply (lrel_zip Rplus 1 1). intros; ring. }
    assert (Sb : forall a b a' b', lrel a b -> lrel a' b' -> rM lrel (vsub a a') (vsub b b')).
    { intros a b a' b'. apply (lrel_zip Rminus 1 (-1)). intros; ring. }
    destruct (rbuilt (K := RNum) dim dim' lrel PL PR Z Sb Sc p U P _ c Hr B) as [c1 [B1 R1]].
    exists c1. split; [exact B1|]. intros es u k.
    assert (G := revaluate_edited dim dim' lrel PL PR Z Ad Sb Sc Mu es c c1 u k R1).
    destruct (evaluate_edited c es u k) as [[v|e]| | |], (evaluate_edited c1 es u k) as [[w|f]| | |];
      simpl in G |- *; try contradiction; try reflexivity.
    - destruct G as [_ ->]. reflexivity.
    - subst. reflexivity.
  Qed.
End Linear.

(** ** Linear combinations of two curves *)
Lemma built_fun {K : Num} p (U : list K) P c c' : built p U P c -> built p U P c' -> c = c'.
Proof. intros [k [E1 E2]] [k' [E3 E4]]. congruence. Qed.

(** whether a curve can be built depends only on the number of points *)
Lemma built_other p (U : list RNum) dim dim2 m P Q c : shape dim m P -> shape dim2 m Q -> built p U P c -> exists d, built p U Q d.
Proof.
  intros [S1 [S2 S3]] [T1 [T2 T3]] B.
  pose (V := fun a b : list RNum => length a = dim /\ length b = dim2).
  assert (Hr : rmat (K := RNum) dim dim2 V P Q).
  { split; [exact S1|]. split; [exact T1|].
    assert (F : forall v, In v (mcols P) -> length v = dim).
    { intros v Hv. destruct (In_nth _ _ [] Hv) as [i [Hi <-]]. apply S3. unfold ncols in *. lia. }
    assert (G : forall v, In v (mcols Q) -> length v = dim2).
    { intros v Hv. destruct (In_nth _ _ [] Hv) as [i [Hi <-]]. apply T3. unfold ncols in *. lia. }
    unfold ncols in *. assert (L : length (mcols P) = length (mcols Q)) by congruence. clear - F G L.
    revert L F G. generalize (mcols Q). induction (mcols P) as [|v l IH]; intros [|w r] L F G; simpl in *; try discriminate; constructor.
    - split; [apply F; left; reflexivity|apply G; left; reflexivity].
    - apply IH; [lia| |]; intros; [apply F|apply G]; right; assumption. }
  assert (Z : forall f (a b a' b' : list RNum), V a b -> V a' b' -> rM V (zipM f a a') (zipM f b b')).
  { intros f a b a' b' [H1 H2] [H3 H4].
    destruct (zipM_val f a a') as [x [E [L _]]]; [congruence|]. destruct (zipM_val f b b') as [y [E' [L' _]]]; [congruence|].
    rewrite E, E'. split; congruence. }
  destruct (rbuilt (K := RNum) dim dim2 V) with (p := p) (U := U) (P := P) (Q := Q) (c := c) as [d [B' _]].
  - intros a b H; apply H.
  - intros a b H; apply H.
  - split; apply repeat_length.
  - apply (Z nsub).
  - intros s a b [H1 H2]. unfold vscale. split; rewrite map_length; assumption.
  - exact Hr.
  - exact B.
  - exists d. exact B'.
Qed.

Definition stack (P Q : Mat RNum) : Mat RNum :=
  mkMat (K := RNum) (nrows P + nrows Q) (map (fun x => fst x ++ snd x) (combine (mcols P) (mcols Q))).

Lemma stack_col dim m (P Q : Mat RNum) x : shape dim m P -> shape dim m Q -> In x (combine (mcols P) (mcols Q)) -> length (fst x) = dim /\ length (snd x) = dim.
Proof.
  intros [S1 [S2 S3]] [T1 [T2 T3]] H. destruct x as [v w]. simpl. split.
  - apply in_combine_l in H. destruct (In_nth _ _ [] H) as [i [Hi <-]]. apply S3. unfold ncols in *. lia.
  - apply in_combine_r in H. destruct (In_nth _ _ [] H) as [i [Hi <-]]. apply T3. unfold ncols in *. lia.
Qed.

Definition dlt (i j : nat) : R := if Nat.eq_dec i j then 1 else 0.

Lemma rsum_dlt e f n : (e < n)%nat -> rsum (fun d => dlt e d * f d) n = f e.
Proof.
  intros H. rewrite (rsum_single _ n e); [unfold dlt; destruct Nat.eq_dec; [ring|contradiction]|exact H|].
  intros i Hi Hn. unfold dlt. destruct Nat.eq_dec; [congruence|ring].
Qed.

Lemma linear_left dim (v w : list R) : length v = dim -> linear dlt (dim + dim) dim (v ++ w) = v.
Proof.
  intros H. apply (nth_ext _ _ 0 0); [rewrite linear_length; congruence|].
  intros e He. rewrite linear_length in He. rewrite linear_nth by exact He.
  rewrite (rsum_dlt e (fun d => nth d (v ++ w) 0)) by lia. apply app_nth1. rewrite H. exact He.
Qed.

Lemma linear_right dim (v w : list R) : length v = dim -> length w = dim -> linear (fun e => dlt (dim + e)) (dim + dim) dim (v ++ w) = w.
Proof.
  intros H Hw. apply (nth_ext _ _ 0 0); [rewrite linear_length; congruence|].
  intros e He. rewrite linear_length in He. rewrite linear_nth by exact He.
  rewrite (rsum_dlt (dim + e) (fun d => nth d (v ++ w) 0)) by lia. rewrite app_nth2 by lia. f_equal. lia.
Qed.

Lemma blend_nth a b v w e : length v = length w -> (e < length v)%nat -> nth e (blend a b v w) 0 = a * nth e v 0 + b * nth e w 0.
Proof.
  intros H He. unfold blend. rewrite (nth_indep _ 0 (a * fst (0, 0) + b * snd (0, 0))) by (rewrite map_length, combine_length; lia).
  rewrite (map_nth (fun x => a * fst x + b * snd x)), combine_nth by exact H. reflexivity.
Qed.

Lemma blend_length a b v w : length v = length w -> length (blend a b v w) = length v.
Proof. intros H. unfold blend. rewrite map_length, combine_length. lia. Qed.

Lemma linear_blend a b dim (x : list R) : length x = (dim + dim)%nat ->
  linear (fun e d => a * dlt e d + b * dlt (dim + e) d) (dim + dim) dim x =
  blend a b (linear dlt (dim + dim) dim x) (linear (fun e => dlt (dim + e)) (dim + dim) dim x).
Proof.
  intros H. apply (nth_ext _ _ 0 0); [rewrite blend_length by (rewrite !linear_length; reflexivity); rewrite !linear_length; reflexivity|].
  intros e He. rewrite linear_length in He. rewrite blend_nth; [|rewrite !linear_length; reflexivity|rewrite linear_length; exact He].
  rewrite !linear_nth by exact He. rewrite <- !rsum_scal, <- rsum_plus. apply rsum_ext. intros; ring.
Qed.

Lemma stack_map (f : list R -> list R) (g : list R * list R -> list R) r (P Q : Mat RNum) :
  (forall x, In x (combine (mcols P) (mcols Q)) -> f (fst x ++ snd x) = g x) ->
  mkMat (K := RNum) r (map f (mcols (stack P Q))) = mkMat (K := RNum) r (map g (combine (mcols P) (mcols Q))).
Proof. intros H. f_equal. simpl. rewrite map_map. apply map_ext_in. exact H. Qed.

Lemma map_fst_combine {A} (l r : list A) : length l = length r -> map fst (combine l r) = l.
Proof. revert r. induction l as [|x l IH]; intros [|y r] H; simpl in *; try discriminate; [reflexivity|]. f_equal. apply IH. lia. Qed.

Lemma map_snd_combine {A} (l r : list A) : length l = length r -> map snd (combine l r) = r.
Proof. revert r. induction l as [|x l IH]; intros [|y r] H; simpl in *; try discriminate; [reflexivity|]. f_equal. apply IH. lia. Qed.

Lemma evaluate_edited_length dim m p (U : list RNum) P c es u k v : shape dim m P -> built p U P c ->
  evaluate_edited c es u k = Val (Ok v) -> length v = dim.
Proof.
  intros S B E. destruct (linear_fact dlt dim dim p U P m c S B) as [c1 [B1 H]].
  assert (EP : linear_points dlt dim dim P = P).
  { destruct S as [S1 [S2 S3]]. destruct P as [r cs]. unfold linear_points. simpl in *. f_equal; [congruence|].
    rewrite <- (map_id cs) at 2. apply map_ext_in. intros w Hw.
    assert (Lw : length w = dim). { destruct (In_nth _ _ [] Hw) as [i [Hi <-]]. apply S3. unfold ncols in *. simpl in *. lia. }
    apply (nth_ext _ _ 0 0); [rewrite linear_length; congruence|]. intros e He. rewrite linear_length in He.
    rewrite linear_nth by exact He. apply (rsum_dlt e (fun d => nth d w 0)). exact He. }
  rewrite EP in B1. rewrite <- (built_fun _ _ _ _ _ B B1) in H. specialize (H es u k). rewrite E in H. simpl in H.
  assert (X : v = linear dlt dim dim v) by congruence. rewrite X. apply linear_length.
Qed.

Lemma blend_fact a b p (U : list RNum) dim m P Q c d : shape dim m P -> shape dim m Q -> built p U P c -> built p U Q d ->
  exists s, built p U (blend_points a b P Q) s /\
    forall es u k, blended_outcome a b (evaluate_edited c es u k) (evaluate_edited d es u k) (evaluate_edited s es u k).
Proof.
  intros SP SQ BP BQ.
  assert (SS : shape (dim + dim) m (stack P Q)).
  { destruct (SP) as [S1 [S2 S3]], (SQ) as [T1 [T2 T3]]. unfold stack, shape, ncols in *. simpl.
    split; [congruence|]. split; [change (T RNum) with R in *; rewrite map_length, combine_length; change (T RNum) with R; rewrite S2, T2; apply Nat.min_id|].
    intros i Hi. pose (app2 := fun x : list RNum * list RNum => fst x ++ snd x). change (length (nth i (map app2 (combine (mcols P) (mcols Q))) (app2 ([], []))) = (dim + dim)%nat). rewrite map_nth. unfold app2.
    assert (I : In (nth i (combine (mcols P) (mcols Q)) ([], [])) (combine (mcols P) (mcols Q))).
    { apply nth_In. change (T RNum) with R in *. rewrite combine_length, S2, T2, Nat.min_id. exact Hi. }
    destruct (stack_col dim m P Q _ SP SQ I) as [A1 A2]. rewrite app_length, A1, A2. reflexivity. }
  assert (LL : length (mcols P) = length (mcols Q)).
  { destruct SP as [_ [X _]], SQ as [_ [Y _]]. unfold ncols in *. congruence. }
  destruct (built_other p U dim (dim + dim) m P (stack P Q) c SP SS BP) as [s BS].
  destruct (linear_fact dlt (dim + dim) dim p U _ m s SS BS) as [c1 [B1 H1]].
  destruct (linear_fact (fun e => dlt (dim + e)) (dim + dim) dim p U _ m s SS BS) as [c2 [B2 H2]].
  destruct (linear_fact (fun e d => a * dlt e d + b * dlt (dim + e) d) (dim + dim) dim p U _ m s SS BS) as [c3 [B3 H3]].
  assert (E1 : linear_points dlt (dim + dim) dim (stack P Q) = P).
  { unfold linear_points. rewrite (stack_map _ fst) by (intros x Hx; apply linear_left; apply (stack_col dim m P Q x SP SQ Hx)).
    rewrite map_fst_combine by exact LL. destruct P as [r cs]. simpl. f_equal. destruct SP as [X _]. simpl in X. congruence. }
  assert (E2 : linear_points (fun e => dlt (dim + e)) (dim + dim) dim (stack P Q) = Q).
  { unfold linear_points. rewrite (stack_map _ snd) by (intros x Hx; apply linear_right; apply (stack_col dim m P Q x SP SQ Hx)).
    rewrite map_snd_combine by exact LL. destruct Q as [r cs]. simpl. f_equal. destruct SQ as [X _]. simpl in X. congruence. }
  assert (E3 : linear_points (fun e d => a * dlt e d + b * dlt (dim + e) d) (dim + dim) dim (stack P Q) = blend_points a b P Q).
  { unfold linear_points. rewrite (stack_map _ (fun x => blend a b (fst x) (snd x))).
    - unfold blend_points. f_equal. destruct SP as [X _]. congruence.
    - intros x Hx. destruct (stack_col dim m P Q x SP SQ Hx) as [A1 A2]. change (T RNum) with R in *. rewrite linear_blend by (rewrite app_length; lia).
      rewrite linear_left, linear_right by assumption. reflexivity. }
  rewrite E1 in B1. rewrite E2 in B2. rewrite E3 in B3. exists c3. split; [exact B3|]. intros es u k.
  rewrite (built_fun _ _ _ _ _ BP B1), (built_fun _ _ _ _ _ BQ B2), H1, H2, H3.
  destruct (evaluate_edited s es u k) as [[v|e]| | |] eqn:E; simpl; auto.
  split; [rewrite !linear_length; reflexivity|]. apply linear_blend. apply (evaluate_edited_length (dim + dim) m p U _ s es u k v SS BS E).
Qed.
