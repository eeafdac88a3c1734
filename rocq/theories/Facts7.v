(** * Operations on knot lists over the reals: rescaling, normalising, predicates *)

From Coq Require Import ZArith Reals List Bool Arith Lia Lra Permutation.
From Verif Require Import Num Vec MKnots RNum Hoare Lists Struct Spec Api Bridge Facts1.
Import ListNotations.
Local Open Scope R_scope.

Lemma zipM_map {K : Num} (f : K -> K -> K) (v : list K) c : zipM f v (repeat c (length v)) = Val (map (fun x => f x c) v).
Proof. induction v as [|x v IH]; [reflexivity|]. cbn [length repeat zipM]. rewrite IH. reflexivity. Qed.

Lemma mapM_all {X A} (f : X -> M A) (g : X -> A) l : (forall x, In x l -> f x = Val (g x)) -> mapM f l = Val (map g l).
Proof.
  induction l as [|x l IH]; intros H; [reflexivity|]. simpl. rewrite H by (left; reflexivity). cbn [bind].
  rewrite IH by (intros; apply H; right; assumption). reflexivity.
Qed.

Lemma vec_rescale_R (v : list R) a b c d : a <> b ->
  @vec_rescale RNum v (a, b) (c, d) = Val (map (fun x => c + (x - a) / (b - a) * (d - c)) v).
Proof.
  intros H. unfold vec_rescale, vsub, vadd, vdiv_scalar, vmul_scalar. cbn [fst snd].
  rewrite (@zipM_map RNum). cbn [bind]. rewrite (mapM_all _ (fun x => x / (b - a))).
  2:{ intros x _. rn. apply Rdivm_val. lra. }
  cbn [bind]. rn. rewrite !map_map.
  replace (length v) with (length (map (fun x => (x - a) / (b - a) * (d - c)) v)) by apply map_length.
  rewrite (@zipM_map RNum). rewrite map_map. f_equal. apply map_ext. intros x. rn. ring.
Qed.

Lemma rescaled_knot_R x a b c d : a <> b ->
  @rescaled_knot RNum x (a, b) (c, d) = Val (c + (x - a) / (b - a) * (d - c)).
Proof.
  intros H. unfold rescaled_knot. cbn [fst snd]. rn. rewrite Rdivm_val by lra. cbn [bind]. f_equal. ring.
Qed.

(** ** extreme entries *)
Lemma Rnmin x y : @nmin RNum x y = Rmin x y.
Proof.
  unfold nmin. rn. replace (Reqb x x) with true by (symmetry; apply Reqb_eq; reflexivity).
  unfold Rltb, Rmin. destruct (Rlt_dec y x), (Rle_dec x y); try reflexivity; lra.
Qed.
Lemma Rnmax x y : @nmax RNum x y = Rmax x y.
Proof.
  unfold nmax. rn. replace (Reqb x x) with true by (symmetry; apply Reqb_eq; reflexivity).
  unfold Rltb, Rmax. destruct (Rlt_dec x y), (Rle_dec x y); try reflexivity; lra.
Qed.

Lemma fold_min (r : list R) : forall x, In (fold_left Rmin r x) (x :: r) /\ (forall y, In y (x :: r) -> fold_left Rmin r x <= y).
Proof.
  induction r as [|z r IH]; intros x; cbn [fold_left].
  - split; [left; reflexivity|]. intros y [<-|[]]. lra.
  - destruct (IH (Rmin x z)) as [H1 H2]. split.
    + destruct H1 as [H1|H1]; [|right; right; exact H1]. rewrite <- H1. unfold Rmin. destruct (Rle_dec x z); [left|right; left]; reflexivity.
    + assert (T := H2 (Rmin x z) ltac:(left; reflexivity)).
      assert (T1 := Rmin_l x z). assert (T2 := Rmin_r x z).
      intros y [<-|[<-|Hy]]; [lra|lra|]. apply H2. right. exact Hy.
Qed.
Lemma fold_max (r : list R) : forall x, In (fold_left Rmax r x) (x :: r) /\ (forall y, In y (x :: r) -> y <= fold_left Rmax r x).
Proof.
  induction r as [|z r IH]; intros x; cbn [fold_left].
  - split; [left; reflexivity|]. intros y [<-|[]]. lra.
  - destruct (IH (Rmax x z)) as [H1 H2]. split.
    + destruct H1 as [H1|H1]; [|right; right; exact H1]. rewrite <- H1. unfold Rmax. destruct (Rle_dec x z); [right; left|left]; reflexivity.
    + assert (T := H2 (Rmax x z) ltac:(left; reflexivity)).
      assert (T1 := Rmax_l x z). assert (T2 := Rmax_r x z).
      intros y [<-|[<-|Hy]]; [lra|lra|]. apply H2. right. exact Hy.
Qed.

Lemma fold_left_ext {A B} (f g : A -> B -> A) l : (forall a b, f a b = g a b) -> forall a, fold_left f l a = fold_left g l a.
Proof. intros H. induction l as [|b l IH]; intros a; [reflexivity|]. cbn [fold_left]. rewrite H. apply IH. Qed.

Lemma vmin_R (v : list R) : v <> [] -> In (@vmin RNum v) v /\ forall y, In y v -> @vmin RNum v <= y.
Proof.
  destruct v as [|x r]; [congruence|]. intros _. unfold vmin. rewrite (fold_left_ext _ Rmin) by apply Rnmin. apply fold_min.
Qed.
Lemma vmax_R (v : list R) : v <> [] -> In (@vmax RNum v) v /\ forall y, In y v -> y <= @vmax RNum v.
Proof.
  destruct v as [|x r]; [congruence|]. intros _. unfold vmax. rewrite (fold_left_ext _ Rmax) by apply Rnmax. apply fold_max.
Qed.

Lemma sorted_min (v : list R) : sorted v -> (0 < length v)%nat -> @vmin RNum v = nth 0 v 0.
Proof.
  intros S L. destruct (vmin_R v) as [H1 H2]; [destruct v; [simpl in L; lia|discriminate]|].
  apply Rle_antisym; [apply H2; apply nth_In; exact L|].
  apply (In_nth _ _ 0) in H1. destruct H1 as [i [Hi E]]. rewrite <- E. apply S; lia.
Qed.
Lemma sorted_max (v : list R) : sorted v -> (0 < length v)%nat -> @vmax RNum v = nth (length v - 1) v 0.
Proof.
  intros S L. destruct (vmax_R v) as [H1 H2]; [destruct v; [simpl in L; lia|discriminate]|].
  apply Rle_antisym; [|apply H2; apply nth_In; lia].
  apply (In_nth _ _ 0) in H1. destruct H1 as [i [Hi E]]. rewrite <- E. apply S; lia.
Qed.

Lemma vec_normalize_R (v : list R) : @vmin RNum v <> @vmax RNum v ->
  @vec_normalize RNum v = Val (map (fun x => (x - @vmin RNum v) / (@vmax RNum v - @vmin RNum v)) v).
Proof.
  intros H. unfold vec_normalize. rn. rewrite vec_rescale_R by exact H. f_equal. apply map_ext. intros x. ring.
Qed.

(** ** sorted permutations are equal *)
Lemma sorted_tail x v : sorted (x :: v) -> sorted v.
Proof. intros S i j Hij Hj. apply (S (Datatypes.S i) (Datatypes.S j)); cbn [length]; lia. Qed.
Lemma sorted_head x v y : sorted (x :: v) -> In y v -> x <= y.
Proof.
  intros S H. apply (In_nth _ _ 0) in H. destruct H as [i [Hi E]]. rewrite <- E.
  apply (S 0%nat (Datatypes.S i)); cbn [length]; lia.
Qed.

Lemma sorted_perm_eq (v : list R) : forall w, sorted v -> sorted w -> Permutation v w -> v = w.
Proof.
  induction v as [|x v IH]; intros w Sv Sw Pe.
  - apply Permutation_nil in Pe. congruence.
  - destruct w as [|y w]; [apply Permutation_sym, Permutation_nil in Pe; discriminate|].
    assert (E : x = y).
    { assert (I1 : In y (x :: v)) by (apply (Permutation_in y (Permutation_sym Pe)); left; reflexivity).
      assert (I2 : In x (y :: w)) by (apply (Permutation_in x Pe); left; reflexivity).
      destruct I1 as [I1|I1]; [exact I1|]. destruct I2 as [I2|I2]; [congruence|].
      apply Rle_antisym; [apply (sorted_head x v)|apply (sorted_head y w)]; assumption. }
    subst y. f_equal. apply IH; [apply (sorted_tail x); exact Sv|apply (sorted_tail x); exact Sw|].
    apply (Permutation_cons_inv Pe).
Qed.

(** ** predicates *)
Lemma sorted_from_R (v : list R) : forall x, @sorted_from RNum x v = true <-> sorted (x :: v).
Proof.
  induction v as [|y v IH]; intros x; cbn [sorted_from].
  - split; [|reflexivity]. intros _ i j Hij Hj. cbn [length] in Hj. replace i with 0%nat by lia. replace j with 0%nat by lia. lra.
  - rewrite andb_true_iff, IH. rn. rewrite Rleb_le. split.
    + intros [H S] i j Hij Hj. destruct i as [|i].
      * destruct j as [|j]; [lra|]. assert (T := S 0%nat j ltac:(lia) ltac:(cbn [length] in *; lia)). simpl in *. lra.
      * destruct j as [|j]; [lia|]. apply (S i j); cbn [length] in *; lia.
    + intros S. split; [apply (S 0%nat 1%nat); cbn [length]; lia|apply (sorted_tail x); exact S].
Qed.

Lemma is_sorted_R p (U : list R) : exists b, @is_sorted RNum (knots_of p U) = Val b /\ (b = true <-> sorted U).
Proof.
  unfold is_sorted. rewrite knots_of_vec by lia. rewrite kderiv_0. cbn [bind]. eexists. split; [reflexivity|].
  destruct U as [|x U]; [|apply sorted_from_R]. split; [|reflexivity]. intros _ i j _ Hj. simpl in Hj. lia.
Qed.

Lemma is_clamped_R p (U : list R) : exists b, @is_clamped RNum (knots_of p U) = Val b /\
  (b = true <-> forall i, (i < length U)%nat -> ((i <= p)%nat -> nth i U 0 = 0) /\ ((length U <= i + p + 1)%nat -> nth i U 0 = 1)).
Proof.
  unfold is_clamped. rewrite knots_of_vector. cbn [bind kp knots_of]. eexists. split; [reflexivity|].
  rewrite andb_true_iff, !forallb_forall. split.
  - intros [H1 H2] i Hi. split; intros Hp.
    + apply Reqb_eq. apply H1. rewrite <- (nth_firstn U (p + 1) i 0) by lia. apply nth_In. rn. rewrite firstn_length. lia.
    + apply Reqb_eq. apply H2. replace (nth i U 0) with (nth (length U - 1 - i) (firstn (p + 1) (rev U)) 0).
      * apply nth_In. rn. rewrite firstn_length, rev_length. lia.
      * rewrite nth_firstn by lia. rewrite nth_rev by lia. f_equal. lia.
  - intros H. split; intros x Hx; rn; apply Reqb_eq.
    + apply (In_nth _ _ 0) in Hx. destruct Hx as [i [Hi E]]. rewrite firstn_length in Hi. rewrite nth_firstn in E by lia.
      rewrite <- E. apply H; lia.
    + apply (In_nth _ _ 0) in Hx. destruct Hx as [i [Hi E]]. rewrite firstn_length, rev_length in Hi.
      rewrite nth_firstn in E by lia. rewrite nth_rev in E by lia. rewrite <- E. apply H; lia.
Qed.

Lemma min_by_R (r : list R) : forall x, foldM (fun m y => g <- @cmp_greater RNum m y;; Val (if (g : bool) then y else m)) r x = Val (fold_left Rmin r x).
Proof.
  induction r as [|z r IH]; intros x; [reflexivity|]. cbn [foldM fold_left]. unfold cmp_greater at 1. rn.
  unfold Rleb, Rmin. destruct (Rle_dec x z); [cbn [bind]; apply IH|]. destruct (Rle_dec z x); [cbn [bind]; apply IH|lra].
Qed.
Lemma max_by_R (r : list R) : forall x, foldM (fun m y => g <- @cmp_greater RNum m y;; Val (if (g : bool) then m else y)) r x = Val (fold_left Rmax r x).
Proof.
  induction r as [|z r IH]; intros x; [reflexivity|]. cbn [foldM fold_left]. unfold cmp_greater at 1. rn.
  unfold Rleb, Rmax. destruct (Rle_dec x z); [cbn [bind]; apply IH|]. destruct (Rle_dec z x); [cbn [bind]; apply IH|lra].
Qed.

Lemma is_normed_R p (U : list R) : exists b, @is_normed RNum (knots_of p U) = Val b /\
  (b = true <-> In 0 U /\ In 1 U /\ forall x, In x U -> 0 <= x <= 1).
Proof.
  unfold is_normed. rewrite knots_of_vector. cbn [bind].
  destruct U as [|x r].
  - exists false. split; [reflexivity|]. split; [discriminate|]. intros [[] _].
  - unfold min_by, max_by. rewrite min_by_R, max_by_R. cbn [bind]. eexists. split; [reflexivity|].
    destruct (fold_min r x) as [A1 A2]. destruct (fold_max r x) as [B1 B2].
    rewrite andb_true_iff. rn. rewrite !Reqb_eq. split.
    + intros [E1 E2]. rewrite E1 in *. rewrite E2 in *. split; [exact A1|]. split; [exact B1|]. intros y Hy. split; auto.
    + intros [H1 [H2 H3]]. specialize (A2 0 H1). specialize (B2 1 H2). apply H3 in A1. apply H3 in B1. lra.
Qed.
