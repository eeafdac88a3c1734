(** * Knot insertion over the reals *)

From Coq Require Import ZArith Reals List Bool Arith Lia Lra Permutation.
From Verif Require Import Num Vec MKnots MPoints MCurve RNum Hoare Lists Struct Spec BMath BMath2 BMath3 BMath4 BMath5 Api Bridge Facts1 Facts4 Facts5.
Import ListNotations.
Local Open Scope R_scope.

Lemma inside_R u : 0 <= u <= 1 -> ((@n0 RNum <=? u)%num && (u <=? @n1 RNum)%num = true).
Proof. intros H. rn. apply andb_true_iff. split; apply Rleb_le; lra. Qed.

Lemma range_dec u : {0 <= u <= 1} + {~ (0 <= u <= 1)}.
Proof. destruct (Rle_dec 0 u); [|right; lra]. destruct (Rle_dec u 1); [left; split; assumption|right; lra]. Qed.

Lemma open_R u : 0 < u < 1 -> ((u <=? @n0 RNum)%num || (@n1 RNum <=? u)%num = false).
Proof. intros H. rn. apply orb_false_iff. split; apply Rleb_gt; lra. Qed.

Lemma closed_R u : ~ (0 < u < 1) -> ((u <=? @n0 RNum)%num || (@n1 RNum <=? u)%num = true).
Proof.
  intros H. rn. apply orb_true_iff. destruct (Rle_dec u 0); [left; apply Rleb_le; assumption|right]. apply Rleb_le. lra.
Qed.

(** curves with the same spline function are the same function *)
Lemma same_spline_same_function p n m dim U V P Q c c' :
  clamped_curve p n dim U P c -> clamped_curve p m dim V Q c' ->
  (forall d u, (d < dim)%nat -> 0 <= u <= 1 ->
     spline (kfun V) m p (fun i => ent Q i d) u = spline (kfun U) n p (fun i => ent P i d) u) ->
  same_function c c'.
Proof.
  intros H H' E u k. destruct (range_dec u) as [Hu|Hu].
  - destruct (le_lt_dec k p) as [Hk|Hk].
    + apply (returns_eq _ _ dim (fun d => dspline (kfun U) n p (fun i => ent P i d) k u)).
      * eapply returns_ext; [apply (cc_eval p m dim V Q c' u k H' Hu Hk)|]. intros d Hd.
        apply (same_dspline p n m (kfun U) (kfun V)); try assumption.
        { apply kfun_clamped. apply H. } { apply kfun_clamped. apply H'. }
        intros t Ht. apply E; assumption.
      * apply (cc_eval p n dim U P c u k H Hu Hk).
    + rewrite (high_order RNum div_R p m dim V Q c' u k (clamped_sized _ _ _ _ _ (proj1 H') (proj1 (proj2 H'))) (proj2 (proj2 H')) (inside_R u Hu) Hk).
      rewrite (high_order RNum div_R p n dim U P c u k (clamped_sized _ _ _ _ _ (proj1 H) (proj1 (proj2 H))) (proj2 (proj2 H)) (inside_R u Hu) Hk).
      reflexivity.
  - rewrite !eval_out by exact Hu. reflexivity.
Qed.

Lemma insU_perm {A} (U : list A) l u : Permutation (u :: U) (insU U l u).
Proof.
  unfold insU. rewrite <- (firstn_skipn (l + 1) U) at 1. apply (Permutation_middle (firstn (l + 1) U) (skipn (l + 1) U) u).
Qed.

Lemma mult_perm U V x : Permutation U V -> mult U x = mult V x.
Proof. intros H. unfold mult. apply (proj1 (Permutation_count_occ Req_EM_T U V) H). Qed.

Lemma insert_exact p n dim U P c u : clamped_curve p n dim U P c -> 0 < u < 1 -> (mult U u <= p)%nat -> simple_below U u ->
  exists c' U' P', @insert RNum c u = Val (c', Ok tt) /\ clamped_curve p (S n) dim U' P' c' /\
    Permutation (u :: U) U' /\ same_function c c'.
Proof.
  intros H Hu Hm Hs. assert (C : clamped p n U) by apply H. assert (L := cl_len _ _ _ C).
  assert (W := proj1 (cc_wf _ _ _ _ _ _ H)).
  assert (Hd : forall l i, @find_idx RNum (knots_of p U) u 0 CLeftOrEqual = Val l -> (p <= l <= n)%nat -> (l - p < i <= l)%nat ->
             nth i U 0 < nth (i + p) U 0).
  { intros l i E Hl Hi. destruct (find_insert_simple p n U u l C Hu Hs E) as [_ Hlu].
    apply (insert_division_simple p n U u l i); assumption. }
  assert (T := @insert_gen RNum False gdiv_R p n dim U P c u W (open_R u Hu) ltac:(rewrite (dcount_R p n); assumption)
    ltac:(intros l i E Hl Hi; rn; specialize (Hd l i E Hl Hi); eexists; apply Rdivm_val; lra)).
  apply ok_val_ex in T. destruct T as [[c' r] [E [l [P' [F [Hl [EP [Er [W' B']]]]]]]]]. cbn [fst snd] in *. subst r.
  destruct (find_insert_simple p n U u l C Hu Hs F) as [_ Hlu].
  assert (C' := insU_clamped p n U l u C Hu Hl Hlu).
  destruct (insert_points_R U P P' dim p n l u L (proj1 (proj2 H)) Hl ltac:(intros i Hi; apply (Hd l i F Hl Hi)) EP) as [SP NP].
  assert (H' : clamped_curve p (S n) dim (insU U l u) P' c') by (split; [exact C'|split; assumption]).
  exists c', (insU U l u), P'. split; [exact E|]. split; [exact H'|]. split; [apply insU_perm|].
  apply (same_spline_same_function p n (S n) dim U (insU U l u) P P'); try assumption.
  intros d v Hdd Hv. rewrite <- (spline_insert p n (kfun U) ltac:(apply kfun_clamped; exact C) l u Hu Hl).
  - unfold spline. apply rsum_ext. intros i Hi. f_equal.
    + apply bspline_ext. intros a. apply kfun_insU. lia.
    + rewrite NP by lia. reflexivity.
  - replace (S l) with (l + 1)%nat by lia. rewrite !kfun_nth by lia. exact Hlu.
  - exact Hv.
Qed.

Lemma insert_once {K : Num} (c : Curve K) u : curve_insert c u = insert c u.
Proof.
  unfold curve_insert. cbn [insert_times]. destruct (insert c u) as [[c' [[]|e]]| | |]; reflexivity.
Qed.

Lemma same_function_refl {K : Num} (c : Curve K) : same_function c c.
Proof. intros u k. reflexivity. Qed.
Lemma same_function_trans {K : Num} (a b c : Curve K) : same_function a b -> same_function b c -> same_function a c.
Proof. intros H1 H2 u k. rewrite H2. apply H1. Qed.

Lemma simple_perm U V u : simple_below U u -> Permutation (u :: U) V -> simple_below V u.
Proof.
  intros H Pe x Hx. rewrite <- (mult_perm _ _ x Pe). unfold mult. cbn [count_occ].
  destruct (Req_EM_T u x); [lra|]. apply H. exact Hx.
Qed.

Lemma mult_insert U V u : Permutation (u :: U) V -> mult V u = S (mult U u).
Proof. intros Pe. rewrite <- (mult_perm _ _ u Pe). unfold mult. cbn [count_occ]. destruct (Req_EM_T u u); [reflexivity|lra]. Qed.

Lemma insert_times_exact x : forall p n dim U P c u, clamped_curve p n dim U P c -> 0 < u < 1 -> (mult U u + x <= p + 1)%nat ->
  simple_below U u ->
  exists c' U' P', @insert_times RNum c u x = Val (c', Ok tt) /\ clamped_curve p (n + x) dim U' P' c' /\
    Permutation (repeat u x ++ U) U' /\ same_function c c'.
Proof.
  induction x as [|x IH]; intros p n dim U P c u H Hu Hm Hs.
  - exists c, U, P. split; [reflexivity|]. rewrite Nat.add_0_r. split; [exact H|]. split; [apply Permutation_refl|apply same_function_refl].
  - destruct (insert_exact p n dim U P c u H Hu ltac:(lia) Hs) as [c1 [U1 [P1 [E1 [H1 [Q1 S1]]]]]].
    destruct (IH p (S n) dim U1 P1 c1 u H1 Hu) as [c2 [U2 [P2 [E2 [H2 [Q2 S2]]]]]].
    + rewrite (mult_insert U U1 u Q1). lia.
    + apply (simple_perm U U1 u); assumption.
    + exists c2, U2, P2. split; [|split; [|split]].
      * cbn [insert_times]. rewrite E1. cbn [bind]. exact E2.
      * replace (n + S x)%nat with (S n + x)%nat by lia. exact H2.
      * eapply Permutation_trans; [|exact Q2]. cbn [repeat app].
        eapply Permutation_trans; [apply Permutation_middle|]. apply Permutation_app_head. exact Q1.
      * eapply same_function_trans; eassumption.
Qed.

Lemma insert_times_app {K : Num} x y : forall (c c' : Curve K) u, insert_times c u x = Val (c', Ok tt) ->
  insert_times c u (x + y) = insert_times c' u y.
Proof.
  induction x as [|x IH]; intros c c' u H.
  - injection H as <-. reflexivity.
  - cbn [insert_times plus] in *. destruct (insert c u) as [[c1 [[]|e]]| | |]; cbn [bind] in *; try discriminate. apply IH. exact H.
Qed.

(** more insertions than the multiplicity allows: the possible ones stay *)
Lemma insert_times_over p n dim U P c u x : clamped_curve p n dim U P c -> 0 < u < 1 -> (mult U u <= p + 1 < mult U u + x)%nat ->
  simple_below U u ->
  exists c' U' P', @insert_times RNum c u x = Val (c', Err (IMultiplicityError u (p + 1) p)) /\
    clamped_curve p (n + (p + 1 - mult U u)) dim U' P' c' /\ same_function c c'.
Proof.
  intros H Hu Hm Hs. set (m := mult U u) in *.
  destruct (insert_times_exact (p + 1 - m) p n dim U P c u H Hu ltac:(fold m; lia) Hs) as [c1 [U1 [P1 [E1 [H1 [Q1 S1]]]]]].
  exists c1, U1, P1. split; [|split; assumption].
  replace x with ((p + 1 - m) + S (x - (p + 1 - m) - 1))%nat by lia. rewrite (insert_times_app _ _ _ _ _ E1).
  cbn [insert_times].
  assert (M1 : @dcount RNum p (n + (p + 1 - m)) U1 u = (p + 1)%nat).
  { rewrite (dcount_R p); [|apply H1|exact Hu]. rewrite <- (mult_perm _ _ u Q1). unfold mult. rewrite count_occ_app.
    rewrite count_occ_repeat_eq by reflexivity. fold (mult U u). fold m. lia. }
  rewrite (insert_mult p _ dim U1 P1 c1 u (proj1 (cc_wf _ _ _ _ _ _ H1)) (open_R u Hu)) by (rewrite M1; lia).
  cbn [bind]. rewrite M1. reflexivity.
Qed.

Lemma curve_insert_exact p n dim U P c u : clamped_curve p n dim U P c -> 0 < u < 1 -> (mult U u <= p)%nat -> simple_below U u ->
  exists c' U' P', @curve_insert RNum c u = Val (c', Ok tt) /\ clamped_curve p (S n) dim U' P' c' /\
    Permutation (u :: U) U' /\ same_function c c'.
Proof. rewrite insert_once. apply insert_exact. Qed.
