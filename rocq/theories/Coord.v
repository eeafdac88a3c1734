(** * Curves whose control points are related column by column

    A relation between points of two spaces that survives adding, subtracting
    and scaling survives everything the crate does with control points. *)

From Coq Require Import ZArith List Bool Arith Lia.
From Verif Require Import Num Vec MKnots MPoints MCurve Lists Api.
Import ListNotations.

(** ** Related outcomes *)
Definition rM {A B} (R : A -> B -> Prop) (x : M A) (y : M B) : Prop :=
  match x, y with
  | Val a, Val b => R a b
  | Panic, Panic | Undef, Undef | Diverge, Diverge => True
  | _, _ => False
  end.

Definition rres {A B E} (R : A -> B -> Prop) (x : result A E) (y : result B E) : Prop :=
  match x, y with
  | Ok a, Ok b => R a b
  | Err e, Err f => e = f
  | _, _ => False
  end.

Lemma rM_bind {A B A' B'} (R : A -> B -> Prop) (Q : A' -> B' -> Prop) x y f g :
  rM R x y -> (forall a b, R a b -> rM Q (f a) (g b)) -> rM Q (bind x f) (bind y g).
Proof. destruct x, y; simpl; intros H1 H2; try contradiction; auto. Qed.

Lemma rM_same {A A' B'} (Q : A' -> B' -> Prop) (x : M A) f g :
  (forall a, rM Q (f a) (g a)) -> rM Q (bind x f) (bind x g).
Proof. destruct x; simpl; intros H; auto. Qed.

Lemma rM_foldM {A B X} (R : A -> B -> Prop) f g (l : list X) s t :
  R s t -> (forall s t x, R s t -> rM R (f s x) (g t x)) -> rM R (foldM f l s) (foldM g l t).
Proof.
  intros H1 H2. revert s t H1. induction l as [|x l IH]; intros s t H; simpl; [exact H|].
  apply (rM_bind R); [apply H2; exact H|]. intros a b Hab. apply IH. exact Hab.
Qed.

Lemma rM_eq {A} (x : M A) : rM eq x x.
Proof. destruct x; simpl; auto. Qed.

(** ** Lists of related elements *)
Section RLists.
  Context {A B : Type} (R : A -> B -> Prop).
  Notation L := (Forall2 R).

  Lemma rl_length v w : L v w -> length v = length w.
  Proof. induction 1; simpl; congruence. Qed.

  Lemma rl_vget v w i : L v w -> rM R (vget v i) (vget w i).
  Proof.
    intros H. unfold vget. revert i. induction H as [|x y v w Hxy H IH]; intros [|i]; simpl; auto.
  Qed.

  Lemma rl_upd v w i x y : L v w -> R x y -> L (upd v i x) (upd w i y).
  Proof. intros H Hxy. revert i. induction H; intros [|i]; simpl; auto. Qed.

  Lemma rl_vset v w i x y : L v w -> R x y -> rM L (vset v i x) (vset w i y).
  Proof.
    intros H Hxy. unfold vset. rewrite (rl_length _ _ H). destruct (i <? length w); simpl; [|exact I].
    apply rl_upd; assumption.
  Qed.

  Lemma rl_firstn v w i : L v w -> L (firstn i v) (firstn i w).
  Proof. intros H. revert i. induction H; intros [|i]; simpl; auto. Qed.

  Lemma rl_skipn v w i : L v w -> L (skipn i v) (skipn i w).
  Proof. intros H. revert i. induction H; intros [|i]; simpl; auto. Qed.

  Lemma rl_segment v w s n : L v w -> rM L (segment v s n) (segment w s n).
  Proof.
    intros H. unfold segment. rewrite (rl_length _ _ H). destruct (s + n <=? length w); simpl; [|exact I].
    apply rl_firstn, rl_skipn, H.
  Qed.

  Lemma rl_segment_set v w s n x y : L v w -> L x y -> rM L (segment_set v s n x) (segment_set w s n y).
  Proof.
    intros H G. unfold segment_set. rewrite (rl_length _ _ H), (rl_length _ _ G).
    destruct (s + n <=? length w); simpl; [|exact I]. destruct (length y =? n); simpl; [|exact I].
    apply Forall2_app; [apply rl_firstn, H|]. apply Forall2_app; [exact G|]. apply rl_skipn, H.
  Qed.

  Lemma rl_swap v w i j : L v w -> rM L (swap v i j) (swap w i j).
  Proof.
    intros H. unfold swap. apply (rM_bind R); [apply rl_vget, H|]. intros a b Hab.
    apply (rM_bind R); [apply rl_vget, H|]. intros a' b' Hab'.
    apply (rM_bind L); [apply rl_vset; assumption|]. intros v' w' H'. apply rl_vset; assumption.
  Qed.

  Lemma rl_repeat n x y : R x y -> L (repeat x n) (repeat y n).
  Proof. intros H. induction n; simpl; auto. Qed.
End RLists.

(** ** Related points, matrices and curves *)
Section Related.
  Context {K : Num} (r1 r2 : nat) (V : list K -> list K -> Prop).
  Notation Vec := (list K).
  Hypothesis V_l : forall a b, V a b -> length a = r1.
  Hypothesis V_r : forall a b, V a b -> length b = r2.
  Hypothesis V_zero : V (vzeros r1) (vzeros r2).
  Hypothesis V_add : forall a b a' b', V a b -> V a' b' -> rM V (vadd a a') (vadd b b').
  Hypothesis V_sub : forall a b a' b', V a b -> V a' b' -> rM V (vsub a a') (vsub b b').
  Hypothesis V_scale : forall s a b, V a b -> V (vscale s a) (vscale s b).
  Hypothesis V_mul : forall s a b, V a b -> V (vmul_scalar a s) (vmul_scalar b s).

  Definition rmat (m m' : Mat K) : Prop := nrows m = r1 /\ nrows m' = r2 /\ Forall2 V (mcols m) (mcols m').
  Definition rcp (x y : ControlPoints K) : Prop := pk_max x = pk_max y /\ Forall2 rmat (Pk x) (Pk y).
  Definition rcurve (c d : Curve K) : Prop := cknots c = cknots d /\ rcp (cpoints c) (cpoints d).

  Lemma rmat_ncols m m' : rmat m m' -> ncols m = ncols m'.
  Proof. intros [_ [_ H]]. apply (rl_length _ _ _ H). Qed.

  Lemma rmat_col m m' i : rmat m m' -> rM V (mcol m i) (mcol m' i).
  Proof. intros [_ [_ H]]. apply rl_vget, H. Qed.

  Lemma rmat_set m m' i v w : rmat m m' -> V v w -> rM rmat (mset_col m i v) (mset_col m' i w).
  Proof.
    intros [H1 [H2 H3]] H. unfold mset_col. rewrite (V_l _ _ H), (V_r _ _ H), H1, H2, !Nat.eqb_refl.
    apply (rM_bind (Forall2 V)); [apply rl_vset; assumption|]. intros a b Hab. simpl. repeat split; simpl; auto.
  Qed.

  Lemma rmat_zeros n : rmat (mzeros r1 n) (mzeros r2 n).
  Proof. repeat split. simpl. apply rl_repeat. exact V_zero. Qed.

  Lemma rmat_columns m m' s n : rmat m m' -> rM rmat (mcolumns m s n) (mcolumns m' s n).
  Proof.
    intros [H1 [H2 H3]]. unfold mcolumns. apply (rM_bind (Forall2 V)); [apply rl_segment, H3|].
    intros a b Hab. simpl. repeat split; simpl; auto.
  Qed.

  Lemma rmat_set_columns m m' s n x y : rmat m m' -> rmat x y ->
    rM rmat (mset_columns m s n x) (mset_columns m' s n y).
  Proof.
    intros [H1 [H2 H3]] [G1 [G2 G3]]. unfold mset_columns. rewrite H1, H2, G1, G2, !Nat.eqb_refl.
    apply (rM_bind (Forall2 V)); [apply rl_segment_set; assumption|].
    intros a b Hab. simpl. repeat split; simpl; auto.
  Qed.

  Lemma rmat_scale s m m' : rmat m m' -> rmat (mscale s m) (mscale s m').
  Proof.
    intros [H1 [H2 H3]]. repeat split; simpl; auto. clear H1 H2. induction H3; simpl; auto.
  Qed.

  Lemma rmat_reverse m m' : rmat m m' -> rM rmat (mat_reverse m) (mat_reverse m').
  Proof.
    intros H. unfold mat_reverse. rewrite (rmat_ncols _ _ H). destruct H as [H1 [H2 H3]].
    apply (rM_bind (Forall2 V)).
    - apply rM_foldM; [exact H3|]. intros s t x Hst. apply rM_same. intros a. apply rM_same. intros j.
      apply rl_swap, Hst.
    - intros a b Hab. simpl. repeat split; simpl; auto.
  Qed.

  Lemma rcp_matrix x y : rcp x y -> rM rmat (cp_matrix x) (cp_matrix y).
  Proof. intros [_ H]. apply rl_vget, H. Qed.

  Lemma rcp_derivative x y k : rcp x y -> rM rmat (matrix_derivative x k) (matrix_derivative y k).
  Proof. intros [H1 H2]. unfold matrix_derivative. rewrite H1. apply rM_same. intros _. apply rl_vget, H2. Qed.

  Lemma rcp_segments x y : rcp x y -> rM eq (cp_segments x) (cp_segments y).
  Proof.
    intros [_ H]. unfold cp_segments, cp_count, count_derivative.
    apply (rM_bind eq).
    - apply (rM_bind rmat); [apply rl_vget, H|]. intros a b Hab. simpl. apply rmat_ncols, Hab.
    - intros a b ->. apply rM_eq.
  Qed.

  Lemma rcp_dimension x y : rcp x y -> rM (fun a b => a = r1 /\ b = r2) (cp_dimension x) (cp_dimension y).
  Proof.
    intros H. unfold cp_dimension. apply (rM_bind rmat); [apply rcp_matrix, H|].
    intros a b [H1 [H2 _]]. simpl. auto.
  Qed.

  Lemma rcp_single x y kn k : rcp x y -> forall i,
    rM V (derive_single_point x kn k i) (derive_single_point y kn k i).
  Proof.
    intros H. induction k as [|k IH]; intros i; simpl.
    - apply (rM_bind rmat); [apply (rcp_matrix _ _ H)|]. intros a b Hab. apply rmat_col, Hab.
    - apply rM_same. intros U0. apply rM_same. intros a. apply rM_same. intros b.
      destruct (a ==? b)%num.
      + apply (rM_bind (fun a b => a = r1 /\ b = r2)); [apply rcp_dimension, H|].
        intros d d' [-> ->]. simpl. exact V_zero.
      + apply rM_same. intros pk. apply rM_same. intros s.
        apply (rM_bind V); [apply IH|]. intros hi hi' Hhi.
        apply (rM_bind V); [apply IH|]. intros lo lo' Hlo.
        apply (rM_bind V); [apply V_sub; assumption|]. intros d d' Hd. simpl. apply V_scale, Hd.
  Qed.

  Lemma rcp_derive x y kn : rcp x y -> rM rcp (points_derive x kn) (points_derive y kn).
  Proof.
    intros H. unfold points_derive. apply (rM_bind eq); [apply rcp_segments, H|]. intros n n' <-.
    destruct H as [H1 H2]. apply (rM_bind rcp).
    - apply rM_foldM; [split; [exact H1|exact (rl_firstn _ _ _ 1 H2)]|]. intros s t k Hst.
      apply rM_same. intros nk.
      apply (rM_bind (fun a b => a = r1 /\ b = r2)); [apply rcp_dimension, Hst|].
      intros d d' [-> ->]. apply (rM_bind rmat).
      + apply rM_foldM; [apply rmat_zeros|]. intros P P' i HP.
        apply (rM_bind V); [apply rcp_single, Hst|]. intros v w Hv. apply rmat_set; assumption.
      + intros P P' HP. destruct Hst as [G1 G2]. split; simpl; [exact G1|].
        apply Forall2_app; auto.
    - intros a b [G1 G2]. split; simpl; auto.
  Qed.

  Lemma rcp_reverse x y : rcp x y -> rM rcp (points_reverse x) (points_reverse y).
  Proof.
    intros [H1 H2]. unfold points_reverse. rewrite H1. apply (rM_bind (Forall2 rmat)).
    - apply rM_foldM; [exact H2|]. intros s t k Hst. apply rM_same. intros _.
      apply (rM_bind rmat); [apply rl_vget, Hst|]. intros m m' Hm.
      apply (rM_bind rmat); [apply rmat_reverse, Hm|]. clear m m' Hm. intros m m' Hm.
      apply rl_vset; [exact Hst|]. destruct (k mod 2 =? 1); [apply rmat_scale|]; exact Hm.
    - intros a b Hab. split; simpl; auto.
  Qed.

  Lemma rcurve_calculate c d : rcurve c d -> rM rcurve (calculate_derivatives c) (calculate_derivatives d).
  Proof.
    intros [H1 H2]. unfold calculate_derivatives. rewrite H1. apply rM_same. intros kn.
    apply (rM_bind rcp); [apply rcp_derive, H2|]. intros a b Hab. split; simpl; auto.
  Qed.

  Lemma rcurve_new kn x y : rcp x y -> rM (rres rcurve) (curve_new kn x) (curve_new kn y).
  Proof.
    intros H. unfold curve_new. apply (rM_bind eq); [apply rcp_segments, H|]. intros n n' <-.
    destruct (n <? kdegree kn); [simpl; reflexivity|].
    apply (rM_bind rcurve); [apply rcurve_calculate; split; auto|]. intros a b Hab. exact Hab.
  Qed.

  Lemma rcp_new m m' : rmat m m' -> rcp (cp_new m) (cp_new m').
  Proof. intros H. split; simpl; auto. Qed.

  Lemma rcurve_evaluate c d u k : rcurve c d ->
    rM (rres V) (evaluate_derivative c u k) (evaluate_derivative d u k).
  Proof.
    intros [H1 H2]. unfold evaluate_derivative, degree, dimension, segments. rewrite H1.
    destruct (negb _); [simpl; reflexivity|].
    apply (rM_bind (fun a b => a = r1 /\ b = r2)); [apply rcp_dimension, H2|]. intros e e' [-> ->].
    destruct (k <=? kdegree (cknots d)); [|exact V_zero].
    apply (rM_bind eq); [apply rcp_segments, H2|]. intros n n' <-.
    apply rM_same. intros l. apply rM_same. intros pk. apply rM_same. intros lo. apply rM_same. intros hi.
    apply (rM_bind V).
    - apply rM_foldM; [exact V_zero|]. intros s t i Hst. apply rM_same. intros b.
      apply (rM_bind rmat); [apply rcp_derivative, H2|]. intros P P' HP.
      apply (rM_bind V); [apply rmat_col, HP|]. intros v w Hv. apply V_add; [exact Hst|]. apply V_scale, Hv.
    - intros a b Hab. exact Hab.
  Qed.

  Lemma rcurve_derivative c d k : rcurve c d ->
    rM rcurve (get_derivative_curve c k) (get_derivative_curve d k).
  Proof.
    intros [H1 H2]. unfold get_derivative_curve, degree. rewrite H1.
    apply rM_same. intros a. apply rM_same. intros v. apply rM_same. intros kn.
    apply (rM_bind rmat); [apply rcp_derivative, H2|]. intros P P' HP.
    split; simpl; [reflexivity|]. apply rcp_new, HP.
  Qed.

  Lemma rcurve_reverse c d : rcurve c d -> rM rcurve (reverse c) (reverse d).
  Proof.
    intros [H1 H2]. unfold reverse. rewrite H1. apply rM_same. intros kn.
    apply (rM_bind rcp); [apply rcp_reverse, H2|]. intros a b Hab. split; simpl; auto.
  Qed.

  Lemma rinsert_points U P P' p l u : rmat P P' ->
    rM rmat (insert_points U P r1 p l u) (insert_points U P' r2 p l u).
  Proof.
    intros H. unfold insert_points. rewrite (rmat_ncols _ _ H).
    apply rM_same. intros lp.
    apply (rM_bind rmat); [apply rmat_columns, H|]. intros s s' Hs.
    apply (rM_bind rmat); [apply rmat_set_columns; [apply rmat_zeros|exact Hs]|]. intros Q Q' HQ.
    apply rM_same. intros bc. rewrite (rmat_ncols _ _ HQ). apply rM_same. intros s1.
    apply rM_same. intros s2.
    apply (rM_bind rmat); [apply rmat_columns, H|]. clear s s' Hs. intros s s' Hs.
    apply (rM_bind rmat); [apply rmat_set_columns; [exact HQ|exact Hs]|]. clear Q Q' HQ. intros Q Q' HQ.
    apply rM_foldM; [exact HQ|]. clear Q Q' HQ. intros Q Q' i HQ.
    do 4 (apply rM_same; intros ?).
    apply (rM_bind V); [apply rmat_col, H|]. intros x x' Hx.
    apply (rM_bind V); [apply rmat_col, H|]. intros y y' Hy.
    apply (rM_bind V); [apply V_add; apply V_scale; assumption|]. intros z z' Hz.
    apply (rM_bind V); [apply rmat_col, HQ|]. intros o o' Ho.
    apply (rM_bind V); [apply V_add; assumption|]. intros w w' Hw.
    apply rmat_set; assumption.
  Qed.

  Definition rpair {A B} (R : A -> B -> Prop) {E} (x : A * result unit E) (y : B * result unit E) : Prop :=
    R (fst x) (fst y) /\ snd x = snd y.

  Lemma rinsert c d u : rcurve c d -> rM (rpair rcurve) (insert c u) (insert d u).
  Proof.
    intros H. assert (H' := H). destruct H' as [H1 H2]. unfold insert, degree. rewrite H1.
    destruct (_ || _); [split; simpl; auto|].
    apply rM_same. intros m. destruct (_ <? m); [split; simpl; auto|].
    apply (rM_bind (fun a b => a = r1 /\ b = r2)); [apply rcp_dimension, H2|]. intros e e' [-> ->].
    apply rM_same. intros U0.
    apply (rM_bind rmat); [apply rcp_matrix, H2|]. intros P P' HP.
    apply rM_same. intros l. apply rM_same. intros Un.
    apply (rM_bind rmat); [apply rinsert_points, HP|]. intros Q Q' HQ.
    apply rM_same. intros uk. destruct H2 as [H2 H3].
    apply (rM_bind (Forall2 rmat)); [apply rl_vset; assumption|]. intros pk pk' Hpk.
    apply (rM_bind rcurve).
    - apply rcurve_calculate. split; simpl; [reflexivity|]. split; simpl; auto.
    - intros a b Hab. split; simpl; auto.
  Qed.

  Lemma rinsert_times x : forall c d u, rcurve c d -> rM (rpair rcurve) (insert_times c u x) (insert_times d u x).
  Proof.
    induction x as [|x IH]; intros c d u H; simpl; [split; simpl; auto|].
    apply (rM_bind (rpair rcurve)); [apply rinsert, H|]. intros [a r] [b r'] [Hab E]. simpl in *. subst r'.
    destruct r; [apply IH; exact Hab|split; simpl; auto].
  Qed.

  Definition rcurves (x y : Curve K * Curve K) : Prop := rcurve (fst x) (fst y) /\ rcurve (snd x) (snd y).

  Lemma rmake_part p U P P' : rmat P P' -> rM (rres rcurve) (make_part p U P) (make_part p U P').
  Proof.
    intros H. unfold make_part. apply rM_same. intros kn.
    apply (rM_bind (rres rcurve)); [apply rcurve_new, rcp_new, H|].
    intros [a|e] [b|e'] Hab; simpl in *; try contradiction; [exact Hab|]. subst; reflexivity.
  Qed.

  Lemma rsplit c d u flags : rcurve c d ->
    rM (rres rcurves) (split_and_normalize c u flags) (split_and_normalize d u flags).
  Proof.
    intros H. assert (H' := H). destruct H' as [H1 H2]. unfold split_and_normalize, degree. rewrite H1.
    destruct (_ || _); [simpl; reflexivity|].
    apply rM_same. intros l. apply rM_same. intros U0. cbv zeta.
    set (m := take_while_count u (skipn l U0)).
    destruct (_ <? m); [simpl; reflexivity|].
    apply rM_same. intros reps.
    apply (rM_bind rcurve).
    { apply rM_foldM; [exact H|]. intros s t x Hst.
      apply (rM_bind (rpair rcurve)); [apply rinsert, Hst|]. intros [a r] [b r'] [Hab E]. simpl in *. subst r'.
      apply rM_same. intros _. exact Hab. }
    intros i j [Hi1 Hi2]. rewrite Hi1. apply rM_same. intros U.
    apply (rM_bind rmat); [apply rcp_matrix, Hi2|]. intros P P' HP.
    set (h := if 0 <? m then l else l + 1).
    apply (rM_bind (rres rcurve)).
    { unfold split_left. do 5 (apply rM_same; intros ?).
      apply (rM_bind rmat); [apply rmat_columns, HP|]. intros Q Q' HQ. apply rmake_part, HQ. }
    intros [a|e] [b|e'] Hab; simpl in Hab; try contradiction; [|subst; simpl; reflexivity].
    apply (rM_bind (rres rcurve)).
    { unfold split_right. do 6 (apply rM_same; intros ?). rewrite (rmat_ncols _ _ HP). apply rM_same; intros ?.
      apply (rM_bind rmat); [apply rmat_columns, HP|]. intros Q Q' HQ. apply rmake_part, HQ. }
    intros [a'|e] [b'|e'] Hab'; simpl in Hab'; try contradiction; [|subst; simpl; reflexivity].
    split; simpl; assumption.
  Qed.
End Related.
