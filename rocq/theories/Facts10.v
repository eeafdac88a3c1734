(** * Manipulated curves are what Curve::new would build *)

From Coq Require Import ZArith Reals List Bool Arith Lia Lra Permutation.
From Verif Require Import Num Vec MKnots MPoints MCurve RNum Hoare Lists Struct Spec Api Bridge Facts1 Facts3 Facts4 Facts5 Facts6.
Import ListNotations.

Lemma foldM_step {S X} (f : S -> X -> M S) l : forall s r, foldM f l s = Val r ->
  forall x, In x l -> exists s1 s2, f s1 x = Val s2.
Proof.
  induction l as [|y l IH]; intros s r E x Hx; [contradiction|]. cbn [foldM] in E. apply bind_val in E. destruct E as [s2 [E1 E2]].
  destruct Hx as [->|Hx]; [eauto|]. apply (IH _ _ E2 x Hx).
Qed.

Lemma foldM_val_inv {S X} (f : S -> X -> M S) (I : S -> Prop) l : forall s r, foldM f l s = Val r ->
  I s -> (forall x s1 s2, I s1 -> f s1 x = Val s2 -> I s2) -> I r.
Proof.
  induction l as [|y l IH]; intros s r E H0 H; cbn [foldM] in E; [injection E as <-; exact H0|].
  apply bind_val in E. destruct E as [s2 [E1 E2]]. apply (IH _ _ E2); [|exact H]. apply (H y s s2 H0 E1).
Qed.

Section Inv.
  Context {K : Num}.
  Hypothesis D : forall x y : K, ndiv x y <> Panic /\ ndiv x y <> Diverge.

  Lemma insert_points_inv (U : list K) P dim p n l u P' : length U = n + p + 2 -> shape dim (S n) P -> p <= l <= n ->
    insert_points U P dim p l u = Val P' -> shape dim (S (S n)) P'.
  Proof.
    intros HL HP Hl E.
    assert (A : forall i, l - p < i <= l -> exists a, ndiv (u - nth i U n0)%num (nth (i + p) U n0 - nth i U n0)%num = Val a).
    { intros i Hi. assert (E' := E). unfold insert_points in E'. cbv zeta in E'.
      apply bind_val in E'. destruct E' as [lp [E1 E']]. apply usub_val in E1. destruct E1 as [_ ->].
      do 7 (apply bind_val in E'; destruct E' as [? [_ E']]).
      destruct (foldM_step _ _ _ _ E' i) as [s1 [s2 E2]].
      { unfold rangei. apply in_seq. lia. }
      rewrite (vget_nth U i n0) in E2 by lia. cbn [bind] in E2. rewrite (vget_nth U (i + p) n0) in E2 by lia. cbn [bind] in E2.
      apply bind_val in E2. destruct E2 as [a [E2 _]]. eauto. }
    assert (B : exists al, forall i, l - p < i <= l -> ndiv (u - nth i U n0)%num (nth (i + p) U n0 - nth i U n0)%num = Val (al i)).
    { exists (fun i => match ndiv (u - nth i U n0)%num (nth (i + p) U n0 - nth i U n0)%num with Val a => a | _ => n0 end).
      intros i Hi. destruct (A i Hi) as [a ->]. reflexivity. }
    destruct B as [al Hal]. destruct (insert_points_val U P dim p n l u al HL HP Hl Hal) as [P2 [E2 [SP _]]].
    rewrite E in E2. injection E2 as <-. exact SP.
  Qed.

  Lemma insert_inv p n dim (U : list K) P c u c' r : wf p n dim U P c -> insert c u = Val (c', r) ->
    c' = c \/ exists l P', p <= l <= n /\ sized p (S n) dim (insU U l u) P' /\ built p (insU U l u) P' c'.
  Proof.
    intros W E. assert (Wl := wf_len _ _ _ _ _ _ W). assert (Wd := wf_deg _ _ _ _ _ _ W).
    destruct (wf_cpoints _ _ _ _ _ _ W) as [s Es].
    unfold insert in E. destruct (_ || _) in E; [injection E as <- _; left; reflexivity|].
    unfold degree in E. rewrite (wf_knots _ _ _ _ _ _ W) in E. cbn [kdegree kp knots_of] in E. fold (knots_of p U) in E.
    rewrite (multiplicity_val p n U u Wl Wd) in E. cbn [bind] in E.
    destruct (_ <? _) in E; [injection E as <- _; left; reflexivity|]. right.
    unfold cp_dimension, cp_matrix in E. rewrite Es in E. cbn [vget nth_error bind] in E.
    rewrite (knots_of_vector p U) in E. cbn [bind] in E.
    assert (F := find_le_spec False p n 0 U u Wl Wd ltac:(lia)). apply ok_val_ex in F. destruct F as [l [F [Hl _]]].
    rewrite F in E. cbn [bind] in E. rewrite insert_row_val in E by lia. cbn [bind] in E.
    rewrite (proj1 (wf_shape _ _ _ _ _ _ W)) in E.
    apply bind_val in E. destruct E as [P' [EP E]].
    assert (SP := insert_points_inv U P dim p n l u P' Wl (wf_shape _ _ _ _ _ _ W) ltac:(lia) EP).
    unfold knots_of at 1 in E. cbn [Uk seq map] in E. rewrite vset_val in E by (cbn [length]; lia). cbn [bind upd] in E.
    rewrite vset_val in E by (cbn [length]; lia). cbn [bind upd] in E. fold (insU U l u) in E.
    apply bind_val in E. destruct E as [c2 [Ec E]]. injection E as <- _.
    exists l, P'. split; [lia|]. assert (LI : length (insU U l u) = S n + p + 2) by (rewrite insU_length by lia; lia).
    split; [split; [lia|]; split; [exact LI|exact SP]|].
    eapply (calculate_built p (insU U l u) (S n) dim P'); try exact Ec; try reflexivity; try assumption; lia.
  Qed.

  Definition co (p dim : nat) (c : Curve K) : Prop := exists n U P, sized p n dim U P /\ built p U P c.

  Lemma insert_co p dim c u c' r : co p dim c -> insert c u = Val (c', r) -> co p dim c'.
  Proof.
    intros [n [U [P [S B]]]] E. assert (W := sized_wf True (gdiv_total K D) p n dim U P c S B).
    destruct (insert_inv p n dim U P c u c' r W E) as [->|[l [P' [_ [S' B']]]]].
    - exists n, U, P. auto.
    - exists (Datatypes.S n), (insU U l u), P'. auto.
  Qed.

  Lemma insert_times_co x : forall p dim c u c' r, co p dim c -> insert_times c u x = Val (c', r) -> co p dim c'.
  Proof.
    induction x as [|x IH]; intros p dim c u c' r H E; cbn [insert_times] in E; [injection E as <- _; exact H|].
    apply bind_val in E. destruct E as [[c1 r1] [E1 E2]]. cbn [fst snd] in E2. assert (H1 := insert_co p dim c u c1 r1 H E1).
    destruct r1 as [t|e]; [apply (IH _ _ _ _ _ _ H1 E2)|injection E2 as <- _; exact H1].
  Qed.

  Lemma mapM_length {X A} (f : X -> M A) l : forall r, mapM f l = Val r -> length r = length l.
  Proof.
    induction l as [|x l IH]; intros r E; cbn [mapM] in E; [injection E as <-; reflexivity|].
    apply bind_val in E. destruct E as [a [_ E]]. apply bind_val in E. destruct E as [r' [E1 E]]. injection E as <-.
    cbn [length]. f_equal. apply IH. exact E1.
  Qed.

  Lemma vec_rescale_length (v w : list K) a b : vec_rescale v a b = Val w -> length w = length v.
  Proof.
    unfold vec_rescale. intros E. apply bind_val in E. destruct E as [v1 [E1 E]]. apply bind_val in E. destruct E as [v2 [E2 E]].
    unfold vsub in E1. apply zipM_len in E1. unfold vadd in E. apply zipM_len in E.
    unfold vdiv_scalar in E2. apply mapM_length in E2. unfold vmul_scalar in E. rewrite map_length in E. lia.
  Qed.

  Lemma normalize_length (b : bool) (v w : list K) : (if b then vec_normalize v else Val v) = Val w -> length w = length v.
  Proof. destruct b; [apply vec_rescale_length|]. intros E. injection E as <-. reflexivity. Qed.

  Lemma segment_set_len (v src w : list K) s n : segment_set v s n src = Val w -> length w = length v.
  Proof.
    intros E. unfold segment_set in E. destruct (Nat.leb_spec (s + n) (length v)); [|discriminate].
    destruct (Nat.eqb_spec (length src) n); [|discriminate]. injection E as <-. apply segment_set_length; assumption.
  Qed.
  Lemma vset_len (v w : list K) i x : vset v i x = Val w -> length w = length v.
  Proof. unfold vset. destruct (_ <? _); [|discriminate]. intros E. injection E as <-. apply upd_length. Qed.

  Lemma mcolumns_inv (m : Mat K) r c s n m' : shape r c m -> mcolumns m s n = Val m' -> shape r n m'.
  Proof.
    intros S E. unfold mcolumns, segment in E. destruct (Nat.leb_spec (s + n) (length (mcols m))); [|discriminate].
    cbn [bind] in E. injection E as <-. assert (T := S). destruct T as [T1 [T2 _]]. rewrite T1.
    apply (mcolumns_shape m r c s n S). lia.
  Qed.

  Lemma part_cols_inv len p b cols : part_cols len p b = Val cols -> len + 1 = cols + (p + 2).
  Proof.
    unfold part_cols. destruct b; intros E.
    - apply bind_val in E. destruct E as [a [E1 E]]. apply usub_val in E1. injection E as <-. lia.
    - apply usub_val in E. lia.
  Qed.

  Lemma make_part_inv p dim (U : list K) P cols c : shape dim cols P -> length U + 1 = cols + (p + 2) ->
    make_part p U P = Val (Ok c) -> co p dim c.
  Proof.
    intros S L E. unfold make_part in E. apply bind_val in E. destruct E as [kn [E1 E]]. apply bind_val in E.
    destruct E as [r [E2 E]]. destruct r as [c1|e]; [|discriminate]. injection E as <-.
    assert (E2' := E2). unfold curve_new in E2'. apply bind_val in E2'. destruct E2' as [n [E3 E4]].
    assert (Hn : cols = Datatypes.S n).
    { unfold cp_segments, cp_count, count_derivative, cp_new in E3. cbn [Pk vget nth_error bind] in E3. unfold ncols in E3.
      destruct S as [_ [S _]]. rewrite S in E3. apply usub_val in E3. lia. }
    exists n, U, P. split; [|exists kn; auto].
    assert (Hk : kdegree kn = p). { unfold knots_new, knots_derive in E1. repeat (apply bind_val in E1; destruct E1 as [? [_ E1]]). injection E1 as <-. reflexivity. }
    rewrite Hk in E4. destruct (Nat.ltb_spec n p); [discriminate|]. split; [exact H|]. split; [lia|]. subst cols. exact S.
  Qed.

  Lemma split_left_inv p dim cols (U : list K) P h u b nm c : shape dim cols P ->
    split_left U P p h u b nm = Val (Ok c) -> co p dim c.
  Proof.
    intros S E. unfold split_left in E. apply bind_val in E. destruct E as [src [_ E]]. apply bind_val in E. destruct E as [U1 [_ E]].
    apply bind_val in E. destruct E as [U2 [_ E]]. apply bind_val in E. destruct E as [U3 [_ E]].
    apply bind_val in E. destruct E as [cs [E1 E]]. apply part_cols_inv in E1. apply bind_val in E. destruct E as [PL [E2 E]].
    apply (make_part_inv p dim U3 PL cs c); [apply (mcolumns_inv P dim cols 0 cs PL S E2)|exact E1|exact E].
  Qed.

  Lemma split_right_inv p dim cols (U : list K) P h u b nm c : shape dim cols P ->
    split_right U P p h u b nm = Val (Ok c) -> co p dim c.
  Proof.
    intros S E. unfold split_right in E. apply bind_val in E. destruct E as [t [_ E]]. cbv zeta in E. apply bind_val in E. destruct E as [U1 [_ E]].
    apply bind_val in E. destruct E as [src [_ E]]. apply bind_val in E. destruct E as [U2 [_ E]].
    apply bind_val in E. destruct E as [U3 [_ E]].
    apply bind_val in E. destruct E as [cs [E1 E]]. apply part_cols_inv in E1. apply bind_val in E. destruct E as [s [_ E]].
    apply bind_val in E. destruct E as [PL [E2 E]].
    apply (make_part_inv p dim U3 PL cs c); [apply (mcolumns_inv P dim cols s cs PL S E2)|exact E1|exact E].
  Qed.

  Lemma co_matrix p dim c P : co p dim c -> cp_matrix (cpoints c) = Val P -> exists cols, shape dim cols P.
  Proof.
    intros [n [U [Q [S B]]]] E. assert (W := sized_wf True (gdiv_total K D) p n dim U Q c S B).
    destruct (wf_cpoints _ _ _ _ _ _ W) as [s Es]. unfold cp_matrix in E. rewrite Es in E. cbn in E. injection E as <-.
    exists (Datatypes.S n). apply S.
  Qed.

  Lemma split_co p dim c u cl cr : co p dim c -> split c u = Val (Ok (cl, cr)) -> co p dim cl /\ co p dim cr.
  Proof.
    intros H E. unfold split, split_and_normalize in E. destruct (_ || _) in E; [discriminate|].
    assert (Hp : degree c = p).
    { destruct H as [n [U [Q [S B]]]]. assert (W := sized_wf True (gdiv_total K D) p n dim U Q c S B).
      unfold degree. rewrite (wf_knots _ _ _ _ _ _ W). reflexivity. }
    apply bind_val in E. destruct E as [l [_ E]]. apply bind_val in E. destruct E as [U0 [_ E]]. cbv zeta in E.
    destruct (_ <? _) in E; [discriminate|]. apply bind_val in E. destruct E as [reps [_ E]].
    apply bind_val in E. destruct E as [ins [Ei E]]. apply bind_val in E. destruct E as [U [_ E]].
    apply bind_val in E. destruct E as [P [EP E]]. cbv zeta in E.
    assert (Hi : co p dim ins).
    { apply (foldM_val_inv _ (co p dim) _ _ _ Ei H). intros x s1 s2 H1 E1. apply bind_val in E1. destruct E1 as [[b r] [E1 E2]].
      cbn [fst snd] in E2. apply bind_val in E2. destruct E2 as [t [_ E2]]. injection E2 as <-. apply (insert_co p dim s1 u b r H1 E1). }
    destruct (co_matrix p dim ins P Hi EP) as [cols SP]. rewrite Hp in E.
    apply bind_val in E. destruct E as [lp [EL E]]. destruct lp as [lp|e]; [|discriminate].
    apply bind_val in E. destruct E as [rp [ER E]]. destruct rp as [rp|e]; [|discriminate]. injection E as <- <-.
    split; [apply (split_left_inv _ _ _ _ _ _ _ _ _ _ SP EL)|apply (split_right_inv _ _ _ _ _ _ _ _ _ _ SP ER)].
  Qed.

  Lemma co_coherent p dim c : co p dim c -> coherent c.
  Proof.
    intros [n [U [P [S B]]]]. assert (W := sized_wf True (gdiv_total K D) p n dim U P c S B). exists p, n, dim, U, P.
    split; [exact S|]. unfold degree. rewrite (wf_knots _ _ _ _ _ _ W). split; [reflexivity|]. split; [apply knots_of_vector|].
    split; [|exact B]. destruct (wf_cpoints _ _ _ _ _ _ W) as [s Es]. unfold cp_matrix. rewrite Es. reflexivity.
  Qed.

  Lemma made_co (rev : Prop) : (rev -> forall p dim c c', co p dim c -> reverse c = Val c' -> co p dim c') ->
    forall c, made rev c -> exists p dim, co p dim c.
  Proof.
    intros HR c H.
    induction H as [p n dim U P c S B | c u c' r H IH E | c u x c' r H IH E | c u cl cr H IH E | c u cl cr H IH E | c c' Rv H IH E].
    - exists p, dim, n, U, P. auto.
    - destruct IH as [p [dim IH]]. exists p, dim. apply (insert_times_co 1 p dim c u c' r IH E).
    - destruct IH as [p [dim IH]]. exists p, dim. apply (insert_times_co x p dim c u c' r IH E).
    - destruct IH as [p [dim IH]]. exists p, dim. apply (split_co p dim c u cl cr IH E).
    - destruct IH as [p [dim IH]]. exists p, dim. apply (split_co p dim c u cl cr IH E).
    - destruct IH as [p [dim IH]]. exists p, dim. apply (HR Rv p dim c c' IH E).
  Qed.

  Lemma made_coherent (c : Curve K) : made False c -> coherent c.
  Proof. intros H. destruct (made_co False ltac:(contradiction) c H) as [p [dim Hc]]. apply (co_coherent p dim c Hc). Qed.
End Inv.

Lemma reverse_co p dim (c c' : Curve RNum) : co p dim c -> reverse c = Val c' -> co p dim c'.
Proof.
  intros [n [U [P [[S1 [S2 S3]] B]]]] E. assert (W := built_wf p n dim U P c S1 S2 S3 B).
  destruct (reverse_wf p n dim U P c W) as [c2 [E2 W2]]. rewrite E in E2. injection E2 as <-.
  exists n, (vrev U), (mrev P). split; [|apply (wfR_built p n dim); exact W2].
  split; [apply (proj1 W2)|]. split; [apply (proj1 W2)|apply (proj1 W2)].
Qed.

Lemma made_coherent_R (c : Curve RNum) : made True c -> coherent c.
Proof.
  intros H. destruct (made_co div_R True (fun _ => reverse_co) c H) as [p [dim Hc]]. apply (co_coherent div_R p dim c Hc).
Qed.
