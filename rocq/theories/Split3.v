(** * Splitting behind a repeated knot never returns; a requested degree is ignored *)

From Coq Require Import ZArith Floats.SpecFloat Reals List Bool Arith Lia Lra.
From Flocq Require Import Core.Core IEEE754.BinarySingleNaN.
From Verif Require Import Num Vec MKnots MPoints MCurve MFit MGenerate RNum F64 Hoare Lists Struct Spec Api Bridge Facts1 Facts4 Facts5 Facts6 Facts9 Facts10 Facts11 Divisions Float1.
Import ListNotations.

Section Generic.
  Context {K : Num}.

  Lemma dcount_insU p n (U : list K) l u : length U = n + p + 2 -> p <= l <= n -> (u ==? u)%num = true ->
    dcount p (S n) (insU U l u) u = S (dcount p n U u).
  Proof.
    intros L Hl E. unfold dcount.
    assert (A : firstn (S n - p + 2) (skipn p (insU U l u)) =
                firstn (l + 1 - p) (skipn p U) ++ u :: firstn (n + 1 - l) (skipn (l + 1) U)).
    { apply (nth_ext _ _ n0 n0).
      - rewrite app_length. cbn [length]. rewrite !firstn_length, !skipn_length, insU_length by lia. lia.
      - intros i Hi. rewrite firstn_length, skipn_length, insU_length in Hi by lia.
        rewrite nth_firstn by lia. rewrite nth_skipn, nth_insU by lia.
        assert (A1 : length (firstn (l + 1 - p) (skipn p U)) = l + 1 - p) by (rewrite firstn_length, skipn_length; lia).
        destruct (Nat.leb_spec (p + i) l).
        + rewrite app_nth1 by lia. rewrite nth_firstn by lia. rewrite nth_skipn. reflexivity.
        + rewrite app_nth2 by lia. rewrite A1. destruct (Nat.eqb_spec (p + i) (l + 1)).
          * replace (i - (l + 1 - p)) with 0 by lia. reflexivity.
          * replace (i - (l + 1 - p)) with (S (i - (l + 1 - p) - 1)) by lia. cbn [nth].
            rewrite nth_firstn by lia. rewrite nth_skipn. f_equal. lia. }
    assert (B : firstn (n - p + 2) (skipn p U) = firstn (l + 1 - p) (skipn p U) ++ firstn (n + 1 - l) (skipn (l + 1) U)).
    { apply (nth_ext _ _ n0 n0).
      - rewrite app_length. rewrite !firstn_length, !skipn_length. lia.
      - intros i Hi. rewrite firstn_length, skipn_length in Hi.
        rewrite nth_firstn by lia. rewrite nth_skipn.
        assert (A1 : length (firstn (l + 1 - p) (skipn p U)) = l + 1 - p) by (rewrite firstn_length, skipn_length; lia).
        destruct (lt_dec i (l + 1 - p)).
        + rewrite app_nth1 by lia. rewrite nth_firstn by lia. rewrite nth_skipn. reflexivity.
        + rewrite app_nth2 by lia. rewrite A1. rewrite nth_firstn by lia. rewrite nth_skipn. f_equal. lia. }
    rewrite A, B, !filter_app, !app_length. cbn [filter]. rewrite E. cbn [length]. lia.
  Qed.

  Hypothesis D : forall x y : K, ndiv x y <> Panic /\ ndiv x y <> Diverge.

  Lemma insert_ok_inv p n dim (U : list K) P c u c' t : wf p n dim U P c -> insert c u = Val (c', Ok t) ->
    dcount p n U u <= p /\ exists l P', p <= l <= n /\ sized p (S n) dim (insU U l u) P' /\ built p (insU U l u) P' c'.
  Proof.
    intros W E. assert (Wl := wf_len _ _ _ _ _ _ W). assert (Wd := wf_deg _ _ _ _ _ _ W).
    destruct (wf_cpoints _ _ _ _ _ _ W) as [s Es].
    unfold insert in E. destruct (_ || _) in E; [discriminate|].
    unfold degree in E. rewrite (wf_knots _ _ _ _ _ _ W) in E. cbn [kdegree kp knots_of] in E. fold (knots_of p U) in E.
    rewrite (multiplicity_val p n U u Wl Wd) in E. cbn [bind] in E.
    destruct (Nat.ltb_spec p (dcount p n U u)); [discriminate|]. split; [lia|].
    unfold cp_dimension, cp_matrix in E. rewrite Es in E. cbn [vget nth_error bind] in E.
    rewrite (knots_of_vector p U) in E. cbn [bind] in E.
    assert (F := find_le_spec False p n 0 U u Wl Wd ltac:(lia)). apply ok_val_ex in F. destruct F as [l [F [Hl _]]].
    rewrite F in E. cbn [bind] in E. rewrite insert_row_val in E by lia. cbn [bind] in E.
    rewrite (proj1 (wf_shape _ _ _ _ _ _ W)) in E.
    apply bind_val in E. destruct E as [P' [EP E]].
    assert (SP := insert_points_inv U P dim p n l u P' Wl (wf_shape _ _ _ _ _ _ W) ltac:(lia) EP).
    unfold knots_of at 1 in E. cbn [Uk seq map] in E. rewrite vset_val in E by (cbn [length]; lia). cbn [bind upd] in E.
    rewrite vset_val in E by (cbn [length]; lia). cbn [bind upd] in E. fold (insU U l u) in E.
    apply bind_val in E. destruct E as [c2 [Ec E]]. injection E as <- _.
    exists l, P'. split; [lia|]. assert (LI : length (insU U l u) = S n + p + 2) by (rewrite insU_length by lia; lia).
    split; [split; [lia|]; split; [exact LI|exact SP]|].
    eapply (calculate_built p (insU U l u) (S n) dim P'); try exact Ec; try reflexivity; try assumption; lia.
  Qed.

  Definition rep (u : K) (b : Curve K) (_ : nat) : M (Curve K) := let* (b', r) := insert b u in _ <- unwrap r;; Val b'.

  Lemma reps_bound (u : K) : (u ==? u)%num = true -> forall (l : list nat) p n dim U P c c', sized p n dim U P -> built p U P c ->
    foldM (rep u) l c = Val c' -> l = [] \/ dcount p n U u + length l <= S p.
  Proof.
    intros Eu. induction l as [|x l IH]; intros p n dim U P c c' S B E; [left; reflexivity|right].
    cbn [foldM] in E. apply bind_val in E. destruct E as [b [E1 E2]]. unfold rep in E1.
    apply bind_val in E1. destruct E1 as [[b' r] [E1 E3]]. cbn [fst snd] in E3.
    destruct r as [t|e]; cbn [unwrap bind] in E3; [|discriminate]. injection E3 as <-.
    assert (W := sized_wf True (gdiv_total K D) p n dim U P c S B).
    destruct (insert_ok_inv p n dim U P c u b' t W E1) as [H1 [m [P' [Hm [S' B']]]]].
    destruct (IH _ _ _ _ _ _ _ S' B' E2) as [->|H2]; [cbn [length]; lia|].
    rewrite (dcount_insU p n U m u (wf_len _ _ _ _ _ _ W) Hm Eu) in H2. cbn [length]. lia.
  Qed.

  (** the multiplicity the split sees is at least two less than the real one *)
  Lemma split_never p n dim (U : list K) P c u fl l : sized p n dim U P -> built p U P c ->
    (u <=? n0)%num || (n1 <=? u)%num = false -> (u ==? u)%num = true ->
    find_idx (knots_of p U) u 0 CLeftOrEqual = Val l ->
    take_while_count u (skipn l U) < p -> take_while_count u (skipn l U) + 2 <= dcount p n U u ->
    forall r, split_and_normalize c u fl <> Val r.
  Proof.
    intros S B Hu Eu Hl Ht Hm r E. assert (W := sized_wf True (gdiv_total K D) p n dim U P c S B).
    unfold split_and_normalize in E. rewrite Hu in E. unfold degree in E. rewrite (wf_knots _ _ _ _ _ _ W) in E.
    rewrite (knots_of_vector p U) in E. cbn [kdegree kp knots_of] in E. fold (knots_of p U) in E. cbn [bind] in E. rewrite Hl in E. cbn [bind] in E.
    replace (p <? take_while_count u (skipn l U)) with false in E by (symmetry; apply Nat.ltb_ge; lia).
    rewrite usub_ok in E by lia. cbn [bind] in E. apply bind_val in E. destruct E as [ins [E _]].
    fold (rep u) in E. destruct (reps_bound u Eu _ p n dim U P c ins S B E) as [H|H].
    - assert (H' := f_equal (@length nat) H). rewrite seq_length in H'. cbn [length] in H'. lia.
    - rewrite seq_length in H. lia.
  Qed.

  (** a repeated knot below: the search stops before [u], nothing is counted *)
  Lemma stops_before p n dim (U : list K) (P : Mat K) u j : sized p n dim U P -> (forall x : K, (x <? u)%num = true -> (x ==? u)%num = false) ->
    p < j < n -> (nth (j + 1) U n0 ==? nth j U n0)%num = true -> (forall i, i <= j -> (nth i U n0 <? u)%num = true) ->
    exists l, find_idx (knots_of p U) u 0 CLeftOrEqual = Val l /\ p <= l <= j /\ take_while_count u (skipn l U) = 0.
  Proof.
    intros [Hd [L HS]] O Hj Ej Hlt.
    assert (F := find_le_spec False p n 0 U u L Hd ltac:(lia)). apply ok_val_ex in F.
    destruct F as [l [E [F1 [F2 [F3 F4]]]]]. exists l. split; [exact E|]. cbn [plus] in *. rewrite !Nat.sub_0_r in *.
    assert (B : l <= j). { apply Nat.nlt_ge. intros Hl. rewrite (F4 j ltac:(lia)) in Ej. discriminate. }
    split; [lia|]. assert (Es : exists r, skipn l U = nth l U n0 :: r).
    { destruct (skipn l U) as [|x r] eqn:Es.
      - exfalso. assert (T := skipn_length l U). rewrite Es in T. cbn [length] in T. lia.
      - exists r. assert (T := nth_skipn U l 0 n0). rewrite Es, Nat.add_0_r in T. cbn [nth] in T. rewrite T. reflexivity. }
    destruct Es as [r Es]. rewrite Es. cbn [take_while_count]. rewrite (O _ (Hlt l B)). reflexivity.
  Qed.

  Lemma dcount_two p n (U : list K) u k : length U = n + p + 2 -> p <= k <= n -> (nth k U n0 ==? u)%num = true -> (nth (k + 1) U n0 ==? u)%num = true ->
    2 <= dcount p n U u.
  Proof.
    intros L Hk E1 E2. unfold dcount.
    replace (firstn (n - p + 2) (skipn p U)) with
      (firstn (k - p) (skipn p U) ++ nth k U n0 :: nth (k + 1) U n0 :: firstn (n - k) (skipn (k + 2) U)).
    { rewrite filter_app, app_length. cbn [filter]. rewrite E1, E2. cbn [length]. lia. }
    apply (nth_ext _ _ n0 n0).
    - rewrite app_length. cbn [length]. rewrite !firstn_length, !skipn_length. lia.
    - intros i Hi. rewrite app_length in Hi. cbn [length] in Hi. rewrite !firstn_length, !skipn_length in Hi.
      assert (A1 : length (firstn (k - p) (skipn p U)) = k - p) by (rewrite firstn_length, skipn_length; lia).
      rewrite (nth_firstn _ (n - p + 2)) by lia. rewrite nth_skipn.
      destruct (lt_dec i (k - p)).
      + rewrite app_nth1 by lia. rewrite nth_firstn by lia. rewrite nth_skipn. reflexivity.
      + rewrite app_nth2 by lia. rewrite A1. destruct (Nat.eq_dec i (k - p)) as [->|].
        * rewrite Nat.sub_diag. cbn [nth]. f_equal. lia.
        * destruct (Nat.eq_dec i (k - p + 1)) as [->|].
          { replace (k - p + 1 - (k - p)) with 1 by lia. cbn [nth]. f_equal. lia. }
          replace (i - (k - p)) with (2 + (i - (k - p) - 2)) by lia. cbn [plus nth]. rewrite nth_firstn by lia. rewrite nth_skipn. f_equal. lia.
  Qed.
End Generic.

(** binary64: division is total, so not returning is panicking *)
Section Float.
  Notation div64 := (fun x y : F64 => ndiv x y).

  Lemma reps_cases (u : F64) : forall (l : list nat) p n dim U P c, @sized F64 p n dim U P -> built p U P c ->
    foldM (rep u) l c = Panic \/ exists c', foldM (rep u) l c = Val c'.
  Proof.
    induction l as [|x l IH]; intros p n dim U P c S B; [right; eexists; reflexivity|]. cbn [foldM].
    assert (T := insert_total F64 (fun x y => ex_intro _ _ eq_refl) p n dim U P c u S B). cbv zeta in T.
    rewrite insert_once in T. unfold rep at 1 3.
    destruct (_ || _) in T; [left; rewrite T; reflexivity|].
    destruct (_ <? _) in T; [left; rewrite T; reflexivity|].
    destruct T as [c' [m [P' [T [_ [S' B']]]]]]. rewrite T. cbn [bind fst snd unwrap]. apply (IH _ _ _ _ _ _ S' B').
  Qed.

  Lemma lt_ne (x u : F64) : (x <? u)%num = true -> (x ==? u)%num = false.
  Proof.
    change (Bltb x u = true -> Beqb x u = false). unfold Bltb, Beqb, SpecFloat.SFltb, SpecFloat.SFeqb. destruct (SpecFloat.SFcompare _ _) as [[| |]|]; congruence.
  Qed.

  Lemma lt_nle (x y : F64) : (x <? y)%num = true -> (y <=? x)%num = false.
  Proof.
    change (Bltb x y = true -> Bleb y x = false). destruct (fin x) eqn:Fx; [destruct (fin y) eqn:Fy|].
    - rewrite ltb_val, leb_val by assumption. intros H. destruct (Rlt_bool_spec (val x) (val y)); [|discriminate]. apply Rle_bool_false. assumption.
    - destruct y as [|[|]| |]; try discriminate; destruct x as [[|]|[|]| |[|]]; try discriminate; reflexivity.
    - destruct x as [|[|]| |]; try discriminate; destruct y as [[|]|[|]| |[|]]; try discriminate; reflexivity.
  Qed.

  Lemma lt_refl_r (x u : F64) : (x <? u)%num = true -> (u ==? u)%num = true.
  Proof.
    change (Bltb x u = true -> Beqb u u = true). intros H. rewrite Beqb_refl.
    destruct u; try reflexivity. exfalso. destruct x as [[|]|[|]| |[|]]; discriminate.
  Qed.

  Lemma split_panics p n dim (U : list F64) P c u fl j k : 0 < p -> sized p n dim U P -> built p U P c ->
    (n0 <? u)%num = true -> (u <? n1)%num = true -> p < j < n -> (nth (j + 1) U n0 ==? nth j U n0)%num = true ->
    (forall i, i <= j -> (nth i U n0 <? u)%num = true) ->
    p <= k <= n -> (nth k U n0 ==? u)%num = true -> (nth (k + 1) U n0 ==? u)%num = true ->
    split_and_normalize c u fl = Panic.
  Proof.
    intros Hp S B H0 H1 Hj Ej Hlt Hk E1 E2.
    assert (Eu := lt_refl_r _ _ H0).
    destruct (stops_before p n dim U P u j S (fun x => lt_ne x u) Hj Ej Hlt) as [l [El [_ Et]]].
    assert (Hu : (u <=? n0)%num || (n1 <=? u)%num = false).
    { apply orb_false_iff. split; [apply (lt_nle _ _ H0)|apply (lt_nle _ _ H1)]. }
    assert (Hm := dcount_two p n U u k (proj1 (proj2 S)) Hk E1 E2).
    assert (D : forall x y : F64, ndiv x y <> Panic /\ ndiv x y <> Diverge) by (intros; split; discriminate).
    assert (W := sized_wf True (gdiv_total F64 D) p n dim U P c S B).
    unfold split_and_normalize. rewrite Hu. unfold degree. rewrite (wf_knots _ _ _ _ _ _ W).
    rewrite (knots_of_vector p U). cbn [kdegree kp knots_of]. fold (knots_of p U). cbn [bind]. rewrite El. cbn [bind]. rewrite Et.
    replace (p <? 0) with false by (symmetry; apply Nat.ltb_ge; lia).
    rewrite usub_ok by lia. cbn [bind]. fold (rep u).
    destruct (reps_cases u (seq 0 (p - 0)) p n dim U P c S B) as [->|[c' E]]; [reflexivity|exfalso].
    destruct (reps_bound D u Eu _ p n dim U P c c' S B E) as [H|H].
    - assert (H' := f_equal (@length nat) H). rewrite seq_length in H'. cbn [length] in H'. lia.
    - rewrite seq_length in H. lia.
  Qed.
End Float.

(** exact arithmetic *)
Section Real.
  Local Open Scope R_scope.

  Lemma split_never_R p n dim U P c u fl j : clamped_curve p n dim U P c -> (0 < p)%nat -> 0 < u < 1 ->
    (p < j < n)%nat -> nth j U 0 = nth (j + 1) U 0 -> nth j U 0 < u -> (2 <= mult U u)%nat ->
    forall r, split_and_normalize (K := RNum) c u fl <> Val r.
  Proof.
    intros [C [SP B]] Hp Hu Hj Ej Hju Hm. assert (L := cl_len _ _ _ C). assert (D := cl_deg _ _ _ C).
    assert (So : @sized RNum p n dim U P) by (split; [exact D|split; [exact L|exact SP]]).
    assert (O : forall x : R, Rltb x u = true -> Reqb x u = false).
    { intros x Hx. apply Rltb_lt in Hx. apply Reqb_neq. lra. }
    destruct (@stops_before RNum p n dim U P u j So O Hj) as [l [El [_ Et]]].
    - rn. apply Reqb_eq. lra.
    - intros i Hi. rn. apply Rltb_lt. assert (T := cl_sorted _ _ _ C i j Hi ltac:(lia)). lra.
    - apply (@split_never RNum div_R p n dim U P c u fl l So B (open_R u Hu)).
      + rn. apply Reqb_eq. reflexivity.
      + exact El.
      + rewrite Et. exact Hp.
      + rewrite Et, (dcount_R p n U u C Hu). lia.
  Qed.
End Real.

(** the requested degree is only compared with the number of segments *)
Section Degree.
  Context {K : Num}.

  Lemma manual_ignores (svd : Mat K -> Mat K -> M (Mat K)) q kn (P : Mat K) dim n : shape dim (S n) P -> q <= n ->
    generate svd (Manual q (cp_new P) (GManual kn)) = curve_new kn (cp_new P).
  Proof.
    intros HP Hq. unfold generate. rewrite (cp_segments_val P [] 0 dim n HP : cp_segments (cp_new P) = Val n). cbn [bind].
    replace (n <? q) with false by (symmetry; apply Nat.ltb_ge; lia). reflexivity.
  Qed.

  Lemma new_degree kn (cp : ControlPoints K) c : curve_new kn cp = Val (Ok c) -> degree c = kdegree kn.
  Proof.
    unfold curve_new. intros E. apply bind_val in E. destruct E as [n [_ E]]. cbv zeta in E. destruct (_ <? _) in E; [discriminate|].
    apply bind_val in E. destruct E as [c' [E1 E]]. injection E as ->. unfold calculate_derivatives in E1.
    apply bind_val in E1. destruct E1 as [k [E1 E2]]. apply bind_val in E2. destruct E2 as [cp' [_ E2]]. injection E2 as <-.
    unfold knots_derive in E1. apply bind_val in E1. destruct E1 as [uk [_ E1]]. injection E1 as <-. reflexivity.
  Qed.

  Lemma manual_degree_of_knots (svd : Mat K -> Mat K -> M (Mat K)) p U q kn (P : Mat K) dim n : shape dim (S n) P -> q <= n -> knots_new p U = Val kn ->
    generate svd (Manual q (cp_new P) (GManual kn)) = curve_new kn (cp_new P) /\
    forall c, generate svd (Manual q (cp_new P) (GManual kn)) = Val (Ok c) -> degree c = p.
  Proof.
    intros HP Hq E. split; [apply (manual_ignores svd q kn P dim n HP Hq)|]. intros c Ec.
    rewrite (manual_ignores svd q kn P dim n HP Hq) in Ec. rewrite (new_degree _ _ _ Ec).
    unfold knots_new in E. apply bind_val in E || idtac.
    destruct E as [k [E1 E]]; injection E as <-; reflexivity.
  Qed.
End Degree.
