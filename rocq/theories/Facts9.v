(** * Split errors, span search, Curve::new *)

From Coq Require Import ZArith Reals List Bool Arith Lia Lra Permutation.
From Verif Require Import Num Vec MKnots MPoints MCurve RNum Hoare Lists Struct Spec BMath BMath2 BMath3 BMath4 BMath5 Api Bridge Facts1 Facts4 Facts5 Facts6 Facts7 Facts8.
Import ListNotations.

Lemma split_out {K : Num} (c : Curve K) u : (u <=? n0)%num || (n1 <=? u)%num = true ->
  split c u = Val (Err (SOutOfBounds u n0 n1)).
Proof. intros H. unfold split, split_and_normalize. rewrite H. reflexivity. Qed.

(** [split] reports out-of-bounds only then *)
Lemma make_part_no_oob {K : Num} p (U : list K) P r : make_part p U P = Val r -> forall u a b, r <> Err (SOutOfBounds u a b).
Proof.
  intros H u a b E. unfold make_part in H. apply bind_val in H. destruct H as [kn [_ H]]. apply bind_val in H.
  destruct H as [[c|e] [_ H]]; injection H as <-; discriminate.
Qed.

Lemma split_out_only {K : Num} (c : Curve K) u v a b : split c u = Val (Err (SOutOfBounds v a b)) ->
  (u <=? n0)%num || (n1 <=? u)%num = true.
Proof.
  unfold split, split_and_normalize. destruct ((u <=? n0)%num || (n1 <=? u)%num); [reflexivity|]. intros H. exfalso.
  apply bind_val in H. destruct H as [l [_ H]]. apply bind_val in H. destruct H as [U0 [_ H]].
  cbv zeta in H. destruct (_ <? _)%nat in H; [discriminate|].
  apply bind_val in H. destruct H as [reps [_ H]]. apply bind_val in H. destruct H as [ins [_ H]].
  apply bind_val in H. destruct H as [U [_ H]]. apply bind_val in H. destruct H as [P [_ H]]. cbv zeta in H.
  apply bind_val in H. destruct H as [lp [EL H]].
  destruct lp as [cl|e].
  - apply bind_val in H. destruct H as [rp [ER H]]. destruct rp as [cr|e]; [discriminate|]. injection H as ->.
    unfold split_right in ER.
    apply bind_val in ER. destruct ER as [x1 [_ ER]]. apply bind_val in ER. destruct ER as [x2 [_ ER]].
    apply bind_val in ER. destruct ER as [x3 [_ ER]]. apply bind_val in ER. destruct ER as [x4 [_ ER]].
    apply bind_val in ER. destruct ER as [x5 [_ ER]]. apply bind_val in ER. destruct ER as [x6 [_ ER]].
    apply bind_val in ER. destruct ER as [x7 [_ ER]]. apply bind_val in ER. destruct ER as [x8 [_ ER]].
    apply (make_part_no_oob _ _ _ _ ER v a b). reflexivity.
  - injection H as ->. unfold split_left in EL.
    apply bind_val in EL. destruct EL as [x1 [_ EL]]. apply bind_val in EL. destruct EL as [x2 [_ EL]].
    apply bind_val in EL. destruct EL as [x3 [_ EL]]. apply bind_val in EL. destruct EL as [x4 [_ EL]].
    apply bind_val in EL. destruct EL as [x5 [_ EL]]. apply bind_val in EL. destruct EL as [x6 [_ EL]].
    apply (make_part_no_oob _ _ _ _ EL v a b). reflexivity.
Qed.

Local Open Scope R_scope.

Lemma split_mult p n dim U P c u : clamped_curve p n dim U P c -> 0 < u < 1 -> (p < mult U u)%nat -> simple_below U u ->
  @split RNum c u = Val (Err (MultiplicityTooHigh u p (mult U u))).
Proof.
  intros H Hu Hm Hs. assert (C : clamped p n U) by apply H. assert (Len := cl_len _ _ _ C). assert (D := cl_deg _ _ _ C).
  assert (W := proj1 (cc_wf _ _ _ _ _ _ H)).
  assert (F := @find_le_spec RNum False p n 0 U u ltac:(rn; lia) D ltac:(lia)). apply ok_val_ex in F. destruct F as [l [F _]].
  destruct (split_sep p n U u l C Hu Hs F) as [Ew [Hh Hsep]].
  unfold split, split_and_normalize. rewrite (open_R u Hu). unfold degree. rewrite (wf_knots _ _ _ _ _ _ W). cbn [kdegree kp knots_of].
  fold (knots_of p U). change (@knots_of RNum p U) with (@knots_of RNum p U). rewrite F. cbn [bind].
  rewrite (@knots_of_vector RNum p U). cbn [bind].
  change (@take_while_count RNum u (@skipn (T RNum) l U)) with (@take_while_count RNum u (@skipn R l U)). rewrite Ew.
  replace (p <? mult U u)%nat with true by (symmetry; apply Nat.ltb_lt; lia). reflexivity.
Qed.

Lemma split_cases p n dim U P c u : clamped_curve p n dim U P c -> simple_below U u ->
  (~ (0 < u < 1) /\ @split RNum c u = Val (Err (SOutOfBounds u n0 n1))) \/
  (0 < u < 1 /\ (p < mult U u)%nat /\ @split RNum c u = Val (Err (MultiplicityTooHigh u p (mult U u)))) \/
  (0 < u < 1 /\ (mult U u <= p)%nat /\ exists cl cr, @split RNum c u = Val (Ok (cl, cr))).
Proof.
  intros H Hs. destruct (Rlt_dec 0 u) as [H0|H0].
  - destruct (Rlt_dec u 1) as [H1|H1].
    + right. destruct (le_lt_dec (mult U u) p) as [Hm|Hm].
      * right. split; [lra|]. split; [exact Hm|]. destruct (split_exact p n dim U P c u H (conj H0 H1) Hm Hs) as [cl [cr [nl [nr [Ul [Pl [Ur [Pr [E _]]]]]]]]].
        exists cl, cr. exact E.
      * left. split; [lra|]. split; [exact Hm|]. apply (split_mult p n dim U P c u H (conj H0 H1) Hm Hs).
    + left. split; [lra|]. apply split_out. apply closed_R. lra.
  - left. split; [lra|]. apply split_out. apply closed_R. lra.
Qed.

Lemma insert_cases p n dim U P c u : clamped_curve p n dim U P c -> simple_below U u ->
  (~ (0 < u < 1) /\ @curve_insert RNum c u = Val (c, Err (IOutOfBounds u n0 n1))) \/
  (0 < u < 1 /\ (p < mult U u)%nat /\ @curve_insert RNum c u = Val (c, Err (IMultiplicityError u (mult U u) p))) \/
  (0 < u < 1 /\ (mult U u <= p)%nat /\ exists c' U' P', @curve_insert RNum c u = Val (c', Ok tt) /\
      clamped_curve p (S n) dim U' P' c' /\ Permutation (u :: U) U').
Proof.
  intros H Hs. rewrite insert_once. destruct (Rlt_dec 0 u) as [H0|H0].
  - destruct (Rlt_dec u 1) as [H1|H1].
    + right. destruct (le_lt_dec (mult U u) p) as [Hm|Hm].
      * right. split; [lra|]. split; [exact Hm|].
        destruct (insert_exact p n dim U P c u H (conj H0 H1) Hm Hs) as [c' [U' [P' [E1 [E2 [E3 _]]]]]]. exists c', U', P'. auto.
      * left. split; [lra|]. split; [exact Hm|]. rewrite <- (dcount_R p n U u (proj1 H) (conj H0 H1)).
        apply (insert_mult p n dim U P c u (proj1 (cc_wf _ _ _ _ _ _ H)) (open_R u (conj H0 H1))).
        rewrite (dcount_R p n U u (proj1 H) (conj H0 H1)). exact Hm.
    + left. split; [lra|]. apply insert_out. apply closed_R. lra.
  - left. split; [lra|]. apply insert_out. apply closed_R. lra.
Qed.

(** insertion, sizes and errors in a number system with total division *)
Lemma insert_total (K : Num) : (forall x y : K, exists z, ndiv x y = Val z) ->
  forall p n dim (U : list K) (P : Mat K) c u, sized p n dim U P -> built p U P c ->
  let m := length (filter (fun x => (x ==? u)%num) (firstn (n - p + 2) (skipn p U))) in
  if ((u <=? n0) || (n1 <=? u))%num then curve_insert c u = Val (c, Err (IOutOfBounds u n0 n1))
  else if (p <? m)%nat then curve_insert c u = Val (c, Err (IMultiplicityError u m p))
  else exists c' l P', curve_insert c u = Val (c', Ok tt) /\ (p <= l <= n)%nat /\
         sized p (S n) dim (firstn (l + 1) U ++ u :: skipn (l + 1) U) P' /\
         built p (firstn (l + 1) U ++ u :: skipn (l + 1) U) P' c'.
Proof.
  intros D p n dim U P c u S B m.
  assert (G : @gdiv K False). { intros x y z _. destruct (D z (x - y)%num) as [w ->]. exact I. }
  assert (W := sized_wf False G p n dim U P c S B). rewrite insert_once.
  destruct ((u <=? n0) || (n1 <=? u))%num eqn:E.
  - apply insert_out. exact E.
  - destruct (Nat.ltb_spec p m).
    + apply (insert_mult p n dim U P c u W E H).
    + assert (T := insert_gen False G p n dim U P c u W E H ltac:(intros; apply D)). apply ok_val_ex in T.
      destruct T as [[c' r] [Ei [l [P' [F [Hl [EP [Er [W' B']]]]]]]]]. cbn [fst snd] in *. subst r.
      exists c', l, P'. split; [exact Ei|]. split; [exact Hl|]. split; [|exact B'].
      split; [apply W'|]. split; [apply W'|apply W'].
Qed.

(** ** the span search *)
Lemma find_left_R p n k U u : length U = (n + p + 2)%nat -> (p <= n)%nat -> (k <= p)%nat -> sorted U ->
  exists l, @find_idx RNum (knots_of p U) u k CLeft = Val l /\ (p - k <= l <= n - k)%nat /\
    (forall j, (p - k < j <= l)%nat -> nth (k + j) U 0 < u) /\
    (forall j, (l < j <= n - k)%nat -> u <= nth (k + j) U 0).
Proof.
  intros L D Hk S. assert (F := @find_lt_spec RNum False p n k U u L D Hk). apply ok_val_ex in F.
  destruct F as [l [E [F1 [F2 F3]]]]. rn. exists l. split; [exact E|]. split; [exact F1|]. split; intros j Hj.
  - destruct F2 as [F2|F2]; [lia|]. apply Rltb_lt in F2. apply Rle_lt_trans with (nth (k + l) U 0); [apply S; lia|exact F2].
  - destruct F3 as [F3|F3]; [|lia]. apply Rltb_ge in F3. apply Rle_trans with (nth (k + (l + 1)) U 0); [exact F3|apply S; lia].
Qed.

Lemma find_left_eq_R p n k U u : length U = (n + p + 2)%nat -> (p <= n)%nat -> (k <= p)%nat -> sorted U ->
  (forall i, (p < i < n)%nat -> nth i U 0 <= u -> nth i U 0 < nth (i + 1) U 0) ->
  exists l, @find_idx RNum (knots_of p U) u k CLeftOrEqual = Val l /\ (p - k <= l <= n - k)%nat /\
    (forall j, (p - k < j <= l)%nat -> nth (k + j) U 0 <= u) /\
    (forall j, (l < j <= n - k)%nat -> u < nth (k + j) U 0).
Proof.
  intros L D Hk S Hd. assert (F := @find_le_spec RNum False p n k U u L D Hk). apply ok_val_ex in F.
  destruct F as [l [E [F1 [F2 [F3 _]]]]]. rn. exists l. split; [exact E|]. split; [exact F1|]. split; intros j Hj.
  - destruct F2 as [F2|F2]; [lia|]. apply Rleb_le in F2. apply Rle_trans with (nth (k + l) U 0); [apply S; lia|exact F2].
  - destruct F3 as [F3|[F3|[F3 F5]]]; [|lia|].
    + apply Rleb_gt in F3. apply Rlt_le_trans with (nth (k + (l + 1)) U 0); [exact F3|apply S; lia].
    + exfalso. apply Reqb_eq in F5. destruct F2 as [F2|F2]; [lia|]. apply Rleb_le in F2.
      assert (T := Hd (k + l)%nat ltac:(lia) F2). replace (k + l + 1)%nat with (k + (l + 1))%nat in T by lia. lra.
Qed.

Lemma find_right_R p n k U u : length U = (n + p + 2)%nat -> (p <= n)%nat -> (k <= p)%nat -> sorted U ->
  exists r, @find_idx RNum (knots_of p U) u k CRight = Val r /\ (p - k < r <= n + 1 - k)%nat /\
    (forall j, (r <= j <= n - k)%nat -> u < nth (k + j) U 0) /\
    (forall j, (p - k < j < r)%nat -> nth (k + j) U 0 <= u).
Proof.
  intros L D Hk S. assert (F := @find_gt_spec RNum False p n k U u L D Hk). apply ok_val_ex in F.
  destruct F as [r [E [F1 [F2 F3]]]]. rn. exists r. split; [exact E|]. split; [lia|]. split; intros j Hj.
  - destruct F2 as [F2|F2]; [lia|]. apply Rltb_lt in F2. apply Rlt_le_trans with (nth (k + r) U 0); [exact F2|apply S; lia].
  - destruct F3 as [F3|F3]; [|lia]. apply Rltb_ge in F3. apply Rle_trans with (nth (k + (r - 1)) U 0); [apply S; lia|exact F3].
Qed.

Lemma find_right_eq_R p n k U u : length U = (n + p + 2)%nat -> (p <= n)%nat -> (k < p)%nat -> sorted U ->
  (forall i, (p < i <= n)%nat -> u <= nth i U 0 -> nth (i - 1) U 0 < nth i U 0) ->
  exists r, @find_idx RNum (knots_of p U) u k CRightOrEqual = Val r /\ (p - k <= r <= n + 1 - k)%nat /\
    (forall j, (r <= j <= n - k)%nat -> u <= nth (k + j) U 0) /\
    (forall j, (p - k <= j < r)%nat -> nth (k + j) U 0 < u).
Proof.
  intros L D Hk S Hd. assert (F := @find_ge_spec RNum False p n k U u L D ltac:(lia) Hk). apply ok_val_ex in F.
  destruct F as [r [E [F1 [F2 [F3 _]]]]]. rn. exists r. split; [exact E|]. split; [exact F1|]. split; intros j Hj.
  - destruct F2 as [F2|F2]; [lia|]. apply Rleb_le in F2. apply Rle_trans with (nth (k + r) U 0); [exact F2|apply S; lia].
  - destruct F3 as [F3|[F3|[F3 F5]]]; [|lia|].
    + apply Rleb_gt in F3. apply Rle_lt_trans with (nth (k + (r - 1)) U 0); [apply S; lia|exact F3].
    + exfalso. apply Reqb_eq in F5. destruct F2 as [F2|F2]; [lia|]. apply Rleb_le in F2.
      assert (T := Hd (k + r)%nat ltac:(lia) F2). replace (k + r - 1)%nat with (k + (r - 1))%nat in T by lia. lra.
Qed.

(** with [k] equal to the degree the search from the right runs below index 0 *)
Lemma while_S {S} fuel (cond : S -> M bool) body s : while_ (Datatypes.S fuel) cond body s =
  (b <- cond s;; if (b : bool) then (let* (s', brk) := body s in if (brk : bool) then Val s' else while_ fuel cond body s') else Val s).
Proof. reflexivity. Qed.

Lemma find_idx_bounds (K : Num) p n k (U : list K) u : length U = (n + p + 2)%nat -> (p <= n)%nat -> (k <= p)%nat ->
  exists l, find_idx (knots_of p U) u k CLeftOrEqual = Val l /\ (p - k <= l <= n - k)%nat.
Proof.
  intros L D Hk. assert (F := find_le_spec False p n k U u L D Hk). apply ok_val_ex in F. destruct F as [l [E [F1 _]]]. eauto.
Qed.

(** ** Curve::new *)
Lemma curve_new_cases (K : Num) : (forall x y z : K, (x ==? y)%num = false -> exists w, ndiv z (x - y)%num = Val w) ->
  forall p n dim (U : list K) (P : Mat K), shape dim (S n) P ->
  ((length U < 2 * p)%nat -> knots_new p U = Panic) /\
  ((2 * p <= length U)%nat -> exists kn, knots_new p U = Val kn /\
     ((n < p)%nat -> curve_new kn (cp_new P) = Val (Err (DegreeAndSegmentsMismatch p n))) /\
     ((p <= n)%nat -> length U = (n + p + 2)%nat -> exists c, curve_new kn (cp_new P) = Val (Ok c) /\
        degree c = p /\ max_derivative c = Val p /\ segments c = Val n /\ dimension c = Val dim /\
        vector (cknots c) = Val U /\ cp_matrix (cpoints c) = Val P /\
        forall k, (k <= p)%nat -> exists Uk Pk, vector_derivative (cknots c) k = Val Uk /\
          length Uk = (n + p + 2 - 2 * k)%nat /\ matrix_derivative (cpoints c) k = Val Pk /\ shape dim (S n - k) Pk)).
Proof.
  intros D p n dim U P HP.
  assert (G : @gdiv K False). { intros x y z H. destruct (D x y z H) as [w ->]. exact I. }
  split; [apply knots_new_short|]. intros H2. exists (knots_of p U). split; [apply knots_new_val; exact H2|]. split.
  - intros Hn. unfold curve_new, cp_new. rewrite (cp_segments_val P [] 0 dim n HP). cbn [bind kdegree kp knots_of].
    replace (n <? p)%nat with true by (symmetry; apply Nat.ltb_lt; exact Hn). reflexivity.
  - intros Hn L. assert (T := curve_new_ok False G p U n dim P Hn L HP). apply ok_val_ex in T. destruct T as [r [E [c [-> W]]]].
    exists c. split; [exact E|]. destruct (wf_cpoints _ _ _ _ _ _ W) as [s Es].
    assert (Wk := wf_knots _ _ _ _ _ _ W). assert (Wm := wf_max _ _ _ _ _ _ W).
    unfold degree, max_derivative, segments, dimension, kmax_derivative, pmax_derivative. rewrite Wk, Wm. cbn [kdegree kk_max kp knots_of].
    rewrite Nat.eqb_refl. cbn [assert bind].
    split; [reflexivity|]. split; [reflexivity|].
    destruct (cpoints c) as [pk km] eqn:Ec. cbn [Pk pk_max] in *. subst pk.
    split; [apply (cp_segments_val P s km dim n HP)|]. split; [apply (cp_dimension_val P s km dim (S n) HP)|].
    split; [apply knots_of_vector|]. split; [reflexivity|].
    intros k Hk. exists (kderiv k U), (nth k (P :: s) (mzeros 0 0)). split; [unfold vector_derivative; apply knots_of_vec; exact Hk|].
    split; [rewrite kderiv_length; lia|]. split.
    + unfold matrix_derivative. cbn [Pk pk_max].
      assert (Lp := wf_Pk _ _ _ _ _ _ W). rewrite Ec in Lp. cbn [Pk] in Lp.
      try (replace (k <=? km)%nat with true by (symmetry; apply Nat.leb_le; lia)). cbn [assert bind]. apply vget_nth. lia.
    + assert (T := wf_pts _ _ _ _ _ _ W k Hk). rewrite Ec in T. exact T.
Qed.

Lemma split_out_iff (K : Num) (c : Curve K) u :
  ((u <=? n0)%num || (n1 <=? u)%num = true -> split c u = Val (Err (SOutOfBounds u n0 n1))) /\
  (forall v a b, split c u = Val (Err (SOutOfBounds v a b)) -> (u <=? n0)%num || (n1 <=? u)%num = true).
Proof. split; [apply split_out|apply split_out_only]. Qed.

Lemma guarded_R (x y z : RNum) : (x ==? y)%num = false -> exists w, ndiv z (x - y)%num = Val w.
Proof. intros H. assert (T := gdiv_R x y z H). apply ok_val_ex in T. destruct T as [w [E _]]. eauto. Qed.

(** the same, for what Knots::new returned *)
Lemma knots_new_of {K : Num} p n (U : list K) kn : length U = (n + p + 2)%nat -> (p <= n)%nat -> knots_new p U = Val kn -> kn = knots_of p U.
Proof. intros L D E. rewrite knots_new_val in E by lia. injection E as <-. reflexivity. Qed.
Lemma find_left_kn p n k U u kn : length U = (n + p + 2)%nat -> (p <= n)%nat -> @knots_new RNum p U = Val kn -> (k <= p)%nat -> sorted U ->
  exists l, @find_idx RNum kn u k CLeft = Val l /\ (p - k <= l <= n - k)%nat /\
    (forall j, (p - k < j <= l)%nat -> nth (k + j) U 0 < u) /\
    (forall j, (l < j <= n - k)%nat -> u <= nth (k + j) U 0).
Proof. intros L D E. rewrite (knots_new_of p n U kn L D E). revert L D. apply find_left_R. Qed.
Lemma find_left_eq_kn p n k U u kn : length U = (n + p + 2)%nat -> (p <= n)%nat -> @knots_new RNum p U = Val kn -> (k <= p)%nat -> sorted U ->
  (forall i, (p < i < n)%nat -> nth i U 0 <= u -> nth i U 0 < nth (i + 1) U 0) ->
  exists l, @find_idx RNum kn u k CLeftOrEqual = Val l /\ (p - k <= l <= n - k)%nat /\
    (forall j, (p - k < j <= l)%nat -> nth (k + j) U 0 <= u) /\
    (forall j, (l < j <= n - k)%nat -> u < nth (k + j) U 0).
Proof. intros L D E. rewrite (knots_new_of p n U kn L D E). revert L D. apply find_left_eq_R. Qed.
Lemma find_right_kn p n k U u kn : length U = (n + p + 2)%nat -> (p <= n)%nat -> @knots_new RNum p U = Val kn -> (k <= p)%nat -> sorted U ->
  exists r, @find_idx RNum kn u k CRight = Val r /\ (p - k < r <= n + 1 - k)%nat /\
    (forall j, (r <= j <= n - k)%nat -> u < nth (k + j) U 0) /\
    (forall j, (p - k < j < r)%nat -> nth (k + j) U 0 <= u).
Proof. intros L D E. rewrite (knots_new_of p n U kn L D E). revert L D. apply find_right_R. Qed.
Lemma find_right_eq_kn p n k U u kn : length U = (n + p + 2)%nat -> (p <= n)%nat -> @knots_new RNum p U = Val kn -> (k < p)%nat -> sorted U ->
  (forall i, (p < i <= n)%nat -> u <= nth i U 0 -> nth (i - 1) U 0 < nth i U 0) ->
  exists r, @find_idx RNum kn u k CRightOrEqual = Val r /\ (p - k <= r <= n + 1 - k)%nat /\
    (forall j, (r <= j <= n - k)%nat -> u <= nth (k + j) U 0) /\
    (forall j, (p - k <= j < r)%nat -> nth (k + j) U 0 < u).
Proof. intros L D E. rewrite (knots_new_of p n U kn L D E). revert L D. apply find_right_eq_R. Qed.
Lemma find_idx_bounds_kn (K : Num) p n k (U : list K) u kn : length U = (n + p + 2)%nat -> (p <= n)%nat -> knots_new p U = Val kn -> (k <= p)%nat ->
  exists l, find_idx kn u k CLeftOrEqual = Val l /\ (p - k <= l <= n - k)%nat.
Proof. intros L D E. rewrite (knots_new_of p n U kn L D E). revert L D. apply find_idx_bounds. Qed.
