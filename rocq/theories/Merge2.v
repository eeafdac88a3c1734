(** * Merging in exact arithmetic: refusals and knots *)

From Coq Require Import ZArith Reals List Bool Arith Lia Lra.
From Verif Require Import Num Vec MKnots MPoints MCurve MFit MMerge RNum Hoare Lists Struct Spec BMath3 Api Bridge Facts1 Facts3 Facts8 Gen2 Gen3 Merge1.
Import ListNotations.
Local Open Scope R_scope.

Lemma merge_refuses svd p m dim V S_ a p' o dim' W T_ b pa pb :
  @sized RNum p m dim V S_ -> @built RNum p V S_ a -> @sized RNum p' o dim' W T_ -> @built RNum p' W T_ b ->
  let r := merge_with_constraints svd (mkCC a pa) (mkCC b pb) in
  let total := (length pa + length pb)%nat in
  (p <> p' -> r = Val (Err (DegreeMismatch p p'))) /\
  (p = p' -> dim <> dim' -> r = Val (Err (DimensionMismatch dim dim'))) /\
  (p = p' -> dim = dim' -> ~ (ends_clamped p V /\ ends_clamped p W) -> r = Val (Err UnclampedCurve)) /\
  (p = p' -> dim = dim' -> ends_clamped p V -> ends_clamped p W -> ~ (spans_unit V /\ spans_unit W) -> r = Val (Err UnnormedCurve)) /\
  (p = p' -> dim = dim' -> ends_clamped p V -> ends_clamped p W -> spans_unit V -> spans_unit W -> (p <= total)%nat ->
     r = Val (Err (TooManyConstraints total p))) /\
  (p = p' -> dim = dim' -> ends_clamped p V -> ends_clamped p W -> spans_unit V -> spans_unit W -> (total < p)%nat ->
     forall e, r <> Val (Err e)).
Proof.
  intros SA BA SB BB r total.
  assert (Wa := sized_wf False gdiv_R p m dim V S_ a SA BA). assert (Wb := sized_wf False gdiv_R p' o dim' W T_ b SB BB).
  assert (E : r = merge_with_constraints svd (mkCC a pa) (mkCC b pb)) by reflexivity. rewrite (merge_checks svd pa pb Wa Wb) in E.
  assert (KA : @knots_new RNum p V = Val (cknots a)). { rewrite (wf_knots _ _ _ _ _ _ Wa). apply (@knots_new_val RNum). assert (T := wf_len _ _ _ _ _ _ Wa). assert (T2 := wf_deg _ _ _ _ _ _ Wa). rn. lia. }
  assert (KB : @knots_new RNum p' W = Val (cknots b)). { rewrite (wf_knots _ _ _ _ _ _ Wb). apply (@knots_new_val RNum). assert (T := wf_len _ _ _ _ _ _ Wb). assert (T2 := wf_deg _ _ _ _ _ _ Wb). rn. lia. }
  destruct (is_clamped_new p V _ KA) as [ca [Eca Hca]]. destruct (is_clamped_new p' W _ KB) as [cb [Ecb Hcb]].
  destruct (is_normed_new p V _ KA) as [na [Ena Hna]]. destruct (is_normed_new p' W _ KB) as [nb [Enb Hnb]].
  fold (ends_clamped p V) in Hca. fold (ends_clamped p' W) in Hcb. fold (spans_unit V) in Hna. fold (spans_unit W) in Hnb.
  split; [|split; [|split; [|split; [|split]]]].
  - intros N. rewrite E. replace (p =? p')%nat with false by (symmetry; apply Nat.eqb_neq; exact N). reflexivity.
  - intros <- N. rewrite E, Nat.eqb_refl. replace (dim =? dim')%nat with false by (symmetry; apply Nat.eqb_neq; exact N). reflexivity.
  - intros <- <- N. rewrite E, !Nat.eqb_refl. cbn [negb]. rewrite Eca, Ecb. cbn [bind]. destruct ca; [|reflexivity]. destruct cb; [|reflexivity]. exfalso. apply N. split; [apply Hca|apply Hcb]; reflexivity.
  - intros <- <- C1 C2 N. apply Hca in C1. apply Hcb in C2. subst ca cb. rewrite E, !Nat.eqb_refl. cbn [negb]. rewrite Eca, Ecb. cbn [bind negb]. rewrite Ena, Enb. cbn [bind]. destruct na; [|reflexivity]. destruct nb; [|reflexivity]. exfalso. apply N. split; [apply Hna|apply Hnb]; reflexivity.
  - intros <- <- C1 C2 N1 N2 Ht. apply Hca in C1. apply Hcb in C2. apply Hna in N1. apply Hnb in N2. subst ca cb na nb. rewrite E, !Nat.eqb_refl. cbn [negb]. rewrite Eca, Ecb. cbn [bind negb]. rewrite Ena, Enb. cbn [bind negb].
    replace (p <=? length pa + length pb)%nat with true by (symmetry; apply Nat.leb_le; exact Ht). reflexivity.
  - intros <- <- C1 C2 N1 N2 Ht e. apply Hca in C1. apply Hcb in C2. apply Hna in N1. apply Hnb in N2. subst ca cb na nb. rewrite E, !Nat.eqb_refl. cbn [negb]. rewrite Eca, Ecb. cbn [bind negb]. rewrite Ena, Enb. cbn [bind negb].
    replace (p <=? length pa + length pb)%nat with false by (symmetry; apply Nat.leb_gt; exact Ht). intros X.
    destruct (merge_core_sizes svd Wa Wb (gdiv_total RNum div_R) _ X) as [_ [_ [c [U [Q [Y _]]]]]]. discriminate Y.
Qed.

(** with both curves clamped, only the constraint count is left to check *)
Lemma merge_clamped svd p m dim V S_ a o W T_ b pa pb : clamped_curve p m dim V S_ a -> clamped_curve p o dim W T_ b ->
  (length pa + length pb < p)%nat ->
  merge_with_constraints svd (mkCC a pa) (mkCC b pb) = merge_core svd p (mkCC a pa) (mkCC b pb).
Proof.
  intros HA HB Ht. assert (Wa := proj1 (cc_wf _ _ _ _ _ _ HA)). assert (Wb := proj1 (cc_wf _ _ _ _ _ _ HB)).
  rewrite (merge_checks svd pa pb Wa Wb). rewrite !Nat.eqb_refl. cbn [negb].
  assert (KA : @knots_new RNum p V = Val (cknots a)). { rewrite (wf_knots _ _ _ _ _ _ Wa). apply (@knots_new_val RNum). assert (T := wf_len _ _ _ _ _ _ Wa). assert (T2 := wf_deg _ _ _ _ _ _ Wa). rn. lia. }
  assert (KB : @knots_new RNum p W = Val (cknots b)). { rewrite (wf_knots _ _ _ _ _ _ Wb). apply (@knots_new_val RNum). assert (T := wf_len _ _ _ _ _ _ Wb). assert (T2 := wf_deg _ _ _ _ _ _ Wb). rn. lia. }
  destruct (clamped_is_clamped p m V _ (proj1 HA) KA) as [A1 [A2 _]]. destruct (clamped_is_clamped p o W _ (proj1 HB) KB) as [B1 [B2 _]].
  rewrite A1, B1. cbn [bind negb]. rewrite A2, B2. cbn [bind negb].
  replace (p <=? length pa + length pb)%nat with false by (symmetry; apply Nat.leb_gt; exact Ht). reflexivity.
Qed.

(** ** knots *)
Lemma adjust_knots_R p (L Rt : list R) nL : (nL + 2 <= length L)%nat -> (2 * p + 1 <= length Rt)%nat ->
  exists A, @adjust_knots RNum p L nL Rt = Val A /\ length A = (nL + p + 2)%nat /\ (forall i, (i < nL + 2)%nat -> nth i A 0 = nth i L 0) /\ ((1 <= p)%nat -> nth (nL + 2) A 0 = nth (p + 1) Rt 0 + 1).
Proof.
  intros HL HR. unfold adjust_knots. rewrite head_val by exact HL. cbn [bind]. unfold head_set.
  assert (LH : length (firstn (nL + 2) L) = (nL + 2)%nat) by (rewrite firstn_length; lia).
  rewrite (@segment_set_val R) by (rn; rewrite ?vzeros_length, ?LH; lia). cbn [bind]. rewrite (@segment_val R) by (rn; lia). cbn [bind].
  set (z := @vzeros RNum (nL + p + 2)). assert (Lz : length z = (nL + p + 2)%nat) by apply vzeros_length.
  set (A1 := firstn 0 z ++ firstn (nL + 2) L ++ skipn (0 + (nL + 2)) z).
  assert (L1 : length A1 = (nL + p + 2)%nat) by (unfold A1; rewrite (@segment_set_length R) by (rn; lia); exact Lz).
  match goal with |- context [tail_set ?X _ _] => change X with A1 end. unfold tail_set. rn. rewrite L1. rewrite usub_ok by lia. cbn [bind].
  assert (LS : length (vadd_scalar (firstn p (skipn (p + 1) Rt)) (@n1 RNum)) = p) by (unfold vadd_scalar; rewrite map_length; apply (@segment_length R); rn; lia).
  rewrite (@segment_set_val R) by (rn; lia). eexists. split; [reflexivity|]. split; [rewrite (@segment_set_length R) by (rn; lia); exact L1|]. split.
  2:{ intros H1. rewrite (@nth_segment_set R) by (rn; lia). replace (nL + p + 2 - p <=? nL + 2)%nat with true by (symmetry; apply Nat.leb_le; lia).
    replace (nL + 2 <? nL + p + 2 - p + p)%nat with true by (symmetry; apply Nat.ltb_lt; lia). cbn [andb]. replace (nL + 2 - (nL + p + 2 - p))%nat with 0%nat by lia.
    unfold vadd_scalar. rn. rewrite (nth_indep _ 0 (0 + 1)) by (rewrite map_length, (@segment_length R) by (rn; lia); lia). rewrite (map_nth (fun x => x + 1)). f_equal.
    rewrite nth_firstn by lia. rewrite nth_skipn. f_equal. lia. }
  intros i Hi. rewrite (@nth_segment_set R) by (rn; lia). replace (nL + p + 2 - p <=? i)%nat with false by (symmetry; apply Nat.leb_gt; lia). cbn [andb].
  unfold A1. rewrite (@nth_segment_set R) by (rn; lia). replace (i <? 0 + (nL + 2))%nat with true by (symmetry; apply Nat.ltb_lt; lia).
  cbn [Nat.leb andb]. rewrite Nat.sub_0_r. apply nth_firstn. lia.
Qed.

Section Knots.
  Context {p m dim : nat} {V : list R} {S_ : Mat RNum} {a : Curve RNum} (HA : clamped_curve p m dim V S_ a).
  Context {o : nat} {W : list R} {T_ : Mat RNum} {b : Curve RNum} (HB : clamped_curve p o dim W T_ b).

  Lemma knots_joined : exists Va Wd U, @adjust_knots_of_both_splines RNum a b = Val (Va, vrev W, Wd) /\ length Va = (m + p + 2)%nat /\ length Wd = (o + p + 2)%nat /\
    @create_merged_knot_vector RNum a b Va Wd = Val U /\ joined_knots p m o V W U /\
    (forall i, (i < m + 2)%nat -> nth i Va 0 = nth i V 0) /\ ((1 <= p)%nat -> nth (m + 2) Va 0 = nth (p + 1) W 0 + 1).
  Proof.
    assert (Wa := proj1 (cc_wf _ _ _ _ _ _ HA)). assert (Wb := proj1 (cc_wf _ _ _ _ _ _ HB)).
    assert (CV := proj1 HA). assert (CW := proj1 HB).
    assert (LV := cl_len _ _ _ CV). assert (LW := cl_len _ _ _ CW). assert (DV := cl_deg _ _ _ CV). assert (DW := cl_deg _ _ _ CW).
    destruct (adjust_knots_R p V W m ltac:(lia) ltac:(lia)) as [Va [EVa [LVa [HVa HVb]]]].
    destruct (adjust_knots_R p (vrev W) (vrev V) o ltac:(rewrite vrev_length; lia) ltac:(rewrite vrev_length; lia)) as [Wr [EWr [LWr [HWr _]]]].
    exists Va, (@vadd_scalar RNum (vrev Wr) 1).
    assert (LWd : length (@vadd_scalar RNum (vrev Wr) 1) = (o + p + 2)%nat) by (unfold vadd_scalar; rewrite map_length, vrev_length; exact LWr).
    assert (HWd : forall i, (p <= i < o + p + 2)%nat -> nth i (@vadd_scalar RNum (vrev Wr) 1) 0 = 1 + nth i W 0).
    { intros i Hi. unfold vadd_scalar. rn. rewrite (nth_indep _ 0 (0 + 1)) by (rewrite map_length, vrev_length; lia).
      rewrite (map_nth (fun x => x + 1)). rewrite nth_vrev by lia. rewrite HWr by lia. rewrite nth_vrev by lia.
      replace (length W - 1 - (length Wr - 1 - i))%nat with i by lia. ring. }
    set (Wd := @vadd_scalar RNum (vrev Wr) 1) in *.
    (* the merged vector before scaling *)
    set (z := @vzeros RNum (m + 2 + o + 1)). assert (Lz : length z = (m + 2 + o + 1)%nat) by apply vzeros_length.
    assert (LH : length (firstn (m + 2) Va) = (m + 2)%nat) by (rewrite firstn_length; lia).
    set (U1 := firstn 0 z ++ firstn (m + 2) Va ++ skipn (0 + (m + 2)) z).
    assert (L1 : length U1 = (m + 2 + o + 1)%nat) by (unfold U1; rewrite (@segment_set_length R) by (rn; lia); exact Lz).
    set (t := skipn (length Wd - (o + 1)) Wd). assert (Lt : length t = (o + 1)%nat) by (unfold t; rewrite skipn_length; lia).
    set (U2 := firstn (m + 2) U1 ++ t ++ skipn (m + 2 + (o + 1)) U1).
    assert (L2 : length U2 = (m + 2 + o + 1)%nat) by (unfold U2; rewrite (@segment_set_length R) by (rn; lia); exact L1).
    assert (H2 : forall i, (i < m + 2 + o + 1)%nat -> nth i U2 0 = if (i <? m + 2)%nat then nth i V 0 else 1 + nth (i + p - 1 - m) W 0).
    { intros i Hi. unfold U2. rewrite (@nth_segment_set R) by (rn; lia). destruct (Nat.ltb_spec i (m + 2)) as [H|H].
      - replace (m + 2 <=? i)%nat with false by (symmetry; apply Nat.leb_gt; lia). cbn [andb]. unfold U1. rewrite (@nth_segment_set R) by (rn; lia).
        replace (i <? 0 + (m + 2))%nat with true by (symmetry; apply Nat.ltb_lt; lia). cbn [Nat.leb andb]. rewrite Nat.sub_0_r.
        rewrite nth_firstn by lia. apply HVa. lia.
      - replace (m + 2 <=? i)%nat with true by (symmetry; apply Nat.leb_le; lia). replace (i <? m + 2 + (o + 1))%nat with true by (symmetry; apply Nat.ltb_lt; lia). cbn [andb].
        unfold t. rewrite nth_skipn. rewrite HWd by lia. do 2 f_equal. lia. }
    assert (Last : nth (m + o + 2) U2 0 = 2).
    { rewrite H2 by lia. replace (m + o + 2 <? m + 2)%nat with false by (symmetry; apply Nat.ltb_ge; lia). rewrite (cl_one _ _ _ CW) by lia. rn; ring. }
    exists (map (fun x => x / 2) U2). split; [|split; [exact LVa|split; [exact LWd|split; [|split; [|split; [exact HVa|exact HVb]]]]]].
    - unfold adjust_knots_of_both_splines. rewrite (wf_degree Wa), (wf_segments Wa), (wf_segments Wb), (wf_vector Wa), (wf_vector Wb). cbn [bind].
      rn. rewrite EVa. cbn [bind]. unfold vec_reversed. rewrite !vec_reverse_R. cbn [bind]. rewrite EWr. cbn [bind]. rewrite vec_reverse_R. reflexivity.
    - unfold create_merged_knot_vector. rewrite (wf_segments Wa), (wf_segments Wb). cbn [bind]. rewrite head_val by (rn; lia). cbn [bind]. unfold head_set.
      fold z. rewrite (@segment_set_val R) by (rn; lia). cbn [bind]. rewrite tail_val by (rn; lia). cbn [bind]. rn.
      match goal with |- context [tail_set ?X _ ?Y] => change X with U1; change Y with t end. unfold tail_set. rewrite L1, usub_ok by lia. cbn [bind]. replace (m + 2 + o + 1 - (o + 1))%nat with (m + 2)%nat by lia.
      rewrite (@segment_set_val R) by (rn; lia). cbn [bind]. match goal with |- context [vget ?X _] => change X with U2 end. rewrite (vget_nth U2 _ 0) by lia. cbn [bind]. rn. rewrite Last.
      unfold vdiv_scalar. apply (mapM_val _ (fun x => x / 2)). intros x _. cbn [ndiv RNum]. apply Rdivm_val. lra.
    - split; [rewrite map_length; rn; lia|]. split.
      + intros i Hi. rewrite (nth_indep _ 0 (0 / 2)) by (rewrite map_length; rn; lia). rewrite (map_nth (fun x => x / 2)). rewrite H2 by lia.
        replace (i <? m + 2)%nat with true by (symmetry; apply Nat.ltb_lt; lia). reflexivity.
      + intros j Hj. rewrite (nth_indep _ 0 (0 / 2)) by (rewrite map_length; rn; lia). rewrite (map_nth (fun x => x / 2)). rewrite H2 by lia.
        destruct (Nat.ltb_spec (m + 1 - p + j) (m + 2)).
        * assert (j = p) by lia. subst j. rewrite (cl_zero _ _ _ CW) by lia. rewrite (cl_one _ _ _ CV) by lia. field.
        * f_equal. f_equal. f_equal. lia.
  Qed.

  Lemma joined_clamped U : joined_knots p m o V W U -> clamped p (m + o + 1 - p) U /\ mult U (1 / 2) = 1%nat.
  Proof.
    intros [L [HV HW]]. assert (CV := proj1 HA). assert (CW := proj1 HB).
    assert (LV := cl_len _ _ _ CV). assert (LW := cl_len _ _ _ CW). assert (DV := cl_deg _ _ _ CV). assert (DW := cl_deg _ _ _ CW).
    assert (HW' : forall i, (m + 1 <= i < m + o + 3)%nat -> nth i U 0 = (1 + nth (i + p - (m + 1)) W 0) / 2).
    { intros i Hi. rewrite <- HW by lia. f_equal. lia. }
    assert (SU : sorted U).
    { intros i j Hij Hj. rewrite L in Hj. destruct (le_lt_dec j (m + 1)) as [H|H].
      - rewrite !HV by lia. assert (T := cl_sorted _ _ _ CV i j Hij ltac:(lia)). lra.
      - rewrite (HW' j) by lia. destruct (le_lt_dec i (m + 1)) as [H'|H'].
        + rewrite HV by lia. assert (T := cl_sorted _ _ _ CV i (m + 1) H' ltac:(lia)). rewrite (cl_one _ _ _ CV (m + 1)) in T by lia.
          assert (T2 := cl_sorted _ _ _ CW 0 (j + p - (m + 1)) ltac:(lia) ltac:(lia)). rewrite (cl_zero _ _ _ CW 0) in T2 by lia. lra.
        + rewrite HW' by lia. assert (T := cl_sorted _ _ _ CW (i + p - (m + 1)) (j + p - (m + 1)) ltac:(lia) ltac:(lia)). lra. }
    assert (Half : nth (m + 1) U 0 = 1 / 2) by (rewrite HV by lia; rewrite (cl_one _ _ _ CV) by lia; reflexivity).
    assert (Lo : forall i, (i < m + 1)%nat -> nth i U 0 < 1 / 2).
    { intros i Hi. rewrite HV by lia. destruct (le_lt_dec i p) as [H|H]; [rewrite (cl_zero _ _ _ CV) by lia; lra|].
      assert (T := cl_inner _ _ _ CV i H ltac:(lia)). lra. }
    assert (Hi : forall i, (m + 1 < i < m + o + 3)%nat -> 1 / 2 < nth i U 0).
    { intros i Hi. rewrite HW' by lia. destruct (le_lt_dec (i + p - (m + 1)) o) as [H|H].
      - assert (T := cl_inner _ _ _ CW (i + p - (m + 1)) ltac:(lia) H). lra.
      - rewrite (cl_one _ _ _ CW) by lia. lra. }
    split.
    - split.
      + lia.
      + lia.
      + exact SU.
      + intros i Hp. rewrite HV by lia. rewrite (cl_zero _ _ _ CV) by lia. lra.
      + intros i H1 H2. rewrite HW' by lia. rewrite (cl_one _ _ _ CW) by lia. lra.
      + intros i H1 H2. destruct (lt_eq_lt_dec i (m + 1)) as [[H|H]|H].
        * rewrite HV by lia. assert (T := cl_inner _ _ _ CV i H1 ltac:(lia)). lra.
        * subst i. rewrite Half. lra.
        * rewrite HW' by lia. assert (T := cl_inner _ _ _ CW (i + p - (m + 1)) ltac:(lia) ltac:(lia)). lra.
    - assert (Sp : sep U (1 / 2) (m + 1)).
      { split; [exact Lo|]. intros i Hj. destruct (Nat.eq_dec i (m + 1)) as [->|N]; [lra|]. assert (T := Hi i ltac:(lia)). lra. }
      destruct (sep_run U (1 / 2) (m + 1) SU ltac:(lia) Sp) as [R1 [R2 R3]].
      destruct (mult U (1 / 2)) as [|[|k]] eqn:E; [|reflexivity|].
      + specialize (R3 (m + 1)%nat ltac:(lia)). lra.
      + specialize (R2 (m + 2)%nat ltac:(lia)). assert (T := Hi (m + 2)%nat ltac:(lia)). lra.
  Qed.

  Lemma merged_shape svd pa pb c : merge_with_constraints svd (mkCC a pa) (mkCC b pb) = Val (Ok c) ->
    (m <= o)%nat /\ (o + 1 <= m + p)%nat /\ exists U Q, joined_knots p m o V W U /\ mult U (1 / 2) = 1%nat /\ clamped_curve p (m + o + 1 - p) dim U Q c.
  Proof.
    intros E. destruct (le_lt_dec p (length pa + length pb)) as [Ht|Ht].
    - exfalso. assert (T := merge_refuses svd p m dim V S_ a p o dim W T_ b pa pb (clamped_sized _ _ _ _ _ (proj1 HA) (proj1 (proj2 HA))) (proj2 (proj2 HA))
        (clamped_sized _ _ _ _ _ (proj1 HB) (proj1 (proj2 HB))) (proj2 (proj2 HB))). cbn zeta in T. destruct T as [_ [_ [T1 [T2 [T3 _]]]]].
      assert (A : forall n U, clamped p n U -> ends_clamped p U /\ spans_unit U).
      { intros n U C. assert (L := cl_len _ _ _ C). split; [intros i Hi; split; intros H; [apply (cl_zero _ _ _ C)|apply (cl_one _ _ _ C)]; lia|]. split; [|split].
        - assert (X : In (nth 0 U 0) U) by (apply nth_In; lia). rewrite (cl_zero _ _ _ C 0) in X by lia. exact X.
        - assert (X : In (nth (n + 1) U 0) U) by (apply nth_In; lia). rewrite (cl_one _ _ _ C (n + 1)) in X by lia. exact X.
        - intros x Hx. destruct (In_nth U x 0 Hx) as [i [Hi Ei]]. rewrite <- Ei.
          assert (X1 := cl_sorted _ _ _ C 0 i ltac:(lia) Hi). rewrite (cl_zero _ _ _ C 0) in X1 by lia.
          assert (X2 := cl_sorted _ _ _ C i (n + p + 1) ltac:(lia) ltac:(lia)). rewrite (cl_one _ _ _ C (n + p + 1)) in X2 by lia. split; assumption. }
      destruct (A m V (proj1 HA)) as [A1 A2]. destruct (A o W (proj1 HB)) as [B1 B2].
      rewrite T3 in E by (try assumption; reflexivity). discriminate E.
    - rewrite (merge_clamped svd p m dim V S_ a o W T_ b pa pb HA HB Ht) in E.
      assert (Wa := proj1 (cc_wf _ _ _ _ _ _ HA)). assert (Wb := proj1 (cc_wf _ _ _ _ _ _ HB)).
      destruct (merge_core_sizes svd Wa Wb (gdiv_total RNum div_R) _ E) as [H1 [H2 [c' [U [Q [Ec [LU [SQ [B [Va [Wr [Wd [E1 E2]]]]]]]]]]]]].
      injection Ec as <-. split; [exact H1|]. split; [exact H2|].
      destruct knots_joined as [Va' [Wd' [U' [F1 [_ [_ [F2 [F3 _]]]]]]]]. rewrite E1 in F1. injection F1 as -> -> ->. rewrite E2 in F2. injection F2 as ->.
      destruct (joined_clamped U' F3) as [C M]. exists U', Q. split; [exact F3|]. split; [exact M|]. split; [exact C|].
      split; [replace (S (m + o + 1 - p)) with (m + o + 2 - p)%nat by (assert (T := cl_deg _ _ _ (proj1 HA)); lia); exact SQ|exact B].
  Qed.
End Knots.
