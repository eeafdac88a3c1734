(** * Merging in binary64: decisions, knots, points *)

From Coq Require Import ZArith Reals List Bool Arith Lia Lra Psatz.
From Flocq Require Import Core.Core IEEE754.BinarySingleNaN.
From Verif Require Import Num Vec MKnots MPoints MCurve MFit MMerge RNum F64 Hoare Lists Struct Spec BMath3 Api ApiF ApiF3 ApiJ ApiK Bridge Divisions Facts1 Facts3 Facts8 Gen2 Gen3 Facts11 Merge1 Merge14 Merge15 Merge16 Float1 Float2 Float3 Float15 Float22 Float25.
Import ListNotations.
Local Open Scope R_scope.

Lemma div_nat_F64 (x : f64) k : (0 < k)%nat -> ok False (@ndiv F64 x (@nofnat F64 k)) (fun _ => True).
Proof. intros _. exact Logic.I. Qed.

(** ** who is refused *)
Theorem merge_refuses_F64 svd p m dim V S_ a p' o dim' W T_ b pa pb :
  @sized F64 p m dim V S_ -> @built F64 p V S_ a -> @sized F64 p' o dim' W T_ -> @built F64 p' W T_ b ->
  (forall x, In x V -> finite x) -> (forall x, In x W -> finite x) ->
  let r := merge_with_constraints svd (mkCC a pa) (mkCC b pb) in
  let total := (length pa + length pb)%nat in
  let VR := map val V in let WR := map val W in
  (p <> p' -> r = Val (Err (DegreeMismatch p p'))) /\
  (p = p' -> dim <> dim' -> r = Val (Err (DimensionMismatch dim dim'))) /\
  (p = p' -> dim = dim' -> ~ (ends_clamped p VR /\ ends_clamped p WR) -> r = Val (Err UnclampedCurve)) /\
  (p = p' -> dim = dim' -> ends_clamped p VR -> ends_clamped p WR -> ~ (spans_unit VR /\ spans_unit WR) -> r = Val (Err UnnormedCurve)) /\
  (p = p' -> dim = dim' -> ends_clamped p VR -> ends_clamped p WR -> spans_unit VR -> spans_unit WR -> (p <= total)%nat ->
     r = Val (Err (TooManyConstraints total p))) /\
  (p = p' -> dim = dim' -> ends_clamped p VR -> ends_clamped p WR -> spans_unit VR -> spans_unit WR -> (total < p)%nat ->
     r = merge_core svd p (mkCC a pa) (mkCC b pb) /\ forall e, r <> Val (Err e)).
Proof.
  intros SA BA SB BB FV FW r total VR WR.
  assert (Wa := sized_wf False gdiv_F64 p m dim V S_ a SA BA). assert (Wb := sized_wf False gdiv_F64 p' o dim' W T_ b SB BB).
  assert (E : r = merge_with_constraints svd (mkCC a pa) (mkCC b pb)) by reflexivity. rewrite (merge_checks svd pa pb Wa Wb) in E.
  assert (KA : @knots_new RNum p VR = Val (knots_of p VR)). { apply (@knots_new_val RNum). unfold VR. assert (T := wf_len _ _ _ _ _ _ Wa). assert (T2 := wf_deg _ _ _ _ _ _ Wa). rn. rewrite map_length. unfold f64 in *. cbn [Num.T F64] in *. unfold f64 in *. lia. }
  assert (KB : @knots_new RNum p' WR = Val (knots_of p' WR)). { apply (@knots_new_val RNum). unfold WR. assert (T := wf_len _ _ _ _ _ _ Wb). assert (T2 := wf_deg _ _ _ _ _ _ Wb). rn. rewrite map_length. unfold f64 in *. cbn [Num.T F64] in *. unfold f64 in *. lia. }
  destruct (is_clamped_new p VR _ KA) as [ca [Eca Hca]]. destruct (is_clamped_new p' WR _ KB) as [cb [Ecb Hcb]].
  destruct (is_normed_new p VR _ KA) as [na [Ena Hna]]. destruct (is_normed_new p' WR _ KB) as [nb [Enb Hnb]].
  fold (ends_clamped p VR) in Hca. fold (ends_clamped p' WR) in Hcb. fold (spans_unit VR) in Hna. fold (spans_unit WR) in Hnb.
  unfold VR in Eca, Ena. unfold WR in Ecb, Enb.
  rewrite <- (clamped_F64 p V FV), <- (@wf_knots F64 _ _ _ _ _ _ Wa) in Eca. rewrite <- (clamped_F64 p' W FW), <- (@wf_knots F64 _ _ _ _ _ _ Wb) in Ecb.
  rewrite <- (normed_F64 p V FV), <- (@wf_knots F64 _ _ _ _ _ _ Wa) in Ena. rewrite <- (normed_F64 p' W FW), <- (@wf_knots F64 _ _ _ _ _ _ Wb) in Enb.
  clearbody VR WR.
  split; [|split; [|split; [|split; [|split]]]].
  - intros N. rewrite E. replace (p =? p')%nat with false by (symmetry; apply Nat.eqb_neq; exact N). reflexivity.
  - intros <- N. rewrite E, Nat.eqb_refl. replace (dim =? dim')%nat with false by (symmetry; apply Nat.eqb_neq; exact N). reflexivity.
  - intros <- <- N. rewrite E, !Nat.eqb_refl. cbn [negb]. rewrite Eca, Ecb. cbn [bind]. destruct ca; [|reflexivity]. destruct cb; [|reflexivity]. exfalso. apply N. split; [apply Hca|apply Hcb]; reflexivity.
  - intros <- <- C1 C2 N. apply Hca in C1. apply Hcb in C2. subst ca cb. rewrite E, !Nat.eqb_refl. cbn [negb]. rewrite Eca, Ecb. cbn [bind negb]. rewrite Ena, Enb. cbn [bind]. destruct na; [|reflexivity]. destruct nb; [|reflexivity]. exfalso. apply N. split; [apply Hna|apply Hnb]; reflexivity.
  - intros <- <- C1 C2 N1 N2 Ht. apply Hca in C1. apply Hcb in C2. apply Hna in N1. apply Hnb in N2. subst ca cb na nb. rewrite E, !Nat.eqb_refl. cbn [negb]. rewrite Eca, Ecb. cbn [bind negb]. rewrite Ena, Enb. cbn [bind negb].
    replace (p <=? length pa + length pb)%nat with true by (symmetry; apply Nat.leb_le; exact Ht). reflexivity.
  - intros <- <- C1 C2 N1 N2 Ht. apply Hca in C1. apply Hcb in C2. apply Hna in N1. apply Hnb in N2. subst ca cb na nb. rewrite E, !Nat.eqb_refl. cbn [negb]. rewrite Eca, Ecb. cbn [bind negb]. rewrite Ena, Enb. cbn [bind negb].
    replace (p <=? length pa + length pb)%nat with false by (symmetry; apply Nat.leb_gt; exact Ht). split; [reflexivity|]. intros e X.
    destruct (merge_core_sizes svd Wa Wb (gdiv_total F64 div_F64) _ X) as [_ [_ [c [U [Q [Y _]]]]]]. discriminate Y.
Qed.

Theorem merge_errors_F64 svd p m dim V S_ a p' o dim' W T_ b pa pb :
  @sized F64 p m dim V S_ -> @built F64 p V S_ a -> @sized F64 p' o dim' W T_ -> @built F64 p' W T_ b ->
  (forall x, In x V -> finite x) -> (forall x, In x W -> finite x) ->
  let r := merge_with_constraints svd (mkCC a pa) (mkCC b pb) in
  let total := (length pa + length pb)%nat in
  let VR := map val V in let WR := map val W in
  (p <> p' -> r = Val (Err (DegreeMismatch p p'))) /\
  (p = p' -> dim <> dim' -> r = Val (Err (DimensionMismatch dim dim'))) /\
  (p = p' -> dim = dim' -> ~ (ends_clamped p VR /\ ends_clamped p WR) -> r = Val (Err UnclampedCurve)) /\
  (p = p' -> dim = dim' -> ends_clamped p VR -> ends_clamped p WR -> ~ (spans_unit VR /\ spans_unit WR) -> r = Val (Err UnnormedCurve)) /\
  (p = p' -> dim = dim' -> ends_clamped p VR -> ends_clamped p WR -> spans_unit VR -> spans_unit WR -> (p <= total)%nat ->
     r = Val (Err (TooManyConstraints total p))) /\
  (p = p' -> dim = dim' -> ends_clamped p VR -> ends_clamped p WR -> spans_unit VR -> spans_unit WR -> (total < p)%nat ->
     forall e, r <> Val (Err e)).
Proof.
  intros SA BA SB BB FV FW. assert (H := merge_refuses_F64 svd p m dim V S_ a p' o dim' W T_ b pa pb SA BA SB BB FV FW). cbn zeta in *.
  destruct H as [H1 [H2 [H3 [H4 [H5 H6]]]]]. split; [exact H1|]. split; [exact H2|]. split; [exact H3|]. split; [exact H4|]. split; [exact H5|].
  intros A1 A2 A3 A4 A5 A6 A7. exact (proj2 (H6 A1 A2 A3 A4 A5 A6 A7)).
Qed.

Lemma clamped_ends p n U : clamped p n U -> ends_clamped p U /\ spans_unit U.
Proof.
  intros C. assert (L := cl_len _ _ _ C). split; [intros i Hi; split; intros H; [apply (cl_zero _ _ _ C)|apply (cl_one _ _ _ C)]; lia|]. split; [|split].
  - assert (X : In (nth 0 U 0) U) by (apply nth_In; lia). rewrite (cl_zero _ _ _ C 0) in X by lia. exact X.
  - assert (X : In (nth (n + 1) U 0) U) by (apply nth_In; lia). rewrite (cl_one _ _ _ C (n + 1)) in X by lia. exact X.
  - intros x Hx. destruct (In_nth U x 0 Hx) as [i [Hi Ei]]. rewrite <- Ei.
    assert (X1 := cl_sorted _ _ _ C 0 i ltac:(lia) Hi). rewrite (cl_zero _ _ _ C 0) in X1 by lia.
    assert (X2 := cl_sorted _ _ _ C i (n + p + 1) ltac:(lia) ltac:(lia)). rewrite (cl_one _ _ _ C (n + p + 1)) in X2 by lia. split; assumption.
Qed.

(** ** knots *)
Lemma frev2 (w : f64) : fin w = true -> 0 <= val w <= 1 -> fin (frev (frev w)) = true /\ val (frev (frev w)) = rnd (1 - rnd (1 - val w)) /\ 0 <= val (frev (frev w)) <= 1.
Proof.
  intros F R. destruct (frev_ok w F R) as [F1 E1]. assert (R1 := frev_range w F R). destruct (frev_ok _ F1 R1) as [F2 E2]. rewrite E1 in E2.
  split; [exact F2|]. split; [exact E2|]. apply frev_range; assumption.
Qed.

Lemma next_half (w : f64) : fin w = true -> 0 <= val w <= 1 -> let x := @nadd F64 (@rv F64 (@rv F64 w)) (@n1 F64) in
  fin x = true /\ val x = rnd (rnd (1 - rnd (1 - val w)) + 1) /\ 1 <= val x <= 2.
Proof.
  intros F R x. destruct (frev2 w F R) as [F2 [E2 R2]]. change (@rv F64 (@rv F64 w)) with (frev (frev w)) in x. destruct n1_ok as [N1 N2].
  assert (A := add_ok (frev (frev w)) (@n1 F64) 1 ltac:(lia) F2 N1 ltac:(rewrite N2; change (pow2 1) with 2; apply Rabs_le; lra)). rewrite N2, E2 in A. destruct A as [A1 A2].
  split; [exact A1|]. split; [exact A2|]. change (val x) with (val (Bplus mode_NE (frev (frev w)) (@n1 F64))). rewrite A2. rewrite E2 in R2. split.
  - apply Rle_trans with (rnd 1); [rewrite (rnd_fmt 1 fmt_1); lra|apply rnd_le; lra].
  - apply Rle_trans with (rnd 2); [apply rnd_le; lra|rewrite (rnd_fmt 2 fmt_2); lra].
Qed.

Section Knots.
  Context (p m o : nat) (V W : list f64) (FV : forall x, In x V -> finite x) (FW : forall x, In x W -> finite x).
  Context (CV : clamped p m (map val V)) (CW : clamped p o (map val W)).

  Lemma len_V : length V = (m + p + 2)%nat. Proof. assert (T := cl_len _ _ _ CV). rewrite map_length in T. exact T. Qed.
  Lemma len_W : length W = (o + p + 2)%nat. Proof. assert (T := cl_len _ _ _ CW). rewrite map_length in T. exact T. Qed.
  Lemma len_mV : length (map val V) = (m + p + 2)%nat. Proof. exact (cl_len _ _ _ CV). Qed.
  Lemma len_mW : length (map val W) = (o + p + 2)%nat. Proof. exact (cl_len _ _ _ CW). Qed.
  Let v i := val (nth i V (@n0 F64)).
  Let w i := val (nth i W (@n0 F64)).
  Lemma v_nth i : nth i (map val V) 0 = v i. Proof. unfold v. rewrite <- (proj2 n0_ok). apply (map_nth val). Qed.
  Lemma w_nth i : nth i (map val W) 0 = w i. Proof. unfold w. rewrite <- (proj2 n0_ok). apply (map_nth val). Qed.
  Lemma v_range i : (i < m + p + 2)%nat -> fin (nth i V (@n0 F64)) = true /\ 0 <= v i <= 1.
  Proof.
    intros H. split; [apply FV, nth_In; change (i < @length f64 V)%nat; rewrite len_V; exact H|]. rewrite <- v_nth. apply (proj2 (proj2 (proj2 (clamped_ends _ _ _ CV)))). apply nth_In. rewrite len_mV. exact H.
  Qed.
  Lemma w_range i : (i < o + p + 2)%nat -> fin (nth i W (@n0 F64)) = true /\ 0 <= w i <= 1.
  Proof.
    intros H. split; [apply FW, nth_In; change (i < @length f64 W)%nat; rewrite len_W; exact H|]. rewrite <- w_nth. apply (proj2 (proj2 (proj2 (clamped_ends _ _ _ CW)))). apply nth_In. rewrite len_mW. exact H.
  Qed.

  Let top := @raw_knot F64 p m V W (m + o + 2).
  Lemma top_2 : fin top = true /\ val top = 2.
  Proof.
    unfold top, raw_knot. replace (m + o + 2 <? m + 2)%nat with false by (symmetry; apply Nat.ltb_ge; lia). replace (m + o + 2 + p - 1 - m)%nat with (o + p + 1)%nat by lia.
    destruct (w_range (o + p + 1) ltac:(lia)) as [F R]. destruct (next_half _ F R) as [A [B _]]. split; [exact A|]. etransitivity; [exact B|]. fold (w (o + p + 1)).
    rewrite <- w_nth, (cl_one _ _ _ CW) by (rewrite ?len_mW; lia). replace (1 - 1) with 0 by lra. rewrite rnd_0, Rminus_0_r, (rnd_fmt 1 fmt_1). replace (1 + 1) with 2 by lra. apply rnd_fmt, fmt_2.
  Qed.

  Definition new_knot i : f64 := Bdiv mode_NE (@raw_knot F64 p m V W i) top.
  Definition new_val i : R := if (i <? m + 2)%nat then lo (v i) else hi (w (i + p - 1 - m)).

  Lemma new_ok i : (i < m + o + 3)%nat -> fin (new_knot i) = true /\ val (new_knot i) = new_val i.
  Proof.
    intros H. destruct top_2 as [T1 T2]. unfold new_knot, new_val, raw_knot. destruct (i <? m + 2)%nat eqn:L.
    - apply Nat.ltb_lt in L. destruct (v_range i ltac:(assert (T := cl_deg _ _ _ CV); assert (m + 2 <= m + p + 2)%nat by lia; lia)) as [F R].
      assert (D := div_ok (nth i V (@n0 F64)) top 0 ltac:(lia) F ltac:(rewrite T2; lra) ltac:(rewrite T2; fold (v i); change (pow2 0) with 1; apply Rabs_le; lra)). rewrite T2 in D. exact D.
    - apply Nat.ltb_ge in L. destruct (w_range (i + p - 1 - m) ltac:(lia)) as [F R]. destruct (next_half _ F R) as [A [B C]]. cbn zeta in *. set (x := @nadd F64 _ _) in *.
      assert (D := div_ok x top 0 ltac:(lia) A ltac:(rewrite T2; lra) ltac:(rewrite T2; change (pow2 0) with 1; apply Rabs_le; lra)). rewrite T2, B in D. exact D.
  Qed.

  Lemma new_vdiv : @vdiv_scalar F64 (map (@raw_knot F64 p m V W) (seq 0 (m + o + 3))) top = Val (map new_knot (seq 0 (m + o + 3))).
  Proof. unfold vdiv_scalar. unfold new_knot. generalize (seq 0 (m + o + 3)). intros l. induction l as [|x l IH]; [reflexivity|]. cbn [map mapM]. rewrite IH. reflexivity. Qed.

  Let U := map new_knot (seq 0 (m + o + 3)).
  Lemma U_len : length U = (m + o + 3)%nat. Proof. unfold U. rewrite map_length, seq_length. reflexivity. Qed.
  Lemma U_mlen : length (map val U) = (m + o + 3)%nat. Proof. etransitivity; [apply map_length|apply U_len]. Qed.
  Lemma U_fin x : In x U -> finite x.
  Proof. intros H. unfold U in H. apply in_map_iff in H. destruct H as [i [<- Hi]]. apply in_seq in Hi. apply new_ok. lia. Qed.
  Lemma U_nth i : (i < m + o + 3)%nat -> nth i (map val U) 0 = new_val i.
  Proof.
    intros H. unfold U. rewrite map_map. rewrite (nth_indep _ 0 (val (new_knot 0))) by (rewrite map_length, seq_length; exact H).
    rewrite (map_nth (fun j => val (new_knot j))), seq_nth by exact H. apply new_ok. exact H.
  Qed.

  (** the second description of the knot in the middle *)
  Lemma new_right j : (p <= j <= o + p + 1)%nat -> new_val (m + 1 - p + j) = hi (w j).
  Proof.
    intros H. assert (DV := cl_deg _ _ _ CV). assert (DW := cl_deg _ _ _ CW). unfold new_val. destruct (m + 1 - p + j <? m + 2)%nat eqn:L.
    - apply Nat.ltb_lt in L. assert (j = p) by lia. subst j. replace (m + 1 - p + p)%nat with (m + 1)%nat by lia. rewrite <- v_nth, (cl_one _ _ _ CV) by (rewrite ?len_mV; lia).
      rewrite <- w_nth, (cl_zero _ _ _ CW) by lia. rewrite lo_1, hi_0. reflexivity.
    - f_equal. f_equal. apply Nat.ltb_ge in L. lia.
  Qed.

  Lemma new_sorted i j : (i <= j)%nat -> (j < m + o + 3)%nat -> new_val i <= new_val j.
  Proof.
    intros H Hj. assert (DV := cl_deg _ _ _ CV). unfold new_val at 1. destruct (i <? m + 2)%nat eqn:L.
    - apply Nat.ltb_lt in L. unfold new_val. destruct (j <? m + 2)%nat eqn:L'.
      + apply Nat.ltb_lt in L'. apply lo_le. rewrite <- !v_nth. apply (cl_sorted _ _ _ CV); [exact H|rewrite len_mV; lia].
      + apply Nat.ltb_ge in L'. apply Rle_trans with (/ 2).
        * rewrite <- lo_1. apply lo_le. destruct (v_range i ltac:(lia)) as [_ R]. apply R.
        * rewrite <- hi_0. apply hi_le. destruct (w_range (j + p - 1 - m) ltac:(lia)) as [_ R]. apply R.
    - apply Nat.ltb_ge in L. unfold new_val. replace (j <? m + 2)%nat with false by (symmetry; apply Nat.ltb_ge; lia). apply hi_le. rewrite <- !w_nth. apply (cl_sorted _ _ _ CW); [lia|rewrite len_mW; lia].
  Qed.

  Lemma U_joined : (1 <= p)%nat -> nearly_joined p m o (map val V) (map val W) (map val U).
  Proof.
    intros Hp. assert (DV := cl_deg _ _ _ CV). assert (DW := cl_deg _ _ _ CW). split; [exact U_mlen|]. split; [|split; [|split]].
    - intros i j H Hj. rewrite U_mlen in Hj. rewrite !U_nth by lia. apply new_sorted; assumption.
    - intros i Hi. rewrite U_mlen in *. rewrite U_nth by exact Hi. split; intros H.
      + unfold new_val. replace (i <? m + 2)%nat with true by (symmetry; apply Nat.ltb_lt; lia). rewrite <- v_nth, (cl_zero _ _ _ CV) by lia. apply lo_0.
      + unfold new_val. replace (i <? m + 2)%nat with false by (symmetry; apply Nat.ltb_ge; lia). rewrite <- w_nth, (cl_one _ _ _ CW) by (rewrite ?len_mW; lia). apply hi_1.
    - intros i Hi. rewrite U_nth by lia. unfold new_val. replace (i <? m + 2)%nat with true by (symmetry; apply Nat.ltb_lt; lia). rewrite v_nth. apply lo_near. destruct (v_range i ltac:(lia)) as [_ R]. exact R.
    - intros j Hj. rewrite U_nth by lia. rewrite new_right by exact Hj. rewrite w_nth. apply hi_near; [apply fmt_val|]. destruct (w_range j ltac:(lia)) as [_ R]. exact R.
  Qed.

  Lemma U_float : (1 <= p)%nat -> wide (/ 2 ^ 49) (map val V) -> wide (/ 2 ^ 49) (map val W) -> float_knots p (m + o + 1 - p) U.
  Proof.
    intros Hp HV HW. assert (DV := cl_deg _ _ _ CV). assert (DW := cl_deg _ _ _ CW). destruct (U_joined Hp) as [L [S [E [N1 N2]]]].
    assert (GV : forall i j, (i < m + p + 2)%nat -> (j < m + p + 2)%nat -> v i < v j -> lo (v i) + / 2 ^ 51 <= lo (v j)).
    { intros i j Hi Hj Hl. assert (T := HV (v i) (v j)). rewrite <- !v_nth in T. specialize (T ltac:(apply nth_In; rewrite len_mV; exact Hi) ltac:(apply nth_In; rewrite len_mV; exact Hj)). rewrite !v_nth in T. specialize (T Hl).
      destruct (v_range i Hi) as [_ R1]. destruct (v_range j Hj) as [_ R2]. assert (A := Rabs_le_inv _ _ (lo_near _ R1)). assert (B := Rabs_le_inv _ _ (lo_near _ R2)). lra. }
    assert (GW : forall i j, (i < o + p + 2)%nat -> (j < o + p + 2)%nat -> w i < w j -> hi (w i) + / 2 ^ 51 <= hi (w j)).
    { intros i j Hi Hj Hl. assert (T := HW (w i) (w j)). rewrite <- !w_nth in T. specialize (T ltac:(apply nth_In; rewrite len_mW; exact Hi) ltac:(apply nth_In; rewrite len_mW; exact Hj)). rewrite !w_nth in T. specialize (T Hl).
      destruct (w_range i Hi) as [_ R1]. destruct (w_range j Hj) as [_ R2]. assert (A := Rabs_le_inv _ _ (hi_near _ (fmt_val _) R1)). assert (B := Rabs_le_inv _ _ (hi_near _ (fmt_val _) R2)). fold (w i) in A. fold (w j) in B. lra. }
    assert (Z0 : v p = 0) by (rewrite <- v_nth; apply (cl_zero _ _ _ CV); lia).
    assert (Z1 : w (o + 1) = 1) by (rewrite <- w_nth; apply (cl_one _ _ _ CW); rewrite ?len_mW; lia).
    split; [exact U_fin|]. split.
    - split; [lia|rewrite U_mlen; lia|exact S| | |].
      + intros i Hi. apply (E i); [rewrite U_mlen; lia|exact Hi].
      + intros i H1 H2. apply (E i); [exact H2|]. rewrite U_mlen. lia.
      + intros i H1 H2. rewrite U_nth by lia. split.
        * apply Rlt_le_trans with (new_val (p + 1)); [|apply new_sorted; lia]. unfold new_val. replace (p + 1 <? m + 2)%nat with true by (symmetry; apply Nat.ltb_lt; lia).
          assert (X : v p < v (p + 1)). { rewrite Z0. rewrite <- v_nth. destruct (Nat.eq_dec p m) as [EQ|NE]; [rewrite (cl_one _ _ _ CV) by (rewrite ?len_mV; lia); lra|apply (cl_inner _ _ _ CV); lia]. }
          assert (T := GV p (p + 1)%nat ltac:(lia) ltac:(lia) X). rewrite Z0, lo_0 in T. assert (0 < / 2 ^ 51) by lra. lra.
        * apply Rle_lt_trans with (new_val (m + o + 1 - p)); [apply new_sorted; lia|]. replace (m + o + 1 - p)%nat with (m + 1 - p + o)%nat by lia. rewrite new_right by lia.
          assert (X : w o < w (o + 1)). { rewrite Z1. rewrite <- w_nth. destruct (Nat.eq_dec p o) as [EQ|NE]; [rewrite (cl_zero _ _ _ CW) by lia; lra|apply (cl_inner _ _ _ CW); lia]. }
          assert (T := GW o (o + 1)%nat ltac:(lia) ltac:(lia) X). rewrite Z1, hi_1 in T. assert (0 < / 2 ^ 51) by lra. lra.
    - intros i Hi Hne. rewrite U_mlen in Hi. assert (S1 := new_sorted i (i + 1) ltac:(lia) ltac:(lia)). rewrite !U_nth in * by lia.
      assert (P : / 2 ^ 1000 <= / 2 ^ 51) by (apply Rinv_le_contravar; [lra|apply Rle_pow; [lra|lia]]).
      assert (X : new_val i + / 2 ^ 51 <= new_val (i + 1)); [|lra].
      destruct (Nat.lt_ge_cases (i + 1) (m + 2)) as [C|C].
      + unfold new_val in *. replace (i <? m + 2)%nat with true in * by (symmetry; apply Nat.ltb_lt; lia). replace (i + 1 <? m + 2)%nat with true in * by (symmetry; apply Nat.ltb_lt; lia).
        apply GV; [lia|lia|]. assert (T := cl_sorted _ _ _ CV i (i + 1) ltac:(lia) ltac:(rewrite len_mV; lia)). rewrite !v_nth in T. destruct T as [T|T]; [exact T|]. rewrite T in Hne. contradiction.
      + replace i with (m + 1 - p + (i + p - 1 - m))%nat in * by lia. set (j := (i + p - 1 - m)%nat) in *. replace (m + 1 - p + j + 1)%nat with (m + 1 - p + (j + 1))%nat in * by lia. rewrite !new_right in * by lia.
        apply GW; [lia|lia|]. assert (T := cl_sorted _ _ _ CW j (j + 1) ltac:(lia) ltac:(rewrite len_mW; lia)). rewrite !w_nth in T. destruct T as [T|T]; [exact T|]. rewrite T in Hne. contradiction.
  Qed.
End Knots.

Section Float.
  Context {p m dim : nat} {V : list f64} {S_ : Mat F64} {a : Curve F64} (HA : on_knots p m dim V S_ a).
  Context {o : nat} {W : list f64} {T_ : Mat F64} {b : Curve F64} (HB : on_knots p o dim W T_ b).
  Context (svd : Mat F64 -> Mat F64 -> M (Mat F64)) (G : answers svd) (pa pb : list f64) (Ht : (length pa + length pb < p)%nat).

  Let Wa := sized_wf False gdiv_F64 p m dim V S_ a (proj1 HA) (proj1 (proj2 HA)).
  Let Wb := sized_wf False gdiv_F64 p o dim W T_ b (proj1 HB) (proj1 (proj2 HB)).
  Let FV := proj1 (proj2 (proj2 HA)). Let CV := proj2 (proj2 (proj2 HA)).
  Let FW := proj1 (proj2 (proj2 HB)). Let CW := proj2 (proj2 (proj2 HB)).

  Lemma core_F64 : merge_with_constraints svd (mkCC a pa) (mkCC b pb) = merge_core svd p (mkCC a pa) (mkCC b pb).
  Proof.
    assert (T := merge_refuses_F64 svd p m dim V S_ a p o dim W T_ b pa pb (proj1 HA) (proj1 (proj2 HA)) (proj1 HB) (proj1 (proj2 HB)) FV FW). cbn zeta in T. destruct T as [_ [_ [_ [_ [_ T]]]]].
    destruct (clamped_ends _ _ _ CV) as [A1 A2]. destruct (clamped_ends _ _ _ CW) as [B1 B2].
    exact (proj1 (T eq_refl eq_refl A1 B1 A2 B2 Ht)).
  Qed.

  Lemma scaled_F64 : ok False (@vdiv_scalar F64 (map (@raw_knot F64 p m V W) (seq 0 (m + o + 3))) (@raw_knot F64 p m V W (m + o + 2))) (fun _ => True).
  Proof. rewrite new_vdiv. exact Logic.I. Qed.

  Theorem merge_fits_F64 : (m <= o < m + p)%nat -> exists c (U : list f64) C, merge_with_constraints svd (mkCC a pa) (mkCC b pb) = Val (Ok c) /\
    sized p (m + o + 1 - p) dim U C /\ built p U C c /\ (forall x, In x U -> finite x) /\ nearly_joined p m o (map val V) (map val W) (map val U) /\ keeps_points p m o S_ T_ C /\
    (wide (/ 2 ^ 49) (map val V) -> wide (/ 2 ^ 49) (map val W) -> float_knots p (m + o + 1 - p) U).
  Proof.
    intros H. assert (DV := cl_deg _ _ _ CV). rewrite core_F64.
    assert (T := core_ok False gdiv_F64 div_nat_F64 Wa Wb ltac:(lia) pa pb svd (answers_ok svd G) scaled_F64 H).
    apply ok_val_ex in T. destruct T as [r [E [c [U [C [-> [EU [LU [SC [B [K1 K2]]]]]]]]]]]. rewrite new_vdiv in EU. injection EU as <-.
    exists c, (map (new_knot p m o V W) (seq 0 (m + o + 3))), C. split; [exact E|].
    split; [split; [lia|]; split; [etransitivity; [exact LU|lia]|replace (S (m + o + 1 - p)) with (m + o + 2 - p)%nat by lia; exact SC]|].
    split; [exact B|]. split; [exact (U_fin p m o V W FV FW CV CW)|]. split; [apply (U_joined p m o V W FV FW CV CW); lia|]. split; [split; assumption|].
    apply (U_float p m o V W FV FW CV CW). lia.
  Qed.

  Theorem merge_overflows_F64 : (o < m)%nat \/ (m + p <= o)%nat -> merge_with_constraints svd (mkCC a pa) (mkCC b pb) = Panic.
  Proof. intros H. rewrite core_F64. exact (core_panics False gdiv_F64 div_nat_F64 Wa Wb ltac:(lia) pa pb svd (answers_ok svd G) scaled_F64 (fun x => x) H). Qed.
End Float.

(** ** samples *)
Definition zero_svd (A B : Mat F64) : M (Mat F64) := Val (mzeros (ncols A) (ncols B)).
Definition U_g : list f64 := map q4 [0; 0; 0; 4; 4; 4]%Z.
Definition P_g : Mat F64 := row [1; 3; 2]%Z.
