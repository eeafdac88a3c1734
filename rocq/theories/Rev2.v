(** * A curve is determined by its internal knots and its points; how the manipulations commute *)

From Coq Require Import ZArith Reals List Bool Arith Lia Lra Permutation.
From Verif Require Import Num Vec MKnots MPoints MCurve RNum Lists Spec Api BMath BMath3 Bridge Facts1 Facts3 Facts5 Facts6 Facts7 Facts8 Fit7 Shape2 Insert2 SamplesB Split2.
Import ListNotations.
Local Open Scope R_scope.

Lemma mult_range p n U x : clamped p n U -> ~ (0 <= x <= 1) -> mult U x = 0%nat.
Proof.
  intros C H. unfold mult. apply count_occ_not_In. intros I. destruct (In_nth _ _ 0 I) as [i [Hi <-]].
  apply H. assert (S := cl_sorted _ _ _ C). assert (L := cl_len _ _ _ C). assert (D := cl_deg _ _ _ C).
  assert (A := S 0%nat i ltac:(lia) Hi). rewrite (cl_zero _ _ _ C) in A by lia.
  assert (B := S i (length U - 1)%nat ltac:(lia) ltac:(lia)). rewrite (cl_one _ _ _ C (length U - 1)%nat) in B by lia. lra.
Qed.

(** the knots 0 and 1 occur p + 1 times *)
Lemma mult_at U a b x : (a <= b <= length U)%nat -> (forall i, (a <= i < b)%nat -> nth i U 0 = x) ->
  (forall i, (i < a)%nat -> nth i U 0 <> x) -> (forall i, (b <= i < length U)%nat -> nth i U 0 <> x) -> mult U x = (b - a)%nat.
Proof.
  intros H H1 H2 H3. unfold mult. rewrite <- (firstn_skipn b U). rewrite <- (firstn_skipn a (firstn b U)). rewrite !count_occ_app.
  assert (E1 : count_occ Req_EM_T (firstn a (firstn b U)) x = 0%nat).
  { apply count_occ_not_In. intros I. apply In_firstn_nth in I. destruct I as [i [A [B E]]]. rewrite firstn_length in B. apply (H2 i A).
    rewrite nth_firstn in E by lia. congruence. }
  assert (E3 : count_occ Req_EM_T (skipn b U) x = 0%nat).
  { apply count_occ_not_In. intros I. apply In_skipn_nth in I. destruct I as [i [A E]]. apply (H3 i A). congruence. }
  assert (E2 : skipn a (firstn b U) = repeat x (b - a)).
  { apply (nth_ext _ _ 0 0); [rewrite skipn_length, firstn_length, repeat_length; lia|].
    intros i Hi. rewrite skipn_length, firstn_length in Hi. rewrite nth_skipn, nth_firstn by lia.
    rewrite (nth_indep (repeat x (b - a)) 0 x) by (rewrite repeat_length; lia). rewrite nth_repeat. apply H1. lia. }
  rewrite E1, E2, E3, count_occ_repeat_eq by reflexivity. lia.
Qed.

Lemma mult_0 p n U : clamped p n U -> mult U 0 = (p + 1)%nat.
Proof.
  intros C. assert (L := cl_len _ _ _ C). assert (D := cl_deg _ _ _ C). rewrite (mult_at U 0 (p + 1) 0); [lia|lia| | |].
  - intros i Hi. apply (cl_zero _ _ _ C). lia.
  - intros i Hi. lia.
  - intros i Hi. destruct (le_lt_dec i n) as [A|A].
    + assert (T := cl_inner _ _ _ C i ltac:(lia) A). lra.
    + rewrite (cl_one _ _ _ C) by lia. lra.
Qed.

Lemma mult_1 p n U : clamped p n U -> mult U 1 = (p + 1)%nat.
Proof.
  intros C. assert (L := cl_len _ _ _ C). assert (D := cl_deg _ _ _ C). rewrite (mult_at U (n + 1) (n + p + 2) 1); [lia|lia| | |].
  - intros i Hi. apply (cl_one _ _ _ C); lia.
  - intros i Hi. destruct (le_lt_dec i p) as [A|A].
    + rewrite (cl_zero _ _ _ C) by lia. lra.
    + assert (T := cl_inner _ _ _ C i ltac:(lia) ltac:(lia)). lra.
  - intros i Hi. lia.
Qed.

(** clamped knots are determined by the multiplicities of the internal ones *)
Lemma clamped_eq p n n' U U' : clamped p n U -> clamped p n' U' -> (forall x, 0 < x < 1 -> mult U x = mult U' x) -> U = U'.
Proof.
  intros C C' H. apply sorted_perm_eq; [apply (clamped_sorted' _ _ _ C)|apply (clamped_sorted' _ _ _ C')|].
  apply (Permutation_count_occ Req_EM_T). intros x. change (mult U x = mult U' x).
  destruct (Req_dec x 0) as [->|H0]; [rewrite (mult_0 _ _ _ C), (mult_0 _ _ _ C'); reflexivity|].
  destruct (Req_dec x 1) as [->|H1]; [rewrite (mult_1 _ _ _ C), (mult_1 _ _ _ C'); reflexivity|].
  destruct (Rlt_dec 0 x) as [A|A]; [|rewrite (mult_range _ _ _ x C), (mult_range _ _ _ x C') by lra; reflexivity].
  destruct (Rlt_dec x 1) as [B|B]; [|rewrite (mult_range _ _ _ x C), (mult_range _ _ _ x C') by lra; reflexivity].
  apply H. lra.
Qed.

Lemma curves_equal p n n' dim U U' P P' c c' : clamped_curve p n dim U P c -> clamped_curve p n' dim U' P' c' ->
  (forall x, 0 < x < 1 -> mult U x = mult U' x /\ (mult U x <= p + 1)%nat) ->
  (forall u, 0 <= u <= 1 -> evaluate c u = evaluate c' u) -> c = c'.
Proof.
  intros H H' HM HE. assert (E : U = U').
  { apply (clamped_eq p n n'); [apply H|apply H'|]. intros x Hx. apply HM, Hx. }
  subst U'. assert (E : n' = n).
  { assert (A := cl_len _ _ _ (proj1 H)). assert (B := cl_len _ _ _ (proj1 H')). lia. }
  subst n'. apply (same_curve p n dim U P P' c c' H H'). apply (points_unique p n dim U P P' c c' H H'); [|exact HE].
  apply (mult_gap p n U (proj1 H)). intros x Hx. apply HM, Hx.
Qed.

(** ** The knots of the parts *)
Lemma mult_map (f : R -> R) U x : (forall y, In y U -> f y = f x -> y = x) -> mult (map f U) (f x) = mult U x.
Proof.
  unfold mult. induction U as [|y U IH]; intros H; [reflexivity|]. cbn [map count_occ].
  rewrite IH by (intros z Hz; apply H; right; exact Hz).
  destruct (Req_EM_T (f y) (f x)) as [E|E], (Req_EM_T y x) as [F|F]; try reflexivity.
  - exfalso. apply F. apply H; [left; reflexivity|exact E].
  - subst. contradiction.
Qed.

Lemma mult_other u k U x : x <> u -> mult (repeat u k ++ U) x = mult U x.
Proof.
  intros H. unfold mult. rewrite count_occ_app. assert (E : count_occ Req_EM_T (repeat u k) x = 0%nat); [|rewrite E; reflexivity].
  apply count_occ_not_In. intros I. apply repeat_spec in I. congruence.
Qed.

Lemma split_knots p n dim U P c u : clamped_curve p n dim U P c -> 0 < u < 1 -> (mult U u <= p)%nat -> simple_below U u ->
  exists l r nl nr Ul Pl Ur Pr, split c u = Val (Ok (l, r)) /\ clamped_curve p nl dim Ul Pl l /\ clamped_curve p nr dim Ur Pr r /\
    (forall x, 0 < x < 1 -> mult Ul x = mult U (x * u)) /\ (forall x, 0 < x < 1 -> mult Ur x = mult U (u + x * (1 - u))) /\
    forall t, 0 <= t <= 1 -> evaluate l t = evaluate c (t * u) /\ evaluate r t = evaluate c (u + t * (1 - u)).
Proof.
  intros H Hu Hm Hs. destruct (split_setup p n dim U P c u H Hu Hm Hs) as [n' [V [Q [h [c1 [H1 [Sf [En [Pe [Hh [Hhn [V1 [V2 [V3 SN]]]]]]]]]]]]]].
  destruct (parts p n' dim V Q u h (proj1 H1) (proj1 (proj2 H1)) Hu Hh Hhn V1 V2 V3 (0 <? mult U u)%nat) as [l [r [EL [HL [ER HR]]]]].
  specialize (SN true true). rewrite EL in SN. cbn [bind] in SN. rewrite ER in SN. cbn [bind] in SN.
  exists l, r. do 6 eexists. split; [exact SN|]. split; [exact HL|]. split; [exact HR|].
  assert (MV : forall y, y <> u -> mult V y = mult U y).
  { intros y Hy. rewrite <- (mult_perm _ _ y Pe). apply mult_other, Hy. }
  assert (LV := cl_len _ _ _ (proj1 H1)). split; [|split].
  - intros x Hx. assert (B : x * u < u) by nra. rewrite <- (MV (x * u)) by lra.
    replace x with (x * u / u) at 1 by (field; lra). rewrite (mult_map (fun y => y / u)).
    + unfold mult. rewrite count_occ_app. cbn [count_occ]. destruct Req_EM_T as [E|_]; [exfalso; lra|].
      rewrite <- (firstn_skipn (h + p) V) at 2. rewrite count_occ_app.
      assert (E : count_occ Req_EM_T (skipn (h + p) V) (x * u) = 0%nat); [|rewrite E; reflexivity].
      apply count_occ_not_In. intros I. apply In_skipn_nth in I. destruct I as [i [A E]]. specialize (V3 i A). lra.
    + intros y _ E. apply (Rmult_eq_reg_r (/ u)); [exact E|]. apply Rinv_neq_0_compat. lra.
  - intros x Hx. assert (B : u < u + x * (1 - u)) by nra. rewrite <- (MV (u + x * (1 - u))) by lra.
    replace x with ((u + x * (1 - u) - u) / (1 - u)) at 1 by (field; lra). rewrite (mult_map (fun y => (y - u) / (1 - u))).
    + unfold mult. cbn [count_occ]. destruct Req_EM_T as [E|_]; [exfalso; lra|].
      rewrite <- (firstn_skipn h V) at 2. rewrite count_occ_app.
      assert (E : count_occ Req_EM_T (firstn h V) (u + x * (1 - u)) = 0%nat); [|rewrite E; reflexivity].
      apply count_occ_not_In. intros I. apply In_firstn_nth in I. destruct I as [i [A [_ E]]]. specialize (V1 i A). lra.
    + intros y _ E. assert (F : y - u = u + x * (1 - u) - u); [|lra]. apply (Rmult_eq_reg_r (/ (1 - u))); [exact E|]. apply Rinv_neq_0_compat. lra.
  - destruct (split_exact p n dim U P c u H Hu Hm Hs) as [cl [cr [nl [nr [Ul [Pl [Ur [Pr [E [_ [_ [_ F]]]]]]]]]]]].
    assert (EE : cl = l /\ cr = r). { unfold split in E. unfold split in SN. rewrite SN in E. injection E as -> ->. auto. }
    destruct EE as [-> ->]. intros t Ht. apply (F t Ht).
Qed.

(** ** Reversal *)
Lemma reverse_points p n dim U P c : clamped_curve p n dim U P c -> (forall x, 0 < x < 1 -> (mult U x <= p)%nat) ->
  exists c', reverse c = Val c' /\ clamped_curve p n dim (map (fun x => 1 - x) (rev U)) (mkMat (nrows P) (rev (mcols P))) c' /\
    forall u, 0 <= u <= 1 -> evaluate c' u = evaluate c (1 - u).
Proof.
  intros H HM. destruct (reverse_fact p n dim U P c H) as [c' [E [H' F]]]. exists c'. split; [exact E|]. split; [exact H'|].
  intros u Hu. destruct (F 0%nat u ltac:(lia) Hu) as [v [E1 [L R]]].
  { intros Hu'. specialize (HM (1 - u) ltac:(lra)). lia. }
  destruct R as [w [E2 [Lw N]]]. assert (EW : w = v).
  { apply (nth_ext _ _ 0 0); [rn; lia|]. intros d Hd. rewrite N by (rn; lia). simpl. ring. }
  subst w. unfold evaluate. rewrite E1. exact E2.
Qed.

Lemma reverse_insert_fact p n dim U P c u : clamped_curve p n dim U P c -> 0 < u < 1 ->
  (mult U u < p)%nat -> (forall x, 0 < x < 1 -> x <> u -> (mult U x <= 1)%nat) ->
  exists c1 r r1, curve_insert c u = Val (c1, Ok tt) /\ reverse c1 = Val r1 /\
    reverse c = Val r /\ curve_insert r (1 - u) = Val (r1, Ok tt).
Proof.
  intros H Hu Hm Hs.
  assert (HM : forall x, 0 < x < 1 -> (mult U x <= p)%nat).
  { intros x Hx. destruct (Req_dec x u) as [->|N]; [lia|]. specialize (Hs x Hx N). lia. }
  destruct (curve_insert_exact p n dim U P c u H Hu ltac:(lia)) as [c1 [U1 [P1 [E1 [H1 [Q1 F1]]]]]].
  { intros x Hx. apply Hs; lra. }
  assert (M1 : forall x, 0 < x < 1 -> (mult U1 x <= p)%nat).
  { intros x Hx. rewrite <- (mult_perm _ _ x Q1). unfold mult. cbn [count_occ]. destruct (Req_EM_T u x) as [<-|N].
    - unfold mult in Hm. lia.
    - apply HM, Hx. }
  destruct (reverse_points _ _ _ _ _ _ H HM) as [r [E2 [H2 F2]]]. destruct (reverse_points _ _ _ _ _ _ H1 M1) as [r1 [E3 [H3 F3]]].
  destruct (curve_insert_exact _ _ _ _ _ _ (1 - u) H2 ltac:(lra)) as [r2 [U2 [P2 [E4 [H4 [Q4 F4]]]]]].
  { rewrite mult_mirror. replace (1 - (1 - u)) with u by ring. lia. }
  { intros x Hx. rewrite mult_mirror. apply Hs; lra. }
  assert (E : r1 = r2); [|subst r2; exists c1, r, r1; auto].
  apply (curves_equal _ _ _ _ _ _ _ _ _ _ H3 H4).
  - intros x Hx. split; [|rewrite mult_mirror; assert (T := M1 (1 - x) ltac:(lra)); lia].
    rewrite <- (mult_perm _ _ x Q4), mult_mirror, <- (mult_perm _ _ _ Q1). unfold mult. cbn [count_occ].
    fold (mult U (1 - x)). fold (mult (map (fun x => 1 - x) (rev U)) x). rewrite mult_mirror.
    destruct (Req_EM_T u (1 - x)), (Req_EM_T (1 - u) x); try lra; reflexivity.
  - intros v Hv. rewrite (F3 v Hv). unfold evaluate. rewrite (F1 (1 - v) 0%nat), (F4 v 0%nat). symmetry. apply (F2 v Hv).
Qed.

Lemma reverse_split_fact p n dim U P c u : clamped_curve p n dim U P c -> 0 < u < 1 ->
  (mult U u <= p)%nat -> (1 <= p)%nat -> (forall x, 0 < x < 1 -> x <> u -> (mult U x <= 1)%nat) ->
  exists l r c' l' r', split c u = Val (Ok (l, r)) /\ reverse l = Val l' /\ reverse r = Val r' /\
    reverse c = Val c' /\ split c' (1 - u) = Val (Ok (r', l')).
Proof.
  intros H Hu Hm Hp Hs.
  assert (HM : forall x, 0 < x < 1 -> (mult U x <= p)%nat).
  { intros x Hx. destruct (Req_dec x u) as [->|N]; [lia|]. specialize (Hs x Hx N). lia. }
  destruct (split_knots p n dim U P c u H Hu Hm) as [l [r [nl [nr [Ul [Pl [Ur [Pr [E1 [Hl [Hr [Ml [Mr Ev]]]]]]]]]]]]].
  { intros x Hx. apply Hs; lra. }
  destruct (reverse_points _ _ _ _ _ _ H HM) as [c' [E2 [H2 F2]]].
  destruct (split_knots _ _ _ _ _ _ (1 - u) H2 ltac:(lra)) as [a [b [na [nb [Ua [Pa [Ub [Pb [E3 [Ha [Hb [Ma [Mb Ew]]]]]]]]]]]]].
  { rewrite mult_mirror. replace (1 - (1 - u)) with u by ring. exact Hm. }
  { intros x Hx. rewrite mult_mirror. apply Hs; lra. }
  destruct (reverse_points _ _ _ _ _ _ Hl) as [l' [E4 [H4 F4]]].
  { intros x Hx. rewrite Ml by exact Hx. apply HM. nra. }
  destruct (reverse_points _ _ _ _ _ _ Hr) as [r' [E5 [H5 F5]]].
  { intros x Hx. rewrite Mr by exact Hx. apply HM. nra. }
  assert (Er : r' = a).
  { apply (curves_equal _ _ _ _ _ _ _ _ _ _ H5 Ha).
    - intros x Hx. rewrite (Ma x Hx), !mult_mirror, Mr by lra. replace (u + (1 - x) * (1 - u)) with (1 - x * (1 - u)) by ring.
      split; [reflexivity|]. assert (T := HM (1 - x * (1 - u)) ltac:(nra)). lia.
    - intros t Ht. rewrite (F5 t Ht), (proj1 (Ew t Ht)), (proj2 (Ev (1 - t) ltac:(lra))), F2 by nra. f_equal. ring. }
  assert (El : l' = b).
  { apply (curves_equal _ _ _ _ _ _ _ _ _ _ H4 Hb).
    - intros x Hx. rewrite (Mb x Hx), !mult_mirror, Ml by lra. replace (1 - (1 - u + x * (1 - (1 - u)))) with ((1 - x) * u) by ring.
      split; [reflexivity|]. assert (T := HM ((1 - x) * u) ltac:(nra)). lia.
    - intros t Ht. rewrite (F4 t Ht), (proj2 (Ew t Ht)), (proj1 (Ev (1 - t) ltac:(lra))), F2 by nra. f_equal. ring. }
  subst a b. exists l, r, c', l', r'. auto 6.
Qed.

(** ** Inserting, then splitting *)
Lemma insert_split_fact p n dim U P c u v : clamped_curve p n dim U P c -> 0 < u < 1 -> 0 < v < 1 -> u <> v ->
  (mult U u <= p)%nat -> mult U v = 0%nat -> (forall x, 0 < x < 1 -> x < u \/ x < v -> (mult U x <= 1)%nat) -> (forall x, 0 < x < 1 -> (mult U x <= p + 1)%nat) ->
  exists c1 l r, curve_insert c v = Val (c1, Ok tt) /\ split c u = Val (Ok (l, r)) /\
    (v < u -> exists l1, curve_insert l (v / u) = Val (l1, Ok tt) /\ split c1 u = Val (Ok (l1, r))) /\
    (u < v -> exists r1, curve_insert r ((v - u) / (1 - u)) = Val (r1, Ok tt) /\ split c1 u = Val (Ok (l, r1))).
Proof.
  intros H Hu Hv Huv Hm Hm' Hs HM.
  destruct (curve_insert_exact p n dim U P c v H Hv ltac:(lia)) as [c1 [U1 [P1 [E1 [H1 [Q1 F1]]]]]].
  { intros x Hx. apply Hs; lra. }
  destruct (split_knots p n dim U P c u H Hu Hm) as [l [r [nl [nr [Ul [Pl [Ur [Pr [E2 [Hl [Hr [Ml [Mr Ev]]]]]]]]]]]]].
  { intros x Hx. apply Hs; lra. }
  assert (M1 : forall x, mult U1 x = if Req_EM_T v x then 1%nat else mult U x).
  { intros x. rewrite <- (mult_perm _ _ x Q1). unfold mult at 1. cbn [count_occ]. fold (mult U x). destruct Req_EM_T as [<-|N]; [rewrite Hm'; reflexivity|reflexivity]. }
  destruct (split_knots _ _ _ _ _ _ u H1 Hu) as [a [b [na [nb [Ua [Pa [Ub [Pb [E3 [Ha [Hb [Ma [Mb Ew]]]]]]]]]]]]].
  { rewrite M1. destruct Req_EM_T; [lra|exact Hm]. }
  { intros x Hx. rewrite M1. destruct Req_EM_T; [lia|]. apply Hs; lra. }
  assert (F : forall x, evaluate c1 x = evaluate c x) by (intros x; exact (F1 x 0%nat)).
  exists c1, l, r. split; [exact E1|]. split; [exact E2|]. split.
  - intros Hlt. assert (Hvu : 0 < v / u < 1).
    { split; [apply Rdiv_lt_0_compat; lra|]. apply (Rmult_lt_reg_r u); [lra|]. unfold Rdiv. rewrite Rmult_assoc, Rinv_l by lra. lra. }
    assert (Evu : v / u * u = v) by (field; lra).
    destruct (curve_insert_exact _ _ _ _ _ _ (v / u) Hl Hvu) as [l1 [U2 [P2 [E4 [H4 [Q4 F4]]]]]].
    { rewrite Ml by exact Hvu. rewrite Evu. lia. }
    { intros x Hx. rewrite Ml by lra. apply Hs; nra. }
    exists l1. split; [exact E4|]. rewrite E3. assert (A1 : a = l1).
    { apply (curves_equal _ _ _ _ _ _ _ _ _ _ Ha H4).
      - intros x Hx. rewrite (Ma x Hx), M1, <- (mult_perm _ _ x Q4). unfold mult at 2. cbn [count_occ]. fold (mult Ul x). rewrite (Ml x Hx).
        destruct (Req_EM_T v (x * u)) as [A|A], (Req_EM_T (v / u) x) as [B|B].
        + rewrite <- A, Hm'. split; lia.
        + exfalso. apply B. rewrite A. field. lra.
        + exfalso. apply A. rewrite <- B. lra.
        + split; [reflexivity|]. apply HM. nra.
      - intros t Ht. rewrite (proj1 (Ew t Ht)), F, <- (proj1 (Ev t Ht)). symmetry. exact (F4 t 0%nat). }
    assert (A2 : b = r).
    { apply (curves_equal _ _ _ _ _ _ _ _ _ _ Hb Hr).
      - intros x Hx. rewrite (Mb x Hx), (Mr x Hx), M1. destruct Req_EM_T; [nra|]. split; [reflexivity|]. apply HM. nra.
      - intros t Ht. rewrite (proj2 (Ew t Ht)), (proj2 (Ev t Ht)). apply F. }
    subst. reflexivity.
  - intros Hlt. set (w := (v - u) / (1 - u)). assert (Hw : 0 < w < 1).
    { unfold w. split; [apply Rdiv_lt_0_compat; lra|]. apply (Rmult_lt_reg_r (1 - u)); [lra|]. unfold Rdiv. rewrite Rmult_assoc, Rinv_l by lra. lra. }
    assert (Ew' : u + w * (1 - u) = v) by (unfold w; field; lra).
    destruct (curve_insert_exact _ _ _ _ _ _ w Hr Hw) as [r1 [U2 [P2 [E4 [H4 [Q4 F4]]]]]].
    { rewrite Mr by exact Hw. rewrite Ew'. lia. }
    { intros x Hx. rewrite Mr by lra. apply Hs; nra. }
    exists r1. split; [exact E4|]. rewrite E3. assert (A1 : b = r1).
    { apply (curves_equal _ _ _ _ _ _ _ _ _ _ Hb H4).
      - intros x Hx. rewrite (Mb x Hx), M1, <- (mult_perm _ _ x Q4). unfold mult at 2. cbn [count_occ]. fold (mult Ur x). rewrite (Mr x Hx).
        destruct (Req_EM_T v (u + x * (1 - u))) as [A|A], (Req_EM_T w x) as [B|B].
        + rewrite <- A, Hm'. split; lia.
        + exfalso. apply B. unfold w. rewrite A. field. lra.
        + exfalso. apply A. rewrite <- B. lra.
        + split; [reflexivity|]. apply HM. nra.
      - intros t Ht. rewrite (proj2 (Ew t Ht)), F, <- (proj2 (Ev t Ht)). symmetry. exact (F4 t 0%nat). }
    assert (A2 : a = l).
    { apply (curves_equal _ _ _ _ _ _ _ _ _ _ Ha Hl).
      - intros x Hx. rewrite (Ma x Hx), (Ml x Hx), M1. destruct Req_EM_T; [nra|]. split; [reflexivity|]. apply HM. nra.
      - intros t Ht. rewrite (proj1 (Ew t Ht)), (proj1 (Ev t Ht)). apply F. }
    rewrite A1, A2; reflexivity.
Qed.
