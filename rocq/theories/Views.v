(** * The read accessors of knots and control points *)

From Coq Require Import ZArith Reals List Bool Arith Lia Lra.
From Verif Require Import Num Vec MKnots MPoints MCurve RNum Hoare Lists Struct Spec BMath BMath2 BMath3 Api Bridge Facts1 Facts5.
Import ListNotations.

Lemma vget_out {A} (v : list A) i : length v <= i -> vget v i = Panic.
Proof. intros H. unfold vget. rewrite (proj2 (nth_error_None v i) H). reflexivity. Qed.
Lemma vget_if {K : Num} (v : list K) i d : vget v i = if i <? length v then Val (nth i v d) else Panic.
Proof. destruct (Nat.ltb_spec i (length v)) as [H|H]; [apply vget_nth; exact H|apply vget_out; exact H]. Qed.
Lemma knots_of_out {K : Num} p (U : list K) k : p < k -> vget (Uk (knots_of p U)) k = Panic.
Proof. intros H. apply vget_out. cbn [Uk knots_of]. rewrite map_length, seq_length. lia. Qed.

Section Views.
  Context {K : Num}.
  Variables (p n : nat) (U : list K).
  Hypothesis L : length U = n + p + 2.
  Hypothesis D : p <= n.

  Lemma internal_count_val : internal_count (knots_of p U) = Val (n - p).
  Proof. unfold internal_count. rewrite (knots_of_segments p U n L). cbn [bind kp knots_of]. apply usub_ok. exact D. Qed.
  Lemma domain_count_val : domain_count (knots_of p U) = Val (n - p + 2).
  Proof. unfold domain_count. rewrite (knots_of_segments p U n L). cbn [bind kp knots_of]. rewrite usub_ok by exact D. reflexivity. Qed.
  Lemma internal_val : internal (knots_of p U) = Val (firstn (n - p) (skipn (p + 1) U)).
  Proof. unfold internal. rewrite knots_of_vec by lia. cbn [bind]. rewrite internal_count_val, kderiv_0. cbn [bind kp knots_of]. apply segment_val. lia. Qed.
  Lemma domain_derivative_val k : k <= p -> domain_derivative (knots_of p U) k = Val (firstn (n - p + 2) (skipn p U)).
  Proof.
    intros H. unfold domain_derivative. rewrite knots_of_vec by exact H. cbn [bind]. change (kp (knots_of p U)) with p. rewrite usub_ok by exact H. cbn [bind]. rewrite domain_count_val. cbn [bind].
    rewrite segment_val by (rewrite kderiv_length; lia). f_equal.
    assert (ND : nth 0 U n0 = nth 0 U n0) by reflexivity. apply nth_ext with (d := n0) (d' := n0).
    - rewrite !firstn_length, !skipn_length, kderiv_length. lia.
    - intros i Hi. rewrite firstn_length, skipn_length, kderiv_length in Hi. rewrite !nth_firstn by lia. rewrite !nth_skipn. rewrite nth_kderiv by lia. f_equal. lia.
  Qed.
End Views.

Theorem knot_views (K : Num) p n (U : list K) kn : length U = n + p + 2 -> p <= n -> knots_new p U = Val kn ->
  kdegree kn = p /\ kmax_derivative kn = p /\ ksegments kn = Val n /\ vector kn = Val U /\
  (forall k, k <= p -> klen kn k = Val (n + p + 2 - 2 * k) /\ exists v, vector_derivative kn k = Val v /\ length v = n + p + 2 - 2 * k /\ forall i d, i < n + p + 2 - 2 * k -> nth i v d = nth (i + k) U d) /\
  (forall k, p < k -> klen kn k = Panic /\ vector_derivative kn k = Panic /\ domain_derivative kn k = Panic) /\
  internal_count kn = Val (n - p) /\
  (exists v, internal kn = Val v /\ length v = n - p /\ forall i d, i < n - p -> nth i v d = nth (p + 1 + i) U d) /\
  (forall i d, internal_knot kn i = if i <? n - p then Val (nth (p + 1 + i) U d) else Panic) /\
  domain_count kn = Val (n - p + 2) /\
  (exists v, (forall k, k <= p -> domain_derivative kn k = Val v) /\ domain kn = Val v /\ length v = n - p + 2 /\ forall i d, i < n - p + 2 -> nth i v d = nth (p + i) U d) /\
  (forall i d, domain_knot kn i = if i <? n - p + 2 then Val (nth (p + i) U d) else Panic).
Proof.
  intros L D E. rewrite knots_new_val in E by lia. injection E as <-.
  split; [reflexivity|]. split; [reflexivity|]. split; [apply knots_of_segments; exact L|]. split; [apply knots_of_vector|]. split; [|split; [|split; [|split; [|split; [|split; [|split]]]]]].
  - intros k Hk. unfold klen, vector_derivative. rewrite knots_of_vec by exact Hk. cbn [bind]. rewrite kderiv_length, L. split; [reflexivity|]. eexists. split; [reflexivity|]. rewrite kderiv_length, L. split; [reflexivity|].
    intros i d Hi. rewrite nth_kderiv by lia. f_equal. lia.
  - intros k Hk. unfold klen, vector_derivative, domain_derivative. rewrite (knots_of_out p U) by exact Hk. repeat split.
  - apply internal_count_val; assumption.
  - rewrite (internal_val p n U L D). eexists. split; [reflexivity|]. split; [rewrite firstn_length, skipn_length; lia|]. intros i d Hi. rewrite nth_firstn, nth_skipn by lia. reflexivity.
  - intros i d. unfold internal_knot. rewrite (internal_val p n U L D). cbn [bind]. rewrite (vget_if _ i d). rewrite firstn_length, skipn_length. replace (Nat.min (n - p) (length U - (p + 1))) with (n - p) by lia.
    destruct (Nat.ltb_spec i (n - p)); [|reflexivity]. rewrite nth_firstn, nth_skipn by lia. reflexivity.
  - apply domain_count_val; assumption.
  - exists (firstn (n - p + 2) (skipn p U)). split; [intros k Hk; apply (domain_derivative_val p n U L D k Hk)|]. split; [apply (domain_derivative_val p n U L D 0); lia|]. split; [rewrite firstn_length, skipn_length; lia|].
    intros i d Hi. rewrite nth_firstn, nth_skipn by lia. reflexivity.
  - intros i d. unfold domain_knot, domain. rewrite (domain_derivative_val p n U L D 0) by lia. cbn [bind]. rewrite (vget_if _ i d). rewrite firstn_length, skipn_length. replace (Nat.min (n - p + 2) (length U - p)) with (n - p + 2) by lia.
    destruct (Nat.ltb_spec i (n - p + 2)); [|reflexivity]. rewrite nth_firstn, nth_skipn by lia. reflexivity.
Qed.

(** too few knots for the degree *)
Theorem knot_views_short (K : Num) p (U : list K) : length U < 2 * p + 2 ->
  knots_new p U = Panic \/ exists kn, knots_new p U = Val kn /\ internal_count kn = Panic /\ internal kn = Panic /\ domain_count kn = Panic /\ domain kn = Panic /\
    (forall i, internal_knot kn i = Panic /\ domain_knot kn i = Panic) /\ forall u, multiplicity kn u = Panic.
Proof.
  intros L. destruct (le_lt_dec (2 * p) (length U)) as [H|H].
  - right. exists (knots_of p U). split; [apply knots_new_val; exact H|].
    assert (S0 : ksegments (knots_of p U) = (if p + 2 <=? length U then Val (length U - (p + 2)) else Panic)).
    { unfold ksegments, segments_derivative, klen. rewrite knots_of_vec by lia. cbn [bind kp knots_of]. rewrite usub_ok by lia. cbn [bind]. rewrite kderiv_0. unfold usub. replace (p + 2 - 2 * 0) with (p + 2) by lia. reflexivity. }
    assert (IC : internal_count (knots_of p U) = Panic).
    { unfold internal_count. rewrite S0. destruct (Nat.leb_spec (p + 2) (length U)); [|reflexivity]. cbn [bind kp knots_of]. unfold usub. replace (p <=? length U - (p + 2)) with false by (symmetry; apply Nat.leb_gt; lia). reflexivity. }
    assert (DC : domain_count (knots_of p U) = Panic).
    { unfold domain_count. rewrite S0. destruct (Nat.leb_spec (p + 2) (length U)); [|reflexivity]. cbn [bind kp knots_of]. unfold usub. replace (p <=? length U - (p + 2)) with false by (symmetry; apply Nat.leb_gt; lia). reflexivity. }
    assert (I : internal (knots_of p U) = Panic) by (unfold internal; rewrite knots_of_vec by lia; cbn [bind]; rewrite IC; reflexivity).
    assert (DD : domain (knots_of p U) = Panic) by (unfold domain, domain_derivative; rewrite knots_of_vec by lia; cbn [bind]; change (kp (knots_of p U)) with p; rewrite usub_ok by lia; cbn [bind]; rewrite DC; reflexivity).
    split; [exact IC|]. split; [exact I|]. split; [exact DC|]. split; [exact DD|]. split; [intros i; unfold internal_knot, domain_knot; rewrite I, DD; split; reflexivity|]. intros u. unfold multiplicity. rewrite DD. reflexivity.
  - left. apply knots_new_short. exact H.
Qed.

(** the multiplicity over the reals: the inner knots, and one for each end *)
Theorem multiplicity_reads p n U kn u : clamped p n U -> @knots_new RNum p U = Val kn ->
  @multiplicity RNum kn u = Val (if Req_EM_T u 0 then 1 else if Req_EM_T u 1 then 1 else mult U u).
Proof.
  intros C E. assert (L := cl_len _ _ _ C). assert (D := cl_deg _ _ _ C). rewrite (@knots_new_val RNum) in E by (rn; lia). injection E as <-.
  rewrite (@multiplicity_val RNum p n U u L D). f_equal.
  assert (OC : forall x (l : list R), length (filter (fun y => Reqb y x) l) = count_occ Req_EM_T l x) by (intros; apply filter_count).
  assert (F := kfun_clamped p n U C).
  assert (SPL : firstn (n - p + 2) (skipn p U) = 0%R :: firstn (n - p) (skipn (p + 1) U) ++ [1%R]).
  { apply nth_ext with (d := 0%R) (d' := 0%R).
    - cbn [length]. rewrite app_length, !firstn_length, !skipn_length. cbn [length]. rn. lia.
    - intros i Hi. rewrite firstn_length, skipn_length in Hi. rn. rewrite nth_firstn, nth_skipn by lia. destruct i as [|i]; [rewrite (cl_zero _ _ _ C) by lia; reflexivity|]. cbn [nth].
      destruct (le_lt_dec (n - p) i) as [G|G].
      + rewrite app_nth2; rewrite firstn_length, skipn_length; [|lia]. replace (i - Nat.min (n - p) (length U - (p + 1))) with 0 by lia. cbn [nth]. rewrite (cl_one _ _ _ C) by lia. reflexivity.
      + rewrite app_nth1 by (rewrite firstn_length, skipn_length; lia). rewrite nth_firstn, nth_skipn by lia. f_equal. lia. }
  assert (IN : forall x, In x (firstn (n - p) (skipn (p + 1) U)) -> (0 < x < 1)%R).
  { intros x Hx. apply (In_nth _ _ 0%R) in Hx. destruct Hx as [i [Hi <-]]. rewrite firstn_length, skipn_length in Hi. rewrite nth_firstn, nth_skipn by lia.
    assert (T := fc_inner _ _ _ F (p + 1 + i) ltac:(lia)). rewrite kfun_nth in T by lia. exact T. }
  destruct (Rlt_le_dec 0 u) as [H0|H0]; [destruct (Rlt_le_dec u 1) as [H1|H1]|].
  - rewrite (dcount_R p n U u C) by lra. destruct Req_EM_T; [lra|]. destruct Req_EM_T; [lra|]. reflexivity.
  - unfold dcount. rn. rewrite OC, SPL. destruct (Req_EM_T u 0); [lra|]. destruct (Req_EM_T u 1) as [->|N].
    + rewrite count_occ_cons_neq by lra. rewrite count_occ_app. rewrite (proj1 (count_occ_not_In Req_EM_T _ 1%R)) by (intros H; apply IN in H; lra). cbn. destruct Req_EM_T; [reflexivity|lra].
    + rewrite count_occ_cons_neq by lra. rewrite count_occ_app. rewrite (proj1 (count_occ_not_In Req_EM_T _ u)) by (intros H; apply IN in H; lra). rewrite (count_occ_cons_neq _ _ (x := 1%R)) by lra.
      symmetry. unfold mult. apply count_occ_not_In. intros H. apply (In_nth _ _ 0%R) in H. destruct H as [i [Hi E]]. rewrite <- kfun_nth in E by exact Hi. assert (T := U_range p n _ F i). lra.
  - unfold dcount. rn. rewrite OC, SPL. destruct (Req_EM_T u 0) as [->|N].
    + rewrite count_occ_cons_eq by reflexivity. rewrite count_occ_app. rewrite (proj1 (count_occ_not_In Req_EM_T _ 0%R)) by (intros H; apply IN in H; lra). cbn. destruct Req_EM_T; [lra|reflexivity].
    + destruct Req_EM_T; [lra|]. rewrite count_occ_cons_neq by lra. rewrite count_occ_app. rewrite (proj1 (count_occ_not_In Req_EM_T _ u)) by (intros H; apply IN in H; lra). rewrite (count_occ_cons_neq _ _ (x := 1%R)) by lra.
      symmetry. unfold mult. apply count_occ_not_In. intros H. apply (In_nth _ _ 0%R) in H. destruct H as [i [Hi E]]. rewrite <- kfun_nth in E by exact Hi. assert (T := U_range p n _ F i). lra.
Qed.

(** a curve and its control points *)
Theorem curve_views (K : Num) p n dim (U : list K) P c : total_div K -> sized p n dim U P -> built p U P c ->
  degree c = p /\ segments c = Val n /\ dimension c = Val dim /\ max_derivative c = Val p /\
  cp_matrix (cpoints c) = Val P /\ cp_segments (cpoints c) = Val n /\ cp_count (cpoints c) = Val (n + 1) /\ cp_dimension (cpoints c) = Val dim /\ pmax_derivative (cpoints c) = p /\
  (forall k, k <= p -> count_derivative (cpoints c) k = Val (n + 1 - k) /\ exists D, matrix_derivative (cpoints c) k = Val D /\ shape dim (n + 1 - k) D) /\
  (forall k, p < k -> count_derivative (cpoints c) k = Panic /\ matrix_derivative (cpoints c) k = Panic).
Proof.
  intros TD SZ B. assert (W := sized_wf True (gdiv_total K TD) p n dim U P c SZ B). destruct (wf_cpoints p n dim U P c W) as [s ES].
  destruct W as [Wd Wl Ws Wk Wm Wh Wp Wpt]. destruct c as [kn [pk km]]. cbn [cknots cpoints pk_max Pk] in *. subst kn km pk.
  assert (NC : ncols P = S n) by apply Ws. assert (NR : nrows P = dim) by apply Ws.
  assert (CD : forall k, k <= p -> vget (P :: s) k = Val (nth k (P :: s) (mzeros 0 0))) by (intros k Hk; apply vget_nth; lia).
  assert (CC : cp_count (mkCP (P :: s) p) = Val (n + 1)) by (unfold cp_count, count_derivative; cbn [Pk]; rewrite (CD 0 ltac:(lia)); cbn [bind nth]; rewrite NC; f_equal; lia).
  assert (CS : cp_segments (mkCP (P :: s) p) = Val n) by (unfold cp_segments; rewrite CC; cbn [bind]; rewrite usub_ok by lia; f_equal; lia).
  assert (CM : cp_dimension (mkCP (P :: s) p) = Val dim) by (unfold cp_dimension, cp_matrix; cbn [Pk]; rewrite (CD 0 ltac:(lia)); cbn [bind nth]; rewrite NR; reflexivity).
  split; [reflexivity|]. split; [exact CS|]. split; [exact CM|]. split; [unfold max_derivative, kmax_derivative, pmax_derivative; cbn [cknots cpoints pk_max knots_of kk_max]; rewrite Nat.eqb_refl; reflexivity|].
  split; [reflexivity|]. split; [exact CS|]. split; [exact CC|]. split; [exact CM|]. split; [reflexivity|]. split.
  - intros k Hk. unfold count_derivative, matrix_derivative. cbn [Pk pk_max]. rewrite CD by exact Hk. cbn [bind]. assert (T := Wpt k Hk). replace (n + 1 - k) with (S n - k) by lia. split; [f_equal; apply T|].
    exists (nth k (P :: s) (mzeros 0 0)). replace (k <=? p) with true by (symmetry; apply Nat.leb_le; exact Hk). split; [reflexivity|exact T].
  - intros k Hk. unfold count_derivative, matrix_derivative. cbn [Pk pk_max]. rewrite vget_out by lia. replace (k <=? p) with false by (symmetry; apply Nat.leb_gt; exact Hk). split; reflexivity.
Qed.
