(** * Knot insertion: structure in every number system, exact behaviour over the reals *)

From Coq Require Import ZArith Reals List Bool Arith Lia Lra.
From Verif Require Import Num Vec MKnots MPoints MCurve RNum Hoare Lists Struct Spec BMath BMath2 BMath3 BMath4 Api Bridge Facts1 Facts4.
Import ListNotations.

(** the knot list after inserting [u] behind position [l] *)
Definition insU {A} (U : list A) (l : nat) (u : A) : list A := firstn (l + 1) U ++ u :: skipn (l + 1) U.

Lemma insU_length {A} (U : list A) l u : l + 1 <= length U -> length (insU U l u) = length U + 1.
Proof. intros H. unfold insU. rewrite app_length, firstn_length. cbn [length]. rewrite skipn_length. lia. Qed.

Lemma nth_insU {A} (U : list A) l u k d : l + 1 <= length U ->
  nth k (insU U l u) d = if k <=? l then nth k U d else if k =? l + 1 then u else nth (k - 1) U d.
Proof.
  intros H. unfold insU. rewrite nth_insert_row by exact H.
  destruct (Nat.ltb_spec k (l + 1)), (Nat.leb_spec k l); try reflexivity; lia.
Qed.

Section Generic.
  Context {K : Num}.

  Lemma derive_single_point_indep pk km km' (kn : Knots K) k : forall i,
    derive_single_point (mkCP pk km) kn k i = derive_single_point (mkCP pk km') kn k i.
  Proof.
    induction k as [|k IH]; intros i; [reflexivity|]. cbn [derive_single_point].
    rewrite !IH. reflexivity.
  Qed.

  Lemma points_derive_indep (P : Mat K) r km kn : points_derive (mkCP (P :: r) km) kn = points_derive (cp_new P) kn.
  Proof.
    unfold points_derive, cp_new. cbn [Pk pk_max firstn].
    change (cp_segments (mkCP (P :: r) km)) with (cp_segments (mkCP [P] 0)).
    destruct (cp_segments (mkCP [P] 0)) as [n| | |]; cbn [bind]; try reflexivity.
    set (f := fun cp k => _). generalize (rangei 1 (kdegree kn)) as l. intros l. generalize [P] as pk. generalize 0 as km'.
    induction l as [|k l IH]; intros km' pk; [reflexivity|]. cbn [foldM].
    unfold f at 1 3. destruct (usub n k) as [nk| | |]; cbn [bind]; try reflexivity.
    change (cp_dimension (mkCP pk km)) with (cp_dimension (mkCP pk km')).
    destruct (cp_dimension (mkCP pk km')) as [d| | |]; cbn [bind]; try reflexivity.
    rewrite (foldM_ext (fun P0 i => v <- derive_single_point (mkCP pk km) kn k i;; mset_col P0 i v)
                       (fun P0 i => v <- derive_single_point (mkCP pk km') kn k i;; mset_col P0 i v)).
    2:{ intros s x _. rewrite (derive_single_point_indep pk km km'). reflexivity. }
    destruct (foldM _ _ _) as [Pn| | |]; cbn [bind]; try reflexivity. cbn [Pk pk_max]. apply IH.
  Qed.

  (** recomputing the caches gives what [Curve::new] would build *)
  Lemma calculate_built p (U : list K) n dim P c0 c' r s :
    p <= n -> length U = n + p + 2 -> shape dim (S n) P ->
    kp (cknots c0) = p -> Uk (cknots c0) = U :: r -> Pk (cpoints c0) = P :: s ->
    calculate_derivatives c0 = Val c' -> built p U P c'.
  Proof.
    intros Hpn HL HP Hp Hr Hs E. exists (knots_of p U). split; [apply knots_new_val; lia|].
    unfold curve_new. unfold cp_new at 1. rewrite (cp_segments_val P [] 0 dim n HP). cbn [bind kdegree kp knots_of].
    replace (n <? p) with false by (symmetry; apply Nat.ltb_ge; lia). fold (knots_of p U).
    unfold calculate_derivatives in *. rewrite (knots_derive_val _ U r Hr) in E by lia. rewrite Hp in E. cbn [bind] in E.
    cbn [cknots cpoints]. rewrite (knots_derive_val _ (kderiv 0 U) (map (fun k => kderiv k U) (seq 1 p))).
    2:{ reflexivity. }
    2:{ cbn [kp knots_of]. rewrite kderiv_length. lia. }
    cbn [bind kp knots_of]. rewrite kderiv_0. fold (knots_of p U).
    destruct c0 as [kn [pk km]]. cbn [cpoints Pk] in *. subst pk. rewrite points_derive_indep in E.
    destruct (points_derive (cp_new P) (knots_of p U)) as [cp| | |]; cbn [bind] in *; try discriminate.
    injection E as <-. reflexivity.
  Qed.

  Lemma calculate_ok ud (G : @gdiv K ud) p (U : list K) n dim P c0 r s :
    p <= n -> length U = n + p + 2 -> shape dim (S n) P ->
    kp (cknots c0) = p -> Uk (cknots c0) = U :: r -> Pk (cpoints c0) = P :: s ->
    ok ud (calculate_derivatives c0) (fun c => wf p n dim U P c /\ built p U P c).
  Proof.
    intros Hpn HL HP Hp Hr Hs.
    assert (T : ok ud (calculate_derivatives c0) (wf p n dim U P)).
    { unfold calculate_derivatives. rewrite (knots_derive_val _ U r Hr) by lia. rewrite Hp. cbn [bind].
      destruct c0 as [kn [pk km]]. cbn [cpoints Pk] in *. subst pk.
      eapply ok_bind; [apply (points_derive_ok ud G p U n dim P s km); assumption|].
      intros cp [H1 [H2 [H3 H4]]]. cbn [ok]. split; cbn [cknots cpoints]; auto. }
    destruct (calculate_derivatives c0) as [c'| | |] eqn:E; cbn [ok] in *; try exact T. split; [exact T|].
    apply (calculate_built p U n dim P c0 c' r s); assumption.
  Qed.

  (** what [multiplicity] counts: the entries equal to [u] among the domain knots *)
  Definition dcount (p n : nat) (U : list K) (u : K) : nat :=
    length (filter (fun x => (x ==? u)%num) (firstn (n - p + 2) (skipn p U))).

  Lemma multiplicity_val p n (U : list K) u : length U = n + p + 2 -> p <= n ->
    multiplicity (knots_of p U) u = Val (dcount p n U u).
  Proof.
    intros HL Hpn. unfold multiplicity, domain, domain_derivative, domain_count.
    rewrite knots_of_vec by lia. cbn [bind]. rewrite (knots_of_segments p U n HL). cbn [bind kp knots_of].
    repeat (rewrite usub_ok by lia; cbn [bind]). rewrite kderiv_0, Nat.sub_0_r.
    rewrite segment_val by lia. reflexivity.
  Qed.

  Lemma wf_cpoints p n dim U P c : @wf K p n dim U P c -> exists s, Pk (cpoints c) = P :: s.
  Proof.
    intros W. assert (L := wf_Pk _ _ _ _ _ _ W). assert (H := wf_head _ _ _ _ _ _ W).
    destruct (Pk (cpoints c)) as [|Q s]; [discriminate|]. cbn [nth] in H. subst Q. eauto.
  Qed.

  Lemma insert_gen ud (G : @gdiv K ud) p n dim (U : list K) P c u :
    wf p n dim U P c -> (u <=? n0)%num || (n1 <=? u)%num = false -> dcount p n U u <= p ->
    (forall l i, find_idx (knots_of p U) u 0 CLeftOrEqual = Val l -> p <= l <= n -> l - p < i <= l ->
       exists a, ndiv (u - nth i U n0)%num (nth (i + p) U n0 - nth i U n0)%num = Val a) ->
    ok ud (insert c u) (fun r => exists l P', find_idx (knots_of p U) u 0 CLeftOrEqual = Val l /\ p <= l <= n /\
       insert_points U P dim p l u = Val P' /\ snd r = Ok tt /\
       wf p (S n) dim (insU U l u) P' (fst r) /\ built p (insU U l u) P' (fst r)).
  Proof.
    intros W Hu Hm Hd. assert (Wl := wf_len _ _ _ _ _ _ W). assert (Wd := wf_deg _ _ _ _ _ _ W).
    destruct (wf_cpoints _ _ _ _ _ _ W) as [s Es].
    unfold insert. rewrite Hu. unfold degree. rewrite (wf_knots _ _ _ _ _ _ W). cbn [kdegree kp knots_of]. fold (knots_of p U).
    rewrite (multiplicity_val p n U u Wl Wd). cbn [bind].
    replace (p <? dcount p n U u) with false by (symmetry; apply Nat.ltb_ge; lia).
    unfold cp_dimension, cp_matrix. rewrite Es. cbn [vget nth_error bind].
    rewrite (knots_of_vector p U). cbn [bind].
    assert (F := find_le_spec False p n 0 U u Wl Wd ltac:(lia)). apply ok_val_ex in F. destruct F as [l [F [Hl _]]].
    rewrite F. cbn [bind]. rewrite insert_row_val by lia. cbn [bind].
    rewrite (proj1 (wf_shape _ _ _ _ _ _ W)).
    assert (A : exists al, forall i, l - p < i <= l -> ndiv (u - nth i U n0)%num (nth (i + p) U n0 - nth i U n0)%num = Val (al i)).
    { exists (fun i => match ndiv (u - nth i U n0)%num (nth (i + p) U n0 - nth i U n0)%num with Val a => a | _ => n0 end).
      intros i Hi. destruct (Hd l i F ltac:(lia) Hi) as [a Ea]. rewrite Ea. reflexivity. }
    destruct A as [al Hal].
    destruct (insert_points_val U P dim p n l u al Wl (wf_shape _ _ _ _ _ _ W) ltac:(lia) Hal) as [P' [EP [SP _]]].
    rewrite EP. cbn [bind]. unfold knots_of at 1. cbn [Uk seq map]. rewrite vset_val by (cbn [length]; lia). cbn [bind upd].
    rewrite vset_val by (cbn [length]; lia). cbn [bind upd]. fold (insU U l u).
    eapply ok_bind.
    - eapply (calculate_ok ud G p (insU U l u) (S n) dim P'); cbn [cknots cpoints Uk Pk kp knots_of].
      + lia.
      + rewrite insU_length by lia. lia.
      + exact SP.
      + reflexivity.
      + reflexivity.
      + reflexivity.
    - intros c' [W' B']. cbn [ok fst snd]. exists l, P'. repeat split; try assumption; try apply W'; try lia.
  Qed.

  Lemma insert_out (c : Curve K) u : (u <=? n0)%num || (n1 <=? u)%num = true -> insert c u = Val (c, Err (IOutOfBounds u n0 n1)).
  Proof. intros H. unfold insert. rewrite H. reflexivity. Qed.

  Lemma insert_mult p n dim (U : list K) P c u : wf p n dim U P c -> (u <=? n0)%num || (n1 <=? u)%num = false ->
    p < dcount p n U u -> insert c u = Val (c, Err (IMultiplicityError u (dcount p n U u) p)).
  Proof.
    intros W Hu Hm. unfold insert. rewrite Hu. unfold degree. rewrite (wf_knots _ _ _ _ _ _ W). cbn [kdegree kp knots_of]. fold (knots_of p U).
    rewrite (multiplicity_val p n U u (wf_len _ _ _ _ _ _ W) (wf_deg _ _ _ _ _ _ W)). cbn [bind].
    replace (p <? dcount p n U u) with true by (symmetry; apply Nat.ltb_lt; lia). reflexivity.
  Qed.
End Generic.

Local Open Scope R_scope.

Lemma kfun_insU (U : list R) l u i : (l + 1 < length U)%nat -> kfun (insU U l u) i = ins_knots (kfun U) l u i.
Proof.
  intros H. assert (L := insU_length U l u ltac:(lia)). unfold ins_knots.
  destruct (lt_dec i (length (insU U l u))) as [Hi|Hi].
  - rewrite kfun_nth by exact Hi. rewrite nth_insU by lia.
    destruct (Nat.leb_spec i l); [rewrite kfun_nth by lia; reflexivity|].
    destruct (Nat.eqb_spec i (l + 1)); [reflexivity|]. rewrite kfun_nth by lia. reflexivity.
  - rewrite kfun_over by lia. rewrite nth_insU by lia. rewrite L.
    replace (length U + 1 - 1 <=? l)%nat with false by (symmetry; apply Nat.leb_gt; lia).
    replace (i <=? l)%nat with false by (symmetry; apply Nat.leb_gt; lia).
    replace (length U + 1 - 1 =? l + 1)%nat with false by (symmetry; apply Nat.eqb_neq; lia).
    replace (i =? l + 1)%nat with false by (symmetry; apply Nat.eqb_neq; lia).
    rewrite (kfun_over U (i - 1)) by lia. f_equal. lia.
Qed.

Lemma filter_count (l : list R) u : length (filter (fun x => Reqb x u) l) = count_occ Req_EM_T l u.
Proof.
  induction l as [|x l IH]; [reflexivity|]. cbn [filter count_occ]. unfold Reqb at 1.
  destruct (Req_EM_T x u); cbn [length]; rewrite IH; reflexivity.
Qed.

Lemma dcount_R p n U u : clamped p n U -> 0 < u < 1 -> @dcount RNum p n U u = mult U u.
Proof.
  intros C Hu. assert (L := cl_len _ _ _ C). assert (D := cl_deg _ _ _ C).
  unfold dcount. rn. rewrite filter_count. unfold mult.
  rewrite <- (firstn_skipn p U) at 2. rewrite count_occ_app.
  rewrite <- (firstn_skipn (n - p + 2) (skipn p U)) at 2. rewrite count_occ_app.
  rewrite (proj1 (count_occ_not_In Req_EM_T (firstn p U) u)).
  rewrite (proj1 (count_occ_not_In Req_EM_T (skipn (n - p + 2) (skipn p U)) u)). { lia. }
  - intros H. apply (In_nth _ _ 0) in H. destruct H as [i [Hi E]]. rewrite !skipn_length in Hi. rewrite skipn_skipn, nth_skipn in E.
    rewrite (cl_one _ _ _ C) in E by lia. lra.
  - intros H. apply (In_nth _ _ 0) in H. destruct H as [i [Hi E]]. rewrite firstn_length in Hi. rewrite nth_firstn in E by lia.
    rewrite (cl_zero _ _ _ C) in E by lia. lra.
Qed.

Lemma run_mult p n U a b : clamped p n U -> (a <= b < length U)%nat -> nth a U 0 = nth b U 0 -> (S (b - a) <= mult U (nth a U 0%R))%nat.
Proof.
  intros C H E. apply (count_occ_run U _ a). intros i Hi.
  rewrite (nth_error_nth' U 0) by lia. f_equal.
  assert (T1 := cl_sorted _ _ _ C a i ltac:(lia) ltac:(lia)). assert (T2 := cl_sorted _ _ _ C i b ltac:(lia) ltac:(lia)). lra.
Qed.

(** where the search for an insertion position ends *)
Lemma find_insert p n U u l : clamped p n U -> 0 < u < 1 -> @find_idx RNum (knots_of p U) u 0 CLeftOrEqual = Val l ->
  (p <= l <= n)%nat /\ nth l U 0 <= u /\
  (u <= nth (l + 1) U 0 \/ (p < l)%nat /\ nth l U 0 = nth (l + 1) U 0 /\ nth l U 0 < u).
Proof.
  intros C Hu E. assert (L := cl_len _ _ _ C). assert (D := cl_deg _ _ _ C).
  assert (F := @find_le_spec RNum False p n 0 U u ltac:(rn; lia) D ltac:(lia)). rewrite E in F. cbn [ok] in F.
  destruct F as [F1 [F2 [F3 F4]]]. rn. cbn [plus] in *. rewrite !Nat.sub_0_r in *.
  split; [exact F1|]. assert (G : nth l U 0 <= u).
  { destruct F2 as [->|F2]; [rewrite (cl_zero _ _ _ C) by lia; lra|]. apply Rleb_le. exact F2. }
  split; [exact G|]. destruct F3 as [F3|[F3|[F3 F5]]].
  - left. apply Rleb_gt in F3. lra.
  - left. subst l. rewrite (cl_one _ _ _ C) by lia. lra.
  - apply Reqb_eq in F5. destruct (Rle_lt_or_eq_dec _ _ G) as [G'|G'].
    + right. auto.
    + left. lra.
Qed.

Lemma find_insert_simple p n U u l : clamped p n U -> 0 < u < 1 -> simple_below U u ->
  @find_idx RNum (knots_of p U) u 0 CLeftOrEqual = Val l ->
  (p <= l <= n)%nat /\ nth l U 0 <= u <= nth (l + 1) U 0.
Proof.
  intros C Hu S E. assert (L := cl_len _ _ _ C).
  destruct (find_insert p n U u l C Hu E) as [F1 [F2 [F3|[F3 [F4 F5]]]]]; [auto|exfalso].
  assert (T := run_mult p n U l (l + 1) C ltac:(lia) F4).
  assert (I := cl_inner _ _ _ C l ltac:(lia) ltac:(lia)).
  specialize (S (nth l U 0) ltac:(lra)). lia.
Qed.

Lemma insU_clamped p n U l u : clamped p n U -> 0 < u < 1 -> (p <= l <= n)%nat -> nth l U 0 <= u <= nth (l + 1) U 0 ->
  clamped p (S n) (insU U l u).
Proof.
  intros C Hu Hl Hlu. assert (L := cl_len _ _ _ C). assert (D := cl_deg _ _ _ C).
  assert (LI := insU_length U l u ltac:(lia)).
  split.
  - lia.
  - rewrite LI. lia.
  - intros i j Hij Hj. rewrite LI in Hj. rewrite !nth_insU by lia.
    destruct (Nat.leb_spec i l), (Nat.leb_spec j l); try lia.
    + apply (cl_sorted _ _ _ C); lia.
    + destruct (Nat.eqb_spec j (l + 1)).
      * assert (T := cl_sorted _ _ _ C i l ltac:(lia) ltac:(lia)). lra.
      * apply (cl_sorted _ _ _ C); lia.
    + destruct (Nat.eqb_spec i (l + 1)), (Nat.eqb_spec j (l + 1)); try lia; try lra.
      * assert (T := cl_sorted _ _ _ C (l + 1) (j - 1) ltac:(lia) ltac:(lia)). lra.
      * apply (cl_sorted _ _ _ C); lia.
  - intros i Hi. rewrite nth_insU by lia. replace (i <=? l)%nat with true by (symmetry; apply Nat.leb_le; lia).
    apply (cl_zero _ _ _ C). lia.
  - intros i Hi Hi2. rewrite nth_insU by lia. replace (i <=? l)%nat with false by (symmetry; apply Nat.leb_gt; lia).
    replace (i =? l + 1)%nat with false by (symmetry; apply Nat.eqb_neq; lia). apply (cl_one _ _ _ C); lia.
  - intros i Hi Hi2. rewrite nth_insU by lia. destruct (Nat.leb_spec i l); [apply (cl_inner _ _ _ C); lia|].
    destruct (Nat.eqb_spec i (l + 1)); [exact Hu|]. apply (cl_inner _ _ _ C); lia.
Qed.

(** denominators of the point formula *)
Lemma insert_division p n U u l i : clamped p n U -> 0 < u < 1 -> (p <= l <= n)%nat -> (l - p < i <= l)%nat ->
  (forall x, 0 < x < 1 -> (mult U x <= p)%nat) -> nth i U 0 < nth (i + p) U 0.
Proof.
  intros C Hu Hl Hi Hm. assert (L := cl_len _ _ _ C). assert (D := cl_deg _ _ _ C).
  assert (S := cl_sorted _ _ _ C i (i + p) ltac:(lia) ltac:(lia)).
  destruct (Rle_lt_or_eq_dec _ _ S) as [S1|S1]; [exact S1|exfalso].
  destruct (le_lt_dec i p) as [Hip|Hip].
  { rewrite (cl_zero _ _ _ C i) in S1 by lia. destruct (le_lt_dec (i + p) n).
    - assert (I := cl_inner _ _ _ C (i + p)%nat ltac:(lia) ltac:(lia)). lra.
    - rewrite (cl_one _ _ _ C) in S1 by lia. lra. }
  assert (I := cl_inner _ _ _ C i ltac:(lia) ltac:(lia)).
  assert (T := run_mult p n U i (i + p) C ltac:(lia) S1). specialize (Hm _ I). lia.
Qed.

Lemma insert_division_simple p n U u l i : clamped p n U -> 0 < u < 1 -> (p <= l <= n)%nat -> (l - p < i <= l)%nat ->
  nth l U 0 <= u <= nth (l + 1) U 0 -> (mult U u <= p)%nat -> nth i U 0 < nth (i + p) U 0.
Proof.
  intros C Hu Hl Hi Hlu Hm. assert (L := cl_len _ _ _ C). assert (D := cl_deg _ _ _ C).
  assert (S := cl_sorted _ _ _ C i (i + p) ltac:(lia) ltac:(lia)).
  destruct (Rle_lt_or_eq_dec _ _ S) as [S1|S1]; [exact S1|exfalso].
  assert (S2 := cl_sorted _ _ _ C i l ltac:(lia) ltac:(lia)).
  assert (S3 := cl_sorted _ _ _ C (l + 1) (i + p) ltac:(lia) ltac:(lia)).
  assert (T := run_mult p n U i (i + p) C ltac:(lia) S1).
  assert (E : nth i U 0 = u) by lra. rewrite E in T. lia.
Qed.

(** the point formula over the reals *)
Definition insP (U : list R) (P : Mat RNum) (p l : nat) (u : R) (i d : nat) : R :=
  ins_coef (kfun U) l u p i * ent P i d + (1 - ins_coef (kfun U) l u p i) * ent P (i - 1) d.

Lemma insert_points_R (U : list R) (P P' : Mat RNum) dim p n l u : length U = (n + p + 2)%nat ->
  shape dim (S n) P -> (p <= l <= n)%nat -> (forall i, (l - p < i <= l)%nat -> nth i U 0 < nth (i + p) U 0) ->
  @insert_points RNum U P dim p l u = Val P' ->
  shape dim (S (S n)) P' /\ forall i d, (i <= S n)%nat -> (d < dim)%nat -> ent P' i d = insP U P p l u i d.
Proof.
  intros L HP Hl Hd E.
  destruct (@insert_points_val RNum U P dim p n l u (fun i => (u - nth i U 0) / (nth (i + p) U 0 - nth i U 0)) L HP Hl)
    as [P2 [E2 [SP HE]]].
  { intros i Hi. rn. apply Rdivm_val. specialize (Hd i Hi). lra. }
  rewrite E in E2. injection E2 as <-. split; [exact SP|]. intros i d Hi Hdd. rewrite HE by assumption.
  unfold insP, ins_coef. destruct (Nat.leb_spec i (l - p)) as [H1|H1].
  - destruct (Nat.leb_spec (i + p) l) as [H2|H2].
    + rn. lra.
    + assert (i = 0 /\ p = l /\ False)%nat by lia. tauto.
  - replace (i + p <=? l)%nat with false by (symmetry; apply Nat.leb_gt; lia).
    destruct (Nat.leb_spec i l), (Nat.ltb_spec l i); try lia.
    + specialize (Hd i ltac:(lia)). unfold ratio.
      rewrite !kfun_nth by (rn; lia). destruct (Req_EM_T (nth (i + p) U 0 - nth i U 0) 0); [lra|]. rn. lra.
    + rn. lra.
Qed.
