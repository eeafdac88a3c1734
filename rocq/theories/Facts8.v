(** * Splitting a curve *)

From Coq Require Import ZArith Reals List Bool Arith Lia Lra Permutation.
From Verif Require Import Num Vec MKnots MPoints MCurve RNum Hoare Lists Struct Spec BMath BMath2 BMath3 BMath4 BMath5 Api Bridge Facts1 Facts4 Facts5 Facts6 Facts7.
Import ListNotations.

(** ** the knot vectors of the parts, for every number system *)
Section Generic.
  Context {K : Num}.

  Lemma left_vector (U : list K) h u : h <= length U ->
    (src <- head U h;; v <- head_set (vzeros (h + 1)) h src;; vset v h u) = Val (firstn h U ++ [u]).
  Proof.
    intros H. rewrite head_val by exact H. cbn [bind]. unfold head_set.
    assert (L : length (firstn h U) = h) by (rewrite firstn_length; lia).
    rewrite segment_set_val by (rewrite ?vzeros_length; lia). cbn [bind firstn app].
    rewrite vset_val by (rewrite app_length, skipn_length, vzeros_length; lia). f_equal.
    unfold vzeros. replace (0 + h) with h by lia. replace (skipn h (repeat n0 (h + 1))) with [@n0 K].
    2:{ rewrite repeat_app. rewrite skipn_app, repeat_length, Nat.sub_diag. rewrite skipn_all2 by (rewrite repeat_length; lia). reflexivity. }
    rewrite <- L at 2. clear. induction (firstn h U) as [|x v IH]; [reflexivity|]. cbn [app length upd]. rewrite IH. reflexivity.
  Qed.

  Lemma right_vector (U : list K) h u : h <= length U ->
    (v <- vset (vzeros (length U - h + 1)) 0 u;; src <- tail U (length U - h);; tail_set v (length U - h) src)
    = Val (u :: skipn h U).
  Proof.
    intros H. rewrite vset_val by (rewrite vzeros_length; lia). cbn [bind]. rewrite tail_val by lia. cbn [bind].
    replace (length U - (length U - h)) with h by lia. unfold tail_set. rewrite upd_length, vzeros_length.
    rewrite usub_ok by lia. cbn [bind]. replace (length U - h + 1 - (length U - h)) with 1 by lia.
    rewrite segment_set_val by (rewrite ?upd_length, ?vzeros_length, ?skipn_length; lia). f_equal.
    replace (length U - h + 1) with (S (length U - h)) by lia. cbn [vzeros repeat upd firstn app]. f_equal.
    rewrite (skipn_all2 (n := 1 + (length U - h)) (u :: repeat n0 (length U - h))); [apply app_nil_r|]. cbn [length]. rewrite repeat_length. lia.
  Qed.

  Lemma part_cols_val len p b : p + 2 <= len -> part_cols len p b = Val (len - p - 1).
  Proof.
    intros H. unfold part_cols. destruct b; repeat (rewrite usub_ok by lia; cbn [bind]); f_equal; lia.
  Qed.

  Lemma split_left_val (U : list K) P p h u b norm : h <= length U -> 
    split_left U P p h u b norm =
      (V <- (if norm then vec_normalize (firstn h U ++ [u]) else Val (firstn h U ++ [u]));;
       cols <- part_cols (length V) p b;; P' <- mcolumns P 0 cols;; make_part p V P').
  Proof.
    intros H. unfold split_left. assert (T := left_vector U h u H).
    destruct (head U h) as [src| | |]; cbn [bind] in *; try discriminate.
    destruct (head_set (vzeros (h + 1)) h src) as [v| | |]; cbn [bind] in *; try discriminate.
    rewrite T. cbn [bind]. reflexivity.
  Qed.

  Lemma split_right_val (U : list K) P p h u b norm : h <= length U ->
    split_right U P p h u b norm =
      (V <- (if norm then vec_normalize (u :: skipn h U) else Val (u :: skipn h U));;
       cols <- part_cols (length V) p b;; s <- usub (ncols P) cols;; P' <- mcolumns P s cols;; make_part p V P').
  Proof.
    intros H. unfold split_right. rewrite usub_ok by exact H. cbn [bind]. assert (T := right_vector U h u H).
    destruct (vset (vzeros (length U - h + 1)) 0 u) as [v| | |]; cbn [bind] in *; try discriminate.
    destruct (tail U (length U - h)) as [src| | |]; cbn [bind] in *; try discriminate.
    rewrite T. cbn [bind]. reflexivity.
  Qed.

  Lemma fold_insert x : forall (c c' : Curve K) u a, insert_times c u x = Val (c', Ok tt) ->
    foldM (fun b (_ : nat) => let* (b', r) := insert b u in _ <- unwrap r;; Val b') (seq a x) c = Val c'.
  Proof.
    induction x as [|x IH]; intros c c' u a H.
    - injection H as <-. reflexivity.
    - cbn [insert_times seq foldM] in *. destruct (insert c u) as [[c1 [[]|e]]| | |]; cbn [bind unwrap] in *; try discriminate.
      apply IH. exact H.
  Qed.
End Generic.

Local Open Scope R_scope.

Lemma make_part_R p n dim U P : clamped p n U -> shape dim (S n) P ->
  exists c, @make_part RNum p U P = Val (Ok c) /\ clamped_curve p n dim U P c.
Proof.
  intros C S. destruct (built_ex p n dim U P (cl_deg _ _ _ C) (cl_len _ _ _ C) S) as [c B]. exists c.
  split; [|split; [exact C|split; assumption]]. destruct B as [kn [E1 E2]]. unfold make_part. rewrite E1. cbn [bind].
  rewrite E2. reflexivity.
Qed.

(** ** where the search ends *)
Lemma find_split p n U u l : clamped p n U -> 0 < u < 1 -> simple_below U u ->
  @find_idx RNum (knots_of p U) u 0 CLeftOrEqual = Val l ->
  (p <= l <= n)%nat /\ (nth l U 0 = u /\ (p < l)%nat /\ nth (l - 1) U 0 < u \/ nth l U 0 < u < nth (l + 1) U 0).
Proof.
  intros C Hu S E. assert (L := cl_len _ _ _ C). assert (D := cl_deg _ _ _ C).
  destruct (find_insert_simple p n U u l C Hu S E) as [Hl Hlu]. split; [exact Hl|].
  assert (F := @find_le_spec RNum False p n 0 U u ltac:(rn; lia) D ltac:(lia)). rewrite E in F. cbn [ok] in F.
  destruct F as [_ [_ [F3 F4]]]. rn. cbn [plus] in *. rewrite !Nat.sub_0_r in *.
  destruct (Req_dec (nth l U 0) u) as [El|El].
  - left. split; [exact El|]. assert (Hpl : (p < l)%nat).
    { destruct (Nat.eq_dec l p) as [->|]; [|lia]. rewrite (cl_zero _ _ _ C) in El by lia. lra. }
    split; [exact Hpl|]. assert (T := cl_sorted _ _ _ C (l - 1) l ltac:(lia) ltac:(lia)).
    destruct (Req_dec (nth (l - 1) U 0) u) as [E1|E1]; [exfalso|lra].
    assert (Hp1 : (p < l - 1)%nat).
    { destruct (Nat.eq_dec (l - 1) p) as [E2|]; [|lia]. rewrite E2, (cl_zero _ _ _ C) in E1 by lia. lra. }
    assert (F := F4 (l - 1)%nat ltac:(lia)). replace (l - 1 + 1)%nat with l in F by lia. apply Reqb_neq in F. lra.
  - right. split; [lra|]. destruct (Req_dec (nth (l + 1) U 0) u) as [E1|E1]; [exfalso|lra].
    destruct F3 as [F3|[F3|[F3 F5]]].
    + apply Rleb_gt in F3. lra.
    + subst l. rewrite (cl_one _ _ _ C) in E1 by lia. lra.
    + apply Reqb_eq in F5. lra.
Qed.

Lemma take_while_sorted (w : list R) u : sorted w -> (forall x, In x w -> u <= x) ->
  @take_while_count RNum u w = count_occ Req_EM_T w u.
Proof.
  induction w as [|x w IH]; intros S H; [reflexivity|]. cbn [take_while_count count_occ]. rn. unfold Reqb.
  destruct (Req_EM_T x u) as [E|E].
  - rewrite IH; [reflexivity|apply (sorted_tail x); exact S|]. intros y Hy. apply H. right. exact Hy.
  - symmetry. apply count_occ_not_In. intros Hi. assert (T := sorted_head x w u S Hi). specialize (H x ltac:(left; reflexivity)). lra.
Qed.

Lemma count_below (w : list R) u : (forall x, In x w -> x < u) -> count_occ Req_EM_T w u = 0%nat.
Proof. intros H. apply count_occ_not_In. intros Hi. specialize (H u Hi). lra. Qed.

Lemma count_above (w : list R) u : (forall x, In x w -> u < x) -> count_occ Req_EM_T w u = 0%nat.
Proof. intros H. apply count_occ_not_In. intros Hi. specialize (H u Hi). lra. Qed.

Lemma sorted_skipn (U : list R) h : sorted U -> sorted (skipn h U).
Proof. intros S i j Hij Hj. rewrite skipn_length in Hj. rewrite !nth_skipn. apply S; lia. Qed.
Lemma In_skipn_nth (U : list R) h x : In x (skipn h U) -> exists i, (h <= i < length U)%nat /\ x = nth i U 0.
Proof.
  intros H. apply (In_nth _ _ 0) in H. destruct H as [i [Hi E]]. rewrite skipn_length in Hi. rewrite nth_skipn in E.
  exists (h + i)%nat. split; [lia|]. congruence.
Qed.
Lemma In_firstn_nth (U : list R) h x : In x (firstn h U) -> exists i, (i < h)%nat /\ (i < length U)%nat /\ x = nth i U 0.
Proof.
  intros H. apply (In_nth _ _ 0) in H. destruct H as [i [Hi E]]. rewrite firstn_length in Hi. rewrite nth_firstn in E by lia.
  exists i. split; [lia|]. split; [lia|congruence].
Qed.

(** [h] separates the knots below [u] from the others *)
Definition sep (U : list R) (u : R) (h : nat) : Prop :=
  (forall i, (i < h)%nat -> nth i U 0 < u) /\ (forall i, (h <= i < length U)%nat -> u <= nth i U 0).

Lemma sep_mult (U : list R) u h : sorted U -> (h <= length U)%nat -> sep U u h ->
  @take_while_count RNum u (skipn h U) = mult U u.
Proof.
  intros S Hh [H1 H2]. unfold mult. rewrite <- (firstn_skipn h U) at 2. rewrite count_occ_app.
  rewrite (count_below (firstn h U)).
  - cbn [plus]. apply take_while_sorted; [apply sorted_skipn; exact S|].
    intros x Hx. apply In_skipn_nth in Hx. destruct Hx as [i [Hi ->]]. apply H2. exact Hi.
  - intros x Hx. apply In_firstn_nth in Hx. destruct Hx as [i [Hi [_ ->]]]. apply H1. exact Hi.
Qed.

(** the run of [u] starts at [h] and has length [mult U u] *)
Lemma sep_run (U : list R) u : forall h, sorted U -> (h <= length U)%nat -> sep U u h ->
  (h + mult U u <= length U)%nat /\ (forall i, (h <= i < h + mult U u)%nat -> nth i U 0 = u) /\
  (forall i, (h + mult U u <= i < length U)%nat -> u < nth i U 0).
Proof.
  intros h S Hh Hs. rewrite <- (sep_mult U u h S Hh Hs). destruct Hs as [_ H2].
  assert (T : forall w, sorted w -> (forall x, In x w -> u <= x) -> (@take_while_count RNum u w <= length w)%nat /\
     (forall i, (i < @take_while_count RNum u w)%nat -> nth i w 0 = u) /\
     (forall i, (@take_while_count RNum u w <= i < length w)%nat -> u < nth i w 0)).
  { induction w as [|x w IH]; intros Sw Hw.
    - split; [apply le_n|]. split; intros i Hi; simpl in Hi; lia.
    - cbn [take_while_count]. rn. unfold Reqb. destruct (Req_EM_T x u) as [->|E].
      + destruct IH as [I1 [I2 I3]]; [apply (sorted_tail u); exact Sw|intros; apply Hw; right; assumption|].
        cbn [length]. split; [lia|]. split.
        * intros [|i] Hi; [reflexivity|]. apply I2. lia.
        * intros [|i] Hi; [lia|]. apply I3. lia.
      + cbn [length]. split; [lia|]. split; [intros i Hi; lia|]. intros i Hi.
        assert (T := Sw 0%nat i ltac:(lia) ltac:(cbn [length]; lia)). change (nth 0 (x :: w) 0) with x in T.
        specialize (Hw x ltac:(left; reflexivity)). lra. }
  destruct (T (skipn h U)) as [T1 [T2 T3]].
  - apply sorted_skipn. exact S.
  - intros x Hx. apply In_skipn_nth in Hx. destruct Hx as [i [Hi ->]]. apply H2. exact Hi.
  - rewrite skipn_length in *. split; [lia|]. split; intros i Hi.
    + specialize (T2 (i - h)%nat ltac:(lia)). rewrite nth_skipn in T2. replace (h + (i - h))%nat with i in T2 by lia. exact T2.
    + specialize (T3 (i - h)%nat ltac:(lia)). rewrite nth_skipn in T3. replace (h + (i - h))%nat with i in T3 by lia. exact T3.
Qed.

(** inserting [r] more copies of [u] at the separating position *)
Definition ins_many (U : list R) (h r : nat) (u : R) : list R := firstn h U ++ repeat u r ++ skipn h U.

Lemma nth_ins_many U h r u i : (h <= length U)%nat ->
  nth i (ins_many U h r u) 0 = if (i <? h)%nat then nth i U 0 else if (i <? h + r)%nat then u else nth (i - r) U 0.
Proof.
  intros Hh. unfold ins_many. assert (L : length (firstn h U) = h) by (rewrite firstn_length; lia).
  destruct (Nat.ltb_spec i h).
  - rewrite app_nth1 by lia. apply nth_firstn. lia.
  - rewrite app_nth2 by lia. rewrite L. destruct (Nat.ltb_spec i (h + r)).
    + rewrite app_nth1 by (rewrite repeat_length; lia). rewrite (nth_indep _ 0 u) by (rewrite repeat_length; lia). apply nth_repeat.
    + rewrite app_nth2 by (rewrite repeat_length; lia). rewrite repeat_length, nth_skipn. f_equal. lia.
Qed.

Lemma ins_many_length U h r u : (h <= length U)%nat -> length (ins_many U h r u) = (length U + r)%nat.
Proof. intros H. unfold ins_many. rewrite !app_length, firstn_length, repeat_length, skipn_length. lia. Qed.

Lemma ins_many_sorted U h r u : (h <= length U)%nat -> sorted U -> sep U u h -> sorted (ins_many U h r u).
Proof.
  intros Hh S [H1 H2] i j Hij Hj. rewrite ins_many_length in Hj by exact Hh. rewrite !nth_ins_many by exact Hh.
  destruct (Nat.ltb_spec i h), (Nat.ltb_spec j h), (Nat.ltb_spec i (h + r)), (Nat.ltb_spec j (h + r)); try lia; try lra.
  - apply S; lia.
  - apply Rlt_le. apply H1. lia.
  - apply S; lia.
  - apply H2. lia.
  - apply S; lia.
Qed.

Lemma ins_many_perm U h r u : Permutation (repeat u r ++ U) (ins_many U h r u).
Proof.
  unfold ins_many. rewrite <- (firstn_skipn h U) at 1. rewrite !app_assoc. apply Permutation_app_tail. apply Permutation_app_comm.
Qed.

Lemma clamped_of_fclamped p n (U : list R) : length U = (n + p + 2)%nat -> fclamped p n (kfun U) -> clamped p n U.
Proof.
  intros L F. split.
  - apply (fc_deg _ _ _ F).
  - exact L.
  - intros i j Hij Hj. rewrite <- !kfun_nth by lia. apply (fc_mono _ _ _ F). exact Hij.
  - intros i Hi. assert (D := fc_deg _ _ _ F). rewrite <- kfun_nth by lia. apply (fc_zero _ _ _ F). exact Hi.
  - intros i Hi Hj. rewrite <- kfun_nth by lia. apply (fc_one _ _ _ F). lia.
  - intros i Hi Hj. rewrite <- kfun_nth by lia. apply (fc_inner _ _ _ F). lia.
Qed.

(** ** the two parts of a curve whose knots are [u] at the [p] places from [h] on *)
Section Parts.
  Variables (p n dim : nat) (V : list R) (P : Mat RNum) (u : R) (h : nat).
  Hypothesis C : clamped p n V.
  Hypothesis HP : shape dim (S n) P.
  Hypothesis Hu : 0 < u < 1.
  Hypothesis Hph : (p < h)%nat.
  Hypothesis Hhn : (h + p <= n + 1)%nat.
  Hypothesis Hlo : forall i, (i < h)%nat -> nth i V 0 < u.
  Hypothesis Hrun : forall i, (h <= i < h + p)%nat -> nth i V 0 = u.
  Hypothesis Hhi : forall i, (h + p <= i < length V)%nat -> u < nth i V 0.

  Let L := map (fun x => x / u) (firstn (h + p) V ++ [u]).
  Let Rt := map (fun x => (x - u) / (1 - u)) (u :: skipn h V).

  Lemma VL : length V = (n + p + 2)%nat. Proof. apply C. Qed.
  Lemma L_len : length L = (h + p + 1)%nat.
  Proof. assert (T := VL). unfold L. rewrite map_length, app_length, firstn_length. simpl. lia. Qed.
  Lemma R_len : length Rt = (n + p + 3 - h)%nat.
  Proof. assert (T := VL). unfold Rt. rewrite map_length. cbn [length]. rewrite skipn_length. lia. Qed.

  Lemma L_nth i : (i <= h + p)%nat -> nth i L 0 = (if (i =? h + p)%nat then u else nth i V 0) / u.
  Proof.
    intros Hi. assert (T := VL). unfold L. rewrite (nth_indep _ 0 (0 / u)) by (rewrite map_length, app_length, firstn_length; simpl; lia).
    rewrite (map_nth (fun x => x / u)). f_equal. destruct (Nat.eqb_spec i (h + p)) as [->|Hne].
    - rewrite app_nth2 by (rewrite firstn_length; lia). rewrite firstn_length, Nat.min_l by lia. rewrite Nat.sub_diag. reflexivity.
    - rewrite app_nth1 by (rewrite firstn_length; lia). apply nth_firstn. lia.
  Qed.
  Lemma R_nth i : (i < n + p + 3 - h)%nat -> nth i Rt 0 = ((if (i =? 0)%nat then u else nth (h - 1 + i) V 0) - u) / (1 - u).
  Proof.
    intros Hi. assert (T := VL). unfold Rt. rewrite (nth_indep _ 0 ((0 - u) / (1 - u))) by (rewrite map_length; cbn [length]; rewrite skipn_length; lia).
    rewrite (map_nth (fun x => (x - u) / (1 - u))). do 2 f_equal. destruct i as [|i]; [reflexivity|].
    cbn [nth Nat.eqb]. rewrite nth_skipn. f_equal. lia.
  Qed.

  Lemma FC : fclamped p n (kfun V). Proof. apply kfun_clamped. exact C. Qed.
  Lemma F1 : kfun V (h - 1) < u.
  Proof. assert (T := VL). rewrite kfun_nth by lia. apply Hlo. lia. Qed.
  Lemma F2 i : (h - 1 < i <= h - 1 + p)%nat -> kfun V i = u.
  Proof. intros Hi. assert (T := VL). rewrite kfun_nth by lia. apply Hrun. lia. Qed.
  Lemma F3 : u < kfun V (S (h - 1 + p)).
  Proof. assert (T := VL). rewrite kfun_nth by lia. apply Hhi. lia. Qed.
  Lemma F4 : (p <= h - 1 /\ h - 1 + p <= n)%nat. Proof. lia. Qed.

  Lemma HL i : (i <= h - 1 + p)%nat -> kfun L i = kfun V i / u.
  Proof.
    intros Hi. assert (T := VL). assert (T2 := L_len). rewrite !kfun_nth by lia. rewrite L_nth by lia.
    destruct (Nat.eqb_spec i (h + p)); [lia|reflexivity].
  Qed.
  Lemma HL1 i : (h - 1 + p < i)%nat -> kfun L i = 1.
  Proof.
    intros Hi. assert (T2 := L_len). assert (E : nth (h + p) L 0 = 1).
    { rewrite L_nth by lia. rewrite Nat.eqb_refl. field. lra. }
    destruct (lt_dec i (length L)).
    - rewrite kfun_nth by lia. replace i with (h + p)%nat by lia. exact E.
    - rewrite kfun_over by lia. replace (length L - 1)%nat with (h + p)%nat by lia. exact E.
  Qed.
  Lemma HR0 : kfun Rt 0%nat = 0.
  Proof. assert (T2 := R_len). rewrite kfun_nth by lia. rewrite R_nth by lia. cbn [Nat.eqb]. unfold Rdiv. ring. Qed.
  Lemma HR i : (1 <= i)%nat -> kfun Rt i = (kfun V (h - 1 + i) - u) / (1 - u).
  Proof.
    intros Hi. assert (T := VL). assert (T2 := R_len). destruct (lt_dec i (length Rt)).
    - rewrite !kfun_nth by lia. rewrite R_nth by lia. destruct i; [lia|reflexivity].
    - rewrite !kfun_over by lia. rewrite R_nth by lia.
      replace (length Rt - 1 =? 0)%nat with false by (symmetry; apply Nat.eqb_neq; lia).
      replace (h - 1 + (length Rt - 1))%nat with (length V - 1)%nat by lia. reflexivity.
  Qed.

  Lemma L_clamped : clamped p (h - 1) L.
  Proof.
    apply clamped_of_fclamped; [rewrite L_len; lia|].
    exact (split_left_clamped p n (kfun V) FC (h - 1) u Hu F1 F2 F4 (kfun L) HL HL1).
  Qed.
  Lemma R_clamped : clamped p (n - (h - 1)) Rt.
  Proof.
    apply clamped_of_fclamped; [rewrite R_len; lia|].
    exact (split_right_clamped p n (kfun V) FC (h - 1) u Hu F2 F3 F4 (kfun Rt) HR0 HR).
  Qed.

  Lemma L_spline Q t : 0 <= t <= 1 -> spline (kfun L) (h - 1) p Q t = spline (kfun V) n p Q (t * u).
  Proof. exact (split_left_spline p n (kfun V) FC (h - 1) u Hu F1 F2 F3 F4 (kfun L) HL HL1 Q t). Qed.
  Lemma R_spline Q t : 0 <= t <= 1 ->
    spline (kfun Rt) (n - (h - 1)) p (fun i => Q (h - 1 + i)%nat) t = spline (kfun V) n p Q (u + t * (1 - u)).
  Proof. exact (split_right_spline p n (kfun V) FC (h - 1) u Hu F1 F2 F3 F4 (kfun Rt) HR0 HR Q t). Qed.

  Lemma left_sorted : sorted (firstn (h + p) V ++ [u]).
  Proof.
    intros i j Hij Hj. assert (T := VL). rewrite app_length, firstn_length in Hj. simpl in Hj.
    assert (G : forall k, (k <= h + p)%nat -> nth k (firstn (h + p) V ++ [u]) 0 = if (k =? h + p)%nat then u else nth k V 0).
    { intros k Hk. destruct (Nat.eqb_spec k (h + p)) as [->|Hne].
      - rewrite app_nth2 by (rewrite firstn_length; lia). rewrite firstn_length, Nat.min_l by lia. rewrite Nat.sub_diag. reflexivity.
      - rewrite app_nth1 by (rewrite firstn_length; lia). apply nth_firstn. lia. }
    rewrite !G by lia. destruct (Nat.eqb_spec i (h + p)), (Nat.eqb_spec j (h + p)); try lia; try lra.
    - destruct (lt_dec i h); [apply Rlt_le, Hlo; lia|]. right. apply Hrun. lia.
    - apply (cl_sorted _ _ _ C); lia.
  Qed.
  Lemma right_sorted : sorted (u :: skipn h V).
  Proof.
    intros i j Hij Hj. assert (T := VL). cbn [length] in Hj. rewrite skipn_length in Hj.
    destruct i as [|i], j as [|j]; try lia; cbn [nth]; try lra.
    - rewrite nth_skipn. destruct (lt_dec (h + j) (h + p)); [right; symmetry; apply Hrun; lia|]. apply Rlt_le, Hhi. lia.
    - rewrite !nth_skipn. apply (cl_sorted _ _ _ C); lia.
  Qed.

  Lemma left_normal : @vec_normalize RNum (firstn (h + p) V ++ [u]) = Val L.
  Proof.
    assert (T := VL). assert (Len : length (firstn (h + p) V ++ [u]) = (h + p + 1)%nat) by (rewrite app_length, firstn_length; simpl; lia).
    assert (Mi := sorted_min _ left_sorted ltac:(lia)). assert (Ma := sorted_max _ left_sorted ltac:(lia)).
    rewrite Len in Ma. replace (h + p + 1 - 1)%nat with (h + p)%nat in Ma by lia.
    rewrite app_nth1 in Mi by (rewrite firstn_length; lia). rewrite nth_firstn in Mi by lia. rewrite (cl_zero _ _ _ C) in Mi by lia.
    rewrite app_nth2 in Ma by (rewrite firstn_length; lia). rewrite firstn_length, Nat.min_l, Nat.sub_diag in Ma by lia. cbn [nth] in Ma.
    rewrite vec_normalize_R by lra. rewrite Mi, Ma. f_equal. apply map_ext. intros x. rewrite !Rminus_0_r. reflexivity.
  Qed.
  Lemma right_normal : @vec_normalize RNum (u :: skipn h V) = Val Rt.
  Proof.
    assert (T := VL). assert (Len : length (u :: skipn h V) = (n + p + 3 - h)%nat) by (cbn [length]; rewrite skipn_length; lia).
    assert (Mi := sorted_min _ right_sorted ltac:(lia)). assert (Ma := sorted_max _ right_sorted ltac:(lia)).
    rewrite Len in Ma. replace (n + p + 3 - h - 1)%nat with (S (n + p + 1 - h)) in Ma by lia. cbn [nth] in Mi, Ma.
    rewrite nth_skipn in Ma. rewrite (cl_one _ _ _ C) in Ma by lia.
    rewrite vec_normalize_R by lra. rewrite Mi, Ma. reflexivity.
  Qed.

  Let PL := mkMat dim (firstn h (skipn 0 (mcols P))).
  Let PR := mkMat dim (firstn (n + 2 - h) (skipn (h - 1) (mcols P))).

  Lemma parts b : exists cl cr,
    @split_left RNum V P p (h + p) u b true = Val (Ok cl) /\ clamped_curve p (h - 1) dim L PL cl /\
    @split_right RNum V P p h u b true = Val (Ok cr) /\ clamped_curve p (n - (h - 1)) dim Rt PR cr.
  Proof.
    assert (T := VL). assert (TL := L_len). assert (TR := R_len).
    assert (SL : shape dim (S (h - 1)) PL).
    { replace (S (h - 1)) with h by lia. apply (mcolumns_shape P dim (S n)); [exact HP|lia]. }
    assert (SR : shape dim (S (n - (h - 1))) PR).
    { replace (S (n - (h - 1))) with (n + 2 - h)%nat by lia. apply (mcolumns_shape P dim (S n)); [exact HP|lia]. }
    destruct (make_part_R p (h - 1) dim L PL L_clamped SL) as [cl [EL HcL]].
    destruct (make_part_R p (n - (h - 1)) dim Rt PR R_clamped SR) as [cr [ER HcR]].
    exists cl, cr. split; [|split; [exact HcL|split; [|exact HcR]]].
    - rewrite split_left_val by (rn; lia). rn. rewrite left_normal. cbn [bind].
      rewrite part_cols_val by (rn; lia). cbn [bind]. rn. rewrite TL. replace (h + p + 1 - p - 1)%nat with h by lia.
      rewrite (@mcolumns_val RNum P dim (S n)) by (try assumption; lia). cbn [bind]. exact EL.
    - rewrite split_right_val by (rn; lia). rn. rewrite right_normal. cbn [bind].
      rewrite part_cols_val by (rn; lia). cbn [bind]. rn. rewrite TR. replace (n + p + 3 - h - p - 1)%nat with (n + 2 - h)%nat by lia.
      unfold ncols. rewrite (proj1 (proj2 HP)). rewrite usub_ok by lia. cbn [bind].
      replace (S n - (n + 2 - h))%nat with (h - 1)%nat by lia.
      rewrite (@mcolumns_val RNum P dim (S n)) by (try assumption; lia). cbn [bind]. exact ER.
  Qed.

  Lemma ent_PL i d : (i < h)%nat -> ent PL i d = ent P i d.
  Proof. intros Hi. unfold PL. rewrite ent_columns by exact Hi. reflexivity. Qed.
  Lemma ent_PR i d : (i < n + 2 - h)%nat -> ent PR i d = ent P (h - 1 + i) d.
  Proof. intros Hi. unfold PR. rewrite ent_columns by exact Hi. reflexivity. Qed.

  Lemma PL_spline d t : 0 <= t <= 1 ->
    spline (kfun L) (h - 1) p (fun i => ent PL i d) t = spline (kfun V) n p (fun i => ent P i d) (t * u).
  Proof.
    intros Ht. rewrite <- L_spline by exact Ht. unfold spline. apply rsum_ext. intros i Hi. rewrite ent_PL by lia. reflexivity.
  Qed.
  Lemma PR_spline d t : 0 <= t <= 1 ->
    spline (kfun Rt) (n - (h - 1)) p (fun i => ent PR i d) t = spline (kfun V) n p (fun i => ent P i d) (u + t * (1 - u)).
  Proof.
    intros Ht. rewrite <- R_spline by exact Ht. unfold spline. apply rsum_ext. intros i Hi. rewrite ent_PR by lia. reflexivity.
  Qed.
End Parts.

(** ** split(u) *)
Lemma reparam_same p n m dim U P V Q c c' a b : clamped_curve p n dim U P c -> clamped_curve p m dim V Q c' ->
  0 < a -> 0 <= b -> a + b <= 1 ->
  (forall d t, (d < dim)%nat -> 0 <= t <= 1 ->
     spline (kfun V) m p (fun i => ent Q i d) t = spline (kfun U) n p (fun i => ent P i d) (a * t + b)) ->
  forall t, 0 <= t <= 1 ->
    evaluate c' t = evaluate c (a * t + b) /\
    forall k, (k <= p)%nat ->
    exists x y, evaluate_derivative c (a * t + b) k = Val (Ok x) /\ evaluate_derivative c' t k = Val (Ok y) /\
      length x = dim /\ length y = dim /\
      ((t = 1 -> a + b < 1 -> (mult U (a + b) <= p - k)%nat) -> forall d, (d < dim)%nat -> nth d y 0 = a ^ k * nth d x 0).
Proof.
  intros H H' Ha Hb Hab E t Ht.
  assert (Im := img a b Ha Hb Hab t Ht).
  split.
  - apply (returns_eq _ _ dim (fun d => spline (kfun U) n p (fun i => ent P i d) (a * t + b))).
    + eapply returns_ext; [apply (cc_eval0 p m dim V Q c' t H' Ht)|]. intros d Hd. apply E; assumption.
    + apply (cc_eval0 p n dim U P c (a * t + b) H). exact Im.
  - intros k Hk. destruct (cc_eval p n dim U P c (a * t + b) k H Im Hk) as [x [Ex [Lx Nx]]].
    destruct (cc_eval p m dim V Q c' t k H' Ht Hk) as [y [Ey [Ly Ny]]].
    exists x, y. repeat (split; [assumption|]). intros Hm d Hd. rewrite Nx, Ny by exact Hd.
    assert (CU := kfun_clamped p n U (proj1 H)). assert (CV := kfun_clamped p m V (proj1 H')).
    destruct (Req_dec t 1) as [->|Hne].
    + rewrite Rmult_1_r. apply (reparam_dspline_end p n m (kfun U) (kfun V)); try assumption.
      * intros s Hs. apply E; assumption.
      * intros Hl. apply (mult_mult_le p n); [apply H|lra|auto].
    + apply (reparam_dspline p n m (kfun U) (kfun V)); try assumption; [|lra].
      intros s Hs. apply E; [assumption|lra].
Qed.

Lemma same_function_spline p n m dim U V P Q c c' :
  clamped_curve p n dim U P c -> clamped_curve p m dim V Q c' -> same_function c c' ->
  forall d u, (d < dim)%nat -> 0 <= u <= 1 ->
  spline (kfun V) m p (fun i => ent Q i d) u = spline (kfun U) n p (fun i => ent P i d) u.
Proof.
  intros H H' S d u Hd Hu. destruct (cc_eval0 p n dim U P c u H Hu) as [x [Ex [_ Nx]]].
  destruct (cc_eval0 p m dim V Q c' u H' Hu) as [y [Ey [_ Ny]]]. rewrite <- Nx, <- Ny by exact Hd.
  assert (E := S u 0%nat). unfold evaluate in *. rewrite Ex, Ey in E. injection E as ->. reflexivity.
Qed.

Lemma clamped_sorted' p n U : clamped p n U -> sorted U.
Proof. intros C i j Hij Hj. apply (cl_sorted _ _ _ C); assumption. Qed.

Lemma split_sep p n U u l : clamped p n U -> 0 < u < 1 -> simple_below U u ->
  @find_idx RNum (knots_of p U) u 0 CLeftOrEqual = Val l ->
  let m := mult U u in let h := if (0 <? m)%nat then l else (l + 1)%nat in
  @take_while_count RNum u (skipn l U) = m /\ (p < h <= n + 1)%nat /\ sep U u h.
Proof.
  intros C Hu Hs E m h. destruct (find_split p n U u l C Hu Hs E) as [Hl [[El [Hpl Hlo]]|[Hlo Hhi]]].
  - assert (L := cl_len _ _ _ C). assert (S := clamped_sorted' _ _ _ C).
    assert (Hsep : sep U u l).
    { split; intros i Hi.
      - apply Rle_lt_trans with (nth (l - 1) U 0); [apply S; lia|exact Hlo].
      - rewrite <- El. apply S; lia. }
    assert (Em := sep_mult U u l S ltac:(lia) Hsep). fold m in Em. split; [exact Em|].
    assert (Hm : (0 < m)%nat).
    { unfold m, mult. rewrite <- (firstn_skipn l U), count_occ_app. apply Nat.lt_lt_add_l.
      apply count_occ_In. rewrite <- El. replace l with (l + 0)%nat at 1 by lia. rewrite <- nth_skipn. apply nth_In.
      rewrite skipn_length. lia. }
    unfold h. replace (0 <? m)%nat with true by (symmetry; apply Nat.ltb_lt; exact Hm). split; [lia|exact Hsep].
  - assert (L := cl_len _ _ _ C). assert (S := clamped_sorted' _ _ _ C).
    assert (Hsep : sep U u (l + 1)).
    { split; intros i Hi.
      - apply Rle_lt_trans with (nth l U 0); [apply S; lia|exact Hlo].
      - apply Rlt_le. apply Rlt_le_trans with (nth (l + 1) U 0); [exact Hhi|apply S; lia]. }
    assert (Em : m = 0%nat).
    { destruct (sep_run U u (l + 1) S ltac:(lia) Hsep) as [_ [Hr _]]. fold m in Hr. destruct m as [|m']; [reflexivity|].
      exfalso. specialize (Hr (l + 1)%nat ltac:(lia)). lra. }
    unfold h. rewrite Em. cbn [Nat.ltb Nat.leb]. split; [|split; [lia|exact Hsep]].
    assert (Es : exists r, skipn l U = nth l U 0 :: r).
    { exists (skipn (l + 1) U). rewrite <- (firstn_skipn 1 (skipn l U)), skipn_skipn. replace (1 + l)%nat with (l + 1)%nat by lia.
      change (nth l U 0 :: skipn (l + 1) U) with ([nth l U 0] ++ skipn (l + 1) U). f_equal.
      destruct (skipn l U) as [|x r] eqn:Ex; [assert (T := skipn_length l U); rewrite Ex in T; simpl in T; lia|].
      replace (nth l U 0) with (nth 0 (skipn l U) 0) by (rewrite nth_skipn; f_equal; lia). rewrite Ex. reflexivity. }
    destruct Es as [r Er]. rewrite Er. cbn [take_while_count]. rn. unfold Reqb. destruct (Req_EM_T (nth l U 0) u); [lra|reflexivity].
Qed.

Theorem split_exact p n dim U P c u : clamped_curve p n dim U P c -> 0 < u < 1 -> (mult U u <= p)%nat -> simple_below U u ->
  exists cl cr nl nr Ul Pl Ur Pr, @split RNum c u = Val (Ok (cl, cr)) /\
    clamped_curve p nl dim Ul Pl cl /\ clamped_curve p nr dim Ur Pr cr /\ (nl + nr = n + p - mult U u)%nat /\
    forall t, 0 <= t <= 1 ->
      (evaluate cl t = evaluate c (t * u) /\ evaluate cr t = evaluate c (u + t * (1 - u))) /\
      forall k, (k <= p)%nat ->
      exists x y xr yr,
        evaluate_derivative c (t * u) k = Val (Ok x) /\ evaluate_derivative cl t k = Val (Ok y) /\
        evaluate_derivative c (u + t * (1 - u)) k = Val (Ok xr) /\ evaluate_derivative cr t k = Val (Ok yr) /\
        length x = dim /\ length y = dim /\ length xr = dim /\ length yr = dim /\
        forall d, (d < dim)%nat -> ((t = 1 -> (mult U u <= p - k)%nat) -> nth d y 0 = u ^ k * nth d x 0) /\ nth d yr 0 = (1 - u) ^ k * nth d xr 0.
Proof.
  intros H Hu Hm Hs. assert (C : clamped p n U) by apply H. assert (Len := cl_len _ _ _ C). assert (D := cl_deg _ _ _ C).
  assert (W := proj1 (cc_wf _ _ _ _ _ _ H)).
  set (m := mult U u) in *.
  destruct (insert_times_exact (p - m) p n dim U P c u H Hu ltac:(fold m; lia) Hs) as [c1 [V [Q [E1 [H1 [Pe Sf]]]]]].
  assert (CV : clamped p (n + (p - m)) V) by apply H1. assert (LenV := cl_len _ _ _ CV).
  assert (F := @find_le_spec RNum False p n 0 U u ltac:(rn; lia) D ltac:(lia)). apply ok_val_ex in F. destruct F as [l [F _]].
  destruct (split_sep p n U u l C Hu Hs F) as [Ew [Hh Hsep]]. fold m in Ew, Hh, Hsep.
  set (h := if (0 <? m)%nat then l else (l + 1)%nat) in *.
  assert (SU := clamped_sorted' _ _ _ C).
  assert (EV : V = ins_many U h (p - m) u).
  { apply sorted_perm_eq; [apply (clamped_sorted' _ _ _ CV)|apply ins_many_sorted; try assumption; lia|].
    eapply Permutation_trans; [apply Permutation_sym; exact Pe|apply ins_many_perm]. }
  destruct (sep_run U u h SU ltac:(lia) Hsep) as [R1 [R2 R3]]. fold m in R1, R2, R3.
  assert (Hhn : (h + m <= n + 1)%nat).
  { destruct (le_lt_dec (h + m) (n + 1)); [assumption|exfalso].
    specialize (R2 (n + 1)%nat). destruct (le_lt_dec h (n + 1)); [|lia].
    rewrite (cl_one _ _ _ C) in R2 by lia. specialize (R2 ltac:(lia)). lra. }
  assert (NV : forall i, nth i V 0 = if (i <? h)%nat then nth i U 0 else if (i <? h + (p - m))%nat then u else nth (i - (p - m)) U 0).
  { intros i. rewrite EV. apply nth_ins_many. lia. }
  assert (V1 : forall i, (i < h)%nat -> nth i V 0 < u).
  { intros i Hi. rewrite NV. replace (i <? h)%nat with true by (symmetry; apply Nat.ltb_lt; lia). apply (proj1 Hsep). exact Hi. }
  assert (V2 : forall i, (h <= i < h + p)%nat -> nth i V 0 = u).
  { intros i Hi. rewrite NV. replace (i <? h)%nat with false by (symmetry; apply Nat.ltb_ge; lia).
    destruct (Nat.ltb_spec i (h + (p - m))); [reflexivity|]. apply R2. lia. }
  assert (V3 : forall i, (h + p <= i < length V)%nat -> u < nth i V 0).
  { intros i Hi. rewrite NV. replace (i <? h)%nat with false by (symmetry; apply Nat.ltb_ge; lia).
    replace (i <? h + (p - m))%nat with false by (symmetry; apply Nat.ltb_ge; lia). apply R3. lia. }
  destruct (parts p (n + (p - m)) dim V Q u h CV (proj1 (proj2 H1)) Hu ltac:(lia) ltac:(lia) V1 V2 V3 (0 <? m)%nat)
    as [cl [cr [EL [HL' [ER HR']]]]].
  exists cl, cr, (h - 1)%nat, (n + (p - m) - (h - 1))%nat. do 4 eexists.
  split; [|split; [exact HL'|split; [exact HR'|split; [lia|]]]].
  - unfold split, split_and_normalize. rewrite (open_R u Hu). unfold degree. rewrite (wf_knots _ _ _ _ _ _ W). cbn [kdegree kp knots_of].
    fold (knots_of p U). change (@knots_of RNum p U) with (@knots_of RNum p U). rewrite F. cbn [bind].
    rewrite (@knots_of_vector RNum p U). cbn [bind].
    change (@take_while_count RNum u (@skipn (T RNum) l U)) with (@take_while_count RNum u (@skipn R l U)). rewrite Ew.
    replace (p <? m)%nat with false by (symmetry; apply Nat.ltb_ge; lia).
    rewrite usub_ok by lia. cbn [bind]. rewrite (fold_insert (p - m) c c1 u 0 E1). cbn [bind].
    assert (W1 := proj1 (cc_wf _ _ _ _ _ _ H1)). rewrite (wf_knots _ _ _ _ _ _ W1). rewrite (@knots_of_vector RNum p V). cbn [bind].
    destruct (wf_cpoints _ _ _ _ _ _ W1) as [s Es]. unfold cp_matrix. rewrite Es. cbn [vget nth_error bind fst snd].
    fold h. rewrite EL. cbn [bind]. rewrite ER. reflexivity.
  - assert (SV : forall d x, (d < dim)%nat -> 0 <= x <= 1 ->
      spline (kfun V) (n + (p - m)) p (fun i => ent Q i d) x = spline (kfun U) n p (fun i => ent P i d) x).
    { intros d x Hd Hx. apply (same_function_spline p n (n + (p - m)) dim U V P Q c c1); assumption. }
    intros t Ht.
    assert (TL := reparam_same p _ _ dim U P _ _ c cl u 0 H HL' ltac:(lra) ltac:(lra) ltac:(lra)).
    assert (Tl : forall d s, (d < dim)%nat -> 0 <= s <= 1 -> 0 <= s * u <= 1).
    { intros d s Hd Hs'. assert (T := img u 0 ltac:(lra) ltac:(lra) ltac:(lra) s Hs'). lra. }
    assert (Tr : forall d s, (d < dim)%nat -> 0 <= s <= 1 -> 0 <= u + s * (1 - u) <= 1).
    { intros d s Hd Hs'. assert (T := img (1 - u) u ltac:(lra) ltac:(lra) ltac:(lra) s Hs'). lra. }
    specialize (TL ltac:(intros d s Hd Hs'; replace (u * s + 0) with (s * u) by ring; rewrite <- SV by (try assumption; apply (Tl d); assumption);
      apply (PL_spline p (n + (p - m)) dim V Q u h CV Hu ltac:(lia) ltac:(lia) V1 V2 V3); exact Hs') t Ht).
    assert (TR := reparam_same p _ _ dim U P _ _ c cr (1 - u) u H HR' ltac:(lra) ltac:(lra) ltac:(lra)).
    specialize (TR ltac:(intros d s Hd Hs'; replace ((1 - u) * s + u) with (u + s * (1 - u)) by ring; rewrite <- SV by (try assumption; apply (Tr d); assumption);
      apply (PR_spline p (n + (p - m)) dim V Q u h CV Hu ltac:(lia) ltac:(lia) V1 V2 V3); exact Hs') t Ht).
    replace (u * t + 0) with (t * u) in TL by ring. replace ((1 - u) * t + u) with (u + t * (1 - u)) in TR by ring.
    destruct TL as [TL1 TL2]. destruct TR as [TR1 TR2]. split; [split; assumption|].
    intros k Hk. destruct (TL2 k Hk) as [x [y [A1 [A2 [A3 [A4 A5]]]]]].
    destruct (TR2 k Hk) as [xr [yr [B1 [B2 [B3 [B4 B5]]]]]].
    exists x, y, xr, yr. repeat (split; [assumption|]). intros d Hd. split.
    + intros Ht1. apply A5; [|exact Hd]. intros Ht2 _. replace (u + 0) with u by ring. apply Ht1. exact Ht2.
    + apply B5; [intros; lra|exact Hd].
Qed.
