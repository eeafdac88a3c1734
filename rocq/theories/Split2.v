(** * Curves over affinely mapped knots; splitting without normalisation *)

From Coq Require Import ZArith Reals List Bool Arith Lia Lra Permutation.
From Verif Require Import Num Vec MKnots MPoints MCurve RNum Hoare Lists Struct Divisions Spec BMath BMath2 BMath3 Api Bridge Facts1 Facts2 Facts4 Facts5 Facts6 Facts7 Facts8.
Import ListNotations.
Local Open Scope R_scope.

(** ** affinely mapped knots *)
Lemma span_affine U V n a b u i : 0 < a -> (forall k, V k = a * U k + b) -> span_ind V n (a * u + b) i = span_ind U n u i.
Proof.
  intros Ha H. unfold span_ind. rewrite !H.
  destruct (Rle_dec (a * U i + b) (a * u + b)) as [X|X], (Rle_dec (U i) u) as [Y|Y]; try (exfalso; nra); [|reflexivity].
  destruct (Rlt_dec (a * u + b) (a * U (S i) + b)) as [X'|X'], (Rlt_dec u (U (S i))) as [Y'|Y']; try (exfalso; nra); [reflexivity|].
  destruct (i =? n)%nat; [|reflexivity].
  destruct (Req_EM_T (a * u + b) (a * U (S n) + b)) as [X2|X2], (Req_EM_T u (U (S n))) as [Y2|Y2]; try reflexivity; exfalso; nra.
Qed.

Lemma bspline_affine U V n q i a b u : 0 < a -> (forall k, V k = a * U k + b) -> bspline V n q i (a * u + b) = bspline U n q i u.
Proof.
  intros Ha H. unfold bspline. rewrite (cox_affine _ U V q a b) by (try lra; intros; apply H).
  apply cox_ext; [|reflexivity]. intros k _. apply span_affine; assumption.
Qed.

Lemma ratio_scaled x y a b : a <> 0 -> b <> 0 -> ratio (x * / b) (a * y) = ratio x y * / (b * a).
Proof.
  intros Ha Hb. unfold ratio. destruct (Req_EM_T (a * y) 0) as [E|E], (Req_EM_T y 0) as [E'|E'].
  - ring.
  - exfalso. apply Rmult_integral in E. tauto.
  - exfalso. apply E. subst. ring.
  - field. auto.
Qed.

Lemma dpoints_affine U V p Q a b : a <> 0 -> (forall k, V k = a * U k + b) -> forall k i, dpoints V p Q k i = dpoints U p Q k i * / a ^ k.
Proof.
  intros Ha H. induction k as [|k IH]; intros i; cbn [dpoints pow]; [rewrite Rinv_1; ring|].
  rewrite !IH, !H. replace (a * U (i + p + 1)%nat + b - (a * U (i + S k)%nat + b)) with (a * (U (i + p + 1)%nat - U (i + S k)%nat)) by ring.
  replace (INR (p - k) * (dpoints U p Q k (S i) * / a ^ k - dpoints U p Q k i * / a ^ k)) with (INR (p - k) * (dpoints U p Q k (S i) - dpoints U p Q k i) * / a ^ k) by ring.
  rewrite ratio_scaled by (try assumption; apply pow_nonzero; assumption). f_equal. f_equal. ring.
Qed.

Lemma dspline_affine U V n p Q k a b u : 0 < a -> (forall j, V j = a * U j + b) ->
  dspline V n p Q k (a * u + b) = dspline U n p Q k u * / a ^ k.
Proof.
  intros Ha H. unfold dspline. rewrite <- rsum_scal_r. apply rsum_ext. intros i _.
  rewrite (bspline_affine (shift k U) (shift k V) _ _ _ a b) by (try assumption; intros; apply H).
  rewrite (dpoints_affine U V p Q a b) by (try assumption; lra). ring.
Qed.

Lemma kfun_map (f : R -> R) U i : U <> [] -> kfun (map f U) i = f (kfun U i).
Proof.
  intros H. unfold kfun. replace (last (map f U) 0) with (f (last U 0)); [apply map_nth|].
  clear i. induction U as [|x U IH]; [contradiction|]. destruct U as [|y U]; [reflexivity|].
  change (last (map f (x :: y :: U)) 0) with (last (map f (y :: U)) 0). change (last (x :: y :: U) 0) with (last (y :: U) 0).
  apply IH. discriminate.
Qed.

(** the same control points over the knots [a x + b] *)
Theorem rescaled_curve p n dim U P c c' a b u k : @sized RNum p n dim U P -> sorted U -> @built RNum p U P c -> 0 < a ->
  @built RNum p (map (fun x => a * x + b) U) P c' -> 0 <= u <= 1 -> 0 <= a * u + b <= 1 -> (k <= p)%nat ->
  exists x y, evaluate_derivative c u k = Val (Ok x) /\ evaluate_derivative c' (a * u + b) k = Val (Ok y) /\
    length x = dim /\ length y = dim /\ forall d, (d < dim)%nat -> nth d x 0 = a ^ k * nth d y 0.
Proof.
  intros S So B Ha B' Hu Hu' Hk.
  destruct (sorted_eval p n dim U P c u k S So B Hu Hk) as [x [Ex [Lx Nx]]].
  assert (S' : @sized RNum p n dim (map (fun x => a * x + b) U) P).
  { destruct S as [S1 [S2 S3]]. split; [exact S1|]. split; [rewrite map_length; exact S2|exact S3]. }
  assert (So' : sorted (map (fun x => a * x + b) U)).
  { intros i j Hij Hj. rewrite map_length in Hj. rewrite !(nth_indep (map _ U) 0 ((fun x => a * x + b) 0)) by (rewrite map_length; rn; lia).
    rewrite !(map_nth (fun x => a * x + b)). assert (T := So i j Hij Hj). nra. }
  destruct (sorted_eval p n dim _ P c' (a * u + b) k S' So' B' Hu' Hk) as [y [Ey [Ly Ny]]].
  exists x, y. repeat (split; [assumption|]). intros d Hd. rewrite Nx, Ny by exact Hd.
  rewrite (dspline_affine (kfun U) _ n p _ k a b u Ha).
  - rn. field. apply pow_nonzero. lra.
  - intros j. apply kfun_map. destruct S as [_ [S2 _]]. intros ->. simpl in S2. lia.
Qed.

(** ** what split_and_normalize does before cutting *)
Lemma split_setup p n dim U P c u : clamped_curve p n dim U P c -> 0 < u < 1 -> (mult U u <= p)%nat -> simple_below U u ->
  exists n' V Q h c1, clamped_curve p n' dim V Q c1 /\ same_function c c1 /\ (n' = n + (p - mult U u))%nat /\ Permutation (repeat u (p - mult U u) ++ U) V /\
    (p < h)%nat /\ (h + p <= n' + 1)%nat /\
    (forall i, (i < h)%nat -> nth i V 0 < u) /\ (forall i, (h <= i < h + p)%nat -> nth i V 0 = u) /\ (forall i, (h + p <= i < length V)%nat -> u < nth i V 0) /\
    forall fl fr, @split_and_normalize RNum c u (fl, fr) =
      (lp <- split_left V Q p (h + p) u (0 <? mult U u)%nat fl;;
       match lp with Err e => Val (Err e) | Ok lp =>
         rp <- split_right V Q p h u (0 <? mult U u)%nat fr;;
         match rp with Err e => Val (Err e) | Ok rp => Val (Ok (lp, rp)) end end).
Proof.
  intros H Hu Hm Hs. assert (C : clamped p n U) by apply H. assert (Len := cl_len _ _ _ C). assert (D := cl_deg _ _ _ C).
  assert (W := proj1 (cc_wf _ _ _ _ _ _ H)).
  set (m := mult U u) in *.
  destruct (insert_times_exact (p - m) p n dim U P c u H Hu ltac:(fold m; lia) Hs) as [c1 [V [Q [E1 [H1 [Pe Sf]]]]]].
  assert (CV : clamped p (n + (p - m)) V) by apply H1. assert (LenV := cl_len _ _ _ CV).
  assert (F := @find_le_spec RNum False p n 0 U u ltac:(rn; lia) D ltac:(lia)). apply ok_val_ex in F. destruct F as [l [F _]].
  destruct (split_sep p n U u l C Hu Hs F) as [Ew [Hh Hsep]]. fold m in Ew, Hh, Hsep.
  set (h := if (0 <? m)%nat then l else (l + 1)%nat) in *.
  assert (SU := clamped_sorted' _ _ _ C).
  assert (EV : V = ins_many U h (p - m) u).
  { apply sorted_perm_eq; [apply (clamped_sorted' _ _ _ CV)|apply ins_many_sorted; try assumption; lia|].
    eapply Permutation_trans; [apply Permutation_sym; exact Pe|apply ins_many_perm]. }
  destruct (sep_run U u h SU ltac:(lia) Hsep) as [R1 [R2 R3]]. fold m in R1, R2, R3.
  assert (Hhn : (h + m <= n + 1)%nat).
  { destruct (le_lt_dec (h + m) (n + 1)); [assumption|exfalso].
    specialize (R2 (n + 1)%nat). destruct (le_lt_dec h (n + 1)); [|lia].
    rewrite (cl_one _ _ _ C) in R2 by lia. specialize (R2 ltac:(lia)). lra. }
  assert (NV : forall i, nth i V 0 = if (i <? h)%nat then nth i U 0 else if (i <? h + (p - m))%nat then u else nth (i - (p - m)) U 0).
  { intros i. rewrite EV. apply nth_ins_many. lia. }
  exists (n + (p - m))%nat, V, Q, h, c1. split; [exact H1|]. split; [exact Sf|]. split; [reflexivity|]. split; [exact Pe|].
  split; [lia|]. split; [lia|]. split; [|split; [|split]].
  - intros i Hi. rewrite NV. replace (i <? h)%nat with true by (symmetry; apply Nat.ltb_lt; lia). apply (proj1 Hsep). exact Hi.
  - intros i Hi. rewrite NV. replace (i <? h)%nat with false by (symmetry; apply Nat.ltb_ge; lia).
    destruct (Nat.ltb_spec i (h + (p - m))); [reflexivity|]. apply R2. lia.
  - intros i Hi. rewrite NV. replace (i <? h)%nat with false by (symmetry; apply Nat.ltb_ge; lia).
    replace (i <? h + (p - m))%nat with false by (symmetry; apply Nat.ltb_ge; lia). apply R3. lia.
  - intros fl fr. unfold split_and_normalize. rewrite (open_R u Hu). unfold degree. rewrite (wf_knots _ _ _ _ _ _ W). cbn [kdegree kp knots_of].
    fold (knots_of p U). change (@knots_of RNum p U) with (@knots_of RNum p U). rewrite F. cbn [bind].
    rewrite (@knots_of_vector RNum p U). cbn [bind].
    change (@take_while_count RNum u (@skipn (T RNum) l U)) with (@take_while_count RNum u (@skipn R l U)). rewrite Ew.
    replace (p <? m)%nat with false by (symmetry; apply Nat.ltb_ge; lia).
    rewrite usub_ok by lia. cbn [bind]. rewrite (fold_insert (p - m) c c1 u 0 E1). cbn [bind].
    assert (W1 := proj1 (cc_wf _ _ _ _ _ _ H1)). rewrite (wf_knots _ _ _ _ _ _ W1). rewrite (@knots_of_vector RNum p V). cbn [bind].
    destruct (wf_cpoints _ _ _ _ _ _ W1) as [s Es]. unfold cp_matrix. rewrite Es. cbn [vget nth_error bind fst snd].
    fold h. reflexivity.
Qed.

Lemma make_part_sized p n dim U P : @sized RNum p n dim U P -> exists c, @make_part RNum p U P = Val (Ok c) /\ built p U P c.
Proof.
  intros S. assert (S' := S). destruct S' as [S1 [S2 S3]]. destruct (built_ex p n dim U P S1 S2 S3) as [c B]. exists c.
  split; [|exact B]. destruct B as [kn [E1 E2]]. unfold make_part. rewrite E1. cbn [bind]. rewrite E2. reflexivity.
Qed.

(** the parts with their knots left as they are *)
Lemma raw_parts p n dim V P u h b : clamped p n V -> shape dim (S n) P -> 0 < u < 1 -> (p < h)%nat -> (h + p <= n + 1)%nat ->
  (forall i, (i < h)%nat -> nth i V 0 < u) -> (forall i, (h <= i < h + p)%nat -> nth i V 0 = u) -> (forall i, (h + p <= i < length V)%nat -> u < nth i V 0) ->
  exists cl cr, let PL := mkMat dim (firstn h (skipn 0 (mcols P))) in let PR := mkMat dim (firstn (n + 2 - h) (skipn (h - 1) (mcols P))) in
    @split_left RNum V P p (h + p) u b false = Val (Ok cl) /\ sized p (h - 1) dim (firstn (h + p) V ++ [u]) PL /\ built p (firstn (h + p) V ++ [u]) PL cl /\
    @split_right RNum V P p h u b false = Val (Ok cr) /\ sized p (n - (h - 1)) dim (u :: skipn h V) PR /\ built p (u :: skipn h V) PR cr.
Proof.
  intros C HP Hu H1 H2 V1 V2 V3. set (PL := mkMat dim (firstn h (skipn 0 (mcols P)))). set (PR := mkMat dim (firstn (n + 2 - h) (skipn (h - 1) (mcols P)))). assert (T := cl_len _ _ _ C).
  assert (SL : @sized RNum p (h - 1) dim (firstn (h + p) V ++ [u]) PL).
  { split; [lia|]. split; [rewrite app_length, firstn_length; simpl; rn; lia|].
    replace (S (h - 1)) with h by lia. apply (mcolumns_shape P dim (S n)); [exact HP|lia]. }
  assert (SR : @sized RNum p (n - (h - 1)) dim (u :: skipn h V) PR).
  { split; [lia|]. split; [cbn [length]; rewrite skipn_length; rn; lia|].
    replace (S (n - (h - 1))) with (n + 2 - h)%nat by lia. apply (mcolumns_shape P dim (S n)); [exact HP|lia]. }
  destruct (make_part_sized _ _ _ _ _ SL) as [cl [EL BL]]. destruct (make_part_sized _ _ _ _ _ SR) as [cr [ER BR]].
  exists cl, cr. cbv zeta. split; [|split; [exact SL|split; [exact BL|split; [|split; [exact SR|exact BR]]]]].
  - rewrite split_left_val by (rn; lia). cbn [bind].
    assert (L := proj1 (proj2 SL)). rewrite part_cols_val by (rn; lia). cbn [bind]. rn. rewrite L. replace (h - 1 + p + 2 - p - 1)%nat with h by lia.
    rewrite (@mcolumns_val RNum P dim (S n)) by (try assumption; lia). cbn [bind]. exact EL.
  - rewrite split_right_val by (rn; lia). cbn [bind].
    assert (L := proj1 (proj2 SR)). rewrite part_cols_val by (rn; lia). cbn [bind]. rn. rewrite L. replace (n - (h - 1) + p + 2 - p - 1)%nat with (n + 2 - h)%nat by lia.
    unfold ncols. rewrite (proj1 (proj2 HP)). rewrite usub_ok by lia. cbn [bind].
    replace (S n - (n + 2 - h))%nat with (h - 1)%nat by lia.
    rewrite (@mcolumns_val RNum P dim (S n)) by (try assumption; lia). cbn [bind]. exact ER.
Qed.

Theorem split_flags p n dim U P c u : clamped_curve p n dim U P c -> 0 < u < 1 -> (mult U u <= p)%nat -> simple_below U u ->
  exists cl cr, split c u = Val (Ok (cl, cr)) /\ forall fl fr, exists l r, split_and_normalize c u (fl, fr) = Val (Ok (l, r)) /\
    (fl = true -> l = cl) /\ (fr = true -> r = cr) /\
    (fl = false -> forall x k, 0 <= x <= u -> (k <= p)%nat -> (x = u -> (mult U u <= p - k)%nat) -> evaluate_derivative l x k = evaluate_derivative c x k) /\
    (fl = false -> evaluate l u = evaluate c u) /\
    (fr = false -> forall x k, u <= x <= 1 -> (k <= p)%nat -> evaluate_derivative r x k = evaluate_derivative c x k).
Proof.
  intros H Hu Hm Hs. destruct (split_exact p n dim U P c u H Hu Hm Hs) as [cl [cr [nl [nr [Ul [Pl [Ur [Pr [ES [HL [HR [_ HE]]]]]]]]]]]].
  destruct (split_setup p n dim U P c u H Hu Hm Hs) as [n' [V [Q [h [c1 [H1 [Sf [En [_ [Hh [Hhn [V1 [V2 [V3 SN]]]]]]]]]]]]]].
  assert (CV : clamped p n' V) by apply H1. assert (HQ : shape dim (S n') Q) by apply H1.
  destruct (parts p n' dim V Q u h CV HQ Hu Hh Hhn V1 V2 V3 (0 <? mult U u)%nat) as [cl' [cr' [EL [HL' [ER HR']]]]].
  destruct (raw_parts p n' dim V Q u h (0 <? mult U u)%nat CV HQ Hu Hh Hhn V1 V2 V3) as [rl [rr [RL [SL [BL [RR [SR BR]]]]]]].
  unfold split in ES. rewrite SN, EL in ES. cbn [bind] in ES. rewrite ER in ES. cbn [bind] in ES. injection ES as <- <-.
  exists cl', cr'. split; [unfold split; rewrite SN, EL; cbn [bind]; rewrite ER; reflexivity|].
  assert (DL : forall x k, 0 <= x <= u -> (k <= p)%nat -> (x = u -> (mult U u <= p - k)%nat) -> evaluate_derivative rl x k = evaluate_derivative c x k).
  { intros x k Hx Hk Hxu.
    assert (T0 : 0 <= x / u <= 1).
    { split; [apply Rmult_le_pos; [lra|left; apply Rinv_0_lt_compat; lra]|]. apply (Rmult_le_reg_r u); [lra|]. unfold Rdiv. rewrite Rmult_assoc, Rinv_l by lra. lra. }
    destruct (rescaled_curve p (h - 1) dim (map (fun x => x / u) (firstn (h + p) V ++ [u])) (mkMat dim (firstn h (skipn 0 (mcols Q)))) cl' rl u 0 (x / u) k) as [y [z [Ey [Ez [Ly [Lz Nz]]]]]]; try assumption; try lra.
    - split; [lia|]. split; [rewrite map_length; apply SL|apply SL].
    - apply (clamped_sorted p (h - 1)). apply HL'.
    - apply HL'.
    - rewrite map_map. replace (map (fun x => u * (x / u) + 0) (firstn (h + p) V ++ [u])) with (firstn (h + p) V ++ [u]); [exact BL|].
      transitivity (map (fun x : R => x) (firstn (h + p) V ++ [u])); [symmetry; apply map_id|]. apply map_ext. intros z. field. lra.
    - replace (u * (x / u) + 0) with x by (field; lra). lra.
    - replace (u * (x / u) + 0) with x in Ez by (field; lra).
      destruct (HE (x / u) T0) as [_ G]. destruct (G k Hk) as [x1 [y1 [xr [yr [G1 [G2 [_ [_ [G3 [G4 [_ [_ G5]]]]]]]]]]]].
      assert (Hx1 : x / u = 1 -> (mult U u <= p - k)%nat).
      { intros Hx1. apply Hxu. apply (Rmult_eq_reg_r (/ u)); [|apply Rinv_neq_0_compat; lra]. unfold Rdiv in Hx1. rewrite Hx1. field. lra. }
      rewrite Ey in G2. injection G2 as <-. replace (x / u * u) with x in G1 by (field; lra). rewrite Ez, G1. do 2 f_equal.
      apply (list_ext 0); [transitivity dim; [exact Lz|symmetry; exact G3]|]. intros d Hd. assert (Hd2 : (d < dim)%nat) by (rewrite <- Lz; exact Hd). clear Hd. rename Hd2 into Hd. assert (A := Nz d Hd). assert (B := proj1 (G5 d Hd) Hx1). rewrite A in B.
      apply Rmult_eq_reg_l in B; [exact B|]. apply pow_nonzero. lra. }
  assert (DR : forall x k, u <= x <= 1 -> (k <= p)%nat -> evaluate_derivative rr x k = evaluate_derivative c x k).
  { intros x k Hx Hk.
    assert (T0 : 0 <= (x - u) / (1 - u) <= 1).
    { split; [apply Rmult_le_pos; [lra|left; apply Rinv_0_lt_compat; lra]|]. apply (Rmult_le_reg_r (1 - u)); [lra|]. unfold Rdiv. rewrite Rmult_assoc, Rinv_l by lra. lra. }
    destruct (rescaled_curve p (n' - (h - 1)) dim (map (fun x => (x - u) / (1 - u)) (u :: skipn h V)) (mkMat dim (firstn (n' + 2 - h) (skipn (h - 1) (mcols Q)))) cr' rr (1 - u) u ((x - u) / (1 - u)) k) as [y [z [Ey [Ez [Ly [Lz Nz]]]]]]; try assumption; try lra.
    - split; [lia|]. split; [rewrite map_length; apply SR|apply SR].
    - apply (clamped_sorted p (n' - (h - 1))). apply HR'.
    - apply HR'.
    - rewrite map_map. replace (map (fun x => (1 - u) * ((x - u) / (1 - u)) + u) (u :: skipn h V)) with (u :: skipn h V); [exact BR|].
      transitivity (map (fun x : R => x) (u :: skipn h V)); [symmetry; apply map_id|]. apply map_ext. intros z. field. lra.
    - replace ((1 - u) * ((x - u) / (1 - u)) + u) with x by (field; lra). lra.
    - replace ((1 - u) * ((x - u) / (1 - u)) + u) with x in Ez by (field; lra).
      destruct (HE ((x - u) / (1 - u)) T0) as [_ G]. destruct (G k Hk) as [x1 [y1 [xr [yr [_ [_ [G1 [G2 [_ [_ [G3 [G4 G5]]]]]]]]]]]].
      rewrite Ey in G2. injection G2 as <-. replace (u + (x - u) / (1 - u) * (1 - u)) with x in G1 by (field; lra). rewrite Ez, G1. do 2 f_equal.
      apply (list_ext 0); [transitivity dim; [exact Lz|symmetry; exact G3]|]. intros d Hd. assert (Hd2 : (d < dim)%nat) by (rewrite <- Lz; exact Hd). clear Hd. rename Hd2 into Hd. assert (A := Nz d Hd). assert (B := proj2 (G5 d Hd)). rewrite A in B.
      apply Rmult_eq_reg_l in B; [exact B|]. apply pow_nonzero. lra. }
  intros fl fr. exists (if fl then cl' else rl), (if fr then cr' else rr). split; [|split; [|split; [|split; [|split]]]].
  - rewrite SN. destruct fl; rewrite ?EL, ?RL; cbn [bind]; destruct fr; rewrite ?ER, ?RR; reflexivity.
  - intros ->. reflexivity.
  - intros ->. reflexivity.
  - intros ->. exact DL.
  - intros ->. unfold evaluate. apply DL; [lra|lia|lia].
  - intros ->. exact DR.
Qed.
