(** * Knot insertion: the new control points, their order, points of full multiplicity *)

From Coq Require Import ZArith Reals List Bool Arith Lia Lra Permutation.
From Verif Require Import Num Vec MKnots MPoints MCurve RNum Hoare Lists Struct Spec BMath BMath2 BMath3 BMath4 BMath5 Api Bridge Facts1 Facts4 Facts5 Facts6 Facts7 Facts8 Fit7 Shape1 Shape2 Shape3.
Import ListNotations.
Local Open Scope R_scope.

(** ** Corner cutting *)
Lemma cut_length dim n (P P' : nat -> nat -> R) (a : nat -> R) : (forall i, 0 <= a i <= 1) -> a 0%nat = 1 -> a (S n) = 0 ->
  (forall i d, (i <= S n)%nat -> (d < dim)%nat -> P' i d = a i * P i d + (1 - a i) * P (i - 1)%nat d) ->
  rsum (fun i => norm dim (fun d => P' (S i) d - P' i d)) (S n) <= rsum (fun i => norm dim (fun d => P (S i) d - P i d)) n.
Proof.
  intros A A0 A1 E. assert (T := cuts_length dim n P (S n) _ (cuts_more n P n P a (cuts_none n P) A A0 A1)). cbv beta in T.
  eapply Rle_trans; [|exact T]. right. apply rsum_ext. intros i Hi. apply norm_ext. intros d Hd. rewrite !E by (try lia; exact Hd). reflexivity.
Qed.

Lemma insert_cuts p n dim U P c u : clamped_curve p n dim U P c -> 0 < u < 1 -> (mult U u <= p)%nat -> simple_below U u ->
  exists c' U' P' l a, @curve_insert RNum c u = Val (c', Ok tt) /\ clamped_curve p (S n) dim U' P' c' /\
    (p <= l <= n)%nat /\ nth l U 0 <= u <= nth (S l) U 0 /\ U' = firstn (l + 1) U ++ u :: skipn (l + 1) U /\
    (forall i, (i <= S n)%nat -> 0 <= a i <= 1) /\
    (forall i, (i + p <= l)%nat -> a i = 1) /\ (forall i, (l < i)%nat -> a i = 0) /\
    (forall i, (l < i + p)%nat -> (i <= l)%nat -> nth i U 0 < nth (i + p) U 0 /\ a i = (u - nth i U 0) / (nth (i + p) U 0 - nth i U 0)) /\
    (forall i d, (i <= S n)%nat -> (d < dim)%nat -> ent P' i d = a i * ent P i d + (1 - a i) * ent P (i - 1) d) /\
    rsum (fun i => distance P' dim (S i) i) (S n) <= rsum (fun i => distance P dim (S i) i) n.
Proof.
  intros H Hu Hm Hs. assert (C : clamped p n U) by apply H. assert (L := cl_len _ _ _ C). assert (F0 := kfun_clamped p n U C).
  assert (W := proj1 (cc_wf _ _ _ _ _ _ H)).
  assert (Hd : forall l i, @find_idx RNum (knots_of p U) u 0 CLeftOrEqual = Val l -> (p <= l <= n)%nat -> (l - p < i <= l)%nat ->
             nth i U 0 < nth (i + p) U 0).
  { intros l i E Hl Hi. destruct (find_insert_simple p n U u l C Hu Hs E) as [_ Hlu].
    apply (insert_division_simple p n U u l i); assumption. }
  assert (T := @insert_gen RNum False gdiv_R p n dim U P c u W (open_R u Hu) ltac:(rewrite (dcount_R p n); assumption)
    ltac:(intros l i E Hl Hi; rn; specialize (Hd l i E Hl Hi); eexists; apply Rdivm_val; lra)).
  apply ok_val_ex in T. destruct T as [[c' r] [E [l [P' [F [Hl [EP [Er [W' B']]]]]]]]]. cbn [fst snd] in *. subst r.
  destruct (find_insert_simple p n U u l C Hu Hs F) as [_ Hlu].
  assert (C' := insU_clamped p n U l u C Hu Hl Hlu).
  destruct (insert_points_R U P P' dim p n l u L (proj1 (proj2 H)) Hl ltac:(intros i Hi; apply (Hd l i F Hl Hi)) EP) as [SP NP].
  assert (H' : clamped_curve p (S n) dim (insU U l u) P' c') by (split; [exact C'|split; assumption]).
  assert (A01 : forall i, 0 <= ins_coef (kfun U) l u p i <= 1).
  { intros i. apply ins_coef_01; [apply F0| |]; rewrite kfun_nth by lia; replace (S l) with (l + 1)%nat by lia; lra. }
  assert (A1 : forall i, (i + p <= l)%nat -> ins_coef (kfun U) l u p i = 1).
  { intros i Hi. unfold ins_coef. replace (i + p <=? l)%nat with true by (symmetry; apply Nat.leb_le; lia). reflexivity. }
  assert (A0 : forall i, (l < i)%nat -> ins_coef (kfun U) l u p i = 0).
  { intros i Hi. unfold ins_coef. replace (i + p <=? l)%nat with false by (symmetry; apply Nat.leb_gt; lia). replace (l <? i)%nat with true by (symmetry; apply Nat.ltb_lt; lia). reflexivity. }
  exists c', (insU U l u), P', l, (ins_coef (kfun U) l u p). split; [rewrite insert_once; exact E|]. split; [exact H'|]. split; [exact Hl|].
  split; [replace (S l) with (l + 1)%nat by lia; exact Hlu|]. split; [reflexivity|]. split; [intros; apply A01|]. split; [exact A1|]. split; [exact A0|]. split; [|split].
  - intros i I1 I2. assert (G := Hd l i F Hl ltac:(lia)). split; [exact G|].
    unfold ins_coef. replace (i + p <=? l)%nat with false by (symmetry; apply Nat.leb_gt; lia). replace (l <? i)%nat with false by (symmetry; apply Nat.ltb_ge; lia).
    rewrite !kfun_nth by lia. apply ratio_nz. lra.
  - intros i d Hi Hdd. rewrite NP by (try lia; exact Hdd). reflexivity.
  - rewrite (rsum_ext (fun i => distance P' dim (S i) i) (fun i => norm dim (fun d => ent P' (S i) d - ent P' i d))) by (intros; apply distance_norm).
    rewrite (rsum_ext (fun i => distance P dim (S i) i) (fun i => norm dim (fun d => ent P (S i) d - ent P i d))) by (intros; apply distance_norm).
    apply (cut_length dim n (fun i d => ent P i d) (fun i d => ent P' i d) (ins_coef (kfun U) l u p)); [exact A01|apply A1; lia|apply A0; lia|].
    intros i d Hi Hdd. rewrite NP by (try lia; exact Hdd). reflexivity.
Qed.

(** ** A knot of full multiplicity *)
Lemma knot_point p n dim U P c b u : clamped_curve p n dim U P c -> 0 <= u < 1 -> (b + p <= n)%nat ->
  nth (b + p) U 0 <= u < nth (b + p + 1) U 0 -> (forall i, (b < i <= b + p)%nat -> nth i U 0 = u) ->
  returns (evaluate c u) dim (fun d => ent P b d).
Proof.
  intros H Hu Hb Hs Hr. assert (C : clamped p n U) by apply H. assert (F := kfun_clamped p n U C). assert (E := cl_len _ _ _ C).
  eapply returns_ext; [apply (cc_eval0 p n dim U P c u H ltac:(lra))|]. intros d _. cbv beta.
  apply (place_value p (kfun U) n u b (fun i => ent P i d) F ltac:(lra)). left. split; [lra|]. split; [exact Hb|].
  replace (S (b + p)) with (b + p + 1)%nat by lia. rewrite !kfun_nth by lia. split; [exact Hs|]. intros i Hi. rewrite kfun_nth by lia. apply Hr. exact Hi.
Qed.

Lemma sep_ex p n U u : clamped p n U -> 0 < u < 1 -> exists h, (p < h <= n + 1)%nat /\ sep U u h.
Proof.
  intros C Hu. assert (F := kfun_clamped p n U C). assert (E := cl_len _ _ _ C). assert (PN := cl_deg _ _ _ C).
  destruct (last_lt (kfun U) u (n + 1)) as [j [J1 [J2 J3]]]; [rewrite (fc_zero _ _ _ F) by lia; lra|].
  assert (JN : (j <= n)%nat). { destruct (Nat.eq_dec j (n + 1)) as [->|]; [|lia]. rewrite (fc_one _ _ _ F) in J2 by lia. lra. }
  assert (JP : (p <= j)%nat). { destruct (Nat.le_gt_cases p j) as [|G]; [assumption|]. assert (T := J3 p ltac:(lia)). rewrite (fc_zero _ _ _ F) in T by lia. lra. }
  exists (S j). split; [lia|]. split.
  - intros i Hi. rewrite <- kfun_nth by lia. eapply Rle_lt_trans; [apply (fc_mono _ _ _ F i j); lia|exact J2].
  - intros i Hi. rewrite <- kfun_nth by lia. apply Rle_trans with (kfun U (S j)); [apply J3; lia|apply (fc_mono _ _ _ F); lia].
Qed.

Lemma insert_to_point p n dim U P c u : clamped_curve p n dim U P c -> (1 <= p)%nat -> 0 < u < 1 -> (mult U u <= p)%nat -> simple_below U u ->
  exists c' U' P' b, @insert_times RNum c u (p - mult U u) = Val (c', Ok tt) /\ clamped_curve p (n + (p - mult U u)) dim U' P' c' /\
    same_function c c' /\ (b <= n + (p - mult U u))%nat /\ returns (evaluate c u) dim (fun d => ent P' b d).
Proof.
  intros H Hp Hu Hm Hs.
  destruct (insert_times_exact (p - mult U u) p n dim U P c u H Hu ltac:(lia) Hs) as [c' [U' [P' [E [H' [PE SF]]]]]].
  assert (C' : clamped p (n + (p - mult U u)) U') by apply H'. assert (L' := cl_len _ _ _ C').
  assert (M' : mult U' u = p).
  { rewrite <- (mult_perm _ _ u PE). unfold mult in *. rewrite count_occ_app. rewrite count_occ_repeat_eq by reflexivity. lia. }
  destruct (sep_ex p _ U' u C' Hu) as [h [HB SE]].
  destruct (sep_run U' u h (clamped_sorted' _ _ _ C') ltac:(lia) SE) as [R1 [R2 R3]]. rewrite M' in *.
  assert (HN : (h + p <= n + (p - mult U u) + 1)%nat).
  { destruct (Nat.le_gt_cases (h + p) (n + (p - mult U u) + 1)) as [|G]; [assumption|exfalso].
    assert (T := R2 (n + (p - mult U u) + 1)%nat ltac:(lia)). rewrite (cl_one _ _ _ C') in T by lia. lra. }
  exists c', U', P', (h - 1)%nat. split; [exact E|]. split; [exact H'|]. split; [exact SF|]. split; [lia|].
  assert (K := knot_point p _ dim U' P' c' (h - 1) u H' ltac:(lra) ltac:(lia)).
  unfold evaluate. rewrite <- (SF u 0%nat). apply K.
  - replace (h - 1 + p + 1)%nat with (h + p)%nat by lia. split; [rewrite R2 by lia; lra|apply R3; lia].
  - intros i Hi. apply R2. lia.
Qed.

(** ** Several insertions, in any order *)
Lemma simple_mono U V u : simple_below V u -> (forall x, (mult U x <= mult V x)%nat) -> simple_below U u.
Proof. intros S M x Hx. specialize (S x Hx). specialize (M x). lia. Qed.

Lemma insert_list us : forall p n dim U P c, clamped_curve p n dim U P c ->
  (forall u, In u us -> 0 < u < 1 /\ simple_below (us ++ U) u) -> (forall x, 0 < x < 1 -> (mult (us ++ U) x <= p + 1)%nat) ->
  exists c' U' P', inserted c us c' /\ clamped_curve p (n + length us) dim U' P' c' /\ Permutation (us ++ U) U' /\ same_function c c'.
Proof.
  induction us as [|u us IH]; intros p n dim U P c H HU HM.
  - exists c, U, P. split; [constructor|]. split; [rewrite Nat.add_0_r; exact H|]. split; [apply Permutation_refl|apply same_function_refl].
  - destruct (HU u ltac:(left; reflexivity)) as [Hu Hs].
    assert (M1 : (mult U u <= p)%nat).
    { assert (T := HM u Hu). unfold mult in *. cbn [app count_occ] in T. rewrite count_occ_app in T. destruct Req_EM_T; [|contradiction]. lia. }
    assert (S1 : simple_below U u).
    { apply (simple_mono U _ u Hs). intros x. unfold mult. rewrite count_occ_app. lia. }
    destruct (curve_insert_exact p n dim U P c u H Hu M1 S1) as [c1 [U1 [P1 [E1 [H1 [Q1 F1]]]]]].
    assert (PE : Permutation ((u :: us) ++ U) (us ++ U1)).
    { eapply Permutation_trans; [|apply Permutation_app_head; exact Q1]. cbn [app]. apply Permutation_middle. }
    destruct (IH p (S n) dim U1 P1 c1 H1) as [c' [U' [P' [I [H' [Q' F']]]]]].
    + intros v Hv. destruct (HU v ltac:(right; exact Hv)) as [A B]. split; [exact A|]. apply (simple_mono _ _ v B). intros x. rewrite (mult_perm _ _ x PE). apply le_n.
    + intros x Hx. rewrite <- (mult_perm _ _ x PE). apply HM. exact Hx.
    + exists c', U', P'. split; [econstructor; eassumption|]. split; [cbn [length]; replace (n + S (length us))%nat with (S n + length us)%nat by lia; exact H'|].
      split; [eapply Permutation_trans; [exact PE|exact Q']|eapply same_function_trans; eassumption].
Qed.

Lemma mult_gap p n U : clamped p n U -> (forall x, 0 < x < 1 -> (mult U x <= p + 1)%nat) -> forall i, (i <= n)%nat -> nth i U 0 < nth (i + p + 1) U 0.
Proof.
  intros C M i Hi. assert (E := cl_len _ _ _ C). assert (T := cl_sorted _ _ _ C i (i + p + 1)%nat ltac:(lia) ltac:(lia)).
  destruct (Req_dec (nth i U 0) (nth (i + p + 1) U 0)) as [EQ|NE]; [exfalso|lra].
  destruct (Nat.le_gt_cases i p) as [A|A].
  - rewrite (cl_zero _ _ _ C i) in EQ by lia. destruct (Nat.le_gt_cases (i + p + 1) n) as [B|B].
    + assert (K := cl_inner _ _ _ C (i + p + 1)%nat ltac:(lia) ltac:(lia)). lra.
    + rewrite (cl_one _ _ _ C) in EQ by lia. lra.
  - assert (K := cl_inner _ _ _ C i A Hi). assert (R := run_mult p n U i (i + p + 1) C ltac:(lia) EQ). specialize (M _ K). lia.
Qed.

Lemma insert_order p n dim U P c us : clamped_curve p n dim U P c ->
  (forall u, In u us -> 0 < u < 1 /\ simple_below (us ++ U) u) -> (forall x, 0 < x < 1 -> (mult (us ++ U) x <= p + 1)%nat) ->
  exists c', inserted c us c' /\ same_function c c' /\ forall vs, Permutation us vs -> inserted c vs c'.
Proof.
  intros H HU HM. destruct (insert_list us p n dim U P c H HU HM) as [c' [U' [P' [I [H' [Q F]]]]]].
  exists c'. split; [exact I|]. split; [exact F|]. intros vs PV.
  assert (PE : Permutation (us ++ U) (vs ++ U)) by (apply Permutation_app_tail; exact PV).
  destruct (insert_list vs p n dim U P c H) as [c2 [U2 [P2 [I2 [H2 [Q2 F2]]]]]].
  - intros v Hv. destruct (HU v) as [A B]; [apply (Permutation_in v (Permutation_sym PV)); exact Hv|]. split; [exact A|].
    apply (simple_mono _ _ v B). intros x. rewrite (mult_perm _ _ x PE). apply le_n.
  - intros x Hx. rewrite <- (mult_perm _ _ x PE). apply HM. exact Hx.
  - rewrite <- (Permutation_length PV) in H2.
    assert (EU : U' = U2).
    { apply sorted_perm_eq; [apply (clamped_sorted' _ _ _ (proj1 H'))|apply (clamped_sorted' _ _ _ (proj1 H2))|].
      eapply Permutation_trans; [apply Permutation_sym; exact Q|]. eapply Permutation_trans; [exact PE|exact Q2]. }
    subst U2. assert (EC : c' = c2).
    { apply (same_curve p _ dim U' P' P2 c' c2 H' H2). apply (points_unique p _ dim U' P' P2 c' c2 H' H2).
      - apply (mult_gap p _ U' (proj1 H')). intros x Hx. rewrite <- (mult_perm _ _ x Q). apply HM. exact Hx.
      - intros u Hu. unfold evaluate. rewrite (F u 0%nat), (F2 u 0%nat). reflexivity. }
    rewrite EC. exact I2.
Qed.

(** ** Refinement: the control points approach the curve *)
Definition steep (p n dim : nat) (U : list R) (P : Mat RNum) (L : R) : Prop :=
  forall i, (i < n)%nat -> INR p * distance P dim (S i) i <= L * (nth (i + p + 1) U 0 - nth (i + 1) U 0).

Lemma insert_steep p n dim U P c u L : clamped_curve p n dim U P c -> 0 < u < 1 -> (mult U u <= p)%nat -> simple_below U u -> 0 <= L -> steep p n dim U P L ->
  exists c' U' P', curve_insert c u = Val (c', Ok tt) /\ clamped_curve p (S n) dim U' P' c' /\ steep p (S n) dim U' P' L.
Proof.
  intros H Hu Hm Hs L0 ST. assert (C : clamped p n U) by apply H. assert (E := cl_len _ _ _ C).
  destruct (insert_cuts p n dim U P c u H Hu Hm Hs) as [c' [U' [P' [l [a [EI [H' [Hl [Hlu [EU [A01 [A1 [A0 [AM [EP _]]]]]]]]]]]]]]].
  exists c', U', P'. split; [exact EI|]. split; [exact H'|]. intros i Hi. rewrite EU. change (firstn (l + 1) U ++ u :: skipn (l + 1) U) with (insU U l u).
  rewrite !nth_insU by lia.
  set (D := fun i => INR p * distance P dim (S i) i) in *.
  assert (T : INR p * distance P' dim (S i) i <= a (S i) * D i + (1 - a i) * D (i - 1)%nat \/ i = 0%nat /\ INR p * distance P' dim (S i) i <= a (S i) * D i).
  { assert (Bi := A01 i ltac:(lia)). assert (Bj := A01 (S i) ltac:(lia)).
    assert (X : norm dim (fun d => ent P' (S i) d - ent P' i d) <= a (S i) * norm dim (fun d => ent P (S i) d - ent P i d) + (1 - a i) * norm dim (fun d => ent P i d - ent P (i - 1) d)).
    { rewrite <- !norm_scal by lra. eapply Rle_trans; [|apply norm_add]. right. apply norm_ext. intros d Hd. rewrite !EP by (try lia; exact Hd). replace (S i - 1)%nat with i by lia. ring. }
    unfold D. rewrite !distance_norm. assert (Q := pos_INR p). destruct i as [|i].
    - right. split; [reflexivity|]. rewrite (A1 0%nat) in X by lia.
      apply Rmult_le_compat_l with (r := INR p) in X; [|exact Q]. eapply Rle_trans; [exact X|]. right. ring.
    - left. replace (S i - 1)%nat with i in * by lia. apply Rmult_le_compat_l with (r := INR p) in X; [|exact Q]. eapply Rle_trans; [exact X|]. right. ring. }
  assert (DP : forall k, 0 <= D k) by (intros k; unfold D; apply Rmult_le_pos; [apply pos_INR|rewrite distance_norm; apply norm_nonneg]).
  assert (BND : INR p * distance P' dim (S i) i <= L * (a (S i) * (nth (i + p + 1) U 0 - nth (i + 1) U 0) + (1 - a i) * (nth (i + p) U 0 - nth i U 0))).
  { assert (Bi := A01 i ltac:(lia)). assert (Bj := A01 (S i) ltac:(lia)).
    assert (Z1 : a (S i) * D i <= L * (a (S i) * (nth (i + p + 1) U 0 - nth (i + 1) U 0))).
    { destruct (Nat.eq_dec i n) as [->|Ne]; [rewrite (A0 (S n)) by lia; lra|].
      assert (Q := ST i ltac:(lia)). fold (D i) in Q. apply Rmult_le_compat_l with (r := a (S i)) in Q; [|lra]. lra. }
    destruct T as [T|[-> T]].
    - destruct (Nat.eq_dec i 0) as [->|Ne].
      + rewrite (A1 0%nat) in * by lia. lra.
      + assert (Q := ST (i - 1)%nat ltac:(lia)). fold (D (i - 1)%nat) in Q. replace (i - 1 + p + 1)%nat with (i + p)%nat in Q by lia. replace (i - 1 + 1)%nat with i in Q by lia.
        apply Rmult_le_compat_l with (r := 1 - a i) in Q; [|lra]. lra.
    - rewrite (A1 0%nat) in * by lia. lra. }
  eapply Rle_trans; [exact BND|]. apply Rmult_le_compat_l; [exact L0|]. right.
  destruct (Nat.leb_spec (i + p + 1) l) as [B1|B1]; destruct (Nat.leb_spec (i + 1) l) as [B2|B2]; try lia.
  - rewrite (A1 i), (A1 (S i)) by lia. ring.
  - replace (i + 1 =? l + 1)%nat with false by (symmetry; apply Nat.eqb_neq; lia).
    destruct (AM (S i) ltac:(lia) ltac:(lia)) as [G GE]. rewrite GE. replace (S i) with (i + 1)%nat in * by lia. replace (i + 1 + p)%nat with (i + p + 1)%nat in * by lia.
    destruct (Nat.eqb_spec (i + p + 1) (l + 1)) as [B3|B3].
    + rewrite (A1 i) by lia. field. lra.
    + destruct (AM i ltac:(lia) ltac:(lia)) as [G2 GE2]. rewrite GE2. replace (i + p + 1 - 1)%nat with (i + p)%nat by lia. field. lra.
  - rewrite (A0 (S i)) by lia. replace (i + 1 - 1)%nat with i by lia. replace (i + p + 1 - 1)%nat with (i + p)%nat by lia.
    destruct (Nat.eqb_spec (i + 1) (l + 1)) as [B3|B3].
    + destruct p as [|p'].
      * replace (i + 0 + 1)%nat with (i + 1)%nat by lia. replace (i + 0)%nat with i by lia. rewrite B3, Nat.eqb_refl. ring.
      * replace (i + S p' + 1 =? l + 1)%nat with false by (symmetry; apply Nat.eqb_neq; lia).
        destruct (AM i ltac:(lia) ltac:(lia)) as [G2 GE2]. rewrite GE2. field. lra.
    + rewrite (A0 i) by lia. replace (i + p + 1 =? l + 1)%nat with false by (symmetry; apply Nat.eqb_neq; lia). ring.
Qed.

Lemma steep_leg p n dim U P L h : (1 <= p)%nat -> 0 <= L -> steep p n dim U P L ->
  (forall i, (i < n)%nat -> nth (i + p + 1) U 0 - nth (i + 1) U 0 <= h) -> forall k i, (i + k <= n)%nat ->
  INR p * norm dim (fun d => ent P (i + k) d - ent P i d) <= INR k * (L * h) /\ INR p * norm dim (fun d => ent P i d - ent P (i + k) d) <= INR k * (L * h).
Proof.
  intros Hp L0 ST HH. induction k as [|k IH]; intros i Hi.
  - rewrite Nat.add_0_r. rewrite (norm_ext dim (fun d => ent P i d - ent P i d) (fun _ => 0)) by (intros; ring). rewrite norm_0. cbn [INR]. lra.
  - destruct (IH i ltac:(lia)) as [I1 I2]. assert (Q := ST (i + k)%nat ltac:(lia)). assert (G := HH (i + k)%nat ltac:(lia)). rewrite distance_norm in Q.
    assert (LH := Rmult_le_compat_l L _ _ L0 G). assert (PP := pos_INR p). rewrite S_INR. replace (i + S k)%nat with (S (i + k)) by lia.
    set (e := norm dim (fun d => ent P (S (i + k)) d - ent P (i + k) d)) in *.
    assert (X : norm dim (fun d => ent P (S (i + k)) d - ent P i d) <= e + norm dim (fun d => ent P (i + k) d - ent P i d)).
    { unfold e. eapply Rle_trans; [|apply norm_add]. right. apply norm_ext. intros; ring. }
    assert (Y : norm dim (fun d => ent P i d - ent P (S (i + k)) d) = norm dim (fun d => ent P (S (i + k)) d - ent P i d)).
    { unfold norm. f_equal. apply rsum_ext. intros; ring. }
    rewrite Y. apply Rmult_le_compat_l with (r := INR p) in X; [|exact PP]. split; lra.
Qed.

Lemma polygon_close p n dim U P c L h : clamped_curve p n dim U P c -> (1 <= p)%nat -> 0 <= L -> steep p n dim U P L ->
  (forall i, (i < n)%nat -> nth (i + p + 1) U 0 - nth (i + 1) U 0 <= h) ->
  forall i u x, (i <= n)%nat -> nth i U 0 <= u -> u < nth (i + p + 1) U 0 \/ u = nth (i + p + 1) U 0 /\ u = 1 -> evaluate c u = Val (Ok x) ->
  sqrt (rsum (fun d => (nth d x 0 - ent P i d) ^ 2) dim) <= L * h.
Proof.
  intros H Hp L0 ST HH i u x Hi U1 U2 EX. assert (C : clamped p n U) by apply H. assert (F := kfun_clamped p n U C). assert (E := cl_len _ _ _ C). assert (PN := cl_deg _ _ _ C).
  assert (Hu : 0 <= u <= 1).
  { assert (A := fc_mono _ _ _ F 0%nat i ltac:(lia)). assert (B := fc_mono _ _ _ F (i + p + 1)%nat (n + p + 1)%nat ltac:(lia)).
    rewrite (fc_zero _ _ _ F 0%nat) in A by lia. rewrite (fc_one _ _ _ F (n + p + 1)%nat) in B by lia. rewrite !kfun_nth in * by lia. destruct U2 as [|[]]; lra. }
  destruct (span_ex p n (kfun U) F u Hu) as [j [Hj SP]].
  assert (LE : 0 <= L * h).
  { apply Rmult_le_pos; [exact L0|]. assert (G := HH 0%nat ltac:(lia)). assert (M := cl_sorted _ _ _ C (0 + 1)%nat (0 + p + 1)%nat ltac:(lia) ltac:(lia)). lra. }
  assert (IJ : (i <= j <= i + p)%nat).
  { unfold in_span in SP. assert (M : forall a b, (a <= b <= n + p + 1)%nat -> nth a U 0 <= nth b U 0) by (intros a b G; apply (cl_sorted _ _ _ C); lia).
    rewrite !kfun_nth in SP by lia. split.
    - destruct (Nat.le_gt_cases i j) as [|G]; [assumption|]. assert (T := M (S j) i ltac:(lia)). destruct SP as [_ [_ [S1|S1]]]; [lra|lia].
    - destruct (Nat.le_gt_cases j (i + p)) as [|G]; [assumption|]. assert (T := M (i + p + 1)%nat j ltac:(lia)). destruct U2 as [|[U2 U3]]; [lra|].
      assert (Z := U_n_lt p n (kfun U) F). rewrite kfun_nth in Z by lia. assert (T2 := M (i + p + 1)%nat n ltac:(lia)). lra. }
  destruct (weights p n (kfun U) j u F Hj SP) as [w [W0 [W1 WE]]].
  assert (R := cc_eval0 p n dim U P c u H Hu). destruct R as [y [Y1 [Y2 Y3]]].
  assert (EQ : y = x) by (unfold evaluate in *; rewrite Y1 in EX; congruence). subst y.
  fold (norm dim (fun d => nth d x 0 - ent P i d)).
  rewrite (norm_ext dim _ (fun d => rsum (fun k => w k * (ent P (j - p + k) d - ent P i d)) (S p))).
  2:{ intros d Hd. rewrite Y3 by exact Hd. rewrite WE. rewrite (rsum_ext (fun k => w k * (ent P (j - p + k) d - ent P i d)) (fun k => w k * ent P (j - p + k)%nat d + (- ent P i d) * w k)) by (intros; ring).
      rewrite rsum_plus, rsum_scal, W1. ring. }
  eapply Rle_trans; [apply (norm_comb dim (S p) w (fun k d => ent P (j - p + k) d - ent P i d)); intros; apply W0; lia|].
  apply comb_le; [intros; apply W0; lia|exact W1|]. intros k Hk.
  assert (PP : 0 < INR p) by (apply lt_0_INR; lia). apply Rmult_le_reg_l with (INR p); [exact PP|].
  destruct (Nat.le_gt_cases i (j - p + k)) as [G|G].
  - destruct (steep_leg p n dim U P L h Hp L0 ST HH (j - p + k - i) i ltac:(lia)) as [T _]. replace (i + (j - p + k - i))%nat with (j - p + k)%nat in T by lia.
    eapply Rle_trans; [exact T|]. apply Rmult_le_compat_r; [exact LE|]. apply le_INR. lia.
  - destruct (steep_leg p n dim U P L h Hp L0 ST HH (i - (j - p + k)) (j - p + k) ltac:(lia)) as [_ T]. replace (j - p + k + (i - (j - p + k)))%nat with i in T by lia.
    eapply Rle_trans; [exact T|]. apply Rmult_le_compat_r; [exact LE|]. apply le_INR. lia.
Qed.

Lemma inserted_steep us : forall p n dim U P c L, clamped_curve p n dim U P c -> 0 <= L -> steep p n dim U P L ->
  (forall u, In u us -> 0 < u < 1 /\ simple_below (us ++ U) u) -> (forall x, 0 < x < 1 -> (mult (us ++ U) x <= p + 1)%nat) ->
  exists c' U' P', inserted c us c' /\ clamped_curve p (n + length us) dim U' P' c' /\ Permutation (us ++ U) U' /\ same_function c c' /\ steep p (n + length us) dim U' P' L.
Proof.
  induction us as [|u us IH]; intros p n dim U P c L H L0 ST HU HM.
  - exists c, U, P. split; [constructor|]. rewrite Nat.add_0_r. split; [exact H|]. split; [apply Permutation_refl|]. split; [apply same_function_refl|exact ST].
  - destruct (HU u ltac:(left; reflexivity)) as [Hu Hs].
    assert (M1 : (mult U u <= p)%nat).
    { assert (T := HM u Hu). unfold mult in *. cbn [app count_occ] in T. rewrite count_occ_app in T. destruct Req_EM_T; [|contradiction]. lia. }
    assert (S1 : simple_below U u).
    { apply (simple_mono U _ u Hs). intros x. unfold mult. rewrite count_occ_app. lia. }
    destruct (curve_insert_exact p n dim U P c u H Hu M1 S1) as [c1 [U1 [P1 [E1 [H1 [Q1 F1]]]]]].
    destruct (insert_steep p n dim U P c u L H Hu M1 S1 L0 ST) as [c2 [U2 [P2 [E2 [H2 ST2]]]]].
    rewrite E1 in E2. injection E2 as <-.
    assert (K1 := wf_knots _ _ _ _ _ _ (proj1 (cc_wf _ _ _ _ _ _ H1))). assert (K2 := wf_knots _ _ _ _ _ _ (proj1 (cc_wf _ _ _ _ _ _ H2))).
    assert (EU : U2 = U1). { rewrite K1 in K2. apply (f_equal (fun k : Knots RNum => nth 0 (Uk k) [])) in K2. unfold knots_of in K2. cbn [Uk seq map nth] in K2. rewrite !kderiv_0 in K2. congruence. }
    rewrite EU in *. clear K1 K2.
    assert (PE : Permutation ((u :: us) ++ U) (us ++ U1)).
    { eapply Permutation_trans; [|apply Permutation_app_head; exact Q1]. cbn [app]. apply Permutation_middle. }
    destruct (IH p (S n) dim U1 P2 c1 L H2 L0 ST2) as [c' [U' [P' [I [H' [Q' [F' ST']]]]]]].
    + intros v Hv. destruct (HU v ltac:(right; exact Hv)) as [A B]. split; [exact A|]. apply (simple_mono _ _ v B). intros x. rewrite (mult_perm _ _ x PE). apply le_n.
    + intros x Hx. rewrite <- (mult_perm _ _ x PE). apply HM. exact Hx.
    + exists c', U', P'. split; [econstructor; eassumption|]. cbn [length]; replace (n + S (length us))%nat with (S n + length us)%nat by lia. split; [exact H'|].
      split; [eapply Permutation_trans; [exact PE|exact Q']|]. split; [eapply same_function_trans; eassumption|exact ST'].
Qed.

Lemma refinement p n dim U P c L h us : clamped_curve p n dim U P c -> (1 <= p)%nat -> 0 <= L ->
  (forall i, (i < n)%nat -> INR p * distance P dim (S i) i <= L * (nth (i + p + 1) U 0 - nth (i + 1) U 0)) ->
  (forall u, In u us -> 0 < u < 1 /\ simple_below (us ++ U) u) -> (forall x, 0 < x < 1 -> (mult (us ++ U) x <= p + 1)%nat) ->
  exists c' U' P', inserted c us c' /\ clamped_curve p (n + length us) dim U' P' c' /\ Permutation (us ++ U) U' /\
    ((forall i, (i < n + length us)%nat -> nth (i + p + 1) U' 0 - nth (i + 1) U' 0 <= h) ->
     forall i u x, (i <= n + length us)%nat -> nth i U' 0 <= u -> u < nth (i + p + 1) U' 0 \/ u = nth (i + p + 1) U' 0 /\ u = 1 -> evaluate c u = Val (Ok x) ->
     sqrt (rsum (fun d => (nth d x 0 - ent P' i d) ^ 2) dim) <= L * h).
Proof.
  intros H Hp L0 ST HU HM. destruct (inserted_steep us p n dim U P c L H L0 ST HU HM) as [c' [U' [P' [I [H' [Q' [F' ST']]]]]]].
  exists c', U', P'. split; [exact I|]. split; [exact H'|]. split; [exact Q'|]. intros HH i u x Hi U1 U2 EX.
  apply (polygon_close p _ dim U' P' c' L h H' Hp L0 ST' HH i u x Hi U1 U2). unfold evaluate in *. rewrite (F' u 0%nat). exact EX.
Qed.
