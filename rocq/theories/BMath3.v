(** * Clamped splines: spans, partition of unity, end points, derivatives,
      reversal, knot insertion (over function knots) *)

From Coq Require Import Reals List Arith Lia Lra.
From Verif Require Import Spec BMath BMath2.
Import ListNotations.
Local Open Scope R_scope.

(** clamped knots as a function, constant 1 beyond the end *)
Record fclamped (p n : nat) (U : nat -> R) : Prop := {
  fc_deg : (p <= n)%nat;
  fc_mono : mono U;
  fc_zero : forall i, (i <= p)%nat -> U i = 0;
  fc_one : forall i, (n < i)%nat -> U i = 1;
  fc_inner : forall i, (p < i <= n)%nat -> 0 < U i < 1
}.

Lemma last_nth (U : list R) d : last U d = nth (length U - 1) U d.
Proof.
  induction U as [|x U IH]; [reflexivity|]. destruct U as [|y U]; [reflexivity|].
  change (last (x :: y :: U) d) with (last (y :: U) d). rewrite IH.
  change (length (x :: y :: U)) with (S (length (y :: U))).
  replace (S (length (y :: U)) - 1)%nat with (S (length (y :: U) - 1)) by (simpl; lia). reflexivity.
Qed.

Lemma kfun_nth U i : (i < length U)%nat -> kfun U i = nth i U 0.
Proof. intros H. unfold kfun. apply nth_indep. exact H. Qed.

Lemma kfun_over U i : (length U <= i)%nat -> kfun U i = nth (length U - 1) U 0.
Proof. intros H. unfold kfun. rewrite nth_overflow by exact H. apply last_nth. Qed.

Lemma kfun_clamped p n U : clamped p n U -> fclamped p n (kfun U).
Proof.
  intros [H1 H2 H3 H4 H5 H6].
  assert (K : forall i, kfun U i = nth (Nat.min i (length U - 1)) U 0).
  { intros i. destruct (le_lt_dec (length U) i).
    - rewrite kfun_over by lia. f_equal. lia.
    - rewrite kfun_nth by lia. f_equal. lia. }
  split.
  - exact H1.
  - intros i j Hij. rewrite !K. apply H3; lia.
  - intros i Hi. rewrite K. apply H4. lia.
  - intros i Hi. rewrite K. apply H5; lia.
  - intros i Hi. rewrite K. replace (Nat.min i (length U - 1)) with i by lia. apply H6; lia.
Qed.

Lemma fclamped_shift p n U k : fclamped p n U -> (k <= p)%nat -> fclamped (p - k) (n - k) (shift k U).
Proof.
  intros [H1 H2 H3 H4 H5] Hk. unfold shift. split.
  - lia.
  - intros i j Hij. apply H2. lia.
  - intros i Hi. apply H3. lia.
  - intros i Hi. apply H4. lia.
  - intros i Hi. apply H5. lia.
Qed.

(** ** Spans *)
Definition in_span (U : nat -> R) (n : nat) (u : R) (j : nat) : Prop :=
  U j < U (S j) /\ U j <= u /\ (u < U (S j) \/ j = n /\ u = U (S n)).

(** the largest index up to [n] with [U j <= u] *)
Lemma last_le (U : nat -> R) u : forall n, U 0%nat <= u ->
  exists j, (j <= n)%nat /\ U j <= u /\ forall i, (j < i <= n)%nat -> u < U i.
Proof.
  induction n as [|n IH]; intros H0.
  - exists 0%nat. split; [lia|]. split; [exact H0|]. intros; lia.
  - destruct (Rle_lt_dec (U (S n)) u) as [H|H].
    + exists (S n). split; [lia|]. split; [exact H|]. intros; lia.
    + destruct (IH H0) as [j [H1 [H2 H3]]]. exists j. split; [lia|]. split; [exact H2|].
      intros i Hi. destruct (Nat.eq_dec i (S n)) as [->|]; [exact H|]. apply H3. lia.
Qed.

(** the largest index up to [n] with [U a < u] *)
Lemma last_lt (U : nat -> R) u : forall n, U 0%nat < u ->
  exists j, (j <= n)%nat /\ U j < u /\ forall i, (j < i <= n)%nat -> u <= U i.
Proof.
  induction n as [|n IH]; intros H0.
  - exists 0%nat. split; [lia|]. split; [exact H0|]. intros; lia.
  - destruct (Rlt_le_dec (U (S n)) u) as [H|H].
    + exists (S n). split; [lia|]. split; [exact H|]. intros; lia.
    + destruct (IH H0) as [j [H1 [H2 H3]]]. exists j. split; [lia|]. split; [exact H2|].
      intros i Hi. destruct (Nat.eq_dec i (S n)) as [->|]; [exact H|]. apply H3. lia.
Qed.

Section Clamped.
  Variables (p n : nat) (U : nat -> R).
  Hypothesis C : fclamped p n U.

  Let HU : mono U := fc_mono _ _ _ C.
  Let Hpn : (p <= n)%nat := fc_deg _ _ _ C.

  Lemma U_range i : 0 <= U i <= 1.
  Proof.
    split.
    - rewrite <- (fc_zero _ _ _ C 0%nat) by lia. apply HU. lia.
    - destruct (le_lt_dec i n).
      + rewrite <- (fc_one _ _ _ C (S n)) by lia. apply HU. lia.
      + rewrite (fc_one _ _ _ C) by lia. lra.
  Qed.

  Lemma U_n_lt : U n < 1.
  Proof.
    destruct (Nat.eq_dec p n) as [E|E].
    - rewrite (fc_zero _ _ _ C) by lia. lra.
    - apply (fc_inner _ _ _ C). lia.
  Qed.

  Lemma U_pos i : (p < i)%nat -> 0 < U i.
  Proof.
    intros H. destruct (le_lt_dec i n).
    - apply (fc_inner _ _ _ C). lia.
    - rewrite (fc_one _ _ _ C) by lia. lra.
  Qed.

  Lemma U_lt1 i : (i <= n)%nat -> U i < 1.
  Proof. intros H. assert (T := U_n_lt). assert (U i <= U n) by (apply HU; lia). lra. Qed.

  Lemma span_ex u : 0 <= u <= 1 -> exists j, (p <= j <= n)%nat /\ in_span U n u j.
  Proof.
    intros Hu. destruct (Rle_lt_dec 1 u) as [H1|H1].
    - exists n. split; [lia|]. assert (T := U_n_lt). assert (E := fc_one _ _ _ C (S n) ltac:(lia)).
      unfold in_span. rewrite E. split; [lra|]. split; [lra|]. right. split; [reflexivity|lra].
    - destruct (last_le U u n) as [j [A [B D]]].
      { rewrite (fc_zero _ _ _ C) by lia. lra. }
      exists j. assert (Hj : u < U (S j)).
      { destruct (Nat.eq_dec j n) as [->|]; [|apply D; lia]. rewrite (fc_one _ _ _ C) by lia. lra. }
      split; [|unfold in_span; split; [lra|split; [lra|left; exact Hj]]].
      split; [|exact A]. destruct (le_lt_dec p j); [assumption|].
      assert (U (S j) = 0) by (apply (fc_zero _ _ _ C); lia). lra.
  Qed.

  Lemma span_delta u j : (j <= n)%nat -> in_span U n u j -> forall i, span_ind U n u i = delta j i.
  Proof.
    intros Hjn [H1 [H2 H3]] i. unfold span_ind, delta.
    destruct (lt_eq_lt_dec i j) as [[Hi|Hi]|Hi].
    - assert (U (S i) <= U j) by (apply HU; lia).
      replace (i =? n)%nat with false by (symmetry; apply Nat.eqb_neq; lia).
      replace (i =? j)%nat with false by (symmetry; apply Nat.eqb_neq; lia).
      destruct (Rle_dec (U i) u); [|reflexivity].
      destruct (Rlt_dec u (U (S i))); [lra|reflexivity].
    - subst i. rewrite Nat.eqb_refl. destruct (Rle_dec (U j) u); [|lra].
      destruct (Rlt_dec u (U (S j))); [reflexivity|].
      destruct H3 as [H3|[H3 H4]]; [lra|]. subst j. rewrite Nat.eqb_refl.
      destruct (Req_EM_T u (U (S n))); [reflexivity|congruence].
    - assert (U (S j) <= U i) by (apply HU; lia).
      replace (i =? j)%nat with false by (symmetry; apply Nat.eqb_neq; lia).
      destruct (Rle_dec (U i) u); [|reflexivity].
      destruct H3 as [H3|[H3 H4]]; [lra|]. subst j.
      replace (i =? n)%nat with false by (symmetry; apply Nat.eqb_neq; lia).
      rewrite (fc_one _ _ _ C (S n)) in H4 by lia.
      rewrite (fc_one _ _ _ C (S i)) by lia. destruct (Rlt_dec u 1); [lra|reflexivity].
  Qed.

  Lemma span_unique u j j' : (j <= n)%nat -> (j' <= n)%nat -> in_span U n u j -> in_span U n u j' -> j = j'.
  Proof.
    intros Hj Hj' H H'. assert (E := span_delta u j Hj H j). rewrite (span_delta u j' Hj' H') in E.
    rewrite delta_eq in E. unfold delta in E. destruct (j =? j')%nat eqn:E2; [|lra].
    apply Nat.eqb_eq in E2. exact E2.
  Qed.

  Lemma bspline_piece u j i q : (j <= n)%nat -> in_span U n u j ->
    bspline U n q i u = cox (delta j) U q i u.
  Proof.
    intros Hj H. unfold bspline. apply cox_ext; [|reflexivity]. intros a _. apply span_delta; assumption.
  Qed.

  (** ** Basis functions *)
  Lemma in_span_le u j : in_span U n u j -> U j <= u <= U (S j).
  Proof. intros [H1 [H2 [H3|[H3 H4]]]]; [lra|]. subst j. lra. Qed.

  Lemma bspline_nonneg i u : 0 <= u <= 1 -> 0 <= bspline U n p i u.
  Proof.
    intros Hu. destruct (span_ex u Hu) as [j [Hj Hs]]. rewrite (bspline_piece u j) by (try lia; assumption).
    apply piece_nonneg; [exact HU|]. apply in_span_le. exact Hs.
  Qed.

  Lemma bspline_sum u : 0 <= u <= 1 -> rsum (fun i => bspline U n p i u) (S n) = 1.
  Proof.
    intros Hu. destruct (span_ex u Hu) as [j [Hj Hs]].
    rewrite (rsum_ext _ (fun i => cox (delta j) U p i u)) by (intros; apply bspline_piece; [lia|assumption]).
    apply piece_sum; [exact HU| |lia|lia]. apply Hs.
  Qed.

  (** at the end points one basis function is one, the others are zero *)
  Lemma piece_at_1 i : cox (delta n) U p i 1 = delta n i.
  Proof.
    rewrite <- (fc_one _ _ _ C (S n)) by lia.
    destruct (Nat.eq_dec p 0) as [E0|E0]; [rewrite E0; reflexivity|].
    apply (left_piece U HU n p).
    - rewrite (fc_one _ _ _ C (S n)) by lia. apply U_n_lt.
    - rewrite !(fc_one _ _ _ C) by lia. reflexivity.
    - lia.
    - lia.
  Qed.

  Lemma piece_at_0 i : cox (delta p) U p i 0 = delta 0 i.
  Proof.
    set (U' := fun i => match i with O => -1 | S i => U i end).
    assert (E : cox (delta p) U p i 0 = cox (delta (S p)) U' p (i + 1) 0).
    { rewrite <- cox_shift. apply cox_ext.
      - intros a _. unfold delta. replace (a + 1)%nat with (S a) by lia. reflexivity.
      - intros a _ _. unfold shift. replace (a + 1)%nat with (S a) by lia. reflexivity. }
    rewrite E.
    assert (HU' : mono U').
    { intros a b Hab. destruct a as [|a], b as [|b]; simpl; try lra; try lia.
      - assert (T := U_range b). lra.
      - apply HU. lia. }
    assert (Z0 : U' 1%nat = 0) by (simpl; apply (fc_zero _ _ _ C); lia).
    rewrite <- Z0. assert (T := right_piece U' HU' 0 (S p)).
    replace (0 + S p)%nat with (S p) in T by lia. rewrite T.
    - replace (S p - p)%nat with 1%nat by lia. unfold delta.
      replace (i + 1)%nat with (S i) by lia. reflexivity.
    - simpl. rewrite !(fc_zero _ _ _ C) by lia. reflexivity.
    - simpl. rewrite (fc_zero _ _ _ C p) by lia. apply U_pos. lia.
    - lia.
    - lia.
  Qed.

  Lemma in_span_0 : in_span U n 0 p.
  Proof.
    assert (T := U_pos (S p) ltac:(lia)). assert (Z := fc_zero _ _ _ C p (Nat.le_refl _)).
    unfold in_span. split; [lra|]. split; [lra|]. left. exact T.
  Qed.
  Lemma in_span_1 : in_span U n 1 n.
  Proof.
    assert (T := U_n_lt). assert (Z := fc_one _ _ _ C (S n) ltac:(lia)).
    unfold in_span. split; [lra|]. split; [lra|]. right. split; [reflexivity|lra].
  Qed.

  Lemma bspline_at_0 i : bspline U n p i 0 = delta 0 i.
  Proof. rewrite (bspline_piece 0 p) by (try lia; apply in_span_0). apply piece_at_0. Qed.
  Lemma bspline_at_1 i : bspline U n p i 1 = delta n i.
  Proof. rewrite (bspline_piece 1 n) by (try lia; apply in_span_1). apply piece_at_1. Qed.

  Lemma bspline_support i u : 0 <= u <= 1 ->
    (u < U i \/ U (i + p + 1)%nat <= u /\ (u < 1 \/ (i < n)%nat)) -> bspline U n p i u = 0.
  Proof.
    intros Hu H. destruct (Req_dec u 1) as [->|Hne].
    - rewrite bspline_at_1. apply delta_ne. destruct H as [H|[_ [H|H]]]; [|lra|lia].
      assert (T := U_range i). lra.
    - destruct (span_ex u Hu) as [j [Hj Hs]]. rewrite (bspline_piece u j) by (try lia; assumption).
      apply piece_support. destruct Hs as [H1 [H2 H3]].
      assert (H4 : u < U (S j)).
      { destruct H3 as [H3|[H3 H4]]; [exact H3|]. subst j. rewrite (fc_one _ _ _ C) in H4 by lia. contradiction. }
      destruct H as [H|[H _]].
      + left. destruct (le_lt_dec i j); [|assumption]. assert (U i <= U j) by (apply HU; lia). lra.
      + destruct (le_lt_dec j (i + p)); [|right; assumption]. exfalso.
        assert (U (S j) <= U (i + p + 1)%nat) by (apply HU; lia). lra.
  Qed.

  (** ** Splines *)
  Variable P : nat -> R.

  Definition pfun (j : nat) (x : R) : R := rsum (fun i => cox (delta j) U p i x * P i) (S n).

  Lemma spline_piece u j : (j <= n)%nat -> in_span U n u j -> spline U n p P u = pfun j u.
  Proof.
    intros Hj H. unfold spline, pfun. apply rsum_ext. intros i _. rewrite (bspline_piece u j) by assumption. reflexivity.
  Qed.

  (** only the control points [j-p..j] matter *)
  Lemma pfun_local j x : (p <= j <= n)%nat ->
    pfun j x = rsum (fun i => cox (delta j) U p (j - p + i) x * P (j - p + i)%nat) (S p).
  Proof.
    intros Hj. unfold pfun.
    rewrite (rsum_drop _ (j - p)) by (try lia; intros i Hi; rewrite piece_support by lia; ring).
    apply rsum_trunc; [lia|]. intros i H1 H2. rewrite piece_support by lia. ring.
  Qed.

  Lemma spline_at_0 : spline U n p P 0 = P 0%nat.
  Proof.
    unfold spline. rewrite (rsum_single _ _ 0%nat) by (try lia; intros i _ Hi; rewrite bspline_at_0, delta_ne by lia; ring).
    rewrite bspline_at_0, delta_eq. ring.
  Qed.
  Lemma spline_at_1 : spline U n p P 1 = P n.
  Proof.
    unfold spline. rewrite (rsum_single _ _ n) by (try lia; intros i _ Hi; rewrite bspline_at_1, delta_ne by lia; ring).
    rewrite bspline_at_1, delta_eq. ring.
  Qed.

  (** a run of knots equal to [u] has at most [m] elements *)
  Definition mult_le (u : R) (m : nat) : Prop := forall a b, U a = u -> U b = u -> (b < a + m)%nat.

  (** right neighbourhood of [u < 1] *)
  Lemma right_nbh u j : 0 <= u < 1 -> (j <= n)%nat -> in_span U n u j ->
    exists d, 0 < d /\ forall v, u <= v -> v < u + d -> v <= 1 /\ in_span U n v j.
  Proof.
    intros Hu Hj [H1 [H2 H3]].
    assert (H4 : u < U (S j)).
    { destruct H3 as [H3|[H3 H4]]; [exact H3|]. rewrite (fc_one _ _ _ C) in H4 by lia. lra. }
    exists (U (S j) - u). split; [lra|]. intros v Hv1 Hv2.
    assert (T := U_range (S j)). split; [lra|]. split; [exact H1|]. split; [lra|]. left. lra.
  Qed.

  (** left neighbourhood of [u > 0]: the piece [a] there, and how it relates to
      the span of [u] *)
  Lemma left_nbh u j : 0 < u <= 1 -> (j <= n)%nat -> in_span U n u j ->
    exists a d, (p <= a <= j)%nat /\ 0 < d /\
      (forall v, u - d < v -> v < u -> 0 <= v /\ in_span U n v a) /\
      (a = j \/ (a < j)%nat /\ U a < U (S a) /\ U (S a) = u /\ U j = u).
  Proof.
    intros Hu Hj [H1 [H2 H3]].
    destruct (Rle_lt_or_eq_dec _ _ H2) as [Hlt|Heq].
    - exists j, (u - U j). assert (T := U_range j). split; [|split; [lra|split; [|left; reflexivity]]].
      + destruct (le_lt_dec p j); [lia|]. assert (U (S j) = 0) by (apply (fc_zero _ _ _ C); lia). lra.
      + intros v Hv1 Hv2. split; [lra|]. split; [exact H1|]. split; [lra|]. left.
        destruct H3 as [H3|[-> H3]]; lra.
    - destruct (last_lt U u j) as [a [A1 [A2 A3]]].
      { rewrite (fc_zero _ _ _ C) by lia. lra. }
      assert (Haj : (a < j)%nat). { destruct (Nat.eq_dec a j) as [->|]; [lra|lia]. }
      assert (Ea : U (S a) = u).
      { assert (u <= U (S a)) by (apply A3; lia). assert (U (S a) <= U j) by (apply HU; lia). lra. }
      exists a, (u - U a). assert (T := U_range a). split; [|split; [lra|split]].
      + destruct (le_lt_dec p a); [lia|]. assert (U (S a) = 0) by (apply (fc_zero _ _ _ C); lia). lra.
      + intros v Hv1 Hv2. split; [lra|]. unfold in_span. rewrite Ea. split; [lra|]. split; [lra|]. left; lra.
      + right. split; [lia|]. split; [lra|]. split; [exact Ea|exact Heq].
  Qed.

  Lemma agree_at u j a q i : (j <= n)%nat -> in_span U n u j ->
    (a < j)%nat -> U a < U (S a) -> U (S a) = u -> U j = u -> (j - a <= q)%nat ->
    cox (delta a) U q i u = cox (delta j) U q i u.
  Proof.
    intros Hj [H1 _] H2 H3 H4 H5 H6. rewrite <- H4.
    replace j with (a + (j - a))%nat by lia.
    apply (pieces_agree U HU a (j - a)); replace (a + (j - a))%nat with j by lia; try assumption; try lia.
    congruence.
  Qed.

  (** summation by parts *)
  Lemma by_parts (g Q : nat -> R) m :
    rsum (fun i => (g i - g (S i)) * Q i) (S m) =
    rsum (fun i => g (S i) * (Q (S i) - Q i)) m + g 0%nat * Q 0%nat - g (S m) * Q m.
  Proof.
    induction m as [|m IH].
    - cbn [rsum]. ring.
    - change (rsum (fun i => (g i - g (S i)) * Q i) (S (S m))) with
        (rsum (fun i => (g i - g (S i)) * Q i) (S m) + (g (S m) - g (S (S m))) * Q (S m)).
      rewrite IH. cbn [rsum]. ring.
  Qed.

  Definition dpfun (j : nat) (x : R) : R := rsum (fun i => dcox (delta j) U p i x * P i) (S n).

  Lemma rsum_derivable (f g : nat -> R -> R) m x :
    (forall i, derivable_pt_lim (f i) x (g i x)) ->
    derivable_pt_lim (fun x => rsum (fun i => f i x) m) x (rsum (fun i => g i x) m).
  Proof.
    intros H. induction m as [|m IH]; cbn [rsum].
    - apply derivable_pt_lim_const.
    - apply (derivable_pt_lim_plus (fun x => rsum (fun i => f i x) m) (f m)); [exact IH|apply H].
  Qed.

  Lemma pfun_derivable j x : derivable_pt_lim (pfun j) x (dpfun j x).
  Proof.
    apply (rsum_derivable (fun i x => cox (delta j) U p i x * P i) (fun i x => dcox (delta j) U p i x * P i)).
    intros i. assert (T := cox_derivable (delta j) U p HU i x).
    replace (dcox (delta j) U p i x * P i) with (dcox (delta j) U p i x * P i + cox (delta j) U p i x * 0) by ring.
    apply (derivable_pt_lim_mult (fun x => cox (delta j) U p i x) (fun _ => P i)); [exact T|].
    apply derivable_pt_lim_const.
  Qed.

  Lemma delta_shift j a : (1 <= j)%nat -> delta (j - 1) a = delta j (a + 1).
  Proof.
    intros H. unfold delta. destruct (a =? j - 1)%nat eqn:E1; destruct (a + 1 =? j)%nat eqn:E2; try reflexivity;
    rewrite ?Nat.eqb_eq, ?Nat.eqb_neq in *; lia.
  Qed.

  Lemma dpfun_points j x : (1 <= p)%nat -> (p <= j <= n)%nat ->
    dpfun j x = rsum (fun i => cox (delta (j - 1)) (shift 1 U) (p - 1) i x * dpoints U p P 1 i) (S (n - 1)).
  Proof.
    intros Hp Hj. unfold dpfun.
    set (g := fun i => INR p * dinv U i p * cox (delta j) U (p - 1) i x).
    rewrite (rsum_ext _ (fun i => (g i - g (S i)) * P i)).
    2:{ intros i _. unfold g. destruct p as [|h]; [lia|]. cbn [dcox].
        replace (S h - 1)%nat with h by lia. ring. }
    rewrite by_parts.
    assert (G0 : g 0%nat = 0). { unfold g. rewrite piece_support by lia. ring. }
    assert (Gn : g (S n) = 0). { unfold g. rewrite piece_support by lia. ring. }
    rewrite G0, Gn. replace (S (n - 1)) with n by lia.
    rewrite Rmult_0_l, Rmult_0_l, Rplus_0_r, Rminus_0_r. apply rsum_ext. intros i _.
    unfold g.
    rewrite (cox_ext (delta (j - 1)) (fun a => delta j (a + 1)%nat) (shift 1 U) (shift 1 U)); [|intros; apply delta_shift; lia|reflexivity].
    rewrite cox_shift. replace (i + 1)%nat with (S i) by lia.
    cbn [dpoints]. rewrite ratio_mult, ratio_mul. unfold dinv.
    replace (i + p + 1)%nat with (S i + p)%nat by lia. replace (i + 1)%nat with (S i) by lia.
    rewrite Nat.sub_0_r. ring.
  Qed.

  Lemma in_span_shift u j : (1 <= p)%nat -> (p <= j)%nat -> in_span U n u j -> in_span (shift 1 U) (n - 1) u (j - 1).
  Proof.
    intros Hp Hj [H1 [H2 H3]]. unfold in_span, shift.
    replace (j - 1 + 1)%nat with j by lia. replace (S (j - 1) + 1)%nat with (S j) by lia.
    replace (S (n - 1) + 1)%nat with (S n) by lia.
    split; [exact H1|]. split; [exact H2|]. destruct H3 as [H3|[-> H3]]; [left; exact H3|right; auto].
  Qed.
End Clamped.

Lemma dspline_1 p n U P u j : fclamped p n U -> (1 <= p)%nat -> (p <= j <= n)%nat -> in_span U n u j ->
  dspline U n p P 1 u = dpfun p n U P j u.
Proof.
  intros C Hp Hj H. rewrite dpfun_points by assumption. unfold dspline. apply rsum_ext. intros i _.
  rewrite (bspline_piece (p - 1) (n - 1) (shift 1 U)) with (j := (j - 1)%nat); [reflexivity| | |].
  - apply fclamped_shift; assumption.
  - lia.
  - eapply in_span_shift; eauto. lia.
Qed.

(** the [k+1]-st derivative as the first derivative of the [k]-th *)
Lemma dpoints_step U p P k i : (k <= p)%nat ->
  dpoints U p P (S k) i = dpoints (shift k U) (p - k) (dpoints U p P k) 1 i.
Proof.
  intros Hk. cbn [dpoints]. unfold shift. rewrite Nat.sub_0_r.
  replace (i + (p - k) + 1 + k)%nat with (i + p + 1)%nat by lia.
  replace (i + 1 + k)%nat with (i + S k)%nat by lia. reflexivity.
Qed.

Lemma rsum_ext_n f g n m : n = m -> (forall i, (i < n)%nat -> f i = g i) -> rsum f n = rsum g m.
Proof. intros <- H. apply rsum_ext. exact H. Qed.

Lemma bspline_ext_shift U a b n p i u : bspline (shift a (shift b U)) n p i u = bspline (shift (a + b) U) n p i u.
Proof.
  unfold bspline. apply cox_ext.
  - intros c _. unfold span_ind, shift. replace (c + a + b)%nat with (c + (a + b))%nat by lia.
    replace (S c + a + b)%nat with (S c + (a + b))%nat by lia.
    replace (S n + a + b)%nat with (S n + (a + b))%nat by lia. reflexivity.
  - intros c _ _. unfold shift. f_equal. lia.
Qed.

Lemma dspline_step U n p P k u : (k < p)%nat -> (p <= n)%nat ->
  dspline U n p P (S k) u = dspline (shift k U) (n - k) (p - k) (dpoints U p P k) 1 u.
Proof.
  intros Hk Hn. unfold dspline. apply rsum_ext_n; [lia|]. intros i _.
  rewrite dpoints_step by lia. rewrite bspline_ext_shift.
  replace (n - S k)%nat with (n - k - 1)%nat by lia. replace (p - S k)%nat with (p - k - 1)%nat by lia.
  reflexivity.
Qed.

Lemma shift_0 U i : shift 0 U i = U i.
Proof. unfold shift. f_equal. lia. Qed.

Lemma bspline_ext U U' n p i u : (forall i, U i = U' i) -> bspline U n p i u = bspline U' n p i u.
Proof.
  intros H. unfold bspline. apply cox_ext; [|intros; apply H].
  intros a _. unfold span_ind. rewrite !H. reflexivity.
Qed.

Lemma dspline_0 U n p P u : dspline U n p P 0 u = spline U n p P u.
Proof.
  unfold dspline, spline. rewrite !Nat.sub_0_r. apply rsum_ext. intros i _. cbn [dpoints]. f_equal.
  apply bspline_ext. apply shift_0.
Qed.

Lemma dspline_spline U n p P k u :
  dspline U n p P k u = spline (shift k U) (n - k) (p - k) (dpoints U p P k) u.
Proof. reflexivity. Qed.

(** ** Gluing one-sided information *)
Lemma glue_derivative f g h u l : 0 <= u <= 1 ->
  (u < 1 -> exists d, 0 < d /\ forall v, u <= v -> v < u + d -> v <= 1 -> f v = g v) ->
  (0 < u -> exists d, 0 < d /\ forall v, u - d < v -> v < u -> 0 <= v -> f v = h v) ->
  f u = g u -> f u = h u ->
  (u < 1 -> derivable_pt_lim g u l) -> (0 < u -> derivable_pt_lim h u l) -> derivative_on01 f u l.
Proof.
  intros Hu Hr Hl Eg Eh Dg Dh eps Heps.
  assert (R : exists dr, 0 < dr /\ forall v, u < v -> v < u + dr -> v <= 1 -> Rabs ((f v - f u) / (v - u) - l) < eps).
  { destruct (Rlt_le_dec u 1) as [H|H].
    - destruct (Hr H) as [d [Hd1 Hd2]]. destruct (Dg H eps Heps) as [e He].
      exists (Rmin d e). split; [apply Rmin_pos; [exact Hd1|apply cond_pos]|].
      intros v V1 V2 V3. assert (M1 := Rmin_l d e). assert (M2 := Rmin_r d e).
      rewrite (Hd2 v) by lra. rewrite Eg. specialize (He (v - u) ltac:(lra)).
      replace (u + (v - u)) with v in He by ring. apply He. rewrite Rabs_pos_eq; lra.
    - exists 1. split; [lra|]. intros; lra. }
  assert (L : exists dl, 0 < dl /\ forall v, u - dl < v -> v < u -> 0 <= v -> Rabs ((f v - f u) / (v - u) - l) < eps).
  { destruct (Rlt_le_dec 0 u) as [H|H].
    - destruct (Hl H) as [d [Hd1 Hd2]]. destruct (Dh H eps Heps) as [e He].
      exists (Rmin d e). split; [apply Rmin_pos; [exact Hd1|apply cond_pos]|].
      intros v V1 V2 V3. assert (M1 := Rmin_l d e). assert (M2 := Rmin_r d e).
      rewrite (Hd2 v) by lra. rewrite Eh. specialize (He (v - u) ltac:(lra)).
      replace (u + (v - u)) with v in He by ring. apply He. rewrite Rabs_left; lra.
    - exists 1. split; [lra|]. intros; lra. }
  destruct R as [dr [R1 R2]]. destruct L as [dl [L1 L2]].
  exists (Rmin dr dl). split; [apply Rmin_pos; assumption|].
  intros v Hv Hne Hab. assert (M1 := Rmin_l dr dl). assert (M2 := Rmin_r dr dl).
  destruct (Rlt_le_dec u v).
  - rewrite Rabs_pos_eq in Hab by lra. apply R2; lra.
  - rewrite Rabs_left in Hab by lra. apply L2; lra.
Qed.

Lemma derivative_continuous f u l : derivative_on01 f u l -> continuous_on01 f u.
Proof.
  intros H eps Heps. destruct (H 1 Rlt_0_1) as [d [Hd1 Hd2]].
  set (M := Rabs l + 1). assert (HM : 0 < M) by (unfold M; assert (T := Rabs_pos l); lra).
  exists (Rmin d (eps / M)). split.
  - apply Rmin_pos; [exact Hd1|]. apply Rdiv_lt_0_compat; assumption.
  - intros v Hv Hab. assert (M1 := Rmin_l d (eps / M)). assert (M2 := Rmin_r d (eps / M)).
    destruct (Req_dec v u) as [->|Hne]; [rewrite Rminus_diag_eq, Rabs_R0 by reflexivity; exact Heps|].
    specialize (Hd2 v Hv Hne ltac:(lra)).
    assert (B : Rabs ((f v - f u) / (v - u)) < M).
    { unfold M. replace ((f v - f u) / (v - u)) with (((f v - f u) / (v - u) - l) + l) by ring.
      eapply Rle_lt_trans; [apply Rabs_triang|]. lra. }
    replace (f v - f u) with ((f v - f u) / (v - u) * (v - u)) by (field; lra).
    rewrite Rabs_mult. assert (P1 : 0 < Rabs (v - u)) by (apply Rabs_pos_lt; lra).
    assert (P2 : Rabs (v - u) < eps / M) by lra.
    apply Rlt_trans with (M * Rabs (v - u)).
    + apply Rmult_lt_compat_r; assumption.
    + replace eps with (M * (eps / M)) by (field; lra). apply Rmult_lt_compat_l; assumption.
Qed.

Lemma glue_continuous f g h u : 0 <= u <= 1 ->
  (u < 1 -> exists d, 0 < d /\ forall v, u <= v -> v < u + d -> v <= 1 -> f v = g v) ->
  (0 < u -> exists d, 0 < d /\ forall v, u - d < v -> v < u -> 0 <= v -> f v = h v) ->
  f u = g u -> f u = h u ->
  (exists l, derivable_pt_lim g u l) -> (exists l, derivable_pt_lim h u l) -> continuous_on01 f u.
Proof.
  intros Hu Hr Hl Eg Eh [lg Dg] [lh Dh] eps Heps.
  assert (Cg : continuity_pt g u) by (apply derivable_continuous_pt; exists lg; exact Dg).
  assert (Ch : continuity_pt h u) by (apply derivable_continuous_pt; exists lh; exact Dh).
  destruct (Cg eps Heps) as [eg [Eg1 Eg2]]. destruct (Ch eps Heps) as [eh [Eh1 Eh2]].
  unfold dist in *; simpl in *; unfold R_dist in *.
  assert (R : exists dr, 0 < dr /\ forall v, u <= v -> v < u + dr -> v <= 1 -> Rabs (f v - f u) < eps).
  { destruct (Rlt_le_dec u 1) as [H|H].
    - destruct (Hr H) as [d [Hd1 Hd2]]. exists (Rmin d eg). split; [apply Rmin_pos; assumption|].
      intros v V1 V2 V3. assert (M1 := Rmin_l d eg). assert (M2 := Rmin_r d eg).
      rewrite (Hd2 v) by lra. rewrite Eg.
      destruct (Req_dec u v) as [<-|Hne]; [rewrite Rminus_diag_eq, Rabs_R0 by reflexivity; exact Heps|].
      apply Eg2. split; [split; [exact I|exact Hne]|]. rewrite Rabs_pos_eq; lra.
    - exists 1. split; [lra|]. intros v V1 V2 V3. replace v with u by lra.
      rewrite Rminus_diag_eq, Rabs_R0 by reflexivity. exact Heps. }
  assert (L : exists dl, 0 < dl /\ forall v, u - dl < v -> v < u -> 0 <= v -> Rabs (f v - f u) < eps).
  { destruct (Rlt_le_dec 0 u) as [H|H].
    - destruct (Hl H) as [d [Hd1 Hd2]]. exists (Rmin d eh). split; [apply Rmin_pos; assumption|].
      intros v V1 V2 V3. assert (M1 := Rmin_l d eh). assert (M2 := Rmin_r d eh).
      rewrite (Hd2 v) by lra. rewrite Eh.
      apply Eh2. split; [split; [exact I|lra]|]. rewrite Rabs_left; lra.
    - exists 1. split; [lra|]. intros; lra. }
  destruct R as [dr [R1 R2]]. destruct L as [dl [L1 L2]].
  exists (Rmin dr dl). split; [apply Rmin_pos; assumption|].
  intros v Hv Hab. assert (M1 := Rmin_l dr dl). assert (M2 := Rmin_r dr dl).
  destruct (Rle_lt_dec u v).
  - rewrite Rabs_pos_eq in Hab by lra. apply R2; lra.
  - rewrite Rabs_left in Hab by lra. apply L2; lra.
Qed.

(** ** Derivative and continuity of a clamped spline *)
Section Calculus.
  Variables (p n : nat) (U : nat -> R).
  Hypothesis C : fclamped p n U.
  Variable P : nat -> R.

  Theorem spline_derivative u : (1 <= p)%nat -> 0 <= u <= 1 ->
    (0 < u < 1 -> mult_le U u (p - 1)) ->
    derivative_on01 (spline U n p P) u (dspline U n p P 1 u).
  Proof.
    intros Hp Hu Hm. destruct (span_ex p n U C u Hu) as [j [Hj Hs]].
    rewrite (dspline_1 p n U P u j) by assumption.
    assert (E0 : spline U n p P u = pfun p n U P j u) by (apply (spline_piece p n U C); [lia|exact Hs]).
    assert (Hr : u < 1 -> exists d, 0 < d /\ forall v, u <= v -> v < u + d -> v <= 1 -> spline U n p P v = pfun p n U P j v).
    { intros H. destruct (right_nbh p n U C u j) as [d [D1 D2]]; [lra|lia|exact Hs|].
      exists d. split; [exact D1|]. intros v V1 V2 V3. apply (spline_piece p n U C); [lia|]. apply D2; assumption. }
    destruct (Rlt_le_dec 0 u) as [Hu0|Hu0].
    - destruct (left_nbh p n U C u j) as [a [d [A1 [A2 [A3 A4]]]]]; [lra|lia|exact Hs|].
      assert (Hl : exists d, 0 < d /\ forall v, u - d < v -> v < u -> 0 <= v -> spline U n p P v = pfun p n U P a v).
      { exists d. split; [exact A2|]. intros v V1 V2 V3. apply (spline_piece p n U C); [lia|]. apply A3; assumption. }
      destruct A4 as [->|[B1 [B2 [B3 B4]]]].
      + apply (glue_derivative _ (pfun p n U P j) (pfun p n U P j)); auto.
        * intros _. apply (pfun_derivable p n U C).
        * intros _. apply (pfun_derivable p n U C).
      + assert (Hu1 : u < 1).
        { destruct Hs as [S1 _]. assert (T := U_range p n U C (S j)). lra. }
        assert (Hrun : (j - a <= p - 1)%nat).
        { specialize (Hm ltac:(lra) (S a) j B3 B4). lia. }
        assert (Agr : forall q i, (j - a <= q)%nat -> cox (delta a) U q i u = cox (delta j) U q i u).
        { intros q i Hq. apply (agree_at p n U C u j a q i); auto. lia. }
        apply (glue_derivative _ (pfun p n U P j) (pfun p n U P a)); auto.
        * rewrite E0. unfold pfun. apply rsum_ext. intros i _. rewrite (Agr p) by lia. reflexivity.
        * intros _. apply (pfun_derivable p n U C).
        * intros _. replace (dpfun p n U P j u) with (dpfun p n U P a u); [apply (pfun_derivable p n U C)|].
          unfold dpfun. apply rsum_ext. intros i _. f_equal. destruct p as [|h]; [reflexivity|].
          cbn [dcox]. rewrite !(Agr h) by lia. reflexivity.
    - apply (glue_derivative _ (pfun p n U P j) (pfun p n U P j)); auto.
      + intros H; lra.
      + intros _. apply (pfun_derivable p n U C).
      + intros _. apply (pfun_derivable p n U C).
  Qed.

  (** the right-hand derivative exists at every knot, whatever its multiplicity *)
  Theorem spline_right_derivative u : (1 <= p)%nat -> 0 <= u < 1 ->
    right_derivative_on01 (spline U n p P) u (dspline U n p P 1 u).
  Proof.
    intros Hp Hu. destruct (span_ex p n U C u) as [j [Hj Hs]]; [lra|].
    rewrite (dspline_1 p n U P u j) by assumption.
    destruct (right_nbh p n U C u j) as [d [D1 D2]]; [lra|lia|exact Hs|].
    intros eps Heps. destruct (pfun_derivable p n U C P j u eps Heps) as [e He].
    exists (Rmin d e). split; [apply Rmin_pos; [exact D1|apply cond_pos]|].
    intros v V1 V2 V3. assert (M1 := Rmin_l d e). assert (M2 := Rmin_r d e).
    rewrite (spline_piece p n U C P v j) by (try lia; apply D2; lra).
    rewrite (spline_piece p n U C P u j) by (try lia; exact Hs).
    specialize (He (v - u) ltac:(lra)). replace (u + (v - u)) with v in He by ring. apply He.
    rewrite Rabs_pos_eq; lra.
  Qed.

  Theorem spline_continuous u : 0 <= u <= 1 -> (0 < u < 1 -> mult_le U u p) ->
    continuous_on01 (spline U n p P) u.
  Proof.
    intros Hu Hm. destruct (span_ex p n U C u Hu) as [j [Hj Hs]].
    assert (E0 : spline U n p P u = pfun p n U P j u) by (apply (spline_piece p n U C); [lia|exact Hs]).
    assert (Hr : u < 1 -> exists d, 0 < d /\ forall v, u <= v -> v < u + d -> v <= 1 -> spline U n p P v = pfun p n U P j v).
    { intros H. destruct (right_nbh p n U C u j) as [d [D1 D2]]; [lra|lia|exact Hs|].
      exists d. split; [exact D1|]. intros v V1 V2 V3. apply (spline_piece p n U C); [lia|]. apply D2; assumption. }
    assert (Dj : exists l, derivable_pt_lim (pfun p n U P j) u l) by (eexists; apply (pfun_derivable p n U C)).
    destruct (Rlt_le_dec 0 u) as [Hu0|Hu0].
    - destruct (left_nbh p n U C u j) as [a [d [A1 [A2 [A3 A4]]]]]; [lra|lia|exact Hs|].
      assert (Hl : exists d, 0 < d /\ forall v, u - d < v -> v < u -> 0 <= v -> spline U n p P v = pfun p n U P a v).
      { exists d. split; [exact A2|]. intros v V1 V2 V3. apply (spline_piece p n U C); [lia|]. apply A3; assumption. }
      destruct A4 as [->|[B1 [B2 [B3 B4]]]].
      + apply (glue_continuous _ (pfun p n U P j) (pfun p n U P j)); auto.
      + assert (Hu1 : u < 1).
        { destruct Hs as [S1 _]. assert (T := U_range p n U C (S j)). lra. }
        assert (Hrun : (j - a <= p)%nat).
        { specialize (Hm ltac:(lra) (S a) j B3 B4). lia. }
        apply (glue_continuous _ (pfun p n U P j) (pfun p n U P a)); auto.
        * rewrite E0. unfold pfun. apply rsum_ext. intros i _. f_equal. symmetry.
          apply (agree_at p n U C u j a p i); auto. lia.
        * eexists; apply (pfun_derivable p n U C).
    - apply (glue_continuous _ (pfun p n U P j) (pfun p n U P j)); auto. intros H; lra.
  Qed.
End Calculus.

Lemma mult_le_shift U u m k : mult_le U u m -> mult_le (shift k U) u m.
Proof. intros H a b Ha Hb. unfold shift in *. specialize (H _ _ Ha Hb). lia. Qed.

Theorem dspline_derivative p n U P k u : fclamped p n U -> (k < p)%nat -> 0 <= u <= 1 ->
  (0 < u < 1 -> mult_le U u (p - k - 1)) ->
  derivative_on01 (dspline U n p P k) u (dspline U n p P (S k) u).
Proof.
  intros C Hk Hu Hm. rewrite dspline_step by (try lia; apply (fc_deg _ _ _ C)).
  apply (spline_derivative (p - k) (n - k) (shift k U)).
  - apply fclamped_shift; [exact C|lia].
  - lia.
  - exact Hu.
  - intros H. apply mult_le_shift, Hm, H.
Qed.

Theorem dspline_right_derivative p n U P k u : fclamped p n U -> (k < p)%nat -> 0 <= u < 1 ->
  right_derivative_on01 (dspline U n p P k) u (dspline U n p P (S k) u).
Proof.
  intros C Hk Hu. rewrite dspline_step by (try lia; apply (fc_deg _ _ _ C)).
  apply (spline_right_derivative (p - k) (n - k) (shift k U)).
  - apply fclamped_shift; [exact C|lia].
  - lia.
  - exact Hu.
Qed.

Theorem dspline_continuous p n U P k u : fclamped p n U -> (k <= p)%nat -> 0 <= u <= 1 ->
  (0 < u < 1 -> mult_le U u (p - k)) -> continuous_on01 (dspline U n p P k) u.
Proof.
  intros C Hk Hu Hm. apply (spline_continuous (p - k) (n - k) (shift k U)).
  - apply fclamped_shift; assumption.
  - exact Hu.
  - intros H. apply mult_le_shift, Hm, H.
Qed.
