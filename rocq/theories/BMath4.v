(** * Clamped splines: reversal, knot insertion, splitting (over function knots) *)

From Coq Require Import Reals List Arith Lia Lra.
From Verif Require Import Spec BMath BMath2 BMath3.
Import ListNotations.
Local Open Scope R_scope.

(** ** Reversal *)
Section Reverse.
  Variables (p n : nat) (U V : nat -> R).
  Hypothesis C : fclamped p n U.
  Hypothesis CV : fclamped p n V.
  Hypothesis HV : forall k, (k <= n + p + 1)%nat -> V k = 1 - U (n + p + 1 - k)%nat.

  Lemma rev_piece j i x : (i <= n)%nat -> (j <= n + p)%nat ->
    cox (delta j) V p i (1 - x) = cox (delta (n + p - j)) U p (n - i) x.
  Proof.
    intros Hi Hj.
    rewrite (cox_ext (delta j) (fun a => delta (n + p - j) (n + p + 1 - 1 - a)%nat) V V p i (1 - x)); [| |reflexivity].
    - rewrite (cox_rev _ U V (n + p + 1)) by (try lia; exact HV). f_equal. lia.
    - intros a Ha. unfold delta. destruct (a =? j)%nat eqn:E1; destruct (n + p + 1 - 1 - a =? n + p - j)%nat eqn:E2;
      try reflexivity; rewrite ?Nat.eqb_eq, ?Nat.eqb_neq in *; lia.
  Qed.

  Theorem spline_reverse (P : nat -> R) u : 0 <= u <= 1 ->
    (0 < u < 1 -> mult_le U (1 - u) p) ->
    spline V n p (fun i => P (n - i)%nat) u = spline U n p P (1 - u).
  Proof.
    intros Hu Hm. destruct (span_ex p n V CV u Hu) as [j [Hj Hs]].
    rewrite (spline_piece p n V CV _ u j) by (try lia; exact Hs).
    assert (E : pfun p n V (fun i => P (n - i)%nat) j u = pfun p n U P (n + p - j) (1 - u)).
    { unfold pfun. rewrite <- (rsum_rev (fun i => cox (delta (n + p - j)) U p i (1 - u) * P i)).
      apply rsum_ext. intros i Hi. replace u with (1 - (1 - u)) at 1 by ring.
      rewrite rev_piece by lia. replace (S n - 1 - i)%nat with (n - i)%nat by lia. reflexivity. }
    rewrite E. clear E.
    destruct (span_ex p n U C (1 - u)) as [k [Hk Hks]]; [lra|].
    rewrite (spline_piece p n U C P (1 - u) k) by (try lia; exact Hks).
    set (j' := (n + p - j)%nat). assert (Hj' : (p <= j' <= n)%nat) by (unfold j'; lia).
    (* [j'] is the span of [1 - u], or the one to the left of it *)
    assert (Hs' : U j' < U (S j') /\ 1 - u <= U (S j') /\ (U j' < 1 - u \/ u = 1 /\ j' = p)).
    { destruct Hs as [S1 [S2 S3]]. rewrite !HV in S1 by lia. rewrite HV in S2 by lia.
      replace (n + p + 1 - j)%nat with (S j') in S1, S2 by lia.
      replace (n + p + 1 - S j)%nat with j' in S1 by lia.
      split; [lra|]. split; [lra|]. destruct S3 as [S3|[S3 S4]].
      - left. rewrite HV in S3 by lia. replace (n + p + 1 - S j)%nat with j' in S3 by lia. lra.
      - right. rewrite (fc_one _ _ _ CV) in S4 by lia. split; [exact S4|]. unfold j'. lia. }
    destruct Hs' as [T1 [T2 T3]].
    destruct (Nat.eq_dec k j') as [->|Hne]; [reflexivity|].
    (* otherwise [1 - u] is a knot between the two *)
    assert (HU := fc_mono _ _ _ C). destruct Hks as [K1 [K2 K3]].
    assert (Hlt : (j' < k)%nat).
    { destruct (le_lt_dec k j'); [|assumption]. exfalso.
      assert (U (S k) <= U j') by (apply HU; lia). destruct T3 as [T3|[T3 T4]].
      - destruct K3 as [K3|[K3 K4]]; [lra|]. lia.
      - lia. }
    assert (E1 : U (S j') <= U k) by (apply HU; lia).
    assert (E2 : U (S j') = 1 - u) by lra. assert (E3 : U k = 1 - u) by lra.
    assert (R1 := U_pos p n U C (S j') ltac:(lia)). assert (R2 := U_lt1 p n U C k ltac:(lia)).
    assert (Hmm := Hm ltac:(lra) (S j') k E2 E3).
    unfold pfun. apply rsum_ext. intros i _. f_equal.
    apply (agree_at p n U C (1 - u) k j' p i); try lia; try assumption. split; [exact K1|split; assumption].
  Qed.
End Reverse.

(** the reversed knots are clamped *)
Lemma fclamped_reverse p n U V : fclamped p n U ->
  (forall k, (k <= n + p + 1)%nat -> V k = 1 - U (n + p + 1 - k)%nat) ->
  (forall k, (n + p + 1 < k)%nat -> V k = 1) -> fclamped p n V.
Proof.
  intros C H1 H2. assert (HU := fc_mono _ _ _ C). split.
  - apply (fc_deg _ _ _ C).
  - intros i j Hij. destruct (le_lt_dec j (n + p + 1)).
    + rewrite !H1 by lia. assert (U (n + p + 1 - j)%nat <= U (n + p + 1 - i)%nat) by (apply HU; lia). lra.
    + rewrite (H2 j) by lia. destruct (le_lt_dec i (n + p + 1)); [|rewrite H2 by lia; lra].
      rewrite H1 by lia. assert (T := U_range p n U C (n + p + 1 - i)). lra.
  - intros i Hi. assert (T := fc_deg _ _ _ C). rewrite H1 by lia. rewrite (fc_one _ _ _ C) by lia. ring.
  - intros i Hi. destruct (le_lt_dec i (n + p + 1)); [|apply H2; lia].
    rewrite H1 by lia. rewrite (fc_zero _ _ _ C) by lia. ring.
  - intros i Hi. rewrite H1 by lia. assert (T := fc_inner _ _ _ C (n + p + 1 - i)%nat ltac:(lia)). lra.
Qed.

(** ** Knot insertion *)
Section Insert.
  Variables (p n : nat) (U : nat -> R).
  Hypothesis C : fclamped p n U.
  Variables (l : nat) (t : R).
  Hypothesis Ht : 0 < t < 1.
  Hypothesis Hl : (p <= l <= n)%nat.
  Hypothesis Hlt : U l <= t <= U (S l).

  Let V := ins_knots U l t.

  Lemma fclamped_ins : fclamped p (S n) V.
  Proof.
    assert (HU := fc_mono _ _ _ C). assert (T := fc_deg _ _ _ C).
    split.
    - lia.
    - apply ins_mono; [exact HU| |]; apply Hlt.
    - intros i Hi. unfold V. rewrite ins_le by lia. apply (fc_zero _ _ _ C). exact Hi.
    - intros i Hi. destruct i as [|i]; [lia|]. unfold V. rewrite ins_gt by lia. apply (fc_one _ _ _ C). lia.
    - intros i Hi. unfold V. destruct (le_lt_dec i l).
      + rewrite ins_le by lia. apply (fc_inner _ _ _ C). lia.
      + destruct i as [|i]; [lia|]. destruct (Nat.eq_dec i l) as [->|Hne].
        * rewrite ins_eq. exact Ht.
        * rewrite ins_gt by lia. apply (fc_inner _ _ _ C). lia.
  Qed.

  Lemma ins_span u j : 0 <= u <= 1 -> (j <= n)%nat -> in_span U n u j ->
    exists j', (j' <= S n)%nat /\ in_span V (S n) u j' /\
      (j < l /\ j' = j \/ l < j /\ j' = S j \/ j = l /\ (j' = l \/ j' = S l))%nat.
  Proof.
    intros Hu Hj [H1 [H2 H3]]. assert (HU := fc_mono _ _ _ C).
    destruct (lt_eq_lt_dec j l) as [[H|H]|H].
    - exists j. split; [lia|]. split; [|lia]. unfold in_span, V. rewrite !ins_le by lia.
      split; [exact H1|]. split; [exact H2|]. left. destruct H3 as [H3|[H3 _]]; [exact H3|lia].
    - subst j. destruct (Rlt_le_dec u t) as [Hut|Hut].
      + exists l. split; [lia|]. split; [|lia]. unfold in_span, V. rewrite ins_eq, ins_le by lia.
        split; [lra|]. split; [exact H2|]. left. exact Hut.
      + exists (S l). split; [lia|]. split; [|lia]. unfold in_span, V. rewrite ins_eq, (ins_gt U l t (S l)) by lia.
        rewrite (ins_gt U l t (S n)) by lia.
        split; [|split; [exact Hut|]].
        * destruct H3 as [H3|[-> H3]]; [lra|]. rewrite (fc_one _ _ _ C (S n)) by lia. lra.
        * destruct H3 as [H3|[-> H3]]; [left; exact H3|right; auto].
    - exists (S j). split; [lia|]. split; [|lia]. unfold in_span, V. rewrite !ins_gt by lia.
      split; [exact H1|]. split; [exact H2|]. destruct H3 as [H3|[-> H3]]; [left; exact H3|right; auto].
  Qed.

  Theorem spline_insert (P : nat -> R) u : 0 <= u <= 1 ->
    spline V (S n) p (fun i => ins_coef U l t p i * P i + (1 - ins_coef U l t p i) * P (i - 1)%nat) u
    = spline U n p P u.
  Proof.
    intros Hu. destruct (span_ex p n U C u Hu) as [j [Hj Hs]].
    destruct (ins_span u j Hu ltac:(lia) Hs) as [j' [Hj' [Hs' Hc]]].
    rewrite (spline_piece p n U C P u j) by (try lia; exact Hs).
    rewrite (spline_piece p (S n) V fclamped_ins _ u j') by (try lia; exact Hs').
    unfold pfun. symmetry. apply boehm_sum; try lia; try assumption; try apply Hlt.
    - apply (fc_mono _ _ _ C).
    - apply Hs'.
  Qed.

  (** denominators of the insertion formula do not vanish if the multiplicity
      before insertion is at most [p] *)
  Lemma ins_denominator i : (1 <= p)%nat -> mult_le U t p -> (l < i + p)%nat -> (i <= l)%nat -> U (i + p)%nat <> U i.
  Proof.
    intros Hp Hm H1 H2 E. assert (HU := fc_mono _ _ _ C).
    assert (U i <= U l) by (apply HU; lia). assert (U (S l) <= U (i + p)%nat) by (apply HU; lia).
    assert (E1 : U i = t) by lra. assert (E2 : U (i + p)%nat = t) by lra.
    specialize (Hm _ _ E1 E2). lia.
  Qed.
End Insert.

(** ** Splitting at a knot of multiplicity exactly [p] *)
Section Split.
  Variables (p n : nat) (V : nat -> R).
  Hypothesis C : fclamped p n V.
  Variables (b : nat) (u : R).
  Hypothesis Hu : 0 < u < 1.
  Hypothesis Hb : V b < u.
  Hypothesis Hrun : forall i, (b < i <= b + p)%nat -> V i = u.
  Hypothesis Hr : u < V (S (b + p)).
  Hypothesis Hbn : (p <= b /\ b + p <= n)%nat.

  Lemma in_span_u : in_span V n u (b + p).
  Proof.
    split; [|split; [|left; exact Hr]].
    - destruct (Nat.eq_dec p 0) as [E|E].
      + rewrite E in *. rewrite Nat.add_0_r in *. lra.
      + rewrite (Hrun (b + p)) by lia. exact Hr.
    - destruct (Nat.eq_dec p 0) as [E|E].
      + rewrite E, Nat.add_0_r. lra.
      + rewrite (Hrun (b + p)) by lia. lra.
  Qed.

  Lemma split_value (P : nat -> R) : spline V n p P u = P b.
  Proof.
    rewrite (spline_piece p n V C P u (b + p)) by (try lia; apply in_span_u).
    assert (E : forall i, cox (delta (b + p)) V p i u = delta b i).
    { intros i. destruct (Nat.eq_dec p 0) as [E|E].
      - rewrite E, Nat.add_0_r. reflexivity.
      - rewrite <- (Hrun (S b)) by lia. rewrite right_piece; try lia.
        + f_equal. lia.
        + apply (fc_mono _ _ _ C).
        + rewrite !Hrun by lia. reflexivity.
        + rewrite Hrun by lia. exact Hr. }
    unfold pfun. rewrite (rsum_single _ _ b).
    - rewrite E, delta_eq. ring.
    - lia.
    - intros i _ Hi. rewrite E, delta_ne by exact Hi. ring.
  Qed.

  (** left part *)
  Section Left.
    Variable L : nat -> R.
    Hypothesis HL : forall i, (i <= b + p)%nat -> L i = V i / u.
    Hypothesis HL1 : forall i, (b + p < i)%nat -> L i = 1.

    Lemma split_left_clamped : fclamped p b L.
    Proof.
      assert (HV := fc_mono _ _ _ C). assert (Iu : 0 < / u) by (apply Rinv_0_lt_compat; lra).
      assert (Vle : forall i, (i <= b + p)%nat -> V i <= u).
      { intros i Hi. destruct (le_lt_dec i b).
        - assert (V i <= V b) by (apply HV; lia). lra.
        - rewrite Hrun by lia. lra. }
      assert (Eu : u / u = 1) by (field; lra).
      split.
      - lia.
      - intros i j Hij. destruct (le_lt_dec j (b + p)).
        + rewrite !HL by lia. apply Rmult_le_compat_r; [lra|]. apply HV. exact Hij.
        + rewrite (HL1 j) by lia. destruct (le_lt_dec i (b + p)); [|rewrite HL1 by lia; lra].
          rewrite HL by lia. rewrite <- Eu. apply Rmult_le_compat_r; [lra|]. apply Vle. lia.
      - intros i Hi. rewrite HL by lia. rewrite (fc_zero _ _ _ C) by lia. unfold Rdiv. ring.
      - intros i Hi. destruct (le_lt_dec i (b + p)); [|apply HL1; lia].
        rewrite HL by lia. rewrite Hrun by lia. exact Eu.
      - intros i Hi. rewrite HL by lia. assert (T := U_pos p n V C i ltac:(lia)).
        assert (V i <= V b) by (apply HV; lia).
        split; [apply Rdiv_lt_0_compat; lra|]. rewrite <- Eu. apply Rmult_lt_compat_r; lra.
    Qed.

    Theorem split_left_spline (P : nat -> R) t : 0 <= t <= 1 ->
      spline L b p P t = spline V n p P (t * u).
    Proof.
      intros Ht. assert (HV := fc_mono _ _ _ C).
      destruct (Req_dec t 1) as [->|Hne].
      { rewrite Rmult_1_l, split_value. apply (spline_at_1 p b L split_left_clamped). }
      destruct (span_ex p b L split_left_clamped t Ht) as [j [Hj Hs]].
      rewrite (spline_piece p b L split_left_clamped P t j) by (try lia; exact Hs).
      assert (Hs' : in_span V n (t * u) j).
      { destruct Hs as [S1 [S2 S3]]. rewrite HL in S2 by lia.
        assert (A : V j <= t * u).
        { replace (V j) with (V j / u * u) by (field; lra). apply Rmult_le_compat_r; lra. }
        assert (B : t * u < V (S j)).
        { destruct S3 as [S3|[S3 S4]].
          - destruct (le_lt_dec (S j) (b + p)).
            + rewrite HL in S3 by lia. replace (V (S j)) with (V (S j) / u * u) by (field; lra).
              apply Rmult_lt_compat_r; lra.
            + apply Rlt_trans with u.
              * rewrite <- (Rmult_1_l u) at 2. apply Rmult_lt_compat_r; lra.
              * replace (S j) with (S (b + p)) by lia. exact Hr.
          - rewrite (fc_one _ _ _ split_left_clamped) in S4 by lia. contradiction. }
        split; [lra|]. split; [exact A|]. left. exact B. }
      rewrite (spline_piece p n V C P (t * u) j) by (try lia; exact Hs').
      unfold pfun. rewrite (rsum_trunc _ (S b) (S n)) by (try lia; intros i I1 I2; rewrite piece_support by lia; ring).
      apply rsum_ext. intros i Hi. f_equal.
      set (L' := fun k => u * L k + 0).
      rewrite <- (cox_affine (delta j) L L' p u 0) by (try lra; intros; reflexivity).
      replace (u * t + 0) with (t * u) by ring. apply piece_local.
      intros a A1 A2. unfold L'. rewrite HL by lia. field. lra.
    Qed.
  End Left.

  (** right part *)
  Section Right.
    Variable Rk : nat -> R.
    Hypothesis HR0 : Rk 0%nat = 0.
    Hypothesis HR : forall i, (1 <= i)%nat -> Rk i = (V (b + i)%nat - u) / (1 - u).

    Lemma split_right_clamped : fclamped p (n - b) Rk.
    Proof.
      assert (HV := fc_mono _ _ _ C). assert (Iu : 0 < / (1 - u)) by (apply Rinv_0_lt_compat; lra).
      assert (Vge : forall i, (b < i)%nat -> u <= V i).
      { intros i Hi. destruct (le_lt_dec i (b + p)).
        - rewrite Hrun by lia. lra.
        - assert (V (S (b + p)) <= V i) by (apply HV; lia). lra. }
      split.
      - lia.
      - intros i j Hij. destruct i as [|i].
        + rewrite HR0. destruct j as [|j]; [lra|]. rewrite HR by lia.
          apply Rmult_le_pos; [|lra]. assert (T := Vge (b + S j)%nat ltac:(lia)). lra.
        + rewrite !HR by lia. apply Rmult_le_compat_r; [lra|].
          assert (V (b + S i)%nat <= V (b + j)%nat) by (apply HV; lia). lra.
      - intros i Hi. destruct i as [|i]; [exact HR0|]. rewrite HR by lia. rewrite Hrun by lia. unfold Rdiv. ring.
      - intros i Hi. rewrite HR by lia. rewrite (fc_one _ _ _ C) by lia. field. lra.
      - intros i Hi. rewrite HR by lia.
        assert (V (S (b + p)) <= V (b + i)%nat) by (apply HV; lia).
        assert (T := U_lt1 p n V C (b + i) ltac:(lia)).
        split; [apply Rdiv_lt_0_compat; lra|].
        assert (E1 : (1 - u) / (1 - u) = 1) by (field; lra).
        apply Rlt_le_trans with ((1 - u) / (1 - u)); [|lra]. apply Rmult_lt_compat_r; lra.
    Qed.

    Theorem split_right_spline (P : nat -> R) t : 0 <= t <= 1 ->
      spline Rk (n - b) p (fun i => P (b + i)%nat) t = spline V n p P (u + t * (1 - u)).
    Proof.
      intros Ht. assert (HV := fc_mono _ _ _ C).
      destruct (span_ex p (n - b) Rk split_right_clamped t Ht) as [j [Hj Hs]].
      rewrite (spline_piece p (n - b) Rk split_right_clamped _ t j) by (try lia; exact Hs).
      set (x := u + t * (1 - u)).
      assert (Sc : forall k, (1 <= k)%nat -> V (b + k)%nat = (1 - u) * Rk k + u).
      { intros k Hk. rewrite HR by lia. field. lra. }
      assert (Hx : u <= x). { unfold x. assert (0 <= t * (1 - u)) by (apply Rmult_le_pos; lra). lra. }
      assert (Hs' : in_span V n x (b + j)).
      { destruct Hs as [S1 [S2 S3]].
        assert (A : V (b + j)%nat <= x).
        { destruct j as [|j]; [rewrite Nat.add_0_r; lra|]. rewrite Sc by lia. unfold x.
          assert ((1 - u) * Rk (S j) <= (1 - u) * t) by (apply Rmult_le_compat_l; lra). lra. }
        destruct S3 as [S3|[S3 S4]].
        - assert (B : x < V (S (b + j))).
          { replace (S (b + j)) with (b + S j)%nat by lia. rewrite Sc by lia. unfold x.
            assert ((1 - u) * t < (1 - u) * Rk (S j)) by (apply Rmult_lt_compat_l; lra). lra. }
          split; [lra|]. split; [exact A|]. left. exact B.
        - rewrite (fc_one _ _ _ split_right_clamped) in S4 by lia.
          assert (Ex : x = 1) by (unfold x; rewrite S4; ring). rewrite Ex.
          replace (b + j)%nat with n by lia. apply (in_span_1 p n V C). }
      rewrite (spline_piece p n V C P x (b + j)) by (try lia; exact Hs').
      unfold pfun. rewrite (rsum_drop _ b (S n)) by (try lia; intros i Hi; rewrite piece_support by lia; ring).
      replace (S n - b)%nat with (S (n - b)) by lia.
      apply rsum_ext. intros i Hi. f_equal.
      set (R' := fun k => (1 - u) * Rk k + u).
      rewrite <- (cox_affine (delta j) Rk R' p (1 - u) u) by (try lra; intros; reflexivity).
      replace ((1 - u) * t + u) with x by (unfold x; ring).
      rewrite (piece_local R' (shift b V)).
      - rewrite (cox_ext (delta j) (fun a => delta (b + j) (a + b)%nat) (shift b V) (shift b V)).
        + rewrite cox_shift. f_equal. lia.
        + intros a _. unfold delta. destruct (a =? j)%nat eqn:E1; destruct (a + b =? b + j)%nat eqn:E2; try reflexivity;
          rewrite ?Nat.eqb_eq, ?Nat.eqb_neq in *; lia.
        + reflexivity.
      - intros a A1 A2. unfold R', shift. rewrite <- Sc by lia. f_equal. lia.
    Qed.
  End Right.
End Split.
