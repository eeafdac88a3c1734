(** * Evaluation: lemmas behind the properties *)

From Coq Require Import ZArith Reals List Bool Arith Lia Lra.
From Verif Require Import Num Vec MKnots MPoints MCurve RNum Hoare Lists Struct Spec BMath BMath2 BMath3 BMath4 Api Bridge.
Import ListNotations.

(** ** For every number system *)
Section Generic.
  Context {K : Num}.

  Lemma sized_wf ud (G : @gdiv K ud) p n dim (U : list K) P c : sized p n dim U P -> built p U P c -> wf p n dim U P c.
  Proof.
    intros [Hpn [HL HP]] [kn [E1 E2]]. rewrite knots_new_val in E1 by lia. injection E1 as <-.
    assert (T := curve_new_ok ud G p U n dim P Hpn HL HP). rewrite E2 in T. cbn [ok] in T.
    destruct T as [c' [E W]]. injection E as <-. exact W.
  Qed.
End Generic.

(** no number system makes a division panic *)
Definition total_div (K : Num) : Prop := forall x y : K, ndiv x y <> Panic /\ ndiv x y <> Diverge.

Lemma gdiv_total (K : Num) : total_div K -> @gdiv K True.
Proof.
  intros H x y z _. destruct (H z (x - y)%num) as [H1 H2]. destruct (ndiv z (x - y)%num); simpl; auto; congruence.
Qed.

Lemma eval_total (K : Num) p n dim (U : list K) P c u k : total_div K -> sized p n dim U P -> built p U P c ->
  ok True (evaluate_derivative c u k) (fun r =>
    match r with
    | Ok v => length v = dim /\ (p < k -> v = vzeros dim) /\ (n0 <=? u)%num = true /\ (u <=? n1)%num = true
    | Err e => e = ParameterOutOfBounds u n0 n1 /\ ((n0 <=? u)%num = false \/ (u <=? n1)%num = false)
    end).
Proof.
  intros D S B. assert (W := sized_wf True (gdiv_total K D) p n dim U P c S B).
  destruct (n0 <=? u)%num eqn:E0.
  - destruct (u <=? n1)%num eqn:E1.
    + eapply ok_weaken; [apply (evaluate_derivative_ok True (gdiv_total K D) p n dim U P c u k W E0 E1)|].
      intros r [v [-> [L Z]]]. auto.
    + unfold evaluate_derivative. rewrite E0, E1. cbn. auto.
  - unfold evaluate_derivative. rewrite E0. cbn. auto.
Qed.

Lemma eval_strict (K : Num) p n dim (U : list K) P c u k : @gdiv K False -> sized p n dim U P -> built p U P c ->
  (n0 <=? u)%num = true -> (u <=? n1)%num = true ->
  exists v, evaluate_derivative c u k = Val (Ok v) /\ length v = dim /\ (p < k -> v = vzeros dim).
Proof.
  intros G S B E0 E1. assert (W := sized_wf False G p n dim U P c S B).
  assert (T := evaluate_derivative_ok False G p n dim U P c u k W E0 E1). apply ok_val_ex in T.
  destruct T as [r [E [v [-> H]]]]. exists v. auto.
Qed.

Lemma eval_range (K : Num) (c : Curve K) u k : (n0 <=? u)%num && (u <=? n1)%num = false ->
  evaluate_derivative c u k = Val (Err (ParameterOutOfBounds u n0 n1)).
Proof. intros H. unfold evaluate_derivative. rewrite H. reflexivity. Qed.

Local Open Scope R_scope.

(** ** Multiplicities *)
Lemma count_occ_run (U : list R) u a m : (forall i, (a <= i < a + m)%nat -> nth_error U i = Some u) -> (m <= mult U u)%nat.
Proof.
  unfold mult. revert a m. induction U as [|x U IH]; intros a m H.
  - destruct m; [lia|]. specialize (H a ltac:(lia)). destruct a; discriminate.
  - destruct a as [|a].
    + destruct m as [|m]; [lia|]. assert (H0 := H 0%nat ltac:(lia)). injection H0 as ->.
      rewrite count_occ_cons_eq by reflexivity. apply le_n_S. apply (IH 0%nat). intros i Hi.
      apply (H (S i)). lia.
    + assert (T : (m <= count_occ Req_EM_T U u)%nat).
      { apply (IH a). intros i Hi. apply (H (S i)). lia. }
      simpl. destruct (Req_EM_T x u); lia.
Qed.

Lemma mult_mult_le p n U u m : clamped p n U -> 0 < u < 1 -> (mult U u <= m)%nat -> mult_le (kfun U) u m.
Proof.
  intros C Hu Hm a b Ha Hb.
  assert (L := cl_len _ _ _ C).
  assert (B : forall i, kfun U i = u -> (i < length U)%nat).
  { intros i Hi. destruct (lt_dec i (length U)); [assumption|]. exfalso.
    rewrite kfun_over in Hi by lia. rewrite (cl_one _ _ _ C) in Hi by lia. lra. }
  destruct (le_lt_dec (a + m) b); [|assumption]. exfalso.
  assert (T : (S (b - a) <= mult U u)%nat).
  { apply (count_occ_run U u a). intros i Hi.
    assert (Mo := sorted_mono U (clamped_sorted _ _ _ C)).
    assert (E : kfun U i = u).
    { assert (kfun U a <= kfun U i) by (apply Mo; lia). assert (kfun U i <= kfun U b) by (apply Mo; lia). lra. }
    assert (Li := B i E). rewrite kfun_nth in E by exact Li. rewrite <- E. apply nth_error_nth'. exact Li. }
  lia.
Qed.

Lemma mult_0 p n U u : clamped p n U -> mult_le (kfun U) u 0 -> forall i, kfun U i <> u.
Proof. intros C H i E. assert (T := H i i E E). lia. Qed.

(** ** Reals *)
Lemma clamped_sized p n dim U P : clamped p n U -> shape dim (S n) P -> @sized RNum p n dim U P.
Proof. intros C S. split; [apply C|]. split; [apply C|exact S]. Qed.

Lemma cc_wf p n dim U P c : clamped_curve p n dim U P c -> wfR p n dim U P c.
Proof. intros [C [S B]]. apply built_wf; try apply C; assumption. Qed.

Lemma cc_eval p n dim U P c u k : clamped_curve p n dim U P c -> 0 <= u <= 1 -> (k <= p)%nat ->
  returns (evaluate_derivative c u k) dim (fun d => dspline (kfun U) n p (fun i => ent P i d) k u).
Proof.
  intros H Hu Hk. apply evaluate_R; [apply cc_wf; exact H| |exact Hu|exact Hk].
  apply (clamped_sorted p n). apply H.
Qed.

Lemma cc_eval0 p n dim U P c u : clamped_curve p n dim U P c -> 0 <= u <= 1 ->
  returns (evaluate c u) dim (fun d => spline (kfun U) n p (fun i => ent P i d) u).
Proof.
  intros H Hu. destruct (cc_eval p n dim U P c u 0 H Hu ltac:(lia)) as [v [E [L N]]].
  exists v. split; [exact E|]. split; [exact L|]. intros d Hd. rewrite N by exact Hd. apply dspline_0.
Qed.

Lemma returns_nth {E} (r : M (result (list R) E)) dim f d : returns r dim f -> (d < dim)%nat ->
  exists x, r = Val (Ok x) /\ nth_error x d = Some (f d).
Proof.
  intros [v [Ev [L N]]] Hd. exists v. split; [exact Ev|]. rewrite <- N by exact Hd. apply nth_error_nth'. lia.
Qed.

Lemma cc_evals p n dim U P c k d : clamped_curve p n dim U P c -> (k <= p)%nat -> (d < dim)%nat ->
  evals c k d (dspline (kfun U) n p (fun i => ent P i d) k).
Proof. intros H Hk Hd v Hv. apply (returns_nth _ dim (fun d => dspline (kfun U) n p (fun i => ent P i d) k v)); [apply cc_eval; assumption|exact Hd]. Qed.

Lemma returns_ext {E} (r : M (result (list R) E)) dim f g : returns r dim f -> (forall d, (d < dim)%nat -> f d = g d) -> returns r dim g.
Proof.
  intros [v [Ev [L N]]] H. exists v. split; [exact Ev|]. split; [exact L|]. intros d Hd. rewrite N by exact Hd. apply H. exact Hd.
Qed.

Lemma returns_eq {E} (r r' : M (result (list R) E)) dim f : returns r dim f -> returns r' dim f -> r = r'.
Proof.
  intros [v [Ev [L N]]] [v' [Ev' [L' N']]]. rewrite Ev, Ev'. do 2 f_equal. apply (list_ext 0); [congruence|].
  intros d Hd. rewrite N, N' by lia. reflexivity.
Qed.

Lemma eval_out (c : Curve RNum) u k : ~ (0 <= u <= 1) -> evaluate_derivative c u k = Val (Err (ParameterOutOfBounds u n0 n1)).
Proof.
  intros H. apply (eval_range RNum). rn. destruct (Rleb 0 u) eqn:E0; [|reflexivity].
  destruct (Rleb u 1) eqn:E1; [|reflexivity]. apply Rleb_le in E0. apply Rleb_le in E1. exfalso. lra.
Qed.

(** C04 *)
Lemma basis_facts p n U kn u : clamped p n U -> @knots_new RNum p U = Val kn -> 0 <= u <= 1 ->
  exists f, (forall i, (i <= n)%nat -> kevaluate kn 0 i p u = Val (f i)) /\
    (forall i, (i <= n)%nat -> 0 <= f i) /\
    (forall i, (i <= n)%nat -> u < nth i U 0 \/ nth (i + p + 1) U 0 < u -> f i = 0) /\
    rsum f (S n) = 1.
Proof.
  intros C E Hu. assert (L := cl_len _ _ _ C). assert (D := cl_deg _ _ _ C).
  rewrite (@knots_new_val RNum) in E by (rn; lia). injection E as <-.
  assert (F := kfun_clamped p n U C).
  exists (fun i => bspline (kfun U) n p i u). split; [|split; [|split]].
  - intros i Hi. rewrite (@kevaluate_val RNum p U n) by (rn; lia). rewrite kderiv_0, !Nat.sub_0_r.
    rewrite basis_R; rn; try lia.
    + rewrite Nat.sub_0_r. reflexivity.
    + rewrite !Nat.sub_0_r. apply (cl_sorted _ _ _ C); lia.
  - intros i Hi. apply bspline_nonneg; assumption.
  - intros i Hi H. apply bspline_support; [exact F|exact Hu|]. rewrite !kfun_nth by lia.
    destruct H as [H|H]; [left; exact H|right]. split; [lra|].
    assert (T := cl_sorted _ _ _ C (i + p + 1)%nat (n + p + 1)%nat ltac:(lia) ltac:(lia)).
    assert (N : nth (i + p + 1) U 0 <= 1).
    { rewrite (cl_one _ _ _ C (n + p + 1)%nat) in T by lia. exact T. }
    destruct (Req_dec u 1) as [->|]; [right|left; lra].
    destruct (le_lt_dec n i); [rewrite (cl_one _ _ _ C) in H by lia; lra|assumption].
  - apply bspline_sum; assumption.
Qed.

Ltac to_kfun H := repeat match type of H with context [nth ?i ?U 0] => rewrite <- (kfun_nth U i) in H by lia end.

(** ** Convex combinations *)
Lemma cox_left U n u : mono U -> forall q i, u <= U i -> u < U (i + q)%nat -> bspline U n q i u = 0.
Proof.
  intros HU. induction q as [|q IH]; intros i H1 H2.
  - unfold bspline. cbn [cox]. unfold span_ind. rewrite Nat.add_0_r in H2.
    destruct (Rle_dec (U i) u); [lra|]. reflexivity.
  - unfold bspline in *. cbn [cox].
    assert (M : U i <= U (S i)) by (apply HU; lia).
    rewrite (IH (S i)); [|lra|replace (S i + q)%nat with (i + S q)%nat by lia; exact H2].
    rewrite Rmult_0_r, Rplus_0_r.
    destruct (Rle_lt_or_eq_dec _ _ H1) as [H|H].
    + rewrite (IH i); [ring|lra|]. assert (U i <= U (i + q)%nat) by (apply HU; lia). lra.
    + rewrite H. replace (U i - U i) with 0 by ring. unfold ratio.
      destruct (Req_EM_T _ 0); [ring|]. unfold Rdiv. ring.
Qed.

Lemma hull_weights p n U j u : clamped p n U -> (p <= j <= n)%nat -> nth j U 0 <= u <= nth (S j) U 0 ->
  (u < nth (S j) U 0 \/ u = 1 \/ (mult U u <= p)%nat) ->
  exists w, (forall i, (i <= p)%nat -> 0 <= w i) /\ rsum w (S p) = 1 /\
    forall P, spline (kfun U) n p P u = rsum (fun i => w i * P (j - p + i)%nat) (S p).
Proof.
  intros C Hj Hu Hm. assert (L := cl_len _ _ _ C). assert (F := kfun_clamped p n U C).
  assert (Mo := fc_mono _ _ _ F). to_kfun Hu. to_kfun Hm.
  assert (R1 := U_range p n (kfun U) F).
  assert (Hu01 : 0 <= u <= 1) by (assert (A := R1 j); assert (B := R1 (S j)); lra).
  assert (Z : forall i, (i <= n)%nat -> (i < j - p \/ j < i)%nat -> bspline (kfun U) n p i u = 0).
  { intros i Hi Hout. destruct (Req_dec u 1) as [E1|E1].
    - assert (j = n).
      { destruct (le_lt_dec n j); [lia|]. assert (T := U_lt1 p n (kfun U) F (S j) ltac:(lia)). lra. }
      subst j u. rewrite bspline_at_1 by exact F. apply delta_ne. lia.
    - destruct Hout as [H|H].
      + apply bspline_support; [exact F|exact Hu01|]. right. split; [|left; lra].
        assert (kfun U (i + p + 1)%nat <= kfun U j) by (apply Mo; lia). lra.
      + assert (Hi2 : kfun U (S j) <= kfun U i) by (apply Mo; lia).
        destruct Hm as [Hm|[Hm|Hm]]; [|contradiction|].
        * apply bspline_support; [exact F|exact Hu01|]. left. lra.
        * apply cox_left; [exact Mo|lra|].
          destruct (Rle_lt_or_eq_dec u (kfun U i) ltac:(lra)) as [Hlt|Heq].
          { assert (kfun U i <= kfun U (i + p)%nat) by (apply Mo; lia). lra. }
          assert (U0 : 0 < u < 1).
          { split; [|lra]. assert (T := U_pos p n (kfun U) F i ltac:(lia)). lra. }
          assert (kfun U i <= kfun U (i + p)%nat) by (apply Mo; lia).
          destruct (Rle_lt_or_eq_dec u (kfun U (i + p)%nat) ltac:(lra)) as [Hlt|Heq2]; [exact Hlt|].
          exfalso. assert (T := mult_mult_le p n U u p C U0 Hm i (i + p)%nat (eq_sym Heq) (eq_sym Heq2)). lia. }
  exists (fun i => bspline (kfun U) n p (j - p + i)%nat u).
  assert (S1 : forall P, rsum (fun i => bspline (kfun U) n p i u * P i) (S n) =
     rsum (fun i => bspline (kfun U) n p (j - p + i)%nat u * P (j - p + i)%nat) (S p)).
  { intros P. rewrite (rsum_drop _ (j - p)) by (try lia; intros i Hi; rewrite Z by lia; ring).
    apply rsum_trunc; [lia|]. intros i H1 H2. rewrite Z by lia. ring. }
  split; [|split].
  - intros i Hi. apply bspline_nonneg; [exact F|exact Hu01].
  - rewrite <- (bspline_sum p n (kfun U) F u Hu01).
    rewrite (rsum_ext (fun i => bspline (kfun U) n p i u) (fun i => bspline (kfun U) n p i u * (fun _ => 1) i)) by (intros; ring).
    rewrite (S1 (fun _ => 1)). apply rsum_ext. intros; ring.
  - intros P. apply S1.
Qed.

Lemma hull p n dim U P c j u : clamped_curve p n dim U P c -> (p <= j <= n)%nat -> nth j U 0 <= u <= nth (S j) U 0 ->
  (u < nth (S j) U 0 \/ u = 1 \/ (mult U u <= p)%nat) ->
  exists w, (forall i, (i <= p)%nat -> 0 <= w i) /\ rsum w (S p) = 1 /\
    returns (evaluate c u) dim (fun d => rsum (fun i => w i * ent P (j - p + i) d) (S p)).
Proof.
  intros H Hj Hu Hm. destruct (hull_weights p n U j u) as [w [W1 [W2 W3]]]; try assumption; [apply H|].
  exists w. split; [exact W1|]. split; [exact W2|].
  assert (C : clamped p n U) by apply H. assert (F := kfun_clamped p n U C). assert (L := cl_len _ _ _ C).
  to_kfun Hu.
  assert (Hu01 : 0 <= u <= 1).
  { assert (A := U_range p n (kfun U) F j); assert (B := U_range p n (kfun U) F (S j)); lra. }
  eapply returns_ext; [apply (cc_eval0 p n dim U P c u H Hu01)|]. intros d Hd. cbv beta. apply (W3 (fun i => ent P i d)).
Qed.

Lemma endpoints p n dim U P c : clamped_curve p n dim U P c ->
  returns (evaluate c 0) dim (fun d => ent P 0 d) /\ returns (evaluate c 1) dim (fun d => ent P n d).
Proof.
  intros H. assert (F : fclamped p n (kfun U)) by (apply kfun_clamped; apply H). split.
  - eapply returns_ext; [apply (cc_eval0 p n dim U P c 0 H); lra|]. intros d _. apply (spline_at_0 p n (kfun U) F (fun i => ent P i d)).
  - eapply returns_ext; [apply (cc_eval0 p n dim U P c 1 H); lra|]. intros d _. apply (spline_at_1 p n (kfun U) F (fun i => ent P i d)).
Qed.

(** ** Derivatives and continuity *)
Lemma derivative_fact p n dim U P c k u d : clamped_curve p n dim U P c -> (k < p)%nat -> (d < dim)%nat -> 0 <= u <= 1 ->
  (0 < u < 1 -> (mult U u <= p - k - 1)%nat) ->
  exists f g, evals c k d f /\ evals c (S k) d g /\ derivative_on01 f u (g u).
Proof.
  intros H Hk Hd Hu Hm. exists (dspline (kfun U) n p (fun i => ent P i d) k), (dspline (kfun U) n p (fun i => ent P i d) (S k)).
  split; [apply (cc_evals p n dim); try assumption; lia|]. split; [apply (cc_evals p n dim); try assumption; lia|].
  apply dspline_derivative; try assumption; [apply kfun_clamped; apply H|].
  intros Hu2. apply (mult_mult_le p n); try assumption; [apply H|auto].
Qed.

Lemma right_derivative_fact p n dim U P c k u d : clamped_curve p n dim U P c -> (k < p)%nat -> (d < dim)%nat -> 0 <= u < 1 ->
  exists f g, evals c k d f /\ evals c (S k) d g /\ right_derivative_on01 f u (g u).
Proof.
  intros H Hk Hd Hu. exists (dspline (kfun U) n p (fun i => ent P i d) k), (dspline (kfun U) n p (fun i => ent P i d) (S k)).
  split; [apply (cc_evals p n dim); try assumption; lia|]. split; [apply (cc_evals p n dim); try assumption; lia|].
  apply dspline_right_derivative; try assumption. apply kfun_clamped; apply H.
Qed.

Lemma continuous_fact p n dim U P c k u d : clamped_curve p n dim U P c -> (k <= p)%nat -> (d < dim)%nat -> 0 <= u <= 1 ->
  (0 < u < 1 -> (mult U u <= p - k)%nat) -> exists f, evals c k d f /\ continuous_on01 f u.
Proof.
  intros H Hk Hd Hu Hm. exists (dspline (kfun U) n p (fun i => ent P i d) k).
  split; [apply (cc_evals p n dim); try assumption; lia|].
  apply dspline_continuous; try assumption; [apply kfun_clamped; apply H|].
  intros Hu2. apply (mult_mult_le p n); try assumption; [apply H|auto].
Qed.

(** ** Local control *)
Lemma local_control p n dim U P P' c c' i u : clamped_curve p n dim U P c -> clamped_curve p n dim U P' c' ->
  (i <= n)%nat -> (forall j d, (j <= n)%nat -> j <> i -> (d < dim)%nat -> ent P j d = ent P' j d) ->
  (u < nth i U 0 \/ nth (i + p + 1) U 0 < u) -> evaluate c u = evaluate c' u.
Proof.
  intros H H' Hi HP Hu. destruct (Rle_dec 0 u) as [H0|H0], (Rle_dec u 1) as [H1|H1];
    try (unfold evaluate; rewrite !eval_out by lra; reflexivity).
  eapply returns_eq; [apply (cc_eval0 p n dim U P c u H); lra|].
  eapply returns_ext; [apply (cc_eval0 p n dim U P' c' u H'); lra|]. intros d Hd. cbv beta.
  unfold spline. apply rsum_ext. intros j Hj. destruct (Nat.eq_dec j i) as [->|Hne].
  - assert (C : clamped p n U) by apply H. assert (L := cl_len _ _ _ C). assert (F := kfun_clamped p n U C).
    rewrite bspline_support; [ring|exact F|lra|]. rewrite !kfun_nth by lia.
    destruct Hu as [Hu|Hu]; [left; exact Hu|right]. split; [lra|].
    destruct (Req_dec u 1) as [->|]; [right|left; lra].
    destruct (le_lt_dec n i); [rewrite (cl_one _ _ _ C) in Hu by lia; lra|assumption].
  - rewrite HP by (try lia; assumption). reflexivity.
Qed.

(** ** Affine maps *)
Lemma affine_spline p n U (A : nat -> R) b dim (P : nat -> nat -> R) u : fclamped p n U -> 0 <= u <= 1 ->
  spline U n p (fun i => rsum (fun d => A d * P i d) dim + b) u =
  rsum (fun d => A d * spline U n p (fun i => P i d) u) dim + b.
Proof.
  intros F Hu. unfold spline.
  rewrite (rsum_ext _ (fun i => bspline U n p i u * rsum (fun d => A d * P i d) dim + bspline U n p i u * b)) by (intros; ring).
  rewrite rsum_plus. f_equal.
  - induction dim as [|m IH].
    + rewrite rsum_zero by (intros; cbn [rsum]; ring). reflexivity.
    + rewrite (rsum_ext _ (fun i => bspline U n p i u * rsum (fun d => A d * P i d) m + A m * (bspline U n p i u * P i m))) by (intros; cbn [rsum]; ring).
      rewrite rsum_plus, IH, rsum_scal. reflexivity.
  - rewrite (rsum_ext _ (fun i => b * bspline U n p i u)) by (intros; ring). rewrite rsum_scal, bspline_sum by assumption. ring.
Qed.

Lemma affine_fact p n dim dim' U P P' c c' (A : nat -> nat -> R) (b : nat -> R) u :
  clamped_curve p n dim U P c -> clamped_curve p n dim' U P' c' ->
  (forall i d', (i <= n)%nat -> (d' < dim')%nat -> ent P' i d' = rsum (fun d => A d' d * ent P i d) dim + b d') ->
  0 <= u <= 1 ->
  exists v, evaluate c u = Val (Ok v) /\ length v = dim /\
    returns (evaluate c' u) dim' (fun d' => rsum (fun d => A d' d * nth d v 0) dim + b d').
Proof.
  intros H H' HP Hu. destruct (cc_eval0 p n dim U P c u H Hu) as [v [E [L N]]].
  exists v. split; [exact E|]. split; [exact L|].
  eapply returns_ext; [apply (cc_eval0 p n dim' U P' c' u H' Hu)|]. intros d' Hd'. cbv beta.
  assert (F : fclamped p n (kfun U)) by (apply kfun_clamped; apply H).
  rewrite (rsum_ext (fun d => A d' d * nth d v 0) (fun d => A d' d * spline (kfun U) n p (fun i => ent P i d) u))
    by (intros d Hd; rewrite N by exact Hd; reflexivity).
  rewrite <- (affine_spline p n (kfun U) (A d') (b d') dim (fun i d => ent P i d) u F Hu).
  unfold spline. apply rsum_ext. intros i Hi. rewrite HP by (try lia; assumption). reflexivity.
Qed.

(** ** Polynomial pieces *)
Lemma piecewise_fact p n dim U P c j d : clamped_curve p n dim U P c -> (p <= j <= n)%nat -> (d < dim)%nat ->
  nth j U 0 < nth (S j) U 0 ->
  exists a, length a = S p /\ forall u, nth j U 0 <= u -> u < nth (S j) U 0 \/ j = n /\ u = 1 ->
    exists x, evaluate c u = Val (Ok x) /\ nth_error x d = Some (peval a u).
Proof.
  intros H Hj Hd Hs. assert (C : clamped p n U) by apply H. assert (L := cl_len _ _ _ C). assert (F := kfun_clamped p n U C).
  destruct (sum_poly (delta j) (kfun U) p (fun i => ent P i d) (S n)) as [a [La Ha]].
  exists a. split; [exact La|]. intros u H1 H2.
  to_kfun Hs. to_kfun H1. to_kfun H2.
  assert (A := U_range p n (kfun U) F j). assert (B := U_range p n (kfun U) F (S j)).
  assert (Hu : 0 <= u <= 1) by lra.
  rewrite <- Ha. change (rsum (fun i => cox (delta j) (kfun U) p i u * ent P i d) (S n)) with (pfun p n (kfun U) (fun i => ent P i d) j u).
  rewrite <- (spline_piece p n (kfun U) F (fun i => ent P i d) u j).
  - apply (returns_nth _ dim (fun d => spline (kfun U) n p (fun i => ent P i d) u)); [apply cc_eval0; assumption|exact Hd].
  - lia.
  - unfold in_span. split; [exact Hs|]. split; [lra|]. destruct H2 as [H2|[-> ->]]; [left; exact H2|right].
    split; [reflexivity|]. rewrite (fc_one _ _ _ F) by lia. reflexivity.
Qed.

(** ** Statements for every number system *)
Lemma no_panic (K : Num) : (forall x y : K, ndiv x y <> Panic /\ ndiv x y <> Diverge) ->
  forall p n dim (U : list K) (P : Mat K) c u k, sized p n dim U P -> built p U P c ->
  evaluate_derivative c u k <> Panic /\ evaluate_derivative c u k <> Diverge /\
  forall v, evaluate_derivative c u k = Val (Ok v) -> length v = dim.
Proof.
  intros D p n dim U P c u k S B. assert (T := eval_total K p n dim U P c u k D S B).
  destruct (evaluate_derivative c u k) as [[v|e]| | |]; cbn [ok] in T; try contradiction.
  - split; [discriminate|]. split; [discriminate|]. intros w E. injection E as <-. apply T.
  - split; [discriminate|]. split; [discriminate|]. intros w E. discriminate.
  - split; [discriminate|]. split; [discriminate|]. intros w E. discriminate.
Qed.

Lemma always_val (K : Num) : @gdiv K False ->
  forall p n dim (U : list K) (P : Mat K) c u k, sized p n dim U P -> built p U P c ->
  exists r, evaluate_derivative c u k = Val r.
Proof.
  intros G p n dim U P c u k S B. destruct (n0 <=? u)%num eqn:E0; [destruct (u <=? n1)%num eqn:E1|].
  - destruct (eval_strict K p n dim U P c u k G S B E0 E1) as [v [E _]]. eauto.
  - rewrite eval_range by (rewrite E0, E1; reflexivity). eauto.
  - rewrite eval_range by (rewrite E0; reflexivity). eauto.
Qed.

Lemma rejects (K : Num) (c : Curve K) u k : (n0 <=? u)%num && (u <=? n1)%num = false ->
  evaluate_derivative c u k = Val (Err (ParameterOutOfBounds u n0 n1)) /\
  evaluate c u = Val (Err (ParameterOutOfBounds u n0 n1)).
Proof. intros H. split; apply eval_range; exact H. Qed.

Lemma accepts (K : Num) : (forall x y : K, ndiv x y <> Panic /\ ndiv x y <> Diverge) ->
  forall p n dim (U : list K) (P : Mat K) c u k, sized p n dim U P -> built p U P c ->
  (n0 <=? u)%num && (u <=? n1)%num = true -> forall e, evaluate_derivative c u k <> Val (Err e).
Proof.
  intros D p n dim U P c u k S B H e E. assert (T := eval_total K p n dim U P c u k D S B). rewrite E in T. cbn [ok] in T.
  apply andb_true_iff in H. destruct H as [H0 H1]. rewrite H0, H1 in T. destruct T as [_ [T|T]]; discriminate.
Qed.

Lemma high_order (K : Num) : (forall x y : K, ndiv x y <> Panic /\ ndiv x y <> Diverge) ->
  forall p n dim (U : list K) (P : Mat K) c u k, sized p n dim U P -> built p U P c ->
  (n0 <=? u)%num && (u <=? n1)%num = true -> (p < k)%nat -> evaluate_derivative c u k = Val (Ok (repeat n0 dim)).
Proof.
  intros D p n dim U P c u k S B H Hk. assert (W := sized_wf True (gdiv_total K D) p n dim U P c S B).
  unfold evaluate_derivative. rewrite H. cbn [negb]. destruct W as [Wd Wl Ws Wk Wm Wh Wp Wpt].
  unfold degree, dimension. destruct c as [kn [pk km]]. cbn [cknots cpoints Pk pk_max] in *. subst kn km.
  destruct pk as [|P0 pk]; [simpl in Wp; lia|]. cbn [nth] in Wh. subst P0.
  rewrite (cp_dimension_val P pk p dim _ Ws). cbn [bind kdegree kp knots_of].
  replace (k <=? p)%nat with false by (symmetry; apply Nat.leb_gt; exact Hk). reflexivity.
Qed.

Lemma sorted_eval p n dim U P c u k : @sized RNum p n dim U P -> sorted U -> @built RNum p U P c -> 0 <= u <= 1 -> (k <= p)%nat ->
  returns (evaluate_derivative c u k) dim (fun d => dspline (kfun U) n p (fun i => ent P i d) k u).
Proof.
  intros [H1 [H2 H3]] HS B Hu Hk. apply evaluate_R; try assumption. apply built_wf; assumption.
Qed.

Lemma sorted_eval0 p n dim U P c u : @sized RNum p n dim U P -> sorted U -> @built RNum p U P c -> 0 <= u <= 1 ->
  returns (evaluate c u) dim (fun d => spline (kfun U) n p (fun i => ent P i d) u).
Proof.
  intros S HS B Hu. eapply returns_ext; [apply (sorted_eval p n dim U P c u 0 S HS B Hu); lia|].
  intros d _. apply dspline_0.
Qed.

Lemma built_ex_gen (K : Num) : @gdiv K False -> forall p n dim (U : list K) P, sized p n dim U P -> exists c, built p U P c.
Proof.
  intros G p n dim U P [H1 [H2 H3]]. assert (T := curve_new_ok False G p U n dim P H1 H2 H3). apply ok_val_ex in T.
  destruct T as [r [E [c [-> _]]]]. exists c, (knots_of p U). split; [apply knots_new_val; lia|exact E].
Qed.
