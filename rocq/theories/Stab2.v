(** * Stability of the derivatives of a curve with respect to its knots *)

From Coq Require Import Reals List Arith Lra Lia Psatz.
From Verif Require Import Num Vec MKnots MPoints MCurve RNum Lists Spec BMath BMath2 BMath3 BMath4 SW Api Bridge Facts1 Shape1 Shape2 Shape3 Stab Float9.
Import ListNotations.
Local Open Scope R_scope.

Lemma inv_le h a : 0 < h -> h <= a -> 0 < / a <= / h.
Proof. intros H A. split; [apply Rinv_0_lt_compat; lra|apply Rinv_le_contravar; lra]. Qed.

Lemma quot_abs x a h B : 0 < h -> h <= a -> Rabs x <= B -> Rabs (x / a) <= B / h.
Proof.
  intros H A X. destruct (inv_le h a H A) as [I1 I2]. unfold Rdiv. rewrite Rabs_mult, (Rabs_pos_eq (/ a)) by lra.
  assert (T := Rabs_pos x). apply Rmult_le_compat; lra.
Qed.

Lemma dpoints_bound U p n P h M : mono U -> 0 < h -> (forall i, U i < U (S i) -> h <= U (S i) - U i) ->
  (forall i, (i <= n)%nat -> Rabs (P i) <= M) ->
  forall k i, (k <= p)%nat -> (i + k <= n)%nat -> Rabs (dpoints U p P k i) <= M * (2 * INR p / h) ^ k.
Proof.
  intros MU H0 G PM. assert (M0 : 0 <= M) by (eapply Rle_trans; [apply Rabs_pos|apply (PM 0%nat); lia]).
  assert (S0 : 0 <= 2 * INR p / h) by (apply Rmult_le_pos; [assert (T := pos_INR p); lra|left; apply Rinv_0_lt_compat; exact H0]).
  induction k as [|k IH]; intros i Hk Hi; [cbn [dpoints pow]; rewrite Rmult_1_r; apply PM; lia|].
  cbn [dpoints]. assert (B0 : 0 <= M * (2 * INR p / h) ^ S k) by (apply Rmult_le_pos; [exact M0|apply pow_le; exact S0]).
  unfold ratio. destruct Req_EM_T as [Z|Z]; [rewrite Rabs_R0; exact B0|].
  assert (T := MU (i + S k)%nat (i + p + 1)%nat ltac:(lia)).
  assert (ST := stretch U h MU G (p - k) (i + S k)%nat). replace (i + S k + (p - k))%nat with (i + p + 1)%nat in ST by lia. specialize (ST ltac:(lra)).
  replace (M * (2 * INR p / h) ^ S k) with ((INR p * (2 * (M * (2 * INR p / h) ^ k))) / h) by (cbn [pow]; field; lra).
  apply quot_abs; [exact H0|exact ST|]. rewrite Rabs_mult, (Rabs_pos_eq (INR (p - k))) by apply pos_INR.
  apply Rmult_le_compat; [apply pos_INR|apply Rabs_pos|apply le_INR; lia|].
  assert (A := IH (S i) ltac:(lia) ltac:(lia)). assert (B := IH i ltac:(lia) ltac:(lia)).
  eapply Rle_trans; [apply Rabs_triang|]. rewrite Rabs_Ropp. lra.
Qed.

Lemma quot_near x y a b h dl e B : 0 < h -> h <= a -> Rabs (b - a) <= 2 * dl -> 4 * dl <= h -> Rabs (x - y) <= e -> Rabs (x / a) <= B ->
  Rabs (x / a - y / b) <= 2 * e / h + 4 * (dl / h) * B.
Proof.
  intros H A D DL E X. assert (Q := Rabs_def2). assert (b >= h / 2).
  { assert (T := Rle_abs (- (b - a))). rewrite Rabs_Ropp in T. lra. }
  assert (Hb : h / 2 <= b) by lra.
  replace (x / a - y / b) with ((x - y) / b + (x / a) * ((b - a) / b)) by (field; lra).
  eapply Rle_trans; [apply Rabs_triang|]. apply Rplus_le_compat.
  - replace (2 * e / h) with (e / (h / 2)) by (field; lra). apply quot_abs; lra.
  - rewrite Rabs_mult, Rmult_comm. apply Rmult_le_compat; [apply Rabs_pos|apply Rabs_pos| |exact X].
    replace (4 * (dl / h)) with ((2 * dl) / (h / 2)) by (field; lra). apply quot_abs; lra.
Qed.

Section Near.
  Variables (p n : nat) (U V : nat -> R) (P : nat -> R) (dl h M : R).
  Hypothesis CU : fclamped p n U.
  Hypothesis CV : fclamped p n V.
  Hypothesis D : forall i, Rabs (U i - V i) <= dl.
  Hypothesis O : forall i, (i <= n)%nat -> V i < V (S i) -> U i < U (S i).
  Hypothesis H0 : 0 < h.
  Hypothesis G : forall i, U i < U (S i) -> h <= U (S i) - U i.
  Hypothesis DL : 4 * dl <= h.
  Hypothesis PM : forall i, (i <= n)%nat -> Rabs (P i) <= M.

  Lemma dl_pos : 0 <= dl.
  Proof. eapply Rle_trans; [apply Rabs_pos|apply (D 0%nat)]. Qed.

  Lemma near_inv i : - dl <= U i - V i <= dl.
  Proof. assert (T1 := Rle_abs (U i - V i)). assert (T2 := Rle_abs (- (U i - V i))). rewrite Rabs_Ropp in T2. specialize (D i). lra. Qed.

  Lemma gaps_V i : V i < V (S i) -> h / 2 <= V (S i) - V i.
  Proof.
    intros L. destruct (le_lt_dec i n) as [I|I].
    - assert (T := G i (O i I L)). assert (A := near_inv i). assert (B := near_inv (S i)). lra.
    - rewrite !(fc_one _ _ _ CV) in L by lia. lra.
  Qed.

  Lemma flat_V k i : U (i + k)%nat <= U i -> V (i + k)%nat = V i.
  Proof.
    assert (MU := fc_mono _ _ _ CU). assert (MV := fc_mono _ _ _ CV).
    induction k as [|k IH]; intros L; [f_equal; lia|].
    replace (i + S k)%nat with (S (i + k)) in * by lia.
    assert (A : U i <= U (i + k)%nat) by (apply MU; lia). assert (B : U (i + k)%nat <= U (S (i + k))) by (apply MU; lia).
    rewrite <- IH by lra. assert (X : V (i + k)%nat <= V (S (i + k))) by (apply MV; lia).
    destruct (Rle_lt_or_eq_dec _ _ X) as [Y|Y]; [|symmetry; exact Y].
    destruct (le_lt_dec (i + k) n) as [I|I]; [assert (T := O _ I Y); lra|]. rewrite !(fc_one _ _ _ CV) by lia. reflexivity.
  Qed.

  Let s := 4 * INR p / h.

  Lemma s_pos : 0 <= s.
  Proof. apply Rmult_le_pos; [assert (T := pos_INR p); lra|left; apply Rinv_0_lt_compat; exact H0]. Qed.

  Lemma M_nonneg : 0 <= M.
  Proof. eapply Rle_trans; [apply Rabs_pos|apply (PM 0%nat); lia]. Qed.

  Lemma near_dpoints k : forall i, (k <= p)%nat -> (i + k <= n)%nat ->
    Rabs (dpoints U p P k i - dpoints V p P k i) <= 4 * (dl / h) * (1 - (/ 2) ^ k) * (M * s ^ k).
  Proof.
    assert (MU := fc_mono _ _ _ CU). assert (S0 := s_pos). assert (D0 := dl_pos). assert (M0 := M_nonneg).
    assert (DH : 0 <= dl / h) by (apply Rmult_le_pos; [exact D0|left; apply Rinv_0_lt_compat; exact H0]).
    induction k as [|k IH]; intros i Hk Hi; [cbn [dpoints pow]; rewrite Rminus_diag_eq, Rabs_R0 by reflexivity; lra|].
    cbn [dpoints]. assert (K0 : 0 < (/ 2) ^ S k <= 1).
    { split; [apply pow_lt; lra|]. rewrite <- (pow1 (S k)). apply pow_incr. lra. }
    assert (B0 : 0 <= 4 * (dl / h) * (1 - (/ 2) ^ S k) * (M * s ^ S k)).
    { apply Rmult_le_pos; [apply Rmult_le_pos; lra|apply Rmult_le_pos; [exact M0|apply pow_le; exact S0]]. }
    assert (T := MU (i + S k)%nat (i + p + 1)%nat ltac:(lia)).
    assert (FV := flat_V (p - k) (i + S k)). replace (i + S k + (p - k))%nat with (i + p + 1)%nat in FV by lia.
    destruct (Req_dec (U (i + p + 1)%nat - U (i + S k)%nat) 0) as [Z|Z].
    { rewrite Z, FV by lra. rewrite (Rminus_diag_eq (V (i + S k)%nat) _ eq_refl), !ratio_0, Rminus_0_r, Rabs_R0. exact B0. }
    assert (ST := stretch U h MU G (p - k) (i + S k)%nat). replace (i + S k + (p - k))%nat with (i + p + 1)%nat in ST by lia. specialize (ST ltac:(lra)).
    assert (A1 := near_inv (i + p + 1)). assert (A2 := near_inv (i + S k)).
    assert (X := dpoints_bound U p n P h M MU H0 G PM (S k) i Hk Hi). cbn [dpoints] in X.
    rewrite ratio_nz in X by lra. rewrite !ratio_nz by lra.
    eapply Rle_trans; [eapply (quot_near _ _ _ _ h dl (INR p * (2 * (4 * (dl / h) * (1 - (/ 2) ^ k) * (M * s ^ k))))); [exact H0|exact ST| |exact DL| |exact X]|].
    - apply Rabs_le. lra.
    - rewrite <- Rmult_minus_distr_l, Rabs_mult, (Rabs_pos_eq (INR (p - k))) by apply pos_INR.
      apply Rmult_le_compat; [apply pos_INR|apply Rabs_pos|apply le_INR; lia|].
      assert (E1 := IH (S i) ltac:(lia) ltac:(lia)). assert (E2 := IH i ltac:(lia) ltac:(lia)).
      match goal with |- Rabs (?a - ?b - (?c - ?e)) <= _ => replace (a - b - (c - e)) with ((a - c) - (b - e)) by ring end.
      eapply Rle_trans; [apply Rabs_triang|]. rewrite Rabs_Ropp. lra.
    - right. replace (2 * INR p / h) with (s * / 2) by (unfold s; field; lra). rewrite Rpow_mult_distr.
      rewrite (Rmult_comm (INR p)). replace (2 * (2 * (4 * (dl / h) * (1 - (/ 2) ^ k) * (M * s ^ k)) * INR p) / h) with (4 * (dl / h) * (1 - (/ 2) ^ k) * (M * s ^ k) * s) by (unfold s; field; lra).
      cbn [pow]. field. lra.
  Qed.

  Theorem near_dspline k u : (k < p)%nat -> (forall x, 0 < x < 1 -> mult_le U x (p - k)) -> 0 <= u <= 1 ->
    Rabs (dspline U n p P k u - dspline V n p P k u) <= (6 * INR p + 4) * (dl / h) * (M * s ^ k).
  Proof.
    intros Hk HM Hu. assert (PN := fc_deg _ _ _ CU). assert (D0 := dl_pos). assert (M0 := M_nonneg). assert (S0 := s_pos).
    assert (DH : 0 <= dl / h) by (apply Rmult_le_pos; [exact D0|left; apply Rinv_0_lt_compat; exact H0]).
    assert (SU := fclamped_shift p n U k CU ltac:(lia)). assert (SV := fclamped_shift p n V k CV ltac:(lia)).
    rewrite !dspline_spline.
    assert (X := near_spline (p - k) (n - k) (shift k U) (shift k V) (dpoints U p P k) u dl h 0 (M * (2 * INR p / h) ^ k) SU SV ltac:(lia)).
    assert (Y := spline_diff (p - k) (n - k) (shift k V) (dpoints U p P k) (dpoints V p P k) u (4 * (dl / h) * (1 - (/ 2) ^ k) * (M * s ^ k)) SV Hu
      ltac:(intros i Hi; apply near_dpoints; lia)).
    match goal with |- Rabs (?a - ?b) <= _ => match type of Y with Rabs (?c - _) <= _ => replace (a - b) with ((a - c) + (c - b)) by ring end end.
    eapply Rle_trans; [apply Rabs_triang|].
    assert (X' : Rabs (spline (shift k U) (n - k) (p - k) (dpoints U p P k) u - spline (shift k V) (n - k) (p - k) (dpoints U p P k) u) <= 6 * INR (p - k) * (M * (2 * INR p / h) ^ k) * dl / h).
    { apply X; try assumption.
      - intros x Hx. apply mult_le_shift, HM, Hx.
      - intros i. apply D.
      - intros i Hi. apply O. lia.
      - intros i. apply G.
      - intros i Hi. rewrite Rminus_0_r. apply (dpoints_bound U p n P h M (fc_mono _ _ _ CU) H0 G PM); lia. }
    assert (B0 : 0 <= M * s ^ k) by (apply Rmult_le_pos; [exact M0|apply pow_le; exact S0]).
    assert (Z1 : 6 * INR (p - k) * (M * (2 * INR p / h) ^ k) * dl / h <= 6 * INR p * (dl / h) * (M * s ^ k)).
    { replace (6 * INR (p - k) * (M * (2 * INR p / h) ^ k) * dl / h) with (6 * INR (p - k) * (dl / h) * (M * (2 * INR p / h) ^ k)) by (unfold Rdiv; ring).
      assert (I := pos_INR (p - k)).
      apply Rmult_le_compat; [apply Rmult_le_pos; [lra|exact DH]| | |].
      - apply Rmult_le_pos; [exact M0|]. apply pow_le. replace (2 * INR p / h) with (s * / 2) by (unfold s; field; lra). lra.
      - apply Rmult_le_compat_r; [exact DH|]. assert (INR (p - k) <= INR p) by (apply le_INR; lia). lra.
      - apply Rmult_le_compat_l; [exact M0|]. apply pow_incr. replace (2 * INR p / h) with (s * / 2) by (unfold s; field; lra). lra. }
    assert (K0 : 0 < (/ 2) ^ k) by (apply pow_lt; lra).
    assert (Z2 : 4 * (dl / h) * (1 - (/ 2) ^ k) * (M * s ^ k) <= 4 * (dl / h) * (M * s ^ k)).
    { apply Rmult_le_compat_r; [exact B0|]. rewrite <- (Rmult_1_r (4 * (dl / h))) at 2. apply Rmult_le_compat_l; lra. }
    lra.
  Qed.
End Near.

Lemma dpoints_diff U p P Q k : forall i, dpoints U p P k i - dpoints U p Q k i = dpoints U p (fun j => P j - Q j) k i.
Proof.
  induction k as [|k IH]; intros i; cbn [dpoints]; [reflexivity|]. rewrite <- !IH. unfold ratio. destruct Req_EM_T; [ring|]. unfold Rdiv. ring.
Qed.

(** derivatives of curves over the same knots differ by no more than the points do, scaled *)
Theorem dspline_diff U p n P Q h e k u : fclamped p n U -> 0 < h -> (forall i, U i < U (S i) -> h <= U (S i) - U i) ->
  (forall i, (i <= n)%nat -> Rabs (P i - Q i) <= e) -> (k <= p)%nat -> 0 <= u <= 1 ->
  Rabs (dspline U n p P k u - dspline U n p Q k u) <= e * (2 * INR p / h) ^ k.
Proof.
  intros C H0 G E Hk Hu. assert (PN := fc_deg _ _ _ C). rewrite !dspline_spline.
  apply (spline_diff (p - k) (n - k)); [apply fclamped_shift; assumption|exact Hu|].
  intros i Hi. rewrite dpoints_diff. apply (dpoints_bound U p n _ h e (fc_mono _ _ _ C) H0 G E); lia.
Qed.
