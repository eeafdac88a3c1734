(** * Interpolation and least squares: linear algebra *)

From Coq Require Import ZArith Reals List Bool Arith Lia Lra.
From Verif Require Import Num Vec MKnots MPoints MCurve MFit MGenerate RNum Hoare Lists Struct Spec BMath BMath2 Api Bridge Facts1 Gen1 Gen2 Gen3 Gen4 Fit1.
Import ListNotations.

(** ** the difference operator *)
Local Open Scope Z_scope.
Definition dop_spec (kappa i j : nat) : Z :=
  if ((i <=? j) && (j <=? i + kappa))%nat then (if Nat.even (kappa - (j - i)) then 1 else -1) * Z.of_nat (binomial kappa (j - i)) else 0.

Lemma binomial_0 n : binomial n 0 = 1%nat.
Proof. destruct n; reflexivity. Qed.
Lemma binomial_over n : forall k, (n < k)%nat -> binomial n k = 0%nat.
Proof. induction n as [|n IH]; intros [|k] H; try lia; [reflexivity|]. cbn [binomial]. rewrite !IH by lia. reflexivity. Qed.
Lemma binomial_full n : binomial n n = 1%nat.
Proof. induction n as [|n IH]; [reflexivity|]. cbn [binomial]. rewrite IH, binomial_over by lia. reflexivity. Qed.

Lemma even_pred k : Nat.even k = negb (Nat.even (S k)).
Proof. rewrite Nat.even_succ. rewrite <- Nat.negb_even. symmetry. apply negb_involutive. Qed.

Lemma difference_operator_S k i j : difference_operator (S (S k)) i j = difference_operator (S k) (i + 1) j - difference_operator (S k) i j.
Proof. reflexivity. Qed.

Lemma dop_val kappa : forall i j, difference_operator (S kappa) i j = dop_spec (S kappa) i j.
Proof.
  induction kappa as [|k IH]; intros i j.
  - cbn [difference_operator]. unfold dop_spec. destruct (Nat.eqb_spec i j) as [->|H].
    + rewrite Nat.leb_refl. replace (j <=? j + 1)%nat with true by (symmetry; apply Nat.leb_le; lia). rewrite Nat.sub_diag. reflexivity.
    + destruct (Nat.eqb_spec (i + 1) j) as [<-|H'].
      * replace (i <=? i + 1)%nat with true by (symmetry; apply Nat.leb_le; lia). rewrite Nat.leb_refl. replace (i + 1 - i)%nat with 1%nat by lia. reflexivity.
      * destruct (Nat.leb_spec i j), (Nat.leb_spec j (i + 1)); cbn [andb]; try reflexivity; lia.
  - rewrite difference_operator_S, !IH. unfold dop_spec.
    destruct (Nat.lt_ge_cases j i) as [H|H].
    { replace (i <=? j)%nat with false by (symmetry; apply Nat.leb_gt; lia). replace (i + 1 <=? j)%nat with false by (symmetry; apply Nat.leb_gt; lia). reflexivity. }
    replace (i <=? j)%nat with true by (symmetry; apply Nat.leb_le; lia). cbn [andb].
    destruct (Nat.eq_dec i j) as [->|Hij].
    { replace (j + 1 <=? j)%nat with false by (symmetry; apply Nat.leb_gt; lia). cbn [andb].
      replace (j <=? j + S k)%nat with true by (symmetry; apply Nat.leb_le; lia). replace (j <=? j + S (S k))%nat with true by (symmetry; apply Nat.leb_le; lia).
      rewrite Nat.sub_diag, !Nat.sub_0_r, !binomial_0. rewrite (even_pred (S k)). destruct (Nat.even (S (S k))); reflexivity. }
    replace (i + 1 <=? j)%nat with true by (symmetry; apply Nat.leb_le; lia). cbn [andb].
    remember (j - i)%nat as d eqn:Ed. replace (j - (i + 1))%nat with (d - 1)%nat by lia. destruct d as [|d]; [lia|]. replace (S d - 1)%nat with d by lia.
    destruct (Nat.leb_spec j (i + 1 + S k)) as [H1|H1].
    + replace (j <=? i + S (S k))%nat with true by (symmetry; apply Nat.leb_le; lia).
      replace (S (S k) - S d)%nat with (S k - d)%nat by lia.
      change (binomial (S (S k)) (S d)) with (binomial (S k) d + binomial (S k) (S d))%nat. rewrite Nat2Z.inj_add.
      destruct (Nat.leb_spec j (i + S k)).
      * replace (S k - d)%nat with (S (S k - S d)) by lia. rewrite (even_pred (S k - S d)). destruct (Nat.even (S (S k - S d))); cbn [negb]; ring.
      * assert (d = S k) as -> by lia. rewrite (binomial_over (S k) (S (S k))) by lia. replace (S k - S k)%nat with 0%nat by lia. cbn [Nat.even]. ring.
    + replace (j <=? i + S k)%nat with false by (symmetry; apply Nat.leb_gt; lia). replace (j <=? i + S (S k))%nat with false by (symmetry; apply Nat.leb_gt; lia). reflexivity.
Qed.

Lemma dop_fact kappa i j : (1 <= kappa)%nat -> difference_operator kappa i j =
  if ((i <=? j) && (j <=? i + kappa))%nat then (if Nat.even (kappa - (j - i)) then 1 else -1) * Z.of_nat (binomial kappa (j - i)) else 0.
Proof. destruct kappa as [|k]; intros H; [lia|]. apply (dop_val k). Qed.

Local Open Scope R_scope.

Lemma fdiff_shift k f i : fdiff k (fun j => f (S j)) i = fdiff k f (S i).
Proof. revert i. induction k as [|k IH]; intros i; [reflexivity|]. cbn [fdiff]. rewrite !IH. reflexivity. Qed.

Lemma dop_apply kappa (x : nat -> R) n : forall i, (1 <= kappa)%nat -> (i + kappa <= n)%nat ->
  rsum (fun j => IZR (difference_operator kappa i j) * x j) (S n) = fdiff kappa x i.
Proof.
  destruct kappa as [|k]; intros i H; [lia|]. clear H. revert i. induction k as [|k IH]; intros i Hi.
  - cbn [difference_operator fdiff].
    rewrite (rsum_ext _ (fun j => (if (S i =? j)%nat then x j else 0) - (if (i =? j)%nat then x j else 0))).
    + rewrite rsum_minus. f_equal.
      * rewrite (rsum_single _ (S n) (S i)) by (try lia; intros j Hj Hne; replace (S i =? j)%nat with false by (symmetry; apply Nat.eqb_neq; lia); reflexivity). rewrite Nat.eqb_refl. reflexivity.
      * rewrite (rsum_single _ (S n) i) by (try lia; intros j Hj Hne; replace (i =? j)%nat with false by (symmetry; apply Nat.eqb_neq; lia); reflexivity). rewrite Nat.eqb_refl. reflexivity.
    + intros j Hj. replace (i + 1)%nat with (S i) by lia. destruct (Nat.eqb_spec i j), (Nat.eqb_spec (S i) j); try lia; lra.
  - change (fdiff (S (S k)) x i) with (fdiff (S k) x (S i) - fdiff (S k) x i). rewrite <- !IH by lia.
    rewrite <- rsum_minus. apply rsum_ext. intros j Hj. rewrite difference_operator_S, minus_IZR. replace (i + 1)%nat with (S i) by lia. ring.
Qed.

(** ** the normal equations give a minimum *)
Lemma lsq_min (N L : nat -> nat -> R) rows q cols lam (x y b : nat -> R) : 0 <= lam ->
  (forall i, (i < cols)%nat ->
     rsum (fun j => (rsum (fun g => N g i * N g j) rows + lam * rsum (fun r => L r i * L r j) q) * x j) cols = rsum (fun g => N g i * b g) rows) ->
  rsum (fun g => (rsum (fun j => N g j * x j) cols - b g) ^ 2) rows + lam * rsum (fun r => (rsum (fun j => L r j * x j) cols) ^ 2) q <=
  rsum (fun g => (rsum (fun j => N g j * y j) cols - b g) ^ 2) rows + lam * rsum (fun r => (rsum (fun j => L r j * y j) cols) ^ 2) q.
Proof.
  intros Hl HN.
  set (a := fun g => rsum (fun j => N g j * x j) cols - b g).
  set (A := fun r => rsum (fun j => L r j * x j) cols).
  set (h := fun g => rsum (fun j => N g j * (y j - x j)) cols).
  set (H := fun r => rsum (fun j => L r j * (y j - x j)) cols).
  assert (Eh : forall g, rsum (fun j => N g j * y j) cols - b g = a g + h g).
  { intros g. unfold a, h. replace (rsum (fun j => N g j * y j) cols) with (rsum (fun j => N g j * x j) cols + rsum (fun j => N g j * (y j - x j)) cols); [ring|].
    rewrite <- rsum_plus. apply rsum_ext. intros; ring. }
  assert (EH : forall r, rsum (fun j => L r j * y j) cols = A r + H r).
  { intros r. unfold A, H. rewrite <- rsum_plus. apply rsum_ext. intros; ring. }
  assert (Cross : rsum (fun g => a g * h g) rows + lam * rsum (fun r => A r * H r) q = 0).
  { transitivity (rsum (fun i => (y i - x i) * (rsum (fun g => N g i * a g) rows + lam * rsum (fun r => L r i * A r) q)) cols).
    - rewrite (rsum_ext (fun i => (y i - x i) * _) (fun i => rsum (fun g => a g * (N g i * (y i - x i))) rows + lam * rsum (fun r => A r * (L r i * (y i - x i))) q)).
      + rewrite rsum_plus, rsum_scal. rewrite (rsum_swap (fun i g => a g * (N g i * (y i - x i)))), (rsum_swap (fun i r => A r * (L r i * (y i - x i)))).
        f_equal; [|f_equal]; apply rsum_ext; intros g _; rewrite rsum_scal; reflexivity.
      + intros i _. rewrite Rmult_plus_distr_l, <- Rmult_assoc, (Rmult_comm (y i - x i) lam), Rmult_assoc. rewrite <- !rsum_scal.
        f_equal; apply rsum_ext; intros; ring.
    - apply rsum_zero. intros i Hi. rewrite (rsum_ext (fun g => N g i * a g) (fun g => rsum (fun j => N g i * N g j * x j) cols - N g i * b g)).
      + rewrite rsum_minus. rewrite <- (HN i Hi). rewrite (rsum_swap (fun g j => N g i * N g j * x j)).
        rewrite (rsum_ext (fun r => L r i * A r) (fun r => rsum (fun j => L r i * L r j * x j) cols)).
        * rewrite (rsum_swap (fun r j => L r i * L r j * x j)). rewrite (rsum_ext (fun j => (_ + _) * x j) (fun j => rsum (fun g => N g i * N g j * x j) rows + lam * rsum (fun r => L r i * L r j * x j) q)).
          -- rewrite rsum_plus, rsum_scal. ring.
          -- intros j _. rewrite !rsum_scal_r. ring.
        * intros r _. unfold A. rewrite <- rsum_scal. apply rsum_ext. intros; ring.
      + intros g _. unfold a. rewrite Rmult_minus_distr_l, <- rsum_scal. f_equal. apply rsum_ext. intros; ring. }
  rewrite (rsum_ext (fun g => (rsum (fun j => N g j * y j) cols - b g) ^ 2) (fun g => a g ^ 2 + (2 * (a g * h g) + h g ^ 2))) by (intros g _; rewrite Eh; ring).
  rewrite (rsum_ext (fun r => rsum (fun j => L r j * y j) cols ^ 2) (fun r => A r ^ 2 + (2 * (A r * H r) + H r ^ 2))) by (intros r _; rewrite EH; ring).
  rewrite !rsum_plus, !rsum_scal. fold (A). 
  change (rsum (fun g => (rsum (fun j => N g j * x j) cols - b g) ^ 2) rows) with (rsum (fun g => a g ^ 2) rows).
  change (rsum (fun r => rsum (fun j => L r j * x j) cols ^ 2) q) with (rsum (fun r => A r ^ 2) q).
  assert (P1 : 0 <= rsum (fun g => h g ^ 2) rows) by (apply BMath.rsum_nonneg; intros; apply pow2_ge_0).
  assert (P2 : 0 <= lam * rsum (fun r => H r ^ 2) q) by (apply Rmult_le_pos; [exact Hl|]; apply BMath.rsum_nonneg; intros; apply pow2_ge_0).
  lra.
Qed.

(** ** basis values *)
Lemma kevaluate_R p n (U : list R) i u : length U = (n + p + 2)%nat -> (p <= n)%nat -> sorted U -> (i <= n)%nat ->
  @kevaluate RNum (knots_of p U) 0 i p u = Val (bspline (kfun U) n p i u).
Proof.
  intros L D S Hi. rewrite (@kevaluate_val RNum p U n) by (rn; lia). rewrite kderiv_0, !Nat.sub_0_r.
  rewrite basis_R; rn; try lia.
  - rewrite Nat.sub_0_r. reflexivity.
  - rewrite !Nat.sub_0_r. apply S; lia.
Qed.

Section Coeffs.
  Variables (p n : nat) (U : list R).
  Hypotheses (L : length U = (n + p + 2)%nat) (D : (p <= n)%nat) (S : sorted U).

  Lemma collocation_R dim (Q : Mat RNum) v s : shape dim (Datatypes.S n) Q -> length v = (n + 1)%nat ->
    exists N, @collocation RNum (knots_of p U) Q (mkParams v s) = Val N /\ shape (Datatypes.S n) (Datatypes.S n) N /\
      forall g i, (g <= n)%nat -> (i <= n)%nat -> ent N i g = bspline (kfun U) n p i (nth g v 0).
  Proof.
    intros SQ Lv. unfold collocation, dp_segments. assert (EN : ncols Q = Datatypes.S n) by apply SQ. rewrite EN. rewrite usub_ok by lia. cbn [bind].
    replace (Datatypes.S n - 1)%nat with n by lia. unfold rangei. replace (n + 1 - 0)%nat with (Datatypes.S n) by lia.
    destruct (@fill_matrix RNum (fun N i => foldM (fun N g => u <- vget v g;; b <- kevaluate (@knots_of RNum p U) 0 i p u;; mset N g i b) (seq 0 (Datatypes.S n)) N)
      (fun g i => bspline (kfun U) n p i (nth g v 0)) false 0 (Datatypes.S n) (Datatypes.S n)) as [N [E [SN H]]].
    - intros N i SN Hi. cbn [plus] in Hi.
      destruct (@fill_col RNum (fun N g => u <- vget v g;; b <- kevaluate (@knots_of RNum p U) 0 i p u;; mset N g i b) (fun g => bspline (kfun U) n p i (nth g v 0)) 0 (Datatypes.S n) N (Datatypes.S n) (Datatypes.S n) i) as [N' [E [S' H]]]; try assumption; try lia.
      + intros M g SM Hg. rewrite (vget_nth v g 0) by (rn; lia). cbn [bind]. rewrite (kevaluate_R p n U) by (try assumption; lia). cbn [bind]. rewrite Nat.sub_0_r. reflexivity.
      + exists N'. split; [exact E|]. split; [exact S'|]. intros x y Hx Hy. rewrite H by assumption. rewrite Nat.sub_0_r.
        destruct (Nat.eqb_spec y i) as [->|]; reflexivity.
    - exists N. split; [exact E|]. split; [exact SN|]. intros g i Hg Hi. apply H; lia.
  Qed.

  Lemma loose_coefficients_R dim m (Q : Mat RNum) v s : shape dim (m + 1) Q -> length v = (m + 1)%nat ->
    exists N, @loose_coefficients RNum (knots_of p U) Q (mkParams v s) = Val N /\ shape (m + 1) (n + 1) N /\
      forall g i, (g <= m)%nat -> (i <= n)%nat -> ent N i g = bspline (kfun U) n p i (nth g v 0).
  Proof.
    intros SQ Lv. unfold loose_coefficients, dp_segments. rewrite (@knots_of_segments RNum p U n L). cbn [bind].
    assert (EN : ncols Q = (m + 1)%nat) by apply SQ. rewrite EN. rewrite usub_ok by lia. cbn [bind pvector].
    change (kdegree (@knots_of RNum p U)) with p.
    replace (m + 1 - 1)%nat with m by lia. unfold rangei. rewrite !Nat.sub_0_r.
    destruct (@fill_matrix RNum (fun N g => u <- vget v g;; foldM (fun N i => b <- kevaluate (@knots_of RNum p U) 0 i p u;; mset N g i b) (seq 0 (n + 1)) N)
      (fun g i => bspline (kfun U) n p i (nth g v 0)) true 0 (m + 1) (n + 1)) as [N [E [SN H]]].
    - intros N g SN Hg. cbn [plus] in Hg. rewrite (vget_nth v g 0) by (rn; lia). cbn [bind].
      destruct (@fill_row RNum (fun N i => b <- kevaluate (@knots_of RNum p U) 0 i p (nth g v 0);; mset N g i b) (fun i => bspline (kfun U) n p i (nth g v 0)) 0 (n + 1) N (m + 1) (n + 1) g) as [N' [E [S' H]]]; try assumption; try lia.
      + intros M i SM Hi. rewrite (kevaluate_R p n U) by (try assumption; lia). cbn [bind]. rewrite Nat.sub_0_r. reflexivity.
      + exists N'. split; [exact E|]. split; [exact S'|]. intros x y Hx Hy. rewrite H by assumption. rewrite Nat.sub_0_r.
        destruct (Nat.eqb_spec x g) as [->|]; reflexivity.
    - exists N. split; [exact E|]. split; [exact SN|]. intros g i Hg Hi. apply H; lia.
  Qed.

  Lemma loose_difference_R kappa : (kappa <= n)%nat ->
    exists Dm, @loose_difference RNum kappa (knots_of p U) = Val Dm /\ shape (n + 1 - kappa) (n + 1) Dm /\
      forall i j, (i < n + 1 - kappa)%nat -> (j <= n)%nat -> ent Dm j i = IZR (difference_operator kappa i j).
  Proof.
    intros Hk. unfold loose_difference. rewrite (@knots_of_segments RNum p U n L). cbn [bind].
    replace (kappa <=? n)%nat with true by (symmetry; apply Nat.leb_le; exact Hk). cbn [assert bind]. repeat (rewrite usub_ok by lia; cbn [bind]).
    unfold rangei. rewrite !Nat.sub_0_r. replace (n - kappa + 1)%nat with (n + 1 - kappa)%nat by lia.
    destruct (@fill_matrix RNum (fun Dm i => foldM (fun Dm j => mset Dm i j (nofZ (difference_operator kappa i j))) (seq 0 (n + 1)) Dm)
      (fun i j => IZR (difference_operator kappa i j)) true 0 (n + 1 - kappa) (n + 1)) as [N [E [SN H]]].
    - intros N i SN Hi. cbn [plus] in Hi.
      destruct (@fill_row RNum (fun Dm j => mset Dm i j (nofZ (difference_operator kappa i j))) (fun j => IZR (difference_operator kappa i j)) 0 (n + 1) N (n + 1 - kappa) (n + 1) i) as [N' [E [S' H]]]; try assumption; try lia.
      + intros M j SM Hj. rewrite Nat.sub_0_r. reflexivity.
      + exists N'. split; [exact E|]. split; [exact S'|]. intros x y Hx Hy. rewrite H by assumption. rewrite Nat.sub_0_r. destruct (Nat.eqb_spec x i) as [->|]; reflexivity.
    - exists N. split; [exact E|]. split; [exact SN|]. intros i j Hi Hj. apply H; lia.
  Qed.
End Coeffs.

(** the squared error at the parameters [t] of the spline with knots [U] and
    control points [C], for the [m + 1] data points [D] *)
Definition fit_error (p n dim m : nat) (U : list R) (t : nat -> R) (D C : Mat RNum) : R :=
  rsum (fun g => rsum (fun d => (spline (kfun U) n p (fun i => ent C i d) (t g) - ent D g d) ^ 2) dim) (S m).
