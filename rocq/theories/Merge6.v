(** * The shifts: existence, smoothness at the joint, minimality *)

From Coq Require Import ZArith Reals List Bool Arith Lia Lra.
From Verif Require Import Num Vec MKnots MPoints MCurve MFit MMerge RNum Hoare Lists Struct Spec BMath BMath3 Api Bridge Facts1 Facts3 Gen3 LinAlg Fit1 Fit3 Fit4 Merge1 Merge2 Merge3 Merge4 Merge5.
Import ListNotations.
Local Open Scope R_scope.

(** ** stationary points under linear conditions *)
Section Stationary.
  Variables (n q : nat) (con : nat -> nat -> R) (sg rhs : nat -> R).
  Hypothesis Hsg : forall r, sg r <> 0.

  Definition feasible (x : nat -> R) : Prop := forall r, (r < q)%nat -> rsum (fun j => con r j * x j) n = rhs r.
  Definition stationary (x y : nat -> R) : Prop := forall j, (j < n)%nat -> x j = rsum (fun r => con r j * y r) q.

  Lemma stationary_exists : (exists x0, feasible x0) -> exists x y, feasible x /\ stationary x y.
  Proof.
    intros [x0 H0]. destruct (normal_solvable (fun g r => con r g) (fun _ _ => 0) n 0 q 0 x0 ltac:(lra)) as [y Hy].
    exists (fun j => rsum (fun r => con r j * y r) q), y. split; [|intros j _; reflexivity]. intros r Hr. rewrite <- (H0 r Hr). rewrite <- (Hy r Hr).
    rewrite (rsum_ext (fun j => con r j * rsum (fun r0 => con r0 j * y r0) q) (fun j => rsum (fun r0 => con r j * con r0 j * y r0) q)).
    - rewrite rsum_swap. apply rsum_ext. intros r0 _. cbn [rsum]. rewrite rsum_scal_r. ring.
    - intros j _. rewrite <- rsum_scal. apply rsum_ext. intros; ring.
  Qed.

  Lemma stationary_min x y w : feasible x -> stationary x y -> feasible w -> rsum (fun j => x j ^ 2) n <= rsum (fun j => w j ^ 2) n.
  Proof.
    intros Fx St Fw.
    assert (O : rsum (fun j => x j * (w j - x j)) n = 0).
    { rewrite (rsum_ext _ (fun j => rsum (fun r => con r j * y r * (w j - x j)) q)).
      - rewrite rsum_swap. apply rsum_zero. intros r Hr. rewrite (rsum_ext _ (fun j => y r * (con r j * w j - con r j * x j))) by (intros; ring).
        rewrite rsum_scal, rsum_minus, Fx, Fw by exact Hr. ring.
      - intros j Hj. rewrite (St j Hj) at 1. rewrite <- rsum_scal_r. apply rsum_ext. intros; ring. }
    assert (E : rsum (fun j => w j ^ 2) n = rsum (fun j => x j ^ 2) n + 2 * rsum (fun j => x j * (w j - x j)) n + rsum (fun j => (w j - x j) ^ 2) n).
    { rewrite <- rsum_scal, <- !rsum_plus. apply rsum_ext. intros; ring. }
    assert (0 <= rsum (fun j => (w j - x j) ^ 2) n) by (apply rsum_nonneg; intros; apply pow2_ge_0). lra.
  Qed.

  (** the bordered matrix *)
  Definition bordered (x y : nat) : R :=
    if (x <? n)%nat then (if (y <? n)%nat then delta x y else sg (y - n) * con (y - n)%nat x)
    else if (y <? n)%nat then con (x - n)%nat y else 0.

  Lemma bordered_top x z : (x < n)%nat -> rsum (fun y => bordered x y * z y) (n + q) = z x + rsum (fun r => con r x * (sg r * z (n + r)%nat)) q.
  Proof.
    intros Hx. rewrite rsum_add. f_equal.
    - rewrite (rsum_single _ n x Hx); unfold bordered.
      + cmp. rewrite delta_eq. ring.
      + intros i Hi N. cmp. rewrite delta_ne by exact N. ring.
    - apply rsum_ext. intros r Hr. unfold bordered. cmp. replace (n + r - n)%nat with r by lia. ring.
  Qed.
  Lemma bordered_bottom r z : rsum (fun y => bordered (n + r) y * z y) (n + q) = rsum (fun j => con r j * z j) n.
  Proof.
    rewrite rsum_add. rewrite (rsum_zero _ q).
    - rewrite Rplus_0_r. apply rsum_ext. intros j Hj. unfold bordered. cmp. replace (n + r - n)%nat with r by lia. ring.
    - intros i Hi. unfold bordered. cmp. ring.
  Qed.

  Definition border_rhs (x : nat) : R := if (x <? n)%nat then 0 else rhs (x - n).
  Lemma bordered_solution z : (forall x, (x < n + q)%nat -> rsum (fun y => bordered x y * z y) (n + q) = border_rhs x) ->
    feasible z /\ stationary z (fun r => - (sg r * z (n + r)%nat)).
  Proof.
    intros H. split.
    - intros r Hr. rewrite <- bordered_bottom. rewrite H by lia. unfold border_rhs. cmp. f_equal. lia.
    - intros j Hj. assert (T := H j ltac:(lia)). rewrite bordered_top in T by exact Hj. unfold border_rhs in T.
      replace (j <? n)%nat with true in T by (symmetry; apply Nat.ltb_lt; lia).
      rewrite (rsum_ext _ (fun r => -1 * (con r j * (sg r * z (n + r)%nat)))) by (intros; ring). rewrite rsum_scal. lra.
  Qed.
  Lemma bordered_solvable : (exists x0, feasible x0) -> exists z, forall x, (x < n + q)%nat -> rsum (fun y => bordered x y * z y) (n + q) = border_rhs x.
  Proof.
    intros F. destruct (stationary_exists F) as [x [y [Fx St]]].
    exists (fun i => if (i <? n)%nat then x i else - y (i - n)%nat / sg (i - n)). intros i Hi. unfold border_rhs. destruct (Nat.ltb_spec i n) as [H|H].
    - rewrite bordered_top by exact H. replace (i <? n)%nat with true by (symmetry; apply Nat.ltb_lt; lia). rewrite (St i H).
      rewrite <- rsum_plus. apply rsum_zero. intros r Hr. cmp. replace (n + r - n)%nat with r by lia. field. apply Hsg.
    - assert (B := bordered_bottom (i - n)%nat (fun i => if (i <? n)%nat then x i else - y (i - n)%nat / sg (i - n))). cbv beta in B.
      replace (n + (i - n))%nat with i in B by lia. rewrite B. rewrite <- (Fx (i - n)%nat) by lia. apply rsum_ext. intros j Hj. cmp. reflexivity.
  Qed.
End Stationary.

(** ** derivatives at an end determine the points there *)
Lemma start_injective p n U (P : nat -> R) : fclamped p n U -> (forall k, (k < p)%nat -> dpoints U p P k 0 = 0) -> forall j, (j < p)%nat -> P j = 0.
Proof.
  intros C H.
  assert (G : forall i k, (i + k < p)%nat -> dpoints U p P k i = 0).
  { induction i as [|i IH]; intros k Hk; [apply H; lia|].
    assert (T := IH (S k) ltac:(lia)). cbn [dpoints] in T. rewrite (IH k) in T by lia.
    assert (U (i + S k)%nat = 0) by (apply (fc_zero _ _ _ C); lia). assert (0 < U (i + p + 1)%nat) by (apply (U_pos p n U C); lia).
    rewrite ratio_nz in T by lra. assert (0 < INR (p - k)) by (apply lt_0_INR; lia).
    assert (E : INR (p - k) * (dpoints U p P k (S i) - 0) / (U (i + p + 1)%nat - U (i + S k)%nat) * (U (i + p + 1)%nat - U (i + S k)%nat) = 0) by (rewrite T; ring).
    unfold Rdiv in E. rewrite Rmult_assoc, Rinv_l, Rmult_1_r, Rminus_0_r in E by lra. apply Rmult_integral in E. destruct E; [lra|assumption]. }
  intros j Hj. apply (G j 0%nat). lia.
Qed.

Lemma end_injective p n U (P : nat -> R) : fclamped p n U -> (forall k, (k < p)%nat -> dpoints U p P k (n - k) = 0) -> forall j, (n - p < j <= n)%nat -> P j = 0.
Proof.
  intros C H. assert (D := fc_deg _ _ _ C).
  assert (G : forall i k, (i + k < p)%nat -> dpoints U p P k (n - k - i) = 0).
  { induction i as [|i IH]; intros k Hk; [rewrite Nat.sub_0_r; apply H; lia|].
    assert (T := IH (S k) ltac:(lia)). cbn [dpoints] in T. replace (S (n - S k - i)) with (n - k - i)%nat in T by lia. rewrite (IH k) in T by lia.
    replace (n - S k - i)%nat with (n - k - S i)%nat in T by lia.
    assert (U (n - k - S i + p + 1)%nat = 1) by (apply (fc_one _ _ _ C); lia). assert (U (n - k - S i + S k)%nat < 1) by (apply (U_lt1 p n U C); lia).
    rewrite ratio_nz in T by lra. assert (0 < INR (p - k)) by (apply lt_0_INR; lia). set (x := dpoints U p P k (n - k - S i)) in *. set (e := U (n - k - S i + p + 1)%nat - U (n - k - S i + S k)%nat) in *.
    assert (E : INR (p - k) * (0 - x) / e * e = 0) by (rewrite T; ring). assert (0 < e) by (unfold e; lra).
    unfold Rdiv in E. rewrite Rmult_assoc, Rinv_l, Rmult_1_r in E by lra. apply Rmult_integral in E. destruct E; lra. }
  intros j Hj. replace j with (n - 0 - (n - j))%nat by lia. apply (G (n - j)%nat 0%nat). lia.
Qed.
