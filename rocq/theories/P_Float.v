(** * Properties C58 to C62: binary64 *)

From Coq Require Import ZArith Reals List Bool Arith Lra Lia.
From Flocq Require Import Core.Core IEEE754.BinarySingleNaN.
From Verif Require Import Num Vec MKnots MPoints MCurve RNum F64 Lists Spec Api ApiF Facts11 Samples Float1 Float5 Float6 Float7 Float8.
Import ListNotations.
Local Open Scope R_scope.

(** ** C58.  Evaluation in binary64 returns finite numbers within
    [(6 p + 3) 2^-53 M] of the exact evaluation on the same data. *)
Theorem C58_accuracy : forall p n dim (U : list f64) P M c P' cR (u : f64), float_curve p n dim U P M c -> same_points n dim P P' ->
  clamped_curve p n dim (map val U) P' cR -> (p <= 100)%nat -> / 2 ^ 1000 <= M <= 2 ^ 1022 -> finite u -> 0 <= val u <= 1 ->
  exists f, returns (evaluate cR (val u)) dim f /\ returns_within (@evaluate F64 c u) dim f ((6 * INR p + 3) * / 2 ^ 53 * M).
Proof. exact accuracy_F64. Qed.
Print Assumptions C58_accuracy.

Example C58_hypotheses : exists c cR, float_curve 2 3 1 U_f P_f 2 c /\ same_points 3 1 P_f PR_f /\ clamped_curve 2 3 1 (map val U_f) PR_f cR /\
  / 2 ^ 1000 <= 2 <= 2 ^ 1022 /\ finite (q4 3) /\ 0 <= val (q4 3) <= 1.
Proof.
  destruct curve_f as [c H]. destruct (clamped_curve_ex 2 3 1 (map val U_f) PR_f) as [cR HR]; [apply H|apply same_f|].
  exists c, cR. split; [exact H|]. split; [exact same_f|]. split; [exact HR|]. split; [|split; [reflexivity|rewrite val_q4_3; lra]].
  assert (S := small_1000). split; [lra|]. change 1022%nat with (1 + 1021)%nat. rewrite pow_add, pow_1. assert (1 <= 2 ^ 1021) by (apply pow_R1_Rle; lra). lra.
Qed.

(** ** C59.  Basis functions in binary64: finite, non-negative, exactly zero off
    their support, within a relative [(5 p + 1) 2^-53] (and an absolute [2^-700]) of
    the exact value, and their exact sum is within [(5 p + 1) 2^-53] of one. *)
Theorem C59_basis : forall p n (U : list f64) kn knR (u : f64) f, float_knots p n U -> (p <= 100)%nat -> @knots_new F64 p U = Val kn ->
  @knots_new RNum p (map val U) = Val knR -> finite u -> 0 <= val u <= 1 ->
  (forall i, (i <= n)%nat -> kevaluate knR 0 i p (val u) = Val (f i)) ->
  exists b : nat -> f64, (forall i, (i <= n)%nat -> kevaluate kn 0 i p u = Val (b i) /\ finite (b i) /\ 0 <= val (b i) /\
      Rabs (val (b i) - f i) <= (5 * INR p + 1) * / 2 ^ 53 * f i + / 2 ^ 700 /\
      (val u < nth i (map val U) 0 \/ nth (i + p + 1) (map val U) 0 < val u -> val (b i) = 0)) /\
    Rabs (rsum (fun i => val (b i)) (S n) - 1) <= (5 * INR p + 1) * / 2 ^ 53.
Proof. exact basis_F64. Qed.
Print Assumptions C59_basis.

(** the last hypothesis holds by C04 *)
Example C59_hypotheses : exists kn knR f, float_knots 2 3 U_f /\ @knots_new F64 2 U_f = Val kn /\ @knots_new RNum 2 (map val U_f) = Val knR /\
  0 <= val (q4 3) <= 1 /\ forall i, (i <= 3)%nat -> kevaluate knR 0 i 2 (val (q4 3)) = Val (f i).
Proof.
  destruct curve_f as [c [H1 [_ [_ [kn [H2 _]]]]]]. assert (C := proj1 (proj2 H1)).
  destruct (clamped_curve_ex 2 3 1 (map val U_f) PR_f C) as [cR [_ [_ [knR [H3 _]]]]]; [apply same_f|].
  assert (R : 0 <= val (q4 3) <= 1) by (rewrite val_q4_3; lra).
  destruct (Facts1.basis_facts 2 3 _ knR (val (q4 3)) C H3 R) as [f [Hf _]].
  exists kn, knR, f. auto.
Qed.

(** ** C60.  In binary64 a clamped curve still starts and ends exactly in its outer
    control points, whatever the degree. *)
Theorem C60_ends : forall p n dim (U : list f64) P M c (u : f64), float_curve p n dim U P M c -> finite u ->
  (val u = 0 -> returns_within (@evaluate F64 c u) dim (fun d => val (ent P 0 d)) 0) /\
  (val u = 1 -> returns_within (@evaluate F64 c u) dim (fun d => val (ent P n d)) 0).
Proof. exact ends_F64. Qed.
Print Assumptions C60_ends.

Example C60_hypotheses : exists c, float_curve 2 3 1 U_f P_f 2 c /\ val (q4 0) = 0 /\ val (q4 4) = 1.
Proof. destruct curve_f as [c H]. exists c. split; [exact H|]. split; [exact val_q4_0|exact val_q4_4]. Qed.

(** ** C61.  The uniform generator in binary64. *)
Theorem C61_uniform : forall p n, (1 <= p <= n)%nat -> (Z.of_nat (n - p) < 2 ^ 51)%Z ->
  exists kn U, @uniform F64 p n = Val (Ok kn) /\ vector kn = Val U /\ @knots_new F64 p U = Val kn /\
    float_knots p n U /\
    (forall i, (p <= i <= n)%nat -> val (nth i U (@n0 F64)) < val (nth (S i) U (@n0 F64))) /\
    (forall i, (p <= i <= n + 1)%nat -> Rabs (val (nth i U (@n0 F64)) - INR (i - p) / INR (n - p + 1)) <= / 2 ^ 53) /\
    is_clamped kn = Val true /\ is_sorted kn = Val true /\ is_uniform kn = Val (Ok true).
Proof. exact uniform_F64. Qed.
Print Assumptions C61_uniform.

(** three segments: 1/3 and 2/3 are not representable *)
Example C61_hypotheses : (1 <= 2 <= 4)%nat /\ (Z.of_nat (4 - 2) < 2 ^ 51)%Z.
Proof. split; [lia|reflexivity]. Qed.

(** ** C62.  Equally spaced parameters in binary64. *)
Theorem C62_equally_spaced : forall m, (1 <= m)%nat -> (Z.of_nat m <= 2 ^ 51)%Z ->
  exists v, @equally_spaced F64 m = Val (mkParams v m) /\ length v = (m + 1)%nat /\
    (forall g, (g <= m)%nat -> finite (nth g v (@n0 F64)) /\ Rabs (val (nth g v (@n0 F64)) - INR g / INR m) <= / 2 ^ 53) /\
    (forall g, (g < m)%nat -> val (nth g v (@n0 F64)) < val (nth (S g) v (@n0 F64))) /\
    val (nth 0 v (@n0 F64)) = 0 /\ val (nth m v (@n0 F64)) = 1.
Proof. exact equally_spaced_F64. Qed.
Print Assumptions C62_equally_spaced.

Example C62_hypotheses : (1 <= 10)%nat /\ (Z.of_nat 10 <= 2 ^ 51)%Z.
Proof. split; [lia|discriminate]. Qed.
