(** * Properties C170 and C171: merging when small singular values are dropped *)

From Coq Require Import ZArith Reals List Arith Lra Lia.
From Verif Require Import Num Vec MKnots MPoints MCurve MFit MMerge RNum Lists Spec Api ApiV ApiW Samples Svd2 Svd8 Svd9.
Import ListNotations.
Local Open Scope R_scope.

(** ** C170.  The claim that constrained points stay where they are is false: the linear
    system of a merge is solved by a decomposition that takes singular values up to
    [sqrt(f64::EPSILON)], that is [2^-26], for zero, and the singular value of a constraint
    can be that small. *)
Theorem C170_constraints_cutoff_refuted : ~ forall svd m dim V P a W Q b pa pb, cutoff_solver (/ 2 ^ 26) svd -> clamped_curve 2 m dim V P a -> clamped_curve 2 m dim W Q b ->
  (length pa + length pb < 2)%nat -> (forall u, In u pa -> 0 <= u <= 1) -> (forall u, In u pb -> 0 <= u <= 1) ->
  exists c, merge_with_constraints svd (mkCC a pa) (mkCC b pb) = Val (Ok c) /\
    (forall u, In u pa -> agree dim 0 c (u / 2) a u) /\ (forall u, In u pb -> agree dim 0 c ((1 + u) / 2) b u).
Proof. exact constraints_lost. Qed.
Print Assumptions C170_constraints_cutoff_refuted.

(** two parabolas on the line, the first one constantly 0, the second one with control
    points 0, 1, 0: the point at [2^-15] of the first, which is to stay, is moved by at
    least [2^-17], although all arithmetic is exact *)
Theorem C170_lost : forall svd a b, cutoff_solver (/ 2 ^ 26) svd ->
  clamped_curve 2 2 1 [0; 0; 0; 1; 1; 1] (mkMat 1 [[0]; [0]; [0]]) a -> clamped_curve 2 2 1 [0; 0; 0; 1; 1; 1] (mkMat 1 [[0]; [1]; [0]]) b ->
  exists c f, merge_with_constraints svd (mkCC a [/ 2 ^ 15]) (mkCC b []) = Val (Ok c) /\ returns (evaluate c (/ 2 ^ 15 / 2)) 1 (fun _ => f) /\ f <= - / 2 ^ 17.
Proof. exact lost_constraint. Qed.
Print Assumptions C170_lost.

Example C170_hypotheses : exists svd a b, cutoff_solver (/ 2 ^ 26) svd /\
  clamped_curve 2 2 1 [0; 0; 0; 1; 1; 1] (mkMat 1 [[0]; [0]; [0]]) a /\ clamped_curve 2 2 1 [0; 0; 0; 1; 1; 1] (mkMat 1 [[0]; [1]; [0]]) b.
Proof.
  destruct (clamped_curve_ex 2 2 1 U_2 P_2 U_2_clamped P_2_shape) as [a HA]. destruct (clamped_curve_ex 2 2 1 U_2 Q_2 U_2_clamped Q_2_shape) as [b HB].
  exists (some_cutoff (/ 2 ^ 26)), a, b. split; [apply some_cutoff_solver|]. split; assumption.
Qed.

(** ** C171.  Without constraints, with the end of the first or the start of the second
    curve held, the cutoff does no harm for degrees 1 and 2, whatever the knots are: the
    result is the one of an exact solver, to which all other theorems on merging apply. *)
Theorem C171_merges : forall eps svd, 0 <= eps -> 25 * eps < 1 -> cutoff_solver eps svd ->
  exists svd', good_solver svd' /\ forall p m o dim V W P Q a b, clamped_curve p m dim V P a -> clamped_curve p o dim W Q b -> p = 1%nat \/ p = 2%nat ->
    merge svd a b = merge svd' a b /\ (p = 2%nat -> merge_from svd a b = merge_from svd' a b /\ merge_to svd a b = merge_to svd' a b).
Proof. exact plain_transfer. Qed.
Print Assumptions C171_merges.

(** the same for a constraint on which the points that may move have a share whose square
    exceeds 25 times the threshold *)
Theorem C171_constraints : forall eps svd, 0 <= eps -> 25 * eps < 1 -> cutoff_solver eps svd ->
  exists svd', good_solver svd' /\ forall p m o dim V W P Q a b pa pb, clamped_curve p m dim V P a -> clamped_curve p o dim W Q b -> p = 1%nat \/ p = 2%nat -> (length pa + length pb < p)%nat ->
    (forall u, In u pa -> exists g, pull_last p m V u g /\ 25 * eps < g ^ 2) -> (forall u, In u pb -> exists g, pull_first p o W u g /\ 25 * eps < g ^ 2) ->
    merge_with_constraints svd (mkCC a pa) (mkCC b pb) = merge_with_constraints svd' (mkCC a pa) (mkCC b pb).
Proof. exact merge_transfer. Qed.
Print Assumptions C171_constraints.

(** the library's threshold, and a constraint in the middle of a parabola *)
Example C171_hypotheses : (exists svd, cutoff_solver (/ 2 ^ 26) svd) /\ 0 <= / 2 ^ 26 /\ 25 * / 2 ^ 26 < 1 /\
  pull_last 2 2 [0; 0; 0; 1; 1; 1] (1 / 2) (3 / 4) /\ pull_first 2 2 [0; 0; 0; 1; 1; 1] (1 / 2) (3 / 4) /\ 25 * / 2 ^ 26 < (3 / 4) ^ 2.
Proof.
  split; [exists (some_cutoff (/ 2 ^ 26)); apply some_cutoff_solver|]. split; [lra|]. split; [lra|]. split; [apply pull_middle|]. split; [apply pull_middle|]. lra.
Qed.
