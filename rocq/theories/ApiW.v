(** * Vocabulary: how strongly a constraint of a merge holds the points that may move *)

From Coq Require Import Reals List Arith.
From Verif Require Import Num Vec MKnots MPoints MCurve RNum Lists Spec Api.
Local Open Scope R_scope.

(** [g] is the value at [u] of the curve on the same knots whose last [p] control points
    are 1 and whose others are 0: the share of [evaluate] at [u] that comes from the
    points of the first curve that a merge may move *)
Definition pull_last (p m : nat) (V : list R) (u g : R) : Prop :=
  exists C h, clamped_curve p m 1 V C h /\ (forall i, (i <= m)%nat -> ent C i 0 = if (i <? m + 1 - p)%nat then 0 else 1) /\ returns (evaluate h u) 1 (fun _ => g).
(** the same with the first [p] control points, which a merge may move in the second curve *)
Definition pull_first (p m : nat) (V : list R) (u g : R) : Prop :=
  exists C h, clamped_curve p m 1 V C h /\ (forall i, (i <= m)%nat -> ent C i 0 = if (i <? p)%nat then 1 else 0) /\ returns (evaluate h u) 1 (fun _ => g).
