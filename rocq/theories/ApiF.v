(** * Vocabulary for the statements about binary64 *)

From Coq Require Import ZArith Reals List Arith.
From Flocq Require Import Core.Core IEEE754.BinarySingleNaN.
From Verif Require Import Num Vec MKnots MPoints MCurve F64 RNum Lists Spec Api.
Import ListNotations.
Local Open Scope R_scope.

(** neither infinite nor NaN *)
Notation finite x := (@is_finite 53 1024 x = true).
(** the number that a finite [x] represents *)
Notation val := (@B2R 53 1024).

(** neighbouring knots that differ, differ by at least [2^-1000] *)
Definition separated (U : list R) : Prop :=
  forall i, (i + 1 < length U)%nat -> nth i U 0 <> nth (i + 1) U 0 -> / 2 ^ 1000 <= nth (i + 1) U 0 - nth i U 0.

(** knots as they come out of this crate: finite, sorted, clamped, not absurdly close *)
Definition float_knots (p n : nat) (U : list f64) : Prop :=
  (forall x, In x U -> finite x) /\ clamped p n (map val U) /\ separated (map val U).

(** a curve with such knots whose coordinates are finite and at most [M] in size *)
Definition float_curve (p n dim : nat) (U : list f64) (P : Mat F64) (M : R) (c : Curve F64) : Prop :=
  float_knots p n U /\ shape dim (S n) P /\
  (forall i d, (i <= n)%nat -> (d < dim)%nat -> finite (ent P i d) /\ Rabs (val (ent P i d)) <= M) /\
  @built F64 p U P c.

(** the same control points as real numbers *)
Definition same_points (n dim : nat) (P : Mat F64) (P' : Mat RNum) : Prop :=
  shape dim (S n) P' /\ forall i d, (i <= n)%nat -> (d < dim)%nat -> ent P' i d = val (ent P i d).

(** [r] is a successful evaluation to [dim] finite numbers, the [d]-th within [e] of [f d] *)
Definition returns_within {E} (r : M (result (list f64) E)) (dim : nat) (f : nat -> R) (e : R) : Prop :=
  exists v, r = Val (Ok v) /\ length v = dim /\
    forall d, (d < dim)%nat -> finite (nth d v (@n0 F64)) /\ Rabs (val (nth d v (@n0 F64)) - f d) <= e.
