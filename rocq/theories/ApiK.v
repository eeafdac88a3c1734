(** * Vocabulary: binary64 curves over finite clamped knots *)

From Coq Require Import List Arith Reals.
From Verif Require Import Num Vec MKnots MPoints MCurve RNum F64 Lists Spec Api ApiF.
Import ListNotations.

(** a curve over finite knots whose values are sorted and clamped; the control points are
    any binary64 numbers, infinities and NaN included *)
Definition on_knots (p n dim : nat) (U : list f64) (P : Mat F64) (c : Curve F64) : Prop :=
  @sized F64 p n dim U P /\ @built F64 p U P c /\ (forall x, In x U -> finite x) /\ clamped p n (map val U).
