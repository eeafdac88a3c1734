(** * Vocabulary: averages of knots *)

From Coq Require Import List Reals.
From Verif Require Import Spec.
Import ListNotations.
Local Open Scope R_scope.

(** the average of the [p] knots after number [i]: the parameter that belongs to
    control point [i] (Greville's abscissa) *)
Definition average (U : list R) (p i : nat) : R := rsum (fun k => nth (i + 1 + k) U 0) p / INR p.
