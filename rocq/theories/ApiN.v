(** * Vocabulary for linear solvers that leave a residual *)

From Coq Require Import Reals List Arith.
From Verif Require Import Num Vec RNum Lists Spec Api.
Local Open Scope R_scope.

(** what [X] leaves over in row [r], column [c] of the system [A X = B] *)
Definition left_over (A B X : Mat RNum) (r c : nat) : R := rsum (fun k => ent A k r * ent X c k) (ncols A) - ent B c r.

(** sum of the distances of all coordinates of the control points [0 .. n] *)
Definition apart (n dim : nat) (P Q : Mat RNum) : R := rsum (fun i => rsum (fun d => Rabs (ent P i d - ent Q i d)) dim) (S n).
