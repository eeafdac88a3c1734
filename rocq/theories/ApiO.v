(** * Vocabulary: smooth functions and combined curves *)

From Coq Require Import Reals List Arith.
From Verif Require Import Num Vec MKnots MPoints MCurve RNum Spec Api.
Local Open Scope R_scope.

(** [F d 0], [F d 1], …, [F d p] are coordinate [d] of a function on [[0, 1]] and its
    derivatives, and the last one has the Lipschitz constant [M] *)
Definition smooth (p dim : nat) (F : nat -> nat -> R -> R) (M : R) : Prop :=
  (forall d r t, (d < dim)%nat -> (r < p)%nat -> 0 <= t <= 1 -> derivable_pt_lim (F d r) t (F d (S r) t)) /\
  (forall d s t, (d < dim)%nat -> 0 <= s <= 1 -> 0 <= t <= 1 -> Rabs (F d p s - F d p t) <= M * Rabs (s - t)).

(** every value of [c3] is [a] times the value of [c1] plus [b] times the value of [c2] *)
Definition combines (dim : nat) (a b : R) (c1 c2 c3 : Curve RNum) : Prop :=
  forall u, 0 <= u <= 1 -> exists x1 x2, evaluate c1 u = Val (Ok x1) /\ evaluate c2 u = Val (Ok x2) /\ length x1 = dim /\ length x2 = dim /\
    returns (evaluate c3 u) dim (fun d => a * nth d x1 0 + b * nth d x2 0).
