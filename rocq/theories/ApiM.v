(** * Vocabulary: elementary symmetric polynomials *)

From Coq Require Import List Reals.
Import ListNotations.
Local Open Scope R_scope.

(** the sum of all products of [k] members of the list, taken at different places *)
Fixpoint esym (l : list R) (k : nat) {struct l} : R :=
  match k, l with
  | O, _ => 1
  | S _, [] => 0
  | S k', x :: l' => esym l' (S k') + x * esym l' k'
  end.
