(** * Vocabulary for the accuracy of generated curves *)

From Coq Require Import Reals List Arith.
Import ListNotations.
Local Open Scope R_scope.

(** from entry [a] to entry [b] the numbers in [l] grow by at least [h] each time *)
Definition spread (h : R) (l : list R) (a b : nat) : Prop :=
  forall i, (a <= i < b)%nat -> h <= nth (S i) l 0 - nth i l 0.

(** different numbers in [l] are at least [h] apart *)
Definition wide (h : R) (l : list R) : Prop := forall x y, In x l -> In y l -> x < y -> h <= y - x.
