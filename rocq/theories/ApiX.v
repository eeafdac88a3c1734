(** * Vocabulary: the length of a part of a curve *)

From Coq Require Import Reals List Arith.
From Verif Require Import Num Vec MKnots MPoints MCurve RNum Spec Api.
Import ListNotations.
Local Open Scope R_scope.

(** [s] is the length of the polyline through the points of [c] at the parameters
    [u 0 <= u 1 <= ... <= u m] between [a] and [b] *)
Definition chain (c : Curve RNum) (dim : nat) (a b : R) (m : nat) (u : nat -> R) (s : R) : Prop :=
  (forall j, (j <= m)%nat -> a <= u j <= b) /\ (forall j, (j < m)%nat -> u j <= u (S j)) /\
  exists x : nat -> list R, (forall j, (j <= m)%nat -> evaluate c (u j) = Val (Ok (x j))) /\
    s = rsum (fun j => sqrt (rsum (fun d => (nth d (x (S j)) 0 - nth d (x j) 0) ^ 2) dim)) m.

(** [L] is the length of [c] between the parameters [a] and [b]: the supremum of the lengths
    of inscribed polylines *)
Definition arc_length (c : Curve RNum) (dim : nat) (a b L : R) : Prop := is_lub (fun s => exists m u, chain c dim a b m u s) L.
