(** * More vocabulary for the statements about binary64 *)

From Coq Require Import ZArith Reals List Arith.
From Flocq Require Import Core.Core IEEE754.BinarySingleNaN.
From Verif Require Import Num Vec MKnots MPoints MCurve F64 RNum Lists Spec Api ApiF.
Import ListNotations.
Local Open Scope R_scope.

(** data points [0 .. m] whose coordinates are finite and at most [2^500] in size;
    the same coordinate of neighbouring points is equal or differs by at least [2^-500] *)
Definition tame (m dim : nat) (P : Mat F64) : Prop :=
  shape dim (S m) P /\
  (forall i d, (i <= m)%nat -> (d < dim)%nat -> finite (ent P i d) /\ Rabs (val (ent P i d)) <= 2 ^ 500) /\
  (forall i d, (i < m)%nat -> (d < dim)%nat ->
     val (ent P (S i) d) = val (ent P i d) \/ / 2 ^ 500 <= Rabs (val (ent P (S i) d) - val (ent P i d))).

(** not all data points are the same *)
Definition moving (m dim : nat) (P : Mat F64) : Prop :=
  exists i d, (i < m)%nat /\ (d < dim)%nat /\ val (ent P (S i) d) <> val (ent P i d).

(** [v] holds [m + 1] finite parameters: zero first, one last, in order except perhaps for the last *)
Definition float_params (m : nat) (v : list f64) : Prop :=
  length v = (m + 1)%nat /\ (forall x, In x v -> finite x) /\
  val (nth 0 v (@n0 F64)) = 0 /\ val (nth m v (@n0 F64)) = 1 /\
  (forall g h, (g <= h)%nat -> (h < m)%nat -> val (nth g v (@n0 F64)) <= val (nth h v (@n0 F64))).

(** the numbers in [v] are within [e] of those in [w] *)
Definition close_to (v : list f64) (w : list R) (e : R) : Prop :=
  length v = length w /\ forall i, (i < length v)%nat -> finite (nth i v (@n0 F64)) /\ Rabs (val (nth i v (@n0 F64)) - nth i w 0) <= e.

(** equal, or both zero (the zeros may differ in sign) *)
Definition same_number (x y : f64) : Prop := x = y \/ (finite x /\ finite y /\ val x = 0 /\ val y = 0).

(** finite numbers between zero and one *)
Definition unit_list (v : list f64) : Prop := forall x, In x v -> finite x /\ 0 <= val x <= 1.
