(** * Vocabulary: merging over any numbers *)

From Coq Require Import ZArith Reals List Arith.
From Verif Require Import Num Vec MKnots MPoints MCurve RNum F64 Lists Spec Api ApiF.
Import ListNotations.
Local Open Scope R_scope.

(** the solver answers every question with a matrix of the right size *)
Definition answers {K : Num} (svd : Mat K -> Mat K -> M (Mat K)) : Prop :=
  forall A B, exists X, svd A B = Val X /\ shape (ncols A) (ncols B) X.

(** [C], with [m + o + 2 - p] points, begins with the points of [P] and ends with those
    of [Q], except for the last [p] points of [P] and the first [max (p, o - m + p - 1)]
    points of [Q] *)
Definition keeps_points {K : Num} (p m o : nat) (P Q C : Mat K) : Prop :=
  (forall i, (i < m + 1 - p)%nat -> nth i (mcols C) [] = nth i (mcols P) []) /\
  (forall j, (p <= j <= o)%nat -> (p + o <= j + m + 1)%nat -> nth (m + 1 - p + j) (mcols C) [] = nth j (mcols Q) []).

(** the knots [U] are sorted, begin with [p + 1] zeros and end with [p + 1] ones, and are
    within [2^-52] of the knots [V], compressed to [[0, 1/2]], followed by the knots [W],
    compressed to [[1/2, 1]] *)
Definition nearly_joined (p m o : nat) (V W U : list R) : Prop :=
  length U = (m + o + 3)%nat /\ sorted U /\ ends_clamped p U /\
  (forall i, (i <= m + 1)%nat -> Rabs (nth i U 0 - nth i V 0 / 2) <= / 2 ^ 52) /\
  (forall j, (p <= j <= o + p + 1)%nat -> Rabs (nth (m + 1 - p + j) U 0 - (1 + nth j W 0) / 2) <= / 2 ^ 52).

(** the first [p + 1] knots compare equal to 0, the last [p + 1] to 1 *)
Definition float_ends (p : nat) (U : list f64) : Prop :=
  forall i, (i < length U)%nat -> ((i <= p)%nat -> (nth i U n0 ==? n0)%num = true) /\ ((length U <= i + p + 1)%nat -> (nth i U n0 ==? n1)%num = true).
