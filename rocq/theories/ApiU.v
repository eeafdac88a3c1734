(** * Vocabulary: curves that differ in their cached derivatives only *)

From Coq Require Import List Arith.
From Verif Require Import Num Vec MKnots MPoints MCurve MDirect Api.
Import ListNotations.

(** the same degree, knot vector and control points; the cached derivative knots,
    derivative points and their numbers may be anything *)
Definition alike {K : Num} (c c' : Curve K) : Prop :=
  degree c = degree c' /\ vector (cknots c) = vector (cknots c') /\ cp_matrix (cpoints c) = cp_matrix (cpoints c').

(** the same knots, cached derivative knots included, and the same control points; the
    cached derivative points may be anything *)
Definition alike_points {K : Num} (c c' : Curve K) : Prop :=
  cknots c = cknots c' /\ cp_matrix (cpoints c) = cp_matrix (cpoints c').

(** the two public calls that recompute the caches, in this order or the other *)
Definition refresh {K : Num} (c : Curve K) : M (Curve K) := accessed c [ADeriveKnots; ADerivePoints].
Definition refresh_backwards {K : Num} (c : Curve K) : M (Curve K) := accessed c [ADerivePoints; ADeriveKnots].

(** the control points with the [i]-th replaced *)
Definition set_point {K : Num} (P : Mat K) (i : nat) (v : list K) : Mat K := mkMat (nrows P) (upd (mcols P) i v).
