(** * Vocabulary: long runs of edits in binary64 *)

From Coq Require Import Reals List Arith.
From Verif Require Import Num Vec MKnots MCurve RNum F64 Lists Spec Api ApiF ApiF3 ApiC.
Import ListNotations.
Local Open Scope R_scope.

(** where a parameter of the edited curve lies on the curve before the edit *)
Definition comes_from (e : edit F64) (t : R) : R :=
  match e with
  | EReverse => 1 - t
  | ELeft u _ => t * val u
  | ERight u _ => val u + t * (1 - val u)
  | EInsert _ _ | EDerive _ => t
  end.

Fixpoint original (es : list (edit F64)) (t : R) : R :=
  match es with
  | [] => t
  | e :: es => comes_from e (original es t)
  end.

(** a parameter strictly inside, [g] or more away from every knot it differs from *)
Definition good_parameter (g : R) (V : list f64) (u : f64) : Prop :=
  finite u /\ 0 < val u < 1 /\ wide g (val u :: map val V) /\ simple_below (map val V) (val u).

(** an edit of a curve of degree [p] over the knots [V]: different knots are
    [g] or more apart, no inner knot occurs more than [p] times *)
Definition fits (p : nat) (g : R) (V : list f64) (e : edit F64) : Prop :=
  wide g (map val V) /\ (forall x, 0 < x < 1 -> (mult (map val V) x <= p)%nat) /\
  match e with
  | EInsert u x => good_parameter g V u /\ (mult (map val V) (val u) + x <= p)%nat
  | EReverse => True
  | ELeft u f | ERight u f => f = (true, true) /\ good_parameter g V u
  | EDerive _ => False
  end.

(** every edit of the run fits the knots it meets *)
Fixpoint careful (p : nat) (g : R) (c : Curve F64) (es : list (edit F64)) : Prop :=
  match es with
  | [] => True
  | e :: es => (exists V, vector (cknots c) = Val V /\ fits p g V e) /\
               forall c', edit_once c e = Val c' -> careful p g c' es
  end.
