(** * Vocabulary: runs of edits in exact arithmetic *)

From Coq Require Import Reals List Arith.
From Verif Require Import Num Vec MKnots MCurve RNum Lists Spec Api ApiC.
Import ListNotations.
Local Open Scope R_scope.

(** where a parameter of the edited curve lies on the curve before the edit, and the factor
    between the two parameters *)
Definition before (e : edit RNum) (t : R) : R :=
  match e with
  | EReverse => 1 - t
  | ELeft u _ => t * u
  | ERight u _ => u + t * (1 - u)
  | EInsert _ _ | EDerive _ => t
  end.

Definition stretch_of (e : edit RNum) : R :=
  match e with
  | EReverse => -1
  | ELeft u _ => u
  | ERight u _ => 1 - u
  | EInsert _ _ | EDerive _ => 1
  end.

Fixpoint origin (es : list (edit RNum)) (t : R) : R :=
  match es with
  | [] => t
  | e :: es => before e (origin es t)
  end.

Fixpoint stretched (es : list (edit RNum)) : R :=
  match es with
  | [] => 1
  | e :: es => stretch_of e * stretched es
  end.

(** internal knots are given by how often [m x] each [x] occurs *)
Definition knots_after (e : edit RNum) (m : R -> nat) (x : R) : nat :=
  match e with
  | EInsert u k => (m x + if Req_EM_T x u then k else 0)%nat
  | _ => m (before e x)
  end.

Fixpoint knots_after_all (es : list (edit RNum)) (m : R -> nat) : R -> nat :=
  match es with
  | [] => m
  | e :: es => knots_after_all es (knots_after e m)
  end.

(** an edit of a curve of degree [p] with internal knots [m] *)
Definition allowed (p : nat) (m : R -> nat) (e : edit RNum) : Prop :=
  match e with
  | EInsert u k => 0 < u < 1 /\ (m u + k <= p)%nat /\ (forall x, 0 < x < u -> (m x <= 1)%nat)
  | EReverse => True
  | ELeft u f | ERight u f => f = (true, true) /\ 0 < u < 1 /\ (forall x, 0 < x < u -> (m x <= 1)%nat)
  | EDerive _ => False
  end.

Fixpoint all_allowed (p : nat) (m : R -> nat) (es : list (edit RNum)) : Prop :=
  match es with
  | [] => True
  | e :: es => allowed p m e /\ all_allowed p (knots_after e m) es
  end.
