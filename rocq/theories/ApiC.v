(** * Vocabulary: editing a curve step by step, choosing coordinates *)

From Coq Require Import ZArith List Bool Arith.
From Flocq Require Import Core.Core IEEE754.BinarySingleNaN.
From Verif Require Import Num Vec MKnots MPoints MCurve F64 Lists Api ApiF ApiF2.
Import ListNotations.

(** what a user can do to a curve; a failed insertion or split leaves the user with
    the curve that the call left behind *)
Inductive edit (K : Num) : Type :=
| EInsert (u : K) (times : nat)
| EReverse
| ELeft (u : K) (normalize : bool * bool)
| ERight (u : K) (normalize : bool * bool)
| EDerive (k : nat).
Arguments EInsert {K} u times.
Arguments EReverse {K}.
Arguments ELeft {K} u normalize.
Arguments ERight {K} u normalize.
Arguments EDerive {K} k.

Definition edit_once {K : Num} (c : Curve K) (e : edit K) : M (Curve K) :=
  match e with
  | EInsert u x => let* (c', r) := insert_times c u x in Val c'
  | EReverse => reverse c
  | ELeft u f => r <- split_and_normalize c u f;; Val (match r with Ok (l, _) => l | Err _ => c end)
  | ERight u f => r <- split_and_normalize c u f;; Val (match r with Ok (_, l) => l | Err _ => c end)
  | EDerive k => get_derivative_curve c k
  end.

Definition edited {K : Num} (c : Curve K) (es : list (edit K)) : M (Curve K) := foldM edit_once es c.

(** the curve after the edits, evaluated *)
Definition evaluate_edited {K : Num} (c : Curve K) (es : list (edit K)) (u : K) (k : nat)
  : M (result (list K) (CurveError K)) :=
  c' <- edited c es;; evaluate_derivative c' u k.

(** the coordinates of a point listed in [ds] *)
Definition pick {K : Num} (ds : list nat) (v : list K) : list K := map (fun d => nth d v n0) ds.

(** all points reduced to the coordinates listed in [ds] *)
Definition pick_points {K : Num} (ds : list nat) (P : Mat K) : Mat K :=
  mkMat (length ds) (map (pick ds) (mcols P)).

(** the same outcome, with [f] applied to a value that was returned *)
Definition mapped {A B E} (f : A -> B) (r : M (result A E)) : M (result B E) :=
  match r with
  | Val (Ok a) => Val (Ok (f a))
  | Val (Err e) => Val (Err e)
  | Panic => Panic
  | Undef => Undef
  | Diverge => Diverge
  end.

(** ** Mirroring in binary64: the sign of every coordinate [d] with [s d = true] is flipped *)
Definition flip (b : bool) (x : f64) : f64 := if b then Bopp x else x.

(** [w] is [v] mirrored, except perhaps for the signs of zeros *)
Definition mirror (s : nat -> bool) (v w : list f64) : Prop :=
  length v = length w /\
  forall d, d < length v -> same_number (flip (s d) (nth d v (@n0 F64))) (nth d w (@n0 F64)).

Definition mirrored_points (s : nat -> bool) (P Q : Mat F64) : Prop :=
  nrows P = nrows Q /\ Forall2 (mirror s) (mcols P) (mcols Q).

(** the same outcome, the returned points being mirror images *)
Definition mirrored_outcome {E} (s : nat -> bool) (r q : M (result (list f64) E)) : Prop :=
  match r, q with
  | Val (Ok v), Val (Ok w) => mirror s v w
  | Val (Err e), Val (Err f) => e = f
  | Panic, Panic | Undef, Undef | Diverge, Diverge => True
  | _, _ => False
  end.
