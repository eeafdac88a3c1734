(** * Vocabulary: linear maps of points, linear combinations of curves *)

From Coq Require Import List Arith Reals.
From Verif Require Import Num Vec MKnots MPoints MCurve RNum Lists Spec Api ApiC.
Import ListNotations.
Local Open Scope R_scope.

(** the image of the point [v] of dimension [dim] under the matrix [A] with [dim'] rows *)
Definition linear (A : nat -> nat -> R) (dim dim' : nat) (v : list R) : list R :=
  map (fun e => rsum (fun d => A e d * nth d v 0) dim) (seq 0 dim').

Definition linear_points (A : nat -> nat -> R) (dim dim' : nat) (P : Mat RNum) : Mat RNum :=
  mkMat (K := RNum) dim' (map (linear A dim dim') (mcols P)).

(** [a v + b w] *)
Definition blend (a b : R) (v w : list R) : list R := map (fun x => a * fst x + b * snd x) (combine v w).

Definition blend_points (a b : R) (P Q : Mat RNum) : Mat RNum :=
  mkMat (K := RNum) (nrows P) (map (fun x => blend a b (fst x) (snd x)) (combine (mcols P) (mcols Q))).

(** three calls with the same outcome, the third point being [a] times the first
    plus [b] times the second *)
Definition blended_outcome {E} (a b : R) (r s t : M (result (list R) E)) : Prop :=
  match r, s, t with
  | Val (Ok v), Val (Ok w), Val (Ok x) => length v = length w /\ x = blend a b v w
  | Val (Err e), Val (Err f), Val (Err g) => e = f /\ f = g
  | Panic, Panic, Panic | Undef, Undef, Undef | Diverge, Diverge, Diverge => True
  | _, _, _ => False
  end.
