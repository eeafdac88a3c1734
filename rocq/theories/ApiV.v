(** * Vocabulary: linear solvers that drop small singular values *)

From Coq Require Import Reals List Arith.
From Verif Require Import Num Vec MKnots MPoints MCurve MFit RNum Lists Spec Api.
Local Open Scope R_scope.

(** [k] vectors of length [len], orthogonal to each other and of length one *)
Definition orthonormal (k len : nat) (v : nat -> nat -> R) : Prop :=
  forall i j, (i < k)%nat -> (j < k)%nat -> rsum (fun t => v i t * v j t) len = if (i =? j)%nat then 1 else 0.

(** [A] is the sum of the products [s i * u i * (v i)^T]: a singular value decomposition *)
Definition decomposed (A : Mat RNum) (k : nat) (s : nat -> R) (u v : nat -> nat -> R) : Prop :=
  orthonormal k (nrows A) u /\ orthonormal k (ncols A) v /\ (forall i, (i < k)%nat -> 0 <= s i) /\
  forall r c, (r < nrows A)%nat -> (c < ncols A)%nat -> ent A c r = rsum (fun i => s i * u i r * v i c) k.

(** what nalgebra's [SVD::solve(B, eps)] documents: the right-hand sides are taken through
    the decomposition backwards, singular values up to [eps] count as zero *)
Definition truncated (eps : R) (A B X : Mat RNum) : Prop :=
  nrows A = nrows B /\ shape (ncols A) (ncols B) X /\
  exists k s u v, decomposed A k s u v /\
    forall c d, (c < ncols A)%nat -> (d < ncols B)%nat ->
      ent X d c = rsum (fun i => if Rlt_dec eps (s i) then v i c * (rsum (fun r => u i r * ent B d r) (nrows A) / s i) else 0) k.

(** the solver returns the truncated solution of every system *)
Definition cutoff_solver (eps : R) (svd : Mat RNum -> Mat RNum -> M (Mat RNum)) : Prop :=
  forall A B, nrows A = nrows B -> exists X, svd A B = Val X /\ truncated eps A B X.

(** curves of degree [p] with [n] segments and uniform knots, on the line: the squares of
    the values at [0, 1/m, ..., 1] always sum up to more than [e] times the sum of
    the squares of the control points *)
Definition distinct (p n m : nat) (e : R) : Prop :=
  forall U C c f, clamped_curve p n 1 U C c -> uniform_knots p n U ->
    (forall g, (g <= m)%nat -> returns (evaluate c (INR g / INR m)) 1 (fun _ => f g)) ->
    (exists i, (i <= n)%nat /\ ent C i 0 <> 0) ->
    e * rsum (fun i => ent C i 0 ^ 2) (S n) < rsum (fun g => f g ^ 2) (S m).

(** the sum of the squares of the first [count] points of [P], in dimension [dim] *)
Definition squares (P : Mat RNum) (dim count : nat) : R := rsum (fun i => rsum (fun d => ent P i d ^ 2) dim) count.
