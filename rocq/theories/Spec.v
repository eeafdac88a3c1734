(** * Specification: B-splines over the real numbers

    Independent of the model.  Knots are functions [nat -> R], sums are finite
    sums of reals. *)

From Coq Require Import Reals List Arith.
Import ListNotations.
Local Open Scope R_scope.

(** [f 0 + ... + f (n - 1)] *)
Fixpoint rsum (f : nat -> R) (n : nat) : R :=
  match n with
  | O => 0
  | S n' => rsum f n' + f n'
  end.

(** a quotient with the convention [x / 0 = 0] of the Cox-de Boor recursion *)
Definition ratio (x y : R) : R := if Req_EM_T y 0 then 0 else x / y.

(** Cox-de Boor recursion on top of arbitrary values [base] for degree 0 *)
Fixpoint cox (base : nat -> R) (U : nat -> R) (p i : nat) (x : R) {struct p} : R :=
  match p with
  | O => base i
  | S h =>
      ratio (x - U i) (U (i + S h)%nat - U i) * cox base U h i x +
      ratio (U (S i + S h)%nat - x) (U (S i + S h)%nat - U (S i)) * cox base U h (S i) x
  end.

(** degree 0: the half-open span [[U i, U (i+1))], the last one ([i = n]) closed *)
Definition span_ind (U : nat -> R) (n : nat) (u : R) (i : nat) : R :=
  if Rle_dec (U i) u then
    if Rlt_dec u (U (S i)) then 1
    else if (i =? n)%nat then (if Req_EM_T u (U (S n)) then 1 else 0) else 0
  else 0.

(** the [i]-th B-spline basis function of degree [p] for [n + 1] control points *)
Definition bspline (U : nat -> R) (n p i : nat) (u : R) : R := cox (span_ind U n u) U p i u.

(** [k]-th derivative control points: iterated difference quotients *)
Fixpoint dpoints (U : nat -> R) (p : nat) (P : nat -> R) (k i : nat) {struct k} : R :=
  match k with
  | O => P i
  | S k' =>
      ratio (INR (p - k') * (dpoints U p P k' (S i) - dpoints U p P k' i))
            (U (i + p + 1)%nat - U (i + S k')%nat)
  end.

(** the knots without the first [k] (dropping knots at the far end does not
    change the function at the indices that are used) *)
Definition shift (k : nat) (U : nat -> R) (i : nat) : R := U (i + k)%nat.

(** one coordinate of the spline curve, and of the formal [k]-th derivative *)
Definition spline (U : nat -> R) (n p : nat) (P : nat -> R) (u : R) : R :=
  rsum (fun i => bspline U n p i u * P i) (S n).
Definition dspline (U : nat -> R) (n p : nat) (P : nat -> R) (k : nat) (u : R) : R :=
  rsum (fun i => bspline (shift k U) (n - k) (p - k) i u * dpoints U p P k i) (S (n - k)).

(** a knot list as a function; constant beyond the end of the list *)
Definition kfun (U : list R) (i : nat) : R := nth i U (last U 0).

(** A clamped, sorted knot list for degree [p] and [n + 1] control points: zero
    exactly at the first [p + 1] places, one exactly at the last [p + 1]. *)
Record clamped (p n : nat) (U : list R) : Prop := {
  cl_deg : (p <= n)%nat;
  cl_len : length U = (n + p + 2)%nat;
  cl_sorted : forall i j, (i <= j)%nat -> (j < length U)%nat -> nth i U 0 <= nth j U 0;
  cl_zero : forall i, (i <= p)%nat -> nth i U 0 = 0;
  cl_one : forall i, (n + 1 <= i)%nat -> (i < length U)%nat -> nth i U 0 = 1;
  cl_inner : forall i, (p < i)%nat -> (i <= n)%nat -> 0 < nth i U 0 < 1
}.

(** number of occurrences of [u] in a knot list *)
Definition mult (U : list R) (u : R) : nat := count_occ Req_EM_T U u.

(** [l] is the derivative at [u] of [f] restricted to [[0, 1]]: one-sided at
    the ends of the interval *)
Definition derivative_on01 (f : R -> R) (u l : R) : Prop :=
  forall eps, 0 < eps -> exists delta, 0 < delta /\
    forall v, 0 <= v <= 1 -> v <> u -> Rabs (v - u) < delta ->
      Rabs ((f v - f u) / (v - u) - l) < eps.

(** the right-hand derivative *)
Definition right_derivative_on01 (f : R -> R) (u l : R) : Prop :=
  forall eps, 0 < eps -> exists delta, 0 < delta /\
    forall v, 0 <= v <= 1 -> u < v -> v - u < delta ->
      Rabs ((f v - f u) / (v - u) - l) < eps.

(** continuity at [u] of [f] restricted to [[0, 1]] *)
Definition continuous_on01 (f : R -> R) (u : R) : Prop :=
  forall eps, 0 < eps -> exists delta, 0 < delta /\
    forall v, 0 <= v <= 1 -> Rabs (v - u) < delta -> Rabs (f v - f u) < eps.

(** value of the polynomial with coefficient list [a] (constant term first) *)
Fixpoint peval (a : list R) (x : R) : R :=
  match a with
  | [] => 0
  | c :: a' => c + x * peval a' x
  end.

(** [k]-th forward difference of [f] at [i] *)
Fixpoint fdiff (k : nat) (f : nat -> R) (i : nat) : R :=
  match k with
  | O => f i
  | S k' => fdiff k' f (S i) - fdiff k' f i
  end.

(** binomial coefficients *)
Fixpoint binomial (n k : nat) : nat :=
  match n, k with
  | _, O => 1
  | O, S _ => 0
  | S n', S k' => binomial n' k' + binomial n' (S k')
  end.
