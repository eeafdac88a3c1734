(** * Vocabulary for the property statements: how curves are obtained and read *)

From Coq Require Import List Arith Reals.
From Verif Require Import Num Vec MKnots MPoints MCurve MFit RNum Lists Spec.
Import ListNotations.

(** [c] is what [Curve::new(Knots::new(p, U), ControlPoints::new(P))] returned *)
Definition built {K : Num} (p : nat) (U : list K) (P : Mat K) (c : Curve K) : Prop :=
  exists kn, knots_new p U = Val kn /\ curve_new kn (cp_new P) = Val (Ok c).

(** a well-sized input: degree [p], [n + 1] control points of dimension [dim],
    [n + p + 2] knots *)
Definition sized {K : Num} (p n dim : nat) (U : list K) (P : Mat K) : Prop :=
  p <= n /\ length U = n + p + 2 /\ shape dim (S n) P.

Local Open Scope R_scope.

(** a list of reals in non-decreasing order *)
Definition sorted (U : list R) : Prop :=
  forall i j, (i <= j)%nat -> (j < length U)%nat -> nth i U 0 <= nth j U 0.

(** strictly increasing *)
Definition increasing (v : list R) : Prop := forall i j, (i < j)%nat -> (j < length v)%nat -> nth i v 0 < nth j v 0.

(** [c] is the curve with the clamped sorted knots [U] and the [n + 1] control
    points [P] in dimension [dim]; [ent P i d] is coordinate [d] of point [i] *)
Definition clamped_curve (p n dim : nat) (U : list R) (P : Mat RNum) (c : Curve RNum) : Prop :=
  clamped p n U /\ shape dim (S n) P /\ @built RNum p U P c.

(** [r] is a successful evaluation with [dim] coordinates, the [d]-th being [f d] *)
Definition returns {E} (r : M (result (list R) E)) (dim : nat) (f : nat -> R) : Prop :=
  exists v, r = Val (Ok v) /\ length v = dim /\ forall d, (d < dim)%nat -> nth d v 0 = f d.

(** [f v] is coordinate [d] of [c.evaluate_derivative(v, k)], for every [v] in [[0, 1]] *)
Definition evals (c : Curve RNum) (k d : nat) (f : R -> R) : Prop :=
  forall v, 0 <= v <= 1 ->
  exists x, evaluate_derivative c v k = Val (Ok x) /\ nth_error x d = Some (f v).

(** no internal knot below [u] is repeated *)
Definition simple_below (U : list R) (u : R) : Prop := forall x, 0 < x < u -> (mult U x <= 1)%nat.

(** [c'] traces exactly what [c] does: same value, same derivatives of every
    order, same errors, at every parameter *)
Definition same_function {K : Num} (c c' : Curve K) : Prop :=
  forall u k, evaluate_derivative c' u k = evaluate_derivative c u k.

(** [made rev c]: [c] was obtained from a well-sized [Curve::new] by a finite
    sequence of insert, insert_times and split steps (taking either half), and of
    reverse steps if [rev] *)
Inductive made {K : Num} (rev : Prop) : Curve K -> Prop :=
| made_new p n dim U P c : sized p n dim U P -> built p U P c -> made rev c
| made_insert c u c' r : made rev c -> curve_insert c u = Val (c', r) -> made rev c'
| made_insert_times c u x c' r : made rev c -> insert_times c u x = Val (c', r) -> made rev c'
| made_left c u cl cr : made rev c -> split c u = Val (Ok (cl, cr)) -> made rev cl
| made_right c u cl cr : made rev c -> split c u = Val (Ok (cl, cr)) -> made rev cr
| made_reverse c c' : rev -> made rev c -> reverse c = Val c' -> made rev c'.

(** [c] is well-sized and exactly what [Curve::new] builds from the degree, the
    knot vector and the control points that [c] has now *)
Definition coherent {K : Num} (c : Curve K) : Prop :=
  exists p n dim U P, sized p n dim U P /\ degree c = p /\ vector (cknots c) = Val U /\
    cp_matrix (cpoints c) = Val P /\ built p U P c.

(** the insertion of several knots, one after the other, all of them without error *)
Inductive inserted {K : Num} : Curve K -> list K -> Curve K -> Prop :=
| inserted_none c : inserted c [] c
| inserted_more c u c1 us c' : curve_insert c u = Val (c1, Ok tt) -> inserted c1 us c' -> inserted c (u :: us) c'.

(** the Euclidean distance between points [i] and [j] of [P], in dimension [dim] *)
Definition distance (P : Mat RNum) (dim i j : nat) : R := sqrt (rsum (fun d => (ent P i d - ent P j d) * (ent P i d - ent P j d)) dim).

(** [v] has [m + 1] entries from 0 to 1, with increments proportional to [w] *)
Definition proportional (v : list R) (m : nat) (w : nat -> R) : Prop :=
  length v = (m + 1)%nat /\ nth 0 v 0 = 0 /\ nth m v 0 = 1 /\
  forall g, (g < m)%nat -> (nth (S g) v 0 - nth g v 0) * rsum w m = w g.

(** the knots between the two ends are equally spaced *)
Definition uniform_knots (p n : nat) (U : list R) : Prop :=
  forall i, (p <= i <= n + 1)%nat -> nth i U 0 = INR (i - p) / INR (n - p + 1).

(** [X] solves the linear system [A * X = B] exactly; [ent A c r] is the entry of
    [A] in row [r] and column [c] *)
Definition solves (A B X : Mat RNum) : Prop :=
  nrows A = nrows B /\ shape (ncols A) (ncols B) X /\
  forall r c, (r < nrows A)%nat -> (c < ncols B)%nat -> rsum (fun k => ent A k r * ent X c k) (ncols A) = ent B c r.

(** the solver returns a solution of every system that has one *)
Definition good_solver (svd : Mat RNum -> Mat RNum -> M (Mat RNum)) : Prop :=
  forall A B X, solves A B X -> exists Y, svd A B = Val Y /\ solves A B Y.

(** the solver returns a matrix of the right size, whatever it is given *)
Definition returning_solver (svd : Mat RNum -> Mat RNum -> M (Mat RNum)) : Prop :=
  forall A B, exists X, svd A B = Val X /\ shape (ncols A) (ncols B) X.

(** [e] is the sum of the squared distances of the [m + 1] data points [D] from
    the points of the curve [c] at the parameters 0, 1/m, 2/m, ..., 1 *)
Definition data_error (c : Curve RNum) (dim m : nat) (D : Mat RNum) (e : R) : Prop :=
  exists f, (forall g, (g <= m)%nat -> returns (evaluate c (INR g / INR m)) dim (f g)) /\
    e = rsum (fun g => rsum (fun d => (f g d - ent D g d) ^ 2) dim) (S m).

(** the sum of the squares of the first [rows] differences of order [k] of the
    control points from number [off] on *)
Definition roughness (k rows off dim : nat) (C : Mat RNum) : R :=
  rsum (fun r => rsum (fun d => fdiff k (fun i => ent C (off + i) d) r ^ 2) dim) rows.

(** the penalty of a fit: [lambda] times the roughness of the [count] control
    points from number [off] on *)
Definition penalty (pen : option (Penalization RNum)) (count off dim : nat) (C : Mat RNum) : R :=
  match pen with
  | None => 0
  | Some q => lambda q * roughness (kappa q) (count - kappa q) off dim C
  end.

(** the first [p + 1] knots are 0 and the last [p + 1] are 1 *)
Definition ends_clamped (p : nat) (U : list R) : Prop :=
  forall i, (i < length U)%nat -> ((i <= p)%nat -> nth i U 0 = 0) /\ ((length U <= i + p + 1)%nat -> nth i U 0 = 1).

(** the smallest knot is 0, the largest is 1 *)
Definition spans_unit (U : list R) : Prop := In 0 U /\ In 1 U /\ forall x, In x U -> 0 <= x <= 1.

(** [U] consists of the knots [V], compressed to [[0, 1/2]], followed by the knots
    [W], compressed to [[1/2, 1]]; of the copies of 1/2 only one is kept *)
Definition joined_knots (p m o : nat) (V W U : list R) : Prop :=
  length U = (m + o + 3)%nat /\ (forall i, (i <= m + 1)%nat -> nth i U 0 = nth i V 0 / 2) /\
  (forall j, (p <= j <= o + p + 1)%nat -> nth (m + 1 - p + j) U 0 = (1 + nth j W 0) / 2).

(** [a] at [u] and [b] at [v] have the same derivative of order [k] (the same point if [k = 0]) *)
Definition agree (dim k : nat) (a : Curve RNum) (u : R) (b : Curve RNum) (v : R) : Prop :=
  exists f, returns (evaluate_derivative a u k) dim f /\ returns (evaluate_derivative b v k) dim f.

(** how far the control points [P'] are from [P]: the sum of the squared distances *)
Definition moved (n dim : nat) (P P' : Mat RNum) : R := rsum (fun i => rsum (fun d => (ent P' i d - ent P i d) ^ 2) dim) (S n).

(** [a'], [b'] are [a], [b] with the last, resp. the first, [p] control points moved, so
    that the end of [a'] and the start of [b'] have the same point and the same
    derivatives up to order [p - 1], and so that the points of [a] at the
    parameters [pa] and of [b] at the parameters [pb] stay where they are *)
Definition fitted (p n dim : nat) (V W : list R) (P Q : Mat RNum) (a b : Curve RNum) (pa pb : list R)
    (P' Q' : Mat RNum) (a' b' : Curve RNum) : Prop :=
  clamped_curve p n dim V P' a' /\ clamped_curve p n dim W Q' b' /\
  (forall i d, (i < n + 1 - p)%nat -> (d < dim)%nat -> ent P' i d = ent P i d) /\
  (forall i d, (p <= i <= n)%nat -> (d < dim)%nat -> ent Q' i d = ent Q i d) /\
  (forall k, (k < p)%nat -> agree dim k a' 1 b' 0) /\
  (forall u, In u pa -> agree dim 0 a' u a u) /\ (forall u, In u pb -> agree dim 0 b' u b u).
