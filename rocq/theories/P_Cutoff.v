(** * Properties C162 and C163: small singular values are dropped *)

From Coq Require Import ZArith Reals List Arith Lra Lia.
From Verif Require Import Num Vec MKnots MPoints MCurve MFit MGenerate RNum Lists Spec Api ApiV Fit6 Svd2 Svd3 Svd4 Svd5 Svd6.
Import ListNotations.
Local Open Scope R_scope.

(** ** C162.  The claim that a curve generated by interpolation passes through its data is
    false: the linear system is solved by a decomposition that takes singular values up
    to [sqrt(f64::EPSILON)], that is [2^-26], for zero.  There are 151 integers of at most 31 bits for which the cubic that is returned misses 99 percent of the data, in the sum
    of squares, although all arithmetic is exact and the system has a solution. *)
Theorem C162_interpolation_cutoff_refuted :
  ~ forall svd p m dim (Q : Mat RNum), cutoff_solver (/ 2 ^ 26) svd -> (1 <= p <= m)%nat -> shape dim (S m) Q ->
    exists c, generate svd (Interpolation p Q) = Val (Ok c) /\ forall g, (g <= m)%nat -> returns (evaluate c (INR g / INR m)) dim (fun d => ent Q g d).
Proof. exact cutoff_refuted. Qed.
Print Assumptions C162_interpolation_cutoff_refuted.

Theorem C162_lost : exists Q, shape 1 151 Q /\ (forall g, (g <= 150)%nat -> exists z, (Z.abs z <= 2 ^ 30)%Z /\ ent Q g 0 = IZR z) /\ 10 ^ 18 <= squares Q 1 151 /\
  forall svd, cutoff_solver (/ 2 ^ 26) svd -> exists c e, generate svd (Interpolation 3 Q) = Val (Ok c) /\ data_error c 1 150 Q e /\ 99 / 100 * squares Q 1 151 <= e.
Proof. exact lost_integers. Qed.
Print Assumptions C162_lost.

(** there are such solvers, for every threshold: every real matrix has a singular value
    decomposition *)
Example C162_solver : forall eps, exists svd, cutoff_solver eps svd.
Proof. intros eps. exists (some_cutoff eps). apply some_cutoff_solver. Qed.

(** ** C163.  When dropping singular values does no harm.  Interpolation passes through
    all data if and only if no curve is much smaller at the data parameters than its
    control points are. *)
Theorem C163_interpolation_iff : forall eps svd p m, 0 <= eps -> cutoff_solver eps svd -> (1 <= p <= m)%nat ->
  (distinct p m m (eps ^ 2) <->
   forall dim (Q : Mat RNum), shape dim (S m) Q -> exists c, generate svd (Interpolation p Q) = Val (Ok c) /\
     forall g, (g <= m)%nat -> returns (evaluate c (INR g / INR m)) dim (fun d => ent Q g d)).
Proof. exact interpolation_iff. Qed.
Print Assumptions C163_interpolation_iff.

(** polylines: never any harm, whatever the number of data *)
Theorem C163_degree_one : forall eps svd m dim (Q : Mat RNum), 0 <= eps < 1 -> cutoff_solver eps svd -> (1 <= m)%nat -> shape dim (S m) Q ->
  exists c, generate svd (Interpolation 1 Q) = Val (Ok c) /\ forall g, (g <= m)%nat -> returns (evaluate c (INR g / INR m)) dim (fun d => ent Q g d).
Proof. exact degree_one_exact. Qed.
Print Assumptions C163_degree_one.

(** without any condition: a curve of the right kind is returned, its control points are
    at most [1 / eps] times the data, its error is at most that of the zero curve *)
Theorem C163_interpolation_bounds : forall eps svd p m dim (Q : Mat RNum), 0 <= eps -> cutoff_solver eps svd -> (1 <= p <= m)%nat -> shape dim (S m) Q ->
  exists U C c e, generate svd (Interpolation p Q) = Val (Ok c) /\ clamped_curve p m dim U C c /\ uniform_knots p m U /\
    eps ^ 2 * squares C dim (S m) <= squares Q dim (S m) /\ data_error c dim m Q e /\ e <= squares Q dim (S m).
Proof. exact interpolation_always. Qed.
Print Assumptions C163_interpolation_bounds.

(** least squares fits, with fixed or loose ends, with any penalty or none: under the same
    kind of condition the result is the one of an exact solver, to which all other
    theorems on fits apply *)
Theorem C163_fits : forall eps svd p n m, 0 <= eps -> cutoff_solver eps svd -> (1 <= p <= n)%nat -> (n <= m)%nat -> distinct p n m eps ->
  exists svd', good_solver svd' /\ forall dim (Q : Mat RNum) me pen, shape dim (S m) Q ->
    generate svd (LeastSquaresFit p Q n me pen) = generate svd' (LeastSquaresFit p Q n me pen).
Proof. exact fits_transfer. Qed.
Print Assumptions C163_fits.

Theorem C163_interpolation : forall eps svd p m, 0 <= eps -> cutoff_solver eps svd -> (1 <= p <= m)%nat -> distinct p m m (eps ^ 2) ->
  exists svd', good_solver svd' /\ forall dim (Q : Mat RNum), shape dim (S m) Q -> generate svd (Interpolation p Q) = generate svd' (Interpolation p Q).
Proof. exact interpolation_transfer. Qed.
Print Assumptions C163_interpolation.

(** for all degrees and numbers of control points and data there is a threshold below
    which the conditions hold *)
Theorem C163_threshold : forall p n m, (1 <= p <= n)%nat -> (n <= m)%nat -> exists e, 0 < e /\ forall e', e' <= e -> distinct p n m e'.
Proof. exact distinct_threshold. Qed.
Print Assumptions C163_threshold.

(** the parabola through three points, with the library's threshold: the condition
    holds for interpolation and for the fit *)
Example C163_parabola : distinct 2 2 2 ((/ 2 ^ 26) ^ 2) /\ distinct 2 2 2 (/ 2 ^ 26).
Proof. split; apply (distinct_less 2 2 2 (1 / 16)); try exact distinct_parabola; lra. Qed.
Example C163_cubic : ~ distinct 3 150 150 ((/ 2 ^ 26) ^ 2).
Proof. exact cubic_not_distinct. Qed.
