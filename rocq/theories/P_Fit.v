(** * Properties C24 - C28, C54 - C56: interpolation and least-squares fits *)

From Coq Require Import ZArith Reals List Bool Arith Lra Lia.
From Verif Require Import Num Vec MKnots MPoints MCurve MFit MGenerate RNum Lists Spec BMath3 Api Bridge Facts1 Fit2 Fit3 Fit5 Fit6 Fit7 Samples.
Import ListNotations.
Local Open Scope R_scope.

(** The singular value decomposition is outside the model.  Where it matters, it
    is assumed to solve the systems that have a solution. *)
Example a_solver_exists : exists svd, good_solver svd /\ returning_solver svd.
Proof. exists some_solver. split; [exact some_solver_good|exact some_solver_returning]. Qed.
Print Assumptions a_solver_exists.

(** ** C24.  Interpolation always succeeds for [1 <= p <= m], the curve has
    uniform knots and passes through the data at [0, 1/m, ..., 1], and it is the
    only curve with these knots that does. *)
Theorem C24_interpolation : forall svd p m dim (Q : Mat RNum), good_solver svd -> (1 <= p <= m)%nat -> shape dim (S m) Q ->
  exists U C c, generate svd (Interpolation p Q) = Val (Ok c) /\ clamped_curve p m dim U C c /\ uniform_knots p m U /\
    (forall g, (g <= m)%nat -> returns (evaluate c (INR g / INR m)) dim (fun d => ent Q g d)) /\
    (forall C' c', clamped_curve p m dim U C' c' ->
      (forall g, (g <= m)%nat -> returns (evaluate c' (INR g / INR m)) dim (fun d => ent Q g d)) ->
      forall i d, (i <= m)%nat -> (d < dim)%nat -> ent C' i d = ent C i d).
Proof. exact interpolation_fact. Qed.
Print Assumptions C24_interpolation.

Example C24_hypotheses : exists svd, good_solver svd /\ (1 <= 2 <= 3)%nat /\ shape 2 4 P_a.
Proof. exists some_solver. split; [exact some_solver_good|]. split; [lia|exact P_a_shape]. Qed.

(** errors of interpolation, in every number system *)
Theorem C24_errors : forall (K : Num) svd (Q : Mat K) dim m p params, shape dim (S m) Q -> @equally_spaced K m = Val params ->
  (p = 0%nat -> generate svd (Interpolation p Q) = Val (Err (DegreeTooLow 0 0))) /\
  ((1 <= p)%nat -> (m < p)%nat -> generate svd (Interpolation p Q) = Val (Err (DegreeAndSegmentsMismatch p m))).
Proof. intros K svd Q dim m p params SQ. exact (interpolation_rejects K svd Q dim m p SQ params). Qed.
Print Assumptions C24_errors.

(** ** C25.  The loose-ends fit exists, minimises the penalised squared error, and
    is the only curve with its knots that does. *)
Theorem C25_loose : forall svd p n m dim (Q : Mat RNum) pen, good_solver svd -> shape dim (S m) Q -> (1 <= p <= n)%nat -> (n <= m)%nat ->
  (forall q, pen = Some q -> 0 <= lambda q /\ (1 <= kappa q <= n - 1)%nat) ->
  exists U C c e, generate svd (LeastSquaresFit p Q n LooseEnds pen) = Val (Ok c) /\ clamped_curve p n dim U C c /\ uniform_knots p n U /\ data_error c dim m Q e /\
    forall C' c' e', clamped_curve p n dim U C' c' -> data_error c' dim m Q e' ->
      e + penalty pen (S n) 0 dim C <= e' + penalty pen (S n) 0 dim C' /\
      (e' + penalty pen (S n) 0 dim C' <= e + penalty pen (S n) 0 dim C -> forall i d, (i <= n)%nat -> (d < dim)%nat -> ent C' i d = ent C i d).
Proof. exact loose_fit_fact. Qed.
Print Assumptions C25_loose.

(** ** C26.  The fixed-ends fit exists, keeps the first and the last data point,
    minimises the penalised squared error among the curves with the same knots
    and the same end points, and is the only one that does.  The penalty covers
    the inner control points only. *)
Theorem C26_fixed : forall svd p n m dim (Q : Mat RNum) pen, good_solver svd -> shape dim (S m) Q -> (1 <= p <= n)%nat -> (2 <= n <= m)%nat ->
  (forall q, pen = Some q -> 0 <= lambda q /\ (1 <= kappa q <= n - 2)%nat) ->
  exists U C c e, generate svd (LeastSquaresFit p Q n FixedEnds pen) = Val (Ok c) /\ clamped_curve p n dim U C c /\ uniform_knots p n U /\ data_error c dim m Q e /\
    returns (evaluate c 0) dim (fun d => ent Q 0 d) /\ returns (evaluate c 1) dim (fun d => ent Q m d) /\
    forall C' c' e', clamped_curve p n dim U C' c' -> data_error c' dim m Q e' ->
      returns (evaluate c' 0) dim (fun d => ent Q 0 d) -> returns (evaluate c' 1) dim (fun d => ent Q m d) ->
      e + penalty pen (n - 1) 1 dim C <= e' + penalty pen (n - 1) 1 dim C' /\
      (e' + penalty pen (n - 1) 1 dim C' <= e + penalty pen (n - 1) 1 dim C -> forall i d, (i <= n)%nat -> (d < dim)%nat -> ent C' i d = ent C i d).
Proof. exact fixed_fit_fact. Qed.
Print Assumptions C26_fixed.

(** seven data points on the line, three segments, a penalty *)
Example C25_C26_hypotheses : exists svd (q : Penalization RNum), good_solver svd /\ shape 1 7 P_b /\ (1 <= 2 <= 3)%nat /\ (2 <= 3 <= 6)%nat /\
  0 <= lambda q /\ (1 <= kappa q <= 3 - 2)%nat /\ 0 < penalty (Some q) (3 - 1) 1 1 P_b /\ 0 < penalty (Some q) 4 0 1 P_b.
Proof.
  exists some_solver, (@mkPen RNum (1/10) 1). split; [exact some_solver_good|]. split; [exact P_b_shape|]. cbn [lambda kappa penalty]. unfold roughness.
  split; [lia|]. split; [lia|]. split; [rn; lra|]. split; [lia|]. split; cbn [Nat.sub rsum fdiff]; unfold ent; cbn; lra.
Qed.

(** ** C27.  Least-squares fits do NOT report all bad input as errors: the
    fixed-ends fit panics for one segment, and for [kappa = n - 1], which passes
    the checks. *)
Theorem C27_one_segment_refuted : forall svd m dim (Q : Mat RNum), shape dim (S m) Q -> (1 <= m)%nat ->
  generate svd (LeastSquaresFit 1 Q 1 FixedEnds None) = Panic.
Proof. exact lsf_fixed_one. Qed.
Print Assumptions C27_one_segment_refuted.

Theorem C27_kappa_refuted : forall svd p n m dim (Q : Mat RNum) q, shape dim (S m) Q -> (1 <= p <= n)%nat -> (n <= m)%nat -> (2 <= n)%nat ->
  0 <= lambda q -> kappa q = (n - 1)%nat -> generate svd (LeastSquaresFit p Q n FixedEnds (Some q)) = Panic.
Proof. exact lsf_fixed_panic. Qed.
Print Assumptions C27_kappa_refuted.

(** ** C54.  All other inputs: what is accepted and which error is reported. *)
Theorem C54_degree_zero : forall svd n m dim (Q : Mat RNum) me pen, shape dim (S m) Q ->
  generate svd (LeastSquaresFit 0 Q n me pen) = Val (Err (DegreeTooLow 0 0)).
Proof. exact lsf_low. Qed.
Print Assumptions C54_degree_zero.

Theorem C54_few_segments : forall svd p n m dim (Q : Mat RNum) me pen, shape dim (S m) Q -> (1 <= p)%nat -> (n < p)%nat ->
  generate svd (LeastSquaresFit p Q n me pen) = Val (Err (DegreeAndSegmentsMismatch p n)).
Proof. exact lsf_few_segments. Qed.
Print Assumptions C54_few_segments.

Theorem C54_few_data : forall svd p n m dim (Q : Mat RNum) me pen, shape dim (S m) Q -> (1 <= p <= n)%nat -> (m < n)%nat ->
  generate svd (LeastSquaresFit p Q n me pen) = Val (Err (FitErr (RequestedPolynomialSegmentAndDataSegementMismatch n m))).
Proof. exact lsf_few_data. Qed.
Print Assumptions C54_few_data.

Theorem C54_kappa : forall svd p n m dim (Q : Mat RNum) me q, shape dim (S m) Q -> (1 <= p <= n)%nat -> (n <= m)%nat -> (n - 1 < kappa q)%nat ->
  generate svd (LeastSquaresFit p Q n me (Some q)) = Val (Err (FitErr (RequestedPolynomialSegmentAndPenalizationKappaMismatch n (kappa q)))).
Proof. exact lsf_kappa. Qed.
Print Assumptions C54_kappa.

Theorem C54_loose : forall svd p n m dim (Q : Mat RNum) pen, returning_solver svd -> shape dim (S m) Q -> (1 <= p <= n)%nat -> (n <= m)%nat ->
  (forall q, pen = Some q -> (kappa q <= n - 1)%nat) ->
  match pen with
  | Some q => (lambda q < 0 -> generate svd (LeastSquaresFit p Q n LooseEnds pen) = Val (Err (FitErr (NegativeLambda (lambda q))))) /\
              (0 <= lambda q -> exists c, generate svd (LeastSquaresFit p Q n LooseEnds pen) = Val (Ok c))
  | None => exists c, generate svd (LeastSquaresFit p Q n LooseEnds pen) = Val (Ok c)
  end.
Proof. intros svd p n m dim Q pen RS. exact (lsf_loose svd p n m dim Q pen (returning_returning svd RS)). Qed.
Print Assumptions C54_loose.

Theorem C54_fixed : forall svd p n m dim (Q : Mat RNum) pen, returning_solver svd -> shape dim (S m) Q -> (1 <= p <= n)%nat -> (n <= m)%nat -> (2 <= n)%nat ->
  (forall q, pen = Some q -> (kappa q <= n - 1)%nat) ->
  match pen with
  | Some q => (lambda q < 0 -> generate svd (LeastSquaresFit p Q n FixedEnds pen) = Val (Err (FitErr (NegativeLambda (lambda q))))) /\
              (0 <= lambda q -> (kappa q <= n - 2)%nat -> exists c, generate svd (LeastSquaresFit p Q n FixedEnds pen) = Val (Ok c)) /\
              (0 <= lambda q -> kappa q = (n - 1)%nat -> generate svd (LeastSquaresFit p Q n FixedEnds pen) = Panic)
  | None => exists c, generate svd (LeastSquaresFit p Q n FixedEnds pen) = Val (Ok c)
  end.
Proof. intros svd p n m dim Q pen RS. exact (lsf_fixed svd p n m dim Q pen (returning_returning svd RS)). Qed.
Print Assumptions C54_fixed.

Example C27_C54_hypotheses : exists svd, returning_solver svd /\ shape 1 7 P_b /\ (1 <= 2 <= 3)%nat /\ (3 <= 6)%nat /\
  0 <= lambda (@mkPen RNum 1 2) /\ kappa (@mkPen RNum 1 2) = (3 - 1)%nat /\ (3 - 1 < kappa (@mkPen RNum 1%R 5))%nat /\ lambda (@mkPen RNum (-1) 2) < 0 /\ (6 < 8)%nat.
Proof. exists some_solver. split; [exact some_solver_returning|]. split; [exact P_b_shape|]. cbn [lambda kappa]. rn. repeat split; try lia; lra. Qed.

(** ** C28.  The difference operator, and what it computes. *)
Theorem C28_entries : forall kappa i j, (1 <= kappa)%nat -> difference_operator kappa i j =
  (if ((i <=? j) && (j <=? i + kappa))%nat then (if Nat.even (kappa - (j - i)) then 1 else -1) * Z.of_nat (binomial kappa (j - i)) else 0)%Z.
Proof. exact dop_fact. Qed.
Print Assumptions C28_entries.

Theorem C28_differences : forall kappa (x : nat -> R) n i, (1 <= kappa)%nat -> (i + kappa <= n)%nat ->
  rsum (fun j => IZR (difference_operator kappa i j) * x j) (S n) = fdiff kappa x i.
Proof. exact dop_apply. Qed.
Print Assumptions C28_differences.

Example C28_case : difference_operator 3 1 2 = 3%Z /\ fdiff 2 (fun i => INR i ^ 2) 5 = 2.
Proof. split; [reflexivity|]. cbn. lra. Qed.

(** ** C55.  Samples of a curve with uniform knots give that very curve back. *)
Theorem C55_interpolation : forall svd p m dim U C c (Q : Mat RNum), good_solver svd -> (1 <= p)%nat -> clamped_curve p m dim U C c -> uniform_knots p m U -> shape dim (S m) Q ->
  (forall g, (g <= m)%nat -> returns (evaluate c (INR g / INR m)) dim (fun d => ent Q g d)) -> generate svd (Interpolation p Q) = Val (Ok c).
Proof. exact interpolation_reproduces. Qed.
Print Assumptions C55_interpolation.

Theorem C55_loose : forall svd p n m dim U C c pen (Q : Mat RNum), good_solver svd -> (1 <= p)%nat -> (n <= m)%nat -> clamped_curve p n dim U C c -> uniform_knots p n U -> shape dim (S m) Q ->
  (forall q, pen = Some q -> 0 <= lambda q /\ (1 <= kappa q <= n - 1)%nat) -> penalty pen (S n) 0 dim C = 0 ->
  (forall g, (g <= m)%nat -> returns (evaluate c (INR g / INR m)) dim (fun d => ent Q g d)) -> generate svd (LeastSquaresFit p Q n LooseEnds pen) = Val (Ok c).
Proof. exact loose_reproduces. Qed.
Print Assumptions C55_loose.

Theorem C55_fixed : forall svd p n m dim U C c pen (Q : Mat RNum), good_solver svd -> (1 <= p)%nat -> (2 <= n <= m)%nat -> clamped_curve p n dim U C c -> uniform_knots p n U -> shape dim (S m) Q ->
  (forall q, pen = Some q -> 0 <= lambda q /\ (1 <= kappa q <= n - 2)%nat) -> penalty pen (n - 1) 1 dim C = 0 ->
  (forall g, (g <= m)%nat -> returns (evaluate c (INR g / INR m)) dim (fun d => ent Q g d)) -> generate svd (LeastSquaresFit p Q n FixedEnds pen) = Val (Ok c).
Proof. exact fixed_reproduces. Qed.
Print Assumptions C55_fixed.

(** the quadratic curve of the samples, at 3, 5 or any number of segments *)
Example C55_hypotheses : forall m, (3 <= m)%nat -> exists svd c Q, good_solver svd /\ clamped_curve 2 3 2 U_a P_a c /\ uniform_knots 2 3 U_a /\ shape 2 (S m) Q /\
  (forall g, (g <= m)%nat -> returns (evaluate c (INR g / INR m)) 2 (fun d => ent Q g d)) /\
  penalty (@None (Penalization RNum)) 4 0 2 P_a = 0.
Proof.
  intros m Hm. destruct curve_a as [c HC]. exists some_solver, c, (mat_of 2 (S m) (fun d g => spline (kfun U_a) 3 2 (fun i => ent P_a i d) (INR g / INR m))).
  split; [exact some_solver_good|]. split; [exact HC|]. split; [|split; [apply mat_of_shape|split; [|reflexivity]]].
  - intros i Hi. unfold U_a. destruct i as [|[|[|[|[|i]]]]]; try lia; cbn; lra.
  - intros g Hg. eapply returns_ext; [apply (cc_eval0 2 3 2 U_a P_a c); [exact HC|apply frac01; lia]|]. intros d Hd. cbv beta. rewrite ent_mat_of by lia. reflexivity.
Qed.

(** ** C56.  A penalisation with [lambda = 0], and one of order [kappa = 0], gives
    the fit without penalisation, whatever the solver does. *)
Theorem C56_no_effect : forall svd p n m dim (Q : Mat RNum) me q, shape dim (S m) Q -> (1 <= p <= n)%nat -> (n <= m)%nat ->
  match me with LooseEnds => (kappa q <= n - 1)%nat | FixedEnds => (2 <= n)%nat /\ (kappa q <= n - 2)%nat end ->
  lambda q = 0 \/ 0 <= lambda q /\ kappa q = 0%nat ->
  generate svd (LeastSquaresFit p Q n me (Some q)) = generate svd (LeastSquaresFit p Q n me None).
Proof. exact penalty_noop. Qed.
Print Assumptions C56_no_effect.

Example C56_hypotheses : shape 1 7 P_b /\ (1 <= 2 <= 3)%nat /\ (3 <= 6)%nat /\ (2 <= 3)%nat /\ (0 <= 3 - 2)%nat /\ 0 <= lambda (@mkPen RNum 7 0) /\ kappa (@mkPen RNum 7 0) = 0%nat.
Proof. split; [exact P_b_shape|]. cbn [lambda kappa]. rn. repeat split; try lia; lra. Qed.
