(** * Properties C88 - C92: what a fit trades, and how it reacts to its data *)

From Coq Require Import ZArith Reals List Bool Arith Lra Lia.
From Verif Require Import Num Vec MKnots MPoints MCurve MFit MGenerate RNum Lists Spec Api Bridge Samples Fit7 Fit10.
Import ListNotations.
Local Open Scope R_scope.

(** ** C88.  With as many segments as data segments a fit without penalty is the
    interpolation, with loose and with fixed ends. *)
Theorem C88_fit_is_interpolation : forall svd p m dim (Q : Mat RNum), good_solver svd -> (1 <= p <= m)%nat -> shape dim (S m) Q ->
  generate svd (LeastSquaresFit p Q m LooseEnds None) = generate svd (Interpolation p Q) /\
  ((2 <= m)%nat -> generate svd (LeastSquaresFit p Q m FixedEnds None) = generate svd (Interpolation p Q)).
Proof. exact fit_interpolates. Qed.
Print Assumptions C88_fit_is_interpolation.

Example C88_hypotheses : exists svd, good_solver svd /\ (1 <= 2 <= 3)%nat /\ shape 2 4 P_a.
Proof. exists some_solver. split; [exact some_solver_good|]. split; [lia|exact P_a_shape]. Qed.

(** ** C89.  A larger penalty factor gives control points that are not rougher, and an
    error that is not smaller. *)
Theorem C89_loose : forall svd p n m dim (Q : Mat RNum) k l1 l2, good_solver svd -> shape dim (S m) Q -> (1 <= p <= n)%nat -> (n <= m)%nat ->
  (1 <= k <= n - 1)%nat -> 0 <= l1 -> l1 <= l2 ->
  exists U C1 C2 c1 c2 e1 e2, generate svd (LeastSquaresFit p Q n LooseEnds (Some (mkPen l1 k))) = Val (Ok c1) /\ generate svd (LeastSquaresFit p Q n LooseEnds (Some (mkPen l2 k))) = Val (Ok c2) /\
    clamped_curve p n dim U C1 c1 /\ clamped_curve p n dim U C2 c2 /\ data_error c1 dim m Q e1 /\ data_error c2 dim m Q e2 /\
    e1 <= e2 /\ roughness k (S n - k) 0 dim C2 <= roughness k (S n - k) 0 dim C1.
Proof. exact loose_tradeoff. Qed.
Print Assumptions C89_loose.

Theorem C89_fixed : forall svd p n m dim (Q : Mat RNum) k l1 l2, good_solver svd -> shape dim (S m) Q -> (1 <= p <= n)%nat -> (2 <= n <= m)%nat ->
  (1 <= k <= n - 2)%nat -> 0 <= l1 -> l1 <= l2 ->
  exists U C1 C2 c1 c2 e1 e2, generate svd (LeastSquaresFit p Q n FixedEnds (Some (mkPen l1 k))) = Val (Ok c1) /\ generate svd (LeastSquaresFit p Q n FixedEnds (Some (mkPen l2 k))) = Val (Ok c2) /\
    clamped_curve p n dim U C1 c1 /\ clamped_curve p n dim U C2 c2 /\ data_error c1 dim m Q e1 /\ data_error c2 dim m Q e2 /\
    e1 <= e2 /\ roughness k (n - 1 - k) 1 dim C2 <= roughness k (n - 1 - k) 1 dim C1.
Proof. exact fixed_tradeoff. Qed.
Print Assumptions C89_fixed.

Example C89_hypotheses : exists svd, good_solver svd /\ shape 1 7 P_b /\ (1 <= 2 <= 4)%nat /\ (2 <= 4 <= 6)%nat /\ (1 <= 2 <= 4 - 2)%nat /\ 0 <= 1/2 /\ 1/2 <= 3.
Proof. exists some_solver. split; [exact some_solver_good|]. split; [exact P_b_shape|]. repeat split; try lia; lra. Qed.

(** ** C90.  What the error of a fit without penalty depends on: prescribing the ends
    does not make it smaller, and refining the knots does not make it larger.
    ([k] times as many knot intervals; [n - p + 1] is their number for [n] segments.) *)
Theorem C90_fixed_ends : forall svd p n m dim (Q : Mat RNum), good_solver svd -> shape dim (S m) Q -> (1 <= p <= n)%nat -> (2 <= n <= m)%nat ->
  exists cl cf el ef, generate svd (LeastSquaresFit p Q n LooseEnds None) = Val (Ok cl) /\ generate svd (LeastSquaresFit p Q n FixedEnds None) = Val (Ok cf) /\
    data_error cl dim m Q el /\ data_error cf dim m Q ef /\ el <= ef.
Proof. exact ends_cost. Qed.
Print Assumptions C90_fixed_ends.

Theorem C90_more_segments : forall svd p n n' m dim k (Q : Mat RNum), good_solver svd -> shape dim (S m) Q -> (1 <= p <= n)%nat -> (n <= m)%nat -> (p <= n' <= m)%nat ->
  (1 <= k)%nat -> (n' - p + 1 = k * (n - p + 1))%nat ->
  exists c c' e e', generate svd (LeastSquaresFit p Q n LooseEnds None) = Val (Ok c) /\ generate svd (LeastSquaresFit p Q n' LooseEnds None) = Val (Ok c') /\
    data_error c dim m Q e /\ data_error c' dim m Q e' /\ e' <= e.
Proof. exact segments_help. Qed.
Print Assumptions C90_more_segments.

Example C90_hypotheses : exists svd, good_solver svd /\ shape 1 7 P_b /\ (1 <= 2 <= 3)%nat /\ (2 <= 3 <= 6)%nat /\ (2 <= 5 <= 6)%nat /\ (5 - 2 + 1 = 2 * (3 - 2 + 1))%nat.
Proof. exists some_solver. split; [exact some_solver_good|]. split; [exact P_b_shape|]. repeat split; lia. Qed.

(** ** C91.  The residuals of the loose-ends fit are orthogonal to every curve with the
    same knots; so the error of any such curve exceeds the error of the fit by its
    squared distance from the fit.  With a penalty, too, the samples of the fit have the
    centre of mass of the data. *)
Theorem C91_orthogonal : forall svd p n m dim (Q : Mat RNum), good_solver svd -> shape dim (S m) Q -> (1 <= p <= n)%nat -> (n <= m)%nat ->
  exists U C c e, generate svd (LeastSquaresFit p Q n LooseEnds None) = Val (Ok c) /\ clamped_curve p n dim U C c /\ data_error c dim m Q e /\
    forall P s f h, clamped_curve p n dim U P s ->
      (forall g, (g <= m)%nat -> returns (evaluate c (INR g / INR m)) dim (f g)) -> (forall g, (g <= m)%nat -> returns (evaluate s (INR g / INR m)) dim (h g)) ->
      rsum (fun g => rsum (fun d => (f g d - ent Q g d) * h g d) dim) (S m) = 0 /\
      data_error s dim m Q (e + rsum (fun g => rsum (fun d => (h g d - f g d) ^ 2) dim) (S m)).
Proof. exact orthogonal. Qed.
Print Assumptions C91_orthogonal.

Theorem C91_centre_of_mass : forall svd p n m dim pen, good_solver svd -> (1 <= p <= n)%nat -> (n <= m)%nat ->
  (forall q, pen = Some q -> 0 <= lambda q /\ (1 <= kappa q <= n - 1)%nat) -> forall Q : Mat RNum, shape dim (S m) Q ->
  exists c, generate svd (LeastSquaresFit p Q n LooseEnds pen) = Val (Ok c) /\
    forall f, (forall g, (g <= m)%nat -> returns (evaluate c (INR g / INR m)) dim (f g)) ->
      forall d, (d < dim)%nat -> rsum (fun g => f g d) (S m) = rsum (fun g => ent Q g d) (S m).
Proof. exact centre_of_mass. Qed.
Print Assumptions C91_centre_of_mass.

(** ** C92.  Noise in the data is not amplified: the samples of the fit change by at most
    as much as the data, in each coordinate. *)
Theorem C92_noise : forall svd p n m dim pen, good_solver svd -> (1 <= p <= n)%nat -> (n <= m)%nat ->
  (forall q, pen = Some q -> 0 <= lambda q /\ (1 <= kappa q <= n - 1)%nat) -> forall Q Q' : Mat RNum, shape dim (S m) Q -> shape dim (S m) Q' ->
  exists c c', generate svd (LeastSquaresFit p Q n LooseEnds pen) = Val (Ok c) /\ generate svd (LeastSquaresFit p Q' n LooseEnds pen) = Val (Ok c') /\
    forall f f', (forall g, (g <= m)%nat -> returns (evaluate c (INR g / INR m)) dim (f g)) -> (forall g, (g <= m)%nat -> returns (evaluate c' (INR g / INR m)) dim (f' g)) ->
      forall d, (d < dim)%nat -> rsum (fun g => (f' g d - f g d) ^ 2) (S m) <= rsum (fun g => (ent Q' g d - ent Q g d) ^ 2) (S m).
Proof. exact noise. Qed.
Print Assumptions C92_noise.

Example C91_C92_hypotheses : exists svd (q : Penalization RNum) Q', good_solver svd /\ shape 1 7 P_b /\ shape 1 7 Q' /\ ent Q' 2 0 <> ent P_b 2 0 /\
  (1 <= 2 <= 4)%nat /\ (4 <= 6)%nat /\ 0 <= lambda q /\ (1 <= kappa q <= 4 - 1)%nat.
Proof.
  exists some_solver, (@mkPen RNum 1 2), (@mkMat RNum 1 [[0]; [1]; [-2]; [2]; [5]; [3]; [4]]). split; [exact some_solver_good|]. split; [exact P_b_shape|].
  split; [split; [reflexivity|]; split; [reflexivity|]; intros i Hi; cases i|]. cbn [lambda kappa]. unfold ent, P_b. cbn. repeat split; try lia; lra.
Qed.
