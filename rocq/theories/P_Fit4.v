(** * Properties C126, C127: heavy penalties; interpolation of degree one *)

From Coq Require Import ZArith Reals List Bool Arith Lra Lia.
From Verif Require Import Num Vec MKnots MPoints MCurve MFit MGenerate RNum Lists Spec Api Bridge Samples Fit7 FitHeavy FitLine.
Import ListNotations.
Local Open Scope R_scope.

(** ** C126.  The heavier the penalty, the smaller the penalised differences: error plus
    penalty never exceed the error of any single point, hence the roughness falls like
    [1 / lambda]. *)
Theorem C126_loose : forall svd p n m dim (Q : Mat RNum) k l, good_solver svd -> shape dim (S m) Q -> (1 <= p <= n)%nat -> (n <= m)%nat ->
  (1 <= k <= n - 1)%nat -> 0 <= l ->
  exists U C c e, generate svd (LeastSquaresFit p Q n LooseEnds (Some (mkPen l k))) = Val (Ok c) /\
    clamped_curve p n dim U C c /\ data_error c dim m Q e /\ 0 <= e /\
    forall a : nat -> R, e + l * roughness k (S n - k) 0 dim C <= rsum (fun g => rsum (fun d => (a d - ent Q g d) ^ 2) dim) (S m).
Proof. exact loose_heavy. Qed.
Print Assumptions C126_loose.

Theorem C126_fixed : forall svd p n m dim (Q : Mat RNum) k, good_solver svd -> shape dim (S m) Q -> (1 <= p <= n)%nat -> (2 <= n <= m)%nat ->
  (1 <= k <= n - 2)%nat -> exists B, forall l, 0 <= l ->
  exists U C c e, generate svd (LeastSquaresFit p Q n FixedEnds (Some (mkPen l k))) = Val (Ok c) /\
    clamped_curve p n dim U C c /\ data_error c dim m Q e /\ 0 <= e /\ e + l * roughness k (n - 1 - k) 1 dim C <= B.
Proof. exact fixed_heavy. Qed.
Print Assumptions C126_fixed.

(** With first differences and loose ends the fitted curve shrinks to the centre of mass
    of the data. *)
Theorem C126_limit : forall svd p n m dim (Q : Mat RNum), good_solver svd -> shape dim (S m) Q -> (1 <= p <= n)%nat -> (2 <= n <= m)%nat ->
  forall eps, 0 < eps -> exists L, forall l, L <= l ->
  exists c, generate svd (LeastSquaresFit p Q n LooseEnds (Some (mkPen l 1))) = Val (Ok c) /\
    forall u, 0 <= u <= 1 -> exists f, returns (evaluate c u) dim f /\
      forall d, (d < dim)%nat -> Rabs (f d - rsum (fun g => ent Q g d) (S m) / INR (S m)) <= eps.
Proof. exact heavy_limit. Qed.
Print Assumptions C126_limit.

Example C126_hypotheses : good_solver some_solver /\ shape 1 7 P_b /\ (1 <= 2 <= 4)%nat /\ (2 <= 4 <= 6)%nat /\ (1 <= 2 <= 4 - 2)%nat.
Proof. split; [exact some_solver_good|]. split; [exact P_b_shape|]. lia. Qed.

(** ** C127.  Interpolation of degree one is the polygon through the data, at constant
    parameter steps: the points between two neighbours are the points of the segment. *)
Theorem C127_polygon : forall svd m dim Q, good_solver svd -> (1 <= m)%nat -> shape dim (S m) Q ->
  exists U c, generate svd (Interpolation 1 Q) = Val (Ok c) /\ clamped_curve 1 m dim U Q c /\ uniform_knots 1 m U /\
    forall g s, (g < m)%nat -> 0 <= s <= 1 ->
      returns (evaluate c ((INR g + s) / INR m)) dim (fun d => (1 - s) * ent Q g d + s * ent Q (S g) d).
Proof. exact interpolation_line. Qed.
Print Assumptions C127_polygon.

Example C127_hypotheses : good_solver some_solver /\ (1 <= 3)%nat /\ shape 2 4 P_a /\ (2 < 3)%nat /\ 0 <= 1/3 <= 1.
Proof. split; [exact some_solver_good|]. split; [lia|]. split; [exact P_a_shape|]. split; [lia|lra]. Qed.
