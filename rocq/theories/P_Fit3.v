(** * Property C115: fits with a linear solver that leaves a residual *)

From Coq Require Import ZArith Reals List Bool Arith Lra Lia.
From Verif Require Import Num Vec MKnots MPoints MCurve MFit MGenerate RNum Lists Spec Api ApiN Bridge Samples FitNear.
Import ListNotations.
Local Open Scope R_scope.

(** ** C115.  The linear solver is asked to solve one solvable system [A X = B] fixed by
    the input.  Whatever it returns, if at most [r] is left over in each equation, the
    fitted curve is as good as every other curve over its knots, up to [2 r] times the
    distance of the control points. *)
Theorem C115_loose : forall p n m dim (Q : Mat RNum) pen, shape dim (S m) Q -> (1 <= p <= n)%nat -> (n <= m)%nat ->
  (forall q, pen = Some q -> 0 <= lambda q /\ (1 <= kappa q <= n - 1)%nat) ->
  exists A B, shape (S n) (S n) A /\ shape (S n) dim B /\ (exists Y, solves A B Y) /\
    forall svd X r, svd A B = Val X -> shape (S n) dim X -> (forall i d, (i <= n)%nat -> (d < dim)%nat -> Rabs (left_over A B X i d) <= r) ->
    exists U C c e, generate svd (LeastSquaresFit p Q n LooseEnds pen) = Val (Ok c) /\ clamped_curve p n dim U C c /\ uniform_knots p n U /\ data_error c dim m Q e /\
      forall C' c' e', clamped_curve p n dim U C' c' -> data_error c' dim m Q e' ->
        e + penalty pen (S n) 0 dim C <= e' + penalty pen (S n) 0 dim C' + 2 * r * apart n dim C C'.
Proof. exact loose_residual. Qed.
Print Assumptions C115_loose.

Theorem C115_fixed : forall p n m dim (Q : Mat RNum) pen, shape dim (S m) Q -> (1 <= p <= n)%nat -> (2 <= n <= m)%nat ->
  (forall q, pen = Some q -> 0 <= lambda q /\ (1 <= kappa q <= n - 2)%nat) ->
  exists A B, shape (n - 1) (n - 1) A /\ shape (n - 1) dim B /\ (exists Y, solves A B Y) /\
    forall svd X r, svd A B = Val X -> shape (n - 1) dim X -> (forall i d, (i < n - 1)%nat -> (d < dim)%nat -> Rabs (left_over A B X i d) <= r) ->
    exists U C c e, generate svd (LeastSquaresFit p Q n FixedEnds pen) = Val (Ok c) /\ clamped_curve p n dim U C c /\ uniform_knots p n U /\ data_error c dim m Q e /\
      returns (evaluate c 0) dim (fun d => ent Q 0 d) /\ returns (evaluate c 1) dim (fun d => ent Q m d) /\
      forall C' c' e', clamped_curve p n dim U C' c' -> data_error c' dim m Q e' ->
        returns (evaluate c' 0) dim (fun d => ent Q 0 d) -> returns (evaluate c' 1) dim (fun d => ent Q m d) ->
        e + penalty pen (n - 1) 1 dim C <= e' + penalty pen (n - 1) 1 dim C' + 2 * r * apart n dim C C'.
Proof. exact fixed_residual. Qed.
Print Assumptions C115_fixed.

(** seven data points on the line and three segments; for the system of the fixed fit the
    hypotheses on the solver hold for each of its answers, with some [r] *)
Example C115_hypotheses : exists q : Penalization RNum, shape 1 7 P_b /\ (1 <= 2 <= 3)%nat /\ (2 <= 3 <= 6)%nat /\ 0 <= lambda q /\ (1 <= kappa q <= 3 - 2)%nat /\
  forall A B X, shape 2 1 X -> exists r, forall i d, (i < 3 - 1)%nat -> (d < 1)%nat -> Rabs (left_over A B X i d) <= r.
Proof.
  exists (@mkPen RNum (1/10) 1). split; [exact P_b_shape|]. cbn [lambda kappa]. split; [lia|]. split; [lia|]. split; [rn; lra|]. split; [lia|].
  intros A B X _. exists (Rabs (left_over A B X 0 0) + Rabs (left_over A B X 1 0)). intros i d Hi Hd.
  assert (T0 := Rabs_pos (left_over A B X 0 0)). assert (T1 := Rabs_pos (left_over A B X 1 0)).
  assert (d = 0)%nat as -> by lia. destruct i as [|[|i]]; [lra|lra|lia].
Qed.
