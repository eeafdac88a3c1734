(** * Properties C71 - C73: fits and interpolation of transformed data *)

From Coq Require Import ZArith Reals List Bool Arith Lra Lia.
From Verif Require Import Num Vec MKnots MPoints MCurve MFit MGenerate RNum Lists Spec Api Bridge Facts1 Fit3 Fit7 Fit8 Fit9 Samples.
Import ListNotations.
Local Open Scope R_scope.

(** ** C71.  The result does not depend on the coordinate system: if the data are
    mapped by [x -> A x + b], the curve is mapped by the same map. *)
Theorem C71_interpolation : forall svd p m dim dim' (Q Q' : Mat RNum) (A : nat -> nat -> R) (b : nat -> R),
  good_solver svd -> (1 <= p <= m)%nat -> shape dim (S m) Q -> shape dim' (S m) Q' ->
  (forall g e, (g <= m)%nat -> (e < dim')%nat -> ent Q' g e = rsum (fun d => A e d * ent Q g d) dim + b e) ->
  exists c c', generate svd (Interpolation p Q) = Val (Ok c) /\ generate svd (Interpolation p Q') = Val (Ok c') /\
    forall u, 0 <= u <= 1 -> exists x, evaluate c u = Val (Ok x) /\ length x = dim /\ returns (evaluate c' u) dim' (fun e => rsum (fun d => A e d * nth d x 0) dim + b e).
Proof. exact interpolation_affine. Qed.
Print Assumptions C71_interpolation.

Theorem C71_loose : forall svd p n m dim dim' (Q Q' : Mat RNum) (A : nat -> nat -> R) (b : nat -> R) pen,
  good_solver svd -> shape dim (S m) Q -> shape dim' (S m) Q' -> (1 <= p <= n)%nat -> (n <= m)%nat ->
  (forall q, pen = Some q -> 0 <= lambda q /\ (1 <= kappa q <= n - 1)%nat) ->
  (forall g e, (g <= m)%nat -> (e < dim')%nat -> ent Q' g e = rsum (fun d => A e d * ent Q g d) dim + b e) ->
  exists c c', generate svd (LeastSquaresFit p Q n LooseEnds pen) = Val (Ok c) /\ generate svd (LeastSquaresFit p Q' n LooseEnds pen) = Val (Ok c') /\
    forall u, 0 <= u <= 1 -> exists x, evaluate c u = Val (Ok x) /\ length x = dim /\ returns (evaluate c' u) dim' (fun e => rsum (fun d => A e d * nth d x 0) dim + b e).
Proof. exact loose_affine. Qed.
Print Assumptions C71_loose.

Theorem C71_fixed : forall svd p n m dim dim' (Q Q' : Mat RNum) (A : nat -> nat -> R) (b : nat -> R) pen,
  good_solver svd -> shape dim (S m) Q -> shape dim' (S m) Q' -> (1 <= p <= n)%nat -> (2 <= n <= m)%nat ->
  (forall q, pen = Some q -> 0 <= lambda q /\ (1 <= kappa q <= n - 2)%nat) ->
  (forall g e, (g <= m)%nat -> (e < dim')%nat -> ent Q' g e = rsum (fun d => A e d * ent Q g d) dim + b e) ->
  exists c c', generate svd (LeastSquaresFit p Q n FixedEnds pen) = Val (Ok c) /\ generate svd (LeastSquaresFit p Q' n FixedEnds pen) = Val (Ok c') /\
    forall u, 0 <= u <= 1 -> exists x, evaluate c u = Val (Ok x) /\ length x = dim /\ returns (evaluate c' u) dim' (fun e => rsum (fun d => A e d * nth d x 0) dim + b e).
Proof. exact fixed_affine. Qed.
Print Assumptions C71_fixed.

(** the four points of the quadratic, projected to the line by [x + 2 y + 5] *)
Example C71_hypotheses : exists svd Q' A b (q : Penalization RNum), good_solver svd /\ shape 2 4 P_a /\ shape 1 4 Q' /\ (1 <= 2 <= 3)%nat /\ (2 <= 3 <= 3)%nat /\
  0 <= lambda q /\ (1 <= kappa q <= 3 - 2)%nat /\
  (forall g e, (g <= 3)%nat -> (e < 1)%nat -> ent Q' g e = rsum (fun d => A e d * ent P_a g d) 2 + b e) /\ A 0%nat 1%nat <> 0.
Proof.
  exists some_solver, (mkMat 1 [[5]; [10]; [12]; [7]]), (fun _ d => match d with O => 1 | _ => 2 end), (fun _ => 5), (@mkPen RNum (1/10) 1).
  split; [exact some_solver_good|]. split; [exact P_a_shape|]. split.
  { split; [reflexivity|]. split; [reflexivity|]. intros i Hi. cases i. }
  cbn [lambda kappa]. split; [lia|]. split; [lia|]. split; [rn; lra|]. split; [lia|]. split.
  - intros g e Hg He. destruct e as [|e]; [|lia]. do 4 (destruct g as [|g]; [cbv [ent nth mcols P_a rsum]; change (T RNum) with R; lra|]). lia.
  - lra.
Qed.

(** ** C72.  The result does not depend on the direction: data in reverse order give
    the reversed curve. *)
Theorem C72_interpolation : forall svd p m dim (Q Q' : Mat RNum), good_solver svd -> (1 <= p <= m)%nat -> shape dim (S m) Q -> shape dim (S m) Q' ->
  (forall g d, (g <= m)%nat -> (d < dim)%nat -> ent Q' g d = ent Q (m - g) d) ->
  exists c c', generate svd (Interpolation p Q) = Val (Ok c) /\ reverse c = Val c' /\ generate svd (Interpolation p Q') = Val (Ok c').
Proof. exact interpolation_reverse. Qed.
Print Assumptions C72_interpolation.

Theorem C72_loose : forall svd p n m dim (Q Q' : Mat RNum) pen, good_solver svd -> shape dim (S m) Q -> shape dim (S m) Q' -> (1 <= p <= n)%nat -> (n <= m)%nat ->
  (forall q, pen = Some q -> 0 <= lambda q /\ (1 <= kappa q <= n - 1)%nat) ->
  (forall g d, (g <= m)%nat -> (d < dim)%nat -> ent Q' g d = ent Q (m - g) d) ->
  exists c c', generate svd (LeastSquaresFit p Q n LooseEnds pen) = Val (Ok c) /\ reverse c = Val c' /\ generate svd (LeastSquaresFit p Q' n LooseEnds pen) = Val (Ok c').
Proof. exact loose_reverse. Qed.
Print Assumptions C72_loose.

Theorem C72_fixed : forall svd p n m dim (Q Q' : Mat RNum) pen, good_solver svd -> shape dim (S m) Q -> shape dim (S m) Q' -> (1 <= p <= n)%nat -> (2 <= n <= m)%nat ->
  (forall q, pen = Some q -> 0 <= lambda q /\ (1 <= kappa q <= n - 2)%nat) ->
  (forall g d, (g <= m)%nat -> (d < dim)%nat -> ent Q' g d = ent Q (m - g) d) ->
  exists c c', generate svd (LeastSquaresFit p Q n FixedEnds pen) = Val (Ok c) /\ reverse c = Val c' /\ generate svd (LeastSquaresFit p Q' n FixedEnds pen) = Val (Ok c').
Proof. exact fixed_reverse. Qed.
Print Assumptions C72_fixed.

Example C72_hypotheses : exists svd Q', good_solver svd /\ shape 1 7 P_b /\ shape 1 7 Q' /\ (1 <= 2 <= 3)%nat /\ (2 <= 3 <= 6)%nat /\
  forall g d, (g <= 6)%nat -> (d < 1)%nat -> ent Q' g d = ent P_b (6 - g) d.
Proof.
  exists some_solver, (mkMat 1 [[4]; [3]; [5]; [2]; [-1]; [1]; [0]]). split; [exact some_solver_good|]. split; [exact P_b_shape|]. split.
  { split; [reflexivity|]. split; [reflexivity|]. intros i Hi. cases i. }
  split; [lia|]. split; [lia|]. intros g d Hg Hd. destruct d as [|d]; [|lia]. do 7 (destruct g as [|g]; [reflexivity|]). lia.
Qed.

(** ** C73.  Equally spaced data on a line give that line, traversed at constant
    speed, for every degree and number of segments. *)
Theorem C73_interpolation : forall svd p m dim (Q : Mat RNum) (a b : nat -> R), good_solver svd -> (1 <= p <= m)%nat -> shape dim (S m) Q ->
  (forall g d, (g <= m)%nat -> (d < dim)%nat -> ent Q g d = a d + b d * (INR g / INR m)) ->
  exists c, generate svd (Interpolation p Q) = Val (Ok c) /\ forall u, 0 <= u <= 1 -> returns (evaluate c u) dim (fun d => a d + b d * u).
Proof. exact interpolation_line. Qed.
Print Assumptions C73_interpolation.

Theorem C73_fit : forall svd p n m dim (Q : Mat RNum) (a b : nat -> R) me, good_solver svd -> (1 <= p <= n)%nat -> (n <= m)%nat -> (me = FixedEnds -> (2 <= n)%nat) ->
  shape dim (S m) Q -> (forall g d, (g <= m)%nat -> (d < dim)%nat -> ent Q g d = a d + b d * (INR g / INR m)) ->
  exists c, generate svd (LeastSquaresFit p Q n me None) = Val (Ok c) /\ forall u, 0 <= u <= 1 -> returns (evaluate c u) dim (fun d => a d + b d * u).
Proof. exact fit_line. Qed.
Print Assumptions C73_fit.

Example C73_hypotheses : exists svd (Q : Mat RNum) (a b : nat -> R), good_solver svd /\ (1 <= 2 <= 4)%nat /\ shape 1 5 Q /\ b 0%nat <> 0 /\
  forall g d, (g <= 4)%nat -> (d < 1)%nat -> ent Q g d = a d + b d * (INR g / INR 4).
Proof.
  exists some_solver, (mkMat 1 [[7]; [9]; [11]; [13]; [15]]), (fun _ => 7), (fun _ => 8). split; [exact some_solver_good|]. split; [lia|]. split.
  { split; [reflexivity|]. split; [reflexivity|]. intros i Hi. cases i. }
  split; [lra|]. intros g d Hg Hd. destruct d as [|d]; [|lia]. do 5 (destruct g as [|g]; [unfold ent; cbn; lra|]). lia.
Qed.
