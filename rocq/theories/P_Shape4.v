(** * Properties C119 - C121: curves as functions *)

From Coq Require Import Reals List Arith Lra Lia.
From Verif Require Import Num Vec MKnots MPoints MCurve RNum Lists Spec Api ApiS Bridge Facts1 Samples Shape2 Shape6 Shape7.
Import ListNotations.
Local Open Scope R_scope.

(** ** C119.  If the control points, plotted over the knot averages, form a convex polygon in
    some direction, then the curve is convex in that direction, as a function of its parameter. *)
Theorem C119_convex : forall p n dim U P c (w : nat -> R), clamped_curve p n dim U P c -> (1 <= p)%nat -> (forall x, 0 < x < 1 -> (mult U x <= p)%nat) ->
  (forall i, (i + 2 <= n)%nat ->
    (rsum (fun d => w d * (ent P (i + 1) d - ent P i d)) dim) * (average U p (i + 2) - average U p (i + 1)) <=
    (rsum (fun d => w d * (ent P (i + 2) d - ent P (i + 1) d)) dim) * (average U p (i + 1) - average U p i)) ->
  forall u v t x y z, 0 <= u <= 1 -> 0 <= v <= 1 -> 0 <= t <= 1 ->
  evaluate c u = Val (Ok x) -> evaluate c v = Val (Ok y) -> evaluate c ((1 - t) * u + t * v) = Val (Ok z) ->
  rsum (fun d => w d * nth d z 0) dim <= (1 - t) * rsum (fun d => w d * nth d x 0) dim + t * rsum (fun d => w d * nth d y 0) dim.
Proof. exact convex_curve. Qed.
Print Assumptions C119_convex.

(** the quadratic bulges upwards: it is convex in the direction (0, -1) *)
Example C119_hypotheses : exists c (w : nat -> R), clamped_curve 2 3 2 U_a P_a c /\ (1 <= 2)%nat /\ (forall x, 0 < x < 1 -> (mult U_a x <= 2)%nat) /\
  forall i, (i + 2 <= 3)%nat ->
    (rsum (fun d => w d * (ent P_a (i + 1) d - ent P_a i d)) 2) * (average U_a 2 (i + 2) - average U_a 2 (i + 1)) <
    (rsum (fun d => w d * (ent P_a (i + 2) d - ent P_a (i + 1) d)) 2) * (average U_a 2 (i + 1) - average U_a 2 i).
Proof.
  destruct curve_a as [c H]. exists c, (fun d => if (d =? 1)%nat then -1 else 0). split; [exact H|]. split; [lia|].
  split. { intros x Hx. unfold mult, U_a. cbn [count_occ]. repeat (destruct (Req_EM_T _ _); try lra); lia. }
  intros i Hi. unfold average, ent, P_a, U_a. destruct i as [|[|i]]; [cbn; lra|cbn; lra|lia].
Qed.

(** ** C120.  Control points read off a function at the knot averages give a curve close to the
    function: [e] bounds how much the function changes over [(p + 1) / 2] of the longest knot interval. *)
Theorem C120_sampled : forall p n dim U P c (f : nat -> R -> R) h e, clamped_curve p n dim U P c -> (1 <= p)%nat ->
  (forall i, (p <= i <= n)%nat -> nth (S i) U 0 - nth i U 0 <= h) ->
  (forall i d, (i <= n)%nat -> (d < dim)%nat -> ent P i d = f d (average U p i)) ->
  (forall d x y, (d < dim)%nat -> 0 <= x <= 1 -> 0 <= y <= 1 -> Rabs (x - y) <= (INR p + 1) / 2 * h -> Rabs (f d x - f d y) <= e) ->
  forall u, 0 <= u <= 1 -> exists x, evaluate c u = Val (Ok x) /\ length x = dim /\ forall d, (d < dim)%nat -> Rabs (nth d x 0 - f d u) <= e.
Proof. exact schoenberg. Qed.
Print Assumptions C120_sampled.

(** hence every continuous function is approximated as well as wanted, with any degree, by
    curves with uniform knots and enough segments *)
Theorem C120_approximation : forall p dim (f : nat -> R -> R) e, (1 <= p)%nat -> 0 < e ->
  (forall d x, (d < dim)%nat -> 0 <= x <= 1 -> continuous_on01 (f d) x) ->
  exists N, forall n U P c, (N <= n)%nat -> clamped_curve p n dim U P c -> uniform_knots p n U ->
    (forall i d, (i <= n)%nat -> (d < dim)%nat -> ent P i d = f d (average U p i)) ->
    forall u, 0 <= u <= 1 -> exists x, evaluate c u = Val (Ok x) /\ length x = dim /\ forall d, (d < dim)%nat -> Rabs (nth d x 0 - f d u) <= e.
Proof. exact approximation. Qed.
Print Assumptions C120_approximation.

(** the square function and a quadratic curve over the uniform knots with one internal knot *)
Example C120_hypotheses : exists c, clamped_curve 2 3 1 U_a (mkMat 1 [[0]; [1 / 16]; [9 / 16]; [1]] : Mat RNum) c /\ (1 <= 2)%nat /\ uniform_knots 2 3 U_a /\
  (forall i, (2 <= i <= 3)%nat -> nth (S i) U_a 0 - nth i U_a 0 <= 1 / 2) /\
  (forall i d, (i <= 3)%nat -> (d < 1)%nat -> ent (mkMat 1 [[0]; [1 / 16]; [9 / 16]; [1]] : Mat RNum) i d = average U_a 2 i ^ 2) /\
  (forall x y, 0 <= x <= 1 -> 0 <= y <= 1 -> Rabs (x - y) <= (INR 2 + 1) / 2 * (1 / 2) -> Rabs (x ^ 2 - y ^ 2) <= 3 / 2) /\
  forall x, 0 <= x <= 1 -> continuous_on01 (fun x => x ^ 2) x.
Proof.
  destruct (clamped_curve_ex 2 3 1 U_a (mkMat 1 [[0]; [1 / 16]; [9 / 16]; [1]] : Mat RNum) U_a_clamped) as [c H].
  { split; [reflexivity|]. split; [reflexivity|]. intros i Hi. do 4 (destruct i as [|i]; [reflexivity|]). lia. }
  assert (Q : forall x y, 0 <= x <= 1 -> 0 <= y <= 1 -> Rabs (x ^ 2 - y ^ 2) <= 2 * Rabs (x - y)).
  { intros x y Hx Hy. replace (x ^ 2 - y ^ 2) with ((x + y) * (x - y)) by ring. rewrite Rabs_mult, (Rabs_pos_eq (x + y)) by lra. apply Rmult_le_compat_r; [apply Rabs_pos|lra]. }
  exists c. split; [exact H|]. split; [lia|].
  split. { intros i Hi. unfold U_a. destruct i as [|[|[|[|[|i]]]]]; [lia|lia|cbn; lra|cbn; lra|cbn; lra|lia]. }
  split. { intros i Hi. unfold U_a. destruct i as [|[|[|[|i]]]]; [lia|lia|cbn; lra|cbn; lra|lia]. }
  split. { intros i d Hi Hd. replace d with 0%nat by lia. unfold ent, average, U_a. destruct i as [|[|[|[|i]]]]; [cbn; lra|cbn; lra|cbn; lra|cbn; lra|lia]. }
  split. { intros x y Hx Hy Hxy. assert (T := Q x y Hx Hy). change (INR 2) with 2 in Hxy. lra. }
  intros x Hx eps Heps. exists (eps / 2). split; [lra|]. intros v Hv Hd. assert (T := Q v x Hv Hx). lra.
Qed.

(** ** C121.  Every curve is the derivative of a curve: of the one with one more knot at each end
    and with the partial sums of the weighted control points. *)
Theorem C121_antiderivative : forall p n dim U P c, clamped_curve p n dim U P c -> (forall x, 0 < x < 1 -> (mult U x <= p + 1)%nat) ->
  exists Q c', clamped_curve (p + 1) (n + 1) dim (0 :: U ++ [1]) Q c' /\
    (forall i d, (i <= n + 1)%nat -> (d < dim)%nat -> ent Q i d = rsum (fun j => (nth (j + p + 1) U 0 - nth j U 0) / INR (p + 1) * ent P j d) i) /\
    forall u k, (k <= p)%nat -> evaluate_derivative c' u (k + 1) = evaluate_derivative c u k.
Proof. exact antiderivative_curve. Qed.
Print Assumptions C121_antiderivative.

(** so the integral of a coordinate is the weighted sum of the control points *)
Theorem C121_integral : forall p n dim U P c d f, clamped_curve p n dim U P c -> (forall x, 0 < x < 1 -> (mult U x <= p)%nat) -> (d < dim)%nat -> evals c 0 d f ->
  exists pr : Riemann_integrable f 0 1, RiemannInt pr = rsum (fun j => (nth (j + p + 1) U 0 - nth j U 0) / INR (p + 1) * ent P j d) (n + 1).
Proof. exact mean_value. Qed.
Print Assumptions C121_integral.

(** the cubic with a double knot *)
Example C121_hypotheses : exists c f, clamped_curve 3 6 1 U_b P_b c /\ (forall x, 0 < x < 1 -> (mult U_b x <= 3)%nat) /\ evals c 0 0 f.
Proof.
  destruct curve_b as [c H]. exists c. eexists. split; [exact H|].
  split. { intros x Hx. unfold mult, U_b. cbn [count_occ]. repeat (destruct (Req_EM_T _ _); try lra); lia. }
  apply (cc_evals 3 6 1 U_b P_b c 0 0 H); lia.
Qed.
