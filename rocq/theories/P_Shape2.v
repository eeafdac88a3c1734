(** * Properties C77 - C87: derivatives, bounds, special forms, refinement *)

From Coq Require Import ZArith Reals List Bool Arith Lra Lia Permutation.
From Verif Require Import Num Vec MKnots MPoints MCurve RNum Lists Spec Api Bridge Facts1 Samples Shape3 Insert2.
Import ListNotations.
Local Open Scope R_scope.

(** ** C77.  In the [j]-th knot interval the [k]-th derivative is a convex combination
    of [p - k + 1] divided differences of the control points. *)
Theorem C77_derivative_hull : forall p n dim U P c j u k, clamped_curve p n dim U P c -> (p <= j <= n)%nat -> (k <= p)%nat ->
  nth j U 0 <= u -> u < nth (S j) U 0 \/ j = n /\ u = 1 ->
  exists w, (forall i, (i <= p - k)%nat -> 0 <= w i) /\ rsum w (S (p - k)) = 1 /\
    returns (evaluate_derivative c u k) dim
      (fun d => rsum (fun i => w i * dpoints (kfun U) p (fun i => ent P i d) k (j - p + i)%nat) (S (p - k))).
Proof. exact derivative_hull. Qed.
Print Assumptions C77_derivative_hull.

Example C77_hypotheses : exists c, clamped_curve 3 6 1 U_b P_b c /\ (3 <= 5 <= 6)%nat /\ (2 <= 3)%nat /\ nth 5 U_b 0 <= 1/2 < nth 6 U_b 0.
Proof. destruct curve_b as [c H]. exists c. split; [exact H|]. split; [lia|]. split; [lia|]. cbn. lra. Qed.

(** ** C78.  Speed limit: if no control polygon leg is longer than [L / p] times its
    knot distance, the curve moves by at most [L] times the change of the parameter. *)
Theorem C78_speed : forall p n dim U P c L, clamped_curve p n dim U P c -> (1 <= p)%nat -> (forall x, 0 < x < 1 -> (mult U x <= p)%nat) ->
  (forall i, (i < n)%nat -> INR p * distance P dim (S i) i <= L * (nth (i + p + 1) U 0 - nth (i + 1) U 0)) ->
  forall u v x y, 0 <= u <= 1 -> 0 <= v <= 1 -> evaluate c u = Val (Ok x) -> evaluate c v = Val (Ok y) ->
  sqrt (rsum (fun d => (nth d y 0 - nth d x 0) ^ 2) dim) <= L * Rabs (v - u).
Proof. exact speed_bound. Qed.
Print Assumptions C78_speed.

Lemma legs_a : forall i, (i < 3)%nat -> INR 2 * distance P_a 2 (S i) i <= 20 * (nth (i + 2 + 1) U_a 0 - nth (i + 1) U_a 0).
Proof.
  assert (B : forall x, 0 <= x <= 25 -> sqrt x <= 5).
  { intros x Hx. replace 5 with (sqrt (5 * 5)) by (apply sqrt_square; lra). apply sqrt_le_1; lra. }
  intros i Hi. assert (D : distance P_a 2 (S i) i <= 5).
  { unfold distance, ent, P_a. apply B. destruct i as [|[|[|i]]]; [cbn; lra|cbn; lra|cbn; lra|lia]. }
  unfold U_a. destruct i as [|[|[|i]]]; [cbn [INR]; cbn; lra|cbn [INR]; cbn; lra|cbn [INR]; cbn; lra|lia].
Qed.

Example C78_hypotheses : exists c, clamped_curve 2 3 2 U_a P_a c /\ (forall x, 0 < x < 1 -> (mult U_a x <= 2)%nat) /\
  (forall i, (i < 3)%nat -> INR 2 * distance P_a 2 (S i) i <= 20 * (nth (i + 2 + 1) U_a 0 - nth (i + 1) U_a 0)).
Proof.
  destruct curve_a as [c H]. exists c. split; [exact H|]. split; [|exact legs_a].
  intros x Hx. unfold mult, U_a. cbn [count_occ]. repeat destruct Req_EM_T; try lra; lia.
Qed.

(** ** C79.  The ends: the [k]-th derivative at 0 and 1 is the first and the last
    [k]-th divided difference; in particular the curve leaves along the first leg of
    the control polygon and arrives along the last one. *)
Theorem C79_end_derivatives : forall p n dim U P c k, clamped_curve p n dim U P c -> (k <= p)%nat ->
  returns (evaluate_derivative c 0 k) dim (fun d => dpoints (kfun U) p (fun i => ent P i d) k 0) /\
  returns (evaluate_derivative c 1 k) dim (fun d => dpoints (kfun U) p (fun i => ent P i d) k (n - k)).
Proof. exact end_derivatives. Qed.
Print Assumptions C79_end_derivatives.

Theorem C79_end_tangents : forall p n dim U P c, clamped_curve p n dim U P c -> (1 <= p)%nat ->
  returns (evaluate_derivative c 0 1) dim (fun d => INR p / nth (p + 1) U 0 * (ent P 1 d - ent P 0 d)) /\
  returns (evaluate_derivative c 1 1) dim (fun d => INR p / (1 - nth n U 0) * (ent P n d - ent P (n - 1) d)).
Proof. exact end_tangents. Qed.
Print Assumptions C79_end_tangents.

(** the quadratic leaves with velocity (4, 8) and arrives with (4, -12) *)
Example C79_hypotheses : exists c, clamped_curve 2 3 2 U_a P_a c /\
  evaluate_derivative c 0 1 = Val (Ok [4; 8]) /\ evaluate_derivative c 1 1 = Val (Ok [4; -12]).
Proof.
  destruct curve_a as [c H]. exists c. split; [exact H|].
  destruct (end_tangents _ _ _ _ _ _ H ltac:(lia)) as [[x [X1 [X2 X3]]] [y [Y1 [Y2 Y3]]]].
  assert (A0 := X3 0%nat ltac:(lia)). assert (A1 := X3 1%nat ltac:(lia)). assert (B0 := Y3 0%nat ltac:(lia)). assert (B1 := Y3 1%nat ltac:(lia)).
  destruct x as [|x0 [|x1 [|]]]; try discriminate X2. destruct y as [|y0 [|y1 [|]]]; try discriminate Y2.
  unfold ent, P_a, U_a in A0, A1, B0, B1. cbn in A0, A1, B0, B1. rewrite X1, Y1. split; repeat f_equal; lra.
Qed.

(** ** C80.  Moving every control point by at most [e] moves the curve by at most [e],
    and curves over the same knots add up pointwise, with all derivatives. *)
Theorem C80_stability : forall p n dim U P P' c c' e, clamped_curve p n dim U P c -> clamped_curve p n dim U P' c' ->
  (forall i, (i <= n)%nat -> sqrt (rsum (fun d => (ent P' i d - ent P i d) ^ 2) dim) <= e) ->
  forall u x y, 0 <= u <= 1 -> evaluate c u = Val (Ok x) -> evaluate c' u = Val (Ok y) ->
  sqrt (rsum (fun d => (nth d y 0 - nth d x 0) ^ 2) dim) <= e.
Proof. exact point_stability. Qed.
Print Assumptions C80_stability.

Theorem C80_superposition : forall p n dim U P Q S c1 c2 c3 a b,
  clamped_curve p n dim U P c1 -> clamped_curve p n dim U Q c2 -> clamped_curve p n dim U S c3 ->
  (forall i d, (i <= n)%nat -> (d < dim)%nat -> ent S i d = a * ent P i d + b * ent Q i d) ->
  forall u k, 0 <= u <= 1 -> (k <= p)%nat -> exists x y, evaluate_derivative c1 u k = Val (Ok x) /\ evaluate_derivative c2 u k = Val (Ok y) /\
    returns (evaluate_derivative c3 u k) dim (fun d => a * nth d x 0 + b * nth d y 0).
Proof. exact superposition. Qed.
Print Assumptions C80_superposition.

Definition Q_a : Mat RNum := mkMat 2 [[1; 0]; [1; 5]; [-2; 1]; [0; 0]].
Definition S_a : Mat RNum := mkMat 2 [[3; 0]; [5; 19]; [0; 7]; [8; -2]].
Example C80_hypotheses : exists c1 c2 c3, clamped_curve 2 3 2 U_a P_a c1 /\ clamped_curve 2 3 2 U_a Q_a c2 /\ clamped_curve 2 3 2 U_a S_a c3 /\
  (forall i d, (i <= 3)%nat -> (d < 2)%nat -> ent S_a i d = 2 * ent P_a i d + 3 * ent Q_a i d) /\
  (forall i, (i <= 3)%nat -> sqrt (rsum (fun d => (ent Q_a i d - ent P_a i d) ^ 2) 2) <= 6).
Proof.
  assert (B : forall x, 0 <= x <= 36 -> sqrt x <= 6).
  { intros x Hx. replace 6 with (sqrt (6 * 6)) by (apply sqrt_square; lra). apply sqrt_le_1; lra. }
  destruct curve_a as [c H].
  destruct (clamped_curve_ex 2 3 2 U_a Q_a U_a_clamped) as [c2 H2]; [split; [reflexivity|]; split; [reflexivity|]; intros i Hi; cases i|].
  destruct (clamped_curve_ex 2 3 2 U_a S_a U_a_clamped) as [c3 H3]; [split; [reflexivity|]; split; [reflexivity|]; intros i Hi; cases i|].
  exists c, c2, c3. split; [exact H|]. split; [exact H2|]. split; [exact H3|]. unfold ent, P_a, Q_a, S_a. split.
  - intros i d Hi Hd. destruct d as [|[|d]]; [| |lia]; destruct i as [|[|[|[|i]]]]; [cbn; lra|cbn; lra|cbn; lra|cbn; lra|lia|cbn; lra|cbn; lra|cbn; lra|cbn; lra|lia].
  - intros i Hi. apply B. destruct i as [|[|[|[|i]]]]; [cbn; lra|cbn; lra|cbn; lra|cbn; lra|lia].
Qed.

(** ** C81.  Control points that advance strictly in some direction give a curve that
    does so, and that therefore never returns to the same point. *)
Theorem C81_strictly_monotone : forall p n dim U P c (w : nat -> R), clamped_curve p n dim U P c -> (1 <= p)%nat ->
  (forall i, (i < n)%nat -> rsum (fun d => w d * ent P i d) dim < rsum (fun d => w d * ent P (S i) d) dim) ->
  forall u v x y, 0 <= u -> u < v -> v <= 1 -> evaluate c u = Val (Ok x) -> evaluate c v = Val (Ok y) ->
  rsum (fun d => w d * nth d x 0) dim < rsum (fun d => w d * nth d y 0) dim.
Proof. exact strict_curve. Qed.
Print Assumptions C81_strictly_monotone.

Theorem C81_no_self_intersection : forall p n dim U P c (w : nat -> R), clamped_curve p n dim U P c -> (1 <= p)%nat ->
  (forall i, (i < n)%nat -> rsum (fun d => w d * ent P i d) dim < rsum (fun d => w d * ent P (S i) d) dim) ->
  forall u v, 0 <= u <= 1 -> 0 <= v <= 1 -> evaluate c u = evaluate c v -> u = v.
Proof. exact no_self_intersection. Qed.
Print Assumptions C81_no_self_intersection.

Example C81_hypotheses : exists c w, clamped_curve 2 3 2 U_a P_a c /\
  forall i, (i < 3)%nat -> rsum (fun d => w d * ent P_a i d) 2 < rsum (fun d => w d * ent P_a (S i) d) 2.
Proof.
  destruct curve_a as [c H]. exists c, (fun d => if (d =? 0)%nat then 1 else 0). split; [exact H|].
  intros i Hi. unfold ent, P_a. destruct i as [|[|[|i]]]; [cbn; lra|cbn; lra|cbn; lra|lia].
Qed.

(** ** C82.  Without internal knots the curve is the Bezier curve of its control points. *)
Theorem C82_bezier : forall p dim U P c u, clamped_curve p p dim U P c -> 0 <= u <= 1 ->
  returns (evaluate c u) dim (fun d => rsum (fun i => INR (binomial p i) * u ^ i * (1 - u) ^ (p - i) * ent P i d) (S p)).
Proof. exact bezier. Qed.
Print Assumptions C82_bezier.

Example C82_hypotheses : exists c, clamped_curve 3 3 2 [0; 0; 0; 0; 1; 1; 1; 1] P_a c.
Proof.
  apply clamped_curve_ex; [|exact P_a_shape]. split.
  - lia.
  - reflexivity.
  - apply sorted_steps. intros i Hi. simpl length in Hi. cases i.
  - intros i Hi. cases i.
  - intros i Hi Hj. simpl length in Hj. cases i.
  - intros i Hi Hj. cases i.
Qed.

(** ** C83.  Degree 0 and degree 1: a step function and the control polygon itself. *)
Theorem C83_steps : forall n dim U P c j u, clamped_curve 0 n dim U P c -> (j <= n)%nat -> nth j U 0 <= u -> u < nth (S j) U 0 \/ j = n /\ u = 1 ->
  returns (evaluate c u) dim (fun d => ent P j d).
Proof. exact step_curve. Qed.
Print Assumptions C83_steps.

Theorem C83_polyline : forall n dim U P c j u, clamped_curve 1 n dim U P c -> (1 <= j <= n)%nat -> nth j U 0 <= u <= nth (S j) U 0 ->
  nth j U 0 < nth (S j) U 0 -> (u < nth (S j) U 0 \/ u = 1 \/ (mult U u <= 1)%nat) ->
  returns (evaluate c u) dim (fun d => ((nth (S j) U 0 - u) * ent P (j - 1) d + (u - nth j U 0) * ent P j d) / (nth (S j) U 0 - nth j U 0)).
Proof. exact polyline. Qed.
Print Assumptions C83_polyline.

Example C83_hypotheses : exists c c', clamped_curve 0 3 2 [0; 1/4; 1/2; 3/4; 1] P_a c /\ clamped_curve 1 3 2 [0; 0; 1/4; 3/4; 1; 1] P_a c'.
Proof.
  destruct (clamped_curve_ex 0 3 2 [0; 1/4; 1/2; 3/4; 1] P_a) as [c H]; [|exact P_a_shape|].
  { split.
    - lia.
    - reflexivity.
    - apply sorted_steps. intros i Hi. simpl length in Hi. cases i.
    - intros i Hi. cases i.
    - intros i Hi Hj. simpl length in Hj. cases i.
    - intros i Hi Hj. cases i. }
  destruct (clamped_curve_ex 1 3 2 [0; 0; 1/4; 3/4; 1; 1] P_a) as [c' H']; [|exact P_a_shape|].
  { split.
    - lia.
    - reflexivity.
    - apply sorted_steps. intros i Hi. simpl length in Hi. cases i.
    - intros i Hi. cases i.
    - intros i Hi Hj. simpl length in Hj. cases i.
    - intros i Hi Hj. cases i. }
  exists c, c'. split; assumption.
Qed.

(** ** C84.  A knot that occurs [p] times: the curve passes through a control point
    there.  Inserting a parameter until it occurs [p] times makes the point of the
    curve a control point. *)
Theorem C84_knot_point : forall p n dim U P c b u, clamped_curve p n dim U P c -> 0 <= u < 1 -> (b + p <= n)%nat ->
  nth (b + p) U 0 <= u < nth (b + p + 1) U 0 -> (forall i, (b < i <= b + p)%nat -> nth i U 0 = u) ->
  returns (evaluate c u) dim (fun d => ent P b d).
Proof. exact knot_point. Qed.
Print Assumptions C84_knot_point.

Theorem C84_insert_to_point : forall p n dim U P c u, clamped_curve p n dim U P c -> (1 <= p)%nat -> 0 < u < 1 -> (mult U u <= p)%nat -> simple_below U u ->
  exists c' U' P' b, insert_times c u (p - mult U u) = Val (c', Ok tt) /\ clamped_curve p (n + (p - mult U u)) dim U' P' c' /\
    same_function c c' /\ (b <= n + (p - mult U u))%nat /\ returns (evaluate c u) dim (fun d => ent P' b d).
Proof. exact insert_to_point. Qed.
Print Assumptions C84_insert_to_point.

Definition U_c : list R := [0; 0; 0; 1/2; 1/2; 1; 1; 1].
Definition P_c : Mat RNum := mkMat 1 [[0]; [1]; [1/4]; [1]; [-2]].
Example C84_hypotheses :
  (exists c, clamped_curve 2 4 1 U_c P_c c /\ nth (2 + 2) U_c 0 <= 1/2 < nth (2 + 2 + 1) U_c 0 /\ forall i, (2 < i <= 2 + 2)%nat -> nth i U_c 0 = 1/2) /\
  (exists c, clamped_curve 3 6 1 U_b P_b c /\ (mult U_b (1/4) <= 3)%nat /\ simple_below U_b (1/4)).
Proof.
  split.
  - destruct (clamped_curve_ex 2 4 1 U_c P_c) as [c H].
    + split; unfold U_c.
      * lia.
      * reflexivity.
      * apply sorted_steps. intros i Hi. simpl length in Hi. cases i.
      * intros i Hi. cases i.
      * intros i Hi Hj. simpl length in Hj. cases i.
      * intros i Hi Hj. cases i.
    + split; [reflexivity|]. split; [reflexivity|]. intros i Hi. cases i.
    + exists c. split; [exact H|]. unfold U_c. split; [cbn; lra|]. intros i Hi. cases i.
  - destruct curve_b as [c H]. exists c. split; [exact H|]. rewrite mult_b. split; [lia|]. apply simple_b. lra.
Qed.

(** ** C85.  The order of insertions does not matter: any order succeeds and gives
    the very same curve. *)
Theorem C85_insert_order : forall p n dim U P c us, clamped_curve p n dim U P c ->
  (forall u, In u us -> 0 < u < 1 /\ simple_below (us ++ U) u) -> (forall x, 0 < x < 1 -> (mult (us ++ U) x <= p + 1)%nat) ->
  exists c', inserted c us c' /\ same_function c c' /\ forall vs, Permutation us vs -> inserted c vs c'.
Proof. exact insert_order. Qed.
Print Assumptions C85_insert_order.

Lemma three_a : (forall u, In u [3/4; 1/4; 3/4] -> 0 < u < 1 /\ simple_below ([3/4; 1/4; 3/4] ++ U_a) u) /\
  (forall x, 0 < x < 1 -> (mult ([3/4; 1/4; 3/4]%R ++ U_a) x <= 2 + 1)%nat).
Proof.
  split.
  - intros u Hu. assert (B : u = 3/4 \/ u = 1/4) by (cbn in Hu; intuition). split; [destruct B; lra|].
    intros x Hx. unfold mult, U_a. cbn [count_occ app]. repeat destruct Req_EM_T; try lra; lia.
  - intros x Hx. unfold mult, U_a. cbn [count_occ app]. repeat destruct Req_EM_T; try lra; lia.
Qed.
Example C85_hypotheses : exists c, clamped_curve 2 3 2 U_a P_a c /\
  (forall u, In u [3/4; 1/4; 3/4] -> 0 < u < 1 /\ simple_below ([3/4; 1/4; 3/4] ++ U_a) u) /\
  (forall x, 0 < x < 1 -> (mult ([3/4; 1/4; 3/4]%R ++ U_a) x <= 2 + 1)%nat).
Proof. destruct curve_a as [c H]. exists c. split; [exact H|exact three_a]. Qed.

(** ** C86.  Insertion cuts corners: each new control point lies on a leg of the old
    control polygon, in the proportion given by the knots; all but [p] points are old
    ones, and the polygon does not become longer. *)
Theorem C86_corner_cutting : forall p n dim U P c u, clamped_curve p n dim U P c -> 0 < u < 1 -> (mult U u <= p)%nat -> simple_below U u ->
  exists c' U' P' l a, curve_insert c u = Val (c', Ok tt) /\ clamped_curve p (S n) dim U' P' c' /\
    (p <= l <= n)%nat /\ nth l U 0 <= u <= nth (S l) U 0 /\ U' = firstn (l + 1) U ++ u :: skipn (l + 1) U /\
    (forall i, (i <= S n)%nat -> 0 <= a i <= 1) /\
    (forall i, (i + p <= l)%nat -> a i = 1) /\ (forall i, (l < i)%nat -> a i = 0) /\
    (forall i, (l < i + p)%nat -> (i <= l)%nat -> nth i U 0 < nth (i + p) U 0 /\ a i = (u - nth i U 0) / (nth (i + p) U 0 - nth i U 0)) /\
    (forall i d, (i <= S n)%nat -> (d < dim)%nat -> ent P' i d = a i * ent P i d + (1 - a i) * ent P (i - 1) d) /\
    rsum (fun i => distance P' dim (S i) i) (S n) <= rsum (fun i => distance P dim (S i) i) n.
Proof. exact insert_cuts. Qed.
Print Assumptions C86_corner_cutting.

Example C86_hypotheses : exists c, clamped_curve 2 3 2 U_a P_a c /\ (mult U_a (1/4) <= 2)%nat /\ simple_below U_a (1/4).
Proof. destruct curve_a as [c H]. exists c. split; [exact H|]. rewrite mult_a_4. split; [lia|]. apply simple_a. lra. Qed.

(** ** C87.  Refinement: with the speed [L] of C78, after the insertion of any knots
    such that [p] successive knot intervals are together at most [h] long, every control
    point is within [L h] of each point of the curve that it influences. *)
Theorem C87_refinement : forall p n dim U P c L h us, clamped_curve p n dim U P c -> (1 <= p)%nat -> 0 <= L ->
  (forall i, (i < n)%nat -> INR p * distance P dim (S i) i <= L * (nth (i + p + 1) U 0 - nth (i + 1) U 0)) ->
  (forall u, In u us -> 0 < u < 1 /\ simple_below (us ++ U) u) -> (forall x, 0 < x < 1 -> (mult (us ++ U) x <= p + 1)%nat) ->
  exists c' U' P', inserted c us c' /\ clamped_curve p (n + length us) dim U' P' c' /\ Permutation (us ++ U) U' /\
    ((forall i, (i < n + length us)%nat -> nth (i + p + 1) U' 0 - nth (i + 1) U' 0 <= h) ->
     forall i u x, (i <= n + length us)%nat -> nth i U' 0 <= u -> u < nth (i + p + 1) U' 0 \/ u = nth (i + p + 1) U' 0 /\ u = 1 -> evaluate c u = Val (Ok x) ->
     sqrt (rsum (fun d => (nth d x 0 - ent P' i d) ^ 2) dim) <= L * h).
Proof. exact refinement. Qed.
Print Assumptions C87_refinement.

(** 1/4 and 3/4 twice into the quadratic, h = 1/2 *)
Example C87_hypotheses : exists c, clamped_curve 2 3 2 U_a P_a c /\
  (forall i, (i < 3)%nat -> INR 2 * distance P_a 2 (S i) i <= 20 * (nth (i + 2 + 1) U_a 0 - nth (i + 1) U_a 0)) /\
  (forall u, In u [3/4; 1/4; 3/4] -> 0 < u < 1 /\ simple_below ([3/4; 1/4; 3/4] ++ U_a) u) /\
  (forall x, 0 < x < 1 -> (mult ([3/4; 1/4; 3/4]%R ++ U_a) x <= 2 + 1)%nat) /\
  exists U', Permutation ([3/4; 1/4; 3/4] ++ U_a) U' /\ sorted U' /\ forall i, (i < 6)%nat -> nth (i + 2 + 1) U' 0 - nth (i + 1) U' 0 <= 1/2.
Proof.
  destruct curve_a as [c H]. exists c. split; [exact H|]. split; [exact legs_a|]. split; [apply three_a|]. split; [apply three_a|].
  exists [0; 0; 0; 1/4; 1/2; 3/4; 3/4; 1; 1; 1]. split; [|split].
  - apply (proj2 (Permutation_count_occ Req_EM_T _ _)). intros x. unfold U_a. cbn [count_occ app]. repeat destruct Req_EM_T; try lra; lia.
  - apply sorted_steps. intros i Hi. simpl length in Hi. cases i.
  - intros i Hi. do 6 (destruct i as [|i]; [cbn; lra|]). lia.
Qed.
