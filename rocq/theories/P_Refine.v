(** * Properties C160 and C161: refining control polygons *)

From Coq Require Import Reals List Arith Lra Lia Permutation.
From Verif Require Import Num Vec MKnots MPoints MCurve RNum Lists Spec Api ApiS Bridge Facts1 Facts7 Samples Refine1.
Import ListNotations.
Local Open Scope R_scope.

(** ** C160.  Inserting a knot cuts corners, not only of the control polygon but of the
    polygon of the control points of every derivative up to the smoothness at the new
    knot: each new point lies on a leg of the old polygon, the ends stay. *)
Theorem C160_cuts : forall p n dim U P c u k, clamped_curve p n dim U P c -> 0 < u < 1 -> (k <= p)%nat -> (mult U u <= p - k)%nat -> simple_below U u ->
  exists c' D D' a, @curve_insert RNum c u = Val (c', Ok tt) /\
    @matrix_derivative RNum (cpoints c) k = Val D /\ shape dim (S n - k) D /\ @matrix_derivative RNum (cpoints c') k = Val D' /\ shape dim (S (S n) - k) D' /\
    (forall i, 0 <= a i <= 1) /\ a 0%nat = 1 /\ a (S n - k)%nat = 0 /\
    forall i d, (i <= S n - k)%nat -> (d < dim)%nat -> ent D' i d = a i * ent D i d + (1 - a i) * ent D (i - 1) d.
Proof. exact insert_derivative_polygons. Qed.
Print Assumptions C160_cuts.

(** hence half spaces that hold the points of a derivative keep holding them: a monotone
    (k = 1) or convex (k = 2) control polygon stays monotone or convex *)
Theorem C160_halfspace : forall p n dim U P c u k, clamped_curve p n dim U P c -> 0 < u < 1 -> (k <= p)%nat -> (mult U u <= p - k)%nat -> simple_below U u ->
  exists c' D D', @curve_insert RNum c u = Val (c', Ok tt) /\
    @matrix_derivative RNum (cpoints c) k = Val D /\ @matrix_derivative RNum (cpoints c') k = Val D' /\
    forall (w : nat -> R) b, (forall i, (i <= n - k)%nat -> b <= rsum (fun d => w d * ent D i d) dim) ->
    forall i, (i <= S n - k)%nat -> b <= rsum (fun d => w d * ent D' i d) dim.
Proof. exact insert_halfspace. Qed.
Print Assumptions C160_halfspace.

(** the quadratic with second derivatives (0, -16) and (0, -24): at a new knot, k = 2; at
    its own knot, k = 1, where the first derivative points are (4, 8), (4, 0), (4, -12) *)
Example C160_hypotheses : exists c, clamped_curve 2 3 2 U_a P_a c /\
  (2 <= 2)%nat /\ 0 < 1/4 < 1 /\ (mult U_a (1/4) <= 2 - 2)%nat /\ simple_below U_a (1/4) /\
  (1 <= 2)%nat /\ 0 < 1/2 < 1 /\ (mult U_a (1/2) <= 2 - 1)%nat /\ simple_below U_a (1/2) /\
  exists D (w : nat -> R), @matrix_derivative RNum (cpoints c) 2 = Val D /\ forall i, (i <= 3 - 2)%nat -> 16 <= rsum (fun d => w d * ent D i d) 2.
Proof.
  destruct curve_a as [c H]. destruct (second_a c H) as (D & D1 & A & B & C & E). exists c. split; [exact H|]. rewrite mult_a, mult_a_4.
  repeat split; try lia; try lra; try (apply simple_a; lra).
  exists D, (fun d => if (d =? 1)%nat then -1 else 0). split; [exact D1|].
  intros i Hi. cbn [rsum Nat.eqb]. destruct i as [|[|i]]; [rewrite A, B; lra|rewrite C, E; lra|lia].
Qed.

(** ** C161.  A curve is close to its control polygon, drawn over the averages of the knots,
    to second order: with second derivative control points no longer than [M] and [p]
    neighbouring knot intervals no longer than [h], the distance is at most
    [M * h^2 / 2]. *)
Theorem C161_polygon : forall p n dim U P c M h D, clamped_curve p n dim U P c -> (2 <= p)%nat -> (forall x, 0 < x < 1 -> (mult U x <= p - 1)%nat) ->
  @matrix_derivative RNum (cpoints c) 2 = Val D -> (forall i, (i + 2 <= n)%nat -> sqrt (rsum (fun d => ent D i d ^ 2) dim) <= M) ->
  (forall i, (i < n)%nat -> nth (i + p + 1) U 0 - nth (i + 1) U 0 <= h) ->
  forall i t x, (i < n)%nat -> 0 <= t <= 1 -> evaluate c ((1 - t) * average U p i + t * average U p (S i)) = Val (Ok x) ->
  sqrt (rsum (fun d => (nth d x 0 - ((1 - t) * ent P i d + t * ent P (S i) d)) ^ 2) dim) <= M * h ^ 2 / 2.
Proof. exact polygon_second_order. Qed.
Print Assumptions C161_polygon.

(** Inserting knots does not increase [M], so the polygons of refined curves approach the
    original curve with the square of the spacing of the refined knots. *)
Theorem C161_refinement : forall p n dim U P c M h us D, clamped_curve p n dim U P c -> (2 <= p)%nat ->
  @matrix_derivative RNum (cpoints c) 2 = Val D -> (forall i, (i + 2 <= n)%nat -> sqrt (rsum (fun d => ent D i d ^ 2) dim) <= M) ->
  (forall u, In u us -> 0 < u < 1 /\ simple_below (us ++ U) u) -> (forall x, 0 < x < 1 -> (mult (us ++ U) x <= p - 1)%nat) ->
  exists c' U' P', inserted c us c' /\ clamped_curve p (n + length us) dim U' P' c' /\ Permutation (us ++ U) U' /\
    ((forall i, (i < n + length us)%nat -> nth (i + p + 1) U' 0 - nth (i + 1) U' 0 <= h) ->
     forall i t x, (i < n + length us)%nat -> 0 <= t <= 1 -> evaluate c ((1 - t) * average U' p i + t * average U' p (S i)) = Val (Ok x) ->
     sqrt (rsum (fun d => (nth d x 0 - ((1 - t) * ent P' i d + t * ent P' (S i) d)) ^ 2) dim) <= M * h ^ 2 / 2).
Proof. exact refinement_second_order. Qed.
Print Assumptions C161_refinement.

(** the quadratic and two more knots: the bound goes from 12 to 3 *)
Example C161_hypotheses : exists c D, clamped_curve 2 3 2 U_a P_a c /\ (2 <= 2)%nat /\ (forall x, 0 < x < 1 -> (mult U_a x <= 2 - 1)%nat) /\
  @matrix_derivative RNum (cpoints c) 2 = Val D /\ (forall i, (i + 2 <= 3)%nat -> sqrt (rsum (fun d => ent D i d ^ 2) 2) <= 24) /\
  (forall i, (i < 3)%nat -> nth (i + 2 + 1) U_a 0 - nth (i + 1) U_a 0 <= 1) /\
  (forall u, In u [1/4; 3/4] -> 0 < u < 1 /\ simple_below ([1/4; 3/4] ++ U_a) u) /\ (forall x, 0 < x < 1 -> (mult ([1/4; 3/4]%R ++ U_a) x <= 2 - 1)%nat) /\
  forall i, (i < 5)%nat -> nth (i + 2 + 1) [0; 0; 0; 1/4; 1/2; 3/4; 1; 1; 1] 0 - nth (i + 1) [0; 0; 0; 1/4; 1/2; 3/4; 1; 1; 1] 0 <= 1/2.
Proof.
  destruct curve_a as [c H]. destruct (second_a c H) as (D & D1 & A & B & C & E). exists c, D. split; [exact H|]. split; [lia|].
  assert (M1 : forall x, 0 < x < 1 -> (mult ([1/4; 3/4]%R ++ U_a) x <= 2 - 1)%nat).
  { intros x Hx. unfold mult, U_a. cbn [app count_occ]. repeat (destruct (Req_EM_T _ _); try lra); lia. }
  split. { intros x Hx. unfold mult, U_a. cbn [count_occ]. repeat (destruct (Req_EM_T _ _); try lra); lia. }
  split; [exact D1|]. split.
  { intros i Hi. cbn [rsum]. destruct i as [|[|i]]; [rewrite A, B|rewrite C, E|lia].
    - replace (0 + 0 ^ 2 + (-16) ^ 2) with (16 * 16) by ring. rewrite sqrt_square; lra.
    - replace (0 + 0 ^ 2 + (-24) ^ 2) with (24 * 24) by ring. rewrite sqrt_square; lra. }
  split. { intros i Hi. unfold U_a. do 3 (destruct i as [|i]; [cbn; lra|]). lia. }
  split. { intros u Hu. assert (0 < u < 1) by (destruct Hu as [<- | [<- | []]]; lra). split; [assumption|]. intros x Hx. apply (M1 x). lra. }
  split; [exact M1|]. intros i Hi. do 5 (destruct i as [|i]; [cbn; lra|]). lia.
Qed.
