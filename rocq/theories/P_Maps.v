(** * Properties C123, C124, C125: linear maps, equal curves, edits that commute *)

From Coq Require Import ZArith Reals List Bool Arith Lra Lia.
From Verif Require Import Num Vec MKnots MPoints MCurve RNum Lists Spec Api ApiC ApiL Bridge Samples Coord3 Rev2.
Import ListNotations.
Local Open Scope R_scope.

(** ** C123.  A linear map of the control points, also into another dimension, is
    carried through every sequence of insertions, splits, reversals and derivatives,
    errors included. *)
Theorem C123_linear_map : forall (A : nat -> nat -> R) dim dim' p U P m c, shape dim m P -> built p U P c ->
  exists c1, built p U (linear_points A dim dim' P) c1 /\
    forall es u k, evaluate_edited c1 es u k = mapped (linear A dim dim') (evaluate_edited c es u k).
Proof. exact linear_fact. Qed.
Print Assumptions C123_linear_map.

(** Two curves over the same knots can be added, before or after the edits. *)
Theorem C123_superposition : forall a b p U dim m P Q c d, shape dim m P -> shape dim m Q -> built p U P c -> built p U Q d ->
  exists s, built p U (blend_points a b P Q) s /\
    forall es u k, blended_outcome a b (evaluate_edited c es u k) (evaluate_edited d es u k) (evaluate_edited s es u k).
Proof. exact blend_fact. Qed.
Print Assumptions C123_superposition.

(** a plane curve and its mirror image in the diagonal *)
Example C123_hypotheses : exists c d, shape 2 4 P_a /\ built 2 U_a P_a c /\ built 2 U_a (linear_points (fun e d => if (e =? d)%nat then 0 else 1) 2 2 P_a) d /\
  shape 2 4 (linear_points (fun e d => if (e =? d)%nat then 0 else 1) 2 2 P_a).
Proof.
  destruct curve_a as [c H]. destruct (linear_fact (fun e d => if (e =? d)%nat then 0 else 1) 2 2 2 U_a P_a 4 c P_a_shape (proj2 (proj2 H))) as [d [B _]].
  exists c, d. split; [exact P_a_shape|]. split; [apply H|]. split; [exact B|]. split; [reflexivity|]. split; [reflexivity|].
  intros i Hi. do 4 (destruct i as [|i]; [reflexivity|]). cbn in Hi. lia.
Qed.

(** ** C124.  A curve object is determined by what it shows: the same internal knots and
    the same points on [0, 1] mean the same control points and the same caches. *)
Theorem C124_same_points_same_curve : forall p n n' dim U U' P P' c c', clamped_curve p n dim U P c -> clamped_curve p n' dim U' P' c' ->
  (forall x, 0 < x < 1 -> mult U x = mult U' x /\ (mult U x <= p + 1)%nat) ->
  (forall u, 0 <= u <= 1 -> evaluate c u = evaluate c' u) -> c = c'.
Proof. exact curves_equal. Qed.
Print Assumptions C124_same_points_same_curve.

(** The two parts of a split have exactly the knots of the curve on their side, stretched
    to [0, 1]. *)
Theorem C124_knots_of_the_parts : forall p n dim U P c u, clamped_curve p n dim U P c -> 0 < u < 1 -> (mult U u <= p)%nat -> simple_below U u ->
  exists l r nl nr Ul Pl Ur Pr, split c u = Val (Ok (l, r)) /\ clamped_curve p nl dim Ul Pl l /\ clamped_curve p nr dim Ur Pr r /\
    (forall x, 0 < x < 1 -> mult Ul x = mult U (x * u)) /\ (forall x, 0 < x < 1 -> mult Ur x = mult U (u + x * (1 - u))) /\
    forall t, 0 <= t <= 1 -> evaluate l t = evaluate c (t * u) /\ evaluate r t = evaluate c (u + t * (1 - u)).
Proof. exact split_knots. Qed.
Print Assumptions C124_knots_of_the_parts.

Example C124_hypotheses : exists c, clamped_curve 2 3 2 U_a P_a c /\ (mult U_a (3/4) <= 2)%nat /\ simple_below U_a (3/4) /\ forall x, 0 < x < 1 -> (mult U_a x <= 2 + 1)%nat.
Proof.
  destruct curve_a as [c H]. exists c. split; [exact H|]. split; [|split; [apply simple_a; lra|]].
  - unfold mult, U_a. cbn [count_occ]. repeat destruct Req_EM_T; try lra; lia.
  - intros x Hx. unfold mult, U_a. cbn [count_occ]. repeat destruct Req_EM_T; try lra; lia.
Qed.

(** ** C125.  Reversal commutes with insertion and with splitting: the resulting objects
    are equal, not only the curves. *)
Theorem C125_reverse_and_insert : forall p n dim U P c u, clamped_curve p n dim U P c -> 0 < u < 1 ->
  (mult U u < p)%nat -> (forall x, 0 < x < 1 -> x <> u -> (mult U x <= 1)%nat) ->
  exists c1 r r1, curve_insert c u = Val (c1, Ok tt) /\ reverse c1 = Val r1 /\
    reverse c = Val r /\ curve_insert r (1 - u) = Val (r1, Ok tt).
Proof. exact reverse_insert_fact. Qed.
Print Assumptions C125_reverse_and_insert.

Theorem C125_reverse_and_split : forall p n dim U P c u, clamped_curve p n dim U P c -> 0 < u < 1 ->
  (mult U u <= p)%nat -> (1 <= p)%nat -> (forall x, 0 < x < 1 -> x <> u -> (mult U x <= 1)%nat) ->
  exists l r c' l' r', split c u = Val (Ok (l, r)) /\ reverse l = Val l' /\ reverse r = Val r' /\
    reverse c = Val c' /\ split c' (1 - u) = Val (Ok (r', l')).
Proof. exact reverse_split_fact. Qed.
Print Assumptions C125_reverse_and_split.

(** Inserting a knot and then splitting elsewhere is splitting and then inserting the knot
    into the part it falls in. *)
Theorem C125_insert_and_split : forall p n dim U P c u v, clamped_curve p n dim U P c -> 0 < u < 1 -> 0 < v < 1 -> u <> v ->
  (mult U u <= p)%nat -> mult U v = 0%nat -> (forall x, 0 < x < 1 -> x < u \/ x < v -> (mult U x <= 1)%nat) -> (forall x, 0 < x < 1 -> (mult U x <= p + 1)%nat) ->
  exists c1 l r, curve_insert c v = Val (c1, Ok tt) /\ split c u = Val (Ok (l, r)) /\
    (v < u -> exists l1, curve_insert l (v / u) = Val (l1, Ok tt) /\ split c1 u = Val (Ok (l1, r))) /\
    (u < v -> exists r1, curve_insert r ((v - u) / (1 - u)) = Val (r1, Ok tt) /\ split c1 u = Val (Ok (l, r1))).
Proof. exact insert_split_fact. Qed.
Print Assumptions C125_insert_and_split.

Example C125_hypotheses : exists c, clamped_curve 2 3 2 U_a P_a c /\ (mult U_a (1/2) < 2)%nat /\ mult U_a (1/4) = 0%nat /\
  forall x, 0 < x < 1 -> (mult U_a x <= 1)%nat.
Proof.
  destruct curve_a as [c H]. exists c. split; [exact H|]. split; [rewrite mult_a; lia|]. split; [exact mult_a_4|].
  intros x Hx. unfold mult, U_a. cbn [count_occ]. repeat destruct Req_EM_T; try lra; lia.
Qed.
