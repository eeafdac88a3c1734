(** * Properties C66 - C70: the shape of a curve follows its control polygon *)

From Coq Require Import ZArith Reals List Bool Arith Lra Lia.
From Verif Require Import Num Vec MKnots MPoints MCurve RNum Lists Spec Api Bridge Facts1 Samples Shape2.
Import ListNotations.
Local Open Scope R_scope.

(** ** C66.  Variation diminishing: where the curve changes from one side of a
    hyperplane [w x + b = 0] to the other and back, its control polygon does, too:
    for alternating signs at [k + 1] increasing parameters there are [k + 1] control
    points, in order, with the same signs. *)
Theorem C66_variation_diminishing : forall p n dim U P c, clamped_curve p n dim U P c -> forall (w : nat -> R) b k (u v : nat -> R),
  (forall j, (j <= k)%nat -> 0 <= u j <= 1) -> (forall j, (j < k)%nat -> u j < u (S j)) ->
  (forall j, (j <= k)%nat -> exists x, evaluate c (u j) = Val (Ok x) /\ v j = rsum (fun d => w d * nth d x 0) dim + b /\ v j <> 0) ->
  (forall j, (j < k)%nat -> v j * v (S j) < 0) ->
  exists i, (forall j, (j < k)%nat -> (i j < i (S j))%nat) /\
    forall j, (j <= k)%nat -> (i j <= n)%nat /\ 0 < v j * (rsum (fun d => w d * ent P (i j) d) dim + b).
Proof. exact variation. Qed.
Print Assumptions C66_variation_diminishing.

(** the height of the quadratic over 1/2: below, above, below *)
Example C66_hypotheses : exists c w b u v, clamped_curve 2 3 2 U_a P_a c /\
  (forall j, (j <= 2)%nat -> 0 <= u j <= 1) /\ (forall j, (j < 2)%nat -> u j < u (S j)) /\
  (forall j, (j <= 2)%nat -> exists x, evaluate c (u j) = Val (Ok x) /\ v j = rsum (fun d => w d * nth d x 0) 2 + b /\ v j <> 0) /\
  (forall j, (j < 2)%nat -> v j * v (S j) < 0).
Proof.
  destruct curve_a as [c H].
  exists c, (fun d => if (d =? 1)%nat then 1 else 0), (-1/2), (fun j => INR j / 2), (fun j => match j with 0%nat => -1/2 | 1%nat => 3/2 | _ => -3/2 end).
  split; [exact H|]. split; [|split; [|split]].
  - intros j Hj. destruct j as [|[|[|j]]]; [cbn; lra|cbn; lra|cbn; lra|lia].
  - intros j Hj. rewrite S_INR. lra.
  - destruct (endpoints _ _ _ _ _ _ H) as [[x [X1 [X2 X3]]] [y [Y1 [Y2 Y3]]]]. assert (M := half_a c H).
    intros j Hj. destruct j as [|[|[|j]]]; [| | |lia].
    + exists x. replace (INR 0 / 2) with 0 by (cbn; lra). split; [exact X1|]. cbn [rsum Nat.eqb]. rewrite !X3 by lia. unfold ent, P_a. cbn. split; lra.
    + exists [2; 2]. replace (INR 1 / 2) with (1/2) by (cbn; lra). split; [exact M|]. cbn. split; lra.
    + exists y. replace (INR 2 / 2) with 1 by (cbn; lra). split; [exact Y1|]. cbn [rsum Nat.eqb]. rewrite !Y3 by lia. unfold ent, P_a. cbn. split; lra.
  - intros j Hj. destruct j as [|[|j]]; [lra|lra|lia].
Qed.

(** ** C67.  If the control points advance in some direction, so does the curve. *)
Theorem C67_monotone : forall p n dim U P c, clamped_curve p n dim U P c -> forall w : nat -> R,
  (forall i, (i < n)%nat -> rsum (fun d => w d * ent P i d) dim <= rsum (fun d => w d * ent P (S i) d) dim) ->
  forall u v x y, 0 <= u -> u <= v -> v <= 1 -> evaluate c u = Val (Ok x) -> evaluate c v = Val (Ok y) ->
  rsum (fun d => w d * nth d x 0) dim <= rsum (fun d => w d * nth d y 0) dim.
Proof. exact monotone_curve. Qed.
Print Assumptions C67_monotone.

(** the quadratic goes to the right *)
Example C67_hypotheses : exists c w, clamped_curve 2 3 2 U_a P_a c /\
  forall i, (i < 3)%nat -> rsum (fun d => w d * ent P_a i d) 2 < rsum (fun d => w d * ent P_a (S i) d) 2.
Proof.
  destruct curve_a as [c H]. exists c, (fun d => if (d =? 0)%nat then 1 else 0). split; [exact H|].
  intros i Hi. unfold ent, P_a. destruct i as [|[|[|i]]]; [cbn; lra|cbn; lra|cbn; lra|lia].
Qed.

(** ** C68.  A curve is not longer than its control polygon: no chain of chords is. *)
Theorem C68_length : forall p n dim U P c, clamped_curve p n dim U P c -> forall m (u : nat -> R) (x : nat -> list R),
  (forall j, (j <= m)%nat -> 0 <= u j <= 1 /\ evaluate c (u j) = Val (Ok (x j))) -> (forall j, (j < m)%nat -> u j <= u (S j)) ->
  rsum (fun j => sqrt (rsum (fun d => (nth d (x (S j)) 0 - nth d (x j) 0) ^ 2) dim)) m <= rsum (fun i => distance P dim (S i) i) n.
Proof. exact polygon_length. Qed.
Print Assumptions C68_length.

(** three points on the quadratic *)
Example C68_hypotheses : exists c u x, clamped_curve 2 3 2 U_a P_a c /\
  (forall j, (j <= 2)%nat -> 0 <= u j <= 1 /\ evaluate c (u j) = Val (Ok (x j))) /\ (forall j, (j < 2)%nat -> u j <= u (S j)).
Proof.
  destruct curve_a as [c H]. destruct (endpoints _ _ _ _ _ _ H) as [[x [X1 _]] [y [Y1 _]]]. assert (M := half_a c H).
  exists c, (fun j => INR j / 2), (fun j => match j with 0%nat => x | 1%nat => [2; 2] | _ => y end). split; [exact H|]. split.
  - intros j Hj. destruct j as [|[|[|j]]]; [| | |lia].
    + replace (INR 0 / 2) with 0 by (cbn; lra). split; [lra|exact X1].
    + replace (INR 1 / 2) with (1/2) by (cbn; lra). split; [lra|exact M].
    + replace (INR 2 / 2) with 1 by (cbn; lra). split; [lra|exact Y1].
  - intros j Hj. rewrite S_INR. lra.
Qed.

(** ** C69.  Two curves with the same knots that agree at every parameter have the
    same control points, unless some knot occurs [p + 2] times in a row. *)
Theorem C69_points_unique : forall p n dim U P P' c c', clamped_curve p n dim U P c -> clamped_curve p n dim U P' c' ->
  (forall i, (i <= n)%nat -> nth i U 0 < nth (i + p + 1) U 0) ->
  (forall u, 0 <= u <= 1 -> evaluate c u = evaluate c' u) -> forall i d, (i <= n)%nat -> (d < dim)%nat -> ent P i d = ent P' i d.
Proof. exact points_unique. Qed.
Print Assumptions C69_points_unique.

Example C69_hypotheses : exists c, clamped_curve 3 6 1 U_b P_b c /\ forall i, (i <= 6)%nat -> nth i U_b 0 < nth (i + 3 + 1) U_b 0.
Proof. destruct curve_b as [c H]. exists c. split; [exact H|]. intros i Hi. unfold U_b. do 7 (destruct i as [|i]; [cbn; lra|]). lia. Qed.

(** ** C70.  Linear precision: control points on a line at the averages of [p]
    successive knots give that line, traversed at constant speed. *)
Theorem C70_linear_precision : forall p n dim U P c (a b : nat -> R), (1 <= p)%nat -> clamped_curve p n dim U P c ->
  (forall i d, (i <= n)%nat -> (d < dim)%nat -> ent P i d = a d + b d * (rsum (fun k => nth (i + 1 + k) U 0) p / INR p)) ->
  forall u, 0 <= u <= 1 -> returns (evaluate c u) dim (fun d => a d + b d * u).
Proof. exact greville. Qed.
Print Assumptions C70_linear_precision.

Example C70_hypotheses : exists c, clamped_curve 2 3 1 U_a (@mkMat RNum 1 [[3]; [7/2]; [9/2]; [5]]) c /\
  forall i d, (i <= 3)%nat -> (d < 1)%nat -> ent (@mkMat RNum 1 [[3]; [7/2]; [9/2]; [5]]) i d = 3 + 2 * (rsum (fun k => nth (i + 1 + k) U_a 0) 2 / INR 2).
Proof.
  destruct (clamped_curve_ex 2 3 1 U_a (@mkMat RNum 1 [[3]; [7/2]; [9/2]; [5]])) as [c H].
  - exact U_a_clamped.
  - split; [reflexivity|]. split; [reflexivity|]. intros i Hi. do 4 (destruct i as [|i]; [reflexivity|]). lia.
  - exists c. split; [exact H|]. intros i d Hi Hd. destruct d; [|lia]. unfold ent, U_a. destruct i as [|[|[|[|i]]]]; [cbn; lra|cbn; lra|cbn; lra|cbn; lra|lia].
Qed.
