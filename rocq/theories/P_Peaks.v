(** * Properties C166 and C167: ups and downs, turns and inflections *)

From Coq Require Import ZArith Reals List Bool Arith Lra Lia.
From Verif Require Import Num Vec MKnots MPoints MCurve RNum Lists Spec Api Bridge Facts1 Samples Shape2 Shape3 Peaks.
Import ListNotations.
Local Open Scope R_scope.

(** ** C166.  A curve has no more ups and downs than its control polygon, and smaller ones.
    [s j] is 1 at a peak and -1 at a valley, [v j] the height of the curve in the direction
    [w] there; there are control points, in the same order, at least as high at every
    peak and at least as low at every valley. *)
Theorem C166_peaks : forall p n dim U P c, clamped_curve p n dim U P c -> forall (w : nat -> R) m (u s v : nat -> R),
  (forall j, (j <= m)%nat -> 0 <= u j <= 1) -> (forall j, (j < m)%nat -> u j < u (S j)) ->
  (forall j, (j <= m)%nat -> exists x, evaluate c (u j) = Val (Ok x) /\ v j = rsum (fun d => w d * nth d x 0) dim) ->
  (forall j, (j < m)%nat -> s (S j) = - s j /\ 0 < s j * (v j - v (S j))) ->
  exists i, (forall j, (j < m)%nat -> (i j < i (S j))%nat) /\
    forall j, (j <= m)%nat -> (i j <= n)%nat /\ 0 <= s j * (rsum (fun d => w d * ent P (i j) d) dim - v j).
Proof. exact peaks0. Qed.
Print Assumptions C166_peaks.

(** the same for every derivative and the divided differences of the control points *)
Theorem C166_derivative_peaks : forall p n dim U P c k, clamped_curve p n dim U P c -> (k <= p)%nat -> forall (w : nat -> R) m (u s v : nat -> R),
  (forall j, (j <= m)%nat -> 0 <= u j <= 1) -> (forall j, (j < m)%nat -> u j < u (S j)) ->
  (forall j, (j <= m)%nat -> exists x, evaluate_derivative c (u j) k = Val (Ok x) /\ v j = rsum (fun d => w d * nth d x 0) dim) ->
  (forall j, (j < m)%nat -> s (S j) = - s j /\ 0 < s j * (v j - v (S j))) ->
  exists i, (forall j, (j < m)%nat -> (i j < i (S j))%nat) /\
    forall j, (j <= m)%nat -> (i j <= n - k)%nat /\ 0 <= s j * (rsum (fun d => w d * dpoints (kfun U) p (fun i => ent P i d) k (i j)) dim - v j).
Proof. exact peaks. Qed.
Print Assumptions C166_derivative_peaks.

(** the path of a derivative is not longer than the polygon of its divided differences *)
Theorem C166_derivative_length : forall p n dim U P c k, clamped_curve p n dim U P c -> (k <= p)%nat -> forall m (u : nat -> R) (x : nat -> list R),
  (forall j, (j <= m)%nat -> 0 <= u j <= 1 /\ evaluate_derivative c (u j) k = Val (Ok (x j))) -> (forall j, (j < m)%nat -> u j < u (S j)) ->
  rsum (fun j => sqrt (rsum (fun d => (nth d (x (S j)) 0 - nth d (x j) 0) ^ 2) dim)) m <=
  rsum (fun i => sqrt (rsum (fun d => (dpoints (kfun U) p (fun i => ent P i d) k (S i) - dpoints (kfun U) p (fun i => ent P i d) k i) ^ 2) dim)) (n - k).
Proof. exact derivative_length. Qed.
Print Assumptions C166_derivative_length.

(** the height of the quadratic: low, high, low *)
Example C166_hypotheses : exists c w u s v, clamped_curve 2 3 2 U_a P_a c /\
  (forall j, (j <= 2)%nat -> 0 <= u j <= 1) /\ (forall j, (j < 2)%nat -> u j < u (S j)) /\
  (forall j, (j <= 2)%nat -> exists x, evaluate c (u j) = Val (Ok x) /\ v j = rsum (fun d => w d * nth d x 0) 2) /\
  (forall j, (j < 2)%nat -> s (S j) = - s j /\ 0 < s j * (v j - v (S j))).
Proof.
  destruct curve_a as [c H].
  exists c, (fun d => if (d =? 1)%nat then 1 else 0), (fun j => INR j / 2), (fun j => if (j =? 1)%nat then 1 else -1), (fun j => match j with 0%nat => 0 | 1%nat => 2 | _ => -1 end).
  split; [exact H|]. split; [|split; [|split]].
  - intros j Hj. destruct j as [|[|[|j]]]; [cbn; lra|cbn; lra|cbn; lra|lia].
  - intros j Hj. rewrite S_INR. lra.
  - destruct (endpoints _ _ _ _ _ _ H) as [[x [X1 [X2 X3]]] [y [Y1 [Y2 Y3]]]]. assert (M := half_a c H).
    intros j Hj. destruct j as [|[|[|j]]]; [| | |lia].
    + exists x. replace (INR 0 / 2) with 0 by (cbn; lra). split; [exact X1|]. cbn [rsum Nat.eqb]. rewrite !X3 by lia. unfold ent, P_a. cbn. lra.
    + exists [2; 2]. replace (INR 1 / 2) with (1/2) by (cbn; lra). split; [exact M|]. cbn. lra.
    + exists y. replace (INR 2 / 2) with 1 by (cbn; lra). split; [exact Y1|]. cbn [rsum Nat.eqb]. rewrite !Y3 by lia. unfold ent, P_a. cbn. lra.
  - intros j Hj. destruct j as [|[|j]]; [cbn; lra|cbn; lra|lia].
Qed.

(** ** C167.  Where a derivative changes its sign in some direction and changes it back, the
    divided differences of the control points do, too: with the first derivative these are
    the turns, with the second the inflections. *)
Theorem C167_derivative_variation : forall p n dim U P c k, clamped_curve p n dim U P c -> (k <= p)%nat -> forall (w : nat -> R) b m (u v : nat -> R),
  (forall j, (j <= m)%nat -> 0 <= u j <= 1) -> (forall j, (j < m)%nat -> u j < u (S j)) ->
  (forall j, (j <= m)%nat -> exists x, evaluate_derivative c (u j) k = Val (Ok x) /\ v j = rsum (fun d => w d * nth d x 0) dim + b /\ v j <> 0) ->
  (forall j, (j < m)%nat -> v j * v (S j) < 0) ->
  exists i, (forall j, (j < m)%nat -> (i j < i (S j))%nat) /\
    forall j, (j <= m)%nat -> (i j <= n - k)%nat /\ 0 < v j * (rsum (fun d => w d * dpoints (kfun U) p (fun i => ent P i d) k (i j)) dim + b).
Proof. exact derivative_variation. Qed.
Print Assumptions C167_derivative_variation.

(** with the first derivative: the legs of the control polygon turn as often *)
Theorem C167_turns : forall p n dim U P c, clamped_curve p n dim U P c -> (1 <= p)%nat -> forall (w : nat -> R) m (u v : nat -> R),
  (forall j, (j <= m)%nat -> 0 <= u j <= 1) -> (forall j, (j < m)%nat -> u j < u (S j)) ->
  (forall j, (j <= m)%nat -> exists x, evaluate_derivative c (u j) 1 = Val (Ok x) /\ v j = rsum (fun d => w d * nth d x 0) dim /\ v j <> 0) ->
  (forall j, (j < m)%nat -> v j * v (S j) < 0) ->
  exists i, (forall j, (j < m)%nat -> (i j < i (S j))%nat) /\
    forall j, (j <= m)%nat -> (i j < n)%nat /\ 0 < v j * (rsum (fun d => w d * (ent P (S (i j)) d - ent P (i j) d)) dim).
Proof. exact turns. Qed.
Print Assumptions C167_turns.

(** the quadratic starts upwards and ends downwards *)
Example C167_hypotheses : exists c w u v, clamped_curve 2 3 2 U_a P_a c /\ (1 <= 2)%nat /\
  (forall j, (j <= 1)%nat -> 0 <= u j <= 1) /\ (forall j, (j < 1)%nat -> u j < u (S j)) /\
  (forall j, (j <= 1)%nat -> exists x, evaluate_derivative c (u j) 1 = Val (Ok x) /\ v j = rsum (fun d => w d * nth d x 0) 2 /\ v j <> 0) /\
  (forall j, (j < 1)%nat -> v j * v (S j) < 0).
Proof.
  destruct curve_a as [c H]. destruct (end_tangents 2 3 2 U_a P_a c H ltac:(lia)) as [[x [X1 [X2 X3]]] [y [Y1 [Y2 Y3]]]].
  exists c, (fun d => if (d =? 1)%nat then 1 else 0), INR, (fun j => if (j =? 0)%nat then 8 else -12).
  split; [exact H|]. split; [lia|]. split; [|split; [|split]].
  - intros j Hj. destruct j as [|[|j]]; [cbn; lra|cbn; lra|lia].
  - intros j Hj. rewrite S_INR. lra.
  - intros j Hj. destruct j as [|[|j]]; [| |lia].
    + exists x. split; [exact X1|]. cbn [rsum Nat.eqb]. rewrite !X3 by lia. unfold ent, P_a, U_a. cbn. split; lra.
    + exists y. split; [exact Y1|]. cbn [rsum Nat.eqb]. rewrite !Y3 by lia. unfold ent, P_a, U_a. cbn. split; lra.
  - intros j Hj. destruct j as [|j]; [cbn; lra|lia].
Qed.
