(** * Properties C04, C05, C06, C10, C11, C44: geometry of clamped curves *)

From Coq Require Import ZArith Reals List Bool Arith Lra Lia.
From Verif Require Import Num Vec MKnots MPoints MCurve RNum Lists Spec Api Facts1 Samples.
Import ListNotations.
Local Open Scope R_scope.

(** ** C04.  Basis functions are non-negative, locally supported and sum to one. *)
Theorem C04_basis_functions : forall p n U kn u, clamped p n U -> @knots_new RNum p U = Val kn -> 0 <= u <= 1 ->
  exists f, (forall i, (i <= n)%nat -> kevaluate kn 0 i p u = Val (f i)) /\
    (forall i, (i <= n)%nat -> 0 <= f i) /\
    (forall i, (i <= n)%nat -> u < nth i U 0 \/ nth (i + p + 1) U 0 < u -> f i = 0) /\
    rsum f (S n) = 1.
Proof. exact basis_facts. Qed.
Print Assumptions C04_basis_functions.

Example C04_hypotheses : exists kn, clamped 3 6 U_b /\ @knots_new RNum 3 U_b = Val kn.
Proof.
  destruct curve_b as [c [H1 [H2 [kn [H3 H4]]]]]. exists kn. split; assumption.
Qed.

(** ** C05.  A curve point is a convex combination of the [p + 1] active control points. *)
Theorem C05_convex_hull : forall p n dim U P c j u, clamped_curve p n dim U P c -> (p <= j <= n)%nat ->
  nth j U 0 <= u <= nth (S j) U 0 -> (u < nth (S j) U 0 \/ u = 1 \/ (mult U u <= p)%nat) ->
  exists w, (forall i, (i <= p)%nat -> 0 <= w i) /\ rsum w (S p) = 1 /\
    returns (evaluate c u) dim (fun d => rsum (fun i => w i * ent P (j - p + i) d) (S p)).
Proof. exact hull. Qed.
Print Assumptions C05_convex_hull.

(** the closed span to the left of a double knot of a cubic curve *)
Example C05_hypotheses : exists c, clamped_curve 3 6 1 U_b P_b c /\ (3 <= 3 <= 6)%nat /\
  nth 3 U_b 0 <= 1/4 <= nth 4 U_b 0 /\ (mult U_b (1/4) <= 3)%nat.
Proof.
  destruct curve_b as [c H]. exists c. split; [exact H|]. split; [lia|]. split; [simpl; lra|]. rewrite mult_b. lia.
Qed.

(** ** C06.  A clamped curve starts at the first and ends at the last control point. *)
Theorem C06_end_points : forall p n dim U P c, clamped_curve p n dim U P c ->
  returns (evaluate c 0) dim (fun d => ent P 0 d) /\ returns (evaluate c 1) dim (fun d => ent P n d).
Proof. exact endpoints. Qed.
Print Assumptions C06_end_points.

Example C06_hypotheses : exists c, clamped_curve 2 3 2 U_a P_a c.
Proof. exact curve_a. Qed.

(** ** C10.  Local control. *)
Theorem C10_local_control : forall p n dim U P P' c c' i u,
  clamped_curve p n dim U P c -> clamped_curve p n dim U P' c' ->
  (i <= n)%nat -> (forall j d, (j <= n)%nat -> j <> i -> (d < dim)%nat -> ent P j d = ent P' j d) ->
  (u < nth i U 0 \/ nth (i + p + 1) U 0 < u) -> evaluate c u = evaluate c' u.
Proof. exact local_control. Qed.
Print Assumptions C10_local_control.

Example C10_hypotheses : exists P' c c', clamped_curve 2 3 2 U_a P_a c /\ clamped_curve 2 3 2 U_a P' c' /\
  (forall j d, (j <= 3)%nat -> j <> 0%nat -> (d < 2)%nat -> ent P_a j d = ent P' j d) /\
  ent P_a 0 1 <> ent P' 0 1 /\ nth (0 + 2 + 1) U_a 0 < 3/4.
Proof.
  destruct curve_a as [c H]. exists (mkMat 2 [[0; 7]; [1; 2]; [3; 2]; [4; -1]]).
  destruct (clamped_curve_ex 2 3 2 U_a (mkMat 2 [[0; 7]; [1; 2]; [3; 2]; [4; -1]])) as [c' H'].
  { apply U_a_clamped. }
  { split; [reflexivity|]. split; [reflexivity|]. intros i Hi. cases i. }
  exists c, c'. split; [exact H|]. split; [exact H'|]. split.
  - intros j d Hj Hne Hd. do 4 (destruct j as [|j]; [do 2 (destruct d as [|d]; [try reflexivity; congruence|]); lia|]). lia.
  - split; [cbv; lra|simpl; lra].
Qed.

(** ** C11.  Affine invariance. *)
Theorem C11_affine_invariance : forall p n dim dim' U P P' c c' (A : nat -> nat -> R) (b : nat -> R) u,
  clamped_curve p n dim U P c -> clamped_curve p n dim' U P' c' ->
  (forall i d', (i <= n)%nat -> (d' < dim')%nat -> ent P' i d' = rsum (fun d => A d' d * ent P i d) dim + b d') ->
  0 <= u <= 1 ->
  exists v, evaluate c u = Val (Ok v) /\ length v = dim /\
    returns (evaluate c' u) dim' (fun d' => rsum (fun d => A d' d * nth d v 0) dim + b d').
Proof. exact affine_fact. Qed.
Print Assumptions C11_affine_invariance.

(** the projection [x + 2 y + 5] of the plane curve [curve_a] to the line *)
Example C11_hypotheses : exists P' c c' A b, clamped_curve 2 3 2 U_a P_a c /\ clamped_curve 2 3 1 U_a P' c' /\
  (forall i d', (i <= 3)%nat -> (d' < 1)%nat -> ent P' i d' = rsum (fun d => A d' d * ent P_a i d) 2 + b d') /\ A 0%nat 1%nat <> 0.
Proof.
  destruct curve_a as [c H].
  destruct (clamped_curve_ex 2 3 1 U_a (mkMat 1 [[5]; [10]; [12]; [7]])) as [c' H'].
  { apply U_a_clamped. }
  { split; [reflexivity|]. split; [reflexivity|]. intros i Hi. cases i. }
  exists (mkMat 1 [[5]; [10]; [12]; [7]]), c, c', (fun _ d => match d with O => 1 | _ => 2 end), (fun _ => 5).
  split; [exact H|]. split; [exact H'|]. split.
  - intros i d Hi Hd. destruct d as [|d]; [|lia]. do 4 (destruct i as [|i]; [cbv [ent nth mcols P_a rsum]; change (T RNum) with R; lra|]). lia.
  - lra.
Qed.

(** ** C44.  Between two knots the curve is a polynomial of degree at most [p]. *)
Theorem C44_piecewise_polynomial : forall p n dim U P c j d, clamped_curve p n dim U P c -> (p <= j <= n)%nat -> (d < dim)%nat ->
  nth j U 0 < nth (S j) U 0 ->
  exists a, length a = S p /\ forall u, nth j U 0 <= u -> u < nth (S j) U 0 \/ j = n /\ u = 1 ->
    exists x, evaluate c u = Val (Ok x) /\ nth_error x d = Some (peval a u).
Proof. exact piecewise_fact. Qed.
Print Assumptions C44_piecewise_polynomial.

Example C44_hypotheses : exists c, clamped_curve 2 3 2 U_a P_a c /\ nth 3 U_a 0 < nth 4 U_a 0.
Proof. destruct curve_a as [c H]. exists c. split; [exact H|simpl; lra]. Qed.
