(** * Properties C138, C139: how well the curve determines its control points *)

From Coq Require Import Reals List Arith Lra Lia.
From Verif Require Import Num Vec MKnots MPoints MCurve RNum Lists Spec Api Bridge Facts1 Samples Fit3 Shape3 Cond.
Import ListNotations.
Local Open Scope R_scope.

(** ** C138.  The B-spline representation is well conditioned, uniformly in the knots:
    for each degree there is one constant such that, over any clamped knots, curves that
    differ by at most [e] on the support of control point [i] have control points [i]
    that differ by at most that constant times [e]. *)
Theorem C138_condition : forall p, exists K, 1 <= K /\ forall n dim U P c P' c' i d e,
  clamped_curve p n dim U P c -> clamped_curve p n dim U P' c' ->
  (i <= n)%nat -> (d < dim)%nat -> nth i U 0 < nth (i + p + 1) U 0 ->
  (forall u f g, nth i U 0 <= u <= nth (i + p + 1) U 0 -> returns (evaluate c u) dim f -> returns (evaluate c' u) dim g -> Rabs (f d - g d) <= e) ->
  Rabs (ent P i d - ent P' i d) <= K * e.
Proof. exact close_points. Qed.
Print Assumptions C138_condition.

(** Hence curves over the same knots that are close have close derivatives: the
    derivatives of order [k] differ by at most a constant that depends on [p] and [k]
    only, times [e / h^k], where [p + 1 - k] successive knot spans span at least [h]. *)
Theorem C138_derivatives : forall p k, (k <= p)%nat -> exists K, 1 <= K /\ forall n dim U P c P' c' d e h,
  clamped_curve p n dim U P c -> clamped_curve p n dim U P' c' -> (d < dim)%nat -> 0 < h ->
  (forall i, (i + k <= n)%nat -> h <= nth (i + p + 1) U 0 - nth (i + k) U 0) ->
  (forall u f g, 0 <= u <= 1 -> returns (evaluate c u) dim f -> returns (evaluate c' u) dim g -> Rabs (f d - g d) <= e) ->
  forall u f g, 0 <= u <= 1 -> returns (evaluate_derivative c u k) dim f -> returns (evaluate_derivative c' u k) dim g ->
    Rabs (f d - g d) <= K * e / h ^ k.
Proof. exact close_derivatives. Qed.
Print Assumptions C138_derivatives.

(** ** C139.  If the [p + 2] knots of a control point coincide, it has no influence; by
    C69 and C138 this is the only way a curve fails to determine its control points. *)
Theorem C139_idle_point : forall p n dim U P P' c c' i,
  clamped_curve p n dim U P c -> clamped_curve p n dim U P' c' -> (i <= n)%nat -> nth i U 0 = nth (i + p + 1) U 0 ->
  (forall j d, (j <= n)%nat -> (d < dim)%nat -> j <> i -> ent P j d = ent P' j d) ->
  forall u, 0 <= u <= 1 -> evaluate c u = evaluate c' u.
Proof. exact idle_point. Qed.
Print Assumptions C139_idle_point.

(** the cubic sample and the same moved by 1: all supports have positive length, and
    three successive spans at least 1/8; the curves are within 1 *)
Example C138_hypotheses : exists c P' c', clamped_curve 3 6 1 U_b P_b c /\ clamped_curve 3 6 1 U_b P' c' /\ ent P_b 0 0 <> ent P' 0 0 /\
  (forall i, (i <= 6)%nat -> nth i U_b 0 < nth (i + 3 + 1) U_b 0) /\ (forall i, (i + 1 <= 6)%nat -> 1/8 <= nth (i + 3 + 1) U_b 0 - nth (i + 1) U_b 0) /\
  (forall u f g, 0 <= u <= 1 -> returns (evaluate c u) 1 f -> returns (evaluate c' u) 1 g -> Rabs (f 0%nat - g 0%nat) <= 1).
Proof.
  destruct curve_b as [c H]. set (P' := mat_of 1 7 (fun d i => ent P_b i d + 1)). assert (EP : forall i, (i <= 6)%nat -> ent P' i 0 = ent P_b i 0 + 1) by (intros i Hi; unfold P'; rewrite ent_mat_of by lia; reflexivity).
  destruct (clamped_curve_ex 3 6 1 U_b P' U_b_clamped (mat_of_shape _ _ _)) as [c' H']. exists c, P', c'. split; [exact H|]. split; [exact H'|]. split; [rewrite EP by lia; lra|].
  split; [intros i Hi; unfold U_b; do 7 (destruct i as [|i]; [cbn; lra|]); lia|].
  split; [intros i Hi; unfold U_b; do 6 (destruct i as [|i]; [cbn; lra|]); lia|].
  intros u f g Hu [x [X1 [X2 X3]]] [y [Y1 [Y2 Y3]]].
  assert (T := point_stability 3 6 1 U_b P_b P' c c' 1 H H'). rewrite <- X3, <- Y3 by lia.
  specialize (T ltac:(intros i Hi; cbn [rsum]; rewrite EP by exact Hi; replace (0 + (ent P_b i 0 + 1 - ent P_b i 0) ^ 2) with (1 * 1) by ring; rewrite sqrt_square; lra) u x y Hu X1 Y1).
  cbn [rsum] in T. rewrite Rplus_0_l in T. rewrite Rabs_minus_sym, <- sqrt_Rsqr_abs. eapply Rle_trans; [|exact T]. right. f_equal. unfold Rsqr. rn. ring.
Qed.

(** degree 0 with the knots 0 1/2 1/2 1: the middle point does not matter *)
Example C139_hypotheses : exists U P P' c c', clamped_curve 0 2 1 U P c /\ clamped_curve 0 2 1 U P' c' /\ nth 1 U 0 = nth (1 + 0 + 1) U 0 /\
  ent P 1 0 <> ent P' 1 0 /\ forall j d, (j <= 2)%nat -> (d < 1)%nat -> j <> 1%nat -> ent P j d = ent P' j d.
Proof.
  set (U := [0; 1/2; 1/2; 1]). assert (CU : clamped 0 2 U).
  { split; unfold U.
    - lia.
    - reflexivity.
    - intros i j Hij Hj. simpl in Hj. do 4 (destruct i as [|i]; [do 4 (destruct j as [|j]; [simpl; first [lra|lia]|]); lia|]). lia.
    - intros i Hi. destruct i; [reflexivity|lia].
    - intros i Hi Hj. simpl in Hj. replace i with 3%nat by lia. reflexivity.
    - intros i H1 H2. destruct i as [|[|[|i]]]; [lia|cbn; lra|cbn; lra|lia]. }
  set (P := mkMat (K := RNum) 1 [[1]; [2]; [3]]). set (P' := mkMat (K := RNum) 1 [[1]; [7]; [3]]).
  assert (SP : shape 1 3 P) by (split; [reflexivity|split; [reflexivity|intros i Hi; do 3 (destruct i as [|i]; [reflexivity|]); lia]]).
  assert (SP' : shape 1 3 P') by (split; [reflexivity|split; [reflexivity|intros i Hi; do 3 (destruct i as [|i]; [reflexivity|]); lia]]).
  destruct (clamped_curve_ex 0 2 1 U P CU SP) as [c H]. destruct (clamped_curve_ex 0 2 1 U P' CU SP') as [c' H']. exists U, P, P', c, c'.
  split; [exact H|]. split; [exact H'|]. split; [reflexivity|]. split; [unfold ent, P, P'; cbn; lra|].
  intros j d Hj Hd Hn. replace d with 0%nat by lia. destruct j as [|[|[|j]]]; [reflexivity|lia|reflexivity|lia].
Qed.
