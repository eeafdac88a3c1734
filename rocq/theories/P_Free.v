(** * Properties C40, C45, C47 in general, and C144: sizes that do not fit, and knots that are not clamped *)

From Coq Require Import ZArith Reals List Bool Arith Lra Lia.
From Verif Require Import Num Vec MKnots MPoints MCurve MFit MMerge RNum F64 Lists Struct Spec Api Bridge Samples Fit3 Fit7 Merge10 Merge11 Merge13 Merge17 Unclamped Sizes.
Import ListNotations.
Local Open Scope R_scope.

(** ** C40.  With [n + 1] control points, Curve::new panics for up to [n + p] knots and
    accepts any larger number; with one knot less than needed, [n + p + 1], every
    evaluation in [[0, 1]] panics. *)
Theorem C40_size_cases : forall K : Num, (forall x y z : K, (x ==? y)%num = false -> exists w, ndiv z (x - y)%num = Val w) ->
  forall p n dim (U : list K) (P : Mat K), shape dim (S n) P -> (1 <= p <= n)%nat -> (2 * p <= length U)%nat ->
  exists kn, knots_new p U = Val kn /\
    ((length U <= n + p)%nat -> curve_new kn (cp_new P) = Panic) /\
    ((n + p < length U)%nat -> exists c, curve_new kn (cp_new P) = Val (Ok c) /\
       (length U = (n + p + 1)%nat -> (p < n)%nat -> forall u, (n0 <=? u)%num = true -> (u <=? n1)%num = true -> evaluate c u = Panic)).
Proof. exact size_cases. Qed.
Print Assumptions C40_size_cases.

(** With too few control points the missing ones count as the origin: the curve ends
    there. *)
Theorem C40_missing_points : forall p n m dim (U : list R) P P' c c', clamped_curve p m dim U P' c' -> (p <= n < m)%nat -> shape dim (S n) P -> built p U P c ->
  (forall i d, (i <= n)%nat -> (d < dim)%nat -> ent P' i d = ent P i d) -> (forall i d, (n < i <= m)%nat -> (d < dim)%nat -> ent P' i d = 0) ->
  (forall u, 0 <= u <= 1 -> evaluate c u = evaluate c' u) /\ returns (evaluate c 1) dim (fun _ => 0).
Proof. exact too_few. Qed.
Print Assumptions C40_missing_points.

Definition U_7 : list R := [0; 0; 0; 1/4; 1/2; 1; 1; 1].
Definition P_5 : Mat RNum := mkMat 2 [[0; 0]; [1; 2]; [3; 2]; [4; -1]; [0; 0]].
Example C40_hypotheses : exists c c', clamped_curve 2 4 2 U_7 P_5 c' /\ (2 <= 3 < 4)%nat /\ shape 2 4 P_a /\ built 2 U_7 P_a c /\
  (forall i d, (i <= 3)%nat -> (d < 2)%nat -> ent P_5 i d = ent P_a i d) /\ (forall i d, (3 < i <= 4)%nat -> (d < 2)%nat -> ent P_5 i d = 0).
Proof.
  destruct (clamped_curve_ex 2 4 2 U_7 P_5) as [c' H'].
  - split; try (simpl; lia); try reflexivity.
    + apply sorted_steps. intros i Hi. simpl in Hi. unfold U_7. cases i.
    + intros i Hi. unfold U_7. cases i.
    + intros i H1 H2. simpl in H2. unfold U_7. cases i.
    + intros i H1 H2. unfold U_7. cases i.
  - split; [reflexivity|]. split; [reflexivity|]. intros i Hi. cases i.
  - assert (T := size_cases RNum (fun x y z E => ltac:(destruct (Hoare.ok_val_ex _ _ (gdiv_R x y z E)) as [w [Ew _]]; exists w; exact Ew)) 2 3 2 U_7 P_a P_a_shape ltac:(lia) ltac:(simpl; lia)).
    destruct T as [kn [E1 [_ T]]]. destruct (T ltac:(simpl; lia)) as [c [E2 _]]. exists c, c'. split; [exact H'|]. split; [lia|]. split; [exact P_a_shape|].
    split; [exists kn; split; assumption|]. split.
    + intros i d Hi Hd. do 4 (destruct i as [|i]; [do 2 (destruct d as [|d]; [reflexivity|]); lia|]). lia.
    + intros i d Hi Hd. replace i with 4%nat by lia. do 2 (destruct d as [|d]; [reflexivity|]). lia.
Qed.

(** ** C45.  Whatever the knots: if the domain does not end in a knot of multiplicity
    [p + 1 - k], the derivative of order [k] jumps there to twice its limit from the left.
    (For [k = 0] this is the value.) *)
Theorem C45_doubled_refuted : forall p n dim (U : list R) P c k, @sized RNum p n dim U P -> sorted U -> built p U P c -> (k < p)%nat ->
  nth n U 0 < nth (n + 1) U 0 -> nth (n + 1) U 0 < nth (n + p + 1 - k) U 0 -> 0 < nth (n + 1) U 0 <= 1 ->
  exists y, returns (evaluate_derivative c (nth (n + 1) U 0) k) dim (fun d => 2 * y d) /\
    forall eps, 0 < eps -> exists dl, 0 < dl /\ forall v, 0 <= v -> nth (n + 1) U 0 - dl < v < nth (n + 1) U 0 ->
      exists x, evaluate_derivative c v k = Val (Ok x) /\ length x = dim /\ forall d, (d < dim)%nat -> Rabs (nth d x 0 - y d) < eps.
Proof. exact doubled. Qed.
Print Assumptions C45_doubled_refuted.

(** uniform knots [-1/2, -1/4, 0, 1/4, ..., 3/2] of a quadratic curve *)
Definition U_u : list R := [-1/2; -1/4; 0; 1/4; 1/2; 3/4; 1; 5/4; 3/2].
Definition P_u : Mat RNum := mkMat 1 [[1]; [1]; [2]; [0]; [5]; [3]].
Lemma U_u_sorted : sorted U_u.
Proof. apply sorted_steps. intros i Hi. simpl in Hi. unfold U_u. cases i. Qed.
Lemma U_u_sized : @sized RNum 2 5 1 U_u P_u.
Proof. split; [lia|]. split; [reflexivity|]. split; [reflexivity|]. split; [reflexivity|]. intros i Hi. cases i. Qed.
Example C45_hypotheses : exists c, @sized RNum 2 5 1 U_u P_u /\ sorted U_u /\ built 2 U_u P_u c /\
  nth 5 U_u 0 < nth (5 + 1) U_u 0 /\ nth (5 + 1) U_u 0 < nth (5 + 2 + 1 - 1) U_u 0 /\ 0 < nth (5 + 1) U_u 0 <= 1.
Proof.
  destruct (built_ex 2 5 1 U_u P_u) as [c Hc]; [lia|reflexivity|apply U_u_sized|]. exists c. split; [exact U_u_sized|]. split; [exact U_u_sorted|]. split; [exact Hc|].
  unfold U_u. cbn. lra.
Qed.

(** ** C47.  For degree 2, whatever the curves and parameters: [prepend_constrained]
    holds the other curve at the parameters given for the curve itself, and the curve
    itself at those given for the other one. *)
Theorem C47_holds_the_other_refuted : forall svd m dim V P s W Q o ps po,
  clamped_curve 2 m dim V P s -> clamped_curve 2 m dim W Q o -> good_solver svd -> (length ps + length po < 2)%nat ->
  (forall u, In u ps -> 0 <= u <= 1) -> (forall u, In u po -> 0 <= u <= 1) ->
  exists c, prepend_constrained svd s ps o po = Val c /\
    (forall u, In u ps -> agree dim 0 c (u / 2) o u) /\ (forall u, In u po -> agree dim 0 c ((1 + u) / 2) s u).
Proof. exact prepend_holds. Qed.
Print Assumptions C47_holds_the_other_refuted.

Example C47_hypotheses : exists svd s, good_solver svd /\ clamped_curve 2 3 2 U_a P_a s /\ (@length R [(1/2)%R] + @length R [] < 2)%nat.
Proof. exists some_solver. destruct curve_a as [s H]. exists s. split; [exact some_solver_good|]. split; [exact H|]. simpl. lia. Qed.

(** ** C144.  Sorted knots that are not clamped.  On the domain [[U[p], U[n+1])] a point
    of the curve is a convex combination of the [p + 1] active control points. *)
Theorem C144_convex_hull : forall p n dim (U : list R) P c u, @sized RNum p n dim U P -> sorted U -> built p U P c -> 0 <= u <= 1 ->
  nth p U 0 <= u < nth (n + 1) U 0 ->
  exists j w, (p <= j <= n)%nat /\ nth j U 0 <= u < nth (S j) U 0 /\ (forall i, (i <= p)%nat -> 0 <= w i) /\ rsum w (S p) = 1 /\
    returns (evaluate c u) dim (fun d => rsum (fun i => w i * ent P (j - p + i) d) (S p)).
Proof. exact free_hull. Qed.
Print Assumptions C144_convex_hull.

(** Anywhere else in [[0, 1]], except at the end of the domain, the weights are not
    negative and their sum is at most one. *)
Theorem C144_weights : forall p n dim (U : list R) P c u, @sized RNum p n dim U P -> sorted U -> built p U P c -> 0 <= u <= 1 ->
  u <> nth (n + 1) U 0 ->
  exists w, (forall i, (i <= n)%nat -> 0 <= w i) /\ rsum w (S n) <= 1 /\
    returns (evaluate c u) dim (fun d => rsum (fun i => w i * ent P i d) (S n)).
Proof. exact free_weights. Qed.
Print Assumptions C144_weights.

(** On the domain, evaluate_derivative(u, k+1) is the derivative of evaluate_derivative(u, k). *)
Theorem C144_derivative : forall p n dim (U : list R) P c k u d, @sized RNum p n dim U P -> sorted U -> built p U P c -> (k < p)%nat -> (d < dim)%nat -> 0 <= u <= 1 ->
  nth p U 0 <= u < nth (n + 1) U 0 -> (nth p U 0 < u \/ u = 0) -> (0 < u -> (mult U u <= p - k - 1)%nat) ->
  exists f g, evals c k d f /\ evals c (S k) d g /\ derivative_on01 f u (g u).
Proof. exact free_derivative. Qed.
Print Assumptions C144_derivative.

Example C144_hypotheses : exists c, @sized RNum 2 5 1 U_u P_u /\ sorted U_u /\ built 2 U_u P_u c /\ nth 2 U_u 0 <= 1/4 < nth (5 + 1) U_u 0 /\ nth 2 U_u 0 < 1/4 /\ (mult U_u (1/4) <= 2 - 0 - 1)%nat.
Proof.
  destruct (built_ex 2 5 1 U_u P_u) as [c Hc]; [lia|reflexivity|apply U_u_sized|]. exists c. split; [exact U_u_sized|]. split; [exact U_u_sorted|]. split; [exact Hc|].
  split; [unfold U_u; cbn; lra|]. split; [unfold U_u; cbn; lra|]. unfold mult, U_u. cbn [count_occ]. repeat (destruct (Req_EM_T _ _); try lra). lia.
Qed.
