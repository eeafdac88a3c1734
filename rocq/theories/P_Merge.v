(** * Properties C29 - C34, C47, C57, C65: merging two curves *)

From Coq Require Import ZArith Reals List Bool Arith Lra Lia.
From Verif Require Import Num Vec MKnots MPoints MCurve MFit MMerge RNum QNum QSolve Lists Spec Api Bridge Facts1 Samples Facts11 Fit7 Merge1 Merge2 Merge8 Merge10 Merge11 Merge13 MergeQ Fit3.
Import ListNotations.
Local Open Scope R_scope.

(** ** C29.  Which curves are refused, with which error, in which order.  The
    checks are the only source of errors: once they pass, no [Err] comes back.
    [merge], [merge_from], [merge_to] are the cases [pa = pb = []], [pa = [1]],
    [pb = [0]]. *)
Theorem C29_merge_errors : forall svd p m dim V P a p' o dim' W Q b pa pb,
  @sized RNum p m dim V P -> @built RNum p V P a -> @sized RNum p' o dim' W Q -> @built RNum p' W Q b ->
  let r := merge_with_constraints svd (mkCC a pa) (mkCC b pb) in
  let total := (length pa + length pb)%nat in
  (p <> p' -> r = Val (Err (DegreeMismatch p p'))) /\
  (p = p' -> dim <> dim' -> r = Val (Err (DimensionMismatch dim dim'))) /\
  (p = p' -> dim = dim' -> ~ (ends_clamped p V /\ ends_clamped p W) -> r = Val (Err UnclampedCurve)) /\
  (p = p' -> dim = dim' -> ends_clamped p V -> ends_clamped p W -> ~ (spans_unit V /\ spans_unit W) -> r = Val (Err UnnormedCurve)) /\
  (p = p' -> dim = dim' -> ends_clamped p V -> ends_clamped p W -> spans_unit V -> spans_unit W -> (p <= total)%nat ->
     r = Val (Err (TooManyConstraints total p))) /\
  (p = p' -> dim = dim' -> ends_clamped p V -> ends_clamped p W -> spans_unit V -> spans_unit W -> (total < p)%nat ->
     forall e, r <> Val (Err e)).
Proof. exact merge_refuses. Qed.
Print Assumptions C29_merge_errors.

Theorem C29_entry_points : forall (K : Num) svd (a b : Curve K),
  merge svd a b = merge_with_constraints svd (mkCC a []) (mkCC b []) /\
  merge_from svd a b = merge_with_constraints svd (mkCC a [n1]) (mkCC b []) /\
  merge_to svd a b = merge_with_constraints svd (mkCC a []) (mkCC b [n0]).
Proof. repeat split. Qed.
Print Assumptions C29_entry_points.

(** quadratic against cubic; the quadratic with three constraints; a quadratic on
    the knots 0 0 0 1/2 1/2 1 1, not clamped; the clamped quadratic, whose ends
    fit and span [[0, 1]] *)
Example C29_hypotheses : exists a b, sized 2 3 2 U_a P_a /\ built 2 U_a P_a a /\ sized 3 6 1 U_b P_b /\ built 3 U_b P_b b /\
  ends_clamped 2 U_a /\ spans_unit U_a /\ ~ ends_clamped 2 [0; 0; 0; 1/2; 1/2; 1; 1] /\ ~ spans_unit [0; 0; 0; 1/2; 2; 2; 2].
Proof.
  destruct curve_a as [a HA]. destruct curve_b as [b HB]. exists a, b.
  split; [exact (clamped_sized _ _ _ _ _ (proj1 HA) (proj1 (proj2 HA)))|]. split; [exact (proj2 (proj2 HA))|].
  split; [exact (clamped_sized _ _ _ _ _ (proj1 HB) (proj1 (proj2 HB)))|]. split; [exact (proj2 (proj2 HB))|]. split; [|split; [|split]].
  - intros i Hi. do 7 (destruct i as [|i]; [split; intros; simpl in *; first [lra|lia]|]). simpl in Hi. lia.
  - unfold spans_unit, U_a. split; [simpl; auto|]. split; [simpl; auto 10|]. intros x Hx. repeat (destruct Hx as [<-|Hx]; [lra|]). destruct Hx.
  - intros H. destruct (H 4%nat ltac:(simpl; lia)) as [_ T]. specialize (T ltac:(simpl; lia)). simpl in T. lra.
  - intros [_ [_ T]]. specialize (T 2 ltac:(simpl; auto 10)). lra.
Qed.

(** ** C30.  Shape of the result, for every degree, every solver and all constraints. *)
Theorem C30_merged_shape : forall svd p m dim V P a o W Q b pa pb c,
  clamped_curve p m dim V P a -> clamped_curve p o dim W Q b -> merge_with_constraints svd (mkCC a pa) (mkCC b pb) = Val (Ok c) ->
  exists U C, joined_knots p m o V W U /\ mult U (1 / 2) = 1%nat /\ clamped_curve p (m + o + 1 - p) dim U C c.
Proof. intros svd p m dim V P a o W Q b pa pb c HA HB E. exact (proj2 (proj2 (merged_shape HA HB svd pa pb c E))). Qed.
Print Assumptions C30_merged_shape.

(** the same code over the rationals, merging two parabolas *)
Example C30_run : exists a b c : Curve QNum,
  sized 2 2 1 (bezier_knots 2) (qrow [0; 0; 0]%Z) /\ built 2 (bezier_knots 2) (qrow [0; 0; 0]%Z) a /\ built 2 (bezier_knots 2) (qrow [4; 4; 4]%Z) b /\
  merge gauss_checked a b = Val (Ok c) /\ evaluate c (q 0 1) = Val (Ok [q 0 1]) /\ evaluate c (q 1 1) = Val (Ok [q 4 1]) /\ evaluate c (q 1 2) = Val (Ok [q 2 1]).
Proof. exact quadratic_merge. Qed.

(** ** C31.  Degrees 1 and 2, equally many points, a solver that solves: the left
    half of the merged curve is [a] with its last [p] control points moved, the
    right half is [b] with its first [p] moved; the halves meet with the same point
    and derivatives up to order [p - 1]; and no other way of doing this moves the
    points less, in the sense of least squares. *)
Theorem C31_merged_curve : forall svd p m dim V P a W Q b pa pb,
  clamped_curve p m dim V P a -> clamped_curve p m dim W Q b -> good_solver svd -> p = 1%nat \/ p = 2%nat -> (length pa + length pb < p)%nat ->
  (forall u, In u pa -> 0 <= u <= 1) -> (forall u, In u pb -> 0 <= u <= 1) ->
  exists c P' Q' a' b', merge_with_constraints svd (mkCC a pa) (mkCC b pb) = Val (Ok c) /\
    fitted p m dim V W P Q a b pa pb P' Q' a' b' /\
    (forall t, 0 <= t <= 1 -> agree dim 0 c (t / 2) a' t /\ agree dim 0 c ((1 + t) / 2) b' t) /\
    (forall P'' Q'' a'' b'', fitted p m dim V W P Q a b pa pb P'' Q'' a'' b'' -> moved m dim P P' + moved m dim Q Q' <= moved m dim P P'' + moved m dim Q Q'').
Proof.
  intros svd p m dim V P a W Q b pa pb HA HB G H12 Ht Ia Ib. exact (merged_result HA HB pa pb ltac:(destruct H12; subst; lia) Ia Ib svd G H12 Ht).
Qed.
Print Assumptions C31_merged_curve.

(** two different quadratics on different knots, a constraint, and a solver *)
Example C31_hypotheses : exists svd a b, good_solver svd /\ clamped_curve 2 3 2 U_a P_a a /\
  clamped_curve 2 3 2 [0; 0; 0; 1/4; 1; 1; 1] (mkMat 2 [[5; 5]; [1; 2]; [3; 2]; [0; 1]]) b /\ (forall u, In u [1/2] -> 0 <= u <= 1) /\ (length [1/2] + @length R [] < 2)%nat.
Proof.
  exists some_solver. destruct curve_a as [a HA]. destruct (clamped_curve_ex 2 3 2 [0; 0; 0; 1/4; 1; 1; 1] (mkMat 2 [[5; 5]; [1; 2]; [3; 2]; [0; 1]])) as [b HB].
  - split; try (simpl; lia); try reflexivity.
    + apply sorted_steps. intros i Hi. simpl in Hi. cases i.
    + intros i Hi. cases i.
    + intros i H1 H2. simpl in H2. cases i.
    + intros i Hi. cases i.
  - split; [reflexivity|]. split; [reflexivity|]. intros i Hi. cases i.
  - exists a, b. split; [exact some_solver_good|]. split; [exact HA|]. split; [exact HB|]. split; [|simpl; lia]. intros u [<-|[]]. lra.
Qed.

(** ** C32.  Constrained points stay; [merge_from] keeps the end of the first curve,
    [merge_to] the start of the second. *)
Theorem C32_constrained_points : forall svd m dim V P a W Q b pa pb,
  clamped_curve 2 m dim V P a -> clamped_curve 2 m dim W Q b -> good_solver svd -> (length pa + length pb < 2)%nat ->
  (forall u, In u pa -> 0 <= u <= 1) -> (forall u, In u pb -> 0 <= u <= 1) ->
  exists c, merge_with_constraints svd (mkCC a pa) (mkCC b pb) = Val (Ok c) /\
    (forall u, In u pa -> agree dim 0 c (u / 2) a u) /\ (forall u, In u pb -> agree dim 0 c ((1 + u) / 2) b u).
Proof. exact constrained_points. Qed.
Print Assumptions C32_constrained_points.

Theorem C32_merge_from_to : forall svd m dim V P a W Q b, good_solver svd -> clamped_curve 2 m dim V P a -> clamped_curve 2 m dim W Q b ->
  (exists c, merge_from svd a b = Val (Ok c) /\ agree dim 0 c (1 / 2) a 1) /\ (exists c, merge_to svd a b = Val (Ok c) /\ agree dim 0 c (1 / 2) b 0).
Proof. intros svd m dim V P a W Q b G HA HB. exact (conj (merge_from_joint svd m dim V P a W Q b G HA HB) (merge_to_joint svd m dim V P a W Q b G HA HB)). Qed.
Print Assumptions C32_merge_from_to.

(** ** C33.  With different numbers of control points the merge does not work.
    It can only succeed when the right curve has at least as many points as the
    left one and at most [p - 1] more. *)
Theorem C33_segment_counts_refuted : forall svd p m dim V P a o W Q b pa pb c,
  clamped_curve p m dim V P a -> clamped_curve p o dim W Q b -> (o < m)%nat \/ (m + p <= o)%nat ->
  merge_with_constraints svd (mkCC a pa) (mkCC b pb) <> Val (Ok c).
Proof.
  intros svd p m dim V P a o W Q b pa pb c HA HB H E. destruct (merged_shape HA HB svd pa pb c E) as [H1 [H2 _]]. lia.
Qed.
Print Assumptions C33_segment_counts_refuted.

Example C33_hypotheses : exists a b, clamped_curve 2 3 2 U_a P_a a /\ clamped_curve 2 2 2 [0; 0; 0; 1; 1; 1] (mkMat 2 [[0; 0]; [1; 2]; [3; 2]]) b /\ (2 < 3)%nat.
Proof.
  destruct curve_a as [a HA]. destruct (clamped_curve_ex 2 2 2 [0; 0; 0; 1; 1; 1] (mkMat 2 [[0; 0]; [1; 2]; [3; 2]])) as [b HB].
  - split; try (simpl; lia); try reflexivity.
    + apply sorted_steps. intros i Hi. simpl in Hi. cases i.
    + intros i Hi. cases i.
    + intros i H1 H2. simpl in H2. cases i.
  - split; [reflexivity|]. split; [reflexivity|]. intros i Hi. cases i.
  - exists a, b. auto.
Qed.

(** Where it succeeds it distorts: a constant quadratic of three points and one of
    four points, both equal to 1, merge to a curve that is 4/3 at the joint; in the
    opposite order the call panics. *)
Theorem C33_constants_refuted : exists a b c : Curve QNum,
  sized 2 2 1 (bezier_knots 2) (qrow [1; 1; 1]%Z) /\ built 2 (bezier_knots 2) (qrow [1; 1; 1]%Z) a /\
  sized 2 3 1 (two_knots 2) (qrow [1; 1; 1; 1]%Z) /\ built 2 (two_knots 2) (qrow [1; 1; 1; 1]%Z) b /\
  merge gauss_checked a b = Val (Ok c) /\ evaluate c (q 1 2) = Val (Ok [q 4 3]) /\ merge gauss_checked b a = Panic.
Proof. exact quadratic_constants. Qed.
Print Assumptions C33_constants_refuted.

(** [gauss_checked] is exact *)
Theorem C33_solver_exact : forall A B X, gauss_checked A B = Val X -> exists AX, mmul A X = Val AX /\ mat_eqb AX B = true.
Proof. exact gauss_checked_exact. Qed.
Print Assumptions C33_solver_exact.

(** ** C34.  The constant cubic 1 merged with itself is 4/3 at the joint. *)
Theorem C34_constant_cubics_refuted : exists a c : Curve QNum,
  sized 3 3 1 (bezier_knots 3) (qrow [1; 1; 1; 1]%Z) /\ built 3 (bezier_knots 3) (qrow [1; 1; 1; 1]%Z) a /\
  merge gauss_checked a a = Val (Ok c) /\ evaluate c (q 1 2) = Val (Ok [q 4 3]).
Proof. exact cubic_constants. Qed.
Print Assumptions C34_constant_cubics_refuted.

(** The same for every degree from 3 on, whatever the knots, the constraints, the
    number of points and the (correct) solver: merging two copies of a constant other
    than zero never returns that constant. *)
Theorem C34_constants_refuted : forall svd p m dim V P a W Q b pa pb (v : nat -> R), (3 <= p)%nat -> good_solver svd ->
  clamped_curve p m dim V P a -> clamped_curve p m dim W Q b -> (length pa + length pb < p)%nat ->
  (forall i, (i <= m)%nat -> nth i V 0 < nth (i + p + 1) V 0) -> (forall i, (i <= m)%nat -> nth i W 0 < nth (i + p + 1) W 0) ->
  (forall i d, (i <= m)%nat -> (d < dim)%nat -> ent P i d = v d /\ ent Q i d = v d) -> (exists d, (d < dim)%nat /\ v d <> 0) ->
  exists c, merge_with_constraints svd (mkCC a pa) (mkCC b pb) = Val (Ok c) /\ ~ (forall u, 0 <= u <= 1 -> returns (evaluate c u) dim v).
Proof. exact merge_distorts. Qed.
Print Assumptions C34_constants_refuted.

Example C34_hypotheses : exists svd a, good_solver svd /\ clamped_curve 3 6 1 U_b (mat_of 1 7 (fun _ _ => 5)) a /\
  (forall i, (i <= 6)%nat -> nth i U_b 0 < nth (i + 3 + 1) U_b 0) /\ (forall i d, (i <= 6)%nat -> (d < 1)%nat -> ent (mat_of 1 7 (fun _ _ => 5)) i d = 5).
Proof.
  destruct curve_b as [b HB]. destruct (clamped_curve_ex 3 6 1 U_b (mat_of 1 7 (fun _ _ => 5)) (proj1 HB) (mat_of_shape _ _ _)) as [a HA].
  exists some_solver, a. split; [exact some_solver_good|]. split; [exact HA|]. split.
  - intros i Hi. unfold U_b. do 7 (destruct i as [|i]; [cbn; lra|]). lia.
  - intros i d Hi Hd. apply ent_mat_of; lia.
Qed.

(** ** C47.  [prepend_constrained] holds the other curve instead: the constant 4,
    asked to stay put at its parameter 1/2, ends up at 59/17 there, whereas
    [append_constrained] with the roles exchanged keeps it. *)
Theorem C47_prepend_constrained_refuted : exists s o c d : Curve QNum,
  sized 2 2 1 (bezier_knots 2) (qrow [4; 4; 4]%Z) /\ built 2 (bezier_knots 2) (qrow [4; 4; 4]%Z) s /\
  sized 2 2 1 (bezier_knots 2) (qrow [0; 0; 0]%Z) /\ built 2 (bezier_knots 2) (qrow [0; 0; 0]%Z) o /\
  prepend_constrained gauss_checked s [q 1 2] o [] = Val c /\ evaluate s (q 1 2) = Val (Ok [q 4 1]) /\ evaluate c (q 3 4) = Val (Ok [q 59 17]) /\
  append_constrained gauss_checked o [] s [q 1 2] = Val d /\ evaluate d (q 3 4) = Val (Ok [q 4 1]).
Proof. exact prepend_swaps. Qed.
Print Assumptions C47_prepend_constrained_refuted.

(** ** C57.  Whatever the degree and whatever the solver returns, merging curves with
    equally many control points succeeds, keeps the control points away from the
    joint, and so starts where [a] starts and ends where [b] ends. *)
Theorem C57_untouched_points : forall svd p m dim V P a W Q b pa pb, (1 <= p)%nat ->
  clamped_curve p m dim V P a -> clamped_curve p m dim W Q b -> returning_solver svd -> (length pa + length pb < p)%nat ->
  exists c U C, merge_with_constraints svd (mkCC a pa) (mkCC b pb) = Val (Ok c) /\ joined_knots p m m V W U /\ clamped_curve p (m + m + 1 - p) dim U C c /\
    (forall i d, (i < m + 1 - p)%nat -> (d < dim)%nat -> ent C i d = ent P i d) /\
    (forall j d, (p <= j <= m)%nat -> (d < dim)%nat -> ent C (m + 1 - p + j) d = ent Q j d) /\
    agree dim 0 c 0 a 0 /\ agree dim 0 c 1 b 1.
Proof. exact merge_untouched. Qed.
Print Assumptions C57_untouched_points.

Example C57_hypotheses : exists svd a, returning_solver svd /\ clamped_curve 3 6 1 U_b P_b a /\ (2 < 3)%nat.
Proof. exists some_solver. destruct curve_b as [b HB]. exists b. split; [exact some_solver_returning|]. split; [exact HB|lia]. Qed.

(** ** C65.  [append] puts the other curve behind, [prepend] in front; both panic on
    curves that [merge] refuses. *)
Theorem C65_append_prepend : forall svd p m dim V P a W Q b pa pb, (1 <= p)%nat ->
  clamped_curve p m dim V P a -> clamped_curve p m dim W Q b -> returning_solver svd ->
  (exists c, append svd a b = Val c /\ merge svd a b = Val (Ok c) /\ agree dim 0 c 0 a 0 /\ agree dim 0 c 1 b 1) /\
  (exists c, prepend svd a b = Val c /\ merge svd b a = Val (Ok c) /\ agree dim 0 c 0 b 0 /\ agree dim 0 c 1 a 1) /\
  ((length pa + length pb < p)%nat -> exists c, append_constrained svd a pa b pb = Val c /\
     merge_with_constraints svd (mkCC a pa) (mkCC b pb) = Val (Ok c) /\ agree dim 0 c 0 a 0 /\ agree dim 0 c 1 b 1) /\
  ((length pa + length pb < p)%nat -> exists c, prepend_constrained svd a pa b pb = Val c /\ agree dim 0 c 0 b 0 /\ agree dim 0 c 1 a 1).
Proof. exact append_works. Qed.
Print Assumptions C65_append_prepend.

Theorem C65_panics : forall svd p m dim V P a p' o dim' W Q b pa pb,
  @sized RNum p m dim V P -> @built RNum p V P a -> @sized RNum p' o dim' W Q -> @built RNum p' W Q b ->
  p <> p' \/ dim <> dim' \/ ~ (ends_clamped p V /\ ends_clamped p' W) \/ ~ (spans_unit V /\ spans_unit W) ->
  append svd a b = Panic /\ prepend svd a b = Panic /\ append_constrained svd a pa b pb = Panic /\ prepend_constrained svd a pa b pb = Panic.
Proof. exact append_panics. Qed.
Print Assumptions C65_panics.

Example C65_hypotheses : exists svd a, returning_solver svd /\ clamped_curve 3 6 1 U_b P_b a /\ (1 <= 3)%nat.
Proof. exists some_solver. destruct curve_b as [b HB]. exists b. split; [exact some_solver_returning|]. split; [exact HB|lia]. Qed.
