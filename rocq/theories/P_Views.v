(** * Property C164: what the read accessors return *)

From Coq Require Import Reals List Arith Lra Lia.
From Verif Require Import Num Vec MKnots MPoints MCurve RNum Lists Spec Api Bridge Facts1 Samples Views.
Import ListNotations.

(** ** C164.  The views of a knot vector.  The k-th derivative knots are the knots without
    the first and last k; the internal knots are those with the indices p + 1 to n, the
    domain those with the indices p to n + 1, for every k; an index outside panics.  In
    every number system, for all values of the knots. *)
Theorem C164_knots : forall (K : Num) p n (U : list K) kn, length U = n + p + 2 -> p <= n -> knots_new p U = Val kn ->
  kdegree kn = p /\ kmax_derivative kn = p /\ ksegments kn = Val n /\ vector kn = Val U /\
  (forall k, k <= p -> klen kn k = Val (n + p + 2 - 2 * k) /\ exists v, vector_derivative kn k = Val v /\ length v = n + p + 2 - 2 * k /\ forall i d, i < n + p + 2 - 2 * k -> nth i v d = nth (i + k) U d) /\
  (forall k, p < k -> klen kn k = Panic /\ vector_derivative kn k = Panic /\ domain_derivative kn k = Panic) /\
  internal_count kn = Val (n - p) /\
  (exists v, internal kn = Val v /\ length v = n - p /\ forall i d, i < n - p -> nth i v d = nth (p + 1 + i) U d) /\
  (forall i d, internal_knot kn i = if i <? n - p then Val (nth (p + 1 + i) U d) else Panic) /\
  domain_count kn = Val (n - p + 2) /\
  (exists v, (forall k, k <= p -> domain_derivative kn k = Val v) /\ domain kn = Val v /\ length v = n - p + 2 /\ forall i d, i < n - p + 2 -> nth i v d = nth (p + i) U d) /\
  (forall i d, domain_knot kn i = if i <? n - p + 2 then Val (nth (p + i) U d) else Panic).
Proof. exact knot_views. Qed.
Print Assumptions C164_knots.

(** with fewer than 2 p + 2 knots there is nothing to view *)
Theorem C164_short : forall (K : Num) p (U : list K), length U < 2 * p + 2 ->
  knots_new p U = Panic \/ exists kn, knots_new p U = Val kn /\ internal_count kn = Panic /\ internal kn = Panic /\ domain_count kn = Panic /\ domain kn = Panic /\
    (forall i, internal_knot kn i = Panic /\ domain_knot kn i = Panic) /\ forall u, multiplicity kn u = Panic.
Proof. exact knot_views_short. Qed.
Print Assumptions C164_short.

(** the multiplicity of an inner knot is the number of its occurrences; the ends of the
    interval count once, although they occur p + 1 times *)
Theorem C164_multiplicity : forall p n U kn u, clamped p n U -> @knots_new RNum p U = Val kn ->
  @multiplicity RNum kn u = Val (if Req_EM_T u 0 then 1 else if Req_EM_T u 1 then 1 else mult U u).
Proof. exact multiplicity_reads. Qed.
Print Assumptions C164_multiplicity.

(** the views of a curve and its control points: there are n + 1 - k control points of the
    k-th derivative, for k up to the degree *)
Theorem C164_curve : forall (K : Num) p n dim (U : list K) P c, (forall x y : K, ndiv x y <> Panic /\ ndiv x y <> Diverge) -> sized p n dim U P -> built p U P c ->
  degree c = p /\ segments c = Val n /\ dimension c = Val dim /\ max_derivative c = Val p /\
  cp_matrix (cpoints c) = Val P /\ cp_segments (cpoints c) = Val n /\ cp_count (cpoints c) = Val (n + 1) /\ cp_dimension (cpoints c) = Val dim /\ pmax_derivative (cpoints c) = p /\
  (forall k, k <= p -> count_derivative (cpoints c) k = Val (n + 1 - k) /\ exists D, matrix_derivative (cpoints c) k = Val D /\ shape dim (n + 1 - k) D) /\
  (forall k, p < k -> count_derivative (cpoints c) k = Panic /\ matrix_derivative (cpoints c) k = Panic).
Proof. exact curve_views. Qed.
Print Assumptions C164_curve.

(** the quadratic sample curve: domain 0, 1/2, 1; one internal knot *)
Example C164_hypotheses : (exists kn, @knots_new RNum 2 U_a = Val kn /\ @domain_knot RNum kn 1 = Val (1 / 2)%R /\ @internal_knot RNum kn 0 = Val (1 / 2)%R /\ @internal_knot RNum kn 1 = Panic) /\
  length U_a = (3 + 2 + 2)%nat /\ clamped 2 3 U_a /\ (forall x y : RNum, ndiv x y <> Panic /\ ndiv x y <> Diverge) /\ (exists c, @built RNum 2 U_a P_a c) /\ @sized RNum 2 3 2 U_a P_a /\ length (firstn 5 U_a) < 2 * 2 + 2.
Proof.
  split; [eexists; repeat split; reflexivity|]. split; [reflexivity|]. split; [exact U_a_clamped|]. split; [intros x y; cbn; unfold Rdivm; destruct Req_EM_T; split; discriminate|]. split; [|split; [|cbn; lia]].
  - destruct curve_a as [c H]. exists c. apply H.
  - destruct curve_a as [c H]. split; [lia|]. split; [reflexivity|apply H].
Qed.
