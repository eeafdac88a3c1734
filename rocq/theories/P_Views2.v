(** * Property C165: reversing data and reading points; the bisection of C35 *)

From Coq Require Import ZArith Reals List Arith Lra Lia.
From Verif Require Import Num Vec MKnots MPoints MCurve MFit MGenerate MDirect RNum Lists Spec Api Bridge Facts1 Fit3 Fit7 Fit8 Fit9 Samples Views2.
Import ListNotations.

(** ** C165.  Reversing data points reverses their order and nothing else, and reversing
    twice gives the data back, in every number system. *)
Theorem C165_data_reverse : forall (K : Num) r c (Q : Mat K), shape r c Q ->
  exists Q', dp_reverse Q = Val Q' /\ shape r c Q' /\ dp_reverse Q' = Val Q /\ forall g d, g < c -> ent Q' g d = ent Q (c - 1 - g) d.
Proof. exact dp_reverse_spec. Qed.
Print Assumptions C165_data_reverse.

(** interpolating the reversed data gives the reversed curve, and the other way round *)
Theorem C165_interpolation : forall svd p m dim (Q : Mat RNum), good_solver svd -> 1 <= p <= m -> shape dim (S m) Q ->
  exists Q' c c', dp_reverse Q = Val Q' /\ generate svd (Interpolation p Q) = Val (Ok c) /\ generate svd (Interpolation p Q') = Val (Ok c') /\ reverse c = Val c' /\ reverse c' = Val c.
Proof. exact generate_dp_reverse. Qed.
Print Assumptions C165_interpolation.

(** [get(i)] reads the i-th control point and panics beyond the last; the points are empty
    only in dimension 0 *)
Theorem C165_get : forall (K : Num) p n dim (U : list K) P c, (forall x y : K, ndiv x y <> Panic /\ ndiv x y <> Diverge) -> sized p n dim U P -> built p U P c ->
  (forall i, i <= n -> exists v, cp_get (cpoints c) i = Val v /\ length v = dim /\ forall d, nth d v n0 = ent P i d) /\
  (forall i, n < i -> cp_get (cpoints c) i = Panic) /\ cp_is_empty (cpoints c) = Val (dim =? 0).
Proof. exact cp_get_spec. Qed.
Print Assumptions C165_get.

Example C165_hypotheses : shape 1 7 P_b /\ (exists svd, good_solver svd) /\ (exists Q', @dp_reverse RNum P_b = Val Q' /\ Q' <> P_b) /\
  (forall x y : RNum, ndiv x y <> Panic /\ ndiv x y <> Diverge) /\ (exists c, @built RNum 2 U_a P_a c) /\ @sized RNum 2 3 2 U_a P_a.
Proof.
  split; [exact P_b_shape|]. split; [exists some_solver; exact some_solver_good|]. split.
  { eexists. split; [reflexivity|]. intros H. assert (X := f_equal (fun m => ent m 0 0) H). cbn in X. lra. }
  split; [intros x y; cbn; unfold Rdivm; destruct Req_EM_T; split; discriminate|]. split.
  - destruct curve_a as [c H]. exists c. apply H.
  - destruct curve_a as [c H]. split; [lia|]. split; [reflexivity|apply H].
Qed.

Local Open Scope R_scope.

(** ** C35.  The bisection beside it finds the last knot of the domain, its end included,
    that is at most [u], and nothing to the left of the domain.  Repeated knots do no harm
    here. *)
Theorem C35_bisection : forall p n k (U : list R) u kn, length U = (n + p + 2)%nat -> (p <= n)%nat -> @knots_new RNum p U = Val kn -> (k <= p)%nat -> sorted U ->
  (u < nth p U 0 -> @find_index RNum kn u k = Val None) /\
  (nth p U 0 <= u -> exists i, @find_index RNum kn u k = Val (Some i) /\ (p - k <= i <= n + 1 - k)%nat /\ nth (k + i) U 0 <= u /\
     forall j, (i < j <= n + 1 - k)%nat -> u < nth (k + j) U 0).
Proof. exact find_index_spec. Qed.
Print Assumptions C35_bisection.

Example C35_bisection_hypotheses : (exists kn, @knots_new RNum 2 U_a = Val kn) /\ length U_a = (3 + 2 + 2)%nat /\ sorted U_a /\ nth 2 U_a 0 <= 3 / 4.
Proof. split; [eexists; reflexivity|]. split; [reflexivity|]. split; [exact (cl_sorted _ _ _ U_a_clamped)|cbn; lra]. Qed.

(** ** C37.  Rescaling one knot is the same affine map. *)
Theorem C37_rescaled_knot : forall x a b c d, a <> b -> @rescaled_knot RNum x (a, b) (c, d) = Val (c + (x - a) / (b - a) * (d - c)).
Proof. exact rescaled_knot_spec. Qed.
Print Assumptions C37_rescaled_knot.

Example C37_rescaled_knot_hypotheses : 2 <> 5.
Proof. lra. Qed.
