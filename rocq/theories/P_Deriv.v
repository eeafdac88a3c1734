(** * Properties C08, C09, C12: derivatives *)

From Coq Require Import ZArith Reals List Bool Arith Lra Lia.
From Verif Require Import Num Vec MKnots MPoints MCurve RNum F64 Lists Spec Api Facts1 Facts2 Divisions Samples Bridge.
Import ListNotations.
Local Open Scope R_scope.

(** ** C08.  evaluate_derivative(u, k+1) is the derivative of evaluate_derivative(u, k). *)
Theorem C08_derivative : forall p n dim U P c k u d, clamped_curve p n dim U P c -> (k < p)%nat -> (d < dim)%nat ->
  0 <= u <= 1 -> (0 < u < 1 -> (mult U u <= p - k - 1)%nat) ->
  exists f g, evals c k d f /\ evals c (S k) d g /\ derivative_on01 f u (g u).
Proof. exact derivative_fact. Qed.
Print Assumptions C08_derivative.

Theorem C08_right_derivative : forall p n dim U P c k u d, clamped_curve p n dim U P c -> (k < p)%nat -> (d < dim)%nat ->
  0 <= u < 1 ->
  exists f g, evals c k d f /\ evals c (S k) d g /\ right_derivative_on01 f u (g u).
Proof. exact right_derivative_fact. Qed.
Print Assumptions C08_right_derivative.

(** at the internal knot of [curve_a], first derivative *)
Example C08_hypotheses : exists c, clamped_curve 2 3 2 U_a P_a c /\ (0 < 2)%nat /\ (mult U_a (1/2) <= 2 - 0 - 1)%nat.
Proof. destruct curve_a as [c H]. exists c. split; [exact H|]. rewrite mult_a. lia. Qed.

(** ** C09.  Continuity of the derivatives at knots. *)
Theorem C09_continuity : forall p n dim U P c k u d, clamped_curve p n dim U P c -> (k <= p)%nat -> (d < dim)%nat ->
  0 <= u <= 1 -> (0 < u < 1 -> (mult U u <= p - k)%nat) -> exists f, evals c k d f /\ continuous_on01 f u.
Proof. exact continuous_fact. Qed.
Print Assumptions C09_continuity.

(** a cubic curve is continuously differentiable at a double knot *)
Example C09_hypotheses : exists c, clamped_curve 3 6 1 U_b P_b c /\ (mult U_b (1/4) <= 3 - 1)%nat.
Proof. destruct curve_b as [c H]. exists c. split; [exact H|]. rewrite mult_b. lia. Qed.

(** ** C12.  The derivative curve evaluates to the derivative, in every number system. *)
Theorem C12_derivative_curve : forall K : Num, (forall x y : K, ndiv x y <> Panic /\ ndiv x y <> Diverge) ->
  forall p n dim (U : list K) (P : Mat K) c k, sized p n dim U P -> built p U P c -> (k <= p)%nat ->
  exists c', get_derivative_curve c k = Val c' /\ degree c' = (p - k)%nat /\ segments c' = Val (n - k)%nat /\
    dimension c' = Val dim /\ vector (cknots c') = Val (firstn (length U - 2 * k) (skipn k U)) /\
    forall u, evaluate c' u = evaluate_derivative c u k.
Proof. exact derived_api. Qed.
Print Assumptions C12_derivative_curve.

(** and there is no derivative curve of an order above the degree *)
Theorem C12_order_above_degree_panics : forall K : Num, (forall x y : K, ndiv x y <> Panic /\ ndiv x y <> Diverge) ->
  forall p n dim (U : list K) (P : Mat K) c k, sized p n dim U P -> built p U P c -> (p < k)%nat ->
  get_derivative_curve c k = Panic.
Proof. exact derived_api_over. Qed.
Print Assumptions C12_order_above_degree_panics.

Example C12_hypotheses : exists c, sized 3 6 1 U_b P_b /\ built 3 U_b P_b c /\ (2 <= 3)%nat.
Proof. destruct curve_b as [c H]. exists c. split; [apply clamped_sized; apply H|]. split; [apply H|lia]. Qed.
Example C12_division : forall x y : RNum, ndiv x y <> Panic /\ ndiv x y <> Diverge.
Proof. exact div_R. Qed.

(** ** C49.  A derivative curve is NOT a full curve: for k < p its max_derivative()
    panics, and so does every evaluate_derivative(u, j) with 1 <= j <= p - k. *)
Theorem C49_derivative_curve_is_full_refuted :
  (forall p n dim (U : list RNum) (P : Mat RNum) c k c', sized p n dim U P -> built p U P c -> (k < p)%nat ->
     get_derivative_curve c k = Val c' ->
     max_derivative c' = Panic /\
     forall u j, (1 <= j)%nat -> (j + k <= p)%nat -> (n0 <=? u)%num && (u <=? n1)%num = true -> evaluate_derivative c' u j = Panic) /\
  (forall p n dim (U : list F64) (P : Mat F64) c k c', sized p n dim U P -> built p U P c -> (k < p)%nat ->
     get_derivative_curve c k = Val c' ->
     max_derivative c' = Panic /\
     forall u j, (1 <= j)%nat -> (j + k <= p)%nat -> (n0 <=? u)%num && (u <=? n1)%num = true -> evaluate_derivative c' u j = Panic).
Proof. exact (conj (derived_api_limits RNum gdiv_R) (derived_api_limits F64 gdiv_F64)). Qed.
Print Assumptions C49_derivative_curve_is_full_refuted.

Example C49_witness : exists c c', sized 2 3 2 U_a P_a /\ built 2 U_a P_a c /\ get_derivative_curve c 1 = Val c' /\
  ((n0 : RNum) <=? (1/2))%num && ((1/2) <=? (n1 : RNum))%num = true.
Proof.
  destruct curve_a as [c H]. assert (S : sized 2 3 2 U_a P_a) by (apply clamped_sized; apply H).
  destruct (derived_api RNum div_R 2 3 2 U_a P_a c 1 S ltac:(apply H) ltac:(lia)) as [c' [E _]].
  exists c, c'. split; [exact S|]. split; [apply H|]. split; [exact E|].
  apply andb_true_iff. split; apply Rleb_le; cbn; lra.
Qed.
