(** * Property C94: merging with constraints commutes with reversal *)

From Coq Require Import ZArith Reals List Bool Arith Lra Lia.
From Verif Require Import Num Vec MKnots MPoints MCurve MMerge RNum Lists Spec Api Bridge Facts1 Fit7 Samples Merge20.
Import ListNotations.
Local Open Scope R_scope.

(** ** C94.  A constraint at [u] becomes one at [1 - u]. *)
Theorem C94_constraints : forall svd p n dim V W P Q a b pa pb, clamped_curve p n dim V P a -> clamped_curve p n dim W Q b -> good_solver svd -> p = 1%nat \/ p = 2%nat ->
  (length pa + length pb < p)%nat -> (forall u, In u pa -> 0 <= u <= 1) -> (forall u, In u pb -> 0 <= u <= 1) ->
  (forall x, 0 < x < 1 -> (mult V x <= p)%nat) -> (forall x, 0 < x < 1 -> (mult W x <= p)%nat) ->
  exists c ar br c', merge_with_constraints svd (mkCC a pa) (mkCC b pb) = Val (Ok c) /\ reverse a = Val ar /\ reverse b = Val br /\
    merge_with_constraints svd (mkCC br (map (fun u => 1 - u) pb)) (mkCC ar (map (fun u => 1 - u) pa)) = Val (Ok c') /\
    forall u, 0 <= u <= 1 -> evaluate c' u = evaluate c (1 - u).
Proof. exact merge_reverse_con. Qed.
Print Assumptions C94_constraints.

(** merge_from becomes merge_to *)
Theorem C94_merge_from : forall svd n dim V W P Q a b, clamped_curve 2 n dim V P a -> clamped_curve 2 n dim W Q b -> good_solver svd ->
  (forall x, 0 < x < 1 -> (mult V x <= 2)%nat) -> (forall x, 0 < x < 1 -> (mult W x <= 2)%nat) ->
  exists c ar br c', merge_from svd a b = Val (Ok c) /\ reverse a = Val ar /\ reverse b = Val br /\ merge_to svd br ar = Val (Ok c') /\
    forall u, 0 <= u <= 1 -> evaluate c' u = evaluate c (1 - u).
Proof. exact merge_from_reverse. Qed.
Print Assumptions C94_merge_from.

(** two quadratics on different knots, and a constraint at 1/4 of the second *)
Example C94_constraints_hypotheses : exists svd a b, good_solver svd /\ clamped_curve 2 3 2 U_a P_a a /\
  clamped_curve 2 3 2 [0; 0; 0; 1/4; 1; 1; 1] (mkMat 2 [[5; 5]; [1; 2]; [3; 2]; [0; 1]]) b /\ (forall u, In u [1/4] -> 0 <= u <= 1) /\ (@length R [] + length [1/4] < 2)%nat /\
  (forall x, 0 < x < 1 -> (mult U_a x <= 2)%nat) /\ (forall x, 0 < x < 1 -> (mult [0%R; 0%R; 0%R; (1/4)%R; 1%R; 1%R; 1%R] x <= 2)%nat).
Proof.
  exists some_solver. destruct curve_a as [a HA]. destruct (clamped_curve_ex 2 3 2 [0; 0; 0; 1/4; 1; 1; 1] (mkMat 2 [[5; 5]; [1; 2]; [3; 2]; [0; 1]])) as [b HB].
  - split; try (simpl; lia); try reflexivity.
    + apply sorted_steps. intros i Hi. simpl in Hi. cases i.
    + intros i Hi. cases i.
    + intros i H1 H2. simpl in H2. cases i.
    + intros i Hi. cases i.
  - split; [reflexivity|]. split; [reflexivity|]. intros i Hi. cases i.
  - exists a, b. split; [exact some_solver_good|]. split; [exact HA|]. split; [exact HB|].
    split; [intros u [<-|[]]; lra|]. split; [simpl; lia|].
    split; intros x Hx; unfold U_a, mult; simpl; repeat (destruct (Req_EM_T _ _); try lra); simpl; lia.
Qed.
