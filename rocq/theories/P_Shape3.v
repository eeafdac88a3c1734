(** * Property C116: Bezier pieces *)

From Coq Require Import ZArith Reals List Bool Arith Lra Lia.
From Verif Require Import Num Vec MKnots MPoints MCurve RNum Lists Spec Api Bridge Facts1 Samples Shape5.
Import ListNotations.
Local Open Scope R_scope.

(** ** C116.  Between two neighbouring knots that both have multiplicity [p] or more the
    curve is the Bezier curve of the [p + 1] control points there; inserting knots, in
    falling order, turns every curve with simple internal knots into such pieces. *)
Theorem C116_bezier_piece : forall p n dim U P c j u, clamped_curve p n dim U P c -> (1 <= p <= j)%nat -> (j <= n)%nat ->
  nth (j + 1 - p) U 0 = nth j U 0 -> nth j U 0 < nth (j + 1) U 0 -> nth (j + p) U 0 = nth (j + 1) U 0 ->
  nth j U 0 <= u -> u < nth (j + 1) U 0 \/ j = n /\ u = 1 ->
  returns (evaluate c u) dim (fun d => rsum (fun i => INR (binomial p i) * ((u - nth j U 0) / (nth (j + 1) U 0 - nth j U 0)) ^ i *
    (1 - (u - nth j U 0) / (nth (j + 1) U 0 - nth j U 0)) ^ (p - i) * ent P (j - p + i) d) (S p)).
Proof. exact bezier_piece. Qed.
Print Assumptions C116_bezier_piece.

(** two quadratic pieces that meet at 1/2 *)
Example C116_piece_hypotheses : exists c, clamped_curve 2 4 1 [0; 0; 0; 1/2; 1/2; 1; 1; 1] (mkMat 1 [[0]; [1]; [3]; [2]; [4]]) c /\
  nth (4 + 1 - 2) [0; 0; 0; 1/2; 1/2; 1; 1; 1] 0 = nth 4 [0; 0; 0; 1/2; 1/2; 1; 1; 1] 0 /\
  nth 4 [0; 0; 0; 1/2; 1/2; 1; 1; 1] 0 < nth (4 + 1) [0; 0; 0; 1/2; 1/2; 1; 1; 1] 0 /\
  nth (4 + 2) [0; 0; 0; 1/2; 1/2; 1; 1; 1] 0 = nth (4 + 1) [0; 0; 0; 1/2; 1/2; 1; 1; 1] 0.
Proof.
  destruct (clamped_curve_ex 2 4 1 [0; 0; 0; 1/2; 1/2; 1; 1; 1] (mkMat 1 [[0]; [1]; [3]; [2]; [4]])) as [c H].
  - split.
    + lia.
    + reflexivity.
    + apply sorted_steps. intros i Hi. simpl length in Hi. do 7 (destruct i as [|i]; [cbn; lra|]). lia.
    + intros i Hi. cases i.
    + intros i Hi Hj. simpl length in Hj. cases i.
    + intros i Hi Hj. assert (i = 3 \/ i = 4)%nat as [-> | ->] by lia; cbn; lra.
  - split; [reflexivity|]. split; [reflexivity|]. intros i Hi. cases i.
  - exists c. split; [exact H|]. cbn. repeat split; lra.
Qed.

Theorem C116_decomposition : forall p n dim U P c, clamped_curve p n dim U P c -> (1 <= p)%nat -> (forall x, 0 < x < 1 -> (mult U x <= 1)%nat) ->
  exists us n' c' U' P', inserted c us c' /\ (forall u, In u us -> In u U) /\ clamped_curve p n' dim U' P' c' /\ same_function c c' /\ (forall x, In x U' <-> In x U) /\
    forall j u, (p <= j <= n')%nat -> nth j U' 0 < nth (j + 1) U' 0 -> nth j U' 0 <= u -> u < nth (j + 1) U' 0 \/ j = n' /\ u = 1 ->
    returns (evaluate c u) dim (fun d => rsum (fun i => INR (binomial p i) * ((u - nth j U' 0) / (nth (j + 1) U' 0 - nth j U' 0)) ^ i *
      (1 - (u - nth j U' 0) / (nth (j + 1) U' 0 - nth j U' 0)) ^ (p - i) * ent P' (j - p + i) d) (S p)).
Proof. exact decompose. Qed.
Print Assumptions C116_decomposition.

Example C116_hypotheses : exists c, clamped_curve 2 3 2 U_a P_a c /\ (forall x, 0 < x < 1 -> (mult U_a x <= 1)%nat).
Proof.
  destruct curve_a as [c H]. exists c. split; [exact H|]. intros x Hx. unfold mult, U_a. cbn [count_occ]. repeat (destruct (Req_EM_T _ _); try lra); lia.
Qed.
