(** * Properties C46, C52: generation from control points *)

From Coq Require Import ZArith Reals List Bool Arith Lra Lia.
From Verif Require Import Num Vec MKnots MPoints MCurve MGenerate RNum F64 Lists Spec Api Facts11 Gen4 Samples.
Import ListNotations.
Local Open Scope R_scope.

(** ** C46.  Errors, in every number system. *)
Theorem C46_too_few_points : forall (K : Num) (svd : Mat K -> Mat K -> M (Mat K)) dim n degree P knots, shape dim (S n) P -> (n < degree)%nat ->
  generate svd (Manual degree (cp_new P) knots) = Val (Err (DegreeAndSegmentsMismatch degree n)).
Proof. exact @manual_short. Qed.
Print Assumptions C46_too_few_points.

Theorem C46_degree_zero_uniform : forall (K : Num) (svd : Mat K -> Mat K -> M (Mat K)) dim n P, shape dim (S n) P ->
  generate svd (Manual 0 (cp_new P) GUniform) = Val (Err (DegreeTooLow 0 0)).
Proof. exact @manual_uniform_zero. Qed.
Print Assumptions C46_degree_zero_uniform.

Theorem C46_degree_zero_method : forall (K : Num) (svd : Mat K -> Mat K -> M (Mat K)) dim n P pm km params, shape dim (S n) P ->
  params_generate P pm = Val params -> generate svd (Manual 0 (cp_new P) (GMethod pm km)) = Val (Err (DegreeTooLow 0 0)).
Proof. exact @manual_method_zero. Qed.
Print Assumptions C46_degree_zero_method.

(** given knots are used as they are *)
Theorem C46_given_knots : forall (K : Num) (svd : Mat K -> Mat K -> M (Mat K)) dim n degree P kn, shape dim (S n) P -> (degree <= n)%nat ->
  generate svd (Manual degree (cp_new P) (GManual kn)) = curve_new kn (cp_new P).
Proof. exact @manual_given. Qed.
Print Assumptions C46_given_knots.

(** uniform knots *)
Theorem C46_uniform : forall svd p n dim (P : Mat RNum), shape dim (S n) P -> (1 <= p <= n)%nat ->
  exists kn U c, uniform p n = Val (Ok kn) /\ vector kn = Val U /\
    generate svd (Manual p (cp_new P) GUniform) = Val (Ok c) /\ clamped_curve p n dim U P c.
Proof. exact manual_uniform. Qed.
Print Assumptions C46_uniform.

(** knots from the points, by any of the nine combinations of methods *)
Theorem C46_method : forall svd p n dim (P : Mat RNum) pm km, shape dim (S n) P -> (1 <= p <= n)%nat ->
  (forall g, (g < n)%nat -> exists d, (d < dim)%nat /\ ent P g d <> ent P (S g) d) ->
  exists params kn U c, params_generate P pm = Val params /\ knots_generate p n params km = Val (Ok kn) /\ vector kn = Val U /\
    generate svd (Manual p (cp_new P) (GMethod pm km)) = Val (Ok c) /\ clamped_curve p n dim U P c.
Proof. exact manual_method. Qed.
Print Assumptions C46_method.

Example C46_hypotheses : shape 2 4 P_a /\ (1 <= 2 <= 3)%nat /\ (3 < 4)%nat /\
  (forall g, (g < 3)%nat -> exists d, (d < 2)%nat /\ ent P_a g d <> ent P_a (S g) d) /\
  exists params, @params_generate RNum P_a ChordLength = Val params.
Proof.
  assert (D : forall g, (g < 3)%nat -> exists d, (d < 2)%nat /\ ent P_a g d <> ent P_a (S g) d).
  { intros g Hg. exists 0%nat. split; [lia|]. do 3 (destruct g as [|g]; [unfold ent; cbn; lra|]); lia. }
  split; [exact P_a_shape|]. split; [lia|]. split; [lia|]. split; [exact D|].
  destruct (params_increasing P_a 2 3 ChordLength P_a_shape ltac:(lia) D) as [v [E _]]. eexists. exact E.
Qed.

(** ** C52.  The requested degree is NOT honoured when the knots are given:
    degree 3 is requested, the curve has degree 1. *)
Theorem C52_requested_degree_refuted : forall svd : Mat F64 -> Mat F64 -> M (Mat F64), exists kn c,
  knots_new 1 (map q4 [0; 0; 1; 2; 4; 4]%Z) = Val kn /\
  generate svd (Manual 3 (cp_new (row [0; 4; 1; 4]%Z)) (GManual kn)) = Val (Ok c) /\ degree c = 1%nat.
Proof. exact manual_degree_ignored. Qed.
Print Assumptions C52_requested_degree_refuted.
