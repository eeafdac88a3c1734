(** * Properties C38, C39, C40, C45: constructing curves, and floats *)

From Coq Require Import ZArith Reals List Bool Arith Lra Lia.
From Flocq Require Import IEEE754.BinarySingleNaN.
From Verif Require Import Num Vec MKnots MPoints MCurve RNum F64 Lists Spec Api Facts9 Facts11 Divisions Samples Bridge.
Import ListNotations.

(** ** C38.  Curve::new accepts exactly n >= p and fills all caches. *)
Theorem C38_curve_new : forall K : Num, (forall x y z : K, (x ==? y)%num = false -> exists w, ndiv z (x - y)%num = Val w) ->
  forall p n dim (U : list K) (P : Mat K), shape dim (S n) P ->
  ((length U < 2 * p)%nat -> knots_new p U = Panic) /\
  ((2 * p <= length U)%nat -> exists kn, knots_new p U = Val kn /\
     ((n < p)%nat -> curve_new kn (cp_new P) = Val (Err (DegreeAndSegmentsMismatch p n))) /\
     ((p <= n)%nat -> length U = (n + p + 2)%nat -> exists c, curve_new kn (cp_new P) = Val (Ok c) /\
        degree c = p /\ max_derivative c = Val p /\ segments c = Val n /\ dimension c = Val dim /\
        vector (cknots c) = Val U /\ cp_matrix (cpoints c) = Val P /\
        forall k, (k <= p)%nat -> exists Uk Pk, vector_derivative (cknots c) k = Val Uk /\
          length Uk = (n + p + 2 - 2 * k)%nat /\ matrix_derivative (cpoints c) k = Val Pk /\ shape dim (S n - k) Pk)).
Proof. exact curve_new_cases. Qed.
Print Assumptions C38_curve_new.

Example C38_binary64 : forall x y z : F64, (x ==? y)%num = false -> exists w, ndiv z (x - y)%num = Val w.
Proof. intros x y z _. eexists. reflexivity. Qed.
Example C38_reals : forall x y z : RNum, (x ==? y)%num = false -> exists w, ndiv z (x - y)%num = Val w.
Proof. exact guarded_R. Qed.
Example C38_hypotheses : shape 2 4 P_a /\ (2 * 2 <= length U_a)%nat /\ (2 <= 3)%nat /\ length U_a = (3 + 2 + 2)%nat.
Proof. split; [exact P_a_shape|]. cbn. lia. Qed.

(** ** C40.  Curve::new does NOT compare the number of knots with the number of
    points: the knots 0 0 0 1 1 1 with four points are accepted, and then
    evaluation panics. *)
Theorem C40_accepted_curves_evaluate_refuted : exists c : Curve F64,
  built 2 (map q4 [0; 0; 0; 4; 4; 4]%Z) (row [0; 4; 1; 4]%Z) c /\
  evaluate c (q4 0) = Panic /\ evaluate c (q4 2) = Panic /\ evaluate c (q4 4) = Panic.
Proof. exact c40_witness. Qed.
Print Assumptions C40_accepted_curves_evaluate_refuted.

(** ** C39.  Evaluation CAN be NaN on finite data: degree 1, knots 0 0 2^-1040 1 1,
    all control points 1, at u = 1/2 and u = 1. *)
Theorem C39_finite_refuted : exists (U : list F64) P c x y, U = [q4 0; q4 0; fmk 1 (-1040); q4 4; q4 4] /\ P = row [4; 4; 4]%Z /\
  sized 1 2 1 U P /\ built 1 U P c /\
  evaluate c (q4 2) = Val (Ok x) /\ is_nan (nth 0 x n0) = true /\ evaluate c (q4 4) = Val (Ok y) /\ is_nan (nth 0 y n0) = true.
Proof. exact c39_refuted. Qed.
Print Assumptions C39_finite_refuted.

(** ** C45.  On unclamped knots the basis does NOT sum to one at the right end of
    the domain: degree 1, knots -1/2 0 1/2 1 3/2, all control points 1,
    evaluate(1) = 2. *)
Theorem C45_unclamped_affine_refuted : exists (c : Curve F64) x,
  sized 1 2 1 (map q4 [-2; 0; 2; 4; 6]%Z) (row [4; 4; 4]%Z) /\ built 1 (map q4 [-2; 0; 2; 4; 6]%Z) (row [4; 4; 4]%Z) c /\
  evaluate c (q4 4) = Val (Ok x) /\ neqb (nth 0 x n0) (fmk 2 0) = true.
Proof. exact c45_witness. Qed.
Print Assumptions C45_unclamped_affine_refuted.
