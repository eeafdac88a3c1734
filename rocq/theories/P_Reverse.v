(** * Properties C13, C14, C42: reversing a curve *)

From Coq Require Import ZArith Reals List Bool Arith Lra Lia.
From Verif Require Import Num Vec MKnots MPoints MCurve RNum F64 Lists Spec Api Facts1 Facts3 Facts11 Samples.
Import ListNotations.
Local Open Scope R_scope.

(** ** C13.  reverse() reverses the parametrisation: the new curve is the clamped
    curve with mirrored knots and reversed points, and its k-th derivative at u is
    (-1)^k times the old one at 1 - u. *)
Theorem C13_reverse : forall p n dim U P c, clamped_curve p n dim U P c ->
  exists c', reverse c = Val c' /\
    clamped_curve p n dim (map (fun x => 1 - x) (rev U)) (mkMat (nrows P) (rev (mcols P))) c' /\
    forall k u, (k <= p)%nat -> 0 <= u <= 1 -> (0 < u < 1 -> (mult U (1 - u) <= p - k)%nat) ->
    exists v, evaluate_derivative c (1 - u) k = Val (Ok v) /\ length v = dim /\
      returns (evaluate_derivative c' u k) dim (fun d => (-1) ^ k * nth d v 0).
Proof. exact reverse_fact. Qed.
Print Assumptions C13_reverse.

(** first derivative of the quadratic curve at its internal knot *)
Example C13_hypotheses : exists c, clamped_curve 2 3 2 U_a P_a c /\ (1 <= 2)%nat /\ (mult U_a (1 - 1/2) <= 2 - 1)%nat.
Proof.
  destruct curve_a as [c H]. exists c. split; [exact H|]. split; [lia|].
  replace (1 - 1/2) with (1/2) by lra. rewrite mult_a. lia.
Qed.

(** ** C14.  Reversing twice is the identity on everything: knots, points, caches. *)
Theorem C14_reverse_twice : forall p n dim (U : list RNum) (P : Mat RNum) c, sized p n dim U P -> built p U P c ->
  exists c', reverse c = Val c' /\ reverse c' = Val c.
Proof. exact reverse_twice. Qed.
Print Assumptions C14_reverse_twice.

Example C14_hypotheses : exists c, sized 3 6 1 U_b P_b /\ built 3 U_b P_b c.
Proof. destruct curve_b as [c H]. exists c. split; [apply clamped_sized; apply H|apply H]. Qed.

(** ** C42.  In binary64 it is not: with the knots 0 0 2^-60 1 1 the middle knot
    comes back as 0. *)
Theorem C42_reverse_twice_binary64_refuted :
  exists (U : list F64) P c c1 c2 V, sized 1 2 1 U P /\ built 1 U P c /\
  reverse c = Val c1 /\ reverse c1 = Val c2 /\ vector (cknots c2) = Val V /\
  neqb (nth 2 V n0) (n0 : F64) = true /\ neqb (nth 2 U n0) (n0 : F64) = false.
Proof. exact (ex_intro _ U42 (ex_intro _ (row [0; 4; 1]%Z) c42_witness)). Qed.
Print Assumptions C42_reverse_twice_binary64_refuted.
