(** * Decisions in binary64 *)

From Coq Require Import ZArith Reals List Bool Arith Lia Lra.
From Verif Require Import Num Vec MKnots MPoints MCurve RNum F64 Lists Struct Spec Api ApiF Bridge Facts11 Float8 Float22.
Import ListNotations.
Local Open Scope R_scope.

(** ** C118.  Whatever the finite knots, sorted or not: every search, the multiplicity and the
    predicates give in binary64 the answer that exact arithmetic gives for the same numbers. *)
Theorem C118_same_decisions : forall p n (U : list f64) kn kR, (forall x, In x U -> finite x) -> length U = (n + p + 2)%nat -> (p <= n)%nat ->
  @knots_new F64 p U = Val kn -> @knots_new RNum p (map val U) = Val kR ->
  (forall u k cmp, finite u -> (k <= p)%nat -> @find_idx F64 kn u k cmp = @find_idx RNum kR (val u) k cmp) /\
  (forall u, finite u -> @multiplicity F64 kn u = @multiplicity RNum kR (val u)) /\
  @is_sorted F64 kn = @is_sorted RNum kR /\ @is_clamped F64 kn = @is_clamped RNum kR /\ @is_normed F64 kn = @is_normed RNum kR.
Proof. exact decisions_F64. Qed.
Print Assumptions C118_same_decisions.

Example C118_hypotheses : (forall x, In x U_f -> finite x) /\ length U_f = (3 + 2 + 2)%nat /\ (2 <= 3)%nat /\
  (exists kn, @knots_new F64 2 U_f = Val kn) /\ exists kR, @knots_new RNum 2 (map val U_f) = Val kR.
Proof.
  split; [apply U_f_float|]. split; [reflexivity|]. split; [lia|]. split; [exists (knots_of 2 U_f)|exists (knots_of 2 (map val U_f))].
  - apply (@knots_new_val F64). cbn. lia.
  - apply (@knots_new_val RNum). cbn. lia.
Qed.
