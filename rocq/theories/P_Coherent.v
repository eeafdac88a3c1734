(** * Property C15: derivative caches stay coherent *)

From Coq Require Import ZArith Reals List Bool Arith Lra Lia.
From Verif Require Import Num Vec MKnots MPoints MCurve RNum QNum F64 Lists Spec Api Facts1 Facts6 Facts10 Divisions Samples SamplesB Bridge.
Import ListNotations.
Local Open Scope R_scope.

(** ** C15.  Whatever sequence of insert, insert_times, split (either half) and
    reverse produced it, a curve is exactly what Curve::new would build from its
    present knots and control points: no stale derivative, and the sizes fit. *)
Theorem C15_coherent : forall c : Curve RNum, made True c -> coherent c.
Proof. exact made_coherent_R. Qed.
Print Assumptions C15_coherent.

(** without reverse it holds in every number system, binary64 included *)
Theorem C15_coherent_any : forall K : Num, (forall x y : K, ndiv x y <> Panic /\ ndiv x y <> Diverge) ->
  forall c : Curve K, made False c -> coherent c.
Proof. exact @made_coherent. Qed.
Print Assumptions C15_coherent_any.

Example C15_division : forall x y : F64, ndiv x y <> Panic /\ ndiv x y <> Diverge.
Proof. exact div_F64. Qed.

(** a curve made by an insertion, then a reversal, then a split *)
Example C15_hypotheses : exists c c1 c2 cl cr, made True c /\ curve_insert c (1/4) = Val (c1, Ok tt) /\ reverse c1 = Val c2 /\
  split c2 (1/4) = Val (Ok (cl, cr)) /\ made True cr.
Proof. exact made_sample. Qed.
