(** * Properties of edited derivative curves *)

From Coq Require Import ZArith Reals List Bool Arith Lia Lra.
From Verif Require Import Num Vec MKnots MPoints MCurve MMerge RNum F64 Lists Spec Api Bridge Struct Divisions Facts1 Facts2 Facts5 Facts9 Facts11 Samples Bare.
Import ListNotations.
Local Open Scope R_scope.

(** ** C146.  Editing a derivative curve.  In every number system whose division does
    not panic: let c' be the k-th derivative curve of c, and d the curve that
    [Curve::new] makes of the knots and points of c'.  Then c' and d have the same
    values; a successful insertion into c' leaves exactly the curve it leaves of d
    (so an insertion repairs what C49 reports as missing), and fails when and as it
    does on d; c' and d split into the same curves, with the same errors; their
    reversals have the same values; and each merges, from either side, under any
    constraints and with any solver, to what the other merges to. *)
Theorem C146_edits : forall K : Num, (forall x y : K, ndiv x y <> Panic /\ ndiv x y <> Diverge) ->
  forall p n dim (U : list K) (P : Mat K) c k c' d, sized p n dim U P -> built p U P c -> (k <= p)%nat ->
  get_derivative_curve c k = Val c' -> curve_new (cknots c') (cpoints c') = Val (Ok d) ->
  (forall u, evaluate c' u = evaluate d u) /\
  (forall u x e, (1 <= x)%nat -> insert_times c' u x = Val (e, Ok tt) <-> insert_times d u x = Val (e, Ok tt)) /\
  (forall u x, (r <- insert_times c' u x;; Val (snd r)) = (r <- insert_times d u x;; Val (snd r))) /\
  (forall u fl, split_and_normalize c' u fl = split_and_normalize d u fl) /\
  (forall r, reverse d = Val r -> exists r', reverse c' = Val r' /\ forall u, evaluate r' u = evaluate r u) /\
  (forall svd b q, merge_with_constraints svd (mkCC c' q) b = merge_with_constraints svd (mkCC d q) b /\
     merge_with_constraints svd b (mkCC c' q) = merge_with_constraints svd b (mkCC d q)).
Proof. exact derived_edits. Qed.
Print Assumptions C146_edits.

(** in exact arithmetic and in binary64 there is such a curve d, and it is a full
    curve of degree p - k *)
Theorem C146_rebuilds :
  (forall p n dim (U : list RNum) (P : Mat RNum) c k, sized p n dim U P -> built p U P c -> (k <= p)%nat ->
   exists c' d, get_derivative_curve c k = Val c' /\ curve_new (cknots c') (cpoints c') = Val (Ok d) /\
     max_derivative d = Val (p - k)%nat) /\
  (forall p n dim (U : list F64) (P : Mat F64) c k, sized p n dim U P -> built p U P c -> (k <= p)%nat ->
   exists c' d, get_derivative_curve c k = Val c' /\ curve_new (cknots c') (cpoints c') = Val (Ok d) /\
     max_derivative d = Val (p - k)%nat).
Proof. exact (conj (derived_rebuilds RNum gdiv_R) (derived_rebuilds F64 gdiv_F64)). Qed.
Print Assumptions C146_rebuilds.

(** knots inserted into the derivative curve of a clamped curve: a full clamped
    curve, tracing the derivative *)
Theorem C146_insert : forall p n dim U P c k c' u x, clamped_curve p n dim U P c -> (k <= p)%nat ->
  get_derivative_curve c k = Val c' -> 0 < u < 1 -> (1 <= x)%nat -> (mult U u + x <= p - k + 1)%nat -> simple_below U u ->
  exists e V Q, insert_times c' u x = Val (e, Ok tt) /\ clamped_curve (p - k) (n - k + x) dim V Q e /\
    max_derivative e = Val (p - k)%nat /\ forall v, evaluate e v = evaluate_derivative c v k.
Proof. exact derived_insert. Qed.
Print Assumptions C146_insert.

(** the derivative curve of a clamped curve splits into clamped curves tracing the
    two parts of the derivative *)
Theorem C146_split : forall p n dim U P c k c' u, clamped_curve p n dim U P c -> (k <= p)%nat ->
  get_derivative_curve c k = Val c' -> 0 < u < 1 -> (mult U u <= p - k)%nat -> simple_below U u ->
  exists cl cr nl nr Ul Pl Ur Pr, split c' u = Val (Ok (cl, cr)) /\
    clamped_curve (p - k) nl dim Ul Pl cl /\ clamped_curve (p - k) nr dim Ur Pr cr /\
    forall t, 0 <= t <= 1 -> evaluate cl t = evaluate_derivative c (t * u) k /\
      evaluate cr t = evaluate_derivative c (u + t * (1 - u)) k.
Proof. exact derived_split. Qed.
Print Assumptions C146_split.

(** the first derivative of the quadratic curve, between knots *)
Example C146_hypotheses : exists c c' d, clamped_curve 2 3 2 U_a P_a c /\ get_derivative_curve c 1 = Val c' /\
  curve_new (cknots c') (cpoints c') = Val (Ok d) /\ (mult U_a (1/4) + 1 <= 2 - 1 + 1)%nat /\ simple_below U_a (1/4).
Proof.
  destruct curve_a as [c H]. assert (So : sized 2 3 2 U_a P_a) by (apply clamped_sized; apply H).
  destruct (proj1 C146_rebuilds 2%nat 3%nat 2%nat U_a P_a c 1%nat So ltac:(apply H) ltac:(lia)) as [c' [d [E [N _]]]].
  exists c, c', d. split; [exact H|]. split; [exact E|]. split; [exact N|]. rewrite mult_a_4. split; [lia|apply simple_a; lra].
Qed.
Example C146_division : forall x y : F64, ndiv x y <> Panic /\ ndiv x y <> Diverge.
Proof. intros x y. split; discriminate. Qed.
