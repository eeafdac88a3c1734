(** * Properties C16, C17, C41, C43: knot insertion *)

From Coq Require Import ZArith Reals List Bool Arith Lra Lia Permutation.
From Verif Require Import Num Vec MKnots MPoints MCurve RNum F64 Lists Spec Api Facts1 Facts6 Facts9 Facts11 Samples.
Import ListNotations.
Local Open Scope R_scope.

(** ** C16.  insert_times(u, x) adds the knot u x times and changes nothing else:
    the new curve has the same values, derivatives and errors everywhere. *)
Theorem C16_insert_times : forall x p n dim U P c u, clamped_curve p n dim U P c -> 0 < u < 1 ->
  (mult U u + x <= p + 1)%nat -> simple_below U u ->
  exists c' U' P', insert_times c u x = Val (c', Ok tt) /\ clamped_curve p (n + x) dim U' P' c' /\
    Permutation (repeat u x ++ U) U' /\ same_function c c'.
Proof. exact insert_times_exact. Qed.
Print Assumptions C16_insert_times.

Theorem C16_insert : forall p n dim U P c u, clamped_curve p n dim U P c -> 0 < u < 1 ->
  (mult U u <= p)%nat -> simple_below U u ->
  exists c' U' P', curve_insert c u = Val (c', Ok tt) /\ clamped_curve p (S n) dim U' P' c' /\
    Permutation (u :: U) U' /\ same_function c c'.
Proof. exact curve_insert_exact. Qed.
Print Assumptions C16_insert.

(** at the double knot of the cubic curve *)
Example C16_hypotheses : exists c, clamped_curve 3 6 1 U_b P_b c /\ (mult U_b (1/4) + 2 <= 3 + 1)%nat /\ simple_below U_b (1/4).
Proof. destruct curve_b as [c H]. exists c. split; [exact H|]. rewrite mult_b. split; [lia|]. apply simple_b. lra. Qed.

(** ** C17.  Errors and size of the result.  In every number system whose division
    returns a number (binary64) ... *)
Theorem C17_insert_any : forall K : Num, (forall x y : K, exists z, ndiv x y = Val z) ->
  forall p n dim (U : list K) (P : Mat K) c u, sized p n dim U P -> built p U P c ->
  let m := length (filter (fun x => (x ==? u)%num) (firstn (n - p + 2) (skipn p U))) in
  if ((u <=? n0) || (n1 <=? u))%num then curve_insert c u = Val (c, Err (IOutOfBounds u n0 n1))
  else if (p <? m)%nat then curve_insert c u = Val (c, Err (IMultiplicityError u m p))
  else exists c' l P', curve_insert c u = Val (c', Ok tt) /\ (p <= l <= n)%nat /\
         sized p (S n) dim (firstn (l + 1) U ++ u :: skipn (l + 1) U) P' /\
         built p (firstn (l + 1) U ++ u :: skipn (l + 1) U) P' c'.
Proof. exact insert_total. Qed.
Print Assumptions C17_insert_any.

Example C17_binary64_division : forall x y : F64, exists z, ndiv x y = Val z.
Proof. intros x y. eexists. reflexivity. Qed.

(** ... and exactly, on clamped sorted knots *)
Theorem C17_insert_exact : forall p n dim U P c u, clamped_curve p n dim U P c -> simple_below U u ->
  (~ (0 < u < 1) /\ curve_insert c u = Val (c, Err (IOutOfBounds u n0 n1))) \/
  (0 < u < 1 /\ (p < mult U u)%nat /\ curve_insert c u = Val (c, Err (IMultiplicityError u (mult U u) p))) \/
  (0 < u < 1 /\ (mult U u <= p)%nat /\ exists c' U' P', curve_insert c u = Val (c', Ok tt) /\
      clamped_curve p (S n) dim U' P' c' /\ Permutation (u :: U) U').
Proof. exact insert_cases. Qed.
Print Assumptions C17_insert_exact.

Example C17_hypotheses : exists c, clamped_curve 2 3 2 U_a P_a c /\ simple_below U_a (3/4).
Proof. destruct curve_a as [c H]. exists c. split; [exact H|]. apply simple_a. lra. Qed.

(** ** C41.  Inserting a knot behind a repeated internal knot does NOT keep the
    knots sorted, for any curve; and it changes the curve: degree 2, knots
    0 0 0 1/2 1/2 1 1 1, control points 0, 1, 1/4, 1, -2.  Inserting 3/4 moves
    evaluate(1/2) from 1/4 to 1/2 (binary64, all operations exact). *)
Theorem C41_insert_everywhere_refuted :
  (forall p n dim U P c u j, clamped_curve p n dim U P c -> 0 < u < 1 -> (forall x, 0 < x < 1 -> (mult U x <= p)%nat) ->
     (p < j < n)%nat -> nth j U 0 = nth (j + 1) U 0 -> nth j U 0 < u ->
     exists c' U', curve_insert c u = Val (c', Ok tt) /\ vector (cknots c') = Val U' /\ ~ sorted U') /\
  exists (c c' : Curve F64) x y,
    built 2 (map q4 [0; 0; 0; 2; 2; 4; 4; 4]%Z) (row [0; 4; 1; 4; -8]%Z) c /\ curve_insert c (q4 3) = Val (c', Ok tt) /\
    evaluate c (q4 2) = Val (Ok x) /\ evaluate c' (q4 2) = Val (Ok y) /\
    neqb (nth 0 x n0) (fmk 1 (-2)) = true /\ neqb (nth 0 y n0) (fmk 1 (-1)) = true.
Proof. exact (conj insert_beyond_repeated c41_witness). Qed.
Print Assumptions C41_insert_everywhere_refuted.

Example C41_hypotheses : exists c, clamped_curve 3 6 1 U_b P_b c /\ (forall x, 0 < x < 1 -> (mult U_b x <= 3)%nat) /\
  nth 4 U_b 0 = nth 5 U_b 0 /\ nth 4 U_b 0 < 1/2.
Proof. destruct curve_b as [c H]. exists c. split; [exact H|]. split; [exact mult_b_le|]. cbn. lra. Qed.

(** ** C43.  A failing insert_times does NOT leave the curve unchanged: it keeps
    the insertions made before the error. *)
Theorem C43_insert_times_atomic_refuted : forall p n dim U P c u x, clamped_curve p n dim U P c -> 0 < u < 1 ->
  (mult U u <= p + 1 < mult U u + x)%nat -> simple_below U u ->
  exists c' U' P', insert_times c u x = Val (c', Err (IMultiplicityError u (p + 1) p)) /\
    clamped_curve p (n + (p + 1 - mult U u)) dim U' P' c' /\ same_function c c'.
Proof. exact insert_times_over. Qed.
Print Assumptions C43_insert_times_atomic_refuted.

(** three points are added before the error *)
Example C43_hypotheses : exists c, clamped_curve 2 3 2 U_a P_a c /\ (mult U_a (1/4) <= 2 + 1 < mult U_a (1/4) + 4)%nat /\
  simple_below U_a (1/4) /\ (3 + (2 + 1 - mult U_a (1/4)) <> 3)%nat.
Proof.
  destruct curve_a as [c H]. exists c. split; [exact H|]. rewrite mult_a_4. split; [lia|]. split; [apply simple_a; lra|lia].
Qed.
