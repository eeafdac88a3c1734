(** * Properties C18, C19, C50, C63, C64: splitting a curve, mapping its knots *)

From Coq Require Import ZArith Reals List Bool Arith Lra Lia.
From Verif Require Import Num Vec MKnots MPoints MCurve RNum F64 Lists Spec Api Bridge Facts1 Facts8 Facts9 Facts11 Samples Split2.
Import ListNotations.
Local Open Scope R_scope.

(** ** C18.  The two halves trace the two parts of the curve; their k-th derivatives
    are scaled by u^k and (1-u)^k. *)
Theorem C18_split : forall p n dim U P c u, clamped_curve p n dim U P c -> 0 < u < 1 -> (mult U u <= p)%nat -> simple_below U u ->
  exists cl cr nl nr Ul Pl Ur Pr, split c u = Val (Ok (cl, cr)) /\
    clamped_curve p nl dim Ul Pl cl /\ clamped_curve p nr dim Ur Pr cr /\ (nl + nr = n + p - mult U u)%nat /\
    forall t, 0 <= t <= 1 ->
      (evaluate cl t = evaluate c (t * u) /\ evaluate cr t = evaluate c (u + t * (1 - u))) /\
      forall k, (k <= p)%nat ->
      exists x y xr yr,
        evaluate_derivative c (t * u) k = Val (Ok x) /\ evaluate_derivative cl t k = Val (Ok y) /\
        evaluate_derivative c (u + t * (1 - u)) k = Val (Ok xr) /\ evaluate_derivative cr t k = Val (Ok yr) /\
        length x = dim /\ length y = dim /\ length xr = dim /\ length yr = dim /\
        forall d, (d < dim)%nat -> ((t = 1 -> (mult U u <= p - k)%nat) -> nth d y 0 = u ^ k * nth d x 0) /\ nth d yr 0 = (1 - u) ^ k * nth d xr 0.
Proof. exact split_exact. Qed.
Print Assumptions C18_split.

(** between knots, and at a double knot *)
Example C18_hypotheses_a : exists c, clamped_curve 2 3 2 U_a P_a c /\ (mult U_a (1/4) <= 2)%nat /\ simple_below U_a (1/4).
Proof. destruct curve_a as [c H]. exists c. split; [exact H|]. rewrite mult_a_4. split; [lia|apply simple_a; lra]. Qed.
Example C18_hypotheses_b : exists c, clamped_curve 3 6 1 U_b P_b c /\ (mult U_b (1/4) <= 3)%nat /\ simple_below U_b (1/4).
Proof. destruct curve_b as [c H]. exists c. split; [exact H|]. rewrite mult_b. split; [lia|apply simple_b; lra]. Qed.

(** ** C19.  Errors: out of bounds in every number system ... *)
Theorem C19_split_out_of_bounds : forall (K : Num) (c : Curve K) u,
  ((u <=? n0)%num || (n1 <=? u)%num = true -> split c u = Val (Err (SOutOfBounds u n0 n1))) /\
  (forall v a b, split c u = Val (Err (SOutOfBounds v a b)) -> (u <=? n0)%num || (n1 <=? u)%num = true).
Proof. exact split_out_iff. Qed.
Print Assumptions C19_split_out_of_bounds.

(** ... and all outcomes, exactly, on clamped sorted knots *)
Theorem C19_split_cases : forall p n dim U P c u, clamped_curve p n dim U P c -> simple_below U u ->
  (~ (0 < u < 1) /\ split c u = Val (Err (SOutOfBounds u n0 n1))) \/
  (0 < u < 1 /\ (p < mult U u)%nat /\ split c u = Val (Err (MultiplicityTooHigh u p (mult U u)))) \/
  (0 < u < 1 /\ (mult U u <= p)%nat /\ exists cl cr, split c u = Val (Ok (cl, cr))).
Proof. exact split_cases. Qed.
Print Assumptions C19_split_cases.

Example C19_hypotheses : exists c, clamped_curve 2 3 2 U_a P_a c /\ simple_below U_a (1/2).
Proof. destruct curve_a as [c H]. exists c. split; [exact H|]. apply simple_a. lra. Qed.

(** ** C50.  split does NOT always return: with the knots 0 0 1/4 1/4 3/4 3/4 1 1
    of degree 1, split(3/4) panics instead of reporting the multiplicity. *)
Theorem C50_split_returns_refuted : exists c : Curve F64,
  sized 1 5 1 (map q4 [0; 0; 1; 1; 3; 3; 4; 4]%Z) (row [0; 4; 0; 4; 8; 3]%Z) /\
  built 1 (map q4 [0; 0; 1; 1; 3; 3; 4; 4]%Z) (row [0; 4; 0; 4; 8; 3]%Z) c /\ split c (q4 3) = Panic.
Proof. exact split_panic_witness. Qed.
Print Assumptions C50_split_returns_refuted.

(** ** C63.  Splitting without normalising a part leaves that part on its own range of
    parameters, where it is the original curve with all its derivatives.  (At the
    right end of the left part the derivative is the left-hand one, which is the
    derivative of the curve when the curve is smooth enough there.) *)
Theorem C63_split_flags : forall p n dim U P c u, clamped_curve p n dim U P c -> 0 < u < 1 -> (mult U u <= p)%nat -> simple_below U u ->
  exists cl cr, split c u = Val (Ok (cl, cr)) /\ forall fl fr, exists l r, split_and_normalize c u (fl, fr) = Val (Ok (l, r)) /\
    (fl = true -> l = cl) /\ (fr = true -> r = cr) /\
    (fl = false -> forall x k, 0 <= x <= u -> (k <= p)%nat -> (x = u -> (mult U u <= p - k)%nat) -> evaluate_derivative l x k = evaluate_derivative c x k) /\
    (fl = false -> evaluate l u = evaluate c u) /\
    (fr = false -> forall x k, u <= x <= 1 -> (k <= p)%nat -> evaluate_derivative r x k = evaluate_derivative c x k).
Proof. exact split_flags. Qed.
Print Assumptions C63_split_flags.

Example C63_hypotheses : exists c, clamped_curve 3 6 1 U_b P_b c /\ (mult U_b (1/4) <= 3)%nat /\ simple_below U_b (1/4).
Proof. destruct curve_b as [c H]. exists c. split; [exact H|]. rewrite mult_b. split; [lia|apply simple_b; lra]. Qed.

(** ** C64.  Mapping the knots by [x -> a x + b] reparametrises the curve. *)
Theorem C64_mapped_knots : forall p n dim U P c c' a b u k, @sized RNum p n dim U P -> sorted U -> @built RNum p U P c -> 0 < a ->
  @built RNum p (map (fun x => a * x + b) U) P c' -> 0 <= u <= 1 -> 0 <= a * u + b <= 1 -> (k <= p)%nat ->
  exists x y, evaluate_derivative c u k = Val (Ok x) /\ evaluate_derivative c' (a * u + b) k = Val (Ok y) /\
    length x = dim /\ length y = dim /\ forall d, (d < dim)%nat -> nth d x 0 = a ^ k * nth d y 0.
Proof. exact rescaled_curve. Qed.
Print Assumptions C64_mapped_knots.

(** the quadratic squeezed into [[1/4, 3/4]] *)
Example C64_hypotheses : exists c c', sized 2 3 2 U_a P_a /\ sorted U_a /\ built 2 U_a P_a c /\ built 2 (map (fun x => 1 / 2 * x + 1 / 4) U_a) P_a c'.
Proof.
  destruct curve_a as [c H].
  assert (S : @sized RNum 2 3 2 U_a P_a) by (split; [lia|split; [reflexivity|exact P_a_shape]]).
  destruct (built_ex 2 3 2 (map (fun x => 1 / 2 * x + 1 / 4) U_a) P_a) as [c' B]; [lia|reflexivity|exact P_a_shape|].
  exists c, c'. split; [exact S|]. split; [exact (clamped_sorted' 2 3 _ U_a_clamped)|]. split; [apply H|exact B].
Qed.
