(** * Property C122: every call comes to an end *)

From Coq Require Import ZArith List Bool Arith.
From Verif Require Import Num Vec MKnots MPoints MCurve MFit MGenerate MMerge F64 ApiT Total.
Import ListNotations.

(** ** C122.  Whatever the curve (also one with unsorted knots, wrong sizes or
    NaN), the parameter, the order and the options, no call runs forever: it
    returns, with a value or an error, or it panics. *)
Theorem C122_searches_end : forall K : Num, divides K -> forall (kn : Knots K) u k i,
  (forall cmp, ends K (find_idx kn u k cmp)) /\ ends K (multiplicity kn u) /\ ends K (segments_derivative kn k) /\ ends K (internal_knot kn i) /\
  ends K (domain_derivative kn k) /\ ends K (domain_knot kn i) /\ ends K (is_clamped kn) /\ ends K (is_normed kn) /\ ends K (is_sorted kn) /\ ends K (is_uniform kn) /\
  ends K (knots_reverse kn) /\ ends K (knots_normalize kn) /\ (forall old new, ends K (knots_rescale kn old new)) /\ (forall p U, ends K (@knots_new K p U)).
Proof.
  exact (fun K H kn u k i => conj (e_find_idx kn u k) (conj (e_multiplicity kn u) (conj (e_segments_derivative kn k) (conj (e_internal_knot kn i)
    (conj (e_domain_derivative kn k) (conj (e_domain_knot kn i) (conj (e_is_clamped kn) (conj (e_is_normed kn) (conj (e_is_sorted kn) (conj (e_is_uniform H kn)
    (conj (e_knots_reverse kn) (conj (e_knots_normalize H kn) (conj (e_knots_rescale H kn) (@e_knots_new K)))))))))))))).
Qed.
Print Assumptions C122_searches_end.

Theorem C122_curve_calls_end : forall K : Num, divides K -> forall (c : Curve K) u k,
  ends K (evaluate_derivative c u k) /\ ends K (evaluate c u) /\ ends K (get_derivative_curve c k) /\ ends K (max_derivative c) /\ ends K (reverse c) /\
  ends K (insert c u) /\ ends K (insert_times c u k) /\ (forall flags, ends K (split_and_normalize c u flags)) /\ (forall kn P, ends K (@curve_new K kn P)).
Proof.
  exact (fun K H c u k => conj (e_evaluate_derivative H c u k) (conj (e_evaluate_derivative H c u 0) (conj (e_get_derivative_curve c k) (conj (e_max_derivative c) (conj (e_reverse c)
    (conj (e_insert H c u) (conj (e_insert_times H k c u) (conj (e_split H c u) (e_curve_new H))))))))).
Qed.
Print Assumptions C122_curve_calls_end.

Theorem C122_generation_and_merge_end : forall (K : Num) svd, divides K -> stops K svd ->
  (forall g : Generation (K := K), ends K (generate svd g)) /\ (forall a b : ConstrainedCurve K, ends K (merge_with_constraints svd a b)).
Proof. exact (fun K svd H HS => conj (e_generate H svd HS) (e_merge H svd HS)). Qed.
Print Assumptions C122_generation_and_merge_end.

(** In binary64 a call that ends returns or panics. *)
Theorem C122_binary64 : divides F64 /\ forall A (m : M A), ends F64 m -> (exists a, m = Val a) \/ m = Panic.
Proof. exact (conj F64_divides (@F64_ends)). Qed.
Print Assumptions C122_binary64.

(** a solver that comes to an end *)
Example C122_hypotheses : divides F64 /\ stops F64 (fun A B : Mat F64 => Val (@mzeros F64 (ncols A) (ncols B))).
Proof. split; [exact F64_divides|]. intros a b. split; discriminate. Qed.
