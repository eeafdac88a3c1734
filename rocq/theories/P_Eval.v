(** * Properties C01, C02, C03, C07: what evaluation returns *)

From Coq Require Import ZArith Reals List Bool Arith Lra Lia.
From Verif Require Import Num Vec MKnots MPoints MCurve RNum QNum F64 Lists Spec Api Bridge Facts1 Divisions Samples.
Import ListNotations.

(** ** C01.  Evaluating a well-sized curve never panics. *)

(** In every number system whose division itself returns, whatever its
    comparisons and arithmetic do: no out-of-bounds access, no underflow, no
    endless loop, and one component per coordinate. *)
Theorem C01_never_panics : forall K : Num, (forall x y : K, ndiv x y <> Panic /\ ndiv x y <> Diverge) ->
  forall p n dim (U : list K) (P : Mat K) c u k, sized p n dim U P -> built p U P c ->
  evaluate_derivative c u k <> Panic /\ evaluate_derivative c u k <> Diverge /\
  forall v, evaluate_derivative c u k = Val (Ok v) -> length v = dim.
Proof. exact no_panic. Qed.
Print Assumptions C01_never_panics.

(** In binary64 every call returns, for all knots (unsorted, NaN, infinite). *)
Theorem C01_binary64_returns : forall p n dim (U : list F64) (P : Mat F64) c u k,
  sized p n dim U P -> built p U P c -> exists r, evaluate_derivative c u k = Val r.
Proof. exact (always_val F64 gdiv_F64). Qed.
Print Assumptions C01_binary64_returns.

(** In exact arithmetic every call returns: no division by zero is executed. *)
Theorem C01_exact_returns : forall p n dim (U : list RNum) (P : Mat RNum) c u k,
  sized p n dim U P -> built p U P c -> exists r, evaluate_derivative c u k = Val r.
Proof. exact (always_val RNum gdiv_R). Qed.
Print Assumptions C01_exact_returns.

(** a binary64 curve with an unsorted knot vector that contains a NaN *)
Definition U_nan : list F64 := [fmk 0 0; fmk 3 (-1); Flocq.IEEE754.BinarySingleNaN.B754_nan; fmk 1 (-2); fmk 1 0].
Definition P_nan : Mat F64 := mkMat 1 [[fmk 1 0]; [fmk 2 0]; [fmk 7 (-3)]].
Example C01_sized_nan : sized 1 2 1 U_nan P_nan.
Proof.
  split; [lia|]. split; [reflexivity|]. split; [reflexivity|]. split; [reflexivity|].
  intros i Hi. do 3 (destruct i as [|i]; [reflexivity|]). lia.
Qed.
Example C01_built_nan : exists c, built 1 U_nan P_nan c.
Proof. apply (built_ex_gen F64 gdiv_F64 1 2 1). exact C01_sized_nan. Qed.
Example C01_built_real : exists c, sized 2 3 2 U_a P_a /\ built 2 U_a P_a c.
Proof. destruct curve_a as [c H]. exists c. split; [apply clamped_sized|]; apply H. Qed.

(** ** C02.  Parameters outside [0, 1] are rejected, those inside are not. *)

Theorem C02_outside_rejected : forall (K : Num) (c : Curve K) u k, (n0 <=? u)%num && (u <=? n1)%num = false ->
  evaluate_derivative c u k = Val (Err (ParameterOutOfBounds u n0 n1)) /\
  evaluate c u = Val (Err (ParameterOutOfBounds u n0 n1)).
Proof. exact rejects. Qed.
Print Assumptions C02_outside_rejected.

Theorem C02_inside_accepted : forall K : Num, (forall x y : K, ndiv x y <> Panic /\ ndiv x y <> Diverge) ->
  forall p n dim (U : list K) (P : Mat K) c u k, sized p n dim U P -> built p U P c ->
  (n0 <=? u)%num && (u <=? n1)%num = true -> forall e, evaluate_derivative c u k <> Val (Err e).
Proof. exact accepts. Qed.
Print Assumptions C02_inside_accepted.

(** the test on the parameter in the two main number systems *)
Theorem C02_exact_range : forall (c : Curve RNum) (u : R) k, ~ (0 <= u <= 1)%R ->
  evaluate_derivative c u k = Val (Err (ParameterOutOfBounds u 0%R 1%R)).
Proof. exact eval_out. Qed.
Print Assumptions C02_exact_range.

Example C02_nan_rejected : (n0 <=? (Flocq.IEEE754.BinarySingleNaN.B754_nan : F64))%num &&
  ((Flocq.IEEE754.BinarySingleNaN.B754_nan : F64) <=? n1)%num = false.
Proof. reflexivity. Qed.
Example C02_half_inside : ((n0 : F64) <=? fmk 1 (-1))%num && (fmk 1 (-1) <=? n1)%num = true.
Proof. vm_compute. reflexivity. Qed.

(** ** C03.  Evaluation returns the B-spline sum. *)

(** for every sorted knot vector of the right length, clamped or not *)
Theorem C03_evaluate : forall p n dim U P c u, @sized RNum p n dim U P -> sorted U -> @built RNum p U P c -> (0 <= u <= 1)%R ->
  returns (evaluate c u) dim (fun d => spline (kfun U) n p (fun i => ent P i d) u).
Proof. exact sorted_eval0. Qed.
Print Assumptions C03_evaluate.

Theorem C03_evaluate_derivative : forall p n dim U P c u k,
  @sized RNum p n dim U P -> sorted U -> @built RNum p U P c -> (0 <= u <= 1)%R -> (k <= p)%nat ->
  returns (evaluate_derivative c u k) dim (fun d => dspline (kfun U) n p (fun i => ent P i d) k u).
Proof. exact sorted_eval. Qed.
Print Assumptions C03_evaluate_derivative.

Example C03_hypotheses : exists c, sized 3 6 1 U_b P_b /\ sorted U_b /\ built 3 U_b P_b c.
Proof.
  destruct curve_b as [c H]. exists c. split; [apply clamped_sized; apply H|].
  split; [apply (clamped_sorted 3 6); apply H|apply H].
Qed.

(** ** C07.  Derivatives of order above the degree are zero. *)

Theorem C07_high_order_zero : forall K : Num, (forall x y : K, ndiv x y <> Panic /\ ndiv x y <> Diverge) ->
  forall p n dim (U : list K) (P : Mat K) c u k, sized p n dim U P -> built p U P c ->
  (n0 <=? u)%num && (u <=? n1)%num = true -> p < k ->
  evaluate_derivative c u k = Val (Ok (repeat n0 dim)).
Proof. exact high_order. Qed.
Print Assumptions C07_high_order_zero.

Example C07_hypotheses : exists c, sized 1 2 1 U_nan P_nan /\ built 1 U_nan P_nan c /\
  ((n0 : F64) <=? fmk 1 (-1))%num && (fmk 1 (-1) <=? n1)%num = true /\ 1 < 5.
Proof.
  destruct C01_built_nan as [c H]. exists c. split; [exact C01_sized_nan|]. split; [exact H|].
  split; [exact C02_half_inside|lia].
Qed.
