(** * Property C137: knots that are not numbers *)

From Coq Require Import ZArith Reals List Bool Arith Lia Lra.
From Flocq Require Import IEEE754.BinarySingleNaN.
From Verif Require Import Num Vec MKnots MPoints MCurve MFit MMerge RNum F64 Lists Struct Spec Api ApiF ApiJ Bridge Samples Facts11 Float8 Float27.
Import ListNotations.
Local Open Scope R_scope.

(** ** C137.  A NaN among the knots makes [is_normed] panic and [is_sorted] answer no. *)
Theorem C137_nan_knots : forall (U : list f64) p kn, (2 <= length U)%nat -> @knots_new F64 p U = Val kn ->
  (exists x, In x U /\ is_nan x = true) -> is_normed kn = Panic /\ is_sorted kn = Val false.
Proof. exact (fun U p kn L E => normed_nan U L p kn E). Qed.
Print Assumptions C137_nan_knots.

(** Without NaN, infinities included, [is_normed] answers whether the smallest knot is 0
    and the largest 1. *)
Theorem C137_number_knots : forall (U : list f64) p kn, (2 <= length U)%nat -> @knots_new F64 p U = Val kn ->
  (forall x, In x U -> is_nan x = false) -> exists b, is_normed kn = Val b /\
    (b = true <-> (exists x, In x U /\ (x ==? n0)%num = true) /\ (exists x, In x U /\ (x ==? n1)%num = true) /\
                  forall x, In x U -> (n0 <=? x)%num = true /\ (x <=? n1)%num = true).
Proof. exact (fun U p kn L E => normed_number U L p kn E). Qed.
Print Assumptions C137_number_knots.

(** So merging panics if the first curve, clamped at its ends, has a NaN knot, or if the
    first curve is normed and the second has a NaN knot. *)
Theorem C137_merge : forall svd p m dim V P a o W Q b pa pb,
  @sized F64 p m dim V P -> @built F64 p V P a -> @sized F64 p o dim W Q -> @built F64 p W Q b -> float_ends p V -> float_ends p W ->
  (exists x, In x V /\ is_nan x = true) \/ ((forall x, In x V -> finite x /\ 0 <= val x <= 1) /\ exists x, In x W /\ is_nan x = true) ->
  merge_with_constraints svd (mkCC a pa) (mkCC b pb) = Panic.
Proof. exact merge_nan. Qed.
Print Assumptions C137_merge.

(** a quadratic on the knots 0 0 0 1/4 1 1 1, and on 0 0 0 NaN 1 1 1 *)
Example C137_hypotheses : exists V a b, V = [q4 0; q4 0; q4 0; B754_nan; q4 4; q4 4; q4 4] /\
  @sized F64 2 3 1 U_f P_f /\ @built F64 2 U_f P_f a /\ @sized F64 2 3 1 V P_f /\ @built F64 2 V P_f b /\ float_ends 2 U_f /\ float_ends 2 V /\
  (forall x, In x U_f -> finite x /\ 0 <= val x <= 1) /\ (exists x, In x V /\ is_nan x = true).
Proof.
  destruct curve_f as [a [[F _] [SP [_ B]]]]. set (V := [q4 0; q4 0; q4 0; B754_nan; q4 4; q4 4; q4 4] : list f64). exists V.
  destruct (okb_ex (build 2 V P_f) (fun _ => true)) as [b [E _]]; [vm_compute; reflexivity|]. assert (Hb := build_built 2 V P_f b E). clear E.
  exists a, b. split; [reflexivity|]. split; [split; [lia|split; [reflexivity|exact SP]]|]. split; [exact B|]. split; [split; [lia|split; [reflexivity|exact SP]]|]. split; [exact Hb|].
  assert (E0 : @neqb F64 (q4 0) n0 = true) by (vm_compute; reflexivity). assert (E1 : @neqb F64 (q4 4) n1 = true) by (vm_compute; reflexivity).
  split; [intros i Hi; change (@length f64 U_f) with 7%nat in *; do 7 (destruct i as [|i]; [split; intros H; first [exact E0|exact E1|lia]|]); lia|].
  split; [intros i Hi; change (@length f64 V) with 7%nat in *; do 7 (destruct i as [|i]; [split; intros H; first [exact E0|exact E1|lia]|]); lia|].
  split; [|exists B754_nan; split; [unfold V; cbn [In]; auto 10|reflexivity]].
  intros x Hx. split; [apply F, Hx|]. assert (X : In (val x) (map val U_f)) by (apply in_map, Hx). rewrite val_U_f in X. repeat (destruct X as [<-|X]; [lra|]). destruct X.
Qed.
