(** * General forms of C42, C50, C52, C53, C104 *)

From Coq Require Import ZArith Reals List Bool Arith Lia Lra.
From Flocq Require Import IEEE754.BinarySingleNaN.
From Verif Require Import Num Vec MKnots MPoints MCurve MFit MGenerate RNum F64 Lists Struct Spec Api ApiF Bridge Facts1 Facts9 Facts11 Samples Float8 Float17 Split3 Incoherent Universal.
Import ListNotations.
Local Open Scope R_scope.

(** ** C42.  Which knots come back exactly when a curve is reversed twice in binary64:
    the multiples of [2^-53], and no others. *)
Theorem C42_which_knots_return : forall p n dim (U : list f64) P c, float_knots p n U -> shape dim (S n) P -> @built F64 p U P c ->
  exists c1 c2 V, @reverse F64 c = Val c1 /\ @reverse F64 c1 = Val c2 /\ vector (cknots c2) = Val V /\
    forall i, (i < n + p + 2)%nat -> (val (nth i V (@n0 F64)) = val (nth i U (@n0 F64)) <-> exists m, val (nth i U (@n0 F64)) = IZR m / 2 ^ 53).
Proof. exact reverse_back. Qed.
Print Assumptions C42_which_knots_return.

Example C42_hypotheses : exists c, float_knots 2 3 U_f /\ shape 1 4 P_f /\ @built F64 2 U_f P_f c.
Proof. destruct curve_f as [c [H1 [H2 [_ H3]]]]. exists c. auto. Qed.

(** ** C50.  split panics for every curve that has a repeated knot below the parameter,
    if the parameter is a repeated knot itself, with or without normalisation. *)
Theorem C50_behind_repeated_refuted : forall p n dim (U : list F64) P c (u : F64) flags j k, (0 < p)%nat -> sized p n dim U P -> built p U P c ->
  (n0 <? u)%num = true -> (u <? n1)%num = true -> (p < j < n)%nat -> (nth (j + 1) U n0 ==? nth j U n0)%num = true ->
  (forall i, (i <= j)%nat -> (nth i U n0 <? u)%num = true) ->
  (p <= k <= n)%nat -> (nth k U n0 ==? u)%num = true -> (nth (k + 1) U n0 ==? u)%num = true ->
  split_and_normalize c u flags = Panic.
Proof. exact split_panics. Qed.
Print Assumptions C50_behind_repeated_refuted.

(** in exact arithmetic it does not return either *)
Theorem C50_behind_repeated_exact_refuted : forall p n dim U P c u flags j, clamped_curve p n dim U P c -> (0 < p)%nat -> 0 < u < 1 ->
  (p < j < n)%nat -> nth j U 0 = nth (j + 1) U 0 -> nth j U 0 < u -> (2 <= mult U u)%nat ->
  forall r, split_and_normalize (K := RNum) c u flags <> Val r.
Proof. exact split_never_R. Qed.
Print Assumptions C50_behind_repeated_exact_refuted.

Definition U_50 : list F64 := map q4 [0; 0; 1; 1; 3; 3; 4; 4]%Z.
Example C50_hypotheses : exists c : Curve F64, sized 1 5 1 U_50 (row [0; 4; 0; 4; 8; 3]%Z) /\ built 1 U_50 (row [0; 4; 0; 4; 8; 3]%Z) c /\
  (n0 <? q4 3)%num = true /\ (q4 3 <? n1)%num = true /\ (1 < 2 < 5)%nat /\ (nth (2 + 1) U_50 n0 ==? nth 2 U_50 n0)%num = true /\
  (forall i, (i <= 2)%nat -> (nth i U_50 n0 <? q4 3)%num = true) /\
  (1 <= 4 <= 5)%nat /\ (nth 4 U_50 n0 ==? q4 3)%num = true /\ (nth (4 + 1) U_50 n0 ==? q4 3)%num = true.
Proof.
  destruct split_panic_witness as [c [H1 [H2 _]]]. exists c. split; [exact H1|]. split; [exact H2|].
  split; [vm_compute; reflexivity|]. split; [vm_compute; reflexivity|]. split; [lia|]. split; [vm_compute; reflexivity|].
  split; [intros i Hi; do 3 (destruct i as [|i]; [vm_compute; reflexivity|]); lia|]. split; [lia|]. split; vm_compute; reflexivity.
Qed.

(** ** C52.  Whatever degree is requested with given knots, as long as it does not exceed
    the number of segments: the curve is that of [Curve::new] and has the degree of the
    knots (every number system). *)
Theorem C52_degree_of_the_knots_refuted : forall (K : Num) (svd : Mat K -> Mat K -> M (Mat K)) p U q kn (P : Mat K) dim n,
  shape dim (S n) P -> (q <= n)%nat -> knots_new p U = Val kn ->
  generate svd (Manual q (cp_new P) (GManual kn)) = curve_new kn (cp_new P) /\
  forall c, generate svd (Manual q (cp_new P) (GManual kn)) = Val (Ok c) -> degree c = p.
Proof. exact @manual_degree_of_knots. Qed.
Print Assumptions C52_degree_of_the_knots_refuted.

Example C52_hypotheses : shape 2 4 P_a /\ (1 <= 3)%nat /\ exists kn, @knots_new RNum 2 U_a = Val kn.
Proof. split; [exact P_a_shape|]. split; [lia|]. eexists. reflexivity. Qed.

(** ** C53.  Exactly when the normalised derivative vector of order [k] is that of the
    normalised knots: when the outer [k + 1] knots coincide at both ends. *)
Theorem C53_coherent_iff : forall p n (U : list R) kn, length U = (n + p + 2)%nat -> (p <= n)%nat -> sorted U -> nth p U 0 < nth (n + 1) U 0 ->
  @knots_new RNum p U = Val kn ->
  exists kn' U' kn'', knots_normalize kn = Val kn' /\ vector kn' = Val U' /\ knots_new p U' = Val kn'' /\
    forall k, (k <= p)%nat -> (vector_derivative kn' k = vector_derivative kn'' k <->
      nth k U 0 = nth 0 U 0 /\ nth (n + p + 1 - k) U 0 = nth (n + p + 1) U 0).
Proof. exact normalize_iff. Qed.
Print Assumptions C53_coherent_iff.

Example C53_hypotheses : length [0; 1; 2; 3] = (1 + 1 + 2)%nat /\ (1 <= 1)%nat /\ sorted [0; 1; 2; 3] /\ nth 1 [0; 1; 2; 3] 0 < nth (1 + 1) [0; 1; 2; 3] 0 /\
  exists kn, @knots_new RNum 1 [0; 1; 2; 3] = Val kn.
Proof.
  split; [reflexivity|]. split; [lia|]. split; [apply sorted_steps; intros i Hi; cbn [length] in Hi; cases i|]. split; [cbn; lra|]. eexists. reflexivity.
Qed.

(** ** C104.  On every curve: a coordinate that is not finite, of any control point
    behind the active ones, turns that coordinate of the result into NaN. *)
Theorem C104_spoiled_refuted : forall p n dim (U : list f64) P c (u : f64) j i d, float_knots p n U -> shape dim (S n) P ->
  @built F64 p U P c -> (p <= 100)%nat -> finite u -> (p <= j <= n)%nat ->
  nth j (map val U) 0 <= val u < nth (S j) (map val U) 0 ->
  (j < i <= n)%nat -> (d < dim)%nat -> is_finite (ent P i d) = false ->
  exists v, @evaluate F64 c u = Val (Ok v) /\ length v = dim /\ is_nan (nth d v (@n0 F64)) = true.
Proof. exact spoiled. Qed.
Print Assumptions C104_spoiled_refuted.

Definition P_inf : Mat F64 := mkMat 1 [[q4 0]; [q4 4]; [q4 1]; [B754_infinity false : f64]].
Example C104_hypotheses : exists c, float_knots 2 3 U_f /\ shape 1 4 P_inf /\ @built F64 2 U_f P_inf c /\
  nth 2 (map val U_f) 0 <= val (q4 0) < nth 3 (map val U_f) 0 /\ is_finite (ent P_inf 3 0 : f64) = false.
Proof.
  destruct (okb_ex (build 2 U_f P_inf) (fun _ => true)) as [c [E _]]; [vm_compute; reflexivity|].
  apply build_built in E. exists c. split; [exact U_f_float|].
  split. { split; [reflexivity|split; [reflexivity|intros i Hi; cases i]]. }
  split; [exact E|]. split; [|reflexivity]. unfold U_f. cbn [map nth]. rewrite ?val_q4_0, ?val_q4_1. lra.
Qed.
