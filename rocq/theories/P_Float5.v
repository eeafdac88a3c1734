(** * Properties C112 to C114: NaN parameters, interpolation in binary64, constant curves *)

From Coq Require Import ZArith Reals List Bool Arith Lra Lia.
From Flocq Require Import Core.Core IEEE754.BinarySingleNaN.
From Verif Require Import Num Vec MKnots MPoints MCurve MFit MGenerate RNum F64 Lists Spec Api ApiF Facts11 Samples Float1 Float8 Float17 Float18 Float19.
Import ListNotations.
Local Open Scope R_scope.

(** ** C112.  insert and split do NOT reject the parameter NaN: on every curve insert
    succeeds, NaN becomes a knot and p control points become NaN in every coordinate;
    on the curve below the evaluation at 1/4 turns from a number into NaN, and split
    succeeds with a left part that evaluates to NaN. *)
Theorem C112_nan_rejected_refuted :
  (forall p n dim (U : list f64) P c, @sized F64 p n dim U P -> built p U P c ->
    exists c' l P', curve_insert c (B754_nan : f64) = Val (c', Ok tt) /\ (p <= l <= n)%nat /\
      @sized F64 p (S n) dim (firstn (l + 1) U ++ (B754_nan : f64) :: skipn (l + 1) U) P' /\
      built p (firstn (l + 1) U ++ (B754_nan : f64) :: skipn (l + 1) U) P' c' /\
      forall i d, (l - p < i <= l)%nat -> (d < dim)%nat -> ent P' i d = B754_nan) /\
  exists (c : Curve F64) c' x y cl cr z,
    built 2 (map q4 [0; 0; 0; 2; 4; 4; 4]%Z) (row [0; 4; 1; 4]%Z) c /\ evaluate c (q4 1) = Val (Ok x) /\ is_finite (nth 0 x n0) = true /\
    curve_insert c (B754_nan : f64) = Val (c', Ok tt) /\ evaluate c' (q4 1) = Val (Ok y) /\ is_nan (nth 0 y n0) = true /\
    split c (B754_nan : f64) = Val (Ok (cl, cr)) /\ evaluate cl (q4 1) = Val (Ok z) /\ is_nan (nth 0 z n0) = true.
Proof. split; [exact insert_nan|exact nan_witness]. Qed.
Print Assumptions C112_nan_rejected_refuted.

Example C112_hypotheses : exists c, @sized F64 2 3 1 U_f P_f /\ built 2 U_f P_f c.
Proof.
  destruct curve_f as [c [H1 [H2 [_ H3]]]]. exists c. split; [|exact H3]. split; [lia|]. split; [reflexivity|exact H2].
Qed.

(** ** C113.  Interpolation in binary64.  The matrix handed to the linear solver holds
    the computed basis functions at the computed parameters.  Whatever the solver
    returns: if it is finite, at most [M] in size and leaves at most [r] over in each
    equation, then the curve passes the data within [r + (11 p + 5) 2^-53 M]. *)
Theorem C113_interpolation : forall p m dim (D : Mat F64), (1 <= p <= m)%nat -> (p <= 100)%nat -> (Z.of_nat m < 2 ^ 50)%Z -> shape dim (S m) D ->
  exists kn v A, @uniform F64 p m = Val (Ok kn) /\ @equally_spaced F64 m = Val (mkParams v m) /\ shape (S m) (S m) A /\
    (forall g i, (g <= m)%nat -> (i <= m)%nat -> kevaluate kn 0 i p (nth g v (@n0 F64)) = Val (ent A i g)) /\
    forall (svd : Mat F64 -> Mat F64 -> Num.M (Mat F64)) (X : Mat F64) (r M : R),
      svd A (mtranspose D) = Val X -> shape (S m) dim X ->
      (forall i d, (i <= m)%nat -> (d < dim)%nat -> finite (ent X d i) /\ Rabs (val (ent X d i)) <= M) ->
      (forall g d, (g <= m)%nat -> (d < dim)%nat -> Rabs (rsum (fun i => val (ent A i g) * val (ent X d i)) (S m) - val (ent D g d)) <= r) ->
      / 2 ^ 1000 <= M <= 2 ^ 1022 ->
      exists c, generate svd (Interpolation p D) = Val (Ok c) /\
        forall g, (g <= m)%nat -> returns_within (@evaluate F64 c (nth g v (@n0 F64))) dim (fun d => val (ent D g d)) (r + (11 * INR p + 5) * / 2 ^ 53 * M).
Proof. exact interpolation_F64. Qed.
Print Assumptions C113_interpolation.

(** the points 0, 1, 0 in degree 2: the solution 0, 2, 0 leaves nothing over *)
Example C113_hypotheses : exists kn v (A X : Mat F64), @uniform F64 2 2 = Val (Ok kn) /\ @equally_spaced F64 2 = Val (mkParams v 2) /\ shape 3 3 A /\
  (forall g i, (g <= 2)%nat -> (i <= 2)%nat -> kevaluate kn 0 i 2 (nth g v (@n0 F64)) = Val (ent A i g)) /\ shape 1 3 (row [0; 4; 0]%Z) /\ shape 3 1 X /\
  (forall i d, (i <= 2)%nat -> (d < 1)%nat -> finite (ent X d i) /\ Rabs (val (ent X d i)) <= 2) /\
  (forall g d, (g <= 2)%nat -> (d < 1)%nat -> Rabs (rsum (fun i => val (ent A i g) * val (ent X d i)) 3 - val (ent (row [0; 4; 0]%Z) g d)) <= 0) /\
  / 2 ^ 1000 <= 2 <= 2 ^ 1022.
Proof.
  pose (a := fun g i : nat => nth g (nth i [[4; 1; 0]; [0; 2; 0]; [0; 1; 4]]%Z []) 0%Z).
  assert (B : okb (@uniform F64 2 2) (fun kn => valb (@equally_spaced F64 2) (fun q => forallb (fun g => forallb (fun i =>
    valb (kevaluate kn 0 i 2 (nth g (pvector q) (@n0 F64))) (fun x => is_finite x && Beqb x (q4 (a g i)))) (seq 0 3)) (seq 0 3))) = true) by (vm_compute; reflexivity).
  assert (SD : shape 1 3 (row [0; 4; 0]%Z)) by (split; [reflexivity|]; split; [reflexivity|]; intros i Hi; cases i; reflexivity).
  destruct (interpolation_F64 2 2 1 (row [0; 4; 0]%Z) ltac:(lia) ltac:(lia) ltac:(reflexivity) SD) as [kn [v [A [E1 [E2 [SA [HA _]]]]]]].
  rewrite E1, E2 in B. cbn [okb valb pvector] in B.
  assert (V : forall g i, (g <= 2)%nat -> (i <= 2)%nat -> val (ent A i g) = val (q4 (a g i))).
  { intros g i Hg Hi. rewrite forallb_forall in B. specialize (B g ltac:(apply in_seq; lia)). rewrite forallb_forall in B. specialize (B i ltac:(apply in_seq; lia)).
    rewrite (HA g i Hg Hi) in B. cbn [valb] in B. apply andb_true_iff in B. destruct B as [B1 B2]. rewrite eqb_val in B2; [|exact B1|unfold a; destruct g as [|[|[|g]]]; [| | |lia]; (destruct i as [|[|[|i]]]; [| | |lia]); reflexivity].
    destruct (Req_bool_spec (val (ent A i g)) (val (q4 (a g i)))); [assumption|discriminate B2]. }
  exists kn, v, A, (@mkMat F64 3 [map q4 [0; 8; 0]%Z]). repeat (split; [assumption|]).
  assert (V2 : val (q4 8) = 2) by (rewrite <- q4_SF; vm_compute B2SF; unfold SF2R, F2R; cbn -[IZR]; lra).
  assert (V0 := val_q4_0). assert (V1 : val (q4 1) = 1 / 4) by (rewrite <- q4_SF; vm_compute B2SF; unfold SF2R, F2R; cbn -[IZR]; lra).
  assert (Vh : val (q4 2) = 1 / 2) by (rewrite <- q4_SF; vm_compute B2SF; unfold SF2R, F2R; cbn -[IZR]; lra). assert (V4 := val_q4_4).
  split; [split; [reflexivity|]; split; [reflexivity|]; intros i Hi; cases i; reflexivity|].
  split; [|split; [|exact two_M]].
  - intros i d Hi Hd. destruct d as [|d]; [|lia]. destruct i as [|[|[|i]]]; [| | |lia]; (split; [reflexivity|]); unfold ent; cbn [mcols nth map]; rewrite ?V2, ?V0; apply Rabs_le; lra.
  - intros g d Hg Hd. destruct d as [|d]; [|lia]. destruct g as [|[|[|g]]]; [| | |lia]; cbn [rsum]; rewrite !V by lia; unfold ent, a; cbn [mcols nth map row]; rewrite ?V0, ?V1, ?V2, ?Vh, ?V4; apply Rabs_le; lra.
Qed.

(** ** C114.  In binary64 the curve does NOT stay exactly in the box of its control
    points, nor is it exactly monotone: the quadratic curve without internal knots
    whose three control points are 1 is below 1 at 1/30, above 1 at 1/5 and 1 at 1. *)
Theorem C114_constant_refuted : exists (c : Curve F64) x y z,
  built 2 (map q4 [0; 0; 0; 4; 4; 4]%Z) (row [4; 4; 4]%Z) c /\ (u_30 <? u_5)%num = true /\ (u_5 <? q4 4)%num = true /\
  evaluate c u_30 = Val (Ok [x]) /\ evaluate c u_5 = Val (Ok [y]) /\ evaluate c (q4 4) = Val (Ok [z]) /\
  (x <? fmk 1 0)%num = true /\ (fmk 1 0 <? y)%num = true /\ (z ==? fmk 1 0)%num = true.
Proof. exact constant_witness. Qed.
Print Assumptions C114_constant_refuted.
