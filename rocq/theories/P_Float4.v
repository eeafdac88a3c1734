(** * Properties C107 to C111: moved knots, reversal and generation in binary64 *)

From Coq Require Import ZArith Reals List Bool Arith Lra Lia.
From Flocq Require Import Core.Core IEEE754.BinarySingleNaN.
From Verif Require Import Num Vec MKnots MPoints MCurve MGenerate RNum F64 Lists Struct Spec Api ApiF ApiF2 ApiF3 Bridge Facts11 Samples Gen1 Gen2 Float1 Float8 Float11 Stab Float15 Float16 Float17.
Import ListNotations.
Local Open Scope R_scope.

(** ** C107.  Reversing in binary64: the second reversal returns the control points
    exactly and every knot to within [2^-54], the third one undoes nothing further; knots
    that are multiples of [2^-53] return exactly. *)
Theorem C107_reverse_settles : forall p n dim (U : list f64) P M c, float_curve p n dim U P M c ->
  exists c1 c2 V, reverse c = Val c1 /\ reverse c1 = Val c2 /\ reverse c2 = Val c1 /\ cpoints c2 = cpoints c /\
    vector (cknots c2) = Val V /\ close_to V (map val U) (/ 2 ^ 54) /\
    ((forall x, In x U -> exists m, val x = IZR m / 2 ^ 53) -> map val V = map val U).
Proof. exact reverse_settles. Qed.
Print Assumptions C107_reverse_settles.

Example C107_hypotheses : exists c, float_curve 2 3 1 U_f P_f 2 c /\ (forall x, In x U_f -> exists m, val x = IZR m / 2 ^ 53).
Proof.
  destruct curve_f as [c H]. exists c. split; [exact H|].
  intros x Hx. unfold U_f in Hx. cbn [map In] in Hx.
  assert (X : 2 ^ 53 <> 0) by (apply pow_nonzero; lra).
  assert (E : 2 ^ 53 = IZR (2 ^ 53)) by (rewrite (pow_IZR 2 53); reflexivity).
  assert (E4 : IZR (2 ^ 53) = 4 * IZR (2 ^ 51)) by (rewrite <- mult_IZR; reflexivity).
  assert (Q : IZR (2 ^ 51) / 2 ^ 53 = 1 / 4) by (rewrite E, E4 in *; field; lra).
  repeat destruct Hx as [<-|Hx]; try contradiction.
  1-3: exists 0%Z; rewrite val_q4_0; unfold Rdiv; rewrite Rmult_0_l; reflexivity.
  - exists (2 ^ 51)%Z. rewrite val_q4_1. symmetry. exact Q.
  - exists (2 ^ 53)%Z. rewrite val_q4_4, <- E. unfold Rdiv. symmetry. apply Rinv_r. exact X.
  - exists (2 ^ 53)%Z. rewrite val_q4_4, <- E. unfold Rdiv. symmetry. apply Rinv_r. exact X.
  - exists (2 ^ 53)%Z. rewrite val_q4_4, <- E. unfold Rdiv. symmetry. apply Rinv_r. exact X.
Qed.

(** ** C108.  Moving the knots a little moves the curve a little. *)
Theorem C108_knots_stable : forall p n dim U V P c e dl h, clamped_curve p n dim U P c -> clamped_curve p n dim V P e -> (1 <= p)%nat ->
  (forall x, 0 < x < 1 -> (mult U x <= p)%nat) ->
  (forall i, (i < length U)%nat -> Rabs (nth i U 0 - nth i V 0) <= dl) ->
  (forall i, (p <= i <= n)%nat -> nth i V 0 < nth (S i) V 0 -> nth i U 0 < nth (S i) U 0) ->
  0 < h -> (forall i, (p <= i <= n)%nat -> nth i U 0 < nth (S i) U 0 -> h <= nth (S i) U 0 - nth i U 0) ->
  forall u x y, 0 <= u <= 1 -> evaluate c u = Val (Ok x) -> evaluate e u = Val (Ok y) ->
  forall d m r, (d < dim)%nat -> (forall i, (i <= n)%nat -> Rabs (ent P i d - m) <= r) ->
  Rabs (nth d x 0 - nth d y 0) <= 6 * INR p * r * dl / h.
Proof. exact knots_stable. Qed.
Print Assumptions C108_knots_stable.

(** the inner knot 1/2 moved to 3/5; the second coordinate stays within 3/2 of 1/2 *)
Example C108_hypotheses : exists c e, clamped_curve 2 3 2 U_a P_a c /\ clamped_curve 2 3 2 V_a P_a e /\ (1 <= 2)%nat /\
  (forall x, 0 < x < 1 -> (mult U_a x <= 2)%nat) /\ (forall i, (i < length U_a)%nat -> Rabs (nth i U_a 0 - nth i V_a 0) <= 1 / 10) /\
  (forall i, (2 <= i <= 3)%nat -> nth i V_a 0 < nth (S i) V_a 0 -> nth i U_a 0 < nth (S i) U_a 0) /\ 0 < 1 / 2 /\
  (forall i, (2 <= i <= 3)%nat -> nth i U_a 0 < nth (S i) U_a 0 -> 1 / 2 <= nth (S i) U_a 0 - nth i U_a 0) /\
  (exists x y, evaluate c (1 / 2) = Val (Ok x) /\ evaluate e (1 / 2) = Val (Ok y)) /\
  forall i, (i <= 3)%nat -> Rabs (ent P_a i 1 - 1 / 2) <= 3 / 2.
Proof.
  destruct curve_a as [c Hc]. destruct (clamped_curve_ex 2 3 2 V_a P_a V_a_clamped P_a_shape) as [e He]. exists c, e.
  split; [exact Hc|]. split; [exact He|]. split; [lia|]. split.
  { intros x Hx. unfold mult, U_a. cbn [count_occ filter length]. repeat (destruct (Req_EM_T _ _); cbn [length]; try lra); lia. }
  split. { intros i Hi. simpl in Hi. unfold U_a, V_a. do 7 (destruct i as [|i]; [simpl; apply Rabs_le; lra|]). lia. }
  split. { intros i Hi. unfold U_a, V_a. destruct i as [|[|[|[|i]]]]; try lia; simpl; lra. }
  split; [lra|]. split. { intros i Hi. unfold U_a. destruct i as [|[|[|[|i]]]]; try lia; simpl; lra. }
  split. { destruct (Facts1.cc_eval0 2 3 2 U_a P_a c (1 / 2) Hc ltac:(lra)) as [x [Ex _]]. destruct (Facts1.cc_eval0 2 3 2 V_a P_a e (1 / 2) He ltac:(lra)) as [y [Ey _]].
    exists x, y. split; assumption. }
  intros i Hi. destruct i as [|[|[|[|i]]]]; [| | | |lia]; unfold ent; simpl; apply Rabs_le; lra.
Qed.

(** ** C109.  From the control points to the evaluated curve with uniform knots, in binary64. *)
Theorem C109_uniform : forall svd svdR p n dim (P : Mat F64) (P' : Mat RNum) M, shape dim (S n) P ->
  (forall i d, (i <= n)%nat -> (d < dim)%nat -> finite (ent P i d) /\ Rabs (val (ent P i d)) <= M) ->
  same_points n dim P P' -> (1 <= p <= 100)%nat -> (p <= n)%nat -> (Z.of_nat (n - p) < 2 ^ 51)%Z -> / 2 ^ 1000 <= M <= 2 ^ 1022 ->
  exists c cR, generate svd (Manual p (cp_new P) GUniform) = Val (Ok c) /\ generate svdR (Manual p (cp_new P') GUniform) = Val (Ok cR) /\
    forall u, finite u -> 0 <= val u <= 1 -> exists f, returns (evaluate cR (val u)) dim f /\
      returns_within (@evaluate F64 c u) dim f ((6 * INR p + 3 + 6 * INR p * INR (n - p + 1)) * / 2 ^ 53 * M).
Proof. exact uniform_accuracy. Qed.
Print Assumptions C109_uniform.

Example C109_hypotheses : shape 1 4 P_f /\ (forall i d, (i <= 3)%nat -> (d < 1)%nat -> finite (ent P_f i d) /\ Rabs (val (ent P_f i d)) <= 2) /\
  same_points 3 1 P_f PR_f /\ (1 <= 2 <= 100)%nat /\ (2 <= 3)%nat /\ (Z.of_nat (3 - 2) < 2 ^ 51)%Z /\ / 2 ^ 1000 <= 2 <= 2 ^ 1022.
Proof.
  split; [split; [reflexivity|split; [reflexivity|intros i Hi; cases i]]|]. split; [exact P_f_pts|]. split; [exact same_f|].
  split; [lia|]. split; [lia|]. split; [reflexivity|exact two_M].
Qed.

(** ** C110.  The reversed curve in binary64 runs through the same points backwards. *)
Theorem C110_reverse_accuracy : forall p n dim (U : list f64) P M c P' cR h, float_curve p n dim U P M c -> same_points n dim P P' ->
  clamped_curve p n dim (map val U) P' cR -> (1 <= p <= 100)%nat -> / 2 ^ 1000 <= M <= 2 ^ 1022 ->
  (forall x, 0 < x < 1 -> (mult (map val U) x <= p)%nat) -> / 2 ^ 52 <= h ->
  (forall i, (p <= i <= n)%nat -> nth i (map val U) 0 < nth (S i) (map val U) 0 -> h <= nth (S i) (map val U) 0 - nth i (map val U) 0) ->
  exists c', reverse c = Val c' /\ forall u, finite u -> 0 <= val u <= 1 ->
    exists f, returns (evaluate cR (1 - val u)) dim f /\
      returns_within (evaluate c' u) dim f ((6 * INR p + 3 + 3 * INR p / h) * / 2 ^ 53 * M).
Proof. exact reverse_accuracy. Qed.
Print Assumptions C110_reverse_accuracy.

Example C110_hypotheses : exists c cR, float_curve 2 3 1 U_f P_f 2 c /\ same_points 3 1 P_f PR_f /\ clamped_curve 2 3 1 (map val U_f) PR_f cR /\
  (1 <= 2 <= 100)%nat /\ / 2 ^ 1000 <= 2 <= 2 ^ 1022 /\ (forall x, 0 < x < 1 -> (mult (map val U_f) x <= 2)%nat) /\ / 2 ^ 52 <= 1 / 4 /\
  (forall i, (2 <= i <= 3)%nat -> nth i (map val U_f) 0 < nth (S i) (map val U_f) 0 -> 1 / 4 <= nth (S i) (map val U_f) 0 - nth i (map val U_f) 0).
Proof.
  destruct curve_f as [c H]. assert (C := proj1 (proj2 (proj1 H))).
  destruct (clamped_curve_ex 2 3 1 (map val U_f) PR_f C (proj1 same_f)) as [cR HR]. exists c, cR.
  split; [exact H|]. split; [exact same_f|]. split; [exact HR|]. split; [lia|]. split; [exact two_M|]. rewrite val_U_f. split.
  { intros x Hx. unfold mult. cbn [count_occ filter length]. repeat (destruct (Req_EM_T _ _); cbn [length]; try lra); lia. }
  split. { apply Rle_trans with (/ 4); [|lra]. apply Rinv_le_contravar; [lra|]. change 52%nat with (2 + 50)%nat. rewrite pow_add. assert (1 <= 2 ^ 50) by (apply pow_R1_Rle; lra). lra. }
  intros i Hi. destruct i as [|[|[|[|i]]]]; try lia; simpl; lra.
Qed.

(** ** C111.  From the data points to the evaluated curve in binary64, for every choice of
    parameters and knots, when the exact parameters and knots are not too close together. *)
Theorem C111_method : forall svd svdR pm km p n dim (P : Mat F64) (P' : Mat RNum) M h w kn U,
  tame n dim P -> same_points n dim P P' -> moving n dim P -> (1 <= p <= 100)%nat -> (p <= n)%nat -> (Z.of_nat n <= 2 ^ 20)%Z -> (Z.of_nat dim <= 2 ^ 20)%Z ->
  (forall i d, (i <= n)%nat -> (d < dim)%nat -> Rabs (val (ent P i d)) <= M) -> / 2 ^ 1000 <= M <= 2 ^ 1022 ->
  @params_generate RNum P' pm = Val (mkParams w n) -> @knots_generate RNum p n (mkParams w n) km = Val (Ok kn) -> @vector RNum kn = Val U ->
  spread h w 0 n -> spread h U p (S n) -> 3 * INR (2 * n + dim + 12) / 2 ^ 52 <= h ->
  exists c cR, generate svd (Manual p (cp_new P) (GMethod pm km)) = Val (Ok c) /\ generate svdR (Manual p (cp_new P') (GMethod pm km)) = Val (Ok cR) /\
    forall u, finite u -> 0 <= val u <= 1 -> exists f, returns (evaluate cR (val u)) dim f /\
      returns_within (@evaluate F64 c u) dim f ((6 * INR p + 3 + 12 * INR p * INR (2 * n + dim + 12) / h) * / 2 ^ 53 * M).
Proof. exact method_accuracy. Qed.
Print Assumptions C111_method.

(** chord lengths 1, 5/2, 9/4: parameters 0, 4/23, 14/23, 1 and the averaged knot 9/23;
    the other hypotheses are met by the same points, see [C99_hypotheses] and [C109_hypotheses] *)
Example C111_hypotheses : exists w kn U, @params_generate RNum PR_f ChordLength = Val (mkParams w 3) /\
  @knots_generate RNum 2 3 (mkParams w 3) KAveraging = Val (Ok kn) /\ @vector RNum kn = Val U /\
  spread (4 / 23) w 0 3 /\ spread (4 / 23) U 2 4 /\ 3 * INR (2 * 3 + 1 + 12) / 2 ^ 52 <= 4 / 23.
Proof.
  assert (S := proj1 same_f).
  assert (DD : forall i a b, ent PR_f (Datatypes.S i) 0 = a -> ent PR_f i 0 = b -> distance PR_f 1 (Datatypes.S i) i = Rabs (a - b)).
  { intros i a b <- <-. unfold distance. cbn [rsum]. rewrite Rplus_0_l. apply sqrt_Rsqr_abs. }
  assert (D0 : distance PR_f 1 1 0 = 1) by (rewrite (DD 0%nat 1 0) by reflexivity; rewrite Rabs_pos_eq; lra).
  assert (D1 : distance PR_f 1 2 1 = 5 / 2) by (rewrite (DD 1%nat (-3 / 2) 1) by reflexivity; rewrite <- Rabs_Ropp, Rabs_pos_eq; lra).
  assert (D2 : distance PR_f 1 3 2 = 9 / 4) by (rewrite (DD 2%nat (3 / 4) (-3 / 2)) by reflexivity; rewrite Rabs_pos_eq; lra).
  destruct (chord_length_R PR_f 1 3) as [w [E [L [W0 [W3 H]]]]]; [exact S|lia| |].
  { right. exists 0%nat. split; [lia|]. exists 0%nat. split; [lia|]. unfold ent; simpl. lra. }
  assert (H0 := H 0%nat ltac:(lia)). assert (H1 := H 1%nat ltac:(lia)). assert (H2 := H 2%nat ltac:(lia)). cbn [rsum] in H0, H1, H2.
  rewrite D0, D1, D2 in H0, H1, H2. change (T RNum) with R in *. rewrite W0 in H0. rewrite W3 in H2.
  assert (A1 : nth 1 w 0 = 4 / 23) by lra. assert (A2 : nth 2 w 0 = 14 / 23) by lra.
  exists w, (@knots_of RNum 2 (@fill_knots RNum 2 3 (avg 2 w))), (@fill_knots RNum 2 3 (avg 2 w)).
  split; [exact E|]. split; [apply averaging_R; [lia|exact L]|]. split; [reflexivity|].
  split. { intros i Hi. destruct i as [|[|[|i]]]; [| | |lia]; lra. }
  assert (AV : avg 2 w 1 = 9 / 23) by (unfold avg; simpl rsum; change (INR 2) with (1 + 1); cbn [Nat.add]; rewrite A1, A2; lra).
  split. { intros i Hi. destruct i as [|[|[|[|i]]]]; try lia; cbn -[avg]; rewrite ?AV; lra. }
  simpl INR. assert (X : 2 ^ 52 = 4503599627370496) by (rewrite (pow_IZR 2 52); reflexivity). rewrite X. lra.
Qed.
