(** * Property C149: derivatives of generated curves *)

From Coq Require Import ZArith Reals List Bool Arith Lra Lia.
From Flocq Require Import Core.Core IEEE754.BinarySingleNaN.
From Verif Require Import Num Vec MKnots MPoints MCurve MGenerate RNum F64 Lists Struct Spec Api ApiF ApiF2 ApiF3 Bridge Facts11 Samples Gen1 Gen2 Float1 Float8 Float11 Stab Float15 Float16 Float17 Float32.
Import ListNotations.
Local Open Scope R_scope.

(** ** C149.  Moving the knots by at most [dl] moves the [k]-th derivative by at most a
    multiple of [dl / h], where [h] is the smallest distance between different knots. *)
Theorem C149_knots : forall p n dim (U V : list R) (P : Mat RNum) c e k dl h M,
  clamped_curve p n dim U P c -> clamped_curve p n dim V P e -> (k < p)%nat ->
  (forall x, 0 < x < 1 -> (mult U x <= p - k)%nat) ->
  (forall i, (i < length U)%nat -> Rabs (nth i U 0 - nth i V 0) <= dl) ->
  (forall i, (p <= i <= n)%nat -> nth i V 0 < nth (S i) V 0 -> nth i U 0 < nth (S i) U 0) ->
  0 < h -> (forall i, (p <= i <= n)%nat -> nth i U 0 < nth (S i) U 0 -> h <= nth (S i) U 0 - nth i U 0) -> 4 * dl <= h ->
  forall u x y, 0 <= u <= 1 -> evaluate_derivative c u k = Val (Ok x) -> evaluate_derivative e u k = Val (Ok y) ->
  forall d, (d < dim)%nat -> (forall i, (i <= n)%nat -> Rabs (ent P i d) <= M) ->
  Rabs (nth d x 0 - nth d y 0) <= (6 * INR p + 4) * (dl / h) * (M * (4 * INR p / h) ^ k).
Proof. exact knots_stable_derivatives. Qed.
Print Assumptions C149_knots.

(** the inner knot 1/2 moved to 3/5; first derivatives *)
Example C149_knots_hypotheses : exists c e, clamped_curve 2 3 2 U_a P_a c /\ clamped_curve 2 3 2 V_a P_a e /\ (1 < 2)%nat /\
  (forall x, 0 < x < 1 -> (mult U_a x <= 2 - 1)%nat) /\ (forall i, (i < length U_a)%nat -> Rabs (nth i U_a 0 - nth i V_a 0) <= 1 / 10) /\
  (forall i, (2 <= i <= 3)%nat -> nth i V_a 0 < nth (S i) V_a 0 -> nth i U_a 0 < nth (S i) U_a 0) /\ 0 < 1 / 2 /\
  (forall i, (2 <= i <= 3)%nat -> nth i U_a 0 < nth (S i) U_a 0 -> 1 / 2 <= nth (S i) U_a 0 - nth i U_a 0) /\ 4 * (1 / 10) <= 1 / 2 /\
  (exists x y, evaluate_derivative c (1 / 2) 1 = Val (Ok x) /\ evaluate_derivative e (1 / 2) 1 = Val (Ok y)) /\
  forall i, (i <= 3)%nat -> Rabs (ent P_a i 1) <= 2.
Proof.
  destruct curve_a as [c Hc]. destruct (clamped_curve_ex 2 3 2 V_a P_a V_a_clamped P_a_shape) as [e He]. exists c, e.
  split; [exact Hc|]. split; [exact He|]. split; [lia|]. split.
  { intros x Hx. unfold mult, U_a. cbn [count_occ filter length]. repeat (destruct (Req_EM_T _ _); cbn [length]; try lra); lia. }
  split. { intros i Hi. simpl in Hi. unfold U_a, V_a. do 7 (destruct i as [|i]; [simpl; apply Rabs_le; lra|]). lia. }
  split. { intros i Hi. unfold U_a, V_a. destruct i as [|[|[|[|i]]]]; try lia; simpl; lra. }
  split; [lra|]. split. { intros i Hi. unfold U_a. destruct i as [|[|[|[|i]]]]; try lia; simpl; lra. }
  split; [lra|].
  split. { destruct (Facts1.cc_eval 2 3 2 U_a P_a c (1 / 2) 1 Hc ltac:(lra) ltac:(lia)) as [x [Ex _]]. destruct (Facts1.cc_eval 2 3 2 V_a P_a e (1 / 2) 1 He ltac:(lra) ltac:(lia)) as [y [Ey _]].
    exists x, y. split; assumption. }
  intros i Hi. destruct i as [|[|[|[|i]]]]; [| | | |lia]; unfold ent; simpl; apply Rabs_le; lra.
Qed.

(** From the control points to the [k]-th derivative with uniform knots, in binary64. *)
Theorem C149_uniform : forall (svd : Mat F64 -> Mat F64 -> Num.M (Mat F64)) (svdR : Mat RNum -> Mat RNum -> Num.M (Mat RNum)) p n dim (P : Mat F64) (P' : Mat RNum) (M : R) k,
  shape dim (S n) P -> (forall i d, (i <= n)%nat -> (d < dim)%nat -> finite (ent P i d) /\ Rabs (val (ent P i d)) <= M) ->
  same_points n dim P P' -> (k < p)%nat -> (p <= 100)%nat -> (p <= n)%nat -> (Z.of_nat (n - p) < 2 ^ 51)%Z -> / 2 ^ 1000 <= M ->
  M * (4 * INR p * INR (n - p + 1)) ^ k <= 2 ^ 1020 ->
  exists c cR, generate svd (Manual p (cp_new P) GUniform) = Val (Ok c) /\ generate svdR (Manual p (cp_new P') GUniform) = Val (Ok cR) /\
    forall u, finite u -> 0 <= val u <= 1 -> exists f, returns (evaluate_derivative cR (val u) k) dim f /\
      returns_within (@evaluate_derivative F64 c u k) dim f ((6 * INR p + 4) * (1 + INR (n - p + 1)) * / 2 ^ 53 * (M * (4 * INR p * INR (n - p + 1)) ^ k)).
Proof. exact uniform_derivatives. Qed.
Print Assumptions C149_uniform.

Example C149_uniform_hypotheses : shape 1 4 P_f /\ (forall i d, (i <= 3)%nat -> (d < 1)%nat -> finite (ent P_f i d) /\ Rabs (val (ent P_f i d)) <= 2) /\
  same_points 3 1 P_f PR_f /\ (1 < 2)%nat /\ (2 <= 100)%nat /\ (2 <= 3)%nat /\ (Z.of_nat (3 - 2) < 2 ^ 51)%Z /\ / 2 ^ 1000 <= 2 /\
  2 * (4 * INR 2 * INR (3 - 2 + 1)) ^ 1 <= 2 ^ 1020.
Proof.
  split; [split; [reflexivity|split; [reflexivity|intros i Hi; cases i]]|]. split; [exact P_f_pts|]. split; [exact same_f|].
  split; [lia|]. split; [lia|]. split; [lia|]. split; [reflexivity|]. split; [exact (proj1 two_M)|].
  change 1020%nat with (9 + 1011)%nat. rewrite pow_add. assert (1 <= 2 ^ 1011) by (apply pow_R1_Rle; lra). simpl (2 ^ 9). simpl. lra.
Qed.

(** From the data points to the [k]-th derivative in binary64, for every choice of parameters
    and knots, when the exact parameters and knots are not too close together. *)
Theorem C149_method : forall (svd : Mat F64 -> Mat F64 -> Num.M (Mat F64)) (svdR : Mat RNum -> Mat RNum -> Num.M (Mat RNum)) pm km p n dim (P : Mat F64) (P' : Mat RNum) (M : R) h w kn U k,
  tame n dim P -> same_points n dim P P' -> moving n dim P -> (k < p)%nat -> (p <= 100)%nat -> (p <= n)%nat -> (Z.of_nat n <= 2 ^ 20)%Z -> (Z.of_nat dim <= 2 ^ 20)%Z ->
  (forall i d, (i <= n)%nat -> (d < dim)%nat -> Rabs (val (ent P i d)) <= M) -> / 2 ^ 1000 <= M ->
  @params_generate RNum P' pm = Val (mkParams w n) -> @knots_generate RNum p n (mkParams w n) km = Val (Ok kn) -> @vector RNum kn = Val U ->
  spread h w 0 n -> spread h U p (S n) -> 4 * INR (2 * n + dim + 12) / 2 ^ 52 <= h -> M * (4 * INR p / h) ^ k <= 2 ^ 1020 ->
  exists c cR, generate svd (Manual p (cp_new P) (GMethod pm km)) = Val (Ok c) /\ generate svdR (Manual p (cp_new P') (GMethod pm km)) = Val (Ok cR) /\
    forall u, finite u -> 0 <= val u <= 1 -> exists f, returns (evaluate_derivative cR (val u) k) dim f /\
      returns_within (@evaluate_derivative F64 c u k) dim f ((6 * INR p + 4) * (1 + 2 * INR (2 * n + dim + 12) / h) * / 2 ^ 53 * (M * (4 * INR p / h) ^ k)).
Proof. exact method_derivatives. Qed.
Print Assumptions C149_method.

(** first derivative with chord length parameters and averaged knots, see [C111_hypotheses];
    the other hypotheses are met by the same points, see [C99_hypotheses] *)
Example C149_method_hypotheses : exists w kn U, @params_generate RNum PR_f ChordLength = Val (mkParams w 3) /\
  @knots_generate RNum 2 3 (mkParams w 3) KAveraging = Val (Ok kn) /\ @vector RNum kn = Val U /\
  spread (4 / 23) w 0 3 /\ spread (4 / 23) U 2 4 /\ 4 * INR (2 * 3 + 1 + 12) / 2 ^ 52 <= 4 / 23 /\ 2 * (4 * INR 2 / (4 / 23)) ^ 1 <= 2 ^ 1020.
Proof.
  assert (S := proj1 same_f).
  assert (DD : forall i a b, ent PR_f (Datatypes.S i) 0 = a -> ent PR_f i 0 = b -> distance PR_f 1 (Datatypes.S i) i = Rabs (a - b)).
  { intros i a b <- <-. unfold distance. cbn [rsum]. rewrite Rplus_0_l. apply sqrt_Rsqr_abs. }
  assert (D0 : distance PR_f 1 1 0 = 1) by (rewrite (DD 0%nat 1 0) by reflexivity; rewrite Rabs_pos_eq; lra).
  assert (D1 : distance PR_f 1 2 1 = 5 / 2) by (rewrite (DD 1%nat (-3 / 2) 1) by reflexivity; rewrite <- Rabs_Ropp, Rabs_pos_eq; lra).
  assert (D2 : distance PR_f 1 3 2 = 9 / 4) by (rewrite (DD 2%nat (3 / 4) (-3 / 2)) by reflexivity; rewrite Rabs_pos_eq; lra).
  destruct (chord_length_R PR_f 1 3) as [w [E [L [W0 [W3 H]]]]]; [exact S|lia| |].
  { right. exists 0%nat. split; [lia|]. exists 0%nat. split; [lia|]. unfold ent; simpl. lra. }
  assert (H0 := H 0%nat ltac:(lia)). assert (H1 := H 1%nat ltac:(lia)). assert (H2 := H 2%nat ltac:(lia)). cbn [rsum] in H0, H1, H2.
  rewrite D0, D1, D2 in H0, H1, H2. change (T RNum) with R in *. rewrite W0 in H0. rewrite W3 in H2.
  assert (A1 : nth 1 w 0 = 4 / 23) by lra. assert (A2 : nth 2 w 0 = 14 / 23) by lra.
  exists w, (@knots_of RNum 2 (@fill_knots RNum 2 3 (avg 2 w))), (@fill_knots RNum 2 3 (avg 2 w)).
  split; [exact E|]. split; [apply averaging_R; [lia|exact L]|]. split; [reflexivity|].
  split. { intros i Hi. destruct i as [|[|[|i]]]; [| | |lia]; lra. }
  assert (AV : avg 2 w 1 = 9 / 23) by (unfold avg; simpl rsum; change (INR 2) with (1 + 1); cbn [Nat.add]; rewrite A1, A2; lra).
  split. { intros i Hi. destruct i as [|[|[|[|i]]]]; try lia; cbn -[avg]; rewrite ?AV; lra. }
  split; [|change 1020%nat with (9 + 1011)%nat; rewrite pow_add; assert (1 <= 2 ^ 1011) by (apply pow_R1_Rle; lra); simpl (2 ^ 9); simpl; lra].
  simpl INR. assert (X : 2 ^ 52 = 4503599627370496) by (rewrite (pow_IZR 2 52); reflexivity). rewrite X. lra.
Qed.
