(** * Properties C168 and C169: points sampled from a curve *)

From Coq Require Import ZArith Reals List Bool Arith Lra Lia.
From Flocq Require Import Core.Core IEEE754.BinarySingleNaN.
From Verif Require Import Num Vec MKnots MPoints MCurve RNum F64 Lists Spec Api ApiF Bridge Facts1 Facts11 Samples Refine1 Float1 Float5 Float6 Float7 Float8 Sampling Sampling2.
Import ListNotations.
Local Open Scope R_scope.

(** ** C168.  A chord between two points of the curve stays within [M t (1 - t) (b - a)^2 / 2]
    of the curve, where [M] bounds the control points of the second derivative; the same
    for a derivative and the control points two orders up. *)
Theorem C168_chord : forall p n dim U P c k M D, clamped_curve p n dim U P c -> (k + 2 <= p)%nat -> (forall x, 0 < x < 1 -> (mult U x <= p - k - 1)%nat) ->
  @matrix_derivative RNum (cpoints c) (k + 2) = Val D -> (forall i, (i + (k + 2) <= n)%nat -> sqrt (rsum (fun d => ent D i d ^ 2) dim) <= M) ->
  forall a b t x y z, 0 <= a -> a <= b -> b <= 1 -> 0 <= t <= 1 ->
  evaluate_derivative c a k = Val (Ok x) -> evaluate_derivative c b k = Val (Ok y) -> evaluate_derivative c ((1 - t) * a + t * b) k = Val (Ok z) ->
  sqrt (rsum (fun d => (nth d z 0 - ((1 - t) * nth d x 0 + t * nth d y 0)) ^ 2) dim) <= M * (t * (1 - t)) * (b - a) ^ 2 / 2.
Proof. exact chord_error. Qed.
Print Assumptions C168_chord.

(** so the polyline through [N + 1] equally spaced samples stays within [M / (8 N^2)] *)
Theorem C168_polyline : forall p n dim U P c k M D, clamped_curve p n dim U P c -> (k + 2 <= p)%nat -> (forall x, 0 < x < 1 -> (mult U x <= p - k - 1)%nat) ->
  @matrix_derivative RNum (cpoints c) (k + 2) = Val D -> (forall i, (i + (k + 2) <= n)%nat -> sqrt (rsum (fun d => ent D i d ^ 2) dim) <= M) ->
  forall N j t x y z, (j < N)%nat -> 0 <= t <= 1 ->
  evaluate_derivative c (INR j / INR N) k = Val (Ok x) -> evaluate_derivative c (INR (S j) / INR N) k = Val (Ok y) -> evaluate_derivative c ((INR j + t) / INR N) k = Val (Ok z) ->
  sqrt (rsum (fun d => (nth d z 0 - ((1 - t) * nth d x 0 + t * nth d y 0)) ^ 2) dim) <= M / (8 * INR N ^ 2).
Proof. exact sampled_polyline. Qed.
Print Assumptions C168_polyline.

(** and a step along the tangent within [M (b - a)^2 / 2] *)
Theorem C168_tangent : forall p n dim U P c k M D, clamped_curve p n dim U P c -> (k + 2 <= p)%nat -> (forall x, 0 < x < 1 -> (mult U x <= p - k - 1)%nat) ->
  @matrix_derivative RNum (cpoints c) (k + 2) = Val D -> (forall i, (i + (k + 2) <= n)%nat -> sqrt (rsum (fun d => ent D i d ^ 2) dim) <= M) ->
  forall a b x y x', 0 <= a -> a <= b -> b <= 1 ->
  evaluate_derivative c a k = Val (Ok x) -> evaluate_derivative c b k = Val (Ok y) -> evaluate_derivative c a (S k) = Val (Ok x') ->
  sqrt (rsum (fun d => (nth d y 0 - (nth d x 0 + (b - a) * nth d x' 0)) ^ 2) dim) <= M * (b - a) ^ 2 / 2.
Proof. exact tangent_error. Qed.
Print Assumptions C168_tangent.

Example C168_hypotheses : exists c D, clamped_curve 2 3 2 U_a P_a c /\ (0 + 2 <= 2)%nat /\ (forall x, 0 < x < 1 -> (mult U_a x <= 2 - 0 - 1)%nat) /\
  @matrix_derivative RNum (cpoints c) (0 + 2) = Val D /\ (forall i, (i + (0 + 2) <= 3)%nat -> sqrt (rsum (fun d => ent D i d ^ 2) 2) <= 24).
Proof.
  destruct curve_a as [c H]. destruct (second_a c H) as (D & D1 & A & B & C & E). exists c, D. split; [exact H|]. split; [lia|].
  split. { intros x Hx. unfold mult, U_a. cbn [count_occ]. repeat (destruct (Req_EM_T _ _); try lra); lia. }
  split; [exact D1|].
  intros i Hi. cbn [rsum]. destruct i as [|[|i]]; [rewrite A, B|rewrite C, E|lia].
  - replace (0 + 0 ^ 2 + (-16) ^ 2) with (16 * 16) by ring. rewrite sqrt_square; lra.
  - replace (0 + 0 ^ 2 + (-24) ^ 2) with (24 * 24) by ring. rewrite sqrt_square; lra.
Qed.

(** ** C169.  In binary64: values at nearby parameters are near each other. *)
Theorem C169_nearby : forall p n dim (U : list f64) P M c P' cR, float_curve p n dim U P M c -> same_points n dim P P' -> clamped_curve p n dim (map val U) P' cR ->
  (1 <= p <= 100)%nat -> / 2 ^ 1000 <= M <= 2 ^ 1022 ->
  forall L d u v x y, (forall t, 0 < t < 1 -> (mult (map val U) t <= p)%nat) -> (d < dim)%nat ->
  (forall i, (i < n)%nat -> INR p * Rabs (ent P' (S i) d - ent P' i d) <= L * (nth (i + p + 1) (map val U) 0 - nth (i + 1) (map val U) 0)) ->
  finite u -> finite v -> 0 <= val u <= 1 -> 0 <= val v <= 1 -> @evaluate F64 c u = Val (Ok x) -> @evaluate F64 c v = Val (Ok y) ->
  Rabs (val (nth d y (@n0 F64)) - val (nth d x (@n0 F64))) <= L * Rabs (val v - val u) + 2 * ((6 * INR p + 3) * / 2 ^ 53 * M).
Proof. exact nearby. Qed.
Print Assumptions C169_nearby.

(** a change of sides that exceeds the rounding error is a real one: between the two
    parameters the exact curve has a point on the level *)
Theorem C169_crossing : forall p n dim (U : list f64) P M c P' cR, float_curve p n dim U P M c -> same_points n dim P P' -> clamped_curve p n dim (map val U) P' cR ->
  (1 <= p <= 100)%nat -> / 2 ^ 1000 <= M <= 2 ^ 1022 ->
  forall d l u v x y, (forall t, 0 < t < 1 -> (mult (map val U) t <= p)%nat) -> (d < dim)%nat ->
  finite u -> finite v -> 0 <= val u -> val u <= val v -> val v <= 1 -> @evaluate F64 c u = Val (Ok x) -> @evaluate F64 c v = Val (Ok y) ->
  (6 * INR p + 3) * / 2 ^ 53 * M <= Rabs (val (nth d x (@n0 F64)) - l) -> (6 * INR p + 3) * / 2 ^ 53 * M <= Rabs (val (nth d y (@n0 F64)) - l) ->
  (val (nth d x (@n0 F64)) - l) * (val (nth d y (@n0 F64)) - l) < 0 ->
  exists s z, val u <= s <= val v /\ evaluate cR s = Val (Ok z) /\ nth d z 0 = l.
Proof. exact crossing. Qed.
Print Assumptions C169_crossing.

(** the polyline through points computed in binary64 follows the exact curve *)
Theorem C169_rendered : forall p n dim (U : list f64) P M c P' cR, float_curve p n dim U P M c -> same_points n dim P P' -> clamped_curve p n dim (map val U) P' cR ->
  (1 <= p <= 100)%nat -> / 2 ^ 1000 <= M <= 2 ^ 1022 ->
  forall K D d t u v x y z, (2 <= p)%nat -> (forall t, 0 < t < 1 -> (mult (map val U) t <= p - 1)%nat) -> (d < dim)%nat ->
  @matrix_derivative RNum (cpoints cR) 2 = Val D -> (forall i, (i + 2 <= n)%nat -> Rabs (ent D i d) <= K) ->
  finite u -> finite v -> 0 <= val u -> val u <= val v -> val v <= 1 -> 0 <= t <= 1 -> @evaluate F64 c u = Val (Ok x) -> @evaluate F64 c v = Val (Ok y) ->
  evaluate cR ((1 - t) * val u + t * val v) = Val (Ok z) ->
  Rabs (nth d z 0 - ((1 - t) * val (nth d x (@n0 F64)) + t * val (nth d y (@n0 F64)))) <= K * (val v - val u) ^ 2 / 8 + (6 * INR p + 3) * / 2 ^ 53 * M.
Proof. exact rendered. Qed.
Print Assumptions C169_rendered.

(** the quadratic runs from 0 to 3/4 and has to pass 1/4 *)
Example C169_hypotheses : exists c cR x y D K, float_curve 2 3 1 U_f P_f 2 c /\ same_points 3 1 P_f PR_f /\ clamped_curve 2 3 1 (map val U_f) PR_f cR /\
  / 2 ^ 1000 <= 2 <= 2 ^ 1022 /\ (forall t, 0 < t < 1 -> (mult (map val U_f) t <= 2 - 1)%nat) /\
  (forall i, (i < 3)%nat -> INR 2 * Rabs (ent PR_f (S i) 0 - ent PR_f i 0) <= 8 * (nth (i + 2 + 1) (map val U_f) 0 - nth (i + 1) (map val U_f) 0)) /\
  finite (q4 0) /\ finite (q4 4) /\ val (q4 0) = 0 /\ val (q4 4) = 1 /\ @evaluate F64 c (q4 0) = Val (Ok x) /\ @evaluate F64 c (q4 4) = Val (Ok y) /\
  (6 * INR 2 + 3) * / 2 ^ 53 * 2 <= Rabs (val (nth 0 x (@n0 F64)) - 1 / 4) /\ (6 * INR 2 + 3) * / 2 ^ 53 * 2 <= Rabs (val (nth 0 y (@n0 F64)) - 1 / 4) /\
  (val (nth 0 x (@n0 F64)) - 1 / 4) * (val (nth 0 y (@n0 F64)) - 1 / 4) < 0 /\
  @matrix_derivative RNum (cpoints cR) 2 = Val D /\ (forall i, (i + 2 <= 3)%nat -> Rabs (ent D i 0) <= K).
Proof.
  destruct curve_f as [c H]. destruct (clamped_curve_ex 2 3 1 (map val U_f) PR_f) as [cR HR]; [apply H|apply same_f|].
  assert (S := small_1000). assert (BM : / 2 ^ 1000 <= 2 <= 2 ^ 1022) by (split; [lra|]; change 1022%nat with (1 + 1021)%nat; rewrite pow_add, pow_1; assert (1 <= 2 ^ 1021) by (apply pow_R1_Rle; lra); lra).
  destruct (deriv_matrix 2 3 1 (map val U_f) PR_f cR 2 HR ltac:(lia)) as (D & D1 & _ & _).
  destruct (proj1 (ends_F64 2 3 1 U_f P_f 2 c (q4 0) H ltac:(reflexivity)) val_q4_0) as (x & X1 & _ & X3).
  destruct (proj2 (ends_F64 2 3 1 U_f P_f 2 c (q4 4) H ltac:(reflexivity)) val_q4_4) as (y & Y1 & _ & Y3).
  destruct (X3 0%nat ltac:(lia)) as [_ BX]. destruct (Y3 0%nat ltac:(lia)) as [_ BY].
  change (val (ent P_f 0 0)) with (val (q4 0)) in BX. change (val (ent P_f 3 0)) with (val (q4 3)) in BY. rewrite val_q4_0 in BX. rewrite val_q4_3 in BY.
  set (X := val (nth 0 x (@n0 F64))) in *. set (Y := val (nth 0 y (@n0 F64))) in *.
  assert (QX : X = 0) by (apply Rabs_le_inv in BX; lra). assert (QY : Y = 3 / 4) by (apply Rabs_le_inv in BY; lra).
  exists c, cR, x, y, D, (Rabs (ent D 0 0) + Rabs (ent D 1 0)). split; [exact H|]. split; [exact same_f|]. split; [exact HR|]. split; [exact BM|].
  split. { intros t Ht. rewrite val_U_f. unfold mult. cbn [count_occ]. repeat (destruct (Req_EM_T _ _); try lra); lia. }
  split. { intros i Hi. rewrite val_U_f. unfold ent, PR_f. do 3 (destruct i as [|i]; [cbn; unfold Rabs; destruct Rcase_abs; lra|]). lia. }
  split; [reflexivity|]. split; [reflexivity|]. split; [exact val_q4_0|]. split; [exact val_q4_4|]. split; [exact X1|]. split; [exact Y1|]. change (val (nth 0 x (@n0 F64))) with X. change (val (nth 0 y (@n0 F64))) with Y.
  split. { rewrite QX, Rabs_left by lra. cbn; lra. }
  split. { rewrite QY, Rabs_right by lra. cbn; lra. }
  split; [rewrite QX, QY; lra|]. split; [exact D1|].
  intros i Hi. assert (A0 := Rabs_pos (ent D 0 0)). assert (A1 := Rabs_pos (ent D 1 0)). destruct i as [|[|i]]; [lra|lra|lia].
Qed.
