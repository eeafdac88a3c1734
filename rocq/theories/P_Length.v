(** * Properties C174 to C176: the length of a curve *)

From Coq Require Import ZArith Reals List Bool Arith Lra Lia.
From Flocq Require Import Core.Core IEEE754.BinarySingleNaN.
From Verif Require Import Num Vec MKnots MPoints MCurve RNum F64 Lists Spec Api ApiF ApiX Bridge Facts1 Facts11 Samples Shape2 Refine1 Float1 Float5 Float6 Float7 Float8 Arc2 Arc3 Arc4 Arc5.
Import ListNotations.
Local Open Scope R_scope.

(** ** C174.  Every part of a curve has exactly one length; it lies between the distance of
    its ends and the length of the control polygon. *)
Theorem C174_exists : forall p n dim U P c, clamped_curve p n dim U P c -> forall a b, 0 <= a -> a <= b -> b <= 1 ->
  exists L, arc_length c dim a b L /\ (forall L', arc_length c dim a b L' -> L' = L) /\ L <= rsum (fun i => distance P dim (S i) i) n /\
    forall x y, evaluate c a = Val (Ok x) -> evaluate c b = Val (Ok y) -> sqrt (rsum (fun d => (nth d y 0 - nth d x 0) ^ 2) dim) <= L.
Proof. exact length_exists. Qed.
Print Assumptions C174_exists.

Theorem C174_additive : forall p n dim U P c, clamped_curve p n dim U P c -> forall a b d L1 L2, 0 <= a -> a <= b -> b <= d -> d <= 1 ->
  arc_length c dim a b L1 -> arc_length c dim b d L2 -> arc_length c dim a d (L1 + L2).
Proof. exact length_additive. Qed.
Print Assumptions C174_additive.

(** at most the speed of C78 times the difference of the parameters *)
Theorem C174_speed : forall p n dim U P c, clamped_curve p n dim U P c -> forall K a b L, (1 <= p)%nat -> (forall x, 0 < x < 1 -> (mult U x <= p)%nat) ->
  (forall i, (i < n)%nat -> INR p * distance P dim (S i) i <= K * (nth (i + p + 1) U 0 - nth (i + 1) U 0)) ->
  0 <= a -> a <= b -> b <= 1 -> arc_length c dim a b L -> L <= K * (b - a).
Proof. exact length_speed. Qed.
Print Assumptions C174_speed.

(** an inserted knot keeps the length of every part, and brings the length of the
    control polygon no further from it *)
Theorem C174_insert : forall p n dim U P c u, clamped_curve p n dim U P c -> 0 < u < 1 -> (mult U u <= p)%nat -> simple_below U u ->
  exists c' U' P', curve_insert c u = Val (c', Ok tt) /\ clamped_curve p (S n) dim U' P' c' /\
    (forall a b L, arc_length c dim a b L <-> arc_length c' dim a b L) /\
    forall L, arc_length c dim 0 1 L -> L <= rsum (fun i => distance P' dim (S i) i) (S n) <= rsum (fun i => distance P dim (S i) i) n.
Proof. exact length_insert. Qed.
Print Assumptions C174_insert.

Theorem C174_reverse : forall p n dim U P c, clamped_curve p n dim U P c -> (forall x, 0 < x < 1 -> (mult U x <= p)%nat) ->
  exists c', reverse c = Val c' /\ forall a b L, 0 <= a -> a <= b -> b <= 1 -> arc_length c dim a b L -> arc_length c' dim (1 - b) (1 - a) L.
Proof. exact length_reverse. Qed.
Print Assumptions C174_reverse.

(** the lengths of the two parts of a split curve add up to its length *)
Theorem C174_split : forall p n dim U P c u, clamped_curve p n dim U P c -> 0 < u < 1 -> (mult U u <= p)%nat -> simple_below U u ->
  exists cl cr Ll Lr, split c u = Val (Ok (cl, cr)) /\ arc_length cl dim 0 1 Ll /\ arc_length cr dim 0 1 Lr /\
    arc_length c dim 0 u Ll /\ arc_length c dim u 1 Lr /\ arc_length c dim 0 1 (Ll + Lr).
Proof. exact length_split. Qed.
Print Assumptions C174_split.

(** the control polygon is longer by at most [n M h^2], where [M] bounds the control points
    of the second derivative and [h] the differences of knots that are [p] apart *)
Theorem C174_control : forall p n dim U P c M h D L, clamped_curve p n dim U P c -> (2 <= p)%nat -> (forall x, 0 < x < 1 -> (mult U x <= p - 1)%nat) ->
  @matrix_derivative RNum (cpoints c) 2 = Val D -> (forall i, (i + 2 <= n)%nat -> sqrt (rsum (fun d => ent D i d ^ 2) dim) <= M) ->
  (forall i, (i < n)%nat -> nth (i + p + 1) U 0 - nth (i + 1) U 0 <= h) ->
  arc_length c dim 0 1 L -> L <= rsum (fun i => distance P dim (S i) i) n <= L + INR n * (M * h ^ 2).
Proof. exact length_control. Qed.
Print Assumptions C174_control.

(** the polyline through the points at [N + 1] equally spaced parameters is shorter by
    at most [M / N] *)
Theorem C174_samples : forall p n dim U P c M D N L s, clamped_curve p n dim U P c -> (2 <= p)%nat -> (forall x, 0 < x < 1 -> (mult U x <= p - 1)%nat) ->
  @matrix_derivative RNum (cpoints c) 2 = Val D -> (forall i, (i + 2 <= n)%nat -> sqrt (rsum (fun d => ent D i d ^ 2) dim) <= M) ->
  (1 <= N)%nat -> chain c dim 0 1 N (fun j => INR j / INR N) s -> arc_length c dim 0 1 L -> s <= L <= s + M / INR N.
Proof. exact length_equal. Qed.
Print Assumptions C174_samples.

(** the sum of the lengths of first derivatives at [0, 1/N, ..., (N-1)/N], times [1/N],
    differs from the length by at most [3/2 M / N] *)
Theorem C174_speeds : forall p n dim U P c, clamped_curve p n dim U P c -> forall M D N L (x : nat -> list R), (2 <= p)%nat -> (forall t, 0 < t < 1 -> (mult U t <= p - 1)%nat) ->
  @matrix_derivative RNum (cpoints c) 2 = Val D -> (forall i, (i + 2 <= n)%nat -> sqrt (rsum (fun d => ent D i d ^ 2) dim) <= M) ->
  (1 <= N)%nat -> (forall j, (j < N)%nat -> evaluate_derivative c (INR j / INR N) 1 = Val (Ok (x j))) -> arc_length c dim 0 1 L ->
  Rabs (L - rsum (fun j => sqrt (rsum (fun d => nth d (x j) 0 ^ 2) dim) / INR N) N) <= 3 / 2 * (M / INR N).
Proof. exact length_speeds. Qed.
Print Assumptions C174_speeds.

(** the quadratic, with the length it has and its polyline in two steps *)
Example C174_hypotheses : exists c D L s, clamped_curve 2 3 2 U_a P_a c /\ (mult U_a (1/4) <= 2)%nat /\ simple_below U_a (1/4) /\ (forall x, 0 < x < 1 -> (mult U_a x <= 2 - 1)%nat) /\
  @matrix_derivative RNum (cpoints c) 2 = Val D /\ (forall i, (i + 2 <= 3)%nat -> sqrt (rsum (fun d => ent D i d ^ 2) 2) <= 24) /\
  (forall i, (i < 3)%nat -> nth (i + 2 + 1) U_a 0 - nth (i + 1) U_a 0 <= 1) /\
  arc_length c 2 0 1 L /\ chain c 2 0 1 2 (fun j => INR j / INR 2) s /\ 2 < s /\
  forall i, (i < 3)%nat -> INR 2 * distance P_a 2 (S i) i <= 20 * (nth (i + 2 + 1) U_a 0 - nth (i + 1) U_a 0).
Proof.
  destruct curve_a as [c H]. destruct (second_a c H) as (D & D1 & A & B & C & E).
  destruct (length_exists _ _ _ _ _ _ H 0 1 ltac:(lra) ltac:(lra) ltac:(lra)) as (L & V & _).
  destruct (endpoints _ _ _ _ _ _ H) as [[x [X1 [X2 X3]]] [y [Y1 _]]]. assert (M := half_a c H).
  set (z := fun j => match j with 0%nat => x | 1%nat => [2; 2] | _ => y end).
  exists c, D, L, (rsum (fun j => sqrt (rsum (fun d => (nth d (z (S j)) 0 - nth d (z j) 0) ^ 2) 2)) 2). split; [exact H|].
  split. { unfold mult, U_a. cbn [count_occ]. repeat (destruct (Req_EM_T _ _); try lra); lia. }
  split. { apply simple_a. lra. }
  split. { intros t Ht. unfold mult, U_a. cbn [count_occ]. repeat (destruct (Req_EM_T _ _); try lra); lia. }
  split; [exact D1|].
  split. { intros i Hi. cbn [rsum]. destruct i as [|[|i]]; [rewrite A, B|rewrite C, E|lia].
    - replace (0 + 0 ^ 2 + (-16) ^ 2) with (16 * 16) by ring. rewrite sqrt_square; lra.
    - replace (0 + 0 ^ 2 + (-24) ^ 2) with (24 * 24) by ring. rewrite sqrt_square; lra. }
  split. { unfold U_a. intros [|[|[|i]]] Hi; [cbn; lra|cbn; lra|cbn; lra|lia]. }
  split; [exact V|].
  split. { split; [|split].
    - intros [|[|[|j]]] Hj; [cbn; lra|cbn; lra|cbn; lra|lia].
    - intros [|[|j]] Hj; [cbn; lra|cbn; lra|lia].
    - exists z. split; [|reflexivity]. intros [|[|[|j]]] Hj; [| | |lia].
      + replace (INR 0 / INR 2) with 0 by (cbn; lra). exact X1.
      + replace (INR 1 / INR 2) with (1/2) by (cbn; lra). exact M.
      + replace (INR 2 / INR 2) with 1 by (cbn; lra). exact Y1. }
  split.
  { assert (Q0 : nth 0 x 0 = 0) by exact (X3 0%nat ltac:(lia)). assert (Q1 : nth 1 x 0 = 0) by exact (X3 1%nat ltac:(lia)).
    cbn [rsum]. unfold z at 1 2 3 4. rewrite Q0, Q1. cbn [nth].
    assert (2 < sqrt (0 + (2 - 0) ^ 2 + (2 - 0) ^ 2)). { rewrite <- (sqrt_square 2) at 1 by lra. apply sqrt_lt_1; lra. }
    assert (T := sqrt_pos (0 + (nth 0 (z 2%nat) 0 - nth 0 (z 1%nat) 0) ^ 2 + (nth 1 (z 2%nat) 0 - nth 1 (z 1%nat) 0) ^ 2)). lra. }
  assert (BS : forall x, 0 <= x <= 25 -> sqrt x <= 5).
  { intros t Ht. replace 5 with (sqrt (5 * 5)) by (apply sqrt_square; lra). apply sqrt_le_1; lra. }
  intros i Hi. assert (DI : distance P_a 2 (S i) i <= 5).
  { unfold distance, ent, P_a. apply BS. destruct i as [|[|[|i]]]; [cbn; lra|cbn; lra|cbn; lra|lia]. }
  unfold U_a. destruct i as [|[|[|i]]]; [cbn [INR]; cbn; lra|cbn [INR]; cbn; lra|cbn [INR]; cbn; lra|lia].
Qed.

(** ** C175.  The length measured on points computed in binary64 exceeds the length of
    the exact curve by no more than rounding errors ... *)
Theorem C175_below : forall p n dim (U : list f64) P M c P' cR, float_curve p n dim U P M c -> same_points n dim P P' -> clamped_curve p n dim (map val U) P' cR ->
  (1 <= p <= 100)%nat -> / 2 ^ 1000 <= M <= 2 ^ 1022 ->
  forall m (u : nat -> f64) (x : nat -> list f64), (forall j, (j <= m)%nat -> finite (u j) /\ 0 <= val (u j) <= 1) -> (forall j, (j < m)%nat -> val (u j) <= val (u (S j))) ->
  (forall j, (j <= m)%nat -> @evaluate F64 c (u j) = Val (Ok (x j))) -> forall L, arc_length cR dim (val (u 0%nat)) (val (u m)) L ->
  rsum (fun j => sqrt (rsum (fun d => (val (nth d (x (S j)) (@n0 F64)) - val (nth d (x j) (@n0 F64))) ^ 2) dim)) m <= L + 2 * INR m * sqrt (INR dim) * ((6 * INR p + 3) * / 2 ^ 53 * M).
Proof. exact measured_below. Qed.
Print Assumptions C175_below.

(** ... and stays below it by no more than these and the steps between the parameters *)
Theorem C175_measured : forall p n dim (U : list f64) P M c P' cR, float_curve p n dim U P M c -> same_points n dim P P' -> clamped_curve p n dim (map val U) P' cR ->
  (1 <= p <= 100)%nat -> / 2 ^ 1000 <= M <= 2 ^ 1022 ->
  forall m (u : nat -> f64) (x : nat -> list f64), (forall j, (j <= m)%nat -> finite (u j) /\ 0 <= val (u j) <= 1) -> (forall j, (j < m)%nat -> val (u j) <= val (u (S j))) ->
  (forall j, (j <= m)%nat -> @evaluate F64 c (u j) = Val (Ok (x j))) ->
  forall K D h L, (2 <= p)%nat -> (forall t, 0 < t < 1 -> (mult (map val U) t <= p - 1)%nat) ->
  @matrix_derivative RNum (cpoints cR) 2 = Val D -> (forall i, (i + 2 <= n)%nat -> sqrt (rsum (fun d => ent D i d ^ 2) dim) <= K) ->
  (forall j, (j < m)%nat -> val (u (S j)) <= val (u j) + h) -> arc_length cR dim (val (u 0%nat)) (val (u m)) L ->
  Rabs (rsum (fun j => sqrt (rsum (fun d => (val (nth d (x (S j)) (@n0 F64)) - val (nth d (x j) (@n0 F64))) ^ 2) dim)) m - L)
    <= K * h * (val (u m) - val (u 0%nat)) + 2 * INR m * sqrt (INR dim) * ((6 * INR p + 3) * / 2 ^ 53 * M).
Proof. exact measured. Qed.
Print Assumptions C175_measured.

(** the quadratic of the samples at its two ends *)
Example C175_hypotheses : exists c cR u x D K L, float_curve 2 3 1 U_f P_f 2 c /\ same_points 3 1 P_f PR_f /\ clamped_curve 2 3 1 (map val U_f) PR_f cR /\
  / 2 ^ 1000 <= 2 <= 2 ^ 1022 /\ (forall j, (j <= 1)%nat -> finite (u j) /\ 0 <= val (u j) <= 1) /\ (forall j, (j < 1)%nat -> val (u j) <= val (u (S j))) /\
  (forall j, (j <= 1)%nat -> @evaluate F64 c (u j) = Val (Ok (x j))) /\ (forall t, 0 < t < 1 -> (mult (map val U_f) t <= 2 - 1)%nat) /\
  @matrix_derivative RNum (cpoints cR) 2 = Val D /\ (forall i, (i + 2 <= 3)%nat -> sqrt (rsum (fun d => ent D i d ^ 2) 1) <= K) /\
  (forall j, (j < 1)%nat -> val (u (S j)) <= val (u j) + 1) /\ val (u 0%nat) = 0 /\ val (u 1%nat) = 1 /\ arc_length cR 1 (val (u 0%nat)) (val (u 1%nat)) L.
Proof.
  destruct curve_f as [c H]. destruct (clamped_curve_ex 2 3 1 (map val U_f) PR_f) as [cR HR]; [apply H|apply same_f|].
  assert (S := small_1000). assert (BM : / 2 ^ 1000 <= 2 <= 2 ^ 1022) by (split; [lra|]; change 1022%nat with (1 + 1021)%nat; rewrite pow_add, pow_1; assert (1 <= 2 ^ 1021) by (apply pow_R1_Rle; lra); lra).
  destruct (deriv_matrix 2 3 1 (map val U_f) PR_f cR 2 HR ltac:(lia)) as (D & D1 & _ & _).
  destruct (proj1 (ends_F64 2 3 1 U_f P_f 2 c (q4 0) H ltac:(reflexivity)) val_q4_0) as (x & X1 & _ & X3).
  destruct (proj2 (ends_F64 2 3 1 U_f P_f 2 c (q4 4) H ltac:(reflexivity)) val_q4_4) as (y & Y1 & _ & Y3).
  destruct (length_exists _ _ _ _ _ _ HR 0 1 ltac:(lra) ltac:(lra) ltac:(lra)) as (L & V & _).
  exists c, cR, (fun j => match j with 0%nat => q4 0 | _ => q4 4 end), (fun j => match j with 0%nat => x | _ => y end), D, (sqrt (rsum (fun d => ent D 0 d ^ 2) 1) + sqrt (rsum (fun d => ent D 1 d ^ 2) 1)), L.
  split; [exact H|]. split; [exact same_f|]. split; [exact HR|]. split; [exact BM|].
  split. { intros [|[|j]] Hj; [rewrite val_q4_0; split; [reflexivity|lra]|rewrite val_q4_4; split; [reflexivity|lra]|lia]. }
  split. { intros [|j] Hj; [rewrite val_q4_0, val_q4_4; lra|lia]. }
  split. { intros [|[|j]] Hj; [exact X1|exact Y1|lia]. }
  split. { intros t Ht. rewrite val_U_f. unfold mult. cbn [count_occ]. repeat (destruct (Req_EM_T _ _); try lra); lia. }
  split; [exact D1|].
  split. { intros [|[|i]] Hi; [| |lia]; assert (T0 := sqrt_pos (rsum (fun d => ent D 0 d ^ 2) 1)); assert (T1 := sqrt_pos (rsum (fun d => ent D 1 d ^ 2) 1)); lra. }
  split. { intros [|j] Hj; [rewrite val_q4_0, val_q4_4; lra|lia]. }
  rewrite val_q4_0, val_q4_4. split; [reflexivity|]. split; [reflexivity|exact V].
Qed.

(** ** C176.  On a curve without jumps every distance from its start up to the whole length is
    reached somewhere ... *)
Theorem C176_reached : forall p n dim U P c, clamped_curve p n dim U P c -> (1 <= p)%nat -> (forall x, 0 < x < 1 -> (mult U x <= p)%nat) ->
  forall a b L s, 0 <= a -> a <= b -> b <= 1 -> arc_length c dim a b L -> 0 <= s <= L ->
  exists t, a <= t <= b /\ arc_length c dim a t s /\ arc_length c dim t b (L - s).
Proof. exact length_reached. Qed.
Print Assumptions C176_reached.

(** ... so the curve can be divided into parts of equal length, and the points between them
    are no further apart than that *)
Theorem C176_equal_parts : forall p n dim U P c, clamped_curve p n dim U P c -> (1 <= p)%nat -> (forall x, 0 < x < 1 -> (mult U x <= p)%nat) ->
  forall m, (1 <= m)%nat -> exists (t : nat -> R) L, arc_length c dim 0 1 L /\ t 0%nat = 0 /\ t m = 1 /\
    forall j, (j < m)%nat -> 0 <= t j /\ t j <= t (S j) /\ t (S j) <= 1 /\ arc_length c dim (t j) (t (S j)) (L / INR m) /\
      forall x y, evaluate c (t j) = Val (Ok x) -> evaluate c (t (S j)) = Val (Ok y) -> sqrt (rsum (fun d => (nth d y 0 - nth d x 0) ^ 2) dim) <= L / INR m.
Proof. exact equal_parts. Qed.
Print Assumptions C176_equal_parts.

(** the quadratic, and half of its length *)
Example C176_hypotheses : exists c L, clamped_curve 2 3 2 U_a P_a c /\ (forall x, 0 < x < 1 -> (mult U_a x <= 2)%nat) /\ arc_length c 2 0 1 L /\ 0 <= L / 2 <= L /\ 0 < L.
Proof.
  destruct C174_hypotheses as (c & D & L & s & H & _ & _ & HM & _ & _ & _ & V & Ch & Hs & _). exists c, L. split; [exact H|].
  split; [intros x Hx; specialize (HM x Hx); lia|]. split; [exact V|].
  assert (s <= L) by (apply (proj1 V); exists 2%nat, (fun j => INR j / INR 2); exact Ch). lra.
Qed.
