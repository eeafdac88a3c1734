(** * Properties C177 and C178: antiderivatives and means of curves *)

From Coq Require Import ZArith Reals List Bool Arith Lra Lia.
From Flocq Require Import Core.Core IEEE754.BinarySingleNaN.
From Verif Require Import Num Vec MKnots MPoints MCurve RNum F64 Lists Spec Api ApiF Bridge Facts1 Facts11 Samples Refine1 Float1 Float5 Float6 Float7 Float8 Float36 Anti Mean2.
Import ListNotations.
Local Open Scope R_scope.

(** ** C177.  Every curve is the derivative of a curve of the next degree, whose knots have one
    more 0 and 1 and whose control points are sums of the given ones, weighted with the
    lengths of their supports. *)
Theorem C177_antiderivative : forall p n dim U P c, clamped_curve p n dim U P c -> (forall x, 0 < x < 1 -> (mult U x <= p + 1)%nat) ->
  exists Q c', clamped_curve (S p) (S n) dim (0 :: U ++ [1]) Q c' /\
    (forall d, (d < dim)%nat -> ent Q 0 d = 0 /\ forall i, (i <= n)%nat -> ent Q (S i) d = ent Q i d + ent P i d * (nth (i + p + 1) U 0 - nth i U 0) / INR (S p)) /\
    forall k u, (k <= p)%nat -> 0 <= u <= 1 -> evaluate_derivative c' u (S k) = evaluate_derivative c u k.
Proof. exact antiderivative. Qed.
Print Assumptions C177_antiderivative.

(** The mean of the points at [0, 1/N, ..., (N-1)/N] differs from the mean of the control
    points, with these weights, by at most [K / (2 N)]; [K] bounds the control points of
    the first derivative. *)
Theorem C177_mean : forall p n dim U P c, clamped_curve p n dim U P c -> forall D K N (x : nat -> list R), (1 <= p)%nat -> (forall t, 0 < t < 1 -> (mult U t <= p)%nat) ->
  @matrix_derivative RNum (cpoints c) 1 = Val D -> (forall i, (i + 1 <= n)%nat -> sqrt (rsum (fun d => ent D i d ^ 2) dim) <= K) ->
  (1 <= N)%nat -> (forall j, (j < N)%nat -> evaluate c (INR j / INR N) = Val (Ok (x j))) ->
  sqrt (rsum (fun d => (rsum (fun j => nth d (x j) 0) N / INR N - rsum (fun i => ent P i d * (nth (i + p + 1) U 0 - nth i U 0)) (S n) / INR (S p)) ^ 2) dim) <= K / (2 * INR N).
Proof. exact mean. Qed.
Print Assumptions C177_mean.

(** the quadratic at two parameters; the weights are 1/6, 1/3, 1/3, 1/6 *)
Example C177_hypotheses : exists c D K x, clamped_curve 2 3 2 U_a P_a c /\ (forall t, 0 < t < 1 -> (mult U_a t <= 2)%nat) /\
  @matrix_derivative RNum (cpoints c) 1 = Val D /\ (forall i, (i + 1 <= 3)%nat -> sqrt (rsum (fun d => ent D i d ^ 2) 2) <= K) /\
  (forall j, (j < 2)%nat -> evaluate c (INR j / INR 2) = Val (Ok (x j))) /\
  (nth (0 + 2 + 1) U_a 0 - nth 0 U_a 0) / INR 3 = 1 / 6 /\ (nth (1 + 2 + 1) U_a 0 - nth 1 U_a 0) / INR 3 = 1 / 3.
Proof.
  destruct curve_a as [c H]. destruct (deriv_matrix 2 3 2 U_a P_a c 1 H ltac:(lia)) as (D & D1 & _ & _).
  destruct (cc_eval0 2 3 2 U_a P_a c (INR 0 / INR 2) H ltac:(cbn; lra)) as [x [X _]]. destruct (cc_eval0 2 3 2 U_a P_a c (INR 1 / INR 2) H ltac:(cbn; lra)) as [y [Y _]].
  set (s := fun i => sqrt (rsum (fun d => ent D i d ^ 2) 2)).
  exists c, D, (s 0%nat + s 1%nat + s 2%nat), (fun j => match j with 0%nat => x | _ => y end). split; [exact H|].
  split. { intros t Ht. unfold mult, U_a. cbn [count_occ]. repeat (destruct (Req_EM_T _ _); try lra); lia. }
  split; [exact D1|].
  split. { assert (S0 : 0 <= s 0%nat) by apply sqrt_pos. assert (S1 : 0 <= s 1%nat) by apply sqrt_pos. assert (S2 : 0 <= s 2%nat) by apply sqrt_pos.
    intros i Hi. change (s i <= s 0%nat + s 1%nat + s 2%nat). destruct i as [|[|[|i]]]; [lra|lra|lra|lia]. }
  split. { intros [|[|j]] Hj; [exact X|exact Y|lia]. }
  unfold U_a. cbn. split; lra.
Qed.

(** ** C178.  The mean of points computed in binary64 at parameters within [h] of
    [0, 1/N, ..., (N-1)/N] *)
Theorem C178_mean : forall p n dim (U : list f64) P M c P' cR, float_curve p n dim U P M c -> same_points n dim P P' -> clamped_curve p n dim (map val U) P' cR ->
  (1 <= p <= 100)%nat -> / 2 ^ 1000 <= M <= 2 ^ 1022 ->
  forall D K h N (u : nat -> f64) (x : nat -> list f64) d, (forall t, 0 < t < 1 -> (mult (map val U) t <= p)%nat) ->
  @matrix_derivative RNum (cpoints cR) 1 = Val D -> (forall i, (i + 1 <= n)%nat -> sqrt (rsum (fun d => ent D i d ^ 2) dim) <= K) ->
  (1 <= N)%nat -> (forall j, (j < N)%nat -> finite (u j) /\ 0 <= val (u j) <= 1 /\ Rabs (val (u j) - INR j / INR N) <= h) ->
  (forall j, (j < N)%nat -> @evaluate F64 c (u j) = Val (Ok (x j))) -> (d < dim)%nat ->
  Rabs (rsum (fun j => val (nth d (x j) (@n0 F64))) N / INR N - rsum (fun i => ent P' i d * (nth (i + p + 1) (map val U) 0 - nth i (map val U) 0)) (S n) / INR (S p))
    <= K / (2 * INR N) + K * h + (6 * INR p + 3) * / 2 ^ 53 * M.
Proof. exact computed_mean. Qed.
Print Assumptions C178_mean.

(** the quadratic of the samples at 0 and 1/2 *)
Example C178_hypotheses : exists c cR u x D K, float_curve 2 3 1 U_f P_f 2 c /\ same_points 3 1 P_f PR_f /\ clamped_curve 2 3 1 (map val U_f) PR_f cR /\
  / 2 ^ 1000 <= 2 <= 2 ^ 1022 /\ (forall t, 0 < t < 1 -> (mult (map val U_f) t <= 2)%nat) /\
  @matrix_derivative RNum (cpoints cR) 1 = Val D /\ (forall i, (i + 1 <= 3)%nat -> sqrt (rsum (fun d => ent D i d ^ 2) 1) <= K) /\
  (forall j, (j < 2)%nat -> finite (u j) /\ 0 <= val (u j) <= 1 /\ Rabs (val (u j) - INR j / INR 2) <= 0) /\
  (forall j, (j < 2)%nat -> @evaluate F64 c (u j) = Val (Ok (x j))).
Proof.
  destruct curve_f as [c H]. destruct (clamped_curve_ex 2 3 1 (map val U_f) PR_f) as [cR HR]; [apply H|apply same_f|].
  assert (S := small_1000). assert (BM : / 2 ^ 1000 <= 2 <= 2 ^ 1022) by (split; [lra|]; change 1022%nat with (1 + 1021)%nat; rewrite pow_add, pow_1; assert (1 <= 2 ^ 1021) by (apply pow_R1_Rle; lra); lra).
  destruct (deriv_matrix 2 3 1 (map val U_f) PR_f cR 1 HR ltac:(lia)) as (D & D1 & _ & _).
  destruct (accuracy_F64 2 3 1 U_f P_f 2 c PR_f cR (q4 0) H same_f HR ltac:(lia) BM ltac:(reflexivity) ltac:(rewrite val_q4_0; lra)) as (_ & _ & (x & X & _)).
  destruct (accuracy_F64 2 3 1 U_f P_f 2 c PR_f cR (q4 2) H same_f HR ltac:(lia) BM ltac:(reflexivity) ltac:(rewrite val_q4_2; lra)) as (_ & _ & (y & Y & _)).
  set (s := fun i => sqrt (rsum (fun d => ent D i d ^ 2) 1)).
  exists c, cR, (fun j => match j with 0%nat => q4 0 | _ => q4 2 end), (fun j => match j with 0%nat => x | _ => y end), D, (s 0%nat + s 1%nat + s 2%nat).
  split; [exact H|]. split; [exact same_f|]. split; [exact HR|]. split; [exact BM|].
  split. { intros t Ht. rewrite val_U_f. unfold mult. cbn [count_occ]. repeat (destruct (Req_EM_T _ _); try lra); lia. }
  split; [exact D1|].
  split. { assert (S0 : 0 <= s 0%nat) by apply sqrt_pos. assert (S1 : 0 <= s 1%nat) by apply sqrt_pos. assert (S2 : 0 <= s 2%nat) by apply sqrt_pos.
    intros i Hi. change (s i <= s 0%nat + s 1%nat + s 2%nat). destruct i as [|[|[|i]]]; [lra|lra|lra|lia]. }
  split.
  - intros [|[|j]] Hj; [| |lia]; (split; [reflexivity|]); rewrite ?val_q4_0, ?val_q4_2; (split; [lra|]).
    + replace (0 - INR 0 / INR 2) with 0 by (cbn; lra). rewrite Rabs_R0. lra.
    + replace (1 / 2 - INR 1 / INR 2) with 0 by (cbn; lra). rewrite Rabs_R0. lra.
  - intros [|[|j]] Hj; [exact X|exact Y|lia].
Qed.
