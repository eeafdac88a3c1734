(** * Lengths measured on points computed in binary64 *)

From Coq Require Import ZArith Reals List Bool Arith Lra Lia.
From Flocq Require Import Core.Core IEEE754.BinarySingleNaN.
From Verif Require Import Num Vec MKnots MPoints MCurve RNum F64 Lists Spec BMath BMath2 BMath3 SW Api ApiF ApiX Bridge Facts1 Facts11 Samples Shape1 Shape2 Shape3 Refine1 Sampling Float1 Float5 Float6 Float7 Float8 Sampling2 Arc Arc2.
Import ListNotations.
Local Open Scope R_scope.

Lemma norm_coords dim e B : 0 <= B -> (forall d, (d < dim)%nat -> Rabs (e d) <= B) -> norm dim e <= sqrt (INR dim) * B.
Proof.
  intros HB HE. replace (sqrt (INR dim) * B) with (sqrt (INR dim * (B * B))) by (rewrite sqrt_mult by (try apply pos_INR; apply Rmult_le_pos; exact HB); rewrite sqrt_square by exact HB; reflexivity).
  apply sqrt_le_1_alt. rewrite <- rsum_cst. apply BMath.rsum_le. intros d Hd. specialize (HE d Hd). rewrite <- (pow2_abs (e d)). replace (Rabs (e d) ^ 2) with (Rabs (e d) * Rabs (e d)) by ring.
  apply Rmult_le_compat; try apply Rabs_pos; exact HE.
Qed.

Section Measured.
  Variables (p n dim : nat) (U : list f64) (P : Mat F64) (M : R) (c : Curve F64) (P' : Mat RNum) (cR : Curve RNum).
  Hypothesis FC : float_curve p n dim U P M c.
  Hypothesis SP : same_points n dim P P'.
  Hypothesis H : clamped_curve p n dim (map val U) P' cR.
  Hypothesis Hp : (1 <= p <= 100)%nat.
  Hypothesis HM : / 2 ^ 1000 <= M <= 2 ^ 1022.
  Variables (m : nat) (u : nat -> f64) (x : nat -> list f64).
  Hypothesis Fu : forall j, (j <= m)%nat -> finite (u j) /\ 0 <= val (u j) <= 1.
  Hypothesis Hu : forall j, (j < m)%nat -> val (u j) <= val (u (S j)).
  Hypothesis Ex : forall j, (j <= m)%nat -> @evaluate F64 c (u j) = Val (Ok (x j)).
  Let E := (6 * INR p + 3) * / 2 ^ 53 * M.
  Let f := pos p n (map val U) P'.

  Lemma E_pos : 0 <= E.
  Proof using Hp HM.
    assert (0 < / 2 ^ 1000) by (apply Rinv_0_lt_compat, pow_lt; lra). assert (I := pos_INR p). unfold E. repeat apply Rmult_le_pos; lra.
  Qed.
  Lemma leg j : (j < m)%nat -> Rabs (sqrt (rsum (fun d => (val (nth d (x (S j)) (@n0 F64)) - val (nth d (x j) (@n0 F64))) ^ 2) dim) - norm dim (fun d => f (val (u (S j))) d - f (val (u j)) d)) <= 2 * (sqrt (INR dim) * E).
  Proof using FC SP H Hp HM Fu Ex.
    intros Hj. set (y := fun j d => val (nth d (x j) (@n0 F64))).
    assert (A : forall j, (j <= m)%nat -> norm dim (fun d => y j d - f (val (u j)) d) <= sqrt (INR dim) * E).
    { intros i Hi. apply norm_coords; [exact E_pos|]. intros d Hd. destruct (Fu i Hi) as [F1 F2]. assert (T := near_exact p n dim U P M c P' cR FC SP H Hp HM (u i) (x i) d F1 F2 (Ex i Hi) Hd). unfold f, pos. rewrite <- dspline_0. exact T. }
    assert (A0 := A j ltac:(lia)). assert (A1 := A (S j) ltac:(lia)).
    change (Rabs (norm dim (fun d => y (S j) d - y j d) - norm dim (fun d => f (val (u (S j))) d - f (val (u j)) d)) <= 2 * (sqrt (INR dim) * E)).
    assert (T1 := norm_tri dim (y j) (f (val (u j))) (y (S j))). assert (T2 := norm_tri dim (f (val (u j))) (f (val (u (S j)))) (y (S j))).
    assert (T3 := norm_tri dim (f (val (u j))) (y j) (f (val (u (S j))))). assert (T4 := norm_tri dim (y j) (y (S j)) (f (val (u (S j))))).
    rewrite (norm_flip dim (f (val (u j))) (y j)) in T1. rewrite (norm_flip dim (f (val (u (S j)))) (y (S j))) in T4. apply Rabs_le. lra.
  Qed.
  Lemma legs k : (k <= m)%nat -> Rabs (rsum (fun j => sqrt (rsum (fun d => (val (nth d (x (S j)) (@n0 F64)) - val (nth d (x j) (@n0 F64))) ^ 2) dim)) k - len f dim k (fun j => val (u j))) <= INR k * (2 * (sqrt (INR dim) * E)).
  Proof using FC SP H Hp HM Fu Ex.
    induction k as [|k IH]; intros Hk; [unfold len; cbn [rsum INR]; rewrite Rminus_0_r, Rabs_R0; lra|]. specialize (IH ltac:(lia)). assert (T := leg k ltac:(lia)). unfold len in *. cbn [rsum]. rewrite S_INR.
    apply Rabs_le_inv in IH. apply Rabs_le_inv in T. apply Rabs_le. lra.
  Qed.
  Lemma params : inn (val (u 0%nat)) (val (u m)) m (fun j => val (u j)).
  Proof using Hp Hu.
    split; [|exact Hu]. intros j Hj. split.
    - induction j as [|j IH]; [lra|]. eapply Rle_trans; [apply IH; lia|]. apply Hu. lia.
    - assert (G : forall k, (k <= m)%nat -> val (u (m - k)%nat) <= val (u m)).
      { induction k as [|k IH]; intros Hk; [rewrite Nat.sub_0_r; lra|]. specialize (IH ltac:(lia)). assert (T := Hu (m - S k)%nat ltac:(lia)). replace (S (m - S k)) with (m - k)%nat in T by lia. lra. }
      replace j with (m - (m - j))%nat by lia. apply G. lia.
  Qed.

  (** the measured length does not exceed the true one by more than rounding errors *)
  Theorem measured_below L : arc_length cR dim (val (u 0%nat)) (val (u m)) L ->
    rsum (fun j => sqrt (rsum (fun d => (val (nth d (x (S j)) (@n0 F64)) - val (nth d (x j) (@n0 F64))) ^ 2) dim)) m <= L + 2 * INR m * sqrt (INR dim) * ((6 * INR p + 3) * / 2 ^ 53 * M).
  Proof using FC SP H Hp HM Fu Hu Ex.
    intros V. destruct (Fu 0%nat ltac:(lia)) as [_ B0]. destruct (Fu m ltac:(lia)) as [_ B1]. apply (arc_var p n dim (map val U) P' cR H) in V; [|lra|lra].
    assert (T := var_ge _ _ _ _ _ _ _ V params). assert (G := legs m ltac:(lia)). apply Rabs_le_inv in G. fold f in T. fold E. lra.
  Qed.
  (** nor stay below it by more than the steps cause *)
  Theorem measured K D h L : (2 <= p)%nat -> (forall t, 0 < t < 1 -> (mult (map val U) t <= p - 1)%nat) ->
    @matrix_derivative RNum (cpoints cR) 2 = Val D -> (forall i, (i + 2 <= n)%nat -> sqrt (rsum (fun d => ent D i d ^ 2) dim) <= K) ->
    (forall j, (j < m)%nat -> val (u (S j)) <= val (u j) + h) -> arc_length cR dim (val (u 0%nat)) (val (u m)) L ->
    Rabs (rsum (fun j => sqrt (rsum (fun d => (val (nth d (x (S j)) (@n0 F64)) - val (nth d (x j) (@n0 F64))) ^ 2) dim)) m - L)
      <= K * h * (val (u m) - val (u 0%nat)) + 2 * INR m * sqrt (INR dim) * ((6 * INR p + 3) * / 2 ^ 53 * M).
  Proof using FC SP H Hp HM Fu Hu Ex.
    intros P2 MU HD BD Hh V. destruct (Fu 0%nat ltac:(lia)) as [_ B0]. destruct (Fu m ltac:(lia)) as [_ B1]. assert (I := params).
    assert (T := length_samples p n dim (map val U) P' cR H K D P2 MU HD BD m (fun j => val (u j)) h L (len f dim m (fun j => val (u j)))). cbv beta in T.
    specialize (T ltac:(intros j Hj; split; [apply Hu, Hj|apply Hh, Hj]) ltac:(lra) ltac:(lra)).
    specialize (T (proj2 (chain_len p n dim (map val U) P' cR H _ _ m _ _ (proj1 B0) (proj2 B1)) (conj I eq_refl)) V).
    assert (G := legs m ltac:(lia)). apply Rabs_le_inv in G. fold E. apply Rabs_le. lra.
  Qed.
End Measured.
