(** * The mean of points computed in binary64 *)

From Coq Require Import ZArith Reals List Bool Arith Lra Lia.
From Flocq Require Import Core.Core IEEE754.BinarySingleNaN.
From Verif Require Import Num Vec MKnots MPoints MCurve RNum F64 Lists Spec BMath BMath2 BMath3 SW Api ApiF Bridge Facts1 Facts11 Samples Shape1 Shape2 Shape3 Refine1 Sampling Float1 Float5 Float6 Float7 Float8 Sampling2 Anti.
Import ListNotations.
Local Open Scope R_scope.

Lemma coordinate_le dim e d : (d < dim)%nat -> Rabs (e d) <= norm dim e.
Proof.
  intros Hd. rewrite <- (sqrt_Rsqr_abs (e d)). apply sqrt_le_1_alt. unfold Rsqr.
  assert (G : forall k, 0 <= rsum (fun d => e d ^ 2) k /\ ((d < k)%nat -> e d * e d <= rsum (fun d => e d ^ 2) k)); [|apply G, Hd].
  induction k as [|k [I1 I2]]; cbn [rsum]; [split; [lra|lia]|]. assert (T := pow2_ge_0 (e k)). split; [lra|]. intros Hk. destruct (Nat.eq_dec d k) as [->|NE]; [lra|]. specialize (I2 ltac:(lia)). lra.
Qed.
Lemma mean_near N f g B : (1 <= N)%nat -> (forall j, (j < N)%nat -> Rabs (f j - g j) <= B) -> Rabs (rsum f N / INR N - rsum g N / INR N) <= B.
Proof.
  intros HN HB. assert (N0 : 0 < INR N) by (apply lt_0_INR; lia).
  assert (G : forall k, (k <= N)%nat -> Rabs (rsum f k - rsum g k) <= INR k * B).
  { induction k as [|k IH]; intros Hk; [cbn [rsum INR]; rewrite Rminus_0_r, Rabs_R0; lra|]. specialize (IH ltac:(lia)). assert (T := HB k ltac:(lia)). cbn [rsum]. rewrite S_INR. apply Rabs_le_inv in IH. apply Rabs_le_inv in T. apply Rabs_le. lra. }
  specialize (G N ltac:(lia)). replace (rsum f N / INR N - rsum g N / INR N) with ((rsum f N - rsum g N) * / INR N) by (field; lra). rewrite Rabs_mult, (Rabs_right (/ INR N)) by (apply Rle_ge, Rlt_le, Rinv_0_lt_compat, N0).
  apply (Rmult_le_reg_r (INR N)); [exact N0|]. rewrite Rmult_assoc, Rinv_l by lra. lra.
Qed.

Section Computed.
  Variables (p n dim : nat) (U : list f64) (P : Mat F64) (M : R) (c : Curve F64) (P' : Mat RNum) (cR : Curve RNum).
  Hypothesis FC : float_curve p n dim U P M c.
  Hypothesis SP : same_points n dim P P'.
  Hypothesis H : clamped_curve p n dim (map val U) P' cR.
  Hypothesis Hp : (1 <= p <= 100)%nat.
  Hypothesis HM : / 2 ^ 1000 <= M <= 2 ^ 1022.

  Theorem computed_mean D K h N (u : nat -> f64) (x : nat -> list f64) d : (forall t, 0 < t < 1 -> (mult (map val U) t <= p)%nat) ->
    @matrix_derivative RNum (cpoints cR) 1 = Val D -> (forall i, (i + 1 <= n)%nat -> sqrt (rsum (fun d => ent D i d ^ 2) dim) <= K) ->
    (1 <= N)%nat -> (forall j, (j < N)%nat -> finite (u j) /\ 0 <= val (u j) <= 1 /\ Rabs (val (u j) - INR j / INR N) <= h) ->
    (forall j, (j < N)%nat -> @evaluate F64 c (u j) = Val (Ok (x j))) -> (d < dim)%nat ->
    Rabs (rsum (fun j => val (nth d (x j) (@n0 F64))) N / INR N - rsum (fun i => ent P' i d * (nth (i + p + 1) (map val U) 0 - nth i (map val U) 0)) (S n) / INR (S p))
      <= K / (2 * INR N) + K * h + (6 * INR p + 3) * / 2 ^ 53 * M.
  Proof using FC SP H Hp HM.
    intros MU HD BD HN Hu Ex Hd. assert (N0 : 0 < INR N) by (apply lt_0_INR; lia). assert (I0 := Rinv_0_lt_compat _ N0).
    assert (C : clamped p n (map val U)) by apply H. assert (F := kfun_clamped _ _ _ C).
    set (f := fun t d => dspline (kfun (map val U)) n p (fun i => ent P' i d) 0 t).
    assert (Ur : forall j, (j < N)%nat -> 0 <= INR j / INR N <= 1).
    { intros j Hj. assert (Q : (j <= N)%nat) by lia. apply le_INR in Q. assert (J0 := pos_INR j). split; [apply Rmult_le_pos; lra|]. apply (Rmult_le_reg_r (INR N)); [exact N0|]. unfold Rdiv. rewrite Rmult_assoc, Rinv_l by lra. lra. }
    set (y := fun j => map (f (INR j / INR N)) (seq 0 dim)).
    assert (NY : forall j e, (e < dim)%nat -> nth e (y j) 0 = f (INR j / INR N) e).
    { intros j e He. unfold y. rewrite (nth_indep _ 0 (f (INR j / INR N) 0%nat)) by (rewrite map_length, seq_length; exact He). rewrite map_nth, seq_nth by exact He. reflexivity. }
    assert (EY : forall j, (j < N)%nat -> evaluate cR (INR j / INR N) = Val (Ok (y j))).
    { intros j Hj. apply (returns_same _ _ dim (f (INR j / INR N))); [apply cc_eval; [exact H|apply Ur, Hj|lia]|]. exists (y j). split; [reflexivity|]. split; [unfold y; rewrite map_length, seq_length; reflexivity|]. intros e He. apply NY, He. }
    assert (T := mean p n dim (map val U) P' cR H D K N y ltac:(lia) MU HD BD HN EY).
    set (e := fun d => rsum (fun j => nth d (y j) 0) N / INR N - rsum (fun i => ent P' i d * (nth (i + p + 1) (map val U) 0 - nth i (map val U) 0)) (S n) / INR (S p)).
    change (norm dim e <= K / (2 * INR N)) in T. assert (T' := Rle_trans _ _ _ (coordinate_le dim e d Hd) T).
    assert (G : Rabs (rsum (fun j => val (nth d (x j) (@n0 F64))) N / INR N - rsum (fun j => nth d (y j) 0) N / INR N) <= K * h + (6 * INR p + 3) * / 2 ^ 53 * M).
    { apply mean_near; [exact HN|]. intros j Hj. rewrite (NY j d Hd). destruct (Hu j Hj) as (F1 & F2 & F3). assert (A := near_exact p n dim U P M c P' cR FC SP H Hp HM (u j) (x j) d F1 F2 (Ex j Hj) Hd).
      change (Rabs (val (nth d (x j) (@n0 F64)) - f (val (u j)) d) <= (6 * INR p + 3) * / 2 ^ 53 * M) in A.
      destruct (deriv_matrix p n dim (map val U) P' cR 1 H ltac:(lia)) as (D1 & E1 & _ & V1). rewrite HD in E1. injection E1 as <-.
      assert (BK : forall i, (i <= n - 1)%nat -> Rabs (dpoints (kfun (map val U)) p (fun i => ent P' i d) 1 i) <= K).
      { intros i Hi. assert (PN := fc_deg _ _ _ F). rewrite <- V1 by lia. eapply Rle_trans; [apply (coordinate_le dim (fun d => ent D i d) d Hd)|]. apply BD. lia. }
      assert (K0 : 0 <= K) by (eapply Rle_trans; [apply Rabs_pos|apply (BK 0%nat); lia]).
      assert (S1 := slope_abs p n (kfun (map val U)) F (fun i => ent P' i d) 0 K (INR j / INR N) (val (u j)) ltac:(lia)). rewrite Nat.sub_0_r in S1. specialize (S1 (mults_le p n _ C MU) BK (Ur j Hj) F2).
      assert (S2 : K * Rabs (val (u j) - INR j / INR N) <= K * h) by (apply Rmult_le_compat_l; assumption).
      change (dspline (kfun (map val U)) n p (fun i => ent P' i d) 0 (val (u j))) with (f (val (u j)) d) in S1. change (dspline (kfun (map val U)) n p (fun i => ent P' i d) 0 (INR j / INR N)) with (f (INR j / INR N) d) in S1.
      assert (S3 := Rle_trans _ _ _ S1 S2). apply Rabs_le_inv in S3. apply Rabs_le_inv in A. apply Rabs_le. lra. }
    unfold e in T'. apply Rabs_le_inv in T'. apply Rabs_le_inv in G. apply Rabs_le. lra.
  Qed.
End Computed.
