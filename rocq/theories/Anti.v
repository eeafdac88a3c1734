(** * Antiderivatives of curves, and means *)

From Coq Require Import ZArith Reals List Bool Arith Lra Lia Psatz.
From Verif Require Import Num Vec MKnots MPoints MCurve RNum Lists Struct Spec BMath BMath2 BMath3 Api Bridge Facts1 Facts11 Fit3 Fit6 Shape1 Shape2 Refine1 Shape3 Sampling Arc Arc5.
Import ListNotations.
Local Open Scope R_scope.

Section Anti.
  Variables (p n : nat) (U : list R).
  Hypothesis C : clamped p n U.
  Definition wider : list R := 0 :: U ++ [1].
  Let F : fclamped p n (kfun U) := kfun_clamped p n U C.

  Lemma kfun_wider i : kfun wider (S i) = kfun U i.
  Proof using C F.
    assert (LN := cl_len _ _ _ C). assert (LW : length wider = (length U + 2)%nat) by (unfold wider; cbn [length]; rewrite app_length; cbn [length]; lia).
    destruct (le_lt_dec (length U) i) as [A|A].
    - rewrite (fc_one _ _ _ F i) by lia. destruct (Nat.eq_dec i (length U)) as [->|NE].
      + rewrite kfun_nth by lia. unfold wider. cbn [nth]. rewrite app_nth2, Nat.sub_diag by lia. reflexivity.
      + rewrite kfun_over by lia. rewrite LW. replace (length U + 2 - 1)%nat with (S (length U)) by lia. unfold wider. cbn [nth]. rewrite app_nth2, Nat.sub_diag by lia. reflexivity.
    - rewrite !kfun_nth by lia. unfold wider. cbn [nth]. rewrite app_nth1 by exact A. reflexivity.
  Qed.
  Lemma kfun_wider_0 : kfun wider 0 = 0.
  Proof. reflexivity. Qed.
  Lemma wider_clamped : clamped (S p) (S n) wider.
  Proof using C F.
    assert (LN := cl_len _ _ _ C). assert (LW : length wider = (length U + 2)%nat) by (unfold wider; cbn [length]; rewrite app_length; cbn [length]; lia).
    assert (N : forall i, (i < length wider)%nat -> nth i wider 0 = kfun wider i) by (intros i Hi; symmetry; apply kfun_nth, Hi).
    split.
    - assert (T := cl_deg _ _ _ C). lia.
    - lia.
    - intros i j Hij Hj. rewrite !N by lia. destruct i as [|i]; destruct j as [|j]; try lia.
      + lra.
      + rewrite kfun_wider_0, kfun_wider. rewrite <- (fc_zero _ _ _ F 0) by lia. apply (fc_mono _ _ _ F). lia.
      + rewrite !kfun_wider. apply (fc_mono _ _ _ F). lia.
    - intros i Hi. rewrite N by lia. destruct i as [|i]; [reflexivity|]. rewrite kfun_wider. apply (fc_zero _ _ _ F). lia.
    - intros i Hi Hl. rewrite N by lia. destruct i as [|i]; [lia|]. rewrite kfun_wider. apply (fc_one _ _ _ F). lia.
    - intros i Hi Hl. rewrite N by lia. destruct i as [|i]; [lia|]. rewrite kfun_wider. apply (fc_inner _ _ _ F). lia.
  Qed.
  Lemma wider_mult x : 0 < x < 1 -> mult wider x = mult U x.
  Proof using.
    intros Hx. unfold mult, wider. cbn [count_occ]. destruct (Req_EM_T 0 x); [lra|]. rewrite count_occ_app. cbn [count_occ]. destruct (Req_EM_T 1 x); [lra|]. lia.
  Qed.

  Hypothesis HM : forall x, 0 < x < 1 -> (mult U x <= p + 1)%nat.
  Lemma support_pos i : (i <= n)%nat -> kfun U i < kfun U (i + p + 1).
  Proof using C F HM.
    intros Hi. assert (DG := cl_deg _ _ _ C). destruct (le_lt_dec i p) as [A|A].
    - rewrite (fc_zero _ _ _ F i) by lia. destruct (le_lt_dec (i + p + 1) n) as [B|B]; [apply (fc_inner _ _ _ F); lia|rewrite (fc_one _ _ _ F) by lia; lra].
    - assert (I := fc_inner _ _ _ F i ltac:(lia)). destruct (le_lt_dec (i + p + 1) n) as [B|B]; [|rewrite (fc_one _ _ _ F (i + p + 1)%nat) by lia; lra].
      assert (S1 := fc_mono _ _ _ F i (i + p + 1)%nat ltac:(lia)). destruct (Req_dec (kfun U i) (kfun U (i + p + 1))) as [Q|Q]; [|lra].
      exfalso. assert (T := mult_mult_le p n U _ (p + 1) C I (HM _ I) i (i + p + 1)%nat eq_refl (eq_sym Q)). lia.
  Qed.

  Variables (P Q : nat -> R).
  Hypothesis HQ : forall i, (i <= n)%nat -> Q (S i) = Q i + P i * (kfun U (i + p + 1) - kfun U i) / INR (S p).
  Lemma anti_points k : (k <= p)%nat -> forall i, (i + k <= n)%nat -> dpoints (kfun wider) (S p) Q (S k) i = dpoints (kfun U) p P k i.
  Proof using C F HM HQ.
    induction k as [|k IH]; intros Hk i Hi.
    - cbn [dpoints]. replace (i + S p + 1)%nat with (S (i + p + 1)) by lia. replace (i + 1)%nat with (S i) by lia. rewrite !kfun_wider, HQ by lia. assert (T := support_pos i ltac:(lia)).
      unfold ratio. destruct Req_EM_T as [Z|Z]; [lra|]. rewrite Nat.sub_0_r. assert (0 < INR (S p)) by (apply lt_0_INR; lia). field. lra.
    - change (dpoints (kfun wider) (S p) Q (S (S k)) i) with (ratio (INR (S p - S k) * (dpoints (kfun wider) (S p) Q (S k) (S i) - dpoints (kfun wider) (S p) Q (S k) i)) (kfun wider (i + S p + 1) - kfun wider (i + S (S k)))).
      rewrite !IH by lia. replace (i + S p + 1)%nat with (S (i + p + 1)) by lia. replace (i + S (S k))%nat with (S (i + S k)) by lia. rewrite !kfun_wider. reflexivity.
  Qed.
  Lemma anti_spline k u : (k <= p)%nat -> dspline (kfun wider) (S n) (S p) Q (S k) u = dspline (kfun U) n p P k u.
  Proof using C F HM HQ.
    intros Hk. unfold dspline. cbn [Nat.sub]. apply rsum_ext. intros i Hi. rewrite anti_points by (assert (T := cl_deg _ _ _ C); lia). f_equal.
    apply bspline_ext. intros a. unfold shift. replace (a + S k)%nat with (S (a + k)) by lia. apply kfun_wider.
  Qed.
End Anti.

Lemma returns_same {E} (r r' : M (result (list R) E)) dim f : returns r dim f -> returns r' dim f -> r = r'.
Proof.
  intros (v & E1 & L1 & V1) (w & E2 & L2 & V2). rewrite E1, E2. do 2 f_equal. apply (nth_ext _ _ 0 0); [congruence|]. intros d Hd. rewrite V1, V2 by congruence. reflexivity.
Qed.
Lemma returns_eq {E} (r : M (result (list R) E)) dim f g : returns r dim f -> (forall d, (d < dim)%nat -> f d = g d) -> returns r dim g.
Proof. intros (v & E1 & L1 & V1) H. exists v. split; [exact E1|]. split; [exact L1|]. intros d Hd. rewrite V1, H by exact Hd. reflexivity. Qed.

Section Curve.
  Variables (p n dim : nat) (U : list R) (P : Mat RNum) (c : Curve RNum).
  Hypothesis H : clamped_curve p n dim U P c.

  Theorem antiderivative : (forall x, 0 < x < 1 -> (mult U x <= p + 1)%nat) ->
    exists Q c', clamped_curve (S p) (S n) dim (0 :: U ++ [1]) Q c' /\
      (forall d, (d < dim)%nat -> ent Q 0 d = 0 /\ forall i, (i <= n)%nat -> ent Q (S i) d = ent Q i d + ent P i d * (nth (i + p + 1) U 0 - nth i U 0) / INR (S p)) /\
      forall k u, (k <= p)%nat -> 0 <= u <= 1 -> evaluate_derivative c' u (S k) = evaluate_derivative c u k.
  Proof using H.
    intros HM. assert (C : clamped p n U) by apply H. assert (LN := cl_len _ _ _ C).
    set (q := fun d i => rsum (fun j => ent P j d * (kfun U (j + p + 1) - kfun U j) / INR (S p)) i).
    destruct (new_curve (S p) (S n) dim (wider U) (mat_of dim (S (S n)) q) (wider_clamped p n U C) (mat_of_shape _ _ _)) as [c' H'].
    exists (mat_of dim (S (S n)) q), c'. split; [exact H'|].
    split. { intros d Hd. split; [rewrite ent_mat_of by lia; reflexivity|]. intros i Hi. rewrite !ent_mat_of by lia. unfold q. cbn [rsum]. rewrite !kfun_nth by lia. reflexivity. }
    intros k u Hk Hu. apply (returns_same _ _ dim (fun d => dspline (kfun U) n p (fun i => ent P i d) k u)); [|apply cc_eval; assumption].
    eapply returns_eq; [apply (cc_eval (S p) (S n) dim (wider U) _ c' u (S k) H' Hu ltac:(lia))|]. intros d Hd. cbv beta.
    apply (anti_spline p n U C HM). { intros i Hi. rewrite !ent_mat_of by lia. unfold q. cbn [rsum]. reflexivity. } exact Hk.
  Qed.

  Theorem mean D K N (x : nat -> list R) : (1 <= p)%nat -> (forall t, 0 < t < 1 -> (mult U t <= p)%nat) ->
    @matrix_derivative RNum (cpoints c) 1 = Val D -> (forall i, (i + 1 <= n)%nat -> sqrt (rsum (fun d => ent D i d ^ 2) dim) <= K) ->
    (1 <= N)%nat -> (forall j, (j < N)%nat -> evaluate c (INR j / INR N) = Val (Ok (x j))) ->
    sqrt (rsum (fun d => (rsum (fun j => nth d (x j) 0) N / INR N - rsum (fun i => ent P i d * (nth (i + p + 1) U 0 - nth i U 0)) (S n) / INR (S p)) ^ 2) dim) <= K / (2 * INR N).
  Proof using H.
    intros Hp HM HD BD HN Ex. assert (C : clamped p n U) by apply H. assert (LN := cl_len _ _ _ C). assert (HM' : forall t, 0 < t < 1 -> (mult U t <= p + 1)%nat) by (intros t Ht; specialize (HM t Ht); lia).
    destruct (antiderivative HM') as (Q & c' & H' & HQ & HE).
    assert (N0 : 0 < INR N) by (apply lt_0_INR; lia). assert (I0 := Rinv_0_lt_compat _ N0).
    assert (P0 : 0 < INR (S p)) by (apply lt_0_INR; lia).
    assert (HQ' : forall d, (d < dim)%nat -> forall i, (i <= n)%nat -> ent Q (S i) d = ent Q i d + ent P i d * (kfun U (i + p + 1) - kfun U i) / INR (S p)).
    { intros d Hd i Hi. destruct (HQ d Hd) as [_ G]. rewrite G by exact Hi. rewrite !kfun_nth by lia. reflexivity. }
    destruct (deriv_matrix (S p) (S n) dim (wider U) Q c' 2 H' ltac:(lia)) as (D2 & E2 & _ & V2).
    destruct (deriv_matrix p n dim U P c 1 H ltac:(lia)) as (D1 & E1 & _ & V1). rewrite HD in E1. injection E1 as <-.
    assert (DD : forall i d, (i + 2 <= S n)%nat -> (d < dim)%nat -> ent D2 i d = ent D i d).
    { intros i d Hi Hd. rewrite V2 by lia. rewrite V1 by lia. apply (anti_points p n U C HM' (fun j => ent P j d) (fun j => ent Q j d) (HQ' d Hd) 1 Hp i). lia. }
    assert (BD2 : forall i, (i + (0 + 2) <= S n)%nat -> sqrt (rsum (fun d => ent D2 i d ^ 2) dim) <= K).
    { intros i Hi. eapply Rle_trans; [right|apply (BD i ltac:(lia))]. f_equal. apply rsum_ext. intros d Hd. rewrite DD by lia. reflexivity. }
    assert (HMw : forall t, 0 < t < 1 -> (mult (wider U) t <= S p - 0 - 1)%nat) by (intros t Ht; rewrite wider_mult by exact Ht; specialize (HM t Ht); lia).
    assert (TE := tangent_error (S p) (S n) dim (wider U) Q c' 0 K D2 H' ltac:(lia) HMw E2 BD2).
    set (u := fun j => INR j / INR N). set (g := fun t d => spline (kfun (wider U)) (S n) (S p) (fun i => ent Q i d) t).
    assert (Ur : forall j, (j <= N)%nat -> 0 <= u j <= 1).
    { intros j Hj. apply le_INR in Hj. assert (J0 := pos_INR j). unfold u. split; [apply Rmult_le_pos; lra|]. apply (Rmult_le_reg_r (INR N)); [exact N0|]. unfold Rdiv. rewrite Rmult_assoc, Rinv_l by lra. lra. }
    assert (Us : forall j, u (S j) - u j = / INR N) by (intros j; unfold u; rewrite S_INR; field; lra).
    assert (G : forall k, (k <= N)%nat -> norm dim (fun d => (g (u k) d - g (u 0%nat) d) - / INR N * rsum (fun j => nth d (x j) 0) k) <= INR k * (K * (/ INR N) ^ 2 / 2)).
    { induction k as [|k IH]; intros Hk.
      - cbn [rsum INR]. rewrite (norm_ext dim _ (fun _ => 0)) by (intros; ring). rewrite norm_0. lra.
      - specialize (IH ltac:(lia)). rewrite S_INR. assert (Uk := Ur k ltac:(lia)). assert (Uk' := Ur (S k) Hk).
        destruct (cc_eval0 (S p) (S n) dim (wider U) Q c' (u k) H' Uk) as [y [Y [_ Vy]]]. destruct (cc_eval0 (S p) (S n) dim (wider U) Q c' (u (S k)) H' Uk') as [z [Z [_ Vz]]].
        assert (W : evaluate_derivative c' (u k) 1 = Val (Ok (x k))) by (rewrite (HE 0%nat (u k) ltac:(lia) Uk); exact (Ex k ltac:(lia))).
        assert (T := TE (u k) (u (S k)) y z (x k) ltac:(lra) ltac:(assert (R1 := Us k); lra) ltac:(lra) Y Z W). rewrite Us in T.
        set (e := fun d => g (u (S k)) d - (g (u k) d + / INR N * nth d (x k) 0)).
        assert (T' : norm dim e <= K * (/ INR N) ^ 2 / 2).
        { eapply Rle_trans; [right|exact T]. unfold norm. f_equal. apply rsum_ext. intros d Hd. rewrite Vy, Vz by exact Hd. reflexivity. }
        rewrite (norm_ext dim _ (fun d => ((g (u k) d - g (u 0%nat) d) - / INR N * rsum (fun j => nth d (x j) 0) k) + e d)) by (intros; unfold e; cbn [rsum]; ring).
        eapply Rle_trans; [apply norm_add|]. lra. }
    specialize (G N ltac:(lia)). replace (INR N * (K * (/ INR N) ^ 2 / 2)) with (K / (2 * INR N)) in G by (field; lra).
    assert (Z0 : u 0%nat = 0) by (unfold u; cbn; lra). assert (Z1 : u N = 1) by (unfold u; field; lra). rewrite Z0, Z1 in G.
    eapply Rle_trans; [right|exact G]. unfold norm. f_equal. apply rsum_ext. intros d Hd.
    assert (F' : fclamped (S p) (S n) (kfun (wider U))) by (apply kfun_clamped, H').
    unfold g. rewrite (spline_at_0 (S p) (S n) _ F'), (spline_at_1 (S p) (S n) _ F'). destruct (HQ d Hd) as [Q0 QS]. rewrite Q0.
    assert (TS : forall i, (i <= S n)%nat -> ent Q i d = rsum (fun i => ent P i d * (nth (i + p + 1) U 0 - nth i U 0)) i / INR (S p)).
    { induction i as [|i IHi]; intros Hi; [rewrite Q0; cbn [rsum]; lra|]. rewrite QS by lia. rewrite IHi by lia. cbn [rsum]. match goal with |- ?a = ?b => change (@eq R a b) end. field. lra. }
    rewrite (TS (S n)) by lia. unfold Rdiv. ring.
  Qed.
End Curve.
