(** * Lengths of curves, as returned by the evaluation *)

From Coq Require Import ZArith Reals List Bool Arith Lra Lia Psatz Permutation.
From Verif Require Import Num Vec MKnots MPoints MCurve RNum Lists Struct Spec BMath BMath2 BMath3 Api ApiS ApiX Bridge Facts1 Shape1 Shape2 Refine1 Shape3 Sampling Arc.
Import ListNotations.
Local Open Scope R_scope.

Section Curve.
  Variables (p n dim : nat) (U : list R) (P : Mat RNum) (c : Curve RNum).
  Hypothesis H : clamped_curve p n dim U P c.
  Definition pos (t : R) (d : nat) : R := spline (kfun U) n p (fun i => ent P i d) t.

  Lemma chain_len a b m u s : 0 <= a -> b <= 1 -> chain c dim a b m u s <-> inn a b m u /\ s = len pos dim m u.
  Proof using H.
    intros Ha Hb. split.
    - intros (I1 & I2 & x & E & ->). split; [split; assumption|]. apply rsum_ext. intros j Hj. unfold norm. f_equal. apply rsum_ext. intros d Hd.
      assert (A := I1 j ltac:(lia)). assert (B := I1 (S j) ltac:(lia)).
      assert (E1 : nth d (x j) 0 = pos (u j) d) by exact (proj2 (eval_at p n dim U P c H (u j) (x j) ltac:(lra) (E j ltac:(lia))) d Hd).
      assert (E2 : nth d (x (S j)) 0 = pos (u (S j)) d) by exact (proj2 (eval_at p n dim U P c H (u (S j)) (x (S j)) ltac:(lra) (E (S j) ltac:(lia))) d Hd).
      rewrite E1, E2. reflexivity.
    - intros ([I1 I2] & ->). split; [exact I1|]. split; [exact I2|].
      exists (fun j => map (pos (u j)) (seq 0 dim)). split.
      + intros j Hj. assert (A := I1 j Hj). destruct (cc_eval0 p n dim U P c (u j) H ltac:(lra)) as [v [E [L V]]]. rewrite E. do 2 f_equal.
        apply (nth_ext _ _ 0 0); [rewrite map_length, seq_length; exact L|]. intros d Hd. change (length v) with (@length R v) in Hd. rewrite L in Hd. rewrite (V d Hd).
        rewrite (nth_indep _ 0 (pos (u j) 0%nat)) by (rewrite map_length, seq_length; exact Hd). rewrite map_nth, seq_nth by exact Hd. reflexivity.
      + apply rsum_ext. intros j Hj. unfold norm. f_equal. apply rsum_ext. intros d Hd.
        rewrite !(nth_indep (map _ _) 0 (pos 0 0%nat)) by (rewrite map_length, seq_length; exact Hd).
        rewrite (nth_indep _ (pos 0 0%nat) (pos (u (S j)) 0%nat)) by (rewrite map_length, seq_length; exact Hd). rewrite map_nth, seq_nth by exact Hd.
        rewrite (nth_indep _ (pos 0 0%nat) (pos (u j) 0%nat)) by (rewrite map_length, seq_length; exact Hd). rewrite map_nth, seq_nth by exact Hd. reflexivity.
  Qed.
  Lemma arc_var a b L : 0 <= a -> b <= 1 -> arc_length c dim a b L <-> var pos dim a b L.
  Proof using H.
    intros Ha Hb. unfold arc_length, var, is_lub, is_upper_bound. split; intros [A B]; split.
    - intros s (m & u & I & E). apply A. exists m, u. apply chain_len; auto.
    - intros B0 HB. apply B. intros s (m & u & I). apply HB. exists m, u. apply chain_len; auto.
    - intros s (m & u & I). apply A. exists m, u. apply chain_len; auto.
    - intros B0 HB. apply B. intros s (m & u & I). apply HB. exists m, u. apply chain_len; auto.
  Qed.

  Lemma polygon_bound a b m u : 0 <= a -> b <= 1 -> inn a b m u -> len pos dim m u <= rsum (fun i => distance P dim (S i) i) n.
  Proof using H.
    intros Ha Hb I. destruct (proj2 (chain_len a b m u (len pos dim m u) Ha Hb) (conj I eq_refl)) as (I1 & I2 & x & E & ->).
    apply (polygon_length p n dim U P c H m u x); [|exact I2]. intros j Hj. split; [specialize (I1 j Hj); lra|apply E, Hj].
  Qed.
  Lemma pos_at u x d : 0 <= u <= 1 -> evaluate c u = Val (Ok x) -> (d < dim)%nat -> nth d x 0 = pos u d.
  Proof using H. intros Hu E Hd. exact (proj2 (eval_at p n dim U P c H u x Hu E) d Hd). Qed.
  Lemma pos_norm u v x y : 0 <= u <= 1 -> 0 <= v <= 1 -> evaluate c u = Val (Ok x) -> evaluate c v = Val (Ok y) ->
    sqrt (rsum (fun d => (nth d y 0 - nth d x 0) ^ 2) dim) = norm dim (fun d => pos v d - pos u d).
  Proof using H. intros Hu Hv Ex Ey. unfold norm. f_equal. apply rsum_ext. intros d Hd. rewrite (pos_at u x d Hu Ex Hd), (pos_at v y d Hv Ey Hd). reflexivity. Qed.

  Theorem length_exists a b : 0 <= a -> a <= b -> b <= 1 ->
    exists L, arc_length c dim a b L /\ (forall L', arc_length c dim a b L' -> L' = L) /\ L <= rsum (fun i => distance P dim (S i) i) n /\
      forall x y, evaluate c a = Val (Ok x) -> evaluate c b = Val (Ok y) -> sqrt (rsum (fun d => (nth d y 0 - nth d x 0) ^ 2) dim) <= L.
  Proof using H.
    intros Ha Hab Hb. destruct (var_exists pos dim a b (rsum (fun i => distance P dim (S i) i) n) Hab) as [L V]; [intros m u I; apply (polygon_bound a b); assumption|].
    exists L. split; [apply arc_var; assumption|]. split; [intros L' V'; apply arc_var in V'; [|assumption|assumption]; apply (var_unique _ _ _ _ _ _ V' V)|].
    split; [apply (var_le _ _ _ _ _ _ V); intros m u I; apply (polygon_bound a b); assumption|].
    intros x y Ex Ey. rewrite (pos_norm a b x y) by (assumption || lra). apply var_chord; assumption.
  Qed.
  Theorem length_additive a b d L1 L2 : 0 <= a -> a <= b -> b <= d -> d <= 1 -> arc_length c dim a b L1 -> arc_length c dim b d L2 -> arc_length c dim a d (L1 + L2).
  Proof using H. intros Ha Hab Hbd Hd V1 V2. apply arc_var in V1; [|lra|lra]. apply arc_var in V2; [|lra|lra]. apply arc_var; [lra|lra|]. apply var_add with b; assumption. Qed.
  Theorem length_speed K a b L : (1 <= p)%nat -> (forall x, 0 < x < 1 -> (mult U x <= p)%nat) ->
    (forall i, (i < n)%nat -> INR p * distance P dim (S i) i <= K * (nth (i + p + 1) U 0 - nth (i + 1) U 0)) ->
    0 <= a -> a <= b -> b <= 1 -> arc_length c dim a b L -> L <= K * (b - a).
  Proof using H.
    intros Hp HM HK Ha Hab Hb V. apply arc_var in V; [|lra|lra].
    assert (G : forall s t, a <= s -> s <= t -> t <= b -> norm dim (fun d => pos t d - pos s d) <= K * (t - s)).
    { intros s t H1 H2 H3. destruct (cc_eval0 p n dim U P c s H ltac:(lra)) as [x [X _]]. destruct (cc_eval0 p n dim U P c t H ltac:(lra)) as [y [Y _]].
      rewrite <- (pos_norm s t x y) by (assumption || lra). assert (T := speed_bound p n dim U P c K H Hp HM HK s t x y ltac:(lra) ltac:(lra) X Y). rewrite Rabs_right in T by lra. exact T. }
    apply (var_lip pos dim a b L K V); [|exact G].
    assert (T := speed_bound p n dim U P c K H Hp HM HK 0 1). destruct (cc_eval0 p n dim U P c 0 H ltac:(lra)) as [x [X _]]. destruct (cc_eval0 p n dim U P c 1 H ltac:(lra)) as [y [Y _]].
    specialize (T x y ltac:(lra) ltac:(lra) X Y). rewrite (Rabs_right (1 - 0)) in T by lra. eapply Rle_trans; [apply sqrt_pos|]. rewrite Rminus_0_r, Rmult_1_r in T. exact T.
  Qed.

  Section Bent.
    Variables (M : R) (D : Mat RNum).
    Hypothesis Hp : (2 <= p)%nat.
    Hypothesis HM : forall x, 0 < x < 1 -> (mult U x <= p - 1)%nat.
    Hypothesis HD : @matrix_derivative RNum (cpoints c) 2 = Val D.
    Hypothesis BD : forall i, (i + 2 <= n)%nat -> sqrt (rsum (fun d => ent D i d ^ 2) dim) <= M.

    Lemma HM0 : forall x, 0 < x < 1 -> (mult U x <= p - 0 - 1)%nat.
    Proof using HM. intros x Hx. rewrite Nat.sub_0_r. apply HM, Hx. Qed.
    Lemma bent_nonneg : 0 <= M.
    Proof using H Hp BD. exact (M_nonneg p n dim U P c 0 M D H Hp BD). Qed.
    Lemma tangent_pos a b : 0 <= a -> a <= b -> b <= 1 -> norm dim (fun d => pos b d - (pos a d + (b - a) * dspline (kfun U) n p (fun i => ent P i d) 1 a)) <= M * (b - a) ^ 2 / 2.
    Proof using H Hp HM HD BD.
      intros Ha Hab Hb. destruct (cc_eval0 p n dim U P c a H ltac:(lra)) as [x [X [_ Vx]]]. destruct (cc_eval0 p n dim U P c b H ltac:(lra)) as [y [Y [_ Vy]]]. destruct (cc_eval p n dim U P c a 1 H ltac:(lra) ltac:(lia)) as [x' [X' [_ Vx']]].
      assert (T := tangent_error p n dim U P c 0 M D H Hp HM0 HD BD a b x y x' Ha Hab Hb X Y X'). eapply Rle_trans; [right|exact T]. unfold norm. f_equal. apply rsum_ext. intros d Hd. rewrite Vx, Vy, Vx' by exact Hd. reflexivity.
    Qed.
    Lemma chord_pos a b t : 0 <= a -> a <= b -> b <= 1 -> 0 <= t <= 1 -> norm dim (fun d => pos ((1 - t) * a + t * b) d - ((1 - t) * pos a d + t * pos b d)) <= M * (t * (1 - t)) * (b - a) ^ 2 / 2.
    Proof using H Hp HM HD BD.
      intros Ha Hab Hb Ht. assert (Hz : 0 <= (1 - t) * a + t * b <= 1) by nra. destruct (cc_eval0 p n dim U P c a H ltac:(lra)) as [x [X [_ Vx]]]. destruct (cc_eval0 p n dim U P c b H ltac:(lra)) as [y [Y [_ Vy]]]. destruct (cc_eval0 p n dim U P c _ H Hz) as [z [Z [_ Vz]]].
      assert (T := chord_error p n dim U P c 0 M D H Hp HM0 HD BD a b t x y z Ha Hab Hb Ht X Y Z). eapply Rle_trans; [right|exact T]. unfold norm. f_equal. apply rsum_ext. intros d Hd. rewrite Vx, Vy, Vz by exact Hd. reflexivity.
    Qed.

    (** between two points of a piece of the curve: the chord of the piece and its bend *)
    Lemma piece_lip a b s t : 0 <= a -> a < b -> b <= 1 -> a <= s -> s <= t -> t <= b ->
      norm dim (fun d => pos t d - pos s d) <= (norm dim (fun d => pos b d - pos a d) / (b - a) + M * (b - a)) * (t - s).
    Proof using H Hp HM HD BD.
      intros Ha Hab Hb H1 H2 H3. assert (M0 := bent_nonneg). assert (N0 := norm_nonneg dim (fun d => pos b d - pos a d)). set (N := norm dim (fun d => pos b d - pos a d)) in *.
      destruct (Req_dec s t) as [<-|Ne]. { rewrite norm_same. rewrite Rminus_eq_0, Rmult_0_r. lra. }
      assert (A := tangent_pos s t ltac:(lra) H2 ltac:(lra)). assert (B := tangent_pos s b ltac:(lra) ltac:(lra) Hb).
      set (v := fun d => dspline (kfun U) n p (fun i => ent P i d) 1 s) in *.
      set (q := (s - a) / (b - a)). assert (Q : 0 <= q <= 1). { unfold q. split; [apply Rmult_le_pos; [lra|apply Rlt_le, Rinv_0_lt_compat; lra]|]. apply (Rmult_le_reg_r (b - a)); [lra|]. unfold Rdiv. rewrite Rmult_assoc, Rinv_l by lra. lra. }
      assert (C := chord_pos a b q Ha ltac:(lra) Hb Q). replace ((1 - q) * a + q * b) with s in C by (unfold q; field; lra).
      set (r := (t - s) / (b - s)). assert (R0 : 0 <= r) by (unfold r; apply Rmult_le_pos; [lra|apply Rlt_le, Rinv_0_lt_compat; lra]).
      set (e1 := fun d => pos t d - (pos s d + (t - s) * v d)). set (e2 := fun d => pos b d - (pos s d + (b - s) * v d)). set (e3 := fun d => pos s d - ((1 - q) * pos a d + q * pos b d)).
      change (norm dim e1 <= M * (t - s) ^ 2 / 2) in A. change (norm dim e2 <= M * (b - s) ^ 2 / 2) in B. change (norm dim e3 <= M * (q * (1 - q)) * (b - a) ^ 2 / 2) in C.
      assert (NE : forall x, norm dim (fun d => - x d) = norm dim x) by (intros x; unfold norm; f_equal; apply rsum_ext; intros; ring).
      rewrite (norm_ext dim _ (fun d => e1 d + (- (r * e2 d) + (- (r * e3 d) + ((t - s) / (b - a)) * (pos b d - pos a d))))).
      2:{ intros d _. unfold e1, e2, e3, r, q. field. lra. }
      eapply Rle_trans; [apply norm_add|]. eapply Rle_trans; [apply Rplus_le_compat_l, norm_add|]. eapply Rle_trans; [apply Rplus_le_compat_l, Rplus_le_compat_l, norm_add|].
      rewrite !NE. rewrite !norm_scal by (exact R0 || (apply Rmult_le_pos; [lra|apply Rlt_le, Rinv_0_lt_compat; lra])). fold N.
      assert (B' := Rmult_le_compat_l r _ _ R0 B). assert (C' := Rmult_le_compat_l r _ _ R0 C).
      replace (r * (M * (b - s) ^ 2 / 2)) with (M * (t - s) / 2 * (b - s)) in B' by (unfold r; field; lra).
      replace (r * (M * (q * (1 - q)) * (b - a) ^ 2 / 2)) with (M * (t - s) / 2 * (s - a)) in C' by (unfold r, q; field; lra).
      replace ((N / (b - a) + M * (b - a)) * (t - s)) with ((t - s) / (b - a) * N + M * (t - s) * (b - a)) by (field; lra).
      assert (0 <= M * (t - s) * (b - a - (t - s))) by (repeat apply Rmult_le_pos; lra). nra.
    Qed.

    Theorem length_piece a b L : 0 <= a -> a <= b -> b <= 1 -> var pos dim a b L -> L <= norm dim (fun d => pos b d - pos a d) + M * (b - a) ^ 2.
    Proof using H Hp HM HD BD.
      intros Ha Hab Hb V. assert (M0 := bent_nonneg). destruct (Req_dec a b) as [<-|Ne].
      - rewrite norm_same. assert (T := var_lip pos dim a a L 0 V ltac:(lra)). replace (0 + M * (a - a) ^ 2) with (0 * (a - a)) by ring. apply T. intros s t H1 H2 H3. replace t with a by lra. replace s with a by lra. rewrite norm_same. lra.
      - assert (T := var_lip pos dim a b L (norm dim (fun d => pos b d - pos a d) / (b - a) + M * (b - a)) V).
        replace (norm dim (fun d => pos b d - pos a d) + M * (b - a) ^ 2) with ((norm dim (fun d => pos b d - pos a d) / (b - a) + M * (b - a)) * (b - a)) by (field; lra).
        apply T; [|intros s t H1 H2 H3; apply piece_lip; lra].
        apply Rplus_le_le_0_compat; apply Rmult_le_pos; try apply norm_nonneg; try lra. apply Rlt_le, Rinv_0_lt_compat; lra.
    Qed.

    Theorem length_samples m (u : nat -> R) h L s : (forall j, (j < m)%nat -> u j <= u (S j) <= u j + h) -> 0 <= u 0%nat -> u m <= 1 ->
      chain c dim (u 0%nat) (u m) m u s -> arc_length c dim (u 0%nat) (u m) L -> s <= L <= s + M * h * (u m - u 0%nat).
    Proof using H Hp HM HD BD.
      intros Hu U0 U1 Ch V. apply arc_var in V; [|assumption|assumption]. apply chain_len in Ch; [|assumption|assumption]. destruct Ch as [I ->]. assert (M0 := bent_nonneg).
      split; [apply (var_ge _ _ _ _ _ _ _ V I)|]. destruct I as [I1 _].
      assert (G : forall k, (k <= m)%nat -> u 0%nat <= u k /\ exists Lk, var pos dim (u 0%nat) (u k) Lk /\ Lk <= len pos dim k u + M * h * (u k - u 0%nat)).
      { induction k as [|k IH]; intros Hk.
        - split; [lra|]. destruct (var_exists pos dim (u 0%nat) (u 0%nat) (rsum (fun i => distance P dim (S i) i) n) ltac:(lra)) as [L0 V0]; [intros m' u' I; apply (polygon_bound (u 0%nat) (u 0%nat)); [lra|specialize (I1 0%nat ltac:(lia)); lra|exact I]|].
          exists L0. split; [exact V0|]. assert (T := length_piece (u 0%nat) (u 0%nat) L0 U0 ltac:(lra) ltac:(specialize (I1 0%nat ltac:(lia)); lra) V0). rewrite norm_same in T. unfold len. cbn [rsum]. replace (M * h * (u 0%nat - u 0%nat)) with (M * (u 0%nat - u 0%nat) ^ 2) by ring. exact T.
        - destruct (IH ltac:(lia)) as (Z & L1 & V1 & B1). destruct (Hu k ltac:(lia)) as [S1 S2]. assert (J := I1 (S k) Hk). split; [lra|].
          destruct (var_exists pos dim (u k) (u (S k)) (rsum (fun i => distance P dim (S i) i) n) S1) as [L2 V2]; [intros m' u' I; apply (polygon_bound (u k) (u (S k))); [lra|lra|exact I]|].
          exists (L1 + L2). split; [apply var_add with (u k); assumption|]. assert (T := length_piece (u k) (u (S k)) L2 ltac:(lra) S1 ltac:(lra) V2).
          unfold len in *. cbn [rsum]. assert (M * (u (S k) - u k) ^ 2 <= M * h * (u (S k) - u k)).
          { replace (M * (u (S k) - u k) ^ 2) with (M * (u (S k) - u k) * (u (S k) - u k)) by ring. apply Rmult_le_compat_r; [lra|]. apply Rmult_le_compat_l; lra. }
          lra. }
      destruct (G m ltac:(lia)) as (_ & Lm & Vm & Bm). rewrite (var_unique _ _ _ _ _ _ V Vm). exact Bm.
    Qed.
  End Bent.
End Curve.
