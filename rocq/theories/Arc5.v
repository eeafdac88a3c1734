(** * Points at given distances along a curve; lengths as sums of speeds *)

From Coq Require Import ZArith Reals List Bool Arith Lra Lia Psatz.
From Verif Require Import Num Vec MKnots MPoints MCurve RNum Lists Struct Spec BMath BMath2 BMath3 Api ApiX Bridge Facts1 Shape1 Shape2 Refine1 Shape3 Sampling Arc Arc2 Arc3.
Import ListNotations.
Local Open Scope R_scope.

Lemma abs_between x y : Rabs x <= y -> - y <= x <= y.
Proof. intros H. unfold Rabs in H. destruct Rcase_abs; lra. Qed.

Section Reach.
  Variables (f : R -> nat -> R) (dim : nat) (a b K : R).
  Hypothesis K0 : 0 <= K.
  Hypothesis Lip : forall s t, a <= s -> s <= t -> t <= b -> norm dim (fun d => f t d - f s d) <= K * (t - s).
  Hypothesis Some_var : forall x y, a <= x -> x <= y -> y <= b -> exists l, var f dim x y l.

  Lemma part_le x y l : a <= x -> x <= y -> y <= b -> var f dim x y l -> l <= K * (y - x).
  Proof using K0 Lip. intros H1 H2 H3 V. apply (var_lip f dim x y l K V K0). intros s t S1 S2 S3. apply Lip; lra. Qed.

  Lemma var_reach L s : a <= b -> var f dim a b L -> 0 <= s <= L -> exists t, a <= t <= b /\ var f dim a t s /\ var f dim t b (L - s).
  Proof using K0 Lip Some_var.
    intros Hab V Hs. set (E := fun t => a <= t <= b /\ exists l, var f dim a t l /\ l <= s).
    destruct (completeness E) as [t [T1 T2]].
    - exists b. intros t [Ht _]. lra.
    - exists a. split; [lra|]. destruct (Some_var a a ltac:(lra) ltac:(lra) Hab) as [l Vl]. exists l. split; [exact Vl|]. assert (T := part_le a a l ltac:(lra) ltac:(lra) Hab Vl). rewrite Rminus_eq_0, Rmult_0_r in T. lra.
    - assert (Ea : E a). { split; [lra|]. destruct (Some_var a a ltac:(lra) ltac:(lra) Hab) as [l Vl]. exists l. split; [exact Vl|]. assert (T := part_le a a l ltac:(lra) ltac:(lra) Hab Vl). rewrite Rminus_eq_0, Rmult_0_r in T. lra. }
      assert (Ta : a <= t) by (apply T1, Ea). assert (Tb : t <= b) by (apply T2; intros x [Hx _]; lra).
      destruct (Some_var a t ltac:(lra) Ta Tb) as [l Vl]. destruct (Some_var t b Ta Tb ltac:(lra)) as [r Vr].
      assert (LR : l + r = L) by (apply (var_unique f dim a b); [apply var_add with t; assumption|exact V]).
      assert (KP : 0 < / (K + 1)) by (apply Rinv_0_lt_compat; lra). assert (KK : K * / (K + 1) <= 1) by (apply (Rmult_le_reg_r (K + 1)); [lra|]; rewrite Rmult_assoc, Rinv_l by lra; lra).
      assert (KL : K * / (K + 1) < 1) by (apply (Rmult_lt_reg_r (K + 1)); [lra|]; rewrite Rmult_assoc, Rinv_l by lra; lra).
      assert (Q : l = s).
      { apply Rle_antisym; apply Rnot_lt_le; intros N.
        - assert (D0 : 0 < (l - s) * / (K + 1)) by (apply Rmult_lt_0_compat; lra).
          assert (G : t <= t - (l - s) * / (K + 1)); [|lra]. apply T2. intros x Ex. apply Rnot_lt_le. intros X. assert (XT := T1 x Ex). destruct Ex as [Hx (lx & Vx & Bx)].
          destruct (Some_var x t ltac:(lra) XT Tb) as [l2 V2]. assert (B2 := part_le x t l2 ltac:(lra) XT Tb V2).
          assert (S2 : lx + l2 = l) by (apply (var_unique f dim a t); [apply var_add with x; try assumption; lra|exact Vl]).
          assert (K * (t - x) <= K * ((l - s) * / (K + 1))) by (apply Rmult_le_compat_l; lra).
          assert (K * ((l - s) * / (K + 1)) < l - s) by (replace (K * ((l - s) * / (K + 1))) with ((l - s) * (K * / (K + 1))) by ring; rewrite <- (Rmult_1_r (l - s)) at 2; apply Rmult_lt_compat_l; lra). lra.
        - destruct (Req_dec t b) as [->|NE].
          + assert (l = L) by (apply (var_unique f dim a b); assumption). lra.
          + assert (D0 : 0 < (s - l) * / (K + 1)) by (apply Rmult_lt_0_compat; lra). set (y := Rmin b (t + (s - l) * / (K + 1))).
            assert (Y1 : t < y) by (unfold y; apply Rmin_glb_lt; lra). assert (Y2 : y <= b) by apply Rmin_l. assert (Y3 : y <= t + (s - l) * / (K + 1)) by apply Rmin_r.
            assert (G : E y); [|specialize (T1 y G); lra]. split; [lra|]. destruct (Some_var t y Ta ltac:(lra) Y2) as [l2 V2]. exists (l + l2). split; [apply var_add with t; try assumption; lra|].
            assert (B2 := part_le t y l2 Ta ltac:(lra) Y2 V2). assert (K * (y - t) <= K * ((s - l) * / (K + 1))) by (apply Rmult_le_compat_l; lra).
            assert (K * ((s - l) * / (K + 1)) <= s - l) by (replace (K * ((s - l) * / (K + 1))) with ((s - l) * (K * / (K + 1))) by ring; rewrite <- (Rmult_1_r (s - l)) at 2; apply Rmult_le_compat_l; lra). lra. }
      exists t. split; [lra|]. split; [rewrite <- Q; exact Vl|]. replace (L - s) with r by lra. exact Vr.
  Qed.
End Reach.

Lemma knots_apart p n U i : clamped p n U -> (1 <= p)%nat -> (forall x, 0 < x < 1 -> (mult U x <= p)%nat) -> (i < n)%nat -> nth (i + 1) U 0 < nth (i + p + 1) U 0.
Proof.
  intros C Hp HM Hi. assert (LN := cl_len _ _ _ C). assert (DG := cl_deg _ _ _ C). destruct (le_lt_dec (i + 1) p) as [A|A].
  - rewrite (cl_zero _ _ _ C (i + 1)) by lia. destruct (le_lt_dec (i + p + 1) n) as [B|B]; [apply (cl_inner _ _ _ C); lia|rewrite (cl_one _ _ _ C) by lia; lra].
  - assert (I := cl_inner _ _ _ C (i + 1)%nat ltac:(lia) ltac:(lia)). destruct (le_lt_dec (i + p + 1) n) as [B|B]; [|rewrite (cl_one _ _ _ C (i + p + 1)%nat) by lia; lra].
    assert (S1 := cl_sorted _ _ _ C (i + 1)%nat (i + p + 1)%nat ltac:(lia) ltac:(lia)). destruct (Req_dec (nth (i + 1) U 0) (nth (i + p + 1) U 0)) as [Q|Q]; [|lra].
    exfalso. assert (T := mults_le p n U C HM _ I (i + 1)%nat (i + p + 1)%nat). rewrite !kfun_nth in T by lia. specialize (T eq_refl (eq_sym Q)). lia.
Qed.

Section Curve.
  Variables (p n dim : nat) (U : list R) (P : Mat RNum) (c : Curve RNum).
  Hypothesis H : clamped_curve p n dim U P c.

  Section Parts.
  Hypothesis Hp : (1 <= p)%nat.
  Hypothesis HM : forall x, 0 < x < 1 -> (mult U x <= p)%nat.

  Lemma some_speed : exists K, 0 <= K /\ forall i, (i < n)%nat -> INR p * distance P dim (S i) i <= K * (nth (i + p + 1) U 0 - nth (i + 1) U 0).
  Proof using H Hp HM.
    assert (C : clamped p n U) by apply H.
    assert (Z : forall i, (i < n)%nat -> 0 <= INR p * distance P dim (S i) i / (nth (i + p + 1) U 0 - nth (i + 1) U 0)).
    { intros i Hi. assert (A := knots_apart p n U i C Hp HM Hi). apply Rmult_le_pos; [apply Rmult_le_pos; [apply pos_INR|apply sqrt_pos]|]. apply Rlt_le, Rinv_0_lt_compat. lra. }
    exists (rsum (fun i => INR p * distance P dim (S i) i / (nth (i + p + 1) U 0 - nth (i + 1) U 0)) n).
    assert (G : forall k, (k <= n)%nat -> 0 <= rsum (fun i => INR p * distance P dim (S i) i / (nth (i + p + 1) U 0 - nth (i + 1) U 0)) k /\
      forall i, (i < k)%nat -> INR p * distance P dim (S i) i / (nth (i + p + 1) U 0 - nth (i + 1) U 0) <= rsum (fun i => INR p * distance P dim (S i) i / (nth (i + p + 1) U 0 - nth (i + 1) U 0)) k).
    { induction k as [|k IH]; intros Hk; cbn [rsum]; [split; [lra|intros; lia]|]. destruct (IH ltac:(lia)) as [I1 I2]. assert (T := Z k ltac:(lia)). split; [lra|]. intros i Hi. destruct (Nat.eq_dec i k) as [->|NE]; [lra|]. specialize (I2 i ltac:(lia)). lra. }
    destruct (G n ltac:(lia)) as [G1 G2]. split; [exact G1|]. intros i Hi. assert (A := knots_apart p n U i C Hp HM Hi). specialize (G2 i Hi).
    replace (INR p * distance P dim (S i) i) with (INR p * distance P dim (S i) i / (nth (i + p + 1) U 0 - nth (i + 1) U 0) * (nth (i + p + 1) U 0 - nth (i + 1) U 0)) by (field; lra).
    apply Rmult_le_compat_r; lra.
  Qed.

  Theorem length_reached a b L s : 0 <= a -> a <= b -> b <= 1 -> arc_length c dim a b L -> 0 <= s <= L ->
    exists t, a <= t <= b /\ arc_length c dim a t s /\ arc_length c dim t b (L - s).
  Proof using H Hp HM.
    intros Ha Hab Hb V Hs. destruct some_speed as [K [K0 HK]]. apply (arc_var p n dim U P c H) in V; [|lra|lra].
    destruct (var_reach (pos p n U P) dim a b K K0) with (L := L) (s := s) as (t & T1 & T2 & T3); try assumption.
    - intros s' t H1 H2 H3. destruct (cc_eval0 p n dim U P c s' H ltac:(lra)) as [x [X _]]. destruct (cc_eval0 p n dim U P c t H ltac:(lra)) as [y [Y _]].
      rewrite <- (pos_norm p n dim U P c H s' t x y) by (assumption || lra). assert (T := speed_bound p n dim U P c K H Hp HM HK s' t x y ltac:(lra) ltac:(lra) X Y). rewrite Rabs_right in T by lra. exact T.
    - intros x y H1 H2 H3. destruct (length_exists p n dim U P c H x y ltac:(lra) H2 ltac:(lra)) as (l & Vl & _). exists l. apply (arc_var p n dim U P c H) in Vl; [exact Vl|lra|lra].
    - exists t. split; [exact T1|]. split; apply (arc_var p n dim U P c H); lra || assumption.
  Qed.

  Theorem equal_parts m : (1 <= m)%nat -> exists (t : nat -> R) L, arc_length c dim 0 1 L /\ t 0%nat = 0 /\ t m = 1 /\
    forall j, (j < m)%nat -> 0 <= t j /\ t j <= t (S j) /\ t (S j) <= 1 /\ arc_length c dim (t j) (t (S j)) (L / INR m) /\
      forall x y, evaluate c (t j) = Val (Ok x) -> evaluate c (t (S j)) = Val (Ok y) -> sqrt (rsum (fun d => (nth d y 0 - nth d x 0) ^ 2) dim) <= L / INR m.
  Proof using H Hp HM.
    intros Hm. destruct (length_exists p n dim U P c H 0 1 ltac:(lra) ltac:(lra) ltac:(lra)) as (L & V & _ & _ & LC).
    assert (L0 : 0 <= L). { destruct (cc_eval0 p n dim U P c 0 H ltac:(lra)) as [x [X _]]. destruct (cc_eval0 p n dim U P c 1 H ltac:(lra)) as [y [Y _]]. eapply Rle_trans; [apply sqrt_pos|exact (LC x y X Y)]. }
    assert (M0 : 0 < INR m) by (apply lt_0_INR; lia).
    assert (Q0 : 0 <= L / INR m) by (apply Rmult_le_pos; [exact L0|apply Rlt_le, Rinv_0_lt_compat, M0]).
    assert (G : forall k, (k < m)%nat -> exists t : nat -> R, t 0%nat = 0 /\ 0 <= t k <= 1 /\ arc_length c dim (t k) 1 (INR (m - k) * (L / INR m)) /\
      forall j, (j < k)%nat -> 0 <= t j /\ t j <= t (S j) /\ t (S j) <= 1 /\ arc_length c dim (t j) (t (S j)) (L / INR m)).
    { induction k as [|k IH]; intros Hk.
      - exists (fun _ => 0). split; [reflexivity|]. split; [lra|]. split; [|intros; lia]. rewrite Nat.sub_0_r. replace (INR m * (L / INR m)) with L by (field; lra). exact V.
      - destruct (IH ltac:(lia)) as (t & T0 & Tk & Tv & Tj). replace (m - k)%nat with (S (m - S k)) in Tv by lia. rewrite S_INR in Tv. assert (I0 := pos_INR (m - S k)). assert (I1 : 0 <= INR (m - S k) * (L / INR m)) by (apply Rmult_le_pos; assumption).
        destruct (length_reached (t k) 1 _ (L / INR m) ltac:(lra) ltac:(lra) ltac:(lra) Tv ltac:(lra)) as (y & Y1 & Y2 & Y3). replace ((INR (m - S k) + 1) * (L / INR m) - L / INR m) with (INR (m - S k) * (L / INR m)) in Y3 by ring.
        exists (fun j => if (j <=? k)%nat then t j else y). cbv beta. rewrite (proj2 (Nat.leb_gt (S k) k)) by lia. split; [exact T0|]. split; [lra|]. split; [exact Y3|].
        intros j Hj. rewrite (proj2 (Nat.leb_le j k)) by lia. destruct (Nat.leb_spec (S j) k) as [B|B]; [apply Tj; lia|]. replace j with k by lia. do 3 (split; [lra|]). exact Y2. }
    destruct (G (m - 1)%nat ltac:(lia)) as (t & T0 & Tk & Tv & Tj). replace (m - (m - 1))%nat with 1%nat in Tv by lia. cbn [INR] in Tv. rewrite Rmult_1_l in Tv.
    exists (fun j => if (j <? m)%nat then t j else 1), L. rewrite (proj2 (Nat.ltb_lt 0 m)), (proj2 (Nat.ltb_ge m m)) by lia. split; [exact V|]. split; [exact T0|]. split; [reflexivity|].
    intros j Hj. rewrite (proj2 (Nat.ltb_lt j m)) by lia.
    assert (A : 0 <= t j /\ t j <= (if (S j <? m)%nat then t (S j) else 1) /\ (if (S j <? m)%nat then t (S j) else 1) <= 1 /\ arc_length c dim (t j) (if (S j <? m)%nat then t (S j) else 1) (L / INR m)).
    { destruct (Nat.ltb_spec (S j) m) as [B|B]; [apply Tj; lia|]. replace j with (m - 1)%nat by lia. do 3 (split; [lra|]). exact Tv. }
    destruct A as (A1 & A2 & A3 & A4). repeat (split; [assumption|]). intros x y X Y.
    destruct (length_exists p n dim U P c H _ _ A1 A2 A3) as (l & _ & Un & _ & Ch). rewrite (Un _ A4). exact (Ch x y X Y).
  Qed.
  End Parts.

  (** the sum of the speeds times the steps *)
  Theorem length_speeds M D N L (x : nat -> list R) : (2 <= p)%nat -> (forall t, 0 < t < 1 -> (mult U t <= p - 1)%nat) ->
    @matrix_derivative RNum (cpoints c) 2 = Val D -> (forall i, (i + 2 <= n)%nat -> sqrt (rsum (fun d => ent D i d ^ 2) dim) <= M) ->
    (1 <= N)%nat -> (forall j, (j < N)%nat -> evaluate_derivative c (INR j / INR N) 1 = Val (Ok (x j))) -> arc_length c dim 0 1 L ->
    Rabs (L - rsum (fun j => sqrt (rsum (fun d => nth d (x j) 0 ^ 2) dim) / INR N) N) <= 3 / 2 * (M / INR N).
  Proof using H.
    intros P2 MU HD BD HN Ex V. assert (N0 : 0 < INR N) by (apply lt_0_INR; lia). assert (I0 := Rinv_0_lt_compat _ N0). assert (M0 := bent_nonneg p n dim U P c H M D P2 BD).
    set (u := fun j => INR j / INR N). set (f := pos p n U P).
    assert (Ur : forall j, (j <= N)%nat -> 0 <= u j <= 1).
    { intros j Hj. apply le_INR in Hj. assert (J0 := pos_INR j). unfold u. split; [apply Rmult_le_pos; lra|]. apply (Rmult_le_reg_r (INR N)); [exact N0|]. unfold Rdiv. rewrite Rmult_assoc, Rinv_l by lra. lra. }
    assert (Us : forall j, u (S j) - u j = / INR N) by (intros j; unfold u; rewrite S_INR; field; lra).
    assert (I : inn 0 1 N u) by (split; intros j Hj; [apply Ur, Hj|assert (T := Us j); lra]).
    assert (A := length_equal p n dim U P c M D N L (len f dim N u) H P2 MU HD BD HN (proj2 (chain_len p n dim U P c H 0 1 N u _ ltac:(lra) ltac:(lra)) (conj I eq_refl)) V).
    assert (G : forall k, (k <= N)%nat -> Rabs (len f dim k u - rsum (fun j => sqrt (rsum (fun d => nth d (x j) 0 ^ 2) dim) / INR N) k) <= INR k * (M * (/ INR N) ^ 2 / 2)).
    { induction k as [|k IH]; intros Hk; [unfold len; cbn [rsum INR]; rewrite Rminus_0_r, Rabs_R0; lra|]. specialize (IH ltac:(lia)). unfold len in *. cbn [rsum]. rewrite S_INR.
      assert (Uk := Ur k ltac:(lia)). assert (Uk' := Ur (S k) Hk). assert (T := tangent_pos p n dim U P c H M D P2 MU HD BD (u k) (u (S k)) ltac:(lra) ltac:(assert (Z := Us k); lra) ltac:(lra)). rewrite Us in T.
      fold f in T. set (v := fun d => dspline (kfun U) n p (fun i => ent P i d) 1 (u k)) in *.
      assert (NV : sqrt (rsum (fun d => nth d (x k) 0 ^ 2) dim) / INR N = norm dim (fun d => / INR N * v d)).
      { rewrite norm_scal by lra. unfold Rdiv. rewrite Rmult_comm. f_equal. unfold norm. f_equal. apply rsum_ext. intros d Hd. destruct (cc_eval p n dim U P c (u k) 1 H Uk ltac:(lia)) as [w [W [_ Vw]]]. assert (Q := Ex k ltac:(lia)). change (INR k / INR N) with (u k) in Q. rewrite W in Q. injection Q as Q. assert (Z : nth d w 0 = v d) by exact (Vw d Hd). assert (Z' : nth d (x k) 0 = v d) by (rewrite <- Q; exact Z). rewrite Z'. reflexivity. }
      rewrite NV. set (e := fun d => f (u (S k)) d - (f (u k) d + / INR N * v d)). change (norm dim e <= M * (/ INR N) ^ 2 / 2) in T.
      assert (B1 : norm dim (fun d => f (u (S k)) d - f (u k) d) <= norm dim e + norm dim (fun d => / INR N * v d)).
      { rewrite (norm_ext dim (fun d => f (u (S k)) d - f (u k) d) (fun d => e d + / INR N * v d)) by (intros; unfold e; ring). apply norm_add. }
      assert (B2 : norm dim (fun d => / INR N * v d) <= norm dim (fun d => f (u (S k)) d - f (u k) d) + norm dim e).
      { rewrite (norm_ext dim (fun d => / INR N * v d) (fun d => (f (u (S k)) d - f (u k) d) + - e d)) by (intros; unfold e; ring). eapply Rle_trans; [apply norm_add|]. right. f_equal. unfold norm. f_equal. apply rsum_ext. intros; ring. }
      apply abs_between in IH. apply Rabs_le. lra. }
    specialize (G N ltac:(lia)). replace (INR N * (M * (/ INR N) ^ 2 / 2)) with (M / INR N / 2) in G by (field; lra). apply abs_between in G.
    assert (0 <= M / INR N) by (apply Rmult_le_pos; lra). apply Rabs_le. lra.
  Qed.
End Curve.
