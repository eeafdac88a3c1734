(** * Sampled points in binary64 *)

From Coq Require Import ZArith Reals List Bool Arith Lra Lia.
From Flocq Require Import Core.Core IEEE754.BinarySingleNaN.
From Verif Require Import Num Vec MKnots MPoints MCurve RNum F64 Lists Spec BMath BMath2 BMath3 SW Api ApiF Bridge Facts1 Facts11 Samples Shape1 Shape2 Shape3 Shape6 Refine1 Sampling Float1 Float5 Float6 Float7 Float8.
Import ListNotations.
Local Open Scope R_scope.

(** a continuous function takes every value between two of its values *)
Lemma values_between f a b l : (forall x, 0 <= x <= 1 -> continuous_on01 f x) -> 0 <= a -> a <= b -> b <= 1 -> (f a - l) * (f b - l) <= 0 -> exists s, a <= s <= b /\ f s = l.
Proof.
  intros HC Ha Hab Hb HS. set (g := fun x => f (Rmax 0 (Rmin 1 x)) - l).
  assert (G : continuity g).
  { intros x. unfold continuity_pt, continue_in, limit1_in, limit_in. intros eps He. destruct (HC _ (clip_01 x) eps He) as [dl [D1 D2]]. exists dl. split; [exact D1|].
    intros y [_ Hy]. cbn in *. unfold R_dist in *. unfold g. replace (f (Rmax 0 (Rmin 1 y)) - l - (f (Rmax 0 (Rmin 1 x)) - l)) with (f (Rmax 0 (Rmin 1 y)) - f (Rmax 0 (Rmin 1 x))) by ring.
    apply D2; [apply clip_01|]. eapply Rle_lt_trans; [apply clip_near|exact Hy]. }
  destruct (IVT_cor g a b G Hab) as [s [S1 S2]].
  - unfold g. rewrite !clip_id by lra. exact HS.
  - exists s. split; [exact S1|]. unfold g in S2. rewrite clip_id in S2 by lra. lra.
Qed.

Section Sampled.
  Variables (p n dim : nat) (U : list f64) (P : Mat F64) (M : R) (c : Curve F64) (P' : Mat RNum) (cR : Curve RNum).
  Hypothesis FC : float_curve p n dim U P M c.
  Hypothesis SP : same_points n dim P P'.
  Hypothesis H : clamped_curve p n dim (map val U) P' cR.
  Hypothesis Hp : (1 <= p <= 100)%nat.
  Hypothesis HM : / 2 ^ 1000 <= M <= 2 ^ 1022.

  Let F : fclamped p n (kfun (map val U)).
  Proof. apply kfun_clamped. apply H. Qed.
  Let E := (6 * INR p + 3) * / 2 ^ 53 * M.
  Let f (d : nat) (u : R) : R := dspline (kfun (map val U)) n p (fun i => ent P' i d) 0 u.

  Lemma near_exact u x d : finite u -> 0 <= val u <= 1 -> @evaluate F64 c u = Val (Ok x) -> (d < dim)%nat -> Rabs (val (nth d x (@n0 F64)) - f d (val u)) <= E.
  Proof using FC SP H Hp HM.
    intros Fu Hu Ex Hd. destruct (accuracy_F64 p n dim U P M c P' cR u FC SP H ltac:(lia) HM Fu Hu) as (g & (w & W1 & W2 & W3) & (y & Y1 & Y2 & Y3)).
    assert (y = x) by (unfold evaluate in *; congruence). subst y. destruct (Y3 d Hd) as [_ B]. destruct (cc_eval p n dim (map val U) P' cR (val u) 0 H Hu ltac:(lia)) as (w' & V1 & V2 & V3).
    assert (w' = w) by (unfold evaluate in *; congruence). subst w'. rewrite <- W3, V3 in B by exact Hd. exact B.
  Qed.
  Lemma exact_value u d : 0 <= u <= 1 -> (d < dim)%nat -> exists z, evaluate cR u = Val (Ok z) /\ nth d z 0 = f d u.
  Proof using H. intros Hu Hd. destruct (cc_eval p n dim (map val U) P' cR u 0 H Hu (Nat.le_0_l p)) as (w & V1 & V2 & V3). exists w. split; [exact V1|]. apply V3. exact Hd. Qed.

  Theorem nearby L d u v x y : (forall t, 0 < t < 1 -> (mult (map val U) t <= p)%nat) -> (d < dim)%nat ->
    (forall i, (i < n)%nat -> INR p * Rabs (ent P' (S i) d - ent P' i d) <= L * (nth (i + p + 1) (map val U) 0 - nth (i + 1) (map val U) 0)) ->
    finite u -> finite v -> 0 <= val u <= 1 -> 0 <= val v <= 1 -> @evaluate F64 c u = Val (Ok x) -> @evaluate F64 c v = Val (Ok y) ->
    Rabs (val (nth d y (@n0 F64)) - val (nth d x (@n0 F64))) <= L * Rabs (val v - val u) + 2 * ((6 * INR p + 3) * / 2 ^ 53 * M).
  Proof using FC SP H Hp HM F.
    intros MU Hd HL Fu Fv Hu Hv Ex Ey. assert (A := near_exact u x d Fu Hu Ex Hd). assert (B := near_exact v y d Fv Hv Ey Hd).
    assert (CL : clamped p n (map val U)) by apply H. assert (LN := cl_len _ _ _ CL).
    assert (L0 : 0 <= L).
    { assert (T := HL 0%nat ltac:(assert (PN := fc_deg _ _ _ F); lia)). assert (0 <= INR p * Rabs (ent P' 1 d - ent P' 0 d)) by (apply Rmult_le_pos; [apply pos_INR|apply Rabs_pos]).
      assert (G : nth (0 + 1) (map val U) 0 < nth (0 + p + 1) (map val U) 0).
      { rewrite (cl_zero _ _ _ CL (0 + 1)) by lia. assert (PN := cl_deg _ _ _ CL). destruct (Nat.eq_dec p n) as [Q|NE]; [rewrite (cl_one _ _ _ CL) by lia; lra|]. apply (cl_inner _ _ _ CL); lia. }
      destruct (Rle_lt_dec 0 L) as [|N]; [assumption|]. exfalso. nra. }
    assert (S1 := slope_abs p n (kfun (map val U)) F (fun i => ent P' i d) 0 L (val u) (val v) ltac:(lia)). replace (p - 0)%nat with p in S1 by lia.
    specialize (S1 (mults_le p n _ CL MU)). fold (f d (val u)) in S1. fold (f d (val v)) in S1.
    assert (S2 : Rabs (f d (val v) - f d (val u)) <= L * Rabs (val v - val u)).
    { apply S1; [|exact Hu|exact Hv]. intros i Hi. assert (PN := fc_deg _ _ _ F). cbn [dpoints]. unfold ratio. destruct Req_EM_T as [Z|Z]; [rewrite Rabs_R0; exact L0|].
      assert (GP : 0 < kfun (map val U) (i + p + 1) - kfun (map val U) (i + 1)) by (assert (T := fc_mono _ _ _ F (i + 1)%nat (i + p + 1)%nat ltac:(lia)); lra).
      assert (T := HL i ltac:(lia)). rewrite !kfun_nth in * by lia. replace (p - 0)%nat with p by lia. unfold Rdiv. rewrite !Rabs_mult, (Rabs_right (INR p)) by (apply Rle_ge, pos_INR).
      rewrite Rabs_inv, (Rabs_right (nth (i + p + 1) (map val U) 0 - nth (i + 1) (map val U) 0)) by lra. apply (Rmult_le_reg_r (nth (i + p + 1) (map val U) 0 - nth (i + 1) (map val U) 0)); [exact GP|]. rewrite Rmult_assoc, Rinv_l by lra. lra. }
    fold E. replace (val (nth d y (@n0 F64)) - val (nth d x (@n0 F64))) with ((f d (val v) - f d (val u)) + ((val (nth d y (@n0 F64)) - f d (val v)) - (val (nth d x (@n0 F64)) - f d (val u)))) by ring.
    eapply Rle_trans; [apply Rabs_triang|]. assert (T := Rabs_triang (val (nth d y (@n0 F64)) - f d (val v)) (- (val (nth d x (@n0 F64)) - f d (val u)))). rewrite Rabs_Ropp in T. unfold Rminus in *. lra.
  Qed.

  Theorem crossing d l u v x y : (forall t, 0 < t < 1 -> (mult (map val U) t <= p)%nat) -> (d < dim)%nat ->
    finite u -> finite v -> 0 <= val u -> val u <= val v -> val v <= 1 -> @evaluate F64 c u = Val (Ok x) -> @evaluate F64 c v = Val (Ok y) ->
    (6 * INR p + 3) * / 2 ^ 53 * M <= Rabs (val (nth d x (@n0 F64)) - l) -> (6 * INR p + 3) * / 2 ^ 53 * M <= Rabs (val (nth d y (@n0 F64)) - l) ->
    (val (nth d x (@n0 F64)) - l) * (val (nth d y (@n0 F64)) - l) < 0 ->
    exists s z, val u <= s <= val v /\ evaluate cR s = Val (Ok z) /\ nth d z 0 = l.
  Proof using FC SP H Hp HM F.
    intros MU Hd Fu Fv Hu Huv Hv Ex Ey GX GY SG. assert (A := near_exact u x d Fu ltac:(lra) Ex Hd). assert (B := near_exact v y d Fv ltac:(lra) Ey Hd). fold E in GX, GY.
    assert (CL : clamped p n (map val U)) by apply H.
    destruct (values_between (f d) (val u) (val v) l) as (s & S1 & S2); try assumption.
    - intros t Ht. apply dspline_continuous; [exact F|lia|exact Ht|]. replace (p - 0)%nat with p by lia. intros T. apply (mults_le p n _ CL MU). exact T.
    - set (X := val (nth d x (@n0 F64))) in *. set (Y := val (nth d y (@n0 F64))) in *.
      destruct (Rle_lt_dec 0 (X - l)) as [C1|C1].
      + assert (C2 : Y - l < 0) by nra. rewrite (Rabs_right (X - l)) in GX by lra. rewrite (Rabs_left (Y - l)) in GY by lra.
        apply Rabs_le_inv in A. apply Rabs_le_inv in B. assert (0 <= f d (val u) - l) by lra. assert (f d (val v) - l <= 0) by lra. nra.
      + assert (C2 : 0 < Y - l) by nra. rewrite (Rabs_left (X - l)) in GX by lra. rewrite (Rabs_right (Y - l)) in GY by lra.
        apply Rabs_le_inv in A. apply Rabs_le_inv in B. assert (f d (val u) - l <= 0) by lra. assert (0 <= f d (val v) - l) by lra. nra.
    - destruct (exact_value s d ltac:(lra) Hd) as (z & Z1 & Z2). exists s, z. split; [exact S1|]. split; [exact Z1|]. rewrite Z2. exact S2.
  Qed.

  Theorem rendered K D d t u v x y z : (2 <= p)%nat -> (forall t, 0 < t < 1 -> (mult (map val U) t <= p - 1)%nat) -> (d < dim)%nat ->
    @matrix_derivative RNum (cpoints cR) 2 = Val D -> (forall i, (i + 2 <= n)%nat -> Rabs (ent D i d) <= K) ->
    finite u -> finite v -> 0 <= val u -> val u <= val v -> val v <= 1 -> 0 <= t <= 1 -> @evaluate F64 c u = Val (Ok x) -> @evaluate F64 c v = Val (Ok y) ->
    evaluate cR ((1 - t) * val u + t * val v) = Val (Ok z) ->
    Rabs (nth d z 0 - ((1 - t) * val (nth d x (@n0 F64)) + t * val (nth d y (@n0 F64)))) <= K * (val v - val u) ^ 2 / 8 + (6 * INR p + 3) * / 2 ^ 53 * M.
  Proof using FC SP H Hp HM F.
    intros Hp2 MU Hd ED BD Fu Fv Hu Huv Hv Ht Ex Ey Ez. assert (A := near_exact u x d Fu ltac:(lra) Ex Hd). assert (B := near_exact v y d Fv ltac:(lra) Ey Hd). fold E.
    assert (CL : clamped p n (map val U)) by apply H. assert (PN := fc_deg _ _ _ F).
    set (a := val u) in *. set (b := val v) in *. set (m := (1 - t) * a + t * b) in *. assert (Hm : a <= m <= b) by (unfold m; nra).
    destruct (exact_value m d ltac:(lra) Hd) as (z' & Z1 & Z2). assert (z' = z) by congruence. subst z'. rewrite Z2.
    assert (K0 : 0 <= K) by (eapply Rle_trans; [apply Rabs_pos|apply (BD 0%nat); lia]).
    destruct (deriv_matrix p n dim (map val U) P' cR 2 H Hp2) as (D' & D1 & D2 & D3). rewrite ED in D1. injection D1 as <-.
    assert (CH : Rabs (f d m - ((1 - t) * f d a + t * f d b)) <= K * (b - a) ^ 2 / 8).
    { assert (Q0 : 0 <= K * (b - a) ^ 2 / 8) by (assert (0 <= (b - a) ^ 2) by nra; nra).
      destruct (Req_dec a m) as [E1|E1]; [|destruct (Req_dec m b) as [E2|E2]].
      - assert (Z : t * (b - a) = 0) by (unfold m in E1; lra). apply Rmult_integral in Z. destruct Z as [Z|Z].
        + rewrite Z, <- E1. replace (f d a - ((1 - 0) * f d a + 0 * f d b)) with 0 by ring. rewrite Rabs_R0. exact Q0.
        + replace b with a by lra. rewrite <- E1. replace (f d a - ((1 - t) * f d a + t * f d a)) with 0 by ring. rewrite Rabs_R0. replace ((a - a) ^ 2) with 0 by ring. lra.
      - assert (Z : (1 - t) * (b - a) = 0) by (unfold m in E2; lra). apply Rmult_integral in Z. destruct Z as [Z|Z].
        + replace t with 1 by lra. rewrite E2. replace (f d b - ((1 - 1) * f d a + 1 * f d b)) with 0 by ring. rewrite Rabs_R0. exact Q0.
        + exfalso. lra.
      - assert (BA : 0 < b - a) by lra. assert (TT : t * (1 - t) <= 1 / 4) by (assert (T := pow2_ge_0 (t - 1 / 2)); nra).
        assert (MU' : forall x, 0 < x < 1 -> mult_le (kfun (map val U)) x (p - 0 - 1)) by (intros w Hw; replace (p - 0 - 1)%nat with (p - 1)%nat by lia; apply (mult_mult_le p n (map val U) w (p - 1) CL Hw); apply MU; exact Hw).
        assert (BD' : forall i, (i <= n - (0 + 2))%nat -> Rabs (dpoints (kfun (map val U)) p (fun i => ent P' i d) (0 + 2) i) <= K).
        { intros i Hi. cbn [Nat.add] in *. rewrite <- D3 by lia. apply BD. lia. }
        assert (BD'' : forall i, (i <= n - (0 + 2))%nat -> Rabs (dpoints (kfun (map val U)) p (fun i => - ent P' i d) (0 + 2) i) <= K).
        { intros i Hi. rewrite (dopp p (kfun (map val U)) (fun i => ent P' i d)), Rabs_Ropp. apply BD'. exact Hi. }
        assert (T1 := chord_le p n (kfun (map val U)) F (fun i => ent P' i d) 0 K a b m ltac:(lia) MU' BD' ltac:(lra) ltac:(lra) ltac:(lra) ltac:(lra)).
        assert (T2 := chord_le p n (kfun (map val U)) F (fun i => - ent P' i d) 0 K a b m ltac:(lia) MU' BD'' ltac:(lra) ltac:(lra) ltac:(lra) ltac:(lra)).
        rewrite !(sopp p n (kfun (map val U)) (fun i => ent P' i d)) in T2. fold (f d a) in T1, T2. fold (f d b) in T1, T2. fold (f d m) in T1, T2.
        assert (G : K / 2 * (m - a) * (b - m) * (b - a) <= K * (b - a) ^ 2 / 8 * (b - a)).
        { apply Rmult_le_compat_r; [lra|]. replace (K / 2 * (m - a) * (b - m)) with (K / 2 * (b - a) ^ 2 * (t * (1 - t))) by (unfold m; ring). replace (K * (b - a) ^ 2 / 8) with (K / 2 * (b - a) ^ 2 * (1 / 4)) by field. apply Rmult_le_compat_l; [|exact TT]. assert (0 <= (b - a) ^ 2) by nra. nra. }
        assert (R1 : f d m * (b - a) - ((b - m) * f d a + (m - a) * f d b) = (f d m - ((1 - t) * f d a + t * f d b)) * (b - a)) by (unfold m; ring).
        assert (R2 : - f d m * (b - a) - ((b - m) * - f d a + (m - a) * - f d b) = - (f d m - ((1 - t) * f d a + t * f d b)) * (b - a)) by (unfold m; ring).
        rewrite R1 in T1. rewrite R2 in T2. apply Rabs_le. split.
        + assert (X := Rmult_le_reg_r (b - a) _ _ BA (Rle_trans _ _ _ T2 G)). lra.
        + exact (Rmult_le_reg_r (b - a) _ _ BA (Rle_trans _ _ _ T1 G)). }
    set (X := val (nth d x (@n0 F64))) in *. set (Y := val (nth d y (@n0 F64))) in *. apply Rabs_le_inv in A. apply Rabs_le_inv in B. apply Rabs_le_inv in CH. apply Rabs_le. split; nra.
  Qed.
End Sampled.
