(** * Stability of a curve with respect to its knots *)

From Coq Require Import Reals List Arith Lra Lia Permutation.
From Verif Require Import Num Vec MKnots MPoints MCurve RNum Lists Spec BMath BMath2 BMath3 BMath4 SW Api Bridge Facts1 Shape1 Shape2 Shape3.
Import ListNotations.
Local Open Scope R_scope.

Lemma rsum_tri f n : Rabs (rsum f n) <= rsum (fun i => Rabs (f i)) n.
Proof.
  induction n as [|n IH]; cbn [rsum]; [rewrite Rabs_R0; lra|]. eapply Rle_trans; [apply Rabs_triang|]. lra.
Qed.

(** ** Same span, nearby knots, nearby parameters *)
Section Near.
  Variables (U V : nat -> R) (j : nat) (x y dl h : R).
  Hypothesis MU : mono U.
  Hypothesis MV : mono V.
  Hypothesis VJ : V j < V (S j).
  Hypothesis X : U j <= x <= U (S j).
  Hypothesis Y : V j <= y <= V (S j).
  Hypothesis D : forall i, Rabs (U i - V i) <= dl.
  Hypothesis DX : Rabs (x - y) <= dl.
  Hypothesis H0 : 0 < h.
  Hypothesis HJ : h <= U (S j) - U j.

  Let a q i := (x - U i) * dinv U i (S q).
  Let s q i := (y - V i) * dinv V i (S q).

  Lemma near_weight q i : (i <= j)%nat -> (j <= i + q)%nat ->
    0 <= a q i <= 1 /\ 0 <= s q i <= 1 /\ Rabs (a q i - s q i) <= 2 * dl / h /\
    (U (i + S q)%nat - x) * dinv U i (S q) = 1 - a q i /\ (V (i + S q)%nat - y) * dinv V i (S q) = 1 - s q i.
  Proof.
    intros I1 I2. unfold a, s.
    assert (U1 : U i <= U j) by (apply MU; lia). assert (U2 : U (S j) <= U (i + S q)%nat) by (apply MU; lia).
    assert (V1 : V i <= V j) by (apply MV; lia). assert (V2 : V (S j) <= V (i + S q)%nat) by (apply MV; lia).
    assert (E1 := dinv_nz U i (S q) ltac:(lra)). assert (E2 := dinv_nz V i (S q) ltac:(lra)).
    assert (G1 : 0 < dinv U i (S q)) by (assert (0 <= dinv U i (S q)) by (apply dinv_nonneg; lra); destruct (Req_dec (dinv U i (S q)) 0) as [Z|Z]; [rewrite Z in E1; lra|lra]).
    assert (G2 : 0 < dinv V i (S q)) by (assert (0 <= dinv V i (S q)) by (apply dinv_nonneg; lra); destruct (Req_dec (dinv V i (S q)) 0) as [Z|Z]; [rewrite Z in E2; lra|lra]).
    set (du := dinv U i (S q)) in *. set (dv := dinv V i (S q)) in *.
    set (u1 := U i) in *. set (u2 := U (i + S q)%nat) in *. set (v1 := V i) in *. set (v2 := V (i + S q)%nat) in *.
    assert (A0 : 0 <= (x - u1) * du) by (apply Rmult_le_pos; lra).
    assert (A1 : 0 <= (u2 - x) * du) by (apply Rmult_le_pos; lra).
    assert (B0 : 0 <= (y - v1) * dv) by (apply Rmult_le_pos; lra).
    assert (B1 : 0 <= (v2 - y) * dv) by (apply Rmult_le_pos; lra).
    assert (EA : (u2 - x) * du = 1 - (x - u1) * du) by (rewrite <- E1; ring).
    assert (EB : (v2 - y) * dv = 1 - (y - v1) * dv) by (rewrite <- E2; ring).
    split; [lra|]. split; [lra|]. split; [|split; assumption].
    set (w := (y - v1) * dv) in *.
    assert (EW : y - v1 = w * (v2 - v1)) by (unfold w; transitivity ((y - v1) * ((v2 - v1) * dv)); [rewrite E2; ring|ring]).
    assert (ED : (x - u1) * du - w = ((x - y) - (1 - w) * (u1 - v1) - w * (u2 - v2)) * du).
    { replace w with (w * ((u2 - u1) * du)) at 1 by (rewrite E1; ring).
      transitivity ((x - u1 - w * (u2 - u1)) * du); [ring|]. f_equal.
      replace (x - u1) with ((x - y) + (y - v1) - (u1 - v1)) by ring. rewrite EW. ring. }
    rewrite ED, Rabs_mult, (Rabs_right du) by lra.
    assert (Hd : du <= / h).
    { apply Rmult_le_reg_l with (u2 - u1); [lra|]. rewrite E1. apply Rmult_le_reg_r with h; [exact H0|].
      rewrite Rmult_assoc, Rinv_l by lra. lra. }
    assert (Hn : Rabs (x - y - (1 - w) * (u1 - v1) - w * (u2 - v2)) <= 2 * dl).
    { assert (Q1 := D i). assert (Q2 := D (i + S q)%nat). fold u1 v1 u2 v2 in Q1, Q2.
      assert (QQ : forall z, Rabs z <= dl -> - dl <= z <= dl) by (intros z Hz; split; [assert (T := Rle_abs (- z)); rewrite Rabs_Ropp in T; lra|assert (T := Rle_abs z); lra]).
      apply QQ in Q1. apply QQ in Q2. assert (Q3 := QQ _ DX). apply Rabs_le. nra. }
    unfold Rdiv. apply Rmult_le_compat; [apply Rabs_pos|lra|exact Hn|exact Hd].
  Qed.

  Let N q i := cox (delta j) U q i x.
  Let M q i := cox (delta j) V q i y.

  Lemma near_basis q n : (q <= j)%nat -> (j < n)%nat -> rsum (fun i => Rabs (N q i - M q i)) n <= 4 * INR q * dl / h.
  Proof.
    intros Q J. induction q as [|q IH].
    - unfold N, M. cbn [cox INR]. rewrite rsum_zero; [unfold Rdiv; lra|]. intros i _. rewrite Rminus_diag_eq by reflexivity. apply Rabs_R0.
    - specialize (IH ltac:(lia)).
      set (e := 2 * dl / h).
      assert (DL : 0 <= dl) by (eapply Rle_trans; [apply Rabs_pos|exact DX]).
      assert (E0 : 0 <= e) by (unfold e; apply Rmult_le_pos; [lra|left; apply Rinv_0_lt_compat; exact H0]).
      set (A := fun i => e * M q i + a q i * Rabs (N q i - M q i)).
      set (B := fun i => e * M q i + (1 - a q i) * Rabs (N q i - M q i)).
      assert (SUP : forall i, (i <= j <= i + q)%nat \/ N q i = 0 /\ M q i = 0).
      { intros i. destruct (le_lt_dec i j); [destruct (le_lt_dec j (i + q)); [left; lia|]|]; right; (split; apply piece_support; lia). }
      assert (MN : forall i, 0 <= M q i) by (intros i; apply (piece_nonneg V MV j q i y Y)).
      assert (PA : forall i, Rabs ((x - U i) * dinv U i (S q) * N q i - (y - V i) * dinv V i (S q) * M q i) <= A i).
      { intros i. unfold A. destruct (SUP i) as [S1|[-> ->]].
        - destruct (near_weight q i) as [W1 [W2 [W3 _]]]; [lia..|]. fold (a q i) (s q i).
          replace (a q i * N q i - s q i * M q i) with ((a q i - s q i) * M q i + a q i * (N q i - M q i)) by ring.
          eapply Rle_trans; [apply Rabs_triang|]. rewrite !Rabs_mult, (Rabs_right (M q i)), (Rabs_right (a q i)) by (try apply Rle_ge; try apply MN; lra).
          apply Rplus_le_compat_r. apply Rmult_le_compat_r; [apply MN|exact W3].
        - rewrite !Rmult_0_r, Rminus_0_r, Rabs_R0. lra. }
      assert (PB : forall i, Rabs ((U (i + S q)%nat - x) * dinv U i (S q) * N q i - (V (i + S q)%nat - y) * dinv V i (S q) * M q i) <= B i).
      { intros i. unfold B. destruct (SUP i) as [S1|[-> ->]].
        - destruct (near_weight q i) as [W1 [W2 [W3 [W4 W5]]]]; [lia..|]. rewrite W4, W5.
          replace ((1 - a q i) * N q i - (1 - s q i) * M q i) with (- (a q i - s q i) * M q i + (1 - a q i) * (N q i - M q i)) by ring.
          eapply Rle_trans; [apply Rabs_triang|]. rewrite !Rabs_mult, Rabs_Ropp, (Rabs_right (M q i)), (Rabs_right (1 - a q i)) by (try apply Rle_ge; try apply MN; lra).
          apply Rplus_le_compat_r. apply Rmult_le_compat_r; [apply MN|exact W3].
        - rewrite !Rmult_0_r, Rminus_0_r, Rabs_R0. lra. }
      apply Rle_trans with (rsum (fun i => A i + B (S i)) n).
      { apply rsum_le. intros i _. unfold N, M. rewrite !cox_S. fold (N q i) (N q (S i)) (M q i) (M q (S i)).
        match goal with |- Rabs (?a + ?b - (?c + ?d)) <= _ => replace (a + b - (c + d)) with ((a - c) + (b - d)) by ring end.
        eapply Rle_trans; [apply Rabs_triang|]. apply Rplus_le_compat; [apply PA|apply PB]. }
      rewrite rsum_plus, rsum_shift.
      assert (BN : B n = 0).
      { unfold B, N, M. rewrite !piece_support by lia. rewrite Rminus_0_r, Rabs_R0. ring. }
      assert (B0 : 0 <= B 0%nat).
      { unfold B. destruct (SUP 0%nat) as [S1|[-> ->]]; [|rewrite Rminus_0_r, Rabs_R0; lra].
        destruct (near_weight q 0) as [W1 _]; [lia..|].
        apply Rplus_le_le_0_compat; apply Rmult_le_pos; [lra|apply MN|lra|apply Rabs_pos]. }
      rewrite BN.
      assert (SM : rsum (M q) n = 1) by (unfold M; apply piece_sum; [exact MV|exact VJ|lia|exact J]).
      assert (T : rsum A n + rsum B n = 2 * e + rsum (fun i => Rabs (N q i - M q i)) n).
      { rewrite <- rsum_plus. rewrite (rsum_ext _ (fun i => 2 * e * M q i + Rabs (N q i - M q i))) by (intros; unfold A, B; ring).
        rewrite rsum_plus, rsum_scal, SM. ring. }
      rewrite S_INR. assert (EE : 4 * (INR q + 1) * dl / h = 4 * INR q * dl / h + 2 * e) by (unfold e; field; lra). lra.
  Qed.
End Near.

Lemma kdist p n U V dl : clamped p n U -> clamped p n V -> (forall i, (i < length U)%nat -> Rabs (nth i U 0 - nth i V 0) <= dl) ->
  forall i, Rabs (kfun U i - kfun V i) <= dl.
Proof.
  intros CU CV D i. assert (EU := cl_len _ _ _ CU). assert (EV := cl_len _ _ _ CV).
  destruct (le_lt_dec (length U) i) as [L|L].
  - rewrite !kfun_over by lia. rewrite EV, <- EU. apply D. lia.
  - rewrite !kfun_nth by lia. apply D. exact L.
Qed.

Lemma dpoints_1 U p P i : dpoints U p P 1 i = ratio (INR p * (P (S i) - P i)) (U (i + p + 1)%nat - U (i + 1)%nat).
Proof. cbn [dpoints]. replace (p - 0)%nat with p by lia. reflexivity. Qed.

(** nonempty spans have length at least [h], so have longer nonempty stretches *)
Lemma stretch U h : mono U -> (forall i, U i < U (S i) -> h <= U (S i) - U i) ->
  forall k i, U i < U (i + k)%nat -> h <= U (i + k)%nat - U i.
Proof.
  intros MU G k. induction k as [|k IH]; intros i L; [replace (i + 0)%nat with i in L by lia; lra|].
  replace (i + S k)%nat with (S (i + k)) in * by lia.
  destruct (Rlt_le_dec (U i) (U (i + k)%nat)) as [A|A].
  - specialize (IH i A). assert (U (i + k)%nat <= U (S (i + k))) by (apply MU; lia). lra.
  - assert (U i <= U (i + k)%nat) by (apply MU; lia). assert (EQ : U i = U (i + k)%nat) by lra. rewrite EQ in *. apply G. lra.
Qed.

Lemma near_spline p n U V P u dl h m r : fclamped p n U -> fclamped p n V -> (1 <= p)%nat ->
  (forall x, 0 < x < 1 -> mult_le U x p) ->
  (forall i, Rabs (U i - V i) <= dl) -> (forall i, (i <= n)%nat -> V i < V (S i) -> U i < U (S i)) ->
  0 < h -> (forall i, U i < U (S i) -> h <= U (S i) - U i) ->
  (forall i, (i <= n)%nat -> Rabs (P i - m) <= r) -> 0 <= u <= 1 ->
  Rabs (spline U n p P u - spline V n p P u) <= 6 * INR p * r * dl / h.
Proof.
  intros CU CV Hp HM D O H0 G PM Hu. assert (PN := fc_deg _ _ _ CU).
  assert (MU := fc_mono _ _ _ CU). assert (MV := fc_mono _ _ _ CV).
  destruct (span_ex _ _ _ CV u Hu) as [j [J1 J2]].
  assert (VJ : V j < V (S j)) by apply J2. assert (UJ := O j ltac:(lia) VJ). assert (GJ := G j UJ).
  assert (JL := in_span_le n V u j J2).
  set (w := (u - V j) / (V (S j) - V j)). set (x := U j + w * (U (S j) - U j)).
  assert (W : 0 <= w <= 1).
  { unfold w. split.
    - apply Rmult_le_pos; [lra|]. left. apply Rinv_0_lt_compat. lra.
    - apply Rmult_le_reg_r with (V (S j) - V j); [lra|]. unfold Rdiv. rewrite Rmult_assoc, Rinv_l by lra. lra. }
  assert (EU : u = V j + w * (V (S j) - V j)) by (unfold w; field; lra).
  assert (XU : U j <= x <= U (S j)) by (unfold x; nra).
  assert (QQ : forall z, Rabs z <= dl -> - dl <= z <= dl) by (intros z Hz; split; [assert (T := Rle_abs (- z)); rewrite Rabs_Ropp in T; lra|assert (T := Rle_abs z); lra]).
  assert (DX : Rabs (x - u) <= dl).
  { assert (Q1 := QQ _ (D j)). assert (Q2 := QQ _ (D (S j))). apply Rabs_le. rewrite EU. unfold x. nra. }
  assert (XS : in_span U n x j).
  { split; [exact UJ|]. split; [lra|]. destruct J2 as [_ [_ [T|[T1 T2]]]].
    - left. assert (w < 1) by (apply Rmult_lt_reg_r with (V (S j) - V j); [lra|]; rewrite EU in T; lra). unfold x. nra.
    - right. split; [exact T1|]. subst j. assert (w = 1) by (unfold w; rewrite T2; field; lra). unfold x. rewrite H. ring. }
  assert (R0 : 0 <= r) by (eapply Rle_trans; [apply Rabs_pos|apply (PM 0%nat); lia]).
  assert (DL : 0 <= dl) by (eapply Rle_trans; [apply Rabs_pos|exact DX]).
  assert (I0 := pos_INR p).
  assert (A : Rabs (spline U n p P x - spline V n p P u) <= 4 * INR p * r * dl / h).
  { rewrite (spline_piece p n U CU P x j ltac:(lia) XS), (spline_piece p n V CV P u j ltac:(lia) J2). unfold pfun.
    assert (SU := piece_sum U MU j UJ p x (S n) ltac:(lia) ltac:(lia)). assert (SV := piece_sum V MV j VJ p u (S n) ltac:(lia) ltac:(lia)).
    assert (E : forall W z, rsum (fun i => cox (delta j) W p i z) (S n) = 1 -> rsum (fun i => cox (delta j) W p i z * P i) (S n) = m + rsum (fun i => cox (delta j) W p i z * (P i - m)) (S n)).
    { intros W0 z Z. rewrite (rsum_ext _ (fun i => cox (delta j) W0 p i z * m + cox (delta j) W0 p i z * (P i - m))) by (intros; ring).
      rewrite rsum_plus, rsum_scal_r, Z. ring. }
    rewrite (E U x SU), (E V u SV).
    match goal with |- Rabs (m + ?a - (m + ?b)) <= _ => replace (m + a - (m + b)) with (a - b) by ring end.
    rewrite <- rsum_minus. eapply Rle_trans; [apply rsum_tri|].
    apply Rle_trans with (rsum (fun i => Rabs (cox (delta j) U p i x - cox (delta j) V p i u) * r) (S n)).
    - apply rsum_le. intros i Hi. replace (cox (delta j) U p i x * (P i - m) - cox (delta j) V p i u * (P i - m)) with ((cox (delta j) U p i x - cox (delta j) V p i u) * (P i - m)) by ring.
      rewrite Rabs_mult. apply Rmult_le_compat_l; [apply Rabs_pos|apply PM; lia].
    - rewrite rsum_scal_r. assert (NB := near_basis U V j x u dl h MU MV VJ XU JL D DX H0 GJ p (S n) ltac:(lia) ltac:(lia)). cbv beta in NB.
      replace (4 * INR p * r * dl / h) with (4 * INR p * dl / h * r) by (field; lra). apply Rmult_le_compat_r; assumption. }
  assert (XR : 0 <= x <= 1) by (assert (T1 := U_range p n U CU j); assert (T2 := U_range p n U CU (S j)); lra).
  set (K := 2 * INR p * r / h).
  assert (K0 : 0 <= K) by (unfold K; apply Rmult_le_pos; [nra|left; apply Rinv_0_lt_compat; exact H0]).
  assert (DPB : forall i, (i < n)%nat -> Rabs (dpoints U p P 1 i) <= K).
  { intros i Hi. rewrite dpoints_1. unfold ratio. destruct Req_EM_T as [Z|Z]; [rewrite Rabs_R0; exact K0|].
    assert (T := MU (i + 1)%nat (i + p + 1)%nat ltac:(lia)).
    assert (ST := stretch U h MU G p (i + 1)%nat). replace (i + 1 + p)%nat with (i + p + 1)%nat in ST by lia. specialize (ST ltac:(lra)).
    unfold Rdiv. rewrite Rabs_mult, (Rabs_right (/ _)) by (apply Rle_ge; left; apply Rinv_0_lt_compat; lra).
    unfold K, Rdiv. apply Rmult_le_compat; [apply Rabs_pos|left; apply Rinv_0_lt_compat; lra| |apply Rinv_le_contravar; lra].
    rewrite Rabs_mult, (Rabs_right (INR p)) by lra.
    assert (Rabs (P (S i) - P i) <= 2 * r).
    { replace (P (S i) - P i) with ((P (S i) - m) - (P i - m)) by ring. eapply Rle_trans; [apply Rabs_triang|]. rewrite Rabs_Ropp.
      assert (T1 := PM (S i) ltac:(lia)). assert (T2 := PM i ltac:(lia)). lra. }
    nra. }
  assert (SL : forall a b, 0 <= a -> a < b -> b <= 1 -> Rabs (spline U n p P b - spline U n p P a) <= K * (b - a)).
  { intros a b Ha Hab Hb. apply Rabs_le. split.
    - assert (T := spline_slope p n U (fun i => -1 * P i) K a b CU Hp HM). cbv beta in T.
      assert (E : forall z, spline U n p (fun i => -1 * P i) z = - spline U n p P z).
      { intros z. unfold spline. rewrite (rsum_ext _ (fun i => -1 * (bspline U n p i z * P i))) by (intros; ring). rewrite rsum_scal. ring. }
      rewrite !E in T. enough (- spline U n p P b - - spline U n p P a <= K * (b - a)) by lra. apply T; [|assumption..].
      intros i Hi. rewrite dpoints_1. replace (INR p * (-1 * P (S i) - -1 * P i)) with (-1 * (INR p * (P (S i) - P i))) by ring. rewrite ratio_mult, <- dpoints_1.
      assert (T1 := DPB i Hi). assert (T2 := Rle_abs (- dpoints U p P 1 i)). rewrite Rabs_Ropp in T2. lra.
    - apply (spline_slope p n U P K a b CU Hp HM); [|assumption..]. intros i Hi. eapply Rle_trans; [apply Rle_abs|apply DPB; exact Hi]. }
  assert (B : Rabs (spline U n p P u - spline U n p P x) <= K * dl).
  { destruct (Rtotal_order u x) as [T|[T|T]].
    - rewrite Rabs_minus_sym. eapply Rle_trans; [apply SL; lra|]. apply Rmult_le_compat_l; [exact K0|]. eapply Rle_trans; [apply Rle_abs|exact DX].
    - rewrite T, Rminus_diag_eq, Rabs_R0 by reflexivity. apply Rmult_le_pos; assumption.
    - eapply Rle_trans; [apply SL; lra|]. apply Rmult_le_compat_l; [exact K0|]. rewrite Rabs_minus_sym in DX. eapply Rle_trans; [apply Rle_abs|exact DX]. }
  replace (spline U n p P u - spline V n p P u) with ((spline U n p P u - spline U n p P x) + (spline U n p P x - spline V n p P u)) by ring.
  eapply Rle_trans; [apply Rabs_triang|]. replace (6 * INR p * r * dl / h) with (K * dl + 4 * INR p * r * dl / h) by (unfold K; field; lra). lra.
Qed.

Lemma knots_stable p n dim U V P c e dl h : clamped_curve p n dim U P c -> clamped_curve p n dim V P e -> (1 <= p)%nat ->
  (forall x, 0 < x < 1 -> (mult U x <= p)%nat) ->
  (forall i, (i < length U)%nat -> Rabs (nth i U 0 - nth i V 0) <= dl) ->
  (forall i, (p <= i <= n)%nat -> nth i V 0 < nth (S i) V 0 -> nth i U 0 < nth (S i) U 0) ->
  0 < h -> (forall i, (p <= i <= n)%nat -> nth i U 0 < nth (S i) U 0 -> h <= nth (S i) U 0 - nth i U 0) ->
  forall u x y, 0 <= u <= 1 -> evaluate c u = Val (Ok x) -> evaluate e u = Val (Ok y) ->
  forall d m r, (d < dim)%nat -> (forall i, (i <= n)%nat -> Rabs (ent P i d - m) <= r) ->
  Rabs (nth d x 0 - nth d y 0) <= 6 * INR p * r * dl / h.
Proof.
  intros HC HE Hp HM D O H0 G u x y Hu EX EY d m r Hd PM.
  assert (CU : clamped p n U) by apply HC. assert (CV : clamped p n V) by apply HE.
  assert (FU := kfun_clamped p n U CU). assert (FV := kfun_clamped p n V CV). assert (LU := cl_len _ _ _ CU). assert (LV := cl_len _ _ _ CV).
  destruct (eval_at p n dim U P c HC u x Hu EX) as [_ ->]; [|exact Hd]. destruct (eval_at p n dim V P e HE u y Hu EY) as [_ ->]; [|exact Hd].
  apply (near_spline p n (kfun U) (kfun V) (fun i => ent P i d) u dl h m r FU FV Hp (mults_le p n U CU HM) (kdist p n U V dl CU CV D)); try assumption.
  - intros i Hi L. destruct (le_lt_dec p i) as [I|I].
    + rewrite !kfun_nth in * by lia. apply O; [lia|exact L].
    + rewrite !(fc_zero _ _ _ FV) in L by lia. lra.
  - intros i L. destruct (le_lt_dec p i) as [I|I].
    + destruct (le_lt_dec i n) as [I2|I2].
      * rewrite !kfun_nth in * by lia. apply G; [lia|exact L].
      * rewrite !(fc_one _ _ _ FU) in L by lia. lra.
    + rewrite !(fc_zero _ _ _ FU) in L by lia. lra.
Qed.
