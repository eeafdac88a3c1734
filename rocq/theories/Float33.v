(** * Merging in binary64: accuracy for degrees one and two *)

From Coq Require Import ZArith Reals List Bool Arith Lia Lra Psatz.
From Flocq Require Import Core.Core IEEE754.BinarySingleNaN.
From Verif Require Import Num Vec MKnots MPoints MCurve MFit MMerge RNum F64 Hoare Lists Struct Spec BMath BMath3 Api ApiF ApiF3 ApiJ ApiK Bridge Divisions Facts1 Facts3 Facts8 Gen2 Gen3 Fit1 Facts11 Shape3 Merge1 Merge2 Merge14 Merge15 Merge16 Merge18 Merge19 Float1 Float2 Float3 Float9 Float15 Float16 Float22 Float25 Float26.
Import ListNotations.
Local Open Scope R_scope.

(** the sum of two numbers of moderate size *)
Lemma small_sum (x y : f64) M : finite x -> finite y -> Rabs (val x) <= M -> Rabs (val y) <= 2 * M -> M <= 2 ^ 1020 ->
  finite (@nadd F64 x y) /\ Rabs (val (@nadd F64 x y) - (val x + val y)) <= 3 * M * / 2 ^ 53 /\ Rabs (val (@nadd F64 x y)) <= 4 * M.
Proof.
  intros Fx Fy Bx By HM. assert (S : Rabs (val x + val y) <= 3 * M) by (eapply Rle_trans; [apply Rabs_triang|lra]).
  assert (M0 : 0 <= M) by (eapply Rle_trans; [apply Rabs_pos|exact Bx]).
  assert (P : 2 ^ 1022 = 4 * 2 ^ 1020) by (change 1022%nat with (2 + 1020)%nat; rewrite pow_add; simpl (2 ^ 2); ring).
  assert (P2 : pow2 1022 = 2 ^ 1022) by (rewrite (bpow_powerRZ radix2 1022); reflexivity).
  destruct (add_ok x y 1022 ltac:(lia) Fx Fy ltac:(rewrite P2, P; lra)) as [A1 A2].
  assert (N := rnd_near_plus (val x) (val y) (3 * M) (fmt_val x) (fmt_val y) S). rewrite <- A2 in N.
  change (Bplus mode_NE x y) with (@nadd F64 x y) in *.
  assert (E : eps = / 2 ^ 53). { assert (T := eps_2). assert (X : / 2 ^ 52 = 2 * / 2 ^ 53) by (simpl; field). lra. }
  rewrite E in N. split; [exact A1|]. split; [exact N|].
  assert (L : / 2 ^ 53 <= / 3) by (apply Rinv_le_contravar; [lra|]; simpl; lra).
  assert (T := Rabs_le_inv _ _ N). assert (T2 := Rabs_le_inv _ _ S). assert (3 * M * / 2 ^ 53 <= M) by (apply Rle_trans with (3 * M * / 3); [apply Rmult_le_compat_l; lra|lra]). apply Rabs_le. lra.
Qed.

Section Knots.
  Context (p m o : nat) (V W U : list R) (CV : clamped p m V) (CW : clamped p o W) (J : joined_knots p m o V W U) (CU : clamped p (m + o + 1 - p) U).

  Lemma joined_low i : (i <= m + 1)%nat -> nth i U 0 = nth i V 0 / 2.
  Proof. apply J. Qed.
  Lemma joined_high i : (m + 1 <= i <= m + o + 2)%nat -> nth i U 0 = (1 + nth (i - (m + 1 - p)) W 0) / 2.
  Proof. intros H. assert (D := cl_deg _ _ _ CV). replace i with (m + 1 - p + (i - (m + 1 - p)))%nat at 1 by lia. apply J. lia. Qed.

  Lemma joined_mults : (1 <= p)%nat -> (forall x, 0 < x < 1 -> (mult V x <= p)%nat) -> (forall x, 0 < x < 1 -> (mult W x <= p)%nat) -> forall x, 0 < x < 1 -> mult_le (kfun U) x p.
  Proof.
    intros Hp MV MW x Hx. assert (D := cl_deg _ _ _ CV). assert (D' := cl_deg _ _ _ CW). assert (LV := cl_len _ _ _ CV). assert (LW := cl_len _ _ _ CW). assert (LU := cl_len _ _ _ CU).
    assert (FU := kfun_clamped _ _ _ CU).
    assert (IN : forall i, kfun U i = x -> (p < i <= m + o + 1 - p)%nat).
    { intros i Hi. split.
      - destruct (Nat.lt_ge_cases p i) as [C|C]; [exact C|]. rewrite kfun_nth in Hi by lia. rewrite (cl_zero _ _ _ CU i) in Hi by lia. lra.
      - destruct (Nat.le_gt_cases i (m + o + 1 - p)) as [C|C]; [exact C|]. rewrite (fc_one _ _ _ FU i) in Hi by lia. lra. }
    intros i j Hi Hj. assert (Ii := IN i Hi). assert (Ij := IN j Hj). rewrite kfun_nth in Hi, Hj by lia.
    destruct (Rtotal_order x (/ 2)) as [L|[L|L]].
    - assert (Q : forall k, (p < k <= m + o + 1 - p)%nat -> nth k U 0 = x -> (k <= m)%nat /\ nth k V 0 = 2 * x).
      { intros k Hk Ek. destruct (Nat.le_gt_cases k m) as [C|C]; [split; [exact C|]; rewrite joined_low in Ek by lia; lra|].
        rewrite joined_high in Ek by lia. assert (T := cl_sorted _ _ _ CW p (k - (m + 1 - p)) ltac:(lia) ltac:(lia)). rewrite (cl_zero _ _ _ CW p) in T by lia. lra. }
      destruct (Q i Ii Hi) as [A1 A2]. destruct (Q j Ij Hj) as [B1 B2].
      apply (mults_le p m V CV MV (2 * x) ltac:(lra) i j); rewrite kfun_nth by lia; assumption.
    - assert (Q : forall k, (p < k <= m + o + 1 - p)%nat -> nth k U 0 = x -> k = (m + 1)%nat).
      { intros k Hk Ek. destruct (Nat.lt_ge_cases k (m + 1)) as [C|C].
        - rewrite joined_low in Ek by lia. assert (T := cl_inner _ _ _ CV k ltac:(lia) ltac:(lia)). lra.
        - destruct (Nat.eq_dec k (m + 1)) as [E|E]; [exact E|]. rewrite joined_high in Ek by lia. assert (T := cl_inner _ _ _ CW (k - (m + 1 - p)) ltac:(lia) ltac:(lia)). lra. }
      rewrite (Q i Ii Hi), (Q j Ij Hj). lia.
    - assert (Q : forall k, (p < k <= m + o + 1 - p)%nat -> nth k U 0 = x -> (m + 1 < k)%nat /\ nth (k - (m + 1 - p)) W 0 = 2 * x - 1).
      { intros k Hk Ek. destruct (Nat.le_gt_cases k (m + 1)) as [C|C].
        - rewrite joined_low in Ek by lia. assert (T := cl_sorted _ _ _ CV k (m + 1) ltac:(lia) ltac:(lia)). rewrite (cl_one _ _ _ CV (m + 1)) in T by lia. lra.
        - split; [exact C|]. rewrite joined_high in Ek by lia. lra. }
      destruct (Q i Ii Hi) as [A1 A2]. destruct (Q j Ij Hj) as [B1 B2].
      assert (T := mults_le p o W CW MW (2 * x - 1) ltac:(lra) (i - (m + 1 - p))%nat (j - (m + 1 - p))%nat). rewrite !kfun_nth in T by lia. specialize (T A2 B2). lia.
  Qed.

  Lemma joined_gaps g i : wide g V -> wide g W -> (p <= i <= m + o + 1 - p)%nat -> nth i U 0 < nth (S i) U 0 -> g / 2 <= nth (S i) U 0 - nth i U 0.
  Proof.
    intros HV HW Hi Lt. assert (D := cl_deg _ _ _ CV). assert (D' := cl_deg _ _ _ CW). assert (LV := cl_len _ _ _ CV). assert (LW := cl_len _ _ _ CW).
    destruct (Nat.le_gt_cases (S i) (m + 1)) as [C|C].
    - rewrite !joined_low in * by lia. assert (T := HV (nth i V 0) (nth (S i) V 0) ltac:(apply nth_In; lia) ltac:(apply nth_In; lia) ltac:(lra)). lra.
    - rewrite !joined_high in * by lia. assert (T := HW (nth (i - (m + 1 - p)) W 0) (nth (S i - (m + 1 - p)) W 0) ltac:(apply nth_In; lia) ltac:(apply nth_In; lia) ltac:(lra)). lra.
  Qed.
End Knots.

Section Float.
  Context {p m dim : nat} {V : list f64} {S_ : Mat F64} {a : Curve F64} {W : list f64} {T_ : Mat F64} {b : Curve F64} {M g : R}.
  Context (HA : float_curve p m dim V S_ M a) (HB : float_curve p m dim W T_ M b).
  Context {SR TR : Mat RNum} {aR bR : Curve RNum} (RA : clamped_curve p m dim (map val V) SR aR) (RB : clamped_curve p m dim (map val W) TR bR).
  Context (PS : same_points m dim S_ SR) (PT : same_points m dim T_ TR).
  Context (pa pb : list f64) (Hp : (1 <= p <= 2)%nat) (Ht : (length pa + length pb < p)%nat).
  Context (GV : wide g (map val V)) (GW : wide g (map val W)) (Hg : / 2 ^ 49 <= g).
  Context (MV : forall x, 0 < x < 1 -> (mult (map val V) x <= p)%nat) (MW : forall x, 0 < x < 1 -> (mult (map val W) x <= p)%nat).
  Context (HM : / 2 ^ 1000 <= M <= 2 ^ 1020).

  Let KA : on_knots p m dim V S_ a.
  Proof.
    destruct HA as [[F [C _]] [SP [_ B]]]. split; [split; [apply (cl_deg _ _ _ C)|split; [|exact SP]]|split; [exact B|split; [exact F|exact C]]]. assert (T := cl_len _ _ _ C). rewrite map_length in T. exact T.
  Qed.
  Let KB : on_knots p m dim W T_ b.
  Proof.
    destruct HB as [[F [C _]] [SP [_ B]]]. split; [split; [apply (cl_deg _ _ _ C)|split; [|exact SP]]|split; [exact B|split; [exact F|exact C]]]. assert (T := cl_len _ _ _ C). rewrite map_length in T. exact T.
  Qed.
  Let Wa := sized_wf False gdiv_F64 p m dim V S_ a (proj1 KA) (proj1 (proj2 KA)).
  Let Wb := sized_wf False gdiv_F64 p m dim W T_ b (proj1 KB) (proj1 (proj2 KB)).
  Notation N0 := (3 * p + length pa + length pb)%nat.
  Notation paR := (map val pa).
  Notation pbR := (map val pb).

  Theorem merge_accurate : exists (A B : Mat RNum) (A' B' : Mat F64), (exists X, solves A B X) /\ ncols A' = ncols A /\ ncols B' = ncols B /\
    forall (svd : Mat F64 -> Mat F64 -> Num.M (Mat F64)) (svdR : Mat RNum -> Mat RNum -> Num.M (Mat RNum)) X X' e, svdR A B = Val X -> svd A' B' = Val X' -> shape (ncols A) (ncols B) X -> shape (ncols A) (ncols B) X' -> e <= M ->
    (forall r d, (r < ncols A)%nat -> (d < ncols B)%nat -> Rabs (ent X d r) <= M /\ finite (ent X' d r) /\ Rabs (val (ent X' d r) - ent X d r) <= e) ->
    exists c cR, merge_with_constraints svd (mkCC a pa) (mkCC b pb) = Val (Ok c) /\ merge_with_constraints svdR (mkCC aR paR) (mkCC bR pbR) = Val (Ok cR) /\
      forall u, finite u -> 0 <= val u <= 1 -> exists f, returns (evaluate cR (val u)) dim f /\
        returns_within (@evaluate F64 c u) dim f (e + (24 * INR p + 15 + 96 * INR p / g) * / 2 ^ 53 * M).
  Proof.
    assert (L1 : length paR = length pa) by apply map_length. assert (L2 : length pbR = length pb) by apply map_length.
    assert (HtR : (length paR + length pbR < p)%nat) by lia.
    destruct (posed_R RA RB paR pbR Hp HtR) as [A [B [SA [SB [So H]]]]].
    destruct (posed gdiv_F64 Wa Wb ltac:(lia) pa pb) as [A' [B' [_ [_ [SA' [SB' H']]]]]].
    assert (N1 : ncols A = N0) by (rewrite <- L1, <- L2; apply SA). assert (N2 : ncols B = dim) by apply SB.
    assert (N3 : ncols A' = N0) by apply SA'. assert (N4 : ncols B' = dim) by apply SB'.
    exists A, B, A', B'. split; [exact So|]. split; [congruence|]. split; [congruence|]. rewrite N1, N2.
    intros svd svdR X X' e EX EX' SX SX' He D. assert (DV := cl_deg _ _ _ (proj1 RA)).
    assert (SX2 : shape (3 * p + length paR + length pbR) dim X) by (rewrite L1, L2; exact SX).
    destruct (moves_R RA RB paR pbR Hp HtR svdR A B X SA SB H EX SX2) as [cR [U [Q [E [J [Hc [K1 [K2 [K3 K4]]]]]]]]].
    specialize (H' svd). rewrite EX' in H'. cbn [bind] in H'.
    assert (DU : ok False (@vdiv_scalar F64 (map (@raw_knot F64 p m V W) (seq 0 (m + m + 3))) (@raw_knot F64 p m V W (m + m + 2))) (fun _ => True)) by (rewrite new_vdiv; exact Logic.I).
    destruct (core_moves gdiv_F64 div_nat_F64 Wa Wb ltac:(lia) pa pb DU svd _ H' (mtranspose_shape _ _ _ SX') eq_refl) as [c [U' [Q' [E' [EU' [LU [SC [Bc [I1 [I2 [I3 I4]]]]]]]]]]].
    rewrite new_vdiv in EU'. injection EU' as <-. set (U' := map (new_knot p m m V W) (seq 0 (m + m + 3))) in *.
    assert (FV := proj1 (proj2 (proj2 KA))). assert (CV := proj2 (proj2 (proj2 KA))). assert (FW := proj1 (proj2 (proj2 KB))). assert (CW := proj2 (proj2 (proj2 KB))).
    assert (KN : float_knots p (m + m + 1 - p) U').
    { apply (U_float p m m V W FV FW CV CW ltac:(lia)); intros x y Hx Hy Hl; [assert (T := GV x y Hx Hy Hl)|assert (T := GW x y Hx Hy Hl)]; lra. }
    assert (NJ : nearly_joined p m m (map val V) (map val W) (map val U')) by (apply (U_joined p m m V W FV FW CV CW); lia).
    assert (SC' : shape dim (S (m + m + 1 - p)) Q') by (replace (S (m + m + 1 - p)) with (m + m + 2 - p)%nat by lia; exact SC).
    assert (Wc : @wf F64 p (m + m + 1 - p) dim U' Q' c).
    { apply (sized_wf False gdiv_F64); [|exact Bc]. split; [lia|]. split; [etransitivity; [exact LU|lia]|exact SC']. }
    assert (ET : forall j d, (j < N0)%nat -> (d < dim)%nat -> ent (mtranspose X') j d = ent X' d j) by (intros j d Hj Hd; apply (@ent_mtranspose F64 _ _ X' _ _ SX'); assumption).
    assert (M0 : 0 < M) by (apply Rlt_le_trans with (/ 2 ^ 1000); [apply Rinv_0_lt_compat, pow_lt; lra|apply HM]).
    assert (BS := proj1 (proj2 (proj2 HA))). assert (BT := proj1 (proj2 (proj2 HB))).
    assert (XB : forall j d, (j < N0)%nat -> (d < dim)%nat -> Rabs (val (ent X' d j)) <= 2 * M).
    { intros j d Hj Hd. destruct (D j d Hj Hd) as [D1 [_ D3]]. replace (val (ent X' d j)) with (val (ent X' d j) - ent X d j + ent X d j) by ring. eapply Rle_trans; [apply Rabs_triang|]. lra. }
    assert (PQ : forall i d, (i <= m + m + 1 - p)%nat -> (d < dim)%nat -> finite (ent Q' i d) /\ Rabs (val (ent Q' i d)) <= 4 * M /\ Rabs (val (ent Q' i d) - ent Q i d) <= e + 3 * M * / 2 ^ 53).
    { intros i d Hi Hd. assert (Pe : 0 <= 3 * M * / 2 ^ 53) by (apply Rmult_le_pos; [lra|apply Rlt_le, Rinv_0_lt_compat, pow_lt; lra]).
      assert (He0 : 0 <= e) by (eapply Rle_trans; [apply Rabs_pos|apply (D 0%nat d); lia]).
      assert (SUM : forall (x y : f64) (x' y' : R), finite x -> finite y -> Rabs (val x) <= M -> Rabs (val y) <= 2 * M -> x' = val x -> Rabs (val y - y') <= e ->
        finite (@nadd F64 x y) /\ Rabs (val (@nadd F64 x y)) <= 4 * M /\ Rabs (val (@nadd F64 x y) - (x' + y')) <= e + 3 * M * / 2 ^ 53).
      { intros x y x' y' Fx Fy Bx By -> Ey. destruct (small_sum x y M Fx Fy Bx By (proj2 HM)) as [R1 [R2 R3]]. split; [exact R1|]. split; [exact R3|].
        replace (val (@nadd F64 x y) - (val x + y')) with (val (@nadd F64 x y) - (val x + val y) + (val y - y')) by ring. eapply Rle_trans; [apply Rabs_triang|]. lra. }
      destruct (index_cases paR pbR Hp HtR i DV Hi) as [C|[[C1 ->]|[->|[j [Hj ->]]]]].
      - rewrite I1, K1 by assumption. destruct (BS i d ltac:(lia) Hd) as [B1 B2]. split; [exact B1|]. split; [lra|]. rewrite (proj2 PS) by (try assumption; lia).
        replace (val (ent S_ i d) - val (ent S_ i d)) with 0 by ring. rewrite Rabs_R0. lra.
      - rewrite I2, K2 by assumption. rewrite ET by lia. destruct (BS (m + 1 - p)%nat d ltac:(lia) Hd) as [B1 B2]. destruct (D 0%nat d ltac:(lia) Hd) as [D1 [D2 D3]].
        apply SUM; try assumption; [apply XB; lia|apply PS; [lia|exact Hd]].
      - rewrite I3, K3 by assumption. rewrite ET by lia. destruct (BT (p - 1)%nat d ltac:(lia) Hd) as [B1 B2]. destruct (D (p + (p - 1))%nat d ltac:(lia) Hd) as [D1 [D2 D3]].
        apply SUM; try assumption; [apply XB; lia|apply PT; [lia|exact Hd]].
      - rewrite I4, K4 by assumption. destruct (BT j d ltac:(lia) Hd) as [B1 B2]. split; [exact B1|]. split; [lra|]. rewrite (proj2 PT) by (try assumption; lia).
        replace (val (ent T_ j d) - val (ent T_ j d)) with 0 by ring. rewrite Rabs_R0. lra. }
    exists c, cR. split; [rewrite (core_F64 KA KB svd pa pb Ht); exact E'|]. split; [exact E|]. intros u Fu Hu.
    exists (fun d => spline (kfun U) (m + m + 1 - p) p (fun i => ent Q i d) (val u)). split; [apply (cc_eval0 _ _ _ _ _ _ _ Hc Hu)|].
    assert (LU1 := cl_len _ _ _ (proj1 Hc)). assert (G0 : 0 < g) by (apply Rlt_le_trans with (2 := Hg); apply Rinv_0_lt_compat, pow_lt; lra).
    assert (NE : returns_within (@evaluate F64 c u) dim (fun d => spline (kfun U) (m + m + 1 - p) p (fun i => val (ent Q' i d)) (val u))
      ((6 * INR p + 3) * / 2 ^ 53 * (4 * M) + 6 * INR p * (4 * M) * / 2 ^ 52 / (g / 2))).
    { apply (near_eval p (m + m + 1 - p) dim U' Q' (4 * M) c U (/ 2 ^ 52) (g / 2) u Wc KN); try assumption.
      - intros i d Hi Hd. destruct (PQ i d Hi Hd) as [Q1 [Q2 _]]. split; assumption.
      - apply Hc.
      - lia.
      - apply (joined_mults p m m (map val V) (map val W) U CV CW J (proj1 Hc) ltac:(lia) MV MW).
      - intros i Hi. destruct NJ as [_ [_ [_ [J1 J2]]]]. rewrite Rabs_minus_sym. destruct (Nat.le_gt_cases i (m + 1)) as [C|C].
        + rewrite (joined_low p m m _ _ U J) by exact C. apply J1. exact C.
        + rewrite (joined_high p m m _ _ U CV J) by lia. replace i with (m + 1 - p + (i - (m + 1 - p)))%nat at 1 by lia. apply J2. lia.
      - intros i Hi Lt. rewrite !(U_nth p m m V W FV FW CV CW) in Lt by lia. destruct (Nat.le_gt_cases (S i) (m + 1)) as [C|C].
        + rewrite !(joined_low p m m _ _ U J) by lia. destruct (Rle_lt_or_eq_dec _ _ (cl_sorted _ _ _ CV i (S i) ltac:(lia) ltac:(rewrite (cl_len _ _ _ CV); lia))) as [L|L]; [lra|exfalso].
          unfold new_val in Lt. replace (i <? m + 2)%nat with true in Lt by (symmetry; apply Nat.ltb_lt; lia). replace (S i <? m + 2)%nat with true in Lt by (symmetry; apply Nat.ltb_lt; lia).
          rewrite !v_nth in L. rewrite L in Lt. lra.
        + rewrite !(joined_high p m m _ _ U CV J) by lia. destruct (Rle_lt_or_eq_dec _ _ (cl_sorted _ _ _ CW (i - (m + 1 - p)) (S i - (m + 1 - p)) ltac:(lia) ltac:(rewrite (cl_len _ _ _ CW); lia))) as [L|L]; [lra|exfalso].
          assert (X1 := new_right p m m V W CV CW (i - (m + 1 - p)) ltac:(lia)). assert (X2 := new_right p m m V W CV CW (S i - (m + 1 - p)) ltac:(lia)).
          replace (m + 1 - p + (i - (m + 1 - p)))%nat with i in X1 by lia. replace (m + 1 - p + (S i - (m + 1 - p)))%nat with (S i) in X2 by lia. rewrite X1, X2 in Lt. rewrite !w_nth in L. rewrite L in Lt. lra.
      - lra.
      - intros i Hi Lt. exact (joined_gaps p m m _ _ U CV CW J g i GV GW Hi Lt).
      - assert (2 ^ 1022 = 4 * 2 ^ 1020) by (change 1022%nat with (2 + 1020)%nat; rewrite pow_add; simpl (2 ^ 2); ring). lra. }
    assert (NE2 := within_more _ _ _ (fun d => spline (kfun U) (m + m + 1 - p) p (fun i => ent Q i d) (val u)) _ (e + 3 * M * / 2 ^ 53) NE).
    replace (e + (24 * INR p + 15 + 96 * INR p / g) * / 2 ^ 53 * M) with ((6 * INR p + 3) * / 2 ^ 53 * (4 * M) + 6 * INR p * (4 * M) * / 2 ^ 52 / (g / 2) + (e + 3 * M * / 2 ^ 53)).
    2: { assert (XX : / 2 ^ 52 = 2 * / 2 ^ 53) by (simpl; field). rewrite XX. generalize (/ 2 ^ 53). intros t. field. lra. }
    apply NE2. intros d Hd. apply (spline_diff p (m + m + 1 - p) (kfun U)); [apply kfun_clamped, Hc|exact Hu|]. intros i Hi. apply PQ; assumption.
  Qed.
End Float.
