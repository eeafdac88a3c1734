(** * Accuracy of derivatives in binary64 when the knots are rounded too; reversal *)

From Coq Require Import ZArith Reals List Bool Arith Lia Lra Psatz.
From Flocq Require Import Core.Core IEEE754.BinarySingleNaN.
From Verif Require Import Num Vec MKnots MPoints MCurve MGenerate RNum F64 Hoare Lists Struct Divisions Spec BMath BMath2 BMath3 BMath4 SW Api ApiF ApiF2 Bridge Facts1 Facts3 Shape1 Shape2 Shape3 Stab Float1 Float4 Float5 Float6 Float7 Float9 Float10 Float15 Float16 Stab2 Gen4.
Import ListNotations.
Local Open Scope R_scope.

(** consecutive different knots at least [h] apart: all different knots are *)
Lemma kfun_gaps p n (U : list R) h : clamped p n U ->
  (forall i, (p <= i <= n)%nat -> nth i U 0 < nth (S i) U 0 -> h <= nth (S i) U 0 - nth i U 0) ->
  forall i, kfun U i < kfun U (S i) -> h <= kfun U (S i) - kfun U i.
Proof.
  intros C G i L. assert (F := kfun_clamped p n U C). assert (Len := cl_len _ _ _ C).
  destruct (le_lt_dec p i) as [I|I]; [destruct (le_lt_dec i n) as [I2|I2]|].
  - rewrite !kfun_nth in * by lia. apply G; [lia|exact L].
  - rewrite !(fc_one _ _ _ F) in L by lia. lra.
  - rewrite !(fc_zero _ _ _ F) in L by lia. lra.
Qed.

Lemma gaps_spaced p n (U : list R) h : clamped p n U -> (forall i, kfun U i < kfun U (S i) -> h <= kfun U (S i) - kfun U i) -> spaced U h.
Proof.
  intros C G i j Hj L. assert (F := kfun_clamped p n U C). assert (MU := fc_mono _ _ _ F). assert (Len := cl_len _ _ _ C).
  assert (X : exists i', (i' < length U)%nat /\ nth i U 0 = nth i' U 0).
  { destruct (le_lt_dec (length U) i) as [I|I]; [|exists i; split; [exact I|reflexivity]].
    exists 0%nat. split; [lia|]. rewrite (nth_overflow U 0 I). symmetry. apply (cl_zero _ _ _ C). lia. }
  destruct X as [i' [I E]]. rewrite E in *. rewrite <- (kfun_nth U i' I), <- (kfun_nth U j Hj) in *.
  assert (i' < j)%nat.
  { destruct (le_lt_dec j i') as [Q|Q]; [|exact Q]. specialize (MU j i' Q). lra. }
  assert (T := stretch (kfun U) h MU G (j - i') i'). replace (i' + (j - i'))%nat with j in T by lia. apply T. exact L.
Qed.

Lemma level_F64 p n (U : list f64) M k h : float_knots p n U -> (p <= 100)%nat -> (k <= p)%nat ->
  / 2 ^ 1000 <= M -> / 2 ^ 1000 <= h -> spaced (map val U) h -> M * (2 * INR p / h) ^ k <= 2 ^ 1020 ->
  pow2 (-1000) <= M * (2 * INR p / h) ^ k <= pow2 1020.
Proof.
  intros FK Hp Hk HM Hh Hs HB.
  assert (E2 : 2 ^ 1020 = pow2 1020) by (rewrite (bpow_powerRZ radix2 1020); reflexivity).
  rewrite pow2_1000 in HM, Hh. rewrite E2 in HB.
  exact (level p n U M h k FK Hp Hh Hs HM Hk HB k ltac:(lia)).
Qed.

(** the cached points of a curve against the exact ones *)
Lemma points_F64 p n dim (U : list f64) P M c k h : float_curve p n dim U P M c -> (p <= 100)%nat -> (k <= p)%nat ->
  / 2 ^ 1000 <= M -> / 2 ^ 1000 <= h -> spaced (map val U) h -> M * (2 * INR p / h) ^ k <= 2 ^ 1020 ->
  forall i d, (i <= n - k)%nat -> (d < dim)%nat ->
  let x := ent (nth k (Pk (cpoints c)) (mzeros 0 0)) i d in
  let D := dpoints (kfun (map val U)) p (fun i => val (ent P i d)) k i in
  let B := M * (2 * INR p / h) ^ k in
  finite x /\ Rabs (val x - D) <= 5 * INR k * eps * B /\ Rabs D <= B.
Proof.
  intros H Hp Hk HM Hh Hs HB i d Hi Hd x D B. assert (W := float_wf _ _ _ _ _ _ _ H). destruct H as [FK [SP [HP Bu]]].
  assert (C := proj1 (proj2 FK)). assert (PN := cl_deg _ _ _ C).
  assert (E2 : 2 ^ 1020 = pow2 1020) by (rewrite (bpow_powerRZ radix2 1020); reflexivity).
  rewrite pow2_1000 in HM, Hh. rewrite E2 in HB.
  assert (Q := built_each False p U n dim P c (close_point p U P M h k) (wf_deg _ _ _ _ _ _ W) (wf_len _ _ _ _ _ _ W) SP Bu
    ltac:(intros k' i' r km Hk' Hi'; apply (derive_F64 p n); assumption) k i d Hk ltac:(lia) Hd ltac:(lia)).
  destruct Q as [Q1 [Q2 Q3]]. split; [exact Q1|]. split; [exact Q2|exact Q3].
Qed.

(** evaluation of the [k]-th derivative over rounded knots [V], against points [De] over exact knots [U] *)
Lemma near_evalk p n dim (V : list f64) P c (U : list R) k B (De : nat -> nat -> R) dl h (u : f64) : @wf F64 p n dim V P c -> float_knots p n V ->
  (k < p)%nat -> (p <= 100)%nat -> clamped p n U -> (forall x, 0 < x < 1 -> mult_le (kfun U) x (p - k)) ->
  (forall i, (i < length U)%nat -> Rabs (nth i U 0 - nth i (map val V) 0) <= dl) ->
  (forall i, (p <= i <= n)%nat -> nth i (map val V) 0 < nth (S i) (map val V) 0 -> nth i U 0 < nth (S i) U 0) ->
  0 < h -> (forall i, (p <= i <= n)%nat -> nth i U 0 < nth (S i) U 0 -> h <= nth (S i) U 0 - nth i U 0) ->
  (forall i d, (i <= n - k)%nat -> (d < dim)%nat ->
    finite (ent (nth k (Pk (cpoints c)) (mzeros 0 0)) i d) /\
    Rabs (val (ent (nth k (Pk (cpoints c)) (mzeros 0 0)) i d) - De i d) <= 5 * INR k * eps * B /\ Rabs (De i d) <= B) ->
  pow2 (-1000) <= B <= pow2 1020 -> finite u -> 0 <= val u <= 1 ->
  returns_within (@evaluate_derivative F64 c u k) dim (fun d => spline (shift k (kfun U)) (n - k) (p - k) (fun i => De i d) (val u))
    ((6 * INR p + 4) * / 2 ^ 53 * B + 6 * INR p * B * dl / h).
Proof.
  intros W K Hk Hp CU HM D O H0 G Q LV Fu Hu. assert (CV := proj1 (proj2 K)). assert (PN := cl_deg _ _ _ CU).
  assert (Ep := eps_pos). assert (Ev := eps_val). rewrite eps_pow.
  assert (B0 : 0 < B) by (apply Rlt_le_trans with (2 := proj1 LV); apply bpow_gt_0).
  set (Pt := fun i d => ent (nth k (Pk (cpoints c)) (mzeros 0 0)) i d) in *.
  assert (Ik : 0 <= INR k <= 100) by (split; [apply pos_INR|replace 100 with (INR 100) by (rewrite INR_IZR_INZ; reflexivity); apply le_INR; lia]).
  assert (Ip : INR k <= INR p) by (apply le_INR; lia).
  assert (Ip' : INR p <= 100) by (replace 100 with (INR 100) by (rewrite INR_IZR_INZ; reflexivity); apply le_INR; exact Hp).
  assert (T := evalk_F64 p n dim V P c k u ((1 + 500 * eps) * B) W K ltac:(lia) ltac:(lia)).
  destruct T as [w [Ew [Lw Hw]]]; try assumption.
  { intros i d Hi Hd. destruct (Q i d Hi Hd) as [Q1 [Q2 Q3]]. split; [exact Q1|]. fold (Pt i d) in Q2 |- *.
    replace (val (Pt i d)) with (De i d + (val (Pt i d) - De i d)) by ring. apply Rle_trans with (1 := Rabs_triang _ _).
    assert (5 * INR k * eps * B <= 500 * eps * B) by (apply Rmult_le_compat_r; [lra|apply Rmult_le_compat_r; lra]). lra. }
  { split.
    - apply Rle_trans with (1 := proj1 LV). rewrite <- (Rmult_1_l B) at 1. apply Rmult_le_compat_r; lra.
    - change (pow2 1022) with (pow2 (2 + 1020)). rewrite bpow_plus. change (pow2 2) with 4. apply Rmult_le_compat; rewrite ?Ev; lra. }
  exists w. split; [exact Ew|]. split; [exact Lw|]. intros d Hd. destruct (Hw d Hd) as [W1 W2]. split; [exact W1|].
  assert (FU := fclamped_shift p n _ k (kfun_clamped _ _ _ CU) ltac:(lia)). assert (FV := fclamped_shift p n _ k (kfun_clamped _ _ _ CV) ltac:(lia)).
  assert (X := spline_diff (p - k) (n - k) _ (fun i => val (Pt i d)) (fun i => De i d) (val u) (5 * INR k * eps * B) FV Hu ltac:(intros i Hi; apply (Q i d Hi Hd))).
  assert (Y : Rabs (spline (shift k (kfun U)) (n - k) (p - k) (fun i => De i d) (val u) - spline (shift k (kfun (map val V))) (n - k) (p - k) (fun i => De i d) (val u)) <= 6 * INR (p - k) * B * dl / h).
  { assert (LU := cl_len _ _ _ CU). assert (LV' := cl_len _ _ _ CV). assert (KV := kfun_clamped _ _ _ CV).
    apply (near_spline (p - k) (n - k) (shift k (kfun U)) (shift k (kfun (map val V))) (fun i => De i d) (val u) dl h 0 B FU FV ltac:(lia)); try assumption.
    - intros x Hx. apply mult_le_shift, HM, Hx.
    - intros i. apply (kdist p n U _ dl CU CV D).
    - intros i Hi L. unfold shift in *. cbn [Nat.add] in *. destruct (le_lt_dec p (i + k)) as [I|I].
      + rewrite !kfun_nth in * by lia. apply O; [lia|exact L].
      + rewrite !(fc_zero _ _ _ KV) in L by lia. lra.
    - intros i. apply (kfun_gaps p n U h CU G).
    - intros i Hi. rewrite Rminus_0_r. apply Q; assumption. }
  rewrite Rabs_minus_sym in Y.
  change (Rabs (val (nth d w n0) - spline (shift k (kfun (map val V))) (n - k) (p - k) (fun i => val (Pt i d)) (val u)) <= (6 * INR (p - k) + 3) * eps * ((1 + 500 * eps) * B)) in W2.
  match goal with |- Rabs (?a - ?b) <= _ => match type of X with Rabs (?e - ?f) <= _ => replace (a - b) with ((a - e) + (e - f) + (f - b)) by ring end end.
  eapply Rle_trans; [apply Rabs_triang|]. eapply Rle_trans; [apply Rplus_le_compat_r, Rabs_triang|].
  rewrite minus_INR in * by lia.
  assert (DL : 0 <= dl).
  { assert (LU := cl_len _ _ _ CU). eapply Rle_trans; [apply Rabs_pos|apply (D 0%nat); lia]. }
  assert (EB : 0 < eps * B) by (apply Rmult_lt_0_compat; assumption).
  assert (X3 : (6 * (INR p - INR k) + 3) * eps * ((1 + 500 * eps) * B) <= (6 * (INR p - INR k) + 4) * (eps * B)).
  { replace ((6 * (INR p - INR k) + 3) * eps * ((1 + 500 * eps) * B)) with (((6 * (INR p - INR k) + 3) * (1 + 500 * eps)) * (eps * B)) by ring.
    apply Rmult_le_compat_r; [lra|]. rewrite Ev. nra. }
  assert (0 <= INR k * (eps * B)) by (apply Rmult_le_pos; lra).
  assert (Z : 6 * (INR p - INR k) * B * dl / h <= 6 * INR p * B * dl / h).
  { unfold Rdiv. apply Rmult_le_compat_r; [left; apply Rinv_0_lt_compat; exact H0|]. apply Rmult_le_compat_r; [exact DL|]. apply Rmult_le_compat_r; lra. }
  lra.
Qed.

(** ** Reversal *)
Lemma nth_map2 {A B} (f : A -> B) l i d (a : A) (b : B) : (i < length l)%nat -> (d < length (nth i l []))%nat ->
  nth d (nth i (map (map f) l) []) b = f (nth d (nth i l []) a).
Proof.
  intros Hi Hd. change (@nil B) with (map f []). rewrite (map_nth (map f)). rewrite (nth_indep _ b (f a)) by (rewrite map_length; exact Hd). apply map_nth.
Qed.

Lemma ent_mrevk_F64 dim n k (Q : Mat F64) i d : shape dim (S n) Q -> (i <= n)%nat -> (d < dim)%nat ->
  finite (ent Q (n - i) d) -> finite (ent (mrevk k Q) i d) /\ val (ent (mrevk k Q) i d) = (-1) ^ k * val (ent Q (n - i) d).
Proof.
  intros SQ Hi Hd F. rewrite pow_m1. unfold mrevk.
  assert (E : ent (mrev Q) i d = ent Q (n - i) d) by (rewrite (ent_mrev dim (S n) Q i d SQ) by lia; f_equal; lia).
  destruct (k mod 2 =? 1)%nat.
  - rewrite mscale_opp. assert (SR := mrev_shape dim (S n) Q SQ).
    assert (X : ent (@mkMat F64 (nrows (mrev Q)) (map (map Bopp) (mcols (mrev Q)))) i d = Bopp (ent (mrev Q) i d)).
    { unfold ent. cbn [mcols]. apply (nth_map2 (Bopp : f64 -> f64) (mcols (mrev Q)) i d (@n0 F64) (@n0 F64)).
      - apply Nat.lt_le_trans with (S n); [lia|apply Nat.eq_le_incl; symmetry; exact (proj1 (proj2 SR))].
      - apply Nat.lt_le_trans with dim; [exact Hd|apply Nat.eq_le_incl; symmetry; exact (proj2 (proj2 SR) i ltac:(lia))]. }
    rewrite X, E. rewrite is_finite_Bopp, B2R_Bopp. split; [exact F|ring].
  - rewrite E. split; [exact F|ring].
Qed.

Theorem reverse_derivatives p n dim (U : list f64) P M c P' cR h k : float_curve p n dim U P M c -> same_points n dim P P' ->
  clamped_curve p n dim (map val U) P' cR -> (k < p)%nat -> (p <= 100)%nat -> / 2 ^ 1000 <= M ->
  (forall x, 0 < x < 1 -> (mult (map val U) x <= p - k)%nat) -> / 2 ^ 52 <= h ->
  (forall i, (p <= i <= n)%nat -> nth i (map val U) 0 < nth (S i) (map val U) 0 -> h <= nth (S i) (map val U) 0 - nth i (map val U) 0) ->
  M * (2 * INR p / h) ^ k <= 2 ^ 1020 ->
  exists c', @reverse F64 c = Val c' /\
    forall u, finite u -> 0 <= val u <= 1 ->
    exists f, returns (evaluate_derivative cR (1 - val u) k) dim f /\
      returns_within (@evaluate_derivative F64 c' u k) dim (fun d => (-1) ^ k * f d) ((6 * INR p + 4 + 3 * INR p / h) * / 2 ^ 53 * (M * (2 * INR p / h) ^ k)).
Proof.
  intros H [Sh Ep] HR Hk Hp HM MU Hh G HB. assert (K := proj1 H). assert (C := proj1 (proj2 K)). assert (W := float_wf p n dim U P M c H).
  destruct (frev_knots p n U h K Hh G) as [K1 [D1 O1]].
  destruct (reverse_struct p n dim U P c W) as [c' [E [W1 KP]]]. exists c'. split; [exact E|]. intros u Fu Hu.
  assert (P52 : 0 < / 2 ^ 52) by (apply Rinv_0_lt_compat, pow_lt; lra).
  assert (E1000 := pow_54_1000). assert (E52 := pow_52_54). assert (P54 : 0 < / 2 ^ 54) by (apply Rinv_0_lt_compat, pow_lt; lra).
  assert (PN := cl_deg _ _ _ C).
  assert (SPC := gaps_spaced p n _ h C (kfun_gaps p n _ h C G)).
  assert (PT := points_F64 p n dim U P M c k h H Hp ltac:(lia) HM ltac:(lra) SPC HB). cbv zeta in PT.
  set (B := M * (2 * INR p / h) ^ k) in *.
  exists (fun d => dspline (kfun (map val U)) n p (fun i => ent P' i d) k (1 - val u)). split; [apply (cc_eval p n dim _ P' cR (1 - val u) k HR ltac:(lra) ltac:(lia))|].
  assert (LV := level_F64 p n U M k h K Hp ltac:(lia) HM ltac:(lra) SPC HB). fold B in LV.
  set (De := fun i d => (-1) ^ k * dpoints (kfun (map val U)) p (fun i => val (ent P i d)) k (n - k - i)).
  assert (A1 : forall x : R, Rabs ((-1) ^ k * x) = Rabs x).
  { intros x. rewrite pow_m1. destruct (k mod 2 =? 1)%nat; [|f_equal; ring]. rewrite <- (Rabs_Ropp x). f_equal. ring. }
  assert (LU := cl_len _ _ _ C). assert (LU' := LU). rewrite map_length in LU'. change (binary_float 53 1024) with f64 in *.
  assert (HS : shape dim (S n) P) by apply H.
  assert (T := near_evalk p n dim (map frev (rev U)) (mrev P) c' (vrev (map val U)) k B De (/ 2 ^ 54) h u W1 K1 Hk Hp (reverse_clamped _ _ _ C)).
  replace ((6 * INR p + 4 + 3 * INR p / h) * / 2 ^ 53 * B) with ((6 * INR p + 4) * / 2 ^ 53 * B + 6 * INR p * B * / 2 ^ 54 / h) by (rewrite pow_53_54; generalize (/ 2 ^ 54); intros e54; field; lra).
  assert (T' : returns_within (@evaluate_derivative F64 c' u k) dim (fun d => spline (shift k (kfun (vrev (map val U)))) (n - k) (p - k) (fun i => De i d) (val u)) ((6 * INR p + 4) * / 2 ^ 53 * B + 6 * INR p * B * / 2 ^ 54 / h)).
  { apply T; try assumption; try lra.
    - intros x Hx. apply (mult_mult_le p n); [apply reverse_clamped; exact C|exact Hx|]. rewrite mult_vrev. apply MU. lra.
    - intros i Hi. apply D1. rewrite vrev_length, map_length in Hi. exact Hi.
    - intros i Hi Lt. rewrite !nth_vrev in * by (unfold f64 in *; lia).
      assert (LM : length (map val U) = (n + p + 2)%nat) by (unfold f64 in *; lia). rewrite ?LU, ?LM in Lt |- *.
      replace (n + p + 2 - 1 - i)%nat with (S (n + p + 2 - 1 - S i)) in * by lia.
      assert (A : (p <= n + p + 2 - 1 - S i <= n)%nat) by lia. revert A Lt. generalize (n + p + 2 - 1 - S i)%nat. intros a A Lt.
      assert (X : nth a (map val U) 0 < nth (S a) (map val U) 0) by (unfold f64 in *; lra). assert (Y := G a A X). unfold f64 in *. lra.
    - intros i d Hi Hd. rewrite KP by lia. assert (SK := wf_pts _ _ _ _ _ _ W k ltac:(lia)).
      replace (S n - k)%nat with (S (n - k)) in SK by lia.
      destruct (PT (n - k - i)%nat d ltac:(lia) Hd) as [Q1 [Q2 Q3]].
      destruct (ent_mrevk_F64 dim (n - k) k _ i d SK Hi Hd Q1) as [R1 R2]. split; [exact R1|]. rewrite R2. unfold De.
      rewrite <- Rmult_minus_distr_l, !A1. split; assumption. }
  destruct T' as [w [T1 [T2 T3]]]. exists w. split; [exact T1|]. split; [exact T2|]. intros d Hd. destruct (T3 d Hd) as [T4 T5]. split; [exact T4|].
  enough (EQ : spline (shift k (kfun (vrev (map val U)))) (n - k) (p - k) (fun i => De i d) (val u) = (-1) ^ k * dspline (kfun (map val U)) n p (fun i => ent P' i d) k (1 - val u)).
  { rewrite EQ in T5. exact T5. }
  rewrite <- (dspline_reverse p n (kfun (map val U)) (kfun (vrev (map val U))) (fun i => ent P' i d) (fun i => val (ent P (n - i) d)) k (val u)).
  - rewrite dspline_spline. unfold spline. apply rsum_ext. intros i Hi. f_equal. unfold De.
    symmetry. apply (dpoints_rev (kfun (map val U)) (kfun (vrev (map val U))) p n (fun i => val (ent P i d))); try lia.
    + intros a Ha. rewrite !kfun_nth by (rewrite ?vrev_length; unfold f64 in *; lia). rewrite nth_vrev by (unfold f64 in *; lia). do 2 f_equal. unfold f64 in *. lia.
    + intros a Ha. reflexivity.
  - apply kfun_clamped. exact C.
  - apply kfun_clamped, reverse_clamped. exact C.
  - intros a Ha. rewrite !kfun_nth by (rewrite ?vrev_length; unfold f64 in *; lia). rewrite nth_vrev by (unfold f64 in *; lia). do 2 f_equal. unfold f64 in *. lia.
  - intros a Ha. symmetry. apply Ep; [lia|exact Hd].
  - lia.
  - exact Hu.
  - intros Hu2. apply (mult_mult_le p n); [exact C|lra|apply MU; lra].
Qed.
