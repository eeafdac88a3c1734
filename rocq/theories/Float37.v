(** * From the control points through long runs of edits in binary64 *)

From Coq Require Import ZArith Reals List Bool Arith Lia Lra Psatz.
From Flocq Require Import Core.Core IEEE754.BinarySingleNaN.
From Verif Require Import Num Vec MKnots MPoints MCurve MGenerate RNum F64 Hoare Lists Struct Divisions Spec Samples BMath BMath2 BMath3 BMath4 Api ApiF ApiF2 ApiF3 ApiC ApiQ Bridge Facts1 Facts3 Shape1 Shape2 Shape3 Stab Float1 Float4 Float5 Float6 Float7 Float8 Float9 Float11 Float12 Float14 Float15 Float16 Float17 Float21 Float32 Float34 Float35 Float10 Gen1 Gen2 Gen3 Gen4.
Import ListNotations.
Local Open Scope R_scope.

Lemma original_unit p g es : forall c c', careful p g c es -> edited c es = Val c' -> forall t, 0 <= t <= 1 -> 0 <= original es t <= 1.
Proof.
  induction es as [|e es IH]; intros c c' Ca E t Ht; [exact Ht|]. cbn [careful original] in *. unfold edited in E. cbn [foldM] in E. destruct Ca as [[V [_ [_ [_ F]]]] Ca].
  destruct (edit_once c e) as [c1| | |] eqn:E1; cbn [bind] in E; try discriminate E. specialize (IH c1 c' (Ca c1 eq_refl) E t Ht).
  destruct e as [u x| |u f|u f|k]; cbn [comes_from]; try lra.
  - destruct F as [_ [_ [F _]]]. nra.
  - destruct F as [_ [_ [F _]]]. nra.
Qed.

Lemma returns_det {E} (r : Num.M (result (list R) E)) dim f g : returns r dim f -> returns r dim g -> forall d, (d < dim)%nat -> f d = g d.
Proof. intros [v [A [_ B]]] [w [A' [_ B']]] d Hd. rewrite A in A'. injection A' as <-. rewrite <- B, <- B' by exact Hd. reflexivity. Qed.

(** the two generated curves side by side, the real one known at every real parameter *)
Lemma filled_data p n dim (P : Mat F64) (P' : Mat RNum) (M : R) (f : nat -> f64) (g : nat -> R) dl h :
  shape dim (S n) P -> (forall i d, (i <= n)%nat -> (d < dim)%nat -> finite (ent P i d) /\ Rabs (val (ent P i d)) <= M) ->
  same_points n dim P P' -> (1 <= p <= 100)%nat -> (p <= n)%nat ->
  0 <= dl -> 2 * dl + / 2 ^ 1000 <= h ->
  (forall i, (1 <= i <= n - p)%nat -> fin (f i) = true /\ Rabs (val (f i) - g i) <= dl) ->
  clamped p n (@fill_knots RNum p n g) -> spread h (@fill_knots RNum p n g) p (S n) ->
  exists c cR V cV, curve_new (@knots_of F64 p (@fill_knots F64 p n f)) (cp_new P) = Val (Ok c) /\
    curve_new (@knots_of RNum p (@fill_knots RNum p n g)) (cp_new P') = Val (Ok cR) /\
    float_curve p n dim V P M c /\ clamped_curve p n dim (map val V) P' cV /\
    forall x, 0 <= x <= 1 -> exists F G, returns (evaluate cR x) dim F /\ returns (evaluate cV x) dim G /\
      forall d, (d < dim)%nat -> Rabs (G d - F d) <= 6 * INR p * M * dl / h.
Proof.
  intros HS HB SP Hp Hpn Hd Hh HF C G. assert (P1000 : 0 < / 2 ^ 1000) by (apply Rinv_0_lt_compat, pow_lt; lra).
  destruct (filled_knots p n f g dl h Hpn Hd Hh HF C G) as [K D].
  assert (LF : length (@fill_knots F64 p n f : list f64) = (n + p + 2)%nat) by (exact (@fill_length F64 p n f)).
  assert (LR : length (@fill_knots RNum p n g : list R) = (n + p + 2)%nat) by apply fill_length_R.
  set (U := @fill_knots RNum p n g : list R) in *. set (V := @fill_knots F64 p n f : list f64) in *.
  assert (SZ : @sized F64 p n dim V P) by (split; [exact Hpn|split; [exact LF|exact HS]]).
  destruct (built_ex_gen F64 gdiv_F64 p n dim V P SZ) as [c BC]. assert (BC' := BC).
  destruct BC' as [kn [EK EC]]. assert (X := @knots_new_val F64 p V). rewrite X in EK by (change (T F64) with f64; lia). injection EK as <-.
  destruct (curve_new_clamped p n dim U P' (@knots_of RNum p U) C (proj1 SP)) as [cR [ER CR]].
  { apply (@knots_new_val RNum p U). rn. lia. }
  assert (CV := proj1 (proj2 K)). destruct (clamped_curve_ex p n dim (map val V) P' CV (proj1 SP)) as [cV HV].
  exists c, cR, V, cV. split; [exact EC|]. split; [exact ER|]. split; [split; [exact K|]; split; [exact HS|]; split; [exact HB|exact BC]|]. split; [exact HV|].
  intros x Hx. eexists. eexists. split; [apply (cc_eval0 p n dim U P' cR x CR Hx)|]. split; [apply (cc_eval0 p n dim _ P' cV x HV Hx)|].
  intros d Hdm. cbv beta. assert (LU := cl_len _ _ _ C). assert (LV := cl_len _ _ _ CV). assert (FU := kfun_clamped p n U C). assert (FV := kfun_clamped p n _ CV).
  rewrite Rabs_minus_sym. apply (near_spline p n (kfun U) (kfun (map val V)) (fun i => ent P' i d) x dl h 0 M FU FV ltac:(lia) (spread_mult p n U h C (proj1 Hp) ltac:(lra) G) (kdist p n U _ dl C CV D)); try lra.
  - intros i Hi L. destruct (le_lt_dec p i) as [I|I].
    + rewrite !kfun_nth in * by lia. assert (Z := G i ltac:(lia)). lra.
    + rewrite !(fc_zero _ _ _ FV) in L by lia. lra.
  - intros i L. destruct (le_lt_dec p i) as [I|I].
    + destruct (le_lt_dec i n) as [I2|I2].
      * rewrite !kfun_nth in * by lia. apply G. lia.
      * rewrite !(fc_one _ _ _ FU) in L by lia. lra.
    + rewrite !(fc_zero _ _ _ FU) in L by lia. lra.
  - intros i Hi. rewrite Rminus_0_r, (proj2 SP) by (try exact Hdm; lia). apply HB; [lia|exact Hdm].
Qed.

Lemma filled_edits p n dim (P : Mat F64) (P' : Mat RNum) (M : R) (f : nat -> f64) (g : nat -> R) dl h :
  shape dim (S n) P -> (forall i d, (i <= n)%nat -> (d < dim)%nat -> finite (ent P i d) /\ Rabs (val (ent P i d)) <= M) ->
  same_points n dim P P' -> (1 <= p <= 100)%nat -> (p <= n)%nat -> / 2 ^ 1000 <= M <= 2 ^ 1018 ->
  0 <= dl -> 2 * dl + / 2 ^ 1000 <= h ->
  (forall i, (1 <= i <= n - p)%nat -> fin (f i) = true /\ Rabs (val (f i) - g i) <= dl) ->
  clamped p n (@fill_knots RNum p n g) -> spread h (@fill_knots RNum p n g) p (S n) ->
  exists c cR, curve_new (@knots_of F64 p (@fill_knots F64 p n f)) (cp_new P) = Val (Ok c) /\
    curve_new (@knots_of RNum p (@fill_knots RNum p n g)) (cp_new P') = Val (Ok cR) /\
    forall s es, / 2 ^ 49 <= s -> careful p s c es -> INR (length es) <= 2 ^ 20 ->
    exists c', edited c es = Val c' /\
      forall t, finite t -> 0 <= val t <= 1 -> exists F, returns (evaluate cR (original es (val t))) dim F /\
        returns_within (@evaluate F64 c' t) dim F ((6 * INR p + 4 + INR (length es) * (12 * INR p + 28 * INR p / s)) * / 2 ^ 53 * M + 6 * INR p * M * dl / h).
Proof.
  intros HS HB SP Hp Hpn HM Hd Hh HF C G. destruct (filled_data p n dim P P' M f g dl h HS HB SP Hp Hpn Hd Hh HF C G) as [c [cR [V [cV [E1 [E2 [FC [HV N]]]]]]]].
  exists c, cR. split; [exact E1|]. split; [exact E2|]. intros s es Hs Ca HN.
  destruct (edits_accurate p n dim V P M c P' cV s es FC SP HV Hp HM Hs Ca HN) as [c' [Ec A]]. exists c'. split; [exact Ec|].
  intros t Ft Ht. destruct (A t Ft Ht) as [fv [RV W]]. assert (O := original_unit p s es c c' Ca Ec (val t) Ht).
  destruct (N _ O) as [F [Gv [RF [RG D]]]]. exists F. split; [exact RF|].
  eapply within_more; [exact W|]. intros d Hdm. rewrite (returns_det _ _ _ _ RV RG d Hdm). apply D. exact Hdm.
Qed.

Theorem uniform_edits (svd : Mat F64 -> Mat F64 -> Num.M (Mat F64)) (svdR : Mat RNum -> Mat RNum -> Num.M (Mat RNum)) p n dim (P : Mat F64) (P' : Mat RNum) (M : R) :
  shape dim (S n) P -> (forall i d, (i <= n)%nat -> (d < dim)%nat -> finite (ent P i d) /\ Rabs (val (ent P i d)) <= M) ->
  same_points n dim P P' -> (1 <= p <= 100)%nat -> (p <= n)%nat -> (Z.of_nat (n - p) < 2 ^ 51)%Z -> / 2 ^ 1000 <= M <= 2 ^ 1018 ->
  exists c cR, generate svd (Manual p (cp_new P) GUniform) = Val (Ok c) /\ generate svdR (Manual p (cp_new P') GUniform) = Val (Ok cR) /\
    forall g es, / 2 ^ 49 <= g -> careful p g c es -> INR (length es) <= 2 ^ 20 ->
    exists c', edited c es = Val c' /\
      forall t, finite t -> 0 <= val t <= 1 -> exists f, returns (evaluate cR (original es (val t))) dim f /\
        returns_within (@evaluate F64 c' t) dim f ((6 * INR p + 4 + 6 * INR p * INR (n - p + 1) + INR (length es) * (12 * INR p + 28 * INR p / g)) * / 2 ^ 53 * M).
Proof.
  intros HS HB SP Hp Hpn Hb HM. assert (Pm := INR_pos (n - p + 1) ltac:(lia)). assert (Hb' : (Z.of_nat (n - p + 1) <= 2 ^ 51)%Z) by lia.
  assert (E53 := eps_pow). assert (I51 := INR_2p51 (n - p + 1) Hb').
  destruct (filled_edits p n dim P P' M (fun i => quo i (n - p + 1)) (fun i => INR i / INR (n - p + 1)) (/ 2 ^ 53) (/ INR (n - p + 1)) HS HB SP Hp Hpn HM) as [c [cR [E1 [E2 E3]]]].
  - left. apply Rinv_0_lt_compat, pow_lt. lra.
  - rewrite E53. assert (Ep := eps_pos). assert (X := pow_54_1000). assert (Y := pow_53_54). rewrite E53 in Y.
    apply (Rmult_le_reg_r (INR (n - p + 1))); [exact Pm|]. rewrite Rinv_l by lra.
    apply Rle_trans with (4 * eps * INR (n - p + 1)); [|lra]. apply Rmult_le_compat_r; lra.
  - intros i Hi. destruct (quo_ok i (n - p + 1) ltac:(lia) ltac:(lia) Hb') as [A [B _]]. rewrite E53. split; assumption.
  - apply unif_clamped. exact Hpn.
  - apply unif_spread. exact Hpn.
  - exists c, cR. rewrite (manual_step svd dim n p P _ HS Hpn), (manual_step svdR dim n p P' _ (proj1 SP) Hpn).
    rewrite uniform_F64_eq, uniform_R by lia. cbn [bind]. split; [exact E1|]. split; [exact E2|].
    intros g es Hg Ca HN. destruct (E3 g es Hg Ca HN) as [c' [Ec A]]. exists c'. split; [exact Ec|]. intros t Ft Ht. destruct (A t Ft Ht) as [F [RF W]]. exists F. split; [exact RF|].
    replace ((6 * INR p + 4 + 6 * INR p * INR (n - p + 1) + INR (length es) * (12 * INR p + 28 * INR p / g)) * / 2 ^ 53 * M)
      with ((6 * INR p + 4 + INR (length es) * (12 * INR p + 28 * INR p / g)) * / 2 ^ 53 * M + 6 * INR p * M * / 2 ^ 53 / / INR (n - p + 1)); [exact W|].
    assert (P49 : 0 < / 2 ^ 49) by (apply Rinv_0_lt_compat, pow_lt; lra).
    unfold Rdiv at 2. rewrite Rinv_inv. ring.
Qed.

Theorem method_edits (svd : Mat F64 -> Mat F64 -> Num.M (Mat F64)) (svdR : Mat RNum -> Mat RNum -> Num.M (Mat RNum)) pm km p n dim (P : Mat F64) (P' : Mat RNum) (M : R) h w kn U :
  tame n dim P -> same_points n dim P P' -> moving n dim P -> (1 <= p <= 100)%nat -> (p <= n)%nat -> (Z.of_nat n <= 2 ^ 20)%Z -> (Z.of_nat dim <= 2 ^ 20)%Z ->
  (forall i d, (i <= n)%nat -> (d < dim)%nat -> Rabs (val (ent P i d)) <= M) -> / 2 ^ 1000 <= M <= 2 ^ 1018 ->
  @params_generate RNum P' pm = Val (mkParams w n) -> @knots_generate RNum p n (mkParams w n) km = Val (Ok kn) -> @vector RNum kn = Val U ->
  spread h w 0 n -> spread h U p (S n) -> 3 * INR (2 * n + dim + 12) / 2 ^ 52 <= h ->
  exists c cR, generate svd (Manual p (cp_new P) (GMethod pm km)) = Val (Ok c) /\ generate svdR (Manual p (cp_new P') (GMethod pm km)) = Val (Ok cR) /\
    forall g es, / 2 ^ 49 <= g -> careful p g c es -> INR (length es) <= 2 ^ 20 ->
    exists c', edited c es = Val c' /\
      forall t, finite t -> 0 <= val t <= 1 -> exists f, returns (evaluate cR (original es (val t))) dim f /\
        returns_within (@evaluate F64 c' t) dim f ((6 * INR p + 4 + 12 * INR p * INR (2 * n + dim + 12) / h + INR (length es) * (12 * INR p + 28 * INR p / g)) * / 2 ^ 53 * M).
Proof.
  intros Ht SP Mv Hp Hpn Hn Hdim HMb HM EW EK EU GW GU Hh. assert (HS := proj1 Ht).
  assert (HB : forall i d, (i <= n)%nat -> (d < dim)%nat -> finite (ent P i d) /\ Rabs (val (ent P i d)) <= M).
  { intros i d Hi Hd. split; [apply (proj1 (proj2 Ht)); assumption|apply HMb; assumption]. }
  assert (P52 : 0 < / 2 ^ 52) by (apply Rinv_0_lt_compat, pow_lt; lra).
  destruct (method_knots pm km p n dim P P' h w kn U Ht SP Mv Hp Hpn Hn Hdim EW EK EU GW GU Hh) as [v [f [g [EV [KF [KR [C HF]]]]]]].
  set (N := INR (2 * n + dim + 12)) in *.
  assert (N1 : 1 <= N) by (apply (le_INR 1); lia).
  assert (N2 : / 2 ^ 52 <= N / 2 ^ 52) by (rewrite <- (Rmult_1_l (/ 2 ^ 52)) at 1; apply Rmult_le_compat_r; lra).
  assert (Hh3 : 3 * (N / 2 ^ 52) <= h) by (replace (3 * (N / 2 ^ 52)) with (3 * N / 2 ^ 52) by (unfold Rdiv; ring); exact Hh).
  subst kn. rewrite (@knots_of_vector RNum p (@fill_knots RNum p n g)) in EU. injection EU as <-.
  assert (E52 := pow_52_54). assert (E54 := pow_54_1000).
  destruct (filled_edits p n dim P P' M f g (N / 2 ^ 52) h HS HB SP Hp Hpn HM ltac:(lra) ltac:(lra) HF C GU) as [c [cR [E1 [E2 E3]]]].
  exists c, cR. rewrite (manual_step svd dim n p P _ HS Hpn), (manual_step svdR dim n p P' _ (proj1 SP) Hpn).
  rewrite EV, EW. cbn [bind]. rewrite KF, EK. cbn [bind]. split; [exact E1|]. split; [exact E2|].
  intros s es Hg Ca HN. destruct (E3 s es Hg Ca HN) as [c' [Ec A]]. exists c'. split; [exact Ec|]. intros t Ft Htt. destruct (A t Ft Htt) as [F [RF W]]. exists F. split; [exact RF|].
  replace ((6 * INR p + 4 + 12 * INR p * N / h + INR (length es) * (12 * INR p + 28 * INR p / s)) * / 2 ^ 53 * M)
    with ((6 * INR p + 4 + INR (length es) * (12 * INR p + 28 * INR p / s)) * / 2 ^ 53 * M + 6 * INR p * M * (N / 2 ^ 52) / h); [exact W|].
  unfold Rdiv. rewrite E52, pow_53_54. generalize (/ 2 ^ 54). intros e54. ring.
Qed.
