(** * Unique solvability of interpolation and of both fits *)

From Coq Require Import ZArith Reals List Bool Arith Lia Lra.
From Verif Require Import Num Vec MKnots MPoints MCurve MFit MGenerate RNum Hoare Lists Struct Spec BMath BMath2 BMath3 Api Bridge Facts1 Gen1 Gen2 Gen3 Gen4 LinAlg SW Fit1 Fit2 Fit3 Fit4 Fit5.
Import ListNotations.
Local Open Scope R_scope.

(** ** data at [0, 1/m, ..., 1] determine a spline with [n <= m] uniform segments *)

Lemma uniform_values p n U : clamped p n U -> (forall i, (p < i <= n)%nat -> nth i U 0 = INR (i - p) / INR (n - p + 1)) -> uniform_knots p n U.
Proof.
  intros C H i Hi. assert (P := INR_pos (n - p + 1) ltac:(lia)).
  destruct (Nat.eq_dec i p) as [->|]; [rewrite (cl_zero _ _ _ C) by lia; rewrite Nat.sub_diag; cbn [INR]; unfold Rdiv; ring|].
  destruct (Nat.eq_dec i (n + 1)) as [->|]; [|apply H; lia].
  rewrite (cl_one _ _ _ C) by (try rewrite (cl_len _ _ _ C); lia). replace (n + 1 - p)%nat with (n - p + 1)%nat by (assert (T := cl_deg _ _ _ C); lia). field. lra.
Qed.

Lemma low_arith m n p i t : (1 <= p)%nat -> (p < i < n)%nat -> (n <= m)%nat -> (i * m < n * t + n)%nat -> ((i - p) * m < t * (n - p + 1))%nat.
Proof.
  intros Hp Hi Hm Ht.
  remember (Z.of_nat (i - p)) as a eqn:Ea. remember (Z.of_nat (n - p + 1)) as h eqn:Eh. remember (Z.of_nat (p - 1)) as r eqn:Er.
  remember (Z.of_nat m) as mz eqn:Em. remember (Z.of_nat n) as nz eqn:En. remember (Z.of_nat t) as tz eqn:Et.
  apply Nat2Z.inj_lt. rewrite !Nat2Z.inj_mul, <- Ea, <- Eh, <- Em, <- Et.
  apply Nat2Z.inj_lt in Ht. rewrite Nat2Z.inj_add, !Nat2Z.inj_mul, <- Em, <- En, <- Et in Ht.
  assert (Ei : Z.of_nat i = (a + r + 1)%Z) by lia. rewrite Ei in Ht. assert (En' : nz = (h + r)%Z) by lia.
  assert (H1 : (0 <= r)%Z) by lia. assert (H2 : (a + 2 <= h)%Z) by lia. assert (H3 : (1 <= a)%Z) by lia. assert (H4 : (nz <= mz)%Z) by lia.
  destruct (Z_lt_le_dec (a * mz) (tz * h)) as [G|G]; [exact G|exfalso].
  assert (T1 : (nz * tz * h <= nz * (a * mz))%Z) by (rewrite <- Z.mul_assoc; apply Z.mul_le_mono_nonneg_l; lia).
  assert (T2 : (((a + r + 1) * mz - nz + 1) * h <= nz * tz * h)%Z) by (apply Z.mul_le_mono_nonneg_r; lia).
  assert (T3 : (0 <= r * (h - a) * mz)%Z) by (apply Z.mul_nonneg_nonneg; [apply Z.mul_nonneg_nonneg|]; lia).
  assert (T4 : (0 <= (mz - nz) * h)%Z) by (apply Z.mul_nonneg_nonneg; lia).
  assert (T5 : (((a + r + 1) * mz - nz + 1) * h - nz * (a * mz) = r * (h - a) * mz + (mz - nz) * h + h)%Z) by (rewrite En'; ring).
  lia.
Qed.

Lemma high_arith m n p i t : (1 <= p)%nat -> (1 <= i < n)%nat -> (p <= n)%nat -> (n <= m)%nat -> (n * t <= i * m)%nat -> (t * (n - p + 1) < (i + 1) * m)%nat.
Proof.
  intros Hp Hi Hpn Hm Ht. apply Nat.le_lt_trans with (t * n)%nat; [apply Nat.mul_le_mono_l; lia|]. apply Nat.le_lt_trans with (i * m)%nat; [lia|]. rewrite Nat.mul_add_distr_r. lia.
Qed.

Section Uniform.
  Variables (p n : nat) (U : list R).
  Hypotheses (C : clamped p n U) (UK : uniform_knots p n U) (Hp : (1 <= p)%nat).

  Let FC := kfun_clamped p n U C.
  Let Hpn := cl_deg p n U C.

  Lemma uk_val i : (p <= i <= n + 1)%nat -> kfun U i = INR (i - p) / INR (n - p + 1).
  Proof. intros Hi. rewrite kfun_nth by (rewrite (cl_len _ _ _ C); lia). apply UK. exact Hi. Qed.

  Lemma uk_simple : simple p n (kfun U).
  Proof.
    intros i Hi. rewrite !uk_val by lia. assert (P := INR_pos (n - p + 1) ltac:(lia)). unfold Rdiv.
    apply Rmult_lt_compat_r; [apply Rinv_0_lt_compat; exact P|]. apply lt_INR. lia.
  Qed.

  Variable m : nat.
  Hypothesis Hm : (n <= m)%nat.

  Let tau (i : nat) : nat := (i * m / n)%nat.

  Lemma tau_spec i : (n * tau i <= i * m < n * tau i + n)%nat.
  Proof. unfold tau. assert (T := Nat.div_mod (i * m) n ltac:(lia)). assert (T2 := Nat.mod_upper_bound (i * m) n ltac:(lia)). lia. Qed.

  Lemma tau_lt i : (tau i < tau (S i))%nat.
  Proof. assert (T := tau_spec i). assert (T2 := tau_spec (S i)). nia. Qed.

  Lemma tau_0 : tau 0 = 0%nat.
  Proof. unfold tau. apply Nat.div_small. lia. Qed.
  Lemma tau_n : tau n = m.
  Proof. unfold tau. rewrite Nat.mul_comm. apply Nat.div_mul. lia. Qed.

  Lemma frac_lt a b c d : (0 < b)%nat -> (0 < d)%nat -> (a * d < c * b)%nat -> INR a / INR b < INR c / INR d.
  Proof.
    intros Hb Hd H. assert (Pb := INR_pos b Hb). assert (Pd := INR_pos d Hd). apply lt_INR in H. rewrite !mult_INR in H.
    apply (Rmult_lt_reg_r (INR b * INR d)); [apply Rmult_lt_0_compat; assumption|].
    replace (INR a / INR b * (INR b * INR d)) with (INR a * INR d) by (field; lra). replace (INR c / INR d * (INR b * INR d)) with (INR c * INR b) by (field; lra). exact H.
  Qed.

  Lemma tau_low i : (1 <= i < n)%nat -> kfun U i < INR (tau i) / INR m.
  Proof.
    intros Hi. assert (T := tau_spec i). assert (T1 : (1 <= tau i)%nat) by (unfold tau; apply Nat.div_str_pos; nia).
    destruct (le_lt_dec i p) as [H|H].
    - rewrite (fc_zero _ _ _ FC) by exact H. apply Rmult_lt_0_compat; [apply INR_pos; lia|apply Rinv_0_lt_compat, INR_pos; lia].
    - rewrite uk_val by lia. apply frac_lt; [lia|lia|].
      apply low_arith with (n := n) (p := p) (i := i); lia.
  Qed.

  Lemma tau_high i : (1 <= i < n)%nat -> INR (tau i) / INR m < kfun U (i + p + 1).
  Proof.
    intros Hi. assert (T := tau_spec i). assert (T1 : (tau i < m)%nat) by nia.
    destruct (le_lt_dec (i + p + 1) n) as [H|H].
    - rewrite uk_val by lia. apply frac_lt; [lia|lia|]. replace (i + p + 1 - p)%nat with (i + 1)%nat by lia.
      apply high_arith; lia.
    - rewrite (fc_one _ _ _ FC) by exact H. replace 1 with (INR 1 / INR 1) by (cbn; field). apply frac_lt; lia.
  Qed.

  Lemma uniform_determined c : (forall g, (g <= m)%nat -> spline (kfun U) n p c (INR g / INR m) = 0) -> forall i, (i <= n)%nat -> c i = 0.
  Proof.
    intros H. assert (Pm := INR_pos m ltac:(lia)). apply (spline_unisolvent p n (kfun U) (fun i => INR (tau i) / INR m) FC uk_simple Hp c); [lia| | | | |].
    - rewrite tau_0. cbn [INR]. unfold Rdiv. ring.
    - rewrite tau_n. field. lra.
    - intros i Hi. split; [apply tau_low|apply tau_high]; exact Hi.
    - intros i H1 H2. apply frac_lt; [lia|lia|]. assert (T := tau_lt i). nia.
    - intros i Hi. apply H. assert (T := tau_spec i). nia.
  Qed.
End Uniform.

(** ** interpolation *)

Lemma spline_sub U n p c c' u : spline U n p (fun i => c i - c' i) u = spline U n p c u - spline U n p c' u.
Proof. unfold spline. rewrite <- rsum_minus. apply rsum_ext. intros i Hi. ring. Qed.

Lemma interpolation_fact svd p m dim (Q : Mat RNum) : good_solver svd -> (1 <= p <= m)%nat -> shape dim (S m) Q ->
  exists U C c, generate svd (Interpolation p Q) = Val (Ok c) /\ clamped_curve p m dim U C c /\ uniform_knots p m U /\
    (forall g, (g <= m)%nat -> returns (evaluate c (INR g / INR m)) dim (fun d => ent Q g d)) /\
    (forall C' c', clamped_curve p m dim U C' c' ->
      (forall g, (g <= m)%nat -> returns (evaluate c' (INR g / INR m)) dim (fun d => ent Q g d)) ->
      forall i d, (i <= m)%nat -> (d < dim)%nat -> ent C' i d = ent C i d).
Proof.
  intros GS Hp SQ. cbn [generate]. unfold params_generate, dp_segments.
  assert (NQ : ncols Q = S m) by apply SQ. rewrite NQ. rewrite usub_ok by lia. cbn [bind]. replace (S m - 1)%nat with m by lia.
  destruct (equally_spaced_R m ltac:(lia)) as [v [EV [Lv Hv]]]. rewrite EV. cbn [bind knots_generate].
  destruct (uniform_fact p m Hp) as [kn [U [A [B [V [CL [VU _]]]]]]]. rewrite A. cbn [bind].
  destruct (knots_new_inv p U kn B) as [-> _].
  assert (UK := uniform_values p m U CL VU).
  destruct (collocation_R p m U (cl_len _ _ _ CL) ltac:(lia) (cl_sorted _ _ _ CL) dim Q v m SQ Lv) as [N [EN [SN HN]]].
  unfold interpolate. rn. rewrite EN. cbn [bind].
  assert (ST := @mtranspose_shape RNum dim (S m) Q SQ).
  assert (NC : ncols N = S m) by apply SN. assert (NR : nrows N = S m) by apply SN. assert (TC : ncols (mtranspose Q) = dim) by apply ST. assert (TR : nrows (mtranspose Q) = S m) by apply ST.
  assert (DET : forall c, (forall g, (g <= m)%nat -> spline (kfun U) m p c (INR g / INR m) = 0) -> forall i, (i <= m)%nat -> c i = 0).
  { apply (uniform_determined p m U CL UK); lia. }
  assert (Sv : exists Y, solves N (mtranspose Q) Y).
  { apply (solvable N (mtranspose Q) (S m) (S m) dim SN ST). intros d Hd.
    destruct (square_solvable (S m) (fun g i => ent N i g) (fun g => ent (mtranspose Q) d g)) as [x Hx].
    - intros c Hc i Hi. apply DET; [|lia]. intros g Hg. rewrite <- (Hv g Hg). transitivity (rsum (fun j => ent N j g * c j) (S m)); [|apply Hc; lia].
      unfold spline. apply rsum_ext. intros j Hj. rewrite HN by lia. reflexivity.
    - exists x. exact Hx. }
  destruct Sv as [Y HY]. destruct (GS _ _ _ HY) as [X [EX [_ [SX HX]]]].
  unfold svd_solve, mis_empty. rewrite NC, NR, TR, Nat.eqb_refl. cbn [Nat.eqb orb]. rewrite EX. cbn [bind].
  rewrite NC, TC in SX. rewrite NC, NR, TC in HX. assert (SC := @mtranspose_shape RNum _ _ X SX).
  destruct (curve_new_clamped p m dim U (mtranspose X) _ CL SC B) as [c [Ec HCC]].
  exists U, (mtranspose X), c. split; [exact Ec|]. split; [exact HCC|]. split; [exact UK|]. split.
  - intros g Hg. eapply returns_ext; [apply (cc_eval0 p m dim U (mtranspose X) c); [exact HCC|apply frac01; lia]|]. intros d Hd. cbv beta.
    rewrite <- (ent_mtranspose_R dim (S m) Q d g SQ Hd ltac:(lia)). rewrite <- HX by lia. rewrite <- (Hv g Hg).
    unfold spline. apply rsum_ext. intros i Hi. rewrite (HN g i Hg) by lia. rewrite (ent_mtranspose_R (S m) dim X i d SX) by lia. reflexivity.
  - intros C' c' HC' EQ i d Hi Hd. apply Rminus_diag_uniq. apply (DET (fun i => ent C' i d - ent (mtranspose X) i d)); [|exact Hi]. intros g Hg.
    rewrite spline_sub. destruct (EQ g Hg) as [x [Ex [_ Vx]]]. destruct (cc_eval0 p m dim U C' c' (INR g / INR m) HC' ltac:(apply frac01; lia)) as [x' [Ex' [_ Vx']]].
    rewrite Ex in Ex'. injection Ex' as <-. rewrite <- (Vx' d Hd), (Vx d Hd).
    rewrite <- (ent_mtranspose_R dim (S m) Q d g SQ Hd ltac:(lia)). rewrite <- HX by lia. apply Rminus_diag_eq. rewrite <- (Hv g Hg).
    unfold spline. apply rsum_ext. intros j Hj. rewrite (HN g j Hg) by lia. rewrite (ent_mtranspose_R (S m) dim X j d SX) by lia. reflexivity.
Qed.

(** ** a minimum of a fit is unique *)

Definition mid (dim n : nat) (C C' : Mat RNum) : Mat RNum := mat_of dim (S n) (fun d i => (ent C i d + ent C' i d) / 2).

Lemma ent_mid dim n C C' i d : (i <= n)%nat -> (d < dim)%nat -> ent (mid dim n C C') i d = (ent C i d + ent C' i d) / 2.
Proof. intros Hi Hd. unfold mid. rewrite ent_mat_of by lia. reflexivity. Qed.

Lemma spline_ext U n p c c' u : (forall i, (i <= n)%nat -> c i = c' i) -> spline U n p c u = spline U n p c' u.
Proof. intros H. unfold spline. apply rsum_ext. intros i Hi. rewrite H by lia. reflexivity. Qed.

Lemma spline_mid U n p c c' u : spline U n p (fun i => (c i + c' i) / 2) u = (spline U n p c u + spline U n p c' u) / 2.
Proof. unfold spline, Rdiv. rewrite <- rsum_plus, <- rsum_scal_r. apply rsum_ext. intros i Hi. field. Qed.

Lemma fdiff_ext k : forall f g i, (forall j, (i <= j <= i + k)%nat -> f j = g j) -> fdiff k f i = fdiff k g i.
Proof. induction k as [|k IH]; intros f g i H; cbn [fdiff]; [apply H; lia|]. rewrite (IH f g (S i)), (IH f g i) by (intros j Hj; apply H; lia). reflexivity. Qed.

Lemma fdiff_mid k f g : forall i, fdiff k (fun j => (f j + g j) / 2) i = (fdiff k f i + fdiff k g i) / 2.
Proof. induction k as [|k IH]; intros i; cbn [fdiff]; [reflexivity|]. rewrite !IH. field. Qed.

Lemma mid_error p n dim m U t (Q C C' : Mat RNum) :
  fit_error p n dim m U t Q (mid dim n C C') + / 4 * rsum (fun g => rsum (fun d => spline (kfun U) n p (fun i => ent C i d - ent C' i d) (t g) ^ 2) dim) (S m)
  = (fit_error p n dim m U t Q C + fit_error p n dim m U t Q C') / 2.
Proof.
  unfold fit_error, Rdiv. rewrite <- rsum_plus, <- rsum_scal_r, <- rsum_scal, <- rsum_plus. apply rsum_ext. intros g Hg.
  rewrite <- rsum_plus, <- rsum_scal_r, <- rsum_scal, <- rsum_plus. apply rsum_ext. intros d Hd.
  rewrite (spline_ext _ n p (fun i => ent (mid dim n C C') i d) (fun i => (ent C i d + ent C' i d) / 2)) by (intros i Hi; apply ent_mid; assumption).
  rewrite (spline_mid _ n p (fun i => ent C i d) (fun i => ent C' i d)), (spline_sub _ n p (fun i => ent C i d) (fun i => ent C' i d)). field.
Qed.

Lemma mid_penalty pen count off dim n (C C' : Mat RNum) : (off + count <= S n)%nat -> (forall q, pen = Some q -> 0 <= lambda q) ->
  penalty pen count off dim (mid dim n C C') <= (penalty pen count off dim C + penalty pen count off dim C') / 2.
Proof.
  intros Hn H0. destruct pen as [q|]; cbn [penalty]; [|lra]. assert (L := H0 q eq_refl).
  replace ((lambda q * roughness (kappa q) (count - kappa q) off dim C + lambda q * roughness (kappa q) (count - kappa q) off dim C') / 2)
    with (lambda q * ((roughness (kappa q) (count - kappa q) off dim C + roughness (kappa q) (count - kappa q) off dim C') / 2)) by (rn; field).
  apply Rmult_le_compat_l; [exact L|]. unfold roughness, Rdiv. rewrite <- rsum_plus, <- rsum_scal_r. apply rsum_le. intros r Hr.
  rewrite <- rsum_plus, <- rsum_scal_r. apply rsum_le. intros d Hd.
  rewrite (fdiff_ext (kappa q) (fun i => ent (mid dim n C C') (off + i) d) (fun i => (ent C (off + i) d + ent C' (off + i) d) / 2)) by (intros j Hj; apply ent_mid; lia).
  rewrite (fdiff_mid (kappa q) (fun i => ent C (off + i) d) (fun i => ent C' (off + i) d)).
  set (a := fdiff _ _ _). set (b := fdiff _ _ _). assert (T := pow2_ge_0 (a - b)). nra.
Qed.

Lemma square_sum_zero (f : nat -> R) n : (forall i, (i < n)%nat -> 0 <= f i) -> rsum f n <= 0 -> forall i, (i < n)%nat -> f i = 0.
Proof.
  induction n as [|n IH]; intros H E i Hi; [lia|]. cbn [rsum] in E.
  assert (T := rsum_nonneg f n ltac:(intros j Hj; apply H; lia)). assert (T2 := H n ltac:(lia)).
  destruct (Nat.eq_dec i n) as [->|]; [lra|]. apply IH; [intros j Hj; apply H; lia|lra|lia].
Qed.

Lemma unique_min p n m dim U pen count off (Q C C' : Mat RNum) : clamped p n U -> uniform_knots p n U -> (1 <= p)%nat -> (n <= m)%nat -> (off + count <= S n)%nat -> (forall q, pen = Some q -> 0 <= lambda q) ->
  let t := fun g => INR g / INR m in
  let total := fun X => fit_error p n dim m U t Q X + penalty pen count off dim X in
  total C <= total (mid dim n C C') -> total C' <= total C -> forall i d, (i <= n)%nat -> (d < dim)%nat -> ent C' i d = ent C i d.
Proof.
  intros CL UK Hp Hm Hn H0 t total M1 M2 i d Hi Hd. subst total. cbv beta in M1, M2.
  assert (E := mid_error p n dim m U t Q C C'). assert (P := mid_penalty pen count off dim n C C' Hn H0).
  set (S2 := rsum (fun g => rsum (fun d => spline (kfun U) n p (fun i => ent C i d - ent C' i d) (t g) ^ 2) dim) (S m)) in *.
  assert (Z : S2 <= 0) by lra. symmetry. apply Rminus_diag_uniq.
  apply (uniform_determined p n U CL UK Hp m Hm (fun i => ent C i d - ent C' i d)); [|exact Hi]. intros g Hg.
  assert (NN : forall g d, 0 <= spline (kfun U) n p (fun i => ent C i d - ent C' i d) (t g) ^ 2) by (intros; apply pow2_ge_0).
  assert (G := square_sum_zero _ (S m) ltac:(intros; apply rsum_nonneg; intros; apply NN) Z g ltac:(lia)). cbv beta in G.
  assert (G2 := square_sum_zero (fun d => spline (kfun U) n p (fun i => ent C i d - ent C' i d) (t g) ^ 2) dim ltac:(intros; apply NN) ltac:(rewrite G; lra) d Hd). cbv beta in G2.
  assert (G3 : forall x, x ^ 2 = 0 -> x = 0) by (intros x Hx; nra). apply G3. exact G2.
Qed.

Lemma pen_nonneg svd p n m dim (Q : Mat RNum) me pen c : shape dim (S m) Q -> generate svd (LeastSquaresFit p Q n me pen) = Val (Ok c) -> forall q, pen = Some q -> 0 <= lambda q.
Proof.
  intros SQ E q ->. destruct (lsf_inv _ _ _ _ _ _ _ _ _ SQ E) as [Hp Hnm].
  destruct (lsf_step svd p n m dim Q me (Some q) SQ Hp ltac:(lia)) as [v [kn [U [Lv [Hv [A [B [CL [K0 [UN EG]]]]]]]]]]. rewrite EG in E. clear EG.
  inv_val E P EF. destruct P as [C|er]; [|discriminate E]. subst kn.
  assert (SQ' : shape dim (m + 1) Q) by (replace (m + 1)%nat with (S m) by lia; exact SQ).
  destruct (Rlt_dec (lambda q) 0) as [Hneg|]; [|lra]. exfalso.
  destruct me; [unfold fixed_fit in EF|unfold loose_fit in EF]; inv_val EF chk EC; destruct chk as [u|e]; try discriminate EF.
  - destruct (qvectors_R p n U (cl_len _ _ _ CL) ltac:(lia) (cl_sorted _ _ _ CL) dim m Q v m SQ' Lv ltac:(lia)) as [W [EW [SW _]]]. rewrite EW in EF. cbn [bind] in EF.
    destruct (constant_terms_R p n U (cl_len _ _ _ CL) ltac:(lia) (cl_sorted _ _ _ CL) dim m Q W v m SQ' SW Lv ltac:(lia) ltac:(lia)) as [Z [EZ [SZ HZ]]]. rewrite EZ in EF. cbn [bind] in EF.
    destruct (fixed_coefficients_R p n U (cl_len _ _ _ CL) ltac:(lia) (cl_sorted _ _ _ CL) dim m Q v m SQ' Lv ltac:(lia) ltac:(lia)) as [N [EN [SN HN]]]. rewrite EN in EF. cbn [bind] in EF.
    rewrite (normal_neg _ N q _ (m - 1) (n - 1) SN Hneg) in EF. discriminate EF.
  - destruct (loose_coefficients_R p n U (cl_len _ _ _ CL) ltac:(lia) (cl_sorted _ _ _ CL) dim m Q v m SQ' Lv) as [N [EN [SN HN]]]. rewrite EN in EF. cbn [bind] in EF.
    rewrite (normal_neg _ N q _ (m + 1) (n + 1) SN Hneg) in EF. discriminate EF.
Qed.

Lemma uniform_uk p n kn U : (1 <= p <= n)%nat -> @uniform RNum p n = Val (Ok kn) -> vector kn = Val U -> uniform_knots p n U.
Proof.
  intros Hp E V. destruct (uniform_fact p n Hp) as [kn' [U' [A [B [V' [CL [VU _]]]]]]]. rewrite E in A. injection A as <-. rewrite V in V'. injection V' as <-.
  apply uniform_values; assumption.
Qed.

Lemma new_curve p n dim U C : clamped p n U -> shape dim (S n) C -> exists c, clamped_curve p n dim U C c.
Proof.
  intros CL SC. assert (E : @knots_new RNum p U = Val (knots_of p U)) by (apply knots_new_val; rn; rewrite (cl_len _ _ _ CL); assert (T := cl_deg _ _ _ CL); lia).
  destruct (curve_new_clamped p n dim U C _ CL SC E) as [c [_ H]]. exists c. exact H.
Qed.

(** the loose fit exists and is the only minimiser *)
Lemma loose_fit_fact svd p n m dim (Q : Mat RNum) pen : good_solver svd -> shape dim (S m) Q -> (1 <= p <= n)%nat -> (n <= m)%nat ->
  (forall q, pen = Some q -> 0 <= lambda q /\ (1 <= kappa q <= n - 1)%nat) ->
  exists U C c e, generate svd (LeastSquaresFit p Q n LooseEnds pen) = Val (Ok c) /\ clamped_curve p n dim U C c /\ uniform_knots p n U /\ data_error c dim m Q e /\
    forall C' c' e', clamped_curve p n dim U C' c' -> data_error c' dim m Q e' ->
      e + penalty pen (S n) 0 dim C <= e' + penalty pen (S n) 0 dim C' /\
      (e' + penalty pen (S n) 0 dim C' <= e + penalty pen (S n) 0 dim C -> forall i d, (i <= n)%nat -> (d < dim)%nat -> ent C' i d = ent C i d).
Proof.
  intros GS SQ Hp Hm HP.
  assert (EX : exists c, generate svd (LeastSquaresFit p Q n LooseEnds pen) = Val (Ok c)).
  { assert (T := lsf_loose svd p n m dim Q pen (good_returning _ GS) SQ Hp Hm ltac:(intros q Eq; destruct (HP q Eq); lia)).
    destruct pen as [q|]; [|exact T]. destruct T as [_ T]. apply T. apply (HP q eq_refl). }
  destruct EX as [c E]. destruct (loose_fact svd p n m dim Q pen c (good_honest _ GS) SQ ltac:(intros q Eq; destruct (HP q Eq); lia) E) as [U [C [e [HC [[kn [EU EV]] [DE MIN]]]]]].
  assert (UK := uniform_uk p n kn U Hp EU EV).
  exists U, C, c, e. split; [exact E|]. split; [exact HC|]. split; [exact UK|]. split; [exact DE|].
  intros C' c' e' HC' DE'. split; [apply (MIN C' c' e' HC' DE')|]. intros LE.
  destruct (new_curve p n dim U (mid dim n C C') (proj1 HC) (mat_of_shape _ _ _)) as [cm HM].
  assert (Hm1 : (1 <= m)%nat) by lia.
  assert (DEm := proj2 (data_error_val p n dim m U (mid dim n C C') cm Q _ HM Hm1) eq_refl).
  assert (MM := MIN _ _ _ HM DEm). apply (data_error_val p n dim m U C c Q _ HC Hm1) in DE. apply (data_error_val p n dim m U C' c' Q _ HC' Hm1) in DE'. subst e e'.
  apply (unique_min p n m dim U pen (S n) 0 Q C C' (proj1 HC) UK); [lia|exact Hm|lia|intros q Eq; apply (HP q Eq)|exact MM|exact LE].
Qed.

Lemma end_values p n dim U C c (f g : nat -> R) : clamped_curve p n dim U C c ->
  (returns (evaluate c 0) dim f <-> forall d, (d < dim)%nat -> ent C 0 d = f d) /\ (returns (evaluate c 1) dim g <-> forall d, (d < dim)%nat -> ent C n d = g d).
Proof.
  intros HC. assert (FC := kfun_clamped p n U (proj1 HC)).
  assert (T0 := cc_eval0 p n dim U C c 0 HC ltac:(lra)). assert (T1 := cc_eval0 p n dim U C c 1 HC ltac:(lra)).
  split; split.
  - intros [x [Ex [_ Vx]]] d Hd. destruct T0 as [x' [Ex' [_ Vx']]]. rewrite Ex in Ex'. injection Ex' as <-. rewrite <- (Vx d Hd), (Vx' d Hd). symmetry. apply (spline_at_0 p n (kfun U) FC (fun i => ent C i d)).
  - intros H. eapply returns_ext; [exact T0|]. intros d Hd. cbv beta. rewrite (spline_at_0 p n (kfun U) FC (fun i => ent C i d)). apply H. exact Hd.
  - intros [x [Ex [_ Vx]]] d Hd. destruct T1 as [x' [Ex' [_ Vx']]]. rewrite Ex in Ex'. injection Ex' as <-. rewrite <- (Vx d Hd), (Vx' d Hd). symmetry. apply (spline_at_1 p n (kfun U) FC (fun i => ent C i d)).
  - intros H. eapply returns_ext; [exact T1|]. intros d Hd. cbv beta. rewrite (spline_at_1 p n (kfun U) FC (fun i => ent C i d)). apply H. exact Hd.
Qed.

Lemma fixed_fit_fact svd p n m dim (Q : Mat RNum) pen : good_solver svd -> shape dim (S m) Q -> (1 <= p <= n)%nat -> (2 <= n <= m)%nat ->
  (forall q, pen = Some q -> 0 <= lambda q /\ (1 <= kappa q <= n - 2)%nat) ->
  exists U C c e, generate svd (LeastSquaresFit p Q n FixedEnds pen) = Val (Ok c) /\ clamped_curve p n dim U C c /\ uniform_knots p n U /\ data_error c dim m Q e /\
    returns (evaluate c 0) dim (fun d => ent Q 0 d) /\ returns (evaluate c 1) dim (fun d => ent Q m d) /\
    forall C' c' e', clamped_curve p n dim U C' c' -> data_error c' dim m Q e' ->
      returns (evaluate c' 0) dim (fun d => ent Q 0 d) -> returns (evaluate c' 1) dim (fun d => ent Q m d) ->
      e + penalty pen (n - 1) 1 dim C <= e' + penalty pen (n - 1) 1 dim C' /\
      (e' + penalty pen (n - 1) 1 dim C' <= e + penalty pen (n - 1) 1 dim C -> forall i d, (i <= n)%nat -> (d < dim)%nat -> ent C' i d = ent C i d).
Proof.
  intros GS SQ Hp Hm HP.
  assert (EX : exists c, generate svd (LeastSquaresFit p Q n FixedEnds pen) = Val (Ok c)).
  { assert (T := lsf_fixed svd p n m dim Q pen (good_returning _ GS) SQ Hp ltac:(lia) ltac:(lia) ltac:(intros q Eq; destruct (HP q Eq); lia)).
    destruct pen as [q|]; [|exact T]. destruct T as [_ [T _]]. apply T; apply (HP q eq_refl). }
  destruct EX as [c E]. destruct (fixed_fact svd p n m dim Q pen c (good_honest _ GS) SQ ltac:(intros q Eq; destruct (HP q Eq); lia) E) as [E0 [E1 [U [C [e [HC [[kn [EU EV]] [DE MIN]]]]]]]].
  assert (UK := uniform_uk p n kn U Hp EU EV).
  exists U, C, c, e. split; [exact E|]. split; [exact HC|]. split; [exact UK|]. split; [exact DE|]. split; [exact E0|]. split; [exact E1|].
  intros C' c' e' HC' DE' E0' E1'. split; [apply (MIN C' c' e' HC' DE' E0' E1')|]. intros LE.
  destruct (new_curve p n dim U (mid dim n C C') (proj1 HC) (mat_of_shape _ _ _)) as [cm HM].
  assert (Hm1 : (1 <= m)%nat) by lia.
  assert (DEm := proj2 (data_error_val p n dim m U (mid dim n C C') cm Q _ HM Hm1) eq_refl).
  assert (A0 := proj1 (proj1 (end_values p n dim U C c (fun d => ent Q 0 d) (fun d => ent Q m d) HC)) E0). assert (A1 := proj1 (proj2 (end_values p n dim U C c (fun d => ent Q 0 d) (fun d => ent Q m d) HC)) E1).
  assert (B0 := proj1 (proj1 (end_values p n dim U C' c' (fun d => ent Q 0 d) (fun d => ent Q m d) HC')) E0'). assert (B1 := proj1 (proj2 (end_values p n dim U C' c' (fun d => ent Q 0 d) (fun d => ent Q m d) HC')) E1').
  assert (MM := MIN _ _ _ HM DEm). apply (data_error_val p n dim m U C c Q _ HC Hm1) in DE. apply (data_error_val p n dim m U C' c' Q _ HC' Hm1) in DE'. subst e e'.
  assert (MM' : fit_error p n dim m U (fun g => INR g / INR m) Q C + penalty pen (n - 1) 1 dim C <= fit_error p n dim m U (fun g => INR g / INR m) Q (mid dim n C C') + penalty pen (n - 1) 1 dim (mid dim n C C')).
  { assert (EVM := end_values p n dim U (mid dim n C C') cm (fun d => ent Q 0 d) (fun d => ent Q m d) HM).
    apply MM; [apply (proj2 (proj1 EVM))|apply (proj2 (proj2 EVM))]; intros d Hd; rewrite ent_mid by lia; rewrite ?A0, ?B0, ?A1, ?B1 by exact Hd; rn; field. }
  apply (unique_min p n m dim U pen (n - 1) 1 Q C C' (proj1 HC) UK); [lia|lia|lia|intros q Eq; apply (HP q Eq)|exact MM'|exact LE].
Qed.
