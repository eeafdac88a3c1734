(** * Fits as the caller sees them *)

From Coq Require Import ZArith Reals List Bool Arith Lia Lra.
From Verif Require Import Num Vec MKnots MPoints MCurve MFit MGenerate RNum Hoare Lists Struct Spec BMath BMath2 BMath3 Api Bridge Facts1 Gen1 Gen2 Gen3 Gen4 Fit1 Fit2 Fit3 Fit4.
Import ListNotations.
Local Open Scope R_scope.

Lemma frac01 g m : (g <= m)%nat -> (1 <= m)%nat -> 0 <= INR g / INR m <= 1.
Proof.
  intros Hg Hm. assert (T := INR_pos m ltac:(lia)). assert (T2 : 0 <= INR g) by apply pos_INR. assert (T3 : INR g <= INR m) by (apply le_INR; exact Hg).
  split; [apply Rmult_le_pos; [exact T2|left; apply Rinv_0_lt_compat; exact T]|]. apply (Rmult_le_reg_r (INR m)); [exact T|]. unfold Rdiv. rewrite Rmult_assoc, Rinv_l by lra. lra.
Qed.

Lemma data_error_val p n dim m U C c (Q : Mat RNum) e : clamped_curve p n dim U C c -> (1 <= m)%nat ->
  (data_error c dim m Q e <-> e = fit_error p n dim m U (fun g => INR g / INR m) Q C).
Proof.
  intros HC Hm. assert (T : forall g, (g <= m)%nat -> returns (evaluate c (INR g / INR m)) dim (fun d => spline (kfun U) n p (fun i => ent C i d) (INR g / INR m))).
  { intros g Hg. apply (cc_eval0 p n dim U C); [exact HC|]. apply frac01; assumption. }
  unfold data_error, fit_error. split.
  - intros [f [H ->]]. apply rsum_ext. intros g Hg. apply rsum_ext. intros d Hd.
    destruct (H g ltac:(lia)) as [x [E [L1 V]]]. destruct (T g ltac:(lia)) as [x' [E' [_ V']]]. rewrite E in E'. injection E' as <-.
    rewrite <- V by exact Hd. rewrite <- V' by exact Hd. reflexivity.
  - intros ->. eexists. split; [exact T|]. reflexivity.
Qed.

Lemma lsf_step svd p n m dim (Q : Mat RNum) me pen : shape dim (S m) Q -> (1 <= p <= n)%nat -> (1 <= m)%nat ->
  exists v kn U, length v = (m + 1)%nat /\ (forall g, (g <= m)%nat -> nth g v 0 = INR g / INR m) /\ @uniform RNum p n = Val (Ok kn) /\ @knots_new RNum p U = Val kn /\ clamped p n U /\ kn = knots_of p U /\
    is_uniform kn = Val (Ok true) /\
    generate svd (LeastSquaresFit p Q n me pen) =
    (P <- (match me with FixedEnds => fixed_fit svd kn Q (mkParams v m) pen | LooseEnds => loose_fit svd kn Q (mkParams v m) pen end);;
     match P with Err e => Val (Err (FitErr e)) | Ok P => curve_new kn (cp_new P) end).
Proof.
  intros SQ Hp Hm. destruct (equally_spaced_R m Hm) as [v [EV [Lv Hv]]]. destruct (uniform_fact p n Hp) as [kn [U [A [B [V [CL [_ [_ [_ [_ UN]]]]]]]]]].
  exists v, kn, U. repeat (split; [assumption|]). destruct (knots_new_inv p U kn B) as [-> _]. split; [reflexivity|]. split; [exact UN|].
  cbn [generate]. unfold params_generate, dp_segments. assert (NQ : ncols Q = S m) by apply SQ. rewrite NQ. rewrite usub_ok by lia. cbn [bind].
  replace (S m - 1)%nat with m by lia. rewrite EV. cbn [bind knots_generate]. rewrite A. cbn [bind]. reflexivity.
Qed.

Lemma lsf_inv svd p n m dim (Q : Mat RNum) me pen c : shape dim (S m) Q -> generate svd (LeastSquaresFit p Q n me pen) = Val (Ok c) -> (1 <= p <= n)%nat /\ (n <= m)%nat.
Proof.
  intros SQ E. assert (NQ : ncols Q = S m) by apply SQ.
  cbn [generate] in E. unfold params_generate, dp_segments in E. rewrite NQ, usub_ok in E by lia. cbn [bind] in E. inv_val E prm EP.
  destruct p as [|p]; [rewrite generate_bad in E; discriminate E|].
  destruct (le_lt_dec (S p) n) as [Hp|Hp]; [|rewrite generate_short in E by lia; discriminate E]. split; [lia|].
  destruct (uniform_fact (S p) n ltac:(lia)) as [kn [U [A [B [V [CL _]]]]]]. cbn [knots_generate] in E. rewrite A in E. cbn [bind] in E.
  destruct (knots_new_inv (S p) U kn B) as [-> _]. assert (SQ' : shape dim (m + 1) Q) by (replace (m + 1)%nat with (S m) by lia; exact SQ).
  inv_val E P EF. destruct P as [P|e]; [|discriminate E].
  destruct me; [unfold fixed_fit in EF|unfold loose_fit in EF]; inv_val EF chk EC; destruct chk as [u|e]; try discriminate EF;
    apply (input_checks_ok (S p) n U dim m Q prm pen u (cl_len _ _ _ CL) SQ' EC).
Qed.

Lemma loose_fact svd p n m dim (Q : Mat RNum) pen c : honest svd -> shape dim (S m) Q -> (forall q, pen = Some q -> (1 <= kappa q)%nat) ->
  generate svd (LeastSquaresFit p Q n LooseEnds pen) = Val (Ok c) ->
  exists U C e, clamped_curve p n dim U C c /\ (exists kn, @uniform RNum p n = Val (Ok kn) /\ vector kn = Val U) /\ data_error c dim m Q e /\
    forall C' c' e', clamped_curve p n dim U C' c' -> data_error c' dim m Q e' ->
      e + penalty pen (S n) 0 dim C <= e' + penalty pen (S n) 0 dim C'.
Proof.
  intros ES SQ HK E. destruct (lsf_inv _ _ _ _ _ _ _ _ _ SQ E) as [Hp Hnm]. assert (Hm : (1 <= m)%nat) by lia.
  destruct (lsf_step svd p n m dim Q LooseEnds pen SQ Hp Hm) as [v [kn [U [Lv [Hv [A [B [CL [K0 [UN EG]]]]]]]]]]. rewrite EG in E. clear EG.
  inv_val E P EF. destruct P as [C|er]; [|discriminate E]. subst kn.
  assert (SQ' : shape dim (m + 1) Q) by (replace (m + 1)%nat with (S m) by lia; exact SQ).
  destruct (loose_min svd p n m dim U Q C v m pen ES (cl_len _ _ _ CL) (cl_sorted _ _ _ CL) SQ' Lv HK EF) as [_ [SC MIN]].
  replace (n + 1)%nat with (S n) in SC by lia.
  destruct (curve_new_clamped p n dim U C _ CL SC B) as [c' [Ec HCC]]. rewrite E in Ec. injection Ec as <-.
  exists U, C, (fit_error p n dim m U (fun g => INR g / INR m) Q C). split; [exact HCC|].
  split; [eexists; split; [exact A|apply (@knots_of_vector RNum)]|]. split; [apply (data_error_val p n dim m U C c Q _ HCC Hm); reflexivity|].
  intros C' c' e' HC' DE. apply (data_error_val p n dim m U C' c' Q _ HC' Hm) in DE. subst e'.
  assert (FE : forall X, fit_error p n dim m U (fun g => INR g / INR m) Q X = fit_error p n dim m U (fun g => nth g v 0) Q X).
  { intros X. unfold fit_error. apply rsum_ext. intros g Hg. apply rsum_ext. intros d Hd. rewrite Hv by lia. reflexivity. }
  rewrite !FE. replace (S n) with (n + 1)%nat by lia. apply MIN. destruct HC' as [_ [S' _]]. replace (n + 1)%nat with (S n) by lia. exact S'.
Qed.

Lemma fixed_fact svd p n m dim (Q : Mat RNum) pen c : honest svd -> shape dim (S m) Q -> (forall q, pen = Some q -> (1 <= kappa q)%nat) ->
  generate svd (LeastSquaresFit p Q n FixedEnds pen) = Val (Ok c) ->
  returns (evaluate c 0) dim (fun d => ent Q 0 d) /\ returns (evaluate c 1) dim (fun d => ent Q m d) /\
  exists U C e, clamped_curve p n dim U C c /\ (exists kn, @uniform RNum p n = Val (Ok kn) /\ vector kn = Val U) /\ data_error c dim m Q e /\
    forall C' c' e', clamped_curve p n dim U C' c' -> data_error c' dim m Q e' ->
      returns (evaluate c' 0) dim (fun d => ent Q 0 d) -> returns (evaluate c' 1) dim (fun d => ent Q m d) ->
      e + penalty pen (n - 1) 1 dim C <= e' + penalty pen (n - 1) 1 dim C'.
Proof.
  intros ES SQ HK E. destruct (lsf_inv _ _ _ _ _ _ _ _ _ SQ E) as [Hp Hnm]. assert (Hm : (1 <= m)%nat) by lia.
  destruct (lsf_step svd p n m dim Q FixedEnds pen SQ Hp Hm) as [v [kn [U [Lv [Hv [A [B [CL [K0 [UN EG]]]]]]]]]]. rewrite EG in E. clear EG.
  inv_val E P EF. destruct P as [C|er]; [|discriminate E]. subst kn.
  assert (SQ' : shape dim (m + 1) Q) by (replace (m + 1)%nat with (S m) by lia; exact SQ).
  destruct (fixed_min svd p n m dim U Q C v m pen ES (cl_len _ _ _ CL) (cl_sorted _ _ _ CL) SQ' Lv HK EF) as [_ [H2 [SC [HE MIN]]]].
  replace (n + 1)%nat with (S n) in SC by lia.
  destruct (curve_new_clamped p n dim U C _ CL SC B) as [c' [Ec HCC]]. rewrite E in Ec. injection Ec as <-.
  assert (FC := kfun_clamped p n U CL).
  assert (Ev0 : forall X, spline (kfun U) n p X 0 = X 0%nat) by (intros X; apply spline_at_0; exact FC).
  assert (Ev1 : forall X, spline (kfun U) n p X 1 = X n) by (intros X; apply spline_at_1; exact FC).
  split; [eapply returns_ext; [apply (cc_eval0 p n dim U C c 0 HCC); lra|]; intros d Hd; cbv beta; rewrite Ev0; apply HE; exact Hd|].
  split; [eapply returns_ext; [apply (cc_eval0 p n dim U C c 1 HCC); lra|]; intros d Hd; cbv beta; rewrite Ev1; apply HE; exact Hd|].
  exists U, C, (fit_error p n dim m U (fun g => INR g / INR m) Q C). split; [exact HCC|].
  split; [eexists; split; [exact A|apply (@knots_of_vector RNum)]|]. split; [apply (data_error_val p n dim m U C c Q _ HCC Hm); reflexivity|].
  intros C' c' e' HC' DE R0 R1. apply (data_error_val p n dim m U C' c' Q _ HC' Hm) in DE. subst e'.
  assert (HE' : forall d, (d < dim)%nat -> ent C' 0 d = ent Q 0 d /\ ent C' n d = ent Q m d).
  { intros d Hd. destruct R0 as [x [Ex [_ Vx]]], R1 as [y [Ey [_ Vy]]].
    destruct (cc_eval0 p n dim U C' c' 0 HC' ltac:(lra)) as [x' [Ex' [_ Vx']]]. rewrite Ex in Ex'. injection Ex' as <-.
    destruct (cc_eval0 p n dim U C' c' 1 HC' ltac:(lra)) as [y' [Ey' [_ Vy']]]. rewrite Ey in Ey'. injection Ey' as <-.
    split; [rewrite <- Vx, Vx', Ev0 by exact Hd; reflexivity|rewrite <- Vy, Vy', Ev1 by exact Hd; reflexivity]. }
  assert (F0 : INR 0 / INR m = 0) by (cbn [INR]; unfold Rdiv; ring).
  assert (F1 : INR m / INR m = 1) by (unfold Rdiv; apply Rinv_r; assert (T := INR_pos m ltac:(lia)); lra).
  assert (FE : forall X, (forall d, (d < dim)%nat -> ent X 0 d = ent Q 0 d /\ ent X n d = ent Q m d) -> fit_error p n dim m U (fun g => INR g / INR m) Q X =
    rsum (fun g => rsum (fun d => (spline (kfun U) n p (fun i => ent X i d) (nth (1 + g) v 0) - ent Q (1 + g) d) ^ 2) dim) (m - 1)).
  { intros X HX. unfold fit_error.
    assert (Sp : forall f, rsum f (S m) = f 0%nat + rsum (fun i => f (1 + i)%nat) (m - 1) + f m).
    { intros f. rewrite rsum_first. destruct m as [|m']; [lia|]. replace (S m' - 1)%nat with m' by lia. cbn [rsum]. cbn [plus]. ring. }
    rewrite Sp. rewrite F0, F1.
    rewrite (rsum_ext (fun d => (spline (kfun U) n p (fun i => ent X i d) 0 - ent Q 0 d) ^ 2) (fun _ => 0)) by (intros d Hd; rewrite Ev0; destruct (HX d Hd) as [-> _]; ring).
    rewrite (rsum_ext (fun d => (spline (kfun U) n p (fun i => ent X i d) 1 - ent Q m d) ^ 2) (fun _ => 0)) by (intros d Hd; rewrite Ev1; destruct (HX d Hd) as [_ ->]; ring).
    rewrite rsum_0, Rplus_0_l, Rplus_0_r. apply rsum_ext. intros g Hg. apply rsum_ext. intros d Hd. rewrite Hv by lia. reflexivity. }
  rewrite (FE C HE), (FE C' HE'). apply MIN; [|exact HE']. destruct HC' as [_ [S' _]]. replace (n + 1)%nat with (S n) by lia. exact S'.
Qed.

(** ** which inputs are accepted *)

Lemma normal_ok kn (N : Mat RNum) pen fd rows cols : shape rows cols N -> is_uniform kn = Val (Ok true) ->
  (forall q, pen = Some q -> 0 <= lambda q /\ exists Dm k, fd (kappa q) kn = Val Dm /\ shape k cols Dm) ->
  exists A, @normal_matrix RNum kn N pen fd = Val (Ok A) /\ shape cols cols A.
Proof.
  intros SN UN HP. unfold normal_matrix. destruct (mmul_R cols rows cols _ _ (mtranspose_shape _ _ _ SN) SN) as [G [EG [SG _]]]. rewrite EG. cbn [bind].
  destruct pen as [q|]; [|exists G; split; [reflexivity|exact SG]]. destruct (HP q eq_refl) as [H0 [Dm [k [ED SD]]]].
  assert (LT : Rltb (lambda q) 0 = false) by (apply Rltb_ge; exact H0). rn. rewrite LT.
  destruct (Rltb 0 (lambda q)); rewrite ?UN; cbn [bind unwrap negb]; rewrite ED; cbn [bind];
  (destruct (mmul_R cols k cols _ _ (mtranspose_shape _ _ _ SD) SD) as [H [EH [SH _]]]; rewrite EH; cbn [bind];
   destruct (madd_R cols cols G (mscale (lambda q) H) SG (mscale_shape _ _ _ _ SH)) as [A [EA [SA _]]]; rn; rewrite EA; cbn [bind]; exists A; split; [reflexivity|exact SA]).
Qed.

Lemma normal_neg kn (N : Mat RNum) q fd rows cols : shape rows cols N -> lambda q < 0 -> @normal_matrix RNum kn N (Some q) fd = Val (Err (NegativeLambda (lambda q))).
Proof.
  intros SN HL. unfold normal_matrix. destruct (mmul_R cols rows cols _ _ (mtranspose_shape _ _ _ SN) SN) as [G [EG [SG _]]]. rewrite EG. cbn [bind].
  assert (LT : Rltb (lambda q) 0 = true) by (apply Rltb_lt; exact HL). rn. rewrite LT. reflexivity.
Qed.

Lemma svd_solve_returns svd (A B Y : Mat RNum) k c : returning svd -> shape (S k) (S k) A -> shape (S k) c B -> solves A B Y -> exists X, svd_solve svd A B = Val X /\ shape (S k) c X.
Proof.
  intros RS [A1 [A2 _]] [B1 [B2 _]] HY. unfold svd_solve, mis_empty, ncols. rewrite A1, A2, B1, Nat.eqb_refl. cbn [Nat.eqb orb].
  destruct (RS A B Y HY) as [X [E SX]]. unfold ncols in SX. rewrite A2, B2 in SX. exists X. split; assumption.
Qed.

Section Checks.
  Variables (p n m dim : nat) (U : list R) (Q : Mat RNum) (v : list R).
  Hypotheses (L : length U = (n + p + 2)%nat) (Hpn : (1 <= p <= n)%nat) (SQ : shape dim (m + 1) Q).

  Lemma checks_few pen : (m < n)%nat -> @input_checks RNum (knots_of p U) Q (mkParams v m) pen = Val (Err (RequestedPolynomialSegmentAndDataSegementMismatch n m)).
  Proof.
    intros H. unfold input_checks. rewrite (@knots_of_segments RNum p U n L). cbn [bind]. unfold dp_segments. assert (NQ : ncols Q = (m + 1)%nat) by apply SQ. rewrite NQ.
    rewrite usub_ok by lia. cbn [bind]. replace (m + 1 - 1)%nat with m by lia. replace (m <? n)%nat with true by (symmetry; apply Nat.ltb_lt; exact H). reflexivity.
  Qed.
  Lemma checks_rest pen : (n <= m)%nat -> @input_checks RNum (knots_of p U) Q (mkParams v m) pen =
    match pen with Some q => if (n - 1 <? kappa q)%nat then Val (Err (RequestedPolynomialSegmentAndPenalizationKappaMismatch n (kappa q))) else Val (Ok tt) | None => Val (Ok tt) end.
  Proof.
    intros H. unfold input_checks. rewrite (@knots_of_segments RNum p U n L). cbn [bind]. unfold dp_segments. assert (NQ : ncols Q = (m + 1)%nat) by apply SQ. rewrite NQ.
    rewrite usub_ok by lia. cbn [bind psegments]. replace (m + 1 - 1)%nat with m by lia. replace (m <? n)%nat with false by (symmetry; apply Nat.ltb_ge; exact H).
    rewrite Nat.eqb_refl. cbn [negb]. change (kdegree (@knots_of RNum p U)) with p. replace (n <? p)%nat with false by (symmetry; apply Nat.ltb_ge; lia).
    destruct pen; [|reflexivity]. rewrite usub_ok by lia. reflexivity.
  Qed.
End Checks.

Lemma lsf_low svd n m dim (Q : Mat RNum) me pen : shape dim (S m) Q ->
  generate svd (LeastSquaresFit 0 Q n me pen) = Val (Err (DegreeTooLow 0 0)).
Proof.
  intros SQ. assert (NQ : ncols Q = S m) by apply SQ. cbn [generate]. unfold params_generate, dp_segments. rewrite NQ, usub_ok by lia. cbn [bind]. replace (S m - 1)%nat with m by lia.
  assert (EP : exists v, @equally_spaced RNum m = Val v) by (destruct m as [|m']; [eexists; reflexivity|destruct (equally_spaced_R (S m') ltac:(lia)) as [v [EV _]]; eexists; exact EV]).
  destruct EP as [v ->]. cbn [bind]. rewrite generate_bad. reflexivity.
Qed.

Lemma lsf_few_segments svd p n m dim (Q : Mat RNum) me pen : shape dim (S m) Q -> (1 <= p)%nat -> (n < p)%nat ->
  generate svd (LeastSquaresFit p Q n me pen) = Val (Err (DegreeAndSegmentsMismatch p n)).
Proof.
  intros SQ H1 H2. assert (NQ : ncols Q = S m) by apply SQ. cbn [generate]. unfold params_generate, dp_segments. rewrite NQ, usub_ok by lia. cbn [bind]. replace (S m - 1)%nat with m by lia.
  assert (EP : exists v, @equally_spaced RNum m = Val v) by (destruct m as [|m']; [eexists; reflexivity|destruct (equally_spaced_R (S m') ltac:(lia)) as [v [EV _]]; eexists; exact EV]).
  destruct EP as [v ->]. cbn [bind]. rewrite generate_short by assumption. reflexivity.
Qed.

Lemma lsf_few_data svd p n m dim (Q : Mat RNum) me pen : shape dim (S m) Q -> (1 <= p <= n)%nat -> (m < n)%nat ->
  generate svd (LeastSquaresFit p Q n me pen) = Val (Err (FitErr (RequestedPolynomialSegmentAndDataSegementMismatch n m))).
Proof.
  intros SQ Hp Hm. assert (NQ : ncols Q = S m) by apply SQ. assert (SQ' : shape dim (m + 1) Q) by (replace (m + 1)%nat with (S m) by lia; exact SQ).
  cbn [generate]. unfold params_generate, dp_segments. rewrite NQ, usub_ok by lia. cbn [bind]. replace (S m - 1)%nat with m by lia.
  assert (EP : exists v, @equally_spaced RNum m = Val (mkParams v m)) by (destruct m as [|m']; [eexists; reflexivity|destruct (equally_spaced_R (S m') ltac:(lia)) as [v [EV _]]; eexists; exact EV]).
  destruct EP as [v ->]. cbn [bind knots_generate]. destruct (uniform_fact p n Hp) as [kn [U [A [B [V [CL _]]]]]]. rewrite A. cbn [bind]. destruct (knots_new_inv p U kn B) as [-> _].
  destruct me; unfold fixed_fit, loose_fit; rewrite (checks_few p n m dim U Q v (cl_len _ _ _ CL) Hp SQ') by exact Hm; reflexivity.
Qed.

Lemma lsf_kappa svd p n m dim (Q : Mat RNum) me q : shape dim (S m) Q -> (1 <= p <= n)%nat -> (n <= m)%nat -> (n - 1 < kappa q)%nat ->
  generate svd (LeastSquaresFit p Q n me (Some q)) = Val (Err (FitErr (RequestedPolynomialSegmentAndPenalizationKappaMismatch n (kappa q)))).
Proof.
  intros SQ Hp Hm HK. assert (SQ' : shape dim (m + 1) Q) by (replace (m + 1)%nat with (S m) by lia; exact SQ).
  destruct (lsf_step svd p n m dim Q me (Some q) SQ Hp ltac:(lia)) as [v [kn [U [Lv [Hv [A [B [CL [-> [UN ->]]]]]]]]]].
  destruct me; unfold fixed_fit, loose_fit; rewrite (checks_rest p n m dim U Q v (cl_len _ _ _ CL) Hp SQ') by exact Hm;
    replace (n - 1 <? kappa q)%nat with true by (symmetry; apply Nat.ltb_lt; exact HK); reflexivity.
Qed.

Lemma lsf_loose svd p n m dim (Q : Mat RNum) pen : returning svd -> shape dim (S m) Q -> (1 <= p <= n)%nat -> (n <= m)%nat ->
  (forall q, pen = Some q -> (kappa q <= n - 1)%nat) ->
  match pen with
  | Some q => (lambda q < 0 -> generate svd (LeastSquaresFit p Q n LooseEnds pen) = Val (Err (FitErr (NegativeLambda (lambda q))))) /\
              (0 <= lambda q -> exists c, generate svd (LeastSquaresFit p Q n LooseEnds pen) = Val (Ok c))
  | None => exists c, generate svd (LeastSquaresFit p Q n LooseEnds pen) = Val (Ok c)
  end.
Proof.
  intros RS SQ Hp Hm HK. assert (SQ' : shape dim (m + 1) Q) by (replace (m + 1)%nat with (S m) by lia; exact SQ).
  destruct (lsf_step svd p n m dim Q LooseEnds pen SQ Hp ltac:(lia)) as [v [kn [U [Lv [Hv [A [B [CL [-> [UN ->]]]]]]]]]].
  unfold loose_fit. rewrite (checks_rest p n m dim U Q v (cl_len _ _ _ CL) Hp SQ') by exact Hm.
  assert (EC : match pen with Some q => if (n - 1 <? kappa q)%nat then Val (Err (RequestedPolynomialSegmentAndPenalizationKappaMismatch n (kappa q))) else Val (Ok tt) | None => Val (Ok tt) end = @Val (result unit (FitError RNum)) (Ok tt)).
  { destruct pen as [q|]; [|reflexivity]. replace (n - 1 <? kappa q)%nat with false by (symmetry; apply Nat.ltb_ge; apply HK; reflexivity). reflexivity. }
  rewrite EC. cbn [bind].
  destruct (loose_coefficients_R p n U (cl_len _ _ _ CL) ltac:(lia) (cl_sorted _ _ _ CL) dim m Q v m SQ' Lv) as [N [EN [SN HN]]]. rewrite EN. cbn [bind].
  assert (G : (forall q, pen = Some q -> 0 <= lambda q) -> exists c,
    (P <- (A <- normal_matrix (knots_of p U) N pen loose_difference;; match A with Err e => Val (Err e) | Ok A => B <- mmul (mtranspose N) (mtranspose Q);; X <- svd_solve svd A B;; Val (Ok (mtranspose X)) end);;
     match P with Err e => Val (Err (FitErr e)) | Ok P => curve_new (knots_of p U) (cp_new P) end) = Val (Ok c)).
  { intros H0. destruct (normal_ok (knots_of p U) N pen loose_difference (m + 1) (n + 1) SN UN) as [X [EX SX]].
    - intros q Eq. split; [apply H0; exact Eq|]. destruct (loose_difference_R p n U (cl_len _ _ _ CL) ltac:(lia) (kappa q)) as [Dm [ED [SD _]]]; [assert (T := HK q Eq); lia|]. exists Dm. eexists. split; [exact ED|exact SD].
    - rewrite EX. cbn [bind]. destruct (mmul_R (n + 1) (m + 1) dim _ _ (mtranspose_shape _ _ _ SN) (mtranspose_shape _ _ _ SQ')) as [Bm [EB [SB HB]]]. rewrite EB. cbn [bind].
      assert (Sv : exists Y, solves X Bm Y).
      { apply (system_solvable pen _ N _ X Bm (m + 1) (n + 1) dim (fun g d => ent Q g d) SN EX); [|exact SB|].
        - intros q Dm Eq ED. destruct (loose_difference_R p n U (cl_len _ _ _ CL) ltac:(lia) (kappa q)) as [Dm' [ED' [SD _]]]; [assert (T := HK q Eq); lia|]. rewrite ED' in ED. injection ED as <-. eexists. exact SD.
        - intros i d Hi Hd. rewrite HB by assumption. apply rsum_ext. intros g Hg. rewrite (ent_mtranspose_R (m + 1) (n + 1) N g i SN Hg Hi), (ent_mtranspose_R dim (m + 1) Q d g SQ' Hd Hg). reflexivity. }
      destruct Sv as [Y0 HY0].
      replace (n + 1)%nat with (S n) in SX, SB by lia. destruct (svd_solve_returns svd X Bm Y0 n dim RS SX SB HY0) as [Y [EY SY]]. rewrite EY. cbn [bind].
      destruct (curve_new_clamped p n dim U (mtranspose Y) _ CL (mtranspose_shape _ _ _ SY) B) as [c [Ec _]]. exists c. exact Ec. }
  destruct pen as [q|].
  - split; [|intros H0; apply G; intros q' Eq; injection Eq as <-; exact H0]. intros HL. rewrite (normal_neg _ N q _ (m + 1) (n + 1) SN HL). reflexivity.
  - apply G. intros q Eq. discriminate Eq.
Qed.

Lemma lsf_fixed svd p n m dim (Q : Mat RNum) pen : returning svd -> shape dim (S m) Q -> (1 <= p <= n)%nat -> (n <= m)%nat -> (2 <= n)%nat ->
  (forall q, pen = Some q -> (kappa q <= n - 1)%nat) ->
  match pen with
  | Some q => (lambda q < 0 -> generate svd (LeastSquaresFit p Q n FixedEnds pen) = Val (Err (FitErr (NegativeLambda (lambda q))))) /\
              (0 <= lambda q -> (kappa q <= n - 2)%nat -> exists c, generate svd (LeastSquaresFit p Q n FixedEnds pen) = Val (Ok c)) /\
              (0 <= lambda q -> kappa q = (n - 1)%nat -> generate svd (LeastSquaresFit p Q n FixedEnds pen) = Panic)
  | None => exists c, generate svd (LeastSquaresFit p Q n FixedEnds pen) = Val (Ok c)
  end.
Proof.
  intros RS SQ Hp Hm H2 HK. assert (SQ' : shape dim (m + 1) Q) by (replace (m + 1)%nat with (S m) by lia; exact SQ).
  destruct (lsf_step svd p n m dim Q FixedEnds pen SQ Hp ltac:(lia)) as [v [kn [U [Lv [Hv [A [B [CL [-> [UN ->]]]]]]]]]].
  unfold fixed_fit. rewrite (checks_rest p n m dim U Q v (cl_len _ _ _ CL) Hp SQ') by exact Hm.
  assert (EC : match pen with Some q => if (n - 1 <? kappa q)%nat then Val (Err (RequestedPolynomialSegmentAndPenalizationKappaMismatch n (kappa q))) else Val (Ok tt) | None => Val (Ok tt) end = @Val (result unit (FitError RNum)) (Ok tt)).
  { destruct pen as [q|]; [|reflexivity]. replace (n - 1 <? kappa q)%nat with false by (symmetry; apply Nat.ltb_ge; apply HK; reflexivity). reflexivity. }
  rewrite EC. cbn [bind].
  destruct (qvectors_R p n U (cl_len _ _ _ CL) ltac:(lia) (cl_sorted _ _ _ CL) dim m Q v m SQ' Lv ltac:(lia)) as [W [EW [SW _]]]. rewrite EW. cbn [bind].
  destruct (constant_terms_R p n U (cl_len _ _ _ CL) ltac:(lia) (cl_sorted _ _ _ CL) dim m Q W v m SQ' SW Lv ltac:(lia) ltac:(lia)) as [Z [EZ [SZ HZ]]]. rewrite EZ. cbn [bind].
  destruct (fixed_coefficients_R p n U (cl_len _ _ _ CL) ltac:(lia) (cl_sorted _ _ _ CL) dim m Q v m SQ' Lv ltac:(lia) ltac:(lia)) as [N [EN [SN HN]]]. rewrite EN. cbn [bind].
  set (rest := fun A0 : result (Mat RNum) (FitError RNum) => match A0 with Ok A => _ | Err e => _ end).
  assert (G : (forall q, pen = Some q -> 0 <= lambda q /\ (kappa q <= n - 2)%nat) -> exists c,
    (P <- bind (normal_matrix (knots_of p U) N pen fixed_difference) rest;; match P with Err e => Val (Err (FitErr e)) | Ok P => curve_new (knots_of p U) (cp_new P) end) = Val (Ok c)).
  { intros H0. destruct (normal_ok (knots_of p U) N pen fixed_difference (m - 1) (n - 1) SN UN) as [X [EX SX]].
    - intros q Eq. destruct (H0 q Eq) as [H01 H02]. split; [exact H01|]. destruct (fixed_difference_R p n U (cl_len _ _ _ CL) ltac:(lia) (kappa q) H2 H02) as [Dm [ED [SD _]]]. exists Dm. eexists. split; [exact ED|exact SD].
    - rewrite EX. cbn [bind]. unfold rest at 1. assert (ST := mtranspose_shape _ _ _ SZ).
      assert (Sv : exists Y, solves X (mtranspose Z) Y).
      { apply (system_solvable pen _ N _ X (mtranspose Z) (m - 1) (n - 1) dim (fun g d => ent W (1 + g) d) SN EX); [|exact ST|].
        - intros q Dm Eq ED. destruct (fixed_difference_inv p n U (cl_len _ _ _ CL) _ _ ED) as [I1 I2]. destruct (fixed_difference_R p n U (cl_len _ _ _ CL) ltac:(lia) (kappa q) I1 I2) as [Dm' [ED' [SD _]]]. rewrite ED' in ED. injection ED as <-. eexists. exact SD.
        - intros i d Hi Hd. rewrite (ent_mtranspose_R dim (n - 1) Z d i SZ Hd Hi). rewrite HZ by assumption. apply rsum_ext. intros g Hg. rewrite HN by assumption. reflexivity. }
      destruct Sv as [Y0 HY0].
      replace (n - 1)%nat with (S (n - 2)) in SX, ST by lia. destruct (svd_solve_returns svd X (mtranspose Z) Y0 (n - 2) dim RS SX ST HY0) as [Y [EY SY]]. rewrite EY. cbn [bind].
      rewrite (@knots_of_segments RNum p U n (cl_len _ _ _ CL)). cbn [bind]. unfold dp_segments. assert (NQ : ncols Q = S m) by apply SQ. rewrite NQ, usub_ok by lia. cbn [bind]. replace (S m - 1)%nat with m by lia.
      assert (RQ : nrows Q = dim) by apply SQ. rewrite RQ. replace (S (n - 2)) with (n - 1)%nat in SY by lia.
      destruct (assemble_R dim n m Q (mtranspose Y) SQ' (mtranspose_shape _ _ _ SY) ltac:(lia)) as [C0 [EC0 [SC _]]]. rewrite EC0. cbn [bind].
      replace (n + 1)%nat with (S n) in SC by lia. destruct (curve_new_clamped p n dim U C0 _ CL SC B) as [c [Ec _]]. exists c. exact Ec. }
  destruct pen as [q|].
  - split; [|split].
    + intros HL. rewrite (normal_neg _ N q _ (m - 1) (n - 1) SN HL). reflexivity.
    + intros H0 H1. apply G. intros q' Eq. injection Eq as <-. split; assumption.
    + intros H0 H1. unfold normal_matrix. destruct (mmul_R (n - 1) (m - 1) (n - 1) _ _ (mtranspose_shape _ _ _ SN) SN) as [X [EX _]]. rewrite EX. cbn [bind].
      assert (LT : Rltb (lambda q) 0 = false) by (apply Rltb_ge; exact H0). rn. rewrite LT.
      assert (ED : fixed_difference (kappa q) (knots_of p U) = Panic).
      { unfold fixed_difference. rewrite (@knots_of_segments RNum p U n (cl_len _ _ _ CL)). cbn [bind]. rewrite usub_ok by lia. cbn [bind].
        replace (kappa q <=? n - 2)%nat with false by (symmetry; apply Nat.leb_gt; lia). reflexivity. }
      destruct (Rltb 0 (lambda q)); rewrite ?UN; cbn [bind unwrap negb]; rn; rewrite ED; reflexivity.
  - apply G. intros q Eq. discriminate Eq.
Qed.

(** with a single segment requested the fixed-ends fit always panics, if it gets
    as far as the linear algebra *)
Lemma lsf_fixed_one svd m dim (Q : Mat RNum) : shape dim (S m) Q -> (1 <= m)%nat ->
  generate svd (LeastSquaresFit 1 Q 1 FixedEnds None) = Panic.
Proof.
  intros SQ Hm. assert (SQ' : shape dim (m + 1) Q) by (replace (m + 1)%nat with (S m) by lia; exact SQ).
  destruct (lsf_step svd 1 1 m dim Q FixedEnds None SQ ltac:(lia) Hm) as [v [kn [U [Lv [Hv [A [B [CL [-> [UN ->]]]]]]]]]].
  unfold fixed_fit. rewrite (checks_rest 1 1 m dim U Q v (cl_len _ _ _ CL) ltac:(lia) SQ') by exact Hm. cbn [bind].
  destruct (qvectors_R 1 1 U (cl_len _ _ _ CL) ltac:(lia) (cl_sorted _ _ _ CL) dim m Q v m SQ' Lv ltac:(lia)) as [W [EW [SW _]]]. rewrite EW. cbn [bind].
  destruct (constant_terms_R 1 1 U (cl_len _ _ _ CL) ltac:(lia) (cl_sorted _ _ _ CL) dim m Q W v m SQ' SW Lv ltac:(lia) ltac:(lia)) as [Z [EZ [SZ _]]]. rewrite EZ. cbn [bind].
  destruct (fixed_coefficients_R 1 1 U (cl_len _ _ _ CL) ltac:(lia) (cl_sorted _ _ _ CL) dim m Q v m SQ' Lv ltac:(lia) ltac:(lia)) as [N [EN [SN _]]]. rewrite EN. cbn [bind].
  destruct (normal_ok (knots_of 1 U) N None fixed_difference (m - 1) (1 - 1) SN UN ltac:(intros q Eq; discriminate Eq)) as [X [EX SX]]. rewrite EX. cbn [bind].
  unfold svd_solve, mis_empty. destruct SX as [SX1 _]. rewrite SX1. reflexivity.
Qed.
