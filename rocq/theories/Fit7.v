(** * Consequences: reproduction, penalties without effect, panics of the fixed fit *)

From Coq Require Import ZArith Reals List Bool Arith Lia Lra.
From Coq Require Import ClassicalEpsilon.
From Verif Require Import Num Vec MKnots MPoints MCurve MFit MGenerate RNum Hoare Lists Struct Spec BMath BMath2 BMath3 Api Bridge Facts1 Gen1 Gen2 Gen3 Gen4 LinAlg SW Fit1 Fit2 Fit3 Fit4 Fit5 Fit6.
Import ListNotations.
Local Open Scope R_scope.

(** ** a solver as assumed exists *)
Definition some_solver (A B : Mat RNum) : M (Mat RNum) :=
  match excluded_middle_informative (exists X, solves A B X) with
  | left H => Val (proj1_sig (constructive_indefinite_description _ H))
  | right _ => Val (mzeros (ncols A) (ncols B))
  end.

Lemma some_solver_good : good_solver some_solver.
Proof.
  intros A B X H. unfold some_solver. destruct (excluded_middle_informative _) as [E|E]; [|destruct E; exists X; exact H].
  destruct (constructive_indefinite_description _ E) as [Y HY]. exists Y. split; [reflexivity|exact HY].
Qed.

Lemma some_solver_returning : returning_solver some_solver.
Proof.
  intros A B. unfold some_solver. destruct (excluded_middle_informative _) as [E|E].
  - destruct (constructive_indefinite_description _ E) as [Y HY]. exists Y. split; [reflexivity|apply HY].
  - eexists. split; [reflexivity|]. apply mzeros_shape.
Qed.

(** ** reproduction *)

Lemma uniform_list p n (U U' : list R) : clamped p n U -> clamped p n U' -> uniform_knots p n U -> uniform_knots p n U' -> U = U'.
Proof.
  intros C C' K K'. assert (L := cl_len _ _ _ C). assert (L' := cl_len _ _ _ C'). apply (list_ext 0); [lia|]. intros i Hi.
  destruct (le_lt_dec p i) as [H|H]; [|rewrite (cl_zero _ _ _ C), (cl_zero _ _ _ C') by lia; reflexivity].
  destruct (le_lt_dec i (n + 1)) as [H'|H']; [rewrite K, K' by lia; reflexivity|].
  rewrite (cl_one _ _ _ C), (cl_one _ _ _ C') by lia. reflexivity.
Qed.

Lemma same_curve p n dim U C C' c c' : clamped_curve p n dim U C c -> clamped_curve p n dim U C' c' ->
  (forall i d, (i <= n)%nat -> (d < dim)%nat -> ent C i d = ent C' i d) -> c = c'.
Proof.
  intros [_ [S1 [kn [K1 B1]]]] [_ [S2 [kn' [K2 B2]]]] H. rewrite K1 in K2. injection K2 as <-.
  assert (C = C') as <-.
  { apply (mat_ext C C' dim (S n) S1 S2). intros i d Hi Hd. apply H; lia. }
  rewrite B1 in B2. injection B2 as <-. reflexivity.
Qed.

Lemma data_error_nonneg c dim m Q e : data_error c dim m Q e -> 0 <= e.
Proof. intros [f [_ ->]]. apply rsum_nonneg. intros g Hg. apply rsum_nonneg. intros d Hd. apply pow2_ge_0. Qed.

Lemma penalty_nonneg pen count off dim C : (forall q, pen = Some q -> 0 <= lambda q) -> 0 <= penalty pen count off dim C.
Proof.
  intros H. destruct pen as [q|]; cbn [penalty]; [|lra]. apply Rmult_le_pos; [apply H; reflexivity|].
  apply rsum_nonneg. intros g Hg. apply rsum_nonneg. intros d Hd. apply pow2_ge_0.
Qed.

Lemma sampled_error c dim m Q : (forall g, (g <= m)%nat -> returns (evaluate c (INR g / INR m)) dim (fun d => ent Q g d)) -> data_error c dim m Q 0.
Proof.
  intros H. exists (fun g d => ent Q g d). split; [exact H|]. symmetry. apply rsum_zero. intros g Hg. apply rsum_zero. intros d Hd.
  replace (ent Q g d - ent Q g d) with 0 by (rn; ring). ring.
Qed.

Lemma interpolation_reproduces svd p m dim U C c (Q : Mat RNum) : good_solver svd -> (1 <= p)%nat -> clamped_curve p m dim U C c -> uniform_knots p m U -> shape dim (S m) Q ->
  (forall g, (g <= m)%nat -> returns (evaluate c (INR g / INR m)) dim (fun d => ent Q g d)) -> generate svd (Interpolation p Q) = Val (Ok c).
Proof.
  intros GS Hp HC UK SQ HD. assert (Hpn := cl_deg _ _ _ (proj1 HC)).
  destruct (interpolation_fact svd p m dim Q GS ltac:(lia) SQ) as [U' [C' [c' [E [HC' [UK' [_ UN]]]]]]].
  assert (U = U') as <- by (apply (uniform_list p m); [apply HC|apply HC'|exact UK|exact UK']).
  rewrite E. do 2 f_equal. symmetry. apply (same_curve p m dim U C C' c c' HC HC'). apply (UN C c HC HD).
Qed.

Lemma loose_reproduces svd p n m dim U C c pen (Q : Mat RNum) : good_solver svd -> (1 <= p)%nat -> (n <= m)%nat -> clamped_curve p n dim U C c -> uniform_knots p n U -> shape dim (S m) Q ->
  (forall q, pen = Some q -> 0 <= lambda q /\ (1 <= kappa q <= n - 1)%nat) -> penalty pen (S n) 0 dim C = 0 ->
  (forall g, (g <= m)%nat -> returns (evaluate c (INR g / INR m)) dim (fun d => ent Q g d)) -> generate svd (LeastSquaresFit p Q n LooseEnds pen) = Val (Ok c).
Proof.
  intros GS Hp Hm HC UK SQ HP P0 HD. assert (Hpn := cl_deg _ _ _ (proj1 HC)).
  destruct (loose_fit_fact svd p n m dim Q pen GS SQ ltac:(lia) Hm HP) as [U' [C' [c' [e [E [HC' [UK' [DE UN]]]]]]]].
  assert (U = U') as <- by (apply (uniform_list p n); [apply HC|apply HC'|exact UK|exact UK']).
  rewrite E. do 2 f_equal. symmetry. apply (same_curve p n dim U C C' c c' HC HC').
  destruct (UN C c 0 HC (sampled_error c dim m Q HD)) as [_ G]. apply G. rewrite P0.
  assert (T := data_error_nonneg _ _ _ _ _ DE). assert (T2 := penalty_nonneg pen (S n) 0 dim C' ltac:(intros q Eq; apply (HP q Eq))). lra.
Qed.

Lemma fixed_reproduces svd p n m dim U C c pen (Q : Mat RNum) : good_solver svd -> (1 <= p)%nat -> (2 <= n <= m)%nat -> clamped_curve p n dim U C c -> uniform_knots p n U -> shape dim (S m) Q ->
  (forall q, pen = Some q -> 0 <= lambda q /\ (1 <= kappa q <= n - 2)%nat) -> penalty pen (n - 1) 1 dim C = 0 ->
  (forall g, (g <= m)%nat -> returns (evaluate c (INR g / INR m)) dim (fun d => ent Q g d)) -> generate svd (LeastSquaresFit p Q n FixedEnds pen) = Val (Ok c).
Proof.
  intros GS Hp Hm HC UK SQ HP P0 HD. assert (Hpn := cl_deg _ _ _ (proj1 HC)).
  destruct (fixed_fit_fact svd p n m dim Q pen GS SQ ltac:(lia) Hm HP) as [U' [C' [c' [e [E [HC' [UK' [DE [_ [_ UN]]]]]]]]]].
  assert (U = U') as <- by (apply (uniform_list p n); [apply HC|apply HC'|exact UK|exact UK']).
  rewrite E. do 2 f_equal. symmetry. apply (same_curve p n dim U C C' c c' HC HC').
  assert (F0 : INR 0 / INR m = 0) by (cbn [INR]; unfold Rdiv; ring).
  assert (F1 : INR m / INR m = 1) by (unfold Rdiv; apply Rinv_r; assert (T := INR_pos m ltac:(lia)); lra).
  assert (R0 := HD 0%nat ltac:(lia)). assert (R1 := HD m ltac:(lia)). rewrite F0 in R0. rewrite F1 in R1.
  destruct (UN C c 0 HC (sampled_error c dim m Q HD) R0 R1) as [_ G]. apply G. rewrite P0.
  assert (T := data_error_nonneg _ _ _ _ _ DE). assert (T2 := penalty_nonneg pen (n - 1) 1 dim C' ltac:(intros q Eq; apply (HP q Eq))). lra.
Qed.

(** ** penalties without effect *)

Lemma normal_noop kn (N : Mat RNum) q fd rows cols Dm k : shape rows cols N -> is_uniform kn = Val (Ok true) -> 0 <= lambda q ->
  fd (kappa q) kn = Val Dm -> shape k cols Dm -> (lambda q = 0 \/ forall i r, (i < cols)%nat -> (r < k)%nat -> ent Dm i r = 0) ->
  @normal_matrix RNum kn N (Some q) fd = @normal_matrix RNum kn N None fd.
Proof.
  intros SN UN H0 ED SD HZ.
  destruct (normal_ok kn N (Some q) fd rows cols SN UN) as [A [EA SA]]; [intros q' Eq; injection Eq as <-; split; [exact H0|]; exists Dm, k; split; assumption|].
  destruct (normal_ok kn N None fd rows cols SN UN) as [A' [EA' SA']]; [intros q' Eq; discriminate Eq|].
  rewrite EA, EA'. do 2 f_equal. apply (mat_ext A A' cols cols SA SA'). intros j i Hj Hi.
  assert (T := normal_R kn N (Some q) fd A rows cols SN EA). assert (T' := normal_R kn N None fd A' rows cols SN EA'). cbv beta iota in T, T'.
  destruct T as [_ [Dm' [ED' T]]]. rewrite ED in ED'. injection ED' as <-. destruct (T k SD) as [_ HA]. destruct T' as [_ HA'].
  rewrite HA, HA' by assumption. destruct HZ as [HZ|HZ]; [rewrite HZ; rn; ring|].
  rewrite (rsum_zero (fun r => ent Dm i r * ent Dm j r)); [rn; ring|]. intros r Hr. rewrite HZ by assumption. rn. ring.
Qed.

Lemma penalty_noop svd p n m dim (Q : Mat RNum) me q : shape dim (S m) Q -> (1 <= p <= n)%nat -> (n <= m)%nat ->
  match me with LooseEnds => (kappa q <= n - 1)%nat | FixedEnds => (2 <= n)%nat /\ (kappa q <= n - 2)%nat end ->
  lambda q = 0 \/ 0 <= lambda q /\ kappa q = 0%nat ->
  generate svd (LeastSquaresFit p Q n me (Some q)) = generate svd (LeastSquaresFit p Q n me None).
Proof.
  intros SQ Hp Hm HK HL. assert (SQ' : shape dim (m + 1) Q) by (replace (m + 1)%nat with (S m) by lia; exact SQ).
  destruct (lsf_step svd p n m dim Q me (Some q) SQ Hp ltac:(lia)) as [v [kn [U [Lv [Hv [A [B [CL [K0 [UN EG]]]]]]]]]].
  destruct (lsf_step svd p n m dim Q me None SQ Hp ltac:(lia)) as [v' [kn' [U' [Lv' [Hv' [A' [B' [CL' [K0' [UN' EG']]]]]]]]]].
  rewrite A in A'. injection A' as <-. rewrite K0 in K0'. apply (f_equal (@vector RNum)) in K0'. rewrite !(@knots_of_vector RNum) in K0'. injection K0' as <-.
  assert (v = v') as <- by (apply (list_ext 0); [lia|]; intros g Hg; rewrite Hv, Hv' by lia; reflexivity).
  rewrite EG, EG'. clear EG EG'. subst kn.
  assert (H0 : 0 <= lambda q) by (destruct HL as [->|[HL _]]; [lra|exact HL]).
  assert (CK : @input_checks RNum (knots_of p U) Q (mkParams v m) (Some q) = @input_checks RNum (knots_of p U) Q (mkParams v m) None).
  { rewrite !(checks_rest p n m dim U Q v (cl_len _ _ _ CL) Hp SQ') by exact Hm. replace (n - 1 <? kappa q)%nat with false by (symmetry; apply Nat.ltb_ge; destruct me; lia). reflexivity. }
  f_equal. destruct me; unfold fixed_fit, loose_fit; rewrite CK; rewrite (checks_rest p n m dim U Q v (cl_len _ _ _ CL) Hp SQ') by exact Hm; cbn [bind].
  - destruct (qvectors_R p n U (cl_len _ _ _ CL) ltac:(lia) (cl_sorted _ _ _ CL) dim m Q v m SQ' Lv ltac:(lia)) as [W [EW [SW _]]]. rewrite EW. cbn [bind].
    destruct (constant_terms_R p n U (cl_len _ _ _ CL) ltac:(lia) (cl_sorted _ _ _ CL) dim m Q W v m SQ' SW Lv ltac:(lia) ltac:(lia)) as [Z [EZ [SZ HZ]]]. rewrite EZ. cbn [bind].
    destruct (fixed_coefficients_R p n U (cl_len _ _ _ CL) ltac:(lia) (cl_sorted _ _ _ CL) dim m Q v m SQ' Lv ltac:(lia) ltac:(lia)) as [N [EN [SN HN]]]. rewrite EN. cbn [bind].
    destruct HK as [H2 HK]. destruct (fixed_difference_R p n U (cl_len _ _ _ CL) ltac:(lia) (kappa q) H2 HK) as [Dm [ED [SD HDm]]].
    rewrite (normal_noop _ N q _ (m - 1) (n - 1) Dm _ SN UN H0 ED SD); [reflexivity|]. destruct HL as [HL|[_ HL]]; [left; exact HL|right]. intros i r Hi Hr. rewrite HDm by assumption. rewrite HL. reflexivity.
  - destruct (loose_coefficients_R p n U (cl_len _ _ _ CL) ltac:(lia) (cl_sorted _ _ _ CL) dim m Q v m SQ' Lv) as [N [EN [SN HN]]]. rewrite EN. cbn [bind].
    destruct (loose_difference_R p n U (cl_len _ _ _ CL) ltac:(lia) (kappa q)) as [Dm [ED [SD HDm]]]; [lia|].
    rewrite (normal_noop _ N q _ (m + 1) (n + 1) Dm _ SN UN H0 ED SD); [reflexivity|]. destruct HL as [HL|[_ HL]]; [left; exact HL|right]. intros i r Hi Hr. rewrite HDm by lia. rewrite HL. reflexivity.
Qed.

(** ** the fixed fit panics for [kappa = n - 1] *)
Lemma lsf_fixed_panic svd p n m dim (Q : Mat RNum) q : shape dim (S m) Q -> (1 <= p <= n)%nat -> (n <= m)%nat -> (2 <= n)%nat ->
  0 <= lambda q -> kappa q = (n - 1)%nat -> generate svd (LeastSquaresFit p Q n FixedEnds (Some q)) = Panic.
Proof.
  intros SQ Hp Hm H2 H0 H1. assert (SQ' : shape dim (m + 1) Q) by (replace (m + 1)%nat with (S m) by lia; exact SQ).
  destruct (lsf_step svd p n m dim Q FixedEnds (Some q) SQ Hp ltac:(lia)) as [v [kn [U [Lv [Hv [A [B [CL [-> [UN ->]]]]]]]]]].
  unfold fixed_fit. rewrite (checks_rest p n m dim U Q v (cl_len _ _ _ CL) Hp SQ') by exact Hm.
  replace (n - 1 <? kappa q)%nat with false by (symmetry; apply Nat.ltb_ge; lia). cbn [bind].
  destruct (qvectors_R p n U (cl_len _ _ _ CL) ltac:(lia) (cl_sorted _ _ _ CL) dim m Q v m SQ' Lv ltac:(lia)) as [W [EW [SW _]]]. rewrite EW. cbn [bind].
  destruct (constant_terms_R p n U (cl_len _ _ _ CL) ltac:(lia) (cl_sorted _ _ _ CL) dim m Q W v m SQ' SW Lv ltac:(lia) ltac:(lia)) as [Z [EZ [SZ HZ]]]. rewrite EZ. cbn [bind].
  destruct (fixed_coefficients_R p n U (cl_len _ _ _ CL) ltac:(lia) (cl_sorted _ _ _ CL) dim m Q v m SQ' Lv ltac:(lia) ltac:(lia)) as [N [EN [SN HN]]]. rewrite EN. cbn [bind].
  unfold normal_matrix. destruct (mmul_R (n - 1) (m - 1) (n - 1) _ _ (mtranspose_shape _ _ _ SN) SN) as [X [EX _]]. rewrite EX. cbn [bind].
  assert (LT : Rltb (lambda q) 0 = false) by (apply Rltb_ge; exact H0). rn. rewrite LT.
  assert (ED : fixed_difference (kappa q) (knots_of p U) = Panic).
  { unfold fixed_difference. rewrite (@knots_of_segments RNum p U n (cl_len _ _ _ CL)). cbn [bind]. rewrite usub_ok by lia. cbn [bind].
    replace (kappa q <=? n - 2)%nat with false by (symmetry; apply Nat.leb_gt; lia). reflexivity. }
  destruct (Rltb 0 (lambda q)); rewrite ?UN; cbn [bind unwrap negb]; rn; rewrite ED; reflexivity.
Qed.
