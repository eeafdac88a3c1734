(** * Accuracy in binary64 when the knots are rounded too: reversal *)

From Coq Require Import ZArith Reals List Bool Arith Lia Lra Psatz.
From Flocq Require Import Core.Core IEEE754.BinarySingleNaN.
From Verif Require Import Num Vec MKnots MPoints MCurve MGenerate RNum F64 Hoare Lists Struct Divisions Spec BMath BMath2 BMath3 BMath4 SW Api ApiF ApiF2 Bridge Facts1 Facts3 Shape1 Shape2 Shape3 Stab Float1 Float4 Float5 Float6 Float7 Float15 Gen4.
Import ListNotations.
Local Open Scope R_scope.

(** evaluation needs the knots and the points, not the cached derivatives *)
Lemma eval_wf p n dim (U : list f64) P M c (u : f64) : @wf F64 p n dim U P c -> float_knots p n U ->
  (forall i d, (i <= n)%nat -> (d < dim)%nat -> finite (ent P i d) /\ Rabs (val (ent P i d)) <= M) ->
  (p <= 100)%nat -> / 2 ^ 1000 <= M <= 2 ^ 1022 -> finite u -> 0 <= val u <= 1 ->
  returns_within (@evaluate F64 c u) dim (fun d => spline (kfun (map val U)) n p (fun i => val (ent P i d)) (val u))
    ((6 * INR p + 3) * / 2 ^ 53 * M).
Proof.
  intros W K B Hp HM Fu Hu.
  assert (E2 : 2 ^ 1022 = pow2 1022) by (rewrite (bpow_powerRZ radix2 1022); reflexivity).
  rewrite eps_pow. unfold evaluate.
  assert (T := evalk_F64 p n dim U P c 0 u M W K ltac:(lia) ltac:(lia)).
  rewrite (wf_head _ _ _ _ _ _ W) in T. rewrite !Nat.sub_0_r in T. rewrite pow2_1000, E2 in HM.
  specialize (T B HM Fu Hu).
  destruct T as [v [Ev [Lv Hv]]]. exists v. split; [exact Ev|]. split; [exact Lv|]. intros d Hd. destruct (Hv d Hd) as [H1 H2].
  split; [exact H1|]. match goal with |- Rabs (_ - ?x) <= _ => match type of H2 with Rabs (_ - ?y) <= _ => replace x with y end end; [exact H2|].
  unfold spline. apply rsum_ext. intros i _. f_equal. unfold bspline. apply cox_ext; intros; unfold span_ind, shift; rewrite ?Nat.add_0_r; reflexivity.
Qed.

Lemma within_more {E} (r : Num.M (result (list f64) E)) dim f g e e' : returns_within r dim f e ->
  (forall d, (d < dim)%nat -> Rabs (f d - g d) <= e') -> returns_within r dim g (e + e').
Proof.
  intros [v [A [B C]]] D. exists v. split; [exact A|]. split; [exact B|]. intros d Hd. destruct (C d Hd) as [C1 C2]. split; [exact C1|].
  replace (val (nth d v (@n0 F64)) - g d) with ((val (nth d v (@n0 F64)) - f d) + (f d - g d)) by ring.
  eapply Rle_trans; [apply Rabs_triang|]. specialize (D d Hd). lra.
Qed.

(** the curve over exact knots [U] against the evaluation over rounded knots [V] *)
Lemma near_eval p n dim (V : list f64) P M c (U : list R) dl h (u : f64) : @wf F64 p n dim V P c -> float_knots p n V ->
  (forall i d, (i <= n)%nat -> (d < dim)%nat -> finite (ent P i d) /\ Rabs (val (ent P i d)) <= M) ->
  clamped p n U -> (1 <= p <= 100)%nat -> (forall x, 0 < x < 1 -> mult_le (kfun U) x p) ->
  (forall i, (i < length U)%nat -> Rabs (nth i U 0 - nth i (map val V) 0) <= dl) ->
  (forall i, (p <= i <= n)%nat -> nth i (map val V) 0 < nth (S i) (map val V) 0 -> nth i U 0 < nth (S i) U 0) ->
  0 < h -> (forall i, (p <= i <= n)%nat -> nth i U 0 < nth (S i) U 0 -> h <= nth (S i) U 0 - nth i U 0) ->
  / 2 ^ 1000 <= M <= 2 ^ 1022 -> finite u -> 0 <= val u <= 1 ->
  returns_within (@evaluate F64 c u) dim (fun d => spline (kfun U) n p (fun i => val (ent P i d)) (val u))
    ((6 * INR p + 3) * / 2 ^ 53 * M + 6 * INR p * M * dl / h).
Proof.
  intros W K B CU Hp HM D O H0 G MM Fu Hu. assert (CV := proj1 (proj2 K)).
  eapply within_more; [apply (eval_wf p n dim V P M c u W K B ltac:(lia) MM Fu Hu)|]. intros d Hd. cbv beta.
  assert (FU := kfun_clamped p n U CU). assert (FV := kfun_clamped p n _ CV). assert (LU := cl_len _ _ _ CU). assert (LV := cl_len _ _ _ CV).
  rewrite Rabs_minus_sym.
  apply (near_spline p n (kfun U) (kfun (map val V)) (fun i => val (ent P i d)) (val u) dl h 0 M FU FV ltac:(lia) HM (kdist p n U _ dl CU CV D)); try assumption.
  - intros i Hi L. destruct (le_lt_dec p i) as [I|I].
    + rewrite !kfun_nth in * by lia. apply O; [lia|exact L].
    + rewrite !(fc_zero _ _ _ FV) in L by lia. lra.
  - intros i L. destruct (le_lt_dec p i) as [I|I].
    + destruct (le_lt_dec i n) as [I2|I2].
      * rewrite !kfun_nth in * by lia. apply G; [lia|exact L].
      * rewrite !(fc_one _ _ _ FU) in L by lia. lra.
    + rewrite !(fc_zero _ _ _ FU) in L by lia. lra.
  - intros i Hi. rewrite Rminus_0_r. apply B; assumption.
Qed.

(** ** Reversal *)
Lemma nth_frev (U : list f64) i : (i < length U)%nat -> nth i (map val (map frev (rev U))) 0 = val (frev (nth (length U - 1 - i) U (@n0 F64))).
Proof.
  intros H. rewrite map_map. rewrite (nth_indep _ 0 (val (frev (@n0 F64)))) by (rewrite map_length, rev_length; exact H).
  rewrite (map_nth (fun x => val (frev x))). rewrite rev_nth by exact H. do 3 f_equal. lia.
Qed.

Lemma val_nth (U : list f64) i : (i < length U)%nat -> nth i (map val U) 0 = val (nth i U (@n0 F64)).
Proof. intros H. rewrite (nth_indep _ 0 (val (@n0 F64))) by (rewrite map_length; exact H). apply (map_nth val). Qed.

Lemma frev_mono (x y : f64) : fin x = true -> 0 <= val x <= 1 -> fin y = true -> 0 <= val y <= 1 -> val x <= val y -> val (frev y) <= val (frev x).
Proof. intros F R F' R' L. rewrite (proj2 (frev_ok x F R)), (proj2 (frev_ok y F' R')). apply rnd_le. lra. Qed.

Lemma pow_52_54 : / 2 ^ 52 = 4 * / 2 ^ 54.
Proof. replace (2 ^ 54) with (2 ^ 52 * 4) by (change 54%nat with (52 + 2)%nat; rewrite pow_add; ring). rewrite Rinv_mult. assert (X : 2 ^ 52 <> 0) by (apply pow_nonzero; lra). assert (Y : 2 ^ 53 <> 0) by (apply pow_nonzero; lra). set (a := 2 ^ 52) in *. set (b := 2 ^ 53) in *. field; assumption. Qed.
Lemma pow_53_54 : / 2 ^ 53 = 2 * / 2 ^ 54.
Proof. replace (2 ^ 54) with (2 ^ 53 * 2) by (change 54%nat with (53 + 1)%nat; rewrite pow_add; ring). rewrite Rinv_mult. assert (X : 2 ^ 52 <> 0) by (apply pow_nonzero; lra). assert (Y : 2 ^ 53 <> 0) by (apply pow_nonzero; lra). set (a := 2 ^ 52) in *. set (b := 2 ^ 53) in *. field; assumption. Qed.
Lemma pow_54_1000 : / 2 ^ 1000 <= / 2 ^ 54.
Proof. apply Rinv_le_contravar; [apply pow_lt; lra|]. apply Rle_pow; [lra|lia]. Qed.

Lemma frev_knots p n (U : list f64) h : float_knots p n U -> / 2 ^ 52 <= h ->
  (forall i, (p <= i <= n)%nat -> nth i (map val U) 0 < nth (S i) (map val U) 0 -> h <= nth (S i) (map val U) 0 - nth i (map val U) 0) ->
  float_knots p n (map frev (rev U)) /\
  (forall i, (i < length U)%nat -> Rabs (nth i (vrev (map val U)) 0 - nth i (map val (map frev (rev U))) 0) <= / 2 ^ 54) /\
  (forall i, (p <= i <= n)%nat -> nth i (map val (map frev (rev U))) 0 < nth (S i) (map val (map frev (rev U))) 0 -> nth i (vrev (map val U)) 0 < nth (S i) (vrev (map val U)) 0).
Proof.
  intros K Hh G. assert (FU := float_unit p n U K). assert (C := proj1 (proj2 K)). assert (L := cl_len _ _ _ C). assert (L' := L). rewrite map_length in L'.
  assert (PN := cl_deg _ _ _ C). change (binary_float 53 1024) with f64 in *.
  assert (N0 : forall i, (i < length U)%nat -> fin (nth i U (@n0 F64)) = true /\ 0 <= val (nth i U (@n0 F64)) <= 1).
  { intros i Hi. apply FU. apply nth_In. exact Hi. }
  assert (FREV : forall i, (i < length U)%nat -> val (frev (nth i U (@n0 F64))) = rnd (1 - val (nth i U (@n0 F64)))) by (intros i Hi; apply frev_ok; apply N0; exact Hi).
  assert (P54 : 0 < / 2 ^ 54) by (apply Rinv_0_lt_compat, pow_lt; lra).
  assert (E52 := pow_52_54). assert (E1000 := pow_54_1000).
  assert (ERR : forall i, (i < length U)%nat -> Rabs (nth i (map val (map frev (rev U))) 0 - (1 - nth (length U - 1 - i) (map val U) 0)) <= / 2 ^ 54).
  { intros i Hi. rewrite nth_frev by exact Hi. rewrite val_nth by (unfold f64 in *; lia). apply frev_err; apply N0; unfold f64 in *; lia. }
  (* any two knots that differ are at least h apart *)
  assert (GAP : forall i, (i + 1 < length U)%nat -> nth i (map val U) 0 < nth (S i) (map val U) 0 -> h <= nth (S i) (map val U) 0 - nth i (map val U) 0).
  { intros i Hi Lt. destruct (le_lt_dec p i) as [I|I]; [destruct (le_lt_dec i n) as [I2|I2]|].
    - apply G; [lia|exact Lt].
    - rewrite !(cl_one _ _ _ C) in Lt by (unfold f64 in *; lia). lra.
    - rewrite !(cl_zero _ _ _ C) in Lt by lia. lra. }
  assert (MONO : forall i j, (i <= j)%nat -> (j < length U)%nat -> nth i (map val (map frev (rev U))) 0 <= nth j (map val (map frev (rev U))) 0).
  { intros i j Hij Hj. rewrite !nth_frev by (unfold f64 in *; lia). apply frev_mono; try apply N0; try (unfold f64 in *; lia).
    rewrite <- !val_nth by (unfold f64 in *; lia). apply (cl_sorted _ _ _ C); unfold f64 in *; lia. }
  assert (QQ : forall z e, Rabs z <= e -> - e <= z <= e) by (intros z e Hz; split; [assert (T := Rle_abs (- z)); rewrite Rabs_Ropp in T; lra|assert (T := Rle_abs z); lra]).
  assert (STEP : forall i, (i + 1 < length U)%nat -> nth i (map val (map frev (rev U))) 0 <> nth (S i) (map val (map frev (rev U))) 0 ->
     nth (length U - 1 - S i) (map val U) 0 < nth (length U - 1 - i) (map val U) 0 /\ / 2 ^ 1000 <= nth (S i) (map val (map frev (rev U))) 0 - nth i (map val (map frev (rev U))) 0).
  { intros i Hi Ne. set (a := (length U - 1 - S i)%nat). assert (Ea : (length U - 1 - i)%nat = S a) by (unfold a, f64 in *; lia). rewrite Ea.
    assert (LE : nth a (map val U) 0 <= nth (S a) (map val U) 0) by (apply (cl_sorted _ _ _ C); unfold a, f64 in *; lia).
    assert (LT : nth a (map val U) 0 < nth (S a) (map val U) 0).
    { destruct (Rle_lt_or_eq_dec _ _ LE) as [|E]; [assumption|]. exfalso. apply Ne.
      rewrite !nth_frev by (unfold f64 in *; lia). fold a. rewrite Ea.
      rewrite (proj2 (frev_ok (nth a U (@n0 F64)) ltac:(apply N0; unfold a, f64 in *; lia) ltac:(apply N0; unfold a, f64 in *; lia))), (proj2 (frev_ok (nth (S a) U (@n0 F64)) ltac:(apply N0; unfold a, f64 in *; lia) ltac:(apply N0; unfold a, f64 in *; lia))).
      rewrite <- !val_nth by (unfold a, f64 in *; lia). rewrite E. reflexivity. }
    split; [exact LT|]. assert (GA := GAP a ltac:(unfold a, f64 in *; lia) LT).
    assert (T1 := QQ _ _ (ERR i ltac:(unfold f64 in *; lia))). assert (T2 := QQ _ _ (ERR (S i) ltac:(unfold f64 in *; lia))). fold a in T2. rewrite Ea in T1. lra. }
  split; [|split].
  - split; [|split].
    + intros x Hx. apply in_map_iff in Hx. destruct Hx as [y [<- Hy]]. rewrite <- in_rev in Hy. apply frev_ok; apply FU; exact Hy.
    + split.
      * exact PN.
      * rewrite !map_length, rev_length. exact L'.
      * intros i j Hij Hj. rewrite !map_length, rev_length in Hj. apply MONO; assumption.
      * intros i Hi. rewrite nth_frev by (unfold f64 in *; lia).
        rewrite FREV by (unfold f64 in *; lia).
        rewrite <- val_nth by (unfold f64 in *; lia). rewrite (cl_one _ _ _ C) by (unfold f64 in *; lia). rewrite Rminus_diag_eq by reflexivity. apply rnd_0.
      * intros i Hi Hj. rewrite !map_length, rev_length in Hj. rewrite nth_frev by exact Hj.
        rewrite FREV by (unfold f64 in *; lia).
        rewrite <- val_nth by (unfold f64 in *; lia). rewrite (cl_zero _ _ _ C) by (unfold f64 in *; lia). rewrite Rminus_0_r. apply (rnd_fmt 1 fmt_1).
      * intros i Hi Hj. set (a := (length U - 1 - i)%nat). assert (A : (p < a <= n)%nat) by (unfold a, f64 in *; lia).
        assert (IN := cl_inner _ _ _ C a ltac:(lia) ltac:(lia)).
        assert (T := QQ _ _ (ERR i ltac:(unfold f64 in *; lia))). fold a in T.
        assert (FC := kfun_clamped p n _ C).
        assert (GP : h <= nth a (map val U) 0 /\ h <= 1 - nth a (map val U) 0).
        { assert (ST := stretch (kfun (map val U)) h (fc_mono _ _ _ FC)).
          assert (GK : forall i, kfun (map val U) i < kfun (map val U) (S i) -> h <= kfun (map val U) (S i) - kfun (map val U) i).
          { intros b Lb. destruct (le_lt_dec (n + 1) b) as [I|I]; [rewrite !(fc_one _ _ _ FC) in Lb by lia; lra|].
            rewrite !kfun_nth in * by (unfold f64 in *; lia). apply GAP; [unfold f64 in *; lia|exact Lb]. }
          split.
          - assert (X := ST GK a 0%nat). cbn [Nat.add] in X. assert (Z0 : kfun (map val U) 0 = 0) by (apply (fc_zero _ _ _ FC); lia). rewrite Z0 in X. rewrite kfun_nth in X by (unfold f64 in *; lia). unfold f64 in *. specialize (X ltac:(lra)). lra.
          - assert (X := ST GK (n + 1 - a)%nat a). replace (a + (n + 1 - a))%nat with (n + 1)%nat in X by lia. assert (Z1 : kfun (map val U) (n + 1) = 1) by (apply (fc_one _ _ _ FC); lia). rewrite Z1 in X.
            rewrite kfun_nth in X by (unfold f64 in *; lia). unfold f64 in *. specialize (X ltac:(lra)). lra. }
        lra.
    + intros i Hi Ne. rewrite !map_length, rev_length in Hi. replace (i + 1)%nat with (S i) in * by lia. apply STEP; [unfold f64 in *; lia|exact Ne].
  - intros i Hi. rewrite nth_vrev by (rewrite map_length; exact Hi). rewrite map_length, Rabs_minus_sym. apply ERR. exact Hi.
  - intros i Hi Lt. rewrite !nth_vrev by (rewrite map_length; unfold f64 in *; lia). rewrite map_length.
    assert (T := proj1 (STEP i ltac:(unfold f64 in *; lia) (Rlt_not_eq _ _ Lt))). unfold f64 in *. lra.
Qed.

Lemma mult_vrev (U : list R) x : mult (vrev U) x = mult U (1 - x).
Proof.
  unfold mult, vrev. assert (A : forall l, count_occ Req_EM_T (map (fun x => 1 - x) l) x = count_occ Req_EM_T l (1 - x)).
  { induction l as [|y l IH]; [reflexivity|]. cbn [map count_occ]. rewrite IH. destruct (Req_EM_T (1 - y) x), (Req_EM_T y (1 - x)); try lra; reflexivity. }
  rewrite A. clear A. induction U as [|y U IH]; [reflexivity|]. cbn [rev]. rewrite count_occ_app. cbn [count_occ]. rewrite IH. destruct (Req_EM_T y (1 - x)); lia.
Qed.

Theorem reverse_accuracy p n dim (U : list f64) P M c P' cR h : float_curve p n dim U P M c -> same_points n dim P P' ->
  clamped_curve p n dim (map val U) P' cR -> (1 <= p <= 100)%nat -> / 2 ^ 1000 <= M <= 2 ^ 1022 ->
  (forall x, 0 < x < 1 -> (mult (map val U) x <= p)%nat) -> / 2 ^ 52 <= h ->
  (forall i, (p <= i <= n)%nat -> nth i (map val U) 0 < nth (S i) (map val U) 0 -> h <= nth (S i) (map val U) 0 - nth i (map val U) 0) ->
  exists c', @reverse F64 c = Val c' /\
    forall u, finite u -> 0 <= val u <= 1 ->
    exists f, returns (evaluate cR (1 - val u)) dim f /\ returns_within (@evaluate F64 c' u) dim f ((6 * INR p + 3 + 3 * INR p / h) * / 2 ^ 53 * M).
Proof.
  intros H [Sh Ep] HR Hp HM MU Hh G. assert (K := proj1 H). assert (C := proj1 (proj2 K)). assert (W := float_wf p n dim U P M c H).
  destruct (frev_knots p n U h K Hh G) as [K1 [D1 O1]].
  destruct (reverse_struct p n dim U P c W) as [c' [E [W1 _]]]. exists c'. split; [exact E|]. intros u Fu Hu.
  destruct (reverse_fact p n dim _ P' cR HR) as [cR' [ER [HR' EV]]].
  destruct (EV 0%nat (val u) ltac:(lia) Hu) as [v [V1 [V2 V3]]].
  { intros Hu'. rewrite Nat.sub_0_r. apply MU. lra. }
  exists (fun d => nth d v 0). split; [exists v; split; [exact V1|split; [exact V2|reflexivity]]|].
  assert (P52 : 0 < / 2 ^ 52) by (apply Rinv_0_lt_compat, pow_lt; lra).
  assert (NE := near_eval p n dim (map frev (rev U)) (mrev P) M c' (vrev (map val U)) (/ 2 ^ 54) h u W1 K1).
  assert (LU := cl_len _ _ _ C). assert (LU' := LU). rewrite map_length in LU'. change (binary_float 53 1024) with f64 in *.
  assert (HS : shape dim (S n) P) by apply H.
  assert (T : returns_within (@evaluate F64 c' u) dim (fun d => spline (kfun (vrev (map val U))) n p (fun i => val (ent (mrev P) i d)) (val u)) ((6 * INR p + 3) * / 2 ^ 53 * M + 6 * INR p * M * / 2 ^ 54 / h)).
  { apply NE; try assumption.
    - intros i d Hi Hd. rewrite (ent_mrev dim (S n) P i d HS) by lia. apply (proj1 (proj2 (proj2 H))); [lia|exact Hd].
    - apply reverse_clamped. exact C.
    - apply (mults_le p n _ (reverse_clamped _ _ _ C)). intros x Hx. rewrite mult_vrev. apply MU. lra.
    - intros i Hi. apply D1. rewrite vrev_length, map_length in Hi. exact Hi.
    - lra.
    - intros i Hi Lt. rewrite !nth_vrev in * by (unfold f64 in *; lia).
      assert (LM : length (map val U) = (n + p + 2)%nat) by (unfold f64 in *; lia). rewrite ?LU, ?LM in Lt |- *.
      replace (n + p + 2 - 1 - i)%nat with (S (n + p + 2 - 1 - S i)) in * by lia.
      assert (A : (p <= n + p + 2 - 1 - S i <= n)%nat) by lia. revert A Lt. generalize (n + p + 2 - 1 - S i)%nat. intros a A Lt.
      assert (X : nth a (map val U) 0 < nth (S a) (map val U) 0) by (unfold f64 in *; lra). assert (Y := G a A X). unfold f64 in *. lra. }
  destruct T as [w [T1 [T2 T3]]]. exists w. split; [exact T1|]. split; [exact T2|]. intros d Hd. destruct (T3 d Hd) as [T4 T5]. split; [exact T4|].
  replace ((6 * INR p + 3 + 3 * INR p / h) * / 2 ^ 53 * M) with ((6 * INR p + 3) * / 2 ^ 53 * M + 6 * INR p * M * / 2 ^ 54 / h) by (rewrite pow_53_54; generalize (/ 2 ^ 54); intros e54; field; lra).
  eapply Rle_trans; [|exact T5]. right. f_equal. f_equal.
  destruct V3 as [v' [E' [L' V']]]. assert (E0 := cc_eval0 p n dim _ _ cR' (val u) HR' Hu). destruct E0 as [v'' [E'' [L'' V'']]].
  unfold evaluate in E''. rewrite E' in E''. injection E'' as <-. assert (X := V' d Hd). rewrite V'' in X by exact Hd. cbn [pow] in X. rewrite Rmult_1_l in X. rewrite <- X.
  unfold spline. apply rsum_ext. intros i Hi. f_equal. fold (mrev P').
  change (ent {| nrows := nrows P'; mcols := rev (mcols P') |} i d) with (ent (mrev P') i d).
  rewrite (ent_mrev dim (S n) P i d HS), (ent_mrev dim (S n) P' i d Sh) by lia. apply Ep; [lia|exact Hd].
Qed.
