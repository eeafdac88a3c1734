(** * Reversal and uniform generation in binary64 *)

From Coq Require Import ZArith Reals List Bool Arith Lia Lra Psatz.
From Flocq Require Import Core.Core IEEE754.BinarySingleNaN.
From Verif Require Import Num Vec MKnots MPoints MCurve MGenerate RNum F64 Hoare Lists Struct Divisions Spec BMath BMath2 BMath3 BMath4 SW Api ApiF ApiF2 Bridge Facts1 Facts3 Shape1 Shape2 Shape3 Stab Float1 Float4 Float5 Float6 Float7 Gen4.
Import ListNotations.
Local Open Scope R_scope.

(** ** The structure of a reversed curve in any number system *)
Definition vrevK {K : Num} (v : list K) : list K := map (fun x => (x + nofZ (-1)) * nofZ (-1))%num (rev v).


Lemma rev_kderiv {A} k (v : list A) : (2 * k <= length v)%nat -> rev (kderiv k v) = kderiv k (rev v).
Proof.
  intros H. destruct v as [|a v']; [destruct k; reflexivity|]. set (v := a :: v') in *.
  apply (list_ext a); [rewrite kderiv_length, !rev_length, kderiv_length; reflexivity|].
  intros i Hi. rewrite rev_length, kderiv_length in Hi.
  rewrite rev_nth by (rewrite kderiv_length; exact Hi). rewrite kderiv_length.
  rewrite nth_kderiv by lia. rewrite nth_kderiv by (rewrite rev_length; lia). rewrite rev_nth by lia. f_equal. lia.
Qed.

Lemma reverse_struct {K : Num} p n dim (U : list K) P c : wf p n dim U P c ->
  exists c', reverse c = Val c' /\ wf p n dim (vrevK U) (mrev P) c' /\
    forall k, (k <= p)%nat -> nth k (Pk (cpoints c')) (mzeros 0 0) = mrevk k (nth k (Pk (cpoints c)) (mzeros 0 0)).
Proof.
  intros W. assert (Wl := wf_len _ _ _ _ _ _ W). assert (Wd := wf_deg _ _ _ _ _ _ W).
  unfold reverse. rewrite (wf_knots _ _ _ _ _ _ W). unfold knots_reverse. cbn [Uk knots_of].
  rewrite (mapM_val _ vrevK) by (intros x _; apply vec_reverse_val). cbn [bind kp kk_max knots_of].
  destruct (points_reverse_val (cpoints c)) as [pk [E [Lp Hp]]].
  { rewrite (wf_max _ _ _ _ _ _ W). apply W. }
  rewrite E. cbn [bind]. eexists. split; [reflexivity|].
  assert (Ek : map vrevK (map (fun k => kderiv k U) (seq 0 (S p))) = map (fun k => kderiv k (vrevK U)) (seq 0 (S p))).
  { rewrite map_map. apply map_ext_in. intros k Hk. apply in_seq in Hk. unfold vrevK. rewrite rev_kderiv by lia. apply map_kderiv. }
  rewrite Ek. rewrite (wf_max _ _ _ _ _ _ W) in *.
  split; [|intros k Hk; cbn [cpoints Pk]; apply Hp; exact Hk].
  split; cbn [cknots cpoints Pk pk_max].
  - exact Wd.
  - unfold vrevK. rewrite map_length, rev_length. exact Wl.
  - apply mrev_shape. apply W.
  - reflexivity.
  - reflexivity.
  - rewrite Hp by lia. unfold mrevk. rewrite (wf_head _ _ _ _ _ _ W). reflexivity.
  - exact Lp.
  - intros k Hk. rewrite Hp by exact Hk. apply mrevk_shape. apply W. exact Hk.
Qed.

(** a curve is its knots and its cached points *)
Lemma wf_ext {K : Num} p n dim (U V : list K) P Q c d : wf p n dim U P c -> wf p n dim V Q d -> U = V ->
  (forall k, (k <= p)%nat -> nth k (Pk (cpoints c)) (mzeros 0 0) = nth k (Pk (cpoints d)) (mzeros 0 0)) -> c = d.
Proof.
  intros W X E H. destruct c as [kc [pc mc]], d as [kd [pd md]].
  assert (A := wf_knots _ _ _ _ _ _ W). assert (B := wf_knots _ _ _ _ _ _ X). assert (C1 := wf_max _ _ _ _ _ _ W). assert (C2 := wf_max _ _ _ _ _ _ X).
  assert (D1 := wf_Pk _ _ _ _ _ _ W). assert (D2 := wf_Pk _ _ _ _ _ _ X).
  cbn [cknots cpoints Pk pk_max] in *. subst. f_equal. f_equal. apply (list_ext (mzeros 0 0)); [congruence|]. intros k Hk. apply H. lia.
Qed.

(** ** Multiplying by [-1] *)
Lemma m1_ok : fin (@nofZ F64 (-1)) = true /\ val (@nofZ F64 (-1)) = -1.
Proof. apply (ofZ_ok (-1)). lia. Qed.

Lemma mul_m1 (x : f64) : @nmul F64 x (@nofZ F64 (-1)) = Bopp x.
Proof.
  change (Bmult mode_NE x (fmk (-1) 0) = Bopp x). destruct (fin x) eqn:F.
  - assert (T := Bmult_correct 53 1024 prec53 emax1024 mode_NE x (fmk (-1) 0)).
    change (val (fmk (-1) 0)) with (val (@nofZ F64 (-1))) in T. rewrite (proj2 m1_ok) in T. replace (val x * -1) with (- val x) in T by ring.
    rewrite (rnd_fmt (- val x)) in T by (apply fmt_opp, fmt_val).
    rewrite Rabs_Ropp, val_lt in T. destruct T as [T1 [T2 T3]].
    assert (F' : fin (Bmult mode_NE x (fmk (-1) 0)) = true) by (rewrite T2, F; apply m1_ok).
    apply B2R_Bsign_inj; [exact F'|rewrite is_finite_Bopp; exact F|rewrite T1, B2R_Bopp; reflexivity|].
    assert (NN : forall y : f64, fin y = true -> is_nan y = false) by (intros [| | |]; simpl; congruence).
    rewrite T3 by (apply NN, F'). rewrite Bsign_Bopp by (apply NN, F). vm_compute (Bsign (fmk (-1) 0)). apply xorb_true_r.
  - destruct x as [s|s| |s m e H]; try discriminate; [|reflexivity]. destruct s; reflexivity.
Qed.

Lemma mscale_opp (P : Mat F64) : @mscale F64 (@nofZ F64 (-1)) P = @mkMat F64 (nrows P) (map (map Bopp) (mcols P)).
Proof.
  unfold mscale. f_equal. apply map_ext. intros v. unfold vmul_scalar. apply map_ext. intros x. apply mul_m1.
Qed.

Lemma mrevk_twice k (P : Mat F64) : mrevk k (mrevk k P) = P.
Proof.
  unfold mrevk. destruct (k mod 2 =? 1)%nat; [|apply mrev_mrev].
  rewrite !mscale_opp. destruct P as [r l]. unfold mrev. cbn [nrows mcols]. f_equal.
  rewrite <- map_rev, rev_involutive, map_map. rewrite <- (map_id l) at 2. apply map_ext. intros v. rewrite map_map.
  rewrite <- (map_id v) at 2. apply map_ext. intros x. apply Bopp_involutive.
Qed.

(** ** One minus a knot *)
Definition frev (x : f64) : f64 := @nmul F64 (@nadd F64 x (@nofZ F64 (-1))) (@nofZ F64 (-1)).

Lemma frev_ok (x : f64) : fin x = true -> 0 <= val x <= 1 -> fin (frev x) = true /\ val (frev x) = rnd (1 - val x).
Proof.
  intros F R. unfold frev. rewrite mul_m1. destruct m1_ok as [M1 M2].
  destruct (add_ok x (@nofZ F64 (-1)) 0 ltac:(lia) F M1) as [A B]; [rewrite M2; change (pow2 0) with 1; apply Rabs_le; lra|].
  rewrite is_finite_Bopp, B2R_Bopp. split; [exact A|]. change (@nadd F64 x (@nofZ F64 (-1))) with (Bplus mode_NE x (@nofZ F64 (-1))). rewrite B, M2.
  replace (val x + -1) with (- (1 - val x)) by ring. change (round_mode mode_NE) with ZnearestE. rewrite round_NE_opp. ring.
Qed.

Lemma frev_range (x : f64) : fin x = true -> 0 <= val x <= 1 -> 0 <= val (frev x) <= 1.
Proof.
  intros F R. rewrite (proj2 (frev_ok x F R)). split; [apply rnd_ge0; lra|]. apply Rle_trans with (rnd 1); [apply rnd_le; lra|rewrite (rnd_fmt 1 fmt_1); lra].
Qed.

(** whole multiples of [2^-53] between zero and one *)
Definition grid (r : R) : Prop := exists m, (0 <= m <= 2 ^ 53)%Z /\ r = IZR m * eps.

Lemma eps_53 : IZR (2 ^ 53) * eps = 1.
Proof. rewrite eps_val. lra. Qed.

Lemma grid_fmt r : grid r -> fmt r.
Proof.
  intros [m [Hm ->]]. destruct (Z.eq_dec m (2 ^ 53)) as [->|N]; [rewrite eps_53; apply fmt_1|].
  apply (generic_format_FLT radix2 (-1074) 53). exists (Float radix2 m (-53)); [reflexivity| |cbn [Fexp]; lia]. cbn [Fnum]. change (radix2 ^ 53)%Z with (2 ^ 53)%Z. lia.
Qed.

Lemma grid_flip r : grid r -> grid (1 - r).
Proof.
  intros [m [Hm ->]]. exists (2 ^ 53 - m)%Z. split; [lia|]. rewrite minus_IZR, Rmult_minus_distr_r, eps_53. reflexivity.
Qed.

Lemma grid_big r : fmt r -> / 2 <= r <= 1 -> grid r.
Proof.
  intros F [R1 R2]. destruct (Req_dec r 1) as [->|N]; [exists (2 ^ 53)%Z; split; [lia|symmetry; apply eps_53]|].
  assert (MG : mag radix2 r = 0%Z :> Z).
  { apply mag_unique_pos. change (pow2 (0 - 1)) with (/ 2). change (pow2 0) with 1. lra. }
  assert (C : cexp radix2 (SpecFloat.fexp 53 1024) r = (-53)%Z) by (unfold cexp; rewrite MG; reflexivity).
  unfold generic_format in F. rewrite C in F. set (m := Ztrunc _) in F. unfold F2R in F. cbn [Fnum Fexp] in F.
  exists m. change (pow2 (-53)) with eps in F. split; [|exact F].
  assert (Ep := eps_pos). assert (E1 := eps_53).
  split.
  - apply le_IZR. apply Rmult_le_reg_r with eps; [exact Ep|]. rewrite <- F. lra.
  - apply le_IZR. apply Rmult_le_reg_r with eps; [exact Ep|]. rewrite <- F, E1. lra.
Qed.

Lemma frev_grid (x : f64) : fin x = true -> 0 <= val x <= 1 -> grid (val (frev x)).
Proof.
  intros F R. destruct (frev_ok x F R) as [A B]. destruct (Rle_lt_dec (val x) (/ 2)) as [L|L].
  - apply grid_big; [apply fmt_val|]. split; [|apply (frev_range x F R)]. rewrite B. rewrite <- (rnd_fmt (/ 2)).
    + apply rnd_le. lra.
    + change (/ 2) with (pow2 (-1)). apply fmt_pow2. lia.
  - assert (G : grid (1 - val x)) by (apply grid_flip, grid_big; [apply fmt_val|lra]). rewrite B, rnd_fmt by (apply grid_fmt, G). exact G.
Qed.

Lemma frev_exact (x : f64) : fin x = true -> grid (val x) -> val (frev x) = 1 - val x.
Proof.
  intros F G. assert (R : 0 <= val x <= 1).
  { destruct G as [m [Hm ->]]. assert (Ep := eps_pos). assert (E1 := eps_53). assert (0 <= IZR m) by (apply IZR_le; lia). assert (IZR m <= IZR (2 ^ 53)) by (apply IZR_le; lia). nra. }
  rewrite (proj2 (frev_ok x F R)). apply rnd_fmt, grid_fmt, grid_flip, G.
Qed.

Lemma frev_err (x : f64) : fin x = true -> 0 <= val x <= 1 -> Rabs (val (frev x) - (1 - val x)) <= / 2 ^ 54.
Proof.
  intros F R. rewrite (proj2 (frev_ok x F R)).
  assert (E54 : / 2 ^ 54 = / 2 * pow2 (-53)).
  { change (/ 2) with (pow2 (-1)). rewrite <- bpow_plus. change (-1 + -53)%Z with (- (54))%Z. rewrite bpow_opp, (bpow_powerRZ radix2 54). reflexivity. }
  destruct (Req_dec (val x) 0) as [Z|Z].
  - rewrite Z, Rminus_0_r, (rnd_fmt 1 fmt_1), Rminus_diag_eq, Rabs_R0 by reflexivity. rewrite E54. assert (T := bpow_gt_0 radix2 (-53)). lra.
  - destruct (Req_dec (val x) 1) as [O|O].
    + rewrite O. replace (1 - 1) with 0 by ring. rewrite rnd_0, Rminus_0_r, Rabs_R0. rewrite E54. assert (T := bpow_gt_0 radix2 (-53)). lra.
    + apply Rle_trans with (/ 2 * ulp radix2 (SpecFloat.fexp 53 1024) (1 - val x)); [apply error_le_half_ulp; typeclasses eauto|].
      rewrite E54. apply Rmult_le_compat_l; [lra|].
      rewrite ulp_neq_0 by lra. apply bpow_le. unfold cexp.
      assert (MG : (mag radix2 (1 - val x) <= 0)%Z).
      { apply mag_le_bpow; [lra|]. change (pow2 0) with 1. rewrite Rabs_right; lra. }
      unfold SpecFloat.fexp, SpecFloat.emin. lia.
Qed.

Lemma frev_sign (x : f64) : fin x = true -> 0 <= val x <= 1 -> val (frev x) = 0 -> Bsign (frev x) = true.
Proof.
  intros F R Z. destruct m1_ok as [M1 M2].
  assert (V1 : val x = 1).
  { rewrite (proj2 (frev_ok x F R)) in Z. destruct (rnd_minus 1 (val x) fmt_1 (fmt_val x)) as [g [G E]]. rewrite E in Z.
    assert (0 < / kap) by (apply Rinv_0_lt_compat, kap_pos). apply Rmult_integral in Z. destruct Z; lra. }
  unfold frev in *. rewrite mul_m1 in *. change (@nadd F64 x (@nofZ F64 (-1))) with (Bplus mode_NE x (@nofZ F64 (-1))) in *.
  assert (T := Bplus_correct 53 1024 prec53 emax1024 mode_NE x (@nofZ F64 (-1)) F M1). rewrite M2, V1 in T.
  replace (1 + -1) with 0 in T by ring. rewrite rnd_0, Rabs_R0, Rlt_bool_true in T by apply bpow_gt_0.
  destruct T as [T1 [T2 T3]]. rewrite Rcompare_Eq in T3 by reflexivity.
  assert (SX : Bsign x = false).
  { destruct x as [s|s| |s m e H]; try discriminate.
    - simpl in V1. lra.
    - destruct s; [|reflexivity]. exfalso. unfold B2R in V1. assert (T := F2R_lt_0 radix2 (Float radix2 (Z.neg m) e) ltac:(reflexivity)). simpl cond_Zopp in V1. lra. }
  rewrite SX in T3. cbn [andb] in T3.
  assert (NN : is_nan (Bplus mode_NE x (@nofZ F64 (-1))) = false) by (destruct (Bplus mode_NE x (@nofZ F64 (-1))); try reflexivity; discriminate).
  rewrite Bsign_Bopp by exact NN. rewrite T3. reflexivity.
Qed.

Lemma sign_nz (x y : f64) : fin x = true -> fin y = true -> val x = val y -> val x <> 0 -> Bsign x = Bsign y.
Proof.
  intros Fx Fy E N. assert (S : forall z : f64, fin z = true -> val z <> 0 -> Bsign z = Rlt_bool (val z) 0).
  { intros z Fz Nz. destruct z as [s|s| |s m e H]; try discriminate; [simpl in Nz; lra|]. cbn [Bsign]. unfold B2R.
    destruct s; simpl cond_Zopp.
    - rewrite Rlt_bool_true; [reflexivity|]. apply F2R_lt_0. reflexivity.
    - rewrite Rlt_bool_false; [reflexivity|]. apply F2R_ge_0. cbn [Fnum]. lia. }
  rewrite !S by (try assumption; rewrite <- ?E; assumption). rewrite E. reflexivity.
Qed.

Lemma frev_thrice (x : f64) : fin x = true -> 0 <= val x <= 1 -> frev (frev (frev x)) = frev x.
Proof.
  intros F R. destruct (frev_ok x F R) as [F1 _]. assert (R1 := frev_range x F R). assert (G1 := frev_grid x F R).
  destruct (frev_ok _ F1 R1) as [F2 _]. assert (R2 := frev_range _ F1 R1). assert (G2 := frev_grid _ F1 R1).
  destruct (frev_ok _ F2 R2) as [F3 _]. assert (E2 := frev_exact _ F1 G1). assert (E3 := frev_exact _ F2 G2).
  assert (E : val (frev (frev (frev x))) = val (frev x)) by (rewrite E3, E2; ring).
  apply B2R_Bsign_inj; try assumption.
  destruct (Req_dec (val (frev x)) 0) as [Z|Z].
  - rewrite (frev_sign x F R Z). apply (frev_sign _ F2 R2). rewrite E. exact Z.
  - apply sign_nz; [assumption..|rewrite E; exact Z].
Qed.

Lemma vrevK_frev (U : list f64) : @vrevK F64 U = map frev (rev U).
Proof. reflexivity. Qed.

Lemma float_unit p n (U : list f64) : float_knots p n U -> forall x, In x U -> fin x = true /\ 0 <= val x <= 1.
Proof.
  intros [A [B _]] x Hx. split; [apply A; exact Hx|]. apply (clamped_range p n (map val U)); [exact B|]. apply in_map. exact Hx.
Qed.

Theorem reverse_settles p n dim (U : list f64) P M c : float_curve p n dim U P M c ->
  exists c1 c2 V, @reverse F64 c = Val c1 /\ @reverse F64 c1 = Val c2 /\ @reverse F64 c2 = Val c1 /\
    cpoints c2 = cpoints c /\ vector (cknots c2) = Val V /\ close_to V (map val U) (/ 2 ^ 54) /\
    ((forall x, In x U -> exists m, val x = IZR m / 2 ^ 53) -> map val V = map val U).
Proof.
  intros H. assert (FU := float_unit p n U (proj1 H)).
  assert (W : @wf F64 p n dim U P c) by (apply (float_wf p n dim U P M c H)).
  destruct (reverse_struct p n dim U P c W) as [c1 [E1 [W1 K1]]].
  destruct (reverse_struct p n dim _ _ c1 W1) as [c2 [E2 [W2 K2]]].
  destruct (reverse_struct p n dim _ _ c2 W2) as [c3 [E3 [W3 K3]]].
  assert (V2 : @vrevK F64 (@vrevK F64 U) = map (fun x => frev (frev x)) U).
  { rewrite !vrevK_frev. rewrite <- map_rev, rev_involutive, map_map. reflexivity. }
  assert (V3 : @vrevK F64 (@vrevK F64 (@vrevK F64 U)) = @vrevK F64 U).
  { rewrite V2. rewrite !vrevK_frev. rewrite <- map_rev, map_map. apply map_ext_in. intros x Hx. rewrite <- in_rev in Hx. apply frev_thrice; apply FU; exact Hx. }
  assert (PP : forall k, (k <= p)%nat -> nth k (Pk (cpoints c2)) (mzeros 0 0) = nth k (Pk (cpoints c)) (mzeros 0 0)).
  { intros k Hk. rewrite K2, K1 by exact Hk. apply mrevk_twice. }
  exists c1, c2, (@vrevK F64 (@vrevK F64 U)). split; [exact E1|]. split; [exact E2|]. split.
  { rewrite E3. f_equal. apply (wf_ext p n dim _ _ _ _ c3 c1 W3 W1 V3). intros k Hk. rewrite K3, PP, K1 by exact Hk. reflexivity. }
  split.
  { assert (C1 := wf_max _ _ _ _ _ _ W). assert (C2 := wf_max _ _ _ _ _ _ W2). assert (D1 := wf_Pk _ _ _ _ _ _ W). assert (D2 := wf_Pk _ _ _ _ _ _ W2).
    destruct (cpoints c2) as [pc mc], (cpoints c) as [pd md]. cbn [Pk pk_max] in *. f_equal; [|congruence].
    apply (list_ext (mzeros 0 0)); [congruence|]. intros k Hk. apply PP. lia. }
  split; [rewrite (wf_knots _ _ _ _ _ _ W2); apply (@knots_of_vector F64)|].
  rewrite V2. change (T F64) with f64. split.
  - split; [rewrite !map_length; reflexivity|]. intros i Hi. rewrite map_length in Hi.
    rewrite (nth_indep _ (@n0 F64) (frev (frev (@n0 F64)))) by (rewrite map_length; exact Hi). rewrite (map_nth (fun x => frev (frev x))).
    rewrite (nth_indep _ 0 (val (@n0 F64))) by (rewrite map_length; exact Hi). rewrite (map_nth val).
    set (x := nth i U _). destruct (FU x ltac:(apply nth_In; exact Hi)) as [F R].
    destruct (frev_ok x F R) as [F1 _]. assert (R1 := frev_range x F R). assert (G1 := frev_grid x F R).
    split; [apply (frev_ok _ F1 R1)|]. rewrite (frev_exact _ F1 G1). assert (T := frev_err x F R).
    rewrite Rabs_minus_sym. match goal with |- Rabs (?a - _) <= _ => change a with (val x) end. replace (val x - (1 - val (frev x))) with (val (frev x) - (1 - val x)) by ring. exact T.
  - intros G. rewrite map_map. apply map_ext_in. intros x Hx. destruct (FU x Hx) as [F R]. destruct (G x Hx) as [m Em].
    assert (GX : grid (val x)).
    { assert (EM : val x = IZR m * eps) by (rewrite Em, <- eps_pow; reflexivity). exists m. split; [|exact EM]. rewrite EM in R.
      assert (Ep := eps_pos). assert (E := eps_53). split; apply le_IZR; nra. }
    rewrite frev_exact, frev_exact; try assumption; [ring|apply (frev_ok x F R)|apply (frev_grid x F R)].
Qed.
