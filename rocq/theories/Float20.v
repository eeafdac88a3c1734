(** * Search and normalisation of knots in binary64 *)

From Coq Require Import ZArith Reals List Bool Arith Lia Lra Psatz.
From Flocq Require Import Core.Core IEEE754.BinarySingleNaN.
From Verif Require Import Num Vec MKnots MPoints MCurve RNum F64 Hoare Lists Struct Divisions Spec BMath BMath2 BMath3 BMath4 Api ApiF ApiF2 Bridge Facts1 Facts7 Facts8 Stab Float1 Float2 Float5 Float7 Float9 Float16.
Import ListNotations.
Local Open Scope R_scope.

(** ** Comparisons decide the same way as on the numbers represented *)
Lemma leb_R (x y : f64) : fin x = true -> fin y = true -> @nleb F64 x y = @nleb RNum (val x) (val y).
Proof.
  intros Fx Fy. change (@nleb F64 x y) with (Bleb x y). rewrite leb_val by assumption. rn. unfold Rleb.
  destruct (Rle_bool_spec (val x) (val y)), (Rle_dec (val x) (val y)); try reflexivity; lra.
Qed.
Lemma ltb_R (x y : f64) : fin x = true -> fin y = true -> @nltb F64 x y = @nltb RNum (val x) (val y).
Proof.
  intros Fx Fy. change (@nltb F64 x y) with (Bltb x y). rewrite ltb_val by assumption. rn. unfold Rltb.
  destruct (Rlt_bool_spec (val x) (val y)), (Rlt_dec (val x) (val y)); try reflexivity; lra.
Qed.
Lemma eqb_R (x y : f64) : fin x = true -> fin y = true -> @neqb F64 x y = @neqb RNum (val x) (val y).
Proof.
  intros Fx Fy. change (@neqb F64 x y) with (Beqb x y). rewrite eqb_val by assumption. rn. unfold Reqb.
  destruct (Req_bool_spec (val x) (val y)), (Req_EM_T (val x) (val y)); try reflexivity; contradiction.
Qed.

Lemma while_ext {S} fuel : forall (c c' : S -> M bool) (b b' : S -> M (S * bool)) s, (forall s, c s = c' s) -> (forall s, b s = b' s) ->
  while_ fuel c b s = while_ fuel c' b' s.
Proof.
  induction fuel as [|fuel IH]; intros c c' b b' s Hc Hb; [reflexivity|]. cbn [while_]. rewrite Hc. destruct (c' s) as [x| | |]; try reflexivity. cbn [bind].
  destruct x; [|reflexivity]. rewrite Hb. destruct (b' s) as [[s' k]| | |]; try reflexivity. cbn [bind]. destruct k; [reflexivity|]. apply IH; assumption.
Qed.

Lemma vget_map (U : list f64) i : @vget R (map val U) i = match @vget f64 U i with Val x => Val (val x) | Panic => Panic | Undef => Undef | Diverge => Diverge end.
Proof. unfold vget. rewrite nth_error_map. unfold f64 in *. destruct (nth_error U i); reflexivity. Qed.
Lemma vget_fin (U : list f64) i x : (forall x, In x U -> fin x = true) -> vget U i = Val x -> fin x = true.
Proof. intros F E. apply F. unfold vget in E. destruct (nth_error U i) eqn:N; [|discriminate]. injection E as ->. apply (nth_error_In _ _ N). Qed.

Lemma find_le_F64 p n (U : list f64) (u : f64) : (forall x, In x U -> finite x) -> finite u -> length U = (n + p + 2)%nat ->
  @find_idx F64 (knots_of p U) u 0 CLeftOrEqual = @find_idx RNum (knots_of p (map val U)) (val u) 0 CLeftOrEqual.
Proof.
  intros Ff Fu L. unfold find_idx, vector_derivative. rewrite !knots_of_vec by lia. cbn [bind].
  assert (L2 : length (map val U) = (n + p + 2)%nat) by (rewrite map_length; exact L).
  rewrite (@knots_of_segments F64 p U n) by exact L. rewrite (@knots_of_segments RNum p (map val U) n) by exact L2.
  rewrite !kderiv_0. cbn [kdegree kp knots_of bind]. destruct (usub p 0) as [pk| | |]; try reflexivity. cbn [bind].
  destruct (usub (n + 1) 0) as [lim| | |]; try reflexivity. cbn [bind].
  replace (@length (T RNum) (map val U)) with (@length (T F64) U) by (symmetry; apply (map_length val U)).
  apply while_ext.
  - intros s. change (@vget (T RNum)) with (@vget R). rewrite (vget_map U (s + 1)). change (T F64) with f64. destruct (vget U (s + 1)) as [x| | |] eqn:E; try reflexivity. cbn [bind].
    rewrite (leb_R x u (vget_fin U _ x Ff E) Fu). reflexivity.
  - intros s. cbv zeta. change (@vget (T RNum)) with (@vget R). rewrite (vget_map U (s + 1 + 1)), (vget_map U (s + 1)). change (T F64) with f64.
    destruct (vget U (s + 1 + 1)) as [x| | |] eqn:E; try reflexivity. cbn [bind].
    destruct (vget U (s + 1)) as [y| | |] eqn:E'; try reflexivity. cbn [bind].
    rewrite (eqb_R x y (vget_fin U _ x Ff E) (vget_fin U _ y Ff E')). reflexivity.
Qed.

Lemma take_while_F64 (v : list f64) (u : f64) : (forall x, In x v -> finite x) -> finite u ->
  @take_while_count F64 u v = @take_while_count RNum (val u) (map val v).
Proof.
  intros Ff Fu. induction v as [|x v IH]; [reflexivity|]. cbn [take_while_count map].
  rewrite (eqb_R x u) by (try exact Fu; apply Ff; left; reflexivity). rewrite IH by (intros; apply Ff; right; assumption). reflexivity.
Qed.

(** ** Least and greatest entries *)
Lemma vmin_F64 (v : list f64) : v <> [] -> (forall x, In x v -> finite x) -> finite (@vmin F64 v) /\ val (@vmin F64 v) = @vmin RNum (map val v).
Proof.
  intros N Ff. destruct v as [|x v]; [contradiction|]. cbn [vmin map]. clear N. revert x Ff.
  induction v as [|y v IH]; intros x Ff; [cbn [fold_left map]; split; [apply Ff; left; reflexivity|reflexivity]|]. cbn [fold_left map].
  assert (Fx : finite x) by (apply Ff; left; reflexivity). assert (Fy : finite y) by (apply Ff; right; left; reflexivity).
  assert (E : finite (@nmin F64 x y) /\ val (@nmin F64 x y) = @nmin RNum (val x) (val y)).
  { unfold nmin. rewrite (eqb_R x x Fx Fx), (ltb_R y x Fy Fx). destruct (@neqb RNum (val x) (val x)); [destruct (@nltb RNum (val y) (val x))|]; split; try assumption; reflexivity. }
  destruct E as [E1 E2]. rewrite <- E2. apply IH. intros z [<-|Hz]; [exact E1|]. apply Ff. right. right. exact Hz.
Qed.
Lemma vmax_F64 (v : list f64) : v <> [] -> (forall x, In x v -> finite x) -> finite (@vmax F64 v) /\ val (@vmax F64 v) = @vmax RNum (map val v).
Proof.
  intros N Ff. destruct v as [|x v]; [contradiction|]. cbn [vmax map]. clear N. revert x Ff.
  induction v as [|y v IH]; intros x Ff; [cbn [fold_left map]; split; [apply Ff; left; reflexivity|reflexivity]|]. cbn [fold_left map].
  assert (Fx : finite x) by (apply Ff; left; reflexivity). assert (Fy : finite y) by (apply Ff; right; left; reflexivity).
  assert (E : finite (@nmax F64 x y) /\ val (@nmax F64 x y) = @nmax RNum (val x) (val y)).
  { unfold nmax. rewrite (eqb_R x x Fx Fx), (ltb_R x y Fx Fy). destruct (@neqb RNum (val x) (val x)); [destruct (@nltb RNum (val x) (val y))|]; split; try assumption; reflexivity. }
  destruct E as [E1 E2]. rewrite <- E2. apply IH. intros z [<-|Hz]; [exact E1|]. apply Ff. right. right. exact Hz.
Qed.

(** ** Normalisation *)
Definition fnorm (a b x : f64) : f64 :=
  Bplus mode_NE (Bmult mode_NE (Bdiv mode_NE (Bminus mode_NE x a) (Bminus mode_NE b a)) (Bminus mode_NE (@n1 F64) (@n0 F64))) (@n0 F64).

Lemma zipM_map' {K : Num} (f : K -> K -> K) (v : list K) c k : k = length v -> zipM f v (repeat c k) = Val (map (fun x => f x c) v).
Proof. intros ->. apply zipM_map. Qed.

Lemma vec_normalize_F64 (v : list f64) : @vec_normalize F64 v = Val (map (fnorm (@vmin F64 v) (@vmax F64 v)) v).
Proof.
  unfold vec_normalize, vec_rescale, vsub, vadd, vdiv_scalar, vmul_scalar. cbn [fst snd]. rewrite (@zipM_map F64). cbn [bind].
  rewrite (mapM_all _ (fun x => Bdiv mode_NE x (Bminus mode_NE (@vmax F64 v) (@vmin F64 v)))) by reflexivity. cbn [bind]. rewrite !map_map.
  rewrite (zipM_map' (K := F64)) by (symmetry; apply map_length). rewrite map_map. reflexivity.
Qed.

Section Norm.
  Variables (a b : f64).
  Hypothesis Fa : finite a.
  Hypothesis Fb : finite b.
  Hypothesis A0 : 0 <= val a.
  Hypothesis AB : val a < val b.
  Hypothesis B1 : val b <= 1.

  Lemma p2_1 : pow2 1 = 2. Proof. reflexivity. Qed.

  Lemma fnorm_val x : finite x -> val a <= val x <= val b ->
    finite (fnorm a b x) /\ val (fnorm a b x) = rnd (rnd (val x - val a) / rnd (val b - val a)) /\
    0 < rnd (val b - val a) /\ 0 <= rnd (val x - val a) <= rnd (val b - val a).
  Proof.
    intros Fx Hx. assert (T := p2_1).
    destruct (sub_ok x a 1 ltac:(lia) Fx Fa) as [S1 S2]; [rewrite Rabs_pos_eq; lra|].
    destruct (sub_ok b a 1 ltac:(lia) Fb Fa) as [S3 S4]; [rewrite Rabs_pos_eq; lra|].
    destruct (rnd_minus (val b) (val a) (fmt_val _) (fmt_val _)) as [g [Hg Eg]].
    assert (G := kinv_bounds). assert (P : 0 < rnd (val b - val a)) by (rewrite Eg; apply Rmult_lt_0_compat; lra).
    assert (Q : 0 <= rnd (val x - val a) <= rnd (val b - val a)) by (split; [apply rnd_ge0; lra|apply rnd_le; lra]).
    destruct (div_ok (Bminus mode_NE x a) (Bminus mode_NE b a) 1 ltac:(lia) S1) as [D1 D2].
    { rewrite S4. lra. }
    { rewrite S2, S4. rewrite Rabs_pos_eq.
      - apply Rle_trans with 1; [|lra]. apply (Rmult_le_reg_r (rnd (val b - val a))); [exact P|]. unfold Rdiv. rewrite Rmult_assoc, Rinv_l by lra. lra.
      - apply Rmult_le_pos; [lra|]. left. apply Rinv_0_lt_compat. exact P. }
    destruct (sub_ok (@n1 F64) (@n0 F64) 1 ltac:(lia) (proj1 n1_ok) (proj1 n0_ok)) as [O1 O2]; [rewrite (proj2 n1_ok), (proj2 n0_ok), Rminus_0_r, Rabs_R1; lra|].
    rewrite (proj2 n1_ok), (proj2 n0_ok), Rminus_0_r, (rnd_fmt 1 fmt_1) in O2.
    destruct (mul_exact (Bdiv mode_NE (Bminus mode_NE x a) (Bminus mode_NE b a)) (Bminus mode_NE (@n1 F64) (@n0 F64)) (Bdiv mode_NE (Bminus mode_NE x a) (Bminus mode_NE b a)) D1 O1) as [M1 M2]; [rewrite O2; ring|].
    destruct (add_exact (Bmult mode_NE (Bdiv mode_NE (Bminus mode_NE x a) (Bminus mode_NE b a)) (Bminus mode_NE (@n1 F64) (@n0 F64))) (@n0 F64) (Bmult mode_NE (Bdiv mode_NE (Bminus mode_NE x a) (Bminus mode_NE b a)) (Bminus mode_NE (@n1 F64) (@n0 F64))) M1 (proj1 n0_ok)) as [N1 N2]; [rewrite (proj2 n0_ok); ring|].
    split; [exact N1|]. split; [|split; [exact P|exact Q]]. unfold fnorm. rewrite N2, M2, D2, S2, S4. reflexivity.
  Qed.

  Lemma fnorm_mono x y : finite x -> finite y -> val a <= val x -> val x <= val y -> val y <= val b -> val (fnorm a b x) <= val (fnorm a b y).
  Proof.
    intros Fx Fy H1 H2 H3. destruct (fnorm_val x Fx ltac:(lra)) as [_ [-> [P Q]]]. destruct (fnorm_val y Fy ltac:(lra)) as [_ [-> [_ Q']]].
    apply rnd_le. apply Rmult_le_compat_r; [left; apply Rinv_0_lt_compat; exact P|]. apply rnd_le. lra.
  Qed.

  Lemma fnorm_0 x : finite x -> val x = val a -> val (fnorm a b x) = 0.
  Proof. intros Fx E. destruct (fnorm_val x Fx ltac:(lra)) as [_ [-> _]]. rewrite E, Rminus_diag_eq by reflexivity. rewrite rnd_0. unfold Rdiv. rewrite Rmult_0_l. apply rnd_0. Qed.
  Lemma fnorm_1 x : finite x -> val x = val b -> val (fnorm a b x) = 1.
  Proof. intros Fx E. destruct (fnorm_val x Fx ltac:(lra)) as [_ [-> [P _]]]. rewrite E. unfold Rdiv. rewrite Rinv_r by lra. apply (rnd_fmt 1 fmt_1). Qed.

  Lemma fnorm_err x : finite x -> val a <= val x <= val b -> Rabs (val (fnorm a b x) - (val x - val a) / (val b - val a)) <= 4 * eps.
  Proof.
    intros Fx Hx. destruct (fnorm_val x Fx Hx) as [_ [E [P Q]]].
    destruct (rnd_minus (val x) (val a) (fmt_val _) (fmt_val _)) as [g1 [H1 E1]]. destruct (rnd_minus (val b) (val a) (fmt_val _) (fmt_val _)) as [g2 [H2 E2]].
    destruct (rnd_any (rnd (val x - val a) / rnd (val b - val a))) as [g3 [t [H3 [Ht E3]]]].
    assert (NN : 0 <= val (fnorm a b x)) by (rewrite E; apply rnd_ge0; apply Rmult_le_pos; [lra|left; apply Rinv_0_lt_compat; exact P]).
    assert (W := near_weight (val x - val a) (val b - val a) g1 g2 g3 t (val (fnorm a b x)) ltac:(lra) ltac:(lra) H1 H2 H3 Ht NN).
    assert (W' := W ltac:(rewrite E, E3, E1, E2; reflexivity)). clear W. destruct W' as [_ [W1 W2]].
    assert (Y : 0 <= (val x - val a) / (val b - val a) <= 1).
    { split; [apply Rmult_le_pos; [lra|left; apply Rinv_0_lt_compat; lra]|]. apply (Rmult_le_reg_r (val b - val a)); [lra|]. unfold Rdiv. rewrite Rmult_assoc, Rinv_l by lra. lra. }
    revert Y W1 W2. generalize ((val x - val a) / (val b - val a)). intros y Y W1 W2.
    assert (EE := eta_eps1). assert (EP := eps_pos). assert (ET := eta_pos). assert (EV := eps_val).
    assert (K : kap ^ 3 <= 1 + (3 + / 2) * eps). { unfold kap. replace ((1 + eps) ^ 3) with (1 + 3 * eps + (3 * eps + eps * eps) * eps) by ring. assert (3 * eps + eps * eps <= / 2) by (rewrite EV; lra). nra. }
    assert (K1 := kpow_ge1 3). assert (K2 : 1 - (3 + / 2) * eps <= / kap ^ 3).
    { apply (Rmult_le_reg_r (kap ^ 3)); [lra|]. rewrite Rinv_l by lra. assert (0 <= 1 - (3 + / 2) * eps) by (rewrite EV; lra).
      apply Rle_trans with ((1 - (3 + / 2) * eps) * (1 + (3 + / 2) * eps)); [apply Rmult_le_compat_l; lra|]. nra. }
    apply Rabs_le. split.
    - assert (y * (1 - (3 + / 2) * eps) <= y * / kap ^ 3) by (apply Rmult_le_compat_l; lra). nra.
    - assert (y * kap ^ 3 <= y * (1 + (3 + / 2) * eps)) by (apply Rmult_le_compat_l; lra). nra.
  Qed.
End Norm.

(** ** Rounded knots that keep the order of the exact ones *)
Lemma close_knots p n (V : list f64) (U : list R) dl h : clamped p n U -> length V = (n + p + 2)%nat -> (forall x, In x V -> finite x) ->
  sorted (map val V) -> (forall i, (i <= p)%nat -> nth i (map val V) 0 = 0) -> (forall i, (n + 1 <= i)%nat -> (i < n + p + 2)%nat -> nth i (map val V) 0 = 1) ->
  (forall i, (i < length U)%nat -> Rabs (nth i U 0 - nth i (map val V) 0) <= dl) ->
  (forall i, (S i < length U)%nat -> nth i U 0 = nth (S i) U 0 -> nth i (map val V) 0 = nth (S i) (map val V) 0) ->
  2 * dl + / 2 ^ 1000 <= h ->
  (forall i, (p <= i <= n)%nat -> nth i U 0 < nth (S i) U 0 -> h <= nth (S i) U 0 - nth i U 0) ->
  float_knots p n V /\
  (forall i, (p <= i <= n)%nat -> nth i (map val V) 0 < nth (S i) (map val V) 0 -> nth i U 0 < nth (S i) U 0).
Proof.
  intros C LV Ff SV Z O D EQ Hh G. assert (L := cl_len _ _ _ C). assert (PN := cl_deg _ _ _ C). assert (FC := kfun_clamped p n U C).
  assert (P1000 : 0 < / 2 ^ 1000) by (apply Rinv_0_lt_compat, pow_lt; lra).
  assert (DL : 0 <= dl) by (eapply Rle_trans; [apply Rabs_pos|apply (D 0%nat); lia]).
  assert (QQ : forall z e, Rabs z <= e -> - e <= z <= e) by (intros z e Hz; split; [assert (T := Rle_abs (- z)); rewrite Rabs_Ropp in T; lra|assert (T := Rle_abs z); lra]).
  assert (GAP : forall i, (S i < length U)%nat -> nth i U 0 < nth (S i) U 0 -> h <= nth (S i) U 0 - nth i U 0).
  { intros i Hi Lt. destruct (le_lt_dec p i) as [I|I]; [destruct (le_lt_dec i n) as [I2|I2]|].
    - apply G; [lia|exact Lt].
    - rewrite !(cl_one _ _ _ C) in Lt by lia. lra.
    - rewrite !(cl_zero _ _ _ C) in Lt by lia. lra. }
  assert (STEP : forall i, (S i < length U)%nat -> nth i (map val V) 0 <> nth (S i) (map val V) 0 ->
     nth i U 0 < nth (S i) U 0 /\ / 2 ^ 1000 <= nth (S i) (map val V) 0 - nth i (map val V) 0).
  { intros i Hi Ne. assert (LE := cl_sorted _ _ _ C i (S i) ltac:(lia) Hi). destruct (Rle_lt_or_eq_dec _ _ LE) as [LT|E]; [|exfalso; apply Ne; apply EQ; assumption].
    split; [exact LT|]. assert (T := GAP i Hi LT). assert (T1 := QQ _ _ (D i ltac:(lia))). assert (T2 := QQ _ _ (D (S i) ltac:(lia))). lra. }
  split.
  - split; [exact Ff|]. split.
    + split.
      * exact PN.
      * rewrite map_length. exact LV.
      * intros i j Hij Hj. apply SV; assumption.
      * exact Z.
      * intros i Hi Hj. rewrite map_length in Hj. apply O; [lia|]. rewrite <- LV. exact Hj.
      * intros i Hi Hj. assert (IN := cl_inner _ _ _ C i ltac:(lia) ltac:(lia)). assert (T := QQ _ _ (D i ltac:(lia))).
        assert (ST := stretch (kfun U) h (fc_mono _ _ _ FC)).
        assert (GK : forall i, kfun U i < kfun U (S i) -> h <= kfun U (S i) - kfun U i).
        { intros b Lb. destruct (le_lt_dec (n + 1) b) as [I|I]; [rewrite !(fc_one _ _ _ FC) in Lb by lia; lra|].
          rewrite !kfun_nth in * by lia. apply GAP; [lia|exact Lb]. }
        assert (X := ST GK i 0%nat). cbn [Nat.add] in X. rewrite (fc_zero _ _ _ FC 0%nat) in X by lia. rewrite kfun_nth in X by lia. specialize (X ltac:(lra)).
        assert (Y := ST GK (n + 1 - i)%nat i). replace (i + (n + 1 - i))%nat with (n + 1)%nat in Y by lia. rewrite (fc_one _ _ _ FC (n + 1)%nat) in Y by lia.
        rewrite kfun_nth in Y by lia. specialize (Y ltac:(lra)). lra.
    + intros i Hi Ne. rewrite map_length in Hi. replace (i + 1)%nat with (S i) in * by lia. apply STEP; [rewrite L, <- LV; exact Hi|exact Ne].
  - intros i Hi Lt. apply (STEP i ltac:(lia)). lra.
Qed.

(** a sorted list from [a] to [b] after normalisation *)
Lemma normalized_knots p n (v : list f64) (h : R) : (forall x, In x v -> finite x) -> sorted (map val v) -> length v = (n + p + 2)%nat ->
  let a := nth 0 (map val v) 0 in let b := nth (n + p + 1) (map val v) 0 in
  let U := map (fun x => (x - a) / (b - a)) (map val v) in
  0 <= a -> a < b -> b <= 1 -> clamped p n U -> / 2 ^ 49 <= h ->
  (forall i, (p <= i <= n)%nat -> nth i (map val v) 0 < nth (S i) (map val v) 0 -> h <= nth (S i) (map val v) 0 - nth i (map val v) 0) ->
  exists w, @vec_normalize F64 v = Val w /\ length w = length v /\ float_knots p n w /\
    (forall i, (i < length U)%nat -> Rabs (nth i U 0 - nth i (map val w) 0) <= 4 * / 2 ^ 53) /\
    (forall i, (p <= i <= n)%nat -> nth i (map val w) 0 < nth (S i) (map val w) 0 -> nth i U 0 < nth (S i) U 0) /\
    (forall i, (p <= i <= n)%nat -> nth i U 0 < nth (S i) U 0 -> h <= nth (S i) U 0 - nth i U 0).
Proof.
  intros Ff SV L a b U A0 AB B1 C Hh G. rewrite vec_normalize_F64.
  assert (NE : v <> []) by (destruct v; [simpl in L; lia|discriminate]).
  destruct (vmin_F64 v NE Ff) as [Fmi Emi]. destruct (vmax_F64 v NE Ff) as [Fma Ema].
  assert (LM : length (map val v) = (n + p + 2)%nat) by (rewrite map_length; exact L).
  rewrite sorted_min in Emi by (try assumption; lia). rewrite sorted_max in Ema by (try assumption; lia). rewrite LM in Ema. replace (n + p + 2 - 1)%nat with (n + p + 1)%nat in Ema by lia.
  fold a in Emi. fold b in Ema. set (mi := @vmin F64 v) in *. set (ma := @vmax F64 v) in *.
  set (w := map (fnorm mi ma) v). exists w. split; [reflexivity|]. assert (Lw : length w = length v) by apply map_length. split; [exact Lw|].
  assert (Nth : forall i, (i < n + p + 2)%nat -> finite (nth i v (@n0 F64)) /\ nth i (map val v) 0 = val (nth i v (@n0 F64)) /\ nth i (map val w) 0 = val (fnorm mi ma (nth i v (@n0 F64))) /\ nth i U 0 = (nth i (map val v) 0 - a) / (b - a) /\ a <= nth i (map val v) 0 <= b).
  { intros i Hi. split; [apply Ff, nth_In; rewrite L; exact Hi|]. split; [apply val_nth; rewrite L; exact Hi|]. split; [|split].
    - rewrite val_nth by (rewrite Lw, L; exact Hi). unfold w. rewrite (nth_indep _ (@n0 F64) (fnorm mi ma (@n0 F64))) by (rewrite map_length, L; exact Hi). rewrite (map_nth (fnorm mi ma)). reflexivity.
    - unfold U. rewrite (nth_indep _ 0 ((0 - a) / (b - a))) by (rewrite map_length, LM; exact Hi). rewrite (map_nth (fun x => (x - a) / (b - a))). reflexivity.
    - split; apply SV; lia. }
  assert (LU : length U = (n + p + 2)%nat) by (unfold U; rewrite map_length; exact LM).
  assert (PN := cl_deg _ _ _ C).
  assert (P49 : / 2 ^ 49 = 16 * / 2 ^ 53).
  { replace (2 ^ 53) with (2 ^ 49 * 16) by (change 53%nat with (49 + 4)%nat; rewrite pow_add; ring). rewrite Rinv_mult. assert (X : 2 ^ 49 <> 0) by (apply pow_nonzero; lra). set (z := 2 ^ 49) in *. field. exact X. }
  assert (P53 : 0 < / 2 ^ 53) by (apply Rinv_0_lt_compat, pow_lt; lra).
  assert (P1000 : / 2 ^ 1000 <= / 2 ^ 53) by (apply Rinv_le_contravar; [apply pow_lt; lra|apply Rle_pow; [lra|lia]]).
  assert (GU : forall i, (p <= i <= n)%nat -> nth i U 0 < nth (S i) U 0 -> h <= nth (S i) U 0 - nth i U 0).
  { intros i Hi Lt. destruct (Nth i ltac:(lia)) as [_ [_ [_ [E1 _]]]]. destruct (Nth (S i) ltac:(lia)) as [_ [_ [_ [E2 _]]]]. rewrite E1, E2 in Lt |- *.
    assert (Lt' : nth i (map val v) 0 < nth (S i) (map val v) 0).
    { apply (Rmult_lt_reg_r (/ (b - a))) in Lt; [lra|]. apply Rinv_0_lt_compat. lra. }
    specialize (G i Hi Lt').
    replace ((nth (S i) (map val v) 0 - a) / (b - a) - (nth i (map val v) 0 - a) / (b - a)) with ((nth (S i) (map val v) 0 - nth i (map val v) 0) / (b - a)) by (field; lra).
    apply (Rmult_le_reg_r (b - a)); [lra|]. unfold Rdiv. rewrite Rmult_assoc, Rinv_l by lra. nra. }
  assert (D : forall i, (i < length U)%nat -> Rabs (nth i U 0 - nth i (map val w) 0) <= 4 * / 2 ^ 53).
  { intros i Hi. rewrite LU in Hi. destruct (Nth i Hi) as [F1 [E1 [E2 [E3 R]]]]. rewrite E2, E3, E1, Rabs_minus_sym. rewrite <- Emi, <- Ema. rewrite eps_pow.
    apply fnorm_err; try assumption; try lra. }
  assert (EQ : forall i, (S i < length U)%nat -> nth i U 0 = nth (S i) U 0 -> nth i (map val w) 0 = nth (S i) (map val w) 0).
  { intros i Hi E. rewrite LU in Hi. destruct (Nth i ltac:(lia)) as [F1 [E1 [E2 [E3 R]]]]. destruct (Nth (S i) Hi) as [F1' [E1' [E2' [E3' R']]]].
    rewrite E3, E3' in E. assert (EE : nth i (map val v) 0 = nth (S i) (map val v) 0).
    { apply (f_equal (fun x => x * (b - a))) in E. unfold Rdiv in E. rewrite !Rmult_assoc, Rinv_l in E by lra. lra. }
    rewrite E2, E2'. apply Rle_antisym; apply fnorm_mono; try assumption; lra. }
  destruct (close_knots p n w U (4 * / 2 ^ 53) h C ltac:(rewrite Lw; exact L)) as [K1 K2]; try assumption.
  - intros x Hx. unfold w in Hx. apply in_map_iff in Hx. destruct Hx as [y [<- Hy]]. apply (In_nth _ _ (@n0 F64)) in Hy. destruct Hy as [i [Hi E]].
    assert (Hi' : (i < n + p + 2)%nat) by (rewrite <- L; exact Hi). destruct (Nth i Hi') as [F1 [E1 [_ [_ R]]]]. subst y. apply (fnorm_val mi ma Fmi Fma ltac:(lra) ltac:(lra) ltac:(lra) (nth i v (@n0 F64)) F1 ltac:(lra)).
  - intros i j Hij Hj. rewrite map_length in Hj. assert (Hj' : (j < n + p + 2)%nat) by (rewrite <- L, <- Lw; exact Hj). clear Hj. rename Hj' into Hj. destruct (Nth i ltac:(lia)) as [F1 [E1 [E2 [E3 R]]]]. destruct (Nth j Hj) as [F1' [E1' [E2' [E3' R']]]].
    rewrite E2, E2'. assert (T := SV i j Hij ltac:(lia)). apply fnorm_mono; try assumption; lra.
  - intros i Hi. destruct (Nth i ltac:(lia)) as [F1 [E1 [E2 [E3 R]]]]. rewrite E2. apply fnorm_0; try assumption; try lra.
    assert (T := cl_zero _ _ _ C i Hi). rewrite E3 in T. apply (f_equal (fun x => x * (b - a))) in T. unfold Rdiv in T. rewrite Rmult_assoc, Rinv_l in T by lra. lra.
  - intros i Hi Hj. destruct (Nth i ltac:(lia)) as [F1 [E1 [E2 [E3 R]]]]. rewrite E2. apply fnorm_1; try assumption; try lra.
    assert (T := cl_one _ _ _ C i ltac:(lia) ltac:(lia)). rewrite E3 in T. apply (f_equal (fun x => x * (b - a))) in T. unfold Rdiv in T. rewrite Rmult_assoc, Rinv_l in T by lra. lra.
  - lra.
  - split; [exact K1|]. split; [exact D|]. split; [exact K2|exact GU].
Qed.
