(** * Derivatives of generated curves in binary64 *)

From Coq Require Import ZArith Reals List Bool Arith Lia Lra Psatz.
From Flocq Require Import Core.Core IEEE754.BinarySingleNaN.
From Verif Require Import Num Vec MKnots MPoints MCurve MGenerate RNum F64 Hoare Lists Struct Divisions Spec Samples BMath BMath2 BMath3 BMath4 SW Api ApiF ApiF2 ApiF3 Bridge Facts1 Facts3 Shape1 Shape2 Shape3 Stab Stab2 Float1 Float4 Float5 Float6 Float7 Float8 Float9 Float11 Float12 Float14 Float15 Float16 Float17 Float29 Float30 Float10 Gen1 Gen2 Gen3 Gen4.
Import ListNotations.
Local Open Scope R_scope.

(** ** Exact: derivatives depend continuously on the knots *)
Theorem knots_stable_derivatives p n dim (U V : list R) (P : Mat RNum) c e k dl h M : clamped_curve p n dim U P c -> clamped_curve p n dim V P e -> (k < p)%nat ->
  (forall x, 0 < x < 1 -> (mult U x <= p - k)%nat) ->
  (forall i, (i < length U)%nat -> Rabs (nth i U 0 - nth i V 0) <= dl) ->
  (forall i, (p <= i <= n)%nat -> nth i V 0 < nth (S i) V 0 -> nth i U 0 < nth (S i) U 0) ->
  0 < h -> (forall i, (p <= i <= n)%nat -> nth i U 0 < nth (S i) U 0 -> h <= nth (S i) U 0 - nth i U 0) -> 4 * dl <= h ->
  forall u x y, 0 <= u <= 1 -> evaluate_derivative c u k = Val (Ok x) -> evaluate_derivative e u k = Val (Ok y) ->
  forall d, (d < dim)%nat -> (forall i, (i <= n)%nat -> Rabs (ent P i d) <= M) ->
  Rabs (nth d x 0 - nth d y 0) <= (6 * INR p + 4) * (dl / h) * (M * (4 * INR p / h) ^ k).
Proof.
  intros Hc He Hk MU D O H0 G DL u x y Hu Ex Ey d Hd PM. assert (CU := proj1 Hc). assert (CV := proj1 He).
  assert (FU := kfun_clamped _ _ _ CU). assert (FV := kfun_clamped _ _ _ CV). assert (LU := cl_len _ _ _ CU). assert (LV := cl_len _ _ _ CV).
  destruct (cc_eval p n dim U P c u k Hc Hu ltac:(lia)) as [x' [Ex' [_ X]]]. rewrite Ex in Ex'. injection Ex' as <-.
  destruct (cc_eval p n dim V P e u k He Hu ltac:(lia)) as [y' [Ey' [_ Y]]]. rewrite Ey in Ey'. injection Ey' as <-.
  rewrite X, Y by exact Hd.
  apply (near_dspline p n (kfun U) (kfun V) (fun i => ent P i d) dl h M FU FV); try assumption.
  - intros i. apply (kdist p n U V dl CU CV D).
  - intros i Hi L. destruct (le_lt_dec p i) as [I|I].
    + rewrite !kfun_nth in * by lia. apply O; [lia|exact L].
    + rewrite !(fc_zero _ _ _ FV) in L by lia. lra.
  - apply (kfun_gaps p n U h CU G).
  - intros x0 Hx. apply (mult_mult_le p n); [exact CU|exact Hx|apply MU; exact Hx].
Qed.

(** knots that grow at every step are simple *)
Lemma spread_simple p n U h : clamped p n U -> 0 < h -> spread h U p (S n) -> forall x, 0 < x < 1 -> mult_le (kfun U) x 1.
Proof.
  intros C H0 G x Hx a b Ha Hb. assert (F := kfun_clamped p n U C). assert (L := cl_len _ _ _ C). assert (D := cl_deg _ _ _ C).
  assert (R : forall i, kfun U i = x -> (p < i <= n)%nat).
  { intros i Hi. destruct (le_lt_dec i p) as [I|I]; [rewrite (fc_zero _ _ _ F) in Hi by lia; lra|].
    destruct (le_lt_dec i n) as [I2|I2]; [lia|]. rewrite (fc_one _ _ _ F) in Hi by lia. lra. }
  assert (A := R a Ha). assert (B := R b Hb). destruct (le_lt_dec b a) as [Q|Q]; [lia|]. exfalso.
  rewrite kfun_nth in Ha, Hb by lia. assert (X := G a ltac:(lia)). assert (Y := cl_sorted _ _ _ C (S a) b ltac:(lia) ltac:(lia)). lra.
Qed.

(** the two generated curves side by side *)
Lemma filled_near_derivatives p n dim (P : Mat F64) (P' : Mat RNum) (M : R) (f : nat -> f64) (g : nat -> R) dl h k :
  shape dim (S n) P -> (forall i d, (i <= n)%nat -> (d < dim)%nat -> finite (ent P i d) /\ Rabs (val (ent P i d)) <= M) ->
  same_points n dim P P' -> (p <= 100)%nat -> (p <= n)%nat -> (k < p)%nat -> / 2 ^ 1000 <= M ->
  0 <= dl -> 4 * dl <= h -> / 2 ^ 998 <= h -> M * (4 * INR p / h) ^ k <= 2 ^ 1020 ->
  (forall i, (1 <= i <= n - p)%nat -> fin (f i) = true /\ Rabs (val (f i) - g i) <= dl) ->
  clamped p n (@fill_knots RNum p n g) -> spread h (@fill_knots RNum p n g) p (S n) ->
  exists c cR, curve_new (@knots_of F64 p (@fill_knots F64 p n f)) (cp_new P) = Val (Ok c) /\
    curve_new (@knots_of RNum p (@fill_knots RNum p n g)) (cp_new P') = Val (Ok cR) /\
    forall u, finite u -> 0 <= val u <= 1 -> exists F, returns (evaluate_derivative cR (val u) k) dim F /\
      returns_within (@evaluate_derivative F64 c u k) dim F ((6 * INR p + 4) * (/ 2 ^ 53 + dl / h) * (M * (4 * INR p / h) ^ k)).
Proof.
  intros HS HB SP Hp Hpn Hk HM Hd Hh Hh2 HL HF C G. assert (P1000 : 0 < / 2 ^ 1000) by (apply Rinv_0_lt_compat, pow_lt; lra).
  assert (E998 : / 2 ^ 998 = 4 * / 2 ^ 1000).
  { change 1000%nat with (998 + 2)%nat. rewrite pow_add, Rinv_mult. simpl (2 ^ 2). generalize (/ 2 ^ 998). intros. field. }
  destruct (filled_knots p n f g dl h Hpn Hd ltac:(lra) HF C G) as [K D].
  assert (LF : length (@fill_knots F64 p n f : list f64) = (n + p + 2)%nat) by (exact (@fill_length F64 p n f)).
  assert (LR : length (@fill_knots RNum p n g : list R) = (n + p + 2)%nat) by apply fill_length_R.
  set (U := @fill_knots RNum p n g : list R) in *. set (V := @fill_knots F64 p n f : list f64) in *.
  assert (SZ : @sized F64 p n dim V P) by (split; [exact Hpn|split; [exact LF|exact HS]]).
  destruct (built_ex_gen F64 gdiv_F64 p n dim V P SZ) as [c BC].
  assert (FC : float_curve p n dim V P M c) by (split; [exact K|]; split; [exact HS|]; split; [exact HB|exact BC]).
  destruct BC as [kn [EK EC]]. assert (X := @knots_new_val F64 p V). rewrite X in EK by (change (T F64) with f64; lia). injection EK as <-.
  destruct (curve_new_clamped p n dim U P' (@knots_of RNum p U) C (proj1 SP)) as [cR [ER CR]].
  { apply (@knots_new_val RNum p U). rn. lia. }
  exists c, cR. split; [exact EC|]. split; [exact ER|]. intros u Fu Hu.
  exists (fun d => dspline (kfun U) n p (fun i => ent P' i d) k (val u)). split; [apply (cc_eval p n dim U P' cR (val u) k CR Hu); lia|].
  assert (CV := proj1 (proj2 K)). assert (FU := kfun_clamped _ _ _ C). assert (FV := kfun_clamped _ _ _ CV).
  assert (H0 : 0 < h) by lra.
  assert (GU : forall i, kfun U i < kfun U (S i) -> h <= kfun U (S i) - kfun U i).
  { apply (kfun_gaps p n U h C). intros i Hi _. apply G. lia. }
  assert (DV : forall i, Rabs (kfun U i - kfun (map val V) i) <= dl) by (intros i; apply (kdist p n U _ dl C CV D)).
  assert (OV : forall i, (i <= n)%nat -> kfun (map val V) i < kfun (map val V) (S i) -> kfun U i < kfun U (S i)).
  { intros i Hi L. destruct (le_lt_dec p i) as [I|I].
    - rewrite !kfun_nth in * by lia. assert (Q := G i ltac:(lia)). lra.
    - rewrite !(fc_zero _ _ _ FV) in L by lia. lra. }
  assert (GV : forall i, kfun (map val V) i < kfun (map val V) (S i) -> h / 2 <= kfun (map val V) (S i) - kfun (map val V) i).
  { intros i. apply (gaps_V p n (kfun U) (kfun (map val V)) dl h); assumption. }
  assert (ES : 2 * INR p / (h / 2) = 4 * INR p / h) by (field; lra).
  assert (T := derivative_dspline p n dim V P M c u k (h / 2) FC Hp ltac:(lia) HM ltac:(lra) (gaps_spaced p n _ (h / 2) CV GV)). rewrite ES in T.
  destruct (T HL Fu Hu) as [w [T1 [T2 T3]]]. exists w. split; [exact T1|]. split; [exact T2|]. intros d Hdm. destruct (T3 d Hdm) as [T4 T5]. split; [exact T4|].
  assert (Y := near_dspline p n (kfun U) (kfun (map val V)) (fun i => val (ent P i d)) dl h M FU FV DV OV H0 GU Hh ltac:(intros i Hi; apply HB; assumption) k (val u) Hk
    ltac:(intros x Hx a b Ha Hb; assert (Q := spread_simple p n U h C H0 G x Hx a b Ha Hb); lia) Hu).
  rewrite Rabs_minus_sym in Y.
  replace (dspline (kfun U) n p (fun i => ent P' i d) k (val u)) with (dspline (kfun U) n p (fun i => val (ent P i d)) k (val u)).
  2: { unfold dspline. apply rsum_ext. intros i Hi. f_equal. apply dpoints_agree. intros j Hj. symmetry. apply SP; [lia|exact Hdm]. }
  match goal with |- Rabs (?a - ?b) <= _ => match type of Y with Rabs (?e - _) <= _ => replace (a - b) with ((a - e) + (e - b)) by ring end end.
  eapply Rle_trans; [apply Rabs_triang|].
  replace ((6 * INR p + 4) * (/ 2 ^ 53 + dl / h) * (M * (4 * INR p / h) ^ k)) with ((6 * INR p + 4) * / 2 ^ 53 * (M * (4 * INR p / h) ^ k) + (6 * INR p + 4) * (dl / h) * (M * (4 * INR p / h) ^ k)) by ring.
  apply Rplus_le_compat; [exact T5|exact Y].
Qed.

(** ** Uniform knots *)
Theorem uniform_derivatives (svd : Mat F64 -> Mat F64 -> Num.M (Mat F64)) (svdR : Mat RNum -> Mat RNum -> Num.M (Mat RNum)) p n dim (P : Mat F64) (P' : Mat RNum) (M : R) k :
  shape dim (S n) P -> (forall i d, (i <= n)%nat -> (d < dim)%nat -> finite (ent P i d) /\ Rabs (val (ent P i d)) <= M) ->
  same_points n dim P P' -> (k < p)%nat -> (p <= 100)%nat -> (p <= n)%nat -> (Z.of_nat (n - p) < 2 ^ 51)%Z -> / 2 ^ 1000 <= M ->
  M * (4 * INR p * INR (n - p + 1)) ^ k <= 2 ^ 1020 ->
  exists c cR, generate svd (Manual p (cp_new P) GUniform) = Val (Ok c) /\ generate svdR (Manual p (cp_new P') GUniform) = Val (Ok cR) /\
    forall u, finite u -> 0 <= val u <= 1 -> exists f, returns (evaluate_derivative cR (val u) k) dim f /\
      returns_within (@evaluate_derivative F64 c u k) dim f ((6 * INR p + 4) * (1 + INR (n - p + 1)) * / 2 ^ 53 * (M * (4 * INR p * INR (n - p + 1)) ^ k)).
Proof.
  intros HS HB SP Hk Hp Hpn Hb HM HL. assert (Pm := INR_pos (n - p + 1) ltac:(lia)). assert (Hb' : (Z.of_nat (n - p + 1) <= 2 ^ 51)%Z) by lia.
  assert (E53 := eps_pow). assert (I51 := INR_2p51 (n - p + 1) Hb').
  assert (EQ : 4 * INR p / / INR (n - p + 1) = 4 * INR p * INR (n - p + 1)) by (field; lra).
  assert (Ep := eps_pos). assert (X := pow_54_1000). assert (Y := pow_53_54). rewrite E53 in Y.
  assert (Q4 : 4 * / 2 ^ 53 <= / INR (n - p + 1)).
  { rewrite E53. apply (Rmult_le_reg_r (INR (n - p + 1))); [exact Pm|]. rewrite Rinv_l by lra. lra. }
  assert (E998 : / 2 ^ 998 = 4 * / 2 ^ 1000).
  { change 1000%nat with (998 + 2)%nat. rewrite pow_add, Rinv_mult. simpl (2 ^ 2). generalize (/ 2 ^ 998). intros. field. }
  destruct (filled_near_derivatives p n dim P P' M (fun i => quo i (n - p + 1)) (fun i => INR i / INR (n - p + 1)) (/ 2 ^ 53) (/ INR (n - p + 1)) k HS HB SP Hp Hpn Hk HM) as [c [cR [E1 [E2 E3]]]].
  - rewrite E53. lra.
  - exact Q4.
  - lra.
  - rewrite EQ. exact HL.
  - intros i Hi. destruct (quo_ok i (n - p + 1) ltac:(lia) ltac:(lia) Hb') as [A [B _]]. rewrite E53. split; assumption.
  - apply unif_clamped. exact Hpn.
  - apply unif_spread. exact Hpn.
  - exists c, cR. rewrite (manual_step svd dim n p P _ HS Hpn), (manual_step svdR dim n p P' _ (proj1 SP) Hpn).
    rewrite uniform_F64_eq, uniform_R by lia. cbn [bind]. split; [exact E1|]. split; [exact E2|].
    rewrite EQ in E3. replace ((6 * INR p + 4) * (1 + INR (n - p + 1)) * / 2 ^ 53) with ((6 * INR p + 4) * (/ 2 ^ 53 + / 2 ^ 53 / / INR (n - p + 1))); [exact E3|].
    rewrite E53. field. lra.
Qed.

(** ** Parameters and knots from the points *)
Lemma method_knots pm km p n dim (P : Mat F64) (P' : Mat RNum) h w kn U :
  tame n dim P -> same_points n dim P P' -> moving n dim P -> (1 <= p <= 100)%nat -> (p <= n)%nat -> (Z.of_nat n <= 2 ^ 20)%Z -> (Z.of_nat dim <= 2 ^ 20)%Z ->
  @params_generate RNum P' pm = Val (mkParams w n) -> @knots_generate RNum p n (mkParams w n) km = Val (Ok kn) -> @vector RNum kn = Val U ->
  spread h w 0 n -> spread h U p (S n) -> 3 * INR (2 * n + dim + 12) / 2 ^ 52 <= h ->
  exists v f g, @params_generate F64 P pm = Val (mkParams v n) /\ @knots_generate F64 p n (mkParams v n) km = Val (Ok (@knots_of F64 p (@fill_knots F64 p n f))) /\
     kn = @knots_of RNum p (@fill_knots RNum p n g) /\ clamped p n (@fill_knots RNum p n g) /\
     forall i, (1 <= i <= n - p)%nat -> fin (f i) = true /\ Rabs (val (f i) - g i) <= INR (2 * n + dim + 12) / 2 ^ 52.
Proof.
  intros Ht SP Mv Hp Hpn Hn Hdim EW EK EU GW GU Hh. set (dl := INR (2 * n + dim + 12) / 2 ^ 52) in *.
  assert (HS := proj1 Ht).
  destruct (params_near pm n dim P P' Ht SP Mv ltac:(lia) Hn Hdim) as [v [w' [EV [EW' [L [V0 [V1 [W0 [W1 CL]]]]]]]]].
  rewrite EW in EW'. injection EW' as <-. set (e1 := INR (n + dim + 6) / 2 ^ 52) in *. set (e2 := INR (n + 6) / 2 ^ 52).
  assert (P52 : 0 < / 2 ^ 52) by (apply Rinv_0_lt_compat, pow_lt; lra).
  assert (E0 : 0 <= e1 /\ 0 <= e2) by (split; (apply Rmult_le_pos; [apply pos_INR|lra])).
  assert (ES : e1 + e2 = dl). { unfold e1, e2, dl. replace (2 * n + dim + 12)%nat with ((n + dim + 6) + (n + 6))%nat by lia. rewrite (plus_INR (n + dim + 6)). unfold Rdiv. ring. }
  assert (E52 := pow_52_54). assert (E54 := pow_54_1000).
  assert (B1 : / 2 ^ 52 <= dl). { unfold dl. rewrite <- (Rmult_1_l (/ 2 ^ 52)) at 1. apply Rmult_le_compat_r; [lra|]. apply (le_INR 1). lia. }
  assert (Hh3 : 3 * dl <= h) by (unfold dl; replace (3 * (INR (2 * n + dim + 12) / 2 ^ 52)) with (3 * INR (2 * n + dim + 12) / 2 ^ 52) by (unfold Rdiv; ring); exact Hh).
  assert (Hh' : 2 * dl + / 2 ^ 1000 <= h) by lra.
  assert (LW : length w = (n + 1)%nat) by (destruct CL as [CL _]; change (T RNum) with R in *; change (T F64) with f64 in *; rewrite <- CL; exact L).
  assert (IW := spread_increasing h w n ltac:(lra) LW GW).
  assert (UN := near_unit n v w e1 h L V0 V1 CL ltac:(lra) GW).
  assert (CLw : forall k, (k <= n)%nat -> Rabs (nth k (map val v) 0 - nth k w 0) <= e1).
  { intros k Hk. change (T F64) with f64 in *. change (T RNum) with R in *. rewrite nth_val by (rewrite L; lia). apply CL. rewrite L. lia. }
  assert (KEY : exists f g, @knots_generate F64 p n (mkParams v n) km = Val (Ok (@knots_of F64 p (@fill_knots F64 p n f))) /\
     kn = @knots_of RNum p (@fill_knots RNum p n g) /\ clamped p n (@fill_knots RNum p n g) /\
     forall i, (1 <= i <= n - p)%nat -> fin (f i) = true /\ Rabs (val (f i) - g i) <= dl).
  { destruct km; cbn [knots_generate] in *.
    - exists (fun i => quo i (n - p + 1)), (fun i => INR i / INR (n - p + 1)). split; [apply uniform_F64_eq; lia|].
      rewrite uniform_R in EK by lia. injection EK as <-. split; [reflexivity|]. split; [apply unif_clamped; exact Hpn|].
      intros i Hi. destruct (quo_ok i (n - p + 1) ltac:(lia) ltac:(lia) ltac:(lia)) as [A [B _]]. split; [exact A|].
      assert (Y := pow_53_54). rewrite eps_pow in Y. lra.
    - exists (fdbk p n v), (dbk p n w). split; [apply de_boor_F64; [lia|lia|exact L]|].
      rewrite de_boor_R in EK by (try exact LW; lia). injection EK as <-. split; [reflexivity|]. split; [apply db_clamped; try assumption; lia|].
      intros i Hi. destruct (fdbk_ok p n v i ltac:(lia) ltac:(lia) L UN Hi) as [A B]. split; [exact A|].
      assert (X := dbk_near p n (map val v) w e1 i ltac:(lia) Hi CLw).
      assert (Y : INR (2 * n + 12) * eps = e2). { unfold e2. replace (2 * n + 12)%nat with (2 * (n + 6))%nat by lia. rewrite mult_INR. simpl (INR 2). rewrite <- eps_pow, pow_53_54. unfold Rdiv. rewrite E52. ring. }
      rewrite Y in B. apply abs_both in B. apply abs_both in X. apply Rabs_le. lra.
    - exists (favg p v), (avg p w). split; [apply averaging_F64; [lia|exact L]|].
      rewrite averaging_R in EK by (try exact LW; lia). injection EK as <-. split; [reflexivity|]. split; [apply averaging_clamped; try assumption; lia|].
      intros i Hi. destruct (favg_ok p n v i ltac:(lia) ltac:(lia) L UN Hi) as [A [_ B]]. split; [exact A|].
      assert (X := avg_near p (map val v) w e1 i ltac:(lia) ltac:(intros k Hk; apply CLw; lia)).
      assert (Y : INR (p + 2) * eps <= e2).
      { unfold e2. rewrite <- eps_pow, pow_53_54. unfold Rdiv. rewrite E52. assert (I : INR (p + 2) <= INR (n + 6)) by (apply le_INR; lia).
        assert (0 < / 2 ^ 54) by (apply Rinv_0_lt_compat, pow_lt; lra). assert (0 <= INR (n + 6)) by apply pos_INR. nra. }
      apply abs_both in B. apply abs_both in X. apply Rabs_le. lra. }
  destruct KEY as [f [g KEY]]. exists v, f, g. split; [exact EV|exact KEY].
Qed.

Theorem method_derivatives (svd : Mat F64 -> Mat F64 -> Num.M (Mat F64)) (svdR : Mat RNum -> Mat RNum -> Num.M (Mat RNum)) pm km p n dim (P : Mat F64) (P' : Mat RNum) (M : R) h w kn U k :
  tame n dim P -> same_points n dim P P' -> moving n dim P -> (k < p)%nat -> (p <= 100)%nat -> (p <= n)%nat -> (Z.of_nat n <= 2 ^ 20)%Z -> (Z.of_nat dim <= 2 ^ 20)%Z ->
  (forall i d, (i <= n)%nat -> (d < dim)%nat -> Rabs (val (ent P i d)) <= M) -> / 2 ^ 1000 <= M ->
  @params_generate RNum P' pm = Val (mkParams w n) -> @knots_generate RNum p n (mkParams w n) km = Val (Ok kn) -> @vector RNum kn = Val U ->
  spread h w 0 n -> spread h U p (S n) -> 4 * INR (2 * n + dim + 12) / 2 ^ 52 <= h -> M * (4 * INR p / h) ^ k <= 2 ^ 1020 ->
  exists c cR, generate svd (Manual p (cp_new P) (GMethod pm km)) = Val (Ok c) /\ generate svdR (Manual p (cp_new P') (GMethod pm km)) = Val (Ok cR) /\
    forall u, finite u -> 0 <= val u <= 1 -> exists f, returns (evaluate_derivative cR (val u) k) dim f /\
      returns_within (@evaluate_derivative F64 c u k) dim f ((6 * INR p + 4) * (1 + 2 * INR (2 * n + dim + 12) / h) * / 2 ^ 53 * (M * (4 * INR p / h) ^ k)).
Proof.
  intros Ht SP Mv Hk Hp Hpn Hn Hdim HMb HM EW EK EU GW GU Hh HL. assert (HS := proj1 Ht).
  assert (HB : forall i d, (i <= n)%nat -> (d < dim)%nat -> finite (ent P i d) /\ Rabs (val (ent P i d)) <= M).
  { intros i d Hi Hd. split; [apply (proj1 (proj2 Ht)); assumption|apply HMb; assumption]. }
  assert (P52 : 0 < / 2 ^ 52) by (apply Rinv_0_lt_compat, pow_lt; lra).
  set (N := INR (2 * n + dim + 12)) in *.
  assert (N1 : 1 <= N) by (apply (le_INR 1); lia).
  assert (N2 : / 2 ^ 52 <= N / 2 ^ 52) by (rewrite <- (Rmult_1_l (/ 2 ^ 52)) at 1; apply Rmult_le_compat_r; lra).
  assert (Hh4 : 4 * (N / 2 ^ 52) <= h) by (replace (4 * (N / 2 ^ 52)) with (4 * N / 2 ^ 52) by (unfold Rdiv; ring); exact Hh).
  assert (Hh3 : 3 * N / 2 ^ 52 <= h) by (replace (3 * N / 2 ^ 52) with (3 * (N / 2 ^ 52)) by (unfold Rdiv; ring); lra).
  destruct (method_knots pm km p n dim P P' h w kn U Ht SP Mv ltac:(lia) Hpn Hn Hdim EW EK EU GW GU Hh3) as [v [f [g [EV [KF [KR [C HF]]]]]]].
  subst kn. rewrite (@knots_of_vector RNum p (@fill_knots RNum p n g)) in EU. injection EU as <-.
  assert (E52 := pow_52_54). assert (E54 := pow_54_1000).
  assert (E998 : / 2 ^ 998 = 4 * / 2 ^ 1000).
  { change 1000%nat with (998 + 2)%nat. rewrite pow_add, Rinv_mult. simpl (2 ^ 2). generalize (/ 2 ^ 998). intros. field. }
  destruct (filled_near_derivatives p n dim P P' M f g (N / 2 ^ 52) h k HS HB SP Hp Hpn Hk HM ltac:(lra) Hh4 ltac:(lra) HL HF C GU) as [c [cR [E1 [E2 E3]]]].
  exists c, cR. rewrite (manual_step svd dim n p P _ HS Hpn), (manual_step svdR dim n p P' _ (proj1 SP) Hpn).
  rewrite EV, EW. cbn [bind]. rewrite KF, EK. cbn [bind]. split; [exact E1|]. split; [exact E2|].
  replace ((6 * INR p + 4) * (1 + 2 * N / h) * / 2 ^ 53) with ((6 * INR p + 4) * (/ 2 ^ 53 + N / 2 ^ 52 / h)); [exact E3|].
  unfold Rdiv at 1. unfold Rdiv at 1. rewrite E52, pow_53_54. assert (h <> 0) by (apply Rgt_not_eq; lra). generalize (/ 2 ^ 54). intros e54. field. assumption.
Qed.
