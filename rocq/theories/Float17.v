(** * Manual generation in binary64, from the points to the evaluated curve *)

From Coq Require Import ZArith Reals List Bool Arith Lia Lra Psatz.
From Flocq Require Import Core.Core IEEE754.BinarySingleNaN.
From Verif Require Import Num Vec MKnots MPoints MCurve MGenerate RNum F64 Hoare Lists Struct Divisions Spec Samples BMath BMath2 BMath3 BMath4 SW Api ApiF ApiF2 ApiF3 Bridge Facts1 Facts3 Shape1 Shape2 Shape3 Stab Float1 Float4 Float5 Float6 Float7 Float8 Float9 Float11 Float12 Float14 Float15 Float16 Gen1 Gen2 Gen3 Gen4.
Import ListNotations.
Local Open Scope R_scope.

Lemma abs_both z e : Rabs z <= e -> - e <= z <= e.
Proof. intros Hz. split; [assert (X := Rle_abs (- z)); rewrite Rabs_Ropp in X; lra|assert (X := Rle_abs z); lra]. Qed.

(** knots that grow at every step are simple *)
Lemma spread_mult p n U h : clamped p n U -> (1 <= p)%nat -> 0 < h -> spread h U p (S n) -> forall x, 0 < x < 1 -> mult_le (kfun U) x p.
Proof.
  intros C Hp H0 G x Hx a b Ha Hb. assert (F := kfun_clamped p n U C). assert (L := cl_len _ _ _ C). assert (D := cl_deg _ _ _ C).
  assert (R : forall i, kfun U i = x -> (p < i <= n)%nat).
  { intros i Hi. destruct (le_lt_dec i p) as [I|I]; [rewrite (fc_zero _ _ _ F) in Hi by lia; lra|].
    destruct (le_lt_dec i n) as [I2|I2]; [lia|]. rewrite (fc_one _ _ _ F) in Hi by lia. lra. }
  assert (A := R a Ha). assert (B := R b Hb). destruct (le_lt_dec b a) as [Q|Q]; [lia|]. exfalso.
  rewrite kfun_nth in Ha, Hb by lia. assert (X := G a ltac:(lia)). assert (Y := cl_sorted _ _ _ C (S a) b ltac:(lia) ltac:(lia)). lra.
Qed.

(** rounded knots near exact knots that are far enough apart *)
Lemma filled_knots p n (f : nat -> f64) (g : nat -> R) dl h : (p <= n)%nat -> 0 <= dl -> 2 * dl + / 2 ^ 1000 <= h ->
  (forall i, (1 <= i <= n - p)%nat -> fin (f i) = true /\ Rabs (val (f i) - g i) <= dl) ->
  clamped p n (@fill_knots RNum p n g) -> spread h (@fill_knots RNum p n g) p (S n) ->
  float_knots p n (@fill_knots F64 p n f) /\
  (forall i, (i < length (@fill_knots RNum p n g : list R))%nat -> Rabs (nth i (@fill_knots RNum p n g : list R) 0 - nth i (map val (@fill_knots F64 p n f)) 0) <= dl).
Proof.
  intros Hpn Hd Hh HF C G. assert (P1000 : 0 < / 2 ^ 1000) by (apply Rinv_0_lt_compat, pow_lt; lra).
  destruct (fill_close p n f g dl Hd HF) as [L CL].
  assert (LU : length (@fill_knots RNum p n g : list R) = (n + p + 2)%nat) by apply fill_length_R.
  assert (LF : length (@fill_knots F64 p n f : list f64) = (n + p + 2)%nat) by (exact (@fill_length F64 p n f)).
  set (U := @fill_knots RNum p n g : list R) in *. set (V := @fill_knots F64 p n f : list f64) in *.
  change (binary_float 53 1024) with f64 in *. change (T F64) with f64 in *. change (T RNum) with R in *.
  assert (N : forall i, (i < n + p + 2)%nat -> nth i (map val V) 0 = val (nth i V (@n0 F64))) by (intros i Hi; apply nth_val; unfold f64 in *; lia).
  assert (D : forall i, (i < n + p + 2)%nat -> Rabs (nth i U 0 - nth i (map val V) 0) <= dl).
  { intros i Hi. rewrite N by exact Hi. rewrite Rabs_minus_sym. apply CL. unfold f64 in *. lia. }
  assert (INN : forall i, (p < i <= n)%nat -> h <= nth i U 0 <= 1 - h).
  { intros i Hi. assert (A := cl_sorted _ _ _ C (S p) i ltac:(lia) ltac:(lia)). assert (B := G p ltac:(lia)). rewrite (cl_zero _ _ _ C p) in B by lia.
    assert (A2 := cl_sorted _ _ _ C i n ltac:(lia) ltac:(lia)). assert (B2 := G n ltac:(lia)). rewrite (cl_one _ _ _ C (S n)) in B2 by lia. lra. }
  assert (FILL : map val V = (@fill_knots RNum p n (fun i => val (f i)) : list R)) by apply map_fill.
  assert (CV : clamped p n (map val V)).
  { rewrite FILL. apply fill_clamped; [exact Hpn| |].
    - intros i Hi. destruct (HF i Hi) as [_ B]. apply abs_both in B. assert (I := INN (p + i)%nat ltac:(lia)).
      unfold U in I. rewrite nth_fill_R in I by lia. rn. replace (p + i <=? p)%nat with false in I by (symmetry; apply Nat.leb_gt; lia).
      replace (p + i <=? n)%nat with true in I by (symmetry; apply Nat.leb_le; lia). replace (p + i - p)%nat with i in I by lia. lra.
    - intros i Hi Hs. destruct (HF i ltac:(lia)) as [_ B]. destruct (HF (S i) ltac:(lia)) as [_ B']. apply abs_both in B. apply abs_both in B'.
      assert (I := G (p + i)%nat ltac:(lia)). unfold U in I. rewrite !nth_fill_R in I by lia. rn.
      replace (p + i <=? p)%nat with false in I by (symmetry; apply Nat.leb_gt; lia). replace (p + i <=? n)%nat with true in I by (symmetry; apply Nat.leb_le; lia).
      replace (S (p + i) <=? p)%nat with false in I by (symmetry; apply Nat.leb_gt; lia). replace (S (p + i) <=? n)%nat with true in I by (symmetry; apply Nat.leb_le; lia).
      replace (p + i - p)%nat with i in I by lia. replace (S (p + i) - p)%nat with (S i) in I by lia. lra. }
  split; [|intros i Hi; apply D; lia]. split; [|split; [exact CV|]].
  - intros x Hx. destruct (In_nth V x (@n0 F64) Hx) as [i [Hi <-]]. apply CL. exact Hi.
  - intros i Hi Ne. rewrite map_length in Hi. replace (i + 1)%nat with (S i) in * by lia. destruct (le_lt_dec p i) as [I|I].
    + destruct (le_lt_dec i n) as [I2|I2].
      * assert (A := D i ltac:(lia)). assert (B := D (S i) ltac:(unfold f64 in *; lia)). apply abs_both in A. apply abs_both in B. assert (X := G i ltac:(lia)). lra.
      * exfalso. apply Ne. rewrite !(cl_one _ _ _ CV) by (rewrite ?map_length; unfold f64 in *; lia). reflexivity.
    + exfalso. apply Ne. rewrite !(cl_zero _ _ _ CV) by lia. reflexivity.
Qed.

(** the two generated curves side by side *)
Lemma filled_near (svd : Mat F64 -> Mat F64 -> Num.M (Mat F64)) (svdR : Mat RNum -> Mat RNum -> Num.M (Mat RNum)) p n dim (P : Mat F64) (P' : Mat RNum) (M : R) (f : nat -> f64) (g : nat -> R) dl h :
  shape dim (S n) P -> (forall i d, (i <= n)%nat -> (d < dim)%nat -> finite (ent P i d) /\ Rabs (val (ent P i d)) <= M) ->
  same_points n dim P P' -> (1 <= p <= 100)%nat -> (p <= n)%nat -> / 2 ^ 1000 <= M <= 2 ^ 1022 ->
  0 <= dl -> 2 * dl + / 2 ^ 1000 <= h ->
  (forall i, (1 <= i <= n - p)%nat -> fin (f i) = true /\ Rabs (val (f i) - g i) <= dl) ->
  clamped p n (@fill_knots RNum p n g) -> spread h (@fill_knots RNum p n g) p (S n) ->
  exists c cR, curve_new (@knots_of F64 p (@fill_knots F64 p n f)) (cp_new P) = Val (Ok c) /\
    curve_new (@knots_of RNum p (@fill_knots RNum p n g)) (cp_new P') = Val (Ok cR) /\
    forall u, finite u -> 0 <= val u <= 1 -> exists F, returns (evaluate cR (val u)) dim F /\
      returns_within (@evaluate F64 c u) dim F ((6 * INR p + 3) * / 2 ^ 53 * M + 6 * INR p * M * dl / h).
Proof.
  intros HS HB SP Hp Hpn HM Hd Hh HF C G. assert (P1000 : 0 < / 2 ^ 1000) by (apply Rinv_0_lt_compat, pow_lt; lra).
  destruct (filled_knots p n f g dl h Hpn Hd Hh HF C G) as [K D].
  assert (LF : length (@fill_knots F64 p n f : list f64) = (n + p + 2)%nat) by (exact (@fill_length F64 p n f)).
  assert (LR : length (@fill_knots RNum p n g : list R) = (n + p + 2)%nat) by apply fill_length_R.
  set (U := @fill_knots RNum p n g : list R) in *. set (V := @fill_knots F64 p n f : list f64) in *.
  assert (SZ : @sized F64 p n dim V P) by (split; [exact Hpn|split; [exact LF|exact HS]]).
  destruct (built_ex_gen F64 gdiv_F64 p n dim V P SZ) as [c BC]. assert (W := sized_wf False gdiv_F64 p n dim V P c SZ BC).
  destruct BC as [kn [EK EC]]. assert (X := @knots_new_val F64 p V). rewrite X in EK by (change (T F64) with f64; lia). injection EK as <-.
  destruct (curve_new_clamped p n dim U P' (@knots_of RNum p U) C (proj1 SP)) as [cR [ER CR]].
  { apply (@knots_new_val RNum p U). rn. lia. }
  exists c, cR. split; [exact EC|]. split; [exact ER|]. intros u Fu Hu.
  exists (fun d => spline (kfun U) n p (fun i => ent P' i d) (val u)). split; [apply (cc_eval0 p n dim U P' cR (val u) CR Hu)|].
  assert (T := near_eval p n dim V P M c U dl h u W K HB C Hp (spread_mult p n U h C (proj1 Hp) ltac:(lra) G) D).
  assert (T2 := T ltac:(intros i Hi _; assert (X2 := G i ltac:(lia)); lra) ltac:(lra) ltac:(intros i Hi _; apply G; lia) HM Fu Hu).
  destruct T2 as [w [T1 [T2 T3]]]. exists w. split; [exact T1|]. split; [exact T2|]. intros d Hdm. destruct (T3 d Hdm) as [T4 T5]. split; [exact T4|].
  eapply Rle_trans; [|exact T5]. right. do 2 f_equal. unfold spline. apply rsum_ext. intros i Hi. f_equal. apply (proj2 SP); [lia|exact Hdm].
Qed.

(** ** Uniform knots *)
Lemma unif_spread p n : (p <= n)%nat -> spread (/ INR (n - p + 1)) (unif p n) p (S n).
Proof.
  intros H i Hi. assert (Pm := INR_pos (n - p + 1) ltac:(lia)). unfold unif. rewrite !nth_fill_R by lia. rn.
  assert (E : forall k, (p <= k <= S n)%nat -> (if (k <=? p)%nat then 0 else if (k <=? n)%nat then INR (k - p) / INR (n - p + 1) else 1) = INR (k - p) / INR (n - p + 1)).
  { intros k Hk. destruct (Nat.leb_spec k p). { replace (k - p)%nat with 0%nat by lia. simpl. unfold Rdiv. rewrite Rmult_0_l. reflexivity. }
    destruct (Nat.leb_spec k n); [reflexivity|]. replace (k - p)%nat with (n - p + 1)%nat by lia. field. lra. }
  rewrite !E by lia. replace (S i - p)%nat with (S (i - p)) by lia. rewrite S_INR. right. field. lra.
Qed.

Theorem uniform_accuracy (svd : Mat F64 -> Mat F64 -> Num.M (Mat F64)) (svdR : Mat RNum -> Mat RNum -> Num.M (Mat RNum)) p n dim (P : Mat F64) (P' : Mat RNum) (M : R) :
  shape dim (S n) P -> (forall i d, (i <= n)%nat -> (d < dim)%nat -> finite (ent P i d) /\ Rabs (val (ent P i d)) <= M) ->
  same_points n dim P P' -> (1 <= p <= 100)%nat -> (p <= n)%nat -> (Z.of_nat (n - p) < 2 ^ 51)%Z -> / 2 ^ 1000 <= M <= 2 ^ 1022 ->
  exists c cR, generate svd (Manual p (cp_new P) GUniform) = Val (Ok c) /\ generate svdR (Manual p (cp_new P') GUniform) = Val (Ok cR) /\
    forall u, finite u -> 0 <= val u <= 1 -> exists f, returns (evaluate cR (val u)) dim f /\
      returns_within (@evaluate F64 c u) dim f ((6 * INR p + 3 + 6 * INR p * INR (n - p + 1)) * / 2 ^ 53 * M).
Proof.
  intros HS HB SP Hp Hpn Hb HM. assert (Pm := INR_pos (n - p + 1) ltac:(lia)). assert (Hb' : (Z.of_nat (n - p + 1) <= 2 ^ 51)%Z) by lia.
  assert (E53 := eps_pow). assert (I51 := INR_2p51 (n - p + 1) Hb').
  destruct (filled_near svd svdR p n dim P P' M (fun i => quo i (n - p + 1)) (fun i => INR i / INR (n - p + 1)) (/ 2 ^ 53) (/ INR (n - p + 1)) HS HB SP Hp Hpn HM) as [c [cR [E1 [E2 E3]]]].
  - left. apply Rinv_0_lt_compat, pow_lt. lra.
  - rewrite E53. assert (Ep := eps_pos). assert (X := pow_54_1000). assert (Y := pow_53_54). rewrite E53 in Y.
    apply (Rmult_le_reg_r (INR (n - p + 1))); [exact Pm|]. rewrite Rinv_l by lra.
    apply Rle_trans with (4 * eps * INR (n - p + 1)); [|lra]. apply Rmult_le_compat_r; lra.
  - intros i Hi. destruct (quo_ok i (n - p + 1) ltac:(lia) ltac:(lia) Hb') as [A [B _]]. rewrite E53. split; assumption.
  - apply unif_clamped. exact Hpn.
  - apply unif_spread. exact Hpn.
  - exists c, cR. rewrite (manual_step svd dim n p P _ HS Hpn), (manual_step svdR dim n p P' _ (proj1 SP) Hpn).
    rewrite uniform_F64_eq, uniform_R by lia. cbn [bind]. split; [exact E1|]. split; [exact E2|].
    replace ((6 * INR p + 3 + 6 * INR p * INR (n - p + 1)) * / 2 ^ 53 * M) with ((6 * INR p + 3) * / 2 ^ 53 * M + 6 * INR p * M * / 2 ^ 53 / / INR (n - p + 1)); [exact E3|].
    rewrite E53. field. lra.
Qed.

(** ** Parameters *)
Lemma params_near pm m dim P P' : tame m dim P -> same_points m dim P P' -> moving m dim P -> (1 <= m)%nat -> (Z.of_nat m <= 2 ^ 20)%Z -> (Z.of_nat dim <= 2 ^ 20)%Z ->
  exists v w, @params_generate F64 P pm = Val (mkParams v m) /\ @params_generate RNum P' pm = Val (mkParams w m) /\
    length v = (m + 1)%nat /\ val (nth 0 v (@n0 F64)) = 0 /\ val (nth m v (@n0 F64)) = 1 /\ nth 0 w 0 = 0 /\ nth m w 0 = 1 /\ close_to v w (INR (m + dim + 6) / 2 ^ 52).
Proof.
  intros Ht SP Mv Hm Hb Hd. destruct pm; cbn [params_generate].
  - assert (EN : ncols P = S m) by apply Ht. assert (EN' : ncols P' = S m) by apply SP. unfold dp_segments. rewrite EN, EN', usub_ok by lia. cbn [bind].
    replace (S m - 1)%nat with m by lia. destruct (equally_spaced_F64 m Hm ltac:(lia)) as [v [E [L [H [_ [H0 H1]]]]]].
    destruct (equally_spaced_R m Hm) as [w [E' [L' H']]]. assert (Pm := INR_pos m Hm). exists v, w. split; [exact E|]. split; [exact E'|]. split; [exact L|]. split; [exact H0|]. split; [exact H1|].
    split; [rewrite H' by lia; simpl; unfold Rdiv; apply Rmult_0_l|]. split; [rewrite H' by lia; unfold Rdiv; apply Rinv_r, Rgt_not_eq; exact Pm|].
    split; [exact (eq_trans L (eq_sym L'))|]. intros i Hi. change (T F64) with (binary_float 53 1024) in *. change (T RNum) with R in *. destruct (H i ltac:(unfold f64 in *; lia)) as [F B]. split; [exact F|]. rewrite H' by (unfold f64 in *; lia). eapply Rle_trans; [exact B|].
    apply Rle_trans with (INR 1 * eps); [rewrite eps_pow; simpl; lra|]. apply params_error. lia.
  - destruct (centripetal_F64 m dim P P' Ht SP Mv Hm Hb Hd) as [v [w [E [E' [[L [_ [H0 [H1 _]]]] C]]]]].
    destruct (centripetal_R P' dim m) as [w' [E2 PR]]; [replace (m + 1)%nat with (S m) by lia; apply SP|exact Hm|right; exact (moving_R _ _ _ _ SP Mv)|].
    rewrite E' in E2. injection E2 as <-. exists v, w. destruct PR as [_ [W0 [W1 _]]]. repeat (split; [assumption|]). assumption.
  - destruct (chord_length_F64 m dim P P' Ht SP Mv Hm Hb Hd) as [v [w [E [E' [[L [_ [H0 [H1 _]]]] C]]]]].
    destruct (chord_length_R P' dim m) as [w' [E2 PR]]; [replace (m + 1)%nat with (S m) by lia; apply SP|exact Hm|right; exact (moving_R _ _ _ _ SP Mv)|].
    rewrite E' in E2. injection E2 as <-. exists v, w. destruct PR as [_ [W0 [W1 _]]]. repeat (split; [assumption|]). assumption.
Qed.

Lemma spread_mono h l a b : 0 <= h -> spread h l a b -> forall i j, (a <= i <= j)%nat -> (j <= b)%nat -> nth i l 0 <= nth j l 0.
Proof.
  intros H0 G i j [Hi Hij] Hj. induction Hij as [|j Hij IH]; [lra|]. specialize (IH ltac:(lia)). assert (X := G j ltac:(lia)). lra.
Qed.

Lemma spread_increasing h l m : 0 < h -> length l = (m + 1)%nat -> spread h l 0 m -> increasing l.
Proof.
  intros H0 L G i j Hij Hj. assert (A := spread_mono h l 0 m ltac:(lra) G (S i) j ltac:(lia) ltac:(lia)). assert (B := G i ltac:(lia)). lra.
Qed.

Lemma near_unit m (v : list f64) w e h : length v = (m + 1)%nat -> val (nth 0 v (@n0 F64)) = 0 -> val (nth m v (@n0 F64)) = 1 ->
  close_to v w e -> 2 * e <= h -> spread h w 0 m -> unit_list v.
Proof.
  intros L V0 V1 [LC C] Hh G x Hx. change (T F64) with f64 in *.
  assert (N : forall i, (i < m + 1)%nat -> nth i (map val v) 0 = val (nth i v (@n0 F64))) by (intros i Hi; apply nth_val; unfold f64 in *; lia).
  assert (G' : spread 0 (map val v) 0 m).
  { intros i Hi. rewrite !N by lia. destruct (C i ltac:(unfold f64 in *; lia)) as [_ A]. destruct (C (S i) ltac:(unfold f64 in *; lia)) as [_ B]. apply abs_both in A. apply abs_both in B.
    assert (X := G i Hi). lra. }
  destruct (In_nth v x (@n0 F64) Hx) as [i [Hi <-]]. split; [apply C; exact Hi|]. assert (Hi' : (i < m + 1)%nat) by (unfold f64 in *; lia).
  assert (A := spread_mono 0 _ 0 m ltac:(lra) G' 0%nat i ltac:(lia) ltac:(lia)). assert (B := spread_mono 0 _ 0 m ltac:(lra) G' i m ltac:(lia) ltac:(lia)).
  rewrite !N in A, B by lia. rewrite V0 in A. rewrite V1 in B. lra.
Qed.

Lemma avg_near p v w e j : (1 <= p)%nat -> (forall k, (k < p)%nat -> Rabs (nth (j + k) v 0 - nth (j + k) w 0) <= e) -> Rabs (avg p v j - avg p w j) <= e.
Proof.
  intros Hp H. assert (Pp := INR_pos p Hp). unfold avg.
  assert (A := rsum_le (fun k => nth (j + k) v 0) (fun k => nth (j + k) w 0 + e) p ltac:(intros i Hi; assert (X := H i Hi); apply abs_both in X; lra)).
  assert (B := rsum_le (fun k => nth (j + k) w 0 - e) (fun k => nth (j + k) v 0) p ltac:(intros i Hi; assert (X := H i Hi); apply abs_both in X; lra)).
  assert (EA : forall c, rsum (fun k => nth (j + k) w 0 + c) p = rsum (fun k => nth (j + k) w 0) p + INR p * c).
  { intros c. clear. induction p as [|q IH]; [simpl; lra|]. cbn [rsum]. rewrite IH, S_INR. lra. }
  rewrite EA in A. assert (B' : rsum (fun k => nth (j + k) w 0) p + INR p * (- e) <= rsum (fun k => nth (j + k) v 0) p) by (rewrite <- EA; exact B).
  set (x := rsum (fun k => nth (j + k) v 0) p) in *. set (y := rsum (fun k => nth (j + k) w 0) p) in *.
  replace (x / INR p - y / INR p) with ((x - y) / INR p) by (field; lra). apply Rabs_le. split.
  - apply (Rmult_le_reg_r (INR p)); [exact Pp|]. unfold Rdiv. rewrite Rmult_assoc, Rinv_l by lra. lra.
  - apply (Rmult_le_reg_r (INR p)); [exact Pp|]. unfold Rdiv. rewrite Rmult_assoc, Rinv_l by lra. lra.
Qed.

Lemma dbk_near p n v w e j : (1 <= p <= n)%nat -> (1 <= j <= n - p)%nat -> (forall k, (k <= n)%nat -> Rabs (nth k v 0 - nth k w 0) <= e) -> Rabs (dbk p n v j - dbk p n w j) <= e.
Proof.
  intros Hp Hj H. destruct (db_facts p n j Hp Hj) as [I [A _]]. assert (X := H (dbi p n j - 1)%nat ltac:(lia)). assert (Y := H (dbi p n j) ltac:(lia)).
  apply abs_both in X. apply abs_both in Y. unfold dbk. set (a := dba p n j) in *. set (v0 := nth (dbi p n j - 1) v 0) in *. set (w0 := nth (dbi p n j - 1) w 0) in *.
  set (v1 := nth (dbi p n j) v 0) in *. set (w1 := nth (dbi p n j) w 0) in *.
  apply Rabs_le. replace ((1 - a) * v0 + a * v1 - ((1 - a) * w0 + a * w1)) with ((1 - a) * (v0 - w0) + a * (v1 - w1)) by ring. split; nra.
Qed.

(** ** Every way of choosing knots *)
Theorem method_accuracy (svd : Mat F64 -> Mat F64 -> Num.M (Mat F64)) (svdR : Mat RNum -> Mat RNum -> Num.M (Mat RNum)) pm km p n dim (P : Mat F64) (P' : Mat RNum) (M : R) h w kn U :
  tame n dim P -> same_points n dim P P' -> moving n dim P -> (1 <= p <= 100)%nat -> (p <= n)%nat -> (Z.of_nat n <= 2 ^ 20)%Z -> (Z.of_nat dim <= 2 ^ 20)%Z ->
  (forall i d, (i <= n)%nat -> (d < dim)%nat -> Rabs (val (ent P i d)) <= M) -> / 2 ^ 1000 <= M <= 2 ^ 1022 ->
  @params_generate RNum P' pm = Val (mkParams w n) -> @knots_generate RNum p n (mkParams w n) km = Val (Ok kn) -> @vector RNum kn = Val U ->
  spread h w 0 n -> spread h U p (S n) -> 3 * INR (2 * n + dim + 12) / 2 ^ 52 <= h ->
  exists c cR, generate svd (Manual p (cp_new P) (GMethod pm km)) = Val (Ok c) /\ generate svdR (Manual p (cp_new P') (GMethod pm km)) = Val (Ok cR) /\
    forall u, finite u -> 0 <= val u <= 1 -> exists f, returns (evaluate cR (val u)) dim f /\
      returns_within (@evaluate F64 c u) dim f ((6 * INR p + 3 + 12 * INR p * INR (2 * n + dim + 12) / h) * / 2 ^ 53 * M).
Proof.
  intros Ht SP Mv Hp Hpn Hn Hdim HMb HM EW EK EU GW GU Hh. set (dl := INR (2 * n + dim + 12) / 2 ^ 52) in *.
  assert (HS := proj1 Ht).
  assert (HB : forall i d, (i <= n)%nat -> (d < dim)%nat -> finite (ent P i d) /\ Rabs (val (ent P i d)) <= M).
  { intros i d Hi Hd. split; [apply (proj1 (proj2 Ht)); assumption|apply HMb; assumption]. }
  destruct (params_near pm n dim P P' Ht SP Mv ltac:(lia) Hn Hdim) as [v [w' [EV [EW' [L [V0 [V1 [W0 [W1 CL]]]]]]]]].
  rewrite EW in EW'. injection EW' as <-. set (e1 := INR (n + dim + 6) / 2 ^ 52) in *. set (e2 := INR (n + 6) / 2 ^ 52).
  assert (P52 : 0 < / 2 ^ 52) by (apply Rinv_0_lt_compat, pow_lt; lra).
  assert (E0 : 0 <= e1 /\ 0 <= e2) by (split; (apply Rmult_le_pos; [apply pos_INR|lra])).
  assert (ES : e1 + e2 = dl). { unfold e1, e2, dl. replace (2 * n + dim + 12)%nat with ((n + dim + 6) + (n + 6))%nat by lia. rewrite (plus_INR (n + dim + 6)). unfold Rdiv. ring. }
  assert (E52 := pow_52_54). assert (E54 := pow_54_1000).
  assert (B1 : / 2 ^ 52 <= dl). { unfold dl. rewrite <- (Rmult_1_l (/ 2 ^ 52)) at 1. apply Rmult_le_compat_r; [lra|]. apply (le_INR 1). lia. }
  assert (Hh3 : 3 * dl <= h) by (unfold dl; replace (3 * (INR (2 * n + dim + 12) / 2 ^ 52)) with (3 * INR (2 * n + dim + 12) / 2 ^ 52) by (unfold Rdiv; ring); exact Hh).
  assert (Hh' : 2 * dl + / 2 ^ 1000 <= h) by lra.
  assert (LW : length w = (n + 1)%nat) by (destruct CL as [CL _]; change (T RNum) with R in *; change (T F64) with f64 in *; rewrite <- CL; exact L).
  assert (IW := spread_increasing h w n ltac:(lra) LW GW).
  assert (UN := near_unit n v w e1 h L V0 V1 CL ltac:(lra) GW).
  assert (CLw : forall k, (k <= n)%nat -> Rabs (nth k (map val v) 0 - nth k w 0) <= e1).
  { intros k Hk. change (T F64) with f64 in *. change (T RNum) with R in *. rewrite nth_val by (rewrite L; lia). apply CL. rewrite L. lia. }
  assert (KEY : exists f g, @knots_generate F64 p n (mkParams v n) km = Val (Ok (@knots_of F64 p (@fill_knots F64 p n f))) /\
     kn = @knots_of RNum p (@fill_knots RNum p n g) /\ clamped p n (@fill_knots RNum p n g) /\
     forall i, (1 <= i <= n - p)%nat -> fin (f i) = true /\ Rabs (val (f i) - g i) <= dl).
  { destruct km; cbn [knots_generate] in *.
    - exists (fun i => quo i (n - p + 1)), (fun i => INR i / INR (n - p + 1)). split; [apply uniform_F64_eq; lia|].
      rewrite uniform_R in EK by lia. injection EK as <-. split; [reflexivity|]. split; [apply unif_clamped; exact Hpn|].
      intros i Hi. destruct (quo_ok i (n - p + 1) ltac:(lia) ltac:(lia) ltac:(lia)) as [A [B _]]. split; [exact A|].
      assert (Y := pow_53_54). rewrite eps_pow in Y. lra.
    - exists (fdbk p n v), (dbk p n w). split; [apply de_boor_F64; [lia|lia|exact L]|].
      rewrite de_boor_R in EK by (try exact LW; lia). injection EK as <-. split; [reflexivity|]. split; [apply db_clamped; try assumption; lia|].
      intros i Hi. destruct (fdbk_ok p n v i ltac:(lia) ltac:(lia) L UN Hi) as [A B]. split; [exact A|].
      assert (X := dbk_near p n (map val v) w e1 i ltac:(lia) Hi CLw).
      assert (Y : INR (2 * n + 12) * eps = e2). { unfold e2. replace (2 * n + 12)%nat with (2 * (n + 6))%nat by lia. rewrite mult_INR. simpl (INR 2). rewrite <- eps_pow, pow_53_54. unfold Rdiv. rewrite E52. ring. }
      rewrite Y in B. apply abs_both in B. apply abs_both in X. apply Rabs_le. lra.
    - exists (favg p v), (avg p w). split; [apply averaging_F64; [lia|exact L]|].
      rewrite averaging_R in EK by (try exact LW; lia). injection EK as <-. split; [reflexivity|]. split; [apply averaging_clamped; try assumption; lia|].
      intros i Hi. destruct (favg_ok p n v i ltac:(lia) ltac:(lia) L UN Hi) as [A [_ B]]. split; [exact A|].
      assert (X := avg_near p (map val v) w e1 i ltac:(lia) ltac:(intros k Hk; apply CLw; lia)).
      assert (Y : INR (p + 2) * eps <= e2).
      { unfold e2. rewrite <- eps_pow, pow_53_54. unfold Rdiv. rewrite E52. assert (I : INR (p + 2) <= INR (n + 6)) by (apply le_INR; lia).
        assert (0 < / 2 ^ 54) by (apply Rinv_0_lt_compat, pow_lt; lra). assert (0 <= INR (n + 6)) by apply pos_INR. nra. }
      apply abs_both in B. apply abs_both in X. apply Rabs_le. lra. }
  destruct KEY as [f [g [KF [KR [C HF]]]]]. subst kn. rewrite (@knots_of_vector RNum p (@fill_knots RNum p n g)) in EU. injection EU as <-.
  destruct (filled_near svd svdR p n dim P P' M f g dl h HS HB SP Hp Hpn HM ltac:(lra) Hh' HF C GU) as [c [cR [E1 [E2 E3]]]].
  exists c, cR. rewrite (manual_step svd dim n p P _ HS Hpn), (manual_step svdR dim n p P' _ (proj1 SP) Hpn).
  rewrite EV, EW. cbn [bind]. rewrite KF, EK. cbn [bind]. split; [exact E1|]. split; [exact E2|].
  replace ((6 * INR p + 3 + 12 * INR p * INR (2 * n + dim + 12) / h) * / 2 ^ 53 * M) with ((6 * INR p + 3) * / 2 ^ 53 * M + 6 * INR p * M * dl / h); [exact E3|].
  unfold dl. unfold Rdiv at 2. rewrite E52, pow_53_54. assert (h <> 0) by (apply Rgt_not_eq; lra). generalize (/ 2 ^ 54). intros e54. field. assumption.
Qed.

(** ** Samples *)
Definition V_a : list R := [0; 0; 0; 3/5; 1; 1; 1].
Lemma V_a_clamped : clamped 2 3 V_a.
Proof.
  split; unfold V_a.
  - lia.
  - reflexivity.
  - apply sorted_steps. intros i Hi. simpl length in Hi. cases i.
  - intros i Hi. cases i.
  - intros i Hi Hj. simpl length in Hj. cases i.
  - intros i Hi Hj. cases i.
Qed.

Lemma two_M : / 2 ^ 1000 <= 2 <= 2 ^ 1022.
Proof. assert (X := small_1000). split; [lra|]. change 1022%nat with (1 + 1021)%nat. rewrite pow_add. assert (1 <= 2 ^ 1021) by (apply pow_R1_Rle; lra). lra. Qed.
