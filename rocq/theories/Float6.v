(** * Generated knots and parameters in binary64 *)

From Coq Require Import ZArith Reals List Bool Arith Lia Lra Psatz.
From Flocq Require Import Core.Core IEEE754.BinarySingleNaN.
From Verif Require Import Num Vec MKnots MPoints MCurve F64 RNum Lists Hoare Struct Divisions Spec BMath BMath2 BMath3 Api Bridge Facts1 Gen1 Gen2 Gen3 ApiF Float1 Float2 Float3 Float4 Float5.
Import ListNotations.
Local Open Scope R_scope.

Definition quo (i m : nat) : f64 := Bdiv mode_NE (fmk (Z.of_nat i) 0) (fmk (Z.of_nat m) 0).

Lemma nofnat_F64 i : (Z.of_nat i <= 2 ^ 53)%Z -> fin (@nofnat F64 i) = true /\ val (@nofnat F64 i) = INR i.
Proof. intros H. unfold nofnat. cbn [nofZ F64]. rewrite INR_IZR_INZ. apply ofZ_ok. lia. Qed.

Lemma INR_2p51 m : (Z.of_nat m <= 2 ^ 51)%Z -> INR m * eps <= 1 / 4.
Proof.
  intros H. rewrite INR_IZR_INZ. apply IZR_le in H. change (IZR (2 ^ 51)) with 2251799813685248 in H. rewrite eps_val. lra.
Qed.

Lemma quo_ok i m : (1 <= m)%nat -> (i <= m)%nat -> (Z.of_nat m <= 2 ^ 51)%Z ->
  fin (quo i m) = true /\ Rabs (val (quo i m) - INR i / INR m) <= eps /\
  (i = 0%nat -> val (quo i m) = 0) /\ (i = m -> val (quo i m) = 1) /\ ((1 <= i)%nat -> 0 < val (quo i m)).
Proof.
  intros Hm Hi Hb. assert (B := INR_2p51 m Hb). assert (Pm : 1 <= INR m) by (apply (le_INR 1); exact Hm).
  destruct (nofnat_F64 i ltac:(lia)) as [Fi Vi]. destruct (nofnat_F64 m ltac:(lia)) as [Fm Vm].
  unfold nofnat in *. cbn [nofZ F64] in *. assert (I0 := pos_INR i). assert (Im := le_INR _ _ Hi).
  assert (Q : 0 <= INR i / INR m <= 1).
  { split; [apply Rmult_le_pos; [exact I0|left; apply Rinv_0_lt_compat; lra]|].
    apply (Rmult_le_reg_r (INR m)); [lra|]. unfold Rdiv. rewrite Rmult_assoc, Rinv_l by lra. lra. }
  destruct (div_ok (fmk (Z.of_nat i) 0) (fmk (Z.of_nat m) 0) 0 ltac:(lia) Fi) as [F E].
  { rewrite Vm. lra. }
  { rewrite Vi, Vm. rewrite Rabs_pos_eq by apply Q. simpl. lra. }
  rewrite Vi, Vm in E. fold (quo i m) in F, E. split; [exact F|].
  assert (Ep := eps_pos). assert (Et := eta_pos).
  assert (Ete : eta <= eps * / 4 * eps).
  { unfold eta, eps. change (/ 4) with (pow2 (-2)). rewrite <- !bpow_plus. apply bpow_le. lia. }
  destruct (rnd_any (INR i / INR m)) as [g [t [Hg [Ht Eg]]]]. destruct (factor_abs g Hg) as [G1 G0].
  apply Rabs_le_inv in Ht. assert (Kap : kap - 1 = eps) by (unfold kap; ring).
  split; [|split; [|split]].
  - destruct (Nat.eq_dec i m) as [->|Hne].
    { rewrite E. replace (INR m / INR m) with 1 by (field; lra). rewrite (rnd_fmt 1) by apply fmt_1. rewrite Rminus_diag_eq, Rabs_R0 by reflexivity. lra. }
    rewrite E, Eg. replace (INR i / INR m * g + t - INR i / INR m) with (INR i / INR m * (g - 1) + t) by ring.
    apply Rle_trans with (1 := Rabs_triang _ _). rewrite Rabs_mult, (Rabs_pos_eq (INR i / INR m)) by apply Q.
    assert (Q2 : INR i / INR m <= 1 - eps).
    { assert (Hi1 : INR i + 1 <= INR m) by (rewrite <- S_INR; apply le_INR; lia).
      apply (Rmult_le_reg_r (INR m)); [lra|]. unfold Rdiv. rewrite Rmult_assoc, Rinv_l by lra. lra. }
    assert (Rabs t <= eta) by (apply Rabs_le; lra).
    assert (INR i / INR m * Rabs (g - 1) <= (1 - eps) * eps) by (apply Rmult_le_compat; try apply Q; try lra; apply Rabs_pos).
    nra.
  - intros ->. rewrite E. simpl. unfold Rdiv. rewrite Rmult_0_l. apply rnd_0.
  - intros ->. rewrite E. replace (INR m / INR m) with 1 by (field; lra). apply rnd_fmt, fmt_1.
  - intros H1. rewrite E, Eg. assert (I1 : 1 <= INR i) by (apply (le_INR 1); exact H1).
    assert (Q3 : 4 * eps <= INR i / INR m).
    { apply (Rmult_le_reg_r (INR m)); [lra|]. replace (INR i / INR m * INR m) with (INR i) by (field; lra). lra. }
    assert (/ 2 <= g).
    { apply Rle_trans with (/ kap); [|lra]. apply Rinv_le_contravar; [apply kap_pos|assert (T := kap_small); lra]. }
    assert (4 * eps * / 2 <= INR i / INR m * g) by (apply Rmult_le_compat; lra).
    assert (eps <= 1) by (rewrite eps_val; lra). nra.
Qed.

Lemma quo_step i m : (1 <= m)%nat -> (i < m)%nat -> (Z.of_nat m <= 2 ^ 51)%Z -> 2 * eps <= val (quo (S i) m) - val (quo i m).
Proof.
  intros Hm Hi Hb. destruct (quo_ok i m Hm ltac:(lia) Hb) as [_ [A _]]. destruct (quo_ok (S i) m Hm ltac:(lia) Hb) as [_ [B _]].
  assert (C := INR_2p51 m Hb). assert (Pm : 1 <= INR m) by (apply (le_INR 1); exact Hm).
  apply Rabs_le_inv in A. apply Rabs_le_inv in B. rewrite S_INR in B.
  assert (4 * eps <= / INR m).
  { apply (Rmult_le_reg_r (INR m)); [lra|]. rewrite Rinv_l by lra. lra. }
  replace ((INR i + 1) / INR m) with (INR i / INR m + / INR m) in B by (field; lra). lra.
Qed.

Lemma quo_mono m : (1 <= m)%nat -> (Z.of_nat m <= 2 ^ 51)%Z -> forall a b, (a <= b)%nat -> (b <= m)%nat -> val (quo a m) <= val (quo b m).
Proof.
  intros Hm Hb a b Hab. induction Hab as [|b Hab IH]; intros H; [lra|].
  specialize (IH ltac:(lia)). assert (T := quo_step b m Hm ltac:(lia) Hb). assert (E := eps_pos). lra.
Qed.

(** ** uniform knots *)
Definition uniff (p n : nat) : list f64 := @fill_knots F64 p n (fun i => quo i (n - p + 1)).

Lemma uniff_nth p n i : (Z.of_nat (n - p + 1) <= 2 ^ 51)%Z -> (p <= n)%nat -> (i < n + p + 2)%nat ->
  fin (nth i (uniff p n) (@n0 F64)) = true /\
  nth i (map val (uniff p n)) 0 = val (nth i (uniff p n) (@n0 F64)) /\
  val (nth i (uniff p n) (@n0 F64)) = if (i <=? p)%nat then 0 else if (i <=? n)%nat then val (quo (i - p) (n - p + 1)) else 1.
Proof.
  intros Hb Hpn Hi. unfold uniff. assert (N := @nth_fill F64 p n (fun i => quo i (n - p + 1)) i Hi).
  change (T F64) with f64 in *. rewrite N. split; [|split].
  - destruct (i <=? p)%nat; [apply n0_ok|]. destruct (i <=? n)%nat eqn:E; [|apply n1_ok]. apply Nat.leb_le in E.
    apply quo_ok; [lia|lia|exact Hb].
  - rewrite (nth_indep _ 0 (val (@n0 F64))).
    + rewrite (map_nth (@B2R 53 1024)). f_equal. exact N.
    + rewrite map_length. assert (L := @fill_length F64 p n (fun i => quo i (n - p + 1))). change (T F64) with f64 in L. 
      change (binary_float 53 1024) with f64. lia.
  - destruct (i <=? p)%nat; [apply n0_ok|]. destruct (i <=? n)%nat; [reflexivity|apply n1_ok].
Qed.

Lemma uniff_length p n : length (uniff p n) = (n + p + 2)%nat.
Proof. exact (@fill_length F64 p n (fun i => quo i (n - p + 1))). Qed.

(** the knots from place [p] to place [n + 1] are the quotients *)
Lemma uniff_quo p n i : (Z.of_nat (n - p + 1) <= 2 ^ 51)%Z -> (p <= n)%nat -> (p <= i <= n + 1)%nat ->
  val (nth i (uniff p n) (@n0 F64)) = val (quo (i - p) (n - p + 1)).
Proof.
  intros Hb Hpn Hi. destruct (uniff_nth p n i Hb Hpn ltac:(lia)) as [_ [_ E]]. rewrite E.
  destruct (quo_ok (i - p) (n - p + 1) ltac:(lia) ltac:(lia) Hb) as [_ [_ [Q0 [Q1 _]]]].
  destruct (Nat.leb_spec i p); [symmetry; apply Q0; lia|]. destruct (Nat.leb_spec i n); [reflexivity|symmetry; apply Q1; lia].
Qed.

Lemma uniff_step p n i : (Z.of_nat (n - p + 1) <= 2 ^ 51)%Z -> (p <= n)%nat -> (p <= i <= n)%nat ->
  2 * eps <= val (nth (S i) (uniff p n) (@n0 F64)) - val (nth i (uniff p n) (@n0 F64)).
Proof.
  intros Hb Hpn Hi. rewrite !uniff_quo by (try assumption; lia). replace (S i - p)%nat with (S (i - p)) by lia.
  apply quo_step; [lia|lia|exact Hb].
Qed.

Lemma uniff_knots p n : (Z.of_nat (n - p + 1) <= 2 ^ 51)%Z -> (p <= n)%nat -> float_knots p n (uniff p n).
Proof.
  intros Hb Hpn. assert (L := uniff_length p n).
  assert (N : forall i, (i < n + p + 2)%nat -> nth i (map val (uniff p n)) 0 = val (nth i (uniff p n) (@n0 F64))) by (intros i Hi; apply uniff_nth; assumption).
  assert (E : forall i, (i < n + p + 2)%nat -> nth i (map val (uniff p n)) 0 = if (i <=? p)%nat then 0 else if (i <=? n)%nat then val (quo (i - p) (n - p + 1)) else 1).
  { intros i Hi. rewrite N by exact Hi. apply uniff_nth; assumption. }
  assert (St : forall i, (S i < n + p + 2)%nat -> nth i (map val (uniff p n)) 0 = nth (S i) (map val (uniff p n)) 0 \/ 2 * eps <= nth (S i) (map val (uniff p n)) 0 - nth i (map val (uniff p n)) 0).
  { intros i Hi. destruct (le_lt_dec p i); [destruct (le_lt_dec i n)|].
    - right. rewrite !N by lia. apply uniff_step; [exact Hb|exact Hpn|lia].
    - left. rewrite !E by lia. replace (i <=? p)%nat with false by (symmetry; apply Nat.leb_gt; lia). replace (S i <=? p)%nat with false by (symmetry; apply Nat.leb_gt; lia).
      replace (i <=? n)%nat with false by (symmetry; apply Nat.leb_gt; lia). replace (S i <=? n)%nat with false by (symmetry; apply Nat.leb_gt; lia). reflexivity.
    - left. rewrite !E by lia. replace (i <=? p)%nat with true by (symmetry; apply Nat.leb_le; lia). replace (S i <=? p)%nat with true by (symmetry; apply Nat.leb_le; lia). reflexivity. }
  assert (LM : length (map val (uniff p n)) = (n + p + 2)%nat) by (rewrite map_length; exact L).
  assert (Ep := eps_pos).
  split; [|split].
  - intros x Hx. destruct (In_nth _ _ (@n0 F64) Hx) as [i [Hi <-]]. apply uniff_nth; try assumption. change (length (uniff p n)) with (@length f64 (uniff p n)) in Hi. lia.
  - split; try assumption.
    + intros i j Hij. rewrite LM. induction Hij as [|j Hij IH]; intros Hj; [lra|]. specialize (IH ltac:(lia)). destruct (St j Hj); lra.
    + intros i Hi. rewrite E by lia. replace (i <=? p)%nat with true by (symmetry; apply Nat.leb_le; lia). reflexivity.
    + intros i Hi Hi'. rewrite E by lia. replace (i <=? p)%nat with false by (symmetry; apply Nat.leb_gt; lia).
      replace (i <=? n)%nat with false by (symmetry; apply Nat.leb_gt; lia). reflexivity.
    + intros i Hi Hi'. rewrite E by lia. replace (i <=? p)%nat with false by (symmetry; apply Nat.leb_gt; lia).
      replace (i <=? n)%nat with true by (symmetry; apply Nat.leb_le; lia).
      split; [apply quo_ok; [lia|lia|exact Hb|lia]|].
      assert (T := quo_step (i - p) (n - p + 1) ltac:(lia) ltac:(lia) Hb).
      assert (T2 := quo_mono (n - p + 1) ltac:(lia) Hb (S (i - p)) (n - p + 1) ltac:(lia) ltac:(lia)).
      assert (T3 : val (quo (n - p + 1) (n - p + 1)) = 1) by (apply quo_ok; [lia|lia|exact Hb|reflexivity]). lra.
  - intros i Hi Hne. rewrite LM in Hi. replace (i + 1)%nat with (S i) in * by lia. destruct (St i Hi) as [X|X]; [congruence|].
    apply Rle_trans with (2 := X). rewrite pow2_1000. unfold eps. change 2 with (pow2 1). rewrite <- bpow_plus. apply bpow_le. lia.
Qed.

Lemma uniform_F64_eq p n : (1 <= p <= n)%nat -> @uniform F64 p n = Val (Ok (knots_of p (uniff p n))).
Proof.
  intros H. unfold uniform. rewrite inputCheck_ok by exact H. rewrite usub_ok by lia. cbn [bind].
  apply (@build_knots F64 _ (fun i => quo i (n - p + 1))); [lia|]. intros w i Hw Hi. reflexivity.
Qed.

Lemma vec_eqb_self (v : list f64) : (forall x, In x v -> fin x = true) -> @vec_eqb F64 v v = true.
Proof.
  intros H. unfold vec_eqb. rewrite Nat.eqb_refl. cbn [andb]. induction v as [|a v IH]; [reflexivity|].
  cbn [combine forallb fst snd neqb F64]. rewrite eqb_val by (apply H; left; reflexivity). rewrite Req_bool_true by reflexivity.
  cbn [andb]. apply IH. intros x Hx. apply H. right. exact Hx.
Qed.

Lemma gap_lt a b : 2 * eps <= b - a -> a < b.
Proof. assert (E := eps_pos). lra. Qed.

Theorem uniform_F64 p n : (1 <= p <= n)%nat -> (Z.of_nat (n - p) < 2 ^ 51)%Z ->
  exists kn U, @uniform F64 p n = Val (Ok kn) /\ vector kn = Val U /\ @knots_new F64 p U = Val kn /\
    float_knots p n U /\
    (forall i, (p <= i <= n)%nat -> val (nth i U (@n0 F64)) < val (nth (S i) U (@n0 F64))) /\
    (forall i, (p <= i <= n + 1)%nat -> Rabs (val (nth i U (@n0 F64)) - INR (i - p) / INR (n - p + 1)) <= / 2 ^ 53) /\
    is_clamped kn = Val true /\ is_sorted kn = Val true /\ is_uniform kn = Val (Ok true).
Proof.
  intros H Hb. assert (Hb' : (Z.of_nat (n - p + 1) <= 2 ^ 51)%Z) by lia.
  assert (FK := uniff_knots p n Hb' ltac:(lia)). assert (L := uniff_length p n). assert (Ep := eps_pos).
  assert (KN : @knots_new F64 p (uniff p n) = Val (knots_of p (uniff p n))) by (apply (@knots_new_val F64); change (T F64) with f64; lia).
  exists (@knots_of F64 p (uniff p n)), (uniff p n).
  split; [apply uniform_F64_eq; exact H|]. split; [apply (@knots_of_vector F64)|]. split; [exact KN|]. split; [exact FK|].
  split; [intros i Hi; exact (gap_lt _ _ (uniff_step p n i Hb' (proj2 H) Hi))|].
  split.
  { intros i Hi. rewrite uniff_quo by (try assumption; lia). destruct (quo_ok (i - p) (n - p + 1) ltac:(lia) ltac:(lia) Hb') as [_ [B _]].
    replace (/ 2 ^ 53) with eps; [exact B|]. unfold eps; change (-53)%Z with (- (53))%Z; rewrite bpow_opp, (bpow_powerRZ radix2 53); reflexivity. }
  destruct FK as [Ff [C Sep]]. destruct (n0_ok) as [Z0 Z0']. destruct n1_ok as [Z1 Z1'].
  assert (N : forall i, (i < n + p + 2)%nat -> nth i (map val (uniff p n)) 0 = val (nth i (uniff p n) (@n0 F64))) by (intros i Hi; apply uniff_nth; try assumption; lia).
  assert (F : forall i, (i < n + p + 2)%nat -> fin (nth i (uniff p n) (@n0 F64)) = true) by (intros i Hi; apply uniff_nth; try assumption; lia).
  split; [|split].
  - destruct (is_clamped_gen p _ _ KN) as [b [E Hb2]]. rewrite E. f_equal. apply Hb2. intros i Hi. cbn [neqb F64].
    assert (Hi' : (i < n + p + 2)%nat) by (rewrite <- L; exact Hi). split; intros Hp; rewrite eqb_val by (try assumption; apply F; exact Hi'); apply Req_bool_true.
    + rewrite Z0', <- N by exact Hi'. apply (cl_zero _ _ _ C). exact Hp.
    + rewrite Z1', <- N by exact Hi'. assert (Hp' : (n + p + 2 <= i + p + 1)%nat) by (rewrite <- L; exact Hp).
      apply (cl_one _ _ _ C); [lia|]. rewrite map_length. exact Hi.
  - destruct (is_sorted_gen p _ _ KN) as [b [E Hb2]]. rewrite E. f_equal. apply Hb2. intros i Hi. cbn [nleb F64].
    assert (Hi' : (S i < n + p + 2)%nat) by (rewrite <- L; exact Hi). rewrite leb_val by (apply F; lia). apply Rle_bool_true.
    rewrite <- !N by lia. apply (cl_sorted _ _ _ C); [lia|]. rewrite map_length. exact Hi.
  - unfold is_uniform. rewrite (@knots_of_vector F64 p (uniff p n)). cbn [bind]. rewrite (@knots_of_segments F64 p (uniff p n) n L). cbn [bind].
    change (kdegree (@knots_of F64 p (uniff p n))) with p. rewrite uniform_F64_eq by exact H. cbn [bind].
    rewrite (@knots_of_vector F64 p (uniff p n)). cbn [bind]. rewrite vec_eqb_self by exact Ff. reflexivity.
Qed.

(** ** equally spaced parameters *)
Theorem equally_spaced_F64 m : (1 <= m)%nat -> (Z.of_nat m <= 2 ^ 51)%Z ->
  exists v, @equally_spaced F64 m = Val (mkParams v m) /\ length v = (m + 1)%nat /\
    (forall g, (g <= m)%nat -> finite (nth g v (@n0 F64)) /\ Rabs (val (nth g v (@n0 F64)) - INR g / INR m) <= / 2 ^ 53) /\
    (forall g, (g < m)%nat -> val (nth g v (@n0 F64)) < val (nth (S g) v (@n0 F64))) /\
    val (nth 0 v (@n0 F64)) = 0 /\ val (nth m v (@n0 F64)) = 1.
Proof.
  intros Hm Hb. unfold equally_spaced, range.
  destruct (@foldM_fill F64 (fun w g => x <- ndiv (nofnat g) (nofnat m);; vset w g x) (fun g => quo g m) 0 1 (m - 1) (vzeros (m + 1))) as [w [E [L H]]].
  - rewrite vzeros_length. lia.
  - intros w i Hw Hi. reflexivity.
  - rewrite E. cbn [bind]. rewrite vzeros_length in L. rewrite vset_val by lia. cbn [bind].
    assert (V : forall g, (g <= m)%nat -> fin (nth g (upd w m (@n1 F64)) (@n0 F64)) = true /\ val (nth g (upd w m (@n1 F64)) (@n0 F64)) = val (quo g m)).
    { intros g Hg. rewrite nth_upd by lia. destruct (quo_ok g m Hm Hg Hb) as [Fg [_ [Q0 [Q1 _]]]].
      destruct (Nat.eqb_spec g m) as [Eg|Hgm]; [split; [apply n1_ok|rewrite (Q1 Eg); apply n1_ok]|].
      rewrite H. destruct (Nat.leb_spec (0 + 1) g); cbn [andb].
      - replace (g <? 0 + 1 + (m - 1))%nat with true by (symmetry; apply Nat.ltb_lt; lia). rewrite Nat.sub_0_r. split; [exact Fg|reflexivity].
      - rewrite (@nth_vzeros F64). split; [apply n0_ok|]. rewrite (Q0 ltac:(lia)). apply n0_ok. }
    exists (upd w m (@n1 F64)). split; [reflexivity|]. split; [rewrite upd_length; exact L|].
    assert (Ep := eps_pos). assert (Ee : / 2 ^ 53 = eps) by (unfold eps; change (-53)%Z with (- (53))%Z; rewrite bpow_opp, (bpow_powerRZ radix2 53); reflexivity).
    split; [|split; [|split]].
    + intros g Hg. destruct (V g Hg) as [A B]. split; [exact A|]. rewrite B, Ee. apply quo_ok; assumption.
    + intros g Hg. rewrite (proj2 (V g ltac:(lia))), (proj2 (V (S g) ltac:(lia))). assert (T := quo_step g m Hm Hg Hb). lra.
    + rewrite (proj2 (V 0%nat ltac:(lia))). apply quo_ok; [exact Hm|lia|exact Hb|reflexivity].
    + rewrite (proj2 (V m ltac:(lia))). apply quo_ok; [exact Hm|lia|exact Hb|reflexivity].
Qed.
