(** * Long runs of edits in binary64 *)

From Coq Require Import ZArith Reals List Bool Arith Lia Lra Psatz Permutation.
From Flocq Require Import Core.Core IEEE754.BinarySingleNaN.
From Verif Require Import Num Vec MKnots MPoints MCurve RNum F64 Hoare Lists Struct Divisions Spec BMath BMath2 BMath3 BMath4 Api ApiF ApiF2 ApiF3 ApiC ApiQ Bridge Facts1 Facts3 Facts4 Facts5 Facts6 Facts7 Facts8 Shape1 Shape2 Shape3 Stab Float1 Float2 Float4 Float5 Float6 Float7 Float9 Float15 Float16 Float20 Float21 Float30 Float34.
Import ListNotations.
Local Open Scope R_scope.

Lemma data_more p n dim (U : list f64) P M M' c : float_data p n dim U P M c -> M <= M' -> float_data p n dim U P M' c.
Proof.
  intros [K [SH [B Bu]]] L. split; [exact K|]. split; [exact SH|]. split; [|exact Bu].
  intros i d Hi Hd. destruct (B i d Hi Hd) as [B1 B2]. split; [exact B1|lra].
Qed.

Lemma reverse_step p n dim (U : list f64) P M c h : float_data p n dim U P M c -> (1 <= p <= 100)%nat ->
  (forall x, 0 < x < 1 -> (mult (map val U) x <= p)%nat) -> / 2 ^ 52 <= h ->
  (forall i, (p <= i <= n)%nat -> nth i (map val U) 0 < nth (S i) (map val U) 0 -> h <= nth (S i) (map val U) 0 - nth i (map val U) 0) ->
  exists c' U' P', @reverse F64 c = Val c' /\ float_data p n dim U' P' M c' /\
    forall d t, (d < dim)%nat -> 0 <= t <= 1 ->
      Rabs (spline (kfun (map val U')) n p (fun i => val (ent P' i d)) t - spline (kfun (map val U)) n p (fun i => val (ent P i d)) (1 - t)) <= 6 * INR p * M * / 2 ^ 54 / h.
Proof.
  intros H Hp MU Hh G. assert (K := proj1 H). assert (C := proj1 (proj2 K)). assert (W := proj2 (proj2 (proj2 H))).
  destruct (frev_knots p n U h K Hh G) as [K1 [D1 O1]].
  destruct (reverse_struct p n dim U P c W) as [c' [E [W1 _]]]. exists c', (map frev (rev U)), (mrev P). split; [exact E|].
  assert (P52 : 0 < / 2 ^ 52) by (apply Rinv_0_lt_compat, pow_lt; lra).
  assert (LU := cl_len _ _ _ C). assert (LU' := LU). rewrite map_length in LU'. change (binary_float 53 1024) with f64 in *.
  assert (HS : shape dim (S n) P) by apply H.
  assert (B : forall i d, (i <= n)%nat -> (d < dim)%nat -> finite (ent (mrev P) i d) /\ Rabs (val (ent (mrev P) i d)) <= M).
  { intros i d Hi Hd. rewrite (ent_mrev dim (S n) P i d HS) by lia. apply (proj1 (proj2 (proj2 H))); [lia|exact Hd]. }
  split.
  { split; [exact K1|]. split; [apply mrev_shape; exact HS|]. split; [exact B|exact W1]. }
  intros d t Hd Ht. rewrite Rabs_minus_sym.
  assert (CV := reverse_clamped p n _ C).
  assert (EQ : spline (kfun (map val U)) n p (fun i => val (ent P i d)) (1 - t) = spline (kfun (vrev (map val U))) n p (fun i => val (ent (mrev P) i d)) t).
  { assert (T := dspline_reverse p n (kfun (map val U)) (kfun (vrev (map val U))) (fun i => val (ent P i d)) (fun i => val (ent (mrev P) i d)) 0 t (kfun_clamped _ _ _ C) (kfun_clamped _ _ _ CV)).
    cbn [pow] in T. rewrite Rmult_1_l in T. symmetry. rewrite !dspline_0 in T. apply T; try lia; try assumption.
    - intros a Ha. rewrite !kfun_nth by (rewrite ?vrev_length; unfold f64 in *; lia). rewrite nth_vrev by (unfold f64 in *; lia). do 2 f_equal. unfold f64 in *. lia.
    - intros i Hi. rewrite (ent_mrev dim (S n) P i d HS) by lia. do 2 f_equal. lia.
    - intros Hu'. rewrite Nat.sub_0_r. apply (mults_le p n _ C); [|lra]. intros x Hx. apply MU. exact Hx. }
  change (Rabs (spline (kfun (map val U)) n p (fun i => val (ent P i d)) (1 - t) - spline (kfun (map val (map frev (rev U)))) n p (fun i => val (ent (mrev P) i d)) t) <= 6 * INR p * M * / 2 ^ 54 / h).
  rewrite EQ. apply near_lists; try assumption; try lia; try lra.
  - intros i Hi. apply (B i d Hi Hd).
  - apply (mults_le p n _ CV). intros x Hx. rewrite mult_vrev. apply MU. lra.
  - intros i Hi. apply D1. rewrite vrev_length, map_length in Hi. exact Hi.
  - intros i Hi Lt. rewrite !nth_vrev in * by (unfold f64 in *; lia).
    assert (LM : length (map val U) = (n + p + 2)%nat) by (unfold f64 in *; lia). rewrite ?LU, ?LM in Lt |- *.
    replace (n + p + 2 - 1 - i)%nat with (S (n + p + 2 - 1 - S i)) in * by lia.
    assert (A : (p <= n + p + 2 - 1 - S i <= n)%nat) by lia. revert A Lt. generalize (n + p + 2 - 1 - S i)%nat. intros a A Lt.
    assert (X : nth a (map val U) 0 < nth (S a) (map val U) 0) by (unfold f64 in *; lra). assert (Y := G a A X). unfold f64 in *. lra.
Qed.

Lemma pow_small x m : 0 <= x -> INR m * x <= / 2 -> (1 + x) ^ m <= 1 + 2 * INR m * x.
Proof.
  intros Hx. induction m as [|m IH]; intros H; [cbn [pow INR]; lra|].
  rewrite S_INR in *. cbn [pow]. assert (I := pos_INR m). assert (Y : INR m * x <= / 2) by lra. specialize (IH Y).
  apply Rle_trans with ((1 + x) * (1 + 2 * INR m * x)); [apply Rmult_le_compat_l; lra|]. nra.
Qed.

Lemma wide_apart g (U : list R) u : / 2 ^ 49 <= g -> wide g (u :: U) -> apart U u.
Proof.
  intros Hg Wd y Hy Ne.
  assert (P1000 : / 2 ^ 1000 <= / 2 ^ 49) by (apply Rinv_le_contravar; [apply pow_lt; lra|apply Rle_pow; [lra|lia]]).
  destruct (Rtotal_order y u) as [Lt|[Eq|Gt]]; [|contradiction|].
  - assert (T := Wd y u ltac:(right; exact Hy) ltac:(left; reflexivity) Lt). rewrite Rabs_minus_sym, Rabs_pos_eq by lra. lra.
  - assert (T := Wd u y ltac:(left; reflexivity) ltac:(right; exact Hy) Gt). rewrite Rabs_pos_eq by lra. lra.
Qed.

Lemma edit_step p n dim (U : list f64) P M c e g : float_data p n dim U P M c -> (1 <= p <= 100)%nat ->
  / 2 ^ 1000 <= M <= 2 ^ 1019 -> / 2 ^ 49 <= g -> fits p g U e ->
  exists c' n' U' P', edit_once c e = Val c' /\ float_data p n' dim U' P' (M * (1 + 10 * eps) ^ p) c' /\
    forall d t, (d < dim)%nat -> 0 <= t <= 1 ->
      Rabs (spline (kfun (map val U')) n' p (fun i => val (ent P' i d)) t - spline (kfun (map val U)) n p (fun i => val (ent P i d)) (comes_from e t))
      <= (11 * INR p + 27 * INR p / g) * eps * M.
Proof.
  intros H Hp HM Hg [Wd [MU He]]. assert (EPS := eps_pos). assert (EV := eps_val). assert (K := proj1 H). assert (C := proj1 (proj2 K)).
  assert (LU := cl_len _ _ _ C). assert (LU' := LU). rewrite map_length in LU'. change (binary_float 53 1024) with f64 in *.
  assert (P49 : 0 < / 2 ^ 49) by (apply Rinv_0_lt_compat, pow_lt; lra).
  assert (E2 : 2 ^ 1019 = pow2 1019) by (rewrite (bpow_powerRZ radix2 1019); reflexivity).
  assert (HM' := HM). rewrite pow2_1000, E2 in HM'.
  assert (M0 : 0 < M) by (apply Rlt_le_trans with (2 := proj1 HM'); apply bpow_gt_0).
  assert (Ig : 0 < / g) by (apply Rinv_0_lt_compat; lra).
  assert (IP : 1 <= INR p <= 100) by (split; [replace 1 with (INR 1) by reflexivity; apply le_INR; lia|replace 100 with (INR 100) by (rewrite INR_IZR_INZ; reflexivity); apply le_INR; lia]).
  assert (EM : 0 <= eps * M) by (apply Rmult_le_pos; lra).
  assert (PG : 0 <= INR p / g) by (apply Rmult_le_pos; lra).
  assert (GR : forall x, (x <= p)%nat -> 1 <= (1 + 10 * eps) ^ x <= (1 + 10 * eps) ^ p /\ (1 + 10 * eps) ^ x <= 1 + 11 * INR x * eps /\ INR x <= INR p).
  { intros x Hx. split; [split; [apply pow_R1_Rle; lra|apply Rle_pow; [lra|exact Hx]]|]. split; [apply grow_bound; lia|apply le_INR; exact Hx]. }
  assert (GAP : forall i, (p <= i <= n)%nat -> nth i (map val U) 0 < nth (S i) (map val U) 0 -> g <= nth (S i) (map val U) 0 - nth i (map val U) 0).
  { intros i Hi Lt. apply Wd; [apply nth_In|apply nth_In|exact Lt]; unfold f64 in *; lia. }
  assert (SP : forall u, good_parameter g U u -> 
    exists cl cr nl nr wl Ql wr Qr, @split F64 c u = Val (Ok (cl, cr)) /\
    float_data p nl dim wl Ql (M * (1 + 10 * eps) ^ p) cl /\ float_data p nr dim wr Qr (M * (1 + 10 * eps) ^ p) cr /\
    forall d t, (d < dim)%nat -> 0 <= t <= 1 ->
      Rabs (spline (kfun (map val wl)) nl p (fun i => val (ent Ql i d)) t - spline (kfun (map val U)) n p (fun i => val (ent P i d)) (t * val u))
        <= (11 * INR p + 27 * INR p / g) * eps * M /\
      Rabs (spline (kfun (map val wr)) nr p (fun i => val (ent Qr i d)) t - spline (kfun (map val U)) n p (fun i => val (ent P i d)) (val u + t * (1 - val u)))
        <= (11 * INR p + 27 * INR p / g) * eps * M).
  { intros u [Fu [Hu [Wu Su]]].
    destruct (split_step p n dim U P M c u g H Hp HM Fu Hu MU Su Hg Wu) as [cl [cr [nl [nr [wl [Ql [wr [Qr [E [F1 [F2 A]]]]]]]]]]].
    set (x := (p - mult (map val U) (val u))%nat) in *. destruct (GR x ltac:(unfold x; lia)) as [G1 [G2 G3]].
    exists cl, cr, nl, nr, wl, Ql, wr, Qr. split; [exact E|].
    assert (MG : M * (1 + 10 * eps) ^ x <= M * (1 + 10 * eps) ^ p) by (apply Rmult_le_compat_l; lra).
    split; [apply (data_more _ _ _ _ _ _ _ _ F1 MG)|]. split; [apply (data_more _ _ _ _ _ _ _ _ F2 MG)|].
    assert (X0 := pos_INR x).
    assert (BD : 6 * INR p * (M * (1 + 10 * eps) ^ x) * (4 * / 2 ^ 53) / g + M * ((1 + 10 * eps) ^ x - 1) <= (11 * INR p + 27 * INR p / g) * eps * M).
    { rewrite eps_pow. set (q := (1 + 10 * eps) ^ x) in *.
      assert (Q : q <= 9 / 8).
      { assert (INR x * eps <= 100 * eps) by (apply Rmult_le_compat_r; lra). rewrite EV in *. lra. }
      assert (T1 : 6 * INR p * (M * q) * (4 * eps) / g <= 27 * INR p / g * (eps * M)).
      { replace (6 * INR p * (M * q) * (4 * eps) / g) with (24 * q * (INR p / g * (eps * M))) by (unfold Rdiv; ring).
        replace (27 * INR p / g * (eps * M)) with (27 * (INR p / g * (eps * M))) by (unfold Rdiv; ring).
        apply Rmult_le_compat_r; [apply Rmult_le_pos; assumption|lra]. }
      assert (T2 : M * (q - 1) <= 11 * INR p * (eps * M)).
      { apply Rle_trans with (M * (11 * INR x * eps)); [apply Rmult_le_compat_l; lra|].
        replace (M * (11 * INR x * eps)) with (11 * INR x * (eps * M)) by ring. apply Rmult_le_compat_r; lra. }
      replace ((11 * INR p + 27 * INR p / g) * eps * M) with (27 * INR p / g * (eps * M) + 11 * INR p * (eps * M)) by ring. lra. }
    intros d t Hd Ht. destruct (A d t Hd Ht) as [A1 A2]. split; eapply Rle_trans; try exact A1; try exact A2; exact BD. }
  destruct e as [u x| |u f|u f|k]; cbn [edit_once comes_from]; [| | | |contradiction].
  - destruct He as [[Fu [Hu [Wu Su]]] Hm]. destruct (GR x ltac:(lia)) as [G1 [G2 G3]].
    assert (IX := pos_INR x).
    destruct (insert_times_data x p n dim U P M c u H ltac:(lia) (proj1 HM')) as [c1 [V [Q [E1 [H1 [_ Sf]]]]]]; try assumption.
    { change (pow2 1020) with (pow2 (1 + 1019)). rewrite bpow_plus. change (pow2 1) with 2. apply Rle_trans with (M * 2); [|lra]. apply Rmult_le_compat_l; [lra|].
      assert (XE : INR x * eps <= 100 * eps) by (apply Rmult_le_compat_r; lra). revert G2. generalize ((1 + 10 * eps) ^ x). intros q Hq. rewrite EV in Hq, XE. lra. }
    { apply (wide_apart g); assumption. }
    { eapply Nat.le_trans; [exact Hm|lia]. }
    exists c1, (n + x)%nat, V, Q. rewrite E1. split; [reflexivity|]. split.
    + apply (data_more _ _ _ _ _ _ _ _ H1). apply Rmult_le_compat_l; lra.
    + intros d t Hd Ht. eapply Rle_trans; [apply (Sf d t Hd Ht)|].
      apply Rle_trans with (M * (11 * INR x * eps)); [apply Rmult_le_compat_l; lra|].
      replace (M * (11 * INR x * eps)) with (11 * INR x * (eps * M)) by ring. rewrite (Rmult_assoc (11 * INR p + 27 * INR p / g) eps M). apply Rmult_le_compat_r; lra.
  - destruct (reverse_step p n dim U P M c g H Hp MU) as [c' [U' [P' [E [H' A]]]]]; [|exact GAP|].
    { apply Rle_trans with (2 := Hg). apply Rinv_le_contravar; [apply pow_lt; lra|apply Rle_pow; [lra|lia]]. }
    exists c', n, U', P'. split; [exact E|]. split.
    + apply (data_more _ _ _ _ _ _ _ _ H'). rewrite <- (Rmult_1_r M) at 1. apply Rmult_le_compat_l; [lra|apply pow_R1_Rle; lra].
    + intros d t Hd Ht. eapply Rle_trans; [apply (A d t Hd Ht)|].
      replace (6 * INR p * M * / 2 ^ 54 / g) with (3 * (INR p / g) * (eps * M)).
      * rewrite (Rmult_assoc (11 * INR p + 27 * INR p / g) eps M). apply Rmult_le_compat_r; [exact EM|]. lra.
      * rewrite <- eps_pow, pow_53_54. generalize (/ 2 ^ 54). intros z. field. lra.
  - destruct He as [-> He]. destruct (SP u He) as [cl [cr [nl [nr [wl [Ql [wr [Qr [E [F1 [F2 A]]]]]]]]]]].
    exists cl, nl, wl, Ql. unfold split in E. rewrite E. split; [reflexivity|]. split; [exact F1|]. intros d t Hd Ht. apply (A d t Hd Ht).
  - destruct He as [-> He]. destruct (SP u He) as [cl [cr [nl [nr [wl [Ql [wr [Qr [E [F1 [F2 A]]]]]]]]]]].
    exists cr, nr, wr, Qr. unfold split in E. rewrite E. split; [reflexivity|]. split; [exact F2|]. intros d t Hd Ht. apply (A d t Hd Ht).
Qed.

Lemma comes_from_unit p g V e t : fits p g V e -> 0 <= t <= 1 -> 0 <= comes_from e t <= 1.
Proof.
  intros [_ [_ F]] Ht. destruct e as [u x| |u f|u f|k]; cbn [comes_from] in *; try lra.
  - destruct F as [_ [_ [Hu _]]]. split; [apply Rmult_le_pos; lra|nra].
  - destruct F as [_ [_ [Hu _]]]. split; nra.
Qed.

Lemma careful_unit p g dim t : (1 <= p <= 100)%nat -> / 2 ^ 49 <= g -> 0 <= t <= 1 -> forall es n (U : list f64) P M c, float_data p n dim U P M c ->
  / 2 ^ 1000 <= M -> M * ((1 + 10 * eps) ^ p) ^ length es <= 2 ^ 1019 -> careful p g c es ->
  0 <= original es t <= 1 /\
  exists c' n' U' P', edited c es = Val c' /\ float_data p n' dim U' P' (M * ((1 + 10 * eps) ^ p) ^ length es) c' /\
    forall d, (d < dim)%nat ->
      Rabs (spline (kfun (map val U')) n' p (fun i => val (ent P' i d)) t - spline (kfun (map val U)) n p (fun i => val (ent P i d)) (original es t))
      <= INR (length es) * ((11 * INR p + 27 * INR p / g) * eps) * (M * ((1 + 10 * eps) ^ p) ^ length es).
Proof.
  intros Hp Hg Ht. assert (EPS := eps_pos). set (G := (1 + 10 * eps) ^ p). assert (G1 : 1 <= G) by (apply pow_R1_Rle; lra).
  assert (P49 : 0 < / 2 ^ 49) by (apply Rinv_0_lt_compat, pow_lt; lra).
  assert (P1000 : 0 < / 2 ^ 1000) by (apply Rinv_0_lt_compat, pow_lt; lra).
  assert (Ig : 0 < / g) by (apply Rinv_0_lt_compat; lra).
  set (k := (11 * INR p + 27 * INR p / g) * eps). assert (K0 : 0 <= k).
  { assert (I := pos_INR p). apply Rmult_le_pos; [|lra]. apply Rplus_le_le_0_compat; [lra|]. apply Rmult_le_pos; lra. }
  induction es as [|e es IH]; intros n U P M c H HM1 HM2 Ca.
  - cbn [length original]. cbn [pow] in *. rewrite Rmult_1_r in *. split; [exact Ht|]. exists c, n, U, P. split; [reflexivity|]. split; [exact H|].
    intros d Hd. rewrite Rminus_diag_eq, Rabs_R0 by reflexivity. cbn [INR]. rewrite Rmult_0_l, Rmult_0_l. apply Rle_refl.
  - cbn [careful] in Ca. destruct Ca as [[V [EV F]] Ca]. assert (W := proj2 (proj2 (proj2 H))). rewrite (wf_knots _ _ _ _ _ _ W), (@knots_of_vector F64 p U) in EV. injection EV as <-.
    cbn [length] in *. assert (GN : 1 <= G ^ length es) by (apply pow_R1_Rle; exact G1). cbn [pow] in HM2.
    assert (GG : 1 <= G * G ^ length es) by nra.
    assert (M0 : 0 < M) by lra.
    assert (MM : M <= M * (G * G ^ length es)) by nra.
    destruct (edit_step p n dim U P M c e g H Hp ltac:(split; [exact HM1|lra]) Hg F) as [c1 [n1 [U1 [P1 [E1 [H1 A1]]]]]]. fold G in H1.
    destruct (IH n1 U1 P1 (M * G) c1 H1) as [O1 [c2 [n2 [U2 [P2 [E2 [H2 A2]]]]]]].
    { nra. }
    { rewrite Rmult_assoc. exact HM2. }
    { apply Ca. exact E1. }
    split; [cbn [original]; apply (comes_from_unit p g U); assumption|].
    exists c2, n2, U2, P2. split; [|split].
    + unfold edited in *. cbn [foldM]. rewrite E1. cbn [bind]. exact E2.
    + cbn [pow]. rewrite <- Rmult_assoc. exact H2.
    + intros d Hd. cbn [original]. assert (X2 := A2 d Hd). assert (X1 := A1 d _ Hd O1). fold k in X1.
      eapply Rle_trans; [eapply tri_le; [exact X2|exact X1]|].
      rewrite S_INR. cbn [pow]. set (N := INR (length es)). set (Y := M * (G * G ^ length es)) in *. replace (M * G * G ^ length es) with Y by (unfold Y; ring).
      assert (k * M <= k * Y) by (apply Rmult_le_compat_l; assumption). lra.
Qed.

Theorem edits_accurate p n dim (U : list f64) P M c P' cR g es : float_curve p n dim U P M c -> same_points n dim P P' ->
  clamped_curve p n dim (map val U) P' cR -> (1 <= p <= 100)%nat -> / 2 ^ 1000 <= M <= 2 ^ 1018 -> / 2 ^ 49 <= g ->
  careful p g c es -> INR (length es) <= 2 ^ 20 ->
  exists c', edited c es = Val c' /\
    forall t, finite t -> 0 <= val t <= 1 ->
    exists f, returns (evaluate cR (original es (val t))) dim f /\
      returns_within (@evaluate F64 c' t) dim f ((6 * INR p + 4 + INR (length es) * (12 * INR p + 28 * INR p / g)) * / 2 ^ 53 * M).
Proof.
  intros H [Sh Ep] HR Hp HM Hg Ca HN. assert (EPS := eps_pos). assert (EVv := eps_val).
  assert (IP : 1 <= INR p <= 100) by (split; [replace 1 with (INR 1) by reflexivity; apply le_INR; lia|replace 100 with (INR 100) by (rewrite INR_IZR_INZ; reflexivity); apply le_INR; lia]).
  assert (IN := pos_INR (length es)).
  assert (P49 : 0 < / 2 ^ 49) by (apply Rinv_0_lt_compat, pow_lt; lra).
  assert (P1000 : 0 < / 2 ^ 1000) by (apply Rinv_0_lt_compat, pow_lt; lra).
  assert (Ig : 0 < / g) by (apply Rinv_0_lt_compat; lra).
  assert (PG : 0 <= INR p / g) by (apply Rmult_le_pos; lra).
  set (N := INR (length es)) in *. set (G := ((1 + 10 * eps) ^ p) ^ length es).
  assert (G1 : 1 <= G) by (apply pow_R1_Rle, pow_R1_Rle; lra).
  assert (N20 : N <= 1048576) by (replace 1048576 with (2 ^ 20) by (cbn [pow]; lra); exact HN).
  assert (PN : 0 <= INR p * N <= 104857600).
  { split; [apply Rmult_le_pos; lra|]. apply Rle_trans with (100 * 1048576); [apply Rmult_le_compat; lra|lra]. }
  assert (PNe : INR p * N * eps <= 104857600 * eps) by (apply Rmult_le_compat_r; lra).
  assert (PNe0 : 0 <= INR p * N * eps) by (apply Rmult_le_pos; lra).
  assert (G2 : G <= 1 + / 1000).
  { unfold G. rewrite <- pow_mult. eapply Rle_trans; [apply pow_small; [lra|]|]; rewrite mult_INR; fold N.
    - replace (INR p * N * (10 * eps)) with (10 * (INR p * N * eps)) by ring. rewrite EVv in PNe |- *. lra.
    - replace (2 * (INR p * N) * (10 * eps)) with (20 * (INR p * N * eps)) by ring. rewrite EVv in PNe |- *. lra. }
  assert (MG : M * G <= 2 ^ 1019).
  { change 1019%nat with (1 + 1018)%nat. rewrite pow_add. apply Rle_trans with (M * 2); [apply Rmult_le_compat_l; lra|]. generalize (proj2 HM). generalize (2 ^ 1018). intros z Hz. lra. }
  assert (MG' : M * G <= 2 ^ 1022) by (apply Rle_trans with (1 := MG); apply Rle_pow; [lra|lia]).
  assert (H0 := float_data_of p n dim U P M c H).
  assert (BND : (6 * INR p + 3) * / 2 ^ 53 * (M * G) + N * ((11 * INR p + 27 * INR p / g) * eps) * (M * G) <= (6 * INR p + 4 + N * (12 * INR p + 28 * INR p / g)) * / 2 ^ 53 * M).
  { rewrite eps_pow.
    replace ((6 * INR p + 3) * eps * (M * G) + N * ((11 * INR p + 27 * INR p / g) * eps) * (M * G)) with (G * (6 * INR p + 3 + N * (11 * INR p + 27 * INR p / g)) * (eps * M)) by ring.
    rewrite (Rmult_assoc _ eps M). apply Rmult_le_compat_r; [apply Rmult_le_pos; lra|].
    assert (Z : 0 <= N * (INR p / g)) by (apply Rmult_le_pos; lra).
    replace (27 * INR p / g) with (27 * (INR p / g)) by (unfold Rdiv; ring). replace (28 * INR p / g) with (28 * (INR p / g)) by (unfold Rdiv; ring).
    apply Rle_trans with ((1 + / 1000) * (6 * INR p + 3 + N * (11 * INR p + 27 * (INR p / g)))).
    - apply Rmult_le_compat_r; [|exact G2].
      assert (0 <= N * (11 * INR p)) by (apply Rmult_le_pos; lra). nra.
    - assert (0 <= N * INR p) by (apply Rmult_le_pos; lra). nra. }
  destruct (careful_unit p g dim 0 Hp Hg ltac:(lra) es n U P M c H0 (proj1 HM) MG Ca) as [_ [c' [n' [U' [P1 [E [H1 _]]]]]]].
  exists c'. split; [exact E|]. intros t Ft Ht.
  destruct (careful_unit p g dim (val t) Hp Hg Ht es n U P M c H0 (proj1 HM) MG Ca) as [Ot [c2 [n2 [U2 [P2 [E2 [H2 A2]]]]]]].
  rewrite E in E2. injection E2 as <-.
  exists (fun d => spline (kfun (map val U)) n p (fun i => ent P' i d) (original es (val t))). split; [apply (cc_eval0 p n dim _ P' cR _ HR Ot)|].
  destruct H2 as [K2 [S2 [B2 W2]]].
  eapply within_eq; [eapply within_more; [apply (eval_wf p n2 dim U2 P2 (M * G) c' t W2 K2 B2 ltac:(lia)); [|exact Ft|exact Ht]|]|reflexivity|exact BND].
  - split; [|exact MG']. apply Rle_trans with M; [lra|]. rewrite <- (Rmult_1_r M) at 1. apply Rmult_le_compat_l; lra.
  - intros d Hd. cbv beta.
    replace (spline (kfun (map val U)) n p (fun i => ent P' i d) (original es (val t))) with (spline (kfun (map val U)) n p (fun i => val (ent P i d)) (original es (val t)))
        by (unfold spline; apply rsum_ext; intros i Hi; rewrite Ep by (try exact Hd; lia); reflexivity).
    apply (A2 d Hd).
Qed.
