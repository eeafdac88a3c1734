(** * Derivatives of the parts of a split curve in binary64 *)

From Coq Require Import ZArith Reals List Bool Arith Lia Lra Psatz Permutation.
From Flocq Require Import Core.Core IEEE754.BinarySingleNaN.
From Verif Require Import Num Vec MKnots MPoints MCurve RNum F64 Hoare Lists Struct Divisions Spec BMath BMath2 BMath3 BMath4 BMath5 Api ApiF ApiF2 ApiF3 Bridge Facts1 Facts3 Facts4 Facts5 Facts6 Facts7 Facts8 Shape1 Shape2 Shape3 Stab Float1 Float2 Float4 Float5 Float6 Float7 Float9 Float10 Float16 Float20 Float21 Stab2 Float29 Float30.
Import ListNotations.
Local Open Scope R_scope.

Lemma pow_49_53 : / 2 ^ 49 = 16 * / 2 ^ 53.
Proof.
  replace (2 ^ 53) with (2 ^ 49 * 16) by (change 53%nat with (49 + 4)%nat; rewrite pow_add; ring).
  assert (X : 2 ^ 49 <> 0) by (apply pow_nonzero; lra). set (a := 2 ^ 49) in *. field; assumption.
Qed.

(** ** One part *)
Lemma part_derivatives p n dim (v : list f64) (P : Mat F64) M h k : (forall x, In x v -> finite x) -> sorted (map val v) -> length v = (n + p + 2)%nat ->
  let a := nth 0 (map val v) 0 in let b := nth (n + p + 1) (map val v) 0 in
  let U := map (fun x => (x - a) / (b - a)) (map val v) in
  0 <= a -> a < b -> b <= 1 -> clamped p n U -> (k < p)%nat -> (p <= 100)%nat -> (forall x, 0 < x < 1 -> mult_le (kfun U) x (p - k)) -> / 2 ^ 49 <= h ->
  (forall i, (p <= i <= n)%nat -> nth i (map val v) 0 < nth (S i) (map val v) 0 -> h <= nth (S i) (map val v) 0 - nth i (map val v) 0) ->
  shape dim (S n) P -> (forall i d, (i <= n)%nat -> (d < dim)%nat -> finite (ent P i d) /\ Rabs (val (ent P i d)) <= M) -> / 2 ^ 1000 <= M ->
  M * (4 * INR p / h) ^ k <= 2 ^ 1020 ->
  exists w c, @vec_normalize F64 v = Val w /\ length w = (n + p + 2)%nat /\ @make_part F64 p w P = Val (Ok c) /\
    (forall i, kfun U i < kfun U (S i) -> h <= kfun U (S i) - kfun U i) /\
    forall t, finite t -> 0 <= val t <= 1 ->
    returns_within (@evaluate_derivative F64 c t k) dim (fun d => dspline (kfun U) n p (fun i => val (ent P i d)) k (val t))
      ((6 * INR p + 4) * / 2 ^ 53 * (M * (4 * INR p / h) ^ k) + (6 * INR p + 4) * (4 * / 2 ^ 53 / h) * (M * (4 * INR p / h) ^ k)).
Proof.
  intros Ff SV L a b U A0 AB B1 C Hk Hp HM Hh G HP B MM HB.
  destruct (normalized_knots p n v h Ff SV L A0 AB B1 C Hh G) as [w [E [Lw [K [D [O GU]]]]]]. fold a b in D, O, GU. fold U in D, O, GU.
  assert (Lw' : length w = (n + p + 2)%nat) by (rewrite Lw; exact L).
  assert (SZ : @sized F64 p n dim w P) by (split; [apply (cl_deg _ _ _ C)|]; split; [exact Lw'|exact HP]).
  destruct (built_ex_gen F64 gdiv_F64 p n dim w P SZ) as [c Bc].
  assert (FC : float_curve p n dim w P M c) by (split; [exact K|split; [exact HP|split; [exact B|exact Bc]]]).
  assert (P49 : 0 < / 2 ^ 49) by (apply Rinv_0_lt_compat, pow_lt; lra). assert (H0 : 0 < h) by lra.
  assert (E49 := pow_49_53).
  assert (CW := proj1 (proj2 K)). assert (FU := kfun_clamped p n U C). assert (FW := kfun_clamped p n _ CW).
  assert (LU := cl_len _ _ _ C). assert (LW := cl_len _ _ _ CW).
  assert (GK := kfun_gaps p n U h C GU).
  assert (DK : forall i, Rabs (kfun U i - kfun (map val w) i) <= 4 * / 2 ^ 53) by (apply (kdist p n); assumption).
  assert (OK : forall i, (i <= n)%nat -> kfun (map val w) i < kfun (map val w) (S i) -> kfun U i < kfun U (S i)).
  { intros i Hi Lt. destruct (le_lt_dec p i) as [I|I].
    - rewrite !kfun_nth in * by lia. apply O; [lia|exact Lt].
    - rewrite !(fc_zero _ _ _ FW) in Lt by lia. lra. }
  assert (GW := gaps_V p n (kfun U) (kfun (map val w)) (4 * / 2 ^ 53) h FW DK OK GK ltac:(lra)).
  exists w, c. split; [exact E|]. split; [exact Lw'|]. split.
  - destruct Bc as [kn [E1 E2]]. unfold make_part. rewrite E1. cbn [bind]. rewrite E2. reflexivity.
  - split; [exact GK|]. intros t Ft Ht.
    assert (E4 : 2 * INR p / (h / 2) = 4 * INR p / h) by (field; lra).
    assert (P1000 : / 2 ^ 1000 <= / 2 ^ 50) by (apply Rinv_le_contravar; [apply pow_lt; lra|apply Rle_pow; [lra|lia]]).
    assert (E50 : / 2 ^ 50 = / 2 ^ 49 / 2).
    { change 50%nat with (49 + 1)%nat. rewrite pow_add, Rinv_mult, pow_1. unfold Rdiv. ring. }
    assert (T := derivative_dspline p n dim w P M c t k (h / 2) FC Hp ltac:(lia) MM ltac:(lra) (gaps_spaced p n _ (h / 2) CW GW)).
    rewrite E4 in T. eapply within_more; [apply T; assumption|]. intros d Hd. cbv beta. rewrite Rabs_minus_sym.
    apply (near_dspline p n (kfun U) (kfun (map val w)) (fun i => val (ent P i d)) (4 * / 2 ^ 53) h M); try assumption.
    + lra.
    + intros i Hi. apply B; assumption.
Qed.

Lemma split_dbound p x g M e S4 S2 : (x <= p)%nat -> (p <= 100)%nat -> 0 < g -> 0 <= M -> 0 <= e -> e * 10000000 <= 1 -> 0 <= S2 -> S2 <= S4 ->
  (6 * INR p + 4) * e * ((1 + 11 * INR x * e) * M * S4) + (6 * INR p + 4) * (4 * e / g) * ((1 + 11 * INR x * e) * M * S4) + M * (11 * INR x * e) * S2
  <= (17 * INR p + 5 + (24 * INR p + 17) / g) * e * (M * S4).
Proof.
  intros Hx Hp Hg HM He Hs H2 H4.
  assert (X : 0 <= INR x <= INR p) by (split; [apply pos_INR|apply le_INR; exact Hx]).
  assert (Q : INR p <= 100) by (replace 100 with (INR 100) by (rewrite INR_IZR_INZ; reflexivity); apply le_INR; exact Hp).
  set (P := INR p) in *. set (X' := INR x) in *.
  assert (I0 : 0 < / g) by (apply Rinv_0_lt_compat; exact Hg).
  assert (Z : 0 <= e * (M * S4)) by (apply Rmult_le_pos; [exact He|apply Rmult_le_pos; lra]).
  assert (F : (6 * P + 4) * (11 * X' * e) <= / 4).
  { apply Rle_trans with (604 * (1100 * e)); [|lra]. apply Rmult_le_compat; try lra; [apply Rmult_le_pos; lra|]. apply Rmult_le_compat_r; lra. }
  assert (T3 : M * (11 * X' * e) * S2 <= 11 * P * (e * (M * S4))).
  { replace (M * (11 * X' * e) * S2) with (11 * X' * e * M * S2) by ring. replace (11 * P * (e * (M * S4))) with (11 * P * e * M * S4) by ring.
    apply Rmult_le_compat; [|exact H2| |exact H4].
    - apply Rmult_le_pos; [apply Rmult_le_pos; lra|exact HM].
    - apply Rmult_le_compat_r; [exact HM|]. apply Rmult_le_compat_r; lra. }
  replace ((6 * P + 4) * e * ((1 + 11 * X' * e) * M * S4)) with (((6 * P + 4) + (6 * P + 4) * (11 * X' * e)) * (e * (M * S4))) by ring.
  replace ((6 * P + 4) * (4 * e / g) * ((1 + 11 * X' * e) * M * S4)) with ((4 * ((6 * P + 4) + (6 * P + 4) * (11 * X' * e))) * / g * (e * (M * S4))) by (field; lra).
  replace ((17 * P + 5 + (24 * P + 17) / g) * e * (M * S4)) with ((6 * P + 5) * (e * (M * S4)) + (24 * P + 17) * / g * (e * (M * S4)) + 11 * P * (e * (M * S4))) by (field; lra).
  apply Rplus_le_compat; [|exact T3]. apply Rplus_le_compat; (apply Rmult_le_compat_r; [exact Z|]); [lra|]. apply Rmult_le_compat_r; lra.
Qed.

Theorem split_derivatives p n dim (U : list f64) P M c P' cR (u : f64) g k : float_curve p n dim U P M c -> same_points n dim P P' ->
  clamped_curve p n dim (map val U) P' cR -> (k < p)%nat -> (p <= 100)%nat -> / 2 ^ 1000 <= M <= 2 ^ 1019 -> finite u -> 0 < val u < 1 ->
  (forall x, 0 < x < 1 -> (mult (map val U) x <= p - k)%nat) -> simple_below (map val U) (val u) ->
  / 2 ^ 49 <= g -> wide g (val u :: map val U) -> M * (4 * INR p / g) ^ k <= 2 ^ 1019 ->
  exists cl cr, @split F64 c u = Val (Ok (cl, cr)) /\
    forall t, finite t -> 0 <= val t <= 1 ->
      (exists f, returns (evaluate_derivative cR (val t * val u) k) dim f /\
        returns_within (@evaluate_derivative F64 cl t k) dim (fun d => val u ^ k * f d) ((17 * INR p + 5 + (24 * INR p + 17) / g) * / 2 ^ 53 * (M * (4 * INR p / g) ^ k))) /\
      (exists f, returns (evaluate_derivative cR (val u + val t * (1 - val u)) k) dim f /\
        returns_within (@evaluate_derivative F64 cr t k) dim (fun d => (1 - val u) ^ k * f d) ((17 * INR p + 5 + (24 * INR p + 17) / g) * / 2 ^ 53 * (M * (4 * INR p / g) ^ k))).
Proof.
  intros H [Sh Ep] HR Hk Hp HM Fu Hu MUk Hs Hg Wd HB. assert (MU : forall x, 0 < x < 1 -> (mult (map val U) x <= p)%nat) by (intros y Hy; specialize (MUk y Hy); lia). assert (K := proj1 H). assert (Ff := proj1 K). assert (C := proj1 (proj2 K)). assert (W := float_wf p n dim U P M c H).
  assert (D := cl_deg _ _ _ C). assert (Len := cl_len _ _ _ C). assert (LenU := Len). rewrite map_length in LenU. change (binary_float 53 1024) with f64 in *.
  assert (E2 : 2 ^ 1019 = pow2 1019) by (rewrite (bpow_powerRZ radix2 1019); reflexivity).
  assert (E3 : 2 ^ 1022 = pow2 1022) by (rewrite (bpow_powerRZ radix2 1022); reflexivity).
  assert (HM' := HM). rewrite pow2_1000, E2 in HM'.
  assert (M0 : 0 < M) by (apply Rlt_le_trans with (2 := proj1 HM'); apply bpow_gt_0).
  assert (P49 : 0 < / 2 ^ 49) by (apply Rinv_0_lt_compat, pow_lt; lra).
  assert (P1000 : / 2 ^ 1000 <= / 2 ^ 49) by (apply Rinv_le_contravar; [apply pow_lt; lra|apply Rle_pow; [lra|lia]]).
  assert (EPS := eps_pos). assert (EV := eps_val).
  set (m := mult (map val U) (val u)) in *. assert (Hm : (m <= p)%nat) by (apply MU; exact Hu). set (x := (p - m)%nat).
  assert (GB := grow_bound x ltac:(unfold x; lia)).
  assert (IX : 0 <= INR x <= 100) by (split; [apply pos_INR|replace 100 with (INR 100) by (rewrite INR_IZR_INZ; reflexivity); apply le_INR; unfold x; lia]).
  assert (IXe : 11 * INR x * eps <= / 9) by (rewrite EV; lra).
  assert (AP : apart (map val U) (val u)).
  { intros y Hy Ne. destruct (Rtotal_order y (val u)) as [Lt|[Eq|Gt]]; [|contradiction|].
    - assert (T := Wd y (val u) ltac:(right; exact Hy) ltac:(left; reflexivity) Lt). rewrite Rabs_minus_sym, Rabs_pos_eq by lra. lra.
    - assert (T := Wd (val u) y ltac:(left; reflexivity) ltac:(right; exact Hy) Gt). rewrite Rabs_pos_eq by lra. lra. }
  destruct (insert_times_points_F64 x p n dim U P M c u H ltac:(lia) (proj1 HM')) as [c1 [V [Q [E1 [H1 [Pe Sf]]]]]]; try assumption.
  { change (pow2 1020) with (pow2 (1 + 1019)). rewrite bpow_plus. change (pow2 1) with 2. apply Rle_trans with (M * 2); [apply Rmult_le_compat_l; lra|lra]. }
  { fold m. unfold x. lia. }
  set (M1 := M * (1 + 10 * eps) ^ x) in *.
  assert (G1 : 1 <= (1 + 10 * eps) ^ x) by (apply pow_R1_Rle; lra).
  assert (M1b : M <= M1 <= (1 + 11 * INR x * eps) * M) by (unfold M1; split; nra).
  assert (KV := proj1 H1). assert (FfV := proj1 KV). assert (CV := proj1 (proj2 KV)). assert (LenV := cl_len _ _ _ CV). assert (LenV' := LenV). rewrite map_length in LenV'. change (binary_float 53 1024) with f64 in *.
  assert (PeR : Permutation (repeat (val u) x ++ map val U) (map val V)).
  { rewrite <- map_repeat, <- map_app. apply Permutation_map. exact Pe. }
  (* where the search ends *)
  assert (F := @find_le_spec RNum False p n 0 (map val U) (val u) ltac:(rn; exact Len) D ltac:(lia)). apply ok_val_ex in F. destruct F as [l [F _]].
  set (h := if (0 <? m)%nat then l else (l + 1)%nat) in *.
  assert (SS : @take_while_count RNum (val u) (skipn l (map val U)) = m /\ (p < h <= n + 1)%nat /\ sep (map val U) (val u) h) by exact (split_sep p n (map val U) (val u) l C Hu Hs F).
  destruct SS as [Ew [Hh Hsep]].
  assert (SU := clamped_sorted' _ _ _ C).
  assert (LU : length (map val U) = (n + p + 2)%nat) by exact Len.
  assert (EVm : map val V = ins_many (map val U) h x (val u)).
  { apply sorted_perm_eq; [apply (clamped_sorted' _ _ _ CV)|apply ins_many_sorted; try assumption; unfold f64 in *; lia|].
    eapply Permutation_trans; [apply Permutation_sym; exact PeR|apply ins_many_perm]. }
  assert (SR : (h + m <= length (map val U))%nat /\ (forall i, (h <= i < h + m)%nat -> nth i (map val U) 0 = val u) /\ (forall i, (h + m <= i < length (map val U))%nat -> val u < nth i (map val U) 0)).
  { apply (sep_run (map val U) (val u) h SU); [unfold f64 in *; lia|exact Hsep]. }
  destruct SR as [R1 [R2 R3]].
  assert (Hhn : (h + m <= n + 1)%nat).
  { destruct (le_lt_dec (h + m) (n + 1)); [assumption|exfalso].
    specialize (R2 (n + 1)%nat). destruct (le_lt_dec h (n + 1)); [|lia].
    rewrite (cl_one _ _ _ C) in R2 by (unfold f64 in *; lia). specialize (R2 ltac:(lia)). lra. }
  assert (NV : forall i, nth i (map val V) 0 = if (i <? h)%nat then nth i (map val U) 0 else if (i <? h + x)%nat then val u else nth (i - x) (map val U) 0).
  { intros i. rewrite EVm. apply nth_ins_many. unfold f64 in *. lia. }
  assert (V1 : forall i, (i < h)%nat -> nth i (map val V) 0 < val u).
  { intros i Hi. rewrite NV. replace (i <? h)%nat with true by (symmetry; apply Nat.ltb_lt; lia). apply (proj1 Hsep). exact Hi. }
  assert (V2 : forall i, (h <= i < h + p)%nat -> nth i (map val V) 0 = val u).
  { intros i Hi. rewrite NV. replace (i <? h)%nat with false by (symmetry; apply Nat.ltb_ge; lia).
    destruct (Nat.ltb_spec i (h + x)); [reflexivity|]. apply R2. unfold x in *. lia. }
  assert (V3 : forall i, (h + p <= i < length (map val V))%nat -> val u < nth i (map val V) 0).
  { intros i Hi. rewrite NV. replace (i <? h)%nat with false by (symmetry; apply Nat.ltb_ge; lia).
    replace (i <? h + x)%nat with false by (symmetry; apply Nat.ltb_ge; unfold x; lia). apply R3. unfold x, f64 in *. lia. }
  set (n' := (n + x)%nat) in *.
  assert (A1 : (p < h)%nat) by lia. assert (A2 : (h + p <= n' + 1)%nat) by (unfold n', x; lia).
  assert (HMV : forall y, 0 < y < 1 -> y <> val u -> mult_le (kfun (map val V)) y (p - k)).
  { intros y Hy Ne. apply (mult_mult_le p n' (map val V) y (p - k) CV Hy). eapply Nat.le_trans; [apply Nat.eq_le_incl; symmetry; apply (mult_perm _ _ y PeR)|]. rewrite mult_app, mult_repeat.
    destruct (Req_EM_T (val u) y) as [Eq|_]; [congruence|exact (MUk y Hy)]. }
  assert (WV : forall y, In y (map val V) -> In y (val u :: map val U)).
  { intros y Hy. apply (Permutation_in y (Permutation_sym PeR)) in Hy. apply in_app_or in Hy. destruct Hy as [Hy|Hy]; [left; symmetry; apply (repeat_spec _ _ _ Hy)|right; exact Hy]. }
  assert (SV := clamped_sorted' _ _ _ CV).
  assert (HQ : shape dim (S n') Q) by apply H1.
  assert (BQ := proj1 (proj2 (proj2 H1))).
  assert (MM : / 2 ^ 1000 <= M1) by lra.
  set (S4 := (4 * INR p / g) ^ k) in *. set (S2 := (2 * INR p / g) ^ k).
  assert (Ig : 0 < / g) by (apply Rinv_0_lt_compat; lra). assert (IP : 0 <= INR p) by apply pos_INR.
  assert (GI : 0 <= 2 * INR p / g) by (apply Rmult_le_pos; lra).
  assert (S20 : 0 <= S2) by (apply pow_le; exact GI).
  assert (S24 : S2 <= S4) by (apply pow_incr; split; [exact GI|unfold Rdiv; apply Rmult_le_compat_r; lra]).
  assert (HB1 : M1 * S4 <= 2 ^ 1020).
  { assert (M2 : M1 <= 2 * M) by (eapply Rle_trans; [apply M1b|]; apply Rmult_le_compat_r; lra).
    apply Rle_trans with (2 * M * S4); [apply Rmult_le_compat_r; lra|]. replace (2 ^ 1020) with (2 * 2 ^ 1019) by (change 1020%nat with (1 + 1019)%nat; rewrite pow_add, pow_1; reflexivity). rewrite Rmult_assoc. apply Rmult_le_compat_l; [lra|exact HB]. }
  (* the left part *)
  set (vl := firstn (h + p) V ++ [u]).
  assert (Evl : map val vl = firstn (h + p) (map val V) ++ [val u]) by (unfold vl; rewrite map_app, firstn_map; reflexivity).
  assert (Lvl : length vl = (h - 1 + p + 2)%nat) by (unfold vl; rewrite app_length, firstn_length; cbn [length]; unfold f64 in *; lia).
  assert (Cl := L_clamped p n' (map val V) (val u) h CV Hu A1 A2 V1 V2).
  assert (al : nth 0 (map val vl) 0 = 0).
  { rewrite Evl, app_nth1 by (rewrite firstn_length; unfold f64 in *; lia). rewrite nth_firstn by lia. apply (cl_zero _ _ _ CV). lia. }
  assert (bl : nth (h - 1 + p + 1) (map val vl) 0 = val u).
  { rewrite Evl, app_nth2 by (rewrite firstn_length; unfold f64 in *; lia). rewrite firstn_length, Nat.min_l by (unfold f64 in *; lia). replace (h - 1 + p + 1 - (h + p))%nat with 0%nat by lia. reflexivity. }
  assert (Ul : map (fun y => (y - 0) / (val u - 0)) (map val vl) = map (fun y => y / val u) (firstn (h + p) (map val V) ++ [val u])).
  { rewrite Evl. apply map_ext. intros y. rewrite !Rminus_0_r. reflexivity. }
  assert (IVl : forall y, In y (map val vl) -> In y (val u :: map val U)).
  { intros y Hy. rewrite Evl in Hy. apply in_app_or in Hy. destruct Hy as [Hy|[<-|[]]]; [|left; reflexivity]. apply WV. rewrite <- (firstn_skipn (h + p) (map val V)). apply in_or_app. left. exact Hy. }
  set (Ql := mkMat dim (firstn h (skipn 0 (mcols Q)))).
  assert (SQl : shape dim (S (h - 1)) Ql).
  { replace (S (h - 1)) with h by lia. apply (mcolumns_shape Q dim (S n')); [exact HQ|lia]. }
  assert (EQl : forall i d, (i < h)%nat -> ent Ql i d = ent Q i d) by (intros i d Hi; unfold Ql; rewrite ent_columns by exact Hi; reflexivity).
  assert (TL := part_derivatives p (h - 1) dim vl Ql M1 g k). cbv zeta in TL. rewrite al, bl, Ul in TL.
  destruct TL as [wl [cl [NL [LwL [ML [GL EL]]]]]]; try assumption; try lra; try lia.
  { intros y Hy. unfold vl in Hy. apply in_app_or in Hy. destruct Hy as [Hy|[<-|[]]]; [|exact Fu]. apply FfV. rewrite <- (firstn_skipn (h + p) V). apply in_or_app. left. exact Hy. }
  { rewrite Evl. apply (left_sorted p n' _ _ h CV A1 A2 V1 V2). }
  { intros y Hy a b Ha Hb. 
    assert (X : forall i, kfun (map (fun y => y / val u) (firstn (h + p) (map val V) ++ [val u])) i = y -> kfun (map val V) i = y * val u).
    { intros i Hi. destruct (le_lt_dec i (h - 1 + p)) as [I|I].
      - rewrite (HL p n' (map val V) (val u) h CV A1 A2) in Hi by exact I. rewrite <- Hi. field. lra.
      - rewrite (HL1 p n' (map val V) (val u) h CV Hu A1 A2) in Hi by exact I. lra. }
    assert (YU : y * val u < val u) by (rewrite <- (Rmult_1_l (val u)) at 2; apply Rmult_lt_compat_r; lra). apply (HMV (y * val u)); [|lra|apply X; exact Ha|apply X; exact Hb]. split; [apply Rmult_lt_0_compat; lra|]. lra. }
  { intros i Hi Lt. apply Wd; [apply IVl, nth_In|apply IVl, nth_In|exact Lt]; rewrite map_length; unfold f64 in *; lia. }
  { intros i d Hi Hd. rewrite EQl by lia. apply BQ; [lia|exact Hd]. }
  (* the right part *)
  set (vr := u :: skipn h V).
  assert (Evr : map val vr = val u :: skipn h (map val V)) by (unfold vr; cbn [map]; rewrite skipn_map; reflexivity).
  assert (Lvr : length vr = (n' - (h - 1) + p + 2)%nat) by (unfold vr; cbn [length]; rewrite skipn_length; unfold f64 in *; lia).
  assert (Cr := R_clamped p n' (map val V) (val u) h CV Hu A1 A2 V2 V3).
  assert (ar : nth 0 (map val vr) 0 = val u) by reflexivity.
  assert (br : nth (n' - (h - 1) + p + 1) (map val vr) 0 = 1).
  { rewrite Evr. replace (n' - (h - 1) + p + 1)%nat with (S (n' + p + 1 - h)) by lia. cbn [nth]. rewrite nth_skipn. apply (cl_one _ _ _ CV); [lia|]. unfold f64 in *. lia. }
  assert (IVr : forall y, In y (map val vr) -> In y (val u :: map val U)).
  { intros y Hy. rewrite Evr in Hy. destruct Hy as [<-|Hy]; [left; reflexivity|]. apply WV. rewrite <- (firstn_skipn h (map val V)). apply in_or_app. right. exact Hy. }
  set (Qr := mkMat dim (firstn (n' + 2 - h) (skipn (h - 1) (mcols Q)))).
  assert (SQr : shape dim (S (n' - (h - 1))) Qr).
  { replace (S (n' - (h - 1))) with (n' + 2 - h)%nat by lia. apply (mcolumns_shape Q dim (S n')); [exact HQ|lia]. }
  assert (EQr : forall i d, (i < n' + 2 - h)%nat -> ent Qr i d = ent Q (h - 1 + i) d) by (intros i d Hi; unfold Qr; rewrite ent_columns by exact Hi; reflexivity).
  assert (TR := part_derivatives p (n' - (h - 1)) dim vr Qr M1 g k). cbv zeta in TR. rewrite ar, br, Evr in TR.
  destruct TR as [wr [cr [NR [LwR [MR [GR ER]]]]]]; try assumption; try lra; try lia.
  { intros y Hy. unfold vr in Hy. destruct Hy as [<-|Hy]; [exact Fu|]. apply FfV. rewrite <- (firstn_skipn h V). apply in_or_app. right. exact Hy. }
  { apply (right_sorted p n' _ _ h CV A1 A2 V2 V3). }
  { intros y Hy a b Ha Hb. 
    assert (X : forall i, kfun (map (fun y => (y - val u) / (1 - val u)) (val u :: skipn h (map val V))) i = y -> (1 <= i)%nat /\ kfun (map val V) (h - 1 + i) = val u + y * (1 - val u)).
    { intros i Hi. destruct (Nat.eq_dec i 0) as [->|I].
      - rewrite (HR0 p n' (map val V) (val u) h CV A1 A2) in Hi. lra.
      - split; [lia|]. rewrite (Facts8.HR p n' (map val V) (val u) h CV A1 A2) in Hi by lia. rewrite <- Hi. field. lra. }
    destruct (X a Ha) as [Xa1 Xa]. destruct (X b Hb) as [Xb1 Xb]. assert (YU : 0 < y * (1 - val u)) by (apply Rmult_lt_0_compat; lra). assert (T := HMV (val u + y * (1 - val u)) ltac:(nra) ltac:(lra) (h - 1 + a)%nat (h - 1 + b)%nat Xa Xb). lia. }
  { intros i Hi Lt. rewrite <- Evr in *. apply Wd; [apply IVr, nth_In|apply IVr, nth_In|exact Lt]; rewrite map_length; unfold f64 in *; lia. }
  { intros i d Hi Hd. rewrite EQr by lia. apply BQ; [lia|exact Hd]. }
  assert (TW : @take_while_count F64 u (@skipn f64 l U) = m).
  { rewrite take_while_F64; [|intros y Hy; apply Ff; rewrite <- (firstn_skipn l U); apply in_or_app; right; exact Hy|exact Fu]. rewrite <- skipn_map. exact Ew. }
  exists cl, cr. split.
  - unfold split, split_and_normalize. rewrite (open_F64 u Fu Hu). unfold degree. rewrite (wf_knots _ _ _ _ _ _ W). cbn [kdegree kp knots_of].
    fold (knots_of p U). rewrite (find_le_F64 p n U u Ff Fu LenU). rewrite F. cbn [bind].
    rewrite (@knots_of_vector F64 p U). cbn [bind].
    change (@take_while_count F64 u (@skipn (T F64) l U)) with (@take_while_count F64 u (@skipn f64 l U)). rewrite TW.
    replace (p <? m)%nat with false by (symmetry; apply Nat.ltb_ge; lia).
    rewrite usub_ok by lia. cbn [bind]. rewrite (fold_insert (p - m) c c1 u 0 E1). cbn [bind].
    assert (W1 := float_wf p n' dim V Q M1 c1 H1). rewrite (wf_knots _ _ _ _ _ _ W1). rewrite (@knots_of_vector F64 p V). cbn [bind].
    destruct (wf_cpoints _ _ _ _ _ _ W1) as [s Es]. unfold cp_matrix. rewrite Es. cbn [vget nth_error bind fst snd].
    fold h. rewrite (@split_left_val F64) by (change (T F64) with f64; unfold f64 in *; lia).
    change (@vec_normalize F64 (firstn (h + p) V ++ [u])) with (@vec_normalize F64 vl). rewrite NL. cbn [bind].
    rewrite part_cols_val by (eapply Nat.le_trans; [|apply Nat.eq_le_incl; symmetry; exact LwL]; lia). cbn [bind]. match goal with |- context [@length ?A wl] => change (@length A wl) with (@length f64 wl) end. change (@length f64 wl = (h - 1 + p + 2)%nat) in LwL. rewrite LwL. replace (h - 1 + p + 2 - p - 1)%nat with h by lia.
    rewrite (@mcolumns_val F64 Q dim (S n')) by (try assumption; lia). cbn [bind]. fold Ql. rewrite ML. cbn [bind].
    rewrite (@split_right_val F64) by (change (T F64) with f64; unfold f64 in *; lia). change (@vec_normalize F64 (u :: skipn h V)) with (@vec_normalize F64 vr). rewrite NR. cbn [bind].
    rewrite part_cols_val by (eapply Nat.le_trans; [|apply Nat.eq_le_incl; symmetry; exact LwR]; lia). cbn [bind]. match goal with |- context [@length ?A wr] => change (@length A wr) with (@length f64 wr) end. change (@length f64 wr = (n' - (h - 1) + p + 2)%nat) in LwR. rewrite LwR. replace (n' - (h - 1) + p + 2 - p - 1)%nat with (n' + 2 - h)%nat by lia.
    unfold ncols. rewrite (proj1 (proj2 HQ)). rewrite usub_ok by lia. cbn [bind]. replace (S n' - (n' + 2 - h))%nat with (h - 1)%nat by lia.
    rewrite (@mcolumns_val F64 Q dim (S n')) by (try assumption; lia). cbn [bind]. fold Qr. rewrite MR. reflexivity.
  - assert (BD := split_dbound p x g M eps S4 S2 ltac:(unfold x; lia) Hp ltac:(lra) ltac:(lra) ltac:(lra) ltac:(rewrite EV; lra) S20 S24).
    assert (BD' : (6 * INR p + 4) * / 2 ^ 53 * (M1 * S4) + (6 * INR p + 4) * (4 * / 2 ^ 53 / g) * (M1 * S4) + (0 + M * ((1 + 10 * eps) ^ x - 1)) * S2 <= (17 * INR p + 5 + (24 * INR p + 17) / g) * / 2 ^ 53 * (M * S4)).
    { rewrite eps_pow. assert (MS : M1 * S4 <= (1 + 11 * INR x * eps) * M * S4) by (apply Rmult_le_compat_r; lra).
      eapply Rle_trans; [|exact BD]. apply Rplus_le_compat; [apply Rplus_le_compat|].
      - apply Rmult_le_compat_l; [apply Rmult_le_pos; lra|exact MS].
      - apply Rmult_le_compat_l; [apply Rmult_le_pos; [lra|unfold Rdiv; apply Rmult_le_pos; lra]|exact MS].
      - apply Rmult_le_compat_r; [exact S20|]. rewrite Rplus_0_l. apply Rmult_le_compat_l; lra. }
    assert (CK := kfun_clamped p n _ C). assert (MK : mult_le (kfun (map val U)) (val u) (p - k)) by (apply (mult_mult_le p n); [exact C|exact Hu|apply MUk; exact Hu]).
    intros t Ft Ht.
    assert (RG1 : 0 <= val t * val u <= 1) by (split; [apply Rmult_le_pos; lra|nra]).
    assert (RG2 : 0 <= val u + val t * (1 - val u) <= 1) by (split; nra).
    split.
    + exists (fun d => dspline (kfun (map val U)) n p (fun i => ent P' i d) k (val t * val u)). split; [apply (cc_eval p n dim _ P' cR _ k HR RG1 ltac:(lia))|].
      eapply within_eq; [eapply within_more; [apply (EL t Ft Ht)|]|reflexivity|exact BD'].
      intros d Hd. cbv beta.
      destruct (Sf d (fun i => ent P' i d) 0 Hd) as [B [Q1 Q2]].
      { intros i Hi. rewrite Ep by assumption. rewrite Rminus_diag_eq, Rabs_R0 by reflexivity. lra. }
      set (KL := kfun (map (fun y => y / val u) (firstn (h + p) (map val V) ++ [val u]))) in *.
      assert (SE : forall s, 0 <= s <= 1 -> spline KL (h - 1) p B s = spline (kfun (map val U)) n p (fun i => ent P' i d) (val u * s + 0)).
      { intros s Hs'. unfold KL. rewrite (L_spline p n' (map val V) (val u) h CV Hu A1 A2 V1 V2 V3 B s Hs'). rewrite Q2 by nra. f_equal. ring. }
      assert (EQ : val u ^ k * dspline (kfun (map val U)) n p (fun i => ent P' i d) k (val t * val u) = dspline KL (h - 1) p B k (val t)).
      { symmetry. destruct (Req_dec (val t) 1) as [T1|T1].
        - rewrite T1. rewrite (reparam_dspline_end p n (h - 1) (kfun (map val U)) KL (fun i => ent P' i d) B (val u) 0 CK (kfun_clamped _ _ _ Cl) ltac:(lra) ltac:(lra) ltac:(lra) SE k ltac:(lia)).
          + do 2 f_equal. ring.
          + intros _. rewrite Rplus_0_r. exact MK.
        - rewrite (reparam_dspline p n (h - 1) (kfun (map val U)) KL (fun i => ent P' i d) B (val u) 0 CK (kfun_clamped _ _ _ Cl) ltac:(lra) ltac:(lra) ltac:(lra) ltac:(intros s Hs'; apply SE; lra) k ltac:(lia) (val t) ltac:(lra)).
          do 2 f_equal. ring. }
      rewrite EQ. apply (dspline_diff KL p (h - 1) (fun i => val (ent Ql i d)) B g _ k (val t) (kfun_clamped _ _ _ Cl) ltac:(lra) GL); [|lia|exact Ht].
      intros i Hi. rewrite EQl by lia. apply Q1. lia.
    + exists (fun d => dspline (kfun (map val U)) n p (fun i => ent P' i d) k (val u + val t * (1 - val u))). split; [apply (cc_eval p n dim _ P' cR _ k HR RG2 ltac:(lia))|].
      eapply within_eq; [eapply within_more; [apply (ER t Ft Ht)|]|reflexivity|exact BD'].
      intros d Hd. cbv beta.
      destruct (Sf d (fun i => ent P' i d) 0 Hd) as [B [Q1 Q2]].
      { intros i Hi. rewrite Ep by assumption. rewrite Rminus_diag_eq, Rabs_R0 by reflexivity. lra. }
      set (KR := kfun (map (fun y => (y - val u) / (1 - val u)) (val u :: skipn h (map val V)))) in *.
      set (B' := fun i => B (h - 1 + i)%nat).
      assert (SE : forall s, 0 <= s <= 1 -> spline KR (n' - (h - 1)) p B' s = spline (kfun (map val U)) n p (fun i => ent P' i d) ((1 - val u) * s + val u)).
      { intros s Hs'. unfold KR, B'. rewrite (R_spline p n' (map val V) (val u) h CV Hu A1 A2 V1 V2 V3 B s Hs'). rewrite Q2 by nra. f_equal. ring. }
      assert (EQ : (1 - val u) ^ k * dspline (kfun (map val U)) n p (fun i => ent P' i d) k (val u + val t * (1 - val u)) = dspline KR (n' - (h - 1)) p B' k (val t)).
      { symmetry. destruct (Req_dec (val t) 1) as [T1|T1].
        - rewrite T1. rewrite (reparam_dspline_end p n (n' - (h - 1)) (kfun (map val U)) KR (fun i => ent P' i d) B' (1 - val u) (val u) CK (kfun_clamped _ _ _ Cr) ltac:(lra) ltac:(lra) ltac:(lra) SE k ltac:(lia)).
          + do 2 f_equal. ring.
          + intros Q0. lra.
        - rewrite (reparam_dspline p n (n' - (h - 1)) (kfun (map val U)) KR (fun i => ent P' i d) B' (1 - val u) (val u) CK (kfun_clamped _ _ _ Cr) ltac:(lra) ltac:(lra) ltac:(lra) ltac:(intros s Hs'; apply SE; lra) k ltac:(lia) (val t) ltac:(lra)).
          do 2 f_equal. ring. }
      rewrite EQ. apply (dspline_diff KR p (n' - (h - 1)) (fun i => val (ent Qr i d)) B' g _ k (val t) (kfun_clamped _ _ _ Cr) ltac:(lra) GR); [|lia|exact Ht].
      intros i Hi. rewrite EQr by lia. apply Q1. lia.
Qed.
