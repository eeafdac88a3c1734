(** * Derivatives after inserting knots in binary64 *)

From Coq Require Import ZArith Reals List Bool Arith Lia Lra Psatz Permutation.
From Flocq Require Import Core.Core IEEE754.BinarySingleNaN.
From Verif Require Import Num Vec MKnots MPoints MCurve RNum F64 Lists Hoare Struct Divisions Spec BMath BMath2 BMath3 BMath4 BMath5 Api ApiF ApiF3 Bridge Facts1 Facts4 Facts5 Facts6 Float1 Float2 Float3 Float4 Float5 Float6 Float7 Float9 Float10 Stab2 Float29.
Import ListNotations.
Local Open Scope R_scope.

(** ** The new control points are close to exact ones *)
Theorem insert_points_F64 p n dim (U : list f64) P M c (u : f64) : float_curve p n dim U P M c -> pow2 (-1000) <= M <= pow2 1020 ->
  finite u -> 0 < val u < 1 -> apart (map val U) (val u) -> (mult (map val U) (val u) <= p)%nat -> simple_below (map val U) (val u) ->
  exists c' U' P', @insert F64 c u = Val (c', Ok tt) /\ float_curve p (S n) dim U' P' (M * (1 + 10 * eps)) c' /\ Permutation (u :: U) U' /\
    forall d A e, (d < dim)%nat -> (forall i, (i <= n)%nat -> Rabs (val (ent P i d) - A i) <= e) ->
      exists B, (forall i, (i <= S n)%nat -> Rabs (val (ent P' i d) - B i) <= e + 10 * eps * M) /\
        forall t, 0 <= t <= 1 -> spline (kfun (map val U')) (S n) p B t = spline (kfun (map val U)) n p A t.
Proof.
  intros H HM Fu Hu Ha Hm Hs. assert (W := float_wf _ _ _ _ _ _ _ H). destruct H as [FK [SP [HP Bu]]].
  assert (C := proj1 (proj2 FK)). assert (L := cl_len _ _ _ C). assert (L' := L). rewrite map_length in L'. assert (D := cl_deg _ _ _ C).
  change (@length (binary_float 53 1024) U) with (@length f64 U) in L'.
  assert (T := @insert_gen F64 False gdiv_F64 p n dim U P c u W (open_F64 u Fu Hu)
    ltac:(rewrite (dcount_F64 p n U u (proj1 FK) Fu), (dcount_R p n _ _ C Hu); exact Hm) ltac:(intros; eexists; reflexivity)).
  apply ok_val_ex in T. destruct T as [[c' r] [E [l [P' [F [Hl [EP [Er [W' B']]]]]]]]]. cbn [fst snd] in *. subst r.
  destruct (find_insert_F64 p n U u l FK Fu Hu Hs F) as [_ Hlu].
  assert (Hd : forall i, (l - p < i <= l)%nat -> nth i (map val U) 0 < nth (i + p) (map val U) 0).
  { intros i Hi. apply (insert_division_simple p n (map val U) (val u) l i); assumption. }
  set (al := fun i => Bdiv mode_NE (Bminus mode_NE u (nth i U (@n0 F64))) (Bminus mode_NE (nth (i + p) U (@n0 F64)) (nth i U (@n0 F64)))).
  destruct (@insert_points_val F64 U P dim p n l u al (wf_len _ _ _ _ _ _ W) SP Hl ltac:(intros; reflexivity)) as [P2 [E2 [SP' EP']]].
  rewrite EP in E2. injection E2 as <-.
  assert (M0 : 0 < M) by (apply Rlt_le_trans with (2 := proj1 HM); apply bpow_gt_0). assert (Ep := eps_pos).
  assert (EM : 0 < eps * M) by (apply Rmult_lt_0_compat; assumption).
  set (ex := fun i d => ins_coef (kfun (map val U)) l (val u) p i * val (ent P i d) + (1 - ins_coef (kfun (map val U)) l (val u) p i) * val (ent P (i - 1) d)).
  assert (LM : length (map val U) = (n + p + 2)%nat) by exact L.
  (* every new coordinate *)
  assert (Q : forall i d, (i <= S n)%nat -> (d < dim)%nat -> finite (ent P' i d) /\ Rabs (val (ent P' i d) - ex i d) <= 10 * eps * M /\ Rabs (ex i d) <= M).
  { intros i d Hi Hdd. rewrite (EP' i d Hi Hdd). unfold ex, ins_coef. destruct (Nat.leb_spec i (l - p)) as [H1|H1].
    - replace (i + p <=? l)%nat with true by (symmetry; apply Nat.leb_le; lia).
      destruct (HP i d ltac:(lia) Hdd) as [F1 B1]. split; [exact F1|].
      replace (1 * val (ent P i d) + (1 - 1) * val (ent P (i - 1) d)) with (val (ent P i d)) by ring.
      split; [|exact B1]. rewrite Rminus_diag_eq, Rabs_R0 by reflexivity. lra.
    - replace (i + p <=? l)%nat with false by (symmetry; apply Nat.leb_gt; lia).
      destruct (Nat.leb_spec i l) as [H2|H2].
      + replace (l <? i)%nat with false by (symmetry; apply Nat.ltb_ge; lia).
        destruct (alpha_ok p n U u l i FK Fu Hl ltac:(lia) Hlu (Hd i ltac:(lia))) as [A1 [A2 A3]]. fold (al i) in A1, A2.
        destruct (HP (i - 1)%nat d ltac:(lia) Hdd) as [F1 B1]. destruct (HP i d ltac:(lia) Hdd) as [F2 B2].
        destruct (comb_ok (al i) (ent P (i - 1) d) (ent P i d) _ M A1 A2 A3 F1 F2 B1 B2 HM) as [F3 B3].
        set (a := (val u - nth i (map val U) 0) / (nth (i + p) (map val U) 0 - nth i (map val U) 0)) in *.
        assert (Ea : ratio (val u - kfun (map val U) i) (kfun (map val U) (i + p) - kfun (map val U) i) = a).
        { rewrite !kfun_nth by lia. unfold ratio, a. specialize (Hd i ltac:(lia)).
          destruct (Req_EM_T (nth (i + p) (map val U) 0 - nth i (map val U) 0) 0); [lra|reflexivity]. }
        rewrite Ea. replace (a * val (ent P i d) + (1 - a) * val (ent P (i - 1) d)) with ((1 - a) * val (ent P (i - 1) d) + a * val (ent P i d)) by ring.
        split; [exact F3|]. split; [exact B3|].
        apply Rle_trans with (1 := Rabs_triang _ _). rewrite !Rabs_mult, (Rabs_pos_eq (1 - a)), (Rabs_pos_eq a) by lra.
        assert ((1 - a) * Rabs (val (ent P (i - 1) d)) <= (1 - a) * M) by (apply Rmult_le_compat_l; lra).
        assert (a * Rabs (val (ent P i d)) <= a * M) by (apply Rmult_le_compat_l; lra). lra.
      + replace (l <? i)%nat with true by (symmetry; apply Nat.ltb_lt; lia).
        destruct (HP (i - 1)%nat d ltac:(lia) Hdd) as [F1 B1]. split; [exact F1|].
        replace (0 * val (ent P i d) + (1 - 0) * val (ent P (i - 1) d)) with (val (ent P (i - 1) d)) by ring.
        split; [|exact B1]. rewrite Rminus_diag_eq, Rabs_R0 by reflexivity. lra. }
  assert (C' : clamped p (S n) (map val (insU U l u))) by (rewrite map_insU; apply (insU_clamped p n); assumption).
  exists c', (insU U l u), P'. split; [exact E|]. split; [|split; [apply insU_perm|]].
  - split; [|split; [exact SP'|split; [|exact B']]].
    + split; [|split; [exact C'|rewrite map_insU; apply insU_separated; [apply FK|exact Ha|lia|exact Hlu]]].
      intros x Hx. apply in_insU in Hx. destruct Hx as [->|Hx]; [exact Fu|apply FK; exact Hx].
    + intros i d Hi Hdd. destruct (Q i d Hi Hdd) as [Q1 [Q2 Q3]]. split; [exact Q1|].
      replace (val (ent P' i d)) with (ex i d + (val (ent P' i d) - ex i d)) by ring. apply Rle_trans with (1 := Rabs_triang _ _). lra.
  - intros d A e Hdd HA.
    exists (fun i => ins_coef (kfun (map val U)) l (val u) p i * A i + (1 - ins_coef (kfun (map val U)) l (val u) p i) * A (i - 1)%nat). split.
    + intros i Hi. destruct (Q i d Hi Hdd) as [_ [Q2 _]].
      match goal with |- Rabs (?a - ?b) <= _ => replace (a - b) with ((ex i d - b) + (a - ex i d)) by ring end.
      eapply Rle_trans; [apply Rabs_triang|]. apply Rplus_le_compat; [|exact Q2].
      unfold ex, ins_coef. destruct (Nat.leb_spec (i + p) l) as [H1|H1].
      * replace (1 * val (ent P i d) + (1 - 1) * val (ent P (i - 1) d) - (1 * A i + (1 - 1) * A (i - 1)%nat)) with (val (ent P i d) - A i) by ring. apply HA. lia.
      * destruct (Nat.ltb_spec l i) as [H2|H2].
        -- replace (0 * val (ent P i d) + (1 - 0) * val (ent P (i - 1) d) - (0 * A i + (1 - 0) * A (i - 1)%nat)) with (val (ent P (i - 1) d) - A (i - 1)%nat) by ring. apply HA. lia.
        -- destruct (alpha_ok p n U u l i FK Fu Hl ltac:(lia) Hlu (Hd i ltac:(lia))) as [_ [_ A3]]. cbv zeta in A3.
           set (a := (val u - nth i (map val U) 0) / (nth (i + p) (map val U) 0 - nth i (map val U) 0)) in *.
           assert (Ea : ratio (val u - kfun (map val U) i) (kfun (map val U) (i + p) - kfun (map val U) i) = a).
           { rewrite !kfun_nth by lia. unfold ratio, a. specialize (Hd i ltac:(lia)).
             destruct (Req_EM_T (nth (i + p) (map val U) 0 - nth i (map val U) 0) 0); [lra|reflexivity]. }
           rewrite Ea.
           replace (a * val (ent P i d) + (1 - a) * val (ent P (i - 1) d) - (a * A i + (1 - a) * A (i - 1)%nat)) with (a * (val (ent P i d) - A i) + (1 - a) * (val (ent P (i - 1) d) - A (i - 1)%nat)) by ring.
           eapply Rle_trans; [apply Rabs_triang|]. rewrite !Rabs_mult, (Rabs_pos_eq (1 - a)), (Rabs_pos_eq a) by lra.
           assert (T1 := HA i ltac:(lia)). assert (T2 := HA (i - 1)%nat ltac:(lia)).
           assert (a * Rabs (val (ent P i d) - A i) <= a * e) by (apply Rmult_le_compat_l; lra).
           assert ((1 - a) * Rabs (val (ent P (i - 1) d) - A (i - 1)%nat) <= (1 - a) * e) by (apply Rmult_le_compat_l; lra). lra.
    + intros t Ht.
      rewrite <- (spline_insert p n (kfun (map val U)) (kfun_clamped _ _ _ C) l (val u) Hu Hl) by (try exact Ht; replace (S l) with (l + 1)%nat by lia; rewrite !kfun_nth by lia; exact Hlu).
      unfold spline. apply rsum_ext. intros i Hi. f_equal. apply bspline_ext. intros a. rewrite map_insU. apply kfun_insU. lia.
Qed.

Lemma insert_times_points_F64 x : forall p n dim (U : list f64) P M c (u : f64), float_curve p n dim U P M c -> (p <= 100)%nat ->
  pow2 (-1000) <= M -> M * (1 + 10 * eps) ^ x <= pow2 1020 ->
  finite u -> 0 < val u < 1 -> apart (map val U) (val u) -> (mult (map val U) (val u) + x <= p + 1)%nat -> simple_below (map val U) (val u) ->
  exists c' U' P', @insert_times F64 c u x = Val (c', Ok tt) /\ float_curve p (n + x) dim U' P' (M * (1 + 10 * eps) ^ x) c' /\ Permutation (repeat u x ++ U) U' /\
    forall d A e, (d < dim)%nat -> (forall i, (i <= n)%nat -> Rabs (val (ent P i d) - A i) <= e) ->
      exists B, (forall i, (i <= n + x)%nat -> Rabs (val (ent P' i d) - B i) <= e + M * ((1 + 10 * eps) ^ x - 1)) /\
        forall t, 0 <= t <= 1 -> spline (kfun (map val U')) (n + x) p B t = spline (kfun (map val U)) n p A t.
Proof.
  induction x as [|x IH]; intros p n dim U P M c u H Hp HM HM2 Fu Hu Ha Hm Hs.
  - exists c, U, P. split; [reflexivity|]. rewrite Nat.add_0_r. cbn [pow]. rewrite Rmult_1_r. split; [exact H|]. split; [apply Permutation_refl|].
    intros d A e _ HA. exists A. split; [|reflexivity]. intros i Hi. specialize (HA i Hi). lra.
  - assert (Ep := eps_pos). assert (M0 : 0 < M) by (apply Rlt_le_trans with (2 := HM); apply bpow_gt_0).
    assert (G1 : 1 <= (1 + 10 * eps) ^ S x) by (apply pow_R1_Rle; lra).
    destruct (insert_points_F64 p n dim U P M c u H) as [c1 [U1 [P1 [E1 [H1 [Q1 S1]]]]]]; try assumption; try lia.
    { split; [exact HM|]. apply Rle_trans with (2 := HM2). rewrite <- (Rmult_1_r M) at 1. apply Rmult_le_compat_l; lra. }
    assert (Q1' : Permutation (val u :: map val U) (map val U1)) by (apply (Permutation_map val) in Q1; exact Q1).
    destruct (IH p (S n) dim U1 P1 (M * (1 + 10 * eps)) c1 u H1 Hp) as [c2 [U2 [P2 [E2 [H2 [Q2 S2]]]]]]; try assumption.
    + apply Rle_trans with (1 := HM). rewrite <- (Rmult_1_r M) at 1. apply Rmult_le_compat_l; lra.
    + cbn [pow] in HM2. rewrite Rmult_assoc. exact HM2.
    + apply (apart_perm (map val U)); assumption.
    + rewrite (mult_insert _ _ _ Q1'). lia.
    + apply (simple_perm (map val U) _ _ Hs Q1').
    + exists c2, U2, P2. split; [|split; [|split]].
      * cbn [insert_times]. rewrite E1. cbn [bind]. exact E2.
      * replace (n + S x)%nat with (S n + x)%nat by lia. cbn [pow]. rewrite <- Rmult_assoc. exact H2.
      * cbn [repeat]. apply Permutation_trans with (2 := Q2). cbn [app]. apply Permutation_trans with (1 := Permutation_middle (repeat u x) U u).
        apply Permutation_app_head. exact Q1.
      * intros d A e Hd HA. replace (n + S x)%nat with (S n + x)%nat by lia.
        destruct (S1 d A e Hd HA) as [B1 [X1 Y1]]. destruct (S2 d B1 (e + 10 * eps * M) Hd X1) as [B2 [X2 Y2]].
        exists B2. split.
        -- intros i Hi. eapply Rle_trans; [apply X2; exact Hi|]. cbn [pow]. lra.
        -- intros t Ht. rewrite Y2, Y1 by exact Ht. reflexivity.
Qed.

(** ** The computed derivative against the exact curve over the same knots *)
Lemma same_points_ex n dim (P : Mat F64) : shape dim (S n) P -> exists P', same_points n dim P P'.
Proof.
  intros [S1 [S2 S3]]. exists (@mkMat RNum dim (map (map val) (mcols P))). split.
  - split; [reflexivity|]. cbn [mcols]. split; [rewrite map_length; exact S2|]. intros i Hi.
    change (@nil (T RNum)) with (map val []). rewrite (map_nth (map val)), map_length. apply S3. exact Hi.
  - intros i d Hi Hd. unfold ent. cbn [mcols]. apply (nth_map2 (val : f64 -> R)).
    + apply Nat.lt_le_trans with (S n); [lia|apply Nat.eq_le_incl; symmetry; exact S2].
    + apply Nat.lt_le_trans with dim; [exact Hd|apply Nat.eq_le_incl; symmetry; apply S3; lia].
Qed.

Lemma derivative_dspline p n dim (U : list f64) P M c (u : f64) k h : float_curve p n dim U P M c -> (p <= 100)%nat -> (k <= p)%nat ->
  / 2 ^ 1000 <= M -> / 2 ^ 1000 <= h -> spaced (map val U) h -> M * (2 * INR p / h) ^ k <= 2 ^ 1020 -> finite u -> 0 <= val u <= 1 ->
  returns_within (@evaluate_derivative F64 c u k) dim (fun d => dspline (kfun (map val U)) n p (fun i => val (ent P i d)) k (val u))
    ((6 * INR p + 4) * / 2 ^ 53 * (M * (2 * INR p / h) ^ k)).
Proof.
  intros H Hp Hk HM Hh Hs HB Fu Hu. assert (C := proj1 (proj2 (proj1 H))). assert (PN := cl_deg _ _ _ C).
  destruct (same_points_ex n dim P ltac:(apply H)) as [P' SP].
  destruct (built_ex p n dim (map val U) P' PN (cl_len _ _ _ C) (proj1 SP)) as [cR BR].
  assert (HR : clamped_curve p n dim (map val U) P' cR) by (split; [exact C|]; split; [apply SP|exact BR]).
  destruct (derivative_F64 p n dim U P M c P' cR u k h H SP HR Hp Hk HM Hh) as [f [R1 R2]]; try assumption.
  { intros i j Hj. apply Hs. rewrite map_length. exact Hj. }
  destruct R2 as [v [E [L V]]]. exists v. split; [exact E|]. split; [exact L|]. intros d Hd. destruct (V d Hd) as [V1 V2]. split; [exact V1|].
  assert (R3 := cc_eval p n dim _ P' cR (val u) k HR Hu Hk). destruct R1 as [w [E1 [_ W1]]]. destruct R3 as [w' [E3 [_ W3]]].
  rewrite E1 in E3. injection E3 as <-. assert (X : f d = dspline (kfun (map val U)) n p (fun i => ent P' i d) k (val u)) by (rewrite <- W1, <- W3 by exact Hd; reflexivity).
  rewrite X in V2. replace (dspline (kfun (map val U)) n p (fun i => val (ent P i d)) k (val u)) with (dspline (kfun (map val U)) n p (fun i => ent P' i d) k (val u)); [exact V2|].
  unfold dspline. apply rsum_ext. intros i Hi. f_equal. apply dpoints_agree. intros j Hj. apply SP; [lia|exact Hd].
Qed.

Lemma wide_spaced p n (U : list R) h : clamped p n U -> wide h U -> spaced U h.
Proof.
  intros C W. apply (gaps_spaced p n U h C). apply (kfun_gaps p n U h C). intros i Hi L. assert (Len := cl_len _ _ _ C).
  apply W; [apply nth_In; lia|apply nth_In; lia|exact L].
Qed.
Lemma wide_gaps p n (U : list R) h : clamped p n U -> wide h U -> forall i, kfun U i < kfun U (S i) -> h <= kfun U (S i) - kfun U i.
Proof.
  intros C W. apply (kfun_gaps p n U h C). intros i Hi L. assert (Len := cl_len _ _ _ C).
  apply W; [apply nth_In; lia|apply nth_In; lia|exact L].
Qed.

Lemma insert_bound x p M e S : (x <= 101)%nat -> (p <= 100)%nat -> 0 <= M -> 0 <= S -> 0 <= e -> e * 10000000 <= 1 ->
  (6 * INR p + 4) * e * ((1 + 11 * INR x * e) * M * S) + 11 * INR x * e * M * S <= (6 * INR p + 11 * INR x + 5) * e * (M * S).
Proof.
  intros Hx Hp HM HS He Hs.
  assert (X : 0 <= INR x <= 101) by (split; [apply pos_INR|replace 101 with (INR 101) by (rewrite INR_IZR_INZ; reflexivity); apply le_INR; exact Hx]).
  assert (Q : 0 <= INR p <= 100) by (split; [apply pos_INR|replace 100 with (INR 100) by (rewrite INR_IZR_INZ; reflexivity); apply le_INR; exact Hp]).
  assert (F : (6 * INR p + 4) * (11 * INR x * e) <= 1).
  { apply Rle_trans with (604 * (1111 * e)); [|lra]. apply Rmult_le_compat; try lra; [apply Rmult_le_pos; lra|]. apply Rmult_le_compat_r; lra. }
  assert (Z : 0 <= e * (M * S)) by (apply Rmult_le_pos; [exact He|apply Rmult_le_pos; assumption]).
  replace ((6 * INR p + 4) * e * ((1 + 11 * INR x * e) * M * S) + 11 * INR x * e * M * S)
    with (((6 * INR p + 4) + (6 * INR p + 4) * (11 * INR x * e) + 11 * INR x) * (e * (M * S))) by ring.
  replace ((6 * INR p + 11 * INR x + 5) * e * (M * S)) with ((6 * INR p + 11 * INR x + 5) * (e * (M * S))) by ring.
  apply Rmult_le_compat_r; [exact Z|lra].
Qed.

Theorem insert_times_derivatives x p n dim (U : list f64) P M c P' cR (u : f64) h k : float_curve p n dim U P M c -> same_points n dim P P' ->
  clamped_curve p n dim (map val U) P' cR -> (p <= 100)%nat -> (k <= p)%nat -> / 2 ^ 1000 <= M <= 2 ^ 1019 -> finite u -> 0 < val u < 1 ->
  (mult (map val U) (val u) + x <= p + 1)%nat -> simple_below (map val U) (val u) ->
  / 2 ^ 1000 <= h -> wide h (val u :: map val U) -> M * (2 * INR p / h) ^ k <= 2 ^ 1019 ->
  exists c', @insert_times F64 c u x = Val (c', Ok tt) /\
    forall t, finite t -> 0 <= val t <= 1 -> exists f, returns (evaluate_derivative cR (val t) k) dim f /\
      returns_within (@evaluate_derivative F64 c' t k) dim f ((6 * INR p + 11 * INR x + 5) * / 2 ^ 53 * (M * (2 * INR p / h) ^ k)).
Proof.
  intros H [Sh EP] HR Hp Hk HM Fu Hu Hm Hs Hh Wd HB. assert (Ep := eps_pos). assert (Ev := eps_val).
  assert (C := proj1 (proj2 (proj1 H))). assert (PN := cl_deg _ _ _ C).
  assert (E2 : 2 ^ 1019 = pow2 1019) by (rewrite (bpow_powerRZ radix2 1019); reflexivity).
  assert (E3 : 2 ^ 1020 = pow2 1020) by (rewrite (bpow_powerRZ radix2 1020); reflexivity).
  assert (HM' := HM). rewrite pow2_1000, E2 in HM'.
  assert (M0 : 0 < M) by (apply Rlt_le_trans with (2 := proj1 HM'); apply bpow_gt_0).
  assert (H0 : 0 < h) by (apply Rlt_le_trans with (2 := Hh); apply Rinv_0_lt_compat, pow_lt; lra).
  assert (G := grow_bound x ltac:(lia)). assert (G1 : 1 <= (1 + 10 * eps) ^ x) by (apply pow_R1_Rle; lra).
  assert (I : 0 <= INR x <= 101) by (split; [apply pos_INR|replace 101 with (INR 101) by (rewrite INR_IZR_INZ; reflexivity); apply le_INR; lia]).
  assert (XE : 0 <= INR x * eps <= / 100000) by (split; [apply Rmult_le_pos; lra|apply Rle_trans with (101 * eps); [apply Rmult_le_compat_r; lra|rewrite Ev; lra]]).
  assert (AP : apart (map val U) (val u)).
  { intros y Hy Ne. destruct (Rtotal_order y (val u)) as [Lt|[Eq|Gt]]; [|contradiction|].
    - assert (T := Wd y (val u) ltac:(right; exact Hy) ltac:(left; reflexivity) Lt). rewrite Rabs_minus_sym, Rabs_pos_eq by lra. lra.
    - assert (T := Wd (val u) y ltac:(left; reflexivity) ltac:(right; exact Hy) Gt). rewrite Rabs_pos_eq by lra. lra. }
  destruct (insert_times_points_F64 x p n dim U P M c u H Hp (proj1 HM')) as [c' [U' [Q [E [HF [Pe Hc]]]]]]; try assumption.
  { change (pow2 1020) with (pow2 (1019 + 1)). rewrite bpow_plus. change (pow2 1) with 2. apply Rmult_le_compat; lra. }
  exists c'. split; [exact E|]. intros t Ft Ht.
  exists (fun d => dspline (kfun (map val U)) n p (fun i => ent P' i d) k (val t)). split; [apply (cc_eval p n dim _ P' cR (val t) k HR Ht Hk)|].
  set (S0 := (2 * INR p / h) ^ k) in *.
  assert (SP : 0 <= S0) by (apply pow_le; apply Rmult_le_pos; [assert (T := pos_INR p); lra|left; apply Rinv_0_lt_compat; exact H0]).
  assert (MX : M <= M * (1 + 10 * eps) ^ x <= (1 + 11 * INR x * eps) * M).
  { split; [rewrite <- (Rmult_1_r M) at 1; apply Rmult_le_compat_l; lra|rewrite (Rmult_comm _ M); apply Rmult_le_compat_l; lra]. }
  assert (C' := proj1 (proj2 (proj1 HF))).
  assert (Wd' : wide h (map val U')).
  { assert (IN : forall y, In y (map val U') -> In y (val u :: map val U)).
    { intros y Hy. apply in_map_iff in Hy. destruct Hy as [z [<- Hz]]. apply (Permutation_in z (Permutation_sym Pe)) in Hz.
      apply in_app_or in Hz. destruct Hz as [Hz|Hz]; [left; rewrite (repeat_spec _ _ _ Hz); reflexivity|right; apply in_map; exact Hz]. }
    intros a b Ha Hb. apply Wd; apply IN; assumption. }
  assert (MS : M * (1 + 10 * eps) ^ x * S0 <= (1 + 11 * INR x * eps) * M * S0) by (apply Rmult_le_compat_r; lra).
  assert (MS0 : 0 <= M * S0) by (apply Rmult_le_pos; lra).
  assert (T := derivative_dspline p (n + x) dim U' Q _ c' t k h HF Hp Hk ltac:(lra) Hh (wide_spaced p (n + x) _ h C' Wd')). fold S0 in T.
  destruct T as [w [Ew [Lw Hw]]]; try assumption.
  { eapply Rle_trans; [exact MS|]. rewrite E3. change (pow2 1020) with (pow2 (1 + 1019)). rewrite bpow_plus. change (pow2 1) with 2. rewrite Rmult_assoc. rewrite E2 in HB. apply Rmult_le_compat; lra. }
  exists w. split; [exact Ew|]. split; [exact Lw|]. intros d Hd. destruct (Hw d Hd) as [W1 W2]. split; [exact W1|].
  destruct (Hc d (fun i => ent P' i d) 0 Hd) as [B [B1 B2]].
  { intros i Hi. rewrite EP by assumption. rewrite Rminus_diag_eq, Rabs_R0 by reflexivity. lra. }
  rewrite <- (same_dspline p n (n + x) (kfun (map val U)) (kfun (map val U')) (fun i => ent P' i d) B (kfun_clamped _ _ _ C) (kfun_clamped _ _ _ C') B2 k Hk (val t) Ht).
  assert (X := dspline_diff (kfun (map val U')) p (n + x) (fun i => val (ent Q i d)) B h (0 + M * ((1 + 10 * eps) ^ x - 1)) k (val t) (kfun_clamped _ _ _ C') H0 (wide_gaps p (n + x) _ h C' Wd') B1 Hk Ht).
  fold S0 in X.
  match goal with |- Rabs (?a - ?b) <= _ => match type of X with Rabs (?e - _) <= _ => replace (a - b) with ((a - e) + (e - b)) by ring end end.
  eapply Rle_trans; [apply Rabs_triang|].
  assert (BD := insert_bound x p M eps S0 ltac:(lia) Hp ltac:(lra) SP ltac:(lra) ltac:(rewrite Ev; lra)).
  rewrite eps_pow in *. eapply Rle_trans; [|exact BD]. apply Rplus_le_compat.
  - eapply Rle_trans; [exact W2|]. apply Rmult_le_compat_l; [apply Rmult_le_pos; [assert (T := pos_INR p); lra|lra]|exact MS].
  - eapply Rle_trans; [exact X|]. apply Rmult_le_compat_r; [exact SP|]. rewrite Rplus_0_l, (Rmult_comm M). apply Rmult_le_compat_r; lra.
Qed.
