(** * Steps of a run of edits in binary64, as functions of a real parameter *)

From Coq Require Import ZArith Reals List Bool Arith Lia Lra Psatz Permutation.
From Flocq Require Import Core.Core IEEE754.BinarySingleNaN.
From Verif Require Import Num Vec MKnots MPoints MCurve RNum F64 Hoare Lists Struct Divisions Spec BMath BMath2 BMath3 BMath4 Api ApiF ApiF2 ApiF3 Bridge Facts1 Facts3 Facts4 Facts5 Facts6 Facts7 Facts8 Shape1 Shape2 Shape3 Stab Float1 Float2 Float4 Float5 Float6 Float7 Float9 Float16 Float20 Float21.
Import ListNotations.
Local Open Scope R_scope.

(** everything a curve must satisfy, except that the stored derivative points may carry other rounding errors *)
Definition float_data p n dim (U : list f64) (P : Mat F64) (M : R) (c : Curve F64) : Prop :=
  float_knots p n U /\ shape dim (S n) P /\
  (forall i d, (i <= n)%nat -> (d < dim)%nat -> finite (ent P i d) /\ Rabs (val (ent P i d)) <= M) /\ @wf F64 p n dim U P c.

Lemma float_data_of p n dim (U : list f64) P M c : float_curve p n dim U P M c -> float_data p n dim U P M c.
Proof. intros H. assert (W := float_wf p n dim U P M c H). destruct H as [K [SH [B Bu]]]. split; [exact K|]. split; [exact SH|]. split; [exact B|exact W]. Qed.

Lemma insert_data p n dim (U : list f64) P M c (u : f64) : float_data p n dim U P M c -> pow2 (-1000) <= M <= pow2 1020 ->
  finite u -> 0 < val u < 1 -> apart (map val U) (val u) -> (mult (map val U) (val u) <= p)%nat -> simple_below (map val U) (val u) ->
  exists c' U' P', @insert F64 c u = Val (c', Ok tt) /\ float_data p (S n) dim U' P' (M * (1 + 10 * eps)) c' /\ Permutation (u :: U) U' /\
    forall d t, (d < dim)%nat -> 0 <= t <= 1 ->
      Rabs (spline (kfun (map val U')) (S n) p (fun i => val (ent P' i d)) t - spline (kfun (map val U)) n p (fun i => val (ent P i d)) t) <= 10 * eps * M.
Proof.
  intros H HM Fu Hu Ha Hm Hs. destruct H as [FK [SP [HP W]]].
  assert (C := proj1 (proj2 FK)). assert (L := cl_len _ _ _ C). assert (L' := L). rewrite map_length in L'. assert (D := cl_deg _ _ _ C).
  change (@length (binary_float 53 1024) U) with (@length f64 U) in L'.
  assert (T := @insert_gen F64 False gdiv_F64 p n dim U P c u W (open_F64 u Fu Hu)
    ltac:(rewrite (dcount_F64 p n U u (proj1 FK) Fu), (dcount_R p n _ _ C Hu); exact Hm) ltac:(intros; eexists; reflexivity)).
  apply ok_val_ex in T. destruct T as [[c' r] [E [l [P' [F [Hl [EP [Er [W' B']]]]]]]]]. cbn [fst snd] in *. subst r.
  destruct (find_insert_F64 p n U u l FK Fu Hu Hs F) as [_ Hlu].
  assert (Hd : forall i, (l - p < i <= l)%nat -> nth i (map val U) 0 < nth (i + p) (map val U) 0).
  { intros i Hi. apply (insert_division_simple p n (map val U) (val u) l i); assumption. }
  set (al := fun i => Bdiv mode_NE (Bminus mode_NE u (nth i U (@n0 F64))) (Bminus mode_NE (nth (i + p) U (@n0 F64)) (nth i U (@n0 F64)))).
  destruct (@insert_points_val F64 U P dim p n l u al (wf_len _ _ _ _ _ _ W) SP Hl ltac:(intros; reflexivity)) as [P2 [E2 [SP' EP']]].
  rewrite EP in E2. injection E2 as <-.
  assert (M0 : 0 < M) by (apply Rlt_le_trans with (2 := proj1 HM); apply bpow_gt_0). assert (Ep := eps_pos).
  assert (EM : 0 < eps * M) by (apply Rmult_lt_0_compat; assumption).
  set (ex := fun i d => ins_coef (kfun (map val U)) l (val u) p i * val (ent P i d) + (1 - ins_coef (kfun (map val U)) l (val u) p i) * val (ent P (i - 1) d)).
  assert (LM : length (map val U) = (n + p + 2)%nat) by exact L.
  (* every new coordinate *)
  assert (Q : forall i d, (i <= S n)%nat -> (d < dim)%nat -> finite (ent P' i d) /\ Rabs (val (ent P' i d) - ex i d) <= 10 * eps * M /\ Rabs (ex i d) <= M).
  { intros i d Hi Hdd. rewrite (EP' i d Hi Hdd). unfold ex, ins_coef. destruct (Nat.leb_spec i (l - p)) as [H1|H1].
    - replace (i + p <=? l)%nat with true by (symmetry; apply Nat.leb_le; lia).
      destruct (HP i d ltac:(lia) Hdd) as [F1 B1]. split; [exact F1|].
      replace (1 * val (ent P i d) + (1 - 1) * val (ent P (i - 1) d)) with (val (ent P i d)) by ring.
      split; [|exact B1]. rewrite Rminus_diag_eq, Rabs_R0 by reflexivity. lra.
    - replace (i + p <=? l)%nat with false by (symmetry; apply Nat.leb_gt; lia).
      destruct (Nat.leb_spec i l) as [H2|H2].
      + replace (l <? i)%nat with false by (symmetry; apply Nat.ltb_ge; lia).
        destruct (alpha_ok p n U u l i FK Fu Hl ltac:(lia) Hlu (Hd i ltac:(lia))) as [A1 [A2 A3]]. fold (al i) in A1, A2.
        destruct (HP (i - 1)%nat d ltac:(lia) Hdd) as [F1 B1]. destruct (HP i d ltac:(lia) Hdd) as [F2 B2].
        destruct (comb_ok (al i) (ent P (i - 1) d) (ent P i d) _ M A1 A2 A3 F1 F2 B1 B2 HM) as [F3 B3].
        set (a := (val u - nth i (map val U) 0) / (nth (i + p) (map val U) 0 - nth i (map val U) 0)) in *.
        assert (Ea : ratio (val u - kfun (map val U) i) (kfun (map val U) (i + p) - kfun (map val U) i) = a).
        { rewrite !kfun_nth by lia. unfold ratio, a. specialize (Hd i ltac:(lia)).
          destruct (Req_EM_T (nth (i + p) (map val U) 0 - nth i (map val U) 0) 0); [lra|reflexivity]. }
        rewrite Ea. replace (a * val (ent P i d) + (1 - a) * val (ent P (i - 1) d)) with ((1 - a) * val (ent P (i - 1) d) + a * val (ent P i d)) by ring.
        split; [exact F3|]. split; [exact B3|].
        apply Rle_trans with (1 := Rabs_triang _ _). rewrite !Rabs_mult, (Rabs_pos_eq (1 - a)), (Rabs_pos_eq a) by lra.
        assert ((1 - a) * Rabs (val (ent P (i - 1) d)) <= (1 - a) * M) by (apply Rmult_le_compat_l; lra).
        assert (a * Rabs (val (ent P i d)) <= a * M) by (apply Rmult_le_compat_l; lra). lra.
      + replace (l <? i)%nat with true by (symmetry; apply Nat.ltb_lt; lia).
        destruct (HP (i - 1)%nat d ltac:(lia) Hdd) as [F1 B1]. split; [exact F1|].
        replace (0 * val (ent P i d) + (1 - 0) * val (ent P (i - 1) d)) with (val (ent P (i - 1) d)) by ring.
        split; [|exact B1]. rewrite Rminus_diag_eq, Rabs_R0 by reflexivity. lra. }
  assert (C' : clamped p (S n) (map val (insU U l u))) by (rewrite map_insU; apply (insU_clamped p n); assumption).
  exists c', (insU U l u), P'. split; [exact E|]. split; [|split; [apply insU_perm|]].
  - split; [|split; [exact SP'|split; [|apply (sized_wf False gdiv_F64 p (S n) dim); [split; [apply (cl_deg _ _ _ C')|split; [rewrite <- (map_length val); apply (cl_len _ _ _ C')|exact SP']]|exact B']]]].
    + split; [|split; [exact C'|rewrite map_insU; apply insU_separated; [apply FK|exact Ha|lia|exact Hlu]]].
      intros x Hx. apply in_insU in Hx. destruct Hx as [->|Hx]; [exact Fu|apply FK; exact Hx].
    + intros i d Hi Hdd. destruct (Q i d Hi Hdd) as [Q1 [Q2 Q3]]. split; [exact Q1|].
      replace (val (ent P' i d)) with (ex i d + (val (ent P' i d) - ex i d)) by ring. apply Rle_trans with (1 := Rabs_triang _ _). lra.
  - intros d t Hdd Ht.
    rewrite <- (spline_insert p n (kfun (map val U)) (kfun_clamped _ _ _ C) l (val u) Hu Hl) by (try exact Ht; replace (S l) with (l + 1)%nat by lia; rewrite !kfun_nth by lia; exact Hlu).
    assert (EX : spline (ins_knots (kfun (map val U)) l (val u)) (S n) p
        (fun i => ins_coef (kfun (map val U)) l (val u) p i * val (ent P i d) + (1 - ins_coef (kfun (map val U)) l (val u) p i) * val (ent P (i - 1) d)) t
      = spline (kfun (map val (insU U l u))) (S n) p (fun i => ex i d) t).
    { unfold spline. apply rsum_ext. intros i Hi. f_equal. apply bspline_ext. intros a. symmetry. rewrite map_insU. apply kfun_insU. lia. }
    rewrite EX. apply spline_diff; [apply kfun_clamped; exact C'|exact Ht|]. intros i Hi. apply (Q i d Hi Hdd).
Qed.

Lemma insert_times_data x : forall p n dim (U : list f64) P M c (u : f64), float_data p n dim U P M c -> (p <= 100)%nat ->
  pow2 (-1000) <= M -> M * (1 + 10 * eps) ^ x <= pow2 1020 ->
  finite u -> 0 < val u < 1 -> apart (map val U) (val u) -> (mult (map val U) (val u) + x <= p + 1)%nat -> simple_below (map val U) (val u) ->
  exists c' U' P', @insert_times F64 c u x = Val (c', Ok tt) /\ float_data p (n + x) dim U' P' (M * (1 + 10 * eps) ^ x) c' /\ Permutation (repeat u x ++ U) U' /\
    forall d t, (d < dim)%nat -> 0 <= t <= 1 ->
      Rabs (spline (kfun (map val U')) (n + x) p (fun i => val (ent P' i d)) t - spline (kfun (map val U)) n p (fun i => val (ent P i d)) t)
      <= M * ((1 + 10 * eps) ^ x - 1).
Proof.
  induction x as [|x IH]; intros p n dim U P M c u H Hp HM HM2 Fu Hu Ha Hm Hs.
  - exists c, U, P. split; [reflexivity|]. rewrite Nat.add_0_r. cbn [pow]. rewrite Rmult_1_r. split; [exact H|]. split; [apply Permutation_refl|].
    intros d t _ _. rewrite Rminus_diag_eq, Rabs_R0 by reflexivity. lra.
  - assert (Ep := eps_pos). assert (M0 : 0 < M) by (apply Rlt_le_trans with (2 := HM); apply bpow_gt_0).
    assert (G1 : 1 <= (1 + 10 * eps) ^ S x) by (apply pow_R1_Rle; lra).
    destruct (insert_data p n dim U P M c u H) as [c1 [U1 [P1 [E1 [H1 [Q1 S1]]]]]]; try assumption; try lia.
    { split; [exact HM|]. apply Rle_trans with (2 := HM2). rewrite <- (Rmult_1_r M) at 1. apply Rmult_le_compat_l; lra. }
    assert (Q1' : Permutation (val u :: map val U) (map val U1)) by (apply (Permutation_map val) in Q1; exact Q1).
    destruct (IH p (S n) dim U1 P1 (M * (1 + 10 * eps)) c1 u H1 Hp) as [c2 [U2 [P2 [E2 [H2 [Q2 S2]]]]]]; try assumption.
    + apply Rle_trans with (1 := HM). rewrite <- (Rmult_1_r M) at 1. apply Rmult_le_compat_l; lra.
    + cbn [pow] in HM2. rewrite Rmult_assoc. exact HM2.
    + apply (apart_perm (map val U)); assumption.
    + rewrite (mult_insert _ _ _ Q1'). lia.
    + apply (simple_perm (map val U) _ _ Hs Q1').
    + exists c2, U2, P2. split; [|split; [|split]].
      * cbn [insert_times]. rewrite E1. cbn [bind]. exact E2.
      * replace (n + S x)%nat with (S n + x)%nat by lia. cbn [pow]. rewrite <- Rmult_assoc. exact H2.
      * cbn [repeat]. apply Permutation_trans with (2 := Q2). cbn [app]. apply Permutation_trans with (1 := Permutation_middle (repeat u x) U u).
        apply Permutation_app_head. exact Q1.
      * intros d t Hd Ht. replace (n + S x)%nat with (S n + x)%nat by lia.
        assert (X1 := S1 d t Hd Ht). assert (X2 := S2 d t Hd Ht). cbn [pow].
        match goal with |- Rabs (?a - ?b) <= _ => match type of X2 with Rabs (_ - ?c) <= _ => replace (a - b) with ((a - c) + (c - b)) by ring end end.
        apply Rle_trans with (1 := Rabs_triang _ _). lra.
Qed.

Lemma tri_le a b c x y : Rabs (a - b) <= x -> Rabs (b - c) <= y -> Rabs (a - c) <= x + y.
Proof. intros H1 H2. replace (a - c) with ((a - b) + (b - c)) by ring. eapply Rle_trans; [apply Rabs_triang|lra]. Qed.

Lemma near_lists p n (V : list f64) (U : list R) (A : nat -> R) M dl h u : float_knots p n V ->
  (forall i, (i <= n)%nat -> Rabs (A i) <= M) ->
  clamped p n U -> (1 <= p)%nat -> (forall x, 0 < x < 1 -> mult_le (kfun U) x p) ->
  (forall i, (i < length U)%nat -> Rabs (nth i U 0 - nth i (map val V) 0) <= dl) ->
  (forall i, (p <= i <= n)%nat -> nth i (map val V) 0 < nth (S i) (map val V) 0 -> nth i U 0 < nth (S i) U 0) ->
  0 < h -> (forall i, (p <= i <= n)%nat -> nth i U 0 < nth (S i) U 0 -> h <= nth (S i) U 0 - nth i U 0) ->
  0 <= u <= 1 -> Rabs (spline (kfun U) n p A u - spline (kfun (map val V)) n p A u) <= 6 * INR p * M * dl / h.
Proof.
  intros K B CU Hp HM D O H0 G Hu. assert (CV := proj1 (proj2 K)).
  assert (FU := kfun_clamped p n U CU). assert (FV := kfun_clamped p n _ CV). assert (LU := cl_len _ _ _ CU). assert (LV := cl_len _ _ _ CV).
  apply (near_spline p n (kfun U) (kfun (map val V)) A u dl h 0 M FU FV Hp HM (kdist p n U _ dl CU CV D)); try assumption.
  - intros i Hi L. destruct (le_lt_dec p i) as [I|I].
    + rewrite !kfun_nth in * by lia. apply O; [lia|exact L].
    + rewrite !(fc_zero _ _ _ FV) in L by lia. lra.
  - intros i L. destruct (le_lt_dec p i) as [I|I].
    + destruct (le_lt_dec i n) as [I2|I2].
      * rewrite !kfun_nth in * by lia. apply G; [lia|exact L].
      * rewrite !(fc_one _ _ _ FU) in L by lia. lra.
    + rewrite !(fc_zero _ _ _ FU) in L by lia. lra.
  - intros i Hi. rewrite Rminus_0_r. apply B; assumption.
Qed.

Lemma part_spline p n dim (v : list f64) (P : Mat F64) M h : (forall x, In x v -> finite x) -> sorted (map val v) -> length v = (n + p + 2)%nat ->
  let a := nth 0 (map val v) 0 in let b := nth (n + p + 1) (map val v) 0 in
  let U := map (fun x => (x - a) / (b - a)) (map val v) in
  0 <= a -> a < b -> b <= 1 -> clamped p n U -> (1 <= p <= 100)%nat -> (forall x, 0 < x < 1 -> mult_le (kfun U) x p) -> / 2 ^ 49 <= h ->
  (forall i, (p <= i <= n)%nat -> nth i (map val v) 0 < nth (S i) (map val v) 0 -> h <= nth (S i) (map val v) 0 - nth i (map val v) 0) ->
  shape dim (S n) P -> (forall i d, (i <= n)%nat -> (d < dim)%nat -> finite (ent P i d) /\ Rabs (val (ent P i d)) <= M) -> / 2 ^ 1000 <= M <= 2 ^ 1022 ->
  exists w c, @vec_normalize F64 v = Val w /\ length w = (n + p + 2)%nat /\ @make_part F64 p w P = Val (Ok c) /\ float_curve p n dim w P M c /\
    forall d t, (d < dim)%nat -> 0 <= t <= 1 ->
      Rabs (spline (kfun (map val w)) n p (fun i => val (ent P i d)) t - spline (kfun U) n p (fun i => val (ent P i d)) t) <= 6 * INR p * M * (4 * / 2 ^ 53) / h.
Proof.
  intros Ff SV L a b U A0 AB B1 C Hp HM Hh G HP B MM.
  destruct (normalized_knots p n v h Ff SV L A0 AB B1 C Hh G) as [w [E [Lw [K [D [O GU]]]]]]. fold a b in D, O, GU. fold U in D, O, GU.
  assert (Lw' : length w = (n + p + 2)%nat) by (rewrite Lw; exact L).
  assert (SZ : @sized F64 p n dim w P) by (split; [apply (cl_deg _ _ _ C)|]; split; [exact Lw'|exact HP]).
  destruct (built_ex_gen F64 gdiv_F64 p n dim w P SZ) as [c Bc].
  exists w, c. split; [exact E|]. split; [exact Lw'|]. split.
  - destruct Bc as [kn [E1 E2]]. unfold make_part. rewrite E1. cbn [bind]. rewrite E2. reflexivity.
  - split; [split; [exact K|split; [exact HP|split; [exact B|exact Bc]]]|].
    intros d t Hd Ht. assert (P49 : 0 < / 2 ^ 49) by (apply Rinv_0_lt_compat, pow_lt; lra).
    rewrite Rabs_minus_sym. apply (near_lists p n w U (fun i => val (ent P i d)) M (4 * / 2 ^ 53) h t); try assumption; try lra; try lia.
    intros i Hi. apply B; assumption.
Qed.

Theorem split_step p n dim (U : list f64) P M c (u : f64) g : float_data p n dim U P M c -> (1 <= p <= 100)%nat -> / 2 ^ 1000 <= M <= 2 ^ 1019 -> finite u -> 0 < val u < 1 ->
  (forall x, 0 < x < 1 -> (mult (map val U) x <= p)%nat) -> simple_below (map val U) (val u) ->
  / 2 ^ 49 <= g -> wide g (val u :: map val U) ->
  let x := (p - mult (map val U) (val u))%nat in
  exists cl cr nl nr wl Ql wr Qr, @split F64 c u = Val (Ok (cl, cr)) /\
    float_data p nl dim wl Ql (M * (1 + 10 * eps) ^ x) cl /\ float_data p nr dim wr Qr (M * (1 + 10 * eps) ^ x) cr /\
    forall d t, (d < dim)%nat -> 0 <= t <= 1 ->
      Rabs (spline (kfun (map val wl)) nl p (fun i => val (ent Ql i d)) t - spline (kfun (map val U)) n p (fun i => val (ent P i d)) (t * val u))
        <= 6 * INR p * (M * (1 + 10 * eps) ^ x) * (4 * / 2 ^ 53) / g + M * ((1 + 10 * eps) ^ x - 1) /\
      Rabs (spline (kfun (map val wr)) nr p (fun i => val (ent Qr i d)) t - spline (kfun (map val U)) n p (fun i => val (ent P i d)) (val u + t * (1 - val u)))
        <= 6 * INR p * (M * (1 + 10 * eps) ^ x) * (4 * / 2 ^ 53) / g + M * ((1 + 10 * eps) ^ x - 1).
Proof.
  intros H Hp HM Fu Hu MU Hs Hg Wd x0. assert (K := proj1 H). assert (Ff := proj1 K). assert (C := proj1 (proj2 K)). assert (W := proj2 (proj2 (proj2 H))).
  assert (D := cl_deg _ _ _ C). assert (Len := cl_len _ _ _ C). assert (LenU := Len). rewrite map_length in LenU. change (binary_float 53 1024) with f64 in *.
  assert (E2 : 2 ^ 1019 = pow2 1019) by (rewrite (bpow_powerRZ radix2 1019); reflexivity).
  assert (E3 : 2 ^ 1022 = pow2 1022) by (rewrite (bpow_powerRZ radix2 1022); reflexivity).
  assert (HM' := HM). rewrite pow2_1000, E2 in HM'.
  assert (M0 : 0 < M) by (apply Rlt_le_trans with (2 := proj1 HM'); apply bpow_gt_0).
  assert (P49 : 0 < / 2 ^ 49) by (apply Rinv_0_lt_compat, pow_lt; lra).
  assert (P1000 : / 2 ^ 1000 <= / 2 ^ 49) by (apply Rinv_le_contravar; [apply pow_lt; lra|apply Rle_pow; [lra|lia]]).
  assert (EPS := eps_pos). assert (EV := eps_val).
  set (m := mult (map val U) (val u)) in *. assert (Hm : (m <= p)%nat) by (apply MU; exact Hu). subst x0. set (x := (p - m)%nat).
  assert (GB := grow_bound x ltac:(unfold x; lia)).
  assert (IX : 0 <= INR x <= 100) by (split; [apply pos_INR|replace 100 with (INR 100) by (rewrite INR_IZR_INZ; reflexivity); apply le_INR; unfold x; lia]).
  assert (IXe : 11 * INR x * eps <= / 9) by (rewrite EV; lra).
  assert (AP : apart (map val U) (val u)).
  { intros y Hy Ne. destruct (Rtotal_order y (val u)) as [Lt|[Eq|Gt]]; [|contradiction|].
    - assert (T := Wd y (val u) ltac:(right; exact Hy) ltac:(left; reflexivity) Lt). rewrite Rabs_minus_sym, Rabs_pos_eq by lra. lra.
    - assert (T := Wd (val u) y ltac:(left; reflexivity) ltac:(right; exact Hy) Gt). rewrite Rabs_pos_eq by lra. lra. }
  destruct (insert_times_data x p n dim U P M c u H ltac:(lia) (proj1 HM')) as [c1 [V [Q [E1 [H1 [Pe Sf]]]]]]; try assumption.
  { change (pow2 1020) with (pow2 (1 + 1019)). rewrite bpow_plus. change (pow2 1) with 2. apply Rle_trans with (M * 2); [apply Rmult_le_compat_l; lra|lra]. }
  { fold m. unfold x. lia. }
  set (M1 := M * (1 + 10 * eps) ^ x) in *.
  assert (G1 : 1 <= (1 + 10 * eps) ^ x) by (apply pow_R1_Rle; lra).
  assert (M1b : M <= M1 <= (1 + 11 * INR x * eps) * M) by (unfold M1; split; nra).
  assert (KV := proj1 H1). assert (FfV := proj1 KV). assert (CV := proj1 (proj2 KV)). assert (LenV := cl_len _ _ _ CV). assert (LenV' := LenV). rewrite map_length in LenV'. change (binary_float 53 1024) with f64 in *.
  assert (PeR : Permutation (repeat (val u) x ++ map val U) (map val V)).
  { rewrite <- map_repeat, <- map_app. apply Permutation_map. exact Pe. }
  (* where the search ends *)
  assert (F := @find_le_spec RNum False p n 0 (map val U) (val u) ltac:(rn; exact Len) D ltac:(lia)). apply ok_val_ex in F. destruct F as [l [F _]].
  set (h := if (0 <? m)%nat then l else (l + 1)%nat) in *.
  assert (SS : @take_while_count RNum (val u) (skipn l (map val U)) = m /\ (p < h <= n + 1)%nat /\ sep (map val U) (val u) h) by exact (split_sep p n (map val U) (val u) l C Hu Hs F).
  destruct SS as [Ew [Hh Hsep]].
  assert (SU := clamped_sorted' _ _ _ C).
  assert (LU : length (map val U) = (n + p + 2)%nat) by exact Len.
  assert (EVm : map val V = ins_many (map val U) h x (val u)).
  { apply sorted_perm_eq; [apply (clamped_sorted' _ _ _ CV)|apply ins_many_sorted; try assumption; unfold f64 in *; lia|].
    eapply Permutation_trans; [apply Permutation_sym; exact PeR|apply ins_many_perm]. }
  assert (SR : (h + m <= length (map val U))%nat /\ (forall i, (h <= i < h + m)%nat -> nth i (map val U) 0 = val u) /\ (forall i, (h + m <= i < length (map val U))%nat -> val u < nth i (map val U) 0)).
  { apply (sep_run (map val U) (val u) h SU); [unfold f64 in *; lia|exact Hsep]. }
  destruct SR as [R1 [R2 R3]].
  assert (Hhn : (h + m <= n + 1)%nat).
  { destruct (le_lt_dec (h + m) (n + 1)); [assumption|exfalso].
    specialize (R2 (n + 1)%nat). destruct (le_lt_dec h (n + 1)); [|lia].
    rewrite (cl_one _ _ _ C) in R2 by (unfold f64 in *; lia). specialize (R2 ltac:(lia)). lra. }
  assert (NV : forall i, nth i (map val V) 0 = if (i <? h)%nat then nth i (map val U) 0 else if (i <? h + x)%nat then val u else nth (i - x) (map val U) 0).
  { intros i. rewrite EVm. apply nth_ins_many. unfold f64 in *. lia. }
  assert (V1 : forall i, (i < h)%nat -> nth i (map val V) 0 < val u).
  { intros i Hi. rewrite NV. replace (i <? h)%nat with true by (symmetry; apply Nat.ltb_lt; lia). apply (proj1 Hsep). exact Hi. }
  assert (V2 : forall i, (h <= i < h + p)%nat -> nth i (map val V) 0 = val u).
  { intros i Hi. rewrite NV. replace (i <? h)%nat with false by (symmetry; apply Nat.ltb_ge; lia).
    destruct (Nat.ltb_spec i (h + x)); [reflexivity|]. apply R2. unfold x in *. lia. }
  assert (V3 : forall i, (h + p <= i < length (map val V))%nat -> val u < nth i (map val V) 0).
  { intros i Hi. rewrite NV. replace (i <? h)%nat with false by (symmetry; apply Nat.ltb_ge; lia).
    replace (i <? h + x)%nat with false by (symmetry; apply Nat.ltb_ge; unfold x; lia). apply R3. unfold x, f64 in *. lia. }
  set (n' := (n + x)%nat) in *.
  assert (A1 : (p < h)%nat) by lia. assert (A2 : (h + p <= n' + 1)%nat) by (unfold n', x; lia).
  assert (HMV : forall y, 0 < y < 1 -> mult_le (kfun (map val V)) y p).
  { apply (mults_le p n' _ CV). intros y Hy. eapply Nat.le_trans; [apply Nat.eq_le_incl; symmetry; apply (mult_perm _ _ y PeR)|]. rewrite mult_app, mult_repeat.
    destruct (Req_EM_T (val u) y) as [<-|Ne]; [change (x + m <= p)%nat; unfold x; lia|exact (MU y Hy)]. }
  assert (WV : forall y, In y (map val V) -> In y (val u :: map val U)).
  { intros y Hy. apply (Permutation_in y (Permutation_sym PeR)) in Hy. apply in_app_or in Hy. destruct Hy as [Hy|Hy]; [left; symmetry; apply (repeat_spec _ _ _ Hy)|right; exact Hy]. }
  assert (SV := clamped_sorted' _ _ _ CV).
  assert (HQ : shape dim (S n') Q) by apply H1.
  assert (BQ := proj1 (proj2 (proj2 H1))).
  assert (MM : / 2 ^ 1000 <= M1 <= 2 ^ 1022).
  { split; [lra|]. rewrite E3. change (pow2 1022) with (pow2 (3 + 1019)). rewrite bpow_plus. change (pow2 3) with 8. apply Rle_trans with (8 * M); [|lra]. nra. }
  (* the left part *)
  set (vl := firstn (h + p) V ++ [u]).
  assert (Evl : map val vl = firstn (h + p) (map val V) ++ [val u]) by (unfold vl; rewrite map_app, firstn_map; reflexivity).
  assert (Lvl : length vl = (h - 1 + p + 2)%nat) by (unfold vl; rewrite app_length, firstn_length; cbn [length]; unfold f64 in *; lia).
  assert (Cl := L_clamped p n' (map val V) (val u) h CV Hu A1 A2 V1 V2).
  assert (al : nth 0 (map val vl) 0 = 0).
  { rewrite Evl, app_nth1 by (rewrite firstn_length; unfold f64 in *; lia). rewrite nth_firstn by lia. apply (cl_zero _ _ _ CV). lia. }
  assert (bl : nth (h - 1 + p + 1) (map val vl) 0 = val u).
  { rewrite Evl, app_nth2 by (rewrite firstn_length; unfold f64 in *; lia). rewrite firstn_length, Nat.min_l by (unfold f64 in *; lia). replace (h - 1 + p + 1 - (h + p))%nat with 0%nat by lia. reflexivity. }
  assert (Ul : map (fun y => (y - 0) / (val u - 0)) (map val vl) = map (fun y => y / val u) (firstn (h + p) (map val V) ++ [val u])).
  { rewrite Evl. apply map_ext. intros y. rewrite !Rminus_0_r. reflexivity. }
  assert (IVl : forall y, In y (map val vl) -> In y (val u :: map val U)).
  { intros y Hy. rewrite Evl in Hy. apply in_app_or in Hy. destruct Hy as [Hy|[<-|[]]]; [|left; reflexivity]. apply WV. rewrite <- (firstn_skipn (h + p) (map val V)). apply in_or_app. left. exact Hy. }
  set (Ql := mkMat dim (firstn h (skipn 0 (mcols Q)))).
  assert (SQl : shape dim (S (h - 1)) Ql).
  { replace (S (h - 1)) with h by lia. apply (mcolumns_shape Q dim (S n')); [exact HQ|lia]. }
  assert (EQl : forall i d, (i < h)%nat -> ent Ql i d = ent Q i d) by (intros i d Hi; unfold Ql; rewrite ent_columns by exact Hi; reflexivity).
  assert (TL := part_spline p (h - 1) dim vl Ql M1 g). cbv zeta in TL. rewrite al, bl, Ul in TL.
  destruct TL as [wl [cl [NL [LwL [ML [FCl EL]]]]]]; try assumption; try lra; try lia.
  { intros y Hy. unfold vl in Hy. apply in_app_or in Hy. destruct Hy as [Hy|[<-|[]]]; [|exact Fu]. apply FfV. rewrite <- (firstn_skipn (h + p) V). apply in_or_app. left. exact Hy. }
  { rewrite Evl. apply (left_sorted p n' _ _ h CV A1 A2 V1 V2). }
  { intros y Hy a b Ha Hb. 
    assert (X : forall i, kfun (map (fun y => y / val u) (firstn (h + p) (map val V) ++ [val u])) i = y -> kfun (map val V) i = y * val u).
    { intros i Hi. destruct (le_lt_dec i (h - 1 + p)) as [I|I].
      - rewrite (HL p n' (map val V) (val u) h CV A1 A2) in Hi by exact I. rewrite <- Hi. field. lra.
      - rewrite (HL1 p n' (map val V) (val u) h CV Hu A1 A2) in Hi by exact I. lra. }
    apply (HMV (y * val u)); [|apply X; exact Ha|apply X; exact Hb]. split; [apply Rmult_lt_0_compat; lra|]. nra. }
  { intros i Hi Lt. apply Wd; [apply IVl, nth_In|apply IVl, nth_In|exact Lt]; rewrite map_length; unfold f64 in *; lia. }
  { intros i d Hi Hd. rewrite EQl by lia. apply BQ; [lia|exact Hd]. }
  (* the right part *)
  set (vr := u :: skipn h V).
  assert (Evr : map val vr = val u :: skipn h (map val V)) by (unfold vr; cbn [map]; rewrite skipn_map; reflexivity).
  assert (Lvr : length vr = (n' - (h - 1) + p + 2)%nat) by (unfold vr; cbn [length]; rewrite skipn_length; unfold f64 in *; lia).
  assert (Cr := R_clamped p n' (map val V) (val u) h CV Hu A1 A2 V2 V3).
  assert (ar : nth 0 (map val vr) 0 = val u) by reflexivity.
  assert (br : nth (n' - (h - 1) + p + 1) (map val vr) 0 = 1).
  { rewrite Evr. replace (n' - (h - 1) + p + 1)%nat with (S (n' + p + 1 - h)) by lia. cbn [nth]. rewrite nth_skipn. apply (cl_one _ _ _ CV); [lia|]. unfold f64 in *. lia. }
  assert (IVr : forall y, In y (map val vr) -> In y (val u :: map val U)).
  { intros y Hy. rewrite Evr in Hy. destruct Hy as [<-|Hy]; [left; reflexivity|]. apply WV. rewrite <- (firstn_skipn h (map val V)). apply in_or_app. right. exact Hy. }
  set (Qr := mkMat dim (firstn (n' + 2 - h) (skipn (h - 1) (mcols Q)))).
  assert (SQr : shape dim (S (n' - (h - 1))) Qr).
  { replace (S (n' - (h - 1))) with (n' + 2 - h)%nat by lia. apply (mcolumns_shape Q dim (S n')); [exact HQ|lia]. }
  assert (EQr : forall i d, (i < n' + 2 - h)%nat -> ent Qr i d = ent Q (h - 1 + i) d) by (intros i d Hi; unfold Qr; rewrite ent_columns by exact Hi; reflexivity).
  assert (TR := part_spline p (n' - (h - 1)) dim vr Qr M1 g). cbv zeta in TR. rewrite ar, br, Evr in TR.
  destruct TR as [wr [cr [NR [LwR [MR [FCr ER]]]]]]; try assumption; try lra; try lia.
  { intros y Hy. unfold vr in Hy. destruct Hy as [<-|Hy]; [exact Fu|]. apply FfV. rewrite <- (firstn_skipn h V). apply in_or_app. right. exact Hy. }
  { apply (right_sorted p n' _ _ h CV A1 A2 V2 V3). }
  { intros y Hy a b Ha Hb. 
    assert (X : forall i, kfun (map (fun y => (y - val u) / (1 - val u)) (val u :: skipn h (map val V))) i = y -> (1 <= i)%nat /\ kfun (map val V) (h - 1 + i) = val u + y * (1 - val u)).
    { intros i Hi. destruct (Nat.eq_dec i 0) as [->|I].
      - rewrite (HR0 p n' (map val V) (val u) h CV A1 A2) in Hi. lra.
      - split; [lia|]. rewrite (Facts8.HR p n' (map val V) (val u) h CV A1 A2) in Hi by lia. rewrite <- Hi. field. lra. }
    destruct (X a Ha) as [Xa1 Xa]. destruct (X b Hb) as [Xb1 Xb]. assert (T := HMV (val u + y * (1 - val u)) ltac:(nra) (h - 1 + a)%nat (h - 1 + b)%nat Xa Xb). lia. }
  { intros i Hi Lt. rewrite <- Evr in *. apply Wd; [apply IVr, nth_In|apply IVr, nth_In|exact Lt]; rewrite map_length; unfold f64 in *; lia. }
  { intros i d Hi Hd. rewrite EQr by lia. apply BQ; [lia|exact Hd]. }
  assert (TW : @take_while_count F64 u (@skipn f64 l U) = m).
  { rewrite take_while_F64; [|intros y Hy; apply Ff; rewrite <- (firstn_skipn l U); apply in_or_app; right; exact Hy|exact Fu]. rewrite <- skipn_map. exact Ew. }
  exists cl, cr, (h - 1)%nat, (n' - (h - 1))%nat, wl, Ql, wr, Qr. split; [|split; [apply float_data_of; exact FCl|split; [apply float_data_of; exact FCr|]]].
  - unfold split, split_and_normalize. rewrite (open_F64 u Fu Hu). unfold degree. rewrite (wf_knots _ _ _ _ _ _ W). cbn [kdegree kp knots_of].
    fold (knots_of p U). rewrite (find_le_F64 p n U u Ff Fu LenU). rewrite F. cbn [bind].
    rewrite (@knots_of_vector F64 p U). cbn [bind].
    change (@take_while_count F64 u (@skipn (T F64) l U)) with (@take_while_count F64 u (@skipn f64 l U)). rewrite TW.
    replace (p <? m)%nat with false by (symmetry; apply Nat.ltb_ge; lia).
    rewrite usub_ok by lia. cbn [bind]. rewrite (fold_insert (p - m) c c1 u 0 E1). cbn [bind].
    assert (W1 := proj2 (proj2 (proj2 H1))). rewrite (wf_knots _ _ _ _ _ _ W1). rewrite (@knots_of_vector F64 p V). cbn [bind].
    destruct (wf_cpoints _ _ _ _ _ _ W1) as [s Es]. unfold cp_matrix. rewrite Es. cbn [vget nth_error bind fst snd].
    fold h. rewrite (@split_left_val F64) by (change (T F64) with f64; unfold f64 in *; lia).
    change (@vec_normalize F64 (firstn (h + p) V ++ [u])) with (@vec_normalize F64 vl). rewrite NL. cbn [bind].
    rewrite part_cols_val by (eapply Nat.le_trans; [|apply Nat.eq_le_incl; symmetry; exact LwL]; lia). cbn [bind]. match goal with |- context [@length ?A wl] => change (@length A wl) with (@length f64 wl) end. change (@length f64 wl = (h - 1 + p + 2)%nat) in LwL. rewrite LwL. replace (h - 1 + p + 2 - p - 1)%nat with h by lia.
    rewrite (@mcolumns_val F64 Q dim (S n')) by (try assumption; lia). cbn [bind]. fold Ql. rewrite ML. cbn [bind].
    rewrite (@split_right_val F64) by (change (T F64) with f64; unfold f64 in *; lia). change (@vec_normalize F64 (u :: skipn h V)) with (@vec_normalize F64 vr). rewrite NR. cbn [bind].
    rewrite part_cols_val by (eapply Nat.le_trans; [|apply Nat.eq_le_incl; symmetry; exact LwR]; lia). cbn [bind]. match goal with |- context [@length ?A wr] => change (@length A wr) with (@length f64 wr) end. change (@length f64 wr = (n' - (h - 1) + p + 2)%nat) in LwR. rewrite LwR. replace (n' - (h - 1) + p + 2 - p - 1)%nat with (n' + 2 - h)%nat by lia.
    unfold ncols. rewrite (proj1 (proj2 HQ)). rewrite usub_ok by lia. cbn [bind]. replace (S n' - (n' + 2 - h))%nat with (h - 1)%nat by lia.
    rewrite (@mcolumns_val F64 Q dim (S n')) by (try assumption; lia). cbn [bind]. fold Qr. rewrite MR. reflexivity.
  - intros d t Hd Ht.
    assert (RG1 : 0 <= t * val u <= 1) by (split; [apply Rmult_le_pos; lra|nra]).
    assert (RG2 : 0 <= val u + t * (1 - val u) <= 1) by (split; nra).
    assert (X1 := EL d t Hd Ht). assert (X2 := ER d t Hd Ht). assert (Y1 := Sf d _ Hd RG1). assert (Y2 := Sf d _ Hd RG2).
    replace (spline (kfun (map (fun y => y / val u) (firstn (h + p) (map val V) ++ [val u]))) (h - 1) p (fun i => val (ent Ql i d)) t)
        with (spline (kfun (map val V)) n' p (fun i => val (ent Q i d)) (t * val u)) in X1.
    2:{ rewrite <- (L_spline p n' (map val V) (val u) h CV Hu A1 A2 V1 V2 V3 _ t Ht). unfold spline. apply rsum_ext. intros i Hi. rewrite EQl by lia. reflexivity. }
    replace (spline (kfun (map (fun y => (y - val u) / (1 - val u)) (val u :: skipn h (map val V)))) (n' - (h - 1)) p (fun i => val (ent Qr i d)) t)
        with (spline (kfun (map val V)) n' p (fun i => val (ent Q i d)) (val u + t * (1 - val u))) in X2.
    2:{ rewrite <- (R_spline p n' (map val V) (val u) h CV Hu A1 A2 V1 V2 V3 _ t Ht). unfold spline. apply rsum_ext. intros i Hi. rewrite EQr by lia. reflexivity. }
    fold M1. split.
    + eapply tri_le; [exact X1|exact Y1].
    + eapply tri_le; [exact X2|exact Y2].
Qed.
