(** * Accuracy of splitting in binary64 *)

From Coq Require Import ZArith Reals List Bool Arith Lia Lra Psatz Permutation.
From Flocq Require Import Core.Core IEEE754.BinarySingleNaN.
From Verif Require Import Num Vec MKnots MPoints MCurve RNum F64 Hoare Lists Struct Divisions Spec BMath BMath2 BMath3 BMath4 Api ApiF ApiF2 ApiF3 Bridge Facts1 Facts3 Facts4 Facts5 Facts6 Facts7 Facts8 Shape1 Shape2 Shape3 Stab Float1 Float2 Float4 Float5 Float6 Float7 Float9 Float16 Float20.
Import ListNotations.
Local Open Scope R_scope.

(** ** One part *)
Lemma part_F64 p n dim (v : list f64) (P : Mat F64) M h : (forall x, In x v -> finite x) -> sorted (map val v) -> length v = (n + p + 2)%nat ->
  let a := nth 0 (map val v) 0 in let b := nth (n + p + 1) (map val v) 0 in
  let U := map (fun x => (x - a) / (b - a)) (map val v) in
  0 <= a -> a < b -> b <= 1 -> clamped p n U -> (1 <= p <= 100)%nat -> (forall x, 0 < x < 1 -> mult_le (kfun U) x p) -> / 2 ^ 49 <= h ->
  (forall i, (p <= i <= n)%nat -> nth i (map val v) 0 < nth (S i) (map val v) 0 -> h <= nth (S i) (map val v) 0 - nth i (map val v) 0) ->
  shape dim (S n) P -> (forall i d, (i <= n)%nat -> (d < dim)%nat -> finite (ent P i d) /\ Rabs (val (ent P i d)) <= M) -> / 2 ^ 1000 <= M <= 2 ^ 1022 ->
  exists w c, @vec_normalize F64 v = Val w /\ length w = (n + p + 2)%nat /\ @make_part F64 p w P = Val (Ok c) /\ float_curve p n dim w P M c /\
    forall t, finite t -> 0 <= val t <= 1 ->
    returns_within (@evaluate F64 c t) dim (fun d => spline (kfun U) n p (fun i => val (ent P i d)) (val t))
      ((6 * INR p + 3) * / 2 ^ 53 * M + 6 * INR p * M * (4 * / 2 ^ 53) / h).
Proof.
  intros Ff SV L a b U A0 AB B1 C Hp HM Hh G HP B MM.
  destruct (normalized_knots p n v h Ff SV L A0 AB B1 C Hh G) as [w [E [Lw [K [D [O GU]]]]]]. fold a b in D, O, GU. fold U in D, O, GU.
  assert (Lw' : length w = (n + p + 2)%nat) by (rewrite Lw; exact L).
  assert (SZ : @sized F64 p n dim w P) by (split; [apply (cl_deg _ _ _ C)|]; split; [exact Lw'|exact HP]).
  destruct (built_ex_gen F64 gdiv_F64 p n dim w P SZ) as [c Bc].
  exists w, c. split; [exact E|]. split; [exact Lw'|]. split.
  - destruct Bc as [kn [E1 E2]]. unfold make_part. rewrite E1. cbn [bind]. rewrite E2. reflexivity.
  - split; [split; [exact K|split; [exact HP|split; [exact B|exact Bc]]]|].
    intros t Ft Ht. assert (P49 : 0 < / 2 ^ 49) by (apply Rinv_0_lt_compat, pow_lt; lra).
    apply (near_eval p n dim w P M c U (4 * / 2 ^ 53) h t); try assumption; try lra.
    apply (sized_wf False gdiv_F64 p n dim w P c SZ Bc).
Qed.

Lemma within_eq {E} (r : Num.M (result (list f64) E)) dim f g e e' : returns_within r dim f e -> (forall d, (d < dim)%nat -> f d = g d) -> e <= e' -> returns_within r dim g e'.
Proof.
  intros [v [A [B C]]] F L. exists v. split; [exact A|]. split; [exact B|]. intros d Hd. destruct (C d Hd) as [C1 C2]. split; [exact C1|].
  rewrite <- F by exact Hd. lra.
Qed.

Lemma split_bound p x h M e : (x <= p)%nat -> (p <= 100)%nat -> 0 < h -> 0 <= M -> 0 <= e -> e * 10000 <= 1 ->
  (6 * INR p + 3) * e * ((1 + 11 * INR x * e) * M) + 6 * INR p * ((1 + 11 * INR x * e) * M) * (4 * e) / h + M * (11 * INR x * e) <= (18 * INR p + 4 + 27 * INR p / h) * e * M.
Proof.
  intros Hx Hp Hh HM He Hs.
  assert (X : 0 <= INR x <= INR p) by (split; [apply pos_INR|apply le_INR; exact Hx]).
  assert (Q : INR p <= 100) by (replace 100 with (INR 100) by (rewrite INR_IZR_INZ; reflexivity); apply le_INR; exact Hp).
  set (P := INR p) in *. set (X' := INR x) in *.
  assert (F1 : 11 * X' * e <= / 9) by nra.
  assert (F1' : 0 <= 11 * X' * e) by nra.
  assert (I0 : 0 <= / h) by (left; apply Rinv_0_lt_compat; exact Hh).
  assert (T1 : (6 * P + 3) * e * ((1 + 11 * X' * e) * M) <= (6 * P + 3) * e * (10 / 9 * M)) by (apply Rmult_le_compat_l; [apply Rmult_le_pos; lra|apply Rmult_le_compat_r; lra]).
  assert (EM : 0 <= e * M) by (apply Rmult_le_pos; lra).
  assert (T1' : (6 * P + 3) * e * (10 / 9 * M) = (60 / 9 * P + 30 / 9) * (e * M)) by field.
  assert (T2 : 6 * P * ((1 + 11 * X' * e) * M) * (4 * e) / h <= 27 * P / h * (e * M)).
  { replace (6 * P * ((1 + 11 * X' * e) * M) * (4 * e) / h) with ((24 * (1 + 11 * X' * e)) * (P * / h * (e * M))) by (field; lra).
    replace (27 * P / h * (e * M)) with (27 * (P * / h * (e * M))) by (field; lra). apply Rmult_le_compat_r; [|lra].
    apply Rmult_le_pos; [apply Rmult_le_pos; lra|exact EM]. }
  assert (T3 : M * (11 * X' * e) <= 11 * P * (e * M)) by (replace (M * (11 * X' * e)) with (11 * X' * (e * M)) by ring; apply Rmult_le_compat_r; lra).
  replace ((18 * P + 4 + 27 * P / h) * e * M) with ((18 * P + 4) * (e * M) + 27 * P / h * (e * M)) by ring.
  assert (T4 : (60 / 9 * P + 30 / 9) * (e * M) + 11 * P * (e * M) <= (18 * P + 4) * (e * M)) by (rewrite <- Rmult_plus_distr_r; apply Rmult_le_compat_r; lra). lra.
Qed.

Lemma mult_app l l' x : mult (l ++ l') x = (mult l x + mult l' x)%nat.
Proof. apply count_occ_app. Qed.
Lemma mult_repeat u k x : mult (repeat u k) x = if Req_EM_T u x then k else 0%nat.
Proof.
  unfold mult. induction k as [|k IH]; cbn [repeat count_occ]; [destruct (Req_EM_T u x); reflexivity|]. rewrite IH. destruct (Req_EM_T u x); reflexivity.
Qed.
Lemma mult_perm l l' x : Permutation l l' -> mult l x = mult l' x.
Proof. intros H. unfold mult. apply (Permutation_count_occ Req_EM_T l l'). exact H. Qed.

Lemma map_repeat {A B} (f : A -> B) x k : map f (repeat x k) = repeat (f x) k.
Proof. induction k as [|k IH]; [reflexivity|]. cbn [repeat map]. rewrite IH. reflexivity. Qed.

(** ** split(u) *)
Theorem split_parts p n dim (U : list f64) P M c P' cR (u : f64) g : float_curve p n dim U P M c -> same_points n dim P P' ->
  clamped_curve p n dim (map val U) P' cR -> (1 <= p <= 100)%nat -> / 2 ^ 1000 <= M <= 2 ^ 1019 -> finite u -> 0 < val u < 1 ->
  (forall x, 0 < x < 1 -> (mult (map val U) x <= p)%nat) -> simple_below (map val U) (val u) ->
  / 2 ^ 49 <= g -> wide g (val u :: map val U) ->
  let x := (p - mult (map val U) (val u))%nat in
  exists cl cr c1 V Q h wl Ql wr Qr M1, @split F64 c u = Val (Ok (cl, cr)) /\
    (@insert_times F64 c u x = Val (c1, Ok tt) /\ float_curve p (n + x) dim V Q M1 c1 /\ (p < h)%nat /\ (h + p <= n + x + 1)%nat /\
     float_curve p (h - 1) dim wl Ql M1 cl /\ float_curve p (n + x - (h - 1)) dim wr Qr M1 cr /\
     (forall i d, (i < h)%nat -> ent Ql i d = ent Q i d) /\ (forall i d, (i < n + x + 2 - h)%nat -> ent Qr i d = ent Q (h - 1 + i) d)) /\
    forall t, finite t -> 0 <= val t <= 1 ->
      (exists f, returns (evaluate cR (val t * val u)) dim f /\ returns_within (@evaluate F64 cl t) dim f ((18 * INR p + 4 + 27 * INR p / g) * / 2 ^ 53 * M)) /\
      (exists f, returns (evaluate cR (val u + val t * (1 - val u))) dim f /\ returns_within (@evaluate F64 cr t) dim f ((18 * INR p + 4 + 27 * INR p / g) * / 2 ^ 53 * M)).
Proof.
  intros H [Sh Ep] HR Hp HM Fu Hu MU Hs Hg Wd x0. assert (K := proj1 H). assert (Ff := proj1 K). assert (C := proj1 (proj2 K)). assert (W := float_wf p n dim U P M c H).
  assert (D := cl_deg _ _ _ C). assert (Len := cl_len _ _ _ C). assert (LenU := Len). rewrite map_length in LenU. change (binary_float 53 1024) with f64 in *.
  assert (E2 : 2 ^ 1019 = pow2 1019) by (rewrite (bpow_powerRZ radix2 1019); reflexivity).
  assert (E3 : 2 ^ 1022 = pow2 1022) by (rewrite (bpow_powerRZ radix2 1022); reflexivity).
  assert (HM' := HM). rewrite pow2_1000, E2 in HM'.
  assert (M0 : 0 < M) by (apply Rlt_le_trans with (2 := proj1 HM'); apply bpow_gt_0).
  assert (P49 : 0 < / 2 ^ 49) by (apply Rinv_0_lt_compat, pow_lt; lra).
  assert (P1000 : / 2 ^ 1000 <= / 2 ^ 49) by (apply Rinv_le_contravar; [apply pow_lt; lra|apply Rle_pow; [lra|lia]]).
  assert (EPS := eps_pos). assert (EV := eps_val).
  set (m := mult (map val U) (val u)) in *. assert (Hm : (m <= p)%nat) by (apply MU; exact Hu). subst x0. set (x := (p - m)%nat).
  assert (GB := grow_bound x ltac:(unfold x; lia)).
  assert (IX : 0 <= INR x <= 100) by (split; [apply pos_INR|replace 100 with (INR 100) by (rewrite INR_IZR_INZ; reflexivity); apply le_INR; unfold x; lia]).
  assert (IXe : 11 * INR x * eps <= / 9) by (rewrite EV; lra).
  assert (AP : apart (map val U) (val u)).
  { intros y Hy Ne. destruct (Rtotal_order y (val u)) as [Lt|[Eq|Gt]]; [|contradiction|].
    - assert (T := Wd y (val u) ltac:(right; exact Hy) ltac:(left; reflexivity) Lt). rewrite Rabs_minus_sym, Rabs_pos_eq by lra. lra.
    - assert (T := Wd (val u) y ltac:(left; reflexivity) ltac:(right; exact Hy) Gt). rewrite Rabs_pos_eq by lra. lra. }
  destruct (insert_times_F64 x p n dim U P M c u H ltac:(lia) (proj1 HM')) as [c1 [V [Q [E1 [H1 [Pe Sf]]]]]]; try assumption.
  { change (pow2 1020) with (pow2 (1 + 1019)). rewrite bpow_plus. change (pow2 1) with 2. apply Rle_trans with (M * 2); [apply Rmult_le_compat_l; lra|lra]. }
  { fold m. unfold x. lia. }
  set (M1 := M * (1 + 10 * eps) ^ x) in *.
  assert (G1 : 1 <= (1 + 10 * eps) ^ x) by (apply pow_R1_Rle; lra).
  assert (M1b : M <= M1 <= (1 + 11 * INR x * eps) * M) by (unfold M1; split; nra).
  assert (KV := proj1 H1). assert (FfV := proj1 KV). assert (CV := proj1 (proj2 KV)). assert (LenV := cl_len _ _ _ CV). assert (LenV' := LenV). rewrite map_length in LenV'. change (binary_float 53 1024) with f64 in *.
  assert (PeR : Permutation (repeat (val u) x ++ map val U) (map val V)).
  { rewrite <- map_repeat, <- map_app. apply Permutation_map. exact Pe. }
  (* where the search ends *)
  assert (F := @find_le_spec RNum False p n 0 (map val U) (val u) ltac:(rn; exact Len) D ltac:(lia)). apply ok_val_ex in F. destruct F as [l [F _]].
  set (h := if (0 <? m)%nat then l else (l + 1)%nat) in *.
  assert (SS : @take_while_count RNum (val u) (skipn l (map val U)) = m /\ (p < h <= n + 1)%nat /\ sep (map val U) (val u) h) by exact (split_sep p n (map val U) (val u) l C Hu Hs F).
  destruct SS as [Ew [Hh Hsep]].
  assert (SU := clamped_sorted' _ _ _ C).
  assert (LU : length (map val U) = (n + p + 2)%nat) by exact Len.
  assert (EVm : map val V = ins_many (map val U) h x (val u)).
  { apply sorted_perm_eq; [apply (clamped_sorted' _ _ _ CV)|apply ins_many_sorted; try assumption; unfold f64 in *; lia|].
    eapply Permutation_trans; [apply Permutation_sym; exact PeR|apply ins_many_perm]. }
  assert (SR : (h + m <= length (map val U))%nat /\ (forall i, (h <= i < h + m)%nat -> nth i (map val U) 0 = val u) /\ (forall i, (h + m <= i < length (map val U))%nat -> val u < nth i (map val U) 0)).
  { apply (sep_run (map val U) (val u) h SU); [unfold f64 in *; lia|exact Hsep]. }
  destruct SR as [R1 [R2 R3]].
  assert (Hhn : (h + m <= n + 1)%nat).
  { destruct (le_lt_dec (h + m) (n + 1)); [assumption|exfalso].
    specialize (R2 (n + 1)%nat). destruct (le_lt_dec h (n + 1)); [|lia].
    rewrite (cl_one _ _ _ C) in R2 by (unfold f64 in *; lia). specialize (R2 ltac:(lia)). lra. }
  assert (NV : forall i, nth i (map val V) 0 = if (i <? h)%nat then nth i (map val U) 0 else if (i <? h + x)%nat then val u else nth (i - x) (map val U) 0).
  { intros i. rewrite EVm. apply nth_ins_many. unfold f64 in *. lia. }
  assert (V1 : forall i, (i < h)%nat -> nth i (map val V) 0 < val u).
  { intros i Hi. rewrite NV. replace (i <? h)%nat with true by (symmetry; apply Nat.ltb_lt; lia). apply (proj1 Hsep). exact Hi. }
  assert (V2 : forall i, (h <= i < h + p)%nat -> nth i (map val V) 0 = val u).
  { intros i Hi. rewrite NV. replace (i <? h)%nat with false by (symmetry; apply Nat.ltb_ge; lia).
    destruct (Nat.ltb_spec i (h + x)); [reflexivity|]. apply R2. unfold x in *. lia. }
  assert (V3 : forall i, (h + p <= i < length (map val V))%nat -> val u < nth i (map val V) 0).
  { intros i Hi. rewrite NV. replace (i <? h)%nat with false by (symmetry; apply Nat.ltb_ge; lia).
    replace (i <? h + x)%nat with false by (symmetry; apply Nat.ltb_ge; unfold x; lia). apply R3. unfold x, f64 in *. lia. }
  set (n' := (n + x)%nat) in *.
  assert (A1 : (p < h)%nat) by lia. assert (A2 : (h + p <= n' + 1)%nat) by (unfold n', x; lia).
  assert (HMV : forall y, 0 < y < 1 -> mult_le (kfun (map val V)) y p).
  { apply (mults_le p n' _ CV). intros y Hy. eapply Nat.le_trans; [apply Nat.eq_le_incl; symmetry; apply (mult_perm _ _ y PeR)|]. rewrite mult_app, mult_repeat.
    destruct (Req_EM_T (val u) y) as [<-|Ne]; [change (x + m <= p)%nat; unfold x; lia|exact (MU y Hy)]. }
  assert (WV : forall y, In y (map val V) -> In y (val u :: map val U)).
  { intros y Hy. apply (Permutation_in y (Permutation_sym PeR)) in Hy. apply in_app_or in Hy. destruct Hy as [Hy|Hy]; [left; symmetry; apply (repeat_spec _ _ _ Hy)|right; exact Hy]. }
  assert (SV := clamped_sorted' _ _ _ CV).
  assert (HQ : shape dim (S n') Q) by apply H1.
  assert (BQ := proj1 (proj2 (proj2 H1))).
  assert (MM : / 2 ^ 1000 <= M1 <= 2 ^ 1022).
  { split; [lra|]. rewrite E3. change (pow2 1022) with (pow2 (3 + 1019)). rewrite bpow_plus. change (pow2 3) with 8. apply Rle_trans with (8 * M); [|lra]. nra. }
  (* the left part *)
  set (vl := firstn (h + p) V ++ [u]).
  assert (Evl : map val vl = firstn (h + p) (map val V) ++ [val u]) by (unfold vl; rewrite map_app, firstn_map; reflexivity).
  assert (Lvl : length vl = (h - 1 + p + 2)%nat) by (unfold vl; rewrite app_length, firstn_length; cbn [length]; unfold f64 in *; lia).
  assert (Cl := L_clamped p n' (map val V) (val u) h CV Hu A1 A2 V1 V2).
  assert (al : nth 0 (map val vl) 0 = 0).
  { rewrite Evl, app_nth1 by (rewrite firstn_length; unfold f64 in *; lia). rewrite nth_firstn by lia. apply (cl_zero _ _ _ CV). lia. }
  assert (bl : nth (h - 1 + p + 1) (map val vl) 0 = val u).
  { rewrite Evl, app_nth2 by (rewrite firstn_length; unfold f64 in *; lia). rewrite firstn_length, Nat.min_l by (unfold f64 in *; lia). replace (h - 1 + p + 1 - (h + p))%nat with 0%nat by lia. reflexivity. }
  assert (Ul : map (fun y => (y - 0) / (val u - 0)) (map val vl) = map (fun y => y / val u) (firstn (h + p) (map val V) ++ [val u])).
  { rewrite Evl. apply map_ext. intros y. rewrite !Rminus_0_r. reflexivity. }
  assert (IVl : forall y, In y (map val vl) -> In y (val u :: map val U)).
  { intros y Hy. rewrite Evl in Hy. apply in_app_or in Hy. destruct Hy as [Hy|[<-|[]]]; [|left; reflexivity]. apply WV. rewrite <- (firstn_skipn (h + p) (map val V)). apply in_or_app. left. exact Hy. }
  set (Ql := mkMat dim (firstn h (skipn 0 (mcols Q)))).
  assert (SQl : shape dim (S (h - 1)) Ql).
  { replace (S (h - 1)) with h by lia. apply (mcolumns_shape Q dim (S n')); [exact HQ|lia]. }
  assert (EQl : forall i d, (i < h)%nat -> ent Ql i d = ent Q i d) by (intros i d Hi; unfold Ql; rewrite ent_columns by exact Hi; reflexivity).
  assert (TL := part_F64 p (h - 1) dim vl Ql M1 g). cbv zeta in TL. rewrite al, bl, Ul in TL.
  destruct TL as [wl [cl [NL [LwL [ML [FCl EL]]]]]]; try assumption; try lra; try lia.
  { intros y Hy. unfold vl in Hy. apply in_app_or in Hy. destruct Hy as [Hy|[<-|[]]]; [|exact Fu]. apply FfV. rewrite <- (firstn_skipn (h + p) V). apply in_or_app. left. exact Hy. }
  { rewrite Evl. apply (left_sorted p n' _ _ h CV A1 A2 V1 V2). }
  { intros y Hy a b Ha Hb. 
    assert (X : forall i, kfun (map (fun y => y / val u) (firstn (h + p) (map val V) ++ [val u])) i = y -> kfun (map val V) i = y * val u).
    { intros i Hi. destruct (le_lt_dec i (h - 1 + p)) as [I|I].
      - rewrite (HL p n' (map val V) (val u) h CV A1 A2) in Hi by exact I. rewrite <- Hi. field. lra.
      - rewrite (HL1 p n' (map val V) (val u) h CV Hu A1 A2) in Hi by exact I. lra. }
    apply (HMV (y * val u)); [|apply X; exact Ha|apply X; exact Hb]. split; [apply Rmult_lt_0_compat; lra|]. nra. }
  { intros i Hi Lt. apply Wd; [apply IVl, nth_In|apply IVl, nth_In|exact Lt]; rewrite map_length; unfold f64 in *; lia. }
  { intros i d Hi Hd. rewrite EQl by lia. apply BQ; [lia|exact Hd]. }
  (* the right part *)
  set (vr := u :: skipn h V).
  assert (Evr : map val vr = val u :: skipn h (map val V)) by (unfold vr; cbn [map]; rewrite skipn_map; reflexivity).
  assert (Lvr : length vr = (n' - (h - 1) + p + 2)%nat) by (unfold vr; cbn [length]; rewrite skipn_length; unfold f64 in *; lia).
  assert (Cr := R_clamped p n' (map val V) (val u) h CV Hu A1 A2 V2 V3).
  assert (ar : nth 0 (map val vr) 0 = val u) by reflexivity.
  assert (br : nth (n' - (h - 1) + p + 1) (map val vr) 0 = 1).
  { rewrite Evr. replace (n' - (h - 1) + p + 1)%nat with (S (n' + p + 1 - h)) by lia. cbn [nth]. rewrite nth_skipn. apply (cl_one _ _ _ CV); [lia|]. unfold f64 in *. lia. }
  assert (IVr : forall y, In y (map val vr) -> In y (val u :: map val U)).
  { intros y Hy. rewrite Evr in Hy. destruct Hy as [<-|Hy]; [left; reflexivity|]. apply WV. rewrite <- (firstn_skipn h (map val V)). apply in_or_app. right. exact Hy. }
  set (Qr := mkMat dim (firstn (n' + 2 - h) (skipn (h - 1) (mcols Q)))).
  assert (SQr : shape dim (S (n' - (h - 1))) Qr).
  { replace (S (n' - (h - 1))) with (n' + 2 - h)%nat by lia. apply (mcolumns_shape Q dim (S n')); [exact HQ|lia]. }
  assert (EQr : forall i d, (i < n' + 2 - h)%nat -> ent Qr i d = ent Q (h - 1 + i) d) by (intros i d Hi; unfold Qr; rewrite ent_columns by exact Hi; reflexivity).
  assert (TR := part_F64 p (n' - (h - 1)) dim vr Qr M1 g). cbv zeta in TR. rewrite ar, br, Evr in TR.
  destruct TR as [wr [cr [NR [LwR [MR [FCr ER]]]]]]; try assumption; try lra; try lia.
  { intros y Hy. unfold vr in Hy. destruct Hy as [<-|Hy]; [exact Fu|]. apply FfV. rewrite <- (firstn_skipn h V). apply in_or_app. right. exact Hy. }
  { apply (right_sorted p n' _ _ h CV A1 A2 V2 V3). }
  { intros y Hy a b Ha Hb. 
    assert (X : forall i, kfun (map (fun y => (y - val u) / (1 - val u)) (val u :: skipn h (map val V))) i = y -> (1 <= i)%nat /\ kfun (map val V) (h - 1 + i) = val u + y * (1 - val u)).
    { intros i Hi. destruct (Nat.eq_dec i 0) as [->|I].
      - rewrite (HR0 p n' (map val V) (val u) h CV A1 A2) in Hi. lra.
      - split; [lia|]. rewrite (Facts8.HR p n' (map val V) (val u) h CV A1 A2) in Hi by lia. rewrite <- Hi. field. lra. }
    destruct (X a Ha) as [Xa1 Xa]. destruct (X b Hb) as [Xb1 Xb]. assert (T := HMV (val u + y * (1 - val u)) ltac:(nra) (h - 1 + a)%nat (h - 1 + b)%nat Xa Xb). lia. }
  { intros i Hi Lt. rewrite <- Evr in *. apply Wd; [apply IVr, nth_In|apply IVr, nth_In|exact Lt]; rewrite map_length; unfold f64 in *; lia. }
  { intros i d Hi Hd. rewrite EQr by lia. apply BQ; [lia|exact Hd]. }
  assert (TW : @take_while_count F64 u (@skipn f64 l U) = m).
  { rewrite take_while_F64; [|intros y Hy; apply Ff; rewrite <- (firstn_skipn l U); apply in_or_app; right; exact Hy|exact Fu]. rewrite <- skipn_map. exact Ew. }
  exists cl, cr, c1, V, Q, h, wl, Ql, wr, Qr, M1. split; [|split; [split; [exact E1|split; [exact H1|split; [exact A1|split; [exact A2|split; [exact FCl|split; [exact FCr|split; [exact EQl|exact EQr]]]]]]]|]].
  - unfold split, split_and_normalize. rewrite (open_F64 u Fu Hu). unfold degree. rewrite (wf_knots _ _ _ _ _ _ W). cbn [kdegree kp knots_of].
    fold (knots_of p U). rewrite (find_le_F64 p n U u Ff Fu LenU). rewrite F. cbn [bind].
    rewrite (@knots_of_vector F64 p U). cbn [bind].
    change (@take_while_count F64 u (@skipn (T F64) l U)) with (@take_while_count F64 u (@skipn f64 l U)). rewrite TW.
    replace (p <? m)%nat with false by (symmetry; apply Nat.ltb_ge; lia).
    rewrite usub_ok by lia. cbn [bind]. rewrite (fold_insert (p - m) c c1 u 0 E1). cbn [bind].
    assert (W1 := float_wf p n' dim V Q M1 c1 H1). rewrite (wf_knots _ _ _ _ _ _ W1). rewrite (@knots_of_vector F64 p V). cbn [bind].
    destruct (wf_cpoints _ _ _ _ _ _ W1) as [s Es]. unfold cp_matrix. rewrite Es. cbn [vget nth_error bind fst snd].
    fold h. rewrite (@split_left_val F64) by (change (T F64) with f64; unfold f64 in *; lia).
    change (@vec_normalize F64 (firstn (h + p) V ++ [u])) with (@vec_normalize F64 vl). rewrite NL. cbn [bind].
    rewrite part_cols_val by (eapply Nat.le_trans; [|apply Nat.eq_le_incl; symmetry; exact LwL]; lia). cbn [bind]. match goal with |- context [@length ?A wl] => change (@length A wl) with (@length f64 wl) end. change (@length f64 wl = (h - 1 + p + 2)%nat) in LwL. rewrite LwL. replace (h - 1 + p + 2 - p - 1)%nat with h by lia.
    rewrite (@mcolumns_val F64 Q dim (S n')) by (try assumption; lia). cbn [bind]. fold Ql. rewrite ML. cbn [bind].
    rewrite (@split_right_val F64) by (change (T F64) with f64; unfold f64 in *; lia). change (@vec_normalize F64 (u :: skipn h V)) with (@vec_normalize F64 vr). rewrite NR. cbn [bind].
    rewrite part_cols_val by (eapply Nat.le_trans; [|apply Nat.eq_le_incl; symmetry; exact LwR]; lia). cbn [bind]. match goal with |- context [@length ?A wr] => change (@length A wr) with (@length f64 wr) end. change (@length f64 wr = (n' - (h - 1) + p + 2)%nat) in LwR. rewrite LwR. replace (n' - (h - 1) + p + 2 - p - 1)%nat with (n' + 2 - h)%nat by lia.
    unfold ncols. rewrite (proj1 (proj2 HQ)). rewrite usub_ok by lia. cbn [bind]. replace (S n' - (n' + 2 - h))%nat with (h - 1)%nat by lia.
    rewrite (@mcolumns_val F64 Q dim (S n')) by (try assumption; lia). cbn [bind]. fold Qr. rewrite MR. reflexivity.
  - assert (BD := split_bound p x g M eps ltac:(unfold x; lia) ltac:(lia) ltac:(lra) ltac:(lra) ltac:(lra) ltac:(rewrite EV; lra)).
    assert (IP : 0 <= INR p) by apply pos_INR.
    assert (Ig : 0 < / g) by (apply Rinv_0_lt_compat; lra).
    assert (BD' : (6 * INR p + 3) * / 2 ^ 53 * M1 + 6 * INR p * M1 * (4 * / 2 ^ 53) / g + M * ((1 + 10 * eps) ^ x - 1) <= (18 * INR p + 4 + 27 * INR p / g) * / 2 ^ 53 * M).
    { rewrite eps_pow. eapply Rle_trans; [|exact BD]. apply Rplus_le_compat; [apply Rplus_le_compat|].
      - apply Rmult_le_compat_l; [apply Rmult_le_pos; lra|lra].
      - unfold Rdiv. apply Rmult_le_compat_r; [lra|]. apply Rmult_le_compat_r; [lra|]. apply Rmult_le_compat_l; lra.
      - apply Rmult_le_compat_l; lra. }
    intros t Ft Ht.
    assert (RG1 : 0 <= val t * val u <= 1) by (split; [apply Rmult_le_pos; lra|nra]).
    assert (RG2 : 0 <= val u + val t * (1 - val u) <= 1) by (split; nra).
    split.
    + exists (fun d => spline (kfun (map val U)) n p (fun i => ent P' i d) (val t * val u)). split; [apply (cc_eval0 p n dim _ P' cR _ HR RG1)|].
      eapply within_eq; [eapply within_more; [apply (EL t Ft Ht)|]|reflexivity|exact BD'].
      intros d Hd. cbv beta.
      replace (spline (kfun (map (fun y => y / val u) (firstn (h + p) (map val V) ++ [val u]))) (h - 1) p (fun i => val (ent Ql i d)) (val t))
        with (spline (kfun (map val V)) n' p (fun i => val (ent Q i d)) (val t * val u)).
      2:{ rewrite <- (L_spline p n' (map val V) (val u) h CV Hu A1 A2 V1 V2 V3 _ (val t) Ht). unfold spline. apply rsum_ext. intros i Hi. rewrite EQl by lia. reflexivity. }
      replace (spline (kfun (map val U)) n p (fun i => ent P' i d) (val t * val u)) with (spline (kfun (map val U)) n p (fun i => val (ent P i d)) (val t * val u))
        by (unfold spline; apply rsum_ext; intros i Hi; rewrite Ep by (try exact Hd; lia); reflexivity).
      apply Sf; assumption.
    + exists (fun d => spline (kfun (map val U)) n p (fun i => ent P' i d) (val u + val t * (1 - val u))). split; [apply (cc_eval0 p n dim _ P' cR _ HR RG2)|].
      eapply within_eq; [eapply within_more; [apply (ER t Ft Ht)|]|reflexivity|exact BD'].
      intros d Hd. cbv beta.
      replace (spline (kfun (map (fun y => (y - val u) / (1 - val u)) (val u :: skipn h (map val V)))) (n' - (h - 1)) p (fun i => val (ent Qr i d)) (val t))
        with (spline (kfun (map val V)) n' p (fun i => val (ent Q i d)) (val u + val t * (1 - val u))).
      2:{ rewrite <- (R_spline p n' (map val V) (val u) h CV Hu A1 A2 V1 V2 V3 _ (val t) Ht). unfold spline. apply rsum_ext. intros i Hi. rewrite EQr by lia. reflexivity. }
      replace (spline (kfun (map val U)) n p (fun i => ent P' i d) (val u + val t * (1 - val u))) with (spline (kfun (map val U)) n p (fun i => val (ent P i d)) (val u + val t * (1 - val u)))
        by (unfold spline; apply rsum_ext; intros i Hi; rewrite Ep by (try exact Hd; lia); reflexivity).
      apply Sf; assumption.
Qed.

Theorem split_accuracy p n dim (U : list f64) P M c P' cR (u : f64) g : float_curve p n dim U P M c -> same_points n dim P P' ->
  clamped_curve p n dim (map val U) P' cR -> (1 <= p <= 100)%nat -> / 2 ^ 1000 <= M <= 2 ^ 1019 -> finite u -> 0 < val u < 1 ->
  (forall x, 0 < x < 1 -> (mult (map val U) x <= p)%nat) -> simple_below (map val U) (val u) ->
  / 2 ^ 49 <= g -> wide g (val u :: map val U) ->
  exists cl cr, @split F64 c u = Val (Ok (cl, cr)) /\
    forall t, finite t -> 0 <= val t <= 1 ->
      (exists f, returns (evaluate cR (val t * val u)) dim f /\ returns_within (@evaluate F64 cl t) dim f ((18 * INR p + 4 + 27 * INR p / g) * / 2 ^ 53 * M)) /\
      (exists f, returns (evaluate cR (val u + val t * (1 - val u))) dim f /\ returns_within (@evaluate F64 cr t) dim f ((18 * INR p + 4 + 27 * INR p / g) * / 2 ^ 53 * M)).
Proof.
  intros H Sp HR Hp HM Fu Hu MU Hs Hg Wd.
  destruct (split_parts p n dim U P M c P' cR u g H Sp HR Hp HM Fu Hu MU Hs Hg Wd) as [cl [cr [_ [_ [_ [_ [_ [_ [_ [_ [_ [E [_ A]]]]]]]]]]]]].
  exists cl, cr. split; [exact E|exact A].
Qed.
