(** * Insertion and splitting in binary64 decide as in exact arithmetic *)

From Coq Require Import ZArith Reals List Bool Arith Lia Lra Permutation.
From Flocq Require Import Core.Core IEEE754.BinarySingleNaN.
From Verif Require Import Num Vec MKnots MPoints MCurve RNum F64 Lists Hoare Struct Facts4 Spec Api ApiF ApiK BMath Bridge Facts1 Facts5 Facts6 Facts7 Facts8 Facts9 Facts10 Split2 Float1 Float8 Float9 Float20 Float22.
Import ListNotations.
Local Open Scope R_scope.

Lemma total_F64 (x y : F64) : exists z, ndiv x y = Val z.
Proof. eexists. reflexivity. Qed.

Lemma gdiv_F64 : @gdiv F64 False.
Proof. intros x y z _. destruct (total_F64 z (x - y)%num) as [w ->]. exact I. Qed.

Lemma on_wf p n dim U P c : on_knots p n dim U P c -> @wf F64 p n dim U P c.
Proof. intros [S [B _]]. apply (sized_wf False gdiv_F64 p n dim U P c S B). Qed.

Lemma closed_F64 (u : f64) : finite u -> ~ (0 < val u < 1) -> ((u : F64) <=? @n0 F64)%num || (@n1 F64 <=? (u : F64))%num = true.
Proof.
  intros Fu Hu. change (Bleb u (@n0 F64) || Bleb (@n1 F64) u = true).
  rewrite !leb_val by (try exact Fu; try apply n0_ok; apply n1_ok). rewrite (proj2 n0_ok), (proj2 n1_ok).
  destruct (Rle_dec (val u) 0); [rewrite Rle_bool_true by assumption; reflexivity|]. rewrite (Rle_bool_true 1) by lra. apply orb_true_r.
Qed.

Lemma on_length p n dim U P c : on_knots p n dim U P c -> length U = (n + p + 2)%nat /\ (p <= n)%nat.
Proof. intros [[S1 [S2 _]] _]. split; [exact S2|exact S1]. Qed.

Lemma dcount_on p n dim U P c u : on_knots p n dim U P c -> finite u -> 0 < val u < 1 -> @dcount F64 p n U u = mult (map val U) (val u).
Proof. intros [_ [_ [Ff C]]] Fu Hu. rewrite (dcount_F64 p n U u Ff Fu). apply (dcount_R p n _ _ C Hu). Qed.

Lemma insert_on p n dim U P c u : on_knots p n dim U P c -> finite u -> 0 < val u < 1 -> (mult (map val U) (val u) <= p)%nat -> simple_below (map val U) (val u) ->
  exists c' U' P', @insert F64 c u = Val (c', Ok tt) /\ on_knots p (S n) dim U' P' c' /\ Permutation (u :: U) U'.
Proof.
  intros H Fu Hu Hm Hs. assert (W := on_wf _ _ _ _ _ _ H). destruct (on_length _ _ _ _ _ _ H) as [L D]. assert (H' := H). destruct H' as [_ [_ [Ff C]]].
  assert (X := @insert_gen F64 False gdiv_F64 p n dim U P c u W (open_F64 u Fu Hu) ltac:(rewrite (dcount_on p n dim U P c u H Fu Hu); exact Hm) ltac:(intros; apply total_F64)).
  apply ok_val_ex in X. destruct X as [[c' r] [Ei [l [P' [F [Hl [EP [Er [W' B']]]]]]]]]. cbn [fst snd] in *. subst r.
  assert (F' : @find_idx RNum (knots_of p (map val U)) (val u) 0 CLeftOrEqual = Val l) by (rewrite <- (find_F64 p n U Ff L D u 0 CLeftOrEqual Fu ltac:(lia)); exact F).
  destruct (find_insert_simple p n (map val U) (val u) l C Hu Hs F') as [_ Hlu].
  exists c', (insU U l u), P'. split; [exact Ei|]. split; [|apply (insU_perm U l u)].
  split; [split; [apply W'|split; [apply W'|apply W']]|]. split; [exact B'|]. split.
  - intros x Hx. destruct (in_insU U l u x Hx) as [->|I]; [exact Fu|exact (Ff x I)].
  - rewrite map_insU. apply (insU_clamped p n (map val U) l (val u) C Hu Hl Hlu).
Qed.

Lemma insert_decisions p n dim U P c (u : F64) : on_knots p n dim U P c -> finite u -> simple_below (map val U) (val u) ->
  (~ (0 < val u < 1) /\ @curve_insert F64 c u = Val (c, Err (@IOutOfBounds F64 u n0 n1))) \/
  (0 < val u < 1 /\ (p < mult (map val U) (val u))%nat /\ @curve_insert F64 c u = Val (c, Err (@IMultiplicityError F64 u (mult (map val U) (val u)) p))) \/
  (0 < val u < 1 /\ (mult (map val U) (val u) <= p)%nat /\ exists c' U' P', @curve_insert F64 c u = Val (c', Ok tt) /\
      on_knots p (S n) dim U' P' c' /\ Permutation (u :: U) U').
Proof.
  intros H Fu Hs. rewrite insert_once. assert (W := on_wf _ _ _ _ _ _ H).
  assert (DD : {0 < val u < 1} + {~ (0 < val u < 1)}) by (destruct (Rlt_dec 0 (val u)), (Rlt_dec (val u) 1); [left|right|right|right]; lra).
  destruct DD as [Hu|Hu]; [right|left; split; [exact Hu|apply insert_out, closed_F64; assumption]].
  destruct (le_lt_dec (mult (map val U) (val u)) p) as [Hm|Hm].
  - right. split; [exact Hu|]. split; [exact Hm|]. apply (insert_on p n dim U P c u); assumption.
  - left. split; [exact Hu|]. split; [exact Hm|]. rewrite <- (dcount_on p n dim U P c u H Fu Hu).
    apply (insert_mult p n dim U P c u W (open_F64 u Fu Hu)). rewrite (dcount_on p n dim U P c u H Fu Hu). exact Hm.
Qed.

Lemma simple_perm_F64 (U V : list f64) u : simple_below (map val U) (val u) -> Permutation (u :: U) V -> simple_below (map val V) (val u).
Proof. intros Hs Hp. apply (simple_perm (map val U)); [exact Hs|]. apply (Permutation_map val Hp). Qed.

Lemma mult_insert_F64 (U V : list f64) u : Permutation (u :: U) V -> mult (map val V) (val u) = S (mult (map val U) (val u)).
Proof. intros Hp. apply mult_insert. apply (Permutation_map val Hp). Qed.

Lemma insert_times_on x : forall p n dim U P c u, on_knots p n dim U P c -> finite u -> 0 < val u < 1 -> (mult (map val U) (val u) + x <= p + 1)%nat -> simple_below (map val U) (val u) ->
  exists c' U' P', @insert_times F64 c u x = Val (c', Ok tt) /\ on_knots p (n + x) dim U' P' c' /\ Permutation (repeat u x ++ U) U'.
Proof.
  induction x as [|x IH]; intros p n dim U P c u H Fu Hu Hm Hs.
  - exists c, U, P. split; [reflexivity|]. rewrite Nat.add_0_r. split; [exact H|apply Permutation_refl].
  - destruct (insert_on p n dim U P c u H Fu Hu ltac:(lia) Hs) as [c1 [U1 [P1 [E1 [H1 Q1]]]]].
    destruct (IH p (S n) dim U1 P1 c1 u H1 Fu Hu ltac:(rewrite (mult_insert_F64 U U1 u Q1); lia) (simple_perm_F64 U U1 u Hs Q1)) as [c2 [U2 [P2 [E2 [H2 Q2]]]]].
    exists c2, U2, P2. split; [cbn [insert_times]; rewrite E1; cbn [bind]; exact E2|].
    replace (n + S x)%nat with (S n + x)%nat by lia. split; [exact H2|].
    eapply Permutation_trans; [|exact Q2]. cbn [repeat app]. eapply Permutation_trans; [apply Permutation_middle|]. apply Permutation_app_head. exact Q1.
Qed.

(** ** Splitting *)
Lemma take_F64 (u : f64) (v : list f64) : finite u -> (forall x, In x v -> finite x) -> @take_while_count F64 u v = @take_while_count RNum (val u) (map val v).
Proof.
  intros Fu. induction v as [|x v IH]; intros Ff; [reflexivity|]. cbn [take_while_count map].
  rewrite (eqb_R x u) by (try exact Fu; apply Ff; left; reflexivity). rewrite IH by (intros; apply Ff; right; assumption). reflexivity.
Qed.

Lemma sep_unique V u h h' : (h <= length V)%nat -> (h' <= length V)%nat ->
  (forall i, (i < h)%nat -> nth i V 0 < u) -> (forall i, (h <= i < length V)%nat -> u <= nth i V 0) ->
  (forall i, (i < h')%nat -> nth i V 0 < u) -> (forall i, (h' <= i < length V)%nat -> u <= nth i V 0) -> h = h'.
Proof.
  intros L L' A B A' B'. destruct (lt_eq_lt_dec h h') as [[H|H]|H]; [|exact H|]; exfalso.
  - specialize (A' h H). specialize (B h ltac:(lia)). lra.
  - specialize (A h' H). specialize (B' h' ltac:(lia)). lra.
Qed.

Lemma normalize_F64 (b : bool) (v : list F64) : exists w, (if b then vec_normalize v else Val v) = Val w /\ length w = length v.
Proof.
  assert (X : exists w, (if b then vec_normalize v else Val v) = Val w).
  { destruct b; [|eexists; reflexivity]. unfold vec_normalize, vec_rescale. cbv zeta.
    assert (Z : forall (f : F64 -> F64 -> F64) (a c : list F64), length a = length c -> exists d, zipM f a c = Val d /\ length d = length a).
    { intros f a. induction a as [|x a IH]; intros [|y c] L; try discriminate; [exists []; auto|]. cbn [zipM]. destruct (IH c (eq_add_S _ _ L)) as [d [E LD]].
      rewrite E. cbn [bind]. eexists. split; [reflexivity|]. cbn [length]. f_equal. assumption. }
    unfold vsub. destruct (Z nsub v (repeat (fst (vmin v, vmax v)) (length v)) ltac:(rewrite repeat_length; reflexivity)) as [d [E LD]]. rewrite E. cbn [bind].
    unfold vdiv_scalar.
    assert (D : forall (a : list F64) s, exists d', mapM (fun x => ndiv x s) a = Val d' /\ length d' = length a).
    { intros a s. induction a as [|x a IH]; [exists []; auto|]. cbn [mapM]. destruct (total_F64 x s) as [q ->]. cbn [bind]. destruct IH as [d' [-> LD']]. cbn [bind]. eexists. split; [reflexivity|]. cbn [length]. f_equal. assumption. }
    match goal with |- context [mapM (fun x => ndiv x ?s) d] => destruct (D d s) as [d2 [E2 L2]]; rewrite E2 end. cbn [bind]. unfold vadd, vmul_scalar.
    match goal with |- context [zipM ?f ?a ?c] => destruct (Z f a c ltac:(rewrite map_length, repeat_length; congruence)) as [d3 [E3 _]] end. exists d3. exact E3. }
  destruct X as [w E]. exists w. split; [exact E|]. exact (normalize_length b v w E).
Qed.

Lemma make_part_F64 p n dim (U : list F64) P : sized p n dim U P -> exists c, make_part p U P = Val (Ok c) /\ built p U P c.
Proof.
  intros S. destruct (built_ex_gen F64 gdiv_F64 p n dim U P S) as [c B]. exists c. split; [|exact B].
  destruct B as [kn [E1 E2]]. unfold make_part. rewrite E1. cbn [bind]. rewrite E2. reflexivity.
Qed.

Lemma sized_left p n dim (V : list F64) P h u : sized p n dim V P -> (p < h)%nat -> (h + p <= n + 1)%nat ->
  sized p (h - 1) dim (firstn (h + p) V ++ [u]) (mkMat dim (firstn h (skipn 0 (mcols P)))).
Proof.
  intros [S1 [S2 S3]] H1 H2. split; [lia|]. split; [rewrite app_length, firstn_length; cbn [length]; lia|].
  replace (S (h - 1)) with h by lia. apply (mcolumns_shape P dim (S n)); [exact S3|lia].
Qed.

Lemma sized_right p n dim (V : list F64) P h u : sized p n dim V P -> (p < h)%nat -> (h + p <= n + 1)%nat ->
  sized p (n - (h - 1)) dim (u :: skipn h V) (mkMat dim (firstn (n + 2 - h) (skipn (h - 1) (mcols P)))).
Proof.
  intros [S1 [S2 S3]] H1 H2. split; [lia|]. split; [cbn [length]; rewrite skipn_length; lia|].
  replace (S (n - (h - 1))) with (n + 2 - h)%nat by lia. apply (mcolumns_shape P dim (S n)); [exact S3|lia].
Qed.

Lemma part_left_F64 p n dim (V : list F64) P h u b norm : sized p n dim V P -> (p < h)%nat -> (h + p <= n + 1)%nat ->
  exists W Q c, split_left V P p (h + p) u b norm = Val (Ok c) /\ sized p (h - 1) dim W Q /\ built p W Q c /\ (norm = false -> W = firstn (h + p) V ++ [u]).
Proof.
  intros S H1 H2. assert (SL := sized_left p n dim V P h u S H1 H2). destruct S as [S1 [S2 S3]]. destruct SL as [L1 [L2 L3]].
  rewrite split_left_val by lia. destruct (normalize_F64 norm (firstn (h + p) V ++ [u])) as [W [EW LW]]. rewrite EW. cbn [bind].
  rewrite part_cols_val by lia. cbn [bind]. rewrite LW, L2. replace (h - 1 + p + 2 - p - 1)%nat with h by lia.
  rewrite (@mcolumns_val F64 P dim (S n)) by (try assumption; lia). cbn [bind].
  destruct (make_part_F64 p (h - 1) dim W (mkMat dim (firstn h (skipn 0 (mcols P))))) as [c [E B]].
  { split; [exact L1|]. split; [congruence|exact L3]. }
  exists W, (mkMat dim (firstn h (skipn 0 (mcols P)))), c. split; [exact E|]. split; [split; [exact L1|split; [congruence|exact L3]]|]. split; [exact B|].
  intros ->. injection EW as <-. reflexivity.
Qed.

Lemma part_right_F64 p n dim (V : list F64) P h u b norm : sized p n dim V P -> (p < h)%nat -> (h + p <= n + 1)%nat ->
  exists W Q c, split_right V P p h u b norm = Val (Ok c) /\ sized p (n - (h - 1)) dim W Q /\ built p W Q c /\ (norm = false -> W = u :: skipn h V).
Proof.
  intros S H1 H2. assert (SR := sized_right p n dim V P h u S H1 H2). destruct S as [S1 [S2 S3]]. destruct SR as [L1 [L2 L3]].
  rewrite split_right_val by lia. destruct (normalize_F64 norm (u :: skipn h V)) as [W [EW LW]]. rewrite EW. cbn [bind].
  rewrite part_cols_val by lia. cbn [bind]. rewrite LW, L2. replace (n - (h - 1) + p + 2 - p - 1)%nat with (n + 2 - h)%nat by lia.
  unfold ncols. rewrite (proj1 (proj2 S3)). rewrite usub_ok by lia. cbn [bind]. replace (S n - (n + 2 - h))%nat with (h - 1)%nat by lia.
  rewrite (@mcolumns_val F64 P dim (S n)) by (try assumption; lia). cbn [bind].
  destruct (make_part_F64 p (n - (h - 1)) dim W (mkMat dim (firstn (n + 2 - h) (skipn (h - 1) (mcols P))))) as [c [E B]].
  { split; [exact L1|]. split; [congruence|exact L3]. }
  exists W, (mkMat dim (firstn (n + 2 - h) (skipn (h - 1) (mcols P)))), c. split; [exact E|]. split; [split; [exact L1|split; [congruence|exact L3]]|]. split; [exact B|].
  intros ->. injection EW as <-. reflexivity.
Qed.

Lemma knots_sorted p n dim U P c : on_knots p n dim U P c -> sorted (map val U).
Proof. intros [_ [_ [_ C]]]. exact (clamped_sorted' _ _ _ C). Qed.

Lemma mult_perm_F64 (U V : list f64) : Permutation U V -> forall x, mult (map val U) x = mult (map val V) x.
Proof. intros H x. apply Facts6.mult_perm. exact (Permutation_map val H). Qed.

Lemma split_on p n dim U P c (u : F64) : on_knots p n dim U P c -> finite u -> 0 < val u < 1 -> (mult (map val U) (val u) <= p)%nat -> simple_below (map val U) (val u) ->
  exists V h, (p < h)%nat /\ (h + p <= n + (p - mult (map val U) (val u)) + 1)%nat /\ length V = (n + (p - mult (map val U) (val u)) + p + 2)%nat /\
    clamped p (n + (p - mult (map val U) (val u))) (map val V) /\ Permutation (repeat u (p - mult (map val U) (val u)) ++ U) V /\
    (forall i, (i < h)%nat -> nth i (map val V) 0 < val u) /\ (forall i, (h <= i < length V)%nat -> val u <= nth i (map val V) 0) /\
    forall fl fr, exists l r Ul Pl Ur Pr, @split_and_normalize F64 c u (fl, fr) = Val (Ok (l, r)) /\
      @sized F64 p (h - 1) dim Ul Pl /\ @built F64 p Ul Pl l /\ @sized F64 p (n + (p - mult (map val U) (val u)) - (h - 1)) dim Ur Pr /\ @built F64 p Ur Pr r /\
      (fl = false -> Ul = firstn (h + p) V ++ [u]) /\ (fr = false -> Ur = u :: skipn h V).
Proof.
  intros H Fu Hu Hm Hs. assert (W := on_wf _ _ _ _ _ _ H). destruct (on_length _ _ _ _ _ _ H) as [L D]. assert (SU := knots_sorted _ _ _ _ _ _ H).
  assert (H' := H). destruct H' as [_ [_ [Ff C]]]. set (m := mult (map val U) (val u)) in *.
  destruct (insert_times_on (p - m) p n dim U P c u H Fu Hu ltac:(fold m; lia) Hs) as [c1 [V [Q [E1 [H1 Pe]]]]].
  destruct (on_length _ _ _ _ _ _ H1) as [LV DV]. assert (SV := knots_sorted _ _ _ _ _ _ H1). assert (W1 := on_wf _ _ _ _ _ _ H1).
  assert (LM : length (map val U) = (n + p + 2)%nat) by (rewrite map_length; exact L).
  assert (F := @find_le_spec RNum False p n 0 (map val U) (val u) LM D ltac:(lia)). apply ok_val_ex in F. destruct F as [l [F _]].
  destruct (split_sep p n (map val U) (val u) l C Hu Hs F) as [Ew [Hh Hsep]]. fold m in Ew, Hh, Hsep.
  assert (F' : @find_idx F64 (knots_of p U) u 0 CLeftOrEqual = Val l) by (rewrite (find_F64 p n U Ff L D u 0 CLeftOrEqual Fu ltac:(lia)); exact F).
  set (h := if (0 <? m)%nat then l else (l + 1)%nat) in *.
  destruct (sep_run (map val U) (val u) h SU ltac:(rewrite LM; lia) Hsep) as [R1 [R2 R3]]. fold m in R1, R2, R3.
  assert (Hhn : (h + m <= n + 1)%nat).
  { destruct (le_lt_dec (h + m) (n + 1)); [assumption|exfalso].
    specialize (R2 (n + 1)%nat). destruct (le_lt_dec h (n + 1)); [|lia].
    rewrite (cl_one _ _ _ C) in R2 by lia. specialize (R2 ltac:(lia)). lra. }
  assert (EV : map val V = ins_many (map val U) h (p - m) (val u)).
  { apply sorted_perm_eq; [exact SV|apply ins_many_sorted; try assumption; rewrite LM; lia|].
    eapply Permutation_trans; [|apply ins_many_perm]. apply Permutation_sym. assert (X := Permutation_map val Pe). rewrite map_app in X.
    assert (RP : forall k, map val (repeat u k) = repeat (val u) k) by (induction k as [|k IH]; cbn [repeat map]; [reflexivity|rewrite IH; reflexivity]).
    rewrite RP in X. exact X. }
  assert (NV : forall i, nth i (map val V) 0 = if (i <? h)%nat then nth i (map val U) 0 else if (i <? h + (p - m))%nat then val u else nth (i - (p - m)) (map val U) 0).
  { intros i. rewrite EV. apply nth_ins_many. rewrite LM. lia. }
  exists V, h. split; [lia|]. split; [lia|]. split; [exact LV|]. split; [apply H1|]. split; [exact Pe|]. split; [|split].
  - intros i Hi. rewrite NV. replace (i <? h)%nat with true by (symmetry; apply Nat.ltb_lt; lia). apply (proj1 Hsep). exact Hi.
  - intros i Hi. assert (Hi2 : (i < n + (p - m) + p + 2)%nat) by (rewrite <- LV; apply Hi). rewrite NV. replace (i <? h)%nat with false by (symmetry; apply Nat.ltb_ge; lia).
    destruct (Nat.ltb_spec i (h + (p - m))); [lra|]. apply (proj2 Hsep). rewrite LM. lia.
  - intros fl fr.
    destruct (part_left_F64 p (n + (p - m)) dim V Q h u (0 <? m)%nat fl (proj1 H1) ltac:(lia) ltac:(lia)) as [Ul [Pl [cl [EL [SL [BL KL]]]]]].
    destruct (part_right_F64 p (n + (p - m)) dim V Q h u (0 <? m)%nat fr (proj1 H1) ltac:(lia) ltac:(lia)) as [Ur [Pr [cr [ER [SR [BR KR]]]]]].
    exists cl, cr, Ul, Pl, Ur, Pr. split; [|split; [exact SL|split; [exact BL|split; [exact SR|split; [exact BR|split; [exact KL|exact KR]]]]]].
    unfold split_and_normalize. rewrite (open_F64 u Fu Hu). unfold degree. rewrite (@wf_knots F64 _ _ _ _ _ _ W). cbn [kdegree kp knots_of].
    fold (@knots_of F64 p U). rewrite F'. cbn [bind]. rewrite (@knots_of_vector F64 p U). cbn [bind].
    assert (TW : @take_while_count F64 u (@skipn f64 l U) = m).
    { rewrite (take_F64 u (skipn l U) Fu).
      - rewrite <- Ew. f_equal. symmetry. apply skipn_map.
      - intros x Hx. apply Ff. rewrite <- (firstn_skipn l U). apply in_or_app. right. exact Hx. }
    change (@take_while_count F64 u (@skipn (T F64) l U)) with (@take_while_count F64 u (@skipn f64 l U)). rewrite TW. replace (p <? m)%nat with false by (symmetry; apply Nat.ltb_ge; lia).
    rewrite usub_ok by lia. cbn [bind]. rewrite (fold_insert (p - m) c c1 u 0 E1). cbn [bind].
    rewrite (@wf_knots F64 _ _ _ _ _ _ W1). rewrite (@knots_of_vector F64 p V). cbn [bind].
    destruct (@wf_cpoints F64 _ _ _ _ _ _ W1) as [s Es]. unfold cp_matrix. rewrite Es. cbn [vget nth_error bind fst snd].
    fold h. rewrite EL. cbn [bind]. rewrite ER. reflexivity.
Qed.

(** ** The same outcome as in exact arithmetic *)
Lemma insert_same p n dim dim' U P c P' cR (u : F64) : on_knots p n dim U P c -> clamped_curve p n dim' (map val U) P' cR -> finite u -> simple_below (map val U) (val u) ->
  (@curve_insert F64 c u = Val (c, Err (@IOutOfBounds F64 u n0 n1)) /\ @curve_insert RNum cR (val u) = Val (cR, Err (@IOutOfBounds RNum (val u) n0 n1))) \/
  (exists m, @curve_insert F64 c u = Val (c, Err (@IMultiplicityError F64 u m p)) /\ @curve_insert RNum cR (val u) = Val (cR, Err (@IMultiplicityError RNum (val u) m p))) \/
  (exists c' U' Q cR' Q', @curve_insert F64 c u = Val (c', Ok tt) /\ on_knots p (S n) dim U' Q c' /\ Permutation (u :: U) U' /\
     @curve_insert RNum cR (val u) = Val (cR', Ok tt) /\ clamped_curve p (S n) dim' (map val U') Q' cR').
Proof.
  intros H HR Fu Hs.
  destruct (insert_decisions p n dim U P c u H Fu Hs) as [[A E]|[[A [B E]]|[A [B [c' [U' [Q [E [H' Pe]]]]]]]]];
    destruct (insert_cases p n dim' (map val U) P' cR (val u) HR Hs) as [[A1 E1]|[[A1 [B1 E1]]|[A1 [B1 [cR' [UR [QR [E1 [HR' PR]]]]]]]]]; try lra; try lia.
  - left. split; assumption.
  - right. left. exists (mult (map val U) (val u)). split; assumption.
  - right. right. exists c', U', Q, cR', QR. split; [exact E|]. split; [exact H'|]. split; [exact Pe|]. split; [exact E1|].
    replace (map val U') with UR; [exact HR'|]. apply sorted_perm_eq; [exact (clamped_sorted' _ _ _ (proj1 HR'))|exact (knots_sorted _ _ _ _ _ _ H')|].
    eapply Permutation_trans; [apply Permutation_sym; exact PR|]. exact (Permutation_map val Pe).
Qed.

Lemma split_out_F64 p n dim U P c (u : F64) fl fr : on_knots p n dim U P c -> finite u -> ~ (0 < val u < 1) ->
  @split_and_normalize F64 c u (fl, fr) = Val (Err (@SOutOfBounds F64 u n0 n1)).
Proof. intros H Fu Hu. unfold split_and_normalize. rewrite (closed_F64 u Fu Hu). reflexivity. Qed.

Lemma split_mult_F64 p n dim U P c (u : F64) fl fr : on_knots p n dim U P c -> finite u -> 0 < val u < 1 -> (p < mult (map val U) (val u))%nat -> simple_below (map val U) (val u) ->
  @split_and_normalize F64 c u (fl, fr) = Val (Err (@MultiplicityTooHigh F64 u p (mult (map val U) (val u)))).
Proof.
  intros H Fu Hu Hm Hs. assert (W := on_wf _ _ _ _ _ _ H). destruct (on_length _ _ _ _ _ _ H) as [L D].
  assert (H' := H). destruct H' as [_ [_ [Ff C]]]. set (m := mult (map val U) (val u)) in *.
  assert (LM : length (map val U) = (n + p + 2)%nat) by (rewrite map_length; exact L).
  assert (F := @find_le_spec RNum False p n 0 (map val U) (val u) LM D ltac:(lia)). apply ok_val_ex in F. destruct F as [l [F _]].
  destruct (split_sep p n (map val U) (val u) l C Hu Hs F) as [Ew _]. fold m in Ew.
  assert (F' : @find_idx F64 (knots_of p U) u 0 CLeftOrEqual = Val l) by (rewrite (find_F64 p n U Ff L D u 0 CLeftOrEqual Fu ltac:(lia)); exact F).
  unfold split_and_normalize. rewrite (open_F64 u Fu Hu). unfold degree. rewrite (@wf_knots F64 _ _ _ _ _ _ W). cbn [kdegree kp knots_of].
  fold (@knots_of F64 p U). rewrite F'. cbn [bind]. rewrite (@knots_of_vector F64 p U). cbn [bind].
  assert (TW : @take_while_count F64 u (@skipn f64 l U) = m).
  { rewrite (take_F64 u (skipn l U) Fu).
    - rewrite <- Ew. f_equal. symmetry. apply skipn_map.
    - intros x Hx. apply Ff. rewrite <- (firstn_skipn l U). apply in_or_app. right. exact Hx. }
  change (@take_while_count F64 u (@skipn (T F64) l U)) with (@take_while_count F64 u (@skipn f64 l U)). rewrite TW. replace (p <? m)%nat with true by (symmetry; apply Nat.ltb_lt; lia). reflexivity.
Qed.

Lemma split_mult_flags p n dim U P c u fl fr : clamped_curve p n dim U P c -> 0 < u < 1 -> (p < mult U u)%nat -> simple_below U u ->
  @split_and_normalize RNum c u (fl, fr) = Val (Err (MultiplicityTooHigh u p (mult U u))).
Proof.
  intros H Hu Hm Hs. assert (C : clamped p n U) by apply H. assert (Len := cl_len _ _ _ C). assert (D := cl_deg _ _ _ C).
  assert (W := proj1 (cc_wf _ _ _ _ _ _ H)).
  assert (F := @find_le_spec RNum False p n 0 U u ltac:(rn; lia) D ltac:(lia)). apply ok_val_ex in F. destruct F as [l [F _]].
  destruct (split_sep p n U u l C Hu Hs F) as [Ew [Hh Hsep]].
  unfold split_and_normalize. rewrite (open_R u Hu). unfold degree. rewrite (@wf_knots RNum _ _ _ _ _ _ W). cbn [kdegree kp knots_of].
  fold (@knots_of RNum p U). rewrite F. cbn [bind].
  rewrite (@knots_of_vector RNum p U). cbn [bind].
  change (@take_while_count RNum u (@skipn (T RNum) l U)) with (@take_while_count RNum u (@skipn R l U)). rewrite Ew.
  replace (p <? mult U u)%nat with true by (symmetry; apply Nat.ltb_lt; lia). reflexivity.
Qed.

Lemma split_same p n dim dim' U P c P' cR (u : F64) fl fr : on_knots p n dim U P c -> clamped_curve p n dim' (map val U) P' cR -> finite u -> simple_below (map val U) (val u) ->
  (@split_and_normalize F64 c u (fl, fr) = Val (Err (@SOutOfBounds F64 u n0 n1)) /\ @split_and_normalize RNum cR (val u) (fl, fr) = Val (Err (@SOutOfBounds RNum (val u) n0 n1))) \/
  (exists m, @split_and_normalize F64 c u (fl, fr) = Val (Err (@MultiplicityTooHigh F64 u p m)) /\ @split_and_normalize RNum cR (val u) (fl, fr) = Val (Err (@MultiplicityTooHigh RNum (val u) p m))) \/
  (exists l r lR rR nl nr Ul Ur Pl Pr Vl Vr Ql Qr,
     @split_and_normalize F64 c u (fl, fr) = Val (Ok (l, r)) /\ @sized F64 p nl dim Ul Pl /\ @built F64 p Ul Pl l /\ @sized F64 p nr dim Ur Pr /\ @built F64 p Ur Pr r /\
     @split_and_normalize RNum cR (val u) (fl, fr) = Val (Ok (lR, rR)) /\ @sized RNum p nl dim' Vl Ql /\ @built RNum p Vl Ql lR /\ @sized RNum p nr dim' Vr Qr /\ @built RNum p Vr Qr rR /\
     (fl = false -> Vl = map val Ul) /\ (fr = false -> Vr = map val Ur)).
Proof.
  intros H HR Fu Hs.
  assert (DD : {0 < val u < 1} + {~ (0 < val u < 1)}) by (destruct (Rlt_dec 0 (val u)), (Rlt_dec (val u) 1); [left|right|right|right]; lra).
  destruct DD as [Hu|Hu]; [|left; split; [apply (split_out_F64 p n dim U P); assumption|unfold split_and_normalize; rewrite (closed_R _ Hu); reflexivity]]. right.
  set (m := mult (map val U) (val u)). destruct (le_lt_dec m p) as [Hm|Hm].
  - right. destruct (split_on p n dim U P c u H Fu Hu Hm Hs) as [V [h [Hh [Hhn [LV [CV [Pe [V1 [V2 SP]]]]]]]]].
    destruct (SP fl fr) as [l [r [Ul [Pl [Ur [Pr [E [SL [BL [SR [BR [KL KR]]]]]]]]]]]]. fold m in Hhn, LV, CV, Pe, SR.
    destruct (split_setup p n dim' (map val U) P' cR (val u) HR Hu Hm Hs) as [n' [W [Q [h' [c1 [H1 [_ [En [PW [Hh' [Hhn' [W1 [W2 [W3 SN]]]]]]]]]]]]]]. fold m in En, PW, SN. subst n'.
    assert (EW : W = map val V).
    { apply sorted_perm_eq; [exact (clamped_sorted' _ _ _ (proj1 H1))|exact (clamped_sorted' _ _ _ CV)|].
      eapply Permutation_trans; [apply Permutation_sym; exact PW|].
      assert (X := Permutation_map val Pe). rewrite map_app in X.
      assert (RP : forall k, map val (repeat u k) = repeat (val u) k) by (induction k as [|k IH]; cbn [repeat map]; [reflexivity|rewrite IH; reflexivity]).
      rewrite RP in X. exact X. }
    subst W. assert (LM : length (map val V) = (n + (p - m) + p + 2)%nat) by (rewrite map_length; exact LV).
    assert (Eh : h' = h).
    { apply (sep_unique (map val V) (val u)); try (rewrite LM; lia); try assumption.
      - intros i Hi. destruct (le_lt_dec (h' + p) i); [left; apply W3; lia|right; symmetry; apply W2; lia].
      - intros i Hi. apply V2. rewrite LM in Hi. rewrite LV. exact Hi. }
    subst h'.
    assert (CQ := proj1 H1). assert (HQ := proj1 (proj2 H1)).
    destruct (raw_parts p (n + (p - m)) dim' (map val V) Q (val u) h (0 <? m)%nat CQ HQ Hu Hh Hhn W1 W2 W3) as [rl [rr [RL [SL' [BL' [RR [SR' BR']]]]]]].
    destruct (parts p (n + (p - m)) dim' (map val V) Q (val u) h CQ HQ Hu Hh Hhn W1 W2 W3 (0 <? m)%nat) as [nl [nr [NL [HL [NR HRt]]]]].
    set (QL := mkMat (K := RNum) dim' (firstn h (skipn 0 (mcols Q)))) in *. set (QR := mkMat (K := RNum) dim' (firstn (n + (p - m) + 2 - h) (skipn (h - 1) (mcols Q)))) in *.
    assert (LX : exists lR Vl, @split_left RNum (map val V) Q p (h + p) (val u) (0 <? m)%nat fl = Val (Ok lR) /\ @sized RNum p (h - 1) dim' Vl QL /\ @built RNum p Vl QL lR /\ (fl = false -> Vl = firstn (h + p) (map val V) ++ [val u])).
    { destruct fl; [|exists rl, (firstn (h + p) (map val V) ++ [val u]); auto].
      eexists nl, _. split; [exact NL|]. split; [split; [exact (cl_deg _ _ _ (proj1 HL))|split; [exact (cl_len _ _ _ (proj1 HL))|apply HL]]|]. split; [apply HL|discriminate]. }
    assert (RX : exists rR Vr, @split_right RNum (map val V) Q p h (val u) (0 <? m)%nat fr = Val (Ok rR) /\ @sized RNum p (n + (p - m) - (h - 1)) dim' Vr QR /\ @built RNum p Vr QR rR /\ (fr = false -> Vr = val u :: skipn h (map val V))).
    { destruct fr; [|exists rr, (val u :: skipn h (map val V)); auto].
      eexists nr, _. split; [exact NR|]. split; [split; [exact (cl_deg _ _ _ (proj1 HRt))|split; [exact (cl_len _ _ _ (proj1 HRt))|apply HRt]]|]. split; [apply HRt|discriminate]. }
    destruct LX as [lR [Vl [EL [SL2 [BL2 KL2]]]]]. destruct RX as [rR [Vr [ER [SR2 [BR2 KR2]]]]].
    exists l, r, lR, rR, (h - 1)%nat, (n + (p - m) - (h - 1))%nat, Ul, Ur, Pl, Pr, Vl, Vr, QL, QR.
    split; [exact E|]. split; [exact SL|]. split; [exact BL|]. split; [exact SR|]. split; [exact BR|].
    split; [rewrite SN, EL; cbn [bind]; rewrite ER; reflexivity|]. split; [exact SL2|]. split; [exact BL2|]. split; [exact SR2|]. split; [exact BR2|]. split.
    + intros Ef. rewrite (KL Ef), (KL2 Ef). rewrite map_app, firstn_map. reflexivity.
    + intros Ef. rewrite (KR Ef), (KR2 Ef). cbn [map]. rewrite skipn_map. reflexivity.
  - left. exists m. split; [apply (split_mult_F64 p n dim U P); assumption|].
    exact (split_mult_flags p n dim' (map val U) P' cR (val u) fl fr HR Hu Hm Hs).
Qed.
