(** * Lengths of edited curves, and of control polygons *)

From Coq Require Import ZArith Reals List Bool Arith Lra Lia Psatz Permutation.
From Verif Require Import Num Vec MKnots MPoints MCurve RNum Lists Struct Spec BMath BMath2 BMath3 Api ApiS ApiX Bridge Facts1 Facts3 Facts6 Facts8 Insert2 Shape1 Shape2 Refine1 Shape3 Sampling Fit10 Fit11 Arc Arc2.
Import ListNotations.
Local Open Scope R_scope.

Lemma chain_same c c' dim a b m u s : (forall j, (j <= m)%nat -> evaluate c' (u j) = evaluate c (u j)) -> chain c dim a b m u s -> chain c' dim a b m u s.
Proof. intros E (I1 & I2 & x & X & S). split; [exact I1|]. split; [exact I2|]. exists x. split; [|exact S]. intros j Hj. rewrite E by exact Hj. apply X, Hj. Qed.
Lemma arc_same c c' dim a b L : (forall u, evaluate c' u = evaluate c u) -> arc_length c dim a b L -> arc_length c' dim a b L.
Proof.
  intros E [A B]. split.
  - intros s (m & u & C). apply A. exists m, u. apply (chain_same c'); [intros; symmetry; apply E|exact C].
  - intros B0 HB. apply B. intros s (m & u & C). apply HB. exists m, u. apply (chain_same c); [intros; apply E|exact C].
Qed.

Theorem length_insert p n dim U P c u : clamped_curve p n dim U P c -> 0 < u < 1 -> (mult U u <= p)%nat -> simple_below U u ->
  exists c' U' P', curve_insert c u = Val (c', Ok tt) /\ clamped_curve p (S n) dim U' P' c' /\
    (forall a b L, arc_length c dim a b L <-> arc_length c' dim a b L) /\
    forall L, arc_length c dim 0 1 L -> L <= rsum (fun i => distance P' dim (S i) i) (S n) <= rsum (fun i => distance P dim (S i) i) n.
Proof.
  intros H Hu Hm Hs. destruct (insert_cuts p n dim U P c u H Hu Hm Hs) as (c' & U' & P' & l & a & E & H' & _ & _ & _ & _ & _ & _ & _ & _ & B).
  destruct (curve_insert_exact p n dim U P c u H Hu Hm Hs) as (c2 & U2 & P2 & E2 & _ & _ & SF). rewrite E in E2. injection E2 as <-.
  exists c', U', P'. split; [exact E|]. split; [exact H'|].
  assert (A : forall a b L, arc_length c dim a b L <-> arc_length c' dim a b L).
  { intros a' b' L. split; apply arc_same; intros v; [|symmetry]; apply (SF v 0%nat). }
  split; [exact A|]. intros L V. split; [|exact B]. apply A in V. destruct (length_exists p (S n) dim U' P' c' H' 0 1 ltac:(lra) ltac:(lra) ltac:(lra)) as (L' & _ & Q & T & _). rewrite (Q L V). exact T.
Qed.

Theorem length_reverse p n dim U P c : clamped_curve p n dim U P c -> (forall x, 0 < x < 1 -> (mult U x <= p)%nat) -> exists c', reverse c = Val c' /\
  forall a b L, 0 <= a -> a <= b -> b <= 1 -> arc_length c dim a b L -> arc_length c' dim (1 - b) (1 - a) L.
Proof.
  intros H HM. destruct (reverse_fact p n dim U P c H) as (c' & E & H' & F). exists c'. split; [exact E|]. intros a b L Ha Hab Hb V.
  set (U' := map (fun x => 1 - x) (rev U)) in *. set (P' := mkMat (nrows P) (rev (mcols P))) in *. set (f := pos p n U P). set (g := pos p n U' P').
  assert (FG : forall t d, 0 <= t <= 1 -> (d < dim)%nat -> g t d = f (1 - t) d).
  { intros t d Ht Hd. destruct (F 0%nat t ltac:(lia) Ht ltac:(intros T; rewrite Nat.sub_0_r; apply HM; lra)) as (v & V1 & _ & W & W1 & _ & W3).
    assert (A := pos_at p n dim U P c H (1 - t) v d ltac:(lra) V1 Hd). assert (B := pos_at p n dim U' P' c' H' t W d Ht W1 Hd). fold f in A. fold g in B.
    rewrite <- A, <- B. assert (Q := W3 d Hd). cbn [pow] in Q. rewrite Rmult_1_l in Q. exact Q. }
  apply (arc_var p n dim U P c H) in V; [|lra|lra]. apply (arc_var p n dim U' P' c' H'); [lra|lra|].
  destruct (length_exists p n dim U' P' c' H' (1 - b) (1 - a) ltac:(lra) ltac:(lra) ltac:(lra)) as (L' & V' & _). apply (arc_var p n dim U' P' c' H') in V'; [|lra|lra].
  replace L with L'; [exact V'|]. apply Rle_antisym.
  - apply (var_flip f g dim (fun t => 1 - t) (1 - b) (1 - a) a b L L'); [intros t d Ht; apply FG; lra|intros; lra|intros; lra|exact V|exact V'].
  - apply (var_flip g f dim (fun t => 1 - t) a b (1 - b) (1 - a) L' L); [|intros; lra|intros; lra|exact V'|exact V].
    intros t d Ht Hd. rewrite FG by (exact Hd || lra). f_equal. ring.
Qed.

(** a part of a curve with the parameters stretched to the whole interval *)
Lemma length_affine p n dim U P c p' n' U' P' c' a w L : clamped_curve p n dim U P c -> clamped_curve p' n' dim U' P' c' -> 0 <= a -> 0 < w -> a + w <= 1 ->
  (forall t, 0 <= t <= 1 -> evaluate c' t = evaluate c (a + t * w)) -> arc_length c' dim 0 1 L -> arc_length c dim a (a + w) L.
Proof.
  intros H H' Ha Hw Hb E V'. set (f := pos p n U P). set (g := pos p' n' U' P').
  assert (FG : forall t d, 0 <= t <= 1 -> (d < dim)%nat -> g t d = f (a + t * w) d).
  { intros t d Ht Hd. assert (R0 : 0 <= a + t * w <= 1) by nra. destruct (cc_eval0 p' n' dim U' P' c' t H' Ht) as [y [Y [_ Vy]]]. assert (Q := Vy d Hd). assert (Y' := Y). rewrite E in Y' by exact Ht.
    assert (T := pos_at p n dim U P c H (a + t * w) y d R0 Y' Hd). fold f in T. unfold g, pos. exact (eq_trans (eq_sym Q) T). }
  apply (arc_var p' n' dim U' P' c' H') in V'; [|lra|lra]. apply (arc_var p n dim U P c H); [lra|lra|].
  destruct (length_exists p n dim U P c H a (a + w) ltac:(lra) ltac:(lra) ltac:(lra)) as (L' & V & _). apply (arc_var p n dim U P c H) in V; [|lra|lra].
  replace L with L'; [exact V|]. apply Rle_antisym.
  - assert (I0 := Rinv_0_lt_compat w Hw). assert (W1 : w * / w = 1) by (apply Rinv_r; lra).
    apply (var_map g f dim (fun t => (t - a) * / w) a (a + w) 0 1 L L'); [| | |exact V'|exact V].
    + intros t d Ht Hd. assert (0 <= (t - a) * / w <= 1) by (split; [apply Rmult_le_pos; lra|rewrite <- W1; apply Rmult_le_compat_r; lra]). rewrite FG by assumption. fold f. f_equal. field. lra.
    + intros t Ht. split; [apply Rmult_le_pos; lra|rewrite <- W1; apply Rmult_le_compat_r; lra].
    + intros s t H1 H2 H3. apply Rmult_le_compat_r; lra.
  - apply (var_map f g dim (fun t => a + t * w) 0 1 a (a + w) L' L); [exact FG|intros t Ht; nra|intros; nra|exact V|exact V'].
Qed.

Theorem length_split p n dim U P c u : clamped_curve p n dim U P c -> 0 < u < 1 -> (mult U u <= p)%nat -> simple_below U u ->
  exists cl cr Ll Lr, split c u = Val (Ok (cl, cr)) /\ arc_length cl dim 0 1 Ll /\ arc_length cr dim 0 1 Lr /\
    arc_length c dim 0 u Ll /\ arc_length c dim u 1 Lr /\ arc_length c dim 0 1 (Ll + Lr).
Proof.
  intros H Hu Hm Hs. destruct (split_exact p n dim U P c u H Hu Hm Hs) as (cl & cr & nl & nr & Ul & Pl & Ur & Pr & E & Hl & Hr & _ & F).
  destruct (length_exists p nl dim Ul Pl cl Hl 0 1 ltac:(lra) ltac:(lra) ltac:(lra)) as (Ll & Vl & _). destruct (length_exists p nr dim Ur Pr cr Hr 0 1 ltac:(lra) ltac:(lra) ltac:(lra)) as (Lr & Vr & _).
  exists cl, cr, Ll, Lr. split; [exact E|]. split; [exact Vl|]. split; [exact Vr|].
  assert (A : arc_length c dim 0 u Ll).
  { replace u with (0 + u) by ring. apply (length_affine p n dim U P c p nl Ul Pl cl 0 u Ll H Hl); try lra; [|exact Vl]. intros t Ht. rewrite Rplus_0_l. apply F, Ht. }
  assert (B : arc_length c dim u 1 Lr).
  { replace (arc_length c dim u 1 Lr) with (arc_length c dim u (u + (1 - u)) Lr) by (f_equal; ring). apply (length_affine p n dim U P c p nr Ur Pr cr u (1 - u) Lr H Hr); try lra; [|exact Vr]. intros t Ht. apply F, Ht. }
  split; [exact A|]. split; [exact B|]. apply (length_additive p n dim U P c H 0 u 1); lra || assumption.
Qed.

Lemma average_mono p n U i : clamped p n U -> (1 <= p)%nat -> (i < n)%nat -> average U p i <= average U p (S i).
Proof.
  intros C Hp Hi. rewrite !(Shape6.avg_average p n) by (lia || exact C). unfold Shape6.avg. apply Rmult_le_compat_r; [apply Rlt_le, Rinv_0_lt_compat, lt_0_INR; lia|].
  apply BMath.rsum_le. intros k Hk. apply (fc_mono _ _ _ (kfun_clamped _ _ _ C)). lia.
Qed.
Lemma average_between p n U i : clamped p n U -> (1 <= p)%nat -> (i <= n)%nat -> 0 <= average U p i <= 1.
Proof.
  intros C Hp Hi. split.
  - rewrite <- (average_first p n U C Hp). clear - C Hp Hi. induction i as [|i IH]; [lra|]. eapply Rle_trans; [apply IH; lia|]. apply (average_mono p n); (exact C || lia).
  - assert (G : forall k, (k <= n)%nat -> average U p (n - k) <= 1).
    { induction k as [|k IH]; intros Hk; [rewrite Nat.sub_0_r, (average_last p n U C Hp); lra|]. specialize (IH ltac:(lia)). eapply Rle_trans; [|exact IH]. replace (n - k)%nat with (S (n - S k)) by lia. apply (average_mono p n); (exact C || lia). }
    replace i with (n - (n - i))%nat by lia. apply G. lia.
Qed.

Theorem length_control p n dim U P c M h D L : clamped_curve p n dim U P c -> (2 <= p)%nat -> (forall x, 0 < x < 1 -> (mult U x <= p - 1)%nat) ->
  @matrix_derivative RNum (cpoints c) 2 = Val D -> (forall i, (i + 2 <= n)%nat -> sqrt (rsum (fun d => ent D i d ^ 2) dim) <= M) ->
  (forall i, (i < n)%nat -> nth (i + p + 1) U 0 - nth (i + 1) U 0 <= h) ->
  arc_length c dim 0 1 L -> L <= rsum (fun i => distance P dim (S i) i) n <= L + INR n * (M * h ^ 2).
Proof.
  intros H Hp HM HD BD Hh V. assert (V0 := V). apply (arc_var p n dim U P c H) in V; [|lra|lra]. assert (C : clamped p n U) by apply H.
  destruct (length_exists p n dim U P c H 0 1 ltac:(lra) ltac:(lra) ltac:(lra)) as (L' & _ & Q & T & _). rewrite (Q L V0). split; [exact T|]. rewrite <- (Q L V0). clear T Q L'.
  set (f := pos p n U P) in *.
  assert (N2 : (1 <= n)%nat) by (assert (X : (p <= n)%nat) by apply C; lia).
  assert (Er : forall i, (i <= n)%nat -> norm dim (fun d => f (average U p i) d - ent P i d) <= M * h ^ 2 / 2).
  { intros i Hi. assert (B := average_between p n U i C ltac:(lia) Hi). destruct (cc_eval0 p n dim U P c (average U p i) H B) as [x [X [_ Vx]]]. destruct (Nat.eq_dec i n) as [->|Ne].
    - assert (T := polygon_second_order p n dim U P c M h D H Hp HM HD BD Hh (n - 1)%nat 1 x ltac:(lia) ltac:(lra)). replace (S (n - 1)) with n in T by lia.
      replace ((1 - 1) * average U p (n - 1) + 1 * average U p n) with (average U p n) in T by ring. specialize (T X). eapply Rle_trans; [right|exact T]. unfold norm. f_equal. apply rsum_ext. intros d Hd. rewrite Vx by exact Hd. fold (f (average U p n) d). f_equal. change (f (average U p n) d) with (spline (kfun U) n p (fun i => ent P i d) (average U p n)). ring.
    - assert (T := polygon_second_order p n dim U P c M h D H Hp HM HD BD Hh i 0 x ltac:(lia) ltac:(lra)).
      replace ((1 - 0) * average U p i + 0 * average U p (S i)) with (average U p i) in T by ring. specialize (T X). eapply Rle_trans; [right|exact T]. unfold norm. f_equal. apply rsum_ext. intros d Hd. rewrite Vx by exact Hd. f_equal. change (f (average U p i) d) with (spline (kfun U) n p (fun i => ent P i d) (average U p i)). ring. }
  assert (I : inn 0 1 n (fun i => average U p i)).
  { split; intros j Hj; [apply (average_between p n); (exact C || lia)|apply (average_mono p n); (exact C || lia)]. }
  assert (G := var_ge f dim 0 1 L n _ V I). eapply Rle_trans; [|apply Rplus_le_compat_r, G]. rewrite <- rsum_cst. unfold len. rewrite <- rsum_plus. apply BMath.rsum_le. intros i Hi.
  assert (E1 := Er (S i) ltac:(lia)). assert (E0 := Er i ltac:(lia)).
  assert (DN : distance P dim (S i) i = norm dim (fun d => ent P (S i) d - ent P i d)).
  { unfold distance, norm. f_equal. apply rsum_ext. intros; ring. }
  rewrite DN. assert (T1 := norm_tri dim (fun d => ent P i d) (f (average U p i)) (fun d => ent P (S i) d)). assert (T2 := norm_tri dim (f (average U p i)) (f (average U p (S i))) (fun d => ent P (S i) d)).
  cbv beta in T1, T2. rewrite (norm_flip dim (fun d => ent P (S i) d) (f (average U p (S i)))) in T2. cbv beta in T2. lra.
Qed.

(** equal steps *)
Theorem length_equal p n dim U P c M D N L s : clamped_curve p n dim U P c -> (2 <= p)%nat -> (forall x, 0 < x < 1 -> (mult U x <= p - 1)%nat) ->
  @matrix_derivative RNum (cpoints c) 2 = Val D -> (forall i, (i + 2 <= n)%nat -> sqrt (rsum (fun d => ent D i d ^ 2) dim) <= M) ->
  (1 <= N)%nat -> chain c dim 0 1 N (fun j => INR j / INR N) s -> arc_length c dim 0 1 L -> s <= L <= s + M / INR N.
Proof.
  intros H Hp HM HD BD HN Ch V. assert (N0 : 0 < INR N) by (apply lt_0_INR; lia). assert (I0 := Rinv_0_lt_compat _ N0).
  assert (Z0 : INR 0 / INR N = 0) by (cbn; lra). assert (Z1 : INR N / INR N = 1) by (field; lra).
  assert (T := length_samples p n dim U P c H M D Hp HM HD BD N (fun j => INR j / INR N) (/ INR N) L s). cbv beta in T. rewrite Z0, Z1 in T.
  replace (M / INR N) with (M * / INR N * (1 - 0)) by (unfold Rdiv; ring). apply T; try lra; try assumption.
  intros j Hj. rewrite S_INR. unfold Rdiv. lra.
Qed.
