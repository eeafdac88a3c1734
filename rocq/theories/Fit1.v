(** * Matrices as entry functions; loops that fill matrices *)

From Coq Require Import ZArith Reals List Bool Arith Lia Lra.
From Verif Require Import Num Vec MKnots MPoints MCurve RNum Hoare Lists Struct Spec BMath Api Bridge Facts1.
Import ListNotations.

Section Mats.
  Context {K : Num}.
  Implicit Types m N : Mat K.

  Lemma nth_map_seq {A} (f : nat -> A) r i d : i < r -> nth i (map f (seq 0 r)) d = f i.
  Proof.
    intros H. rewrite (nth_indep _ d (f 0)) by (rewrite map_length, seq_length; exact H). rewrite map_nth, seq_nth by exact H. reflexivity.
  Qed.

  Lemma mtranspose_shape r c m : shape r c m -> shape c r (mtranspose m).
  Proof.
    intros [H1 [H2 H3]]. unfold mtranspose. split; [exact H2|]. cbn [mcols nrows]. rewrite H1. split; [rewrite map_length, seq_length; reflexivity|].
    intros i Hi. rewrite nth_map_seq by exact Hi. rewrite map_length. exact H2.
  Qed.

  Lemma ent_mtranspose r c m i d : shape r c m -> i < r -> d < c -> ent (mtranspose m) i d = ent m d i.
  Proof.
    intros [H1 [H2 H3]] Hi Hd. unfold ent, mtranspose. cbn [mcols]. rewrite H1. rewrite nth_map_seq by exact Hi.
    rewrite (nth_indep _ n0 ((fun c => nth i c n0) [])) by (rewrite map_length; lia). rewrite (map_nth (fun c => nth i c n0)). reflexivity.
  Qed.

  Lemma mset_val r c m i j x : shape r c m -> i < r -> j < c ->
    exists m', mset m i j x = Val m' /\ shape r c m' /\ forall a b, ent m' b a = if (a =? i) && (b =? j) then x else ent m b a.
  Proof.
    intros [H1 [H2 H3]] Hi Hj. unfold mset, mcol. rewrite (vget_nth _ j []) by lia. cbn [bind].
    rewrite vset_val by (rewrite H3; lia). cbn [bind]. unfold mset_col. rewrite upd_length, H3, H1, Nat.eqb_refl by lia.
    rewrite vset_val by lia. cbn [bind]. eexists. split; [reflexivity|]. split.
    - split; [reflexivity|]. cbn [mcols]. rewrite upd_length. split; [exact H2|]. intros k Hk. rewrite nth_upd by lia.
      destruct (Nat.eqb_spec k j); [rewrite upd_length; apply H3; lia|apply H3; exact Hk].
    - intros a b. unfold ent. cbn [mcols]. rewrite nth_upd by lia. destruct (Nat.eqb_spec b j) as [->|]; [|rewrite andb_false_r; reflexivity].
      rewrite nth_upd by (rewrite H3; lia). rewrite andb_true_r. reflexivity.
  Qed.

  (** a loop each step of which paints the cells [cell i] with [h] *)
  Lemma foldM_paint (body : Mat K -> nat -> M (Mat K)) (cell : nat -> nat -> nat -> bool) (h : nat -> nat -> K) a len N r c :
    shape r c N ->
    (forall N i, shape r c N -> a <= i < a + len -> exists N', body N i = Val N' /\ shape r c N' /\
        forall x y, x < r -> y < c -> ent N' y x = if cell i x y then h x y else ent N y x) ->
    exists N', foldM body (seq a len) N = Val N' /\ shape r c N' /\
      forall x y, x < r -> y < c -> ent N' y x = if existsb (fun i => cell i x y) (seq a len) then h x y else ent N y x.
  Proof.
    revert a N. induction len as [|len IH]; intros a N S B.
    - exists N. split; [reflexivity|]. split; [exact S|]. reflexivity.
    - cbn [seq foldM existsb]. destruct (B N a S ltac:(lia)) as [N1 [E [S1 H1]]]. rewrite E. cbn [bind].
      destruct (IH (1 + a) N1 S1) as [N2 [E2 [S2 H2]]]; [intros; apply B; [assumption|lia]|].
      exists N2. split; [exact E2|]. split; [exact S2|]. intros x y Hx Hy. rewrite H2, H1 by assumption.
      change (Datatypes.S a) with (1 + a). destruct (cell a x y), (existsb (fun i => cell i x y) (seq (1 + a) len)); reflexivity.
  Qed.

  Lemma existsb_seq (f : nat -> bool) a len i : a <= i < a + len -> f i = true -> existsb f (seq a len) = true.
  Proof. intros H E. apply existsb_exists. exists i. split; [apply in_seq; exact H|exact E]. Qed.

  Lemma ent_mzeros r c i d : ent (@mzeros K r c) i d = n0.
  Proof.
    unfold ent, mzeros. cbn [mcols]. destruct (Nat.lt_ge_cases i c) as [H|H].
    - rewrite (nth_indep _ [] (vzeros r)) by (rewrite repeat_length; exact H). rewrite nth_repeat. unfold vzeros. apply nth_repeat.
    - rewrite (nth_overflow (repeat _ _)) by (rewrite repeat_length; exact H). destruct d; reflexivity.
  Qed.

  (** the double loop: all cells *)
  Lemma fill_matrix (body : Mat K -> nat -> M (Mat K)) (h : nat -> nat -> K) (row : bool) a r c :
    let len := if row then r else c in
    (forall N i, shape r c N -> a <= i < a + len -> exists N', body N i = Val N' /\ shape r c N' /\
        forall x y, x < r -> y < c -> ent N' y x = if (if row then x =? i - a else y =? i - a) then h x y else ent N y x) ->
    exists N', foldM body (seq a len) (mzeros r c) = Val N' /\ shape r c N' /\ forall x y, x < r -> y < c -> ent N' y x = h x y.
  Proof.
    intros len B. destruct (foldM_paint body (fun i x y => if row then x =? i - a else y =? i - a) h a len (mzeros r c) r c (mzeros_shape r c) B) as [N [E [S H]]].
    exists N. split; [exact E|]. split; [exact S|]. intros x y Hx Hy. rewrite H by assumption. unfold len. destruct row.
    - rewrite (existsb_seq _ a r (a + x)); [reflexivity|lia|]. apply Nat.eqb_eq. lia.
    - rewrite (existsb_seq _ a c (a + y)); [reflexivity|lia|]. apply Nat.eqb_eq. lia.
  Qed.

  (** one row of msets *)
  Lemma fill_row (body : Mat K -> nat -> M (Mat K)) (f : nat -> K) b len N r c x0 : shape r c N -> x0 < r -> len = c ->
    (forall N i, shape r c N -> b <= i < b + len -> body N i = mset N x0 (i - b) (f (i - b))) ->
    exists N', foldM body (seq b len) N = Val N' /\ shape r c N' /\
      forall x y, x < r -> y < c -> ent N' y x = if x =? x0 then f y else ent N y x.
  Proof.
    intros S Hx -> B.
    destruct (foldM_paint body (fun i x y => (x =? x0) && (y =? i - b)) (fun _ y => f y) b c N r c S) as [N' [E [S' H]]].
    - intros M i SM Hi. rewrite B by assumption. destruct (mset_val r c M x0 (i - b) (f (i - b)) SM Hx ltac:(lia)) as [M' [E [S' H]]].
      exists M'. split; [exact E|]. split; [exact S'|]. intros x y _ _. rewrite H.
      destruct (Nat.eqb_spec x x0), (Nat.eqb_spec y (i - b)); cbn [andb]; try reflexivity. congruence.
    - exists N'. split; [exact E|]. split; [exact S'|]. intros x y Hx' Hy. rewrite H by assumption.
      destruct (Nat.eqb_spec x x0).
      + rewrite (existsb_seq _ b c (b + y)); [reflexivity|lia|]. cbn [andb]. apply Nat.eqb_eq. lia.
      + replace (existsb (fun i => false && (y =? i - b)) (seq b c)) with false; [reflexivity|]. symmetry. clear. revert b. induction c as [|c IH]; intros b; [reflexivity|]. cbn [seq existsb andb orb]. apply (IH (S b)).
  Qed.

  Lemma fill_col (body : Mat K -> nat -> M (Mat K)) (f : nat -> K) b len N r c y0 : shape r c N -> y0 < c -> len = r ->
    (forall N i, shape r c N -> b <= i < b + len -> body N i = mset N (i - b) y0 (f (i - b))) ->
    exists N', foldM body (seq b len) N = Val N' /\ shape r c N' /\
      forall x y, x < r -> y < c -> ent N' y x = if y =? y0 then f x else ent N y x.
  Proof.
    intros S Hy -> B.
    destruct (foldM_paint body (fun i x y => (y =? y0) && (x =? i - b)) (fun x _ => f x) b r N r c S) as [N' [E [S' H]]].
    - intros M i SM Hi. rewrite B by assumption. destruct (mset_val r c M (i - b) y0 (f (i - b)) SM ltac:(lia) Hy) as [M' [E [S' H]]].
      exists M'. split; [exact E|]. split; [exact S'|]. intros x y _ _. rewrite H.
      destruct (Nat.eqb_spec y y0), (Nat.eqb_spec x (i - b)); cbn [andb]; try reflexivity. congruence.
    - exists N'. split; [exact E|]. split; [exact S'|]. intros x y Hx Hy'. rewrite H by assumption.
      destruct (Nat.eqb_spec y y0).
      + rewrite (existsb_seq _ b r (b + x)); [reflexivity|lia|]. cbn [andb]. apply Nat.eqb_eq. lia.
      + replace (existsb (fun i => false && (x =? i - b)) (seq b r)) with false; [reflexivity|]. symmetry. clear. revert b. induction r as [|r IH]; intros b; [reflexivity|]. cbn [seq existsb andb orb]. apply (IH (S b)).
  Qed.
End Mats.

Local Open Scope R_scope.

Lemma ent_mtranspose_R r c (m : Mat RNum) i d : shape r c m -> (i < r)%nat -> (d < c)%nat -> ent (mtranspose m) i d = ent m d i.
Proof. apply (@ent_mtranspose RNum). Qed.

Lemma dot_R (a : list R) : forall b s, length a = length b ->
  fold_left (fun s xy => s + fst xy * snd xy) (combine a b) s = s + rsum (fun i => nth i a 0 * nth i b 0) (length a).
Proof.
  induction a as [|x a IH]; intros b s L; [cbn; lra|]. destruct b as [|y b]; [discriminate L|]. cbn [combine fold_left fst snd].
  rewrite IH by (cbn in L; lia). cbn [length]. rewrite rsum_first. cbn [nth]. lra.
Qed.

Lemma mmul_R r k c (a b : Mat RNum) : shape r k a -> shape k c b ->
  exists m, mmul a b = Val m /\ shape r c m /\ forall i j, (i < r)%nat -> (j < c)%nat -> ent m j i = rsum (fun t => ent a t i * ent b j t) k.
Proof.
  intros Sa Sb. destruct Sa as [A1 [A2 A3]], Sb as [B1 [B2 B3]]. unfold mmul, ncols. rewrite A2, B1, Nat.eqb_refl. eexists. split; [reflexivity|].
  assert (ST := @mtranspose_shape RNum r k a (conj A1 (conj A2 A3))). destruct ST as [T1 [T2 T3]]. split.
  - split; [exact A1|]. cbn [mcols]. rewrite map_length. split; [exact B2|]. intros i Hi.
    set (g := fun c0 : list RNum => map (fun r0 => dot r0 c0) (mcols (mtranspose a))).
    rewrite (nth_indep _ [] (g [])) by (rewrite map_length; lia). rewrite (map_nth g). unfold g. rewrite map_length. exact T2.
  - intros i j Hi Hj. unfold ent at 1. cbn [mcols].
    set (g := fun c0 : list RNum => map (fun r0 => dot r0 c0) (mcols (mtranspose a))).
    rewrite (nth_indep _ [] (g [])) by (rewrite map_length; lia). rewrite (map_nth g). unfold g.
    set (h := fun r0 : list RNum => dot r0 (nth j (mcols b) [])).
    rewrite (nth_indep _ n0 (h [])) by (rewrite map_length; lia). rewrite (map_nth h). unfold h, dot. rn.
    rewrite dot_R by (rewrite T3, B3 by lia; reflexivity). rewrite Rplus_0_l, T3 by lia. apply rsum_ext. intros t Ht.
    f_equal. exact (ent_mtranspose_R r k a i t (conj A1 (conj A2 A3)) Hi Ht).
Qed.

Lemma mapM_seq {A} (f : nat -> M A) (g : nat -> A) a n : (forall i, (a <= i < a + n)%nat -> f i = Val (g i)) -> mapM f (seq a n) = Val (map g (seq a n)).
Proof.
  revert a. induction n as [|n IH]; intros a H; [reflexivity|]. cbn [seq mapM map]. rewrite H by lia. cbn [bind]. rewrite IH by (intros; apply H; lia). reflexivity.
Qed.

Lemma madd_R r c (a b : Mat RNum) : shape r c a -> shape r c b ->
  exists m, madd a b = Val m /\ shape r c m /\ forall i j, (i < r)%nat -> (j < c)%nat -> ent m j i = ent a j i + ent b j i.
Proof.
  intros Sa Sb. assert (Sa' := Sa). assert (Sb' := Sb). destruct Sa as [A1 [A2 A3]], Sb as [B1 [B2 B3]]. unfold madd, ncols. rewrite A1, A2, B1, B2, !Nat.eqb_refl. cbn [andb].
  set (g := fun i => map (fun xy : R * R => fst xy + snd xy) (combine (nth i (mcols a) []) (nth i (mcols b) []))).
  assert (Z : forall x y : list R, length x = length y -> @vadd RNum x y = Val (map (fun xy : R * R => fst xy + snd xy) (combine x y))).
  { induction x as [|u x IH]; intros [|v y] L; try discriminate L; [reflexivity|]. unfold vadd in *. cbn [zipM combine map fst snd]. rewrite IH by (cbn in L; lia). reflexivity. }
  rewrite (mapM_seq _ g).
  2:{ intros i Hi. rewrite (mcol_val _ _ _ i Sa') by lia. cbn [bind]. rewrite (mcol_val _ _ _ i Sb') by lia. cbn [bind]. apply Z. rn. rewrite A3, B3 by lia. reflexivity. }
  cbn [bind]. eexists. split; [reflexivity|]. split.
  - split; [reflexivity|]. cbn [mcols]. rewrite map_length, seq_length. split; [reflexivity|]. intros i Hi. rewrite nth_map_seq by exact Hi.
    unfold g. rewrite map_length, combine_length. rewrite A3, B3 by exact Hi. lia.
  - intros i j Hi Hj. unfold ent. cbn [mcols]. rewrite (nth_map_seq g) by exact Hj. unfold g.
    set (h := fun xy : R * R => fst xy + snd xy). rn.
    rewrite (nth_indep _ 0 (h (0, 0))) by (rewrite map_length, combine_length, A3, B3 by exact Hj; lia). rewrite (map_nth h).
    rewrite combine_nth by (rewrite A3, B3 by exact Hj; reflexivity). reflexivity.
Qed.

Lemma mscale_shape {K : Num} r c (m : Mat K) s : shape r c m -> shape r c (mscale s m).
Proof.
  intros [H1 [H2 H3]]. unfold mscale. split; [exact H1|]. cbn [mcols]. rewrite map_length. split; [exact H2|]. intros i Hi.
  set (g := fun c0 : list K => vmul_scalar c0 s). rewrite (nth_indep _ [] (g [])) by (rewrite map_length; lia). rewrite (map_nth g). unfold g, vmul_scalar. rewrite map_length. apply H3. exact Hi.
Qed.

Lemma ent_mscale_R r c (m : Mat RNum) s i j : shape r c m -> (i < r)%nat -> (j < c)%nat -> ent (mscale s m) j i = s * ent m j i.
Proof.
  intros [H1 [H2 H3]] Hi Hj. unfold ent, mscale. cbn [mcols].
  set (g := fun c0 : list RNum => vmul_scalar c0 s). rewrite (nth_indep _ [] (g [])) by (rewrite map_length; lia). rewrite (map_nth g). unfold g, vmul_scalar.
  set (h := fun x : RNum => @nmul RNum x s). rewrite (nth_indep _ n0 (h n0)) by (rewrite map_length, H3 by exact Hj; exact Hi). rewrite (map_nth h).
  unfold h. rn. lra.
Qed.
