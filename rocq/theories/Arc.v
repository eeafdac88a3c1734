(** * Lengths of curves *)

From Coq Require Import ZArith Reals List Bool Arith Lra Lia Psatz.
From Verif Require Import Num Vec MKnots MPoints MCurve RNum Lists Struct Spec BMath BMath2 BMath3 Api ApiX Bridge Facts1 Shape1.
Import ListNotations.
Local Open Scope R_scope.

Section Any.
  Variables (f : R -> nat -> R) (dim : nat).
  Definition len (m : nat) (u : nat -> R) : R := rsum (fun j => norm dim (fun d => f (u (S j)) d - f (u j) d)) m.
  Definition inn (a b : R) (m : nat) (u : nat -> R) : Prop := (forall j, (j <= m)%nat -> a <= u j <= b) /\ (forall j, (j < m)%nat -> u j <= u (S j)).
  Definition var (a b L : R) : Prop := is_lub (fun s => exists m u, inn a b m u /\ s = len m u) L.

  Lemma var_unique a b L L' : var a b L -> var a b L' -> L = L'.
  Proof. intros H H'. exact (is_lub_u _ _ _ H H'). Qed.
  Lemma var_ge a b L m u : var a b L -> inn a b m u -> len m u <= L.
  Proof. intros [H _] I. apply H. exists m, u. split; [exact I|reflexivity]. Qed.
  Lemma var_le a b L B : var a b L -> (forall m u, inn a b m u -> len m u <= B) -> L <= B.
  Proof. intros [_ H] G. apply H. intros s (m & u & I & ->). apply G, I. Qed.
  Lemma var_exists a b B : a <= b -> (forall m u, inn a b m u -> len m u <= B) -> exists L, var a b L.
  Proof.
    intros Hab G. destruct (completeness (fun s => exists m u, inn a b m u /\ s = len m u)) as [L HL].
    - exists B. intros s (m & u & I & ->). apply G, I.
    - exists (len 0 (fun _ => a)), 0%nat, (fun _ => a). split; [|reflexivity]. split; intros; [lra|lia].
    - exists L. exact HL.
  Qed.
  Lemma norm_flip x y : norm dim (fun d => x d - y d) = norm dim (fun d => y d - x d).
  Proof. unfold norm. f_equal. apply rsum_ext. intros. ring. Qed.
  Lemma norm_same x : norm dim (fun d => x d - x d) = 0.
  Proof. rewrite (norm_ext dim _ (fun _ => 0)) by (intros; ring). apply norm_0. Qed.
  Lemma norm_tri x y z : norm dim (fun d => z d - x d) <= norm dim (fun d => y d - x d) + norm dim (fun d => z d - y d).
  Proof. rewrite (norm_ext dim (fun d => z d - x d) (fun d => (y d - x d) + (z d - y d))) by (intros; ring). apply norm_add. Qed.

  Lemma var_chord a b L : var a b L -> a <= b -> norm dim (fun d => f b d - f a d) <= L.
  Proof.
    intros H Hab. assert (T := var_ge a b L 1 (fun j => if (j =? 0)%nat then a else b) H). unfold len in T. cbn [rsum Nat.eqb] in T. rewrite Rplus_0_l in T. apply T.
    split; intros j Hj; destruct j as [|j]; cbn [Nat.eqb]; lra.
  Qed.

  Lemma len_app m1 m2 u1 u2 : len m1 u1 + len m2 u2 <= len (m1 + S m2) (fun j => if (j <=? m1)%nat then u1 j else u2 (j - m1 - 1)%nat).
  Proof.
    set (u := fun j => if (j <=? m1)%nat then u1 j else u2 (j - m1 - 1)%nat). unfold len.
    induction m2 as [|m2 IH].
    - replace (m1 + 1)%nat with (S m1) by lia. cbn [rsum]. rewrite Rplus_0_r.
      assert (E : rsum (fun j => norm dim (fun d => f (u (S j)) d - f (u j) d)) m1 = rsum (fun j => norm dim (fun d => f (u1 (S j)) d - f (u1 j) d)) m1).
      { apply rsum_ext. intros j Hj. unfold u. rewrite !(proj2 (Nat.leb_le _ _)) by lia. reflexivity. }
      rewrite E. assert (T := norm_nonneg dim (fun d => f (u (S m1)) d - f (u m1) d)). lra.
    - replace (m1 + S (S m2))%nat with (S (m1 + S m2)) by lia. cbn [rsum].
      assert (E : norm dim (fun d => f (u (S (m1 + S m2))) d - f (u (m1 + S m2)%nat) d) = norm dim (fun d => f (u2 (S m2)) d - f (u2 m2) d)).
      { unfold u. rewrite !(proj2 (Nat.leb_gt _ _)) by lia. replace (S (m1 + S m2) - m1 - 1)%nat with (S m2) by lia. replace (m1 + S m2 - m1 - 1)%nat with m2 by lia. reflexivity. }
      rewrite E. lra.
  Qed.
  Lemma inn_app a b c m1 m2 u1 u2 : a <= b -> b <= c -> inn a b m1 u1 -> inn b c m2 u2 -> inn a c (m1 + S m2) (fun j => if (j <=? m1)%nat then u1 j else u2 (j - m1 - 1)%nat).
  Proof.
    intros Hab Hbc [A B] [A' B']. split; intros j Hj.
    - destruct (Nat.leb_spec j m1) as [L|L]; [specialize (A j L); lra|specialize (A' (j - m1 - 1)%nat ltac:(lia)); lra].
    - destruct (Nat.leb_spec j m1) as [L|L]; destruct (Nat.leb_spec (S j) m1) as [L'|L']; try lia.
      + apply B. lia.
      + specialize (A j L). specialize (A' (S j - m1 - 1)%nat ltac:(lia)). lra.
      + replace (S j - m1 - 1)%nat with (S (j - m1 - 1)) by lia. apply B'. lia.
  Qed.

  Lemma len_cut b m u : (forall j, (j < m)%nat -> u j <= u (S j)) -> len m u <= len m (fun j => Rmin (u j) b) + len m (fun j => Rmax (u j) b).
  Proof.
    intros Hu. unfold len. rewrite <- rsum_plus. apply BMath.rsum_le. intros j Hj. specialize (Hu j Hj).
    destruct (Rle_lt_dec (u (S j)) b) as [L|L].
    - rewrite (Rmin_left (u (S j))), (Rmin_left (u j)), (Rmax_right (u (S j))), (Rmax_right (u j)) by lra. rewrite norm_same. lra.
    - destruct (Rle_lt_dec b (u j)) as [G|G].
      + rewrite (Rmin_right (u (S j))), (Rmin_right (u j)), (Rmax_left (u (S j))), (Rmax_left (u j)) by lra. rewrite norm_same. lra.
      + rewrite (Rmin_right (u (S j))), (Rmin_left (u j)), (Rmax_left (u (S j))), (Rmax_right (u j)) by lra. apply norm_tri.
  Qed.

  Lemma var_add a b c L1 L2 : a <= b -> b <= c -> var a b L1 -> var b c L2 -> var a c (L1 + L2).
  Proof.
    intros Hab Hbc V1 V2. split.
    - intros s (m & u & [I1 I2] & ->). eapply Rle_trans; [apply (len_cut b m u I2)|]. apply Rplus_le_compat.
      + apply (var_ge a b L1 _ _ V1). split; intros j Hj.
        * specialize (I1 j Hj). split; [apply Rmin_glb; lra|apply Rmin_r].
        * specialize (I2 j Hj). apply Rle_min_compat_r, I2.
      + apply (var_ge b c L2 _ _ V2). split; intros j Hj.
        * specialize (I1 j Hj). split; [apply Rmax_r|apply Rmax_lub; lra].
        * specialize (I2 j Hj). apply Rle_max_compat_r, I2.
    - intros B HB. cut (L1 <= B - L2); [lra|]. apply (var_le a b L1 _ V1). intros m1 u1 I1. cut (L2 <= B - len m1 u1); [lra|]. apply (var_le b c L2 _ V2). intros m2 u2 I2.
      assert (T := len_app m1 m2 u1 u2). assert (T2 := HB (len (m1 + S m2) (fun j => if (j <=? m1)%nat then u1 j else u2 (j - m1 - 1)%nat))). cut (len (m1 + S m2) (fun j => if (j <=? m1)%nat then u1 j else u2 (j - m1 - 1)%nat) <= B); [lra|].
      apply T2. eexists. eexists. split; [|reflexivity]. apply inn_app with b; assumption.
  Qed.

  Lemma var_lip a b L K : var a b L -> 0 <= K -> (forall s t, a <= s -> s <= t -> t <= b -> norm dim (fun d => f t d - f s d) <= K * (t - s)) -> L <= K * (b - a).
  Proof.
    intros V HK H. apply (var_le a b L _ V). intros m u [I1 I2]. apply Rle_trans with (K * (u m - u 0%nat)).
    - assert (G : forall k, (k <= m)%nat -> len k u <= K * (u k - u 0%nat)); [|apply G; lia].
      induction k as [|k IH]; intros Hk; [unfold len; cbn [rsum]; lra|]. unfold len in *. cbn [rsum].
      assert (T := H (u k) (u (S k)) ltac:(apply I1; lia) ltac:(apply I2; lia) ltac:(apply I1; lia)). specialize (IH ltac:(lia)). lra.
    - apply Rmult_le_compat_l; [exact HK|]. assert (A := I1 m ltac:(lia)). assert (B := I1 0%nat ltac:(lia)). lra.
  Qed.
End Any.

Lemma len_ext f g dim m u : (forall j d, (j <= m)%nat -> (d < dim)%nat -> f (u j) d = g (u j) d) -> len f dim m u = len g dim m u.
Proof. intros H. apply rsum_ext. intros j Hj. apply norm_ext. intros d Hd. rewrite !H by (try exact Hd; lia). reflexivity. Qed.

(** a monotone change of the parameter *)
Lemma var_map f g dim phi a b a' b' L L' : (forall t d, a <= t <= b -> (d < dim)%nat -> g t d = f (phi t) d) ->
  (forall t, a <= t <= b -> a' <= phi t <= b') -> (forall s t, a <= s -> s <= t -> t <= b -> phi s <= phi t) ->
  var f dim a' b' L -> var g dim a b L' -> L' <= L.
Proof.
  intros E R Mo V V'. apply (var_le g dim a b L' _ V'). intros m u [I1 I2]. apply Rle_trans with (len f dim m (fun j => phi (u j))).
  - right. apply rsum_ext. intros j Hj. apply norm_ext. intros d Hd. rewrite !E by (try exact Hd; apply I1; lia). reflexivity.
  - apply (var_ge f dim a' b' L _ _ V). split; intros j Hj; [apply R, I1, Hj|]. apply Mo; [apply I1; lia|apply I2, Hj|apply I1; lia].
Qed.
Lemma var_flip f g dim phi a b a' b' L L' : (forall t d, a <= t <= b -> (d < dim)%nat -> g t d = f (phi t) d) ->
  (forall t, a <= t <= b -> a' <= phi t <= b') -> (forall s t, a <= s -> s <= t -> t <= b -> phi t <= phi s) ->
  var f dim a' b' L -> var g dim a b L' -> L' <= L.
Proof.
  intros E R Mo V V'. apply (var_le g dim a b L' _ V'). intros m u [I1 I2]. apply Rle_trans with (len f dim m (fun j => phi (u (m - j)%nat))).
  - right. unfold len. rewrite <- (BMath.rsum_rev (fun j => norm dim (fun d => f (phi (u (m - S j)%nat)) d - f (phi (u (m - j)%nat)) d))). apply rsum_ext. intros j Hj.
    replace (m - S (m - 1 - j))%nat with j by lia. replace (m - (m - 1 - j))%nat with (S j) by lia.
    rewrite (norm_flip dim (f (phi (u j)))). apply norm_ext. intros d Hd. rewrite !E by (try exact Hd; apply I1; lia). reflexivity.
  - apply (var_ge f dim a' b' L _ _ V). split; intros j Hj; [apply R, I1; lia|]. apply Mo; [apply I1; lia| |apply I1; lia].
    replace (m - j)%nat with (S (m - S j)) by lia. apply I2. lia.
Qed.
