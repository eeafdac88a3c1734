(** * Facts about the list and matrix primitives of the model *)

From Coq Require Import ZArith List Bool Arith Lia.
From Verif Require Import Num Vec MKnots MPoints Hoare.
Import ListNotations.

Section Lists.
  Context {A : Type}.
  Implicit Types (v w : list A).

  Lemma upd_length v : forall i x, length (upd v i x) = length v.
  Proof. induction v as [|y v IH]; intros [|i] x; simpl; auto. Qed.

  Lemma nth_upd v : forall i k x d, i < length v ->
    nth k (upd v i x) d = if k =? i then x else nth k v d.
  Proof.
    induction v as [|y v IH]; intros [|i] [|k] x d H; simpl in *; try lia; try reflexivity.
    apply IH. lia.
  Qed.

  Lemma vset_val v i x : i < length v -> vset v i x = Val (upd v i x).
  Proof. intros H. unfold vset. apply Nat.ltb_lt in H. rewrite H. reflexivity. Qed.

  Lemma segment_val v s n : s + n <= length v -> segment v s n = Val (firstn n (skipn s v)).
  Proof. intros H. unfold segment. apply Nat.leb_le in H. rewrite H. reflexivity. Qed.

  Lemma nth_firstn v n k d : k < n -> nth k (firstn n v) d = nth k v d.
  Proof.
    revert n k. induction v as [|y v IH]; intros [|n] [|k] H; simpl; try lia; try reflexivity.
    apply IH. lia.
  Qed.

  Lemma nth_skipn v n k d : nth k (skipn n v) d = nth (n + k) v d.
  Proof.
    revert n. induction v as [|y v IH]; intros [|n]; simpl; try reflexivity.
    - destruct k; reflexivity.
    - apply IH.
  Qed.

  Lemma nth_segment v s n k d : k < n -> nth k (firstn n (skipn s v)) d = nth (s + k) v d.
  Proof. intros H. rewrite nth_firstn by exact H. apply nth_skipn. Qed.

  Lemma segment_length v s n : s + n <= length v -> length (firstn n (skipn s v)) = n.
  Proof. intros H. rewrite firstn_length, skipn_length. lia. Qed.

  Lemma segment_set_val v s n src : s + n <= length v -> length src = n ->
    segment_set v s n src = Val (firstn s v ++ src ++ skipn (s + n) v).
  Proof.
    intros H H2. unfold segment_set. apply Nat.leb_le in H. rewrite H.
    apply Nat.eqb_eq in H2. rewrite H2. reflexivity.
  Qed.

  Lemma segment_set_length v s n src : s + n <= length v -> length src = n ->
    length (firstn s v ++ src ++ skipn (s + n) v) = length v.
  Proof. intros H H2. rewrite !app_length, firstn_length, skipn_length. lia. Qed.

  Lemma nth_segment_set v s n src k d : s + n <= length v -> length src = n ->
    nth k (firstn s v ++ src ++ skipn (s + n) v) d =
    if (s <=? k) && (k <? s + n) then nth (k - s) src d else nth k v d.
  Proof.
    intros H H2. destruct (s <=? k) eqn:E1; simpl.
    - apply Nat.leb_le in E1. rewrite app_nth2 by (rewrite firstn_length; lia).
      rewrite firstn_length, Nat.min_l by lia.
      destruct (k <? s + n) eqn:E2.
      + apply Nat.ltb_lt in E2. rewrite app_nth1 by lia. reflexivity.
      + apply Nat.ltb_ge in E2. rewrite app_nth2 by lia. rewrite nth_skipn. f_equal. lia.
    - apply Nat.leb_gt in E1. rewrite app_nth1 by (rewrite firstn_length; lia).
      apply nth_firstn. exact E1.
  Qed.

  Lemma head_val v n : n <= length v -> head v n = Val (firstn n v).
  Proof. intros H. unfold head. rewrite segment_val by exact H. reflexivity. Qed.

  Lemma tail_val v n : n <= length v -> tail v n = Val (skipn (length v - n) v).
  Proof.
    intros H. unfold tail, usub. assert (H' := H). apply Nat.leb_le in H'. rewrite H'. cbn [bind].
    rewrite segment_val by lia. f_equal. apply firstn_all2. rewrite skipn_length. lia.
  Qed.

  Lemma insert_row_val v i x : i <= length v -> insert_row v i x = Val (firstn i v ++ x :: skipn i v).
  Proof. intros H. unfold insert_row. apply Nat.leb_le in H. rewrite H. reflexivity. Qed.

  Lemma nth_insert_row v i x k d : i <= length v ->
    nth k (firstn i v ++ x :: skipn i v) d =
    if k <? i then nth k v d else if k =? i then x else nth (k - 1) v d.
  Proof.
    intros H. destruct (k <? i) eqn:E1.
    - apply Nat.ltb_lt in E1. rewrite app_nth1 by (rewrite firstn_length; lia). apply nth_firstn. exact E1.
    - apply Nat.ltb_ge in E1. rewrite app_nth2 by (rewrite firstn_length; lia).
      rewrite firstn_length, Nat.min_l by exact H. destruct (k =? i) eqn:E2.
      + apply Nat.eqb_eq in E2. subst. rewrite Nat.sub_diag. reflexivity.
      + apply Nat.eqb_neq in E2. replace (k - i) with (S (k - 1 - i)) by lia. simpl.
        rewrite nth_skipn. f_equal. lia.
  Qed.

  Lemma insert_row_length v i x : i <= length v -> length (firstn i v ++ x :: skipn i v) = S (length v).
  Proof. intros H. rewrite app_length, firstn_length. simpl. rewrite skipn_length. lia. Qed.

  (** the swap loop of [reverse] reverses the list *)
  Lemma swap_val v i j d : i < length v -> j < length v ->
    swap v i j = Val (upd (upd v i (nth j v d)) j (nth i v d)).
  Proof.
    intros Hi Hj. unfold swap. rewrite (vget_nth v i d), (vget_nth v j d) by assumption. cbn [bind].
    rewrite vset_val by exact Hi. cbn [bind]. rewrite vset_val; [reflexivity|].
    rewrite upd_length. exact Hj.
  Qed.

  Lemma nth_rev v k d : k < length v -> nth k (rev v) d = nth (length v - 1 - k) v d.
  Proof. intros H. rewrite rev_nth by exact H. f_equal. lia. Qed.

  Lemma list_ext (d : A) v w : length v = length w -> (forall k, k < length v -> nth k v d = nth k w d) -> v = w.
  Proof. intros H1 H2. apply (nth_ext v w d d); assumption. Qed.

  Lemma swap_loop v :
    foldM (fun w i => a <- usub (length v) 1;; j <- usub a i;; swap w i j) (range 0 (length v / 2)) v
    = Val (rev v).
  Proof.
    destruct v as [|d v0] eqn:Ev; [reflexivity|]. rewrite <- Ev. set (n := length v).
    assert (Hn : 0 < n) by (unfold n; rewrite Ev; simpl; lia).
    assert (Hhalf : 2 * (n / 2) <= n < 2 * (n / 2) + 2).
    { assert (T := Nat.div_mod n 2). assert (T2 := Nat.mod_upper_bound n 2). lia. }
    assert (Hok : ok False
      (foldM (fun w i => a <- usub n 1;; j <- usub a i;; swap w i j) (range 0 (n / 2)) v)
      (fun w => length w = n /\ forall k, k < n -> nth k w d =
         if (k <? n / 2) || (n - 1 - k <? n / 2) then nth (n - 1 - k) v d else nth k v d)).
    { apply (ok_foldM_range False _ (fun i w => length w = n /\ forall k, k < n -> nth k w d =
         if (k <? i) || (n - 1 - k <? i) then nth (n - 1 - k) v d else nth k v d)).
      - lia.
      - split; [reflexivity|]. intros k Hk.
        replace (k <? 0) with false by (symmetry; apply Nat.ltb_ge; lia).
        replace (n - 1 - k <? 0) with false by (symmetry; apply Nat.ltb_ge; lia). reflexivity.
      - intros i w Hi [Hl Hw]. eapply ok_bind; [apply (ok_usub _ _ _ (fun a => a = n - 1)); lia|].
        intros a ->. eapply ok_bind; [apply (ok_usub _ _ _ (fun j => j = n - 1 - i)); lia|].
        intros j ->. rewrite (swap_val w i (n - 1 - i) d) by lia. cbn [ok].
        split; [rewrite !upd_length; exact Hl|].
        intros k Hk. rewrite !nth_upd by (rewrite ?upd_length; lia).
        rewrite (Hw i) by lia. rewrite (Hw (n - 1 - i)) by lia. rewrite (Hw k) by lia.
        replace (i <? i) with false by (symmetry; apply Nat.ltb_irrefl).
        replace (n - 1 - i <? i) with false by (symmetry; apply Nat.ltb_ge; lia).
        replace (n - 1 - (n - 1 - i)) with i by lia.
        replace (i <? i) with false by (symmetry; apply Nat.ltb_irrefl). cbn [orb].
        destruct (Nat.eqb_spec k (n - 1 - i)) as [->|Hk1].
        { replace (n - 1 - i <? 1 + i) with false by (symmetry; apply Nat.ltb_ge; lia).
          replace (n - 1 - (n - 1 - i)) with i by lia.
          replace (i <? 1 + i) with true by (symmetry; apply Nat.ltb_lt; lia). reflexivity. }
        destruct (Nat.eqb_spec k i) as [->|Hk2].
        { replace (i <? 1 + i) with true by (symmetry; apply Nat.ltb_lt; lia). reflexivity. }
        replace (k <? 1 + i) with (k <? i).
        2:{ destruct (Nat.ltb_spec k i); destruct (Nat.ltb_spec k (1 + i)); lia. }
        replace (n - 1 - k <? 1 + i) with (n - 1 - k <? i).
        2:{ destruct (Nat.ltb_spec (n - 1 - k) i); destruct (Nat.ltb_spec (n - 1 - k) (1 + i)); lia. }
        reflexivity. }
    apply ok_val_ex in Hok. destruct Hok as [w [-> [Hl Hw]]]. f_equal.
    apply (list_ext d); [rewrite rev_length; exact Hl|].
    intros k Hk. rewrite Hl in Hk. rewrite Hw by exact Hk. rewrite nth_rev by exact Hk. fold n.
    destruct (Nat.ltb_spec k (n / 2)); [reflexivity|].
    destruct (Nat.ltb_spec (n - 1 - k) (n / 2)); [reflexivity|]. cbn [orb]. f_equal. lia.
  Qed.
End Lists.

Section Vectors.
  Context {K : Num}.
  Implicit Types (a b : list K) (m : Mat K).

  Lemma vzeros_length n : length (@vzeros K n) = n.
  Proof. apply repeat_length. Qed.

  Lemma zipM_val (f : K -> K -> K) a : forall b, length a = length b ->
    exists c, zipM f a b = Val c /\ length c = length a /\
      forall i d, i < length a -> nth i c d = f (nth i a d) (nth i b d).
  Proof.
    induction a as [|x a IH]; intros [|y b] H; simpl in H; try lia.
    - exists []. split; [reflexivity|]. split; [reflexivity|]. intros i d Hi; simpl in Hi; lia.
    - destruct (IH b ltac:(lia)) as [c [E [Hl Hc]]]. exists (f x y :: c). simpl. rewrite E.
      split; [reflexivity|]. split; [simpl; lia|]. intros [|i] d Hi; simpl in *; [reflexivity|]. apply Hc. lia.
  Qed.

  Lemma zipM_len (f : K -> K -> K) a : forall b c, zipM f a b = Val c -> length a = length b /\ length c = length a.
  Proof.
    induction a as [|x a IH]; intros [|y b] c H; simpl in H; try discriminate.
    - injection H as <-. auto.
    - inv_bind H. injection H as <-. apply IH in E. simpl. lia.
  Qed.

  Lemma vscale_length s a : length (vscale s a) = length a.
  Proof. apply map_length. Qed.

  Lemma nth_vscale s a i d : i < length a -> nth i (vscale s a) d = nmul s (nth i a d).
  Proof.
    intros H. unfold vscale. rewrite (nth_indep _ d (nmul s d)) by (rewrite map_length; exact H).
    apply (map_nth (fun x => nmul s x)).
  Qed.

  (** a matrix with [r] rows and [c] columns *)
  Definition shape (r c : nat) m : Prop :=
    nrows m = r /\ length (mcols m) = c /\ forall i, i < c -> length (nth i (mcols m) []) = r.

  (** component [d] of column [i] *)
  Definition ent m (i d : nat) : K := nth d (nth i (mcols m) []) n0.

  Lemma mcol_val m r c i : shape r c m -> i < c -> mcol m i = Val (nth i (mcols m) []).
  Proof. intros [_ [H _]] Hi. unfold mcol. apply vget_nth. lia. Qed.

  Lemma mzeros_shape r c : shape r c (@mzeros K r c).
  Proof.
    split; [reflexivity|]. split; [apply repeat_length|]. intros i Hi. simpl.
    rewrite (nth_indep _ [] (vzeros r)) by (rewrite repeat_length; exact Hi).
    rewrite nth_repeat. apply vzeros_length.
  Qed.

  Lemma mset_col_val m r c i v : shape r c m -> i < c -> length v = r ->
    mset_col m i v = Val (mkMat r (upd (mcols m) i v)).
  Proof.
    intros [H1 [H2 _]] Hi Hv. unfold mset_col. rewrite H1, Hv, Nat.eqb_refl.
    rewrite vset_val by lia. reflexivity.
  Qed.

  Lemma upd_shape m r c i v : shape r c m -> i < c -> length v = r ->
    shape r c (mkMat r (upd (mcols m) i v)).
  Proof.
    intros [H1 [H2 H3]] Hi Hv. split; [reflexivity|]. split; [simpl; rewrite upd_length; exact H2|].
    intros k Hk. simpl. rewrite nth_upd by lia. destruct (k =? i); [exact Hv|apply H3; exact Hk].
  Qed.

  Lemma mset_col_shape m r c i v m' : shape r c m -> mset_col m i v = Val m' -> shape r c m'.
  Proof.
    intros Hs H. assert (Hs' := Hs). destruct Hs' as [H1 [H2 H3]]. unfold mset_col in H.
    destruct (length v =? nrows m) eqn:E; [|discriminate]. apply Nat.eqb_eq in E.
    inv_bind H. injection H as <-. unfold vset in E0.
    destruct (i <? length (mcols m)) eqn:E2; [|discriminate]. injection E0 as <-. apply Nat.ltb_lt in E2.
    rewrite H1. apply (upd_shape m); [exact Hs|lia|lia].
  Qed.

  Lemma ent_upd m r i v k d : i < length (mcols m) ->
    ent (mkMat r (upd (mcols m) i v)) k d = if k =? i then nth d v n0 else ent m k d.
  Proof. intros H. unfold ent. simpl. rewrite nth_upd by exact H. destruct (k =? i); reflexivity. Qed.

  Lemma mcolumns_val m r c s n : shape r c m -> s + n <= c ->
    mcolumns m s n = Val (mkMat r (firstn n (skipn s (mcols m)))).
  Proof. intros [H1 [H2 _]] H. unfold mcolumns. rewrite segment_val by lia. cbn [bind]. rewrite H1. reflexivity. Qed.

  Lemma mcolumns_shape m r c s n : shape r c m -> s + n <= c ->
    shape r n (mkMat r (firstn n (skipn s (mcols m)))).
  Proof.
    intros [H1 [H2 H3]] H. split; [reflexivity|]. split; [apply segment_length; lia|].
    intros i Hi. simpl. rewrite nth_segment by exact Hi. apply H3. lia.
  Qed.

  Lemma ent_columns m r s n i d : i < n -> ent (mkMat r (firstn n (skipn s (mcols m)))) i d = ent m (s + i) d.
  Proof. intros H. unfold ent. simpl. rewrite nth_segment by exact H. reflexivity. Qed.

  Lemma mset_columns_val m r c s n src : shape r c m -> shape r n src -> s + n <= c ->
    mset_columns m s n src = Val (mkMat r (firstn s (mcols m) ++ mcols src ++ skipn (s + n) (mcols m))).
  Proof.
    intros [H1 [H2 _]] [G1 [G2 _]] H. unfold mset_columns. rewrite G1, H1, Nat.eqb_refl.
    rewrite segment_set_val by lia. reflexivity.
  Qed.

  Lemma mset_columns_shape m r c s n src : shape r c m -> shape r n src -> s + n <= c ->
    shape r c (mkMat r (firstn s (mcols m) ++ mcols src ++ skipn (s + n) (mcols m))).
  Proof.
    intros [H1 [H2 H3]] [G1 [G2 G3]] H. split; [reflexivity|].
    split; [cbn [mcols]; rewrite segment_set_length; lia|].
    intros i Hi. cbn [mcols]. rewrite nth_segment_set by lia.
    destruct ((s <=? i) && (i <? s + n)) eqn:E; [|apply H3; exact Hi].
    apply andb_true_iff in E. destruct E as [E1 E2]. apply Nat.leb_le in E1. apply Nat.ltb_lt in E2.
    apply G3. lia.
  Qed.

  Lemma ent_set_columns m r c s n src i d : shape r c m -> shape r n src -> s + n <= c ->
    ent (mkMat r (firstn s (mcols m) ++ mcols src ++ skipn (s + n) (mcols m))) i d =
    if (s <=? i) && (i <? s + n) then ent src (i - s) d else ent m i d.
  Proof.
    intros [H1 [H2 H3]] [G1 [G2 G3]] H. unfold ent. cbn [mcols]. rewrite nth_segment_set by lia.
    destruct ((s <=? i) && (i <? s + n)); reflexivity.
  Qed.

  (** equal shapes and entries: equal matrices *)
  Lemma mat_ext m m' r c : shape r c m -> shape r c m' ->
    (forall i d, i < c -> d < r -> ent m i d = ent m' i d) -> m = m'.
  Proof.
    intros [H1 [H2 H3]] [G1 [G2 G3]] H. destruct m as [r1 c1], m' as [r2 c2]. simpl in *. subst r1 r2.
    f_equal. apply (list_ext []); [lia|]. intros k Hk. apply (list_ext n0).
    - rewrite H3, G3 by lia. reflexivity.
    - intros d Hd. rewrite H3 in Hd by lia. apply (H k d); lia.
  Qed.

  Lemma vadd_val a b : length a = length b ->
    exists c, vadd a b = Val c /\ length c = length a /\
      forall i d, i < length a -> nth i c d = nadd (nth i a d) (nth i b d).
  Proof. apply zipM_val. Qed.

  Lemma vsub_val a b : length a = length b ->
    exists c, vsub a b = Val c /\ length c = length a /\
      forall i d, i < length a -> nth i c d = nsub (nth i a d) (nth i b d).
  Proof. apply zipM_val. Qed.

  Lemma mat_reverse_val m : mat_reverse m = Val (mkMat (nrows m) (rev (mcols m))).
  Proof. unfold mat_reverse, ncols. rewrite swap_loop. reflexivity. Qed.
End Vectors.
