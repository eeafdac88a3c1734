(** * The span search and the point formula of knot insertion, for every number system *)

From Coq Require Import ZArith List Bool Arith Lia.
From Verif Require Import Num Vec MKnots MPoints MCurve Hoare Lists Struct.
Import ListNotations.

Section Find.
  Context {K : Num}.
  Notation Vec := (list K).
  Variables (ud : Prop) (p n k : nat) (U : Vec) (u : K).
  Hypothesis HL : length U = n + p + 2.
  Hypothesis Hpn : p <= n.
  Hypothesis Hk : k <= p.
  Notation at_ i := (nth (k + i) U n0).

  Local Ltac start :=
    unfold find_idx, vector_derivative; rewrite knots_of_vec by lia; cbn [bind kdegree kp knots_of];
    rewrite usub_ok by lia; cbn [bind]; fold (knots_of p U); rewrite ?(knots_of_segments p U n HL); cbn [bind];
    rewrite ?kderiv_length; repeat (rewrite usub_ok by lia; cbn [bind]).

  Lemma find_le_spec :
    ok ud (find_idx (knots_of p U) u k CLeftOrEqual)
      (fun l => p - k <= l <= n - k /\ (l = p - k \/ (at_ l <=? u)%num = true) /\
        ((at_ (l + 1) <=? u)%num = false \/ l = n - k \/
         (p - k < l /\ (at_ (l + 1) ==? at_ l)%num = true)) /\
        forall j, p - k < j < l -> (at_ (j + 1) ==? at_ j)%num = false).
  Proof.
    start. assert (L := kderiv_length k U).
    apply (ok_while ud _ _ (fun i => p - k <= i <= n - k /\ (i = p - k \/ (at_ i <=? u)%num = true) /\
             forall j, p - k < j <= i -> (at_ (j + 1) ==? at_ j)%num = false)
             _ (fun i => n - k - i)).
    - split; [lia|]. split; [left; reflexivity|]. intros; lia.
    - lia.
    - intros i [Hi [Hv Hj]]. rewrite (vget_nth _ (i + 1) n0) by lia. cbn [bind ok].
      rewrite nth_kderiv by lia.
      assert (Hj' : forall j, p - k < j < i -> (at_ (j + 1) ==? at_ j)%num = false) by (intros; apply Hj; lia).
      destruct (at_ (i + 1) <=? u)%num eqn:E; cbn [andb].
      2:{ split; [exact Hi|]. split; [exact Hv|]. split; [left; first [exact E|reflexivity]|exact Hj']. }
      destruct (i + 1 <? n + 1 - k) eqn:E2.
      2:{ apply Nat.ltb_ge in E2. split; [exact Hi|]. split; [exact Hv|]. split; [right; left; lia|exact Hj']. }
      apply Nat.ltb_lt in E2.
      rewrite (vget_nth _ (i + 1 + 1) n0) by lia. cbn [bind].
      cbn [bind ok snd fst].
      rewrite !nth_kderiv by lia.
      destruct (at_ (i + 1 + 1) ==? at_ (i + 1))%num eqn:E3.
      + split; [lia|]. split; [right; first [exact E|reflexivity]|]. split; [right; right; split; [lia|first [exact E3|reflexivity]]|].
        intros j Hjj. apply Hj. lia.
      + split; [|lia]. split; [lia|]. split; [right; first [exact E|reflexivity]|]. intros j Hjj.
        destruct (Nat.eq_dec j (i + 1)) as [->|]; [first [exact E3|reflexivity]|]. apply Hj. lia.
  Qed.

  Lemma find_lt_spec :
    ok ud (find_idx (knots_of p U) u k CLeft)
      (fun l => p - k <= l <= n - k /\ (l = p - k \/ (at_ l <? u)%num = true) /\
        ((at_ (l + 1) <? u)%num = false \/ l = n - k)).
  Proof.
    start. assert (L := kderiv_length k U).
    apply (ok_while ud _ _ (fun i => p - k <= i <= n - k /\ (i = p - k \/ (at_ i <? u)%num = true))
             _ (fun i => n - k - i)).
    - split; [lia|]. left; reflexivity.
    - lia.
    - intros i [Hi Hv]. rewrite (vget_nth _ (i + 1) n0) by lia. cbn [bind ok].
      rewrite nth_kderiv by lia.
      destruct (at_ (i + 1) <? u)%num eqn:E; cbn [andb].
      2:{ split; [exact Hi|]. split; [exact Hv|]. left. first [exact E|reflexivity]. }
      destruct (i + 1 <? n + 1 - k) eqn:E2.
      2:{ apply Nat.ltb_ge in E2. split; [exact Hi|]. split; [exact Hv|]. right. lia. }
      apply Nat.ltb_lt in E2. cbn [ok fst snd]. split; [|lia]. split; [lia|]. right. first [exact E|reflexivity].
  Qed.

  Lemma find_gt_spec :
    ok ud (find_idx (knots_of p U) u k CRight)
      (fun r => p - k + 1 <= r <= n + 1 - k /\ (r = n + 1 - k \/ (u <? at_ r)%num = true) /\
        ((u <? at_ (r - 1))%num = false \/ r = p - k + 1)).
  Proof.
    start. assert (L := kderiv_length k U).
    apply (ok_while ud _ _ (fun i => p - k + 1 <= i <= n + 1 - k /\ (i = n + 1 - k \/ (u <? at_ i)%num = true))
             _ (fun i => i)).
    - split; [lia|]. left; lia.
    - lia.
    - intros i [Hi Hv]. rewrite usub_ok by lia. cbn [bind]. rewrite (vget_nth _ (i - 1) n0) by lia. cbn [bind ok].
      rewrite nth_kderiv by lia.
      destruct (u <? at_ (i - 1))%num eqn:E; cbn [andb].
      2:{ cbn [ok]. split; [exact Hi|]. split; [exact Hv|]. left. first [exact E|reflexivity]. }
      cbn [bind ok]. destruct (p - k <? i - 1) eqn:E2.
      2:{ apply Nat.ltb_ge in E2. split; [exact Hi|]. split; [exact Hv|]. right. lia. }
      apply Nat.ltb_lt in E2. cbn [ok fst snd]. split; [|lia]. split; [lia|]. right. first [exact E|reflexivity].
  Qed.

  Lemma find_ge_spec : k < p ->
    ok ud (find_idx (knots_of p U) u k CRightOrEqual)
      (fun r => p - k <= r <= n + 1 - k /\ (r = n + 1 - k \/ (u <=? at_ r)%num = true) /\
        ((u <=? at_ (r - 1))%num = false \/ r = p - k \/
         (r < n + 1 - k /\ (at_ (r - 1) ==? at_ r)%num = true)) /\
        forall j, r < j < n + 1 - k -> (at_ (j - 1) ==? at_ j)%num = false).
  Proof.
    intros Hk'. start. assert (L := kderiv_length k U).
    apply (ok_while ud _ _ (fun i => p - k <= i <= n + 1 - k /\ (i = n + 1 - k \/ (u <=? at_ i)%num = true) /\
             forall j, i <= j < n + 1 - k -> (at_ (j - 1) ==? at_ j)%num = false)
             _ (fun i => i)).
    - split; [lia|]. split; [left; lia|]. intros; lia.
    - lia.
    - intros i [Hi [Hv Hj]]. rewrite usub_ok by lia. cbn [bind]. rewrite (vget_nth _ (i - 1) n0) by lia. cbn [bind ok].
      rewrite nth_kderiv by lia.
      assert (Hj' : forall j, i < j < n + 1 - k -> (at_ (j - 1) ==? at_ j)%num = false) by (intros; apply Hj; lia).
      destruct (u <=? at_ (i - 1))%num eqn:E; cbn [andb].
      2:{ split; [exact Hi|]. split; [exact Hv|]. split; [left; first [exact E|reflexivity]|exact Hj']. }
      destruct (p - k <? i) eqn:E2.
      2:{ apply Nat.ltb_ge in E2. split; [exact Hi|]. split; [exact Hv|]. split; [right; left; lia|exact Hj']. }
      apply Nat.ltb_lt in E2. repeat (rewrite usub_ok by lia; cbn [bind]).
      rewrite (vget_nth _ (i - 1 - 1) n0) by lia. cbn [bind].
      try rewrite (vget_nth _ (i - 1) n0) by lia. cbn [bind ok snd fst].
      rewrite !nth_kderiv by lia.
      destruct (at_ (i - 1 - 1) ==? at_ (i - 1))%num eqn:E3.
      + split; [lia|]. split; [right; first [exact E|reflexivity]|]. split; [right; right; split; [lia|first [exact E3|reflexivity]]|].
        intros j Hjj. apply Hj. lia.
      + split; [|lia]. split; [lia|]. split; [right; first [exact E|reflexivity]|]. intros j Hjj.
        destruct (Nat.eq_dec j (i - 1)) as [->|]; [first [exact E3|reflexivity]|]. apply Hj. lia.
  Qed.
End Find.

Section InsertPoints.
  Context {K : Num}.
  Notation Vec := (list K).

  Lemma ent_mzeros r c i d : ent (@mzeros K r c) i d = n0.
  Proof.
    unfold ent, mzeros. cbn [mcols]. destruct (lt_dec i c).
    - rewrite (nth_indep _ [] (vzeros r)) by (rewrite repeat_length; lia). rewrite nth_repeat. unfold vzeros. apply nth_repeat.
    - rewrite (nth_overflow (repeat _ _)) by (rewrite repeat_length; lia). destruct d; reflexivity.
  Qed.

  Lemma insert_points_val (U : Vec) (P : Mat K) dim p n l u (al : nat -> K) :
    length U = n + p + 2 -> shape dim (S n) P -> p <= l <= n ->
    (forall i, l - p < i <= l -> ndiv (u - nth i U n0)%num (nth (i + p) U n0 - nth i U n0)%num = Val (al i)) ->
    exists P', insert_points U P dim p l u = Val P' /\ shape dim (S (S n)) P' /\
      forall i d, i <= S n -> d < dim -> ent P' i d =
        if i <=? l - p then ent P i d
        else if i <=? l then (n0 + ((n1 - al i) * ent P (i - 1) d + al i * ent P i d))%num
        else ent P (i - 1) d.
  Proof.
    intros HL HP Hl Hal. assert (HP' := HP). destruct HP' as [HP1 [HP2 HP3]].
    unfold insert_points, ncols. rewrite HP2. rewrite usub_ok by lia. cbn [bind].
    set (Z := mzeros dim (S n + 1)).
    assert (SZ : shape dim (S n + 1) Z) by apply mzeros_shape.
    rewrite (mcolumns_val P dim (S n)) by (try assumption; lia). cbn [bind].
    assert (S1 := mcolumns_shape P dim (S n) 0 (l - p + 1) HP ltac:(lia)).
    set (src := mkMat dim _) in *.
    rewrite (mset_columns_val Z dim (S n + 1)) by (try assumption; lia). cbn [bind].
    assert (SA := mset_columns_shape Z dim (S n + 1) 0 (l - p + 1) src SZ S1 ltac:(lia)).
    assert (EA := fun i d => ent_set_columns Z dim (S n + 1) 0 (l - p + 1) src i d SZ S1 ltac:(lia)).
    set (A := mkMat dim (firstn 0 (mcols Z) ++ _)) in *.
    rewrite usub_ok by lia. cbn [bind].
    replace (length (mcols A)) with (S n + 1) by (symmetry; apply SA).
    repeat (rewrite usub_ok by lia; cbn [bind]).
    rewrite (mcolumns_val P dim (S n)) by (try assumption; lia). cbn [bind].
    assert (S2 := mcolumns_shape P dim (S n) (S n - (S n - l)) (S n - l) HP ltac:(lia)).
    set (src2 := mkMat dim (firstn (S n - l) _)) in *.
    rewrite (mset_columns_val A dim (S n + 1)) by (try assumption; lia). cbn [bind].
    assert (SB := mset_columns_shape A dim (S n + 1) (S n + 1 - (S n - l)) (S n - l) src2 SA S2 ltac:(lia)).
    assert (EB := fun i d => ent_set_columns A dim (S n + 1) (S n + 1 - (S n - l)) (S n - l) src2 i d SA S2 ltac:(lia)).
    set (B := mkMat dim (firstn _ (mcols A) ++ _)) in *.
    assert (EB' : forall i d, i <= S n -> ent B i d = if i <=? l - p then ent P i d else if i <=? l then n0 else ent P (i - 1) d).
    { intros i d Hi. rewrite EB. destruct (Nat.leb_spec (S n + 1 - (S n - l)) i).
      - replace (i <? S n + 1 - (S n - l) + (S n - l)) with true by (symmetry; apply Nat.ltb_lt; lia). cbn [andb].
        unfold src2. rewrite ent_columns by lia.
        replace (i <=? l - p) with false by (symmetry; apply Nat.leb_gt; lia).
        replace (i <=? l) with false by (symmetry; apply Nat.leb_gt; lia). f_equal. lia.
      - cbn [andb]. rewrite EA. cbn [andb]. replace (0 <=? i) with true by reflexivity. cbn [andb].
        destruct (Nat.leb_spec i (l - p)).
        + replace (i <? 0 + (l - p + 1)) with true by (symmetry; apply Nat.ltb_lt; lia).
          unfold src. rewrite ent_columns by lia. f_equal. lia.
        + replace (i <? 0 + (l - p + 1)) with false by (symmetry; apply Nat.ltb_ge; lia).
          replace (i <=? l) with true by (symmetry; apply Nat.leb_le; lia). apply ent_mzeros. }
    set (f := fun P0 i => _).
    assert (T : ok False (foldM f (rangei (l - p + 1) l) B) (fun M' => shape dim (S n + 1) M' /\
      forall i d, i <= S n -> d < dim -> ent M' i d =
        if (l - p <? i) && (i <? l + 1) then (n0 + ((n1 - al i) * ent P (i - 1) d + al i * ent P i d))%num
        else ent B i d)).
    { apply (ok_foldM_rangei False f (fun j M' => shape dim (S n + 1) M' /\
        forall i d, i <= S n -> d < dim -> ent M' i d =
        if (l - p <? i) && (i <? j) then (n0 + ((n1 - al i) * ent P (i - 1) d + al i * ent P i d))%num
        else ent B i d)).
      - lia.
      - split; [exact SB|]. intros i d Hi Hd. destruct (Nat.ltb_spec (l - p) i), (Nat.ltb_spec i (l - p + 1)); try reflexivity; lia.
      - intros i M' Hi [SM EM]. unfold f. rewrite (vget_nth U i n0) by lia. cbn [bind]. rewrite (vget_nth U (i + p) n0) by lia. cbn [bind].
        rewrite Hal by lia. cbn [bind]. rewrite usub_ok by lia. cbn [bind].
        rewrite (mcol_val P dim (S n)) by (try assumption; lia). cbn [bind].
        rewrite (mcol_val P dim (S n)) by (try assumption; lia). cbn [bind].
        set (a := nth (i - 1) (mcols P) []). set (b := nth i (mcols P) []).
        assert (La : length a = dim) by (apply HP3; lia). assert (Lb : length b = dim) by (apply HP3; lia).
        destruct (vadd_val (vscale (n1 - al i)%num a) (vscale (al i) b)) as [r [Er [Lr Hr]]];
          [rewrite !vscale_length; congruence|]. rewrite vscale_length in Lr, Hr.
        rewrite Er. cbn [bind].
        rewrite (mcol_val M' dim (S n + 1)) by (try assumption; lia). cbn [bind].
        set (old := nth i (mcols M') []). assert (Lo : length old = dim) by (apply SM; lia).
        destruct (vadd_val old r) as [w [Ew [Lw Hw]]]; [congruence|]. rewrite Ew. cbn [bind].
        rewrite (mset_col_val M' dim (S n + 1)) by (try assumption; try lia; congruence). cbn [ok].
        split; [apply upd_shape; [assumption|lia|congruence]|].
        intros x d Hx Hd. rewrite ent_upd by (destruct SM as [_ [SM _]]; lia).
        destruct (Nat.eqb_spec x i) as [->|Hne].
        + replace (l - p <? i) with true by (symmetry; apply Nat.ltb_lt; lia).
          replace (i <? 1 + i) with true by (symmetry; apply Nat.ltb_lt; lia). cbn [andb].
          rewrite Hw by lia. f_equal.
          * change (nth d old n0) with (ent M' i d). rewrite EM by lia.
            rewrite Nat.ltb_irrefl, andb_false_r, EB' by lia.
            replace (i <=? l - p) with false by (symmetry; apply Nat.leb_gt; lia).
            replace (i <=? l) with true by (symmetry; apply Nat.leb_le; lia). reflexivity.
          * rewrite Hr by lia. rewrite !nth_vscale by lia. reflexivity.
        + rewrite EM by lia. destruct (Nat.ltb_spec x i), (Nat.ltb_spec x (1 + i)); try reflexivity; lia. }
    apply ok_val_ex in T. destruct T as [M' [E [SM EM]]]. exists M'. split; [exact E|].
    replace (S n + 1) with (S (S n)) in SM by lia. split; [exact SM|].
    intros i d Hi Hd. rewrite EM by lia. rewrite EB' by lia.
    destruct (Nat.leb_spec i (l - p)), (Nat.ltb_spec (l - p) i), (Nat.leb_spec i l), (Nat.ltb_spec i (l + 1)); try reflexivity; lia.
  Qed.
End InsertPoints.
