(** * Assembling the merged curve *)

From Coq Require Import ZArith Reals List Bool Arith Lia Lra.
From Verif Require Import Num Vec MKnots MPoints MCurve MFit MMerge RNum Hoare Lists Struct Spec BMath BMath3 Api Bridge Facts1 Facts3 Samples Gen1 Gen3 LinAlg Fit1 Fit3 Fit4 Merge1 Merge2 Merge3 Merge4 Merge5 Merge6 Merge7.
Import ListNotations.
Local Open Scope R_scope.

Lemma madd_columns_val (r c s n : nat) (A src : Mat RNum) : shape r c A -> shape r n src -> (s + n <= c)%nat ->
  exists B, madd_columns A s n src = Val B /\ shape r c B /\
    forall y x, (y < c)%nat -> (x < r)%nat -> ent B y x = if ((s <=? y) && (y <? s + n))%nat%bool then ent A y x + ent src (y - s) x else ent A y x.
Proof.
  intros SA SS H. unfold madd_columns. rewrite (mcolumns_val A r c s n SA H). cbn [bind]. assert (SO := mcolumns_shape A r c s n SA H).
  assert (NS : ncols src = n) by apply SS. rewrite NS, Nat.eqb_refl. set (old := mkMat r (firstn n (skipn s (mcols A)))) in *.
  set (g := fun i => match vadd (nth i (mcols old) []) (nth i (mcols src) []) with Val v => v | _ => [] end).
  assert (G : forall i, (i < n)%nat -> @vadd RNum (nth i (mcols old) []) (nth i (mcols src) []) = Val (g i) /\ length (g i) = r /\ forall x, (x < r)%nat -> nth x (g i) 0 = ent old i x + ent src i x).
  { intros i Hi. unfold g. assert (L1 : length (nth i (mcols old) []) = r) by (apply SO; exact Hi). assert (L2 : length (nth i (mcols src) []) = r) by (apply SS; exact Hi).
    destruct (@vadd_val RNum (nth i (mcols old) []) (nth i (mcols src) [])) as [v [E [L Hv]]]; [congruence|]. rewrite E. split; [reflexivity|]. split; [rn; congruence|].
    intros x Hx. rewrite (Hv x 0) by (rn; lia). reflexivity. }
  rewrite (mapM_val _ g).
  - cbn [bind]. assert (NA : nrows A = r) by apply SA. rewrite NA.
    assert (SN : shape r n (mkMat r (map g (seq 0 n)))).
    { split; [reflexivity|]. split; [cbn [mcols]; rewrite map_length, seq_length; reflexivity|]. intros i Hi. cbn [mcols].
      rewrite (nth_indep _ [] (g 0%nat)) by (rewrite map_length, seq_length; exact Hi). rewrite map_nth, seq_nth by exact Hi. apply G. exact Hi. }
    rewrite (mset_columns_val A r c s n _ SA SN H). eexists. split; [reflexivity|]. split; [apply (mset_columns_shape A r c s n _ SA SN H)|].
    intros y x Hy Hx. unfold ent. cbn [mcols]. assert (LA : length (mcols A) = c) by apply SA. rewrite nth_segment_set by (try rewrite map_length, seq_length; lia).
    destruct (Nat.leb_spec s y), (Nat.ltb_spec y (s + n)); cbn [andb]; try reflexivity.
    rewrite (nth_indep _ [] (g 0%nat)) by (rewrite map_length, seq_length; lia). rewrite map_nth, seq_nth by lia.
    destruct (G (0 + (y - s))%nat ltac:(lia)) as [_ [_ T]]. rewrite T by exact Hx. cbn [Nat.add]. unfold ent, old. cbn [mcols]. rewrite nth_firstn by lia. rewrite nth_skipn. replace (s + (y - s))%nat with y by lia. reflexivity.
  - intros i Hi. apply in_seq in Hi. rewrite (mcol_val old r n i SO) by lia. cbn [bind]. rewrite (mcol_val src r n i SS) by lia. cbn [bind]. apply G. lia.
Qed.

Lemma foldM_seq_inv {X} (f : X -> nat -> M X) (I : nat -> X -> Prop) a len : forall x0, I a x0 ->
  (forall i x, (a <= i < a + len)%nat -> I i x -> exists x', f x i = Val x' /\ I (S i) x') -> exists x, foldM f (seq a len) x0 = Val x /\ I (a + len)%nat x.
Proof.
  revert a. induction len as [|len IH]; intros a x0 H0 H.
  - exists x0. split; [reflexivity|]. rewrite Nat.add_0_r. exact H0.
  - cbn [seq foldM]. destruct (H a x0 ltac:(lia) H0) as [x1 [E1 H1]]. rewrite E1. cbn [bind].
    destruct (IH (S a) x1 H1) as [x [E Hx]]; [intros; apply H; [lia|assumption]|]. exists x. split; [exact E|]. replace (a + S len)%nat with (S a + len)%nat by lia. exact Hx.
Qed.
Lemma foldM_list_inv {X Y} (f : X -> Y -> M X) (I : X -> Prop) l : forall x0, I x0 ->
  (forall x y, In y l -> I x -> exists x', f x y = Val x' /\ I x') -> exists x, foldM f l x0 = Val x /\ I x.
Proof.
  induction l as [|y l IH]; intros x0 H0 H; [exists x0; split; [reflexivity|exact H0]|].
  cbn [foldM]. destruct (H x0 y ltac:(left; reflexivity) H0) as [x1 [E1 H1]]. rewrite E1. cbn [bind]. apply IH; [exact H1|]. intros x z Hz Ix. apply H; [right; exact Hz|exact Ix].
Qed.

Lemma derivative_point_val p n dim (U : list R) (P : Mat RNum) c k idx : length U = (n + p + 2)%nat -> shape dim c P -> (n < c)%nat -> (c = S n) -> (k <= p)%nat -> (idx + k <= n)%nat ->
  exists v, @generateDerivativeControlPoint RNum idx k P U p n dim = Val v /\ length v = dim /\ forall d, (d < dim)%nat -> nth d v 0 = dpoints (kfun U) p (fun z => ent P z d) k idx.
Proof.
  intros L SP Hc -> Hk Hi. assert (NP : ncols P = S n) by apply SP. unfold generateDerivativeControlPoint. us. unfold assert. replace (idx <=? n - k)%nat with true by (symmetry; apply Nat.leb_le; lia). cbn [bind].
  destruct (foldM_vec dim (fun cp z => f <- prefactor p (ncols P) U k idx z;; c <- mcol P z;; vadd cp (vscale f c)) (fun z d => dpoints (kfun U) p (delta z) k idx * ent P z d) 0 (n + 1 - 0) (@vzeros RNum dim)) as [v [E [Lv Hv]]].
  - apply vzeros_length.
  - intros v z Lv Hz. rewrite NP. rewrite (prefactor_R p n U z L k idx) by lia. cbn [bind]. rewrite (mcol_val P dim (S n) z SP) by lia. cbn [bind].
    destruct (vadd_term dim v (nth z (mcols P) []) (dpoints (kfun U) p (delta z) k idx) Lv) as [v' [E [L' H']]]; [apply SP; lia|]. exists v'. split; [exact E|]. split; [exact L'|exact H'].
  - exists v. split; [exact E|]. split; [exact Lv|]. intros d Hd. rewrite Hv by exact Hd. assert (Z := @nth_vzeros RNum dim d). rn. rewrite Z. rewrite (dpoints_expand _ _ _ (S n)) by lia. replace (n + 1 - 0)%nat with (S n) by lia.
    rn. rewrite Rplus_0_l. apply rsum_ext. intros i Hi2. cbn [Nat.add]. ring.
Qed.

Section Adjust.
  Context (p n dim : nat) (U0 Uadj : list R) (P : Mat RNum).
  Hypotheses (Hp : (1 <= p)%nat) (Hpn : (p <= n)%nat) (L0 : length U0 = (n + p + 2)%nat) (LA : length Uadj = (n + p + 2)%nat) (SP : shape dim (S n) P).

  Definition sound_row (e : list (list R)) : Prop := forall k, (k < length e)%nat -> length (nth k e []) = dim.
  (** the first recomputed point: as in the code, the entry used as first derivative is the point itself *)
  Definition first_point (d : nat) : R := (nth (n + 2) Uadj 0 - nth (n - p + 2) Uadj 0) / IZR (Z.of_nat p) * ent P (n - p + 1) d + ent P (n - p + 1) d.
  (** rows below [b] are finished *)
  Record table (b : nat) (q : list (list (list R))) : Prop := mkTable {
    tb_len : length q = S n;
    tb_row : forall i, (i <= n)%nat -> sound_row (nth i q []) /\ (1 <= length (nth i q []))%nat;
    tb_low : forall i, (i <= n - p + 1)%nat -> nth 0 (nth i q []) [] = nth i (mcols P) [];
    tb_base : (p <= length (nth (n - p + 1) q []))%nat;
    tb_head : forall d, (d < dim)%nat -> nth d (nth 1 (nth (n - p + 1) q []) []) 0 = ent P (n - p + 1) d;
    tb_first : (n - p + 2 < b)%nat -> (n - p + 2 <= n)%nat -> forall d, (d < dim)%nat -> nth d (nth 0 (nth (n - p + 2) q []) []) 0 = first_point d;
    tb_done : forall i, (n - p + 2 <= i < b)%nat -> (i <= n)%nat -> length (nth i q []) = (n - i + 1)%nat }.

  Lemma sound_app e v : sound_row e -> length v = dim -> sound_row (e ++ [v]).
  Proof.
    intros H Hv k Hk. rewrite app_length in Hk. cbn in Hk. destruct (Nat.lt_ge_cases k (length e)) as [H1|H1].
    - rewrite app_nth1 by exact H1. apply H. exact H1.
    - rewrite app_nth2 by exact H1. replace (k - length e)%nat with 0%nat by lia. exact Hv.
  Qed.
  Lemma sound_upd e i v : (i < length e)%nat -> sound_row e -> length v = dim -> sound_row (upd e i v).
  Proof. intros Hi H Hv k Hk. rewrite upd_length in Hk. rewrite nth_upd by exact Hi. destruct (k =? i)%nat; [exact Hv|apply H; exact Hk]. Qed.
  Lemma sound_resize e k : sound_row e -> sound_row (resize e k (@vzeros RNum dim)) /\ length (resize e k (@vzeros RNum dim)) = k.
  Proof.
    intros H. assert (LR : length (resize e k (@vzeros RNum dim)) = k) by (unfold resize; rewrite app_length, firstn_length, repeat_length; lia). split; [|exact LR].
    intros j Hj. rewrite LR in Hj. unfold resize. destruct (Nat.lt_ge_cases j (length (firstn k e))) as [H1|H1].
    - rewrite app_nth1 by exact H1. rewrite firstn_length in H1. rewrite nth_firstn by lia. apply H. lia.
    - rewrite app_nth2 by exact H1. rewrite firstn_length in *. assert (T : In (nth (j - Nat.min k (length e)) (repeat (@vzeros RNum dim) (k - length e)) []) (repeat (@vzeros RNum dim) (k - length e))).
      { apply nth_In. rewrite repeat_length. lia. }
      apply repeat_spec in T. etransitivity; [exact (f_equal (@length R) T)|apply vzeros_length].
  Qed.

  Lemma adjust_low : exists Q, @adjust_shifted_control_points RNum P U0 Uadj p n dim = Val Q /\ shape dim (S n) Q /\ (forall i, (i <= n - p + 1)%nat -> forall d, ent Q i d = ent P i d) /\
    ((n - p + 2 <= n)%nat -> forall d, (d < dim)%nat -> ent Q (n - p + 2) d = first_point d).
  Proof.
    unfold adjust_shifted_control_points. unfold range, rangei. replace (n + 1 - 0)%nat with (S n) by lia.
    set (col := fun i => nth i (mcols P) []). rn.
    rewrite (mapM_val _ (fun i => [col i])) by (intros i Hi; apply in_seq in Hi; rewrite (mcol_val P dim (S n) i SP) by lia; reflexivity).
    cbn [bind]. us. replace (p - 1 + 1 - 0)%nat with p by lia.
    assert (NM : forall i, (i <= n)%nat -> nth i (map (fun i => [col i]) (seq 0 (S n))) [] = [col i]).
    { intros i Hi. rewrite (nth_indep _ [] [col 0%nat]) by (rewrite map_length, seq_length; lia). rewrite (map_nth (fun i => [col i])), seq_nth by lia. reflexivity. }
    destruct (foldM_seq_inv (fun q k => v <- generateDerivativeControlPoint (n - p + 1) k P U0 p n dim;; e <- @vget (list (list R)) q (n - p + 1);; vset q (n - p + 1) (e ++ [v]))
      (fun k q => length q = S n /\ (forall i, (i <= n)%nat -> sound_row (nth i q []) /\ (1 <= length (nth i q []))%nat) /\ (forall i, (i <= n)%nat -> nth 0 (nth i q []) [] = col i) /\ length (nth (n - p + 1) q []) = S k /\ ((0 < k)%nat -> forall d, (d < dim)%nat -> nth d (nth 1 (nth (n - p + 1) q []) []) 0 = ent P (n - p + 1) d))
      0 p (map (fun i => [col i]) (seq 0 (S n)))) as [q [E [Q1 [Q2 [Q3 [Q4 Q5]]]]]].
    - split; [rewrite map_length, seq_length; reflexivity|]. split; [|split].
      + intros i Hi. rewrite NM by exact Hi. split; [|cbn; lia]. intros k Hk. cbn in Hk. replace k with 0%nat by lia. cbn [nth]. apply SP. lia.
      + intros i Hi. rewrite NM by exact Hi. reflexivity.
      + split; [rewrite NM by lia; reflexivity|intros; lia].
    - intros k q Hk [Q1 [Q2 [Q3 [Q4 Q5]]]]. destruct (derivative_point_val p n dim U0 P (S n) k (n - p + 1) L0 SP) as [v [Ev [Lv Hv]]]; try lia. rewrite Ev. cbn [bind].
      rewrite (vget_nth q (n - p + 1) []) by lia. cbn [bind]. rewrite vset_val by lia. eexists. split; [reflexivity|]. split; [rewrite upd_length; exact Q1|].
      assert (NU : forall i, nth i (upd q (n - p + 1) (nth (n - p + 1) q [] ++ [v])) [] = if (i =? n - p + 1)%nat then nth (n - p + 1) q [] ++ [v] else nth i q []) by (intros; apply nth_upd; lia).
      split; [|split].
      + intros i Hi. rewrite NU. destruct (Nat.eqb_spec i (n - p + 1)); [|apply Q2; exact Hi]. split; [apply sound_app; [apply Q2; lia|exact Lv]|]. rewrite app_length. cbn. lia.
      + intros i Hi. rewrite NU. destruct (Nat.eqb_spec i (n - p + 1)) as [->|]; [|apply Q3; exact Hi]. rewrite app_nth1 by lia. apply Q3. lia.
      + rewrite NU, Nat.eqb_refl. split; [rewrite app_length, Q4; cbn; lia|]. intros _ d Hd. destruct k as [|k].
        * rewrite app_nth2 by lia. rewrite Q4. cbn [Nat.sub nth]. rewrite Hv by exact Hd. reflexivity.
        * rewrite app_nth1 by lia. apply Q5; [lia|exact Hd].
    - rn. rewrite E. cbn [bind].
      assert (T0 : table (n - p + 2) q).
      { split; [exact Q1|exact Q2|intros i Hi; apply Q3; lia|lia|apply Q5; lia|intros; lia|intros; lia]. }
      replace (n + 1 - (n - p + 2))%nat with (p - 1)%nat by lia.
      match goal with |- context [foldM ?f (seq (n - p + 2) (p - 1)) q] => destruct (foldM_seq_inv f table (n - p + 2) (p - 1) q T0) as [q2 [E2 T2]] end.
      + intros i q1 Hi T1. rewrite (vget_nth q1 i []) by (rewrite (tb_len _ _ T1); lia). cbn [bind]. us. rewrite vset_val by (rewrite (tb_len _ _ T1); lia). cbn [bind].
        destruct (sound_resize (nth i q1 []) (n - i + 1) (proj1 (tb_row _ _ T1 i ltac:(lia)))) as [R1 R2]. rn.
        set (q1' := upd q1 i (resize (nth i q1 []) (n - i + 1) (@vzeros RNum dim))).
        assert (NU : forall j, nth j q1' [] = if (j =? i)%nat then resize (nth i q1 []) (n - i + 1) (@vzeros RNum dim) else nth j q1 []) by (intros; apply nth_upd; rewrite (tb_len _ _ T1); lia).
        assert (PL : (n - i + 2 <= length (nth (i - 1) q1 []))%nat).
        { destruct (Nat.eq_dec i (n - p + 2)) as [->|N]; [replace (n - p + 2 - 1)%nat with (n - p + 1)%nat by lia; assert (T := tb_base _ _ T1); lia|].
          rewrite (tb_done _ _ T1) by lia. lia. }
        replace (n - i + 1 - 0)%nat with (S (n - i)) by lia. cbn [seq rev]. rewrite foldM_app.
        match goal with |- context [foldM ?f (rev (seq 1 (n - i))) q1'] => set (body := f) end.
        set (inv := fun q : list (list (list R)) => length q = S n /\ (forall j, j <> i -> nth j q [] = nth j q1 []) /\ sound_row (nth i q []) /\ length (nth i q []) = (n - i + 1)%nat).
        assert (RS := proj1 (tb_row _ _ T1 (i - 1)%nat ltac:(lia))).
        assert (BS : forall q4 k, (k <= n - i)%nat -> inv q4 -> exists q5, body q4 k = Val q5 /\ inv q5 /\ forall d, (d < dim)%nat -> nth d (nth k (nth i q5 []) []) 0 =
          (nth (i + p) Uadj 0 - nth (i + k) Uadj 0) / IZR (Z.of_nat (p - k)) * nth d (nth (k + 1) (nth (i - 1) q1 []) []) 0 + nth d (nth k (nth (i - 1) q1 []) []) 0).
        { intros q4 k Hk [B1 [B2 [B3 B4]]]. unfold body.
          rewrite (vget_nth Uadj (i + p) 0) by lia. cbn [bind]. rewrite (vget_nth Uadj (i + k) 0) by lia. cbn [bind]. us.
          unfold nofnat. rn. rewrite Rdivm_val by (apply not_0_IZR; lia). cbn [bind].
          rewrite (vget_nth q4 (i - 1) []) by lia. cbn [bind]. rewrite B2 by lia.
          rewrite (vget_nth (nth (i - 1) q1 []) (k + 1) []) by lia. cbn [bind]. rewrite (vget_nth (nth (i - 1) q1 []) k []) by lia. cbn [bind].
          set (s := (nth (i + p) Uadj 0 - nth (i + k) Uadj 0) / IZR (Z.of_nat (p - k))).
          assert (LX : length (nth (k + 1) (nth (i - 1) q1 []) []) = dim) by (apply RS; lia). assert (LY : length (nth k (nth (i - 1) q1 []) []) = dim) by (apply RS; lia).
          destruct (@vadd_val RNum (@vscale RNum s (nth (k + 1) (nth (i - 1) q1 []) [])) (nth k (nth (i - 1) q1 []) [])) as [r [Er [Lr Hr]]]; [rewrite (@vscale_length RNum); rn; congruence|].
          rn. rewrite Er. cbn [bind]. rewrite (vget_nth q4 i []) by lia. cbn [bind]. rewrite vset_val by lia. cbn [bind]. rewrite vset_val by lia.
          eexists. split; [reflexivity|]. rewrite (@vscale_length RNum) in Lr, Hr. assert (Lr' : length r = dim) by (rn; congruence).
          split; [split; [rewrite upd_length; exact B1|]; split; [intros j Hj; rewrite nth_upd by lia; destruct (Nat.eqb_spec j i); [contradiction|apply B2; exact Hj]|];
            rewrite nth_upd by lia; rewrite Nat.eqb_refl; split; [apply sound_upd; [lia|exact B3|exact Lr']|rewrite upd_length; exact B4]|].
          intros d Hd. rewrite nth_upd by lia. rewrite Nat.eqb_refl. rewrite nth_upd by lia. rewrite Nat.eqb_refl. rewrite (Hr d 0) by (rn; lia). rewrite (@nth_vscale RNum) by (rn; lia). reflexivity. }
        destruct (foldM_list_inv body inv (rev (seq 1 (n - i))) q1') as [q3' [E3' I3']].
        * split; [unfold q1'; rewrite upd_length; apply T1|]. split; [intros j Hj; rewrite NU; destruct (Nat.eqb_spec j i); [contradiction|reflexivity]|]. rewrite NU, Nat.eqb_refl. split; assumption.
        * intros q4 k Hk I4. rewrite <- in_rev in Hk. apply in_seq in Hk. destruct (BS q4 k ltac:(lia) I4) as [q5 [E5 [I5 _]]]. exists q5. split; assumption.
        * rewrite E3'. cbn [bind foldM]. destruct (BS q3' 0%nat ltac:(lia) I3') as [q3 [E3 [[B1 [B2 [B3 B4]]] B5]]]. rewrite E3. cbn [bind]. exists q3. split; [reflexivity|]. split.
          -- exact B1.
          -- intros j Hj. destruct (Nat.eq_dec j i) as [->|N]; [split; [exact B3|lia]|]. rewrite B2 by exact N. apply T1. exact Hj.
          -- intros j Hj. rewrite B2 by lia. apply T1. exact Hj.
          -- rewrite B2 by lia. apply T1.
          -- rewrite B2 by lia. apply T1.
          -- intros H1 H2 d Hd. destruct (Nat.eq_dec i (n - p + 2)) as [Ei|N].
             ++ rewrite <- Ei. rewrite B5 by exact Hd. replace (i - 1)%nat with (n - p + 1)%nat by lia. cbn [Nat.add]. rewrite (tb_head _ _ T1) by exact Hd. rewrite (tb_low _ _ T1) by lia.
                unfold first_point. rewrite Nat.sub_0_r. replace (i + p)%nat with (n + 2)%nat by lia. replace (i + 0)%nat with (n - p + 2)%nat by lia. reflexivity.
             ++ rewrite B2 by lia. apply (tb_first _ _ T1); [lia|exact H2|exact Hd].
          -- intros j Hj Hjn. destruct (Nat.eq_dec j i) as [->|N]; [exact B4|]. rewrite B2 by exact N. apply T1; lia.
      + rn. rewrite E2. cbn [bind].
        destruct (fill_fresh (fun padj i => e <- @vget (list (list R)) q2 i;; c <- @vget (list R) e 0;; @mset_col RNum padj i c) (fun d i => nth d (nth 0 (nth i q2 []) []) 0) dim (S n)) as [Q [EQ [SQ HQ]]].
        * intros N k SN Hk _. rewrite (vget_nth q2 k []) by (rewrite (tb_len _ _ T2); lia). cbn [bind]. destruct (tb_row _ _ T2 k ltac:(lia)) as [R1 R2].
          rewrite (vget_nth (nth k q2 []) 0 []) by lia. cbn [bind].
          destruct (mset_col_ent dim (S n) N k (nth 0 (nth k q2 []) []) SN Hk) as [N' [EN [SN' [_ HN]]]]; [apply R1; lia|]. exists N'. split; [exact EN|]. split; [exact SN'|].
          intros x y Hx Hy. rewrite HN. destruct (Nat.eqb_spec y k) as [->|]; reflexivity.
        * replace (n + 1)%nat with (S n) by lia. exists Q. split; [exact EQ|]. split; [exact SQ|]. split; [|intros H1 d Hd; rewrite HQ by lia; apply (tb_first _ _ T2); [lia|exact H1|exact Hd]]. intros i Hi d. destruct (Nat.lt_ge_cases d dim) as [Hd|Hd].
          -- rewrite HQ by lia. rewrite (tb_low _ _ T2) by exact Hi. reflexivity.
          -- unfold ent. rewrite !nth_overflow; [reflexivity| |]; [assert (T := proj2 (proj2 SP) i ltac:(lia))|assert (T := proj2 (proj2 SQ) i ltac:(lia))]; rn; lia.
  Qed.
End Adjust.

Lemma mset_columns_ent (r c s n : nat) (A src : Mat RNum) : shape r c A -> shape r n src -> (s + n <= c)%nat ->
  exists B, mset_columns A s n src = Val B /\ shape r c B /\ forall y x, ent B y x = if ((s <=? y) && (y <? s + n))%nat%bool then ent src (y - s) x else ent A y x.
Proof.
  intros SA SS H. rewrite (mset_columns_val A r c s n src SA SS H). eexists. split; [reflexivity|]. split; [apply (mset_columns_shape A r c s n src SA SS H)|].
  intros y x. unfold ent. cbn [mcols]. assert (LA : length (mcols A) = c) by apply SA. assert (LS : length (mcols src) = n) by apply SS.
  destruct (Nat.lt_ge_cases y c) as [Hy|Hy].
  - rewrite nth_segment_set by lia. destruct ((s <=? y) && (y <? s + n))%nat%bool; reflexivity.
  - replace (y <? s + n)%nat with false by (symmetry; apply Nat.ltb_ge; lia). rewrite andb_false_r. rewrite (nth_overflow (mcols A)) by lia.
    f_equal. apply nth_overflow. rewrite segment_set_length by lia. lia.
Qed.

Section Assembly.
  Context {p m dim : nat} {V : list R} {S_ : Mat RNum} {a : Curve RNum} (HA : clamped_curve p m dim V S_ a).
  Context {W : list R} {T_ : Mat RNum} {b : Curve RNum} (HB : clamped_curve p m dim W T_ b).
  Context (pa pb : list R) (Hp : (1 <= p)%nat).

  Lemma merge_assembles svd X : (length pa + length pb < p)%nat -> @solve_linear_equation_system RNum svd (mkCC a pa) (mkCC b pb) = Val X ->
    shape dim (3 * p + length pa + length pb) X ->
    exists c U Q, merge_with_constraints svd (mkCC a pa) (mkCC b pb) = Val (Ok c) /\ joined_knots p m m V W U /\ clamped_curve p (m + m + 1 - p) dim U Q c /\
    exists S' T', shape dim (S m) S' /\ shape dim (S m) T' /\
      (forall i d, (i <= m)%nat -> (d < dim)%nat -> ent S' i d = ent S_ i d + if (i <? m + 1 - p)%nat then 0 else ent X (i - (m + 1 - p)) d) /\
      (forall i d, (i <= m)%nat -> (d < dim)%nat -> ent T' i d = ent T_ i d + if (i <? p)%nat then ent X (p + i) d else 0) /\
      (forall i d, (i < m)%nat -> (i <= m - p + 1)%nat -> (d < dim)%nat -> ent Q i d = ent S' i d) /\
      (forall j d, (p - 1 <= j <= m)%nat -> (d < dim)%nat -> ent Q (m + 1 - p + j) d = ent T' j d) /\
      ((3 <= p)%nat -> forall d, (d < dim)%nat -> ent Q (m - p + 2) d = (1 + (1 + nth (p + 1) W 0 - nth (m - p + 2) V 0) / INR p) * ent S' (m - p + 1) d).
  Proof.
    intros Ht EX SX. rewrite (merge_clamped svd p m dim V S_ a m W T_ b pa pb HA HB Ht). unfold merge_core. cbn [cc_curve]. rewrite EX. cbn [bind].
    assert (Wa := proj1 (cc_wf _ _ _ _ _ _ HA)). assert (Wb := proj1 (cc_wf _ _ _ _ _ _ HB)).
    assert (CV := proj1 HA). assert (CW := proj1 HB). assert (SS := proj1 (proj2 HA)). assert (ST := proj1 (proj2 HB)).
    assert (LV := cl_len _ _ _ CV). assert (LW := cl_len _ _ _ CW). assert (DV := cl_deg _ _ _ CV).
    unfold shifted_points. rewrite (wf_degree Wa), (wf_matrix Wa), (wf_matrix Wb). cbn [bind]. assert (NS : ncols S_ = S m) by apply SS. rewrite NS. us.
    rewrite (mcolumns_val X dim _ 0 p SX) by lia. cbn [bind]. assert (S1 := mcolumns_shape X dim _ 0 p SX ltac:(lia)).
    destruct (madd_columns_val dim (S m) (S m - p) p S_ _ SS S1 ltac:(lia)) as [S' [ES [SS' HS]]]. rewrite ES. cbn [bind].
    rewrite (mcolumns_val X dim _ p p SX) by lia. cbn [bind]. assert (S2 := mcolumns_shape X dim _ p p SX ltac:(lia)).
    destruct (madd_columns_val dim (S m) 0 p T_ _ ST S2 ltac:(lia)) as [T' [ET [ST' HT]]]. rewrite ET. cbn [bind].
    destruct (knots_joined HA HB) as [Va [Wd [U [E1 [L1 [L2 [E2 [J [HVa HVb]]]]]]]]]. rewrite E1. cbn [bind]. rewrite E2. cbn [bind].
    unfold adjust_shifted_control_points_of_both_splines. rewrite (wf_degree Wa), (wf_segments Wa), (wf_dimension Wa), (wf_vector Wa). cbn [bind].
    destruct (adjust_low p m dim V Va S' Hp ltac:(lia) ltac:(rn; lia) ltac:(rn; lia) SS') as [Sa [EA [SA [HSA HSB]]]]. rn. rewrite EA. cbn [bind].
    unfold mat_reversed. rewrite (@mat_reverse_val RNum T'). cbn [bind].
    assert (R2 : shape dim (S m) (mkMat (nrows T') (rev (mcols T')))) by (apply (mat_reversed_size T' _ dim (S m) ST'); unfold mat_reversed; apply mat_reverse_val).
    destruct (adjust_low p m dim (vrev W) Wd _ Hp ltac:(lia) ltac:(rewrite vrev_length; rn; lia) ltac:(rn; lia) R2) as [Ta [EB [SB [HTB _]]]]. rn. rewrite EB. cbn [bind].
    rewrite (@mat_reverse_val RNum Ta). cbn [bind].
    match goal with |- context [merged_points a b Sa ?x] => set (Tr := x) end.
    assert (R3 : shape dim (S m) Tr) by (apply (mat_reversed_size Ta _ dim (S m) SB); unfold mat_reversed; apply mat_reverse_val).
    unfold merged_points. rewrite (wf_degree Wa), (wf_dimension Wa), (wf_count Wa), (wf_count Wb). cbn [bind]. us.
    destruct (mset_columns_ent dim (S m + S m - p) 0 (S m) (@mzeros RNum dim (S m + S m - p)) Sa (mzeros_shape _ _) SA ltac:(lia)) as [Q1 [EQ1 [SQ1 HQ1]]]. rn. rewrite EQ1. cbn [bind].
    us. assert (NQ1 : ncols Q1 = (S m + S m - p)%nat) by apply SQ1. rewrite NQ1. us. assert (NR3 : ncols Tr = S m) by apply R3. rewrite NR3. us.
    set (s2 := (S m - (S m + 1 - p))%nat). rewrite (mcolumns_val _ dim (S m) s2 (S m + 1 - p) R3) by (unfold s2; lia). cbn [bind].
    assert (R4 := mcolumns_shape _ dim (S m) s2 (S m + 1 - p) R3 ltac:(unfold s2; lia)).
    destruct (mset_columns_ent dim (S m + S m - p) (S m + S m - p - (S m + 1 - p)) (S m + 1 - p) Q1 _ SQ1 R4 ltac:(lia)) as [Q [EQ [SQ HQ]]]. rn. rewrite EQ. cbn [bind].
    destruct (joined_clamped HA HB U J) as [CU _]. replace (S m + S m - p)%nat with (S (m + m + 1 - p)) in SQ by lia.
    destruct (clamped_curve_ex p (m + m + 1 - p) dim U Q CU SQ) as [c [C1 [C2 [kn [EK EC]]]]]. rewrite EK. cbn [bind]. rewrite EC. cbn [bind].
    exists c, U, Q. split; [reflexivity|]. split; [exact J|]. split; [split; [exact C1|split; [exact C2|exists kn; split; assumption]]|].
    exists S', T'. split; [exact SS'|]. split; [exact ST'|].
    assert (LX : length (mcols X) = (3 * p + length pa + length pb)%nat) by apply SX.
    split; [|split; [|split; [|split]]].
    - intros i d Hi Hd. rewrite HS by lia. destruct (Nat.ltb_spec i (m + 1 - p)) as [H|H].
      + replace (S m - p <=? i)%nat with false by (symmetry; apply Nat.leb_gt; lia). cbn [andb]. (symmetry; apply Rplus_0_r).
      + cmp. f_equal. unfold ent. cbn [mcols]. rewrite nth_firstn by lia. rewrite nth_skipn. cbn [Nat.add]. do 2 f_equal. lia.
    - intros i d Hi Hd. rewrite HT by lia. cbn [Nat.leb andb Nat.add]. destruct (Nat.ltb_spec i p) as [H|H]; [|(symmetry; apply Rplus_0_r)]. f_equal. unfold ent. cbn [mcols]. rewrite nth_firstn by lia. rewrite nth_skipn. do 2 f_equal. lia.
    - intros i d Hi Hi' Hd. rewrite HQ, HQ1. cmp. cbn [Nat.leb andb]. rewrite Nat.sub_0_r. apply HSA. lia.
    - intros j d Hj Hd. rewrite HQ. cmp. unfold ent at 1. cbn [mcols]. rewrite nth_firstn by lia. rewrite nth_skipn. unfold Tr. cbn [mcols]. assert (LT : length (mcols Ta) = S m) by apply SB. rewrite nth_rev by (unfold s2; lia).
      rewrite LT. replace (S m - 1 - (s2 + (m + 1 - p + j - (S m + S m - p - (S m + 1 - p)))))%nat with (m - j)%nat by (unfold s2; lia).
      assert (T := HTB (m - j)%nat ltac:(lia) d). unfold ent in T. cbn [mcols] in T. assert (LT' : length (mcols T') = S m) by apply ST'. rewrite nth_rev in T by lia. rewrite LT' in T.
      etransitivity; [exact T|]. unfold ent. do 2 f_equal. lia.
    - intros H3 d Hd. rewrite HQ, HQ1. cmp. cbn [Nat.leb andb]. rewrite Nat.sub_0_r. rewrite HSB by (try exact Hd; lia). unfold first_point. rewrite HVb by exact Hp. rewrite HVa by lia. rewrite INR_IZR_INZ. rn. unfold Rdiv. ring.
  Qed.

  (** whatever the solver returns, the merge returns a curve *)
  Lemma merge_returns svd : returning_solver svd -> (length pa + length pb < p)%nat ->
    exists c U Q, merge_with_constraints svd (mkCC a pa) (mkCC b pb) = Val (Ok c) /\ joined_knots p m m V W U /\ clamped_curve p (m + m + 1 - p) dim U Q c /\
      (forall i d, (i < m + 1 - p)%nat -> (d < dim)%nat -> ent Q i d = ent S_ i d) /\ (forall j d, (p <= j <= m)%nat -> (d < dim)%nat -> ent Q (m + 1 - p + j) d = ent T_ j d).
  Proof.
    intros G Ht.
    destruct (Nmat_R HA HB pa pb Hp) as [N [EN [SN _]]]. destruct (ConstMat_R HA HB Hp (length pa + length pb)) as [C [EC [SC _]]]. rewrite Nat.add_assoc in SC.
    assert (ST := mtranspose_shape dim _ C SC). destruct (G N (mtranspose C)) as [X [EX SX]].
    assert (N1 : nrows N = (3 * p + length pa + length pb)%nat) by apply SN. assert (N2 : ncols N = (3 * p + length pa + length pb)%nat) by apply SN.
    assert (N3 : nrows (mtranspose C) = (3 * p + length pa + length pb)%nat) by apply ST. assert (N4 : ncols (mtranspose C) = dim) by apply ST.
    rewrite N2, N4 in SX.
    destruct (merge_assembles svd (mtranspose X) Ht) as [c [U [Q [E [J [CC [S' [T' [_ [_ [H1 [H2 [H3 [H4 _]]]]]]]]]]]]]].
    - unfold solve_linear_equation_system. cbn [cc_curve cc_params]. rn. rewrite EN. cbn [bind]. rewrite EC. cbn [bind]. unfold svd_solve.
      assert (NE : mis_empty N = false) by (unfold mis_empty; rewrite N1, N2; apply orb_false_iff; split; apply Nat.eqb_neq; lia). rewrite NE, N1, N3, Nat.eqb_refl, EX. reflexivity.
    - apply mtranspose_shape. exact SX.
    - assert (D := cl_deg _ _ _ (proj1 HA)). exists c, U, Q. split; [exact E|]. split; [exact J|]. split; [exact CC|]. split.
      + intros i d Hi Hd. rewrite H3, H1 by lia. cmp. (apply Rplus_0_r).
      + intros j d Hj Hd. rewrite H4, H2 by lia. cmp. (apply Rplus_0_r).
  Qed.
End Assembly.
