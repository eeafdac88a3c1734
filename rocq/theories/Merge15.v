(** * Merging over any numbers: the assembled curve *)

From Coq Require Import ZArith List Bool Arith Lia.
From Verif Require Import Num Vec MKnots MPoints MCurve MFit MMerge Hoare Lists Struct Api Facts3 Fit1 Fit4 Merge1 Merge3 Merge14.
Import ListNotations.

(** a knot after one reversal *)
Definition rv {K : Num} (x : K) : K := ((x + nofZ (-1)) * nofZ (-1))%num.

Lemma F2len {A B} {P : A -> B -> Prop} l l' : Forall2 P l l' -> length l = length l'.
Proof. induction 1; cbn [length]; congruence. Qed.

Lemma mapM_panic {X A} (f : X -> M A) (l1 l2 : list X) x : (forall y, In y l1 -> exists z, f y = Val z) -> f x = Panic -> mapM f (l1 ++ x :: l2) = Panic.
Proof.
  intros H E. induction l1 as [|y l1 IH]; cbn [app mapM]; [rewrite E; reflexivity|].
  destruct (H y (or_introl eq_refl)) as [z Ez]. rewrite Ez. cbn [bind]. rewrite IH by (intros; apply H; right; assumption). reflexivity.
Qed.

Lemma mcol_panic {K : Num} (m : Mat K) r c i : shape r c m -> c <= i -> mcol m i = Panic.
Proof. intros [_ [L _]] H. unfold mcol, vget. rewrite (proj2 (nth_error_None (mcols m) i)) by lia. reflexivity. Qed.

Section Generic.
  Context {K : Num}.
  Notation Vec := (list K).
  Context (ud : Prop) (G : @gdiv K ud).
  Context (D : forall (x : K) k, 0 < k -> ok ud (ndiv x (nofnat k)) (fun _ => True)).

  (** ** the points *)
  Lemma derivative_point_ok p n c dim (U : Vec) (P : Mat K) k idx : length U = c + p + 1 -> shape dim c P -> n < c -> k <= p -> k <= n -> idx <= n - k ->
    ok ud (generateDerivativeControlPoint idx k P U p n dim) (fun v => length v = dim).
  Proof.
    intros L S Hn Hk Hk' Hi. unfold generateDerivativeControlPoint. rewrite usub_ok by lia. cbn [bind]. unfold assert. rewrite (proj2 (Nat.leb_le _ _) Hi). cbn [bind].
    assert (NP : ncols P = Datatypes.S (c - 1)) by (destruct S as [_ [S _]]; unfold ncols; lia). rewrite NP.
    apply ok_foldM_inv; [apply vzeros_length|]. intros z v Hz Lv. apply in_rangei in Hz. eapply ok_bind; [apply (prefactor_ok ud G); lia|]. intros f _.
    rewrite (mcol_val P dim c z S) by lia. cbn [bind]. apply ok_vadd; [exact Lv|]. rewrite vscale_length. apply S. lia.
  Qed.

  Section Adjust.
    Context (p n c dim : nat) (U0 Uadj : Vec) (P : Mat K).
    Context (Hp : 1 <= p <= n) (Hc : n < c) (L0 : length U0 = c + p + 1) (La : n + p < length Uadj) (SP : shape dim c P).

    Definition sound (r : list Vec) : Prop := forall j, j < length r -> length (nth j r []) = dim.

    Record state (low : nat) (base : nat) (q : list (list Vec)) : Prop := {
      st_len : length q = S n;
      st_row : forall i, i <= n -> sound (nth i q []) /\ 1 <= length (nth i q []);
      st_low : forall i, i <= n - p + 1 -> nth 0 (nth i q []) [] = nth i (mcols P) [];
      st_base : base <= length (nth (n - p + 1) q []);
      st_done : forall i, n - p + 2 <= i < low -> length (nth i q []) = n - i + 1
    }.

    Lemma sound_upd r i v : i < length r -> sound r -> length v = dim -> sound (upd r i v).
    Proof. intros Hi S Lv j Hj. rewrite upd_length in Hj. rewrite nth_upd by exact Hi. destruct (j =? i); [exact Lv|apply S; exact Hj]. Qed.

    Lemma sound_resize r k : sound r -> sound (resize r k (vzeros dim)) /\ length (resize r k (@vzeros K dim)) = k.
    Proof.
      intros H. assert (LR : length (resize r k (@vzeros K dim)) = k) by (unfold resize; rewrite app_length, firstn_length, repeat_length; lia). split; [|exact LR].
      intros j Hj. rewrite LR in Hj. unfold resize. destruct (Nat.lt_ge_cases j (length (firstn k r))) as [H1|H1].
      - rewrite app_nth1 by exact H1. rewrite firstn_length in H1. rewrite nth_firstn by lia. apply H. lia.
      - rewrite app_nth2 by exact H1. rewrite firstn_length in *. rewrite (nth_indep _ [] (vzeros dim)) by (rewrite repeat_length; lia). rewrite nth_repeat. apply vzeros_length.
    Qed.

    Lemma adjust_ok : ok ud (adjust_shifted_control_points P U0 Uadj p n dim) (fun Q => shape dim (S n) Q /\ forall i, i <= n - p + 1 -> nth i (mcols Q) [] = nth i (mcols P) []).
    Proof.
      unfold adjust_shifted_control_points. set (col := fun i => nth i (mcols P) []).
      rewrite (mapM_val _ (fun i => [col i])) by (intros i Hi; unfold range in Hi; apply in_seq in Hi; rewrite (mcol_val P dim c i SP) by lia; reflexivity).
      cbn [bind]. rewrite usub_ok by lia. cbn [bind]. rewrite usub_ok by lia. cbn [bind].
      eapply ok_bind with (Q := state (n - p + 2) (S p)).
      { eapply ok_weaken; [apply (ok_foldM_rangei _ _ (fun k q => state (n - p + 2) (S k) q))|].
        - lia.
        - unfold range. replace (n + 1 - 0) with (S n) by lia.
          assert (NM : forall i, i <= n -> nth i (map (fun i => [col i]) (seq 0 (S n))) [] = [col i]).
          { intros i Hi. rewrite (nth_indep _ [] [col 0]) by (rewrite map_length, seq_length; lia). rewrite (map_nth (fun i => [col i])), seq_nth by lia. reflexivity. }
          split.
          + rewrite map_length, seq_length. reflexivity.
          + intros i Hi. rewrite NM by exact Hi. split; [|cbn; lia]. intros k Hk. cbn in Hk. replace k with 0 by lia. cbn [nth]. apply SP. lia.
          + intros i Hi. rewrite NM by lia. reflexivity.
          + rewrite NM by lia. cbn. lia.
          + intros; lia.
        - intros k q Hk [Q1 Q2 Q3 Q4 Q5]. eapply ok_bind; [apply (derivative_point_ok p n c); [exact L0|exact SP|lia|lia|lia|lia]|]. intros v Lv.
          rewrite (vget_nth q (n - p + 1) []) by lia. cbn [bind]. rewrite vset_val by lia.
          assert (NU : forall i, nth i (upd q (n - p + 1) (nth (n - p + 1) q [] ++ [v])) [] = if i =? n - p + 1 then nth (n - p + 1) q [] ++ [v] else nth i q []) by (intros; apply nth_upd; lia).
          split.
          + rewrite upd_length. exact Q1.
          + intros i Hi. rewrite NU. destruct (Nat.eqb_spec i (n - p + 1)) as [->|]; [|apply Q2; exact Hi]. destruct (Q2 _ Hi) as [R1 R2]. split; [|rewrite app_length; lia].
            intros j Hj. rewrite app_length in Hj. cbn [length] in Hj. destruct (Nat.lt_ge_cases j (length (nth (n - p + 1) q []))) as [H|H]; [rewrite app_nth1 by exact H; apply R1; exact H|].
            rewrite app_nth2 by exact H. replace (j - length (nth (n - p + 1) q [])) with 0 by lia. exact Lv.
          + intros i Hi. rewrite NU. destruct (Nat.eqb_spec i (n - p + 1)) as [->|]; [|apply Q3; exact Hi]. rewrite app_nth1 by (apply Q2; lia). apply Q3. lia.
          + rewrite NU, Nat.eqb_refl, app_length. cbn [length]. lia.
          + intros; lia.
        - intros q. replace (p - 1 + 1) with p by lia. exact (fun H => H). }
      intros q T. eapply ok_bind with (Q := state (n + 1) (S p)).
      { eapply ok_weaken; [apply (ok_foldM_rangei _ _ (fun i q => state i (S p) q))|].
        - lia.
        - exact T.
        - clear q T. intros i q Hi T. rewrite (vget_nth q i []) by (rewrite (st_len _ _ _ T); lia). cbn [bind]. rewrite usub_ok by lia. cbn [bind].
          rewrite vset_val by (rewrite (st_len _ _ _ T); lia). cbn [bind].
          destruct (sound_resize (nth i q []) (n - i + 1) (proj1 (st_row _ _ _ T i ltac:(lia)))) as [R1 R2].
          set (q' := upd q i (resize (nth i q []) (n - i + 1) (@vzeros K dim))).
          assert (PL : n - i + 2 <= length (nth (i - 1) q [])).
          { destruct (Nat.eq_dec i (n - p + 2)) as [->|N]; [replace (n - p + 2 - 1) with (n - p + 1) by lia; assert (X := st_base _ _ _ T); lia|]. rewrite (st_done _ _ _ T) by lia. lia. }
          eapply ok_weaken; [apply (ok_foldM_inv _ _ (fun r => length r = S n /\ (forall j, j <> i -> nth j r [] = nth j q []) /\ sound (nth i r []) /\ length (nth i r []) = n - i + 1))|].
          + unfold q'. split; [rewrite upd_length; apply (st_len _ _ _ T)|]. split.
            * intros j Hj. rewrite nth_upd by (rewrite (st_len _ _ _ T); lia). destruct (Nat.eqb_spec j i); [contradiction|reflexivity].
            * rewrite nth_upd by (rewrite (st_len _ _ _ T); lia). rewrite Nat.eqb_refl. split; assumption.
          + intros k r Hk [B1 [B2 [B3 B4]]]. apply in_rev in Hk. apply in_rangei in Hk. rewrite (vget_nth Uadj (i + p) n0) by lia. cbn [bind]. rewrite (vget_nth Uadj (i + k) n0) by lia. cbn [bind].
            rewrite usub_ok by lia. cbn [bind]. eapply ok_bind; [apply D; lia|]. intros s _. rewrite usub_ok by lia. cbn [bind]. rewrite (vget_nth r (i - 1) []) by lia. cbn [bind]. rewrite B2 by lia.
            rewrite (vget_nth (nth (i - 1) q []) (k + 1) []) by lia. cbn [bind]. rewrite (vget_nth (nth (i - 1) q []) k []) by lia. cbn [bind].
            assert (RS := proj1 (st_row _ _ _ T (i - 1) ltac:(lia))).
            eapply ok_bind; [apply (ok_vadd ud _ _ dim); [rewrite vscale_length; apply RS; lia|apply RS; lia]|]. intros v Lv. cbv beta in Lv. rewrite (vget_nth r i []) by lia. cbn [bind]. rewrite vset_val by lia. cbn [bind]. rewrite vset_val by lia.
            split; [rewrite upd_length; exact B1|]. split; [intros j Hj; rewrite nth_upd by lia; destruct (Nat.eqb_spec j i); [contradiction|apply B2; exact Hj]|].
            rewrite nth_upd by lia. rewrite Nat.eqb_refl. split; [apply sound_upd; [lia|exact B3|exact Lv]|rewrite upd_length; exact B4].
          + intros r [B1 [B2 [B3 B4]]]. split.
            * exact B1.
            * intros j Hj. destruct (Nat.eq_dec j i) as [->|N]; [split; [exact B3|lia]|]. rewrite B2 by exact N. apply (st_row _ _ _ T). exact Hj.
            * intros j Hj. rewrite B2 by lia. apply (st_low _ _ _ T). exact Hj.
            * rewrite B2 by lia. apply (st_base _ _ _ T).
            * intros j Hj. destruct (Nat.eq_dec j i) as [->|N]; [exact B4|]. rewrite B2 by exact N. apply (st_done _ _ _ T). lia.
        - intros r. exact (fun H => H). }
      intros r T2. eapply ok_weaken; [apply (ok_foldM_range _ _ (fun k Q => shape dim (S n) Q /\ forall i, i < k -> nth i (mcols Q) [] = nth 0 (nth i r []) []))|].
      - lia.
      - split; [replace (n + 1) with (S n) by lia; apply mzeros_shape|intros; lia].
      - intros k Q Hk [SQ HQ]. rewrite (vget_nth r k []) by (rewrite (st_len _ _ _ T2); lia). cbn [bind]. destruct (st_row _ _ _ T2 k ltac:(lia)) as [R1 R2].
        rewrite (vget_nth (nth k r []) 0 []) by lia. cbn [bind]. assert (LK := R1 0 ltac:(lia)). rewrite (mset_col_val Q dim (S n) k _ SQ) by lia.
        split; [apply (upd_shape Q); [exact SQ|lia|exact LK]|]. cbn [mcols]. intros i Hi. rewrite nth_upd by (destruct SQ as [_ [X _]]; lia).
        destruct (Nat.eqb_spec i k) as [->|]; [reflexivity|apply HQ; lia].
      - intros Q [SQ HQ]. split; [exact SQ|]. intros i Hi. rewrite HQ by lia. apply (st_low _ _ _ T2). exact Hi.
    Qed.
  End Adjust.

  (** the left curve has more points than the right one: a column is missing *)
  Lemma adjust_panics p n c dim (U0 Uadj : Vec) (P : Mat K) : shape dim c P -> c <= n -> adjust_shifted_control_points P U0 Uadj p n dim = Panic.
  Proof.
    intros S H. unfold adjust_shifted_control_points, range. replace (n + 1 - 0) with (c + (1 + (n - c))) by lia. rewrite seq_app. cbn [seq Nat.add].
    rewrite mapM_panic; [reflexivity| |].
    - intros i Hi. apply in_seq in Hi. rewrite (mcol_val P dim c i S) by lia. cbn [bind]. eexists. reflexivity.
    - rewrite (mcol_panic P dim c) by (try exact S; lia). reflexivity.
  Qed.

  (** ** the knots *)
  Lemma adjust_knots_val p (L Rt : Vec) nL : nL + 2 <= length L -> 2 * p + 1 <= length Rt ->
    exists A, adjust_knots p L nL Rt = Val A /\ length A = nL + p + 2 /\ forall i, i < nL + 2 -> nth i A n0 = nth i L n0.
  Proof.
    intros HL HR. unfold adjust_knots. rewrite head_val by exact HL. cbn [bind]. unfold head_set.
    assert (LH : length (firstn (nL + 2) L) = nL + 2) by (rewrite firstn_length; lia).
    rewrite segment_set_val by (rewrite ?vzeros_length; lia). cbn [bind]. rewrite segment_val by lia. cbn [bind].
    set (z := @vzeros K (nL + p + 2)). assert (Lz : length z = nL + p + 2) by apply vzeros_length.
    set (A1 := firstn 0 z ++ firstn (nL + 2) L ++ skipn (0 + (nL + 2)) z).
    assert (L1 : length A1 = nL + p + 2) by (unfold A1; rewrite segment_set_length by lia; exact Lz).
    match goal with |- context [tail_set ?X _ _] => change X with A1 end. unfold tail_set. rewrite L1. rewrite usub_ok by lia. cbn [bind].
    assert (LS : length (vadd_scalar (firstn p (skipn (p + 1) Rt)) (@n1 K)) = p) by (unfold vadd_scalar; rewrite map_length; apply segment_length; lia).
    rewrite segment_set_val by lia. eexists. split; [reflexivity|]. split; [rewrite segment_set_length by lia; exact L1|].
    intros i Hi. rewrite nth_segment_set by lia. replace (nL + p + 2 - p <=? i) with false by (symmetry; apply Nat.leb_gt; lia). cbn [andb].
    unfold A1. rewrite nth_segment_set by lia. replace (i <? 0 + (nL + 2)) with true by (symmetry; apply Nat.ltb_lt; lia).
    cbn [Nat.leb andb]. rewrite Nat.sub_0_r. apply nth_firstn. lia.
  Qed.

  Section Both.
    Context {p m dim : nat} {V : Vec} {S_ : Mat K} {a : Curve K} (Wa : wf p m dim V S_ a).
    Context {o : nat} {W : Vec} {T_ : Mat K} {b : Curve K} (Wb : wf p o dim W T_ b).

    (** the merged knots before they are scaled to [[0, 1]] *)
    Definition raw_knot (i : nat) : K := if i <? m + 2 then nth i V n0 else (rv (rv (nth (i + p - 1 - m) W n0)) + n1)%num.

    Lemma knots_val : exists Va Wr Wd, adjust_knots_of_both_splines a b = Val (Va, Wr, Wd) /\ length Va = m + p + 2 /\ length Wr = o + p + 2 /\ length Wd = o + p + 2 /\
      create_merged_knot_vector a b Va Wd = vdiv_scalar (map raw_knot (seq 0 (m + o + 3))) (raw_knot (m + o + 2)).
    Proof.
      assert (LV := wf_len _ _ _ _ _ _ Wa). assert (LW := wf_len _ _ _ _ _ _ Wb). assert (DV := wf_deg _ _ _ _ _ _ Wa). assert (DW := wf_deg _ _ _ _ _ _ Wb).
      destruct (adjust_knots_val p V W m ltac:(lia) ltac:(lia)) as [Va [EVa [LVa HVa]]].
      set (rW := map rv (rev W)). set (rV := map rv (rev V)). assert (LrW : length rW = o + p + 2) by (unfold rW; rewrite map_length, rev_length; exact LW).
      assert (LrV : length rV = m + p + 2) by (unfold rV; rewrite map_length, rev_length; exact LV).
      destruct (adjust_knots_val p rW rV o ltac:(lia) ltac:(lia)) as [Wr [EWr [LWr HWr]]].
      set (Wd := vadd_scalar (map rv (rev Wr)) (@n1 K)). assert (LWd : length Wd = o + p + 2) by (unfold Wd, vadd_scalar; rewrite !map_length, rev_length; exact LWr).
      exists Va, rW, Wd. split; [|split; [exact LVa|split; [exact LrW|split; [exact LWd|]]]].
      { unfold adjust_knots_of_both_splines. rewrite (wf_degree Wa), (wf_segments Wa), (wf_segments Wb), (wf_vector Wa), (wf_vector Wb). cbn [bind]. rewrite EVa. cbn [bind]. unfold vec_reversed.
        assert (VR : forall v : Vec, vec_reverse v = Val (map rv (rev v))) by (intros; apply vec_reverse_val). rewrite !VR. cbn [bind]. fold rW rV. rewrite EWr. cbn [bind]. rewrite VR. reflexivity. }
      assert (HWd : forall i, p <= i < o + p + 2 -> nth i Wd n0 = (rv (rv (nth i W n0)) + n1)%num).
      { intros i Hi. unfold Wd, vadd_scalar. rewrite (nth_indep _ n0 (rv n0 + n1)%num) by (rewrite !map_length, rev_length; lia).
        rewrite (map_nth (fun x => (x + n1)%num)), (map_nth rv). f_equal. f_equal. rewrite nth_rev by lia. rewrite HWr by lia. unfold rW.
        rewrite (nth_indep _ n0 (rv n0)) by (rewrite map_length, rev_length; lia). rewrite (map_nth rv). f_equal. rewrite nth_rev by lia. f_equal. lia. }
      unfold create_merged_knot_vector. rewrite (wf_segments Wa), (wf_segments Wb). cbn [bind]. rewrite head_val by lia. cbn [bind]. unfold head_set.
      set (z := @vzeros K (m + 2 + o + 1)). assert (Lz : length z = m + 2 + o + 1) by apply vzeros_length.
      assert (LH : length (firstn (m + 2) Va) = m + 2) by (rewrite firstn_length; lia).
      rewrite segment_set_val by lia. cbn [bind]. set (U1 := firstn 0 z ++ firstn (m + 2) Va ++ skipn (0 + (m + 2)) z).
      assert (L1 : length U1 = m + 2 + o + 1) by (unfold U1; rewrite segment_set_length by lia; exact Lz).
      rewrite tail_val by lia. cbn [bind]. set (t := skipn (length Wd - (o + 1)) Wd). assert (Lt : length t = o + 1) by (unfold t; rewrite skipn_length; lia).
      unfold tail_set. rewrite L1, usub_ok by lia. cbn [bind]. replace (m + 2 + o + 1 - (o + 1)) with (m + 2) by lia. rewrite segment_set_val by lia. cbn [bind].
      set (U2 := firstn (m + 2) U1 ++ t ++ skipn (m + 2 + (o + 1)) U1). assert (L2 : length U2 = m + 2 + o + 1) by (unfold U2; rewrite segment_set_length by lia; exact L1).
      assert (H2 : forall i, i < m + 2 + o + 1 -> nth i U2 n0 = raw_knot i).
      { intros i Hi. unfold U2, raw_knot. rewrite nth_segment_set by lia. destruct (Nat.ltb_spec i (m + 2)) as [H|H].
        - replace (m + 2 <=? i) with false by (symmetry; apply Nat.leb_gt; lia). cbn [andb]. unfold U1. rewrite nth_segment_set by lia.
          replace (i <? 0 + (m + 2)) with true by (symmetry; apply Nat.ltb_lt; lia). cbn [Nat.leb andb]. rewrite Nat.sub_0_r. rewrite nth_firstn by lia. apply HVa. lia.
        - replace (m + 2 <=? i) with true by (symmetry; apply Nat.leb_le; lia). replace (i <? m + 2 + (o + 1)) with true by (symmetry; apply Nat.ltb_lt; lia). cbn [andb].
          unfold t. rewrite nth_skipn. rewrite HWd by lia. do 4 f_equal. lia. }
      rewrite (vget_nth U2 (m + o + 2) n0) by lia. cbn [bind]. rewrite H2 by lia. f_equal.
      apply (list_ext n0); [rewrite map_length, seq_length; lia|]. intros i Hi. rewrite H2 by lia.
      rewrite (nth_indep _ n0 (raw_knot 0)) by (rewrite map_length, seq_length; lia). rewrite (map_nth raw_knot), seq_nth by lia. reflexivity.
    Qed.

    Context (Hp : 1 <= p) (pa pb : list K).
    Context (svd : Mat K -> Mat K -> M (Mat K)) (R : forall A B, ok ud (svd A B) (shape (ncols A) (ncols B))).
    Context (DU : ok ud (vdiv_scalar (map raw_knot (seq 0 (m + o + 3))) (raw_knot (m + o + 2))) (fun _ => True)).

    Lemma shifted_ok X : shape dim (3 * p + length pa + length pb) X -> ok ud (shifted_points a b X) (fun r => shape dim (S m) (fst r) /\ shape dim (S o) (snd r) /\
      (forall i, i < m + 1 - p -> nth i (mcols (fst r)) [] = nth i (mcols S_) []) /\ forall j, p <= j -> nth j (mcols (snd r)) [] = nth j (mcols T_) []).
    Proof.
      intros SX. assert (DV := wf_deg _ _ _ _ _ _ Wa). assert (DW := wf_deg _ _ _ _ _ _ Wb). assert (SS := wf_shape _ _ _ _ _ _ Wa). assert (ST := wf_shape _ _ _ _ _ _ Wb).
      unfold shifted_points. rewrite (wf_degree Wa), (wf_matrix Wa), (wf_matrix Wb). cbn [bind]. assert (NS : ncols S_ = S m) by apply SS. rewrite NS. rewrite usub_ok by lia. cbn [bind].
      assert (AD : forall (A src : Mat K) s cc, shape dim cc A -> shape dim p src -> s + p <= cc -> ok ud (madd_columns A s p src) (fun B => shape dim cc B /\ forall i, i < s \/ s + p <= i -> nth i (mcols B) [] = nth i (mcols A) [])).
      { intros A src s cc SA Ssrc Hs. unfold madd_columns. rewrite (mcolumns_val A dim cc s p SA Hs). cbn [bind]. assert (S1 := mcolumns_shape A dim cc s p SA Hs).
        assert (Nsrc : ncols src = p) by apply Ssrc. rewrite Nsrc, Nat.eqb_refl.
        eapply ok_bind; [apply (ok_mapM ud _ (fun _ (v : Vec) => length v = dim))|].
        - intros i Hi. apply in_seq in Hi. rewrite (mcol_val _ dim p i S1) by lia. cbn [bind]. rewrite (mcol_val src dim p i Ssrc) by lia. cbn [bind]. apply ok_vadd; [apply S1; lia|apply Ssrc; lia].
        - intros new F. assert (LN : length new = p) by (rewrite <- (F2len _ _ F), seq_length; reflexivity).
          assert (SN : shape dim p (mkMat (nrows A) new)).
          { split; [apply SA|]. split; [exact LN|]. intros i Hi. cbn [mcols]. clear -F Hi. revert i Hi. remember (seq 0 p) as l eqn:El. assert (Ll : length l = p) by (rewrite El, seq_length; reflexivity). clear El. revert p Ll.
            induction F as [|x y l l' H F IH]; intros p Ll i Hi; [cbn in Ll; lia|]. destruct i as [|i]; [exact H|]. cbn [nth]. apply (IH (p - 1)); cbn in Ll; lia. }
          rewrite (mset_columns_val A dim cc s p _ SA SN Hs). split; [apply (mset_columns_shape A dim cc s p _ SA SN Hs)|].
          intros i Hi. cbn [mcols]. destruct SA as [_ [LA _]]. rewrite nth_segment_set by lia. destruct Hi as [Hi|Hi].
          + replace (s <=? i) with false by (symmetry; apply Nat.leb_gt; lia). reflexivity.
          + replace (i <? s + p) with false by (symmetry; apply Nat.ltb_ge; lia). rewrite andb_false_r. reflexivity. }
      rewrite (mcolumns_val X dim _ 0 p SX) by lia. cbn [bind]. eapply ok_bind; [apply (AD S_ _ (S m - p) (S m) SS (mcolumns_shape X dim _ 0 p SX ltac:(lia))); lia|]. intros S' [SS' HS].
      rewrite (mcolumns_val X dim _ p p SX) by lia. cbn [bind]. eapply ok_bind; [apply (AD T_ _ 0 (S o) ST (mcolumns_shape X dim _ p p SX ltac:(lia))); lia|]. intros T' [ST' HT].
      cbn [fst snd ok]. split; [exact SS'|]. split; [exact ST'|]. split; [intros i Hi; apply HS; lia|intros j Hj; apply HT; lia].
    Qed.

    Theorem core_ok : m <= o < m + p -> ok ud (merge_core svd p (mkCC a pa) (mkCC b pb)) (fun r => exists c (U : Vec) Q, r = Ok c /\
      vdiv_scalar (map raw_knot (seq 0 (m + o + 3))) (raw_knot (m + o + 2)) = Val U /\ length U = m + o + 3 /\ shape dim (m + o + 2 - p) Q /\ built p U Q c /\
      (forall i, i < m + 1 - p -> nth i (mcols Q) [] = nth i (mcols S_) []) /\
      (forall j, p <= j <= o -> p + o <= j + m + 1 -> nth (m + 1 - p + j) (mcols Q) [] = nth j (mcols T_) [])).
    Proof.
      intros Hmo. assert (LV := wf_len _ _ _ _ _ _ Wa). assert (LW := wf_len _ _ _ _ _ _ Wb). assert (DV := wf_deg _ _ _ _ _ _ Wa). assert (DW := wf_deg _ _ _ _ _ _ Wb).
      unfold merge_core. cbn [cc_curve]. eapply ok_bind; [apply (system_ok ud G Wa Wb Hp pa pb svd R)|]. intros X SX.
      eapply ok_bind; [apply (shifted_ok X SX)|]. intros [S' T'] [SS' [ST' [HS HT]]]. cbn [fst snd] in *.
      destruct knots_val as [Va [Wr [Wd [E1 [L1 [L2 [L3 E2]]]]]]]. rewrite E1. cbn [bind]. rewrite E2.
      destruct (vdiv_scalar (map raw_knot (seq 0 (m + o + 3))) (raw_knot (m + o + 2))) as [U| | |] eqn:EU; cbn [ok] in DU; try contradiction; [|exact DU]. cbn [bind].
      assert (LU : length U = m + o + 3) by (unfold vdiv_scalar in EU; apply mapM_len in EU; rewrite map_length, seq_length in EU; apply EU).
      unfold adjust_shifted_control_points_of_both_splines. rewrite (wf_degree Wa), (wf_segments Wa), (wf_dimension Wa), (wf_vector Wa). cbn [bind].
      apply ok_bind'. eapply ok_bind; [apply (adjust_ok p m (S m) dim V Va S'); [lia|lia|lia|lia|exact SS']|]. intros Sa [SA HSA].
      unfold mat_reversed. rewrite (mat_reverse_val T'). cbn [bind].
      assert (R2 : shape dim (S o) (mkMat (nrows T') (rev (mcols T')))) by (apply (mat_reversed_size T' _ dim (S o) ST'); unfold mat_reversed; apply mat_reverse_val).
      eapply ok_bind; [apply (adjust_ok p m (S o) dim Wr Wd); [lia|lia|lia|lia|exact R2]|]. intros Ta [SB HTB]. cbn [mcols] in HTB.
      rewrite (mat_reverse_val Ta). cbn [bind]. set (Tr := mkMat (nrows Ta) (rev (mcols Ta))).
      assert (R3 : shape dim (S m) Tr) by (apply (mat_reversed_size Ta _ dim (S m) SB); unfold mat_reversed; apply mat_reverse_val).
      cbn [ok]. unfold merged_points. rewrite (wf_degree Wa), (wf_dimension Wa), (wf_count Wa), (wf_count Wb). cbn [bind]. rewrite usub_ok by lia. cbn [bind].
      set (cc := S m + S o - p). assert (SZ := @mzeros_shape K dim cc). assert (H0 : 0 + S m <= cc) by (unfold cc; lia).
      rewrite (mset_columns_val (mzeros dim cc) dim cc 0 (S m) Sa SZ SA H0). cbn [bind]. rewrite usub_ok by lia. cbn [bind].
      set (Q1 := mkMat dim (firstn 0 (mcols (mzeros dim cc)) ++ mcols Sa ++ skipn (0 + S m) (mcols (mzeros dim cc)))). assert (SQ1 : shape dim cc Q1) by (apply (mset_columns_shape (mzeros dim cc) dim cc 0 (S m) Sa SZ SA H0)).
      assert (NQ1 : ncols Q1 = cc) by apply SQ1. rewrite NQ1. rewrite usub_ok by (unfold cc; lia). cbn [bind]. assert (NR3 : ncols Tr = S m) by apply R3. rewrite NR3. rewrite usub_ok by lia. cbn [bind].
      set (s2 := S m - (S o + 1 - p)). assert (H2 : s2 + (S o + 1 - p) <= S m) by (unfold s2; lia). rewrite (mcolumns_val Tr dim (S m) s2 (S o + 1 - p) R3 H2). cbn [bind].
      assert (R4 := mcolumns_shape Tr dim (S m) s2 (S o + 1 - p) R3 H2). assert (H3 : cc - (S o + 1 - p) + (S o + 1 - p) <= cc) by (unfold cc; lia).
      rewrite (mset_columns_val Q1 dim cc (cc - (S o + 1 - p)) (S o + 1 - p) _ SQ1 R4 H3). cbn [bind].
      assert (SQ := mset_columns_shape Q1 dim cc (cc - (S o + 1 - p)) (S o + 1 - p) _ SQ1 R4 H3). cbn [mcols] in SQ |- *.
      match type of SQ with shape _ _ ?x => set (Q := x) in * end.
      rewrite (knots_new_val p U) by lia. cbn [bind].
      assert (SQ' : shape dim (S (m + o + 1 - p)) Q) by (replace (S (m + o + 1 - p)) with cc by (unfold cc; lia); exact SQ).
      assert (CN := curve_new_ok ud G p U (m + o + 1 - p) dim Q ltac:(lia) ltac:(lia) SQ').
      destruct (curve_new (knots_of p U) (cp_new Q)) as [r| | |] eqn:EC; cbn [ok bind] in CN |- *; try contradiction; [|exact CN].
      destruct CN as [c [-> Wc]]. exists c, U, Q. split; [reflexivity|]. split; [reflexivity|]. split; [exact LU|]. split; [replace (m + o + 2 - p) with cc by (unfold cc; lia); exact SQ|].
      split; [exists (knots_of p U); split; [apply knots_new_val; lia|exact EC]|].
      assert (LSa : length (mcols Sa) = S m) by apply SA. assert (LTa : length (mcols Ta) = S m) by apply SB. assert (LT' : length (mcols T') = S o) by apply ST'.
      assert (LZ : length (mcols (@mzeros K dim cc)) = cc) by apply SZ. assert (LQ1 : length (mcols Q1) = cc) by apply SQ1.
      assert (LR4 : length (firstn (S o + 1 - p) (skipn s2 (mcols Tr))) = S o + 1 - p) by apply R4.
      split.
      - intros i Hi. unfold Q. cbn [mcols]. rewrite nth_segment_set by lia. replace (cc - (S o + 1 - p) <=? i) with false by (symmetry; apply Nat.leb_gt; unfold cc; lia). cbn [andb].
        unfold Q1. cbn [mcols]. rewrite nth_segment_set by lia. replace (i <? 0 + S m) with true by (symmetry; apply Nat.ltb_lt; lia). cbn [Nat.leb andb]. rewrite Nat.sub_0_r. rewrite HSA by lia. apply HS. exact Hi.
      - intros j Hj Hj2. unfold Q. cbn [mcols]. rewrite nth_segment_set by lia. replace (cc - (S o + 1 - p) <=? m + 1 - p + j) with true by (symmetry; apply Nat.leb_le; unfold cc; lia).
        replace (m + 1 - p + j <? cc - (S o + 1 - p) + (S o + 1 - p)) with true by (symmetry; apply Nat.ltb_lt; unfold cc; lia). cbn [andb].
        rewrite nth_segment by (unfold cc; lia). unfold Tr. cbn [mcols]. rewrite nth_rev by (unfold s2, cc; lia). rewrite LTa. rewrite HTB by (unfold s2, cc; lia).
        rewrite nth_rev by (unfold s2, cc; lia). rewrite LT'. rewrite <- (HT j) by lia. f_equal. unfold s2, cc. lia.
    Qed.

    (** too many or too few points on the right: the call panics *)
    Theorem core_panics : ~ ud -> o < m \/ m + p <= o -> merge_core svd p (mkCC a pa) (mkCC b pb) = Panic.
    Proof.
      intros NU Hmo. assert (LV := wf_len _ _ _ _ _ _ Wa). assert (LW := wf_len _ _ _ _ _ _ Wb). assert (DV := wf_deg _ _ _ _ _ _ Wa). assert (DW := wf_deg _ _ _ _ _ _ Wb).
      assert (NE : forall A (x : M A) Q, ok ud x Q -> exists y, x = Val y /\ Q y) by (intros A [x| | |] Q H; cbn in H; try contradiction; eauto).
      unfold merge_core. cbn [cc_curve]. destruct (NE _ _ _ (system_ok ud G Wa Wb Hp pa pb svd R)) as [X [EX SX]]. rewrite EX. cbn [bind].
      destruct (NE _ _ _ (shifted_ok X SX)) as [[S' T'] [ES [SS' [ST' _]]]]. cbn [fst snd] in *. rewrite ES. cbn [bind].
      destruct knots_val as [Va [Wr [Wd [E1 [L1 [L2 [L3 E2]]]]]]]. rewrite E1. cbn [bind]. rewrite E2.
      destruct (NE _ _ _ DU) as [U [EU _]]. rewrite EU. cbn [bind].
      unfold adjust_shifted_control_points_of_both_splines. rewrite (wf_degree Wa), (wf_segments Wa), (wf_dimension Wa), (wf_vector Wa). cbn [bind].
      destruct (NE _ _ _ (adjust_ok p m (S m) dim V Va S' ltac:(lia) ltac:(lia) ltac:(lia) ltac:(lia) SS')) as [Sa [EA [SA _]]]. rewrite EA. cbn [bind].
      unfold mat_reversed. rewrite (mat_reverse_val T'). cbn [bind].
      assert (R2 : shape dim (S o) (mkMat (nrows T') (rev (mcols T')))) by (apply (mat_reversed_size T' _ dim (S o) ST'); unfold mat_reversed; apply mat_reverse_val).
      destruct (Nat.lt_ge_cases o m) as [H|H]; [rewrite (adjust_panics p m (S o) dim) by (try exact R2; lia); reflexivity|].
      destruct (NE _ _ _ (adjust_ok p m (S o) dim Wr Wd _ ltac:(lia) ltac:(lia) ltac:(lia) ltac:(lia) R2)) as [Ta [EB [SB _]]]. rewrite EB. cbn [bind].
      rewrite (mat_reverse_val Ta). cbn [bind]. set (Tr := mkMat (nrows Ta) (rev (mcols Ta))).
      assert (R3 : shape dim (S m) Tr) by (apply (mat_reversed_size Ta _ dim (S m) SB); unfold mat_reversed; apply mat_reverse_val).
      unfold merged_points. rewrite (wf_degree Wa), (wf_dimension Wa), (wf_count Wa), (wf_count Wb). cbn [bind]. rewrite usub_ok by lia. cbn [bind].
      set (cc := S m + S o - p). assert (SZ := @mzeros_shape K dim cc). assert (H0 : 0 + S m <= cc) by (unfold cc; lia).
      rewrite (mset_columns_val (mzeros dim cc) dim cc 0 (S m) Sa SZ SA H0). cbn [bind]. rewrite usub_ok by lia. cbn [bind].
      set (Q1 := mkMat dim (firstn 0 (mcols (mzeros dim cc)) ++ mcols Sa ++ skipn (0 + S m) (mcols (mzeros dim cc)))). assert (SQ1 : shape dim cc Q1) by (apply (mset_columns_shape (mzeros dim cc) dim cc 0 (S m) Sa SZ SA H0)).
      assert (NQ1 : ncols Q1 = cc) by apply SQ1. rewrite NQ1. rewrite usub_ok by (unfold cc; lia). cbn [bind]. assert (NR3 : ncols Tr = S m) by apply R3. rewrite NR3.
      unfold usub. replace (S o + 1 - p <=? S m) with false by (symmetry; apply Nat.leb_gt; lia). reflexivity.
    Qed.
  End Both.
End Generic.
