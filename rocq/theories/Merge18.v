(** * Merging over any numbers: the linear system and the points it moves *)

From Coq Require Import ZArith List Bool Arith Lia.
From Verif Require Import Num Vec MKnots MPoints MCurve MFit MMerge Hoare Lists Struct Api Facts3 Fit1 Fit4 Merge1 Merge3 Merge14 Merge15.
Import ListNotations.

Section Generic.
  Context {K : Num}.
  Notation Vec := (list K).
  Context (G : @gdiv K False).
  Context (D : forall (x : K) k, 0 < k -> ok False (ndiv x (nofnat k)) (fun _ => True)).

  Lemma madd_columns_gen (r c s n : nat) (A src : Mat K) : shape r c A -> shape r n src -> s + n <= c ->
    exists B, madd_columns A s n src = Val B /\ shape r c B /\
      forall y x, y < c -> x < r -> ent B y x = if ((s <=? y) && (y <? s + n))%bool then (ent A y x + ent src (y - s) x)%num else ent A y x.
  Proof.
    intros SA SS H. unfold madd_columns. rewrite (mcolumns_val A r c s n SA H). cbn [bind]. assert (SO := mcolumns_shape A r c s n SA H).
    assert (NS : ncols src = n) by apply SS. rewrite NS, Nat.eqb_refl. set (old := mkMat r (firstn n (skipn s (mcols A)))) in *.
    set (g := fun i => match vadd (nth i (mcols old) []) (nth i (mcols src) []) with Val v => v | _ => [] end).
    assert (GG : forall i, i < n -> vadd (nth i (mcols old) []) (nth i (mcols src) []) = Val (g i) /\ length (g i) = r /\ forall x, x < r -> nth x (g i) n0 = (ent old i x + ent src i x)%num).
    { intros i Hi. unfold g. assert (L1 : length (nth i (mcols old) []) = r) by (apply SO; exact Hi). assert (L2 : length (nth i (mcols src) []) = r) by (apply SS; exact Hi).
      destruct (vadd_val (nth i (mcols old) []) (nth i (mcols src) [])) as [v [E [L Hv]]]; [congruence|]. rewrite E. split; [reflexivity|]. split; [congruence|].
      intros x Hx. rewrite (Hv x n0) by lia. reflexivity. }
    rewrite (mapM_val _ g).
    - cbn [bind]. assert (NA : nrows A = r) by apply SA. rewrite NA.
      assert (SN : shape r n (mkMat r (map g (seq 0 n)))).
      { split; [reflexivity|]. split; [cbn [mcols]; rewrite map_length, seq_length; reflexivity|]. intros i Hi. cbn [mcols].
        rewrite (nth_indep _ [] (g 0)) by (rewrite map_length, seq_length; exact Hi). rewrite map_nth, seq_nth by exact Hi. apply GG. exact Hi. }
      rewrite (mset_columns_val A r c s n _ SA SN H). eexists. split; [reflexivity|]. split; [apply (mset_columns_shape A r c s n _ SA SN H)|].
      intros y x Hy Hx. unfold ent. cbn [mcols]. assert (LA : length (mcols A) = c) by apply SA. rewrite nth_segment_set by (try rewrite map_length, seq_length; lia).
      destruct (Nat.leb_spec s y), (Nat.ltb_spec y (s + n)); cbn [andb]; try reflexivity.
      rewrite (nth_indep _ [] (g 0)) by (rewrite map_length, seq_length; lia). rewrite map_nth, seq_nth by lia.
      destruct (GG (0 + (y - s)) ltac:(lia)) as [_ [_ T]]. rewrite T by exact Hx. cbn [Nat.add]. unfold ent, old. cbn [mcols]. rewrite nth_firstn by lia. rewrite nth_skipn. replace (s + (y - s)) with y by lia. reflexivity.
    - intros i Hi. apply in_seq in Hi. rewrite (mcol_val old r n i SO) by lia. cbn [bind]. rewrite (mcol_val src r n i SS) by lia. cbn [bind]. apply GG. lia.
  Qed.

  Section Both.
    Context {p m dim : nat} {V : Vec} {S_ : Mat K} {a : Curve K} (Wa : wf p m dim V S_ a).
    Context {o : nat} {W : Vec} {T_ : Mat K} {b : Curve K} (Wb : wf p o dim W T_ b).
    Context (Hp : 1 <= p) (pa pb : list K).
    Let N0 := 3 * p + length pa + length pb.

    (** the system depends on the curves and the constraints only *)
    Lemma posed : exists A B, construct_Nmat (mkCC a pa) (mkCC b pb) = Val A /\ (exists C, constructConstMat a b (length pa + length pb) = Val C /\ B = mtranspose C) /\ shape N0 N0 A /\ shape N0 dim B /\
      forall svd, solve_linear_equation_system svd (mkCC a pa) (mkCC b pb) = (X <- svd A B;; Val (mtranspose X)).
    Proof.
      destruct (ok_val_ex _ _ (Nmat_ok False G Wa Wb Hp pa pb)) as [N [EN SN]].
      assert (OC : ok False (constructConstMat a b (length pa + length pb)) (shape dim N0)).
      { unfold constructConstMat. rewrite (wf_degree Wa), (wf_dimension Wa). cbn [bind]. eapply (ok_bind False); [apply (Kconst_ok False G Wa Wb Hp pa pb)|]. cbv beta. intros Kc SK.
        replace (3 * p + (length pa + length pb)) with N0 by (unfold N0; lia). apply (ok_mset_view False dim N0); [apply mzeros_shape|exact SK|lia|unfold N0; lia]. }
      destruct (ok_val_ex _ _ OC) as [C [EC SC]]. assert (ST := mtranspose_shape dim N0 C SC).
      exists N, (mtranspose C). split; [exact EN|]. split; [exists C; split; [exact EC|reflexivity]|]. split; [exact SN|]. split; [exact ST|]. intros svd.
      unfold solve_linear_equation_system. cbn [cc_curve cc_params]. rewrite EN, EC. cbn [bind].
      unfold svd_solve. assert (H1 : nrows N = N0) by apply SN. assert (H2 : ncols N = N0) by apply SN. assert (H3 : nrows (mtranspose C) = N0) by apply ST.
      assert (NE : mis_empty N = false) by (unfold mis_empty; rewrite H1, H2; apply orb_false_iff; split; apply Nat.eqb_neq; unfold N0; lia). rewrite NE, H1, H3, Nat.eqb_refl. reflexivity.
    Qed.

    Context (DU : ok False (vdiv_scalar (map (@raw_knot K p m V W) (seq 0 (m + o + 3))) (@raw_knot K p m V W (m + o + 2))) (fun _ => True)).

    (** what becomes of the points when both curves have the same number of them *)
    Theorem core_moves svd X : solve_linear_equation_system svd (mkCC a pa) (mkCC b pb) = Val X -> shape dim N0 X -> m = o ->
      exists c (U : Vec) Q, merge_core svd p (mkCC a pa) (mkCC b pb) = Val (Ok c) /\
      vdiv_scalar (map (@raw_knot K p m V W) (seq 0 (m + o + 3))) (@raw_knot K p m V W (m + o + 2)) = Val U /\ length U = m + o + 3 /\ shape dim (m + o + 2 - p) Q /\ built p U Q c /\
      (forall i d, i < m + 1 - p -> d < dim -> ent Q i d = ent S_ i d) /\
      (forall d, 2 <= p -> d < dim -> ent Q (m + 1 - p) d = (ent S_ (m + 1 - p) d + ent X 0 d)%num) /\
      (forall d, d < dim -> ent Q m d = (ent T_ (p - 1) d + ent X (p + (p - 1)) d)%num) /\
      (forall j d, p <= j <= o -> d < dim -> ent Q (m + 1 - p + j) d = ent T_ j d).
    Proof.
      intros EX SX Hmo. assert (LV := wf_len _ _ _ _ _ _ Wa). assert (LW := wf_len _ _ _ _ _ _ Wb). assert (DV := wf_deg _ _ _ _ _ _ Wa). assert (DW := wf_deg _ _ _ _ _ _ Wb).
      assert (SS := wf_shape _ _ _ _ _ _ Wa). assert (ST := wf_shape _ _ _ _ _ _ Wb).
      unfold merge_core. cbn [cc_curve]. rewrite EX. cbn [bind].
      unfold shifted_points. rewrite (wf_degree Wa), (wf_matrix Wa), (wf_matrix Wb). cbn [bind]. assert (NS : ncols S_ = S m) by apply SS. rewrite NS. rewrite usub_ok by lia. cbn [bind].
      rewrite (mcolumns_val X dim _ 0 p SX) by (unfold N0; lia). cbn [bind]. assert (S1 := mcolumns_shape X dim _ 0 p SX ltac:(unfold N0; lia)).
      destruct (madd_columns_gen dim (S m) (S m - p) p S_ _ SS S1 ltac:(lia)) as [S' [ES [SS' HS]]]. rewrite ES. cbn [bind].
      rewrite (mcolumns_val X dim _ p p SX) by (unfold N0; lia). cbn [bind]. assert (S2 := mcolumns_shape X dim _ p p SX ltac:(unfold N0; lia)).
      destruct (madd_columns_gen dim (S o) 0 p T_ _ ST S2 ltac:(lia)) as [T' [ET [ST' HT]]]. rewrite ET. cbn [bind].
      destruct (knots_val Wa Wb) as [Va [Wr [Wd [E1 [L1 [L2 [L3 E2]]]]]]]. rewrite E1. cbn [bind]. rewrite E2.
      destruct (vdiv_scalar (map (@raw_knot K p m V W) (seq 0 (m + o + 3))) (@raw_knot K p m V W (m + o + 2))) as [U| | |] eqn:EU; cbn [ok] in DU; try contradiction. cbn [bind].
      assert (LU : length U = m + o + 3) by (unfold vdiv_scalar in EU; apply mapM_len in EU; rewrite map_length, seq_length in EU; apply EU).
      unfold adjust_shifted_control_points_of_both_splines. rewrite (wf_degree Wa), (wf_segments Wa), (wf_dimension Wa), (wf_vector Wa). cbn [bind].
      destruct (ok_val_ex _ _ (adjust_ok False G D p m (S m) dim V Va S' ltac:(lia) ltac:(lia) ltac:(lia) ltac:(lia) SS')) as [Sa [EA [SA HSA]]]. rewrite EA. cbn [bind].
      unfold mat_reversed. rewrite (mat_reverse_val T'). cbn [bind].
      assert (R2 : shape dim (S o) (mkMat (nrows T') (rev (mcols T')))) by (apply (mat_reversed_size T' _ dim (S o) ST'); unfold mat_reversed; apply mat_reverse_val).
      destruct (ok_val_ex _ _ (adjust_ok False G D p m (S o) dim Wr Wd _ ltac:(lia) ltac:(lia) ltac:(lia) ltac:(lia) R2)) as [Ta [EB [SB HTB]]]. rewrite EB. cbn [bind mcols] in *.
      rewrite (mat_reverse_val Ta). cbn [bind]. set (Tr := mkMat (nrows Ta) (rev (mcols Ta))).
      assert (R3 : shape dim (S m) Tr) by (apply (mat_reversed_size Ta _ dim (S m) SB); unfold mat_reversed; apply mat_reverse_val).
      unfold merged_points. rewrite (wf_degree Wa), (wf_dimension Wa), (wf_count Wa), (wf_count Wb). cbn [bind]. rewrite usub_ok by lia. cbn [bind].
      set (cc := S m + S o - p). assert (SZ := @mzeros_shape K dim cc). assert (H0 : 0 + S m <= cc) by (unfold cc; lia).
      rewrite (mset_columns_val (mzeros dim cc) dim cc 0 (S m) Sa SZ SA H0). cbn [bind]. rewrite usub_ok by lia. cbn [bind].
      set (Q1 := mkMat dim (firstn 0 (mcols (mzeros dim cc)) ++ mcols Sa ++ skipn (0 + S m) (mcols (mzeros dim cc)))). assert (SQ1 : shape dim cc Q1) by (apply (mset_columns_shape (mzeros dim cc) dim cc 0 (S m) Sa SZ SA H0)).
      assert (NQ1 : ncols Q1 = cc) by apply SQ1. rewrite NQ1. rewrite usub_ok by (unfold cc; lia). cbn [bind]. assert (NR3 : ncols Tr = S m) by apply R3. rewrite NR3. rewrite usub_ok by lia. cbn [bind].
      set (s2 := S m - (S o + 1 - p)). assert (H2 : s2 + (S o + 1 - p) <= S m) by (unfold s2; lia). rewrite (mcolumns_val Tr dim (S m) s2 (S o + 1 - p) R3 H2). cbn [bind].
      assert (R4 := mcolumns_shape Tr dim (S m) s2 (S o + 1 - p) R3 H2). assert (H3 : cc - (S o + 1 - p) + (S o + 1 - p) <= cc) by (unfold cc; lia).
      rewrite (mset_columns_val Q1 dim cc (cc - (S o + 1 - p)) (S o + 1 - p) _ SQ1 R4 H3). cbn [bind].
      assert (SQ := mset_columns_shape Q1 dim cc (cc - (S o + 1 - p)) (S o + 1 - p) _ SQ1 R4 H3). cbn [mcols] in SQ |- *.
      match type of SQ with shape _ _ ?x => set (Q := x) in * end.
      rewrite (knots_new_val p U) by lia. cbn [bind].
      assert (SQ' : shape dim (S (m + o + 1 - p)) Q) by (replace (S (m + o + 1 - p)) with cc by (unfold cc; lia); exact SQ).
      destruct (ok_val_ex _ _ (curve_new_ok False G p U (m + o + 1 - p) dim Q ltac:(lia) ltac:(lia) SQ')) as [r [EC [c [-> Wc]]]]. rewrite EC. cbn [bind].
      exists c, U, Q. split; [reflexivity|]. split; [reflexivity|]. split; [exact LU|]. split; [replace (m + o + 2 - p) with cc by (unfold cc; lia); exact SQ|].
      split; [exists (knots_of p U); split; [apply knots_new_val; lia|exact EC]|].
      assert (LSa : length (mcols Sa) = S m) by apply SA. assert (LTa : length (mcols Ta) = S m) by apply SB. assert (LT' : length (mcols T') = S o) by apply ST'.
      assert (LZ : length (mcols (@mzeros K dim cc)) = cc) by apply SZ. assert (LQ1 : length (mcols Q1) = cc) by apply SQ1.
      assert (LR4 : length (firstn (S o + 1 - p) (skipn s2 (mcols Tr))) = S o + 1 - p) by apply R4.
      assert (QL : forall i d, i < m -> i <= m - p + 1 -> ent Q i d = ent S' i d).
      { intros i d Hi Hi2. unfold ent, Q. cbn [mcols]. rewrite nth_segment_set by lia. replace (cc - (S o + 1 - p) <=? i) with false by (symmetry; apply Nat.leb_gt; unfold cc; lia). cbn [andb].
        unfold Q1. cbn [mcols]. rewrite nth_segment_set by lia. replace (i <? 0 + S m) with true by (symmetry; apply Nat.ltb_lt; lia). cbn [Nat.leb andb]. rewrite Nat.sub_0_r. rewrite HSA by lia. reflexivity. }
      assert (QR : forall j d, p - 1 <= j <= o -> ent Q (m + 1 - p + j) d = ent T' j d).
      { intros j d Hj. unfold ent, Q. cbn [mcols]. rewrite nth_segment_set by lia. replace (cc - (S o + 1 - p) <=? m + 1 - p + j) with true by (symmetry; apply Nat.leb_le; unfold cc; lia).
        replace (m + 1 - p + j <? cc - (S o + 1 - p) + (S o + 1 - p)) with true by (symmetry; apply Nat.ltb_lt; unfold cc; lia). cbn [andb].
        rewrite nth_segment by (unfold cc; lia). unfold Tr. cbn [mcols]. rewrite nth_rev by (unfold s2, cc; lia). rewrite LTa. rewrite HTB by (unfold s2, cc; lia).
        rewrite nth_rev by (unfold s2, cc; lia). rewrite LT'. do 2 f_equal. unfold s2, cc. lia. }
      split; [|split; [|split]].
      - intros i d Hi Hd. rewrite QL by lia. rewrite HS by lia. replace (S m - p <=? i) with false by (symmetry; apply Nat.leb_gt; lia). reflexivity.
      - intros d H4 Hd. rewrite QL by lia. rewrite HS by lia. replace (S m - p <=? m + 1 - p) with true by (symmetry; apply Nat.leb_le; lia). replace (m + 1 - p <? S m - p + p) with true by (symmetry; apply Nat.ltb_lt; lia).
        cbn [andb]. f_equal. unfold ent. cbn [mcols]. rewrite nth_segment by lia. do 2 f_equal. lia.
      - intros d Hd. assert (T := QR (p - 1) d ltac:(lia)). replace (m + 1 - p + (p - 1)) with m in T by lia. rewrite T. rewrite HT by lia.
        replace (p - 1 <? 0 + p) with true by (symmetry; apply Nat.ltb_lt; lia). cbn [Nat.leb andb]. f_equal. unfold ent. cbn [mcols]. rewrite nth_segment by lia. do 2 f_equal. lia.
      - intros j d Hj Hd. rewrite QR by lia. rewrite HT by lia. replace (j <? 0 + p) with false by (symmetry; apply Nat.ltb_ge; lia). cbn [Nat.leb andb]. reflexivity.
    Qed.
  End Both.
End Generic.
