(** * The fixed-ends fit *)

From Coq Require Import ZArith Reals List Bool Arith Lia Lra.
From Verif Require Import Num Vec MKnots MPoints MCurve MFit MGenerate RNum Hoare Lists Struct Spec BMath BMath2 Api Bridge Facts1 Gen1 Gen2 Gen3 Gen4 Fit1 Fit2 Fit3.
Import ListNotations.
Local Open Scope R_scope.

(** setting one column *)
Lemma mset_col_ent {K : Num} r c (m : Mat K) i v : shape r c m -> (i < c)%nat -> length v = r ->
  exists m', mset_col m i v = Val m' /\ shape r c m' /\ nth i (mcols m') [] = v /\
    forall a b, ent m' b a = if (b =? i)%nat then nth a v n0 else ent m b a.
Proof.
  intros S Hi Hv. eexists. split; [apply (mset_col_val m r c i v S Hi Hv)|]. split; [apply (upd_shape m r c i v S Hi Hv)|].
  assert (L : (i < length (mcols m))%nat) by (destruct S as [_ [-> _]]; exact Hi).
  split; [cbn [mcols]; rewrite nth_upd by exact L; rewrite Nat.eqb_refl; reflexivity|].
  intros a b. apply ent_upd. exact L.
Qed.

Section Fixed.
  Variables (p n : nat) (U : list R).
  Hypotheses (L : length U = (n + p + 2)%nat) (D : (p <= n)%nat) (S : sorted U).
  Notation kn := (@knots_of RNum p U).
  Notation B i u := (bspline (kfun U) n p i u).

  Lemma qvectors_R dim m (Q : Mat RNum) v s : shape dim (m + 1) Q -> length v = (m + 1)%nat -> (1 <= m)%nat ->
    exists W, fixed_qvectors kn Q (mkParams v s) = Val W /\ shape dim (m + 1) W /\
      forall d g, (d < dim)%nat -> (1 <= g <= m - 1)%nat ->
        ent W g d = ent Q g d - B 0%nat (nth g v 0) * ent Q 0 d - B n (nth g v 0) * ent Q m d.
  Proof.
    intros SQ Lv Hm. unfold fixed_qvectors. rewrite (@knots_of_segments RNum p U n L). cbn [bind]. unfold dp_segments.
    assert (NQ : ncols Q = (m + 1)%nat) by apply SQ. rewrite NQ. rewrite usub_ok by lia. cbn [bind pvector]. replace (m + 1 - 1)%nat with m by lia.
    rewrite usub_ok by lia. cbn [bind]. assert (RQ : nrows Q = dim) by apply SQ. rewrite RQ. change (kdegree kn) with p.
    unfold rangei. replace (m - 1 + 1 - 1)%nat with (m - 1)%nat by lia.
    match goal with |- exists W, foldM ?b _ _ = _ /\ _ => set (body := b) end.
    destruct (foldM_paint body (fun g x y => (y =? g)%nat) (fun d g => ent Q g d - B 0%nat (nth g v 0) * ent Q 0 d - B n (nth g v 0) * ent Q m d) 1 (m - 1) (mzeros dim (m + 1)) dim (m + 1) (mzeros_shape _ _)) as [W [E [SW H]]].
    - intros M g SM Hg. unfold body. rewrite (mcol_val _ _ _ g SQ) by lia. cbn [bind].
      assert (LQ : forall i, (i < m + 1)%nat -> length (nth i (mcols Q) []) = dim) by apply SQ.
      destruct (mset_col_ent dim (m + 1) M g (nth g (mcols Q) []) SM ltac:(lia) (LQ g ltac:(lia))) as [M1 [E1 [S1 [N1 H1]]]]. rewrite E1. cbn [bind].
      rewrite (vget_nth v g 0) by (rn; lia). cbn [bind]. rewrite (kevaluate_R p n U) by (try assumption; lia). cbn [bind].
      rewrite (mcol_val _ _ _ 0 SQ) by lia. cbn [bind]. rewrite (mcol_val _ _ _ g S1) by lia. cbn [bind]. rewrite N1.
      destruct (@vsub_val RNum (nth g (mcols Q) []) (vscale (B 0%nat (nth g v 0)) (nth 0 (mcols Q) []))) as [c1 [Ec1 [Lc1 Hc1]]]; [rewrite vscale_length, !LQ by lia; reflexivity|].
      rewrite Ec1. cbn [bind]. rewrite LQ in Lc1 by lia.
      destruct (mset_col_ent dim (m + 1) M1 g c1 S1 ltac:(lia) Lc1) as [M2 [E2 [S2 [N2 H2]]]]. rewrite E2. cbn [bind].
      rewrite (kevaluate_R p n U) by (try assumption; lia). cbn [bind]. rewrite (mcol_val _ _ _ m SQ) by lia. cbn [bind]. rewrite (mcol_val _ _ _ g S2) by lia. cbn [bind]. rewrite N2.
      destruct (@vsub_val RNum c1 (vscale (B n (nth g v 0)) (nth m (mcols Q) []))) as [c2 [Ec2 [Lc2 Hc2]]]; [rewrite vscale_length, LQ by lia; exact Lc1|].
      rewrite Ec2. cbn [bind]. rewrite Lc1 in Lc2.
      destruct (mset_col_ent dim (m + 1) M2 g c2 S2 ltac:(lia) Lc2) as [M3 [E3 [S3 [N3 H3]]]]. exists M3. split; [exact E3|]. split; [exact S3|].
      intros x y Hx Hy. rewrite H3, H2, H1. destruct (Nat.eqb_spec y g) as [->|]; [|reflexivity].
      rewrite Hc2 by lia. rewrite Hc1 by (rewrite LQ by lia; exact Hx). rewrite !nth_vscale by (rewrite LQ by lia; exact Hx). reflexivity.
    - exists W. split; [exact E|]. split; [exact SW|]. intros d g Hd Hg. rewrite H by lia.
      rewrite (existsb_seq _ 1 (m - 1) g); [reflexivity|lia|]. apply Nat.eqb_refl.
  Qed.

  Lemma constant_terms_R dim m (Q W : Mat RNum) v s : shape dim (m + 1) Q -> shape dim (m + 1) W -> length v = (m + 1)%nat -> (1 <= m)%nat -> (1 <= n)%nat ->
    exists Z, fixed_constant_terms kn Q (mkParams v s) W = Val Z /\ shape dim (n - 1) Z /\
      forall d i, (d < dim)%nat -> (i < n - 1)%nat -> ent Z i d = rsum (fun g => B (1 + i)%nat (nth (1 + g) v 0) * ent W (1 + g) d) (m - 1).
  Proof.
    intros SQ SW Lv Hm Hn. unfold fixed_constant_terms. rewrite (@knots_of_segments RNum p U n L). cbn [bind]. unfold dp_segments.
    assert (NQ : ncols Q = (m + 1)%nat) by apply SQ. rewrite NQ. rewrite usub_ok by lia. cbn [bind pvector]. replace (m + 1 - 1)%nat with m by lia.
    repeat (rewrite usub_ok by lia; cbn [bind]). assert (RQ : nrows Q = dim) by apply SQ. rewrite RQ. change (kdegree kn) with p.
    unfold rangei. replace (n - 1 + 1 - 1)%nat with (n - 1)%nat by lia. replace (m - 1 + 1 - 1)%nat with (m - 1)%nat by lia.
    match goal with |- exists Z, bind (foldM ?b _ _) _ = _ /\ _ => set (body := b) end.
    assert (T : ok False (foldM body (seq 1 (n - 1)) (mzeros dim (n - 1), vzeros dim)) (fun r => shape dim (n - 1) (fst r) /\ length (snd r) = dim /\
       forall d i, (d < dim)%nat -> (i + 1 < 1 + (n - 1))%nat -> ent (fst r) i d = rsum (fun g => B (1 + i)%nat (nth (1 + g) v 0) * ent W (1 + g) d) (m - 1))).
    { apply (ok_foldM_seq False body (fun j r => shape dim (n - 1) (fst r) /\ length (snd r) = dim /\
       forall d i, (d < dim)%nat -> (i + 1 < j)%nat -> ent (fst r) i d = rsum (fun g => B (1 + i)%nat (nth (1 + g) v 0) * ent W (1 + g) d) (m - 1))).
      - cbn [fst snd]. split; [apply mzeros_shape|]. split; [apply vzeros_length|]. intros; lia.
      - intros i [Z acc] Hi [SZ [La HZ]]. cbn [fst snd] in *. unfold body.
        assert (LW : forall j, (j < m + 1)%nat -> length (nth j (mcols W) []) = dim) by apply SW.
        destruct (Bridge.foldM_sum dim (fun g => B i (nth g v 0)) (fun g => nth g (mcols W) []) 1 (m - 1) (@vmul_scalar RNum acc 0)) as [a' [Ea [La' Ha]]].
        + unfold vmul_scalar. rewrite map_length. exact La.
        + intros g Hg. apply LW. lia.
        + match goal with |- ok _ (bind ?mm _) _ => assert (EE : mm = Val a') end.
          { rewrite <- Ea. apply foldM_ext. intros w g Hg. apply in_seq in Hg. rewrite (vget_nth v g 0) by (rn; lia). cbn [bind].
            rewrite (kevaluate_R p n U) by (try assumption; lia). cbn [bind]. rewrite (mcol_val _ _ _ g SW) by lia. cbn [bind]. reflexivity. }
          rewrite EE. cbn [bind]. rewrite usub_ok by lia. cbn [bind].
          destruct (mset_col_ent dim (n - 1) Z (i - 1) a' SZ ltac:(lia) La') as [Z' [EZ [SZ' [_ HZ']]]]. rewrite EZ. cbn [bind ok fst snd].
          split; [exact SZ'|]. split; [exact La'|]. intros d j Hd Hj. rewrite HZ'. destruct (Nat.eqb_spec j (i - 1)) as [->|].
          * rn. rewrite Ha by exact Hd.
            assert (E0 : nth d (@vmul_scalar RNum acc 0) 0 = 0).
            { unfold vmul_scalar. set (h := fun x : RNum => @nmul RNum x 0). rn. rewrite (nth_indep _ 0 (h 0)) by (rewrite map_length, La; exact Hd). rewrite (map_nth h). unfold h. rn. ring. }
            rn. rewrite E0, Rplus_0_l. replace (1 + (i - 1))%nat with i by lia. reflexivity.
          * apply HZ; lia. }
    apply ok_val_ex in T. destruct T as [[Z acc] [E [SZ [_ HZ]]]]. cbn [fst snd] in *. rewrite E. cbn [bind fst]. exists Z. split; [reflexivity|]. split; [exact SZ|].
    intros d i Hd Hi. apply HZ; lia.
  Qed.

  Lemma fixed_coefficients_R dim m (Q : Mat RNum) v s : shape dim (m + 1) Q -> length v = (m + 1)%nat -> (1 <= m)%nat -> (1 <= n)%nat ->
    exists N, fixed_coefficients kn Q (mkParams v s) = Val N /\ shape (m - 1) (n - 1) N /\
      forall g i, (g < m - 1)%nat -> (i < n - 1)%nat -> ent N i g = B (1 + i)%nat (nth (1 + g) v 0).
  Proof.
    intros SQ Lv Hm Hn. unfold fixed_coefficients, dp_segments. rewrite (@knots_of_segments RNum p U n L). cbn [bind].
    assert (NQ : ncols Q = (m + 1)%nat) by apply SQ. rewrite NQ. rewrite usub_ok by lia. cbn [bind pvector]. replace (m + 1 - 1)%nat with m by lia.
    repeat (rewrite usub_ok by lia; cbn [bind]). change (kdegree kn) with p.
    unfold rangei. replace (n - 1 + 1 - 1)%nat with (n - 1)%nat by lia. replace (m - 1 + 1 - 1)%nat with (m - 1)%nat by lia.
    match goal with |- exists N, foldM ?b _ _ = _ /\ _ => destruct (@fill_matrix RNum b (fun g i => B (1 + i)%nat (nth (1 + g) v 0)) true 1 (m - 1) (n - 1)) as [N [E [SN H]]] end.
    - intros N g SN Hg. rewrite (vget_nth v g 0) by (rn; lia). cbn [bind].
      match goal with |- exists N', foldM ?b _ _ = _ /\ _ => destruct (@fill_row RNum b (fun i => B (1 + i)%nat (nth g v 0)) 1 (n - 1) N (m - 1) (n - 1) (g - 1)) as [N' [E [S' H]]] end; try assumption; try lia.
      + intros M i SM Hi. rewrite (kevaluate_R p n U) by (try assumption; lia). cbn [bind]. repeat (rewrite usub_ok by lia; cbn [bind]). replace (1 + (i - 1))%nat with i by lia. reflexivity.
      + exists N'. split; [exact E|]. split; [exact S'|]. intros x y Hx Hy. rewrite H by assumption.
        destruct (Nat.eqb_spec x (g - 1)) as [->|]; [|reflexivity]. replace (1 + (g - 1))%nat with g by lia. reflexivity.
    - exists N. split; [exact E|]. split; [exact SN|]. intros g i Hg Hi. apply H; lia.
  Qed.

  Lemma fixed_difference_R kappa : (2 <= n)%nat -> (kappa <= n - 2)%nat ->
    exists Dm, fixed_difference kappa kn = Val Dm /\ shape (n - 1 - kappa) (n - 1) Dm /\
      forall i j, (i < n - 1 - kappa)%nat -> (j < n - 1)%nat -> ent Dm j i = IZR (difference_operator kappa i j).
  Proof.
    intros Hn Hk. unfold fixed_difference. rewrite (@knots_of_segments RNum p U n L). cbn [bind]. rewrite usub_ok by lia. cbn [bind].
    replace (kappa <=? n - 2)%nat with true by (symmetry; apply Nat.leb_le; exact Hk). cbn [assert bind]. repeat (rewrite usub_ok by lia; cbn [bind]).
    unfold rangei. rewrite !Nat.sub_0_r. replace (n - kappa - 2 + 1)%nat with (n - 1 - kappa)%nat by lia. replace (n - 2 + 1)%nat with (n - 1)%nat by lia.
    match goal with |- exists Dm, foldM ?b _ _ = _ /\ _ => destruct (@fill_matrix RNum b (fun i j => IZR (difference_operator kappa i j)) true 0 (n - 1 - kappa) (n - 1)) as [Dm [E [SN H]]] end.
    - intros N i SN Hi. cbn [plus] in Hi.
      match goal with |- exists N', foldM ?b _ _ = _ /\ _ => destruct (@fill_row RNum b (fun j => IZR (difference_operator kappa i j)) 0 (n - 1) N (n - 1 - kappa) (n - 1) i) as [N' [E [S' H]]] end; try assumption; try lia.
      + intros M j SM Hj. rewrite Nat.sub_0_r. reflexivity.
      + exists N'. split; [exact E|]. split; [exact S'|]. intros x y Hx Hy. rewrite H by assumption. rewrite Nat.sub_0_r. destruct (Nat.eqb_spec x i) as [->|]; reflexivity.
    - exists Dm. split; [exact E|]. split; [exact SN|]. intros i j Hi Hj. apply H; lia.
  Qed.

  Lemma fixed_difference_inv kappa Dm : fixed_difference kappa kn = Val Dm -> (2 <= n)%nat /\ (kappa <= n - 2)%nat.
  Proof.
    unfold fixed_difference. rewrite (@knots_of_segments RNum p U n L). cbn [bind]. intros E. inv_val E n2 E2.
    unfold usub in E2. destruct (Nat.leb_spec 2 n); [|discriminate E2]. injection E2 as <-. inv_val E tt0 E3.
    unfold assert in E3. destruct (Nat.leb_spec kappa (n - 2)); [|discriminate E3]. split; assumption.
  Qed.
End Fixed.

(** assembling the control points *)
Lemma assemble_R dim n m (Q I : Mat RNum) : shape dim (m + 1) Q -> shape dim (n - 1) I -> (1 <= n)%nat ->
  exists C, (p0 <- mcol Q 0;;
             cp <- mset_col (mzeros dim (n + 1)) 0 p0;;
             pm <- mcol Q m;;
             cp <- mset_col cp n pm;;
             n1 <- usub n 1;;
             cp <- foldM (fun cp i => i1 <- usub i 1;; v <- mcol I i1;; mset_col cp i v) (rangei 1 n1) cp;;
             Val (Ok cp : result (Mat RNum) (FitError RNum))) = Val (Ok C) /\ shape dim (n + 1) C /\
    (forall d, (d < dim)%nat -> ent C 0 d = ent Q 0 d /\ ent C n d = ent Q m d) /\
    (forall d i, (d < dim)%nat -> (1 <= i <= n - 1)%nat -> ent C i d = ent I (i - 1) d).
Proof.
  intros SQ SI Hn. rewrite (mcol_val _ _ _ 0 SQ) by lia. cbn [bind].
  assert (LQ : forall j, (j < m + 1)%nat -> length (nth j (mcols Q) []) = dim) by apply SQ.
  assert (LI : forall j, (j < n - 1)%nat -> length (nth j (mcols I) []) = dim) by apply SI.
  destruct (mset_col_ent dim (n + 1) _ 0 (nth 0 (mcols Q) []) (mzeros_shape dim (n + 1)) ltac:(lia) (LQ 0%nat ltac:(lia))) as [C1 [E1 [S1 [_ H1]]]].
  rewrite E1. cbn [bind]. rewrite (mcol_val _ _ _ m SQ) by lia. cbn [bind].
  destruct (mset_col_ent dim (n + 1) C1 n (nth m (mcols Q) []) S1 ltac:(lia) (LQ m ltac:(lia))) as [C2 [E2 [S2 [_ H2]]]].
  rewrite E2. cbn [bind]. rewrite usub_ok by lia. cbn [bind]. unfold rangei. replace (n - 1 + 1 - 1)%nat with (n - 1)%nat by lia.
  destruct (foldM_paint (fun cp i => i1 <- usub i 1;; v <- mcol I i1;; mset_col cp i v) (fun i x y => (y =? i)%nat) (fun d i => ent I (i - 1) d) 1 (n - 1) C2 dim (n + 1) S2) as [C [E [SC H]]].
  - intros M i SM Hi. rewrite usub_ok by lia. cbn [bind]. rewrite (mcol_val _ _ _ (i - 1) SI) by lia. cbn [bind].
    destruct (mset_col_ent dim (n + 1) M i (nth (i - 1) (mcols I) []) SM ltac:(lia) (LI (i - 1)%nat ltac:(lia))) as [M' [EM [S' [_ HM]]]].
    exists M'. split; [exact EM|]. split; [exact S'|]. intros x y Hx Hy. rewrite HM. destruct (Nat.eqb_spec y i) as [->|]; reflexivity.
  - rewrite E. cbn [bind]. exists C. split; [reflexivity|]. split; [exact SC|].
    assert (NE : forall j, (j = 0 \/ j = n)%nat -> existsb (fun i => (j =? i)%nat) (seq 1 (n - 1)) = false).
    { intros j Hj. apply not_true_is_false. intros T. apply existsb_exists in T. destruct T as [i [Hi T]]. apply in_seq in Hi. apply Nat.eqb_eq in T. lia. }
    split.
    + intros d Hd. split.
      * rewrite H by lia. rewrite NE by lia. rewrite H2. replace (0 =? n)%nat with false by (symmetry; apply Nat.eqb_neq; lia). rewrite H1. reflexivity.
      * rewrite H by lia. rewrite NE by lia. rewrite H2, Nat.eqb_refl. reflexivity.
    + intros d i Hd Hi. rewrite H by lia. rewrite (existsb_seq _ 1 (n - 1) i); [reflexivity|lia|apply Nat.eqb_refl].
Qed.

Lemma fixed_min svd p n m dim (U : list R) (Q C : Mat RNum) v s pen : honest svd -> length U = (n + p + 2)%nat -> sorted U ->
  shape dim (m + 1) Q -> length v = (m + 1)%nat -> (forall q, pen = Some q -> (1 <= kappa q)%nat) ->
  fixed_fit svd (knots_of p U) Q (mkParams v s) pen = Val (Ok C) ->
  (p <= n <= m)%nat /\ (2 <= n)%nat /\ shape dim (n + 1) C /\
  (forall d, (d < dim)%nat -> ent C 0 d = ent Q 0 d /\ ent C n d = ent Q m d) /\
  forall C', shape dim (n + 1) C' -> (forall d, (d < dim)%nat -> ent C' 0 d = ent Q 0 d /\ ent C' n d = ent Q m d) ->
    rsum (fun g => rsum (fun d => (spline (kfun U) n p (fun i => ent C i d) (nth (1 + g) v 0) - ent Q (1 + g) d) ^ 2) dim) (m - 1) + penalty pen (n - 1) 1 dim C <=
    rsum (fun g => rsum (fun d => (spline (kfun U) n p (fun i => ent C' i d) (nth (1 + g) v 0) - ent Q (1 + g) d) ^ 2) dim) (m - 1) + penalty pen (n - 1) 1 dim C'.
Proof.
  intros ES L SU SQ Lv HK E. unfold fixed_fit in E. inv_val E chk EC. destruct chk as [u|e]; [|discriminate E].
  destruct (input_checks_ok p n U dim m Q _ pen u L SQ EC) as [Hnm [_ [Hpn HP]]].
  assert (Hm : (1 <= m)%nat).
  { destruct m as [|m]; [|lia]. exfalso. unfold fixed_qvectors, dp_segments in E. rewrite (@knots_of_segments RNum p U n L) in E. cbn [bind] in E.
    assert (NQ : ncols Q = (0 + 1)%nat) by apply SQ. rewrite NQ in E. discriminate E. }
  destruct (qvectors_R p n U L Hpn SU dim m Q v s SQ Lv Hm) as [W [EW [SW HW]]]. rewrite EW in E. cbn [bind] in E.
  assert (Hn : (1 <= n)%nat).
  { destruct n as [|n]; [|lia]. exfalso. unfold fixed_constant_terms, dp_segments in E. rewrite (@knots_of_segments RNum p U 0 L) in E. cbn [bind] in E.
    assert (NQ : ncols Q = (m + 1)%nat) by apply SQ. rewrite NQ, usub_ok in E by lia. discriminate E. }
  destruct (constant_terms_R p n U L Hpn SU dim m Q W v s SQ SW Lv Hm Hn) as [Z [EZ [SZ HZ]]]. rewrite EZ in E. cbn [bind] in E.
  destruct (fixed_coefficients_R p n U L Hpn SU dim m Q v s SQ Lv Hm Hn) as [N [EN [SN HN]]]. rewrite EN in E. cbn [bind] in E.
  inv_val E A EA. destruct A as [A|e]; [|discriminate E]. inv_val E X EX. apply svd_solve_val in EX as EX'. destruct EX' as [ESX NR].
  assert (HSD : forall q Dm, pen = Some q -> fixed_difference (kappa q) (knots_of p U) = Val Dm -> exists k, shape k (n - 1) Dm).
  { intros q Dm -> ED. destruct (fixed_difference_inv p n U L _ _ ED) as [I1 I2]. destruct (fixed_difference_R p n U L Hpn (kappa q) I1 I2) as [Dm' [ED' [SD _]]]. rewrite ED' in ED. injection ED as <-. eexists. exact SD. }
  assert (Sv : exists Y, solves A (mtranspose Z) Y).
  { apply (system_solvable pen _ N _ A (mtranspose Z) (m - 1) (n - 1) dim (fun g d => ent W (1 + g) d) SN EA HSD (mtranspose_shape _ _ _ SZ)).
    intros i d Hi Hd. rewrite (ent_mtranspose_R dim (n - 1) Z d i SZ Hd Hi). rewrite HZ by assumption. apply rsum_ext. intros g Hg. rewrite HN by assumption. reflexivity. }
  destruct Sv as [Y HY]. destruct (ES _ _ _ Y ESX HY) as [_ [SX HX]].
  assert (SA : shape (n - 1) (n - 1) A).
  { assert (T := normal_R _ N pen _ A (m - 1) (n - 1) SN EA). destruct pen as [q|]; [|apply T]. destruct T as [_ [Dm [ED T]]].
    destruct (fixed_difference_inv p n U L _ _ ED) as [I1 I2]. destruct (fixed_difference_R p n U L Hpn (kappa q) I1 I2) as [Dm' [ED' [SD _]]]. rewrite ED' in ED. injection ED as <-. apply (T _ SD). }
  assert (H2 : (2 <= n)%nat).
  { destruct (Nat.eq_dec n 1) as [->|]; [|lia]. exfalso. unfold svd_solve, mis_empty, ncols in EX. destruct SA as [A1 [A2 _]]. rewrite A1 in EX. discriminate EX. }
  assert (AC : ncols A = (n - 1)%nat) by apply SA. assert (AR : nrows A = (n - 1)%nat) by apply SA.
  assert (ZT := mtranspose_shape _ _ _ SZ). assert (ZC : ncols (mtranspose Z) = dim) by apply ZT.
  rewrite AC, ZC in SX. rewrite AC, AR, ZC in HX.
  rewrite (@knots_of_segments RNum p U n L) in E. cbn [bind] in E. unfold dp_segments in E.
  assert (NQ : ncols Q = (m + 1)%nat) by apply SQ. rewrite NQ, usub_ok in E by lia. cbn [bind] in E. replace (m + 1 - 1)%nat with m in E by lia.
  assert (RQ : nrows Q = dim) by apply SQ. rewrite RQ in E.
  destruct (assemble_R dim n m Q (mtranspose X) SQ (mtranspose_shape _ _ _ SX) Hn) as [C0 [EC0 [SC [HE HI]]]].
  rewrite EC0 in E. injection E as ->.
  split; [lia|]. split; [exact H2|]. split; [exact SC|]. split; [exact HE|]. intros C' SC' HE'.
  assert (Inner : forall d i, (d < dim)%nat -> (i < n - 1)%nat -> ent C (1 + i) d = ent X d i).
  { intros d i Hd Hi. rewrite HI by lia. replace (1 + i - 1)%nat with i by lia. apply (ent_mtranspose_R (n - 1) dim X i d SX); assumption. }
  assert (Sys : forall d i, (d < dim)%nat -> (i < n - 1)%nat -> rsum (fun j => ent A j i * ent C (1 + j) d) (n - 1) = rsum (fun g => ent N i g * ent W (1 + g) d) (m - 1)).
  { intros d i Hd Hi. rewrite (rsum_ext _ (fun j => ent A j i * ent X d j)) by (intros j Hj; rewrite Inner by assumption; reflexivity).
    rewrite HX by assumption. rewrite (ent_mtranspose_R dim (n - 1) Z d i SZ Hd Hi). rewrite HZ by assumption. apply rsum_ext. intros g Hg. rewrite HN by assumption. reflexivity. }
  set (F := fun (P : Mat RNum) d => rsum (fun g => (spline (kfun U) n p (fun i => ent P i d) (nth (1 + g) v 0) - ent Q (1 + g) d) ^ 2) (m - 1) +
     match pen with None => 0 | Some q => lambda q * rsum (fun r => fdiff (kappa q) (fun i => ent P (1 + i) d) r ^ 2) (n - 1 - kappa q) end).
  assert (Obj : forall P, rsum (fun g => rsum (fun d => (spline (kfun U) n p (fun i => ent P i d) (nth (1 + g) v 0) - ent Q (1 + g) d) ^ 2) dim) (m - 1) + penalty pen (n - 1) 1 dim P = rsum (F P) dim).
  { intros P. unfold penalty, roughness, F. rewrite rsum_swap. destruct pen as [q|].
    - rewrite (rsum_swap (fun r d => fdiff (kappa q) (fun i => ent P (1 + i) d) r ^ 2)). rewrite <- rsum_scal, <- rsum_plus. reflexivity.
    - rewrite rsum_plus, rsum_0. ring. }
  rewrite !Obj. apply BMath.rsum_le. intros d Hd.
  assert (M := system_min pen _ N _ A (m - 1) (n - 1) (fun q => (n - 1 - kappa q)%nat) (fun i => ent C (1 + i) d) (fun i => ent C' (1 + i) d) (fun g => ent W (1 + g) d) SN EA).
  assert (Sp : forall P g, (forall d, (d < dim)%nat -> ent P 0 d = ent Q 0 d /\ ent P n d = ent Q m d) -> (g < m - 1)%nat ->
     rsum (fun j => ent N j g * ent P (1 + j) d) (n - 1) - ent W (1 + g) d = spline (kfun U) n p (fun i => ent P i d) (nth (1 + g) v 0) - ent Q (1 + g) d).
  { intros P g HEP Hg. destruct (HEP d Hd) as [P0 Pn]. rewrite HW by lia. unfold spline.
    assert (Sp : forall f, rsum f (Datatypes.S n) = f 0%nat + rsum (fun i => f (Datatypes.S i)) (n - 1) + f n).
    { intros f. rewrite rsum_first. destruct n as [|n']; [lia|]. replace (Datatypes.S n' - 1)%nat with n' by lia. cbn [rsum]. ring. }
    rewrite Sp, P0, Pn.
    rewrite (rsum_ext (fun j => ent N j g * ent P (1 + j) d) (fun i => bspline (kfun U) n p (Datatypes.S i) (nth (1 + g) v 0) * ent P (Datatypes.S i) d)).
    - ring.
    - intros j Hj. rewrite HN by lia. reflexivity. }
  assert (Obj1 : forall P, (forall d, (d < dim)%nat -> ent P 0 d = ent Q 0 d /\ ent P n d = ent Q m d) ->
     F P d = rsum (fun g => (rsum (fun j => ent N j g * ent P (1 + j) d) (n - 1) - ent W (1 + g) d) ^ 2) (m - 1) +
      match pen with None => 0 | Some q => match fixed_difference (kappa q) (knots_of p U) with Val Dm => lambda q * rsum (fun r => rsum (fun j => ent Dm j r * ent P (1 + j) d) (n - 1) ^ 2) (n - 1 - kappa q) | _ => 0 end end).
  { intros P HEP. unfold F. f_equal.
    - apply rsum_ext. intros g Hg. rewrite Sp by assumption. reflexivity.
    - assert (T := normal_R _ N pen _ A (m - 1) (n - 1) SN EA). destruct pen as [q|]; [|reflexivity]. destruct T as [_ [Dm' [ED' _]]].
      destruct (fixed_difference_inv p n U L _ _ ED') as [I1 I2].
      destruct (fixed_difference_R p n U L Hpn (kappa q) I1 I2) as [Dm [ED [SD HD]]]. rn. rewrite ED. f_equal. apply rsum_ext. intros r Hr. f_equal.
      rewrite <- (dop_apply (kappa q) (fun i => ent P (1 + i) d) (n - 2) r) by (try apply HK; try reflexivity; lia).
      replace (Datatypes.S (n - 2)) with (n - 1)%nat by lia. apply rsum_ext. intros j Hj. rewrite HD by lia. reflexivity. }
  rewrite (Obj1 C HE), (Obj1 C' HE'). apply M.
  - intros q Dm -> ED. destruct (fixed_difference_inv p n U L _ _ ED) as [I1 I2]. destruct (fixed_difference_R p n U L Hpn (kappa q) I1 I2) as [Dm' [ED' [SD _]]]. rewrite ED' in ED. injection ED as <-. exact SD.
  - intros i Hi. apply Sys; assumption.
Qed.
