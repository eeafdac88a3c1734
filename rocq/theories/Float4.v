(** * Evaluating a curve object in binary64 *)

From Coq Require Import ZArith Reals List Bool Arith Lia Lra Psatz.
From Flocq Require Import Core.Core IEEE754.BinarySingleNaN.
From Verif Require Import Num Vec MKnots MPoints MCurve F64 RNum Lists Hoare Struct Divisions Spec BMath BMath2 BMath3 Api Bridge Facts1 ApiF Float1 Float2 Float3.
Import ListNotations.
Local Open Scope R_scope.

Lemma clamped_kderiv p n (V : list R) k : clamped p n V -> (k <= p)%nat -> clamped (p - k) (n - k) (kderiv k V).
Proof.
  intros [H1 H2 H3 H4 H5 H6] Hk. assert (L := kderiv_length k V).
  split; try lia.
  - intros i j Hij Hj. rewrite !nth_kderiv by lia. apply H3; lia.
  - intros i Hi. rewrite nth_kderiv by lia. apply H4. lia.
  - intros i Hi Hi'. rewrite nth_kderiv by lia. apply H5; lia.
  - intros i Hi Hi'. rewrite nth_kderiv by lia. apply H6; lia.
Qed.

Lemma map_kderiv {A B} (f : A -> B) k (U : list A) : map f (kderiv k U) = kderiv k (map f U).
Proof. unfold kderiv. rewrite <- firstn_map, <- skipn_map, map_length. reflexivity. Qed.

Lemma in_kderiv {A} k (U : list A) x : In x (kderiv k U) -> In x U.
Proof.
  unfold kderiv. intros H. rewrite <- (firstn_skipn k U). apply in_or_app. right.
  rewrite <- (firstn_skipn (length U - 2 * k) (skipn k U)). apply in_or_app. left. exact H.
Qed.

Lemma pow2_1000 : / 2 ^ 1000 = pow2 (-1000).
Proof. change (-1000)%Z with (- (1000))%Z. rewrite bpow_opp. f_equal. rewrite (bpow_powerRZ radix2 1000). reflexivity. Qed.

Lemma separated_kderiv k V : separated V -> (2 * k <= length V)%nat -> separated (kderiv k V).
Proof.
  intros H Hk i Hi. rewrite kderiv_length in Hi. rewrite !nth_kderiv by lia. replace (k + (i + 1))%nat with (k + i + 1)%nat by lia.
  apply H. lia.
Qed.

Lemma clamped_range p n V x : clamped p n V -> In x V -> 0 <= x <= 1.
Proof.
  intros C H. destruct (In_nth V x 0 H) as [i [Hi E]]. rewrite <- E. destruct C as [H1 H2 H3 H4 H5 H6].
  assert (A := H3 0%nat i ltac:(lia) Hi). assert (B := H3 i (length V - 1)%nat ltac:(lia) ltac:(lia)).
  rewrite (H4 0%nat) in A by lia. rewrite (H5 (length V - 1)%nat) in B by lia. lra.
Qed.

Lemma eval_unfold p n dim (U : list f64) P c k (u : f64) j : @wf F64 p n dim U P c -> float_knots p n U -> (k <= p)%nat ->
  finite u -> 0 <= val u <= 1 -> (p - k <= j <= n - k)%nat -> in_span (kfun (map val (@kderiv f64 k U))) (n - k) (val u) j ->
  exists lo, (lo <= j - (p - k))%nat /\
  forall r, foldM (fun value i => b <- @basis F64 (@kderiv f64 k U) (p - k) i k n u;;
                                x <- @mcol F64 (nth k (Pk (cpoints c)) (mzeros 0 0)) i;; @vadd F64 value (@vscale F64 b x))
           (rangei lo (n - k)) (@vzeros F64 dim) = Val r ->
    @evaluate_derivative F64 c u k = Val (Ok r).
Proof.
  intros W [Ff [C Sep]] Hk Fu Hu Hj Hs. unfold evaluate_derivative.
  assert (T0 : (@n0 F64 <=? u)%num = true).
  { cbn [nleb F64]. rewrite leb_val by (try apply n0_ok; exact Fu). rewrite (proj2 n0_ok). apply Rle_bool_true, Hu. }
  assert (T1 : ((u : F64) <=? @n1 F64)%num = true).
  { cbn [nleb F64]. rewrite leb_val by (try apply n1_ok; exact Fu). rewrite (proj2 n1_ok). apply Rle_bool_true, Hu. }
  rewrite T0, (T1 : (@nleb F64 u n1) = true). cbn [andb negb].
  unfold degree, dimension, segments. destruct W as [Wd Wl Ws Wk Wm Wh Wp Wpt].
  destruct c as [kn [pk km]]. cbn [cknots cpoints pk_max Pk] in *. subst kn km.
  destruct pk as [|P0 pk]; [simpl in Wp; lia|]. cbn [nth] in Wh. subst P0.
  rewrite (cp_dimension_val P pk p dim (S n) Ws). cbn [bind kdegree kp knots_of]. fold (knots_of p U).
  assert (Ek := Hk). apply Nat.leb_le in Ek. rewrite Ek. rewrite (cp_segments_val P pk p dim n Ws). cbn [bind].
  assert (F := @find_idx_le_ok F64 False p U n k u Wl Wd Hk). apply ok_val_ex in F.
  destruct F as [l [-> [Hl Hlu]]]. cbn [bind].
  rewrite usub_ok by lia. cbn [bind]. rewrite usub_ok by lia. cbn [bind]. rewrite usub_ok by lia. cbn [bind].
  set (Q := nth k (P :: pk) (mzeros 0 0)) in *.
  set (v := @kderiv f64 k U) in *.
  assert (LU : length (map val U) = (n + p + 2)%nat) by (rewrite map_length; exact Wl).
  assert (Lv : length v = (n - k + (p - k) + 2)%nat) by (unfold v; rewrite kderiv_length; change (@length f64 U) with (@length (Num.T F64) U); lia).
  assert (Cv : clamped (p - k) (n - k) (map val v)) by (unfold v; rewrite map_kderiv; apply clamped_kderiv; assumption).
  assert (FC := kfun_clamped _ _ _ Cv).
  exists (l - (p - k))%nat. split.
  - destruct Hlu as [->|Hlu]; [lia|]. destruct (le_lt_dec l j) as [|Hjl]; [lia|exfalso].
    assert (Ll : (k + l < length U)%nat) by (change (@length f64 U) with (@length (Num.T F64) U); lia).
    cbn [nleb F64] in Hlu. rewrite leb_val in Hlu by (try exact Fu; apply Ff, nth_In; exact Ll).
    assert (Hle : val (nth (k + l) U (@n0 F64)) <= val u) by (revert Hlu; case Rle_bool_spec; [auto|discriminate]).
    assert (M1 : kfun (map val v) (S j) <= kfun (map val v) l) by (apply (fc_mono _ _ _ FC); lia).
    assert (E1 : kfun (map val v) l = val (nth (k + l) U (@n0 F64))).
    { rewrite kfun_nth by (rewrite map_length; change (l < @length f64 v)%nat; lia). unfold v. rewrite map_kderiv, nth_kderiv by (rewrite LU; lia).
      rewrite (nth_indep _ 0 (val (@n0 F64))) by (rewrite map_length; exact Ll). apply map_nth. }
    destruct Hs as [S1 [S2 [S3|[S3 S4]]]]; [lra|lia].
  - intros r Er. rewrite (foldM_ext _ (fun value i => b <- @basis F64 v (p - k) i k n u;; x <- @mcol F64 Q i;; @vadd F64 value (@vscale F64 b x))).
    + match goal with |- bind ?x _ = _ => replace x with (@Val (list F64) r) by (symmetry; exact Er) end. reflexivity.
    + intros s i Hi. rewrite (@kevaluate_val F64 p U n) by (try assumption; lia). change (@kderiv (Num.T F64) k U) with v.
      destruct (basis v (p - k) i k n u); try reflexivity. cbn [bind].
      unfold matrix_derivative. cbn [pk_max Pk]. rewrite Ek. cbn [assert bind].
      rewrite (vget_nth _ k (mzeros 0 0)) by lia. reflexivity.
Qed.

Lemma float_kderiv p n (U : list f64) k : float_knots p n U -> (k <= p)%nat ->
  length (@kderiv f64 k U) = (n - k + (p - k) + 2)%nat /\ float_knots (p - k) (n - k) (@kderiv f64 k U).
Proof.
  intros [Ff [C Sep]] Hk. assert (LU := cl_len _ _ _ C). assert (L' := LU). rewrite map_length in L'. assert (D := cl_deg _ _ _ C). split.
  - rewrite kderiv_length. change (binary_float 53 1024) with f64 in *. lia.
  - split; [|split].
    + intros x Hx. apply Ff, (in_kderiv k U), Hx.
    + rewrite map_kderiv. apply clamped_kderiv; assumption.
    + rewrite map_kderiv. apply separated_kderiv; [exact Sep|lia].
Qed.

Lemma separated_gap (v : list f64) : separated (map val v) ->
  forall i, (i + 1 < length v)%nat -> nth i (map val v) 0 <> nth (i + 1) (map val v) 0 -> pow2 (-1000) <= nth (i + 1) (map val v) 0 - nth i (map val v) 0.
Proof. intros H i Hi Hne. rewrite <- pow2_1000. apply H; [rewrite map_length; exact Hi|exact Hne]. Qed.

Lemma evalk_F64 p n dim (U : list f64) P c k (u : f64) M : @wf F64 p n dim U P c -> float_knots p n U -> (k <= p)%nat -> (p - k <= 100)%nat ->
  (forall i d, (i <= n - k)%nat -> (d < dim)%nat ->
     finite (ent (nth k (Pk (cpoints c)) (mzeros 0 0)) i d) /\ Rabs (val (ent (nth k (Pk (cpoints c)) (mzeros 0 0)) i d)) <= M) ->
  pow2 (-1000) <= M <= pow2 1022 -> finite u -> 0 <= val u <= 1 ->
  returns_within (@evaluate_derivative F64 c u k) dim
    (fun d => rsum (fun i => bspline (shift k (kfun (map val U))) (n - k) (p - k) i (val u) * val (ent (nth k (Pk (cpoints c)) (mzeros 0 0)) i d)) (S (n - k)))
    ((6 * INR (p - k) + 3) * eps * M).
Proof.
  intros W FK Hk Hpk HQ HM Fu Hu.
  destruct (float_kderiv p n U k FK Hk) as [Lv [Fv [Cv Sv]]].
  assert (FC := kfun_clamped _ _ _ Cv).
  destruct (span_ex _ _ _ FC (val u) Hu) as [j [Hj Hs]].
  destruct (eval_unfold p n dim U P c k u j W FK Hk Fu Hu Hj Hs) as [lo [Hlj HE]].
  assert (Hn := wf_deg _ _ _ _ _ _ W). assert (LU := cl_len _ _ _ (proj1 (proj2 FK))).
  destruct (sum_ok (@kderiv f64 k U) n k j (p - k) dim u (nth k (Pk (cpoints c)) (mzeros 0 0)) M) with (lo := lo) as [r [Er [Lr Hr]]]; try assumption; try lia.
  - apply (fc_mono _ _ _ FC).
  - intros x Hx. apply (clamped_range _ _ _ x Cv Hx).
  - apply separated_gap. exact Sv.
  - intros i. apply (span_delta _ _ _ FC); [lia|exact Hs].
  - apply (wf_pts _ _ _ _ _ _ W k Hk).
  - exists r. split; [apply HE; exact Er|]. split; [exact Lr|]. intros d Hd.
    destruct (Hr d Hd) as [F1 E1]. split; [exact F1|].
    match goal with |- Rabs (_ - ?x) <= _ => match type of E1 with Rabs (_ - ?y) <= _ => replace x with y end end; [exact E1|].
    apply rsum_ext. intros i Hi. f_equal. rewrite map_kderiv.
    apply bspline_kderiv; try lia.
Qed.

(** evaluation of the curve itself *)
Theorem eval_F64 p n dim (U : list f64) P M c (u : f64) : float_curve p n dim U P M c -> (p <= 100)%nat -> / 2 ^ 1000 <= M <= 2 ^ 1022 ->
  finite u -> 0 <= val u <= 1 ->
  returns_within (@evaluate F64 c u) dim (fun d => spline (kfun (map val U)) n p (fun i => val (ent P i d)) (val u))
    ((6 * INR p + 3) * / 2 ^ 53 * M).
Proof.
  intros [K [S [B Bu]]] Hp HM Fu Hu. assert (C := proj1 (proj2 K)).
  assert (LU : length U = (n + p + 2)%nat) by (rewrite <- (cl_len _ _ _ C), map_length; reflexivity).
  assert (W : @wf F64 p n dim U P c) by (apply (sized_wf False gdiv_F64); [split; [apply C|split; [exact LU|exact S]]|exact Bu]).
  assert (Ee : eps = / 2 ^ 53) by (unfold eps; change (-53)%Z with (- (53))%Z; rewrite bpow_opp, (bpow_powerRZ radix2 53); reflexivity).
  assert (E2 : 2 ^ 1022 = pow2 1022) by (rewrite (bpow_powerRZ radix2 1022); reflexivity).
  rewrite <- Ee. unfold evaluate.
  assert (T := evalk_F64 p n dim U P c 0 u M W K ltac:(lia) ltac:(lia)).
  rewrite (wf_head _ _ _ _ _ _ W) in T. rewrite !Nat.sub_0_r in T. rewrite pow2_1000, E2 in HM.
  specialize (T B HM Fu Hu).
  destruct T as [v [Ev [Lv Hv]]]. exists v. split; [exact Ev|]. split; [exact Lv|]. intros d Hd. destruct (Hv d Hd) as [H1 H2].
  split; [exact H1|]. match goal with |- Rabs (_ - ?x) <= _ => match type of H2 with Rabs (_ - ?y) <= _ => replace x with y end end; [exact H2|].
  unfold spline. apply rsum_ext. intros i _. f_equal. unfold bspline. apply cox_ext; intros; unfold span_ind, shift; rewrite ?Nat.add_0_r; reflexivity.
Qed.
