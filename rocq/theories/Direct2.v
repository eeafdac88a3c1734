(** * In-place changes of control points and knots *)

From Coq Require Import ZArith Reals List Bool Arith Lra Lia.
From Verif Require Import Num Vec MKnots MPoints MCurve MFit MMerge MDirect RNum Hoare Lists Struct Divisions Spec Api ApiU BMath BMath2 BMath3 Bridge Facts1 Facts3 Facts6 Facts7 Split2 Gen3 Direct1.
Import ListNotations.

Section Stale.
  Context {K : Num}.

  Lemma vget_upd {A} (l : list A) j k x : j <> k -> vget (upd l j x) k = vget l k.
  Proof.
    intros H. unfold vget. replace (nth_error (upd l j x) k) with (nth_error l k); [reflexivity|]. revert j k H.
    induction l as [|a l IH]; intros j k H; [reflexivity|]. destruct j, k; cbn; try reflexivity; [contradiction|]. apply IH. lia.
  Qed.

  Lemma points_written (c : Curve K) f c' : accessed c [APoints f] = Val c' ->
    exists P P', cp_matrix (cpoints c) = Val P /\ f P = Val P' /\ cp_matrix (cpoints c') = Val P' /\ cknots c' = cknots c /\
      pk_max (cpoints c') = pk_max (cpoints c) /\ forall k, 1 <= k -> vget (Pk (cpoints c')) k = vget (Pk (cpoints c)) k.
  Proof.
    unfold accessed. cbn [foldM access_once]. unfold matrix_mut, cp_matrix.
    destruct (vget (Pk (cpoints c)) 0) as [P| | |] eqn:EP; cbn [bind]; try discriminate. destruct (f P) as [P'| | |] eqn:Ef; cbn [bind]; try discriminate.
    unfold vset. destruct (0 <? length (Pk (cpoints c))) eqn:L; cbn [bind]; try discriminate. intros E. inversion E. subst c'. cbn [cknots cpoints Pk pk_max].
    exists P, P'. repeat split; auto.
    - destruct (Pk (cpoints c)); [discriminate|reflexivity].
    - intros k Hk. apply vget_upd. lia.
  Qed.

  Lemma stale_points (c : Curve K) f c' P P' u k : accessed c [APoints f] = Val c' -> cp_matrix (cpoints c) = Val P -> f P = Val P' ->
    nrows P' = nrows P -> ncols P' = ncols P -> 1 <= k -> evaluate_derivative c' u k = evaluate_derivative c u k.
  Proof.
    intros E EP Ef Hr Hc Hk. destruct (points_written c f c' E) as (P1 & P2 & A1 & A2 & A3 & A4 & A5 & A6). rewrite EP in A1. inversion A1. subst P1. rewrite Ef in A2. inversion A2. subst P2.
    unfold evaluate_derivative, degree, dimension, segments, cp_dimension, cp_segments, cp_count, count_derivative. unfold cp_matrix in *. rewrite A3, A4, EP. cbn [bind]. rewrite Hr, Hc.
    unfold matrix_derivative. rewrite A5, (A6 k Hk). reflexivity.
  Qed.

  Lemma knots_written (c : Curve K) f c' : accessed c [AKnots f] = Val c' ->
    exists U U', vector (cknots c) = Val U /\ f U = Val U' /\ vector (cknots c') = Val U' /\ cpoints c' = cpoints c /\
      kp (cknots c') = kp (cknots c) /\ kk_max (cknots c') = kk_max (cknots c) /\ forall k, 1 <= k -> vget (Uk (cknots c')) k = vget (Uk (cknots c)) k.
  Proof.
    unfold accessed. cbn [foldM access_once]. unfold vector_mut, vector_derivative_mut, vector.
    destruct (vget (Uk (cknots c)) 0) as [U| | |] eqn:EU; cbn [bind]; try discriminate. destruct (f U) as [U'| | |] eqn:Ef; cbn [bind]; try discriminate.
    unfold vset. destruct (0 <? length (Uk (cknots c))) eqn:L; cbn [bind]; try discriminate. intros E. inversion E. subst c'. cbn [cknots cpoints Uk kp kk_max].
    exists U, U'. repeat split; auto.
    - destruct (Uk (cknots c)); [discriminate|reflexivity].
    - intros k Hk. apply vget_upd. lia.
  Qed.

  Lemma stale_knots (c : Curve K) f c' U U' u k : accessed c [AKnots f] = Val c' -> vector (cknots c) = Val U -> f U = Val U' ->
    length U' = length U -> 1 <= k -> evaluate_derivative c' u k = evaluate_derivative c u k.
  Proof.
    intros E EU Ef HL Hk. destruct (knots_written c f c' E) as (U1 & U2 & A1 & A2 & A3 & A4 & A5 & A6 & A7). rewrite EU in A1. inversion A1. subst U1. rewrite Ef in A2. inversion A2. subst U2.
    unfold evaluate_derivative, degree, dimension, segments, kdegree. rewrite A4, A5.
    assert (S : ksegments (cknots c') = ksegments (cknots c)).
    { unfold ksegments, segments_derivative, klen. unfold vector in *. rewrite A3, EU, A5. cbn [bind]. rewrite HL. reflexivity. }
    assert (F : find_idx (cknots c') u k CLeftOrEqual = find_idx (cknots c) u k CLeftOrEqual).
    { unfold find_idx, vector_derivative, kdegree. rewrite (A7 k Hk), A5, S. reflexivity. }
    rewrite F. destruct (negb _); [reflexivity|]. apply bind_ext. intros d. destruct (k <=? _); [|reflexivity]. do 5 (apply bind_ext; intros ?). f_equal.
    apply foldM_ext. intros s x _. unfold kevaluate. rewrite (A7 k Hk), S. reflexivity.
  Qed.

  (** writing one point *)
  Lemma point_written (c : Curve K) i f P : cp_matrix (cpoints c) = Val P ->
    access_once c (APoint i f) = access_once c (APoints (fun m => v <- mcol m i;; w <- f v;; mset_col m i w)).
  Proof. reflexivity. Qed.

  (** after a change of the points only the points need to be derived again *)
  Lemma rederive_points p n dim (U : list K) P (c c' : Curve K) : sized p n dim U P -> cknots c = knots_of p U -> cp_matrix (cpoints c) = Val P ->
    accessed c [ADerivePoints] = Val c' <-> built p U P c'.
  Proof.
    intros S HK HP. destruct S as (Sd & SL & SS). rewrite <- (built_refresh p n dim U P c); [|split; [exact Sd|split; [exact SL|exact SS]]|unfold degree; rewrite HK; reflexivity|rewrite HK; apply knots_of_vector|exact HP].
    unfold refresh, accessed. cbn [foldM access_once]. rewrite HK.
    assert (E : knots_derive (knots_of p U) = Val (knots_of p U)).
    { pose proof (knots_derive_val (knots_of p U) (kderiv 0 U) (map (fun k => kderiv k U) (seq 1 p)) eq_refl) as E. cbn [kp knots_of] in E. rewrite kderiv_0 in E. apply E. lia. }
    rewrite E. cbn [bind cknots cpoints]. reflexivity.
  Qed.
End Stale.

Local Open Scope R_scope.

Lemma nth_upd {A} (l : list A) j x d : forall i, (j < length l)%nat -> nth i (upd l j x) d = if (i =? j)%nat then x else nth i l d.
Proof.
  revert j. induction l as [|a l IH]; intros j i H; [cbn in H; lia|]. destruct j as [|j], i as [|i]; cbn; try reflexivity. apply IH. cbn in H. lia.
Qed.

Lemma set_point_shape (P : Mat RNum) dim m i v : shape dim m P -> (i < m)%nat -> length v = dim -> shape dim m (set_point P i v).
Proof.
  intros (A & B & C) Hi Hv. split; [exact A|]. cbn [set_point mcols]. split; [rewrite upd_length; exact B|]. intros j Hj. rewrite nth_upd by (rn; lia).
  destruct (j =? i)%nat; [exact Hv|]. apply C. exact Hj.
Qed.

(** a curve object of the right sizes evaluates to the sum over its cached points *)
Lemma evaluate_cached p n dim U P (c : Curve RNum) u k : @wf RNum p n dim U P c -> sorted U -> 0 <= u <= 1 -> (k <= p)%nat ->
  returns (@evaluate_derivative RNum c u k) dim
    (fun d => rsum (fun i => bspline (shift k (kfun U)) (n - k) (p - k) i u * ent (nth k (Pk (cpoints c)) (mzeros 0 0)) i d) (S (n - k))).
Proof.
  intros W HS Hu Hk. unfold evaluate_derivative. rn.
  replace (Rleb 0 u) with true by (symmetry; apply Rleb_le; lra).
  replace (Rleb u 1) with true by (symmetry; apply Rleb_le; lra). cbn [andb negb].
  unfold degree, dimension, segments. destruct W as [Wd Wl Ws Wk Wm Wh Wp Wpt].
  destruct c as [kn [pk km]]. cbn [cknots cpoints pk_max Pk] in *. subst kn km.
  destruct pk as [|P0 pk]; [simpl in Wp; lia|]. cbn [nth] in Wh. subst P0.
  rewrite (cp_dimension_val P pk p dim (S n) Ws). cbn [bind kdegree kp knots_of]. fold (knots_of p U).
  assert (Ek := Hk). apply Nat.leb_le in Ek. rewrite Ek. rewrite (cp_segments_val P pk p dim n Ws). cbn [bind].
  assert (F := @find_idx_le_ok RNum False p U n k u Wl Wd Hk). apply ok_val_ex in F.
  destruct F as [l [-> [Hl Hlu]]]. cbn [bind].
  rewrite usub_ok by lia. cbn [bind]. rewrite usub_ok by lia. cbn [bind]. rewrite usub_ok by lia. cbn [bind].
  set (Q := nth k (P :: pk) (mzeros 0 0)).
  specialize (Wpt k Hk). fold Q in Wpt.
  set (lo := (l - (p - k))%nat).
  set (V := fun i => nth i (mcols Q) []).
  set (f := fun i => bspline (shift k (kfun U)) (n - k) (p - k) i u).
  rewrite (foldM_ext _ (fun v i => @vadd RNum v (@vscale RNum (f i) (V i)))).
  2:{ intros s i Hi. unfold rangei in Hi. apply in_seq in Hi.
      rewrite (@kevaluate_val RNum p U n) by (try assumption; lia).
      rewrite basis_R; rn; try lia.
      - rewrite (bspline_kderiv p n U k) by (unfold lo in *; lia). cbn [bind].
        unfold matrix_derivative. cbn [pk_max Pk]. rewrite Ek. cbn [assert bind].
        rewrite (vget_nth _ k (mzeros 0 0)) by lia. cbn [bind]. fold Q.
        rewrite (mcol_val Q dim (S n - k)) by (try exact Wpt; unfold lo in *; lia). reflexivity.
      - rewrite kderiv_length. lia.
      - rewrite !nth_kderiv by lia. apply HS; lia.
      - rewrite kderiv_length. lia. }
  unfold rangei.
  destruct (foldM_sum dim f V lo (n - k + 1 - lo) (@vzeros RNum dim)) as [v [E [L N]]].
  - apply vzeros_length.
  - intros i Hi. unfold V. apply Wpt. unfold lo in Hi. lia.
  - rewrite E. cbn [bind]. exists v. split; [reflexivity|]. split; [exact L|]. intros d Hd.
    rewrite N by exact Hd. unfold vzeros. rewrite nth_repeat.
    rewrite (rsum_drop _ lo (S (n - k))).
    + replace (S (n - k) - lo)%nat with (n - k + 1 - lo)%nat by lia. rewrite Rplus_0_l. apply rsum_ext. intros i Hi. reflexivity.
    + unfold lo. lia.
    + intros i Hi. unfold lo in Hi.
      assert (Hlu' : nth (k + l) U 0 <= u).
      { destruct Hlu as [Hlu|H]; [exfalso; lia|]. rn. apply Rleb_le in H. exact H. }
      unfold bspline. rewrite (cox_ext _ (fun _ => 0) (shift k (kfun U)) (shift k (kfun U))).
      * rewrite cox_zero. ring.
      * intros a Ha. unfold span_ind. destruct (Rle_dec (shift k (kfun U) a) u); [|reflexivity].
        assert (M1 : shift k (kfun U) (S a) <= kfun U (k + l)%nat).
        { unfold shift. apply (sorted_mono U HS). lia. }
        rewrite kfun_nth in M1 by (rn; lia).
        destruct (Rlt_dec u (shift k (kfun U) (S a))); [lra|].
        replace (a =? n - k)%nat with false by (symmetry; apply Nat.eqb_neq; lia). reflexivity.
      * reflexivity.
Qed.

(** ** moving one control point *)
Theorem move_point p n dim U P c i v : clamped_curve p n dim U P c -> (i <= n)%nat -> length v = dim ->
  exists c' c'', accessed c [APoint i (fun _ => Val v)] = Val c' /\ accessed c' [ADerivePoints] = Val c'' /\
    clamped_curve p n dim U (set_point P i v) c'' /\
    (forall u k, (1 <= k)%nat -> evaluate_derivative c' u k = evaluate_derivative c u k) /\
    (forall u, evaluate c' u = evaluate c'' u) /\
    forall u, 0 <= u <= 1 -> exists f, returns (evaluate c u) dim f /\
      returns (evaluate c' u) dim (fun d => f d + bspline (kfun U) n p i u * (nth d v 0 - ent P i d)).
Proof.
  intros H Hi Hv. pose proof H as (C & HS & B). assert (W := proj1 (cc_wf _ _ _ _ _ _ H)).
  assert (HM : cp_matrix (cpoints c) = Val P).
  { unfold cp_matrix. rewrite (vget_nth _ 0 (mzeros 0 0)) by (rewrite (wf_Pk _ _ _ _ _ _ W); lia). rewrite (wf_head _ _ _ _ _ _ W). reflexivity. }
  set (g := fun m : Mat RNum => v0 <- mcol m i;; w <- Val v;; mset_col m i w).
  assert (Eg : g P = Val (set_point P i v)).
  { unfold g. rewrite (mcol_val P dim (S n) i HS) by lia. cbn [bind]. unfold mset_col. destruct HS as (A1 & A2 & A3). rewrite A1. replace (length v =? dim)%nat with true by (symmetry; apply Nat.eqb_eq; exact Hv).
    unfold vset. replace (i <? length (mcols P))%nat with true by (symmetry; apply Nat.ltb_lt; rn; lia). cbn [bind]. unfold set_point. rewrite A1. reflexivity. }
  assert (HS' := set_point_shape P dim (S n) i v HS ltac:(lia) Hv).
  assert (E : exists c', accessed c [APoints g] = Val c').
  { unfold accessed. cbn [foldM access_once]. unfold matrix_mut. unfold cp_matrix in HM. rewrite HM. cbn [bind]. rewrite Eg. cbn [bind].
    unfold vset. rewrite (wf_Pk _ _ _ _ _ _ W). cbn [Nat.ltb Nat.leb bind]. eexists. reflexivity. }
  destruct E as [c' E]. destruct (points_written c g c' E) as (P1 & P2 & A1 & A2 & A3 & A4 & A5 & A6). rewrite HM in A1. inversion A1. subst P1. rewrite Eg in A2. inversion A2. subst P2.
  destruct (built_ex p n dim U (set_point P i v) (cl_deg _ _ _ C) (cl_len _ _ _ C) HS') as [c'' B''].
  assert (D : accessed c' [ADerivePoints] = Val c'').
  { apply (rederive_points p n dim U (set_point P i v)); [split; [apply (cl_deg _ _ _ C)|split; [apply (cl_len _ _ _ C)|exact HS']]|rewrite A4; apply (wf_knots _ _ _ _ _ _ W)|exact A3|exact B'']. }
  assert (CC : clamped_curve p n dim U (set_point P i v) c'') by (split; [exact C|split; [exact HS'|exact B'']]).
  assert (W'' := proj1 (cc_wf _ _ _ _ _ _ CC)).
  assert (EV : forall u, evaluate c' u = evaluate c'' u).
  { intros u. apply evaluate_al. split; [|split].
    - unfold degree. rewrite A4, (wf_knots _ _ _ _ _ _ W), (wf_knots _ _ _ _ _ _ W''). reflexivity.
    - rewrite A4, (wf_knots _ _ _ _ _ _ W), (wf_knots _ _ _ _ _ _ W''). reflexivity.
    - rewrite A3. unfold cp_matrix. rewrite (vget_nth _ 0 (mzeros 0 0)) by (rewrite (wf_Pk _ _ _ _ _ _ W''); lia). rewrite (wf_head _ _ _ _ _ _ W''). reflexivity. }
  exists c', c''. split; [exact E|]. split; [exact D|]. split; [exact CC|]. split; [|split; [exact EV|]].
  - intros u k Hk. apply (stale_points c g c' P (set_point P i v)); try assumption; [reflexivity|]. unfold ncols, set_point. cbn [mcols]. apply upd_length.
  - intros u Hu. exists (fun d => spline (kfun U) n p (fun j => ent P j d) u). split; [apply cc_eval0 with (c := c); assumption|].
    rewrite EV. eapply returns_ext; [apply (cc_eval0 p n dim U _ c'' u CC Hu)|]. intros d Hd. cbn beta. unfold spline.
    rewrite (rsum_ext _ (fun j => bspline (kfun U) n p j u * ent P j d + (if (j =? i)%nat then bspline (kfun U) n p i u * (nth d v 0 - ent P i d) else 0))).
    + rewrite rsum_plus. f_equal. rewrite (rsum_single _ _ i) by (try lia; intros j Hj Hn; cbn beta; apply Nat.eqb_neq in Hn; rewrite Hn; reflexivity). rewrite Nat.eqb_refl. reflexivity.
    + intros j Hj. unfold ent at 1. cbn [set_point mcols]. rewrite nth_upd by (destruct HS as (_ & A & _); rn; lia). destruct (j =? i)%nat eqn:Ej; [|unfold ent; rn; ring].
      apply Nat.eqb_eq in Ej. subst j. unfold ent. rn. ring.
Qed.

(** ** rescaling the knots in place *)
Theorem rescale_in_place p n dim U P c a b : clamped_curve p n dim U P c -> a < b ->
  exists c' c'', accessed c [ARescaleKnots (0, 1) (a, b)] = Val c' /\ accessed c' [ADerivePoints] = Val c'' /\
    built p (map (fun x => a + (b - a) * x) U) P c'' /\
    forall u k, 0 <= u <= 1 -> 0 <= a + (b - a) * u <= 1 -> (k <= p)%nat -> exists f, returns (evaluate_derivative c u k) dim f /\
      returns (evaluate_derivative c' (a + (b - a) * u) k) dim f /\
      returns (evaluate_derivative c'' (a + (b - a) * u) k) dim (fun d => f d / (b - a) ^ k).
Proof.
  intros H Hab. pose proof H as (C & HS & B). assert (WR := cc_wf _ _ _ _ _ _ H). assert (W := proj1 WR).
  assert (HM : cp_matrix (cpoints c) = Val P).
  { unfold cp_matrix. rewrite (vget_nth _ 0 (mzeros 0 0)) by (rewrite (wf_Pk _ _ _ _ _ _ W); lia). rewrite (wf_head _ _ _ _ _ _ W). reflexivity. }
  set (V := map (fun x => a + (b - a) * x) U).
  assert (LV : length V = (n + p + 2)%nat) by (unfold V; rewrite map_length; apply (cl_len _ _ _ C)).
  assert (EK : @knots_rescale RNum (knots_of p U) (0, 1) (a, b) = Val (@knots_of RNum p V)).
  { assert (E0 : @knots_new RNum p U = Val (knots_of p U)) by (apply knots_new_val; pose proof (cl_deg _ _ _ C); pose proof (cl_len _ _ _ C); rn; lia).
    eapply eq_trans; [exact (rescale_fact p U (knots_of p U) 0 1 a b ltac:(lra) E0)|].
    replace (map (fun x : R => a + (x - 0) / (1 - 0) * (b - a)) U) with V by (apply map_ext; intros x; field).
    apply knots_new_val. pose proof (cl_deg _ _ _ C). rn. lia. }
  set (c' := mkCurve (@knots_of RNum p V) (cpoints c)).
  assert (E : accessed c [ARescaleKnots (0, 1) (a, b)] = Val c').
  { unfold accessed. cbn [foldM access_once]. rewrite (wf_knots _ _ _ _ _ _ W). rn. rewrite EK. reflexivity. }
  destruct (built_ex p n dim V P (cl_deg _ _ _ C) LV HS) as [c'' B''].
  exists c', c''. split; [exact E|]. split.
  { apply (rederive_points p n dim V P); [split; [apply (cl_deg _ _ _ C)|split; [exact LV|exact HS]]|reflexivity|exact HM|exact B'']. }
  split; [exact B''|]. intros u k Hu Hu' Hk.
  assert (So : sorted U) by (apply (clamped_sorted p n); exact C).
  assert (So' : sorted V).
  { intros i j Hij Hj. unfold V in *. rewrite map_length in Hj. rewrite !(nth_indep (map _ U) 0 ((fun x => a + (b - a) * x) 0)) by (rewrite map_length; rn; lia).
    rewrite !(map_nth (fun x => a + (b - a) * x)). assert (T := So i j Hij Hj). nra. }
  assert (KV : forall j, kfun V j = (b - a) * kfun U j + a).
  { intros j. unfold V. rewrite (kfun_map (fun x => a + (b - a) * x)); [ring|]. intros ->. pose proof (cl_len _ _ _ C) as L. cbn in L. lia. }
  assert (W' : @wf RNum p n dim V P c').
  { destruct W as [Wd Wl Ws Wk Wm Wh Wp Wpt]. constructor; try assumption. reflexivity. }
  exists (fun d => dspline (kfun U) n p (fun i => ent P i d) k u). split; [apply (cc_eval _ _ _ _ _ _ _ _ H Hu Hk)|]. split.
  - eapply returns_ext; [apply (evaluate_cached p n dim V P c' _ k W' So' Hu' Hk)|]. intros d Hd. cbn beta. unfold dspline. apply rsum_ext. intros i Hi.
    replace (a + (b - a) * u) with ((b - a) * u + a) by ring.
    rewrite (bspline_affine (shift k (kfun U)) (shift k (kfun V)) _ _ _ (b - a) a) by (try lra; intros; apply KV).
    f_equal. cbn [c' cpoints]. apply (proj2 WR); [exact Hk|pose proof (cl_deg _ _ _ C); lia|exact Hd].
  - assert (SZ : @sized RNum p n dim V P) by (split; [apply (cl_deg _ _ _ C)|split; [exact LV|exact HS]]).
    eapply returns_ext; [apply (sorted_eval p n dim V P c'' _ k SZ So' B'' Hu' Hk)|]. intros d Hd. cbn beta.
    replace (a + (b - a) * u) with ((b - a) * u + a) by ring. rewrite (dspline_affine (kfun U) _ n p _ k (b - a) a u ltac:(lra) KV). unfold Rdiv. reflexivity.
Qed.

(** ** reversing the points in place *)
Theorem reverse_points_in_place p n dim U P c : clamped_curve p n dim U P c -> (forall i, (i < length U)%nat -> nth i U 0 = 1 - nth (length U - 1 - i) U 0) ->
  accessed c [AReversePoints] = reverse c.
Proof.
  intros H HU. pose proof H as (C & HS & B). assert (W := proj1 (cc_wf _ _ _ _ _ _ H)).
  assert (V : vrev U = U).
  { unfold vrev. apply (nth_ext _ _ 0 0); [rewrite map_length, rev_length; reflexivity|]. intros i Hi. rewrite map_length, rev_length in Hi.
    rewrite (nth_indep _ 0 ((fun x => 1 - x) 0)) by (rewrite map_length, rev_length; exact Hi). rewrite (map_nth (fun x => 1 - x)). rewrite rev_nth by exact Hi. rewrite (HU i Hi). do 2 f_equal. lia. }
  unfold accessed, reverse. cbn [foldM access_once].
  assert (EK : @knots_reverse RNum (cknots c) = Val (cknots c)).
  { rewrite (wf_knots _ _ _ _ _ _ W). unfold knots_reverse, knots_of. cbn [Uk kp kk_max].
    rewrite (mapM_all _ vrev) by (intros v _; apply vec_reverse_R). cbn [bind]. do 2 f_equal. rewrite map_map. apply map_ext_in. intros k Hk. apply in_seq in Hk.
    rewrite <- V at 2. apply vrev_kderiv. pose proof (cl_deg _ _ _ C); pose proof (cl_len _ _ _ C); lia. }
  rewrite EK. cbn [bind]. destruct (points_reverse (cpoints c)); reflexivity.
Qed.

(** ** moving the knots *)
Theorem move_knots p n dim U V P c : clamped_curve p n dim U P c -> clamped p n V ->
  exists c' c'', accessed c [AKnots (fun _ => Val V)] = Val c' /\ refresh c' = Val c'' /\ refresh_backwards c' = Val c'' /\ clamped_curve p n dim V P c'' /\
    (forall u k, (1 <= k)%nat -> evaluate_derivative c' u k = evaluate_derivative c u k) /\
    forall u, evaluate c' u = evaluate c'' u.
Proof.
  intros H CV. pose proof H as (C & HS & B). assert (W := proj1 (cc_wf _ _ _ _ _ _ H)).
  assert (HM : cp_matrix (cpoints c) = Val P).
  { unfold cp_matrix. rewrite (vget_nth _ 0 (mzeros 0 0)) by (rewrite (wf_Pk _ _ _ _ _ _ W); lia). rewrite (wf_head _ _ _ _ _ _ W). reflexivity. }
  assert (HU : vector (cknots c) = Val U) by (rewrite (wf_knots _ _ _ _ _ _ W); apply knots_of_vector).
  assert (E : exists c', accessed c [AKnots (fun _ => Val V)] = Val c').
  { unfold accessed. cbn [foldM access_once]. unfold vector_mut, vector_derivative_mut. unfold vector in HU. rewrite HU. cbn [bind].
    rewrite (wf_knots _ _ _ _ _ _ W). eexists. reflexivity. }
  destruct E as [c' E]. destruct (knots_written c _ c' E) as (U1 & V1 & A1 & A2 & A3 & A4 & A5 & A6 & A7). rewrite HU in A1. inversion A1. subst U1. inversion A2. subst V1.
  destruct (built_ex p n dim V P (cl_deg _ _ _ CV) (cl_len _ _ _ CV) HS) as [c'' B''].
  assert (CC : clamped_curve p n dim V P c'') by (split; [exact CV|split; [exact HS|exact B'']]).
  assert (W'' := proj1 (cc_wf _ _ _ _ _ _ CC)).
  assert (D : degree c' = p) by (unfold degree, kdegree; rewrite A5, (wf_knots _ _ _ _ _ _ W); reflexivity).
  assert (Rf : refresh c' = Val c'').
  { apply (built_refresh p n dim V P); [split; [apply (cl_deg _ _ _ CV)|split; [apply (cl_len _ _ _ CV)|exact HS]]|exact D|exact A3|rewrite A4; exact HM|exact B'']. }
  exists c', c''. split; [exact E|]. split; [exact Rf|]. split; [|split; [exact CC|split]].
  - rewrite <- Rf. apply (refresh_orders c' V A3). rewrite D. pose proof (cl_len _ _ _ CV). pose proof (cl_deg _ _ _ CV). rn. lia.
  - intros u k Hk. apply (stale_knots c _ c' U V u k E HU eq_refl); [|exact Hk]. pose proof (cl_len _ _ _ CV). pose proof (cl_len _ _ _ C). rn. lia.
  - intros u. apply evaluate_al. split; [|split].
    + rewrite D. unfold degree. rewrite (wf_knots _ _ _ _ _ _ W''). reflexivity.
    + rewrite A3, (wf_knots _ _ _ _ _ _ W''). symmetry. apply knots_of_vector.
    + rewrite A4, HM. unfold cp_matrix. rewrite (vget_nth _ 0 (mzeros 0 0)) by (rewrite (wf_Pk _ _ _ _ _ _ W''); lia). rewrite (wf_head _ _ _ _ _ _ W''). reflexivity.
Qed.

(** refreshing does not change the curve itself *)
Lemma refresh_alike {K : Num} p n dim (U : list K) P (c c' : Curve K) : total_div K -> sized p n dim U P -> degree c = p -> vector (cknots c) = Val U -> cp_matrix (cpoints c) = Val P ->
  refresh c = Val c' -> alike c c'.
Proof.
  intros D S HD HU HP E. apply (built_refresh p n dim U P c S HD HU HP) in E. assert (W := sized_wf True (gdiv_total K D) p n dim U P c' S E).
  split; [|split].
  - rewrite HD. unfold degree. rewrite (wf_knots _ _ _ _ _ _ W). reflexivity.
  - rewrite HU, (wf_knots _ _ _ _ _ _ W). symmetry. apply knots_of_vector.
  - rewrite HP. unfold cp_matrix. rewrite (vget_nth _ 0 (mzeros 0 0)) by (rewrite (wf_Pk _ _ _ _ _ _ W); lia). rewrite (wf_head _ _ _ _ _ _ W). reflexivity.
Qed.

Lemma insert_alike_fact {K : Num} (c c' : Curve K) u : alike c c' ->
  insert c u = insert c' u \/ exists c1 c2 e, insert c u = Val (c1, Err e) /\ insert c' u = Val (c2, Err e) /\ alike c1 c2.
Proof.
  intros H. destruct (insert_al c c' u H) as [(c1 & -> & ->)|[(c1 & c2 & e & -> & -> & A)|[[-> ->]|[[-> ->]|[-> ->]]]]]; try (left; reflexivity). right. exists c1, c2, e. repeat split; apply A.
Qed.

Lemma new_alike_fact {K : Num} (c c' : Curve K) : alike c c' -> curve_new (cknots c) (cpoints c) = curve_new (cknots c') (cpoints c').
Proof. intros H. apply alike_parts in H. apply curve_new_al; apply H. Qed.
