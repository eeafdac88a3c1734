(** * The linear system of the merge *)

From Coq Require Import ZArith Reals List Bool Arith Lia Lra.
From Verif Require Import Num Vec MKnots MPoints MCurve MFit MMerge RNum Hoare Lists Struct Spec BMath BMath3 Api Bridge Facts1 Facts3 Gen3 Fit1 Merge1 Merge2.
Import ListNotations.

(** ** views *)
Lemma mset_view_val {K : Num} (R_ C_ h w r0 c0 : nat) (m src : Mat K) : shape R_ C_ m -> shape h w src -> r0 + h <= R_ -> c0 + w <= C_ ->
  exists m', mset_view m r0 c0 h w src = Val m' /\ shape R_ C_ m' /\
    forall x y, x < R_ -> y < C_ -> ent m' y x = if ((r0 <=? x) && (x <? r0 + h)) && ((c0 <=? y) && (y <? c0 + w)) then ent src (y - c0) (x - r0) else ent m y x.
Proof.
  intros Sm Ss Hr Hc. assert (Ss' := Ss). destruct Ss' as [S1 [S2 S3]]. assert (NC : ncols m = C_) by apply Sm. assert (NR : nrows m = R_) by apply Sm. assert (NS : ncols src = w) by apply Ss.
  unfold mset_view. rewrite NR, NC, S1, NS, !Nat.eqb_refl. rewrite (proj2 (Nat.leb_le _ _) Hr), (proj2 (Nat.leb_le _ _) Hc). cbn [andb].
  destruct (foldM_paint (fun m0 c => s <- mcol src c;; old <- mcol m0 (c0 + c);; new <- segment_set old r0 h s;; mset_col m0 (c0 + c) new)
     (fun c x y => ((r0 <=? x) && (x <? r0 + h)) && (y =? c0 + c)) (fun x y => ent src (y - c0) (x - r0)) 0 w m R_ C_ Sm) as [m' [E [S' H]]].
  - intros N i SN Hi. rewrite (mcol_val _ _ _ i Ss) by lia. cbn [bind]. rewrite (mcol_val _ _ _ (c0 + i) SN) by lia. cbn [bind].
    destruct SN as [N1 [N2 N3]]. rewrite segment_set_val by (rewrite ?N3, ?S3 by lia; lia). cbn [bind]. unfold mset_col.
    rewrite segment_set_length by (rewrite ?N3, ?S3 by lia; lia). rewrite N3, N1, Nat.eqb_refl by lia. rewrite vset_val by lia. cbn [bind].
    eexists. split; [reflexivity|]. split.
    + split; [reflexivity|]. cbn [mcols]. rewrite upd_length. split; [exact N2|]. intros k Hk. rewrite nth_upd by lia.
      destruct (Nat.eqb_spec k (c0 + i)); [|apply N3; exact Hk]. rewrite segment_set_length by (rewrite ?N3, ?S3 by lia; lia). apply N3. lia.
    + intros x y Hx Hy. unfold ent. cbn [mcols]. rewrite nth_upd by lia. destruct (Nat.eqb_spec y (c0 + i)) as [->|]; [|rewrite andb_false_r; reflexivity].
      rewrite nth_segment_set by (rewrite ?N3, ?S3 by lia; lia). rewrite andb_true_r. replace (c0 + i - c0) with i by lia. reflexivity.
  - exists m'. split; [exact E|]. split; [exact S'|]. intros x y Hx Hy. rewrite H by assumption.
    destruct ((r0 <=? x) && (x <? r0 + h)); cbn [andb].
    + destruct ((c0 <=? y) && (y <? c0 + w)) eqn:Ey.
      * apply andb_true_iff in Ey. destruct Ey as [E1 E2]. apply Nat.leb_le in E1. apply Nat.ltb_lt in E2.
        rewrite (existsb_seq _ 0 w (y - c0)); [reflexivity|lia|]. apply Nat.eqb_eq. lia.
      * replace (existsb (fun c => y =? c0 + c) (seq 0 w)) with false; [reflexivity|]. symmetry. apply not_true_is_false. intros T. apply existsb_exists in T.
        destruct T as [c [T1 T2]]. apply in_seq in T1. apply Nat.eqb_eq in T2. apply andb_false_iff in Ey. destruct Ey as [Ey|Ey]; [apply Nat.leb_gt in Ey|apply Nat.ltb_ge in Ey]; lia.
    + replace (existsb (fun _ => false) (seq 0 w)) with false; [reflexivity|]. clear. induction (seq 0 w); [reflexivity|assumption].
Qed.

Lemma midentity_shape {K : Num} r : shape r r (@midentity K r).
Proof.
  split; [reflexivity|]. cbn [midentity mcols]. split; [rewrite map_length, seq_length; reflexivity|]. intros i Hi. rewrite nth_map_seq by exact Hi. rewrite map_length, seq_length. reflexivity.
Qed.
Lemma ent_midentity {K : Num} r i j : i < r -> j < r -> ent (@midentity K r) j i = if i =? j then n1 else n0.
Proof. intros Hi Hj. unfold ent. cbn [midentity mcols]. rewrite nth_map_seq by exact Hj. rewrite nth_map_seq by exact Hi. reflexivity. Qed.

Local Open Scope R_scope.

(** ** folds *)
Lemma foldM_add (body : R -> nat -> M R) w a len : forall s0, (forall s i, (a <= i < a + len)%nat -> body s i = Val (s + w i)) ->
  foldM body (seq a len) s0 = Val (s0 + rsum (fun i => w (a + i)%nat) len).
Proof.
  revert a. induction len as [|len IH]; intros a s0 H; [cbn; do 2 f_equal; ring|]. cbn [seq foldM]. rewrite H by lia. cbn [bind].
  rewrite IH by (intros; apply H; lia). rewrite rsum_first. rewrite (rsum_ext (fun i => w (a + S i)%nat) (fun i => w (S a + i)%nat)) by (intros; f_equal; lia).
  rewrite Nat.add_0_r. f_equal. ring.
Qed.

Lemma foldM_vec dim (body : list R -> nat -> M (list R)) (w : nat -> nat -> R) a len : forall v0, length v0 = dim ->
  (forall v i, length v = dim -> (a <= i < a + len)%nat -> exists v', body v i = Val v' /\ length v' = dim /\ forall d, (d < dim)%nat -> nth d v' 0 = nth d v 0 + w i d) ->
  exists v, foldM body (seq a len) v0 = Val v /\ length v = dim /\ forall d, (d < dim)%nat -> nth d v 0 = nth d v0 0 + rsum (fun i => w (a + i)%nat d) len.
Proof.
  revert a. induction len as [|len IH]; intros a v0 L H.
  - exists v0. split; [reflexivity|]. split; [exact L|]. intros. cbn. ring.
  - cbn [seq foldM]. destruct (H v0 a L ltac:(lia)) as [v1 [E1 [L1 H1]]]. rewrite E1. cbn [bind].
    destruct (IH (S a) v1 L1) as [v [E [Lv Hv]]]; [intros; apply H; [assumption|lia]|]. exists v. split; [exact E|]. split; [exact Lv|].
    intros d Hd. rewrite Hv, H1 by exact Hd. rewrite rsum_first, Nat.add_0_r.
    rewrite (rsum_ext (fun i => w (a + S i)%nat d) (fun i => w (S a + i)%nat d)) by (intros; f_equal; lia). ring.
Qed.

(** ** difference quotients are linear and local *)
Lemma dpoints_support U p j k : forall i, ~ (i <= j <= i + k)%nat -> dpoints U p (delta j) k i = 0.
Proof.
  induction k as [|k IH]; intros i H; cbn [dpoints]; [apply delta_ne; lia|]. rewrite !IH by lia. rewrite ratio_mul. ring.
Qed.

Lemma dpoints_ext U p P Q k : forall i, (forall j, (i <= j <= i + k)%nat -> P j = Q j) -> dpoints U p P k i = dpoints U p Q k i.
Proof.
  induction k as [|k IH]; intros i H; cbn [dpoints]; [apply H; lia|]. rewrite (IH (S i)), (IH i) by (intros; apply H; lia). reflexivity.
Qed.

Lemma dpoints_expand U p P N k : forall i, (i + k < N)%nat -> dpoints U p P k i = rsum (fun j => P j * dpoints U p (delta j) k i) N.
Proof.
  induction k as [|k IH]; intros i H; cbn [dpoints].
  - rewrite (rsum_single _ N i); [rewrite delta_eq; ring|lia|]. intros j _ N'. rewrite delta_ne by congruence. ring.
  - rewrite (IH (S i)), (IH i) by lia. symmetry. etransitivity.
    + apply (rsum_ext _ (fun j => ratio 1 (U (i + p + 1)%nat - U (i + S k)%nat) * INR (p - k) *
        (P j * dpoints U p (delta j) k (S i) - P j * dpoints U p (delta j) k i))). intros j _. rewrite ratio_mul. ring.
    + rewrite rsum_scal, rsum_minus, (ratio_mul (INR _ * _)). ring.
Qed.

Lemma dpoints_add U p P Q k : forall i, dpoints U p (fun j => P j + Q j) k i = dpoints U p P k i + dpoints U p Q k i.
Proof.
  induction k as [|k IH]; intros i; cbn [dpoints]; [reflexivity|]. rewrite !IH. rewrite !(ratio_mul (_ * _)). ring.
Qed.

(** ** prefactors *)
Lemma prefactor_R p n (U : list R) i0 : length U = (n + p + 2)%nat -> forall k i, (k <= p)%nat -> (i + k <= n)%nat ->
  @prefactor RNum p (S n) U k i i0 = Val (dpoints (kfun U) p (delta i0) k i).
Proof.
  intros L. induction k as [|k IH]; intros i Hk Hi.
  - cbn [prefactor]. rewrite usub_ok by lia. cbn [bind]. rewrite usub_ok by lia. cbn [bind]. replace (i <=? S n - 1 - 0)%nat with true by (symmetry; apply Nat.leb_le; lia).
    cbn [dpoints]. unfold delta. destruct (i =? i0)%nat; reflexivity.
  - cbn [prefactor]. rewrite usub_ok by lia. cbn [bind]. rewrite usub_ok by lia. cbn [bind]. replace (i <=? S n - 1 - S k)%nat with true by (symmetry; apply Nat.leb_le; lia).
    rn. rewrite (vget_nth U (i + p + 1) 0) by lia. cbn [bind]. rewrite (vget_nth U (i + S k) 0) by lia. cbn [bind]. rn. unfold Reqb.
    cbn [dpoints]. rewrite !kfun_nth by lia. unfold ratio. destruct (Req_EM_T (nth (i + p + 1) U 0) (nth (i + S k) U 0)) as [E|E].
    + destruct (Req_EM_T _ 0) as [_|N]; [reflexivity|]. exfalso. apply N. lra.
    + destruct (Req_EM_T _ 0) as [N|_]; [exfalso; apply E; lra|]. rewrite usub_ok by lia. cbn [bind]. rewrite Rdivm_val by lra. cbn [bind].
      replace (i + 1)%nat with (S i) by lia. rewrite !IH by lia. cbn [bind]. f_equal. replace (p + 1 - S k)%nat with (p - k)%nat by lia.
      unfold nofnat. rn. rewrite <- INR_IZR_INZ. field. lra.
Qed.

Lemma basis_level p n (U : list R) k i u : clamped p n U -> (k <= p)%nat -> (i <= n - k)%nat ->
  @basis RNum (kderiv k U) (p - k) i 0 (n - k) u = Val (bspline (shift k (kfun U)) (n - k) (p - k) i u).
Proof.
  intros C Hk Hi. assert (L := cl_len _ _ _ C). assert (D := cl_deg _ _ _ C). assert (LK := kderiv_length k U).
  rewrite (basis_R (kderiv k U) u 0 (n - k)).
  - rewrite Nat.sub_0_r. rewrite (bspline_kderiv p n) by assumption. reflexivity.
  - lia.
  - lia.
  - rewrite !nth_kderiv by lia. apply (cl_sorted _ _ _ C); lia.
  - lia.
Qed.

Lemma seq_eq a l b c : a = b -> l = c -> seq a l = seq b c.
Proof. intros -> ->. reflexivity. Qed.
Ltac us := repeat (rewrite usub_ok by lia; cbn [bind]).

Section Coefficients.
  Context {p m dim : nat} {V : list R} {S_ : Mat RNum} {a : Curve RNum} (HA : clamped_curve p m dim V S_ a).

  Lemma left_coefficient_R k i : (k <= p)%nat -> @left_coefficient RNum a p m k i = Val (dpoints (kfun V) p (delta i) k (m - k)).
  Proof.
    intros Hk. assert (Wa := proj1 (cc_wf _ _ _ _ _ _ HA)). assert (C := proj1 HA). assert (L := cl_len _ _ _ C). assert (D := cl_deg _ _ _ C).
    assert (NS : ncols S_ = S m) by apply (proj1 (proj2 HA)). assert (EU : forall k, (k <= p)%nat -> @vget (list R) (Uk (cknots a)) k = Val (kderiv k V)) by (intros k' Hk'; apply (wf_uk Wa); exact Hk').
    unfold left_coefficient. rewrite (wf_matrix Wa). cbn [bind]. rewrite (wf_uk Wa 0) by lia. rewrite kderiv_0. cbn [bind]. us. unfold rangei. rn.
    rewrite (foldM_add _ (fun a_ => dpoints (kfun V) p (delta i) k a_ * delta (m - k) a_)).
    - rewrite Rplus_0_l. f_equal. rewrite (rsum_single _ _ (p - k)).
      + replace (m - p + (p - k))%nat with (m - k)%nat by lia. rewrite delta_eq. ring.
      + lia.
      + intros j Hj N. rewrite delta_ne by lia. ring.
    - intros s a_ Ha. rewrite NS. rn. rewrite (prefactor_R p m V i L k a_) by lia. cbn [bind]. rn. rewrite (EU k) by lia. cbn [bind]. us.
      rn. rewrite (vget_nth V (m + 1) 0) by lia. cbn [bind]. rewrite (cl_one _ _ _ C) by lia. rewrite (basis_level p m V k a_ 1 C Hk) by lia. cbn [bind].
      rewrite (bspline_at_1 (p - k) (m - k) _ (fclamped_shift p m (kfun V) k (kfun_clamped p m V C) Hk)). reflexivity.
  Qed.

  Lemma right_coefficient_R k i : (k <= p)%nat -> @right_coefficient RNum a p m k i = Val (dpoints (kfun V) p (delta i) k 0).
  Proof.
    intros Hk. assert (Wa := proj1 (cc_wf _ _ _ _ _ _ HA)). assert (C := proj1 HA). assert (L := cl_len _ _ _ C). assert (D := cl_deg _ _ _ C).
    assert (NS : ncols S_ = S m) by apply (proj1 (proj2 HA)). assert (EU : forall k, (k <= p)%nat -> @vget (list R) (Uk (cknots a)) k = Val (kderiv k V)) by (intros k' Hk'; apply (wf_uk Wa); exact Hk').
    unfold right_coefficient. rewrite (wf_matrix Wa). cbn [bind]. rewrite (wf_uk Wa 0) by lia. rewrite kderiv_0. cbn [bind]. us.
    unfold rangei. rn.
    rewrite (foldM_add _ (fun a_ => dpoints (kfun V) p (delta i) k a_ * delta 0 a_)).
    - rewrite Rplus_0_l. f_equal. rewrite (rsum_single _ _ 0).
      + rewrite Nat.add_0_r, delta_eq. ring.
      + lia.
      + intros j Hj N. rewrite delta_ne by lia. ring.
    - intros s a_ Ha. rewrite NS. rn. rewrite (prefactor_R p m V i L k a_) by lia. cbn [bind]. rn. rewrite (EU k) by lia. cbn [bind]. us.
      rn. rewrite (vget_nth V p 0) by lia. cbn [bind]. rewrite (cl_zero _ _ _ C) by lia. rewrite (basis_level p m V k a_ 0 C Hk) by lia. cbn [bind].
      rewrite (bspline_at_0 (p - k) (m - k) _ (fclamped_shift p m (kfun V) k (kfun_clamped p m V C) Hk)). reflexivity.
  Qed.

  Lemma block_rows (body : Mat RNum -> nat -> M (Mat RNum)) (f : nat -> nat -> R) r c b1 b2 :
    (forall N k, shape r c N -> (b1 <= k < b1 + r)%nat -> exists body2, body N k = foldM body2 (seq b2 c) N /\
        forall N i, shape r c N -> (b2 <= i < b2 + c)%nat -> body2 N i = @mset RNum N (k - b1) (i - b2) (f (k - b1)%nat (i - b2)%nat)) ->
    exists N, foldM body (seq b1 r) (mzeros r c) = Val N /\ shape r c N /\ forall x y, (x < r)%nat -> (y < c)%nat -> ent N y x = f x y.
  Proof.
    intros H. apply (@fill_matrix RNum body f true b1 r c). intros N k SN Hk. destruct (H N k SN Hk) as [body2 [-> H2]].
    destruct (@fill_row RNum body2 (f (k - b1)%nat) b2 c N r c (k - b1) SN ltac:(lia) eq_refl H2) as [N' [E [S' H']]].
    exists N'. split; [exact E|]. split; [exact S'|]. intros x y Hx Hy. rewrite H' by assumption. destruct (Nat.eqb_spec x (k - b1)) as [->|]; reflexivity.
  Qed.

  Lemma scaled_block (m0 : M (Mat RNum)) s (f : nat -> nat -> R) r c :
    (exists N, m0 = Val N /\ shape r c N /\ forall x y, (x < r)%nat -> (y < c)%nat -> ent N y x = f x y) ->
    exists N, (N0 <- m0;; Val (mscale s N0)) = Val N /\ shape r c N /\ forall x y, (x < r)%nat -> (y < c)%nat -> ent N y x = s * f x y.
  Proof.
    intros [N [-> [SN H]]]. cbn [bind]. eexists. split; [reflexivity|]. split; [apply mscale_shape; exact SN|].
    intros x y Hx Hy. rewrite (ent_mscale_R r c N s x y SN Hx Hy), H by assumption. reflexivity.
  Qed.

  Definition lc k j := dpoints (kfun V) p (delta (m + 1 - p + j)) k (m - k).
  Definition rc k j := dpoints (kfun V) p (delta j) k 0.

  Hypothesis Hp : (1 <= p)%nat.

  Lemma KV_R : exists N, @calculateKV RNum a = Val N /\ shape p p N /\ forall x y, (x < p)%nat -> (y < p)%nat -> ent N y x = lc x y.
  Proof.
    assert (Wa := proj1 (cc_wf _ _ _ _ _ _ HA)). assert (D := cl_deg _ _ _ (proj1 HA)).
    unfold calculateKV. rewrite (wf_degree Wa), (wf_segments Wa). cbn [bind]. us. unfold rangei.
    replace (p - 1 + 1 - 0)%nat with p by lia. apply (block_rows _ lc p p 0 (m + 1 - p)).
    intros N k SN Hk. eexists. split; [match goal with |- context [foldM ?f (seq ?x ?l) _ = foldM _ (seq ?y ?c) _] => rewrite (seq_eq x l y c) by lia end; reflexivity|]. intros N' i SN' Hi. cbv beta. rewrite left_coefficient_R by lia. cbn [bind]. us.
    unfold lc. rewrite Nat.sub_0_r. replace (m + 1 - p + (i - (m + 1 - p)))%nat with i by lia. reflexivity.
  Qed.

  Lemma IV_R : exists N, @calculateIV RNum a = Val N /\ shape p p N /\ forall x y, (x < p)%nat -> (y < p)%nat -> ent N y x = / 2 * lc y x.
  Proof.
    assert (Wa := proj1 (cc_wf _ _ _ _ _ _ HA)). assert (D := cl_deg _ _ _ (proj1 HA)).
    unfold calculateIV. rewrite (wf_degree Wa), (wf_segments Wa). cbn [bind]. us. unfold rangei.
    apply (scaled_block _ (/ 2) (fun x y => lc y x) p p).
    replace (m + 1 - (m - p + 1))%nat with p by lia. apply (block_rows _ (fun x y => lc y x) p p (m - p + 1) 0).
    intros N i SN Hi. eexists. split; [match goal with |- context [foldM ?f (seq ?x ?l) _ = foldM _ (seq ?y ?c) _] => rewrite (seq_eq x l y c) by lia end; reflexivity|]. intros N' k SN' Hk. cbv beta. rewrite left_coefficient_R by lia. cbn [bind]. us.
    unfold lc. rewrite Nat.sub_0_r. replace (m + 1 - p + (i - (m - p + 1)))%nat with i by lia. replace (i - (m + 1 - p))%nat with (i - (m - p + 1))%nat by lia. reflexivity.
  Qed.

  Lemma KW_R : exists N, @calculateKW RNum a = Val N /\ shape p p N /\ forall x y, (x < p)%nat -> (y < p)%nat -> ent N y x = -1 * rc x y.
  Proof.
    assert (Wa := proj1 (cc_wf _ _ _ _ _ _ HA)). assert (D := cl_deg _ _ _ (proj1 HA)).
    unfold calculateKW. rewrite (wf_degree Wa), (wf_segments Wa). cbn [bind]. us. unfold rangei.
    apply (scaled_block _ (-1) rc p p).
    replace (p - 1 + 1 - 0)%nat with p by lia. apply (block_rows _ rc p p 0 0).
    intros N k SN Hk. eexists. split; [reflexivity|]. intros N' i SN' Hi. cbv beta. rewrite right_coefficient_R by lia. cbn [bind].
    unfold rc. rewrite !Nat.sub_0_r. reflexivity.
  Qed.

  Lemma JW_R : exists N, @calculateJW RNum a = Val N /\ shape p p N /\ forall x y, (x < p)%nat -> (y < p)%nat -> ent N y x = - / 2 * rc y x.
  Proof.
    assert (Wa := proj1 (cc_wf _ _ _ _ _ _ HA)). assert (D := cl_deg _ _ _ (proj1 HA)).
    unfold calculateJW. rewrite (wf_degree Wa), (wf_segments Wa). cbn [bind]. us. unfold rangei.
    apply (scaled_block _ (- / 2) (fun x y => rc y x) p p).
    replace (p - 1 + 1 - 0)%nat with p by lia. apply (block_rows _ (fun x y => rc y x) p p 0 0).
    intros N i SN Hi. eexists. split; [reflexivity|]. intros N' k SN' Hk. cbv beta. rewrite right_coefficient_R by lia. cbn [bind].
    unfold rc. rewrite !Nat.sub_0_r. reflexivity.
  Qed.

  (** rows of the interpolation constraints *)
  Context (ps : list R).
  Definition gl g j := bspline (kfun V) m p (m + 1 - p + j) (nth g ps 0).
  Definition gr g j := bspline (kfun V) m p j (nth g ps 0).
  Hypothesis Hps : (0 < length ps)%nat.

  Lemma basis_0 i u : (i <= m)%nat -> @basis RNum V p i 0 m u = Val (bspline (kfun V) m p i u).
  Proof.
    intros Hi. assert (C := proj1 HA). assert (L := cl_len _ _ _ C). assert (D := cl_deg _ _ _ C). rewrite (basis_R V u 0 m).
    - rewrite Nat.sub_0_r. reflexivity.
    - lia.
    - lia.
    - apply (cl_sorted _ _ _ C); lia.
    - lia.
  Qed.

  Lemma GV_R : exists N, @calculateGV RNum (mkCC a ps) = Val N /\ shape (length ps) p N /\ forall x y, (x < length ps)%nat -> (y < p)%nat -> ent N y x = gl x y.
  Proof.
    assert (Wa := proj1 (cc_wf _ _ _ _ _ _ HA)). assert (D := cl_deg _ _ _ (proj1 HA)).
    unfold calculateGV, constraint_segments. cbn [cc_curve cc_params]. rewrite (wf_degree Wa), (wf_segments Wa). cbn [bind]. rewrite (wf_vector Wa). cbn [bind]. rn. us. unfold rangei.
    replace (length ps - 1 + 1 - 0)%nat with (length ps) by lia. replace (length ps - 1 + 1)%nat with (length ps) by lia.
    apply (block_rows _ gl (length ps) p 0 (m - p + 1)).
    intros N g SN Hg. eexists. split; [match goal with |- context [foldM ?f (seq ?x ?l) _ = foldM _ (seq ?y ?c) _] => rewrite (seq_eq x l y c) by lia end; reflexivity|]. intros N' i SN' Hi. cbv beta. us. rewrite (vget_nth ps g 0) by lia. cbn [bind].
    rewrite basis_0 by lia. cbn [bind]. unfold gl. rewrite Nat.sub_0_r. replace (m + 1 - p + (i - (m - p + 1)))%nat with i by lia. reflexivity.
  Qed.

  Lemma IpV_R : exists N, @calculateIpV RNum (mkCC a ps) = Val N /\ shape p (length ps) N /\ forall x y, (x < p)%nat -> (y < length ps)%nat -> ent N y x = - / 2 * gl y x.
  Proof.
    assert (Wa := proj1 (cc_wf _ _ _ _ _ _ HA)). assert (D := cl_deg _ _ _ (proj1 HA)).
    unfold calculateIpV, constraint_segments. cbn [cc_curve cc_params]. rewrite (wf_degree Wa), (wf_segments Wa). cbn [bind]. rewrite (wf_vector Wa). cbn [bind]. rn. us. unfold rangei.
    apply (scaled_block _ (- / 2) (fun x y => gl y x) p (length ps)).
    replace (m + 1 - (m - p + 1))%nat with p by lia. replace (length ps - 1 + 1)%nat with (length ps) by lia.
    apply (block_rows _ (fun x y => gl y x) p (length ps) (m - p + 1) 0).
    intros N i SN Hi. eexists. split; [match goal with |- context [foldM ?f (seq ?x ?l) _ = foldM _ (seq ?y ?c) _] => rewrite (seq_eq x l y c) by lia end; reflexivity|]. intros N' g SN' Hg. cbv beta. us. rewrite (vget_nth ps g 0) by lia. cbn [bind].
    rewrite basis_0 by lia. cbn [bind]. unfold gl. rewrite Nat.sub_0_r. replace (m + 1 - p + (i - (m - p + 1)))%nat with i by lia. replace (i - (m + 1 - p))%nat with (i - (m - p + 1))%nat by lia. reflexivity.
  Qed.

  Lemma HW_R : exists N, @calculateHW RNum (mkCC a ps) = Val N /\ shape (length ps) p N /\ forall x y, (x < length ps)%nat -> (y < p)%nat -> ent N y x = gr x y.
  Proof.
    assert (Wa := proj1 (cc_wf _ _ _ _ _ _ HA)). assert (D := cl_deg _ _ _ (proj1 HA)).
    unfold calculateHW, constraint_segments. cbn [cc_curve cc_params]. rewrite (wf_degree Wa), (wf_segments Wa). cbn [bind]. rewrite (wf_vector Wa). cbn [bind]. rn. us. unfold rangei.
    replace (length ps - 1 + 1 - 0)%nat with (length ps) by lia. replace (length ps - 1 + 1)%nat with (length ps) by lia.
    apply (block_rows _ gr (length ps) p 0 0).
    intros N g SN Hg. eexists. split; [match goal with |- context [foldM ?f (seq ?x ?l) _ = foldM _ (seq ?y ?c) _] => rewrite (seq_eq x l y c) by lia end; reflexivity|]. intros N' i SN' Hi. cbv beta. us. rewrite (vget_nth ps g 0) by lia. cbn [bind].
    rewrite basis_0 by lia. cbn [bind]. unfold gr. rewrite !Nat.sub_0_r. reflexivity.
  Qed.

  Lemma JppW_R : exists N, @calculateJppW RNum (mkCC a ps) = Val N /\ shape p (length ps) N /\ forall x y, (x < p)%nat -> (y < length ps)%nat -> ent N y x = - / 2 * gr y x.
  Proof.
    assert (Wa := proj1 (cc_wf _ _ _ _ _ _ HA)). assert (D := cl_deg _ _ _ (proj1 HA)).
    unfold calculateJppW, constraint_segments. cbn [cc_curve cc_params]. rewrite (wf_degree Wa), (wf_segments Wa). cbn [bind]. rewrite (wf_vector Wa). cbn [bind]. rn. us. unfold rangei.
    apply (scaled_block _ (- / 2) (fun x y => gr y x) p (length ps)).
    replace (p - 1 + 1 - 0)%nat with p by lia. replace (length ps - 1 + 1)%nat with (length ps) by lia.
    apply (block_rows _ (fun x y => gr y x) p (length ps) 0 0).
    intros N i SN Hi. eexists. split; [match goal with |- context [foldM ?f (seq ?x ?l) _ = foldM _ (seq ?y ?c) _] => rewrite (seq_eq x l y c) by lia end; reflexivity|]. intros N' g SN' Hg. cbv beta. us. rewrite (vget_nth ps g 0) by lia. cbn [bind].
    rewrite basis_0 by lia. cbn [bind]. unfold gr. rewrite !Nat.sub_0_r. reflexivity.
  Qed.
End Coefficients.
