(** * The model on exact reals computes the specification *)

From Coq Require Import ZArith Reals List Bool Arith Lia Lra.
From Verif Require Import Num Vec MKnots MPoints MCurve RNum Hoare Lists Struct Spec BMath BMath2 BMath3 Api.
Import ListNotations.
Local Open Scope R_scope.

(** ** Comparisons and division *)
Lemma Rleb_le x y : Rleb x y = true <-> x <= y.
Proof. unfold Rleb. destruct (Rle_dec x y); split; auto; discriminate. Qed.
Lemma Rleb_gt x y : Rleb x y = false <-> y < x.
Proof. unfold Rleb. destruct (Rle_dec x y); split; auto; try discriminate; try lra. Qed.
Lemma Rltb_lt x y : Rltb x y = true <-> x < y.
Proof. unfold Rltb. destruct (Rlt_dec x y); split; auto; discriminate. Qed.
Lemma Rltb_ge x y : Rltb x y = false <-> y <= x.
Proof. unfold Rltb. destruct (Rlt_dec x y); split; auto; try discriminate; try lra. Qed.
Lemma Reqb_eq x y : Reqb x y = true <-> x = y.
Proof. unfold Reqb. destruct (Req_EM_T x y); split; auto; discriminate. Qed.
Lemma Reqb_neq x y : Reqb x y = false <-> x <> y.
Proof. unfold Reqb. destruct (Req_EM_T x y); split; auto; try discriminate; congruence. Qed.
Lemma Rdivm_val x y : y <> 0 -> Rdivm x y = Val (x / y).
Proof. unfold Rdivm. destruct (Req_EM_T y 0); [congruence|reflexivity]. Qed.

Lemma gdiv_R : @gdiv RNum False.
Proof.
  intros x y z H. cbn [neqb ndiv nsub RNum] in *. apply Reqb_neq in H. rewrite Rdivm_val by lra. exact I.
Qed.

Lemma div_R (x y : RNum) : ndiv x y <> Panic /\ ndiv x y <> Diverge.
Proof. cbn [ndiv RNum]. unfold Rdivm. destruct (Req_EM_T y 0); split; discriminate. Qed.

Lemma nofnat_R k : @nofnat RNum k = INR k.
Proof. unfold nofnat. cbn [nofZ RNum]. symmetry. apply INR_IZR_INZ. Qed.

Ltac rn :=
  change (T RNum) with R in *; change (@n0 RNum) with 0 in *; change (@n1 RNum) with 1 in *;
  change (@nhalf RNum) with (/ 2) in *; change (@nmhalf RNum) with (- / 2) in *;
  change (@nadd RNum) with Rplus in *; change (@nsub RNum) with Rminus in *; change (@nmul RNum) with Rmult in *;
  change (@ndiv RNum) with Rdivm in *; change (@nleb RNum) with Rleb in *; change (@nltb RNum) with Rltb in *;
  change (@neqb RNum) with Reqb in *; change (@nsqrt RNum) with sqrt in *; change (@nofZ RNum) with IZR in *;
  change (@ntrunc RNum) with Int_part in *.

(** ** Basis functions *)
Lemma basis_R (v : list R) u k n : (k <= n)%nat -> (n + 1 - k < length v)%nat ->
  nth (n - k) v 0 <= nth (n + 1 - k) v 0 ->
  forall p i, (i + p + 1 < length v)%nat -> @basis RNum v p i k n u = Val (bspline (kfun v) (n - k) p i u).
Proof.
  intros Hk Hn Hs. induction p as [|h IH]; intros i Hi.
  - cbn [basis]. rn. rewrite (vget_nth v i 0) by lia. cbn [bind]. rn.
    unfold bspline. cbn [cox]. unfold span_ind. rewrite !kfun_nth by lia.
    replace (S (n - k)) with (n + 1 - k)%nat by lia. replace (S i) with (i + 1)%nat by lia.
    unfold Rleb at 1. destruct (Rle_dec (nth i v 0) u) as [H1|H1].
    + rewrite (vget_nth v (i + 1) 0) by lia. cbn [bind]. unfold Rltb.
      destruct (Rlt_dec u (nth (i + 1) v 0)); [reflexivity|].
      rewrite usub_ok by lia. cbn [bind]. destruct (i =? n - k)%nat; [|reflexivity].
      rewrite usub_ok by lia. cbn [bind]. rewrite (vget_nth v _ 0) by lia. cbn [bind]. unfold Reqb.
      destruct (Req_EM_T u (nth (n + 1 - k) v 0)); reflexivity.
    + cbn [bind]. rewrite usub_ok by lia. cbn [bind]. destruct (i =? n - k)%nat eqn:E; [|reflexivity].
      apply Nat.eqb_eq in E. subst i.
      rewrite usub_ok by lia. cbn [bind]. rewrite (vget_nth v _ 0) by lia. cbn [bind]. unfold Reqb.
      destruct (Req_EM_T u (nth (n + 1 - k) v 0)); [lra|reflexivity].
  - cbn [basis]. rn.
    replace (i + h + 1)%nat with (i + S h)%nat by lia. replace (i + 1 + h + 1)%nat with (i + 1 + S h)%nat by lia.
    rewrite !(vget_nth v _ 0) by lia. cbn [bind]. rewrite !IH by lia. rn.
    unfold bspline. cbn [cox]. replace (S i + S h)%nat with (i + 1 + S h)%nat by lia.
    replace (S i) with (i + 1)%nat by lia. rewrite !kfun_nth by lia.
    assert (Aux : forall a b x r, (if Reqb a b then Val 0 else w <- Rdivm x (a - b);; r0 <- Val r;; Val (w * r0)) = Val (ratio x (a - b) * r)).
    { intros a b x r. destruct (Reqb a b) eqn:E.
      - apply Reqb_eq in E. subst. rewrite Rminus_diag_eq, ratio_0, Rmult_0_l by reflexivity. reflexivity.
      - apply Reqb_neq in E. rewrite Rdivm_val, ratio_nz by lra. reflexivity. }
    rewrite !Aux. reflexivity.
Qed.

(** ** Derivative control points *)
Lemma derive_point_R p (U : list R) n dim (P : Mat RNum) rest km :
  length U = (n + p + 2)%nat -> shape dim (S n) P ->
  forall k i, (k <= p)%nat -> (i + k <= n)%nat ->
  ok False (derive_single_point (mkCP (P :: rest) km) (knots_of p U) k i)
    (fun v => length v = dim /\ forall d, (d < dim)%nat -> nth d v 0 = dpoints (kfun U) p (fun i => ent P i d) k i).
Proof.
  intros HL HP. induction k as [|k IH]; intros i Hk Hi.
  - cbn [derive_single_point Pk]. unfold vget at 1. cbn [nth_error bind].
    rewrite (mcol_val P dim (S n)) by (try exact HP; lia). cbn [ok]. split; [apply HP; lia|]. reflexivity.
  - cbn [derive_single_point]. rewrite knots_of_vector. cbn [bind kdegree kp knots_of]. fold (knots_of p U). rn.
    rewrite (vget_nth U (i + p + 1) 0) by lia. cbn [bind].
    rewrite (vget_nth U (i + S k) 0) by lia. cbn [bind]. rn.
    cbn [dpoints]. rewrite !kfun_nth by lia.
    destruct (Reqb (nth (i + p + 1) U 0) (nth (i + S k) U 0)) eqn:E.
    + apply Reqb_eq in E. rewrite (cp_dimension_val P rest km dim (S n) HP). cbn [bind ok]. split; [apply vzeros_length|].
      intros d Hd. rewrite E. rewrite (Rminus_diag_eq (nth (i + S k) U 0) _ eq_refl), ratio_0.
      unfold vzeros. rewrite nth_repeat. ring.
    + apply Reqb_neq in E. rewrite usub_ok by lia. cbn [bind]. rewrite Rdivm_val by lra. cbn [bind].
      eapply ok_bind; [apply IH; lia|]. intros hi [Lhi Hhi].
      eapply ok_bind; [apply IH; lia|]. intros lo [Llo Hlo].
      destruct (@vsub_val RNum hi lo) as [d [Ed [Ld Hd]]]; [rn; congruence|]. rewrite Ed. cbn [bind ok].
      split; [rewrite (@vscale_length RNum); rn; congruence|]. intros c Hc.
      rewrite (@nth_vscale RNum) by (rn; lia). rn. rewrite Hd by lia. rewrite Hhi, Hlo by lia.
      rewrite nofnat_R. rewrite ratio_nz by lra. replace (p - S k + 1)%nat with (p - k)%nat by lia.
      replace (i + 1)%nat with (S i) by lia. field. lra.
Qed.

(** a curve object whose cached derivative control points are the right ones *)
Definition wfR (p n dim : nat) (U : list R) (P : Mat RNum) (c : Curve RNum) : Prop :=
  wf p n dim U P c /\
  forall k i d, (k <= p)%nat -> (i + k <= n)%nat -> (d < dim)%nat ->
    ent (nth k (Pk (cpoints c)) (mzeros 0 0)) i d = dpoints (kfun U) p (fun i => ent P i d) k i.

Lemma points_derive_R p (U : list R) n dim (P : Mat RNum) rest km :
  (p <= n)%nat -> length U = (n + p + 2)%nat -> shape dim (S n) P ->
  ok False (points_derive (mkCP (P :: rest) km) (knots_of p U))
    (fun cp => pk_max cp = p /\ nth 0 (Pk cp) (mzeros 0 0) = P /\ length (Pk cp) = S p /\
       (forall k, (k <= p)%nat -> shape dim (S n - k) (nth k (Pk cp) (mzeros 0 0))) /\
       forall k i d, (k <= p)%nat -> (i + k <= n)%nat -> (d < dim)%nat ->
         ent (nth k (Pk cp) (mzeros 0 0)) i d = dpoints (kfun U) p (fun i => ent P i d) k i).
Proof.
  intros Hpn HL HP.
  assert (Hok : ok False (points_derive (mkCP (P :: rest) km) (knots_of p U)) (fun cp =>
       forall k i d, (k <= p)%nat -> (i + k <= n)%nat -> (d < dim)%nat ->
         ent (nth k (Pk cp) (mzeros 0 0)) i d = dpoints (kfun U) p (fun i => ent P i d) k i)).
  { unfold points_derive. rewrite (cp_segments_val P rest km dim n HP). cbn [bind Pk firstn kdegree kp knots_of pk_max].
    fold (knots_of p U).
    eapply ok_bind with (Q := fun cp => forall k i d, (k < p + 1)%nat -> (i + k <= n)%nat -> (d < dim)%nat ->
         ent (nth k (Pk cp) (mzeros 0 0)) i d = dpoints (kfun U) p (fun i => ent P i d) k i).
    - eapply ok_weaken; [apply (ok_foldM_rangei False _ (fun j cp => (exists r, Pk cp = P :: r /\ length (P :: r) = j) /\
         forall k i d, (k < j)%nat -> (i + k <= n)%nat -> (d < dim)%nat ->
         ent (nth k (Pk cp) (mzeros 0 0)) i d = dpoints (kfun U) p (fun i => ent P i d) k i))|].
      + lia.
      + split; [exists []; split; reflexivity|]. intros k i d Hk Hi Hd. replace k with 0%nat by lia. reflexivity.
      + intros k [pk0 km0] Hk [[r [E Lr]] Hs]. cbn [Pk] in E. subst pk0. cbn [length] in Lr.
        rewrite usub_ok by lia. cbn [bind]. rewrite (cp_dimension_val P r km0 dim (S n) HP). cbn [bind].
        eapply ok_bind.
        * apply (ok_foldM_range False _ (fun j Pm => shape dim (n - k + 1) Pm /\ forall i d, (i < j)%nat -> (d < dim)%nat ->
             ent Pm i d = dpoints (kfun U) p (fun i => ent P i d) k i)).
          -- lia.
          -- split; [apply mzeros_shape|]. intros; lia.
          -- intros i Pm Hi [HPm HPe].
             eapply ok_bind; [apply (derive_point_R p U n dim P r km0 HL HP k i); lia|].
             intros v [Lv Hv]. rewrite (mset_col_val Pm dim (n - k + 1)) by (try assumption; lia).
             cbn [ok]. split; [apply upd_shape; [assumption|lia|assumption]|].
             intros j d Hj Hd. rewrite ent_upd by (destruct HPm as [_ [-> _]]; lia).
             destruct (Nat.eqb_spec j i) as [->|Hne]; [apply Hv; exact Hd|]. apply HPe; [lia|exact Hd].
        * intros Pm [HPm HPe]. cbn [ok Pk]. split.
          { exists (r ++ [Pm]). split; [reflexivity|]. cbn [length]. rewrite app_length. simpl. lia. }
          intros j i d Hj Hi Hd. destruct (Nat.eq_dec j k) as [->|Hne].
          { rewrite app_nth2 by (cbn [length]; lia). cbn [length].
            replace (k - S (length r))%nat with 0%nat by lia. cbn [nth]. apply HPe; [lia|exact Hd]. }
          { rewrite app_nth1 by (cbn [length]; lia). apply Hs; try assumption. lia. }
      + intros cp [_ H]. exact H.
    - intros cp H. cbn [ok Pk]. intros k i d Hk. apply H. lia. }
  eapply ok_weaken; [apply ok_and; [apply (points_derive_ok False gdiv_R p U n dim P rest km); assumption|exact Hok]|].
  intros cp [[H1 [H2 [H3 H4]]] H5]. auto.
Qed.

Lemma calculate_derivatives_R p (U : list R) n dim (P : Mat RNum) c0 :
  (p <= n)%nat -> length U = (n + p + 2)%nat -> shape dim (S n) P ->
  kp (cknots c0) = p -> (exists r, Uk (cknots c0) = U :: r) -> (exists r, Pk (cpoints c0) = P :: r) ->
  ok False (calculate_derivatives c0) (wfR p n dim U P).
Proof.
  intros Hpn HL HP Hp [r Hr] [s Hs]. unfold calculate_derivatives.
  rewrite (knots_derive_val _ U r Hr) by (rewrite Hp; rn; lia). rewrite Hp. cbn [bind].
  destruct c0 as [kn [pk km]]. cbn [cknots cpoints Pk] in *. subst pk.
  eapply ok_bind; [apply (points_derive_R p U n dim P s km); assumption|].
  intros cp [H1 [H2 [H3 [H4 H5]]]]. cbn [ok]. split; [|exact H5]. split; auto.
Qed.

Lemma curve_new_R p (U : list R) n dim (P : Mat RNum) :
  (p <= n)%nat -> length U = (n + p + 2)%nat -> shape dim (S n) P ->
  ok False (curve_new (knots_of p U) (cp_new P)) (fun r => exists c, r = Ok c /\ wfR p n dim U P c).
Proof.
  intros Hpn HL HP. unfold curve_new. unfold cp_new at 1. rewrite (cp_segments_val P [] 0 dim n HP). cbn [bind kdegree kp knots_of].
  replace (n <? p)%nat with false by (symmetry; apply Nat.ltb_ge; lia).
  fold (knots_of p U). eapply ok_bind.
  - apply (calculate_derivatives_R p U n dim P); auto.
    + exists (map (fun k => kderiv k U) (seq 1 p)). cbn [cknots knots_of Uk seq map]. rewrite kderiv_0. reflexivity.
    + exists []. reflexivity.
  - intros c Hc. cbn [ok]. exists c. auto.
Qed.

Lemma built_wf p n dim (U : list R) (P : Mat RNum) c : (p <= n)%nat -> length U = (n + p + 2)%nat -> shape dim (S n) P ->
  @built RNum p U P c -> wfR p n dim U P c.
Proof.
  intros Hpn HL HP [kn [E1 E2]]. rewrite (@knots_new_val RNum) in E1 by (rn; lia). injection E1 as <-.
  assert (T := curve_new_R p U n dim P Hpn HL HP). rewrite E2 in T. cbn [ok] in T.
  destruct T as [c' [E W]]. injection E as <-. exact W.
Qed.

Lemma built_ex p n dim (U : list R) (P : Mat RNum) : (p <= n)%nat -> length U = (n + p + 2)%nat -> shape dim (S n) P ->
  exists c, @built RNum p U P c.
Proof.
  intros Hpn HL HP. assert (T := curve_new_R p U n dim P Hpn HL HP). apply ok_val_ex in T.
  destruct T as [r [E [c [-> _]]]]. exists c. exists (knots_of p U). split; [apply (@knots_new_val RNum); rn; lia|exact E].
Qed.

(** the object is determined by the knots and control points *)
Lemma wfR_unique p n dim U P c c' : wfR p n dim U P c -> wfR p n dim U P c' -> c = c'.
Proof.
  intros [[A1 A2 A3 A4 A5 A6 A7 A8] A9] [[B1 B2 B3 B4 B5 B6 B7 B8] B9].
  destruct c as [kn [pk km]], c' as [kn' [pk' km']]. cbn [cknots cpoints Pk pk_max] in *.
  subst. f_equal. f_equal. apply (list_ext (mzeros 0 0)); [congruence|].
  intros k Hk. apply (mat_ext _ _ dim (S n - k)); [apply A8; lia|apply B8; lia|].
  intros i d Hi Hd. rewrite A9, B9 by lia. reflexivity.
Qed.

Lemma wfR_built p n dim U P c : wfR p n dim U P c -> @built RNum p U P c.
Proof.
  intros W. assert (W' := W). destruct W' as [[A1 A2 A3 A4 A5 A6 A7 A8] A9].
  destruct (built_ex p n dim U P A1 A2 A3) as [c' Hc']. assert (W' := built_wf p n dim U P c' A1 A2 A3 Hc').
  rewrite (wfR_unique _ _ _ _ _ _ _ W W'). exact Hc'.
Qed.

(** ** Evaluation *)
Lemma foldM_sum dim (f : nat -> R) (V : nat -> list R) a m : forall v0,
  length v0 = dim -> (forall i, (a <= i < a + m)%nat -> length (V i) = dim) ->
  exists v, foldM (fun v i => @vadd RNum v (@vscale RNum (f i) (V i))) (seq a m) v0 = Val v /\ length v = dim /\
    forall d, (d < dim)%nat -> nth d v 0 = nth d v0 0 + rsum (fun i => f (a + i)%nat * nth d (V (a + i)%nat) 0) m.
Proof.
  revert a. induction m as [|m IH]; intros a v0 H0 HV.
  - exists v0. cbn [seq foldM rsum]. split; [reflexivity|]. split; [exact H0|]. intros; rn; ring.
  - cbn [seq foldM].
    assert (La : length (V a) = dim) by (apply HV; lia).
    destruct (@vadd_val RNum v0 (@vscale RNum (f a) (V a))) as [v1 [E1 [L1 N1]]]; [rewrite (@vscale_length RNum); rn; congruence|].
    rewrite E1. cbn [bind]. destruct (IH (S a) v1) as [v [E [L N]]]; [rn; congruence|intros; apply HV; lia|].
    exists v. split; [exact E|]. split; [exact L|]. intros d Hd. rewrite N by exact Hd.
    rewrite N1 by (rn; lia). rewrite (@nth_vscale RNum) by (rn; lia). rn. rewrite rsum_first.
    rewrite Nat.add_0_r. rewrite (rsum_ext (fun i => f (S a + i)%nat * nth d (V (S a + i)%nat) 0)
       (fun i => f (a + S i)%nat * nth d (V (a + S i)%nat) 0)).
    + ring.
    + intros i _. replace (S a + i)%nat with (a + S i)%nat by lia. reflexivity.
Qed.

Lemma sorted_mono U : sorted U -> mono (kfun U).
Proof.
  intros H i j Hij.
  assert (K : forall i, kfun U i = nth (Nat.min i (length U - 1)) U 0).
  { intros a. destruct (le_lt_dec (length U) a).
    - rewrite kfun_over by lia. f_equal. lia.
    - rewrite kfun_nth by lia. f_equal. lia. }
  destruct U as [|x U]; [unfold kfun; simpl; destruct i, j; lra|].
  rewrite !K. apply H; simpl length; lia.
Qed.

Lemma clamped_sorted p n U : clamped p n U -> sorted U.
Proof. intros H i j. apply (cl_sorted _ _ _ H). Qed.

Lemma bspline_kderiv p n (U : list R) k i u : length U = (n + p + 2)%nat -> (p <= n)%nat -> (k <= p)%nat ->
  (i <= n - k)%nat -> bspline (kfun (kderiv k U)) (n - k) (p - k) i u = bspline (shift k (kfun U)) (n - k) (p - k) i u.
Proof.
  intros HL Hpn Hk Hi. assert (L := kderiv_length k U).
  assert (E : forall a, (a < n + p + 2 - 2 * k)%nat -> kfun (kderiv k U) a = shift k (kfun U) a).
  { intros a Ha. rewrite kfun_nth by lia. rewrite nth_kderiv by lia. unfold shift. rewrite kfun_nth by lia. f_equal. lia. }
  unfold bspline. apply cox_ext.
  - intros a Ha. unfold span_ind. rewrite !E by lia. reflexivity.
  - intros a Ha _. apply E. lia.
Qed.

Theorem evaluate_R p n dim U P c u k : wfR p n dim U P c -> sorted U -> 0 <= u <= 1 -> (k <= p)%nat ->
  returns (@evaluate_derivative RNum c u k) dim (fun d => dspline (kfun U) n p (fun i => ent P i d) k u).
Proof.
  intros [W We] HS Hu Hk. unfold evaluate_derivative. rn.
  replace (Rleb 0 u) with true by (symmetry; apply Rleb_le; lra).
  replace (Rleb u 1) with true by (symmetry; apply Rleb_le; lra). cbn [andb negb].
  unfold degree, dimension, segments. destruct W as [Wd Wl Ws Wk Wm Wh Wp Wpt].
  destruct c as [kn [pk km]]. cbn [cknots cpoints pk_max Pk] in *. subst kn km.
  destruct pk as [|P0 pk]; [simpl in Wp; lia|]. cbn [nth] in Wh. subst P0.
  rewrite (cp_dimension_val P pk p dim (S n) Ws). cbn [bind kdegree kp knots_of]. fold (knots_of p U).
  assert (Ek := Hk). apply Nat.leb_le in Ek. rewrite Ek. rewrite (cp_segments_val P pk p dim n Ws). cbn [bind].
  assert (F := @find_idx_le_ok RNum False p U n k u Wl Wd Hk). apply ok_val_ex in F.
  destruct F as [l [-> [Hl Hlu]]]. cbn [bind].
  rewrite usub_ok by lia. cbn [bind]. rewrite usub_ok by lia. cbn [bind]. rewrite usub_ok by lia. cbn [bind].
  set (Q := nth k (P :: pk) (mzeros 0 0)).
  specialize (Wpt k Hk). fold Q in Wpt.
  set (lo := (l - (p - k))%nat).
  set (V := fun i => nth i (mcols Q) []).
  set (f := fun i => bspline (shift k (kfun U)) (n - k) (p - k) i u).
  rewrite (foldM_ext _ (fun v i => @vadd RNum v (@vscale RNum (f i) (V i)))).
  2:{ intros s i Hi. unfold rangei in Hi. apply in_seq in Hi.
      rewrite (@kevaluate_val RNum p U n) by (try assumption; lia).
      rewrite basis_R; rn; try lia.
      - rewrite (bspline_kderiv p n U k) by (unfold lo in *; lia). cbn [bind].
        unfold matrix_derivative. cbn [pk_max Pk]. rewrite Ek. cbn [assert bind].
        rewrite (vget_nth _ k (mzeros 0 0)) by lia. cbn [bind]. fold Q.
        rewrite (mcol_val Q dim (S n - k)) by (try exact Wpt; unfold lo in *; lia). reflexivity.
      - rewrite kderiv_length. lia.
      - rewrite !nth_kderiv by lia. apply HS; lia.
      - rewrite kderiv_length. lia. }
  unfold rangei.
  destruct (foldM_sum dim f V lo (n - k + 1 - lo) (@vzeros RNum dim)) as [v [E [L N]]].
  - apply vzeros_length.
  - intros i Hi. unfold V. apply Wpt. unfold lo in Hi. lia.
  - rewrite E. cbn [bind]. exists v. split; [reflexivity|]. split; [exact L|]. intros d Hd.
    rewrite N by exact Hd. unfold vzeros. rewrite nth_repeat.
    unfold dspline. rewrite (rsum_drop _ lo (S (n - k))).
    + replace (S (n - k) - lo)%nat with (n - k + 1 - lo)%nat by lia. rewrite Rplus_0_l. apply rsum_ext. intros i Hi.
      unfold f. f_equal. rewrite <- We by (unfold lo in *; lia). reflexivity.
    + unfold lo. lia.
    + intros i Hi. unfold lo in Hi.
      (* functions that end before the span of u *)
      assert (Hlu' : nth (k + l) U 0 <= u).
      { destruct Hlu as [Hlu|H]; [exfalso; lia|]. rn. apply Rleb_le in H. exact H. }
      unfold bspline. rewrite (cox_ext _ (fun _ => 0) (shift k (kfun U)) (shift k (kfun U))).
      * rewrite cox_zero. ring.
      * intros a Ha. unfold span_ind. destruct (Rle_dec (shift k (kfun U) a) u); [|reflexivity].
        assert (M1 : shift k (kfun U) (S a) <= kfun U (k + l)%nat).
        { unfold shift. apply (sorted_mono U HS). lia. }
        rewrite kfun_nth in M1 by (rn; lia).
        destruct (Rlt_dec u (shift k (kfun U) (S a))); [lra|].
        replace (a =? n - k)%nat with false by (symmetry; apply Nat.eqb_neq; lia). reflexivity.
      * reflexivity.
Qed.
