(** * The right-hand side of the merge, and shifts that solve the system *)

From Coq Require Import ZArith Reals List Bool Arith Lia Lra.
From Verif Require Import Num Vec MKnots MPoints MCurve MFit MMerge RNum Hoare Lists Struct Spec BMath BMath3 Api Bridge Facts1 Facts3 Gen3 LinAlg Fit1 Fit3 Fit4 Merge1 Merge2 Merge3 Merge4.
Import ListNotations.
Local Open Scope R_scope.

Lemma vadd_term dim (v c : list R) w : length v = dim -> length c = dim ->
  exists v', @vadd RNum v (@vscale RNum w c) = Val v' /\ length v' = dim /\ forall d, (d < dim)%nat -> nth d v' 0 = nth d v 0 + w * nth d c 0.
Proof.
  intros Lv Lc. destruct (@vadd_val RNum v (@vscale RNum w c)) as [v' [E [L H]]]; [rewrite (@vscale_length RNum); rn; congruence|].
  exists v'. split; [exact E|]. split; [rn; congruence|]. intros d Hd. rewrite (H d 0) by (rn; lia). rewrite (@nth_vscale RNum) by (rn; lia). reflexivity.
Qed.
Lemma vsub_term dim (v c : list R) w : length v = dim -> length c = dim ->
  exists v', @vsub RNum v (@vscale RNum w c) = Val v' /\ length v' = dim /\ forall d, (d < dim)%nat -> nth d v' 0 = nth d v 0 + - w * nth d c 0.
Proof.
  intros Lv Lc. destruct (@vsub_val RNum v (@vscale RNum w c)) as [v' [E [L H]]]; [rewrite (@vscale_length RNum); rn; congruence|].
  exists v'. split; [exact E|]. split; [rn; congruence|]. intros d Hd. rewrite (H d 0) by (rn; lia). rewrite (@nth_vscale RNum) by (rn; lia). rn. ring.
Qed.

(** a loop that writes column after column into a zero matrix *)
Lemma fill_fresh (body : Mat RNum -> nat -> M (Mat RNum)) (h : nat -> nat -> R) r c :
  (forall N k, shape r c N -> (k < c)%nat -> (forall d, (d < r)%nat -> ent N k d = 0) -> exists N', body N k = Val N' /\ shape r c N' /\
     forall x y, (x < r)%nat -> (y < c)%nat -> ent N' y x = if (y =? k)%nat then h x y else ent N y x) ->
  exists N, foldM body (seq 0 c) (mzeros r c) = Val N /\ shape r c N /\ forall x y, (x < r)%nat -> (y < c)%nat -> ent N y x = h x y.
Proof.
  intros B.
  assert (G : forall len k N, (k + len = c)%nat -> shape r c N -> (forall x y, (x < r)%nat -> (y < c)%nat -> ent N y x = if (y <? k)%nat then h x y else 0) ->
    exists N', foldM body (seq k len) N = Val N' /\ shape r c N' /\ forall x y, (x < r)%nat -> (y < c)%nat -> ent N' y x = h x y).
  { induction len as [|len IH]; intros k N Hk SN H.
    - exists N. split; [reflexivity|]. split; [exact SN|]. intros x y Hx Hy. rewrite H by assumption. replace (y <? k)%nat with true by (symmetry; apply Nat.ltb_lt; lia). reflexivity.
    - cbn [seq foldM]. destruct (B N k SN ltac:(lia)) as [N1 [E [S1 H1]]].
      + intros d Hd. rewrite H by lia. rewrite Nat.ltb_irrefl. reflexivity.
      + rewrite E. cbn [bind]. apply (IH (S k) N1); [lia|exact S1|]. intros x y Hx Hy. rewrite H1, H by assumption.
        destruct (Nat.eqb_spec y k); [subst; replace (k <? S k)%nat with true by (symmetry; apply Nat.ltb_lt; lia); reflexivity|].
        destruct (Nat.ltb_spec y k), (Nat.ltb_spec y (S k)); try lia; reflexivity. }
  apply (G c 0%nat (mzeros r c)); [lia|apply mzeros_shape|]. intros x y _ _. rewrite ent_mzeros. reflexivity.
Qed.

Section Rhs.
  Context {p m dim : nat} {V : list R} {S_ : Mat RNum} {a : Curve RNum} (HA : clamped_curve p m dim V S_ a).
  Context {o : nat} {W : list R} {T_ : Mat RNum} {b : Curve RNum} (HB : clamped_curve p o dim W T_ b).
  Context (Hp : (1 <= p)%nat).

  (** gap between the [k]-th derivatives at the joint *)
  Definition gap (k d : nat) : R := dpoints (kfun V) p (fun i => ent S_ i d) k (m - k) - dpoints (kfun W) p (fun i => ent T_ i d) k 0.

  Lemma Kconst_R : exists N, @calculateKconst RNum a b = Val N /\ shape dim p N /\ forall d k, (d < dim)%nat -> (k < p)%nat -> ent N k d = - gap k d.
  Proof.
    assert (Wa := proj1 (cc_wf _ _ _ _ _ _ HA)). assert (Wb := proj1 (cc_wf _ _ _ _ _ _ HB)).
    assert (CV := proj1 HA). assert (CW := proj1 HB). assert (SS := proj1 (proj2 HA)). assert (ST := proj1 (proj2 HB)).
    assert (LV := cl_len _ _ _ CV). assert (LW := cl_len _ _ _ CW). assert (DV := cl_deg _ _ _ CV). assert (DW := cl_deg _ _ _ CW).
    assert (EU : forall k, (k <= p)%nat -> @vget (list R) (Uk (cknots a)) k = Val (kderiv k V)) by (intros k' Hk'; apply (wf_uk Wa); exact Hk').
    assert (EW : forall k, (k <= p)%nat -> @vget (list R) (Uk (cknots b)) k = Val (kderiv k W)) by (intros k' Hk'; apply (wf_uk Wb); exact Hk').
    assert (NS : ncols S_ = S m) by apply SS. assert (NT : ncols T_ = S o) by apply ST.
    unfold calculateKconst. rewrite (wf_degree Wa), (wf_dimension Wa), (wf_segments Wa), (wf_segments Wb), (wf_matrix Wa), (wf_matrix Wb). cbn [bind]. rn.
    rewrite (EU 0%nat), (EW 0%nat) by lia. rewrite !kderiv_0. cbn [bind]. us. unfold rangei.
    replace (p - 1 + 1 - 0)%nat with p by lia. apply (fill_fresh _ (fun d k => - gap k d) dim p). intros N k SN Hk HZ.
    rn. us.
    destruct (foldM_vec dim (fun sum i => foldM (fun sum a_ => f <- prefactor p (ncols S_) V k a_ i;; Vk <- @vget (list R) (Uk (cknots a)) k;; u <- @vget R V (m + 1);; x <- basis Vk (p - k) a_ 0 (m - k) u;; c <- mcol S_ i;; vadd sum (vscale (f * x)%num c))
        (seq (m - p) (m - k + 1 - (m - p))) sum) (fun i d => dpoints (kfun V) p (delta i) k (m - k) * ent S_ i d) (m - p) (m + 1 - (m - p)) (@vzeros RNum dim) (vzeros_length dim)) as [s1 [E1 [L1 H1]]].
    { intros v i Lv Hi.
      assert (Lc : length (nth i (mcols S_) []) = dim) by (apply SS; lia).
      destruct (foldM_vec dim (fun sum a_ => f <- prefactor p (ncols S_) V k a_ i;; Vk <- @vget (list R) (Uk (cknots a)) k;; u <- @vget R V (m + 1);; x <- basis Vk (p - k) a_ 0 (m - k) u;; c <- mcol S_ i;; vadd sum (vscale (f * x)%num c))
        (fun a_ d => dpoints (kfun V) p (delta i) k a_ * delta (m - k) a_ * ent S_ i d) (m - p) (m - k + 1 - (m - p)) v Lv) as [v' [E [L H]]].
      - intros v1 a_ Lv1 Ha. rewrite NS. rn. rewrite (prefactor_R p m V i LV k a_) by lia. cbn [bind]. rewrite (EU k) by lia. cbn [bind]. rewrite (vget_nth V (m + 1) 0) by lia. cbn [bind].
        rewrite (cl_one _ _ _ CV) by lia. rewrite (basis_level p m V k a_ 1 CV) by lia. cbn [bind]. rewrite (bspline_at_1 (p - k) (m - k) _ (fclamped_shift p m (kfun V) k (kfun_clamped p m V CV) ltac:(lia))).
        rewrite (mcol_val S_ dim (S m) i SS) by lia. cbn [bind]. apply vadd_term; assumption.
      - exists v'. split; [exact E|]. split; [exact L|]. intros d Hd. rewrite H by exact Hd. f_equal. rewrite (rsum_single _ _ (p - k)).
        + replace (m - p + (p - k))%nat with (m - k)%nat by lia. rewrite delta_eq. ring.
        + lia.
        + intros j Hj N'. rewrite delta_ne by lia. ring. }
    rn. rewrite E1. cbn [bind].
    destruct (foldM_vec dim (fun sum j => foldM (fun sum b_ => f <- prefactor p (ncols T_) W k b_ j;; Wk <- @vget (list R) (Uk (cknots b)) k;; u <- @vget R W p;; x <- basis Wk (p - k) b_ 0 (o - k) u;; c <- mcol T_ j;; vsub sum (vscale (f * x)%num c))
        (seq 0 (p - k + 1 - 0)) sum) (fun j d => - (dpoints (kfun W) p (delta j) k 0 * ent T_ j d)) 0 (p + 1 - 0) s1 L1) as [s2 [E2 [L2 H2]]].
    { intros v j Lv Hj.
      assert (Lc : length (nth j (mcols T_) []) = dim) by (apply ST; lia).
      destruct (foldM_vec dim (fun sum b_ => f <- prefactor p (ncols T_) W k b_ j;; Wk <- @vget (list R) (Uk (cknots b)) k;; u <- @vget R W p;; x <- basis Wk (p - k) b_ 0 (o - k) u;; c <- mcol T_ j;; vsub sum (vscale (f * x)%num c))
        (fun b_ d => - (dpoints (kfun W) p (delta j) k b_ * delta 0 b_) * ent T_ j d) 0 (p - k + 1 - 0) v Lv) as [v' [E [L H]]].
      - intros v1 a_ Lv1 Ha. rewrite NT. rn. rewrite (prefactor_R p o W j LW k a_) by lia. cbn [bind]. rewrite (EW k) by lia. cbn [bind]. rewrite (vget_nth W p 0) by lia. cbn [bind].
        rewrite (cl_zero _ _ _ CW) by lia. rewrite (basis_level p o W k a_ 0 CW) by lia. cbn [bind]. rewrite (bspline_at_0 (p - k) (o - k) _ (fclamped_shift p o (kfun W) k (kfun_clamped p o W CW) ltac:(lia))).
        rewrite (mcol_val T_ dim (S o) j ST) by lia. cbn [bind]. apply vsub_term; assumption.
      - exists v'. split; [exact E|]. split; [exact L|]. intros d Hd. rewrite H by exact Hd. f_equal. rewrite (rsum_single _ _ 0).
        + rewrite Nat.add_0_r, delta_eq. ring.
        + lia.
        + intros j' Hj' N'. rewrite delta_ne by lia. ring. }
    rn. rewrite E2. cbn [bind]. rewrite (mcol_val N dim p k SN) by lia. cbn [bind].
    assert (LN : length (nth k (mcols N) []) = dim) by (apply SN; lia).
    destruct (@vsub_val RNum (nth k (mcols N) []) s2) as [v [E3 [L3 H3]]]; [rn; congruence|]. rn. rewrite E3. cbn [bind].
    destruct (mset_col_ent dim p N k v SN ltac:(lia) ltac:(rn; congruence)) as [N' [E4 [S4 [_ H4]]]].
    exists N'. split; [exact E4|]. split; [exact S4|]. intros x y Hx Hy. rewrite H4. destruct (Nat.eqb_spec y k) as [->|]; [|reflexivity].
    rewrite H3 by (rn; lia). fold (ent N k x). rn. assert (Z := HZ x Hx). unfold ent in Z. rn. rewrite Z. rewrite H2, H1 by exact Hx. unfold vzeros. rewrite nth_repeat. unfold gap.
    rewrite (dpoints_expand _ p (fun i => ent S_ i x) (S m)) by lia. rewrite (dpoints_expand _ p (fun i => ent T_ i x) (p + 1) k 0) by lia.
    rewrite (rsum_drop _ (m - p) (S m)) by (try lia; intros i Hi; rewrite dpoints_support by lia; ring).
    rewrite Nat.sub_0_r. replace (S m - (m - p))%nat with (m + 1 - (m - p))%nat by lia.
    rewrite (rsum_ext (fun j => ent T_ j x * dpoints (kfun W) p (delta j) k 0) (fun j => -1 * - (dpoints (kfun W) p (delta (0 + j)) k 0 * ent T_ (0 + j) x))) by (intros; cbn [Nat.add]; ring).
    rewrite rsum_scal. rewrite (rsum_ext (fun i => ent S_ (m - p + i) x * dpoints (kfun V) p (delta (m - p + i)) k (m - k)) (fun i => dpoints (kfun V) p (delta (m - p + i)) k (m - k) * ent S_ (m - p + i) x)) by (intros; ring).
    rn. ring.
  Qed.
End Rhs.
