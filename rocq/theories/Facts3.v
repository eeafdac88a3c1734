(** * Reversing a curve *)

From Coq Require Import ZArith Reals List Bool Arith Lia Lra.
From Verif Require Import Num Vec MKnots MPoints MCurve RNum Hoare Lists Struct Spec BMath BMath2 BMath3 BMath4 Api Bridge Facts1.
Import ListNotations.

Lemma mapM_val {X A} (f : X -> M A) (g : X -> A) l : (forall x, In x l -> f x = Val (g x)) -> mapM f l = Val (map g l).
Proof.
  induction l as [|x l IH]; intros H; [reflexivity|]. simpl. rewrite H by (left; reflexivity). cbn [bind].
  rewrite IH by (intros; apply H; right; assumption). reflexivity.
Qed.

Lemma vec_reverse_val {K : Num} (v : list K) : vec_reverse v = Val (map (fun x => (x + nofZ (-1)) * nofZ (-1))%num (rev v)).
Proof.
  unfold vec_reverse. rewrite swap_loop. cbn [bind]. unfold vmul_scalar, vadd_scalar. rewrite map_map. reflexivity.
Qed.

Local Open Scope R_scope.

(** knots and control points of the reversed curve *)
Definition vrev (v : list R) : list R := map (fun x => 1 - x) (rev v).
Definition mrev {K : Num} (P : Mat K) : Mat K := mkMat (nrows P) (rev (mcols P)).

Lemma vec_reverse_R (v : list R) : @vec_reverse RNum v = Val (vrev v).
Proof. rewrite (@vec_reverse_val RNum). f_equal. unfold vrev. apply map_ext. intros x. rn. change (IZR (-1)) with (-1). lra. Qed.

Lemma vrev_length v : length (vrev v) = length v.
Proof. unfold vrev. rewrite map_length, rev_length. reflexivity. Qed.

Lemma nth_vrev v k : (k < length v)%nat -> nth k (vrev v) 0 = 1 - nth (length v - 1 - k) v 0.
Proof.
  intros H. unfold vrev. rewrite (nth_indep _ 0 (1 - 0)) by (rewrite map_length, rev_length; exact H).
  rewrite (map_nth (fun x => 1 - x)). rewrite nth_rev by exact H. reflexivity.
Qed.

Lemma vrev_vrev v : vrev (vrev v) = v.
Proof.
  apply (list_ext 0); [rewrite !vrev_length; reflexivity|]. intros k Hk. rewrite !vrev_length in Hk.
  rewrite nth_vrev by (rewrite vrev_length; exact Hk). rewrite vrev_length.
  rewrite nth_vrev by lia. replace (length v - 1 - (length v - 1 - k))%nat with k by lia. ring.
Qed.

Lemma vrev_kderiv k v : (2 * k <= length v)%nat -> vrev (kderiv k v) = kderiv k (vrev v).
Proof.
  intros H. apply (list_ext 0); [rewrite kderiv_length, !vrev_length, kderiv_length; reflexivity|].
  intros i Hi. rewrite vrev_length, kderiv_length in Hi.
  rewrite nth_vrev by (rewrite kderiv_length; exact Hi). rewrite kderiv_length.
  rewrite nth_kderiv by lia. rewrite nth_kderiv by (rewrite vrev_length; lia). rewrite nth_vrev by lia.
  do 2 f_equal. lia.
Qed.

Lemma mrev_shape {K : Num} r c (P : Mat K) : shape r c P -> shape r c (mrev P).
Proof.
  intros [H1 [H2 H3]]. split; [exact H1|]. split; [cbn; rewrite rev_length; exact H2|].
  intros i Hi. cbn [mrev mcols]. rewrite nth_rev by lia. apply H3. lia.
Qed.

Lemma ent_mrev {K : Num} r c (P : Mat K) i d : shape r c P -> (i < c)%nat -> ent (mrev P) i d = ent P (c - 1 - i) d.
Proof. intros [H1 [H2 H3]] Hi. unfold ent. cbn [mrev mcols]. rewrite nth_rev by lia. rewrite H2. reflexivity. Qed.

Lemma mrev_mrev {K : Num} (P : Mat K) : mrev (mrev P) = P.
Proof. destruct P as [a b]. unfold mrev. cbn [nrows mcols]. rewrite rev_involutive. reflexivity. Qed.

(** cached derivative points of order [k] after the reversal *)
Definition mrevk {K : Num} (k : nat) (P : Mat K) : Mat K :=
  if (k mod 2 =? 1)%nat then mscale (nofZ (-1)) (mrev P) else mrev P.

Lemma mscale_shape {K : Num} r c s (P : Mat K) : shape r c P -> shape r c (mscale s P).
Proof.
  intros [H1 [H2 H3]]. split; [exact H1|]. split; [cbn; rewrite map_length; exact H2|].
  intros i Hi. cbn [mscale mcols]. rewrite (nth_indep _ [] (vmul_scalar [] s)) by (rewrite map_length; lia).
  rewrite (map_nth (fun c => vmul_scalar c s)). unfold vmul_scalar. rewrite map_length. apply H3. exact Hi.
Qed.

Lemma ent_mscale_R r c s (P : Mat RNum) i d : shape r c P -> (i < c)%nat -> (d < r)%nat ->
  ent (@mscale RNum s P) i d = ent P i d * s.
Proof.
  intros [H1 [H2 H3]] Hi Hd. unfold ent. cbn [mscale mcols].
  rewrite (nth_indep _ [] (@vmul_scalar RNum [] s)) by (rewrite map_length; lia).
  rewrite (map_nth (fun c => @vmul_scalar RNum c s)). unfold vmul_scalar. rn.
  rewrite (nth_indep _ 0 (0 * s)) by (rewrite map_length; rewrite H3 by exact Hi; exact Hd).
  rewrite (map_nth (fun x => x * s)). reflexivity.
Qed.

Lemma mrevk_shape {K : Num} k r c (P : Mat K) : shape r c P -> shape r c (mrevk k P).
Proof. intros H. unfold mrevk. destruct (_ =? _)%nat; [apply mscale_shape|]; apply mrev_shape; exact H. Qed.

Lemma points_reverse_val {K : Num} (cp : ControlPoints K) : length (Pk cp) = S (pk_max cp) ->
  exists pk, points_reverse cp = Val (mkCP pk (pk_max cp)) /\ length pk = S (pk_max cp) /\
    forall k, (k <= pk_max cp)%nat -> nth k pk (mzeros 0 0) = mrevk k (nth k (Pk cp) (mzeros 0 0)).
Proof.
  intros L. unfold points_reverse.
  set (f := fun pk k => _).
  assert (T : ok False (foldM f (rangei 0 (pk_max cp)) (Pk cp)) (fun pk => length pk = S (pk_max cp) /\
     forall k, (k <= pk_max cp)%nat -> nth k pk (mzeros 0 0) = if (k <? pk_max cp + 1)%nat then mrevk k (nth k (Pk cp) (mzeros 0 0)) else nth k (Pk cp) (mzeros 0 0))).
  { apply (ok_foldM_rangei False f (fun j pk => length pk = S (pk_max cp) /\
     forall k, (k <= pk_max cp)%nat -> nth k pk (mzeros 0 0) = if (k <? j)%nat then mrevk k (nth k (Pk cp) (mzeros 0 0)) else nth k (Pk cp) (mzeros 0 0))).
    - lia.
    - split; [exact L|]. intros k Hk. reflexivity.
    - intros i pk Hi [Lp Hp]. unfold f. replace (i <=? pk_max cp)%nat with true by (symmetry; apply Nat.leb_le; lia).
      cbn [assert bind]. rewrite (vget_nth pk i (mzeros 0 0)) by lia. cbn [bind]. rewrite mat_reverse_val. cbn [bind].
      rewrite vset_val by lia. cbn [ok]. split; [rewrite upd_length; exact Lp|].
      intros k Hk. rewrite nth_upd by lia. destruct (Nat.eqb_spec k i) as [->|Hne].
      + replace (i <? 1 + i)%nat with true by (symmetry; apply Nat.ltb_lt; lia). rewrite Hp by exact Hk.
        rewrite Nat.ltb_irrefl. reflexivity.
      + rewrite Hp by exact Hk. destruct (Nat.ltb_spec k i), (Nat.ltb_spec k (1 + i)); try reflexivity; lia. }
  apply ok_val_ex in T. destruct T as [pk [E [Lp Hp]]]. exists pk. rewrite E. cbn [bind]. split; [reflexivity|].
  split; [exact Lp|]. intros k Hk. rewrite Hp by exact Hk. replace (k <? pk_max cp + 1)%nat with true by (symmetry; apply Nat.ltb_lt; lia). reflexivity.
Qed.

Lemma dpoints_rev U V p n (P P' : nat -> R) :
  (forall k, (k <= n + p + 1)%nat -> V k = 1 - U (n + p + 1 - k)%nat) ->
  (forall i, (i <= n)%nat -> P' i = P (n - i)%nat) ->
  forall k i, (k <= p)%nat -> (i + k <= n)%nat -> dpoints V p P' k i = (-1) ^ k * dpoints U p P k (n - k - i).
Proof.
  intros HV HP. induction k as [|k IH]; intros i Hk Hi.
  - cbn [dpoints pow]. rewrite HP by lia. rewrite Nat.sub_0_r. ring.
  - cbn [dpoints]. rewrite !IH by lia. rewrite !HV by lia.
    replace (n - k - S i)%nat with (n - S k - i)%nat by lia.
    replace (n - k - i)%nat with (S (n - S k - i)) by lia.
    replace (n + p + 1 - (i + p + 1))%nat with (n - S k - i + S k)%nat by lia.
    replace (n + p + 1 - (i + S k))%nat with (n - S k - i + p + 1)%nat by lia.
    set (a := dpoints U p P k (S (n - S k - i))). set (b := dpoints U p P k (n - S k - i)).
    set (x := U (n - S k - i + S k)%nat). set (y := U (n - S k - i + p + 1)%nat).
    replace (1 - x - (1 - y)) with (y - x) by ring. unfold ratio. destruct (Req_EM_T (y - x) 0); [ring|].
    cbn [pow]. field. exact n0.
Qed.

Lemma pow_m1 k : (-1) ^ k = if (k mod 2 =? 1)%nat then -1 else 1.
Proof.
  rewrite (Nat.div_mod k 2) at 1 by lia. rewrite pow_add, pow_mult. replace ((-1) ^ 2) with 1 by ring. rewrite pow1.
  assert (T := Nat.mod_upper_bound k 2). destruct (k mod 2) as [|[|m]]; simpl; [ring|ring|lia].
Qed.

Lemma reverse_wf p n dim U P c : wfR p n dim U P c ->
  exists c', @reverse RNum c = Val c' /\ wfR p n dim (vrev U) (mrev P) c'.
Proof.
  intros [W We]. assert (Wl := wf_len _ _ _ _ _ _ W). assert (Wd := wf_deg _ _ _ _ _ _ W). rn.
  unfold reverse. rewrite (wf_knots _ _ _ _ _ _ W). unfold knots_reverse. cbn [Uk knots_of].
  rewrite (mapM_val _ vrev) by (intros x _; apply vec_reverse_R). cbn [bind kp kk_max knots_of].
  destruct (points_reverse_val (cpoints c)) as [pk [E [Lp Hp]]].
  { rewrite (wf_max _ _ _ _ _ _ W). apply W. }
  rewrite E. cbn [bind]. eexists. split; [reflexivity|].
  assert (Ek : map vrev (map (fun k => kderiv k U) (seq 0 (S p))) = map (fun k => kderiv k (vrev U)) (seq 0 (S p))).
  { rewrite map_map. apply map_ext_in. intros k Hk. apply in_seq in Hk. apply vrev_kderiv. lia. }
  change (T RNum) with R. rewrite Ek. rewrite (wf_max _ _ _ _ _ _ W) in *.
  split.
  - split; cbn [cknots cpoints Pk pk_max].
    + exact Wd.
    + rewrite vrev_length. exact Wl.
    + apply mrev_shape. apply W.
    + reflexivity.
    + reflexivity.
    + rewrite Hp by lia. cbn [mrevk]. unfold mrevk. rewrite (wf_head _ _ _ _ _ _ W). reflexivity.
    + exact Lp.
    + intros k Hk. rewrite Hp by exact Hk. apply mrevk_shape. apply W. exact Hk.
  - intros k i d Hk Hi Hd. cbn [cpoints Pk]. rewrite Hp by exact Hk.
    assert (Sk := wf_pts _ _ _ _ _ _ W k Hk).
    rewrite (dpoints_rev (kfun U) (kfun (vrev U)) p n (fun i => ent P i d)); try assumption.
    + rewrite pow_m1. rewrite <- We by lia. unfold mrevk. destruct (k mod 2 =? 1)%nat.
      * rewrite (ent_mscale_R dim (S n - k)) by (try apply mrev_shape; try assumption; lia).
        rewrite (ent_mrev dim (S n - k)) by (try assumption; lia). rn. change (IZR (-1)) with (-1).
        replace (S n - k - 1 - i)%nat with (n - k - i)%nat by lia. ring.
      * rewrite (ent_mrev dim (S n - k)) by (try assumption; lia).
        replace (S n - k - 1 - i)%nat with (n - k - i)%nat by lia. symmetry. apply Rmult_1_l.
    + intros a Ha. rewrite !kfun_nth by (rewrite ?vrev_length; lia). rewrite nth_vrev by lia. do 2 f_equal. lia.
    + intros a Ha. rewrite (ent_mrev dim (S n)) by (try apply W; lia). f_equal. lia.
Qed.

Lemma reverse_clamped p n U : clamped p n U -> clamped p n (vrev U).
Proof.
  intros C. assert (L := cl_len _ _ _ C). assert (D := cl_deg _ _ _ C). split.
  - exact D.
  - rewrite vrev_length. exact L.
  - intros i j Hij Hj. rewrite vrev_length in Hj. rewrite !nth_vrev by lia.
    assert (T := cl_sorted _ _ _ C (length U - 1 - j)%nat (length U - 1 - i)%nat ltac:(lia) ltac:(lia)). lra.
  - intros i Hi. rewrite nth_vrev by lia. rewrite (cl_one _ _ _ C) by lia. ring.
  - intros i Hi Hj. rewrite vrev_length in Hj. rewrite nth_vrev by lia. rewrite (cl_zero _ _ _ C) by lia. ring.
  - intros i Hi Hj. rewrite nth_vrev by lia. assert (T := cl_inner _ _ _ C (length U - 1 - i)%nat ltac:(lia) ltac:(lia)). lra.
Qed.

Lemma reverse_curve p n dim U P c : clamped_curve p n dim U P c ->
  exists c', @reverse RNum c = Val c' /\ clamped_curve p n dim (vrev U) (mrev P) c'.
Proof.
  intros H. destruct (reverse_wf p n dim U P c (cc_wf _ _ _ _ _ _ H)) as [c' [E W]].
  exists c'. split; [exact E|]. split; [apply reverse_clamped; apply H|]. split; [apply mrev_shape; apply H|].
  apply (wfR_built p n dim). exact W.
Qed.

Lemma dspline_reverse p n U V (P P' : nat -> R) k u : fclamped p n U -> fclamped p n V ->
  (forall k, (k <= n + p + 1)%nat -> V k = 1 - U (n + p + 1 - k)%nat) ->
  (forall i, (i <= n)%nat -> P' i = P (n - i)%nat) -> (k <= p)%nat -> 0 <= u <= 1 ->
  (0 < u < 1 -> mult_le U (1 - u) (p - k)) ->
  dspline V n p P' k u = (-1) ^ k * dspline U n p P k (1 - u).
Proof.
  intros CU CV HV HP Hk Hu Hm. rewrite !dspline_spline.
  assert (D := fc_deg _ _ _ CU).
  rewrite <- (spline_reverse (p - k) (n - k) (shift k U) (shift k V)).
  - unfold spline. rewrite <- rsum_scal. apply rsum_ext. intros i Hi.
    rewrite (dpoints_rev U V p n P P' HV HP) by lia. ring.
  - apply fclamped_shift; assumption.
  - apply fclamped_shift; assumption.
  - intros a Ha. unfold shift. rewrite HV by lia. do 2 f_equal. lia.
  - exact Hu.
  - intros Hu2. apply mult_le_shift. apply Hm. exact Hu2.
Qed.

Lemma reverse_eval p n dim U P c k u : clamped_curve p n dim U P c -> (k <= p)%nat -> 0 <= u <= 1 ->
  (0 < u < 1 -> (mult U (1 - u) <= p - k)%nat) ->
  exists c' v, @reverse RNum c = Val c' /\ evaluate_derivative c (1 - u) k = Val (Ok v) /\ length v = dim /\
    returns (evaluate_derivative c' u k) dim (fun d => (-1) ^ k * nth d v 0).
Proof.
  intros H Hk Hu Hm. destruct (reverse_curve p n dim U P c H) as [c' [E H']].
  destruct (cc_eval p n dim U P c (1 - u) k H ltac:(lra) Hk) as [v [Ev [Lv Nv]]].
  exists c', v. split; [exact E|]. split; [exact Ev|]. split; [exact Lv|].
  eapply returns_ext; [apply (cc_eval p n dim (vrev U) (mrev P) c' u k H' Hu Hk)|]. intros d Hd. cbv beta.
  rewrite Nv by exact Hd. assert (C : clamped p n U) by apply H. assert (L := cl_len _ _ _ C).
  apply dspline_reverse; try assumption.
  - apply kfun_clamped. exact C.
  - apply kfun_clamped. apply H'.
  - intros a Ha. rewrite !kfun_nth by (rewrite ?vrev_length; lia). rewrite nth_vrev by lia. do 2 f_equal. lia.
  - intros a Ha. rewrite (ent_mrev dim (S n)) by (try apply H; lia). f_equal. lia.
  - intros Hu2. apply (mult_mult_le p n); [exact C|lra|auto].
Qed.

Lemma reverse_twice p n dim U P c : @sized RNum p n dim U P -> @built RNum p U P c ->
  exists c', @reverse RNum c = Val c' /\ @reverse RNum c' = Val c.
Proof.
  intros [H1 [H2 H3]] B. assert (W := built_wf p n dim U P c H1 H2 H3 B).
  destruct (reverse_wf p n dim U P c W) as [c' [E W']]. destruct (reverse_wf p n dim _ _ c' W') as [c'' [E' W'']].
  rewrite vrev_vrev, mrev_mrev in W''. exists c'. split; [exact E|]. rewrite E'. f_equal.
  apply (wfR_unique p n dim U P); assumption.
Qed.

Lemma reverse_fact p n dim U P c : clamped_curve p n dim U P c ->
  exists c', @reverse RNum c = Val c' /\
    clamped_curve p n dim (map (fun x => 1 - x) (rev U)) (mkMat (nrows P) (rev (mcols P))) c' /\
    forall k u, (k <= p)%nat -> 0 <= u <= 1 -> (0 < u < 1 -> (mult U (1 - u) <= p - k)%nat) ->
    exists v, evaluate_derivative c (1 - u) k = Val (Ok v) /\ length v = dim /\
      returns (evaluate_derivative c' u k) dim (fun d => (-1) ^ k * nth d v 0).
Proof.
  intros H. destruct (reverse_curve p n dim U P c H) as [c' [E H']]. exists c'. split; [exact E|]. split; [exact H'|].
  intros k u Hk Hu Hm. destruct (reverse_eval p n dim U P c k u H Hk Hu Hm) as [c2 [v [E2 [E3 [E4 E5]]]]].
  rewrite E in E2. injection E2 as <-. exists v. auto.
Qed.
