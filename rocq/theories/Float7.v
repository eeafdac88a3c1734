(** * Basis functions and curve points in binary64 against the exact ones *)

From Coq Require Import ZArith Reals List Bool Arith Lia Lra Psatz.
From Flocq Require Import Core.Core IEEE754.BinarySingleNaN.
From Verif Require Import Num Vec MKnots MPoints MCurve RNum F64 Lists Hoare Struct Spec BMath BMath2 BMath3 Api ApiF Bridge Facts1 Float1 Float2 Float3 Float4.
Import ListNotations.
Local Open Scope R_scope.

Lemma eps_pow : / 2 ^ 53 = eps.
Proof. unfold eps. change (-53)%Z with (- (53))%Z. rewrite bpow_opp, (bpow_powerRZ radix2 53). reflexivity. Qed.

Lemma kpow_5p p : (p <= 100)%nat -> kap ^ (5 * p) - 1 <= (5 * INR p + / 2) * eps.
Proof.
  intros Hp. assert (Ep := eps_pos). assert (Ev := eps_val).
  assert (Ip : 0 <= INR p <= 100) by (split; [apply pos_INR|replace 100 with (INR 100) by (rewrite INR_IZR_INZ; reflexivity); apply le_INR; exact Hp]).
  assert (E5 : INR (5 * p) = 5 * INR p) by (rewrite mult_INR, (INR_IZR_INZ 5); reflexivity).
  assert (KB : kap ^ (5 * p) <= 1 + INR (5 * p) * eps + (INR (5 * p) * eps) ^ 2) by (apply kpow_bound; rewrite E5, Ev; lra).
  rewrite E5 in KB.
  assert (Q : (5 * INR p * eps) ^ 2 <= / 2 * eps).
  { replace ((5 * INR p * eps) ^ 2) with (5 * INR p * (5 * INR p) * eps * eps) by ring.
    apply Rmult_le_compat_r; [lra|].
    apply Rle_trans with (500 * 500 * eps); [apply Rmult_le_compat_r; [lra|apply Rmult_le_compat; lra]|]. rewrite Ev. lra. }
  lra.
Qed.

(** a sum whose terms vanish outside [j - p .. j] *)
Lemma rsum_window g t p j : 0 <= t -> (forall i, Rabs (g i) <= t) -> (forall i, (j < i \/ i + p < j)%nat -> g i = 0) ->
  forall m, Rabs (rsum g m) <= INR (Nat.min m (j + 1) - (j - p)) * t.
Proof.
  intros Ht Hg Hz. induction m as [|m IH].
  - cbn [rsum]. rewrite Rabs_R0. apply Rmult_le_pos; [apply pos_INR|exact Ht].
  - cbn [rsum]. destruct (le_lt_dec (m + p + 1) j) as [H1|H1]; [|destruct (le_lt_dec m j) as [H2|H2]].
    + rewrite Hz by lia. rewrite Rplus_0_r. apply Rle_trans with (1 := IH). apply Rmult_le_compat_r; [exact Ht|]. apply le_INR. lia.
    + apply Rle_trans with (1 := Rabs_triang _ _).
      replace (Nat.min (S m) (j + 1) - (j - p))%nat with (S (Nat.min m (j + 1) - (j - p))) by lia. rewrite S_INR. assert (T := Hg m). lra.
    + rewrite Hz by lia. rewrite Rplus_0_r. apply Rle_trans with (1 := IH). apply Rmult_le_compat_r; [exact Ht|]. apply le_INR. lia.
Qed.

Lemma rsum_abs f n : Rabs (rsum f n) <= rsum (fun i => Rabs (f i)) n.
Proof. induction n as [|n IH]; cbn [rsum]; [rewrite Rabs_R0; lra|]. apply Rle_trans with (1 := Rabs_triang _ _). lra. Qed.

Lemma choose_val (n : nat) (F : nat -> M F64) (Q : nat -> F64 -> Prop) : (forall i, (i <= n)%nat -> exists b, F i = Val b /\ Q i b) ->
  exists b, forall i, (i <= n)%nat -> F i = Val (b i) /\ Q i (b i).
Proof.
  intros H. exists (fun i => match F i with Val x => x | _ => @n0 F64 end). intros i Hi. destruct (H i Hi) as [x [E HQ]].
  change (T F64) with f64 in *. rewrite E. split; [reflexivity|exact HQ].
Qed.

Theorem basis_F64 p n (U : list f64) kn knR (u : f64) f : float_knots p n U -> (p <= 100)%nat -> @knots_new F64 p U = Val kn ->
  @knots_new RNum p (map val U) = Val knR -> finite u -> 0 <= val u <= 1 ->
  (forall i, (i <= n)%nat -> kevaluate knR 0 i p (val u) = Val (f i)) ->
  exists b : nat -> f64, (forall i, (i <= n)%nat -> kevaluate kn 0 i p u = Val (b i) /\ finite (b i) /\ 0 <= val (b i) /\
      Rabs (val (b i) - f i) <= (5 * INR p + 1) * / 2 ^ 53 * f i + / 2 ^ 700 /\
      (val u < nth i (map val U) 0 \/ nth (i + p + 1) (map val U) 0 < val u -> val (b i) = 0)) /\
    Rabs (rsum (fun i => val (b i)) (S n) - 1) <= (5 * INR p + 1) * / 2 ^ 53.
Proof.
  intros FK Hp E1 E2 Fu Hu Hf. destruct FK as [Ff [C Sep]].
  assert (LU := cl_len _ _ _ C). assert (L' := LU). rewrite map_length in L'. assert (D := cl_deg _ _ _ C).
  change (binary_float 53 1024) with f64 in *.
  rewrite (@knots_new_val F64) in E1 by (change (T F64) with f64; lia). injection E1 as <-.
  assert (BF := basis_facts p n _ knR (val u) C E2 Hu). destruct BF as [f' [B1 [B2 [B3 B4]]]].
  assert (Ef : forall i, (i <= n)%nat -> f' i = f i).
  { intros i Hi. assert (A := B1 i Hi). rewrite (Hf i Hi) in A. injection A as A. symmetry. exact A. }
  rewrite (@knots_new_val RNum) in E2 by (rn; lia). injection E2 as <-.
  assert (FC := kfun_clamped _ _ _ C). destruct (span_ex _ _ _ FC (val u) Hu) as [j [Hj Hs]].
  assert (Ep := eps_pos). assert (AB := abserr_bound p Hp). assert (A0 := abserr_nonneg p).
  assert (Ip := pos_INR p).
  assert (St : / 2 ^ 700 = pow2 (-700)) by (change (-700)%Z with (- (700))%Z; rewrite bpow_opp, (bpow_powerRZ radix2 700); reflexivity).
  assert (NB := basis_near U n 0 j u Ff). rewrite !Nat.sub_0_r in NB.
  assert (NB' : forall i, (i <= n)%nat -> exists b, kevaluate (@knots_of F64 p U) 0 i p u = Val b /\
     (finite b /\ near (5 * p) (abserr p) (val b) (f i) /\ ((j < i \/ i + p < j)%nat -> val b = 0))).
  { intros i Hi. destruct NB with (q := p) (i := i) as [b [Eb [Fb [Nb Zb]]]]; try assumption; try lia.
    - apply (fc_mono _ _ _ FC).
    - intros x Hx. apply (clamped_range _ _ _ x C Hx).
    - apply separated_gap. exact Sep.
    - intros i'. apply (span_delta _ _ _ FC); [lia|exact Hs].
    - exists b. split; [rewrite (@kevaluate_val F64 p U n) by (try lia; exact L'); rewrite Nat.sub_0_r, kderiv_0; exact Eb|].
      split; [exact Fb|]. split; [|exact Zb].
      assert (X := B1 i Hi). rewrite (@kevaluate_val RNum p _ n) in X by (try lia; exact LU). rewrite Nat.sub_0_r, kderiv_0 in X.
      rewrite basis_R in X; [|lia|rn; lia|apply (cl_sorted _ _ _ C); lia|rn; lia]. rewrite Nat.sub_0_r in X. injection X as X.
      rewrite <- (Ef i Hi), <- X. exact Nb. }
  destruct (choose_val n _ _ NB') as [b Hb]. exists b.
  assert (K5 := kpow_5p p Hp).
  assert (G : forall i, (i <= n)%nat -> Rabs (val (b i) - f i) <= f i * ((5 * INR p + / 2) * eps) + pow2 (-770)).
  { intros i Hi. destruct (Hb i Hi) as [_ [_ [Nb _]]]. assert (F0 : 0 <= f i) by (rewrite <- Ef by exact Hi; apply B2; exact Hi).
    apply Rle_trans with (1 := near_abs _ _ _ _ F0 Nb). assert (f i * (kap ^ (5 * p) - 1) <= f i * ((5 * INR p + / 2) * eps)) by (apply Rmult_le_compat_l; assumption). lra. }
  assert (FZ : forall i, (i <= n)%nat -> (j < i \/ i + p < j)%nat -> f i = 0).
  { intros i Hi Hz. destruct (Hb i Hi) as [_ [_ [Nb Zb]]].
    assert (X := B1 i Hi). rewrite (@kevaluate_val RNum p _ n) in X by (try lia; exact LU). rewrite Nat.sub_0_r, kderiv_0 in X.
    rewrite basis_R in X; [|lia|rn; lia|apply (cl_sorted _ _ _ C); lia|rn; lia]. rewrite Nat.sub_0_r in X. injection X as X.
    rewrite <- (Ef i Hi), <- X. rewrite (bspline_piece p n _ FC (val u) j) by (try exact Hs; lia).
    apply piece_support. exact Hz. }
  split.
  - intros i Hi. destruct (Hb i Hi) as [Eb [Fb [Nb Zb]]]. split; [exact Eb|]. split; [exact Fb|]. split; [apply Nb|].
    assert (F0 : 0 <= f i) by (rewrite <- Ef by exact Hi; apply B2; exact Hi).
    split.
    + apply Rle_trans with (1 := G i Hi). rewrite eps_pow, St. assert (pow2 (-770) <= pow2 (-700)) by (apply bpow_le; lia).
      assert (0 <= f i * (/ 2 * eps)) by (apply Rmult_le_pos; lra). lra.
    + intros Hout. apply Zb. destruct Hs as [S1 [S2 S3]].
      destruct Hout as [Ho|Ho].
      * left. apply Nat.nle_gt. intros Hij. rewrite <- (kfun_nth _ i) in Ho by (rewrite LU; lia). assert (X := fc_mono _ _ _ FC i j ltac:(lia)). lra.
      * right. apply Nat.nle_gt. intros Hij. rewrite <- (kfun_nth _ (i + p + 1)) in Ho by (rewrite LU; lia). 
        assert (X := fc_mono _ _ _ FC (S j) (i + p + 1)%nat ltac:(lia)). destruct S3 as [S3|[S3 S4]]; [lra|subst j; lra].
  - assert (SF : rsum f (S n) = 1) by (rewrite <- B4; apply rsum_ext; intros i Hi; symmetry; apply Ef; lia).
    assert (Hsum : rsum (fun i => val (b i)) (S n) - 1 = rsum (fun i => val (b i) - f i) (S n)).
    { rewrite <- SF, rsum_minus. reflexivity. }
    rewrite Hsum.
    (* the relative part *)
    set (r := fun i => Rmax (- (f i * ((5 * INR p + / 2) * eps))) (Rmin (val (b i) - f i) (f i * ((5 * INR p + / 2) * eps)))).
    assert (P0 : 0 < pow2 (-770)) by apply bpow_gt_0.
    assert (C0 : 0 <= (5 * INR p + / 2) * eps) by (apply Rmult_le_pos; lra).
    assert (R1 : forall i, (i <= n)%nat -> Rabs (r i) <= f i * ((5 * INR p + / 2) * eps)).
    { intros i Hi. assert (F0 : 0 <= f i) by (rewrite <- Ef by exact Hi; apply B2; exact Hi).
      assert (0 <= f i * ((5 * INR p + / 2) * eps)) by (apply Rmult_le_pos; assumption).
      unfold r. apply Rabs_le. unfold Rmax, Rmin. repeat destruct (Rle_dec _ _); lra. }
    assert (R2 : forall i, (i <= n)%nat -> Rabs (val (b i) - f i - r i) <= pow2 (-770)).
    { intros i Hi. assert (F0 : 0 <= f i) by (rewrite <- Ef by exact Hi; apply B2; exact Hi).
      assert (0 <= f i * ((5 * INR p + / 2) * eps)) by (apply Rmult_le_pos; assumption).
      assert (X := G i Hi). apply Rabs_le_inv in X. unfold r. apply Rabs_le. unfold Rmax, Rmin. repeat destruct (Rle_dec _ _); lra. }
    replace (rsum (fun i => val (b i) - f i) (S n)) with (rsum r (S n) + rsum (fun i => if (i <=? n)%nat then val (b i) - f i - r i else 0) (S n)).
    2:{ rewrite <- rsum_plus. apply rsum_ext. intros i Hi. replace (i <=? n)%nat with true by (symmetry; apply Nat.leb_le; lia). ring. }
    apply Rle_trans with (1 := Rabs_triang _ _).
    assert (S1 : Rabs (rsum r (S n)) <= (5 * INR p + / 2) * eps).
    { apply Rle_trans with (rsum (fun i => f i * ((5 * INR p + / 2) * eps)) (S n)).
      - apply Rle_trans with (rsum (fun i => Rabs (r i)) (S n)); [apply rsum_abs|]. apply rsum_le. intros i Hi. apply R1. lia.
      - rewrite rsum_scal_r, SF. lra. }
    assert (S2 : Rabs (rsum (fun i => if (i <=? n)%nat then val (b i) - f i - r i else 0) (S n)) <= INR (Nat.min (S n) (j + 1) - (j - p)) * pow2 (-770)).
    { apply (rsum_window _ _ p j); [lra| |].
      - intros i. destruct (Nat.leb_spec i n); [apply R2; assumption|rewrite Rabs_R0; lra].
      - intros i Hz. destruct (Nat.leb_spec i n) as [Hi|]; [|reflexivity].
        destruct (Hb i Hi) as [_ [_ [_ Zb]]]. unfold r. rewrite (Zb Hz), (FZ i Hi Hz). rewrite Rmult_0_l, Ropp_0, Rminus_0_r. unfold Rmax, Rmin. repeat destruct (Rle_dec _ _); lra. }
    assert (S3 : INR (Nat.min (S n) (j + 1) - (j - p)) <= 128).
    { replace 128 with (INR 128) by (rewrite INR_IZR_INZ; reflexivity). apply le_INR. lia. }
    assert (S4 : 128 * pow2 (-770) <= / 2 * eps).
    { change 128 with (pow2 7). change (/ 2) with (pow2 (-1)). unfold eps. rewrite <- !bpow_plus. apply bpow_le. lia. }
    assert (INR (Nat.min (S n) (j + 1) - (j - p)) * pow2 (-770) <= 128 * pow2 (-770)) by (apply Rmult_le_compat_r; lra).
    rewrite eps_pow. lra.
Qed.

Theorem accuracy_F64 p n dim (U : list f64) P M c P' cR (u : f64) : float_curve p n dim U P M c -> same_points n dim P P' ->
  clamped_curve p n dim (map val U) P' cR -> (p <= 100)%nat -> / 2 ^ 1000 <= M <= 2 ^ 1022 -> finite u -> 0 <= val u <= 1 ->
  exists f, returns (evaluate cR (val u)) dim f /\ returns_within (@evaluate F64 c u) dim f ((6 * INR p + 3) * / 2 ^ 53 * M).
Proof.
  intros H [Sh Ep] HR Hp HM Fu Hu.
  assert (T := eval_F64 p n dim U P M c u H Hp HM Fu Hu).
  exists (fun d => spline (kfun (map val U)) n p (fun i => ent P' i d) (val u)). split.
  - exact (cc_eval0 p n dim _ P' cR (val u) HR Hu).
  - destruct T as [v [Ev [Lv Hv]]]. exists v. split; [exact Ev|]. split; [exact Lv|]. intros d Hd. destruct (Hv d Hd) as [A B].
    split; [exact A|]. match goal with |- Rabs (_ - ?x) <= _ => match type of B with Rabs (_ - ?y) <= _ => replace x with y end end; [exact B|].
    unfold spline. apply rsum_ext. intros i Hi. rewrite Ep by lia. reflexivity.
Qed.
