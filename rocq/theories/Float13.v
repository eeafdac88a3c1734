(** * Local control in binary64 *)

From Coq Require Import ZArith Reals List Bool Arith Lia Lra Psatz.
From Flocq Require Import Core.Core IEEE754.BinarySingleNaN.
From Verif Require Import Num Vec MKnots MPoints MCurve F64 RNum Lists Hoare Struct Divisions Spec BMath BMath2 BMath3 Api Bridge Facts1 ApiF ApiF2 Float1 Float2 Float3 Float4 Float5.
Import ListNotations.
Local Open Scope R_scope.

Lemma zero_form (x : f64) : fin x = true -> val x = 0 -> exists s, x = B754_zero s.
Proof.
  intros F V. destruct x as [s|s| |s m e H]; try discriminate; [exists s; reflexivity|]. exfalso. cbn [B2R] in V.
  destruct s; [assert (T := F2R_lt_0 radix2 (Float radix2 (cond_Zopp true (Zpos m)) e) ltac:(reflexivity))|assert (T := F2R_gt_0 radix2 (Float radix2 (cond_Zopp false (Zpos m)) e) ltac:(reflexivity))];
    rewrite V in T; lra.
Qed.

Lemma same_sym x y : same_number x y -> same_number y x.
Proof. intros [H|H]; [left; congruence|right; tauto]. Qed.
Lemma same_trans x y z : same_number x y -> same_number y z -> same_number x z.
Proof. intros [->|H] [E|H']; try (right; tauto); [left; exact E|subst; right; tauto]. Qed.

Lemma same_plus (x y z : f64) : same_number x y -> same_number (Bplus mode_NE x z) (Bplus mode_NE y z).
Proof.
  intros [->|[F1 [F2 [V1 V2]]]]; [left; reflexivity|].
  destruct (zero_form x F1 V1) as [s ->]. destruct (zero_form y F2 V2) as [s' ->].
  destruct z as [t|t| |t m e H]; try (left; reflexivity). right. destruct s, s', t; cbn; tauto.
Qed.
Lemma plus_zero (x z : f64) : fin z = true -> val z = 0 -> same_number (Bplus mode_NE x z) x.
Proof.
  intros F V. destruct (zero_form z F V) as [t ->]. destruct x as [s|s| |s m e H]; try (left; reflexivity). right. destruct s, t; cbn; tauto.
Qed.

Section Window.
  Variables (dim lo j p n : nat) (b : nat -> f64) (Q : Mat F64).
  Hypothesis Hpj : (p <= j <= n)%nat.
  Hypothesis Hlo : (lo <= j - p)%nat.
  Hypothesis HS : shape dim (S n) Q.
  Hypothesis Hb : forall i, (i < j - p \/ j < i)%nat -> (i <= n)%nat -> fin (b i) = true /\ val (b i) = 0.
  Hypothesis HQ : forall i d, (i < j - p \/ j < i)%nat -> (i <= n)%nat -> (d < dim)%nat -> fin (ent Q i d) = true.

  Definition window (d : nat) (m : nat) : f64 :=
    fold_left (fun s i => Bplus mode_NE s (Bmult mode_NE (b i) (ent Q i d))) (seq (j - p) m) (@n0 F64).

  Lemma window_S d m : window d (S m) = Bplus mode_NE (window d m) (Bmult mode_NE (b (j - p + m)%nat) (ent Q (j - p + m) d)).
  Proof. unfold window. rewrite seq_S, fold_left_app. reflexivity. Qed.

  (** the sum over all control points is the sum over the active ones *)
  Lemma window_sum (body : list f64 -> nat -> M (list f64)) :
    (forall v i, (lo <= i <= n)%nat -> length v = dim -> exists w, body v i = Val w /\ length w = dim /\
       forall d, (d < dim)%nat -> nth d w (@n0 F64) = Bplus mode_NE (nth d v (@n0 F64)) (Bmult mode_NE (b i) (ent Q i d))) ->
    exists r, foldM body (rangei lo n) (@vzeros F64 dim) = Val r /\ length r = dim /\
      forall d, (d < dim)%nat -> same_number (nth d r (@n0 F64)) (window d (p + 1)).
  Proof.
    intros HB. unfold rangei.
    assert (T : ok False (foldM body (seq lo (n + 1 - lo)) (@vzeros F64 dim))
      (fun r => length r = dim /\ forall d, (d < dim)%nat -> same_number (nth d r (@n0 F64)) (window d (min (lo + (n + 1 - lo) - (j - p)) (p + 1))))).
    { apply (ok_foldM_seq False _ (fun i r => length r = dim /\ forall d, (d < dim)%nat -> same_number (nth d r (@n0 F64)) (window d (min (i - (j - p)) (p + 1))))).
      - split; [apply vzeros_length|]. intros d Hd. replace (min (lo - (j - p)) (p + 1)) with 0%nat by lia.
        left. unfold vzeros. apply nth_repeat.
      - intros i v Hi [L Hv]. destruct (HB v i ltac:(lia) L) as [w [E [Lw Hw]]]. rewrite E. cbn [ok]. split; [exact Lw|].
        intros d Hd. change (T F64) with f64 in *. rewrite Hw by exact Hd. specialize (Hv d Hd).
        destruct (le_lt_dec (j - p) i) as [H1|H1]; [destruct (le_lt_dec i j) as [H2|H2]|].
        + replace (min (1 + i - (j - p)) (p + 1)) with (S (i - (j - p))) by lia. replace (min (i - (j - p)) (p + 1)) with (i - (j - p))%nat in Hv by lia.
          rewrite window_S. replace (j - p + (i - (j - p)))%nat with i by lia. apply same_plus. exact Hv.
        + replace (min (1 + i - (j - p)) (p + 1)) with (p + 1)%nat by lia. replace (min (i - (j - p)) (p + 1)) with (p + 1)%nat in Hv by lia.
          destruct (Hb i ltac:(lia) ltac:(lia)) as [Fb Vb]. assert (Fq := HQ i d ltac:(lia) ltac:(lia) Hd).
          destruct (mul_0_l (b i) (ent Q i d) Fb Fq Vb) as [Fm Vm]. apply same_trans with (2 := Hv). apply plus_zero; assumption.
        + replace (min (1 + i - (j - p)) (p + 1)) with 0%nat by lia. replace (min (i - (j - p)) (p + 1)) with 0%nat in Hv by lia.
          destruct (Hb i ltac:(lia) ltac:(lia)) as [Fb Vb]. assert (Fq := HQ i d ltac:(lia) ltac:(lia) Hd).
          destruct (mul_0_l (b i) (ent Q i d) Fb Fq Vb) as [Fm Vm]. apply same_trans with (2 := Hv). apply plus_zero; assumption. }
    apply ok_val_ex in T. destruct T as [r [E [L Hr]]]. exists r. split; [exact E|]. split; [exact L|].
    intros d Hd. specialize (Hr d Hd). replace (min (lo + (n + 1 - lo) - (j - p)) (p + 1)) with (p + 1)%nat in Hr by lia. exact Hr.
  Qed.
End Window.

Lemma window_ext j p b Q Q' d m : (forall i, (j - p <= i < j - p + m)%nat -> ent Q i d = ent Q' i d) -> window j p b Q d m = window j p b Q' d m.
Proof.
  induction m as [|m IH]; intros H; [reflexivity|]. rewrite !window_S. rewrite IH by (intros; apply H; lia). rewrite H by lia. reflexivity.
Qed.

Definition bval (U : list f64) (p n : nat) (u : f64) (i : nat) : f64 := match @basis F64 U p i 0 n u with Val b => b | _ => @n0 F64 end.

Lemma eval_window p n dim (U : list f64) P c (u : f64) j : @wf F64 p n dim U P c -> float_knots p n U -> (p <= 100)%nat ->
  finite u -> 0 <= val u <= 1 -> (p <= j <= n)%nat -> in_span (kfun (map val U)) n (val u) j ->
  (forall i d, (i < j - p \/ j < i)%nat -> (i <= n)%nat -> (d < dim)%nat -> finite (ent P i d)) ->
  exists v, @evaluate F64 c u = Val (Ok v) /\ length v = dim /\
    forall d, (d < dim)%nat -> same_number (nth d v (@n0 F64)) (window j p (bval U p n u) P d (p + 1)).
Proof.
  intros W FK Hp Fu Hu Hj Hs HP.
  assert (K0 : @kderiv f64 0 U = U) by apply kderiv_0.
  destruct (eval_unfold p n dim U P c 0 u j W FK ltac:(lia) Fu Hu) as [lo [Hlo HE]].
  { lia. } { rewrite K0, Nat.sub_0_r. exact Hs. }
  rewrite K0, !Nat.sub_0_r in HE. rewrite Nat.sub_0_r in Hlo. rewrite (wf_head _ _ _ _ _ _ W) in HE.
  destruct FK as [Fv [Cv Sv]]. assert (FC := kfun_clamped _ _ _ Cv). assert (LU := cl_len _ _ _ Cv). rewrite map_length in LU. change (binary_float 53 1024) with f64 in LU.
  assert (SH := wf_shape _ _ _ _ _ _ W).
  assert (B : forall i, (i <= n)%nat -> exists b, @basis F64 U p i 0 n u = Val b /\ fin b = true /\ ((i < j - p \/ j < i)%nat -> val b = 0)).
  { intros i Hi. destruct (basis_near U n 0 j u) with (q := p) (i := i) as [b [Eb [Fb [_ Zb]]]]; try assumption; try lia.
    - apply (fc_mono _ _ _ FC).
    - intros x Hx. apply (clamped_range _ _ _ x Cv Hx).
    - apply separated_gap. exact Sv.
    - rewrite Nat.sub_0_r. exact Hs.
    - intros i'. rewrite Nat.sub_0_r. apply (span_delta _ _ _ FC); [lia|exact Hs].
    - exists b. split; [exact Eb|]. split; [exact Fb|]. intros H. apply Zb. lia. }
  destruct (window_sum dim lo j p n (bval U p n u) P Hj Hlo) with
    (body := fun value i => b <- @basis F64 U p i 0 n u;; x <- @mcol F64 P i;; @vadd F64 value (@vscale F64 b x)) as [r [Er [Lr Hr]]].
  - intros i H Hi. destruct (B i Hi) as [b [Eb [Fb Zb]]]. unfold bval. rewrite Eb. split; [exact Fb|apply Zb; exact H].
  - exact HP.
  - intros v i Hi L. destruct (B i ltac:(lia)) as [b [Eb [Fb Zb]]]. rewrite Eb. cbn [bind]. rewrite (mcol_val _ _ _ i SH) by lia. cbn [bind].
    destruct (@vadd_val F64 v (@vscale F64 b (nth i (mcols P) []))) as [w [E [Lw Hw]]].
    { rewrite vscale_length. destruct SH as [_ [_ SH]]. rewrite SH by lia. exact L. }
    exists w. split; [exact E|]. split; [etransitivity; [exact Lw|exact L]|]. intros d Hd.
    assert (H' := Hw d (@n0 F64) ltac:(change (T F64) with f64 in *; lia)). change (T F64) with f64 in *. change (binary_float 53 1024) with f64 in *. rewrite H'.
    assert (N := @nth_vscale F64 b (nth i (mcols P) []) d (@n0 F64) ltac:(destruct SH as [_ [_ SH]]; rewrite SH by lia; exact Hd)).
    change (T F64) with f64 in *. rewrite N. unfold bval. rewrite Eb. reflexivity.
  - exists r. split; [apply HE; exact Er|]. split; [exact Lr|exact Hr].
Qed.

Theorem local_F64 p n dim (U : list f64) P P' c c' (u : f64) j : float_knots p n U -> shape dim (S n) P -> shape dim (S n) P' ->
  @built F64 p U P c -> @built F64 p U P' c' -> (p <= 100)%nat -> finite u -> (p <= j <= n)%nat ->
  nth j (map val U) 0 <= val u < nth (S j) (map val U) 0 ->
  (forall i d, (j - p <= i <= j)%nat -> (d < dim)%nat -> ent P i d = ent P' i d) ->
  (forall i d, (i < j - p \/ j < i)%nat -> (i <= n)%nat -> (d < dim)%nat -> finite (ent P i d) /\ finite (ent P' i d)) ->
  exists v v', @evaluate F64 c u = Val (Ok v) /\ @evaluate F64 c' u = Val (Ok v') /\ length v = dim /\ length v' = dim /\
    forall d, (d < dim)%nat -> same_number (nth d v (@n0 F64)) (nth d v' (@n0 F64)).
Proof.
  intros FK SP SP' B B' Hp Fu Hj Hs HE HF. assert (C := proj1 (proj2 FK)). assert (LU := cl_len _ _ _ C).
  assert (HW : forall P c, shape dim (S n) P -> @built F64 p U P c -> @wf F64 p n dim U P c).
  { intros Q d HQ HB. assert (D := cl_deg _ _ _ C). assert (L : length U = (n + p + 2)%nat) by (rewrite <- LU, map_length; reflexivity).
    apply (sized_wf False gdiv_F64); [split; [exact D|split; [exact L|exact HQ]]|exact HB]. }
  assert (Hs' : in_span (kfun (map val U)) n (val u) j).
  { unfold in_span. rewrite !kfun_nth by (rewrite LU; lia). split; [lra|]. split; [lra|]. left. lra. }
  assert (Hu : 0 <= val u <= 1).
  { assert (A := clamped_range _ _ _ (nth j (map val U) 0) C ltac:(apply nth_In; rewrite LU; lia)).
    assert (A' := clamped_range _ _ _ (nth (S j) (map val U) 0) C ltac:(apply nth_In; rewrite LU; lia)). lra. }
  destruct (eval_window p n dim U P c u j (HW _ _ SP B) FK Hp Fu Hu Hj Hs' ltac:(intros; apply HF; assumption)) as [v [E [L H]]].
  destruct (eval_window p n dim U P' c' u j (HW _ _ SP' B') FK Hp Fu Hu Hj Hs' ltac:(intros; apply HF; assumption)) as [v' [E' [L' H']]].
  exists v, v'. do 4 (split; [assumption|]). intros d Hd. apply same_trans with (1 := H d Hd). apply same_sym.
  rewrite (window_ext j p _ P P') by (intros; apply HE; lia). apply H'. exact Hd.
Qed.
