(** * Ups and downs of a curve and its derivatives, and of their control polygons *)

From Coq Require Import Reals List Arith Lra Lia.
From Verif Require Import Num Vec MKnots MPoints MCurve RNum Lists Spec BMath BMath2 BMath3 BMath4 SW Api Bridge Facts1 Samples Shape1 Shape2 Shape3.
Import ListNotations.
Local Open Scope R_scope.

(** corner cutting lowers peaks and raises valleys *)
Lemma cuts_peaks n P N Q : cuts n P N Q -> forall (F : (nat -> R) -> R) m (b : nat -> nat) (s v : nat -> R),
  (forall a x y, F (fun d => a * x d + (1 - a) * y d) = a * F x + (1 - a) * F y) ->
  (forall j, (j <= m)%nat -> (b j <= N)%nat /\ 0 <= s j * (F (Q (b j)) - v j)) -> (forall j, (j < m)%nat -> (b j <= b (S j))%nat) ->
  (forall j, (j < m)%nat -> s (S j) = - s j /\ 0 < s j * (v j - v (S j))) ->
  exists i, (forall j, (j <= m)%nat -> (i j <= n)%nat /\ 0 <= s j * (F (P (i j)) - v j)) /\ forall j, (j < m)%nat -> (i j < i (S j))%nat.
Proof.
  intros H F m b s v HF. revert b. induction H as [|N Q a H IH Ha Ha0 Ha1]; intros b Hb Hle Hs.
  - exists b. split; [exact Hb|]. intros j Hj. specialize (Hle j Hj). destruct (Nat.eq_dec (b j) (b (S j))) as [E|E]; [|lia]. exfalso.
    assert (A := proj2 (Hb j ltac:(lia))). assert (B := proj2 (Hb (S j) ltac:(lia))). rewrite <- E in B. destruct (Hs j Hj) as [E1 T]. rewrite E1 in B. lra.
  - assert (D : forall j, (j <= m)%nat -> exists c, (c <= N)%nat /\ (b j - 1 <= c <= b j)%nat /\ 0 <= s j * (F (Q c) - v j)).
    { intros j Hj. destruct (Hb j Hj) as [B1 B2]. cbv beta in B2. rewrite HF in B2.
      assert (A01 := Ha (b j)). set (x := F (Q (b j))) in *. set (y := F (Q (b j - 1)%nat)) in *.
      destruct (Nat.eq_dec (b j) (S N)) as [E|E].
      - exists (b j - 1)%nat. split; [lia|]. split; [lia|]. fold y. rewrite E, Ha1 in B2. replace (0 * x + (1 - 0) * y) with y in B2 by ring. exact B2.
      - destruct (Rle_lt_dec 0 (s j * (x - v j))) as [L|L]; [exists (b j); split; [lia|]; split; [lia|exact L]|].
        destruct (Rle_lt_dec 0 (s j * (y - v j))) as [L'|L']; [exists (b j - 1)%nat; split; [lia|]; split; [lia|exact L']|]. exfalso.
        replace (s j * (a (b j) * x + (1 - a (b j)) * y - v j)) with (a (b j) * (s j * (x - v j)) + (1 - a (b j)) * (s j * (y - v j))) in B2 by ring. assert (T1 : a (b j) * (s j * (x - v j)) <= 0) by nra. assert (T2 : (1 - a (b j)) * (s j * (y - v j)) <= 0) by nra. destruct (Req_dec (a (b j)) 0) as [Z|Z]; [rewrite Z in B2; lra|]. assert (0 < a (b j)) by lra. assert (a (b j) * (s j * (x - v j)) < 0) by nra. lra. }
    assert (Ch : exists c, forall j, (j <= m)%nat -> (c j <= N)%nat /\ (b j - 1 <= c j <= b j)%nat /\ 0 <= s j * (F (Q (c j)) - v j)).
    { clear - D. induction m as [|m IHm].
      - destruct (D 0%nat ltac:(lia)) as [c Hc]. exists (fun _ => c). intros j Hj. replace j with 0%nat by lia. exact Hc.
      - destruct IHm as [c Hc]; [intros j Hj; apply D; lia|]. destruct (D (S m) ltac:(lia)) as [e He].
        exists (fun j => if (j =? S m)%nat then e else c j). intros j Hj. destruct (Nat.eqb_spec j (S m)) as [->|E]; [exact He|apply Hc; lia]. }
    destruct Ch as [c Hc]. apply (IH c); [|intros j Hj|exact Hs].
    + intros j Hj. destruct (Hc j Hj) as [H1 [_ H3]]. auto.
    + destruct (Hc j ltac:(lia)) as [_ [A1 A2]]. destruct (Hc (S j) ltac:(lia)) as [_ [B1 B2]]. specialize (Hle j Hj).
      destruct (Nat.eq_dec (b j) (b (S j))) as [E|E]; [|lia]. exfalso.
      assert (X1 := proj2 (Hb j ltac:(lia))). assert (X2 := proj2 (Hb (S j) ltac:(lia))). rewrite <- E in X2. destruct (Hs j Hj) as [E1 T]. cbv beta in X1, X2. rewrite E1 in X2. lra.
Qed.

Section Curve.
  Variables (p n dim : nat) (U : list R) (P : Mat RNum) (c : Curve RNum) (k : nat).
  Hypothesis H : clamped_curve p n dim U P c.
  Hypothesis Hk : (k <= p)%nat.

  Let C : fclamped (p - k) (n - k) (shift k (kfun U)).
  Proof. apply fclamped_shift; [apply kfun_clamped; apply H|exact Hk]. Qed.
  Let D (i d : nat) : R := dpoints (kfun U) p (fun i => ent P i d) k i.

  Lemma deval_at u x : 0 <= u <= 1 -> evaluate_derivative c u k = Val (Ok x) -> length x = dim /\ forall d, (d < dim)%nat -> nth d x 0 = spline (shift k (kfun U)) (n - k) (p - k) (fun i => D i d) u.
  Proof.
    intros Hu E. destruct (cc_eval p n dim U P c u k H Hu Hk) as [v [E' [L V]]]. rewrite E in E'. injection E' as <-. split; [exact L|]. intros d Hd. rewrite V by exact Hd. apply dspline_spline.
  Qed.

  Lemma peaks (w : nat -> R) m (u s v : nat -> R) :
    (forall j, (j <= m)%nat -> 0 <= u j <= 1) -> (forall j, (j < m)%nat -> u j < u (S j)) ->
    (forall j, (j <= m)%nat -> exists x, evaluate_derivative c (u j) k = Val (Ok x) /\ v j = rsum (fun d => w d * nth d x 0) dim) ->
    (forall j, (j < m)%nat -> s (S j) = - s j /\ 0 < s j * (v j - v (S j))) ->
    exists i, (forall j, (j < m)%nat -> (i j < i (S j))%nat) /\
      forall j, (j <= m)%nat -> (i j <= n - k)%nat /\ 0 <= s j * (rsum (fun d => w d * D (i j) d) dim - v j).
  Proof using H C Hk.
    intros H01 Hinc Hv Hs.
    destruct (sampled (p - k) (n - k) _ C D u (S m) ltac:(intros j Hj; apply H01; lia) ltac:(intros j Hj; apply Hinc; lia)) as [N [Q [bb [HQ [HB HO]]]]].
    destruct (cuts_peaks (n - k) _ N Q HQ (fun x => rsum (fun d => w d * x d) dim + 0) m bb s v) as [i [I1 I2]].
    - intros a x y. apply plane_affine.
    - intros j Hj. destruct (HB j ltac:(lia)) as [B1 B2]. split; [exact B1|]. destruct (Hv j Hj) as [x [E V]].
      destruct (deval_at (u j) x (H01 j Hj) E) as [_ X]. replace (rsum (fun d => w d * Q (bb j) d) dim) with (v j); [right; ring|].
      rewrite V. apply rsum_ext. intros d Hd. rewrite X by exact Hd. rewrite B2. reflexivity.
    - intros j Hj. apply HO. lia.
    - exact Hs.
    - exists i. split; [exact I2|]. intros j Hj. destruct (I1 j Hj) as [I3 I4]. split; [exact I3|]. cbv beta in I4. rewrite Rplus_0_r in I4. exact I4.
  Qed.

  Lemma derivative_variation (w : nat -> R) b m (u v : nat -> R) :
    (forall j, (j <= m)%nat -> 0 <= u j <= 1) -> (forall j, (j < m)%nat -> u j < u (S j)) ->
    (forall j, (j <= m)%nat -> exists x, evaluate_derivative c (u j) k = Val (Ok x) /\ v j = rsum (fun d => w d * nth d x 0) dim + b /\ v j <> 0) ->
    (forall j, (j < m)%nat -> v j * v (S j) < 0) ->
    exists i, (forall j, (j < m)%nat -> (i j < i (S j))%nat) /\
      forall j, (j <= m)%nat -> (i j <= n - k)%nat /\ 0 < v j * (rsum (fun d => w d * D (i j) d) dim + b).
  Proof using H C Hk.
    intros H01 Hinc Hv Hs.
    destruct (sampled (p - k) (n - k) _ C D u (S m) ltac:(intros j Hj; apply H01; lia) ltac:(intros j Hj; apply Hinc; lia)) as [N [Q [bb [HQ [HB HO]]]]].
    destruct (cuts_signs (n - k) _ N Q HQ (fun x => rsum (fun d => w d * x d) dim + b) m bb v) as [i [I1 I2]].
    - intros a x y. apply plane_affine.
    - intros j Hj. destruct (HB j ltac:(lia)) as [B1 B2]. split; [exact B1|]. destruct (Hv j Hj) as [x [E [V V0]]].
      destruct (deval_at (u j) x (H01 j Hj) E) as [_ X]. replace (rsum (fun d => w d * Q (bb j) d) dim + b) with (v j); [nra|].
      rewrite V. f_equal. apply rsum_ext. intros d Hd. rewrite X by exact Hd. rewrite B2. reflexivity.
    - intros j Hj. apply HO. lia.
    - exact Hs.
    - exists i. split; [exact I2|exact I1].
  Qed.

  (** the path of a derivative is not longer than its polygon *)
  Lemma derivative_length m (u : nat -> R) (x : nat -> list R) :
    (forall j, (j <= m)%nat -> 0 <= u j <= 1 /\ evaluate_derivative c (u j) k = Val (Ok (x j))) -> (forall j, (j < m)%nat -> u j < u (S j)) ->
    rsum (fun j => sqrt (rsum (fun d => (nth d (x (S j)) 0 - nth d (x j) 0) ^ 2) dim)) m <= rsum (fun i => sqrt (rsum (fun d => (D (S i) d - D i d) ^ 2) dim)) (n - k).
  Proof using H C Hk.
    intros Hx Hinc.
    destruct (sampled (p - k) (n - k) _ C D u (S m) ltac:(intros j Hj; apply Hx; lia) ltac:(intros j Hj; apply Hinc; lia)) as [N [Q [b [HQ [HB HO]]]]].
    rewrite (rsum_ext _ (fun j => norm dim (fun d => Q (b (S j)) d - Q (b j) d))).
    - eapply Rle_trans; [apply (points_length dim Q N b m)|].
      + intros j Hj. apply HB. lia.
      + intros j Hj. apply HO. lia.
      + apply (cuts_length dim (n - k) _ N Q HQ).
    - intros j Hj. unfold norm. f_equal. apply rsum_ext. intros d Hd. destruct (Hx j ltac:(lia)) as [A1 A2]. destruct (Hx (S j) ltac:(lia)) as [A3 A4].
      assert (E1 := proj2 (deval_at _ _ A1 A2) d Hd). assert (E2 := proj2 (deval_at _ _ A3 A4) d Hd). cbn [T RNum] in E1, E2. rewrite E1, E2. rewrite (proj2 (HB j ltac:(lia))), (proj2 (HB (S j) ltac:(lia))). reflexivity.
  Qed.
End Curve.

Lemma ratio_sum (w x : nat -> R) h dim q : rsum (fun d => w d * ratio (q * x d) h) dim = ratio (q * rsum (fun d => w d * x d) dim) h.
Proof.
  unfold ratio. destruct (Req_EM_T h 0) as [E|E]; [|rewrite <- rsum_scal; unfold Rdiv; rewrite Rmult_comm, <- rsum_scal; apply rsum_ext; intros; ring].
  induction dim as [|m IH]; cbn [rsum]; [ring|rewrite IH; ring].
Qed.

(** where the curve moves forward and backward in turns, so do the legs of its polygon *)
Lemma turns p n dim U P c : clamped_curve p n dim U P c -> (1 <= p)%nat -> forall (w : nat -> R) m (u v : nat -> R),
  (forall j, (j <= m)%nat -> 0 <= u j <= 1) -> (forall j, (j < m)%nat -> u j < u (S j)) ->
  (forall j, (j <= m)%nat -> exists x, evaluate_derivative c (u j) 1 = Val (Ok x) /\ v j = rsum (fun d => w d * nth d x 0) dim /\ v j <> 0) ->
  (forall j, (j < m)%nat -> v j * v (S j) < 0) ->
  exists i, (forall j, (j < m)%nat -> (i j < i (S j))%nat) /\
    forall j, (j <= m)%nat -> (i j < n)%nat /\ 0 < v j * (rsum (fun d => w d * (ent P (S (i j)) d - ent P (i j) d)) dim).
Proof.
  intros H Hp w m u v H01 Hinc Hv Hs. assert (F : fclamped p n (kfun U)) by (apply kfun_clamped; apply H).
  destruct (derivative_variation p n dim U P c 1 H Hp w 0 m u v H01 Hinc) as [i [I1 I2]]; [|exact Hs|].
  { intros j Hj. destruct (Hv j Hj) as [x [X1 [X2 X3]]]. exists x. split; [exact X1|]. split; [rewrite X2; ring|exact X3]. }
  exists i. split; [exact I1|]. intros j Hj. destruct (I2 j Hj) as [I3 I4]. assert (Hn := fc_deg _ _ _ F). split; [lia|].
  rewrite Rplus_0_r in I4. cbn [dpoints] in I4. rewrite (ratio_sum w (fun d => ent P (S (i j)) d - ent P (i j) d)) in I4.
  set (x := rsum (fun d => w d * (ent P (S (i j)) d - ent P (i j) d)) dim) in *.
  assert (M : kfun U (i j + 1)%nat <= kfun U (i j + p + 1)%nat) by (apply (fc_mono _ _ _ F); lia).
  unfold ratio in I4. destruct Req_EM_T as [E|E]; [lra|]. set (h := kfun U (i j + p + 1)%nat - kfun U (i j + 1)%nat) in *.
  assert (Hh : 0 < h) by (unfold h in *; lra). assert (Q : 0 < INR (p - 0)) by (apply lt_0_INR; lia).
  replace (v j * (INR (p - 0) * x / h)) with (v j * x * (INR (p - 0) / h)) in I4 by (field; lra).
  assert (Z : 0 < INR (p - 0) / h) by (apply Rdiv_lt_0_compat; assumption). nra.
Qed.

Lemma peaks0 p n dim U P c : clamped_curve p n dim U P c -> forall (w : nat -> R) m (u s v : nat -> R),
  (forall j, (j <= m)%nat -> 0 <= u j <= 1) -> (forall j, (j < m)%nat -> u j < u (S j)) ->
  (forall j, (j <= m)%nat -> exists x, evaluate c (u j) = Val (Ok x) /\ v j = rsum (fun d => w d * nth d x 0) dim) ->
  (forall j, (j < m)%nat -> s (S j) = - s j /\ 0 < s j * (v j - v (S j))) ->
  exists i, (forall j, (j < m)%nat -> (i j < i (S j))%nat) /\
    forall j, (j <= m)%nat -> (i j <= n)%nat /\ 0 <= s j * (rsum (fun d => w d * ent P (i j) d) dim - v j).
Proof.
  intros H w m u s v A B E D. destruct (peaks p n dim U P c 0 H ltac:(lia) w m u s v A B E D) as [i [I1 I2]]. exists i. split; [exact I1|]. intros j Hj. destruct (I2 j Hj) as [I3 I4]. split; [lia|exact I4].
Qed.
