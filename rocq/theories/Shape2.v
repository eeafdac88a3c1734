(** * The shape of a curve and of its control polygon *)

From Coq Require Import Reals List Arith Lra Lia.
From Verif Require Import Num Vec MKnots MPoints MCurve RNum Lists Spec BMath BMath2 BMath3 BMath4 SW Api Bridge Facts1 Samples Shape1.
Import ListNotations.
Local Open Scope R_scope.

(** a linear functional plus a constant *)
Lemma plane_affine w b dim a (x y : nat -> R) :
  rsum (fun d => w d * (a * x d + (1 - a) * y d)) dim + b = a * (rsum (fun d => w d * x d) dim + b) + (1 - a) * (rsum (fun d => w d * y d) dim + b).
Proof. induction dim as [|m IH]; cbn [rsum]; [ring|]. replace (rsum (fun d => w d * (a * x d + (1 - a) * y d)) m) with (a * (rsum (fun d => w d * x d) m + b) + (1 - a) * (rsum (fun d => w d * y d) m + b) - b) by lra. ring. Qed.

Section Curve.
  Variables (p n dim : nat) (U : list R) (P : Mat RNum) (c : Curve RNum).
  Hypothesis H : clamped_curve p n dim U P c.

  Let C : fclamped p n (kfun U).
  Proof. apply kfun_clamped. apply H. Qed.

  Lemma eval_at u x : 0 <= u <= 1 -> evaluate c u = Val (Ok x) -> length x = dim /\ forall d, (d < dim)%nat -> nth d x 0 = spline (kfun U) n p (fun i => ent P i d) u.
  Proof.
    intros Hu E. destruct (cc_eval0 p n dim U P c u H Hu) as [v [E' [L V]]]. rewrite E in E'. injection E' as ->. auto.
  Qed.

  Lemma variation (w : nat -> R) b k (u v : nat -> R) :
    (forall j, (j <= k)%nat -> 0 <= u j <= 1) -> (forall j, (j < k)%nat -> u j < u (S j)) ->
    (forall j, (j <= k)%nat -> exists x, evaluate c (u j) = Val (Ok x) /\ v j = rsum (fun d => w d * nth d x 0) dim + b /\ v j <> 0) ->
    (forall j, (j < k)%nat -> v j * v (S j) < 0) ->
    exists i, (forall j, (j < k)%nat -> (i j < i (S j))%nat) /\
      forall j, (j <= k)%nat -> (i j <= n)%nat /\ 0 < v j * (rsum (fun d => w d * ent P (i j) d) dim + b).
  Proof using H C.
    intros H01 Hinc Hv Hs.
    destruct (sampled p n (kfun U) C (fun i d => ent P i d) u (S k) ltac:(intros j Hj; apply H01; lia) ltac:(intros j Hj; apply Hinc; lia)) as [N [Q [bb [HQ [HB HO]]]]].
    destruct (cuts_signs n _ N Q HQ (fun x => rsum (fun d => w d * x d) dim + b) k bb v) as [i [I1 I2]].
    - intros a x y. apply plane_affine.
    - intros j Hj. destruct (HB j ltac:(lia)) as [B1 B2]. split; [exact B1|]. destruct (Hv j Hj) as [x [E [V V0]]].
      destruct (eval_at (u j) x (H01 j Hj) E) as [_ X]. replace (rsum (fun d => w d * Q (bb j) d) dim + b) with (v j); [nra|].
      rewrite V. f_equal. apply rsum_ext. intros d Hd. rewrite X by exact Hd. rewrite B2. reflexivity.
    - intros j Hj. apply HO. lia.
    - exact Hs.
    - exists i. split; [exact I2|exact I1].
  Qed.

  Lemma monotone_curve (w : nat -> R) : (forall i, (i < n)%nat -> rsum (fun d => w d * ent P i d) dim <= rsum (fun d => w d * ent P (S i) d) dim) ->
    forall u v x y, 0 <= u -> u <= v -> v <= 1 -> evaluate c u = Val (Ok x) -> evaluate c v = Val (Ok y) ->
    rsum (fun d => w d * nth d x 0) dim <= rsum (fun d => w d * nth d y 0) dim.
  Proof using H C.
    intros HP u v x y Hu Huv Hv Ex Ey. destruct (Req_dec u v) as [->|Ne]; [rewrite Ex in Ey; injection Ey as ->; lra|].
    destruct (sampled p n (kfun U) C (fun i d => ent P i d) (fun j => if (j =? 0)%nat then u else v) 2) as [N [Q [b [HQ [HB HO]]]]].
    { intros j Hj. destruct j; cbn; lra. }
    { intros j Hj. destruct j; [cbn; lra|lia]. }
    assert (M := cuts_monotone n _ N Q HQ (fun x => rsum (fun d => w d * x d) dim + 0) ltac:(intros; apply plane_affine) ltac:(intros i Hi; cbv beta; specialize (HP i Hi); lra)). cbv beta in M.
    destruct (HB 0%nat ltac:(lia)) as [B1 B2]. destruct (HB 1%nat ltac:(lia)) as [B3 B4]. assert (O := HO 0%nat ltac:(lia)). cbn [Nat.eqb] in B2, B4.
    destruct (eval_at u x ltac:(lra) Ex) as [_ X]. destruct (eval_at v y ltac:(lra) Ey) as [_ Y].
    rewrite (rsum_ext _ (fun d => w d * Q (b 0%nat) d)) by (intros d Hd; rewrite X, B2 by exact Hd; reflexivity).
    rewrite (rsum_ext (fun d => w d * nth d y 0) (fun d => w d * Q (b 1%nat) d)) by (intros d Hd; rewrite Y, B4 by exact Hd; reflexivity).
    clear - M O B3. induction O as [|m O IH]; [lra|]. assert (T := M m ltac:(lia)). assert (T2 := IH ltac:(lia)). lra.
  Qed.

  Lemma distance_norm i j : distance P dim i j = norm dim (fun d => ent P i d - ent P j d).
  Proof. unfold distance, norm. f_equal. apply rsum_ext. intros. ring. Qed.

  Lemma polygon_length m (u : nat -> R) (x : nat -> list R) :
    (forall j, (j <= m)%nat -> 0 <= u j <= 1 /\ evaluate c (u j) = Val (Ok (x j))) -> (forall j, (j < m)%nat -> u j <= u (S j)) ->
    rsum (fun j => sqrt (rsum (fun d => (nth d (x (S j)) 0 - nth d (x j) 0) ^ 2) dim)) m <= rsum (fun i => distance P dim (S i) i) n.
  Proof using H C.
    intros Hx Hle.
    (* drop repeated parameters: induction on m with the last parameter kept *)
    assert (G : forall k (t : nat -> R), (forall j, (j <= k)%nat -> 0 <= t j <= 1) -> (forall j, (j < k)%nat -> t j < t (S j)) ->
      rsum (fun j => norm dim (fun d => spline (kfun U) n p (fun i => ent P i d) (t (S j)) - spline (kfun U) n p (fun i => ent P i d) (t j))) k <= rsum (fun i => distance P dim (S i) i) n).
    { intros k t H01 Hinc.
      destruct (sampled p n (kfun U) C (fun i d => ent P i d) t (S k) ltac:(intros j Hj; apply H01; lia) ltac:(intros j Hj; apply Hinc; lia)) as [N [Q [b [HQ [HB HO]]]]].
      rewrite (rsum_ext _ (fun j => norm dim (fun d => Q (b (S j)) d - Q (b j) d))).
      - eapply Rle_trans; [apply (points_length dim Q N b k)|].
        + intros j Hj. apply HB. lia.
        + intros j Hj. apply HO. lia.
        + eapply Rle_trans; [apply (cuts_length dim n _ N Q HQ)|]. right. apply rsum_ext. intros i _. symmetry. apply distance_norm.
      - intros j Hj. apply norm_ext. intros d _. rewrite (proj2 (HB j ltac:(lia))), (proj2 (HB (S j) ltac:(lia))). reflexivity. }
    assert (E : exists k t, (forall j, (j <= k)%nat -> 0 <= t j <= 1) /\ (forall j, (j < k)%nat -> t j < t (S j)) /\ t k = u m /\
      rsum (fun j => norm dim (fun d => spline (kfun U) n p (fun i => ent P i d) (u (S j)) - spline (kfun U) n p (fun i => ent P i d) (u j))) m =
      rsum (fun j => norm dim (fun d => spline (kfun U) n p (fun i => ent P i d) (t (S j)) - spline (kfun U) n p (fun i => ent P i d) (t j))) k).
    { clear G. induction m as [|m IH].
      - exists 0%nat, u. split; [intros j Hj; apply Hx; lia|]. split; [intros; lia|]. split; reflexivity.
      - destruct IH as [k [t [T1 [T2 [T3 T4]]]]]; [intros j Hj; apply Hx; lia|intros j Hj; apply Hle; lia|].
        destruct (Req_dec (u m) (u (S m))) as [E|E].
        + exists k, t. split; [exact T1|]. split; [exact T2|]. split; [congruence|]. cbn [rsum]. rewrite <- E, T4.
          rewrite (norm_ext dim _ (fun _ => 0)) by (intros; ring). rewrite norm_0. ring.
        + exists (S k), (fun j => if (j <=? k)%nat then t j else u (S m)). split; [|split; [|split]].
          * intros j Hj. destruct (Nat.leb_spec j k) as [L|L]; [apply T1; exact L|]. apply Hx. lia.
          * intros j Hj. destruct (Nat.leb_spec j k) as [L|L]; [|lia]. destruct (Nat.leb_spec (S j) k) as [L'|L']; [apply T2; lia|].
            replace j with k by lia. rewrite T3. assert (T := Hle m ltac:(lia)). lra.
          * destruct (Nat.leb_spec (S k) k); [lia|reflexivity].
          * cbn [rsum]. rewrite T4. f_equal.
            -- apply rsum_ext. intros j Hj. apply norm_ext. intros d _. destruct (Nat.leb_spec j k); [|lia]. destruct (Nat.leb_spec (S j) k); [|lia]. reflexivity.
            -- apply norm_ext. intros d _. destruct (Nat.leb_spec (S k) k); [lia|]. destruct (Nat.leb_spec k k); [|lia]. rewrite T3. reflexivity. }
    destruct E as [k [t [T1 [T2 [_ T4]]]]]. assert (G' := G k t T1 T2). rewrite <- T4 in G'.
    eapply Rle_trans; [|exact G']. right. apply rsum_ext. intros j Hj. unfold norm. f_equal. apply rsum_ext. intros d Hd.
    destruct (Hx j ltac:(lia)) as [A1 A2]. destruct (Hx (S j) ltac:(lia)) as [A3 A4].
    rewrite (proj2 (eval_at (u j) (x j) A1 A2)), (proj2 (eval_at (u (S j)) (x (S j)) A3 A4)) by exact Hd. reflexivity.
  Qed.
End Curve.

(** ** Control points are determined by the curve *)
Lemma spline_minus U n p (a b : nat -> R) u : spline U n p (fun i => a i - b i) u = spline U n p a u - spline U n p b u.
Proof. unfold spline. rewrite <- rsum_minus. apply rsum_ext. intros. ring. Qed.

Lemma positive_span U i m : mono U -> U i < U (i + m)%nat -> exists j, (i <= j < i + m)%nat /\ U j < U (S j).
Proof.
  intros HU. induction m as [|m IH]; intros L; [rewrite Nat.add_0_r in L; lra|].
  destruct (Rlt_le_dec (U i) (U (i + m)%nat)) as [A|A].
  - destruct (IH A) as [j [J1 J2]]. exists j. split; [lia|exact J2].
  - exists (i + m)%nat. split; [lia|]. replace (S (i + m)) with (i + S m)%nat by lia. lra.
Qed.

Lemma points_unique p n dim U P P' c c' : clamped_curve p n dim U P c -> clamped_curve p n dim U P' c' -> (forall i, (i <= n)%nat -> nth i U 0 < nth (i + p + 1) U 0) ->
  (forall u, 0 <= u <= 1 -> evaluate c u = evaluate c' u) -> forall i d, (i <= n)%nat -> (d < dim)%nat -> ent P i d = ent P' i d.
Proof.
  intros H H' HU E i d Hi Hd. assert (C : fclamped p n (kfun U)) by (apply kfun_clamped; apply H).
  assert (L : length U = (n + p + 2)%nat) by (apply H).
  assert (Hi' := HU i Hi). rewrite <- !kfun_nth in Hi' by lia. rewrite <- Nat.add_assoc in Hi'.
  destruct (positive_span (kfun U) i (p + 1) (fc_mono _ _ _ C) Hi') as [j [J1 J2]].
  assert (J : (p <= j <= n)%nat).
  { split; apply Nat.nlt_ge; intros T.
    - rewrite !(fc_zero _ _ _ C) in J2 by lia. lra.
    - rewrite !(fc_one _ _ _ C) in J2 by lia. lra. }
  assert (Z := local_independence p n (kfun U) (fun i => ent P i d - ent P' i d) j (kfun U j) (kfun U (S j)) C J J2 ltac:(lra) J2 ltac:(lra)).
  enough (ent P i d - ent P' i d = 0) by lra. apply Z; [|lia|lia].
  intros u Hu. rewrite spline_minus. assert (R1 := U_range p n (kfun U) C j). assert (R2 := U_range p n (kfun U) C (S j)).
  assert (Hu' : 0 <= u <= 1) by lra.
  destruct (cc_eval0 p n dim U P c u H Hu') as [x [X1 [X2 X3]]]. destruct (cc_eval0 p n dim U P' c' u H' Hu') as [y [Y1 [Y2 Y3]]].
  rewrite (E u Hu'), Y1 in X1. injection X1 as ->. rewrite <- X3, <- Y3 by exact Hd. ring.
Qed.

(** ** Linear precision *)
Lemma knot_sums U j x : mono U -> U j < U (S j) -> forall p N, (p <= j)%nat -> (j < N)%nat ->
  rsum (fun i => rsum (fun k => U (i + 1 + k)%nat) p * cox (delta j) U p i x) N = INR p * x.
Proof.
  intros HU HJ. induction p as [|p IH]; intros N Hp HN.
  - cbn [rsum INR]. rewrite rsum_zero; [ring|]. intros; ring.
  - set (T := fun i => rsum (fun k => U (i + 1 + k)%nat) p).
    assert (T1 : forall i, rsum (fun k => U (i + 1 + k)%nat) (S p) = T i + U (i + S p)%nat).
    { intros i. cbn [rsum]. unfold T. f_equal. f_equal. lia. }
    assert (T2 : forall i, (1 <= i)%nat -> rsum (fun k => U (i - 1 + 1 + k)%nat) (S p) = U i + T i).
    { intros i Hi. rewrite rsum_first. f_equal; [f_equal; lia|]. unfold T. apply rsum_ext. intros k _. f_equal. lia. }
    set (w := fun i => ratio (x - U i) (U (i + S p)%nat - U i)).
    set (v := fun i => ratio (U (i + S p)%nat - x) (U (i + S p)%nat - U i)).
    set (B := fun i => cox (delta j) U p i x).
    assert (W : forall i, w i * U (i + S p)%nat * B i + v i * U i * B i = x * B i /\ w i * B i + v i * B i = B i).
    { intros i. unfold B. destruct (Nat.lt_ge_cases j i) as [L|L]; [rewrite piece_support by lia; split; ring|].
      destruct (Nat.lt_ge_cases (i + p) j) as [L2|L2]; [rewrite piece_support by lia; split; ring|].
      assert (U i <= U j) by (apply HU; lia). assert (U (S j) <= U (i + S p)%nat) by (apply HU; lia).
      unfold w, v, ratio. destruct (Req_EM_T (U (i + S p)%nat - U i) 0) as [E|E]; [lra|]. split; field; exact E. }
    rewrite (rsum_ext _ (fun i => (T i + U (i + S p)%nat) * (w i * B i) + (T i + U (i + S p)%nat) * (v (S i) * B (S i)))) by (intros i _; rewrite T1; cbn [cox]; fold (w i) (B i); unfold v; fold (B (S i)); ring).
    rewrite rsum_plus.
    assert (Sh : rsum (fun i => (T i + U (i + S p)%nat) * (v (S i) * B (S i))) N = rsum (fun i => (U i + T i) * (v i * B i)) (S N)).
    { rewrite (rsum_first (fun i => (U i + T i) * (v i * B i)) N).
      replace (B 0%nat) with 0 by (unfold B; symmetry; apply piece_support; lia).
      rewrite (rsum_ext (fun i => (T i + U (i + S p)%nat) * (v (S i) * B (S i))) (fun i => (U (S i) + T (S i)) * (v (S i) * B (S i)))); [ring|].
      intros i _. rewrite <- T1, <- T2 by lia. replace (S i - 1)%nat with i by lia. reflexivity. }
    rewrite Sh. assert (Z : B N = 0) by (apply piece_support; lia). cbn [rsum]. rewrite Z.
    rewrite Rmult_0_r, Rmult_0_r, Rplus_0_r, <- rsum_plus.
    rewrite (rsum_ext _ (fun i => T i * B i + x * B i)).
    + rewrite rsum_plus. unfold T, B at 1. rewrite IH by lia. rewrite rsum_scal. unfold B. rewrite piece_sum by (try lia; assumption). rewrite S_INR. ring.
    + intros i _. destruct (W i) as [W1 W2]. rewrite <- W1. replace (T i * B i) with (T i * (w i * B i + v i * B i)) by (rewrite W2; reflexivity). ring.
Qed.

Lemma greville p n dim U P c (a b : nat -> R) : (1 <= p)%nat -> clamped_curve p n dim U P c ->
  (forall i d, (i <= n)%nat -> (d < dim)%nat -> ent P i d = a d + b d * (rsum (fun k => nth (i + 1 + k) U 0) p / INR p)) ->
  forall u, 0 <= u <= 1 -> returns (evaluate c u) dim (fun d => a d + b d * u).
Proof.
  intros Hp H HP u Hu. assert (C : fclamped p n (kfun U)) by (apply kfun_clamped; apply H).
  assert (L : length U = (n + p + 2)%nat) by (apply H). assert (P0 : INR p <> 0) by (apply not_0_INR; lia).
  destruct (cc_eval0 p n dim U P c u H Hu) as [x [X1 [X2 X3]]]. exists x. split; [exact X1|]. split; [exact X2|]. intros d Hd. rewrite X3 by exact Hd.
  destruct (span_ex p n (kfun U) C u Hu) as [j [J1 J2]].
  rewrite (spline_piece p n (kfun U) C _ u j ltac:(lia) J2). unfold pfun.
  rewrite (rsum_ext _ (fun i => a d * cox (delta j) (kfun U) p i u + b d / INR p * (rsum (fun k => kfun U (i + 1 + k)%nat) p * cox (delta j) (kfun U) p i u))).
  - rewrite rsum_plus, !rsum_scal. rewrite piece_sum, knot_sums; try lia.
    + field. exact P0.
    + apply (fc_mono _ _ _ C).
    + apply J2.
    + apply (fc_mono _ _ _ C).
    + apply J2.
  - intros i Hi. rewrite HP by (try lia; exact Hd).
    rewrite (rsum_ext (fun k => kfun U (i + 1 + k)%nat) (fun k => nth (i + 1 + k) U 0)) by (intros k Hk; rewrite <- kfun_nth by lia; reflexivity). field. exact P0.
Qed.

(** ** A case to look at *)
Lemma half_a c : clamped_curve 2 3 2 U_a P_a c -> evaluate c (1/2) = Val (Ok [2; 2]).
Proof.
  intros H. destruct (cc_eval0 _ _ _ _ _ _ (1/2) H ltac:(lra)) as [x [E [L X]]]. rewrite E. do 2 f_equal.
  assert (G : forall d, (d < 2)%nat -> nth d x 0 = (ent P_a 1 d + ent P_a 2 d) / 2).
  { intros d Hd. rewrite X by exact Hd. assert (C : fclamped 2 3 (kfun U_a)) by (apply kfun_clamped, U_a_clamped).
    rewrite (spline_piece 2 3 (kfun U_a) C _ (1/2) 3 ltac:(lia)).
    - unfold pfun. cbn [rsum cox plus]. unfold delta, ratio, kfun, U_a. cbn [length nth Nat.min Nat.sub Nat.eqb Nat.leb].
      repeat destruct Req_EM_T; try lra; field.
    - unfold in_span, kfun, U_a. cbn. lra. }
  assert (G0 := G 0%nat ltac:(lia)). assert (G1 := G 1%nat ltac:(lia)). unfold ent, P_a in G0, G1. cbn in G0, G1.
  destruct x as [|a [|b [|]]]; try discriminate. cbn in G0, G1. rewrite G0, G1. f_equal; [lra|]. f_equal. lra.
Qed.
