(** * Polylines through sampled points of a curve *)

From Coq Require Import Reals List Arith Lra Lia.
From Verif Require Import Num Vec MKnots MPoints MCurve RNum Lists Spec BMath BMath2 BMath3 BMath4 SW Api Bridge Facts1 Samples Shape1 Shape2 Shape3 Merge12 Refine1.
Import ListNotations.
Local Open Scope R_scope.

Lemma rd_quad f g K M z u : right_derivative_on01 f u g -> right_derivative_on01 (fun t => f t - K * t - M * (t - z) ^ 2) u (g - K - 2 * M * (u - z)).
Proof.
  intros D eps He. destruct (D (eps / 2) ltac:(lra)) as [dl [D1 D2]].
  assert (K0 := Rabs_pos M). assert (E : 0 < eps / 2 / (Rabs M + 1)) by (repeat apply Rdiv_lt_0_compat; lra).
  exists (Rmin dl (eps / 2 / (Rabs M + 1))). split; [apply Rmin_pos; assumption|]. intros v Hv A B.
  assert (A1 := Rlt_le_trans _ _ _ B (Rmin_l _ _)). assert (A2 := Rlt_le_trans _ _ _ B (Rmin_r _ _)).
  replace ((f v - K * v - M * (v - z) ^ 2 - (f u - K * u - M * (u - z) ^ 2)) / (v - u) - (g - K - 2 * M * (u - z))) with (((f v - f u) / (v - u) - g) + - (M * (v - u))) by (field; lra).
  eapply Rle_lt_trans; [apply Rabs_triang|]. rewrite Rabs_Ropp, Rabs_mult, (Rabs_right (v - u)) by lra. specialize (D2 v Hv A A1).
  assert (X : Rabs M * (v - u) <= (Rabs M + 1) * (eps / 2 / (Rabs M + 1))) by (apply Rmult_le_compat; try apply Rabs_pos; lra).
  replace ((Rabs M + 1) * (eps / 2 / (Rabs M + 1))) with (eps / 2) in X by (field; lra). lra.
Qed.
Lemma cont_quad f K M z u : 0 <= u <= 1 -> 0 <= z <= 1 -> continuous_on01 f u -> continuous_on01 (fun t => f t - K * t - M * (t - z) ^ 2) u.
Proof.
  intros Hu Hz D eps He. destruct (cont_line f K u D (eps / 2) ltac:(lra)) as [dl [D1 D2]].
  assert (K0 := Rabs_pos M). assert (E : 0 < eps / 2 / (2 * Rabs M + 1)) by (repeat apply Rdiv_lt_0_compat; lra).
  exists (Rmin dl (eps / 2 / (2 * Rabs M + 1))). split; [apply Rmin_pos; assumption|]. intros v Hv A.
  assert (A1 := Rlt_le_trans _ _ _ A (Rmin_l _ _)). assert (A2 := Rlt_le_trans _ _ _ A (Rmin_r _ _)).
  replace (f v - K * v - M * (v - z) ^ 2 - (f u - K * u - M * (u - z) ^ 2)) with ((f v - K * v - (f u - K * u)) + - (M * (v + u - 2 * z) * (v - u))) by ring.
  eapply Rle_lt_trans; [apply Rabs_triang|]. rewrite Rabs_Ropp, !Rabs_mult. specialize (D2 v Hv A1). cbv beta in D2.
  assert (W : Rabs (v + u - 2 * z) <= 2) by (apply Rabs_le; lra).
  assert (X : Rabs M * Rabs (v + u - 2 * z) * Rabs (v - u) <= (2 * Rabs M + 1) * (eps / 2 / (2 * Rabs M + 1))).
  { apply Rmult_le_compat; try apply Rabs_pos; [apply Rmult_le_pos; apply Rabs_pos| |lra]. assert (Y := Rmult_le_compat_l _ _ _ K0 W). lra. }
  replace ((2 * Rabs M + 1) * (eps / 2 / (2 * Rabs M + 1))) with (eps / 2) in X by (field; lra). lra.
Qed.

Section Scalar.
  Variables (p n : nat) (U : nat -> R).
  Hypothesis C : fclamped p n U.

  Lemma hull_le q k K u : (k <= p)%nat -> 0 <= u <= 1 -> (forall i, (i <= n - k)%nat -> dpoints U p q k i <= K) -> dspline U n p q k u <= K.
  Proof using C.
    intros Hk Hu HD. rewrite dspline_spline. assert (F := fclamped_shift p n U k C Hk). destruct (span_ex _ _ _ F u Hu) as [j [J1 J2]].
    destruct (weights _ _ _ j u F J1 J2) as [w [W1 [W2 W3]]]. rewrite W3.
    assert (T := comb_le (S (p - k)) w (fun i => dpoints U p q k (j - (p - k) + i)) K ltac:(intros; apply W1; lia) W2). cbv beta in T.
    apply T. intros i Hi. apply HD. lia.
  Qed.
  Lemma slope_le q k K u v : (k < p)%nat -> (forall x, 0 < x < 1 -> mult_le U x (p - k)) -> (forall i, (i <= n - S k)%nat -> dpoints U p q (S k) i <= K) -> 0 <= u -> u <= v -> v <= 1 ->
    dspline U n p q k v - dspline U n p q k u <= K * (v - u).
  Proof using C.
    intros Hk HM HD Hu Huv Hv. destruct (Req_dec u v) as [->|Ne]; [lra|].
    assert (D := dini (fun t => dspline U n p q k t - K * t) (fun t => dspline U n p q (S k) t - K) u v Hu ltac:(lra) Hv). cbv beta in D.
    enough (dspline U n p q k v - K * v <= dspline U n p q k u - K * u) by lra. apply D.
    - intros t Ht. apply cont_line. apply dspline_continuous; [exact C|lia|exact Ht|apply HM].
    - intros t Ht. apply rd_line. apply dspline_right_derivative; [exact C|exact Hk|lra].
    - intros t Ht. enough (dspline U n p q (S k) t <= K) by lra. apply hull_le; [lia|lra|exact HD].
  Qed.

  Lemma dopp q k i : dpoints U p (fun j => - q j) k i = - dpoints U p q k i.
  Proof. revert i. induction k as [|k IH]; intros i; cbn [dpoints]; [reflexivity|]. rewrite !IH. unfold ratio. destruct Req_EM_T; [ring|field; assumption]. Qed.
  Lemma sopp q k u : dspline U n p (fun j => - q j) k u = - dspline U n p q k u.
  Proof. unfold dspline. replace (- rsum (fun i => bspline (shift k U) (n - k) (p - k) i u * dpoints U p q k i) (S (n - k))) with (-1 * rsum (fun i => bspline (shift k U) (n - k) (p - k) i u * dpoints U p q k i) (S (n - k))) by ring. rewrite <- rsum_scal. apply rsum_ext. intros i _. rewrite dopp. ring. Qed.

  Lemma slope_abs q k K u v : (k < p)%nat -> (forall x, 0 < x < 1 -> mult_le U x (p - k)) -> (forall i, (i <= n - S k)%nat -> Rabs (dpoints U p q (S k) i) <= K) -> 0 <= u <= 1 -> 0 <= v <= 1 ->
    Rabs (dspline U n p q k v - dspline U n p q k u) <= K * Rabs (v - u).
  Proof using C.
    intros Hk HM HD Hu Hv.
    assert (A : forall q', (forall i, (i <= n - S k)%nat -> Rabs (dpoints U p q' (S k) i) <= K) -> forall u v, 0 <= u -> u <= v -> v <= 1 -> dspline U n p q' k v - dspline U n p q' k u <= K * (v - u)).
    { intros q' HD' a b H1 H2 H3. apply slope_le; try assumption. intros i Hi. eapply Rle_trans; [apply Rle_abs|]. apply HD'. exact Hi. }
    assert (HD' : forall i, (i <= n - S k)%nat -> Rabs (dpoints U p (fun j => - q j) (S k) i) <= K) by (intros i Hi; rewrite dopp, Rabs_Ropp; apply HD; exact Hi).
    destruct (Rle_lt_dec u v) as [L|L].
    - rewrite (Rabs_right (v - u)) by lra. assert (X := A q HD u v ltac:(lra) L ltac:(lra)). assert (Y := A _ HD' u v ltac:(lra) L ltac:(lra)). rewrite !sopp in Y. apply Rabs_le. lra.
    - rewrite (Rabs_left (v - u)) by lra. assert (X := A q HD v u ltac:(lra) ltac:(lra) ltac:(lra)). assert (Y := A _ HD' v u ltac:(lra) ltac:(lra) ltac:(lra)). rewrite !sopp in Y. apply Rabs_le. lra.
  Qed.

  (** the error of the tangent *)
  Lemma tangent_le q k M a b z e : (k + 2 <= p)%nat -> (forall x, 0 < x < 1 -> mult_le U x (p - k - 1)) -> (forall i, (i <= n - (k + 2))%nat -> Rabs (dpoints U p q (k + 2) i) <= M) ->
    0 <= a -> a < b -> b <= 1 -> 0 <= z <= 1 -> (forall t, a <= t < b -> Rabs (t - z) = e * (t - z)) ->
    dspline U n p q k b - dspline U n p q k a <= dspline U n p q (S k) z * (b - a) + e * M / 2 * ((b - z) ^ 2 - (a - z) ^ 2).
  Proof using C.
    intros Hk HM HD Ha Hab Hb Hz He. set (K := dspline U n p q (S k) z).
    assert (D := dini (fun t => dspline U n p q k t - K * t - (e * M / 2) * (t - z) ^ 2) (fun t => dspline U n p q (S k) t - K - 2 * (e * M / 2) * (t - z)) a b Ha Hab Hb). cbv beta in D.
    enough (dspline U n p q k b - K * b - e * M / 2 * (b - z) ^ 2 <= dspline U n p q k a - K * a - e * M / 2 * (a - z) ^ 2) by lra. apply D.
    - intros t Ht. apply cont_quad; [exact Ht|exact Hz|]. apply dspline_continuous; [exact C|lia|exact Ht|]. intros T i j Hi Hj. specialize (HM t T i j Hi Hj). lia.
    - intros t Ht. apply rd_quad. apply dspline_right_derivative; [exact C|lia|lra].
    - intros t Ht. assert (S1 := slope_abs q (S k) M z t ltac:(lia)). replace (p - S k)%nat with (p - k - 1)%nat in S1 by lia. replace (S (S k)) with (k + 2)%nat in S1 by lia.
      specialize (S1 HM HD Hz ltac:(lra)). rewrite He in S1 by exact Ht. fold K in S1. assert (T := Rle_abs (dspline U n p q (S k) t - K)). lra.
  Qed.

  (** the error of the chord *)
  Lemma chord_le q k M a b z : (k + 2 <= p)%nat -> (forall x, 0 < x < 1 -> mult_le U x (p - k - 1)) -> (forall i, (i <= n - (k + 2))%nat -> Rabs (dpoints U p q (k + 2) i) <= M) ->
    0 <= a -> a < z -> z < b -> b <= 1 ->
    dspline U n p q k z * (b - a) - ((b - z) * dspline U n p q k a + (z - a) * dspline U n p q k b) <= M / 2 * (z - a) * (b - z) * (b - a).
  Proof using C.
    intros Hk HM HD Ha Haz Hzb Hb.
    assert (T1 := tangent_le q k M a z z (-1) Hk HM HD Ha Haz ltac:(lra) ltac:(lra) ltac:(intros t Ht; rewrite Rabs_left by lra; ring)).
    assert (HD' : forall i, (i <= n - (k + 2))%nat -> Rabs (dpoints U p (fun j => - q j) (k + 2) i) <= M) by (intros i Hi; rewrite dopp, Rabs_Ropp; apply HD; exact Hi).
    assert (T2 := tangent_le (fun j => - q j) k M z b z 1 Hk HM HD' ltac:(lra) Hzb Hb ltac:(lra) ltac:(intros t Ht; rewrite Rabs_right by lra; ring)).
    rewrite !sopp in T2. replace (z - z) with 0 in * by ring.
    set (fa := dspline U n p q k a) in *. set (fz := dspline U n p q k z) in *. set (fb := dspline U n p q k b) in *. set (g := dspline U n p q (S k) z) in *.
    assert (X1 := Rmult_le_compat_l (b - z) _ _ ltac:(lra) T1). assert (X2 := Rmult_le_compat_l (z - a) _ _ ltac:(lra) T2). nra.
  Qed.
End Scalar.

Lemma dpoints_zero U p k i : dpoints U p (fun _ => 0) k i = 0.
Proof. revert i. induction k as [|k IH]; intros i; cbn [dpoints]; [reflexivity|]. rewrite !IH. unfold ratio. destruct Req_EM_T; [reflexivity|field; assumption]. Qed.
Lemma dpoints_dot U p dim (w : nat -> R) (P : nat -> nat -> R) k i :
  dpoints U p (fun i => rsum (fun d => w d * P i d) dim) k i = rsum (fun d => w d * dpoints U p (fun i => P i d) k i) dim.
Proof.
  induction dim as [|m IH]; cbn [rsum]; [apply dpoints_zero|]. rewrite (dpoints_comb U p (fun i => rsum (fun d => w d * P i d) m) (fun i => P i m) (w m)), IH. reflexivity.
Qed.
Lemma dspline_dot U n p dim (w : nat -> R) (P : nat -> nat -> R) k u :
  dspline U n p (fun i => rsum (fun d => w d * P i d) dim) k u = rsum (fun d => w d * dspline U n p (fun i => P i d) k u) dim.
Proof.
  unfold dspline. rewrite (rsum_ext (fun d => w d * _) (fun d => rsum (fun i => w d * (bspline (shift k U) (n - k) (p - k) i u * dpoints U p (fun i => P i d) k i)) (S (n - k)))) by (intros; rewrite rsum_scal; reflexivity).
  rewrite rsum_swap. apply rsum_ext. intros i _. rewrite dpoints_dot, <- rsum_scal. apply rsum_ext. intros; ring.
Qed.

(** a vector is as short as its products with itself say *)
Lemma norm_self dim e B : 0 <= B -> rsum (fun d => e d * e d) dim <= norm dim e * B -> norm dim e <= B.
Proof.
  intros HB H. assert (N := norm_nonneg dim e). assert (Q := norm_sq dim e). rewrite (rsum_ext _ (fun d => e d ^ 2)) in H by (intros; ring). rewrite <- Q in H.
  destruct (Req_dec (norm dim e) 0) as [Z|Z]; [lra|nra].
Qed.

Section Curve.
  Variables (p n dim : nat) (U : list R) (P : Mat RNum) (c : Curve RNum) (k : nat) (M : R) (D : Mat RNum).
  Hypothesis H : clamped_curve p n dim U P c.
  Hypothesis Hk : (k + 2 <= p)%nat.
  Hypothesis HM : forall x, 0 < x < 1 -> (mult U x <= p - k - 1)%nat.
  Hypothesis HD : @matrix_derivative RNum (cpoints c) (k + 2) = Val D.
  Hypothesis BD : forall i, (i + (k + 2) <= n)%nat -> sqrt (rsum (fun d => ent D i d ^ 2) dim) <= M.

  Let F : fclamped p n (kfun U).
  Proof. apply kfun_clamped. apply H. Qed.
  Let MU : forall x, 0 < x < 1 -> mult_le (kfun U) x (p - k - 1).
  Proof. intros y Hy. apply (mult_mult_le p n U y (p - k - 1)); [apply H|exact Hy|]. apply HM. exact Hy. Qed.

  Lemma M_nonneg : 0 <= M.
  Proof using H Hk BD. assert (PN := fc_deg _ _ _ F). eapply Rle_trans; [|apply (BD 0%nat); lia]. apply sqrt_pos. Qed.

  Lemma bent_dir (w : nat -> R) i : (i <= n - (k + 2))%nat -> Rabs (dpoints (kfun U) p (fun j => rsum (fun d => w d * ent P j d) dim) (k + 2) i) <= norm dim w * M.
  Proof using H Hk HD BD F.
    intros Hi. assert (PN := fc_deg _ _ _ F). destruct (deriv_matrix p n dim U P c (k + 2) H Hk) as (D' & D1 & D2 & D3). rewrite HD in D1. injection D1 as <-.
    rewrite (dpoints_dot (kfun U) p dim w (fun j d => ent P j d)). rewrite (rsum_ext _ (fun d => w d * ent D i d)) by (intros d Hd; rewrite D3 by lia; reflexivity).
    assert (B := BD i ltac:(lia)). fold (norm dim (fun d => ent D i d)) in B. assert (N := norm_nonneg dim w).
    apply Rabs_le. split.
    - assert (X := dot_le dim (fun d => - w d) (fun d => ent D i d)). rewrite (norm_ext dim (fun d => - w d) (fun d => -1 * w d)) in X by (intros; ring).
      rewrite (rsum_ext _ (fun d => -1 * (w d * ent D i d))) in X by (intros; ring). rewrite rsum_scal in X.
      assert (Y : norm dim (fun d => -1 * w d) = norm dim w) by (unfold norm; f_equal; apply rsum_ext; intros; ring). rewrite Y in X. nra.
    - assert (X := dot_le dim w (fun d => ent D i d)). nra.
  Qed.

  Lemma deval u x : 0 <= u <= 1 -> (k <= p)%nat -> evaluate_derivative c u k = Val (Ok x) -> forall d, (d < dim)%nat -> nth d x 0 = dspline (kfun U) n p (fun i => ent P i d) k u.
  Proof using H. intros Hu Kp E d Hd. destruct (cc_eval p n dim U P c u k H Hu Kp) as [v [E' [L V]]]. rewrite E in E'. injection E' as <-. apply V. exact Hd. Qed.

  (** the chord *)
  Theorem chord_error a b t x y z : 0 <= a -> a <= b -> b <= 1 -> 0 <= t <= 1 ->
    evaluate_derivative c a k = Val (Ok x) -> evaluate_derivative c b k = Val (Ok y) -> evaluate_derivative c ((1 - t) * a + t * b) k = Val (Ok z) ->
    sqrt (rsum (fun d => (nth d z 0 - ((1 - t) * nth d x 0 + t * nth d y 0)) ^ 2) dim) <= M * (t * (1 - t)) * (b - a) ^ 2 / 2.
  Proof using H Hk HM HD BD F MU.
    intros Ha Hab Hb Ht Ex Ey Ez. assert (M0 := M_nonneg).
    assert (R0 : 0 <= M * (t * (1 - t)) * (b - a) ^ 2 / 2) by (assert (0 <= t * (1 - t)) by nra; assert (0 <= (b - a) ^ 2) by nra; assert (0 <= M * (t * (1 - t))) by nra; nra).
    set (m := (1 - t) * a + t * b) in *. assert (Hm : a <= m <= b) by (unfold m; nra).
    assert (X := deval a x ltac:(lra) ltac:(lia) Ex). assert (Y := deval b y ltac:(lra) ltac:(lia) Ey). assert (Z := deval m z ltac:(lra) ltac:(lia) Ez).
    set (e := fun d => nth d z 0 - ((1 - t) * nth d x 0 + t * nth d y 0)). change (norm dim e <= M * (t * (1 - t)) * (b - a) ^ 2 / 2).
    destruct (Req_dec (t * (1 - t) * (b - a)) 0) as [E0|E0].
    - assert (E : forall d, (d < dim)%nat -> e d = 0).
      { assert (Cs : a = b \/ t = 0 \/ t = 1) by (destruct (Req_dec t 0); [tauto|]; destruct (Req_dec t 1); [tauto|]; left; apply Rmult_integral in E0; destruct E0 as [E0|E0]; [apply Rmult_integral in E0; lra|lra]).
        assert (G : forall u v l r, u = v -> evaluate_derivative c u k = Val (Ok l) -> evaluate_derivative c v k = Val (Ok r) -> l = r) by (intros u v l r -> A B; rewrite A in B; injection B as <-; reflexivity).
        intros d Hd. unfold e. destruct Cs as [-> | [-> | ->]].
        - assert (E1 := G b b x y eq_refl Ex Ey). assert (E2 := G m b z y ltac:(unfold m; lra) Ez Ey). subst. ring.
        - assert (E2 := G m a z x ltac:(unfold m; lra) Ez Ex). subst. ring.
        - assert (E2 := G m b z y ltac:(unfold m; lra) Ez Ey). subst. ring. }
      rewrite (norm_ext dim e (fun _ => 0)) by exact E. rewrite norm_0. exact R0.
    - apply norm_self; [exact R0|]. assert (Hlt : a < m /\ m < b).
      { assert (t <> 0) by (intros ->; apply E0; ring). assert (t <> 1) by (intros ->; apply E0; ring). assert (b - a <> 0) by (intros Q; apply E0; rewrite Q; ring). assert (0 < t * (b - a)) by nra. assert (0 < (1 - t) * (b - a)) by nra. unfold m. lra. }
      assert (T := chord_le p n (kfun U) F (fun j => rsum (fun d => e d * ent P j d) dim) k (norm dim e * M) a b m Hk MU (bent_dir e) Ha (proj1 Hlt) (proj2 Hlt) Hb).
      rewrite !(dspline_dot (kfun U) n p dim e (fun j d => ent P j d)) in T.
      rewrite (rsum_ext (fun d => e d * dspline _ _ _ _ k m) (fun d => e d * nth d z 0)) in T by (intros d Hd; rewrite Z by exact Hd; reflexivity).
      rewrite (rsum_ext (fun d => e d * dspline _ _ _ _ k a) (fun d => e d * nth d x 0)) in T by (intros d Hd; rewrite X by exact Hd; reflexivity).
      rewrite (rsum_ext (fun d => e d * dspline _ _ _ _ k b) (fun d => e d * nth d y 0)) in T by (intros d Hd; rewrite Y by exact Hd; reflexivity).
      assert (S1 : rsum (fun d => e d * e d) dim = rsum (fun d => e d * nth d z 0) dim - ((1 - t) * rsum (fun d => e d * nth d x 0) dim + t * rsum (fun d => e d * nth d y 0) dim)).
      { rewrite <- !rsum_scal, <- rsum_plus, <- rsum_minus. apply rsum_ext. intros d _. unfold e. ring. }
      rewrite S1. set (sx := rsum (fun d => e d * nth d x 0) dim) in *. set (sy := rsum (fun d => e d * nth d y 0) dim) in *. set (sz := rsum (fun d => e d * nth d z 0) dim) in *. 
      assert (BA : 0 < b - a) by lra. apply (Rmult_le_reg_r (b - a)); [exact BA|].
      replace ((sz - ((1 - t) * sx + t * sy)) * (b - a)) with (sz * (b - a) - ((b - m) * sx + (m - a) * sy)) by (unfold m; ring).
      eapply Rle_trans; [exact T|]. apply Req_le. unfold m. field.
  Qed.

  (** the tangent *)
  Theorem tangent_error a b x y x' : 0 <= a -> a <= b -> b <= 1 ->
    evaluate_derivative c a k = Val (Ok x) -> evaluate_derivative c b k = Val (Ok y) -> evaluate_derivative c a (S k) = Val (Ok x') ->
    sqrt (rsum (fun d => (nth d y 0 - (nth d x 0 + (b - a) * nth d x' 0)) ^ 2) dim) <= M * (b - a) ^ 2 / 2.
  Proof using H Hk HM HD BD F MU.
    intros Ha Hab Hb Ex Ey Ex'. assert (M0 := M_nonneg).
    assert (R0 : 0 <= M * (b - a) ^ 2 / 2) by (assert (0 <= (b - a) ^ 2) by nra; nra).
    assert (X := deval a x ltac:(lra) ltac:(lia) Ex). assert (Y := deval b y ltac:(lra) ltac:(lia) Ey).
    assert (X' : forall d, (d < dim)%nat -> nth d x' 0 = dspline (kfun U) n p (fun i => ent P i d) (S k) a).
    { intros d Hd. destruct (cc_eval p n dim U P c a (S k) H ltac:(lra) ltac:(lia)) as [v [E' [L V]]]. rewrite Ex' in E'. injection E' as <-. apply V. exact Hd. }
    set (e := fun d => nth d y 0 - (nth d x 0 + (b - a) * nth d x' 0)). change (norm dim e <= M * (b - a) ^ 2 / 2).
    destruct (Req_dec a b) as [->|Ne].
    - rewrite Ex in Ey. injection Ey as <-. rewrite (norm_ext dim e (fun _ => 0)) by (intros; unfold e; ring). rewrite norm_0. exact R0.
    - apply norm_self; [exact R0|].
      assert (T := tangent_le p n (kfun U) F (fun j => rsum (fun d => e d * ent P j d) dim) k (norm dim e * M) a b a 1 Hk MU (bent_dir e) Ha ltac:(lra) Hb ltac:(lra) ltac:(intros t Ht; rewrite Rabs_right by lra; ring)).
      rewrite !(dspline_dot (kfun U) n p dim e (fun j d => ent P j d)) in T.
      rewrite (rsum_ext (fun d => e d * dspline _ _ _ _ k a) (fun d => e d * nth d x 0)) in T by (intros d Hd; rewrite X by exact Hd; reflexivity).
      rewrite (rsum_ext (fun d => e d * dspline _ _ _ _ k b) (fun d => e d * nth d y 0)) in T by (intros d Hd; rewrite Y by exact Hd; reflexivity).
      rewrite (rsum_ext (fun d => e d * dspline _ _ _ _ (S k) a) (fun d => e d * nth d x' 0)) in T by (intros d Hd; rewrite X' by exact Hd; reflexivity).
      assert (S1 : rsum (fun d => e d * e d) dim = rsum (fun d => e d * nth d y 0) dim - (rsum (fun d => e d * nth d x 0) dim + (b - a) * rsum (fun d => e d * nth d x' 0) dim)).
      { rewrite <- rsum_scal, <- rsum_plus, <- rsum_minus. apply rsum_ext. intros d _. unfold e. ring. }
      rewrite S1. replace (a - a) with 0 in T by ring. lra.
  Qed.

  (** sampling at equal steps *)
  Theorem sampled_polyline N j t x y z : (j < N)%nat -> 0 <= t <= 1 ->
    evaluate_derivative c (INR j / INR N) k = Val (Ok x) -> evaluate_derivative c (INR (S j) / INR N) k = Val (Ok y) -> evaluate_derivative c ((INR j + t) / INR N) k = Val (Ok z) ->
    sqrt (rsum (fun d => (nth d z 0 - ((1 - t) * nth d x 0 + t * nth d y 0)) ^ 2) dim) <= M / (8 * INR N ^ 2).
  Proof using H Hk HM HD BD F MU.
    intros Hj Ht Ex Ey Ez. assert (M0 := M_nonneg). assert (N0 : 0 < INR N) by (apply lt_0_INR; lia). assert (J0 := pos_INR j). assert (J1 : INR (S j) <= INR N) by (apply le_INR; lia). rewrite S_INR in *.
    replace ((INR j + t) / INR N) with ((1 - t) * (INR j / INR N) + t * ((INR j + 1) / INR N)) in Ez by (field; lra).
    assert (I0 := Rinv_0_lt_compat _ N0).
    eapply Rle_trans; [apply (chord_error (INR j / INR N) ((INR j + 1) / INR N) t x y z); try assumption|].
    - apply Rmult_le_pos; lra.
    - apply Rmult_le_compat_r; lra.
    - apply (Rmult_le_reg_r (INR N)); [exact N0|]. unfold Rdiv. rewrite Rmult_assoc, Rinv_l by lra. lra.
    - replace ((INR j + 1) / INR N - INR j / INR N) with (/ INR N) by (field; lra). replace (M / (8 * INR N ^ 2)) with (M * (1 / 4) * (/ INR N) ^ 2 / 2) by (field; lra).
      assert (t * (1 - t) <= 1 / 4) by (assert (T := pow2_ge_0 (t - 1 / 2)); nra). assert (0 <= (/ INR N) ^ 2) by nra. assert (M * (t * (1 - t)) <= M * (1 / 4)) by (apply Rmult_le_compat_l; assumption).
      assert (M * (t * (1 - t)) * (/ INR N) ^ 2 <= M * (1 / 4) * (/ INR N) ^ 2) by (apply Rmult_le_compat_r; assumption). lra.
  Qed.
End Curve.
