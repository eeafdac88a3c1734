(** * Curves and functions: convexity, approximation *)

From Coq Require Import Reals List Arith Lra Lia.
From Verif Require Import Num Vec MKnots MPoints MCurve RNum Lists Spec BMath BMath2 BMath3 BMath4 SW Api ApiS Bridge Facts1 Shape1 Shape2 Shape3 Stab.
Import ListNotations.
Local Open Scope R_scope.

Definition avg (U : nat -> R) (p i : nat) : R := rsum (fun k => U (i + 1 + k)%nat) p / INR p.

Lemma avg_average p n U i : clamped p n U -> (i <= n)%nat -> average U p i = avg (kfun U) p i.
Proof.
  intros C Hi. unfold average, avg. f_equal. apply rsum_ext. intros k Hk. rewrite kfun_nth; [reflexivity|]. rewrite (cl_len _ _ _ C). lia.
Qed.

Lemma avg_precision p n U u : fclamped p n U -> (1 <= p)%nat -> 0 <= u <= 1 -> spline U n p (avg U p) u = u.
Proof.
  intros C Hp Hu. assert (P0 : INR p <> 0) by (apply not_0_INR; lia). destruct (span_ex p n U C u Hu) as [j [J1 J2]].
  rewrite (spline_piece p n U C _ u j ltac:(lia) J2). unfold pfun.
  rewrite (rsum_ext _ (fun i => / INR p * (rsum (fun k => U (i + 1 + k)%nat) p * cox (delta j) U p i u))) by (intros; unfold avg; field; exact P0).
  rewrite rsum_scal, knot_sums; [field; exact P0|apply C|apply J2|lia|lia].
Qed.

Lemma spline_lin U n p (a b : nat -> R) s t u : spline U n p (fun i => s * a i + t * b i) u = s * spline U n p a u + t * spline U n p b u.
Proof. unfold spline. rewrite <- !rsum_scal, <- rsum_plus. apply rsum_ext. intros. ring. Qed.
Lemma spline_const p n U k u : fclamped p n U -> 0 <= u <= 1 -> spline U n p (fun _ => k) u = k.
Proof.
  intros C Hu. unfold spline. rewrite (rsum_ext _ (fun i => k * bspline U n p i u)) by (intros; ring). rewrite rsum_scal, (bspline_sum p n U C u Hu). ring.
Qed.

Lemma rsum_telescope (f : nat -> R) m : rsum (fun k => f (S k) - f k) m = f m - f 0%nat.
Proof. induction m as [|m IH]; cbn [rsum]; [ring|]. rewrite IH. ring. Qed.

Lemma avg_step U p i : (1 <= p)%nat -> avg U p (S i) - avg U p i = (U (i + p + 1)%nat - U (i + 1)%nat) / INR p.
Proof.
  intros Hp. assert (P0 : INR p <> 0) by (apply not_0_INR; lia). unfold avg. unfold Rdiv. rewrite <- Rmult_minus_distr_r. f_equal. rewrite <- rsum_minus.
  rewrite (rsum_ext _ (fun k => U (i + 1 + S k)%nat - U (i + 1 + k)%nat)) by (intros k _; f_equal; f_equal; lia).
  rewrite (rsum_telescope (fun k => U (i + 1 + k)%nat)). f_equal; f_equal; lia.
Qed.

Lemma avg_lt p n U i : fclamped p n U -> (1 <= p)%nat -> (forall x, 0 < x < 1 -> mult_le U x p) -> (i < n)%nat -> avg U p i < avg U p (S i).
Proof.
  intros C Hp M Hi. assert (E := avg_step U p i Hp). assert (P0 : 0 < INR p) by (apply lt_0_INR; lia).
  enough (0 < (U (i + p + 1)%nat - U (i + 1)%nat) / INR p) by lra. apply Rmult_lt_0_compat; [|apply Rinv_0_lt_compat; exact P0].
  assert (L : U (i + 1)%nat <= U (i + p + 1)%nat) by (apply (fc_mono _ _ _ C); lia).
  destruct (Req_dec (U (i + 1)%nat) (U (i + p + 1)%nat)) as [Q|Q]; [|lra]. exfalso.
  assert (A : 0 < U (i + p + 1)%nat).
  { destruct (Nat.le_gt_cases (i + p + 1) n) as [H|H]; [apply (fc_inner _ _ _ C); lia|]. rewrite (fc_one _ _ _ C) by exact H. lra. }
  assert (B : U (i + 1)%nat < 1).
  { destruct (Nat.le_gt_cases (i + 1) p) as [H|H]; [rewrite (fc_zero _ _ _ C) by exact H; lra|]. apply (fc_inner _ _ _ C). lia. }
  assert (T := M (U (i + 1)%nat) ltac:(lra) (i + 1)%nat (i + p + 1)%nat eq_refl ltac:(lra)). lia.
Qed.

Section Convex.
  Variables (n : nat) (g h : nat -> R).
  Hypothesis G : forall i, (i < n)%nat -> g i < g (S i).
  Hypothesis X : forall i, (i + 2 <= n)%nat -> (h (S i) - h i) * (g (S (S i)) - g (S i)) <= (h (S (S i)) - h (S i)) * (g (S i) - g i).

  Let s i := (h (S i) - h i) / (g (S i) - g i).
  Lemma g_lt a b : (a < b <= n)%nat -> g a < g b.
  Proof using G. intros [H1 H2]. induction H1 as [|b H1 IH]; [apply G; lia|]. assert (T := G b ltac:(lia)). assert (T2 := IH ltac:(lia)). lra. Qed.
  Lemma s_le a b : (a <= b < n)%nat -> s a <= s b.
  Proof using G X.
    intros [H1 H2]. induction H1 as [|b H1 IH]; [lra|]. eapply Rle_trans; [apply IH; lia|]. unfold s.
    assert (T := X b ltac:(lia)). assert (A := G b ltac:(lia)). assert (B := G (S b) ltac:(lia)).
    apply (Rmult_le_reg_r ((g (S b) - g b) * (g (S (S b)) - g (S b)))); [apply Rmult_lt_0_compat; lra|].
    replace ((h (S b) - h b) / (g (S b) - g b) * ((g (S b) - g b) * (g (S (S b)) - g (S b)))) with ((h (S b) - h b) * (g (S (S b)) - g (S b))) by (field; lra).
    replace ((h (S (S b)) - h (S b)) / (g (S (S b)) - g (S b)) * ((g (S b) - g b) * (g (S (S b)) - g (S b)))) with ((h (S (S b)) - h (S b)) * (g (S b) - g b)) by (field; lra). exact T.
  Qed.
  Lemma h_step i : (i < n)%nat -> h (S i) - h i = s i * (g (S i) - g i).
  Proof using G. intros Hi. assert (T := G i Hi). unfold s. field. lra. Qed.
  Lemma chord_up a b m : (a < b <= n)%nat -> (forall i, (a <= i < b)%nat -> s i <= m) -> h b - h a <= m * (g b - g a).
  Proof using G.
    intros [H1 H2] Hm. induction H1 as [|b H1 IH]; [rewrite h_step by lia; apply Rmult_le_compat_r; [assert (T := G a ltac:(lia)); lra|apply Hm; lia]|].
    assert (T := IH ltac:(lia) ltac:(intros; apply Hm; lia)). assert (Q := h_step b ltac:(lia)). assert (W := G b ltac:(lia)). assert (V := Hm b ltac:(lia)). nra.
  Qed.
  Lemma chord_down a b m : (a < b <= n)%nat -> (forall i, (a <= i < b)%nat -> m <= s i) -> m * (g b - g a) <= h b - h a.
  Proof using G.
    intros [H1 H2] Hm. induction H1 as [|b H1 IH]; [rewrite h_step by lia; apply Rmult_le_compat_r; [assert (T := G a ltac:(lia)); lra|apply Hm; lia]|].
    assert (T := IH ltac:(lia) ltac:(intros; apply Hm; lia)). assert (Q := h_step b ltac:(lia)). assert (W := G b ltac:(lia)). assert (V := Hm b ltac:(lia)). nra.
  Qed.
  Lemma three a b c : (a < b < c)%nat -> (c <= n)%nat -> (h b - h a) * (g c - g b) <= (h c - h b) * (g b - g a).
  Proof using G X.
    intros H1 H2. assert (A := chord_up a b (s b) ltac:(lia) ltac:(intros; apply s_le; lia)). assert (B := chord_down b c (s b) ltac:(lia) ltac:(intros; apply s_le; lia)).
    assert (C := g_lt a b ltac:(lia)). assert (D := g_lt b c ltac:(lia)).
    apply Rle_trans with (s b * (g b - g a) * (g c - g b)); [apply Rmult_le_compat_r; lra|].
    replace (s b * (g b - g a) * (g c - g b)) with (s b * (g c - g b) * (g b - g a)) by ring. apply Rmult_le_compat_r; lra.
  Qed.
End Convex.

Lemma spline_convex p n U (h : nat -> R) u v t : fclamped p n U -> (1 <= p)%nat -> (forall x, 0 < x < 1 -> mult_le U x p) ->
  (forall i, (i + 2 <= n)%nat -> (h (S i) - h i) * (avg U p (S (S i)) - avg U p (S i)) <= (h (S (S i)) - h (S i)) * (avg U p (S i) - avg U p i)) ->
  0 <= u <= 1 -> 0 <= v <= 1 -> u < v -> 0 < t < 1 ->
  spline U n p h ((1 - t) * u + t * v) <= (1 - t) * spline U n p h u + t * spline U n p h v.
Proof.
  intros C Hp M X Hu Hv Huv Ht. set (f := spline U n p h). set (m := (1 - t) * u + t * v).
  destruct (Rle_lt_dec (f m) ((1 - t) * f u + t * f v)) as [|Q]; [assumption|exfalso].
  set (b := (f v - f u) / (v - u)). set (e := (f m - ((1 - t) * f u + t * f v)) / 2). set (a := f u - b * u + e).
  assert (Hm : 0 <= m <= 1) by (unfold m; nra).
  assert (E0 : 0 < e) by (unfold e; lra).
  set (z := fun i => h i - (a + b * avg U p i)).
  assert (Z : forall x, 0 <= x <= 1 -> spline U n p z x = f x - (a + b * x)).
  { intros x Hx. unfold z. rewrite spline_minus. fold (f x). f_equal.
    replace (spline U n p (fun i => a + b * avg U p i) x) with (spline U n p (fun i => 1 * (fun _ : nat => a) i + b * avg U p i) x) by (unfold spline; apply rsum_ext; intros; ring).
    rewrite spline_lin, (spline_const p n U a x C Hx), (avg_precision p n U x C Hp Hx). ring. }
  assert (Zu : spline U n p z u = - e) by (rewrite Z by exact Hu; unfold a; ring).
  assert (Zv : spline U n p z v = - e) by (rewrite Z by exact Hv; unfold a, b; field; lra).
  assert (Zm : spline U n p z m = e).
  { rewrite Z by exact Hm. unfold a. replace (b * m) with (b * u + t * (f v - f u)) by (unfold b, m; field; lra). unfold e. lra. }
  set (us := fun j : nat => match j with 0%nat => u | 1%nat => m | _ => v end).
  destruct (sampled p n U C (fun i _ => z i) us 3) as [N [W [bb [HQ [HB HO]]]]].
  { intros j Hj. destruct j as [|[|j]]; cbn; assumption. }
  { intros j Hj. destruct j as [|[|j]]; cbn; [unfold m; nra|unfold m; nra|lia]. }
  destruct (cuts_signs n _ N W HQ (fun x => x 0%nat) 2 bb (fun j => match j with 1%nat => 1 | _ => -1 end)) as [i [I1 I2]].
  - intros; reflexivity.
  - intros j Hj. destruct (HB j ltac:(lia)) as [B1 B2]. split; [exact B1|]. rewrite <- (B2 0%nat). destruct j as [|[|[|j]]]; [| | |lia]; cbn [us].
    + change (0 < -1 * spline U n p z u). rewrite Zu. lra.
    + change (0 < 1 * spline U n p z m). rewrite Zm. lra.
    + change (0 < -1 * spline U n p z v). rewrite Zv. lra.
  - intros j Hj. apply HO. lia.
  - intros j Hj. destruct j as [|[|j]]; [lra|lra|lia].
  - destruct (I1 0%nat ltac:(lia)) as [N0 S0]. destruct (I1 1%nat ltac:(lia)) as [N1 S1]. destruct (I1 2%nat ltac:(lia)) as [N2 S2]. cbv beta iota in S0, S1, S2.
    assert (L0 := I2 0%nat ltac:(lia)). assert (L1 := I2 1%nat ltac:(lia)).
    assert (T := three n (avg U p) z (fun i Hi => avg_lt p n U i C Hp M Hi)).
    assert (T' := T ltac:(intros k Hk; assert (Y := X k Hk); unfold z; nra) (i 0%nat) (i 1%nat) (i 2%nat) ltac:(lia) N2). clear T.
    assert (G1 := g_lt n (avg U p) (fun i Hi => avg_lt p n U i C Hp M Hi) (i 0%nat) (i 1%nat) ltac:(lia)).
    assert (G2 := g_lt n (avg U p) (fun i Hi => avg_lt p n U i C Hp M Hi) (i 1%nat) (i 2%nat) ltac:(lia)). nra.
Qed.

Lemma convex_curve p n dim U P c (w : nat -> R) : clamped_curve p n dim U P c -> (1 <= p)%nat -> (forall x, 0 < x < 1 -> (mult U x <= p)%nat) ->
  (forall i, (i + 2 <= n)%nat ->
    (rsum (fun d => w d * (ent P (i + 1) d - ent P i d)) dim) * (average U p (i + 2) - average U p (i + 1)) <=
    (rsum (fun d => w d * (ent P (i + 2) d - ent P (i + 1) d)) dim) * (average U p (i + 1) - average U p i)) ->
  forall u v t x y z, 0 <= u <= 1 -> 0 <= v <= 1 -> 0 <= t <= 1 ->
  evaluate c u = Val (Ok x) -> evaluate c v = Val (Ok y) -> evaluate c ((1 - t) * u + t * v) = Val (Ok z) ->
  rsum (fun d => w d * nth d z 0) dim <= (1 - t) * rsum (fun d => w d * nth d x 0) dim + t * rsum (fun d => w d * nth d y 0) dim.
Proof.
  intros H Hp M X u v t x y z Hu Hv Ht Ex Ey Ez. assert (C : fclamped p n (kfun U)) by (apply kfun_clamped; apply H).
  assert (Hm : 0 <= (1 - t) * u + t * v <= 1) by nra.
  set (h := fun i => rsum (fun d => w d * ent P i d) dim).
  assert (V : forall s r, 0 <= s <= 1 -> evaluate c s = Val (Ok r) -> rsum (fun d => w d * nth d r 0) dim = spline (kfun U) n p h s).
  { intros s r Hs E. destruct (eval_at p n dim U P c H s r Hs E) as [_ W]. rewrite (rsum_ext _ (fun d => w d * spline (kfun U) n p (fun i => ent P i d) s)) by (intros d Hd; rewrite W by exact Hd; reflexivity).
    unfold h. apply (spline_dot (kfun U) n p dim w (fun i d => ent P i d) s). }
  rewrite (V _ _ Hu Ex), (V _ _ Hv Ey), (V _ _ Hm Ez).
  assert (Cv : forall a b r, 0 <= a <= 1 -> 0 <= b <= 1 -> a < b -> 0 < r < 1 -> spline (kfun U) n p h ((1 - r) * a + r * b) <= (1 - r) * spline (kfun U) n p h a + r * spline (kfun U) n p h b).
  { intros a b r Ha Hb Hab Hr. apply spline_convex; try assumption.
    - apply (mults_le p n U); [apply H|exact M].
    - intros i Hi. assert (T := X i Hi). rewrite !(avg_average p n U) in T by (try lia; apply H). replace (i + 2)%nat with (S (S i)) in T by lia. replace (i + 1)%nat with (S i) in T by lia.
      unfold h. rewrite <- !rsum_minus.
      rewrite (rsum_ext (fun d => w d * ent P (S i) d - w d * ent P i d) (fun d => w d * (ent P (S i) d - ent P i d))) by (intros; ring).
      rewrite (rsum_ext (fun d => w d * ent P (S (S i)) d - w d * ent P (S i) d) (fun d => w d * (ent P (S (S i)) d - ent P (S i) d))) by (intros; ring). exact T. }
  destruct (Req_dec t 0) as [->|T0]; [replace ((1 - 0) * u + 0 * v) with u by ring; lra|].
  destruct (Req_dec t 1) as [->|T1]; [replace ((1 - 1) * u + 1 * v) with v by ring; lra|].
  destruct (Rtotal_order u v) as [L|[<-|L]].
  - apply Cv; lra.
  - replace ((1 - t) * u + t * u) with u by ring. lra.
  - assert (T := Cv v u (1 - t) Hv Hu L ltac:(lra)). replace ((1 - (1 - t)) * v + (1 - t) * u) with ((1 - t) * u + t * v) in T by ring. lra.
Qed.

(** ** Control points taken from a function *)
Lemma spread_le U hh : (forall i, U (S i) - U i <= hh) -> forall k i, U (i + k)%nat - U i <= INR k * hh.
Proof.
  intros Sp. induction k as [|k IH]; intros i; [rewrite Nat.add_0_r; cbn [INR]; lra|]. rewrite S_INR. replace (i + S k)%nat with (S (i + k)) by lia.
  assert (A := Sp (i + k)%nat). assert (B := IH i). lra.
Qed.
Lemma rsum_const c p : rsum (fun _ => c) p = INR p * c.
Proof. induction p as [|p IH]; [cbn; lra|]. cbn [rsum]. rewrite IH, S_INR. ring. Qed.
Lemma rsum_count p : rsum (fun k => INR (S k)) p = INR p * (INR p + 1) / 2.
Proof. induction p as [|p IH]; cbn [rsum]; [cbn; lra|]. rewrite IH, S_INR. lra. Qed.
Lemma rsum_count_down p : rsum (fun k => INR (p - k)) p = INR p * (INR p + 1) / 2.
Proof.
  induction p as [|p IH]; [cbn; lra|]. rewrite rsum_first. rewrite (rsum_ext _ (fun k => INR (p - k))) by (intros; f_equal).
  rewrite IH. replace (S p - 0)%nat with (S p) by lia. rewrite !S_INR. lra.
Qed.
Lemma avg_near p n U hh u i j : fclamped p n U -> (1 <= p)%nat -> (forall i, U (S i) - U i <= hh) -> (p <= j <= n)%nat -> U j <= u <= U (S j) -> (j - p <= i <= j)%nat ->
  Rabs (avg U p i - u) <= (INR p + 1) / 2 * hh.
Proof.
  intros C Hp Sp Hj Hu Hi. assert (P0 : 0 < INR p) by (apply lt_0_INR; lia).
  assert (E : avg U p i - u = rsum (fun k => U (i + 1 + k)%nat - u) p / INR p) by (rewrite rsum_minus, rsum_const; unfold avg; field; lra).
  assert (A : rsum (fun k => U (i + 1 + k)%nat - u) p <= INR p * (INR p + 1) / 2 * hh).
  { rewrite <- rsum_count. rewrite Rmult_comm, <- rsum_scal. apply rsum_le. intros k Hk.
    assert (T := spread_le U hh Sp (S k) j). assert (B : U (i + 1 + k)%nat <= U (j + S k)%nat) by (apply (fc_mono _ _ _ C); lia). lra. }
  assert (B : - (INR p * (INR p + 1) / 2 * hh) <= rsum (fun k => U (i + 1 + k)%nat - u) p).
  { rewrite <- rsum_count_down. replace (- (rsum (fun k => INR (p - k)) p * hh)) with (rsum (fun k => - hh * INR (p - k)) p) by (rewrite rsum_scal; ring). apply rsum_le. intros k Hk.
    assert (T := spread_le U hh Sp (p - k) (j + 1 - (p - k))). replace (j + 1 - (p - k) + (p - k))%nat with (S j) in T by lia.
    assert (B : U (j + 1 - (p - k))%nat <= U (i + 1 + k)%nat) by (apply (fc_mono _ _ _ C); lia). lra. }
  rewrite E. apply Rabs_le. split.
  - apply (Rmult_le_reg_r (INR p)); [exact P0|]. unfold Rdiv at 2. rewrite Rmult_assoc, Rinv_l by lra. lra.
  - apply (Rmult_le_reg_r (INR p)); [exact P0|]. unfold Rdiv at 1. rewrite Rmult_assoc, Rinv_l by lra. lra.
Qed.
Lemma avg_range p n U i : fclamped p n U -> (1 <= p)%nat -> 0 <= avg U p i <= 1.
Proof.
  intros C Hp. assert (P0 : 0 < INR p) by (apply lt_0_INR; lia). unfold avg. assert (R := fun k => U_range p n U C (i + 1 + k)).
  assert (A : 0 <= rsum (fun k => U (i + 1 + k)%nat) p) by (apply rsum_nonneg; intros k Hk; apply (R k)).
  assert (B : rsum (fun k => U (i + 1 + k)%nat) p <= INR p * 1) by (rewrite <- rsum_const; apply rsum_le; intros k Hk; apply (R k)).
  split; [apply Rmult_le_pos; [exact A|left; apply Rinv_0_lt_compat; exact P0]|]. apply (Rmult_le_reg_r (INR p)); [exact P0|]. unfold Rdiv. rewrite Rmult_assoc, Rinv_l by lra. lra.
Qed.

Lemma schoenberg p n dim U P c (f : nat -> R -> R) hh e : clamped_curve p n dim U P c -> (1 <= p)%nat ->
  (forall i, (p <= i <= n)%nat -> nth (S i) U 0 - nth i U 0 <= hh) ->
  (forall i d, (i <= n)%nat -> (d < dim)%nat -> ent P i d = f d (average U p i)) ->
  (forall d x y, (d < dim)%nat -> 0 <= x <= 1 -> 0 <= y <= 1 -> Rabs (x - y) <= (INR p + 1) / 2 * hh -> Rabs (f d x - f d y) <= e) ->
  forall u, 0 <= u <= 1 -> exists x, evaluate c u = Val (Ok x) /\ length x = dim /\ forall d, (d < dim)%nat -> Rabs (nth d x 0 - f d u) <= e.
Proof.
  intros H Hp Sp HP Hf u Hu. assert (C : fclamped p n (kfun U)) by (apply kfun_clamped; apply H). assert (L : length U = (n + p + 2)%nat) by (apply H).
  assert (H0 : 0 <= hh).
  { assert (T := Sp p ltac:(assert (T := fc_deg _ _ _ C); lia)). assert (T2 := cl_sorted _ _ _ (proj1 H) p (S p) ltac:(lia) ltac:(assert (T3 := fc_deg _ _ _ C); lia)). lra. }
  assert (S' : forall i, kfun U (S i) - kfun U i <= hh).
  { intros i. destruct (Nat.lt_ge_cases i p) as [A|A]; [rewrite !(fc_zero _ _ _ C) by lia; lra|].
    destruct (Nat.lt_ge_cases n i) as [B|B]; [rewrite !(fc_one _ _ _ C) by lia; lra|]. rewrite !kfun_nth by lia. apply Sp. lia. }
  destruct (cc_eval0 p n dim U P c u H Hu) as [x [X1 [X2 X3]]]. exists x. split; [exact X1|]. split; [exact X2|]. intros d Hd. rewrite X3 by exact Hd.
  destruct (span_ex p n (kfun U) C u Hu) as [j [J1 J2]]. destruct (weights p n (kfun U) j u C J1 J2) as [w [W1 [W2 W3]]]. rewrite W3.
  assert (R := in_span_le n (kfun U) u j J2).
  assert (D : forall i, (i < S p)%nat -> Rabs (ent P (j - p + i) d - f d u) <= e).
  { intros i Hi. rewrite HP by (try lia; exact Hd). rewrite (avg_average p n U) by (try lia; apply H). apply Hf; [exact Hd|apply (avg_range p n _ _ C Hp)|exact Hu|].
    apply (avg_near p n (kfun U) hh u _ j C Hp S' J1 R). lia. }
  replace (rsum (fun i => w i * ent P (j - p + i) d) (S p) - f d u) with (rsum (fun i => w i * (ent P (j - p + i) d - f d u)) (S p)).
  - eapply Rle_trans; [apply rsum_tri|]. rewrite (rsum_ext _ (fun i => w i * Rabs (ent P (j - p + i) d - f d u))).
    + apply comb_le; [intros i Hi; apply W1; lia|exact W2|exact D].
    + intros i Hi. rewrite Rabs_mult, Rabs_pos_eq by (apply W1; lia). reflexivity.
  - rewrite (rsum_ext _ (fun i => w i * ent P (j - p + i) d - f d u * w i)) by (intros; ring). rewrite rsum_minus, rsum_scal, W2. ring.
Qed.

(** ** Every continuous function is approximated *)
Lemma clip_01 x : 0 <= Rmax 0 (Rmin 1 x) <= 1.
Proof. unfold Rmax, Rmin. destruct (Rle_dec 1 x), (Rle_dec 0 _); lra. Qed.
Lemma clip_id x : 0 <= x <= 1 -> Rmax 0 (Rmin 1 x) = x.
Proof. intros H. unfold Rmax, Rmin. destruct (Rle_dec 1 x), (Rle_dec 0 _); lra. Qed.
Lemma clip_near x y : Rabs (Rmax 0 (Rmin 1 x) - Rmax 0 (Rmin 1 y)) <= Rabs (x - y).
Proof. unfold Rmax, Rmin. destruct (Rle_dec 1 x), (Rle_dec 1 y); repeat destruct (Rle_dec 0 _); unfold Rabs; repeat destruct Rcase_abs; lra. Qed.

Lemma uniform_continuity f : (forall x, 0 <= x <= 1 -> continuous_on01 f x) -> forall e, 0 < e -> exists d, 0 < d /\
  forall x y, 0 <= x <= 1 -> 0 <= y <= 1 -> Rabs (x - y) < d -> Rabs (f x - f y) < e.
Proof.
  intros Hc e He. set (F := fun x => f (Rmax 0 (Rmin 1 x))).
  assert (HF : forall x, 0 <= x <= 1 -> continuity_pt F x).
  { intros x Hx eps Heps. destruct (Hc x Hx eps Heps) as [d [D1 D2]]. exists d. split; [exact D1|]. intros y [_ Hy]. cbn in Hy |- *. unfold R_dist in *. unfold F.
    rewrite (clip_id x Hx). apply D2; [apply clip_01|]. assert (T := clip_near y x). rewrite (clip_id x Hx) in T. lra. }
  destruct (@Heine_cor2 F 0 1 HF (mkposreal e He)) as [d D]. exists d. split; [apply cond_pos|]. intros x y Hx Hy Hxy.
  assert (T := D x y Hx Hy Hxy). unfold F in T. rewrite !clip_id in T by assumption. exact T.
Qed.

Lemma approximation p dim (f : nat -> R -> R) e : (1 <= p)%nat -> 0 < e -> (forall d x, (d < dim)%nat -> 0 <= x <= 1 -> continuous_on01 (f d) x) ->
  exists N, forall n U P c, (N <= n)%nat -> clamped_curve p n dim U P c -> uniform_knots p n U ->
    (forall i d, (i <= n)%nat -> (d < dim)%nat -> ent P i d = f d (average U p i)) ->
    forall u, 0 <= u <= 1 -> exists x, evaluate c u = Val (Ok x) /\ length x = dim /\ forall d, (d < dim)%nat -> Rabs (nth d x 0 - f d u) <= e.
Proof.
  intros Hp He Hc.
  assert (D : exists dl, 0 < dl /\ forall d x y, (d < dim)%nat -> 0 <= x <= 1 -> 0 <= y <= 1 -> Rabs (x - y) < dl -> Rabs (f d x - f d y) < e).
  { clear - Hc He. induction dim as [|m IH]; [exists 1; split; [lra|intros; lia]|]. destruct IH as [d1 [A1 A2]]; [intros; apply Hc; [lia|assumption]|].
    destruct (uniform_continuity (f m) (fun x Hx => Hc m x ltac:(lia) Hx) e He) as [d2 [B1 B2]]. exists (Rmin d1 d2). split; [apply Rmin_glb_lt; assumption|].
    intros d x y Hd Hx Hy Hxy. assert (T1 := Rmin_l d1 d2). assert (T2 := Rmin_r d1 d2). destruct (Nat.eq_dec d m) as [->|Ne]; [apply B2|apply A2]; try assumption; try lra; try lia. }
  destruct D as [dl [D1 D2]].
  destruct (archimed_cor1 (dl / (INR p + 1)) ltac:(apply Rmult_lt_0_compat; [exact D1|apply Rinv_0_lt_compat; assert (T := pos_INR p); lra])) as [N [N1 N2]].
  exists (p + N)%nat. intros n U P c Hn H Hu HP. assert (Cl := proj1 H).
  apply (schoenberg p n dim U P c f (/ INR N) e H Hp); [|exact HP|].
  - intros i Hi. rewrite (Hu i) by lia. rewrite (Hu (S i)) by lia. assert (Q : 0 < INR (n - p + 1)) by (apply lt_0_INR; lia).
    replace (S i - p)%nat with (S (i - p)) by lia. rewrite S_INR. replace ((INR (i - p) + 1) / INR (n - p + 1) - INR (i - p) / INR (n - p + 1)) with (/ INR (n - p + 1)) by (field; lra).
    apply Rinv_le_contravar; [apply lt_0_INR; lia|]. apply le_INR. lia.
  - intros d x y Hd Hx Hy Hxy. left. apply D2; try assumption. eapply Rle_lt_trans; [exact Hxy|]. assert (Q := pos_INR p). assert (NP : 0 < / INR N) by (apply Rinv_0_lt_compat, lt_0_INR; lia).
    apply Rle_lt_trans with ((INR p + 1) * / INR N); [nra|]. apply (Rmult_lt_compat_l (INR p + 1)) in N1; [|lra]. replace ((INR p + 1) * (dl / (INR p + 1))) with dl in N1 by (field; lra). exact N1.
Qed.
