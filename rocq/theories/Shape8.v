(** * Second order approximation *)

From Coq Require Import Reals List Arith Lra Lia.
From Verif Require Import Num Vec MKnots MPoints MCurve RNum Lists Spec BMath BMath2 BMath3 BMath4 SW Api ApiS Bridge Facts1 Shape1 Shape2 Shape3 Stab Shape6.
Import ListNotations.
Local Open Scope R_scope.

Lemma deriv_poly (f : R -> R) (l s M x0 t : R) : derivable_pt_lim f t l ->
  derivable_pt_lim (fun y => s * f y - M * ((y - x0) * (y - x0)) / 2) t (s * l - M * (t - x0)).
Proof.
  intros D.
  assert (E1 : derivable_pt_lim (fun y => y - x0) t (1 - 0)) by (apply derivable_pt_lim_minus; [apply derivable_pt_lim_id|apply derivable_pt_lim_const]).
  assert (E2 := derivable_pt_lim_mult _ _ t _ _ E1 E1). cbv beta in E2.
  assert (E3 := derivable_pt_lim_scal _ (M / 2) t _ E2).
  assert (E4 := derivable_pt_lim_scal _ s t _ D).
  assert (E5 := derivable_pt_lim_minus _ _ t _ _ E4 E3). unfold mult_real_fct, mult_fct, minus_fct in E5.
  replace (s * l - M * (t - x0)) with (s * l - M / 2 * ((1 - 0) * (t - x0) + (t - x0) * (1 - 0))) by field.
  intros eps He. destruct (E5 eps He) as [dl Hd]. exists dl. intros h Hh Hh2. specialize (Hd h Hh Hh2).
  replace (s * f (t + h) - M * ((t + h - x0) * (t + h - x0)) / 2 - (s * f t - M * ((t - x0) * (t - x0)) / 2))
    with (s * f (t + h) - M / 2 * ((t + h - x0) * (t + h - x0)) - (s * f t - M / 2 * ((t - x0) * (t - x0)))) by field. exact Hd.
Qed.

Lemma taylor2 (f f' : R -> R) M x y : (forall t, 0 <= t <= 1 -> derivable_pt_lim f t (f' t)) -> (forall s t, 0 <= s <= 1 -> 0 <= t <= 1 -> Rabs (f' s - f' t) <= M * Rabs (s - t)) ->
  0 <= x <= 1 -> 0 <= y <= 1 -> Rabs (f y - f x - f' x * (y - x)) <= M / 2 * (y - x) ^ 2.
Proof.
  intros D Lip Hx Hy.
  assert (Main : forall s, s = 1 \/ s = -1 -> s * (f y - f x - f' x * (y - x)) <= M / 2 * (y - x) ^ 2).
  { intros s Hs.
    set (g := fun t => s * (f t - f' x * t) - M * ((t - x) * (t - x)) / 2).
    set (g' := fun t => s * (f' t - f' x) - M * (t - x)).
    assert (G : forall t, 0 <= t <= 1 -> derivable_pt_lim g t (g' t)).
    { intros t Ht. unfold g, g'. apply (deriv_poly (fun t => f t - f' x * t)).
      replace (f' t - f' x) with (f' t - f' x * 1) by ring.
      apply (derivable_pt_lim_minus f (fun t => f' x * t)); [apply D; exact Ht|].
      apply (derivable_pt_lim_scal id (f' x) t 1). apply derivable_pt_lim_id. }
    assert (V : g y - g x = s * (f y - f x - f' x * (y - x)) - M / 2 * (y - x) ^ 2) by (unfold g; field).
    enough (g y - g x <= 0) by lra.
    destruct (Rtotal_order x y) as [L|[<-|L]]; [|lra|].
    - destruct (MVT_cor2 g g' x y L) as [c [E Hc]]; [intros c Hc; apply G; lra|]. rewrite E.
      assert (T := Lip c x ltac:(lra) Hx). rewrite (Rabs_pos_eq (c - x)) in T by lra.
      assert (g' c <= 0). { unfold g'. assert (A := Rle_abs (f' c - f' x)). assert (B := Rle_abs (- (f' c - f' x))). rewrite Rabs_Ropp in B. destruct Hs as [-> | ->]; lra. }
      nra.
    - destruct (MVT_cor2 g g' y x L) as [c [E Hc]]; [intros c Hc; apply G; lra|]. replace (g y - g x) with (- (g x - g y)) by ring. rewrite E.
      assert (T := Lip c x ltac:(lra) Hx). rewrite (Rabs_left (c - x)) in T by lra.
      assert (0 <= g' c). { unfold g'. assert (A := Rle_abs (f' c - f' x)). assert (B := Rle_abs (- (f' c - f' x))). rewrite Rabs_Ropp in B. destruct Hs as [-> | ->]; lra. }
      nra. }
  apply Rabs_le. assert (A := Main 1 ltac:(left; reflexivity)). assert (B := Main (-1) ltac:(right; reflexivity)). lra.
Qed.

Lemma spline_ext_lin p n U a b u : fclamped p n U -> 0 <= u <= 1 -> (1 <= p)%nat ->
  spline U n p (fun i => (a + b * u) + b * (avg U p i - u)) u = a + b * u.
Proof.
  intros C Hu Hp. assert (A := avg_precision p n U u C Hp Hu). assert (B := spline_const p n U a u C Hu).
  transitivity (1 * spline U n p (fun _ => a) u + b * spline U n p (avg U p) u); [|rewrite A, B; ring].
  rewrite <- spline_lin. unfold spline. apply rsum_ext. intros. ring.
Qed.

Lemma second_order p n dim U P c (f f' : nat -> R -> R) h M : clamped_curve p n dim U P c -> (1 <= p)%nat ->
  (forall i, (p <= i <= n)%nat -> nth (S i) U 0 - nth i U 0 <= h) ->
  (forall i d, (i <= n)%nat -> (d < dim)%nat -> ent P i d = f d (average U p i)) ->
  (forall d x, (d < dim)%nat -> 0 <= x <= 1 -> derivable_pt_lim (f d) x (f' d x)) ->
  (forall d x y, (d < dim)%nat -> 0 <= x <= 1 -> 0 <= y <= 1 -> Rabs (f' d x - f' d y) <= M * Rabs (x - y)) ->
  forall u, 0 <= u <= 1 -> exists x, evaluate c u = Val (Ok x) /\ length x = dim /\ forall d, (d < dim)%nat -> Rabs (nth d x 0 - f d u) <= M / 2 * ((INR p + 1) / 2 * h) ^ 2.
Proof.
  intros H Hp Sp HP Hf Lip u Hu. assert (C : fclamped p n (kfun U)) by (apply kfun_clamped; apply H). assert (L : length U = (n + p + 2)%nat) by (apply H).
  assert (H0 : 0 <= h).
  { assert (T := Sp p ltac:(assert (T := fc_deg _ _ _ C); lia)). assert (T2 := cl_sorted _ _ _ (proj1 H) p (S p) ltac:(lia) ltac:(assert (T3 := fc_deg _ _ _ C); lia)). lra. }
  assert (S' : forall i, kfun U (S i) - kfun U i <= h).
  { intros i. destruct (Nat.lt_ge_cases i p) as [A|A]; [rewrite !(fc_zero _ _ _ C) by lia; lra|].
    destruct (Nat.lt_ge_cases n i) as [B|B]; [rewrite !(fc_one _ _ _ C) by lia; lra|]. rewrite !kfun_nth by lia. apply Sp. lia. }
  destruct (cc_eval0 p n dim U P c u H Hu) as [x [X1 [X2 X3]]]. exists x. split; [exact X1|]. split; [exact X2|]. intros d Hd. rewrite X3 by exact Hd.
  assert (M0 : 0 <= M). { assert (T := Lip d 0 1 Hd ltac:(lra) ltac:(lra)). assert (T2 := Rabs_pos (f' d 0 - f' d 1)). rewrite (Rabs_left (0 - 1)) in T by lra. lra. }
  set (F := fun i => f d u + f' d u * (avg (kfun U) p i - u)).
  assert (EF : spline (kfun U) n p F u = f d u).
  { assert (T := spline_ext_lin p n (kfun U) (f d u - f' d u * u) (f' d u) u C Hu Hp).
    replace (f d u - f' d u * u + f' d u * u) with (f d u) in T by ring. exact T. }
  assert (ED : spline (kfun U) n p (fun i => ent P i d) u - f d u = spline (kfun U) n p (fun i => ent P i d - F i) u) by (rewrite spline_minus, EF; reflexivity).
  rewrite ED.
  destruct (span_ex p n (kfun U) C u Hu) as [j [J1 J2]]. destruct (weights p n (kfun U) j u C J1 J2) as [w [W1 [W2 W3]]]. rewrite W3.
  assert (R := in_span_le n (kfun U) u j J2).
  assert (D : forall i, (i < S p)%nat -> Rabs (ent P (j - p + i) d - F (j - p + i)%nat) <= M / 2 * ((INR p + 1) / 2 * h) ^ 2).
  { intros i Hi. rewrite HP by (try lia; exact Hd). rewrite (avg_average p n U) by (try lia; apply H).
    assert (A := avg_range p n (kfun U) (j - p + i) C Hp). assert (B := avg_near p n (kfun U) h u (j - p + i) j C Hp S' J1 R ltac:(lia)).
    assert (T := taylor2 (f d) (f' d) M u (avg (kfun U) p (j - p + i)) (fun t Ht => Hf d t Hd Ht) (fun s t Hs Ht => Lip d s t Hd Hs Ht) Hu A).
    unfold F. match goal with |- Rabs ?a <= _ => match type of T with Rabs ?b <= _ => replace a with b by ring end end.
    eapply Rle_trans; [exact T|]. apply Rmult_le_compat_l; [lra|]. rewrite <- (pow2_abs (avg _ _ _ - u)). apply pow_incr. split; [apply Rabs_pos|exact B]. }
  eapply Rle_trans; [apply rsum_tri|]. rewrite (rsum_ext _ (fun i => w i * Rabs (ent P (j - p + i) d - F (j - p + i)%nat))).
  - apply comb_le; [intros i Hi; apply W1; lia|exact W2|exact D].
  - intros i Hi. rewrite Rabs_mult, Rabs_pos_eq by (apply W1; lia). reflexivity.
Qed.
