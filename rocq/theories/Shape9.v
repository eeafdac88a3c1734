(** * Derivatives of curves with sampled control points *)

From Coq Require Import Reals List Arith Lra Lia.
From Verif Require Import Num Vec MKnots MPoints MCurve RNum Lists Spec BMath BMath2 BMath3 BMath4 SW Api ApiS Bridge Facts1 Shape1 Shape2 Shape3 Stab Shape6 Shape8.
Import ListNotations.
Local Open Scope R_scope.

Lemma sampled_derivative p n dim U P c (f f' : nat -> R -> R) h e : clamped_curve p n dim U P c -> (1 <= p)%nat ->
  (forall i, (p <= i <= n)%nat -> nth (S i) U 0 - nth i U 0 <= h) ->
  (forall i d, (i <= n)%nat -> (d < dim)%nat -> ent P i d = f d (average U p i)) ->
  (forall d x, (d < dim)%nat -> 0 <= x <= 1 -> derivable_pt_lim (f d) x (f' d x)) ->
  (forall d x y, (d < dim)%nat -> 0 <= x <= 1 -> 0 <= y <= 1 -> Rabs (x - y) <= (INR p + 1) / 2 * h -> Rabs (f' d x - f' d y) <= e) ->
  forall u, 0 <= u <= 1 -> exists x, evaluate_derivative c u 1 = Val (Ok x) /\ length x = dim /\ forall d, (d < dim)%nat -> Rabs (nth d x 0 - f' d u) <= e.
Proof.
  intros H Hp Sp HP Hf He u Hu. assert (C : fclamped p n (kfun U)) by (apply kfun_clamped; apply H). assert (L : length U = (n + p + 2)%nat) by (apply H).
  assert (H0 : 0 <= h).
  { assert (T := Sp p ltac:(assert (T := fc_deg _ _ _ C); lia)). assert (T2 := cl_sorted _ _ _ (proj1 H) p (S p) ltac:(lia) ltac:(assert (T3 := fc_deg _ _ _ C); lia)). lra. }
  assert (S' : forall i, kfun U (S i) - kfun U i <= h).
  { intros i. destruct (Nat.lt_ge_cases i p) as [A|A]; [rewrite !(fc_zero _ _ _ C) by lia; lra|].
    destruct (Nat.lt_ge_cases n i) as [B|B]; [rewrite !(fc_one _ _ _ C) by lia; lra|]. rewrite !kfun_nth by lia. apply Sp. lia. }
  destruct (cc_eval p n dim U P c u 1 H Hu Hp) as [x [X1 [X2 X3]]]. exists x. split; [exact X1|]. split; [exact X2|]. intros d Hd. rewrite X3 by exact Hd.
  unfold dspline. fold (spline (shift 1 (kfun U)) (n - 1) (p - 1) (dpoints (kfun U) p (fun i => ent P i d) 1) u).
  destruct (span_ex p n (kfun U) C u Hu) as [j [J1 J2]]. assert (R := in_span_le n (kfun U) u j J2).
  assert (J3 := in_span_shift p n (kfun U) C u j Hp ltac:(lia) J2).
  destruct (weights (p - 1) (n - 1) (shift 1 (kfun U)) (j - 1) u (fclamped_shift p n _ 1 C Hp) ltac:(lia) J3) as [w [W1 [W2 W3]]]. rewrite W3.
  set (X := fun i => dpoints (kfun U) p (fun i => ent P i d) 1 (j - 1 - (p - 1) + i)).
  assert (D : forall i, (i < S (p - 1))%nat -> Rabs (X i - f' d u) <= e).
  { intros i Hi. unfold X. set (l := (j - 1 - (p - 1) + i)%nat). cbn [dpoints]. rewrite Nat.sub_0_r.
    assert (Wd : kfun U (l + 1) < kfun U (l + p + 1)).
    { assert (A := fc_mono _ _ _ C (l + 1)%nat j ltac:(lia)). assert (B := fc_mono _ _ _ C (S j) (l + p + 1)%nat ltac:(lia)). assert (T := proj1 J2). lra. }
    unfold ratio. destruct Req_EM_T as [Z|_]; [lra|].
    rewrite !HP by (try lia; exact Hd). rewrite !(avg_average p n U) by (try lia; apply H).
    assert (St := avg_step (kfun U) p l Hp). assert (P0 : 0 < INR p) by (apply lt_0_INR; lia).
    set (g0 := avg (kfun U) p l) in *. set (g1 := avg (kfun U) p (S l)) in *.
    assert (G0 : 0 <= g0 <= 1) by (apply (avg_range p n _ _ C Hp)). assert (G1 : 0 <= g1 <= 1) by (apply (avg_range p n _ _ C Hp)).
    assert (Lt : g0 < g1). { enough (0 < g1 - g0) by lra. rewrite St. apply Rdiv_lt_0_compat; lra. }
    assert (N0 := avg_near p n (kfun U) h u l j C Hp S' J1 R ltac:(lia)). assert (N1 := avg_near p n (kfun U) h u (S l) j C Hp S' J1 R ltac:(lia)). fold g0 in N0. fold g1 in N1.
    destruct (MVT_cor2 (f d) (f' d) g0 g1 Lt) as [xi [E Hx]]; [intros t Ht; apply Hf; [exact Hd|lra]|].
    rewrite E. replace (INR p * (f' d xi * (g1 - g0)) / (kfun U (l + p + 1) - kfun U (l + 1))) with (f' d xi).
    - apply He; [exact Hd|lra|exact Hu|]. unfold Rabs in *. repeat destruct Rcase_abs; lra.
    - rewrite St. field. lra. }
  assert (Sc : rsum (fun i => w i * X i) (S (p - 1)) - f' d u = rsum (fun i => w i * (X i - f' d u)) (S (p - 1))).
  { rewrite (rsum_ext (fun i => w i * (X i - f' d u)) (fun i => w i * X i - f' d u * w i)) by (intros; ring). rewrite rsum_minus, rsum_scal, W2. ring. }
  change (Rabs (rsum (fun i => w i * X i) (S (p - 1)) - f' d u) <= e). rewrite Sc.
  eapply Rle_trans; [apply rsum_tri|]. rewrite (rsum_ext _ (fun i => w i * Rabs (X i - f' d u))) by (intros i Hi; rewrite Rabs_mult, Rabs_pos_eq by (apply W1; lia); reflexivity).
  apply comb_le; [intros i Hi; apply W1; lia|exact W2|exact D].
Qed.
