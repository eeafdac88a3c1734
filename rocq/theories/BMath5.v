(** * Derivatives of a spline that is another spline reparametrised affinely *)

From Coq Require Import Reals Arith Lia Lra.
From Verif Require Import Spec BMath BMath2 BMath3.
Local Open Scope R_scope.

Lemma small_unique l l' : (forall eps, 0 < eps -> Rabs (l - l') < eps) -> l = l'.
Proof.
  intros H. destruct (Req_dec l l') as [E|E]; [exact E|]. specialize (H (Rabs (l - l')) ltac:(apply Rabs_pos_lt; lra)). lra.
Qed.

Lemma right_derivative_unique f g u l l' : 0 <= u < 1 -> (forall v, u <= v < 1 -> f v = g v) ->
  right_derivative_on01 f u l -> right_derivative_on01 g u l' -> l = l'.
Proof.
  intros Hu E D D'. apply small_unique. intros eps He.
  destruct (D (eps / 2) ltac:(lra)) as [d1 [P1 H1]]. destruct (D' (eps / 2) ltac:(lra)) as [d2 [P2 H2]].
  set (h := Rmin (Rmin d1 d2) (1 - u) / 2).
  assert (Hh : 0 < h /\ h < d1 /\ h < d2 /\ h < 1 - u).
  { unfold h. assert (T1 := Rmin_l d1 d2). assert (T2 := Rmin_r d1 d2).
    assert (T3 := Rmin_l (Rmin d1 d2) (1 - u)). assert (T4 := Rmin_r (Rmin d1 d2) (1 - u)).
    assert (0 < Rmin (Rmin d1 d2) (1 - u)) by (repeat apply Rmin_glb_lt; lra). lra. }
  specialize (H1 (u + h) ltac:(lra) ltac:(lra) ltac:(lra)). specialize (H2 (u + h) ltac:(lra) ltac:(lra) ltac:(lra)).
  rewrite !E in H1 by lra. set (q := (g (u + h) - g u) / (u + h - u)) in *.
  replace (l - l') with (- (q - l) + (q - l')) by ring.
  apply Rle_lt_trans with (Rabs (- (q - l)) + Rabs (q - l')); [apply Rabs_triang|]. rewrite Rabs_Ropp. lra.
Qed.

Lemma end_derivative_unique f g l l' : (forall v, 0 <= v <= 1 -> f v = g v) ->
  derivative_on01 f 1 l -> derivative_on01 g 1 l' -> l = l'.
Proof.
  intros E D D'. apply small_unique. intros eps He.
  destruct (D (eps / 2) ltac:(lra)) as [d1 [P1 H1]]. destruct (D' (eps / 2) ltac:(lra)) as [d2 [P2 H2]].
  set (h := Rmin (Rmin d1 d2) 1 / 2).
  assert (Hh : 0 < h /\ h < d1 /\ h < d2 /\ h < 1).
  { unfold h. assert (T1 := Rmin_l d1 d2). assert (T2 := Rmin_r d1 d2).
    assert (T3 := Rmin_l (Rmin d1 d2) 1). assert (T4 := Rmin_r (Rmin d1 d2) 1).
    assert (0 < Rmin (Rmin d1 d2) 1) by (repeat apply Rmin_glb_lt; lra). lra. }
  assert (A : Rabs (1 - h - 1) = h) by (replace (1 - h - 1) with (- h) by ring; rewrite Rabs_Ropp; apply Rabs_pos_eq; lra).
  specialize (H1 (1 - h) ltac:(lra) ltac:(lra) ltac:(lra)). specialize (H2 (1 - h) ltac:(lra) ltac:(lra) ltac:(lra)).
  rewrite !E in H1 by lra. set (q := (g (1 - h) - g 1) / (1 - h - 1)) in *.
  replace (l - l') with (- (q - l) + (q - l')) by ring.
  apply Rle_lt_trans with (Rabs (- (q - l)) + Rabs (q - l')); [apply Rabs_triang|]. rewrite Rabs_Ropp. lra.
Qed.

Section Reparam.
  Variables (a b c : R) (h : R -> R).
  Hypothesis Ha : 0 < a.
  Hypothesis Hb : 0 <= b.
  Hypothesis Hab : a + b <= 1.

  Lemma img t : 0 <= t <= 1 -> 0 <= a * t + b <= 1.
  Proof.
    intros H. assert (0 <= a * t) by (apply Rmult_le_pos; lra).
    assert (a * t <= a * 1) by (apply Rmult_le_compat_l; lra). lra.
  Qed.

  Lemma quotient v u l : v <> u ->
    (c * h (a * v + b) - c * h (a * u + b)) / (v - u) - c * a * l
    = c * a * ((h (a * v + b) - h (a * u + b)) / (a * v + b - (a * u + b)) - l).
  Proof.
    intros H. assert (a * v + b - (a * u + b) <> 0).
    { replace (a * v + b - (a * u + b)) with (a * (v - u)) by ring. apply Rmult_integral_contrapositive_currified; lra. }
    field. split; lra.
  Qed.

  Lemma scaled_small x eps : 0 < eps -> Rabs x < eps / (Rabs (c * a) + 1) -> Rabs (c * a * x) < eps.
  Proof.
    intros He H. assert (T := Rabs_pos (c * a)). rewrite Rabs_mult.
    apply Rle_lt_trans with (Rabs (c * a) * (eps / (Rabs (c * a) + 1))); [apply Rmult_le_compat_l; lra|].
    apply Rlt_le_trans with ((Rabs (c * a) + 1) * (eps / (Rabs (c * a) + 1))).
    - apply Rmult_lt_compat_r; [apply Rdiv_lt_0_compat; lra|lra].
    - right. field. lra.
  Qed.

  Lemma reparam_right u l : 0 <= u < 1 -> right_derivative_on01 h (a * u + b) l ->
    right_derivative_on01 (fun t => c * h (a * t + b)) u (c * a * l).
  Proof.
    intros Hu D eps He. assert (T := Rabs_pos (c * a)).
    destruct (D (eps / (Rabs (c * a) + 1)) ltac:(apply Rdiv_lt_0_compat; lra)) as [d [Hd H]].
    exists (d / a). split; [apply Rdiv_lt_0_compat; lra|]. intros v Hv Hvu Hlt.
    rewrite quotient by lra. apply scaled_small; [exact He|]. apply H.
    - apply img. exact Hv.
    - assert (a * u < a * v) by (apply Rmult_lt_compat_l; lra). lra.
    - replace (a * v + b - (a * u + b)) with (a * (v - u)) by ring.
      apply Rlt_le_trans with (a * (d / a)); [apply Rmult_lt_compat_l; lra|]. right. field. lra.
  Qed.

  Lemma reparam_both u l : 0 <= u <= 1 -> derivative_on01 h (a * u + b) l ->
    derivative_on01 (fun t => c * h (a * t + b)) u (c * a * l).
  Proof.
    intros Hu D eps He. assert (T := Rabs_pos (c * a)).
    destruct (D (eps / (Rabs (c * a) + 1)) ltac:(apply Rdiv_lt_0_compat; lra)) as [d [Hd H]].
    exists (d / a). split; [apply Rdiv_lt_0_compat; lra|]. intros v Hv Hvu Hlt.
    rewrite quotient by lra. apply scaled_small; [exact He|]. apply H.
    - apply img. exact Hv.
    - intros E. apply Hvu. apply (Rmult_eq_reg_l a); lra.
    - replace (a * v + b - (a * u + b)) with (a * (v - u)) by ring. rewrite Rabs_mult, (Rabs_pos_eq a) by lra.
      apply Rlt_le_trans with (a * (d / a)); [apply Rmult_lt_compat_l; lra|]. right. field. lra.
  Qed.
End Reparam.

Theorem reparam_dspline p n m V L (P Q : nat -> R) a b : fclamped p n V -> fclamped p m L -> 0 < a -> 0 <= b -> a + b <= 1 ->
  (forall t, 0 <= t < 1 -> spline L m p Q t = spline V n p P (a * t + b)) ->
  forall k, (k <= p)%nat -> forall t, 0 <= t < 1 -> dspline L m p Q k t = a ^ k * dspline V n p P k (a * t + b).
Proof.
  intros CV CL Ha Hb Hab E k. induction k as [|k IH]; intros Hk t Ht.
  - rewrite !dspline_0. simpl. rewrite E by lra. ring.
  - specialize (IH ltac:(lia)).
    assert (Hl : a * t + b < 1). { assert (a * t < a * 1) by (apply Rmult_lt_compat_l; lra). lra. }
    assert (H0 : 0 <= a * t) by (apply Rmult_le_pos; lra).
    assert (D1 := dspline_right_derivative p m L Q k t CL ltac:(lia) Ht).
    assert (D2 := dspline_right_derivative p n V P k (a * t + b) CV ltac:(lia) ltac:(lra)).
    apply (reparam_right a b (a ^ k) (dspline V n p P k) Ha Hb Hab t) in D2; [|lra].
    replace (a ^ S k) with (a ^ k * a) by (simpl; ring).
    eapply right_derivative_unique; [exact Ht| |exact D1|exact D2]. intros v Hv. apply IH. lra.
Qed.

Theorem reparam_dspline_end p n m V L (P Q : nat -> R) a b : fclamped p n V -> fclamped p m L -> 0 < a -> 0 <= b -> a + b <= 1 ->
  (forall t, 0 <= t <= 1 -> spline L m p Q t = spline V n p P (a * t + b)) ->
  forall k, (k <= p)%nat -> (a + b < 1 -> mult_le V (a + b) (p - k)) ->
  dspline L m p Q k 1 = a ^ k * dspline V n p P k (a + b).
Proof.
  intros CV CL Ha Hb Hab E k. induction k as [|k IH]; intros Hk Hm.
  - rewrite !dspline_0. simpl. rewrite E by lra. rewrite Rmult_1_r. ring.
  - assert (IH' : dspline L m p Q k 1 = a ^ k * dspline V n p P k (a + b)).
    { apply IH; [lia|]. intros H. assert (Hm' := Hm H). intros x y Hx Hy. specialize (Hm' x y Hx Hy). lia. }
    assert (D1 := dspline_derivative p m L Q k 1 CL ltac:(lia) ltac:(lra) ltac:(lra)).
    assert (D2 : derivative_on01 (dspline V n p P k) (a * 1 + b) (dspline V n p P (S k) (a + b))).
    { rewrite Rmult_1_r. apply (dspline_derivative p n V P k (a + b) CV ltac:(lia) ltac:(lra)).
      intros H. replace (p - k - 1)%nat with (p - S k)%nat by lia. apply Hm. lra. }
    apply (reparam_both a b (a ^ k) (dspline V n p P k) Ha Hb Hab 1) in D2; [|lra].
    replace (a ^ S k) with (a ^ k * a) by (simpl; ring).
    eapply end_derivative_unique; [|exact D1|exact D2]. intros v Hv. destruct (Req_dec v 1) as [->|Hv1].
    + rewrite Rmult_1_r. exact IH'.
    + apply (reparam_dspline p n m V L P Q a b CV CL Ha Hb Hab); [intros; apply E; lra|lia|lra].
Qed.

(** two splines of the same degree that agree on [[0, 1]] have the same derivatives *)
Theorem same_dspline p n m V L (P Q : nat -> R) : fclamped p n V -> fclamped p m L ->
  (forall t, 0 <= t <= 1 -> spline L m p Q t = spline V n p P t) ->
  forall k, (k <= p)%nat -> forall t, 0 <= t <= 1 -> dspline L m p Q k t = dspline V n p P k t.
Proof.
  intros CV CL E k Hk t Ht.
  assert (E' : forall t, 0 <= t <= 1 -> spline L m p Q t = spline V n p P (1 * t + 0)).
  { intros s Hs. rewrite E by exact Hs. f_equal. ring. }
  destruct (Req_dec t 1) as [->|Hne].
  - assert (T := reparam_dspline_end p n m V L P Q 1 0 CV CL ltac:(lra) ltac:(lra) ltac:(lra) E' k Hk ltac:(lra)).
    rewrite T, pow1. replace (1 + 0) with 1 by ring. ring.
  - assert (T := reparam_dspline p n m V L P Q 1 0 CV CL ltac:(lra) ltac:(lra) ltac:(lra) ltac:(intros; apply E'; lra) k Hk t ltac:(lra)).
    rewrite T, pow1. replace (1 * t + 0) with t by ring. ring.
Qed.
