(** * Fits and interpolation follow affine maps and reversal of the data *)

From Coq Require Import ZArith Reals List Bool Arith Lia Lra.
From Verif Require Import Num Vec MKnots MPoints MCurve MFit MGenerate RNum Lists Struct Spec BMath BMath2 BMath3 SW Api Bridge Facts1 Facts3 Gen1 Fit2 Fit3 Fit5 Fit6 Fit7.
Import ListNotations.
Local Open Scope R_scope.

(** ** linearity *)
Lemma fdiff_lin k (x y : nat -> R) s : forall i, fdiff k (fun j => x j + s * y j) i = fdiff k x i + s * fdiff k y i.
Proof. induction k as [|k IH]; intros i; cbn [fdiff]; [reflexivity|]. rewrite !IH. ring. Qed.

Lemma fdiff_const k (b : R) i : (1 <= k)%nat -> fdiff k (fun _ => b) i = 0.
Proof.
  destruct k as [|k]; [lia|]. intros _. cbn [fdiff]. enough (forall i j, fdiff k (fun _ => b) i = fdiff k (fun _ => b) j) as E by (rewrite (E (S i) i); ring).
  clear. induction k as [|k IH]; intros i j; cbn [fdiff]; [reflexivity|]. rewrite (IH (S i) (S j)), (IH i j). reflexivity.
Qed.

Lemma fdiff_comb k (A : nat -> R) (x : nat -> nat -> R) b D i : (1 <= k)%nat ->
  fdiff k (fun j => rsum (fun d => A d * x d j) D + b) i = rsum (fun d => A d * fdiff k (x d) i) D.
Proof.
  intros Hk. induction D as [|D IH]; cbn [rsum].
  - rewrite (fdiff_ext k _ (fun _ => b)) by (intros; ring). apply fdiff_const. exact Hk.
  - rewrite (fdiff_ext k _ (fun j => (rsum (fun d => A d * x d j) D + b) + A D * x D j)) by (intros; ring).
    rewrite fdiff_lin, IH. reflexivity.
Qed.

Lemma spline_lin U n p (x y : nat -> R) s u : spline U n p (fun i => x i + s * y i) u = spline U n p x u + s * spline U n p y u.
Proof. unfold spline. rewrite <- rsum_scal, <- rsum_plus. apply rsum_ext. intros. ring. Qed.

Lemma spline_one p n U (C : fclamped p n U) b u : 0 <= u <= 1 -> spline U n p (fun _ => b) u = b.
Proof.
  intros Hu. destruct (span_ex p n U C u Hu) as [j [J1 J2]]. rewrite (spline_piece p n U C _ u j ltac:(lia) J2). unfold pfun. rewrite rsum_scal_r.
  rewrite piece_sum; [ring|apply (fc_mono _ _ _ C)|apply J2|lia|lia].
Qed.

Lemma spline_comb p n U (C : fclamped p n U) (A : nat -> R) (x : nat -> nat -> R) b D u : 0 <= u <= 1 ->
  spline U n p (fun i => rsum (fun d => A d * x d i) D + b) u = rsum (fun d => A d * spline U n p (x d) u) D + b.
Proof.
  intros Hu. induction D as [|D IH]; cbn [rsum].
  - rewrite (spline_ext U n p _ (fun _ => b)) by (intros; ring). rewrite spline_one by assumption. ring.
  - rewrite (spline_ext U n p _ (fun i => (rsum (fun d => A d * x d i) D + b) + A D * x D i)) by (intros; ring).
    rewrite spline_lin, IH. ring.
Qed.

(** ** the cost of one coordinate *)
Section Cost.
  Variables (p n m : nat) (U : list R) (t : nat -> R) (pen : option (Penalization RNum)) (count off : nat).

  Definition lam : R := match pen with None => 0 | Some q => lambda q end.
  Definition kap : nat := match pen with None => 1 | Some q => kappa q end.
  Definition Sv (x : nat -> R) (g : nat) : R := spline (kfun U) n p x (t g).
  Definition Dv (x : nat -> R) (r : nat) : R := fdiff kap (fun i => x (off + i)%nat) r.
  Definition cost (x q : nat -> R) : R := rsum (fun g => (Sv x g - q g) ^ 2) (S m) + lam * rsum (fun r => Dv x r ^ 2) (count - kap).
  Definition form (x q y : nat -> R) : R := rsum (fun g => (Sv x g - q g) * Sv y g) (S m) + lam * rsum (fun r => Dv x r * Dv y r) (count - kap).
  Definition quad (y : nat -> R) : R := rsum (fun g => Sv y g ^ 2) (S m) + lam * rsum (fun r => Dv y r ^ 2) (count - kap).

  Lemma Sv_lin x y s g : Sv (fun i => x i + s * y i) g = Sv x g + s * Sv y g.
  Proof. apply spline_lin. Qed.
  Lemma Dv_lin x y s r : Dv (fun i => x i + s * y i) r = Dv x r + s * Dv y r.
  Proof. unfold Dv. rewrite (fdiff_lin kap (fun i => x (off + i)%nat) (fun i => y (off + i)%nat)). reflexivity. Qed.

  Lemma cost_expand x q y s : cost (fun i => x i + s * y i) q = cost x q + 2 * s * form x q y + s ^ 2 * quad y.
  Proof.
    unfold cost, form, quad.
    rewrite (rsum_ext (fun g => (Sv (fun i => x i + s * y i) g - q g) ^ 2) (fun g => (Sv x g - q g) ^ 2 + (2 * s * ((Sv x g - q g) * Sv y g) + s ^ 2 * Sv y g ^ 2))) by (intros g _; rewrite Sv_lin; ring).
    rewrite (rsum_ext (fun r => Dv (fun i => x i + s * y i) r ^ 2) (fun r => Dv x r ^ 2 + (2 * s * (Dv x r * Dv y r) + s ^ 2 * Dv y r ^ 2))) by (intros r _; rewrite Dv_lin; ring).
    rewrite !rsum_plus, !rsum_scal. ring.
  Qed.

  Lemma quad_nonneg y : 0 <= lam -> 0 <= quad y.
  Proof.
    intros L. unfold quad. assert (0 <= rsum (fun g => Sv y g ^ 2) (S m)) by (apply rsum_nonneg; intros; apply pow2_ge_0).
    assert (0 <= rsum (fun r => Dv y r ^ 2) (count - kap)) by (apply rsum_nonneg; intros; apply pow2_ge_0). nra.
  Qed.

  Lemma cost_ext x x' q : (off + count <= S n)%nat -> (forall i, (i <= n)%nat -> x i = x' i) -> cost x q = cost x' q.
  Proof.
    intros Hn E. unfold cost. f_equal.
    - apply rsum_ext. intros g _. unfold Sv. rewrite (spline_ext _ n p x x') by exact E. reflexivity.
    - f_equal. apply rsum_ext. intros r Hr. unfold Dv. rewrite (fdiff_ext kap (fun i => x (off + i)%nat) (fun i => x' (off + i)%nat)); [reflexivity|].
      intros j Hj. apply E. lia.
  Qed.

  Lemma stationary x q y : 0 <= lam -> (forall s, cost x q <= cost (fun i => x i + s * y i) q) -> form x q y = 0.
  Proof.
    intros L H. assert (A := quad_nonneg y L). set (a := quad y) in *. set (b := form x q y) in *.
    assert (T := H (- b / (a + 1))). rewrite cost_expand in T. fold a b in T.
    assert (G : 2 * (- b / (a + 1)) * b + (- b / (a + 1)) ^ 2 * a = - (b * b) * ((a + 2) / ((a + 1) * (a + 1)))) by (field; lra).
    assert (P : 0 < (a + 2) / ((a + 1) * (a + 1))) by (apply Rdiv_lt_0_compat; nra).
    assert (B0 : 0 <= - (b * b) * ((a + 2) / ((a + 1) * (a + 1)))) by lra.
    destruct (Req_dec b 0) as [E|E]; [exact E|]. exfalso. assert (0 < b * b) by nra. nra.
  Qed.

  Lemma minimal x q x' : 0 <= lam -> form x q (fun i => x' i - x i) = 0 -> (off + count <= S n)%nat -> cost x q <= cost x' q.
  Proof.
    intros L F Hn. assert (A := quad_nonneg (fun i => x' i - x i) L).
    rewrite (cost_ext x' (fun i => x i + 1 * (x' i - x i)) q Hn) by (intros; ring). rewrite (cost_expand x q (fun i => x' i - x i) 1), F. lra.
  Qed.

  (** the form is linear in curve and data together *)
  Lemma form_comb (CU : fclamped p n (kfun U)) (A : nat -> R) (x q : nat -> nat -> R) b D y : (forall g, (g <= m)%nat -> 0 <= t g <= 1) -> (1 <= kap)%nat ->
    form (fun i => rsum (fun d => A d * x d i) D + b) (fun g => rsum (fun d => A d * q d g) D + b) y = rsum (fun d => A d * form (x d) (q d) y) D.
  Proof.
    intros Ht Hk. unfold form.
    rewrite (rsum_ext (fun g => (Sv (fun i => rsum (fun d => A d * x d i) D + b) g - (rsum (fun d => A d * q d g) D + b)) * Sv y g) (fun g => rsum (fun d => A d * ((Sv (x d) g - q d g) * Sv y g)) D)).
    - rewrite (rsum_ext (fun r => Dv (fun i => rsum (fun d => A d * x d i) D + b) r * Dv y r) (fun r => rsum (fun d => A d * (Dv (x d) r * Dv y r)) D)).
      + rewrite (rsum_swap (fun g d => A d * ((Sv (x d) g - q d g) * Sv y g))), (rsum_swap (fun r d => A d * (Dv (x d) r * Dv y r))).
        rewrite <- rsum_scal, <- rsum_plus. apply rsum_ext. intros d _. rewrite !rsum_scal. ring.
      + intros r _. unfold Dv at 1. rewrite (fdiff_comb kap A (fun d i => x d (off + i)%nat) b D r Hk). rewrite <- rsum_scal_r. apply rsum_ext. intros d _. unfold Dv. ring.
    - intros g Hg. unfold Sv at 1. rewrite spline_comb by (try exact CU; apply Ht; lia).
      replace (rsum (fun d => A d * spline (kfun U) n p (x d) (t g)) D + b - (rsum (fun d => A d * q d g) D + b)) with (rsum (fun d => A d * (Sv (x d) g - q d g)) D).
      + rewrite <- rsum_scal_r. apply rsum_ext. intros; ring.
      + unfold Sv. rewrite (rsum_ext _ (fun d => A d * spline (kfun U) n p (x d) (t g) - A d * q d g)) by (intros; ring). rewrite rsum_minus. ring.
  Qed.

  (** the cost of a fit is the sum over the coordinates *)
  Lemma total_cost dim (Q C : Mat RNum) : fit_error p n dim m U t Q C + penalty pen count off dim C = rsum (fun d => cost (fun i => ent C i d) (fun g => ent Q g d)) dim.
  Proof.
    unfold cost. rewrite rsum_plus. f_equal.
    - unfold fit_error. rewrite rsum_swap. reflexivity.
    - rewrite rsum_scal. unfold penalty, lam, Dv, kap, roughness. destruct pen as [q|]; [|ring]. rewrite rsum_swap. reflexivity.
  Qed.

  (** [adm y]: directions in which the control points may move *)
  Variable adm : (nat -> R) -> Prop.

  Lemma min_stationary dim (Q C : Mat RNum) : 0 <= lam -> (off + count <= S n)%nat ->
    (forall C', (forall d, (d < dim)%nat -> exists y s, (y = (fun _ => 0) \/ adm y) /\ forall i, (i <= n)%nat -> ent C' i d = ent C i d + s * y i) -> shape dim (S n) C' ->
      fit_error p n dim m U t Q C + penalty pen count off dim C <= fit_error p n dim m U t Q C' + penalty pen count off dim C') ->
    forall d y, (d < dim)%nat -> adm y -> form (fun i => ent C i d) (fun g => ent Q g d) y = 0.
  Proof.
    intros L Hn Min d y Hd Hy. apply stationary; [exact L|]. intros s.
    set (C' := mat_of dim (S n) (fun e i => if (e =? d)%nat then ent C i d + s * y i else ent C i e)).
    assert (EC : forall i e, (i <= n)%nat -> (e < dim)%nat -> ent C' i e = if (e =? d)%nat then ent C i d + s * y i else ent C i e).
    { intros i e Hi He. unfold C'. rewrite ent_mat_of by lia. reflexivity. }
    assert (M := Min C'). rewrite !total_cost in M.
    assert (M' : rsum (fun d0 => cost (fun i => ent C i d0) (fun g => ent Q g d0)) dim <= rsum (fun d0 => cost (fun i => ent C' i d0) (fun g => ent Q g d0)) dim).
    { apply M; [|apply mat_of_shape]. intros e He. destruct (Nat.eq_dec e d) as [->|Ne].
      - exists y, s. split; [right; exact Hy|]. intros i Hi. rewrite EC by assumption. rewrite Nat.eqb_refl. reflexivity.
      - exists (fun _ => 0), 0. split; [left; reflexivity|]. intros i Hi. rewrite EC by assumption. apply Nat.eqb_neq in Ne. rewrite Ne. rewrite Rmult_0_l, Rplus_0_r. reflexivity. }
    clear M. rewrite (rsum_ext (fun d0 => cost (fun i => ent C' i d0) (fun g => ent Q g d0))
      (fun e => cost (fun i => ent C i e) (fun g => ent Q g e) + (if (e =? d)%nat then cost (fun i => ent C i d + s * y i) (fun g => ent Q g d) - cost (fun i => ent C i d) (fun g => ent Q g d) else 0))) in M'.
    - rewrite rsum_plus in M'. rewrite (rsum_single (fun e => if (e =? d)%nat then _ else 0) dim d Hd) in M'.
      + rewrite Nat.eqb_refl in M'. lra.
      + intros e _ Ne. apply Nat.eqb_neq in Ne. rewrite Ne. reflexivity.
    - intros e He. destruct (Nat.eqb_spec e d) as [->|Ne].
      + rewrite (cost_ext (fun i => ent C' i d) (fun i => ent C i d + s * y i) _ Hn).
        * ring.
        * intros i Hi. rewrite EC by assumption. rewrite Nat.eqb_refl. reflexivity.
      + rewrite (cost_ext (fun i => ent C' i e) (fun i => ent C i e) _ Hn).
        * ring.
        * intros i Hi. rewrite EC by assumption. apply Nat.eqb_neq in Ne. rewrite Ne. reflexivity.
  Qed.

  Lemma stationary_min dim (Q C C' : Mat RNum) : 0 <= lam -> (off + count <= S n)%nat ->
    (forall d y, (d < dim)%nat -> adm y -> form (fun i => ent C i d) (fun g => ent Q g d) y = 0) ->
    (forall d, (d < dim)%nat -> adm (fun i => ent C' i d - ent C i d)) ->
    fit_error p n dim m U t Q C + penalty pen count off dim C <= fit_error p n dim m U t Q C' + penalty pen count off dim C'.
  Proof.
    intros L Hn St Hy. rewrite !total_cost. apply rsum_le. intros d Hd. apply minimal; [exact L| |exact Hn]. apply St; [exact Hd|]. apply Hy. exact Hd.
  Qed.
End Cost.

Definition affine_image (dim dim' m : nat) (A : nat -> nat -> R) (b : nat -> R) (Q Q' : Mat RNum) : Prop :=
  forall g e, (g <= m)%nat -> (e < dim')%nat -> ent Q' g e = rsum (fun d => A e d * ent Q g d) dim + b e.

Definition image (dim dim' n : nat) (A : nat -> nat -> R) (b : nat -> R) (C : Mat RNum) : Mat RNum :=
  mat_of dim' (S n) (fun e i => rsum (fun d => A e d * ent C i d) dim + b e).

Lemma image_image dim dim' n A b C : affine_image dim dim' n A b C (image dim dim' n A b C).
Proof. intros g e Hg He. unfold image. rewrite ent_mat_of by lia. reflexivity. Qed.

Lemma pen_lam (pen : option (Penalization RNum)) : (forall q, pen = Some q -> 0 <= lambda q) -> 0 <= lam pen.
Proof. intros H. destruct pen as [q|]; cbn; [apply H; reflexivity|lra]. Qed.
Lemma pen_kap (pen : option (Penalization RNum)) : (forall q, pen = Some q -> (1 <= kappa q)%nat) -> (1 <= kap pen)%nat.
Proof. intros H. destruct pen as [q|]; cbn; [apply H; reflexivity|lia]. Qed.

Lemma form_ext p n m U t pen count off x x' q q' y : (off + count <= S n)%nat -> (forall i, (i <= n)%nat -> x i = x' i) -> (forall g, (g <= m)%nat -> q g = q' g) ->
  form p n m U t pen count off x q y = form p n m U t pen count off x' q' y.
Proof.
  intros Hn Ex Eq. unfold form. f_equal.
  - apply rsum_ext. intros g Hg. rewrite Eq by lia. unfold Sv. rewrite (spline_ext _ n p x x') by exact Ex. reflexivity.
  - f_equal. apply rsum_ext. intros r Hr. unfold Dv. rewrite (fdiff_ext (kap pen) (fun i => x (off + i)%nat) (fun i => x' (off + i)%nat)); [reflexivity|].
    intros j Hj. apply Ex. lia.
Qed.

(** minimality of the image, given minimality of the original *)
Lemma image_min p n m U pen count off dim dim' A b (Q Q' C C' : Mat RNum) (adm : (nat -> R) -> Prop) : clamped p n U -> (1 <= m)%nat ->
  0 <= lam pen -> (1 <= kap pen)%nat -> (off + count <= S n)%nat -> affine_image dim dim' m A b Q Q' ->
  (forall d y, (d < dim)%nat -> adm y -> form p n m U (fun g => INR g / INR m) pen count off (fun i => ent C i d) (fun g => ent Q g d) y = 0) ->
  (forall d, (d < dim')%nat -> adm (fun i => ent C' i d - ent (image dim dim' n A b C) i d)) ->
  fit_error p n dim' m U (fun g => INR g / INR m) Q' (image dim dim' n A b C) + penalty pen count off dim' (image dim dim' n A b C)
  <= fit_error p n dim' m U (fun g => INR g / INR m) Q' C' + penalty pen count off dim' C'.
Proof.
  intros CL Hm L Hk Hn AI St Hadm. apply (stationary_min p n m U _ pen count off adm); [exact L|exact Hn| |exact Hadm].
  intros e y He Hy.
  rewrite (form_ext p n m U _ pen count off _ (fun i => rsum (fun d => A e d * ent C i d) dim + b e) _ (fun g => rsum (fun d => A e d * ent Q g d) dim + b e) y Hn).
  - rewrite (form_comb p n m U _ pen count off (kfun_clamped _ _ _ CL) (A e) (fun d i => ent C i d) (fun d g => ent Q g d) (b e) dim y); [|intros g Hg; apply frac01; lia|exact Hk].
    apply rsum_zero. intros d Hd. rewrite St by assumption. ring.
  - intros i Hi. apply image_image; assumption.
  - intros g Hg. apply AI; assumption.
Qed.

Definition follows (dim dim' : nat) (A : nat -> nat -> R) (b : nat -> R) (c c' : Curve RNum) : Prop :=
  forall u, 0 <= u <= 1 -> exists x, evaluate c u = Val (Ok x) /\ length x = dim /\ returns (evaluate c' u) dim' (fun e => rsum (fun d => A e d * nth d x 0) dim + b e).

Lemma image_follows p n dim dim' U A b C C' c c' : clamped_curve p n dim U C c -> clamped_curve p n dim' U C' c' ->
  (forall i e, (i <= n)%nat -> (e < dim')%nat -> ent (image dim dim' n A b C) i e = ent C' i e) -> follows dim dim' A b c c'.
Proof.
  intros H H' E u Hu. apply (affine_fact p n dim dim' U C C' c c' A b u H H'); [|exact Hu].
  intros i e Hi He. rewrite <- E by assumption. apply image_image; assumption.
Qed.

Lemma loose_affine svd p n m dim dim' (Q Q' : Mat RNum) A b pen : good_solver svd -> shape dim (S m) Q -> shape dim' (S m) Q' -> (1 <= p <= n)%nat -> (n <= m)%nat ->
  (forall q, pen = Some q -> 0 <= lambda q /\ (1 <= kappa q <= n - 1)%nat) -> affine_image dim dim' m A b Q Q' ->
  exists c c', generate svd (LeastSquaresFit p Q n LooseEnds pen) = Val (Ok c) /\ generate svd (LeastSquaresFit p Q' n LooseEnds pen) = Val (Ok c') /\ follows dim dim' A b c c'.
Proof.
  intros GS SQ SQ' Hp Hm HP AI.
  destruct (loose_fit_fact svd p n m dim Q pen GS SQ Hp Hm HP) as [U [C [c [e [E [HC [UK [DE UN]]]]]]]].
  destruct (loose_fit_fact svd p n m dim' Q' pen GS SQ' Hp Hm HP) as [U' [C' [c' [e' [E' [HC' [UK' [DE' UN']]]]]]]].
  assert (U = U') as <- by (apply (uniform_list p n); [apply HC|apply HC'|exact UK|exact UK']).
  exists c, c'. split; [exact E|]. split; [exact E'|]. apply (image_follows p n dim dim' U A b C C' c c' HC HC').
  assert (L := pen_lam pen ltac:(intros q Eq; apply (HP q Eq))). assert (Hk := pen_kap pen ltac:(intros q Eq; apply (HP q Eq))).
  assert (Hm1 : (1 <= m)%nat) by lia.
  assert (St : forall d y, (d < dim)%nat -> True -> form p n m U (fun g => INR g / INR m) pen (S n) 0 (fun i => ent C i d) (fun g => ent Q g d) y = 0).
  { intros d y Hd _. apply (min_stationary p n m U _ pen (S n) 0 (fun _ => True) dim Q C L ltac:(lia)); [|exact Hd|exact I].
    intros C2 _ S2. destruct (new_curve p n dim U C2 (proj1 HC) S2) as [c2 H2].
    destruct (UN C2 c2 _ H2 (proj2 (data_error_val p n dim m U C2 c2 Q _ H2 Hm1) eq_refl)) as [M _].
    rewrite (proj1 (data_error_val p n dim m U C c Q _ HC Hm1) DE) in M. exact M. }
  destruct (new_curve p n dim' U (image dim dim' n A b C) (proj1 HC) (mat_of_shape _ _ _)) as [cD HD].
  destruct (UN' _ cD _ HD (proj2 (data_error_val p n dim' m U _ cD Q' _ HD Hm1) eq_refl)) as [_ G]. apply G.
  rewrite (proj1 (data_error_val p n dim' m U C' c' Q' _ HC' Hm1) DE').
  apply (image_min p n m U pen (S n) 0 dim dim' A b Q Q' C C' (fun _ => True)); try assumption; [apply HC|lia|intros; exact I].
Qed.

Lemma fixed_affine svd p n m dim dim' (Q Q' : Mat RNum) A b pen : good_solver svd -> shape dim (S m) Q -> shape dim' (S m) Q' -> (1 <= p <= n)%nat -> (2 <= n <= m)%nat ->
  (forall q, pen = Some q -> 0 <= lambda q /\ (1 <= kappa q <= n - 2)%nat) -> affine_image dim dim' m A b Q Q' ->
  exists c c', generate svd (LeastSquaresFit p Q n FixedEnds pen) = Val (Ok c) /\ generate svd (LeastSquaresFit p Q' n FixedEnds pen) = Val (Ok c') /\ follows dim dim' A b c c'.
Proof.
  intros GS SQ SQ' Hp Hm HP AI.
  destruct (fixed_fit_fact svd p n m dim Q pen GS SQ Hp Hm HP) as [U [C [c [e [E [HC [UK [DE [E0 [E1 UN]]]]]]]]]].
  destruct (fixed_fit_fact svd p n m dim' Q' pen GS SQ' Hp Hm HP) as [U' [C' [c' [e' [E' [HC' [UK' [DE' [E0' [E1' UN']]]]]]]]]].
  assert (U = U') as <- by (apply (uniform_list p n); [apply HC|apply HC'|exact UK|exact UK']).
  exists c, c'. split; [exact E|]. split; [exact E'|]. apply (image_follows p n dim dim' U A b C C' c c' HC HC').
  assert (L := pen_lam pen ltac:(intros q Eq; apply (HP q Eq))). assert (Hk := pen_kap pen ltac:(intros q Eq; apply (HP q Eq))).
  assert (Hm1 : (1 <= m)%nat) by lia.
  set (adm := fun y : nat -> R => y 0%nat = 0 /\ y n = 0).
  destruct (end_values p n dim U C c (fun d => ent Q 0 d) (fun d => ent Q m d) HC) as [EV0 EV1].
  assert (A0 := proj1 EV0 E0). assert (A1 := proj1 EV1 E1).
  destruct (end_values p n dim' U C' c' (fun d => ent Q' 0 d) (fun d => ent Q' m d) HC') as [EV0' EV1'].
  assert (B0 := proj1 EV0' E0'). assert (B1 := proj1 EV1' E1').
  assert (St : forall d y, (d < dim)%nat -> adm y -> form p n m U (fun g => INR g / INR m) pen (n - 1) 1 (fun i => ent C i d) (fun g => ent Q g d) y = 0).
  { intros d y Hd Hy. apply (min_stationary p n m U _ pen (n - 1) 1 adm dim Q C L ltac:(lia)); [|exact Hd|exact Hy].
    intros C2 H2' S2. destruct (new_curve p n dim U C2 (proj1 HC) S2) as [c2 H2].
    assert (Ends : forall d i, (d < dim)%nat -> i = 0%nat \/ i = n -> ent C2 i d = ent C i d).
    { intros d' i Hd' Hi. destruct (H2' d' Hd') as [y' [s' [Hy' Ey']]]. rewrite Ey' by lia.
      assert (Z : y' i = 0) by (destruct Hy' as [->|[Y0 Yn]]; [reflexivity|destruct Hi as [->| ->]; assumption]). rewrite Z, Rmult_0_r, Rplus_0_r. reflexivity. }
    destruct (UN C2 c2 _ H2 (proj2 (data_error_val p n dim m U C2 c2 Q _ H2 Hm1) eq_refl)) as [M _].
    - apply (proj1 (end_values p n dim U C2 c2 (fun d => ent Q 0 d) (fun d => ent Q m d) H2)). intros d' Hd'. rewrite Ends by auto. apply A0. exact Hd'.
    - apply (proj2 (end_values p n dim U C2 c2 (fun d => ent Q 0 d) (fun d => ent Q m d) H2)). intros d' Hd'. rewrite Ends by auto. apply A1. exact Hd'.
    - rewrite (proj1 (data_error_val p n dim m U C c Q _ HC Hm1) DE) in M. exact M. }
  destruct (new_curve p n dim' U (image dim dim' n A b C) (proj1 HC) (mat_of_shape _ _ _)) as [cD HD].
  assert (D0 : forall e, (e < dim')%nat -> ent (image dim dim' n A b C) 0 e = ent Q' 0 e).
  { intros e2 He. rewrite image_image by lia. rewrite AI by lia. f_equal. apply rsum_ext. intros d Hd. rewrite A0 by exact Hd. reflexivity. }
  assert (D1 : forall e, (e < dim')%nat -> ent (image dim dim' n A b C) n e = ent Q' m e).
  { intros e2 He. rewrite image_image by lia. rewrite AI by lia. f_equal. apply rsum_ext. intros d Hd. rewrite A1 by exact Hd. reflexivity. }
  destruct (UN' _ cD _ HD (proj2 (data_error_val p n dim' m U _ cD Q' _ HD Hm1) eq_refl)) as [_ G].
  - apply (proj1 (end_values p n dim' U _ cD (fun d => ent Q' 0 d) (fun d => ent Q' m d) HD)). exact D0.
  - apply (proj2 (end_values p n dim' U _ cD (fun d => ent Q' 0 d) (fun d => ent Q' m d) HD)). exact D1.
  - apply G. rewrite (proj1 (data_error_val p n dim' m U C' c' Q' _ HC' Hm1) DE').
    apply (image_min p n m U pen (n - 1) 1 dim dim' A b Q Q' C C' adm); try assumption; [apply HC|lia|].
    intros d Hd. split; [rewrite D0, B0 by exact Hd|rewrite D1, B1 by exact Hd]; apply Rminus_diag_eq; reflexivity.
Qed.

Lemma interpolation_affine svd p m dim dim' (Q Q' : Mat RNum) A b : good_solver svd -> (1 <= p <= m)%nat -> shape dim (S m) Q -> shape dim' (S m) Q' -> affine_image dim dim' m A b Q Q' ->
  exists c c', generate svd (Interpolation p Q) = Val (Ok c) /\ generate svd (Interpolation p Q') = Val (Ok c') /\ follows dim dim' A b c c'.
Proof.
  intros GS Hp SQ SQ' AI.
  destruct (interpolation_fact svd p m dim Q GS Hp SQ) as [U [C [c [E [HC [UK [HD _]]]]]]].
  destruct (new_curve p m dim' U (image dim dim' m A b C) (proj1 HC) (mat_of_shape _ _ _)) as [c' HC'].
  assert (F : follows dim dim' A b c c') by (apply (image_follows p m dim dim' U A b C _ c c' HC HC'); reflexivity).
  exists c, c'. split; [exact E|]. split; [|exact F].
  apply (interpolation_reproduces svd p m dim' U _ c' Q' GS ltac:(lia) HC' UK SQ'). intros g Hg.
  destruct (F (INR g / INR m) ltac:(apply frac01; lia)) as [x [Ex [Lx Rx]]]. destruct (HD g Hg) as [y [Ey [_ Vy]]]. rewrite Ex in Ey. injection Ey as <-.
  eapply returns_ext; [exact Rx|]. intros e He. cbv beta. rewrite AI by assumption. f_equal. apply rsum_ext. intros d Hd. rewrite Vy by exact Hd. reflexivity.
Qed.
