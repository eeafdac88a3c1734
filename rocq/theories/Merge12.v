(** * Merging: uniqueness, curves that fit already, affine maps, reversal *)

From Coq Require Import ZArith Reals List Bool Arith Lia Lra Psatz.
From Verif Require Import Num Vec MKnots MPoints MCurve MFit MGenerate MMerge RNum Hoare Lists Struct Spec BMath BMath2 BMath3 Api Bridge Facts1 Facts3 Facts6 Facts8 Facts9 LinAlg Fit2 Fit3 Fit6 Fit7 Fit8 Merge3 Merge10.
Import ListNotations.
Local Open Scope R_scope.

Lemma dpoints_comb U p (x y : nat -> R) s k : forall i, dpoints U p (fun j => x j + s * y j) k i = dpoints U p x k i + s * dpoints U p y k i.
Proof.
  induction k as [|k IH]; intros i; cbn [dpoints]; [reflexivity|]. rewrite !IH. rewrite <- !ratio_mult. unfold ratio. destruct Req_EM_T as [Z|Z]; [ring|]. field. exact Z.
Qed.

Lemma dspline_comb U n p (x y : nat -> R) s k u : dspline U n p (fun j => x j + s * y j) k u = dspline U n p x k u + s * dspline U n p y k u.
Proof. unfold dspline. rewrite <- rsum_scal, <- rsum_plus. apply rsum_ext. intros i _. rewrite dpoints_comb. ring. Qed.

Lemma dspline_ext U n p (x y : nat -> R) k u : (k <= n)%nat -> (forall i, (i <= n)%nat -> x i = y i) -> dspline U n p x k u = dspline U n p y k u.
Proof. intros K H. unfold dspline. apply rsum_ext. intros i Hi. rewrite (dpoints_ext U p x y) by (intros; apply H; lia). reflexivity. Qed.

Lemma dpoints_const U p b k : forall i, (1 <= k)%nat -> dpoints U p (fun _ => b) k i = 0.
Proof.
  induction k as [|k IH]; intros i Hk; [lia|]. cbn [dpoints]. destruct k as [|k].
  - cbn [dpoints]. replace (b - b) with 0 by ring. rewrite ratio_mul. ring.
  - rewrite !IH by lia. replace (0 - 0) with 0 by ring. rewrite ratio_mul. ring.
Qed.

Lemma dspline_const p n U b k u : fclamped p n U -> 0 <= u <= 1 -> dspline U n p (fun _ => b) k u = if (k =? 0)%nat then b else 0.
Proof.
  intros C Hu. destruct (Nat.eqb_spec k 0) as [->|K].
  - rewrite dspline_0. apply spline_one; assumption.
  - unfold dspline. apply rsum_zero. intros i _. rewrite dpoints_const by lia. ring.
Qed.

Lemma returns_eq {E} (r r' : M (result (list R) E)) dim f : returns r dim f -> returns r' dim f -> r = r'.
Proof.
  intros [x [X1 [X2 X3]]] [y [Y1 [Y2 Y3]]]. rewrite X1, Y1. do 2 f_equal. apply (list_ext 0); [congruence|]. intros d Hd. rewrite X3, Y3 by lia. reflexivity.
Qed.

Lemma agree_eq dim a u b v : agree dim 0 a u b v -> evaluate a u = evaluate b v.
Proof. intros [f [A B]]. unfold evaluate. apply (returns_eq _ _ dim f A B). Qed.

(** ** one coordinate *)
Definition fit1 (p n : nat) (V W : list R) (pa pb : list R) (x y x' y' : nat -> R) : Prop :=
  (forall i, (i < n + 1 - p)%nat -> x' i = x i) /\ (forall i, (p <= i <= n)%nat -> y' i = y i) /\
  (forall k, (k < p)%nat -> dspline (kfun V) n p x' k 1 = dspline (kfun W) n p y' k 0) /\
  (forall u, In u pa -> spline (kfun V) n p x' u = spline (kfun V) n p x u) /\
  (forall u, In u pb -> spline (kfun W) n p y' u = spline (kfun W) n p y u).

Definition zero : nat -> R := fun _ => 0.
Definition scal (n : nat) (x y x' y' dx dy : nat -> R) : R :=
  rsum (fun i => (x' i - x i) * dx i) (S n) + rsum (fun i => (y' i - y i) * dy i) (S n).

Section One.
  Variables (p n : nat) (V W : list R) (pa pb : list R).
  Hypothesis CV : clamped p n V.
  Hypothesis CW : clamped p n W.
  Hypothesis Ia : forall u, In u pa -> 0 <= u <= 1.
  Hypothesis Ib : forall u, In u pb -> 0 <= u <= 1.
  Notation fit := (fit1 p n V W pa pb).
  Notation adm := (fit1 p n V W pa pb zero zero).

  Lemma spline_zero U u : spline U n p zero u = 0.
  Proof. unfold spline. apply rsum_zero. intros. unfold zero. ring. Qed.

  Lemma fit1_add x y x' y' dx dy s : fit x y x' y' -> adm dx dy -> fit x y (fun i => x' i + s * dx i) (fun i => y' i + s * dy i).
  Proof.
    intros [A1 [A2 [A3 [A4 A5]]]] [B1 [B2 [B3 [B4 B5]]]]. split; [|split; [|split; [|split]]].
    - intros i Hi. rewrite A1, B1 by exact Hi. unfold zero. ring.
    - intros i Hi. rewrite A2, B2 by exact Hi. unfold zero. ring.
    - intros k Hk. rewrite !dspline_comb, A3, B3 by exact Hk. reflexivity.
    - intros u Hu. rewrite spline_lin, A4, B4, spline_zero by exact Hu. ring.
    - intros u Hu. rewrite spline_lin, A5, B5, spline_zero by exact Hu. ring.
  Qed.

  Lemma fit1_sub x y x' y' x'' y'' : fit x y x' y' -> fit x y x'' y'' -> adm (fun i => x'' i + -1 * x' i) (fun i => y'' i + -1 * y' i).
  Proof.
    intros [A1 [A2 [A3 [A4 A5]]]] [B1 [B2 [B3 [B4 B5]]]]. split; [|split; [|split; [|split]]].
    - intros i Hi. rewrite A1, B1 by exact Hi. unfold zero. ring.
    - intros i Hi. rewrite A2, B2 by exact Hi. unfold zero. ring.
    - intros k Hk. rewrite !dspline_comb, A3, B3 by exact Hk. reflexivity.
    - intros u Hu. rewrite spline_lin, A4, B4, spline_zero by exact Hu. ring.
    - intros u Hu. rewrite spline_lin, A5, B5, spline_zero by exact Hu. ring.
  Qed.

  Lemma fit1_ext x y x' y' x2 y2 x2' y2' : (forall i, (i <= n)%nat -> x i = x2 i /\ y i = y2 i /\ x' i = x2' i /\ y' i = y2' i) -> fit x y x' y' -> fit x2 y2 x2' y2'.
  Proof.
    intros E [A1 [A2 [A3 [A4 A5]]]]. assert (D := cl_deg _ _ _ CV). split; [|split; [|split; [|split]]].
    - intros i Hi. destruct (le_lt_dec p 0) as [P0|P0].
      + destruct (le_lt_dec i n) as [L|L]; [|lia]. destruct (E i L) as [<- [_ [<- _]]]. apply A1. exact Hi.
      + destruct (E i ltac:(lia)) as [<- [_ [<- _]]]. apply A1. exact Hi.
    - intros i Hi. destruct (E i ltac:(lia)) as [_ [<- [_ <-]]]. apply A2. exact Hi.
    - intros k Hk. rewrite <- (dspline_ext _ n p x' x2') by (try lia; intros i Hi; apply (E i Hi)). rewrite <- (dspline_ext _ n p y' y2') by (try lia; intros i Hi; apply (E i Hi)). apply A3. exact Hk.
    - intros u Hu. rewrite <- (spline_ext _ n p x' x2') by (intros i Hi; apply (E i Hi)). rewrite <- (spline_ext _ n p x x2) by (intros i Hi; apply (E i Hi)). apply A4. exact Hu.
    - intros u Hu. rewrite <- (spline_ext _ n p y' y2') by (intros i Hi; apply (E i Hi)). rewrite <- (spline_ext _ n p y y2) by (intros i Hi; apply (E i Hi)). apply A5. exact Hu.
  Qed.

  Lemma rsum_sq_zero f N : rsum (fun i => f i ^ 2) N <= 0 -> forall i, (i < N)%nat -> f i = 0.
  Proof.
    induction N as [|N IH]; intros H i Hi; [lia|]. cbn [rsum] in H.
    assert (A : 0 <= rsum (fun i => f i ^ 2) N) by (apply rsum_nonneg; intros; apply pow2_ge_0). assert (B := pow2_ge_0 (f N)).
    destruct (Nat.eq_dec i N) as [->|Ne]; [|apply IH; [lra|lia]]. nra.
  Qed.

  Lemma stationary_unique x y x' y' x'' y'' : fit x y x' y' -> fit x y x'' y'' ->
    (forall dx dy, adm dx dy -> scal n x y x' y' dx dy = 0) -> (forall dx dy, adm dx dy -> scal n x y x'' y'' dx dy = 0) ->
    forall i, (i <= n)%nat -> x' i = x'' i /\ y' i = y'' i.
  Proof.
    intros F' F'' S' S''. assert (A := fit1_sub _ _ _ _ _ _ F' F'').
    set (dx := fun i => x'' i + -1 * x' i) in *. set (dy := fun i => y'' i + -1 * y' i) in *. assert (T' := S' _ _ A). assert (T'' := S'' _ _ A). unfold scal in T', T''.
    assert (E1 : rsum (fun i => (x'' i - x i) * dx i) (S n) = rsum (fun i => (x' i - x i) * dx i) (S n) + rsum (fun i => dx i ^ 2) (S n)) by (rewrite <- rsum_plus; apply rsum_ext; intros; unfold dx; ring).
    assert (E2 : rsum (fun i => (y'' i - y i) * dy i) (S n) = rsum (fun i => (y' i - y i) * dy i) (S n) + rsum (fun i => dy i ^ 2) (S n)) by (rewrite <- rsum_plus; apply rsum_ext; intros; unfold dy; ring).
    assert (P1 : 0 <= rsum (fun i => dx i ^ 2) (S n)) by (apply rsum_nonneg; intros; apply pow2_ge_0).
    assert (P2 : 0 <= rsum (fun i => dy i ^ 2) (S n)) by (apply rsum_nonneg; intros; apply pow2_ge_0).
    intros i Hi. assert (Z1 := rsum_sq_zero dx (S n) ltac:(lra) i ltac:(lia)). assert (Z2 := rsum_sq_zero dy (S n) ltac:(lra) i ltac:(lia)). unfold dx, dy in Z1, Z2. lra.
  Qed.

  (** a coordinate of a combination of coordinates *)
  Lemma fit1_comb (A : nat -> R) (x y x' y' : nat -> nat -> R) b D : (forall d, (d < D)%nat -> fit (x d) (y d) (x' d) (y' d)) ->
    fit (fun i => rsum (fun d => A d * x d i) D + b) (fun i => rsum (fun d => A d * y d i) D + b) (fun i => rsum (fun d => A d * x' d i) D + b) (fun i => rsum (fun d => A d * y' d i) D + b).
  Proof.
    assert (FV := kfun_clamped p n V CV). assert (FW := kfun_clamped p n W CW). assert (DG := cl_deg _ _ _ CV). induction D as [|D IH]; intros H.
    - cbn [rsum]. split; [reflexivity|]. split; [reflexivity|]. split; [|split; reflexivity]. intros k Hk.
      rewrite (dspline_ext _ n p _ (fun _ => b)) by (try lia; intros; ring). rewrite (dspline_ext (kfun W) n p _ (fun _ => b)) by (try lia; intros; ring). rewrite !dspline_const by (try assumption; lra). reflexivity.
    - specialize (IH ltac:(intros; apply H; lia)). destruct IH as [A1 [A2 [A3 [A4 A5]]]]. destruct (H D ltac:(lia)) as [B1 [B2 [B3 [B4 B5]]]]. cbn [rsum].
      assert (E : forall z : nat -> nat -> R, forall i, rsum (fun d => A d * z d i) D + A D * z D i + b = rsum (fun d => A d * z d i) D + b + A D * z D i) by (intros; ring).
      split; [|split; [|split; [|split]]].
      + intros i Hi. rewrite !E, A1, B1 by exact Hi. reflexivity.
      + intros i Hi. rewrite !E, A2, B2 by exact Hi. reflexivity.
      + intros k Hk. rewrite (dspline_ext _ n p _ _ k 1 ltac:(lia) (fun i _ => E x' i)), (dspline_ext _ n p _ _ k 0 ltac:(lia) (fun i _ => E y' i)), !dspline_comb, A3, B3 by exact Hk. reflexivity.
      + intros u Hu. rewrite (spline_ext _ n p _ _ u (fun i _ => E x' i)), (spline_ext _ n p _ _ u (fun i _ => E x i)), !spline_lin, A4, B4 by exact Hu. reflexivity.
      + intros u Hu. rewrite (spline_ext _ n p _ _ u (fun i _ => E y' i)), (spline_ext _ n p _ _ u (fun i _ => E y i)), !spline_lin, A5, B5 by exact Hu. reflexivity.
  Qed.

  Lemma scal_comb (A : nat -> R) (x y x' y' : nat -> nat -> R) b D dx dy : (forall d, (d < D)%nat -> scal n (x d) (y d) (x' d) (y' d) dx dy = 0) ->
    scal n (fun i => rsum (fun d => A d * x d i) D + b) (fun i => rsum (fun d => A d * y d i) D + b) (fun i => rsum (fun d => A d * x' d i) D + b) (fun i => rsum (fun d => A d * y' d i) D + b) dx dy = 0.
  Proof.
    intros H. transitivity (rsum (fun d => A d * scal n (x d) (y d) (x' d) (y' d) dx dy) D); [|apply rsum_zero; intros d Hd; rewrite H by exact Hd; ring].
    unfold scal.
    rewrite (rsum_ext (fun d => A d * _) (fun d => rsum (fun i => A d * ((x' d i - x d i) * dx i)) (S n) + rsum (fun i => A d * ((y' d i - y d i) * dy i)) (S n))).
    - rewrite rsum_plus. f_equal; rewrite rsum_swap; apply rsum_ext; intros i Hi; [replace (rsum (fun d => A d * x' d i) D + b - (rsum (fun d => A d * x d i) D + b)) with (rsum (fun d => A d * x' d i) D + -1 * rsum (fun d => A d * x d i) D) by ring|replace (rsum (fun d => A d * y' d i) D + b - (rsum (fun d => A d * y d i) D + b)) with (rsum (fun d => A d * y' d i) D + -1 * rsum (fun d => A d * y d i) D) by ring];
      rewrite <- rsum_scal, <- rsum_plus, <- rsum_scal_r; apply rsum_ext; intros; ring.
    - intros d Hd. rewrite Rmult_plus_distr_l, !rsum_scal. reflexivity.
  Qed.
End One.

(** ** the fitted curves are determined by their coordinates *)
Section Merged.
  Variables (p n dim : nat) (V W : list R) (P Q : Mat RNum) (a b : Curve RNum) (pa pb : list R).
  Hypothesis HA : clamped_curve p n dim V P a.
  Hypothesis HB : clamped_curve p n dim W Q b.
  Hypothesis Ia : forall u, In u pa -> 0 <= u <= 1.
  Hypothesis Ib : forall u, In u pb -> 0 <= u <= 1.
  Notation fit := (fit1 p n V W pa pb).
  Notation adm := (fit1 p n V W pa pb zero zero).
  Notation co M d := (fun i => ent M i d).

  Lemma fitted_iff P' Q' a' b' : clamped_curve p n dim V P' a' -> clamped_curve p n dim W Q' b' ->
    (fitted p n dim V W P Q a b pa pb P' Q' a' b' <-> forall d, (d < dim)%nat -> fit (co P d) (co Q d) (co P' d) (co Q' d)).
  Proof.
    intros HA' HB'. split.
    - intros [_ [_ [K1 [K2 [K3 [K4 K5]]]]]] d Hd. split; [intros i Hi; apply K1; assumption|]. split; [intros i Hi; apply K2; assumption|]. split; [|split].
      + intros k Hk. apply (proj1 (agree_iff _ _ _ _ _ _ _ _ _ _ _ k 1 0 HA' HB' ltac:(lia) ltac:(lia) ltac:(lra) ltac:(lra)) (K3 k Hk) d Hd).
      + intros u Hu. rewrite <- !dspline_0. apply (proj1 (agree_iff _ _ _ _ _ _ _ _ _ _ _ 0 u u HA' HA ltac:(lia) ltac:(lia) (Ia u Hu) (Ia u Hu)) (K4 u Hu) d Hd).
      + intros u Hu. rewrite <- !dspline_0. apply (proj1 (agree_iff _ _ _ _ _ _ _ _ _ _ _ 0 u u HB' HB ltac:(lia) ltac:(lia) (Ib u Hu) (Ib u Hu)) (K5 u Hu) d Hd).
    - intros F. split; [exact HA'|]. split; [exact HB'|]. split; [intros i d Hi Hd; apply (F d Hd); exact Hi|]. split; [intros i d Hi Hd; apply (F d Hd); exact Hi|]. split; [|split].
      + intros k Hk. apply (agree_iff _ _ _ _ _ _ _ _ _ _ _ k 1 0 HA' HB'); try lia; try lra. intros d Hd. apply (F d Hd). exact Hk.
      + intros u Hu. apply (agree_iff _ _ _ _ _ _ _ _ _ _ _ 0 u u HA' HA); try lia; try (apply Ia; exact Hu). intros d Hd. rewrite !dspline_0. apply (F d Hd). exact Hu.
      + intros u Hu. apply (agree_iff _ _ _ _ _ _ _ _ _ _ _ 0 u u HB' HB); try lia; try (apply Ib; exact Hu). intros d Hd. rewrite !dspline_0. apply (F d Hd). exact Hu.
  Qed.

  Definition least (P' Q' : Mat RNum) : Prop := forall P'' Q'' a'' b'', fitted p n dim V W P Q a b pa pb P'' Q'' a'' b'' -> moved n dim P P' + moved n dim Q Q' <= moved n dim P P'' + moved n dim Q Q''.

  Lemma moved_swap X Y : moved n dim X Y = rsum (fun d => rsum (fun i => (ent Y i d - ent X i d) ^ 2) (S n)) dim.
  Proof. unfold moved. apply rsum_swap. Qed.

  Definition vary (X : Mat RNum) (d : nat) (s : R) (dx : nat -> R) : Mat RNum := mat_of dim (S n) (fun e i => if (e =? d)%nat then ent X i d + s * dx i else ent X i e).
  Lemma vary_ent X d s dx i e : (i <= n)%nat -> (e < dim)%nat -> ent (vary X d s dx) i e = if (e =? d)%nat then ent X i d + s * dx i else ent X i e.
  Proof. intros Hi He. unfold vary. rewrite ent_mat_of by lia. reflexivity. Qed.

  Lemma moved_vary X Y d s dx : (d < dim)%nat -> moved n dim X (vary Y d s dx) = moved n dim X Y + 2 * s * rsum (fun i => (ent Y i d - ent X i d) * dx i) (S n) + s ^ 2 * rsum (fun i => dx i ^ 2) (S n).
  Proof.
    intros Hd. rewrite !moved_swap.
    rewrite (rsum_ext (fun e => rsum (fun i => (ent (vary Y d s dx) i e - ent X i e) ^ 2) (S n))
      (fun e => rsum (fun i => (ent Y i e - ent X i e) ^ 2) (S n) + (if (e =? d)%nat then 2 * s * rsum (fun i => (ent Y i d - ent X i d) * dx i) (S n) + s ^ 2 * rsum (fun i => dx i ^ 2) (S n) else 0))).
    - rewrite rsum_plus. rewrite (rsum_single (fun e => if (e =? d)%nat then _ else 0) dim d Hd); [rewrite Nat.eqb_refl; ring|]. intros e _ Ne. apply Nat.eqb_neq in Ne. rewrite Ne. reflexivity.
    - intros e He. destruct (Nat.eqb_spec e d) as [->|Ne].
      + rewrite <- !rsum_scal, <- !rsum_plus. apply rsum_ext. intros i Hi. rewrite vary_ent by (try lia; exact He). rewrite Nat.eqb_refl. rn. ring.
      + rewrite Rplus_0_r. apply rsum_ext. intros i Hi. rewrite vary_ent by (try lia; exact He). apply Nat.eqb_neq in Ne. rewrite Ne. reflexivity.
  Qed.

  Lemma least_stationary P' Q' a' b' : fitted p n dim V W P Q a b pa pb P' Q' a' b' -> least P' Q' ->
    forall d dx dy, (d < dim)%nat -> adm dx dy -> scal n (co P d) (co Q d) (co P' d) (co Q' d) dx dy = 0.
  Proof.
    intros F L d dx dy Hd Ad. assert (HA' : clamped_curve p n dim V P' a') by apply F. assert (HB' : clamped_curve p n dim W Q' b') by apply F.
    assert (F1 := proj1 (fitted_iff P' Q' a' b' HA' HB') F).
    assert (VAR : forall s, 0 <= 2 * s * scal n (co P d) (co Q d) (co P' d) (co Q' d) dx dy + s ^ 2 * (rsum (fun i => dx i ^ 2) (S n) + rsum (fun i => dy i ^ 2) (S n))).
    { intros s. destruct (new_curve p n dim V (vary P' d s dx) (proj1 HA) (mat_of_shape _ _ _)) as [a2 HA2]. destruct (new_curve p n dim W (vary Q' d s dy) (proj1 HB) (mat_of_shape _ _ _)) as [b2 HB2].
      assert (M := L _ _ a2 b2 (proj2 (fitted_iff _ _ a2 b2 HA2 HB2) ltac:(
        intros e He; destruct (Nat.eq_dec e d) as [->|Ne];
        [apply (fit1_ext p n V W pa pb (proj1 HA) (co P d) (co Q d) (fun i => ent P' i d + s * dx i) (fun i => ent Q' i d + s * dy i)); [intros i Hi; rewrite !vary_ent by assumption; rewrite Nat.eqb_refl; auto|apply fit1_add; [apply F1; exact Hd|exact Ad]]
        |apply (fit1_ext p n V W pa pb (proj1 HA) (co P e) (co Q e) (co P' e) (co Q' e)); [intros i Hi; rewrite !vary_ent by assumption; apply Nat.eqb_neq in Ne; rewrite Ne; auto|apply F1; exact He]]))).
      rewrite !moved_vary in M by exact Hd. unfold scal. lra. }
    set (g := scal n (co P d) (co Q d) (co P' d) (co Q' d) dx dy) in *. set (q := rsum (fun i => dx i ^ 2) (S n) + rsum (fun i => dy i ^ 2) (S n)) in *.
    assert (Q0 : 0 <= q) by (unfold q; apply Rplus_le_le_0_compat; apply rsum_nonneg; intros; apply pow2_ge_0).
    assert (T := VAR (- g / (q + 1))).
    assert (G : 2 * (- g / (q + 1)) * g + (- g / (q + 1)) ^ 2 * q = - (g * g) * ((q + 2) / ((q + 1) * (q + 1)))) by (field; lra).
    rewrite G in T. assert (0 < (q + 2) / ((q + 1) * (q + 1))) by (apply Rdiv_lt_0_compat; [lra|apply Rmult_lt_0_compat; lra]). revert T H. generalize ((q + 2) / ((q + 1) * (q + 1))). intros z T Z. assert (0 <= g * g) by apply Rle_0_sqr. destruct (Req_dec g 0) as [G0|G0]; [exact G0|]. assert (0 < g * g) by (assert (g * g <> 0) by (apply Rmult_integral_contrapositive_currified; assumption); lra). assert (0 < g * g * z) by (apply Rmult_lt_0_compat; assumption). lra.
  Qed.
End Merged.

(** ** what merging returns *)
Definition stationary_at p n dim V W P Q pa pb P' Q' : Prop :=
  forall d, (d < dim)%nat -> fit1 p n V W pa pb (fun i => ent P i d) (fun i => ent Q i d) (fun i => ent P' i d) (fun i => ent Q' i d) /\
    forall dx dy, fit1 p n V W pa pb zero zero dx dy -> scal n (fun i => ent P i d) (fun i => ent Q i d) (fun i => ent P' i d) (fun i => ent Q' i d) dx dy = 0.

Lemma merge_stationary svd p n dim V W P Q a b pa pb : clamped_curve p n dim V P a -> clamped_curve p n dim W Q b -> good_solver svd -> p = 1%nat \/ p = 2%nat -> (length pa + length pb < p)%nat ->
  (forall u, In u pa -> 0 <= u <= 1) -> (forall u, In u pb -> 0 <= u <= 1) ->
  exists c P' Q' a' b', merge_with_constraints svd (mkCC a pa) (mkCC b pb) = Val (Ok c) /\ clamped_curve p n dim V P' a' /\ clamped_curve p n dim W Q' b' /\
    stationary_at p n dim V W P Q pa pb P' Q' /\
    (forall t, 0 <= t <= 1 -> evaluate c (t / 2) = evaluate a' t /\ evaluate c ((1 + t) / 2) = evaluate b' t).
Proof.
  intros HA HB G H12 Ht Ia Ib.
  destruct (merged_result HA HB pa pb ltac:(destruct H12; subst; lia) Ia Ib svd G H12 Ht) as [c [P' [Q' [a' [b' [E [F [AG L]]]]]]]].
  exists c, P', Q', a', b'. split; [exact E|]. split; [apply F|]. split; [apply F|]. split.
  - intros d Hd. split.
    + apply (proj1 (fitted_iff p n dim V W P Q a b pa pb HA HB Ia Ib P' Q' a' b' ltac:(apply F) ltac:(apply F)) F d Hd).
    + intros dx dy Ad. apply (least_stationary p n dim V W P Q a b pa pb HA HB Ia Ib P' Q' a' b' F L d dx dy Hd Ad).
  - intros t T01. destruct (AG t T01) as [A1 A2]. split; eapply agree_eq; eassumption.
Qed.

Lemma stationary_same p n dim V W P Q pa pb P' Q' P'' Q'' : stationary_at p n dim V W P Q pa pb P' Q' -> stationary_at p n dim V W P Q pa pb P'' Q'' ->
  forall i d, (i <= n)%nat -> (d < dim)%nat -> ent P' i d = ent P'' i d /\ ent Q' i d = ent Q'' i d.
Proof.
  intros S' S'' i d Hi Hd. destruct (S' d Hd) as [F' O']. destruct (S'' d Hd) as [F'' O''].
  apply (stationary_unique p n V W pa pb _ _ (fun i => ent P' i d) (fun i => ent Q' i d) (fun i => ent P'' i d) (fun i => ent Q'' i d) F' F'' O' O'' i Hi).
Qed.

(** every parameter of the merged curve is in one of the halves *)
Lemma halves (f : R -> Prop) : (forall t, 0 <= t <= 1 -> f (t / 2) /\ f ((1 + t) / 2)) -> forall u, 0 <= u <= 1 -> f u.
Proof.
  intros H u Hu. destruct (Rle_lt_dec u (1/2)) as [L|L].
  - destruct (H (2 * u) ltac:(lra)) as [A _]. replace (2 * u / 2) with u in A by field. exact A.
  - destruct (H (2 * u - 1) ltac:(lra)) as [_ A]. replace ((1 + (2 * u - 1)) / 2) with u in A by field. exact A.
Qed.

(** ** two solvers *)
Lemma merge_solvers svd svd' p n dim V W P Q a b pa pb : clamped_curve p n dim V P a -> clamped_curve p n dim W Q b -> good_solver svd -> good_solver svd' -> p = 1%nat \/ p = 2%nat -> (length pa + length pb < p)%nat ->
  (forall u, In u pa -> 0 <= u <= 1) -> (forall u, In u pb -> 0 <= u <= 1) ->
  exists c c', merge_with_constraints svd (mkCC a pa) (mkCC b pb) = Val (Ok c) /\ merge_with_constraints svd' (mkCC a pa) (mkCC b pb) = Val (Ok c') /\
    forall u, 0 <= u <= 1 -> evaluate c u = evaluate c' u.
Proof.
  intros HA HB G G' H12 Ht Ia Ib.
  destruct (merge_stationary svd p n dim V W P Q a b pa pb HA HB G H12 Ht Ia Ib) as [c [P' [Q' [a' [b' [E [HA' [HB' [ST EV]]]]]]]]].
  destruct (merge_stationary svd' p n dim V W P Q a b pa pb HA HB G' H12 Ht Ia Ib) as [c2 [P2 [Q2 [a2 [b2 [E2 [HA2 [HB2 [ST2 EV2]]]]]]]]].
  exists c, c2. split; [exact E|]. split; [exact E2|].
  assert (SM := stationary_same p n dim V W P Q pa pb P' Q' P2 Q2 ST ST2).
  assert (a' = a2) as -> by (apply (same_curve p n dim V P' P2 a' a2 HA' HA2); intros; apply SM; assumption).
  assert (b' = b2) as -> by (apply (same_curve p n dim W Q' Q2 b' b2 HB' HB2); intros; apply SM; assumption).
  apply (halves (fun u => evaluate c u = evaluate c2 u)). intros t Ht01. destruct (EV t Ht01) as [-> ->]. destruct (EV2 t Ht01) as [-> ->]. split; reflexivity.
Qed.

(** ** curves that meet smoothly *)
Lemma merge_smooth svd p n dim V W P Q a b pa pb : clamped_curve p n dim V P a -> clamped_curve p n dim W Q b -> good_solver svd -> p = 1%nat \/ p = 2%nat -> (length pa + length pb < p)%nat ->
  (forall u, In u pa -> 0 <= u <= 1) -> (forall u, In u pb -> 0 <= u <= 1) -> (forall k, (k < p)%nat -> agree dim k a 1 b 0) ->
  exists c, merge_with_constraints svd (mkCC a pa) (mkCC b pb) = Val (Ok c) /\
    forall t, 0 <= t <= 1 -> evaluate c (t / 2) = evaluate a t /\ evaluate c ((1 + t) / 2) = evaluate b t.
Proof.
  intros HA HB G H12 Ht Ia Ib J.
  destruct (merge_stationary svd p n dim V W P Q a b pa pb HA HB G H12 Ht Ia Ib) as [c [P' [Q' [a' [b' [E [HA' [HB' [ST EV]]]]]]]]].
  assert (S0 : stationary_at p n dim V W P Q pa pb P Q).
  { intros d Hd. split.
    - split; [reflexivity|]. split; [reflexivity|]. split; [|split; reflexivity]. intros k Hk.
      apply (proj1 (agree_iff _ _ _ _ _ _ _ _ _ _ _ k 1 0 HA HB ltac:(lia) ltac:(lia) ltac:(lra) ltac:(lra)) (J k Hk) d Hd).
    - intros dx dy _. unfold scal. rewrite !rsum_zero; [ring| |]; intros i Hi; rn; ring. }
  assert (SM := stationary_same p n dim V W P Q pa pb P' Q' P Q ST S0).
  exists c. split; [exact E|].
  assert (a' = a) as -> by (apply (same_curve p n dim V P' P a' a HA' HA); intros; apply SM; assumption).
  assert (b' = b) as -> by (apply (same_curve p n dim W Q' Q b' b HB' HB); intros; apply SM; assumption). exact EV.
Qed.

(** ** splitting at 1/2 and merging *)
Lemma split_meets p n dim U P c cl cr : clamped_curve p n dim U P c -> (1 <= p)%nat ->
  (mult U (1/2) <= 1)%nat -> simple_below U (1/2) -> split c (1/2) = Val (Ok (cl, cr)) ->
  (forall k, (k < p)%nat -> agree dim k cl 1 cr 0) /\
  (forall t, 0 <= t <= 1 -> evaluate cl t = evaluate c (t / 2) /\ evaluate cr t = evaluate c ((1 + t) / 2)).
Proof.
  intros H H12 M1 SB ES.
  destruct (split_exact p n dim U P c (1/2) H ltac:(lra) ltac:(lia) SB) as [cl' [cr' [nl [nr [Ul' [Pl' [Ur' [Pr' [ES' [_ [_ [_ SP]]]]]]]]]]]].
  rewrite ES in ES'. injection ES' as <- <-. split.
  - intros k Hk. destruct (SP 1 ltac:(lra)) as [_ A]. destruct (A k ltac:(lia)) as [x [y [x0 [y0 [X1 [Y1 [_ [_ [LX [LY [_ [_ AA]]]]]]]]]]]].
    destruct (SP 0 ltac:(lra)) as [_ B]. destruct (B k ltac:(lia)) as [x2 [y2 [xr [yr [_ [_ [XR [YR [_ [_ [LXR [LYR BB]]]]]]]]]]]].
    replace (1 * (1/2)) with (1/2) in X1 by field. replace (1/2 + 0 * (1 - 1/2)) with (1/2) in XR by field. rewrite X1 in XR. injection XR as <-.
    exists (fun d => (1/2) ^ k * nth d x 0). split.
    + exists y. split; [exact Y1|]. split; [exact LY|]. intros d Hd. apply (AA d Hd). intros _. lia.
    + exists yr. split; [exact YR|]. split; [exact LYR|]. intros d Hd. etransitivity; [apply (BB d Hd)|]. replace (1 - 1/2) with (1/2) by field. reflexivity.
  - intros t Ht. destruct (SP t Ht) as [[-> ->] _]. split; f_equal; field.
Qed.

Lemma split_merge svd p n m dim U P c cl cr Ul Pl Ur Pr : clamped_curve p n dim U P c -> good_solver svd -> p = 1%nat \/ p = 2%nat ->
  (mult U (1/2) <= 1)%nat -> simple_below U (1/2) -> split c (1/2) = Val (Ok (cl, cr)) -> clamped_curve p m dim Ul Pl cl -> clamped_curve p m dim Ur Pr cr ->
  exists c', merge svd cl cr = Val (Ok c') /\ forall u, 0 <= u <= 1 -> evaluate c' u = evaluate c u.
Proof.
  intros H G H12 M1 SB ES HL HR. destruct (split_meets p n dim U P c cl cr H ltac:(destruct H12; lia) M1 SB ES) as [J SP].
  destruct (merge_smooth svd p m dim Ul Ur Pl Pr cl cr [] [] HL HR G H12) as [c' [E EV]]; [cbn; destruct H12; lia|intros u []|intros u []|exact J|].
  exists c'. split; [exact E|]. apply (halves (fun u => evaluate c' u = evaluate c u)). intros t Ht.
  destruct (EV t Ht) as [-> ->]. exact (SP t Ht).
Qed.

(** ** affine maps *)
Lemma merge_affine svd p n dim dim' V W P Q P1 Q1 a b a1 b1 pa pb (A : nat -> nat -> R) (o : nat -> R) :
  clamped_curve p n dim V P a -> clamped_curve p n dim W Q b -> clamped_curve p n dim' V P1 a1 -> clamped_curve p n dim' W Q1 b1 ->
  good_solver svd -> p = 1%nat \/ p = 2%nat -> (length pa + length pb < p)%nat ->
  (forall u, In u pa -> 0 <= u <= 1) -> (forall u, In u pb -> 0 <= u <= 1) ->
  (forall i e, (i <= n)%nat -> (e < dim')%nat -> ent P1 i e = rsum (fun d => A e d * ent P i d) dim + o e) ->
  (forall i e, (i <= n)%nat -> (e < dim')%nat -> ent Q1 i e = rsum (fun d => A e d * ent Q i d) dim + o e) ->
  exists c c1, merge_with_constraints svd (mkCC a pa) (mkCC b pb) = Val (Ok c) /\ merge_with_constraints svd (mkCC a1 pa) (mkCC b1 pb) = Val (Ok c1) /\
    forall u, 0 <= u <= 1 -> exists x, evaluate c u = Val (Ok x) /\ length x = dim /\ returns (evaluate c1 u) dim' (fun e => rsum (fun d => A e d * nth d x 0) dim + o e).
Proof.
  intros HA HB HA1 HB1 G H12 Ht Ia Ib EP EQ.
  destruct (merge_stationary svd p n dim V W P Q a b pa pb HA HB G H12 Ht Ia Ib) as [c [P' [Q' [a' [b' [E [HA' [HB' [ST EV]]]]]]]]].
  destruct (merge_stationary svd p n dim' V W P1 Q1 a1 b1 pa pb HA1 HB1 G H12 Ht Ia Ib) as [c1 [P1' [Q1' [a1' [b1' [E1 [HA1' [HB1' [ST1 EV1]]]]]]]]].
  assert (S0 : stationary_at p n dim' V W P1 Q1 pa pb (image dim dim' n A o P') (image dim dim' n A o Q')).
  { intros e He. split.
    - apply (fit1_ext p n V W pa pb (proj1 HA) _ _ _ _ _ _ _ _) with (2 := fit1_comb p n V W pa pb (proj1 HA) (proj1 HB) (A e) (fun d i => ent P i d) (fun d i => ent Q i d) (fun d i => ent P' i d) (fun d i => ent Q' i d) (o e) dim (fun d Hd => proj1 (ST d Hd))).
      intros i Hi. rewrite EP, EQ, !image_image by assumption. auto.
    - intros dx dy Ad. assert (T := scal_comb n (A e) (fun d i => ent P i d) (fun d i => ent Q i d) (fun d i => ent P' i d) (fun d i => ent Q' i d) (o e) dim dx dy (fun d Hd => proj2 (ST d Hd) dx dy Ad)).
      rewrite <- T. unfold scal. f_equal; apply rsum_ext; intros i Hi; [rewrite EP, image_image by (try lia; exact He)|rewrite EQ, image_image by (try lia; exact He)]; reflexivity. }
  assert (SM := stationary_same p n dim' V W P1 Q1 pa pb _ _ _ _ S0 ST1).
  assert (FA := image_follows p n dim dim' V A o P' P1' a' a1' HA' HA1' (fun i e Hi He => proj1 (SM i e Hi He))).
  assert (FB := image_follows p n dim dim' W A o Q' Q1' b' b1' HB' HB1' (fun i e Hi He => proj2 (SM i e Hi He))).
  exists c, c1. split; [exact E|]. split; [exact E1|].
  apply (halves (fun u => exists x, evaluate c u = Val (Ok x) /\ length x = dim /\ returns (evaluate c1 u) dim' (fun e => rsum (fun d => A e d * nth d x 0) dim + o e))).
  intros t T01. destruct (EV t T01) as [-> ->]. destruct (EV1 t T01) as [-> ->]. split; [apply FA|apply FB]; exact T01.
Qed.

(** ** reversal *)
Lemma kfun_vrev p n U : clamped p n U -> forall k, (k <= n + p + 1)%nat -> kfun (vrev U) k = 1 - kfun U (n + p + 1 - k)%nat.
Proof.
  intros C k Hk. assert (L := cl_len _ _ _ C). rewrite !kfun_nth by (try rewrite vrev_length; lia). rewrite nth_vrev by lia. rewrite L. do 3 f_equal. lia.
Qed.

Lemma dspline_end_reverse p n U (x : nat -> R) k : clamped p n U -> (k <= p)%nat ->
  dspline (kfun (vrev U)) n p (fun i => x (n - i)%nat) k 1 = (-1) ^ k * dspline (kfun U) n p x k 0 /\
  dspline (kfun (vrev U)) n p (fun i => x (n - i)%nat) k 0 = (-1) ^ k * dspline (kfun U) n p x k 1.
Proof.
  intros C K. assert (F := kfun_clamped p n U C). assert (F' := kfun_clamped p n _ (reverse_clamped p n U C)).
  assert (R : forall u, u = 0 \/ u = 1 -> dspline (kfun (vrev U)) n p (fun i => x (n - i)%nat) k u = (-1) ^ k * dspline (kfun U) n p x k (1 - u)).
  { intros u Hu. apply (dspline_reverse p n (kfun U) (kfun (vrev U)) x); try assumption; [apply kfun_vrev; exact C|reflexivity|destruct Hu; lra|destruct Hu; intros; lra]. }
  split; rewrite R by (try (left; reflexivity); right; reflexivity); do 2 f_equal; ring.
Qed.

Lemma fit1_reverse p n V W x y x' y' : clamped p n V -> clamped p n W -> fit1 p n V W [] [] x y x' y' ->
  fit1 p n (vrev W) (vrev V) [] [] (fun i => y (n - i)%nat) (fun i => x (n - i)%nat) (fun i => y' (n - i)%nat) (fun i => x' (n - i)%nat).
Proof.
  intros CV CW [A1 [A2 [A3 _]]]. assert (D := cl_deg _ _ _ CV). split; [|split; [|split; [|split; intros u []]]].
  - intros i Hi. destruct (le_lt_dec i n) as [L|L]; [apply A2; lia|]. replace (n - i)%nat with 0%nat by lia. assert (p = 0%nat) by lia. subst p. apply A2. lia.
  - intros i Hi. apply A1. lia.
  - intros k Hk. rewrite (proj1 (dspline_end_reverse p n W y' k CW ltac:(lia))), (proj2 (dspline_end_reverse p n V x' k CV ltac:(lia))), A3 by exact Hk. reflexivity.
Qed.

Lemma scal_reverse n x y x' y' dx dy : scal n (fun i => y (n - i)%nat) (fun i => x (n - i)%nat) (fun i => y' (n - i)%nat) (fun i => x' (n - i)%nat) dx dy =
  scal n x y x' y' (fun i => dy (n - i)%nat) (fun i => dx (n - i)%nat).
Proof.
  unfold scal. rewrite Rplus_comm. f_equal.
  - rewrite <- rsum_rev. apply rsum_ext. intros i Hi. replace (S n - 1 - i)%nat with (n - i)%nat by lia. replace (n - (n - i))%nat with i by lia. reflexivity.
  - rewrite <- rsum_rev. apply rsum_ext. intros i Hi. replace (S n - 1 - i)%nat with (n - i)%nat by lia. replace (n - (n - i))%nat with i by lia. reflexivity.
Qed.

Lemma vrev_vrev (U : list R) : vrev (vrev U) = U.
Proof. unfold vrev. rewrite <- map_rev, rev_involutive, map_map. rewrite <- (map_id U) at 2. apply map_ext. intros x. rn. ring. Qed.

Lemma reverse_value p n dim U P c c' u : clamped_curve p n dim U P c -> reverse c = Val c' -> 0 <= u <= 1 -> (0 < u < 1 -> (mult U (1 - u) <= p)%nat) -> evaluate c' u = evaluate c (1 - u).
Proof.
  intros H E Hu M. destruct (reverse_fact p n dim U P c H) as [c2 [E2 [_ R]]]. rewrite E in E2. injection E2 as <-.
  destruct (R 0%nat u ltac:(lia) Hu ltac:(intros B; specialize (M B); lia)) as [v [E3 [L B]]]. apply (returns_eq _ _ dim (fun d => nth d v 0)); unfold evaluate.
  - destruct B as [w [E4 [L4 N]]]. exists w. split; [exact E4|]. split; [exact L4|]. intros d Hd. etransitivity; [apply N; exact Hd|]. cbn [pow]. ring.
  - exists v. split; [exact E3|]. split; [exact L|reflexivity].
Qed.

Lemma merge_reverse svd p n dim V W P Q a b : clamped_curve p n dim V P a -> clamped_curve p n dim W Q b -> good_solver svd -> p = 1%nat \/ p = 2%nat ->
  (forall x, 0 < x < 1 -> (mult V x <= p)%nat) -> (forall x, 0 < x < 1 -> (mult W x <= p)%nat) ->
  exists c ar br c', merge svd a b = Val (Ok c) /\ reverse a = Val ar /\ reverse b = Val br /\ merge svd br ar = Val (Ok c') /\
    forall u, 0 <= u <= 1 -> evaluate c' u = evaluate c (1 - u).
Proof.
  intros HA HB G H12 MV MW. assert (D := cl_deg _ _ _ (proj1 HA)).
  destruct (merge_stationary svd p n dim V W P Q a b [] [] HA HB G H12 ltac:(cbn; destruct H12; lia) ltac:(intros u []) ltac:(intros u [])) as [c [P' [Q' [a' [b' [E [HA' [HB' [ST EV]]]]]]]]].
  destruct (reverse_curve p n dim V P a HA) as [ar [EA HAR]]. destruct (reverse_curve p n dim W Q b HB) as [br [EB HBR]].
  destruct (merge_stationary svd p n dim (vrev W) (vrev V) (mrev Q) (mrev P) br ar [] [] HBR HAR G H12 ltac:(cbn; destruct H12; lia) ltac:(intros u []) ltac:(intros u [])) as [c2 [P2 [Q2 [a2 [b2 [E2 [HA2 [HB2 [ST2 EV2]]]]]]]]].
  assert (RE : forall (X : Mat RNum) i d, shape dim (S n) X -> (i <= n)%nat -> ent (mrev X) i d = ent X (n - i) d).
  { intros X i d SX Hi. rewrite (ent_mrev dim (S n)) by (try exact SX; lia). f_equal. lia. }
  assert (S0 : stationary_at p n dim (vrev W) (vrev V) (mrev Q) (mrev P) [] [] (mrev Q') (mrev P')).
  { intros d Hd. destruct (ST d Hd) as [F O]. assert (SHP := proj1 (proj2 HA)). assert (SHQ := proj1 (proj2 HB)). assert (SHP' := proj1 (proj2 HA')). assert (SHQ' := proj1 (proj2 HB')). split.
    - eapply (fit1_ext p n (vrev W) (vrev V) [] [] (proj1 HBR)); [|apply (fit1_reverse p n V W _ _ _ _ (proj1 HA) (proj1 HB) F)]. intros i Hi. cbv beta. rewrite !RE by assumption. auto.
    - intros dx dy Ad.
      assert (AR : fit1 p n V W [] [] zero zero (fun i => dy (n - i)%nat) (fun i => dx (n - i)%nat)).
      { assert (T := fit1_reverse p n (vrev W) (vrev V) _ _ _ _ (proj1 HBR) (proj1 HAR) Ad). rewrite !vrev_vrev in T. exact T. }
      rewrite <- (O _ _ AR). rewrite <- scal_reverse. unfold scal. f_equal; apply rsum_ext; intros i Hi; rewrite !RE by (try assumption; lia); reflexivity. }
  assert (SM := stationary_same p n dim (vrev W) (vrev V) (mrev Q) (mrev P) [] [] _ _ _ _ S0 ST2).
  destruct (reverse_curve p n dim V P' a' HA') as [ar' [EA' HAR']]. destruct (reverse_curve p n dim W Q' b' HB') as [br' [EB' HBR']].
  assert (br' = a2) as <- by (apply (same_curve p n dim (vrev W) (mrev Q') P2 br' a2 HBR' HA2); intros; apply SM; assumption).
  assert (ar' = b2) as <- by (apply (same_curve p n dim (vrev V) (mrev P') Q2 ar' b2 HAR' HB2); intros; apply SM; assumption).
  exists c, ar, br, c2. split; [exact E|]. split; [exact EA|]. split; [exact EB|]. split; [exact E2|].
  apply (halves (fun u => evaluate c2 u = evaluate c (1 - u))). intros t T01. destruct (EV2 t T01) as [-> ->].
  destruct (EV (1 - t) ltac:(lra)) as [E3 E4]. split.
  - replace (1 - t / 2) with ((1 + (1 - t)) / 2) by field. rewrite E4. apply (reverse_value p n dim W Q' b' br' t HB' EB' T01). intros; apply MW; lra.
  - replace (1 - (1 + t) / 2) with ((1 - t) / 2) by field. rewrite E3. apply (reverse_value p n dim V P' a' ar' t HA' EA' T01). intros; apply MV; lra.
Qed.

(** ** the curves generated from data do not depend on the solver *)
Lemma interpolation_solvers svd svd' p m dim (Q : Mat RNum) : good_solver svd -> good_solver svd' -> (1 <= p <= m)%nat -> shape dim (S m) Q ->
  generate svd (Interpolation p Q) = generate svd' (Interpolation p Q).
Proof.
  intros G G' Hp SQ. destruct (interpolation_fact svd p m dim Q G Hp SQ) as [U [C [c [E [HC [UK [HD _]]]]]]]. rewrite E. symmetry.
  apply (interpolation_reproduces svd' p m dim U C c Q G' ltac:(lia) HC UK SQ HD).
Qed.

Lemma loose_solvers svd svd' p n m dim (Q : Mat RNum) pen : good_solver svd -> good_solver svd' -> shape dim (S m) Q -> (1 <= p <= n)%nat -> (n <= m)%nat ->
  (forall q, pen = Some q -> 0 <= lambda q /\ (1 <= kappa q <= n - 1)%nat) ->
  generate svd (LeastSquaresFit p Q n LooseEnds pen) = generate svd' (LeastSquaresFit p Q n LooseEnds pen).
Proof.
  intros G G' SQ Hp Hm HP.
  destruct (loose_fit_fact svd p n m dim Q pen G SQ Hp Hm HP) as [U [C [c [e [E [HC [UK [DE UN]]]]]]]].
  destruct (loose_fit_fact svd' p n m dim Q pen G' SQ Hp Hm HP) as [U' [C' [c' [e' [E' [HC' [UK' [DE' UN']]]]]]]].
  assert (U = U') as <- by (apply (uniform_list p n); [apply HC|apply HC'|exact UK|exact UK']).
  rewrite E, E'. do 2 f_equal. apply (same_curve p n dim U C C' c c' HC HC'). intros i d Hi Hd.
  destruct (UN' C c e HC DE) as [A B]. apply B; [|exact Hi|exact Hd]. apply (UN C' c' e' HC' DE').
Qed.

Lemma fixed_solvers svd svd' p n m dim (Q : Mat RNum) pen : good_solver svd -> good_solver svd' -> shape dim (S m) Q -> (1 <= p <= n)%nat -> (2 <= n <= m)%nat ->
  (forall q, pen = Some q -> 0 <= lambda q /\ (1 <= kappa q <= n - 2)%nat) ->
  generate svd (LeastSquaresFit p Q n FixedEnds pen) = generate svd' (LeastSquaresFit p Q n FixedEnds pen).
Proof.
  intros G G' SQ Hp Hm HP.
  destruct (fixed_fit_fact svd p n m dim Q pen G SQ Hp Hm HP) as [U [C [c [e [E [HC [UK [DE [R0 [R1 UN]]]]]]]]]].
  destruct (fixed_fit_fact svd' p n m dim Q pen G' SQ Hp Hm HP) as [U' [C' [c' [e' [E' [HC' [UK' [DE' [R0' [R1' UN']]]]]]]]]].
  assert (U = U') as <- by (apply (uniform_list p n); [apply HC|apply HC'|exact UK|exact UK']).
  rewrite E, E'. do 2 f_equal. apply (same_curve p n dim U C C' c c' HC HC'). intros i d Hi Hd.
  destruct (UN' C c e HC DE R0 R1) as [A B]. apply B; [|exact Hi|exact Hd]. apply (UN C' c' e' HC' DE' R0' R1').
Qed.
