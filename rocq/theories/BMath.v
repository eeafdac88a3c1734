(** * B-spline mathematics over function knots *)

From Coq Require Import Reals List Arith Lia Lra.
From Verif Require Import Spec.
Local Open Scope R_scope.

(** ** Sums *)
Lemma rsum_ext f g n : (forall i, (i < n)%nat -> f i = g i) -> rsum f n = rsum g n.
Proof.
  induction n as [|n IH]; simpl; intros H; [reflexivity|].
  rewrite IH by (intros; apply H; lia). rewrite H by lia. reflexivity.
Qed.

Lemma rsum_plus f g n : rsum (fun i => f i + g i) n = rsum f n + rsum g n.
Proof. induction n as [|n IH]; simpl; [lra|]. rewrite IH. lra. Qed.

Lemma rsum_minus f g n : rsum (fun i => f i - g i) n = rsum f n - rsum g n.
Proof. induction n as [|n IH]; simpl; [lra|]. rewrite IH. lra. Qed.

Lemma rsum_scal c f n : rsum (fun i => c * f i) n = c * rsum f n.
Proof. induction n as [|n IH]; simpl; [lra|]. rewrite IH. lra. Qed.

Lemma rsum_scal_r c f n : rsum (fun i => f i * c) n = rsum f n * c.
Proof. induction n as [|n IH]; simpl; [lra|]. rewrite IH. lra. Qed.

Lemma rsum_0 n : rsum (fun _ => 0) n = 0.
Proof. induction n as [|n IH]; simpl; [lra|]. rewrite IH. lra. Qed.

Lemma rsum_zero f n : (forall i, (i < n)%nat -> f i = 0) -> rsum f n = 0.
Proof. intros H. rewrite (rsum_ext f (fun _ => 0)) by exact H. apply rsum_0. Qed.

(** [Σ_{i<n} f (i+1) = Σ_{i<n} f i + f n - f 0] *)
Lemma rsum_shift f n : rsum (fun i => f (S i)) n = rsum f n + f n - f 0%nat.
Proof. induction n as [|n IH]; simpl; [lra|]. rewrite IH. lra. Qed.

Lemma rsum_first f n : rsum f (S n) = f 0%nat + rsum (fun i => f (S i)) n.
Proof. rewrite rsum_shift. simpl. lra. Qed.

Lemma rsum_add f a b : rsum f (a + b) = rsum f a + rsum (fun i => f (a + i)%nat) b.
Proof.
  induction b as [|b IH]; simpl.
  - rewrite Nat.add_0_r. lra.
  - rewrite Nat.add_succ_r. simpl. rewrite IH. lra.
Qed.

(** only one term differs from zero *)
Lemma rsum_single f n j : (j < n)%nat -> (forall i, (i < n)%nat -> i <> j -> f i = 0) -> rsum f n = f j.
Proof.
  induction n as [|n IH]; intros Hj H; [lia|]. simpl.
  destruct (Nat.eq_dec j n) as [->|Hne].
  - rewrite rsum_zero; [lra|]. intros i Hi. apply H; lia.
  - rewrite IH by (try lia; intros; apply H; lia). rewrite (H n) by lia. lra.
Qed.

Lemma rsum_le f g n : (forall i, (i < n)%nat -> f i <= g i) -> rsum f n <= rsum g n.
Proof.
  induction n as [|n IH]; simpl; intros H; [lra|].
  assert (f n <= g n) by (apply H; lia). assert (rsum f n <= rsum g n) by (apply IH; intros; apply H; lia). lra.
Qed.

Lemma rsum_nonneg f n : (forall i, (i < n)%nat -> 0 <= f i) -> 0 <= rsum f n.
Proof. intros H. rewrite <- (rsum_0 n). apply rsum_le. exact H. Qed.

Lemma rsum_swap (f : nat -> nat -> R) n m :
  rsum (fun i => rsum (fun j => f i j) m) n = rsum (fun j => rsum (fun i => f i j) n) m.
Proof.
  induction n as [|n IH]; simpl.
  - rewrite rsum_0. reflexivity.
  - rewrite IH, <- rsum_plus. reflexivity.
Qed.

(** dropping zero terms at the front *)
Lemma rsum_drop f a n : (a <= n)%nat -> (forall i, (i < a)%nat -> f i = 0) ->
  rsum f n = rsum (fun i => f (a + i)%nat) (n - a).
Proof.
  intros Ha H. replace n with (a + (n - a))%nat at 1 by lia.
  rewrite rsum_add, (rsum_zero f a) by exact H. lra.
Qed.

(** dropping zero terms at the end *)
Lemma rsum_trunc f a n : (a <= n)%nat -> (forall i, (a <= i)%nat -> (i < n)%nat -> f i = 0) ->
  rsum f n = rsum f a.
Proof.
  intros Ha H. replace n with (a + (n - a))%nat by lia.
  rewrite rsum_add, (rsum_zero (fun i => f (a + i)%nat)); [lra|]. intros i Hi. apply H; lia.
Qed.

(** reversing a sum *)
Lemma rsum_rev f n : rsum (fun i => f (n - 1 - i)%nat) n = rsum f n.
Proof.
  induction n as [|n IH]; [reflexivity|].
  rewrite rsum_first. simpl rsum at 2.
  replace (S n - 1 - 0)%nat with n by lia.
  rewrite (rsum_ext _ (fun i => f (n - 1 - i)%nat)) by (intros i Hi; f_equal; lia).
  rewrite IH. lra.
Qed.

(** ** Ratios *)
Lemma ratio_0 x : ratio x 0 = 0.
Proof. unfold ratio. destruct (Req_EM_T 0 0); [reflexivity|congruence]. Qed.

Lemma ratio_nz x y : y <> 0 -> ratio x y = x / y.
Proof. unfold ratio. destruct (Req_EM_T y 0); [congruence|reflexivity]. Qed.

Lemma ratio_mul x y : ratio x y = x * ratio 1 y.
Proof. unfold ratio. destruct (Req_EM_T y 0); [lra|]. unfold Rdiv. lra. Qed.

Lemma ratio_mult c x y : ratio (c * x) y = c * ratio x y.
Proof. rewrite ratio_mul, (ratio_mul x). lra. Qed.

(** [1 / (U (i+p) - U i)] or [0] *)
Definition dinv (U : nat -> R) (i p : nat) : R := ratio 1 (U (i + p)%nat - U i).

Lemma dinv_deg U i p : U (i + p)%nat = U i -> dinv U i p = 0.
Proof. intros H. unfold dinv. rewrite H, Rminus_diag_eq by reflexivity. apply ratio_0. Qed.

Lemma dinv_nz U i p : U (i + p)%nat <> U i -> (U (i + p)%nat - U i) * dinv U i p = 1.
Proof. intros H. unfold dinv. rewrite ratio_nz by lra. field. lra. Qed.

Lemma dinv_nonneg U i p : U i <= U (i + p)%nat -> 0 <= dinv U i p.
Proof.
  intros H. unfold dinv, ratio. destruct (Req_EM_T _ 0); [lra|].
  apply Rlt_le, Rdiv_lt_0_compat; lra.
Qed.

Lemma cox_S base U h i x :
  cox base U (S h) i x =
  (x - U i) * dinv U i (S h) * cox base U h i x +
  (U (S i + S h)%nat - x) * dinv U (S i) (S h) * cox base U h (S i) x.
Proof.
  cbn [cox]. rewrite (ratio_mul (x - U i)), (ratio_mul (U (S i + S h)%nat - x)).
  unfold dinv. reflexivity.
Qed.

Definition mono (U : nat -> R) : Prop := forall i j, (i <= j)%nat -> U i <= U j.

(** ** Generalities on [cox] *)

(** depends on the base values only at [i..i+p] and on the knots [i..i+p+1] *)
Lemma cox_ext base base' U U' p : forall i x,
  (forall a, (i <= a <= i + p)%nat -> base a = base' a) ->
  (forall a, (i <= a <= i + p + 1)%nat -> (p <> 0)%nat -> U a = U' a) ->
  cox base U p i x = cox base' U' p i x.
Proof.
  induction p as [|h IH]; intros i x Hb HU.
  - apply Hb. lia.
  - cbn [cox].
    rewrite (HU i), (HU (i + S h)%nat), (HU (S i + S h)%nat), (HU (S i)) by lia.
    rewrite (IH i), (IH (S i)); [reflexivity| | | |]; intros; try apply Hb; try apply HU; lia.
Qed.

Lemma cox_shift base U p k : forall i x,
  cox (fun a => base (a + k)%nat) (shift k U) p i x = cox base U p (i + k) x.
Proof.
  unfold shift. induction p as [|h IH]; intros i x; [reflexivity|].
  cbn [cox]. rewrite !IH.
  replace (i + S h + k)%nat with (i + k + S h)%nat by lia.
  replace (S i + S h + k)%nat with (S (i + k) + S h)%nat by lia.
  replace (S i + k)%nat with (S (i + k)) by lia. reflexivity.
Qed.

(** if two bases give the same values at some degree, they do at all higher ones *)
Lemma cox_agree base base' U m x :
  (forall i, cox base U m i x = cox base' U m i x) ->
  forall p i, (m <= p)%nat -> cox base U p i x = cox base' U p i x.
Proof.
  intros H p. induction p as [|h IH]; intros i Hp.
  - replace m with 0%nat in H by lia. apply H.
  - destruct (Nat.eq_dec m (S h)) as [->|Hne]; [apply H|].
    cbn [cox]. rewrite !IH by lia. reflexivity.
Qed.

Lemma cox_zero U p : forall i x, cox (fun _ => 0) U p i x = 0.
Proof.
  induction p as [|h IH]; intros i x; [reflexivity|]. cbn [cox]. rewrite !IH. lra.
Qed.

(** ** The polynomial piece on span [j] *)
Definition delta (j i : nat) : R := if (i =? j)%nat then 1 else 0.

Lemma delta_eq j : delta j j = 1.
Proof. unfold delta. rewrite Nat.eqb_refl. reflexivity. Qed.
Lemma delta_ne j i : i <> j -> delta j i = 0.
Proof. intros H. unfold delta. apply Nat.eqb_neq in H. rewrite H. reflexivity. Qed.

(** local support *)
Lemma piece_support U j p : forall i x, (j < i \/ i + p < j)%nat -> cox (delta j) U p i x = 0.
Proof.
  intros i x H. rewrite (cox_ext (delta j) (fun _ => 0) U U p i x).
  - apply cox_zero.
  - intros a Ha. apply delta_ne. lia.
  - reflexivity.
Qed.

Section Piece.
  Variable U : nat -> R.
  Hypothesis HU : mono U.
  Variable j : nat.
  Hypothesis Hj : U j < U (S j).

  Lemma span_pos i p : (i <= j)%nat -> (S j <= i + p)%nat -> U i < U (i + p)%nat.
  Proof.
    intros H1 H2. assert (U i <= U j) by (apply HU; lia).
    assert (U (S j) <= U (i + p)%nat) by (apply HU; lia). lra.
  Qed.

  (** partition of unity, as an identity of polynomials *)
  Lemma piece_sum p x N : (p <= j)%nat -> (j < N)%nat -> rsum (fun i => cox (delta j) U p i x) N = 1.
  Proof.
    revert N. induction p as [|h IH]; intros N Hp HN.
    - rewrite (rsum_single _ N j); [apply delta_eq|lia|]. intros i _ Hi. apply delta_ne. exact Hi.
    - set (b := fun i => (U (i + S h)%nat - x) * dinv U i (S h) * cox (delta j) U h i x).
      rewrite (rsum_ext _ (fun i => (cox (delta j) U h i x - b i) + b (S i))).
      + rewrite rsum_plus, rsum_minus, rsum_shift.
        rewrite (IH N) by lia.
        assert (Hb0 : b 0%nat = 0).
        { unfold b. rewrite (piece_support U j h 0) by lia. lra. }
        assert (HbN : b N = 0).
        { unfold b. rewrite (piece_support U j h N) by lia. lra. }
        rewrite Hb0, HbN. lra.
      + intros i Hi. rewrite cox_S. unfold b.
        replace (U (S i + S h)%nat - x) with (U (S i + S h)%nat - x) by reflexivity.
        destruct (le_lt_dec i j) as [Hij|Hij].
        * destruct (le_lt_dec (S j) (i + S h)) as [Hij2|Hij2].
          -- assert (Hp2 := span_pos i (S h) Hij Hij2).
             assert (Hd := dinv_nz U i (S h)).
             assert (E : (x - U i) * dinv U i (S h) = 1 - (U (i + S h)%nat - x) * dinv U i (S h)).
             { rewrite <- Hd by lra. ring. }
             rewrite E. ring.
          -- rewrite (piece_support U j h i) by lia. ring.
        * rewrite (piece_support U j h i) by lia. ring.
  Qed.

  (** non-negativity on the span *)
  Lemma piece_nonneg p : forall i x, U j <= x <= U (S j) -> 0 <= cox (delta j) U p i x.
  Proof.
    induction p as [|h IH]; intros i x Hx.
    - unfold cox, delta. destruct (i =? j)%nat; lra.
    - rewrite cox_S.
      assert (H1 := IH i x Hx). assert (H2 := IH (S i) x Hx).
      assert (D1 : 0 <= dinv U i (S h)) by (apply dinv_nonneg, HU; lia).
      assert (D2 : 0 <= dinv U (S i) (S h)) by (apply dinv_nonneg, HU; lia).
      apply Rplus_le_le_0_compat.
      + destruct (le_lt_dec i j) as [Hij|Hij].
        * assert (U i <= U j) by (apply HU; lia).
          apply Rmult_le_pos; [apply Rmult_le_pos; lra|exact H1].
        * rewrite (piece_support U j h i) by lia. lra.
      + destruct (le_lt_dec (S j) (S i + S h)) as [Hij|Hij].
        * assert (U (S j) <= U (S i + S h)%nat) by (apply HU; lia).
          apply Rmult_le_pos; [apply Rmult_le_pos; lra|exact H2].
        * rewrite (piece_support U j h (S i)) by lia. lra.
  Qed.
End Piece.

(** ** Derivative of a piece *)
Definition dcox (base : nat -> R) (U : nat -> R) (p i : nat) (x : R) : R :=
  match p with
  | O => 0
  | S h => INR (S h) * (dinv U i (S h) * cox base U h i x - dinv U (S i) (S h) * cox base U h (S i) x)
  end.

Lemma dinv_collapse_l U i h : mono U -> dinv U i (S (S h)) = 0 -> dinv U (S i) (S h) = 0.
Proof.
  intros HU H. apply dinv_deg.
  destruct (Req_dec (U (i + S (S h))%nat) (U i)) as [E|E].
  - assert (U i <= U (S i)) by (apply HU; lia).
    assert (U (S i) <= U (S i + S h)%nat) by (apply HU; lia).
    replace (i + S (S h))%nat with (S i + S h)%nat in E by lia. lra.
  - apply dinv_nz in E. rewrite H in E. lra.
Qed.

Lemma dinv_collapse_r U i h : mono U -> dinv U i (S (S h)) = 0 -> dinv U i (S h) = 0.
Proof.
  intros HU H. apply dinv_deg.
  destruct (Req_dec (U (i + S (S h))%nat) (U i)) as [E|E].
  - assert (U i <= U (i + S h)%nat) by (apply HU; lia).
    assert (U (i + S h)%nat <= U (i + S (S h))%nat) by (apply HU; lia). lra.
  - apply dinv_nz in E. rewrite H in E. lra.
Qed.

Lemma dinv_one U i p : dinv U i p = 0 \/ (U (i + p)%nat - U i) * dinv U i p = 1.
Proof.
  destruct (Req_dec (U (i + p)%nat) (U i)) as [E|E]; [left; now apply dinv_deg|right; now apply dinv_nz].
Qed.

(** the algebraic identity behind the derivative formula *)
Lemma dcox_step base U h i x : mono U ->
  dinv U i (S (S h)) * cox base U (S h) i x - dinv U (S i) (S (S h)) * cox base U (S h) (S i) x =
  (x - U i) * dinv U i (S (S h)) * (dinv U i (S h) * cox base U h i x - dinv U (S i) (S h) * cox base U h (S i) x) +
  (U (S i + S (S h))%nat - x) * dinv U (S i) (S (S h)) *
    (dinv U (S i) (S h) * cox base U h (S i) x - dinv U (S (S i)) (S h) * cox base U h (S (S i)) x).
Proof.
  intros HU. rewrite !cox_S.
  set (A0 := cox base U h i x). set (A1 := cox base U h (S i) x). set (A2 := cox base U h (S (S i)) x).
  replace (S (S i) + S h)%nat with (S i + S (S h))%nat by lia.
  replace (S i + S h)%nat with (i + S (S h))%nat by lia.
  assert (E : ((U (S i + S (S h))%nat - U (S i)) * dinv U (S i) (S (S h)) -
               (U (i + S (S h))%nat - U i) * dinv U i (S (S h))) * dinv U (S i) (S h) = 0).
  { destruct (dinv_one U i (S (S h))) as [E1|E1].
    - rewrite (dinv_collapse_l U i h HU E1). ring.
    - destruct (dinv_one U (S i) (S (S h))) as [E2|E2].
      + rewrite (dinv_collapse_r U (S i) h HU E2). ring.
      + rewrite E1, E2. ring. }
  apply Rminus_diag_uniq.
  match goal with |- ?l - ?r = 0 => replace (l - r) with (- A1 *
    (((U (S i + S (S h))%nat - U (S i)) * dinv U (S i) (S (S h)) -
               (U (i + S (S h))%nat - U i) * dinv U i (S (S h))) * dinv U (S i) (S h))) by ring end.
  rewrite E. ring.
Qed.

Lemma cox_derivable base U p : mono U -> forall i x,
  derivable_pt_lim (fun x => cox base U p i x) x (dcox base U p i x).
Proof.
  intros HU. induction p as [|h IH]; intros i x.
  - cbn [cox dcox]. apply derivable_pt_lim_const.
  - assert (IHi := IH i x). assert (IHs := IH (S i) x).
    assert (D1 : derivable_pt_lim (fun x => (x - U i) * dinv U i (S h)) x ((1 - 0) * dinv U i (S h) + (x - U i) * 0)).
    {      apply (derivable_pt_lim_mult (fun x => x - U i) (fun _ => dinv U i (S h))).
      - apply (derivable_pt_lim_minus (fun x => x) (fun _ => U i)); [apply derivable_pt_lim_id|apply derivable_pt_lim_const].
      - apply derivable_pt_lim_const. }
    assert (D2 : derivable_pt_lim (fun x => (U (S i + S h)%nat - x) * dinv U (S i) (S h)) x ((0 - 1) * dinv U (S i) (S h) + (U (S i + S h)%nat - x) * 0)).
    {      apply (derivable_pt_lim_mult (fun x => U (S i + S h)%nat - x) (fun _ => dinv U (S i) (S h))).
      - apply (derivable_pt_lim_minus (fun _ => U (S i + S h)%nat) (fun x => x)); [apply derivable_pt_lim_const|apply derivable_pt_lim_id].
      - apply derivable_pt_lim_const. }
    replace ((1 - 0) * dinv U i (S h) + (x - U i) * 0) with (dinv U i (S h)) in D1 by ring.
    replace ((0 - 1) * dinv U (S i) (S h) + (U (S i + S h)%nat - x) * 0) with (- dinv U (S i) (S h)) in D2 by ring.
    assert (T := derivable_pt_lim_plus _ _ x _ _
              (derivable_pt_lim_mult _ _ x _ _ D1 IHi)
              (derivable_pt_lim_mult _ _ x _ _ D2 IHs)).
    replace (dcox base U (S h) i x) with
      (dinv U i (S h) * cox base U h i x + (x - U i) * dinv U i (S h) * dcox base U h i x +
       (- dinv U (S i) (S h) * cox base U h (S i) x + (U (S i + S h)%nat - x) * dinv U (S i) (S h) * dcox base U h (S i) x)).
    + intros eps Heps. destruct (T eps Heps) as [d Hd]. exists d. intros k Hk Hk'.
      specialize (Hd k Hk Hk'). unfold plus_fct, mult_fct in Hd. rewrite !cox_S. exact Hd.
    + destruct h as [|h].
      * cbn [dcox]. simpl INR. ring.
      * assert (E := dcox_step base U h i x HU).
        unfold dcox.
        transitivity (dinv U i (S (S h)) * cox base U (S h) i x - dinv U (S i) (S (S h)) * cox base U (S h) (S i) x
          + INR (S h) * (dinv U i (S (S h)) * cox base U (S h) i x - dinv U (S i) (S (S h)) * cox base U (S h) (S i) x)).
        -- rewrite E at 2. ring.
        -- rewrite (S_INR (S h)). ring.
Qed.

(** ** Agreement of the neighbouring pieces at a knot *)
Section Agree.
  Variable U : nat -> R.
  Hypothesis HU : mono U.
  (** [U a < U (a+1) = ... = U (a+m) < U (a+m+1)] *)
  Variables a m : nat.
  Hypothesis Ha : U a < U (S a).
  Hypothesis Hrun : U (S a) = U (a + m)%nat.
  Hypothesis Hb : U (a + m)%nat < U (S (a + m)).
  Hypothesis Hm : (1 <= m)%nat.

  Lemma run_eq i : (S a <= i <= a + m)%nat -> U i = U (S a).
  Proof.
    intros H. assert (U (S a) <= U i) by (apply HU; lia).
    assert (U i <= U (a + m)%nat) by (apply HU; lia). lra.
  Qed.

  Lemma left_piece q : (q <= m)%nat -> forall i, cox (delta a) U q i (U (S a)) = delta a i.
  Proof.
    induction q as [|h IH]; intros Hq i; [reflexivity|].
    rewrite cox_S, !IH by lia.
    destruct (Nat.eq_dec i a) as [->|Hne].
    - rewrite delta_eq, (delta_ne a (S a)) by lia.
      assert (E : U (a + S h)%nat = U (S a)) by (apply run_eq; lia).
      assert (D := dinv_nz U a (S h)). rewrite E in D. rewrite D by lra. ring.
    - rewrite (delta_ne a i) by exact Hne.
      destruct (Nat.eq_dec (S i) a) as [E|E].
      + rewrite E, delta_eq. rewrite (run_eq (a + S h)) by lia. ring.
      + rewrite (delta_ne a (S i)) by exact E. ring.
  Qed.

  Lemma right_piece q : (q <= m)%nat -> forall i, cox (delta (a + m)) U q i (U (S a)) = delta (a + m - q) i.
  Proof.
    induction q as [|h IH]; intros Hq i.
    - rewrite Nat.sub_0_r. reflexivity.
    - rewrite cox_S, !IH by lia.
      destruct (Nat.eq_dec i (a + m - h)) as [->|Hne].
      + rewrite delta_eq, (delta_ne (a + m - h) (S (a + m - h))) by lia.
        rewrite (run_eq (a + m - h)) by lia. rewrite (delta_ne (a + m - S h)) by lia. ring.
      + rewrite (delta_ne (a + m - h) i) by exact Hne.
        destruct (Nat.eq_dec i (a + m - S h)) as [->|Hne2].
        * rewrite delta_eq. replace (S (a + m - S h)) with (a + m - h)%nat by lia. rewrite delta_eq.
          assert (E : U (a + m - h)%nat = U (S a)) by (apply run_eq; lia).
          assert (L : U (a + m)%nat < U (a + m - h + S h)%nat).
          { assert (U (S (a + m)) <= U (a + m - h + S h)%nat) by (apply HU; lia). lra. }
          rewrite <- Hrun in L.
          assert (D := dinv_nz U (a + m - h) (S h)). rewrite E in D. rewrite D by lra. ring.
        * rewrite (delta_ne (a + m - h) (S i)) by lia. rewrite (delta_ne (a + m - S h) i) by exact Hne2. ring.
  Qed.

  Lemma pieces_agree p i : (m <= p)%nat ->
    cox (delta a) U p i (U (S a)) = cox (delta (a + m)) U p i (U (S a)).
  Proof.
    intros Hp. apply (cox_agree _ _ U m); [|exact Hp].
    intros i'. rewrite left_piece, right_piece by lia. replace (a + m - m)%nat with a by lia. reflexivity.
  Qed.
End Agree.
