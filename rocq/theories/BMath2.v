(** * B-spline mathematics, part 2: locality, affine maps, reversal, knot
      insertion, polynomial pieces *)

From Coq Require Import Reals List Arith Lia Lra.
From Verif Require Import Spec BMath.
Import ListNotations.
Local Open Scope R_scope.

(** ** The piece on span [j] depends only on the knots [j-p+1 .. j+p] *)
Lemma piece_local U U' j p : forall i x,
  (forall a, (j + 1 <= a + p)%nat -> (a <= j + p)%nat -> U a = U' a) ->
  cox (delta j) U p i x = cox (delta j) U' p i x.
Proof.
  induction p as [|h IH]; intros i x H; [reflexivity|].
  assert (IH' : forall i, cox (delta j) U h i x = cox (delta j) U' h i x).
  { intros i'. apply IH. intros a H1 H2. apply H; lia. }
  cbn [cox]. rewrite !IH'. f_equal.
  - destruct (le_lt_dec i j); [destruct (le_lt_dec j (i + h))|].
    + rewrite (H i), (H (i + S h)%nat) by lia. reflexivity.
    + rewrite piece_support by lia. ring.
    + rewrite piece_support by lia. ring.
  - destruct (le_lt_dec (S i) j); [destruct (le_lt_dec j (S i + h))|].
    + rewrite (H (S i)), (H (S i + S h)%nat) by lia. reflexivity.
    + rewrite piece_support by lia. ring.
    + rewrite piece_support by lia. ring.
Qed.

(** ** Affine change of the parameter *)
Lemma ratio_scale a x y : a <> 0 -> ratio (a * x) (a * y) = ratio x y.
Proof.
  intros Ha. unfold ratio. destruct (Req_EM_T (a * y) 0) as [E|E]; destruct (Req_EM_T y 0) as [E'|E'].
  - reflexivity.
  - exfalso. apply Rmult_integral in E. tauto.
  - subst. exfalso. apply E. ring.
  - field. auto.
Qed.

Lemma cox_affine base U V p a b : a <> 0 -> forall i x,
  (forall k, (i <= k <= i + p + 1)%nat -> V k = a * U k + b) ->
  cox base V p i (a * x + b) = cox base U p i x.
Proof.
  intros Ha. induction p as [|h IH]; intros i x H; [reflexivity|].
  cbn [cox]. rewrite !IH by (intros; apply H; lia). rewrite !H by lia.
  replace (a * x + b - (a * U i + b)) with (a * (x - U i)) by ring.
  replace (a * U (i + S h)%nat + b - (a * U i + b)) with (a * (U (i + S h)%nat - U i)) by ring.
  replace (a * U (S i + S h)%nat + b - (a * x + b)) with (a * (U (S i + S h)%nat - x)) by ring.
  replace (a * U (S i + S h)%nat + b - (a * U (S i) + b)) with (a * (U (S i + S h)%nat - U (S i))) by ring.
  rewrite !ratio_scale by exact Ha. reflexivity.
Qed.

(** ** Reversal *)
Lemma cox_rev base U V L p : forall i x,
  (i + p + 1 <= L)%nat ->
  (forall k, (k <= L)%nat -> V k = 1 - U (L - k)%nat) ->
  cox (fun a => base (L - 1 - a)%nat) V p i (1 - x) = cox base U p (L - 1 - p - i) x.
Proof.
  induction p as [|h IH]; intros i x Hi HV.
  - cbn [cox]. f_equal. lia.
  - cbn [cox]. rewrite !IH by (try lia; assumption). rewrite !HV by lia.
    replace (L - 1 - h - i)%nat with (S (L - 1 - S h - i)) by lia.
    replace (L - 1 - h - S i)%nat with (L - 1 - S h - i)%nat by lia.
    replace (L - i)%nat with (S (L - 1 - S h - i) + S h)%nat by lia.
    replace (L - (i + S h))%nat with (S (L - 1 - S h - i))%nat by lia.
    replace (L - (S i + S h))%nat with (L - 1 - S h - i)%nat by lia.
    replace (L - S i)%nat with (L - 1 - S h - i + S h)%nat by lia.
    set (i' := (L - 1 - S h - i)%nat).
    replace (1 - x - (1 - U (S i' + S h)%nat)) with (U (S i' + S h)%nat - x) by ring.
    replace (1 - U (S i') - (1 - U (S i' + S h)%nat)) with (U (S i' + S h)%nat - U (S i')) by ring.
    replace (1 - U i' - (1 - x)) with (x - U i') by ring.
    replace (1 - U i' - (1 - U (i' + S h)%nat)) with (U (i' + S h)%nat - U i') by ring.
    ring.
Qed.

(** ** Knot insertion (Boehm) *)
Definition ins_knots (U : nat -> R) (l : nat) (t : R) (i : nat) : R :=
  if (i <=? l)%nat then U i else if (i =? l + 1)%nat then t else U (i - 1)%nat.

Definition ins_coef (U : nat -> R) (l : nat) (t : R) (p i : nat) : R :=
  if (i + p <=? l)%nat then 1
  else if (l <? i)%nat then 0 else ratio (t - U i) (U (i + p)%nat - U i).

Section Boehm.
  Variable U : nat -> R.
  Hypothesis HU : mono U.
  Variable l : nat.
  Variable t : R.
  Hypothesis Hl : U l <= t.
  Hypothesis Hr : t <= U (S l).

  Notation V := (ins_knots U l t).
  Notation a := (ins_coef U l t).

  Lemma ins_le i : (i <= l)%nat -> V i = U i.
  Proof. intros H. unfold ins_knots. apply Nat.leb_le in H. rewrite H. reflexivity. Qed.
  Lemma ins_eq : V (S l) = t.
  Proof.
    unfold ins_knots. replace (S l <=? l)%nat with false by (symmetry; apply Nat.leb_gt; lia).
    replace (S l =? l + 1)%nat with true by (symmetry; apply Nat.eqb_eq; lia). reflexivity.
  Qed.
  Lemma ins_gt i : (l < i)%nat -> V (S i) = U i.
  Proof.
    intros H. unfold ins_knots. replace (S i <=? l)%nat with false by (symmetry; apply Nat.leb_gt; lia).
    replace (S i =? l + 1)%nat with false by (symmetry; apply Nat.eqb_neq; lia). f_equal. lia.
  Qed.

  Lemma ins_mono_S i : V i <= V (S i).
  Proof.
    destruct (le_lt_dec (S i) l).
    - rewrite !ins_le by lia. apply HU. lia.
    - destruct (Nat.eq_dec i l) as [->|Hne].
      + rewrite ins_eq, ins_le by lia. exact Hl.
      + destruct (Nat.eq_dec i (S l)) as [->|Hne2].
        * rewrite ins_eq, ins_gt by lia. exact Hr.
        * destruct i as [|i]; [lia|]. rewrite !ins_gt by lia. apply HU. lia.
  Qed.

  Lemma ins_mono : mono V.
  Proof.
    intros i j H. induction H as [|j H IH]; [lra|]. assert (T := ins_mono_S j). lra.
  Qed.

  (** [V i <= U i <= V (i+1)] *)
  Lemma ins_below i : V i <= U i.
  Proof.
    destruct (le_lt_dec i l); [rewrite ins_le by lia; lra|].
    destruct i as [|i]; [lia|]. destruct (Nat.eq_dec i l) as [->|Hne]; [rewrite ins_eq; exact Hr|].
    rewrite ins_gt by lia. apply HU. lia.
  Qed.
  Lemma ins_above i : U i <= V (S i).
  Proof.
    destruct (le_lt_dec i l).
    - destruct (Nat.eq_dec i l) as [->|Hne]; [rewrite ins_eq; exact Hl|].
      rewrite ins_le by lia. apply HU. lia.
    - rewrite ins_gt by lia. lra.
  Qed.

  Lemma a_one p i : (i + p <= l)%nat -> a p i = 1.
  Proof. intros H. unfold ins_coef. apply Nat.leb_le in H. rewrite H. reflexivity. Qed.
  Lemma a_zero p i : (l < i)%nat -> a p i = 0.
  Proof.
    intros H. unfold ins_coef. replace (i + p <=? l)%nat with false by (symmetry; apply Nat.leb_gt; lia).
    replace (l <? i)%nat with true by (symmetry; apply Nat.ltb_lt; lia). reflexivity.
  Qed.
  Lemma a_mid p i : (i <= l < i + p)%nat -> a p i = ratio (t - U i) (U (i + p)%nat - U i).
  Proof.
    intros H. unfold ins_coef. replace (i + p <=? l)%nat with false by (symmetry; apply Nat.leb_gt; lia).
    replace (l <? i)%nat with false by (symmetry; apply Nat.ltb_ge; lia). reflexivity.
  Qed.

  Variables j j' : nat.
  (** span [j'] of the refined knots lies in span [j] *)
  Hypothesis Hspan : (j < l /\ j' = j \/ l < j /\ j' = S j \/ j = l /\ (j' = l \/ j' = S l))%nat.
  Hypothesis Hpos : V j' < V (S j').

  Notation Q := (cox (delta j) U).
  Notation Q' := (cox (delta j') V).

  Lemma boehm_base i x : Q 0 i x = a 0 i * Q' 0 i x + (1 - a 0 (S i)) * Q' 0 (S i) x.
  Proof.
    cbn [cox]. unfold ins_coef, delta. rewrite !Nat.add_0_r.
    destruct (i <=? l)%nat eqn:E1; destruct (S i <=? l)%nat eqn:E2;
    destruct (l <? i)%nat eqn:E3; destruct (l <? S i)%nat eqn:E4;
    destruct (i =? j)%nat eqn:E5; destruct (i =? j')%nat eqn:E6; destruct (S i =? j')%nat eqn:E7;
    rewrite ?Nat.leb_le, ?Nat.leb_gt, ?Nat.ltb_lt, ?Nat.ltb_ge, ?Nat.eqb_eq, ?Nat.eqb_neq in *;
    first [ring | exfalso; lia].
  Qed.

  (** the three coefficients in the induction step *)
  Definition w (W : nat -> R) h i x := ratio (x - W i) (W (i + S h)%nat - W i).
  Definition v (W : nat -> R) h i x := ratio (W (i + S h)%nat - x) (W (i + S h)%nat - W i).

  Lemma pos_gap h i : (i <= j' <= i + h)%nat -> V i < V (i + S h)%nat.
  Proof.
    intros H. assert (V i <= V j') by (apply ins_mono; lia).
    assert (V (S j') <= V (i + S h)%nat) by (apply ins_mono; lia). lra.
  Qed.

  Lemma E1 h i x : (w U h i x * a h i - a (S h) i * w V h i x) * Q' h i x = 0.
  Proof.
    destruct (le_lt_dec i j') as [H1|H1]; [|rewrite piece_support by lia; ring].
    destruct (le_lt_dec j' (i + h)) as [H2|H2]; [|rewrite piece_support by lia; ring].
    assert (G := pos_gap h i (conj H1 H2)). unfold w.
    destruct (le_lt_dec (i + S h) l).
    { rewrite !a_one, !ins_le by lia. ring. }
    destruct (le_lt_dec i l) as [Hil|Hil]; [|rewrite !a_zero by lia; ring].
    assert (B := ins_below (i + S h)). rewrite (ins_le i) in * by lia.
    rewrite (a_mid (S h)) by lia.
    destruct (le_lt_dec (i + h) l).
    - (* i + h = l *)
      rewrite (a_one h) by lia. replace (i + S h)%nat with (S l) in * by lia. rewrite ins_eq in *.
      rewrite !ratio_nz by lra. field. lra.
    - replace (i + S h)%nat with (S (i + h)) in * by lia. rewrite (ins_gt (i + h)) in * by lia.
      rewrite (a_mid h) by lia. rewrite !ratio_nz by lra. field. lra.
  Qed.

  Lemma E3 h i x : (v U h (S i) x * (1 - a h (S (S i))) - (1 - a (S h) (S i)) * v V h (S (S i)) x)
                   * Q' h (S (S i)) x = 0.
  Proof.
    destruct (le_lt_dec (S (S i)) j') as [H1|H1]; [|rewrite piece_support by lia; ring].
    destruct (le_lt_dec j' (S (S i) + h)) as [H2|H2]; [|rewrite piece_support by lia; ring].
    assert (G := pos_gap h (S (S i)) (conj H1 H2)). unfold v.
    destruct (le_lt_dec (S i + S h) l).
    { rewrite !a_one by lia. ring. }
    assert (A := ins_above (S i)).
    replace (S (S i) + S h)%nat with (S (S i + S h)) in * by lia. rewrite (ins_gt (S i + S h)) in * by lia.
    destruct (le_lt_dec (S i) l) as [Hil|Hil].
    - rewrite (a_mid (S h) (S i)) by lia.
      destruct (le_lt_dec (S (S i)) l).
      + rewrite (a_mid h) by lia. rewrite (ins_le (S (S i))) in * by lia.
        replace (S (S i) + h)%nat with (S i + S h)%nat in * by lia.
        rewrite !ratio_nz by lra. field. lra.
      + rewrite (a_zero h) by lia. replace (S i) with l in * by lia. rewrite ins_eq in *.
        rewrite !ratio_nz by lra. field. lra.
    - rewrite !a_zero by lia. rewrite ins_gt by lia. ring.
  Qed.

  Lemma E2 h i x : (w U h i x * (1 - a h (S i)) + v U h (S i) x * a h (S i)
                    - a (S h) i * v V h (S i) x - (1 - a (S h) (S i)) * w V h (S i) x) * Q' h (S i) x = 0.
  Proof.
    destruct (le_lt_dec (S i) j') as [H1|H1]; [|rewrite piece_support by lia; ring].
    destruct (le_lt_dec j' (S i + h)) as [H2|H2]; [|rewrite piece_support by lia; ring].
    assert (G := pos_gap h (S i) (conj H1 H2)). unfold w, v.
    replace (i + S h)%nat with (S i + h)%nat in * by lia.
    assert (B := ins_below (S i + S h)). assert (A := ins_above i).
    assert (MU : U i <= U (S i)) by (apply HU; lia).
    assert (MU2 : U (S i + h)%nat <= U (S i + S h)%nat) by (apply HU; lia).
    destruct (le_lt_dec (S i + S h) l).
    { rewrite !a_one, !ins_le by lia. ring. }
    destruct (le_lt_dec (S i + h) l).
    { (* S i + h = l *)
      rewrite (a_one h) by lia. rewrite (a_one (S h) i) by lia. rewrite (a_mid (S h) (S i)) by lia.
      rewrite (ins_le (S i)) in * by lia. replace (S i + S h)%nat with (S l) in * by lia. rewrite ins_eq in *.
      replace (1 - 1) with 0 by ring. rewrite Rmult_0_r.
      rewrite !ratio_nz by lra. field. lra. }
    replace (S i + S h)%nat with (S (S i + h)) in * by lia. rewrite (ins_gt (S i + h)) in * by lia.
    destruct (le_lt_dec i l) as [Hil|Hil].
    - destruct (le_lt_dec (S i) l) as [Hil2|Hil2].
      + rewrite (a_mid h (S i)) by lia. rewrite (a_mid (S h) i) by lia. rewrite (a_mid (S h) (S i)) by lia.
        rewrite (ins_le (S i)) in * by lia.
        replace (i + S h)%nat with (S i + h)%nat by lia.
        replace (S i + S h)%nat with (S (S i + h)) by lia.
        rewrite !ratio_nz by lra. field. repeat split; lra.
      + replace i with l in * by lia.
        rewrite (a_zero h (S l)), (a_zero (S h) (S l)) by lia. rewrite (a_mid (S h) l) by lia.
        rewrite ins_eq in *. replace (l + S h)%nat with (S l + h)%nat by lia.
        rewrite Rmult_0_r.
        rewrite !ratio_nz by lra. field. lra.
    - rewrite !a_zero by lia. rewrite ins_gt by lia. ring.
  Qed.

  Lemma cox_wv base W h i x : cox base W (S h) i x = w W h i x * cox base W h i x + v W h (S i) x * cox base W h (S i) x.
  Proof. reflexivity. Qed.

  Lemma boehm p : forall i x, Q p i x = a p i * Q' p i x + (1 - a p (S i)) * Q' p (S i) x.
  Proof.
    induction p as [|h IH]; intros i x; [apply boehm_base|].
    rewrite !cox_wv. rewrite !IH.
    assert (T1 := E1 h i x). assert (T2 := E2 h i x). assert (T3 := E3 h i x).
    apply Rminus_diag_uniq.
    replace 0 with ((w U h i x * a h i - a (S h) i * w V h i x) * Q' h i x +
      (w U h i x * (1 - a h (S i)) + v U h (S i) x * a h (S i)
                    - a (S h) i * v V h (S i) x - (1 - a (S h) (S i)) * w V h (S i) x) * Q' h (S i) x +
      (v U h (S i) x * (1 - a h (S (S i))) - (1 - a (S h) (S i)) * v V h (S (S i)) x) * Q' h (S (S i)) x)
      by (rewrite T1, T2, T3; ring).
    ring.
  Qed.

  (** the piece of the whole curve *)
  Lemma boehm_sum p n (P : nat -> R) x : (p <= l)%nat -> (l <= n)%nat ->
    rsum (fun i => Q p i x * P i) (S n) =
    rsum (fun i => Q' p i x * (a p i * P i + (1 - a p i) * P (i - 1)%nat)) (S (S n)).
  Proof.
    intros Hp Hn.
    set (f := fun i => Q' p i x * ((1 - a p i) * P (i - 1)%nat)).
    rewrite (rsum_ext _ (fun i => Q' p i x * (a p i * P i) + f (S i)) (S n)).
    2:{ intros i _. rewrite (boehm p i x). unfold f. replace (S i - 1)%nat with i by lia. ring. }
    rewrite rsum_plus, rsum_shift.
    rewrite (rsum_ext _ (fun i => Q' p i x * (a p i * P i) + f i) (S (S n))).
    2:{ intros i _. unfold f. ring. }
    rewrite rsum_plus.
    assert (F0 : f 0%nat = 0) by (unfold f; rewrite a_one by lia; ring).
    change (rsum (fun i => Q' p i x * (a p i * P i)) (S (S n))) with
      (rsum (fun i => Q' p i x * (a p i * P i)) (S n) + Q' p (S n) x * (a p (S n) * P (S n))).
    change (rsum f (S (S n))) with (rsum f (S n) + f (S n)).
    rewrite (a_zero p (S n)) by lia. rewrite F0. ring.
  Qed.
End Boehm.

(** ** Every piece is a polynomial of degree at most [p] *)
Fixpoint padd (a b : list R) : list R :=
  match a, b with
  | [], _ => b
  | _, [] => a
  | x :: a', y :: b' => (x + y) :: padd a' b'
  end.
Definition pscale (c : R) (a : list R) : list R := map (fun x => c * x) a.

Lemma padd_eval a : forall b x, peval (padd a b) x = peval a x + peval b x.
Proof.
  induction a as [|c a IH]; intros [|d b] x; simpl; try lra. rewrite IH. lra.
Qed.
Lemma pscale_eval c a x : peval (pscale c a) x = c * peval a x.
Proof. induction a as [|d a IH]; simpl; [lra|]. rewrite IH. lra. Qed.
Lemma padd_length a : forall b, length (padd a b) = Nat.max (length a) (length b).
Proof. induction a as [|c a IH]; intros [|d b]; simpl; try lia. rewrite IH. lia. Qed.
Lemma pscale_length c a : length (pscale c a) = length a.
Proof. apply map_length. Qed.

(** multiplication by [m * x + q] *)
Lemma plin a m q : exists b, length b = S (length a) /\ forall x, peval b x = (m * x + q) * peval a x.
Proof.
  exists (padd (0 :: pscale m a) (pscale q a)). split.
  - rewrite padd_length. cbn [length]. rewrite !pscale_length. lia.
  - intros x. rewrite padd_eval. simpl. rewrite !pscale_eval. ring.
Qed.

Lemma cox_poly base U p : forall i, exists a, length a = S p /\ forall x, cox base U p i x = peval a x.
Proof.
  induction p as [|h IH]; intros i.
  - exists [base i]. split; [reflexivity|]. intros x. simpl. ring.
  - destruct (IH i) as [a [La Ha]]. destruct (IH (S i)) as [b [Lb Hb]].
    destruct (plin a (dinv U i (S h)) (- U i * dinv U i (S h))) as [a' [La' Ha']].
    destruct (plin b (- dinv U (S i) (S h)) (U (S i + S h)%nat * dinv U (S i) (S h))) as [b' [Lb' Hb']].
    exists (padd a' b'). split; [rewrite padd_length, La', Lb', La, Lb; apply Nat.max_id|].
    intros x. rewrite padd_eval, Ha', Hb', <- Ha, <- Hb, cox_S. ring.
Qed.

Lemma sum_poly base U p (P : nat -> R) n : exists a, length a = S p /\
  forall x, rsum (fun i => cox base U p i x * P i) n = peval a x.
Proof.
  induction n as [|n IH].
  - exists (repeat 0 (S p)). split; [apply repeat_length|]. intros x. cbn [rsum].
    induction (S p) as [|k IHk]; simpl; [reflexivity|]. rewrite <- IHk. ring.
  - destruct IH as [a [La Ha]]. destruct (cox_poly base U p n) as [b [Lb Hb]].
    exists (padd a (pscale (P n) b)). split; [rewrite padd_length, pscale_length, La, Lb; apply Nat.max_id|].
    intros x. cbn [rsum]. rewrite padd_eval, pscale_eval, Ha, Hb. ring.
Qed.
