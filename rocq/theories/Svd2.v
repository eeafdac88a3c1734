(** * Solutions that drop small singular values *)

From Coq Require Import Reals List Arith Lia Lra ClassicalEpsilon.
From Verif Require Import Num Vec MKnots MPoints MCurve MFit RNum Lists Struct Spec BMath LinAlg Api ApiV Fit3 Svd1.
Local Open Scope R_scope.

Lemma sq_nonneg x : 0 <= x ^ 2. Proof. apply pow2_ge_0. Qed.

Lemma ip_ext2 len f g f' g' : (forall t, (t < len)%nat -> f t = f' t) -> (forall t, (t < len)%nat -> g t = g' t) -> ip len f g = ip len f' g'.
Proof. intros A B. apply rsum_ext. intros t Ht. rewrite A, B by exact Ht. reflexivity. Qed.

Section Truncated.
  Variables (r c k : nat) (a : nat -> nat -> R) (s : nat -> R) (u v : nat -> nat -> R) (eps : R).
  Hypotheses (OU : ortho k r u) (OV : ortho k c v) (S0 : forall i, (i < k)%nat -> 0 <= s i).
  Hypothesis E : forall i t, (i < c)%nat -> (t < r)%nat -> a i t = rsum (fun l => s l * u l t * v l i) k.
  Hypothesis HE : 0 <= eps.
  Definition kept (i : nat) (y : R) : R := if Rlt_dec eps (s i) then y else 0.
  Definition cut_solution (b : nat -> R) (i : nat) : R := rsum (fun l => kept l (v l i * (ip r (u l) b / s l))) k.

  Lemma image_dec x t : (t < r)%nat -> image c a x t = rsum (fun l => s l * ip c (v l) x * u l t) k.
  Proof.
    intros Ht. unfold image, comb. rewrite (rsum_ext _ (fun i => rsum (fun l => s l * u l t * (v l i * x i)) k)).
    - rewrite rsum_swap. apply rsum_ext. intros l Hl. rewrite rsum_scal. unfold ip. ring.
    - intros i Hi. rewrite E by assumption. rewrite <- rsum_scal_r. apply rsum_ext. intros; ring.
  Qed.
  Lemma cut_coef b l : (l < k)%nat -> ip c (v l) (cut_solution b) = kept l (ip r (u l) b / s l).
  Proof.
    intros Hl. rewrite <- (ortho_pick k c v (fun l => kept l (ip r (u l) b / s l)) l OV Hl). apply ip_ext2; [reflexivity|]. intros t Ht.
    unfold cut_solution. apply rsum_ext. intros i Hi. unfold kept. destruct Rlt_dec; ring.
  Qed.
  Lemma cut_image b t : (t < r)%nat -> image c a (cut_solution b) t = rsum (fun l => kept l (ip r (u l) b) * u l t) k.
  Proof.
    intros Ht. rewrite image_dec by exact Ht. apply rsum_ext. intros l Hl. rewrite cut_coef by exact Hl. unfold kept. destruct Rlt_dec; [field; lra|ring].
  Qed.
  Lemma combo_norm len w (al : nat -> R) : ortho k len w -> ip len (fun t => rsum (fun l => al l * w l t) k) (fun t => rsum (fun l => al l * w l t) k) = rsum (fun l => al l ^ 2) k.
  Proof.
    intros O. rewrite ip_combo. apply rsum_ext. intros i Hi. rewrite ip_sym, (ortho_pick k len w al i O Hi). ring.
  Qed.
  Lemma cut_norm b : ip c (cut_solution b) (cut_solution b) = rsum (fun l => kept l ((ip r (u l) b / s l) ^ 2)) k.
  Proof.
    transitivity (ip c (fun i => rsum (fun l => kept l (ip r (u l) b / s l) * v l i) k) (fun i => rsum (fun l => kept l (ip r (u l) b / s l) * v l i) k)).
    - apply ip_ext2; intros t Ht; unfold cut_solution; apply rsum_ext; intros l Hl; unfold kept; destruct Rlt_dec; ring.
    - rewrite (combo_norm c v _ OV). apply rsum_ext. intros l Hl. unfold kept. destruct Rlt_dec; ring.
  Qed.
  Lemma residual b : ip r (fun t => image c a (cut_solution b) t - b t) (fun t => image c a (cut_solution b) t - b t) = ip r b b - rsum (fun l => kept l (ip r (u l) b ^ 2)) k.
  Proof.
    set (w := fun t => rsum (fun l => kept l (ip r (u l) b) * u l t) k).
    transitivity (ip r (fun t => w t - b t) (fun t => w t - b t)); [apply ip_ext2; intros t Ht; rewrite cut_image by exact Ht; reflexivity|].
    assert (WW : ip r w w = rsum (fun l => kept l (ip r (u l) b ^ 2)) k) by (unfold w; rewrite (combo_norm r u _ OU); apply rsum_ext; intros l Hl; unfold kept; destruct Rlt_dec; ring).
    assert (BW : ip r b w = rsum (fun l => kept l (ip r (u l) b ^ 2)) k).
    { unfold w. rewrite ip_combo. apply rsum_ext. intros l Hl. rewrite (ip_sym r b). unfold kept. destruct Rlt_dec; ring. }
    transitivity (ip r w w - 2 * ip r b w + ip r b b); [|rewrite WW, BW; ring].
    unfold ip. rewrite <- rsum_scal, <- rsum_minus, <- rsum_plus. apply rsum_ext. intros; ring.
  Qed.
  Lemma kept_sum_nonneg (f : nat -> R) : (forall l, 0 <= f l) -> 0 <= rsum (fun l => kept l (f l)) k.
  Proof. intros H. apply rsum_nonneg. intros l Hl. unfold kept. destruct Rlt_dec; [apply H|lra]. Qed.
  Lemma bessel b : rsum (fun l => kept l (ip r (u l) b ^ 2)) k <= ip r b b.
  Proof. assert (T := residual b). assert (P : 0 <= ip r (fun t => image c a (cut_solution b) t - b t) (fun t => image c a (cut_solution b) t - b t)) by (apply rsum_nonneg; intros; apply Rle_0_sqr). lra. Qed.

  Lemma cut_bound b : eps ^ 2 * ip c (cut_solution b) (cut_solution b) <= ip r b b.
  Proof.
    eapply Rle_trans; [|apply bessel]. rewrite cut_norm, <- rsum_scal. apply BMath.rsum_le. intros l Hl. unfold kept. destruct Rlt_dec as [L|]; [|lra].
    replace (ip r (u l) b ^ 2) with (s l ^ 2 * (ip r (u l) b / s l) ^ 2) by (field; lra). assert (T := sq_nonneg (ip r (u l) b / s l)). assert (eps ^ 2 <= s l ^ 2) by (cbn; nra). nra.
  Qed.
  Lemma cut_residual b : ip r (fun t => image c a (cut_solution b) t - b t) (fun t => image c a (cut_solution b) t - b t) <= ip r b b.
  Proof. rewrite residual. assert (T := kept_sum_nonneg (fun l => ip r (u l) b ^ 2) ltac:(intros; apply sq_nonneg)). lra. Qed.

  Lemma cut_miss b th : ip c (fun i => ip r (a i) b) (fun i => ip r (a i) b) <= th * eps ^ 2 * ip r b b -> 0 < eps ->
    (1 - th) * ip r b b <= ip r (fun t => image c a (cut_solution b) t - b t) (fun t => image c a (cut_solution b) t - b t).
  Proof.
    intros H He. rewrite residual.
    assert (AT : ip c (fun i => ip r (a i) b) (fun i => ip r (a i) b) = rsum (fun l => (s l * ip r (u l) b) ^ 2) k).
    { transitivity (ip c (fun i => rsum (fun l => s l * ip r (u l) b * v l i) k) (fun i => rsum (fun l => s l * ip r (u l) b * v l i) k)); [|apply combo_norm; exact OV].
      assert (Q : forall i, (i < c)%nat -> ip r (a i) b = rsum (fun l => s l * ip r (u l) b * v l i) k).
      { intros i Hi. rewrite ip_sym. rewrite (ip_sym r b). rewrite (ip_ext r (a i) (fun t => rsum (fun l => s l * v l i * u l t) k) b) by (intros t Ht; rewrite E by assumption; apply rsum_ext; intros; ring).
        rewrite ip_sym, ip_combo. apply rsum_ext. intros l Hl. rewrite (ip_sym r b). ring. }
      apply ip_ext2; exact Q. }
    assert (T : eps ^ 2 * rsum (fun l => kept l (ip r (u l) b ^ 2)) k <= rsum (fun l => (s l * ip r (u l) b) ^ 2) k).
    { rewrite <- rsum_scal. apply BMath.rsum_le. intros l Hl. unfold kept. assert (P := sq_nonneg (ip r (u l) b)). destruct Rlt_dec as [L|]; [|assert (T := sq_nonneg (s l * ip r (u l) b)); lra].
      assert (eps ^ 2 <= s l ^ 2) by (cbn; nra). rewrite Rpow_mult_distr. nra. }
    assert (e2 : 0 < eps ^ 2) by (cbn; nra). rewrite AT in H. apply (Rmult_le_reg_l (eps ^ 2)); [exact e2|]. nra.
  Qed.

  Lemma cut_exact b y : (forall t, (t < r)%nat -> image c a y t = b t) -> (forall l, (l < k)%nat -> s l = 0 \/ eps < s l) -> forall t, (t < r)%nat -> image c a (cut_solution b) t = b t.
  Proof.
    intros HY HS t Ht. rewrite cut_image by exact Ht. rewrite <- (HY t Ht), image_dec by exact Ht. apply rsum_ext. intros l Hl.
    assert (Q : ip r (u l) b = s l * ip c (v l) y).
    { rewrite ip_sym. rewrite (ip_ext r b (fun t => rsum (fun l => s l * ip c (v l) y * u l t) k)) by (intros x Hx; rewrite <- (HY x Hx); apply image_dec; exact Hx). rewrite ip_sym. apply (ortho_pick k r u (fun l => s l * ip c (v l) y) l OU Hl). }
    unfold kept. destruct Rlt_dec; [rewrite Q; ring|]. destruct (HS l Hl) as [->|]; [ring|lra].
  Qed.

  (** a vector on which the matrix shrinks too much is not found again *)
  Lemma cut_lost y b : (forall t, (t < r)%nat -> image c a y t = b t) -> ip c y y <> 0 -> ip r b b <= eps ^ 2 * ip c y y ->
    ~ forall i, (i < c)%nat -> cut_solution b i = y i.
  Proof.
    intros HY NZ H Q.
    assert (QB : forall l, (l < k)%nat -> ip r (u l) b = s l * ip c (v l) y).
    { intros l Hl. rewrite ip_sym. rewrite (ip_ext r b (fun t => rsum (fun l => s l * ip c (v l) y * u l t) k)) by (intros x Hx; rewrite <- (HY x Hx); apply image_dec; exact Hx). rewrite ip_sym. apply (ortho_pick k r u (fun l => s l * ip c (v l) y) l OU Hl). }
    assert (YY : ip c y y = rsum (fun l => kept l (ip c (v l) y ^ 2)) k).
    { transitivity (ip c (cut_solution b) (cut_solution b)); [apply ip_ext2; intros i Hi; rewrite Q by exact Hi; reflexivity|]. rewrite cut_norm. apply rsum_ext. intros l Hl. unfold kept. destruct Rlt_dec; [|reflexivity]. rewrite QB by exact Hl. field. lra. }
    assert (BB : rsum (fun l => kept l (s l ^ 2 * ip c (v l) y ^ 2)) k <= ip r b b).
    { eapply Rle_trans; [|apply bessel]. apply BMath.rsum_le. intros l Hl. unfold kept. destruct Rlt_dec; [|lra]. rewrite QB by exact Hl. rewrite Rpow_mult_distr. lra. }
    assert (Z : forall l, (l < k)%nat -> kept l ((s l ^ 2 - eps ^ 2) * ip c (v l) y ^ 2) = 0).
    { assert (N : forall l, (l < k)%nat -> 0 <= kept l ((s l ^ 2 - eps ^ 2) * ip c (v l) y ^ 2)).
      { intros l Hl. unfold kept. destruct Rlt_dec; [|lra]. apply Rmult_le_pos; [cbn; nra|apply sq_nonneg]. }
      assert (SZ : rsum (fun l => kept l ((s l ^ 2 - eps ^ 2) * ip c (v l) y ^ 2)) k <= 0).
      { apply Rle_trans with (rsum (fun l => kept l (s l ^ 2 * ip c (v l) y ^ 2)) k - eps ^ 2 * rsum (fun l => kept l (ip c (v l) y ^ 2)) k); [|rewrite <- YY; lra].
        rewrite <- rsum_scal, <- rsum_minus. apply Req_le. apply rsum_ext. intros l Hl. unfold kept. destruct Rlt_dec; ring. }
      clear - N SZ. induction k as [|q IH]; [intros; lia|]. cbn [rsum] in SZ. assert (T := N q ltac:(lia)).
      assert (P : 0 <= rsum (fun l => kept l ((s l ^ 2 - eps ^ 2) * ip c (v l) y ^ 2)) q) by (apply rsum_nonneg; intros; apply N; lia).
      intros l Hl. destruct (Nat.eq_dec l q) as [->|]; [lra|]. apply IH; [intros; apply N; lia|lra|lia]. }
    apply NZ. rewrite YY. apply rsum_zero. intros l Hl. assert (T := Z l Hl). unfold kept in *. destruct Rlt_dec as [L|]; [|reflexivity].
    apply Rmult_integral in T. destruct T as [T|T]; [cbn in T; nra|exact T].
  Qed.
End Truncated.

(** ** matrices *)
Lemma ortho_normal k len v : orthonormal k len v <-> ortho k len v.
Proof. split; intros H i j Hi Hj; apply (H i j Hi Hj). Qed.

Lemma truncated_columns eps A B X : truncated eps A B X -> exists k s u v, ortho k (nrows A) u /\ ortho k (ncols A) v /\ (forall i, (i < k)%nat -> 0 <= s i) /\
  (forall i t, (i < ncols A)%nat -> (t < nrows A)%nat -> ent A i t = rsum (fun l => s l * u l t * v l i) k) /\
  forall i d, (i < ncols A)%nat -> (d < ncols B)%nat -> ent X d i = cut_solution (nrows A) k s u v eps (fun t => ent B d t) i.
Proof.
  intros (_ & _ & k & s & u & v & (O1 & O2 & P & E) & X1). exists k, s, u, v. split; [exact O1|]. split; [exact O2|]. split; [exact P|]. split; [intros; apply E; assumption|].
  intros i d Hi Hd. rewrite X1 by assumption. unfold cut_solution, kept. apply rsum_ext. intros l Hl. destruct Rlt_dec; reflexivity.
Qed.

Lemma truncated_exists eps A B : nrows A = nrows B -> exists X, truncated eps A B X.
Proof.
  intros EN. destruct (svd_exists (nrows A) (ncols A) (fun i t => ent A i t)) as (k & s & u & v & O1 & O2 & P & E).
  exists (mat_of (ncols A) (ncols B) (fun i d => rsum (fun l => if Rlt_dec eps (s l) then v l i * (rsum (fun t => u l t * ent B d t) (nrows A) / s l) else 0) k)).
  split; [exact EN|]. split; [apply mat_of_shape|]. exists k, s, u, v. split.
  - split; [exact O1|]. split; [exact O2|]. split; [intros i Hi; left; apply P; exact Hi|]. intros t i Ht Hi. apply E; assumption.
  - intros i d Hi Hd. rewrite ent_mat_of by assumption. reflexivity.
Qed.

Definition some_cutoff (eps : R) (A B : Mat RNum) : M (Mat RNum) :=
  match excluded_middle_informative (exists X, truncated eps A B X) with
  | left H => Val (proj1_sig (constructive_indefinite_description _ H))
  | right _ => Panic
  end.
Lemma some_cutoff_solver eps : cutoff_solver eps (some_cutoff eps).
Proof.
  intros A B EN. unfold some_cutoff. destruct (excluded_middle_informative _) as [H|H]; [|destruct H; apply truncated_exists; exact EN].
  destruct (constructive_indefinite_description _ H) as [X HX]. exists X. split; [reflexivity|exact HX].
Qed.
