(** * Linear algebra: normal equations are solvable, injective square systems are solvable *)

From Coq Require Import Reals Arith Lia Lra.
From Verif Require Import Spec BMath.
Local Open Scope R_scope.

Section Projection.
  Variable rows : nat.
  Definition ip (f g : nat -> R) : R := rsum (fun t => f t * g t) rows.
  Definition comb (A : nat -> nat -> R) (x : nat -> R) (k : nat) (t : nat) : R := rsum (fun j => A j t * x j) k.

  Lemma ip_sub f g h : ip (fun t => f t - g t) h = ip f h - ip g h.
  Proof. unfold ip. rewrite <- rsum_minus. apply rsum_ext. intros; ring. Qed.
  Lemma ip_scal c f h : ip (fun t => c * f t) h = c * ip f h.
  Proof. unfold ip. rewrite <- rsum_scal. apply rsum_ext. intros; ring. Qed.
  Lemma ip_sym f g : ip f g = ip g f.
  Proof. unfold ip. apply rsum_ext. intros; ring. Qed.
  Lemma ip_ext f g h : (forall t, (t < rows)%nat -> f t = g t) -> ip f h = ip g h.
  Proof. intros H. unfold ip. apply rsum_ext. intros t Ht. rewrite H by exact Ht. reflexivity. Qed.
  Lemma ip_comb f A x k : ip f (comb A x k) = rsum (fun j => ip f (A j) * x j) k.
  Proof.
    unfold ip, comb. rewrite (rsum_ext _ (fun t => rsum (fun j => f t * A j t * x j) k)).
    - rewrite rsum_swap. apply rsum_ext. intros j _. rewrite <- rsum_scal_r. reflexivity.
    - intros t _. rewrite <- rsum_scal. apply rsum_ext. intros; ring.
  Qed.
  Lemma ip_zero f : ip f f = 0 -> forall t, (t < rows)%nat -> f t = 0.
  Proof.
    unfold ip. induction rows as [|r IH]; intros H t Ht; [lia|]. cbn [rsum] in H.
    assert (0 <= rsum (fun t => f t * f t) r) by (apply rsum_nonneg; intros; apply Rle_0_sqr).
    assert (0 <= f r * f r) by apply Rle_0_sqr.
    destruct (Nat.eq_dec t r) as [->|]; [|apply IH; [lra|lia]].
    assert (E : f r * f r = 0) by lra. apply Rmult_integral in E. tauto.
  Qed.

  (** the residual of a best approximation is orthogonal to the columns *)
  Lemma projection A k : forall b, exists x, forall i, (i < k)%nat -> ip (fun t => b t - comb A x k t) (A i) = 0.
  Proof.
    induction k as [|k IH]; intros b; [exists (fun _ => 0); intros; lia|].
    destruct (IH (A k)) as [y Hy]. destruct (IH b) as [x Hx].
    set (r0 := fun t => A k t - comb A y k t) in *. set (r1 := fun t => b t - comb A x k t) in *.
    assert (Ck : forall f, (forall i, (i < k)%nat -> ip f (A i) = 0) -> ip f (A k) = ip f r0).
    { intros f Hf. assert (E : ip f (comb A y k) = 0).
      { rewrite ip_comb. apply rsum_zero. intros j Hj. rewrite Hf by exact Hj. ring. }
      rewrite (ip_sym f r0). unfold r0. rewrite ip_sub. rewrite (ip_sym (comb A y k)), E, ip_sym. ring. }
    destruct (Req_dec (ip r0 r0) 0) as [E|E].
    - exists (fun j => if (j =? k)%nat then 0 else x j). intros i Hi.
      assert (T : ip r1 (A i) = 0).
      { destruct (Nat.eq_dec i k) as [->|]; [|apply Hx; lia]. rewrite Ck by exact Hx. unfold ip. apply rsum_zero. intros t Ht. rewrite (ip_zero r0 E t Ht). ring. }
      transitivity (ip r1 (A i)); [|exact T]. apply ip_ext. intros t Ht. unfold r1, comb. cbn [rsum]. rewrite Nat.eqb_refl.
      rewrite (rsum_ext (fun j => A j t * (if (j =? k)%nat then 0 else x j)) (fun j => A j t * x j) k); [ring|]. intros j Hj. replace (j =? k)%nat with false by (symmetry; apply Nat.eqb_neq; lia). reflexivity.
    - set (al := ip r1 r0 / ip r0 r0). exists (fun j => if (j =? k)%nat then al else x j - al * y j). intros i Hi.
      assert (T : ip (fun t => r1 t - al * r0 t) (A i) = 0).
      { assert (T' : forall i, (i < k)%nat -> ip (fun t => r1 t - al * r0 t) (A i) = 0).
        { intros j Hj. rewrite ip_sub, ip_scal, Hx, Hy by exact Hj. ring. }
        destruct (Nat.eq_dec i k) as [->|]; [|apply T'; lia]. rewrite (Ck _ T'). rewrite ip_sub, ip_scal. unfold al. field. exact E. }
      transitivity (ip (fun t => r1 t - al * r0 t) (A i)); [|exact T]. apply ip_ext. intros t Ht. unfold r1, r0, comb. cbn [rsum]. rewrite Nat.eqb_refl.
      rewrite (rsum_ext (fun j => A j t * (if (j =? k)%nat then al else x j - al * y j)) (fun j => A j t * x j - al * (A j t * y j)) k).
      + rewrite rsum_minus, rsum_scal. ring.
      + intros j Hj. replace (j =? k)%nat with false by (symmetry; apply Nat.eqb_neq; lia). ring.
  Qed.
End Projection.

(** the normal equations of a weighted least-squares problem can be solved *)
Lemma normal_solvable (N L : nat -> nat -> R) rows q cols lam (b : nat -> R) : 0 <= lam ->
  exists x, forall i, (i < cols)%nat ->
    rsum (fun j => (rsum (fun g => N g i * N g j) rows + lam * rsum (fun r => L r i * L r j) q) * x j) cols = rsum (fun g => N g i * b g) rows.
Proof.
  intros Hl. set (A := fun j t => if (t <? rows)%nat then N t j else sqrt lam * L (t - rows)%nat j).
  set (b' := fun t => if (t <? rows)%nat then b t else 0).
  assert (IP : forall f g, ip (rows + q) f g = rsum (fun t => f t * g t) rows + rsum (fun r => f (rows + r)%nat * g (rows + r)%nat) q).
  { intros f g. unfold ip. apply rsum_add. }
  assert (Lo : forall t, (t < rows)%nat -> (t <? rows)%nat = true) by (intros; apply Nat.ltb_lt; assumption).
  assert (Hi' : forall r, (rows + r <? rows)%nat = false) by (intros; apply Nat.ltb_ge; lia).
  assert (AA : forall i j, ip (rows + q) (A i) (A j) = rsum (fun g => N g i * N g j) rows + lam * rsum (fun r => L r i * L r j) q).
  { intros i j. rewrite IP. f_equal.
    - apply rsum_ext. intros t Ht. unfold A. rewrite (Lo t Ht). reflexivity.
    - rewrite <- rsum_scal. apply rsum_ext. intros r Hr. unfold A. rewrite Hi'. replace (rows + r - rows)%nat with r by lia.
      rewrite <- (sqrt_sqrt lam Hl) at 3. ring. }
  assert (AB : forall i, ip (rows + q) b' (A i) = rsum (fun g => N g i * b g) rows).
  { intros i. rewrite IP. rewrite (rsum_zero _ q) by (intros r Hr; unfold b'; rewrite Hi'; ring). rewrite Rplus_0_r.
    apply rsum_ext. intros t Ht. unfold A, b'. rewrite (Lo t Ht). ring. }
  destruct (projection (rows + q) A cols b') as [x Hx]. exists x. intros i Hi. specialize (Hx i Hi).
  rewrite ip_sub, AB in Hx. rewrite (ip_sym _ (comb A x cols)), ip_comb in Hx.
  rewrite (rsum_ext _ (fun j => ip (rows + q) (A i) (A j) * x j)) by (intros j Hj; rewrite AA; reflexivity). lra.
Qed.

(** ** more unknowns than equations *)
Lemma nontrivial k : forall m (a : nat -> nat -> R), (k < m)%nat ->
  exists x, (exists j, (j < m)%nat /\ x j <> 0) /\ forall i, (i < k)%nat -> rsum (fun j => a i j * x j) m = 0.
Proof.
  induction k as [|k IH]; intros m a Hkm.
  - exists (fun _ => 1). split; [exists 0%nat; split; [lia|lra]|]. intros; lia.
  - destruct m as [|m]; [lia|].
    (* eliminate with the last unknown *)
    assert (Case : (exists r, (r < S k)%nat /\ a r m <> 0) \/ forall r, (r < S k)%nat -> a r m = 0).
    { clear. induction (S k) as [|q IHq]; [right; intros; lia|]. destruct IHq as [[r [Hr H]]|H]; [left; exists r; split; [lia|exact H]|].
      destruct (Req_dec (a q m) 0) as [E|E]; [|left; exists q; split; [lia|exact E]]. right. intros r Hr. destruct (Nat.eq_dec r q) as [->|]; [exact E|apply H; lia]. }
    destruct Case as [[r [Hr Nr]]|Z].
    + set (row := fun i => if (i <? r)%nat then i else S i).
      destruct (IH m (fun i j => a (row i) j - a (row i) m / a r m * a r j) ltac:(lia)) as [x [[j0 [Hj0 Nx]] Hx]].
      set (xm := - rsum (fun j => a r j * x j) m / a r m).
      exists (fun j => if (j =? m)%nat then xm else x j). split.
      * exists j0. split; [lia|]. replace (j0 =? m)%nat with false by (symmetry; apply Nat.eqb_neq; lia). exact Nx.
      * assert (Full : forall i, rsum (fun j => a i j * (if (j =? m)%nat then xm else x j)) (S m) = rsum (fun j => a i j * x j) m + a i m * xm).
        { intros i. cbn [rsum]. rewrite Nat.eqb_refl. f_equal. apply rsum_ext. intros j Hj. replace (j =? m)%nat with false by (symmetry; apply Nat.eqb_neq; lia). reflexivity. }
        intros i Hi. rewrite Full. destruct (Nat.eq_dec i r) as [->|Nir]; [unfold xm; field; exact Nr|].
        assert (Ei : exists i', (i' < k)%nat /\ row i' = i).
        { unfold row. destruct (le_lt_dec r i) as [L|L].
          - exists (i - 1)%nat. split; [lia|]. replace (i - 1 <? r)%nat with false by (symmetry; apply Nat.ltb_ge; lia). lia.
          - exists i. split; [lia|]. replace (i <? r)%nat with true by (symmetry; apply Nat.ltb_lt; lia). reflexivity. }
        destruct Ei as [i' [Hi' Ei]]. specialize (Hx i' Hi'). rewrite Ei in Hx.
        rewrite (rsum_ext _ (fun j => a i j * x j - a i m / a r m * (a r j * x j))) in Hx by (intros; ring).
        rewrite rsum_minus, rsum_scal in Hx. unfold xm. replace (a i m * (- rsum (fun j => a r j * x j) m / a r m)) with (- (a i m / a r m * rsum (fun j => a r j * x j) m)) by (field; exact Nr). lra.
    + exists (fun j => if (j =? m)%nat then 1 else 0). split; [exists m; split; [lia|]; rewrite Nat.eqb_refl; lra|].
      intros i Hi. cbn [rsum]. rewrite Nat.eqb_refl, Z by exact Hi. rewrite rsum_zero; [ring|]. intros j Hj. replace (j =? m)%nat with false by (symmetry; apply Nat.eqb_neq; lia). ring.
Qed.

Lemma square_solvable k (a : nat -> nat -> R) (b : nat -> R) :
  (forall x, (forall i, (i < k)%nat -> rsum (fun j => a i j * x j) k = 0) -> forall j, (j < k)%nat -> x j = 0) ->
  exists x, forall i, (i < k)%nat -> rsum (fun j => a i j * x j) k = b i.
Proof.
  intros Inj. destruct (nontrivial k (S k) (fun i j => if (j =? k)%nat then b i else a i j) ltac:(lia)) as [x [[j0 [Hj0 Nx]] Hx]].
  assert (Full : forall i, (i < k)%nat -> rsum (fun j => a i j * x j) k + b i * x k = 0).
  { intros i Hi. rewrite <- (Hx i Hi). cbn [rsum]. rewrite Nat.eqb_refl. f_equal. apply rsum_ext. intros j Hj. replace (j =? k)%nat with false by (symmetry; apply Nat.eqb_neq; lia). reflexivity. }
  assert (Nk : x k <> 0).
  { intros E. apply Nx. destruct (Nat.eq_dec j0 k) as [->|]; [exact E|]. apply Inj; [|lia]. intros i Hi. assert (T := Full i Hi). rewrite E in T. lra. }
  exists (fun j => - x j / x k). intros i Hi. rewrite (rsum_ext _ (fun j => - / x k * (a i j * x j))) by (intros; field; exact Nk).
  rewrite rsum_scal. assert (T := Full i Hi). replace (rsum (fun j => a i j * x j) k) with (- (b i * x k)) by lra. field. exact Nk.
Qed.
