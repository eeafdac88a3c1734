(** * Approximation of full order *)

From Coq Require Import Reals List Arith Lra Lia.
From Verif Require Import Num Vec MKnots MPoints MCurve MFit MGenerate RNum Lists Spec BMath BMath2 BMath3 BMath4 SW Api ApiS ApiO Bridge Facts1 Shape1 Shape2 Shape3 Stab Shape6 Fit3 Fit5 Fit6 Fit7 Fit11 Marsden Cond.
Import ListNotations.
Local Open Scope R_scope.

(** ** Taylor polynomials *)
Fixpoint pint (j : nat) (a : list R) : list R := match a with [] => [] | c :: t => c / INR (S j) :: pint (S j) t end.

Lemma pint_length a : forall j, length (pint j a) = length a.
Proof. induction a as [|c a IH]; intros j; cbn [pint length]; [reflexivity|]. rewrite IH. reflexivity. Qed.

Lemma deriv_ext (f g : R -> R) x l : (forall t, f t = g t) -> derivable_pt_lim f x l -> derivable_pt_lim g x l.
Proof. intros E D eps He. destruct (D eps He) as [dl H]. exists dl. intros h H1 H2. rewrite <- !E. apply H; assumption. Qed.

Lemma pint_deriv a x : forall j, derivable_pt_lim (fun t => t ^ S j * peval (pint j a) t) x (x ^ j * peval a x).
Proof.
  induction a as [|c a IH]; intros j; cbn [pint peval].
  - apply (deriv_ext (fun _ => 0)); [intros; ring|]. rewrite Rmult_0_r. apply derivable_pt_lim_const.
  - apply (deriv_ext (fun t => c / INR (S j) * t ^ S j + t ^ S (S j) * peval (pint (S j) a) t)); [intros; cbn [pow]; ring|].
    replace (x ^ j * (c + x * peval a x)) with (c / INR (S j) * (INR (S j) * x ^ pred (S j)) + x ^ S j * peval a x).
    + apply (derivable_pt_lim_plus (fun t => c / INR (S j) * t ^ S j) (fun t => t ^ S (S j) * peval (pint (S j) a) t)); [|apply IH].
      apply (derivable_pt_lim_scal (fun t => t ^ S j)). apply derivable_pt_lim_pow.
    + cbn [pred pow]. field. apply not_0_INR. lia.
Qed.

Fixpoint tay (F : nat -> R -> R) (p : nat) (x : R) : list R :=
  match p with
  | O => [F 0%nat x]
  | S p' => let a := pint 0 (tay (fun r => F (S r)) p' x) in (F 0%nat x - x * peval a x) :: a
  end.

Lemma tay_length p : forall F x, length (tay F p x) = S p.
Proof. induction p as [|p IH]; intros F x; cbn [tay length]; [reflexivity|]. rewrite pint_length, IH. reflexivity. Qed.

Lemma tay_at p F x : peval (tay F p x) x = F 0%nat x.
Proof. destruct p; cbn [tay peval]; ring. Qed.

Lemma tay_near M x : 0 <= x <= 1 -> forall p F, (forall r t, (r < p)%nat -> 0 <= t <= 1 -> derivable_pt_lim (F r) t (F (S r) t)) ->
  (forall s t, 0 <= s <= 1 -> 0 <= t <= 1 -> Rabs (F p s - F p t) <= M * Rabs (s - t)) ->
  forall y, 0 <= y <= 1 -> Rabs (F 0%nat y - peval (tay F p x) y) <= M * Rabs (y - x) ^ S p.
Proof.
  intros Hx. induction p as [|p IH]; intros F D Lip y Hy.
  - cbn [tay peval pow]. replace (F 0%nat y - (F 0%nat x + y * 0)) with (F 0%nat y - F 0%nat x) by ring. rewrite Rmult_1_r. apply Lip; assumption.
  - assert (M0 : 0 <= M). { assert (T := Lip 0 1 ltac:(lra) ltac:(lra)). assert (T2 := Rabs_pos (F (S p) 0 - F (S p) 1)). rewrite (Rabs_left (0 - 1)) in T by lra. lra. }
    specialize (IH (fun r => F (S r)) ltac:(intros; apply D; [lia|assumption]) Lip). cbv beta in IH.
    set (a := tay (fun r => F (S r)) p x) in *.
    set (g := fun t => F 0%nat t - peval (tay F (S p) x) t). set (g' := fun t => F 1%nat t - peval a t).
    assert (G : forall t, 0 <= t <= 1 -> derivable_pt_lim g t (g' t)).
    { intros t Ht. unfold g, g'. apply (derivable_pt_lim_minus (F 0%nat) (fun t => peval (tay F (S p) x) t)); [apply D; [lia|exact Ht]|].
      cbn [tay]. fold a. apply (deriv_ext (fun t => (F 0%nat x - x * peval (pint 0 a) x) + t ^ 1 * peval (pint 0 a) t)); [intros; cbn [peval pow]; ring|].
      replace (peval a t) with (0 + t ^ 0 * peval a t) by (cbn [pow]; ring).
      apply (derivable_pt_lim_plus (fun _ => F 0%nat x - x * peval (pint 0 a) x) (fun t => t ^ 1 * peval (pint 0 a) t)); [apply derivable_pt_lim_const|apply pint_deriv]. }
    assert (Z : g x = 0) by (unfold g; rewrite tay_at; ring).
    change (Rabs (g y) <= M * Rabs (y - x) ^ S (S p)).
    assert (Step : forall c, 0 <= c <= 1 -> Rabs (c - x) <= Rabs (y - x) -> Rabs (g' c) * Rabs (y - x) <= M * Rabs (y - x) ^ S (S p)).
    { intros c Hc Lc. replace (M * Rabs (y - x) ^ S (S p)) with ((M * Rabs (y - x) ^ S p) * Rabs (y - x)) by (cbn [pow]; ring). apply Rmult_le_compat_r; [apply Rabs_pos|].
      eapply Rle_trans; [apply IH; exact Hc|]. apply Rmult_le_compat_l; [exact M0|]. apply pow_incr. split; [apply Rabs_pos|exact Lc]. }
    destruct (Rtotal_order x y) as [L|[<-|L]].
    + destruct (MVT_cor2 g g' x y L) as [c [E Hc]]; [intros c Hc; apply G; lra|]. replace (g y) with (g' c * (y - x)) by lra. rewrite Rabs_mult. apply Step; [lra|]. rewrite !Rabs_pos_eq by lra. lra.
    + rewrite Z, Rabs_R0. apply Rmult_le_pos; [exact M0|apply pow_le, Rabs_pos].
    + destruct (MVT_cor2 g g' y x L) as [c [E Hc]]; [intros c Hc; apply G; lra|]. replace (g y) with (g' c * (y - x)) by lra. rewrite Rabs_mult. apply Step; [lra|]. rewrite !Rabs_left by lra. lra.
Qed.

(** ** the control points of a polynomial *)
Definition coef (U : nat -> R) (p : nat) (a : list R) (i : nat) : R := rsum (fun k => nth k a 0 * (ks U (S i) p k / bin p k)) (S p).

Lemma coef_spline p n U a u : fclamped p n U -> (length a <= S p)%nat -> 0 <= u <= 1 -> spline U n p (coef U p a) u = peval a u.
Proof.
  intros FC La Hu. destruct (span_ex p n U FC u Hu) as [j [J1 J2]]. rewrite (spline_piece p n U FC _ u j ltac:(lia) J2). unfold pfun.
  rewrite (rsum_ext _ (fun i => rsum (fun k => nth k a 0 / bin p k * (ks U (S i) p k * cox (delta j) U p i u)) (S p))).
  - rewrite rsum_swap. rewrite (peval_sum a u (S p) La). apply rsum_ext. intros k Hk. rewrite rsum_scal.
    rewrite symmetric_sums; try lia; [|apply (fc_mono _ _ _ FC)|apply J2]. assert (D := bin_pos p k ltac:(lia)). field. lra.
  - intros i Hi. unfold coef. rewrite <- rsum_scal. apply rsum_ext. intros k Hk. unfold Rdiv. ring.
Qed.

Definition steps (U : nat -> R) (h : R) : Prop := forall i, U (S i) - U i <= h.

Lemma jackson p : (1 <= p)%nat -> exists K, 0 <= K /\ forall n U h F M, fclamped p n U -> steps U h ->
  (forall r t, (r < p)%nat -> 0 <= t <= 1 -> derivable_pt_lim (F r) t (F (S r) t)) ->
  (forall s t, 0 <= s <= 1 -> 0 <= t <= 1 -> Rabs (F p s - F p t) <= M * Rabs (s - t)) ->
  let c := fun i => coef U p (tay F p (U (S i))) i in
  c 0%nat = F 0%nat 0 /\ c n = F 0%nat 1 /\ forall u, 0 <= u <= 1 -> Rabs (spline U n p c u - F 0%nat u) <= K * (M * h ^ S p).
Proof.
  intros Hp. destruct (small_spline p) as [K [HK SS]]. set (q := INR (p + 1)). assert (Q0 : 0 <= q) by apply pos_INR. assert (QP : 0 <= q ^ S p) by (apply pow_le; exact Q0).
  exists (K * (2 * q ^ S p)). split; [apply Rmult_le_pos; lra|]. intros n U h F M FC Sp D Lip c.
  assert (Mo := fc_mono _ _ _ FC). assert (R := U_range p n U FC).
  assert (M0 : 0 <= M). { assert (T := Lip 0 1 ltac:(lra) ltac:(lra)). assert (T2 := Rabs_pos (F p 0 - F p 1)). rewrite (Rabs_left (0 - 1)) in T by lra. lra. }
  assert (H0 : 0 <= h) by (assert (T := Sp 0%nat); assert (T2 := Mo 0%nat 1%nat ltac:(lia)); lra).
  assert (U1 : U 1%nat = 0) by (apply (fc_zero _ _ _ FC); lia). assert (Un : U (S n) = 1) by (apply (fc_one _ _ _ FC); lia).
  assert (Len : forall x, (length (tay F p x) <= S p)%nat) by (intros x; rewrite tay_length; lia).
  split; [|split].
  - unfold c. rewrite U1. rewrite <- (spline_at_0 p n U FC (coef U p (tay F p 0))). rewrite (coef_spline p n) by (try apply Len; try assumption; lra). apply tay_at.
  - unfold c. rewrite Un. rewrite <- (spline_at_1 p n U FC (coef U p (tay F p 1))). rewrite (coef_spline p n) by (try apply Len; try assumption; lra). apply tay_at.
  - intros u Hu. destruct (span_ex p n U FC u Hu) as [j [J1 J2]]. destruct (weights p n U j u FC J1 J2) as [w [W1 [W2 W3]]].
    assert (Ru := in_span_le n U u j J2). assert (Js := proj1 J2).
    set (a := tay F p u).
    assert (E : spline U n p c u - F 0%nat u = spline U n p (fun i => c i - coef U p a i) u).
    { rewrite spline_minus, (coef_spline p n U a u FC (Len u) Hu). unfold a. rewrite tay_at. reflexivity. }
    rewrite E, W3. eapply Rle_trans; [apply rsum_tri|].
    rewrite (rsum_ext _ (fun i => w i * Rabs (c (j - p + i)%nat - coef U p a (j - p + i)))) by (intros i Hi; rewrite Rabs_mult, Rabs_pos_eq by (apply W1; lia); reflexivity).
    apply comb_le; [intros i Hi; apply W1; lia|exact W2|]. intros i Hi. set (l := (j - p + i)%nat) in *.
    assert (Sup : U (l + p + 1)%nat - U l <= q * h) by (unfold q; rewrite <- Nat.add_assoc; apply spans_sum; intros k _; apply Sp).
    assert (B1 : U l <= U j) by (apply Mo; lia). assert (B2 : U (S j) <= U (l + p + 1)%nat) by (apply Mo; lia).
    assert (B3 : U l <= U (S l)) by (apply Mo; lia). assert (B4 : U (S l) <= U (l + p + 1)%nat) by (apply Mo; lia).
    rewrite Rmult_assoc. apply (SS n U (fun k => coef U p (tay F p (U (S l))) k - coef U p a k) l (2 * q ^ S p * (M * h ^ S p)) FC); [lia|lra|].
    intros v Hv. assert (Rv : 0 <= v <= 1) by (assert (T1 := R l); assert (T2 := R (l + p + 1)%nat); lra).
    rewrite spline_minus, !(coef_spline p n) by (try apply Len; assumption).
    assert (N1 := tay_near M (U (S l)) (R (S l)) p F D Lip v Rv). assert (N2 := tay_near M u Hu p F D Lip v Rv). fold a in N2.
    assert (P : forall x, Rabs (v - x) <= q * h -> M * Rabs (v - x) ^ S p <= q ^ S p * (M * h ^ S p)).
    { intros x Hx. replace (q ^ S p * (M * h ^ S p)) with (M * (q * h) ^ S p) by (rewrite Rpow_mult_distr; ring). apply Rmult_le_compat_l; [exact M0|]. apply pow_incr. split; [apply Rabs_pos|exact Hx]. }
    assert (P1 := P (U (S l)) ltac:(apply Rabs_le; lra)). assert (P2 := P u ltac:(apply Rabs_le; lra)).
    replace (peval (tay F p (U (S l))) v - peval a v) with ((F 0%nat v - peval a v) + - (F 0%nat v - peval (tay F p (U (S l))) v)) by ring.
    eapply Rle_trans; [apply Rabs_triang|]. rewrite Rabs_Ropp. lra.
Qed.

(** ** curves and fits *)
Lemma steps_kfun p n U h : clamped p n U -> (forall i, (p <= i <= n)%nat -> nth (S i) U 0 - nth i U 0 <= h) -> steps (kfun U) h.
Proof.
  intros CL Sp i. assert (C := kfun_clamped p n U CL). assert (L := cl_len _ _ _ CL). assert (PN := cl_deg _ _ _ CL).
  assert (H0 : 0 <= h) by (assert (T := Sp p ltac:(lia)); assert (T2 := cl_sorted _ _ _ CL p (S p) ltac:(lia) ltac:(lia)); lra).
  destruct (Nat.lt_ge_cases i p) as [A|A]; [rewrite !(fc_zero _ _ _ C) by lia; lra|].
  destruct (Nat.lt_ge_cases n i) as [B|B]; [rewrite !(fc_one _ _ _ C) by lia; lra|]. rewrite !kfun_nth by lia. apply Sp. lia.
Qed.

Lemma near_curve p : (1 <= p)%nat -> exists K, 0 <= K /\ forall n dim U h F M, clamped p n U -> (forall i, (p <= i <= n)%nat -> nth (S i) U 0 - nth i U 0 <= h) -> smooth p dim F M ->
  exists P c, clamped_curve p n dim U P c /\
    (forall u, 0 <= u <= 1 -> exists x, evaluate c u = Val (Ok x) /\ length x = dim /\ forall d, (d < dim)%nat -> Rabs (nth d x 0 - F d 0%nat u) <= K * (M * h ^ S p)) /\
    (forall d, (d < dim)%nat -> ent P 0 d = F d 0%nat 0 /\ ent P n d = F d 0%nat 1).
Proof.
  intros Hp. destruct (jackson p Hp) as [K [HK J]]. exists K. split; [exact HK|]. intros n dim U h F M CL Sp [S1 S2].
  set (co := fun d i => coef (kfun U) p (tay (F d) p (kfun U (S i))) i).
  destruct (new_curve p n dim U (mat_of dim (S n) co) CL (mat_of_shape _ _ _)) as [c H]. exists (mat_of dim (S n) co), c. split; [exact H|].
  assert (E : forall i d, (i <= n)%nat -> (d < dim)%nat -> ent (mat_of dim (S n) co) i d = co d i) by (intros; rewrite ent_mat_of by lia; reflexivity).
  assert (JJ := fun d Hd => J n (kfun U) h (F d) M (kfun_clamped p n U CL) (steps_kfun p n U h CL Sp) (fun r t Hr Ht => S1 d r t Hd Hr Ht) (fun s t Hs Ht => S2 d s t Hd Hs Ht)). cbv zeta in JJ.
  split.
  - intros u Hu. destruct (cc_eval0 p n dim U _ c u H Hu) as [x [X1 [X2 X3]]]. exists x. split; [exact X1|]. split; [exact X2|]. intros d Hd. rewrite X3 by exact Hd.
    rewrite (spline_ext _ n p _ (co d)) by (intros; apply E; assumption). apply JJ; assumption.
  - intros d Hd. rewrite !E by (try exact Hd; lia). split; apply (JJ d Hd).
Qed.

Lemma fit_order p : (1 <= p)%nat -> exists K, 0 <= K /\ forall svd n m dim (Q : Mat RNum) F M s, good_solver svd -> shape dim (S m) Q -> (p <= n <= m)%nat -> smooth p dim F M ->
  (forall g d, (g <= m)%nat -> (d < dim)%nat -> Rabs (ent Q g d - F d 0%nat (INR g / INR m)) <= s) ->
  (exists c e, generate svd (LeastSquaresFit p Q n LooseEnds None) = Val (Ok c) /\ data_error c dim m Q e /\ e <= INR (S m) * (INR dim * (s + K * (M * (/ INR (n - p + 1)) ^ S p)) ^ 2)) /\
  ((2 <= n)%nat -> (forall d, (d < dim)%nat -> ent Q 0 d = F d 0%nat 0 /\ ent Q m d = F d 0%nat 1) ->
   exists c e, generate svd (LeastSquaresFit p Q n FixedEnds None) = Val (Ok c) /\ data_error c dim m Q e /\ e <= INR (S m) * (INR dim * (s + K * (M * (/ INR (n - p + 1)) ^ S p)) ^ 2)).
Proof.
  intros Hp. destruct (near_curve p Hp) as [K [HK NC]]. exists K. split; [exact HK|]. intros svd n m dim Q F M s GS SQ Hm SM Noise.
  assert (Comp : forall U, clamped p n U -> uniform_knots p n U -> exists P c, clamped_curve p n dim U P c /\
     (forall d, (d < dim)%nat -> ent P 0 d = F d 0%nat 0 /\ ent P n d = F d 0%nat 1) /\ forall e, data_error c dim m Q e -> e <= INR (S m) * (INR dim * (s + K * (M * (/ INR (n - p + 1)) ^ S p)) ^ 2)).
  { intros U CL UK. destruct (NC n dim U (/ INR (n - p + 1)) F M CL) as [P [c [H [B Ends]]]]; [intros i Hi; apply (uniform_step p n U i UK Hi)|exact SM|].
    exists P, c. split; [exact H|]. split; [exact Ends|]. intros e. apply (near_error p n m dim U P c Q _ e H ltac:(lia)). intros g Hg.
    destruct (B (INR g / INR m) ltac:(apply frac01; lia)) as [x [E [L V]]]. exists x. split; [exact E|]. split; [exact L|].
    intros d Hd. assert (T1 := V d Hd). assert (T2 := Noise g d Hg Hd).
    replace (nth d x 0 - ent Q g d) with ((nth d x 0 - F d 0%nat (INR g / INR m)) + - (ent Q g d - F d 0%nat (INR g / INR m))) by ring.
    eapply Rle_trans; [apply Rabs_triang|]. rewrite Rabs_Ropp. lra. }
  split.
  - destruct (loose_fit_fact svd p n m dim Q None GS SQ ltac:(lia) ltac:(lia) ltac:(discriminate)) as [U [C [c [e [E [HC [UK [DE UN]]]]]]]].
    exists c, e. split; [exact E|]. split; [exact DE|]. destruct (Comp U (proj1 HC) UK) as [P' [c' [H' [_ B]]]].
    assert (DE' := proj2 (data_error_val p n dim m U P' c' Q _ H' ltac:(lia)) eq_refl). destruct (UN P' c' _ H' DE') as [A _]. cbn [penalty] in A. specialize (B _ DE'). lra.
  - intros H2 Ends. destruct (fixed_fit_fact svd p n m dim Q None GS SQ ltac:(lia) ltac:(lia) ltac:(discriminate)) as [U [C [c [e [E [HC [UK [DE [E0 [E1 UN]]]]]]]]]].
    exists c, e. split; [exact E|]. split; [exact DE|]. destruct (Comp U (proj1 HC) UK) as [P' [c' [H' [Ends' B]]]].
    assert (DE' := proj2 (data_error_val p n dim m U P' c' Q _ H' ltac:(lia)) eq_refl).
    destruct (end_values p n dim U P' c' (fun d => ent Q 0 d) (fun d => ent Q m d) H') as [V0 V1].
    destruct (UN P' c' _ H' DE') as [A _].
    + apply V0. intros d Hd. rewrite (proj1 (Ends' d Hd)), (proj1 (Ends d Hd)). reflexivity.
    + apply V1. intros d Hd. rewrite (proj2 (Ends' d Hd)), (proj2 (Ends d Hd)). reflexivity.
    + cbn [penalty] in A. specialize (B _ DE'). lra.
Qed.
