(** * Curves that are close have control points that are close *)

From Coq Require Import Reals List Arith Lra Lia.
From Verif Require Import Num Vec MKnots MPoints MCurve RNum Lists Spec BMath BMath2 BMath3 BMath4 Api ApiM Bridge Facts1 SW Merge3 Merge12 Shape1 Shape2 Float7 Marsden.
Import ListNotations.
Local Open Scope R_scope.

Lemma abs_inv a b : Rabs a <= b -> - b <= a <= b.
Proof. unfold Rabs. destruct Rcase_abs; lra. Qed.

(** ** polynomials: small values give small coefficients *)
Fixpoint pnorm (a : list R) : R := match a with [] => 0 | c :: t => Rabs c + pnorm t end.

Lemma pnorm_ge0 a : 0 <= pnorm a.
Proof. induction a as [|c a IH]; cbn [pnorm]; [lra|]. assert (T := Rabs_pos c). lra. Qed.
Lemma pnorm_padd a : forall b, pnorm (padd a b) <= pnorm a + pnorm b.
Proof.
  induction a as [|c a IH]; intros [|d b]; cbn [padd pnorm]; try lra.
  assert (T := Rabs_triang c d). specialize (IH b). lra.
Qed.
Lemma pnorm_pscale c a : pnorm (pscale c a) = Rabs c * pnorm a.
Proof. induction a as [|d a IH]; cbn [pscale map pnorm]; [ring|]. fold (pscale c a). rewrite IH, Rabs_mult. ring. Qed.
Lemma pnorm_sum a : forall m, (length a <= m)%nat -> rsum (fun k => Rabs (nth k a 0)) m = pnorm a.
Proof.
  induction a as [|c a IH]; intros m Hm; [apply rsum_zero; intros k _; destruct k; cbn [nth]; apply Rabs_R0|].
  destruct m as [|m]; [cbn [length] in Hm; lia|]. cbn [length] in Hm. rewrite rsum_first. cbn [nth pnorm]. rewrite (IH m) by lia. reflexivity.
Qed.

Lemma pcomp m q W a : 1 <= W -> Rabs m + Rabs q <= W -> exists b, (length b <= length a)%nat /\ (forall x, peval b x = peval a (m * x + q)) /\ pnorm b <= W ^ length a * pnorm a.
Proof.
  intros H1 HW. induction a as [|c a [b [L [E N]]]]; [exists []; split; [cbn; lia|]; split; [reflexivity|cbn; lra]|].
  exists (padd [c] (padd (0 :: pscale m b) (pscale q b))). split; [rewrite !padd_length; cbn [length]; rewrite !pscale_length; lia|]. split.
  - intros x. rewrite !padd_eval. cbn [peval]. rewrite !pscale_eval, E. ring.
  - assert (A := pnorm_padd [c] (padd (0 :: pscale m b) (pscale q b))). assert (B := pnorm_padd (0 :: pscale m b) (pscale q b)). cbn [pnorm] in *. rewrite Rabs_R0 in B. rewrite !pnorm_pscale in B.
    assert (Pb := pnorm_ge0 b). assert (Pa := pnorm_ge0 a). assert (Wp : 1 <= W ^ length a) by (apply pow_R1_Rle; exact H1). cbn [length pow].
    assert (X : (Rabs m + Rabs q) * pnorm b <= W * (W ^ length a * pnorm a)) by (apply Rmult_le_compat; try assumption; assert (T1 := Rabs_pos m); assert (T2 := Rabs_pos q); lra).
    assert (Y : Rabs c <= W * W ^ length a * Rabs c). { assert (T := Rabs_pos c). assert (1 <= W * W ^ length a) by (rewrite <- (Rmult_1_r 1); apply Rmult_le_compat; lra). assert (1 * Rabs c <= W * W ^ length a * Rabs c) by (apply Rmult_le_compat_r; assumption). lra. }
    lra.
Qed.

Lemma small_poly p : exists K, 1 <= K /\ forall a B, (length a <= S p)%nat -> (forall x, 0 <= x < 1 -> Rabs (peval a x) <= B) ->
  exists b, (length b <= S p)%nat /\ (forall x, peval b x = peval a x) /\ pnorm b <= K * B.
Proof.
  induction p as [|p [K [HK IH]]].
  - exists 1. split; [lra|]. intros a B L H. exists a. split; [exact L|]. split; [reflexivity|]. specialize (H 0 ltac:(lra)).
    destruct a as [|c [|d a]]; [| |cbn in L; lia]; cbn [peval pnorm] in *; [rewrite Rabs_R0 in H; lra|]. replace (c + 0 * 0) with c in H by ring. lra.
  - exists (1 + 3 ^ S p * (K * 4)). assert (P3 : 1 <= 3 ^ S p) by (apply pow_R1_Rle; lra). split; [assert (0 <= 3 ^ S p * (K * 4)) by (apply Rmult_le_pos; lra); lra|].
    intros a B L H. assert (HB : 0 <= B) by (assert (T := H 0 ltac:(lra)); assert (T2 := Rabs_pos (peval a 0)); lra).
    destruct a as [|c t].
    + exists []. split; [cbn; lia|]. split; [reflexivity|]. cbn [pnorm]. apply Rmult_le_pos; [|exact HB]. assert (0 <= 3 ^ S p * (K * 4)) by (apply Rmult_le_pos; lra); lra.
    + cbn [length] in L. assert (Hc : Rabs c <= B) by (assert (T := H 0 ltac:(lra)); cbn [peval] in T; replace (c + 0 * peval t 0) with c in T by ring; exact T).
      destruct (pcomp (/ 2) (/ 2) 1 t) as [s [Ls [Es _]]]; [lra|rewrite Rabs_pos_eq by lra; lra|].
      destruct (IH s (4 * B)) as [b [Lb [Eb Nb]]]; [lia| |].
      { intros y Hy. rewrite Es. set (x := / 2 * y + / 2). assert (Hx : / 2 <= x < 1) by (unfold x; lra). specialize (H x ltac:(lra)). cbn [peval] in H.
        apply abs_inv in H. apply abs_inv in Hc. assert (Z : - (2 * B) <= x * peval t x <= 2 * B) by lra. set (v := peval t x) in *.
        apply Rabs_le. destruct (Rle_lt_dec 0 v) as [V|V]; [assert (/ 2 * v <= x * v) by (apply Rmult_le_compat_r; lra); lra|assert (/ 2 * - v <= x * - v) by (apply Rmult_le_compat_r; lra); lra]. }
      destruct (pcomp 2 (- 1) 3 b) as [t' [Lt [Et Nt]]]; [lra|rewrite (Rabs_pos_eq 2), (Rabs_left (- 1)) by lra; lra|].
      exists (c :: t'). split; [cbn [length]; lia|]. split.
      * intros x. cbn [peval]. rewrite Et, Eb, Es. do 3 f_equal. lra.
      * cbn [pnorm]. assert (X : pnorm t' <= 3 ^ S p * (K * (4 * B))).
        { eapply Rle_trans; [exact Nt|]. apply Rmult_le_compat; [apply pow_le; lra|apply pnorm_ge0|apply Rle_pow; [lra|exact Lb]|exact Nb]. }
        lra.
Qed.

(** ** symmetric polynomials of small numbers *)
Lemma bin_ge0 p : forall k, 0 <= bin p k.
Proof. induction p as [|p IH]; intros [|k]; cbn [bin]; try lra. assert (A := IH (S k)). assert (B := IH k). lra. Qed.
Lemma ks_bound U i r : 1 <= r -> forall p k, (forall j, (i <= j < i + p)%nat -> Rabs (U j) <= r) -> Rabs (ks U i p k) <= bin p k * r ^ p.
Proof.
  intros Hr. induction p as [|p IH]; intros k H.
  - destruct k as [|k]; [rewrite ks_0, Rabs_R1; cbn; lra|]. change (ks U i 0 (S k)) with 0. rewrite Rabs_R0. cbn. lra.
  - assert (Rp : 1 <= r ^ p) by (apply pow_R1_Rle; exact Hr). destruct k as [|k].
    + rewrite ks_0, Rabs_R1, bin_0, Rmult_1_l. apply pow_R1_Rle; exact Hr.
    + rewrite ks_right. eapply Rle_trans; [apply Rabs_triang|]. rewrite Rabs_mult. assert (A := IH (S k) ltac:(intros; apply H; lia)). assert (B := IH k ltac:(intros; apply H; lia)).
      assert (D := H (i + p)%nat ltac:(lia)). cbn [bin pow]. assert (B1 := bin_ge0 p (S k)). assert (B2 := bin_ge0 p k).
      assert (X : Rabs (U (i + p)%nat) * Rabs (ks U i p k) <= r * (bin p k * r ^ p)) by (apply Rmult_le_compat; try apply Rabs_pos; assumption).
      assert (Y : bin p (S k) * r ^ p <= r * (bin p (S k) * r ^ p)) by (assert (0 <= bin p (S k) * r ^ p) by (apply Rmult_le_pos; lra); assert (1 * (bin p (S k) * r ^ p) <= r * (bin p (S k) * r ^ p)) by (apply Rmult_le_compat_r; lra); lra).
      lra.
Qed.
Lemma bin_pos p : forall k, (k <= p)%nat -> 0 < bin p k.
Proof. induction p as [|p IH]; intros [|k] H; cbn [bin]; try lra; try lia. assert (A := bin_ge0 p (S k)). assert (B := IH k ltac:(lia)). lra. Qed.

(** ** the widest span *)
Lemma widest U i q : mono U -> exists j, (i <= j <= i + q)%nat /\ forall k, (i <= k <= i + q)%nat -> U (S k) - U k <= U (S j) - U j.
Proof.
  intros HU. induction q as [|q [j [J1 J2]]].
  - exists i. split; [lia|]. intros k Hk. replace k with i by lia. lra.
  - destruct (Rle_lt_dec (U (S (i + S q)) - U (i + S q)%nat) (U (S j) - U j)) as [L|L].
    + exists j. split; [lia|]. intros k Hk. destruct (Nat.eq_dec k (i + S q)) as [->|N]; [exact L|apply J2; lia].
    + exists (i + S q)%nat. split; [lia|]. intros k Hk. destruct (Nat.eq_dec k (i + S q)) as [->|N]; [lra|]. specialize (J2 k ltac:(lia)). lra.
Qed.
Lemma spans_sum U i h q : (forall k, (i <= k < i + q)%nat -> U (S k) - U k <= h) -> U (i + q)%nat - U i <= INR q * h.
Proof.
  induction q as [|q IH]; intros H; [rewrite Nat.add_0_r; cbn; lra|]. rewrite S_INR. specialize (IH ltac:(intros; apply H; lia)). assert (T := H (i + q)%nat ltac:(lia)).
  replace (i + S q)%nat with (S (i + q)) by lia. lra.
Qed.

(** ** splines *)
Lemma small_spline p : exists K, 1 <= K /\ forall n U c i B, fclamped p n U -> (i <= n)%nat -> U i < U (i + p + 1)%nat ->
  (forall u, U i <= u <= U (i + p + 1)%nat -> Rabs (spline U n p c u) <= B) -> Rabs (c i) <= K * B.
Proof.
  destruct (small_poly p) as [K [HK SP]]. assert (R1 : 1 <= INR (p + 1)) by (rewrite plus_INR; cbn [INR]; assert (T := pos_INR p); lra). assert (RP : 1 <= INR (p + 1) ^ p) by (apply pow_R1_Rle; exact R1).
  exists (K * INR (p + 1) ^ p). split; [rewrite <- (Rmult_1_r 1); apply Rmult_le_compat; lra|]. intros n U c i B FC Hi HU HB.
  assert (M := fc_mono _ _ _ FC). destruct (widest U i p M) as [j [J1 J2]].
  assert (H0 : U (i + p + 1)%nat - U i <= INR (p + 1) * (U (S j) - U j)) by (rewrite <- Nat.add_assoc; apply spans_sum; intros k Hk; apply J2; lia).
  set (h := U (S j) - U j) in *. assert (Hh : 0 < h). { destruct (Rlt_le_dec 0 h) as [L|L]; [exact L|]. assert (INR (p + 1) * h <= 0) by (assert (0 <= INR (p + 1) * - h) by (apply Rmult_le_pos; lra); lra). lra. }
  assert (J : (p <= j <= n)%nat).
  { split; apply Nat.nlt_ge; intros T; unfold h in Hh.
    - rewrite !(fc_zero _ _ _ FC) in Hh by lia. lra.
    - rewrite !(fc_one _ _ _ FC) in Hh by lia. lra. }
  assert (Ui : U i <= U j) by (apply M; lia). assert (Uj : U (S j) <= U (i + p + 1)%nat) by (apply M; lia).
  assert (HS : forall u, U j <= u < U (S j) -> in_span U n u j) by (intros u Hu; split; [unfold h in Hh; lra|]; split; [lra|left; lra]).
  (* the polynomial on the span, in the parameter of the span *)
  destruct (sum_poly (delta j) U p c (S n)) as [a0 [La0 Ea0]].
  destruct (pcomp h (U j) (1 + Rabs h + Rabs (U j)) a0) as [a1 [La1 [Ea1 _]]]; [assert (T1 := Rabs_pos h); assert (T2 := Rabs_pos (U j)); lra|lra|].
  destruct (SP a1 B) as [a [La [Ea Na]]]; [lia| |].
  { intros y Hy. rewrite Ea1, <- Ea0. assert (HY : U j <= h * y + U j < U (S j)).
    { assert (0 <= h * y) by (apply Rmult_le_pos; lra). assert (h * y < h * 1) by (apply Rmult_lt_compat_l; lra). unfold h in *. lra. }
    specialize (HB (h * y + U j) ltac:(lra)). rewrite (spline_piece p n U FC c _ j ltac:(lia) (HS _ HY)) in HB. exact HB. }
  set (V := fun k => (U k - U j) / h). assert (MV : mono V) by (intros k l Hkl; unfold V; apply Rmult_le_compat_r; [left; apply Rinv_0_lt_compat; exact Hh|]; assert (T := M k l Hkl); lra).
  assert (V0 : V j = 0) by (unfold V; field; lra). assert (V1 : V (S j) = 1) by (unfold V, h; field; unfold h in Hh; lra).
  set (Q := fun k => rsum (fun m => nth m a 0 * (ks V (S k) p m / bin p m)) (S p)).
  assert (EQ : c i = Q i).
  { enough (c i - Q i = 0) by lra. apply (local_independence p n U (fun k => c k - Q k) j (U j) (U (S j)) FC J); try lia; try (unfold h in Hh; lra).
    intros u Hu. rewrite spline_minus. assert (IS := HS u Hu). rewrite !(spline_piece p n U FC _ u j ltac:(lia) IS). unfold pfun at 1. rewrite Ea0.
    set (y := (u - U j) / h). replace u with (h * y + U j) at 1 by (unfold y; field; lra). rewrite <- Ea1, <- Ea. rewrite (peval_sum a y (S p) La).
    unfold pfun. rewrite (rsum_ext (fun k => cox (delta j) U p k u * Q k) (fun k => rsum (fun m => nth m a 0 / bin p m * (ks V (S k) p m * cox (delta j) V p k y)) (S p))).
    - rewrite rsum_swap. apply Rminus_diag_eq. apply rsum_ext. intros m Hm. rewrite rsum_scal. rewrite symmetric_sums by (try assumption; try lia; rewrite V0, V1; lra).
      assert (D := bin_pos p m ltac:(lia)). field. lra.
    - intros k Hk. unfold Q. rewrite <- rsum_scal. apply rsum_ext. intros m _. replace (cox (delta j) U p k u) with (cox (delta j) V p k y); [unfold Rdiv; ring|].
      replace y with (/ h * u + - U j / h) by (unfold y; field; lra). apply cox_affine; [apply Rinv_neq_0_compat; lra|]. intros l _. unfold V. field. lra. }
  rewrite EQ. unfold Q. eapply Rle_trans; [apply rsum_abs|]. eapply Rle_trans; [apply (rsum_le _ (fun m => INR (p + 1) ^ p * Rabs (nth m a 0)))|].
  - intros m Hm. rewrite Rabs_mult, Rmult_comm. apply Rmult_le_compat_r; [apply Rabs_pos|]. assert (D := bin_pos p m ltac:(lia)). unfold Rdiv. rewrite Rabs_mult, Rabs_inv, (Rabs_pos_eq (bin p m)) by lra.
    apply (Rmult_le_reg_r (bin p m) _ _ D). rewrite Rmult_assoc, Rinv_l, Rmult_1_r by lra. rewrite Rmult_comm. apply ks_bound; [exact R1|].
    intros k Hk. unfold V. apply Rabs_le. assert (A1 : U i <= U k) by (apply M; lia). assert (A2 : U k <= U (i + p + 1)%nat) by (apply M; lia).
    split; apply (Rmult_le_reg_r h _ _ Hh); unfold Rdiv; rewrite Rmult_assoc, Rinv_l, Rmult_1_r by lra; assert (A3 : U j <= U (i + p + 1)%nat) by (apply M; lia); lra.
  - rewrite rsum_scal, (pnorm_sum a (S p) La). assert (X : INR (p + 1) ^ p * pnorm a <= INR (p + 1) ^ p * (K * B)) by (apply Rmult_le_compat_l; lra). lra.
Qed.

Theorem close_points p : exists K, 1 <= K /\ forall n dim U P c P' c' i d e, clamped_curve p n dim U P c -> clamped_curve p n dim U P' c' ->
  (i <= n)%nat -> (d < dim)%nat -> nth i U 0 < nth (i + p + 1) U 0 ->
  (forall u f g, nth i U 0 <= u <= nth (i + p + 1) U 0 -> returns (evaluate c u) dim f -> returns (evaluate c' u) dim g -> Rabs (f d - g d) <= e) ->
  Rabs (ent P i d - ent P' i d) <= K * e.
Proof.
  destruct (small_spline p) as [K [HK SS]]. exists K. split; [exact HK|]. intros n dim U P c P' c' i d e H H' Hi Hd HU HE.
  assert (FC : fclamped p n (kfun U)) by (apply kfun_clamped; apply H). assert (L : length U = (n + p + 2)%nat) by (apply H).
  rewrite <- !kfun_nth in HU by lia. rewrite <- !kfun_nth in HE by lia.
  apply (SS n (kfun U) (fun i => ent P i d - ent P' i d) i e FC Hi HU).
  intros u Hu. rewrite spline_minus. assert (G1 := U_range p n (kfun U) FC i). assert (G2 := U_range p n (kfun U) FC (i + p + 1)).
  apply (HE u (fun d => spline (kfun U) n p (fun i => ent P i d) u) (fun d => spline (kfun U) n p (fun i => ent P' i d) u) Hu); apply cc_eval0; try assumption; lra.
Qed.

(** ** derivatives *)
Lemma dpoints_bound U p c k h A n : mono U -> 0 < h -> (k <= p <= n)%nat -> (forall i, (i + k <= n)%nat -> h <= U (i + p + 1)%nat - U (i + k)%nat) -> (forall j, (j <= n)%nat -> Rabs (c j) <= A) ->
  forall k', (k' <= k)%nat -> forall i, (i + k' <= n)%nat -> Rabs (dpoints U p c k' i) <= (2 * INR p / h) ^ k' * A.
Proof.
  intros M Hh Hk HU HA. assert (SP : forall k' i, (k' <= k)%nat -> (i + k' <= n)%nat -> h <= U (i + p + 1)%nat - U (i + k')%nat).
  { intros k' i Hk' Hi. destruct (le_lt_dec (i + k) n) as [L|L].
    - assert (T := HU i L). assert (T2 := M (i + k')%nat (i + k)%nat ltac:(lia)). lra.
    - assert (T := HU (n - k)%nat ltac:(lia)). assert (T2 := M (i + k')%nat (n - k + k)%nat ltac:(lia)). assert (T3 := M (n - k + p + 1)%nat (i + p + 1)%nat ltac:(lia)). lra. }
  induction k' as [|k' IH]; intros Hk' i Hi; [cbn [dpoints pow]; rewrite Rmult_1_l; apply HA; lia|].
  cbn [dpoints]. specialize (IH ltac:(lia)). assert (A1 := IH (S i) ltac:(lia)). assert (A2 := IH i ltac:(lia)). assert (S1 := SP (S k') i Hk' Hi).
  unfold ratio. destruct (Req_EM_T (U (i + p + 1)%nat - U (i + S k')%nat) 0) as [E|E]; [lra|]. clear SP HU. set (D := U (i + p + 1)%nat - U (i + S k')%nat) in *. set (x := dpoints U p c k' (S i)) in *. set (y := dpoints U p c k' i) in *.
  set (q := (2 * INR p / h) ^ k' * A) in *. cbn [pow]. rewrite Rmult_assoc. fold q. unfold Rdiv. rewrite Rabs_mult, Rabs_mult, Rabs_inv, (Rabs_pos_eq D), (Rabs_pos_eq (INR (p - k'))) by (try apply pos_INR; lra).
  assert (Q0 : 0 <= q) by (assert (T := Rabs_pos y); lra). assert (X : Rabs (x - y) <= 2 * q) by (apply abs_inv in A1; apply abs_inv in A2; apply Rabs_le; lra).
  assert (IP : INR (p - k') <= INR p) by (apply le_INR; lia). assert (I0 := pos_INR (p - k')). assert (HI : / D <= / h) by (apply Rinv_le_contravar; lra). assert (D0 : 0 <= / D) by (left; apply Rinv_0_lt_compat; lra).
  assert (Y : INR (p - k') * Rabs (x - y) <= INR p * (2 * q)) by (apply Rmult_le_compat; try assumption; apply Rabs_pos).
  assert (Z : INR (p - k') * Rabs (x - y) * / D <= INR p * (2 * q) * / h) by (apply Rmult_le_compat; try assumption; apply Rmult_le_pos; [assumption|apply Rabs_pos]). lra.
Qed.

Theorem close_derivatives p k : (k <= p)%nat -> exists K, 1 <= K /\ forall n dim U P c P' c' d e h, clamped_curve p n dim U P c -> clamped_curve p n dim U P' c' -> (d < dim)%nat -> 0 < h ->
  (forall i, (i + k <= n)%nat -> h <= nth (i + p + 1) U 0 - nth (i + k) U 0) ->
  (forall u f g, 0 <= u <= 1 -> returns (evaluate c u) dim f -> returns (evaluate c' u) dim g -> Rabs (f d - g d) <= e) ->
  forall u f g, 0 <= u <= 1 -> returns (evaluate_derivative c u k) dim f -> returns (evaluate_derivative c' u k) dim g -> Rabs (f d - g d) <= K * e / h ^ k.
Proof.
  intros Hk. destruct (close_points p) as [K [HK CP]]. exists (K * (1 + 2 * INR p) ^ k). assert (P0 := pos_INR p). assert (P1 : 1 <= (1 + 2 * INR p) ^ k) by (apply pow_R1_Rle; lra).
  split; [assert (T : 1 * 1 <= K * (1 + 2 * INR p) ^ k) by (apply Rmult_le_compat; lra); lra|]. intros n dim U P c P' c' d e h H H' Hd Hh HU HE u f g Hu Hf Hg.
  assert (FC : fclamped p n (kfun U)) by (apply kfun_clamped; apply H). assert (L : length U = (n + p + 2)%nat) by (apply H). assert (M := fc_mono _ _ _ FC). assert (PN := fc_deg _ _ _ FC).
  assert (HU' : forall i, (i + k <= n)%nat -> h <= kfun U (i + p + 1)%nat - kfun U (i + k)%nat) by (intros i Hi; rewrite !kfun_nth by lia; apply HU; exact Hi).
  assert (HA : forall j, (j <= n)%nat -> Rabs (ent P j d - ent P' j d) <= K * e).
  { intros j Hj. apply (CP n dim U P c P' c' j d e H H' Hj Hd).
    - rewrite <- !kfun_nth by lia. destruct (le_lt_dec (j + k) n) as [A|A]; [assert (T := HU' j A); assert (T2 := M j (j + k)%nat ltac:(lia)); lra|].
      assert (T := HU' (n - k)%nat ltac:(lia)). assert (T2 := M j (n - k + k)%nat ltac:(lia)). assert (T3 := M (n - k + p + 1)%nat (j + p + 1)%nat ltac:(lia)). lra.
    - intros v f0 g0 Hv. apply HE. rewrite <- !kfun_nth in Hv by lia. assert (G1 := U_range p n (kfun U) FC j). assert (G2 := U_range p n (kfun U) FC (j + p + 1)). lra. }
  assert (e0 : 0 <= e) by (assert (T := HA 0%nat ltac:(lia)); assert (T2 := Rabs_pos (ent P 0 d - ent P' 0 d)); destruct (Rle_lt_dec 0 e) as [Q|Q]; [exact Q|assert (0 < K * - e) by (apply Rmult_lt_0_compat; lra); lra]).
  assert (B := dpoints_bound (kfun U) p (fun j => ent P j d - ent P' j d) k h (K * e) n M Hh ltac:(lia) HU' HA k ltac:(lia)).
  destruct (cc_eval p n dim U P c u k H Hu Hk) as [x [X1 [X2 X3]]]. destruct (cc_eval p n dim U P' c' u k H' Hu Hk) as [y [Y1 [Y2 Y3]]].
  destruct Hf as [x' [F1 [F2 F3]]]. destruct Hg as [y' [G1 [G2 G3]]]. rewrite X1 in F1. injection F1 as <-. rewrite Y1 in G1. injection G1 as <-.
  rewrite <- (F3 d Hd), <- (G3 d Hd), (X3 d Hd), (Y3 d Hd).
  assert (C' := fclamped_shift p n (kfun U) k FC Hk).
  assert (E : dspline (kfun U) n p (fun i => ent P i d) k u - dspline (kfun U) n p (fun i => ent P' i d) k u = rsum (fun i => bspline (shift k (kfun U)) (n - k) (p - k) i u * dpoints (kfun U) p (fun j => ent P j d - ent P' j d) k i) (S (n - k))).
  { unfold dspline. unfold Rminus at 1. rewrite <- (Rmult_1_l (rsum (fun i => _ * dpoints (kfun U) p (fun j => ent P' j d) k i) _)) at 1. rewrite <- Ropp_mult_distr_l_reverse, <- rsum_scal, <- rsum_plus. apply rsum_ext. intros i _.
    rewrite (dpoints_ext (kfun U) p (fun j => ent P j d - ent P' j d) (fun j => ent P j d + (- 1) * ent P' j d)) by (intros; ring). rewrite dpoints_comb. ring. }
  rewrite E. eapply Rle_trans; [apply rsum_abs|]. eapply Rle_trans; [apply (rsum_le _ (fun i => (2 * INR p / h) ^ k * (K * e) * bspline (shift k (kfun U)) (n - k) (p - k) i u))|].
  - intros i Hi. rewrite Rabs_mult, Rmult_comm. rewrite (Rabs_pos_eq (bspline _ _ _ _ _)) by (apply (bspline_nonneg _ _ _ C'); exact Hu). apply Rmult_le_compat_r; [apply (bspline_nonneg _ _ _ C'); exact Hu|]. apply B. lia.
  - rewrite rsum_scal, (bspline_sum _ _ _ C') by exact Hu. rewrite Rmult_1_r. unfold Rdiv. rewrite Rpow_mult_distr, pow_inv.
    assert (HI : 0 < / h ^ k) by (apply Rinv_0_lt_compat, pow_lt, Hh). assert (Q : (2 * INR p) ^ k <= (1 + 2 * INR p) ^ k) by (apply pow_incr; lra).
    assert (Z : (2 * INR p) ^ k * (K * e * / h ^ k) <= (1 + 2 * INR p) ^ k * (K * e * / h ^ k)) by (apply Rmult_le_compat_r; [apply Rmult_le_pos; [apply Rmult_le_pos; lra|lra]|exact Q]). lra.
Qed.

(** ** a control point whose knots coincide has no influence *)
Theorem idle_point p n dim U P P' c c' i : clamped_curve p n dim U P c -> clamped_curve p n dim U P' c' -> (i <= n)%nat -> nth i U 0 = nth (i + p + 1) U 0 ->
  (forall j d, (j <= n)%nat -> (d < dim)%nat -> j <> i -> ent P j d = ent P' j d) -> forall u, 0 <= u <= 1 -> evaluate c u = evaluate c' u.
Proof.
  intros H H' Hi HU HE u Hu. assert (FC : fclamped p n (kfun U)) by (apply kfun_clamped; apply H). assert (L : length U = (n + p + 2)%nat) by (apply H).
  rewrite <- !kfun_nth in HU by lia. destruct (cc_eval0 p n dim U P c u H Hu) as [x [X1 [X2 X3]]]. destruct (cc_eval0 p n dim U P' c' u H' Hu) as [y [Y1 [Y2 Y3]]].
  rewrite X1, Y1. f_equal. f_equal. apply (nth_ext _ _ 0 0); [etransitivity; [exact X2|symmetry; exact Y2]|]. intros d Hd. assert (Hd' : (d < dim)%nat) by (rn; rewrite X2 in Hd; exact Hd).
  rewrite (X3 d Hd'), (Y3 d Hd'). destruct (span_ex p n (kfun U) FC u Hu) as [j [J1 J2]]. rewrite !(spline_piece p n (kfun U) FC _ u j ltac:(lia) J2). unfold pfun. apply rsum_ext. intros k Hk.
  destruct (Nat.eq_dec k i) as [->|N]; [|rewrite (HE k d ltac:(lia) Hd' N); reflexivity]. rewrite piece_support; [ring|].
  destruct (le_lt_dec i j) as [A|A]; [|lia]. destruct (le_lt_dec j (i + p)) as [B|B]; [|lia]. exfalso.
  assert (M := fc_mono _ _ _ FC). assert (T1 := M i j A). assert (T2 := M (S j) (i + p + 1)%nat ltac:(lia)). destruct J2 as [J2 _]. lra.
Qed.
