(** * Curves on sorted knots that need not be clamped *)

From Coq Require Import Reals List Arith Lra Lia.
From Verif Require Import Num Vec MKnots MPoints MCurve RNum Lists Spec BMath BMath2 BMath3 Api Bridge Facts1.
Import ListNotations.
Local Open Scope R_scope.

Lemma cox_plus base base' U p : forall i x, cox (fun a => base a + base' a) U p i x = cox base U p i x + cox base' U p i x.
Proof. induction p as [|h IH]; intros i x; [reflexivity|]. cbn [cox]. rewrite !IH. ring. Qed.

Section Free.
  Variables (p n : nat) (U : nat -> R).
  Hypothesis HU : mono U.

  (** half-open spans *)
  Definition inside (j : nat) (u : R) : Prop := U j <= u < U (S j).

  Lemma inside_ex u : forall b a, (a <= b)%nat -> U a <= u -> u < U b -> exists j, (a <= j < b)%nat /\ inside j u.
  Proof.
    induction b as [|b IH]; intros a Hab Ha Hb.
    - replace a with 0%nat in Ha by lia. lra.
    - destruct (Nat.eq_dec a (S b)) as [->|Hne]; [lra|].
      destruct (Rlt_le_dec u (U b)) as [H|H].
      + destruct (IH a ltac:(lia) Ha H) as [j [J1 J2]]. exists j. split; [lia|exact J2].
      + exists b. split; [lia|]. split; assumption.
  Qed.

  Lemma inside_ind j u : inside j u -> u <> U (S n) -> forall i, span_ind U n u i = delta j i.
  Proof.
    intros [H1 H2] Hu i. unfold span_ind, delta. destruct (i =? j)%nat eqn:E.
    - apply Nat.eqb_eq in E. subst i. destruct (Rle_dec (U j) u); [|lra]. destruct (Rlt_dec u (U (S j))); [reflexivity|lra].
    - apply Nat.eqb_neq in E. destruct (Rle_dec (U i) u) as [A|A]; [|reflexivity].
      destruct (Rlt_dec u (U (S i))) as [B|B].
      + exfalso. destruct (Nat.lt_ge_cases i j) as [L|L].
        * assert (U (S i) <= U j) by (apply HU; lia). lra.
        * assert (U (S j) <= U i) by (apply HU; lia). lra.
      + destruct (i =? n)%nat; [|reflexivity]. destruct (Req_EM_T u (U (S n))); [contradiction|reflexivity].
  Qed.

  Lemma inside_piece j u i q : inside j u -> u <> U (S n) -> bspline U n q i u = cox (delta j) U q i u.
  Proof. intros H Hu. unfold bspline. apply cox_ext; [|reflexivity]. intros a _. apply inside_ind; assumption. Qed.

  Lemma outside_ind u : (forall j, ~ inside j u) -> u <> U (S n) -> forall i, span_ind U n u i = 0.
  Proof.
    intros H Hu i. unfold span_ind. destruct (Rle_dec (U i) u) as [A|A]; [|reflexivity].
    destruct (Rlt_dec u (U (S i))) as [B|B]; [exfalso; apply (H i); split; assumption|].
    destruct (i =? n)%nat; [|reflexivity]. destruct (Req_EM_T u (U (S n))); [contradiction|reflexivity].
  Qed.

  (** ** Weights *)
  Lemma free_nonneg i q u : u <> U (S n) -> 0 <= bspline U n q i u.
  Proof.
    intros Hu. destruct (Rle_lt_dec (U i) u) as [A|A].
    - destruct (Rlt_le_dec u (U (i + q + 1)%nat)) as [B|B].
      + destruct (inside_ex u (i + q + 1) i ltac:(lia) A B) as [j [J1 J2]]. rewrite (inside_piece j) by assumption.
        apply piece_nonneg; [exact HU|]; unfold inside in J2; lra.
      + unfold bspline. rewrite (cox_ext _ (fun _ => 0) U U); [rewrite cox_zero; lra| |reflexivity].
        intros a Ha. unfold span_ind. destruct (Rle_dec (U a) u) as [A'|A']; [|reflexivity].
        assert (U (S a) <= U (i + q + 1)%nat) by (apply HU; lia).
        destruct (Rlt_dec u (U (S a))); [lra|]. destruct (a =? n)%nat; [|reflexivity]. destruct (Req_EM_T u (U (S n))); [contradiction|reflexivity].
    - unfold bspline. rewrite (cox_ext _ (fun _ => 0) U U); [rewrite cox_zero; lra| |reflexivity].
      intros a Ha. unfold span_ind. assert (U i <= U a) by (apply HU; lia). destruct (Rle_dec (U a) u); [lra|reflexivity].
  Qed.

  Lemma inside_sum j u N : (p <= j)%nat -> (j < N)%nat -> inside j u -> rsum (fun i => cox (delta j) U p i u) N = 1.
  Proof. intros H1 H2 H3. apply piece_sum; [exact HU|unfold inside in H3; lra|exact H1|exact H2]. Qed.
End Free.

(** never more than one, wherever the parameter is *)
Lemma sum_le_mono f a b : (forall i, 0 <= f i) -> (a <= b)%nat -> rsum f a <= rsum f b.
Proof.
  intros H. induction b as [|b IH]; intros Hab; [replace a with 0%nat by lia; lra|].
  destruct (Nat.eq_dec a (S b)) as [->|Hne]; [lra|]. cbn [rsum]. assert (T := H b). assert (T2 := IH ltac:(lia)). lra.
Qed.

Lemma rsum_tail f a N : (forall i, 0 <= f i) -> rsum (fun i => f (i + a)%nat) N <= rsum f (N + a).
Proof.
  intros H. induction N as [|N IH]; cbn [rsum Nat.add].
  - apply (sum_le_mono f 0 a H). lia.
  - lra.
Qed.

Lemma free_sum p n U u : mono U -> u <> U (S n) -> rsum (fun i => bspline U n p i u) (S n) <= 1.
Proof.
  intros HU Hu. destruct (Rle_lt_dec (U 0%nat) u) as [A|A].
  2:{ rewrite (rsum_ext _ (fun _ => 0)); [rewrite rsum_0; lra|]. intros i _. unfold bspline.
      rewrite (cox_ext _ (fun _ => 0) U U); [apply cox_zero| |reflexivity]. intros a _. unfold span_ind.
      assert (U 0%nat <= U a) by (apply HU; lia). destruct (Rle_dec (U a) u); [lra|reflexivity]. }
  destruct (Rlt_le_dec u (U (n + p + 1)%nat)) as [B|B].
  - destruct (inside_ex U u (n + p + 1) 0 ltac:(lia) A B) as [j [J1 J2]].
    set (U' := fun a => U (a - p)%nat). assert (HU' : mono U') by (intros a b Hab; apply HU; lia).
    assert (J3 : inside U' (j + p) u). { unfold inside, U'. replace (j + p - p)%nat with j by lia. replace (S (j + p) - p)%nat with (S j) by lia. exact J2. }
    rewrite (rsum_ext _ (fun i => cox (delta (j + p)) U' p (i + p) u)).
    2:{ intros i _. rewrite (inside_piece n U HU j) by assumption. rewrite <- cox_shift. apply cox_ext.
        - intros a _. unfold delta. destruct (a =? j)%nat eqn:E1; destruct (a + p =? j + p)%nat eqn:E2; try reflexivity; rewrite ?Nat.eqb_eq, ?Nat.eqb_neq in *; lia.
        - intros a _ _. unfold shift, U'. f_equal. lia. }
    assert (Nn : forall i, 0 <= cox (delta (j + p)) U' p i u) by (intros i; apply piece_nonneg; [exact HU'|]; unfold inside in J3; lra).
    eapply Rle_trans; [apply (rsum_tail (fun i => cox (delta (j + p)) U' p i u) p (S n) Nn)|].
    eapply Rle_trans; [apply (sum_le_mono _ _ (S n + p + j + 1) Nn); lia|].
    rewrite (inside_sum p U' HU' (j + p) u) by (try lia; assumption). lra.
  - rewrite (rsum_ext _ (fun _ => 0)); [rewrite rsum_0; lra|]. intros i Hi. unfold bspline.
    rewrite (cox_ext _ (fun _ => 0) U U); [apply cox_zero| |reflexivity].
    intros a Ha. unfold span_ind. destruct (Rle_dec (U a) u) as [A'|A']; [|reflexivity].
    assert (U (S a) <= U (n + p + 1)%nat) by (apply HU; lia).
    destruct (Rlt_dec u (U (S a))); [lra|]. destruct (a =? n)%nat; [|reflexivity]. destruct (Req_EM_T u (U (S n))); [contradiction|reflexivity].
Qed.

(** ** Twice the value at the end of the domain *)
Lemma run_ex (U : nat -> R) a : mono U -> forall b, U (S a) < U (a + b + 1)%nat ->
  exists r, (1 <= r <= b)%nat /\ U (S a) = U (a + r)%nat /\ U (a + r)%nat < U (S (a + r)).
Proof.
  intros HU. induction b as [|b IH]; intros H.
  - replace (a + 0 + 1)%nat with (S a) in H by lia. lra.
  - destruct (Rlt_le_dec (U (S a)) (U (a + b + 1)%nat)) as [L|L].
    + destruct (IH L) as [r [R1 R2]]. exists r. split; [lia|exact R2].
    + exists (S b). assert (E : U (S a) <= U (a + S b)%nat) by (apply HU; lia).
      replace (a + b + 1)%nat with (a + S b)%nat in L by lia. replace (a + S b + 1)%nat with (S (a + S b)) in H by lia.
      split; [lia|]. split; lra.
Qed.

Lemma doubled_value p n U P : mono U -> U n < U (S n) -> U (S n) < U (n + p + 1)%nat ->
  spline U n p P (U (S n)) = 2 * pfun p n U P n (U (S n)).
Proof.
  intros HU H1 H2. destruct (run_ex U n HU p H2) as [r [R1 [R2 R3]]].
  unfold spline, pfun. rewrite <- rsum_scal. apply rsum_ext. intros i _.
  assert (E : bspline U n p i (U (S n)) = cox (delta n) U p i (U (S n)) + cox (delta (n + r)) U p i (U (S n))).
  { unfold bspline. rewrite <- cox_plus. apply cox_ext; [|reflexivity]. intros a _. unfold span_ind, delta.
    destruct (Rle_dec (U a) (U (S n))) as [A|A].
    - destruct (Rlt_dec (U (S n)) (U (S a))) as [B|B].
      + assert (a = (n + r)%nat).
        { destruct (Nat.lt_trichotomy a (n + r)) as [L|[L|L]]; [|exact L|].
          - assert (U (S a) <= U (n + r)%nat) by (apply HU; lia). lra.
          - assert (U (S (n + r)) <= U a) by (apply HU; lia). lra. }
        subst a. rewrite Nat.eqb_refl. replace (n + r =? n)%nat with false by (symmetry; apply Nat.eqb_neq; lia). lra.
      + destruct (a =? n)%nat eqn:E.
        * apply Nat.eqb_eq in E. subst a. destruct (Req_EM_T (U (S n)) (U (S n))); [|contradiction].
          replace (n =? n + r)%nat with false by (symmetry; apply Nat.eqb_neq; lia). lra.
        * replace (a =? n + r)%nat with false; [lra|]. symmetry. apply Nat.eqb_neq. intros ->. lra.
    - replace (a =? n)%nat with false; [replace (a =? n + r)%nat with false; [lra|]|]; symmetry; apply Nat.eqb_neq; intros ->; lra. }
  rewrite E. rewrite <- (pieces_agree U HU n r) by (try assumption; lia). ring.
Qed.

Lemma free_derivable p n U P j x : mono U -> derivable_pt_lim (pfun p n U P j) x (dpfun p n U P j x).
Proof.
  intros HU. unfold pfun, dpfun.
  assert (T : forall m, derivable_pt_lim (fun x => rsum (fun i => cox (delta j) U p i x * P i) m) x (rsum (fun i => dcox (delta j) U p i x * P i) m)).
  { induction m as [|m IH]; cbn [rsum]; [apply derivable_pt_lim_const|].
    apply (derivable_pt_lim_plus (fun x => rsum (fun i => cox (delta j) U p i x * P i) m) (fun x => cox (delta j) U p m x * P m)); [exact IH|].
    replace (dcox (delta j) U p m x * P m) with (dcox (delta j) U p m x * P m + cox (delta j) U p m x * 0) by ring.
    apply (derivable_pt_lim_mult (fun x => cox (delta j) U p m x) (fun _ => P m)); [apply cox_derivable; exact HU|apply derivable_pt_lim_const]. }
  apply T.
Qed.

Lemma free_continuous p n U P j x eps : mono U -> 0 < eps -> exists dl, 0 < dl /\ forall v, Rabs (v - x) < dl -> Rabs (pfun p n U P j v - pfun p n U P j x) < eps.
Proof.
  intros HU He. assert (Ct : continuity_pt (pfun p n U P j) x).
  { apply derivable_continuous_pt. exists (dpfun p n U P j x). apply free_derivable. exact HU. }
  destruct (Ct eps He) as [dl [D1 D2]]. exists dl. split; [exact D1|]. intros v Hv.
  destruct (Req_dec v x) as [->|Hne]; [unfold Rminus; rewrite Rplus_opp_r, Rabs_R0; exact He|].
  apply (D2 v). split; [split; [exact I|auto]|exact Hv].
Qed.

Lemma mono_shift k U : mono U -> mono (shift k U).
Proof. intros H i j Hij. unfold shift. apply H. lia. Qed.

Lemma free_curve p n dim (U : list R) P c u k : @sized RNum p n dim U P -> sorted U -> built p U P c -> 0 <= u <= 1 -> (k <= p)%nat ->
  returns (evaluate_derivative c u k) dim (fun d => dspline (kfun U) n p (fun i => ent P i d) k u).
Proof.
  intros [H1 [H2 H3]] So B Hu Hk. apply evaluate_R; try assumption. apply built_wf; assumption.
Qed.

Lemma doubled p n dim (U : list R) P c k : @sized RNum p n dim U P -> sorted U -> built p U P c -> (k < p)%nat ->
  nth n U 0 < nth (n + 1) U 0 -> nth (n + 1) U 0 < nth (n + p + 1 - k) U 0 -> 0 < nth (n + 1) U 0 <= 1 ->
  exists y, returns (evaluate_derivative c (nth (n + 1) U 0) k) dim (fun d => 2 * y d) /\
    forall eps, 0 < eps -> exists dl, 0 < dl /\ forall v, 0 <= v -> nth (n + 1) U 0 - dl < v < nth (n + 1) U 0 ->
      exists x, evaluate_derivative c v k = Val (Ok x) /\ length x = dim /\ forall d, (d < dim)%nat -> Rabs (nth d x 0 - y d) < eps.
Proof.
  intros Z So B Hk H1 H2 H3. assert (HU := sorted_mono U So). assert (L : length U = (n + p + 2)%nat) by apply Z.
  assert (Z0 : (p <= n)%nat) by apply Z.
  set (F := kfun U) in *. set (Fk := shift k F). set (u := nth (n + 1) U 0) in *.
  assert (HF : mono Fk) by (apply mono_shift; exact HU).
  assert (Eu : Fk (S (n - k)) = u). { unfold Fk, shift. replace (S (n - k) + k)%nat with (n + 1)%nat by lia. apply kfun_nth. lia. }
  assert (En : Fk (n - k)%nat = nth n U 0). { unfold Fk, shift. replace (n - k + k)%nat with n by lia. apply kfun_nth. lia. }
  assert (Ee : Fk (n - k + (p - k) + 1)%nat = nth (n + p + 1 - k) U 0). { unfold Fk, shift. replace (n - k + (p - k) + 1 + k)%nat with (n + p + 1 - k)%nat by lia. apply kfun_nth. lia. }
  set (pc := fun d => pfun (p - k) (n - k) Fk (dpoints F p (fun i => ent P i d) k) (n - k)).
  exists (fun d => pc d u). split.
  - eapply returns_ext; [apply (free_curve p n dim U P c); try assumption; [lra|lia]|]. intros d Hd. cbv beta.
    rewrite dspline_spline. fold F. fold Fk. rewrite <- Eu. apply doubled_value; [exact HF|lra|lra].
  - intros eps He.
    assert (Dl : forall m, exists dl, 0 < dl /\ forall v, Rabs (v - u) < dl -> forall d, (d < m)%nat -> Rabs (pc d v - pc d u) < eps).
    { induction m as [|m [d1 [A1 A2]]]; [exists 1; split; [lra|]; intros; lia|].
      destruct (free_continuous (p - k) (n - k) Fk (dpoints F p (fun i => ent P i m) k) (n - k) u eps HF He) as [d2 [B1 B2]].
      exists (Rmin d1 d2). split; [apply Rmin_glb_lt; assumption|]. intros v Hv d Hd. assert (M1 := Rmin_l d1 d2). assert (M2 := Rmin_r d1 d2).
      destruct (Nat.eq_dec d m) as [->|Hne]; [apply B2; lra|apply A2; [lra|lia]]. }
    destruct (Dl dim) as [dl [D1 D2]]. exists (Rmin dl (u - nth n U 0)). split; [apply Rmin_glb_lt; lra|].
    intros v Hv0 Hv. assert (M1 := Rmin_l dl (u - nth n U 0)). assert (M2 := Rmin_r dl (u - nth n U 0)).
    destruct (free_curve p n dim U P c v k Z So B ltac:(lra) ltac:(lia)) as [x [X1 [X2 X3]]]. exists x. split; [exact X1|]. split; [exact X2|].
    intros d Hd. rewrite X3 by exact Hd. rewrite dspline_spline. fold F. fold Fk.
    assert (I : inside Fk (n - k) v) by (unfold inside; rewrite Eu, En; lra).
    replace (spline Fk (n - k) (p - k) (dpoints F p (fun i => ent P i d) k) v) with (pc d v).
    + apply D2; [|exact Hd]. rewrite Rabs_left by lra. lra.
    + unfold pc, pfun, spline. apply rsum_ext. intros i _. rewrite (inside_piece (n - k) Fk HF (n - k)) by (try exact I; rewrite Eu; lra). reflexivity.
Qed.

(** ** Affine combinations inside the domain *)
Lemma free_hull p n dim (U : list R) P c u : @sized RNum p n dim U P -> sorted U -> built p U P c -> 0 <= u <= 1 ->
  nth p U 0 <= u < nth (n + 1) U 0 ->
  exists j w, (p <= j <= n)%nat /\ nth j U 0 <= u < nth (S j) U 0 /\ (forall i, (i <= p)%nat -> 0 <= w i) /\ rsum w (S p) = 1 /\
    returns (evaluate c u) dim (fun d => rsum (fun i => w i * ent P (j - p + i) d) (S p)).
Proof.
  intros Z So B Hu Hd. assert (HU := sorted_mono U So). assert (L : length U = (n + p + 2)%nat) by apply Z.
  assert (Z0 : (p <= n)%nat) by apply Z.
  destruct (inside_ex (kfun U) u (n + 1) p) as [j [J1 J2]]; [lia|rewrite kfun_nth by lia; lra|rewrite kfun_nth by lia; lra|].
  assert (Nu : u <> kfun U (S n)) by (rewrite kfun_nth by lia; replace (S n) with (n + 1)%nat by lia; lra).
  exists j, (fun i => cox (delta j) (kfun U) p (j - p + i) u). split; [lia|].
  assert (J3 := J2). unfold inside in J3. rewrite !kfun_nth in J3 by lia. split; [exact J3|].
  assert (Sp : forall g, rsum (fun i => cox (delta j) (kfun U) p i u * g i) (S n) = rsum (fun i => cox (delta j) (kfun U) p (j - p + i) u * g (j - p + i)%nat) (S p)).
  { intros g. rewrite (rsum_drop _ (j - p)) by (try lia; intros i Hi; rewrite piece_support by lia; ring).
    apply rsum_trunc; [lia|]. intros i A1 A2. rewrite piece_support by lia. ring. }
  split; [|split].
  - intros i _. apply piece_nonneg; [exact HU|]; unfold inside in J2; lra.
  - assert (T := Sp (fun _ => 1)). cbv beta in T. rewrite (rsum_ext _ (fun i => cox (delta j) (kfun U) p (j - p + i) u * 1)) by (intros; ring).
    rewrite <- T. rewrite (rsum_ext _ (fun i => cox (delta j) (kfun U) p i u)) by (intros; ring). apply inside_sum; try assumption; lia.
  - eapply returns_ext; [apply (free_curve p n dim U P c u 0); try assumption; lia|]. intros d Hdd. cbv beta. rewrite dspline_0.
    rewrite <- (Sp (fun i => ent P i d)). unfold spline. apply rsum_ext. intros i _. rewrite (inside_piece n (kfun U) HU j) by assumption. reflexivity.
Qed.

(** everywhere but at the end of the domain: a subconvex combination *)
Lemma free_weights p n dim (U : list R) P c u : @sized RNum p n dim U P -> sorted U -> built p U P c -> 0 <= u <= 1 ->
  u <> nth (n + 1) U 0 ->
  exists w, (forall i, (i <= n)%nat -> 0 <= w i) /\ rsum w (S n) <= 1 /\
    returns (evaluate c u) dim (fun d => rsum (fun i => w i * ent P i d) (S n)).
Proof.
  intros Z So B Hu Hd. assert (HU := sorted_mono U So). assert (L : length U = (n + p + 2)%nat) by apply Z.
  assert (Nu : u <> kfun U (S n)) by (rewrite kfun_nth by lia; replace (S n) with (n + 1)%nat by lia; exact Hd).
  exists (fun i => bspline (kfun U) n p i u). split; [|split].
  - intros i _. apply free_nonneg; assumption.
  - apply free_sum; assumption.
  - eapply returns_ext; [apply (free_curve p n dim U P c u 0); try assumption; lia|]. intros d Hdd. cbv beta. rewrite dspline_0. reflexivity.
Qed.

(** ** Derivatives inside the domain *)
Lemma free_dpfun p n U P j x : (1 <= p)%nat -> (p <= j <= n)%nat ->
  dpfun p n U P j x = rsum (fun i => cox (delta (j - 1)) (shift 1 U) (p - 1) i x * dpoints U p P 1 i) (S (n - 1)).
Proof.
  intros Hp Hj. unfold dpfun.
  set (g := fun i => INR p * dinv U i p * cox (delta j) U (p - 1) i x).
  rewrite (rsum_ext _ (fun i => (g i - g (S i)) * P i)).
  2:{ intros i _. unfold g. destruct p as [|h]; [lia|]. cbn [dcox]. replace (S h - 1)%nat with h by lia. ring. }
  rewrite by_parts.
  assert (G0 : g 0%nat = 0). { unfold g. rewrite piece_support by lia. ring. }
  assert (Gn : g (S n) = 0). { unfold g. rewrite piece_support by lia. ring. }
  rewrite G0, Gn. replace (S (n - 1)) with n by lia.
  rewrite Rmult_0_l, Rmult_0_l, Rplus_0_r, Rminus_0_r. apply rsum_ext. intros i _. unfold g.
  rewrite (cox_ext (delta (j - 1)) (fun a => delta j (a + 1)%nat) (shift 1 U) (shift 1 U)); [| |reflexivity].
  2:{ intros a _. unfold delta. destruct (a =? j - 1)%nat eqn:E1; destruct (a + 1 =? j)%nat eqn:E2; try reflexivity; rewrite ?Nat.eqb_eq, ?Nat.eqb_neq in *; lia. }
  idtac.
  rewrite cox_shift. replace (i + 1)%nat with (S i) by lia.
  cbn [dpoints]. rewrite ratio_mult, ratio_mul. unfold dinv.
  replace (i + p + 1)%nat with (S i + p)%nat by lia. replace (i + 1)%nat with (S i) by lia.
  rewrite Nat.sub_0_r. ring.
Qed.

Lemma free_dspline_1 p n U P u j : mono U -> (1 <= p)%nat -> (p <= j <= n)%nat -> inside U j u -> u < U (S n) ->
  dspline U n p P 1 u = dpfun p n U P j u.
Proof.
  intros HU Hp Hj H Hu. rewrite free_dpfun by assumption. unfold dspline. apply rsum_ext. intros i _.
  rewrite (inside_piece (n - 1) (shift 1 U) (mono_shift 1 U HU) (j - 1)); [reflexivity| |].
  - unfold inside, shift. replace (j - 1 + 1)%nat with j by lia. replace (S (j - 1) + 1)%nat with (S j) by lia. exact H.
  - unfold shift. replace (S (n - 1) + 1)%nat with (S n) by lia. lra.
Qed.

Lemma free_left U u p j : mono U -> (p <= j)%nat -> U p < u -> inside U j u -> exists a, (p <= a <= j)%nat /\ U a < u <= U (S a) /\ (a = j \/ (a < j)%nat /\ U (S a) = u /\ U j = u).
Proof.
  intros HU Hj Hp [H1 H2]. destruct (Rle_lt_or_eq_dec _ _ H1) as [Hlt|Heq].
  - exists j. split; [lia|]. split; [lra|]. left. reflexivity.
  - assert (T : forall b, (p <= b)%nat -> u <= U b -> exists a, (p <= a < b)%nat /\ U a < u <= U (S a)).
    { induction b as [|b IH]; intros B1 B2; [replace p with 0%nat in Hp by lia; lra|].
      destruct (Nat.eq_dec p (S b)) as [->|Hne]; [lra|]. destruct (Rlt_le_dec (U b) u) as [L|L].
      - exists b. split; [lia|]. lra.
      - destruct (IH ltac:(lia) L) as [a [A1 A2]]. exists a. split; [lia|exact A2]. }
    destruct (T j Hj ltac:(lra)) as [a [A1 A2]]. exists a. split; [lia|]. split; [exact A2|]. right. split; [lia|].
    assert (U (S a) <= U j) by (apply HU; lia). lra.
Qed.

Lemma free_spline_derivative p n U P u : mono U -> (1 <= p <= n)%nat -> 0 <= u <= 1 -> U p <= u < U (S n) -> (U p < u \/ u = 0) ->
  (0 < u -> mult_le U u (p - 1)) -> derivative_on01 (spline U n p P) u (dspline U n p P 1 u).
Proof.
  intros HU Hp Hu Hd He Hm. destruct (inside_ex U u (S n) p ltac:(lia) ltac:(lra) ltac:(lra)) as [j [J1 J2]].
  rewrite (free_dspline_1 p n U P u j) by (try assumption; try lia; lra).
  assert (Pc : forall a v, inside U a v -> v < U (S n) -> spline U n p P v = pfun p n U P a v).
  { intros a v A B. unfold spline, pfun. apply rsum_ext. intros i _. rewrite (inside_piece n U HU a) by (try assumption; lra). reflexivity. }
  assert (Hj : U (S j) <= U (S n)) by (apply HU; lia).
  assert (Hr : u < 1 -> exists d, 0 < d /\ forall v, u <= v -> v < u + d -> v <= 1 -> spline U n p P v = pfun p n U P j v).
  { intros _. exists (U (S j) - u). unfold inside in J2. split; [lra|]. intros v V1 V2 _. apply Pc; unfold inside; lra. }
  destruct (Rle_lt_or_eq_dec 0 u (proj1 Hu)) as [Hu0|Hu0].
  - destruct (free_left U u p j HU ltac:(lia) ltac:(lra) J2) as [a [A1 [A2 A3]]].
    assert (Ha : U (S a) <= U (S n)) by (apply HU; lia).
    assert (Hl : 0 < u -> exists d, 0 < d /\ forall v, u - d < v -> v < u -> 0 <= v -> spline U n p P v = pfun p n U P a v).
    { intros _. exists (u - U a). split; [lra|]. intros v V1 V2 _. apply Pc; unfold inside; lra. }
    destruct A3 as [-> | [B1 [B2 B3]]].
    + apply (glue_derivative _ (pfun p n U P j) (pfun p n U P j)); auto; try (apply Pc; [assumption|lra]); intros _; apply free_derivable; exact HU.
    + assert (Hrun : (j - a <= p - 1)%nat). { specialize (Hm Hu0 (S a) j B2 B3). lia. }
      assert (Agr : forall q i, (j - a <= q)%nat -> cox (delta a) U q i u = cox (delta j) U q i u).
      { intros q i Hq. rewrite <- B2. unfold inside in J2.
        assert (Ag := pieces_agree U HU a (j - a)). replace (a + (j - a))%nat with j in Ag by lia. apply Ag; try lia; lra. }
      apply (glue_derivative _ (pfun p n U P j) (pfun p n U P a)); auto; try (apply Pc; [assumption|lra]).
      * rewrite (Pc j u J2) by lra. unfold pfun. apply rsum_ext. intros i _. rewrite (Agr p) by lia. reflexivity.
      * intros _; apply free_derivable; exact HU.
      * intros _. replace (dpfun p n U P j u) with (dpfun p n U P a u); [apply free_derivable; exact HU|].
        unfold dpfun. apply rsum_ext. intros i _. f_equal. destruct p as [|h]; [reflexivity|]. cbn [dcox]. rewrite !(Agr h) by lia. reflexivity.
  - apply (glue_derivative _ (pfun p n U P j) (pfun p n U P j)); auto; try (apply Pc; [assumption|lra]); try (intros H; lra).
    intros _; apply free_derivable; exact HU.
Qed.

Lemma free_mult U u m : sorted U -> u < nth (length U - 1) U 0 -> (mult U u <= m)%nat -> mult_le (kfun U) u m.
Proof.
  intros So Hl Hm a b Ha Hb.
  assert (B : forall i, kfun U i = u -> (i < length U)%nat).
  { intros i Hi. destruct (lt_dec i (length U)) as [|Hge]; [assumption|]. exfalso. rewrite kfun_over in Hi by lia. lra. }
  destruct (le_lt_dec (a + m) b); [|assumption]. exfalso.
  assert (T : (S (b - a) <= mult U u)%nat).
  { apply (count_occ_run U u a). intros i Hi.
    assert (Mo := sorted_mono U So).
    assert (E : kfun U i = u).
    { assert (kfun U a <= kfun U i) by (apply Mo; lia). assert (kfun U i <= kfun U b) by (apply Mo; lia). lra. }
    assert (Li := B i E). rewrite kfun_nth in E by exact Li. rewrite <- E. apply nth_error_nth'. exact Li. }
  lia.
Qed.

Lemma mult_le_shift U u m k : mult_le U u m -> mult_le (shift k U) u m.
Proof. intros H a b Ha Hb. unfold shift in *. assert (T := H _ _ Ha Hb). lia. Qed.

Lemma free_derivative p n dim (U : list R) P c k u d : @sized RNum p n dim U P -> sorted U -> built p U P c -> (k < p)%nat -> (d < dim)%nat -> 0 <= u <= 1 ->
  nth p U 0 <= u < nth (n + 1) U 0 -> (nth p U 0 < u \/ u = 0) -> (0 < u -> (mult U u <= p - k - 1)%nat) ->
  exists f g, evals c k d f /\ evals c (S k) d g /\ derivative_on01 f u (g u).
Proof.
  intros Z So B Hk Hd Hu H1 H2 Hm. assert (HU := sorted_mono U So). assert (L : length U = (n + p + 2)%nat) by apply Z.
  assert (Z0 : (p <= n)%nat) by apply Z.
  assert (Ev : forall r, (r <= p)%nat -> evals c r d (dspline (kfun U) n p (fun i => ent P i d) r)).
  { intros r Hr v Hv. apply (returns_nth _ dim (fun d => dspline (kfun U) n p (fun i => ent P i d) r v)); [|exact Hd]. apply free_curve; assumption. }
  exists (dspline (kfun U) n p (fun i => ent P i d) k), (dspline (kfun U) n p (fun i => ent P i d) (S k)).
  split; [apply Ev; lia|]. split; [apply Ev; lia|].
  rewrite dspline_step by lia. apply free_spline_derivative.
  - apply mono_shift. exact HU.
  - lia.
  - exact Hu.
  - unfold shift. replace (p - k + k)%nat with p by lia. replace (S (n - k) + k)%nat with (n + 1)%nat by lia. rewrite !kfun_nth by lia. exact H1.
  - unfold shift. replace (p - k + k)%nat with p by lia. rewrite !kfun_nth by lia. exact H2.
  - intros Hu0. apply mult_le_shift. apply free_mult; [exact So| |apply Hm; exact Hu0].
    assert (nth (n + 1) U 0 <= nth (length U - 1) U 0) by (apply So; lia). lra.
Qed.
