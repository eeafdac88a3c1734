(** * Fits with a linear solver that leaves a residual *)

From Coq Require Import ZArith Reals List Bool Arith Lia Lra.
From Verif Require Import Num Vec MKnots MPoints MCurve MFit MGenerate RNum Hoare Lists Struct Spec BMath BMath2 BMath3 Api Bridge Facts1 Gen1 Gen2 Gen3 Gen4 Fit1 Fit2 Fit3 Fit4 Fit5 Fit6 Fit7 ApiN.
Import ListNotations.
Local Open Scope R_scope.

Lemma lsq_near (N L : nat -> nat -> R) rows q cols lam (x y b e : nat -> R) : 0 <= lam ->
  (forall i, (i < cols)%nat ->
     rsum (fun j => (rsum (fun g => N g i * N g j) rows + lam * rsum (fun r => L r i * L r j) q) * x j) cols = rsum (fun g => N g i * b g) rows + e i) ->
  rsum (fun g => (rsum (fun j => N g j * x j) cols - b g) ^ 2) rows + lam * rsum (fun r => (rsum (fun j => L r j * x j) cols) ^ 2) q <=
  rsum (fun g => (rsum (fun j => N g j * y j) cols - b g) ^ 2) rows + lam * rsum (fun r => (rsum (fun j => L r j * y j) cols) ^ 2) q + 2 * rsum (fun i => e i * (x i - y i)) cols.
Proof.
  intros Hl HN.
  set (a := fun g => rsum (fun j => N g j * x j) cols - b g).
  set (A := fun r => rsum (fun j => L r j * x j) cols).
  set (h := fun g => rsum (fun j => N g j * (y j - x j)) cols).
  set (H := fun r => rsum (fun j => L r j * (y j - x j)) cols).
  assert (Eh : forall g, rsum (fun j => N g j * y j) cols - b g = a g + h g).
  { intros g. unfold a, h. replace (rsum (fun j => N g j * y j) cols) with (rsum (fun j => N g j * x j) cols + rsum (fun j => N g j * (y j - x j)) cols); [ring|].
    rewrite <- rsum_plus. apply rsum_ext. intros; ring. }
  assert (EH : forall r, rsum (fun j => L r j * y j) cols = A r + H r).
  { intros r. unfold A, H. rewrite <- rsum_plus. apply rsum_ext. intros; ring. }
  assert (Cross : rsum (fun g => a g * h g) rows + lam * rsum (fun r => A r * H r) q = - rsum (fun i => e i * (x i - y i)) cols).
  { transitivity (rsum (fun i => (y i - x i) * (rsum (fun g => N g i * a g) rows + lam * rsum (fun r => L r i * A r) q)) cols).
    - rewrite (rsum_ext (fun i => (y i - x i) * _) (fun i => rsum (fun g => a g * (N g i * (y i - x i))) rows + lam * rsum (fun r => A r * (L r i * (y i - x i))) q)).
      + rewrite rsum_plus, rsum_scal. rewrite (rsum_swap (fun i g => a g * (N g i * (y i - x i)))), (rsum_swap (fun i r => A r * (L r i * (y i - x i)))).
        f_equal; [|f_equal]; apply rsum_ext; intros g _; rewrite rsum_scal; reflexivity.
      + intros i _. rewrite Rmult_plus_distr_l, <- Rmult_assoc, (Rmult_comm (y i - x i) lam), Rmult_assoc. rewrite <- !rsum_scal.
        f_equal; apply rsum_ext; intros; ring.
    - replace (- rsum (fun i => e i * (x i - y i)) cols) with (rsum (fun i => (-1) * (e i * (x i - y i))) cols) by (rewrite rsum_scal; ring).
      apply rsum_ext. intros i Hi. replace (-1 * (e i * (x i - y i))) with ((y i - x i) * e i) by ring. f_equal.
      rewrite (rsum_ext (fun g => N g i * a g) (fun g => rsum (fun j => N g i * N g j * x j) cols - N g i * b g)).
      + rewrite rsum_minus. replace (rsum (fun g => N g i * b g) rows) with (rsum (fun j => (rsum (fun g => N g i * N g j) rows + lam * rsum (fun r => L r i * L r j) q) * x j) cols - e i) by (rewrite (HN i Hi); ring). rewrite (rsum_swap (fun g j => N g i * N g j * x j)).
        rewrite (rsum_ext (fun r => L r i * A r) (fun r => rsum (fun j => L r i * L r j * x j) cols)).
        * rewrite (rsum_swap (fun r j => L r i * L r j * x j)). rewrite (rsum_ext (fun j => (_ + _) * x j) (fun j => rsum (fun g => N g i * N g j * x j) rows + lam * rsum (fun r => L r i * L r j * x j) q)).
          -- rewrite rsum_plus, rsum_scal. ring.
          -- intros j _. rewrite !rsum_scal_r. ring.
        * intros r _. unfold A. rewrite <- rsum_scal. apply rsum_ext. intros; ring.
      + intros g _. unfold a. rewrite Rmult_minus_distr_l, <- rsum_scal. f_equal. apply rsum_ext. intros; ring. }
  rewrite (rsum_ext (fun g => (rsum (fun j => N g j * y j) cols - b g) ^ 2) (fun g => a g ^ 2 + (2 * (a g * h g) + h g ^ 2))) by (intros g _; rewrite Eh; ring).
  rewrite (rsum_ext (fun r => rsum (fun j => L r j * y j) cols ^ 2) (fun r => A r ^ 2 + (2 * (A r * H r) + H r ^ 2))) by (intros r _; rewrite EH; ring).
  rewrite !rsum_plus, !rsum_scal. fold (A). 
  change (rsum (fun g => (rsum (fun j => N g j * x j) cols - b g) ^ 2) rows) with (rsum (fun g => a g ^ 2) rows).
  change (rsum (fun r => rsum (fun j => L r j * x j) cols ^ 2) q) with (rsum (fun r => A r ^ 2) q).
  assert (P1 : 0 <= rsum (fun g => h g ^ 2) rows) by (apply BMath.rsum_nonneg; intros; apply pow2_ge_0).
  assert (P2 : 0 <= lam * rsum (fun r => H r ^ 2) q) by (apply Rmult_le_pos; [exact Hl|]; apply BMath.rsum_nonneg; intros; apply pow2_ge_0).
  lra.
Qed.

Lemma system_near pen kn N fd A rows cols k (x y b e : nat -> R) : shape rows cols N -> @normal_matrix RNum kn N pen fd = Val (Ok A) ->
  (forall q Dm, pen = Some q -> fd (kappa q) kn = Val Dm -> shape (k q) cols Dm) ->
  (forall i, (i < cols)%nat -> rsum (fun j => ent A j i * x j) cols = rsum (fun g => ent N i g * b g) rows + e i) ->
  rsum (fun g => (rsum (fun j => ent N j g * x j) cols - b g) ^ 2) rows +
    match pen with None => 0 | Some q => match fd (kappa q) kn with Val Dm => lambda q * rsum (fun r => rsum (fun j => ent Dm j r * x j) cols ^ 2) (k q) | _ => 0 end end <=
  rsum (fun g => (rsum (fun j => ent N j g * y j) cols - b g) ^ 2) rows +
    match pen with None => 0 | Some q => match fd (kappa q) kn with Val Dm => lambda q * rsum (fun r => rsum (fun j => ent Dm j r * y j) cols ^ 2) (k q) | _ => 0 end end + 2 * rsum (fun i => e i * (x i - y i)) cols.
Proof.
  intros SN EA SD H. assert (T := normal_R kn N pen fd A rows cols SN EA). destruct pen as [q|].
  - destruct T as [T0 [Dm [ED T]]]. rewrite ED. destruct (T (k q) (SD q Dm eq_refl ED)) as [SA HA].
    apply (lsq_near (fun g i => ent N i g) (fun r i => ent Dm i r) rows (k q) cols (lambda q) x y b e T0).
    intros i Hi. rewrite <- (H i Hi). apply rsum_ext. intros j Hj. rewrite <- HA by assumption. reflexivity.
  - destruct T as [SA HA].
    assert (M := lsq_near (fun g i => ent N i g) (fun r i => 0) rows 0 cols 0 x y b e ltac:(lra)). cbn [rsum] in M.
    rewrite !Rmult_0_l in M. apply M. intros i Hi. rewrite <- (H i Hi). apply rsum_ext. intros j Hj. rewrite <- HA by assumption. rewrite Rplus_0_r. reflexivity.
Qed.

Lemma loose_near svd0 p n m dim (U : list R) (Q C0 : Mat RNum) v s pen : length U = (n + p + 2)%nat -> sorted U ->
  shape dim (m + 1) Q -> length v = (m + 1)%nat -> (forall q, pen = Some q -> (1 <= kappa q)%nat) ->
  loose_fit svd0 (knots_of p U) Q (mkParams v s) pen = Val (Ok C0) ->
  exists A B, shape (n + 1) (n + 1) A /\ shape (n + 1) dim B /\ (exists Y, solves A B Y) /\
    forall svd X, svd A B = Val X -> shape (n + 1) dim X ->
      loose_fit svd (knots_of p U) Q (mkParams v s) pen = Val (Ok (mtranspose X)) /\
      forall C', shape dim (n + 1) C' ->
        fit_error p n dim m U (fun g => nth g v 0) Q (mtranspose X) + penalty pen (n + 1) 0 dim (mtranspose X) <=
        fit_error p n dim m U (fun g => nth g v 0) Q C' + penalty pen (n + 1) 0 dim C' +
        2 * rsum (fun d => rsum (fun i => left_over A B X i d * (ent (mtranspose X) i d - ent C' i d)) (n + 1)) dim.
Proof.
  intros L SU SQ Lv HK E0. pose (E := E0). clearbody E. unfold loose_fit in E. inv_val E chk EC. destruct chk as [u|e]; [|discriminate E].
  destruct (input_checks_ok p n U dim m Q _ pen u L SQ EC) as [Hnm [_ [Hpn HP]]].
  destruct (loose_coefficients_R p n U L Hpn SU dim m Q v s SQ Lv) as [N [EN [SN HN]]]. rewrite EN in E. cbn [bind] in E.
  inv_val E A EA. destruct A as [A|e]; [|discriminate E].
  destruct (mmul_R (n + 1) (m + 1) dim _ _ (mtranspose_shape _ _ _ SN) (mtranspose_shape _ _ _ SQ)) as [B [EB [SB HB]]].
  rewrite EB in E. cbn [bind] in E. inv_val E X0 EX0. apply svd_solve_val in EX0 as EX1. destruct EX1 as [_ NR]. clear E.
  assert (HSD : forall q Dm, pen = Some q -> loose_difference (kappa q) (knots_of p U) = Val Dm -> exists k, shape k (n + 1) Dm).
  { intros q Dm -> ED. destruct HP as [H1 H2]. destruct (loose_difference_R p n U L Hpn (kappa q) ltac:(lia)) as [Dm' [ED' [SD _]]]. rewrite ED' in ED. injection ED as <-. eexists. exact SD. }
  assert (Sv : exists Y, solves A B Y).
  { apply (system_solvable pen _ N _ A B (m + 1) (n + 1) dim (fun g d => ent Q g d) SN EA HSD SB). intros i d Hi Hd. rewrite HB by assumption.
    apply rsum_ext. intros g Hg. rewrite (ent_mtranspose_R (m + 1) (n + 1) N g i SN Hg Hi), (ent_mtranspose_R dim (m + 1) Q d g SQ Hd Hg). reflexivity. }
  assert (SA : shape (n + 1) (n + 1) A).
  { assert (T := normal_R _ N pen _ A (m + 1) (n + 1) SN EA). destruct pen as [q|]; [|apply T]. destruct T as [_ [Dm [ED T]]].
    destruct (loose_difference_R p n U L Hpn (kappa q) ltac:(lia)) as [Dm' [ED' [SD _]]]. rewrite ED' in ED. injection ED as <-. apply (T _ SD). }
  exists A, B. split; [exact SA|]. split; [exact SB|]. split; [exact Sv|]. intros svd X EX SX.
  assert (AC : ncols A = (n + 1)%nat) by apply SA. assert (AR : nrows A = (n + 1)%nat) by apply SA. assert (BC : ncols B = dim) by apply SB. assert (BR : nrows B = (n + 1)%nat) by apply SB.
  split.
  { unfold loose_fit. rn. rewrite EC. cbn [bind]. rewrite EN. cbn [bind]. rewrite EA. cbn [bind]. rewrite EB. cbn [bind].
    unfold svd_solve, mis_empty. rewrite AC, AR, BR, Nat.eqb_refl. replace (n + 1 =? 0)%nat with false by (symmetry; apply Nat.eqb_neq; lia). cbn [orb]. rewrite EX. reflexivity. }
  intros C' SC'.
  assert (EX' : forall i d, (i < n + 1)%nat -> (d < dim)%nat -> ent (mtranspose X) i d = ent X d i) by (intros; apply (ent_mtranspose_R (n + 1) dim X); assumption).
  set (C := mtranspose X) in *.
  assert (Sys : forall d i, (d < dim)%nat -> (i < n + 1)%nat -> rsum (fun j => ent A j i * ent C j d) (n + 1) = rsum (fun g => ent N i g * ent Q g d) (m + 1) + left_over A B X i d).
  { intros d i Hd Hi. unfold left_over. rewrite AC. rewrite (rsum_ext _ (fun j => ent A j i * ent X d j)) by (intros j Hj; rewrite EX' by assumption; reflexivity).
    rewrite HB by assumption. rewrite (rsum_ext (fun k => ent (mtranspose N) k i * ent (mtranspose Q) d k) (fun g => ent N i g * ent Q g d)); [rn; ring|]. intros g Hg.
    rewrite (ent_mtranspose_R (m + 1) (n + 1) N g i SN Hg Hi), (ent_mtranspose_R dim (m + 1) Q d g SQ Hd Hg). reflexivity. }
  (* one coordinate *)
  set (F := fun (P : Mat RNum) d => rsum (fun g => (spline (kfun U) n p (fun i => ent P i d) (nth g v 0) - ent Q g d) ^ 2) (S m) +
     match pen with None => 0 | Some q => lambda q * rsum (fun r => fdiff (kappa q) (fun i => ent P (0 + i) d) r ^ 2) (n + 1 - kappa q) end).
  assert (Obj : forall P, fit_error p n dim m U (fun g => nth g v 0) Q P + penalty pen (n + 1) 0 dim P = rsum (F P) dim).
  { intros P. unfold fit_error, penalty, roughness, F. rewrite rsum_swap. destruct pen as [q|].
    - rewrite (rsum_swap (fun r d => fdiff (kappa q) (fun i => ent P (0 + i) d) r ^ 2)). rewrite <- rsum_scal, <- rsum_plus. reflexivity.
    - rewrite rsum_plus, rsum_0. ring. }
  rewrite !Obj. rewrite <- rsum_scal, <- rsum_plus. apply BMath.rsum_le. intros d Hd.
  assert (M := system_near pen _ N _ A (m + 1) (n + 1) (fun q => (n + 1 - kappa q)%nat) (fun i => ent C i d) (fun i => ent C' i d) (fun g => ent Q g d) (fun i => left_over A B X i d) SN EA).
  assert (Sp : forall P g, (g < m + 1)%nat -> rsum (fun j => ent N j g * ent P j d) (n + 1) = spline (kfun U) n p (fun i => ent P i d) (nth g v 0)).
  { intros P g Hg. unfold spline. replace (S n) with (n + 1)%nat by lia. apply rsum_ext. intros j Hj. rewrite HN by lia. reflexivity. }
  assert (Obj1 : forall P, F P d = rsum (fun g => (rsum (fun j => ent N j g * ent P j d) (n + 1) - ent Q g d) ^ 2) (m + 1) +
      match pen with None => 0 | Some q => match loose_difference (kappa q) (knots_of p U) with Val Dm => lambda q * rsum (fun r => rsum (fun j => ent Dm j r * ent P j d) (n + 1) ^ 2) (n + 1 - kappa q) | _ => 0 end end).
  { intros P. unfold F. f_equal.
    - replace (S m) with (m + 1)%nat by lia. apply rsum_ext. intros g Hg. rewrite Sp by exact Hg. reflexivity.
    - destruct pen as [q|]; [|reflexivity]. destruct HP as [H1 H2].
      destruct (loose_difference_R p n U L Hpn (kappa q) ltac:(lia)) as [Dm [ED [SD HD]]]. rn. rewrite ED. f_equal. apply rsum_ext. intros r Hr. f_equal.
      rewrite <- (dop_apply (kappa q) (fun i => ent P (0 + i) d) n r) by (try apply HK; try reflexivity; lia).
      replace (S n) with (n + 1)%nat by lia. apply rsum_ext. intros j Hj. rewrite HD by lia. reflexivity. }
  rewrite !Obj1. apply M.
  - intros q Dm -> ED. destruct HP as [H1 H2]. destruct (loose_difference_R p n U L Hpn (kappa q) ltac:(lia)) as [Dm' [ED' [SD _]]]. rewrite ED' in ED. injection ED as <-. exact SD.
  - intros i Hi. apply Sys; assumption.
Qed.

Lemma fixed_near svd0 p n m dim (U : list R) (Q C0 : Mat RNum) v s pen : length U = (n + p + 2)%nat -> sorted U ->
  shape dim (m + 1) Q -> length v = (m + 1)%nat -> (forall q, pen = Some q -> (1 <= kappa q)%nat) ->
  fixed_fit svd0 (knots_of p U) Q (mkParams v s) pen = Val (Ok C0) ->
  exists A B, shape (n - 1) (n - 1) A /\ shape (n - 1) dim B /\ (exists Y, solves A B Y) /\
    forall svd X, svd A B = Val X -> shape (n - 1) dim X ->
      exists C, fixed_fit svd (knots_of p U) Q (mkParams v s) pen = Val (Ok C) /\ shape dim (n + 1) C /\
      (forall d, (d < dim)%nat -> ent C 0 d = ent Q 0 d /\ ent C n d = ent Q m d) /\
      forall C', shape dim (n + 1) C' -> (forall d, (d < dim)%nat -> ent C' 0 d = ent Q 0 d /\ ent C' n d = ent Q m d) ->
    rsum (fun g => rsum (fun d => (spline (kfun U) n p (fun i => ent C i d) (nth (1 + g) v 0) - ent Q (1 + g) d) ^ 2) dim) (m - 1) + penalty pen (n - 1) 1 dim C <=
    rsum (fun g => rsum (fun d => (spline (kfun U) n p (fun i => ent C' i d) (nth (1 + g) v 0) - ent Q (1 + g) d) ^ 2) dim) (m - 1) + penalty pen (n - 1) 1 dim C' +
    2 * rsum (fun d => rsum (fun i => left_over A B X i d * (ent C (1 + i) d - ent C' (1 + i) d)) (n - 1)) dim.
Proof.
  intros L SU SQ Lv HK E. unfold fixed_fit in E. inv_val E chk EC. destruct chk as [u|e]; [|discriminate E].
  destruct (input_checks_ok p n U dim m Q _ pen u L SQ EC) as [Hnm [_ [Hpn HP]]].
  assert (Hm : (1 <= m)%nat).
  { destruct m as [|m]; [|lia]. exfalso. unfold fixed_qvectors, dp_segments in E. rewrite (@knots_of_segments RNum p U n L) in E. cbn [bind] in E.
    assert (NQ : ncols Q = (0 + 1)%nat) by apply SQ. rewrite NQ in E. discriminate E. }
  destruct (qvectors_R p n U L Hpn SU dim m Q v s SQ Lv Hm) as [W [EW [SW HW]]]. rewrite EW in E. cbn [bind] in E.
  assert (Hn : (1 <= n)%nat).
  { destruct n as [|n]; [|lia]. exfalso. unfold fixed_constant_terms, dp_segments in E. rewrite (@knots_of_segments RNum p U 0 L) in E. cbn [bind] in E.
    assert (NQ : ncols Q = (m + 1)%nat) by apply SQ. rewrite NQ, usub_ok in E by lia. discriminate E. }
  destruct (constant_terms_R p n U L Hpn SU dim m Q W v s SQ SW Lv Hm Hn) as [Z [EZ [SZ HZ]]]. rewrite EZ in E. cbn [bind] in E.
  destruct (fixed_coefficients_R p n U L Hpn SU dim m Q v s SQ Lv Hm Hn) as [N [EN [SN HN]]]. rewrite EN in E. cbn [bind] in E.
  inv_val E A EA. destruct A as [A|e]; [|discriminate E]. inv_val E X0 EX0.
  assert (HSD : forall q Dm, pen = Some q -> fixed_difference (kappa q) (knots_of p U) = Val Dm -> exists k, shape k (n - 1) Dm).
  { intros q Dm -> ED. destruct (fixed_difference_inv p n U L _ _ ED) as [I1 I2]. destruct (fixed_difference_R p n U L Hpn (kappa q) I1 I2) as [Dm' [ED' [SD _]]]. rewrite ED' in ED. injection ED as <-. eexists. exact SD. }
  assert (Sv : exists Y, solves A (mtranspose Z) Y).
  { apply (system_solvable pen _ N _ A (mtranspose Z) (m - 1) (n - 1) dim (fun g d => ent W (1 + g) d) SN EA HSD (mtranspose_shape _ _ _ SZ)).
    intros i d Hi Hd. rewrite (ent_mtranspose_R dim (n - 1) Z d i SZ Hd Hi). rewrite HZ by assumption. apply rsum_ext. intros g Hg. rewrite HN by assumption. reflexivity. }
  assert (SA : shape (n - 1) (n - 1) A).
  { assert (T := normal_R _ N pen _ A (m - 1) (n - 1) SN EA). destruct pen as [q|]; [|apply T]. destruct T as [_ [Dm [ED T]]].
    destruct (fixed_difference_inv p n U L _ _ ED) as [I1 I2]. destruct (fixed_difference_R p n U L Hpn (kappa q) I1 I2) as [Dm' [ED' [SD _]]]. rewrite ED' in ED. injection ED as <-. apply (T _ SD). }
  assert (H2 : (2 <= n)%nat).
  { destruct (Nat.eq_dec n 1) as [->|]; [|lia]. exfalso. unfold svd_solve, mis_empty, ncols in EX0. destruct SA as [A1 [A2 _]]. rewrite A1 in EX0. discriminate EX0. }
  assert (AC : ncols A = (n - 1)%nat) by apply SA. assert (AR : nrows A = (n - 1)%nat) by apply SA.
  assert (ZT := mtranspose_shape _ _ _ SZ). assert (ZC : ncols (mtranspose Z) = dim) by apply ZT.
  assert (ZR : nrows (mtranspose Z) = (n - 1)%nat) by apply ZT. assert (NQ : ncols Q = (m + 1)%nat) by apply SQ. assert (RQ : nrows Q = dim) by apply SQ.
  clear E. exists A, (mtranspose Z). split; [exact SA|]. split; [exact ZT|]. split; [exact Sv|]. intros svd X ESX SX.
  destruct (assemble_R dim n m Q (mtranspose X) SQ (mtranspose_shape _ _ _ SX) Hn) as [C [EC0 [SC [HE HI]]]].
  exists C. split.
  { unfold fixed_fit. rn. rewrite EC. cbn [bind]. rewrite EW. cbn [bind]. rewrite EZ. cbn [bind]. rewrite EN. cbn [bind]. rewrite EA. cbn [bind].
    unfold svd_solve, mis_empty. rewrite AC, AR, ZR, Nat.eqb_refl. replace (n - 1 =? 0)%nat with false by (symmetry; apply Nat.eqb_neq; lia). cbn [orb]. rewrite ESX. cbn [bind].
    rewrite (@knots_of_segments RNum p U n L). cbn [bind]. unfold dp_segments. rewrite NQ, usub_ok by lia. cbn [bind]. replace (m + 1 - 1)%nat with m by lia. rewrite RQ, EC0. reflexivity. }
  split; [exact SC|]. split; [exact HE|]. intros C' SC' HE'.
  assert (Inner : forall d i, (d < dim)%nat -> (i < n - 1)%nat -> ent C (1 + i) d = ent X d i).
  { intros d i Hd Hi. rewrite HI by lia. replace (1 + i - 1)%nat with i by lia. apply (ent_mtranspose_R (n - 1) dim X i d SX); assumption. }
  assert (Sys : forall d i, (d < dim)%nat -> (i < n - 1)%nat -> rsum (fun j => ent A j i * ent C (1 + j) d) (n - 1) = rsum (fun g => ent N i g * ent W (1 + g) d) (m - 1) + left_over A (mtranspose Z) X i d).
  { intros d i Hd Hi. unfold left_over. rewrite AC. rewrite (rsum_ext _ (fun j => ent A j i * ent X d j)) by (intros j Hj; rewrite Inner by assumption; reflexivity).
    rewrite (ent_mtranspose_R dim (n - 1) Z d i SZ Hd Hi). rewrite HZ by assumption.
    rewrite (rsum_ext (fun g => ent N i g * ent W (1 + g) d) (fun g => bspline (kfun U) n p (1 + i) (nth (1 + g) v 0) * ent W (1 + g) d)); [rn; ring|]. intros g Hg. rewrite HN by assumption. reflexivity. }
  set (F := fun (P : Mat RNum) d => rsum (fun g => (spline (kfun U) n p (fun i => ent P i d) (nth (1 + g) v 0) - ent Q (1 + g) d) ^ 2) (m - 1) +
     match pen with None => 0 | Some q => lambda q * rsum (fun r => fdiff (kappa q) (fun i => ent P (1 + i) d) r ^ 2) (n - 1 - kappa q) end).
  assert (Obj : forall P, rsum (fun g => rsum (fun d => (spline (kfun U) n p (fun i => ent P i d) (nth (1 + g) v 0) - ent Q (1 + g) d) ^ 2) dim) (m - 1) + penalty pen (n - 1) 1 dim P = rsum (F P) dim).
  { intros P. unfold penalty, roughness, F. rewrite rsum_swap. destruct pen as [q|].
    - rewrite (rsum_swap (fun r d => fdiff (kappa q) (fun i => ent P (1 + i) d) r ^ 2)). rewrite <- rsum_scal, <- rsum_plus. reflexivity.
    - rewrite rsum_plus, rsum_0. ring. }
  rewrite !Obj. rewrite <- rsum_scal, <- rsum_plus. apply BMath.rsum_le. intros d Hd.
  assert (M := system_near pen _ N _ A (m - 1) (n - 1) (fun q => (n - 1 - kappa q)%nat) (fun i => ent C (1 + i) d) (fun i => ent C' (1 + i) d) (fun g => ent W (1 + g) d) (fun i => left_over A (mtranspose Z) X i d) SN EA).
  assert (Sp : forall P g, (forall d, (d < dim)%nat -> ent P 0 d = ent Q 0 d /\ ent P n d = ent Q m d) -> (g < m - 1)%nat ->
     rsum (fun j => ent N j g * ent P (1 + j) d) (n - 1) - ent W (1 + g) d = spline (kfun U) n p (fun i => ent P i d) (nth (1 + g) v 0) - ent Q (1 + g) d).
  { intros P g HEP Hg. destruct (HEP d Hd) as [P0 Pn]. rewrite HW by lia. unfold spline.
    assert (Sp : forall f, rsum f (Datatypes.S n) = f 0%nat + rsum (fun i => f (Datatypes.S i)) (n - 1) + f n).
    { intros f. rewrite rsum_first. destruct n as [|n']; [lia|]. replace (Datatypes.S n' - 1)%nat with n' by lia. cbn [rsum]. ring. }
    rewrite Sp, P0, Pn.
    rewrite (rsum_ext (fun j => ent N j g * ent P (1 + j) d) (fun i => bspline (kfun U) n p (Datatypes.S i) (nth (1 + g) v 0) * ent P (Datatypes.S i) d)).
    - ring.
    - intros j Hj. rewrite HN by lia. reflexivity. }
  assert (Obj1 : forall P, (forall d, (d < dim)%nat -> ent P 0 d = ent Q 0 d /\ ent P n d = ent Q m d) ->
     F P d = rsum (fun g => (rsum (fun j => ent N j g * ent P (1 + j) d) (n - 1) - ent W (1 + g) d) ^ 2) (m - 1) +
      match pen with None => 0 | Some q => match fixed_difference (kappa q) (knots_of p U) with Val Dm => lambda q * rsum (fun r => rsum (fun j => ent Dm j r * ent P (1 + j) d) (n - 1) ^ 2) (n - 1 - kappa q) | _ => 0 end end).
  { intros P HEP. unfold F. f_equal.
    - apply rsum_ext. intros g Hg. rewrite Sp by assumption. reflexivity.
    - assert (T := normal_R _ N pen _ A (m - 1) (n - 1) SN EA). destruct pen as [q|]; [|reflexivity]. destruct T as [_ [Dm' [ED' _]]].
      destruct (fixed_difference_inv p n U L _ _ ED') as [I1 I2].
      destruct (fixed_difference_R p n U L Hpn (kappa q) I1 I2) as [Dm [ED [SD HD]]]. rn. rewrite ED. f_equal. apply rsum_ext. intros r Hr. f_equal.
      rewrite <- (dop_apply (kappa q) (fun i => ent P (1 + i) d) (n - 2) r) by (try apply HK; try reflexivity; lia).
      replace (Datatypes.S (n - 2)) with (n - 1)%nat by lia. apply rsum_ext. intros j Hj. rewrite HD by lia. reflexivity. }
  rewrite (Obj1 C HE), (Obj1 C' HE'). apply M.
  - intros q Dm -> ED. destruct (fixed_difference_inv p n U L _ _ ED) as [I1 I2]. destruct (fixed_difference_R p n U L Hpn (kappa q) I1 I2) as [Dm' [ED' [SD _]]]. rewrite ED' in ED. injection ED as <-. exact SD.
  - intros i Hi. apply Sys; assumption.
Qed.

Lemma lsf_steps p n m dim (Q : Mat RNum) : shape dim (S m) Q -> (1 <= p <= n)%nat -> (1 <= m)%nat ->
  exists v U, length v = (m + 1)%nat /\ (forall g, (g <= m)%nat -> nth g v 0 = INR g / INR m) /\ @uniform RNum p n = Val (Ok (knots_of p U)) /\ @knots_new RNum p U = Val (knots_of p U) /\ clamped p n U /\
    forall svd me pen, generate svd (LeastSquaresFit p Q n me pen) =
    (P <- (match me with FixedEnds => fixed_fit svd (knots_of p U) Q (mkParams v m) pen | LooseEnds => loose_fit svd (knots_of p U) Q (mkParams v m) pen end);;
     match P with Err e => Val (Err (FitErr e)) | Ok P => curve_new (knots_of p U) (cp_new P) end).
Proof.
  intros SQ Hp Hm. destruct (equally_spaced_R m Hm) as [v [EV [Lv Hv]]]. destruct (uniform_fact p n Hp) as [kn [U [A [B [V [CL [_ [_ [_ [_ UN]]]]]]]]]].
  destruct (knots_new_inv p U kn B) as [-> _].
  exists v, U. repeat (split; [assumption|]). intros svd me pen.
  cbn [generate]. unfold params_generate, dp_segments. assert (NQ : ncols Q = S m) by apply SQ. rewrite NQ. rewrite usub_ok by lia. cbn [bind].
  replace (S m - 1)%nat with m by lia. rewrite EV. cbn [bind knots_generate]. rewrite A. cbn [bind]. reflexivity.
Qed.

Lemma left_sum (f g : nat -> nat -> R) r n dim : (forall i d, (i < n)%nat -> (d < dim)%nat -> Rabs (f i d) <= r) ->
  2 * rsum (fun d => rsum (fun i => f i d * g i d) n) dim <= 2 * r * rsum (fun i => rsum (fun d => Rabs (g i d)) dim) n.
Proof.
  intros H. rewrite Rmult_assoc. apply Rmult_le_compat_l; [lra|]. rewrite (rsum_swap (fun i d => Rabs (g i d))). rewrite <- rsum_scal. apply BMath.rsum_le. intros d Hd. rewrite <- rsum_scal.
  apply BMath.rsum_le. intros i Hi. eapply Rle_trans; [apply Rle_abs|]. rewrite Rabs_mult. apply Rmult_le_compat_r; [apply Rabs_pos|]. apply H; assumption.
Qed.

Theorem loose_residual p n m dim (Q : Mat RNum) pen : shape dim (S m) Q -> (1 <= p <= n)%nat -> (n <= m)%nat ->
  (forall q, pen = Some q -> 0 <= lambda q /\ (1 <= kappa q <= n - 1)%nat) ->
  exists A B, shape (S n) (S n) A /\ shape (S n) dim B /\ (exists Y, solves A B Y) /\
    forall svd X r, svd A B = Val X -> shape (S n) dim X -> (forall i d, (i <= n)%nat -> (d < dim)%nat -> Rabs (left_over A B X i d) <= r) ->
    exists U C c e, generate svd (LeastSquaresFit p Q n LooseEnds pen) = Val (Ok c) /\ clamped_curve p n dim U C c /\ uniform_knots p n U /\ data_error c dim m Q e /\
      forall C' c' e', clamped_curve p n dim U C' c' -> data_error c' dim m Q e' ->
        e + penalty pen (S n) 0 dim C <= e' + penalty pen (S n) 0 dim C' + 2 * r * apart n dim C C'.
Proof.
  intros SQ Hp Hm HP. assert (Hm1 : (1 <= m)%nat) by lia.
  destruct (loose_fit_fact some_solver p n m dim Q pen some_solver_good SQ Hp Hm HP) as [U0 [C0 [c0 [e0 [E0 _]]]]].
  destruct (lsf_steps p n m dim Q SQ Hp Hm1) as [v [U [Lv [Hv [EU [EK [CL G]]]]]]].
  rewrite G in E0. inv_val E0 P EF. destruct P as [P|er]; [|discriminate E0].
  assert (SQ' : shape dim (m + 1) Q) by (replace (m + 1)%nat with (S m) by lia; exact SQ).
  destruct (loose_near some_solver p n m dim U Q P v m pen (cl_len _ _ _ CL) (cl_sorted _ _ _ CL) SQ' Lv ltac:(intros q Eq; apply (HP q Eq)) EF) as [A [B [SA [SB [SV T]]]]].
  replace (n + 1)%nat with (S n) in * by lia. exists A, B. split; [exact SA|]. split; [exact SB|]. split; [exact SV|].
  intros svd X r EX SX HR. destruct (T svd X EX SX) as [T1 T2].
  assert (SC := @mtranspose_shape RNum _ _ X SX). destruct (curve_new_clamped p n dim U (mtranspose X) _ CL SC EK) as [c [Ec HCC]].
  exists U, (mtranspose X), c, (fit_error p n dim m U (fun g => INR g / INR m) Q (mtranspose X)).
  split; [rewrite G, T1; exact Ec|]. split; [exact HCC|]. split; [apply (uniform_uk p n (knots_of p U) U Hp EU (@knots_of_vector RNum p U))|].
  split; [apply (data_error_val p n dim m U _ c Q _ HCC Hm1); reflexivity|].
  intros C' c' e' HC' DE. apply (data_error_val p n dim m U C' c' Q _ HC' Hm1) in DE. subst e'.
  assert (FE : forall X, fit_error p n dim m U (fun g => INR g / INR m) Q X = fit_error p n dim m U (fun g => nth g v 0) Q X).
  { intros Z. unfold fit_error. apply rsum_ext. intros g Hg. apply rsum_ext. intros d Hd. rewrite Hv by lia. reflexivity. }
  rewrite !FE. eapply Rle_trans; [apply (T2 C')|].
  - destruct HC' as [_ [S' _]]. exact S'.
  - apply Rplus_le_compat_l. unfold apart. apply left_sum. intros i d Hi Hd. apply HR; [lia|exact Hd].
Qed.

Theorem fixed_residual p n m dim (Q : Mat RNum) pen : shape dim (S m) Q -> (1 <= p <= n)%nat -> (2 <= n <= m)%nat ->
  (forall q, pen = Some q -> 0 <= lambda q /\ (1 <= kappa q <= n - 2)%nat) ->
  exists A B, shape (n - 1) (n - 1) A /\ shape (n - 1) dim B /\ (exists Y, solves A B Y) /\
    forall svd X r, svd A B = Val X -> shape (n - 1) dim X -> (forall i d, (i < n - 1)%nat -> (d < dim)%nat -> Rabs (left_over A B X i d) <= r) ->
    exists U C c e, generate svd (LeastSquaresFit p Q n FixedEnds pen) = Val (Ok c) /\ clamped_curve p n dim U C c /\ uniform_knots p n U /\ data_error c dim m Q e /\
      returns (evaluate c 0) dim (fun d => ent Q 0 d) /\ returns (evaluate c 1) dim (fun d => ent Q m d) /\
      forall C' c' e', clamped_curve p n dim U C' c' -> data_error c' dim m Q e' ->
        returns (evaluate c' 0) dim (fun d => ent Q 0 d) -> returns (evaluate c' 1) dim (fun d => ent Q m d) ->
        e + penalty pen (n - 1) 1 dim C <= e' + penalty pen (n - 1) 1 dim C' + 2 * r * apart n dim C C'.
Proof.
  intros SQ Hp Hm HP. assert (Hm1 : (1 <= m)%nat) by lia.
  destruct (fixed_fit_fact some_solver p n m dim Q pen some_solver_good SQ Hp Hm HP) as [U0 [C0 [c0 [e0 [E0 _]]]]].
  destruct (lsf_steps p n m dim Q SQ Hp Hm1) as [v [U [Lv [Hv [EU [EK [CL G]]]]]]].
  rewrite G in E0. inv_val E0 P EF. destruct P as [P|er]; [|discriminate E0].
  assert (SQ' : shape dim (m + 1) Q) by (replace (m + 1)%nat with (S m) by lia; exact SQ).
  destruct (fixed_near some_solver p n m dim U Q P v m pen (cl_len _ _ _ CL) (cl_sorted _ _ _ CL) SQ' Lv ltac:(intros q Eq; apply (HP q Eq)) EF) as [A [B [SA [SB [SV T]]]]].
  exists A, B. split; [exact SA|]. split; [exact SB|]. split; [exact SV|].
  intros svd X r EX SX HR. destruct (T svd X EX SX) as [C [T1 [SC [HE T2]]]]. replace (n + 1)%nat with (S n) in * by lia.
  destruct (curve_new_clamped p n dim U C _ CL SC EK) as [c [Ec HCC]].
  assert (FC := kfun_clamped p n U CL).
  assert (Ev0 : forall X, spline (kfun U) n p X 0 = X 0%nat) by (intros Z; apply spline_at_0; exact FC).
  assert (Ev1 : forall X, spline (kfun U) n p X 1 = X n) by (intros Z; apply spline_at_1; exact FC).
  exists U, C, c, (fit_error p n dim m U (fun g => INR g / INR m) Q C).
  split; [rewrite G, T1; exact Ec|]. split; [exact HCC|]. split; [apply (uniform_uk p n (knots_of p U) U Hp EU (@knots_of_vector RNum p U))|].
  split; [apply (data_error_val p n dim m U _ c Q _ HCC Hm1); reflexivity|].
  split; [eapply returns_ext; [apply (cc_eval0 p n dim U C c 0 HCC); lra|]; intros d Hd; cbv beta; rewrite Ev0; apply HE; exact Hd|].
  split; [eapply returns_ext; [apply (cc_eval0 p n dim U C c 1 HCC); lra|]; intros d Hd; cbv beta; rewrite Ev1; apply HE; exact Hd|].
  intros C' c' e' HC' DE R0 R1. apply (data_error_val p n dim m U C' c' Q _ HC' Hm1) in DE. subst e'.
  assert (HE' : forall d, (d < dim)%nat -> ent C' 0 d = ent Q 0 d /\ ent C' n d = ent Q m d).
  { intros d Hd. destruct R0 as [x [Ex [_ Vx]]], R1 as [y [Ey [_ Vy]]].
    destruct (cc_eval0 p n dim U C' c' 0 HC' ltac:(lra)) as [x' [Ex' [_ Vx']]]. rewrite Ex in Ex'. injection Ex' as <-.
    destruct (cc_eval0 p n dim U C' c' 1 HC' ltac:(lra)) as [y' [Ey' [_ Vy']]]. rewrite Ey in Ey'. injection Ey' as <-.
    split; [rewrite <- Vx, Vx', Ev0 by exact Hd; reflexivity|rewrite <- Vy, Vy', Ev1 by exact Hd; reflexivity]. }
  assert (F0 : INR 0 / INR m = 0) by (cbn [INR]; unfold Rdiv; ring).
  assert (F1 : INR m / INR m = 1) by (unfold Rdiv; apply Rinv_r; assert (Z := INR_pos m ltac:(lia)); lra).
  assert (FE : forall X, (forall d, (d < dim)%nat -> ent X 0 d = ent Q 0 d /\ ent X n d = ent Q m d) -> fit_error p n dim m U (fun g => INR g / INR m) Q X =
    rsum (fun g => rsum (fun d => (spline (kfun U) n p (fun i => ent X i d) (nth (1 + g) v 0) - ent Q (1 + g) d) ^ 2) dim) (m - 1)).
  { intros Z HZ. unfold fit_error.
    assert (Sp : forall f, rsum f (S m) = f 0%nat + rsum (fun i => f (1 + i)%nat) (m - 1) + f m).
    { intros f. rewrite rsum_first. destruct m as [|m']; [lia|]. replace (S m' - 1)%nat with m' by lia. cbn [rsum]. cbn [plus]. ring. }
    rewrite Sp. rewrite F0, F1.
    rewrite (rsum_ext (fun d => (spline (kfun U) n p (fun i => ent Z i d) 0 - ent Q 0 d) ^ 2) (fun _ => 0)) by (intros d Hd; rewrite Ev0; destruct (HZ d Hd) as [-> _]; ring).
    rewrite (rsum_ext (fun d => (spline (kfun U) n p (fun i => ent Z i d) 1 - ent Q m d) ^ 2) (fun _ => 0)) by (intros d Hd; rewrite Ev1; destruct (HZ d Hd) as [_ ->]; ring).
    rewrite rsum_0, Rplus_0_l, Rplus_0_r. apply rsum_ext. intros g Hg. apply rsum_ext. intros d Hd. rewrite Hv by lia. reflexivity. }
  rewrite (FE C HE), (FE C' HE'). eapply Rle_trans; [apply (T2 C'); [apply HC'|exact HE']|]. apply Rplus_le_compat_l.
  eapply Rle_trans; [apply (left_sum (left_over A B X) (fun i d => ent C (1 + i) d - ent C' (1 + i) d) r (n - 1) dim HR)|].
  right. f_equal. unfold apart.
  assert (Sp : forall f, rsum f (S n) = f 0%nat + rsum (fun i => f (1 + i)%nat) (n - 1) + f n).
  { intros f. rewrite rsum_first. destruct n as [|n']; [lia|]. replace (S n' - 1)%nat with n' by lia. cbn [rsum]. cbn [plus]. ring. }
  rewrite Sp. rewrite (rsum_zero (fun d => Rabs (ent C 0 d - ent C' 0 d))), (rsum_zero (fun d => Rabs (ent C n d - ent C' n d))); [ring| |]; intros d Hd.
  - destruct (HE d Hd) as [_ ->], (HE' d Hd) as [_ ->]. rewrite Rminus_diag_eq by reflexivity. apply Rabs_R0.
  - destruct (HE d Hd) as [-> _], (HE' d Hd) as [-> _]. rewrite Rminus_diag_eq by reflexivity. apply Rabs_R0.
Qed.
