(** * Interpolation and the loose-ends fit *)

From Coq Require Import ZArith Reals List Bool Arith Lia Lra.
From Verif Require Import Num Vec MKnots MPoints MCurve MFit MGenerate RNum Hoare Lists Struct Spec BMath BMath2 Api Bridge Facts1 Gen1 Gen2 Gen3 Gen4 LinAlg Fit1 Fit2.
Import ListNotations.
Local Open Scope R_scope.

Tactic Notation "inv_val" hyp(H) ident(x) ident(E) := match type of H with (bind ?m _ = _) => destruct m as [x| | |] eqn:E; try discriminate H; cbn [bind] in H end.

(** what is used of a solver: it returns on solvable systems, and what it returns then is a solution *)
Definition honest (svd : Mat RNum -> Mat RNum -> M (Mat RNum)) : Prop :=
  forall A B X Y, svd A B = Val X -> solves A B Y -> solves A B X.
Definition returning (svd : Mat RNum -> Mat RNum -> M (Mat RNum)) : Prop :=
  forall A B Y, solves A B Y -> exists X, svd A B = Val X /\ shape (ncols A) (ncols B) X.

Lemma good_honest svd : good_solver svd -> honest svd.
Proof. intros G A B X Y E H. destruct (G A B Y H) as [Z [EZ HZ]]. rewrite E in EZ. injection EZ as ->. exact HZ. Qed.
Lemma good_returning svd : good_solver svd -> returning svd.
Proof. intros G A B Y H. destruct (G A B Y H) as [Z [EZ [_ [HZ _]]]]. exists Z. split; assumption. Qed.
Lemma returning_returning svd : returning_solver svd -> returning svd.
Proof. intros G A B Y _. apply G. Qed.

(** ** matrices from functions *)
Definition mat_of (r c : nat) (f : nat -> nat -> R) : Mat RNum := mkMat r (map (fun j => map (fun i => f i j) (seq 0 r)) (seq 0 c)).

Lemma mat_of_shape r c f : shape r c (mat_of r c f).
Proof.
  split; [reflexivity|]. cbn [mat_of mcols]. split; [rewrite map_length, seq_length; reflexivity|]. intros i Hi.
  rewrite nth_map_seq by exact Hi. rewrite map_length, seq_length. reflexivity.
Qed.
Lemma ent_mat_of r c f i j : (i < r)%nat -> (j < c)%nat -> ent (mat_of r c f) j i = f i j.
Proof. intros Hi Hj. unfold ent. cbn [mat_of mcols]. rewrite nth_map_seq by exact Hj. rn. rewrite nth_map_seq by exact Hi. reflexivity. Qed.

Lemma finite_choice {X} (x0 : X) (P : nat -> X -> Prop) n : (forall i, (i < n)%nat -> exists x, P i x) -> exists f, forall i, (i < n)%nat -> P i (f i).
Proof.
  induction n as [|n IH]; intros H; [exists (fun _ => x0); intros; lia|].
  destruct (IH ltac:(intros i Hi; apply H; lia)) as [f Hf]. destruct (H n ltac:(lia)) as [x Hx].
  exists (fun i => if (i =? n)%nat then x else f i). intros i Hi. destruct (Nat.eqb_spec i n) as [->|]; [exact Hx|apply Hf; lia].
Qed.

(** a system can be solved if it can be solved for every right-hand side on its own *)
Lemma solvable (A B : Mat RNum) k r c : shape r k A -> shape r c B ->
  (forall d, (d < c)%nat -> exists x, forall i, (i < r)%nat -> rsum (fun j => ent A j i * x j) k = ent B d i) -> exists Y, solves A B Y.
Proof.
  intros SA SB H. destruct (finite_choice (fun _ => 0) _ c H) as [x Hx].
  assert (A1 : nrows A = r) by apply SA. assert (A2 : ncols A = k) by apply SA. assert (B1 : nrows B = r) by apply SB. assert (B2 : ncols B = c) by apply SB.
  exists (mat_of k c (fun i d => x d i)). unfold solves. rewrite A1, A2, B1, B2. split; [reflexivity|]. split; [apply mat_of_shape|].
  intros i d Hi Hd. rewrite <- (Hx d Hd i Hi). apply rsum_ext. intros j Hj. rewrite ent_mat_of by assumption. reflexivity.
Qed.

Lemma svd_solve_val {K : Num} svd (A B X : Mat K) : svd_solve svd A B = Val X -> svd A B = Val X /\ nrows A = nrows B.
Proof.
  unfold svd_solve. destruct (mis_empty A); [discriminate|]. destruct (Nat.eqb_spec (nrows A) (nrows B)); [|discriminate]. auto.
Qed.

Lemma interpolation_rejects (K : Num) svd (Q : Mat K) dim m p : shape dim (S m) Q ->
  forall params, @equally_spaced K m = Val params ->
  (p = 0%nat -> generate svd (Interpolation p Q) = Val (Err (DegreeTooLow 0 0))) /\
  ((1 <= p)%nat -> (m < p)%nat -> generate svd (Interpolation p Q) = Val (Err (DegreeAndSegmentsMismatch p m))).
Proof.
  intros SQ params EP. cbn [generate]. unfold params_generate, dp_segments. assert (NQ : ncols Q = S m) by apply SQ. rewrite NQ.
  rewrite usub_ok by lia. cbn [bind]. replace (S m - 1)%nat with m by lia. rewrite EP. cbn [bind]. split.
  - intros ->. rewrite generate_bad. reflexivity.
  - intros H1 H2. rewrite generate_short by assumption. reflexivity.
Qed.

(** ** the normal equations *)
Lemma normal_R kn (N : Mat RNum) pen fd A rows cols : shape rows cols N -> @normal_matrix RNum kn N pen fd = Val (Ok A) ->
  match pen with
  | None => shape cols cols A /\ forall i j, (i < cols)%nat -> (j < cols)%nat -> ent A j i = rsum (fun g => ent N i g * ent N j g) rows
  | Some q => 0 <= lambda q /\ exists Dm, fd (kappa q) kn = Val Dm /\ forall k, shape k cols Dm -> shape cols cols A /\
      forall i j, (i < cols)%nat -> (j < cols)%nat -> ent A j i = rsum (fun g => ent N i g * ent N j g) rows + lambda q * rsum (fun r => ent Dm i r * ent Dm j r) k
  end.
Proof.
  intros SN E. unfold normal_matrix in E. assert (ST := @mtranspose_shape RNum rows cols N SN).
  destruct (mmul_R cols rows cols _ _ ST SN) as [G [EG [SG HG]]]. rewrite EG in E. cbn [bind] in E.
  assert (HG' : forall i j, (i < cols)%nat -> (j < cols)%nat -> ent G j i = rsum (fun g => ent N i g * ent N j g) rows).
  { intros i j Hi Hj. rewrite HG by assumption. apply rsum_ext. intros g Hg. rewrite (ent_mtranspose_R rows cols N g i SN Hg Hi). reflexivity. }
  destruct pen as [q|].
  - rn. destruct (Rltb (lambda q) 0) eqn:E0; [discriminate E|]. apply Rltb_ge in E0. split; [exact E0|].
    inv_val E bad EB. destruct bad; [discriminate E|]. inv_val E Dm ED. exists Dm. split; [reflexivity|]. intros k SD.
    assert (SDT := @mtranspose_shape RNum k cols Dm SD).
    destruct (mmul_R cols k cols _ _ SDT SD) as [G2 [EG2 [SG2 HG2]]]. rewrite EG2 in E. cbn [bind] in E.
    destruct (madd_R cols cols G (mscale (lambda q) G2) SG (mscale_shape cols cols G2 _ SG2)) as [A' [EA [SA HA]]].
    rewrite EA in E. cbn [bind] in E. injection E as <-. split; [exact SA|]. intros i j Hi Hj. rewrite HA by assumption.
    rewrite HG' by assumption. rewrite (ent_mscale_R cols cols G2 _ i j SG2 Hi Hj). rewrite HG2 by assumption. do 2 f_equal. apply rsum_ext. intros r Hr.
    rewrite (ent_mtranspose_R k cols Dm r i SD Hr Hi). reflexivity.
  - injection E as <-. split; [exact SG|exact HG'].
Qed.

(** minimum for one coordinate, from the solved system *)
Lemma system_min pen kn N fd A rows cols k (x y b : nat -> R) : shape rows cols N -> @normal_matrix RNum kn N pen fd = Val (Ok A) ->
  (forall q Dm, pen = Some q -> fd (kappa q) kn = Val Dm -> shape (k q) cols Dm) ->
  (forall i, (i < cols)%nat -> rsum (fun j => ent A j i * x j) cols = rsum (fun g => ent N i g * b g) rows) ->
  rsum (fun g => (rsum (fun j => ent N j g * x j) cols - b g) ^ 2) rows +
    match pen with None => 0 | Some q => match fd (kappa q) kn with Val Dm => lambda q * rsum (fun r => rsum (fun j => ent Dm j r * x j) cols ^ 2) (k q) | _ => 0 end end <=
  rsum (fun g => (rsum (fun j => ent N j g * y j) cols - b g) ^ 2) rows +
    match pen with None => 0 | Some q => match fd (kappa q) kn with Val Dm => lambda q * rsum (fun r => rsum (fun j => ent Dm j r * y j) cols ^ 2) (k q) | _ => 0 end end.
Proof.
  intros SN EA SD H. assert (T := normal_R kn N pen fd A rows cols SN EA). destruct pen as [q|].
  - destruct T as [T0 [Dm [ED T]]]. rewrite ED. destruct (T (k q) (SD q Dm eq_refl ED)) as [SA HA].
    apply (lsq_min (fun g i => ent N i g) (fun r i => ent Dm i r) rows (k q) cols (lambda q) x y b T0).
    intros i Hi. rewrite <- (H i Hi). apply rsum_ext. intros j Hj. rewrite <- HA by assumption. reflexivity.
  - destruct T as [SA HA].
    assert (M := lsq_min (fun g i => ent N i g) (fun r i => 0) rows 0 cols 0 x y b ltac:(lra)). cbn [rsum] in M.
    rewrite !Rmult_0_l in M. apply M. intros i Hi. rewrite <- (H i Hi). apply rsum_ext. intros j Hj. rewrite <- HA by assumption. rewrite Rplus_0_r. reflexivity.
Qed.

Lemma system_solvable pen kn N fd A B rows cols c (b : nat -> nat -> R) : shape rows cols N -> @normal_matrix RNum kn N pen fd = Val (Ok A) ->
  (forall q Dm, pen = Some q -> fd (kappa q) kn = Val Dm -> exists k, shape k cols Dm) -> shape cols c B ->
  (forall i d, (i < cols)%nat -> (d < c)%nat -> ent B d i = rsum (fun g => ent N i g * b g d) rows) -> exists Y, solves A B Y.
Proof.
  intros SN EA SD SB HB. assert (T := normal_R kn N pen fd A rows cols SN EA). destruct pen as [q|].
  - destruct T as [T0 [Dm [ED T]]]. destruct (SD q Dm eq_refl ED) as [k Sk]. destruct (T k Sk) as [SA HA].
    apply (solvable A B cols cols c SA SB). intros d Hd.
    destruct (normal_solvable (fun g i => ent N i g) (fun r i => ent Dm i r) rows k cols (lambda q) (fun g => b g d) T0) as [x Hx].
    exists x. intros i Hi. rewrite HB by assumption. rewrite <- (Hx i Hi). apply rsum_ext. intros j Hj. rewrite <- HA by assumption. reflexivity.
  - destruct T as [SA HA]. apply (solvable A B cols cols c SA SB). intros d Hd.
    destruct (normal_solvable (fun g i => ent N i g) (fun r i => 0) rows 0 cols 0 (fun g => b g d) ltac:(lra)) as [x Hx].
    exists x. intros i Hi. rewrite HB by assumption. rewrite <- (Hx i Hi). apply rsum_ext. intros j Hj. rewrite <- HA by assumption. cbn [rsum]. rn. ring.
Qed.

Lemma input_checks_ok p n (U : list R) dim m (Q : Mat RNum) params pen u : length U = (n + p + 2)%nat -> shape dim (m + 1) Q ->
  @input_checks RNum (knots_of p U) Q params pen = Val (Ok u) ->
  (n <= m)%nat /\ psegments params = m /\ (p <= n)%nat /\ match pen with Some q => (1 <= n)%nat /\ (kappa q <= n - 1)%nat | None => True end.
Proof.
  intros L SQ E. unfold input_checks in E. rewrite (@knots_of_segments RNum p U n L) in E. cbn [bind] in E. unfold dp_segments in E.
  assert (NQ : ncols Q = (m + 1)%nat) by apply SQ. rewrite NQ in E. rewrite usub_ok in E by lia. cbn [bind] in E. replace (m + 1 - 1)%nat with m in E by lia.
  change (kdegree (@knots_of RNum p U)) with p in E.
  destruct (Nat.ltb_spec m n); [discriminate E|]. destruct (Nat.eqb_spec m (psegments params)); [|discriminate E]. cbn [negb] in E.
  destruct (Nat.ltb_spec n p); [discriminate E|]. split; [assumption|]. split; [congruence|]. split; [assumption|].
  destruct pen as [q|]; [|exact I]. inv_val E n1 E1. unfold usub in E1. destruct (Nat.leb_spec 1 n); [|discriminate E1]. injection E1 as <-.
  destruct (Nat.ltb_spec (n - 1) (kappa q)); [discriminate E|]. split; assumption.
Qed.

Lemma loose_min svd p n m dim (U : list R) (Q C : Mat RNum) v s pen : honest svd -> length U = (n + p + 2)%nat -> sorted U ->
  shape dim (m + 1) Q -> length v = (m + 1)%nat -> (forall q, pen = Some q -> (1 <= kappa q)%nat) ->
  loose_fit svd (knots_of p U) Q (mkParams v s) pen = Val (Ok C) ->
  (p <= n <= m)%nat /\ shape dim (n + 1) C /\ forall C', shape dim (n + 1) C' ->
    fit_error p n dim m U (fun g => nth g v 0) Q C + penalty pen (n + 1) 0 dim C <=
    fit_error p n dim m U (fun g => nth g v 0) Q C' + penalty pen (n + 1) 0 dim C'.
Proof.
  intros ES L SU SQ Lv HK E. unfold loose_fit in E. inv_val E chk EC. destruct chk as [u|e]; [|discriminate E].
  destruct (input_checks_ok p n U dim m Q _ pen u L SQ EC) as [Hnm [_ [Hpn HP]]].
  destruct (loose_coefficients_R p n U L Hpn SU dim m Q v s SQ Lv) as [N [EN [SN HN]]]. rewrite EN in E. cbn [bind] in E.
  inv_val E A EA. destruct A as [A|e]; [|discriminate E].
  destruct (mmul_R (n + 1) (m + 1) dim _ _ (mtranspose_shape _ _ _ SN) (mtranspose_shape _ _ _ SQ)) as [B [EB [SB HB]]].
  rewrite EB in E. cbn [bind] in E. inv_val E X EX. injection E as <-. apply svd_solve_val in EX. destruct EX as [EX NR].
  assert (HSD : forall q Dm, pen = Some q -> loose_difference (kappa q) (knots_of p U) = Val Dm -> exists k, shape k (n + 1) Dm).
  { intros q Dm -> ED. destruct HP as [H1 H2]. destruct (loose_difference_R p n U L Hpn (kappa q) ltac:(lia)) as [Dm' [ED' [SD _]]]. rewrite ED' in ED. injection ED as <-. eexists. exact SD. }
  assert (Sv : exists Y, solves A B Y).
  { apply (system_solvable pen _ N _ A B (m + 1) (n + 1) dim (fun g d => ent Q g d) SN EA HSD SB). intros i d Hi Hd. rewrite HB by assumption.
    apply rsum_ext. intros g Hg. rewrite (ent_mtranspose_R (m + 1) (n + 1) N g i SN Hg Hi), (ent_mtranspose_R dim (m + 1) Q d g SQ Hd Hg). reflexivity. }
  destruct Sv as [Y HY]. destruct (ES _ _ _ Y EX HY) as [_ [SX HX]].
  assert (SA : shape (n + 1) (n + 1) A).
  { assert (T := normal_R _ N pen _ A (m + 1) (n + 1) SN EA). destruct pen as [q|]; [|apply T]. destruct T as [_ [Dm [ED T]]].
    destruct (loose_difference_R p n U L Hpn (kappa q) ltac:(lia)) as [Dm' [ED' [SD _]]]. rewrite ED' in ED. injection ED as <-. apply (T _ SD). }
  assert (AC : ncols A = (n + 1)%nat) by apply SA. assert (AR : nrows A = (n + 1)%nat) by apply SA. assert (BC : ncols B = dim) by apply SB.
  rewrite AC, BC in SX. rewrite AC, AR, BC in HX.
  split; [lia|]. split; [apply (@mtranspose_shape RNum); exact SX|]. intros C' SC'.
  assert (EX' : forall i d, (i < n + 1)%nat -> (d < dim)%nat -> ent (mtranspose X) i d = ent X d i) by (intros; apply (ent_mtranspose_R (n + 1) dim X); assumption).
  set (C := mtranspose X) in *.
  assert (Sys : forall d i, (d < dim)%nat -> (i < n + 1)%nat -> rsum (fun j => ent A j i * ent C j d) (n + 1) = rsum (fun g => ent N i g * ent Q g d) (m + 1)).
  { intros d i Hd Hi. rewrite (rsum_ext _ (fun j => ent A j i * ent X d j)) by (intros j Hj; rewrite EX' by assumption; reflexivity).
    rewrite HX by assumption. rewrite HB by assumption. apply rsum_ext. intros g Hg.
    rewrite (ent_mtranspose_R (m + 1) (n + 1) N g i SN Hg Hi), (ent_mtranspose_R dim (m + 1) Q d g SQ Hd Hg). reflexivity. }
  (* one coordinate *)
  set (F := fun (P : Mat RNum) d => rsum (fun g => (spline (kfun U) n p (fun i => ent P i d) (nth g v 0) - ent Q g d) ^ 2) (S m) +
     match pen with None => 0 | Some q => lambda q * rsum (fun r => fdiff (kappa q) (fun i => ent P (0 + i) d) r ^ 2) (n + 1 - kappa q) end).
  assert (Obj : forall P, fit_error p n dim m U (fun g => nth g v 0) Q P + penalty pen (n + 1) 0 dim P = rsum (F P) dim).
  { intros P. unfold fit_error, penalty, roughness, F. rewrite rsum_swap. destruct pen as [q|].
    - rewrite (rsum_swap (fun r d => fdiff (kappa q) (fun i => ent P (0 + i) d) r ^ 2)). rewrite <- rsum_scal, <- rsum_plus. reflexivity.
    - rewrite rsum_plus, rsum_0. ring. }
  rewrite !Obj. apply BMath.rsum_le. intros d Hd.
  assert (M := system_min pen _ N _ A (m + 1) (n + 1) (fun q => (n + 1 - kappa q)%nat) (fun i => ent C i d) (fun i => ent C' i d) (fun g => ent Q g d) SN EA).
  assert (Sp : forall P g, (g < m + 1)%nat -> rsum (fun j => ent N j g * ent P j d) (n + 1) = spline (kfun U) n p (fun i => ent P i d) (nth g v 0)).
  { intros P g Hg. unfold spline. replace (S n) with (n + 1)%nat by lia. apply rsum_ext. intros j Hj. rewrite HN by lia. reflexivity. }
  assert (Obj1 : forall P, F P d = rsum (fun g => (rsum (fun j => ent N j g * ent P j d) (n + 1) - ent Q g d) ^ 2) (m + 1) +
      match pen with None => 0 | Some q => match loose_difference (kappa q) (knots_of p U) with Val Dm => lambda q * rsum (fun r => rsum (fun j => ent Dm j r * ent P j d) (n + 1) ^ 2) (n + 1 - kappa q) | _ => 0 end end).
  { intros P. unfold F. f_equal.
    - replace (S m) with (m + 1)%nat by lia. apply rsum_ext. intros g Hg. rewrite Sp by exact Hg. reflexivity.
    - destruct pen as [q|]; [|reflexivity]. destruct HP as [H1 H2].
      destruct (loose_difference_R p n U L Hpn (kappa q) ltac:(lia)) as [Dm [ED [SD HD]]]. rn. rewrite ED. f_equal. apply rsum_ext. intros r Hr. f_equal.
      rewrite <- (dop_apply (kappa q) (fun i => ent P (0 + i) d) n r) by (try apply HK; try reflexivity; lia).
      replace (S n) with (n + 1)%nat by lia. apply rsum_ext. intros j Hj. rewrite HD by lia. reflexivity. }
  rewrite !Obj1. apply M.
  - intros q Dm -> ED. destruct HP as [H1 H2]. destruct (loose_difference_R p n U L Hpn (kappa q) ltac:(lia)) as [Dm' [ED' [SD _]]]. rewrite ED' in ED. injection ED as <-. exact SD.
  - intros i Hi. apply Sys; assumption.
Qed.
