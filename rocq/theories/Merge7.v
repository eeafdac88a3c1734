(** * The shifts the merge computes *)

From Coq Require Import ZArith Reals List Bool Arith Lia Lra.
From Verif Require Import Num Vec MKnots MPoints MCurve MFit MMerge RNum Hoare Lists Struct Spec BMath BMath3 Api Bridge Facts1 Facts3 Gen3 LinAlg Fit1 Fit3 Fit4 Merge1 Merge2 Merge3 Merge4 Merge5 Merge6.
Import ListNotations.
Local Open Scope R_scope.

Section Shifts.
  Context {p m dim : nat} {V : list R} {S_ : Mat RNum} {a : Curve RNum} (HA : clamped_curve p m dim V S_ a).
  Context {o : nat} {W : list R} {T_ : Mat RNum} {b : Curve RNum} (HB : clamped_curve p o dim W T_ b).
  Context (pa pb : list R) (Hp : (1 <= p)%nat).
  Notation na := (length pa).
  Notation nb := (length pb).
  Notation con := (@con p m V o W pa pb).
  Notation gap := (@gap p m V S_ W T_).

  Lemma ConstMat_R total : exists C, @constructConstMat RNum a b total = Val C /\ shape dim (3 * p + total) C /\
    forall d y, (d < dim)%nat -> (y < 3 * p + total)%nat -> ent C y d = if ((2 * p <=? y) && (y <? 3 * p))%nat%bool then - gap (y - 2 * p) d else 0.
  Proof.
    assert (Wa := proj1 (cc_wf _ _ _ _ _ _ HA)). unfold constructConstMat. rewrite (wf_degree Wa), (wf_dimension Wa). cbn [bind]. rn.
    destruct (Kconst_R HA HB Hp) as [N [E [SN HN]]]. rewrite E. cbn [bind].
    destruct (mset_view_val dim (3 * p + total) dim p 0 (2 * p) (@mzeros RNum dim (3 * p + total)) N (mzeros_shape _ _) SN ltac:(lia) ltac:(lia)) as [C [EC [SC HC]]].
    exists C. split; [exact EC|]. split; [exact SC|]. intros d y Hd Hy. rewrite HC by assumption. rewrite ent_mzeros. cbn [Nat.leb Nat.add].
    replace (d <? dim)%nat with true by (symmetry; apply Nat.ltb_lt; lia). cbn [andb]. rewrite Nat.sub_0_r. replace (2 * p + p)%nat with (3 * p)%nat by lia.
    destruct (Nat.leb_spec (2 * p) y), (Nat.ltb_spec y (3 * p)); cbn [andb]; try reflexivity. apply HN; lia.
  Qed.

  Definition crhs (d r : nat) : R := if (r <? p)%nat then - gap r d else 0.

  Lemma left_end (x : nat -> R) k : (k < p)%nat -> rsum (fun j => @lc p m V k j * x j) p = dpoints (kfun V) p (fun i => if (i <? m + 1 - p)%nat then 0 else x (i - (m + 1 - p))%nat) k (m - k).
  Proof.
    intros Hk. assert (D := cl_deg _ _ _ (proj1 HA)). rewrite (dpoints_expand _ _ _ (S m)) by lia.
    rewrite (rsum_drop _ (m + 1 - p) (S m)) by (try lia; intros i Hi; cmp; ring).
    replace (S m - (m + 1 - p))%nat with p by lia. apply rsum_ext. intros j Hj. cmp. replace (m + 1 - p + j - (m + 1 - p))%nat with j by lia. unfold lc. ring.
  Qed.
  Lemma right_end (x : nat -> R) k : (k < p)%nat -> rsum (fun j => @rc p W k j * x j) p = dpoints (kfun W) p (fun i => if (i <? p)%nat then x i else 0) k 0.
  Proof.
    intros Hk. rewrite (dpoints_expand _ _ _ p) by lia. apply rsum_ext. intros j Hj. cmp. unfold rc. ring.
  Qed.

  Lemma joint_row (x : nat -> R) k : (k < p)%nat -> rsum (fun j => con k j * x j) (2 * p) =
    dpoints (kfun V) p (fun i => if (i <? m + 1 - p)%nat then 0 else x (i - (m + 1 - p))%nat) k (m - k)
    - dpoints (kfun W) p (fun i => if (i <? p)%nat then x (p + i)%nat else 0) k 0.
  Proof.
    intros Hk. replace (2 * p)%nat with (p + p)%nat by lia. rewrite rsum_add. rewrite <- left_end by exact Hk. rewrite <- (right_end (fun i => x (p + i)%nat) k Hk).
    unfold Rminus. f_equal.
    - apply rsum_ext. intros j Hj. unfold Merge4.con. cmp. reflexivity.
    - rewrite (rsum_ext _ (fun j => -1 * (@rc p W k j * x (p + j)%nat))); [rewrite rsum_scal; ring|]. intros j Hj. unfold Merge4.con. cmp. replace (p + j - p)%nat with j by lia. ring.
  Qed.
  Lemma left_row (x : nat -> R) g : (g < na)%nat -> rsum (fun j => con (p + g) j * x j) (2 * p) = rsum (fun j => bspline (kfun V) m p (m + 1 - p + j) (nth g pa 0) * x j) p.
  Proof.
    intros Hg. replace (2 * p)%nat with (p + p)%nat by lia. rewrite rsum_add. rewrite (rsum_zero (fun j => con (p + g) (p + j) * x (p + j)%nat) p).
    - rewrite Rplus_0_r. apply rsum_ext. intros j Hj. unfold Merge4.con. cmp. unfold gl. repeat f_equal. lia.
    - intros j Hj. unfold Merge4.con. cmp. ring.
  Qed.
  Lemma right_row (x : nat -> R) g : (g < nb)%nat -> rsum (fun j => con (p + na + g) j * x j) (2 * p) = rsum (fun j => bspline (kfun W) o p j (nth g pb 0) * x (p + j)%nat) p.
  Proof.
    intros Hg. replace (2 * p)%nat with (p + p)%nat by lia. rewrite rsum_add. rewrite (rsum_zero (fun j => con (p + na + g) j * x j) p).
    - rewrite Rplus_0_l. apply rsum_ext. intros j Hj. unfold Merge4.con. cmp. unfold gr. replace (p + j - p)%nat with j by lia. repeat f_equal; lia.
    - intros j Hj. unfold Merge4.con. cmp. ring.
  Qed.

  Lemma shifts_feasible d : pa = [] \/ pb = [] -> exists x, feasible (2 * p) (p + na + nb) con (crhs d) x.
  Proof.
    intros [E|E].
    - destruct (square_solvable p (fun k j => @lc p m V k j) (fun k => - gap k d)) as [x Hx].
      + intros x Hx j Hj. assert (D := cl_deg _ _ _ (proj1 HA)).
        assert (Z := end_injective p m (kfun V) (fun i => if (i <? m + 1 - p)%nat then 0 else x (i - (m + 1 - p))%nat) (kfun_clamped p m V (proj1 HA))).
        specialize (Z ltac:(intros k Hk; rewrite <- left_end by exact Hk; apply Hx; exact Hk) (m + 1 - p + j)%nat ltac:(lia)). cbv beta in Z.
        replace (m + 1 - p + j <? m + 1 - p)%nat with false in Z by (symmetry; apply Nat.ltb_ge; lia). replace (m + 1 - p + j - (m + 1 - p))%nat with j in Z by lia. exact Z.
      + exists (fun j => if (j <? p)%nat then x j else 0). intros r Hr. unfold crhs. destruct (Nat.ltb_spec r p) as [H|H].
        * rewrite joint_row by exact H. rewrite <- (Hx r H), left_end by exact H.
          rewrite (dpoints_ext (kfun W) p _ (fun _ => 0) r 0) by (intros; cbv beta; cmp; destruct (Nat.ltb_spec j p); reflexivity).
          rewrite (dpoints_expand _ _ (fun _ => 0) (S r)) by lia. rewrite (rsum_zero _ (S r)) by (intros; ring). rewrite Rminus_0_r.
          apply dpoints_ext. intros i Hi. cbv beta. assert (D := cl_deg _ _ _ (proj1 HA)). destruct (Nat.ltb_spec i (m + 1 - p)); [reflexivity|]. cmp. reflexivity.
        * assert (Z : na = 0%nat) by (rewrite E; reflexivity). replace r with (p + na + (r - p))%nat by lia. rewrite right_row by lia.
          apply rsum_zero. intros j Hj. cmp. ring.
    - destruct (square_solvable p (fun k j => @rc p W k j) (fun k => gap k d)) as [x Hx].
      + intros x Hx j Hj.
        assert (Z := start_injective p o (kfun W) (fun i => if (i <? p)%nat then x i else 0) (kfun_clamped p o W (proj1 HB))).
        specialize (Z ltac:(intros k Hk; rewrite <- right_end by exact Hk; apply Hx; exact Hk) j Hj). cbv beta in Z.
        replace (j <? p)%nat with true in Z by (symmetry; apply Nat.ltb_lt; lia). exact Z.
      + exists (fun j => if (j <? p)%nat then 0 else x (j - p)%nat). intros r Hr. unfold crhs. destruct (Nat.ltb_spec r p) as [H|H].
        * rewrite joint_row by exact H. rewrite <- (Hx r H), right_end by exact H. assert (D := cl_deg _ _ _ (proj1 HA)).
          rewrite (dpoints_ext (kfun V) p _ (fun _ => 0) r (m - r)) by (intros j Hj; cbv beta; destruct (Nat.ltb_spec j (m + 1 - p)); [reflexivity|cmp; reflexivity]).
          rewrite (dpoints_expand _ _ (fun _ => 0) (S m)) by lia. rewrite (rsum_zero _ (S m)) by (intros; ring).
          rewrite (dpoints_ext (kfun W) p _ (fun i => if (i <? p)%nat then x i else 0) r 0); [ring|]. intros i Hi. cbv beta. destruct (Nat.ltb_spec i p); [|reflexivity]. cmp. f_equal. lia.
        * assert (Z : nb = 0%nat) by (rewrite E; reflexivity). replace r with (p + (r - p))%nat by lia. rewrite left_row by lia.
          apply rsum_zero. intros j Hj. cmp. ring.
  Qed.

  Lemma shifts_R svd : good_solver svd -> (forall d, (d < dim)%nat -> exists x, feasible (2 * p) (p + na + nb) con (crhs d) x) ->
    exists X, @solve_linear_equation_system RNum svd (mkCC a pa) (mkCC b pb) = Val X /\ shape dim (3 * p + na + nb) X /\
      forall d, (d < dim)%nat -> feasible (2 * p) (p + na + nb) con (crhs d) (fun j => ent X j d) /\ exists y, stationary (2 * p) (p + na + nb) con (fun j => ent X j d) y.
  Proof.
    intros G F. unfold solve_linear_equation_system. cbn [cc_curve cc_params]. rn.
    destruct (Nmat_R HA HB pa pb Hp) as [N [EN [SN HN]]]. rewrite EN. cbn [bind].
    destruct (ConstMat_R (na + nb)) as [C [EC [SC HC]]]. rewrite EC. cbn [bind]. rewrite Nat.add_assoc in SC, HC.
    assert (ST := mtranspose_shape dim (3 * p + na + nb) C SC).
    assert (Nrow : forall x z, (x < 3 * p + na + nb)%nat -> rsum (fun y => ent N y x * z y) (3 * p + na + nb) = rsum (fun y => bordered (2 * p) con (@sg p) x y * z y) (2 * p + (p + na + nb))).
    { intros x z Hx. replace (2 * p + (p + na + nb))%nat with (3 * p + na + nb)%nat by lia. apply rsum_ext. intros y Hy. rewrite HN by assumption. reflexivity. }
    assert (Crow : forall d x, (d < dim)%nat -> (x < 3 * p + na + nb)%nat -> ent (mtranspose C) d x = border_rhs (2 * p) (crhs d) x).
    { intros d x Hd Hx. rewrite (ent_mtranspose_R dim (3 * p + na + nb) C d x SC Hd Hx). rewrite HC by assumption. unfold border_rhs, crhs.
      destruct (Nat.ltb_spec x (2 * p)), (Nat.leb_spec (2 * p) x), (Nat.ltb_spec x (3 * p)), (Nat.ltb_spec (x - 2 * p) p); cbn [andb]; try lia; reflexivity. }
    destruct (solvable N (mtranspose C) (3 * p + na + nb) (3 * p + na + nb) dim SN ST) as [Y HY].
    { intros d Hd. destruct (bordered_solvable (2 * p) (p + na + nb) con (@sg p) (crhs d)) as [z Hz]; [|apply F; exact Hd|].
      - intros r. unfold sg. destruct (r <? p)%nat; lra.
      - exists z. intros x Hx. rewrite Nrow, Crow by assumption. apply Hz. lia. }
    destruct (G _ _ _ HY) as [X [EX [_ [SX HX]]]]. unfold svd_solve.
    assert (N1 : nrows N = (3 * p + na + nb)%nat) by apply SN. assert (N2 : ncols N = (3 * p + na + nb)%nat) by apply SN.
    assert (N3 : nrows (mtranspose C) = (3 * p + na + nb)%nat) by apply ST. assert (N4 : ncols (mtranspose C) = dim) by apply ST.
    assert (NE : mis_empty N = false).
    { unfold mis_empty. rewrite N1, N2. apply orb_false_iff. split; apply Nat.eqb_neq; lia. }
    rewrite NE, N1, N3, Nat.eqb_refl, EX. cbn [bind]. rewrite N2, N4 in SX.
    exists (mtranspose X). split; [reflexivity|]. split; [apply mtranspose_shape; exact SX|]. intros d Hd.
    assert (EE : forall j, (j < 3 * p + na + nb)%nat -> ent (mtranspose X) j d = ent X d j) by (intros j Hj; apply (ent_mtranspose_R _ _ X _ _ SX); assumption).
    assert (B : forall x, (x < 2 * p + (p + na + nb))%nat -> rsum (fun y => bordered (2 * p) con (@sg p) x y * ent (mtranspose X) y d) (2 * p + (p + na + nb)) = border_rhs (2 * p) (crhs d) x).
    { intros x Hx. rewrite <- (Nrow x (fun y => ent (mtranspose X) y d)) by lia. rewrite <- Crow by (try assumption; lia). rewrite <- HX by lia. rewrite N2.
      apply rsum_ext. intros y Hy. rewrite EE by exact Hy. reflexivity. }
    destruct (bordered_solution (2 * p) (p + na + nb) con (@sg p) (crhs d) (fun j => ent (mtranspose X) j d) B) as [R1 R2].
    split; [exact R1|]. eexists. exact R2.
  Qed.
End Shifts.
