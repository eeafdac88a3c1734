(** * Merges that are not harmed by the cutoff of small singular values *)

From Coq Require Import ZArith Reals List Bool Arith Lia Lra.
From Verif Require Import Num Vec MKnots MPoints MCurve MFit MMerge RNum Hoare Lists Struct Spec BMath BMath2 BMath3 Api ApiV ApiW Bridge Samples Facts1 Facts3 Gen3 LinAlg Fit1 Fit3 Fit4 Fit7 Merge1 Merge2 Merge3 Merge4 Merge5 Merge6 Merge7 Merge8 Merge9 Merge10 Svd1 Svd2 Svd3 Svd7.
Import ListNotations.
Local Open Scope R_scope.

Lemma returns_inside (c : Curve RNum) u dim f : returns (evaluate c u) dim f -> 0 <= u <= 1.
Proof.
  intros [v [E _]]. destruct (Rle_dec 0 u), (Rle_dec u 1); try lra; exfalso; unfold evaluate in E; rewrite (eval_out c u 0) in E by lra; discriminate.
Qed.
Lemma pull_last_val m V u g : pull_last 2 m V u g -> g = bspline (kfun V) m 2 (m - 1) u + bspline (kfun V) m 2 m u.
Proof.
  intros (C & h & H & HC & R1). assert (D := cl_deg _ _ _ (proj1 H)). assert (U := returns_inside _ _ _ _ R1).
  rewrite (returns_unique _ 1 _ _ 0 R1 (cc_eval0 _ _ _ _ _ _ u H U) ltac:(lia)). unfold spline. rewrite (rsum_drop _ (m - 1) (S m)) by (try lia; intros i Hi; rewrite HC by lia; replace (i <? m + 1 - 2)%nat with true by (symmetry; apply Nat.ltb_lt; lia); ring).
  replace (S m - (m - 1))%nat with 2%nat by lia. cbn [rsum]. rewrite !HC by lia. replace (m - 1 + 1)%nat with m by lia. rewrite Nat.add_0_r.
  replace (m - 1 <? m + 1 - 2)%nat with false by (symmetry; apply Nat.ltb_ge; lia). replace (m <? m + 1 - 2)%nat with false by (symmetry; apply Nat.ltb_ge; lia). ring.
Qed.
Lemma pull_first_val m V u g : pull_first 2 m V u g -> g = bspline (kfun V) m 2 0 u + bspline (kfun V) m 2 1 u.
Proof.
  intros (C & h & H & HC & R1). assert (D := cl_deg _ _ _ (proj1 H)). assert (U := returns_inside _ _ _ _ R1).
  rewrite (returns_unique _ 1 _ _ 0 R1 (cc_eval0 _ _ _ _ _ _ u H U) ltac:(lia)). unfold spline. rewrite (rsum_trunc _ 2) by (try lia; intros i Hi Hi'; rewrite HC by lia; replace (i <? 2)%nat with false by (symmetry; apply Nat.ltb_ge; lia); ring).
  cbn [rsum]. rewrite !HC by lia. cbn [Nat.ltb Nat.leb]. ring.
Qed.

Lemma pull_enough eps g : 0 <= eps -> 25 * eps < 1 -> 25 * eps < g ^ 2 -> g <> 0 /\ 1 <= 9 / 4 + 4 / g ^ 2 /\ eps * (4 * (9 / 4 + 4 / g ^ 2)) < 1.
Proof.
  intros He H1 Hg. assert (G : g <> 0) by (intros ->; lra). assert (P : 0 < g ^ 2) by lra. split; [exact G|].
  assert (Q : 0 < 4 / g ^ 2) by (apply Rdiv_lt_0_compat; lra). split; [lra|]. apply Rmult_lt_reg_l with (g ^ 2); [exact P|].
  replace (g ^ 2 * (eps * (4 * (9 / 4 + 4 / g ^ 2)))) with (eps * (9 * g ^ 2 + 16)) by (field; exact G). nra.
Qed.

Section Transfer.
  Context {p m o dim : nat} {V W : list R} {P Q : Mat RNum} {a b : Curve RNum} (HA : clamped_curve p m dim V P a) (HB : clamped_curve p o dim W Q b).
  Context (pa pb : list R) (eps : R) (He : 0 <= eps) (H1 : 25 * eps < 1) (H12 : p = 1%nat \/ p = 2%nat) (Ht : (length pa + length pb < p)%nat).
  Context (GA : forall u, In u pa -> exists g, pull_last p m V u g /\ 25 * eps < g ^ 2) (GB : forall u, In u pb -> exists g, pull_first p o W u g /\ 25 * eps < g ^ 2).

  Lemma sg_sq r : @sg p r ^ 2 = / 4.
  Proof using. unfold sg. destruct (r <? p)%nat; field. Qed.

  Lemma merge_rows : exists l, 1 <= l /\ eps * (4 * l) < 1 /\
    forall v, ip (p + length pa + length pb) v v <= l * ip (2 * p) (fun j => rsum (fun r => @con p m V o W pa pb r j * v r) (p + length pa + length pb)) (fun j => rsum (fun r => @con p m V o W pa pb r j * v r) (p + length pa + length pb)).
  Proof using HA HB He H1 H12 Ht GA GB.
    destruct H12 as [E | E]; revert HA HB Ht GA GB; rewrite E.
    - intros HA HB Ht GA GB. destruct pa; [|cbn in Ht; lia]. destruct pb; [|cbn in Ht; lia]. exists 1. split; [lra|]. split; [lra|]. intros v. apply (rows_bound_one m o V W v (proj1 HA) (proj1 HB)).
    - intros HA HB Ht GA GB. destruct pa as [|x [|y l]]; [|destruct pb as [|y l]|]; [| |cbn in Ht; lia|cbn in Ht; lia].
      + destruct pb as [|y [|z l]]; [| |cbn in Ht; lia].
        * exists (9 / 4). split; [lra|]. split; [lra|]. intros v. apply (rows_bound0 (proj1 HA) (proj1 HB)).
        * destruct (GB y (or_introl eq_refl)) as [g [G1 G2]]. destruct (pull_enough eps g He H1 G2) as (N & L & LE). exists (9 / 4 + 4 / g ^ 2). split; [exact L|]. split; [exact LE|].
          intros v. apply (rows_bound_right (proj1 HA) (proj1 HB) [] [y] v y g eq_refl eq_refl (pull_first_val _ _ _ _ G1) N).
      + destruct (GA x (or_introl eq_refl)) as [g [G1 G2]]. destruct (pull_enough eps g He H1 G2) as (N & L & LE). exists (9 / 4 + 4 / g ^ 2). split; [exact L|]. split; [exact LE|].
        intros v. apply (rows_bound_left (proj1 HA) (proj1 HB) [x] [] v x g eq_refl eq_refl (pull_last_val _ _ _ _ G1) N).
  Qed.

  Lemma merge_same svd : cutoff_solver eps svd -> merge_with_constraints svd (mkCC a pa) (mkCC b pb) = merge_with_constraints (patched svd) (mkCC a pa) (mkCC b pb).
  Proof using HA HB He H1 H12 Ht GA GB.
    intros CS. assert (Hp : (1 <= p)%nat) by lia.
    assert (S : solve_linear_equation_system svd (mkCC a pa) (mkCC b pb) = solve_linear_equation_system (patched svd) (mkCC a pa) (mkCC b pb)); [|unfold merge_with_constraints; rewrite S; reflexivity].
    unfold solve_linear_equation_system. cbn [cc_curve cc_params]. rn.
    destruct (Nmat_R HA HB pa pb Hp) as [N [EN [SN HN]]]. rewrite EN. cbn [bind].
    destruct (ConstMat_R HA HB Hp (length pa + length pb)) as [C [EC [SC HC]]]. rewrite EC. cbn [bind]. rewrite Nat.add_assoc in SC, HC.
    set (na := length pa) in *. set (nb := length pb) in *.
    assert (ST := mtranspose_shape dim (3 * p + na + nb) C SC).
    assert (Nrow : forall x z, (x < 3 * p + na + nb)%nat -> rsum (fun y => ent N y x * z y) (3 * p + na + nb) = rsum (fun y => bordered (2 * p) (@con p m V o W pa pb) (@sg p) x y * z y) (2 * p + (p + na + nb))).
    { intros x z Hx. replace (2 * p + (p + na + nb))%nat with (3 * p + na + nb)%nat by lia. apply rsum_ext. intros y Hy. rewrite HN by assumption. reflexivity. }
    assert (Crow : forall d x, (d < dim)%nat -> (x < 3 * p + na + nb)%nat -> ent (mtranspose C) d x = border_rhs (2 * p) (@crhs p m V P W Q d) x).
    { intros d x Hd Hx. rewrite (ent_mtranspose_R dim (3 * p + na + nb) C d x SC Hd Hx). rewrite HC by assumption. unfold border_rhs, crhs.
      destruct (Nat.ltb_spec x (2 * p)), (Nat.leb_spec (2 * p) x), (Nat.ltb_spec x (3 * p)), (Nat.ltb_spec (x - 2 * p) p); cbn [andb]; try lia; reflexivity. }
    destruct (solvable N (mtranspose C) (3 * p + na + nb) (3 * p + na + nb) dim SN ST) as [Y HY].
    { intros d Hd. destruct (bordered_solvable (2 * p) (p + na + nb) (@con p m V o W pa pb) (@sg p) (@crhs p m V P W Q d)) as [z Hz].
      - intros r. unfold sg. destruct (r <? p)%nat; lra.
      - apply (shifts_feasible HA HB pa pb Hp d). destruct pa, pb; auto; cbn in Ht; lia.
      - exists z. intros x Hx. rewrite Nrow, Crow by assumption. apply Hz. lia. }
    assert (N1 : nrows N = (3 * p + na + nb)%nat) by apply SN. assert (N2 : ncols N = (3 * p + na + nb)%nat) by apply SN.
    assert (N3 : nrows (mtranspose C) = (3 * p + na + nb)%nat) by apply ST.
    unfold svd_solve. destruct (mis_empty N); [reflexivity|]. rewrite N1, N3, Nat.eqb_refl.
    destruct (CS N (mtranspose C) ltac:(congruence)) as [X [EX TX]]. rewrite (patched_same svd N (mtranspose C) X EX); [reflexivity|].
    apply (truncated_solves eps N (mtranspose C) X Y He TX HY). rewrite N1, N2. intros s x y S0 X1 Y1 SV.
    destruct merge_rows as (l & L1 & LE & LB). fold na nb in LB. replace (3 * p + na + nb)%nat with (2 * p + (p + na + nb))%nat in X1, Y1 by lia.
    apply (bordered_large (2 * p) (p + na + nb) (@con p m V o W pa pb) (@sg p) l sg_sq L1 LB eps s x y He LE S0 X1 Y1).
    intros t Ht'. rewrite <- (SV t) by lia. unfold image, comb. rewrite Nrow by lia. reflexivity.
  Qed.
End Transfer.

Theorem merge_transfer eps svd : 0 <= eps -> 25 * eps < 1 -> cutoff_solver eps svd ->
  exists svd', good_solver svd' /\ forall p m o dim V W P Q a b pa pb, clamped_curve p m dim V P a -> clamped_curve p o dim W Q b -> p = 1%nat \/ p = 2%nat -> (length pa + length pb < p)%nat ->
    (forall u, In u pa -> exists g, pull_last p m V u g /\ 25 * eps < g ^ 2) -> (forall u, In u pb -> exists g, pull_first p o W u g /\ 25 * eps < g ^ 2) ->
    merge_with_constraints svd (mkCC a pa) (mkCC b pb) = merge_with_constraints svd' (mkCC a pa) (mkCC b pb).
Proof.
  intros He H1 CS. exists (patched svd). split; [apply patched_good|]. intros p m o dim V W P Q a b pa pb HA HB H12 Ht GA GB. apply (merge_same HA HB pa pb eps He H1 H12 Ht GA GB svd CS).
Qed.

Lemma pull_last_end p m V : clamped p m V -> (1 <= p)%nat -> pull_last p m V 1 1.
Proof.
  intros C Hp. set (P := mat_of 1 (S m) (fun _ i => if (i <? m + 1 - p)%nat then 0 else 1)). destruct (clamped_curve_ex p m 1 V P C (mat_of_shape _ _ _)) as [h H].
  assert (E : forall i, (i <= m)%nat -> ent P i 0 = if (i <? m + 1 - p)%nat then 0 else 1) by (intros i Hi; unfold P; apply ent_mat_of; lia).
  exists P, h. split; [exact H|]. split; [exact E|]. destruct (endpoints _ _ _ _ _ _ H) as [_ T]. eapply returns_ext; [exact T|]. intros d Hd. replace d with 0%nat by lia. cbv beta. rewrite E by lia.
  replace (m <? m + 1 - p)%nat with false by (symmetry; apply Nat.ltb_ge; lia). reflexivity.
Qed.
Lemma pull_first_start p m V : clamped p m V -> (1 <= p)%nat -> pull_first p m V 0 1.
Proof.
  intros C Hp. set (P := mat_of 1 (S m) (fun _ i => if (i <? p)%nat then 1 else 0)). destruct (clamped_curve_ex p m 1 V P C (mat_of_shape _ _ _)) as [h H].
  assert (E : forall i, (i <= m)%nat -> ent P i 0 = if (i <? p)%nat then 1 else 0) by (intros i Hi; unfold P; apply ent_mat_of; lia).
  exists P, h. split; [exact H|]. split; [exact E|]. destruct (endpoints _ _ _ _ _ _ H) as [T _]. eapply returns_ext; [exact T|]. intros d Hd. replace d with 0%nat by lia. cbv beta. rewrite E by lia.
  replace (0 <? p)%nat with true by (symmetry; apply Nat.ltb_lt; lia). reflexivity.
Qed.

Theorem plain_transfer eps svd : 0 <= eps -> 25 * eps < 1 -> cutoff_solver eps svd ->
  exists svd', good_solver svd' /\ forall p m o dim V W P Q a b, clamped_curve p m dim V P a -> clamped_curve p o dim W Q b -> p = 1%nat \/ p = 2%nat ->
    merge svd a b = merge svd' a b /\ (p = 2%nat -> merge_from svd a b = merge_from svd' a b /\ merge_to svd a b = merge_to svd' a b).
Proof.
  intros He H1 CS. destruct (merge_transfer eps svd He H1 CS) as [svd' [G T]]. exists svd'. split; [exact G|]. intros p m o dim V W P Q a b HA HB H12.
  assert (Z : forall (x : R) (Q' : R -> Prop), In x [] -> Q' x) by (intros x Q' []). split; [|intros E2; split].
  - apply (T p m o dim V W P Q a b [] [] HA HB H12); [cbn; lia|intros u []|intros u []].
  - apply (T p m o dim V W P Q a b [1] [] HA HB H12); [cbn; lia| |intros u []]. intros u [<- | []]. exists 1. split; [apply (pull_last_end p m V (proj1 HA)); lia|lra].
  - apply (T p m o dim V W P Q a b [] [0] HA HB H12); [cbn; lia|intros u []|]. intros u [<- | []]. exists 1. split; [apply (pull_first_start p o W (proj1 HB)); lia|lra].
Qed.
