(** * Merging with a solver that errs: exact arithmetic *)

From Coq Require Import ZArith Reals List Bool Arith Lia Lra.
From Verif Require Import Num Vec MKnots MPoints MCurve MFit MMerge RNum Hoare Lists Struct Spec BMath BMath3 Api ApiJ Bridge Facts1 Facts3 Gen3 LinAlg Fit1 Fit3 Fit4 Merge1 Merge2 Merge3 Merge4 Merge5 Merge6 Merge7 Merge14 Merge15 Merge16 Merge18 Float9.
Import ListNotations.
Local Open Scope R_scope.

Section Exact.
  Context {p m dim : nat} {V : list R} {S_ : Mat RNum} {a : Curve RNum} (HA : clamped_curve p m dim V S_ a).
  Context {W : list R} {T_ : Mat RNum} {b : Curve RNum} (HB : clamped_curve p m dim W T_ b).
  Context (pa pb : list R) (Hp : (1 <= p <= 2)%nat) (Ht : (length pa + length pb < p)%nat).
  Notation na := (length pa).
  Notation nb := (length pb).

  Let Wa := proj1 (cc_wf _ _ _ _ _ _ HA).
  Let Wb := proj1 (cc_wf _ _ _ _ _ _ HB).
  Notation N0 := (3 * p + na + nb)%nat.

  Lemma posed_R : exists A B, shape N0 N0 A /\ shape N0 dim B /\ (exists X, solves A B X) /\
    forall svd, @solve_linear_equation_system RNum svd (mkCC a pa) (mkCC b pb) = (X <- svd A B;; Val (mtranspose X)).
  Proof.
    destruct (posed gdiv_R Wa Wb ltac:(lia) pa pb) as [A [B [EA [[C [EC EB]] [SA [SB H]]]]]].
    exists A, B. split; [exact SA|]. split; [exact SB|]. split; [|exact H].
    destruct (Nmat_R HA HB pa pb ltac:(lia)) as [N [EN [SN HN]]]. rn. rewrite EA in EN. injection EN as <-.
    destruct (ConstMat_R HA HB ltac:(lia) (na + nb)) as [C' [EC' [SC HC]]]. rn. rewrite EC in EC'. injection EC' as <-. rewrite Nat.add_assoc in SC, HC. subst B.
    destruct (solvable A (mtranspose C) N0 N0 dim SA SB) as [Y HY]; [|exists Y; exact HY].
    intros d Hd.
    assert (F : exists x, feasible (2 * p) (p + na + nb) (@con p m V m W pa pb) (@crhs p m V S_ W T_ d) x).
    { assert (PP : pa = [] \/ pb = []) by (clear -Ht Hp; destruct pa; [left; reflexivity|]; destruct pb; [right; reflexivity|]; cbn [length] in Ht; lia).
      apply (shifts_feasible HA HB pa pb ltac:(lia) d PP). }
    destruct (bordered_solvable (2 * p) (p + na + nb) (@con p m V m W pa pb) (@sg p) (@crhs p m V S_ W T_ d)) as [z Hz]; [|exact F|].
    - intros r. unfold sg. destruct (r <? p)%nat; lra.
    - exists z. intros x Hx. replace (rsum (fun y => ent A y x * z y) N0) with (rsum (fun y => bordered (2 * p) (@con p m V m W pa pb) (@sg p) x y * z y) (2 * p + (p + na + nb))).
      + rewrite Hz by lia. symmetry. rewrite (ent_mtranspose_R dim N0 C d x SC Hd Hx). rewrite HC by assumption. unfold border_rhs, crhs.
        destruct (Nat.ltb_spec x (2 * p)), (Nat.leb_spec (2 * p) x), (Nat.ltb_spec x (3 * p)), (Nat.ltb_spec (x - 2 * p) p); cbn [andb]; try lia; reflexivity.
      + replace (2 * p + (p + na + nb))%nat with N0 by lia. apply rsum_ext. intros y Hy. rewrite HN by assumption. reflexivity.
  Qed.

  (** the points of the merged curve, from the answer of the solver *)
  Lemma moves_R svd A B X : shape N0 N0 A -> shape N0 dim B ->
    (forall svd, @solve_linear_equation_system RNum svd (mkCC a pa) (mkCC b pb) = (X <- svd A B;; Val (mtranspose X))) ->
    svd A B = Val X -> shape N0 dim X ->
    exists c U Q, merge_with_constraints svd (mkCC a pa) (mkCC b pb) = Val (Ok c) /\ joined_knots p m m V W U /\ clamped_curve p (m + m + 1 - p) dim U Q c /\
      (forall i d, (i < m + 1 - p)%nat -> (d < dim)%nat -> ent Q i d = ent S_ i d) /\
      (forall d, (2 <= p)%nat -> (d < dim)%nat -> ent Q (m + 1 - p) d = ent S_ (m + 1 - p) d + ent X d 0) /\
      (forall d, (d < dim)%nat -> ent Q m d = ent T_ (p - 1) d + ent X d (p + (p - 1))) /\
      (forall j d, (p <= j <= m)%nat -> (d < dim)%nat -> ent Q (m + 1 - p + j) d = ent T_ j d).
  Proof.
    intros SA SB H EX SX. destruct (raw_scaled HA HB) as [U [J EU]].
    assert (DU : ok False (@vdiv_scalar RNum (map (@raw_knot RNum p m V W) (seq 0 (m + m + 3))) (@raw_knot RNum p m V W (m + m + 2))) (fun _ => True)) by (rewrite EU; exact Logic.I).
    specialize (H svd). rewrite EX in H. cbn [bind] in H.
    destruct (core_moves gdiv_R div_nat_R Wa Wb ltac:(lia) pa pb DU svd _ H (mtranspose_shape _ _ _ SX) eq_refl) as [c [U' [Q [E [EU' [LU [SC [Bc [K1 [K2 [K3 K4]]]]]]]]]]].
    rewrite EU in EU'. injection EU' as <-. exists c, U, Q. rewrite (merge_clamped svd p m dim V S_ a m W T_ b pa pb HA HB Ht). split; [exact E|]. split; [exact J|].
    destruct (joined_clamped HA HB U J) as [CU _]. split; [split; [exact CU|]; split; [replace (S (m + m + 1 - p)) with (m + m + 2 - p)%nat by (assert (DV := cl_deg _ _ _ (proj1 HA)); lia); exact SC|exact Bc]|].
    assert (ET : forall j d, (j < N0)%nat -> (d < dim)%nat -> ent (mtranspose X) j d = ent X d j) by (intros j d Hj Hd; apply (ent_mtranspose_R _ _ X _ _ SX); assumption).
    split; [exact K1|]. split; [|split; [|exact K4]].
    - intros d H2 Hd. rewrite (K2 d H2 Hd), ET by lia. reflexivity.
    - intros d Hd. rewrite (K3 d Hd), ET by lia. reflexivity.
  Qed.

  (** every index is one of the four kinds *)
  Lemma index_cases i : (p <= m)%nat -> (i <= m + m + 1 - p)%nat ->
    (i < m + 1 - p)%nat \/ (2 <= p)%nat /\ i = (m + 1 - p)%nat \/ i = m \/ exists j, (p <= j <= m)%nat /\ i = (m + 1 - p + j)%nat.
  Proof.
    intros D H. destruct (Nat.lt_ge_cases i (m + 1 - p)) as [L|L]; [left; exact L|right]. destruct (Nat.lt_ge_cases m i) as [L'|L'].
    - right. right. exists (i - (m + 1 - p))%nat. lia.
    - destruct (Nat.eq_dec i m) as [E|E]; [right; left; exact E|left]. lia.
  Qed.

  Theorem solver_error : exists A B, (exists X, solves A B X) /\
    forall svd svd' X X' e, svd A B = Val X -> svd' A B = Val X' -> shape (ncols A) (ncols B) X -> shape (ncols A) (ncols B) X' -> 0 <= e ->
    (forall r d, (r < ncols A)%nat -> (d < ncols B)%nat -> Rabs (ent X d r - ent X' d r) <= e) ->
    exists c c', merge_with_constraints svd (mkCC a pa) (mkCC b pb) = Val (Ok c) /\ merge_with_constraints svd' (mkCC a pa) (mkCC b pb) = Val (Ok c') /\
      forall u, 0 <= u <= 1 -> exists f f', returns (evaluate c u) dim f /\ returns (evaluate c' u) dim f' /\ forall d, (d < dim)%nat -> Rabs (f d - f' d) <= e.
  Proof.
    destruct posed_R as [A [B [SA [SB [So H]]]]]. exists A, B. split; [exact So|].
    assert (N1 : ncols A = N0) by apply SA. assert (N2 : ncols B = dim) by apply SB. rewrite N1, N2.
    intros svd svd' X X' e EX EX' SX SX' He D. assert (DV := cl_deg _ _ _ (proj1 HA)).
    destruct (moves_R svd A B X SA SB H EX SX) as [c [U [Q [E [J [Hc [K1 [K2 [K3 K4]]]]]]]]].
    destruct (moves_R svd' A B X' SA SB H EX' SX') as [c' [U' [Q' [E' [J' [Hc' [K1' [K2' [K3' K4']]]]]]]]].
    assert (UU : U' = U).
    { destruct J as [L [J1 J2]], J' as [L' [J1' J2']]. apply (list_ext 0); [congruence|]. intros i Hi. destruct (Nat.le_gt_cases i (m + 1)) as [C|C]; [rewrite J1, J1' by exact C; reflexivity|].
      replace i with (m + 1 - p + (i - (m + 1 - p)))%nat by lia. rewrite J2, J2' by lia. reflexivity. }
    subst U'. exists c, c'. split; [exact E|]. split; [exact E'|]. intros u Hu.
    destruct (cc_eval0 _ _ _ _ _ _ u Hc Hu) as [x [Ex [Lx Vx]]]. destruct (cc_eval0 _ _ _ _ _ _ u Hc' Hu) as [y [Ey [Ly Vy]]].
    exists (fun d => nth d x 0), (fun d => nth d y 0). split; [exists x; split; [exact Ex|split; [exact Lx|reflexivity]]|]. split; [exists y; split; [exact Ey|split; [exact Ly|reflexivity]]|].
    intros d Hd. rewrite (Vx d Hd), (Vy d Hd). apply (spline_diff p (m + m + 1 - p) (kfun U)); [apply kfun_clamped, Hc|exact Hu|]. intros i Hi. cbv beta.
    destruct (index_cases i ltac:(lia) Hi) as [C|[[C1 ->]|[->|[j [Hj ->]]]]].
    - rewrite K1, K1' by assumption. replace (ent S_ i d - ent S_ i d) with 0 by ring. rewrite Rabs_R0. exact He.
    - rewrite K2, K2' by assumption. replace (ent S_ (m + 1 - p) d + ent X d 0 - (ent S_ (m + 1 - p) d + ent X' d 0)) with (ent X d 0 - ent X' d 0) by ring. apply D; lia.
    - rewrite K3, K3' by assumption. replace (ent T_ (p - 1) d + ent X d (p + (p - 1)) - (ent T_ (p - 1) d + ent X' d (p + (p - 1)))) with (ent X d (p + (p - 1)) - ent X' d (p + (p - 1))) by ring. apply D; lia.
    - rewrite K4, K4' by assumption. replace (ent T_ j d - ent T_ j d) with 0 by ring. rewrite Rabs_R0. exact He.
  Qed.
End Exact.
