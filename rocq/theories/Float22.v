(** * Searches and predicates decide in binary64 as on the exact numbers *)

From Coq Require Import ZArith Reals List Bool Arith Lia Lra.
From Verif Require Import Num Vec MKnots MPoints MCurve RNum F64 Hoare Lists Struct Spec Api ApiF Bridge Float1 Float20.
Import ListNotations.
Local Open Scope R_scope.

Lemma kderiv_map {A B} (f : A -> B) k U : kderiv k (map f U) = map f (kderiv k U).
Proof. unfold kderiv. rewrite map_length, skipn_map, firstn_map. reflexivity. Qed.
Lemma kderiv_In {A} k (U : list A) x : In x (kderiv k U) -> In x U.
Proof. unfold kderiv. intros H.
  assert (G : In x (skipn k U)) by (rewrite <- (firstn_skipn (length U - 2 * k) (skipn k U)); apply in_or_app; left; exact H).
  rewrite <- (firstn_skipn k U). apply in_or_app. right. exact G.
Qed.

Section Same.
  Variables (p n : nat) (U : list f64).
  Hypothesis Ff : forall x, In x U -> finite x.
  Hypothesis L : length U = (n + p + 2)%nat.
  Hypothesis PN : (p <= n)%nat.

  Let L2 : length (map val U) = (n + p + 2)%nat.
  Proof. rewrite map_length. exact L. Qed.

  Lemma find_F64 u k cmp : finite u -> (k <= p)%nat ->
    @find_idx F64 (knots_of p U) u k cmp = @find_idx RNum (knots_of p (map val U)) (val u) k cmp.
  Proof.
    intros Fu Hk. unfold find_idx, vector_derivative. rewrite !knots_of_vec by lia. cbn [bind].
    rewrite (@knots_of_segments F64 p U n) by exact L. rewrite (@knots_of_segments RNum p (map val U) n) by exact L2.
    change (T RNum) with R. change (T F64) with f64. rewrite (kderiv_map val k U).
    assert (FV : forall x, In x (kderiv k U) -> fin x = true) by (intros x Hx; apply Ff; exact (kderiv_In k U x Hx)).
    change (@kderiv f64 k U) with (@kderiv (T F64) k U) in FV |- *. change (@kderiv (BinarySingleNaN.binary_float 53 1024) k U) with (@kderiv (T F64) k U).
    revert FV. generalize (@kderiv (T F64) k U). change (T F64) with f64. intros V FV. cbn [kdegree kp knots_of bind].
    destruct (usub p k) as [pk| | |]; try reflexivity. cbn [bind].
    replace (@length R (map val V)) with (@length f64 V) by (symmetry; apply (map_length val V)).
    destruct cmp.
    - destruct (usub (n + 1) k) as [lim| | |]; try reflexivity. cbn [bind]. apply while_ext; [|reflexivity].
      intros s. change (@vget (T RNum)) with (@vget R). rewrite (vget_map V (s + 1)). change (T F64) with f64.
      destruct (vget V (s + 1)) as [x| | |] eqn:E; try reflexivity. cbn [bind]. rewrite (ltb_R x u (vget_fin V _ x FV E) Fu). reflexivity.
    - destruct (usub (n + 1) k) as [lim| | |]; try reflexivity. cbn [bind]. apply while_ext.
      + intros s. rewrite (vget_map V (s + 1)). destruct (vget V (s + 1)) as [x| | |] eqn:E; try reflexivity. cbn [bind].
        rewrite (leb_R x u (vget_fin V _ x FV E) Fu). reflexivity.
      + intros s. cbv zeta. rewrite (vget_map V (s + 1 + 1)), (vget_map V (s + 1)).
        destruct (vget V (s + 1 + 1)) as [x| | |] eqn:E; try reflexivity. cbn [bind].
        destruct (vget V (s + 1)) as [y| | |] eqn:E'; try reflexivity. cbn [bind].
        rewrite (eqb_R x y (vget_fin V _ x FV E) (vget_fin V _ y FV E')). reflexivity.
    - destruct (usub (length V) 1) as [l1| | |]; try reflexivity. cbn [bind]. destruct (usub l1 pk) as [i0| | |]; try reflexivity. cbn [bind]. apply while_ext.
      + intros s. destruct (usub s 1) as [i1| | |]; try reflexivity. cbn [bind]. rewrite (vget_map V i1).
        destruct (vget V i1) as [x| | |] eqn:E; try reflexivity. cbn [bind]. rewrite (leb_R u x Fu (vget_fin V _ x FV E)). reflexivity.
      + intros s. destruct (usub s 1) as [i1| | |]; try reflexivity. cbn [bind]. destruct (usub i1 1) as [i2| | |]; try reflexivity. cbn [bind].
        rewrite (vget_map V i2), (vget_map V i1).
        destruct (vget V i2) as [x| | |] eqn:E; try reflexivity. cbn [bind].
        destruct (vget V i1) as [y| | |] eqn:E'; try reflexivity. cbn [bind].
        rewrite (eqb_R x y (vget_fin V _ x FV E) (vget_fin V _ y FV E')). reflexivity.
    - destruct (usub (length V) 1) as [l1| | |]; try reflexivity. cbn [bind]. destruct (usub l1 pk) as [i0| | |]; try reflexivity. cbn [bind]. apply while_ext; [|reflexivity].
      intros s. destruct (usub s 1) as [i1| | |]; try reflexivity. cbn [bind]. rewrite (vget_map V i1).
      destruct (vget V i1) as [x| | |] eqn:E; try reflexivity. cbn [bind]. rewrite (ltb_R u x Fu (vget_fin V _ x FV E)). reflexivity.
  Qed.

  Lemma count_F64 (v : list f64) u : finite u -> (forall x, In x v -> finite x) ->
    length (filter (fun x => @neqb F64 x u) v) = length (filter (fun x => @neqb RNum x (val u)) (map val v)).
  Proof.
    intros Fu Fv. induction v as [|x v IH]; [reflexivity|]. cbn [filter map]. rewrite (eqb_R x u (Fv x (or_introl eq_refl)) Fu).
    assert (E := IH (fun y Hy => Fv y (or_intror Hy))). destruct (@neqb RNum (val x) (val u)); cbn [length]; rewrite E; reflexivity.
  Qed.

  Lemma domain_val {K : Num} (W : list K) : length W = (n + p + 2)%nat -> domain (knots_of p W) = Val (firstn (n - p + 2) (skipn p W)).
  Proof.
    intros LW. unfold domain, domain_derivative. rewrite knots_of_vec by lia. rewrite kderiv_0. cbn [bind]. unfold domain_count.
    rewrite (knots_of_segments p W n LW). cbn [bind kp knots_of]. rewrite !usub_ok by lia. cbn [bind]. unfold segment.
    rewrite Nat.sub_0_r. destruct (Nat.leb_spec (p + (n - p + 2)) (length W)) as [|Q]; [reflexivity|]. lia.
  Qed.
  Lemma multiplicity_F64 u : finite u -> @multiplicity F64 (knots_of p U) u = @multiplicity RNum (knots_of p (map val U)) (val u).
  Proof.
    intros Fu. unfold multiplicity. rewrite (domain_val (K := F64) U L), (domain_val (K := RNum) (map val U) L2). cbn [bind]. f_equal.
    rewrite skipn_map, firstn_map. apply count_F64; [exact Fu|]. intros x Hx. apply Ff. rewrite <- (firstn_skipn p U). apply in_or_app. right.
    rewrite <- (firstn_skipn (n - p + 2) (skipn p U)). apply in_or_app. left. exact Hx.
  Qed.

  Lemma sorted_from_F64 : forall (v : list f64) x, finite x -> (forall y, In y v -> finite y) -> @sorted_from F64 x v = @sorted_from RNum (val x) (map val v).
  Proof.
    induction v as [|y v IH]; intros x Fx Fv; [reflexivity|]. cbn [sorted_from map]. rewrite (leb_R x y Fx (Fv y (or_introl eq_refl))).
    rewrite (IH y (Fv y (or_introl eq_refl)) (fun z Hz => Fv z (or_intror Hz))). reflexivity.
  Qed.
  Lemma sorted_F64 : @is_sorted F64 (knots_of p U) = @is_sorted RNum (knots_of p (map val U)).
  Proof.
    unfold is_sorted. rewrite !knots_of_vec by lia. rewrite !kderiv_0. cbn [bind]. f_equal. destruct U as [|x r] eqn:E; [reflexivity|]. cbn [map].
    apply sorted_from_F64; [apply Ff; left; reflexivity|]. intros y Hy. apply Ff. right. exact Hy.
  Qed.

  Lemma forallb_F64 (v : list f64) c r : finite c -> val c = r -> (forall y, In y v -> finite y) ->
    forallb (fun x => @neqb F64 x c) v = forallb (fun x => @neqb RNum x r) (map val v).
  Proof.
    intros Fc <- Fv. induction v as [|x v IH]; [reflexivity|]. cbn [forallb map]. rewrite (eqb_R x c (Fv x (or_introl eq_refl)) Fc).
    rewrite (IH (fun y Hy => Fv y (or_intror Hy))). reflexivity.
  Qed.
  Lemma firstn_fin k (v : list f64) : (forall y, In y v -> finite y) -> forall y, In y (firstn k v) -> finite y.
  Proof. intros Fv y Hy. apply Fv. rewrite <- (firstn_skipn k v). apply in_or_app. left. exact Hy. Qed.
  Lemma clamped_F64 : @is_clamped F64 (knots_of p U) = @is_clamped RNum (knots_of p (map val U)).
  Proof.
    unfold is_clamped. rewrite !knots_of_vector. cbn [bind kp knots_of]. f_equal. f_equal.
    - rewrite firstn_map. apply forallb_F64; [apply n0_ok|apply n0_ok|]. apply firstn_fin. exact Ff.
    - rewrite <- map_rev, firstn_map. apply forallb_F64; [apply n1_ok|apply n1_ok|]. apply firstn_fin. intros y Hy. apply Ff. apply in_rev. exact Hy.
  Qed.

  Lemma cmp_F64 x y : finite x -> finite y -> @cmp_greater F64 x y = @cmp_greater RNum (val x) (val y).
  Proof. intros Fx Fy. unfold cmp_greater. rewrite (leb_R x y Fx Fy), (leb_R y x Fy Fx). reflexivity. Qed.

  Definition mval (r : M f64) : M R := match r with Val x => Val (val x) | Panic => Panic | Undef => Undef | Diverge => Diverge end.
  Lemma pick_F64 (pick : bool -> f64 -> f64 -> f64) (pickR : bool -> R -> R -> R) : forall v x, finite x -> (forall y, In y v -> finite y) ->
    (forall g a b, pick g a b = a \/ pick g a b = b) -> (forall g a b, val (pick g a b) = pickR g (val a) (val b)) ->
    @foldM R R (fun m y => g <- @cmp_greater RNum m y;; Val (pickR g m y)) (map val v) (val x) =
    mval (@foldM f64 f64 (fun m y => g <- @cmp_greater F64 m y;; Val (pick g m y)) v x) /\
    forall m, @foldM f64 f64 (fun m y => g <- @cmp_greater F64 m y;; Val (pick g m y)) v x = Val m -> finite m.
  Proof.
    induction v as [|y v IH]; intros x Fx Fv P1 P2; [split; [reflexivity|]; cbn [foldM]; intros m [= <-]; exact Fx|].
    assert (Fy : finite y) by (apply Fv; left; reflexivity). cbn [foldM map]. rewrite (cmp_F64 x y Fx Fy).
    destruct (@cmp_greater RNum (val x) (val y)) as [g| | |]; try (split; [reflexivity|discriminate]). cbn [bind]. rewrite <- P2.
    apply IH; [destruct (P1 g x y) as [-> | ->]; assumption|intros z Hz; apply Fv; right; exact Hz|exact P1|exact P2].
  Qed.

  Lemma min_by_F64 (v : list f64) : (forall y, In y v -> finite y) ->
    @min_by RNum (map val v) = match @min_by F64 v with Val o => Val (option_map val o) | Panic => Panic | Undef => Undef | Diverge => Diverge end /\
    forall m, @min_by F64 v = Val (Some m) -> finite m.
  Proof.
    intros Fv. destruct v as [|x v]; [split; [reflexivity|discriminate]|]. cbn [min_by map].
    destruct (pick_F64 (fun g m y => if g then y else m) (fun g m y => if g then y else m) v x (Fv x (or_introl eq_refl)) (fun y Hy => Fv y (or_intror Hy))) as [E F].
    { intros [] a b; [right|left]; reflexivity. } { intros [] a b; reflexivity. }
    change (T RNum) with R. change (T F64) with f64. cbv beta in E, F. rewrite E. destruct (foldM _ v x) as [m| | |] eqn:Q; cbn [mval bind]; (split; [reflexivity|]); intros m'; try discriminate.
    intros [= <-]. apply F. reflexivity.
  Qed.
  Lemma max_by_F64 (v : list f64) : (forall y, In y v -> finite y) ->
    @max_by RNum (map val v) = match @max_by F64 v with Val o => Val (option_map val o) | Panic => Panic | Undef => Undef | Diverge => Diverge end /\
    forall m, @max_by F64 v = Val (Some m) -> finite m.
  Proof.
    intros Fv. destruct v as [|x v]; [split; [reflexivity|discriminate]|]. cbn [max_by map].
    destruct (pick_F64 (fun g m y => if g then m else y) (fun g m y => if g then m else y) v x (Fv x (or_introl eq_refl)) (fun y Hy => Fv y (or_intror Hy))) as [E F].
    { intros [] a b; [left|right]; reflexivity. } { intros [] a b; reflexivity. }
    change (T RNum) with R. change (T F64) with f64. cbv beta in E, F. rewrite E. destruct (foldM _ v x) as [m| | |] eqn:Q; cbn [mval bind]; (split; [reflexivity|]); intros m'; try discriminate.
    intros [= <-]. apply F. reflexivity.
  Qed.
  Lemma normed_F64 : @is_normed F64 (knots_of p U) = @is_normed RNum (knots_of p (map val U)).
  Proof.
    unfold is_normed. rewrite !knots_of_vector. cbn [bind].
    destruct (min_by_F64 U Ff) as [E1 F1], (max_by_F64 U Ff) as [E2 F2]. change (T RNum) with R. rewrite E1, E2. change (T F64) with f64.
    destruct (@min_by F64 U) as [a| | |]; try reflexivity. cbn [bind]. destruct (@max_by F64 U) as [b| | |]; try reflexivity. cbn [bind]. f_equal. f_equal.
    - destruct a as [x|]; [|reflexivity]. cbn [option_map]. rewrite (eqb_R x (@n0 F64) (F1 x eq_refl) (proj1 n0_ok)). rewrite (proj2 n0_ok). reflexivity.
    - destruct b as [x|]; [|reflexivity]. cbn [option_map]. rewrite (eqb_R x (@n1 F64) (F2 x eq_refl) (proj1 n1_ok)). rewrite (proj2 n1_ok). reflexivity.
  Qed.
End Same.

Lemma decisions_F64 p n (U : list f64) kn kR : (forall x, In x U -> finite x) -> length U = (n + p + 2)%nat -> (p <= n)%nat ->
  @knots_new F64 p U = Val kn -> @knots_new RNum p (map val U) = Val kR ->
  (forall u k cmp, finite u -> (k <= p)%nat -> @find_idx F64 kn u k cmp = @find_idx RNum kR (val u) k cmp) /\
  (forall u, finite u -> @multiplicity F64 kn u = @multiplicity RNum kR (val u)) /\
  @is_sorted F64 kn = @is_sorted RNum kR /\ @is_clamped F64 kn = @is_clamped RNum kR /\ @is_normed F64 kn = @is_normed RNum kR.
Proof.
  intros Ff L PN E1 E2. rewrite (@knots_new_val F64) in E1 by (unfold f64 in *; cbn [T F64] in *; unfold f64 in *; lia). injection E1 as <-.
  assert (L2 : length (map val U) = (n + p + 2)%nat) by (rewrite map_length; exact L).
  rewrite (@knots_new_val RNum) in E2 by (cbn [T RNum]; lia). injection E2 as <-.
  split; [intros; apply (find_F64 p n); assumption|]. split; [intros; apply (multiplicity_F64 p n); assumption|].
  split; [apply (sorted_F64 p n U Ff L PN)|]. split; [apply (clamped_F64 p U Ff)|apply (normed_F64 p U Ff)].
Qed.
