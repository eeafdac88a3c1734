(** * Merging in degrees 1 and 2: the result *)

From Coq Require Import ZArith Reals List Bool Arith Lia Lra.
From Verif Require Import Num Vec MKnots MPoints MCurve MFit MMerge RNum Hoare Lists Struct Spec BMath BMath2 BMath3 BMath4 Api Bridge Facts1 Facts3 Samples Gen3 LinAlg Fit1 Fit3 Fit4 Merge1 Merge2 Merge3 Merge4 Merge5 Merge6 Merge7 Merge8 Merge9.
Import ListNotations.
Local Open Scope R_scope.

Lemma returns_unique {E} (r : M (result (list R) E)) dim f g d : returns r dim f -> returns r dim g -> (d < dim)%nat -> f d = g d.
Proof. intros [v [E1 [_ H1]]] [w [E2 [_ H2]]] Hd. rewrite E1 in E2. injection E2 as <-. rewrite <- H1, <- H2 by exact Hd. reflexivity. Qed.

Lemma end_derivative p n U P k : clamped p n U -> (k <= p)%nat -> dspline (kfun U) n p P k 1 = dpoints (kfun U) p P k (n - k).
Proof. intros C Hk. rewrite dspline_spline. apply (spline_at_1 (p - k) (n - k) _ (fclamped_shift p n (kfun U) k (kfun_clamped p n U C) Hk)). Qed.
Lemma start_derivative p n U P k : clamped p n U -> (k <= p)%nat -> dspline (kfun U) n p P k 0 = dpoints (kfun U) p P k 0.
Proof. intros C Hk. rewrite dspline_spline. apply (spline_at_0 (p - k) (n - k) _ (fclamped_shift p n (kfun U) k (kfun_clamped p n U C) Hk)). Qed.

Lemma agree_iff p n dim V P a q n' W Q b k u v : clamped_curve p n dim V P a -> clamped_curve q n' dim W Q b -> (k <= p)%nat -> (k <= q)%nat -> 0 <= u <= 1 -> 0 <= v <= 1 ->
  (agree dim k a u b v <-> forall d, (d < dim)%nat -> dspline (kfun V) n p (fun i => ent P i d) k u = dspline (kfun W) n' q (fun i => ent Q i d) k v).
Proof.
  intros HA HB Hk Hk' Hu Hv. assert (RA := cc_eval _ _ _ _ _ _ u k HA Hu Hk). assert (RB := cc_eval _ _ _ _ _ _ v k HB Hv Hk'). split.
  - intros [f [H1 H2]] d Hd. rewrite (returns_unique _ _ _ _ d RA H1 Hd), (returns_unique _ _ _ _ d RB H2 Hd). reflexivity.
  - intros H. eexists. split; [exact RA|]. eapply returns_ext; [exact RB|]. intros d Hd. cbv beta. symmetry. apply H. exact Hd.
Qed.

Section Result.
  Context {p m dim : nat} {V : list R} {S_ : Mat RNum} {a : Curve RNum} (HA : clamped_curve p m dim V S_ a).
  Context {W : list R} {T_ : Mat RNum} {b : Curve RNum} (HB : clamped_curve p m dim W T_ b).
  Context (pa pb : list R) (Hp : (1 <= p)%nat).
  Hypotheses (Ia : forall u, In u pa -> 0 <= u <= 1) (Ib : forall u, In u pb -> 0 <= u <= 1).
  Notation na := (length pa).
  Notation nb := (length pb).
  Notation con := (@con p m V m W pa pb).
  Notation crhs := (@crhs p m V S_ W T_).

  (** moved points *)
  Definition dl (x : nat -> R) (i : nat) : R := if (i <? m + 1 - p)%nat then 0 else x (i - (m + 1 - p))%nat.
  Definition dr (x : nat -> R) (i : nat) : R := if (i <? p)%nat then x (p + i)%nat else 0.

  Lemma spline_moved U n q P D u : spline U n q (fun i => P i + D i) u = spline U n q P u + spline U n q D u.
  Proof. unfold spline. rewrite <- rsum_plus. apply rsum_ext. intros; ring. Qed.
  Lemma left_moved x u : spline (kfun V) m p (dl x) u = rsum (fun j => bspline (kfun V) m p (m + 1 - p + j) u * x j) p.
  Proof.
    assert (D := cl_deg _ _ _ (proj1 HA)). unfold spline. rewrite (rsum_drop _ (m + 1 - p)) by (try lia; intros i Hi; unfold dl; cmp; ring).
    replace (S m - (m + 1 - p))%nat with p by lia. apply rsum_ext. intros j Hj. unfold dl. cmp. do 2 f_equal. lia.
  Qed.
  Lemma right_moved x u : spline (kfun W) m p (dr x) u = rsum (fun j => bspline (kfun W) m p j u * x (p + j)%nat) p.
  Proof.
    assert (D := cl_deg _ _ _ (proj1 HB)). unfold spline. rewrite (rsum_trunc _ p) by (try lia; intros i Hi Hi'; unfold dr; cmp; ring).
    apply rsum_ext. intros j Hj. unfold dr. cmp. reflexivity.
  Qed.

  (** the conditions of the linear system say what [fitted] says *)
  Lemma feasible_iff S' T' a' b' (x : nat -> nat -> R) : clamped_curve p m dim V S' a' -> clamped_curve p m dim W T' b' ->
    (forall i d, (i <= m)%nat -> (d < dim)%nat -> ent S' i d = ent S_ i d + dl (x d) i) ->
    (forall i d, (i <= m)%nat -> (d < dim)%nat -> ent T' i d = ent T_ i d + dr (x d) i) ->
    ((forall d, (d < dim)%nat -> feasible (2 * p) (p + na + nb) con (crhs d) (x d)) <->
     (forall k, (k < p)%nat -> agree dim k a' 1 b' 0) /\ (forall u, In u pa -> agree dim 0 a' u a u) /\ (forall u, In u pb -> agree dim 0 b' u b u)).
  Proof.
    intros HA' HB' ES ET. assert (DV := cl_deg _ _ _ (proj1 HA)).
    assert (JR : forall k d, (k < p)%nat -> (d < dim)%nat ->
      dpoints (kfun V) p (fun i => ent S' i d) k (m - k) - dpoints (kfun W) p (fun i => ent T' i d) k 0 = @gap p m V S_ W T_ k d + rsum (fun j => con k j * x d j) (2 * p)).
    { intros k d Hk Hd. rewrite (joint_row HA pa pb Hp (x d) k Hk). unfold gap.
      rewrite (dpoints_ext (kfun V) p (fun i => ent S' i d) (fun i => ent S_ i d + dl (x d) i) k (m - k)) by (intros; apply ES; [lia|exact Hd]).
      rewrite (dpoints_ext (kfun W) p (fun i => ent T' i d) (fun i => ent T_ i d + dr (x d) i) k 0) by (intros; apply ET; [lia|exact Hd]).
      rewrite !dpoints_add. unfold dl, dr. ring. }
    assert (SL : forall u d, (d < dim)%nat -> spline (kfun V) m p (fun i => ent S' i d) u = spline (kfun V) m p (fun i => ent S_ i d) u + spline (kfun V) m p (dl (x d)) u).
    { intros u d Hd. rewrite <- spline_moved. apply spline_ext. intros i Hi. apply ES; assumption. }
    assert (SR : forall u d, (d < dim)%nat -> spline (kfun W) m p (fun i => ent T' i d) u = spline (kfun W) m p (fun i => ent T_ i d) u + spline (kfun W) m p (dr (x d)) u).
    { intros u d Hd. rewrite <- spline_moved. apply spline_ext. intros i Hi. apply ET; assumption. }
    assert (A1 : forall k, (k < p)%nat -> (agree dim k a' 1 b' 0 <-> forall d, (d < dim)%nat -> rsum (fun j => con k j * x d j) (2 * p) = crhs d k)).
    { intros k Hk. rewrite (agree_iff _ _ _ _ _ _ _ _ _ _ _ k 1 0 HA' HB') by (try lia; lra). split; intros H d Hd; specialize (H d Hd).
      - rewrite end_derivative in H by (try apply HA; lia). rewrite start_derivative in H by (try apply HB; lia). assert (T := JR k d Hk Hd). unfold Merge7.crhs. cmp. rn. lra.
      - rewrite end_derivative by (try apply HA; lia). rewrite start_derivative by (try apply HB; lia). assert (T := JR k d Hk Hd). unfold Merge7.crhs in H.
        replace (k <? p)%nat with true in H by (symmetry; apply Nat.ltb_lt; lia). rn. lra. }
    assert (A2 : forall g, (g < na)%nat -> (agree dim 0 a' (nth g pa 0) a (nth g pa 0) <-> forall d, (d < dim)%nat -> rsum (fun j => con (p + g) j * x d j) (2 * p) = crhs d (p + g))).
    { intros g Hg. assert (I := Ia _ (nth_In pa 0 Hg)). rewrite (agree_iff _ _ _ _ _ _ _ _ _ _ _ 0 _ _ HA' HA) by (try lia; exact I). split; intros H d Hd; specialize (H d Hd).
      - rewrite !dspline_0 in H. rewrite (SL _ d Hd), left_moved in H. rewrite (left_row pa pb Hp (x d) g Hg). unfold Merge7.crhs. cmp. rn. lra.
      - rewrite !dspline_0. rewrite (SL _ d Hd), left_moved. rewrite (left_row pa pb Hp (x d) g Hg) in H. unfold Merge7.crhs in H. replace (p + g <? p)%nat with false in H by (symmetry; apply Nat.ltb_ge; lia). rn. lra. }
    assert (A3 : forall g, (g < nb)%nat -> (agree dim 0 b' (nth g pb 0) b (nth g pb 0) <-> forall d, (d < dim)%nat -> rsum (fun j => con (p + na + g) j * x d j) (2 * p) = crhs d (p + na + g))).
    { intros g Hg. assert (I := Ib _ (nth_In pb 0 Hg)). rewrite (agree_iff _ _ _ _ _ _ _ _ _ _ _ 0 _ _ HB' HB) by (try lia; exact I). split; intros H d Hd; specialize (H d Hd).
      - rewrite !dspline_0 in H. rewrite (SR _ d Hd), right_moved in H. rewrite (right_row pa pb Hp (x d) g Hg). unfold Merge7.crhs. cmp. rn. lra.
      - rewrite !dspline_0. rewrite (SR _ d Hd), right_moved. rewrite (right_row pa pb Hp (x d) g Hg) in H. unfold Merge7.crhs in H. replace (p + na + g <? p)%nat with false in H by (symmetry; apply Nat.ltb_ge; lia). rn. lra. }
    split.
    - intros F. split; [|split].
      + intros k Hk. apply A1; [exact Hk|]. intros d Hd. apply F; [exact Hd|lia].
      + intros u Hu. apply (In_nth _ _ 0) in Hu. destruct Hu as [g [Hg <-]]. apply A2; [exact Hg|]. intros d Hd. apply F; [exact Hd|lia].
      + intros u Hu. apply (In_nth _ _ 0) in Hu. destruct Hu as [g [Hg <-]]. apply A3; [exact Hg|]. intros d Hd. apply F; [exact Hd|lia].
    - intros [F1 [F2 F3]] d Hd r Hr. destruct (Nat.lt_ge_cases r p) as [H|H]; [apply A1; auto|]. destruct (Nat.lt_ge_cases r (p + na)) as [H'|H'].
      + replace r with (p + (r - p))%nat by lia. apply A2; [lia|apply F2, nth_In; lia|exact Hd].
      + replace r with (p + na + (r - (p + na)))%nat by lia. apply A3; [lia|apply F3, nth_In; lia|exact Hd].
  Qed.

  Lemma moved_sum S' T' (x : nat -> nat -> R) :
    (forall i d, (i <= m)%nat -> (d < dim)%nat -> ent S' i d = ent S_ i d + dl (x d) i) ->
    (forall i d, (i <= m)%nat -> (d < dim)%nat -> ent T' i d = ent T_ i d + dr (x d) i) ->
    moved m dim S_ S' + moved m dim T_ T' = rsum (fun d => rsum (fun j => x d j ^ 2) (2 * p)) dim.
  Proof.
    intros ES ET. assert (DV := cl_deg _ _ _ (proj1 HA)). unfold moved. rewrite !(rsum_swap _ (S m)). rewrite <- rsum_plus. apply rsum_ext. intros d Hd.
    replace (2 * p)%nat with (p + p)%nat by lia. rewrite rsum_add. f_equal.
    - rewrite (rsum_drop _ (m + 1 - p)); [|lia|].
      + replace (S m - (m + 1 - p))%nat with p by lia. apply rsum_ext. intros j Hj. rewrite ES by lia. unfold dl. cmp. replace (m + 1 - p + j - (m + 1 - p))%nat with j by lia. rn. ring.
      + intros i Hi. rewrite ES by lia. unfold dl. cmp. rn. ring.
    - rewrite (rsum_trunc _ p); [|lia|].
      + apply rsum_ext. intros j Hj. rewrite ET by lia. unfold dr. cmp. rn. ring.
      + intros i Hi Hi'. rewrite ET by lia. unfold dr. cmp. rn. ring.
  Qed.

  Theorem merged_result svd : good_solver svd -> p = 1%nat \/ p = 2%nat -> (na + nb < p)%nat ->
    exists c S' T' a' b', merge_with_constraints svd (mkCC a pa) (mkCC b pb) = Val (Ok c) /\
      fitted p m dim V W S_ T_ a b pa pb S' T' a' b' /\
      (forall t, 0 <= t <= 1 -> agree dim 0 c (t / 2) a' t /\ agree dim 0 c ((1 + t) / 2) b' t) /\
      (forall S'' T'' a'' b'', fitted p m dim V W S_ T_ a b pa pb S'' T'' a'' b'' -> moved m dim S_ S' + moved m dim T_ T' <= moved m dim S_ S'' + moved m dim T_ T'').
  Proof.
    intros G H12 Ht. assert (DV := cl_deg _ _ _ (proj1 HA)).
    assert (NE : pa = [] \/ pb = []) by (destruct pa, pb; auto; cbn in Ht; lia).
    destruct (shifts_R HA HB pa pb Hp svd G) as [X [EX [SX HX]]]; [intros d _; apply (shifts_feasible HA HB pa pb Hp d NE)|].
    destruct (merge_assembles HA HB pa pb Hp svd X Ht EX SX) as [c [U [Q [E [J [CC [S' [T' [SS [ST [ES [ET [QS [QT _]]]]]]]]]]]]]].
    destruct (clamped_curve_ex p m dim V S' (proj1 HA) SS) as [a' HA']. destruct (clamped_curve_ex p m dim W T' (proj1 HB) ST) as [b' HB'].
    assert (F := proj1 (feasible_iff S' T' a' b' (fun d j => ent X j d) HA' HB' ES ET) (fun d Hd => proj1 (HX d Hd))).
    exists c, S', T', a', b'. split; [exact E|]. split; [|split].
    - split; [exact HA'|]. split; [exact HB'|]. split; [|split; [|exact F]].
      + intros i d Hi Hd. rewrite ES by lia. cmp. apply Rplus_0_r.
      + intros i d Hi Hd. rewrite ET by lia. cmp. apply Rplus_0_r.
    - intros t Ht01.
      assert (HJ : forall d, (d < dim)%nat -> forall k, (k < p)%nat -> dpoints (kfun V) p (fun i => ent S' i d) k (m - k) = dpoints (kfun W) p (fun i => ent T' i d) k 0).
      { intros d Hd k Hk. assert (A := proj1 F k Hk). rewrite (agree_iff _ _ _ _ _ _ _ _ _ _ _ k 1 0 HA' HB') in A by (try lia; lra). specialize (A d Hd).
        rewrite end_derivative in A by (try apply HA; lia). rewrite start_derivative in A by (try apply HB; lia). exact A. }
      split.
      + apply (agree_iff _ _ _ _ _ _ _ _ _ _ _ 0 _ _ CC HA'); try lia; try lra. intros d Hd. rewrite !dspline_0.
        apply (merged_left p m m V W U (proj1 HA) (proj1 HB) J (proj1 CC) (fun i => ent S' i d) (fun i => ent T' i d)); auto.
      + apply (agree_iff _ _ _ _ _ _ _ _ _ _ _ 0 _ _ CC HB'); try lia; try lra. intros d Hd. rewrite !dspline_0.
        apply (merged_right p m m V W U (proj1 HA) (proj1 HB) J (proj1 CC) (fun i => ent S' i d) (fun i => ent T' i d)); auto.
    - intros S'' T'' a'' b'' [HA2 [HB2 [KS [KT F2]]]]. rewrite (moved_sum S' T' (fun d j => ent X j d) ES ET).
      set (w := fun d j => if (j <? p)%nat then ent S'' (m + 1 - p + j) d - ent S_ (m + 1 - p + j) d else ent T'' (j - p) d - ent T_ (j - p) d).
      assert (ES2 : forall i d, (i <= m)%nat -> (d < dim)%nat -> ent S'' i d = ent S_ i d + dl (w d) i).
      { intros i d Hi Hd. unfold dl. destruct (Nat.ltb_spec i (m + 1 - p)); [rewrite KS by assumption; symmetry; apply Rplus_0_r|]. unfold w. cmp. replace (m + 1 - p + (i - (m + 1 - p)))%nat with i by lia. symmetry. apply Rplus_minus. }
      assert (ET2 : forall i d, (i <= m)%nat -> (d < dim)%nat -> ent T'' i d = ent T_ i d + dr (w d) i).
      { intros i d Hi Hd. unfold dr. destruct (Nat.ltb_spec i p); [|rewrite KT by (try assumption; lia); symmetry; apply Rplus_0_r]. unfold w. cmp. replace (p + i - p)%nat with i by lia. symmetry. apply Rplus_minus. }
      rewrite (moved_sum S'' T'' w ES2 ET2). assert (Fw := proj2 (feasible_iff S'' T'' a'' b'' w HA2 HB2 ES2 ET2) F2).
      apply rsum_le. intros d Hd. destruct (HX d Hd) as [Fx [y Sy]]. apply (stationary_min (2 * p) (p + na + nb) con (crhs d) _ y); [exact Fx|exact Sy|apply Fw; exact Hd].
  Qed.
End Result.

Lemma agree_trans dim k a u b v c w : agree dim k a u b v -> agree dim k b v c w -> agree dim k a u c w.
Proof.
  intros [f [H1 H2]] [g [H3 H4]]. exists f. split; [exact H1|]. eapply returns_ext; [exact H4|]. intros d Hd. symmetry. apply (returns_unique _ _ _ _ d H2 H3 Hd).
Qed.

(** the joint of [merge_from] is the end of the first curve, that of [merge_to] the start of the second *)
Theorem merge_from_joint svd m dim V S_ a W T_ b : good_solver svd -> clamped_curve 2 m dim V S_ a -> clamped_curve 2 m dim W T_ b ->
  exists c, merge_from svd a b = Val (Ok c) /\ agree dim 0 c (1 / 2) a 1.
Proof.
  intros G HA HB. assert (R := fun I1 I2 => merged_result HA HB [1] [] ltac:(lia) I1 I2 svd G (or_intror eq_refl) ltac:(cbn; lia)).
  destruct R as [c [S' [T' [a' [b' [E [F [H _]]]]]]]].
  - intros u [<-|[]]. lra.
  - intros u [].
  - exists c. split; [exact E|]. apply (agree_trans dim 0 c (1 / 2) a' 1).
    + apply (H 1 ltac:(lra)).
    + destruct F as [_ [_ [_ [_ [_ [F _]]]]]]. apply F. left. reflexivity.
Qed.
Theorem merge_to_joint svd m dim V S_ a W T_ b : good_solver svd -> clamped_curve 2 m dim V S_ a -> clamped_curve 2 m dim W T_ b ->
  exists c, merge_to svd a b = Val (Ok c) /\ agree dim 0 c (1 / 2) b 0.
Proof.
  intros G HA HB. assert (R := fun I1 I2 => merged_result HA HB [] [0] ltac:(lia) I1 I2 svd G (or_intror eq_refl) ltac:(cbn; lia)).
  destruct R as [c [S' [T' [a' [b' [E [F [H _]]]]]]]].
  - intros u [].
  - intros u [<-|[]]. lra.
  - exists c. split; [exact E|]. apply (agree_trans dim 0 c (1 / 2) b' 0).
    + destruct (H 0 ltac:(lra)) as [_ X]. replace ((1 + 0) / 2) with (1 / 2) in X by lra. exact X.
    + destruct F as [_ [_ [_ [_ [_ [_ F]]]]]]. apply F. left. reflexivity.
Qed.

Theorem constrained_points svd m dim V P a W Q b pa pb :
  clamped_curve 2 m dim V P a -> clamped_curve 2 m dim W Q b -> good_solver svd -> (length pa + length pb < 2)%nat ->
  (forall u, In u pa -> 0 <= u <= 1) -> (forall u, In u pb -> 0 <= u <= 1) ->
  exists c, merge_with_constraints svd (mkCC a pa) (mkCC b pb) = Val (Ok c) /\
    (forall u, In u pa -> agree dim 0 c (u / 2) a u) /\ (forall u, In u pb -> agree dim 0 c ((1 + u) / 2) b u).
Proof.
  intros HA HB G Ht Ia Ib. destruct (merged_result HA HB pa pb ltac:(lia) Ia Ib svd G (or_intror eq_refl) Ht) as [c [S' [T' [a' [b' [E [F [H _]]]]]]]].
  destruct F as [_ [_ [_ [_ [_ [F1 F2]]]]]]. exists c. split; [exact E|]. split; intros u Hu.
  - apply (agree_trans dim 0 c (u / 2) a' u); [apply (H u (Ia u Hu))|apply F1; exact Hu].
  - apply (agree_trans dim 0 c ((1 + u) / 2) b' u); [apply (H u (Ib u Hu))|apply F2; exact Hu].
Qed.

Theorem merge_untouched svd p m dim V P a W Q b pa pb : (1 <= p)%nat ->
  clamped_curve p m dim V P a -> clamped_curve p m dim W Q b -> returning_solver svd -> (length pa + length pb < p)%nat ->
  exists c U C, merge_with_constraints svd (mkCC a pa) (mkCC b pb) = Val (Ok c) /\ joined_knots p m m V W U /\ clamped_curve p (m + m + 1 - p) dim U C c /\
    (forall i d, (i < m + 1 - p)%nat -> (d < dim)%nat -> ent C i d = ent P i d) /\
    (forall j d, (p <= j <= m)%nat -> (d < dim)%nat -> ent C (m + 1 - p + j) d = ent Q j d) /\
    agree dim 0 c 0 a 0 /\ agree dim 0 c 1 b 1.
Proof.
  intros Hp HA HB G Ht. destruct (merge_returns HA HB pa pb Hp svd G Ht) as [c [U [C [E [J [HC [H1 H2]]]]]]]. assert (D := cl_deg _ _ _ (proj1 HA)).
  exists c, U, C. split; [exact E|]. split; [exact J|]. split; [exact HC|]. split; [exact H1|]. split; [exact H2|]. split.
  - apply (agree_iff _ _ _ _ _ _ _ _ _ _ _ 0 0 0 HC HA); try lia; try lra. intros d Hd. rewrite (start_derivative _ _ U) by (try apply HC; lia). rewrite (start_derivative _ _ V) by (try apply HA; lia). cbn [dpoints]. apply H1; lia.
  - apply (agree_iff _ _ _ _ _ _ _ _ _ _ _ 0 1 1 HC HB); try lia; try lra. intros d Hd. rewrite (end_derivative _ _ U) by (try apply HC; lia). rewrite (end_derivative _ _ W) by (try apply HB; lia). cbn [dpoints].
    rewrite !Nat.sub_0_r. assert (X := H2 m d ltac:(lia) Hd). replace (m + 1 - p + m)%nat with (m + m + 1 - p)%nat in X by lia. exact X.
Qed.
