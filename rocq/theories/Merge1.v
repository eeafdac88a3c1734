(** * Merging: refusals, and the sizes of what is returned *)

From Coq Require Import ZArith Reals List Bool Arith Lia Lra.
From Verif Require Import Num Vec MKnots MPoints MCurve MFit MMerge RNum Hoare Lists Struct Spec Api Bridge Facts1 Gen3.
Import ListNotations.

Tactic Notation "inv_b" hyp(H) ident(x) ident(E) := apply bind_val in H; destruct H as [x [E H]].

Section Generic.
  Context {K : Num}.
  Notation Vec := (list K).
  Context (svd : Mat K -> Mat K -> M (Mat K)).

  (** ** reading a curve *)
  Section Reading.
    Context {p n dim : nat} {U : Vec} {P : Mat K} {c : Curve K} (W : wf p n dim U P c).

    Lemma wf_pk : exists s, Pk (cpoints c) = P :: s.
    Proof.
      assert (H := wf_head _ _ _ _ _ _ W). assert (L := wf_Pk _ _ _ _ _ _ W). destruct (Pk (cpoints c)) as [|x s]; [discriminate L|].
      exists s. cbn [nth] in H. rewrite H. reflexivity.
    Qed.
    Lemma wf_degree : degree c = p.
    Proof. unfold degree. rewrite (wf_knots _ _ _ _ _ _ W). reflexivity. Qed.
    Lemma wf_matrix : cp_matrix (cpoints c) = Val P.
    Proof. destruct wf_pk as [s E]. unfold cp_matrix. rewrite E. reflexivity. Qed.
    Lemma wf_count : cp_count (cpoints c) = Val (S n).
    Proof.
      destruct wf_pk as [s E]. destruct (wf_shape _ _ _ _ _ _ W) as [_ [H _]]. unfold cp_count, count_derivative. rewrite E. cbn [vget nth_error bind].
      unfold ncols. rewrite H. reflexivity.
    Qed.
    Lemma wf_segments : segments c = Val n.
    Proof. unfold segments, cp_segments. rewrite wf_count. cbn [bind]. rewrite usub_ok by lia. f_equal. lia. Qed.
    Lemma wf_dimension : dimension c = Val dim.
    Proof.
      destruct wf_pk as [s E]. unfold dimension. destruct (cpoints c) as [pk km]. cbn [Pk] in E. rewrite E.
      apply (cp_dimension_val P s km dim (S n)). apply (wf_shape _ _ _ _ _ _ W).
    Qed.
    Lemma wf_vector : vector (cknots c) = Val U.
    Proof. rewrite (wf_knots _ _ _ _ _ _ W). apply knots_of_vector. Qed.
    Lemma wf_uk k : k <= p -> vget (Uk (cknots c)) k = Val (kderiv k U).
    Proof. intros H. rewrite (wf_knots _ _ _ _ _ _ W). apply knots_of_vec. exact H. Qed.
  End Reading.

  (** what is left of [merge_with_constraints] once all checks are passed *)
  Definition merge_core (p : nat) (a b : ConstrainedCurve K) : M (result (Curve K) (MergeError K)) :=
    let ca := cc_curve a in
    let cb := cc_curve b in
    shifts <- solve_linear_equation_system svd a b;;
    let* (Sshifted, Tshifted) := shifted_points ca cb shifts in
    let* (Vadj, Wrev, Wadj) := adjust_knots_of_both_splines ca cb in
    U_merged <- create_merged_knot_vector ca cb Vadj Wadj;;
    let* (Sadj, Tadj) := adjust_shifted_control_points_of_both_splines ca Sshifted Tshifted Vadj Wrev Wadj in
    P_merged <- merged_points ca cb Sadj Tadj;;
    kn <- knots_new p U_merged;;
    r <- curve_new kn (cp_new P_merged);;
    Val (match r with Ok c => Ok c | Err e => Err (CurveGenerationFailure e) end).

  Section Two.
    Context (pa pb : list K) {p m dim : nat} {V : Vec} {S_ : Mat K} {a : Curve K} (Wa : wf p m dim V S_ a).
    Context {p' o dim' : nat} {W : Vec} {T_ : Mat K} {b : Curve K} (Wb : wf p' o dim' W T_ b).

    Lemma merge_checks : merge_with_constraints svd (mkCC a pa) (mkCC b pb) =
      if negb (p =? p') then Val (Err (DegreeMismatch p p'))
      else if negb (dim =? dim') then Val (Err (DimensionMismatch dim dim'))
      else
        cl_a <- is_clamped (cknots a);;
        unclamped <- (if (cl_a : bool) then x <- is_clamped (cknots b);; Val (negb x) else Val true);;
        if (unclamped : bool) then Val (Err UnclampedCurve)
        else
          no_a <- is_normed (cknots a);;
          unnormed <- (if (no_a : bool) then x <- is_normed (cknots b);; Val (negb x) else Val true);;
          if (unnormed : bool) then Val (Err UnnormedCurve)
          else if p <=? length pa + length pb then Val (Err (TooManyConstraints (length pa + length pb) p))
          else merge_core p (mkCC a pa) (mkCC b pb).
    Proof.
      unfold merge_with_constraints. cbn [cc_curve cc_params]. rewrite (wf_degree Wa), (wf_degree Wb), (wf_dimension Wa), (wf_dimension Wb). reflexivity.
    Qed.
  End Two.

  (** ** sizes *)
  Lemma segment_len (v w : Vec) s n : segment v s n = Val w -> length w = n /\ s + n <= length v.
  Proof. unfold segment. destruct (s + n <=? length v) eqn:E; [|discriminate]. apply Nat.leb_le in E. intros H. injection H as <-. split; [apply segment_length; exact E|exact E]. Qed.
  Lemma head_len (v w : Vec) n : head v n = Val w -> length w = n /\ n <= length v.
  Proof. unfold head. intros H. apply segment_len in H. exact H. Qed.
  Lemma segment_set_len {A} (v w src : list A) s n : segment_set v s n src = Val w -> length w = length v /\ length src = n /\ s + n <= length v.
  Proof.
    unfold segment_set. destruct (s + n <=? length v) eqn:E; [|discriminate]. destruct (length src =? n) eqn:E2; [|discriminate].
    apply Nat.leb_le in E. apply Nat.eqb_eq in E2. intros H. injection H as <-. split; [apply segment_set_length; assumption|auto].
  Qed.
  Lemma tail_set_len {A} (v w src : list A) n : tail_set v n src = Val w -> length w = length v.
  Proof. unfold tail_set. intros H. inv_b H s E. apply segment_set_len in H. tauto. Qed.
  Lemma mapM_len {X A} (f : X -> M A) l : forall r, mapM f l = Val r -> length r = length l /\ forall x, In x l -> exists y, f x = Val y.
  Proof.
    induction l as [|x l IH]; intros r H; cbn [mapM] in H; [injection H as <-; split; [reflexivity|intros x []]|].
    inv_b H y E. inv_b H r' E'. injection H as <-. destruct (IH r' E') as [L I]. cbn [length]. split; [lia|].
    intros z [<-|Hz]; [exists y; exact E|apply I; exact Hz].
  Qed.

  Lemma foldM_post {X Y} (f : X -> Y -> M X) (I : X -> Prop) l : (forall x y x', In y l -> I x -> f x y = Val x' -> I x') ->
    forall x x', I x -> foldM f l x = Val x' -> I x'.
  Proof.
    intros H. induction l as [|y l IH]; intros x x' Hx E; cbn [foldM] in E; [injection E as <-; exact Hx|].
    inv_b E x1 E1. apply (IH ltac:(intros; eapply H; [right; eassumption|eassumption|eassumption]) x1 x'); [|exact E].
    eapply H; [left; reflexivity|exact Hx|exact E1].
  Qed.

  Lemma adjust_points_size (P Q : Mat K) U0 Uadj p n dim : adjust_shifted_control_points P U0 Uadj p n dim = Val Q ->
    n + 1 <= ncols P /\ shape dim (n + 1) Q.
  Proof.
    unfold adjust_shifted_control_points. intros H. inv_b H q E. apply mapM_len in E. destruct E as [_ E]. split.
    - destruct (E n) as [y Ey]; [unfold range; apply in_seq; lia|]. inv_b Ey v Ev. unfold mcol in Ev. apply vget_val in Ev.
      assert (T := proj1 (nth_error_Some (mcols P) n)). rewrite Ev in T. unfold ncols. specialize (T ltac:(discriminate)). lia.
    - inv_b H x1 Ex1. inv_b H x2 Ex2. inv_b H q1 Eq1. inv_b H q2 Eq2. revert H. apply (foldM_post _ (shape dim (n + 1))); [|apply mzeros_shape].
      intros M i M' _ SM HM. inv_b HM e Ee. inv_b HM v Ev. apply (mset_col_shape M dim (n + 1) i v M' SM HM).
  Qed.


  Lemma mset_columns_size (A B src : Mat K) s n r c c' : shape r c A -> shape r c' src -> mset_columns A s n src = Val B -> shape r c B /\ s + n <= c /\ c' = n.
  Proof.
    intros SA SS H. assert (SA' := SA). assert (SS' := SS). destruct SA' as [A1 [A2 _]], SS' as [S1 [S2 _]]. assert (H' := H).
    unfold mset_columns in H'. rewrite A1, S1, Nat.eqb_refl in H'. inv_b H' cs E. apply segment_set_len in E. destruct E as [E1 [E2 E3]].
    assert (Ecn : c' = n) by lia. rewrite Ecn in SS. rewrite (mset_columns_val A r c s n src SA SS) in H by lia. injection H as <-.
    split; [apply (mset_columns_shape A r c s n src SA SS); lia|lia].
  Qed.

  Lemma mcolumns_size (A B : Mat K) s n r c : shape r c A -> mcolumns A s n = Val B -> shape r n B /\ s + n <= c.
  Proof.
    intros SA H. assert (SA' := SA). destruct SA' as [A1 [A2 _]]. assert (H' := H). unfold mcolumns, segment in H'.
    destruct (s + n <=? length (mcols A)) eqn:E; [|discriminate]. apply Nat.leb_le in E.
    rewrite (mcolumns_val A r c s n SA) in H by lia. injection H as <-. split; [apply (mcolumns_shape A r c s n SA); lia|lia].
  Qed.

  Lemma mat_reversed_size (A B : Mat K) r c : shape r c A -> mat_reversed A = Val B -> shape r c B.
  Proof.
    intros [A1 [A2 A3]] H. unfold mat_reversed in H. rewrite mat_reverse_val in H. injection H as <-.
    split; [exact A1|]. cbn [mcols]. split; [rewrite rev_length; exact A2|]. intros i Hi. rewrite nth_rev by lia. apply A3. lia.
  Qed.

  Lemma madd_columns_size (A B src : Mat K) s n r c : shape r c A -> madd_columns A s n src = Val B -> shape r c B.
  Proof.
    intros SA H. unfold madd_columns in H. inv_b H old E. destruct (mcolumns_size A old s n r c SA E) as [SO Hs].
    destruct (ncols src =? n) eqn:En; [|discriminate]. inv_b H new EN. assert (EN' := EN). apply mapM_len in EN. destruct EN as [LN _]. rewrite seq_length in LN.
    assert (SN : shape r n (mkMat (nrows A) new)).
    { split; [apply SA|]. split; [exact LN|]. intros i Hi. cbn [mcols].
      assert (X : forall l res j, mapM (fun i => a <- mcol old i;; b <- mcol src i;; vadd a b) l = Val res -> (forall x, In x l -> x < n) -> j < length l -> length (nth j res []) = r).
      { induction l as [|x l IH]; intros res j HR Hl Hj; [cbn in Hj; lia|]. cbn [mapM] in HR. inv_b HR y Ey. inv_b HR res' Er. injection HR as <-.
        destruct j as [|j]; [|cbn [nth]; apply IH; [exact Er|intros; apply Hl; right; assumption|cbn in Hj; lia]]. cbn [nth].
        inv_b Ey u Eu. inv_b Ey v Ev. apply zipM_len in Ey. rewrite (proj2 Ey). rewrite (mcol_val old r n x SO) in Eu by (apply Hl; left; reflexivity).
        injection Eu as <-. apply SO. apply Hl. left. reflexivity. }
      apply (X (seq 0 n) new i EN'); [intros x Hx; apply in_seq in Hx; lia|rewrite seq_length; exact Hi]. }
    apply (mset_columns_size A B (mkMat (nrows A) new) s n r c n SA SN H).
  Qed.

  Section Merged.
    Context {pa pb : list K} {p m dim : nat} {V : Vec} {S_ : Mat K} {a : Curve K} (Wa : wf p m dim V S_ a).
    Context {o : nat} {W : Vec} {T_ : Mat K} {b : Curve K} (Wb : wf p o dim W T_ b).

    Lemma merge_core_sizes (G : @gdiv K True) r : merge_core p (mkCC a pa) (mkCC b pb) = Val r ->
      m <= o /\ o + 1 <= m + p /\ exists c U Q, r = Ok c /\ length U = m + o + 3 /\ shape dim (m + o + 2 - p) Q /\ built p U Q c /\
        (exists Va Wr Wd, adjust_knots_of_both_splines a b = Val (Va, Wr, Wd) /\ create_merged_knot_vector a b Va Wd = Val U).
    Proof.
      unfold merge_core. cbn [cc_curve]. intros H. inv_b H X E. inv_b H ST EST. destruct ST as [S' T']. inv_b H VW EVW. destruct VW as [[Va Wr] Wd].
      inv_b H U EU. inv_b H Adj EA. destruct Adj as [Sa Ta]. inv_b H Q EQ. inv_b H kn EK. inv_b H r0 ER. injection H as <-.
      unfold shifted_points in EST. rewrite (wf_matrix Wa), (wf_matrix Wb), (wf_degree Wa) in EST. cbn [bind] in EST.
      inv_b EST s Es. inv_b EST d1 Ed1. inv_b EST S1 ES1. inv_b EST d2 Ed2. inv_b EST T1 ET1. injection EST as <- <-.
      assert (SS := madd_columns_size _ _ _ _ _ _ _ (wf_shape _ _ _ _ _ _ Wa) ES1). assert (TS := madd_columns_size _ _ _ _ _ _ _ (wf_shape _ _ _ _ _ _ Wb) ET1).
      unfold adjust_shifted_control_points_of_both_splines in EA. rewrite (wf_degree Wa), (wf_segments Wa), (wf_dimension Wa), (wf_vector Wa) in EA. cbn [bind] in EA.
      inv_b EA Sx ESx. inv_b EA P2 EP2. inv_b EA Tx ETx. inv_b EA Ty ETy. injection EA as <- <-.
      apply adjust_points_size in ESx. destruct ESx as [_ SSx]. assert (SP2 := mat_reversed_size _ _ _ _ TS EP2).
      apply adjust_points_size in ETx. destruct ETx as [Hmo STx]. assert (STy := mat_reversed_size _ _ _ _ STx ETy).
      unfold ncols in Hmo. rewrite (proj1 (proj2 SP2)) in Hmo.
      unfold merged_points in EQ. rewrite (wf_degree Wa), (wf_dimension Wa), (wf_count Wa), (wf_count Wb) in EQ. cbn [bind] in EQ.
      inv_b EQ c Ec. apply usub_val in Ec. destruct Ec as [Ec1 ->]. inv_b EQ Q1 EQ1. replace (m + 1) with (S m) in SSx by lia.
      destruct (mset_columns_size _ _ _ _ _ _ _ _ (mzeros_shape dim (S m + S o - p)) SSx EQ1) as [SQ1 [Hq _]].
      inv_b EQ rr Err0. apply usub_val in Err0. destruct Err0 as [Er1 ->]. inv_b EQ ss Ess. apply usub_val in Ess. destruct Ess as [Es1 ->].
      inv_b EQ s2 Es2. apply usub_val in Es2. destruct Es2 as [Es2 ->]. inv_b EQ src Esrc.
      unfold ncols in Es2. rewrite (proj1 (proj2 STy)) in Es2. destruct (mcolumns_size _ _ _ _ _ _ STy Esrc) as [Ssrc _].
      destruct (mset_columns_size _ _ _ _ _ _ _ _ SQ1 Ssrc EQ) as [SQ _].
      assert (Dm := wf_deg _ _ _ _ _ _ Wa). assert (Do := wf_deg _ _ _ _ _ _ Wb).
      split; [lia|]. split; [lia|].
      assert (LU : length U = m + o + 3).
      { assert (EU' := EU). unfold create_merged_knot_vector in EU'. rewrite (wf_segments Wa), (wf_segments Wb) in EU'. cbn [bind] in EU'.
        inv_b EU' h Eh. inv_b EU' U1 EU1. inv_b EU' t Et. inv_b EU' U2 EU2. inv_b EU' x Ex. apply mapM_len in EU'. apply tail_set_len in EU2.
        unfold head_set in EU1. apply segment_set_len in EU1. rewrite vzeros_length in EU1. lia. }
      replace (S m + S o - p) with (S (m + o + 1 - p)) in SQ by lia.
      destruct (knots_new_inv p U kn EK) as [-> _].
      assert (T := curve_new_ok True G p U (m + o + 1 - p) dim Q ltac:(lia) ltac:(lia) SQ). assert (ER' := ER). rewrite ER in T. cbn [ok] in T. destruct T as [c [-> Wc]].
      exists c, U, Q. split; [reflexivity|]. split; [exact LU|]. split; [replace (m + o + 2 - p) with (S (m + o + 1 - p)) by lia; exact SQ|].
      split; [exists (knots_of p U); split; [exact EK|exact ER']|]. exists Va, Wr, Wd. split; [exact EVW|exact EU].
    Qed.
  End Merged.
End Generic.
