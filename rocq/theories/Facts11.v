(** * Where the code departs from what one would expect *)

From Coq Require Import ZArith Reals List Bool Arith Lia Lra.
From Flocq Require Import IEEE754.BinarySingleNaN.
From Verif Require Import Num Vec MKnots MPoints MCurve RNum F64 Hoare Lists Struct Spec Api Bridge Facts1 Facts4 Facts5 Facts6 Facts9 Divisions.
Import ListNotations.

Section Real.
  Local Open Scope R_scope.

  (** ** inserting behind a repeated knot *)
  Lemma find_beyond p n U u j : clamped p n U -> 0 < u < 1 -> (p < j < n)%nat -> nth j U 0 = nth (j + 1) U 0 -> nth j U 0 < u ->
    exists l, @find_idx RNum (knots_of p U) u 0 CLeftOrEqual = Val l /\ (p < l < n)%nat /\ nth l U 0 = nth (l + 1) U 0 /\ nth l U 0 < u.
  Proof.
    intros C Hu Hj Ej Hju. assert (L := cl_len _ _ _ C). assert (D := cl_deg _ _ _ C).
    assert (F := @find_le_spec RNum False p n 0 U u ltac:(rn; lia) D ltac:(lia)). apply ok_val_ex in F.
    destruct F as [l [E [F1 [F2 [F3 F4]]]]]. exists l. split; [exact E|]. rn. cbn [plus] in *. rewrite !Nat.sub_0_r in *.
    assert (B : (l <= j)%nat).
    { apply Nat.nlt_ge. intros Hl. assert (T := F4 j ltac:(lia)). apply Reqb_neq in T. lra. }
    assert (Hl : nth l U 0 <= nth j U 0) by (apply (cl_sorted _ _ _ C); lia).
    destruct F3 as [F3|[F3|[F3 F5]]].
    - exfalso. apply Rleb_gt in F3. assert (T := cl_sorted _ _ _ C (l + 1) (j + 1) ltac:(lia) ltac:(lia)). lra.
    - lia.
    - apply Reqb_eq in F5. split; [lia|]. split; lra.
  Qed.

  Lemma insert_beyond_repeated p n dim U P c u j : clamped_curve p n dim U P c -> 0 < u < 1 ->
    (forall x, 0 < x < 1 -> (mult U x <= p)%nat) ->
    (p < j < n)%nat -> nth j U 0 = nth (j + 1) U 0 -> nth j U 0 < u ->
    exists c' U', @curve_insert RNum c u = Val (c', Ok tt) /\ @vector RNum (cknots c') = Val U' /\ ~ sorted U'.
  Proof.
    intros H Hu Hm Hj Ej Hju. rewrite insert_once.
    assert (C : clamped p n U) by apply H. assert (L := cl_len _ _ _ C). assert (D := cl_deg _ _ _ C).
    assert (W := proj1 (cc_wf _ _ _ _ _ _ H)).
    destruct (find_beyond p n U u j C Hu Hj Ej Hju) as [l [F [Hl [El Hlu]]]].
    assert (T := insert_gen False gdiv_R p n dim U P c u W (open_R u Hu)).
    rewrite (dcount_R p n U u C Hu) in T. specialize (T (Hm u Hu)).
    assert (Q : ok False (insert c u) (fun r => exists l P', @find_idx RNum (knots_of p U) u 0 CLeftOrEqual = Val l /\ (p <= l <= n)%nat /\
       @insert_points RNum U P dim p l u = Val P' /\ snd r = Ok tt /\
       @wf RNum p (S n) dim (insU U l u) P' (fst r) /\ @built RNum p (insU U l u) P' (fst r))).
    { apply T. intros l' i _ Hl' Hi. assert (Dv := insert_division p n U u l' i C Hu Hl' Hi Hm).
      exists ((u - nth i U 0) / (nth (i + p) U 0 - nth i U 0)). cbn [ndiv RNum nsub]. unfold Rdivm. rn.
      destruct (Req_EM_T _ _) as [e|_]; [lra|reflexivity]. }
    apply ok_val_ex in Q. destruct Q as [[c' r] [Ei [l' [P' [F' [_ [_ [Er [W' _]]]]]]]]]. cbn [fst snd] in *. subst r.
    rewrite F in F'. injection F' as <-. exists c', (insU U l u). split; [exact Ei|]. split.
    - rewrite (wf_knots _ _ _ _ _ _ W'). apply knots_of_vector.
    - intros S. assert (LI := insU_length U l u ltac:(lia)). assert (G := S (l + 1)%nat (l + 2)%nat ltac:(lia) ltac:(rn; lia)).
      rewrite !nth_insU in G by lia.
      replace (l + 1 <=? l)%nat with false in G by (symmetry; apply Nat.leb_gt; lia). rewrite Nat.eqb_refl in G.
      replace (l + 2 <=? l)%nat with false in G by (symmetry; apply Nat.leb_gt; lia).
      replace (l + 2 =? l + 1)%nat with false in G by (symmetry; apply Nat.eqb_neq; lia).
      replace (l + 2 - 1)%nat with (l + 1)%nat in G by lia. lra.
  Qed.
End Real.

(** ** segments_derivative *)
Lemma segments_derivative_val (K : Num) p n k (U : list K) kn : length U = n + p + 2 -> 1 <= p <= n -> knots_new p U = Val kn -> k <= p ->
  segments_derivative kn k = if 2 * k <=? p + 2 then Val n else Panic.
Proof.
  intros L D E Hk. rewrite knots_new_val in E by lia. injection E as <-.
  unfold segments_derivative, klen. change (kp (knots_of p U)) with p.
  rewrite knots_of_vec by lia. cbn [bind]. rewrite kderiv_length.
  unfold usub at 1. destruct (Nat.leb_spec (2 * k) (p + 2)); cbn [bind].
  - rewrite usub_ok by lia. f_equal. lia.
  - reflexivity.
Qed.

(** ** computed witnesses in binary64 *)
Definition okb {A E} (r : M (result A E)) (q : A -> bool) : bool := match r with Val (Ok x) => q x | _ => false end.
Lemma okb_ex {A E} (r : M (result A E)) q : okb r q = true -> exists x, r = Val (Ok x) /\ q x = true.
Proof. destruct r as [[x|e]| | |]; try discriminate. intros H. exists x. auto. Qed.
Definition valb {A} (r : M A) (q : A -> bool) : bool := match r with Val x => q x | _ => false end.
Lemma valb_ex {A} (r : M A) q : valb r q = true -> exists x, r = Val x /\ q x = true.
Proof. destruct r; try discriminate. intros H. exists a. auto. Qed.

(** quarters *)
Definition q4 (m : Z) : F64 := fmk m (-2).
Definition row (l : list Z) : Mat F64 := mkMat 1 (map (fun x => [q4 x]) l).

Lemma sized_row p n U l : p <= n -> length U = n + p + 2 -> length l = S n -> sized p n 1 U (row l).
Proof.
  intros H1 H2 H3. split; [exact H1|]. split; [exact H2|]. split; [reflexivity|]. unfold row. cbn [mcols]. split; [rewrite map_length; exact H3|].
  intros i Hi. rewrite (nth_indep _ [] [q4 0]) by (rewrite map_length; lia).
  change [q4 0] with ((fun x => [q4 x]) 0%Z). rewrite map_nth. reflexivity.
Qed.

Definition build (p : nat) (U : list F64) (P : Mat F64) : M (result (Curve F64) (CurveError F64)) :=
  kn <- knots_new p U;; curve_new kn (cp_new P).

Lemma build_built p U P c : build p U P = Val (Ok c) -> built p U P c.
Proof. intros E. unfold build in E. apply bind_val in E. destruct E as [kn [E1 E2]]. exists kn. auto. Qed.

Definition insb (r : M (Curve F64 * result unit (InsertError F64))) (q : Curve F64 -> bool) : bool :=
  match r with Val (c, Ok tt) => q c | _ => false end.
Lemma insb_ex r q : insb r q = true -> exists c, r = Val (c, Ok tt) /\ q c = true.
Proof. destruct r as [[c [[]|e]]| | |]; try discriminate. intros H. exists c. auto. Qed.
Definition panicb {A} (r : M A) : bool := match r with Panic => true | _ => false end.
Lemma panicb_ex {A} (r : M A) : panicb r = true -> r = Panic.
Proof. destruct r; try discriminate. reflexivity. Qed.

(** C41: degree 2, knots 0 0 0 1/2 1/2 1 1 1, insert 3/4, look at 1/2 *)
Lemma c41_witness : exists c c' x y,
  built 2 (map q4 [0; 0; 0; 2; 2; 4; 4; 4]%Z) (row [0; 4; 1; 4; -8]%Z) c /\ curve_insert c (q4 3) = Val (c', Ok tt) /\
  evaluate c (q4 2) = Val (Ok x) /\ evaluate c' (q4 2) = Val (Ok y) /\
  neqb (nth 0 x n0) (fmk 1 (-2)) = true /\ neqb (nth 0 y n0) (fmk 1 (-1)) = true.
Proof.
  assert (T : okb (build 2 (map q4 [0; 0; 0; 2; 2; 4; 4; 4]%Z) (row [0; 4; 1; 4; -8]%Z)) (fun c =>
    insb (curve_insert c (q4 3)) (fun c' => okb (evaluate c (q4 2)) (fun x => okb (evaluate c' (q4 2)) (fun y =>
     (nth 0 x n0 ==? fmk 1 (-2))%num && (nth 0 y n0 ==? fmk 1 (-1))%num)))) = true) by (vm_compute; reflexivity).
  apply okb_ex in T. destruct T as [c [E T]]. apply insb_ex in T. destruct T as [c' [E2 T]].
  apply okb_ex in T. destruct T as [x [E3 T]]. apply okb_ex in T. destruct T as [y [E4 T]]. apply andb_true_iff in T.
  exists c, c', x, y. split; [apply build_built; exact E|]. auto.
Qed.

(** C40: degree 2, Bezier knots with one control point too many *)
Lemma c40_witness : exists c, built 2 (map q4 [0; 0; 0; 4; 4; 4]%Z) (row [0; 4; 1; 4]%Z) c /\
  evaluate c (q4 0) = Panic /\ evaluate c (q4 2) = Panic /\ evaluate c (q4 4) = Panic.
Proof.
  assert (T : okb (build 2 (map q4 [0; 0; 0; 4; 4; 4]%Z) (row [0; 4; 1; 4]%Z)) (fun c =>
    panicb (evaluate c (q4 0)) && (panicb (evaluate c (q4 2)) && panicb (evaluate c (q4 4)))) = true) by (vm_compute; reflexivity).
  apply okb_ex in T. destruct T as [c [E T]]. apply andb_true_iff in T. destruct T as [T1 T]. apply andb_true_iff in T. destruct T as [T2 T3].
  exists c. split; [apply build_built; exact E|]. split; [apply panicb_ex; exact T1|]. split; apply panicb_ex; assumption.
Qed.

(** C45: degree 1, knots -1/2 0 1/2 1 3/2, all points 1, u = 1 *)
Lemma c45_witness : exists c x, sized 1 2 1 (map q4 [-2; 0; 2; 4; 6]%Z) (row [4; 4; 4]%Z) /\
  built 1 (map q4 [-2; 0; 2; 4; 6]%Z) (row [4; 4; 4]%Z) c /\
  evaluate c (q4 4) = Val (Ok x) /\ neqb (nth 0 x n0) (fmk 2 0) = true.
Proof.
  assert (T : okb (build 1 (map q4 [-2; 0; 2; 4; 6]%Z) (row [4; 4; 4]%Z)) (fun c =>
    okb (evaluate c (q4 4)) (fun x => (nth 0 x n0 ==? fmk 2 0)%num)) = true) by (vm_compute; reflexivity).
  apply okb_ex in T. destruct T as [c [E T]]. apply okb_ex in T. destruct T as [x [E2 T]].
  exists c, x. split; [apply sized_row; try reflexivity; lia|]. split; [apply build_built; exact E|]. auto.
Qed.

(** C39: degree 1, the knot 2^-1040 *)
Definition U39 : list F64 := [q4 0; q4 0; fmk 1 (-1040); q4 4; q4 4].
Lemma c39_witness : exists c x y, sized 1 2 1 U39 (row [4; 4; 4]%Z) /\ built 1 U39 (row [4; 4; 4]%Z) c /\
  evaluate c (q4 2) = Val (Ok x) /\ is_nan (nth 0 x n0) = true /\ evaluate c (q4 4) = Val (Ok y) /\ is_nan (nth 0 y n0) = true.
Proof.
  assert (T : okb (build 1 U39 (row [4; 4; 4]%Z)) (fun c =>
    okb (evaluate c (q4 2)) (fun x => is_nan (nth 0 x n0) && okb (evaluate c (q4 4)) (fun y => is_nan (nth 0 y n0)))) = true) by (vm_compute; reflexivity).
  apply okb_ex in T. destruct T as [c [E T]]. apply okb_ex in T. destruct T as [x [E2 T]]. apply andb_true_iff in T. destruct T as [T1 T].
  apply okb_ex in T. destruct T as [y [E3 T]].
  exists c, x, y. split; [apply sized_row; try reflexivity; lia|]. split; [apply build_built; exact E|]. auto.
Qed.

(** C42: degree 1, the knot 2^-60 *)
Definition U42 : list F64 := [q4 0; q4 0; fmk 1 (-60); q4 4; q4 4].
Lemma c42_witness : exists c c1 c2 V, sized 1 2 1 U42 (row [0; 4; 1]%Z) /\ built 1 U42 (row [0; 4; 1]%Z) c /\
  reverse c = Val c1 /\ reverse c1 = Val c2 /\ vector (cknots c2) = Val V /\
  neqb (nth 2 V n0) (n0 : F64) = true /\ neqb (nth 2 U42 n0) (n0 : F64) = false.
Proof.
  assert (T : okb (build 1 U42 (row [0; 4; 1]%Z)) (fun c => valb (reverse c) (fun c1 => valb (reverse c1) (fun c2 =>
    valb (vector (cknots c2)) (fun V => (nth 2 V n0 ==? n0)%num && negb (nth 2 U42 n0 ==? n0)%num)))) = true) by (vm_compute; reflexivity).
  apply okb_ex in T. destruct T as [c [E T]]. apply valb_ex in T. destruct T as [c1 [E2 T]]. apply valb_ex in T. destruct T as [c2 [E3 T]].
  apply valb_ex in T. destruct T as [V [E4 T]]. apply andb_true_iff in T. destruct T as [T1 T2]. apply negb_true_iff in T2.
  exists c, c1, c2, V. split; [apply sized_row; try reflexivity; lia|]. split; [apply build_built; exact E|]. auto.
Qed.

(** splitting at a knot of too high multiplicity behind another repeated knot *)
Lemma split_panic_witness : exists c, sized 1 5 1 (map q4 [0; 0; 1; 1; 3; 3; 4; 4]%Z) (row [0; 4; 0; 4; 8; 3]%Z) /\
  built 1 (map q4 [0; 0; 1; 1; 3; 3; 4; 4]%Z) (row [0; 4; 0; 4; 8; 3]%Z) c /\ split c (q4 3) = Panic.
Proof.
  assert (T : okb (build 1 (map q4 [0; 0; 1; 1; 3; 3; 4; 4]%Z) (row [0; 4; 0; 4; 8; 3]%Z)) (fun c => panicb (split c (q4 3))) = true)
    by (vm_compute; reflexivity).
  apply okb_ex in T. destruct T as [c [E T]]. exists c. split; [apply sized_row; try reflexivity; lia|]. split; [apply build_built; exact E|].
  apply panicb_ex. exact T.
Qed.

(** ** the search from the right in the derivative of order p *)
Lemma find_right_eq_panics (K : Num) p n (U : list K) u : length U = n + p + 2 -> p <= n ->
  (forall i, p <= i <= n + 1 -> (u <=? nth i U n0)%num = true) -> (forall i, p <= i <= n -> (nth i U n0 ==? nth (i + 1) U n0)%num = false) ->
  find_idx (knots_of p U) u p CRightOrEqual = Panic.
Proof.
  intros L D Hu Hd. unfold find_idx, vector_derivative. rewrite knots_of_vec by lia. cbn [bind]. change (kdegree (knots_of p U)) with p.
  rewrite usub_ok by lia. cbn [bind]. rewrite kderiv_length. repeat (rewrite usub_ok by lia; cbn [bind]).
  rewrite Nat.sub_diag. set (v := kderiv p U). assert (Lv : length v = n + 2 - p) by (unfold v; rewrite kderiv_length; lia).
  assert (Ev : forall i, i <= n + 1 - p -> nth i v n0 = nth (p + i) U n0) by (intros i Hi; unfold v; rewrite nth_kderiv by lia; reflexivity).
  assert (G : forall fuel i, 1 <= i <= n + 1 - p -> i <= fuel ->
    while_ fuel (fun i => i1 <- usub i 1;; x <- vget v i1;; Val ((u <=? x)%num && (0 <? i)))
          (fun i => i <- usub i 1;;
                    i1 <- usub i 1;; x <- vget v i1;; y <- vget v i;; Val (i, (x ==? y)%num)) i = Panic).
  { induction fuel as [|fuel IH]; intros i Hi Hf; [lia|]. rewrite while_S. rewrite usub_ok by lia. cbn [bind].
    rewrite (vget_nth v (i - 1) n0) by lia. cbn [bind]. rewrite Ev by lia. rewrite Hu by lia.
    replace (0 <? i) with true by (symmetry; apply Nat.ltb_lt; lia). cbn [andb].
    destruct (Nat.eq_dec i 1) as [->|Hi1]; [reflexivity|]. rewrite usub_ok by lia. cbn [bind].
    rewrite (vget_nth v (i - 1 - 1) n0) by lia. cbn [bind].
    rewrite !Ev by lia. assert (T := Hd (p + (i - 1 - 1)) ltac:(lia)). replace (p + (i - 1 - 1) + 1) with (p + (i - 1)) in T by lia.
    destruct (nth (p + (i - 1 - 1)) U n0 ==? nth (p + (i - 1)) U n0)%num eqn:E; cbn [fst snd].
    - exfalso. rewrite E in T || idtac. congruence.
    - apply IH; lia. }
  apply G; lia.
Qed.

Lemma c39_refuted : exists (U : list F64) P c x y, U = [q4 0; q4 0; fmk 1 (-1040); q4 4; q4 4] /\ P = row [4; 4; 4]%Z /\
  sized 1 2 1 U P /\ built 1 U P c /\
  evaluate c (q4 2) = Val (Ok x) /\ is_nan (nth 0 x n0) = true /\ evaluate c (q4 4) = Val (Ok y) /\ is_nan (nth 0 y n0) = true.
Proof. destruct c39_witness as [c [x [y H]]]. exists U39, (row [4; 4; 4]%Z), c, x, y. split; [reflexivity|]. split; [reflexivity|exact H]. Qed.

Lemma find_right_eq_panics_kn (K : Num) p n (U : list K) u kn : length U = n + p + 2 -> p <= n -> knots_new p U = Val kn ->
  (forall i, p <= i <= n + 1 -> (u <=? nth i U n0)%num = true) -> (forall i, p <= i <= n -> (nth i U n0 ==? nth (i + 1) U n0)%num = false) ->
  find_idx kn u p CRightOrEqual = Panic.
Proof. intros L D E. rewrite (knots_new_of p n U kn L D E). apply find_right_eq_panics; assumption. Qed.
