(** * Parameters that are not numbers; constant curves *)

From Coq Require Import ZArith Reals List Bool Arith Lia Lra Psatz.
From Flocq Require Import Core.Core IEEE754.BinarySingleNaN.
From Verif Require Import Num Vec MKnots MPoints MCurve MGenerate RNum F64 Hoare Lists Struct Divisions Spec Samples Api ApiF Bridge Facts1 Facts4 Facts5 Facts6 Facts9 Facts11.
Import ListNotations.
Local Open Scope R_scope.

Notation fnan := (B754_nan : f64).

Lemma nan_minus_l (x : F64) : (fnan - x)%num = fnan.
Proof. destruct x; reflexivity. Qed.
Lemma nan_minus_r (x : F64) : (x - fnan)%num = fnan.
Proof. destruct x; reflexivity. Qed.
Lemma nan_div (x : F64) : @ndiv F64 fnan x = Val fnan.
Proof. destruct x; reflexivity. Qed.
Lemma nan_times (x : F64) : (fnan * x)%num = fnan.
Proof. destruct x; reflexivity. Qed.
Lemma nan_eqb (x : F64) : (x ==? fnan)%num = false.
Proof. destruct x; reflexivity. Qed.

Lemma insert_nan p n dim (U : list f64) P c : @sized F64 p n dim U P -> built p U P c ->
  exists c' l P', curve_insert c fnan = Val (c', Ok tt) /\ (p <= l <= n)%nat /\
    @sized F64 p (S n) dim (firstn (l + 1) U ++ fnan :: skipn (l + 1) U) P' /\ built p (firstn (l + 1) U ++ fnan :: skipn (l + 1) U) P' c' /\
    forall i d, (l - p < i <= l)%nat -> (d < dim)%nat -> ent P' i d = fnan.
Proof.
  intros SZ B. assert (W := sized_wf False gdiv_F64 p n dim U P c SZ B). rewrite insert_once.
  assert (N0 : dcount (K := F64) p n U fnan = 0%nat).
  { unfold dcount. assert (X : forall l : list f64, length (filter (fun x => (x ==? (fnan : F64))%num) l) = 0%nat).
    { induction l as [|x l IH]; [reflexivity|]. cbn [filter]. rewrite nan_eqb. exact IH. }
    apply X. }
  assert (T := @insert_gen F64 False gdiv_F64 p n dim U P c fnan W eq_refl ltac:(rewrite N0; lia) ltac:(intros; eexists; reflexivity)). apply ok_val_ex in T.
  destruct T as [[c' r] [Ei [l [P' [F [Hl [EP [Er [W' B']]]]]]]]]. cbn [fst snd] in *. subst r.
  exists c', l, P'. split; [exact Ei|]. split; [exact Hl|]. split; [split; [apply W'|]; split; apply W'|]. split; [exact B'|].
  intros i d Hi Hd.
  destruct (@insert_points_val F64 U P dim p n l fnan (fun _ => fnan) (wf_len _ _ _ _ _ _ W) (wf_shape _ _ _ _ _ _ W) Hl) as [Q [EQ [_ HQ]]].
  { intros j _. rewrite nan_minus_l. apply nan_div. }
  rewrite EP in EQ. injection EQ as <-. rewrite HQ by lia.
  replace (i <=? l - p)%nat with false by (symmetry; apply Nat.leb_gt; lia). replace (i <=? l)%nat with true by (symmetry; apply Nat.leb_le; lia).
  rewrite nan_minus_r, !nan_times. reflexivity.
Qed.

(** a quadratic curve after inserting and when split at NaN *)
Lemma nan_witness : exists (c : Curve F64) c' x y cl cr z,
  built 2 (map q4 [0; 0; 0; 2; 4; 4; 4]%Z) (row [0; 4; 1; 4]%Z) c /\ evaluate c (q4 1) = Val (Ok x) /\ is_finite (nth 0 x n0) = true /\
  curve_insert c fnan = Val (c', Ok tt) /\ evaluate c' (q4 1) = Val (Ok y) /\ is_nan (nth 0 y n0) = true /\
  split c fnan = Val (Ok (cl, cr)) /\ evaluate cl (q4 1) = Val (Ok z) /\ is_nan (nth 0 z n0) = true.
Proof.
  assert (T : okb (build 2 (map q4 [0; 0; 0; 2; 4; 4; 4]%Z) (row [0; 4; 1; 4]%Z)) (fun c =>
    okb (evaluate c (q4 1)) (fun x => is_finite (nth 0 x (@n0 F64)) && insb (curve_insert c (fnan : F64)) (fun c' => okb (evaluate c' (q4 1)) (fun y => is_nan (nth 0 y (@n0 F64)) &&
     okb (split c (fnan : F64)) (fun l => okb (evaluate (fst l) (q4 1)) (fun z => is_nan (nth 0 z (@n0 F64)))))))) = true) by (vm_compute; reflexivity).
  apply okb_ex in T. destruct T as [c [E T]]. apply okb_ex in T. destruct T as [x [E1 T]]. apply andb_true_iff in T. destruct T as [T1 T].
  apply insb_ex in T. destruct T as [c' [E2 T]]. apply okb_ex in T. destruct T as [y [E3 T]]. apply andb_true_iff in T. destruct T as [T2 T].
  apply okb_ex in T. destruct T as [[cl cr] [E4 T]]. apply okb_ex in T. destruct T as [z [E5 T3]]. cbn [fst] in *.
  exists c, c', x, y, cl, cr, z. split; [apply build_built; exact E|]. tauto.
Qed.

(** the constant curve 1 of degree 2: above 1 at the number 1/5 rounds to, below 1 at 1/30, and 1 at the end *)
Definition u_5 : f64 := fmk 3602879701896397 (-54).
Definition u_30 : f64 := Bdiv mode_NE (fmk 1 0) (fmk 30 0).

Lemma constant_witness : exists (c : Curve F64) x y z,
  built 2 (map q4 [0; 0; 0; 4; 4; 4]%Z) (row [4; 4; 4]%Z) c /\ (u_30 <? u_5)%num = true /\ (u_5 <? q4 4)%num = true /\
  evaluate c u_30 = Val (Ok [x]) /\ evaluate c u_5 = Val (Ok [y]) /\ evaluate c (q4 4) = Val (Ok [z]) /\
  (x <? fmk 1 0)%num = true /\ (fmk 1 0 <? y)%num = true /\ (z ==? fmk 1 0)%num = true.
Proof.
  assert (T : okb (build 2 (map q4 [0; 0; 0; 4; 4; 4]%Z) (row [4; 4; 4]%Z)) (fun c =>
    okb (evaluate c (u_30 : F64)) (fun x => okb (evaluate c (u_5 : F64)) (fun y => okb (evaluate c (q4 4)) (fun z =>
      ((length x =? 1) && (length y =? 1) && (length z =? 1))%nat && (nth 0 x n0 <? fmk 1 0)%num && (fmk 1 0 <? nth 0 y n0)%num &&
      (nth 0 z n0 ==? fmk 1 0)%num)))) = true) by (vm_compute; reflexivity).
  apply okb_ex in T. destruct T as [c [E T]]. apply okb_ex in T. destruct T as [x [E1 T]]. apply okb_ex in T. destruct T as [y [E2 T]]. apply okb_ex in T. destruct T as [z [E3 T]].
  apply andb_true_iff in T. destruct T as [T H4]. apply andb_true_iff in T. destruct T as [T H3]. apply andb_true_iff in T. destruct T as [T H2].
  apply andb_true_iff in T. destruct T as [T H1]. apply andb_true_iff in T. destruct T as [Hx Hy].
  destruct x as [|x [|x2 x3]]; [discriminate Hx| |discriminate Hx]. destruct y as [|y [|y2 y3]]; [discriminate Hy| |discriminate Hy].
  destruct z as [|z [|z2 z3]]; [discriminate H1| |discriminate H1]. cbn [nth] in H2, H3, H4.
  exists c, x, y, z. split; [apply build_built; exact E|]. split; [vm_compute; reflexivity|]. split; [vm_compute; reflexivity|].
  split; [exact E1|]. split; [exact E2|]. split; [exact E3|]. split; [exact H2|]. split; [exact H3|exact H4].
Qed.
