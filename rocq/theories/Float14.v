(** * Generated parameters and knots in binary64: what fails, and the statements for the crate's interface *)

From Coq Require Import ZArith Reals List Bool Arith Lia Lra.
From Flocq Require Import Core.Core IEEE754.BinarySingleNaN.
From Verif Require Import Num Vec MKnots MPoints MCurve RNum F64 Hoare Lists Struct Spec Api ApiF ApiF2 Facts11 Samples Gen1 Float1 Float11 Float12.
Import ListNotations.

(** integers and one tiny number, as points of dimension one *)
Definition col (l : list f64) : Mat F64 := mkMat 1 (map (fun x => [x]) l).
Definition ints (l : list Z) : list f64 := map (fun z => fmk z 0) l.

Definition data_chord : list f64 := ints [51; 39; 20; 2; 0]%Z ++ [fmk 1 (-200)].
Definition data_centripetal : list f64 := ints [66; 46; 28; 13; 0]%Z ++ [fmk 1 (-200)].
Definition data_tiny : list f64 := [fmk 0 0; fmk 1 (-700); fmk 2 (-700)].
Definition data_huge : list f64 := [fmk 0 0; fmk 1 600; fmk 2 600].

(** computable checks *)
Definition distinctb (l : list f64) : bool :=
  forallb (@is_finite 53 1024) l &&
  forallb (fun i => forallb (fun j => (j <=? i)%nat || negb (Beqb (nth i l (@n0 F64)) (nth j l (@n0 F64)))) (seq 0 (length l))) (seq 0 (length l)).

Definition finiteb (l : list f64) : bool := forallb (@is_finite 53 1024) l.

Definition steps_up (l : list f64) : bool :=
  forallb (fun i => Bleb (nth i l (@n0 F64)) (nth (S i) l (@n0 F64))) (seq 0 (length l - 1)).

Lemma finiteb_ok l : finiteb l = true -> forall x, In x l -> finite x.
Proof. intros H. apply forallb_forall. exact H. Qed.

Lemma nth_map_val (l : list f64) i : (i < length l)%nat -> nth i (map val l) 0%R = val (nth i l (@n0 F64)).
Proof.
  intros H. rewrite (nth_indep (map val l) 0%R (val (@n0 F64))) by (rewrite map_length; exact H). apply map_nth.
Qed.

Lemma distinctb_ok l : distinctb l = true -> (forall x, In x l -> finite x) /\ NoDup (map val l).
Proof.
  intros H. apply andb_prop in H. destruct H as [H1 H2]. assert (F := finiteb_ok l H1). split; [exact F|].
  apply (NoDup_nth _ 0%R). rewrite map_length.
  assert (A : forall i j, (i < j)%nat -> (j < length l)%nat -> nth i (map val l) 0%R <> nth j (map val l) 0%R).
  { intros i j Hij Hj E. rewrite !nth_map_val in E by lia.
    rewrite forallb_forall in H2. assert (G := H2 i ltac:(apply in_seq; lia)). cbv beta in G. rewrite forallb_forall in G.
    assert (G' := G j ltac:(apply in_seq; lia)). cbv beta in G'. apply orb_prop in G'.
    destruct G' as [G'|G']; [apply Nat.leb_le in G'; lia|].
    rewrite eqb_val, Req_bool_true in G' by (try exact E; apply F, nth_In; lia). discriminate. }
  intros i j Hi Hj E. destruct (Nat.lt_trichotomy i j) as [L|[L|L]]; [|exact L|].
  - exfalso. exact (A i j L Hj E).
  - exfalso. exact (A j i L Hi (eq_sym E)).
Qed.

Lemma steps_up_sorted l : finiteb l = true -> (steps_up l = true <-> sorted (map val l)).
Proof.
  intros H. assert (F := finiteb_ok l H). unfold steps_up. rewrite forallb_forall. split.
  - intros G. apply sorted_steps. rewrite map_length. intros i Hi. rewrite !nth_map_val by (unfold f64 in *; lia).
    assert (G' := G i ltac:(apply in_seq; unfold f64 in *; lia)). cbv beta in G'. rewrite leb_val in G' by (apply F, nth_In; unfold f64 in *; lia).
    destruct (Rle_bool_spec (val (nth i l (@n0 F64))) (val (nth (S i) l (@n0 F64)))); [assumption|discriminate].
  - intros G i Hi. apply in_seq in Hi. rewrite leb_val by (apply F, nth_In; lia). apply Rle_bool_true.
    rewrite <- !nth_map_val by lia. apply G; [lia|rewrite map_length; change (binary_float 53 1024) with f64; lia].
Qed.

Definition beyond (r : M (Parameters F64)) : bool :=
  valb r (fun q => finiteb (pvector q) && (5 <? length (pvector q))%nat && Bltb (fmk 1 0) (nth 4 (pvector q) (@n0 F64)) &&
    Beqb (nth 5 (pvector q) (@n0 F64)) (fmk 1 0)).

Lemma beyond_ok r : beyond r = true -> exists q, r = Val q /\ (forall x, In x (pvector q) -> finite x) /\
  (1 < val (nth 4 (pvector q) (@n0 F64)))%R /\ val (nth 5 (pvector q) (@n0 F64)) = 1%R.
Proof.
  intros H. destruct (valb_ex _ _ H) as [q [E G]]. exists q. split; [exact E|].
  apply andb_prop in G. destruct G as [G G4]. apply andb_prop in G. destruct G as [G G3]. apply andb_prop in G. destruct G as [G1 G2].
  apply Nat.ltb_lt in G2. assert (F := finiteb_ok _ G1). split; [exact F|].
  assert (O := n1_ok). change (@n1 F64) with (fmk 1 0) in O. destruct O as [O1 O2].
  rewrite ltb_val in G3 by (try exact O1; apply F, nth_In; lia). rewrite eqb_val in G4 by (try exact O1; apply F, nth_In; lia). rewrite O2 in *.
  split.
  - destruct (Rlt_bool_spec 1 (val (nth 4 (pvector q) (@n0 F64)))); [assumption|discriminate].
  - destruct (Req_bool_spec (val (nth 5 (pvector q) (@n0 F64))) 1); [assumption|discriminate].
Qed.

Lemma order_chord : exists l, l = data_chord /\ (forall x, In x l -> finite x) /\ NoDup (map val l) /\
  exists q, @chord_length F64 (col l) = Val q /\ (forall x, In x (pvector q) -> finite x) /\
    (1 < val (nth 4 (pvector q) (@n0 F64)))%R /\ val (nth 5 (pvector q) (@n0 F64)) = 1%R.
Proof.
  exists data_chord. split; [reflexivity|]. destruct (distinctb_ok data_chord) as [A B]; [vm_compute; reflexivity|].
  split; [exact A|]. split; [exact B|]. apply beyond_ok. vm_compute. reflexivity.
Qed.

Lemma order_centripetal : exists l, l = data_centripetal /\ (forall x, In x l -> finite x) /\ NoDup (map val l) /\
  exists q, @centripetal F64 (col l) = Val q /\ (forall x, In x (pvector q) -> finite x) /\
    (1 < val (nth 4 (pvector q) (@n0 F64)))%R /\ val (nth 5 (pvector q) (@n0 F64)) = 1%R.
Proof.
  exists data_centripetal. split; [reflexivity|]. destruct (distinctb_ok data_centripetal) as [A B]; [vm_compute; reflexivity|].
  split; [exact A|]. split; [exact B|]. apply beyond_ok. vm_compute. reflexivity.
Qed.

Definition nanb (r : M (Parameters F64)) : bool := valb r (fun q => is_nan (nth 1 (pvector q) (@n0 F64))).

Lemma nan_data : forall l, l = data_tiny \/ l = data_huge -> (forall x, In x l -> finite x) /\ NoDup (map val l) /\
  (exists q, @chord_length F64 (col l) = Val q /\ is_nan (nth 1 (pvector q) (@n0 F64)) = true) /\
  (exists q, @centripetal F64 (col l) = Val q /\ is_nan (nth 1 (pvector q) (@n0 F64)) = true).
Proof.
  intros l [->| ->].
  - destruct (distinctb_ok data_tiny) as [A B]; [vm_compute; reflexivity|]. split; [exact A|]. split; [exact B|]. split.
    + exact (valb_ex _ _ (eq_refl : nanb (@chord_length F64 (col data_tiny)) = true)).
    + exact (valb_ex _ _ (eq_refl : nanb (@centripetal F64 (col data_tiny)) = true)).
  - destruct (distinctb_ok data_huge) as [A B]; [vm_compute; reflexivity|]. split; [exact A|]. split; [exact B|]. split.
    + exact (valb_ex _ _ (eq_refl : nanb (@chord_length F64 (col data_huge)) = true)).
    + exact (valb_ex _ _ (eq_refl : nanb (@centripetal F64 (col data_huge)) = true)).
Qed.

(** sorted parameters whose de Boor knots are not sorted *)
Definition v_boor : list f64 :=
  let a := fmk 5941996267280789 (-53) in let b := fmk 5941996267280790 (-53) in
  [fmk 0 0; a; a; a; a; a; b; fmk 1 0].

Lemma boor_unsorted : exists v, v = v_boor /\ (forall x, In x v -> finite x) /\ sorted (map val v) /\
  exists kn U, @de_boor F64 3 7 (mkParams v 7) = Val (Ok kn) /\ @vector F64 kn = Val U /\ (forall x, In x U -> finite x) /\ ~ sorted (map val U).
Proof.
  exists v_boor. split; [reflexivity|]. assert (F : finiteb v_boor = true) by (vm_compute; reflexivity).
  split; [apply finiteb_ok; exact F|]. split; [apply (steps_up_sorted _ F); vm_compute; reflexivity|].
  destruct (okb_ex (@de_boor F64 3 7 (mkParams v_boor 7)) (fun kn => valb (@vector F64 kn) (fun U => finiteb U && negb (steps_up U)))) as [kn [E H]]; [vm_compute; reflexivity|].
  destruct (valb_ex _ _ H) as [U [E' H']]. exists kn, U. apply andb_prop in H'. destruct H' as [H1 H2].
  split; [exact E|]. split; [exact E'|]. split; [apply finiteb_ok; exact H1|].
  intros G. apply (steps_up_sorted _ H1) in G. rewrite G in H2. discriminate.
Qed.

(** infinity times the zero basis function of a control point out of reach *)
Lemma local_infinite : exists c x, @built F64 1 (map q4 [0; 0; 2; 4; 4]%Z) (mkMat 1 [[q4 0]; [q4 4]; [B754_infinity false]]) c /\
  @evaluate F64 c (q4 1) = Val (Ok x) /\ is_nan (nth 0 x (@n0 F64)) = true.
Proof.
  destruct (okb_ex (build 1 (map q4 [0; 0; 2; 4; 4]%Z) (mkMat 1 [[q4 0]; [q4 4]; [B754_infinity false]]))
    (fun c => okb (@evaluate F64 c (q4 1)) (fun x => is_nan (nth 0 x (@n0 F64))))) as [c [E H]]; [vm_compute; reflexivity|].
  destruct (okb_ex _ _ H) as [x [E' H']]. exists c, x. split; [apply build_built; exact E|]. split; assumption.
Qed.

Local Open Scope R_scope.

Lemma averaging_close p n (v : list f64) s : (1 <= p <= n)%nat -> (Z.of_nat p <= 2 ^ 24)%Z -> length v = (n + 1)%nat -> unit_list v ->
  exists kn U kn' V, @averaging F64 p n (mkParams v s) = Val (Ok kn) /\ @vector F64 kn = Val U /\
    @averaging RNum p n (mkParams (map val v) s) = Val (Ok kn') /\ @vector RNum kn' = Val V /\
    close_to U V (INR (p + 2) / 2 ^ 53) /\ (sorted (map val v) -> sorted (map val U)).
Proof.
  intros H1 H2 H3 H4. destruct (averaged_F64 p n v s H1 H2 H3 H4) as [U [V [E1 [E2 [E3 E4]]]]].
  exists (knots_of p U), U, (knots_of p V), V. split; [exact E1|]. split; [apply knots_of_vector|].
  split; [exact E2|]. split; [apply knots_of_vector|]. split; assumption.
Qed.

Lemma de_boor_near p n (v : list f64) s : (1 <= p <= n)%nat -> (Z.of_nat n <= 2 ^ 40)%Z -> length v = (n + 1)%nat -> unit_list v ->
  exists kn U kn' V, @de_boor F64 p n (mkParams v s) = Val (Ok kn) /\ @vector F64 kn = Val U /\
    @de_boor RNum p n (mkParams (map val v) s) = Val (Ok kn') /\ @vector RNum kn' = Val V /\
    close_to U V (INR (n + 6) / 2 ^ 52).
Proof.
  intros H1 H2 H3 H4. destruct (de_boor_close p n v s H1 H2 H3 H4) as [U [V [E1 [E2 E3]]]].
  exists (knots_of p U), U, (knots_of p V), V. split; [exact E1|]. split; [apply knots_of_vector|].
  split; [exact E2|]. split; [apply knots_of_vector|]. assumption.
Qed.
