(** * Properties C97 to C106: generated parameters and knots, local control and single coordinates in binary64 *)

From Coq Require Import ZArith Reals List Bool Arith Lra Lia.
From Flocq Require Import Core.Core IEEE754.BinarySingleNaN.
From Verif Require Import Num Vec MKnots MPoints MCurve RNum F64 Lists Spec Api ApiF ApiF2 ApiC Facts11 Samples Float1 Float8 Float11 Float12 Float13 Float14 Coord2.
Import ListNotations.
Local Open Scope R_scope.

(** ** C97.  Chord-length and centripetal parameters of distinct points are NOT always
    in order: the last but one can exceed one. *)
Theorem C97_chord_order_refuted : exists l, l = map (fun z => fmk z 0) [51; 39; 20; 2; 0]%Z ++ [fmk 1 (-200)] /\
  (forall x, In x l -> finite x) /\ NoDup (map val l) /\
  exists q, @chord_length F64 (mkMat 1 (map (fun x => [x]) l)) = Val q /\ (forall x, In x (pvector q) -> finite x) /\
    1 < val (nth 4 (pvector q) (@n0 F64)) /\ val (nth 5 (pvector q) (@n0 F64)) = 1.
Proof. exact order_chord. Qed.
Print Assumptions C97_chord_order_refuted.

Theorem C97_centripetal_order_refuted : exists l, l = map (fun z => fmk z 0) [66; 46; 28; 13; 0]%Z ++ [fmk 1 (-200)] /\
  (forall x, In x l -> finite x) /\ NoDup (map val l) /\
  exists q, @centripetal F64 (mkMat 1 (map (fun x => [x]) l)) = Val q /\ (forall x, In x (pvector q) -> finite x) /\
    1 < val (nth 4 (pvector q) (@n0 F64)) /\ val (nth 5 (pvector q) (@n0 F64)) = 1.
Proof. exact order_centripetal. Qed.
Print Assumptions C97_centripetal_order_refuted.

(** ** C98.  Parameters of distinct finite points CAN be NaN, when the points are very
    close together or very far apart. *)
Theorem C98_parameters_finite_refuted : forall l,
  l = [fmk 0 0; fmk 1 (-700); fmk 2 (-700)] \/ l = [fmk 0 0; fmk 1 600; fmk 2 600] ->
  (forall x, In x l -> finite x) /\ NoDup (map val l) /\
  (exists q, @chord_length F64 (mkMat 1 (map (fun x => [x]) l)) = Val q /\ is_nan (nth 1 (pvector q) (@n0 F64)) = true) /\
  (exists q, @centripetal F64 (mkMat 1 (map (fun x => [x]) l)) = Val q /\ is_nan (nth 1 (pvector q) (@n0 F64)) = true).
Proof. exact nan_data. Qed.
Print Assumptions C98_parameters_finite_refuted.

(** ** C99.  Otherwise the parameters are finite, run from 0 to 1, are in order except
    perhaps for the last one, and are within [(m + dim + 6) 2^-52] of the exact ones. *)
Theorem C99_chord_length : forall m dim P P', tame m dim P -> same_points m dim P P' -> moving m dim P ->
  (1 <= m)%nat -> (Z.of_nat m <= 2 ^ 20)%Z -> (Z.of_nat dim <= 2 ^ 20)%Z ->
  exists v w, @chord_length F64 P = Val (mkParams v m) /\ @chord_length RNum P' = Val (mkParams w m) /\
    float_params m v /\ close_to v w (INR (m + dim + 6) / 2 ^ 52).
Proof. exact chord_length_F64. Qed.
Print Assumptions C99_chord_length.

Theorem C99_centripetal : forall m dim P P', tame m dim P -> same_points m dim P P' -> moving m dim P ->
  (1 <= m)%nat -> (Z.of_nat m <= 2 ^ 20)%Z -> (Z.of_nat dim <= 2 ^ 20)%Z ->
  exists v w, @centripetal F64 P = Val (mkParams v m) /\ @centripetal RNum P' = Val (mkParams w m) /\
    float_params m v /\ close_to v w (INR (m + dim + 6) / 2 ^ 52).
Proof. exact centripetal_F64. Qed.
Print Assumptions C99_centripetal.

(** the points 0, 1, -3/2, 3/4 *)
Example C99_hypotheses : tame 3 1 P_f /\ same_points 3 1 P_f PR_f /\ moving 3 1 P_f /\ (1 <= 3)%nat /\ (Z.of_nat 3 <= 2 ^ 20)%Z /\ (Z.of_nat 1 <= 2 ^ 20)%Z.
Proof.
  assert (B : 1 <= 2 ^ 500) by (apply pow_R1_Rle; lra).
  assert (B' : 4 <= 2 ^ 500) by (change 500%nat with (2 + 498)%nat; rewrite pow_add; assert (1 <= 2 ^ 498) by (apply pow_R1_Rle; lra); lra).
  assert (I : / 2 ^ 500 <= 1 / 4) by (apply Rle_trans with (/ 4); [apply Rinv_le_contravar; lra|lra]).
  assert (Sh : shape 1 4 P_f) by (split; [reflexivity|split; [reflexivity|intros i Hi; cases i]]).
  split; [|split; [exact same_f|split; [|lia]]].
  - split; [exact Sh|]. split.
    + intros i d Hi Hd. destruct (P_f_pts i d Hi Hd) as [A C]. split; [exact A|]. lra.
    + intros i d Hi Hd. right. destruct d; [|lia]. apply Rle_trans with (1 := I).
      destruct i as [|[|[|i]]]; [| | |lia].
      * change (1 / 4 <= Rabs (val (q4 4) - val (q4 0))). rewrite val_q4_0, val_q4_4, Rabs_pos_eq; lra.
      * change (1 / 4 <= Rabs (val (q4 (-6)) - val (q4 4))). rewrite val_q4_m6, val_q4_4, <- Rabs_Ropp, Rabs_pos_eq; lra.
      * change (1 / 4 <= Rabs (val (q4 3) - val (q4 (-6)))). rewrite val_q4_m6, val_q4_3, Rabs_pos_eq; lra.
  - exists 0%nat, 0%nat. split; [lia|]. split; [lia|]. change (val (q4 4) <> val (q4 0)). rewrite val_q4_0, val_q4_4. lra.
Qed.

(** ** C100.  Averaged knots in binary64: within [(p + 2) 2^-53] of the exact ones, and
    sorted whenever the parameters are. *)
Theorem C100_averaging : forall p n (v : list f64) s, (1 <= p <= n)%nat -> (Z.of_nat p <= 2 ^ 24)%Z -> length v = (n + 1)%nat -> unit_list v ->
  exists kn U kn' V, @averaging F64 p n (mkParams v s) = Val (Ok kn) /\ @vector F64 kn = Val U /\
    @averaging RNum p n (mkParams (map val v) s) = Val (Ok kn') /\ @vector RNum kn' = Val V /\
    close_to U V (INR (p + 2) / 2 ^ 53) /\ (sorted (map val v) -> sorted (map val U)).
Proof. exact averaging_close. Qed.
Print Assumptions C100_averaging.

(** ** C101.  De Boor knots in binary64: within [(n + 6) 2^-52] of the exact ones. *)
Theorem C101_de_boor : forall p n (v : list f64) s, (1 <= p <= n)%nat -> (Z.of_nat n <= 2 ^ 40)%Z -> length v = (n + 1)%nat -> unit_list v ->
  exists kn U kn' V, @de_boor F64 p n (mkParams v s) = Val (Ok kn) /\ @vector F64 kn = Val U /\
    @de_boor RNum p n (mkParams (map val v) s) = Val (Ok kn') /\ @vector RNum kn' = Val V /\
    close_to U V (INR (n + 6) / 2 ^ 52).
Proof. exact de_boor_near. Qed.
Print Assumptions C101_de_boor.

Example C100_C101_hypotheses : (1 <= 2 <= 4)%nat /\ (Z.of_nat 2 <= 2 ^ 24)%Z /\ (Z.of_nat 4 <= 2 ^ 40)%Z /\
  length (map q4 [0; 1; 1; 3; 4]%Z) = (4 + 1)%nat /\ unit_list (map q4 [0; 1; 1; 3; 4]%Z) /\ sorted (map val (map q4 [0; 1; 1; 3; 4]%Z)).
Proof.
  split; [lia|]. split; [lia|]. split; [lia|]. split; [reflexivity|]. split.
  - intros x Hx. cbn [map In] in Hx. repeat destruct Hx as [<-|Hx]; try contradiction; (split; [reflexivity|]);
      rewrite ?val_q4_0, ?val_q4_1, ?val_q4_3, ?val_q4_4; lra.
  - cbn [map]. rewrite val_q4_0, val_q4_1, val_q4_3, val_q4_4. apply sorted_steps. intros i Hi. simpl in Hi. cases i.
Qed.

(** ** C102.  De Boor knots of sorted parameters are NOT always sorted in binary64. *)
Theorem C102_de_boor_sorted_refuted : exists v,
  v = (let a := fmk 5941996267280789 (-53) in let b := fmk 5941996267280790 (-53) in [fmk 0 0; a; a; a; a; a; b; fmk 1 0]) /\
  (forall x, In x v -> finite x) /\ sorted (map val v) /\
  exists kn U, @de_boor F64 3 7 (mkParams v 7) = Val (Ok kn) /\ @vector F64 kn = Val U /\ (forall x, In x U -> finite x) /\ ~ sorted (map val U).
Proof. exact boor_unsorted. Qed.
Print Assumptions C102_de_boor_sorted_refuted.

(** ** C103.  Local control in binary64: between the knots [j] and [j + 1] the computed
    point does not change when control points outside [j - p .. j] are moved, as long as
    they stay finite. *)
Theorem C103_local : forall p n dim (U : list f64) P P' c c' (u : f64) j, float_knots p n U -> shape dim (S n) P -> shape dim (S n) P' ->
  @built F64 p U P c -> @built F64 p U P' c' -> (p <= 100)%nat -> finite u -> (p <= j <= n)%nat ->
  nth j (map val U) 0 <= val u < nth (S j) (map val U) 0 ->
  (forall i d, (j - p <= i <= j)%nat -> (d < dim)%nat -> ent P i d = ent P' i d) ->
  (forall i d, (i < j - p \/ j < i)%nat -> (i <= n)%nat -> (d < dim)%nat -> finite (ent P i d) /\ finite (ent P' i d)) ->
  exists v v', @evaluate F64 c u = Val (Ok v) /\ @evaluate F64 c' u = Val (Ok v') /\ length v = dim /\ length v' = dim /\
    forall d, (d < dim)%nat -> same_number (nth d v (@n0 F64)) (nth d v' (@n0 F64)).
Proof. exact local_F64. Qed.
Print Assumptions C103_local.

(** degree 2, knots 0 0 0 1/4 1 1 1, at u = 0, the last point moved *)
Example C103_hypotheses : exists c c', float_knots 2 3 U_f /\ shape 1 4 P_f /\ shape 1 4 (row [0; 4; -6; 400]%Z) /\
  @built F64 2 U_f P_f c /\ @built F64 2 U_f (row [0; 4; -6; 400]%Z) c' /\ (2 <= 100)%nat /\ finite (q4 0) /\ (2 <= 2 <= 3)%nat /\
  nth 2 (map val U_f) 0 <= val (q4 0) < nth 3 (map val U_f) 0 /\
  (forall i d, (2 - 2 <= i <= 2)%nat -> (d < 1)%nat -> ent P_f i d = ent (row [0; 4; -6; 400]%Z) i d) /\
  (forall i d, (i < 2 - 2 \/ 2 < i)%nat -> (i <= 3)%nat -> (d < 1)%nat -> finite (ent P_f i d) /\ finite (ent (row [0; 4; -6; 400]%Z) i d)).
Proof.
  destruct (okb_ex (build 2 U_f P_f) (fun _ => true)) as [c [E _]]; [vm_compute; reflexivity|].
  destruct (okb_ex (build 2 U_f (row [0; 4; -6; 400]%Z)) (fun _ => true)) as [c' [E' _]]; [vm_compute; reflexivity|].
  apply build_built in E, E'. exists c, c'. split; [exact U_f_float|].
  split. { split; [reflexivity|split; [reflexivity|intros i Hi; cases i]]. }
  split. { split; [reflexivity|split; [reflexivity|intros i Hi; cases i]]. }
  split; [exact E|]. split; [exact E'|]. split; [lia|]. split; [reflexivity|]. split; [lia|].
  rewrite val_U_f, val_q4_0. split; [simpl; lra|]. split.
  - intros i d Hi Hd. destruct d; [|lia]. destruct i as [|[|[|i]]]; [reflexivity|reflexivity|reflexivity|lia].
  - intros i d [Hi|Hi] Hi' Hd; [lia|]. replace i with 3%nat by lia. destruct d; [|lia]. split; reflexivity.
Qed.

(** ** C104.  With an infinite control point local control fails: degree 1, knots
    0 0 1/2 1 1, points 0, 1, infinity, at u = 1/4 the result is NaN. *)
Theorem C104_local_infinite_refuted : exists c x,
  @built F64 1 (map q4 [0; 0; 2; 4; 4]%Z) (mkMat 1 [[q4 0]; [q4 4]; [B754_infinity false]]) c /\
  @evaluate F64 c (q4 1) = Val (Ok x) /\ is_nan (nth 0 x (@n0 F64)) = true.
Proof. exact local_infinite. Qed.
Print Assumptions C104_local_infinite_refuted.

(** ** C105.  Coordinates do not influence each other, in any number system: after any
    edits the curve through the chosen coordinates of the points gives the chosen
    coordinates of the result, and fails exactly when the full curve fails. *)
Theorem C105_coordinates : forall (K : Num) dim ds, (forall d, In d ds -> (d < dim)%nat) ->
  forall p (U : list K) P m c, shape dim m P -> built p U P c ->
  exists c1, built p U (pick_points ds P) c1 /\
    forall es u k, evaluate_edited c1 es u k = mapped (pick ds) (evaluate_edited c es u k).
Proof. exact @coordinates_fact. Qed.
Print Assumptions C105_coordinates.

(** both coordinates of a plane curve, swapped *)
Example C105_hypotheses : exists (c : Curve RNum), (forall d, In d [1; 0]%nat -> (d < 2)%nat) /\ shape 2 4 P_a /\ built 2 U_a P_a c.
Proof.
  destruct curve_a as [c H]. exists c. split; [intros d [<-|[<-|[]]]; lia|]. split; [apply H|apply H].
Qed.

(** ** C106.  Mirroring is exact in binary64: flipping the signs of some coordinates of all
    control points flips the signs of those coordinates of every result, bit for bit
    except for the signs of zeros, also for infinities and NaN and after any edits. *)
Theorem C106_mirror : forall s p U (P Q : Mat F64) dim m c, shape dim m P -> mirrored_points s P Q -> built p U P c ->
  exists c1, built p U Q c1 /\ forall es u k, mirrored_outcome s (evaluate_edited c es u k) (evaluate_edited c1 es u k).
Proof. exact mirror_fact. Qed.
Print Assumptions C106_mirror.

(** the one coordinate of a curve, flipped *)
Example C106_hypotheses : exists c, shape 1 4 P_f /\ mirrored_points (fun d => Nat.eqb d 0) P_f (row [0; -4; 6; -3]%Z) /\ @built F64 2 U_f P_f c.
Proof.
  destruct (okb_ex (build 2 U_f P_f) (fun _ => true)) as [c [E _]]; [vm_compute; reflexivity|]. apply build_built in E. exists c.
  split. { split; [reflexivity|split; [reflexivity|intros i Hi; cases i]]. }
  split; [|exact E]. split; [reflexivity|].
  assert (G : forall x y : f64, B2SF (Bopp x) = B2SF y -> mirror (fun d => Nat.eqb d 0) [x] [y]).
  { intros x y H. split; [reflexivity|]. intros d Hd. destruct d; [|simpl in Hd; lia]. left. simpl. apply B2SF_inj. exact H. }
  assert (Z : mirror (fun d => Nat.eqb d 0) [q4 0] [q4 0]).
  { split; [reflexivity|]. intros d Hd. destruct d; [|simpl in Hd; lia]. right. cbn [Nat.eqb nth flip]. rewrite is_finite_Bopp, B2R_Bopp, val_q4_0.
    split; [reflexivity|]. split; [reflexivity|]. split; [ring|reflexivity]. }
  unfold P_f, row. simpl mcols.
  apply Forall2_cons; [exact Z|]. do 3 (apply Forall2_cons; [apply G; vm_compute; reflexivity|]). apply Forall2_nil.
Qed.
