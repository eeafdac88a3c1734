(** * Property C153: from the control points through a run of edits in binary64 *)

From Coq Require Import ZArith Reals List Bool Arith Lra Lia.
From Verif Require Import Num Vec MKnots MPoints MCurve MGenerate RNum F64 Lists Struct Spec Api ApiF ApiF2 ApiF3 ApiC ApiQ Bridge Facts11 Samples Float1 Float8 Float26 Float36 Float37.
Import ListNotations.
Local Open Scope R_scope.

(** ** C153.  Generate a curve from control points, edit it a million times, evaluate: the
    result is the value of the exactly generated curve at the parameter computed backwards
    through the edits, up to the sum of the rounding errors of all steps. *)
Theorem C153_uniform : forall (svd : Mat F64 -> Mat F64 -> Num.M (Mat F64)) (svdR : Mat RNum -> Mat RNum -> Num.M (Mat RNum)) p n dim (P : Mat F64) (P' : Mat RNum) (M : R),
  shape dim (S n) P -> (forall i d, (i <= n)%nat -> (d < dim)%nat -> finite (ent P i d) /\ Rabs (val (ent P i d)) <= M) ->
  same_points n dim P P' -> (1 <= p <= 100)%nat -> (p <= n)%nat -> (Z.of_nat (n - p) < 2 ^ 51)%Z -> / 2 ^ 1000 <= M <= 2 ^ 1018 ->
  exists c cR, generate svd (Manual p (cp_new P) GUniform) = Val (Ok c) /\ generate svdR (Manual p (cp_new P') GUniform) = Val (Ok cR) /\
    forall g es, / 2 ^ 49 <= g -> careful p g c es -> INR (length es) <= 2 ^ 20 ->
    exists c', edited c es = Val c' /\
      forall t, finite t -> 0 <= val t <= 1 -> exists f, returns (evaluate cR (original es (val t))) dim f /\
        returns_within (@evaluate F64 c' t) dim f ((6 * INR p + 4 + 6 * INR p * INR (n - p + 1) + INR (length es) * (12 * INR p + 28 * INR p / g)) * / 2 ^ 53 * M).
Proof. exact uniform_edits. Qed.
Print Assumptions C153_uniform.

(** all nine combinations of a parameter method and a knot method; [h] is the smallest
    distance between neighbouring exact parameters and knots *)
Theorem C153_method : forall (svd : Mat F64 -> Mat F64 -> Num.M (Mat F64)) (svdR : Mat RNum -> Mat RNum -> Num.M (Mat RNum)) pm km p n dim (P : Mat F64) (P' : Mat RNum) (M : R) h w kn U,
  tame n dim P -> same_points n dim P P' -> moving n dim P -> (1 <= p <= 100)%nat -> (p <= n)%nat -> (Z.of_nat n <= 2 ^ 20)%Z -> (Z.of_nat dim <= 2 ^ 20)%Z ->
  (forall i d, (i <= n)%nat -> (d < dim)%nat -> Rabs (val (ent P i d)) <= M) -> / 2 ^ 1000 <= M <= 2 ^ 1018 ->
  @params_generate RNum P' pm = Val (mkParams w n) -> @knots_generate RNum p n (mkParams w n) km = Val (Ok kn) -> @vector RNum kn = Val U ->
  spread h w 0 n -> spread h U p (S n) -> 3 * INR (2 * n + dim + 12) / 2 ^ 52 <= h ->
  exists c cR, generate svd (Manual p (cp_new P) (GMethod pm km)) = Val (Ok c) /\ generate svdR (Manual p (cp_new P') (GMethod pm km)) = Val (Ok cR) /\
    forall g es, / 2 ^ 49 <= g -> careful p g c es -> INR (length es) <= 2 ^ 20 ->
    exists c', edited c es = Val c' /\
      forall t, finite t -> 0 <= val t <= 1 -> exists f, returns (evaluate cR (original es (val t))) dim f /\
        returns_within (@evaluate F64 c' t) dim f ((6 * INR p + 4 + 12 * INR p * INR (2 * n + dim + 12) / h + INR (length es) * (12 * INR p + 28 * INR p / g)) * / 2 ^ 53 * M).
Proof. exact method_edits. Qed.
Print Assumptions C153_method.

(** the quadratic with uniform knots 0 0 0 1/2 1 1 1: insert 1/4, reverse, keep the left half,
    insert 1/4 twice, keep what is right of it.  The other hypotheses are met by the same
    points, see [C109_hypotheses], and for the methods [C99_hypotheses], [C111_hypotheses]. *)
Definition run_u : list (edit F64) := [EInsert (q4 1) 1; EReverse; ELeft (q4 2) (true, true); EInsert (q4 1) 2; ERight (q4 1) (true, true)].

Example C153_hypotheses : exists c, generate zero_svd (Manual 2 (cp_new P_f) GUniform) = Val (Ok c) /\ / 2 ^ 49 <= 1 / 4 /\ careful 2 (1 / 4) c run_u /\ INR (length run_u) <= 2 ^ 20.
Proof.
  destruct (okb_ex (generate zero_svd (Manual 2 (cp_new P_f) GUniform)) (fun c => meets c run_u [[0; 0; 0; 2; 4; 4; 4]; [0; 0; 0; 1; 2; 4; 4; 4]; [0; 0; 0; 2; 3; 4; 4; 4]; [0; 0; 0; 4; 4; 4]; [0; 0; 0; 1; 1; 4; 4; 4]]%Z)) as [c [E H]]; [vm_compute; reflexivity|].
  exists c. split; [exact E|]. clear E. split; [simpl; lra|]. split.
  - apply (meets_careful _ _ _ _ _ H). clear H.
    assert (F1 : finite (q4 1)) by reflexivity. assert (F2 : finite (q4 2)) by reflexivity.
    repeat apply Forall2_cons; [| | | | |apply Forall2_nil]; intros v Ev; cbn [map] in Ev; rewrite ?val_q4_0, ?val_q4_1, ?val_q4_2, ?val_q4_3, ?val_q4_4 in Ev;
      (split; [rewrite Ev; wides|]); (split; [intros x Hx; rewrite Ev; counts|]); try exact I;
      [|split; [reflexivity|]| |split; [reflexivity|]].
    + split; [split; [exact F1|]; rewrite val_q4_1, Ev|rewrite val_q4_1, Ev; counts].
      split; [lra|]. split; [wides|intros x Hx; counts].
    + split; [exact F2|]. rewrite val_q4_2, Ev. split; [lra|]. split; [wides|intros x Hx; counts].
    + split; [split; [exact F1|]; rewrite val_q4_1, Ev|rewrite val_q4_1, Ev; counts].
      split; [lra|]. split; [wides|intros x Hx; counts].
    + split; [exact F1|]. rewrite val_q4_1, Ev. split; [lra|]. split; [wides|intros x Hx; counts].
  - unfold run_u. cbn [length INR]. replace (2 ^ 20) with 1048576 by (cbn [pow]; lra). lra.
Qed.
