(** * Normalising clamped knots; manual generation *)

From Coq Require Import ZArith Reals List Bool Arith Lia Lra.
From Verif Require Import Num Vec MKnots MPoints MCurve MFit MGenerate RNum QNum F64 Hoare Lists Struct Spec BMath Api Bridge Facts1 Facts7 Facts9 Facts11 Gen1 Gen2 Gen3 Samples.
Import ListNotations.
Local Open Scope R_scope.

Lemma nth_kderiv_R k (U : list R) i : (i < length U - 2 * k)%nat -> nth i (kderiv k U) 0 = nth (k + i) U 0.
Proof. apply nth_kderiv. Qed.

Lemma normalize_clamped p n (U : list R) kn a b : length U = (n + p + 2)%nat -> (p <= n)%nat -> sorted U -> a < b ->
  (forall i, (i <= p)%nat -> nth i U 0 = a) -> (forall i, (n < i < n + p + 2)%nat -> nth i U 0 = b) -> @knots_new RNum p U = Val kn ->
  knots_normalize kn = knots_new p (map (fun x => (x - a) / (b - a)) U).
Proof.
  intros L Hpn S Hab HA HB E. destruct (knots_new_inv p U kn E) as [-> L2]. rn.
  rewrite (@knots_new_val RNum p (map _ U)) by (rn; rewrite map_length; exact L2).
  unfold knots_normalize, knots_of. cbn [Uk kp kk_max].
  rewrite (mapM_all _ (map (fun x => (x - a) / (b - a)))).
  - cbn [bind]. do 2 f_equal. rewrite map_map. apply map_ext. intros k. symmetry. apply kderiv_map.
  - intros v Hv. apply in_map_iff in Hv. destruct Hv as [k [<- Hk]]. apply in_seq in Hk.
    assert (LK := kderiv_length k U). rn.
    assert (SK : sorted (kderiv k U)).
    { intros i j Hij Hj. rn. rewrite !nth_kderiv_R by lia. apply S; lia. }
    assert (EA : @vmin RNum (kderiv k U) = a). { rewrite sorted_min by (try exact SK; lia). rewrite nth_kderiv_R by lia. apply HA. lia. }
    assert (EB : @vmax RNum (kderiv k U) = b). { rewrite sorted_max by (try exact SK; lia). rewrite nth_kderiv_R by lia. apply HB. lia. }
    rn. rewrite vec_normalize_R; rewrite EA, EB; [reflexivity|lra].
Qed.

(** ** manual generation *)
Section Manual.
  Context {K : Num} (svd : Mat K -> Mat K -> M (Mat K)).

  Lemma manual_short dim n degree P knots : shape dim (S n) P -> (n < degree)%nat ->
    generate svd (Manual degree (cp_new P) knots) = Val (Err (DegreeAndSegmentsMismatch degree n)).
  Proof.
    intros S H. cbn [generate]. unfold cp_new. rewrite (cp_segments_val P [] 0 dim n S). cbn [bind].
    replace (n <? degree)%nat with true by (symmetry; apply Nat.ltb_lt; exact H). reflexivity.
  Qed.

  Lemma manual_step dim n degree P knots : shape dim (S n) P -> (degree <= n)%nat ->
    generate svd (Manual degree (cp_new P) knots) =
    (k <- (match knots with
           | GUniform => uniform degree n
           | GManual kn => Val (Ok kn)
           | GMethod pm km => params <- params_generate P pm;; knots_generate degree n params km
           end);;
     match k with Err e => Val (Err e) | Ok kn => curve_new kn (cp_new P) end).
  Proof.
    intros S H. cbn [generate]. unfold cp_new. rewrite (cp_segments_val P [] 0 dim n S). cbn [bind].
    replace (n <? degree)%nat with false by (symmetry; apply Nat.ltb_ge; exact H). reflexivity.
  Qed.

  Lemma manual_uniform_zero dim n P : shape dim (S n) P -> generate svd (Manual 0 (cp_new P) GUniform) = Val (Err (DegreeTooLow 0 0)).
  Proof. intros S. rewrite (manual_step dim n 0 P _ S) by lia. reflexivity. Qed.

  Lemma manual_method_zero dim n P pm km params : shape dim (S n) P -> params_generate P pm = Val params ->
    generate svd (Manual 0 (cp_new P) (GMethod pm km)) = Val (Err (DegreeTooLow 0 0)).
  Proof. intros S E. rewrite (manual_step dim n 0 P _ S) by lia. rewrite E. cbn [bind]. rewrite generate_bad. reflexivity. Qed.

  Lemma manual_given dim n degree P kn : shape dim (S n) P -> (degree <= n)%nat ->
    generate svd (Manual degree (cp_new P) (GManual kn)) = curve_new kn (cp_new P).
  Proof. intros S H. rewrite (manual_step dim n degree P _ S H). reflexivity. Qed.
End Manual.

Lemma params_increasing (P : Mat RNum) dim n pm : shape dim (S n) P -> (1 <= n)%nat ->
  (forall g, (g < n)%nat -> exists d, (d < dim)%nat /\ ent P g d <> ent P (S g) d) ->
  exists v, params_generate P pm = Val (mkParams v n) /\ length v = (n + 1)%nat /\ increasing v /\ nth 0 v 0 = 0 /\ nth n v 0 = 1.
Proof.
  intros S Hn D. assert (S' : shape dim (n + 1) P) by (replace (n + 1)%nat with (Datatypes.S n) by lia; exact S).
  assert (EX : n = 1%nat \/ exists g, (g < n)%nat /\ exists d, (d < dim)%nat /\ ent P g d <> ent P (Datatypes.S g) d).
  { right. exists 0%nat. split; [lia|]. apply D. lia. }
  assert (DP : forall g, (g < n)%nat -> 0 < distance P dim (Datatypes.S g) g).
  { intros g Hg. apply distance_pos. destruct (D g Hg) as [d [H1 H2]]. exists d. split; [exact H1|]. intros C. apply H2. symmetry. exact C. }
  destruct pm; cbn [params_generate].
  - destruct (equally_spaced_R n Hn) as [v [E [L H]]]. exists v. unfold dp_segments. assert (EN : ncols P = Datatypes.S n) by apply S. rewrite EN.
    rewrite usub_ok by lia. cbn [bind]. replace (Datatypes.S n - 1)%nat with n by lia. split; [exact E|]. split; [exact L|].
    split; [intros i j Hij Hj; rn; rewrite L in Hj; rewrite (H i), (H j) by lia; apply frac_lt; lia|]. split; [rewrite H by lia; rn; unfold Rdiv; change (INR 0) with 0; ring|].
    rewrite H by lia. assert (T := INR_pos n Hn). apply (Rinv_r (INR n)). lra.
  - destruct (centripetal_R P dim n S' Hn EX) as [v [E H]]. exists v. split; [exact E|]. split; [apply H|].
    split; [|split; apply H]. apply (proportional_increasing _ _ _ H). intros g Hg. apply sqrt_lt_R0. apply DP. exact Hg.
  - destruct (chord_length_R P dim n S' Hn EX) as [v [E H]]. exists v. split; [exact E|]. split; [apply H|].
    split; [|split; apply H]. apply (proportional_increasing _ _ _ H). exact DP.
Qed.

Lemma knots_generated p n v s km : (1 <= p <= n)%nat -> length v = (n + 1)%nat -> increasing v -> nth 0 v 0 = 0 -> nth n v 0 = 1 ->
  exists kn (U : list R), @knots_generate RNum p n (mkParams v s) km = Val (Ok kn) /\ knots_new p U = Val kn /\ clamped p n U.
Proof.
  intros H L S E0 E1. destruct km; cbn [knots_generate].
  - destruct (uniform_fact p n H) as [kn [U [A [B [_ [C _]]]]]]. exists kn, U. auto.
  - destruct (de_boor_fact p n v s H L S E0 E1) as [kn [U [A [B [_ [C _]]]]]]. exists kn, U. auto.
  - destruct (averaging_fact p n v s H L) as [kn [U [A [B [_ [_ [_ [_ [_ [_ C]]]]]]]]]]. exists kn, U. split; [exact A|]. split; [exact B|]. apply C; assumption.
Qed.

Lemma curve_new_clamped p n dim (U : list R) (P : Mat RNum) kn : clamped p n U -> shape dim (S n) P -> @knots_new RNum p U = Val kn ->
  exists c, curve_new kn (cp_new P) = Val (Ok c) /\ clamped_curve p n dim U P c.
Proof.
  intros C S E. destruct (clamped_curve_ex p n dim U P C S) as [c [_ [_ [kn' [E' H]]]]]. rewrite E in E'. injection E' as <-.
  exists c. split; [exact H|]. split; [exact C|]. split; [exact S|]. exists kn. split; assumption.
Qed.

Lemma manual_uniform svd p n dim (P : Mat RNum) : shape dim (S n) P -> (1 <= p <= n)%nat ->
  exists kn U c, uniform p n = Val (Ok kn) /\ vector kn = Val U /\
    generate svd (Manual p (cp_new P) GUniform) = Val (Ok c) /\ clamped_curve p n dim U P c.
Proof.
  intros S H. destruct (uniform_fact p n H) as [kn [U [A [B [V [C _]]]]]].
  destruct (curve_new_clamped p n dim U P kn C S B) as [c [E HC]]. exists kn, U, c.
  split; [exact A|]. split; [exact V|]. rewrite (manual_step svd dim n p P _ S) by lia. rewrite A. cbn [bind]. split; [exact E|exact HC].
Qed.

Lemma manual_method svd p n dim (P : Mat RNum) pm km : shape dim (S n) P -> (1 <= p <= n)%nat ->
  (forall g, (g < n)%nat -> exists d, (d < dim)%nat /\ ent P g d <> ent P (S g) d) ->
  exists params kn U c, params_generate P pm = Val params /\ knots_generate p n params km = Val (Ok kn) /\ vector kn = Val U /\
    generate svd (Manual p (cp_new P) (GMethod pm km)) = Val (Ok c) /\ clamped_curve p n dim U P c.
Proof.
  intros S H D. destruct (params_increasing P dim n pm S ltac:(lia) D) as [v [EP [L [I [E0 E1]]]]].
  destruct (knots_generated p n v n km H L I E0 E1) as [kn [U [A [B C]]]].
  destruct (curve_new_clamped p n dim U P kn C S B) as [c [E HC]]. exists (mkParams v n), kn, U, c.
  split; [exact EP|]. split; [exact A|]. destruct (knots_new_inv p U kn B) as [-> _]. split; [apply (@knots_of_vector RNum)|].
  rewrite (manual_step svd dim n p P _ S) by lia. rewrite EP. cbn [bind]. rewrite A. cbn [bind]. split; [exact E|exact HC].
Qed.

(** degree 3 requested, degree 1 delivered *)
Lemma manual_degree_ignored (svd : Mat F64 -> Mat F64 -> M (Mat F64)) : exists kn c,
  knots_new 1 (map q4 [0; 0; 1; 2; 4; 4]%Z) = Val kn /\
  generate svd (Manual 3 (cp_new (row [0; 4; 1; 4]%Z)) (GManual kn)) = Val (Ok c) /\ degree c = 1%nat.
Proof.
  assert (S : shape 1 4 (row [0; 4; 1; 4]%Z)) by (split; [reflexivity|]; split; [reflexivity|]; intros i Hi; do 4 (destruct i as [|i]; [reflexivity|]); lia).
  destruct (curve_new_cases F64 ltac:(intros x y z _; eexists; reflexivity) 1 3 1 (map q4 [0; 0; 1; 2; 4; 4]%Z) _ S) as [_ H].
  destruct (H ltac:(cbn; lia)) as [kn [E [_ H2]]]. destruct (H2 ltac:(lia) eq_refl) as [c [EC [D _]]].
  exists kn, c. split; [exact E|]. split; [|exact D]. rewrite (manual_given svd 1 3 3 _ kn S) by lia. exact EC.
Qed.

(** normalising unclamped knots *)
Lemma normalize_incoherent : exists kn kn' U' kn'', @knots_new RNum 1 [0; 1; 2; 3] = Val kn /\ knots_normalize kn = Val kn' /\
  vector kn' = Val U' /\ knots_new 1 U' = Val kn'' /\ vector_derivative kn' 1 = Val [0; 1] /\ vector_derivative kn'' 1 = Val [1/3; 2/3].
Proof.
  assert (V : forall x y : R, x < y -> @vmin RNum [x; y] = x /\ @vmax RNum [x; y] = y).
  { intros x y H. split.
    - rewrite sorted_min; [reflexivity| |cbn; lia]. apply sorted_steps. intros i Hi. cbn [length] in Hi. replace i with 0%nat by lia. cbn. lra.
    - rewrite sorted_max; [reflexivity| |cbn; lia]. apply sorted_steps. intros i Hi. cbn [length] in Hi. replace i with 0%nat by lia. cbn. lra. }
  assert (S4 : sorted [0; 1; 2; 3]). { apply sorted_steps. intros i Hi. cbn [length] in Hi. cases i. }
  assert (M4 : @vmin RNum [0; 1; 2; 3] = 0) by (rewrite sorted_min by (try exact S4; cbn; lia); reflexivity).
  assert (X4 : @vmax RNum [0; 1; 2; 3] = 3) by (rewrite sorted_max by (try exact S4; cbn; lia); reflexivity).
  destruct (V 1 2 ltac:(lra)) as [M2 X2].
  exists (knots_of 1 [0; 1; 2; 3]), (mkKnots [[0; 1/3; 2/3; 1]; [0; 1]] 1 1), [0; 1/3; 2/3; 1], (knots_of 1 [0; 1/3; 2/3; 1]).
  split; [reflexivity|]. split; [|repeat split].
  unfold knots_normalize, knots_of. cbn [Uk kp kk_max]. cbn [seq map mapM]. change (@kderiv RNum 0 [0; 1; 2; 3]) with [0; 1; 2; 3]. change (@kderiv RNum 1 [0; 1; 2; 3]) with [1; 2].
  rewrite vec_normalize_R by (rewrite M4, X4; lra). cbn [bind]. rewrite vec_normalize_R by (rewrite M2, X2; lra). cbn [bind].
  rewrite M4, X4, M2, X2. cbn [map].
  replace ((0 - 0) / (3 - 0)) with 0 by lra. replace ((1 - 0) / (3 - 0)) with (1/3) by lra. replace ((2 - 0) / (3 - 0)) with (2/3) by lra. replace ((3 - 0) / (3 - 0)) with 1 by lra.
  replace ((1 - 1) / (2 - 1)) with 0 by lra. replace ((2 - 1) / (2 - 1)) with 1 by lra. reflexivity.
Qed.
