(** * Generation from control points: similar and reversed polygons *)

From Coq Require Import ZArith Reals List Bool Arith Lia Lra.
From Verif Require Import Num Vec MKnots MPoints MCurve MGenerate RNum Lists Struct Spec Api BMath BMath3 Bridge Facts1 Facts3 Facts9 Gen1 Gen2 Gen3 Gen4 Samples Coord3 Rev2.
Import ListNotations.
Local Open Scope R_scope.

Lemma proportional_unique v v' m w w' s : proportional v m w -> proportional v' m w' -> 0 < s -> (forall g, (g < m)%nat -> 0 < w g /\ w' g = s * w g) -> v = v'.
Proof.
  intros [L [A [_ H]]] [L' [A' [_ H']]] Hs W. apply (nth_ext _ _ 0 0); [congruence|]. intros i Hi. rewrite L in Hi.
  assert (ES : rsum w' m = s * rsum w m) by (rewrite <- rsum_scal; apply rsum_ext; intros g Hg; apply W, Hg).
  induction i as [|i IH]; [congruence|]. assert (Hm : (i < m)%nat) by lia.
  assert (Pm : 0 < rsum w m) by (apply rsum_pos_one with i; [exact Hm|intros j Hj; left; apply W, Hj|apply W, Hm]).
  assert (X := H i Hm). assert (Y := H' i Hm). rewrite ES, (proj2 (W i Hm)) in Y. specialize (IH ltac:(lia)).
  apply (Rmult_eq_reg_r (rsum w m)); [|lra]. apply (Rmult_eq_reg_l s); [|lra]. rewrite <- IH in Y. nra.
Qed.

Definition apart (P : Mat RNum) (dim n : nat) : Prop := forall g, (g < n)%nat -> exists d, (d < dim)%nat /\ ent P g d <> ent P (S g) d.

Lemma apart_distance P dim n g : apart P dim n -> (g < n)%nat -> 0 < distance P dim (S g) g.
Proof. intros D Hg. apply distance_pos. destruct (D g Hg) as [d [H1 H2]]. exists d. split; [exact H1|]. intros C. apply H2. symmetry. exact C. Qed.

Lemma distance_apart P dim n : (forall g, (g < n)%nat -> 0 < distance P dim (S g) g) -> apart P dim n.
Proof.
  intros H g Hg. specialize (H g Hg). unfold distance in H.
  assert (F : forall k, 0 < rsum (fun d => (ent P (S g) d - ent P g d) * (ent P (S g) d - ent P g d)) k -> exists d, (d < k)%nat /\ ent P g d <> ent P (S g) d).
  { induction k as [|k IH]; simpl; intros Hk; [lra|]. destruct (Req_dec (ent P g k) (ent P (S g) k)) as [E|N]; [|exists k; split; [lia|exact N]].
    destruct IH as [d [A B]]; [rewrite E in Hk; lra|]. exists d. split; [lia|exact B]. }
  apply F. apply Rnot_le_lt. intros C. rewrite sqrt_neg_0 in H by exact C. lra.
Qed.

Lemma params_of (P : Mat RNum) dim n pm : shape dim (S n) P -> (1 <= n)%nat -> apart P dim n ->
  exists v, params_generate P pm = Val (mkParams v n) /\ length v = (n + 1)%nat /\
    proportional v n (fun g => match pm with EquallySpaced => 1 | Centripetal => sqrt (distance P dim (S g) g) | ChordLength => distance P dim (S g) g end).
Proof.
  intros SP Hn D. assert (S' : shape dim (n + 1) P) by (replace (n + 1)%nat with (S n) by lia; exact SP).
  assert (EX : n = 1%nat \/ exists g, (g < n)%nat /\ exists d, (d < dim)%nat /\ ent P g d <> ent P (S g) d).
  { right. exists 0%nat. split; [lia|]. apply D. lia. }
  destruct pm; cbn [params_generate].
  - destruct (equally_spaced_R n Hn) as [v [E [L H]]]. exists v. unfold dp_segments. assert (EN : ncols P = S n) by apply SP. rewrite EN.
    rewrite usub_ok by lia. cbn [bind]. replace (S n - 1)%nat with n by lia. split; [exact E|]. split; [exact L|].
    assert (T : 0 < INR n) by (apply lt_0_INR; lia).
    assert (RS : forall k, rsum (fun _ => 1) k = INR k) by (intros k; induction k as [|k IH]; [reflexivity|]; cbn [rsum]; rewrite IH, S_INR; reflexivity).
    split; [exact L|]. split; [rewrite H by lia; simpl; unfold Rdiv; ring|]. split; [rewrite H by lia; field; lra|].
    intros g Hg. rewrite !H by lia. rewrite RS, S_INR. field. lra.
  - destruct (centripetal_R P dim n S' Hn EX) as [v [E H]]. exists v. split; [exact E|]. split; [apply H|exact H].
  - destruct (chord_length_R P dim n S' Hn EX) as [v [E H]]. exists v. split; [exact E|]. split; [apply H|exact H].
Qed.

(** the parameters depend only on the ratios of the distances of neighbours *)
Lemma params_similar (P P' : Mat RNum) dim dim' n pm s : shape dim (S n) P -> shape dim' (S n) P' -> (1 <= n)%nat -> 0 < s -> apart P dim n ->
  (forall g, (g < n)%nat -> distance P' dim' (S g) g = s * distance P dim (S g) g) -> params_generate P' pm = params_generate P pm.
Proof.
  intros SP SP' Hn Hs D HD. assert (DP := fun g => apart_distance P dim n g D).
  assert (D' : apart P' dim' n).
  { apply distance_apart. intros g Hg. rewrite HD by exact Hg. apply Rmult_lt_0_compat; [exact Hs|apply DP, Hg]. }
  destruct (params_of P dim n pm SP Hn D) as [v [E [L H]]]. destruct (params_of P' dim' n pm SP' Hn D') as [v' [E' [L' H']]].
  rewrite E, E'. do 2 f_equal. symmetry. destruct pm.
  - apply (proportional_unique v v' n _ _ 1 H H'); [lra|]. intros g Hg. split; lra.
  - apply (proportional_unique v v' n _ _ (sqrt s) H H'); [apply sqrt_lt_R0, Hs|]. intros g Hg. split; [apply sqrt_lt_R0, DP, Hg|].
    cbv beta. rewrite HD by exact Hg. apply sqrt_mult; [lra|]. apply Rlt_le, DP, Hg.
  - apply (proportional_unique v v' n _ _ s H H' Hs). intros g Hg. split; [apply DP, Hg|apply HD, Hg].
Qed.

Lemma manual_similar svd p n dim dim' (P P' : Mat RNum) pm km s : shape dim (S n) P -> shape dim' (S n) P' -> (1 <= p <= n)%nat -> 0 < s ->
  (forall g, (g < n)%nat -> exists d, (d < dim)%nat /\ ent P g d <> ent P (S g) d) ->
  (forall g, (g < n)%nat -> distance P' dim' (S g) g = s * distance P dim (S g) g) ->
  exists U c c', generate svd (Manual p (cp_new P) (GMethod pm km)) = Val (Ok c) /\ clamped_curve p n dim U P c /\
    generate svd (Manual p (cp_new P') (GMethod pm km)) = Val (Ok c') /\ clamped_curve p n dim' U P' c'.
Proof.
  intros SP SP' Hp Hs D HD. assert (E := params_similar P P' dim dim' n pm s SP SP' ltac:(lia) Hs D HD).
  destruct (manual_method svd p n dim P pm km SP Hp D) as [params [kn [U [c [E1 [E2 [E3 [E4 H]]]]]]]].
  assert (D' : apart P' dim' n).
  { apply distance_apart. intros g Hg. rewrite HD by exact Hg. apply Rmult_lt_0_compat; [exact Hs|apply (apart_distance P dim n g D Hg)]. }
  destruct (manual_method svd p n dim' P' pm km SP' Hp D') as [params' [kn' [U' [c' [E1' [E2' [E3' [E4' H']]]]]]]].
  rewrite E, E1 in E1'. injection E1' as <-. rewrite E2 in E2'. injection E2' as <-. rewrite E3 in E3'. injection E3' as <-.
  exists U, c, c'. auto.
Qed.

(** equidistant points: the three methods agree *)
Lemma manual_equidistant svd p n dim (P : Mat RNum) pm km s : shape dim (S n) P -> (1 <= p <= n)%nat -> 0 < s ->
  (forall g, (g < n)%nat -> distance P dim (S g) g = s) ->
  exists c, generate svd (Manual p (cp_new P) (GMethod pm km)) = Val (Ok c) /\ generate svd (Manual p (cp_new P) (GMethod EquallySpaced km)) = Val (Ok c).
Proof.
  intros SP Hp Hs HD. assert (D : apart P dim n) by (apply distance_apart; intros g Hg; rewrite HD by exact Hg; exact Hs).
  destruct (params_of P dim n pm SP ltac:(lia) D) as [v [E [L H]]]. destruct (params_of P dim n EquallySpaced SP ltac:(lia) D) as [v' [E' [L' H']]].
  assert (EV : v' = v).
  { destruct pm.
    - apply (proportional_unique v' v n _ _ 1 H' H); [lra|]. intros g Hg. split; lra.
    - apply (proportional_unique v' v n _ _ (sqrt s) H' H); [apply sqrt_lt_R0, Hs|]. intros g Hg. cbv beta. rewrite HD by exact Hg. split; lra.
    - apply (proportional_unique v' v n _ _ s H' H Hs). intros g Hg. cbv beta. rewrite HD by exact Hg. split; lra. }
  destruct (manual_method svd p n dim P pm km SP Hp D) as [params [kn [U [c [E1 [E2 [E3 [E4 _]]]]]]]]. exists c. split; [exact E4|].
  rewrite <- E4. rewrite !(manual_step svd dim n p P _ SP) by lia. rewrite E, E', EV. reflexivity.
Qed.

(** ** Points in reverse order *)
Lemma mrev_ent dim n (P : Mat RNum) i d : shape dim (S n) P -> (i <= n)%nat -> ent (mrev P) i d = ent P (n - i) d.
Proof. intros SP Hi. rewrite (ent_mrev dim (S n)) by (try exact SP; lia). f_equal. lia. Qed.

Lemma distance_sym P dim i j : distance P dim i j = distance P dim j i.
Proof. unfold distance. f_equal. apply rsum_ext. intros d _. ring. Qed.

Lemma mrev_distance dim n P g : shape dim (S n) P -> (g < n)%nat -> distance (mrev P) dim (S g) g = distance P dim (S (n - 1 - g)) (n - 1 - g).
Proof.
  intros SP Hg. unfold distance. f_equal. apply rsum_ext. intros d _.
  rewrite !(mrev_ent dim n P _ d SP) by lia. replace (n - S g)%nat with (n - 1 - g)%nat by lia. replace (n - g)%nat with (S (n - 1 - g)) by lia. ring.
Qed.

Lemma mrev_apart dim n P : shape dim (S n) P -> apart P dim n -> apart (mrev P) dim n.
Proof. intros SP D. apply distance_apart. intros g Hg. rewrite (mrev_distance dim n P g SP Hg). apply (apart_distance P dim n _ D). lia. Qed.

Lemma rsum_rev f n : rsum (fun i => f (n - 1 - i)%nat) n = rsum f n.
Proof.
  induction n as [|n IH]; [reflexivity|]. rewrite rsum_first. cbn [rsum]. rewrite <- IH, Rplus_comm. f_equal; [|f_equal; lia].
  apply rsum_ext. intros i Hi. f_equal. lia.
Qed.

Lemma proportional_rev v v' m w : proportional v m w -> proportional v' m (fun g => w (m - 1 - g)%nat) -> (forall g, (g < m)%nat -> 0 < w g) ->
  forall i, (i <= m)%nat -> nth i v' 0 = 1 - nth (m - i) v 0.
Proof.
  intros [L [A [B H]]] [L' [A' [B' H']]] W. induction i as [|i IH]; intros Hi; [rewrite A', Nat.sub_0_r, B; ring|].
  specialize (IH ltac:(lia)). assert (X := H' i ltac:(lia)). assert (Y := H (m - 1 - i)%nat ltac:(lia)). rewrite rsum_rev in X. cbv beta in X.
  assert (Pm : 0 < rsum w m) by (apply rsum_pos_one with i; [lia|intros j Hj; left; apply W, Hj|apply W; lia]).
  replace (S (m - 1 - i)) with (m - i)%nat in Y by lia. replace (m - S i)%nat with (m - 1 - i)%nat by lia.
  rewrite IH in X. apply (Rmult_eq_reg_r (rsum w m)); [|lra]. nra.
Qed.

Lemma params_backwards (P : Mat RNum) dim n pm : shape dim (S n) P -> (1 <= n)%nat -> apart P dim n ->
  exists v v', params_generate P pm = Val (mkParams v n) /\ params_generate (mrev P) pm = Val (mkParams v' n) /\
    length v = (n + 1)%nat /\ length v' = (n + 1)%nat /\ forall i, (i <= n)%nat -> nth i v' 0 = 1 - nth (n - i) v 0.
Proof.
  intros SP Hn D. destruct (params_of P dim n pm SP Hn D) as [v [E [L H]]].
  destruct (params_of (mrev P) dim n pm (mrev_shape _ _ _ SP) Hn (mrev_apart _ _ _ SP D)) as [v' [E' [L' H']]].
  exists v, v'. do 4 (split; [assumption|]). eapply proportional_rev; [exact H| |].
  - destruct H' as [A [B [C F]]]. split; [exact A|]. split; [exact B|]. split; [exact C|]. intros g Hg. specialize (F g Hg).
    assert (R : rsum (fun g => match pm with EquallySpaced => 1 | Centripetal => sqrt (distance P dim (S (n - 1 - g)) (n - 1 - g)) | ChordLength => distance P dim (S (n - 1 - g)) (n - 1 - g) end) n =
                rsum (fun g => match pm with EquallySpaced => 1 | Centripetal => sqrt (distance (mrev P) dim (S g) g) | ChordLength => distance (mrev P) dim (S g) g end) n).
    { apply rsum_ext. intros i Hi. rewrite (mrev_distance dim n P i SP Hi). reflexivity. }
    rewrite R, F. rewrite (mrev_distance dim n P g SP Hg). reflexivity.
  - intros g Hg. cbv beta. assert (T := apart_distance P dim n g D Hg). destruct pm; [lra|apply sqrt_lt_R0, T|exact T].
Qed.

Lemma fill_mirror p n (f f' : nat -> R) : (1 <= p <= n)%nat -> (forall j, (1 <= j <= n - p)%nat -> f' j = 1 - f (n - p + 1 - j)%nat) ->
  (@fill_knots RNum p n f' : list R) = map (fun x => 1 - x) (rev (@fill_knots RNum p n f : list R)).
Proof.
  intros Hp H. apply (nth_ext _ _ 0 0); [rewrite map_length, rev_length, !fill_length_R; reflexivity|].
  intros i Hi. rewrite fill_length_R in Hi.
  rewrite (nth_indep (map (fun x => 1 - x) (rev (@fill_knots RNum p n f : list R))) 0 (1 - 0)) by (rewrite map_length, rev_length, fill_length_R; exact Hi).
  rewrite (map_nth (fun x => 1 - x)). rewrite rev_nth by (rewrite fill_length_R; exact Hi). rewrite fill_length_R.
  rewrite !nth_fill_R by lia.
  destruct (Nat.leb_spec i p).
  - replace (n + p + 2 - S i <=? p)%nat with false by (symmetry; apply Nat.leb_gt; lia). replace (n + p + 2 - S i <=? n)%nat with false by (symmetry; apply Nat.leb_gt; lia). ring.
  - destruct (Nat.leb_spec i n).
    + replace (n + p + 2 - S i <=? p)%nat with false by (symmetry; apply Nat.leb_gt; lia). replace (n + p + 2 - S i <=? n)%nat with true by (symmetry; apply Nat.leb_le; lia).
      rewrite H by lia. do 2 f_equal. lia.
    + replace (n + p + 2 - S i <=? p)%nat with true by (symmetry; apply Nat.leb_le; lia). ring.
Qed.

Lemma knots_generate_vector p n v s km : (1 <= p <= n)%nat -> length v = (n + 1)%nat ->
  @knots_generate RNum p n (mkParams v s) km = Val (Ok (knots_of p (@fill_knots RNum p n (match km with KUniform => fun i => INR i / INR (n - p + 1) | KDeBoor => dbk p n v | KAveraging => avg p v end)))).
Proof. intros H L. destruct km; cbn [knots_generate]; [apply uniform_R, H|apply de_boor_R; assumption|apply averaging_R; assumption]. Qed.

(** both knot vectors of the two generations *)
Lemma manual_backwards_knots svd p n dim (P : Mat RNum) pm km : shape dim (S n) P -> (1 <= p <= n)%nat -> apart P dim n ->
  exists (v v' : list R) c c', params_generate P pm = Val (mkParams v n) /\ length v = (n + 1)%nat /\ length v' = (n + 1)%nat /\ (forall i, (i <= n)%nat -> nth i v' 0 = 1 - nth (n - i) v 0) /\
    let f := fun w => match km with KUniform => fun i => INR i / INR (n - p + 1) | KDeBoor => dbk p n w | KAveraging => avg p w end in
    generate svd (Manual p (cp_new P) (GMethod pm km)) = Val (Ok c) /\ clamped_curve p n dim (@fill_knots RNum p n (f v)) P c /\
    generate svd (Manual p (cp_new (mrev P)) (GMethod pm km)) = Val (Ok c') /\ clamped_curve p n dim (@fill_knots RNum p n (f v')) (mrev P) c'.
Proof.
  intros SP Hp D. destruct (params_backwards P dim n pm SP ltac:(lia) D) as [v [v' [E [E' [L [L' H]]]]]].
  destruct (manual_method svd p n dim P pm km SP Hp D) as [params [kn [U [c [E1 [E2 [E3 [E4 HC]]]]]]]].
  destruct (manual_method svd p n dim (mrev P) pm km (mrev_shape _ _ _ SP) Hp (mrev_apart _ _ _ SP D)) as [params' [kn' [U' [c' [E1' [E2' [E3' [E4' HC']]]]]]]].
  rewrite E in E1. injection E1 as <-. rewrite E' in E1'. injection E1' as <-.
  rewrite knots_generate_vector in E2 by assumption. injection E2 as <-. rewrite (@knots_of_vector RNum) in E3. injection E3 as <-.
  rewrite knots_generate_vector in E2' by assumption. injection E2' as <-. rewrite (@knots_of_vector RNum) in E3'. injection E3' as <-.
  exists v, v', c, c'. split; [exact E|]. split; [exact L|]. split; [exact L'|]. split; [exact H|]. cbv zeta. auto.
Qed.

Lemma avg_mirror p n v v' j : (1 <= p <= n)%nat -> (forall i, (i <= n)%nat -> nth i v' 0 = 1 - nth (n - i) v 0) -> (1 <= j <= n - p)%nat ->
  avg p v' j = 1 - avg p v (n - p + 1 - j).
Proof.
  intros Hp H Hj. unfold avg. assert (T := INR_pos p ltac:(lia)).
  assert (E : rsum (fun k => nth (j + k) v' 0) p = INR p - rsum (fun k => nth (n - p + 1 - j + k) v 0) p).
  { rewrite <- (rsum_rev (fun k => nth (n - p + 1 - j + k) v 0) p).
    assert (G : forall f g k, (forall i, (i < k)%nat -> f i = 1 - g i) -> rsum f k = INR k - rsum g k).
    { intros f g k. induction k as [|k IH]; intros F; [simpl; ring|]. cbn [rsum]. rewrite IH by (intros; apply F; lia). rewrite F by lia. rewrite S_INR. ring. }
    apply G. intros i Hi. rewrite H by lia. do 2 f_equal. lia. }
  rewrite E. field. lra.
Qed.

Lemma manual_reversed svd p n dim (P : Mat RNum) pm km : shape dim (S n) P -> (1 <= p <= n)%nat -> km <> KDeBoor ->
  (forall g, (g < n)%nat -> exists d, (d < dim)%nat /\ ent P g d <> ent P (S g) d) ->
  exists c c', generate svd (Manual p (cp_new P) (GMethod pm km)) = Val (Ok c) /\
    generate svd (Manual p (cp_new (mkMat (nrows P) (rev (mcols P)))) (GMethod pm km)) = Val (Ok c') /\ reverse c = Val c'.
Proof.
  intros SP Hp Hk D. destruct (manual_backwards_knots svd p n dim P pm km SP Hp D) as [v [v' [c [c' [E [L [L' [H [E1 [H1 [E2 H2]]]]]]]]]]].
  exists c, c'. split; [exact E1|]. split; [exact E2|].
  destruct (reverse_fact _ _ _ _ _ _ H1) as [r [ER [HR _]]]. rewrite ER. f_equal.
  rewrite <- (fill_mirror p n _ (match km with KUniform => fun i => INR i / INR (n - p + 1) | KDeBoor => dbk p n v' | KAveraging => avg p v' end)) in HR; [|exact Hp|].
  - eapply built_fun; [exact (proj2 (proj2 HR))|exact (proj2 (proj2 H2))].
  - intros j Hj. destruct km; [|congruence|apply (avg_mirror p n v v' j Hp H Hj)].
    assert (T := INR_pos (n - p + 1) ltac:(lia)). rewrite minus_INR by lia. field. lra.
Qed.

(** ** de Boor's knots are not symmetric *)
Lemma dbk_even p n v j : (1 <= p <= n)%nat -> (1 <= j <= n - p)%nat -> (forall i, (i <= n)%nat -> nth i v 0 = INR i / INR n) ->
  dbk p n v j = (INR j * (INR (n + 1) / INR (n - p + 1)) - 1) / INR n.
Proof.
  intros Hp Hj H. destruct (db_facts p n j Hp Hj) as [[A B] _]. unfold dbk. rewrite !H by lia.
  unfold dba. rewrite minus_INR by lia. assert (T := INR_pos n ltac:(lia)). simpl (INR 1). field. split; [|lra].
  assert (T' := INR_pos (n - p + 1) ltac:(lia)). lra.
Qed.

Lemma manual_reversed_de_boor svd p n dim (P : Mat RNum) : shape dim (S n) P -> (1 <= p < n)%nat ->
  (forall g, (g < n)%nat -> exists d, (d < dim)%nat /\ ent P g d <> ent P (S g) d) ->
  exists c c' r (U U' : list R), generate svd (Manual p (cp_new P) (GMethod EquallySpaced KDeBoor)) = Val (Ok c) /\
    generate svd (Manual p (cp_new (mkMat (nrows P) (rev (mcols P)))) (GMethod EquallySpaced KDeBoor)) = Val (Ok c') /\
    reverse c = Val r /\ vector (cknots r) = Val U /\ vector (cknots c') = Val U' /\ length U = length U' /\
    forall i, (p < i <= n)%nat -> nth i U 0 - nth i U' 0 = 1 / INR n.
Proof.
  intros SP Hp D. destruct (manual_backwards_knots svd p n dim P EquallySpaced KDeBoor SP ltac:(lia) D) as [v [v' [c [c' [E [L [L' [H [E1 [H1 [E2 H2]]]]]]]]]]].
  destruct (reverse_fact _ _ _ _ _ _ H1) as [r [ER [HR _]]].
  set (U := map (fun x => 1 - x) (rev (@fill_knots RNum p n (dbk p n v) : list R))) in *.
  exists c, c', r, U, (@fill_knots RNum p n (dbk p n v')). split; [exact E1|]. split; [exact E2|]. split; [exact ER|].
  assert (VK : forall V Q x, clamped_curve p n dim V Q x -> vector (cknots x) = Val V).
  { intros V Q x HV. rewrite (@wf_knots RNum _ _ _ _ _ _ (proj1 (cc_wf _ _ _ _ _ _ HV))). apply (@knots_of_vector RNum). }
  split; [exact (VK _ _ _ HR)|]. split; [exact (VK _ _ _ H2)|].
  split; [unfold U; rewrite map_length, rev_length, !fill_length_R; reflexivity|].
  destruct (equally_spaced_R n ltac:(lia)) as [w [EW [LW HW]]]. cbn [params_generate] in E. unfold dp_segments in E.
  assert (EN : ncols P = S n) by apply SP. rewrite EN in E. rewrite usub_ok in E by lia. cbn [bind] in E. replace (S n - 1)%nat with n in E by lia.
  rewrite EW in E. injection E as ->.
  assert (T := INR_pos n ltac:(lia)). assert (T' := INR_pos (n - p + 1) ltac:(lia)).
  assert (HW' : forall i, (i <= n)%nat -> nth i v' 0 = INR i / INR n) by (intros i Hi; rewrite H, HW by lia; rewrite minus_INR by lia; field; lra).
  intros i Hi. unfold U.
  rewrite (nth_indep (map (fun x => 1 - x) (rev (@fill_knots RNum p n (dbk p n v) : list R))) 0 (1 - 0)) by (rewrite map_length, rev_length, fill_length_R; lia).
  rewrite (map_nth (fun x => 1 - x)). rewrite rev_nth by (rewrite fill_length_R; lia). rewrite fill_length_R.
  rewrite !nth_fill_R by lia.
  replace (n + p + 2 - S i <=? p)%nat with false by (symmetry; apply Nat.leb_gt; lia). replace (n + p + 2 - S i <=? n)%nat with true by (symmetry; apply Nat.leb_le; lia).
  replace (i <=? p)%nat with false by (symmetry; apply Nat.leb_gt; lia). replace (i <=? n)%nat with true by (symmetry; apply Nat.leb_le; lia).
  rewrite !dbk_even by (try lia; assumption).
  replace (n + p + 2 - S i - p)%nat with (n - p + 1 - (i - p))%nat by lia. rewrite (minus_INR (n - p + 1) (i - p)) by lia.
  set (M := INR (n - p + 1)) in *. rewrite (plus_INR n 1). simpl (INR 1). field. split; lra.
Qed.

(** a similarity carries the generated curve along *)
Lemma manual_similarity svd p n dim dim' (P P' : Mat RNum) pm km s (A : nat -> nat -> R) (b : nat -> R) : shape dim (S n) P -> shape dim' (S n) P' -> (1 <= p <= n)%nat -> 0 < s ->
  (forall g, (g < n)%nat -> exists d, (d < dim)%nat /\ ent P g d <> ent P (S g) d) ->
  (forall g, (g < n)%nat -> distance P' dim' (S g) g = s * distance P dim (S g) g) ->
  (forall i d', (i <= n)%nat -> (d' < dim')%nat -> ent P' i d' = rsum (fun d => A d' d * ent P i d) dim + b d') ->
  exists c c', generate svd (Manual p (cp_new P) (GMethod pm km)) = Val (Ok c) /\ generate svd (Manual p (cp_new P') (GMethod pm km)) = Val (Ok c') /\
    forall u, 0 <= u <= 1 -> exists v, evaluate c u = Val (Ok v) /\ length v = dim /\
      returns (evaluate c' u) dim' (fun d' => rsum (fun d => A d' d * nth d v 0) dim + b d').
Proof.
  intros SP SP' Hp Hs D HD HA. destruct (manual_similar svd p n dim dim' P P' pm km s SP SP' Hp Hs D HD) as [U [c [c' [E [H [E' H']]]]]].
  exists c, c'. split; [exact E|]. split; [exact E'|]. intros u Hu. exact (affine_fact p n dim dim' U P P' c c' A b u H H' HA Hu).
Qed.
