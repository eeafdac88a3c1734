(** * Coordinates are computed independently of each other, and mirroring is exact in binary64 *)

From Coq Require Import ZArith Reals List Bool Arith Lia Lra.
From Flocq Require Import Core.Core IEEE754.BinarySingleNaN.
From Verif Require Import Num Vec MKnots MPoints MCurve F64 Lists Api ApiF ApiF2 ApiC Coord Float1.
Import ListNotations.

Section Edits.
  Context {K : Num} (r1 r2 : nat) (V : list K -> list K -> Prop).
  Hypothesis V_l : forall a b, V a b -> length a = r1.
  Hypothesis V_r : forall a b, V a b -> length b = r2.
  Hypothesis V_zero : V (vzeros r1) (vzeros r2).
  Hypothesis V_add : forall a b a' b', V a b -> V a' b' -> rM V (vadd a a') (vadd b b').
  Hypothesis V_sub : forall a b a' b', V a b -> V a' b' -> rM V (vsub a a') (vsub b b').
  Hypothesis V_scale : forall s a b, V a b -> V (vscale s a) (vscale s b).
  Hypothesis V_mul : forall s a b, V a b -> V (vmul_scalar a s) (vmul_scalar b s).
  Notation RC := (rcurve r1 r2 V).

  Lemma redit c d e : RC c d -> rM RC (edit_once c e) (edit_once d e).
  Proof.
    intros H. destruct e as [u x| |u f|u f|k]; simpl.
    - apply (rM_bind (rpair RC)); [apply rinsert_times; assumption|]. intros [a r] [b r'] [Hab E]. exact Hab.
    - apply rcurve_reverse; assumption.
    - apply (rM_bind (rres (rcurves r1 r2 V))); [apply rsplit; assumption|].
      intros [[a b]|e] [[a' b']|e'] Hab; simpl in Hab; try contradiction; [apply Hab|exact H].
    - apply (rM_bind (rres (rcurves r1 r2 V))); [apply rsplit; assumption|].
      intros [[a b]|e] [[a' b']|e'] Hab; simpl in Hab; try contradiction; [apply Hab|exact H].
    - apply rcurve_derivative; assumption.
  Qed.

  Lemma redited es c d : RC c d -> rM RC (edited c es) (edited d es).
  Proof. intros H. apply rM_foldM; [exact H|]. intros s t e Hst. apply redit, Hst. Qed.

  Lemma revaluate_edited es c d u k : RC c d ->
    rM (rres V) (evaluate_edited c es u k) (evaluate_edited d es u k).
  Proof.
    intros H. apply (rM_bind RC); [apply redited, H|]. intros a b Hab.
    apply (rcurve_evaluate r1 r2 V); assumption.
  Qed.

  Lemma rbuilt p U P Q c : rmat r1 r2 V P Q -> built p U P c -> exists d, built p U Q d /\ RC c d.
  Proof.
    intros H [kn [H1 H2]]. assert (G := rcurve_new r1 r2 V V_l V_r V_zero V_sub V_scale kn _ _ (rcp_new r1 r2 V P Q H)).
    rewrite H2 in G. destruct (curve_new kn (cp_new Q)) as [[d|e]| | |] eqn:E; simpl in G; try contradiction.
    exists d. split; [|exact G]. exists kn. auto.
  Qed.
End Edits.

(** ** Choosing coordinates *)
Section Pick.
  Context {K : Num} (dim : nat) (ds : list nat).
  Hypothesis Hds : forall d, In d ds -> d < dim.

  Definition picked (a b : list K) : Prop := length a = dim /\ b = pick ds a.

  Lemma zipM_pick f (a b : list K) : length a = dim -> length b = dim ->
    exists c, zipM f a b = Val c /\ length c = dim /\ zipM f (pick ds a) (pick ds b) = Val (pick ds c).
  Proof.
    intros Ha Hb. destruct (zipM_val f a b) as [c [E [Hc N]]]; [congruence|]. exists c.
    split; [exact E|]. split; [congruence|].
    clear E. unfold pick. revert Hds. induction ds as [|d l IH]; intros Hd; simpl; [reflexivity|].
    rewrite IH by (intros e He; apply Hd; right; exact He). simpl. rewrite N; [reflexivity|].
    rewrite Ha. apply Hd. left. reflexivity.
  Qed.

  Lemma pick_map f (a : list K) : length a = dim -> picked (map f a) (map f (pick ds a)).
  Proof.
    intros Ha. split; [rewrite map_length; exact Ha|]. unfold pick. rewrite map_map. apply map_ext_in.
    intros d Hd. rewrite <- (map_nth f). apply nth_indep. rewrite map_length, Ha. apply Hds, Hd.
  Qed.

  Lemma picked_zip f a b a' b' : picked a b -> picked a' b' -> rM picked (zipM f a a') (zipM f b b').
  Proof.
    intros [Ha ->] [Hb ->]. destruct (zipM_pick f a a' Ha Hb) as [c [E1 [E2 E3]]]. rewrite E1, E3. split; auto.
  Qed.

  Lemma coordinates_fact p (U : list K) P m c : shape dim m P -> built p U P c ->
    exists c1, built p U (pick_points ds P) c1 /\
      forall es u k, evaluate_edited c1 es u k = mapped (pick ds) (evaluate_edited c es u k).
  Proof.
    intros [S1 [S2 S3]] B.
    assert (Hr : rmat dim (length ds) picked P (pick_points ds P)).
    { split; [exact S1|]. split; [reflexivity|]. simpl.
      assert (F : forall v, In v (mcols P) -> length v = dim).
      { intros v Hv. destruct (In_nth _ _ [] Hv) as [i [Hi <-]]. apply S3. lia. }
      clear S2 S3. induction (mcols P) as [|v l IH]; simpl; constructor.
      - split; [apply F; left; reflexivity|reflexivity].
      - apply IH. intros w Hw. apply F. right. exact Hw. }
    assert (Z : picked (vzeros dim) (vzeros (length ds))).
    { split; [apply repeat_length|]. unfold vzeros, pick. clear -Hds. induction ds as [|d l IH]; simpl; [reflexivity|].
      rewrite nth_repeat, <- IH by (intros e He; apply Hds; right; exact He). reflexivity. }
    assert (Sc : forall s a b, picked a b -> picked (vscale s a) (vscale s b)).
    { intros s a b [Ha ->]. apply pick_map, Ha. }
    assert (Mu : forall s a b, picked a b -> picked (vmul_scalar a s) (vmul_scalar b s)).
    { intros s a b [Ha ->]. apply pick_map, Ha. }
    assert (PL : forall a b, picked a b -> length a = dim) by (intros a b [H _]; exact H).
    assert (PR : forall a b, picked a b -> length b = length ds).
    { intros a b [_ ->]. apply map_length. }
    destruct (rbuilt dim (length ds) picked PL PR Z (picked_zip nsub) Sc p U P _ c Hr B) as [c1 [B1 R1]].
    exists c1. split; [exact B1|]. intros es u k.
    assert (G := revaluate_edited dim (length ds) picked PL PR Z (picked_zip nadd) (picked_zip nsub) Sc Mu es c c1 u k R1).
    destruct (evaluate_edited c es u k) as [[v|e]| | |], (evaluate_edited c1 es u k) as [[w|f]| | |];
      simpl in G |- *; try contradiction; try reflexivity.
    - destruct G as [_ ->]. reflexivity.
    - subst. reflexivity.
  Qed.
End Pick.

(** ** What a binary64 number is, the sign of a zero aside *)
Inductive ext : Type := ENaN | EInf (s : bool) | EFin (r : R).

Definition obs (x : f64) : ext :=
  match x with
  | B754_nan => ENaN
  | B754_infinity s => EInf s
  | _ => EFin (B2R x)
  end.

Definition eopp (a : ext) : ext :=
  match a with ENaN => ENaN | EInf s => EInf (negb s) | EFin r => EFin (- r) end.

Definition neg (r : R) : bool := Rlt_bool r 0.

Definition eround (r : R) : ext :=
  if Rlt_bool (Rabs (rnd r)) (bpow radix2 1024) then EFin (rnd r) else EInf (neg r).

Definition eplus (a b : ext) : ext :=
  match a, b with
  | ENaN, _ | _, ENaN => ENaN
  | EInf s, EInf t => if Bool.eqb s t then EInf s else ENaN
  | EInf s, _ => EInf s
  | _, EInf t => EInf t
  | EFin x, EFin y => eround (x + y)
  end.

Definition emult (a b : ext) : ext :=
  match a, b with
  | ENaN, _ | _, ENaN => ENaN
  | EInf s, EInf t => EInf (xorb s t)
  | EInf s, EFin y => if Req_bool y 0 then ENaN else EInf (xorb s (neg y))
  | EFin x, EInf t => if Req_bool x 0 then ENaN else EInf (xorb (neg x) t)
  | EFin x, EFin y => eround (x * y)
  end.

Lemma obs_fin x : fin x = true -> obs x = EFin (val x).
Proof. destruct x; simpl; try discriminate; reflexivity. Qed.

Lemma obs_same x y : same_number x y <-> obs x = obs y.
Proof.
  split.
  - intros [->|[H1 [H2 [H3 H4]]]]; [reflexivity|]. rewrite !obs_fin by assumption. congruence.
  - destruct x as [s|s| |s m e H], y as [t|t| |t m' e' H']; simpl; try discriminate; intros E.
    + right. repeat split; reflexivity.
    + right. repeat split. injection E as E. simpl. symmetry. exact E.
    + injection E as ->. left. reflexivity.
    + left. reflexivity.
    + right. repeat split. injection E as E. simpl. exact E.
    + left. apply B2R_inj; try reflexivity. injection E as E. exact E.
Qed.

Lemma obs_opp x : obs (Bopp x) = eopp (obs x).
Proof.
  destruct x as [s|s| |s m e H]; simpl; try reflexivity.
  - rewrite Ropp_0. reflexivity.
  - f_equal. rewrite <- F2R_Zopp. destruct s; reflexivity.
Qed.

Lemma sign_val (x : f64) : fin x = true -> (if Bsign x then val x <= 0 else 0 <= val x)%R.
Proof.
  destruct x as [s|s| |s m e H]; simpl; try discriminate; intros _; destruct s; try lra;
    [apply F2R_le_0|apply F2R_ge_0]; simpl; lia.
Qed.

Lemma sign_strict s m e H : neg (val (B754_finite s m e H)) = s.
Proof.
  unfold neg. destruct s; [apply Rlt_bool_true|apply Rlt_bool_false]; simpl.
  - apply F2R_lt_0. simpl. lia.
  - apply F2R_ge_0. simpl. lia.
Qed.

Lemma not0_strict s m e H : Req_bool (val (B754_finite s m e H)) 0 = false.
Proof.
  apply Req_bool_false. intros E. assert (G := sign_strict s m e H). unfold neg in G.
  destruct s; simpl in E |- *.
  - assert (F2R (Float radix2 (Zneg m) e) < 0)%R by (apply F2R_lt_0; simpl; lia). simpl in *. lra.
  - assert (0 < F2R (Float radix2 (Zpos m) e))%R by (apply F2R_gt_0; simpl; lia). simpl in *. lra.
Qed.

Lemma obs_overflow (x : f64) s : B2SF x = binary_overflow 53 1024 mode_NE s -> obs x = EInf s.
Proof. destruct x; simpl; intros E; try discriminate. injection E as ->. reflexivity. Qed.

Lemma big_not0 r : Rlt_bool (Rabs (rnd r)) (bpow radix2 1024) = false -> r <> 0%R.
Proof.
  intros H ->. rewrite (round_0 radix2 _ ZnearestE), Rabs_R0, Rlt_bool_true in H; [discriminate|apply bpow_gt_0].
Qed.

Lemma obs_plus x y : obs (Bplus mode_NE x y) = eplus (obs x) (obs y).
Proof.
  assert (F : fin x = true -> fin y = true -> obs (Bplus mode_NE x y) = eround (val x + val y)).
  { intros Hx Hy. assert (G := Bplus_correct 53 1024 prec53 emax1024 mode_NE x y Hx Hy).
    unfold eround. 
    destruct (Rlt_bool (Rabs (rnd (val x + val y))) (bpow radix2 1024)) eqn:B.
    - destruct G as [G1 [G2 _]]. rewrite obs_fin by exact G2. f_equal. exact G1.
    - destruct G as [G1 G2]. rewrite (obs_overflow _ _ G1). f_equal. apply big_not0 in B.
      assert (Sx := sign_val x Hx). assert (Sy := sign_val y Hy). rewrite <- G2 in Sy. unfold neg.
      destruct (Bsign x); symmetry; [apply Rlt_bool_true|apply Rlt_bool_false]; lra. }
  destruct x as [s|s| |s m e H], y as [t|t| |t m' e' H']; try (rewrite F by reflexivity; reflexivity); simpl; try reflexivity.
  destruct (Bool.eqb s t); reflexivity.
Qed.

Lemma Bminus_plus (x y : f64) : Bminus mode_NE x y = Bplus mode_NE x (Bopp y).
Proof. destruct x as [s|s| |s m e H], y as [t|t| |t m' e' H']; reflexivity. Qed.

Lemma obs_mult x y : obs (Bmult mode_NE x y) = emult (obs x) (obs y).
Proof.
  assert (F : fin x = true -> fin y = true -> obs (Bmult mode_NE x y) = eround (val x * val y)).
  { intros Hx Hy. assert (G := Bmult_correct 53 1024 prec53 emax1024 mode_NE x y).
    unfold eround. 
    destruct (Rlt_bool (Rabs (rnd (val x * val y))) (bpow radix2 1024)) eqn:B.
    - destruct G as [G1 [G2 _]]. rewrite Hx, Hy in G2. rewrite obs_fin by exact G2. f_equal. exact G1.
    - rewrite (obs_overflow _ _ G). f_equal. apply big_not0 in B.
      assert (Sx := sign_val x Hx). assert (Sy := sign_val y Hy). unfold neg.
      assert (Nx : val x <> 0%R) by (intros E; apply B; rewrite E; ring).
      assert (Ny : val y <> 0%R) by (intros E; apply B; rewrite E; ring).
      destruct (Bsign x), (Bsign y); simpl; symmetry; [apply Rlt_bool_false|apply Rlt_bool_true|apply Rlt_bool_true|apply Rlt_bool_false]; nra. }
  destruct x as [s|s| |s m e H], y as [t|t| |t m' e' H']; try (rewrite F by reflexivity; reflexivity); try reflexivity.
  - simpl. rewrite Req_bool_true by reflexivity. reflexivity.
  - simpl. rewrite Req_bool_true by reflexivity. reflexivity.
  - assert (G := not0_strict t m' e' H'). assert (G' := sign_strict t m' e' H'). simpl obs. simpl in G, G' |- *.
    rewrite G, G'. reflexivity.
  - assert (G := not0_strict s m e H). assert (G' := sign_strict s m e H). simpl obs. simpl in G, G' |- *.
    rewrite G, G'. reflexivity.
Qed.

Lemma neg_opp r : r <> 0%R -> neg (- r) = negb (neg r).
Proof.
  intros H. unfold neg. destruct (Rlt_or_le r 0).
  - rewrite (Rlt_bool_true r 0) by assumption. apply Rlt_bool_false. lra.
  - rewrite (Rlt_bool_false r 0) by assumption. apply Rlt_bool_true. lra.
Qed.

Lemma eround_opp r : eround (- r) = eopp (eround r).
Proof.
  unfold eround. assert (E : rnd (- r) = (- rnd r)%R) by apply round_NE_opp.
  rewrite E, Rabs_Ropp. destruct (Rlt_bool _ _) eqn:B; simpl; [reflexivity|].
  rewrite neg_opp; [reflexivity|]. apply big_not0, B.
Qed.

Lemma eplus_opp a b : eplus (eopp a) (eopp b) = eopp (eplus a b).
Proof.
  destruct a as [|s|x], b as [|t|y]; simpl; try reflexivity.
  - destruct s, t; reflexivity.
  - rewrite <- eround_opp. f_equal. ring.
Qed.

Lemma emult_opp a b : emult a (eopp b) = eopp (emult a b).
Proof.
  destruct a as [|s|x], b as [|t|y]; simpl; try reflexivity.
  - destruct s, t; reflexivity.
  - destruct (Req_bool y 0) eqn:E.
    + assert (y = 0%R). { destruct (Req_bool_spec y 0); [assumption|discriminate]. }
      rewrite Req_bool_true by lra. reflexivity.
    + assert (y <> 0%R). { destruct (Req_bool_spec y 0); [discriminate|assumption]. }
      rewrite Req_bool_false by lra. simpl. rewrite neg_opp by assumption. destruct s, (neg y); reflexivity.
  - destruct (Req_bool x 0); [reflexivity|]. simpl. destruct t, (neg x); reflexivity.
  - rewrite <- eround_opp. f_equal. ring.
Qed.

Lemma emult_comm a b : emult a b = emult b a.
Proof.
  destruct a as [|s|x], b as [|t|y]; simpl; try reflexivity.
  - rewrite xorb_comm. reflexivity.
  - rewrite xorb_comm. reflexivity.
  - rewrite xorb_comm. reflexivity.
  - f_equal. ring.
Qed.

(** ** Mirroring *)
Section Mirror.
  Variable s : nat -> bool.

  Lemma flip_plus b x x' y y' : same_number (flip b x) y -> same_number (flip b x') y' ->
    same_number (flip b (Bplus mode_NE x x')) (Bplus mode_NE y y').
  Proof.
    rewrite !obs_same, obs_plus. intros <- <-. destruct b; simpl; rewrite ?obs_opp, !obs_plus; [|reflexivity].
    symmetry. apply eplus_opp.
  Qed.

  Lemma flip_opp b x y : same_number (flip b x) y -> same_number (flip b (Bopp x)) (Bopp y).
  Proof. rewrite !obs_same, obs_opp. intros <-. destruct b; simpl; rewrite !obs_opp; reflexivity. Qed.

  Lemma flip_minus b x x' y y' : same_number (flip b x) y -> same_number (flip b x') y' ->
    same_number (flip b (Bminus mode_NE x x')) (Bminus mode_NE y y').
  Proof. intros H1 H2. rewrite !Bminus_plus. apply flip_plus; [exact H1|]. apply flip_opp, H2. Qed.

  Lemma flip_mult b a x y : same_number (flip b x) y -> same_number (flip b (Bmult mode_NE a x)) (Bmult mode_NE a y).
  Proof.
    rewrite !obs_same, obs_mult. intros <-. destruct b; simpl; rewrite ?obs_opp, !obs_mult; [|reflexivity].
    symmetry. apply emult_opp.
  Qed.

  Lemma flip_mult_r b a x y : same_number (flip b x) y -> same_number (flip b (Bmult mode_NE x a)) (Bmult mode_NE y a).
  Proof.
    rewrite !obs_same, obs_mult. intros <-. destruct b; simpl; rewrite ?obs_opp, !obs_mult; [|reflexivity].
    rewrite !(emult_comm _ (obs a)). symmetry. apply emult_opp.
  Qed.

  Definition mir (r : nat) (a b : list f64) : Prop := length a = r /\ mirror s a b.

  Lemma mir_zip f r : (forall b x x' y y', same_number (flip b x) y -> same_number (flip b x') y' ->
      same_number (flip b (f x x')) (f y y')) ->
    forall a b a' b', mir r a b -> mir r a' b' -> rM (mir r) (@zipM F64 f a a') (@zipM F64 f b b').
  Proof.
    intros Hf a b a' b' [L1 [L2 H]] [L1' [L2' H']].
    destruct (@zipM_val F64 f a a') as [c [E [Hc N]]]; [exact (eq_trans L1 (eq_sym L1'))|].
    destruct (@zipM_val F64 f b b') as [d [E' [Hd N']]]; [exact (eq_trans (eq_sym L2) (eq_trans L1 (eq_trans (eq_sym L1') L2')))|].
    rewrite E, E'. split; [exact (eq_trans Hc L1)|]. split; [exact (eq_trans Hc (eq_trans L2 (eq_sym Hd)))|].
    intros e He. change (T F64) with f64 in *. rewrite N by (rewrite Hc in He; exact He). rewrite N' by (rewrite Hc, L2 in He; exact He).
    rewrite Hc in He. apply Hf; [apply H; exact He|apply H'; rewrite L1', <- L1; exact He].
  Qed.

  Lemma mir_map f g r : (forall b x y, same_number (flip b x) y -> same_number (flip b (f x)) (g y)) ->
    forall a b, mir r a b -> mir r (map f a) (map g b).
  Proof.
    intros Hf a b [L1 [L2 H]]. split; [rewrite map_length; exact L1|]. split; [rewrite !map_length; exact L2|].
    intros d Hd. rewrite map_length in Hd.
    rewrite (nth_indep (map f a) _ (f (@n0 F64))) by (rewrite map_length; exact Hd).
    rewrite (nth_indep (map g b) _ (g (@n0 F64))) by (rewrite map_length, <- L2; exact Hd).
    rewrite !map_nth. apply Hf, H, Hd.
  Qed.

  Lemma mirror_fact p U (P Q : Mat F64) dim m c : shape dim m P -> mirrored_points s P Q -> built p U P c ->
    exists c1, built p U Q c1 /\
      forall es u k, mirrored_outcome s (evaluate_edited c es u k) (evaluate_edited c1 es u k).
  Proof.
    intros [S1 [S2 S3]] [Q1 Q2] B.
    assert (Hr : rmat (K := F64) dim dim (mir dim) P Q).
    { split; [exact S1|]. split; [congruence|].
      assert (F : forall v, In v (mcols P) -> length v = dim).
      { intros v Hv. destruct (In_nth _ _ [] Hv) as [i [Hi <-]]. apply S3. lia. }
      clear -Q2 F. induction Q2 as [|v w l l' Hvw H IH]; constructor.
      - split; [apply F; left; reflexivity|exact Hvw].
      - apply IH. intros x Hx. apply F. right. exact Hx. }
    assert (Z : mir dim (@vzeros F64 dim) (@vzeros F64 dim)).
    { split; [apply repeat_length|]. split; [reflexivity|]. intros d Hd. unfold vzeros. rewrite nth_repeat.
      apply obs_same. destruct (s d); simpl; reflexivity || (f_equal; lra). }
    assert (Sc : forall (x : f64) a b, mir dim a b -> mir dim (@vscale F64 x a) (@vscale F64 x b)).
    { intros x a b H. apply (mir_map (Bmult mode_NE x) (Bmult mode_NE x) dim); [|exact H]. intros e y z. apply flip_mult. }
    assert (Mu : forall (x : f64) a b, mir dim a b -> mir dim (@vmul_scalar F64 a x) (@vmul_scalar F64 b x)).
    { intros x a b H. apply (mir_map (fun y => Bmult mode_NE y x) (fun y => Bmult mode_NE y x) dim); [|exact H].
      intros e y z. apply flip_mult_r. }
    assert (PL : forall a b, mir dim a b -> length a = dim) by (intros a b [H _]; exact H).
    assert (PR : forall a b, mir dim a b -> length b = dim) by (intros a b [H [H' _]]; congruence).
    destruct (rbuilt (K := F64) dim dim (mir dim) PL PR Z (mir_zip (Bminus mode_NE) dim flip_minus) Sc p U P Q c Hr B) as [c1 [B1 R1]].
    exists c1. split; [exact B1|]. intros es u k.
    assert (G := revaluate_edited (K := F64) dim dim (mir dim) PL PR Z (mir_zip (Bplus mode_NE) dim flip_plus)
      (mir_zip (Bminus mode_NE) dim flip_minus) Sc Mu es c c1 u k R1).
    destruct (evaluate_edited c es u k) as [[v|e]| | |], (evaluate_edited c1 es u k) as [[w|f]| | |];
      simpl in G |- *; try contradiction; try reflexivity; try exact I; try assumption.
    destruct G as [_ G]. exact G.
  Qed.
End Mirror.
