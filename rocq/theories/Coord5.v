(** * Programs follow choices of coordinates, linear maps and mirroring *)

From Coq Require Import ZArith Reals List Bool Arith Lia Lra ClassicalEpsilon.
From Flocq Require Import Core.Core IEEE754.BinarySingleNaN.
From Verif Require Import Num Vec MKnots MPoints MCurve MFit MGenerate MMerge RNum F64 Lists Spec Api ApiF ApiF2 ApiC ApiL ApiP BMath Bridge Fit1 Merge3 Coord Coord2 Coord3 Coord4 Float1.
Import ListNotations.

(** ** Maps of points *)
Section Map.
  Context {K : Num} (r1 r2 : nat) (g : list K -> list K).
  Hypothesis g_len : forall v, length (g v) = r2.
  Definition img (a b : list K) : Prop := length a = r1 /\ b = g a.
  Definition gmap (P : Mat K) : Mat K := mkMat r2 (map g (mcols P)).

  Lemma gmap_rel (P : Mat K) m : shape r1 m P -> rmat r1 r2 img P (gmap P).
  Proof.
    intros [S1 [S2 S3]]. split; [exact S1|]. split; [reflexivity|]. cbn [gmap mcols].
    assert (F : forall v, In v (mcols P) -> length v = r1).
    { intros v Hv. destruct (In_nth _ _ [] Hv) as [i [Hi <-]]. apply S3. lia. }
    clear S2 S3. induction (mcols P) as [|v l IH]; simpl; constructor.
    - split; [apply F; left; reflexivity|reflexivity].
    - apply IH. intros w Hw. apply F. right. exact Hw.
  Qed.

  Lemma img_map l l' : Forall2 img l l' -> l' = map g l /\ forall v, In v l -> length v = r1.
  Proof.
    induction 1 as [|a b l l' [Ha Hb] H [IH1 IH2]]; [split; [reflexivity|intros v []]|].
    split; [simpl; congruence|]. intros v [<-|Hv]; auto.
  Qed.

  Lemma rel_gmap (C C' : Mat K) : rmat r1 r2 img C C' -> C' = gmap C /\ shape r1 (length (mcols C)) C.
  Proof.
    intros [H1 [H2 H3]]. destruct (img_map _ _ H3) as [H4 H5]. split.
    - destruct C' as [r l]. cbn [nrows mcols] in *. subst. reflexivity.
    - split; [exact H1|]. split; [reflexivity|]. intros i Hi. apply H5, nth_In, Hi.
  Qed.

  Lemma follows_rsolver svd : follows r1 gmap svd -> rsolver r1 r2 img svd.
  Proof.
    intros F N C C' H. destruct (rel_gmap _ _ H) as [-> Sh]. specialize (F N C _ Sh).
    destruct (svd N (mtranspose C)) as [X| | |], (svd N (mtranspose (gmap C))) as [Y| | |]; cbn [bind rM]; try contradiction; try exact I.
    destruct F as [F1 F2]. rewrite F2. apply (gmap_rel _ (nrows X)). split; [exact F1|].
    split; [unfold mtranspose; cbn [mcols]; rewrite map_length, seq_length; reflexivity|].
    intros i Hi. unfold mtranspose. cbn [mcols]. rewrite (nth_map_seq (fun r => map (fun c => nth r c n0) (mcols X))) by exact Hi.
    rewrite map_length. exact F1.
  Qed.

  Lemma mapped_outcome {E} (x y : M (result (list K) E)) : rM (rres img) x y -> y = mapped g x.
  Proof.
    destruct x as [[v|e]| | |], y as [[w|f]| | |]; simpl; try contradiction; try reflexivity.
    - intros [_ ->]. reflexivity.
    - intros ->. reflexivity.
  Qed.
End Map.

Section Pick.
  Context {K : Num} (dim : nat) (ds : list nat) (svd : Mat K -> Mat K -> M (Mat K)).
  Hypothesis Hds : forall d, In d ds -> d < dim.
  Hypothesis Svd : follows dim (pick_points ds) svd.

  Notation PK := (@picked K dim ds).

  Lemma pick_program_fact D m pr u k : (forall i, shape dim (m i) (D i)) ->
    run_evaluate svd (fun i => pick_points ds (D i)) pr u k = mapped (pick ds) (run_evaluate svd D pr u k).
  Proof.
    intros Sh. apply (mapped_outcome dim (pick ds)). change (img dim (pick ds)) with PK.
    assert (Z : PK (vzeros dim) (vzeros (length ds))).
    { split; [apply repeat_length|]. unfold vzeros, pick. clear -Hds. induction ds as [|d l IH]; simpl; [reflexivity|].
      rewrite nth_repeat, <- IH by (intros e He; apply Hds; right; exact He). reflexivity. }
    assert (Sc : forall s (a b : list K), PK a b -> PK (vscale s a) (vscale s b)).
    { intros s a b [Ha ->]. apply pick_map; assumption. }
    assert (Mu : forall s (a b : list K), PK a b -> PK (vmul_scalar a s) (vmul_scalar b s)).
    { intros s a b [Ha ->]. apply pick_map; assumption. }
    assert (PL : forall a b : list K, PK a b -> length a = dim) by (intros a b [H _]; exact H).
    assert (PR : forall a b : list K, PK a b -> length b = length ds).
    { intros a b [_ ->]. apply map_length. }
    apply (rrun_evaluate dim (length ds) PK PL PR Z (picked_zip dim ds Hds nadd) (picked_zip dim ds Hds nsub) Sc Mu svd).
    - apply (follows_rsolver dim (length ds) (pick ds)); exact Svd.
    - intros i. apply (gmap_rel dim (length ds) (pick ds) (D i) (m i)), Sh.
  Qed.
End Pick.

Section Mirror.
  Context (dim : nat) (s : nat -> bool) (svd : Mat F64 -> Mat F64 -> M (Mat F64)).
  Hypothesis Svd : mirrors dim s svd.

  Lemma mirror_rel (P Q : Mat F64) m : shape dim m P -> mirrored_points s P Q -> rmat (K := F64) dim dim (mir s dim) P Q.
  Proof.
    intros [S1 [S2 S3]] [Q1 Q2]. split; [exact S1|]. split; [congruence|].
    assert (F : forall v, In v (mcols P) -> length v = dim).
    { intros v Hv. destruct (In_nth _ _ [] Hv) as [i [Hi <-]]. apply S3. lia. }
    clear -Q2 F. induction Q2 as [|v w l l' Hvw H IH]; constructor.
    - split; [apply F; left; reflexivity|exact Hvw].
    - apply IH. intros x Hx. apply F. right. exact Hx.
  Qed.

  Lemma rel_mirror (P Q : Mat F64) : rmat (K := F64) dim dim (mir s dim) P Q -> mirrored_points s P Q /\ shape dim (length (mcols P)) P.
  Proof.
    intros [H1 [H2 H3]]. split.
    - split; [congruence|]. clear -H3. induction H3 as [|v w l l' [_ Hvw] H IH]; constructor; assumption.
    - split; [exact H1|]. split; [reflexivity|].
      assert (F : forall v, In v (mcols P) -> length v = dim).
      { clear -H3. induction H3 as [|v w l l' [Hv Hvw] H IH]; [intros v []|]. intros x [<-|Hx]; auto. }
      intros i Hi. apply F, nth_In, Hi.
  Qed.

  Lemma mirror_program_fact D D' m pr u k : (forall i, shape dim (m i) (D i)) -> (forall i, mirrored_points s (D i) (D' i)) ->
    mirrored_outcome s (run_evaluate svd D pr u k) (run_evaluate svd D' pr u k).
  Proof.
    intros Sh Mi.
    assert (Z : mir s dim (@vzeros F64 dim) (@vzeros F64 dim)).
    { split; [apply repeat_length|]. split; [reflexivity|]. intros d Hd. unfold vzeros. rewrite nth_repeat.
      apply obs_same. destruct (s d); simpl; reflexivity || (f_equal; lra). }
    assert (Sc : forall (x : f64) a b, mir s dim a b -> mir s dim (@vscale F64 x a) (@vscale F64 x b)).
    { intros x a b H. apply (mir_map s (Bmult mode_NE x) (Bmult mode_NE x) dim); [|exact H]. intros e y z. apply flip_mult. }
    assert (Mu : forall (x : f64) a b, mir s dim a b -> mir s dim (@vmul_scalar F64 a x) (@vmul_scalar F64 b x)).
    { intros x a b H. apply (mir_map s (fun y => Bmult mode_NE y x) (fun y => Bmult mode_NE y x) dim); [|exact H].
      intros e y z. apply flip_mult_r. }
    assert (PL : forall a b, mir s dim a b -> length a = dim) by (intros a b [H _]; exact H).
    assert (PR : forall a b, mir s dim a b -> length b = dim) by (intros a b [H [H' _]]; congruence).
    assert (So : rsolver (K := F64) dim dim (mir s dim) svd).
    { intros N C C' H. destruct (rel_mirror _ _ H) as [HM HS]. specialize (Svd N C C' _ HS HM).
      destruct (svd N (mtranspose C)) as [X| | |], (svd N (mtranspose C')) as [Y| | |]; cbn [bind rM]; try contradiction; try exact I.
      destruct Svd as [F1 F2]. apply (mirror_rel _ _ (nrows X)); [|exact F2]. split; [exact F1|].
      split; [unfold mtranspose; cbn [mcols]; rewrite map_length, seq_length; reflexivity|].
      intros i Hi. unfold mtranspose. cbn [mcols]. rewrite (nth_map_seq (fun r => map (fun c => nth r c (@n0 F64)) (mcols X))) by exact Hi.
      rewrite map_length. exact F1. }
    assert (G := rrun_evaluate (K := F64) dim dim (mir s dim) PL PR Z (mir_zip s (Bplus mode_NE) dim flip_plus)
      (mir_zip s (Bminus mode_NE) dim flip_minus) Sc Mu svd So D D' pr u k (fun i => mirror_rel _ _ _ (Sh i) (Mi i))).
    destruct (run_evaluate svd D pr u k) as [[v|e]| | |], (run_evaluate svd D' pr u k) as [[w|f]| | |];
      simpl in G |- *; try contradiction; try reflexivity; try exact I; try assumption.
    destruct G as [_ G]. exact G.
  Qed.
End Mirror.

Local Open Scope R_scope.

Section Linear.
  Context (A : nat -> nat -> R) (dim dim' : nat) (svd : Mat RNum -> Mat RNum -> M (Mat RNum)).
  Hypothesis Svd : follows dim (linear_points A dim dim') svd.

  Lemma linear_program_fact D m pr (u : R) k : (forall i, shape dim (m i) (D i)) ->
    run_evaluate svd (fun i => linear_points A dim dim' (D i)) pr u k = mapped (linear A dim dim') (run_evaluate svd D pr u k).
  Proof.
    intros Sh. apply (mapped_outcome (K := RNum) dim (linear A dim dim')). change (img (K := RNum) dim (linear A dim dim')) with (lrel A dim dim').
    assert (Z : lrel A dim dim' (vzeros dim) (vzeros dim')).
    { split; [apply repeat_length|]. apply (nth_ext _ _ 0 0); [unfold vzeros; rewrite repeat_length, linear_length; reflexivity|].
      intros e He. unfold vzeros in *. rewrite repeat_length in He. rewrite linear_nth by exact He.
      change (@n0 RNum) with 0. rewrite nth_repeat. symmetry. rewrite (rsum_ext _ (fun _ => 0)).
      - clear. induction dim as [|q IH]; simpl; [reflexivity|]. rewrite IH. lra.
      - intros d Hd. rewrite nth_repeat. ring. }
    assert (Sc : forall s a b, lrel A dim dim' a b -> lrel A dim dim' (vscale s a) (vscale s b)).
    { intros s a b H. apply (lrel_map A dim dim' s a b H). }
    assert (Mu : forall s a b, lrel A dim dim' a b -> lrel A dim dim' (vmul_scalar a s) (vmul_scalar b s)).
    { intros s a b H. assert (X : forall l : list RNum, vmul_scalar l s = map (fun x => s * x) l).
      { intros l. unfold vmul_scalar. apply map_ext. intros x. rn. ring. }
      rewrite !X. apply (lrel_map A dim dim' s a b H). }
    assert (PL : forall a b, lrel A dim dim' a b -> length a = dim) by (intros a b [H _]; exact H).
    assert (PR : forall a b, lrel A dim dim' a b -> length b = dim').
    { intros a b [_ ->]. apply linear_length. }
    assert (Ad : forall a b a' b', lrel A dim dim' a b -> lrel A dim dim' a' b' -> rM (lrel A dim dim') (vadd a a') (vadd b b')).
    { intros a b a' b'. apply (lrel_zip A dim dim' Rplus 1 1). intros; ring. }
    assert (Sb : forall a b a' b', lrel A dim dim' a b -> lrel A dim dim' a' b' -> rM (lrel A dim dim') (vsub a a') (vsub b b')).
    { intros a b a' b'. apply (lrel_zip A dim dim' Rminus 1 (-1)). intros; ring. }
    apply (rrun_evaluate (K := RNum) dim dim' (lrel A dim dim') PL PR Z Ad Sb Sc Mu svd).
    - apply (follows_rsolver (K := RNum) dim dim' (linear A dim dim')); exact Svd.
    - intros i. apply (gmap_rel (K := RNum) dim dim' (linear A dim dim') (D i) (m i)), Sh.
  Qed.
End Linear.

(** ** A solver as assumed: multiply by an inverse of the matrix, if it has one *)
Definition inverse_solver (N B : Mat RNum) : M (Mat RNum) :=
  match excluded_middle_informative (exists X, solves N (midentity (nrows N)) X) with
  | left H => mmul (proj1_sig (constructive_indefinite_description _ H)) B
  | right _ => Val (mzeros (ncols N) (ncols B))
  end.

Lemma mat_ext {K : Num} r c (X Y : Mat K) : shape r c X -> shape r c Y ->
  (forall i d, (i < c)%nat -> (d < r)%nat -> ent X i d = ent Y i d) -> X = Y.
Proof.
  intros [A1 [A2 A3]] [B1 [B2 B3]] H. destruct X as [r1 X], Y as [r2 Y]. cbn [nrows mcols] in *. subst r1 r2. f_equal.
  apply (nth_ext _ _ [] []); [congruence|]. intros i Hi.
  apply (nth_ext _ _ n0 n0); [rewrite A3, B3 by lia; reflexivity|]. intros d Hd. rewrite A3 in Hd by lia. apply (H i d); lia.
Qed.

Lemma linear_points_shape A dim dim' m C : shape dim' (length (mcols C)) (linear_points A dim dim' C) /\ (shape dim m C -> shape dim' m (linear_points A dim dim' C)).
Proof.
  assert (X : shape dim' (length (mcols C)) (linear_points A dim dim' C)).
  { split; [reflexivity|]. unfold linear_points. cbn [mcols]. rewrite map_length. split; [reflexivity|]. intros i Hi.
    rewrite (nth_indep _ [] (linear A dim dim' [])) by (rewrite map_length; exact Hi). rewrite map_nth. apply linear_length. }
  split; [exact X|]. intros [_ [S2 _]]. rewrite <- S2. exact X.
Qed.

Lemma linear_points_ent A dim dim' m C i e : shape dim m C -> (i < m)%nat -> (e < dim')%nat ->
  ent (linear_points A dim dim' C) i e = rsum (fun d => A e d * ent C i d) dim.
Proof.
  intros [_ [S2 _]] Hi He. unfold ent, linear_points. cbn [mcols].
  rewrite (nth_indep (map _ _) [] (linear A dim dim' [])) by (rewrite map_length; rn; lia). rewrite map_nth. apply linear_nth, He.
Qed.

Lemma inverse_solver_follows A dim dim' : follows dim (linear_points A dim dim') inverse_solver.
Proof.
  intros N C m Sh. assert (Sh' := proj2 (linear_points_shape A dim dim' m C) Sh).
  assert (TC := @mtranspose_shape RNum _ _ _ Sh). assert (TC' := @mtranspose_shape RNum _ _ _ Sh').
  unfold inverse_solver. destruct (excluded_middle_informative _) as [E|E].
  - destruct (constructive_indefinite_description _ E) as [X HX]. cbn [proj1_sig].
    destruct HX as [_ [SX _]]. assert (NI : ncols (@midentity RNum (nrows N)) = nrows N).
    { unfold ncols, midentity. cbn [mcols]. rewrite map_length, seq_length. reflexivity. }
    rewrite NI in SX. destruct (Nat.eq_dec (nrows N) m) as [En|Hn].
    + rewrite En in SX. destruct (mmul_R _ _ _ _ _ SX TC) as [Z [EZ [SZ HZ]]]. destruct (mmul_R _ _ _ _ _ SX TC') as [W [EW [SW HW]]].
      rewrite EZ, EW. split; [apply SZ|]. assert (TZ := @mtranspose_shape RNum _ _ _ SZ). assert (TW := @mtranspose_shape RNum _ _ _ SW).
      apply (mat_ext dim' (ncols N)); [exact TW|exact (proj2 (linear_points_shape A dim dim' _ _) TZ)|].
      intros i e Hi He. rewrite (linear_points_ent _ _ _ (ncols N)) by assumption.
      rewrite (ent_mtranspose_R _ _ _ _ _ SW) by assumption. rewrite HW by assumption.
      transitivity (rsum (fun t => rsum (fun d => A e d * (ent X t i * ent C t d)) dim) m).
      * apply rsum_ext. intros t Ht. rewrite (ent_mtranspose_R _ _ _ _ _ Sh') by assumption. rewrite (linear_points_ent _ _ _ m) by assumption.
        rewrite <- rsum_scal. apply rsum_ext. intros d Hd. rn. ring.
      * rewrite rsum_swap. apply rsum_ext. intros d Hd. rewrite rsum_scal. f_equal.
        rewrite (ent_mtranspose_R _ _ _ _ _ SZ) by assumption. rewrite HZ by assumption. apply rsum_ext. intros t Ht.
        rewrite (ent_mtranspose_R _ _ _ _ _ Sh) by assumption. reflexivity.
    + destruct SX as [X1 [X2 _]], TC as [C1 _], TC' as [D1 _]. unfold mmul, ncols. rewrite C1, D1.
      assert (Q : (length (mcols X) =? m)%nat = false) by (apply Nat.eqb_neq; rewrite X2; exact Hn).
      rewrite Q. exact I.
  - assert (N1 : ncols (mtranspose C) = dim) by apply TC. assert (N2 : ncols (mtranspose (linear_points A dim dim' C)) = dim') by apply TC'.
    rewrite N1, N2. assert (S1 := @mzeros_shape RNum (ncols N) dim). assert (S2 := @mzeros_shape RNum (ncols N) dim').
    split; [apply S1|]. apply (mat_ext dim' (ncols N)).
    + apply (@mtranspose_shape RNum _ _ _ S2).
    + apply (proj2 (linear_points_shape A dim dim' _ _)), (@mtranspose_shape RNum _ _ _ S1).
    + intros i e Hi He. rewrite (linear_points_ent _ _ _ (ncols N)) by (try apply (@mtranspose_shape RNum _ _ _ S1); assumption).
      rewrite (ent_mtranspose_R _ _ _ _ _ S2) by assumption. rewrite ent_mzeros. symmetry. transitivity (rsum (fun _ => 0) dim).
      * apply rsum_ext. intros d Hd. rewrite (ent_mtranspose_R _ _ _ _ _ S1) by assumption. rewrite ent_mzeros. rn. ring.
      * clear. induction dim as [|q IH]; simpl; [reflexivity|]. rewrite IH. rn. lra.
Qed.

(** it solves every system whose matrix has a right inverse *)
Lemma inverse_solver_solves N B : (exists X, solves N (midentity (nrows N)) X) -> shape (nrows N) (ncols B) B ->
  exists Y, inverse_solver N B = Val Y /\ solves N B Y.
Proof.
  intros H SB. unfold inverse_solver. destruct (excluded_middle_informative _) as [E|E]; [|contradiction].
  destruct (constructive_indefinite_description _ E) as [X HX]. cbn [proj1_sig].
  destruct HX as [_ [SX HX]]. assert (NI : ncols (@midentity RNum (nrows N)) = nrows N).
  { unfold ncols, midentity. cbn [mcols]. rewrite map_length, seq_length. reflexivity. }
  rewrite NI in SX, HX. destruct (mmul_R _ _ _ _ _ SX SB) as [Z [EZ [SZ HZ]]]. exists Z. split; [exact EZ|].
  split; [symmetry; apply SB|]. split; [exact SZ|]. intros r c Hr Hc.
  transitivity (rsum (fun t => (if (r =? t)%nat then 1 else 0) * ent B c t) (nrows N)).
  - rewrite (rsum_ext _ (fun k => rsum (fun t => ent N k r * (ent X t k * ent B c t)) (nrows N))).
    2:{ intros k Hk. rewrite HZ by assumption. rewrite rsum_scal. reflexivity. }
    rewrite rsum_swap. apply rsum_ext. intros t Ht. 
    transitivity (rsum (fun k => ent B c t * (ent N k r * ent X t k)) (ncols N)); [apply rsum_ext; intros; rn; ring|].
    rewrite rsum_scal, HX by assumption. rewrite ent_midentity by assumption. destruct (r =? t)%nat; rn; ring.
  - clear -Hr. revert Hr. generalize (nrows N) as n. induction n as [|n IH]; intros Hr; [lia|]. cbn [rsum].
    destruct (Nat.eq_dec r n) as [->|Hn].
    + rewrite Nat.eqb_refl. rewrite (rsum_ext _ (fun _ => 0)).
      * assert (X0 : rsum (fun _ => 0) n = 0) by (clear; induction n as [|n IH]; simpl; [reflexivity|]; rewrite IH; lra). rn. rewrite X0. ring.
      * intros t Ht. destruct (Nat.eqb_spec n t); [lia|]. rn. ring.
    + rewrite IH by lia. destruct (Nat.eqb_spec r n); [contradiction|]. rn. ring.
Qed.

(** ** A solver for every number system: it solves the systems with the identity matrix *)
Definition copying_solver {K : Num} (N B : Mat K) : M (Mat K) := Val B.

Lemma mtranspose_twice {K : Num} r c (C : Mat K) : shape r c C -> mtranspose (mtranspose C) = C.
Proof.
  intros Sh. assert (T1 := mtranspose_shape _ _ _ Sh). assert (T2 := mtranspose_shape _ _ _ T1).
  apply (mat_ext r c); [exact T2|exact Sh|]. intros i d Hi Hd.
  rewrite (ent_mtranspose _ _ _ _ _ T1) by assumption. apply (ent_mtranspose _ _ _ _ _ Sh); assumption.
Qed.

Lemma copying_follows {K : Num} dim ds : @follows K dim (pick_points ds) copying_solver.
Proof.
  intros N C m Sh. unfold copying_solver. split; [apply (mtranspose_shape _ _ _ Sh)|].
  assert (Sh' : shape (length ds) m (pick_points ds C)).
  { destruct Sh as [_ [S2 _]]. split; [reflexivity|]. cbn [pick_points mcols]. rewrite map_length. split; [exact S2|]. intros i Hi.
    rewrite (nth_indep _ [] (pick ds [])) by (rewrite map_length; lia). rewrite map_nth. apply map_length. }
  rewrite (mtranspose_twice _ _ _ Sh), (mtranspose_twice _ _ _ Sh'). reflexivity.
Qed.

Lemma copying_mirrors dim s : mirrors dim s copying_solver.
Proof.
  intros N C C' m Sh HM. unfold copying_solver. split; [apply (@mtranspose_shape F64 _ _ _ Sh)|].
  assert (Sh' : shape dim m C').
  { assert (R := mirror_rel dim s _ _ _ Sh HM). destruct R as [R1 [R2 R3]]. destruct Sh as [_ [S2 _]].
    split; [exact R2|]. rewrite <- (rl_length _ _ _ R3). split; [exact S2|]. intros i Hi.
    assert (F : forall v, In v (mcols C') -> length v = dim).
    { clear -R3. induction R3 as [|v w l l' [Hv [Hw _]] H IH]; [intros v []|]. intros x [<-|Hx]; [rewrite <- Hv; symmetry; exact Hw|auto]. }
    apply F, nth_In. rewrite <- (rl_length _ _ _ R3), S2. exact Hi. }
  rewrite (@mtranspose_twice F64 _ _ _ Sh), (@mtranspose_twice F64 _ _ _ Sh'). exact HM.
Qed.
