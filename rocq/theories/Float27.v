(** * Knots that are not numbers *)

From Coq Require Import ZArith Reals List Bool Arith Lia Lra.
From Flocq Require Import Core.Core IEEE754.BinarySingleNaN.
From Verif Require Import Num Vec MKnots MPoints MCurve MFit MMerge RNum F64 Hoare Lists Struct Spec Api ApiF ApiJ Bridge Divisions Facts1 Float1 Float20 Gen2 Gen3 Merge1 Merge2.
Import ListNotations.
Local Open Scope R_scope.

(** place of a number that is not NaN, infinities at [2^1024] *)
Definition ext (x : f64) : R := match x with B754_infinity s => if s then - pow2 1024 else pow2 1024 | _ => val x end.

Lemma val_lt (x : f64) : - pow2 1024 < val x < pow2 1024.
Proof. assert (T := abs_B2R_lt_emax 53 1024 x). apply Rabs_lt_inv in T. exact T. Qed.
Lemma ext_fin (x : f64) : fin x = true -> ext x = val x.
Proof. destruct x; try discriminate; reflexivity. Qed.
Lemma ext_cases (x : f64) : is_nan x = false -> {fin x = true} + {x = B754_infinity true} + {x = B754_infinity false}.
Proof. destruct x as [s|[|]| |s m e H]; intros N; try discriminate; auto. Qed.

Lemma leb_inf (x : f64) : is_nan x = false -> Bleb (B754_infinity true) x = true /\ Bleb x (B754_infinity false) = true.
Proof. destruct x as [[|]|[|]| |[|] m e H]; intros N; try discriminate; split; reflexivity. Qed.
Lemma leb_fin_inf (x : f64) : fin x = true -> Bleb x (B754_infinity true) = false /\ Bleb (B754_infinity false) x = false.
Proof. destruct x as [[|]|[|]| |[|] m e H]; intros N; try discriminate; split; reflexivity. Qed.

Lemma leb_ext (x y : f64) : is_nan x = false -> is_nan y = false -> @nleb F64 x y = true <-> ext x <= ext y.
Proof.
  intros Hx Hy. assert (P : 0 < pow2 1024) by apply bpow_gt_0. change (@nleb F64 x y) with (Bleb x y).
  destruct (ext_cases x Hx) as [[Fx | ->] | ->]; destruct (ext_cases y Hy) as [[Fy | ->] | ->].
  - change (Bleb x y) with (@nleb F64 x y). rewrite (leb_R x y Fx Fy), (ext_fin x Fx), (ext_fin y Fy). rn. unfold Rleb. destruct (Rle_dec (val x) (val y)); split; intros; try assumption; try reflexivity; try discriminate; contradiction.
  - rewrite (proj1 (leb_fin_inf x Fx)), (ext_fin x Fx). cbn [ext]. assert (B := val_lt x). split; [discriminate|lra].
  - rewrite (proj2 (leb_inf x Hx)), (ext_fin x Fx). cbn [ext]. assert (B := val_lt x). split; [lra|reflexivity].
  - rewrite (proj1 (leb_inf y Hy)), (ext_fin y Fy). cbn [ext]. assert (B := val_lt y). split; [lra|reflexivity].
  - cbn. split; [lra|reflexivity].
  - cbn [ext]. split; [lra|reflexivity].
  - rewrite (proj2 (leb_fin_inf y Fy)), (ext_fin y Fy). cbn [ext]. assert (B := val_lt y). split; [discriminate|lra].
  - cbn [ext]. split; [discriminate|lra].
  - cbn [ext]. split; [lra|reflexivity].
Qed.

Lemma nan_leb (x y : f64) : is_nan x = true \/ is_nan y = true -> @nleb F64 x y = false.
Proof. destruct x as [[|]|[|]| |[|] m e H], y as [[|]|[|]| |[|] m' e' H']; intros [E|E]; try discriminate; reflexivity. Qed.
Lemma nan_eqb (x y : f64) : is_nan x = true \/ is_nan y = true -> @neqb F64 x y = false.
Proof. destruct x as [[|]|[|]| |[|] m e H], y as [[|]|[|]| |[|] m' e' H']; intros [E|E]; try discriminate; reflexivity. Qed.

(** comparing with a finite number *)
Lemma eqb_ext (x y : f64) : is_nan x = false -> fin y = true -> @neqb F64 x y = true <-> ext x = val y.
Proof.
  intros Hx Fy. destruct (ext_cases x Hx) as [[Fx | ->] | ->].
  - rewrite (eqb_R x y Fx Fy), (ext_fin x Fx). rn. unfold Reqb. destruct (Req_EM_T (val x) (val y)); split; intros; try assumption; try reflexivity; try discriminate; contradiction.
  - cbn [ext]. assert (B := val_lt y). split; [|lra]. intros E. exfalso. destruct y as [[|]|[|]| |[|] m e H]; discriminate.
  - cbn [ext]. assert (B := val_lt y). split; [|lra]. intros E. exfalso. destruct y as [[|]|[|]| |[|] m e H]; discriminate.
Qed.

Lemma cmp_ext (x y : f64) : is_nan x = false -> is_nan y = false -> exists b, @cmp_greater F64 x y = Val b /\ (b = true <-> ext y < ext x).
Proof.
  intros Hx Hy. unfold cmp_greater. assert (A := leb_ext x y Hx Hy). assert (B := leb_ext y x Hy Hx).
  destruct (@nleb F64 x y); [exists false; split; [reflexivity|]; split; [discriminate|]; assert (ext x <= ext y) by (apply A; reflexivity); lra|].
  assert (L : ext y < ext x). { destruct (Rlt_le_dec (ext y) (ext x)) as [L|L]; [exact L|]. apply A in L. discriminate. }
  assert (Y : @nleb F64 y x = true) by (apply B; lra). rewrite Y. exists true. split; [reflexivity|]. split; [intros _; exact L|reflexivity].
Qed.
Lemma cmp_nan (x y : f64) : is_nan x = true \/ is_nan y = true -> @cmp_greater F64 x y = Panic.
Proof. intros H. unfold cmp_greater. rewrite (nan_leb x y H), (nan_leb y x) by tauto. reflexivity. Qed.

Section Pick.
  (** [min_by] and [max_by] at once *)
  Context (up : bool).
  Let step (m y : f64) : M f64 := g <- @cmp_greater F64 m y;; Val (if xorb up (g : bool) then y else m).
  Let better (m y : f64) : Prop := if up then ext y <= ext m else ext m <= ext y.

  Lemma pick_ok l : forall x : f64, is_nan x = false -> (forall y, In y l -> is_nan y = false) ->
    exists m, foldM step l x = Val m /\ In m (x :: l) /\ forall y, In y (x :: l) -> better m y.
  Proof.
    induction l as [|y l IH]; intros x Hx Hl.
    - exists x. split; [reflexivity|]. split; [left; reflexivity|]. intros y [<-|[]]. unfold better. destruct up; lra.
    - destruct (cmp_ext x y Hx (Hl y (or_introl eq_refl))) as [b [E Hb]]. set (z := if xorb up b then y else x). assert (Es : step x y = Val z) by (unfold step; rewrite E; reflexivity). cbn [foldM]. rewrite Es. cbn [bind].
      assert (Hz : is_nan z = false) by (unfold z; destruct (xorb up b); [apply Hl; left; reflexivity|exact Hx]).
      assert (Bz : better z x /\ better z y). { unfold better, z. destruct up, b; cbn [xorb]; destruct Hb as [H1 H2]; try (specialize (H1 eq_refl)); try (assert (~ ext y < ext x) by (intros L; apply H2 in L; discriminate)); lra. }
      destruct (IH z Hz (fun w Hw => Hl w (or_intror Hw))) as [m [Em [Im Bm]]]. exists m. split; [exact Em|]. split.
      + destruct Im as [<-|Im]; [|right; right; exact Im]. unfold z. destruct (xorb up b); [right; left; reflexivity|left; reflexivity].
      + assert (Q := Bm z (or_introl eq_refl)). intros w [<-|[<-|Hw]]; [| |apply Bm; right; exact Hw]; unfold better in *; destruct up; lra.
  Qed.

  Lemma pick_nan l : forall x : f64, l <> [] -> (exists y, In y (x :: l) /\ is_nan y = true) -> foldM step l x = Panic.
  Proof.
    induction l as [|y l IH]; intros x Hl [w [Hw Nw]]; [contradiction|]. cbn [foldM].
    destruct (is_nan x) eqn:Nx; [assert (Es : step x y = Panic) by (unfold step; rewrite (cmp_nan x y) by auto; reflexivity); rewrite Es; reflexivity|].
    destruct (is_nan y) eqn:Ny; [assert (Es : step x y = Panic) by (unfold step; rewrite (cmp_nan x y) by auto; reflexivity); rewrite Es; reflexivity|].
    destruct (cmp_ext x y Nx Ny) as [b [E _]]. assert (Es : step x y = Val (if xorb up b then y else x)) by (unfold step; rewrite E; reflexivity). rewrite Es. cbn [bind].
    destruct Hw as [<-|[<-|Hw]]; [congruence|congruence|]. apply IH; [intros ->; exact Hw|]. exists w. split; [right; exact Hw|exact Nw].
  Qed.
End Pick.

Lemma foldM_step {S A} (f g : S -> A -> M S) l : (forall s a, f s a = g s a) -> forall s, foldM f l s = foldM g l s.
Proof. intros H. induction l as [|a l IH]; intros s; [reflexivity|]. cbn [foldM]. rewrite H. destruct (g s a); try reflexivity. apply IH. Qed.

Section Knots_.
  Context (U : list f64) (L : (2 <= length U)%nat).

  Lemma min_by_ok : (forall x, In x U -> is_nan x = false) -> exists m, @min_by F64 U = Val (Some m) /\ In m U /\ forall y, In y U -> ext m <= ext y.
  Proof.
    intros H. destruct U as [|x l]; [cbn in L; lia|]. destruct (pick_ok false l x (H x (or_introl eq_refl)) (fun y Hy => H y (or_intror Hy))) as [m [E [I B]]].
    exists m. split; [|split; [exact I|exact B]]. unfold min_by. match goal with |- bind ?F _ = _ => replace F with (foldM (fun m y : f64 => g <- @cmp_greater F64 m y;; Val (if xorb false (g : bool) then y else m)) l x) end; [rewrite E; reflexivity|]. apply foldM_step. intros s a. destruct (cmp_greater s a) as [[|]| | |]; reflexivity.
  Qed.
  Lemma max_by_ok : (forall x, In x U -> is_nan x = false) -> exists m, @max_by F64 U = Val (Some m) /\ In m U /\ forall y, In y U -> ext y <= ext m.
  Proof.
    intros H. destruct U as [|x l]; [cbn in L; lia|]. destruct (pick_ok true l x (H x (or_introl eq_refl)) (fun y Hy => H y (or_intror Hy))) as [m [E [I B]]].
    exists m. split; [|split; [exact I|exact B]]. unfold max_by. match goal with |- bind ?F _ = _ => replace F with (foldM (fun m y : f64 => g <- @cmp_greater F64 m y;; Val (if xorb true (g : bool) then y else m)) l x) end; [rewrite E; reflexivity|]. apply foldM_step. intros s a. destruct (cmp_greater s a) as [[|]| | |]; reflexivity.
  Qed.
  Lemma min_by_nan : (exists x, In x U /\ is_nan x = true) -> @min_by F64 U = Panic.
  Proof.
    intros H. destruct U as [|x l]; [cbn in L; lia|]. assert (Hl : l <> []) by (intros ->; cbn in L; lia). assert (E := pick_nan false l x Hl H).
    unfold min_by. match goal with |- bind ?F _ = _ => replace F with (foldM (fun m y : f64 => g <- @cmp_greater F64 m y;; Val (if xorb false (g : bool) then y else m)) l x) end; [rewrite E; reflexivity|]. apply foldM_step. intros s a. destruct (cmp_greater s a) as [[|]| | |]; reflexivity.
  Qed.

  Context (p : nat) (kn : Knots F64) (E : @knots_new F64 p U = Val kn).

  Theorem normed_nan : (exists x, In x U /\ is_nan x = true) -> is_normed kn = Panic /\ is_sorted kn = Val false.
  Proof.
    intros H. destruct (knots_new_inv p U kn E) as [EK _]. split.
    - rewrite EK. unfold is_normed. rewrite knots_of_vector. cbn [bind]. rewrite (min_by_nan H). reflexivity.
    - destruct (is_sorted_gen p U kn E) as [[|] [Es Hs]]; [|exact Es]. exfalso. destruct Hs as [Hs _]. specialize (Hs eq_refl). destruct H as [x [Ix Nx]].
      destruct (In_nth U x (@n0 F64) Ix) as [i [Hi Ei]]. change (@length (T F64) U) with (@length f64 U) in *. destruct i as [|i].
      + assert (A := Hs 0%nat ltac:(cbn [T F64] in *; unfold f64 in *; lia)). rewrite nan_leb in A; [discriminate|]. left. etransitivity; [|exact Nx]. f_equal. exact Ei.
      + assert (A := Hs i ltac:(cbn [T F64] in *; unfold f64 in *; lia)). rewrite nan_leb in A; [discriminate|]. right. etransitivity; [|exact Nx]. f_equal. exact Ei.
  Qed.

  Theorem normed_number : (forall x, In x U -> is_nan x = false) -> exists b, is_normed kn = Val b /\
    (b = true <-> (exists x, In x U /\ (x ==? n0)%num = true) /\ (exists x, In x U /\ (x ==? n1)%num = true) /\
                  forall x, In x U -> (n0 <=? x)%num = true /\ (x <=? n1)%num = true).
  Proof.
    intros H. destruct (knots_new_inv p U kn E) as [EK _]. destruct (min_by_ok H) as [a [Ea [Ia Ba]]]. destruct (max_by_ok H) as [b [Eb [Ib Bb]]].
    rewrite EK. unfold is_normed. rewrite knots_of_vector. cbn [bind]. rewrite Ea. cbn [bind]. rewrite Eb. cbn [bind]. eexists. split; [reflexivity|].
    destruct n0_ok as [F0 V0], n1_ok as [F1 V1]. assert (N0 : is_nan (@n0 F64) = false) by reflexivity. assert (N1 : is_nan (@n1 F64) = false) by reflexivity.
    rewrite andb_true_iff. rewrite (eqb_ext a (@n0 F64) (H a Ia) F0), (eqb_ext b (@n1 F64) (H b Ib) F1), V0, V1. split.
    - intros [Za Zb]. split; [exists a; split; [exact Ia|apply (eqb_ext a (@n0 F64) (H a Ia) F0); rewrite V0; exact Za]|].
      split; [exists b; split; [exact Ib|apply (eqb_ext b (@n1 F64) (H b Ib) F1); rewrite V1; exact Zb]|]. intros x Hx.
      split; [apply (leb_ext (@n0 F64) x N0 (H x Hx)); rewrite (ext_fin _ F0), V0, <- Za; apply Ba; exact Hx|apply (leb_ext x (@n1 F64) (H x Hx) N1); rewrite (ext_fin _ F1), V1, <- Zb; apply Bb; exact Hx].
    - intros [[x [Ix Ex]] [[y [Iy Ey]] Q]]. apply (eqb_ext x (@n0 F64) (H x Ix) F0) in Ex. apply (eqb_ext y (@n1 F64) (H y Iy) F1) in Ey. rewrite V0 in Ex. rewrite V1 in Ey.
      destruct (Q a Ia) as [Qa _]. destruct (Q b Ib) as [_ Qb]. apply (leb_ext (@n0 F64) a N0 (H a Ia)) in Qa. apply (leb_ext b (@n1 F64) (H b Ib) N1) in Qb. rewrite (ext_fin _ F0), V0 in Qa. rewrite (ext_fin _ F1), V1 in Qb.
      assert (A := Ba x Ix). assert (B := Bb y Iy). split; lra.
  Qed.
End Knots_.

(** ** merging *)
Theorem merge_nan svd p m dim V S_ a o W T_ b pa pb :
  @sized F64 p m dim V S_ -> @built F64 p V S_ a -> @sized F64 p o dim W T_ -> @built F64 p W T_ b -> float_ends p V -> float_ends p W ->
  (exists x, In x V /\ is_nan x = true) \/ ((forall x, In x V -> finite x /\ 0 <= val x <= 1) /\ exists x, In x W /\ is_nan x = true) ->
  merge_with_constraints svd (mkCC a pa) (mkCC b pb) = Panic.
Proof.
  intros SA BA SB BB CA CB N. assert (Wa := sized_wf False gdiv_F64 p m dim V S_ a SA BA). assert (Wb := sized_wf False gdiv_F64 p o dim W T_ b SB BB).
  rewrite (merge_checks svd pa pb Wa Wb), !Nat.eqb_refl. cbn [negb].
  assert (DV := proj1 SA). assert (DW := proj1 SB). assert (LV : @length f64 V = (m + p + 2)%nat) by apply (proj1 (proj2 SA)). assert (LW : @length f64 W = (o + p + 2)%nat) by apply (proj1 (proj2 SB)).
  assert (KA : @knots_new F64 p V = Val (cknots a)). { rewrite (@wf_knots F64 _ _ _ _ _ _ Wa). apply (@knots_new_val F64). cbn [T F64] in *. unfold f64 in *. lia. }
  assert (KB : @knots_new F64 p W = Val (cknots b)). { rewrite (@wf_knots F64 _ _ _ _ _ _ Wb). apply (@knots_new_val F64). cbn [T F64] in *. unfold f64 in *. lia. }
  destruct (is_clamped_gen p V _ KA) as [ca [Eca Hca]]. destruct (is_clamped_gen p W _ KB) as [cb [Ecb Hcb]]. apply Hca in CA. apply Hcb in CB. subst ca cb.
  rewrite Eca, Ecb. cbn [bind negb]. destruct N as [N|[F N]].
  - rewrite (proj1 (normed_nan V ltac:(lia) p _ KA N)). reflexivity.
  - destruct (normed_number V ltac:(lia) p _ KA) as [na [Ena Hna]].
    { intros x Hx. destruct (F x Hx) as [Fx _]. destruct x; try discriminate; reflexivity. }
    assert (C := proj1 Hca eq_refl). assert (na = true).
    { apply Hna. split; [|split].
      - exists (nth 0 V n0). assert (X : (0 < length V)%nat) by (cbn [T F64]; unfold f64 in *; lia). split; [apply nth_In, X|]. apply (C 0%nat X). lia.
      - assert (X : (length V - 1 < length V)%nat) by (cbn [T F64]; unfold f64 in *; lia). exists (nth (length V - 1) V n0). split; [apply nth_In, X|]. apply (C _ X). lia.
      - intros x Hx. destruct (F x Hx) as [Fx Rx]. destruct n0_ok as [F0 V0], n1_ok as [F1 V1]. rewrite (leb_R _ x F0 Fx), (leb_R x _ Fx F1), V0, V1. rn. unfold Rleb. split; destruct Rle_dec; try reflexivity; lra. }
    subst na. rewrite Ena. cbn [bind]. rewrite (proj1 (normed_nan W ltac:(lia) p _ KB N)). reflexivity.
Qed.
