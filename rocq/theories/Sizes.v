(** * Curve::new with numbers of knots and control points that do not fit *)

From Coq Require Import Reals List Bool Arith Lra Lia.
From Verif Require Import Num Vec MKnots MPoints MCurve RNum Lists Hoare Spec BMath BMath2 BMath3 Struct Api Bridge Facts1.
Import ListNotations.

Section Sizes.
  Context {K : Num}.
  Notation Vec := (list K).

  Lemma derive_point_long ud (G : gdiv (K := K) ud) p U n dim (P : Mat K) rest km :
    n + p < length U -> shape dim (S n) P ->
    forall k i, k <= p -> i + k <= n ->
    ok ud (derive_single_point (mkCP (P :: rest) km) (knots_of p U) k i) (fun v => length v = dim).
  Proof.
    intros HL HP. induction k as [|k IH]; intros i Hk Hi.
    - cbn [derive_single_point Pk]. unfold vget at 1. cbn [nth_error bind].
      rewrite (mcol_val P dim (S n)) by (try exact HP; lia). cbn [ok]. apply HP. lia.
    - cbn [derive_single_point]. rewrite knots_of_vector. cbn [bind kdegree kp knots_of]. fold (knots_of p U).
      rewrite (vget_nth U (i + p + 1) n0) by lia. cbn [bind].
      rewrite (vget_nth U (i + S k) n0) by lia. cbn [bind].
      destruct (nth (i + p + 1) U n0 ==? nth (i + S k) U n0)%num eqn:E.
      + unfold cp_dimension, cp_matrix, vget. cbn [Pk nth_error bind ok]. rewrite vzeros_length. apply HP.
      + rewrite usub_ok by lia. cbn [bind]. eapply ok_bind; [apply G; exact E|]. intros s _.
        eapply ok_bind; [apply IH; lia|]. intros hi Hhi.
        eapply ok_bind; [apply IH; lia|]. intros lo Hlo.
        destruct (vsub_val hi lo) as [d [Ed [Ld _]]]; [congruence|]. rewrite Ed. cbn [bind ok].
        rewrite vscale_length. congruence.
  Qed.

  Lemma points_derive_long ud (G : gdiv (K := K) ud) p U n dim (P : Mat K) rest km :
    p <= n -> n + p < length U \/ p = 0 -> shape dim (S n) P ->
    ok ud (points_derive (mkCP (P :: rest) km) (knots_of p U))
      (fun cp => pk_max cp = p /\ nth 0 (Pk cp) (mzeros 0 0) = P /\ length (Pk cp) = S p).
  Proof.
    intros Hpn HL HP. unfold points_derive. rewrite (cp_segments_val P rest km dim n HP). cbn [bind Pk firstn kdegree kp knots_of pk_max].
    fold (knots_of p U).
    eapply ok_bind with (Q := fun cp => exists r, Pk cp = P :: r /\ length (P :: r) = p + 1).
    - apply (ok_foldM_rangei ud _ (fun i cp => exists r, Pk cp = P :: r /\ length (P :: r) = i)).
      + lia.
      + exists []. split; reflexivity.
      + intros k [pk0 km0] Hk [r [E Lr]]. cbn [Pk] in E. subst pk0.
        rewrite usub_ok by lia. cbn [bind]. rewrite (cp_dimension_val P r km0 dim (S n) HP). cbn [bind].
        eapply ok_bind with (Q := shape dim (n - k + 1)).
        * apply (ok_foldM_inv ud _ (shape dim (n - k + 1))); [apply mzeros_shape|].
          intros i Pm Hi HPm. unfold range in Hi. apply in_seq in Hi.
          eapply ok_bind; [apply (derive_point_long ud G p U n dim P r km0 ltac:(lia) HP k i); lia|].
          intros v Hv. rewrite (mset_col_val Pm dim (n - k + 1)) by (try assumption; lia).
          cbn [ok]. apply upd_shape; [assumption|lia|assumption].
        * intros Pm HPm. cbn [ok Pk]. exists (r ++ [Pm]). split; [reflexivity|]. cbn [length] in *. rewrite app_length. simpl. lia.
    - intros cp [r [E Lr]]. cbn [ok Pk pk_max]. rewrite E. split; [reflexivity|]. split; [reflexivity|]. lia.
  Qed.

  (** what is known of a curve whose numbers of knots and points need not fit *)
  Definition loose (p dim n : nat) (U : Vec) (P : Mat K) (c : Curve K) : Prop :=
    cknots c = knots_of p U /\ pk_max (cpoints c) = p /\ nth 0 (Pk (cpoints c)) (mzeros 0 0) = P /\ length (Pk (cpoints c)) = S p /\ shape dim (S n) P.

  Lemma new_long ud (G : gdiv (K := K) ud) p U n dim (P : Mat K) : p <= n -> 2 * p <= length U -> n + p < length U \/ p = 0 -> shape dim (S n) P ->
    ok ud (curve_new (knots_of p U) (cp_new P)) (fun r => exists c, r = Ok c /\ loose p dim n U P c).
  Proof.
    intros Hpn H2 HL HP. unfold curve_new, cp_new. rewrite (cp_segments_val P [] 0 dim n HP). cbn [bind kdegree kp knots_of].
    replace (n <? p) with false by (symmetry; apply Nat.ltb_ge; lia).
    unfold calculate_derivatives. cbn [cknots cpoints]. fold (knots_of p U).
    rewrite (knots_derive_val _ (kderiv 0 U) (map (fun k => kderiv k U) (seq 1 p))).
    2:{ reflexivity. }
    2:{ cbn [kp knots_of]. rewrite kderiv_length. lia. }
    cbn [bind kp knots_of]. rewrite kderiv_0. fold (knots_of p U).
    apply ok_bind'. apply ok_bind'. eapply ok_weaken; [apply (points_derive_long ud G p U n dim P [] 0); assumption|].
    intros cp [H3 [H4 H5]]. cbn [ok]. eexists. split; [reflexivity|]. repeat split; cbn [cknots cpoints]; try assumption; apply HP; assumption.
  Qed.

  (** too many control points for the knots *)
  Lemma new_short (G : gdiv (K := K) False) p U n dim (P : Mat K) : 1 <= p <= n -> 2 * p <= length U -> length U <= n + p -> shape dim (S n) P ->
    curve_new (knots_of p U) (cp_new P) = Panic.
  Proof.
    intros Hpn H2 HL HP. unfold curve_new, cp_new. rewrite (cp_segments_val P [] 0 dim n HP). cbn [bind kdegree kp knots_of].
    replace (n <? p) with false by (symmetry; apply Nat.ltb_ge; lia).
    unfold calculate_derivatives. cbn [cknots cpoints]. fold (knots_of p U).
    rewrite (knots_derive_val _ (kderiv 0 U) (map (fun k => kderiv k U) (seq 1 p))).
    2:{ reflexivity. }
    2:{ cbn [kp knots_of]. rewrite kderiv_length. lia. }
    cbn [bind kp knots_of]. rewrite kderiv_0. fold (knots_of p U).
    unfold points_derive. rewrite (cp_segments_val P [] 0 dim n HP). cbn [bind Pk firstn kdegree kp knots_of pk_max].
    unfold rangei. replace (p + 1 - 1) with (S (p - 1)) by lia. cbn [seq foldM]. fold (knots_of p U).
    rewrite (usub_ok n 1) by lia. cbn [bind]. rewrite (cp_dimension_val P [] 0 dim (S n) HP). cbn [bind].
    unfold range. replace (n - 1 + 1 - 0) with n by lia.
    set (a := length U - p - 1). replace n with (a + S (n - a - 1)) at 1 by lia. rewrite seq_app. rewrite foldM_app.
    match goal with |- context [foldM ?f (seq 0 a) ?s] => assert (T : ok False (foldM f (seq 0 a) s) (shape dim (n - 1 + 1))) end.
    { apply (ok_foldM_inv False _ (shape dim (n - 1 + 1))); [apply mzeros_shape|]. intros i Pm Hi HPm. apply in_seq in Hi.
      cbn [derive_single_point]. rewrite knots_of_vector. cbn [bind kdegree kp knots_of]. fold (knots_of p U).
      rewrite (vget_nth U (i + p + 1) n0) by lia. cbn [bind].
      rewrite (vget_nth U (i + 1) n0) by lia. cbn [bind].
      assert (Fin : forall v, length v = dim -> ok False (mset_col Pm i v) (shape dim (n - 1 + 1))).
      { intros v Hv. rewrite (mset_col_val Pm dim (n - 1 + 1)) by (try assumption; lia). cbn [ok]. apply upd_shape; [assumption|lia|assumption]. }
      destruct (nth (i + p + 1) U n0 ==? nth (i + 1) U n0)%num eqn:E.
      + rewrite (cp_dimension_val P [] 0 dim (S n) HP). cbn [bind]. apply Fin. apply vzeros_length.
      + rewrite usub_ok by lia. cbn [bind]. apply ok_bind'. eapply ok_bind; [apply G; exact E|]. intros s _.
        unfold vget. cbn [Pk nth_error bind]. rewrite !(mcol_val P dim (S n)) by (try exact HP; lia). cbn [bind].
        destruct (vsub_val (nth (i + 1) (mcols P) []) (nth i (mcols P) [])) as [d [Ed [Ld _]]].
        { destruct HP as [_ [_ HP]]. rewrite !HP by lia. reflexivity. }
        rewrite Ed. cbn [bind ok]. apply Fin. rewrite vscale_length, Ld. apply HP. lia. }
    apply ok_val_ex in T. destruct T as [Pm [-> HPm]]. cbn [bind]. replace (0 + a) with a by lia. cbn [seq foldM].
    cbn [derive_single_point]. rewrite knots_of_vector. cbn [bind kdegree kp knots_of].
    unfold vget. rewrite (proj2 (nth_error_None U (a + p + 1))) by lia. reflexivity.
  Qed.

  (** ** Evaluation *)
  Lemma loose_panic (G : gdiv (K := K) False) p U n nk dim (P : Mat K) c u : loose p dim n U P c -> 1 <= p <= nk -> length U = nk + p + 2 -> n = nk + 1 ->
    (n0 <=? u)%num = true -> (u <=? n1)%num = true -> evaluate c u = Panic.
  Proof.
    intros [Wk [Wm [Wh [Wp Ws]]]] Hp HL Hn H0 H1. unfold evaluate, evaluate_derivative. rewrite H0, H1. cbn [andb negb].
    unfold degree, dimension, segments.
    destruct c as [kn [pk km]]. cbn [cknots cpoints pk_max Pk] in *. subst kn km.
    destruct pk as [|P0 pk]; [simpl in Wp; lia|]. cbn [nth] in Wh. subst P0.
    rewrite (cp_dimension_val P pk p dim (S n) Ws). cbn [bind kdegree kp knots_of]. fold (knots_of p U).
    cbn [Nat.leb]. rewrite (cp_segments_val P pk p dim n Ws). cbn [bind].
    assert (T := find_idx_le_ok False p U nk 0 u HL ltac:(lia) ltac:(lia)). apply ok_val_ex in T. destruct T as [l [-> [Hl _]]]. cbn [bind].
    rewrite usub_ok by lia. cbn [bind]. rewrite usub_ok by lia. cbn [bind]. rewrite usub_ok by lia. cbn [bind].
    unfold rangei. replace (n - 0 + 1 - (l - (p - 0))) with ((n - (l - p)) + 1) by lia. rewrite seq_app, foldM_app.
    match goal with |- context [foldM ?f (seq ?x ?y) ?s] => assert (T : ok False (foldM f (seq x y) s) (fun v => length v = dim)) end.
    { apply (ok_foldM_inv False _ (fun v => length v = dim)); [apply vzeros_length|].
      intros i v Hi Hv. apply in_seq in Hi.
      rewrite (kevaluate_val p U nk) by (try assumption; lia).
      eapply ok_bind; [apply basis_ok; [exact G|lia| |]; rewrite kderiv_length; lia|]. intros b _.
      unfold matrix_derivative. cbn [pk_max Pk Nat.leb assert bind vget nth_error].
      rewrite (mcol_val _ dim (S n)) by (try exact Ws; lia). cbn [bind].
      destruct (vadd_val v (vscale b (nth i (mcols P) []))) as [r [E [L _]]].
      { rewrite vscale_length, Hv. symmetry. apply Ws. lia. }
      rewrite E. cbn [ok]. congruence. }
    apply ok_val_ex in T. destruct T as [v [-> _]]. cbn [bind]. replace (l - (p - 0) + (n - (l - p))) with n by lia. cbn [seq foldM].
    rewrite (kevaluate_val p U nk) by (try assumption; lia). rewrite kderiv_0. replace (p - 0) with (S (p - 1)) by lia.
    cbn [basis]. rewrite !(vget_nth U _ n0) by lia. cbn [bind].
    match goal with |- context [bind (if ?b then ?x else ?y) ?f] => assert (T : ok False (if b then x else y) (fun _ => True)) end.
    { destruct (nth (n + S (p - 1)) U n0 ==? nth n U n0)%num eqn:E; [exact I|]. cbn [bind]. replace (n + (p - 1) + 1) with (n + S (p - 1)) by lia.
      cbn [bind].
      eapply ok_bind; [apply G; exact E|]. intros w _. eapply ok_bind; [apply basis_ok; [exact G|lia|lia|lia]|]. intros r _. exact I. }
    apply ok_val_ex in T. destruct T as [s [-> _]]. cbn [bind]. unfold vget at 1. rewrite (proj2 (nth_error_None U (n + 1 + S (p - 1)))) by lia. reflexivity.
  Qed.
End Sizes.

Local Open Scope R_scope.

(** ** Too few control points: the missing ones are at the origin *)
Lemma loose_eval p (U : list R) n nk dim (P : Mat RNum) c u : @loose RNum p dim n U P c -> (p <= n <= nk)%nat -> length U = (nk + p + 2)%nat -> sorted U -> 0 <= u <= 1 ->
  returns (@evaluate RNum c u) dim (fun d => rsum (fun i => bspline (kfun U) nk p i u * ent P i d) (S n)).
Proof.
  intros [Wk [Wm [Wh [Wp Ws]]]] Hn HL HS Hu. unfold evaluate, evaluate_derivative. rn.
  replace (Rleb 0 u) with true by (symmetry; apply Rleb_le; lra).
  replace (Rleb u 1) with true by (symmetry; apply Rleb_le; lra). cbn [andb negb].
  unfold degree, dimension, segments.
  destruct c as [kn [pk km]]. cbn [cknots cpoints pk_max Pk] in *. subst kn km.
  destruct pk as [|P0 pk]; [simpl in Wp; lia|]. cbn [nth] in Wh. subst P0.
  rewrite (cp_dimension_val P pk p dim (S n) Ws). cbn [bind kdegree kp knots_of]. fold (knots_of p U).
  cbn [Nat.leb]. rewrite (cp_segments_val P pk p dim n Ws). cbn [bind].
  assert (F := @find_idx_le_ok RNum False p U nk 0 u HL ltac:(lia) ltac:(lia)). apply ok_val_ex in F.
  destruct F as [l [-> [Hl Hlu]]]. cbn [bind].
  rewrite usub_ok by lia. cbn [bind]. rewrite usub_ok by lia. cbn [bind]. rewrite usub_ok by lia. cbn [bind].
  set (lo := (l - (p - 0))%nat).
  set (V := fun i => nth i (mcols P) []).
  set (f := fun i => bspline (kfun U) nk p i u).
  rewrite (foldM_ext _ (fun v i => @vadd RNum v (@vscale RNum (f i) (V i)))).
  2:{ intros s i Hi. unfold rangei in Hi. apply in_seq in Hi.
      rewrite (@kevaluate_val RNum p U nk) by (try assumption; lia).
      rewrite basis_R; rn; try lia.
      - rewrite kderiv_0, !Nat.sub_0_r. cbn [bind].
        unfold matrix_derivative. cbn [pk_max Pk Nat.leb assert bind vget nth_error].
        rewrite (mcol_val P dim (S n)) by (try exact Ws; lia). reflexivity.
      - rewrite kderiv_length. rn. lia.
      - rewrite kderiv_0. apply HS; lia.
      - rewrite kderiv_length. rn. lia. }
  unfold rangei. rewrite Nat.sub_0_r.
  destruct (foldM_sum dim f V lo (n + 1 - lo) (@vzeros RNum dim)) as [v [E [L N]]].
  - apply vzeros_length.
  - intros i Hi. unfold V. apply Ws. lia.
  - rewrite E. cbn [bind]. exists v. split; [reflexivity|]. split; [exact L|]. intros d Hd.
    rewrite N by exact Hd. unfold vzeros. rewrite nth_repeat. rewrite Rplus_0_l.
    assert (Z : forall i, (i < lo)%nat -> bspline (kfun U) nk p i u = 0).
    { intros i Hi. unfold lo in Hi.
      assert (Hlu' : nth l U 0 <= u). { destruct Hlu as [Hlu|H]; [exfalso; lia|]. rn. apply Rleb_le in H. exact H. }
      unfold bspline. rewrite (cox_ext _ (fun _ => 0) (kfun U) (kfun U)); [apply cox_zero| |reflexivity].
      intros a Ha. unfold span_ind. destruct (Rle_dec (kfun U a) u); [|reflexivity].
      assert (M1 : kfun U (S a) <= kfun U l) by (apply (sorted_mono U HS); lia). rewrite (kfun_nth U l) in M1 by lia.
      destruct (Rlt_dec u (kfun U (S a))); [lra|].
      replace (a =? nk)%nat with false by (symmetry; apply Nat.eqb_neq; lia). reflexivity. }
    destruct (le_lt_dec lo (S n)) as [Ho|Ho].
    + rewrite (rsum_drop _ lo (S n)); [|exact Ho|intros i Hi; rewrite Z by exact Hi; ring].
      replace (S n - lo)%nat with (n + 1 - lo)%nat by lia. apply rsum_ext. intros i Hi. reflexivity.
    + replace (n + 1 - lo)%nat with 0%nat by lia. cbn [rsum]. change (0 = rsum (fun i => bspline (kfun U) nk p i u * ent P i d) (S n)).
      rewrite (rsum_ext _ (fun _ => 0)); [rewrite rsum_0; reflexivity|]. intros i Hi. rewrite Z by lia. ring.
Qed.

(** ** In terms of the interface *)
Lemma built_loose K (G : gdiv (K := K) False) p (U : list K) n dim (P : Mat K) c : (p <= n)%nat -> (n + p < length U)%nat -> shape dim (S n) P -> built p U P c -> loose p dim n U P c.
Proof.
  intros Hp HL HP [kn [E1 E2]]. rewrite knots_new_val in E1 by lia. injection E1 as <-.
  assert (T := new_long False G p U n dim P Hp ltac:(lia) ltac:(lia) HP). rewrite E2 in T. cbn [ok] in T. destruct T as [c' [E W]]. injection E as <-. exact W.
Qed.

Lemma guard_gdiv (K : Num) : (forall x y z : K, (x ==? y)%num = false -> exists w, ndiv z (x - y)%num = Val w) -> gdiv (K := K) False.
Proof. intros H x y z E. destruct (H x y z E) as [w ->]. exact I. Qed.

Lemma size_cases (K : Num) : (forall x y z : K, (x ==? y)%num = false -> exists w, ndiv z (x - y)%num = Val w) ->
  forall p n dim (U : list K) (P : Mat K), shape dim (S n) P -> (1 <= p <= n)%nat -> (2 * p <= length U)%nat ->
  exists kn, knots_new p U = Val kn /\
    ((length U <= n + p)%nat -> curve_new kn (cp_new P) = Panic) /\
    ((n + p < length U)%nat -> exists c, curve_new kn (cp_new P) = Val (Ok c) /\
       (length U = (n + p + 1)%nat -> (p < n)%nat -> forall u, (n0 <=? u)%num = true -> (u <=? n1)%num = true -> evaluate c u = Panic)).
Proof.
  intros H p n dim U P HP Hp H2. assert (G := guard_gdiv K H). exists (knots_of p U). split; [apply knots_new_val; exact H2|]. split.
  - intros L. apply (new_short G p U n dim); assumption.
  - intros L. assert (T := new_long False G p U n dim P ltac:(lia) H2 ltac:(lia) HP). apply ok_val_ex in T. destruct T as [r [E [c [-> W]]]].
    exists c. split; [exact E|]. intros L2 Hn u H0 H1. apply (loose_panic G p U n (n - 1) dim P c u W); try assumption; lia.
Qed.

Lemma too_few p n m dim (U : list R) P P' c c' : clamped_curve p m dim U P' c' -> (p <= n < m)%nat -> shape dim (S n) P -> built p U P c ->
  (forall i d, (i <= n)%nat -> (d < dim)%nat -> ent P' i d = ent P i d) -> (forall i d, (n < i <= m)%nat -> (d < dim)%nat -> ent P' i d = 0) ->
  (forall u, 0 <= u <= 1 -> evaluate c u = evaluate c' u) /\ returns (evaluate c 1) dim (fun _ => 0).
Proof.
  intros H Hn HP B E1 E2. assert (L : length U = (m + p + 2)%nat) by apply H. assert (So := clamped_sorted _ _ _ (proj1 H)).
  assert (W : @loose RNum p dim n U P c) by (apply (built_loose RNum gdiv_R); [lia|rn; lia|exact HP|exact B]).
  assert (E : forall u, 0 <= u <= 1 -> evaluate c u = evaluate c' u).
  { intros u Hu. assert (T := loose_eval p U n m dim P c u W ltac:(lia) L So Hu). assert (T2 := cc_eval0 p m dim U P' c' u H Hu).
    apply (returns_eq _ _ dim _ T). apply (returns_ext _ _ _ _ T2). intros d Hd. cbv beta. unfold spline.
    rewrite (rsum_trunc (fun i => bspline (kfun U) m p i u * ent P' i d) (S n) (S m)).
    - apply rsum_ext. intros i Hi. rewrite E1 by lia. reflexivity.
    - lia.
    - intros i A1 A2. rewrite E2 by lia. ring. }
  split; [exact E|]. rewrite E by lra. eapply returns_ext; [apply (endpoints p m dim U P' c' H)|]. intros d Hd. cbv beta. apply E2; lia.
Qed.
