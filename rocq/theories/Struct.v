(** * Structure of the objects the API builds, for every number system *)

From Coq Require Import ZArith List Bool Arith Lia.
From Verif Require Import Num Vec MKnots MPoints MCurve Hoare Lists.
Import ListNotations.

Lemma skipn_skipn {A} (x y : nat) : forall l : list A, skipn x (skipn y l) = skipn (x + y) l.
Proof.
  revert x. induction y as [|y IH]; intros x l.
  - rewrite Nat.add_0_r. reflexivity.
  - rewrite Nat.add_succ_r. destruct l as [|a l]; [rewrite !skipn_nil; reflexivity|]. simpl. apply IH.
Qed.

Lemma foldM_ext {S X} (f g : S -> X -> M S) l : (forall s x, In x l -> f s x = g s x) ->
  forall s, foldM f l s = foldM g l s.
Proof.
  intros H. induction l as [|x l IH]; intros s; [reflexivity|]. simpl. rewrite H by (left; reflexivity).
  destruct (g s x); simpl; try reflexivity. apply IH. intros t y Hy. apply H. right. exact Hy.
Qed.

(** the knots with [k] knots dropped at both ends *)
Definition kderiv {A} (k : nat) (U : list A) : list A := firstn (length U - 2 * k) (skipn k U).

Lemma kderiv_0 {A} (U : list A) : kderiv 0 U = U.
Proof. unfold kderiv. simpl. rewrite Nat.sub_0_r. apply firstn_all. Qed.

Lemma kderiv_length {A} k (U : list A) : length (kderiv k U) = length U - 2 * k.
Proof. unfold kderiv. rewrite firstn_length, skipn_length. lia. Qed.

Lemma kderiv_S {A} k (U : list A) :
  firstn (length (kderiv k U) - 2) (skipn 1 (kderiv k U)) = kderiv (S k) U.
Proof.
  rewrite kderiv_length. unfold kderiv. rewrite skipn_firstn_comm, skipn_skipn, firstn_firstn.
  change (1 + k) with (S k). f_equal. lia.
Qed.

Lemma nth_kderiv {A} k (U : list A) i d : i < length U - 2 * k -> nth i (kderiv k U) d = nth (k + i) U d.
Proof. intros H. unfold kderiv. rewrite nth_firstn by exact H. apply nth_skipn. Qed.

Section Struct.
  Context {K : Num}.
  Notation Vec := (list K).

  Definition knots_of (p : nat) (U : Vec) : Knots K :=
    mkKnots (map (fun k => kderiv k U) (seq 0 (S p))) p p.

  Lemma nth_seq_map {A} (f : nat -> A) k n d : k < n -> nth k (map f (seq 0 n)) d = f k.
  Proof.
    intros H. rewrite (nth_indep _ d (f 0)) by (rewrite map_length, seq_length; exact H).
    rewrite map_nth. rewrite seq_nth by exact H. reflexivity.
  Qed.

  Lemma knots_derive_val kn U rest : Uk kn = U :: rest -> 2 * kp kn <= length U ->
    knots_derive kn = Val (knots_of (kp kn) U).
  Proof.
    intros E H. unfold knots_derive. rewrite E. cbn [firstn]. set (p := kp kn) in *.
    assert (T : ok False (foldM (fun uk k =>
                   k1 <- usub k 1;;
                   prev <- vget uk k1;;
                   len2 <- usub (length prev) 2;;
                   seg <- segment prev 1 len2;;
                   Val (uk ++ [seg])) (rangei 1 p) [U])
                (fun uk => uk = map (fun k => kderiv k U) (seq 0 (p + 1)))).
    { apply (ok_foldM_rangei False _ (fun i uk => uk = map (fun k => kderiv k U) (seq 0 i))).
      - lia.
      - simpl. rewrite kderiv_0. reflexivity.
      - intros i uk Hi ->.
        eapply ok_bind; [apply (ok_usub _ _ _ (fun x => x = i - 1)); [lia|reflexivity]|]. intros ? ->.
        eapply ok_bind; [apply (ok_vget_nth _ _ _ [] (fun x => x = kderiv (i - 1) U));
          [rewrite map_length, seq_length; lia|rewrite nth_seq_map by lia; reflexivity]|]. intros ? ->.
        assert (L := kderiv_length (i - 1) U).
        eapply ok_bind; [apply (ok_usub _ _ _ (fun x => x = length (kderiv (i - 1) U) - 2)); [lia|reflexivity]|].
        intros ? ->. rewrite segment_val by lia. cbn [bind ok].
        rewrite kderiv_S. replace (S (i - 1)) with i by lia.
        change (1 + i) with (S i). rewrite seq_S, map_app. reflexivity. }
    apply ok_val_ex in T. destruct T as [uk [-> ->]]. cbn [bind]. unfold knots_of.
    replace (p + 1) with (S p) by lia. reflexivity.
  Qed.

  Lemma knots_new_val p (U : Vec) : 2 * p <= length U -> knots_new p U = Val (knots_of p U).
  Proof. intros H. unfold knots_new. apply (knots_derive_val (mkKnots [U] p 0) U []); [reflexivity|exact H]. Qed.

  Lemma usub_ok a b : b <= a -> usub a b = Val (a - b).
  Proof. intros H. unfold usub. apply Nat.leb_le in H. rewrite H. reflexivity. Qed.

  Lemma foldM_app {S X} (f : S -> X -> M S) l1 : forall l2 s,
    foldM f (l1 ++ l2) s = bind (foldM f l1 s) (fun s' => foldM f l2 s').
  Proof.
    induction l1 as [|x l1 IH]; intros l2 s; [reflexivity|]. simpl. destruct (f s x); simpl; auto.
  Qed.

  (** too short a knot vector panics *)
  Lemma knots_new_short p (U : Vec) : length U < 2 * p -> knots_new p U = Panic.
  Proof.
    intros H. unfold knots_new, knots_derive. cbn [Uk kp firstn].
    set (q := length U / 2). assert (Hq : 2 * q <= length U < 2 * q + 2).
    { unfold q. assert (T := Nat.div_mod (length U) 2). assert (T2 := Nat.mod_upper_bound (length U) 2). lia. }
    set (f := fun uk k => _). assert (Hf : foldM f (rangei 1 q) [U] = Val (map (fun k => kderiv k U) (seq 0 (q + 1)))).
    { assert (T := knots_derive_val (mkKnots [U] q 0) U [] eq_refl). cbn [kp] in T. specialize (T ltac:(lia)).
      unfold knots_derive in T. cbn [Uk kp firstn] in T. fold f in T.
      destruct (foldM f (rangei 1 q) [U]) as [uk| | |]; cbn [bind] in T; try discriminate.
      injection T as T. rewrite T. replace (q + 1) with (S q) by lia. reflexivity. }
    replace (rangei 1 p) with (rangei 1 q ++ seq (q + 1) (p - q)).
    2:{ unfold rangei. rewrite !Nat.add_sub. replace p with (q + (p - q)) at 2 by lia.
        rewrite seq_app. f_equal. f_equal. lia. }
    rewrite foldM_app, Hf. cbn [bind].
    destruct (p - q) as [|r] eqn:E; [lia|]. cbn [seq foldM]. unfold f at 1.
    rewrite (usub_ok (q + 1) 1) by lia. cbn [bind]. rewrite Nat.add_sub. rewrite (vget_nth _ q []) by (rewrite map_length, seq_length; lia). cbn [bind].
    rewrite nth_seq_map by lia. rewrite kderiv_length.
    unfold usub at 1. replace (2 <=? length U - 2 * q) with false by (symmetry; apply Nat.leb_gt; lia).
    reflexivity.
  Qed.

  Lemma knots_of_vec p U k : k <= p -> vget (Uk (knots_of p U)) k = Val (kderiv k U).
  Proof.
    intros H. rewrite (vget_nth _ k []).
    - cbn [Uk knots_of]. rewrite nth_seq_map by lia. reflexivity.
    - cbn [Uk knots_of]. rewrite map_length, seq_length. lia.
  Qed.

  Lemma knots_of_vector p U : vector (knots_of p U) = Val U.
  Proof. unfold vector. rewrite knots_of_vec by lia. rewrite kderiv_0. reflexivity. Qed.

  Lemma knots_of_segments p U n : length U = n + p + 2 -> ksegments (knots_of p U) = Val n.
  Proof.
    intros H. unfold ksegments, segments_derivative, klen. rewrite knots_of_vec by lia. cbn [bind kp knots_of].
    rewrite usub_ok by lia. cbn [bind]. rewrite kderiv_0, usub_ok by lia. f_equal. lia.
  Qed.

  Lemma kevaluate_val p U n k i q u : length U = n + p + 2 -> k <= p -> k <= q ->
    kevaluate (knots_of p U) k i q u = basis (kderiv k U) (q - k) i k n u.
  Proof.
    intros H H1 H2. unfold kevaluate. rewrite knots_of_vec by lia. cbn [bind].
    rewrite (knots_of_segments p U n H). cbn [bind]. rewrite usub_ok by lia. reflexivity.
  Qed.

  (** ** Guarded division: what is executed after [x == y] was found false *)
  Definition gdiv (ud : Prop) : Prop :=
    forall x y z : K, (x ==? y)%num = false -> ok ud (ndiv z (x - y)%num) (fun _ => True).

  Lemma basis_ok ud (G : gdiv ud) (v : Vec) u k n : k <= n -> n + 1 - k < length v ->
    forall p i, i + p + 1 < length v -> ok ud (basis v p i k n u) (fun _ => True).
  Proof.
    intros Hk Hn. induction p as [|h IH]; intros i Hi.
    - cbn [basis]. rewrite (vget_nth v i n0) by lia. cbn [bind].
      eapply ok_bind with (Q := fun _ => True).
      + destruct (nth i v n0 <=? u)%num; [|exact I].
        rewrite (vget_nth v (i + 1) n0) by lia. exact I.
      + intros [|] _; [exact I|]. rewrite usub_ok by lia. cbn [bind].
        destruct (i =? n - k); [|exact I]. rewrite usub_ok by lia. cbn [bind].
        rewrite (vget_nth v _ n0) by lia. cbn [bind]. destruct (u ==? _)%num; exact I.
    - cbn [basis].
      replace (i + h + 1) with (i + S h) by lia. replace (i + 1 + h + 1) with (i + 1 + S h) by lia.
      rewrite !(vget_nth v _ n0) by lia. cbn [bind].
      eapply ok_bind with (Q := fun _ => True).
      + destruct (nth (i + S h) v n0 ==? nth i v n0)%num eqn:E; [exact I|].
        eapply ok_bind; [apply G; exact E|]. intros w _.
        eapply ok_bind; [apply IH; lia|]. intros r _. exact I.
      + intros s1 _. eapply ok_bind with (Q := fun _ => True).
        * destruct (nth (i + 1 + S h) v n0 ==? nth (i + 1) v n0)%num eqn:E; [exact I|].
          eapply ok_bind; [apply G; exact E|]. intros w _.
          eapply ok_bind; [apply IH; lia|]. intros r _. exact I.
        * intros s2 _. exact I.
  Qed.

  (** ** Span search *)
  Lemma find_idx_le_ok ud p U n k u : length U = n + p + 2 -> p <= n -> k <= p ->
    ok ud (find_idx (knots_of p U) u k CLeftOrEqual)
      (fun l => p - k <= l <= n - k /\ (l = p - k \/ (nth (k + l) U n0 <=? u)%num = true)).
  Proof.
    intros HL Hpn Hk. unfold find_idx, vector_derivative. rewrite knots_of_vec by lia. cbn [bind kdegree kp knots_of].
    rewrite usub_ok by lia. cbn [bind]. fold (knots_of p U). rewrite (knots_of_segments p U n HL). cbn [bind].
    rewrite usub_ok by lia. cbn [bind]. assert (L := kderiv_length k U).
    apply (ok_while ud _ _ (fun i => p - k <= i <= n - k /\ (i = p - k \/ (nth (k + i) U n0 <=? u)%num = true))
             _ (fun i => n - k - i)).
    - lia.
    - lia.
    - intros i [Hi Hv]. rewrite (vget_nth _ (i + 1) n0) by lia. cbn [bind ok].
      rewrite nth_kderiv by lia.
      destruct (nth (k + (i + 1)) U n0 <=? u)%num eqn:E; cbn [andb]; [|split; assumption].
      destruct (i + 1 <? n + 1 - k) eqn:E2; [|split; assumption]. apply Nat.ltb_lt in E2.
      rewrite (vget_nth _ (i + 1 + 1) n0) by lia. cbn [bind ok snd fst].
      assert (I2 : p - k <= i + 1 <= n - k /\ (i + 1 = p - k \/ (nth (k + (i + 1)) U n0 <=? u)%num = true)).
      { split; [lia|]. right. exact E. }
      destruct (_ ==? _)%num; [exact I2|]. split; [exact I2|lia].
  Qed.

  (** ** Derivative control points *)
  Lemma derive_point_ok ud (G : gdiv ud) p U n dim (P : Mat K) rest km :
    length U = n + p + 2 -> shape dim (S n) P ->
    forall k i, k <= p -> i + k <= n ->
    ok ud (derive_single_point (mkCP (P :: rest) km) (knots_of p U) k i) (fun v => length v = dim).
  Proof.
    intros HL HP. induction k as [|k IH]; intros i Hk Hi.
    - cbn [derive_single_point Pk]. unfold vget at 1. cbn [nth_error bind].
      rewrite (mcol_val P dim (S n)) by (try exact HP; lia). cbn [ok]. apply HP. lia.
    - cbn [derive_single_point]. rewrite knots_of_vector. cbn [bind kdegree kp knots_of]. fold (knots_of p U).
      rewrite (vget_nth U (i + p + 1) n0) by lia. cbn [bind].
      rewrite (vget_nth U (i + S k) n0) by lia. cbn [bind].
      destruct (nth (i + p + 1) U n0 ==? nth (i + S k) U n0)%num eqn:E.
      + unfold cp_dimension, cp_matrix, vget. cbn [Pk nth_error bind ok]. rewrite vzeros_length. apply HP.
      + rewrite usub_ok by lia. cbn [bind]. eapply ok_bind; [apply G; exact E|]. intros s _.
        eapply ok_bind; [apply IH; lia|]. intros hi Hhi.
        eapply ok_bind; [apply IH; lia|]. intros lo Hlo.
        destruct (vsub_val hi lo) as [d [Ed [Ld _]]]; [congruence|]. rewrite Ed. cbn [bind ok].
        rewrite vscale_length. congruence.
  Qed.

  (** a curve object of degree [p] with [n + 1] control points in dimension [dim] *)
  Record wf (p n dim : nat) (U : Vec) (P : Mat K) (c : Curve K) : Prop := {
    wf_deg : p <= n;
    wf_len : length U = n + p + 2;
    wf_shape : shape dim (S n) P;
    wf_knots : cknots c = knots_of p U;
    wf_max : pk_max (cpoints c) = p;
    wf_head : nth 0 (Pk (cpoints c)) (mzeros 0 0) = P;
    wf_Pk : length (Pk (cpoints c)) = S p;
    wf_pts : forall k, k <= p -> shape dim (S n - k) (nth k (Pk (cpoints c)) (mzeros 0 0))
  }.

  Lemma cp_segments_val (P : Mat K) rest km dim n : shape dim (S n) P -> cp_segments (mkCP (P :: rest) km) = Val n.
  Proof.
    intros [_ [H _]]. unfold cp_segments, cp_count, count_derivative, vget. cbn [Pk nth_error bind].
    unfold ncols. rewrite H. rewrite usub_ok by lia. f_equal. lia.
  Qed.

  Lemma cp_dimension_val (P : Mat K) rest km dim n : shape dim n P -> cp_dimension (mkCP (P :: rest) km) = Val dim.
  Proof. intros [H _]. unfold cp_dimension, cp_matrix, vget. cbn [Pk nth_error bind]. rewrite H. reflexivity. Qed.

  Lemma points_derive_ok ud (G : gdiv ud) p U n dim (P : Mat K) rest km :
    p <= n -> length U = n + p + 2 -> shape dim (S n) P ->
    ok ud (points_derive (mkCP (P :: rest) km) (knots_of p U))
      (fun cp => pk_max cp = p /\ nth 0 (Pk cp) (mzeros 0 0) = P /\ length (Pk cp) = S p /\
                 forall k, k <= p -> shape dim (S n - k) (nth k (Pk cp) (mzeros 0 0))).
  Proof.
    intros Hpn HL HP. unfold points_derive. rewrite (cp_segments_val P rest km dim n HP). cbn [bind Pk firstn kdegree kp knots_of pk_max].
    fold (knots_of p U).
    eapply ok_bind with (Q := fun cp => exists r, Pk cp = P :: r /\ length (P :: r) = p + 1 /\
         forall k, k < p + 1 -> shape dim (S n - k) (nth k (P :: r) (mzeros 0 0))).
    - apply (ok_foldM_rangei ud _ (fun i cp => exists r, Pk cp = P :: r /\ length (P :: r) = i /\
         forall k, k < i -> shape dim (S n - k) (nth k (P :: r) (mzeros 0 0)))).
      + lia.
      + exists []. split; [reflexivity|]. split; [reflexivity|]. intros k Hk. replace k with 0 by lia. exact HP.
      + intros k [pk0 km0] Hk [r [E [Lr Hs]]]. cbn [Pk] in E. subst pk0.
        rewrite usub_ok by lia. cbn [bind]. rewrite (cp_dimension_val P r km0 dim (S n) HP). cbn [bind].
        eapply ok_bind with (Q := shape dim (n - k + 1)).
        * apply (ok_foldM_inv ud _ (shape dim (n - k + 1))); [apply mzeros_shape|].
          intros i Pm Hi HPm. unfold range in Hi. apply in_seq in Hi.
          eapply ok_bind; [apply (derive_point_ok ud G p U n dim P r km0 HL HP k i); lia|].
          intros v Hv. rewrite (mset_col_val Pm dim (n - k + 1)) by (try assumption; lia).
          cbn [ok]. apply upd_shape; [assumption|lia|assumption].
        * intros Pm HPm. cbn [ok Pk]. exists (r ++ [Pm]). split; [reflexivity|]. cbn [length] in Lr. split.
          { cbn [length]. rewrite app_length. simpl. lia. }
          intros j Hj. change (P :: r ++ [Pm]) with ((P :: r) ++ [Pm]).
          destruct (Nat.eq_dec j k) as [->|Hne].
          { rewrite app_nth2 by (cbn [length]; lia). cbn [length].
            replace (k - S (length r)) with 0 by lia. cbn [nth]. replace (S n - k) with (n - k + 1) by lia. exact HPm. }
          { rewrite app_nth1 by (cbn [length]; lia). apply Hs. lia. }
    - intros cp [r [E [Lr Hs]]]. cbn [ok Pk pk_max]. rewrite E. split; [reflexivity|]. split; [reflexivity|].
      split; [lia|]. intros k Hk. apply Hs. lia.
  Qed.

  Lemma curve_new_ok ud (G : gdiv ud) p U n dim (P : Mat K) :
    p <= n -> length U = n + p + 2 -> shape dim (S n) P ->
    ok ud (curve_new (knots_of p U) (cp_new P)) (fun r => exists c, r = Ok c /\ wf p n dim U P c).
  Proof.
    intros Hpn HL HP. unfold curve_new, cp_new. rewrite (cp_segments_val P [] 0 dim n HP). cbn [bind kdegree kp knots_of].
    replace (n <? p) with false by (symmetry; apply Nat.ltb_ge; lia).
    unfold calculate_derivatives. cbn [cknots cpoints]. fold (knots_of p U).
    rewrite (knots_derive_val _ (kderiv 0 U) (map (fun k => kderiv k U) (seq 1 p))).
    2:{ reflexivity. }
    2:{ cbn [kp knots_of]. rewrite kderiv_length. lia. }
    cbn [bind kp knots_of]. rewrite kderiv_0. fold (knots_of p U).
    apply ok_bind'. apply ok_bind'. eapply ok_weaken; [apply (points_derive_ok ud G p U n dim P [] 0); assumption|].
    intros cp [H1 [H2 [H3 H4]]]. cbn [ok]. eexists. split; [reflexivity|].
    split; cbn [cknots cpoints]; auto.
  Qed.

  (** ** Evaluation *)
  Lemma evaluate_derivative_ok ud (G : gdiv ud) p n dim U P c u k : wf p n dim U P c ->
    (n0 <=? u)%num = true -> (u <=? n1)%num = true ->
    ok ud (evaluate_derivative c u k) (fun r => exists v, r = Ok v /\ length v = dim /\ (p < k -> v = vzeros dim)).
  Proof.
    intros W H0 H1. unfold evaluate_derivative. rewrite H0, H1. cbn [andb negb].
    unfold degree, dimension, segments. destruct W as [Wd Wl Ws Wk Wm Wh Wp Wpt].
    destruct c as [kn [pk km]]. cbn [cknots cpoints pk_max Pk] in *. subst kn km.
    destruct pk as [|P0 pk]; [simpl in Wp; lia|]. cbn [nth] in Wh. subst P0.
    rewrite (cp_dimension_val P pk p dim (S n) Ws). cbn [bind kdegree kp knots_of]. fold (knots_of p U).
    destruct (k <=? p) eqn:Ek.
    - apply Nat.leb_le in Ek. rewrite (cp_segments_val P pk p dim n Ws). cbn [bind].
      eapply ok_bind; [apply (find_idx_le_ok ud p U n k u); assumption|]. intros l [Hl _].
      rewrite usub_ok by lia. cbn [bind]. rewrite usub_ok by lia. cbn [bind]. rewrite usub_ok by lia. cbn [bind].
      eapply ok_bind with (Q := fun v => length v = dim).
      + apply (ok_foldM_inv ud _ (fun v => length v = dim)); [apply vzeros_length|].
        intros i v Hi Hv. unfold rangei in Hi. apply in_seq in Hi.
        rewrite (kevaluate_val p U n) by (try assumption; lia).
        eapply ok_bind; [apply basis_ok; [exact G|lia| |]; rewrite kderiv_length; lia|]. intros b _.
        unfold matrix_derivative. cbn [pk_max Pk].
        assert (Ek' := Ek). apply Nat.leb_le in Ek'. rewrite Ek'. cbn [assert bind].
        rewrite (vget_nth _ k (mzeros 0 0)) by lia. cbn [bind].
        specialize (Wpt k Ek). rewrite (mcol_val _ dim (S n - k)) by (try exact Wpt; lia). cbn [bind].
        destruct Wpt as [_ [_ Wpt]]. specialize (Wpt i ltac:(lia)).
        destruct (vadd_val v (vscale b (nth i (mcols (nth k (P :: pk) (mzeros 0 0))) []))) as [r [E [L _]]].
        { rewrite vscale_length. congruence. }
        rewrite E. cbn [ok]. congruence.
      + intros v Hv. cbn [ok]. exists v. split; [reflexivity|]. split; [exact Hv|lia].
    - apply Nat.leb_gt in Ek. cbn [ok]. exists (vzeros dim). split; [reflexivity|].
      split; [apply vzeros_length|]. reflexivity.
  Qed.
End Struct.
