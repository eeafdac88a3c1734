(** * Curves whose control points have not been derived *)

From Coq Require Import ZArith Reals List Bool Arith Lia Lra Permutation.
From Verif Require Import Num Vec MKnots MPoints MCurve MMerge F64 RNum Lists Hoare Struct Divisions Spec Api Bridge Facts1 Facts2 Facts5 Float4 Facts6 Split2 Facts8.
Import ListNotations.

Section Bare.
  Context {K : Num}.

  Lemma insert_bare (kn : Knots K) P s km u :
    insert (mkCurve kn (cp_new P)) u =
    match insert (mkCurve kn (mkCP (P :: s) km)) u with
    | Val (c, Ok t) => Val (c, Ok t)
    | Val (_, Err e) => Val (mkCurve kn (cp_new P), Err e)
    | Panic => Panic | Undef => Undef | Diverge => Diverge
    end.
  Proof.
    unfold insert. cbn [cknots cpoints]. change (degree (mkCurve kn (mkCP (P :: s) km))) with (degree (mkCurve kn (cp_new P))).
    destruct ((u <=? n0)%num || (n1 <=? u)%num); [reflexivity|].
    destruct (multiplicity kn u) as [m| | |]; cbn [bind]; try reflexivity.
    destruct (degree (mkCurve kn (cp_new P)) <? m); [reflexivity|].
    change (cp_dimension (mkCP (P :: s) km)) with (cp_dimension (cp_new P)).
    change (cp_matrix (mkCP (P :: s) km)) with (cp_matrix (cp_new P)).
    destruct (cp_dimension (cp_new P)) as [dim| | |]; cbn [bind]; try reflexivity.
    destruct (vector kn) as [v| | |]; cbn [bind]; try reflexivity.
    destruct (cp_matrix (cp_new P)) as [P0| | |]; cbn [bind]; try reflexivity.
    destruct (find_idx kn u 0 CLeftOrEqual) as [l| | |]; cbn [bind]; try reflexivity.
    destruct (insert_row v (l + 1) u) as [vn| | |]; cbn [bind]; try reflexivity.
    destruct (insert_points v P0 dim _ l u) as [Pn| | |]; cbn [bind]; try reflexivity.
    destruct (vset (Uk kn) 0 vn) as [uk| | |]; cbn [bind]; try reflexivity.
    unfold cp_new. cbn [Pk pk_max].
    change (vset [P] 0 Pn) with (@Val (list (Mat K)) [Pn]).
    change (vset (P :: s) 0 Pn) with (@Val (list (Mat K)) (Pn :: s)). cbn [bind].
    unfold calculate_derivatives. cbn [cknots cpoints].
    destruct (knots_derive (mkKnots uk (kp kn) (kk_max kn))) as [kn'| | |]; cbn [bind]; try reflexivity.
    change (mkCP [Pn] 0) with (cp_new Pn). rewrite (points_derive_indep Pn s km).
    destruct (points_derive (cp_new Pn) kn') as [cp| | |]; cbn [bind]; reflexivity.
  Qed.

  Lemma insert_times_bare (kn : Knots K) P s km u x :
    insert_times (mkCurve kn (cp_new P)) u (S x) =
    match insert (mkCurve kn (mkCP (P :: s) km)) u with
    | Val (c, Ok _) => insert_times c u x
    | Val (_, Err e) => Val (mkCurve kn (cp_new P), Err e)
    | Panic => Panic | Undef => Undef | Diverge => Diverge
    end.
  Proof.
    cbn [insert_times]. rewrite (insert_bare kn P s km).
    destruct (insert (mkCurve kn (mkCP (P :: s) km)) u) as [[c [t|e]]| | |]; cbn [bind]; reflexivity.
  Qed.

  Lemma insert_times_bare_ok (kn : Knots K) P s km u x c : 1 <= x ->
    insert_times (mkCurve kn (cp_new P)) u x = Val (c, Ok tt) <->
    insert_times (mkCurve kn (mkCP (P :: s) km)) u x = Val (c, Ok tt).
  Proof.
    intros H. destruct x as [|x]; [lia|]. rewrite (insert_times_bare kn P s km). cbn [insert_times].
    destruct (insert (mkCurve kn (mkCP (P :: s) km)) u) as [[c1 [[]|e]]| | |]; cbn [bind]; try tauto; split; discriminate.
  Qed.

  (** the result (apart from the curve left behind) is the same *)
  Lemma insert_times_bare_r (kn : Knots K) P s km u x :
    (r <- insert_times (mkCurve kn (cp_new P)) u x;; Val (snd r)) =
    (r <- insert_times (mkCurve kn (mkCP (P :: s) km)) u x;; Val (snd r)).
  Proof.
    destruct x as [|x]; [reflexivity|]. rewrite (insert_times_bare kn P s km). cbn [insert_times].
    destruct (insert (mkCurve kn (mkCP (P :: s) km)) u) as [[c1 [[]|e]]| | |]; cbn [bind]; reflexivity.
  Qed.

  Lemma split_bare (kn : Knots K) P s km u fl :
    split_and_normalize (mkCurve kn (cp_new P)) u fl = split_and_normalize (mkCurve kn (mkCP (P :: s) km)) u fl.
  Proof.
    unfold split_and_normalize. cbn [cknots]. change (degree (mkCurve kn (mkCP (P :: s) km))) with (degree (mkCurve kn (cp_new P))).
    set (p := degree (mkCurve kn (cp_new P))).
    destruct ((u <=? n0)%num || (n1 <=? u)%num); [reflexivity|].
    destruct (find_idx kn u 0 CLeftOrEqual) as [l| | |]; cbn [bind]; try reflexivity.
    destruct (vector kn) as [v| | |] eqn:Ev; cbn [bind]; try reflexivity.
    set (m := take_while_count u (skipn l v)). destruct (p <? m); [reflexivity|].
    destruct (usub p m) as [reps| | |]; cbn [bind]; try reflexivity.
    destruct reps as [|reps].
    - cbn [seq foldM bind cknots cpoints]. rewrite Ev. cbn [bind].
      change (cp_matrix (mkCP (P :: s) km)) with (cp_matrix (cp_new P)). reflexivity.
    - cbn [seq foldM]. rewrite (insert_bare kn P s km).
      destruct (insert (mkCurve kn (mkCP (P :: s) km)) u) as [[c1 [[]|e]]| | |]; cbn [bind unwrap]; reflexivity.
  Qed.

  Lemma merge_bare_l svd (kn : Knots K) P s km pa b :
    merge_with_constraints svd (mkCC (mkCurve kn (cp_new P)) pa) b = merge_with_constraints svd (mkCC (mkCurve kn (mkCP (P :: s) km)) pa) b.
  Proof. reflexivity. Qed.

  Lemma merge_bare_r svd (kn : Knots K) P s km pa b :
    merge_with_constraints svd b (mkCC (mkCurve kn (cp_new P)) pa) = merge_with_constraints svd b (mkCC (mkCurve kn (mkCP (P :: s) km)) pa).
  Proof. reflexivity. Qed.

  Lemma evaluate_bare (kn : Knots K) P s km u : evaluate (mkCurve kn (cp_new P)) u = evaluate (mkCurve kn (mkCP (P :: s) km)) u.
  Proof. reflexivity. Qed.
End Bare.

Section Bare2.
  Context {K : Num}.

  Lemma rev_keeps_head km (l : list nat) : Forall (fun k => 1 <= k) l -> forall (Q : Mat K) s pk,
    foldM (fun pk k =>
                   _ <- assert (k <=? km);;
                   m <- vget pk k;;
                   m <- mat_reverse m;;
                   let m := if k mod 2 =? 1 then mscale (nofZ (-1)) m else m in
                   vset pk k m) l (Q :: s) = Val pk -> exists s', pk = Q :: s'.
  Proof.
    intros H. induction H as [|k l Hk _ IH]; intros Q s pk E; cbn [foldM] in E; [injection E as <-; eexists; reflexivity|].
    destruct (k <=? km); cbn [assert bind] in E; [|discriminate].
    destruct (vget (Q :: s) k) as [m| | |]; cbn [bind] in E; try discriminate.
    destruct (mat_reverse m) as [m'| | |]; cbn [bind] in E; try discriminate.
    destruct k as [|k]; [lia|]. set (m2 := if S k mod 2 =? 1 then _ else _) in E.
    destruct (vset (Q :: s) (S k) m2) as [pk1| | |] eqn:E1; cbn [bind] in E; try discriminate.
    assert (Hd : exists s1, pk1 = Q :: s1).
    { unfold vset in E1. destruct (S k <? length (Q :: s)); [|discriminate]. injection E1 as <-. eexists. reflexivity. }
    destruct Hd as [s1 ->]. exact (IH _ _ _ E).
  Qed.

  Lemma reverse_bare (kn : Knots K) P s km r : reverse (mkCurve kn (mkCP (P :: s) km)) = Val r ->
    exists r', reverse (mkCurve kn (cp_new P)) = Val r' /\ forall u, evaluate r' u = evaluate r u.
  Proof.
    unfold reverse. cbn [cknots cpoints]. destruct (knots_reverse kn) as [kn'| | |]; cbn [bind]; try discriminate.
    unfold points_reverse, cp_new, rangei. cbn [Pk pk_max]. rewrite !Nat.sub_0_r. rewrite (Nat.add_1_r km).
    cbn [Nat.add seq foldM Nat.leb assert bind]. change (vget (P :: s) 0) with (@Val (Mat K) P). change (vget [P] 0) with (@Val (Mat K) P). cbn [bind].
    destruct (mat_reverse P) as [P'| | |]; cbn [bind]; try discriminate. cbn [Nat.modulo Nat.divmod fst snd Nat.sub Nat.eqb].
    change (vset (P :: s) 0 P') with (@Val (list (Mat K)) (P' :: s)). change (vset [P] 0 P') with (@Val (list (Mat K)) [P']). cbn [bind].
    intros E. set (X := foldM _ _ _) in E. destruct X as [pk| | |] eqn:EX; cbn [bind] in E; try discriminate.
    injection E as <-. unfold X in EX. apply rev_keeps_head in EX.
    2:{ apply Forall_forall. intros k Hk. apply in_seq in Hk. lia. }
    destruct EX as [s' ->]. eexists. split; [reflexivity|]. intros u. reflexivity.
  Qed.
End Bare2.

(** the shape of the derivative curve and of the curve rebuilt from its parts *)
Lemma derived_rebuilt (K : Num) : (forall x y : K, ndiv x y <> Panic /\ ndiv x y <> Diverge) ->
  forall p n dim (U : list K) (P : Mat K) c k c' d, sized p n dim U P -> built p U P c -> k <= p ->
  get_derivative_curve c k = Val c' -> curve_new (cknots c') (cpoints c') = Val (Ok d) ->
  exists Q s km, c' = mkCurve (knots_of (p - k) (kderiv k U)) (cp_new Q) /\
    d = mkCurve (knots_of (p - k) (kderiv k U)) (mkCP (Q :: s) km) /\
    sized (p - k) (n - k) dim (kderiv k U) Q /\ built (p - k) (kderiv k U) Q d.
Proof.
  intros D p n dim U P c k c' d So B Hk E N. assert (W := sized_wf True (gdiv_total K D) p n dim U P c So B).
  rewrite (derivative_curve_val p n dim U P c k W Hk) in E. injection E as <-.
  set (Q := nth k (Pk (cpoints c)) (mzeros 0 0)) in *. cbn [cknots cpoints] in N.
  assert (Wpt := wf_pts _ _ _ _ _ _ W k Hk). assert (Wd := wf_deg _ _ _ _ _ _ W). assert (Wl := wf_len _ _ _ _ _ _ W).
  fold Q in Wpt. replace (S n - k) with (S (n - k)) in Wpt by lia.
  assert (L : length (kderiv k U) = n - k + (p - k) + 2) by (rewrite kderiv_length; lia).
  assert (So' : sized (p - k) (n - k) dim (kderiv k U) Q) by (split; [lia|split; assumption]).
  assert (B' : built (p - k) (kderiv k U) Q d) by (exists (knots_of (p - k) (kderiv k U)); split; [apply knots_new_val; lia|exact N]).
  assert (W' := sized_wf True (gdiv_total K D) _ _ _ _ _ _ So' B').
  destruct W' as [_ _ _ Wk _ Wh Wp _]. destruct d as [kn [pk km]]. cbn [cknots cpoints Pk] in *. subst kn.
  destruct pk as [|Q0 s]; [simpl in Wp; lia|]. cbn [nth] in Wh. subst Q0.
  exists Q, s, km. split; [reflexivity|]. split; [reflexivity|]. split; assumption.
Qed.

Lemma derived_edits (K : Num) : (forall x y : K, ndiv x y <> Panic /\ ndiv x y <> Diverge) ->
  forall p n dim (U : list K) (P : Mat K) c k c' d, sized p n dim U P -> built p U P c -> k <= p ->
  get_derivative_curve c k = Val c' -> curve_new (cknots c') (cpoints c') = Val (Ok d) ->
  (forall u, evaluate c' u = evaluate d u) /\
  (forall u x e, 1 <= x -> insert_times c' u x = Val (e, Ok tt) <-> insert_times d u x = Val (e, Ok tt)) /\
  (forall u x, (r <- insert_times c' u x;; Val (snd r)) = (r <- insert_times d u x;; Val (snd r))) /\
  (forall u fl, split_and_normalize c' u fl = split_and_normalize d u fl) /\
  (forall r, reverse d = Val r -> exists r', reverse c' = Val r' /\ forall u, evaluate r' u = evaluate r u) /\
  (forall svd b q, merge_with_constraints svd (mkCC c' q) b = merge_with_constraints svd (mkCC d q) b /\
     merge_with_constraints svd b (mkCC c' q) = merge_with_constraints svd b (mkCC d q)).
Proof.
  intros D p n dim U P c k c' d So B Hk E N.
  destruct (derived_rebuilt K D p n dim U P c k c' d So B Hk E N) as [Q [s [km [-> [-> _]]]]].
  split; [intros u; apply evaluate_bare|]. split; [intros u x e Hx; apply insert_times_bare_ok; exact Hx|].
  split; [intros u x; apply insert_times_bare_r|]. split; [intros u fl; apply split_bare|].
  split; [intros r; apply reverse_bare|]. intros svd b q. split; [apply merge_bare_l|apply merge_bare_r].
Qed.

Lemma derived_rebuilds (K : Num) : @gdiv K False -> 
  forall p n dim (U : list K) (P : Mat K) c k, sized p n dim U P -> built p U P c -> k <= p ->
  exists c' d, get_derivative_curve c k = Val c' /\ curve_new (cknots c') (cpoints c') = Val (Ok d) /\
    max_derivative d = Val (p - k).
Proof.
  intros G p n dim U P c k So B Hk. assert (W := sized_wf False G p n dim U P c So B).
  assert (E := derivative_curve_val p n dim U P c k W Hk). set (Q := nth k (Pk (cpoints c)) (mzeros 0 0)) in *.
  assert (Wpt := wf_pts _ _ _ _ _ _ W k Hk). assert (Wd := wf_deg _ _ _ _ _ _ W). assert (Wl := wf_len _ _ _ _ _ _ W).
  fold Q in Wpt. replace (S n - k) with (S (n - k)) in Wpt by lia.
  assert (L : length (kderiv k U) = n - k + (p - k) + 2) by (rewrite kderiv_length; lia).
  assert (T := curve_new_ok False G (p - k) (kderiv k U) (n - k) dim Q ltac:(lia) L Wpt). apply ok_val_ex in T.
  destruct T as [r [N [d [-> W']]]]. eexists. exists d. split; [exact E|]. split; [exact N|].
  unfold max_derivative, kmax_derivative, pmax_derivative. rewrite (wf_knots _ _ _ _ _ _ W'), (wf_max _ _ _ _ _ _ W').
  cbn [kk_max knots_of]. rewrite Nat.eqb_refl. reflexivity.
Qed.

Local Open Scope R_scope.

Lemma count_occ_firstn_skipn (U : list R) k u : (2 * k <= length U)%nat ->
  (forall i, (i < k)%nat -> nth i U 0 <> u) -> (forall i, (length U - k <= i < length U)%nat -> nth i U 0 <> u) ->
  mult (kderiv k U) u = mult U u.
Proof.
  intros H A B. unfold mult.
  assert (E : U = firstn k U ++ kderiv k U ++ skipn (length U - 2 * k) (skipn k U)).
  { unfold kderiv. rewrite firstn_skipn, firstn_skipn. reflexivity. }
  rewrite E at 2. rewrite !count_occ_app.
  assert (Z1 : count_occ Req_EM_T (firstn k U) u = 0%nat).
  { apply count_occ_not_In. intros F. destruct (In_nth _ _ 0 F) as [i [Hi Ei]]. rewrite firstn_length in Hi.
    rewrite nth_firstn in Ei by lia. apply (A i); [lia|exact Ei]. }
  assert (Z2 : count_occ Req_EM_T (skipn (length U - 2 * k) (skipn k U)) u = 0%nat).
  { apply count_occ_not_In. intros F. destruct (In_nth _ _ 0 F) as [i [Hi Ei]]. rewrite !skipn_length in Hi.
    rewrite !nth_skipn in Ei. eapply B; [|exact Ei]. lia. }
  lia.
Qed.

Lemma mult_kderiv p n (U : list R) k u : clamped p n U -> (k <= p)%nat -> 0 < u < 1 -> mult (kderiv k U) u = mult U u.
Proof.
  intros [H1 H2 H3 H4 H5 H6] Hk Hu. apply count_occ_firstn_skipn; [lia| |].
  - intros i Hi. rewrite H4 by lia. lra.
  - intros i Hi. rewrite H5 by lia. lra.
Qed.

Lemma simple_kderiv p n (U : list R) k u : clamped p n U -> (k <= p)%nat -> 0 < u < 1 -> simple_below U u -> simple_below (kderiv k U) u.
Proof. intros C Hk Hu S x Hx. rewrite (mult_kderiv p n) by (assumption || lra). apply S. exact Hx. Qed.

Lemma derived_clamped p n dim U P c k : clamped_curve p n dim U P c -> (k <= p)%nat ->
  exists c' d Q, get_derivative_curve c k = Val c' /\ curve_new (cknots c') (cpoints c') = Val (Ok d) /\
    clamped_curve (p - k) (n - k) dim (kderiv k U) Q d /\ forall u, evaluate d u = evaluate_derivative c u k.
Proof.
  intros [C [HS B]] Hk. assert (So : @sized RNum p n dim U P) by (apply clamped_sized; [exact C|exact HS]).
  destruct (derived_rebuilds RNum gdiv_R p n dim U P c k So B Hk) as [c' [d [E [N _]]]].
  destruct (derived_rebuilt RNum div_R p n dim U P c k c' d So B Hk E N) as [Q [s [km [E1 [E2 [S' B']]]]]].
  exists c', d, Q. split; [exact E|]. split; [exact N|]. split.
  - split; [apply clamped_kderiv; assumption|]. split; [apply S'|exact B'].
  - intros u. destruct (derived_api RNum div_R p n dim U P c k So B Hk) as [c2 [F [_ [_ [_ [_ F2]]]]]].
    rewrite E in F. injection F as <-. rewrite <- F2. rewrite E1, E2. reflexivity.
Qed.

Lemma derived_insert p n dim U P c k c' u x : clamped_curve p n dim U P c -> (k <= p)%nat -> get_derivative_curve c k = Val c' ->
  0 < u < 1 -> (1 <= x)%nat -> (mult U u + x <= p - k + 1)%nat -> simple_below U u ->
  exists e V Q, insert_times c' u x = Val (e, Ok tt) /\ clamped_curve (p - k) (n - k + x) dim V Q e /\
    max_derivative e = Val (p - k)%nat /\ forall v, evaluate e v = evaluate_derivative c v k.
Proof.
  intros C Hk E Hu Hx Hm Sb. destruct (derived_clamped p n dim U P c k C Hk) as [c2 [d [Q [E2 [N [Cd Ed]]]]]].
  rewrite E in E2. injection E2 as <-.
  assert (So : @sized RNum p n dim U P) by (apply clamped_sized; apply C).
  destruct (derived_edits RNum div_R p n dim U P c k c' d So ltac:(apply C) Hk E N) as [_ [I _]].
  destruct (insert_times_exact x (p - k) (n - k) dim (kderiv k U) Q d u Cd Hu) as [e [V [Q' [F [Ce [_ Sf]]]]]].
  - rewrite (mult_kderiv p n) by (assumption || apply C). exact Hm.
  - apply (simple_kderiv p n); try assumption. apply C.
  - exists e, V, Q'. split; [apply I; assumption|]. split; [exact Ce|]. split.
    + assert (W : wf (K := RNum) (p - k) (n - k + x) dim V Q' e).
      { apply (sized_wf False gdiv_R); [apply clamped_sized; apply Ce|apply Ce]. }
      unfold max_derivative, kmax_derivative, pmax_derivative. rewrite (wf_knots _ _ _ _ _ _ W), (wf_max _ _ _ _ _ _ W).
      cbn [kk_max knots_of]. rewrite Nat.eqb_refl. reflexivity.
    + intros v. rewrite <- Ed. apply (Sf v 0%nat).
Qed.

Lemma derived_split p n dim U P c k c' u : clamped_curve p n dim U P c -> (k <= p)%nat -> get_derivative_curve c k = Val c' ->
  0 < u < 1 -> (mult U u <= p - k)%nat -> simple_below U u ->
  exists cl cr nl nr Ul Pl Ur Pr, split c' u = Val (Ok (cl, cr)) /\
    clamped_curve (p - k) nl dim Ul Pl cl /\ clamped_curve (p - k) nr dim Ur Pr cr /\
    forall t, 0 <= t <= 1 -> evaluate cl t = evaluate_derivative c (t * u) k /\
      evaluate cr t = evaluate_derivative c (u + t * (1 - u)) k.
Proof.
  intros C Hk E Hu Hm Sb. destruct (derived_clamped p n dim U P c k C Hk) as [c2 [d [Q [E2 [N [Cd Ed]]]]]].
  rewrite E in E2. injection E2 as <-.
  assert (So : @sized RNum p n dim U P) by (apply clamped_sized; apply C).
  destruct (derived_edits RNum div_R p n dim U P c k c' d So ltac:(apply C) Hk E N) as [_ [_ [_ [I _]]]].
  destruct (split_exact (p - k) (n - k) dim (kderiv k U) Q d u Cd Hu) as [cl [cr [nl [nr [Ul [Pl [Ur [Pr [F [C1 [C2 [_ G]]]]]]]]]]]].
  - rewrite (mult_kderiv p n) by (assumption || apply C). exact Hm.
  - apply (simple_kderiv p n); try assumption. apply C.
  - exists cl, cr, nl, nr, Ul, Pl, Ur, Pr. split; [unfold split in *; rewrite I; exact F|]. split; [exact C1|]. split; [exact C2|].
    intros t Ht. destruct (G t Ht) as [[A1 A2] _]. rewrite <- !Ed. split; assumption.
Qed.
