(** * Insertion and splitting in binary64: what stays exactly as it was *)

From Coq Require Import ZArith Reals List Bool Arith Lia Lra Permutation.
From Flocq Require Import Core.Core IEEE754.BinarySingleNaN.
From Verif Require Import Num Vec MKnots MPoints MCurve RNum F64 Lists Hoare Struct Facts4 Spec Api ApiF ApiF3 ApiK BMath Bridge Facts1 Facts5 Facts6 Facts7 Facts8 Facts9 Facts10 Split2 Float1 Float5 Float8 Float9 Float20 Float21 Float22 Float23.
Import ListNotations.
Local Open Scope R_scope.

Lemma insert_local p n dim U P c (u : F64) : on_knots p n dim U P c -> finite u -> 0 < val u < 1 -> (mult (map val U) (val u) <= p)%nat -> simple_below (map val U) (val u) ->
  exists c' P' l, @curve_insert F64 c u = Val (c', Ok tt) /\ on_knots p (S n) dim (firstn (l + 1) U ++ u :: skipn (l + 1) U) P' c' /\
    (p <= l <= n)%nat /\ nth l (map val U) 0 <= val u <= nth (l + 1) (map val U) 0 /\
    (forall i d, (i + p <= l)%nat -> (d < dim)%nat -> ent P' i d = ent P i d) /\
    (forall i d, (l < i <= S n)%nat -> (d < dim)%nat -> ent P' i d = ent P (i - 1) d).
Proof.
  intros H Fu Hu Hm Hs. assert (W := on_wf _ _ _ _ _ _ H). destruct (on_length _ _ _ _ _ _ H) as [L D]. assert (H' := H). destruct H' as [[_ [_ HS]] [_ [Ff C]]].
  assert (X := @insert_gen F64 False gdiv_F64 p n dim U P c u W (open_F64 u Fu Hu) ltac:(rewrite (dcount_on p n dim U P c u H Fu Hu); exact Hm) ltac:(intros; apply total_F64)).
  apply ok_val_ex in X. destruct X as [[c' r] [Ei [l [P' [F [Hl [EP [Er [W' B']]]]]]]]]. cbn [fst snd] in *. subst r.
  assert (F' : @find_idx RNum (knots_of p (map val U)) (val u) 0 CLeftOrEqual = Val l) by (rewrite <- (find_F64 p n U Ff L D u 0 CLeftOrEqual Fu ltac:(lia)); exact F).
  destruct (find_insert_simple p n (map val U) (val u) l C Hu Hs F') as [_ Hlu].
  exists c', P', l. split; [rewrite insert_once; exact Ei|]. change (firstn (l + 1) U ++ u :: skipn (l + 1) U) with (insU U l u).
  split; [|split; [exact Hl|split; [exact Hlu|]]].
  - split; [split; [apply W'|split; [apply W'|apply W']]|]. split; [exact B'|]. split.
    + intros x Hx. destruct (in_insU U l u x Hx) as [->|I]; [exact Fu|exact (Ff x I)].
    + rewrite map_insU. apply (insU_clamped p n (map val U) l (val u) C Hu Hl Hlu).
  - set (al := fun i => match @ndiv F64 (u - nth i U n0)%num (nth (i + p) U n0 - nth i U n0)%num with Val a => a | _ => n0 end).
    destruct (@insert_points_val F64 U P dim p n l u al L HS Hl ltac:(intros; reflexivity)) as [P2 [E2 [_ EN]]].
    rewrite EP in E2. injection E2 as <-. split; intros i d Hi Hd.
    + rewrite EN by lia. replace (i <=? l - p)%nat with true by (symmetry; apply Nat.leb_le; lia). reflexivity.
    + rewrite EN by lia. replace (i <=? l - p)%nat with false by (symmetry; apply Nat.leb_gt; lia).
      replace (i <=? l)%nat with false by (symmetry; apply Nat.leb_gt; lia). reflexivity.
Qed.

Lemma insert_ends x : forall p n dim U P c (u : F64), on_knots p n dim U P c -> finite u -> 0 < val u < 1 -> (mult (map val U) (val u) + x <= p + 1)%nat -> simple_below (map val U) (val u) ->
  exists c' U' P', @insert_times F64 c u x = Val (c', Ok tt) /\ on_knots p (n + x) dim U' P' c' /\
    forall d, (d < dim)%nat -> ent P' 0 d = ent P 0 d /\ ent P' (n + x) d = ent P n d.
Proof.
  induction x as [|x IH]; intros p n dim U P c u H Fu Hu Hm Hs.
  - exists c, U, P. split; [reflexivity|]. rewrite Nat.add_0_r. split; [exact H|]. intros d Hd. split; reflexivity.
  - destruct (insert_local p n dim U P c u H Fu Hu ltac:(lia) Hs) as [c1 [P1 [l [E1 [H1 [Hl [_ [A B]]]]]]]].
    assert (Pe := insU_perm U l u). unfold insU in Pe. set (U1 := firstn (l + 1) U ++ u :: skipn (l + 1) U) in *.
    destruct (IH p (S n) dim U1 P1 c1 u H1 Fu Hu ltac:(rewrite (mult_insert_F64 U U1 u Pe); lia) (simple_perm_F64 U U1 u Hs Pe)) as [c2 [U2 [P2 [E2 [H2 EE]]]]].
    exists c2, U2, P2. rewrite insert_once in E1. split; [cbn [insert_times]; rewrite E1; cbn [bind]; exact E2|].
    replace (n + S x)%nat with (S n + x)%nat by lia. split; [exact H2|]. intros d Hd. destruct (EE d Hd) as [X1 X2]. split.
    + rewrite X1. apply A; [lia|exact Hd].
    + rewrite X2. rewrite B by (try lia; exact Hd). f_equal. lia.
Qed.

Lemma float_on p n dim U P M c : float_curve p n dim U P M c -> on_knots p n dim U P c.
Proof.
  intros [K [HS [_ HB]]]. assert (C := proj1 (proj2 K)). split; [split; [apply (cl_deg _ _ _ C)|split; [|exact HS]]|split; [exact HB|split; [apply K|exact C]]].
  rewrite <- (cl_len _ _ _ C). symmetry. apply map_length.
Qed.

(** the parts meet in the same floating-point numbers *)
Lemma watertight p n dim (U : list f64) P M c P' cR (u : f64) g : float_curve p n dim U P M c -> same_points n dim P P' ->
  clamped_curve p n dim (map val U) P' cR -> (1 <= p <= 100)%nat -> / 2 ^ 1000 <= M <= 2 ^ 1019 -> finite u -> 0 < val u < 1 ->
  (forall x, 0 < x < 1 -> (mult (map val U) x <= p)%nat) -> simple_below (map val U) (val u) ->
  / 2 ^ 49 <= g -> wide g (val u :: map val U) ->
  exists cl cr, @split F64 c u = Val (Ok (cl, cr)) /\
    forall t0 t1 : f64, finite t0 -> finite t1 -> val t0 = 0 -> val t1 = 1 ->
      (exists f, returns_within (@evaluate F64 cl t1) dim f 0 /\ returns_within (@evaluate F64 cr t0) dim f 0) /\
      returns_within (@evaluate F64 cl t0) dim (fun d => val (ent P 0 d)) 0 /\
      returns_within (@evaluate F64 cr t1) dim (fun d => val (ent P n d)) 0.
Proof.
  intros H Sp HR Hp HM Fu Hu MU Hs Hg Wd.
  destruct (split_parts p n dim U P M c P' cR u g H Sp HR Hp HM Fu Hu MU Hs Hg Wd) as [cl [cr [c1 [V [Q [h [wl [Ql [wr [Qr [M1 [E [[E1 [H1 [Hh [Hhn [FL [FR [EL ER]]]]]]] _]]]]]]]]]]]]].
  set (x := (p - mult (map val U) (val u))%nat) in *.
  destruct (insert_ends x p n dim U P c u (float_on _ _ _ _ _ _ _ H) Fu Hu ltac:(assert (T := MU (val u) Hu); unfold x; lia) Hs) as [c1' [V' [Q' [E1' [H1' EE]]]]].
  rewrite E1 in E1'. injection E1' as <-.
  assert (EQ : Q' = Q).
  { destruct (@wf_cpoints F64 _ _ _ _ _ _ (on_wf _ _ _ _ _ _ H1')) as [s Es]. destruct (@wf_cpoints F64 _ _ _ _ _ _ (on_wf _ _ _ _ _ _ (float_on _ _ _ _ _ _ _ H1))) as [s' Es'].
    rewrite Es in Es'. injection Es' as -> _. reflexivity. }
  subst Q'. exists cl, cr. split; [exact E|]. intros t0 t1 F0 F1 V0 V1.
  assert (A := proj1 (ends_F64 _ _ _ _ _ _ _ t0 FL F0) V0). assert (B := proj2 (ends_F64 _ _ _ _ _ _ _ t1 FL F1) V1).
  assert (A' := proj1 (ends_F64 _ _ _ _ _ _ _ t0 FR F0) V0). assert (B' := proj2 (ends_F64 _ _ _ _ _ _ _ t1 FR F1) V1).
  split; [|split].
  - exists (fun d => val (ent Q (h - 1) d)). split.
    + eapply within_eq; [exact B| |lra]. intros d Hd. cbv beta. rewrite EL by lia. reflexivity.
    + eapply within_eq; [exact A'| |lra]. intros d Hd. cbv beta. rewrite ER by lia. rewrite Nat.add_0_r. reflexivity.
  - eapply within_eq; [exact A| |lra]. intros d Hd. cbv beta. rewrite EL by lia. rewrite (proj1 (EE d Hd)). reflexivity.
  - eapply within_eq; [exact B'| |lra]. intros d Hd. cbv beta. rewrite ER by lia. replace (h - 1 + (n + x - (h - 1)))%nat with (n + x)%nat by lia. rewrite (proj2 (EE d Hd)). reflexivity.
Qed.
