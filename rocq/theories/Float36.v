(** * A run of edits to which the accuracy theorem applies *)

From Coq Require Import ZArith Reals List Bool Arith Lia Lra.
From Flocq Require Import Core.Core IEEE754.BinarySingleNaN.
From Verif Require Import Num Vec MKnots MPoints MCurve RNum F64 Hoare Lists Struct Spec Api ApiF ApiF3 ApiC ApiQ Facts11 Float1 Float8.
Import ListNotations.
Local Open Scope R_scope.

Definition same_numbers (V W : list f64) : bool :=
  (length V =? length W)%nat && forallb (fun z => is_finite (fst z) && is_finite (snd z) && Beqb (fst z) (snd z)) (combine V W).

Lemma same_numbers_val V : forall W, same_numbers V W = true -> map val V = map val W.
Proof.
  unfold same_numbers. induction V as [|x V IH]; intros [|y W] H; try reflexivity; try discriminate.
  cbn [length combine forallb fst snd] in H. apply andb_true_iff in H. destruct H as [H1 H2]. apply andb_true_iff in H2. destruct H2 as [H2 H3].
  apply andb_true_iff in H2. destruct H2 as [H2 H4]. apply andb_true_iff in H2. destruct H2 as [H2 H5].
  cbn [map]. f_equal; [|apply IH; apply andb_true_iff; split; [exact H1|exact H3]].
  rewrite (Beqb_correct _ _ x y H2 H5) in H4. revert H4. case Req_bool_spec; [intros E _; exact E|discriminate].
Qed.

Lemma val_q4_2 : val (q4 2) = 1 / 2. Proof. rewrite <- q4_SF. vm_compute B2SF. unfold SF2R, F2R. cbn -[IZR]. simpl bpow. lra. Qed.

Definition run_f : list (edit F64) := [EInsert (q4 2) 1; EReverse; ELeft (q4 2) (true, true); EInsert (q4 1) 2; ERight (q4 1) (true, true)].

(** the knots met on the way, in quarters *)
Fixpoint meets (c : Curve F64) (es : list (edit F64)) (Vs : list (list Z)) : bool :=
  match es, Vs with
  | [], [] => true
  | e :: es, V :: Vs => valb (vector (cknots c)) (fun v => same_numbers v (map q4 V)) && valb (edit_once c e) (fun c' => meets c' es Vs)
  | _, _ => false
  end.

Lemma meets_careful p g : forall es Vs c, meets c es Vs = true -> Forall2 (fun e V => forall v, map val v = map val (map q4 V) -> fits p g v e) es Vs -> careful p g c es.
Proof.
  induction es as [|e es IH]; intros [|V Vs] c H F; try discriminate; [exact I|].
  cbn [meets careful] in *. apply andb_true_iff in H. destruct H as [H1 H2]. apply valb_ex in H1. destruct H1 as [v [E1 S1]]. apply valb_ex in H2. destruct H2 as [c' [E2 H2]].
  inversion F as [|? ? ? ? F1 F2]; subst. split.
  - exists v. split; [exact E1|]. apply F1. apply same_numbers_val. exact S1.
  - intros c1 E. rewrite E2 in E. injection E as <-. apply (IH Vs); assumption.
Qed.

Ltac wides := intros x y Hx Hy Hl; simpl in Hx, Hy; repeat (destruct Hx as [<-|Hx]; [repeat (destruct Hy as [<-|Hy]; [lra|]); destruct Hy|]); destruct Hx.
Ltac counts := unfold mult; cbn [count_occ filter length]; repeat (destruct (Req_EM_T _ _); cbn [length]; try lra); lia.

Lemma run_f_careful : exists c, float_curve 2 3 1 U_f P_f 2 c /\ careful 2 (1 / 4) c run_f.
Proof.
  destruct (okb_ex (build 2 U_f P_f) (fun c => meets c run_f [[0; 0; 0; 1; 4; 4; 4]; [0; 0; 0; 1; 2; 4; 4; 4]; [0; 0; 0; 2; 3; 4; 4; 4]; [0; 0; 0; 4; 4; 4]; [0; 0; 0; 1; 1; 4; 4; 4]]%Z)) as [c [E H]]; [vm_compute; reflexivity|].
  assert (Hc := build_built 2 U_f P_f c E). clear E. exists c. split.
  - split; [exact U_f_float|]. split; [split; [reflexivity|split; [reflexivity|intros i Hi; do 4 (destruct i as [|i]; [reflexivity|]); lia]]|]. split; [exact P_f_pts|exact Hc].
  - apply (meets_careful _ _ _ _ _ H). clear H.
    assert (F1 : finite (q4 1)) by reflexivity. assert (F2 : finite (q4 2)) by reflexivity.
    repeat apply Forall2_cons; [| | | | |apply Forall2_nil]; intros v Ev; cbn [map] in Ev; rewrite ?val_q4_0, ?val_q4_1, ?val_q4_2, ?val_q4_3, ?val_q4_4 in Ev;
      (split; [rewrite Ev; wides|]); (split; [intros x Hx; rewrite Ev; counts|]); try exact I;
      [|split; [reflexivity|]| |split; [reflexivity|]].
    + split; [split; [exact F2|]; rewrite val_q4_2, Ev|rewrite val_q4_2, Ev; counts].
      split; [lra|]. split; [wides|intros x Hx; counts].
    + split; [exact F2|]. rewrite val_q4_2, Ev. split; [lra|]. split; [wides|intros x Hx; counts].
    + split; [split; [exact F1|]; rewrite val_q4_1, Ev|rewrite val_q4_1, Ev; counts].
      split; [lra|]. split; [wides|intros x Hx; counts].
    + split; [exact F1|]. rewrite val_q4_1, Ev. split; [lra|]. split; [wides|intros x Hx; counts].
Qed.
