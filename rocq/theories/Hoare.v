(** * Reasoning about outcomes

    [ok ud x Q]: running [x] does not panic and does not diverge; if it returns
    a value, the value satisfies [Q]; it may be [Undef] only if [ud] holds. *)

From Coq Require Import ZArith List Bool Arith Lia.
From Verif Require Import Num Vec.
Import ListNotations.

Definition ok {A} (ud : Prop) (x : M A) (Q : A -> Prop) : Prop :=
  match x with
  | Val a => Q a
  | Undef => ud
  | _ => False
  end.

Section Rules.
  Variable ud : Prop.

  Lemma ok_val {A} (a : A) (Q : A -> Prop) : Q a -> ok ud (Val a) Q.
  Proof. exact (fun H => H). Qed.

  Lemma ok_bind {A B} (x : M A) (f : A -> M B) (Q : A -> Prop) (R : B -> Prop) :
    ok ud x Q -> (forall a, Q a -> ok ud (f a) R) -> ok ud (bind x f) R.
  Proof. destruct x; simpl; intros H1 H2; auto. Qed.

  (** [bind] when the first part is known to have returned or the like *)
  Lemma ok_bind' {A B} (x : M A) (f : A -> M B) (R : B -> Prop) :
    ok ud x (fun a => ok ud (f a) R) -> ok ud (bind x f) R.
  Proof. destruct x; simpl; auto. Qed.

  Lemma ok_weaken {A} (x : M A) (Q R : A -> Prop) :
    ok ud x Q -> (forall a, Q a -> R a) -> ok ud x R.
  Proof. destruct x; simpl; auto. Qed.

  Lemma ok_and {A} (x : M A) (Q R : A -> Prop) :
    ok ud x Q -> ok ud x R -> ok ud x (fun a => Q a /\ R a).
  Proof. destruct x; simpl; auto. Qed.

  Lemma ok_usub a b (Q : nat -> Prop) : b <= a -> Q (a - b) -> ok ud (usub a b) Q.
  Proof. intros H HQ. unfold usub. apply Nat.leb_le in H. rewrite H. exact HQ. Qed.

  Lemma ok_assert b (Q : unit -> Prop) : b = true -> Q tt -> ok ud (assert b) Q.
  Proof. intros -> H. exact H. Qed.

  Lemma ok_vget {A} (v : list A) i (Q : A -> Prop) :
    i < length v -> (forall x, nth_error v i = Some x -> Q x) -> ok ud (vget v i) Q.
  Proof.
    intros H HQ. unfold vget. destruct (nth_error v i) as [x|] eqn:E; [apply HQ; reflexivity|].
    apply nth_error_None in E. lia.
  Qed.

  Lemma ok_vget_nth {A} (v : list A) i d (Q : A -> Prop) :
    i < length v -> Q (nth i v d) -> ok ud (vget v i) Q.
  Proof.
    intros H HQ. apply ok_vget; [exact H|]. intros x Hx.
    rewrite (nth_error_nth v i d Hx) in HQ. exact HQ.
  Qed.

  Lemma ok_foldM_seq {S} (f : S -> nat -> M S) (Inv : nat -> S -> Prop) n : forall a s,
    Inv a s ->
    (forall i s, a <= i < a + n -> Inv i s -> ok ud (f s i) (Inv (1 + i))) ->
    ok ud (foldM f (seq a n) s) (Inv (a + n)).
  Proof.
    induction n as [|n IH]; intros a s H0 Hs; simpl.
    - rewrite Nat.add_0_r. exact H0.
    - eapply ok_bind; [apply Hs; [lia|exact H0]|].
      intros s' Hs'. replace (a + Datatypes.S n) with (Datatypes.S a + n) by lia.
      apply IH; [exact Hs'|]. intros i t Hi. apply Hs. lia.
  Qed.

  Lemma ok_foldM_rangei {S} (f : S -> nat -> M S) (Inv : nat -> S -> Prop) a b s :
    a <= b + 1 -> Inv a s ->
    (forall i s, a <= i <= b -> Inv i s -> ok ud (f s i) (Inv (1 + i))) ->
    ok ud (foldM f (rangei a b) s) (Inv (b + 1)).
  Proof.
    intros Hab H0 Hs. unfold rangei. replace (b + 1) with (a + (b + 1 - a)) at 2 by lia.
    apply ok_foldM_seq; [exact H0|]. intros i t Hi. apply Hs. lia.
  Qed.

  Lemma ok_foldM_range {S} (f : S -> nat -> M S) (Inv : nat -> S -> Prop) a b s :
    a <= b -> Inv a s ->
    (forall i s, a <= i < b -> Inv i s -> ok ud (f s i) (Inv (1 + i))) ->
    ok ud (foldM f (range a b) s) (Inv b).
  Proof.
    intros Hab H0 Hs. unfold range. replace b with (a + (b - a)) at 2 by lia.
    apply ok_foldM_seq; [exact H0|]. intros i t Hi. apply Hs. lia.
  Qed.

  (** an invariant that does not mention the index *)
  Lemma ok_foldM_inv {S X} (f : S -> X -> M S) (Inv : S -> Prop) l : forall s,
    Inv s -> (forall x s, In x l -> Inv s -> ok ud (f s x) Inv) -> ok ud (foldM f l s) Inv.
  Proof.
    induction l as [|x l IH]; intros s H0 Hs; simpl; [exact H0|].
    eapply ok_bind; [apply Hs; [left; reflexivity|exact H0]|].
    intros s' H'. apply IH; [exact H'|]. intros y t Hy. apply Hs. right. exact Hy.
  Qed.

  (** element-wise specification of [mapM] *)
  Lemma ok_mapM {X A} (f : X -> M A) (Q : X -> A -> Prop) l :
    (forall x, In x l -> ok ud (f x) (Q x)) -> ok ud (mapM f l) (Forall2 Q l).
  Proof.
    induction l as [|x l IH]; intros H; simpl; [constructor|].
    eapply ok_bind; [apply H; left; reflexivity|]. intros a Ha.
    eapply ok_bind; [apply IH; intros y Hy; apply H; right; exact Hy|]. intros r Hr.
    simpl. constructor; assumption.
  Qed.

  (** while loops with a decreasing measure *)
  Lemma ok_while {S} (cond : S -> M bool) (body : S -> M (S * bool)) (Inv : S -> Prop)
        (Q : S -> Prop) (meas : S -> nat) fuel : forall s,
    Inv s -> meas s < fuel ->
    (forall s, Inv s ->
       ok ud (cond s) (fun b =>
         if (b : bool) then ok ud (body s) (fun sb => if snd sb then Q (fst sb)
                                                     else Inv (fst sb) /\ meas (fst sb) < meas s)
         else Q s)) ->
    ok ud (while_ fuel cond body s) Q.
  Proof.
    induction fuel as [|fuel IH]; intros s Hs Hm Hstep; [lia|]. simpl.
    apply ok_bind'. eapply ok_weaken; [apply Hstep; exact Hs|].
    intros [|] Hb; [|exact Hb].
    apply ok_bind'. eapply ok_weaken; [exact Hb|].
    intros [s' [|]] H'; simpl in *; [exact H'|].
    apply IH; [apply H'|lia|exact Hstep].
  Qed.
End Rules.

(** with [ud = False] the computation returns *)
Lemma ok_val_ex {A} (x : M A) Q : ok False x Q -> exists a, x = Val a /\ Q a.
Proof. destruct x; simpl; try contradiction. eauto. Qed.

Lemma ok_of_val {A} ud (x : M A) (Q : A -> Prop) a : x = Val a -> Q a -> ok ud x Q.
Proof. intros -> H. exact H. Qed.

Lemma ok_val_inv {A} ud (x : M A) Q a : ok ud x Q -> x = Val a -> Q a.
Proof. intros H ->. exact H. Qed.

(** inverting a successful [bind] *)
Lemma bind_val {A B} (x : M A) (f : A -> M B) b :
  bind x f = Val b -> exists a, x = Val a /\ f a = Val b.
Proof. destruct x; simpl; try discriminate. eauto. Qed.

Lemma usub_val a b c : usub a b = Val c -> b <= a /\ c = a - b.
Proof.
  unfold usub. destruct (b <=? a) eqn:E; [|discriminate].
  apply Nat.leb_le in E. intros H; injection H; auto.
Qed.

Lemma vget_val {A} (v : list A) i x : vget v i = Val x <-> nth_error v i = Some x.
Proof. unfold vget. destruct (nth_error v i); split; congruence. Qed.

Lemma vget_nth {A} (v : list A) i d : i < length v -> vget v i = Val (nth i v d).
Proof. intros H. apply vget_val. apply nth_error_nth'. exact H. Qed.

Ltac inv_bind H :=
  match type of H with
  | bind ?x ?f = Val ?b =>
      let a := fresh "a" in let E := fresh "E" in
      apply bind_val in H; destruct H as [a [E H]]
  end.
