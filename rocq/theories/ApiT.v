(** * Vocabulary: a call comes to an end *)

From Verif Require Import Num.

(** the call returns or panics; it leaves the number system ([Undef]) only if some
    division does so (in binary64 none does) *)
Definition ends (K : Num) {A : Type} (m : M A) : Prop :=
  m <> Diverge /\ (m = Undef -> exists x y : K, ndiv x y = Undef).

(** divisions come to an end *)
Definition divides (K : Num) : Prop := forall x y : K, ndiv x y <> Diverge.

(** the linear solver comes to an end *)
Definition stops (K : Num) {A B C : Type} (svd : A -> B -> M C) : Prop := forall a b, ends K (svd a b).
