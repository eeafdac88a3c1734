(** * Divisions executed under the guard [x <> y] succeed in the concrete number systems *)

From Coq Require Import ZArith QArith Qcanon.
From Flocq Require Import IEEE754.BinarySingleNaN.
From Verif Require Import Num Hoare Struct QNum F64.

Lemma gdiv_F64 : @gdiv F64 False.
Proof. intros x y z _. exact I. Qed.

Lemma div_F64 (x y : F64) : ndiv x y <> Panic /\ ndiv x y <> Diverge.
Proof. split; discriminate. Qed.

Lemma gdiv_Q : @gdiv QNum False.
Proof.
  intros x y z H. cbn [neqb ndiv nsub QNum T] in *. unfold Qcdivm. destruct (Qceqb (x - y) 0) eqn:E; [|exact I].
  exfalso. unfold Qceqb in *. apply Qeq_bool_iff in E.
  assert (E2 : (x - y)%Qc = 0%Qc) by (apply Qc_is_canon; exact E).
  assert (E3 : x = y).
  { rewrite <- (Qcplus_0_l y). rewrite <- E2. change (T QNum) with Qc in *. ring. }
  rewrite E3 in H. rewrite Qeq_bool_refl in H. discriminate.
Qed.

Lemma div_Q (x y : QNum) : ndiv x y <> Panic /\ ndiv x y <> Diverge.
Proof. cbn [ndiv QNum]. unfold Qcdivm. destruct (Qceqb y 0); split; discriminate. Qed.
