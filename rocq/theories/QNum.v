(** * Canonical rationals as a number system, used to run the model *)

From Coq Require Import ZArith QArith Qcanon Qround.
From Verif Require Import Num.

Definition Qcleb (x y : Qc) : bool := Qle_bool x y.
Definition Qcltb (x y : Qc) : bool := negb (Qle_bool y x).
Definition Qceqb (x y : Qc) : bool := Qeq_bool x y.
Definition Qcdivm (x y : Qc) : M Qc := if Qceqb y 0%Qc then Undef else Val (x / y)%Qc.
(** exact on squares of rationals only; nothing is proved about it *)
Definition Qcsqrt (x : Qc) : Qc :=
  Q2Qc (Qmake (Z.sqrt (Qnum (this x))) (Z.to_pos (Z.sqrt (Zpos (Qden (this x)))))).

Definition QNum : Num :=
  mkNum Qc (Q2Qc 0) (Q2Qc 1) (Q2Qc (1 # 2)) (Q2Qc (-1 # 2))
        Qcplus Qcminus Qcmult Qcdivm Qcleb Qcltb Qceqb Qcsqrt
        (fun z => Q2Qc (inject_Z z)) (fun x => Qfloor (this x)).
Canonical QNum.

(** reading results *)
Definition q (n : Z) (d : positive) : QNum := Q2Qc (Qmake n d).
