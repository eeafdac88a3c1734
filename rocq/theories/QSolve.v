(** * A Gauss-Jordan solver over the rationals

    Stands in for nalgebra's SVD when the model is run on concrete rational
    data.  Nothing is assumed about it: every theorem that runs it also checks
    [A * X = B] on the system at hand. *)

From Coq Require Import ZArith List QArith Qcanon Arith.
From Verif Require Import Num Vec QNum.
Import ListNotations.
Local Open Scope nat_scope.

Definition row_axpy (s : Qc) (x y : list Qc) : list Qc :=
  map (fun ab => (snd ab - s * fst ab)%Qc) (combine x y).

(** bring column [c] of the augmented rows to unit form *)
Definition eliminate (rows : list (list Qc)) (c : nat) : option (list (list Qc)) :=
  let fix find (l : list (list Qc)) (i : nat) : option nat :=
    match l with
    | [] => None
    | r :: l' => if (c <=? i) && negb (Qceqb (nth c r 0%Qc) 0%Qc) then Some i else find l' (i + 1)
    end in
  match find rows 0 with
  | None => None
  | Some piv =>
      let pr := nth piv rows [] in
      let cr := nth c rows [] in
      let rows := upd (upd rows piv cr) c pr in
      let inv := (/ nth c pr 0)%Qc in
      let pr := map (fun x => (inv * x)%Qc) pr in
      Some (map (fun ir => if fst ir =? c then pr
                           else row_axpy (nth c (snd ir) 0%Qc) pr (snd ir))
                (combine (seq 0 (length rows)) rows))
  end.

Definition gauss (A B : Mat QNum) : M (Mat QNum) :=
  let n := nrows A in
  let ra := mcols (mtranspose A) in
  let rb := mcols (mtranspose B) in
  let rows := map (fun ab => fst ab ++ snd ab) (combine ra rb) in
  match fold_left (fun o c => match o with Some r => eliminate r c | None => None end) (seq 0 n) (Some rows) with
  | None => Undef
  | Some rows => Val (mtranspose (mkMat (ncols B) (map (skipn n) rows)))
  end.

Definition mat_eqb (a b : Mat QNum) : bool :=
  (nrows a =? nrows b) && (ncols a =? ncols b) &&
  forallb (fun xy => (length (fst xy) =? length (snd xy)) &&
                     forallb (fun z => Qceqb (fst z) (snd z)) (combine (fst xy) (snd xy)))
          (combine (mcols a) (mcols b)).

(** [gauss], with the answer checked *)
Definition gauss_checked (A B : Mat QNum) : M (Mat QNum) :=
  X <- gauss A B;;
  AX <- mmul A X;;
  if mat_eqb AX B then Val X else Undef.
