(** * Properties C20 - C23, C36, C37, C53: knot vectors and parameters *)

From Coq Require Import ZArith Reals List Bool Arith Lra Lia.
From Verif Require Import Num Vec MKnots MPoints MCurve RNum F64 Lists Spec Api Gen1 Gen2 Gen3 Gen4 Samples.
Import ListNotations.
Local Open Scope R_scope.

(** ** C20.  Uniform knots. *)
Theorem C20_uniform : forall p n, (1 <= p <= n)%nat ->
  exists kn (U : list R), @uniform RNum p n = Val (Ok kn) /\ knots_new p U = Val kn /\ vector kn = Val U /\
    clamped p n U /\ (forall i, (p < i <= n)%nat -> nth i U 0 = INR (i - p) / INR (n - p + 1)) /\
    is_clamped kn = Val true /\ is_normed kn = Val true /\ is_sorted kn = Val true /\ is_uniform kn = Val (Ok true).
Proof. exact uniform_fact. Qed.
Print Assumptions C20_uniform.

Theorem C20_uniform_errors : forall (K : Num) n, @uniform K 0 n = Val (Err (DegreeTooLow 0 0)) /\
  forall p, (1 <= p)%nat -> (n < p)%nat -> @uniform K p n = Val (Err (DegreeAndSegmentsMismatch p n)).
Proof. exact uniform_reject. Qed.
Print Assumptions C20_uniform_errors.

Example C20_hypotheses : (1 <= 3 <= 7)%nat /\ (1 <= 4)%nat /\ (2 < 4)%nat.
Proof. lia. Qed.

(** ** C21.  Averaged knots. *)
Theorem C21_averaging : forall p n v s, (1 <= p <= n)%nat -> length v = (n + 1)%nat ->
  exists kn (U : list R), @averaging RNum p n (mkParams v s) = Val (Ok kn) /\ knots_new p U = Val kn /\ vector kn = Val U /\
    length U = (n + p + 2)%nat /\
    (forall i, (i <= p)%nat -> nth i U 0 = 0) /\ (forall i, (n < i < n + p + 2)%nat -> nth i U 0 = 1) /\
    (forall j, (1 <= j <= n - p)%nat -> nth (p + j) U 0 = rsum (fun k => nth (j + k) v 0) p / INR p) /\
    (sorted v -> (forall x, In x v -> 0 <= x <= 1) -> sorted U) /\
    (increasing v -> nth 0 v 0 = 0 -> nth n v 0 = 1 -> clamped p n U /\ forall i j, (p <= i < j)%nat -> (j <= n + 1)%nat -> nth i U 0 < nth j U 0).
Proof. exact averaging_fact. Qed.
Print Assumptions C21_averaging.

(** the errors, for all three generators and in every number system *)
Theorem C21_generator_errors : forall (K : Num) (params : Parameters K) (m : KnotMethod) n,
  knots_generate 0 n params m = Val (Err (DegreeTooLow 0 0)) /\
  forall p, (1 <= p)%nat -> (n < p)%nat -> knots_generate p n params m = Val (Err (DegreeAndSegmentsMismatch p n)).
Proof. exact generators_reject. Qed.
Print Assumptions C21_generator_errors.

(** ** C22.  de Boor knots: every span holds a parameter (inner spans even in
    their interior). *)
Theorem C22_de_boor : forall p n v s, (1 <= p <= n)%nat -> length v = (n + 1)%nat -> increasing v -> nth 0 v 0 = 0 -> nth n v 0 = 1 ->
  exists kn (U : list R), @de_boor RNum p n (mkParams v s) = Val (Ok kn) /\ knots_new p U = Val kn /\ vector kn = Val U /\ clamped p n U /\
    forall i, (p <= i <= n)%nat -> exists g, (g <= n)%nat /\ nth i U 0 <= nth g v 0 <= nth (i + 1) U 0 /\
      ((i < n)%nat -> nth g v 0 < nth (i + 1) U 0) /\ ((p < i)%nat -> nth i U 0 < nth g v 0).
Proof. exact de_boor_fact. Qed.
Print Assumptions C22_de_boor.

Example C22_hypotheses : let v := [0; 1/8; 1/2; 3/4; 1] in
  (1 <= 2 <= 4)%nat /\ length v = (4 + 1)%nat /\ increasing v /\ sorted v /\ (forall x, In x v -> 0 <= x <= 1) /\ nth 0 v 0 = 0 /\ nth 4 v 0 = 1.
Proof.
  cbn zeta. split; [lia|]. split; [reflexivity|].
  assert (I : increasing [0; 1/8; 1/2; 3/4; 1]).
  { intros i j Hij Hj. cbn [length] in Hj. do 5 (destruct i as [|i]; [do 5 (destruct j as [|j]; [cbn; try lia; lra|]); lia|]). lia. }
  split; [exact I|]. split; [intros i j Hij Hj; destruct (Nat.eq_dec i j) as [->|]; [lra|left; apply I; lia]|].
  split; [|split; reflexivity]. intros x Hx. cbn [In] in Hx. repeat (destruct Hx as [<-|Hx]; [lra|]). destruct Hx.
Qed.

(** ** C23.  Parameters. *)
Theorem C23_equally_spaced : forall m, (1 <= m)%nat ->
  exists v, @equally_spaced RNum m = Val (mkParams v m) /\ length v = (m + 1)%nat /\ forall g, (g <= m)%nat -> nth g v 0 = INR g / INR m.
Proof. exact equally_spaced_R. Qed.
Print Assumptions C23_equally_spaced.

Theorem C23_chord_length : forall (P : Mat RNum) dim m, shape dim (m + 1) P -> (1 <= m)%nat ->
  (m = 1%nat \/ exists g, (g < m)%nat /\ exists d, (d < dim)%nat /\ ent P g d <> ent P (S g) d) ->
  exists v, @chord_length RNum P = Val (mkParams v m) /\ proportional v m (fun g => distance P dim (S g) g).
Proof. exact chord_length_R. Qed.
Print Assumptions C23_chord_length.

Theorem C23_centripetal : forall (P : Mat RNum) dim m, shape dim (m + 1) P -> (1 <= m)%nat ->
  (m = 1%nat \/ exists g, (g < m)%nat /\ exists d, (d < dim)%nat /\ ent P g d <> ent P (S g) d) ->
  exists v, @centripetal RNum P = Val (mkParams v m) /\ proportional v m (fun g => sqrt (distance P dim (S g) g)).
Proof. exact centripetal_R. Qed.
Print Assumptions C23_centripetal.

(** neighbours differ: strictly increasing from 0 to 1, for the three methods *)
Theorem C23_increasing : forall (P : Mat RNum) dim n pm, shape dim (S n) P -> (1 <= n)%nat ->
  (forall g, (g < n)%nat -> exists d, (d < dim)%nat /\ ent P g d <> ent P (S g) d) ->
  exists v, params_generate P pm = Val (mkParams v n) /\ length v = (n + 1)%nat /\ increasing v /\ nth 0 v 0 = 0 /\ nth n v 0 = 1.
Proof. exact params_increasing. Qed.
Print Assumptions C23_increasing.

Example C23_hypotheses : shape 2 4 P_a /\ (forall g, (g < 3)%nat -> exists d, (d < 2)%nat /\ ent P_a g d <> ent P_a (S g) d).
Proof.
  split; [exact P_a_shape|]. intros g Hg. exists 0%nat. split; [lia|]. do 3 (destruct g as [|g]; [unfold ent; cbn; lra|]); lia.
Qed.

(** ** C36.  The predicates. *)
Theorem C36_is_sorted : forall p (U : list R) kn, @knots_new RNum p U = Val kn ->
  exists b, is_sorted kn = Val b /\ (b = true <-> sorted U).
Proof. exact is_sorted_new. Qed.
Print Assumptions C36_is_sorted.

Theorem C36_is_clamped : forall p (U : list R) kn, @knots_new RNum p U = Val kn -> exists b, is_clamped kn = Val b /\
  (b = true <-> forall i, (i < length U)%nat -> ((i <= p)%nat -> nth i U 0 = 0) /\ ((length U <= i + p + 1)%nat -> nth i U 0 = 1)).
Proof. exact is_clamped_new. Qed.
Print Assumptions C36_is_clamped.

Theorem C36_is_normed : forall p (U : list R) kn, @knots_new RNum p U = Val kn -> exists b, is_normed kn = Val b /\
  (b = true <-> In 0 U /\ In 1 U /\ forall x, In x U -> 0 <= x <= 1).
Proof. exact is_normed_new. Qed.
Print Assumptions C36_is_normed.

Theorem C36_is_uniform : forall p n (U : list R) kn kn' U', length U = (n + p + 2)%nat -> @knots_new RNum p U = Val kn ->
  uniform p n = Val (Ok kn') -> vector kn' = Val U' -> exists b, is_uniform kn = Val (Ok b) /\ (b = true <-> U = U').
Proof. exact is_uniform_new. Qed.
Print Assumptions C36_is_uniform.

(** in every number system, NaN included *)
Theorem C36_is_sorted_any : forall (K : Num) p (U : list K) kn, knots_new p U = Val kn -> exists b, is_sorted kn = Val b /\
  (b = true <-> forall i, (S i < length U)%nat -> (nth i U n0 <=? nth (S i) U n0)%num = true).
Proof. exact @is_sorted_gen. Qed.
Print Assumptions C36_is_sorted_any.

Theorem C36_is_clamped_any : forall (K : Num) p (U : list K) kn, knots_new p U = Val kn -> exists b, is_clamped kn = Val b /\
  (b = true <-> forall i, (i < length U)%nat -> ((i <= p)%nat -> (nth i U n0 ==? n0)%num = true) /\
                                              ((length U <= i + p + 1)%nat -> (nth i U n0 ==? n1)%num = true)).
Proof. exact @is_clamped_gen. Qed.
Print Assumptions C36_is_clamped_any.

Example C36_hypotheses : (exists kn, @knots_new RNum 2 U_a = Val kn) /\ length U_a = (3 + 2 + 2)%nat /\ (exists kn, @uniform RNum 2 3 = Val (Ok kn)).
Proof.
  split; [eexists; reflexivity|]. split; [reflexivity|]. destruct (uniform_fact 2 3 ltac:(lia)) as [kn [U [E _]]]. exists kn. exact E.
Qed.

(** ** C37.  Rescaling and normalising. *)
Theorem C37_rescale : forall p (U : list R) kn a b c d, a <> b -> @knots_new RNum p U = Val kn ->
  knots_rescale kn (a, b) (c, d) = knots_new p (map (fun x => c + (x - a) / (b - a) * (d - c)) U).
Proof. exact rescale_fact. Qed.
Print Assumptions C37_rescale.

(** whenever normalize returns, the vector is mapped affinely onto [[0, 1]]; with
    lo = 0 and hi = 1 that is the identity *)
Theorem C37_normalize : forall p (U : list R) kn kn', @knots_new RNum p U = Val kn -> knots_normalize kn = Val kn' -> U <> [] ->
  exists lo hi, In lo U /\ In hi U /\ lo < hi /\ (forall x, In x U -> lo <= x <= hi) /\
    vector kn' = Val (map (fun x => (x - lo) / (hi - lo)) U) /\ is_normed kn' = Val true.
Proof. exact normalize_vector. Qed.
Print Assumptions C37_normalize.

(** for knots constant over the first and over the last p + 1 entries normalize
    does return, and the result is that of Knots::new on the normalised vector *)
Theorem C37_normalize_clamped : forall p n (U : list R) kn a b, length U = (n + p + 2)%nat -> (p <= n)%nat -> sorted U -> a < b ->
  (forall i, (i <= p)%nat -> nth i U 0 = a) -> (forall i, (n < i < n + p + 2)%nat -> nth i U 0 = b) -> @knots_new RNum p U = Val kn ->
  knots_normalize kn = knots_new p (map (fun x => (x - a) / (b - a)) U).
Proof. exact normalize_clamped. Qed.
Print Assumptions C37_normalize_clamped.

Example C37_hypotheses : let U := [2; 2; 2; 3; 5; 5; 5] in (exists kn, @knots_new RNum 2 U = Val kn) /\ length U = (3 + 2 + 2)%nat /\ sorted U /\
  (forall i, (i <= 2)%nat -> nth i U 0 = 2) /\ (forall i, (3 < i < 3 + 2 + 2)%nat -> nth i U 0 = 5).
Proof.
  cbn zeta. split; [eexists; reflexivity|]. split; [reflexivity|]. split; [apply sorted_steps; intros i Hi; cbn [length] in Hi; cases i|].
  split; intros i Hi; cases i.
Qed.

(** ** C53.  normalize does NOT keep the derivative knot vectors consistent on
    unclamped knots: each derivative vector is stretched onto [[0, 1]] on its own. *)
Theorem C53_normalize_coherent_refuted : exists kn kn' U' kn'', @knots_new RNum 1 [0; 1; 2; 3] = Val kn /\ knots_normalize kn = Val kn' /\
  vector kn' = Val U' /\ knots_new 1 U' = Val kn'' /\ vector_derivative kn' 1 = Val [0; 1] /\ vector_derivative kn'' 1 = Val [1/3; 2/3].
Proof. exact normalize_incoherent. Qed.
Print Assumptions C53_normalize_coherent_refuted.
