(** * Reversing data, reading points, and the unused bisection *)

From Coq Require Import ZArith Reals List Bool Arith Lia Lra.
From Verif Require Import Num Vec MKnots MPoints MCurve MFit MGenerate MDirect RNum Hoare Lists Struct Spec BMath BMath2 BMath3 Api Bridge Facts1 Facts5 Facts9 Fit9 Views.
Import ListNotations.

Lemma dp_reverse_spec (K : Num) r c (Q : Mat K) : shape r c Q ->
  exists Q', dp_reverse Q = Val Q' /\ shape r c Q' /\ dp_reverse Q' = Val Q /\ forall g d, g < c -> ent Q' g d = ent Q (c - 1 - g) d.
Proof.
  intros [A1 [A2 A3]]. unfold dp_reverse. exists (mkMat (nrows Q) (rev (mcols Q))). split; [apply mat_reverse_val|]. split; [|split].
  - split; [exact A1|]. cbn [mcols]. split; [rewrite rev_length; exact A2|]. intros i Hi. rewrite nth_rev by lia. apply A3. lia.
  - rewrite mat_reverse_val. cbn [mcols nrows]. rewrite rev_involutive. destruct Q. reflexivity.
  - intros g d Hg. unfold ent. cbn [mcols]. rewrite nth_rev by lia. f_equal. f_equal. lia.
Qed.

Lemma cp_get_spec (K : Num) p n dim (U : list K) P c : (forall x y : K, ndiv x y <> Panic /\ ndiv x y <> Diverge) -> sized p n dim U P -> built p U P c ->
  (forall i, i <= n -> exists v, cp_get (cpoints c) i = Val v /\ length v = dim /\ forall d, nth d v n0 = ent P i d) /\
  (forall i, n < i -> cp_get (cpoints c) i = Panic) /\ cp_is_empty (cpoints c) = Val (dim =? 0).
Proof.
  intros TD SZ B. destruct (curve_views K p n dim U P c TD SZ B) as (_ & _ & _ & _ & EM & _). destruct SZ as (_ & _ & SH). assert (X := SH). destruct X as [A1 [A2 A3]].
  unfold cp_get, cp_is_empty. rewrite EM. cbn [bind]. split; [|split].
  - intros i Hi. exists (nth i (mcols P) []). split; [apply (mcol_val P dim (S n)); [exact SH|lia]|]. split; [apply A3; lia|reflexivity].
  - intros i Hi. unfold mcol. apply vget_out. lia.
  - unfold mis_empty, ncols. rewrite A1, A2. cbn [Nat.eqb]. rewrite orb_false_r. reflexivity.
Qed.

Local Open Scope R_scope.

(** the bisection: the largest index of the domain whose knot is at most [u] *)
Lemma bisect (v : list R) u lo0 last : (last < length v)%nat -> sorted v ->
  forall fuel low high, (high - low < fuel)%nat -> (lo0 <= low <= high)%nat -> (high <= last)%nat -> nth low v 0 <= u -> (forall j, (high < j <= last)%nat -> u < nth j v 0) ->
  exists i, @while_ (nat * nat) fuel (fun '(low, high) => Val (low <? high))
              (fun '(low, high) => let mid := (high - (high - low) / 2)%nat in
                 x <- vget v mid;; if @nltb RNum u x then hi <- usub mid 1;; Val ((low, hi), false) else Val ((mid, high), false)) (low, high) = Val (i, i) /\
    (lo0 <= i <= last)%nat /\ nth i v 0 <= u /\ forall j, (i < j <= last)%nat -> u < nth j v 0.
Proof.
  intros Hl HS. induction fuel as [|fuel IH]; intros low high F1 F2 F3 F4 F5; [lia|]. cbn [while_ bind].
  destruct (Nat.ltb_spec low high) as [H|H]; cbn [bind].
  - set (mid := (high - (high - low) / 2)%nat).
    assert (D : ((high - low) / 2 < high - low)%nat) by (apply Nat.div_lt; lia).
    assert (M : (low < mid <= high)%nat) by (unfold mid; lia).
    rewrite (vget_nth v mid 0) by lia. cbn [bind]. cbn [nltb RNum]. unfold Rltb. destruct (Rlt_dec u (nth mid v 0)) as [C|C].
    + rewrite usub_ok by lia. cbn [bind]. apply IH; try lia; [exact F4|]. intros j Hj. apply Rlt_le_trans with (nth mid v 0); [exact C|]. destruct (Nat.eq_dec mid j) as [->|N]; [lra|].
      apply HS; lia.
    + cbn [bind]. apply IH; try lia; [lra|exact F5].
  - assert (low = high) by lia. subst low. exists high. repeat split; try lia; assumption.
Qed.

Lemma find_index_spec p n k (U : list R) u kn : length U = (n + p + 2)%nat -> (p <= n)%nat -> @knots_new RNum p U = Val kn -> (k <= p)%nat -> sorted U ->
  (u < nth p U 0 -> @find_index RNum kn u k = Val None) /\
  (nth p U 0 <= u -> exists i, @find_index RNum kn u k = Val (Some i) /\ (p - k <= i <= n + 1 - k)%nat /\ nth (k + i) U 0 <= u /\
     forall j, (i < j <= n + 1 - k)%nat -> u < nth (k + j) U 0).
Proof.
  intros L D E Hk HS. rewrite (knots_new_of p n U kn L D E). unfold find_index, vector_derivative. rewrite knots_of_vec by exact Hk. cbn [bind]. change (kdegree (knots_of p U)) with p.
  rewrite usub_ok by exact Hk. cbn [bind]. assert (KL : length (@kderiv R k U) = (n + p + 2 - 2 * k)%nat) by (rewrite kderiv_length, L; reflexivity).
  assert (KN : forall j, (j < n + p + 2 - 2 * k)%nat -> nth j (@kderiv R k U) 0 = nth (k + j) U 0) by (intros j Hj; apply nth_kderiv; rewrite L; exact Hj).
  change (T RNum) with R. rewrite (vget_nth (@kderiv R k U) (p - k) 0) by lia. cbn [bind]. rewrite KN by lia. replace (k + (p - k))%nat with p by lia.
  cbn [nltb RNum]. unfold Rltb. destruct (Rlt_dec u (nth p U 0)) as [C|C]; split; intros C'; try lra; [reflexivity|].
  rewrite usub_ok by lia. cbn [bind]. rewrite usub_ok by lia. cbn [bind].
  replace (length (@kderiv R k U) - (p - k) - 1)%nat with (n + 1 - k)%nat by lia.
  destruct (bisect (@kderiv R k U) u (p - k) (n + 1 - k) ltac:(lia)) with (fuel := S (S (n + 1 - k - (p - k)))) (low := (p - k)%nat) (high := (n + 1 - k)%nat) as (i & E1 & E2 & E3 & E4); try lia.
  - intros a b Hab Hb. rewrite !KN by lia. apply HS; lia.
  - rewrite KN by lia. replace (k + (p - k))%nat with p by lia. lra.
  - exists i. change (@T RNum) with R in *. match goal with |- context [while_ ?a ?b ?c ?d] => match type of E1 with context [while_ ?a' ?b' ?c' ?d'] => replace (while_ a b c d) with (@while_ (nat * nat) a' b' c' d') by reflexivity end end.
    rewrite E1. cbn [bind snd]. split; [reflexivity|]. split; [exact E2|]. split; [rewrite <- KN by lia; exact E3|]. intros j Hj. rewrite <- KN by lia. apply E4. exact Hj.
Qed.

Lemma rescaled_knot_spec x a b c d : a <> b -> @rescaled_knot RNum x (a, b) (c, d) = Val (c + (x - a) / (b - a) * (d - c)).
Proof.
  intros H. unfold rescaled_knot. cbn [fst snd ndiv RNum nsub]. unfold Rdivm. destruct Req_EM_T as [Z|Z]; [exfalso; apply H; lra|]. cbn [bind nadd nmul RNum]. f_equal. apply Rplus_comm.
Qed.

(** generation from reversed data, with the call that reverses them *)
Lemma generate_dp_reverse svd p m dim (Q : Mat RNum) : good_solver svd -> (1 <= p <= m)%nat -> shape dim (S m) Q ->
  exists Q' c c', dp_reverse Q = Val Q' /\ generate svd (Interpolation p Q) = Val (Ok c) /\ generate svd (Interpolation p Q') = Val (Ok c') /\ reverse c = Val c' /\ reverse c' = Val c.
Proof.
  intros G H S1. destruct (dp_reverse_spec RNum dim (S m) Q S1) as (Q' & E & S2 & E' & B). exists Q'.
  destruct (interpolation_reverse svd p m dim Q Q' G H S1 S2) as (c & c' & C1 & C2 & C3).
  { intros g d Hg Hd. rewrite B by lia. f_equal. lia. }
  destruct (interpolation_reverse svd p m dim Q' Q G H S2 S1) as (d & d' & D1 & D2 & D3).
  { intros g e Hg He. rewrite B by lia. f_equal. lia. }
  rewrite C3 in D1. injection D1 as <-. rewrite C1 in D3. injection D3 as <-.
  exists c, c'. repeat split; assumption.
Qed.
