(** * Generated knots and parameters *)

From Coq Require Import ZArith Reals List Bool Arith Lia Lra.
From Verif Require Import Num Vec MKnots MPoints MCurve RNum Hoare Lists Struct Spec BMath Api Bridge Facts1 Facts7.
Import ListNotations.

Section Fill.
  Context {K : Num}.

  (** writing [f i] at place [off + i] for consecutive [i] *)
  Lemma foldM_fill (body : list K -> nat -> M (list K)) (f : nat -> K) off a m (v : list K) : off + a + m <= length v ->
    (forall w i, length w = length v -> a <= i < a + m -> body w i = vset w (off + i) (f i)) ->
    exists w, foldM body (seq a m) v = Val w /\ length w = length v /\
      forall k, nth k w n0 = if (off + a <=? k) && (k <? off + a + m) then f (k - off) else nth k v n0.
  Proof.
    intros HL HB.
    assert (T : ok False (foldM body (seq a m) v) (fun w => length w = length v /\
      forall k, nth k w n0 = if (off + a <=? k) && (k <? off + (a + m)) then f (k - off) else nth k v n0)).
    { apply (ok_foldM_seq False body (fun j w => length w = length v /\
        forall k, nth k w n0 = if (off + a <=? k) && (k <? off + j) then f (k - off) else nth k v n0)).
      - split; [reflexivity|]. intros k. destruct (Nat.leb_spec (off + a) k), (Nat.ltb_spec k (off + a)); try reflexivity; lia.
      - intros i w Hi [Lw Hw]. rewrite HB by (try assumption; lia). rewrite vset_val by lia. cbn [ok]. rewrite upd_length.
        split; [exact Lw|]. intros k. rewrite nth_upd by lia. destruct (Nat.eqb_spec k (off + i)) as [->|Hk].
        + replace (off + a <=? off + i) with true by (symmetry; apply Nat.leb_le; lia).
          replace (off + i <? off + (1 + i)) with true by (symmetry; apply Nat.ltb_lt; lia). cbn [andb]. f_equal. lia.
        + rewrite Hw. destruct (Nat.ltb_spec k (off + i)), (Nat.ltb_spec k (off + (1 + i))); try reflexivity; lia. }
    apply ok_val_ex in T. destruct T as [w [E [L H]]]. exists w. split; [exact E|]. split; [exact L|].
    intros k. rewrite H. replace (off + (a + m)) with (off + a + m) by lia. reflexivity.
  Qed.

  Lemma clamp_tail_val (v : list K) n : n < length v ->
    exists w, clamp_tail v n = Val w /\ length w = length v /\
      forall k, k < length v -> nth k w n0 = if n <? k then n1 else nth k v n0.
  Proof.
    intros Hn. unfold clamp_tail, range.
    destruct (foldM_fill (fun w i => vset w i n1) (fun _ => n1) 0 (n + 1) (length v - (n + 1)) v) as [w [E [L H]]].
    - lia.
    - intros; reflexivity.
    - exists w. split; [exact E|]. split; [exact L|]. intros k Hk. rewrite H. cbn [plus].
      destruct (Nat.leb_spec (n + 1) k), (Nat.ltb_spec n k), (Nat.ltb_spec k (n + 1 + (length v - (n + 1)))); try reflexivity; lia.
  Qed.

  (** the knot vector with [p + 1] zeros, internal knots [f 1 .. f (n - p)], [p + 1] ones *)
  Definition fill_knots (p n : nat) (f : nat -> K) : list K :=
    map (fun k => if k <=? p then n0 else if k <=? n then f (k - p) else n1) (seq 0 (n + p + 2)).

  Lemma fill_length p n f : length (fill_knots p n f) = n + p + 2.
  Proof. unfold fill_knots. rewrite map_length, seq_length. reflexivity. Qed.

  Lemma nth_fill p n f k : k < n + p + 2 -> nth k (fill_knots p n f) n0 = if k <=? p then n0 else if k <=? n then f (k - p) else n1.
  Proof.
    intros H. unfold fill_knots. set (g := fun k => if k <=? p then n0 else if k <=? n then f (k - p) else n1).
    rewrite (nth_indep _ n0 (g 0)) by (rewrite map_length, seq_length; exact H).
    rewrite (map_nth g). rewrite seq_nth by exact H. reflexivity.
  Qed.

  Lemma nth_vzeros m k : nth k (@vzeros K m) n0 = n0.
  Proof. unfold vzeros. apply nth_repeat. Qed.

  (** the common frame of the three knot generators *)
  Lemma build_knots (body : list K -> nat -> M (list K)) (f : nat -> K) p n : p <= n ->
    (forall w i, length w = p + n + 2 -> 1 <= i <= n - p -> body w i = vset w (p + i) (f i)) ->
    (U <- foldM body (rangei 1 (n - p)) (vzeros (p + n + 2));;
     U <- clamp_tail U n;;
     kn <- knots_new p U;;
     Val (Ok kn : result (Knots K) (CurveError K))) = Val (Ok (knots_of p (fill_knots p n f))).
  Proof.
    intros Hpn HB. unfold rangei.
    destruct (foldM_fill body f p 1 (n - p + 1 - 1) (vzeros (p + n + 2))) as [w [E [L H]]].
    - rewrite vzeros_length. lia.
    - intros w i Hw Hi. rewrite vzeros_length in Hw. apply HB; [exact Hw|lia].
    - rewrite E. cbn [bind]. rewrite vzeros_length in L. destruct (clamp_tail_val w n ltac:(lia)) as [U [E2 [L2 H2]]].
      rewrite E2. cbn [bind]. assert (EU : U = fill_knots p n f).
      { apply (list_ext n0); [rewrite fill_length; lia|]. intros k Hk. rewrite H2 by lia. rewrite nth_fill by lia. rewrite H.
        rewrite nth_vzeros. destruct (Nat.ltb_spec n k), (Nat.leb_spec k p), (Nat.leb_spec k n), (Nat.leb_spec (p + 1) k), (Nat.ltb_spec k (p + 1 + (n - p + 1 - 1))); cbn [andb]; try reflexivity; lia. }
      rewrite EU. rewrite knots_new_val by (rewrite fill_length; lia). reflexivity.
  Qed.

  Lemma inputCheck_ok p n : 1 <= p <= n -> @inputCheck K p n = Ok tt.
  Proof. intros H. unfold inputCheck. destruct p; [lia|]. replace (n <? S p) with false by (symmetry; apply Nat.ltb_ge; lia). reflexivity. Qed.
  Lemma inputCheck_zero n : @inputCheck K 0 n = Err (DegreeTooLow 0 0).
  Proof. reflexivity. Qed.
  Lemma inputCheck_short p n : 1 <= p -> n < p -> @inputCheck K p n = Err (DegreeAndSegmentsMismatch p n).
  Proof. intros H1 H2. unfold inputCheck. destruct p; [lia|]. replace (n <? S p) with true by (symmetry; apply Nat.ltb_lt; lia). reflexivity. Qed.

  Lemma generate_bad (params : Parameters K) (m : KnotMethod) n : knots_generate 0 n params m = Val (Err (DegreeTooLow 0 0)).
  Proof. destruct m; reflexivity. Qed.
  Lemma generate_short (params : Parameters K) (m : KnotMethod) p n : 1 <= p -> n < p ->
    knots_generate p n params m = Val (Err (DegreeAndSegmentsMismatch p n)).
  Proof. intros H1 H2. destruct m; cbn [knots_generate]; unfold uniform, de_boor, averaging; rewrite inputCheck_short by assumption; reflexivity. Qed.
End Fill.

Local Open Scope R_scope.

Lemma nth_fill_R p n (f : nat -> R) k : (k < n + p + 2)%nat ->
  nth k (@fill_knots RNum p n f : list R) 0 = if (k <=? p)%nat then 0 else if (k <=? n)%nat then f (k - p)%nat else 1.
Proof. exact (@nth_fill RNum p n f k). Qed.
Lemma fill_length_R p n (f : nat -> R) : length (@fill_knots RNum p n f : list R) = (n + p + 2)%nat.
Proof. exact (@fill_length RNum p n f). Qed.

Lemma INR_pos n : (1 <= n)%nat -> 0 < INR n.
Proof. intros H. apply lt_0_INR. lia. Qed.

(** ** uniform *)
Definition unif (p n : nat) : list R := @fill_knots RNum p n (fun i => INR i / INR (n - p + 1)).

Lemma uniform_R p n : (1 <= p <= n)%nat -> @uniform RNum p n = Val (Ok (knots_of p (unif p n))).
Proof.
  intros H. unfold uniform. rewrite inputCheck_ok by exact H. rewrite usub_ok by lia. cbn [bind].
  apply (@build_knots RNum _ (fun i => INR i / INR (n - p + 1))); [lia|].
  intros w i Hw Hi. rewrite !nofnat_R. rn. rewrite Rdivm_val; [reflexivity|].
  assert (T := INR_pos (n - p + 1) ltac:(lia)). lra.
Qed.

(** sorted and clamped when the internal knots increase strictly inside (0, 1) *)
Lemma fill_sorted p n (f : nat -> R) : (p <= n)%nat ->
  (forall i, (1 <= i <= n - p)%nat -> 0 <= f i <= 1) -> (forall i, (1 <= i)%nat -> (S i <= n - p)%nat -> f i <= f (S i)) ->
  sorted (@fill_knots RNum p n f).
Proof.
  intros Hpn H01 Hs.
  assert (M : forall a b, (1 <= a <= b)%nat -> (b <= n - p)%nat -> f a <= f b).
  { intros a b [Ha Hab]. induction Hab as [|b Hab IH]; intros Hb; [lra|]. assert (T := Hs b ltac:(lia) Hb). specialize (IH ltac:(lia)). lra. }
  intros i j Hij Hj. assert (L := fill_length_R p n f). rn. rewrite L in Hj.
  rewrite (nth_fill_R p n f i) by lia. rewrite (nth_fill_R p n f j) by lia. rn.
  destruct (Nat.leb_spec i p).
  - destruct (Nat.leb_spec j p); [lra|]. destruct (Nat.leb_spec j n); [apply H01; lia|lra].
  - destruct (Nat.leb_spec j p); [lia|]. destruct (Nat.leb_spec i n).
    + destruct (Nat.leb_spec j n); [apply M; lia|apply H01; lia].
    + destruct (Nat.leb_spec j n); [lia|lra].
Qed.

Lemma fill_clamped p n (f : nat -> R) : (p <= n)%nat ->
  (forall i, (1 <= i <= n - p)%nat -> 0 < f i < 1) -> (forall i, (1 <= i)%nat -> (S i <= n - p)%nat -> f i <= f (S i)) ->
  clamped p n (@fill_knots RNum p n f).
Proof.
  intros Hpn H01 Hs. assert (L := fill_length_R p n f). split.
  - exact Hpn.
  - exact L.
  - apply fill_sorted; try assumption. intros i Hi. specialize (H01 i Hi). lra.
  - intros i Hi. rewrite (nth_fill_R p n f i) by lia. replace (i <=? p)%nat with true by (symmetry; apply Nat.leb_le; lia). reflexivity.
  - intros i Hi Hl. rn. rewrite L in Hl. rewrite (nth_fill_R p n f i) by lia.
    replace (i <=? p)%nat with false by (symmetry; apply Nat.leb_gt; lia). replace (i <=? n)%nat with false by (symmetry; apply Nat.leb_gt; lia). reflexivity.
  - intros i Hi Hl. rewrite (nth_fill_R p n f i) by lia.
    replace (i <=? p)%nat with false by (symmetry; apply Nat.leb_gt; lia). replace (i <=? n)%nat with true by (symmetry; apply Nat.leb_le; lia).
    apply H01. lia.
Qed.

Lemma frac_bounds i m : (1 <= i <= m)%nat -> 0 < INR i / INR (m + 1) < 1.
Proof.
  intros H. assert (A := INR_pos i ltac:(lia)). assert (B : INR i < INR (m + 1)) by (apply lt_INR; lia).
  split; [apply Rdiv_lt_0_compat; lra|]. apply (Rmult_lt_reg_r (INR (m + 1))); [lra|]. unfold Rdiv. rewrite Rmult_assoc, Rinv_l by lra. lra.
Qed.

Lemma frac_lt i j m : (1 <= m)%nat -> (i < j)%nat -> INR i / INR m < INR j / INR m.
Proof.
  intros Hm H. assert (T := INR_pos m Hm). unfold Rdiv. apply Rmult_lt_compat_r; [apply Rinv_0_lt_compat; exact T|apply lt_INR; exact H].
Qed.

Lemma unif_clamped p n : (p <= n)%nat -> clamped p n (unif p n).
Proof.
  intros H. apply fill_clamped; [exact H| |].
  - intros i Hi. apply frac_bounds. lia.
  - intros i Hi Hs. left. apply frac_lt; lia.
Qed.

(** ** is_uniform *)
Lemma vec_eqb_R (a b : list R) : @vec_eqb RNum a b = true <-> a = b.
Proof.
  unfold vec_eqb. rewrite andb_true_iff, Nat.eqb_eq, forallb_forall. split.
  - intros [L H]. apply (list_ext 0); [exact L|]. intros k Hk. apply Reqb_eq.
    assert (T := H (nth k a 0, nth k b 0)). cbn [fst snd] in T. apply T. rewrite <- combine_nth by exact L.
    apply nth_In. rewrite combine_length. rn. lia.
  - intros ->. split; [reflexivity|]. intros [x y] Hx. cbn [fst snd]. apply Reqb_eq.
    clear -Hx. induction b as [|z b IH]; [contradiction|]. destruct Hx as [Hx|Hx]; [congruence|auto].
Qed.

Lemma is_uniform_R p n (U : list R) : length U = (n + p + 2)%nat -> (p <= n)%nat ->
  (p = 0%nat /\ @is_uniform RNum (knots_of p U) = Val (Err (DegreeTooLow 0 0))) \/
  ((1 <= p)%nat /\ exists b, @is_uniform RNum (knots_of p U) = Val (Ok b) /\ (b = true <-> U = unif p n)).
Proof.
  intros L H. unfold is_uniform. rewrite (@knots_of_vector RNum p U). cbn [bind]. rewrite (@knots_of_segments RNum p U n L). cbn [bind].
  change (kdegree (@knots_of RNum p U)) with p. destruct p as [|p]; [left; split; reflexivity|right].
  split; [lia|]. rewrite uniform_R by lia. cbn [bind]. rewrite (@knots_of_vector RNum (S p) (unif (S p) n)). cbn [bind]. eexists. split; [reflexivity|]. apply vec_eqb_R.
Qed.

(** ** averaging *)
Lemma sum_R (v : list R) a m : (a + m <= length v)%nat ->
  foldM (fun s i => x <- @vget R v i;; Val (@nadd RNum s x)) (seq a m) 0 = Val (rsum (fun k => nth (a + k) v 0) m).
Proof.
  intros H. assert (T : ok False (foldM (fun s i => x <- @vget R v i;; Val (@nadd RNum s x)) (seq a m) 0) (fun s => s = rsum (fun k => nth (a + k) v 0) (a + m - a))).
  { apply (ok_foldM_seq False _ (fun j s => s = rsum (fun k => nth (a + k) v 0) (j - a))).
    - rewrite Nat.sub_diag. reflexivity.
    - intros i s Hi ->. rewrite (vget_nth v i 0) by lia. cbn [bind ok]. rn.
      replace (1 + i - a)%nat with (S (i - a)) by lia. cbn [rsum]. do 2 f_equal. lia. }
  apply ok_val_ex in T. destruct T as [s [E ->]]. rewrite E. do 2 f_equal. lia.
Qed.

Definition avg (p : nat) (v : list R) (j : nat) : R := rsum (fun k => nth (j + k) v 0) p / INR p.

Lemma averaging_R p n (v : list R) s : (1 <= p <= n)%nat -> length v = (n + 1)%nat ->
  @averaging RNum p n (mkParams v s) = Val (Ok (knots_of p (@fill_knots RNum p n (avg p v)))).
Proof.
  intros H L. unfold averaging. rewrite inputCheck_ok by exact H. rewrite usub_ok by lia. cbn [bind pvector].
  apply (@build_knots RNum _ (avg p v)); [lia|].
  intros w j Hw Hj. rewrite usub_ok by lia. cbn [bind]. unfold rangei.
  replace (j + p - 1 + 1 - j)%nat with p by lia. rn. rewrite sum_R by lia. cbn [bind]. rewrite nofnat_R.
  rewrite Rdivm_val; [reflexivity|]. assert (T := INR_pos p ltac:(lia)). lra.
Qed.

Lemma rsum_le f g n : (forall i, (i < n)%nat -> f i <= g i) -> rsum f n <= rsum g n.
Proof. induction n as [|n IH]; intros H; cbn [rsum]; [lra|]. assert (T := H n ltac:(lia)). specialize (IH ltac:(intros; apply H; lia)). lra. Qed.
Lemma rsum_lt f g n : (1 <= n)%nat -> (forall i, (i < n)%nat -> f i < g i) -> rsum f n < rsum g n.
Proof.
  intros Hn H. destruct n as [|n]; [lia|]. cbn [rsum]. assert (T := H n ltac:(lia)).
  assert (T2 := rsum_le f g n ltac:(intros i Hi; left; apply H; lia)). lra.
Qed.
Lemma rsum_c c n : rsum (fun _ => c) n = INR n * c.
Proof. induction n as [|n IH]; [simpl; lra|]. cbn [rsum]. rewrite IH, S_INR. lra. Qed.

Lemma div_le x y m : 0 < m -> x <= y -> x / m <= y / m.
Proof. intros Hm H. unfold Rdiv. apply Rmult_le_compat_r; [left; apply Rinv_0_lt_compat; exact Hm|exact H]. Qed.
Lemma div_lt x y m : 0 < m -> x < y -> x / m < y / m.
Proof. intros Hm H. unfold Rdiv. apply Rmult_lt_compat_r; [apply Rinv_0_lt_compat; exact Hm|exact H]. Qed.

Lemma avg_bounds p v j lo hi : (1 <= p)%nat -> (forall k, (k < p)%nat -> lo <= nth (j + k) v 0 <= hi) -> lo <= avg p v j <= hi.
Proof.
  intros Hp H. assert (P := INR_pos p Hp). unfold avg.
  assert (A := rsum_le (fun _ => lo) (fun k => nth (j + k) v 0) p ltac:(intros i Hi; apply H; exact Hi)).
  assert (B := rsum_le (fun k => nth (j + k) v 0) (fun _ => hi) p ltac:(intros i Hi; apply H; exact Hi)).
  rewrite rsum_c in A, B. split.
  - replace lo with (INR p * lo / INR p) by (field; lra). apply div_le; assumption.
  - replace hi with (INR p * hi / INR p) by (field; lra). apply div_le; assumption.
Qed.
Lemma avg_bounds_lt p v j lo hi : (1 <= p)%nat -> (forall k, (k < p)%nat -> lo < nth (j + k) v 0 < hi) -> lo < avg p v j < hi.
Proof.
  intros Hp H. assert (P := INR_pos p Hp). unfold avg.
  assert (A := rsum_lt (fun _ => lo) (fun k => nth (j + k) v 0) p Hp ltac:(intros i Hi; apply H; exact Hi)).
  assert (B := rsum_lt (fun k => nth (j + k) v 0) (fun _ => hi) p Hp ltac:(intros i Hi; apply H; exact Hi)).
  rewrite rsum_c in A, B. split.
  - replace lo with (INR p * lo / INR p) by (field; lra). apply div_lt; assumption.
  - replace hi with (INR p * hi / INR p) by (field; lra). apply div_lt; assumption.
Qed.

Lemma averaging_sorted p n v : (1 <= p <= n)%nat -> length v = (n + 1)%nat -> sorted v -> (forall x, In x v -> 0 <= x <= 1) ->
  sorted (@fill_knots RNum p n (avg p v)).
Proof.
  intros H L S B. apply fill_sorted; [lia| |].
  - intros i Hi. apply avg_bounds; [lia|]. intros k Hk. apply B. apply nth_In. lia.
  - intros i Hi Hs. unfold avg. apply div_le; [apply INR_pos; lia|]. apply rsum_le. intros k Hk. apply S; lia.
Qed.

Lemma averaging_clamped p n v : (1 <= p <= n)%nat -> length v = (n + 1)%nat -> increasing v -> nth 0 v 0 = 0 -> nth n v 0 = 1 ->
  clamped p n (@fill_knots RNum p n (avg p v)) /\ forall i, (1 <= i)%nat -> (S i <= n - p)%nat -> avg p v i < avg p v (S i).
Proof.
  intros H L S E0 E1.
  assert (Q : forall i, (1 <= i)%nat -> (Datatypes.S i <= n - p)%nat -> avg p v i < avg p v (Datatypes.S i)).
  { intros i Hi Hs. unfold avg. apply div_lt; [apply INR_pos; lia|]. apply rsum_lt; [lia|]. intros k Hk. apply S; lia. }
  split; [|exact Q]. apply fill_clamped; [lia| |].
  - intros i Hi. apply avg_bounds_lt; [lia|]. intros k Hk.
    assert (A := S 0%nat (i + k)%nat ltac:(lia) ltac:(lia)). assert (B := S (i + k)%nat n ltac:(lia) ltac:(lia)). lra.
  - intros i Hi Hs. left. apply Q; assumption.
Qed.

(** ** de Boor *)
Definition dbi (p n j : nat) : nat := Z.to_nat (Int_part (INR j * (INR (n + 1) / INR (n - p + 1)))).
Definition dba (p n j : nat) : R := INR j * (INR (n + 1) / INR (n - p + 1)) - INR (dbi p n j).
Definition dbk (p n : nat) (v : list R) (j : nat) : R :=
  (1 - dba p n j) * nth (dbi p n j - 1) v 0 + dba p n j * nth (dbi p n j) v 0.

Lemma int_part x : 0 <= x -> INR (Z.to_nat (Int_part x)) <= x < INR (Z.to_nat (Int_part x)) + 1.
Proof.
  intros H. destruct (base_Int_part x) as [A B].
  assert (Z0 : (0 <= Int_part x)%Z). { assert (T : (-1 < Int_part x)%Z) by (apply lt_IZR; lra). lia. }
  rewrite INR_IZR_INZ, Z2Nat.id by exact Z0. lra.
Qed.

(** places and weights of the de Boor knots *)
Lemma db_facts p n j : (1 <= p <= n)%nat -> (1 <= j <= n - p)%nat ->
  (1 <= dbi p n j <= n - 1)%nat /\ 0 <= dba p n j < 1 /\ (dbi p n j = 1%nat -> 0 < dba p n j).
Proof.
  intros H Hj. set (d := INR (n + 1) / INR (n - p + 1)).
  assert (Pm := INR_pos (n - p + 1) ltac:(lia)).
  assert (D1 : 1 < d). { unfold d. apply (Rmult_lt_reg_r (INR (n - p + 1))); [exact Pm|]. unfold Rdiv. rewrite Rmult_assoc, Rinv_l by lra. rewrite Rmult_1_r, Rmult_1_l. apply lt_INR. lia. }
  assert (Dm : INR (n - p + 1) * d = INR (n + 1)) by (unfold d; field; lra).
  assert (J1 : 1 <= INR j) by (apply (le_INR 1); lia).
  assert (Jd : 1 < INR j * d). { apply Rlt_le_trans with (1 * d); [lra|]. apply Rmult_le_compat_r; lra. }
  assert (Ju : INR j * d <= INR (n + 1) - d).
  { rewrite <- Dm. replace (INR (n - p + 1)) with (INR (n - p) + 1) by (rewrite plus_INR; simpl; lra).
    assert (INR j <= INR (n - p)) by (apply le_INR; lia). replace ((INR (n - p) + 1) * d - d) with (INR (n - p) * d) by ring.
    apply Rmult_le_compat_r; lra. }
  assert (I := int_part (INR j * d) ltac:(lra)). fold d in I. unfold dba. fold d.
  change (Z.to_nat (Int_part (INR j * d))) with (dbi p n j) in I.
  assert (Nn : INR (n + 1) = INR n + 1) by (rewrite plus_INR; simpl; lra). clearbody d.
  split; [|split; [lra|]].
  - split.
    + apply Nat.nlt_ge. intros C. assert (dbi p n j = 0)%nat as E by lia. rewrite E in I. simpl in I. lra.
    + apply Nat.nlt_ge. intros C. assert (INR n <= INR (dbi p n j)) by (apply le_INR; lia). lra.
  - intros E. rewrite E. simpl. lra.
Qed.

Lemma db_step p n j : (1 <= p <= n)%nat -> (1 <= j)%nat -> (S j <= n - p)%nat ->
  (dbi p n j < dbi p n (S j))%nat /\ (dbi p n (S j) = S (dbi p n j) -> dba p n j < dba p n (S j)).
Proof.
  intros H Hj Hs. destruct (db_facts p n j H ltac:(lia)) as [_ [A1 _]]. destruct (db_facts p n (S j) H ltac:(lia)) as [_ [A2 _]].
  unfold dba in *. set (d := INR (n + 1) / INR (n - p + 1)) in *.
  assert (Pm := INR_pos (n - p + 1) ltac:(lia)).
  assert (D1 : 1 < d). { unfold d. apply (Rmult_lt_reg_r (INR (n - p + 1))); [exact Pm|]. unfold Rdiv. rewrite Rmult_assoc, Rinv_l by lra. rewrite Rmult_1_r, Rmult_1_l. apply lt_INR. lia. }
  rewrite S_INR in *. split.
  - apply INR_lt. lra.
  - intros E. rewrite E, S_INR in *. lra.
Qed.

Lemma de_boor_R p n (v : list R) s : (1 <= p <= n)%nat -> length v = (n + 1)%nat ->
  @de_boor RNum p n (mkParams v s) = Val (Ok (knots_of p (@fill_knots RNum p n (dbk p n v)))).
Proof.
  intros H L. unfold de_boor. rewrite inputCheck_ok by exact H. rewrite usub_ok by lia. cbn [bind pvector].
  rewrite !nofnat_R. rn. rewrite Rdivm_val by (assert (T := INR_pos (n - p + 1) ltac:(lia)); lra). cbn [bind].
  apply (@build_knots RNum _ (dbk p n v)); [lia|].
  intros w j Hw Hj. rn. rewrite nofnat_R. fold (dbi p n j).
  destruct (db_facts p n j H ltac:(lia)) as [I _].
  rewrite usub_ok by lia. cbn [bind]. rewrite (vget_nth v _ 0) by lia. cbn [bind]. rewrite (vget_nth v _ 0) by lia. cbn [bind].
  rewrite nofnat_R. reflexivity.
Qed.

(** the [i]-th parameter lies strictly between the [j]-th internal knot and the next one *)
Lemma db_knot p n v j : (1 <= p <= n)%nat -> length v = (n + 1)%nat -> increasing v -> (1 <= j <= n - p)%nat ->
  nth (dbi p n j - 1) v 0 <= dbk p n v j < nth (dbi p n j) v 0 /\ (0 < dba p n j -> nth (dbi p n j - 1) v 0 < dbk p n v j).
Proof.
  intros H L S Hj. destruct (db_facts p n j H Hj) as [I [A _]]. assert (T := S (dbi p n j - 1)%nat (dbi p n j) ltac:(lia) ltac:(lia)).
  unfold dbk. set (a := dba p n j) in *. set (x := nth (dbi p n j - 1) v 0) in *. set (y := nth (dbi p n j) v 0) in *.
  replace ((1 - a) * x + a * y) with (x + a * (y - x)) by ring.
  assert (0 <= a * (y - x)) by (apply Rmult_le_pos; lra).
  assert ((1 - a) * (y - x) > 0) by (apply Rmult_gt_0_compat; lra).
  split; [nra|]. intros Ha. assert (0 < a * (y - x)) by (apply Rmult_lt_0_compat; lra). lra.
Qed.

Lemma db_between p n v j : (1 <= p <= n)%nat -> length v = (n + 1)%nat -> increasing v -> (1 <= j)%nat -> (S j <= n - p)%nat ->
  dbk p n v j < nth (dbi p n j) v 0 < dbk p n v (S j).
Proof.
  intros H L S Hj Hs. destruct (db_knot p n v j H L S ltac:(lia)) as [[_ A] _].
  destruct (db_knot p n v (Datatypes.S j) H L S ltac:(lia)) as [[B _] C].
  destruct (db_step p n j H Hj Hs) as [D E]. destruct (db_facts p n (Datatypes.S j) H ltac:(lia)) as [I _].
  destruct (db_facts p n j H ltac:(lia)) as [_ [A0 _]].
  split; [exact A|]. destruct (Nat.eq_dec (dbi p n (Datatypes.S j)) (Datatypes.S (dbi p n j))) as [Q|Q].
  - specialize (E Q). rewrite Q in C. replace (Datatypes.S (dbi p n j) - 1)%nat with (dbi p n j) in C by lia. apply C. lra.
  - assert (T := S (dbi p n j) (dbi p n (Datatypes.S j) - 1)%nat ltac:(lia) ltac:(lia)). lra.
Qed.

Lemma db_clamped p n v : (1 <= p <= n)%nat -> length v = (n + 1)%nat -> increasing v -> nth 0 v 0 = 0 -> nth n v 0 = 1 ->
  clamped p n (@fill_knots RNum p n (dbk p n v)).
Proof.
  intros H L S E0 E1. apply fill_clamped; [lia| |].
  - intros i Hi. destruct (db_knot p n v i H L S Hi) as [[A B] C]. destruct (db_facts p n i H Hi) as [I [_ F]].
    assert (T1 := S (dbi p n i) n ltac:(lia) ltac:(lia)). split; [|lra].
    destruct (Nat.eq_dec (dbi p n i) 1) as [Q|Q].
    + specialize (C (F Q)). rewrite Q in C. cbn [Nat.sub] in C. lra.
    + assert (T := S 0%nat (dbi p n i - 1)%nat ltac:(lia) ltac:(lia)). lra.
  - intros i Hi Hs. assert (T := db_between p n v i H L S Hi Hs). lra.
Qed.

(** every knot span holds a parameter *)
Lemma db_spans p n v i : (1 <= p <= n)%nat -> length v = (n + 1)%nat -> increasing v -> nth 0 v 0 = 0 -> nth n v 0 = 1 ->
  (p <= i <= n)%nat -> let U := (@fill_knots RNum p n (dbk p n v) : list R) in
  exists g, (g <= n)%nat /\ nth i U 0 <= nth g v 0 <= nth (i + 1) U 0 /\ ((i < n)%nat -> nth g v 0 < nth (i + 1) U 0) /\ ((p < i)%nat -> nth i U 0 < nth g v 0).
Proof.
  intros H L S E0 E1 Hi U. assert (C := db_clamped p n v H L S E0 E1). fold U in C.
  destruct (Nat.eq_dec i n) as [->|Hn].
  - exists n. split; [lia|]. rewrite E1. rewrite (cl_one _ _ _ C (n + 1)) by (rewrite ?(cl_len _ _ _ C); lia).
    destruct (Nat.eq_dec n p) as [->|]; [rewrite (cl_zero _ _ _ C) by lia; split; [lra|split; lia]|].
    assert (T := cl_inner _ _ _ C n ltac:(lia) ltac:(lia)). split; [lra|]. split; [lia|intros; lra].
  - assert (EI : nth (i + 1) U 0 = dbk p n v (i + 1 - p)).
    { unfold U. rewrite (nth_fill_R p n _ (i + 1)) by lia. replace (i + 1 <=? p)%nat with false by (symmetry; apply Nat.leb_gt; lia).
      replace (i + 1 <=? n)%nat with true by (symmetry; apply Nat.leb_le; lia). reflexivity. }
    destruct (Nat.eq_dec i p) as [->|Hp].
    + exists 0%nat. split; [lia|]. rewrite E0. rewrite (cl_zero _ _ _ C p) by lia.
      assert (T := cl_inner _ _ _ C (p + 1) ltac:(lia) ltac:(lia)). split; [lra|]. split; [intros; lra|lia].
    + assert (EJ : nth i U 0 = dbk p n v (i - p)).
      { unfold U. rewrite (nth_fill_R p n _ i) by lia. replace (i <=? p)%nat with false by (symmetry; apply Nat.leb_gt; lia).
        replace (i <=? n)%nat with true by (symmetry; apply Nat.leb_le; lia). reflexivity. }
      exists (dbi p n (i - p)). destruct (db_facts p n (i - p) H ltac:(lia)) as [I _]. split; [lia|].
      assert (T := db_between p n v (i - p) H L S ltac:(lia) ltac:(lia)). replace (Datatypes.S (i - p)) with (i + 1 - p)%nat in T by lia.
      rewrite EI, EJ. split; [lra|]. split; intros; lra.
Qed.
