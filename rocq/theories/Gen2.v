(** * Generated parameters, exact arithmetic *)

From Coq Require Import ZArith Reals List Bool Arith Lia Lra.
From Verif Require Import Num Vec MKnots MPoints MCurve RNum Hoare Lists Struct Spec BMath Api Bridge Facts1 Facts7 Gen1.
Import ListNotations.
Local Open Scope R_scope.

(** ** equally spaced *)
Lemma equally_spaced_R m : (1 <= m)%nat ->
  exists v, @equally_spaced RNum m = Val (mkParams v m) /\ length v = (m + 1)%nat /\ forall g, (g <= m)%nat -> nth g v 0 = INR g / INR m.
Proof.
  intros Hm. assert (P := INR_pos m Hm). unfold equally_spaced, range.
  destruct (@foldM_fill RNum (fun w g => x <- ndiv (nofnat g) (nofnat m);; vset w g x) (fun g => INR g / INR m) 0 1 (m - 1) (vzeros (m + 1))) as [w [E [L H]]].
  - rewrite vzeros_length. lia.
  - intros w i Hw Hi. rewrite !nofnat_R. rn. rewrite Rdivm_val by lra. reflexivity.
  - rewrite E. cbn [bind]. rewrite vzeros_length in L. rewrite vset_val by (rn; lia). cbn [bind]. eexists. split; [reflexivity|].
    split; [rewrite upd_length; exact L|]. intros g Hg. rn. rewrite nth_upd by lia.
    destruct (Nat.eqb_spec g m) as [->|Hgm]; [field; lra|].
    rn. rewrite H. destruct (Nat.leb_spec (0 + 1) g); cbn [andb].
    + replace (g <? 0 + 1 + (m - 1))%nat with true by (symmetry; apply Nat.ltb_lt; lia). rewrite Nat.sub_0_r. reflexivity.
    + assert (Z := @nth_vzeros RNum (m + 1) g). rn. rewrite Z. replace g with 0%nat by lia. simpl. lra.
Qed.

(** ** chord lengths *)
Lemma fold_squares (a : list R) : forall s, fold_left (fun s x => s + x * x) a s = s + rsum (fun d => nth d a 0 * nth d a 0) (length a).
Proof.
  induction a as [|x a IH]; intros s; [cbn; lra|]. cbn [fold_left length]. rewrite IH.
  assert (E : forall f n, rsum f (S n) = f 0%nat + rsum (fun i => f (S i)) n).
  { intros f. induction n as [|n IHn]; [cbn; lra|]. change (rsum f (S (S n))) with (rsum f (S n) + f (S n)). rewrite IHn. cbn [rsum]. lra. }
  rewrite E. cbn [nth]. lra.
Qed.

Lemma rsum_eq f g n : (forall i, (i < n)%nat -> f i = g i) -> rsum f n = rsum g n.
Proof. induction n as [|n IH]; intros H; [reflexivity|]. cbn [rsum]. rewrite H by lia. rewrite IH; [reflexivity|]. intros; apply H; lia. Qed.

Lemma chord_R (P : Mat RNum) dim m g : shape dim (m + 1) P -> (1 <= g <= m)%nat -> @chord RNum P g = Val (distance P dim g (g - 1)).
Proof.
  intros S Hg. unfold chord. rewrite (mcol_val _ _ _ g S) by lia. cbn [bind]. rewrite usub_ok by lia. cbn [bind].
  rewrite (mcol_val _ _ _ (g - 1) S) by lia. cbn [bind]. destruct S as [S1 [S2 S3]].
  destruct (@vsub_val RNum (nth g (mcols P) []) (nth (g - 1) (mcols P) [])) as [c [E [L H]]]; [rewrite !S3 by lia; reflexivity|].
  rewrite E. cbn [bind]. unfold vnorm, distance. rn. do 2 f_equal. rewrite fold_squares. rewrite Rplus_0_l. rewrite L, S3 by lia.
  apply rsum_eq. intros d Hd. assert (H' := H d 0 ltac:(rewrite S3 by lia; exact Hd)). rn. rewrite H'. reflexivity.
Qed.

Lemma distance_nonneg P dim i j : 0 <= distance P dim i j.
Proof. apply sqrt_pos. Qed.

Lemma rsum_squares_pos (f : nat -> R) n : 0 <= rsum (fun d => f d * f d) n /\ ((exists d, (d < n)%nat /\ f d <> 0) -> 0 < rsum (fun d => f d * f d) n).
Proof.
  induction n as [|n [IH1 IH2]]; [split; [cbn; lra|intros [d [Hd _]]; lia]|]. cbn [rsum].
  assert (S := Rle_0_sqr (f n)). unfold Rsqr in S. split; [lra|]. intros [d [Hd Hf]].
  destruct (Nat.eq_dec d n) as [->|Hn].
  - assert (T := Rlt_0_sqr (f n) Hf). unfold Rsqr in T. lra.
  - assert (T := IH2 ltac:(exists d; split; [lia|exact Hf])). lra.
Qed.

Lemma distance_pos P dim i j : (exists d, (d < dim)%nat /\ ent P i d <> ent P j d) -> 0 < distance P dim i j.
Proof.
  intros [d [Hd H]]. apply sqrt_lt_R0. apply (proj2 (rsum_squares_pos (fun d => ent P i d - ent P j d) dim)).
  exists d. split; [exact Hd|]. rn. lra.
Qed.

Lemma rsum_nonneg f n : (forall i, (i < n)%nat -> 0 <= f i) -> 0 <= rsum f n.
Proof. intros H. assert (T := rsum_le (fun _ => 0) f n H). rewrite rsum_c in T. lra. Qed.

Lemma rsum_pos_one f n g : (g < n)%nat -> (forall i, (i < n)%nat -> 0 <= f i) -> 0 < f g -> 0 < rsum f n.
Proof.
  induction n as [|n IH]; intros Hg H P; [lia|]. cbn [rsum]. destruct (Nat.eq_dec g n) as [->|Hn].
  - assert (T := rsum_nonneg f n ltac:(intros; apply H; lia)). lra.
  - assert (T := IH ltac:(lia) ltac:(intros; apply H; lia) P). assert (U := H n ltac:(lia)). lra.
Qed.

(** ** the cumulative loop, for any chord weight *)
Lemma foldM_sum (f : nat -> M R) (w : nat -> R) m : (forall g, (1 <= g <= m)%nat -> f g = Val (w g)) ->
  foldM (fun s g => c <- f g;; Val (s + c)) (rangei 1 m) 0 = Val (rsum (fun g => w (S g)) m).
Proof.
  intros H. unfold rangei. replace (m + 1 - 1)%nat with m by lia.
  assert (T : ok False (foldM (fun s g => c <- f g;; Val (s + c)) (seq 1 m) 0) (fun s => s = rsum (fun g => w (S g)) (1 + m - 1))).
  { apply (ok_foldM_seq False _ (fun j s => s = rsum (fun g => w (S g)) (j - 1))).
    - reflexivity.
    - intros i s Hi ->. rewrite H by lia. cbn [bind ok]. replace (1 + i - 1)%nat with (S (i - 1)) by lia. cbn [rsum]. do 2 f_equal. lia. }
  apply ok_val_ex in T. destruct T as [s [E ->]]. rewrite E. do 2 f_equal. lia.
Qed.

Lemma cumulative_R (f : nat -> M R) (w : nat -> R) m sum : (1 <= m)%nat -> (forall g, (1 <= g <= m)%nat -> f g = Val (w g)) -> (sum <> 0 \/ m = 1%nat) ->
  exists v, foldM (fun u g => c <- f g;; g1 <- usub g 1;; prev <- vget u g1;; x <- @ndiv RNum c sum;; vset u g (prev + x)) (range 1 m) (@vzeros RNum (m + 1)) = Val v /\
    length v = (m + 1)%nat /\ forall g, (g < m)%nat -> nth g v 0 = rsum (fun i => w (S i)) g / sum.
Proof.
  intros Hm H Hs. unfold range.
  destruct Hs as [Hs| ->].
  2:{ cbn [foldM seq Nat.sub]. eexists. split; [reflexivity|]. split; [reflexivity|]. intros g Hg. replace g with 0%nat by lia. simpl. lra. }
  assert (T : ok False (foldM (fun u g => c <- f g;; g1 <- usub g 1;; prev <- vget u g1;; x <- @ndiv RNum c sum;; vset u g (prev + x)) (seq 1 (m - 1)) (@vzeros RNum (m + 1)))
    (fun v => length v = (m + 1)%nat /\ forall g, (g < 1 + (m - 1))%nat -> nth g v 0 = rsum (fun i => w (S i)) g / sum)).
  { apply (ok_foldM_seq False _ (fun j v => length v = (m + 1)%nat /\ forall g, (g < j)%nat -> nth g v 0 = rsum (fun i => w (S i)) g / sum)).
    - split; [apply vzeros_length|]. intros g Hg. replace g with 0%nat by lia. assert (Z := @nth_vzeros RNum (m + 1) 0). rn. rewrite Z. simpl. lra.
    - intros i v Hi [L Hv]. rewrite H by lia. cbn [bind]. rewrite usub_ok by lia. cbn [bind]. rn. rewrite (vget_nth v _ 0) by lia. cbn [bind].
      rewrite Rdivm_val by exact Hs. cbn [bind]. rewrite vset_val by lia. cbn [ok]. rewrite upd_length. split; [exact L|].
      intros g Hg. rewrite nth_upd by lia. destruct (Nat.eqb_spec g i) as [->|Hgi]; [|apply Hv; lia].
      rewrite Hv by lia. replace i with (S (i - 1)) at 3 by lia. cbn [rsum]. replace (S (i - 1)) with i by lia. field. exact Hs. }
  apply ok_val_ex in T. destruct T as [v [E [L Hv]]]. exists v. split; [exact E|]. split; [exact L|]. intros g Hg. apply Hv. lia.
Qed.

Lemma proportional_intro (v : list R) m w : (1 <= m)%nat -> rsum w m <> 0 \/ m = 1%nat -> length v = (m + 1)%nat ->
  (forall g, (g < m)%nat -> nth g v 0 = rsum w g / rsum w m) -> proportional (upd v m 1) m w.
Proof.
  intros Hm Hs L H.
  assert (H0 : nth 0 v 0 = 0) by (rewrite H by lia; simpl; lra).
  split; [rewrite upd_length; exact L|]. split; [rewrite nth_upd by lia; replace (0 =? m)%nat with false by (symmetry; apply Nat.eqb_neq; lia); exact H0|].
  split; [rewrite nth_upd by lia; rewrite Nat.eqb_refl; reflexivity|]. intros g Hg. rewrite !nth_upd by lia.
  replace (g =? m)%nat with false by (symmetry; apply Nat.eqb_neq; lia).
  destruct (Nat.eqb_spec (S g) m) as [E|E].
  - destruct Hs as [Hs| ->].
    + rewrite H by lia. replace ((1 - rsum w g / rsum w m) * rsum w m) with (rsum w m - rsum w g) by (field; exact Hs). rewrite <- E. cbn [rsum]. lra.
    + replace g with 0%nat by lia. rewrite H0. cbn [rsum]. lra.
  - destruct Hs as [Hs| ->]; [|lia]. rewrite !H by lia. cbn [rsum]. field. exact Hs.
Qed.

Lemma chord_length_R (P : Mat RNum) dim m : shape dim (m + 1) P -> (1 <= m)%nat ->
  (m = 1%nat \/ exists g, (g < m)%nat /\ exists d, (d < dim)%nat /\ ent P g d <> ent P (S g) d) ->
  exists v, @chord_length RNum P = Val (mkParams v m) /\ proportional v m (fun g => distance P dim (S g) g).
Proof.
  intros S Hm Hd. unfold chord_length, dp_segments. assert (EN : ncols P = (m + 1)%nat) by apply S. rewrite EN, usub_ok by lia. cbn [bind].
  replace (m + 1 - 1)%nat with m by lia.
  set (w := fun g => distance P dim (Datatypes.S g) g).
  assert (HC : forall g, (1 <= g <= m)%nat -> @chord RNum P g = Val (w (g - 1)%nat)).
  { intros g Hg. rewrite (chord_R P dim m g S Hg). unfold w. replace (Datatypes.S (g - 1)) with g by lia. reflexivity. }
  rn. rewrite (foldM_sum (@chord RNum P) (fun g => w (g - 1)%nat) m HC). cbn [bind].
  rewrite (rsum_eq (fun g => w (Datatypes.S g - 1)%nat) w) by (intros; f_equal; lia).
  assert (NZ : rsum w m <> 0 \/ m = 1%nat).
  { destruct Hd as [->|[g [Hg Hd]]]; [right; reflexivity|left].
    assert (0 < rsum w m); [|lra]. apply rsum_pos_one with g; [exact Hg| |].
    - intros i _. apply distance_nonneg.
    - apply distance_pos. destruct Hd as [d [H1 H2]]. exists d. split; [exact H1|]. intros C. apply H2. symmetry. exact C. }
  destruct (cumulative_R (@chord RNum P) (fun g => w (g - 1)%nat) m (rsum w m) Hm HC NZ) as [v [E [L H]]].
  rn. rewrite E. cbn [bind]. rewrite vset_val by lia. cbn [bind]. eexists. split; [reflexivity|].
  apply proportional_intro; try assumption. intros g Hg. rewrite H by exact Hg. f_equal. apply rsum_eq. intros; f_equal; lia.
Qed.

Lemma centripetal_R (P : Mat RNum) dim m : shape dim (m + 1) P -> (1 <= m)%nat ->
  (m = 1%nat \/ exists g, (g < m)%nat /\ exists d, (d < dim)%nat /\ ent P g d <> ent P (S g) d) ->
  exists v, @centripetal RNum P = Val (mkParams v m) /\ proportional v m (fun g => sqrt (distance P dim (S g) g)).
Proof.
  intros S Hm Hd. unfold centripetal, dp_segments. assert (EN : ncols P = (m + 1)%nat) by apply S. rewrite EN, usub_ok by lia. cbn [bind].
  replace (m + 1 - 1)%nat with m by lia.
  set (w := fun g => sqrt (distance P dim (Datatypes.S g) g)).
  set (f := fun g => c <- @chord RNum P g;; Val (sqrt c)).
  assert (HC : forall g, (1 <= g <= m)%nat -> f g = Val (w (g - 1)%nat)).
  { intros g Hg. unfold f. rewrite (chord_R P dim m g S Hg). cbn [bind]. unfold w. replace (Datatypes.S (g - 1)) with g by lia. reflexivity. }
  assert (E1 : foldM (fun s g => c <- @chord RNum P g;; Val (@nadd RNum s (nsqrt c))) (rangei 1 m) n0 = Val (rsum w m)).
  { rewrite <- (rsum_eq (fun g => w (Datatypes.S g - 1)%nat) w) by (intros; f_equal; lia).
    rewrite <- (foldM_sum f (fun g => w (g - 1)%nat) m HC). apply foldM_ext. intros s g _. unfold f. destruct (chord P g); reflexivity. }
  rn. rewrite E1. cbn [bind].
  assert (NZ : rsum w m <> 0 \/ m = 1%nat).
  { destruct Hd as [->|[g [Hg Hd]]]; [right; reflexivity|left].
    assert (0 < rsum w m); [|lra]. apply rsum_pos_one with g; [exact Hg| |].
    - intros i _. apply sqrt_pos.
    - apply sqrt_lt_R0. apply distance_pos. destruct Hd as [d [H1 H2]]. exists d. split; [exact H1|]. intros C. apply H2. symmetry. exact C. }
  destruct (cumulative_R f (fun g => w (g - 1)%nat) m (rsum w m) Hm HC NZ) as [v [E [L H]]].
  match goal with |- context [foldM ?b (range 1 m) ?z] => assert (E2 : foldM b (range 1 m) z = Val v) end.
  { rewrite <- E. apply foldM_ext. intros s g _. unfold f. destruct (chord P g); reflexivity. }
  rewrite E2. cbn [bind]. rn. rewrite vset_val by lia. cbn [bind]. eexists. split; [reflexivity|].
  apply proportional_intro; try assumption. intros g Hg. rewrite H by exact Hg. f_equal. apply rsum_eq. intros; f_equal; lia.
Qed.

Lemma proportional_increasing v m w : proportional v m w -> (forall g, (g < m)%nat -> 0 < w g) -> increasing v.
Proof.
  intros [L [_ [_ H]]] Hw.
  assert (ST : forall g, (g < m)%nat -> nth g v 0 < nth (S g) v 0).
  { intros g Hg. assert (T := H g Hg). assert (W := Hw g Hg).
    assert (P : 0 < rsum w m) by (apply rsum_pos_one with g; [exact Hg|intros i Hi; left; apply Hw; exact Hi|exact W]).
    apply Rnot_le_lt. intros C. assert (0 <= (nth g v 0 - nth (S g) v 0) * rsum w m) by (apply Rmult_le_pos; lra). lra. }
  intros i j Hij. induction Hij as [|j Hij IH]; intros Hj; [apply ST; lia|]. assert (T := ST j ltac:(lia)). specialize (IH ltac:(lia)). lra.
Qed.

Lemma params_equal (a b : list R) : length a = length b -> (forall i, (i < length a)%nat -> nth i a 0 = nth i b 0) -> a = b.
Proof. intros L H. apply (list_ext 0); assumption. Qed.
