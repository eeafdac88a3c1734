(** * Data that a solver with a cutoff loses *)

From Coq Require Import ZArith QArith Qreals Reals List Bool Arith Lia Lra.
From Verif Require Import Num Vec MKnots MPoints MCurve MFit MGenerate RNum Hoare Lists Struct Spec BMath BMath2 BMath3 Api ApiV Bridge Gen1 Gen2 Gen3 Gen4 Fit1 Fit2 Fit3 Fit5 Fit6 Svd1 Svd2 Svd3.
Import ListNotations.
Local Open Scope R_scope.

(** ** B-splines over the rationals *)
Definition qratio (x y : Q) : Q := if Qeq_bool y 0 then 0%Q else Qred (x / y).
Fixpoint qcox (base U : nat -> Q) (p i : nat) (x : Q) {struct p} : Q :=
  match p with
  | O => base i
  | S h => Qred (qratio (x - U i) (U (i + S h)%nat - U i) * qcox base U h i x + qratio (U (S i + S h)%nat - x) (U (S i + S h)%nat - U (S i)) * qcox base U h (S i) x)
  end.
Definition qind (U : nat -> Q) (n : nat) (u : Q) (i : nat) : Q :=
  if Qle_bool (U i) u then if negb (Qle_bool (U (S i)) u) then 1%Q else if (i =? n)%nat then (if Qeq_bool u (U (S n)) then 1%Q else 0%Q) else 0%Q else 0%Q.
Fixpoint qsum (f : nat -> Q) (n : nat) : Q := match n with O => 0%Q | S n' => Qred (qsum f n' + f n') end.

(** a sum without the terms known to vanish *)
Fixpoint qsumif (c : nat -> bool) (f : nat -> Q) (n : nat) : Q := match n with O => 0%Q | S n' => if c n' then Qred (qsumif c f n' + f n') else qsumif c f n' end.

Lemma Q2R_red q : Q2R (Qred q) = Q2R q.
Proof. apply Qeq_eqR, Qred_correct. Qed.
Lemma Q2R_0 : Q2R 0 = 0. Proof. unfold Q2R. cbn. lra. Qed.
Lemma Q2R_1 : Q2R 1 = 1. Proof. unfold Q2R. cbn. lra. Qed.
Lemma Q2R_qsum f n : Q2R (qsum f n) = rsum (fun i => Q2R (f i)) n.
Proof. induction n as [|n IH]; cbn [qsum rsum]; [apply Q2R_0|]. rewrite Q2R_red, Q2R_plus, IH. reflexivity. Qed.
Lemma Q2R_qsumif c f n : Q2R (qsumif c f n) = rsum (fun i => if c i then Q2R (f i) else 0) n.
Proof. induction n as [|n IH]; cbn [qsumif rsum]; [apply Q2R_0|]. destruct (c n); [rewrite Q2R_red, Q2R_plus, IH; reflexivity|rewrite IH; ring]. Qed.
Lemma Q2R_ratio x y : Q2R (qratio x y) = ratio (Q2R x) (Q2R y).
Proof.
  unfold qratio, ratio. destruct (Qeq_bool y 0) eqn:E.
  - apply Qeq_bool_iff in E. apply Qeq_eqR in E. rewrite Q2R_0 in E. destruct Req_EM_T; [apply Q2R_0|contradiction].
  - apply Qeq_bool_neq in E. assert (N : Q2R y <> 0) by (intros K; apply E; apply eqR_Qeq; rewrite Q2R_0; exact K).
    destruct Req_EM_T; [contradiction|]. rewrite Q2R_red, Q2R_div by exact E. reflexivity.
Qed.
Lemma Q2R_cox base U b V p i x : (forall j, Q2R (base j) = b j) -> (forall j, Q2R (U j) = V j) -> Q2R (qcox base U p i x) = cox b V p i (Q2R x).
Proof.
  intros HB HU. revert i. induction p as [|h IH]; intros i; cbn [qcox cox]; [apply HB|].
  rewrite Q2R_red, Q2R_plus, !Q2R_mult, !Q2R_ratio, !Q2R_minus, !IH, !HU. reflexivity.
Qed.
Lemma Q2R_ind U V n u i : (forall j, Q2R (U j) = V j) -> Q2R (qind U n u i) = span_ind V n (Q2R u) i.
Proof.
  intros HU. unfold qind, span_ind. rewrite <- !HU.
  destruct (Qle_bool (U i) u) eqn:E1.
  - apply Qle_bool_iff in E1. apply Qle_Rle in E1. destruct Rle_dec; [|contradiction].
    destruct (Qle_bool (U (S i)) u) eqn:E2; cbn [negb].
    + apply Qle_bool_iff in E2. apply Qle_Rle in E2. destruct Rlt_dec; [lra|]. destruct (i =? n)%nat; [|apply Q2R_0].
      destruct (Qeq_bool u (U (S n))) eqn:E3.
      * apply Qeq_bool_iff in E3. apply Qeq_eqR in E3. destruct Req_EM_T; [apply Q2R_1|contradiction].
      * apply Qeq_bool_neq in E3. destruct Req_EM_T as [K|]; [exfalso; apply E3; apply eqR_Qeq; exact K|apply Q2R_0].
    + destruct Rlt_dec as [|N]; [apply Q2R_1|]. exfalso. apply Rnot_lt_le, Rle_Qle, Qle_bool_iff in N. congruence.
  - destruct Rle_dec as [L|]; [|apply Q2R_0]. apply Rle_Qle, Qle_bool_iff in L. congruence.
Qed.
Lemma Q2R_bspline U V n p i u : (forall j, Q2R (U j) = V j) -> Q2R (qcox (qind U n u) U p i u) = bspline V n p i (Q2R u).
Proof. intros HU. unfold bspline. apply Q2R_cox; [|exact HU]. intros j. apply Q2R_ind. exact HU. Qed.

(** ** uniform knots *)
Definition quni (p n i : nat) : Q := if (i <=? p)%nat then 0%Q else if (n <? i)%nat then 1%Q else Qred (Z.of_nat (i - p) # Pos.of_nat (n - p + 1)).
Lemma Q2R_frac a b : (1 <= b)%nat -> Q2R (Z.of_nat a # Pos.of_nat b) = INR a / INR b.
Proof. intros Hb. unfold Q2R. cbn [Qnum Qden]. rewrite <- INR_IZR_INZ. rewrite <- positive_nat_Z, Nat2Pos.id by lia. rewrite <- INR_IZR_INZ. reflexivity. Qed.
Lemma quni_kfun p n U j : clamped p n U -> uniform_knots p n U -> Q2R (quni p n j) = kfun U j.
Proof.
  intros CL UK. assert (F := kfun_clamped p n U CL). assert (PN := cl_deg _ _ _ CL). assert (L := cl_len _ _ _ CL). unfold quni. destruct (Nat.leb_spec j p) as [H|H].
  - rewrite Q2R_0. symmetry. apply (fc_zero p n (kfun U) F). exact H.
  - destruct (Nat.ltb_spec n j) as [H1|H1].
    + rewrite Q2R_1. symmetry. apply (fc_one p n (kfun U) F). lia.
    + rewrite Q2R_red, Q2R_frac by lia. rewrite kfun_nth by lia. rewrite UK by lia. reflexivity.
Qed.

Lemma tab_nth (f : nat -> Q) n i d : (i < n)%nat -> nth i (map f (seq 0 n)) d = f i.
Proof. intros Hi. rewrite (nth_indep _ d (f 0%nat)) by (rewrite map_length, seq_length; exact Hi). rewrite map_nth, seq_nth by exact Hi. reflexivity. Qed.

Lemma fraction_le a b c d : 0 < b -> 0 < d -> a * d <= c * b -> a / b <= c / d.
Proof.
  intros B D H. apply (Rmult_le_reg_r (b * d)); [apply Rmult_lt_0_compat; assumption|]. replace (a / b * (b * d)) with (a * d) by (field; lra). replace (c / d * (b * d)) with (c * b) by (field; lra). exact H.
Qed.
Lemma fraction_lt a b c d : 0 < b -> 0 < d -> a * d < c * b -> a / b < c / d.
Proof.
  intros B D H. apply (Rmult_lt_reg_r (b * d)); [apply Rmult_lt_0_compat; assumption|]. replace (a / b * (b * d)) with (a * d) by (field; lra). replace (c / d * (b * d)) with (c * b) by (field; lra). exact H.
Qed.

(** ** integer data that the collocation matrix nearly annihilates *)
Section Lost.
  Variables (p m : nat) (l : list Z).
  Definition data_of : Mat RNum := mat_of 1 (S m) (fun _ g => IZR (nth g l 0%Z)).
  Definition point (g : nat) : Q := inject_Z (nth g l 0%Z).
  Definition basis (i g : nat) : Q := qcox (qind (quni p m) m (Z.of_nat g # Pos.of_nat m)) (quni p m) p i (Z.of_nat g # Pos.of_nat m).
  Definition near (i g : nat) : bool := ((i <=? g + p) && (g <=? i + p))%nat.
  Definition transposed (i : nat) : Q := qsumif (near i) (fun g => basis i g * point g)%Q (S m).
  Definition lost_check (th e2 low : Q) : bool :=
    let tab := map transposed (seq 0 (S m)) in
    let total := qsum (fun g => point g * point g)%Q (S m) in
    Qle_bool (qsum (fun i => nth i tab 0 * nth i tab 0)%Q (S m)) (th * e2 * total) && Qle_bool low total.

  Lemma data_ent g : (g < S m)%nat -> ent data_of g 0 = Q2R (point g).
  Proof. intros Hg. unfold data_of. rewrite ent_mat_of by lia. unfold Q2R, point, inject_Z. cbn [Qnum Qden]. rewrite Rinv_1, Rmult_1_r. reflexivity. Qed.
  Lemma data_squares : squares data_of 1 (S m) = Q2R (qsum (fun g => point g * point g)%Q (S m)).
  Proof. rewrite Q2R_qsum. unfold squares. apply rsum_ext. intros g Hg. cbn [rsum]. rewrite data_ent by exact Hg. rewrite Q2R_mult. ring. Qed.
  Lemma far_zero U i g : (1 <= m)%nat -> (i <= m)%nat -> (g <= m)%nat -> clamped p m U -> uniform_knots p m U -> near i g = false -> bspline (kfun U) m p i (INR g / INR m) = 0.
  Proof.
    intros Hm Hi Hg CL UK NR. assert (F := kfun_clamped p m U CL). assert (PN := cl_deg _ _ _ CL). assert (L := cl_len _ _ _ CL).
    assert (M0 : 0 < INR m) by (apply lt_0_INR; lia). assert (M1 : 0 < INR (m - p + 1)) by (apply lt_0_INR; lia).
    assert (G0 := pos_INR g). assert (G1 : INR g <= INR m) by (apply le_INR; exact Hg).
    assert (U01 : 0 <= INR g / INR m <= 1).
    { split; [apply Rmult_le_pos; [exact G0|left; apply Rinv_0_lt_compat; exact M0]|]. apply (Rmult_le_reg_r (INR m)); [exact M0|]. unfold Rdiv. rewrite Rmult_assoc, Rinv_l by lra. lra. }
    apply (bspline_support p m (kfun U) F); [exact U01|].
    unfold near in NR. apply andb_false_iff in NR. destruct NR as [NR|NR]; apply Nat.leb_gt in NR.
    - left. rewrite kfun_nth by lia. rewrite UK by lia. apply fraction_lt; [exact M0|exact M1|].
      assert (N : (g * (m - p + 1) < (i - p) * m)%nat).
      { assert (X : (g * (m - p + 1) <= g * (m + 1))%nat) by (apply Nat.mul_le_mono_l; lia). assert (Y : ((g + 1) * m <= (i - p) * m)%nat) by (apply Nat.mul_le_mono_r; lia). nia. }
      apply lt_INR in N. rewrite !mult_INR in N. exact N.
    - right. split; [|right; lia]. rewrite kfun_nth by lia. rewrite UK by lia. apply fraction_le; [exact M1|exact M0|].
      replace (i + p + 1 - p)%nat with (i + 1)%nat by lia.
      assert (N : ((i + 1) * m <= g * (m - p + 1))%nat).
      { destruct p as [|q]; [nia|]. replace (m - S q + 1)%nat with (m - q)%nat by lia. assert (X : (g * q <= m * q)%nat) by (apply Nat.mul_le_mono_r; lia). assert (Y : ((i + 1 + S q) * m <= g * m)%nat) by (apply Nat.mul_le_mono_r; lia).
        rewrite Nat.mul_sub_distr_l. nia. }
      apply le_INR in N. rewrite !mult_INR in N. exact N.
  Qed.
  Lemma lost_sound th e2 low U : (1 <= m)%nat -> lost_check th e2 low = true -> clamped p m U -> uniform_knots p m U ->
    rsum (fun i => rsum (fun g => bspline (kfun U) m p i (INR g / INR m) * ent data_of g 0) (S m) ^ 2) (S m) <= Q2R th * Q2R e2 * squares data_of 1 (S m) /\ Q2R low <= squares data_of 1 (S m).
  Proof.
    intros Hm C CL UK. unfold lost_check in C. apply andb_true_iff in C. destruct C as [C C2]. apply Qle_bool_iff, Qle_Rle in C. apply Qle_bool_iff, Qle_Rle in C2.
    rewrite data_squares. split; [|exact C2]. rewrite !Q2R_mult in C. eapply Rle_trans; [|exact C]. rewrite Q2R_qsum. apply Req_le. apply rsum_ext. intros i Hi. rewrite Q2R_mult.
    rewrite tab_nth by exact Hi. unfold transposed. rewrite Q2R_qsumif.
    assert (E : rsum (fun g => bspline (kfun U) m p i (INR g / INR m) * ent data_of g 0) (S m) = rsum (fun g => if near i g then Q2R (basis i g * point g) else 0) (S m)).
    { apply rsum_ext. intros g Hg. destruct (near i g) eqn:NR; [|rewrite (far_zero U i g); [ring|exact Hm|lia|lia|exact CL|exact UK|exact NR]]. rewrite Q2R_mult, data_ent by exact Hg. f_equal. unfold basis. rewrite (Q2R_bspline _ (kfun U)) by (intros j; apply (quni_kfun p m U j CL UK)).
      f_equal. symmetry. apply (Q2R_frac g m). exact Hm. }
    rewrite E. ring.
  Qed.
  Theorem lost_generic th e2 low eps svd : (1 <= p <= m)%nat -> lost_check th e2 low = true -> 0 < eps -> Q2R e2 = eps ^ 2 -> cutoff_solver eps svd ->
    exists c e, generate svd (Interpolation p data_of) = Val (Ok c) /\ data_error c 1 m data_of e /\ (1 - Q2R th) * squares data_of 1 (S m) <= e /\ Q2R low <= squares data_of 1 (S m).
  Proof.
    intros Hp C He HE CS. destruct (uniform_fact p m Hp) as (kn & U & A & B & V & CL & VU & _). assert (UK := uniform_values p m U CL VU).
    destruct (lost_sound th e2 low U ltac:(lia) C CL UK) as [LO LW]. rewrite HE in LO.
    destruct (interpolation_lost eps svd p m data_of U (Q2R th) He CS Hp ltac:(apply mat_of_shape) CL UK LO) as (c & e & G & DE & H).
    exists c, e. split; [exact G|]. split; [exact DE|]. split; assumption.
  Qed.
End Lost.

(** ** 151 numbers *)
Definition lost_list : list Z := [
0; 0; 1; (-4); 11; (-35); 102; (-290); 791; (-2082);
5280; (-12908); 30438; (-69250); 152057; (-322342); 659910; (-1305082); 2494020; (-4606672);
8226424; (-14206139); 23729082; (-38345850); 59961833; (-90746745); 132941730; (-188553335); 258947854; (-344391412);
443613830; (-553497530); 668995936; (-783361264); 888708839; (-976872854); 1040433794; (-1073741824); 1073741824; (-1040433794);
976872854; (-888708839); 783361264; (-668995936); 553497530; (-443613830); 344391412; (-258947854); 188553335; (-132941730);
90746745; (-59961833); 38345850; (-23729082); 14206139; (-8226424); 4606672; (-2494020); 1305082; (-659910);
322342; (-152057); 69250; (-30438); 12908; (-5280); 2082; (-791); 290; (-102);
35; (-11); 4; (-1); 0; 0; 0; (-1); 4; (-11);
35; (-102); 290; (-791); 2082; (-5280); 12908; (-30438); 69250; (-152057);
322342; (-659910); 1305082; (-2494020); 4606672; (-8226424); 14206139; (-23729082); 38345850; (-59961833);
90746745; (-132941730); 188553335; (-258947854); 344391412; (-443613830); 553497530; (-668995936); 783361264; (-888708839);
976872854; (-1040433794); 1073741824; (-1073741824); 1040433794; (-976872854); 888708839; (-783361264); 668995936; (-553497530);
443613830; (-344391412); 258947854; (-188553335); 132941730; (-90746745); 59961833; (-38345850); 23729082; (-14206139);
8226424; (-4606672); 2494020; (-1305082); 659910; (-322342); 152057; (-69250); 30438; (-12908);
5280; (-2082); 791; (-290); 102; (-35); 11; (-4); 1; 0;
0]%Z.
Definition lost_data : Mat RNum := data_of 150 lost_list.
Lemma lost_checked : lost_check 3 150 lost_list (1 # 100) (1 # 4503599627370496) 1000000000000000000 = true.
Proof. vm_compute. reflexivity. Qed.
Theorem lost svd : cutoff_solver (/ 2 ^ 26) svd -> exists c e, generate svd (Interpolation 3 lost_data) = Val (Ok c) /\ data_error c 1 150 lost_data e /\ 99 / 100 * squares lost_data 1 151 <= e /\ 10 ^ 18 <= squares lost_data 1 151.
Proof.
  intros CS. destruct (lost_generic 3 150 lost_list (1 # 100) (1 # 4503599627370496) 1000000000000000000 (/ 2 ^ 26) svd) as (c & e & G & DE & H & L).
  - lia.
  - exact lost_checked.
  - apply Rinv_0_lt_compat. lra.
  - unfold Q2R. cbn [Qnum Qden]. field.
  - exact CS.
  - exists c, e. split; [exact G|]. split; [exact DE|]. fold lost_data in H, L. split.
    + eapply Rle_trans; [|exact H]. apply Req_le. f_equal. unfold Q2R. cbn [Qnum Qden]. lra.
    + eapply Rle_trans; [|exact L]. apply Req_le. unfold Q2R, inject_Z. cbn [Qnum Qden]. lra.
Qed.
