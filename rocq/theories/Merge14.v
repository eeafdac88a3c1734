(** * Merging over any numbers: when it returns, and which points it keeps *)

From Coq Require Import ZArith List Bool Arith Lia.
From Verif Require Import Num Vec MKnots MPoints MCurve MFit MMerge Hoare Lists Struct Fit1 Fit4 Merge1 Merge3.
Import ListNotations.

Section Generic.
  Context {K : Num}.
  Notation Vec := (list K).
  Context (ud : Prop) (G : @gdiv K ud).
  Context (D : forall (x : K) k, 0 < k -> ok ud (ndiv x (nofnat k)) (fun _ => True)).

  (** ** small steps *)
  Lemma ok_mset r c (m : Mat K) i j x : shape r c m -> i < r -> j < c -> ok ud (mset m i j x) (shape r c).
  Proof. intros S Hi Hj. destruct (mset_val r c m i j x S Hi Hj) as [m' [E [S' _]]]. rewrite E. exact S'. Qed.

  Lemma ok_mset_view (R_ C_ h w r0 c0 : nat) (m src : Mat K) : shape R_ C_ m -> shape h w src -> r0 + h <= R_ -> c0 + w <= C_ -> ok ud (mset_view m r0 c0 h w src) (shape R_ C_).
  Proof. intros S1 S2 H1 H2. destruct (mset_view_val R_ C_ h w r0 c0 m src S1 S2 H1 H2) as [m' [E [S' _]]]. rewrite E. exact S'. Qed.

  Lemma ok_vadd (a b : Vec) n : length a = n -> length b = n -> ok ud (vadd a b) (fun c => length c = n).
  Proof. intros H1 H2. destruct (vadd_val a b ltac:(lia)) as [c [E [L _]]]. rewrite E. cbn [ok]. lia. Qed.

  Lemma ok_vsub (a b : Vec) n : length a = n -> length b = n -> ok ud (vsub a b) (fun c => length c = n).
  Proof. intros H1 H2. destruct (vsub_val a b ltac:(lia)) as [c [E [L _]]]. rewrite E. cbn [ok]. lia. Qed.

  Lemma ok_mscale r c s (m : M (Mat K)) : ok ud m (shape r c) -> ok ud (x <- m;; Val (mscale s x)) (shape r c).
  Proof. intros H. eapply ok_bind; [exact H|]. intros x S. apply mscale_shape. exact S. Qed.

  (** two loops that fill a matrix *)
  Lemma fill2 (body : Mat K -> nat -> nat -> M (Mat K)) r c l1 l2 m :
    shape r c m -> (forall N i j, In i l1 -> In j l2 -> shape r c N -> ok ud (body N i j) (shape r c)) ->
    ok ud (foldM (fun N i => foldM (fun N j => body N i j) l2 N) l1 m) (shape r c).
  Proof.
    intros S B. apply ok_foldM_inv; [exact S|]. intros i N Hi SN. apply ok_foldM_inv; [exact SN|]. intros j N' Hj SN'. apply B; assumption.
  Qed.

  Lemma in_rangei a b i : In i (rangei a b) <-> a <= i <= b.
  Proof. unfold rangei. rewrite in_seq. lia. Qed.

  Lemma prefactor_ok p n (U : Vec) i0 : length U = n + p + 2 -> forall k i, k <= p -> k <= n -> ok ud (prefactor p (S n) U k i i0) (fun _ => True).
  Proof.
    intros L. induction k as [|k IH]; intros i Hk Hn; cbn [prefactor]; rewrite usub_ok by lia; cbn [bind]; replace (S n - 1) with n by lia; rewrite usub_ok by lia; cbn [bind].
    - destruct (i <=? n - 0); [destruct (i =? i0)|]; exact Logic.I.
    - destruct (Nat.leb_spec i (n - S k)) as [H|H]; [|exact Logic.I]. rewrite (vget_nth U (i + p + 1) n0) by lia. cbn [bind]. rewrite (vget_nth U (i + S k) n0) by lia. cbn [bind].
      destruct (nth (i + p + 1) U n0 ==? nth (i + S k) U n0)%num eqn:E; [exact Logic.I|]. rewrite usub_ok by lia. cbn [bind].
      eapply ok_bind; [apply G; exact E|]. intros s _. eapply ok_bind; [apply IH; lia|]. intros h _. eapply ok_bind; [apply IH; lia|]. intros l _. exact Logic.I.
  Qed.

  (** ** the linear system *)
  Section One.
    Context {p m dim : nat} {V : Vec} {S_ : Mat K} {a : Curve K} (Wa : wf p m dim V S_ a).

    Let LV : length V = m + p + 2 := wf_len _ _ _ _ _ _ Wa.
    Let DV : p <= m := wf_deg _ _ _ _ _ _ Wa.
    Let NS : ncols S_ = S m := proj1 (proj2 (wf_shape _ _ _ _ _ _ Wa)).

    Lemma uk0 : vget (Uk (cknots a)) 0 = Val V.
    Proof. rewrite (wf_uk Wa) by lia. rewrite kderiv_0. reflexivity. Qed.

    Lemma left_ok k i : k <= p -> ok ud (left_coefficient a p m k i) (fun _ => True).
    Proof.
      intros Hk. unfold left_coefficient. rewrite (wf_matrix Wa). cbn [bind]. rewrite uk0. cbn [bind]. rewrite !usub_ok by lia. cbn [bind].
      apply ok_foldM_inv; [exact Logic.I|]. intros x s Hx _. apply in_rangei in Hx. rewrite NS. eapply ok_bind; [apply prefactor_ok; lia|]. intros f _. rewrite (wf_uk Wa) by exact Hk. cbn [bind].
      rewrite ?usub_ok by lia. cbn [bind]. rewrite (vget_nth V (m + 1) n0) by lia. cbn [bind].
      eapply ok_bind; [apply basis_ok; [exact G|lia|rewrite kderiv_length; lia|rewrite kderiv_length; lia]|]. intros b _. exact Logic.I.
    Qed.

    Lemma right_ok k i : k <= p -> ok ud (right_coefficient a p m k i) (fun _ => True).
    Proof.
      intros Hk. unfold right_coefficient. rewrite (wf_matrix Wa). cbn [bind]. rewrite uk0. cbn [bind]. rewrite !usub_ok by lia. cbn [bind].
      apply ok_foldM_inv; [exact Logic.I|]. intros x s Hx _. apply in_rangei in Hx. rewrite NS. eapply ok_bind; [apply prefactor_ok; lia|]. intros f _. rewrite (wf_uk Wa) by exact Hk. cbn [bind].
      rewrite ?usub_ok by lia. cbn [bind]. rewrite (vget_nth V p n0) by lia. cbn [bind].
      eapply ok_bind; [apply basis_ok; [exact G|lia|rewrite kderiv_length; lia|rewrite kderiv_length; lia]|]. intros b _. exact Logic.I.
    Qed.

    Context (Hp : 1 <= p).

    Ltac open := rewrite ?(wf_degree Wa), ?(wf_segments Wa), ?(wf_vector Wa); cbn [bind]; rewrite ?usub_ok by lia; cbn [bind].
    Ltac fill := apply fill2; [apply mzeros_shape|]; let N := fresh "N" in let i := fresh "i" in let j := fresh "j" in let Hi := fresh "Hi" in let Hj := fresh "Hj" in let SN := fresh "SN" in
      intros N i j Hi Hj SN; apply in_rangei in Hi; apply in_rangei in Hj.

    Lemma KV_ok : ok ud (calculateKV a) (shape p p).
    Proof. unfold calculateKV. open. fill. eapply ok_bind; [apply left_ok; lia|]. intros s _. rewrite ?usub_ok by lia. cbn [bind]. apply ok_mset; [exact SN|lia|lia]. Qed.

    Lemma KW_ok : ok ud (calculateKW a) (shape p p).
    Proof. unfold calculateKW. open. apply ok_mscale. fill. eapply ok_bind; [apply right_ok; lia|]. intros s _. apply ok_mset; [exact SN|lia|lia]. Qed.

    Lemma IV_ok : ok ud (calculateIV a) (shape p p).
    Proof. unfold calculateIV. open. apply ok_mscale. fill. eapply ok_bind; [apply left_ok; lia|]. intros s _. rewrite ?usub_ok by lia. cbn [bind]. apply ok_mset; [exact SN|lia|lia]. Qed.

    Lemma JW_ok : ok ud (calculateJW a) (shape p p).
    Proof. unfold calculateJW. open. apply ok_mscale. fill. eapply ok_bind; [apply right_ok; lia|]. intros s _. apply ok_mset; [exact SN|lia|lia]. Qed.

    Context (ps : list K) (Hps : 0 < length ps).

    Lemma basis_0_ok i u : i <= m -> ok ud (basis V p i 0 m u) (fun _ => True).
    Proof. intros Hi. apply basis_ok; [exact G|lia|lia|lia]. Qed.

    Ltac open2 := cbn [cc_curve cc_params]; unfold constraint_segments; open.

    Lemma GV_ok : ok ud (calculateGV (mkCC a ps)) (shape (length ps) p).
    Proof.
      unfold calculateGV. open2. replace (length ps - 1 + 1) with (length ps) by lia. fill. rewrite ?usub_ok by lia. cbn [bind]. rewrite (vget_nth ps i n0) by lia. cbn [bind].
      eapply ok_bind; [apply basis_0_ok; lia|]. intros b _. apply ok_mset; [exact SN|lia|lia].
    Qed.

    Lemma HW_ok : ok ud (calculateHW (mkCC a ps)) (shape (length ps) p).
    Proof.
      unfold calculateHW. open2. replace (length ps - 1 + 1) with (length ps) by lia. fill. rewrite (vget_nth ps i n0) by lia. cbn [bind].
      eapply ok_bind; [apply basis_0_ok; lia|]. intros b _. apply ok_mset; [exact SN|lia|lia].
    Qed.

    Lemma IpV_ok : ok ud (calculateIpV (mkCC a ps)) (shape p (length ps)).
    Proof.
      unfold calculateIpV. open2. replace (length ps - 1 + 1) with (length ps) by lia. apply ok_mscale. fill. rewrite ?usub_ok by lia. cbn [bind]. rewrite (vget_nth ps j n0) by lia. cbn [bind].
      eapply ok_bind; [apply basis_0_ok; lia|]. intros b _. apply ok_mset; [exact SN|lia|lia].
    Qed.

    Lemma JppW_ok : ok ud (calculateJppW (mkCC a ps)) (shape p (length ps)).
    Proof.
      unfold calculateJppW. open2. replace (length ps - 1 + 1) with (length ps) by lia. apply ok_mscale. fill. rewrite (vget_nth ps j n0) by lia. cbn [bind].
      eapply ok_bind; [apply basis_0_ok; lia|]. intros b _. apply ok_mset; [exact SN|lia|lia].
    Qed.
  End One.

  Section Two.
    Context {p m dim : nat} {V : Vec} {S_ : Mat K} {a : Curve K} (Wa : wf p m dim V S_ a).
    Context {o : nat} {W : Vec} {T_ : Mat K} {b : Curve K} (Wb : wf p o dim W T_ b).
    Context (Hp : 1 <= p) (pa pb : list K).
    Let N0 := 3 * p + length pa + length pb.

    Lemma Nmat_ok : ok ud (construct_Nmat (mkCC a pa) (mkCC b pb)) (shape N0 N0).
    Proof.
      unfold construct_Nmat. cbn [cc_curve cc_params]. rewrite (wf_degree Wa). fold N0.
      eapply ok_bind; [apply (ok_mset_view N0 N0); [apply mzeros_shape|apply midentity_shape|lia|lia]|]. intros N1 S1.
      eapply ok_bind; [apply (KV_ok Wa Hp)|]. intros KV SK. eapply ok_bind; [apply (ok_mset_view N0 N0); [exact S1|exact SK|lia|lia]|]. intros N2 S2.
      eapply ok_bind; [apply (KW_ok Wb Hp)|]. intros KW SW. eapply ok_bind; [apply (ok_mset_view N0 N0); [exact S2|exact SW|lia|lia]|]. intros N3 S3.
      eapply ok_bind; [apply (IV_ok Wa Hp)|]. intros IV SI. eapply ok_bind; [apply (ok_mset_view N0 N0); [exact S3|exact SI|lia|lia]|]. intros N4 S4.
      eapply ok_bind; [apply (JW_ok Wb Hp)|]. intros JW SJ. eapply ok_bind; [apply (ok_mset_view N0 N0); [exact S4|exact SJ|lia|lia]|]. intros N5 S5.
      eapply ok_bind with (Q := shape N0 N0).
      - destruct (Nat.ltb_spec 0 (length pa)) as [H|H]; [|exact S5].
        eapply ok_bind; [apply (GV_ok Wa Hp pa H)|]. intros GV SG. eapply ok_bind; [apply (ok_mset_view N0 N0); [exact S5|exact SG|lia|lia]|]. intros N6 S6.
        eapply ok_bind; [apply (IpV_ok Wa Hp pa H)|]. intros IP SIP. apply (ok_mset_view N0 N0); [exact S6|exact SIP|lia|lia].
      - intros N6 S6. destruct (Nat.ltb_spec 0 (length pb)) as [H|H]; [|exact S6].
        eapply ok_bind; [apply (HW_ok Wb Hp pb H)|]. intros HW SH. eapply ok_bind; [apply (ok_mset_view N0 N0); [exact S6|exact SH|lia|lia]|]. intros N7 S7.
        eapply ok_bind; [apply (JppW_ok Wb Hp pb H)|]. intros JP SJP. apply (ok_mset_view N0 N0); [exact S7|exact SJP|lia|lia].
    Qed.

    Lemma Kconst_ok : ok ud (calculateKconst a b) (shape dim p).
    Proof.
      assert (LV := wf_len _ _ _ _ _ _ Wa). assert (LW := wf_len _ _ _ _ _ _ Wb). assert (DV := wf_deg _ _ _ _ _ _ Wa). assert (DW := wf_deg _ _ _ _ _ _ Wb).
      assert (SS := wf_shape _ _ _ _ _ _ Wa). assert (ST := wf_shape _ _ _ _ _ _ Wb). assert (NS : ncols S_ = S m) by apply SS. assert (NT : ncols T_ = S o) by apply ST.
      unfold calculateKconst. rewrite (wf_degree Wa), (wf_dimension Wa), (wf_segments Wa), (wf_segments Wb), (wf_matrix Wa), (wf_matrix Wb). cbn [bind]. rewrite (uk0 Wa), (uk0 Wb). cbn [bind].
      rewrite usub_ok by lia. cbn [bind]. apply ok_foldM_inv; [apply mzeros_shape|]. intros k Kc Hk SK. apply in_rangei in Hk. rewrite !usub_ok by lia. cbn [bind]. rewrite NS, NT.
      eapply ok_bind with (Q := fun s => length s = dim).
      { apply ok_foldM_inv; [apply vzeros_length|]. intros i s Hi Ls. apply in_rangei in Hi. apply ok_foldM_inv; [exact Ls|]. intros x s' Hx Ls'. apply in_rangei in Hx.
        eapply ok_bind; [apply prefactor_ok; lia|]. intros f _. rewrite (wf_uk Wa) by lia. cbn [bind]. rewrite (vget_nth V (m + 1) n0) by lia. cbn [bind].
        eapply ok_bind; [apply basis_ok; [exact G|lia|rewrite kderiv_length; lia|rewrite kderiv_length; lia]|]. intros y _. rewrite (mcol_val S_ dim (S m) i SS) by lia. cbn [bind].
        apply ok_vadd; [exact Ls'|]. rewrite vscale_length. apply SS. lia. }
      intros s Ls. eapply ok_bind with (Q := fun s => length s = dim).
      { apply ok_foldM_inv; [exact Ls|]. intros i s1 Hi Ls1. apply in_rangei in Hi. apply ok_foldM_inv; [exact Ls1|]. intros x s' Hx Ls'. apply in_rangei in Hx.
        eapply ok_bind; [apply prefactor_ok; lia|]. intros f _. rewrite (wf_uk Wb) by lia. cbn [bind]. rewrite ?usub_ok by lia. cbn [bind]. rewrite (vget_nth W p n0) by lia. cbn [bind].
        eapply ok_bind; [apply basis_ok; [exact G|lia|rewrite kderiv_length; lia|rewrite kderiv_length; lia]|]. intros y _. rewrite (mcol_val T_ dim (S o) i ST) by lia. cbn [bind].
        apply ok_vsub; [exact Ls'|]. rewrite vscale_length. apply ST. lia. }
      intros s1 Ls1. rewrite (mcol_val Kc dim p k SK) by lia. cbn [bind]. eapply ok_bind; [apply (ok_vsub _ _ dim); [apply SK; lia|exact Ls1]|]. intros v Lv.
      rewrite (mset_col_val Kc dim p k v SK) by (first [exact Lv|lia]). apply (upd_shape Kc); [exact SK|lia|exact Lv].
    Qed.

    Lemma system_ok svd : (forall A B, ok ud (svd A B) (shape (ncols A) (ncols B))) -> ok ud (solve_linear_equation_system svd (mkCC a pa) (mkCC b pb)) (shape dim N0).
    Proof.
      intros R. unfold solve_linear_equation_system. cbn [cc_curve cc_params]. eapply ok_bind; [apply Nmat_ok|]. intros N SN.
      eapply ok_bind with (Q := shape dim N0).
      - unfold constructConstMat. rewrite (wf_degree Wa), (wf_dimension Wa). cbn [bind]. eapply ok_bind; [apply Kconst_ok|]. intros Kc SK.
        replace (3 * p + (length pa + length pb)) with N0 by (unfold N0; lia). apply (ok_mset_view dim N0); [apply mzeros_shape|exact SK|lia|unfold N0; lia].
      - intros C SC. assert (ST := mtranspose_shape dim N0 C SC). unfold svd_solve. assert (H1 : nrows N = N0) by apply SN. assert (H2 : ncols N = N0) by apply SN. assert (H3 : nrows (mtranspose C) = N0) by apply ST.
        assert (H4 : ncols (mtranspose C) = dim) by apply ST.
        assert (NE : mis_empty N = false) by (unfold mis_empty; rewrite H1, H2; apply orb_false_iff; split; apply Nat.eqb_neq; unfold N0; lia). rewrite NE, H1, H3, Nat.eqb_refl.
        eapply ok_bind; [apply R|]. intros X SX. rewrite H2, H4 in SX. apply mtranspose_shape. exact SX.
    Qed.
  End Two.
End Generic.
