(** * Every call comes to an end, whatever the data *)

From Coq Require Import ZArith List Bool Arith Lia.
From Verif Require Import Num Vec MKnots MPoints MCurve MFit MGenerate MMerge F64 ApiT.
Import ListNotations.

Section Ends.
  Context {K : Num} (HK : divides K).
  Notation ends := (ends K).

  Lemma ends_val {A} (a : A) : ends (Val a).
  Proof. split; discriminate. Qed.
  Lemma ends_panic {A} : ends (@Panic A).
  Proof. split; discriminate. Qed.
  Lemma ends_bind {A B} (m : M A) (f : A -> M B) : ends m -> (forall a, m = Val a -> ends (f a)) -> ends (bind m f).
  Proof.
    intros [H1 H2] Hf. destruct m as [a| | |]; cbn [bind].
    - apply Hf. reflexivity.
    - apply ends_panic.
    - split; [discriminate|]. intros _. apply H2. reflexivity.
    - contradiction.
  Qed.
  Lemma ends_foldM {S X} (f : S -> X -> M S) l : (forall s x, ends (f s x)) -> forall s, ends (foldM f l s).
  Proof. intros H. induction l as [|x l IH]; intros s; cbn [foldM]; [apply ends_val|]. apply ends_bind; [apply H|]. intros. apply IH. Qed.
  Lemma ends_mapM {X A} (f : X -> M A) l : (forall x, ends (f x)) -> ends (mapM f l).
  Proof. intros H. induction l as [|x l IH]; cbn [mapM]; [apply ends_val|]. apply ends_bind; [apply H|]. intros. apply ends_bind; [apply IH|]. intros. apply ends_val. Qed.
  Lemma ends_div x y : ends (@ndiv K x y).
  Proof. split; [apply HK|]. intros E. exists x, y. exact E. Qed.
  Lemma ends_usub a b : ends (usub a b).
  Proof. unfold usub. destruct (b <=? a); [apply ends_val|apply ends_panic]. Qed.
  Lemma ends_vget {A} (v : list A) i : ends (vget v i).
  Proof. unfold vget. destruct (nth_error v i); [apply ends_val|apply ends_panic]. Qed.
  Lemma ends_vset {A} (v : list A) i x : ends (vset v i x).
  Proof. unfold vset. destruct (_ <? _); [apply ends_val|apply ends_panic]. Qed.
  Lemma ends_zip (f : K -> K -> K) a : forall b, ends (zipM f a b).
  Proof. induction a as [|x a IH]; intros [|y b]; cbn [zipM]; try apply ends_val; try apply ends_panic. apply ends_bind; [apply IH|]. intros. apply ends_val. Qed.

  Create HintDb ends.
  Hint Resolve ends_val ends_panic ends_div ends_usub ends_vget ends_vset ends_zip : ends.

  Ltac go :=
    repeat (cbv beta zeta; try assumption; try solve [auto with ends];
      match goal with
      | |- context [match ?x with (a, b) => _ end] => destruct x
      | |- ApiT.ends _ (bind _ _) => apply ends_bind; [|intros]
      | |- ApiT.ends _ (foldM _ _ _) => apply ends_foldM; intros
      | |- ApiT.ends _ (mapM _ _) => apply ends_mapM; intros
      | |- ApiT.ends _ (if ?b then _ else _) => destruct b
      | |- ApiT.ends _ (match ?x with Ok _ => _ | Err _ => _ end) => destruct x
      | |- ApiT.ends _ (match ?x with Some _ => _ | None => _ end) => destruct x
      | |- ApiT.ends _ (match ?x with nil => _ | cons _ _ => _ end) => destruct x
      end).
  Tactic Notation "by_unfolding" reference(f) := intros; unfold f; go.

  Lemma e_assert b : ends (assert b). Proof. by_unfolding assert. Qed.
  Lemma e_unwrap {A E} (r : result A E) : ends (unwrap r). Proof. by_unfolding unwrap. Qed.
  Lemma e_segment {A} (v : list A) s n : ends (segment v s n). Proof. by_unfolding segment. Qed.
  Hint Resolve e_assert e_unwrap e_segment : ends.
  Lemma e_head {A} (v : list A) n : ends (head v n). Proof. by_unfolding head. Qed.
  Lemma e_tail {A} (v : list A) n : ends (tail v n). Proof. by_unfolding tail. Qed.
  Lemma e_segment_set {A} (v src : list A) s n : ends (segment_set v s n src). Proof. by_unfolding segment_set. Qed.
  Hint Resolve e_head e_tail e_segment_set : ends.
  Lemma e_head_set {A} (v src : list A) n : ends (head_set v n src). Proof. by_unfolding head_set. Qed.
  Lemma e_tail_set {A} (v src : list A) n : ends (tail_set v n src). Proof. by_unfolding tail_set. Qed.
  Lemma e_insert_row {A} (v : list A) i x : ends (insert_row v i x). Proof. by_unfolding insert_row. Qed.
  Lemma e_swap {A} (v : list A) i j : ends (swap v i j). Proof. by_unfolding swap. Qed.
  Hint Resolve e_head_set e_tail_set e_insert_row e_swap : ends.
  Lemma e_vadd (a b : list K) : ends (vadd a b). Proof. by_unfolding vadd. Qed.
  Lemma e_vsub (a b : list K) : ends (vsub a b). Proof. by_unfolding vsub. Qed.
  Lemma e_vdiv (a : list K) s : ends (vdiv_scalar a s). Proof. by_unfolding vdiv_scalar. Qed.
  Lemma e_mcol (m : Mat K) i : ends (mcol m i). Proof. by_unfolding mcol. Qed.
  Lemma e_mset_col (m : Mat K) i v : ends (mset_col m i v). Proof. by_unfolding mset_col. Qed.
  Hint Resolve e_vadd e_vsub e_vdiv e_mcol e_mset_col : ends.
  Lemma e_mget (m : Mat K) r c : ends (mget m r c). Proof. by_unfolding mget. Qed.
  Lemma e_mset (m : Mat K) r c x : ends (mset m r c x). Proof. by_unfolding mset. Qed.
  Lemma e_mcolumns (m : Mat K) s n : ends (mcolumns m s n). Proof. by_unfolding mcolumns. Qed.
  Lemma e_mset_columns (m src : Mat K) s n : ends (mset_columns m s n src). Proof. by_unfolding mset_columns. Qed.
  Hint Resolve e_mget e_mset e_mcolumns e_mset_columns : ends.
  Lemma e_madd_columns (m src : Mat K) s n : ends (madd_columns m s n src). Proof. by_unfolding madd_columns. Qed.
  Lemma e_mset_view (m src : Mat K) r c h w : ends (mset_view m r c h w src). Proof. by_unfolding mset_view. Qed.
  Lemma e_mmul (a b : Mat K) : ends (mmul a b). Proof. by_unfolding mmul. Qed.
  Lemma e_madd (a b : Mat K) : ends (madd a b). Proof. by_unfolding madd. Qed.
  Hint Resolve e_madd_columns e_mset_view e_mmul e_madd : ends.

  (** ** knots *)
  Lemma e_basis (U : list K) p : forall i k n u, ends (basis U p i k n u).
  Proof. induction p as [|h IH]; intros; cbn [basis]; go; apply IH. Qed.
  Hint Resolve e_basis : ends.
  Lemma e_vector (kn : Knots K) : ends (vector kn). Proof. by_unfolding vector. Qed.
  Lemma e_vector_derivative (kn : Knots K) k : ends (vector_derivative kn k). Proof. by_unfolding vector_derivative. Qed.
  Lemma e_klen (kn : Knots K) k : ends (klen kn k). Proof. by_unfolding klen. Qed.
  Hint Resolve e_vector e_vector_derivative e_klen : ends.
  Lemma e_segments_derivative (kn : Knots K) k : ends (segments_derivative kn k). Proof. by_unfolding segments_derivative. Qed.
  Hint Resolve e_segments_derivative : ends.
  Lemma e_ksegments (kn : Knots K) : ends (ksegments kn). Proof. by_unfolding ksegments. Qed.
  Hint Resolve e_ksegments : ends.
  Lemma e_internal_count (kn : Knots K) : ends (internal_count kn). Proof. by_unfolding internal_count. Qed.
  Hint Resolve e_internal_count : ends.
  Lemma e_internal (kn : Knots K) : ends (internal kn). Proof. by_unfolding internal. Qed.
  Lemma e_domain_count (kn : Knots K) : ends (domain_count kn). Proof. by_unfolding domain_count. Qed.
  Hint Resolve e_internal e_domain_count : ends.
  Lemma e_internal_knot (kn : Knots K) i : ends (internal_knot kn i). Proof. by_unfolding internal_knot. Qed.
  Lemma e_domain_derivative (kn : Knots K) k : ends (domain_derivative kn k). Proof. by_unfolding domain_derivative. Qed.
  Hint Resolve e_internal_knot e_domain_derivative : ends.
  Lemma e_domain (kn : Knots K) : ends (domain kn). Proof. by_unfolding domain. Qed.
  Hint Resolve e_domain : ends.
  Lemma e_domain_knot (kn : Knots K) i : ends (domain_knot kn i). Proof. by_unfolding domain_knot. Qed.
  Lemma e_multiplicity (kn : Knots K) u : ends (multiplicity kn u). Proof. by_unfolding multiplicity. Qed.
  Lemma e_knots_derive (kn : Knots K) : ends (knots_derive kn). Proof. by_unfolding knots_derive. Qed.
  Hint Resolve e_domain_knot e_multiplicity e_knots_derive : ends.
  Lemma e_knots_new p (U : list K) : ends (knots_new p U). Proof. by_unfolding knots_new. Qed.
  Hint Resolve e_knots_new : ends.

  (** loops upwards are stopped by the end of the vector, loops downwards by zero *)
  Lemma while_ends {S} (left : S -> nat) cond body : (forall s : S, left s = 0 -> cond s = Panic \/ cond s = Val false) -> (forall s, ends (cond s)) ->
    (forall s, cond s = Val true -> ends (body s) /\ forall s', body s = Val (s', false) -> left s' < left s) ->
    forall fuel s, left s < fuel -> ends (while_ fuel cond body s).
  Proof.
    intros HC EC EB. induction fuel as [|f IH]; intros s Hs; [lia|]. cbn [while_].
    apply ends_bind; [apply EC|]. intros b Eb. destruct b; [|apply ends_val].
    destruct (EB s Eb) as [E1 E2]. apply ends_bind; [exact E1|]. intros [s' brk] Es. destruct brk; [apply ends_val|]. apply IH. assert (T := E2 s' Es). lia.
  Qed.

  Lemma vget_over {A} (v : list A) i : length v <= i -> vget v i = Panic.
  Proof. intros H. unfold vget. rewrite (proj2 (nth_error_None v i) H). reflexivity. Qed.
  Lemma usub_val a b c : usub a b = Val c -> c = a - b /\ b <= a.
  Proof. unfold usub. destruct (Nat.leb_spec b a); [|discriminate]. intros E. injection E as <-. split; [reflexivity|assumption]. Qed.

  Lemma e_find_idx (kn : Knots K) u k cmp : ends (find_idx kn u k cmp).
  Proof.
    unfold find_idx. apply ends_bind; [apply e_vector_derivative|]. intros v _. apply ends_bind; [apply ends_usub|]. intros pk _. destruct cmp.
    - go. apply (while_ends (fun i => length v - i)); try lia.
      + intros i Hi. left. rewrite vget_over by lia. reflexivity.
      + intros i. go.
      + intros i Hi. split; [apply ends_val|]. intros s' E. injection E as <-. destruct (Nat.lt_ge_cases i (length v)); [lia|]. rewrite vget_over in Hi by lia. discriminate.
    - go. apply (while_ends (fun i => length v - i)); try lia.
      + intros i Hi. left. rewrite vget_over by lia. reflexivity.
      + intros i. go.
      + intros i Hi. split; [go|]. intros s' E. destruct (Nat.lt_ge_cases i (length v)); [|rewrite vget_over in Hi by lia; discriminate].
        destruct (vget v (i + 1 + 1)); try discriminate. cbn [bind] in E. destruct (vget v (i + 1)); try discriminate. cbn [bind] in E. injection E as <- _. lia.
    - go. apply usub_val in H. apply usub_val in H0. apply (while_ends (fun i => i)); try lia.
      + intros i ->. left. reflexivity.
      + intros i. go.
      + intros i Hi. split; [go|]. intros s' E. destruct (usub i 1) as [j| | |] eqn:Ei; try discriminate. cbn [bind] in E. apply usub_val in Ei.
        destruct (usub j 1); try discriminate. cbn [bind] in E. destruct (vget v a1); try discriminate. cbn [bind] in E. destruct (vget v j); try discriminate. cbn [bind] in E. injection E as <- _. lia.
    - go. apply usub_val in H. apply usub_val in H0. apply (while_ends (fun i => i)); try lia.
      + intros i ->. left. reflexivity.
      + intros i. go.
      + intros i Hi. split; [go|]. intros s' E. destruct (usub i 1) as [j| | |] eqn:Ei; try discriminate. cbn [bind] in E. apply usub_val in Ei. injection E as <-. lia.
  Qed.
  Lemma e_find_index (kn : Knots K) u k : ends (find_index kn u k).
  Proof.
    unfold find_index. go. apply (while_ends (fun s => snd s - fst s)); try (cbn; lia).
    - intros [lo hi] Hs. right. cbn in Hs |- *. f_equal. apply Nat.ltb_ge. lia.
    - intros [lo hi]. go.
    - intros [lo hi] Hs. split; [go|]. intros [lo' hi'] E. injection Hs as Hs. apply Nat.ltb_lt in Hs. cbn [fst snd].
      assert (D := Nat.div_lt (hi - lo) 2 ltac:(lia) ltac:(lia)). cbv zeta in E. set (h := (hi - lo) / 2) in *.
      destruct (vget a (hi - h)); try discriminate. cbn [bind] in E. destruct (u <? a4)%num.
      + destruct (usub (hi - h) 1) as [j| | |] eqn:Ej; try discriminate. apply usub_val in Ej. cbn [bind] in E. injection E as <- <-. lia.
      + injection E as <- <-. lia.
  Qed.
  Hint Resolve e_find_idx e_find_index : ends.
  Lemma e_kevaluate (kn : Knots K) k i p u : ends (kevaluate kn k i p u). Proof. by_unfolding kevaluate. Qed.
  Lemma e_is_clamped (kn : Knots K) : ends (is_clamped kn). Proof. by_unfolding is_clamped. Qed.
  Lemma e_cmp_greater (a b : K) : ends (cmp_greater a b). Proof. by_unfolding cmp_greater. Qed.
  Hint Resolve e_kevaluate e_is_clamped e_cmp_greater : ends.
  Lemma e_min_by (v : list K) : ends (min_by v). Proof. by_unfolding min_by. Qed.
  Lemma e_max_by (v : list K) : ends (max_by v). Proof. by_unfolding max_by. Qed.
  Hint Resolve e_min_by e_max_by : ends.
  Lemma e_is_normed (kn : Knots K) : ends (is_normed kn). Proof. by_unfolding is_normed. Qed.
  Lemma e_is_sorted (kn : Knots K) : ends (is_sorted kn). Proof. by_unfolding is_sorted. Qed.
  Lemma e_vec_reverse (v : list K) : ends (vec_reverse v). Proof. by_unfolding vec_reverse. Qed.
  Hint Resolve e_is_normed e_is_sorted e_vec_reverse : ends.
  Lemma e_vec_reversed (v : list K) : ends (vec_reversed v). Proof. by_unfolding vec_reversed. Qed.
  Lemma e_knots_reverse (kn : Knots K) : ends (knots_reverse kn). Proof. by_unfolding knots_reverse. Qed.
  Lemma e_vec_rescale (v : list K) o n : ends (vec_rescale v o n). Proof. by_unfolding vec_rescale. Qed.
  Lemma e_rescaled_knot (x : K) o n : ends (rescaled_knot x o n). Proof. by_unfolding rescaled_knot. Qed.
  Hint Resolve e_vec_reversed e_knots_reverse e_vec_rescale e_rescaled_knot : ends.
  Lemma e_vec_normalize (v : list K) : ends (vec_normalize v). Proof. by_unfolding vec_normalize. Qed.
  Hint Resolve e_vec_normalize : ends.
  Lemma e_knots_normalize (kn : Knots K) : ends (knots_normalize kn). Proof. by_unfolding knots_normalize. Qed.
  Lemma e_knots_rescale (kn : Knots K) o n : ends (knots_rescale kn o n). Proof. by_unfolding knots_rescale. Qed.
  Lemma e_equally_spaced m : ends (@equally_spaced K m). Proof. by_unfolding equally_spaced. Qed.
  Lemma e_clamp_tail (U : list K) n : ends (clamp_tail U n). Proof. by_unfolding clamp_tail. Qed.
  Hint Resolve e_knots_normalize e_knots_rescale e_equally_spaced e_clamp_tail : ends.
  Lemma e_uniform p n : ends (@uniform K p n). Proof. by_unfolding uniform. Qed.
  Lemma e_averaging p n (q : Parameters K) : ends (averaging p n q). Proof. by_unfolding averaging. Qed.
  Lemma e_de_boor p n (q : Parameters K) : ends (de_boor p n q). Proof. by_unfolding de_boor. Qed.
  Hint Resolve e_uniform e_averaging e_de_boor : ends.
  Lemma e_knots_generate p n (q : Parameters K) m : ends (knots_generate p n q m). Proof. unfold knots_generate. destruct m; go. Qed.
  Lemma e_is_uniform (kn : Knots K) : ends (is_uniform kn). Proof. by_unfolding is_uniform. Qed.
  Hint Resolve e_knots_generate e_is_uniform : ends.

  (** ** points and parameters *)
  Lemma e_cp_matrix (cp : ControlPoints K) : ends (cp_matrix cp). Proof. by_unfolding cp_matrix. Qed.
  Lemma e_matrix_derivative (cp : ControlPoints K) k : ends (matrix_derivative cp k). Proof. by_unfolding matrix_derivative. Qed.
  Lemma e_count_derivative (cp : ControlPoints K) k : ends (count_derivative cp k). Proof. by_unfolding count_derivative. Qed.
  Hint Resolve e_cp_matrix e_matrix_derivative e_count_derivative : ends.
  Lemma e_cp_count (cp : ControlPoints K) : ends (cp_count cp). Proof. by_unfolding cp_count. Qed.
  Hint Resolve e_cp_count : ends.
  Lemma e_cp_segments (cp : ControlPoints K) : ends (cp_segments cp). Proof. by_unfolding cp_segments. Qed.
  Lemma e_cp_dimension (cp : ControlPoints K) : ends (cp_dimension cp). Proof. by_unfolding cp_dimension. Qed.
  Hint Resolve e_cp_segments e_cp_dimension : ends.
  Lemma e_derive_single_point (cp : ControlPoints K) kn k : forall i, ends (derive_single_point cp kn k i).
  Proof. induction k as [|k IH]; intros; cbn [derive_single_point]; go; apply IH. Qed.
  Hint Resolve e_derive_single_point : ends.
  Lemma e_points_derive (cp : ControlPoints K) kn : ends (points_derive cp kn). Proof. by_unfolding points_derive. Qed.
  Lemma e_mat_reverse (m : Mat K) : ends (mat_reverse m). Proof. by_unfolding mat_reverse. Qed.
  Hint Resolve e_points_derive e_mat_reverse : ends.
  Lemma e_mat_reversed (m : Mat K) : ends (mat_reversed m). Proof. by_unfolding mat_reversed. Qed.
  Lemma e_points_reverse (cp : ControlPoints K) : ends (points_reverse cp). Proof. by_unfolding points_reverse. Qed.
  Lemma e_dp_segments (m : Mat K) : ends (dp_segments m). Proof. by_unfolding dp_segments. Qed.
  Lemma e_chord (m : Mat K) g : ends (chord m g). Proof. by_unfolding chord. Qed.
  Hint Resolve e_mat_reversed e_points_reverse e_dp_segments e_chord : ends.
  Lemma e_chord_length (m : Mat K) : ends (chord_length m). Proof. by_unfolding chord_length. Qed.
  Lemma e_centripetal (m : Mat K) : ends (centripetal m). Proof. by_unfolding centripetal. Qed.
  Hint Resolve e_chord_length e_centripetal : ends.
  Lemma e_params_generate (m : Mat K) q : ends (params_generate m q). Proof. unfold params_generate. destruct q; go. Qed.
  Hint Resolve e_params_generate : ends.

  (** ** curves *)
  Lemma e_segments (c : Curve K) : ends (segments c). Proof. by_unfolding segments. Qed.
  Lemma e_dimension (c : Curve K) : ends (dimension c). Proof. by_unfolding dimension. Qed.
  Lemma e_calculate_derivatives (c : Curve K) : ends (calculate_derivatives c). Proof. by_unfolding calculate_derivatives. Qed.
  Hint Resolve e_segments e_dimension e_calculate_derivatives : ends.
  Lemma e_curve_new (kn : Knots K) cp : ends (curve_new kn cp). Proof. by_unfolding curve_new. Qed.
  Lemma e_evaluate_derivative (c : Curve K) u k : ends (evaluate_derivative c u k). Proof. by_unfolding evaluate_derivative. Qed.
  Lemma e_max_derivative (c : Curve K) : ends (max_derivative c). Proof. by_unfolding max_derivative. Qed.
  Lemma e_get_derivative_curve (c : Curve K) k : ends (get_derivative_curve c k). Proof. by_unfolding get_derivative_curve. Qed.
  Lemma e_reverse (c : Curve K) : ends (reverse c). Proof. by_unfolding reverse. Qed.
  Lemma e_insert_points (U : list K) P d p l u : ends (insert_points U P d p l u). Proof. by_unfolding insert_points. Qed.
  Hint Resolve e_curve_new e_evaluate_derivative e_max_derivative e_get_derivative_curve e_reverse e_insert_points : ends.
  Lemma e_insert (c : Curve K) u : ends (insert c u). Proof. by_unfolding insert. Qed.
  Hint Resolve e_insert : ends.
  Lemma e_insert_times x : forall (c : Curve K) u, ends (insert_times c u x).
  Proof. induction x as [|x IH]; intros; cbn [insert_times]; go; apply IH. Qed.
  Lemma e_make_part p (U : list K) P : ends (make_part p U P). Proof. by_unfolding make_part. Qed.
  Lemma e_part_cols l p b : ends (part_cols l p b). Proof. by_unfolding part_cols. Qed.
  Hint Resolve e_insert_times e_make_part e_part_cols : ends.
  Lemma e_split_left (U : list K) P p h u a n : ends (split_left U P p h u a n). Proof. by_unfolding split_left. Qed.
  Lemma e_split_right (U : list K) P p h u a n : ends (split_right U P p h u a n). Proof. by_unfolding split_right. Qed.
  Hint Resolve e_split_left e_split_right : ends.
  Lemma e_split (c : Curve K) u f : ends (split_and_normalize c u f). Proof. by_unfolding split_and_normalize. Qed.
  Hint Resolve e_split : ends.

  (** ** generation and merging, with a solver that comes to an end *)
  Context (svd : Mat K -> Mat K -> M (Mat K)) (HS : stops K svd).
  Lemma e_svd A B : ends (svd A B). Proof. apply HS. Qed.
  Hint Resolve e_svd : ends.
  Lemma e_svd_solve A B : ends (svd_solve svd A B). Proof. by_unfolding svd_solve. Qed.
  Lemma e_collocation kn (P : Mat K) q : ends (collocation kn P q). Proof. by_unfolding collocation. Qed.
  Hint Resolve e_svd_solve e_collocation : ends.
  Lemma e_interpolate kn (P : Mat K) q : ends (interpolate svd kn P q). Proof. by_unfolding interpolate. Qed.
  Lemma e_input_checks kn (P : Mat K) q pen : ends (input_checks kn P q pen). Proof. by_unfolding input_checks. Qed.
  Lemma e_normal_matrix kn (N : Mat K) pen f : (forall k kn, ends (f k kn)) -> ends (normal_matrix kn N pen f). Proof. by_unfolding normal_matrix. Qed.
  Lemma e_loose_coefficients kn (P : Mat K) q : ends (loose_coefficients kn P q). Proof. by_unfolding loose_coefficients. Qed.
  Lemma e_loose_difference k (kn : Knots K) : ends (loose_difference k kn). Proof. by_unfolding loose_difference. Qed.
  Lemma e_fixed_difference k (kn : Knots K) : ends (fixed_difference k kn). Proof. by_unfolding fixed_difference. Qed.
  Lemma e_fixed_qvectors kn (P : Mat K) q : ends (fixed_qvectors kn P q). Proof. by_unfolding fixed_qvectors. Qed.
  Lemma e_fixed_constant_terms kn (P : Mat K) q Q : ends (fixed_constant_terms kn P q Q). Proof. by_unfolding fixed_constant_terms. Qed.
  Lemma e_fixed_coefficients kn (P : Mat K) q : ends (fixed_coefficients kn P q). Proof. by_unfolding fixed_coefficients. Qed.
  Hint Resolve e_interpolate e_input_checks e_normal_matrix e_loose_coefficients e_loose_difference e_fixed_difference e_fixed_qvectors e_fixed_constant_terms e_fixed_coefficients : ends.
  Lemma e_loose_fit kn (P : Mat K) q pen : ends (loose_fit svd kn P q pen). Proof. by_unfolding loose_fit. Qed.
  Lemma e_fixed_fit kn (P : Mat K) q pen : ends (fixed_fit svd kn P q pen). Proof. by_unfolding fixed_fit. Qed.
  Hint Resolve e_loose_fit e_fixed_fit : ends.
  Lemma e_generate g : ends (generate svd g).
  Proof.
    unfold generate. destruct g as [d P k|d P|d P n m pen].
    - go. destruct k; go.
    - apply ends_bind; [|intros]; go.
    - apply ends_bind; [|intros]; destruct m; go.
  Qed.

  Lemma e_prefactor p nc (U : list K) k : forall i j, ends (prefactor p nc U k i j).
  Proof. induction k as [|k IH]; intros; cbn [prefactor]; go; apply IH. Qed.
  Hint Resolve e_prefactor : ends.
  Lemma e_left_coefficient (a : Curve K) p m k i : ends (left_coefficient a p m k i). Proof. by_unfolding left_coefficient. Qed.
  Lemma e_right_coefficient (a : Curve K) p m k i : ends (right_coefficient a p m k i). Proof. by_unfolding right_coefficient. Qed.
  Hint Resolve e_left_coefficient e_right_coefficient : ends.
  Lemma e_KV (a : Curve K) : ends (calculateKV a). Proof. by_unfolding calculateKV. Qed.
  Lemma e_KW (a : Curve K) : ends (calculateKW a). Proof. by_unfolding calculateKW. Qed.
  Lemma e_IV (a : Curve K) : ends (calculateIV a). Proof. by_unfolding calculateIV. Qed.
  Lemma e_JW (a : Curve K) : ends (calculateJW a). Proof. by_unfolding calculateJW. Qed.
  Lemma e_constraint_segments (l : list K) : ends (constraint_segments l). Proof. by_unfolding constraint_segments. Qed.
  Hint Resolve e_KV e_KW e_IV e_JW e_constraint_segments : ends.
  Lemma e_GV (a : ConstrainedCurve K) : ends (calculateGV a). Proof. by_unfolding calculateGV. Qed.
  Lemma e_HW (a : ConstrainedCurve K) : ends (calculateHW a). Proof. by_unfolding calculateHW. Qed.
  Lemma e_IpV (a : ConstrainedCurve K) : ends (calculateIpV a). Proof. by_unfolding calculateIpV. Qed.
  Lemma e_JppW (a : ConstrainedCurve K) : ends (calculateJppW a). Proof. by_unfolding calculateJppW. Qed.
  Hint Resolve e_GV e_HW e_IpV e_JppW : ends.
  Lemma e_Nmat (a b : ConstrainedCurve K) : ends (construct_Nmat a b). Proof. by_unfolding construct_Nmat. Qed.
  Lemma e_Kconst (a b : Curve K) : ends (calculateKconst a b). Proof. by_unfolding calculateKconst. Qed.
  Hint Resolve e_Nmat e_Kconst : ends.
  Lemma e_ConstMat (a b : Curve K) t : ends (constructConstMat a b t). Proof. by_unfolding constructConstMat. Qed.
  Hint Resolve e_ConstMat : ends.
  Lemma e_solve (a b : ConstrainedCurve K) : ends (solve_linear_equation_system svd a b). Proof. by_unfolding solve_linear_equation_system. Qed.
  Lemma e_shifted (a b : Curve K) X : ends (shifted_points a b X). Proof. by_unfolding shifted_points. Qed.
  Lemma e_adjust_knots p (U : list K) n W : ends (adjust_knots p U n W). Proof. by_unfolding adjust_knots. Qed.
  Hint Resolve e_solve e_shifted e_adjust_knots : ends.
  Lemma e_adjust_both (a b : Curve K) : ends (adjust_knots_of_both_splines a b). Proof. by_unfolding adjust_knots_of_both_splines. Qed.
  Lemma e_merged_knots (a b : Curve K) V W : ends (create_merged_knot_vector a b V W). Proof. by_unfolding create_merged_knot_vector. Qed.
  Lemma e_gdcp i k (P : Mat K) U p n d : ends (generateDerivativeControlPoint i k P U p n d). Proof. by_unfolding generateDerivativeControlPoint. Qed.
  Hint Resolve e_adjust_both e_merged_knots e_gdcp : ends.
  Lemma e_adjust_points (P : Mat K) U V p n d : ends (adjust_shifted_control_points P U V p n d). Proof. by_unfolding adjust_shifted_control_points. Qed.
  Hint Resolve e_adjust_points : ends.
  Lemma e_adjust_points_both (a : Curve K) S_ T_ V W X : ends (adjust_shifted_control_points_of_both_splines a S_ T_ V W X). Proof. by_unfolding adjust_shifted_control_points_of_both_splines. Qed.
  Lemma e_merged_points (a b : Curve K) S_ T_ : ends (merged_points a b S_ T_). Proof. by_unfolding merged_points. Qed.
  Hint Resolve e_adjust_points_both e_merged_points : ends.
  Lemma e_merge (a b : ConstrainedCurve K) : ends (merge_with_constraints svd a b). Proof. by_unfolding merge_with_constraints. Qed.
End Ends.

Lemma F64_divides : divides F64.
Proof. intros x y. discriminate. Qed.
Lemma F64_ends A (m : M A) : ends F64 m -> (exists a, m = Val a) \/ m = Panic.
Proof.
  intros [H1 H2]. destruct m as [a| | |]; [left; exists a; reflexivity|right; reflexivity| |contradiction].
  destruct (H2 eq_refl) as [x [y E]]. discriminate E.
Qed.
