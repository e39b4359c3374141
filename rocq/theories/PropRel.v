(** PropRel.v: C106.  A function of the library gives related results on related inputs, for
    any relation between two element types that the operations it uses preserve.  [rres],
    [rmat], [rmb], [same_ring], [same_div] and [same_order] are in Rel.v: the same outcome
    (result, exception, undefined behaviour ...) and, if it is a result, the same shape with
    related elements.  The instances are in PropRelInt.v, PropRelFloat.v and PropRelReal.v. *)
From Verif Require Import Control Rel.

Section Agree.
Context {T1 T2 : Type} (O1 : Ops T1) (O2 : Ops T2) (R : T1 -> T2 -> Prop).
(** Construction and movement of elements. *)
Definition moves_agree : Prop :=
  (forall i j u u', Forall2 R u u' -> rres (rmat R) (mat_of_list i j u) (mat_of_list i j u')) /\
  (forall ll ll', Forall2 (Forall2 R) ll ll' -> rres (rmat R) (mat_of_nested ll) (mat_of_nested ll')) /\
  (forall A A', rmb R A A' -> rres (rmat R) (mat_of_mb A) (mat_of_mb A')) /\
  (forall m m' j k, rmat R m m' -> rres (rmat R) (mat_reshape m j k) (mat_reshape m' j k)) /\
  (forall m m' j k, rmat R m m' -> rres (rmat R) (mat_resize m j k) (mat_resize m' j k)) /\
  (forall src src' m m', (forall m m', rmat R m m' -> rmb R (src m) (src' m')) -> rmat R m m' -> rres (rmat R) (mat_assign src m) (mat_assign src' m')) /\
  (forall (p : vpath) src src' m m', (forall m m', rmat R m m' -> rmb R (src m) (src' m')) -> rmat R m m' -> rres (rmat R) (view_assign p src m) (view_assign p src' m')) /\
  (forall i x x', R x x' -> rres (Forall2 R) (vec_fill i x) (vec_fill i x')) /\
  (forall u u', Forall2 R u u' -> rres (Forall2 R) (vec_of_list u) (vec_of_list u')) /\
  (forall u u' v v', Forall2 R u u' -> Forall2 R v v' -> rres (Forall2 R) (vec_assign u v) (vec_assign u' v')) /\
  (forall i j x x', R x x' -> rres (rmat R) (eye i j x) (eye i j x')) /\
  (forall i x x', R x x' -> rres (rmat R) (identity i x) (identity i x')) /\
  (forall i j, rres (rmat R) (zeros i j) (zeros i j)) /\
  (forall i, rres (Forall2 R) (zeros_v i) (zeros_v i)) /\
  (forall A A', rmb R A A' -> rres (Forall2 R) (diag_m A) (diag_m A')) /\
  (forall u u', Forall2 R u u' -> rres (rmat R) (diag_v u) (diag_v u')) /\
  (forall u u' j, Forall2 R u u' -> rres (rmat R) (to_matrix u j) (to_matrix u' j)) /\
  (forall m m', rmat R m m' -> rres (Forall2 R) (to_vector m) (to_vector m')) /\
  (forall A A', rmb R A A' -> rres (Forall2 R) (ravel A) (ravel A')) /\
  (forall A A' B B', rmb R A A' -> rmb R B B' -> rres (rmat R) (vstack A B) (vstack A' B')) /\
  (forall A A' B B', rmb R A A' -> rmb R B B' -> rres (rmat R) (hstack A B) (hstack A' B')) /\
  (forall A A' u u', rmb R A A' -> Forall2 R u u' -> rres (rmat R) (vstack_v A u) (vstack_v A' u')) /\
  (forall A A' u u', rmb R A A' -> Forall2 R u u' -> rres (rmat R) (hstack_v A u) (hstack_v A' u')) /\
  (forall u u' v v', Forall2 R u u' -> Forall2 R v v' -> rres (Forall2 R) (concatenate u v) (concatenate u' v')) /\
  (forall A A' j k l n, rmb R A A' -> rres (rmat R) (extract A j k l n) (extract A' j k l n)) /\
  (forall A A' j k l, rmb R A A' -> rres (Forall2 R) (extract_column A j k l) (extract_column A' j k l)) /\
  (forall A A' j k l, rmb R A A' -> rres (Forall2 R) (extract_row A j k l) (extract_row A' j k l)) /\
  (forall (p : vpath) j k l n m m', rmat R m m' -> rres (rmat R) (swap_rows p j k l n m) (swap_rows p j k l n m')) /\
  (forall (p : vpath) j k l n m m', rmat R m m' -> rres (rmat R) (swap_cols p j k l n m) (swap_cols p j k l n m')) /\
  (forall m m' j, rmat R m m' -> rres (rmat R) (remove_row m j) (remove_row m' j)) /\
  (forall m m' j, rmat R m m' -> rres (rmat R) (remove_column m j) (remove_column m' j)) /\
  (forall A A', rmb R A A' -> rres (rmat R) (transpose A) (transpose A')) /\
  (forall A A' j k, rmb R A A' -> rres (rmat R) (cofactor A j k) (cofactor A' j k)).
Theorem C106_moves (R0 : R o0 o0) : moves_agree.
Proof.
  unfold moves_agree. repeat apply conj.
  - intros; eapply r_mofl; eassumption || reflexivity.
  - intros; eapply r_mofnested; eassumption || reflexivity.
  - intros; eapply r_mofmb; eassumption || reflexivity.
  - intros; eapply r_reshape; eassumption || reflexivity.
  - intros; eapply r_resize; eassumption || reflexivity.
  - intros; eapply r_massign; eassumption || reflexivity.
  - intros; eapply r_vwassign; eassumption || reflexivity.
  - intros; eapply r_vfill; eassumption || reflexivity.
  - intros; eapply r_vofl; eassumption || reflexivity.
  - intros; eapply r_vassign; eassumption || reflexivity.
  - intros; eapply r_eye; eassumption || reflexivity.
  - intros; eapply r_identity; eassumption || reflexivity.
  - intros; eapply r_zeros; eassumption || reflexivity.
  - intros; eapply r_zeros_v; eassumption || reflexivity.
  - intros; eapply r_diag_m; eassumption || reflexivity.
  - intros; eapply r_diag_v; eassumption || reflexivity.
  - intros; eapply r_to_matrix; eassumption || reflexivity.
  - intros; eapply r_to_vector; eassumption || reflexivity.
  - intros; eapply r_ravel; eassumption || reflexivity.
  - intros; eapply r_vstack; eassumption || reflexivity.
  - intros; eapply r_hstack; eassumption || reflexivity.
  - intros; eapply r_vstack_v; eassumption || reflexivity.
  - intros; eapply r_hstack_v; eassumption || reflexivity.
  - intros; eapply r_concatenate; eassumption || reflexivity.
  - intros; eapply r_extract; eassumption || reflexivity.
  - intros; eapply r_extract_column; eassumption || reflexivity.
  - intros; eapply r_extract_row; eassumption || reflexivity.
  - intros; eapply r_swap_rows; eassumption || reflexivity.
  - intros; eapply r_swap_cols; eassumption || reflexivity.
  - intros; eapply r_remove_row; eassumption || reflexivity.
  - intros; eapply r_remove_column; eassumption || reflexivity.
  - intros; eapply r_transpose; eassumption || reflexivity.
  - intros; eapply r_cofactor; eassumption || reflexivity.
Qed.
(** Sums and products of elements. *)
Definition ring_agree : Prop :=
  (forall i j, rres (rmat R) (ones i j) (ones i j)) /\
  (forall i, rres (Forall2 R) (ones_v i) (ones_v i)) /\
  (forall A A' B B', rmb R A A' -> rmb R B B' -> rres (rmat R) (m_add A B) (m_add A' B')) /\
  (forall A A' B B', rmb R A A' -> rmb R B B' -> rres (rmat R) (m_sub A B) (m_sub A' B')) /\
  (forall A A' x x', rmb R A A' -> R x x' -> rres (rmat R) (m_adds A x) (m_adds A' x')) /\
  (forall A A' x x', rmb R A A' -> R x x' -> rres (rmat R) (m_subs A x) (m_subs A' x')) /\
  (forall A A' x x', rmb R A A' -> R x x' -> rres (rmat R) (m_muls A x) (m_muls A' x')) /\
  (forall x x' A A', R x x' -> rmb R A A' -> rres (rmat R) (m_smul x A) (m_smul x' A')) /\
  (forall (p : vpath) src src' m m', (forall m m', rmat R m m' -> rmb R (src m) (src' m')) -> rmat R m m' -> rres (rmat R) (m_iadd p src m) (m_iadd p src' m')) /\
  (forall (p : vpath) src src' m m', (forall m m', rmat R m m' -> rmb R (src m) (src' m')) -> rmat R m m' -> rres (rmat R) (m_isub p src m) (m_isub p src' m')) /\
  (forall (p : vpath) x x' m m', R x x' -> rmat R m m' -> rres (rmat R) (m_imuls p x m) (m_imuls p x' m')) /\
  (forall A A' B B', rmb R A A' -> rmb R B B' -> rres (rmat R) (m_mul A B) (m_mul A' B')) /\
  (forall (p : vpath) src src' m m', (forall m m', rmat R m m' -> rmb R (src m) (src' m')) -> rmat R m m' -> rres (rmat R) (m_imul p src m) (m_imul p src' m')) /\
  (forall A A' B B', rmb R A A' -> rmb R B B' -> rres (rmat R) (ew_product A B) (ew_product A' B')) /\
  (forall A A' x x' B B' y y', rmb R A A' -> R x x' -> rmb R B B' -> R y y' -> rres (rmat R) (linear_combination A x B y) (linear_combination A' x' B' y')) /\
  (forall u u' v v', Forall2 R u u' -> Forall2 R v v' -> rres (Forall2 R) (v_add u v) (v_add u' v')) /\
  (forall u u' v v', Forall2 R u u' -> Forall2 R v v' -> rres (Forall2 R) (v_sub u v) (v_sub u' v')) /\
  (forall u u' v v', Forall2 R u u' -> Forall2 R v v' -> rres (Forall2 R) (v_mul u v) (v_mul u' v')) /\
  (forall u u' x x', Forall2 R u u' -> R x x' -> rres (Forall2 R) (v_adds u x) (v_adds u' x')) /\
  (forall u u' x x', Forall2 R u u' -> R x x' -> rres (Forall2 R) (v_subs u x) (v_subs u' x')) /\
  (forall u u' x x', Forall2 R u u' -> R x x' -> rres (Forall2 R) (v_muls u x) (v_muls u' x')) /\
  (forall src src' u u', (forall m m', Forall2 R m m' -> Forall2 R (src m) (src' m')) -> Forall2 R u u' -> rres (Forall2 R) (v_iadd src u) (v_iadd src' u')) /\
  (forall src src' u u', (forall m m', Forall2 R m m' -> Forall2 R (src m) (src' m')) -> Forall2 R u u' -> rres (Forall2 R) (v_isub src u) (v_isub src' u')) /\
  (forall A A' u u', rmb R A A' -> Forall2 R u u' -> rres (Forall2 R) (m_mulv A u) (m_mulv A' u')) /\
  (forall A A' u u', rmb R A A' -> Forall2 R u u' -> rres (Forall2 R) (dot_mv A u) (dot_mv A' u')) /\
  (forall u u' v v', Forall2 R u u' -> Forall2 R v v' -> rres R (dot u v) (dot u' v')) /\
  (forall u u', Forall2 R u u' -> rres R (sum u) (sum u')) /\
  (forall A A', rmb R A A' -> rres R (trace A) (trace A')) /\
  (forall u u' v v' k l n x x', Forall2 R u u' -> Forall2 R v v' -> R x x' -> rres R (inner_product u v k l n x) (inner_product u' v' k l n x')) /\
  (forall u u' j k x x', Forall2 R u u' -> R x x' -> rres R (accumulate u j k x) (accumulate u' j k x')) /\
  (forall A A' j, rmb R A A' -> rres (rmat R) (powm A j) (powm A' j)) /\
  (forall f f' g g' u u', (forall x x', R x x' -> R (f x) (f' x')) -> (forall x x', R x x' -> R (g x) (g' x')) -> Forall2 R u u' -> rres R (square_norm_v f g u) (square_norm_v f' g' u')) /\
  (forall f f' g g' A A', (forall x x', R x x' -> R (f x) (f' x')) -> (forall x x', R x x' -> R (g x) (g' x')) -> rmb R A A' -> rres R (square_norm_m f g A) (square_norm_m f' g' A')) /\
  (forall f f' g g' A A', (forall x x', R x x' -> R (f x) (f' x')) -> (forall x x', R x x' -> R (g x) (g' x')) -> rmb R A A' -> rres R (sub_norm f g A) (sub_norm f' g' A')) /\
  (forall f f' g g' A A' l n q, (forall x x', R x x' -> R (f x) (f' x')) -> (forall x x', R x x' -> R (g x) (g' x')) -> rmb R A A' -> rres R (vector_length f g A l n q) (vector_length f' g' A' l n q)) /\
  (forall A A', 0 < mcols A <= 4 -> rmb R A A' -> rres R (determinant A) (determinant A')) /\
  (forall A A', 0 < mcols A <= 5 -> rmb R A A' -> rres (rmat R) (adjoint A) (adjoint A')) /\
  (forall A A' B B', rmb R A A' -> rmb R B B' -> rres (rmat R) (ctrb A B) (ctrb A' B')) /\
  (forall A A' B B', rmb R A A' -> rmb R B B' -> rres (rmat R) (obsv A B) (obsv A' B')) /\
  (forall u u', Forall2 R u u' -> rres (Forall2 R) (poly_v u) (poly_v u')) /\
  (forall s s' x x' u u', rdss R s s' -> Forall2 R x x' -> Forall2 R u u' -> rres (rpair (Forall2 R) (Forall2 R)) (simulate_step s x u) (simulate_step s' x' u')) /\
  (forall tr tr' s s' u u' t t' i i', rres eq (let* q := odiv t (sample_time s) in tr q) (let* q := odiv t' (sample_time s') in tr' q) -> rdss R s s' -> Forall2 (Forall2 R) u u' -> Forall2 R i i' ->
     rres (rpair (rpair (Forall2 R) (Forall2 (Forall2 R))) (Forall2 (Forall2 R))) (simulate tr s u t i) (simulate tr' s' u' t' i')).
Theorem C106_ring (SR : same_ring O1 O2 R) : ring_agree.
Proof.
  unfold ring_agree. repeat apply conj.
  - intros; eapply r_ones; eassumption || reflexivity || exact (r_0 _ _ _ SR).
  - intros; eapply r_ones_v; eassumption || reflexivity || exact (r_0 _ _ _ SR).
  - intros; eapply r_m_add; eassumption || reflexivity || exact (r_0 _ _ _ SR).
  - intros; eapply r_m_sub; eassumption || reflexivity || exact (r_0 _ _ _ SR).
  - intros; eapply r_m_adds; eassumption || reflexivity || exact (r_0 _ _ _ SR).
  - intros; eapply r_m_subs; eassumption || reflexivity || exact (r_0 _ _ _ SR).
  - intros; eapply r_m_muls; eassumption || reflexivity || exact (r_0 _ _ _ SR).
  - intros; eapply r_m_smul; eassumption || reflexivity || exact (r_0 _ _ _ SR).
  - intros; eapply r_m_iadd; eassumption || reflexivity || exact (r_0 _ _ _ SR).
  - intros; eapply r_m_isub; eassumption || reflexivity || exact (r_0 _ _ _ SR).
  - intros; eapply r_m_imuls; eassumption || reflexivity || exact (r_0 _ _ _ SR).
  - intros; eapply r_m_mul; eassumption || reflexivity || exact (r_0 _ _ _ SR).
  - intros; eapply r_m_imul; eassumption || reflexivity || exact (r_0 _ _ _ SR).
  - intros; eapply r_ew_product; eassumption || reflexivity || exact (r_0 _ _ _ SR).
  - intros; eapply r_linear_combination; eassumption || reflexivity || exact (r_0 _ _ _ SR).
  - intros; eapply r_v_add; eassumption || reflexivity || exact (r_0 _ _ _ SR).
  - intros; eapply r_v_sub; eassumption || reflexivity || exact (r_0 _ _ _ SR).
  - intros; eapply r_v_mul; eassumption || reflexivity || exact (r_0 _ _ _ SR).
  - intros; eapply r_v_adds; eassumption || reflexivity || exact (r_0 _ _ _ SR).
  - intros; eapply r_v_subs; eassumption || reflexivity || exact (r_0 _ _ _ SR).
  - intros; eapply r_v_muls; eassumption || reflexivity || exact (r_0 _ _ _ SR).
  - intros; eapply r_v_iadd; eassumption || reflexivity || exact (r_0 _ _ _ SR).
  - intros; eapply r_v_isub; eassumption || reflexivity || exact (r_0 _ _ _ SR).
  - intros; eapply r_m_mulv; eassumption || reflexivity || exact (r_0 _ _ _ SR).
  - intros; eapply r_dot_mv; eassumption || reflexivity || exact (r_0 _ _ _ SR).
  - intros; eapply r_dot; eassumption || reflexivity || exact (r_0 _ _ _ SR).
  - intros; eapply r_sum; eassumption || reflexivity || exact (r_0 _ _ _ SR).
  - intros; eapply r_trace; eassumption || reflexivity || exact (r_0 _ _ _ SR).
  - intros; eapply r_inner_product; eassumption || reflexivity || exact (r_0 _ _ _ SR).
  - intros; eapply r_accumulate; eassumption || reflexivity || exact (r_0 _ _ _ SR).
  - intros; eapply r_powm; eassumption || reflexivity || exact (r_0 _ _ _ SR).
  - intros; eapply r_square_norm_v; eassumption || reflexivity || exact (r_0 _ _ _ SR).
  - intros; eapply r_square_norm_m; eassumption || reflexivity || exact (r_0 _ _ _ SR).
  - intros; eapply r_sub_norm; eassumption || reflexivity || exact (r_0 _ _ _ SR).
  - intros; eapply r_vector_length; eassumption || reflexivity || exact (r_0 _ _ _ SR).
  - exact (fun A A' L H => r_det4 R SR A A' (proj2 L) H (proj1 L)).
  - exact (r_adjoint5 R SR).
  - intros; eapply r_ctrb; eassumption || reflexivity || exact (r_0 _ _ _ SR).
  - intros; eapply r_obsv; eassumption || reflexivity || exact (r_0 _ _ _ SR).
  - intros; eapply r_poly_v; eassumption || reflexivity || exact (r_0 _ _ _ SR).
  - exact (r_simulate_step R SR).
  - exact (r_simulate R SR).
Qed.
(** Functions that also divide. *)
Definition div_agree : Prop :=
  (forall A A' x x', rmb R A A' -> R x x' -> rres (rmat R) (m_divs A x) (m_divs A' x')) /\
  (forall (p : vpath) x x' m m', R x x' -> rmat R m m' -> rres (rmat R) (m_idivs p x m) (m_idivs p x' m')) /\
  (forall u u' x x', Forall2 R u u' -> R x x' -> rres (Forall2 R) (v_divs u x) (v_divs u' x')) /\
  (forall u u' v v', Forall2 R u u' -> Forall2 R v v' -> rres (Forall2 R) (projection u v) (projection u' v')) /\
  (forall A A', rmb R A A' -> rres (rpair (rmat R) (rmat R)) (lu_decomposition A) (lu_decomposition A')) /\
  (forall A A', rmb R A A' -> rres (Forall2 R) (poly_m A) (poly_m A')).
Theorem C106_division (SR : same_ring O1 O2 R) (SD : same_div O1 O2 R) : div_agree.
Proof.
  unfold div_agree. repeat apply conj.
  - intros; eapply r_m_divs; eassumption || reflexivity || exact (r_0 _ _ _ SR).
  - intros; eapply r_m_idivs; eassumption || reflexivity || exact (r_0 _ _ _ SR).
  - intros; eapply r_v_divs; eassumption || reflexivity || exact (r_0 _ _ _ SR).
  - intros; eapply r_projection; eassumption || reflexivity || exact (r_0 _ _ _ SR).
  - exact (r_lu_decomposition R SR SD).
  - intros; eapply r_poly_m; eassumption || reflexivity || exact (r_0 _ _ _ SR).
Qed.
(** Functions that also compare. *)
Definition order_agree : Prop :=
  (forall A A' B B', rmb R A A' -> rmb R B B' -> rres (rmat eq) (m_eq A B) (m_eq A' B')) /\
  (forall A A' B B', rmb R A A' -> rmb R B B' -> rres (rmat eq) (m_ne A B) (m_ne A' B')) /\
  (forall A A' B B', rmb R A A' -> rmb R B B' -> rres (rmat eq) (m_gt A B) (m_gt A' B')) /\
  (forall A A' B B', rmb R A A' -> rmb R B B' -> rres (rmat eq) (m_ge A B) (m_ge A' B')) /\
  (forall A A' B B', rmb R A A' -> rmb R B B' -> rres (rmat eq) (m_lt A B) (m_lt A' B')) /\
  (forall A A' B B', rmb R A A' -> rmb R B B' -> rres (rmat eq) (m_le A B) (m_le A' B')) /\
  (forall A A' x x', rmb R A A' -> R x x' -> rres (rmat eq) (m_eqs A x) (m_eqs A' x')) /\
  (forall A A' x x', rmb R A A' -> R x x' -> rres (rmat eq) (m_nes A x) (m_nes A' x')) /\
  (forall A A' x x', rmb R A A' -> R x x' -> rres (rmat eq) (m_gts A x) (m_gts A' x')) /\
  (forall A A' x x', rmb R A A' -> R x x' -> rres (rmat eq) (m_ges A x) (m_ges A' x')) /\
  (forall A A' x x', rmb R A A' -> R x x' -> rres (rmat eq) (m_lts A x) (m_lts A' x')) /\
  (forall A A' x x', rmb R A A' -> R x x' -> rres (rmat eq) (m_les A x) (m_les A' x')) /\
  (forall u u' v v', Forall2 R u u' -> Forall2 R v v' -> rres (Forall2 eq) (v_eq u v) (v_eq u' v')) /\
  (forall u u' v v', Forall2 R u u' -> Forall2 R v v' -> rres (Forall2 eq) (v_ne u v) (v_ne u' v')) /\
  (forall u u' x x', Forall2 R u u' -> R x x' -> rres (Forall2 eq) (v_eqs u x) (v_eqs u' x')) /\
  (forall u u' x x', Forall2 R u u' -> R x x' -> rres (Forall2 eq) (v_nes u x) (v_nes u' x')) /\
  (forall A A', rmb R A A' -> rres eq (is_symmetric A) (is_symmetric A')) /\
  (forall A A', rmb R A A' -> rres eq (is_skew_symmetric A) (is_skew_symmetric A')) /\
  (forall A A', rmb R A A' -> rres eq (is_diagonal A) (is_diagonal A')) /\
  (forall A A', rmb R A A' -> rres eq (is_lower_triangular A) (is_lower_triangular A')) /\
  (forall A A', rmb R A A' -> rres eq (is_upper_triangular A) (is_upper_triangular A')) /\
  (forall A A', rmb R A A' -> rres eq (all_m A) (all_m A')) /\
  (forall u u', Forall2 R u u' -> rres eq (all_v u) (all_v u')) /\
  (forall A A', rmb R A A' -> rres eq (any_m A) (any_m A')) /\
  (forall u u', Forall2 R u u' -> rres eq (any_v u) (any_v u')) /\
  (forall A A' B B' x x', rmb R A A' -> rmb R B B' -> R x x' -> rres eq (all_close A B x) (all_close A' B' x')) /\
  (forall u u' v v' x x', Forall2 R u u' -> Forall2 R v v' -> R x x' -> rres eq (all_close_v u v x) (all_close_v u' v' x')) /\
  (forall A A' B B', rmb R A A' -> rmb R B B' -> rres eq (compare A B) (compare A' B')) /\
  (forall u u' v v', Forall2 R u u' -> Forall2 R v v' -> rres eq (compare_v u v) (compare_v u' v')) /\
  (forall u u', Forall2 R u u' -> rres (rpair R eq) (min_v u) (min_v u')) /\
  (forall u u', Forall2 R u u' -> rres (rpair R eq) (max_v u) (max_v u')) /\
  (forall m m', rmat R m m' -> rres (Forall2 R) (min_m m) (min_m m')) /\
  (forall m m', rmat R m m' -> rres (Forall2 R) (max_m m) (max_m m')) /\
  (forall m m', rmat R m m' -> rres eq (flatnonzero m) (flatnonzero m')) /\
  (forall f f' u u', (forall x x', R x x' -> R (f x) (f' x')) -> Forall2 R u u' -> rres R (infinity_norm_v f u) (infinity_norm_v f' u')) /\
  (forall f f' A A', (forall x x', R x x' -> R (f x) (f' x')) -> rmb R A A' -> rres R (infinity_norm_m f A) (infinity_norm_m f' A')) /\
  (forall f f' x x' k A A', (forall x x', R x x' -> R (f x) (f' x')) -> R x x' -> rmb R A A' -> rres (rpair eq R) (log2_ceil f x k A) (log2_ceil f' x' k A')) /\
  (forall u u', Forall2 R u u' -> rres (Forall2 R) (polyreduce u) (polyreduce u')).
Theorem C106_comparisons (SR : same_ring O1 O2 R) (SO : same_order O1 O2 R) : order_agree.
Proof.
  unfold order_agree. repeat apply conj.
  - intros; eapply r_m_eq; eassumption || reflexivity || exact (r_0 _ _ _ SR).
  - intros; eapply r_m_ne; eassumption || reflexivity || exact (r_0 _ _ _ SR).
  - intros; eapply r_m_gt; eassumption || reflexivity || exact (r_0 _ _ _ SR).
  - intros; eapply r_m_ge; eassumption || reflexivity || exact (r_0 _ _ _ SR).
  - intros; eapply r_m_lt; eassumption || reflexivity || exact (r_0 _ _ _ SR).
  - intros; eapply r_m_le; eassumption || reflexivity || exact (r_0 _ _ _ SR).
  - intros; eapply r_m_eqs; eassumption || reflexivity || exact (r_0 _ _ _ SR).
  - intros; eapply r_m_nes; eassumption || reflexivity || exact (r_0 _ _ _ SR).
  - intros; eapply r_m_gts; eassumption || reflexivity || exact (r_0 _ _ _ SR).
  - intros; eapply r_m_ges; eassumption || reflexivity || exact (r_0 _ _ _ SR).
  - intros; eapply r_m_lts; eassumption || reflexivity || exact (r_0 _ _ _ SR).
  - intros; eapply r_m_les; eassumption || reflexivity || exact (r_0 _ _ _ SR).
  - intros; eapply r_v_eq; eassumption || reflexivity || exact (r_0 _ _ _ SR).
  - intros; eapply r_v_ne; eassumption || reflexivity || exact (r_0 _ _ _ SR).
  - intros; eapply r_v_eqs; eassumption || reflexivity || exact (r_0 _ _ _ SR).
  - intros; eapply r_v_nes; eassumption || reflexivity || exact (r_0 _ _ _ SR).
  - intros; eapply r_is_symmetric; eassumption || reflexivity || exact (r_0 _ _ _ SR).
  - intros; eapply r_is_skew_symmetric; eassumption || reflexivity || exact (r_0 _ _ _ SR).
  - intros; eapply r_is_diagonal; eassumption || reflexivity || exact (r_0 _ _ _ SR).
  - intros; eapply r_is_lower_triangular; eassumption || reflexivity || exact (r_0 _ _ _ SR).
  - intros; eapply r_is_upper_triangular; eassumption || reflexivity || exact (r_0 _ _ _ SR).
  - intros; eapply r_all_m; eassumption || reflexivity || exact (r_0 _ _ _ SR).
  - intros; eapply r_all_v; eassumption || reflexivity || exact (r_0 _ _ _ SR).
  - intros; eapply r_any_m; eassumption || reflexivity || exact (r_0 _ _ _ SR).
  - intros; eapply r_any_v; eassumption || reflexivity || exact (r_0 _ _ _ SR).
  - intros; eapply r_all_close; eassumption || reflexivity || exact (r_0 _ _ _ SR).
  - intros; eapply r_all_close_v; eassumption || reflexivity || exact (r_0 _ _ _ SR).
  - intros; eapply r_compare; eassumption || reflexivity || exact (r_0 _ _ _ SR).
  - intros; eapply r_compare_v; eassumption || reflexivity || exact (r_0 _ _ _ SR).
  - intros; eapply r_min_v; eassumption || reflexivity || exact (r_0 _ _ _ SR).
  - intros; eapply r_max_v; eassumption || reflexivity || exact (r_0 _ _ _ SR).
  - intros; eapply r_min_m; eassumption || reflexivity || exact (r_0 _ _ _ SR).
  - intros; eapply r_max_m; eassumption || reflexivity || exact (r_0 _ _ _ SR).
  - intros; eapply r_flatnonzero; eassumption || reflexivity || exact (r_0 _ _ _ SR).
  - intros; eapply r_infinity_norm_v; eassumption || reflexivity || exact (r_0 _ _ _ SR).
  - intros; eapply r_infinity_norm_m; eassumption || reflexivity || exact (r_0 _ _ _ SR).
  - intros; eapply r_log2_ceil; eassumption || reflexivity || exact (r_0 _ _ _ SR).
  - intros; eapply r_polyreduce; eassumption || reflexivity || exact (r_0 _ _ _ SR).
Qed.
(** Functions that divide and compare. *)
Definition full_agree : Prop :=
  (forall x x' y y' k, R x x' -> R y y' -> rres (Forall2 R) (linspace x y k) (linspace x' y' k)) /\
  (forall A A', rmb R A A' -> rres R (determinant A) (determinant A')) /\
  (forall A A', rmb R A A' -> rres (rmat R) (adjoint A) (adjoint A')) /\
  (forall A A', rmb R A A' -> rres (rmat R) (inverse A) (inverse A')) /\
  (forall A A' B B', rmb R A A' -> rmb R B B' -> rres (rmat R) (div A B) (div A' B')) /\
  (forall sq sq' h h' n A A' x x', (forall a a', R a a' -> R (sq a) (sq' a')) -> R h h' -> rmb R A A' -> R x x' -> rres (rmat R) (expm sq h n A x) (expm sq' h' n A' x')) /\
  (forall A A' B B' C C', rmb R A A' -> rmb R B B' -> rmb R C C' -> rres (rmat R) (acker A B C) (acker A' B' C')) /\
  (forall sq sq' h h' x x' n s s' t t', (forall a a', R a a' -> R (sq a) (sq' a')) -> R h h' -> R x x' -> rss R s s' -> R t t' -> rres (rdss R) (c2d sq h x n s t) (c2d sq' h' x' n s' t')).
Theorem C106_all (SR : same_ring O1 O2 R) (SD : same_div O1 O2 R) (SO : same_order O1 O2 R) : full_agree.
Proof.
  unfold full_agree. repeat apply conj.
  - intros; eapply r_linspace; eassumption || reflexivity || exact (r_0 _ _ _ SR).
  - intros; eapply r_determinant; eassumption || reflexivity || exact (r_0 _ _ _ SR).
  - intros; eapply r_adjoint; eassumption || reflexivity || exact (r_0 _ _ _ SR).
  - intros; eapply r_inverse; eassumption || reflexivity || exact (r_0 _ _ _ SR).
  - intros; eapply r_divm; eassumption || reflexivity || exact (r_0 _ _ _ SR).
  - exact (fun sq sq' h h' n A A' x x' Hs => r_expm R SR SD SO sq sq' h h' Hs n A A' x x').
  - intros; eapply r_acker; eassumption || reflexivity || exact (r_0 _ _ _ SR).
  - exact (fun sq sq' h h' x x' n s s' t t' Hs => r_c2d R SR SD SO sq sq' h h' Hs x x' n s s' t t').
Qed.
End Agree.
