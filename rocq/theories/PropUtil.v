(** PropUtil.v: property theorems about utility.hpp. *)
From Verif Require Import UtilFacts2 Scalar PropMatrix.
From Coq Require Import ZifyBool ZifyNat ZifyN Sorted.
Ltac Zify.zify_post_hook ::= Z.div_mod_to_equations.

Section Props.
Context {T : Type} {O : Ops T}.
Implicit Types (m : Matrix T) (f g h : nat -> nat -> T) (A B : MB T) (l : list T).

(** * C12 (utility::view, row, col) *)
Theorem C12_util_view : forall m r c f r0 r1 c0 c1, is_mat m r c f ->
  r0 < r1 -> c0 < c1 -> r0 <= r -> c0 <= c ->
  exists V, util_view (mb_of_mat m) r0 r1 c0 c1 = Ok V /\
    readsL V (Nat.min r1 r - r0) (Nat.min c1 c - c0) (fun i j => f (r0 + i) (c0 + j)).
Proof.
  intros m r c f r0 r1 c0 c1 H H1 H2 H3 H4. destruct (C12_view_reads m r c f r0 r1 c0 c1 H H1 H2 H3 H4) as (E & Q).
  eexists. split; [exact E|exact Q].
Qed.
Theorem C12_util_row : forall m r c f k c0 c1, is_mat m r c f -> k < r -> c0 < c1 -> c0 <= c ->
  exists V, util_row (mb_of_mat m) k c0 c1 = Ok V /\ readsL V 1 (Nat.min c1 c - c0) (fun _ j => f k (c0 + j)).
Proof.
  intros m r c f k c0 c1 H H1 H2 H3. unfold util_row.
  rewrite add64_small. 2:{ destruct (is_mat_shape _ _ _ _ H) as (Q & _). apply (size_le _ r); auto. lia. }
  destruct (C12_view_reads m r c f k (k + 1) c0 c1 H) as (E & ((Q1 & Q2 & Q3 & Q4 & Q5) & Q6)); try lia.
  eexists. split; [exact E|]. replace (Nat.min (k + 1) r - k) with 1 in * by lia.
  split; [split; [|split; [|split; [|split]]]|]; auto.
  - intros i j Hi Hj. rewrite Q5 by auto. do 2 f_equal. lia.
  - intros t Ht. rewrite Q6 by auto. do 2 f_equal. rewrite Nat.div_small; lia.
Qed.
Theorem C12_util_col : forall m r c f k r0 r1, is_mat m r c f -> k < c -> r0 < r1 -> r0 <= r ->
  exists V, util_col (mb_of_mat m) k r0 r1 = Ok V /\ readsL V (Nat.min r1 r - r0) 1 (fun i _ => f (r0 + i) k).
Proof.
  intros m r c f k r0 r1 H H1 H2 H3. unfold util_col.
  rewrite add64_small. 2:{ destruct (is_mat_shape _ _ _ _ H) as (_ & Q & _). apply (size_le _ c); auto. lia. }
  destruct (C12_view_reads m r c f r0 r1 k (k + 1) H) as (E & ((Q1 & Q2 & Q3 & Q4 & Q5) & Q6)); try lia.
  eexists. split; [exact E|]. replace (Nat.min (k + 1) c - k) with 1 in * by lia.
  split; [split; [|split; [|split; [|split]]]|]; auto.
  - intros i j Hi Hj. rewrite Q5 by auto. do 2 f_equal. lia.
  - intros t Ht. rewrite Q6 by auto. f_equal. replace (t mod 1) with 0 by (symmetry; apply Nat.mod_1_r).
    rewrite Nat.add_0_r. reflexivity.
Qed.

(** * C14 (extract with a start past the end) *)
Theorem C14_extract_undefined : forall A r c f r0 r1 c0 c1, reads A r c f ->
  r < r0 -> r0 < r1 -> is_size r0 -> c0 < c1 -> c0 < c ->
  ~ fits (mul64 (sub64 r r0) (sub64 (Nat.min c c1) c0)) ->
  extract A r0 r1 c0 c1 = UB.
Proof.
  intros A r c f r0 r1 c0 c1 (Ar & Ac & _) H1 H2 H3 H4 H5 H6. unfold extract. rewrite Ar, Ac.
  destruct (Nat.leb_spec r1 r0); [lia|]. destruct (Nat.leb_spec c1 c0); [lia|].
  replace (Nat.min r r1) with r by lia. unfold mat_new, vec_fill. rewrite vec_allocate_ub; auto.
  cbn. intros E. apply H6. rewrite E. apply fits_0.
Qed.
Theorem C14_extract_column_undefined : forall A r c f col r0 r1, reads A r c f ->
  r < r0 -> r0 < r1 -> is_size r0 -> col < c -> (N.of_nat (r0 - r) <= 2 ^ 63)%N ->
  extract_column A col r0 r1 = UB.
Proof.
  intros A r c f col r0 r1 (Ar & Ac & _) H1 H2 H3 H4 H5. unfold extract_column. rewrite Ar, Ac.
  destruct (Nat.leb_spec r1 r0); [lia|]. destruct (Nat.leb_spec c col); [lia|].
  replace (Nat.min r r1) with r by lia.
  assert (Q := sub64_wraps r r0 H1 H3).
  unfold vec_fill. rewrite vec_allocate_ub; auto.
  - unfold fits, alloc_max. rewrite Q. unfold two64. lia.
  - cbn. intros E. rewrite E in Q. unfold two64 in Q. lia.
Qed.
(** When only one row (column) is cut, the wrapped size is always impossible. *)
Theorem C14_extract_undefined_1col : forall A r c f r0 r1 c0, reads A r c f ->
  r < r0 -> r0 < r1 -> is_size r0 -> c0 < c -> (N.of_nat (r0 - r) <= 2 ^ 63)%N ->
  extract A r0 r1 c0 (S c0) = UB.
Proof.
  intros A r c f r0 r1 c0 HA H1 H2 H3 H4 H5. eapply C14_extract_undefined; eauto.
  destruct HA as (_ & _ & _ & (_ & Sc & _) & _).
  assert (Q := sub64_wraps r r0 H1 H3). replace (Nat.min c (S c0)) with (S c0) by lia.
  rewrite (sub64_small (S c0) c0) by (try lia; apply (size_le _ c); auto; lia). replace (S c0 - c0) with 1 by lia.
  rewrite mul64_small; rewrite Nat.mul_1_r.
  - unfold fits, alloc_max. rewrite Q. unfold two64. lia.
  - unfold is_size. rewrite Q. unfold two64. lia.
Qed.

(** * C21 *)
Theorem C21_eye : forall r c v, 0 < r -> 0 < c -> shape_ok r c ->
  exists m, eye r c v = Ok m /\ is_mat m r c (fun i j => if i =? j then v else o0).
Proof. exact eye_ok. Qed.
Theorem C21_identity : forall n v, 0 < n -> shape_ok n n ->
  exists m, identity n v = Ok m /\ is_mat m n n (fun i j => if i =? j then v else o0).
Proof. intros. apply eye_ok; auto. Qed.
Theorem C21_zeros_ones : forall r c, 0 < r -> 0 < c -> shape_ok r c ->
  (exists m, zeros r c = Ok m /\ is_mat m r c (fun _ _ => o0)) /\
  (exists m, ones r c = Ok m /\ is_mat m r c (fun _ _ => o1)).
Proof.
  intros r c Hr Hc Hs. unfold zeros, ones. destruct (Nat.eqb_spec r 0); [lia|]. destruct (Nat.eqb_spec c 0); [lia|].
  split; apply mat_new_ok; auto.
Qed.
Theorem C21_vector_forms : forall n, 0 < n -> fits n -> zeros_v n = Ok (repeat o0 n) /\ ones_v n = Ok (repeat o1 n).
Proof. intros n Hn Hf. unfold zeros_v, ones_v. destruct (Nat.eqb_spec n 0); [lia|]. rewrite !vec_fill_ok by auto. auto. Qed.
Theorem C21_zero_dimension_throws : forall r c v, r = 0 \/ c = 0 ->
  eye r c v = Throw /\ zeros r c = Throw /\ ones r c = Throw /\ zeros_v (T:=T) 0 = Throw /\ ones_v (T:=T) 0 = Throw /\ identity 0 v = Throw.
Proof. intros r c v H. unfold eye, zeros, ones. nb; repeat split; auto; lia. Qed.
Theorem C21_diag_vector : forall l d, shape_ok (length l) (length l) ->
  exists m, diag_v l = Ok m /\ is_mat m (length l) (length l) (fun i j => if i =? j then nth i l d else o0).
Proof. intros. apply diag_v_ok; auto. Qed.
Theorem C21_diag_matrix : forall A r c f, reads A r c f ->
  exists d, diag_m A = Ok d /\ is_vec d (Nat.min r c) (fun i => f i i).
Proof. exact diag_m_ok. Qed.
Theorem C21_diag_diag : forall l, shape_ok (length l) (length l) ->
  exists m, diag_v l = Ok m /\ diag_m (mb_of_mat m) = Ok l.
Proof.
  intros l Hs. destruct (diag_v_ok l Hs o0) as (m & E & H). exists m. split; auto.
  destruct (diag_m_ok _ _ _ _ (is_mat_reads _ _ _ _ H)) as (d & E' & Q). rewrite E'. f_equal.
  rewrite Nat.min_id in Q. eapply is_vec_unique; [exact Q|]. eapply is_vec_ext.
  - apply (is_vec_nth l o0). rewrite <- (Nat.min_id (length l)). apply fits_min_shape; auto.
  - intros i Hi. rewrite Nat.eqb_refl. reflexivity.
Qed.

(** * C22 *)
Theorem C22_to_matrix : forall l (row : bool) d, fits (length l) ->
  exists m, to_matrix l row = Ok m /\
    is_mat m (if row then 1 else length l) (if row then length l else 1) (fun i j => nth (if row then j else i) l d).
Proof. intros. apply to_matrix_ok; auto. Qed.
Theorem C22_to_vector : forall m r c f, is_mat m r c f ->
  exists d, to_vector m = Ok d /\ is_vec d (r * c) (fun k => f (k / c) (k mod c)).
Proof. intros m r c f H. destruct (to_vector_ok m r c f H) as (d & E & _ & Q). eauto. Qed.
Theorem C22_ravel : forall A r c f, readsL A r c f ->
  exists d, ravel A = Ok d /\ is_vec d (r * c) (fun k => f (k / c) (k mod c)).
Proof. exact ravel_ok. Qed.
(** ... which covers every nesting of views except a non-square CofactorView. *)
Theorem C22_ravel_view : forall p m r c f r' c', is_mat m r c f -> vshape p r c = Some (r', c') -> lin_ok p r c ->
  exists d, ravel (vmb p m) = Ok d /\ is_vec d (r' * c') (fun k => vsel p f (k / c') (k mod c')).
Proof. intros. apply ravel_ok. eapply vmb_readsL; eauto. Qed.
Theorem C22_round_trip : forall l row, fits (length l) ->
  exists m, to_matrix l row = Ok m /\ to_vector m = Ok l /\ ravel (mb_of_mat m) = Ok l.
Proof.
  intros l row Hf. destruct l as [|x l0] eqn:El.
  { destruct row; eexists; repeat split. }
  rewrite <- El in *. destruct (to_matrix_ok l row Hf x) as (m & E & H). exists m. split; auto.
  assert (Q : is_vec l ((if row then 1 else length l) * (if row then length l else 1))
     (fun k => nth (if row then k mod (if row then length l else 1) else k / (if row then length l else 1)) l x)).
  { split; [destruct row; lia|]. split. { destruct row; [rewrite Nat.mul_1_l|rewrite Nat.mul_1_r]; auto. }
    intros i Hi. destruct row.
    - rewrite Nat.mod_small by lia. apply nth_error_nth'. lia.
    - rewrite Nat.div_1_r. apply nth_error_nth'. lia. }
  destruct (to_vector_ok m _ _ _ H) as (d & E1 & _ & Q1).
  destruct (ravel_ok (mb_of_mat m) _ _ _ (is_mat_readsL _ _ _ _ H)) as (d2 & E2 & Q2).
  rewrite E1, E2. split; f_equal; eapply is_vec_unique; eauto; eapply is_vec_ext; eauto; intros i Hi; destruct row; reflexivity.
Qed.

(** * C23 *)
Theorem C23_vstack : forall A B ra rb c fa fb, reads A ra c fa -> reads B rb c fb -> shape_ok (ra + rb) c ->
  exists m, vstack A B = Ok m /\ is_mat m (ra + rb) c (fun i j => if i <? ra then fa i j else fb (i - ra) j).
Proof. exact vstack_ok. Qed.
Theorem C23_vstack_throws : forall A B, mcols A <> mcols B -> vstack A B = Throw.
Proof. intros A B H. unfold vstack. nb. Qed.
Theorem C23_hstack : forall A B r ca cb fa fb, reads A r ca fa -> reads B r cb fb -> shape_ok r (ca + cb) ->
  exists m, hstack A B = Ok m /\ is_mat m r (ca + cb) (fun i j => if j <? ca then fa i j else fb i (j - ca)).
Proof. exact hstack_ok. Qed.
Theorem C23_hstack_throws : forall A B, mrows A <> mrows B -> hstack A B = Throw.
Proof. intros A B H. unfold hstack. nb. Qed.
Theorem C23_vstack_vector : forall A r c f (b : list T) d, readsL A r c f -> length b = c -> shape_ok (r + 1) c ->
  exists m, vstack_v A b = Ok m /\ is_mat m (r + 1) c (fun i j => if i <? r then f i j else nth j b d).
Proof. exact vstack_v_ok. Qed.
Theorem C23_hstack_vector : forall A r c f (b : list T) d, readsL A r c f -> length b = r -> shape_ok r (c + 1) ->
  exists m, hstack_v A b = Ok m /\ is_mat m r (c + 1) (fun i j => if j <? c then f i j else nth i b d).
Proof. exact hstack_v_ok. Qed.
Theorem C23_stack_vector_throws : forall A (b : list T),
  (mcols A <> length b -> vstack_v A b = Throw) /\ (mrows A <> length b -> hstack_v A b = Throw).
Proof. intros A b. unfold vstack_v, hstack_v. split; intros H; nb. Qed.
Theorem C23_concatenate : forall (a b : list T), fits (length a + length b) -> concatenate a b = Ok (a ++ b).
Proof. exact concatenate_ok. Qed.

(** * C24 *)
Theorem C24_extract : forall A r c f r0 r1 c0 c1, reads A r c f -> r0 < r1 -> c0 < c1 -> r0 <= r -> c0 <= c ->
  exists m, extract A r0 r1 c0 c1 = Ok m /\
    is_mat m (Nat.min r r1 - r0) (Nat.min c c1 - c0) (fun i j => f (r0 + i) (c0 + j)).
Proof. exact extract_ok. Qed.
Theorem C24_extract_throws : forall A r0 r1 c0 c1, r1 <= r0 \/ c1 <= c0 -> extract A r0 r1 c0 c1 = Throw.
Proof. intros A r0 r1 c0 c1 H. unfold extract. destruct (Nat.leb_spec r1 r0); auto. destruct (Nat.leb_spec c1 c0); auto. lia. Qed.
Theorem C24_extract_column : forall A r c f col r0 r1, reads A r c f -> r0 < r1 -> r0 <= r -> col < c ->
  exists d, extract_column A col r0 r1 = Ok d /\ is_vec d (Nat.min r r1 - r0) (fun i => f (r0 + i) col).
Proof. exact extract_column_ok. Qed.
Theorem C24_extract_row : forall A r c f row c0 c1, reads A r c f -> c0 < c1 -> c0 <= c -> row < r ->
  exists d, extract_row A row c0 c1 = Ok d /\ is_vec d (Nat.min c c1 - c0) (fun i => f row (c0 + i)).
Proof. exact extract_row_ok. Qed.
Theorem C24_extract_line_throws : forall A k s e, 
  (e <= s \/ mcols A <= k -> extract_column A k s e = Throw) /\
  (e <= s \/ mrows A <= k -> extract_row A k s e = Throw).
Proof.
  intros A k s e. unfold extract_column, extract_row. split; intros H.
  - destruct (Nat.leb_spec e s); auto. destruct (Nat.leb_spec (mcols A) k); auto. lia.
  - destruct (Nat.leb_spec (mrows A) k); auto. destruct (Nat.leb_spec e s); auto. lia.
Qed.
(** Splitting at row k and stacking gives the matrix back. *)
Theorem C24_split_rows : forall m r c f k, is_mat m r c f -> 0 < k -> k < r -> 0 < c ->
  exists m1 m2, extract (mb_of_mat m) 0 k 0 c = Ok m1 /\ extract (mb_of_mat m) k r 0 c = Ok m2 /\
    vstack (mb_of_mat m1) (mb_of_mat m2) = Ok m.
Proof.
  intros m r c f k H Hk Hkr Hc. assert (HA := is_mat_reads _ _ _ _ H).
  destruct (extract_ok _ r c f 0 k 0 c HA) as (m1 & E1 & H1); try lia.
  destruct (extract_ok _ r c f k r 0 c HA) as (m2 & E2 & H2); try lia.
  exists m1, m2. split; auto. split; auto.
  replace (Nat.min r k - 0) with k in H1 by lia. replace (Nat.min c c - 0) with c in * by lia.
  replace (Nat.min r r - k) with (r - k) in H2 by lia.
  destruct (vstack_ok _ _ _ _ _ _ _ (is_mat_reads _ _ _ _ H1) (is_mat_reads _ _ _ _ H2)) as (m3 & E3 & H3).
  { replace (k + (r - k)) with r by lia. apply (is_mat_shape _ _ _ _ H). }
  rewrite E3. f_equal. replace (k + (r - k)) with r in H3 by lia. eapply is_mat_unique; [exact H3|].
  eapply is_mat_ext; [exact H|]. intros i j Hi Hj. cbn. destruct (Nat.ltb_spec i k); auto. f_equal. lia.
Qed.
Theorem C24_split_cols : forall m r c f k, is_mat m r c f -> 0 < k -> k < c -> 0 < r ->
  exists m1 m2, extract (mb_of_mat m) 0 r 0 k = Ok m1 /\ extract (mb_of_mat m) 0 r k c = Ok m2 /\
    hstack (mb_of_mat m1) (mb_of_mat m2) = Ok m.
Proof.
  intros m r c f k H Hk Hkr Hc. assert (HA := is_mat_reads _ _ _ _ H).
  destruct (extract_ok _ r c f 0 r 0 k HA) as (m1 & E1 & H1); try lia.
  destruct (extract_ok _ r c f 0 r k c HA) as (m2 & E2 & H2); try lia.
  exists m1, m2. split; auto. split; auto.
  replace (Nat.min c k - 0) with k in H1 by lia. replace (Nat.min r r - 0) with r in * by lia.
  replace (Nat.min c c - k) with (c - k) in H2 by lia.
  destruct (hstack_ok _ _ _ _ _ _ _ (is_mat_reads _ _ _ _ H1) (is_mat_reads _ _ _ _ H2)) as (m3 & E3 & H3).
  { replace (k + (c - k)) with c by lia. apply (is_mat_shape _ _ _ _ H). }
  rewrite E3. f_equal. replace (k + (c - k)) with c in H3 by lia. eapply is_mat_unique; [exact H3|].
  eapply is_mat_ext; [exact H|]. intros i j Hi Hj. cbn. destruct (Nat.ltb_spec j k); auto. f_equal. lia.
Qed.

(** * C25 *)
Theorem C25_swap_rows : forall p m r c f r' c' i j c0 c1, is_mat m r c f -> vshape p r c = Some (r', c') -> i < r' -> j < r' ->
  exists m' f', swap_rows p i j c0 c1 m = Ok m' /\ is_mat m' r c f' /\
    (forall a b, a < r' -> b < c' ->
       vsel p f' a b = if (c0 <=? b) && (b <? Nat.min c1 c')
                       then vsel p f (if a =? i then j else if a =? j then i else a) b
                       else vsel p f a b) /\
    (forall a b, a < r -> b < c -> (forall x y, x < r' -> y < c' -> vpos p x y <> (a, b)) -> f' a b = f a b).
Proof.
  intros p m r c f r' c' i j c0 c1 H Hv Hi Hj.
  destruct (swap_rows_ok p r c r' c' f m i j c0 c1 H Hv Hi Hj) as (m' & E & f' & H' & W1 & W2).
  exists m', f'. repeat (split; auto). intros a b Ha Hb. unfold vsel at 1. rewrite W1 by auto. unfold fswap_rows.
  destruct (_ && _); auto. nb.
Qed.
Theorem C25_swap_cols : forall p m r c f r' c' i j r0 r1, is_mat m r c f -> vshape p r c = Some (r', c') -> i < c' -> j < c' ->
  exists m' f', swap_cols p i j r0 r1 m = Ok m' /\ is_mat m' r c f' /\
    (forall a b, a < r' -> b < c' ->
       vsel p f' a b = if (r0 <=? a) && (a <? Nat.min r1 r')
                       then vsel p f a (if b =? i then j else if b =? j then i else b)
                       else vsel p f a b) /\
    (forall a b, a < r -> b < c -> (forall x y, x < r' -> y < c' -> vpos p x y <> (a, b)) -> f' a b = f a b).
Proof.
  intros p m r c f r' c' i j c0 c1 H Hv Hi Hj.
  destruct (swap_cols_ok p r c r' c' f m i j c0 c1 H Hv Hi Hj) as (m' & E & f' & H' & W1 & W2).
  exists m', f'. repeat (split; auto). intros a b Ha Hb. unfold vsel at 1. rewrite W1 by auto. unfold fswap_cols.
  destruct (_ && _); auto. nb.
Qed.
Lemma frame_eq p r c r' c' f f2 : vshape p r c = Some (r', c') ->
  (forall i j, i < r' -> j < c' -> vsel p f2 i j = vsel p f i j) ->
  (forall a b, a < r -> b < c -> (forall x y, x < r' -> y < c' -> vpos p x y <> (a, b)) -> f2 a b = f a b) ->
  forall a b, a < r -> b < c -> f2 a b = f a b.
Proof.
  intros Hv H1 H2 a b Ha Hb.
  assert (D : (exists i j, i < r' /\ j < c' /\ vpos p i j = (a, b)) \/ (forall i j, i < r' -> j < c' -> vpos p i j <> (a, b))).
  { clear -Hv. assert (forall n, (exists i j, i < n /\ j < c' /\ vpos p i j = (a, b)) \/ (forall i j, i < n -> j < c' -> vpos p i j <> (a, b))).
    { assert (Hc : forall i n, (exists j, j < n /\ vpos p i j = (a, b)) \/ (forall j, j < n -> vpos p i j <> (a, b))).
      { intros i n. induction n as [|n [IH|IH]]. { right; intros; lia. }
        - left. destruct IH as (j & Hj & E). exists j. split; auto.
        - destruct (vpos p i n) as (x, y) eqn:E. destruct (Nat.eq_dec x a) as [->|N]; [destruct (Nat.eq_dec y b) as [->|N]|].
          + left. exists n. split; auto.
          + right. intros j Hj. destruct (Nat.eq_dec j n) as [->|N']; [rewrite E; congruence|apply IH; lia].
          + right. intros j Hj. destruct (Nat.eq_dec j n) as [->|N']; [rewrite E; congruence|apply IH; lia]. }
      intros n. induction n as [|n [IH|IH]]. { right; intros; lia. }
      - left. destruct IH as (i & j & Hi & Q). exists i, j. split; auto.
      - destruct (Hc n c') as [(j & Hj & E)|N].
        + left. exists n, j. auto.
        + right. intros i j Hi Hj. destruct (Nat.eq_dec i n) as [->|N']; auto. apply IH; lia. }
    apply H. }
  destruct D as [(i & j & Hi & Hj & E)|N]; [|auto].
  specialize (H1 i j Hi Hj). unfold vsel in H1. rewrite E in H1. exact H1.
Qed.
Theorem C25_swap_rows_involutive : forall p m r c f r' c' i j c0 c1, is_mat m r c f -> vshape p r c = Some (r', c') -> i < r' -> j < r' ->
  exists m', swap_rows p i j c0 c1 m = Ok m' /\ swap_rows p i j c0 c1 m' = Ok m.
Proof.
  intros p m r c f r' c' i j c0 c1 H Hv Hi Hj.
  destruct (C25_swap_rows p m r c f r' c' i j c0 c1 H Hv Hi Hj) as (m1 & f1 & E1 & H1 & W1 & F1).
  destruct (C25_swap_rows p m1 r c f1 r' c' i j c0 c1 H1 Hv Hi Hj) as (m2 & f2 & E2 & H2 & W2 & F2).
  exists m1. split; auto. rewrite E2. f_equal. eapply is_mat_unique; [exact H2|]. eapply is_mat_ext; [exact H|].
  intros a b Ha Hb. symmetry. apply (frame_eq p r c r' c' f f2 Hv); auto.
  - intros x y Hx Hy. rewrite W2 by auto. destruct ((c0 <=? y) && (y <? Nat.min c1 c')) eqn:Ec.
    + rewrite W1 by (auto; nb). rewrite Ec. f_equal. nb.
    + rewrite W1 by auto. rewrite Ec. reflexivity.
  - intros x y Hx Hy Hn. rewrite F2 by auto. apply F1; auto.
Qed.
Theorem C25_swap_cols_involutive : forall p m r c f r' c' i j r0 r1, is_mat m r c f -> vshape p r c = Some (r', c') -> i < c' -> j < c' ->
  exists m', swap_cols p i j r0 r1 m = Ok m' /\ swap_cols p i j r0 r1 m' = Ok m.
Proof.
  intros p m r c f r' c' i j c0 c1 H Hv Hi Hj.
  destruct (C25_swap_cols p m r c f r' c' i j c0 c1 H Hv Hi Hj) as (m1 & f1 & E1 & H1 & W1 & F1).
  destruct (C25_swap_cols p m1 r c f1 r' c' i j c0 c1 H1 Hv Hi Hj) as (m2 & f2 & E2 & H2 & W2 & F2).
  exists m1. split; auto. rewrite E2. f_equal. eapply is_mat_unique; [exact H2|]. eapply is_mat_ext; [exact H|].
  intros a b Ha Hb. symmetry. apply (frame_eq p r c r' c' f f2 Hv); auto.
  - intros x y Hx Hy. rewrite W2 by auto. destruct ((c0 <=? x) && (x <? Nat.min c1 r')) eqn:Ec.
    + rewrite W1 by (auto; nb). rewrite Ec. f_equal. nb.
    + rewrite W1 by auto. rewrite Ec. reflexivity.
  - intros x y Hx Hy Hn. rewrite F2 by auto. apply F1; auto.
Qed.

(** * C26 *)
Theorem C26_remove_row : forall m r c f k, is_mat m r c f -> k < r ->
  exists m', remove_row m k = Ok m' /\ is_mat m' (r - 1) c (fun i j => f (if i <? k then i else S i) j).
Proof.
  intros m r c f k H Hk. destruct (remove_row_ok m r c f k H Hk) as (m' & E & H'). exists m'. split; auto.
  eapply is_mat_ext; eauto. intros i j _ _. cbn. destruct (i <? k); auto.
Qed.
Theorem C26_remove_column : forall m r c f k, is_mat m r c f -> k < c ->
  exists m', remove_column m k = Ok m' /\ is_mat m' r (c - 1) (fun i j => f i (if j <? k then j else S j)).
Proof.
  intros m r c f k H Hk. destruct (remove_column_ok m r c f k H Hk) as (m' & E & H'). exists m'. split; auto.
  eapply is_mat_ext; eauto. intros i j _ _. cbn. destruct (j <? k); auto.
Qed.
Theorem C26_remove_throws : forall m k, (rows m <= k -> remove_row m k = Throw) /\ (cols m <= k -> remove_column m k = Throw).
Proof. intros m k. split; [apply remove_row_throw|apply remove_column_throw]. Qed.
(** Removing row p and column q gives the elements of CofactorView(p, q). *)
Theorem C26_remove_is_minor : forall m r c f p q, is_mat m r c f -> p < r -> q < c -> r = c ->
  exists m1 m2, remove_row m p = Ok m1 /\ remove_column m1 q = Ok m2 /\ mat_of_mb (mb_cof p q (mb_of_mat m)) = Ok m2.
Proof.
  intros m r c f p q H Hp Hq E0. destruct (C26_remove_row m r c f p H Hp) as (m1 & E1 & H1).
  destruct (C26_remove_column m1 (r-1) c _ q H1 Hq) as (m2 & E2 & H2). exists m1, m2. repeat (split; auto).
  assert (Hv : vshape (PCof p q Root) r c = Some (r-1, c-1)). { cbn. replace (_ && _) with true by lia. reflexivity. }
  destruct (C06_from_view m r c f (PCof p q Root) (r-1) (c-1) H Hv) as (m3 & E3 & H3).
  { cbn [lin_ok]. rewrite Hv. lia. }
  change (mat_of_mb (mb_cof p q (mb_of_mat m)) = Ok m3) in E3. rewrite E3. f_equal. eapply is_mat_unique; eauto.
Qed.

(** * C27 *)
Section Predicates.
(** [==] decides equality of elements (integers, exact fields). *)
Variable Heq : forall x y : T, oeq x y = true <-> x = y.
Theorem C27_shape_predicates : forall A r c f, reads A r c f ->
  (is_square A = true <-> r = c) /\ (is_row_vector A = true <-> r = 1) /\ (is_column_vector A = true <-> c = 1).
Proof.
  intros A r c f (Hr & Hc & _). unfold is_square, is_row_vector, is_column_vector. rewrite Hr, Hc.
  rewrite !Nat.eqb_eq. tauto.
Qed.
Theorem C27_symmetric : forall A r c f, reads A r c f ->
  exists b, is_symmetric A = Ok b /\
    (b = true <-> r = c /\ forall i j, i < r -> j < r -> f i j = f j i).
Proof.
  intros A r c f (Hr & Hc & _ & _ & Hg). unfold is_symmetric, is_square. rewrite Hr, Hc.
  destruct (Nat.eqb_spec r c) as [<-|N]; cbn [negb].
  - destruct (all_range2_spec (fun i j => oeq (f i j) (f j i)) 0 r (fun _ => 0) (fun _ => r)
      (fun i j => let* x := mget A i j in let* y := mget A j i in Ok (oeq x y))) as (b & E & Q).
    + intros i j Hi Hj. rewrite !Hg by lia. reflexivity.
    + exists b. split; auto. rewrite Q. split.
      * intros Q1. split; auto. intros i j Hi Hj. apply Heq, Q1; lia.
      * intros (_ & Q1) i j Hi Hj. apply Heq, Q1; lia.
  - exists false. split; auto. split; [discriminate|]. intros (E & _). congruence.
Qed.
Theorem C27_skew_symmetric_offdiag : forall A r c f, reads A r c f ->
  exists b, is_skew_symmetric A = Ok b /\
    (b = true <-> r = c /\ forall i j, i < j -> j < r -> f i j = oopp (f j i)).
Proof.
  intros A r c f (Hr & Hc & _ & _ & Hg). unfold is_skew_symmetric, is_square. rewrite Hr, Hc.
  destruct (Nat.eqb_spec r c) as [<-|N]; cbn [negb].
  - destruct (all_range2_spec (fun i j => oeq (f i j) (oopp (f j i))) 0 r (fun i => S i) (fun _ => r)
      (fun i j => let* x := mget A i j in let* y := mget A j i in Ok (oeq x (oopp y)))) as (b & E & Q).
    + intros i j Hi Hj. rewrite !Hg by lia. reflexivity.
    + exists b. split; auto. rewrite Q. split.
      * intros Q1. split; auto. intros i j Hi Hj. apply Heq, Q1; lia.
      * intros (_ & Q1) i j Hi Hj. apply Heq, Q1; lia.
  - exists false. split; auto. split; [discriminate|]. intros (E & _). congruence.
Qed.
Theorem C27_diagonal : forall A r c f, reads A r c f ->
  exists b, is_diagonal A = Ok b /\
    (b = true <-> r = c /\ forall i j, i < r -> j < r -> i <> j -> f i j = o0).
Proof.
  intros A r c f (Hr & Hc & _ & _ & Hg). unfold is_diagonal, is_square. rewrite Hr, Hc.
  destruct (Nat.eqb_spec r c) as [<-|N]; cbn [negb].
  - destruct (all_range2_spec (fun i j => (i =? j) || oeq (f i j) o0) 0 r (fun _ => 0) (fun _ => r)
      (fun i j => if i =? j then Ok true else let* x := mget A i j in Ok (oeq x o0))) as (b & E & Q).
    + intros i j Hi Hj. rewrite !Hg by lia. cbn. destruct (i =? j); reflexivity.
    + exists b. split; auto. rewrite Q. split.
      * intros Q1. split; auto. intros i j Hi Hj N. apply Heq. specialize (Q1 i j). rewrite (proj2 (Nat.eqb_neq i j)) in Q1 by auto.
        cbn in Q1. apply Q1; lia.
      * intros (_ & Q1) i j Hi Hj. destruct (Nat.eqb_spec i j); cbn; auto. apply Heq, Q1; lia.
  - exists false. split; auto. split; [discriminate|]. intros (E & _). congruence.
Qed.
Theorem C27_lower_triangular : forall A r c f, reads A r c f ->
  exists b, is_lower_triangular A = Ok b /\
    (b = true <-> r = c /\ forall i j, i < j -> j < r -> f i j = o0).
Proof.
  intros A r c f (Hr & Hc & _ & _ & Hg). unfold is_lower_triangular, is_square. rewrite Hr, Hc.
  destruct (Nat.eqb_spec r c) as [<-|N]; cbn [negb].
  - destruct (all_range2_spec (fun i j => oeq (f i j) o0) 0 r (fun i => S i) (fun _ => r)
      (fun i j => let* x := mget A i j in Ok (oeq x o0))) as (b & E & Q).
    + intros i j Hi Hj. rewrite !Hg by lia. reflexivity.
    + exists b. split; auto. rewrite Q. split.
      * intros Q1. split; auto. intros i j Hi Hj. apply Heq, Q1; lia.
      * intros (_ & Q1) i j Hi Hj. apply Heq, Q1; lia.
  - exists false. split; auto. split; [discriminate|]. intros (E & _). congruence.
Qed.
Theorem C27_upper_triangular : forall A r c f, reads A r c f ->
  exists b, is_upper_triangular A = Ok b /\
    (b = true <-> r = c /\ forall i j, j < i -> i < r -> f i j = o0).
Proof.
  intros A r c f (Hr & Hc & _ & _ & Hg). unfold is_upper_triangular, is_square. rewrite Hr, Hc.
  destruct (Nat.eqb_spec r c) as [<-|N]; cbn [negb].
  - destruct (all_range2_spec (fun i j => oeq (f i j) o0) 0 r (fun i => 0) (fun i => i)
      (fun i j => let* x := mget A i j in Ok (oeq x o0))) as (b & E & Q).
    + intros i j Hi Hj. rewrite !Hg by lia. reflexivity.
    + exists b. split; auto. rewrite Q. split.
      * intros Q1. split; auto. intros i j Hi Hj. apply Heq, Q1; lia.
      * intros (_ & Q1) i j Hi Hj. apply Heq, Q1; lia.
  - exists false. split; auto. split; [discriminate|]. intros (E & _). congruence.
Qed.
End Predicates.

(** * C28 (shape and elements for every element type; exact arithmetic in PropField.v) *)
Theorem C28_linspace_elements : forall (start stop : T) n, 2 <= n -> fits n -> ofeq start stop = false ->
  (olt start stop = true -> forall step, odiv (osub stop start) (ofnat (n - 1)) = Ok step ->
     exists d, linspace start stop n = Ok d /\ is_vec d n (fun i => oadd start (omul step (ofnat i)))) /\
  (olt start stop = false -> forall step, odiv (osub start stop) (ofnat (n - 1)) = Ok step ->
     exists d, linspace start stop n = Ok d /\ is_vec d n (fun i => osub start (omul step (ofnat i)))).
Proof.
  intros start stop n Hn Hf Hne. unfold linspace. rewrite vec_fill_ok by auto. cbn [bind].
  destruct (Nat.eqb_spec n 0); [lia|]. destruct (Nat.eqb_spec n 1); [lia|]. rewrite Hne.
  split; intros Hlt step Hs; rewrite Hlt, Hs; cbn [bind]; apply vec_build_off; auto; apply repeat_length.
Qed.
Theorem C28_linspace_degenerate : forall (start stop : T) n, fits n ->
  linspace start stop 0 = Ok nil /\ linspace start stop 1 = Ok [stop] /\
  (1 <= n -> ofeq start stop = true -> linspace start stop n = Ok (repeat stop n)).
Proof.
  intros start stop n Hf. split; [reflexivity|]. split; [reflexivity|]. intros H1 Hq.
  unfold linspace. rewrite vec_fill_ok by auto. cbn [bind]. destruct (Nat.eqb_spec n 0); [lia|].
  destruct (Nat.eqb_spec n 1) as [->|]; [reflexivity|]. rewrite Hq.
  destruct (vec_build_off (repeat o1 n) n (fun _ => stop)) as (d & E & Q); auto. { apply repeat_length. }
  rewrite E. f_equal. eapply is_vec_unique; [exact Q|]. split; [apply repeat_length|]. split; auto.
  intros i Hi. apply nth_error_repeat_lt; auto.
Qed.

(** * C29 *)
Theorem C29_flatnonzero : forall m r c f, is_mat m r c f ->
  exists ls : list nat, flatnonzero m = Ok ls /\ StronglySorted lt ls /\
    forall k, In k ls <-> k < r * c /\ oisz (f (k / c) (k mod c)) = false.
Proof.
  intros m r c f H. rewrite (flatnonzero_ok m r c f H). eexists. split; [reflexivity|]. split.
  - assert (Hs : forall n s, StronglySorted lt (seq s n)).
    { induction n as [|n IH]; intros s; cbn; constructor; auto. apply Forall_forall. intros x Hx. apply in_seq in Hx. lia. }
    generalize (Hs (r * c) 0). generalize (seq 0 (r * c)). intros ls. induction ls as [|x ls IH]; intros Hl; cbn; [constructor|].
    inversion Hl as [|y ls' H1 H2]; subst. destruct (negb _); auto. constructor; auto.
    apply Forall_forall. intros y Hy. apply filter_In in Hy. eapply Forall_forall in H2; [|apply Hy]. exact H2.
  - intros k. rewrite filter_In, in_seq. destruct (oisz _); cbn; split; intros (A1 & A2); split; auto; try lia; discriminate.
Qed.
Theorem C29_find_all : forall (m : Matrix T) r c f n (first_last : bool) (ls : list nat), is_mat m r c f -> flatnonzero m = Ok ls -> 0 < n -> length ls <= n ->
  exists x, find m n first_last = Ok x /\
    is_mat x (if r =? 1 then 1 else length ls) (if r =? 1 then length ls else 1)
             (fun i j => nth (if r =? 1 then j else i) ls 0).
Proof.
  intros m r c f n fl ls H E Hn Hl. assert (Hr : rows m = r) by apply H. unfold find. rewrite E. cbn [bind].
  destruct (Nat.eqb_spec n 0); [lia|]. destruct (Nat.ltb_spec n (length ls)); [lia|]. cbn [bind].
  assert (Hfl : fits (length ls)).
  { rewrite (flatnonzero_ok m r c f H) in E. injection E as E'.
    assert (Hs := is_mat_shape _ _ _ _ H). destruct Hs as (_ & _ & Hs). eapply fits_le; [|exact Hs].
    rewrite <- E'. etransitivity; [apply filter_length_le|]. rewrite seq_length. lia. }
  unfold is_row_vector. cbn [mrows mb_of_mat]. rewrite Hr. destruct (Nat.eqb_spec r 1).
  - destruct (mat_of_list_ok (T:=nat) 1 (length ls) ls (shape_ok_1l _ Hfl) ltac:(lia) 0) as (x & E1 & H1).
    exists x. split; auto. eapply is_mat_ext; [exact H1|]. intros i j Hi Hj. cbn. f_equal. lia.
  - destruct (mat_of_list_ok (T:=nat) (length ls) 1 ls (shape_ok_1r _ Hfl) ltac:(lia) 0) as (x & E1 & H1).
    exists x. split; auto. eapply is_mat_ext; [exact H1|]. intros i j Hi Hj. cbn. f_equal. lia.
Qed.
Lemma sorted_length : forall (l : list nat) x N, StronglySorted lt (x :: l) -> (forall k, In k (x :: l) -> k < N) -> x + length (x :: l) <= N.
Proof.
  induction l as [|y l IH]; intros x N Hs Hin.
  - specialize (Hin x (or_introl eq_refl)). cbn. lia.
  - inversion Hs as [|x' l' H1 H2]; subst. inversion H2; subst.
    assert (Q := IH y N H1 (fun k Hk => Hin k (or_intror Hk))). cbn [length] in *. lia.
Qed.
(** With 0 < n < count the result is [first] copies of [first + n] (or the analogue
    for the last n), where [first] is the first non-zero index. *)
Theorem C29_find_n_defect : forall (m : Matrix T) r c f n (ls : list nat) first rest, is_mat m r c f -> flatnonzero m = Ok ls -> ls = first :: rest ->
  0 < n -> n < length ls -> 
  (exists x, find m n true = Ok x /\
    is_mat x (if r =? 1 then 1 else first) (if r =? 1 then first else 1) (fun _ _ => first + n)) /\
  (exists x, find m n false = Ok x /\
    is_mat x (if r =? 1 then 1 else first + length ls - n) (if r =? 1 then first + length ls - n else 1) (fun _ _ => first + length ls)).
Proof.
  intros m r c f n ls first rest H E El Hn Hl. assert (Hr : rows m = r) by apply H.
  assert (Hs := is_mat_shape _ _ _ _ H). destruct Hs as (_ & _ & Hs).
  assert (Hin : first < r * c).
  { assert (Hi : In first ls) by (rewrite El; left; auto). rewrite (flatnonzero_ok m r c f H) in E. injection E as E'.
    rewrite <- E' in Hi. apply filter_In in Hi. destruct Hi as (Hi & _). apply in_seq in Hi. lia. }
  assert (Hlen : length ls <= r * c).
  { rewrite (flatnonzero_ok m r c f H) in E. injection E as E'. rewrite <- E'. etransitivity; [apply filter_length_le|]. rewrite seq_length. lia. }
  assert (Sz : is_size (r * c + r * c)). { unfold fits, alloc_max in Hs. unfold is_size, two64. lia. }
  assert (G : forall v k, fits k -> exists x, (if is_row_vector (mb_of_mat m) then mat_of_list (T:=nat) 1 (length (repeat v k)) (repeat v k)
        else mat_of_list (length (repeat v k)) 1 (repeat v k)) = Ok x /\
     is_mat x (if r =? 1 then 1 else k) (if r =? 1 then k else 1) (fun _ _ => v)).
  { intros v k Hk. unfold is_row_vector. cbn [mrows mb_of_mat]. rewrite Hr, repeat_length. destruct (Nat.eqb_spec r 1).
    - destruct (mat_of_list_ok (T:=nat) 1 k (repeat v k) (shape_ok_1l _ Hk) ltac:(rewrite repeat_length; lia) v) as (x & E1 & H1).
      exists x. split; auto. eapply is_mat_ext; [exact H1|]. intros i j Hi Hj. cbn. apply nth_repeat.
    - destruct (mat_of_list_ok (T:=nat) k 1 (repeat v k) (shape_ok_1r _ Hk) ltac:(rewrite repeat_length; lia) v) as (x & E1 & H1).
      exists x. split; auto. eapply is_mat_ext; [exact H1|]. intros i j Hi Hj. cbn. apply nth_repeat. }
  unfold find. rewrite E. cbn [bind]. destruct (Nat.eqb_spec n 0); [lia|]. destruct (Nat.ltb_spec n (length ls)); [|lia].
  rewrite (lget_ok ls 0 first) by (rewrite El; reflexivity). cbn [bind].
  rewrite (add64_small first n) by (apply (size_le _ (r*c + r*c)); auto; lia).
  rewrite (add64_small first (length ls)) by (apply (size_le _ (r*c + r*c)); auto; lia).
  rewrite sub64_small by (try lia; apply (size_le _ (r*c + r*c)); auto; lia).
  split.
  - apply G. apply (fits_le _ (r * c)); auto. lia.
  - apply G. apply (fits_le _ (r * c)); auto.
    destruct (C29_flatnonzero m r c f H) as (ls' & E' & Hs' & Hin'). rewrite E in E'. injection E' as <-. rewrite El in Hs', Hin'.
    assert (Q := sorted_length rest first (r * c) Hs' (fun k Hk => proj1 (proj1 (Hin' k) Hk))). rewrite El. lia.
Qed.
Theorem C29_find_zero : forall (m : Matrix T) r c f fl, is_mat m r c f -> find m 0 fl = Ok (mkM 0 0 nil).
Proof. intros m r c f fl H. unfold find. rewrite (flatnonzero_ok m r c f H). reflexivity. Qed.

(** * C30 *)
(** A and B have n elements, read in linear order as fa and fb. *)
Theorem C30_compare_spec : forall A B n fa fb,
  msize A = n /\ (forall k, k < n -> mlin A k = Ok (fa k)) ->
  msize B = n /\ (forall k, k < n -> mlin B k = Ok (fb k)) ->
  (exists k, k < n /\ (forall i, i < k -> olt (fa i) (fb i) = false /\ olt (fb i) (fa i) = false) /\
     (olt (fa k) (fb k) = true /\ compare A B = Ok (- Z.of_nat k)%Z \/
      olt (fa k) (fb k) = false /\ olt (fb k) (fa k) = true /\ compare A B = Ok (Z.of_nat k)))
  \/ ((forall i, i < n -> olt (fa i) (fb i) = false /\ olt (fb i) (fa i) = false) /\ compare A B = Ok 0%Z).
Proof.
  intros A B n fa fb (Za & La) (Zb & Lb). unfold compare. rewrite Za, Zb, Nat.eqb_refl. cbn [negb].
  destruct (first_range_spec (fun i => if olt (fa i) (fb i) then Some (- Z.of_nat i)%Z else if olt (fb i) (fa i) then Some (Z.of_nat i) else None)
    (fun i => let* x := mlin A i in let* y := mlin B i in Ok (if olt x y then Some (- Z.of_nat i)%Z else if olt y x then Some (Z.of_nat i) else None)) 0 n)
    as [(k & a & Hk & Ea & Hn & E)|(Hn & E)].
  - intros i Hi. rewrite La, Lb by lia. reflexivity.
  - left. exists k. split; [lia|]. split.
    + intros i Hi. specialize (Hn i ltac:(lia)). destruct (olt (fa i) (fb i)); [discriminate|]. destruct (olt (fb i) (fa i)); [discriminate|auto].
    + rewrite E. cbn [bind]. destruct (olt (fa k) (fb k)); [left|right; split; auto]; [inversion Ea; auto|].
      destruct (olt (fb k) (fa k)); inversion Ea; auto.
  - right. rewrite E. cbn [bind]. split; auto. intros i Hi. specialize (Hn i ltac:(lia)).
    destruct (olt (fa i) (fb i)); [discriminate|]. destruct (olt (fb i) (fa i)); [discriminate|auto].
Qed.
Theorem C30_compare_throws : forall A B, msize A <> msize B -> compare A B = Throw.
Proof. intros A B H. unfold compare. nb. Qed.
(** On a strict total order: 0 means equal, provided the first elements are equal. *)
Theorem C30_compare_zero : forall A B n fa fb,
  msize A = n -> (forall k, k < n -> mlin A k = Ok (fa k)) ->
  msize B = n -> (forall k, k < n -> mlin B k = Ok (fb k)) ->
  (forall x y : T, olt x y = false -> olt y x = false -> x = y) -> (forall x : T, olt x x = false) ->
  (0 < n -> fa 0 = fb 0) ->
  (compare A B = Ok 0%Z <-> forall k, k < n -> fa k = fb k).
Proof.
  intros A B n fa fb Za La Zb Lb Htot Hirr H0.
  destruct (C30_compare_spec A B n fa fb (conj Za La) (conj Zb Lb)) as [(k & Hk & _ & Hc)|(Hall & E)].
  - assert (k <> 0). { intros ->. specialize (H0 Hk). rewrite H0, Hirr in Hc. destruct Hc as [(Q & _)|(_ & Q & _)]; discriminate. }
    split.
    + intros E. exfalso. destruct Hc as [(_ & Q)|(_ & _ & Q)]; rewrite E in Q; inversion Q; lia.
    + intros E. exfalso. rewrite (E k Hk), Hirr in Hc. destruct Hc as [(Q & _)|(_ & Q & _)]; discriminate.
  - split; auto. intros _ k Hk. destruct (Hall k Hk). auto.
Qed.
Theorem C30_compare_antisymmetric : forall A B n fa fb,
  msize A = n -> (forall k, k < n -> mlin A k = Ok (fa k)) ->
  msize B = n -> (forall k, k < n -> mlin B k = Ok (fb k)) ->
  (forall x y : T, olt x y = true -> olt y x = false) ->
  exists z, compare A B = Ok z /\ compare B A = Ok (- z)%Z.
Proof.
  intros A B n fa fb Za La Zb Lb Hasym.
  destruct (C30_compare_spec A B n fa fb (conj Za La) (conj Zb Lb)) as [(k & Hk & Hp & Hc)|(Hall & E)];
  destruct (C30_compare_spec B A n fb fa (conj Zb Lb) (conj Za La)) as [(k2 & Hk2 & Hp2 & Hc2)|(Hall2 & E2)].
  - assert (k = k2) as ->.
    { destruct (lt_eq_lt_dec k k2) as [[L|L]|L]; auto; exfalso.
      - destruct (Hp2 k L) as (Q1 & Q2). rewrite Q1, Q2 in Hc. destruct Hc as [(Q & _)|(_ & Q & _)]; discriminate.
      - destruct (Hp k2 L) as (Q1 & Q2). rewrite Q1, Q2 in Hc2. destruct Hc2 as [(Q & _)|(_ & Q & _)]; discriminate. }
    destruct Hc as [(Q1 & E1)|(Q1 & Q2 & E1)]; destruct Hc2 as [(Q3 & E2)|(Q3 & Q4 & E2)]; try congruence.
    + apply Hasym in Q1. congruence.
    + exists (- Z.of_nat k2)%Z. rewrite E1, E2, Z.opp_involutive. auto.
    + exists (Z.of_nat k2)%Z. rewrite E1, E2. auto.
  - destruct (Hall2 k Hk) as (Q1 & Q2). rewrite Q1, Q2 in Hc. destruct Hc as [(Q & _)|(_ & Q & _)]; discriminate.
  - destruct (Hall k2 Hk2) as (Q1 & Q2). rewrite Q1, Q2 in Hc2. destruct Hc2 as [(Q & _)|(_ & Q & _)]; discriminate.
  - exists 0%Z. rewrite E, E2. auto.
Qed.
(** The vector overload is the same function on the lists. *)
Theorem C30_compare_vector : forall (a b : list T) d, length a = length b ->
  compare_v a b = compare (mkMB 1 (length a) (length a) false (fun _ j => lget a j) (lget a)) (mkMB 1 (length b) (length b) false (fun _ j => lget b j) (lget b))
  /\ forall k, k < length a -> lget a k = Ok (nth k a d).
Proof.
  intros a b d E. split. { unfold compare_v, compare. cbn [msize mlin]. rewrite E. reflexivity. }
  intros k Hk. apply lget_ok, nth_error_nth'. auto.
Qed.
Theorem C30_compare_vector_throws : forall (a b : list T), length a <> length b -> compare_v a b = Throw.
Proof. intros a b H. unfold compare_v. nb. Qed.

(** * C31 *)
Theorem C31_all_close : forall A B r c fa fb tol, readsL A r c fa -> readsL B r c fb ->
  exists b, all_close A B tol = Ok b /\
    (b = true <-> forall i j, i < r -> j < c -> olt tol (oabs (osub (fa i j) (fb i j))) = false).
Proof.
  intros A B r c fa fb tol ((Ar & Ac & Az & _ & _) & Al) ((Br & Bc & _ & _ & _) & Bl). unfold all_close.
  rewrite Ar, Ac, Br, Bc, !Nat.eqb_refl, Az. cbn [negb].
  destruct (all_range_spec (fun k => negb (olt tol (oabs (osub (fa (k/c) (k mod c)) (fb (k/c) (k mod c))))))
    (fun i => let* x := mlin A i in let* y := mlin B i in Ok (negb (olt tol (oabs (osub x y))))) 0 (r*c)) as (b & E & Q).
  - intros i Hi. rewrite Al, Bl by lia. reflexivity.
  - exists b. split; auto. rewrite Q. split.
    + intros Q1 i j Hi Hj. specialize (Q1 (i * c + j)). rewrite idx_div, idx_mod in Q1 by auto.
      assert (Hij := idx_lt i j r c Hi Hj). specialize (Q1 ltac:(lia)). destruct (olt _ _); auto.
    + intros Q1 k Hk. rewrite Q1; auto; [eapply div_lt_rc|eapply mod_lt_rc]; apply Hk.
Qed.
Theorem C31_all_close_throws : forall A B tol, mrows A <> mrows B \/ mcols A <> mcols B -> all_close A B tol = Throw.
Proof. intros A B tol H. unfold all_close. nb. Qed.
Theorem C31_all_close_vector : forall (a b : list T) tol d, length a = length b ->
  exists r, all_close_v a b tol = Ok r /\
    (r = true <-> forall i, i < length a -> olt tol (oabs (osub (nth i a d) (nth i b d))) = false).
Proof.
  intros a b tol d E. unfold all_close_v. rewrite <- E, Nat.eqb_refl. cbn [negb].
  destruct (all_range_spec (fun k => negb (olt tol (oabs (osub (nth k a d) (nth k b d)))))
    (fun i => let* x := lget a i in let* y := lget b i in Ok (negb (olt tol (oabs (osub x y))))) 0 (length a)) as (r & E1 & Q).
  - intros i Hi. rewrite (lget_ok a i (nth i a d)), (lget_ok b i (nth i b d)) by (apply nth_error_nth'; lia). reflexivity.
  - exists r. split; auto. rewrite Q. split.
    + intros Q1 i Hi. specialize (Q1 i ltac:(lia)). destruct (olt _ _); auto.
    + intros Q1 i Hi. rewrite Q1; auto. lia.
Qed.
Theorem C31_all_close_vector_throws : forall (a b : list T) tol, length a <> length b -> all_close_v a b tol = Throw.
Proof. intros a b tol H. unfold all_close_v. nb. Qed.
(** Reflexive, symmetric and monotone, given the laws of |x-y| and of the order. *)
Theorem C31_all_close_laws : forall A B r c fa fb (tol tol' : T), readsL A r c fa -> readsL B r c fb ->
  (forall x, olt tol (oabs (osub x x)) = false) ->
  (forall x y, oabs (osub x y) = oabs (osub y x)) ->
  (forall x, olt tol x = false -> olt tol' x = false) ->
  all_close A A tol = Ok true /\ all_close A B tol = all_close B A tol /\
  (all_close A B tol = Ok true -> all_close A B tol' = Ok true).
Proof.
  intros A B r c fa fb tol tol' HA HB H1 H2 H3.
  destruct (C31_all_close A A r c fa fa tol HA HA) as (b1 & E1 & Q1).
  destruct (C31_all_close A B r c fa fb tol HA HB) as (b2 & E2 & Q2).
  destruct (C31_all_close B A r c fb fa tol HB HA) as (b3 & E3 & Q3).
  destruct (C31_all_close A B r c fa fb tol' HA HB) as (b4 & E4 & Q4).
  rewrite E1, E2, E3, E4. split; [|split].
  - f_equal. apply Q1. auto.
  - f_equal. assert (b2 = true <-> b3 = true).
    { rewrite Q2, Q3. split; intros Q i j Hi Hj; rewrite H2; apply Q; auto. }
    destruct b2, b3; auto; [symmetry|]; tauto.
  - intros Q. inversion Q; subst. f_equal. apply Q4. intros i j Hi Hj. apply H3. apply Q2; auto.
Qed.

(** * C75 *)
Theorem C75_accumulate : forall l first last init d, first <= last -> last <= length l ->
  accumulate l first last init = Ok (fold_left oadd (firstn (last - first) (skipn first l)) init) /\
  forall i, first <= i < last -> nth_error (firstn (last - first) (skipn first l)) (i - first) = Some (nth i l d).
Proof.
  intros l first last init d H1 H2. split.
  - unfold accumulate. destruct (Nat.ltb_spec last first); [lia|].
    destruct (for_range_inv (fun k acc => acc = fold_left oadd (firstn (k - first) (skipn first l)) init) first last
      (fun i acc => let* x := lget l i in Ok (oadd acc x)) init) as (acc & E & Q); [lia| | |].
    + rewrite Nat.sub_diag. reflexivity.
    + intros i s Hi ->. destruct (nth_error_lt l i ltac:(lia)) as (x & Ex). rewrite (lget_ok _ _ _ Ex). cbn [bind].
      eexists. split; [reflexivity|]. replace (S i - first) with (S (i - first)) by lia.
      assert (Ex' : nth_error (skipn first l) (i - first) = Some x). { rewrite nth_error_skipn. rewrite <- Ex. f_equal. lia. }
      rewrite (firstn_S _ _ _ Ex'), fold_left_app. reflexivity.
    + rewrite E, Q. reflexivity.
  - intros i Hi. rewrite nth_error_firstn_lt by lia. rewrite nth_error_skipn.
    replace (first + (i - first)) with i by lia. apply nth_error_nth'. lia.
Qed.
Theorem C75_inner_product : forall l1 l2 first1 last1 first2 init,
  first1 <= last1 -> last1 <= length l1 -> first2 + (last1 - first1) <= length l2 ->
  inner_product l1 l2 first1 last1 first2 init =
    Ok (fold_left (fun acc xy => oadd acc (omul (fst xy) (snd xy)))
          (combine (firstn (last1 - first1) (skipn first1 l1)) (firstn (last1 - first1) (skipn first2 l2))) init).
Proof.
  intros l1 l2 p q s init H1 H2 H3. unfold inner_product. destruct (Nat.ltb_spec q p); [lia|].
  destruct (for_range_inv (fun k acc => acc = fold_left (fun acc xy => oadd acc (omul (fst xy) (snd xy)))
          (combine (firstn (k - p) (skipn p l1)) (firstn (k - p) (skipn s l2))) init) p q
      (fun i acc => let* x := lget l1 i in let* y := lget l2 (s + (i - p)) in Ok (oadd acc (omul x y))) init) as (acc & E & Q); [lia| | |].
  - rewrite Nat.sub_diag. reflexivity.
  - intros i acc Hi ->. destruct (nth_error_lt l1 i ltac:(lia)) as (x & Ex). rewrite (lget_ok _ _ _ Ex). cbn [bind].
    destruct (nth_error_lt l2 (s + (i - p)) ltac:(lia)) as (y & Ey). rewrite (lget_ok _ _ _ Ey). cbn [bind].
    eexists. split; [reflexivity|]. replace (S i - p) with (S (i - p)) by lia.
    assert (Ex' : nth_error (skipn p l1) (i - p) = Some x). { rewrite nth_error_skipn. rewrite <- Ex. f_equal. lia. }
    assert (Ey' : nth_error (skipn s l2) (i - p) = Some y). { rewrite nth_error_skipn. exact Ey. }
    rewrite (firstn_S _ _ _ Ex'), (firstn_S _ _ _ Ey').
    rewrite combine_app_eq by (rewrite !firstn_length, !skipn_length; lia). rewrite fold_left_app. reflexivity.
  - rewrite E, Q. reflexivity.
Qed.
Theorem C75_past_the_end : forall l1 l2 first last first2 (init : T), last < first ->
  inner_product l1 l2 first last first2 init = UB /\ accumulate l1 first last init = UB.
Proof. intros. unfold inner_product, accumulate. nb. auto. Qed.

(** * C76 *)
Theorem C76_rand_matrix : forall draw r c, shape_ok r c ->
  exists m, rand_matrix draw r c = Ok (m, r * c) /\ is_mat m r c (fun i j => draw (i * c + j)).
Proof.
  intros draw r c Hs. unfold rand_matrix. destruct (mat_new_ok r c o0 Hs) as (m & E & Hm). rewrite E. cbn [bind].
  rewrite mul64_small by (apply shape_size; auto).
  destruct (for_range_inv (fun k (s : Matrix T * nat) => snd s = k /\ is_mat (fst s) r c (fun i j => if i * c + j <? k then draw (i * c + j) else o0)) 0 (r * c)
    (fun i s => let* m := mat_lset (fst s) i (draw (snd s)) in Ok (m, S (snd s))) (m, 0)) as ((m' & n) & E' & Q1 & Q2); [lia| | |].
  - cbn. split; auto.
  - intros k s Hk (H1 & H2). destruct (mat_lset_ok (fst s) r c _ k (draw (snd s)) H2 ltac:(lia)) as (m1 & E1 & H3).
    rewrite E1. cbn [bind]. eexists. split; [reflexivity|]. cbn. split; [lia|]. eapply is_mat_ext; [exact H3|].
    intros i j Hi Hj. rewrite H1. apply (lin_step draw (fun _ _ => o0) k i j r c); auto; lia.
  - cbn in *. subst n. exists m'. split; auto. eapply is_mat_ext; [exact Q2|]. intros i j Hi Hj.
    assert (Hij := idx_lt i j r c Hi Hj). cbn. nb.
Qed.
Theorem C76_rand_vector : forall draw n, fits n ->
  exists d, rand_vector draw n = Ok (d, n) /\ is_vec d n draw.
Proof.
  intros draw n Hf. unfold rand_vector. rewrite vec_fill_ok by auto. cbn [bind]. rewrite repeat_length.
  destruct (for_range_inv (fun k (s : list T * nat) => snd s = k /\ length (fst s) = n /\ forall i, i < k -> nth_error (fst s) i = Some (draw i)) 0 n
    (fun i s => let* d := lset (fst s) i (draw (snd s)) in Ok (d, S (snd s))) (repeat o0 n, 0)) as ((d & n') & E' & Q1 & Q2 & Q3); [lia| | |].
  - cbn. split; auto. split; [apply repeat_length|]. intros; lia.
  - intros k s Hk (H1 & H2 & H3). rewrite lset_ok by lia. cbn [bind]. eexists. split; [reflexivity|]. cbn.
    rewrite upd_length. split; [lia|]. split; auto. intros i Hi. rewrite upd_nth_error by lia.
    destruct (Nat.eqb_spec i k); [subst; f_equal; congruence|]. apply H3. lia.
  - cbn in *. subst n'. exists d. split; auto. split; auto.
Qed.
End Props.

Theorem C76_rand_matrix_complex : forall {T C} {O : Ops C} (cplx : T -> T -> C) draw swap r c, shape_ok r c ->
  exists m, rand_matrix_c cplx draw swap r c = Ok (m, 2 * (r * c)) /\
    is_mat m r c (fun i j => let k := i * c + j in
      if swap k then cplx (draw (2 * k + 1)) (draw (2 * k)) else cplx (draw (2 * k)) (draw (2 * k + 1))).
Proof.
  intros T C O cplx draw swap r c Hs. unfold rand_matrix_c. destruct (mat_new_ok r c o0 Hs) as (m & E & Hm). rewrite E. cbn [bind].
  rewrite mul64_small by (apply shape_size; auto).
  set (h := fun k => if swap k then cplx (draw (2 * k + 1)) (draw (2 * k)) else cplx (draw (2 * k)) (draw (2 * k + 1))).
  destruct (for_range_inv (fun k (s : Matrix C * nat) => snd s = 2 * k /\ is_mat (fst s) r c (fun i j => if i * c + j <? k then h (i * c + j) else o0)) 0 (r * c)
    (fun i s => let* m := mat_lset (fst s) i (rand_cplx cplx draw swap (snd s) i) in Ok (m, S (S (snd s)))) (m, 0)) as ((m' & n) & E' & Q1 & Q2); [lia| | |].
  - cbn. split; auto.
  - intros k s Hk (H1 & H2). destruct (mat_lset_ok (fst s) r c _ k (rand_cplx cplx draw swap (snd s) k) H2 ltac:(lia)) as (m1 & E1 & H3).
    rewrite E1. cbn [bind]. eexists. split; [reflexivity|]. cbn [fst snd]. split; [lia|]. eapply is_mat_ext; [exact H3|].
    intros i j Hi Hj. replace (rand_cplx cplx draw swap (snd s) k) with (h k).
    + apply (lin_step h (fun _ _ => o0) k i j r c); auto; lia.
    + unfold rand_cplx, h. rewrite H1. replace (2 * k + 1) with (S (2 * k)) by lia. reflexivity.
  - cbn [fst snd] in *. exists m'. rewrite E'. split. { do 2 f_equal. auto. } eapply is_mat_ext; [exact Q2|]. intros i j Hi Hj.
    assert (Hij := idx_lt i j r c Hi Hj). cbn [andb]. unfold h. nb.
Qed.
Theorem C76_rand_vector_complex : forall {T C} {O : Ops C} (cplx : T -> T -> C) draw swap n, fits n ->
  exists d, rand_vector_c cplx draw swap n = Ok (d, 2 * n) /\
    is_vec d n (fun k => if swap k then cplx (draw (2 * k + 1)) (draw (2 * k)) else cplx (draw (2 * k)) (draw (2 * k + 1))).
Proof.
  intros T C O cplx draw swap n Hf. unfold rand_vector_c. rewrite vec_fill_ok by auto. cbn [bind]. rewrite repeat_length.
  set (h := fun k => if swap k then cplx (draw (2 * k + 1)) (draw (2 * k)) else cplx (draw (2 * k)) (draw (2 * k + 1))).
  destruct (for_range_inv (fun k (s : list C * nat) => snd s = 2 * k /\ length (fst s) = n /\ forall i, i < k -> nth_error (fst s) i = Some (h i)) 0 n
    (fun i s => let* d := lset (fst s) i (rand_cplx cplx draw swap (snd s) i) in Ok (d, S (S (snd s)))) (repeat o0 n, 0)) as ((d & n') & E' & Q1 & Q2 & Q3); [lia| | |].
  - cbn. split; auto. split; [apply repeat_length|]. intros; lia.
  - intros k s Hk (H1 & H2 & H3). rewrite lset_ok by lia. cbn [bind]. eexists. split; [reflexivity|]. cbn [fst snd].
    rewrite upd_length. split; [lia|]. split; auto. intros i Hi. rewrite upd_nth_error by lia.
    destruct (Nat.eqb_spec i k); [subst; f_equal; unfold rand_cplx, h; rewrite H1; replace (2 * k + 1) with (S (2 * k)) by lia; auto|]. apply H3. lia.
  - cbn [fst snd] in *. exists d. rewrite E'. split. { do 2 f_equal. auto. } split; auto.
Qed.
