(** PropMatrix3.v: shapes whose element count does not fit size_t, in general (C11), and
    extraction with a column start past the end (C14). *)
From Verif Require Import UtilFacts ViewFacts PropMatrix PropUtil.

Section Proofs.
Context {T : Type} {O : Ops T}.

Lemma mul64_N r c : N.of_nat (mul64 r c) = ((N.of_nat r * N.of_nat c) mod two64)%N.
Proof. unfold mul64, wrap64. rewrite N2Nat.id. reflexivity. Qed.

(** * C11 *)
(** r*c does not fit size_t and the wrapped size can be allocated: the matrix reports the
    shape asked for, owns fewer elements, and some element of that shape is out of bounds. *)
Theorem C11_overflow_general : forall r c v, is_size r -> is_size c ->
  (two64 <= N.of_nat r * N.of_nat c)%N -> ((N.of_nat r * N.of_nat c) mod two64 < alloc_max)%N ->
  exists m, mat_new r c v = Ok m /\ rows m = r /\ cols m = c /\
    N.of_nat (msize (mb_of_mat m)) = ((N.of_nat r * N.of_nat c) mod two64)%N /\
    msize (mb_of_mat m) <> rows m * cols m /\
    exists i j, i < r /\ j < c /\ mget (mb_of_mat m) i j = UB.
Proof.
  intros r c v Sr Sc Big Fit. unfold mat_new. assert (EN := mul64_N r c). set (n := mul64 r c) in *.
  assert (Hlt : (N.of_nat n < two64)%N) by (rewrite EN; apply N.mod_lt; unfold two64; lia).
  assert (Hn : n < r * c) by (apply (Nat.lt_le_trans _ (N.to_nat two64)); lia).
  rewrite vec_fill_ok by (unfold fits; rewrite EN; auto). cbn [bind]. eexists. split; [reflexivity|]. cbn [rows cols msize mb_of_mat mget].
  fold n. split; auto. split; auto. split; auto. split; [lia|].
  assert (Hc : 0 < c) by (destruct c; lia).
  exists (n / c), (n mod c). split; [apply Nat.div_lt_upper_bound; lia|]. split; [apply Nat.mod_upper_bound; lia|].
  unfold mat_at, mat_idx. assert (Ed : n / c * c + n mod c = n) by (rewrite Nat.mul_comm; symmetry; apply Nat.div_mod; lia).
  cbn [rows cols data]. rewrite mul64_small by (unfold is_size; lia). rewrite add64_small by (rewrite Ed; exact Hlt).
  rewrite Ed. apply lget_ub. rewrite repeat_length. lia.
Qed.
(** reshape accepts any shape whose wrapped element count is the current one. *)
Theorem C11_overflow_reshape_general : forall (m : Matrix T) r0 c0 f r c, is_mat m r0 c0 f -> is_size r -> is_size c ->
  (two64 <= N.of_nat r * N.of_nat c)%N -> ((N.of_nat r * N.of_nat c) mod two64 = N.of_nat (r0 * c0))%N ->
  exists m', mat_reshape m r c = Ok m' /\ rows m' = r /\ cols m' = c /\ data m' = data m /\
    exists i j, i < r /\ j < c /\ mget (mb_of_mat m') i j = UB.
Proof.
  intros m r0 c0 f r c (Er & Ec & Hs & Hl & _) Sr Sc Big E. unfold mat_reshape. rewrite Er, Ec.
  rewrite (mul64_small r0 c0) by (apply shape_size; auto).
  assert (EN := mul64_N r c). set (n := mul64 r c) in *.
  assert (Hlt : (N.of_nat n < two64)%N) by (rewrite EN; apply N.mod_lt; unfold two64; lia).
  assert (En : n = r0 * c0) by lia.
  assert (Hn : n < r * c) by (apply (Nat.lt_le_trans _ (N.to_nat two64)); lia).
  destruct (Nat.eqb_spec (r0 * c0) n); [|lia]. eexists. split; [reflexivity|]. cbn [rows cols data]. do 3 (split; auto).
  assert (Hc : 0 < c) by (destruct c; lia).
  exists (n / c), (n mod c). split; [apply Nat.div_lt_upper_bound; lia|]. split; [apply Nat.mod_upper_bound; lia|].
  assert (Ed : n / c * c + n mod c = n) by (rewrite Nat.mul_comm; symmetry; apply Nat.div_mod; lia).
  cbn [mget mb_of_mat]. unfold mat_at, mat_idx. cbn [rows cols data]. rewrite mul64_small by (unfold is_size; lia). rewrite add64_small by (rewrite Ed; exact Hlt).
  rewrite Ed. apply lget_ub. lia.
Qed.

(** * C14 *)
Theorem C14_extract_row_undefined : forall A r c f row c0 c1, reads A r c f ->
  c < c0 -> c0 < c1 -> is_size c0 -> row < r -> (N.of_nat (c0 - c) <= 2 ^ 63)%N ->
  extract_row A row c0 c1 = UB.
Proof.
  intros A r c f row c0 c1 (Ar & Ac & _) H1 H2 H3 H4 H5. unfold extract_row. rewrite Ar, Ac.
  destruct (Nat.leb_spec r row); [lia|]. destruct (Nat.leb_spec c1 c0); [lia|].
  replace (Nat.min c c1) with c by lia. assert (Q := sub64_wraps c c0 H1 H3).
  unfold vec_fill. rewrite vec_allocate_ub; auto.
  - unfold fits, alloc_max. rewrite Q. unfold two64. lia.
  - cbn. intros E. rewrite E in Q. unfold two64 in Q. lia.
Qed.
Theorem C14_extract_undefined_1row : forall A r c f r0 c0 c1, reads A r c f ->
  c < c0 -> c0 < c1 -> is_size c0 -> r0 < r -> (N.of_nat (c0 - c) <= 2 ^ 63)%N ->
  extract A r0 (S r0) c0 c1 = UB.
Proof.
  intros A r c f r0 c0 c1 (Ar & Ac & _ & (Sr & _) & _) H1 H2 H3 H4 H5. unfold extract. rewrite Ar, Ac.
  destruct (Nat.leb_spec (S r0) r0); [lia|]. destruct (Nat.leb_spec c1 c0); [lia|].
  replace (Nat.min c c1) with c by lia. replace (Nat.min r (S r0)) with (S r0) by lia.
  assert (Q := sub64_wraps c c0 H1 H3).
  rewrite (sub64_small (S r0) r0) by (try lia; apply (size_le _ r); auto; lia). replace (S r0 - r0) with 1 by lia.
  unfold mat_new, vec_fill. rewrite mul64_small by (unfold is_size; rewrite Nat.mul_1_l, Q; unfold two64; lia). rewrite Nat.mul_1_l.
  rewrite vec_allocate_ub; auto.
  - unfold fits, alloc_max. rewrite Q. unfold two64. lia.
  - cbn. intros E. rewrite E in Q. unfold two64 in Q. lia.
Qed.
End Proofs.

(** 2^32+1 rows of 2^32 elements: 2^32 elements are allocated (shown on the sizes only). *)
Example C11_general_ex : exists r c, is_size r /\ is_size c /\ (two64 <= N.of_nat r * N.of_nat c)%N /\
  ((N.of_nat r * N.of_nat c) mod two64 = 2 ^ 32)%N /\ (2 ^ 32 < alloc_max)%N.
Proof.
  exists (N.to_nat (2 ^ 32 + 1)%N), (N.to_nat (2 ^ 32)%N). unfold is_size. rewrite !N2Nat.id. repeat split; vm_compute; congruence.
Qed.
Example C14_row_ex : exists c0, 3 < c0 /\ is_size c0 /\ extract_row (mb_of_mat ex23) 0 c0 (S c0) = UB /\ extract (mb_of_mat ex23) 1 2 c0 (S c0) = UB.
Proof.
  exists 5. split; [lia|]. split; [reflexivity|]. split.
  - eapply C14_extract_row_undefined; [apply is_mat_reads, ex23_ok| | | | |]; try lia; reflexivity || (vm_compute; congruence).
  - eapply C14_extract_undefined_1row; [apply is_mat_reads, ex23_ok| | | | |]; try lia; reflexivity || (vm_compute; congruence).
Qed.
