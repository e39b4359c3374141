(** PropIter.v: iteration, data() and the range form of operator() (C82). *)
From Verif Require Import Iter Spec MatFacts ViewFacts ViewFacts2 PropMatrix UtilFacts.

Section Props.
Context {T : Type}.
Implicit Types (m : Matrix T) (l : list T) (f h : nat -> nat -> T).

(** Visiting a Vector: element 0, 1, ..., n-1, once each. *)
Theorem C82_iterate_vector : forall {S} (body : T -> S -> Res S) l n g s, is_vec l n g ->
  vec_foreach body l s = for_range 0 n (fun i s => body (g i) s) s.
Proof.
  intros S body l n g s H. unfold vec_foreach. rewrite (is_vec_list _ _ _ H).
  apply for_range_ext. intros i s' Hi. rewrite (is_vec_get _ _ _ i H) by lia. reflexivity.
Qed.
Lemma for_n_add {S} (b : nat -> S -> Res S) n1 n2 lo s :
  for_n (n1 + n2) lo b s = (let* s' := for_n n1 lo b s in for_n n2 (lo + n1) b s').
Proof.
  revert lo s. induction n1 as [|n1 IH]; intros lo s; cbn [for_n Nat.add bind].
  - rewrite Nat.add_0_r. reflexivity.
  - destruct (b lo s); cbn [bind]; auto. rewrite IH. destruct (for_n n1 _ _ _); cbn [bind]; auto. f_equal. lia.
Qed.
Lemma for_n_move {S} (b1 b2 : nat -> S -> Res S) n : forall lo1 lo2 s,
  (forall k s, k < n -> b1 (lo1 + k) s = b2 (lo2 + k) s) -> for_n n lo1 b1 s = for_n n lo2 b2 s.
Proof.
  induction n as [|n IH]; intros lo1 lo2 s H; cbn [for_n]; auto.
  assert (H0 := H 0 s). rewrite !Nat.add_0_r in H0. rewrite H0 by lia. destruct (b2 lo2 s); cbn [bind]; auto.
  apply IH. intros k s' Hk. assert (Hk' := H (Datatypes.S k) s'). rewrite !Nat.add_succ_r in Hk'. cbn. apply Hk'. lia.
Qed.
(** Visiting a Matrix: row after row, each element once. *)
Theorem C82_iterate_matrix : forall {S} (body : T -> S -> Res S) m r c f s, is_mat m r c f ->
  mat_foreach body m s = for_range 0 r (fun i s => for_range 0 c (fun j s => body (f i j) s) s) s.
Proof.
  intros S body m r c f s (_ & _ & _ & L & H). unfold mat_foreach, vec_foreach, for_range. rewrite L, !Nat.sub_0_r.
  assert (G : forall k s, k <= r -> for_n (k * c) 0 (fun i s => let* x := lget (data m) i in body x s) s =
    for_n k 0 (fun i s => for_n c 0 (fun j s => body (f i j) s) s) s).
  { clear s. induction k as [|k IH]; intros s Hk; [reflexivity|].
    replace (Datatypes.S k * c) with (k * c + c) by lia. replace (Datatypes.S k) with (k + 1) by lia.
    rewrite !for_n_add, IH by lia. destruct (for_n k 0 _ s) as [s1| | | |]; cbn [bind]; auto.
    cbn [for_n bind Nat.add].
    transitivity (for_n c 0 (fun j s => body (f k j) s) s1); [|destruct (for_n c 0 _ s1); reflexivity].
    apply for_n_move. intros q s2 Hq. cbn [Nat.add]. rewrite (lget_ok _ _ _ (H k q ltac:(lia) Hq)). reflexivity. }
  apply G. lia.
Qed.
(** Assigning through the iterators. *)
Theorem C82_assign_vector : forall (g : T -> Res T) l n a b, is_vec l n a -> (forall i, i < n -> g (a i) = Ok (b i)) ->
  exists d, vec_foreach_set g l = Ok d /\ is_vec d n b.
Proof.
  intros g l n a b Ha Hg. unfold vec_foreach_set. rewrite (is_vec_list _ _ _ Ha).
  destruct (for_range_inv (fun k d => is_vec d n (fun i => if i <? k then b i else a i)) 0 n
    (fun i l => let* x := lget l i in let* y := g x in lset l i y) l) as (d & E & Q); [lia| | |].
  - eapply is_vec_ext; [exact Ha|]. intros; reflexivity.
  - intros k d Hk Q. rewrite (is_vec_get _ _ _ k Q) by lia. cbn [bind].
    destruct (Nat.ltb_spec k k); [lia|]. rewrite Hg by lia. cbn [bind]. rewrite lset_ok by (rewrite (is_vec_list _ _ _ Q); lia).
    eexists. split; [reflexivity|]. destruct Q as (Q1 & Q2 & Q3). split; [rewrite upd_length; auto|]. split; auto.
    intros i Hi. rewrite upd_nth_error by lia. destruct (Nat.eqb_spec i k) as [->|N].
    + destruct (Nat.ltb_spec k (S k)); [reflexivity|lia].
    + rewrite Q3 by auto. destruct (Nat.ltb_spec i k), (Nat.ltb_spec i (S k)); auto; lia.
  - exists d. split; auto. eapply is_vec_ext; [exact Q|]. intros i Hi. cbn. destruct (Nat.ltb_spec i n); [auto|lia].
Qed.
Theorem C82_assign_matrix : forall (g : T -> Res T) m r c f h, is_mat m r c f ->
  (forall i j, i < r -> j < c -> g (f i j) = Ok (h i j)) -> exists m', mat_foreach_set g m = Ok m' /\ is_mat m' r c h.
Proof.
  intros g m r c f h (Hr & Hc & Hs & L & H) Hg. unfold mat_foreach_set.
  destruct (C82_assign_vector g (data m) (r * c) (fun k => f (k / c) (k mod c)) (fun k => h (k / c) (k mod c))) as (d & E & Q1 & Q2 & Q3).
  - split; auto. split; [apply Hs|]. intros k Hk. rewrite <- (div_mod_rc k r c Hk) at 1.
    apply H; [apply div_lt_rc|eapply mod_lt_rc]; eauto.
  - intros k Hk. apply Hg; [apply div_lt_rc|eapply mod_lt_rc]; eauto.
  - rewrite E. cbn [bind]. eexists. split; [reflexivity|]. rewrite Hr, Hc. split; auto. split; auto. split; auto. split; auto.
    intros i j Hi Hj. cbn. rewrite Q3 by (apply idx_lt; auto). rewrite idx_div, idx_mod by auto. reflexivity.
Qed.
(** data() of a matrix is its row-major contents; data() of a view, however nested, is the
    buffer of the root matrix: the view's window is ignored. *)
Theorem C82_data : forall p m r c f k, is_mat m r c f -> k < r * c -> nth_error (vdata p m) k = Some (f (k / c) (k mod c)).
Proof.
  intros p m r c f k (_ & _ & _ & _ & H) Hk.
  assert (E : vdata p m = data m) by (induction p; auto). rewrite E.
  rewrite <- (div_mod_rc k r c Hk) at 1. apply H; [apply div_lt_rc|eapply mod_lt_rc]; eauto.
Qed.
(** A(Range, Range). *)
Theorem C82_range_call : forall m r c f rr rc, is_mat m r c f ->
  start rr < stop rr -> start rc < stop rc -> start rr <= r -> start rc <= c ->
  exists V, mat_range m rr rc = Ok V /\
    reads V (Nat.min (stop rr) r - start rr) (Nat.min (stop rc) c - start rc) (fun i j => f (start rr + i) (start rc + j)).
Proof.
  intros m r c f rr rc H A1 A2 B1 B2. exists (mb_view rr rc (mb_of_mat m)). split.
  - unfold mat_range, view_new. destruct (Nat.ltb_spec (start rr) (stop rr)), (Nat.ltb_spec (start rc) (stop rc)); try lia; reflexivity.
  - assert (V : vshape (PView rr rc Root) r c = Some (Nat.min (stop rr) r - start rr, Nat.min (stop rc) c - start rc)).
    { cbn. destruct (Nat.ltb_spec (start rr) (stop rr)), (Nat.ltb_spec (start rc) (stop rc)), (Nat.leb_spec (start rr) r), (Nat.leb_spec (start rc) c);
      try lia; reflexivity. }
    exact (vmb_reads (PView rr rc Root) m r c f _ _ H V).
Qed.
End Props.
Section Wrap.
Context {T : Type} {O : Ops T}.
(** reshape(A, r, c) and resize(A, r, c) are the members. *)
Theorem C10_utility : forall (m : Matrix T) r c f r' c', is_mat m r c f -> is_size r' -> is_size c' ->
  (r' * c' = r * c -> exists m', util_reshape m r' c' = Ok m' /\
     is_mat m' r' c' (fun i j => f ((i * c' + j) / c) ((i * c' + j) mod c))) /\
  (is_size (r' * c') -> r' * c' <> r * c -> util_reshape m r' c' = Throw).
Proof.
  intros m r c f r' c' H S1 S2. split.
  - intros E. destruct (mat_reshape_ok m r c f r' c' H S1 S2 E) as (m' & E1 & _ & Q). exists m'. auto.
  - intros S3 N. exact (mat_reshape_throw m r c f r' c' H S3 N).
Qed.
Theorem C09_utility : forall (m : Matrix T) r c f r' c', is_mat m r c f -> shape_ok r' c' ->
  exists m', util_resize m r' c' = Ok m' /\ is_mat m' r' c' (fun i j => if (i <? r) && (j <? c) then f i j else o0).
Proof. exact mat_resize_ok. Qed.
End Wrap.
Definition it23 : Matrix Z := mkM 2 3 [1; 2; 3; 4; 5; 6]%Z.
Lemma it23_ok : is_mat it23 2 3 (fun i j => nth (i * 3 + j) [1; 2; 3; 4; 5; 6]%Z 0%Z).
Proof. repeat split; try (unfold fits, alloc_max; cbn; lia). intros [|[|i]] [|[|[|j]]] Hi Hj; try lia; reflexivity. Qed.
Example C82_iterate_ex : mat_foreach (fun x s => Ok (s ++ [x])) it23 nil = Ok [1; 2; 3; 4; 5; 6]%Z.
Proof. reflexivity. Qed.
Example C82_assign_ex : exists m', mat_foreach_set (fun x => Ok (x * x)%Z) it23 = Ok m' /\
  is_mat m' 2 3 (fun i j => (nth (i * 3 + j) [1; 2; 3; 4; 5; 6] 0 * nth (i * 3 + j) [1; 2; 3; 4; 5; 6] 0)%Z).
Proof. eapply C82_assign_matrix; [exact it23_ok|]. reflexivity. Qed.
(** The first value at data() of a view need not be the view's first element. *)
Theorem C82_view_data_refuted : exists (m : Matrix Z) p x y, vshape p (rows m) (cols m) = Some (1, 1) /\
  mget (vmb p m) 0 0 = Ok x /\ nth_error (vdata p m) 0 = Some y /\ x <> y.
Proof.
  exists it23, (PView (mkRange 1 2) (mkRange 2 3) Root), 6%Z, 1%Z. repeat split. discriminate.
Qed.
