(** PropColumns.v: C38 and C85, the column-wise minimum and maximum of a matrix are those of its columns. *)
From Verif Require Import MatFacts LinalgFacts2 PropUtil PropMath Float FloatFacts PropFloat PropFloat2.
From Coq Require Import SpecFloat List Lia.
Import ListNotations.

Section Columns.
Context {T : Type} {O : Ops T}.
(** Column j of the first r rows. *)
Definition column (f : nat -> nat -> T) (r j : nat) : list T := map (fun i => f i j) (seq 0 r).
Lemma column_vec f r j : fits r -> is_vec (column f r j) r (fun i => f i j).
Proof.
  intros Hr. split; [unfold column; now rewrite map_length, seq_length|]. split; [exact Hr|].
  intros i Hi. unfold column. rewrite (nth_error_map (fun i => f i j)). rewrite (nth_error_nth' _ 0) by (rewrite seq_length; lia). rewrite seq_nth by lia. reflexivity.
Qed.
(** The position that the loop of best_v and best_m finds. *)
Fixpoint best_pos (lt : T -> T -> bool) (g : nat -> T) (n : nat) : nat :=
  match n with 0 => 0 | S n => let p := best_pos lt g n in if lt (g n) (g p) then n else p end.
Lemma best_pos_lt lt g n : 0 < n -> best_pos lt g n < n.
Proof.
  induction n as [|n IH]; [lia|]. intros _. cbn [best_pos]. destruct n as [|n]; [destruct (lt _ _); cbn; lia|]. specialize (IH ltac:(lia)). destruct (lt _ _); lia.
Qed.
Lemma pos_loop (lt : T -> T -> bool) (g : nat -> T) (get : nat -> Res T) n : (forall i, i < n -> get i = Ok (g i)) -> 0 < n ->
  for_range 1 n (fun i pos => let* x := get i in let* y := get pos in Ok (if lt x y then i else pos)) 0 = Ok (best_pos lt g n).
Proof.
  intros Hg Hn. destruct (for_range_inv (fun i pos => pos = best_pos lt g i) 1 n (fun i pos => let* x := get i in let* y := get pos in Ok (if lt x y then i else pos)) 0) as (p & E & ->); [lia| | |exact E].
  - cbn. destruct (lt _ _); reflexivity.
  - intros i p Hi ->. pose proof (best_pos_lt lt g i ltac:(lia)). rewrite !Hg by lia. cbn [bind]. eexists. split; reflexivity.
Qed.
Lemma best_v_pos lt v n g : is_vec v n g -> 0 < n -> best_v lt v = Ok (g (best_pos lt g n), best_pos lt g n).
Proof.
  intros Hv Hn. unfold best_v. rewrite (is_vec_list _ _ _ Hv). destruct (Nat.eqb_spec n 0); [lia|].
  rewrite (pos_loop lt g (lget v) n) by (auto; intros; eapply is_vec_get; eauto). cbn [bind]. rewrite (is_vec_get _ _ _ _ Hv) by now apply best_pos_lt. reflexivity.
Qed.
Lemma best_m_pos lt m r c f : is_mat m r c f -> 0 < r -> 0 < c -> exists d, best_m lt m = Ok d /\ is_vec d c (fun j => f (best_pos lt (fun i => f i j) r) j).
Proof.
  intros H Hr Hc. assert (E := H). destruct E as (Er & Ec & Es & _). unfold best_m. rewrite Er, Ec.
  destruct (Nat.eqb_spec r 0); [lia|]. destruct (Nat.eqb_spec c 0); [lia|]. cbn [orb].
  assert (Fc : fits c). { apply (fits_le _ (r * c)); [nia|apply Es]. }
  rewrite vec_fill_ok by auto. cbn [bind].
  destruct (for_range_inv (fun k d => length d = c /\ forall j, j < k -> nth_error d j = Some (f (best_pos lt (fun i => f i j) r) j)) 0 c
    (fun j d => let* pos := for_range 1 r (fun i pos => let* x := mat_at m i j in let* y := mat_at m pos j in Ok (if lt x y then i else pos)) 0 in
                let* x := mat_at m pos j in lset d j x) (repeat o0 c)) as (d & E & L & Q); [lia| | |].
  - rewrite repeat_length. split; auto. intros; lia.
  - intros j d Hj (L & Q). rewrite (pos_loop lt (fun i => f i j) (fun i => mat_at m i j) r) by (auto; intros; eapply is_mat_at; eauto; lia). cbn [bind].
    rewrite (is_mat_at _ _ _ _ (best_pos lt (fun i => f i j) r) j H) by (lia || now apply best_pos_lt). cbn [bind]. rewrite lset_ok by lia.
    eexists. split; [reflexivity|]. rewrite upd_length. split; auto. intros k Hk. rewrite upd_nth_error by lia.
    destruct (Nat.eqb_spec k j) as [->|N]; auto. apply Q. lia.
  - exists d. split; [exact E|]. split; auto.
Qed.
(** For every comparison, whatever its laws: element j of min(A) is the minimum of column j, and the same for max. *)
Theorem C38_columns : forall m r c f, is_mat m r c f -> 0 < r -> 0 < c ->
  (exists d g, min_m m = Ok d /\ is_vec d c g /\ forall j, j < c -> exists pos, min_v (column f r j) = Ok (g j, pos)) /\
  (exists d g, max_m m = Ok d /\ is_vec d c g /\ forall j, j < c -> exists pos, max_v (column f r j) = Ok (g j, pos)).
Proof.
  intros m r c f H Hr Hc. assert (Fr : fits r) by (apply (fits_le _ (r * c)); [nia|apply H]).
  split.
  - destruct (best_m_pos olt m r c f H Hr Hc) as (d & E & Hd). exists d. eexists. split; [exact E|]. split; [exact Hd|].
    intros j Hj. eexists. apply (best_v_pos _ _ r (fun i => f i j)); [now apply column_vec|exact Hr].
  - destruct (best_m_pos (fun x y => olt y x) m r c f H Hr Hc) as (d & E & Hd). exists d. eexists. split; [exact E|]. split; [exact Hd|].
    intros j Hj. eexists. apply (best_v_pos _ _ r (fun i => f i j)); [now apply column_vec|exact Hr].
Qed.
End Columns.

(** Columns of doubles: NaN in the first row wins, elsewhere it is skipped. *)
Theorem C85_matrix_min_max t (m : Matrix double) r c f : is_mat m r c f -> 0 < r -> 0 < c ->
  (exists d g, @min_m double (fops t) m = Ok d /\ is_vec d c g /\ forall j, j < c ->
     (f 0 j = nan -> g j = nan) /\ (f 0 j <> nan -> exists pos, g j = f pos j /\ first_least_number SFltb (fun i => f i j) r pos)) /\
  (exists d g, @max_m double (fops t) m = Ok d /\ is_vec d c g /\ forall j, j < c ->
     (f 0 j = nan -> g j = nan) /\ (f 0 j <> nan -> exists pos, g j = f pos j /\ first_least_number (fun x y => SFltb y x) (fun i => f i j) r pos)).
Proof.
  intros H Hr Hc. assert (Fr : fits r) by (apply (fits_le _ (r * c)); [nia|apply H]).
  destruct (@C38_columns double (fops t) m r c f H Hr Hc) as [(d & g & E & Hd & Q) (d' & g' & E' & Hd' & Q')].
  split; [exists d, g|exists d', g']; (split; [assumption|]); (split; [assumption|]); intros j Hj.
  - destruct (Q j Hj) as (pos & P). destruct (C85_min t _ r (fun i => f i j) (column_vec f r j Fr) Hr) as [A B]. split.
    + intros E0. rewrite (A E0) in P. now injection P.
    + intros E0. destruct (B E0) as (p & B1 & B2). rewrite B1 in P. injection P as P1 P2. exists p. auto.
  - destruct (Q' j Hj) as (pos & P). destruct (C85_max t _ r (fun i => f i j) (column_vec f r j Fr) Hr) as [A B]. split.
    + intros E0. rewrite (A E0) in P. now injection P.
    + intros E0. destruct (B E0) as (p & B1 & B2). rewrite B1 in P. injection P as P1 P2. exists p. auto.
Qed.
Example C85_columns_ex : let m := mkM 2 3 [one; nan; tol6; tol6; one; nan] in
  @min_m double (fops tol6) m = Ok [tol6; nan; tol6] /\ @max_m double (fops tol6) m = Ok [one; nan; tol6].
Proof. split; vm_compute; reflexivity. Qed.
