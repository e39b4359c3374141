(** MatFacts.v: lemmas about Mat.v against Spec.v. *)
From Verif Require Export BaseFacts Mat Spec.
From Coq Require Import ZifyBool ZifyNat ZifyN.

Ltac Zify.zify_post_hook ::= Z.div_mod_to_equations.

(** ** arithmetic of row-major indices *)
Lemma idx_lt i j r c : i < r -> j < c -> i * c + j < r * c.
Proof. intros. assert (i * c + c <= r * c) by nia. lia. Qed.
Lemma idx_div i j c : j < c -> (i * c + j) / c = i.
Proof. intros. rewrite Nat.div_add_l by lia. rewrite Nat.div_small by lia. lia. Qed.
Lemma idx_mod i j c : j < c -> (i * c + j) mod c = j.
Proof. intros. rewrite Nat.add_comm, Nat.mod_add by lia. apply Nat.mod_small; auto. Qed.
Lemma div_lt_rc k r c : k < r * c -> k / c < r.
Proof. intros. apply Nat.div_lt_upper_bound; [intros ->; lia|lia]. Qed.
Lemma mod_lt_rc k r c : k < r * c -> k mod c < c.
Proof. intros. apply Nat.mod_upper_bound. intros ->; lia. Qed.
Lemma div_mod_rc k r c : k < r * c -> (k / c) * c + k mod c = k.
Proof. intros. rewrite Nat.mul_comm. symmetry. apply Nat.div_mod. intros ->; lia. Qed.
Lemma idx_inj i j a b c : j < c -> b < c -> i * c + j = a * c + b -> i = a /\ j = b.
Proof.
  intros Hj Hb E. split.
  - rewrite <- (idx_div i j c), <- (idx_div a b c); congruence.
  - rewrite <- (idx_mod i j c), <- (idx_mod a b c); congruence.
Qed.

(** ** nested loops *)
Lemma for2_inv {S} (P : nat -> nat -> S -> Prop) nr nc body s :
  P 0 0 s ->
  (forall i j s, i < nr -> j < nc -> P i j s -> exists s', body i j s = Ok s' /\ P i (Datatypes.S j) s') ->
  (forall i s, i < nr -> P i nc s -> P (Datatypes.S i) 0 s) ->
  exists s', for_range 0 nr (fun r s => for_range 0 nc (fun c s => body r c s) s) s = Ok s' /\ P nr 0 s'.
Proof.
  intros H0 Hs Hn.
  apply (for_range_inv (fun i s => P i 0 s)); [lia|auto|].
  intros i si Hi Pi.
  destruct (for_range_inv (fun j s => P i j s) 0 nc (fun c s => body i c s) si) as (s' & E & P'); [lia|auto| |].
  - intros j sj Hj Pj. apply Hs; lia || auto.
  - exists s'. split; auto. apply Hn; auto; lia.
Qed.

Section Facts.
Context {T : Type}.
Implicit Types (m : Matrix T) (f g h : nat -> nat -> T) (X : MB T).

Lemma shape_idx r c i j : shape_ok r c -> i < r -> j < c -> is_size (i * c + j).
Proof.
  intros (_ & _ & Hf) Hi Hj. apply fits_size. eapply fits_le; [|exact Hf].
  assert (i * c + j < r * c) by (apply idx_lt; auto). lia.
Qed.
Lemma shape_size r c : shape_ok r c -> is_size (r * c).
Proof. intros (_ & _ & Hf). auto. Qed.
Lemma mat_idx_ok m r c f i j : is_mat m r c f -> i < r -> j < c -> mat_idx m i j = i * c + j.
Proof.
  intros (_ & Hc & Hs & _) Hi Hj. unfold mat_idx. rewrite Hc.
  assert (S1 := shape_idx r c i j Hs Hi Hj).
  rewrite mul64_small by (eapply size_le; [|exact S1]; lia).
  rewrite add64_small; auto.
Qed.
Lemma is_mat_at m r c f i j : is_mat m r c f -> i < r -> j < c -> mat_at m i j = Ok (f i j).
Proof.
  intros H Hi Hj. unfold mat_at. rewrite (mat_idx_ok m r c f) by auto.
  apply lget_ok. apply H; auto.
Qed.
Lemma is_mat_lin m r c f k : is_mat m r c f -> k < r * c -> lget (data m) k = Ok (f (k / c) (k mod c)).
Proof.
  intros H Hk. apply lget_ok. rewrite <- (div_mod_rc k r c Hk) at 1.
  apply H; [eapply div_lt_rc; eauto|eapply mod_lt_rc; eauto].
Qed.
Lemma is_mat_readsL m r c f : is_mat m r c f -> readsL (mb_of_mat m) r c f.
Proof.
  intros H. assert (H' := H). destruct H' as (Hr & Hc & Hs & HL & Hd).
  split.
  - repeat split; cbn; auto; try apply Hs.
    + rewrite Hr, Hc. apply mul64_small. apply shape_size; auto.
    + intros i j Hi Hj. eapply is_mat_at; eauto.
  - intros k Hk. cbn. eapply is_mat_lin; eauto.
Qed.
Lemma is_mat_reads m r c f : is_mat m r c f -> reads (mb_of_mat m) r c f.
Proof. intros; apply is_mat_readsL; auto. Qed.
Lemma is_mat_ext m r c f g : is_mat m r c f -> (forall i j, i < r -> j < c -> f i j = g i j) -> is_mat m r c g.
Proof.
  intros (Hr & Hc & Hs & HL & Hd) E. repeat split; auto; try apply Hs.
  intros i j Hi Hj. rewrite <- E by auto. auto.
Qed.
Lemma reads_ext X r c f g : reads X r c f -> (forall i j, i < r -> j < c -> f i j = g i j) -> reads X r c g.
Proof.
  intros (Hr & Hc & Hz & Hs & Hd) E. repeat split; auto; try apply Hs.
  intros i j Hi Hj. rewrite <- E by auto. auto.
Qed.
Lemma is_mat_shape m r c f : is_mat m r c f -> shape_ok r c.
Proof. intros H; apply H. Qed.
Lemma is_mat_wf m r c f : is_mat m r c f -> wf m.
Proof. intros (Hr & Hc & Hs & HL & _). unfold wf. rewrite Hr, Hc. auto. Qed.
Lemma is_mat_unique m m' r c f : is_mat m r c f -> is_mat m' r c f -> m = m'.
Proof.
  intros (Hr & Hc & Hs & HL & Hd) (Hr' & Hc' & _ & HL' & Hd').
  destruct m as [mr mc md], m' as [mr' mc' md']; cbn in *. subst. f_equal.
  apply list_ext; [congruence|]. intros k Hk. rewrite HL in Hk.
  rewrite <- (div_mod_rc k r c Hk).
  assert (A := div_lt_rc k r c Hk). assert (B := mod_lt_rc k r c Hk).
  rewrite Hd, Hd' by auto. reflexivity.
Qed.
Lemma is_mat_fun m r c f g : is_mat m r c f -> is_mat m r c g -> forall i j, i < r -> j < c -> f i j = g i j.
Proof.
  intros (_ & _ & _ & _ & Hd) (_ & _ & _ & _ & Hd') i j Hi Hj.
  specialize (Hd i j Hi Hj). specialize (Hd' i j Hi Hj). congruence.
Qed.
(** Every well-formed matrix is described by some element function. *)
Lemma wf_is_mat (d : T) m : wf m ->
  is_mat m (rows m) (cols m) (fun i j => nth (i * cols m + j) (data m) d).
Proof.
  intros (Hs & HL). repeat split; auto; try apply Hs.
  intros i j Hi Hj. apply nth_error_nth'. rewrite HL. apply idx_lt; auto.
Qed.

Lemma mat_set_ok m r c f i j v : is_mat m r c f -> i < r -> j < c ->
  exists m', mat_set m i j v = Ok m' /\ is_mat m' r c (fset f i j v).
Proof.
  intros H Hi Hj. unfold mat_set. rewrite (mat_idx_ok m r c f) by auto.
  destruct H as (Hr & Hc & Hs & HL & Hd).
  assert (Hk : i * c + j < length (data m)) by (rewrite HL; apply idx_lt; auto).
  rewrite lset_ok by auto. cbn. eexists. split; [reflexivity|].
  split; [exact Hr|]. split; [exact Hc|]. split; [exact Hs|]. cbn [data]. split.
  - rewrite upd_length; auto.
  - intros a b Ha Hb. rewrite upd_nth_error by auto. unfold fset.
    destruct (Nat.eqb_spec (a * c + b) (i * c + j)) as [E|N].
    + apply idx_inj in E; auto. destruct E as [-> ->]. rewrite !Nat.eqb_refl. reflexivity.
    + destruct (Nat.eqb_spec a i) as [->|Na]; cbn; auto.
      destruct (Nat.eqb_spec b j) as [->|Nb]; auto. congruence.
Qed.
Lemma mat_lset_ok m r c f k v : is_mat m r c f -> k < r * c ->
  exists m', mat_lset m k v = Ok m' /\ is_mat m' r c (fset f (k / c) (k mod c) v).
Proof.
  intros H Hk. destruct (mat_set_ok m r c f (k / c) (k mod c) v H) as (m' & E & H').
  - eapply div_lt_rc; eauto.
  - eapply mod_lt_rc; eauto.
  - exists m'. split; auto. rewrite <- E. unfold mat_lset, mat_set.
    rewrite (mat_idx_ok m r c f) by (eauto using div_lt_rc, mod_lt_rc).
    rewrite (div_mod_rc k r c); auto.
Qed.

(** ** filling loops *)
Definition before (i j a b : nat) : bool := (a <? i) || ((a =? i) && (b <? j)).

(** out(phi r c) = h r c for all r < nr, c < nc, phi injective into the shape. *)
Lemma scatter_ok m r c f nr nc (phi : nat -> nat -> nat * nat) (g : nat -> nat -> Res T) h :
  is_mat m r c f ->
  (forall i j, i < nr -> j < nc -> fst (phi i j) < r /\ snd (phi i j) < c) ->
  (forall i j a b, i < nr -> j < nc -> a < nr -> b < nc -> phi i j = phi a b -> i = a /\ j = b) ->
  (forall i j, i < nr -> j < nc -> g i j = Ok (h i j)) ->
  exists m' f', for_range 0 nr (fun i m => for_range 0 nc (fun j m =>
      let* v := g i j in mat_set m (fst (phi i j)) (snd (phi i j)) v) m) m = Ok m' /\
    is_mat m' r c f' /\
    (forall i j, i < nr -> j < nc -> f' (fst (phi i j)) (snd (phi i j)) = h i j) /\
    (forall a b, a < r -> b < c -> (forall i j, i < nr -> j < nc -> phi i j <> (a, b)) -> f' a b = f a b).
Proof.
  intros H0 Hin Hinj Hg.
  set (P := fun i j m => exists f', is_mat m r c f' /\
     (forall a b, a < nr -> b < nc -> before i j a b = true -> f' (fst (phi a b)) (snd (phi a b)) = h a b) /\
     (forall x y, x < r -> y < c -> (forall a b, a < nr -> b < nc -> phi a b <> (x, y)) -> f' x y = f x y)).
  destruct (for2_inv P nr nc (fun i j m => let* v := g i j in mat_set m (fst (phi i j)) (snd (phi i j)) v) m)
    as (m' & E & (f' & H1 & H2 & H3)).
  - exists f. split; auto. split; auto. intros a b _ _ Hb. unfold before in Hb. lia.
  - intros i j m1 Hi Hj (f1 & H1 & H2 & H3). rewrite Hg by auto. cbn.
    destruct (Hin i j Hi Hj) as (Ha & Hb).
    destruct (mat_set_ok m1 r c f1 _ _ (h i j) H1 Ha Hb) as (m2 & E2 & H4).
    exists m2. split; auto. exists (fset f1 (fst (phi i j)) (snd (phi i j)) (h i j)). split; auto. split.
    + intros a b Ha' Hb' Hbef. unfold fset.
      destruct (Nat.eqb_spec (fst (phi a b)) (fst (phi i j))) as [E1|E1];
      destruct (Nat.eqb_spec (snd (phi a b)) (snd (phi i j))) as [E3|E3]; cbn.
      * assert (phi a b = phi i j) by (destruct (phi a b), (phi i j); cbn in *; congruence).
        apply Hinj in H; auto. destruct H; subst; auto.
      * apply H2; auto. unfold before in *. destruct (Nat.eq_dec a i), (Nat.eq_dec b j); subst; try congruence; lia.
      * apply H2; auto. unfold before in *. destruct (Nat.eq_dec a i), (Nat.eq_dec b j); subst; try congruence; lia.
      * apply H2; auto. unfold before in *. destruct (Nat.eq_dec a i), (Nat.eq_dec b j); subst; try congruence; lia.
    + intros x y Hx Hy Hn. unfold fset.
      destruct (Nat.eqb_spec x (fst (phi i j))) as [E1|E1];
      destruct (Nat.eqb_spec y (snd (phi i j))) as [E3|E3]; cbn; try (apply H3; auto; fail).
      exfalso. apply (Hn i j Hi Hj). destruct (phi i j); cbn in *; congruence.
  - intros i m1 Hi (f1 & H1 & H2 & H3). exists f1. split; auto. split; auto.
    intros a b Ha Hb Hbef. apply H2; auto. unfold before in *. lia.
  - exists m', f'. split; auto. split; auto. split; auto.
    intros i j Hi Hj. apply H2; auto. unfold before. lia.
Qed.

Lemma fill_rc_ok m r c f nr nc (g : nat -> nat -> Res T) h :
  is_mat m r c f -> nr <= r -> nc <= c ->
  (forall i j, i < nr -> j < nc -> g i j = Ok (h i j)) ->
  exists m', fill_rc nr nc g m = Ok m' /\
    is_mat m' r c (fun i j => if (i <? nr) && (j <? nc) then h i j else f i j).
Proof.
  intros H Hr Hc Hg.
  destruct (scatter_ok m r c f nr nc (fun i j => (i, j)) g h) as (m' & f' & E & H1 & H2 & H3); auto.
  - cbn. intros. lia.
  - intros i j a b _ _ _ _ Eq. inversion Eq; auto.
  - exists m'. split; [exact E|]. eapply is_mat_ext; [exact H1|]. cbn in *.
    intros i j Hi Hj. destruct (Nat.ltb_spec i nr); destruct (Nat.ltb_spec j nc); cbn;
      try (apply H3; auto; intros a b Ha Hb Eq; inversion Eq; lia).
    apply H2; auto.
Qed.
Lemma fill_lin_ok m r c f n (g : nat -> Res T) (h : nat -> T) :
  is_mat m r c f -> n <= r * c ->
  (forall k, k < n -> g k = Ok (h k)) ->
  exists m', fill_lin n g m = Ok m' /\
    is_mat m' r c (fun i j => if i * c + j <? n then h (i * c + j) else f i j).
Proof.
  intros H Hn Hg. unfold fill_lin.
  destruct (for_range_inv (fun k m => is_mat m r c (fun i j => if i * c + j <? k then h (i * c + j) else f i j))
             0 n (fun i m => let* v := g i in mat_lset m i v) m) as (m' & E & H'); [lia| | |].
  - cbn. eapply is_mat_ext; [exact H|]. intros; reflexivity.
  - intros k mk Hk Hm. rewrite Hg by lia. cbn.
    destruct (mat_lset_ok mk r c _ k (h k) Hm) as (m2 & E2 & H2); [lia|].
    exists m2. split; auto. eapply is_mat_ext; [exact H2|]. intros i j Hi Hj. unfold fset.
    assert (Hk' : k < r * c) by lia. assert (D := div_mod_rc k r c Hk').
    destruct (Nat.eqb_spec i (k / c)); destruct (Nat.eqb_spec j (k mod c)); cbn.
    + replace (i * c + j) with k by congruence. destruct (Nat.ltb_spec k (S k)); [auto|lia].
    + assert (i * c + j <> k) by (intros E1; rewrite <- E1, idx_mod in n0 by auto; lia).
      destruct (Nat.ltb_spec (i * c + j) k); destruct (Nat.ltb_spec (i * c + j) (S k)); auto; lia.
    + assert (i * c + j <> k) by (intros E1; rewrite <- E1, idx_div in n0 by auto; lia).
      destruct (Nat.ltb_spec (i * c + j) k); destruct (Nat.ltb_spec (i * c + j) (S k)); auto; lia.
    + assert (i * c + j <> k) by (intros E1; rewrite <- E1, idx_div in n0 by auto; lia).
      destruct (Nat.ltb_spec (i * c + j) k); destruct (Nat.ltb_spec (i * c + j) (S k)); auto; lia.
  - exists m'. split; auto.
Qed.
(** the loop covers the whole matrix *)
Lemma fill_rc_full m r c f (g : nat -> nat -> Res T) h :
  is_mat m r c f -> (forall i j, i < r -> j < c -> g i j = Ok (h i j)) ->
  exists m', fill_rc r c g m = Ok m' /\ is_mat m' r c h.
Proof.
  intros H Hg. destruct (fill_rc_ok m r c f r c g h) as (m' & E & H'); auto.
  exists m'. split; auto. eapply is_mat_ext; [exact H'|]. intros i j Hi Hj. cbn.
  destruct (Nat.ltb_spec i r); destruct (Nat.ltb_spec j c); auto; lia.
Qed.
Lemma fill_lin_full m r c f (g : nat -> Res T) h :
  is_mat m r c f -> (forall k, k < r * c -> g k = Ok (h (k / c) (k mod c))) ->
  exists m', fill_lin (r * c) g m = Ok m' /\ is_mat m' r c h.
Proof.
  intros H Hg. destruct (fill_lin_ok m r c f (r * c) g (fun k => h (k / c) (k mod c))) as (m' & E & H'); auto.
  exists m'. split; auto. eapply is_mat_ext; [exact H'|]. intros i j Hi Hj. cbn.
  destruct (Nat.ltb_spec (i * c + j) (r * c)) as [_|L].
  - rewrite idx_div, idx_mod by auto. auto.
  - assert (i * c + j < r * c) by (apply idx_lt; auto). lia.
Qed.
End Facts.

(** ** vectors *)
Section VecFacts.
Context {T : Type} {O : Ops T}.
Implicit Types l : list T.

Lemma vec_allocate_ok l n : fits n ->
  vec_allocate l n = Ok (firstn n l ++ repeat o0 (n - length l)).
Proof.
  intros Hn. unfold vec_allocate.
  destruct (Nat.eqb_spec n 0) as [->|N0]; [reflexivity|].
  destruct (Nat.eqb_spec n (length l)) as [->|N1].
  - rewrite Nat.sub_diag, firstn_all. cbn. rewrite app_nil_r. reflexivity.
  - apply fitsb_spec in Hn. rewrite Hn. reflexivity.
Qed.
Lemma vec_allocate_ub l n : ~ fits n -> n <> length l -> vec_allocate l n = UB.
Proof.
  intros Hn Hl. unfold vec_allocate. destruct (Nat.eqb_spec n 0) as [->|N0]; [exfalso; apply Hn; apply fits_0|].
  destruct (Nat.eqb_spec n (length l)); [congruence|]. destruct (fitsb n) eqn:E; auto.
  apply fitsb_spec in E. tauto.
Qed.
Lemma vec_new_ok n : fits n -> vec_new n = Ok (repeat o0 n).
Proof. intros. unfold vec_new. rewrite vec_allocate_ok by auto. rewrite firstn_nil, Nat.sub_0_r. reflexivity. Qed.

Lemma vfill_loop (h : nat -> T) (g : nat -> Res T) n : forall (d : list T), n <= length d ->
  (forall i, i < n -> g i = Ok (h i)) ->
  exists d', for_range 0 n (fun i d => let* x := g i in lset d i x) d = Ok d' /\ length d' = length d /\
    forall k, k < length d -> nth_error d' k = if k <? n then Some (h k) else nth_error d k.
Proof.
  intros d Hn Hg.
  destruct (for_range_inv (fun i d' => length d' = length d /\
      forall k, k < length d -> nth_error d' k = if k <? i then Some (h k) else nth_error d k)
      0 n (fun i d => let* x := g i in lset d i x) d) as (d' & E & H'); [lia| | |].
  - split; auto.
  - intros i di Hi (HL & Hk). rewrite Hg by lia. cbn. rewrite lset_ok by lia.
    eexists. split; [reflexivity|]. split; [rewrite upd_length; auto|].
    intros k Hkl. rewrite upd_nth_error by lia. rewrite Hk by auto.
    destruct (Nat.eqb_spec k i); destruct (Nat.ltb_spec k i); destruct (Nat.ltb_spec k (S i)); subst; auto; lia.
  - exists d'. tauto.
Qed.
Lemma vec_fill_ok n v : fits n -> vec_fill n v = Ok (repeat v n).
Proof.
  intros Hn. unfold vec_fill. rewrite vec_allocate_ok by auto. rewrite firstn_nil, Nat.sub_0_r. cbn [app bind].
  destruct (vfill_loop (fun _ => v) (fun _ => Ok v) (length (repeat o0 n)) (repeat o0 n)) as (d' & E & HL & Hk); auto.
  cbn [bind] in E. rewrite E. cbn. f_equal. apply list_ext; rewrite ?repeat_length in *; auto; try congruence.
  intros i Hi. rewrite HL in Hi. rewrite Hk by auto. destruct (Nat.ltb_spec i n); [|lia].
  rewrite nth_error_repeat_lt; auto.
Qed.
Lemma vec_of_list_ok l : fits (length l) -> vec_of_list l = Ok l.
Proof.
  intros Hn. unfold vec_of_list. rewrite vec_allocate_ok by auto. rewrite firstn_nil, Nat.sub_0_r. cbn [app bind].
  rewrite repeat_length.
  destruct l as [|a0 l0] eqn:El; [reflexivity|]. rewrite <- El in *.
  destruct (vfill_loop (fun i => nth i l a0) (lget l) (length l) (repeat o0 (length l))) as (d' & E & HL & Hk).
  - rewrite repeat_length; auto.
  - intros i Hi. apply lget_ok. apply nth_error_nth'. auto.
  - rewrite E. f_equal. rewrite repeat_length in *. apply list_ext; auto.
    intros i Hi. rewrite HL in Hi. rewrite Hk by auto. destruct (Nat.ltb_spec i (length l)); [|lia].
    symmetry. apply nth_error_nth'. auto.
Qed.
Lemma vec_assign_ok dst l : fits (length l) -> vec_assign dst l = Ok l.
Proof.
  intros Hn. unfold vec_assign. rewrite vec_allocate_ok by auto. cbn [bind].
  set (d0 := firstn (length l) dst ++ repeat o0 (length l - length dst)).
  assert (L0 : length d0 = length l).
  { unfold d0. rewrite app_length, firstn_length, repeat_length. lia. }
  destruct l as [|a0 l0] eqn:El; [apply length_zero_iff_nil in L0; rewrite L0; reflexivity|]. rewrite <- El in *.
  destruct (vfill_loop (fun i => nth i l a0) (lget l) (length d0) d0) as (d' & E & HL & Hk); auto.
  - intros i Hi. apply lget_ok. apply nth_error_nth'. lia.
  - rewrite E. f_equal. apply list_ext; auto; try congruence.
    intros i Hi. rewrite Hk by lia. destruct (Nat.ltb_spec i (length d0)); [|lia].
    symmetry. apply nth_error_nth'. lia.
Qed.

Lemma is_vec_list l n f : is_vec l n f -> length l = n. Proof. intros H; apply H. Qed.
Lemma is_vec_get l n f i : is_vec l n f -> i < n -> lget l i = Ok (f i).
Proof. intros (_ & _ & H) Hi. apply lget_ok. auto. Qed.
Lemma is_vec_unique l l' n f : is_vec l n f -> is_vec l' n f -> l = l'.
Proof.
  intros (HL & _ & H) (HL' & _ & H'). apply list_ext; [congruence|].
  intros i Hi. rewrite H, H' by lia. auto.
Qed.
Lemma is_vec_ext l n f g : is_vec l n f -> (forall i, i < n -> f i = g i) -> is_vec l n g.
Proof. intros (HL & Hf & H) E. repeat split; auto. intros i Hi. rewrite <- E by auto. auto. Qed.

(** constructing an n-vector and setting every element *)
Lemma vec_build (g : nat -> Res T) (h : nat -> T) n d :
  length d = n -> fits n -> (forall i, i < n -> g i = Ok (h i)) ->
  exists d', for_range 0 n (fun i d => let* x := g i in lset d i x) d = Ok d' /\ is_vec d' n h.
Proof.
  intros Hd Hn Hg. destruct (vfill_loop h g n d) as (d' & E & HL & Hk); auto; [lia|].
  exists d'. split; auto. split; [congruence|]. split; auto. intros i Hi. rewrite Hk by lia.
  destruct (Nat.ltb_spec i n); auto; lia.
Qed.

(** ** constructing matrices *)
Lemma is_mat_repeat r c (v : T) : shape_ok r c -> is_mat (mkM r c (repeat v (r * c))) r c (fun _ _ => v).
Proof.
  intros Hs. repeat split; try apply Hs. { cbn; apply repeat_length. }
  intros i j Hi Hj. cbn. apply nth_error_repeat_lt. apply idx_lt; auto.
Qed.
Lemma mat_new_ok r c (v : T) : shape_ok r c ->
  exists m, mat_new r c v = Ok m /\ is_mat m r c (fun _ _ => v).
Proof.
  intros Hs. unfold mat_new. rewrite mul64_small by (apply shape_size; auto).
  rewrite vec_fill_ok by apply Hs. cbn. eexists. split; [reflexivity|]. apply is_mat_repeat; auto.
Qed.
Lemma mat_zero_ok r c : shape_ok r c ->
  exists m, mat_zero (T:=T) r c = Ok m /\ is_mat m r c (fun _ _ => o0).
Proof.
  intros Hs. unfold mat_zero. rewrite mul64_small by (apply shape_size; auto).
  rewrite vec_new_ok by apply Hs. cbn. eexists. split; [reflexivity|]. apply is_mat_repeat; auto.
Qed.
Lemma mat_of_mb_ok X r c f : readsL X r c f -> exists m, mat_of_mb X = Ok m /\ is_mat m r c f.
Proof.
  intros ((Hr & Hc & Hz & Hs & Hg) & HL). unfold mat_of_mb. rewrite Hr, Hc.
  destruct (mat_zero_ok r c Hs) as (m0 & E & H0). rewrite E. cbn.
  rewrite mul64_small by (apply shape_size; auto).
  apply (fill_lin_full m0 r c (fun _ _ => o0)); auto.
Qed.
Lemma mat_copy_ok m r c f : is_mat m r c f -> mat_copy m = Ok m.
Proof.
  intros H. destruct (mat_of_mb_ok (mb_of_mat m) r c f) as (m' & E & H').
  - apply is_mat_readsL; auto.
  - unfold mat_copy. rewrite E. f_equal. eapply is_mat_unique; eauto.
Qed.

Lemma mat_of_list_ok r c l : shape_ok r c -> r * c <= length l -> forall d,
  exists m, mat_of_list r c l = Ok m /\ is_mat m r c (fun i j => nth (i * c + j) l d).
Proof.
  intros Hs HL d. unfold mat_of_list. destruct (mat_zero_ok r c Hs) as (m0 & E & H0). rewrite E. cbn [bind].
  set (P := fun i j (s : Matrix T * nat) => snd s = i * c + j /\
     is_mat (fst s) r c (fun a b => if before i j a b then nth (a * c + b) l d else o0)).
  destruct (for2_inv P r c (fun i j (s : Matrix T * nat) =>
                let* v := lget l (snd s) in
                let* m := mat_set (fst s) i j v in
                Ok (m, S (snd s))) (m0, 0)) as ((m1, k) & E1 & H1).
  - split; [reflexivity|]. cbn [fst]. eapply is_mat_ext; [exact H0|]. intros a b Ha Hb.
    unfold before. destruct (Nat.ltb_spec b 0); [lia|]. rewrite andb_false_r. reflexivity.
  - intros i j (m1 & k) Hi Hj (Hk & Hm). cbn [fst snd] in *.
    assert (i * c + j < r * c) by (apply idx_lt; auto).
    rewrite (lget_ok l k (nth k l d)) by (apply nth_error_nth'; lia). cbn.
    destruct (mat_set_ok m1 r c _ i j (nth k l d) Hm Hi Hj) as (m2 & E2 & H2). rewrite E2. cbn.
    eexists. split; [reflexivity|]. split; [cbn; lia|]. cbn [fst].
    eapply is_mat_ext; [exact H2|]. intros a b Ha Hb. unfold fset, before.
    destruct (Nat.eqb_spec a i); destruct (Nat.eqb_spec b j); subst; cbn.
    + rewrite Nat.ltb_irrefl. cbn. destruct (Nat.ltb_spec j (S j)); [auto|lia].
    + destruct (Nat.ltb_spec i i); destruct (Nat.ltb_spec b j); destruct (Nat.ltb_spec b (S j)); cbn; auto; lia.
    + rewrite !orb_false_r. auto.
    + rewrite !orb_false_r. auto.
  - intros i (m1 & k) Hi (Hk & Hm). cbn [fst snd] in *. split; [cbn; lia|]. cbn.
    eapply is_mat_ext; [exact Hm|]. intros a b Ha Hb. unfold before.
    destruct (Nat.ltb_spec a i); destruct (Nat.eqb_spec a i); destruct (Nat.ltb_spec b c);
      destruct (Nat.ltb_spec a (S i)); destruct (Nat.eqb_spec a (S i)); destruct (Nat.ltb_spec b 0); cbn; auto; lia.
  - rewrite E1. cbn. exists m1. split; auto. destruct H1 as (_ & H1). cbn in H1.
    eapply is_mat_ext; [exact H1|]. intros a b Ha Hb. unfold before. destruct (Nat.ltb_spec a r); cbn; auto; lia.
Qed.

(** ** assignment *)
Lemma mat_assign_ok X m r c f : reads X r c f -> 0 < r * c ->
  exists m', mat_assign (fun _ => X) m = Ok m' /\ is_mat m' r c f.
Proof.
  intros (Hr & Hc & Hz & Hs & Hg) Hpos. unfold mat_assign. rewrite Hz.
  destruct (Nat.eqb_spec (r * c) 0); [lia|]. rewrite Hr, Hc.
  rewrite mul64_small by (apply shape_size; auto). rewrite vec_new_ok by apply Hs. cbn [bind rows cols].
  apply (fill_rc_full (mkM r c (repeat o0 (r * c))) r c (fun _ _ => o0)).
  - apply is_mat_repeat; auto.
  - auto.
Qed.
Lemma mat_assign_empty src (m : Matrix T) : msize (src m) = 0 -> mat_assign src m = Ok m.
Proof. intros H. unfold mat_assign. rewrite H. reflexivity. Qed.
End VecFacts.
