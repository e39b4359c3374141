(** UtilFacts.v: lemmas for utility.hpp. *)
From Verif Require Export ViewFacts2 Util.
From Coq Require Import ZifyBool ZifyNat ZifyN.
Ltac Zify.zify_post_hook ::= Z.div_mod_to_equations.

Lemma for_range_shift {S} (body : nat -> S -> Res S) lo hi s :
  for_range lo hi body s = for_range 0 (hi - lo) (fun i => body (lo + i)) s.
Proof.
  unfold for_range. rewrite Nat.sub_0_r. generalize (hi - lo) as n. intros n. revert s.
  assert (forall k s, for_n n (lo + k) body s = for_n n k (fun i => body (lo + i)) s) as Q.
  { induction n as [|n IH]; intros k s; cbn; auto. destruct (body (lo + k) s); cbn; auto.
    rewrite <- IH. f_equal. lia. }
  intros s. rewrite <- Q. f_equal. lia.
Qed.

Ltac nb := repeat match goal with
  | |- context [?a =? ?b] => destruct (Nat.eqb_spec a b)
  | |- context [?a <? ?b] => destruct (Nat.ltb_spec a b)
  | |- context [?a <=? ?b] => destruct (Nat.leb_spec a b)
  | H : context [?a =? ?b] |- _ => destruct (Nat.eqb_spec a b)
  | H : context [?a <? ?b] |- _ => destruct (Nat.ltb_spec a b)
  | H : context [?a <=? ?b] |- _ => destruct (Nat.leb_spec a b)
  end; cbn [andb orb negb] in *; try congruence; try lia.

Section U.
Context {T : Type} {O : Ops T}.
Implicit Types (m : Matrix T) (f g h : nat -> nat -> T) (X A B : MB T) (p q : vpath) (l : list T).

(** ** one-dimensional scatters *)
Lemma scatter1_ok m r c f lo hi (phi : nat -> nat * nat) (g : nat -> Res T) (h : nat -> T) :
  is_mat m r c f ->
  (forall i, lo <= i < hi -> fst (phi i) < r /\ snd (phi i) < c) ->
  (forall i a, lo <= i < hi -> lo <= a < hi -> phi i = phi a -> i = a) ->
  (forall i, lo <= i < hi -> g i = Ok (h i)) ->
  exists m' f', for_range lo hi (fun i m => let* v := g i in mat_set m (fst (phi i)) (snd (phi i)) v) m = Ok m' /\
    is_mat m' r c f' /\ (forall i, lo <= i < hi -> f' (fst (phi i)) (snd (phi i)) = h i) /\
    (forall a b, a < r -> b < c -> (forall i, lo <= i < hi -> phi i <> (a, b)) -> f' a b = f a b).
Proof.
  intros H Hin Hinj Hg. destruct (le_lt_dec lo hi) as [L|L].
  2:{ exists m, f. rewrite for_range_empty by lia. repeat split; auto; try apply H; intros; lia. }
  destruct (for_range_inv (fun k m => exists f', is_mat m r c f' /\
      (forall i, lo <= i < k -> f' (fst (phi i)) (snd (phi i)) = h i) /\
      (forall a b, a < r -> b < c -> (forall i, lo <= i < k -> phi i <> (a, b)) -> f' a b = f a b))
    lo hi (fun i m => let* v := g i in mat_set m (fst (phi i)) (snd (phi i)) v) m L) as (m' & E & f' & Q).
  - exists f. repeat split; auto; try apply H. intros; lia.
  - intros i s Hi (f1 & H1 & H2 & H3). rewrite Hg by auto. cbn. destruct (Hin i Hi) as (B1 & B2).
    destruct (mat_set_ok s r c f1 _ _ (h i) H1 B1 B2) as (s' & E & H'). exists s'. split; auto.
    eexists. split; [exact H'|]. split.
    + intros k Hk. unfold fset. destruct (Nat.eq_dec k i) as [->|N]. { rewrite !Nat.eqb_refl. reflexivity. }
      destruct (Nat.eqb_spec (fst (phi k)) (fst (phi i))); destruct (Nat.eqb_spec (snd (phi k)) (snd (phi i))); cbn;
        try (apply H2; lia).
      exfalso. apply N. apply Hinj; try lia. destruct (phi k), (phi i); cbn in *; congruence.
    + intros a b Ha Hb Hn. unfold fset. destruct (Nat.eqb_spec a (fst (phi i))); destruct (Nat.eqb_spec b (snd (phi i))); cbn;
        try (apply H3; auto; intros k Hk; apply Hn; lia).
      exfalso. apply (Hn i); [lia|]. destruct (phi i); cbn in *; congruence.
  - exists m', f'. auto.
Qed.
Lemma vscatter_ok (d : list T) lo hi (phi : nat -> nat) (g : nat -> Res T) (h : nat -> T) :
  (forall i, lo <= i < hi -> phi i < length d) ->
  (forall i a, lo <= i < hi -> lo <= a < hi -> phi i = phi a -> i = a) ->
  (forall i, lo <= i < hi -> g i = Ok (h i)) ->
  exists d', for_range lo hi (fun i d => let* v := g i in lset d (phi i) v) d = Ok d' /\ length d' = length d /\
    (forall i, lo <= i < hi -> nth_error d' (phi i) = Some (h i)) /\
    (forall k, (forall i, lo <= i < hi -> phi i <> k) -> nth_error d' k = nth_error d k).
Proof.
  intros Hin Hinj Hg. destruct (le_lt_dec lo hi) as [L|L].
  2:{ exists d. rewrite for_range_empty by lia. repeat split; auto; intros; lia. }
  destruct (for_range_inv (fun k s => length s = length d /\
      (forall i, lo <= i < k -> nth_error s (phi i) = Some (h i)) /\
      (forall a, (forall i, lo <= i < k -> phi i <> a) -> nth_error s a = nth_error d a))
    lo hi (fun i d => let* v := g i in lset d (phi i) v) d L) as (m' & E & Q).
  - repeat split; auto; intros; lia.
  - intros i s Hi (H1 & H2 & H3). rewrite Hg by auto. cbn. rewrite lset_ok by (rewrite H1; auto).
    eexists. split; [reflexivity|]. rewrite upd_length. split; auto. split.
    + intros k Hk. destruct (Nat.eq_dec k i) as [->|N]. { apply upd_same. rewrite H1; auto. }
      rewrite upd_other. { apply H2; lia. } intros E. apply N. symmetry. apply Hinj; lia.
    + intros a Ha. rewrite upd_other. { apply H3. intros k Hk. apply Ha. lia. } apply Ha. lia.
  - exists m'. auto.
Qed.

(** ** a view as a virtual matrix that is read and written *)
Lemma vstate_init p m r c f r' c' : is_mat m r c f -> vstate p r c r' c' f (vsel p f) m.
Proof. intros H. exists f. split; auto. split; auto. Qed.
Lemma vstate_reads p r c r' c' f h m : vshape p r c = Some (r', c') -> vstate p r c r' c' f h m -> reads (vmb p m) r' c' h.
Proof.
  intros Hv (f' & H & W1 & W2). eapply reads_ext; [eapply vmb_reads; eauto|]. intros i j Hi Hj. apply W1; auto.
Qed.
Lemma vstate_linear p r c r' c' f h m k : vshape p r c = Some (r', c') -> lin_ok p r c -> vstate p r c r' c' f h m -> k < r' * c' ->
  mlin (vmb p m) k = Ok (h (k / c') (k mod c')).
Proof.
  intros Hv Hl (f' & H & W1 & W2) Hk. rewrite (vmb_linear p m r c f' r' c' H Hv Hl k Hk). f_equal.
  apply W1; [eapply div_lt_rc|eapply mod_lt_rc]; eauto.
Qed.
Lemma vstate_get p r c r' c' f h m i j : vshape p r c = Some (r', c') -> vstate p r c r' c' f h m ->
  i < r' -> j < c' -> mget (vmb p m) i j = Ok (h i j).
Proof. intros Hv H Hi Hj. apply (vstate_reads _ _ _ _ _ _ _ _ Hv H); auto. Qed.
Lemma vwritten_fset p r' c' h f f' r c i j v : i < r' -> j < c' ->
  vwritten p r' c' h f f' r c ->
  vwritten p r' c' (fset h i j v) f (fset f' (fst (vpos p i j)) (snd (vpos p i j)) v) r c.
Proof.
  intros Hi Hj (W1 & W2). split.
  - intros a b Ha Hb. unfold fset.
    destruct (Nat.eqb_spec (fst (vpos p a b)) (fst (vpos p i j))) as [Q1|Q1];
    destruct (Nat.eqb_spec (snd (vpos p a b)) (snd (vpos p i j))) as [Q3|Q3]; cbn.
    + assert (Q : vpos p a b = vpos p i j) by (destruct (vpos p a b), (vpos p i j); cbn in *; congruence).
      apply vpos_inj in Q. destruct Q; subst a b. rewrite !Nat.eqb_refl. reflexivity.
    + destruct (Nat.eqb_spec a i), (Nat.eqb_spec b j); subst; cbn; try congruence; apply W1; auto.
    + destruct (Nat.eqb_spec a i), (Nat.eqb_spec b j); subst; cbn; try congruence; apply W1; auto.
    + destruct (Nat.eqb_spec a i), (Nat.eqb_spec b j); subst; cbn; try congruence; apply W1; auto.
  - intros x y Hx Hy Hn. unfold fset.
    destruct (Nat.eqb_spec x (fst (vpos p i j))); destruct (Nat.eqb_spec y (snd (vpos p i j))); cbn; try (apply W2; auto).
    exfalso. apply (Hn i j Hi Hj). destruct (vpos p i j); cbn in *; congruence.
Qed.
Lemma vstate_set p r c r' c' f h m i j v : vshape p r c = Some (r', c') -> vstate p r c r' c' f h m ->
  i < r' -> j < c' -> exists m', vset p i j v m = Ok m' /\ vstate p r c r' c' f (fset h i j v) m'.
Proof.
  intros Hv (f' & H & W) Hi Hj. destruct (vset_ok p m r c f' r' c' i j v H Hv Hi Hj) as (m' & E & H').
  exists m'. split; auto. eexists. split; [exact H'|]. apply vwritten_fset; auto.
Qed.
Lemma vstate_lset p r c r' c' f h m k v : vshape p r c = Some (r', c') -> lin_ok p r c -> vstate p r c r' c' f h m ->
  k < r' * c' -> exists m', vlset p k v m = Ok m' /\ vstate p r c r' c' f (fset h (k / c') (k mod c') v) m'.
Proof.
  intros Hv Hl (f' & H & W) Hk. destruct (vlset_ok p m r c f' r' c' k v H Hv Hl Hk) as (m' & E & H').
  exists m'. split; auto. eexists. split; [exact H'|]. apply vwritten_fset; auto.
  - eapply div_lt_rc; eauto.
  - eapply mod_lt_rc; eauto.
Qed.
Lemma vstate_ext p r c r' c' f h h' m : (forall i j, i < r' -> j < c' -> h i j = h' i j) ->
  vstate p r c r' c' f h m -> vstate p r c r' c' f h' m.
Proof.
  intros E (f' & H & W1 & W2). exists f'. split; auto. split; auto. intros i j Hi Hj. rewrite <- E by auto. auto.
Qed.
Lemma vstate_root r c f h m : vstate Root r c r c f h m <-> is_mat m r c h.
Proof.
  split.
  - intros (f' & H & W1 & W2). eapply is_mat_ext; eauto.
  - intros H. exists h. split; auto. split; auto. intros a b Ha Hb Hn. exfalso. apply (Hn a b Ha Hb). reflexivity.
Qed.

Lemma vswap_ok p r c r' c' f h m i j a b : vshape p r c = Some (r', c') -> vstate p r c r' c' f h m ->
  i < r' -> j < c' -> a < r' -> b < c' ->
  exists m', vswap p i j a b m = Ok m' /\ vstate p r c r' c' f (fset (fset h i j (h a b)) a b (h i j)) m'.
Proof.
  intros Hv Hs Hi Hj Ha Hb. unfold vswap.
  rewrite (vstate_get _ _ _ _ _ _ _ _ i j Hv Hs) by auto. cbn [bind].
  rewrite (vstate_get _ _ _ _ _ _ _ _ a b Hv Hs) by auto. cbn [bind].
  destruct (vstate_set _ _ _ _ _ _ _ _ i j (h a b) Hv Hs Hi Hj) as (m1 & E1 & H1). rewrite E1. cbn [bind].
  apply (vstate_set _ _ _ _ _ _ _ _ a b (h i j) Hv H1 Ha Hb).
Qed.
Definition fswap_rows h i j c0 c1 : nat -> nat -> T := fun a b =>
  if (c0 <=? b) && (b <? c1) then (if a =? i then h j b else if a =? j then h i b else h a b) else h a b.
Definition fswap_cols h i j r0 r1 : nat -> nat -> T := fun a b =>
  if (r0 <=? a) && (a <? r1) then (if b =? i then h a j else if b =? j then h a i else h a b) else h a b.
Lemma swap_rows_loop p r c r' c' f h m i j c0 c1 : vshape p r c = Some (r', c') -> vstate p r c r' c' f h m ->
  i < r' -> j < r' -> c1 <= c' ->
  exists m', for_range c0 c1 (fun c m => vswap p i c j c m) m = Ok m' /\ vstate p r c r' c' f (fswap_rows h i j c0 c1) m'.
Proof.
  intros Hv Hs Hi Hj Hc. destruct (le_lt_dec c0 c1) as [L|L].
  - apply (for_range_inv (fun k m => vstate p r c r' c' f (fswap_rows h i j c0 k) m)); auto.
    + eapply vstate_ext; [|exact Hs]. intros a b _ _. unfold fswap_rows. nb.
    + intros k s Hk Hs1. destruct (vswap_ok p r c r' c' f _ s i k j k Hv Hs1 Hi) as (s' & E & H'); try lia.
      exists s'. split; auto. eapply vstate_ext; [|exact H']. intros a b Ha Hb. unfold fset, fswap_rows.
      destruct (Nat.eqb_spec b k) as [->|N]; nb.
  - rewrite for_range_empty by lia. exists m. split; auto. eapply vstate_ext; [|exact Hs].
    intros a b _ _. unfold fswap_rows. nb.
Qed.
Lemma swap_cols_loop p r c r' c' f h m i j r0 r1 : vshape p r c = Some (r', c') -> vstate p r c r' c' f h m ->
  i < c' -> j < c' -> r1 <= r' ->
  exists m', for_range r0 r1 (fun r m => vswap p r i r j m) m = Ok m' /\ vstate p r c r' c' f (fswap_cols h i j r0 r1) m'.
Proof.
  intros Hv Hs Hi Hj Hc. destruct (le_lt_dec r0 r1) as [L|L].
  - apply (for_range_inv (fun k m => vstate p r c r' c' f (fswap_cols h i j r0 k) m)); auto.
    + eapply vstate_ext; [|exact Hs]. intros a b _ _. unfold fswap_cols. nb.
    + intros k s Hk Hs1. destruct (vswap_ok p r c r' c' f _ s k i k j Hv Hs1) as (s' & E & H'); try lia.
      exists s'. split; auto. eapply vstate_ext; [|exact H']. intros a b Ha Hb. unfold fset, fswap_cols.
      destruct (Nat.eqb_spec a k) as [->|N]; nb.
  - rewrite for_range_empty by lia. exists m. split; auto. eapply vstate_ext; [|exact Hs].
    intros a b _ _. unfold fswap_cols. nb.
Qed.
Lemma vmb_cols p r c r' c' m f : is_mat m r c f -> vshape p r c = Some (r', c') -> mcols (vmb p m) = c'.
Proof. intros H Hv. apply (vmb_reads _ _ _ _ _ _ _ H Hv). Qed.
Lemma vmb_rows p r c r' c' m f : is_mat m r c f -> vshape p r c = Some (r', c') -> mrows (vmb p m) = r'.
Proof. intros H Hv. apply (vmb_reads _ _ _ _ _ _ _ H Hv). Qed.
Lemma swap_rows_ok p r c r' c' f m i j c0 c1 : is_mat m r c f -> vshape p r c = Some (r', c') ->
  i < r' -> j < r' ->
  exists m', swap_rows p i j c0 c1 m = Ok m' /\ vstate p r c r' c' f (fswap_rows (vsel p f) i j c0 (Nat.min c1 c')) m'.
Proof.
  intros H Hv Hi Hj. unfold swap_rows. rewrite (vmb_cols p r c r' c' m f H Hv).
  apply swap_rows_loop; auto. { apply vstate_init; auto. } lia.
Qed.
Lemma swap_cols_ok p r c r' c' f m i j r0 r1 : is_mat m r c f -> vshape p r c = Some (r', c') ->
  i < c' -> j < c' ->
  exists m', swap_cols p i j r0 r1 m = Ok m' /\ vstate p r c r' c' f (fswap_cols (vsel p f) i j r0 (Nat.min r1 r')) m'.
Proof.
  intros H Hv Hi Hj. unfold swap_cols. rewrite (vmb_rows p r c r' c' m f H Hv). rewrite Nat.min_comm.
  apply swap_cols_loop; auto. { apply vstate_init; auto. } lia.
Qed.

Lemma remove_row_ok m r c f k : is_mat m r c f -> k < r ->
  exists m', remove_row m k = Ok m' /\ is_mat m' (r - 1) c (fun i j => if i <? k then f i j else f (S i) j).
Proof.
  intros H Hk. assert (H0 := H). destruct H0 as (Hr & Hc & Hsh & _). unfold remove_row. rewrite Hr.
  destruct (Nat.leb_spec r k); [lia|].
  destruct (for_range_inv (fun t m => is_mat m r c (fun i j => if i <? k then f i j else if i <? t then f (S i) j else if i =? t then f k j else f i j))
     k (r - 1) (fun r m => for_range 0 (cols m) (fun c m => vswap Root r c (S r) c m) m) m) as (m1 & E1 & H1); [lia| | |].
  - eapply is_mat_ext; [exact H|]. intros i j Hi Hj. nb.
  - intros t s Ht Hs. assert (Hcs : cols s = c) by apply Hs. rewrite Hcs.
    destruct (swap_rows_loop Root r c r c (fun _ _ => o0) _ s t (S t) 0 c eq_refl (proj2 (vstate_root r c _ _ _) Hs)) as (s' & E & H'); try lia.
    exists s'. split; auto. apply vstate_root in H'. eapply is_mat_ext; [exact H'|].
    intros i j Hi Hj. unfold fswap_rows. nb.
  - rewrite E1. cbn [bind]. assert (G0 := H1). destruct G0 as (Hr1 & Hc1 & _). rewrite Hr1, Hc1.
    destruct (mat_resize_ok m1 r c _ (r-1) c H1) as (m2 & E2 & H2).
    { apply (shape_ok_le r c); auto; lia. }
    exists m2. split; auto. eapply is_mat_ext; [exact H2|]. intros i j Hi Hj. unfold fresize. nb.
Qed.
Lemma remove_row_throw m k : rows m <= k -> remove_row m k = Throw.
Proof. intros H. unfold remove_row. nb. Qed.
Lemma remove_column_ok m r c f k : is_mat m r c f -> k < c ->
  exists m', remove_column m k = Ok m' /\ is_mat m' r (c - 1) (fun i j => if j <? k then f i j else f i (S j)).
Proof.
  intros H Hk. assert (H0 := H). destruct H0 as (Hr & Hc & Hsh & _). unfold remove_column. rewrite Hc.
  destruct (Nat.leb_spec c k); [lia|].
  destruct (for_range_inv (fun t m => is_mat m r c (fun i j => if j <? k then f i j else if j <? t then f i (S j) else if j =? t then f i k else f i j))
     k (c - 1) (fun c m => for_range 0 (rows m) (fun r m => vswap Root r c r (S c) m) m) m) as (m1 & E1 & H1); [lia| | |].
  - eapply is_mat_ext; [exact H|]. intros i j Hi Hj. nb.
  - intros t s Ht Hs. assert (Hrs : rows s = r) by apply Hs. rewrite Hrs.
    destruct (swap_cols_loop Root r c r c (fun _ _ => o0) _ s t (S t) 0 r eq_refl (proj2 (vstate_root r c _ _ _) Hs)) as (s' & E & H'); try lia.
    exists s'. split; auto. apply vstate_root in H'. eapply is_mat_ext; [exact H'|].
    intros i j Hi Hj. unfold fswap_cols. nb.
  - rewrite E1. cbn [bind]. assert (G0 := H1). destruct G0 as (Hr1 & Hc1 & _). rewrite Hr1, Hc1.
    destruct (mat_resize_ok m1 r c _ r (c-1) H1) as (m2 & E2 & H2).
    { apply (shape_ok_le r c); auto; lia. }
    exists m2. split; auto. eapply is_mat_ext; [exact H2|]. intros i j Hi Hj. unfold fresize. nb.
Qed.
Lemma remove_column_throw m k : cols m <= k -> remove_column m k = Throw.
Proof. intros H. unfold remove_column. nb. Qed.
End U.
