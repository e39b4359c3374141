(** ViewFacts.v: lemmas about views (view.hpp part of Mat.v). *)
From Verif Require Export MatFacts.
From Coq Require Import ZifyBool ZifyNat ZifyN.
Ltac Zify.zify_post_hook ::= Z.div_mod_to_equations.

Ltac size_by r c := first [apply (size_le _ r); [lia|assumption] | apply (size_le _ c); [lia|assumption]].

(** Nested loops whose inner bound is re-evaluated for each row. *)
Lemma for2_inv_dep {S} (P : nat -> nat -> S -> Prop) nr nc (ncf : nat -> S -> nat) body s :
  P 0 0 s ->
  (forall i s, i < nr -> P i 0 s -> ncf i s = nc) ->
  (forall i j s, i < nr -> j < nc -> P i j s -> exists s', body i j s = Ok s' /\ P i (Datatypes.S j) s') ->
  (forall i s, i < nr -> P i nc s -> P (Datatypes.S i) 0 s) ->
  exists s', for_range 0 nr (fun r s => for_range 0 (ncf r s) (fun c s => body r c s) s) s = Ok s' /\ P nr 0 s'.
Proof.
  intros H0 Hn Hb Hr. apply (for_range_inv (fun i s => P i 0 s)); [lia|auto|].
  intros i s1 Hi Hp. rewrite (Hn i s1) by (auto; lia).
  destruct (for_range_inv (fun j s => P i j s) 0 nc (fun c s => body i c s) s1) as (s2 & E & Q); [lia|auto| |].
  - intros j s2 Hj Hp2. apply Hb; auto; lia.
  - exists s2. split; auto. apply Hr; auto; lia.
Qed.

Section ViewFacts.
Context {T : Type}.
Implicit Types (m : Matrix T) (f g h : nat -> nat -> T) (X : MB T) (p q : vpath).

Lemma vshape_view rr rc p r c r' c' : vshape (PView rr rc p) r c = Some (r', c') ->
  exists r1 c1, vshape p r c = Some (r1, c1) /\ start rr < stop rr /\ start rc < stop rc /\
    start rr <= r1 /\ start rc <= c1 /\
    r' = Nat.min (stop rr) r1 - start rr /\ c' = Nat.min (stop rc) c1 - start rc.
Proof.
  cbn. destruct (vshape p r c) as [[r1 c1]|]; [|discriminate].
  destruct ((start rr <? stop rr) && (start rc <? stop rc) && (start rr <=? r1) && (start rc <=? c1)) eqn:E; [|discriminate].
  intros H. inversion H. exists r1, c1. repeat split; auto; lia.
Qed.
Lemma vshape_cof er ec p r c r' c' : vshape (PCof er ec p) r c = Some (r', c') ->
  exists r1 c1, vshape p r c = Some (r1, c1) /\ 0 < r1 /\ 0 < c1 /\ r' = r1 - 1 /\ c' = c1 - 1.
Proof.
  cbn. destruct (vshape p r c) as [[r1 c1]|]; [|discriminate].
  destruct ((0 <? r1) && (0 <? c1)) eqn:E; [|discriminate].
  intros H. inversion H. exists r1, c1. repeat split; auto; lia.
Qed.
Lemma vshape_le p : forall r c r' c', vshape p r c = Some (r', c') -> r' <= r /\ c' <= c.
Proof.
  induction p as [|rr rc p IH|er ec p IH]; intros r c r' c' H.
  - cbn in H. inversion H; auto.
  - apply vshape_view in H. destruct H as (r1 & c1 & H & _ & _ & _ & _ & -> & ->).
    apply IH in H. lia.
  - apply vshape_cof in H. destruct H as (r1 & c1 & H & _ & _ & -> & ->). apply IH in H. lia.
Qed.
Lemma shape_ok_le r c r' c' : r' <= r -> c' <= c -> shape_ok r c -> shape_ok r' c'.
Proof.
  intros Hr Hc (A & B & C). repeat split; eauto using size_le. eapply fits_le; [|exact C]. nia.
Qed.

Lemma vmb_dims p : forall m r c r' c', rows m = r -> cols m = c -> is_size r -> is_size c ->
  vshape p r c = Some (r', c') -> mrows (vmb p m) = r' /\ mcols (vmb p m) = c'.
Proof.
  induction p as [|rr rc p IH|er ec p IH]; intros m r c r' c' Hr Hc Sr Sc H.
  - cbn in *. inversion H; subst; auto.
  - apply vshape_view in H. destruct H as (r1 & c1 & H & G1 & G2 & H1 & H2 & -> & ->).
    destruct (vshape_le _ _ _ _ _ H). destruct (IH m r c r1 c1 Hr Hc Sr Sc H) as (E1 & E2). cbn. rewrite E1, E2.
    split; (apply sub64_small; [lia|size_by r c]).
  - apply vshape_cof in H. destruct H as (r1 & c1 & H & H1 & H2 & -> & ->).
    destruct (vshape_le _ _ _ _ _ H). destruct (IH m r c r1 c1 Hr Hc Sr Sc H) as (E1 & E2). cbn. rewrite E1, E2.
    split; (apply sub64_small; [lia|size_by r c]).
Qed.
Lemma vmb_get p : forall m i j, mget (vmb p m) i j = mat_at m (fst (voff p i j)) (snd (voff p i j)).
Proof.
  induction p as [|rr rc p IH|er ec p IH]; intros m i j; cbn; auto.
Qed.
Lemma skip_small (e i n : nat) : S i <= n -> is_size n -> skip e i = if i <? e then i else S i.
Proof.
  intros Hi Hn. unfold skip. destruct (Nat.leb_spec e i); destruct (Nat.ltb_spec i e); try lia;
    rewrite add64_small; try lia; eapply size_le; try eassumption; lia.
Qed.
Lemma voff_vpos p : forall r c r' c' i j, is_size r -> is_size c -> vshape p r c = Some (r', c') ->
  i < r' -> j < c' -> voff p i j = vpos p i j.
Proof.
  induction p as [|rr rc p IH|er ec p IH]; intros r c r' c' i j Sr Sc H Hi Hj; cbn; auto.
  - apply vshape_view in H. destruct H as (r1 & c1 & H & G1 & G2 & H1 & H2 & -> & ->).
    destruct (vshape_le _ _ _ _ _ H).
    rewrite !add64_small by size_by r c. apply (IH r c r1 c1); auto; lia.
  - apply vshape_cof in H. destruct H as (r1 & c1 & H & H1 & H2 & -> & ->).
    destruct (vshape_le _ _ _ _ _ H).
    rewrite (skip_small er i r), (skip_small ec j c) by (auto; lia).
    apply (IH r c r1 c1); auto; destruct (_ <? _); lia.
Qed.
Lemma vpos_range p : forall r c r' c' i j, vshape p r c = Some (r', c') ->
  i < r' -> j < c' -> fst (vpos p i j) < r /\ snd (vpos p i j) < c.
Proof.
  induction p as [|rr rc p IH|er ec p IH]; intros r c r' c' i j H Hi Hj.
  - cbn in *. inversion H; subst; auto.
  - apply vshape_view in H. destruct H as (r1 & c1 & H & G1 & G2 & H1 & H2 & -> & ->). cbn. eapply IH; eauto; lia.
  - apply vshape_cof in H. destruct H as (r1 & c1 & H & H1 & H2 & -> & ->). cbn.
    eapply IH; eauto; destruct (_ <? _); lia.
Qed.
Lemma vpos_inj p : forall i j a b, vpos p i j = vpos p a b -> i = a /\ j = b.
Proof.
  induction p as [|rr rc p IH|er ec p IH]; intros i j a b H; cbn in H.
  - inversion H; auto.
  - apply IH in H. lia.
  - apply IH in H. destruct H as (H1 & H2).
    destruct (Nat.ltb_spec i er), (Nat.ltb_spec a er), (Nat.ltb_spec j ec), (Nat.ltb_spec b ec); lia.
Qed.

(** Reading through any valid nesting of views. *)
Lemma vmb_reads p m r c f r' c' : is_mat m r c f -> vshape p r c = Some (r', c') ->
  reads (vmb p m) r' c' (vsel p f).
Proof.
  intros H Hv. assert (Hs := is_mat_shape _ _ _ _ H). assert (H' := H). destruct H' as (Hr & Hc & (Sr & Sc & Sf) & _ & _).
  destruct (vshape_le _ _ _ _ _ Hv) as (L1 & L2).
  destruct (vmb_dims p m r c r' c' Hr Hc Sr Sc Hv) as (D1 & D2).
  assert (Hs' : shape_ok r' c') by (eapply shape_ok_le; eauto).
  repeat split; auto; try apply Hs'.
  - destruct p as [|rr rc p|er ec p]; cbn in *; inversion Hv; subst; rewrite ?D1, ?D2; apply mul64_small; apply shape_size; auto.
  - intros i j Hi Hj. rewrite vmb_get. rewrite (voff_vpos p r c r' c' i j Sr Sc Hv Hi Hj).
    destruct (vpos_range p r c r' c' i j Hv Hi Hj). unfold vsel.
    eapply is_mat_at; eauto.
Qed.
Lemma vmb_linear p m r c f r' c' : is_mat m r c f -> vshape p r c = Some (r', c') -> lin_ok p r c ->
  linear (vmb p m) r' c' (vsel p f).
Proof.
  intros H Hv Hl k Hk. assert (HR := vmb_reads p m r c f r' c' H Hv).
  destruct HR as (D1 & D2 & _ & _ & Hg).
  assert (A := div_lt_rc k r' c' Hk). assert (B := mod_lt_rc k r' c' Hk).
  destruct p as [|rr rc p|er ec p].
  - cbn in *. inversion Hv; subst. cbn. erewrite is_mat_lin; eauto.
  - cbn [vmb mb_view mlin mrows mcols mget] in *. rewrite D2. destruct (Nat.eqb_spec c' 0); [lia|]. apply Hg; auto.
  - cbn [lin_ok] in Hl. rewrite Hv in Hl. subst c'.
    cbn [vmb mb_cof mlin mrows mcols mget] in *. rewrite D1. destruct (Nat.eqb_spec r' 0); [lia|]. apply Hg; auto.
Qed.
Lemma vmb_readsL p m r c f r' c' : is_mat m r c f -> vshape p r c = Some (r', c') -> lin_ok p r c ->
  readsL (vmb p m) r' c' (vsel p f).
Proof. intros. split; [eapply vmb_reads|eapply vmb_linear]; eauto. Qed.

(** Writing through any valid nesting of views. *)
Lemma vset_ok p m r c f r' c' i j v : is_mat m r c f -> vshape p r c = Some (r', c') -> i < r' -> j < c' ->
  exists m', vset p i j v m = Ok m' /\ is_mat m' r c (fset f (fst (vpos p i j)) (snd (vpos p i j)) v).
Proof.
  intros H Hv Hi Hj. assert (H' := H). destruct H' as (Hr & Hc & (Sr & Sc & Sf) & _ & _).
  unfold vset. rewrite (voff_vpos p r c r' c' i j Sr Sc Hv Hi Hj).
  destruct (vpos_range p r c r' c' i j Hv Hi Hj). apply mat_set_ok; auto.
Qed.
Lemma vlset_ok p m r c f r' c' k v : is_mat m r c f -> vshape p r c = Some (r', c') -> lin_ok p r c -> k < r' * c' ->
  exists m', vlset p k v m = Ok m' /\
    is_mat m' r c (fset f (fst (vpos p (k / c') (k mod c'))) (snd (vpos p (k / c') (k mod c'))) v).
Proof.
  intros H Hv Hl Hk. assert (HR := vmb_reads p m r c f r' c' H Hv). destruct HR as (D1 & D2 & _ & _ & _).
  assert (A := div_lt_rc k r' c' Hk). assert (B := mod_lt_rc k r' c' Hk).
  destruct p as [|rr rc p|er ec p].
  - cbn in Hv. inversion Hv; subst. cbn. apply mat_lset_ok; auto.
  - unfold vlset. rewrite D2. destruct (Nat.eqb_spec c' 0); [lia|]. eapply vset_ok; eauto.
  - cbn [lin_ok] in Hl. rewrite Hv in Hl. subst c'.
    unfold vlset. rewrite D1. destruct (Nat.eqb_spec r' 0); [lia|]. eapply vset_ok; eauto.
Qed.

(** General copy loop with a source that may read the root being written. *)
Lemma view_copy_ok p (src : Matrix T -> MB T) (sg : (nat -> nat -> T) -> nat -> nat -> T) m r c f r' c' :
  is_mat m r c f -> vshape p r c = Some (r', c') ->
  (forall m g, is_mat m r c g -> reads (src m) r' c' (sg g)) ->
  (forall g i j, i < r' -> j < c' ->
     (forall a b, a < r -> b < c ->
        (forall x y, x < r' -> y < c' -> before i j x y = true -> vpos p x y <> (a, b)) -> g a b = f a b) ->
     sg g i j = sg f i j) ->
  exists m' f', view_assign p src m = Ok m' /\ is_mat m' r c f' /\ vwritten p r' c' (sg f) f f' r c.
Proof.
  intros H Hv Hsrc Hsep. unfold view_assign.
  destruct (vmb_reads p m r c f r' c' H Hv) as (D1 & D2 & _).
  destruct (Hsrc m f H) as (E1 & E2 & _). rewrite D1, D2, E1, E2, !Nat.eqb_refl. cbn [andb].
  set (P := fun i j m => exists f', is_mat m r c f' /\
     (forall a b, a < r' -> b < c' -> before i j a b = true -> f' (fst (vpos p a b)) (snd (vpos p a b)) = sg f a b) /\
     (forall x y, x < r -> y < c -> (forall a b, a < r' -> b < c' -> before i j a b = true -> vpos p a b <> (x, y)) -> f' x y = f x y)).
  assert (Hloop : exists m', for_range 0 r' (fun r0 m0 => for_range 0 (mcols (src m0)) (fun c0 m1 => let* v := mget (src m1) r0 c0 in vset p r0 c0 v m1) m0) m = Ok m' /\ P r' 0 m').
  { apply (for2_inv_dep P r' c' (fun i m => mcols (src m)) (fun i j m => let* v := mget (src m) i j in vset p i j v m)).
    - exists f. split; auto. split; auto. intros a b _ _ Hb. unfold before in Hb. lia.
    - intros i m1 _ (f1 & H1 & _). destruct (Hsrc m1 f1 H1) as (_ & Q & _). exact Q.
    - intros i j m1 Hi Hj (f1 & H1 & H2 & H3).
      destruct (Hsrc m1 f1 H1) as (_ & _ & _ & _ & Hg). rewrite Hg by auto. cbn.
      destruct (vset_ok p m1 r c f1 r' c' i j (sg f1 i j) H1 Hv Hi Hj) as (m2 & Em & H4).
      exists m2. split; auto. eexists. split; [exact H4|]. split.
      + intros a b Ha Hb Hbef. unfold fset.
        destruct (Nat.eqb_spec (fst (vpos p a b)) (fst (vpos p i j))) as [Q1|Q1];
        destruct (Nat.eqb_spec (snd (vpos p a b)) (snd (vpos p i j))) as [Q3|Q3]; cbn.
        * assert (Q : vpos p a b = vpos p i j) by (destruct (vpos p a b), (vpos p i j); cbn in *; congruence).
          apply vpos_inj in Q. destruct Q; subst a b. apply Hsep; auto.
        * apply H2; auto. unfold before in *. destruct (Nat.eq_dec a i), (Nat.eq_dec b j); subst; try congruence; lia.
        * apply H2; auto. unfold before in *. destruct (Nat.eq_dec a i), (Nat.eq_dec b j); subst; try congruence; lia.
        * apply H2; auto. unfold before in *. destruct (Nat.eq_dec a i), (Nat.eq_dec b j); subst; try congruence; lia.
      + intros x y Hx Hy Hn. unfold fset.
        destruct (Nat.eqb_spec x (fst (vpos p i j))) as [Q1|Q1];
        destruct (Nat.eqb_spec y (snd (vpos p i j))) as [Q3|Q3]; cbn;
          try (apply H3; auto; intros a b Ha Hb Hbef; apply Hn; auto; unfold before in *; lia).
        exfalso. apply (Hn i j Hi Hj); [unfold before; lia|]. destruct (vpos p i j); cbn in *; congruence.
    - intros i m1 Hi (f1 & H1 & H2 & H3). exists f1. split; auto. split.
      + intros a b Ha Hb Hbef. apply H2; auto. unfold before in *. lia.
      + intros x y Hx Hy Hn. apply H3; auto. intros a b Ha Hb Hbef. apply Hn; auto. unfold before in *. lia. }
  destruct Hloop as (m' & E & f' & H1 & H2 & H3).
  exists m', f'. split; [exact E|]. split; auto. split.
    + intros i j Hi Hj. apply H2; auto. unfold before. lia.
    + intros a b Ha Hb Hn. apply H3; auto.
Qed.
End ViewFacts.
