(** PropThreadsOOM2.v: a thread whose requests are served is not harmed by those that are
    refused to other threads (C131). *)
From Verif Require Import ThreadsOOM PropHeap PropOOM PropThreads PropThreadsOOM MatFacts BaseFacts.
Arguments Nat.ltb : simpl never.
Arguments Nat.leb : simpl never.
Arguments Nat.eqb : simpl never.

Section Blocks.
Context {T : Type} {O : Ops T} (sz : N) (Hsz : (0 < sz <= 32)%N).
Implicit Types (h : @heap T) (e : @seqs T) (s : @vst T).

(** * A statement leaves alone the blocks of the Vectors it does not write to *)
Definition keep b h h' : Prop := b < length h -> b < length h' /\ nth_error h' b = nth_error h b.
Lemma keep_refl b h : keep b h h.
Proof. split; auto. Qed.
Lemma keep_trans b h1 h2 h3 : keep b h1 h2 -> keep b h2 h3 -> keep b h1 h3.
Proof. intros H1 H2 H. destruct (H1 H) as (L & E). destruct (H2 L) as (L' & E'). split; auto. congruence. Qed.
Lemma keep_upd b b' h v : b' <> b -> keep b h (upd h b' v).
Proof. intros N H. rewrite upd_length. split; auto. apply upd_other. auto. Qed.
Lemma store_keep b h p i v h' : store h p i v = Ok h' -> p <> Some b -> keep b h h'.
Proof.
  unfold store. destruct p as [b'|]; [|discriminate]. destruct (nth_error h b') as [[cells|]|]; try discriminate.
  destruct (i <? length cells); [|discriminate]. intros [= <-] N. apply keep_upd. congruence.
Qed.
Lemma loop_keep b body lo hi : (forall i h h', body i h = Ok h' -> keep b h h') -> forall h h', for_range lo hi body h = Ok h' -> keep b h h'.
Proof.
  intros H. unfold for_range. generalize (hi - lo). intros n. revert lo. induction n as [|n IH]; intros lo h h' E; cbn [for_n] in E.
  - injection E as <-. apply keep_refl.
  - destruct (body lo h) as [h1| | | |] eqn:B; cbn [bind] in E; try discriminate. eapply keep_trans; eauto.
Qed.
Lemma dealloc_keep b h o h' o' f : v_deallocate h o = Ok (h', o', f) -> vptr o <> Some b -> keep b h h' /\ vptr o' <> Some b.
Proof.
  unfold v_deallocate, hfree. intros E N. destruct (0 <? vsz o).
  - destruct (vptr o) as [b'|]; [destruct (nth_error h b') as [[cells|]|]|]; cbn [bind] in E; try discriminate; injection E as <- <- <-; (split; [|discriminate]).
    + apply keep_upd. congruence.
    + apply keep_refl.
  - injection E as <- <- <-. split; auto using keep_refl.
Qed.
Lemma app_keep b h l : keep b h (h ++ l).
Proof. intros H. rewrite app_length. split; [lia|]. now rewrite nth_error_app1. Qed.
Lemma realloc_keep r b h p n h' p' : hrealloc2 sz r h p n = Ok (h', p') -> p <> Some b -> b < length h -> keep b h h' /\ p' <> Some b.
Proof.
  unfold hrealloc2. intros E N L. destruct p as [b'|].
  - destruct (nth_error h b') as [[cells|]|]; try discriminate. destruct (bytes sz n =? 0)%N.
    { injection E as <- <-. split; [apply keep_upd; congruence|discriminate]. }
    destruct r; injection E as <- <-; (split; [|try discriminate; try exact N]).
    + apply keep_refl.
    + apply keep_upd; congruence.
    + eapply keep_trans; [apply keep_upd|apply app_keep]. congruence.
    + intros [= H]. lia.
  - destruct r; injection E as <- <-; (split; [first [apply keep_refl|apply app_keep]|try discriminate]); intros [= H]; lia.
Qed.
Lemma alloc_keep r b h o n h' o' f : v_allocate2 sz r h o n = Ok (h', o', f) -> vptr o <> Some b -> b < length h -> keep b h h' /\ vptr o' <> Some b.
Proof.
  unfold v_allocate2. intros E N L. destruct (n =? 0); [eapply dealloc_keep; eauto|].
  destruct (n =? vsz o). { injection E as <- <- <-. split; auto using keep_refl. }
  destruct (hrealloc2 sz r h (vptr o) n) as [[h1 p]| | | |] eqn:R1; cbn [bind] in E; try discriminate.
  destruct (realloc_keep _ _ _ _ _ _ _ R1 N L) as (K & Np).
  assert (HL : forall lo hi h h', for_range lo hi (fun i h => store h p i o0) h = Ok h' -> keep b h h').
  { intros lo hi. apply loop_keep. intros. eapply store_keep; eauto. }
  destruct (vsz o <? n); [|destruct (vsz o =? 0)].
  1,2: destruct (for_range _ _ _ h1) as [h2| | | |] eqn:F; cbn [bind] in E; try discriminate; injection E as <- <- <-; split; auto; eapply keep_trans; eauto.
  cbn [bind] in E. injection E as <- <- <-. auto.
Qed.
Lemma set_keep r b h o n g h' o' : v_set2 sz r h o n g = Ok (h', o') -> vptr o <> Some b -> b < length h -> keep b h h'.
Proof.
  unfold v_set2. intros E N L. destruct (v_allocate2 sz r h o n) as [[[h1 o1] f]| | | |] eqn:A; cbn [bind] in E; try discriminate.
  destruct (alloc_keep _ _ _ _ _ _ _ _ A N L) as (K & N1). destruct f; [|injection E as <- <-; auto].
  destruct (for_range _ _ _ h1) as [h2| | | |] eqn:F; cbn [bind] in E; try discriminate. injection E as <- <-.
  eapply keep_trans; [exact K|]. eapply loop_keep; [|exact F]. intros i h0 h0' B. cbn beta in B.
  destruct (g i h0) as [x| | | |]; cbn [bind] in B; try discriminate. eapply store_keep; eauto.
Qed.
Lemma resize_keep r b h o n h' o' : v_resize2 sz r h o n = Ok (h', o') -> vptr o <> Some b -> b < length h -> keep b h h'.
Proof.
  unfold v_resize2. intros E N L. destruct (v_allocate2 sz r h o n) as [[[h1 o1] f]| | | |] eqn:A; cbn [bind] in E; try discriminate.
  injection E as <- <-. eapply alloc_keep; eauto.
Qed.
Lemma null_ptr b : vptr vnull <> Some b.
Proof. discriminate. Qed.
Lemma look_env s x o : look s x = Ok o -> env s x = Some o.
Proof. unfold look. destruct (env s x); congruence. Qed.
Lemma step_keep r s c s' ob z b : vstep2 sz r s c = Ok (s', ob) -> ~ In z (writes c) -> env s' z = env s z /\
  (b < length (hp s) -> (forall x o, In x (writes c) -> env s x = Some o -> vptr o <> Some b) -> nth_error (hp s') b = nth_error (hp s) b).
Proof.
  intros E Nz.
  assert (B1 : forall x a, ~ In z [x] -> bindn (env s) x a z = env s z).
  { intros x a Hx. unfold bindn. destruct (Nat.eqb_spec z x) as [->|]; auto. exfalso. apply Hx. now left. }
  assert (B2 : forall x y a a', ~ In z [x; y] -> bindn (bindn (env s) y a') x a z = env s z).
  { intros x y a a' Hx. unfold bindn. destruct (Nat.eqb_spec z x) as [->|]; [exfalso; apply Hx; now left|].
    destruct (Nat.eqb_spec z y) as [->|]; auto. exfalso. apply Hx. right; now left. }
  destruct c; cbn [vstep2 vstep writes] in *; unfold v_sized2, v_fill2, v_list2, v_copy2, v_assign2, v_move, v_move_assign in E;
  repeat match type of E with
  | bind (fresh_name ?s ?x) _ = _ => destruct (fresh_name s x); cbn [bind] in E; try discriminate
  | bind (look ?s ?x) _ = _ => destruct (look s x) eqn:?; cbn [bind] in E; try discriminate
  | (if ?t then _ else _) = _ => destruct t; try discriminate
  | bind (v_set2 ?a ?r ?h ?o ?n ?g) _ = _ => destruct (v_set2 a r h o n g) as [[? ?]| | | |] eqn:?; cbn [bind] in E; try discriminate
  | bind (v_resize2 ?a ?r ?h ?o ?n) _ = _ => destruct (v_resize2 a r h o n) as [[? ?]| | | |] eqn:?; cbn [bind] in E; try discriminate
  | bind (bind (v_allocate2 ?a ?r ?h ?o ?n) _) _ = _ => destruct (v_allocate2 a r h o n) as [[[? ?] ?]| | | |] eqn:?; cbn [bind] in E; try discriminate
  | bind (bind (v_deallocate ?h ?o) _) _ = _ => destruct (v_deallocate h o) as [[[? ?] ?]| | | |] eqn:?; cbn [bind] in E; try discriminate
  | bind (v_deallocate ?h ?o) _ = _ => destruct (v_deallocate h o) as [[[? ?] ?]| | | |] eqn:?; cbn [bind] in E; try discriminate
  | bind (store ?h ?o ?n ?g) _ = _ => destruct (store h o n g) eqn:?; cbn [bind] in E; try discriminate
  | bind (load ?h ?o ?n) _ = _ => destruct (load h o n) eqn:?; cbn [bind] in E; try discriminate
  end; injection E as <- <-; cbn [hp env]; (split; [first [apply B1; assumption|apply B2; assumption|reflexivity]|intros L H]); try reflexivity;
  match goal with
  | S : v_set2 _ _ _ vnull _ _ = _ |- _ => apply (set_keep _ _ _ _ _ _ _ _ S (null_ptr b) L L)
  | S : v_set2 _ _ _ _ _ _ = _ |- _ => eapply (set_keep _ _ _ _ _ _ _ _ S); eauto using in_eq, look_env
  | S : v_resize2 _ _ _ _ _ = _ |- _ => eapply (resize_keep _ _ _ _ _ _ _ S); eauto using in_eq, look_env
  | S : v_allocate2 _ _ _ vnull _ = _ |- _ => apply (alloc_keep _ _ _ _ _ _ _ _ S (null_ptr b) L); exact L
  | S : v_deallocate _ vnull = _ |- _ => apply (dealloc_keep _ _ _ _ _ _ S (null_ptr b)); exact L
  | S : v_deallocate _ _ = _ |- _ => eapply (dealloc_keep _ _ _ _ _ _ S); eauto using in_eq, look_env
  | S : store _ _ _ _ = _ |- _ => eapply (store_keep _ _ _ _ _ _ S); eauto using in_eq, look_env
  end.
Qed.

(** * A statement on Vectors in order succeeds if its request is served *)
(** Vector [z], if it exists, is in order: all its elements can be read. *)
Definition intact s e z : Prop := forall l, e z = Some l -> exists o, env s z = Some o /\ owns (hp s) o l.
Lemma intact_keep r s e c s' ob e1 z : W s e -> vstep2 sz r s c = Ok (s', ob) -> ~ In z (writes c) -> e1 z = e z -> intact s e z -> intact s' e1 z.
Proof.
  intros HW E Nz Ez Hi l El. rewrite Ez in El. destruct (Hi l El) as (o & Eo & Ow).
  pose proof (fun b => step_keep r s c s' ob z b E Nz) as K. exists o. split; [rewrite (proj1 (K 0)); auto|].
  destruct Ow as [Ow|(b & P1 & P2 & P3 & P4)]; [left; auto|right]. exists b. repeat split; auto. rewrite <- P4. apply (K b).
  { apply nth_error_Some. congruence. }
  intros x ox Hx Ex Px. apply Nz. destruct HW as (_ & _ & D). rewrite (D z x o ox b); auto.
Qed.
Lemma I_look s e x l : W s e -> intact s e x -> e x = Some l -> exists o, look s x = Ok o /\ env s x = Some o /\ owns (hp s) o l /\ fits (length l).
Proof.
  intros (_ & HF & _) Hi E. destruct (Hi l E) as (o & Eo & Ow). exists o. unfold look. rewrite Eo. eauto.
Qed.
Lemma intact_new h s e x o l : owns h o l -> intact (mkSt h (bindn (env s) x (Some o))) (sset e x (Some l)) x.
Proof. intros H l' E. unfold sset, bindn in *. cbn [env hp]. rewrite Nat.eqb_refl in *. injection E as <-. eauto. Qed.
Section Served.
Context (r : reply) (Hr : r <> Refuse).
Let ip := fun (_ : @heap T) (_ _ : nat) => moves r.
Lemma resize2_ok h o l n : owns h o l -> fits n -> exists h' o', v_resize2 sz r h o n = Ok (h', o') /\ owns h' o' (sresize l n).
Proof.
  intros Ow Hf. unfold v_resize2. rewrite (alloc_same sz Hsz) by auto. destruct (alloc_ok ip h o l n Ow Hf) as (h1 & o1 & f & E & _ & W1 & _).
  fold ip. rewrite E. cbn [bind]. eauto.
Qed.
Lemma fill2_ok h n v : fits n -> exists h' o', v_fill2 sz r h n v = Ok (h', o') /\ owns h' o' (repeat v n).
Proof.
  intros Hf. destruct (fill_n_ok ip h n v Hf) as (h1 & o1 & E & _ & W1). exists h1, o1. split; auto. rewrite <- E.
  unfold v_fill2, v_set2, v_fill. rewrite (alloc_same sz Hsz) by auto. reflexivity.
Qed.
Lemma list2_ok h l : fits (length l) -> exists h' o', v_list2 sz r h l = Ok (h', o') /\ owns h' o' l.
Proof.
  intros Hf. destruct (list_ok ip h l Hf) as (h1 & o1 & E & _ & W1). exists h1, o1. split; auto. rewrite <- E.
  unfold v_list2, v_set2, v_list. rewrite (alloc_same sz Hsz) by auto. reflexivity.
Qed.
Lemma assign2_ok h o l o2 l2 : owns h o l -> owns h o2 l2 -> fits (length l2) -> (forall b, vptr o = Some b -> vptr o2 <> Some b) ->
  exists h' o', v_assign2 sz r h o o2 = Ok (h', o') /\ owns h' o' l2.
Proof.
  intros W1 W2 Hf Hd. destruct (copy_ok ip h o l o2 l2 W1 W2 Hf Hd) as (h1 & o1 & E & _ & W3). exists h1, o1. split; auto. rewrite <- E.
  unfold v_assign2, v_set2, v_assign. rewrite (alloc_same sz Hsz) by (auto; rewrite (owns_len _ _ _ W2); auto). reflexivity.
Qed.
Lemma progress s e c e1 ob : W s e -> sstep e c = Some (e1, ob) -> (forall z, In z (writes c ++ only_reads c) -> intact s e z) ->
  exists s', vstep2 sz r s c = Ok (s', ob) /\ forall z, In z (writes c) -> intact s' e1 z.
Proof.
  intros HW Hs Hi.
  assert (One : forall (P : nat -> Prop) x, P x -> forall z, In z [x] -> P z) by (intros P x Hx z [<-|[]]; auto).
  assert (Two : forall (P : nat -> Prop) x y, P x -> (y <> x -> P y) -> forall z, In z [x; y] -> P z).
  { intros P x y Hx Hy z [<-|[<-|[]]]; auto. destruct (Nat.eq_dec y x) as [->|]; auto. }
  destruct c; cbn [sstep vstep2 vstep writes only_reads app] in *; unfold fresh_name;
  repeat match goal with
  | Hs : (if ?k =? length ?m then _ else _) = _ |- _ => destruct (k =? length m); [|discriminate]
  | Hs : context [match e ?x with _ => _ end] |- _ => let E := fresh "E" x in destruct (e x) eqn:E; try discriminate
  | Hs : context [if fitsb ?x then _ else _] |- _ => let F := fresh "Hf" in destruct (fitsb x) eqn:F; try discriminate; apply fitsb_spec in F
  | E : e ?x = None |- context [env s ?x] => rewrite (W_fresh s e x HW E); cbn [bind]
  | E : e ?x = Some ?l |- context [look s ?x] =>
      let H := fresh in assert (H : intact s e x) by (apply Hi; cbn; auto);
      let o := fresh "o" x in let Eo := fresh "Eo" x in let Ow := fresh "Ow" x in let Ff := fresh "Ff" x in
      destruct (I_look s e x l HW H E) as (o & -> & Eo & Ow & Ff); cbn [bind]; clear H
  end.
  - injection Hs as <- <-. eexists. split; [reflexivity|]. apply One, intact_new, null_owns.
  - injection Hs as <- <-. unfold v_sized2. destruct (resize2_ok (hp s) vnull nil n (null_owns _)) as (h1 & o1 & E & W1); [auto|].
    unfold v_resize2 in E. rewrite E. cbn [bind]. eexists. split; [reflexivity|]. rewrite sresize_new in W1. now apply One, intact_new.
  - injection Hs as <- <-. destruct (fill2_ok (hp s) n v) as (h1 & o1 & E & W1); [auto|].
    rewrite E. cbn [bind]. eexists. split; [reflexivity|]. now apply One, intact_new.
  - injection Hs as <- <-. destruct (list2_ok (hp s) l) as (h1 & o1 & E & W1); auto.
    rewrite E. cbn [bind]. eexists. split; [reflexivity|]. now apply One, intact_new.
  - injection Hs as <- <-. destruct (list2_ok (hp s) l) as (h1 & o1 & E & W1); auto.
    rewrite E. cbn [bind]. eexists. split; [reflexivity|]. now apply One, intact_new.
  - injection Hs as <- <-. change (v_copy2 sz r (hp s) oy) with (v_assign2 sz r (hp s) vnull oy).
    destruct (assign2_ok (hp s) vnull nil oy l) as (h1 & o1 & E & W1); auto; [apply null_owns|discriminate|].
    rewrite E. cbn [bind]. eexists. split; [reflexivity|]. now apply One, intact_new.
  - injection Hs as <- <-. unfold v_move, v_deallocate. cbn [vsz vnull]. change (0 <? 0) with false. cbn [bind]. eexists. split; [reflexivity|].
    apply Two; [|intros N]; intros l' E'; unfold sset, bindn in *; cbn [env hp] in *; rewrite ?Nat.eqb_refl in *.
    + injection E' as <-. eauto.
    + destruct (Nat.eqb_spec y x); [contradiction|]. injection E' as <-. eauto using null_owns.
  - injection Hs as <- <-. destruct (Nat.eqb_spec x y) as [<-|Hxy].
    { eexists. split; [reflexivity|]. apply One. intros l' E'. unfold sset in E'. rewrite Nat.eqb_refl in E'. injection E' as <-. eauto. }
    destruct (assign2_ok (hp s) ox l oy l0) as (h1 & o1 & E & W1); auto.
    { intros b P1 P2. apply Hxy. destruct HW as (_ & _ & D). eapply D; eauto. }
    rewrite E. cbn [bind]. eexists. split; [reflexivity|]. now apply One, intact_new.
  - injection Hs as <- <-. destruct (Nat.eqb_spec x y) as [<-|Hxy].
    { eexists. split; [reflexivity|]. intros z Hz. apply Hi. auto. }
    unfold v_move_assign. destruct (dealloc_ok ip (hp s) ox l Owx) as (h1 & f & E & F & _). rewrite E. cbn [bind]. eexists. split; [reflexivity|].
    apply Two; [|intros N]; intros l' E'; unfold sset, bindn in *; cbn [env hp] in *; rewrite ?Nat.eqb_refl in *.
    + injection E' as <-. exists oy. split; auto. destruct Owy as [Owy|(b & P1 & P2 & P3 & P4)]; [left; auto|right]. exists b. repeat split; auto.
      rewrite <- P4. apply F; [apply nth_error_Some; congruence|]. intros P5. apply Hxy. destruct HW as (_ & _ & D). eapply D; eauto.
    + destruct (Nat.eqb_spec y x); [contradiction|]. injection E' as <-. eauto using null_owns.
  - injection Hs as <- <-. destruct (resize2_ok (hp s) ox l n Owx) as (h1 & o1 & E & W1); auto.
    rewrite E. cbn [bind]. eexists. split; [reflexivity|]. now apply One, intact_new.
  - injection Hs as <- <-. rewrite (owns_len _ _ _ Owy). destruct (resize2_ok (hp s) ox l (length l0) Owx) as (h1 & o1 & E & W1); auto.
    rewrite E. cbn [bind]. eexists. split; [reflexivity|]. now apply One, intact_new.
  - destruct (Nat.ltb_spec i (length l)) as [Hl|]; [|discriminate]. injection Hs as <- <-.
    destruct Owx as [(_ & _ & ->)|(b & P & S & N & Hb)]; [cbn in Hl; lia|].
    assert (Hlt : b < length (hp s)) by (apply nth_error_Some; congruence).
    rewrite P. erewrite store_ok by (eauto; rewrite map_length; auto). cbn [bind]. eexists. split; [reflexivity|]. apply One.
    intros l' E'. unfold sset in E'. rewrite Nat.eqb_refl in E'. injection E' as <-. cbn [env hp]. exists ox. split; auto. right. exists b.
    rewrite upd_length. repeat split; auto. { intros H. apply (f_equal (@length _)) in H. rewrite upd_length in H. cbn in H. lia. }
    rewrite upd_same by auto. do 2 f_equal. clear -l. revert i. induction l as [|a l IH]; intros [|i]; cbn; auto. rewrite IH. reflexivity.
  - destruct (nth_error l i) as [v|] eqn:Ei; [|discriminate]. injection Hs as <- <-. rewrite (owns_load _ _ _ _ _ Owx Ei). cbn [bind].
    eexists. split; [reflexivity|]. intros z [].
  - injection Hs as <- <-. rewrite (owns_len _ _ _ Owx). eexists. split; [reflexivity|]. intros z [].
  - injection Hs as <- <-. destruct (dealloc_ok ip (hp s) ox l Owx) as (h1 & f & E & F & _). rewrite E. cbn [bind]. eexists. split; [reflexivity|].
    apply One. intros l' E'. unfold sset in E'. rewrite Nat.eqb_refl in E'. discriminate.
Qed.
End Served.
End Blocks.

(** * C131: [good] says which threads' requests are always served.  Whatever requests of
    other threads are refused, as long as these do not meet undefined behaviour, the next statement of
    a good thread succeeds if it is served, and when a good thread has ended it has the
    result it has alone and its Vectors hold what it leaves there alone. *)
Theorem C131_isolated : forall {T : Type} {O : Ops T} {A : Type} (sz : N), (0 < sz <= 32)%N ->
  forall cs e0 os s0 own N (th : nat -> prog T A) E a n (good : nat -> Prop),
  srun (fun _ => None) (map fst cs) = Some (e0, os) -> (forall c, In c cs -> snd c <> Refuse) -> vrun2 sz vst0 cs = Ok (s0, os) ->
  (forall t, obeys own t (th t)) -> (forall t, alone e0 (th t) = Some (E t, a t, n t)) -> (forall t, N <= t -> n t = 0) ->
  forall k s th', csteps2 sz (fun t r => good t -> r <> Refuse) k (mkC s0 th) (mkC s th') ->
  forall t, good t ->
    match th' t with
    | Do c _ => forall r, r <> Refuse -> exists s' ob, vstep2 sz r s c = Ok (s', ob)
    | Done r => r = a t /\ forall x l, own x = Some t -> E t x = Some l -> reads_as s x l
    end.
Proof.
  intros T O A sz Hsz cs e0 os s0 own N th E a n good Hs Hc Hv Ho Hal HN k s th' Hk t Gt.
  destruct (run_same sz Hsz cs vst0 _ e0 os R_init Hc Hs) as (s1 & X & HR). rewrite X in Hv. injection Hv as ->.
  set (kept z := own z = None \/ exists t, own z = Some t /\ good t).
  set (Rel s e := W s e /\ forall z, kept z -> intact (T := T) s e z).
  assert (H0 : Rel s0 e0).
  { split.
    - destruct (wrun sz Hsz cs vst0 _ e0 os W_init Hs) as [Y|(s1 & Y & HW)]; [congruence|]. rewrite X in Y. injection Y as <-. exact HW.
    - intros z _ l El. destruct HR as (H1 & _). specialize (H1 z). rewrite El in H1. exact H1. }
  assert (Hst : forall t r s e c e1 ob s' ob', (good t -> r <> Refuse) -> allowed own t (writes c) (only_reads c) -> Rel s e ->
    sstep e c = Some (e1, ob) -> vstep2 sz r s c = Ok (s', ob') -> ob' = ob /\ Rel s' e1).
  { clear - Hsz. intros t r s e c e1 ob s' ob' Hr (Hw & Hrd) (HW & Hi) Hs Hv. destruct (w_det sz Hsz r s e c e1 ob s' ob' HW Hs Hv) as (-> & HW1).
    split; auto. split; auto. intros z Kz. destruct (in_dec Nat.eq_dec z (writes c)) as [Iz|Nz].
    - assert (G : good t). { destruct Kz as [Kz|(u & Kz & Gu)]; rewrite (Hw z Iz) in Kz; [discriminate|]. injection Kz as ->. exact Gu. }
      destruct (progress sz Hsz r (Hr G) s e c e1 ob HW Hs) as (s2 & V & P).
      + intros y Hy. apply Hi. apply in_app_or in Hy. destruct Hy as [Hy|Hy]; [right; eauto|].
        destruct (Hrd y Hy); [right; eauto|left; auto].
      + rewrite V in Hv. injection Hv as <-. auto.
    - apply (intact_keep sz Hsz r s e c s' ob e1 z HW Hv Nz); [|auto]. destruct (sstep_local e e c e1 ob ltac:(auto) Hs) as (e1' & E1' & _ & V).
      assert (e1' = e1) by congruence. subst e1'. apply (V z Nz). }
  assert (I1 : inv2 Rel own N e0 E a n k (mkC s th')).
  { eapply (inv2_steps sz Hsz (fun t r => good t -> r <> Refuse) Rel) with (th := th);
      first [exact Ho|exact Hal|exact HN|exact Hst|exact Hk|eapply inv2_init; eauto]. }
  destruct I1 as (e & m & (HW & Hi) & Hsh & Ht & _). cbn [mem todo] in *. destruct (Ht t) as (Ot & e' & At & Ag).
  destruct (th' t) as [r|c q]; cbn [alone obeys] in *.
  - injection At as <- <- _. split; auto. intros x l Ox El. rewrite <- (Ag x) in El by auto.
    destruct (Hi x (or_intror (ex_intro _ t (conj Ox Gt))) l El) as (o & Eo & Ow). exists o. split; auto.
    split; [eapply owns_len; eauto|]. intros i v Hv. eapply owns_load; eauto.
  - intros r Nr. destruct (sstep e c) as [[e1 ob]|] eqn:Es; [|discriminate]. destruct Ot as ((Hw & Hrd) & _).
    destruct (progress sz Hsz r Nr s e c e1 ob HW Es) as (s2 & V & _); [|eauto].
    intros y Hy. apply Hi. apply in_app_or in Hy. destruct Hy as [Hy|Hy]; [right; eauto|].
    destruct (Hrd y Hy); [right; eauto|left; auto].
Qed.

(** The run of C131_ex_run: only requests of thread 1 are refused. *)
Example C131_ex_isolated : exists s0 os s th', vrun2 4 vst0 ex2_start = Ok (s0, os) /\
  csteps2 4 (fun t r => t = 0 -> r <> Refuse) 3 (mkC s0 ex2) (mkC s th') /\ th' 0 = Done 4%Z /\
  vstep2 4 InPlace s (Read 1 0) = UB.
Proof.
  eexists _, _, _, _. split; [reflexivity|]. split.
  { eapply More2. eapply More2. eapply More2. apply Stop2.
    - eapply (Sched2 4) with (t := 1) (r := InPlace); [reflexivity|discriminate|vm_compute; reflexivity].
    - eapply (Sched2 4) with (t := 1) (r := Refuse); [reflexivity|discriminate|vm_compute; reflexivity].
    - eapply (Sched2 4) with (t := 0) (r := InPlace); [reflexivity|discriminate|vm_compute; reflexivity]. }
  repeat split; vm_compute; reflexivity.
Qed.
