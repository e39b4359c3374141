(** PropOOM.v: C120, what happens to programs that use Vectors when memory runs out. *)
From Verif Require Import VecHeap MatFacts BaseFacts ViewFacts2 PropHeap VecOOM.
Arguments Nat.ltb : simpl never.
Arguments Nat.leb : simpl never.
Arguments Nat.eqb : simpl never.
Arguments N.eqb : simpl never.
Arguments N.pow : simpl never.
Arguments N.modulo : simpl never.
Arguments N.div : simpl never.

(** * Specification *)
Section Spec.
Context {T : Type} {O : Ops T}.
(** The statements that ask for memory: how many elements their Vector has and how many it will have. *)
Definition wants (e : @seqs T) (c : @vop T) : option (nat * nat) :=
  match c with
  | Sized _ n | Fill _ n _ => Some (0, n)
  | FromList _ l | FromListN _ _ l => Some (0, length l)
  | Copy _ y => match e y with Some ly => Some (0, length ly) | None => None end
  | Assign x y | ResizeAs x y => match e x, e y with Some lx, Some ly => Some (length lx, length ly) | _, _ => None end
  | Resize x n => match e x with Some lx => Some (length lx, n) | None => None end
  | New _ | Move _ _ | MoveAssign _ _ | Write _ _ _ | Read _ _ | Size _ | Destroy _ => None
  end.
End Spec.

Section Bytes.
Variable sz : N.
Hypothesis Hsz : (0 < sz <= 32)%N.
Lemma bytes_fit n : fits n -> bytes sz n = (sz * N.of_nat n)%N.
Proof.
  unfold fits, alloc_max, bytes. intros H. apply N.mod_small. change (2 ^ 64)%N with (32 * 576460752303423488)%N.
  apply N.lt_le_trans with (sz * 576460752303423488)%N; [apply N.mul_lt_mono_pos_l; lia|apply N.mul_le_mono_r; lia].
Qed.
Lemma served_fit n : fits n -> served sz n = n.
Proof. intros H. unfold served. rewrite bytes_fit by auto. rewrite N.mul_comm, N.div_mul by lia. apply Nnat.Nat2N.id. Qed.
Lemma bytes_pos n : fits n -> 0 < n -> (bytes sz n =? 0)%N = false.
Proof. intros H Hn. rewrite bytes_fit by auto. apply N.eqb_neq. nia. Qed.
(** When the byte count does not fit in size_t, the block is too small. *)
Lemma served_small n : (2 ^ 64 <= sz * N.of_nat n)%N -> served sz n < n.
Proof.
  intros H. unfold served. assert (bytes sz n / sz < N.of_nat n)%N; [|lia]. apply N.div_lt_upper_bound; [lia|].
  unfold bytes. assert ((sz * N.of_nat n) mod 2 ^ 64 < 2 ^ 64)%N by (apply N.mod_lt; discriminate). lia.
Qed.
End Bytes.

Lemma slen {T} {O : Ops T} (l : list T) n : length (sresize l n) = n.
Proof. unfold sresize. rewrite app_length, firstn_length, repeat_length. lia. Qed.
(** * The invariant *)
Section Proofs.
Context {T : Type} {O : Ops T} (sz : N) (Hsz : (0 < sz <= 32)%N).
Implicit Types (h : @heap T) (o : vobj) (l : list T) (s : @vst T) (e : @seqs T).

(** [o] has the size of [l], and each element that can be read in its block is that of [l]. *)
Definition wowns h o l : Prop :=
  vsz o = length l /\
  forall b, vptr o = Some b -> l <> nil /\ exists cells, nth_error h b = Some (Some cells) /\ length cells = length l /\
    forall i v, nth_error cells i = Some (Some v) -> nth_error l i = Some v.
Definition wframe h o h' o' : Prop :=
  length h <= length h' /\
  (forall b, b < length h -> vptr o <> Some b -> nth_error h' b = nth_error h b) /\
  (forall b, vptr o' = Some b -> vptr o = Some b \/ length h <= b).
Definition W s e : Prop :=
  (forall x, match e x with Some l => exists o, env s x = Some o /\ wowns (hp s) o l | None => env s x = None end) /\
  (forall x l, e x = Some l -> fits (length l)) /\
  (forall x y ox oy b, env s x = Some ox -> env s y = Some oy -> vptr ox = Some b -> vptr oy = Some b -> x = y).

Lemma W_init : W vst0 (fun _ => None).
Proof. split; [reflexivity|]. split; discriminate. Qed.
Lemma wowns_lt h o l b : wowns h o l -> vptr o = Some b -> b < length h.
Proof. intros (_ & H) E. destruct (H b E) as (_ & cells & Hb & _). apply nth_error_Some. congruence. Qed.
Lemma wowns_null h : wowns h vnull nil.
Proof. split; [reflexivity|]. discriminate. Qed.
Lemma wowns_other h h' o l : wowns h o l -> (forall b, vptr o = Some b -> nth_error h' b = nth_error h b) -> wowns h' o l.
Proof. intros (S & H) E. split; auto. intros b Hb. destruct (H b Hb) as (N & cells & H1 & H2). split; auto. exists cells. rewrite E; auto. Qed.
Lemma wframe_refl h o : wframe h o h o.
Proof. split; auto. Qed.
Lemma W_look s e x l : W s e -> e x = Some l -> exists o, look s x = Ok o /\ env s x = Some o /\ wowns (hp s) o l /\ fits (length l).
Proof. intros (H1 & HF & _) E. specialize (H1 x). rewrite E in H1. destruct H1 as (o & Eo & Wo). exists o. unfold look. rewrite Eo. eauto. Qed.
Lemma W_fresh s e x : W s e -> e x = None -> env s x = None.
Proof. intros (H1 & _) E. specialize (H1 x). rewrite E in H1. auto. Qed.
Lemma W_ext s e e' : W s e -> (forall x, e x = e' x) -> W s e'.
Proof. intros (H1 & HF & H2) E. split; [|split; [|auto]]; intros x; [|intros l]; rewrite <- E; [apply H1|apply HF]. Qed.
Lemma W_upd s e x o h' o' l' : W s e -> (env s x = Some o \/ (env s x = None /\ o = vnull)) ->
  wframe (hp s) o h' o' -> wowns h' o' l' -> fits (length l') ->
  W (mkSt h' (bindn (env s) x (Some o'))) (sset e x (Some l')).
Proof.
  intros (H1 & HF & H2) Hx (F0 & F1 & F3) Hw Hfit. unfold W, bindn, sset. cbn [hp env].
  assert (Hoth : forall y oy b, y <> x -> env s y = Some oy -> vptr oy = Some b -> vptr o <> Some b /\ b < length (hp s)).
  { intros y oy b Hy Hey Hb. split.
    - intros Ho. destruct Hx as [Ex|(Ex & ->)]; [|discriminate]. apply Hy. eapply H2; eauto.
    - specialize (H1 y). rewrite Hey in H1. destruct (e y) as [ly|]; [|discriminate]. destruct H1 as (oy' & E & Wo).
      assert (oy' = oy) by congruence. subst. eapply wowns_lt; eauto. }
  split; [|split].
  - intros y. destruct (Nat.eqb_spec y x) as [->|Hy]. { exists o'. auto. }
    specialize (H1 y). destruct (e y) as [ly|]; auto. destruct H1 as (oy & E & Wo). exists oy. split; auto.
    eapply wowns_other; eauto. intros b Hb. destruct (Hoth y oy b Hy E Hb). apply F1; auto.
  - intros y ly. destruct (Nat.eqb_spec y x) as [->|Hy]; [|apply HF]. intros [= <-]. auto.
  - intros y z oy oz b. destruct (Nat.eqb_spec y x) as [->|Hy]; destruct (Nat.eqb_spec z x) as [->|Hz]; auto.
    + intros [= <-] Ez Py Pz. destruct (Hoth z oz b Hz Ez Pz) as (A & B). destruct (F3 b Py); [congruence|lia].
    + intros Ey [= <-] Py Pz. destruct (Hoth y oy b Hy Ey Py) as (A & B). destruct (F3 b Pz); [congruence|lia].
    + apply H2.
Qed.
Lemma W_drop s e x : W s e -> W (mkSt (hp s) (bindn (env s) x None)) (sset e x None).
Proof.
  intros (H1 & HF & H2). unfold W, bindn, sset. cbn [hp env]. split; [|split].
  - intros y. destruct (Nat.eqb_spec y x); auto. apply H1.
  - intros y l. destruct (Nat.eqb_spec y x); [discriminate|apply HF].
  - intros y z oy oz b. destruct (Nat.eqb_spec y x); [discriminate|]. destruct (Nat.eqb_spec z x); [discriminate|]. apply H2.
Qed.
(** [x] gets what [y] had, [y] becomes null. *)
Lemma W_move s e x y oy l : W s e -> x <> y -> env s y = Some oy -> e y = Some l ->
  W (mkSt (hp s) (bindn (bindn (env s) y (Some vnull)) x (Some oy))) (sset (sset e y (Some nil)) x (Some l)).
Proof.
  intros (H1 & HF & H2) Hxy Hy Hl. unfold W, bindn, sset. cbn [hp env]. split; [|split].
  - intros z. destruct (Nat.eqb_spec z x) as [->|Hz].
    { exists oy. split; auto. specialize (H1 y). rewrite Hl in H1. destruct H1 as (o' & E & Wo). congruence. }
    destruct (Nat.eqb_spec z y) as [->|Hz']; [|apply H1]. exists vnull. split; auto. apply wowns_null.
  - intros z lz. destruct (Nat.eqb_spec z x) as [->|Hz]. { intros [= <-]. eapply HF; eauto. }
    destruct (Nat.eqb_spec z y) as [->|Hz']; [|apply HF]. intros [= <-]. apply fits_0.
  - intros z w oz ow b. destruct (Nat.eqb_spec z x) as [->|Hz]; destruct (Nat.eqb_spec w x) as [->|Hw]; auto.
    + intros [= <-]. destruct (Nat.eqb_spec w y) as [->|Hw']; [intros [= <-]; discriminate|].
      intros Ew P1 P2. exfalso. apply Hw'. eapply H2; eauto.
    + destruct (Nat.eqb_spec z y) as [->|Hz']; [intros [= <-]; discriminate|].
      intros Ez [= <-] P1 P2. exfalso. apply Hz'. eapply H2; eauto.
    + destruct (Nat.eqb_spec z y) as [->|Hz']; [intros [= <-]; discriminate|].
      destruct (Nat.eqb_spec w y) as [->|Hw']; [intros ? [= <-]; discriminate|]. apply H2.
Qed.

Lemma wdealloc h o l : wowns h o l -> exists h' r, v_deallocate h o = Ok (h', vnull, r) /\ wframe h o h' vnull.
Proof.
  intros (S & H). unfold v_deallocate. destruct (Nat.ltb_spec 0 (vsz o)) as [Hp|Hp].
  - destruct (vptr o) as [b|] eqn:P; cbn [hfree].
    + destruct (H b eq_refl) as (_ & cells & Hb & _). rewrite Hb. cbn [bind]. do 2 eexists. split; [reflexivity|].
      split; [rewrite upd_length; auto|]. split; [|discriminate]. intros b' _ Hne. apply upd_other. congruence.
    + cbn [bind]. do 2 eexists. split; [reflexivity|]. split; auto. split; auto. discriminate.
  - exists h, false. assert (E : o = vnull).
    { destruct o as [p z]. cbn in *. assert (z = 0) by lia. unfold vnull. f_equal; auto.
      destruct p as [b|]; auto. destruct (H b eq_refl) as (N & _). destruct l; [congruence|cbn in S; lia]. }
    rewrite E. split; [reflexivity|]. apply wframe_refl.
Qed.
Lemma null_store h i lo hi (g : nat -> @heap T -> Res T) : lo <= i < hi -> (forall i h, g i h = UB \/ exists v, g i h = Ok v) ->
  for_range lo hi (fun i h => let* x := g i h in store h None i x) h = UB.
Proof.
  intros Hi Hg. rewrite for_range_first by lia. destruct (Hg lo h) as [->|(v & ->)]; reflexivity.
Qed.
(** A loop of stores into one block, whose values may be undefined. *)
Lemma wstore_loop h b cells lo hi (g : nat -> @heap T -> Res T) (f : nat -> T) :
  nth_error h b = Some (Some cells) -> lo <= hi -> hi <= length cells ->
  (forall i h', lo <= i < hi -> others h h' b -> g i h' = UB \/ g i h' = Ok (f i)) ->
  for_range lo hi (fun i h => let* x := g i h in store h (Some b) i x) h = UB \/
  exists h' cells', for_range lo hi (fun i h => let* x := g i h in store h (Some b) i x) h = Ok h' /\
    others h h' b /\ nth_error h' b = Some (Some cells') /\ length cells' = length cells /\
    forall i, i < length cells -> nth_error cells' i = if (lo <=? i) && (i <? hi) then Some (Some (f i)) else nth_error cells i.
Proof.
  intros Hb Hl Hh Hg.
  destruct (for_range_ok_ub_inv (fun k h' => exists cells', others h h' b /\ nth_error h' b = Some (Some cells') /\ length cells' = length cells /\
    forall i, i < length cells -> nth_error cells' i = if (lo <=? i) && (i <? k) then Some (Some (f i)) else nth_error cells i)
    lo hi (fun i h => let* x := g i h in store h (Some b) i x) h) as [E|(h' & E & cells' & Q)]; auto.
  - exists cells. split; [split; auto|]. split; auto. split; auto. intros i Hi.
    destruct (Nat.leb_spec lo i), (Nat.ltb_spec i lo); cbn; auto; lia.
  - intros i h1 Hi (cells1 & (L1 & P1) & Q1 & Q2 & Q3). destruct (Hg i h1 Hi (conj L1 P1)) as [E| E]; rewrite E; [right; reflexivity|left]. cbn [bind].
    rewrite (store_ok (fun _ _ _ => true) h1 b cells1) by (auto; lia). eexists. split; [reflexivity|].
    exists (upd cells1 i (Some (f i))). assert (b < length h1) by (apply nth_error_Some; congruence).
    split; [split|]. { rewrite upd_length. auto. } { intros b' Hb'. rewrite upd_other; auto. }
    split; [apply upd_same; auto|]. split; [rewrite upd_length; auto|].
    intros k Hk. rewrite upd_nth_error by lia. destruct (Nat.eqb_spec k i) as [->|N].
    + destruct (Nat.leb_spec lo i), (Nat.ltb_spec i (S i)); cbn; auto; lia.
    + rewrite Q3 by auto. destruct (Nat.leb_spec lo k), (Nat.ltb_spec k i), (Nat.ltb_spec k (S i)); cbn; auto; lia.
  - right. exists h', cells'. split; auto.
Qed.
Lemma wothers_frame h h1 b o o' h' : wframe h o h1 o' -> vptr o' = Some b -> others h1 h' b -> wframe h o h' o'.
Proof.
  intros (F0 & F1 & F3) Hp (L & P). split; [lia|]. split; [|auto].
  intros b' Hb' Hne. assert (b' <> b). { intros ->. destruct (F3 b Hp); [congruence|lia]. } rewrite P; auto.
Qed.
(** What realloc leaves: a null pointer and the old heap, or a block with the old prefix. *)
Lemma wrealloc r h o l n : wowns h o l -> 0 < n -> fits n ->
  hrealloc2 sz r h (vptr o) n = Ok (h, None) /\ r = Refuse \/
  r <> Refuse /\ exists h' b cells, hrealloc2 sz r h (vptr o) n = Ok (h', Some b) /\ wframe h o h' (mkV (Some b) n) /\ nth_error h' b = Some (Some cells) /\ length cells = n /\
    forall i v, nth_error cells i = Some (Some v) -> nth_error l i = Some v.
Proof.
  intros (S & H) Hn Hf. unfold hrealloc2. rewrite (served_fit sz Hsz n Hf), (bytes_pos sz Hsz n Hf Hn). destruct (vptr o) as [b|] eqn:P.
  - destruct (H b eq_refl) as (N & cells & Hb & Hl & Hc). rewrite Hb. assert (Hlt : b < length h) by (apply nth_error_Some; congruence).
    set (cells' := firstn n cells ++ repeat None (n - length cells)).
    assert (L' : length cells' = n). { unfold cells'. rewrite app_length, firstn_length, repeat_length. lia. }
    assert (C' : forall i v, nth_error cells' i = Some (Some v) -> nth_error l i = Some v).
    { intros i v Hv. apply Hc. unfold cells' in Hv. destruct (Nat.lt_ge_cases i (length (firstn n cells))) as [Hi|Hi].
      - rewrite nth_error_app1 in Hv by auto. rewrite firstn_length in Hi. rewrite <- Hv. rewrite <- (firstn_skipn n cells) at 1. rewrite nth_error_app1; auto. rewrite firstn_length. lia.
      - rewrite nth_error_app2 in Hv by auto. apply nth_error_In, repeat_spec in Hv. discriminate. }
    destruct r; [left; auto|right; split; [discriminate|]..].
    + exists (upd h b (Some cells')), b, cells'. split; [reflexivity|]. split; [|split; [apply upd_same; auto|auto]].
      split; [rewrite upd_length; auto|]. rewrite P. split; [|cbn; auto]. intros b' _ Hne. apply upd_other. congruence.
    + exists (upd h b None ++ [Some cells']), (length h), cells'. split; [reflexivity|]. split; [|split; [|auto]].
      * split; [rewrite app_length, upd_length; lia|]. rewrite P. split; [|cbn; intros b' [= <-]; auto].
        intros b' Hb' Hne. rewrite nth_error_app1 by (rewrite upd_length; auto). apply upd_other. congruence.
      * rewrite nth_error_app2; rewrite upd_length; [|lia]. rewrite Nat.sub_diag. reflexivity.
  - assert (G : wframe h o (h ++ [Some (repeat None n)]) (mkV (Some (length h)) n)).
    { split; [rewrite app_length; lia|]. rewrite P. split; [|cbn; intros b' [= <-]; auto]. intros b' Hb' _. apply nth_error_app1; auto. }
    destruct r; [left; auto|right; split; [discriminate|]..].
    + exists (h ++ [Some (repeat None n)]), (length h), (repeat None n). split; [reflexivity|]. split; auto.
      split; [rewrite nth_error_app2, Nat.sub_diag; auto|]. split; [apply repeat_length|]. intros i v Hv. apply nth_error_In, repeat_spec in Hv. discriminate.
    + exists (h ++ [Some (repeat None n)]), (length h), (repeat None n). split; [reflexivity|]. split; auto.
      split; [rewrite nth_error_app2, Nat.sub_diag; auto|]. split; [apply repeat_length|]. intros i v Hv. apply nth_error_In, repeat_spec in Hv. discriminate.
Qed.
Lemma walloc r h o l n : wowns h o l -> fits n ->
  v_allocate2 sz r h o n = UB \/
  exists h' o' b, v_allocate2 sz r h o n = Ok (h', o', b) /\ wframe h o h' o' /\ wowns h' o' (sresize l n) /\ (b = false -> n = 0).
Proof.
  intros Wo Hf. unfold v_allocate2. assert (S := proj1 Wo). destruct (Nat.eqb_spec n 0) as [->|Hn].
  { right. destruct (wdealloc h o l Wo) as (h' & b & E & F). exists h', vnull, b. split; auto. split; auto. split; [apply wowns_null|auto]. }
  destruct (Nat.eqb_spec n (vsz o)) as [E|Hne].
  { right. exists h, o, true. split; auto. split; [apply wframe_refl|]. unfold sresize. rewrite E, S, firstn_all, Nat.sub_diag. cbn. rewrite app_nil_r. split; auto. discriminate. }
  assert (Hlr := slen l n).
  destruct (wrealloc r h o l n Wo) as [(E & _)|(_ & h1 & b & cells & E & F & Hb & Hl & Hc)]; auto; [lia|..]; rewrite E; cbn [bind].
  - destruct (Nat.ltb_spec (vsz o) n) as [Hlt|Hge].
    + left. pose proof (null_store h (vsz o) (vsz o) n (fun _ _ => Ok o0) ltac:(lia) ltac:(intros; right; eauto)) as Hu. cbn [bind] in Hu. rewrite Hu. reflexivity.
    + destruct (Nat.eqb_spec (vsz o) 0); [lia|]. cbn [bind]. right. exists h, (mkV None n), true. split; auto.
      split; [split; auto; split; auto; discriminate|]. split; [|discriminate]. split; [cbn; auto|]. discriminate.
  - assert (Hnl : sresize l n <> nil). { intros H. rewrite H in Hlr. cbn in Hlr. lia. }
    assert (Sr : forall i v, i < n -> nth_error l i = Some v -> nth_error (sresize l n) i = Some v).
    { intros i v Hi Hv. unfold sresize. assert (i < length l) by (apply nth_error_Some; congruence). rewrite nth_error_app1 by (rewrite firstn_length; lia).
      rewrite <- (firstn_skipn n l) in Hv. rewrite nth_error_app1 in Hv; auto. rewrite firstn_length. lia. }
    assert (Bd : forall (cs : list (option T)) i v, nth_error cs i = Some (Some v) -> i < length cs) by (intros cs i v Hv; apply nth_error_Some; congruence).
    destruct (Nat.ltb_spec (vsz o) n) as [Hlt|Hge].
    + destruct (wstore_loop h1 b cells (vsz o) n (fun _ _ => Ok o0) (fun _ => o0)) as [E2|(h2 & cells2 & E2 & Q0 & Q1 & Q2 & Q3)]; auto; try lia.
      { cbn [bind] in E2. rewrite E2. auto. }
      cbn [bind] in E2. rewrite E2. cbn [bind]. right. exists h2, (mkV (Some b) n), true. split; [reflexivity|].
      split; [apply (wothers_frame h h1 b); auto|]. split; [|discriminate]. split; [cbn; auto|]. cbn. intros b' [= <-]. split; auto.
      exists cells2. split; auto. split; [lia|]. intros i v Hv. assert (Hi := Bd _ _ _ Hv). rewrite Q3 in Hv by lia.
      destruct (Nat.leb_spec (vsz o) i), (Nat.ltb_spec i n); cbn in Hv; try lia.
      * injection Hv as <-. unfold sresize. rewrite firstn_all2 by lia. rewrite nth_error_app2 by lia. apply nth_error_repeat_lt. lia.
      * apply Sr; auto.
    + destruct (Nat.eqb_spec (vsz o) 0); [lia|]. cbn [bind]. right. exists h1, (mkV (Some b) n), true. split; [reflexivity|]. split; auto. split; [|discriminate].
      split; [cbn; auto|]. cbn. intros b' [= <-]. split; auto. exists cells. split; auto. split; [lia|]. intros i v Hv. apply Sr; [|auto]. rewrite <- Hl. eauto.
Qed.
(** Setting all elements: undefined, or the object reads as the new elements. *)
Lemma wset r h o l n (g : nat -> @heap T -> Res T) l' : wowns h o l -> fits n -> length l' = n ->
  (forall h1 o1 b1, wframe h o h1 o1 -> vptr o1 = Some b1 -> forall i h' v, nth_error l' i = Some v -> others h1 h' b1 -> g i h' = UB \/ g i h' = Ok v) ->
  (forall i h, g i h = UB \/ exists v, g i h = Ok v) ->
  v_set2 sz r h o n g = UB \/ exists h' o', v_set2 sz r h o n g = Ok (h', o') /\ wframe h o h' o' /\ wowns h' o' l'.
Proof.
  intros Wo Hf Hl Hg Hg2. unfold v_set2. destruct (walloc r h o l n Wo Hf) as [->|(h1 & o1 & b & -> & F & (S & Hw) & Hb)]; [auto|]. cbn [bind].
  rewrite slen in S. destruct b.
  - destruct (vptr o1) as [b1|] eqn:P.
    + destruct (Hw b1 eq_refl) as (N & cells & Hb1 & Lc & _). rewrite slen in Lc.
      destruct l' as [|d l'0]; [exfalso; apply N; apply length_zero_iff_nil; rewrite slen; auto|]. set (l' := d :: l'0) in *.
      destruct (wstore_loop h1 b1 cells 0 (vsz o1) g (fun i => nth i l' d)) as [->|(h2 & cells2 & -> & Q0 & Q1 & Q2 & Q3)]; auto; try lia.
      { intros i h' Hi Ho. apply (Hg h1 o1 b1 F P); [apply nth_error_nth'; lia|auto]. }
      cbn [bind]. right. exists h2, o1. split; auto. split; [apply (wothers_frame h h1 b1); auto|]. split; [lia|]. rewrite P. intros b' [= <-].
      split; [discriminate|]. exists cells2. split; auto. split; [lia|]. intros i v Hv. assert (Hi : i < length cells2) by (apply nth_error_Some; congruence).
      rewrite Q3 in Hv by lia. destruct (Nat.leb_spec 0 i), (Nat.ltb_spec i (vsz o1)); cbn [andb] in Hv; try lia. replace v with (nth i l' d) by congruence. apply nth_error_nth'. lia.
    + destruct (Nat.eq_dec (vsz o1) 0) as [E0|E0].
      * rewrite E0. cbn [bind]. right. exists h1, o1. split; [reflexivity|]. split; auto. split; [lia|]. congruence.
      * left. rewrite (null_store h1 0 0 (vsz o1) g) by (auto; lia). reflexivity.
  - right. exists h1, o1. split; auto. split; auto. specialize (Hb eq_refl). destruct l'; [|cbn in Hl; lia]. split; [cbn; lia|].
    intros b1 Hp. destruct (Hw b1 Hp) as (N & _). exfalso. apply N. apply length_zero_iff_nil. rewrite slen. lia.
Qed.
Lemma load_cases h p i : load h p i = UB \/ exists v, load h p i = Ok v.
Proof. unfold load. destruct p; auto. destruct (nth_error h n) as [[cells|]|]; auto. destruct (nth_error cells i) as [[v|]|]; eauto. Qed.
Lemma wload h o l i v : wowns h o l -> nth_error l i = Some v -> load h (vptr o) i = UB \/ load h (vptr o) i = Ok v.
Proof.
  intros (_ & H) Hv. unfold load. destruct (vptr o) as [b|]; auto. destruct (H b eq_refl) as (_ & cells & -> & _ & Hc).
  destruct (nth_error cells i) as [[w|]|] eqn:E; auto. apply Hc in E. right. congruence.
Qed.
Lemma wcopy r h o l o2 l2 : wowns h o l -> wowns h o2 l2 -> fits (length l2) -> (forall b, vptr o = Some b -> vptr o2 <> Some b) ->
  v_assign2 sz r h o o2 = UB \/ exists h' o', v_assign2 sz r h o o2 = Ok (h', o') /\ wframe h o h' o' /\ wowns h' o' l2.
Proof.
  intros Wo W2 Hf Hd. unfold v_assign2. rewrite (proj1 W2). apply (wset r h o l); auto; [|intros; apply load_cases].
  intros h1 o1 b1 (F0 & F1 & F3) P i h' v Hv (_ & Ho). eapply wload; [|exact Hv]. apply (wowns_other h); auto. intros b Hb.
  assert (Hlt := wowns_lt _ _ _ _ W2 Hb). rewrite <- F1; [|auto|intros E; exact (Hd b E Hb)].
  apply Ho. intros ->. destruct (F3 b1 P) as [E|E]; [exact (Hd b1 E Hb)|lia].
Qed.
Lemma W_env s s' e : W s e -> hp s' = hp s -> (forall x, env s' x = env s x) -> W s' e.
Proof.
  intros (H1 & HF & H2) Eh E. split; [|split; auto].
  - intros x. specialize (H1 x). rewrite E, Eh. exact H1.
  - intros x y. rewrite !E. apply H2.
Qed.

(** One legal statement, whatever the allocator answers. *)
Lemma wstep r s e c e' ob : W s e -> sstep e c = Some (e', ob) ->
  vstep2 sz r s c = UB \/ exists s', vstep2 sz r s c = Ok (s', ob) /\ W s' e'.
Proof.
  intros HW Hs. assert (Hcons : forall x l h o', e x = None -> fitsb (length l) = true -> wframe (hp s) vnull h o' -> wowns h o' l ->
    W (mkSt h (bindn (env s) x (Some o'))) (sset e x (Some l))).
  { intros x l h o' Ex Hf F Wo. eapply (W_upd s e x vnull); eauto. { right. split; auto. eapply W_fresh; eauto. } apply fitsb_spec; auto. }
  assert (Hlist : forall x l, e x = None -> fitsb (length l) = true ->
    v_list2 sz r (hp s) l = UB \/ exists h o, v_list2 sz r (hp s) l = Ok (h, o) /\ W (mkSt h (bindn (env s) x (Some o))) (sset e x (Some l))).
  { intros x l Ex Hf. destruct (wset r (hp s) vnull nil (length l) (fun i _ => lget l i) l) as [E|(h & o & E & F & Wo)]; auto using wowns_null.
    - apply fitsb_spec; auto.
    - intros h1 o1 b1 _ _ i h' v Hv _. unfold lget. rewrite Hv. auto.
    - intros i h. unfold lget. destruct (nth_error l i); eauto.
    - right. exists h, o. split; auto. }
  destruct c; cbn [sstep vstep2 vstep] in *; unfold fresh_name.
  - destruct (e x) eqn:Ex; [discriminate|]. cbn in Hs. injection Hs as <- <-. rewrite (W_fresh s e x HW Ex). cbn.
    right. eexists. split; [reflexivity|]. apply Hcons; auto using wframe_refl, wowns_null.
  - destruct (fitsb n) eqn:Hf; [|discriminate]. destruct (e x) eqn:Ex; [discriminate|]. rewrite repeat_length, Hf in Hs. injection Hs as <- <-.
    rewrite (W_fresh s e x HW Ex). cbn [bind]. unfold v_sized2.
    destruct (walloc r (hp s) vnull nil n (wowns_null _)) as [->|(h1 & o1 & b & -> & F & Wo & _)]; [apply fitsb_spec; auto|auto|]. cbn [bind].
    right. eexists. split; [reflexivity|]. rewrite sresize_new in Wo. apply Hcons; auto. rewrite repeat_length. auto.
  - destruct (fitsb n) eqn:Hf; [|discriminate]. destruct (e x) eqn:Ex; [discriminate|]. rewrite repeat_length, Hf in Hs. injection Hs as <- <-.
    rewrite (W_fresh s e x HW Ex). cbn [bind]. unfold v_fill2.
    destruct (wset r (hp s) vnull nil n (fun _ _ => Ok v) (repeat v n)) as [->|(h1 & o1 & -> & F & Wo)]; eauto using wowns_null, repeat_length.
    + apply fitsb_spec; auto.
    + intros h1 o1 b1 _ _ i h' w Hw _. apply nth_error_In, repeat_spec in Hw. subst. auto.
    + cbn [bind]. right. eexists. split; [reflexivity|]. apply Hcons; auto. rewrite repeat_length. auto.
  - destruct (e x) eqn:Ex; [discriminate|]. destruct (fitsb (length l)) eqn:Hf; [|discriminate]. injection Hs as <- <-.
    rewrite (W_fresh s e x HW Ex). cbn [bind]. destruct (Hlist x l) as [->|(h & o & -> & HW')]; auto. cbn [bind]. eauto.
  - destruct (n =? length l); [|discriminate]. destruct (e x) eqn:Ex; [discriminate|]. destruct (fitsb (length l)) eqn:Hf; [|discriminate]. injection Hs as <- <-.
    rewrite (W_fresh s e x HW Ex). cbn [bind]. destruct (Hlist x l) as [->|(h & o & -> & HW')]; auto. cbn [bind]. eauto.
  - destruct (e y) as [l|] eqn:Ey; [|discriminate]. destruct (e x) eqn:Ex; [discriminate|]. destruct (fitsb (length l)) eqn:Hf; [|discriminate]. injection Hs as <- <-.
    rewrite (W_fresh s e x HW Ex). cbn [bind]. destruct (W_look s e y l HW Ey) as (oy & Lk & Eoy & Wy & Hfy). rewrite Lk. cbn [bind].
    change (v_copy2 sz r (hp s) oy) with (v_assign2 sz r (hp s) vnull oy).
    destruct (wcopy r (hp s) vnull nil oy l) as [->|(h1 & o1 & -> & F & W1)]; auto using wowns_null; [discriminate|]. cbn [bind]. eauto.
  - destruct (e x) eqn:Ex; [discriminate|]. destruct (e y) as [l|] eqn:Ey; [|discriminate]. injection Hs as <- <-.
    rewrite (W_fresh s e x HW Ex). cbn [bind]. destruct (W_look s e y l HW Ey) as (oy & Lk & Eoy & Wy & Hfy). rewrite Lk. cbn [bind].
    unfold v_move, v_deallocate. cbn [vsz vnull]. right. eexists. split; [reflexivity|]. apply W_move; auto. congruence.
  - destruct (e x) as [lx|] eqn:Ex; [|discriminate]. destruct (e y) as [l|] eqn:Ey; [|discriminate]. injection Hs as <- <-.
    destruct (W_look s e x lx HW Ex) as (ox & Lkx & Eox & Wx & Hfx).
    destruct (W_look s e y l HW Ey) as (oy & Lk & Eoy & Wy & Hfy). rewrite Lkx, Lk. cbn [bind].
    destruct (Nat.eqb_spec x y) as [<-|Hxy].
    { right. eexists. split; [reflexivity|]. eapply W_ext; eauto. intros z. unfold sset. destruct (Nat.eqb_spec z x) as [->|]; congruence. }
    destruct (wcopy r (hp s) ox lx oy l) as [->|(h1 & o1 & -> & F & W1)]; auto.
    { intros b P1 P2. apply Hxy. eapply HW; eauto. }
    cbn [bind]. right. eexists. split; [reflexivity|]. eapply W_upd; eauto.
  - destruct (e x) as [lx|] eqn:Ex; [|discriminate]. destruct (e y) as [l|] eqn:Ey; [|discriminate]. injection Hs as <- <-.
    destruct (W_look s e x lx HW Ex) as (ox & Lkx & Eox & Wx & Hfx).
    destruct (W_look s e y l HW Ey) as (oy & Lk & Eoy & Wy & Hfy). rewrite Lkx, Lk. cbn [bind].
    destruct (Nat.eqb_spec x y) as [<-|Hxy]. { right. eexists. split; [reflexivity|]. auto. }
    unfold v_move_assign. destruct (wdealloc (hp s) ox lx Wx) as (h1 & b & -> & F). cbn [bind]. right. eexists. split; [reflexivity|].
    assert (HW1 : W (mkSt h1 (bindn (env s) x (Some vnull))) (sset e x (Some nil))).
    { eapply W_upd; eauto using wowns_null, fits_0. }
    pose proof (W_move _ _ x y oy l HW1 Hxy) as HM. cbn [hp env] in HM.
    eapply W_ext; [eapply W_env; [apply HM|reflexivity|]|].
    + unfold bindn. destruct (Nat.eqb_spec y x); congruence.
    + unfold sset. destruct (Nat.eqb_spec y x); congruence.
    + intros z. cbn [env]. unfold bindn. destruct (z =? x); auto.
    + intros z. unfold sset. destruct (z =? x); auto.
  - destruct (e x) as [lx|] eqn:Ex; [|discriminate]. destruct (fitsb n) eqn:Hf; [|discriminate]. injection Hs as <- <-.
    destruct (W_look s e x lx HW Ex) as (ox & Lkx & Eox & Wx & Hfx). rewrite Lkx. cbn [bind]. unfold v_resize2. apply fitsb_spec in Hf.
    destruct (walloc r (hp s) ox lx n Wx Hf) as [->|(h1 & o1 & b & -> & F & Wo & _)]; [auto|]. cbn [bind].
    right. eexists. split; [reflexivity|]. eapply W_upd; eauto. rewrite slen. auto.
  - destruct (e x) as [lx|] eqn:Ex; [|discriminate]. destruct (e y) as [ly|] eqn:Ey; [|discriminate]. injection Hs as <- <-.
    destruct (W_look s e x lx HW Ex) as (ox & Lkx & Eox & Wx & Hfx).
    destruct (W_look s e y ly HW Ey) as (oy & Lk & Eoy & Wy & Hfy). rewrite Lkx, Lk. cbn [bind]. unfold v_resize2. rewrite (proj1 Wy).
    destruct (walloc r (hp s) ox lx (length ly) Wx Hfy) as [->|(h1 & o1 & b & -> & F & Wo & _)]; [auto|]. cbn [bind].
    right. eexists. split; [reflexivity|]. eapply W_upd; eauto. rewrite slen. auto.
  - destruct (e x) as [lx|] eqn:Ex; [|discriminate]. destruct (Nat.ltb_spec i (length lx)) as [Hi|]; [|discriminate]. injection Hs as <- <-.
    destruct (W_look s e x lx HW Ex) as (ox & Lkx & Eox & Wx & Hfx). rewrite Lkx. cbn [bind].
    destruct (vptr ox) as [b|] eqn:P; [|auto]. destruct Wx as (S & Hw). destruct (Hw b P) as (N & cells & Hb & Hl & Hc).
    assert (Hlt : b < length (hp s)) by (apply nth_error_Some; congruence).
    rewrite (store_ok (fun _ _ _ => true) (hp s) b cells) by (auto; lia). cbn [bind]. right. eexists. split; [reflexivity|].
    eapply (W_env (mkSt (upd (hp s) b (Some (upd cells i (Some v)))) (bindn (env s) x (Some ox)))).
    + eapply W_upd; eauto; [| |rewrite upd_length; auto].
      * apply (wothers_frame (hp s) (hp s) b); auto using wframe_refl. split; [apply upd_length|]. intros b' Hb'. apply upd_other. auto.
      * split; [rewrite upd_length; auto|]. intros b' P'. assert (b' = b) by congruence. subst b'.
        split. { intros E. apply (f_equal (@length _)) in E. rewrite upd_length in E. cbn in E. lia. }
        exists (upd cells i (Some v)). rewrite upd_same, !upd_length by auto. split; auto. split; auto. intros k w Hk.
        rewrite upd_nth_error in Hk by lia. rewrite upd_nth_error by lia. destruct (Nat.eqb_spec k i); [congruence|auto].
    + reflexivity.
    + intros z. cbn [env]. unfold bindn. destruct (Nat.eqb_spec z x); congruence.
  - destruct (e x) as [lx|] eqn:Ex; [|discriminate]. destruct (nth_error lx i) as [v|] eqn:Ei; [|discriminate]. injection Hs as <- <-.
    destruct (W_look s e x lx HW Ex) as (ox & Lkx & Eox & Wx & Hfx). rewrite Lkx. cbn [bind].
    destruct (wload _ _ _ _ _ Wx Ei) as [->| ->]; auto. cbn [bind]. eauto.
  - destruct (e x) as [lx|] eqn:Ex; [|discriminate]. injection Hs as <- <-.
    destruct (W_look s e x lx HW Ex) as (ox & Lkx & Eox & Wx & Hfx). rewrite Lkx. cbn [bind]. rewrite (proj1 Wx). eauto.
  - destruct (e x) as [lx|] eqn:Ex; [|discriminate]. injection Hs as <- <-.
    destruct (W_look s e x lx HW Ex) as (ox & Lkx & Eox & Wx & Hfx). rewrite Lkx. cbn [bind].
    destruct (wdealloc (hp s) ox lx Wx) as (h1 & b & -> & F). cbn [bind]. right. eexists. split; [reflexivity|].
    assert (HW1 : W (mkSt h1 (bindn (env s) x (Some vnull))) (sset e x (Some nil))).
    { eapply W_upd; eauto using wowns_null, fits_0. }
    pose proof (W_drop _ _ x HW1) as HM. cbn [hp env] in HM.
    eapply W_ext; [eapply W_env; [apply HM|reflexivity|]|].
    + intros z. cbn [env]. unfold bindn. destruct (z =? x); auto.
    + intros z. unfold sset. destruct (z =? x); auto.
Qed.
Lemma wrun cs : forall s e e' os, W s e -> srun e (map fst cs) = Some (e', os) ->
  vrun2 sz s cs = UB \/ exists s', vrun2 sz s cs = Ok (s', os) /\ W s' e'.
Proof.
  induction cs as [|(c, r) cs IH]; intros s e e' os HW Hs; cbn [srun vrun2 map fst] in *.
  { injection Hs as <- <-. eauto. }
  destruct (sstep e c) as [[e1 ob]|] eqn:E1; [|discriminate]. destruct (srun e1 (map fst cs)) as [[e2 os2]|] eqn:E2; [|discriminate]. injection Hs as <- <-.
  destruct (wstep r s e c e1 ob HW E1) as [->|(s1 & -> & HW1)]; auto. cbn [bind].
  destruct (IH s1 e1 e2 os2 HW1 E2) as [->|(s2 & -> & HW2)]; cbn [bind]; eauto.
Qed.
Lemma vrun2_app cs cs' : forall s, vrun2 sz s (cs ++ cs') =
  let* (s', os) := vrun2 sz s cs in let* (s'', os') := vrun2 sz s' cs' in Ok (s'', os ++ os').
Proof.
  induction cs as [|(c, r) cs IH]; intros s; cbn [vrun2 app].
  { cbn [bind]. destruct (vrun2 sz s cs') as [[? ?]| | | |]; reflexivity. }
  destruct (vstep2 sz r s c) as [[s1 o]| | | |]; cbn [bind]; auto. rewrite IH.
  destruct (vrun2 sz s1 cs) as [[s2 os]| | | |]; cbn [bind]; auto. destruct (vrun2 sz s2 cs') as [[? ?]| | | |]; reflexivity.
Qed.
Lemma srun_app cs cs' : forall e, srun e (cs ++ cs') =
  match srun e cs with Some (e', os) => match srun e' cs' with Some (e'', os') => Some (e'', os ++ os') | None => None end | None => None end.
Proof.
  induction cs as [|c cs IH]; intros e; cbn [srun app]. { destruct (srun e cs') as [[? ?]|]; auto. }
  destruct (sstep e c) as [[e1 o]|]; auto. rewrite IH. destruct (srun e1 cs) as [[e2 os]|]; auto. destruct (srun e2 cs') as [[? ?]|]; auto.
Qed.

(** A block that no object points to stays, whatever the program does. *)
Definition lost s b : Prop := live s b /\ forall x o, env s x = Some o -> vptr o <> Some b.
Definition hlost h o b : Prop := (exists cells, nth_error h b = Some (Some cells)) /\ vptr o <> Some b.
Lemma lost_upd h o b b' (a : option (list (option T))) : hlost h o b -> b' <> b -> hlost (upd h b' a) o b.
Proof. intros ((cells & Hb) & Hp) N. split; auto. exists cells. rewrite upd_other; auto. Qed.
Lemma lost_app h o b a : hlost h o b -> hlost (h ++ a) o b.
Proof. intros ((cells & Hb) & Hp). split; auto. exists cells. rewrite nth_error_app1; auto. apply nth_error_Some. congruence. Qed.
Lemma lost_free h o b h' : hlost h o b -> hfree h (vptr o) = Ok h' -> hlost h' o b.
Proof.
  intros L. unfold hfree. destruct (vptr o) as [b'|] eqn:P; [|intros [= <-]; auto]. destruct (nth_error h b') as [[c|]|]; try discriminate. intros [= <-].
  apply lost_upd; auto. destruct L as (_ & L). congruence.
Qed.
Lemma lost_store h o b p i v h' : hlost h o b -> store h p i v = Ok h' -> hlost h' o b.
Proof.
  intros L. unfold store. destruct p as [b'|]; [|discriminate]. destruct (nth_error h b') as [[c|]|] eqn:E; try discriminate.
  destruct (i <? length c); [|discriminate]. intros [= <-]. destruct (Nat.eq_dec b' b) as [->|N]; [|apply lost_upd; auto].
  destruct L as ((cells & Hb) & Hp). split; auto. eexists. apply upd_same. apply nth_error_Some. congruence.
Qed.
Lemma lost_loop lo hi (g : nat -> @heap T -> Res T) p o b h h' : hlost h o b ->
  for_range lo hi (fun i h => let* x := g i h in store h p i x) h = Ok h' -> hlost h' o b.
Proof.
  intros L. unfold for_range. generalize (hi - lo) as n. intros n. revert lo h L. induction n as [|n IH]; intros lo h L; cbn.
  { intros [= <-]. auto. }
  destruct (g lo h) as [x| | | |]; cbn; try discriminate. destruct (store h p lo x) as [h1| | | |] eqn:E; cbn; try discriminate.
  apply IH. eapply lost_store; eauto.
Qed.
Lemma lost_ptr h o o' b : hlost h o b -> vptr o' <> Some b -> hlost h o' b.
Proof. intros (L & _) N. split; auto. Qed.
Lemma lost_dealloc h o b h' o' r : hlost h o b -> v_deallocate h o = Ok (h', o', r) -> hlost h' o' b.
Proof.
  intros L. unfold v_deallocate. destruct (0 <? vsz o); [|intros [= <- <- <-]; auto].
  destruct (hfree h (vptr o)) as [h1| | | |] eqn:E; cbn [bind]; try discriminate. intros [= <- <- <-]. eapply lost_ptr; [eapply lost_free; eauto|discriminate].
Qed.
Lemma lost_realloc r h o b n h' p : hlost h o b -> hrealloc2 sz r h (vptr o) n = Ok (h', p) -> hlost h' (mkV p n) b.
Proof.
  intros L. assert (Lb : b < length h). { destruct L as ((c & L) & _). apply nth_error_Some. congruence. }
  assert (Ln : forall h1, hlost h1 o b -> hlost h1 (mkV None n) b) by (intros; eapply lost_ptr; eauto; discriminate).
  unfold hrealloc2. destruct (vptr o) as [b'|] eqn:P.
  - assert (Nb : b' <> b) by (destruct L; congruence). destruct (nth_error h b') as [[c|]|]; try discriminate. destruct (bytes sz n =? 0)%N.
    { intros [= <- <-]. apply Ln, lost_upd; auto. }
    destruct r; intros [= <- <-].
    + auto.
    + eapply lost_ptr; [apply lost_upd; eauto|]. cbn. congruence.
    + eapply lost_ptr; [apply lost_app, lost_upd; eauto|]. cbn. intros [= E]. lia.
  - destruct r; intros [= <- <-]; auto; (eapply lost_ptr; [apply lost_app; eauto|]; cbn; intros [= E]; lia).
Qed.
Lemma lost_alloc r h o b n h' o' f : hlost h o b -> v_allocate2 sz r h o n = Ok (h', o', f) -> hlost h' o' b.
Proof.
  intros L. unfold v_allocate2. destruct (n =? 0). { apply lost_dealloc; auto. }
  destruct (n =? vsz o). { intros [= <- <- <-]. auto. }
  destruct (hrealloc2 sz r h (vptr o) n) as [[h1 p]| | | |] eqn:E; cbn [bind]; try discriminate. apply (lost_realloc r h o b) in E; auto.
  assert (Lp : forall lo h2, for_range lo n (fun i h => store h p i o0) h1 = Ok h2 -> hlost h2 (mkV p n) b).
  { intros lo h2 H2. apply (lost_loop lo n (fun _ _ => Ok o0) p (mkV p n) b h1); auto. }
  destruct (vsz o <? n); [|destruct (vsz o =? 0)].
  - destruct (for_range (vsz o) n _ h1) as [h2| | | |] eqn:E2; cbn [bind]; try discriminate. intros [= <- <- <-]. eauto.
  - destruct (for_range 0 n _ h1) as [h2| | | |] eqn:E2; cbn [bind]; try discriminate. intros [= <- <- <-]. eauto.
  - cbn [bind]. intros [= <- <- <-]. auto.
Qed.
Lemma lost_set r h o b n g h' o' : hlost h o b -> v_set2 sz r h o n g = Ok (h', o') -> hlost h' o' b.
Proof.
  intros L. unfold v_set2. destruct (v_allocate2 sz r h o n) as [[[h1 o1] f]| | | |] eqn:E; cbn [bind]; try discriminate.
  apply (lost_alloc r h o b) in E; auto. destruct f; [|intros [= <- <-]; auto].
  destruct (for_range 0 (vsz o1) _ h1) as [h2| | | |] eqn:E2; cbn [bind]; try discriminate. intros [= <- <-]. eapply lost_loop; eauto.
Qed.
Lemma lost_bind s b h' x o' : lost s b -> hlost h' o' b -> lost (mkSt h' (bindn (env s) x (Some o'))) b.
Proof.
  intros (_ & L2) (L & P). split; auto. intros y o. cbn [env]. unfold bindn. destruct (Nat.eqb_spec y x); [intros [= <-]; auto|apply L2].
Qed.
Lemma lost_obj s b x o : lost s b -> look s x = Ok o -> hlost (hp s) o b.
Proof. intros (L & P). unfold look. destruct (env s x) eqn:E; [|discriminate]. intros [= <-]. split; eauto. Qed.
Lemma lost_null s b : lost s b -> hlost (hp s) vnull b.
Proof. intros (L & P). split; auto. discriminate. Qed.
Lemma lost_step r s c s' ob b : lost s b -> vstep2 sz r s c = Ok (s', ob) -> lost s' b.
Proof.
  intros L. assert (L0 := lost_null s b L).
  assert (Hset : forall o n g h' o' x, hlost (hp s) o b -> v_set2 sz r (hp s) o n g = Ok (h', o') -> lost (mkSt h' (bindn (env s) x (Some o'))) b).
  { intros. eapply lost_bind; eauto using lost_set. }
  assert (Hlook : forall x, look s x = UB \/ exists o, look s x = Ok o /\ hlost (hp s) o b).
  { intros x. destruct (look s x) as [o| | | |] eqn:E; unfold look in E; destruct (env s x) eqn:E2; try discriminate; auto. right. exists o. split; auto.
    eapply lost_obj; eauto. unfold look. rewrite E2. auto. }
  destruct c; cbn [vstep2 vstep]; unfold fresh_name;
    try (destruct (env s x) eqn:Ex; [discriminate|]; cbn [bind]); try (destruct (Hlook x) as [->|(ox & Lx & Hx)]; [discriminate|]; rewrite Lx; cbn [bind]);
    try (destruct (Hlook y) as [->|(oy & Ly & Hy)]; [discriminate|]; rewrite Ly; cbn [bind]).
  - intros [= <- <-]. apply lost_bind; auto.
  - unfold v_sized2. destruct (v_allocate2 sz r (hp s) vnull n) as [[[h1 o1] f]| | | |] eqn:E; cbn [bind]; try discriminate. intros [= <- <-].
    apply lost_bind; eauto using lost_alloc.
  - unfold v_fill2. destruct (v_set2 _ _ _ _ _ _) as [[h1 o1]| | | |] eqn:E; cbn [bind]; try discriminate. intros [= <- <-]. eauto.
  - unfold v_list2. destruct (v_set2 _ _ _ _ _ _) as [[h1 o1]| | | |] eqn:E; cbn [bind]; try discriminate. intros [= <- <-]. eauto.
  - destruct (n =? length l); [|discriminate]. unfold v_list2. destruct (v_set2 _ _ _ _ _ _) as [[h1 o1]| | | |] eqn:E; cbn [bind]; try discriminate. intros [= <- <-]. eauto.
  - unfold v_copy2. destruct (v_set2 _ _ _ _ _ _) as [[h1 o1]| | | |] eqn:E; cbn [bind]; try discriminate. intros [= <- <-]. eauto.
  - unfold v_move, v_deallocate. cbn. intros [= <- <-].
    apply (lost_bind (mkSt (hp s) (bindn (env s) y (Some vnull)))); auto. apply lost_bind; auto.
  - destruct (x =? y); [intros [= <- <-]; auto|]. unfold v_assign2.
    destruct (v_set2 _ _ _ _ _ _) as [[h1 o1]| | | |] eqn:E; cbn [bind]; try discriminate. intros [= <- <-]. eauto.
  - destruct (x =? y); [intros [= <- <-]; auto|]. unfold v_move_assign.
    destruct (v_deallocate (hp s) ox) as [[[h1 o1] f]| | | |] eqn:E; cbn [bind]; try discriminate. intros [= <- <-].
    apply (lost_dealloc _ _ b) in E; auto.
    apply (lost_bind (mkSt h1 (bindn (env s) y (Some o1)))); [apply lost_bind; auto|]. eapply lost_ptr; eauto. apply Hy.
  - unfold v_resize2. destruct (v_allocate2 sz r (hp s) ox n) as [[[h1 o1] f]| | | |] eqn:E; cbn [bind]; try discriminate. intros [= <- <-].
    apply lost_bind; eauto using lost_alloc.
  - unfold v_resize2. destruct (v_allocate2 sz r (hp s) ox (vsz oy)) as [[[h1 o1] f]| | | |] eqn:E; cbn [bind]; try discriminate. intros [= <- <-].
    apply lost_bind; eauto using lost_alloc.
  - destruct (store (hp s) (vptr ox) i v) as [h1| | | |] eqn:E; cbn [bind]; try discriminate. intros [= <- <-].
    split; [|apply L]. eapply lost_store in E; eauto. apply E.
  - destruct (load (hp s) (vptr ox) i) as [v| | | |]; cbn [bind]; try discriminate. intros [= <- <-]. auto.
  - intros [= <- <-]. auto.
  - destruct (v_deallocate (hp s) ox) as [[[h1 o1] f]| | | |] eqn:E; cbn [bind]; try discriminate. intros [= <- <-].
    apply (lost_dealloc _ _ b) in E; auto. split; [apply E|]. intros y o. cbn [env]. unfold bindn. destruct (y =? x); [discriminate|apply L].
Qed.
Lemma lost_run cs b : forall s s' os, lost s b -> vrun2 sz s cs = Ok (s', os) -> lost s' b.
Proof.
  induction cs as [|(c, r) cs IH]; intros s s' os L; cbn [vrun2]. { intros [= <- <-]. auto. }
  destruct (vstep2 sz r s c) as [[s1 o]| | | |] eqn:E; cbn [bind]; try discriminate.
  destruct (vrun2 sz s1 cs) as [[s2 os2]| | | |] eqn:E2; cbn [bind]; try discriminate. intros [= <- <-]. eauto using lost_step.
Qed.

(** * When no request is refused, everything is as in C01 and C02 *)
Definition moves (r : reply) : bool := match r with InPlace => true | _ => false end.
Lemma realloc_same r h p n : r <> Refuse -> fits n -> 0 < n -> hrealloc2 sz r h p n = hrealloc (fun _ _ _ => moves r) h p n.
Proof.
  intros Hr Hf Hn. unfold hrealloc2, hrealloc. rewrite (served_fit sz Hsz n Hf), (bytes_pos sz Hsz n Hf Hn).
  apply fitsb_spec in Hf. destruct p as [b|]; [destruct (nth_error h b) as [[c|]|]; auto|]; rewrite Hf; cbn [negb]; destruct r; try congruence; reflexivity.
Qed.
Lemma alloc_same r h o n : r <> Refuse -> fits n -> v_allocate2 sz r h o n = v_allocate (fun _ _ _ => moves r) h o n.
Proof.
  intros Hr Hf. unfold v_allocate2, v_allocate. destruct (Nat.eqb_spec n 0); auto. rewrite realloc_same by (auto; lia). reflexivity.
Qed.
Lemma step_same r s e c e' ob : r <> Refuse -> R s e -> sstep e c = Some (e', ob) -> vstep2 sz r s c = vstep (fun _ _ _ => moves r) s c.
Proof.
  intros Hr HR Hs. destruct c; cbn [sstep vstep2 vstep] in *; try reflexivity.
  - destruct (fitsb n) eqn:Hf; [|discriminate]. apply fitsb_spec in Hf. unfold v_sized2, v_sized. rewrite alloc_same by auto. reflexivity.
  - destruct (fitsb n) eqn:Hf; [|discriminate]. apply fitsb_spec in Hf. unfold v_fill2, v_set2, v_fill. rewrite alloc_same by auto. reflexivity.
  - destruct (e x); [discriminate|]. destruct (fitsb (length l)) eqn:Hf; [|discriminate]. apply fitsb_spec in Hf.
    unfold v_list2, v_set2, v_list. rewrite alloc_same by auto. reflexivity.
  - destruct (n =? length l); [|discriminate]. destruct (e x); [discriminate|]. destruct (fitsb (length l)) eqn:Hf; [|discriminate]. apply fitsb_spec in Hf.
    unfold v_list2, v_set2, v_list. rewrite alloc_same by auto. reflexivity.
  - destruct (e y) as [l|] eqn:Ey; [|discriminate]. destruct (R_look s e y l HR Ey) as (oy & Lk & Eoy & Wy & Hfy). rewrite Lk. destruct (fresh_name s x); cbn [bind]; try reflexivity.
    unfold v_copy2, v_set2, v_copy. rewrite alloc_same by (auto; rewrite (owns_len _ _ _ Wy); auto). reflexivity.
  - destruct (e x) as [lx|] eqn:Ex; [|discriminate]. destruct (e y) as [l|] eqn:Ey; [|discriminate].
    destruct (R_look s e x lx HR Ex) as (ox & Lkx & Eox & Wx & Hfx). rewrite Lkx. cbn [bind].
    destruct (R_look s e y l HR Ey) as (oy & Lk & Eoy & Wy & Hfy). rewrite Lk. cbn [bind].
    unfold v_assign2, v_set2, v_assign. rewrite alloc_same by (auto; rewrite (owns_len _ _ _ Wy); auto). reflexivity.
  - destruct (e x) as [lx|] eqn:Ex; [|discriminate]. destruct (fitsb n) eqn:Hf; [|discriminate]. apply fitsb_spec in Hf.
    destruct (R_look s e x lx HR Ex) as (ox & Lkx & Eox & Wx & Hfx). rewrite Lkx. cbn [bind].
    unfold v_resize2, v_resize. rewrite alloc_same by auto. reflexivity.
  - destruct (e x) as [lx|] eqn:Ex; [|discriminate]. destruct (e y) as [l|] eqn:Ey; [|discriminate].
    destruct (R_look s e x lx HR Ex) as (ox & Lkx & Eox & Wx & Hfx). rewrite Lkx. cbn [bind].
    destruct (R_look s e y l HR Ey) as (oy & Lk & Eoy & Wy & Hfy). rewrite Lk. cbn [bind].
    unfold v_resize2, v_resize. rewrite alloc_same by (auto; rewrite (owns_len _ _ _ Wy); auto). reflexivity.
Qed.
Lemma run_same cs : forall s e e' os, R s e -> (forall c, In c cs -> snd c <> Refuse) -> srun e (map fst cs) = Some (e', os) ->
  exists s', vrun2 sz s cs = Ok (s', os) /\ R s' e'.
Proof.
  induction cs as [|(c, r) cs IH]; intros s e e' os HR Hc Hs; cbn [srun vrun2 map fst] in *. { injection Hs as <- <-. eauto. }
  destruct (sstep e c) as [[e1 ob]|] eqn:E1; [|discriminate]. destruct (srun e1 (map fst cs)) as [[e2 os2]|] eqn:E2; [|discriminate]. injection Hs as <- <-.
  assert (Hr : r <> Refuse) by (apply (Hc (c, r)); cbn; auto).
  rewrite (step_same r s e c e1 ob Hr HR E1). destruct (step_ok (fun _ _ _ => moves r) s e c e1 ob HR E1) as (s1 & -> & HR1). cbn [bind].
  destruct (IH s1 e1 e2 os2 HR1) as (s2 & -> & HR2); auto. { intros c' Hin. apply Hc. cbn; auto. } cbn [bind]. eauto.
Qed.

(** * Growing after a refusal, or beyond 2^64 bytes *)
Lemma short_loop lo hi b cells h : lo < hi -> nth_error h b = Some (Some cells) -> length cells < hi ->
  for_range lo hi (fun i h => store h (Some b) i o0) h = UB.
Proof.
  intros Hl Hb Hc. destruct (for_range_ok_ub_inv (fun k h => (exists cs, nth_error h b = Some (Some cs) /\ length cs = length cells) /\ (k = lo \/ k <= length cells)) lo hi
    (fun i h => store h (Some b) i o0) h) as [E|(h' & E & _ & Q)].
  - lia.
  - split; [eauto|lia].
  - intros i h1 Hi ((cs & H1 & H2) & H3). unfold store. rewrite H1. destruct (Nat.ltb_spec i (length cs)); [|auto]. left. eexists. split; [reflexivity|].
    split; [|lia]. exists (upd cs i (Some o0)). rewrite upd_length. split; auto. apply upd_same. apply nth_error_Some. congruence.
  - exact E.
  - lia.
Qed.
Lemma refused_alloc h o l n : wowns h o l -> fits n -> length l < n -> v_allocate2 sz Refuse h o n = UB.
Proof.
  intros Wo Hf Hl. unfold v_allocate2. assert (S := proj1 Wo). destruct (Nat.eqb_spec n 0); [lia|]. destruct (Nat.eqb_spec n (vsz o)); [lia|].
  destruct (wrealloc Refuse h o l n Wo) as [(E & _)|(E & _)]; auto; [lia| |congruence]. rewrite E. cbn [bind].
  destruct (Nat.ltb_spec (vsz o) n) as [Hlt|Hge]; [|lia].
  pose proof (null_store h (vsz o) (vsz o) n (fun _ _ => Ok o0) ltac:(lia) ltac:(intros; right; eauto)) as Hu. cbn [bind] in Hu. rewrite Hu. reflexivity.
Qed.
Lemma wrapped_alloc r h o l n : wowns h o l -> (2 ^ 64 <= sz * N.of_nat n)%N -> length l < n -> v_allocate2 sz r h o n = UB.
Proof.
  intros Wo Hw Hl. unfold v_allocate2. assert (S := proj1 Wo). destruct (Nat.eqb_spec n 0); [lia|]. destruct (Nat.eqb_spec n (vsz o)); [lia|].
  destruct (Nat.ltb_spec (vsz o) n) as [Hlt|Hge]; [|lia]. assert (Hs := served_small sz Hsz n Hw).
  assert (Hnull : forall h1, for_range (vsz o) n (fun i h => store h None i o0) h1 = UB).
  { intros h1. pose proof (null_store h1 (vsz o) (vsz o) n (fun _ _ => Ok o0) ltac:(lia) ltac:(intros; right; eauto)) as Hu. exact Hu. }
  unfold hrealloc2. destruct (vptr o) as [b|] eqn:P.
  - destruct Wo as (_ & Wo). destruct (Wo b P) as (N & cells & Hb & Hc & _). rewrite Hb. assert (b < length h) by (apply nth_error_Some; congruence).
    set (cs := firstn (served sz n) cells ++ repeat None (served sz n - length cells)).
    assert (Lc : length cs = served sz n). { unfold cs. rewrite app_length, firstn_length, repeat_length. lia. }
    destruct (bytes sz n =? 0)%N; [|destruct r]; cbn [bind]; rewrite ?Hnull; auto.
    + rewrite (short_loop _ _ _ cs) by (auto; try apply upd_same; auto; lia). reflexivity.
    + rewrite (short_loop _ _ _ cs); [reflexivity|auto| |lia]. rewrite nth_error_app2; rewrite upd_length; [|lia]. rewrite Nat.sub_diag. reflexivity.
  - destruct r; cbn [bind]; rewrite ?Hnull; auto;
      (rewrite (short_loop _ _ _ (repeat None (served sz n))); [reflexivity|auto|rewrite nth_error_app2, Nat.sub_diag by auto; reflexivity|rewrite repeat_length; lia]).
Qed.
Lemma run_ub cs e os c r rest : srun (fun _ => None) (map fst cs) = Some (e, os) ->
  (forall s, W s e -> vstep2 sz r s c = UB) -> vrun2 sz vst0 (cs ++ (c, r) :: rest) = UB.
Proof.
  intros Hr Hu. rewrite vrun2_app. destruct (wrun cs vst0 _ e os W_init Hr) as [->|(s & -> & HW)]; [reflexivity|]. cbn [bind vrun2].
  rewrite (Hu s HW). reflexivity.
Qed.
Lemma set_ub r h o n g : v_allocate2 sz r h o n = UB -> v_set2 sz r h o n g = UB.
Proof. intros E. unfold v_set2. rewrite E. reflexivity. Qed.

(** * C120: programs that use Vectors when memory runs out.  [cs] is a program in which each statement comes with
    the allocator's answer to the request it may make; [srun] runs the statements on sequences. *)
(** Whatever the allocator answers, the program is undefined or it observes what it should; it never throws. *)
Theorem C120_values : forall cs e os, srun (fun _ => None) (map fst cs) = Some (e, os) ->
  vrun2 sz vst0 cs = UB \/ exists s, vrun2 sz vst0 cs = Ok (s, os).
Proof. intros cs e os H. destruct (wrun cs vst0 _ e os W_init H) as [->|(s & -> & _)]; eauto. Qed.
(** If no request is refused all is well. *)
Theorem C120_no_refusal : forall cs e os, srun (fun _ => None) (map fst cs) = Some (e, os) -> (forall c, In c cs -> snd c <> Refuse) ->
  exists s, vrun2 sz vst0 cs = Ok (s, os) /\ mem_ok s /\ same_values s e.
Proof.
  intros cs e os H Hc. destruct (run_same cs vst0 _ e os R_init Hc H) as (s & E & HR). exists s. split; auto. split; [apply (R_mem (fun _ _ _ => true) s e HR)|eapply R_values; eauto].
Qed.
(** A refused request to grow is undefined behaviour: no exception tells the program. *)
Theorem C120_refused_growth : forall cs e os c e' ob a b rest, srun (fun _ => None) (map fst cs) = Some (e, os) ->
  sstep e c = Some (e', ob) -> wants e c = Some (a, b) -> a < b -> vrun2 sz vst0 (cs ++ (c, Refuse) :: rest) = UB.
Proof.
  intros cs e os c e' ob a b rest Hr Hs Hw Hab. eapply run_ub; eauto. intros s HW. clear Hr.
  assert (H0 : forall n, fitsb n = true -> 0 < n -> v_allocate2 sz Refuse (hp s) vnull n = UB).
  { intros n Hf Hn. apply (refused_alloc _ _ nil); auto using wowns_null. apply fitsb_spec; auto. }
  destruct c; cbn [sstep vstep2 wants] in *; try discriminate; unfold fresh_name.
  - destruct (fitsb n) eqn:Hf; [|discriminate]. destruct (e x) eqn:Ex; [discriminate|]. injection Hw as <- <-. rewrite (W_fresh s e x HW Ex). cbn [bind].
    unfold v_sized2. rewrite H0 by auto. reflexivity.
  - destruct (fitsb n) eqn:Hf; [|discriminate]. destruct (e x) eqn:Ex; [discriminate|]. injection Hw as <- <-. rewrite (W_fresh s e x HW Ex). cbn [bind].
    unfold v_fill2. rewrite set_ub by auto. reflexivity.
  - destruct (e x) eqn:Ex; [discriminate|]. destruct (fitsb (length l)) eqn:Hf; [|discriminate]. injection Hw as <- <-. rewrite (W_fresh s e x HW Ex). cbn [bind].
    unfold v_list2. rewrite set_ub by auto. reflexivity.
  - destruct (n =? length l); [|discriminate]. destruct (e x) eqn:Ex; [discriminate|]. destruct (fitsb (length l)) eqn:Hf; [|discriminate].
    injection Hw as <- <-. rewrite (W_fresh s e x HW Ex). cbn [bind]. unfold v_list2. rewrite set_ub by auto. reflexivity.
  - destruct (e y) as [l|] eqn:Ey; [|discriminate]. destruct (e x) eqn:Ex; [discriminate|]. destruct (fitsb (length l)) eqn:Hf; [|discriminate].
    injection Hw as <- <-. rewrite (W_fresh s e x HW Ex). cbn [bind]. destruct (W_look s e y l HW Ey) as (oy & Lk & Eoy & Wy & Hfy). rewrite Lk. cbn [bind].
    unfold v_copy2. rewrite set_ub; [reflexivity|]. rewrite (proj1 Wy). auto.
  - destruct (e x) as [lx|] eqn:Ex; [|discriminate]. destruct (e y) as [l|] eqn:Ey; [|discriminate]. injection Hw as <- <-.
    destruct (W_look s e x lx HW Ex) as (ox & Lkx & Eox & Wx & Hfx).
    destruct (W_look s e y l HW Ey) as (oy & Lk & Eoy & Wy & Hfy). rewrite Lkx, Lk. cbn [bind].
    destruct (Nat.eqb_spec x y) as [<-|Hxy]. { assert (lx = l) by congruence. subst. lia. }
    unfold v_assign2. rewrite set_ub; [reflexivity|]. rewrite (proj1 Wy). eapply refused_alloc; eauto.
  - destruct (e x) as [lx|] eqn:Ex; [|discriminate]. destruct (fitsb n) eqn:Hf; [|discriminate]. apply fitsb_spec in Hf. injection Hw as <- <-.
    destruct (W_look s e x lx HW Ex) as (ox & Lkx & Eox & Wx & Hfx). rewrite Lkx. cbn [bind].
    unfold v_resize2. rewrite (refused_alloc _ _ lx) by auto. reflexivity.
  - destruct (e x) as [lx|] eqn:Ex; [|discriminate]. destruct (e y) as [l|] eqn:Ey; [|discriminate]. injection Hw as <- <-.
    destruct (W_look s e x lx HW Ex) as (ox & Lkx & Eox & Wx & Hfx).
    destruct (W_look s e y l HW Ey) as (oy & Lk & Eoy & Wy & Hfy). rewrite Lkx, Lk. cbn [bind].
    unfold v_resize2. rewrite (proj1 Wy). rewrite (refused_alloc _ _ lx) by auto. reflexivity.
Qed.
(** So is a refused request in an assignment from a shorter Vector. *)
Lemma refused_shrink_alloc h o l n : wowns h o l -> fits n -> 0 < n < length l -> v_allocate2 sz Refuse h o n = Ok (h, mkV None n, true).
Proof.
  intros Wo Hf Hn. unfold v_allocate2. assert (S := proj1 Wo). destruct (Nat.eqb_spec n 0); [lia|]. destruct (Nat.eqb_spec n (vsz o)); [lia|].
  destruct (wrealloc Refuse h o l n Wo) as [(E & _)|(E & _)]; auto; [lia| |congruence]. rewrite E. cbn [bind].
  destruct (Nat.ltb_spec (vsz o) n) as [Hlt|Hge]; [lia|]. destruct (Nat.eqb_spec (vsz o) 0); [lia|]. reflexivity.
Qed.
Theorem C120_refused_assign : forall cs e os x y lx ly rest, srun (fun _ => None) (map fst cs) = Some (e, os) ->
  e x = Some lx -> e y = Some ly -> length lx <> length ly -> ly <> nil -> vrun2 sz vst0 (cs ++ (Assign x y, Refuse) :: rest) = UB.
Proof.
  intros cs e os x y lx ly rest Hr Ex Ey Hl Hn. destruct (Nat.lt_ge_cases (length lx) (length ly)) as [Hlt|Hge].
  { eapply C120_refused_growth; eauto; cbn; rewrite Ex, Ey; reflexivity. }
  eapply run_ub; eauto. intros s HW. cbn [vstep2].
  destruct (W_look s e x lx HW Ex) as (ox & Lkx & Eox & Wx & Hfx).
  destruct (W_look s e y ly HW Ey) as (oy & Lk & Eoy & Wy & Hfy). rewrite Lkx, Lk. cbn [bind].
  destruct (Nat.eqb_spec x y) as [<-|Hxy]; [congruence|]. assert (0 < length ly) by (destruct ly; [congruence|cbn; lia]).
  unfold v_assign2, v_set2. rewrite (proj1 Wy), (refused_shrink_alloc _ _ lx) by (auto; lia). cbn [bind vsz vptr].
  rewrite (null_store (hp s) 0 0 (length ly) (fun i h => load h (vptr oy) i)); [reflexivity|lia|intros; apply load_cases].
Qed.
(** A refused request to shrink goes unnoticed: the Vector reports the new size, but every access to it and every
    copy of it is undefined. *)
Theorem C120_refused_shrink : forall cs e os s x l n, srun (fun _ => None) (map fst cs) = Some (e, os) -> vrun2 sz vst0 cs = Ok (s, os) ->
  e x = Some l -> 0 < n < length l ->
  exists s', vstep2 sz Refuse s (Resize x n) = Ok (s', Nothing) /\
    (forall r, vstep2 sz r s' (Size x) = Ok (s', Len n)) /\
    (forall r i, vstep2 sz r s' (Read x i) = UB) /\ (forall r i v, vstep2 sz r s' (Write x i v) = UB) /\
    (forall r y, vstep2 sz r s' (Copy y x) = UB).
Proof.
  intros cs e os s x l n Hr Hrun Ex Hn. destruct (wrun cs vst0 _ e os W_init Hr) as [E|(s0 & E & HW)]; [congruence|].
  assert (s0 = s) by congruence. subst s0. destruct (W_look s e x l HW Ex) as (ox & Lkx & Eox & Wx & Hfx).
  assert (Hf : fits n) by (unfold fits in *; lia).
  exists (mkSt (hp s) (bindn (env s) x (Some (mkV None n)))).
  assert (Lk : look (mkSt (hp s) (bindn (env s) x (Some (mkV None n)))) x = Ok (mkV None n)). { unfold look, bindn. cbn. rewrite Nat.eqb_refl. auto. }
  split; [|split; [|split; [|split]]]; intros; cbn [vstep2 vstep].
  - rewrite Lkx. cbn [bind]. unfold v_resize2. rewrite (refused_shrink_alloc _ _ l) by auto. reflexivity.
  - rewrite Lk. reflexivity.
  - rewrite Lk. reflexivity.
  - rewrite Lk. reflexivity.
  - rewrite Lk. unfold fresh_name. destruct (env _ y); [reflexivity|]. cbn [bind hp]. unfold v_copy2, v_set2. cbn [vsz vptr].
    destruct (walloc r (hp s) vnull nil n (wowns_null _) Hf) as [->|(h1 & o1 & f & -> & F & Wo & Hfl)]; [reflexivity|]. cbn [bind].
    destruct f; [|lia]. rewrite (proj1 Wo), slen, for_range_first by lia. reflexivity.
Qed.
(** And its old block is lost: it stays allocated whatever the program does afterwards. *)
Theorem C120_leak : forall cs e os x l n, srun (fun _ => None) (map fst cs) = Some (e, os) -> (forall c, In c cs -> snd c <> Refuse) ->
  e x = Some l -> 0 < n < length l ->
  exists b, forall rest s os', vrun2 sz vst0 (cs ++ (Resize x n, Refuse) :: rest) = Ok (s, os') ->
    live s b /\ forall y o, env s y = Some o -> vptr o <> Some b.
Proof.
  intros cs e os x l n Hr Hc Ex Hn. destruct (run_same cs vst0 _ e os R_init Hc Hr) as (s & E & HR).
  destruct (R_look s e x l HR Ex) as (ox & Lkx & Eox & Wx & Hfx). assert (Hf : fits n) by (unfold fits in *; lia).
  destruct Wx as [(_ & _ & ->)|(b & P & S & N & Hb)]; [cbn in Hn; lia|]. exists b. intros rest s2 os2. rewrite vrun2_app, E. cbn [bind vrun2].
  assert (Wx : wowns (hp s) ox l).
  { split; auto. intros b' P'. assert (b' = b) by congruence. subst b'. split; auto. exists (map Some l). rewrite map_length. split; auto. split; auto.
    intros i v. rewrite nth_error_map. destruct (nth_error l i); cbn; congruence. }
  cbn [vstep2]. rewrite Lkx. cbn [bind]. unfold v_resize2. rewrite (refused_shrink_alloc _ _ l) by auto. cbn [bind].
  set (s1 := mkSt (hp s) (bindn (env s) x (Some (mkV None n)))). destruct (vrun2 sz s1 rest) as [[s3 os3]| | | |] eqn:E3; cbn [bind]; try discriminate.
  intros [= <- <-]. eapply (lost_run rest b s1); eauto. split; [exists (map Some l); exact Hb|]. intros y o. cbn [s1 env]. unfold bindn.
  destruct (Nat.eqb_spec y x) as [->|Hy]; [intros [= <-]; discriminate|]. intros Ey Py. apply Hy. destruct HR as (_ & _ & H2 & _). eapply H2; eauto.
Qed.
(** A Vector larger than what size_t bytes can hold: the product wraps around, the block served is too small, and
    the constructor or resize writes past its end. *)
Theorem C120_wraps : forall cs e os x n r rest, srun (fun _ => None) (map fst cs) = Some (e, os) -> (2 ^ 64 <= sz * N.of_nat n)%N ->
  (e x = None -> vrun2 sz vst0 (cs ++ (Sized x n, r) :: rest) = UB /\ forall v, vrun2 sz vst0 (cs ++ (Fill x n v, r) :: rest) = UB) /\
  (forall l, e x = Some l -> length l < n -> vrun2 sz vst0 (cs ++ (Resize x n, r) :: rest) = UB).
Proof.
  intros cs e os x n r rest Hr Hw.
  assert (Hn : 0 < n). { destruct n; [|lia]. exfalso. cbn in Hw. rewrite N.mul_0_r in Hw. apply (N.lt_irrefl 0). eapply N.lt_le_trans; [|exact Hw]. reflexivity. }
  split; [intros Ex; split; [|intros v]|intros l Ex Hl]; eapply run_ub; eauto; intros s HW; cbn [vstep2]; unfold fresh_name.
  - rewrite (W_fresh s e x HW Ex). cbn [bind]. unfold v_sized2. rewrite (wrapped_alloc r _ _ nil) by (auto using wowns_null). reflexivity.
  - rewrite (W_fresh s e x HW Ex). cbn [bind]. unfold v_fill2. rewrite set_ub; [reflexivity|]. apply (wrapped_alloc r _ _ nil); auto using wowns_null.
  - destruct (W_look s e x l HW Ex) as (ox & Lkx & Eox & Wx & Hfx). rewrite Lkx. cbn [bind]. unfold v_resize2. rewrite (wrapped_alloc r _ _ l) by auto. reflexivity.
Qed.
(** No request is made, so no answer matters, when the number of elements does not change or becomes 0. *)
Theorem C120_not_asked : forall cs e os s c a b r r', srun (fun _ => None) (map fst cs) = Some (e, os) -> vrun2 sz vst0 cs = Ok (s, os) ->
  wants e c = Some (a, b) -> a = b \/ b = 0 -> vstep2 sz r s c = vstep2 sz r' s c.
Proof.
  intros cs e os s c a b r r' Hr Hrun Hw Hab. destruct (wrun cs vst0 _ e os W_init Hr) as [E|(s0 & E & HW)]; [congruence|].
  assert (s0 = s) by congruence. subst s0.
  assert (HA : forall o n, vsz o = n \/ n = 0 -> v_allocate2 sz r (hp s) o n = v_allocate2 sz r' (hp s) o n).
  { intros o n H. unfold v_allocate2. destruct (Nat.eqb_spec n 0); auto. destruct (Nat.eqb_spec n (vsz o)); auto. lia. }
  assert (HS : forall o n g, vsz o = n \/ n = 0 -> v_set2 sz r (hp s) o n g = v_set2 sz r' (hp s) o n g).
  { intros o n g H. unfold v_set2. rewrite (HA o n H). reflexivity. }
  assert (Hlook : forall y l, e y = Some l -> exists o, look s y = Ok o /\ vsz o = length l).
  { intros y l Ey. destruct (W_look s e y l HW Ey) as (o & Lk & _ & Wo & _). exists o. split; auto. apply Wo. }
  destruct c; cbn [vstep2 wants] in *; try discriminate.
  - injection Hw as <- <-. unfold v_sized2. rewrite HA by (cbn; lia). reflexivity.
  - injection Hw as <- <-. unfold v_fill2. rewrite HS by (cbn; lia). reflexivity.
  - injection Hw as <- <-. unfold v_list2. rewrite HS by (cbn; lia). reflexivity.
  - injection Hw as <- <-. unfold v_list2. rewrite HS by (cbn; lia). reflexivity.
  - destruct (e y) as [l|] eqn:Ey; [|discriminate]. injection Hw as <- <-. destruct (Hlook y l Ey) as (oy & -> & Sy). destruct (fresh_name s x); cbn [bind]; auto.
    unfold v_copy2. rewrite HS by (cbn; lia). reflexivity.
  - destruct (e x) as [lx|] eqn:Ex; [|discriminate]. destruct (e y) as [l|] eqn:Ey; [|discriminate]. injection Hw as <- <-.
    destruct (Hlook x lx Ex) as (ox & -> & Sx). destruct (Hlook y l Ey) as (oy & -> & Sy). cbn [bind]. unfold v_assign2. rewrite HS by lia. reflexivity.
  - destruct (e x) as [lx|] eqn:Ex; [|discriminate]. injection Hw as <- <-. destruct (Hlook x lx Ex) as (ox & -> & Sx). cbn [bind].
    unfold v_resize2. rewrite HA by lia. reflexivity.
  - destruct (e x) as [lx|] eqn:Ex; [|discriminate]. destruct (e y) as [l|] eqn:Ey; [|discriminate]. injection Hw as <- <-.
    destruct (Hlook x lx Ex) as (ox & -> & Sx). destruct (Hlook y l Ey) as (oy & -> & Sy). cbn [bind]. unfold v_resize2. rewrite HA by lia. reflexivity.
Qed.
End Proofs.

(** * Examples, on integers of 8 bytes *)
From Verif Require Import Scalar.
Definition ex_oom : list (@vop Z * reply) :=
  [(FromList 0 [1%Z; 2%Z; 3%Z], Elsewhere); (Copy 1 0, InPlace); (Resize 1 5, Elsewhere); (Read 1 1, Refuse); (Size 1, Refuse)].
Example ex_oom_legal : option_map snd (srun (fun _ => None) (map fst ex_oom)) = Some [Nothing; Nothing; Nothing; Value 2%Z; Len 5].
Proof. vm_compute. reflexivity. Qed.
Example ex_oom_run : match vrun2 8 vst0 ex_oom with Ok (_, os) => os = [Nothing; Nothing; Nothing; Value 2%Z; Len 5] | _ => False end.
Proof. vm_compute. reflexivity. Qed.
(** Growing with a refusal; shrinking with one and reading; shrinking with one and destroying leaves the block 0. *)
Example ex_oom_grow : vrun2 8 vst0 (ex_oom ++ [(Resize 0 4, Refuse)]) = UB.
Proof. vm_compute. reflexivity. Qed.
Example ex_oom_shrink : match vrun2 8 vst0 (ex_oom ++ [(Resize 0 2, Refuse); (Size 0, Refuse); (Destroy 0, Refuse); (Destroy 1, Refuse)]) with
  | Ok (s, os) => skipn 5 os = [Nothing; Len 2; Nothing; Nothing] /\ env s 0 = None /\ env s 1 = None /\ hp s = [Some [Some 1%Z; Some 2%Z; Some 3%Z]; None; None]
  | _ => False end /\ vrun2 8 vst0 (ex_oom ++ [(Resize 0 2, Refuse); (Read 0 0, Refuse)]) = UB.
Proof. vm_compute. auto. Qed.
(** 2^61 + 1 elements of 8 bytes ask for 8 bytes. *)
Example ex_oom_wrap : (2 ^ 64 <= 8 * (2 ^ 61 + 1))%N /\ ((8 * (2 ^ 61 + 1)) mod 2 ^ 64 = 8)%N.
Proof. vm_compute. split; [discriminate|reflexivity]. Qed.
