(** PropHeap.v: memory safety and value semantics of Vector (C01, C02). *)
From Verif Require Import VecHeap MatFacts BaseFacts.
Arguments Nat.ltb : simpl never.
Arguments Nat.leb : simpl never.
Arguments Nat.eqb : simpl never.

(** * Specification: Vectors as independent mathematical sequences *)
Section Spec.
Context {T : Type} {O : Ops T}.
Definition seqs := nat -> option (list T).
Definition sset (e : seqs) (x : nat) (a : option (list T)) : seqs := fun y => if y =? x then a else e y.
(** [resize]: keep the common prefix, new elements are zero. *)
Definition sresize (l : list T) (n : nat) : list T := firstn n l ++ repeat o0 (n - length l).
(** The same statement on sequences; [None] when the statement is not legal C++ or
    breaks a precondition: a name used before its construction or constructed twice,
    an index out of range, a size the allocator cannot serve, a wrong initializer
    list length. *)
Definition sstep (e : seqs) (c : vop) : option (seqs * @obs T) :=
  let cons x l := match e x with
                  | None => if fitsb (length l) then Some (sset e x (Some l), Nothing) else None
                  | Some _ => None end in
  match c with
  | New x => cons x nil
  | Sized x n => if fitsb n then cons x (repeat o0 n) else None
  | Fill x n v => if fitsb n then cons x (repeat v n) else None
  | FromList x l => cons x l
  | FromListN x n l => if n =? length l then cons x l else None
  | Copy x y => match e y with Some l => cons x l | None => None end
  | Move x y => match e x, e y with
                | None, Some l => Some (sset (sset e y (Some nil)) x (Some l), Nothing)
                | _, _ => None end
  | Assign x y => match e x, e y with Some _, Some l => Some (sset e x (Some l), Nothing) | _, _ => None end
  | MoveAssign x y => match e x, e y with
                      | Some _, Some l => Some (if x =? y then e else sset (sset e y (Some nil)) x (Some l), Nothing)
                      | _, _ => None end
  | Resize x n => match e x with
                  | Some l => if fitsb n then Some (sset e x (Some (sresize l n)), Nothing) else None
                  | None => None end
  | ResizeAs x y => match e x, e y with
                    | Some l, Some l' => Some (sset e x (Some (sresize l (length l'))), Nothing)
                    | _, _ => None end
  | Write x i v => match e x with
                   | Some l => if i <? length l then Some (sset e x (Some (upd l i v)), Nothing) else None
                   | None => None end
  | Read x i => match e x with
                | Some l => match nth_error l i with Some v => Some (e, Value v) | None => None end
                | None => None end
  | Size x => match e x with Some l => Some (e, Len (length l)) | None => None end
  | Destroy x => match e x with Some _ => Some (sset e x None, Nothing) | None => None end
  end.
Fixpoint srun (e : seqs) (cs : list vop) : option (seqs * list (@obs T)) :=
  match cs with
  | nil => Some (e, nil)
  | c :: cs => match sstep e c with
               | Some (e, o) => match srun e cs with Some (e, os) => Some (e, o :: os) | None => None end
               | None => None end
  end.

(** Block [b] is allocated. *)
Definition live (s : @vst T) (b : nat) : Prop := exists cells, nth_error (hp s) b = Some (Some cells).
(** Memory is in order: every non-empty Vector owns one live block of exactly its
    size, no two Vectors own the same block, every live block is owned. *)
Definition mem_ok (s : @vst T) : Prop :=
  (forall x o, env s x = Some o ->
     (vsz o = 0 /\ vptr o = None) \/
     (0 < vsz o /\ exists b cells, vptr o = Some b /\ nth_error (hp s) b = Some (Some cells) /\ length cells = vsz o)) /\
  (forall x y ox oy b, env s x = Some ox -> env s y = Some oy -> vptr ox = Some b -> vptr oy = Some b -> x = y) /\
  (forall b, live s b -> exists x o, env s x = Some o /\ vptr o = Some b).
(** The program reads Vector [x] as the sequence [l]. *)
Definition reads_as (s : @vst T) (x : nat) (l : list T) : Prop :=
  exists o, env s x = Some o /\ vsz o = length l /\ forall i v, nth_error l i = Some v -> load (hp s) (vptr o) i = Ok v.
Definition same_values (s : @vst T) (e : seqs) : Prop :=
  forall x, match e x with Some l => reads_as s x l | None => env s x = None end.
End Spec.

(** * Proofs *)
Section Proofs.
Context {T : Type} {O : Ops T} (ip : @heap T -> nat -> nat -> bool).
Implicit Types (h : @heap T) (o : vobj) (l : list T).

(** [o] holds the sequence [l] in [h]. *)
Definition owns h o l : Prop :=
  (vptr o = None /\ vsz o = 0 /\ l = nil) \/
  (exists b, vptr o = Some b /\ vsz o = length l /\ l <> nil /\ nth_error h b = Some (Some (map Some l))).
(** [h'] results from an operation on [o] that became [o']. *)
Definition frame h o h' o' : Prop :=
  length h <= length h' /\
  (forall b, b < length h -> vptr o <> Some b -> nth_error h' b = nth_error h b) /\
  (forall b cells, nth_error h' b = Some (Some cells) -> vptr o' = Some b \/ (b < length h /\ vptr o <> Some b)) /\
  (forall b, vptr o' = Some b -> vptr o = Some b \/ length h <= b).
Definition R (s : @vst T) (e : @seqs T) : Prop :=
  (forall x, match e x with Some l => exists o, env s x = Some o /\ owns (hp s) o l | None => env s x = None end) /\
  (forall x l, e x = Some l -> fits (length l)) /\
  (forall x y ox oy b, env s x = Some ox -> env s y = Some oy -> vptr ox = Some b -> vptr oy = Some b -> x = y) /\
  (forall b, live s b -> exists x o, env s x = Some o /\ vptr o = Some b).

Lemma owns_len h o l : owns h o l -> vsz o = length l.
Proof. intros [(_ & -> & ->)|(b & _ & -> & _)]; reflexivity. Qed.
Lemma owns_load h o l i v : owns h o l -> nth_error l i = Some v -> load h (vptr o) i = Ok v.
Proof.
  intros [(_ & _ & ->)|(b & E & _ & _ & Hb)] Hi. { destruct i; discriminate. }
  unfold load. rewrite E, Hb, nth_error_map, Hi. reflexivity.
Qed.
Lemma owns_lt h o l b : owns h o l -> vptr o = Some b -> b < length h.
Proof.
  intros [(E & _)|(b' & E & _ & _ & Hb)] E'; [congruence|]. assert (b' = b) by congruence. subst b'.
  apply nth_error_Some. congruence.
Qed.
Lemma R_mem s e : R s e -> mem_ok s.
Proof.
  intros (H1 & _ & H2 & H3). split; [|split; auto]. intros x o Ho. specialize (H1 x). destruct (e x) as [l|]; [|congruence].
  destruct H1 as (o' & Ho' & Hw). assert (o' = o) by congruence. subst o'.
  destruct Hw as [(A & B & _)|(b & A & B & C & D)]; [left; auto|right].
  split. { rewrite B. destruct l; [congruence|cbn; lia]. }
  exists b, (map Some l). rewrite map_length. auto.
Qed.
Lemma R_values s e : R s e -> same_values s e.
Proof.
  intros (H1 & _) x. specialize (H1 x). destruct (e x) as [l|]; auto. destruct H1 as (o & Ho & Hw).
  exists o. split; auto. split; [eapply owns_len; eauto|]. intros i v Hi. eapply owns_load; eauto.
Qed.
Lemma R_init : R vst0 (fun _ => None).
Proof.
  split; [intros x; reflexivity|]. split; [discriminate|]. split; [discriminate|].
  intros b (cells & H). destruct b; discriminate.
Qed.

(** One object changes (or is constructed: [env s x = None] and [o = vnull]). *)
Lemma R_upd s e x o l h' o' l' : R s e ->
  (env s x = Some o /\ e x = Some l /\ owns (hp s) o l) \/ (env s x = None /\ e x = None /\ o = vnull) ->
  frame (hp s) o h' o' -> owns h' o' l' -> fits (length l') ->
  R (mkSt h' (bindn (env s) x (Some o'))) (sset e x (Some l')).
Proof.
  intros (H1 & HF & H2 & H3) Hx (F0 & F1 & F2 & F3) Hw Hfit. unfold R, bindn, sset, live. cbn [hp env].
  (* another object does not point to x's old or new block *)
  assert (Hoth : forall y oy b, y <> x -> env s y = Some oy -> vptr oy = Some b -> vptr o <> Some b /\ b < length (hp s)).
  { intros y oy b Hy Hey Hb. split.
    - intros Ho. destruct Hx as [(Ex & _)|(Ex & _ & ->)]; [|discriminate]. apply Hy. eapply H2; eauto.
    - specialize (H1 y). rewrite Hey in H1. destruct (e y) as [ly|]; [|discriminate]. destruct H1 as (oy' & E & W).
      assert (oy' = oy) by congruence. subst. eapply owns_lt; eauto. }
  split; [|split; [|split]].
  - intros y. destruct (Nat.eqb_spec y x) as [->|Hy]. { exists o'. auto. }
    specialize (H1 y). destruct (e y) as [ly|]; auto. destruct H1 as (oy & E & W). exists oy. split; auto.
    destruct W as [W|(b & W1 & W2 & W3 & W4)]; [left; auto|right]. exists b. repeat split; auto.
    destruct (Hoth y oy b Hy E W1). rewrite F1; auto.
  - intros y ly. destruct (Nat.eqb_spec y x) as [->|Hy]; [|apply HF]. intros [= <-]. auto.
  - intros y z oy oz b. destruct (Nat.eqb_spec y x) as [->|Hy]; destruct (Nat.eqb_spec z x) as [->|Hz]; auto.
    + intros [= <-] Ez Py Pz. destruct (Hoth z oz b Hz Ez Pz) as (A & B). destruct (F3 b Py); [congruence|lia].
    + intros Ey [= <-] Py Pz. destruct (Hoth y oy b Hy Ey Py) as (A & B). destruct (F3 b Pz); [congruence|lia].
    + apply H2.
  - intros b (cells & Hb). destruct (F2 b cells Hb) as [Hp|(Hlt & Hne)].
    + exists x, o'. rewrite Nat.eqb_refl. auto.
    + rewrite F1 in Hb by auto. destruct (H3 b) as (y & oy & Ey & Py); [exists cells; auto|].
      exists y, oy. destruct (Nat.eqb_spec y x) as [->|Hy]; auto. exfalso.
      destruct Hx as [(Ex & _)|(Ex & _)]; congruence.
Qed.
(** Two objects exchange: [x] gets what [y] had, [y] becomes null; [x]'s block was
    released before ([x] is null or unborn). *)
Lemma R_move s e x y oy l : R s e -> x <> y -> (e x = None \/ e x = Some nil) -> env s y = Some oy -> e y = Some l ->
  R (mkSt (hp s) (bindn (bindn (env s) y (Some vnull)) x (Some oy))) (sset (sset e y (Some nil)) x (Some l)).
Proof.
  intros (H1 & HF & H2 & H3) Hxy Hx Hy Hl. unfold R, bindn, sset, live. cbn [hp env].
  assert (Hxp : forall ox, env s x = Some ox -> vptr ox = None).
  { intros ox Ex. specialize (H1 x). destruct Hx as [Hx|Hx]; rewrite Hx in H1; [congruence|].
    destruct H1 as (o' & E & W). assert (o' = ox) by congruence. subst.
    destruct W as [(W & _)|(b & _ & _ & W & _)]; congruence. }
  split; [|split; [|split]].
  - intros z. destruct (Nat.eqb_spec z x) as [->|Hz].
    { exists oy. split; auto. specialize (H1 y). rewrite Hl in H1. destruct H1 as (o' & E & W). congruence. }
    destruct (Nat.eqb_spec z y) as [->|Hz']; [|apply H1]. exists vnull. split; auto. left. auto.
  - intros z lz. destruct (Nat.eqb_spec z x) as [->|Hz]. { intros [= <-]. eapply HF; eauto. }
    destruct (Nat.eqb_spec z y) as [->|Hz']; [|apply HF]. intros [= <-]. apply fits_0.
  - intros z w oz ow b. destruct (Nat.eqb_spec z x) as [->|Hz]; destruct (Nat.eqb_spec w x) as [->|Hw]; auto.
    + intros [= <-]. destruct (Nat.eqb_spec w y) as [->|Hw']; [intros [= <-]; discriminate|].
      intros Ew P1 P2. exfalso. apply Hw'. eapply H2; eauto.
    + destruct (Nat.eqb_spec z y) as [->|Hz']; [intros [= <-]; discriminate|].
      intros Ez [= <-] P1 P2. exfalso. apply Hz'. eapply H2; eauto.
    + destruct (Nat.eqb_spec z y) as [->|Hz']; [intros [= <-]; discriminate|].
      destruct (Nat.eqb_spec w y) as [->|Hw']; [intros ? [= <-]; discriminate|]. apply H2.
  - intros b Hb. destruct (H3 b Hb) as (z & oz & Ez & Pz). destruct (Nat.eq_dec z y) as [->|Hz].
    + exists x, oy. rewrite Nat.eqb_refl. split; congruence.
    + exists z, oz. destruct (Nat.eqb_spec z x) as [->|Hz']. { rewrite (Hxp oz Ez) in Pz. discriminate. }
      destruct (Nat.eqb_spec z y); [congruence|auto].
Qed.
(** An object disappears. *)
Lemma R_drop s e x o h' : R s e -> env s x = Some o ->
  frame (hp s) o h' vnull -> R (mkSt h' (bindn (env s) x None)) (sset e x None).
Proof.
  intros (H1 & HF & H2 & H3) Ex (F0 & F1 & F2 & F3). unfold R, bindn, sset, live. cbn [hp env].
  split; [|split; [|split]].
  - intros y. destruct (Nat.eqb_spec y x) as [->|Hy]; auto. specialize (H1 y). destruct (e y) as [ly|]; auto.
    destruct H1 as (oy & E & W). exists oy. split; auto.
    destruct W as [W|(b & W1 & W2 & W3 & W4)]; [left; auto|right]. exists b. repeat split; auto.
    rewrite F1; auto. { apply nth_error_Some. congruence. } intros Ho. apply Hy. eapply H2; eauto.
  - intros y ly. destruct (Nat.eqb_spec y x) as [->|Hy]; [discriminate|apply HF].
  - intros y z oy oz b. destruct (Nat.eqb_spec y x) as [->|Hy]; [discriminate|].
    destruct (Nat.eqb_spec z x) as [->|Hz]; [discriminate|]. apply H2.
  - intros b (cells & Hb). destruct (F2 b cells Hb) as [Hp|(Hlt & Hne)]; [discriminate|].
    rewrite F1 in Hb by auto. destruct (H3 b) as (y & oy & Ey & Py); [exists cells; auto|].
    exists y, oy. destruct (Nat.eqb_spec y x) as [->|Hy]; auto. congruence.
Qed.

(** Loops that store into one block. *)
Definition others h h' b : Prop := length h' = length h /\ forall b', b' <> b -> nth_error h' b' = nth_error h b'.
Lemma store_ok h b cells i v : nth_error h b = Some (Some cells) -> i < length cells ->
  store h (Some b) i v = Ok (upd h b (Some (upd cells i (Some v)))).
Proof. intros Hb Hi. unfold store. rewrite Hb. destruct (Nat.ltb_spec i (length cells)); [reflexivity|lia]. Qed.
Lemma store_loop h b cells lo hi (g : nat -> @heap T -> Res T) (f : nat -> T) :
  nth_error h b = Some (Some cells) -> lo <= hi -> hi <= length cells ->
  (forall i h', lo <= i < hi -> others h h' b -> g i h' = Ok (f i)) ->
  exists h' cells', for_range lo hi (fun i h => let* x := g i h in store h (Some b) i x) h = Ok h' /\
    others h h' b /\ nth_error h' b = Some (Some cells') /\ length cells' = length cells /\
    forall i, i < length cells -> nth_error cells' i = if (lo <=? i) && (i <? hi) then Some (Some (f i)) else nth_error cells i.
Proof.
  intros Hb Hl Hh Hg.
  destruct (for_range_inv (fun k h' => exists cells', others h h' b /\ nth_error h' b = Some (Some cells') /\ length cells' = length cells /\
    forall i, i < length cells -> nth_error cells' i = if (lo <=? i) && (i <? k) then Some (Some (f i)) else nth_error cells i)
    lo hi (fun i h => let* x := g i h in store h (Some b) i x) h) as (h' & E & cells' & Q); auto.
  - exists cells. split; [split; auto|]. split; auto. split; auto. intros i Hi.
    destruct (Nat.leb_spec lo i), (Nat.ltb_spec i lo); cbn; auto; lia.
  - intros i h1 Hi (cells1 & (L1 & P1) & Q1 & Q2 & Q3). rewrite (Hg i h1) by (auto; split; auto). cbn [bind].
    rewrite (store_ok h1 b cells1) by (auto; lia). eexists. split; [reflexivity|].
    exists (upd cells1 i (Some (f i))). assert (b < length h1) by (apply nth_error_Some; congruence).
    split; [split|]. { rewrite upd_length. auto. } { intros b' Hb'. rewrite upd_other; auto. }
    split; [apply upd_same; auto|]. split; [rewrite upd_length; auto|].
    intros k Hk. rewrite upd_nth_error by lia. destruct (Nat.eqb_spec k i) as [->|N].
    + destruct (Nat.leb_spec lo i), (Nat.ltb_spec i (S i)); cbn; auto; lia.
    + rewrite Q3 by auto. destruct (Nat.leb_spec lo k), (Nat.ltb_spec k i), (Nat.ltb_spec k (S i)); cbn; auto; lia.
  - exists h', cells'. split; auto.
Qed.
Lemma others_frame h h1 b o o' h' : frame h o h1 o' -> vptr o' = Some b -> nth_error h1 b <> Some None -> b < length h1 -> others h1 h' b -> frame h o h' o'.
Proof.
  intros (F0 & F1 & F2 & F3) Hp Hn Hlt (L & P). split; [lia|]. split; [|split; auto].
  - intros b' Hb' Hne. assert (b' <> b). { intros ->. destruct (F3 b Hp); [congruence|lia]. } rewrite P; auto.
  - intros b' cells Hb'. destruct (Nat.eq_dec b' b) as [->|N]; auto. rewrite P in Hb' by auto. eapply F2; eauto.
Qed.

Lemma frame_refl h o l : owns h o l -> frame h o h o.
Proof.
  intros W. split; auto. split; auto. split; auto. intros b cells Hb.
  destruct (vptr o) as [b'|] eqn:E; [|right; split; [apply nth_error_Some; congruence|congruence]].
  destruct (Nat.eq_dec b b') as [->|N]; auto. right. split; [apply nth_error_Some; congruence|congruence].
Qed.
Lemma hfree_ok h b cells : nth_error h b = Some (Some cells) -> hfree h (Some b) = Ok (upd h b None).
Proof. intros H. unfold hfree. rewrite H. reflexivity. Qed.
Lemma dealloc_ok h o l : owns h o l ->
  exists h' r, v_deallocate h o = Ok (h', vnull, r) /\ frame h o h' vnull /\ (r = false -> l = nil).
Proof.
  intros W. unfold v_deallocate. destruct W as [(P & S & ->)|(b & P & S & N & Hb)].
  - rewrite S. cbn. exists h, false. destruct o as [p z]. cbn in *. subst. split; [reflexivity|]. split; auto.
    apply (frame_refl h vnull nil). left. auto.
  - rewrite S. destruct (Nat.ltb_spec 0 (length l)) as [_|Hl]; [|destruct l; [congruence|cbn in Hl; lia]].
    rewrite P, (hfree_ok h b _ Hb). cbn [bind]. exists (upd h b None), true. split; [reflexivity|]. split; [|discriminate].
    assert (b < length h) by (apply nth_error_Some; congruence).
    split; [rewrite upd_length; auto|]. split; [|split; [|discriminate]].
    + intros b' Hb' Hne. rewrite upd_other; auto. congruence.
    + intros b' cells Hb'. right. rewrite upd_nth_error in Hb' by auto. destruct (Nat.eqb_spec b' b); [discriminate|].
      split; [apply nth_error_Some; congruence|congruence].
Qed.
Lemma cells_all (cells : list (option T)) l : length cells = length l ->
  (forall i, i < length l -> nth_error cells i = option_map Some (nth_error l i)) -> cells = map Some l.
Proof.
  intros Hl H. apply list_ext. { rewrite map_length. auto. } intros i Hi. rewrite nth_error_map. apply H. lia.
Qed.
(** The object after [realloc] before the new cells are set. *)
Lemma realloc_ok h o l n : owns h o l -> 0 < n -> fits n -> n <> vsz o ->
  exists h' b, hrealloc ip h (vptr o) n = Ok (h', Some b) /\ b < length h' /\ frame h o h' (mkV (Some b) n) /\
    nth_error h' b = Some (Some (firstn n (map Some l) ++ repeat None (n - length l))).
Proof.
  intros W Hn Hf Hne. apply fitsb_spec in Hf. unfold hrealloc. destruct W as [(P & S & ->)|(b & P & S & N & Hb)].
  - rewrite P, Hf. exists (h ++ [Some (repeat None n)]), (length h). split; [reflexivity|]. rewrite app_length; cbn [length].
    split; [lia|]. split.
    + split; [rewrite app_length; cbn; lia|]. rewrite P. split; [|split].
      * intros b Hb _. rewrite nth_error_app1; auto.
      * intros b cells Hb. cbn. destruct (Nat.eq_dec b (length h)) as [->|Hb']; auto. right.
        assert (b < length (h ++ [Some (repeat None n)])) by (apply nth_error_Some; congruence).
        rewrite app_length in *; cbn in *. split; [lia|discriminate].
      * cbn. intros b [= <-]. auto.
    + rewrite nth_error_app2, Nat.sub_diag by lia. cbn [nth_error map]. rewrite firstn_nil. cbn. rewrite Nat.sub_0_r. reflexivity.
  - rewrite P, Hb, Hf. cbn [negb]. rewrite map_length.
    assert (Hlt : b < length h) by (apply nth_error_Some; congruence).
    set (cells' := firstn n (map Some l) ++ repeat None (n - length l)). destruct (ip h b n).
    + exists (upd h b (Some cells')), b. split; [reflexivity|]. rewrite upd_length. split; auto. split; [|apply upd_same; auto].
      split; [rewrite upd_length; auto|]. rewrite P. split; [|split; cbn; auto].
      * intros b' Hb' Hne'. apply upd_other. congruence.
      * intros b' cells Hc. destruct (Nat.eq_dec b' b) as [->|N']; auto. right. rewrite upd_other in Hc by auto.
        split; [apply nth_error_Some; congruence|congruence].
    + exists (upd h b None ++ [Some cells']), (length h). split; [reflexivity|].
      split; [rewrite app_length, upd_length; cbn; lia|]. split.
      * split; [rewrite app_length, upd_length; lia|]. rewrite P. split; [|split; cbn; [|intros b' [= <-]; auto]].
        { intros b' Hb' Hne'. rewrite nth_error_app1 by (rewrite upd_length; auto). apply upd_other. congruence. }
        { intros b' cells Hc. destruct (Nat.eq_dec b' (length h)) as [->|N']; auto. right.
          assert (Hb' : b' < length (upd h b None ++ [Some cells'])) by (apply nth_error_Some; congruence).
          rewrite app_length, upd_length in Hb'; cbn in Hb'. rewrite nth_error_app1 in Hc by (rewrite upd_length; lia).
          rewrite upd_nth_error in Hc by auto. destruct (Nat.eqb_spec b' b); [discriminate|]. split; [lia|congruence]. }
      * rewrite nth_error_app2; rewrite upd_length; [|lia]. rewrite Nat.sub_diag. reflexivity.
Qed.
Lemma for_range_bindok {S A} (g : nat -> A) (b : nat -> A -> S -> Res S) lo hi s :
  for_range lo hi (fun i s => b i (g i) s) s = for_range lo hi (fun i s => let* x := Ok (g i) in b i x s) s.
Proof. reflexivity. Qed.
Lemma alloc_ok h o l n : owns h o l -> fits n ->
  exists h' o' r, v_allocate ip h o n = Ok (h', o', r) /\ frame h o h' o' /\ owns h' o' (sresize l n) /\ vsz o' = n /\
    (r = false -> n = 0).
Proof.
  intros W Hf. unfold v_allocate, sresize. destruct (Nat.eqb_spec n 0) as [->|Hn].
  { destruct (dealloc_ok h o l W) as (h' & r & E & F & _). exists h', vnull, r. cbn. split; auto. split; auto.
    split; [left; auto|auto]. }
  destruct (Nat.eqb_spec n (vsz o)) as [E|Hne].
  { exists h, o, true. split; auto. split; [eapply frame_refl; eauto|]. rewrite (owns_len _ _ _ W) in E.
    rewrite E, firstn_all, Nat.sub_diag. cbn. rewrite app_nil_r. split; auto. split; [rewrite <- (owns_len _ _ _ W) in *; auto|discriminate]. }
  destruct (realloc_ok h o l n W) as (h1 & b & E & Hlt & F & Hb); auto; [lia|]. rewrite E. cbn [bind].
  set (cells := firstn n (map Some l) ++ repeat None (n - length l)) in *.
  assert (Hlen : length cells = n). { unfold cells. rewrite app_length, firstn_length, map_length, repeat_length. lia. }
  assert (Hnl : sresize l n <> nil). { unfold sresize. intros H. apply (f_equal (@length _)) in H.
    rewrite app_length, firstn_length, repeat_length in H. cbn in H. lia. }
  assert (Hlr : length (sresize l n) = n). { unfold sresize. rewrite app_length, firstn_length, repeat_length. lia. }
  rewrite (owns_len _ _ _ W) in *.
  destruct (Nat.ltb_spec (length l) n) as [Hgt|Hle].
  - destruct (store_loop h1 b cells (length l) n (fun _ _ => Ok o0) (fun _ => o0)) as (h2 & cells2 & E2 & Q0 & Q1 & Q2 & Q3); auto; try lia.
    cbn [bind] in E2. rewrite E2. cbn [bind]. exists h2, (mkV (Some b) n), true. split; [reflexivity|].
    split; [apply (others_frame h h1 b); auto; congruence|]. split; [|split; [reflexivity|discriminate]].
    right. exists b. cbn. split; auto. fold (sresize l n). rewrite Hlr. split; auto. split; auto. rewrite Q1. do 2 f_equal.
    apply cells_all; [lia|]. rewrite Hlr. intros i Hi. rewrite Q3 by lia. unfold sresize, cells. rewrite !(firstn_all2) by (rewrite ?map_length; lia).
    destruct (Nat.leb_spec (length l) i); destruct (Nat.ltb_spec i n); cbn; try lia.
    + rewrite nth_error_app2 by lia. rewrite nth_error_repeat_lt by lia. reflexivity.
    + rewrite !nth_error_app1 by (rewrite ?map_length; lia). apply nth_error_map.
  - destruct (Nat.eqb_spec (length l) 0); [lia|]. cbn [bind]. exists h1, (mkV (Some b) n), true. split; [reflexivity|].
    split; auto. split; [|split; [reflexivity|discriminate]]. right. exists b. fold (sresize l n). cbn. rewrite Hlr. repeat split; auto.
    rewrite Hb. do 2 f_equal. apply cells_all; [lia|]. rewrite Hlr. intros i Hi. unfold cells, sresize.
    replace (n - length l) with 0 by lia. cbn. rewrite !app_nil_r, firstn_map, nth_error_map. reflexivity.
Qed.

(** Filling the whole of a freshly allocated object. *)
Lemma fill_ok h o h1 o1 l1 (g : nat -> @heap T -> Res T) l' : frame h o h1 o1 -> owns h1 o1 l1 -> length l' = vsz o1 ->
  (forall i h' v, nth_error l' i = Some v -> (forall b, vptr o1 = Some b -> others h1 h' b) -> g i h' = Ok v) ->
  exists h2, for_range 0 (vsz o1) (fun i h => let* x := g i h in store h (vptr o1) i x) h1 = Ok h2 /\
    frame h o h2 o1 /\ owns h2 o1 l'.
Proof.
  intros F W Hl Hg. destruct W as [(P & S & ->)|(b & P & S & N & Hb)].
  - rewrite S in *. exists h1. split; [reflexivity|]. split; auto. left. destruct l'; [auto|discriminate].
  - destruct l1 as [|d l1]; [congruence|]. set (l0 := d :: l1) in *.
    destruct (store_loop h1 b (map Some l0) 0 (vsz o1) g (fun i => nth i l' d)) as (h2 & cells2 & E2 & Q0 & Q1 & Q2 & Q3); auto; try lia.
    { rewrite map_length. lia. }
    { intros i h' Hi Ho. apply Hg. apply nth_error_nth'; lia. intros b' Hb'. congruence. }
    rewrite P. rewrite E2. exists h2. split; auto. assert (b < length h1) by (apply nth_error_Some; congruence).
    split; [apply (others_frame h h1 b); auto; congruence|]. right. exists b. split; auto. split; [lia|]. split.
    { intros ->. cbn in Hl. rewrite S in Hl. discriminate. }
    rewrite Q1. do 2 f_equal. rewrite map_length in *. apply cells_all; [lia|]. intros i Hi. rewrite Q3 by lia.
    destruct (Nat.leb_spec 0 i), (Nat.ltb_spec i (vsz o1)); cbn; try lia. rewrite (nth_error_nth' l' d) by lia. reflexivity.
Qed.
Lemma sresize_len l n : length (sresize l n) = n.
Proof. unfold sresize. rewrite app_length, firstn_length, repeat_length. lia. Qed.
Lemma null_owns h : owns h vnull nil.
Proof. left. auto. Qed.

Lemma list_ok h l : fits (length l) -> exists h' o', v_list ip h l = Ok (h', o') /\ frame h vnull h' o' /\ owns h' o' l.
Proof.
  intros Hf. unfold v_list. destruct (alloc_ok h vnull nil (length l) (null_owns h) Hf) as (h1 & o1 & r & E & F & W & S & Hr).
  rewrite E. cbn [bind]. destruct r.
  - destruct (fill_ok h vnull h1 o1 _ (fun i _ => lget l i) l F W) as (h2 & E2 & F2 & W2); auto.
    { intros i h' v Hv _. unfold lget. rewrite Hv. reflexivity. }
    rewrite E2. cbn [bind]. eauto.
  - assert (l = nil) by (destruct l; auto; specialize (Hr eq_refl); discriminate). subst l. exists h1, o1. split; auto.
Qed.
Lemma fill_n_ok h n v : fits n -> exists h' o', v_fill ip h n v = Ok (h', o') /\ frame h vnull h' o' /\ owns h' o' (repeat v n).
Proof.
  intros Hf. unfold v_fill. destruct (alloc_ok h vnull nil n (null_owns h) Hf) as (h1 & o1 & r & E & F & W & S & Hr).
  rewrite E. cbn [bind]. destruct r.
  - destruct (fill_ok h vnull h1 o1 _ (fun i _ => Ok v) (repeat v n) F W) as (h2 & E2 & F2 & W2).
    { rewrite repeat_length. auto. }
    { intros i h' x Hx _. apply nth_error_In, repeat_spec in Hx. congruence. }
    cbn [bind] in E2. rewrite E2. cbn [bind]. eauto.
  - rewrite (Hr eq_refl) in *. exists h1, o1. split; auto.
Qed.
(** Copying another object's elements after [o] was resized to its size. *)
Lemma copy_ok h o l o2 l2 : owns h o l -> owns h o2 l2 -> fits (length l2) -> (forall b, vptr o = Some b -> vptr o2 <> Some b) ->
  exists h' o', v_assign ip h o o2 = Ok (h', o') /\ frame h o h' o' /\ owns h' o' l2.
Proof.
  intros W W2 Hf Hd. unfold v_assign. rewrite (owns_len _ _ _ W2).
  destruct (alloc_ok h o l (length l2) W Hf) as (h1 & o1 & r & E & F & W1 & S & Hr). rewrite E. cbn [bind]. destruct r.
  - assert (W2' : owns h1 o2 l2).
    { destruct W2 as [W2|(b & P & S2 & N & Hb)]; [left; auto|]. right. exists b. repeat split; auto.
      destruct F as (_ & F1 & _). rewrite F1; auto. apply nth_error_Some; congruence. intros Ho. apply (Hd b Ho). auto. }
    destruct (fill_ok h o h1 o1 _ (fun i h => load h (vptr o2) i) l2 F W1) as (h2 & E2 & F2 & Wf); auto.
    { intros i h' v Hv Ho. apply (owns_load h' o2 l2); auto.
      destruct W2' as [W2'|(b & P & S2 & N & Hb)]; [left; auto|]. right. exists b. repeat split; auto.
      destruct W1 as [(P1 & S1 & L1)|(b1 & P1 & _)].
      { exfalso. apply N. rewrite S in S1. destruct l2; auto; discriminate. }
      destruct (Ho b1 P1) as (_ & Ho'). rewrite Ho'; auto. intros ->. destruct F as (_ & _ & _ & F3).
      destruct (F3 b1 P1) as [P0|P0]. { apply (Hd _ P0). auto. }
      destruct W2 as [(Q & _)|(b' & Q & _ & _ & Hb')]; [congruence|]. assert (b' = b1) by congruence. subst.
      assert (b1 < length h) by (apply nth_error_Some; congruence). lia. }
    rewrite E2. cbn [bind]. eauto.
  - exists h1, o1. split; auto. split; auto. specialize (Hr eq_refl). destruct l2; [|discriminate]. cbn in W1. exact W1.
Qed.
Lemma v_copy_assign h o : v_copy ip h o = v_assign ip h vnull o.
Proof. reflexivity. Qed.
Lemma sresize_new n : sresize nil n = repeat o0 n :> list T.
Proof. unfold sresize. rewrite firstn_nil. cbn. rewrite Nat.sub_0_r. reflexivity. Qed.

Lemma R_ext s e e' : R s e -> (forall x, e x = e' x) -> R s e'.
Proof.
  intros (H1 & HF & H2) E. split; [|split; auto].
  - intros x. rewrite <- E. apply H1.
  - intros x l. rewrite <- E. apply HF.
Qed.
Lemma R_fresh s e x : R s e -> e x = None -> env s x = None.
Proof. intros (H1 & _) E. specialize (H1 x). rewrite E in H1. auto. Qed.
Lemma R_look s e x l : R s e -> e x = Some l -> exists o, look s x = Ok o /\ env s x = Some o /\ owns (hp s) o l /\ fits (length l).
Proof.
  intros (H1 & HF & _) E. specialize (H1 x). rewrite E in H1. destruct H1 as (o & Eo & W). exists o. unfold look. rewrite Eo. eauto.
Qed.

Lemma step_ok s e c e' ob : R s e -> sstep e c = Some (e', ob) -> exists s', vstep ip s c = Ok (s', ob) /\ R s' e'.
Proof.
  intros HR Hs. assert (Hcons : forall x l h o', e x = None -> fitsb (length l) = true -> frame (hp s) vnull h o' -> owns h o' l ->
    R (mkSt h (bindn (env s) x (Some o'))) (sset e x (Some l))).
  { intros x l h o' Ex Hf F W. eapply (R_upd s e x vnull nil); eauto. { right. repeat split; auto. eapply R_fresh; eauto. }
    apply fitsb_spec; auto. }
  destruct c; cbn [sstep vstep] in *; unfold fresh_name.
  - destruct (e x) eqn:Ex; [discriminate|]. cbn in Hs. injection Hs as <- <-. rewrite (R_fresh s e x HR Ex). cbn.
    eexists. split; [reflexivity|]. apply Hcons; auto. apply (frame_refl _ _ nil), null_owns. apply null_owns.
  - destruct (fitsb n) eqn:Hf; [|discriminate]. destruct (e x) eqn:Ex; [discriminate|]. rewrite repeat_length, Hf in Hs. injection Hs as <- <-.
    rewrite (R_fresh s e x HR Ex). cbn [bind]. unfold v_sized.
    destruct (alloc_ok (hp s) vnull nil n (null_owns _)) as (h1 & o1 & r & E & F & W & S & Hr); [apply fitsb_spec; auto|].
    rewrite E. cbn [bind]. eexists. split; [reflexivity|]. rewrite sresize_new in W. apply Hcons; auto. rewrite repeat_length. auto.
  - destruct (fitsb n) eqn:Hf; [|discriminate]. destruct (e x) eqn:Ex; [discriminate|]. rewrite repeat_length, Hf in Hs. injection Hs as <- <-.
    rewrite (R_fresh s e x HR Ex). cbn [bind].
    destruct (fill_n_ok (hp s) n v) as (h1 & o1 & E & F & W); [apply fitsb_spec; auto|].
    rewrite E. cbn [bind]. eexists. split; [reflexivity|]. apply Hcons; auto. rewrite repeat_length. auto.
  - destruct (e x) eqn:Ex; [discriminate|]. destruct (fitsb (length l)) eqn:Hf; [|discriminate]. injection Hs as <- <-.
    rewrite (R_fresh s e x HR Ex). cbn [bind].
    destruct (list_ok (hp s) l) as (h1 & o1 & E & F & W); [apply fitsb_spec; auto|].
    rewrite E. cbn [bind]. eexists. split; [reflexivity|]. apply Hcons; auto.
  - destruct (n =? length l); [|discriminate]. destruct (e x) eqn:Ex; [discriminate|]. destruct (fitsb (length l)) eqn:Hf; [|discriminate]. injection Hs as <- <-.
    rewrite (R_fresh s e x HR Ex). cbn [bind].
    destruct (list_ok (hp s) l) as (h1 & o1 & E & F & W); [apply fitsb_spec; auto|].
    rewrite E. cbn [bind]. eexists. split; [reflexivity|]. apply Hcons; auto.
  - destruct (e y) as [l|] eqn:Ey; [|discriminate]. destruct (e x) eqn:Ex; [discriminate|]. destruct (fitsb (length l)) eqn:Hf; [|discriminate]. injection Hs as <- <-.
    rewrite (R_fresh s e x HR Ex). cbn [bind]. destruct (R_look s e y l HR Ey) as (oy & Lk & Eoy & W & Hfy). rewrite Lk. cbn [bind].
    rewrite v_copy_assign. destruct (copy_ok (hp s) vnull nil oy l) as (h1 & o1 & E & F & W1); auto; [apply null_owns|discriminate|].
    rewrite E. cbn [bind]. eexists. split; [reflexivity|]. apply Hcons; auto.
  - destruct (e x) eqn:Ex; [discriminate|]. destruct (e y) as [l|] eqn:Ey; [|discriminate]. injection Hs as <- <-.
    rewrite (R_fresh s e x HR Ex). cbn [bind]. destruct (R_look s e y l HR Ey) as (oy & Lk & Eoy & W & Hfy). rewrite Lk. cbn [bind].
    unfold v_move, v_deallocate. cbn [vsz vnull]. eexists. split; [reflexivity|]. apply R_move; auto. congruence.
  - destruct (e x) as [lx|] eqn:Ex; [|discriminate]. destruct (e y) as [l|] eqn:Ey; [|discriminate]. injection Hs as <- <-.
    destruct (R_look s e x lx HR Ex) as (ox & Lkx & Eox & Wx & Hfx).
    destruct (R_look s e y l HR Ey) as (oy & Lk & Eoy & W & Hfy). rewrite Lkx, Lk. cbn [bind].
    destruct (Nat.eqb_spec x y) as [<-|Hxy].
    { eexists. split; [reflexivity|]. eapply R_ext; eauto. intros z. unfold sset. destruct (Nat.eqb_spec z x) as [->|]; congruence. }
    destruct (copy_ok (hp s) ox lx oy l) as (h1 & o1 & E & F & W1); auto.
    { intros b P1 P2. apply Hxy. eapply HR; eauto. }
    rewrite E. cbn [bind]. eexists. split; [reflexivity|]. eapply R_upd; eauto.
  - destruct (e x) as [lx|] eqn:Ex; [|discriminate]. destruct (e y) as [l|] eqn:Ey; [|discriminate]. injection Hs as <- <-.
    destruct (R_look s e x lx HR Ex) as (ox & Lkx & Eox & Wx & Hfx).
    destruct (R_look s e y l HR Ey) as (oy & Lk & Eoy & W & Hfy). rewrite Lkx, Lk. cbn [bind].
    destruct (Nat.eqb_spec x y) as [<-|Hxy]. { eexists. split; [reflexivity|]. auto. }
    unfold v_move_assign. destruct (dealloc_ok (hp s) ox lx Wx) as (h1 & r & E & F & _). rewrite E. cbn [bind].
    eexists. split; [reflexivity|].
    assert (HR1 : R (mkSt h1 (bindn (env s) x (Some vnull))) (sset e x (Some nil))).
    { eapply R_upd; eauto using null_owns, fits_0. }
    pose proof (R_move _ _ x y oy l HR1 Hxy) as HM. cbn [hp env] in HM.
    assert (HM' : R (mkSt h1 (bindn (bindn (bindn (env s) x (Some vnull)) y (Some vnull)) x (Some oy)))
                    (sset (sset (sset e x (Some nil)) y (Some nil)) x (Some l))).
    { apply HM. - right. unfold sset. rewrite Nat.eqb_refl. auto.
      - unfold bindn. destruct (Nat.eqb_spec y x); congruence.
      - unfold sset. destruct (Nat.eqb_spec y x); congruence. }
    clear HM. destruct HM' as (M1 & M2 & M3 & M4). unfold R, live, bindn, sset in *. cbn [hp env] in *.
    split; [|split; [|split]].
    + intros z. specialize (M1 z). destruct (z =? x); auto.
    + intros z. specialize (M2 z). destruct (z =? x); auto.
    + intros z w. specialize (M3 z w). destruct (z =? x), (w =? x); auto.
    + intros b Hb. destruct (M4 b Hb) as (z & oz & H). exists z, oz. destruct (z =? x); auto.
  - destruct (e x) as [lx|] eqn:Ex; [|discriminate]. destruct (fitsb n) eqn:Hf; [|discriminate]. injection Hs as <- <-.
    destruct (R_look s e x lx HR Ex) as (ox & Lkx & Eox & Wx & Hfx). rewrite Lkx. cbn [bind]. unfold v_resize.
    destruct (alloc_ok (hp s) ox lx n Wx) as (h1 & o1 & r & E & F & W & S & Hr); [apply fitsb_spec; auto|]. rewrite E. cbn [bind].
    eexists. split; [reflexivity|]. eapply R_upd; eauto. rewrite sresize_len. apply fitsb_spec; auto.
  - destruct (e x) as [lx|] eqn:Ex; [|discriminate]. destruct (e y) as [ly|] eqn:Ey; [|discriminate]. injection Hs as <- <-.
    destruct (R_look s e x lx HR Ex) as (ox & Lkx & Eox & Wx & Hfx).
    destruct (R_look s e y ly HR Ey) as (oy & Lk & Eoy & Wy & Hfy). rewrite Lkx, Lk. cbn [bind]. unfold v_resize.
    rewrite (owns_len _ _ _ Wy).
    destruct (alloc_ok (hp s) ox lx (length ly) Wx Hfy) as (h1 & o1 & r & E & F & W & S & Hr). rewrite E. cbn [bind].
    eexists. split; [reflexivity|]. eapply R_upd; eauto. rewrite sresize_len. auto.
  - destruct (e x) as [lx|] eqn:Ex; [|discriminate]. destruct (Nat.ltb_spec i (length lx)) as [Hi|]; [|discriminate]. injection Hs as <- <-.
    destruct (R_look s e x lx HR Ex) as (ox & Lkx & Eox & Wx & Hfx). rewrite Lkx. cbn [bind].
    assert (Wx' := Wx). destruct Wx' as [(_ & _ & ->)|(b & P & S & N & Hb)]; [cbn in Hi; lia|].
    assert (Hlt : b < length (hp s)) by (apply nth_error_Some; congruence).
    rewrite P. erewrite store_ok by (eauto; rewrite map_length; auto). cbn [bind]. eexists. split; [reflexivity|].
    assert (HU : R (mkSt (upd (hp s) b (Some (upd (map Some lx) i (Some v)))) (bindn (env s) x (Some ox))) (sset e x (Some (upd lx i v)))).
    { eapply R_upd; eauto; [| |rewrite upd_length; auto].
      - apply (others_frame (hp s) (hp s) b); auto; [eapply frame_refl; eauto|congruence|].
        split; [apply upd_length|]. intros b' Hb'. apply upd_other. auto.
      - right. exists b. rewrite upd_length. repeat split; auto. { intros H. apply (f_equal (@length _)) in H. rewrite upd_length in H. cbn in H. lia. }
        rewrite upd_same by auto. do 2 f_equal. clear -lx. revert i. induction lx as [|a lx IH]; intros [|i]; cbn; auto. rewrite IH. reflexivity. }
    destruct HU as (M1 & M2 & M3 & M4). unfold R, live, bindn in *. cbn [hp env] in *.
    assert (Eenv : forall z, (if z =? x then Some ox else env s z) = env s z) by (intros z; destruct (Nat.eqb_spec z x) as [->|]; congruence).
    split; [|split; [|split]]; auto.
    + intros z. specialize (M1 z). rewrite Eenv in M1. auto.
    + intros z w. specialize (M3 z w). rewrite !Eenv in M3. auto.
    + intros b' Hb'. destruct (M4 b' Hb') as (z & oz & H). rewrite Eenv in H. eauto.
  - destruct (e x) as [lx|] eqn:Ex; [|discriminate]. destruct (nth_error lx i) as [v|] eqn:Ei; [|discriminate]. injection Hs as <- <-.
    destruct (R_look s e x lx HR Ex) as (ox & Lkx & Eox & Wx & Hfx). rewrite Lkx. cbn [bind].
    rewrite (owns_load _ _ _ _ _ Wx Ei). cbn [bind]. eauto.
  - destruct (e x) as [lx|] eqn:Ex; [|discriminate]. injection Hs as <- <-.
    destruct (R_look s e x lx HR Ex) as (ox & Lkx & Eox & Wx & Hfx). rewrite Lkx. cbn [bind]. rewrite (owns_len _ _ _ Wx). eauto.
  - destruct (e x) as [lx|] eqn:Ex; [|discriminate]. injection Hs as <- <-.
    destruct (R_look s e x lx HR Ex) as (ox & Lkx & Eox & Wx & Hfx). rewrite Lkx. cbn [bind].
    destruct (dealloc_ok (hp s) ox lx Wx) as (h1 & r & E & F & _). rewrite E. cbn [bind]. eexists. split; [reflexivity|].
    eapply R_drop; eauto.
Qed.
Lemma run_ok cs : forall s e e' os, R s e -> srun e cs = Some (e', os) -> exists s', vrun ip s cs = Ok (s', os) /\ R s' e'.
Proof.
  induction cs as [|c cs IH]; intros s e e' os HR Hs; cbn [srun vrun] in *.
  { injection Hs as <- <-. eauto. }
  destruct (sstep e c) as [[e1 ob]|] eqn:E1; [|discriminate]. destruct (srun e1 cs) as [[e2 os2]|] eqn:E2; [|discriminate]. injection Hs as <- <-.
  destruct (step_ok s e c e1 ob HR E1) as (s1 & -> & HR1). cbn [bind].
  destruct (IH s1 e1 e2 os2 HR1 E2) as (s2 & -> & HR2). cbn [bind]. eauto.
Qed.

(** * C01: every legal history runs without undefined behaviour and leaves memory in
    order.  [ip] is the allocator's choice to move blocks or not. *)
Theorem C01_memory_safe : forall cs e os, srun (fun _ => None) cs = Some (e, os) ->
  exists s, vrun ip vst0 cs = Ok (s, os) /\ mem_ok s.
Proof. intros cs e os H. destruct (run_ok cs vst0 _ e os R_init H) as (s & E & HR). exists s. split; auto. eapply R_mem; eauto. Qed.
(** When every Vector has been destroyed no block is left. *)
Theorem C01_no_leak : forall cs e os, srun (fun _ => None) cs = Some (e, os) -> (forall x, e x = None) ->
  exists s, vrun ip vst0 cs = Ok (s, os) /\ forall b, ~ live s b.
Proof.
  intros cs e os H He. destruct (run_ok cs vst0 _ e os R_init H) as (s & E & (H1 & _ & _ & H3)). exists s. split; auto.
  intros b Hb. destruct (H3 b Hb) as (x & o & Ex & _). specialize (H1 x). rewrite He in H1. congruence.
Qed.
(** * C02: everything the program observes, and the contents at the end, are those of
    independent sequences. *)
Theorem C02_value_semantics : forall cs e os, srun (fun _ => None) cs = Some (e, os) ->
  exists s, vrun ip vst0 cs = Ok (s, os) /\ same_values s e.
Proof. intros cs e os H. destruct (run_ok cs vst0 _ e os R_init H) as (s & E & HR). exists s. split; auto. eapply R_values; eauto. Qed.
End Proofs.

(** A history with copies, moves, self-assignments, growth and shrinking. *)
From Verif Require Import Scalar.
Definition ex_history : list (@vop Z) :=
  [FromList 0 [1%Z; 2%Z; 3%Z]; Copy 1 0; Write 1 0 9%Z; Read 0 0; Move 2 1; Size 1; Assign 2 2; MoveAssign 2 2;
   Resize 2 5; Read 2 0; Read 2 4; Assign 0 2; Resize 0 1; MoveAssign 1 0; Read 1 0; Size 0; New 3; ResizeAs 3 2; Size 3; Fill 4 2 7%Z;
   MoveAssign 4 3; Size 4; Destroy 0; Destroy 1; Destroy 2; Destroy 3; Destroy 4].
Example ex_C01 : option_map snd (srun (fun _ => None) ex_history) =
  Some [Nothing; Nothing; Nothing; Value 1%Z; Nothing; Len 0; Nothing; Nothing; Nothing; Value 9%Z; Value 0%Z;
        Nothing; Nothing; Nothing; Value 9%Z; Len 0; Nothing; Nothing; Len 5; Nothing; Nothing; Len 5;
        Nothing; Nothing; Nothing; Nothing; Nothing].
Proof. vm_compute. reflexivity. Qed.
Example ex_C01_end : forall x, match srun (fun _ => None) ex_history with Some (e, _) => e x = None | None => False end.
Proof. intros x. do 5 (destruct x as [|x]; [vm_compute; reflexivity|]). vm_compute. reflexivity. Qed.
(** The model runs it too, with an allocator that always moves or never moves. *)
Example ex_C01_run : match vrun (fun _ _ _ => false) vst0 ex_history with Ok (_, os) => length os = 27 | _ => False end /\
  match vrun (fun _ _ _ => true) vst0 ex_history with Ok (_, os) => length os = 27 | _ => False end.
Proof. vm_compute. auto. Qed.
(** Reading past the end is undefined: the precondition on indices is needed. *)
Theorem C01_out_of_range : forall ip (l : list Z) i, fits (length l) -> length l <= i ->
  vrun ip vst0 [FromList 0 l; Read 0 i] = UB.
Proof.
  intros ip l i Hf Hi. destruct (run_ok ip [FromList 0 l] vst0 (fun _ => None) (sset (fun _ => None) 0 (Some l)) [Nothing] R_init) as (s & E & HR).
  { cbn. assert (fitsb (length l) = true) as -> by (apply fitsb_spec; auto). reflexivity. }
  cbn [vrun] in E |- *. destruct (vstep ip vst0 (FromList 0 l)) as [[s1 ob]| | | |] eqn:E1; try discriminate. cbn [bind] in E |- *.
  injection E as -> ->. cbn [vstep]. destruct (R_look s _ 0 l HR) as (o & Lk & Eo & W & _); [reflexivity|]. rewrite Lk. cbn [bind].
  unfold load. destruct W as [(-> & _)|(b & -> & _ & _ & Hb)]; [reflexivity|]. rewrite Hb.
  destruct (nth_error (map Some l) i) as [x|] eqn:En; [|reflexivity].
  assert (i < length (map (@Some Z) l)) by (apply nth_error_Some; congruence). rewrite map_length in *. lia.
Qed.
