(** PropHist.v: the shape invariant of Matrix over whole histories (C04). *)
From Verif Require Import MatHist MathFacts UtilFacts ViewFacts ViewFacts2 PropMath.
Arguments Nat.ltb : simpl never.
Arguments Nat.leb : simpl never.
Arguments Nat.eqb : simpl never.

(** * Specification: what each statement does to the shapes *)
(** Shape of a named matrix: [None] not alive; [Some None] moved from (and not empty
    before the move); [Some (Some (r, c))] an r x c matrix. *)
Definition shapes := nat -> option (option (nat * nat)).
Definition shset (s : shapes) (x : nat) (a : option (option (nat * nat))) : shapes := fun y => if y =? x then a else s y.
Definition is_shape (s : shapes) (x r c : nat) : Prop := s x = Some (Some (r, c)).
(** Rows given as nested lists form an r x c table. *)
Definition table {T} (ll : list (list T)) (r c : nat) : Prop :=
  length ll = r /\ 0 < r /\ 0 < c /\ forall row, In row ll -> length row = c.

(** [mspec s o s']: in state s the statement o is legal and leads to s'.  A statement
    that throws leaves the shapes as they were.  Legal means: names are in scope,
    indices and view ranges are inside, sizes can be served, a source is not moved from,
    and source and destination are different objects unless stated otherwise. *)
Inductive mspec {T} (s : shapes) : @mop T -> shapes -> Prop :=
| SNew x : s x = None -> mspec s (MNew x) (shset s x (Some (Some (0, 0))))
| SFill x r c v : s x = None -> shape_ok r c -> mspec s (MFill x r c v) (shset s x (Some (Some (r, c))))
| SList x r c l : s x = None -> shape_ok r c -> r * c <= length l -> mspec s (MList x r c l) (shset s x (Some (Some (r, c))))
| SNested x ll r c : s x = None -> table ll r c -> shape_ok r c -> mspec s (MNested x ll) (shset s x (Some (Some (r, c))))
| SNestedThrow x ll : s x = None -> (ll = nil \/ exists rest, ll = nil :: rest) -> mspec s (MNested x ll) s
| SCopy x y p r c r' c' : s x = None -> is_shape s y r c -> vshape p r c = Some (r', c') -> lin_ok p r c ->
    mspec s (MCopy x y p) (shset s x (Some (Some (r', c'))))
| SMove x y r c : s x = None -> is_shape s y r c ->
    mspec s (MMove x y) (shset (if r * c =? 0 then s else shset s y (Some None)) x (Some (Some (r, c))))
| SAssign x y p r c r' c' : s x <> None -> x <> y -> is_shape s y r c -> vshape p r c = Some (r', c') ->
    mspec s (MAssign x y p) (if r' * c' =? 0 then s else shset s x (Some (Some (r', c'))))
| SAssignSelf x : s x <> None -> mspec s (MAssign x x Root) s
| SMoveAssign x y r c : s x <> None -> x <> y -> is_shape s y r c ->
    mspec s (MMoveAssign x y) (if r * c =? 0 then s else shset (shset s y (Some None)) x (Some (Some (r, c))))
| SMoveAssignMoved x y : s x <> None -> x <> y -> s y = Some None ->
    mspec s (MMoveAssign x y) (shset s x (Some None))
| SMoveAssignSelf x : s x <> None -> mspec s (MMoveAssign x x) s
| SAssignNested x ll r c : s x <> None -> table ll r c -> shape_ok r c ->
    mspec s (MAssignNested x ll) (shset s x (Some (Some (r, c))))
| SAssignNestedNone x ll : s x <> None -> (ll = nil \/ exists rest, ll = nil :: rest) -> mspec s (MAssignNested x ll) s
| SResize x r c r' c' : is_shape s x r c -> shape_ok r' c' -> mspec s (MResize x r' c') (shset s x (Some (Some (r', c'))))
| SReshape x r c r' c' : is_shape s x r c -> is_size r' -> is_size c' -> is_size (r' * c') ->
    mspec s (MReshape x r' c') (if r' * c' =? r * c then shset s x (Some (Some (r', c'))) else s)
| SRemoveRow x r c k : is_shape s x r c ->
    mspec s (MRemoveRow x k) (if k <? r then shset s x (Some (Some (r - 1, c))) else s)
| SRemoveCol x r c k : is_shape s x r c ->
    mspec s (MRemoveCol x k) (if k <? c then shset s x (Some (Some (r, c - 1))) else s)
| SSwapRows x p r c r' c' i j c0 c1 : is_shape s x r c -> vshape p r c = Some (r', c') -> i < r' -> j < r' ->
    mspec s (MSwapRows x p i j c0 c1) s
| SSwapCols x p r c r' c' i j r0 r1 : is_shape s x r c -> vshape p r c = Some (r', c') -> i < c' -> j < c' ->
    mspec s (MSwapCols x p i j r0 r1) s
| SSet x p r c r' c' i j v : is_shape s x r c -> vshape p r c = Some (r', c') -> i < r' -> j < c' ->
    mspec s (MSet x p i j v) s
| SViewAssign x p y r c r' c' : is_shape s x r c -> vshape p r c = Some (r', c') -> x <> y -> is_shape s y r' c' ->
    mspec s (MViewAssign x p y) s
| SAdd x p y r c r' c' ry cy : is_shape s x r c -> vshape p r c = Some (r', c') -> lin_ok p r c -> is_shape s y ry cy ->
    x <> y \/ p = Root -> mspec s (MAdd x p y) s
| SSub x p y r c r' c' ry cy : is_shape s x r c -> vshape p r c = Some (r', c') -> lin_ok p r c -> is_shape s y ry cy ->
    x <> y \/ p = Root -> mspec s (MSub x p y) s
| SMul x p y r c r' c' ry cy : is_shape s x r c -> vshape p r c = Some (r', c') -> lin_ok p r c -> is_shape s y ry cy ->
    x <> y \/ p = Root -> (ry = c' -> cy <= ry) -> mspec s (MMul x p y) s
| SScale x p r c r' c' v : is_shape s x r c -> vshape p r c = Some (r', c') -> lin_ok p r c -> mspec s (MScale x p v) s
| SGet x p r c r' c' i j : is_shape s x r c -> vshape p r c = Some (r', c') -> i < r' -> j < c' -> mspec s (MGet x p i j) s
| SDestroy x : s x <> None -> mspec s (MDestroy x) (shset s x None).
Inductive mhist {T} : shapes -> list (@mop T) -> shapes -> Prop :=
| HNil s : mhist s nil s
| HCons s c s1 cs s2 : mspec s c s1 -> mhist s1 cs s2 -> mhist s (c :: cs) s2.

(** The matrix [m] is in order: it reports shape r x c, stores r*c elements and every
    element can be read. *)
Definition in_order {T} (m : Matrix T) (r c : nat) : Prop :=
  mrows (mb_of_mat m) = r /\ mcols (mb_of_mat m) = c /\ msize (mb_of_mat m) = r * c /\ length (data m) = r * c /\
  forall i j, i < r -> j < c -> exists v, mget (mb_of_mat m) i j = Ok v.
(** A moved-from matrix still reports a shape but has no elements. *)
Definition moved_from {T} (m : Matrix T) : Prop :=
  0 < msize (mb_of_mat m) /\ data m = nil /\ forall i j, mget (mb_of_mat m) i j = UB.

Section Proofs.
Context {T : Type} {O : Ops T}.
Definition good (a : option (option (nat * nat))) (b : option (Matrix T)) : Prop :=
  match a with
  | None => b = None
  | Some None => exists m, b = Some m /\ shape_ok (rows m) (cols m) /\ 0 < rows m * cols m /\ data m = nil
  | Some (Some (r, c)) => exists m f, b = Some m /\ is_mat m r c f
  end.
Definition ME (s : shapes) (e : @menv T) : Prop := forall x, good (s x) (e x).

Lemma ME_look s e x r c : ME s e -> is_shape s x r c -> exists m f, mlook e x = Ok m /\ e x = Some m /\ is_mat m r c f.
Proof. intros H Hx. specialize (H x). rewrite Hx in H. destruct H as (m & f & E & Q). exists m, f. unfold mlook. rewrite E. auto. Qed.
Lemma ME_any s e x : ME s e -> s x <> None -> exists m, mlook e x = Ok m /\ e x = Some m.
Proof.
  intros H Hx. specialize (H x). unfold mlook. destruct (s x) as [[[r c]|]|]; [| |congruence].
  - destruct H as (m & f & -> & _). eauto.
  - destruct H as (m & -> & _). eauto.
Qed.
Lemma ME_fresh s e x : ME s e -> s x = None -> mfresh e x = Ok tt.
Proof. intros H Hx. specialize (H x). rewrite Hx in H. cbn in H. unfold mfresh. rewrite H. reflexivity. Qed.
Lemma ME_upd s e x a b : ME s e -> good a b -> ME (shset s x a) (mbind e x b).
Proof. intros H G y. unfold shset, mbind. destruct (y =? x); auto. Qed.
Lemma ME_same s e x m r c f : ME s e -> is_shape s x r c -> is_mat m r c f -> ME s (mbind e x (Some m)).
Proof. intros H Hx Q y. unfold mbind. destruct (Nat.eqb_spec y x) as [->|]; auto. rewrite Hx. cbn. eauto. Qed.
Lemma ME_id s e x m : ME s e -> e x = Some m -> ME s (mbind e x (Some m)).
Proof. intros H Hx y. unfold mbind. destruct (Nat.eqb_spec y x) as [->|]; auto. rewrite <- Hx. auto. Qed.

(** The statement runs, or throws and leaves everything as it was. *)
Definition steps (s : shapes) (e : @menv T) (c : @mop T) (s' : shapes) : Prop :=
  (exists e', mstep e c = Ok e' /\ ME s' e') \/ (mstep e c = Throw /\ ME s' e).

Lemma table_elem (ll : list (list T)) r c : table ll r c ->
  (forall row, nth_error ll 0 = Some row -> length row = c) /\
  (forall i j, i < r -> j < c -> exists row, nth_error ll i = Some row /\ nth_error row j = Some (nth j (nth i ll nil) o0)).
Proof.
  intros (H1 & H2 & H3 & H4). split.
  - intros row E. apply H4. eapply nth_error_In; eauto.
  - intros i j Hi Hj. destruct (nth_error_lt ll i) as (row & E); [lia|]. exists row. split; auto.
    rewrite (nth_error_nth ll i nil E). apply nth_error_nth'. rewrite (H4 row); auto. eapply nth_error_In; eauto.
Qed.
Lemma vstate_mat p r c r' c' f h (m : Matrix T) : vstate p r c r' c' f h m -> exists f', is_mat m r c f'.
Proof. intros (f' & H & _). eauto. Qed.
Lemma keep_same s e x r c f m' : ME s e -> is_shape s x r c -> is_mat m' r c f ->
  exists e', keep e x (Ok m') = Ok e' /\ ME s e'.
Proof. intros. eexists. split; [reflexivity|]. eapply ME_same; eauto. Qed.

Lemma step_ok s e c s' : ME s e -> mspec s c s' -> steps s e c s'.
Proof.
  intros HM Hs. unfold steps. destruct Hs; cbn [mstep].
  - left. rewrite (ME_fresh s e x) by auto. cbn. eexists. split; [reflexivity|]. apply ME_upd; auto.
    exists mat_empty, (fun _ _ => o0). split; auto. repeat split; auto. intros i j Hi. lia.
  - left. rewrite (ME_fresh s e x) by auto. cbn [bind]. destruct (mat_new_ok r c v) as (m & -> & Q); auto. cbn.
    eexists. split; [reflexivity|]. apply ME_upd; auto. cbn. eauto.
  - left. rewrite (ME_fresh s e x) by auto. cbn [bind]. destruct (mat_of_list_ok r c l H0 H1 o0) as (m & -> & Q). cbn.
    eexists. split; [reflexivity|]. apply ME_upd; auto. cbn. eauto.
  - left. rewrite (ME_fresh s e x) by auto. cbn [bind]. destruct (table_elem ll r c H0) as (T1 & T2). destruct H0 as (L & P1 & P2 & _).
    destruct (mat_of_nested_ok ll r c (fun i j => nth j (nth i ll nil) o0)) as (m & -> & Q); auto. cbn.
    eexists. split; [reflexivity|]. apply ME_upd; auto. cbn. eauto.
  - right. rewrite (ME_fresh s e x) by auto. cbn [bind]. destruct H0 as [->|(rest & ->)]; auto.
  - left. rewrite (ME_fresh s e x) by auto. cbn [bind]. destruct (ME_look s e y r c HM H0) as (m & f & -> & _ & Q). cbn [bind].
    destruct (mat_of_mb_ok (vmb p m) r' c' (vsel p f)) as (m' & -> & Q'). { eapply vmb_readsL; eauto. } cbn.
    eexists. split; [reflexivity|]. apply ME_upd; auto. cbn. eauto.
  - left. rewrite (ME_fresh s e x) by auto. cbn [bind]. destruct (ME_look s e y r c HM H0) as (m & f & -> & Ey & Q). cbn [bind].
    eexists. split; [reflexivity|]. apply ME_upd.
    + assert (Q' := Q). destruct Q' as (Er & Ec & Es & El & _). cbn [mat_move_ctor snd]. destruct (Nat.eqb_spec (r * c) 0) as [E0|E0].
      * assert (mkM (rows m) (cols m) nil = m) as ->. { rewrite E0 in El. destruct m as [a b d]. cbn in *. destruct d; [auto|discriminate]. }
        apply ME_id; auto.
      * apply ME_upd; auto. eexists. split; [reflexivity|]. cbn. rewrite Er, Ec. repeat split; auto; try apply Es. lia.
    + exists m, f. split; auto. destruct m; reflexivity.
  - left. destruct (ME_any s e x HM H) as (mx & -> & Ex). destruct (ME_look s e y r c HM H1) as (m & f & -> & Ey & Q). cbn [bind].
    destruct (Nat.eqb_spec x y); [congruence|]. assert (HR := vmb_reads p m r c f r' c' Q H2).
    destruct (Nat.eqb_spec (r' * c') 0) as [E0|E0].
    + rewrite mat_assign_empty. 2:{ destruct HR as (_ & _ & -> & _). auto. } eexists. split; [reflexivity|]. apply ME_id; auto.
    + destruct (mat_assign_ok _ mx r' c' _ HR) as (m' & -> & Q'); [lia|]. eexists. split; [reflexivity|]. apply ME_upd; auto. cbn. eauto.
  - left. destruct (ME_any s e x HM H) as (mx & -> & Ex). cbn [bind]. rewrite Nat.eqb_refl. eauto.
  - left. destruct (ME_any s e x HM H) as (mx & -> & Ex). destruct (ME_look s e y r c HM H1) as (m & f & -> & Ey & Q). cbn [bind].
    destruct (Nat.eqb_spec x y); [congruence|]. assert (Q' := Q). destruct Q' as (Er & Ec & Es & El & _).
    unfold mat_move_assign. rewrite Er, Ec, mul64_small by (apply shape_size; auto). eexists. split; [reflexivity|].
    destruct (Nat.eqb_spec (r * c) 0) as [E0|E0]; cbn [fst snd].
    + assert (ME s (mbind e y (Some m))) by (apply ME_id; auto).
      apply ME_id; auto. unfold mbind. destruct (Nat.eqb_spec x y); congruence.
    + apply ME_upd. { apply ME_upd; auto. eexists. split; [reflexivity|]. cbn. repeat split; auto; try apply Es. lia. }
      exists m, f. split; auto. destruct m; cbn in *; congruence.
  - left. destruct (ME_any s e x HM H) as (mx & -> & Ex). destruct (ME_any s e y HM) as (my & -> & Ey); [congruence|]. cbn [bind].
    destruct (Nat.eqb_spec x y); [congruence|]. assert (G := HM y). rewrite H1 in G. destruct G as (m & Em & G1 & G2 & G3).
    assert (m = my) by congruence. subst m. unfold mat_move_assign. rewrite mul64_small by (apply shape_size; auto).
    destruct (Nat.eqb_spec (rows my * cols my) 0); [lia|]. eexists. split; [reflexivity|]. cbn [fst snd].
    apply ME_upd; [|cbn; eauto]. assert (mkM (rows my) (cols my) nil = my) as -> by (destruct my; cbn in *; congruence). apply ME_id; auto.
  - left. destruct (ME_any s e x HM H) as (mx & -> & Ex). cbn [bind]. rewrite Nat.eqb_refl. eauto.
  - left. destruct (ME_any s e x HM H) as (mx & -> & Ex). cbn [bind]. destruct (table_elem ll r c H0) as (T1 & T2). destruct H0 as (L & P1 & P2 & _).
    destruct (mat_of_nested_ok ll r c (fun i j => nth j (nth i ll nil) o0)) as (m & E & Q); auto.
    assert (mat_assign_nested mx ll = Ok m) as ->.
    { unfold mat_assign_nested. destruct ll as [|first rest]; [cbn in L; lia|]. destruct first as [|a first].
      { specialize (T1 nil eq_refl). cbn in T1. lia. } exact E. }
    cbn. eexists. split; [reflexivity|]. apply ME_upd; auto. cbn. eauto.
  - left. destruct (ME_any s e x HM H) as (mx & -> & Ex). cbn [bind]. exists (mbind e x (Some mx)).
    split; [destruct H0 as [->|(rest & ->)]; reflexivity|]. apply ME_id; auto.
  - left. destruct (ME_look s e x r c HM H) as (m & f & -> & Ex & Q). cbn [bind].
    destruct (mat_resize_ok m r c f r' c' Q H0) as (m' & -> & Q'). cbn. eexists. split; [reflexivity|]. apply ME_upd; auto. cbn. eauto.
  - destruct (ME_look s e x r c HM H) as (m & f & -> & Ex & Q). cbn [bind]. destruct (Nat.eqb_spec (r' * c') (r * c)) as [E|E].
    + left. destruct (mat_reshape_ok m r c f r' c' Q) as (m' & Em & Q'); auto. rewrite Em. cbn. eexists. split; [reflexivity|].
      apply ME_upd; auto. cbn. destruct Q'. eauto.
    + right. rewrite (mat_reshape_throw m r c f r' c') by auto. auto.
  - destruct (ME_look s e x r c HM H) as (m & f & -> & Ex & Q). cbn [bind]. destruct (Nat.ltb_spec k r) as [E|E].
    + left. destruct (remove_row_ok m r c f k Q E) as (m' & -> & Q'). cbn. eexists. split; [reflexivity|]. apply ME_upd; auto. cbn. eauto.
    + right. rewrite remove_row_throw; auto. destruct Q as (-> & _). auto.
  - destruct (ME_look s e x r c HM H) as (m & f & -> & Ex & Q). cbn [bind]. destruct (Nat.ltb_spec k c) as [E|E].
    + left. destruct (remove_column_ok m r c f k Q E) as (m' & -> & Q'). cbn. eexists. split; [reflexivity|]. apply ME_upd; auto. cbn. eauto.
    + right. rewrite remove_column_throw; auto. destruct Q as (_ & -> & _). auto.
  - left. destruct (ME_look s e x r c HM H) as (m & f & -> & Ex & Q). cbn [bind].
    destruct (swap_rows_ok p r c r' c' f m i j c0 c1 Q) as (m' & -> & Q'); auto. destruct (vstate_mat _ _ _ _ _ _ _ _ Q') as (f3 & Q3). exact (keep_same s e x r c f3 m' HM H Q3).
  - left. destruct (ME_look s e x r c HM H) as (m & f & -> & Ex & Q). cbn [bind].
    destruct (swap_cols_ok p r c r' c' f m i j r0 r1 Q) as (m' & -> & Q'); auto. destruct (vstate_mat _ _ _ _ _ _ _ _ Q') as (f3 & Q3). exact (keep_same s e x r c f3 m' HM H Q3).
  - left. destruct (ME_look s e x r c HM H) as (m & f & -> & Ex & Q). cbn [bind].
    destruct (vset_ok p m r c f r' c' i j v Q) as (m' & -> & Q'); auto. eapply keep_same; eauto.
  - left. destruct (ME_look s e x r c HM H) as (m & f & -> & Ex & Q). destruct (ME_look s e y r' c' HM H2) as (my & fy & -> & Ey & Qy). cbn [bind].
    destruct (Nat.eqb_spec x y); [congruence|].
    destruct (view_assign_const p (mb_of_mat my) m r c f r' c' fy Q) as (m' & f' & -> & Q' & _); auto; [apply is_mat_reads; auto|]. eapply keep_same; eauto.
  - destruct (ME_look s e x r c HM H) as (m & f & -> & Ex & Q). destruct (ME_look s e y ry cy HM H2) as (my & fy & -> & Ey & Qy). cbn [bind].
    destruct (C32_inplace_add m r c f p r' c' Q H0 H1) as (G1 & G2). destruct (Nat.eqb_spec x y) as [<-|N].
    + left. destruct H3 as [H3|H3]; [congruence|]. subst p. destruct G2 as (m' & E & Q'). cbn [vmb] in E.
      change (fun m0 : Matrix T => mb_of_mat m0) with (@mb_of_mat T) in E.
      rewrite E. destruct (vstate_mat _ _ _ _ _ _ _ _ Q') as (f3 & Q3). exact (keep_same s e x r c f3 m' HM H Q3).
    + destruct (G1 (mb_of_mat my) ry cy fy) as (Gt & Gok); [apply is_mat_readsL; auto|].
      destruct (Nat.eq_dec r' ry) as [E1|N1]; [destruct (Nat.eq_dec c' cy) as [E2|N2]|].
      * left. destruct (Gok E1 E2) as (m' & -> & Q'). destruct (vstate_mat _ _ _ _ _ _ _ _ Q') as (f3 & Q3). exact (keep_same s e x r c f3 m' HM H Q3).
      * right. rewrite (proj2 Gt) by tauto. auto.
      * right. rewrite (proj2 Gt) by tauto. auto.
  - destruct (ME_look s e x r c HM H) as (m & f & -> & Ex & Q). destruct (ME_look s e y ry cy HM H2) as (my & fy & -> & Ey & Qy). cbn [bind].
    destruct (C32_inplace_sub m r c f p r' c' Q H0 H1) as (G1 & G2). destruct (Nat.eqb_spec x y) as [<-|N].
    + left. destruct H3 as [H3|H3]; [congruence|]. subst p. destruct G2 as (m' & E & Q'). cbn [vmb] in E.
      change (fun m0 : Matrix T => mb_of_mat m0) with (@mb_of_mat T) in E.
      rewrite E. destruct (vstate_mat _ _ _ _ _ _ _ _ Q') as (f3 & Q3). exact (keep_same s e x r c f3 m' HM H Q3).
    + destruct (G1 (mb_of_mat my) ry cy fy) as (Gt & Gok); [apply is_mat_readsL; auto|].
      destruct (Nat.eq_dec r' ry) as [E1|N1]; [destruct (Nat.eq_dec c' cy) as [E2|N2]|].
      * left. destruct (Gok E1 E2) as (m' & -> & Q'). destruct (vstate_mat _ _ _ _ _ _ _ _ Q') as (f3 & Q3). exact (keep_same s e x r c f3 m' HM H Q3).
      * right. rewrite (proj2 Gt) by tauto. auto.
      * right. rewrite (proj2 Gt) by tauto. auto.
  - destruct (ME_look s e x r c HM H) as (m & f & -> & Ex & Q). destruct (ME_look s e y ry cy HM H2) as (my & fy & -> & Ey & Qy). cbn [bind].
    set (src := if x =? y then _ else _).
    assert (Hsrc : reads (src m) ry cy fy).
    { unfold src. destruct (Nat.eqb_spec x y) as [<-|N]; apply is_mat_reads; congruence. }
    destruct (Nat.eq_dec c' ry) as [E1|N1].
    + left. destruct (m_imul_ok p src r c r' c' f m cy fy Q H0 H1) as (m' & -> & Q'). { rewrite E1. auto. } { specialize (H4 (eq_sym E1)). lia. }
      destruct (vstate_mat _ _ _ _ _ _ _ _ Q') as (f3 & Q3). exact (keep_same s e x r c f3 m' HM H Q3).
    + right. unfold m_imul. rewrite (vmb_cols p r c r' c' m f Q H0). destruct Hsrc as (-> & _).
      destruct (Nat.eqb_spec c' ry); [congruence|]. auto.
  - left. destruct (ME_look s e x r c HM H) as (m & f & -> & Ex & Q). cbn [bind].
    destruct (C32_inplace_mul_scalar v m r c f p r' c' Q H0 H1) as (m' & -> & Q'). destruct (vstate_mat _ _ _ _ _ _ _ _ Q') as (f3 & Q3). exact (keep_same s e x r c f3 m' HM H Q3).
  - left. destruct (ME_look s e x r c HM H) as (m & f & -> & Ex & Q). cbn [bind].
    destruct (vmb_reads p m r c f r' c' Q H0) as (_ & _ & _ & _ & Hg). rewrite Hg by auto. cbn. eauto.
  - left. destruct (ME_any s e x HM H) as (mx & -> & Ex). cbn. eexists. split; [reflexivity|]. apply ME_upd; auto. reflexivity.
Qed.
Lemma run_ok s cs s' : mhist s cs s' -> forall e, ME s e -> exists e', mrun e cs = Ok e' /\ ME s' e'.
Proof.
  induction 1 as [s|s c s1 cs s2 Hc Hh IH]; intros e HM; cbn [mrun]; [eauto|].
  destruct (step_ok s e c s1 HM Hc) as [(e1 & -> & H1)|(-> & H1)]; cbn [bind]; auto.
Qed.

(** After every legal history each matrix is in order, with the shape that the
    specification predicts, or is one that was moved from. *)
Theorem C04_shape_invariant : forall cs s, mhist (fun _ => None) cs s ->
  exists e : @menv T, mrun (fun _ => None) cs = Ok e /\
    forall x, match s x with
              | None => e x = None
              | Some None => exists m, e x = Some m /\ moved_from m
              | Some (Some (r, c)) => exists m, e x = Some m /\ in_order m r c
              end.
Proof.
  intros cs s H. destruct (run_ok _ cs s H (fun _ => None)) as (e & E & HM). { intros x. reflexivity. }
  exists e. split; auto. intros x. specialize (HM x). destruct (s x) as [[[r c]|]|]; auto.
  - destruct HM as (m & f & Ex & Q). exists m. split; auto. destruct (is_mat_reads _ _ _ _ Q) as (A & B & C & _ & D).
    split; [exact A|]. split; [exact B|]. split; [exact C|]. split; [apply Q|]. intros i j Hi Hj. exists (f i j). auto.
  - destruct HM as (m & Ex & S & P & D). exists m. split; auto. split; [cbn; rewrite mul64_small by (apply shape_size; auto); auto|].
    split; auto. intros i j. cbn. unfold mat_at. rewrite D. apply lget_ub. cbn. lia.
Qed.
End Proofs.

(** A legal history with construction, assignment, a failing reshape, removal, in-place
    arithmetic, moves and use of a moved-from target. *)
From Verif Require Import Scalar.
Definition ex_hist : list (@mop Z) :=
  [MFill 0 2 3 5%Z; MNested 1 [[1;2];[3;4]]%Z; MCopy 2 0 (PView (mkRange 0 2) (mkRange 1 3) Root); MAdd 2 Root 1; MAdd 2 Root 0;
   MReshape 0 7 7; MReshape 0 3 2; MRemoveRow 0 1; MMul 1 Root 2; MResize 1 4 1; MMove 3 2; MAssign 2 3 Root; MMoveAssign 2 0; MDestroy 3].
Example ex_C04 : exists s, mhist (fun _ => None) ex_hist s /\ s 0 = Some None /\ s 1 = Some (Some (4, 1)) /\ s 2 = Some (Some (2, 2)) /\ s 3 = None.
Proof.
  eexists. split.
  - unfold ex_hist.
    eapply HCons. { apply SFill; [reflexivity|]. repeat split; reflexivity. }
    eapply HCons. { apply (SNested _ _ _ 2 2); [reflexivity| |repeat split; reflexivity]. repeat split; try lia. intros row [<-|[<-|[]]]; reflexivity. }
    eapply HCons. { eapply (SCopy _ _ _ _ 2 3 2 2); reflexivity. }
    eapply HCons. { eapply (SAdd _ _ _ _ 2 2 2 2 2 2); try reflexivity; auto. }
    eapply HCons. { eapply (SAdd _ _ _ _ 2 2 2 2 2 3); try reflexivity; auto. }
    eapply HCons. { apply (SReshape _ _ 2 3); reflexivity. }
    eapply HCons. { apply (SReshape _ _ 2 3); reflexivity. }
    eapply HCons. { apply (SRemoveRow _ _ 3 2); reflexivity. }
    eapply HCons. { eapply (SMul _ _ _ _ 2 2 2 2 2 2); try reflexivity; auto. }
    eapply HCons. { apply (SResize _ _ 2 2); [reflexivity|]. repeat split; reflexivity. }
    eapply HCons. { apply (SMove _ _ _ 2 2); reflexivity. }
    eapply HCons. { eapply (SAssign _ _ _ _ 2 2 2 2); try reflexivity; discriminate. }
    eapply HCons. { apply (SMoveAssign _ _ _ 2 2); try reflexivity; discriminate. }
    eapply HCons. { apply SDestroy. discriminate. }
    apply HNil.
  - repeat split; reflexivity.
Qed.
