(** MathFacts.v: lemmas about the model of math.hpp. *)
From Verif Require Export UtilFacts2 MathM.
From Coq Require Import ZifyBool ZifyNat ZifyN.
Ltac Zify.zify_post_hook ::= Z.div_mod_to_equations.

Section M.
Context {T : Type} {O : Ops T}.
Implicit Types (A B : MB T) (p q : vpath).

Lemma osum_ext n (g1 g2 : nat -> T) : (forall k, k < n -> g1 k = g2 k) -> osum n g1 = osum n g2.
Proof. intros H. induction n as [|n IH]; cbn; auto. rewrite IH, H; auto. Qed.
(** accumulation loops *)
Lemma sum_loop n (body : nat -> T -> Res T) (g : nat -> T) :
  (forall i s, i < n -> body i s = Ok (oadd s (g i))) -> for_range 0 n body o0 = Ok (osum n g).
Proof.
  intros Hb. destruct (for_range_inv (fun k s => s = osum k g) 0 n body o0) as (s & E & Q); [lia|reflexivity| |].
  - intros i s Hi ->. rewrite Hb by lia. eexists. split; [reflexivity|]. reflexivity.
  - rewrite E, Q. reflexivity.
Qed.

(** * element-wise *)
Lemma mb_zip_ok {U} {OU : Ops U} (g : T -> T -> Res U) n A B r c fa fb (h : nat -> nat -> U) :
  readsL A r c fa -> readsL B r c fb -> n = r * c ->
  (forall i j, i < r -> j < c -> g (fa i j) (fb i j) = Ok (h i j)) ->
  exists m, mb_zip g n A B = Ok m /\ is_mat m r c h.
Proof.
  intros ((Ar & Ac & Az & As & _) & Al) ((Br & Bc & _ & _ & _) & Bl) -> Hg. unfold mb_zip.
  rewrite Ar, Ac, Br, Bc, !Nat.eqb_refl. cbn [negb].
  destruct (mat_new_ok r c o0 As) as (m & E & Hm). rewrite E. cbn [bind].
  eapply fill_lin_full; [exact Hm|]. intros k Hk. rewrite Al, Bl by auto. cbn [bind]. apply Hg; [eapply div_lt_rc|eapply mod_lt_rc]; eauto.
Qed.
Lemma mb_zip_throw {U} {OU : Ops U} (g : T -> T -> Res U) n A B :
  mrows A <> mrows B \/ mcols A <> mcols B -> mb_zip g n A B = Throw.
Proof. intros H. unfold mb_zip. nb. Qed.
Lemma mb_map_ok {U} {OU : Ops U} (g : T -> Res U) A r c fa (h : nat -> nat -> U) :
  readsL A r c fa -> (forall i j, i < r -> j < c -> g (fa i j) = Ok (h i j)) ->
  exists m, mb_map g A = Ok m /\ is_mat m r c h.
Proof.
  intros ((Ar & Ac & Az & As & _) & Al) Hg. unfold mb_map. rewrite Ar, Ac, Az.
  destruct (mat_new_ok r c o0 As) as (m & E & Hm). rewrite E. cbn [bind].
  eapply fill_lin_full; [exact Hm|]. intros k Hk. rewrite Al by auto. cbn [bind]. apply Hg; [eapply div_lt_rc|eapply mod_lt_rc]; eauto.
Qed.
Lemma vstate_dims p r c r' c' (f h : nat -> nat -> T) m : vshape p r c = Some (r', c') -> vstate p r c r' c' f h m ->
  mrows (vmb p m) = r' /\ mcols (vmb p m) = c' /\ msize (vmb p m) = r' * c'.
Proof. intros Hv H. destruct (vstate_reads _ _ _ _ _ _ _ _ Hv H) as (E1 & E2 & E3 & _). auto. Qed.

(** In-place update of the elements of a view, one after the other. *)
Lemma ilin_ok p r c r' c' (f : nat -> nat -> T) m (body : nat -> Matrix T -> Res T) (z : nat -> nat -> T) :
  is_mat m r c f -> vshape p r c = Some (r', c') -> lin_ok p r c ->
  (forall k m1, k < r' * c' ->
     vstate p r c r' c' f (fun i j => if i * c' + j <? k then z i j else vsel p f i j) m1 ->
     body k m1 = Ok (z (k / c') (k mod c'))) ->
  exists m', for_range 0 (r' * c') (fun i m => let* x := body i m in vlset p i x m) m = Ok m' /\
    vstate p r c r' c' f z m'.
Proof.
  intros H Hv Hl Hb.
  destruct (for_range_inv (fun k m => vstate p r c r' c' f (fun i j => if i * c' + j <? k then z i j else vsel p f i j) m) 0 (r' * c')
     (fun i m => let* x := body i m in vlset p i x m) m) as (m' & E & Q); [lia| | |].
  - eapply vstate_ext; [|apply vstate_init; exact H]. intros; cbn. reflexivity.
  - intros k m1 Hk Q. rewrite (Hb k m1) by (auto; lia). cbn [bind].
    destruct (vstate_lset p r c r' c' f _ m1 k (z (k / c') (k mod c')) Hv Hl Q) as (m2 & E2 & Q2); [lia|].
    exists m2. split; auto. eapply vstate_ext; [|exact Q2]. intros i j Hi Hj.
    replace (if i * c' + j <? S k then z i j else vsel p f i j) with
      (if i * c' + j <? S k then (fun t => z (t / c') (t mod c')) (i * c' + j) else vsel p f i j) by (cbn; rewrite idx_div, idx_mod; auto).
    rewrite <- (lin_step (fun t => z (t / c') (t mod c')) (vsel p f) k i j r' c') by (auto; lia).
    unfold fset. destruct (_ && _); auto. rewrite idx_div, idx_mod by auto. reflexivity.
  - exists m'. split; auto. eapply vstate_ext; [|exact Q]. intros i j Hi Hj. cbn.
    destruct (Nat.ltb_spec (i * c' + j) (r' * c')); auto. assert (i * c' + j < r' * c') by (apply idx_lt; auto). lia.
Qed.
Lemma mb_izip_ok gop p src r c r' c' (f : nat -> nat -> T) m fb (z : nat -> nat -> T) :
  is_mat m r c f -> vshape p r c = Some (r', c') -> lin_ok p r c ->
  mrows (src m) = r' -> mcols (src m) = c' ->
  (forall k m1, k < r' * c' ->
     vstate p r c r' c' f (fun i j => if i * c' + j <? k then z i j else vsel p f i j) m1 ->
     mlin (src m1) k = Ok (fb (k / c') (k mod c'))) ->
  (forall i j, i < r' -> j < c' -> gop (vsel p f i j) (fb i j) = Ok (z i j)) ->
  exists m', mb_izip gop p src m = Ok m' /\ vstate p r c r' c' f z m'.
Proof.
  intros H Hv Hl Sr Sc Hsrc Hg. unfold mb_izip.
  destruct (vstate_dims p r c r' c' f _ m Hv (vstate_init p m r c f r' c' H)) as (E1 & E2 & E3).
  rewrite E1, E2, E3, Sr, Sc, !Nat.eqb_refl. cbn [negb].
  destruct (ilin_ok p r c r' c' f m (fun i m => let* x := mlin (vmb p m) i in let* y := mlin (src m) i in gop x y) z H Hv Hl) as (m' & E & Q).
  - intros k m1 Hk Hs. rewrite (vstate_linear _ _ _ _ _ _ _ _ k Hv Hl Hs Hk). cbn [bind]. rewrite (Hsrc k m1 Hk Hs). cbn [bind].
    assert (L1 := div_lt_rc _ _ _ Hk). assert (L2 := mod_lt_rc _ _ _ Hk). rewrite (div_mod_rc _ _ _ Hk).
    destruct (Nat.ltb_spec k k); [lia|]. apply Hg; auto.
  - exists m'. split; auto. rewrite <- E. apply for_range_ext. intros i s Hi.
    destruct (mlin (vmb p s) i); auto. cbn [bind]. destruct (mlin (src s) i); auto.
Qed.
Lemma mb_imap_ok gop p r c r' c' f m (z : nat -> nat -> T) :
  is_mat m r c f -> vshape p r c = Some (r', c') -> lin_ok p r c ->
  (forall i j, i < r' -> j < c' -> gop (vsel p f i j) = Ok (z i j)) ->
  exists m', mb_imap gop p m = Ok m' /\ vstate p r c r' c' f z m'.
Proof.
  intros H Hv Hl Hg. unfold mb_imap.
  destruct (vstate_dims p r c r' c' f _ m Hv (vstate_init p m r c f r' c' H)) as (E1 & E2 & E3). rewrite E3.
  destruct (ilin_ok p r c r' c' f m (fun i m => let* x := mlin (vmb p m) i in gop x) z H Hv Hl) as (m' & E & Q).
  - intros k m1 Hk Hs. rewrite (vstate_linear _ _ _ _ _ _ _ _ k Hv Hl Hs Hk). cbn [bind].
    assert (L1 := div_lt_rc _ _ _ Hk). assert (L2 := mod_lt_rc _ _ _ Hk). rewrite (div_mod_rc _ _ _ Hk).
    destruct (Nat.ltb_spec k k); [lia|]. apply Hg; auto.
  - exists m'. split; auto. rewrite <- E. apply for_range_ext. intros i s Hi.
    destruct (mlin (vmb p s) i); auto.
Qed.
(** The operand is a view [q] of the same root, and no element it reads has been
    written before: for k < l, position l of q is not position k of p. *)
Definition no_overwrite p q c' n : Prop :=
  forall k t, k < t -> t < n -> vpos p (k / c') (k mod c') <> vpos q (t / c') (t mod c').
Lemma same_root_src p q r c r' c' (f z : nat -> nat -> T) : vshape p r c = Some (r', c') -> vshape q r c = Some (r', c') -> lin_ok q r c ->
  no_overwrite p q c' (r' * c') ->
  forall k m1, k < r' * c' ->
  vstate p r c r' c' f (fun i j => if i * c' + j <? k then z i j else vsel p f i j) m1 ->
  mlin (vmb q m1) k = Ok (vsel q f (k / c') (k mod c')).
Proof.
  intros Hv Hq Hl Hn k m1 Hk (f' & H & W1 & W2). rewrite (vmb_linear q m1 r c f' r' c' H Hq Hl k Hk). f_equal.
  unfold vsel. destruct (vpos q (k / c') (k mod c')) as (x, y) eqn:E. cbn [fst snd].
  assert (L1 := div_lt_rc _ _ _ Hk). assert (L2 := mod_lt_rc _ _ _ Hk).
  destruct (vpos_range q r c r' c' _ _ Hq L1 L2) as (B1 & B2). rewrite E in B1, B2. cbn [fst snd] in B1, B2.
  assert (D : (exists t, t < r' * c' /\ vpos p (t / c') (t mod c') = (x, y)) \/ (forall i j, i < r' -> j < c' -> vpos p i j <> (x, y))).
  { assert (G : forall n, n <= r' * c' -> (exists t, t < n /\ vpos p (t / c') (t mod c') = (x, y)) \/ (forall t, t < n -> vpos p (t / c') (t mod c') <> (x, y))).
    { induction n as [|n IH]; intros L; [right; intros; lia|]. destruct (IH ltac:(lia)) as [(t & Ht & Et)|N]; [left; exists t; split; auto; lia|].
      destruct (vpos p (n / c') (n mod c')) as (a, b) eqn:En. destruct (Nat.eq_dec a x) as [->|N1]; [destruct (Nat.eq_dec b y) as [->|N2]|].
      - left. exists n. split; auto; lia.
      - right. intros t Ht. destruct (Nat.eq_dec t n) as [->|]; [congruence|apply N; lia].
      - right. intros t Ht. destruct (Nat.eq_dec t n) as [->|]; [congruence|apply N; lia]. }
    destruct (G (r' * c') ltac:(lia)) as [D|D]; auto. right. intros i j Hi Hj. specialize (D (i * c' + j) (idx_lt _ _ _ _ Hi Hj)).
    rewrite idx_div, idx_mod in D by auto. exact D. }
  destruct D as [(t & Ht & Et)|D]; [|apply W2; auto].
  assert (T1 := div_lt_rc _ _ _ Ht). assert (T2 := mod_lt_rc _ _ _ Ht).
  specialize (W1 _ _ T1 T2). rewrite Et in W1. cbn [fst snd] in W1. rewrite W1, (div_mod_rc _ _ _ Ht).
  destruct (Nat.ltb_spec t k).
  - exfalso. apply (Hn t k); auto. congruence.
  - unfold vsel. rewrite Et. reflexivity.
Qed.
Lemma no_overwrite_same p r' c' : no_overwrite p p c' (r' * c').
Proof.
  intros k t Hk Ht E. apply vpos_inj in E. destruct E as (E1 & E2).
  assert (Q1 := div_mod_rc _ _ _ Ht). assert (Q2 := div_mod_rc k r' c' ltac:(lia)). rewrite E1, E2 in Q2. lia.
Qed.

(** * products *)
Lemma macc_ok m r c f i j v : is_mat m r c f -> i < r -> j < c ->
  exists m', macc m i j v = Ok m' /\ is_mat m' r c (fset f i j (oadd (f i j) v)).
Proof. intros H Hi Hj. unfold macc. rewrite (is_mat_at _ _ _ _ _ _ H Hi Hj). cbn. apply mat_set_ok; auto. Qed.
Lemma acc_loop m r c f i j n (g : nat -> T) (body : nat -> Matrix T -> Res (Matrix T)) :
  is_mat m r c f -> i < r -> j < c -> f i j = o0 ->
  (forall k m, k < n -> body k m = macc m i j (g k)) ->
  exists m', for_range 0 n body m = Ok m' /\ is_mat m' r c (fset f i j (osum n g)).
Proof.
  intros H Hi Hj H0 Hb.
  destruct (for_range_inv (fun k m => is_mat m r c (fset f i j (osum k g))) 0 n body m) as (m' & E & Q); [lia| | |].
  - eapply is_mat_ext; [exact H|]. intros a b Ha Hb'. unfold fset. destruct (Nat.eqb_spec a i) as [->|]; destruct (Nat.eqb_spec b j) as [->|]; cbn; auto.
  - intros k s Hk Q. rewrite Hb by lia. destruct (macc_ok s r c _ i j (g k) Q Hi Hj) as (s' & E & Q'). exists s'. split; auto.
    eapply is_mat_ext; [exact Q'|]. intros a b Ha Hb'. unfold fset. rewrite !Nat.eqb_refl. cbn.
    destruct (_ && _); auto.
  - eauto.
Qed.
Lemma mul_loop_ok A B r n cb cm fa fb m : reads A r n fa -> reads B n cb fb -> cb <= cm -> is_mat m r cm (fun _ _ => o0) ->
  exists m', mul_loop A B m = Ok m' /\ is_mat m' r cm (fun i j => if j <? cb then mprod n fa fb i j else o0).
Proof.
  intros (Ar & Ac & _ & _ & Ag) (Br & Bc & _ & _ & Bg) Hc Hm. unfold mul_loop. rewrite Ar, Br, Bc.
  destruct (for2_inv (fun i j m => is_mat m r cm (fun a b => if before i j a b && (b <? cb) then mprod n fa fb a b else o0)) r cb
    (fun i j m => for_range 0 n (fun k m => let* x := mget A i k in let* y := mget B k j in macc m i j (omul x y)) m) m) as (m' & E & Q).
  - eapply is_mat_ext; [exact Hm|]. intros a b Ha Hb. unfold before. replace (_ && _) with false by lia. reflexivity.
  - intros i j s Hi Hj Q.
    destruct (acc_loop s r cm _ i j n (fun k => omul (fa i k) (fb k j))
       (fun k m => let* x := mget A i k in let* y := mget B k j in macc m i j (omul x y)) Q Hi ltac:(lia)) as (s' & E & Q').
    + unfold before. replace (_ && _) with false by lia. reflexivity.
    + intros k s1 Hk. rewrite Ag, Bg by auto. reflexivity.
    + exists s'. split; auto. eapply is_mat_ext; [exact Q'|]. intros a b Ha Hb. unfold fset, before.
      destruct (Nat.eqb_spec a i) as [->|N1]; destruct (Nat.eqb_spec b j) as [->|N2]; cbn [andb orb].
      * destruct (Nat.ltb_spec i i); destruct (Nat.ltb_spec j (S j)); destruct (Nat.ltb_spec j cb); cbn; try lia; reflexivity.
      * destruct (Nat.ltb_spec i i); destruct (Nat.ltb_spec b (S j)); destruct (Nat.ltb_spec b j); cbn; try lia; reflexivity.
      * reflexivity.
      * reflexivity.
  - intros i s Hi Q. eapply is_mat_ext; [exact Q|]. intros a b Ha Hb. unfold before.
    destruct (Nat.ltb_spec a i); destruct (Nat.eqb_spec a i); destruct (Nat.ltb_spec b cb); destruct (Nat.ltb_spec a (S i)); destruct (Nat.eqb_spec a (S i)); cbn; try lia; reflexivity.
  - exists m'. split; auto. eapply is_mat_ext; [exact Q|]. intros a b Ha Hb. unfold before.
    destruct (Nat.ltb_spec a r); [|lia]. reflexivity.
Qed.
Lemma m_mul_ok A B r n c fa fb : reads A r n fa -> reads B n c fb -> shape_ok r c ->
  exists m, m_mul A B = Ok m /\ is_mat m r c (mprod n fa fb).
Proof.
  intros HA HB Hs. unfold m_mul. destruct HA as (Ar & Ac & HA'); destruct HB as (Br & Bc & HB').
  rewrite Ac, Br, Ar, Bc, Nat.eqb_refl. cbn [negb].
  destruct (mat_new_ok r c o0 Hs) as (m & E & Hm). rewrite E. cbn [bind].
  destruct (mul_loop_ok A B r n c c fa fb m) as (m' & E' & Q); auto. { split; auto. } { split; auto. }
  exists m'. split; auto. eapply is_mat_ext; [exact Q|]. intros i j Hi Hj. cbn. destruct (Nat.ltb_spec j c); auto; lia.
Qed.
(** In place: B has at most as many columns as rows. *)
Lemma m_imul_ok p src r c r' c' f m cb fb : is_mat m r c f -> vshape p r c = Some (r', c') -> lin_ok p r c ->
  reads (src m) c' cb fb -> cb <= c' ->
  exists m', m_imul p src m = Ok m' /\
    vstate p r c r' c' f (fun i j => if j <? cb then mprod c' (vsel p f) fb i j else o0) m'.
Proof.
  intros H Hv Hl HB Hcb. unfold m_imul.
  assert (HA := vmb_reads p m r c f r' c' H Hv).
  assert (Ea := HA). destruct Ea as (Ar & Ac & Az & As & _).
  assert (Eb := HB). destruct Eb as (Br & Bc & _). rewrite Ac, Br, Ar, Az, Nat.eqb_refl. cbn [negb].
  destruct (mat_new_ok r' c' o0 As) as (res & E & Hm). rewrite E. cbn [bind].
  destruct (mul_loop_ok (vmb p m) (src m) r' c' cb c' (vsel p f) fb res HA HB Hcb Hm) as (res' & E' & Q). rewrite E'. cbn [bind].
  apply ilin_ok; auto. intros k m1 Hk _. rewrite (is_mat_lin _ _ _ _ _ Q Hk). reflexivity.
Qed.
(** ... more columns than rows: the last row is written out of bounds. *)
Lemma mul_loop_ub A B r n cb fa fb m : reads A r n fa -> reads B n cb fb -> 0 < r -> 0 < n -> n < cb ->
  is_mat m r n (fun _ _ => o0) -> mul_loop A B m = UB.
Proof.
  intros (Ar & Ac & _ & As & Ag) (Br & Bc & _ & Bs & Bg) Hr Hn Hc Hm. unfold mul_loop. rewrite Ar, Br, Bc.
  assert (Sz : forall i j, i < r -> j < cb -> is_size (i * n + j)).
  { intros i j Hi Hj. destruct As as (_ & _ & As). destruct Bs as (_ & _ & Bs). unfold fits, alloc_max in *. unfold is_size, two64.
    assert (i * n <= r * n) by nia. assert (j <= n * cb) by nia. lia. }
  set (P := fun (m : Matrix T) => cols m = n /\ length (data m) = r * n).
  set (b3 := fun i j k m => let* x := mget A i k in let* y := mget B k j in macc m i j (omul x y)).
  assert (H3 : forall i j k s, i < r -> j < cb -> k < n -> P s -> (exists s', b3 i j k s = Ok s' /\ P s') \/ b3 i j k s = UB).
  { intros i j k s Hi Hj Hk (P1 & P2). unfold b3. rewrite Ag, Bg by auto. cbn [bind]. unfold macc, mat_at.
    destruct (lget_ok_ub (data s) (mat_idx s i j)) as [(x & E)|E]; rewrite E; cbn [bind]; auto.
    unfold mat_set, lset. destruct (Nat.ltb_spec (mat_idx s i j) (length (data s))); cbn [bind]; auto.
    left. eexists. split; [reflexivity|]. split; cbn; auto. rewrite upd_length. auto. }
  assert (H2 : forall i j s, i < r -> j < cb -> P s ->
     (exists s', for_range 0 n (b3 i j) s = Ok s' /\ P s') \/ for_range 0 n (b3 i j) s = UB).
  { intros i j s Hi Hj Hp. destruct (for_range_ok_ub_inv (fun _ s => P s) 0 n (b3 i j) s) as [E|E]; auto; [lia|].
    intros k s1 Hk Hp1. apply H3; auto. lia. }
  assert (U3 : forall s, P s -> for_range 0 n (b3 (r - 1) n) s = UB).
  { intros s (P1 & P2). rewrite for_range_first by auto. unfold b3 at 1. rewrite Ag, Bg by lia. cbn [bind]. unfold macc, mat_at, mat_idx.
    rewrite P1. rewrite mul64_small.
    - rewrite add64_small by (apply Sz; lia). rewrite lget_ub; [reflexivity|]. rewrite P2. nia.
    - apply (size_le _ ((r - 1) * n + 0)); [lia|]. apply Sz; lia. }
  assert (L2 : forall i s, i < r -> P s ->
     (exists s', for_range 0 cb (fun j => for_range 0 n (b3 i j)) s = Ok s' /\ P s' /\ i <> r - 1) \/ for_range 0 cb (fun j => for_range 0 n (b3 i j)) s = UB).
  { intros i s Hi Hp. destruct (for_range_ok_ub_inv (fun j s => P s /\ (n < j -> i <> r - 1)) 0 cb (fun j => for_range 0 n (b3 i j)) s) as [E|(s' & E & Q1 & Q2)]; auto; [lia| | |].
    - split; auto. lia.
    - intros j s1 Hj (Q1 & Q2). destruct (Nat.eq_dec i (r - 1)) as [->|N].
      + destruct (Nat.eq_dec j n) as [->|N2]; [right; apply U3; auto|].
        destruct (H2 (r-1) j s1 ltac:(lia) ltac:(lia) Q1) as [(s2 & E & Q)|E]; auto. left. exists s2. split; auto. split; auto. intros L. apply Q2. lia.
      + destruct (H2 i j s1 ltac:(lia) ltac:(lia) Q1) as [(s2 & E & Q)|E]; auto. left. exists s2. auto.
    - left. exists s'. auto. }
  destruct (for_range_ok_ub_inv (fun i s => P s /\ i <= r - 1) 0 r (fun i => for_range 0 cb (fun j => for_range 0 n (b3 i j))) m) as [E|(s' & E & Q1 & Q2)].
  - lia.
  - split; [|lia]. split; [apply Hm|apply Hm].
  - intros i s Hi (Q1 & Q2). destruct (L2 i s ltac:(lia) Q1) as [(s' & E & Q & N)|E]; auto. left. exists s'. split; auto. split; auto. lia.
  - exact E.
  - lia.
Qed.
Lemma m_mulv_ok A r c fa (b : list T) : reads A r c fa -> c <= length b -> fits r -> forall dflt,
  exists d, m_mulv A b = Ok d /\ is_vec d r (fun i => osum c (fun k => omul (fa i k) (nth k b dflt))).
Proof.
  intros (Ar & Ac & _ & As & Ag) Hb Fr dflt. unfold m_mulv. rewrite Ar, Ac.
  rewrite vec_new_ok by auto. cbn [bind].
  set (g := fun i k => omul (fa i k) (nth k b dflt)).
  destruct (for_range_inv (fun i d => length d = r /\ forall k, k < r -> nth_error d k = Some (if k <? i then osum c (g k) else o0)) 0 r
    (fun i d => for_range 0 c (fun j d => let* x := mget A i j in let* y := lget b j in let* z := lget d i in lset d i (oadd z (omul x y))) d) (repeat o0 r))
    as (d & E & L & Q); [lia| | |].
  - rewrite repeat_length. split; auto. intros k Hk. rewrite nth_error_repeat_lt by auto. nb.
  - intros i d Hi (L & Q).
    destruct (for_range_inv (fun j d' => length d' = r /\ forall k, k < r -> nth_error d' k = Some (if k =? i then osum j (g i) else if k <? i then osum c (g k) else o0)) 0 c
      (fun j d => let* x := mget A i j in let* y := lget b j in let* z := lget d i in lset d i (oadd z (omul x y))) d) as (d' & E & L' & Q'); [lia| | |].
    + split; auto. intros k Hk. rewrite Q by auto. destruct (Nat.eqb_spec k i) as [->|]; cbn; auto. nb.
    + intros j s Hj (L1 & Q1). rewrite Ag by lia. cbn [bind]. rewrite (lget_ok b j (nth j b dflt)) by (apply nth_error_nth'; lia). cbn [bind].
      rewrite (lget_ok s i (osum j (g i))) by (rewrite Q1 by lia; rewrite Nat.eqb_refl; reflexivity). cbn [bind].
      rewrite lset_ok by lia. eexists. split; [reflexivity|]. rewrite upd_length. split; auto.
      intros k Hk. rewrite upd_nth_error by lia. destruct (Nat.eqb_spec k i) as [->|N]; [reflexivity|]. rewrite Q1 by auto.
      rewrite (proj2 (Nat.eqb_neq k i)) by auto. reflexivity.
    + exists d'. split; auto. split; auto. intros k Hk. rewrite Q' by auto. destruct (Nat.eqb_spec k i) as [->|]; nb.
  - exists d. split; auto. split; auto. split; auto. intros i Hi. rewrite Q by auto. nb; reflexivity.
Qed.
Lemma dot_ok (a b : list T) : length a = length b -> forall dflt,
  dot a b = Ok (osum (length a) (fun k => omul (nth k a dflt) (nth k b dflt))).
Proof.
  intros E dflt. unfold dot. rewrite <- E, Nat.eqb_refl. cbn [negb]. apply sum_loop.
  intros i s Hi. rewrite (lget_ok a i (nth i a dflt)), (lget_ok b i (nth i b dflt)) by (apply nth_error_nth'; lia). reflexivity.
Qed.
Lemma v_zip_ok {U} {OU : Ops U} (g : T -> T -> Res U) a b n fa fb (h : nat -> U) : is_vec a n fa -> is_vec b n fb ->
  (forall i, i < n -> g (fa i) (fb i) = Ok (h i)) -> exists d, v_zip g a b = Ok d /\ is_vec d n h.
Proof.
  intros Ha Hb Hg. unfold v_zip. rewrite (is_vec_list _ _ _ Ha), (is_vec_list _ _ _ Hb), Nat.eqb_refl. cbn [negb].
  assert (F : fits n) by apply Ha. rewrite vec_new_ok by auto. cbn [bind].
  destruct (vec_build (T:=U) (fun i => let* x := lget a i in let* y := lget b i in g x y) h n (repeat o0 n)) as (d & E & Q); auto. { apply repeat_length. }
  - intros i Hi. rewrite (is_vec_get _ _ _ _ Ha Hi), (is_vec_get _ _ _ _ Hb Hi). cbn. auto.
  - exists d. split; auto. rewrite <- E. apply for_range_ext. intros i s Hi. destruct (lget a i); auto. cbn [bind]. destruct (lget b i); auto.
Qed.
Lemma v_map_ok {U} {OU : Ops U} (g : T -> Res U) a n fa (h : nat -> U) : is_vec a n fa ->
  (forall i, i < n -> g (fa i) = Ok (h i)) -> exists d, v_map g a = Ok d /\ is_vec d n h.
Proof.
  intros Ha Hg. unfold v_map. rewrite (is_vec_list _ _ _ Ha).
  assert (F : fits n) by apply Ha. rewrite vec_new_ok by auto. cbn [bind].
  destruct (vec_build (T:=U) (fun i => let* x := lget a i in g x) h n (repeat o0 n)) as (d & E & Q); auto. { apply repeat_length. }
  - intros i Hi. rewrite (is_vec_get _ _ _ _ Ha Hi). cbn. auto.
  - exists d. split; auto. rewrite <- E. apply for_range_ext. intros i s Hi. destruct (lget a i); auto.
Qed.
Lemma v_izip_ok (g : T -> T -> Res T) src a n fa fb (h : nat -> T) : is_vec a n fa -> length (src a) = n ->
  (forall k d, k < n -> is_vec d n (fun i => if i <? k then h i else fa i) -> lget (src d) k = Ok (fb k)) ->
  (forall i, i < n -> g (fa i) (fb i) = Ok (h i)) -> exists d, v_izip g src a = Ok d /\ is_vec d n h.
Proof.
  intros Ha Hsl Hs Hg. unfold v_izip. rewrite (is_vec_list _ _ _ Ha), Hsl, Nat.eqb_refl. cbn [negb].
  destruct (for_range_inv (fun k d => is_vec d n (fun i => if i <? k then h i else fa i)) 0 n
    (fun i a => let* x := lget a i in let* y := lget (src a) i in let* z := g x y in lset a i z) a) as (d & E & Q); [lia| | |].
  - eapply is_vec_ext; [exact Ha|]. intros; reflexivity.
  - intros k d Hk Q. rewrite (is_vec_get _ _ _ k Q) by lia. cbn [bind]. rewrite (Hs k d) by (auto; lia). cbn [bind].
    destruct (Nat.ltb_spec k k); [lia|]. rewrite Hg by lia. cbn [bind]. rewrite lset_ok by (rewrite (is_vec_list _ _ _ Q); lia).
    eexists. split; [reflexivity|]. destruct Q as (Q1 & Q2 & Q3). split; [rewrite upd_length; auto|]. split; auto.
    intros i Hi. rewrite upd_nth_error by lia. destruct (Nat.eqb_spec i k) as [->|N]; [nb|]. rewrite Q3 by auto. nb.
  - exists d. split; auto. eapply is_vec_ext; [exact Q|]. intros i Hi. cbn. nb.
Qed.

(** * minimum and maximum *)
Section Best.
Variable lt : T -> T -> bool.
Hypothesis trans : forall x y z, lt x y = true -> lt y z = true -> lt x z = true.
Hypothesis irrefl : forall x, lt x x = false.
Hypothesis connected : forall x y, lt x y = false -> lt y x = false -> x = y.
Lemma best_step (g : nat -> T) n pos : first_least lt g n pos -> first_least lt g (S n) (if lt (g n) (g pos) then n else pos).
Proof.
  intros (H1 & H2 & H3). destruct (lt (g n) (g pos)) eqn:E.
  - split; [lia|]. split.
    + intros i Hi. destruct (Nat.eq_dec i n) as [->|N]; auto. destruct (lt (g i) (g n)) eqn:E2; auto.
      rewrite <- (H2 i ltac:(lia)). symmetry. eapply trans; eauto.
    + intros i Hi. destruct (lt (g n) (g i)) eqn:E2; auto. exfalso.
      specialize (H2 i Hi). destruct (lt (g i) (g n)) eqn:E3.
      * rewrite (trans _ _ _ E3 E) in H2. discriminate.
      * rewrite (connected _ _ E3 E2) in H2. congruence.
  - split; [lia|]. split; auto. intros i Hi. destruct (Nat.eq_dec i n) as [->|N]; auto. apply H2. lia.
Qed.
Lemma best_loop (g : nat -> T) (get : nat -> Res T) n : 0 < n -> (forall i, i < n -> get i = Ok (g i)) ->
  exists pos, for_range 1 n (fun i pos => let* x := get i in let* y := get pos in Ok (if lt x y then i else pos)) 0 = Ok pos /\ first_least lt g n pos.
Proof.
  intros Hn Hg. destruct (for_range_inv (fun k pos => first_least lt g k pos) 1 n
    (fun i pos => let* x := get i in let* y := get pos in Ok (if lt x y then i else pos)) 0) as (pos & E & Q); [lia| | |].
  - split; [lia|]. split; [|intros; lia]. intros i Hi. replace i with 0 by lia. apply irrefl.
  - intros k pos Hk Q. assert (pos < k) by apply Q. rewrite !Hg by lia. cbn. eexists. split; [reflexivity|]. apply best_step; auto.
  - eauto.
Qed.
End Best.
End M.
