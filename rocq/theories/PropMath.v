(** PropMath.v: property theorems about math.hpp for any element type. *)
From Verif Require Import MathFacts PropMatrix.
From Coq Require Import ZifyBool ZifyNat ZifyN.
Ltac Zify.zify_post_hook ::= Z.div_mod_to_equations.

Section Generic.
Context {T : Type} {O : Ops T}.
Implicit Types (A B : MB T) (p q : vpath).

Lemma zip_elementwise {U} {OU : Ops U} (g : T -> T -> Res U) (h : T -> T -> U) (n : MB T -> nat) :
  (forall x y, g x y = Ok (h x y)) -> (forall A r c f, readsL A r c f -> n A = r * c) ->
  elementwise (fun A B => mb_zip g (n A) A B) h.
Proof.
  intros Hg Hn A B ra ca fa rb cb fb HA HB.
  assert (G : ra = rb -> ca = cb -> exists m, mb_zip g (n A) A B = Ok m /\ is_mat m ra ca (fun i j => h (fa i j) (fb i j))).
  { intros <- <-. eapply mb_zip_ok; eauto. }
  split; auto. split.
  - intros E (E1 & E2). destruct (G E1 E2) as (m & Em & _). congruence.
  - intros N. apply mb_zip_throw. destruct HA as ((-> & -> & _) & _), HB as ((-> & -> & _) & _).
    destruct (Nat.eq_dec ra rb); destruct (Nat.eq_dec ca cb); auto.
Qed.
Lemma map_pointwise {U} {OU : Ops U} (g : T -> Res U) (h : T -> U) :
  (forall x, g x = Ok (h x)) -> pointwise (mb_map g) h.
Proof. intros Hg A r c f HA. eapply mb_map_ok; eauto. Qed.
Lemma vzip_velementwise {U} {OU : Ops U} (g : T -> T -> Res U) (h : T -> T -> U) :
  (forall x y, g x y = Ok (h x y)) -> velementwise (v_zip g) h.
Proof.
  intros Hg a b n fa k fb Ha Hb.
  assert (G : n = k -> exists d, v_zip g a b = Ok d /\ is_vec d n (fun i => h (fa i) (fb i))).
  { intros <-. eapply v_zip_ok; eauto. }
  split; auto. split.
  - intros E ->. destruct (G eq_refl) as (d & Ed & _). congruence.
  - intros N. unfold v_zip. rewrite (is_vec_list _ _ _ Ha), (is_vec_list _ _ _ Hb). nb.
Qed.
Lemma vmap_vpointwise {U} {OU : Ops U} (g : T -> Res U) (h : T -> U) :
  (forall x, g x = Ok (h x)) -> vpointwise (v_map g) h.
Proof. intros Hg a n f Ha. eapply v_map_ok; eauto. Qed.
Lemma izip_inplace (g : T -> T -> Res T) (h : T -> T -> T) :
  (forall x y, g x y = Ok (h x y)) -> inplace_elementwise (mb_izip g) h.
Proof.
  intros Hg m r c f p r' c' H Hv Hl. split.
  - intros B rb cb fb HB.
    assert (G : r' = rb -> c' = cb -> exists m', mb_izip g p (fun _ => B) m = Ok m' /\
          vstate p r c r' c' f (fun i j => h (vsel p f i j) (fb i j)) m').
    { intros <- <-. destruct HB as ((Br & Bc & _) & Bl). eapply (mb_izip_ok g p (fun _ => B) r c r' c' f m fb); eauto. }
    split; auto. split.
    + intros E (E1 & E2). destruct (G E1 E2) as (m' & Em & _). congruence.
    + intros N. unfold mb_izip.
      destruct (vstate_dims p r c r' c' f _ m Hv (vstate_init p m r c f r' c' H)) as (-> & -> & _).
      destruct HB as ((-> & -> & _) & _). nb.
  - assert (D := vstate_dims p r c r' c' f _ m Hv (vstate_init p m r c f r' c' H)).
    eapply (mb_izip_ok g p (vmb p) r c r' c' f m (vsel p f)); eauto; try apply D.
    intros k m1 Hk Hs. apply (same_root_src p p r c r' c' f (fun i j => h (vsel p f i j) (vsel p f i j))); auto. apply no_overwrite_same.
Qed.
Lemma vizip_inplace (g : T -> T -> Res T) (h : T -> T -> T) :
  (forall x y, g x y = Ok (h x y)) -> vinplace_elementwise (v_izip g) h.
Proof.
  intros Hg a n f Ha. split.
  - intros b k fb Hb.
    assert (G : n = k -> exists d, v_izip g (fun _ => b) a = Ok d /\ is_vec d n (fun i => h (f i) (fb i))).
    { intros <-. eapply (v_izip_ok g (fun _ => b) a n f fb); eauto; [apply Hb|]. intros; eapply is_vec_get; eauto. }
    split; auto. split.
    + intros E ->. destruct (G eq_refl) as (d & Ed & _). congruence.
    + intros N. unfold v_izip. rewrite (is_vec_list _ _ _ Ha), (is_vec_list _ _ _ Hb). nb.
  - eapply (v_izip_ok g (fun x => x) a n f f); eauto; [apply Ha|].
    intros k d Hk Q. rewrite (is_vec_get _ _ _ k Q) by auto. destruct (Nat.ltb_spec k k); auto; lia.
Qed.

(** * C32 *)
Lemma n_mul64 A r c (f : nat -> nat -> T) : readsL A r c f -> mul64 (mrows A) (mcols A) = r * c.
Proof. intros ((-> & -> & _ & Hs & _) & _). apply mul64_small. apply shape_size; auto. Qed.
Lemma n_msize A r c (f : nat -> nat -> T) : readsL A r c f -> msize A = r * c.
Proof. intros ((_ & _ & E & _) & _); auto. Qed.
Theorem C32_add : elementwise (T:=T) m_add oadd.
Proof. apply (zip_elementwise _ _ (fun A => mul64 (mrows A) (mcols A))); auto. exact n_mul64. Qed.
Theorem C32_sub : elementwise (T:=T) m_sub osub.
Proof. apply (zip_elementwise _ _ (fun A => mul64 (mrows A) (mcols A))); auto. exact n_mul64. Qed.
Theorem C32_add_scalar : forall s : T, pointwise (fun A => m_adds A s) (fun x => oadd x s).
Proof. intros s. apply map_pointwise. auto. Qed.
Theorem C32_sub_scalar : forall s : T, pointwise (fun A => m_subs A s) (fun x => osub x s).
Proof. intros s. apply map_pointwise. auto. Qed.
Theorem C32_mul_scalar : forall s : T,
  pointwise (fun A => m_muls A s) (fun x => omul x s) /\ pointwise (m_smul s) (fun x => omul x s).
Proof. intros s. split; apply map_pointwise; auto. Qed.
Theorem C32_div_scalar : forall (s : T) (quo : T -> T), (forall x, odiv x s = Ok (quo x)) ->
  pointwise (fun A => m_divs A s) quo.
Proof. intros s quo H. apply map_pointwise. auto. Qed.
(** Division by a scalar by which the element type cannot divide. *)
Theorem C32_div_undefined : forall (s : T), (forall x, odiv x s = UB) -> forall A r c f, readsL A r c f ->
  0 < r -> 0 < c -> m_divs A s = UB.
Proof.
  intros s Hs A r c f ((Ar & Ac & Az & Sh & _) & Hl) Hr Hc. unfold m_divs, mb_map. rewrite Ar, Ac, Az.
  destruct (mat_new_ok (T:=T) r c o0 Sh) as (m & E & _). rewrite E. cbn [bind]. unfold fill_lin.
  rewrite for_range_first by nia. rewrite Hl by nia. cbn [bind]. rewrite Hs. reflexivity.
Qed.
Theorem C32_inplace_add : inplace_elementwise (T:=T) m_iadd oadd.
Proof. apply izip_inplace; auto. Qed.
Theorem C32_inplace_sub : inplace_elementwise (T:=T) m_isub osub.
Proof. apply izip_inplace; auto. Qed.
Theorem C32_inplace_mul_scalar : forall s : T, inplace_pointwise (fun p => m_imuls p s) (fun x => omul x s).
Proof. intros s m r c f p r' c' H Hv Hl. eapply mb_imap_ok; eauto. Qed.
Theorem C32_inplace_div_scalar : forall (s : T) (quo : T -> T), (forall x, odiv x s = Ok (quo x)) ->
  inplace_pointwise (fun p => m_idivs p s) quo.
Proof. intros s quo Hq m r c f p r' c' H Hv Hl. eapply mb_imap_ok; eauto. Qed.
Theorem C32_vec_add : velementwise (T:=T) v_add oadd.
Proof. apply vzip_velementwise; auto. Qed.
Theorem C32_vec_sub : velementwise (T:=T) v_sub osub.
Proof. apply vzip_velementwise; auto. Qed.
Theorem C32_vec_mul : velementwise (T:=T) v_mul omul.
Proof. apply vzip_velementwise; auto. Qed.
Theorem C32_vec_add_scalar : forall s : T, vpointwise (fun a => v_adds a s) (fun x => oadd x s).
Proof. intros s. apply vmap_vpointwise; auto. Qed.
Theorem C32_vec_sub_scalar : forall s : T, vpointwise (fun a => v_subs a s) (fun x => osub x s).
Proof. intros s. apply vmap_vpointwise; auto. Qed.
Theorem C32_vec_mul_scalar : forall s : T, vpointwise (fun a => v_muls a s) (fun x => omul x s).
Proof. intros s. apply vmap_vpointwise; auto. Qed.
Theorem C32_vec_div_scalar : forall (s : T) (quo : T -> T), (forall x, odiv x s = Ok (quo x)) ->
  vpointwise (fun a => v_divs a s) quo.
Proof. intros s quo H. apply vmap_vpointwise; auto. Qed.
Theorem C32_vec_inplace_add : vinplace_elementwise (T:=T) v_iadd oadd.
Proof. apply vizip_inplace; auto. Qed.
Theorem C32_vec_inplace_sub : vinplace_elementwise (T:=T) v_isub osub.
Proof. apply vizip_inplace; auto. Qed.
(** The in-place forms leave in A what the binary forms return. *)
Theorem C32_inplace_is_binary : forall m r c f B rb cb fb, is_mat m r c f -> readsL B rb cb fb ->
  m_iadd Root (fun _ => B) m = m_add (mb_of_mat m) B /\ m_isub Root (fun _ => B) m = m_sub (mb_of_mat m) B.
Proof.
  intros m r c f B rb cb fb H HB. assert (HA := is_mat_readsL _ _ _ _ H).
  assert (V : forall h m', vstate Root r c r c f h m' -> is_mat m' r c h).
  { intros h m' (f' & Hf & W1 & _). eapply is_mat_ext; [exact Hf|]. intros i j Hi Hj. apply (W1 i j Hi Hj). }
  split.
  - destruct (C32_add _ _ _ _ _ _ _ _ HA HB) as (T1 & G1). destruct (C32_inplace_add m r c f Root r c H eq_refl I) as (G & _).
    destruct (G B rb cb fb HB) as (T2 & G2).
    destruct (Nat.eq_dec r rb) as [E1|N1]; [destruct (Nat.eq_dec c cb) as [E2|N2]|].
    + destruct (G1 E1 E2) as (m1 & -> & Q1). destruct (G2 E1 E2) as (m2 & -> & Q2). f_equal. eapply is_mat_unique; [|exact Q1]. apply V; auto.
    + rewrite (proj2 T1), (proj2 T2); tauto.
    + rewrite (proj2 T1), (proj2 T2); tauto.
  - destruct (C32_sub _ _ _ _ _ _ _ _ HA HB) as (T1 & G1). destruct (C32_inplace_sub m r c f Root r c H eq_refl I) as (G & _).
    destruct (G B rb cb fb HB) as (T2 & G2).
    destruct (Nat.eq_dec r rb) as [E1|N1]; [destruct (Nat.eq_dec c cb) as [E2|N2]|].
    + destruct (G1 E1 E2) as (m1 & -> & Q1). destruct (G2 E1 E2) as (m2 & -> & Q2). f_equal. eapply is_mat_unique; [|exact Q1]. apply V; auto.
    + rewrite (proj2 T1), (proj2 T2); tauto.
    + rewrite (proj2 T1), (proj2 T2); tauto.
Qed.

(** * C19 *)
(** [V += V] and [V -= V] for a matrix or view V ([vmb p] is V as seen at each step). *)
Theorem C19_self_add : forall m r c f p r' c', is_mat m r c f -> vshape p r c = Some (r', c') -> lin_ok p r c ->
  exists m', m_iadd p (vmb p) m = Ok m' /\ vstate p r c r' c' f (fun i j => oadd (vsel p f i j) (vsel p f i j)) m'.
Proof. intros m r c f p r' c' H Hv Hl. apply (C32_inplace_add m r c f p r' c' H Hv Hl). Qed.
Theorem C19_self_sub : (forall x : T, osub x x = o0) ->
  forall m r c f p r' c', is_mat m r c f -> vshape p r c = Some (r', c') -> lin_ok p r c ->
  exists m', m_isub p (vmb p) m = Ok m' /\ vstate p r c r' c' f (fun _ _ => o0) m'.
Proof.
  intros H0 m r c f p r' c' H Hv Hl. destruct (C32_inplace_sub m r c f p r' c' H Hv Hl) as (_ & m' & E & Q).
  exists m'. split; auto. eapply vstate_ext; [|exact Q]. intros; apply H0.
Qed.
(** The operand may be another view of the same matrix, as long as no element of it
    is overwritten before it is read. *)
Theorem C19_same_matrix : forall m r c f p q r' c', is_mat m r c f ->
  vshape p r c = Some (r', c') -> lin_ok p r c -> vshape q r c = Some (r', c') -> lin_ok q r c ->
  (forall k t, k < t -> t < r' * c' -> vpos p (k / c') (k mod c') <> vpos q (t / c') (t mod c')) ->
  exists m', m_iadd p (vmb q) m = Ok m' /\ vstate p r c r' c' f (fun i j => oadd (vsel p f i j) (vsel q f i j)) m'.
Proof.
  intros m r c f p q r' c' H Hv Hl Hq Hlq Hn.
  assert (D := vstate_dims q r c r' c' f _ m Hq (vstate_init q m r c f r' c' H)).
  eapply (mb_izip_ok (fun x y => Ok (oadd x y)) p (vmb q) r c r' c' f m (vsel q f)); eauto; try apply D.
  intros k m1 Hk Hs. apply (same_root_src p q r c r' c' f (fun i j => oadd (vsel p f i j) (vsel q f i j))); auto.
Qed.

(** * C33 *)
Theorem C33_product : forall A B ra ca fa rb cb fb, reads A ra ca fa -> reads B rb cb fb -> shape_ok ra cb ->
  (m_mul A B = Throw <-> ca <> rb) /\
  (ca = rb -> exists m, m_mul A B = Ok m /\ is_mat m ra cb (mprod ca fa fb)).
Proof.
  intros A B ra ca fa rb cb fb HA HB Hs.
  assert (G : ca = rb -> exists m, m_mul A B = Ok m /\ is_mat m ra cb (mprod ca fa fb)).
  { intros <-. apply m_mul_ok; auto. }
  split; auto. split.
  - intros E ->. destruct (G eq_refl) as (m & Em & _). congruence.
  - intros N. unfold m_mul. destruct HA as (_ & -> & _), HB as (-> & _). nb.
Qed.

(** * C34 *)
Theorem C34_throws : forall m r c f p r' c' (src : Matrix T -> MB T), is_mat m r c f -> vshape p r c = Some (r', c') ->
  c' <> mrows (src m) -> m_imul p src m = Throw.
Proof.
  intros m r c f p r' c' src H Hv N. unfold m_imul. destruct (vmb_reads p m r c f r' c' H Hv) as (_ & -> & _). nb.
Qed.
(** B square: [V *= B]; B may be any object, in particular V itself or another view
    of the same matrix ([src m] is B when the statement starts). *)
Theorem C34_square : forall m r c f p r' c' src fb, is_mat m r c f -> vshape p r c = Some (r', c') -> lin_ok p r c ->
  reads (src m) c' c' fb ->
  exists m', m_imul p src m = Ok m' /\ vstate p r c r' c' f (mprod c' (vsel p f) fb) m'.
Proof.
  intros m r c f p r' c' src fb H Hv Hl HB. destruct (m_imul_ok p src r c r' c' f m c' fb H Hv Hl HB ltac:(lia)) as (m' & E & Q).
  exists m'. split; auto. eapply vstate_ext; [|exact Q]. intros i j Hi Hj. cbn. nb.
Qed.
Corollary C34_self : forall m n f, is_mat m n n f ->
  exists m', m_imul Root (vmb Root) m = Ok m' /\ is_mat m' n n (mprod n f f).
Proof.
  intros m n f H. destruct (C34_square m n n f Root n n (vmb Root) f H eq_refl I (is_mat_reads _ _ _ _ H)) as (m' & E & f' & Hf & W & _).
  exists m'. split; auto. eapply is_mat_ext; [exact Hf|]. intros i j Hi Hj. apply (W i j Hi Hj).
Qed.
Theorem C34_same_as_product : forall m r n f B fb, is_mat m r n f -> reads B n n fb ->
  m_imul Root (fun _ => B) m = m_mul (mb_of_mat m) B.
Proof.
  intros m r n f B fb H HB.
  destruct (C34_square m r n f Root r n (fun _ => B) fb H eq_refl I HB) as (m' & -> & f' & Hf & W & _).
  destruct (m_mul_ok (mb_of_mat m) B r n n f fb (is_mat_reads _ _ _ _ H) HB (is_mat_shape _ _ _ _ H)) as (m2 & -> & Q2).
  f_equal. eapply is_mat_unique; [|exact Q2]. eapply is_mat_ext; [exact Hf|]. intros i j Hi Hj. apply (W i j Hi Hj).
Qed.
Theorem C34_fewer_columns : forall m r c f p r' c' src cb fb, is_mat m r c f -> vshape p r c = Some (r', c') -> lin_ok p r c ->
  reads (src m) c' cb fb -> cb < c' ->
  exists m', m_imul p src m = Ok m' /\
    vstate p r c r' c' f (fun i j => if j <? cb then mprod c' (vsel p f) fb i j else o0) m'.
Proof. intros m r c f p r' c' src cb fb H Hv Hl HB Hc. apply m_imul_ok; auto. lia. Qed.
Theorem C34_more_columns_undefined : forall m r c f p r' c' src cb fb, is_mat m r c f -> vshape p r c = Some (r', c') ->
  reads (src m) c' cb fb -> c' < cb -> 0 < r' -> 0 < c' -> m_imul p src m = UB.
Proof.
  intros m r c f p r' c' src cb fb H Hv HB Hc Hr Hc'. unfold m_imul.
  assert (HA := vmb_reads p m r c f r' c' H Hv). assert (Ea := HA). destruct Ea as (Ar & Ac & Az & As & _).
  assert (Eb := HB). destruct Eb as (Br & Bc & _). rewrite Ac, Br, Ar, Az, Nat.eqb_refl. cbn [negb].
  destruct (mat_new_ok (T:=T) r' c' o0 As) as (res & E & Hm). rewrite E. cbn [bind].
  rewrite (mul_loop_ub _ _ r' c' cb (vsel p f) fb res); auto.
Qed.

(** * C35 *)
Theorem C35_dot : forall a b n fa k fb, is_vec a n fa -> is_vec b k fb ->
  (dot a b = Throw <-> n <> k) /\ (n = k -> dot a b = Ok (osum n (fun i => omul (fa i) (fb i)))).
Proof.
  intros a b n fa k fb Ha Hb.
  assert (G : n = k -> dot a b = Ok (osum n (fun i => omul (fa i) (fb i)))).
  { intros <-. rewrite (dot_ok a b) with (dflt := o0) by (rewrite (is_vec_list _ _ _ Ha), (is_vec_list _ _ _ Hb); auto).
    rewrite (is_vec_list _ _ _ Ha). f_equal. apply osum_ext. intros i Hi. destruct Ha as (_ & _ & Ha), Hb as (_ & _ & Hb).
    rewrite (nth_error_nth _ _ _ (Ha i Hi)), (nth_error_nth _ _ _ (Hb i Hi)). reflexivity. }
  split; auto. split.
  - intros E F. rewrite (G F) in E. discriminate.
  - intros N. unfold dot. rewrite (is_vec_list _ _ _ Ha), (is_vec_list _ _ _ Hb). nb.
Qed.
Theorem C35_matvec : forall A r c f b n g, reads A r c f -> is_vec b n g -> c <= n -> fits r ->
  exists d, m_mulv A b = Ok d /\ is_vec d r (fun i => osum c (fun k => omul (f i k) (g k))).
Proof.
  intros A r c f b n g HA Hb Hc Hr. destruct (m_mulv_ok A r c f b HA ltac:(rewrite (is_vec_list _ _ _ Hb); auto) Hr o0) as (d & E & Q).
  exists d. split; auto. eapply is_vec_ext; [exact Q|]. intros i Hi. apply osum_ext. intros k Hk.
  destruct Hb as (_ & _ & Hb). rewrite (nth_error_nth _ _ _ (Hb k ltac:(lia))). reflexivity.
Qed.
Theorem C35_dot_matrix : forall A (b : list T), dot_mv A b = m_mulv A b.
Proof. reflexivity. Qed.
Theorem C35_matvec_undefined : forall A r c f (b : list T), reads A r c f -> length b < c -> 0 < r -> fits r -> m_mulv A b = UB.
Proof.
  intros A r c f b (Ar & Ac & _ & _ & Ag) Hb Hr Fr. unfold m_mulv. rewrite Ar, Ac, vec_new_ok by auto. cbn [bind].
  rewrite for_range_first by auto.
  match goal with |- (let* s' := for_range 0 c ?bd ?s in _) = UB => destruct (for_range_ok_ub_inv (fun j d => length d = r /\ j <= length b) 0 c bd s) as [E|(s' & E & L & L2)] end.
  - lia.
  - rewrite repeat_length. split; auto; lia.
  - intros j d Hj (L & L2). rewrite Ag by lia. cbn [bind]. destruct (Nat.eq_dec j (length b)) as [->|N].
    + right. rewrite lget_ub by lia. reflexivity.
    + left. destruct (nth_error b j) as [y|] eqn:Ey; [|apply nth_error_None in Ey; lia]. rewrite (lget_ok b j y Ey). cbn [bind].
      destruct (nth_error d 0) as [z|] eqn:Ez; [|apply nth_error_None in Ez; lia]. rewrite (lget_ok d 0 z Ez). cbn [bind].
      rewrite lset_ok by lia. eexists. split; [reflexivity|]. rewrite upd_length. split; auto. lia.
  - rewrite E. reflexivity.
  - lia.
Qed.
(** A*b is A times the one-column matrix of b. *)
Theorem C35_matvec_is_product : forall A r f b n g, reads A r n f -> is_vec b n g -> shape_ok r 1 ->
  exists bm m d, to_matrix b false = Ok bm /\ m_mul A (mb_of_mat bm) = Ok m /\ m_mulv A b = Ok d /\ to_vector m = Ok d.
Proof.
  intros A r f b n g HA Hb Hs. assert (Lb := is_vec_list _ _ _ Hb).
  destruct (to_matrix_ok b false ltac:(rewrite Lb; apply Hb) o0) as (bm & E & H). rewrite Lb in H.
  destruct (m_mul_ok A (mb_of_mat bm) r n 1 f _ HA (is_mat_reads _ _ _ _ H) Hs) as (m & E2 & H2).
  destruct (C35_matvec A r n f b n g HA Hb ltac:(lia) ltac:(destruct Hs as (_ & _ & Hs); rewrite Nat.mul_1_r in Hs; auto)) as (d & E3 & H3).
  exists bm, m, d. split; auto. split; auto. split; auto.
  destruct (to_vector_ok m r 1 _ H2) as (d' & E' & _ & H'). rewrite E'. f_equal. rewrite Nat.mul_1_r in H'.
  eapply is_vec_unique; [|exact H3]. eapply is_vec_ext; [exact H'|]. intros i Hi. cbn beta. rewrite Nat.div_1_r, Nat.mod_1_r.
  apply osum_ext. intros k Hk. destruct Hb as (_ & _ & Hb). rewrite (nth_error_nth _ _ _ (Hb k Hk)). reflexivity.
Qed.

(** * C36 *)
Theorem C36_compare : elementwise (T:=T) m_eq ofeq /\ elementwise (T:=T) m_ne (fun x y => negb (ofeq x y)) /\
  elementwise (T:=T) m_lt olt /\ elementwise (T:=T) m_le ole /\
  elementwise (T:=T) m_gt (fun x y => olt y x) /\ elementwise (T:=T) m_ge (fun x y => ole y x).
Proof. split; [|split; [|split; [|split; [|split]]]]; (apply (zip_elementwise _ _ msize); [auto|exact n_msize]). Qed.
Theorem C36_compare_scalar : forall s : T, pointwise (fun A => m_eqs A s) (fun x => ofeq x s) /\
  pointwise (fun A => m_nes A s) (fun x => negb (ofeq x s)) /\
  pointwise (fun A => m_lts A s) (fun x => olt x s) /\ pointwise (fun A => m_les A s) (fun x => ole x s) /\
  pointwise (fun A => m_gts A s) (fun x => olt s x) /\ pointwise (fun A => m_ges A s) (fun x => ole s x).
Proof. intros s. split; [|split; [|split; [|split; [|split]]]]; apply map_pointwise; auto. Qed.
Theorem C36_compare_vec : velementwise (T:=T) v_eq ofeq /\ velementwise (T:=T) v_ne (fun x y => negb (ofeq x y)) /\
  (forall s : T, vpointwise (fun a => v_eqs a s) (fun x => ofeq x s)) /\
  (forall s : T, vpointwise (fun a => v_nes a s) (fun x => negb (ofeq x s))).
Proof. split; [|split; [|split]]; try (intros s; apply vmap_vpointwise; auto); apply vzip_velementwise; auto. Qed.
(** A < B is B > A and A <= B is B >= A (also when they throw). *)
Theorem C36_mirror : forall A B ra ca fa rb cb fb, readsL A ra ca fa -> readsL B rb cb fb ->
  m_lt A B = m_gt B A /\ m_le A B = m_ge B A.
Proof.
  intros A B ra ca fa rb cb fb HA HB. destruct C36_compare as (_ & _ & L1 & L2 & G1 & G2).
  destruct (L1 A B _ _ _ _ _ _ HA HB) as (T1 & K1). destruct (L2 A B _ _ _ _ _ _ HA HB) as (T2 & K2).
  destruct (G1 B A _ _ _ _ _ _ HB HA) as (T3 & K3). destruct (G2 B A _ _ _ _ _ _ HB HA) as (T4 & K4).
  destruct (Nat.eq_dec ra rb) as [E1|N1]; [destruct (Nat.eq_dec ca cb) as [E2|N2]|].
  - destruct (K1 E1 E2) as (m1 & -> & Q1). destruct (K2 E1 E2) as (m2 & -> & Q2).
    destruct (K3 (eq_sym E1) (eq_sym E2)) as (m3 & -> & Q3). destruct (K4 (eq_sym E1) (eq_sym E2)) as (m4 & -> & Q4). subst rb cb.
    split; f_equal; eapply is_mat_unique; eauto.
  - rewrite (proj2 T1), (proj2 T2), (proj2 T3), (proj2 T4); try tauto; intros (? & ?); auto.
  - rewrite (proj2 T1), (proj2 T2), (proj2 T3), (proj2 T4); try tauto; intros (? & ?); auto.
Qed.

(** * C37 *)
Theorem C37_all : forall A r c f, readsL A r c f ->
  exists b, all_m A = Ok b /\ (b = true <-> forall i j, i < r -> j < c -> oeq (f i j) o0 = false).
Proof.
  intros A r c f ((_ & _ & Hz & _) & Hl). unfold all_m. rewrite Hz.
  destruct (all_range_spec (fun k => negb (oeq (f (k / c) (k mod c)) o0)) (fun i => let* x := mlin A i in Ok (negb (oeq x o0))) 0 (r * c)) as (b & E & Hb).
  - intros i Hi. rewrite Hl by lia. reflexivity.
  - exists b. split; auto. rewrite Hb. split.
    + intros H i j Hi Hj. specialize (H (i * c + j)). rewrite idx_div, idx_mod in H by auto.
      apply negb_true_iff. apply H. assert (i * c + j < r * c) by (apply idx_lt; auto). lia.
    + intros H k Hk. apply negb_true_iff. apply H; [eapply div_lt_rc|eapply mod_lt_rc]; apply Hk.
Qed.
Theorem C37_all_vec : forall v n f, is_vec v n f ->
  exists b, all_v v = Ok b /\ (b = true <-> forall i, i < n -> oeq (f i) o0 = false).
Proof.
  intros v n f Hv. unfold all_v. rewrite (is_vec_list _ _ _ Hv).
  destruct (all_range_spec (fun k => negb (oeq (f k) o0)) (fun i => let* x := lget v i in Ok (negb (oeq x o0))) 0 n) as (b & E & Hb).
  - intros i Hi. rewrite (is_vec_get _ _ _ i Hv) by lia. reflexivity.
  - exists b. split; auto. rewrite Hb. split.
    + intros H i Hi. apply negb_true_iff. apply H. lia.
    + intros H i Hi. apply negb_true_iff. apply H. lia.
Qed.
Theorem C37_any : forall A r c f, readsL A r c f ->
  exists b, any_m A = Ok b /\ (b = true <-> exists i j, i < r /\ j < c /\ oeq (f i j) o0 = false).
Proof.
  intros A r c f ((_ & _ & Hz & _) & Hl). unfold any_m. rewrite Hz.
  destruct (first_range_spec (fun k => if negb (oeq (f (k / c) (k mod c)) o0) then Some tt else None)
    (fun i => let* x := mlin A i in Ok (if negb (oeq x o0) then Some tt else None)) 0 (r * c)) as [(k & a & Hk & Ek & _ & E)|(Hn & E)].
  - intros i Hi. rewrite Hl by lia. reflexivity.
  - rewrite E. cbn. exists true. split; auto. split; auto. intros _. exists (k / c), (k mod c).
    split; [eapply div_lt_rc; apply Hk|]. split; [eapply mod_lt_rc; apply Hk|]. destruct (oeq _ _); auto; discriminate.
  - rewrite E. cbn. exists false. split; auto. split; [discriminate|]. intros (i & j & Hi & Hj & Hf).
    specialize (Hn (i * c + j)). rewrite idx_div, idx_mod, Hf in Hn by auto. cbn in Hn. assert (i * c + j < r * c) by (apply idx_lt; auto).
    discriminate Hn. lia.
Qed.
Theorem C37_any_vec : forall v n f, is_vec v n f ->
  exists b, any_v v = Ok b /\ (b = true <-> exists i, i < n /\ oeq (f i) o0 = false).
Proof.
  intros v n f Hv. unfold any_v. rewrite (is_vec_list _ _ _ Hv).
  destruct (first_range_spec (fun k => if negb (oeq (f k) o0) then Some tt else None)
    (fun i => let* x := lget v i in Ok (if negb (oeq x o0) then Some tt else None)) 0 n) as [(k & a & Hk & Ek & _ & E)|(Hn & E)].
  - intros i Hi. rewrite (is_vec_get _ _ _ i Hv) by lia. reflexivity.
  - rewrite E. cbn. exists true. split; auto. split; auto. intros _. exists k. split; [lia|]. destruct (oeq _ _); auto; discriminate.
  - rewrite E. cbn. exists false. split; auto. split; [discriminate|]. intros (i & Hi & Hf).
    specialize (Hn i ltac:(lia)). rewrite Hf in Hn. discriminate.
Qed.
Theorem C37_empty : forall A r c f, readsL A r c f -> r = 0 \/ c = 0 -> all_m A = Ok true /\ any_m A = Ok false.
Proof.
  intros A r c f H He. destruct (C37_all A r c f H) as (b & -> & Hb). destruct (C37_any A r c f H) as (b' & -> & Hb').
  split; f_equal; [apply Hb; intros; lia|]. destruct b'; auto. destruct (proj1 Hb' eq_refl) as (i & j & ? & ? & _). lia.
Qed.

(** * C38 *)
Lemma best_v_ok (lt : T -> T -> bool) v n f : strict_total lt -> is_vec v n f -> 0 < n ->
  exists pos, best_v lt v = Ok (f pos, pos) /\ first_least lt f n pos.
Proof.
  intros (I1 & I2 & I3) Hv Hn. unfold best_v. rewrite (is_vec_list _ _ _ Hv). destruct (Nat.eqb_spec n 0); [lia|].
  destruct (best_loop lt I2 I1 I3 f (lget v) n Hn) as (pos & E & Q). { intros; eapply is_vec_get; eauto. }
  rewrite E. cbn [bind]. rewrite (is_vec_get _ _ _ pos Hv) by apply Q. cbn. eauto.
Qed.
Lemma strict_total_flip {U} (lt : U -> U -> bool) : strict_total lt -> strict_total (fun x y => lt y x).
Proof. intros (A & B & C). repeat split; auto. intros x y z H1 H2. eauto. Qed.
Theorem C38_min : forall v n f, strict_total (T:=T) olt -> is_vec v n f -> 0 < n ->
  exists pos, min_v v = Ok (f pos, pos) /\ first_least olt f n pos.
Proof. intros. apply best_v_ok; auto. Qed.
Theorem C38_max : forall v n f, strict_total (T:=T) olt -> is_vec v n f -> 0 < n ->
  exists pos, max_v v = Ok (f pos, pos) /\ first_least (fun x y => olt y x) f n pos.
Proof. intros. apply best_v_ok; auto. apply strict_total_flip; auto. Qed.
Theorem C38_empty : min_v (@nil T) = Ok (o0, 0) /\ max_v (@nil T) = Ok (o0, 0).
Proof. split; reflexivity. Qed.
Lemma best_m_ok (lt : T -> T -> bool) m r c f : strict_total lt -> is_mat m r c f -> 0 < r -> 0 < c ->
  exists d g, best_m lt m = Ok d /\ is_vec d c g /\
    forall j, j < c -> exists pos, g j = f pos j /\ first_least lt (fun i => f i j) r pos.
Proof.
  intros (I1 & I2 & I3) H Hr Hc. assert (E := H). destruct E as (Er & Ec & Es & _). unfold best_m. rewrite Er, Ec.
  destruct (Nat.eqb_spec r 0); [lia|]. destruct (Nat.eqb_spec c 0); [lia|]. cbn [orb].
  assert (Fc : fits c). { apply (fits_le _ (r * c)); [nia|apply Es]. }
  rewrite vec_fill_ok by auto. cbn [bind].
  set (bod := fun j pos => for_range 1 r (fun i pos => let* x := mat_at m i j in let* y := mat_at m pos j in Ok (if lt x y then i else pos)) pos).
  destruct (for_range_inv (fun k d => length d = c /\ forall j, j < k -> exists pos, nth_error d j = Some (f pos j) /\ first_least lt (fun i => f i j) r pos) 0 c
    (fun j d => let* pos := bod j 0 in let* x := mat_at m pos j in lset d j x) (repeat o0 c)) as (d & E & L & Q); [lia| | |].
  - rewrite repeat_length. split; auto. intros; lia.
  - intros j d Hj (L & Q). destruct (best_loop lt I2 I1 I3 (fun i => f i j) (fun i => mat_at m i j) r Hr) as (pos & E & Hp).
    { intros i Hi. eapply is_mat_at; eauto; lia. }
    unfold bod. rewrite E. cbn [bind]. rewrite (is_mat_at _ _ _ _ pos j H) by (apply Hp || lia). cbn [bind]. rewrite lset_ok by lia.
    eexists. split; [reflexivity|]. rewrite upd_length. split; auto. intros k Hk. rewrite upd_nth_error by lia.
    destruct (Nat.eqb_spec k j) as [->|N]; eauto. apply Q. lia.
  - exists d, (fun j => nth j d o0). split; [exact E|]. split.
    + split; auto. split; auto. intros i Hi. apply nth_error_nth'. lia.
    + intros j Hj. destruct (Q j Hj) as (pos & E1 & E2). exists pos. split; auto. apply nth_error_nth. auto.
Qed.
Theorem C38_matrix_min : forall m r c f, strict_total (T:=T) olt -> is_mat m r c f -> 0 < r -> 0 < c ->
  exists d g, min_m m = Ok d /\ is_vec d c g /\
    forall j, j < c -> exists pos, g j = f pos j /\ first_least olt (fun i => f i j) r pos.
Proof. intros. apply best_m_ok; auto. Qed.
Theorem C38_matrix_max : forall m r c f, strict_total (T:=T) olt -> is_mat m r c f -> 0 < r -> 0 < c ->
  exists d g, max_m m = Ok d /\ is_vec d c g /\
    forall j, j < c -> exists pos, g j = f pos j /\ first_least (fun x y => olt y x) (fun i => f i j) r pos.
Proof. intros. apply best_m_ok; auto. apply strict_total_flip; auto. Qed.
Theorem C38_matrix_empty : forall m r c (f : nat -> nat -> T), is_mat m r c f -> r = 0 \/ c = 0 ->
  min_m m = Ok nil /\ max_m m = Ok nil.
Proof.
  intros m r c f (Er & Ec & _) H. unfold min_m, max_m, best_m. rewrite Er, Ec.
  assert (E : (r =? 0) || (c =? 0) = true) by lia. rewrite E. auto.
Qed.

(** * C39 *)
Theorem C39_sum : forall v n f, is_vec v n f -> sum v = Ok (osum n f).
Proof.
  intros v n f H. unfold sum. rewrite (is_vec_list _ _ _ H). apply sum_loop.
  intros i s Hi. rewrite (is_vec_get _ _ _ _ H Hi). reflexivity.
Qed.
Theorem C39_trace : forall A r c f, reads A r c f -> r <= c -> trace A = Ok (osum r (fun i => f i i)).
Proof.
  intros A r c f (Ar & _ & _ & _ & Hg) Hrc. unfold trace. rewrite Ar. apply sum_loop.
  intros i s Hi. rewrite Hg by lia. reflexivity.
Qed.
Theorem C39_trace_undefined : forall m r c (f : nat -> nat -> T), is_mat m r c f -> c < r -> trace (mb_of_mat m) = UB.
Proof.
  intros m r c f (Er & Ec & Es & L & Hd) Hrc. unfold trace. cbn [mrows mb_of_mat]. rewrite Er.
  match goal with |- for_range 0 r ?bd ?s = UB => destruct (for_range_ok_ub_inv (fun i _ => i <= r - 1) 0 r bd s) as [E|(s' & E & Q)]; auto; try lia end.
  intros i s Hi _. cbn [mget mb_of_mat]. unfold mat_at, mat_idx. rewrite Ec.
  destruct (Nat.eq_dec i (r - 1)) as [->|N].
  - right. destruct Es as (S1 & S2 & S3). rewrite mul64_small.
    + rewrite add64_small, lget_ub; [reflexivity|rewrite L; nia|].
      unfold fits, alloc_max, is_size, two64 in *. destruct c; [nia|]. assert (r <= r * S c) by nia.
      assert (r * S c = (r - 1) * S c + S c) by nia. lia.
    + apply (size_le _ (r * c)); [nia|]. apply shape_size. split; auto.
  - destruct (lget_ok_ub (data m) (add64 (mul64 i c) i)) as [(x & E)|E]; rewrite E; cbn [bind]; auto.
    left. eexists. split; [reflexivity|]. lia.
Qed.

(** * C41 *)
Theorem C41_vector : forall {U} (fn : T -> Res U) a n f, (forall x, exists y, fn x = Ok y) -> is_vec a n f ->
  ew_fun_v a fn = Ok a.
Proof.
  intros U fn a n f Hf Ha. unfold ew_fun_v. rewrite vec_of_list_ok by (rewrite (is_vec_list _ _ _ Ha); apply Ha). cbn [bind].
  rewrite (is_vec_list _ _ _ Ha).
  match goal with |- for_range 0 n ?bd ?s = _ => destruct (for_range_inv (fun _ d => d = a) 0 n bd s) as (d & E & Q); try lia; auto end.
  - intros i s Hi ->. rewrite (is_vec_get _ _ _ i Ha) by lia. cbn [bind]. destruct (Hf (f i)) as (y & ->). cbn. eauto.
  - rewrite E. congruence.
Qed.
Theorem C41_matrix : forall {U} (fn : T -> Res U) A r c f, (forall x, exists y, fn x = Ok y) -> reads A r c f ->
  exists m, ew_fun_m A fn = Ok m /\ is_mat m r c (fun _ _ => o0).
Proof.
  intros U fn A r c f Hf (Ar & Ac & _ & As & _). unfold ew_fun_m. rewrite Ar, Ac.
  destruct (mat_new_ok (T:=T) r c o0 As) as (m & E & Hm). rewrite E. cbn [bind]. exists m. split; auto.
  match goal with |- for_range 0 ?n ?bd ?s = _ => destruct (for_range_inv (fun _ d => d = m) 0 n bd s) as (d & E' & Q); try lia; auto end.
  - intros i s Hi ->. destruct Hm as (_ & _ & _ & L & _). destruct (nth_error (data m) i) as [x|] eqn:Ex; [|apply nth_error_None in Ex; lia].
    rewrite (lget_ok _ _ _ Ex). cbn [bind]. destruct (Hf x) as (y & ->). cbn. eauto.
  - rewrite E'. congruence.
Qed.
(** abs returns a copy for vectors and zeros for matrices. *)
Theorem C41_abs : (forall a n f, is_vec a n f -> abs_v a = Ok a) /\
  (forall A r c f, reads A r c f -> exists m, abs_m A = Ok m /\ is_mat m r c (fun _ _ => o0)).
Proof. split; intros; [eapply C41_vector|eapply C41_matrix]; eauto. Qed.

(** * C42 *)
Theorem C42_binary : forall {U} {OU : Ops U} (fn : T -> T -> Res U) (h : T -> T -> U), (forall x y, fn x y = Ok (h x y)) ->
  elementwise (fun A B => ew_bin_m A B fn) h /\ velementwise (fun a b => ew_bin_v a b fn) h.
Proof. intros U OU fn h H. split; [apply (zip_elementwise _ _ msize); auto; exact n_msize|apply vzip_velementwise; auto]. Qed.
Theorem C42_hadamard : elementwise (T:=T) ew_product omul.
Proof. apply (zip_elementwise _ _ msize); auto; exact n_msize. Qed.
Theorem C42_linear_combination : forall a b : T,
  elementwise (fun A B => linear_combination A a B b) (fun x y => oadd (omul x a) (omul y b)).
Proof. intros. apply (zip_elementwise _ _ msize); auto; exact n_msize. Qed.
End Generic.

(** any(X) is the negation of all(X == 0), the comparison X == 0 being exact. *)
Theorem C37_any_is_not_all_zero : forall {T} {O : Ops T} A r c (f : nat -> nat -> T),
  (forall x : T, ofeq x o0 = oeq x o0) -> readsL A r c f ->
  exists E b, m_eqs A o0 = Ok E /\ any_m A = Ok b /\ all_m (mb_of_mat E) = Ok (negb b).
Proof.
  intros T O A r c f Hx HA. destruct (C36_compare_scalar (T:=T) o0) as (P & _). destruct (P A r c f HA) as (E & E1 & HE).
  destruct (C37_any A r c f HA) as (b & E2 & Hb). exists E, b. split; auto. split; auto.
  destruct (C37_all (mb_of_mat E) r c _ (is_mat_readsL _ _ _ _ HE)) as (b' & E3 & Hb'). rewrite E3. f_equal.
  destruct b, b'; auto.
  - destruct (proj1 Hb eq_refl) as (i & j & Hi & Hj & Hf). assert (Q := proj1 Hb' eq_refl i j Hi Hj). cbn in Q. rewrite Hx, Hf in Q. discriminate.
  - apply Hb'. intros i j Hi Hj. cbn. rewrite Hx. destruct (oeq (f i j) o0) eqn:Ez; auto.
    enough (false = true) by discriminate. apply Hb. eauto.
Qed.

(** * Refutations and concrete cases (integers) *)
Lemma zlt_total : strict_total (T:=Z) olt.
Proof.
  split; [|split].
  - intros x. cbn. apply Z.ltb_irrefl.
  - intros x y z. cbn. lia.
  - intros x y. cbn. lia.
Qed.
(** abs is not the absolute value. *)
Theorem C41_abs_refuted : abs_v [(-1)%Z] = Ok [(-1)%Z] /\ abs_m (mb_of_mat (mkM 1 1 [5%Z])) = Ok (mkM 1 1 [0%Z]).
Proof. split; vm_compute; reflexivity. Qed.
(** A *= B with a wide B. *)
Theorem C34_wide_refuted : m_imul Root (fun _ => mb_of_mat (mkM 1 2 [1; 2]%Z)) (mkM 2 1 [3; 4]%Z) = UB /\
  m_mul (mb_of_mat (mkM 2 1 [3; 4]%Z)) (mb_of_mat (mkM 1 2 [1; 2]%Z)) = Ok (mkM 2 2 [3; 6; 4; 8]%Z).
Proof. split; vm_compute; reflexivity. Qed.
(** V += W for an overlapping later window of the same matrix reads updated elements. *)
Theorem C19_overlap_refuted :
  m_iadd (PView (mkRange 0 1) (mkRange 1 3) Root) (vmb (PView (mkRange 0 1) (mkRange 0 2) Root)) (mkM 1 3 [1; 1; 1]%Z) = Ok (mkM 1 3 [1; 2; 3]%Z).
Proof. vm_compute. reflexivity. Qed.

Example C19_ex : is_mat ex23 2 3 ex23f /\ vshape (PView (mkRange 0 2) (mkRange 1 3) Root) 2 3 = Some (2, 2) /\
  lin_ok (PView (mkRange 0 2) (mkRange 1 3) Root) 2 3 /\
  m_iadd (PView (mkRange 0 2) (mkRange 1 3) Root) (vmb (PView (mkRange 0 2) (mkRange 1 3) Root)) ex23 = Ok (mkM 2 3 [1;4;6;4;10;12]%Z) /\
  m_isub Root (vmb Root) ex23 = Ok (mkM 2 3 [0;0;0;0;0;0]%Z) /\ (forall x : Z, osub x x = o0) /\
  (forall k t, k < t -> t < 2 * 2 -> vpos (PView (mkRange 0 2) (mkRange 0 2) Root) (k / 2) (k mod 2) <> vpos (PView (mkRange 0 2) (mkRange 1 3) Root) (t / 2) (t mod 2)) /\
  m_iadd (PView (mkRange 0 2) (mkRange 0 2) Root) (vmb (PView (mkRange 0 2) (mkRange 1 3) Root)) ex23 = Ok (mkM 2 3 [3;5;3;9;11;6]%Z).
Proof.
  split; [apply ex23_ok|]. do 4 (split; [vm_compute; auto|]). split; [intros; cbn; lia|].
  split; [|vm_compute; reflexivity]. intros k t Hk Ht E. cbn in E. injection E as E1 E2. lia.
Qed.
Example C32_ex : readsL (mb_of_mat ex23) 2 3 ex23f /\
  m_add (mb_of_mat ex23) (mb_of_mat ex23) = Ok (mkM 2 3 [2;4;6;8;10;12]%Z) /\
  m_add (mb_of_mat ex23) (mb_of_mat (mkM 3 2 [1;2;3;4;5;6]%Z)) = Throw /\
  m_sub (mb_of_mat ex23) (mb_of_mat (mkM 2 3 [1;1;1;1;1;1]%Z)) = Ok (mkM 2 3 [0;1;2;3;4;5]%Z) /\
  m_subs (mb_of_mat ex23) 1%Z = Ok (mkM 2 3 [0;1;2;3;4;5]%Z) /\ m_divs (mb_of_mat ex23) 2%Z = Ok (mkM 2 3 [0;1;1;2;2;3]%Z) /\
  m_divs (mb_of_mat ex23) 0%Z = UB /\
  (forall x : Z, odiv x 2%Z = Ok (Z.quot x 2)) /\ (forall x : Z, odiv x 0%Z = UB) /\
  m_imuls (PView (mkRange 1 2) (mkRange 0 2) Root) 7%Z ex23 = Ok (mkM 2 3 [1;2;3;28;35;6]%Z) /\
  v_sub [5;7]%Z [1;2]%Z = Ok [4;5]%Z /\ v_isub (fun x => x) [5;7]%Z = Ok [0;0]%Z /\ v_mul [2]%Z [1;2]%Z = Throw.
Proof. split; [apply is_mat_readsL; apply ex23_ok|]. repeat split; vm_compute; reflexivity. Qed.
Example C33_ex : m_mul (mb_of_mat ex23) (mb_of_mat (mkM 3 1 [1;0;2]%Z)) = Ok (mkM 2 1 [7;16]%Z) /\
  m_mul (mb_of_mat ex23) (mb_of_mat ex23) = Throw /\ shape_ok 2 1.
Proof. split; [vm_compute; reflexivity|]. split; [vm_compute; reflexivity|]. apply (shape_ok_le 2 3); try lia. eapply is_mat_shape. apply ex23_ok. Qed.
Example C34_ex : m_imul Root (vmb Root) (mkM 2 2 [1;2;3;4]%Z) = Ok (mkM 2 2 [7;10;15;22]%Z) /\
  m_imul Root (vmb (PView (mkRange 0 2) (mkRange 0 1) Root)) (mkM 2 2 [1;2;3;4]%Z) = Ok (mkM 2 2 [7;0;15;0]%Z) /\
  m_imul Root (fun _ => mb_of_mat ex23) ex23 = Throw /\
  m_imul (PView (mkRange 0 1) (mkRange 0 2) Root) (vmb (PView (mkRange 0 2) (mkRange 1 3) Root)) ex23 = Ok (mkM 2 3 [12;15;3;4;5;6]%Z).
Proof. repeat split; vm_compute; reflexivity. Qed.
Example C35_ex : dot [1;2;3]%Z [4;5;6]%Z = Ok 32%Z /\ dot [1]%Z [4;5;6]%Z = Throw /\
  m_mulv (mb_of_mat ex23) [1;0;2]%Z = Ok [7;16]%Z /\ m_mulv (mb_of_mat ex23) [1;0;2;9]%Z = Ok [7;16]%Z /\
  m_mulv (mb_of_mat ex23) [1;0]%Z = UB /\ fits 2 /\ is_vec [1;0;2]%Z 3 (fun i => nth i [1;0;2]%Z 0%Z) /\ shape_ok 2 1.
Proof.
  do 5 (split; [vm_compute; reflexivity|]). split; [|split].
  - unfold fits, alloc_max. lia.
  - apply is_vec_nth. unfold fits, alloc_max. cbn. lia.
  - apply (shape_ok_le 2 3); try lia. eapply is_mat_shape. apply ex23_ok.
Qed.
Example C36_ex : m_lt (mb_of_mat ex23) (mb_of_mat (mkM 2 3 [3;2;1;9;5;0]%Z)) = Ok (mkM 2 3 [true;false;false;true;false;false]) /\
  m_ge (mb_of_mat ex23) (mb_of_mat (mkM 2 3 [3;2;1;9;5;0]%Z)) = Ok (mkM 2 3 [false;true;true;false;true;true]) /\
  m_nes (mb_of_mat ex23) 2%Z = Ok (mkM 2 3 [true;false;true;true;true;true]) /\ v_eq [1;2]%Z [1;3]%Z = Ok [true;false].
Proof. repeat split; vm_compute; reflexivity. Qed.
Example C37_ex : all_m (mb_of_mat ex23) = Ok true /\ all_v [1;0]%Z = Ok false /\ any_v [0;0]%Z = Ok false /\ any_v [0;3]%Z = Ok true /\
  (forall x : Z, ofeq x o0 = oeq x o0) /\ readsL (mb_of_mat (mkM 0 3 (@nil Z))) 0 3 (fun _ _ => 0%Z).
Proof.
  do 4 (split; [vm_compute; reflexivity|]). split; [reflexivity|]. apply is_mat_readsL.
  split; auto. split; auto. split; [|split; [auto|intros; lia]].
  apply (shape_ok_le 2 3); try lia. eapply is_mat_shape. apply ex23_ok.
Qed.
Example C38_ex : min_v [3;1;2;1]%Z = Ok (1%Z, 1) /\ max_v [3;1;3;1]%Z = Ok (3%Z, 0) /\
  min_m ex23 = Ok [1;2;3]%Z /\ max_m ex23 = Ok [4;5;6]%Z /\ strict_total (T:=Z) olt.
Proof. do 4 (split; [vm_compute; reflexivity|]). apply zlt_total. Qed.
Example C39_ex : sum [1;2;3]%Z = Ok 6%Z /\ trace (mb_of_mat ex23) = Ok 6%Z /\ trace (mb_of_mat (mkM 3 2 [1;2;3;4;5;6]%Z)) = UB.
Proof. repeat split; vm_compute; reflexivity. Qed.
Example C41_ex : ew_fun_v [1;2]%Z (fun x => Ok (Z.mul x x)) = Ok [1;2]%Z /\ ew_fun_m (mb_of_mat ex23) (fun x => Ok (Z.mul x x)) = Ok (mkM 2 3 [0;0;0;0;0;0]%Z).
Proof. repeat split; vm_compute; reflexivity. Qed.
Example C42_ex : ew_product (mb_of_mat ex23) (mb_of_mat ex23) = Ok (mkM 2 3 [1;4;9;16;25;36]%Z) /\
  linear_combination (mb_of_mat ex23) 2%Z (mb_of_mat ex23) (-1)%Z = Ok ex23 /\
  ew_bin_m (mb_of_mat ex23) (mb_of_mat (mkM 1 1 [1]%Z)) (fun x y => Ok (Z.min x y)) = Throw.
Proof. repeat split; vm_compute; reflexivity. Qed.
