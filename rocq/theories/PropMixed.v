(** PropMixed.v: operands of different element types (C81). *)
From Verif Require Import Mixed MathFacts PropMath Spec.
From Coq Require Import ZArith QArith Qabs Lia.
Local Open Scope nat_scope.

Lemma reads_conv {S T} (k : S -> T) X r c f : reads X r c f -> reads (mb_conv k X) r c (fun i j => k (f i j)).
Proof.
  intros (Hr & Hc & Hz & Hs & Hg). split; [auto|]. split; [auto|]. split; [auto|]. split; [auto|].
  intros i j Hi Hj. cbn. rewrite Hg; auto.
Qed.
Lemma readsL_conv {S T} (k : S -> T) X r c f : readsL X r c f -> readsL (mb_conv k X) r c (fun i j => k (f i j)).
Proof. intros (H & L). split; [apply reads_conv; auto|]. intros q Hq. cbn. rewrite L; auto. Qed.
Lemma is_vec_conv {S T} (k : S -> T) l n f : is_vec l n f -> is_vec (map k l) n (fun i => k (f i)).
Proof. intros (H & F & N). split; [rewrite map_length; auto|]. split; auto. intros i Hi. rewrite nth_error_map, N; auto. Qed.

Section Convert.
Context {S T : Type} {O : Ops T}.
Theorem C81_convert_matrix : forall (k : S -> T) X r c f, readsL X r c f ->
  exists m, mat_conv k X = Ok m /\ is_mat m r c (fun i j => k (f i j)).
Proof. intros. apply mat_of_mb_ok. apply readsL_conv; auto. Qed.
Theorem C81_assign_matrix : forall (k : S -> T) X r c f m, reads X r c f -> 0 < r * c ->
  exists m', mat_assign_conv k X m = Ok m' /\ is_mat m' r c (fun i j => k (f i j)).
Proof. intros. apply mat_assign_ok; auto. apply reads_conv; auto. Qed.
Theorem C81_convert_vector : forall (k : S -> T) l n f, is_vec l n f ->
  exists d, vec_conv k l = Ok d /\ is_vec d n (fun i => k (f i)).
Proof.
  intros k l n f H. destruct (v_map_ok (fun x => Ok (k x)) l n f (fun i => k (f i)) H) as (d & E & Q); auto.
  exists d. split; auto. rewrite <- E. unfold vec_conv, v_map, vec_new.
  destruct H as (Hl & Hf & Hn). rewrite Hl. rewrite vec_allocate_ok by auto. cbn [bind].
  rewrite firstn_nil, Nat.sub_0_r. cbn [app]. rewrite repeat_length. apply for_range_ext. intros i s Hi. destruct (lget l i); auto.
Qed.
(** Whatever the target held before. *)
Theorem C81_assign_vector : forall (k : S -> T) l n f (dst : list T), is_vec l n f ->
  exists d, vec_assign_conv k l dst = Ok d /\ is_vec d n (fun i => k (f i)).
Proof.
  intros k l n f dst H. unfold vec_assign_conv. assert (H' := H). destruct H' as (Hl & Hf & Hn).
  rewrite vec_allocate_ok by (rewrite Hl; auto). cbn [bind]. rewrite Hl.
  set (d0 := firstn n dst ++ repeat o0 (n - length dst)).
  assert (L0 : length d0 = n). { unfold d0. rewrite app_length, firstn_length, repeat_length. lia. }
  destruct (vfill_loop (fun i => k (f i)) (fun i => let* x := lget l i in Ok (k x)) (length d0) d0) as (d & E & HL & Hk); auto.
  - intros i Hi. rewrite (is_vec_get _ _ _ i H) by lia. reflexivity.
  - exists d. split.
    + rewrite <- E. apply for_range_ext. intros i s Hi. destruct (lget l i); auto.
    + split; [congruence|]. split; auto. intros i Hi. rewrite Hk by lia. destruct (Nat.ltb_spec i (length d0)); [auto|lia].
Qed.
End Convert.

Section Mixed.
Context {T1 T2 T : Type} {O1 : Ops T1} {O : Ops T}.
Variables (c1 : T1 -> T) (c2 : T2 -> T) (b1 : T -> T1) (k : T2 -> T1).
Implicit Types (A : MB T1) (B : MB T2) (fa : nat -> nat -> T1) (fb : nat -> nat -> T2).

(** Binary operators and comparisons: computed on the converted elements. *)
Theorem C81_add : forall A B r c fa fb, readsL A r c fa -> readsL B r c fb ->
  exists m, mix_add c1 c2 A B = Ok m /\ is_mat m r c (fun i j => oadd (c1 (fa i j)) (c2 (fb i j))).
Proof.
  intros A B r c fa fb HA HB. destruct (C32_add _ _ _ _ _ _ _ _ (readsL_conv c1 _ _ _ _ HA) (readsL_conv c2 _ _ _ _ HB)) as (_ & G). apply G; auto.
Qed.
Theorem C81_sub : forall A B r c fa fb, readsL A r c fa -> readsL B r c fb ->
  exists m, mix_sub c1 c2 A B = Ok m /\ is_mat m r c (fun i j => osub (c1 (fa i j)) (c2 (fb i j))).
Proof.
  intros A B r c fa fb HA HB. destruct (C32_sub _ _ _ _ _ _ _ _ (readsL_conv c1 _ _ _ _ HA) (readsL_conv c2 _ _ _ _ HB)) as (_ & G). apply G; auto.
Qed.
Theorem C81_product : forall A B r n c fa fb, reads A r n fa -> reads B n c fb -> shape_ok r c ->
  exists m, mix_mul c1 c2 A B = Ok m /\ is_mat m r c (mprod n (fun i j => c1 (fa i j)) (fun i j => c2 (fb i j))).
Proof.
  intros A B r n c fa fb HA HB Hs. destruct (C33_product _ _ _ _ _ _ _ _ (reads_conv c1 _ _ _ _ HA) (reads_conv c2 _ _ _ _ HB) Hs) as (_ & G). apply G; auto.
Qed.
Theorem C81_dot : forall (a : list T1) (b : list T2) n ga gb, is_vec a n ga -> is_vec b n gb ->
  mix_dot c1 c2 a b = Ok (osum n (fun i => omul (c1 (ga i)) (c2 (gb i)))).
Proof.
  intros a b n ga gb Ha Hb. destruct (C35_dot _ _ _ _ _ _ (is_vec_conv c1 _ _ _ Ha) (is_vec_conv c2 _ _ _ Hb)) as (_ & G). apply G; auto.
Qed.
Theorem C81_matvec : forall A r n fa (b : list T2) gb, reads A r n fa -> is_vec b n gb -> fits r ->
  exists d, mix_mulv c1 c2 A b = Ok d /\ is_vec d r (fun i => osum n (fun q => omul (c1 (fa i q)) (c2 (gb q)))).
Proof.
  intros A r n fa b gb HA Hb Hr. apply (C35_matvec _ _ _ _ _ _ _ (reads_conv c1 _ _ _ _ HA) (is_vec_conv c2 _ _ _ Hb)); auto.
Qed.
Theorem C81_vectors : forall (a : list T1) (b : list T2) n ga gb, is_vec a n ga -> is_vec b n gb ->
  (exists d, mix_vadd c1 c2 a b = Ok d /\ is_vec d n (fun i => oadd (c1 (ga i)) (c2 (gb i)))) /\
  (exists d, mix_vsub c1 c2 a b = Ok d /\ is_vec d n (fun i => osub (c1 (ga i)) (c2 (gb i)))) /\
  (exists d, mix_vmul c1 c2 a b = Ok d /\ is_vec d n (fun i => omul (c1 (ga i)) (c2 (gb i)))).
Proof.
  intros a b n ga gb Ha Hb. assert (Ha' := is_vec_conv c1 _ _ _ Ha). assert (Hb' := is_vec_conv c2 _ _ _ Hb).
  split; [|split]; eapply v_zip_ok; eauto.
Qed.
Theorem C81_compare : forall A B r c fa fb, readsL A r c fa -> readsL B r c fb ->
  (exists m, mix_lt c1 c2 A B = Ok m /\ is_mat m r c (fun i j => olt (c1 (fa i j)) (c2 (fb i j)))) /\
  (exists m, mix_gt c1 c2 A B = Ok m /\ is_mat m r c (fun i j => olt (c2 (fb i j)) (c1 (fa i j)))) /\
  (exists m, mix_le c1 c2 A B = Ok m /\ is_mat m r c (fun i j => ole (c1 (fa i j)) (c2 (fb i j)))) /\
  (exists m, mix_ge c1 c2 A B = Ok m /\ is_mat m r c (fun i j => ole (c2 (fb i j)) (c1 (fa i j)))) /\
  (exists m, mix_eq c1 c2 A B = Ok m /\ is_mat m r c (fun i j => ofeq (c1 (fa i j)) (c2 (fb i j)))) /\
  (exists m, mix_ne c1 c2 A B = Ok m /\ is_mat m r c (fun i j => negb (ofeq (c1 (fa i j)) (c2 (fb i j))))).
Proof.
  intros A B r c fa fb HA HB. assert (HA' := readsL_conv c1 _ _ _ _ HA). assert (HB' := readsL_conv c2 _ _ _ _ HB).
  repeat split; eapply mb_zip_ok; eauto; destruct HA as ((_ & _ & E & _) & _); auto.
Qed.
Theorem C81_compare_scalar : forall A r c fa (b : T2), readsL A r c fa ->
  (exists m, mix_lts c1 c2 A b = Ok m /\ is_mat m r c (fun i j => olt (c1 (fa i j)) (c2 b))) /\
  (exists m, mix_les c1 c2 A b = Ok m /\ is_mat m r c (fun i j => ole (c1 (fa i j)) (c2 b))) /\
  (exists m, mix_gts c1 c2 A b = Ok m /\ is_mat m r c (fun i j => olt (c2 b) (c1 (fa i j)))) /\
  (exists m, mix_ges c1 c2 A b = Ok m /\ is_mat m r c (fun i j => ole (c2 b) (c1 (fa i j)))).
Proof.
  intros A r c fa b HA. assert (HA' := readsL_conv c1 _ _ _ _ HA).
  repeat split; intros; eapply mb_map_ok; eauto.
Qed.
Theorem C81_compare_shapes : forall A B, mrows A <> mrows B \/ mcols A <> mcols B ->
  mix_lt c1 c2 A B = Throw /\ mix_gt c1 c2 A B = Throw /\ mix_le c1 c2 A B = Throw /\ mix_ge c1 c2 A B = Throw /\
  mix_eq c1 c2 A B = Throw /\ mix_ne c1 c2 A B = Throw.
Proof. intros A B H. repeat split; intros; apply mb_zip_throw; auto. Qed.
Theorem C81_scalar : forall A r c fa (b : T2), readsL A r c fa ->
  (exists m, mix_adds c1 c2 A b = Ok m /\ is_mat m r c (fun i j => oadd (c1 (fa i j)) (c2 b))) /\
  (exists m, mix_subs c1 c2 A b = Ok m /\ is_mat m r c (fun i j => osub (c1 (fa i j)) (c2 b))) /\
  (exists m, mix_muls c1 c2 A b = Ok m /\ is_mat m r c (fun i j => omul (c1 (fa i j)) (c2 b))) /\
  (forall quo : T -> T, (forall x, odiv x (c2 b) = Ok (quo x)) ->
   exists m, mix_divs c1 c2 A b = Ok m /\ is_mat m r c (fun i j => quo (c1 (fa i j)))).
Proof.
  intros A r c fa b HA. assert (HA' := readsL_conv c1 _ _ _ _ HA).
  repeat split; intros; eapply mb_map_ok; eauto.
Qed.
(** Operands of different shapes. *)
Theorem C81_shapes : forall A B, mrows A <> mrows B \/ mcols A <> mcols B ->
  mix_add c1 c2 A B = Throw /\ mix_sub c1 c2 A B = Throw /\ mix_ew_product c1 k A B = Throw /\
  (forall a b, mix_linear_combination c1 k A a B b = Throw).
Proof. intros A B H. repeat split; intros; apply mb_zip_throw; auto. Qed.
Theorem C81_product_shapes : forall A B, mcols A <> mrows B -> mix_mul c1 c2 A B = Throw.
Proof. intros A B H. unfold mix_mul, m_mul. cbn. destruct (Nat.eqb_spec (mcols A) (mrows B)); [lia|reflexivity]. Qed.

(** In place: computed in the common type, then converted back to A's element type. *)
Lemma mix_izip_ok g p B r c r' c' (f : nat -> nat -> T1) m fb (z : nat -> nat -> T) :
  is_mat m r c f -> vshape p r c = Some (r', c') -> lin_ok p r c -> readsL B r' c' fb ->
  (forall i j, i < r' -> j < c' -> g (c1 (vsel p f i j)) (c2 (fb i j)) = Ok (z i j)) ->
  exists m', mix_izip c1 c2 b1 g p B m = Ok m' /\ vstate p r c r' c' f (fun i j => b1 (z i j)) m'.
Proof.
  intros H Hv Hl ((Br & Bc & _) & Bl) Hg. unfold mix_izip.
  destruct (vstate_dims p r c r' c' f _ m Hv (vstate_init p m r c f r' c' H)) as (E1 & E2 & E3).
  rewrite E1, E2, E3, Br, Bc, !Nat.eqb_refl. cbn [negb].
  destruct (ilin_ok p r c r' c' f m (fun i m => let* x := mlin (vmb p m) i in let* y := mlin B i in
    let* z := g (c1 x) (c2 y) in Ok (b1 z)) (fun i j => b1 (z i j)) H Hv Hl) as (m' & E & Q).
  - intros q m1 Hk Hs. rewrite (vstate_linear _ _ _ _ _ _ _ _ q Hv Hl Hs Hk). cbn [bind]. rewrite (Bl q Hk). cbn [bind].
    assert (L1 := div_lt_rc _ _ _ Hk). assert (L2 := mod_lt_rc _ _ _ Hk). rewrite (div_mod_rc _ _ _ Hk).
    destruct (Nat.ltb_spec q q); [lia|]. rewrite Hg; auto.
  - exists m'. split; auto. rewrite <- E. apply for_range_ext. intros i s Hi.
    destruct (mlin (vmb p s) i); auto. cbn [bind]. destruct (mlin B i); auto. cbn [bind]. destruct (g _ _); auto.
Qed.
Theorem C81_inplace_add : forall m r c f p r' c' B fb, is_mat m r c f -> vshape p r c = Some (r', c') -> lin_ok p r c ->
  readsL B r' c' fb -> exists m', mix_iadd c1 c2 b1 p B m = Ok m' /\
    vstate p r c r' c' f (fun i j => b1 (oadd (c1 (vsel p f i j)) (c2 (fb i j)))) m'.
Proof. intros. eapply mix_izip_ok; eauto. Qed.
Theorem C81_inplace_sub : forall m r c f p r' c' B fb, is_mat m r c f -> vshape p r c = Some (r', c') -> lin_ok p r c ->
  readsL B r' c' fb -> exists m', mix_isub c1 c2 b1 p B m = Ok m' /\
    vstate p r c r' c' f (fun i j => b1 (osub (c1 (vsel p f i j)) (c2 (fb i j)))) m'.
Proof. intros. eapply mix_izip_ok; eauto. Qed.
Theorem C81_inplace_scale : forall m r c f p r' c' (b : T2), is_mat m r c f -> vshape p r c = Some (r', c') -> lin_ok p r c ->
  (exists m', mix_imuls c1 c2 b1 p b m = Ok m' /\
    vstate p r c r' c' f (fun i j => b1 (omul (c1 (vsel p f i j)) (c2 b))) m') /\
  (forall quo : T -> T, (forall x, odiv x (c2 b) = Ok (quo x)) ->
   exists m', mix_idivs c1 c2 b1 p b m = Ok m' /\ vstate p r c r' c' f (fun i j => b1 (quo (c1 (vsel p f i j)))) m').
Proof.
  intros m r c f p r' c' b H Hv Hl. split.
  - eapply mb_imap_ok; eauto.
  - intros quo Hq. eapply mb_imap_ok; eauto. intros i j Hi Hj. rewrite Hq. reflexivity.
Qed.
Theorem C81_inplace_product : forall m r c f p r' c' B fb, is_mat m r c f -> vshape p r c = Some (r', c') -> lin_ok p r c ->
  reads B c' c' fb -> exists m', mix_imul c1 c2 b1 p B m = Ok m' /\
    vstate p r c r' c' f (fun i j => b1 (mprod c' (fun i j => c1 (vsel p f i j)) (fun i j => c2 (fb i j)) i j)) m'.
Proof.
  intros m r c f p r' c' B fb H Hv Hl HB. unfold mix_imul.
  assert (HA := vmb_reads p m r c f r' c' H Hv).
  assert (Ea := HA). destruct Ea as (Ar & Ac & Az & As & _).
  assert (Eb := HB). destruct Eb as (Br & Bc & _). rewrite Ac, Br, Ar, Az, Nat.eqb_refl. cbn [negb].
  destruct (mat_new_ok r' c' o0 As) as (res & E & Hm). rewrite E. cbn [bind].
  destruct (mul_loop_ok _ _ r' c' c' c' _ _ res (reads_conv c1 _ _ _ _ HA) (reads_conv c2 _ _ _ _ HB) (le_n _) Hm) as (res' & E' & Q).
  rewrite E'. cbn [bind].
  destruct (ilin_ok p r c r' c' f m (fun i _ => let* x := lget (data res') i in Ok (b1 x))
    (fun i j => b1 (mprod c' (fun i j => c1 (vsel p f i j)) (fun i j => c2 (fb i j)) i j)) H Hv Hl) as (m' & E2 & Q2).
  - intros q m1 Hk _. rewrite (is_mat_lin _ _ _ _ _ Q Hk). cbn [bind]. assert (L2 := mod_lt_rc _ _ _ Hk).
    destruct (Nat.ltb_spec (q mod c') c'); [reflexivity|lia].
  - exists m'. split; auto. rewrite <- E2. apply for_range_ext. intros i s Hi. destruct (lget (data res') i); auto.
Qed.

Theorem C81_inplace_shapes : forall p (m : Matrix T1) (B : MB T2),
  (mrows (vmb p m) <> mrows B \/ mcols (vmb p m) <> mcols B -> mix_iadd c1 c2 b1 p B m = Throw /\ mix_isub c1 c2 b1 p B m = Throw) /\
  (mcols (vmb p m) <> mrows B -> mix_imul c1 c2 b1 p B m = Throw).
Proof.
  intros p m B. split.
  - intros H. unfold mix_iadd, mix_isub, mix_izip. destruct (Nat.eqb_spec (mrows (vmb p m)) (mrows B)); cbn [negb]; auto.
    destruct (Nat.eqb_spec (mcols (vmb p m)) (mcols B)); cbn [negb]; auto. destruct H; contradiction.
  - intros H. unfold mix_imul. cbv zeta. destruct (Nat.eqb_spec (mcols (vmb p m)) (mrows B)); [contradiction|reflexivity].
Qed.
Theorem C81_inplace_vectors : forall (a : list T1) (b : list T2) n ga gb, is_vec a n ga -> is_vec b n gb ->
  (exists d, mix_viadd c1 c2 b1 b a = Ok d /\ is_vec d n (fun i => b1 (oadd (c1 (ga i)) (c2 (gb i))))) /\
  (exists d, mix_visub c1 c2 b1 b a = Ok d /\ is_vec d n (fun i => b1 (osub (c1 (ga i)) (c2 (gb i))))).
Proof.
  intros a b n ga gb Ha Hb.
  assert (G : forall (g : T -> T -> T), exists d, mix_vizip c1 c2 b1 (fun x y => Ok (g x y)) b a = Ok d /\
    is_vec d n (fun i => b1 (g (c1 (ga i)) (c2 (gb i))))).
  { intros g. unfold mix_vizip. rewrite (is_vec_list _ _ _ Ha), (is_vec_list _ _ _ Hb), Nat.eqb_refl. cbn [negb].
    destruct (for_range_inv (fun k d => is_vec d n (fun i => if i <? k then b1 (g (c1 (ga i)) (c2 (gb i))) else ga i)) 0 n
      (fun i a => let* x := lget a i in let* y := lget b i in let* z := Ok (g (c1 x) (c2 y)) in lset a i (b1 z)) a) as (d & E & Q); [lia| | |].
    - eapply is_vec_ext; [exact Ha|]. intros; reflexivity.
    - intros q d Hq Q. rewrite (is_vec_get _ _ _ q Q) by lia. cbn [bind]. rewrite (is_vec_get _ _ _ q Hb) by lia. cbn [bind].
      destruct (Nat.ltb_spec q q); [lia|]. rewrite lset_ok by (rewrite (is_vec_list _ _ _ Q); lia).
      eexists. split; [reflexivity|]. destruct Q as (Q1 & Q2 & Q3). split; [rewrite upd_length; auto|]. split; auto.
      intros i Hi. rewrite upd_nth_error by lia. destruct (Nat.eqb_spec i q) as [->|N].
      + destruct (Nat.ltb_spec q (S q)); [reflexivity|lia].
      + rewrite Q3 by auto. destruct (Nat.ltb_spec i q), (Nat.ltb_spec i (S q)); auto; lia.
    - exists d. split; auto. eapply is_vec_ext; [exact Q|]. intros i Hi. cbn. destruct (Nat.ltb_spec i n); [auto|lia]. }
  split; apply G.
Qed.
Theorem C81_vector_sizes : forall (a : list T1) (b : list T2), length a <> length b ->
  mix_vadd c1 c2 a b = Throw /\ mix_vsub c1 c2 a b = Throw /\ mix_vmul c1 c2 a b = Throw /\
  mix_viadd c1 c2 b1 b a = Throw /\ mix_visub c1 c2 b1 b a = Throw.
Proof.
  intros a b N. apply Nat.eqb_neq in N.
  repeat split; [unfold mix_vadd, v_add, v_zip|unfold mix_vsub, v_sub, v_zip|unfold mix_vmul, v_mul, v_zip
    |unfold mix_viadd, mix_vizip|unfold mix_visub, mix_vizip]; rewrite ?map_length, N; reflexivity.
Qed.
(** element_wise_product and linear_combination first convert B's elements to A's type. *)
Theorem C81_element_wise_product : forall A B r c fa fb, readsL A r c fa -> readsL B r c fb ->
  exists m, mix_ew_product c1 k A B = Ok m /\ is_mat m r c (fun i j => c1 (omul (fa i j) (k (fb i j)))).
Proof.
  intros A B r c fa fb HA HB. eapply mb_zip_ok; eauto using readsL_conv. destruct HA as ((_ & _ & E & _) & _); auto.
Qed.
Theorem C81_linear_combination : forall A a B b r c fa fb, readsL A r c fa -> readsL B r c fb ->
  exists m, mix_linear_combination c1 k A a B b = Ok m /\
    is_mat m r c (fun i j => oadd (omul (c1 (fa i j)) a) (omul (c1 (k (fb i j))) b)).
Proof.
  intros A a B b r c fa fb HA HB. eapply mb_zip_ok; eauto using readsL_conv. destruct HA as ((_ & _ & E & _) & _); auto.
Qed.
End Mixed.

(** * int with double: the doubles are rationals here, conversion to int truncates *)
#[local] Instance qops : Ops Q := {
  o0 := 0%Q; o1 := 1%Q; oadd := Qplus; osub := Qminus; omul := Qmult; oopp := Qopp;
  odiv := fun x y => if Qeq_bool y 0 then UB else Ok (Qdiv x y); oeq := Qeq_bool;
  olt := fun x y => negb (Qle_bool y x); ole := Qle_bool; ofeq := Qeq_bool; oisz := fun x => Qeq_bool x 0;
  oabs := Qabs; ofnat := fun n => inject_Z (Z.of_nat n) }.
Definition qtrunc (q : Q) : Z := Z.quot (Qnum q) (Zpos (Qden q)).
Definition z22 : Matrix Z := mkM 2 2 [1; 2; 3; 4]%Z.
Definition q22 : Matrix Q := mkM 2 2 [1#2; 3#2; 1#1; -1#2]%Q.
Lemma z22_ok : is_mat z22 2 2 (fun i j => nth (i * 2 + j) [1; 2; 3; 4]%Z 0%Z).
Proof. repeat split; try (unfold fits, alloc_max; cbn; lia). intros [|[|i]] [|[|j]] Hi Hj; try lia; reflexivity. Qed.
Lemma q22_ok : is_mat q22 2 2 (fun i j => nth (i * 2 + j) [1#2; 3#2; 1#1; -1#2]%Q 0%Q).
Proof. repeat split; try (unfold fits, alloc_max; cbn; lia). intros [|[|i]] [|[|j]] Hi Hj; try lia; reflexivity. Qed.
Example C81_add_ex : exists m, mix_add inject_Z (fun q => q) (mb_of_mat z22) (mb_of_mat q22) = Ok m /\
  is_mat m 2 2 (fun i j => inject_Z (nth (i * 2 + j) [1; 2; 3; 4]%Z 0%Z) + nth (i * 2 + j) [1#2; 3#2; 1#1; -1#2] 0)%Q.
Proof. exact (C81_add inject_Z (fun q : Q => q) _ _ _ _ _ _ (is_mat_readsL _ _ _ _ z22_ok) (is_mat_readsL _ _ _ _ q22_ok)). Qed.
(** In place, an int matrix truncates: [z22 += q22]. *)
Example C81_inplace_ex : mix_iadd inject_Z (fun q => q) qtrunc Root (mb_of_mat q22) z22 = Ok (mkM 2 2 [1; 3; 4; 3]%Z).
Proof. vm_compute. reflexivity. Qed.
(** 4 * (-1/2) is computed as 4 * 0, and 1 * (1/2) as 1 * 0, although the result has doubles:
    the element-wise product in the common type is not what element_wise_product returns. *)
Theorem C81_element_wise_product_refuted : exists (A : Matrix Z) (B : Matrix Q) m x,
  mix_ew_product inject_Z qtrunc (mb_of_mat A) (mb_of_mat B) = Ok m /\
  mget (mb_of_mat m) 1 1 = Ok x /\ (x == 0)%Q /\
  mget (mb_of_mat A) 1 1 = Ok 4%Z /\ mget (mb_of_mat B) 1 1 = Ok (-1#2)%Q.
Proof.
  exists z22, q22. eexists. eexists. split; [vm_compute; reflexivity|]. split; [vm_compute; reflexivity|].
  split; [reflexivity|]. split; vm_compute; reflexivity.
Qed.
(** int with unsigned int (32 bits): the comparison is done on unsigned numbers, so -1 < 1 is false. *)
Theorem C81_signed_unsigned_refuted : exists (A : Matrix Z) (B : Matrix Z) m,
  mix_lt (fun z => z mod 2 ^ 32)%Z (fun z => z) (mb_of_mat A) (mb_of_mat B) = Ok m /\
  mget (mb_of_mat A) 0 0 = Ok (-1)%Z /\ mget (mb_of_mat B) 0 0 = Ok 1%Z /\ mget (mb_of_mat m) 0 0 = Ok false.
Proof. exists (mkM 1 1 [-1]%Z), (mkM 1 1 [1]%Z). eexists. split; [vm_compute; reflexivity|]. repeat split. Qed.
