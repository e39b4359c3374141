(** PropTotalFloat.v: c2d of doubles (C109): for every system of doubles, of any shapes and with any
    elements, it ends; when it throws, when its assertions fail and the shapes of what it returns. *)
From Coq Require Import ZArith QArith Bool Lia SpecFloat List.
From Verif Require Import LinalgFacts2 PropMatrix PropUtil PropMath PropLinalg Control ControlFacts Feq Float FloatFacts FloatValid FloatRound FloatArith PropFloat PropFloat2 FloatLoop PropFloatExpm PropTotal.
Import ListNotations.
Local Open Scope nat_scope.

(** A matrix of doubles: each element is a value that a double can hold. *)
Definition of_doubles (m : Matrix double) : Prop := forall x, In x (data m) -> is_double x.
Lemma of_doubles_at m r c f : is_mat m r c f -> of_doubles m -> forall i j, i < r -> j < c -> is_double (f i j).
Proof. intros H D i j Hi Hj. apply D. eapply nth_error_In. apply H; auto. Qed.

Section C.
Variable tol : double.
#[local] Instance Ot : Ops double := fops tol.
Variable nsqrt : double -> double.
Lemma move_empty r c (h : Matrix double) g : is_mat h r c g -> fst (mat_move_assign mat_empty h) = if r * c =? 0 then mat_empty else h.
Proof.
  intros (Er & Ec & Sh & _). unfold mat_move_assign. rewrite Er, Ec, mul64_small by now apply shape_size. destruct (r * c =? 0); [reflexivity|]. destruct h; cbn in *; subst; reflexivity.
Qed.
Lemma assign_empty r c (h : Matrix double) g : is_mat h r c g -> mat_assign (fun _ => mb_of_mat h) mat_empty = Ok (if r * c =? 0 then mat_empty else h).
Proof.
  intros H. destruct (Nat.eqb_spec (r * c) 0) as [Z|Z]; [apply mat_assign_empty; destruct (is_mat_reads _ _ _ _ H) as (_ & _ & -> & _); exact Z|].
  destruct (mat_assign_ok (mb_of_mat h) mat_empty r c g (is_mat_reads _ _ _ _ H) ltac:(lia)) as (m & -> & Hm). f_equal. eapply is_mat_unique; eauto.
Qed.
(** expm of a matrix of doubles of any shape throws or returns a matrix of that shape: it ends, and no
    element outside of a matrix is read. *)
Theorem C109_expm : forall m r c f accuracy fuel, is_finite tol -> is_mat m r c f -> of_doubles m -> 1076 <= fuel ->
  expm nsqrt half fuel (mb_of_mat m) accuracy = Throw \/ exists E g, expm nsqrt half fuel (mb_of_mat m) accuracy = Ok E /\ is_mat E r c g.
Proof.
  intros m r c f accuracy fuel Ft H D Hf. destruct (Nat.eq_dec r c) as [<-|Ne]; [destruct (Nat.eq_dec r 0) as [->|Nz]|].
  2: apply (C93_expm tol nsqrt m r f accuracy fuel); auto; [lia|eapply of_doubles_at; eauto].
  all: assert (EL : exists k s, log2_ceil SFabs half fuel (mb_of_mat m) = Ok (k, s)) by
    (destruct (C93_log2_ceil tol m _ _ f H (of_doubles_at _ _ _ _ H D)) as (x & _ & L1 & L2); assert (Dx : is_finite x \/ ~ is_finite x) by (destruct x; cbn; auto);
     destruct Dx as [Dx|Dx]; [destruct (L1 Dx) as (k & s & _ & _ & _ & _ & L); exists k, s; apply L; lia|destruct (L2 Dx) as [_ L]; do 2 eexists; apply L; lia]).
  all: destruct EL as (k & s & EL); unfold expm; change (@oabs double Ot) with SFabs; rewrite EL; cbn [bind].
  all: destruct (proj1 (C32_mul_scalar s) (mb_of_mat m) _ _ f (is_mat_readsL _ _ _ _ H)) as (sa & -> & Hsa); cbn [bind]; cbn [mrows mcols mb_of_mat]; assert (H' := H); destruct H' as (Er & Ec & Sh & _); rewrite Er, Ec.
  - left. rewrite (proj1 (C21_zero_dimension_throws (T:=double) 0 0 o1 ltac:(auto))). reflexivity.
  - destruct (Nat.eq_dec r 0) as [->|Nr]; [left; rewrite (proj1 (C21_zero_dimension_throws (T:=double) 0 c o1 ltac:(auto))); reflexivity|].
    destruct (Nat.eq_dec c 0) as [->|Nc]; [left; rewrite (proj1 (C21_zero_dimension_throws (T:=double) r 0 o1 ltac:(auto))); reflexivity|].
    destruct (C21_eye r c (o1 : double) ltac:(lia) ltac:(lia) Sh) as (e & -> & He). cbn [bind].
    assert (TH : forall (a b : Matrix double) fa fb, is_mat a r c fa -> is_mat b r c fb -> m_mul (mb_of_mat a) (mb_of_mat b) = Throw).
    { intros a b fa fb (_ & Ea & _) (Eb & _). unfold m_mul. cbn [mb_of_mat mcols mrows]. rewrite Ea, Eb. destruct (Nat.eqb_spec c r); [congruence|reflexivity]. }
    match goal with |- (bind ?x _ = _) \/ _ => assert (L : x = Throw \/ x = Ok e) end.
    { destruct fuel as [|fuel]; [lia|]. cbn [expm_loop]. destruct (_ && _); [left|right; reflexivity].
      cbn [mrows mcols mb_of_mat]. rewrite Er, Ec. destruct (mat_new_ok r c (o0 : double) Sh) as (acc & -> & Hacc). cbn [bind].
      assert (B : forall todo k fac acc' fa, is_mat acc' r c fa -> expm_batch todo k sa fac e acc' = Throw \/ exists fac', expm_batch todo k sa fac e acc' = Ok (fac', e, acc')).
      { intros todo k' fac acc' fa Ha. destruct todo; cbn [expm_batch]; [right; eauto|]. cbn [odiv Ot fops bind]. destruct (ofeq _ _); [right; eauto|]. rewrite (TH e sa _ _ He Hsa). left; reflexivity. }
      destruct (B (mul64 r r) 1 (o1 : double) acc _ Hacc) as [->|(fac' & ->)]; cbn [bind]; [reflexivity|].
      rewrite (proj1 (C32_inplace_is_binary e r c _ (mb_of_mat acc) r c _ He (is_mat_readsL _ _ _ _ Hacc))).
      destruct (proj2 (C32_add (mb_of_mat e) (mb_of_mat acc) r c _ r c _ (is_mat_readsL _ _ _ _ He) (is_mat_readsL _ _ _ _ Hacc)) eq_refl eq_refl) as (p & -> & Hp). cbn [bind].
      rewrite (TH acc acc _ _ Hacc Hacc). reflexivity. }
    destruct L as [->| ->]; cbn [bind]; [left; reflexivity|].
    destruct k as [|k]; [right; do 2 eexists; split; [reflexivity|exact He]|]. left. rewrite for_range_first by lia. rewrite (TH e e _ _ He He). reflexivity.
Qed.
(** A square or not, B, C, D of any shapes: *)
Theorem C109_c2d : forall sys ts accuracy fuel ra ca fA rb cb fB rc cc fC rd cd fD, is_finite tol -> 1076 <= fuel ->
  is_mat (sA sys) ra ca fA -> is_mat (sB sys) rb cb fB -> is_mat (sC sys) rc cc fC -> is_mat (sD sys) rd cd fD -> shape_ok ra cb ->
  of_doubles (sA sys) -> is_double ts ->
  (ra <> ca \/ ra = 0 \/ rb <> ra -> c2d nsqrt half accuracy fuel sys ts = Throw) /\
  (ra = ca -> 0 < ra -> rb = ra -> exists At d, m_muls (mb_of_mat (sA sys)) ts = Ok At /\ determinant (mb_of_mat (sA sys)) = Ok d /\
     ((oisz d = true \/ expm nsqrt half fuel (mb_of_mat At) accuracy = Throw) /\ c2d nsqrt half accuracy fuel sys ts = Throw \/
      oisz d = false /\ exists E gE, expm nsqrt half fuel (mb_of_mat At) accuracy = Ok E /\ is_mat E ra ra gE /\
        (cb = 0 \/ rc = 0 \/ cc <> ra -> c2d nsqrt half accuracy fuel sys ts = UB) /\
        (0 < cb -> 0 < rc -> cc = ra -> exists Bd gB, is_mat Bd ra cb gB /\
           c2d nsqrt half accuracy fuel sys ts = Ok (mkDSS (mkSS E Bd (sC sys) (if rd * cd =? 0 then mat_empty else sD sys)) ts)))).
Proof.
  intros sys ts accuracy fuel ra ca fA rb cb fB rc cc fC rd cd fD Ft Hf HA HB HC HD Sh DA Dt.
  destruct (proj1 (C32_mul_scalar ts) (mb_of_mat (sA sys)) ra ca fA (is_mat_readsL _ _ _ _ HA)) as (At & EAt & HAt).
  assert (DAt : of_doubles At).
  { intros x Hx. apply In_nth_error in Hx. destruct Hx as (k & Ek). assert (Hk : k < ra * ca) by (rewrite <- (proj1 (proj2 (proj2 (proj2 HAt)))); apply nth_error_Some; congruence).
    assert (Hi : k / ca < ra) by (eapply div_lt_rc; exact Hk). assert (Hj : k mod ca < ca) by (eapply mod_lt_rc; exact Hk).
    assert (Q := proj2 (proj2 (proj2 (proj2 HAt))) _ _ Hi Hj). rewrite (Nat.mul_comm (k / ca)), <- Nat.div_mod in Q by lia. rewrite Ek in Q. injection Q as ->.
    apply double_ops; [|exact Dt]. eapply of_doubles_at; eauto. }
  assert (HE := C109_expm At ra ca _ accuracy fuel Ft HAt DAt Hf).
  unfold c2d. rewrite EAt. cbn [bind].
  assert (Er : rows (sA sys) = ra) by apply HA.
  assert (G : forall E gE, is_mat E ra ca gE -> ra = ca -> 0 < ra -> exists d, determinant (mb_of_mat (sA sys)) = Ok d /\
    (oisz d = true /\ (let* inv := inverse (mb_of_mat (sA sys)) in let* Id := identity (rows (sA sys)) o1 in let* D := m_sub (mb_of_mat E) (mb_of_mat Id) in m_mul (mb_of_mat inv) (mb_of_mat D)) = Throw \/
     oisz d = false /\ exists P gP, (let* inv := inverse (mb_of_mat (sA sys)) in let* Id := identity (rows (sA sys)) o1 in let* D := m_sub (mb_of_mat E) (mb_of_mat Id) in m_mul (mb_of_mat inv) (mb_of_mat D)) = Ok P /\ is_mat P ra ra gP)).
  { intros E gE HEm <- Hr. rewrite Er. destruct (@inverse_total double Ot (fdiv_total tol) (mb_of_mat (sA sys)) ra fA (is_mat_readsL _ _ _ _ HA)) as (d & adj & g & Ed & _ & _ & Hi).
    exists d. split; [exact Ed|]. destruct (C21_identity ra (o1 : double) Hr (is_mat_shape _ _ _ _ HA)) as (Id & -> & HI).
    destruct (proj2 (C32_sub (mb_of_mat E) (mb_of_mat Id) ra ra _ ra ra _ (is_mat_readsL _ _ _ _ HEm) (is_mat_readsL _ _ _ _ HI)) eq_refl eq_refl) as (X & EX & HX).
    destruct Hi as [(Z & ->)|(Z & inv & -> & Hinv)]; [left|right]; (split; [exact Z|]); cbn [bind]; rewrite EX; cbn [bind].
    - unfold m_mul. cbn [mb_of_mat mcols mrows mat_empty cols]. destruct HX as (-> & _). destruct ra; [lia|reflexivity].
    - destruct (m_mul_ok (mb_of_mat inv) (mb_of_mat X) ra ra ra _ _ (is_mat_reads _ _ _ _ Hinv) (is_mat_reads _ _ _ _ HX) (is_mat_shape _ _ _ _ HA)) as (P & -> & HP). eauto. }
  assert (R : forall {U} E (k : Matrix double -> Res U), (let* inv := inverse (mb_of_mat (sA sys)) in let* Id := identity (rows (sA sys)) o1 in let* D := m_sub (mb_of_mat E) (mb_of_mat Id) in let* P := m_mul (mb_of_mat inv) (mb_of_mat D) in k P) =
    (let* P := (let* inv := inverse (mb_of_mat (sA sys)) in let* Id := identity (rows (sA sys)) o1 in let* D := m_sub (mb_of_mat E) (mb_of_mat Id) in m_mul (mb_of_mat inv) (mb_of_mat D)) in k P)).
  { intros U E k. destruct (inverse _); try reflexivity. cbn [bind]. destruct (identity _ _); try reflexivity. cbn [bind]. destruct (m_sub _ _); reflexivity. }
  split.
  - intros Hbad. destruct HE as [->|(E & gE & -> & HEm)]; cbn [bind]; [reflexivity|]. cbv zeta.
    destruct (Nat.eq_dec ra ca) as [Eq|Ne].
    2: { unfold inverse, is_square. cbn [mrows mcols mb_of_mat]. destruct HA as (-> & -> & _). destruct (Nat.eqb_spec ra ca); [contradiction|reflexivity]. }
    destruct (Nat.eq_dec ra 0) as [Z|Nz].
    { assert (HA0 : is_mat (sA sys) ca ca fA) by (rewrite <- Eq at 1; exact HA). rewrite Er, Z. unfold identity. rewrite (proj1 (C21_zero_dimension_throws (T:=double) 0 0 o1 ltac:(auto))). destruct (@inverse_total double Ot (fdiv_total tol) (mb_of_mat (sA sys)) ca fA (is_mat_readsL _ _ _ _ HA0)) as (d & adj & g & _ & _ & _ & [(_ & ->)|(_ & i & -> & _)]); reflexivity. }
    rewrite (move_empty _ _ _ _ HEm). destruct (Nat.eqb_spec (ra * ca) 0); [nia|]. rewrite R.
    destruct (G E gE HEm Eq ltac:(lia)) as (d & _ & [(_ & ->)|(_ & P & gP & -> & HP)]); cbn [bind]; [reflexivity|].
    unfold m_mul at 1. cbn [mb_of_mat mcols mrows]. destruct HP as (_ & -> & _), HB as (-> & _). destruct (Nat.eqb_spec ra rb); [intuition lia|reflexivity].
  - intros <- Hr ->. exists At. destruct (@inverse_total double Ot (fdiv_total tol) (mb_of_mat (sA sys)) ra fA (is_mat_readsL _ _ _ _ HA)) as (d & _ & _ & Ed & _).
    exists d. split; [reflexivity|]. split; [exact Ed|]. destruct HE as [EE|(E & gE & EE & HEm)].
    { left. split; [right; exact EE|]. rewrite EE. reflexivity. }
    rewrite EE. cbn [bind]. cbv zeta. rewrite (move_empty _ _ _ _ HEm). destruct (Nat.eqb_spec (ra * ra) 0); [nia|]. rewrite !R.
    destruct (G E gE HEm eq_refl Hr) as (d' & Ed' & Q). rewrite Ed in Ed'. injection Ed' as <-. destruct Q as [(Z & ->)|(Z & P & gP & -> & HP)]; [left; auto|right]. split; [exact Z|].
    exists E, gE. split; [reflexivity|]. split; [exact HEm|]. cbn [bind].
    destruct (m_mul_ok (mb_of_mat P) (mb_of_mat (sB sys)) ra ra cb _ _ (is_mat_reads _ _ _ _ HP) (is_mat_reads _ _ _ _ HB) Sh) as (Bd & -> & HBd). cbn [bind].
    rewrite (move_empty _ _ _ _ HBd), (assign_empty _ _ _ _ HC), (assign_empty _ _ _ _ HD). cbn [bind].
    assert (E1 : rows E = ra) by apply HEm. assert (E2 : cols E = ra) by apply HEm. rewrite E1, E2, Nat.eqb_refl. cbn [andb]. split.
    + intros Hbad. destruct (Nat.eqb_spec (ra * cb) 0) as [Zb|Zb]; [cbn [rows mat_empty]; destruct ra; [lia|reflexivity]|].
      destruct HBd as (-> & _). rewrite Nat.eqb_refl. cbn [andb]. destruct (Nat.eqb_spec (rc * cc) 0) as [Zc|Zc]; [cbn [cols mat_empty]; destruct ra; [lia|reflexivity]|].
      destruct HC as (_ & -> & _). destruct (Nat.eqb_spec cc ra); [|reflexivity]. exfalso. destruct Hbad as [->|[->|Hbad]]; [now rewrite Nat.mul_0_r in Zb|now rewrite Nat.mul_0_l in Zc|contradiction].
    + intros Hb Hc ->. exists Bd, (mprod ra gP fB). split; [exact HBd|]. destruct (Nat.eqb_spec (ra * cb) 0) as [Zb|Zb]; [nia|]. destruct (Nat.eqb_spec (rc * ra) 0) as [Zc|Zc]; [nia|].
      destruct HBd as (-> & _), HC as (_ & -> & _). rewrite Nat.eqb_refl. reflexivity.
Qed.
End C.
