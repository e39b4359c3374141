(** PropFloat.v: C84, the comparisons of malg on IEEE doubles, with NaN and infinities. *)
From Coq Require Import ZArith Bool Lia SpecFloat.
From Verif Require Import LinalgFacts2 PropUtil PropMath Feq Float FloatFacts FloatValid.
Import ListNotations.
Local Open Scope Z_scope.

(** A number: not NaN, not an infinity. *)
Definition is_finite (x : double) : Prop := match x with S754_zero _ | S754_finite _ _ _ => True | _ => False end.
(** What a C++ double can hold: the mantissa and the exponent are in range. *)
Definition is_double (x : double) : Prop := valid_binary prec64 emax64 x = true.
(** A tolerance that is a positive number; and one that is moreover at most 1/4. *)
Definition pos_tol (tol : double) : Prop := exists m e, tol = S754_finite false m e.
Definition small_tol (tol : double) : Prop := exists m e, tol = S754_finite false m e /\ e < 0 /\ 4 * Zpos m <= 2 ^ (- e).
Notation feq := (@approximately_equal double fops0).
Notation fle := (@approximately_lesser_than_equal double fops0).
Notation fge := (@approximately_greater_than_equal double fops0).
Notation fzero := (@approximately_equal_to_zero double fops0).

(** NaN is equal to nothing, not to itself, not to zero, and is in no order. *)
Theorem C84_nan tol x : feq tol nan x = false /\ feq tol x nan = false /\ fzero tol nan = false /\
  fle tol nan x = false /\ fle tol x nan = false /\ fge tol nan x = false /\ fge tol x nan = false.
Proof.
  assert (E : feq tol nan x = false /\ feq tol x nan = false) by (destruct x; split; reflexivity).
  destruct E as [E1 E2]. unfold approximately_lesser_than_equal, approximately_greater_than_equal. rewrite E1, E2.
  repeat split; try reflexivity; destruct x as [[]|[]| |[]]; reflexivity.
Qed.
(** A finite number is equal to itself, and below and above itself. *)
Theorem C84_reflexive tol x : pos_tol tol -> is_finite x -> feq tol x x = true /\ fle tol x x = true /\ fge tol x x = true.
Proof.
  intros (mt & et & ->) Hx. assert (E : feq (S754_finite false mt et) x x = true).
  { unfold approximately_equal, std_max. destruct x as [s| | |s m e]; try contradiction; [destruct s; reflexivity|].
    cbn [olt oabs osub ole omul fops0 SFabs]. replace (SFltb (S754_finite false m e) (S754_finite false m e)) with false
      by (unfold SFltb, SFcompare; rewrite Z.compare_refl; change (Pos.compare_cont Eq m m) with (Pos.compare m m); rewrite Pos.compare_refl; reflexivity).
    assert (E0 : SFabs (SFsub prec64 emax64 (S754_finite s m e) (S754_finite s m e)) = S754_zero false)
      by (cbn [SFsub]; rewrite Z.sub_diag; reflexivity). rewrite E0.
    destruct (mul_pos prec64 emax64 mt et m e) as [H|[H|(m' & e' & H)]]; rewrite H; reflexivity. }
  unfold approximately_lesser_than_equal, approximately_greater_than_equal. rewrite E, !orb_true_r. auto.
Qed.
(** An infinity is not equal to itself, and is equal to the opposite one and to every
    finite number: for these, the comparison is useless. *)
Theorem C84_infinity tol s : pos_tol tol ->
  feq tol (inf s) (inf s) = false /\ feq tol (inf s) (inf (negb s)) = true /\
  (forall x, is_finite x -> feq tol (inf s) x = true /\ feq tol x (inf s) = true) /\ fzero tol (inf s) = true.
Proof.
  intros (mt & et & ->). split; [destruct s; reflexivity|]. split; [destruct s; reflexivity|]. split; [|reflexivity].
  intros x Hx. destruct x as [sx| | |sx m e]; try contradiction; split; reflexivity.
Qed.
(** The order of the arguments does not matter, for all doubles. *)
Theorem C84_symmetric tol a b : feq tol a b = feq tol b a.
Proof.
  unfold approximately_equal. cbn [osub oabs ole omul fops0]. rewrite (abs_sub prec64 emax64 a b). unfold std_max. cbn [olt fops0].
  destruct (SFltb (SFabs a) (SFabs b)) eqn:E1.
  - rewrite (ltb_asym _ _ E1). reflexivity.
  - destruct (SFltb (SFabs b) (SFabs a)) eqn:E2; [reflexivity|]. destruct (ltb_abs a b E1 E2) as [->|[->| ->]]; [| |reflexivity].
    + destruct b; reflexivity.
    + destruct a; reflexivity.
Qed.
Theorem C84_mirror tol a b : fle tol a b = fge tol b a.
Proof. unfold approximately_lesser_than_equal, approximately_greater_than_equal. rewrite C84_symmetric. reflexivity. Qed.
(** With a tolerance of at most 1/4 (it is 1e-06 at the start): "approximately zero" is
    true of the two zeros and of the two infinities only; so it is for == with a zero. *)
Theorem C84_zero tol x : small_tol tol -> is_double x -> (fzero tol x = true <-> (exists s, x = S754_zero s) \/ (exists s, x = inf s)).
Proof.
  intros (mt & et & -> & He & Hm) Hx. destruct x as [s|s| |s m e].
  - split; [eauto|reflexivity].
  - split; [right; exists s; reflexivity|reflexivity].
  - split; [discriminate|intros [[s H]|[s H]]; discriminate].
  - split; [|intros [[s' H]|[s' H]]; discriminate]. intros H. unfold approximately_equal_to_zero in H.
    cbn [ole oabs omul fops0 SFabs] in H. rewrite (mul_small prec64 emax64 mt et m e false He Hm Hx) in H. discriminate.
Qed.
Theorem C84_equal_zero tol x s : small_tol tol -> is_double x -> feq tol x (S754_zero s) = fzero tol x /\ feq tol (S754_zero s) x = fzero tol x.
Proof.
  intros Ht Hx. rewrite (C84_symmetric tol (S754_zero s)). assert (E : feq tol x (S754_zero s) = fzero tol x); [|auto].
  destruct Ht as (mt & et & -> & _). destruct x as [sx|sx| |sx m e]; try reflexivity. destruct sx, s; reflexivity.
Qed.
(** Numbers of opposite signs are not equal. *)
Lemma shl_val m e ez : ez <= e -> Zpos (fst (shl_align m e ez)) = Zpos m * 2 ^ (e - ez).
Proof.
  intros H. unfold shl_align. destruct (ez - e) as [|p|p] eqn:E; [|lia|]; cbn [fst].
  - replace (e - ez) with 0 by lia. lia.
  - rewrite shift_pos_val. f_equal. f_equal. lia.
Qed.
Theorem C84_opposite_signs tol ma ea mb eb : small_tol tol -> is_double (S754_finite true ma ea) -> is_double (S754_finite false mb eb) ->
  feq tol (S754_finite true ma ea) (S754_finite false mb eb) = false /\ feq tol (S754_finite false mb eb) (S754_finite true ma ea) = false.
Proof.
  intros (mt & et & -> & He & Hm) Ha Hb. rewrite (C84_symmetric _ (S754_finite false mb eb)).
  assert (G : feq (S754_finite false mt et) (S754_finite true ma ea) (S754_finite false mb eb) = false); [|auto].
  unfold approximately_equal. cbn [osub oabs ole omul fops0]. set (d := SFabs (SFsub _ _ _ _)).
  assert (HG : forall mx ex, is_double (S754_finite false mx ex) -> SFleb (S754_finite false mx ex) d = true ->
    SFleb d (SFmul prec64 emax64 (S754_finite false mt et) (S754_finite false mx ex)) = false).
  { intros mx ex Hx Hd. pose proof (mul_small prec64 emax64 mt et mx ex false He Hm Hx) as K. apply not_true_iff_false. intros Hd'.
    apply not_true_iff_false in K. apply K. apply klt_leb. apply klt_leb in Hd, Hd'. destruct Hd as (? & ? & D1), Hd' as (? & ? & D2).
    split; [auto|]. split; [auto|]. unfold klt in *. destruct (key d) as [[? ?] ?], (key (S754_finite false mx ex)) as [[? ?] ?], (key (SFmul _ _ _ _)) as [[? ?] ?]. lia. }
  (* |a - b| is at least |a| and |b| *)
  assert (Ed : forall mx ex, is_double (S754_finite false mx ex) -> (mx = ma /\ ex = ea) \/ (mx = mb /\ ex = eb) -> SFleb (S754_finite false mx ex) d = true).
  { intros mx ex Hx Hc. unfold d. cbn [SFsub cond_Zopp]. set (ez := Z.min ea eb). rewrite !shl_val by (unfold ez; lia).
    set (S := Zpos ma * 2 ^ (ea - ez) + Zpos mb * 2 ^ (eb - ez)).
    pose proof (p2_pos (ea - ez) ltac:(unfold ez; lia)). pose proof (p2_pos (eb - ez) ltac:(unfold ez; lia)).
    replace (- (Zpos ma * 2 ^ (ea - ez)) - Zpos mb * 2 ^ (eb - ez)) with (- S) by (unfold S; ring).
    assert (HS : Zpos mx * 2 ^ (ex - ez) <= S) by (unfold S; destruct Hc as [[-> ->]|[-> ->]]; nia).
    assert (S0 : 0 < S) by (unfold S; nia). destruct S as [|p|p]; [lia| |lia]. cbn [Z.opp binary_normalize].
    rewrite (abs_round prec64 emax64 true). cbn [negb].
    assert (L : SFleb (S754_finite false mx ex) (binary_round prec64 emax64 false p ez) = true).
    { apply round_ge; [unfold prec64; lia|exact Hx|unfold ez; destruct Hc as [[-> ->]|[-> ->]]; lia|exact HS]. }
    destruct (binary_round prec64 emax64 false p ez) as [[]|[]| |[] ? ?]; cbn [SFabs]; auto; discriminate. }
  unfold std_max. cbn [olt fops0 SFabs]. destruct (SFltb _ _); apply HG; auto.
Qed.

(** * Matrices of doubles *)
(** A == A is true exactly at the finite elements. *)
Theorem C84_matrix_reflexive tol A r c f : pos_tol tol -> @readsL double A r c f ->
  exists E, @m_eq double (fops tol) A A = Ok E /\ is_mat E r c (fun i j => match f i j with S754_zero _ | S754_finite _ _ _ => true | _ => false end).
Proof.
  intros Ht HA. destruct (@C36_compare double (fops tol)) as (P & _). destruct (P A A r c f r c f HA HA) as (_ & Q).
  destruct (Q eq_refl eq_refl) as (E & E1 & HE). exists E. split; [exact E1|]. eapply is_mat_ext; [exact HE|].
  intros i j _ _. cbn [ofeq fops]. destruct (f i j) as [s|s| |s m e].
  - apply (C84_reflexive tol (S754_zero s) Ht I).
  - apply (C84_infinity tol s Ht).
  - apply (C84_nan tol nan).
  - apply (C84_reflexive tol (S754_finite s m e) Ht I).
Qed.

(** * Examples *)
Definition one : double := SFone prec64 emax64.
Lemma tol6_small : small_tol tol6.
Proof. exists 4722366482869645%positive, (-72). split; [reflexivity|]. split; [lia|]. vm_compute. discriminate. Qed.
Lemma tol6_pos : pos_tol tol6. Proof. eexists. eexists. reflexivity. Qed.
Example C84_ex : is_double one /\ is_double tol6 /\ fzero tol6 one = false /\ feq tol6 one (SFadd prec64 emax64 one tol6) = true /\
  feq tol6 one (SFadd prec64 emax64 one (SFadd prec64 emax64 tol6 tol6)) = false /\
  is_double (S754_finite false 1 (-1074)) /\ fzero tol6 (S754_finite false 1 (-1074)) = false.
Proof. vm_compute. repeat split. Qed.
Example C84_matrix_ex : @m_eq double (fops tol6) (mb_of_mat (mkM 2 2 [one; nan; inf true; S754_zero true])) (mb_of_mat (mkM 2 2 [one; nan; inf true; S754_zero true]))
  = Ok (mkM 2 2 [true; false; false; true]).
Proof. vm_compute. reflexivity. Qed.
