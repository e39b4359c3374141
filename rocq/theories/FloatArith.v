(** FloatArith.v: the operations of SpecFloat are correctly rounded: error bounds in
    terms of rational numbers, with gradual underflow and overflow. *)
From Coq Require Import ZArith QArith Qabs Qpower Bool Lia Lqa SpecFloat.
From Verif Require Import FloatFacts FloatValid FloatRound.
Local Open Scope Z_scope.

(** Powers of two. *)
Notation p2 e := (Qpower 2%Q e%Z).
Lemma q2_pos e : (0 < p2 e)%Q. Proof. now apply Qpower_0_lt. Qed.
Lemma q2_add a b : (p2 (a + b) == p2 a * p2 b)%Q. Proof. apply Qpower_plus. discriminate. Qed.
Lemma q2_Z e : 0 <= e -> (p2 e == inject_Z (2 ^ e))%Q. Proof. intros H. symmetry. change 2%Q with (inject_Z 2). now apply Zpower_Qpower. Qed.
Lemma q2_mono a b : a <= b -> (p2 a <= p2 b)%Q. Proof. intros H. now apply Qpower_le_compat_l. Qed.
Lemma q2_split a b : (p2 a == p2 (a - b) * p2 b)%Q. Proof. rewrite <- q2_add. now replace (a - b + b) with a by lia. Qed.
Lemma injZ_le a b : a <= b -> (inject_Z a <= inject_Z b)%Q. Proof. now rewrite <- Zle_Qle. Qed.
Lemma injZ_lt a b : a < b -> (inject_Z a < inject_Z b)%Q. Proof. now rewrite <- Zlt_Qlt. Qed.
Lemma injZ_abs a : (Qabs (inject_Z a) == inject_Z (Z.abs a))%Q. Proof. reflexivity. Qed.
Lemma Qabs_scale c x : (0 <= c)%Q -> (Qabs (c * x) == c * Qabs x)%Q.
Proof. intros H. rewrite Qabs_Qmult. now rewrite (Qabs_pos c H). Qed.

Section Arith.
Variables (prec emax : Z).
Hypothesis Hprec : 0 < prec.
Hypothesis Hemax : 2 <= emax.
Notation fexp := (fexp prec emax).
Notation emin := (emin prec emax).
Notation pack := (pack prec emax).

Lemma aux_gen s M E l A B : 0 < B -> rloc A B (shr_record_of_loc M l) -> E <= fexp (Zdigits2 M + E) ->
  let e1 := fexp (Zdigits2 M + E) in
  exists R, R <= 2 ^ prec /\ nearest A (B * 2 ^ (e1 - E)) R /\ binary_round_aux prec emax s M E l = pack s R e1.
Proof.
  intros Hb HL HF. cbv zeta. assert (HM : 0 <= M) by (destruct HL as (H & _); rewrite shr_of_loc in H; auto).
  unfold binary_round_aux, shr_fexp. set (e1 := fexp (Zdigits2 M + E)) in *.
  destruct (rloc_shr _ _ _ E (e1 - E) HL) as (y & -> & Hy); [lia|].
  replace (E + (e1 - E)) with e1 by lia.
  pose proof (p2_pos (e1 - E) ltac:(lia)) as PW.
  assert (HB : 0 < B * 2 ^ (e1 - E)) by (apply Z.mul_pos_pos; lia).
  pose proof (rloc_nearest _ _ _ HB Hy) as HN. set (R := round_nearest_even _ _) in *. exists R.
  assert (R0 : 0 <= R) by apply HN.
  assert (RB : R <= 2 ^ prec).
  { pose proof (dig_nonneg M) as D0. set (d := Zdigits2 M) in *.
    assert (B2 : M + 1 <= 2 ^ d).
    { destruct (Z.eq_dec M 0) as [E0|N0]; [subst M; cbn in d; subst d; cbn; lia|]. destruct (dig_bounds M) as (_ & _ & B'); [lia|]. fold d in B'. lia. }
    assert (A2 : A < 2 ^ d * B).
    { destruct HL as (_ & HL & _). rewrite shr_of_loc in HL. assert ((M + 1) * B <= 2 ^ d * B) by (apply Z.mul_le_mono_nonneg_r; lia). lia. }
    assert (E2 : 2 ^ d * B <= 2 ^ prec * (B * 2 ^ (e1 - E))).
    { assert (2 ^ d <= 2 ^ prec * 2 ^ (e1 - E)).
      - rewrite <- Z.pow_add_r by lia. apply Z.pow_le_mono_r; [lia|]. pose proof (fexp_prec prec emax (d + E)). fold e1 in H. lia.
      - replace (2 ^ prec * (B * 2 ^ (e1 - E))) with (2 ^ prec * 2 ^ (e1 - E) * B) by ring. apply Z.mul_le_mono_nonneg_r; lia. }
    destruct HN as (_ & HN & _). nia. }
  split; [exact RB|]. split; [exact HN|]. unfold FloatRound.pack.
  destruct (Z.eqb_spec R (2 ^ prec)) as [ER|NR].
  - assert (DR : Zdigits2 R = prec + 1).
    { apply Z.le_antisymm; [apply digits_le; [lia|lia|]|apply dig_lb; lia]. rewrite ER, p2_S by lia. pose proof (p2_pos prec). lia. }
    rewrite DR. assert (EF : fexp (prec + 1 + e1) - e1 = 1).
    { assert (emin <= e1) by apply fexp_ge. unfold SpecFloat.fexp. lia. }
    rewrite EF. destruct (shr_div R loc_Exact e1 1) as (z & -> & Hz); [lia|lia|]. rewrite Hz, ER.
    replace (2 ^ prec / 2 ^ 1) with (2 ^ (prec - 1)); [pose proof (p2_pos (prec - 1)); destruct (2 ^ (prec - 1)); [reflexivity|reflexivity|lia]|].
    replace prec with (prec - 1 + 1) at 2 by lia. rewrite p2_S by lia. rewrite Z.mul_comm, Z.div_mul by lia. reflexivity.
  - assert (DR : Zdigits2 R <= prec) by (apply digits_le; lia).
    assert (EF : fexp (Zdigits2 R + e1) - e1 <= 0).
    { assert (emin <= e1) by apply fexp_ge. unfold SpecFloat.fexp. lia. }
    assert (ES : shr (shr_record_of_loc R loc_Exact) e1 (fexp (Zdigits2 R + e1) - e1) = (shr_record_of_loc R loc_Exact, e1)).
    { unfold shr. destruct (fexp (Zdigits2 R + e1) - e1); [reflexivity|lia|reflexivity]. }
    rewrite ES. cbn [shr_record_of_loc shr_m]. destruct R; [reflexivity|reflexivity|lia].
Qed.

(** [y] is the number [v] > 0 with the sign [s], rounded: a multiple R of the unit 2^e1
    nearest to v, where the unit fits the size of v. *)
Definition rounds (s : bool) (v : Q) (y : spec_float) : Prop :=
  exists R e1, y = pack s R e1 /\ 0 <= R <= 2 ^ prec /\ emin <= e1 /\
    (2 * Qabs (v - inject_Z R * p2 e1) <= p2 e1)%Q /\
    (e1 = emin \/ p2 (e1 + prec - 1) <= v)%Q /\ (v < p2 (e1 + prec))%Q /\
    ((2 * Qabs (v - inject_Z R * p2 e1) == p2 e1)%Q -> Z.even R = true).

Lemma aux_Q s M E l A B v : 0 < B -> rloc A B (shr_record_of_loc M l) -> E <= fexp (Zdigits2 M + E) ->
  (v * inject_Z B == inject_Z A * p2 E)%Q -> rounds s v (binary_round_aux prec emax s M E l).
Proof.
  intros HB HL HF HV. destruct (aux_gen s M E l A B HB HL HF) as (R & R1 & (R0 & N1 & NT) & ->).
  set (e1 := fexp (Zdigits2 M + E)) in *. assert (G : emin <= e1) by apply fexp_ge.
  assert (HBQ : (0 < inject_Z B)%Q) by now apply (injZ_lt 0).
  destruct HL as (M0 & ML & _). rewrite shr_of_loc in M0, ML. assert (AL : M * B <= A < (M + 1) * B) by lia.
  exists R, e1. split; [reflexivity|]. split; [lia|]. split; [exact G|].
  pose proof (q2_pos E) as PE. pose proof (dig_nonneg M) as D0. set (d := Zdigits2 M) in *.
  assert (X : (Qabs (v - inject_Z R * p2 e1) * inject_Z B == Qabs (inject_Z (A - R * (B * 2 ^ (e1 - E)))) * p2 E)%Q).
  { rewrite (Qmult_comm _ (inject_Z B)), (Qmult_comm _ (p2 E)), <- !Qabs_scale by lra. apply Qabs_wd.
    unfold Z.sub at 1. rewrite inject_Z_plus, inject_Z_opp, !inject_Z_mult, <- q2_Z by lia. rewrite (q2_split e1 E).
    transitivity (v * inject_Z B - inject_Z R * (p2 (e1 - E) * p2 E) * inject_Z B)%Q; [ring|]. rewrite HV. ring. }
  split; [|split; [|split]].
  - (* divide the integer inequality by B and scale by 2^E *)
    apply injZ_le in N1. rewrite inject_Z_mult, <- injZ_abs, inject_Z_mult, <- q2_Z in N1 by lia.
    apply (Qmult_lt_0_le_reg_r _ _ (inject_Z B) HBQ). rewrite <- Qmult_assoc, X, (q2_split e1 E).
    apply Qle_trans with (inject_Z B * p2 (e1 - E) * p2 E)%Q; [|apply Qle_lteq; right; ring].
    rewrite Qmult_assoc. apply Qmult_le_compat_r; [exact N1|lra].
  - destruct (Z.eq_dec M 0) as [Z0|NZ].
    + left. subst M. cbn in d. subst d. unfold e1, SpecFloat.fexp in *. lia.
    + destruct (Z.eq_dec e1 emin) as [|NE]; [auto|right]. assert (EE : e1 = d + E - prec) by (unfold e1, SpecFloat.fexp in *; lia).
      destruct (dig_bounds M) as (D1 & D2 & _); [lia|]. fold d in D1, D2.
      replace (e1 + prec - 1) with ((d - 1) + E) by lia. rewrite q2_add, q2_Z by lia.
      apply (Qmult_lt_0_le_reg_r _ _ (inject_Z B) HBQ). rewrite HV.
      apply Qle_trans with (inject_Z (2 ^ (d - 1) * B) * p2 E)%Q; [apply Qle_lteq; right; rewrite inject_Z_mult; ring|].
      apply Qmult_le_compat_r; [|lra]. apply injZ_le. assert (2 ^ (d - 1) * B <= M * B) by (apply Z.mul_le_mono_nonneg_r; lia). lia.
  - apply (Qmult_lt_r _ _ (inject_Z B) HBQ). rewrite HV. apply Qlt_le_trans with (inject_Z (2 ^ d * B) * p2 E)%Q.
    + apply Qmult_lt_r; [exact PE|]. apply injZ_lt. assert (B2 : M + 1 <= 2 ^ d).
      { destruct (Z.eq_dec M 0) as [E0|N0]; [subst M; cbn in d; subst d; cbn; lia|]. destruct (dig_bounds M) as (_ & _ & B'); [lia|]. fold d in B'. lia. }
      assert ((M + 1) * B <= 2 ^ d * B) by (apply Z.mul_le_mono_nonneg_r; lia). lia.
    + rewrite inject_Z_mult, <- q2_Z by lia. apply Qle_trans with (p2 (d + E) * inject_Z B)%Q; [rewrite q2_add; apply Qle_lteq; right; ring|].
      apply Qmult_le_compat_r; [|lra]. apply q2_mono. unfold e1, SpecFloat.fexp. lia.
  - intros TE. apply NT. apply inject_Z_injective. rewrite inject_Z_mult, <- injZ_abs, inject_Z_mult, <- q2_Z by lia. change (inject_Z 2) with 2%Q.
    assert (PE0 : ~ (p2 E == 0)%Q) by lra. apply (Qmult_inj_r _ _ (p2 E) PE0). rewrite <- Qmult_assoc, <- X, Qmult_assoc, TE, (q2_split e1 E). ring.
Qed.

Lemma rloc_exact M : 0 <= M -> rloc M 1 (shr_record_of_loc M loc_Exact).
Proof. intros H. unfold rloc. cbn. lia. Qed.
Lemma shl_align_val m e ez : ez <= e -> Zpos (fst (shl_align m e ez)) = Zpos m * 2 ^ (e - ez) /\ snd (shl_align m e ez) = ez.
Proof.
  intros H. unfold shl_align. destruct (ez - e) as [|p|p] eqn:E; [|lia|].
  - replace (e - ez) with 0 by lia. cbn. lia.
  - cbn [fst snd]. rewrite shift_pos_val. split; [f_equal; f_equal; lia|lia].
Qed.
(** m * 2^e rounded. *)
Lemma round_rounds s m e : rounds s (inject_Z (Zpos m) * p2 e) (binary_round prec emax s m e).
Proof.
  unfold binary_round. set (f := fexp (Zpos (digits2_pos m) + e)).
  destruct (Z.le_gt_cases e f) as [L|L].
  - assert (ES : shl_align m e f = (m, e)) by (unfold shl_align; destruct (f - e) eqn:X; [reflexivity|reflexivity|lia]). rewrite ES.
    apply (aux_Q _ _ _ _ (Zpos m) 1); [lia|apply rloc_exact; lia|exact L|change (inject_Z 1) with 1%Q; ring].
  - destruct (shl_align_val m e f) as [H1 H2]; [lia|]. destruct (shl_align m e f) as [mz ez] eqn:ES. cbn [fst snd] in H1, H2. subst ez.
    apply (aux_Q _ _ _ _ (Zpos mz) 1); [lia|apply rloc_exact; lia| |].
    + unfold shl_align in ES. destruct (f - e) as [|p|p] eqn:X; [lia|lia|]. injection ES as <-. rewrite dig_shift. 
      replace (Zpos (digits2_pos m) + Zpos p + f) with (Zpos (digits2_pos m) + e) by lia. fold f. lia.
    + change (inject_Z 1) with 1%Q. rewrite H1, inject_Z_mult, <- q2_Z, (q2_split e f) by lia. ring.
Qed.
(** m1 * 2^e1 / (m2 * 2^e2) rounded. *)
Lemma div_rounds s m1 e1 m2 e2 : rounds s (inject_Z (Zpos m1) * p2 e1 / (inject_Z (Zpos m2) * p2 e2))
  (let '(mz, ez, lz) := SFdiv_core_binary prec emax (Zpos m1) e1 (Zpos m2) e2 in binary_round_aux prec emax s mz ez lz).
Proof.
  unfold SFdiv_core_binary. cbv zeta. set (a := Zpos m1). set (b := Zpos m2). assert (Ha : 0 < a) by (unfold a; lia). assert (Hb : 0 < b) by (unfold b; lia). clearbody a b.
  set (D := Zdigits2 a + e1 - (Zdigits2 b + e2)). set (e' := Z.min (fexp D) (e1 - e2)). set (w := e1 - e2 - e').
  assert (W0 : 0 <= w) by (unfold w, e'; lia).
  assert (EM : match w with Zpos _ => Z.shiftl a w | 0 => a | Zneg _ => 0 end = a * 2 ^ w).
  { destruct w as [|q|q] eqn:Q; [cbn; lia|rewrite Z.shiftl_mul_pow2 by lia; reflexivity|lia]. }
  rewrite EM. destruct (Z.div_eucl (a * 2 ^ w) b) as [q r] eqn:EQ.
  pose proof (Z_div_mod (a * 2 ^ w) b) as HD. rewrite EQ in HD. destruct HD as [HQ HR]; [lia|].
  pose proof (p2_pos w W0) as P1. assert (Q0 : 0 <= q) by nia.
  set (l := new_location b r).
  assert (HL : rloc (a * 2 ^ w) b (shr_record_of_loc q l)).
  { unfold rloc. rewrite shr_of_loc. replace (a * 2 ^ w - q * b) with r by lia. split; [lia|]. split; [nia|].
    unfold l, new_location, new_location_even, new_location_odd.
    destruct (Z.even b) eqn:EB.
    - destruct (Zeq_bool r 0) eqn:EZ; [apply Zeq_bool_eq in EZ; cbn [shr_record_of_loc shr_r shr_s]; nia|].
      apply Zeq_bool_neq in EZ. destruct (Z.compare_spec (2 * r) b) as [E|L|L]; cbn [shr_record_of_loc shr_r shr_s]; nia.
    - destruct (Zeq_bool r 0) eqn:EZ; [apply Zeq_bool_eq in EZ; cbn [shr_record_of_loc shr_r shr_s]; nia|].
      apply Zeq_bool_neq in EZ. assert (OB : Z.Odd b) by (apply Z.odd_spec; rewrite <- Z.negb_even, EB; reflexivity).
      destruct OB as [h OB]. destruct (Z.compare_spec (2 * r + 1) b) as [E|L|L]; cbn [shr_record_of_loc shr_r shr_s]; nia. }
  apply (aux_Q s q e' l (a * 2 ^ w) b); auto.
  - destruct (Z.le_gt_cases D (Zdigits2 q + e')) as [L|L].
    + etransitivity; [|apply fexp_mono; exact L]. unfold e'. lia.
    + exfalso. destruct (dig_bounds a Ha) as (Da & Ba & _). destruct (dig_bounds b Hb) as (Db & _ & Bb).
      unfold D in L. set (da := Zdigits2 a) in *. set (db := Zdigits2 b) in *. set (dq := Zdigits2 q) in *. pose proof (dig_nonneg q) as D0. fold dq in D0.
      assert (QB : q + 1 <= 2 ^ dq).
      { destruct (Z.eq_dec q 0) as [E0|N0]; [subst q; cbn in dq; subst dq; cbn; lia|]. destruct (dig_bounds q) as (_ & _ & B); [lia|]. fold dq in B. lia. }
      assert (a * 2 ^ w < 2 ^ db * 2 ^ dq).
      { apply Z.lt_le_trans with (b * (q + 1)); [lia|]. apply Z.mul_le_mono_nonneg; lia. }
      rewrite <- Z.pow_add_r in H by lia.
      assert (2 ^ (db + dq) <= 2 ^ (da - 1 + w)) by (apply Z.pow_le_mono_r; [lia|]; unfold w in *; lia). rewrite (Z.pow_add_r 2 (da - 1)) in H0 by lia.
      assert (2 ^ (da - 1) * 2 ^ w <= a * 2 ^ w) by (apply Z.mul_le_mono_nonneg_r; lia). lia.
  - rewrite inject_Z_mult, <- q2_Z by lia. assert (HBQ : (0 < inject_Z b)%Q) by now apply (injZ_lt 0). pose proof (q2_pos e2).
    assert (X : (p2 e1 == p2 w * p2 e' * p2 e2)%Q) by (rewrite <- !q2_add; replace (w + e' + e2) with e1 by (unfold w; lia); reflexivity).
    rewrite X. field. split; lra.
Qed.

(** * Values *)
Definition fin (x : spec_float) : Prop := match x with S754_zero _ | S754_finite _ _ _ => True | _ => False end.
Definition sval (x : spec_float) : Q :=
  match x with S754_finite s m e => ((if s then -1 else 1) * inject_Z (Zpos m) * p2 e)%Q | _ => 0%Q end.
Definition sgn (s : bool) : Q := if s then (-1)%Q else 1%Q.
Definition uu : Q := p2 (- prec).
Definition eta : Q := p2 (emin - 1).
Definition huge : Q := ((p2 prec - (1 # 2)) * p2 (emax - prec))%Q.

(** The value of a packed number. *)
Lemma pack_sval s R e : 0 <= R -> (fin (pack s R e) /\ (sval (pack s R e) == sgn s * inject_Z R * p2 e)%Q) \/
  (pack s R e = S754_infinity s /\ (R = 2 ^ prec /\ emax - prec <= e \/ 0 < R /\ emax - prec < e)).
Proof.
  intros HR. unfold FloatRound.pack. destruct (Z.eqb_spec R (2 ^ prec)) as [ER|NR].
  - pose proof (p2_pos (prec - 1) ltac:(lia)) as PP. destruct (2 ^ (prec - 1)) as [|q|q] eqn:EQ; [lia| |lia].
    destruct (Z.leb_spec (e + 1) (emax - prec)) as [L|L]; [left|right; split; [reflexivity|left; lia]]. split; [exact I|]. cbn [sval].
    rewrite <- EQ, ER, <- !q2_Z by lia. fold (sgn s). rewrite <- !Qmult_assoc, <- !q2_add. replace (prec - 1 + (e + 1)) with (prec + e) by lia. reflexivity.
  - destruct R as [|q|q]; [left; split; [exact I|cbn [sval]; change (inject_Z 0) with 0%Q; ring]| |lia].
    destruct (Z.leb_spec e (emax - prec)) as [L|L]; [left|right; split; [reflexivity|right; lia]]. split; [exact I|]. reflexivity.
Qed.
Lemma sgn_abs s x : (Qabs (sgn s * x) == Qabs x)%Q.
Proof. destruct s; cbn [sgn]; [|rewrite Qmult_1_l; reflexivity]. rewrite Qabs_Qmult. change (Qabs (-1)) with 1%Q. ring. Qed.

(** Error of a rounded number; [mult]: v is a multiple of the smallest positive number. *)
Lemma rounds_err s v y : (0 < v)%Q -> rounds s v y ->
  (fin y /\ ((Qabs (sval y - sgn s * v) <= uu * v)%Q \/
             (Qabs (sval y - sgn s * v) <= eta /\ v < p2 (emin + prec - 1) /\ ~ exists k, v == inject_Z k * p2 emin)%Q)) \/
  (y = S754_infinity s /\ (huge <= v)%Q).
Proof.
  intros Hv (R & e1 & -> & [R0 R1] & G & N & SZ & LT & TE). pose proof (q2_pos e1) as P1.
  destruct (pack_sval s R e1 R0) as [[F V]|[V I]].
  - left. split; [exact F|].
    assert (E : (Qabs (sval (pack s R e1) - sgn s * v) == Qabs (v - inject_Z R * p2 e1))%Q).
    { rewrite V. rewrite <- (sgn_abs s (v - _)), Qabs_Qminus. apply Qabs_wd. ring. }
    rewrite E.
    assert (BIG : (p2 (e1 + prec - 1) <= v)%Q -> (Qabs (v - inject_Z R * p2 e1) <= uu * v)%Q).
    { intros H. apply Qle_trans with (uu * p2 (e1 + prec - 1))%Q.
      - unfold uu. rewrite <- q2_add. replace (- prec + (e1 + prec - 1)) with (e1 - 1) by lia.
        assert (X : (p2 e1 == 2 * p2 (e1 - 1))%Q) by (change 2%Q with (p2 1) at 2; rewrite <- q2_add; now replace (1 + (e1 - 1)) with e1 by lia). lra.
      - rewrite !(Qmult_comm uu). apply Qmult_le_compat_r; [exact H|]. pose proof (q2_pos (- prec)). unfold uu. lra. }
    destruct SZ as [EM|SZ]; [|left; auto]. destruct (Qlt_le_dec v (p2 (emin + prec - 1))) as [L|L]; [|left; apply BIG; rewrite EM; exact L].
    destruct (Qeq_dec (Qabs (v - inject_Z R * p2 e1)) 0) as [Z|NZ].
    + left. rewrite Z. apply Qmult_le_0_compat; [pose proof (q2_pos (- prec)); unfold uu; lra|lra].
    + right. split; [|split; [exact L|]].
      * unfold eta. rewrite EM in N |- *. assert (X : (p2 emin == 2 * p2 (emin - 1))%Q) by (change 2%Q with (p2 1) at 2; rewrite <- q2_add; now replace (1 + (emin - 1)) with emin by lia). lra.
      * intros [k Hk]. apply NZ. rewrite EM in *. assert (X : (v - inject_Z R * p2 emin == inject_Z (k - R) * p2 emin)%Q).
        { rewrite Hk. unfold Z.sub. rewrite inject_Z_plus, inject_Z_opp. ring. }
        assert (XA : (Qabs (v - inject_Z R * p2 emin) == p2 emin * inject_Z (Z.abs (k - R)))%Q).
        { rewrite X, Qmult_comm, Qabs_scale by lra. reflexivity. }
        rewrite XA in N |- *.
        assert (KR : (inject_Z (2 * Z.abs (k - R)) <= 1)%Q).
        { apply (Qmult_lt_0_le_reg_r _ _ (p2 emin) P1). rewrite inject_Z_mult. change (inject_Z 2) with 2%Q. lra. }
        change 1%Q with (inject_Z 1) in KR. rewrite <- Zle_Qle in KR. replace (Z.abs (k - R)) with 0 by lia. change (inject_Z 0) with 0%Q. ring.
  - right. split; [exact V|]. unfold huge.
    assert (N1 : (2 * (inject_Z R * p2 e1 - v) <= p2 e1)%Q).
    { pose proof (Qle_Qabs (inject_Z R * p2 e1 - v)) as QA. rewrite Qabs_Qminus in QA. lra. }
    destruct I as [[-> L]|[RP L]].
    + rewrite <- q2_Z in N1 by lia. pose proof (q2_mono _ _ L) as M.
      assert (X : ((p2 prec - (1 # 2)) * p2 (emax - prec) <= (p2 prec - (1 # 2)) * p2 e1)%Q).
      { rewrite !(Qmult_comm (p2 prec - _)). apply Qmult_le_compat_r; [exact M|]. pose proof (q2_mono 0 prec ltac:(lia)) as Y. change (p2 0) with 1%Q in Y. lra. }
      lra.
    + destruct SZ as [EM|SZ]; [exfalso; unfold SpecFloat.emin in *; lia|].
      apply Qle_trans with (p2 (e1 + prec - 1)); [|exact SZ]. apply Qle_trans with (p2 prec * p2 (emax - prec))%Q.
      * pose proof (q2_pos (emax - prec)). lra.
      * rewrite <- q2_add. apply q2_mono. lia.
Qed.
(** Numbers beyond the largest one, by half a unit or more, are rounded to infinity. *)
Lemma rounds_huge s v y : 1 < prec -> prec < emax -> (huge <= v)%Q -> rounds s v y -> y = S754_infinity s.
Proof.
  intros Hp He Hv (R & e1 & -> & [R0 R1] & G & N & SZ & LT & TE). unfold huge in Hv.
  pose proof (q2_pos e1) as P1. pose proof (q2_pos (emax - prec)) as P2.
  assert (E1 : emax - prec <= e1).
  { destruct (Z.le_gt_cases (emax - prec) e1) as [|L]; [auto|exfalso].
    assert (p2 (e1 + prec) <= p2 (emax - 1))%Q by (apply q2_mono; lia).
    assert (X : ((p2 prec - (1 # 2)) * p2 (emax - prec) == p2 emax - (1 # 2) * p2 (emax - prec))%Q).
    { transitivity (p2 prec * p2 (emax - prec) - (1 # 2) * p2 (emax - prec))%Q; [ring|]. rewrite <- q2_add. now replace (prec + (emax - prec)) with emax by lia. }
    assert (Y : (p2 emax == 2 * p2 (emax - 1))%Q) by (change 2%Q with (p2 1) at 2; rewrite <- q2_add; now replace (1 + (emax - 1)) with emax by lia).
    assert (p2 (emax - prec) <= p2 (emax - 1))%Q by (apply q2_mono; lia). rewrite X, Y in Hv. lra. }
  assert (RP : 0 < R /\ (emax - prec < e1 \/ R = 2 ^ prec)).
  { destruct (Z.eq_dec e1 (emax - prec)) as [EE|NE].
    - rewrite EE in *. set (w := p2 (emax - prec)) in *.
      assert (N1 : (2 * (v - inject_Z R * w) <= w)%Q) by (pose proof (Qle_Qabs (v - inject_Z R * w)); lra).
      assert (RB : (p2 prec - 1 <= inject_Z R)%Q).
      { apply (Qmult_lt_0_le_reg_r _ _ w P1). assert (X : ((p2 prec - 1) * w == (p2 prec - (1 # 2)) * w - (1 # 2) * w)%Q) by ring. rewrite X. lra. }
      rewrite (q2_Z prec) in RB by lia. assert (RZ : 2 ^ prec - 1 <= R).
      { rewrite Zle_Qle. unfold Z.sub. rewrite inject_Z_plus, inject_Z_opp. exact RB. }
      pose proof (p2_pos prec ltac:(lia)) as PP. assert (2 <= 2 ^ prec) by (change 2 with (2 ^ 1) at 1; apply Z.pow_le_mono_r; lia).
      split; [lia|]. right. destruct (Z.eq_dec R (2 ^ prec)) as [|NR]; [auto|exfalso]. assert (ER : R = 2 ^ prec - 1) by lia.
      assert (EV : Z.even R = false).
      { rewrite ER. replace prec with (prec - 1 + 1) by lia. rewrite p2_S by lia. rewrite Z.even_sub, Z.even_mul. reflexivity. }
      rewrite TE in EV; [discriminate|]. apply Qle_antisym; [exact N|].
      assert (VR : (inject_Z R * w + (1 # 2) * w <= v)%Q).
      { eapply Qle_trans; [|exact Hv]. rewrite ER. unfold Z.sub. rewrite inject_Z_plus, inject_Z_opp, <- q2_Z by lia. change (inject_Z 1) with 1%Q. apply Qle_lteq. right. ring. }
      pose proof (Qle_Qabs (v - inject_Z R * w)). lra.
    - split; [|lia]. destruct (Z.eq_dec R 0) as [->|]; [exfalso|lia]. change (inject_Z 0) with 0%Q in N.
      destruct SZ as [SZ|SZ]; [unfold SpecFloat.emin in *; lia|]. assert (p2 e1 <= p2 (e1 + prec - 1))%Q by (apply q2_mono; lia).
      assert (X : (v - 0 * p2 e1 == v)%Q) by ring. rewrite X in N. pose proof (Qle_Qabs v). lra. }
  unfold FloatRound.pack. pose proof (p2_pos (prec - 1) ltac:(lia)) as PP.
  destruct (Z.eqb_spec R (2 ^ prec)) as [ER|NR].
  - destruct (2 ^ (prec - 1)) as [|q|q]; [lia| |lia]. destruct (Z.leb_spec (e1 + 1) (emax - prec)); [lia|reflexivity].
  - destruct R as [|q|q]; [lia| |lia]. destruct (Z.leb_spec e1 (emax - prec)); [lia|reflexivity].
Qed.

(** * The operations *)
Notation valid := (valid_binary prec emax).
(** [y] is [v] up to a relative error 2^-prec, or an infinity and v is beyond the largest number. *)
Definition close (v : Q) (y : spec_float) : Prop :=
  (fin y /\ (Qabs (sval y - v) <= uu * Qabs v)%Q) \/ ((exists s, y = S754_infinity s) /\ (huge <= Qabs v)%Q).
(** The same with gradual underflow: near zero the error is absolute. *)
Definition close_u (v : Q) (y : spec_float) : Prop :=
  (fin y /\ ((Qabs (sval y - v) <= uu * Qabs v)%Q \/ (Qabs (sval y - v) <= eta /\ Qabs v < p2 (emin + prec - 1))%Q)) \/
  ((exists s, y = S754_infinity s) /\ (huge <= Qabs v)%Q).
Lemma uu_pos : (0 < uu)%Q. Proof. apply q2_pos. Qed.
Lemma eta_pos : (0 < eta)%Q. Proof. apply q2_pos. Qed.
Lemma close_exact v y : fin y -> (sval y == v)%Q -> close v y.
Proof.
  intros F E. left. split; [exact F|]. rewrite E. assert (X : (v - v == 0)%Q) by ring. rewrite X. change (Qabs 0) with 0%Q.
  apply Qmult_le_0_compat; [pose proof uu_pos; lra|apply Qabs_nonneg].
Qed.
Lemma close_weaken v y : close v y -> close_u v y.
Proof. intros [[F E]|H]; [left|right]; auto. Qed.
Lemma sgn_val s v : (0 < v)%Q -> (Qabs (sgn s * v) == v)%Q.
Proof. intros H. rewrite sgn_abs. apply Qabs_pos. lra. Qed.
(** [y] is [w] rounded. *)
Definition crt (w : Q) (y : spec_float) : Prop :=
  (fin y /\ (sval y == w)%Q) \/ exists s v, (0 < v)%Q /\ (w == sgn s * v)%Q /\ rounds s v y.
Lemma crt_wd w w' y : (w == w')%Q -> crt w y -> crt w' y.
Proof. intros E [[F H]|(s & v & H1 & H2 & H3)]; [left; split; auto; now rewrite H|right; exists s, v; split; auto; split; auto; now rewrite <- E]. Qed.
Lemma crt_close_u w y : crt w y -> close_u w y.
Proof.
  intros [[F E]|(s & v & Hv & E & H)]; [apply close_weaken; now apply close_exact|]. assert (A : (Qabs w == v)%Q) by (rewrite E; now apply sgn_val).
  destruct (rounds_err s v y Hv H) as [[F [B|(B & L & _)]]|[-> B]].
  - left. split; [exact F|]. left. rewrite A, E. exact B.
  - left. split; [exact F|]. right. rewrite A, E. auto.
  - right. split; [eauto|]. now rewrite A.
Qed.
Lemma crt_close w y k e : (w == inject_Z k * p2 e)%Q -> emin <= e -> crt w y -> close w y.
Proof.
  intros K He [[F E]|(s & v & Hv & E & H)]; [now apply close_exact|]. assert (A : (Qabs w == v)%Q) by (rewrite E; now apply sgn_val).
  destruct (rounds_err s v y Hv H) as [[F [B|(_ & _ & N)]]|[-> B]].
  - left. split; [exact F|]. rewrite A, E. exact B.
  - exfalso. apply N. exists ((if s then - k else k) * 2 ^ (e - emin)). rewrite inject_Z_mult, <- q2_Z, <- Qmult_assoc, <- q2_split by lia.
    destruct s; cbn [sgn] in E; rewrite ?inject_Z_opp; lra.
  - right. split; [eauto|]. now rewrite A.
Qed.
(** Numbers with at most prec binary digits are not rounded. *)
Definition exact (w : Q) (y : spec_float) : Prop :=
  (fin y /\ (sval y == w)%Q) \/ ((exists s, y = S754_infinity s) /\ (huge <= Qabs w)%Q).
Lemma crt_exact w y k e : (w == inject_Z k * p2 e)%Q -> emin <= e -> Z.abs k <= 2 ^ prec -> crt w y -> exact w y.
Proof.
  intros K He Hk [[F E]|(s & v & Hv & E & H)]; [left; auto|]. assert (A : (Qabs w == v)%Q) by (rewrite E; now apply sgn_val).
  pose proof H as (R & e1 & -> & [R0 R1] & G & N & SZ & LT & TE). destruct (rounds_err s v _ Hv H) as [[F _]|[I B]]; [|right; split; [eauto|now rewrite A]].
  left. split; [exact F|]. destruct (pack_sval s R e1 R0) as [[_ V]|[V _]]; [|rewrite V in F; contradiction]. rewrite V, E.
  assert (VK : (v == inject_Z (Z.abs k) * p2 e)%Q).
  { rewrite <- A, K, Qabs_Qmult, injZ_abs. rewrite (Qabs_pos (p2 e)); [reflexivity|pose proof (q2_pos e); lra]. }
  assert (X : exists j, (v == inject_Z j * p2 e1)%Q).
  { destruct (Z.le_gt_cases e1 e) as [L|L].
    - exists (Z.abs k * 2 ^ (e - e1)). rewrite VK, inject_Z_mult, <- q2_Z, (q2_split e e1) by lia. ring.
    - destruct SZ as [SZ|SZ]; [lia|]. assert (LE : (v <= p2 (prec + e))%Q).
      { rewrite VK, q2_add, (q2_Z prec) by lia. apply Qmult_le_compat_r; [now apply injZ_le|pose proof (q2_pos e); lra]. }
      assert (e1 + prec - 1 <= prec + e) by (apply (Qpower_le_compat_l_inv 2); [eapply Qle_trans; eauto|reflexivity]).
      assert (EE : e1 = e + 1) by lia. exists (2 ^ (prec - 1)). rewrite <- q2_Z, <- q2_add by lia.
      apply Qle_antisym; [|replace (prec - 1 + e1) with (e1 + prec - 1) by lia; auto]. rewrite EE. replace (prec - 1 + (e + 1)) with (prec + e) by lia. auto. }
  destruct X as [j X]. pose proof (q2_pos e1) as P1.
  assert (XA : (Qabs (v - inject_Z R * p2 e1) == p2 e1 * inject_Z (Z.abs (j - R)))%Q).
  { rewrite <- injZ_abs, <- Qabs_scale by lra. apply Qabs_wd. rewrite X. unfold Z.sub. rewrite inject_Z_plus, inject_Z_opp. ring. }
  rewrite XA in N. assert (KR : (inject_Z (2 * Z.abs (j - R)) <= 1)%Q).
  { apply (Qmult_lt_0_le_reg_r _ _ (p2 e1) P1). rewrite inject_Z_mult. change (inject_Z 2) with 2%Q. lra. }
  change 1%Q with (inject_Z 1) in KR. rewrite <- Zle_Qle in KR. replace R with j by lia. rewrite X. ring.
Qed.
(** An integer multiple of 2^e, normalized. *)
Lemma mpos_val m e : (0 < inject_Z (Zpos m) * p2 e)%Q.
Proof. apply Qmult_lt_0_compat; [now apply (injZ_lt 0)|apply q2_pos]. Qed.
Lemma normalize_crt n e z : crt (inject_Z n * p2 e) (binary_normalize prec emax n e z).
Proof.
  destruct n as [|m|m]; cbn [binary_normalize].
  - left. split; [exact I|]. cbn [sval]. change (inject_Z 0) with 0%Q. ring.
  - right. exists false, (inject_Z (Zpos m) * p2 e)%Q. split; [apply mpos_val|]. split; [cbn [sgn]; ring|apply round_rounds].
  - right. exists true, (inject_Z (Zpos m) * p2 e)%Q. split; [apply mpos_val|]. split; [|apply round_rounds].
    cbn [sgn]. change (Zneg m) with (- Zpos m). rewrite inject_Z_opp. ring.
Qed.
Lemma bounded_emin m e : bounded prec emax m e = true -> emin <= e.
Proof. intros H. apply bounded_exp in H. rewrite <- H. apply fexp_ge. Qed.
Lemma sval_align s m e ez : ez <= e -> (sval (S754_finite s m e) == inject_Z (cond_Zopp s (Zpos (fst (shl_align m e ez)))) * p2 ez)%Q.
Proof.
  intros H. destruct (shl_align_val m e ez H) as [E _]. rewrite E. cbn [sval]. rewrite (q2_split e ez).
  destruct s; cbn [cond_Zopp]; rewrite ?inject_Z_opp, inject_Z_mult, <- q2_Z by lia; ring.
Qed.
Theorem add_crt x y : fin x -> fin y -> crt (sval x + sval y) (SFadd prec emax x y).
Proof.
  destruct x as [sx|sx| |sx mx ex], y as [sy|sy| |sy my ey]; intros Fx Fy; try contradiction; cbn [SFadd].
  - left. split; [destruct (Bool.eqb sx sy); exact I|]. destruct (Bool.eqb sx sy); reflexivity.
  - left. split; [exact I|]. cbn [sval]. ring.
  - left. split; [exact I|]. cbn [sval]. ring.
  - set (ez := Z.min ex ey). eapply crt_wd; [|apply normalize_crt].
    rewrite (sval_align sx mx ex ez), (sval_align sy my ey ez) by (unfold ez; lia). rewrite inject_Z_plus. ring.
Qed.
Theorem sub_crt x y : fin x -> fin y -> crt (sval x - sval y) (SFsub prec emax x y).
Proof.
  destruct x as [sx|sx| |sx mx ex], y as [sy|sy| |sy my ey]; intros Fx Fy; try contradiction; cbn [SFsub].
  - left. split; [destruct (Bool.eqb sx (negb sy)); exact I|]. destruct (Bool.eqb sx (negb sy)); reflexivity.
  - left. split; [exact I|]. cbn [sval]. destruct sy; cbn [negb]; ring.
  - left. split; [exact I|]. cbn [sval]. ring.
  - set (ez := Z.min ex ey). eapply crt_wd; [|apply normalize_crt].
    rewrite (sval_align sx mx ex ez), (sval_align sy my ey ez) by (unfold ez; lia). unfold Z.sub. rewrite inject_Z_plus, inject_Z_opp. ring.
Qed.
Lemma sgn_xor a b : (sgn (xorb a b) == sgn a * sgn b)%Q. Proof. destruct a, b; reflexivity. Qed.
Theorem mul_crt x y : valid x = true -> valid y = true -> fin x -> fin y -> crt (sval x * sval y) (SFmul prec emax x y).
Proof.
  destruct x as [sx|sx| |sx mx ex], y as [sy|sy| |sy my ey]; intros Hx Hy Fx Fy; try contradiction; cbn [SFmul].
  - left. split; [exact I|reflexivity].
  - left. split; [exact I|cbn [sval]; ring].
  - left. split; [exact I|cbn [sval]; ring].
  - right. exists (xorb sx sy), (inject_Z (Zpos (mx * my)) * p2 (ex + ey))%Q. split; [apply mpos_val|]. split.
    + rewrite sgn_xor, q2_add. change (Zpos (mx * my)) with (Zpos mx * Zpos my). rewrite inject_Z_mult. cbn [sval]. fold (sgn sx) (sgn sy). ring.
    + apply (aux_Q _ _ _ _ (Zpos (mx * my)) 1); [lia|apply rloc_exact; lia| |change (inject_Z 1) with 1%Q; ring].
      apply bounded_exp in Hx, Hy. pose proof (digits_bounds mx) as [Bx _]. pose proof (digits_bounds my) as [By _].
      set (dx := Zpos (digits2_pos mx)) in *. set (dy := Zpos (digits2_pos my)) in *. assert (1 <= dx /\ 1 <= dy) by (unfold dx, dy; lia).
      assert (D : dx + dy - 1 <= Zdigits2 (Zpos (mx * my))).
      { replace (dx + dy - 1) with (dx - 1 + (dy - 1) + 1) by lia. apply dig_lb; [lia|]. rewrite Z.pow_add_r by lia.
        replace (Zpos (mx * my)) with (Zpos mx * Zpos my) by lia. apply Z.mul_le_mono_nonneg; try lia; pose proof (p2_pos (dx - 1)); pose proof (p2_pos (dy - 1)); lia. }
      clearbody dx dy. unfold SpecFloat.fexp, SpecFloat.emin in *. lia.
Qed.
Theorem div_crt x y : fin x -> fin y -> ~ (sval y == 0)%Q -> crt (sval x / sval y) (SFdiv prec emax x y).
Proof.
  destruct x as [sx|sx| |sx mx ex], y as [sy|sy| |sy my ey]; intros Fx Fy Hn; try contradiction; cbn [SFdiv];
    try (exfalso; apply Hn; reflexivity).
  - left. split; [exact I|]. cbn [sval]. unfold Qdiv. ring.
  - right. exists (xorb sx sy), (inject_Z (Zpos mx) * p2 ex / (inject_Z (Zpos my) * p2 ey))%Q. split; [|split; [|apply div_rounds]].
    + apply Qlt_shift_div_l; [apply mpos_val|]. rewrite Qmult_0_l. apply mpos_val.
    + rewrite sgn_xor. cbn [sval]. pose proof (q2_pos ey). assert (~ inject_Z (Zpos my) == 0)%Q by (unfold Qeq; cbn; lia).
      destruct sx, sy; cbn [sgn]; field; split; auto; lra.
Qed.
(** Sums and differences have a small relative error always, products and quotients unless they are tiny. *)
Lemma sval_emin x : valid x = true -> fin x -> exists k, (sval x == inject_Z k * p2 emin)%Q.
Proof.
  destruct x as [s|s| |s m e]; intros Hx Fx; try contradiction; [exists 0; reflexivity|]. exists (cond_Zopp s (Zpos (fst (shl_align m e emin)))).
  apply sval_align. now apply bounded_emin in Hx.
Qed.
Theorem add_close x y : valid x = true -> valid y = true -> fin x -> fin y -> close (sval x + sval y) (SFadd prec emax x y).
Proof.
  intros Hx Hy Fx Fy. destruct (sval_emin x Hx Fx) as [k K]. destruct (sval_emin y Hy Fy) as [j J].
  apply (crt_close _ _ (k + j) emin); [rewrite K, J, inject_Z_plus; ring|lia|now apply add_crt].
Qed.
Theorem sub_close x y : valid x = true -> valid y = true -> fin x -> fin y -> close (sval x - sval y) (SFsub prec emax x y).
Proof.
  intros Hx Hy Fx Fy. destruct (sval_emin x Hx Fx) as [k K]. destruct (sval_emin y Hy Fy) as [j J].
  apply (crt_close _ _ (k - j) emin); [rewrite K, J; unfold Z.sub; rewrite inject_Z_plus, inject_Z_opp; ring|lia|now apply sub_crt].
Qed.
Theorem mul_close x y : valid x = true -> valid y = true -> fin x -> fin y -> close_u (sval x * sval y) (SFmul prec emax x y).
Proof. intros. now apply crt_close_u, mul_crt. Qed.
Theorem div_close x y : fin x -> fin y -> ~ (sval y == 0)%Q -> close_u (sval x / sval y) (SFdiv prec emax x y).
Proof. intros. now apply crt_close_u, div_crt. Qed.
(** The result is the nearest number of the format, and infinite exactly when the exact
    one is out of range. *)
Lemma rounds_nearest s v y z : (0 < v)%Q -> rounds s v y -> fin y -> valid z = true -> fin z ->
  (Qabs (sval y - sgn s * v) <= Qabs (sval z - sgn s * v))%Q.
Proof.
  intros Hv (R & e1 & -> & [R0 R1] & G & N & SZ & LT & TE) Fy Hz Fz. pose proof (q2_pos e1) as P1.
  destruct (pack_sval s R e1 R0) as [[_ V]|[V _]]; [|rewrite V in Fy; contradiction].
  assert (E1 : (Qabs (sval (pack s R e1) - sgn s * v) == Qabs (v - inject_Z R * p2 e1))%Q).
  { rewrite V. rewrite <- (sgn_abs s (v - _)), Qabs_Qminus. apply Qabs_wd. ring. }
  assert (E2 : (Qabs (sval z - sgn s * v) == Qabs (v - sgn s * sval z))%Q).
  { rewrite <- (sgn_abs s (v - _)), Qabs_Qminus. apply Qabs_wd. destruct s; cbn [sgn]; ring. }
  rewrite E1, E2. set (w := p2 e1) in *.
  assert (BEST : forall j, (Qabs (v - inject_Z R * w) <= Qabs (v - inject_Z j * w))%Q).
  { intros j. destruct (Z.eq_dec j R) as [->|NE]; [apply Qle_refl|].
    assert (J : (w <= Qabs (inject_Z (R - j) * w))%Q).
    { rewrite Qabs_Qmult, injZ_abs, (Qabs_pos w) by lra. setoid_replace w with (1 * w)%Q at 1 by ring. apply Qmult_le_compat_r; [|lra]. apply (injZ_le 1). lia. }
    assert (T : (Qabs (inject_Z (R - j) * w) <= Qabs (v - inject_Z j * w) + Qabs (v - inject_Z R * w))%Q).
    { rewrite (Qabs_Qminus v (inject_Z R * w)). eapply Qle_trans; [|apply Qabs_triangle]. apply Qle_lteq. right. apply Qabs_wd. unfold Z.sub. rewrite inject_Z_plus, inject_Z_opp. ring. }
    lra. }
  destruct z as [sz|sz| |sz mz ez]; try contradiction.
  - eapply Qle_trans; [apply (BEST 0)|]. apply Qle_lteq. right. apply Qabs_wd. cbn [sval]. change (inject_Z 0) with 0%Q. ring.
  - destruct (Z.le_gt_cases e1 ez) as [L|L].
    + eapply Qle_trans; [apply (BEST (cond_Zopp (xorb s sz) (Zpos (fst (shl_align mz ez e1)))))|]. apply Qle_lteq. right. apply Qabs_wd.
      assert (X : (sgn s * sval (S754_finite sz mz ez) == inject_Z (cond_Zopp (xorb s sz) (Zpos (fst (shl_align mz ez e1)))) * w)%Q).
      { rewrite (sval_align sz mz ez e1) by lia. fold w. destruct s, sz; cbn [sgn xorb cond_Zopp]; rewrite ?inject_Z_opp; ring. }
      rewrite X. reflexivity.
    + pose proof (bounded_emin _ _ Hz) as B1. destruct SZ as [SZ|SZ]; [lia|]. 
      assert (ZB : (sgn s * sval (S754_finite sz mz ez) <= p2 (e1 + prec - 1))%Q).
      { eapply Qle_trans; [apply Qle_Qabs|]. rewrite sgn_abs. cbn [sval]. fold (sgn sz). rewrite <- Qmult_assoc, sgn_abs, Qabs_pos by (pose proof (mpos_val mz ez); lra).
        pose proof (bounded_exp _ _ _ _ Hz) as BE || pose proof (bounded_exp _ _ Hz) as BE. pose proof (digits_bounds mz) as [_ M2]. set (d := Zpos (digits2_pos mz)) in *.
        assert (d <= prec) by (unfold SpecFloat.fexp in BE; lia). apply Qle_trans with (p2 d * p2 ez)%Q.
        - apply Qmult_le_compat_r; [|pose proof (q2_pos ez); lra]. rewrite q2_Z by (unfold d; lia). apply injZ_le. lia.
        - rewrite <- q2_add. apply q2_mono. lia. }
      eapply Qle_trans; [apply (BEST (2 ^ (prec - 1)))|]. rewrite <- q2_Z by lia. unfold w. rewrite <- q2_add. replace (prec - 1 + e1) with (e1 + prec - 1) by lia.
      rewrite (Qabs_pos (v - _)) by lra. pose proof (Qle_Qabs (v - sgn s * sval (S754_finite sz mz ez))). lra.
Qed.
Lemma crt_nearest w y z : crt w y -> fin y -> valid z = true -> fin z -> (Qabs (sval y - w) <= Qabs (sval z - w))%Q.
Proof.
  intros [[F E]|(s & v & Hv & E & H)] Fy Hz Fz.
  - assert (X : (sval y - w == 0)%Q) by (rewrite E; ring). rewrite X. apply Qabs_nonneg.
  - rewrite E. now apply rounds_nearest.
Qed.
Lemma valid_below x : prec < emax -> valid x = true -> fin x -> (Qabs (sval x) < huge)%Q.
Proof.
  intros He. destruct x as [s|s| |s m e]; intros Hx Fx; try contradiction.
  - change (Qabs (sval (S754_zero s))) with 0%Q. unfold huge. apply Qmult_lt_0_compat; [|apply q2_pos]. pose proof (q2_mono 0 prec ltac:(lia)) as Y. change (p2 0) with 1%Q in Y. lra.
  - cbn [sval]. fold (sgn s). rewrite <- Qmult_assoc, sgn_abs, Qabs_pos by (pose proof (mpos_val m e); lra).
    pose proof (bounded_exp _ _ _ _ Hx) as BE || pose proof (bounded_exp _ _ Hx) as BE. unfold valid_binary, bounded in Hx. apply andb_true_iff in Hx. destruct Hx as [_ Hx]. apply Z.leb_le in Hx.
    pose proof (digits_bounds m) as [_ M2]. set (d := Zpos (digits2_pos m)) in *. assert (d <= prec) by (unfold SpecFloat.fexp in BE; lia).
    assert (2 ^ d <= 2 ^ prec) by (apply Z.pow_le_mono_r; lia).
    apply Qle_lt_trans with ((p2 prec - 1) * p2 (emax - prec))%Q.
    + apply Qle_trans with ((p2 prec - 1) * p2 e)%Q.
      * apply Qmult_le_compat_r; [|pose proof (q2_pos e); lra]. rewrite q2_Z by lia. apply Qle_trans with (inject_Z (2 ^ prec - 1)); [apply injZ_le; lia|].
        unfold Z.sub. rewrite inject_Z_plus, inject_Z_opp. apply Qle_refl.
      * rewrite !(Qmult_comm (p2 prec - 1)). apply Qmult_le_compat_r; [now apply q2_mono|]. pose proof (q2_mono 0 prec ltac:(lia)) as Y. change (p2 0) with 1%Q in Y. lra.
    + unfold huge. pose proof (q2_pos (emax - prec)). assert (X : ((p2 prec - (1 # 2)) * p2 (emax - prec) == (p2 prec - 1) * p2 (emax - prec) + (1 # 2) * p2 (emax - prec))%Q) by ring. rewrite X. lra.
Qed.
Lemma crt_range w y : 1 < prec -> prec < emax -> valid y = true -> crt w y ->
  (fin y /\ (Qabs w < huge)%Q) \/ (y = S754_infinity false /\ (huge <= w)%Q) \/ (y = S754_infinity true /\ (w <= - huge)%Q).
Proof.
  intros Hp He Hy [[F E]|(s & v & Hv & E & H)].
  - left. split; [exact F|]. rewrite <- E. now apply valid_below.
  - assert (A : (Qabs w == v)%Q) by (rewrite E; now apply sgn_val). destruct (Qlt_le_dec v huge) as [L|L].
    + left. rewrite A. split; [|exact L]. destruct (rounds_err s v y Hv H) as [[F _]|[_ B]]; [exact F|lra].
    + right. rewrite (rounds_huge s v y Hp He L H). destruct s; cbn [sgn] in E; [right|left]; split; auto; lra.
Qed.
(** Infinities and NaN never disappear again in sums and products. *)
Lemma add_fin x y : fin (SFadd prec emax x y) -> fin x /\ fin y.
Proof. destruct x as [sx|sx| |sx mx ex], y as [sy|sy| |sy my ey]; cbn [SFadd fin]; auto; destruct (Bool.eqb sx sy); cbn [fin]; auto. Qed.
Lemma sub_fin x y : fin (SFsub prec emax x y) -> fin x /\ fin y.
Proof. destruct x as [sx|sx| |sx mx ex], y as [sy|sy| |sy my ey]; cbn [SFsub fin]; auto; destruct (Bool.eqb sx (negb sy)); cbn [fin]; auto. Qed.
Lemma mul_fin x y : fin (SFmul prec emax x y) -> fin x /\ fin y.
Proof. destruct x as [sx|sx| |sx mx ex], y as [sy|sy| |sy my ey]; cbn [SFmul fin]; auto. Qed.
(** A quotient is finite only if the dividend is. *)
Lemma div_fin x y : fin (SFdiv prec emax x y) -> fin x /\ y <> S754_nan /\ forall s, y <> S754_zero s.
Proof. destruct x as [sx|sx| |sx mx ex], y as [sy|sy| |sy my ey]; cbn [SFdiv fin]; try tauto; intros _; repeat split; discriminate. Qed.
End Arith.
