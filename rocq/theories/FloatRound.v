(** FloatRound.v: SpecFloat's rounding of a positive rational a/b is correct: the result is
    the nearest number of the format, ties to the even mantissa.  Any precision and
    exponent range. *)
From Coq Require Import ZArith Bool Lia SpecFloat.
From Verif Require Import FloatFacts FloatValid.
Local Open Scope Z_scope.

(** The state of a shift: A = m * B + remainder, and the two bits locate the remainder. *)
Definition rloc (A B : Z) (x : shr_record) : Prop :=
  let rem := A - shr_m x * B in
  0 <= shr_m x /\ 0 <= rem < B /\
  match shr_r x, shr_s x with
  | false, false => rem = 0 | false, true => 0 < rem /\ 2 * rem < B
  | true, false => 2 * rem = B | true, true => B < 2 * rem
  end.
Lemma rloc_1 A B x : rloc A B x -> rloc A (2 * B) (shr_1 x).
Proof.
  destruct x as [m r s]. unfold rloc. cbn [shr_m shr_r shr_s]. intros (Hm & Hr & Hb). unfold shr_1.
  destruct m as [|[q|q|]|q]; cbn [shr_m shr_r shr_s]; [| | | |lia].
  - split; [lia|]. destruct r, s; cbn [orb]; lia.
  - replace (Zpos q~1) with (2 * Zpos q + 1) in * by lia. split; [lia|]. destruct r, s; cbn [orb]; lia.
  - replace (Zpos q~0) with (2 * Zpos q) in * by lia. split; [lia|]. destruct r, s; cbn [orb]; lia.
  - split; [lia|]. destruct r, s; cbn [orb]; lia.
Qed.
Lemma rloc_iter p : forall A B x, rloc A B x -> rloc A (B * 2 ^ Zpos p) (SpecFloat.iter_pos shr_1 p x).
Proof.
  induction p as [p IH|p IH|]; intros A B x H; cbn [SpecFloat.iter_pos].
  - replace (B * 2 ^ Zpos p~1) with (2 * B * 2 ^ Zpos p * 2 ^ Zpos p).
    + apply IH, IH, rloc_1, H.
    + replace (Zpos p~1) with (1 + Zpos p + Zpos p) by lia. rewrite !Z.pow_add_r by lia. ring.
  - replace (B * 2 ^ Zpos p~0) with (B * 2 ^ Zpos p * 2 ^ Zpos p).
    + apply IH, IH, H.
    + replace (Zpos p~0) with (Zpos p + Zpos p) by lia. rewrite !Z.pow_add_r by lia. ring.
  - replace (B * 2 ^ 1) with (2 * B) by lia. apply rloc_1, H.
Qed.
Lemma rloc_shr A B x e n : rloc A B x -> 0 <= n -> exists y, shr x e n = (y, e + n) /\ rloc A (B * 2 ^ n) y.
Proof.
  intros H Hn. destruct n as [|p|p]; [| |lia]; cbn [shr]; eexists; (split; [f_equal; lia|]).
  - now rewrite Z.mul_1_r.
  - now apply rloc_iter.
Qed.
(** R is the integer nearest to A/B, ties to even. *)
Definition nearest (A B R : Z) : Prop := 0 <= R /\ 2 * Z.abs (A - R * B) <= B /\ (2 * Z.abs (A - R * B) = B -> Z.even R = true).
Lemma rloc_nearest A B x : 0 < B -> rloc A B x -> nearest A B (round_nearest_even (shr_m x) (loc_of_shr_record x)).
Proof.
  destruct x as [m r s]. unfold rloc, nearest. cbn [shr_m shr_r shr_s]. intros HB (Hm & Hr & Hb).
  destruct r, s; cbn [loc_of_shr_record round_nearest_even]; try (split; [lia|]; split; lia).
  destruct (Z.even m) eqn:E.
  - split; [lia|]. split; [lia|auto].
  - split; [lia|]. split; [lia|]. intros _. rewrite Z.even_add, E. reflexivity.
Qed.
Lemma nearest_unique A B R R' : 0 < B -> nearest A B R -> 2 * Z.abs (A - R' * B) < B -> R = R'.
Proof. unfold nearest. intros HB (H1 & H2 & _) H3. nia. Qed.
Lemma nearest_fun A B R R' : 0 < B -> nearest A B R -> nearest A B R' -> R = R'.
Proof.
  intros HB (H1 & H2 & H3) (H1' & H2' & H3'). destruct (Z.eq_dec R R') as [|N]; [auto|exfalso].
  assert (Z.abs (R - R') * B <= B) by nia. assert (D : Z.abs (R - R') = 1) by nia.
  assert (T1 : 2 * Z.abs (A - R * B) = B) by nia. assert (T2 : 2 * Z.abs (A - R' * B) = B) by nia.
  specialize (H3 T1). specialize (H3' T2). rewrite Z.even_spec in H3, H3'. destruct H3 as [u ->], H3' as [v ->]. lia.
Qed.
Lemma nearest_mono A A' B R R' : 0 < B -> A <= A' -> nearest A B R -> nearest A' B R' -> R <= R'.
Proof.
  intros HB HA HR HR'. destruct (Z.le_gt_cases R R') as [|G]; [auto|exfalso].
  destruct HR as (H1 & H2 & H3), HR' as (H1' & H2' & H3').
  assert (A = A') by nia. subst A'. apply (Z.lt_irrefl R'). rewrite (nearest_fun A B R' R) at 2; auto; repeat split; auto.
Qed.

Section Rat.
Variables (prec emax : Z).
Hypothesis Hprec : 0 < prec.
Hypothesis Hemax : 3 - emax - prec <= 0.
Notation fexp := (fexp prec emax).
Notation emin := (emin prec emax).

(** The number with mantissa R and exponent e, after rounding. *)
Definition pack (s : bool) (R e : Z) : spec_float :=
  let '(m, e) := if R =? 2 ^ prec then (2 ^ (prec - 1), e + 1) else (R, e) in
  match m with
  | Zpos m => if e <=? emax - prec then S754_finite s m e else S754_infinity s
  | _ => S754_zero s
  end.
Lemma fexp_ge n : emin <= fexp n. Proof. unfold SpecFloat.fexp. lia. Qed.
Lemma fexp_prec n : n - prec <= fexp n. Proof. unfold SpecFloat.fexp. lia. Qed.

(** [A] stands for a * 2^-emin. *)
Lemma aux_rat s M E l A b : 0 < b -> emin <= E -> rloc A (b * 2 ^ (E - emin)) (shr_record_of_loc M l) ->
  E <= fexp (Zdigits2 M + E) ->
  let e1 := fexp (Zdigits2 M + E) in
  exists R, R <= 2 ^ prec /\ nearest A (b * 2 ^ (e1 - emin)) R /\ binary_round_aux prec emax s M E l = pack s R e1.
Proof.
  intros Hb HE HL HF. cbv zeta. assert (HM : 0 <= M) by (destruct HL as (H & _); rewrite shr_of_loc in H; auto).
  unfold binary_round_aux, shr_fexp. set (e1 := fexp (Zdigits2 M + E)) in *.
  destruct (rloc_shr _ _ _ E (e1 - E) HL) as (y & -> & Hy); [lia|].
  replace (E + (e1 - E)) with e1 by lia.
  replace (b * 2 ^ (E - emin) * 2 ^ (e1 - E)) with (b * 2 ^ (e1 - emin)) in Hy by (rewrite <- Z.mul_assoc, <- Z.pow_add_r by lia; f_equal; f_equal; lia).
  assert (HB : 0 < b * 2 ^ (e1 - emin)) by (pose proof (p2_pos (e1 - emin)); lia).
  pose proof (rloc_nearest _ _ _ HB Hy) as HN. set (R := round_nearest_even _ _) in *. exists R.
  assert (R0 : 0 <= R) by apply HN.
  assert (RB : R <= 2 ^ prec).
  { (* A < (M+1) * b * 2^(E-emin) <= 2^(digits + E) .. *)
    pose proof (dig_nonneg M) as D0. set (d := Zdigits2 M) in *.
    assert (B2 : M + 1 <= 2 ^ d).
    { destruct (Z.eq_dec M 0) as [E0|N0]; [subst M; cbn in d; subst d; cbn; lia|]. destruct (dig_bounds M) as (_ & _ & B); [lia|]. fold d in B. lia. }
    assert (A2 : A < 2 ^ d * (b * 2 ^ (E - emin))).
    { destruct HL as (_ & HL & _). rewrite shr_of_loc in HL. pose proof (p2_pos (E - emin)). nia. }
    assert (E2 : 2 ^ d * (b * 2 ^ (E - emin)) <= 2 ^ prec * (b * 2 ^ (e1 - emin))).
    { replace (2 ^ d * (b * 2 ^ (E - emin))) with (b * 2 ^ (d + E - emin)).
      - replace (2 ^ prec * (b * 2 ^ (e1 - emin))) with (b * 2 ^ (prec + e1 - emin)).
        + apply Z.mul_le_mono_nonneg_l; [lia|]. apply Z.pow_le_mono_r; [lia|]. pose proof (fexp_prec (d + E)). fold e1 in H. lia.
        + replace (prec + e1 - emin) with (prec + (e1 - emin)) by lia. rewrite Z.pow_add_r by lia. ring.
      - replace (d + E - emin) with (d + (E - emin)) by lia. rewrite Z.pow_add_r by lia. ring. }
    destruct HN as (_ & HN & _). nia. }
  split; [exact RB|]. split; [exact HN|]. unfold pack.
  destruct (Z.eqb_spec R (2 ^ prec)) as [ER|NR].
  - (* the carry *)
    assert (DR : Zdigits2 R = prec + 1).
    { apply Z.le_antisymm; [apply digits_le; [lia|lia|]|apply dig_lb; lia]. rewrite ER, p2_S by lia. pose proof (p2_pos prec). lia. }
    rewrite DR. assert (EF : fexp (prec + 1 + e1) - e1 = 1).
    { assert (emin <= e1) by apply fexp_ge. unfold SpecFloat.fexp. lia. }
    rewrite EF. destruct (shr_div R loc_Exact e1 1) as (z & -> & Hz); [lia|lia|]. rewrite Hz, ER.
    replace (2 ^ prec / 2 ^ 1) with (2 ^ (prec - 1)); [pose proof (p2_pos (prec - 1)); destruct (2 ^ (prec - 1)); [reflexivity|reflexivity|lia]|].
    replace prec with (prec - 1 + 1) at 2 by lia. rewrite p2_S by lia. rewrite Z.mul_comm, Z.div_mul by lia. reflexivity.
  - assert (DR : Zdigits2 R <= prec) by (apply digits_le; lia).
    assert (EF : fexp (Zdigits2 R + e1) - e1 <= 0).
    { assert (emin <= e1) by apply fexp_ge. unfold SpecFloat.fexp. lia. }
    assert (ES : shr (shr_record_of_loc R loc_Exact) e1 (fexp (Zdigits2 R + e1) - e1) = (shr_record_of_loc R loc_Exact, e1)).
    { unfold shr. destruct (fexp (Zdigits2 R + e1) - e1); [reflexivity|lia|reflexivity]. }
    rewrite ES. cbn [shr_record_of_loc shr_m]. destruct R; [reflexivity|reflexivity|lia].
Qed.

(** The number of the format nearest to a/b > 0 (ties to even), with the sign [s]. *)
Definition round_rat (s : bool) (a b : Z) : spec_float :=
  let '(m, e, l) := SFdiv_core_binary prec emax a 0 b 0 in binary_round_aux prec emax s m e l.

(** [round_rat]: a mantissa R at an exponent that fits the size of a/b. *)
Lemma round_rat_full s a b : 0 < a -> 0 < b ->
  valid_binary prec emax (round_rat s a b) = true /\
  exists D R, let e1 := fexp D in let A := a * 2 ^ (- emin) in
  R <= 2 ^ prec /\ nearest A (b * 2 ^ (e1 - emin)) R /\ round_rat s a b = pack s R e1 /\
  A < b * 2 ^ (Z.max D emin - emin) /\ (emin < D -> b * 2 ^ (D - 1 - emin) <= A).
Proof.
  intros Ha Hb. unfold round_rat, SFdiv_core_binary. cbv zeta.
  rewrite !Z.add_0_r. change (0 - 0) with 0. set (e' := Z.min (fexp (Zdigits2 a - Zdigits2 b)) 0).
  assert (H1 : emin <= e') by (pose proof (fexp_ge (Zdigits2 a - Zdigits2 b)); unfold e', SpecFloat.emin in *; lia).
  assert (H0 : e' <= 0) by (unfold e'; lia).
  assert (EM : match 0 - e' with Zpos _ => Z.shiftl a (0 - e') | 0 => a | Zneg _ => 0 end = a * 2 ^ (- e')).
  { destruct (0 - e') as [|q|q] eqn:Q.
    - replace (- e') with 0 by lia. cbn. lia.
    - rewrite Z.shiftl_mul_pow2 by lia. f_equal. f_equal. lia.
    - lia. }
  rewrite EM. destruct (Z.div_eucl (a * 2 ^ (- e')) b) as [q r] eqn:EQ.
  pose proof (Z_div_mod (a * 2 ^ (- e')) b) as HD. rewrite EQ in HD. destruct HD as [HQ HR]; [lia|].
  pose proof (p2_pos (- e')) as P1. pose proof (p2_pos (e' - emin)) as P2.
  assert (Q0 : 0 <= q) by nia.
  set (A := a * 2 ^ (- emin)).
  assert (EA : A = (b * q + r) * 2 ^ (e' - emin)).
  { rewrite <- HQ. unfold A. rewrite <- Z.mul_assoc, <- Z.pow_add_r by lia. f_equal. f_equal. lia. }
  set (l := new_location b r).
  assert (HL : rloc A (b * 2 ^ (e' - emin)) (shr_record_of_loc q l)).
  { unfold rloc. rewrite shr_of_loc. set (W := 2 ^ (e' - emin)) in *.
    replace (A - q * (b * W)) with (r * W) by (rewrite EA; ring). split; [lia|]. split; [nia|].
    unfold l, new_location, new_location_even, new_location_odd.
    destruct (Z.even b) eqn:EB.
    - destruct (Zeq_bool r 0) eqn:EZ; [apply Zeq_bool_eq in EZ; cbn [shr_record_of_loc shr_r shr_s]; nia|].
      apply Zeq_bool_neq in EZ. destruct (Z.compare_spec (2 * r) b) as [E|L|L]; cbn [shr_record_of_loc shr_r shr_s]; nia.
    - destruct (Zeq_bool r 0) eqn:EZ; [apply Zeq_bool_eq in EZ; cbn [shr_record_of_loc shr_r shr_s]; nia|].
      apply Zeq_bool_neq in EZ. assert (OB : Z.Odd b) by (apply Z.odd_spec; rewrite <- Z.negb_even, EB; reflexivity).
      destruct OB as [h OB]. destruct (Z.compare_spec (2 * r + 1) b) as [E|L|L]; cbn [shr_record_of_loc shr_r shr_s]; nia. }
  assert (HF : e' <= fexp (Zdigits2 q + e')).
  { destruct (Z.le_gt_cases (Zdigits2 a - Zdigits2 b) (Zdigits2 q + e')) as [L|L].
    - etransitivity; [|apply fexp_mono; exact L]. unfold e'. lia.
    - (* the quotient has at least digits a - digits b + (-e') digits *)
      exfalso. destruct (dig_bounds a Ha) as (Da & Ba & _). destruct (dig_bounds b Hb) as (Db & _ & Bb).
      set (da := Zdigits2 a) in *. set (db := Zdigits2 b) in *. set (dq := Zdigits2 q) in *. pose proof (dig_nonneg q) as D0. fold dq in D0.
      assert (QB : q + 1 <= 2 ^ dq).
      { destruct (Z.eq_dec q 0) as [E0|N0]; [subst q; cbn in dq; subst dq; cbn; lia|]. destruct (dig_bounds q) as (_ & _ & B); [lia|]. fold dq in B. lia. }
      assert (a * 2 ^ (- e') < 2 ^ db * 2 ^ dq) by nia.
      rewrite <- Z.pow_add_r in H by lia.
      assert (2 ^ (db + dq) <= 2 ^ (da - 1 + - e')) by (apply Z.pow_le_mono_r; lia). rewrite (Z.pow_add_r 2 (da - 1)) in H2 by lia. nia. }
  split; [apply (aux_valid prec emax Hprec); auto|].
  destruct (aux_rat s q e' l A b Hb H1 HL HF) as (R & HR2 & HN & EQ2).
  exists (Zdigits2 q + e'), R. split; [exact HR2|]. split; [exact HN|]. split; [exact EQ2|].
  pose proof (dig_nonneg q) as D0. set (dq := Zdigits2 q) in *.
  assert (QB : q + 1 <= 2 ^ dq).
  { destruct (Z.eq_dec q 0) as [E0|N0]; [subst q; cbn in dq; subst dq; cbn; lia|]. destruct (dig_bounds q) as (_ & _ & B); [lia|]. fold dq in B. lia. }
  split.
  - rewrite Z.max_l by lia. replace (dq + e' - emin) with (dq + (e' - emin)) by lia. rewrite Z.pow_add_r by lia. rewrite EA.
    rewrite Z.mul_assoc. apply Z.mul_lt_mono_pos_r; [lia|]. nia.
  - intros HD. destruct (Z.eq_dec q 0) as [E0|N0].
    + (* q = 0: then dq = 0 and e' = fexp .. <= .. *)
      exfalso. subst q. cbn in dq. subst dq. cbn [Z.add] in *. unfold SpecFloat.fexp in HF. lia.
    + destruct (dig_bounds q) as (D1 & B1 & _); [lia|]. fold dq in B1, D1.
      replace (dq + e' - 1 - emin) with (dq - 1 + (e' - emin)) by lia. rewrite Z.pow_add_r by lia. rewrite EA.
      rewrite Z.mul_assoc. apply Z.mul_le_mono_nonneg_r; [lia|]. nia.
Qed.

Lemma round_rat_spec s a b : 0 < a -> 0 < b ->
  exists D R, let e1 := fexp D in let A := a * 2 ^ (- emin) in
  R <= 2 ^ prec /\ nearest A (b * 2 ^ (e1 - emin)) R /\ round_rat s a b = pack s R e1 /\
  A < b * 2 ^ (Z.max D emin - emin) /\ (emin < D -> b * 2 ^ (D - 1 - emin) <= A).
Proof. intros Ha Hb. apply (round_rat_full s a b Ha Hb). Qed.
Lemma round_rat_valid s a b : 0 < a -> 0 < b -> valid_binary prec emax (round_rat s a b) = true.
Proof. intros Ha Hb. apply (round_rat_full s a b Ha Hb). Qed.
Lemma pack_cases s R e : pack s R e = S754_zero s \/ pack s R e = S754_infinity s \/ exists m e', pack s R e = S754_finite s m e'.
Proof. unfold pack. destruct (R =? 2 ^ prec); [destruct (2 ^ (prec - 1))|destruct R]; auto; destruct (_ <=? _); eauto. Qed.
Lemma round_rat_cases s a b : 0 < a -> 0 < b ->
  round_rat s a b = S754_zero s \/ round_rat s a b = S754_infinity s \/ exists m e, round_rat s a b = S754_finite s m e.
Proof. intros Ha Hb. destruct (round_rat_spec s a b Ha Hb) as (D & R & _ & _ & -> & _). apply pack_cases. Qed.
Lemma pack_finite s m e : Zpos m <> 2 ^ prec -> e <= emax - prec -> pack s (Zpos m) e = S754_finite s m e.
Proof. intros H1 H2. unfold pack. destruct (Z.eqb_spec (Zpos m) (2 ^ prec)); [contradiction|]. destruct (Z.leb_spec e (emax - prec)); [reflexivity|lia]. Qed.
Lemma pack_carry s m e : Zpos m = 2 ^ (prec - 1) -> e + 1 <= emax - prec -> pack s (2 ^ prec) e = S754_finite s m (e + 1).
Proof. intros H1 H2. unfold pack. rewrite Z.eqb_refl, <- H1. destruct (Z.leb_spec (e + 1) (emax - prec)); [reflexivity|lia]. Qed.

(** A rational close enough to a number of the format is rounded to it. *)
Lemma round_rat_near s a b mx ex : 0 < a -> 0 < b -> bounded prec emax mx ex = true ->
  let A := a * 2 ^ (- emin) in let B := b * 2 ^ (ex - emin) in
  2 * Z.abs (A - Zpos mx * B) < B -> (Zpos mx = 2 ^ (prec - 1) -> 4 * (Zpos mx * B - A) < B) ->
  round_rat s a b = S754_finite s mx ex.
Proof.
  intros Ha Hb Hx A B Hn Hp. unfold bounded, canonical_mantissa in Hx. apply andb_true_iff in Hx. destruct Hx as [Hc He].
  apply Zeq_bool_eq in Hc. apply Z.leb_le in He. pose proof (digits_bounds mx) as [M1 M2]. set (dx := Zpos (digits2_pos mx)) in *.
  assert (D1 : 1 <= dx) by (unfold dx; lia). clearbody dx. assert (Hn1 : 2 * (A - Zpos mx * B) < B /\ 2 * (Zpos mx * B - A) < B) by lia. clear Hn. assert (X0 : emin <= ex) by (rewrite <- Hc; apply fexp_ge).
  assert (DP : dx <= prec) by (clear - Hc D1 X0; unfold SpecFloat.fexp in Hc; lia).
  assert (M3 : Zpos mx < 2 ^ prec) by (assert (2 ^ dx <= 2 ^ prec) by (apply Z.pow_le_mono_r; lia); lia).
  pose proof (p2_pos (ex - emin)) as PB. assert (B0 : 0 < B) by (unfold B; apply Z.mul_pos_pos; lia).
  assert (SC : forall k, 0 <= k -> b * 2 ^ (k + ex - emin) = 2 ^ k * B).
  { intros k Hk. unfold B. replace (k + ex - emin) with (k + (ex - emin)) by lia. rewrite Z.pow_add_r by lia. ring. }
  destruct (round_rat_spec s a b Ha Hb) as (D & R & _ & HN & -> & U & L). cbv zeta in *. fold A in HN, U, L.
  assert (MN : forall k, D <= k -> emin <= k -> A < b * 2 ^ (k - emin)).
  { intros k H1 H2. eapply Z.lt_le_trans; [exact U|]. apply Z.mul_le_mono_nonneg_l; [lia|]. apply Z.pow_le_mono_r; lia. }
  (* where A lies *)
  assert (HU : A < 2 ^ dx * B).
  { apply Z.lt_le_trans with ((Zpos mx + 1) * B); [clear - Hn1; lia|]. apply Z.mul_le_mono_nonneg_r; clear - B0 M2; lia. }
  assert (DU : D <= dx + ex).
  { destruct (Z.le_gt_cases D (dx + ex)) as [|G]; [auto|exfalso]. specialize (L ltac:(clear - G D1 X0; lia)).
    assert (b * 2 ^ (dx + ex - emin) <= b * 2 ^ (D - 1 - emin)) by (apply Z.mul_le_mono_nonneg_l; [lia|]; apply Z.pow_le_mono_r; lia).
    rewrite SC in H by (clear - D1; lia). clear - H L HU. lia. }
  destruct (Z.eq_dec (fexp D) ex) as [EF|NF].
  - (* same exponent *)
    rewrite EF in *. assert (R = Zpos mx) as -> by (apply (nearest_unique A B); auto; clear - Hn1; lia). apply pack_finite; lia.
  - (* one binade below *)
    assert (FL : fexp D < ex) by (pose proof (fexp_mono prec emax _ _ DU) as FM; clear - FM NF Hc; lia).
    assert (EX : emin < ex) by (pose proof (fexp_ge D) as FM; clear - FM FL; lia).
    assert (DE : dx = prec) by (clear - Hc EX; unfold SpecFloat.fexp in Hc; lia).
    assert (DL : D < prec + ex) by (clear - FL EX; unfold SpecFloat.fexp in FL; lia).
    assert (AL : A < 2 ^ (prec - 1) * B).
    { rewrite <- SC by (clear - Hprec; lia). apply MN; clear - DL EX Hprec; lia. }
    assert (PM : Zpos mx = 2 ^ (prec - 1)).
    { destruct (Z.eq_dec (Zpos mx) (2 ^ (dx - 1))) as [E|NE]; [rewrite E, DE; reflexivity|exfalso]. rewrite DE in *.
      assert ((2 ^ (prec - 1) + 1) * B <= Zpos mx * B) by (apply Z.mul_le_mono_nonneg_r; lia). lia. }
    specialize (Hp PM).
    assert (B2 : B = 2 * (b * 2 ^ (ex - 1 - emin))).
    { unfold B. replace (ex - emin) with (ex - 1 - emin + 1) by lia. rewrite p2_S by lia. ring. }
    pose proof (p2_pos (ex - 1 - emin)) as PB1. set (B1 := b * 2 ^ (ex - 1 - emin)) in *. assert (B10 : 0 < B1) by (clear - B2 B0; lia).
    assert (PP : 2 ^ prec = 2 * 2 ^ (prec - 1)) by (replace prec with (prec - 1 + 1) at 1 by lia; apply p2_S; lia).
    assert (T1 : 1 <= 2 ^ (prec - 1)) by (pose proof (p2_pos (prec - 1)); lia).
    assert (QB : 4 * (2 ^ (prec - 1) * B) - B < 4 * A) by (rewrite <- PM; clear - Hp; lia).
    assert (QL : 1 * B <= 2 ^ (prec - 1) * B) by (apply Z.mul_le_mono_nonneg_r; lia).
    assert (DD : prec - 1 + ex <= D).
    { destruct (Z.le_gt_cases (prec - 1 + ex) D) as [|G]; [auto|exfalso].
      destruct (Z.le_gt_cases 2 prec) as [P4|P4].
      - assert (HA : A < b * 2 ^ (prec - 2 + ex - emin)) by (apply MN; clear - G EX P4; lia). rewrite SC in HA by lia.
        assert (E2 : 2 ^ (prec - 1) = 2 * 2 ^ (prec - 2)) by (replace (prec - 1) with (prec - 2 + 1) by lia; apply p2_S; lia).
        rewrite E2 in QB, QL. replace (2 * 2 ^ (prec - 2) * B) with (2 * (2 ^ (prec - 2) * B)) in * by ring. lia.
      - assert (EP : prec = 1) by lia. assert (HA : A < b * 2 ^ (ex - 1 - emin)) by (apply MN; clear - G EX P4; lia). fold B1 in HA.
        rewrite EP in QB. change (2 ^ (1 - 1)) with 1 in QB. lia. }
    assert (EF : fexp D = ex - 1) by (clear - DD DL EX; unfold SpecFloat.fexp; lia).
    rewrite EF in *. assert (R = 2 ^ prec) as ->.
    { apply (nearest_unique A B1); auto. rewrite PP, <- PM. replace (2 * Zpos mx * B1) with (Zpos mx * B) by (rewrite B2; ring). rewrite <- PM in AL. clear - AL Hp B2. lia. }
    rewrite (pack_carry s mx (ex - 1)) by (auto; lia). f_equal. lia.
Qed.

(** Only the ratio matters. *)
Lemma nearest_scale A B R c : 0 < c -> nearest A B R -> nearest (A * c) (B * c) R.
Proof.
  intros Hc (H1 & H2 & H3). assert (E : Z.abs (A * c - R * (B * c)) = Z.abs (A - R * B) * c).
  { replace (A * c - R * (B * c)) with ((A - R * B) * c) by ring. rewrite Z.abs_mul, (Z.abs_eq c) by lia. reflexivity. }
  unfold nearest. rewrite E. split; [auto|]. split; [nia|]. intros H. apply H3. nia.
Qed.
Lemma round_rat_scale s a b c : 0 < a -> 0 < b -> 0 < c -> round_rat s (a * c) (b * c) = round_rat s a b.
Proof.
  intros Ha Hb Hc. destruct (round_rat_spec s a b Ha Hb) as (D & R & R1 & HN & -> & U & L).
  destruct (round_rat_spec s (a * c) (b * c)) as (D' & R' & R1' & HN' & -> & U' & L'); [nia|nia|]. cbv zeta in *.
  set (A := a * 2 ^ (- emin)) in *. replace (a * c * 2 ^ (- emin)) with (A * c) in * by (unfold A; ring).
  assert (EF : fexp D' = fexp D).
  { clear HN HN' R1 R1'. assert (K : forall k, b * c * 2 ^ k = b * 2 ^ k * c) by (intros; ring). rewrite !K in *.
    assert (U2 : A < b * 2 ^ (Z.max D' emin - emin)) by (apply (Z.mul_lt_mono_pos_r c); auto).
    assert (L2 : emin < D' -> b * 2 ^ (D' - 1 - emin) <= A) by (intros H; apply (Z.mul_le_mono_pos_r _ _ c); auto).
    assert (MON : forall x y, b * 2 ^ (x - emin) < b * 2 ^ (y - emin) -> emin <= y -> x < y).
    { intros x y H Hy. destruct (Z.lt_ge_cases x y) as [|G]; [auto|exfalso].
      assert (b * 2 ^ (y - emin) <= b * 2 ^ (x - emin)) by (apply Z.mul_le_mono_nonneg_l; [lia|apply Z.pow_le_mono_r; lia]). lia. }
    destruct (Z.le_gt_cases D emin) as [G1|G1], (Z.le_gt_cases D' emin) as [G2|G2].
    - clear - G1 G2 Hprec. unfold SpecFloat.fexp. lia.
    - specialize (L2 G2). assert (H : D' - 1 < Z.max D emin) by (apply MON; [clear - L2 U|clear]; lia). clear - H G1 G2. lia.
    - specialize (L G1). assert (H : D - 1 < Z.max D' emin) by (apply MON; [clear - L U2|clear]; lia). clear - H G1 G2. lia.
    - specialize (L G1). specialize (L2 G2). assert (H1 : D - 1 < Z.max D' emin) by (apply MON; [clear - L U2|clear]; lia).
      assert (H2 : D' - 1 < Z.max D emin) by (apply MON; [clear - L2 U|clear]; lia). f_equal. clear - H1 H2 G1 G2. lia. }
  rewrite EF in *. f_equal. pose proof (fexp_ge D) as FG. pose proof (p2_pos (fexp D - emin) ltac:(lia)) as P2.
  apply (nearest_fun (A * c) (b * 2 ^ (fexp D - emin) * c)).
  - apply Z.mul_pos_pos; [apply Z.mul_pos_pos|]; lia.
  - replace (b * 2 ^ (fexp D - emin) * c) with (b * c * 2 ^ (fexp D - emin)) by ring. exact HN'.
  - now apply nearest_scale.
Qed.

(** The result is nearest to a/b among all numbers of the format.  [V]: value of a
    number of the format, scaled by 2^-emin. *)
Definition fval (m : positive) (e : Z) : Z := Zpos m * 2 ^ (e - emin).
Definition result_val (y : spec_float) : Z := match y with S754_finite _ m e => fval m e | _ => 0 end.
Lemma round_rat_best s a b mz ez : 0 < a -> 0 < b -> bounded prec emax mz ez = true -> 
  let A := a * 2 ^ (- emin) in
  (forall t, round_rat s a b <> S754_infinity t) ->
  Z.abs (A - result_val (round_rat s a b) * b) <= Z.abs (A - fval mz ez * b) /\ Z.abs (A - result_val (round_rat s a b) * b) <= A.
Proof.
  intros Ha Hb Hz A HI. destruct (round_rat_spec s a b Ha Hb) as (D & R & R1 & HN & E & U & L). rewrite E in *. cbv zeta in *. fold A in HN, U, L.
  set (e1 := fexp D) in *. pose proof (fexp_ge D) as FG. fold e1 in FG. pose proof (p2_pos (e1 - emin) ltac:(lia)) as P2.
  set (W := 2 ^ (e1 - emin)) in *. destruct HN as (R0 & N2 & _). assert (A0 : 0 <= A) by (unfold A; pose proof (p2_pos (- emin)); unfold SpecFloat.emin in *; apply Z.mul_nonneg_nonneg; lia).
  assert (EV : result_val (pack s R e1) * b = R * (b * W)).
  { unfold pack in *. destruct (Z.eqb_spec R (2 ^ prec)) as [ER|NR].
    - pose proof (p2_pos (prec - 1) ltac:(lia)) as PP. destruct (2 ^ (prec - 1)) as [|q|q] eqn:EQ; [lia| |lia].
      destruct (e1 + 1 <=? emax - prec); [|exfalso; apply (HI s); reflexivity]. cbn [result_val]. unfold fval. rewrite <- EQ.
      replace (e1 + 1 - emin) with (e1 - emin + 1) by lia. rewrite p2_S by lia. fold W. rewrite ER. replace prec with (prec - 1 + 1) at 2 by lia. rewrite p2_S by lia. ring.
    - destruct R as [|q|q]; [cbn; lia| |lia]. destruct (e1 <=? emax - prec); [|exfalso; apply (HI s); reflexivity]. cbn [result_val]. unfold fval. fold W. ring. }
  rewrite EV. clear EV HI.
  assert (BEST : forall k, Z.abs (A - R * (b * W)) <= Z.abs (A - k * (b * W))).
  { intros k. assert (BW : 0 < b * W) by (apply Z.mul_pos_pos; lia). destruct (Z.lt_trichotomy k R) as [G|[->|G]]; [|lia|].
    - assert (k * (b * W) <= (R - 1) * (b * W)) by (apply Z.mul_le_mono_nonneg_r; lia). lia.
    - assert ((R + 1) * (b * W) <= k * (b * W)) by (apply Z.mul_le_mono_nonneg_r; lia). lia. }
  split; [|specialize (BEST 0); cbn [Z.mul] in BEST; lia].
  unfold bounded, canonical_mantissa in Hz. apply andb_true_iff in Hz. destruct Hz as [Hc _]. apply Zeq_bool_eq in Hc.
  pose proof (digits_bounds mz) as [_ M2]. set (dz := Zpos (digits2_pos mz)) in *. assert (Z0 : emin <= ez) by (rewrite <- Hc; apply fexp_ge).
  assert (DP : dz <= prec) by (unfold SpecFloat.fexp in Hc; lia).
  destruct (Z.le_gt_cases e1 ez) as [G|G].
  - replace (fval mz ez * b) with (Zpos mz * 2 ^ (ez - e1) * (b * W)); [apply BEST|]. unfold fval, W.
    replace (ez - emin) with (ez - e1 + (e1 - emin)) by lia. rewrite Z.pow_add_r by lia. ring.
  - (* z lies below the binade of a/b *)
    assert (DD : emin < D /\ e1 = D - prec) by (unfold e1, SpecFloat.fexp in *; lia). destruct DD as [D1 D2]. specialize (L D1).
    assert (HZ : fval mz ez * b <= 2 ^ (prec - 1) * (b * W)).
    { unfold fval. assert (Zpos mz * 2 ^ (ez - emin) <= 2 ^ (prec - 1) * W).
      - unfold W. rewrite <- Z.pow_add_r by lia. apply Z.le_trans with (2 ^ dz * 2 ^ (ez - emin)).
        + apply Z.mul_le_mono_nonneg_r; [pose proof (p2_pos (ez - emin)); lia|lia].
        + rewrite <- Z.pow_add_r by lia. apply Z.pow_le_mono_r; lia.
      - replace (2 ^ (prec - 1) * (b * W)) with (2 ^ (prec - 1) * W * b) by ring. apply Z.mul_le_mono_nonneg_r; lia. }
    assert (HA : 2 ^ (prec - 1) * (b * W) <= A).
    { replace (2 ^ (prec - 1) * (b * W)) with (b * 2 ^ (D - 1 - emin)); [exact L|]. unfold W.
      replace (D - 1 - emin) with (prec - 1 + (e1 - emin)) by lia. rewrite Z.pow_add_r by lia. ring. }
    specialize (BEST (2 ^ (prec - 1))). lia.
Qed.
Lemma pack_val s R e : (forall t, pack s R e <> S754_infinity t) -> 0 <= R -> emin <= e -> result_val (pack s R e) = R * 2 ^ (e - emin).
Proof.
  unfold pack. intros HI HR He. destruct (Z.eqb_spec R (2 ^ prec)) as [ER|NR].
  - pose proof (p2_pos (prec - 1) ltac:(lia)) as PP. destruct (2 ^ (prec - 1)) as [|q|q] eqn:EQ; [lia| |lia].
    destruct (e + 1 <=? emax - prec); [|exfalso; apply (HI s); reflexivity]. cbn [result_val]. unfold fval. rewrite <- EQ.
    replace (e + 1 - emin) with (e - emin + 1) by lia. rewrite p2_S by lia. rewrite ER. replace prec with (prec - 1 + 1) at 3 by lia. rewrite (p2_S (prec - 1)) by lia. ring.
  - destruct R as [|q|q]; [reflexivity| |lia]. destruct (e <=? emax - prec); [|exfalso; apply (HI s); reflexivity]. reflexivity.
Qed.
(** Relative error 2^-prec in the normal range. *)
Lemma round_rat_rel s a b : 0 < a -> 0 < b -> let A := a * 2 ^ (- emin) in
  (forall t, round_rat s a b <> S754_infinity t) -> b * 2 ^ (prec - 1) <= A ->
  Z.abs (A - result_val (round_rat s a b) * b) * 2 ^ prec <= A.
Proof.
  intros Ha Hb A HI HN. destruct (round_rat_spec s a b Ha Hb) as (D & R & R1 & (R0 & N2 & _) & E & U & L). rewrite E in *. cbv zeta in *. fold A in N2, U, L.
  pose proof (fexp_ge D) as FG. rewrite pack_val by auto. set (W := 2 ^ (fexp D - emin)) in *.
  assert (HD : emin + prec <= D).
  { destruct (Z.le_gt_cases (emin + prec) D) as [|G]; [auto|exfalso].
    assert (2 ^ (Z.max D emin - emin) <= 2 ^ (prec - 1)) by (apply Z.pow_le_mono_r; lia).
    assert (b * 2 ^ (Z.max D emin - emin) <= b * 2 ^ (prec - 1)) by (apply Z.mul_le_mono_nonneg_l; lia). lia. }
  assert (EF : fexp D = D - prec) by (unfold SpecFloat.fexp; lia).
  assert (HW : 2 ^ (prec - 1) * (b * W) <= A).
  { replace (2 ^ (prec - 1) * (b * W)) with (b * 2 ^ (D - 1 - emin)); [apply L; lia|]. unfold W.
    replace (D - 1 - emin) with (prec - 1 + (fexp D - emin)) by lia. rewrite Z.pow_add_r by lia. ring. }
  replace (R * W * b) with (R * (b * W)) by ring. pose proof (p2_pos (prec - 1) ltac:(lia)) as PP.
  replace prec with (prec - 1 + 1) at 1 by lia. rewrite p2_S by lia. set (z := Z.abs (A - R * (b * W))) in *. clearbody z.
  assert (2 ^ (prec - 1) * (2 * z) <= 2 ^ (prec - 1) * (b * W)) by (apply Z.mul_le_mono_nonneg_l; lia).
  replace (z * (2 * 2 ^ (prec - 1))) with (2 ^ (prec - 1) * (2 * z)) by ring. lia.
Qed.
(** Overflow only from half an ulp above the largest number. *)
Lemma round_rat_inf s a b t : 0 < a -> 0 < b -> 2 <= emax -> round_rat s a b = S754_infinity t ->
  b * ((2 ^ (prec + 1) - 1) * 2 ^ (emax - prec - 1 - emin)) <= a * 2 ^ (- emin).
Proof.
  intros Ha Hb He HI. destruct (round_rat_spec s a b Ha Hb) as (D & R & R1 & (R0 & N2 & _) & E & U & L). rewrite E in HI. cbv zeta in *.
  set (A := a * 2 ^ (- emin)) in *. pose proof (fexp_ge D) as FG. set (e1 := fexp D) in *.
  assert (EP : 2 ^ (prec + 1) = 4 * 2 ^ (prec - 1)) by (replace (prec + 1) with (prec - 1 + 1 + 1) by lia; rewrite !p2_S by lia; lia).
  assert (EP0 : 2 ^ prec = 2 * 2 ^ (prec - 1)) by (replace prec with (prec - 1 + 1) at 1 by lia; rewrite p2_S by lia; lia).
  pose proof (p2_pos (prec - 1) ltac:(lia)) as PP.
  assert (X0 : 0 <= emax - prec - 1 - emin) by (unfold SpecFloat.emin in *; lia).
  destruct (Z.le_gt_cases e1 (emax - prec)) as [C|C].
  - (* a carry at the top *)
    assert (HR : R = 2 ^ prec /\ e1 = emax - prec).
    { unfold pack in HI. destruct (Z.eqb_spec R (2 ^ prec)) as [ER|NR].
      - destruct (2 ^ (prec - 1)) as [|q|q]; [lia| |lia]. destruct (Z.leb_spec (e1 + 1) (emax - prec)); [discriminate|lia].
      - destruct R; try discriminate. destruct (Z.leb_spec e1 (emax - prec)); [discriminate|lia]. }
    destruct HR as [-> E1]. rewrite E1 in N2. replace (emax - prec - emin) with (emax - prec - 1 - emin + 1) in N2 by lia. rewrite p2_S in N2 by lia.
    set (W := 2 ^ (emax - prec - 1 - emin)) in *. rewrite EP. rewrite EP0 in N2.
    assert (2 * (2 * 2 ^ (prec - 1) * (b * (2 * W)) - A) <= b * (2 * W)) by lia.
    replace (b * ((4 * 2 ^ (prec - 1) - 1) * W)) with (2 * 2 ^ (prec - 1) * (b * (2 * W)) - b * W) by ring. lia.
  - assert (EM : emin < D /\ e1 = D - prec) by (unfold e1, SpecFloat.fexp, SpecFloat.emin in *; lia). destruct EM as [D1 D2]. specialize (L D1).
    assert (2 ^ (prec + 1) * 2 ^ (emax - prec - 1 - emin) <= 2 ^ (D - 1 - emin)) by (rewrite <- Z.pow_add_r by lia; apply Z.pow_le_mono_r; lia).
    pose proof (p2_pos _ X0). set (W := 2 ^ (emax - prec - 1 - emin)) in *.
    assert (b * ((2 ^ (prec + 1) - 1) * W) <= b * 2 ^ (D - 1 - emin)) by (apply Z.mul_le_mono_nonneg_l; lia). lia.
Qed.
End Rat.
