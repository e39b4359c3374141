(** FloatIOFacts2.v: decimals with few digits survive the conversion to double and back;
    whole files of doubles. *)
From Coq Require Import ZArith Bool Lia String Ascii SpecFloat.
From Verif Require Import Mat IO IOSpec IOFacts Float FloatFacts FloatValid FloatRound FloatIO FloatIOFacts.
Local Open Scope string_scope.
Local Open Scope Z_scope.

Lemma upto_ratio a b s j : 0 <= j ->
  fst (upto a b (s + j)) * snd (upto a b s) = 10 ^ j * fst (upto a b s) * snd (upto a b (s + j)).
Proof.
  intros Hj. unfold upto. destruct (Z.leb_spec 0 s) as [S|S], (Z.leb_spec 0 (s + j)) as [S2|S2]; cbn [fst snd]; try lia.
  - rewrite Z.pow_add_r by lia. ring.
  - replace (10 ^ j) with (10 ^ (s + j) * 10 ^ (- s)) by (rewrite <- Z.pow_add_r by lia; f_equal; lia). ring.
  - replace (10 ^ (- s)) with (10 ^ j * 10 ^ (- (s + j))) by (rewrite <- Z.pow_add_r by lia; f_equal; lia). ring.
Qed.
Lemma upto_dec a b k : upto a b (- k) = (a * dden k, dnum 1 k * b).
Proof.
  unfold upto, dden, dnum. destruct (Z.leb_spec 0 (- k)) as [S|S], (Z.leb_spec 0 k) as [K|K]; try lia.
  - replace k with 0 by lia. change (10 ^ (- 0)) with 1. change (10 ^ 0) with 1. f_equal; ring.
  - f_equal; ring.
  - rewrite Z.opp_involutive. f_equal; ring.
Qed.
Lemma dnum_mul D k : dnum D k = D * dnum 1 k.
Proof. unfold dnum. destruct (0 <=? k); ring. Qed.
(** The leading exponent, as [sci_digits] computes it. *)
Definition lead_exp (a b : Z) : Z := if b <=? a then ndigits (a / b) - 1 else - ndigits ((b - 1) / a).
Lemma lead_unique a b P X : 0 < a -> 0 < b -> 1 <= P ->
  10 ^ (P - 1) * snd (upto a b (P - 1 - X)) <= fst (upto a b (P - 1 - X)) < 10 ^ P * snd (upto a b (P - 1 - X)) -> lead_exp a b = X.
Proof.
  intros Ha Hb HP [H1 H2]. pose proof (lead_of a b Ha Hb (P - 1)) as HL. fold (lead_exp a b) in HL. set (X0 := lead_exp a b) in *. clearbody X0.
  replace (P - 1 + 1) with P in HL by lia. pose proof (upto_pos a b (P - 1 - X) Ha Hb) as [U1 U2]. pose proof (upto_pos a b (P - 1 - X0) Ha Hb) as [V1 V2].
  pose proof (p10_pos (P - 1) ltac:(lia)) as T. assert (ET : 10 ^ P = 10 * 10 ^ (P - 1)) by (replace P with (P - 1 + 1) at 1 by lia; apply p10_S; lia).
  rewrite ET in *. destruct (Z.lt_trichotomy X0 X) as [L|[E|L]]; [|auto|]; exfalso.
  - pose proof (upto_ratio a b (P - 1 - X) (X - X0) ltac:(lia)) as R. replace (P - 1 - X + (X - X0)) with (P - 1 - X0) in R by lia.
    destruct (upto a b (P - 1 - X)) as [n d], (upto a b (P - 1 - X0)) as [n0 d0]. cbn [fst snd] in *. destruct HL as [L1 L2]; [lia|].
    replace (X - X0) with (X - X0 - 1 + 1) in R by lia. rewrite p10_S in R by lia. pose proof (p10_pos (X - X0 - 1) ltac:(lia)) as J.
    set (j := 10 ^ (X - X0 - 1)) in *. set (v := 10 ^ (P - 1)) in *.
    assert (n0 * d < 10 * v * d0 * d) by (apply Z.mul_lt_mono_pos_r; lia).
    assert (v * d * (10 * j * d0) <= n * (10 * j * d0)) by (apply Z.mul_le_mono_nonneg_r; [apply Z.mul_nonneg_nonneg; lia|lia]).
    assert (1 * (10 * v * d0 * d) <= j * (10 * v * d0 * d)) by (apply Z.mul_le_mono_nonneg_r; [repeat apply Z.mul_nonneg_nonneg; lia|lia]).
    replace (v * d * (10 * j * d0)) with (j * (10 * v * d0 * d)) in * by ring. replace (n * (10 * j * d0)) with (10 * j * n * d0) in * by ring. lia.
  - pose proof (upto_ratio a b (P - 1 - X0) (X0 - X) ltac:(lia)) as R. replace (P - 1 - X0 + (X0 - X)) with (P - 1 - X) in R by lia.
    destruct (upto a b (P - 1 - X)) as [n d], (upto a b (P - 1 - X0)) as [n0 d0]. cbn [fst snd] in *. destruct HL as [L1 L2]; [lia|].
    replace (X0 - X) with (X0 - X - 1 + 1) in R by lia. rewrite p10_S in R by lia. pose proof (p10_pos (X0 - X - 1) ltac:(lia)) as J.
    set (j := 10 ^ (X0 - X - 1)) in *. set (v := 10 ^ (P - 1)) in *.
    assert (n * d0 < 10 * v * d * d0) by (apply Z.mul_lt_mono_pos_r; lia).
    assert (v * d0 * (10 * j * d) <= n0 * (10 * j * d)) by (apply Z.mul_le_mono_nonneg_r; [apply Z.mul_nonneg_nonneg; lia|lia]).
    assert (1 * (10 * v * d * d0) <= j * (10 * v * d * d0)) by (apply Z.mul_le_mono_nonneg_r; [repeat apply Z.mul_nonneg_nonneg; lia|lia]).
    replace (v * d0 * (10 * j * d)) with (j * (10 * v * d * d0)) in * by ring. replace (n0 * (10 * j * d)) with (10 * j * n0 * d) in * by ring. lia.
Qed.
Lemma sci_unfold p a b : sci_digits p a b =
  let P := Z.of_nat p in let X := lead_exp a b in let D := rne (fst (upto a b (P - 1 - X))) (snd (upto a b (P - 1 - X))) in
  if D =? 10 ^ P then (10 ^ (P - 1), X + 1) else (D, X).
Proof. unfold sci_digits, upto. fold (lead_exp a b). cbv zeta. destruct (0 <=? _); reflexivity. Qed.

(** The digits are within half a unit of the number. *)
Lemma sci_half p a b : (1 <= p)%nat -> 0 < a -> 0 < b -> let '(D, X) := sci_digits p a b in
  let k := X - (Z.of_nat p - 1) in 2 * Z.abs (a * dden k - D * (dnum 1 k * b)) <= dnum 1 k * b.
Proof.
  intros Hp Ha Hb. rewrite sci_unfold. set (P := Z.of_nat p). set (X := lead_exp a b). cbv zeta.
  pose proof (upto_pos a b (P - 1 - X) Ha Hb) as [U1 U2]. pose proof (rne_nearest _ _ (Z.lt_le_incl _ _ U1) U2) as (_ & HN & _).
  set (D := rne _ _) in *. destruct (Z.eqb_spec D (10 ^ P)) as [E|N].
  - rewrite E in HN. pose proof (upto_ratio a b (P - 1 - (X + 1)) 1 ltac:(lia)) as R. replace (P - 1 - (X + 1) + 1) with (P - 1 - X) in R by lia.
    pose proof (upto_pos a b (P - 1 - (X + 1)) Ha Hb) as [V1 V2].
    replace (P - 1 - (X + 1)) with (- (X + 1 - (P - 1))) in * by lia. rewrite upto_dec in R, V1, V2. cbn [fst snd] in R, V1, V2. change (10 ^ 1) with 10 in R.
    destruct (upto a b (P - 1 - X)) as [n d]. cbn [fst snd] in *. replace (10 ^ P) with (10 * 10 ^ (P - 1)) in HN by (replace P with (P - 1 + 1) at 2 by lia; symmetry; apply p10_S; lia).
    set (n' := a * dden _) in *. set (d' := dnum 1 _ * b) in *. set (v := 10 ^ (P - 1)) in *. clearbody n' d' v. clear - HN R U2 V2.
    assert (EE : Z.abs (n - 10 * v * d) * d' = 10 * Z.abs (n' - v * d') * d).
    { rewrite <- (Z.abs_eq d') at 1 by lia. rewrite <- (Z.abs_eq d) at 2 by lia. rewrite <- (Z.abs_eq 10) at 2 by lia. rewrite <- !Z.abs_mul. f_equal.
      replace ((n - 10 * v * d) * d') with (n * d' - 10 * v * d * d') by ring. rewrite R. ring. }
    set (z := Z.abs (n' - v * d')) in *. assert (Z0 : 0 <= z) by (unfold z; lia). set (y := Z.abs (n - 10 * v * d)) in *. clearbody z y.
    assert (2 * y * d' <= d * d') by (apply Z.mul_le_mono_nonneg_r; lia).
    assert (20 * z * d <= d' * d) by (replace (20 * z * d) with (2 * (10 * z * d)) by ring; rewrite <- EE; lia).
    assert (20 * z <= d') by (apply (Z.mul_le_mono_pos_r _ _ d); auto). lia.
  - replace (P - 1 - X) with (- (X - (P - 1))) in HN by lia. rewrite upto_dec in HN. cbn [fst snd] in HN. exact HN.
Qed.
(** Conversely, digits close enough to the number are its digits. *)
Lemma sci_unique p a b D X : (1 <= p)%nat -> 0 < a -> 0 < b -> 10 ^ (Z.of_nat p - 1) <= D < 10 ^ Z.of_nat p ->
  let k := X - (Z.of_nat p - 1) in let Q := a * dden k in let U := dnum 1 k * b in
  2 * Z.abs (Q - D * U) < U -> (D = 10 ^ (Z.of_nat p - 1) -> 20 * (D * U - Q) < U) ->
  sci_digits p a b = (D, X).
Proof.
  intros Hp Ha Hb [D1 D2] k Q U HN HT. rewrite sci_unfold. set (P := Z.of_nat p) in *. cbv zeta. assert (P1 : 1 <= P) by (unfold P; lia). clearbody P. clear Hp p.
  assert (ET : 10 ^ P = 10 * 10 ^ (P - 1)) by (replace P with (P - 1 + 1) at 1 by lia; apply p10_S; lia). pose proof (p10_pos (P - 1) ltac:(lia)) as T.
  assert (EU : upto a b (P - 1 - X) = (Q, U)) by (replace (P - 1 - X) with (- k) by (unfold k; lia); apply upto_dec).
  pose proof (upto_pos a b (P - 1 - X) Ha Hb) as [Q0 U0]. rewrite EU in Q0, U0. cbn [fst snd] in Q0, U0. set (v := 10 ^ (P - 1)) in *.
  destruct (Z.le_gt_cases (v * U) Q) as [L|L].
  - assert (EX : lead_exp a b = X).
    { apply (lead_unique a b P X); auto. rewrite EU. cbn [fst snd]. fold v. rewrite ET. split; [exact L|].
      assert ((D + 1) * U <= 10 * v * U) by (apply Z.mul_le_mono_nonneg_r; lia). lia. }
    rewrite EX, EU. cbn [fst snd]. assert (ER : rne Q U = D) by (apply (nearest_unique Q U); auto; apply rne_nearest; lia). rewrite ER.
    destruct (Z.eqb_spec D (10 ^ P)); [lia|reflexivity].
  - assert (ED : D = v).
    { destruct (Z.eq_dec D v) as [|N]; [auto|exfalso]. assert ((v + 1) * U <= D * U) by (apply Z.mul_le_mono_nonneg_r; lia). lia. }
    specialize (HT ED). rewrite ED in *. clear D1 D2. set (X0 := X - 1).
    pose proof (upto_ratio a b (P - 1 - X) 1 ltac:(lia)) as R. replace (P - 1 - X + 1) with (P - 1 - X0) in R by (unfold X0; lia). rewrite EU in R. cbn [fst snd] in R. change (10 ^ 1) with 10 in R.
    pose proof (upto_pos a b (P - 1 - X0) Ha Hb) as [n0 d0]. set (n := fst (upto a b (P - 1 - X0))) in *. set (d := snd (upto a b (P - 1 - X0))) in *.
    assert (NB : 10 * v * d - n >= 0 /\ 2 * (10 * v * d - n) < d).
    { split.
      - assert (n * U <= 10 * v * d * U) by (rewrite R; replace (10 * v * d * U) with (v * U * (10 * d)) by ring; replace (10 * Q * d) with (Q * (10 * d)) by ring; apply Z.mul_le_mono_nonneg_r; lia).
        assert (n <= 10 * v * d) by (apply (Z.mul_le_mono_pos_r _ _ U); auto). lia.
      - apply (Z.mul_lt_mono_pos_r U); auto. replace (2 * (10 * v * d - n) * U) with (20 * v * d * U - 2 * (n * U)) by ring. rewrite R.
        replace (20 * v * d * U - 2 * (10 * Q * d)) with (20 * (v * U - Q) * d) by ring. rewrite (Z.mul_comm d U). apply Z.mul_lt_mono_pos_r; auto. }
    destruct NB as [NB1 NB2].
    assert (EX : lead_exp a b = X0).
    { apply (lead_unique a b P X0); auto. fold n d. fold v. rewrite ET. split.
      - assert (1 * d <= v * d) by (apply Z.mul_le_mono_nonneg_r; lia). lia.
      - assert (n * U < 10 * v * d * U); [|apply (Z.mul_lt_mono_pos_r U); auto].
        rewrite R. replace (10 * v * d * U) with (v * U * (10 * d)) by ring. replace (10 * Q * d) with (Q * (10 * d)) by ring. apply Z.mul_lt_mono_pos_r; lia. }
    rewrite EX. fold n d. assert (ER : rne n d = 10 ^ P).
    { apply (nearest_unique n d); auto; [apply rne_nearest; lia|]. rewrite ET. lia. }
    rewrite ER, Z.eqb_refl. fold v. f_equal. unfold X0. lia.
Qed.

(** * Decimals of at most 15 digits survive: in the normal range, the p digits of the double
    read from a p-digit decimal are that decimal's. *)
Definition em := emin prec64 emax64.
Lemma em_val : em = -1074. Proof. reflexivity. Qed.
Lemma bounded_min m e : bounded prec64 emax64 m e = true -> em <= e.
Proof. intros H. apply bounded_exp in H. rewrite <- H. apply fexp_ge. Qed.
Lemma sci_of_read p s D k s' m e : (1 <= p <= 15)%nat -> 10 ^ (Z.of_nat p - 1) <= D < 10 ^ Z.of_nat p ->
  dden k <= dnum D k * 2 ^ 1022 -> read_decimal s D k = S754_finite s' m e ->
  sci_digits p (fnum m e) (fden e) = (D, k + (Z.of_nat p - 1)).
Proof.
  intros Hp HD HN HR. pose proof (p10_pos (Z.of_nat p - 1) ltac:(lia)) as T. assert (D0 : 0 < D) by lia.
  rewrite read_decimal_rat in HR by auto. destruct prec64_ok as [P1 P2]. pose proof (dnum_pos D k D0) as A0. pose proof (dden_pos k) as B0.
  pose proof (round_rat_rel prec64 emax64 P1 P2 s (dnum D k) (dden k) A0 B0) as HE. rewrite HR in HE. cbv zeta in HE. fold em in HE.
  assert (W : 2 ^ (- em) = 2 ^ 1022 * 2 ^ 52) by (rewrite <- Z.pow_add_r by lia; reflexivity).
  assert (HE' : Z.abs (dnum D k * 2 ^ (- em) - result_val prec64 emax64 (S754_finite s' m e) * dden k) * 2 ^ prec64 <= dnum D k * 2 ^ (- em)).
  { apply HE; [congruence|]. rewrite W, Z.mul_assoc. change (prec64 - 1) with 52. apply Z.mul_le_mono_nonneg_r; [lia|exact HN]. }
  clear HE. cbn [result_val] in HE'. unfold fval in HE'. fold em in HE'.
  assert (BM : em <= e). { apply (bounded_min m). pose proof (round_rat_valid prec64 emax64 P1 P2 s (dnum D k) (dden k) A0 B0) as V. rewrite HR in V. exact V. }
  pose proof (fnum_scale m e em BM ltac:(rewrite em_val; lia)) as FS. pose proof (fnum_pos m e) as F1. pose proof (fden_pos e) as F2.
  apply sci_unique; auto; [lia| |]; replace (k + (Z.of_nat p - 1) - (Z.of_nat p - 1)) with k by lia.
  all: set (a := fnum m e) in *; set (b := fden e) in *; set (w := 2 ^ (- em)) in *; assert (W0 : 0 < w) by (apply p2_pos; rewrite em_val; lia);
    rewrite dnum_mul in HE'; assert (C : Z.abs (a * dden k - D * (dnum 1 k * b)) * 2 ^ prec64 <= D * (dnum 1 k * b)).
  1, 3: apply (Z.mul_le_mono_pos_r _ _ w); auto;
    replace (Z.abs (a * dden k - D * (dnum 1 k * b)) * 2 ^ prec64 * w) with (Z.abs (D * dnum 1 k * w - Zpos m * 2 ^ (e - em) * dden k) * 2 ^ prec64 * b);
    [replace (D * (dnum 1 k * b) * w) with (D * dnum 1 k * w * b) by ring; apply Z.mul_le_mono_nonneg_r; [lia|exact HE']|];
    assert (EE : Z.abs (D * dnum 1 k * w - Zpos m * 2 ^ (e - em) * dden k) * b = Z.abs (a * dden k - D * (dnum 1 k * b)) * w) by
      (rewrite <- (Z.abs_eq b) at 1 by lia; rewrite <- (Z.abs_eq w) at 2 by lia; rewrite <- !Z.abs_mul, <- Z.abs_opp; f_equal;
       replace (- ((D * dnum 1 k * w - Zpos m * 2 ^ (e - em) * dden k) * b)) with (Zpos m * 2 ^ (e - em) * b * dden k - D * dnum 1 k * w * b) by ring; rewrite <- FS; ring);
    replace (Z.abs (D * dnum 1 k * w - Zpos m * 2 ^ (e - em) * dden k) * 2 ^ prec64 * b) with (2 ^ prec64 * (Z.abs (D * dnum 1 k * w - Zpos m * 2 ^ (e - em) * dden k) * b)) by ring;
    rewrite EE; ring.
  all: assert (U0 : 0 < dnum 1 k * b) by (apply Z.mul_pos_pos; [apply dnum_pos; lia|lia]); set (U := dnum 1 k * b) in *; change prec64 with 53 in C.
  - set (z := Z.abs (a * dden k - D * U)) in *. assert (DB : D <= 10 ^ 15) by (assert (10 ^ Z.of_nat p <= 10 ^ 15) by (apply Z.pow_le_mono_r; lia); lia).
    assert (D * U <= 10 ^ 15 * U) by (apply Z.mul_le_mono_nonneg_r; lia). clearbody z U. clear - C H U0. lia.
  - intros ED. set (z := Z.abs (a * dden k - D * U)) in *. assert (ZZ : D * U - a * dden k <= z) by (unfold z; lia).
    assert (DB : D <= 10 ^ 14) by (rewrite ED; apply Z.pow_le_mono_r; lia).
    assert (D * U <= 10 ^ 14 * U) by (apply Z.mul_le_mono_nonneg_r; lia). assert (20 * z < U); [|lia]. clearbody z U. clear - C H U0. lia.
Qed.

(** * One double *)
Definition digits_of (P : nat) (m : positive) (e : Z) : Z * Z := sci_digits (Nat.max P 1) (fnum m e) (fden e).
Definition read_digits (P : nat) (s : bool) (m : positive) (e : Z) : double :=
  let '(D, X) := digits_of P m e in read_decimal s D (X - (Z.of_nat (Nat.max P 1) - 1)).
Lemma get_show plus P s m e w t : blank w -> wsnext t ->
  get_double (good (w ++ show_double plus P (S754_finite s m e) ++ t)) = read_result (read_digits P s m e) t.
Proof.
  intros Hw Ht. cbn [show_double]. rewrite app_assoc_s. unfold read_digits, digits_of. set (p := Nat.max P 1).
  pose proof (sci_spec p (fnum m e) (fden e) ltac:(unfold p; lia) (fnum_pos m e) (fden_pos e)) as HS.
  destruct (sci_digits p (fnum m e) (fden e)) as [D X]. cbv zeta in HS. destruct HS as ((D1 & _) & _).
  apply get_double_digits; auto; [unfold p; lia|]. pose proof (p10_pos (Z.of_nat p - 1) ltac:(unfold p; lia)). lia.
Qed.
Lemma get_show_zero plus P s w t : blank w -> wsnext t ->
  get_double (good (w ++ show_double plus P (S754_zero s) ++ t)) = (Some (S754_zero s), good t).
Proof.
  intros Hw Ht. cbn [show_double]. rewrite app_assoc_s. pose proof (get_double_body w plus s 0 0 0 t "" Hw Ht ltac:(lia) ltac:(auto)) as G.
  cbn [String.append] in G. exact G.
Qed.
(** Texts that are not numbers. *)
Lemma get_word w plus s c t : blank w -> isspace c = false -> digit c = None -> Ascii.eqb c "." = false -> Ascii.eqb c "-" = false -> Ascii.eqb c "+" = false ->
  get_double (good (w ++ show_sign plus s ++ String c t)) = (Some (S754_zero false), mkIn (String c t) true false).
Proof.
  intros Hw H1 H2 H3 H4 H5.
  assert (G : exists c0 r0, show_sign plus s ++ String c t = String c0 r0 /\ isspace c0 = false /\ scan_sign (String c0 r0) = (s, String c t)).
  { unfold show_sign. destruct s; [|destruct plus].
    - exists "-"%char, (String c t). auto.
    - exists "+"%char, (String c t). auto.
    - exists c, t. split; [reflexivity|]. split; [auto|]. cbn [scan_sign]. rewrite H4, H5. reflexivity. }
  destruct G as (c0 & r0 & -> & G1 & G2). unfold get_double. rewrite sentry_at by auto. cbv beta iota zeta. rewrite G2. cbv beta iota zeta.
  cbn [scan]. rewrite H2. cbv beta iota zeta. rewrite H3. cbv beta iota zeta. cbn [negb]. reflexivity.
Qed.
Lemma get_nan plus P w t : blank w -> get_double (good (w ++ show_double plus P S754_nan ++ t)) = (Some (S754_zero false), mkIn ("nan" ++ t) true false).
Proof. intros Hw. exact (get_word w false false "n" ("an" ++ t) Hw eq_refl eq_refl eq_refl eq_refl eq_refl). Qed.
Lemma get_inf plus P s w t : blank w -> get_double (good (w ++ show_double plus P (S754_infinity s) ++ t)) = (Some (S754_zero false), mkIn ("inf" ++ t) true false).
Proof. intros Hw. cbn [show_double]. rewrite app_assoc_s. exact (get_word w plus s "i" ("nf" ++ t) Hw eq_refl eq_refl eq_refl eq_refl eq_refl). Qed.

(** Six digits never overflow. *)
Lemma read_6 s m e : bounded prec64 emax64 m e = true -> forall t, read_digits 6 s m e <> S754_infinity t.
Proof.
  intros Hb t HI. unfold read_digits, digits_of in HI. change (Nat.max 6 1) with 6%nat in HI. change (Z.of_nat 6 - 1) with 5 in HI.
  pose proof (sci_spec 6 (fnum m e) (fden e) ltac:(lia) (fnum_pos m e) (fden_pos e)) as HS.
  pose proof (sci_half 6 (fnum m e) (fden e) ltac:(lia) (fnum_pos m e) (fden_pos e)) as HH.
  destruct (sci_digits 6 (fnum m e) (fden e)) as [D X]. cbv zeta in HS, HH. change (Z.of_nat 6 - 1) with 5 in *. change (Z.of_nat 6) with 6 in *.
  destruct HS as ((D1 & D2) & _). change (10 ^ 5) with 100000 in D1. change (10 ^ 6) with 1000000 in D2.
  rewrite read_decimal_rat in HI by lia. destruct prec64_ok as [P1 P2]. set (k := X - 5) in *. clearbody k.
  pose proof (round_rat_inf prec64 emax64 P1 P2 s (dnum D k) (dden k) t (dnum_pos D k ltac:(lia)) (dden_pos k) ltac:(unfold emax64; lia) HI) as HB. clear HI.
  change (prec64 + 1) with 54 in HB. change (emax64 - prec64 - 1 - emin prec64 emax64) with 2044 in HB. change (- emin prec64 emax64) with 1074 in HB.
  (* the double is below 2^1024 *)
  assert (HX : fnum m e < 2 ^ 1024 * fden e).
  { unfold bounded in Hb. apply andb_true_iff in Hb. destruct Hb as [Hc He]. apply Z.leb_le in He. change (emax64 - prec64) with 971 in He.
    unfold canonical_mantissa in Hc. apply Zeq_bool_eq in Hc. pose proof (digits_bounds m) as [_ B]. set (dg := Zpos (digits2_pos m)) in *.
    assert (dg <= 53) by (unfold fexp, prec64, emax64, emin in *; lia). assert (2 ^ dg <= 2 ^ 53) by (apply Z.pow_le_mono_r; lia).
    unfold fnum, fden. destruct (Z.leb_spec 0 e) as [E|E].
    - assert (2 ^ e <= 2 ^ 971) by (apply Z.pow_le_mono_r; lia). pose proof (p2_pos e E).
      apply Z.lt_le_trans with (2 ^ 53 * 2 ^ e); [apply Z.mul_lt_mono_pos_r; lia|]. rewrite Z.mul_1_r. replace (2 ^ 1024) with (2 ^ 53 * 2 ^ 971) by (rewrite <- Z.pow_add_r by lia; reflexivity).
      apply Z.mul_le_mono_nonneg_l; lia.
    - assert (1 <= 2 ^ (- e)) by (pose proof (p2_pos (- e)); lia). assert (2 ^ 53 <= 2 ^ 1024) by (apply Z.pow_le_mono_r; lia).
      apply Z.lt_le_trans with (2 ^ 1024 * 1); [lia|]. apply Z.mul_le_mono_nonneg_l; lia. }
  pose proof (fden_pos e) as F2. set (a := fnum m e) in *. set (b := fden e) in *. clearbody a b. clear Hb P1 P2 s t.
  destruct (Z.le_gt_cases 304 k) as [K|K].
  - (* D * 10^k >= 10^309 *)
    unfold dnum, dden in HH. destruct (Z.leb_spec 0 k) as [K0|K0]; [|lia]. pose proof (p10_pos k K0) as T.
    assert (10 ^ 304 <= 10 ^ k) by (apply Z.pow_le_mono_r; lia). set (u := 10 ^ k) in *. clearbody u. rewrite Z.mul_1_r, Z.mul_1_l in HH.
    assert (H1 : D * (u * b) - a <= u * b) by lia. assert (99999 * (u * b) <= (D - 1) * (u * b)) by (apply Z.mul_le_mono_nonneg_r; [apply Z.mul_nonneg_nonneg; lia|lia]).
    assert (10 ^ 304 * b <= u * b) by (apply Z.mul_le_mono_nonneg_r; lia). assert (99999 * (10 ^ 304 * b) < 2 ^ 1024 * b) by lia.
    assert (2 ^ 1024 < 99999 * 10 ^ 304) by (apply Z.ltb_lt; vm_compute; reflexivity). assert (2 ^ 1024 * b < 99999 * 10 ^ 304 * b) by (apply Z.mul_lt_mono_pos_r; lia). lia.
  - destruct (Z.eq_dec k 303) as [->|K3].
    + change (dden 303) with 1 in *. unfold dnum in *. change (0 <=? 303) with true in *. cbv iota in *.
      rewrite Z.mul_1_r, Z.mul_1_l in *.
      assert (DD : D <= 179769).
      { destruct (Z.le_gt_cases D 179769) as [|G]; [auto|exfalso]. assert (179770 * (10 ^ 303 * b) <= D * (10 ^ 303 * b)) by (apply Z.mul_le_mono_nonneg_r; [apply Z.mul_nonneg_nonneg; lia|lia]).
        assert (2 * (179770 * (10 ^ 303 * b) - a) <= 10 ^ 303 * b) by lia. assert (359539 * (10 ^ 303 * b) < 2 * (2 ^ 1024 * b)) by lia.
        assert (2 * 2 ^ 1024 < 359539 * 10 ^ 303) by (apply Z.ltb_lt; vm_compute; reflexivity). assert (2 * 2 ^ 1024 * b < 359539 * 10 ^ 303 * b) by (apply Z.mul_lt_mono_pos_r; lia). lia. }
      assert (D * 10 ^ 303 * 2 ^ 1074 <= 179769 * 10 ^ 303 * 2 ^ 1074) by (repeat apply Z.mul_le_mono_nonneg_r; try lia; apply Z.pow_nonneg; lia).
      assert (179769 * 10 ^ 303 * 2 ^ 1074 < (2 ^ 54 - 1) * 2 ^ 2044) by (apply Z.ltb_lt; vm_compute; reflexivity). lia.
    + (* D * 10^k < 10^308 *)
      assert (H : dnum D k <= 10 ^ 308 * dden k).
      { unfold dnum, dden. destruct (Z.leb_spec 0 k) as [K0|K0].
        - assert (10 ^ k <= 10 ^ 302) by (apply Z.pow_le_mono_r; lia). replace (10 ^ 308 * 1) with (1000000 * 10 ^ 302) by (vm_compute; reflexivity).
          apply Z.mul_le_mono_nonneg; lia.
        - pose proof (p10_pos (- k) ltac:(lia)). assert (1000000 <= 10 ^ 308) by (apply Z.leb_le; vm_compute; reflexivity).
          apply Z.le_trans with (1000000 * 1); [lia|]. apply Z.mul_le_mono_nonneg; lia. }
      pose proof (dden_pos k) as B0. assert (dnum D k * 2 ^ 1074 <= 10 ^ 308 * dden k * 2 ^ 1074) by (apply Z.mul_le_mono_nonneg_r; [apply Z.pow_nonneg; lia|exact H]).
      assert (10 ^ 308 * 2 ^ 1074 < (2 ^ 54 - 1) * 2 ^ 2044) by (apply Z.ltb_lt; vm_compute; reflexivity).
      assert (10 ^ 308 * 2 ^ 1074 * dden k < (2 ^ 54 - 1) * 2 ^ 2044 * dden k) by (apply Z.mul_lt_mono_pos_r; lia). lia.
Qed.

(** * Stability: with at most 15 digits, in the normal range, the text of what is read is the text. *)
Lemma read_stable P s m e y : (P <= 15)%nat -> bounded prec64 emax64 m e = true -> fden e <= fnum m e * 2 ^ 1021 ->
  read_digits P s m e = y -> (forall t, y <> S754_infinity t) ->
  exists m' e', y = S754_finite s m' e' /\ digits_of P m' e' = digits_of P m e.
Proof.
  intros HP Hb HN Hy HI. unfold read_digits in Hy. remember (digits_of P m e) as DX eqn:EDX. unfold digits_of in *. set (p := Nat.max P 1) in *.
  assert (Hp : (1 <= p <= 15)%nat) by (unfold p; lia). clearbody p.
  pose proof (sci_spec p (fnum m e) (fden e) ltac:(lia) (fnum_pos m e) (fden_pos e)) as HS. rewrite <- EDX in HS.
  destruct DX as [D X]. cbv zeta in HS. destruct HS as (HD & HE). set (k := X - (Z.of_nat p - 1)) in *.
  pose proof (p10_pos (Z.of_nat p - 1) ltac:(lia)) as T. assert (D0 : 0 < D) by lia.
  pose proof (fnum_pos m e) as F1. pose proof (fden_pos e) as F2. pose proof (dnum_pos D k D0) as A0. pose proof (dden_pos k) as B0. destruct prec64_ok as [P1 P2].
  assert (NR : dden k <= dnum D k * 2 ^ 1022).
  { set (a := fnum m e) in *. set (b := fden e) in *. set (v := 10 ^ (Z.of_nat p - 1)) in *. set (n := dnum D k) in *. set (d := dden k) in *. clearbody a b v n d.
    assert (H1 : 2 * (a * d - n * b) <= a * d).
    { assert (a * d - n * b <= Z.abs (n * b - a * d)) by lia. set (z := Z.abs (n * b - a * d)) in *. assert (0 <= z) by (unfold z; lia).
      assert (2 * z * 1 <= 2 * z * v) by (apply Z.mul_le_mono_nonneg_l; lia). lia. }
    assert (H2 : d * b <= d * (a * 2 ^ 1021)) by (apply Z.mul_le_mono_nonneg_l; lia).
    apply (Z.mul_le_mono_pos_r _ _ b); auto. assert (E2 : 2 ^ 1022 = 2 * 2 ^ 1021) by (change 1022 with (1021 + 1); apply p2_S; lia). rewrite E2.
    assert (H3 : a * d * 2 ^ 1021 <= 2 * (n * b) * 2 ^ 1021) by (apply Z.mul_le_mono_nonneg_r; [pose proof (p2_pos 1021); lia|lia]).
    replace (d * (a * 2 ^ 1021)) with (a * d * 2 ^ 1021) in H2 by ring. replace (n * (2 * 2 ^ 1021) * b) with (2 * (n * b) * 2 ^ 1021) by ring. lia. }
  rewrite read_decimal_rat in Hy by auto.
  destruct (round_rat_cases prec64 emax64 P1 P2 s (dnum D k) (dden k) A0 B0) as [C|[C|(m' & e' & C)]]; rewrite C in Hy.
  - (* not zero: relative error *)
    exfalso. pose proof (round_rat_rel prec64 emax64 P1 P2 s (dnum D k) (dden k) A0 B0) as HR. rewrite C in HR. cbv zeta in HR. cbn [result_val] in HR. fold em in HR.
    assert (W : 2 ^ (- em) = 2 ^ 1022 * 2 ^ 52) by (rewrite <- Z.pow_add_r by lia; reflexivity).
    assert (HR' : Z.abs (dnum D k * 2 ^ (- em) - 0 * dden k) * 2 ^ prec64 <= dnum D k * 2 ^ (- em)).
    { apply HR; [congruence|]. rewrite W, Z.mul_assoc. change (prec64 - 1) with 52. apply Z.mul_le_mono_nonneg_r; [lia|exact NR]. }
    assert (A1 : 0 < dnum D k * 2 ^ (- em)) by (apply Z.mul_pos_pos; [auto|apply p2_pos; rewrite em_val; lia]). set (A := dnum D k * 2 ^ (- em)) in *. clearbody A.
    change prec64 with 53 in HR'. clear - HR' A1. lia.
  - exfalso. apply (HI s). auto.
  - exists m', e'. split; [auto|]. rewrite <- (read_decimal_rat s D k D0) in C. rewrite (sci_of_read p s D k s m' e' Hp HD NR C). f_equal. unfold k. lia.
Qed.

(** * Integers *)
Lemma strip_zeros j : forall n, strip j (n * 10 ^ Z.of_nat j) = (O, n).
Proof.
  induction j as [|j IH]; intros n; [cbn; f_equal; lia|]. cbn [strip]. replace (Z.of_nat (S j)) with (Z.of_nat j + 1) by lia. rewrite p10_S by lia.
  replace (n * (10 * 10 ^ Z.of_nat j)) with (n * 10 ^ Z.of_nat j * 10) by ring. rewrite Z.mod_mul by lia. rewrite Z.div_mul by lia. cbn [Z.eqb]. apply IH.
Qed.
Lemma sci_integer p n b : (1 <= p)%nat -> 0 < b -> 0 < n < 10 ^ Z.of_nat p ->
  sci_digits p (n * b) b = (n * 10 ^ (Z.of_nat p - ndigits n), ndigits n - 1) /\ 1 <= ndigits n <= Z.of_nat p.
Proof.
  intros Hp Hb [H0 H1]. destruct (ndigits_spec n H0) as (N1 & N2 & N3). set (d := ndigits n) in *.
  assert (DP : d <= Z.of_nat p).
  { destruct (Z.le_gt_cases d (Z.of_nat p)) as [|G]; [auto|exfalso]. assert (10 ^ Z.of_nat p <= 10 ^ (d - 1)) by (apply Z.pow_le_mono_r; lia). lia. }
  split; [|lia]. set (P := Z.of_nat p) in *. pose proof (p10_pos (P - d) ltac:(lia)) as T.
  assert (EX : n * b * dden (d - P) = n * 10 ^ (P - d) * (dnum 1 (d - P) * b)).
  { unfold dden, dnum. destruct (Z.leb_spec 0 (d - P)) as [C|C].
    - replace (P - d) with 0 by lia. replace (d - P) with 0 by lia. change (10 ^ 0) with 1. ring.
    - replace (- (d - P)) with (P - d) by lia. ring. }
  assert (UP : 0 < dnum 1 (d - P) * b) by (apply Z.mul_pos_pos; [apply dnum_pos; lia|lia]).
  apply sci_unique; auto; fold P; [apply Z.mul_pos_pos; lia| | |]; replace (d - 1 - (P - 1)) with (d - P) by lia.
  - split.
    + replace (P - 1) with (d - 1 + (P - d)) by lia. rewrite Z.pow_add_r by lia. apply Z.mul_le_mono_nonneg_r; lia.
    + replace (10 ^ P) with (10 ^ d * 10 ^ (P - d)) by (rewrite <- Z.pow_add_r by lia; f_equal; lia). apply Z.mul_lt_mono_pos_r; lia.
  - rewrite EX, Z.sub_diag. cbn [Z.abs Z.mul]. exact UP.
  - intros _. rewrite EX, Z.sub_diag. cbn [Z.mul]. exact UP.
Qed.
Lemma show_digits_integer p n b : (1 <= p)%nat -> 0 < b -> 0 < n < 10 ^ Z.of_nat p ->
  show_digits p (sci_digits p (n * b) b) = show_N (Z.to_N n).
Proof.
  intros Hp Hb Hn. destruct (sci_integer p n b Hp Hb Hn) as [-> D]. set (d := ndigits n) in *. unfold show_digits.
  replace (-4 <=? d - 1) with true by (symmetry; apply Z.leb_le; lia). replace (d - 1 <? Z.of_nat p) with true by (symmetry; apply Z.ltb_lt; lia). cbn [andb].
  replace (Z.of_nat p - 1 - (d - 1)) with (Z.of_nat p - d) by lia. set (j := Z.to_nat (Z.of_nat p - d)).
  replace (Z.of_nat p - d) with (Z.of_nat j) by (unfold j; lia). rewrite strip_zeros. unfold point. change (10 ^ Z.of_nat 0) with 1. rewrite Z.div_1_r.
  clear. induction (show_N (Z.to_N n)) as [|c r IH]; cbn; congruence.
Qed.
(** What is read is the number itself when the text is exact. *)
Lemma read_exact P s m e : bounded prec64 emax64 m e = true ->
  (let '(D, X) := digits_of P m e in let k := X - (Z.of_nat (Nat.max P 1) - 1) in dnum D k * fden e = fnum m e * dden k) ->
  read_digits P s m e = S754_finite s m e.
Proof.
  intros Hb. unfold read_digits, digits_of. set (p := Nat.max P 1).
  pose proof (sci_spec p (fnum m e) (fden e) ltac:(unfold p; lia) (fnum_pos m e) (fden_pos e)) as HS.
  destruct (sci_digits p (fnum m e) (fden e)) as [D X]. cbv zeta in *. destruct HS as ((D1 & _) & _). intros HE. set (k := X - (Z.of_nat p - 1)) in *.
  assert (D0 : 0 < D) by (pose proof (p10_pos (Z.of_nat p - 1) ltac:(unfold p; lia)); lia). rewrite read_decimal_rat by auto. destruct prec64_ok as [P1 P2].
  pose proof (bounded_min m e Hb) as BM. pose proof (fnum_scale m e em BM ltac:(rewrite em_val; lia)) as FS. pose proof (fden_pos e) as F2. pose proof (dden_pos k) as B0.
  pose proof (p2_pos (e - em) ltac:(lia)) as W1.
  assert (EQ : dnum D k * 2 ^ (- em) = Zpos m * (dden k * 2 ^ (e - em))).
  { apply (Z.mul_reg_r _ _ (fden e)); [lia|]. replace (dnum D k * 2 ^ (- em) * fden e) with (dnum D k * fden e * 2 ^ (- em)) by ring. rewrite HE.
    replace (fnum m e * dden k * 2 ^ (- em)) with (fnum m e * 2 ^ (- em) * dden k) by ring. rewrite FS. ring. }
  assert (BP : 0 < dden k * 2 ^ (e - em)) by (apply Z.mul_pos_pos; lia).
  apply (round_rat_near prec64 emax64 P1 P2); auto; [apply dnum_pos; auto| |]; fold em; rewrite EQ.
  - rewrite Z.sub_diag. cbn [Z.abs Z.mul]. exact BP.
  - intros _. rewrite Z.sub_diag. cbn [Z.mul]. exact BP.
Qed.
Lemma read_integer P s m e n : bounded prec64 emax64 m e = true -> fnum m e = n * fden e -> 0 < n < 10 ^ Z.of_nat (Nat.max P 1) ->
  read_digits P s m e = S754_finite s m e.
Proof.
  intros Hb HE Hn. apply read_exact; auto. unfold digits_of. set (p := Nat.max P 1) in *. rewrite HE. pose proof (fden_pos e) as F2.
  destruct (sci_integer p n (fden e) ltac:(unfold p; lia) F2 Hn) as [-> D]. cbv zeta. set (d := ndigits n) in *. replace (d - 1 - (Z.of_nat p - 1)) with (d - Z.of_nat p) by lia.
  unfold dnum, dden. destruct (Z.leb_spec 0 (d - Z.of_nat p)) as [C|C].
  - replace (Z.of_nat p - d) with 0 by lia. replace (d - Z.of_nat p) with 0 by lia. change (10 ^ 0) with 1. ring.
  - replace (- (d - Z.of_nat p)) with (Z.of_nat p - d) by lia. ring.
Qed.
