(** FloatIOFacts.v: lemmas about the text of doubles. *)
From Coq Require Import ZArith Bool Lia String Ascii SpecFloat.
From Verif Require Import Mat IO IOSpec IOFacts Float FloatFacts FloatValid FloatRound FloatIO.
Local Open Scope string_scope.
Local Open Scope Z_scope.

Lemma p10_pos n : 0 <= n -> 0 < 10 ^ n.
Proof. intros. apply Z.pow_pos_nonneg; lia. Qed.
Lemma p10_S n : 0 <= n -> 10 ^ (n + 1) = 10 * 10 ^ n.
Proof. intros. rewrite Z.pow_add_r by lia. lia. Qed.

(** * Digits *)
Lemma ndig_spec fuel : forall n, 0 <= n < 2 ^ Z.of_nat fuel ->
  n < 10 ^ Z.of_nat (ndig fuel n) /\ (0 < n -> 1 <= Z.of_nat (ndig fuel n) /\ 10 ^ (Z.of_nat (ndig fuel n) - 1) <= n).
Proof.
  induction fuel as [|fuel IH]; intros n Hn.
  - cbn in *. lia.
  - cbn [ndig]. destruct (Z.eqb_spec n 0) as [->|N]; [cbn; lia|].
    assert (H10 : n = 10 * (n / 10) + n mod 10 /\ 0 <= n mod 10 < 10) by (split; [apply Z.div_mod; lia|apply Z.mod_pos_bound; lia]).
    replace (Z.of_nat (S fuel)) with (Z.of_nat fuel + 1) in Hn by lia. rewrite p2_S in Hn by lia.
    destruct (IH (n / 10)) as [B1 B2]; [lia|]. replace (Z.of_nat (S (ndig fuel (n / 10)))) with (Z.of_nat (ndig fuel (n / 10)) + 1) by lia.
    rewrite p10_S by lia. split; [lia|]. intros _. split; [lia|].
    replace (Z.of_nat (ndig fuel (n / 10)) + 1 - 1) with (Z.of_nat (ndig fuel (n / 10))) by lia.
    destruct (Z.eq_dec (n / 10) 0) as [E0|N0].
    + replace (ndig fuel (n / 10)) with O; [cbn; lia|]. rewrite E0. destruct fuel; reflexivity.
    + destruct B2 as [B2 B3]; [lia|]. set (k := Z.of_nat (ndig fuel (n / 10))) in *. replace k with (k - 1 + 1) by lia. rewrite p10_S by lia. lia.
Qed.
Lemma ndigits_spec n : 0 < n -> 1 <= ndigits n /\ 10 ^ (ndigits n - 1) <= n < 10 ^ ndigits n.
Proof.
  intros Hn. unfold ndigits. set (fuel := Z.to_nat (Z.log2_up n + 1)).
  destruct (ndig_spec fuel n) as [B1 B2]; [|destruct B2; auto; lia].
  split; [lia|]. unfold fuel. rewrite Z2Nat.id by (pose proof (Z.log2_up_nonneg n); lia).
  destruct (Z.le_gt_cases n 1) as [L|L].
  - assert (n = 1) by lia. subst n. cbn. lia.
  - pose proof (Z.log2_up_spec n ltac:(lia)) as [_ H]. rewrite p2_S by apply Z.log2_up_nonneg. lia.
Qed.
Lemma ndigits_unique n k : 1 <= k -> 10 ^ (k - 1) <= n < 10 ^ k -> ndigits n = k.
Proof.
  intros Hk [H1 H2]. pose proof (p10_pos (k - 1) ltac:(lia)). destruct (ndigits_spec n) as (D1 & D2 & D3); [lia|].
  destruct (Z.lt_trichotomy (ndigits n) k) as [L|[E|L]]; [|auto|]; exfalso.
  - assert (10 ^ ndigits n <= 10 ^ (k - 1)) by (apply Z.pow_le_mono_r; lia). lia.
  - assert (10 ^ k <= 10 ^ (ndigits n - 1)) by (apply Z.pow_le_mono_r; lia). lia.
Qed.

Lemma rne_nearest n d : 0 <= n -> 0 < d -> nearest n d (rne n d).
Proof.
  intros Hn Hd. unfold rne, nearest. pose proof (Z.div_mod n d ltac:(lia)) as E. pose proof (Z.mod_pos_bound n d Hd) as B.
  assert (Q : 0 <= n / d) by (apply Z.div_pos; lia). set (q := n / d) in *. set (r := n mod d) in *.
  replace (n - q * d) with r by lia. replace (n - (q + 1) * d) with (r - d) by lia.
  destruct (Z.compare_spec (2 * r) d) as [C|C|C].
  - destruct (Z.even q) eqn:EV.
    + replace (n - q * d) with r by lia. split; [lia|]. split; [lia|auto].
    + replace (n - (q + 1) * d) with (r - d) by lia. split; [lia|]. split; [lia|]. intros _. rewrite Z.even_add, EV. reflexivity.
  - replace (n - q * d) with r by lia. split; [lia|]. split; lia.
  - replace (n - (q + 1) * d) with (r - d) by lia. split; [lia|]. split; lia.
Qed.
Lemma nearest_le n d R k : 0 < d -> nearest n d R -> n <= k * d -> R <= k.
Proof. intros Hd (H1 & H2 & _) H. destruct (Z.le_gt_cases R k) as [|G]; [auto|exfalso]. assert ((k + 1) * d <= R * d) by (apply Z.mul_le_mono_nonneg_r; lia). lia. Qed.
Lemma nearest_ge n d R k : 0 < d -> nearest n d R -> k * d <= n -> k <= R.
Proof. intros Hd (H1 & H2 & _) H. destruct (Z.le_gt_cases k R) as [|G]; [auto|exfalso]. assert ((R + 1) * d <= k * d) by (apply Z.mul_le_mono_nonneg_r; lia). lia. Qed.

(** a/b * 10^s as a fraction. *)
Definition upto (a b s : Z) : Z * Z := if 0 <=? s then (a * 10 ^ s, b) else (a, b * 10 ^ (- s)).
Lemma upto_pos a b s : 0 < a -> 0 < b -> 0 < fst (upto a b s) /\ 0 < snd (upto a b s).
Proof. intros Ha Hb. unfold upto. destruct (Z.leb_spec 0 s); cbn [fst snd]; (split; [|]); auto; apply Z.mul_pos_pos; auto; apply p10_pos; lia. Qed.
(** X: the exponent of the leading decimal digit. *)
Definition lead (a b X : Z) : Prop :=
  forall k, let '(n, d) := upto a b (k - X) in 0 <= k -> 10 ^ k * d <= n /\ n < 10 ^ (k + 1) * d.
Lemma lead_of a b : 0 < a -> 0 < b -> lead a b (if b <=? a then ndigits (a / b) - 1 else - ndigits ((b - 1) / a)).
Proof.
  intros Ha Hb. destruct (Z.leb_spec b a) as [L|L]; intros k; unfold upto.
  - pose proof (Z.div_mod a b ltac:(lia)) as E. pose proof (Z.mod_pos_bound a b Hb) as B. set (q := a / b) in *.
    destruct (ndigits_spec q) as (N1 & N2 & N3); [nia|]. set (N := ndigits q) in *.
    destruct (Z.leb_spec 0 (k - (N - 1))) as [S|S]; intros Hk.
    + replace k with (k - (N - 1) + (N - 1)) at 1 4 by lia. replace (k - (N - 1) + (N - 1) + 1) with (k - (N - 1) + N) by lia. rewrite !(Z.pow_add_r 10 (k - (N - 1))) by lia.
      pose proof (p10_pos _ S). set (w := 10 ^ (k - (N - 1))) in *. split.
      * assert (10 ^ (N - 1) * b <= a) by nia. nia.
      * assert (a < 10 ^ N * b) by nia. nia.
    + replace (- (k - (N - 1))) with (N - 1 - k) by lia. rewrite (Z.mul_comm b), !Z.mul_assoc, <- !Z.pow_add_r by lia.
      replace (k + (N - 1 - k)) with (N - 1) by lia. replace (k + 1 + (N - 1 - k)) with N by lia. split; nia.
  - pose proof (Z.div_mod (b - 1) a ltac:(lia)) as E. pose proof (Z.mod_pos_bound (b - 1) a Ha) as B. set (q := (b - 1) / a) in *.
    destruct (ndigits_spec q) as (N1 & N2 & N3); [nia|]. set (N := ndigits q) in *.
    replace (k - - N) with (k + N) by lia. destruct (Z.leb_spec 0 (k + N)) as [S|S]; intros Hk; [|lia].
    rewrite Z.pow_add_r by lia. replace (10 ^ (k + 1)) with (10 ^ k * 10) by (rewrite p10_S by lia; lia).
    assert (E10 : 10 ^ N = 10 ^ (N - 1) * 10) by (replace N with (N - 1 + 1) at 1 by lia; rewrite p10_S by lia; lia).
    pose proof (p10_pos k Hk). set (w := 10 ^ k) in *. assert (b <= a * 10 ^ N) by nia. assert (a * 10 ^ (N - 1) < b) by nia. split; nia.
Qed.

(** * The p significant digits *)
(** A decimal D * 10^k as a fraction. *)
Definition dnum (D k : Z) : Z := if 0 <=? k then D * 10 ^ k else D.
Definition dden (k : Z) : Z := if 0 <=? k then 1 else 10 ^ (- k).
Lemma dden_pos k : 0 < dden k.
Proof. unfold dden. destruct (Z.leb_spec 0 k); [lia|apply p10_pos; lia]. Qed.
Lemma dnum_pos D k : 0 < D -> 0 < dnum D k.
Proof. intros. unfold dnum. destruct (Z.leb_spec 0 k); [apply Z.mul_pos_pos; [auto|apply p10_pos; lia]|lia]. Qed.

Lemma sci_spec p a b : (1 <= p)%nat -> 0 < a -> 0 < b -> let '(D, X) := sci_digits p a b in
  let k := X - (Z.of_nat p - 1) in
  10 ^ (Z.of_nat p - 1) <= D < 10 ^ Z.of_nat p /\
  2 * Z.abs (dnum D k * b - a * dden k) * 10 ^ (Z.of_nat p - 1) <= a * dden k.
Proof.
  intros Hp Ha Hb. unfold sci_digits. pose proof (lead_of a b Ha Hb (Z.of_nat p - 1)) as HL. set (X := if b <=? a then _ else _) in *.
  set (P := Z.of_nat p) in *. assert (P1 : 1 <= P) by (unfold P; lia). clearbody P X. clear Hp p.
  assert (W : P - 1 + 1 = P) by lia. rewrite W in HL. clear W.
  assert (HS : forall D X', D * 10 ^ (X' - X) = (if 0 <=? P - 1 - X then rne (a * 10 ^ (P - 1 - X)) b else rne a (b * 10 ^ (- (P - 1 - X)))) -> 0 <= X' - X ->
     2 * Z.abs (dnum D (X' - (P - 1)) * b - a * dden (X' - (P - 1))) * 10 ^ (P - 1) <= a * dden (X' - (P - 1))).
  { intros D X' ED HX. pose proof (p10_pos (P - 1) ltac:(lia)) as T0. unfold upto in HL.
    destruct (Z.leb_spec 0 (P - 1 - X)) as [S|S].
    - destruct HL as [L1 _]; [lia|]. set (s := P - 1 - X) in *. pose proof (p10_pos s S) as T1.
      pose proof (rne_nearest (a * 10 ^ s) b ltac:(nia) Hb) as (_ & N2 & _). rewrite <- ED in N2.
      unfold dnum, dden. destruct (Z.leb_spec 0 (X' - (P - 1))) as [K|K].
      + (* more digits than decimals *)
        replace (X' - X) with (s + (X' - (P - 1))) in N2 by (unfold s; lia). rewrite Z.pow_add_r in N2 by lia.
        set (u := 10 ^ (X' - (P - 1))) in *. set (w := 10 ^ s) in *. set (v := 10 ^ (P - 1)) in *.
        assert (H : 2 * Z.abs (D * u * b - a) * w <= b).
        { replace (2 * Z.abs (D * u * b - a) * w) with (2 * Z.abs (a * w - D * (w * u) * b)); [exact N2|].
          replace (a * w - D * (w * u) * b) with (- ((D * u * b - a) * w)) by ring. rewrite Z.abs_opp, Z.abs_mul, (Z.abs_eq w) by lia. ring. }
        rewrite !Z.mul_1_r. set (z := Z.abs (D * u * b - a)) in *. assert (0 <= z) by (unfold z; lia).
        assert (v * (2 * z * w) <= v * b) by (apply Z.mul_le_mono_nonneg_l; lia).
        assert ((2 * z * v) * w <= a * w) by (replace (2 * z * v * w) with (v * (2 * z * w)) by ring; lia).
        apply (Z.mul_le_mono_pos_r _ _ w); auto.
      + replace s with (X' - X + (- (X' - (P - 1)))) in N2, L1 by (unfold s; lia). rewrite Z.pow_add_r in N2, L1 by lia.
        pose proof (p10_pos (X' - X) HX) as T2. set (u := 10 ^ (X' - X)) in *. set (w := 10 ^ (- (X' - (P - 1)))) in *. set (v := 10 ^ (P - 1)) in *.
        assert (H : 2 * Z.abs (D * b - a * w) * u <= b).
        { replace (2 * Z.abs (D * b - a * w) * u) with (2 * Z.abs (a * (u * w) - D * u * b)); [exact N2|].
          replace (a * (u * w) - D * u * b) with (- ((D * b - a * w) * u)) by ring. rewrite Z.abs_opp, Z.abs_mul, (Z.abs_eq u) by lia. ring. }
        set (z := Z.abs (D * b - a * w)) in *. assert (v * (2 * z * u) <= v * b) by (apply Z.mul_le_mono_nonneg_l; lia).
        apply (Z.mul_le_mono_pos_r _ _ u); auto. replace (2 * z * v * u) with (v * (2 * z * u)) by ring. replace (a * w * u) with (a * (u * w)) by ring. lia.
    - destruct HL as [L1 _]; [lia|]. replace (- (P - 1 - X)) with (X - (P - 1)) in * by lia. pose proof (p10_pos (X - (P - 1)) ltac:(lia)) as T1.
      pose proof (rne_nearest a (b * 10 ^ (X - (P - 1))) ltac:(lia) ltac:(nia)) as (_ & N2 & _). rewrite <- ED in N2.
      unfold dnum, dden. destruct (Z.leb_spec 0 (X' - (P - 1))) as [K|K]; [|lia].
      assert (E1 : D * 10 ^ (X' - X) * (b * 10 ^ (X - (P - 1))) = D * 10 ^ (X' - (P - 1)) * b).
      { replace (X' - (P - 1)) with (X' - X + (X - (P - 1))) by lia. rewrite Z.pow_add_r by lia. ring. }
      rewrite E1 in N2. set (u := 10 ^ (X - (P - 1))) in *. set (v := 10 ^ (P - 1)) in *. rewrite !Z.mul_1_r.
      set (y := D * 10 ^ (X' - (P - 1)) * b) in *. assert (v * (2 * Z.abs (a - y)) <= v * (b * u)) by (apply Z.mul_le_mono_nonneg_l; lia).
      replace (Z.abs (y - a)) with (Z.abs (a - y)) by lia. lia. }
  assert (HD : 10 ^ (P - 1) <= (if 0 <=? P - 1 - X then rne (a * 10 ^ (P - 1 - X)) b else rne a (b * 10 ^ (- (P - 1 - X)))) <= 10 ^ P).
  { unfold upto in HL. destruct (Z.leb_spec 0 (P - 1 - X)) as [S|S]; (destruct HL as [L1 L2]; [lia|]).
    - pose proof (p10_pos _ S). split; [eapply nearest_ge|eapply nearest_le]; try apply rne_nearest; try eassumption; try lia; nia.
    - pose proof (p10_pos (- (P - 1 - X)) ltac:(lia)).
      split; [eapply (nearest_ge _ (b * 10 ^ (- (P - 1 - X))))|eapply (nearest_le _ (b * 10 ^ (- (P - 1 - X))))]; try apply rne_nearest; try eassumption; try lia; nia. }
  set (D := if 0 <=? P - 1 - X then _ else _) in *. pose proof (p10_pos (P - 1) ltac:(lia)) as T0.
  assert (T1 : 10 ^ P = 10 * 10 ^ (P - 1)) by (replace P with (P - 1 + 1) at 1 by lia; apply p10_S; lia).
  destruct (Z.eqb_spec D (10 ^ P)) as [E|N]; cbv zeta.
  - split; [lia|]. apply HS; [|lia]. replace (X + 1 - X) with 1 by lia. change (10 ^ 1) with 10. lia.
  - split; [lia|]. apply HS; [|lia]. replace (X - X) with 0 by lia. change (10 ^ 0) with 1. lia.
Qed.

(** * Reading a decimal *)
Lemma prec64_ok : 0 < prec64 /\ 3 - emax64 - prec64 <= 0. Proof. unfold prec64, emax64. lia. Qed.
Lemma read_decimal_rat neg D k : 0 < D -> read_decimal neg D k = round_rat prec64 emax64 neg (dnum D k) (dden k).
Proof. intros H. unfold read_decimal, dnum, dden. destruct (Z.eqb_spec D 0); [lia|]. destruct (0 <=? k); reflexivity. Qed.
Lemma dec_ratio D k j : 0 <= j -> dnum (D * 10 ^ j) k * dden (k + j) = dnum D (k + j) * dden k.
Proof.
  intros Hj. unfold dnum, dden. destruct (Z.leb_spec 0 k) as [K|K], (Z.leb_spec 0 (k + j)) as [K2|K2]; try lia.
  - rewrite Z.pow_add_r by lia. ring.
  - rewrite Z.mul_1_r, <- Z.mul_assoc, <- Z.pow_add_r by lia. f_equal. f_equal. lia.
  - rewrite <- Z.mul_assoc, <- Z.pow_add_r by lia. f_equal. f_equal. lia.
Qed.
Lemma read_decimal_shift neg D k j : 0 <= D -> 0 <= j -> read_decimal neg (D * 10 ^ j) k = read_decimal neg D (k + j).
Proof.
  intros HD Hj. pose proof (p10_pos j Hj) as Pj. destruct (Z.eq_dec D 0) as [->|N]; [reflexivity|].
  rewrite !read_decimal_rat by lia. destruct prec64_ok as [P1 P2].
  pose proof (dden_pos k). pose proof (dden_pos (k + j)).
  rewrite <- (round_rat_scale prec64 emax64 P1 P2 neg (dnum (D * 10 ^ j) k) (dden k) (dden (k + j))) by (auto; apply dnum_pos; lia).
  rewrite <- (round_rat_scale prec64 emax64 P1 P2 neg (dnum D (k + j)) (dden (k + j)) (dden k)) by (auto; apply dnum_pos; lia).
  rewrite dec_ratio by auto. f_equal. ring.
Qed.

(** * Text *)
Definition wsnext (t : string) : Prop := exists c t', t = String c t' /\ isspace c = true.
Lemma ws_char c : isspace c = true -> digit c = None /\ Ascii.eqb c "." = false /\ Ascii.eqb c "e" = false /\ Ascii.eqb c "E" = false.
Proof.
  unfold isspace, digit. intros H. set (n := nat_of_ascii c) in *.
  assert (N : (n = 32 \/ 9 <= n <= 13)%nat).
  { apply orb_true_iff in H. destruct H as [H|H]; [left; now apply Nat.eqb_eq|right]. apply andb_true_iff in H. destruct H as [H1 H2]. apply Nat.leb_le in H1, H2. lia. }
  split; [|repeat split; apply Ascii.eqb_neq; intros ->; cbv in n; lia].
  destruct ((48 <=? n)%nat && (n <=? 57)%nat) eqn:E; [|reflexivity]. apply andb_true_iff in E. destruct E as [E1 E2]. apply Nat.leb_le in E1, E2. lia.
Qed.
Lemma digit_of_char d : 0 <= d < 10 -> digit (digit_char d) = Some (Z.to_N d).
Proof.
  intros H. assert (C : d = 0 \/ d = 1 \/ d = 2 \/ d = 3 \/ d = 4 \/ d = 5 \/ d = 6 \/ d = 7 \/ d = 8 \/ d = 9) by lia.
  repeat (destruct C as [->|C]; [reflexivity|]). subst d. reflexivity.
Qed.
Lemma length_pad f : forall d, String.length (pad f d) = f.
Proof. induction f as [|f IH]; intros d; cbn; [reflexivity|]. now rewrite IH. Qed.
Lemma scan_pad f : forall d acc any t, 0 <= d < 10 ^ Z.of_nat f -> nodigit t ->
  scan (pad f d ++ t) acc any = ((acc * Z.to_N (10 ^ Z.of_nat f) + Z.to_N d)%N, any || negb (f =? 0)%nat, t).
Proof.
  induction f as [|f IH]; intros d acc any t Hd Ht.
  - cbn in Hd. assert (d = 0) by lia. subst d. cbn [pad String.append Nat.eqb negb]. rewrite orb_false_r.
    destruct t as [|c t]; [contradiction|]. cbn in Ht |- *. rewrite Ht. f_equal. f_equal. lia.
  - cbn [pad String.append scan Nat.eqb negb]. replace (Z.of_nat (S f)) with (Z.of_nat f + 1) in * by lia. rewrite p10_S in * by lia.
    pose proof (p10_pos (Z.of_nat f) ltac:(lia)) as P. set (w := 10 ^ Z.of_nat f) in *.
    pose proof (Z.div_mod d w ltac:(lia)) as E. pose proof (Z.mod_pos_bound d w P) as B.
    assert (B1 : 0 <= d / w < 10) by (split; [apply Z.div_pos; lia|apply Z.div_lt_upper_bound; lia]).
    rewrite digit_of_char by auto. rewrite IH by auto. rewrite orb_true_r, orb_true_l. f_equal. f_equal.
    apply N2Z.inj. rewrite !N2Z.inj_add, !N2Z.inj_mul, !N2Z.inj_add, !N2Z.inj_mul, !Z2N.id by lia. cbn [Z.of_N]. lia.
Qed.
Lemma scan_show n t : nodigit t -> scan (show_N n ++ t) 0 false = (n, true, t).
Proof. intros Ht. unfold show_N. rewrite scan_z by auto. rewrite DecimalN.Unsigned.of_to. reflexivity. Qed.

Lemma strip_spec f : forall d, 0 <= d -> exists j, (fst (strip f d) + j = f)%nat /\ d = snd (strip f d) * 10 ^ Z.of_nat j /\ 0 <= snd (strip f d).
Proof.
  induction f as [|f IH]; intros d Hd.
  - exists O. cbn. lia.
  - cbn [strip]. destruct (Z.eqb_spec (d mod 10) 0) as [E|N].
    + destruct (IH (d / 10)) as (j & E1 & E2 & E3); [apply Z.div_pos; lia|]. exists (S j). split; [lia|]. split; [|auto].
      replace (Z.of_nat (S j)) with (Z.of_nat j + 1) by lia. rewrite p10_S by lia. pose proof (Z.div_mod d 10 ltac:(lia)). lia.
    + exists O. cbn [fst snd]. change (10 ^ Z.of_nat 0) with 1. lia.
Qed.

(** What follows the digits of the integer part. *)
Definition tail_ok (t : string) : Prop := match t with "" => False | String c _ => digit c = None /\ Ascii.eqb c "." = false end.
Lemma ws_tail t : wsnext t -> tail_ok t.
Proof. intros (c & t' & -> & H). cbn. destruct (ws_char c H) as (H1 & H2 & _). auto. Qed.
Lemma tail_nodigit t : tail_ok t -> nodigit t.
Proof. destruct t; cbn; tauto. Qed.
Definition scan_point (t1 : string) : N * bool * string * Z :=
  let '(n1, any1, t2) := scan t1 0 false in
  match t2 with
  | String c t2' =>
      if Ascii.eqb c "." then let '(n, any, t3) := scan t2' n1 any1 in (n, any, t3, Z.of_nat (String.length t2' - String.length t3))
      else (n1, any1, t2, 0)
  | "" => (n1, any1, t2, 0)
  end.
Lemma point_head fd : exists c s, point fd = String c s /\ is_digit c.
Proof.
  destruct fd as [f d]. unfold point, show_N. destruct (uint_head (N.to_uint (Z.to_N (d / 10 ^ Z.of_nat f)))) as (c & s & -> & H).
  cbn [String.append]. eauto.
Qed.
Lemma scan_point_ok f d t : 0 <= d -> tail_ok t -> scan_point (point (f, d) ++ t) = (Z.to_N d, true, t, Z.of_nat f).
Proof.
  intros Hd Ht. unfold point, scan_point. pose proof (p10_pos (Z.of_nat f) ltac:(lia)) as P. pose proof (Z.div_mod d (10 ^ Z.of_nat f) ltac:(lia)) as E.
  pose proof (Z.mod_pos_bound d (10 ^ Z.of_nat f) P) as B. assert (Q : 0 <= d / 10 ^ Z.of_nat f) by (apply Z.div_pos; lia).
  rewrite app_assoc_s. destruct f as [|f].
  - cbn [String.append]. rewrite scan_show by (now apply tail_nodigit). change (10 ^ Z.of_nat 0) with 1. rewrite Z.div_1_r.
    destruct t as [|c t]; [contradiction|]. cbn in Ht. destruct Ht as [_ ->]. reflexivity.
  - set (f' := S f) in *. rewrite app_assoc_s. cbn [String.append]. rewrite scan_show by reflexivity. cbv beta iota zeta.
    change (Ascii.eqb "." ".") with true. cbv beta iota zeta. rewrite scan_pad by (auto; now apply tail_nodigit). cbv beta iota zeta.
    rewrite length_app_s, length_pad. rewrite orb_true_l. f_equal; [|lia]. f_equal. f_equal.
    apply N2Z.inj. rewrite N2Z.inj_add, N2Z.inj_mul, !Z2N.id by lia. lia.
Qed.
Lemma scan_exp_none t : wsnext t -> scan_exp t = (Some 0, t).
Proof. intros (c & t' & -> & H). destruct (ws_char c H) as (_ & _ & H1 & H2). cbn. rewrite H1, H2. reflexivity. Qed.
Lemma scan_exp_ok X t : wsnext t -> scan_exp (show_exp X ++ t) = (Some X, t).
Proof.
  intros Ht. assert (Hn : nodigit t) by (apply tail_nodigit, ws_tail; auto).
  assert (Z0 : forall u : string, scan (String "0" u) 0 false = scan u 0 true) by reflexivity.
  assert (ST : forall n u, nodigit u -> scan (show_N n ++ u) 0 true = (n, true, u)).
  { intros n u Hu. pose proof (scan_show n u Hu) as HS. unfold show_N in *. destruct (uint_head (N.to_uint n)) as (c & r & EU & Hc).
    rewrite EU in *. cbn [String.append scan] in *. unfold is_digit in Hc. destruct (digit c); [exact HS|contradiction]. }
  assert (SX : scan ((if Z.abs X <? 10 then "0" else "") ++ show_N (Z.to_N (Z.abs X)) ++ t) 0 false = (Z.to_N (Z.abs X), true, t)).
  { destruct (Z.abs X <? 10); cbn [String.append]; [rewrite Z0; now apply ST|now apply scan_show]. }
  unfold show_exp. rewrite !app_assoc_s. destruct (Z.ltb_spec X 0) as [L|L]; cbn [String.append scan_exp scan_sign].
  - change (Ascii.eqb "e" "e" || Ascii.eqb "e" "E") with true. change (Ascii.eqb "-" "-") with true. cbv iota. rewrite SX. cbv iota. f_equal. f_equal. rewrite Z2N.id; lia.
  - change (Ascii.eqb "e" "e" || Ascii.eqb "e" "E") with true. change (Ascii.eqb "+" "-") with false. change (Ascii.eqb "+" "+") with true. cbv iota. rewrite SX. cbv iota. f_equal. f_equal. rewrite Z2N.id; lia.
Qed.

(** Reading a double: the value or, when it overflows, the largest double and failbit. *)
Definition read_result (y : double) (t : string) : option double * istream :=
  match y with S754_infinity b => (Some (max_double b), mkIn t true false) | y => (Some y, good t) end.
Lemma get_double_body w plus s f d X t ex : blank w -> wsnext t -> 0 <= d ->
  (ex = "" /\ X = 0 \/ ex = show_exp X) ->
  get_double (good (w ++ show_sign plus s ++ point (f, d) ++ ex ++ t)) = read_result (read_decimal s d (X - Z.of_nat f)) t.
Proof.
  intros Hw Ht Hd Hex. assert (TE : tail_ok (ex ++ t)).
  { destruct Hex as [[-> _]| ->]; [now apply ws_tail|]. unfold show_exp. destruct (X <? 0); cbn; auto. }
  assert (SE : scan_exp (ex ++ t) = (Some X, t)) by (destruct Hex as [[-> ->]| ->]; [now apply scan_exp_none|now apply scan_exp_ok]).
  assert (TN : String.eqb t "" = false) by (destruct Ht as (c & t' & -> & _); reflexivity).
  pose proof (scan_point_ok f d (ex ++ t) Hd TE) as SP. destruct (point_head (f, d)) as (c & r & EP & Hc). destruct (digit_head c Hc) as (C1 & C2 & C3).
  assert (G : exists c0 r0, show_sign plus s ++ point (f, d) ++ ex ++ t = String c0 r0 /\ isspace c0 = false /\ scan_sign (String c0 r0) = (s, point (f, d) ++ ex ++ t)).
  { unfold show_sign. destruct s; [|destruct plus].
    - exists "-"%char, (point (f, d) ++ ex ++ t). auto.
    - exists "+"%char, (point (f, d) ++ ex ++ t). auto.
    - exists c, (r ++ ex ++ t). rewrite EP. cbn [String.append]. split; [reflexivity|]. split; [auto|]. cbn [scan_sign]. rewrite C2, C3. reflexivity. }
  destruct G as (c0 & r0 & -> & G1 & G2). unfold get_double. rewrite sentry_at by auto. cbv beta iota zeta. rewrite G2. cbv beta iota zeta.
  unfold scan_point in SP. destruct (scan (point (f, d) ++ ex ++ t) 0 false) as [[n1 any1] t2]. rewrite SP. cbv beta iota zeta. cbn [negb].
  rewrite SE. cbv beta iota zeta. rewrite TN, Z2N.id by auto. unfold read_result. destruct (read_decimal s d (X - Z.of_nat f)); reflexivity.
Qed.
Lemma get_double_digits w plus s p D X t : blank w -> wsnext t -> (1 <= p)%nat -> 0 <= D ->
  get_double (good (w ++ show_sign plus s ++ show_digits p (D, X) ++ t)) = read_result (read_decimal s D (X - (Z.of_nat p - 1))) t.
Proof.
  intros Hw Ht Hp HD. unfold show_digits. destruct ((-4 <=? X) && (X <? Z.of_nat p)) eqn:EX.
  - apply andb_true_iff in EX. destruct EX as [_ EX]. apply Z.ltb_lt in EX. set (f := Z.to_nat (Z.of_nat p - 1 - X)).
    destruct (strip_spec f D HD) as (j & E1 & E2 & E3). destruct (strip f D) as [f' d'] eqn:ES. cbn [fst snd] in *.
    pose proof (get_double_body w plus s f' d' 0 t "" Hw Ht E3 ltac:(auto)) as G. cbn [String.append] in G. rewrite G. f_equal. rewrite E2, read_decimal_shift by lia. f_equal. unfold f in E1. lia.
  - destruct (strip_spec (p - 1) D HD) as (j & E1 & E2 & E3). destruct (strip (p - 1) D) as [f' d'] eqn:ES. cbn [fst snd] in *.
    rewrite app_assoc_s. rewrite (get_double_body w plus s f' d' X t (show_exp X)) by auto. f_equal. rewrite E2, read_decimal_shift by lia. f_equal. lia.
Qed.

(** * Doubles *)
Lemma fden_pos e : 0 < fden e. Proof. unfold fden. destruct (Z.leb_spec 0 e); [lia|apply p2_pos; lia]. Qed.
Lemma fnum_pos m e : 0 < fnum m e. Proof. unfold fnum. destruct (Z.leb_spec 0 e); [pose proof (p2_pos e); lia|lia]. Qed.
Lemma fnum_scale m e k : k <= e -> k <= 0 -> fnum m e * 2 ^ (- k) = Zpos m * 2 ^ (e - k) * fden e.
Proof.
  intros H H0. unfold fnum, fden. destruct (Z.leb_spec 0 e) as [L|L].
  - rewrite Z.mul_1_r, <- Z.mul_assoc, <- Z.pow_add_r by lia. reflexivity.
  - rewrite <- Z.mul_assoc, <- Z.pow_add_r by lia. f_equal. f_equal. lia.
Qed.
(** 17 significant digits determine the double. *)
Lemma read_17 s m e p : (17 <= p)%nat -> bounded prec64 emax64 m e = true ->
  let '(D, X) := sci_digits p (fnum m e) (fden e) in read_decimal s D (X - (Z.of_nat p - 1)) = S754_finite s m e.
Proof.
  intros Hp Hb. pose proof (sci_spec p (fnum m e) (fden e) ltac:(lia) (fnum_pos m e) (fden_pos e)) as HS.
  destruct (sci_digits p (fnum m e) (fden e)) as [D X]. cbv zeta in HS. destruct HS as ((D1 & _) & HC).
  set (k := X - (Z.of_nat p - 1)) in *. assert (D0 : 0 < D) by (pose proof (p10_pos (Z.of_nat p - 1)); lia).
  rewrite read_decimal_rat by auto. destruct prec64_ok as [P1 P2].
  assert (HX : emin prec64 emax64 <= e).
  { unfold bounded, canonical_mantissa in Hb. apply andb_true_iff in Hb. destruct Hb as [Hc _]. apply Zeq_bool_eq in Hc. rewrite <- Hc. apply fexp_ge. }
  assert (HM : Zpos m < 2 ^ 53).
  { unfold bounded, canonical_mantissa in Hb. apply andb_true_iff in Hb. destruct Hb as [Hc _]. apply Zeq_bool_eq in Hc.
    pose proof (digits_bounds m) as [_ B]. set (d := Zpos (digits2_pos m)) in *. assert (d <= 53) by (unfold fexp, prec64, emax64, emin in *; lia).
    assert (2 ^ d <= 2 ^ 53) by (apply Z.pow_le_mono_r; lia). lia. }
  pose proof (dnum_pos D k D0) as N0. pose proof (dden_pos k) as N1.
  set (em := emin prec64 emax64) in *. assert (EM0 : em <= 0) by (unfold em, emin, emax64, prec64; lia).
  pose proof (fnum_scale m e em HX EM0) as FS. pose proof (fden_pos e) as F1. pose proof (p2_pos (- em) ltac:(lia)) as W0. pose proof (p2_pos (e - em) ltac:(lia)) as W1.
  set (a := fnum m e) in *. set (b := fden e) in *. set (da := dnum D k) in *. set (db := dden k) in *. set (v := 10 ^ (Z.of_nat p - 1)) in *.
  assert (V : 10 ^ 16 <= v) by (unfold v; apply Z.pow_le_mono_r; lia).
  set (w := 2 ^ (- em)) in *. set (u := 2 ^ (e - em)) in *.
  (* 2 |A - m B| * v <= m B, where A = da * w and B = db * u *)
  assert (K : 2 * Z.abs (da * w - Zpos m * (db * u)) * v <= Zpos m * (db * u)).
  { apply (Z.mul_le_mono_pos_r _ _ b); auto.
    replace (2 * Z.abs (da * w - Zpos m * (db * u)) * v * b) with (2 * Z.abs (da * b - a * db) * v * w).
    - replace (Zpos m * (db * u) * b) with (a * db * w); [apply Z.mul_le_mono_nonneg_r; [lia|exact HC]|].
      replace (Zpos m * (db * u) * b) with (Zpos m * u * b * db) by ring. rewrite <- FS. ring.
    - assert (EE : Z.abs (da * b - a * db) * w = Z.abs (da * w - Zpos m * (db * u)) * b).
      { rewrite <- (Z.abs_eq w) at 1 by lia. rewrite <- (Z.abs_eq b) at 2 by lia. rewrite <- !Z.abs_mul. f_equal.
        replace ((da * w - Zpos m * (db * u)) * b) with (da * w * b - db * (Zpos m * u * b)) by ring. rewrite <- FS. ring. }
      replace (2 * Z.abs (da * b - a * db) * v * w) with (2 * v * (Z.abs (da * b - a * db) * w)) by ring. rewrite EE. ring. }
  apply (round_rat_near prec64 emax64 P1 P2); auto; fold em; fold w; fold u.
  - set (B := db * u) in *. assert (B0 : 0 < B) by (unfold B; apply Z.mul_pos_pos; lia). set (z := Z.abs (da * w - Zpos m * B)) in *.
    assert (Z0 : 0 <= z) by (unfold z; lia). clearbody z B. clear - K V HM B0 Z0.
    destruct (Z.lt_ge_cases (2 * z) B) as [|G]; [auto|exfalso].
    assert (B * 10 ^ 16 <= 2 * z * v) by (apply Z.mul_le_mono_nonneg; lia).
    assert (Zpos m * B <= 2 ^ 53 * B) by (apply Z.mul_le_mono_nonneg_r; lia). lia.
  - intros PM. set (B := db * u) in *. assert (B0 : 0 < B) by (unfold B; apply Z.mul_pos_pos; lia). set (z := Z.abs (da * w - Zpos m * B)) in *.
    assert (Z0 : 0 <= z) by (unfold z; lia). assert (ZZ : Zpos m * B - da * w <= z) by (unfold z; lia).
    assert (4 * z < B); [|lia]. change (2 ^ (prec64 - 1)) with (2 ^ 52) in PM. clearbody z B. clear - K V PM B0 Z0.
    destruct (Z.lt_ge_cases (4 * z) B) as [|G]; [auto|exfalso].
    assert (B * 10 ^ 16 <= 4 * z * v) by (apply Z.mul_le_mono_nonneg; lia). rewrite PM in K. lia.
Qed.
