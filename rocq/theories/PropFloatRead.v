(** PropFloatRead.v: C88, which double a decimal text is read as. *)
From Coq Require Import ZArith QArith Qabs Qpower Bool Lia Lqa String Ascii SpecFloat.
From Verif Require Import MatFacts PropMatrix IO IOSpec IOFacts PropIO Float FloatFacts FloatValid FloatRound FloatIO FloatIOFacts FloatIOFacts2 FileFacts PropFloat PropFloatIO FloatArith FloatSum PropFloatSum.
Local Open Scope string_scope.
Local Open Scope Z_scope.

(** * Specification: decimal numbers *)
Fixpoint numeral (s : string) : Prop :=
  match s with "" => True | String c s => (48 <= nat_of_ascii c <= 57)%nat /\ numeral s end.
(** The number that a numeral stands for. *)
Fixpoint num (s : string) : Z :=
  match s with "" => 0 | String c s => Z.of_nat (nat_of_ascii c - 48) * 10 ^ Z.of_nat (String.length s) + num s end.
(** An optional sign, and whether it is a minus. *)
Definition sign_text (neg : bool) (s : string) : Prop := if neg then s = "-" else s = "" \/ s = "+".
(** The decimals after an optional point. *)
Definition frac_text (F s : string) : Prop := s = "." ++ F \/ (F = "" /\ s = "").
(** An optional exponent. *)
Definition exp_text (X : Z) (s : string) : Prop :=
  (s = "" /\ X = 0) \/ exists c neg g E, (c = "e"%char \/ c = "E"%char) /\ sign_text neg g /\ numeral E /\ E <> "" /\
    s = String c (g ++ E) /\ X = (if neg then - num E else num E).
(** The text after the number: none, or one that does not continue it. *)
Definition ends (t : string) : Prop :=
  match t with "" => True | String c _ => ~ (48 <= nat_of_ascii c <= 57)%nat /\ c <> "."%char /\ c <> "e"%char /\ c <> "E"%char end.
Definition signed (neg : bool) (q : Q) : Q := if neg then (- q)%Q else q.
Definition negative (x : double) : bool := match x with S754_zero s | S754_infinity s | S754_finite s _ _ => s | S754_nan => false end.
(** The largest double, (2^53 - 1) 2^971. *)
Definition largest : Q := (2 ^ 1024 - 2 ^ 971)%Q.

(** * Scanning *)
Definition stops (t : string) : Prop := match t with "" => True | String c _ => digit c = None end.
Lemma digit_some c : (48 <= nat_of_ascii c <= 57)%nat -> digit c = Some (N.of_nat (nat_of_ascii c - 48)).
Proof. intros [H1 H2]. unfold digit. apply Nat.leb_le in H1, H2. rewrite H1, H2. reflexivity. Qed.
Lemma digit_none c : ~ (48 <= nat_of_ascii c <= 57)%nat -> digit c = None.
Proof. intros H. unfold digit. destruct (Nat.leb_spec 48 (nat_of_ascii c)), (Nat.leb_spec (nat_of_ascii c) 57); cbn; auto; exfalso; apply H; lia. Qed.
Lemma num_nonneg s : 0 <= num s.
Proof. induction s as [|c s IH]; cbn [num]; [lia|]. pose proof (p10_pos (Z.of_nat (String.length s))). assert (0 <= Z.of_nat (nat_of_ascii c - 48) * 10 ^ Z.of_nat (String.length s)) by (apply Z.mul_nonneg_nonneg; lia). lia. Qed.
Lemma scan_numeral s : forall t acc any, numeral s -> stops t ->
  scan (s ++ t) acc any = (Z.to_N (Z.of_N acc * 10 ^ Z.of_nat (String.length s) + num s), any || negb (String.eqb s ""), t).
Proof.
  induction s as [|c s IH]; intros t acc any Hs Ht.
  - cbn [String.append String.length num]. change (10 ^ Z.of_nat 0) with 1. rewrite Z.mul_1_r, Z.add_0_r, N2Z.id. cbn [String.eqb negb]. rewrite orb_false_r.
    destruct t as [|c t]; [reflexivity|]. cbn in Ht |- *. rewrite Ht. reflexivity.
  - destruct Hs as [Hc Hs]. cbn [String.append scan]. rewrite (digit_some c Hc), IH by auto. cbn [String.eqb negb]. rewrite orb_true_r. cbn [orb].
    f_equal. f_equal. f_equal. cbn [num String.length]. rewrite Nat2Z.inj_succ, Z.pow_succ_r by lia. rewrite N2Z.inj_add, N2Z.inj_mul, nat_N_Z. change (Z.of_N 10) with 10. ring.
Qed.
Lemma num_app a b : num (a ++ b) = num a * 10 ^ Z.of_nat (String.length b) + num b.
Proof. induction a as [|c a IH]; cbn [String.append num]; [reflexivity|]. rewrite IH, length_app_s, Nat2Z.inj_add, Z.pow_add_r by lia. ring. Qed.
Lemma eqb_c c d : c <> d -> Ascii.eqb c d = false. Proof. apply Ascii.eqb_neq. Qed.
Lemma scan_exp_text X ex t : exp_text X ex -> ends t -> scan_exp (ex ++ t) = (Some X, t).
Proof.
  assert (ST : forall t, ends t -> stops t) by (intros [|c u]; cbn; auto; intros [H _]; now apply digit_none).
  intros [[-> ->]|(c & neg & g & E & Hc & Hg & HE & NE & -> & ->)] Ht.
  - cbn [String.append]. destruct t as [|c u]; [reflexivity|]. destruct Ht as (_ & _ & H1 & H2). cbn [scan_exp]. rewrite (eqb_c c "e" H1), (eqb_c c "E" H2). reflexivity.
  - cbn [String.append scan_exp]. replace (Ascii.eqb c "e" || Ascii.eqb c "E") with true by (destruct Hc as [-> | ->]; reflexivity).
    assert (SS : scan_sign ((g ++ E) ++ t) = (neg, E ++ t)).
    { rewrite app_assoc_s. destruct neg; cbn [sign_text] in Hg; [rewrite Hg; reflexivity|]. destruct Hg as [-> | ->]; [|reflexivity]. cbn [String.append].
      destruct E as [|d E]; [congruence|]. destruct HE as [Hd _]. assert (D : is_digit d) by (unfold is_digit; rewrite digit_some by auto; discriminate).
      destruct (digit_head d D) as (_ & H1 & H2). cbn [String.append scan_sign]. rewrite H1, H2. reflexivity. }
    rewrite SS. rewrite (scan_numeral E t 0 false HE (ST t Ht)). cbv beta iota zeta.
    assert (NN : String.eqb E "" = false) by (apply String.eqb_neq; auto). rewrite NN. cbn [orb negb]. f_equal. f_equal.
    change (Z.of_N 0) with 0. rewrite Z.mul_0_l, Z.add_0_l, Z2N.id by apply num_nonneg. reflexivity.
Qed.
Lemma exp_stops X ex t : exp_text X ex -> ends t -> stops (ex ++ t).
Proof.
  intros [[-> _]|(c & neg & g & E & Hc & _ & _ & _ & -> & _)] Ht; cbn [String.append].
  - destruct t as [|c u]; cbn; auto. destruct Ht as [H _]. now apply digit_none.
  - destruct Hc as [-> | ->]; reflexivity.
Qed.
Lemma exp_nopoint X ex t : exp_text X ex -> ends t -> match ex ++ t with String c _ => Ascii.eqb c "." = false | "" => True end.
Proof.
  intros [[-> _]|(c & neg & g & E & Hc & _ & _ & _ & -> & _)] Ht; cbn [String.append].
  - destruct t as [|c u]; cbn; auto. destruct Ht as (_ & H & _). now apply eqb_c.
  - destruct Hc as [-> | ->]; reflexivity.
Qed.

(** * The value *)
Lemma decimal_value neg D k : 0 <= D -> (signed neg (inject_Z D * 10 ^ k) == sg neg (dnum D k) # Z.to_pos (dden k))%Q.
Proof.
  intros HD. assert (X : (inject_Z D * 10 ^ k == dnum D k # Z.to_pos (dden k))%Q).
  { etransitivity; [|symmetry; apply inject_frac]. rewrite Z2Pos.id by apply dden_pos. unfold dnum, dden. change 10%Q with (inject_Z 10). destruct (Z.leb_spec 0 k) as [L|L].
    - rewrite <- Zpower_Qpower, inject_Z_mult by auto. change (inject_Z 1) with 1%Q. field.
    - replace k with (- (- k)) at 1 by lia. rewrite Qpower_opp, <- Zpower_Qpower by lia. reflexivity. }
  destruct neg; cbn [signed sg]; [|exact X]. rewrite X. reflexivity.
Qed.
Lemma read_decimal_correct neg D k : 0 <= D ->
  let q := signed neg (inject_Z D * 10 ^ k) in let y := read_decimal neg D k in
  negative y = neg /\ ((nearest_double q y /\ (Qabs q < limit)%Q) \/ (y = inf neg /\ (limit <= Qabs q)%Q)).
Proof.
  intros HD. cbv zeta. destruct (Z.eq_dec D 0) as [->|ND].
  { assert (Q0 : (signed neg (inject_Z 0 * 10 ^ k) == 0)%Q) by (destruct neg; cbn [signed]; change (inject_Z 0) with 0%Q; ring).
    split; [reflexivity|]. left. split; [|rewrite Q0; reflexivity]. split; [reflexivity|]. split; [exact I|].
    intros z _ _. rewrite Q0. change (dval (read_decimal neg 0 k)) with 0%Q. change (Qabs (0 - 0)) with 0%Q. apply Qabs_nonneg. }
  assert (D0 : 0 < D) by lia. rewrite read_decimal_rat by auto. pose proof (dnum_pos D k D0) as A0. pose proof (dden_pos k) as B0.
  set (a := dnum D k) in *. set (b := dden k) in *.
  destruct fmt2 as [P1 P3], fmt3 as [P4 P5], prec64_ok as [_ P6].
  pose proof (round_rat_valid prec64 emax64 P1 P6 neg a b A0 B0) as HV.
  assert (Q1 : (signed neg (inject_Z D * 10 ^ k) == sgn neg * (inject_Z a / inject_Z b))%Q).
  { rewrite decimal_value by lia. fold a b. etransitivity; [apply inject_frac|]. rewrite Z2Pos.id by auto. destruct neg; cbn [sg sgn]; rewrite ?inject_Z_opp; unfold Qdiv; ring. }
  assert (B0' : (0 < inject_Z b)%Q) by (apply (injZ_lt 0); auto). assert (A0' : (0 < inject_Z a)%Q) by (apply (injZ_lt 0); auto).
  assert (V0 : (0 < inject_Z a / inject_Z b)%Q) by (apply Qlt_shift_div_l; [auto|rewrite Qmult_0_l; auto]).
  assert (HR : exists v, (v == inject_Z a / inject_Z b)%Q /\ rounds prec64 emax64 neg v (round_rat prec64 emax64 neg a b)).
  { pose proof (div_rounds prec64 emax64 P1 neg (Z.to_pos a) 0 (Z.to_pos b) 0) as R. rewrite !Z2Pos.id in R by auto. eexists. split; [|exact R].
    change (2 ^ 0)%Q with 1%Q. field. lra. }
  destruct HR as (v & Ev & HR).
  assert (HC : crt prec64 emax64 (signed neg (inject_Z D * 10 ^ k)) (round_rat prec64 emax64 neg a b)).
  { right. exists neg, v. split; [rewrite Ev; exact V0|]. split; [rewrite Q1, Ev; reflexivity|exact HR]. }
  pose proof (round_rat_cases prec64 emax64 P1 P6 neg a b A0 B0) as HS. split; [destruct HS as [->|[->|(m & e & ->)]]; reflexivity|].
  destruct (crt_correct _ _ HV HC) as [[N L]|[[E L]|[E L]]]; [left; auto| |]; right; rewrite E in HS |- *.
  - destruct HS as [HS|[HS|(m & e & HS)]]; try discriminate. injection HS as <-. split; [reflexivity|]. eapply Qle_trans; [exact L|apply Qle_Qabs].
  - destruct HS as [HS|[HS|(m & e & HS)]]; try discriminate. injection HS as <-. split; [reflexivity|]. rewrite <- Qabs_opp. eapply Qle_trans; [|apply Qle_Qabs]. lra.
Qed.

(** * C88: any decimal text *)
(** Every decimal text is read as a nearest double, with its sign; one that is out of
    range as the largest double, with failbit set. *)
Theorem C88_decimal : forall w neg g I F fr X ex t, blank w -> sign_text neg g -> numeral I -> numeral F -> I ++ F <> "" ->
  frac_text F fr -> exp_text X ex -> ends t ->
  let q := signed neg (inject_Z (num (I ++ F)) * 10 ^ (X - Z.of_nat (String.length F)))%Q in
  exists y, is_double y /\ is_finite y /\ negative y = neg /\
    (((Qabs q < limit)%Q /\ nearest_double q y /\ get_double (good (w ++ g ++ I ++ fr ++ ex ++ t)) = (Some y, mkIn t false (String.eqb t ""))) \/
     ((limit <= Qabs q)%Q /\ (dval y == signed neg largest)%Q /\ get_double (good (w ++ g ++ I ++ fr ++ ex ++ t)) = (Some y, mkIn t true (String.eqb t "")))).
Proof.
  intros w neg g I F fr X ex t Hw Hg HI HF NE Hfr Hex Ht q.
  pose proof (exp_stops X ex t Hex Ht) as HS. pose proof (exp_nopoint X ex t Hex Ht) as HP. pose proof (scan_exp_text X ex t Hex Ht) as SE.
  set (u := ex ++ t) in *. pose proof (num_nonneg I) as NI. pose proof (num_nonneg F) as NF. pose proof (num_nonneg (I ++ F)) as NIF.
  assert (SP : scan_point (I ++ fr ++ u) = (Z.to_N (num (I ++ F)), true, u, Z.of_nat (String.length F))).
  { unfold scan_point. destruct Hfr as [-> | [-> ->]].
    - rewrite (scan_numeral I (("." ++ F) ++ u)) by (auto; reflexivity). cbv beta iota zeta. rewrite app_assoc_s. cbn [String.append]. change (Ascii.eqb "." ".") with true. cbv iota.
      rewrite (scan_numeral F u) by auto. cbv beta iota zeta. rewrite length_app_s. f_equal; [|lia]. f_equal. f_equal.
      + f_equal. rewrite num_app. rewrite Z2N.id by (change (Z.of_N 0) with 0; lia). change (Z.of_N 0) with 0. ring.
      + destruct I; [destruct F; [exfalso; apply NE; reflexivity|reflexivity]|reflexivity].
    - cbn [String.append]. rewrite app_nil_s in *. rewrite (scan_numeral I u) by auto. cbv beta iota zeta. change (Z.of_N 0) with 0. rewrite Z.mul_0_l, Z.add_0_l.
      assert (EB : String.eqb I "" = false) by (apply String.eqb_neq; auto). rewrite EB. cbn [orb negb].
      destruct u as [|c v]; [reflexivity|]. rewrite HP. reflexivity. }
  assert (GH : exists c0 r0, g ++ I ++ fr ++ u = String c0 r0 /\ isspace c0 = false /\ scan_sign (String c0 r0) = (neg, I ++ fr ++ u)).
  { destruct neg; cbn [sign_text] in Hg; [rewrite Hg; cbn [String.append]; eexists; eexists; repeat split|].
    destruct Hg as [-> | ->]; [|cbn [String.append]; eexists; eexists; repeat split]. cbn [String.append]. destruct I as [|d I].
    - cbn [String.append]. destruct Hfr as [-> | [EF _]]; [|exfalso; apply NE; now rewrite EF]. cbn [String.append]. eexists. eexists. repeat split.
    - cbn [String.append]. exists d. eexists. split; [reflexivity|]. destruct HI as [Hd _]. assert (D : is_digit d) by (unfold is_digit; rewrite digit_some by auto; discriminate).
      destruct (digit_head d D) as (H0 & H1 & H2). split; [exact H0|]. cbn [scan_sign]. rewrite H1, H2. reflexivity. }
  destruct GH as (c0 & r0 & EG & G1 & G2).
  assert (GD : get_double (good (w ++ g ++ I ++ fr ++ ex ++ t)) =
    match read_decimal neg (num (I ++ F)) (X - Z.of_nat (String.length F)) with
    | S754_infinity b => (Some (max_double b), mkIn t true (String.eqb t "")) | y => (Some y, mkIn t false (String.eqb t "")) end).
  { fold u. rewrite EG. unfold get_double. rewrite sentry_at by auto. cbv beta iota zeta. rewrite G2. cbv beta iota zeta.
    unfold scan_point in SP. destruct (scan (I ++ fr ++ u) 0 false) as [[n1 any1] t2]. rewrite SP. cbv beta iota zeta. cbn [negb]. rewrite SE. cbv beta iota zeta.
    rewrite Z2N.id by auto. reflexivity. }
  fold u in GD. destruct (read_decimal_correct neg (num (I ++ F)) (X - Z.of_nat (String.length F)) NIF) as [HN [[HD L]|[HD L]]].
  - exists (read_decimal neg (num (I ++ F)) (X - Z.of_nat (String.length F))). fold q in HD, L. split; [apply HD|]. split; [apply HD|]. split; [exact HN|].
    left. split; [exact L|]. split; [exact HD|]. rewrite GD. destruct HD as (_ & HF2 & _). destruct (read_decimal _ _ _); try reflexivity; contradiction.
  - rewrite HD in GD. exists (max_double neg). split; [destruct neg; reflexivity|]. split; [exact Logic.I|]. split; [reflexivity|]. right. fold q in L. split; [exact L|].
    split; [destruct neg; reflexivity|exact GD].
Qed.
(** A sign that no digit follows (for instance the "inf" and "nan" that the library prints), and an exponent
    without digits: 0 and failbit. *)
Theorem C88_no_number : forall w neg g t, blank w -> sign_text neg g -> g ++ t <> "" ->
  match t with "" => True | String c _ => ~ (48 <= nat_of_ascii c <= 57)%nat /\ c <> "."%char end ->
  match g ++ t with "" => True | String c _ => isspace c = false end -> (g = "" -> match t with String c _ => c <> "-"%char /\ c <> "+"%char | "" => True end) ->
  get_double (good (w ++ g ++ t)) = (Some (S754_zero false), mkIn t true (String.eqb t "")).
Proof.
  intros w neg g t Hw Hg NE Ht HS Hsg.
  assert (SS : scan_sign (g ++ t) = (neg, t)).
  { destruct neg; cbn [sign_text] in Hg; [rewrite Hg; reflexivity|]. destruct Hg as [-> | ->]; [|reflexivity]. cbn [String.append].
    specialize (Hsg eq_refl). destruct t as [|c u]; [reflexivity|]. destruct Hsg as [H1 H2]. cbn [scan_sign]. rewrite (eqb_c c "-" H1), (eqb_c c "+" H2). reflexivity. }
  destruct (g ++ t) as [|c0 r0]; [congruence|]. unfold get_double. rewrite sentry_at by auto. cbv beta iota zeta. rewrite SS. cbv beta iota zeta.
  destruct t as [|c u]; [reflexivity|]. destruct Ht as [H1 H2]. cbn [scan]. rewrite (digit_none c H1). cbv beta iota zeta. rewrite (eqb_c c "." H2). reflexivity.
Qed.

(** "-12.5e-1" before a blank, and "1e309", which is out of range. *)
Example C88_decimal_witness :
  (sign_text true "-" /\ numeral "12" /\ numeral "5" /\ frac_text "5" ".5" /\ exp_text (-1) "e-1" /\ ends " 7" /\
   signed true (inject_Z (num "125") * 10 ^ (-1 - 1)) == -5 # 4 /\ get_double (good "-12.5e-1 7") = (Some (S754_finite true (5 * 2 ^ 50) (-52)), good " 7"))%Q /\
  (limit <= inject_Z (num "1") * 10 ^ 309)%Q /\ exp_text 309 "e309".
Proof.
  split; [|split; [vm_compute; discriminate|]].
  - split; [reflexivity|]. split; [cbn; lia|]. split; [cbn; lia|]. split; [left; reflexivity|]. split.
    { right. exists "e"%char, true, "-", "1". split; [auto|]. split; [reflexivity|]. split; [cbn; lia|]. split; [discriminate|]. split; reflexivity. }
    split; [cbn; split; [lia|repeat split; discriminate]|]. split; [reflexivity|vm_compute; reflexivity].
  - right. exists "e"%char, false, "", "309". split; [auto|]. split; [left; reflexivity|]. split; [cbn; lia|]. split; [discriminate|]. split; reflexivity.
Qed.
