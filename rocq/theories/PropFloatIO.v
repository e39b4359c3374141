(** PropFloatIO.v: C88, files and text of doubles. *)
From Coq Require Import ZArith QArith Qabs Qpower Bool Lia Lqa String Ascii SpecFloat.
From Verif Require Import MatFacts PropMatrix IO IOSpec IOFacts PropIO Float FloatFacts FloatValid FloatRound FloatIO FloatIOFacts FloatIOFacts2 FileFacts PropFloat.
Local Open Scope string_scope.
Local Open Scope Z_scope.

(** * Specification *)
(** The rational number a finite double stands for. *)
Definition dval (x : double) : Q :=
  match x with S754_finite s m e => ((if s then -1 else 1) * inject_Z (Zpos m) * 2 ^ e)%Q | _ => 0%Q end.
(** [y] is a finite double and none is closer to [q]. *)
Definition nearest_double (q : Q) (y : double) : Prop :=
  is_double y /\ is_finite y /\ forall z, is_double z -> is_finite z -> (Qabs (dval y - q) <= Qabs (dval z - q))%Q.

(** * Values as fractions *)
Definition sg (s : bool) (n : Z) : Z := if s then - n else n.
Lemma two_pow e : ((inject_Z 2) ^ e == (if 0 <=? e then inject_Z (2 ^ e) else / inject_Z (2 ^ (- e))))%Q.
Proof.
  destruct (Z.leb_spec 0 e) as [L|L].
  - symmetry. apply Zpower_Qpower. auto.
  - replace e with (- (- e)) at 1 by lia. rewrite Qpower_opp. apply Qinv_comp. symmetry. apply Zpower_Qpower. lia.
Qed.
Lemma inject_frac n (d : positive) : (n # d == inject_Z n * / inject_Z (Zpos d))%Q.
Proof. apply Qmake_Qdiv. Qed.
Lemma dval_frac s m e : (dval (S754_finite s m e) == sg s (fnum m e) # Z.to_pos (fden e))%Q.
Proof.
  unfold dval. change 2%Q with (inject_Z 2). rewrite two_pow. unfold fnum, fden. destruct (Z.leb_spec 0 e) as [L|L].
  - etransitivity; [|symmetry; apply inject_frac]. change (Z.to_pos 1) with 1%positive. unfold sg. destruct s; rewrite ?inject_Z_opp, ?inject_Z_mult; field.
  - etransitivity; [|symmetry; apply inject_frac]. rewrite Z2Pos.id by (apply p2_pos; lia). assert (H : ~ (inject_Z (2 ^ (- e)) == 0)%Q).
    { pose proof (p2_pos (- e) ltac:(lia)). unfold Qeq. cbn. lia. }
    unfold sg. destruct s; rewrite ?inject_Z_opp; field; auto.
Qed.
(** Scaled by 2^1074. *)
Definition nval (z : double) : Z := match z with S754_finite s m e => sg s (fval prec64 emax64 m e) | _ => 0 end.
Definition Wp : positive := (2 ^ 1074)%positive.
Lemma Wp_val : Zpos Wp = 2 ^ (- em). Proof. reflexivity. Qed.
Lemma dval_nval z : is_double z -> is_finite z -> (dval z == nval z # Wp)%Q.
Proof.
  intros Hd Hf. destruct z as [s|s| |s m e]; try contradiction; [reflexivity|]. rewrite dval_frac.
  pose proof (bounded_min m e Hd) as BM. pose proof (fnum_scale m e em BM ltac:(rewrite em_val; lia)) as FS. pose proof (fden_pos e) as F.
  unfold Qeq. cbn [Qnum Qden]. rewrite Z2Pos.id by auto. rewrite Wp_val. unfold nval, fval. fold em. unfold sg. destruct s; rewrite <- ?FS; lia.
Qed.
Lemma Qabs_frac n m (d b : positive) : Qabs ((n # d) - (m # b)) = (Z.abs (n * Zpos b - m * Zpos d) # (d * b))%Q.
Proof. unfold Qminus, Qplus, Qopp, Qabs. cbn [Qnum Qden]. f_equal. f_equal. lia. Qed.

(** The double read from a decimal is the nearest one. *)
Lemma round_nearest s a b y : 0 < a -> 0 < b -> round_rat prec64 emax64 s a b = y -> (forall t, y <> S754_infinity t) ->
  nearest_double (sg s a # Z.to_pos b) y.
Proof.
  intros Ha Hb Hy HI. destruct prec64_ok as [P1 P2]. pose proof (round_rat_valid prec64 emax64 P1 P2 s a b Ha Hb) as HV. rewrite Hy in HV.
  pose proof (round_rat_cases prec64 emax64 P1 P2 s a b Ha Hb) as HC. rewrite Hy in HC.
  assert (HFy : is_finite y) by (destruct HC as [->|[->|(m & e & ->)]]; cbn; auto; exfalso; eapply HI; reflexivity).
  split; [exact HV|]. split; [exact HFy|]. intros z Dz Fz. rewrite (dval_nval y HV HFy), (dval_nval z Dz Fz). rewrite !Qabs_frac.
  unfold Qle. cbn [Qnum Qden]. apply Z.mul_le_mono_nonneg_r; [lia|]. rewrite Z2Pos.id, Wp_val by auto.
  set (A := a * 2 ^ (- em)). assert (A0 : 0 < A) by (apply Z.mul_pos_pos; [auto|apply p2_pos; rewrite em_val; lia]).
  replace (sg s a * 2 ^ (- em)) with (sg s A) by (unfold A, sg; destruct s; ring).
  assert (HB : forall mz ez, bounded prec64 emax64 mz ez = true -> Z.abs (A - result_val prec64 emax64 y * b) <= Z.abs (A - fval prec64 emax64 mz ez * b) /\ Z.abs (A - result_val prec64 emax64 y * b) <= A).
  { intros mz ez Hz. pose proof (round_rat_best prec64 emax64 P1 P2 s a b mz ez Ha Hb Hz) as B. rewrite Hy in B. apply B. exact HI. }
  assert (HY : Z.abs (nval y * b - sg s A) = Z.abs (A - result_val prec64 emax64 y * b)).
  { destruct HC as [->|[->|(m & e & ->)]]; [|exfalso; eapply HI; reflexivity|]; cbn [nval result_val]; unfold sg; destruct s; lia. }
  rewrite HY. destruct z as [sz|sz| |sz mz ez]; try contradiction.
  - destruct (HB 1%positive (-1074) eq_refl) as [_ B]. cbn [nval]. unfold sg. destruct s; lia.
  - destruct (HB mz ez Dz) as [B1 B2]. cbn [nval]. assert (V0 : 0 < fval prec64 emax64 mz ez * b).
    { apply Z.mul_pos_pos; [|auto]. unfold fval. apply Z.mul_pos_pos; [lia|]. apply p2_pos. pose proof (bounded_min mz ez Dz). unfold em in *. lia. }
    unfold sg. destruct s, sz; lia.
Qed.

(** * C88: one element, written between white space and read back *)
(** With 17 significant digits or more every finite double is read back, both zeros included. *)
Theorem C88_17_digits : forall plus P x w t, (17 <= P)%nat -> is_double x -> is_finite x -> blank w -> wsnext t ->
  get_double (good (w ++ show_double plus P x ++ t)) = (Some x, good t).
Proof.
  intros plus P x w t HP Hd Hf Hw Ht. destruct x as [s|s| |s m e]; try contradiction.
  - now apply get_show_zero.
  - rewrite get_show by auto. assert (E : read_digits P s m e = S754_finite s m e).
    { unfold read_digits, digits_of. replace (Nat.max P 1) with P by lia. pose proof (read_17 s m e P HP Hd) as H. destruct (sci_digits P (fnum m e) (fden e)). exact H. }
    rewrite E. reflexivity.
Qed.
(** 16 digits are not enough. *)
Theorem C88_16_digits_refuted : exists x y, is_double x /\ is_finite x /\ x <> y /\
  get_double (good (show_double false 16 x ++ " ")) = (Some y, good " ").
Proof.
  exists (S754_finite false 5404319552844596 (-54)), (S754_finite false 5404319552844595 (-54)).
  split; [reflexivity|]. split; [exact I|]. split; [discriminate|]. vm_compute. reflexivity.
Qed.
(** Any precision: what is read is the double nearest to a number [q] (the text) that is
    within half a unit of the last of [max P 1] significant digits; if it is too large, the
    largest double and a failed stream. *)
Theorem C88_accuracy : forall plus P x w t, is_double x -> is_finite x -> blank w -> wsnext t ->
  exists q : Q, (inject_Z (2 * 10 ^ (Z.of_nat (Nat.max P 1) - 1)) * Qabs (q - dval x) <= Qabs (dval x))%Q /\
  ((exists y, nearest_double q y /\ get_double (good (w ++ show_double plus P x ++ t)) = (Some y, good t)) \/
   ((inject_Z (2 ^ 1024 - 2 ^ 970) <= Qabs q)%Q /\ exists s, get_double (good (w ++ show_double plus P x ++ t)) = (Some (max_double s), mkIn t true false))).
Proof.
  intros plus P x w t Hd Hf Hw Ht. destruct x as [s|s| |s m e]; try contradiction.
  - exists 0%Q. split.
    + cbn [dval]. setoid_replace (0 - 0)%Q with 0%Q by ring. change (Qabs 0) with 0%Q. rewrite Qmult_0_r. apply Qle_refl.
    + left. exists (S754_zero s). split; [|now apply get_show_zero]. split; [reflexivity|]. split; [exact I|]. intros z Hz _. cbn [dval].
      setoid_replace (0 - 0)%Q with 0%Q by ring. apply Qabs_nonneg.
  - rewrite get_show by auto. unfold read_digits, digits_of. set (p := Nat.max P 1). assert (Hp : (1 <= p)%nat) by (unfold p; lia).
    pose proof (sci_spec p (fnum m e) (fden e) Hp (fnum_pos m e) (fden_pos e)) as HS. destruct (sci_digits p (fnum m e) (fden e)) as [D X]. cbv zeta in HS.
    destruct HS as ((D1 & _) & HE). set (k := X - (Z.of_nat p - 1)) in *. pose proof (p10_pos (Z.of_nat p - 1) ltac:(lia)) as T.
    assert (D0 : 0 < D) by lia. pose proof (dnum_pos D k D0) as A0. pose proof (dden_pos k) as B0. pose proof (fnum_pos m e) as F1. pose proof (fden_pos e) as F2.
    exists (sg s (dnum D k) # Z.to_pos (dden k))%Q. split.
    + rewrite dval_frac, Qabs_frac. unfold Qle, Qmult, inject_Z, Qabs. cbn [Qnum Qden]. rewrite Pos.mul_1_l, Pos2Z.inj_mul, !Z2Pos.id by auto.
      set (v := 10 ^ (Z.of_nat p - 1)) in *. set (n := dnum D k) in *. set (d := dden k) in *. set (a := fnum m e) in *. set (b := fden e) in *. clearbody v n d a b.
      replace (Z.abs (sg s n * b - sg s a * d)) with (Z.abs (n * b - a * d)) by (unfold sg; destruct s; lia).
      replace (Z.abs (sg s a)) with a by (unfold sg; destruct s; lia). set (z := Z.abs (n * b - a * d)) in *. clearbody z.
      replace (2 * v * z * b) with (2 * z * v * b) by ring. replace (a * (d * b)) with (a * d * b) by ring. apply Z.mul_le_mono_nonneg_r; lia.
    + destruct prec64_ok as [P1 P2]. rewrite read_decimal_rat by auto.
      destruct (round_rat prec64 emax64 s (dnum D k) (dden k)) as [b|b| |b my ey] eqn:ER.
      * left. exists (S754_zero b). split; [|reflexivity]. apply (round_nearest s); auto. congruence.
      * right. split; [|exists b; reflexivity]. pose proof (round_rat_inf prec64 emax64 P1 P2 s _ _ b A0 B0 ltac:(unfold emax64; lia) ER) as HI.
        change (prec64 + 1) with 54 in HI. change (emax64 - prec64 - 1 - emin prec64 emax64) with 2044 in HI. change (- emin prec64 emax64) with 1074 in HI.
        unfold Qle, inject_Z, Qabs. cbn [Qnum Qden]. rewrite Z.mul_1_r, Z2Pos.id by auto. replace (Z.abs (sg s (dnum D k))) with (dnum D k) by (unfold sg; destruct s; lia).
        assert (E : (2 ^ 54 - 1) * 2 ^ 2044 = (2 ^ 1024 - 2 ^ 970) * 2 ^ 1074) by (vm_compute; reflexivity). rewrite E in HI.
        apply (Z.mul_le_mono_pos_r _ _ (2 ^ 1074)); [apply p2_pos; lia|]. set (c := 2 ^ 1024 - 2 ^ 970) in *. set (u := 2 ^ 1074) in *. clearbody c u. lia.
      * exfalso. destruct (round_rat_cases prec64 emax64 P1 P2 s (dnum D k) (dden k) A0 B0) as [C|[C|(? & ? & C)]]; congruence.
      * left. exists (S754_finite b my ey). split; [|reflexivity]. apply (round_nearest s); auto. congruence.
Qed.
(** At the default precision 6 reading back never fails. *)
Theorem C88_default_reads : forall plus x w t, is_double x -> is_finite x -> blank w -> wsnext t ->
  exists y, is_double y /\ is_finite y /\ get_double (good (w ++ show_double plus 6 x ++ t)) = (Some y, good t).
Proof.
  intros plus x w t Hd Hf Hw Ht. destruct (C88_accuracy plus 6 x w t Hd Hf Hw Ht) as (q & _ & [(y & (Y1 & Y2 & _) & E)|(_ & s & E)]).
  - exists y. auto.
  - exfalso. destruct x as [sx|sx| |sx m e]; try contradiction.
    + rewrite get_show_zero in E by auto. discriminate.
    + rewrite get_show in E by auto. pose proof (read_6 sx m e Hd) as H. destruct (read_digits 6 sx m e) as [b|b| |b m' e']; cbn [read_result] in E; try discriminate.
      apply (H b). reflexivity.
Qed.
(** But it loses digits: 1/3. *)
Theorem C88_default_exact_refuted : exists x y, is_double x /\ is_finite x /\ x <> y /\
  get_double (good (show_double false 6 x ++ " ")) = (Some y, good " ").
Proof.
  exists (S754_finite false 6004799503160661 (-54)), (S754_finite false 6004793498361158 (-54)).
  split; [reflexivity|]. split; [exact I|]. split; [discriminate|]. vm_compute. reflexivity.
Qed.
(** Zero, or not subnormal nor just above. *)
Definition normal (x : double) : Prop := (dval x == 0 \/ 2 ^ (-1021) <= Qabs (dval x))%Q.
Lemma normal_frac s m e : normal (S754_finite s m e) -> fden e <= fnum m e * 2 ^ 1021.
Proof.
  pose proof (fnum_pos m e) as F1. pose proof (fden_pos e) as F2. intros [H|H].
  - exfalso. rewrite dval_frac in H. unfold Qeq in H. cbn [Qnum Qden] in H. unfold sg in H. destruct s; lia.
  - rewrite dval_frac in H. change 2%Q with (inject_Z 2) in H. rewrite two_pow in H. change (0 <=? -1021) with false in H. cbv iota in H. change (- -1021) with 1021 in H.
    assert (E : (/ inject_Z (2 ^ 1021) == 1 # (2 ^ 1021))%Q) by (etransitivity; [|symmetry; apply inject_frac]; change (Zpos (2 ^ 1021)) with (2 ^ 1021)%Z; field; unfold Qeq; cbn [Qnum Qden inject_Z]; pose proof (p2_pos 1021); lia).
    rewrite E in H. unfold Qle, Qabs in H. cbn [Qnum Qden] in H. rewrite Z2Pos.id in H by auto. replace (Z.abs (sg s (fnum m e))) with (fnum m e) in H by (unfold sg; destruct s; lia).
    change (Zpos (2 ^ 1021)) with (2 ^ 1021)%Z in H. lia.
Qed.
(** Up to 15 digits, what was read has the text it was read from: writing and reading again
    changes nothing more. *)
Theorem C88_stable : forall plus P x y w t, (P <= 15)%nat -> is_double x -> is_finite x -> normal x -> blank w -> wsnext t ->
  get_double (good (w ++ show_double plus P x ++ t)) = (Some y, good t) ->
  (forall plus', show_double plus' P y = show_double plus' P x) /\
  (forall plus' w' t', blank w' -> wsnext t' -> get_double (good (w' ++ show_double plus' P y ++ t')) = (Some y, good t')).
Proof.
  intros plus P x y w t HP Hd Hf Hn Hw Ht E. destruct x as [s|s| |s m e]; try contradiction.
  - rewrite get_show_zero in E by auto. injection E as <-. split; [auto|]. intros. now apply get_show_zero.
  - rewrite get_show in E by auto. pose proof (normal_frac s m e Hn) as NF.
    assert (HI : forall b, read_digits P s m e <> S754_infinity b) by (intros b Eb; rewrite Eb in E; discriminate).
    destruct (read_stable P s m e _ HP Hd NF eq_refl HI) as (m' & e' & E1 & E2). rewrite E1 in E. cbn [read_result] in E. injection E as <-. split.
    + intros plus'. unfold digits_of in E2. cbn [show_double]. cbv zeta. rewrite E2. reflexivity.
    + intros plus' w' t' Hw' Ht'. rewrite get_show by auto. assert (E3 : read_digits P s m' e' = S754_finite s m' e') by (rewrite <- E1; unfold read_digits; rewrite E2; reflexivity).
      rewrite E3. reflexivity.
Qed.
(** A whole number with at most [max P 1] digits is written like the integer and read back
    exactly, whatever the precision. *)
Theorem C88_integers : forall plus P x n, is_double x -> is_finite x -> x <> S754_zero true -> (dval x == inject_Z n)%Q -> Z.abs n < 10 ^ Z.of_nat (Nat.max P 1) ->
  show_double plus P x = show_Z plus n /\
  forall w t, blank w -> wsnext t -> get_double (good (w ++ show_double plus P x ++ t)) = (Some x, good t).
Proof.
  intros plus P x n Hd Hf Hz Hn HB. destruct x as [s|s| |s m e]; try contradiction.
  - assert (n = 0) by (unfold Qeq in Hn; cbn in Hn; lia). subst n. destruct s; [contradiction|]. split; [destruct plus; reflexivity|]. intros. now apply get_show_zero.
  - pose proof (fnum_pos m e) as F1. pose proof (fden_pos e) as F2. rewrite dval_frac in Hn. unfold Qeq in Hn. cbn [Qnum Qden inject_Z] in Hn. rewrite Z2Pos.id, Z.mul_1_r in Hn by auto.
    assert (HE : fnum m e = Z.abs n * fden e /\ n = sg s (Z.abs n) /\ 0 < Z.abs n).
    { unfold sg in *. destruct s; (destruct (Z.lt_trichotomy n 0) as [L|[L|L]]; [|subst n; cbn in Hn; lia|]).
      - split; [|lia]. replace (Z.abs n) with (- n) by lia. lia.
      - exfalso. assert (0 <= n * fden e) by (apply Z.mul_nonneg_nonneg; lia). lia.
      - exfalso. assert (n * fden e <= 0) by (apply Z.mul_nonpos_nonneg; lia). lia.
      - split; [|lia]. replace (Z.abs n) with n by lia. lia. }
    destruct HE as (HE & HS & H0). split.
    + cbn [show_double]. rewrite HE at 1. rewrite show_digits_integer by (auto; lia). unfold show_Z, show_sign, show_N, sg in *. destruct s.
      * destruct n as [|q|q]; [lia|lia|]. cbn [Z.abs]. replace (0 <=? Zneg q) with false by reflexivity. rewrite andb_false_r. reflexivity.
      * destruct n as [|q|q]; [lia| |lia]. cbn [Z.abs]. replace (0 <=? Zpos q) with true by reflexivity. rewrite andb_true_r. reflexivity.
    + intros w t Hw Ht. rewrite get_show by auto. rewrite (read_integer P s m e (Z.abs n)) by (auto; lia). reflexivity.
Qed.

(** * C88: files *)
Local Open Scope nat_scope.
#[local] Existing Instance fops0.
Lemma Forall2_refl_on {A} (R : A -> A -> Prop) l : Forall (fun x => R x x) l -> Forall2 R l l.
Proof. induction 1; constructor; auto. Qed.
(** With 17 digits a file of a vector, a matrix or a view gives it back. *)
Theorem C88_vector_17 : forall plus P l target lead tail, 17 <= P -> fits (length l) -> Forall is_double l -> Forall is_finite l -> blank lead ->
  exists txt ws, write_v (show_double plus P) (show_double false P) l = Ok txt /\ blank ws /\
    gread_v get_double target (good (lead ++ txt ++ tail)) = Ok (l, good (ws ++ tail)).
Proof.
  intros plus P l target lead tail HP Hl Hd Hf Hb. apply gfile_v; auto. apply Forall2_refl_on. rewrite Forall_forall in *. intros x Hx w t Hw Ht.
  apply C88_17_digits; auto.
Qed.
Theorem C88_matrix_17 : forall plus P A r c f target lead tail, 17 <= P -> readsL A r c f ->
  (forall i j, i < r -> j < c -> is_double (f i j) /\ is_finite (f i j)) -> wf target -> blank lead ->
  exists txt ws m, write_m (show_double plus P) (show_double false P) A = Ok txt /\ blank ws /\
    gread_m get_double target (good (lead ++ txt ++ tail)) = Ok (m, good (ws ++ tail)) /\ is_mat m r c f.
Proof.
  intros plus P A r c f target lead tail HP HA HF Hwf Hb. apply (gfile_m _ _ _ A r c f f target lead tail HA); auto. intros i j Hi Hj w t Hw Ht. destruct (HF i j Hi Hj). apply C88_17_digits; auto.
Qed.

(** At the default precision, every file of finite doubles is read completely, with the
    accuracy of [C88_accuracy]; here in terms of the element that was read. *)
Definition near (P : nat) (x y : double) : Prop :=
  exists q : Q, (inject_Z (2 * 10 ^ (Z.of_nat (Nat.max P 1) - 1)) * Qabs (q - dval x) <= Qabs (dval x))%Q /\ nearest_double q y.
Lemma near_reads plus P x : is_double x -> is_finite x -> exists y, 
  (reads_as (show_double plus P) get_double x y /\ near P x y) \/ (P <> 6 /\ exists s, y = max_double s /\ fails_as (show_double plus P) get_double x y).
Proof.
  intros Hd Hf. assert (W1 : blank "") by exact I. assert (W2 : wsnext " ") by (apply ws_sp).
  destruct (C88_accuracy plus P x "" " " Hd Hf W1 W2) as (q & Hq & [(y & Hy & E)|(_ & s & E)]).
  - exists y. left. split; [|exists q; auto]. intros w t Hw Ht. destruct x as [sx|sx| |sx m e]; try contradiction.
    + rewrite get_show_zero in E |- * by auto. injection E as <-. reflexivity.
    + rewrite get_show in E |- * by auto. destruct (read_digits P sx m e); cbn [read_result] in E |- *; try discriminate; injection E as <-; reflexivity.
  - exists (max_double s). right. split.
    + intros ->. destruct (C88_default_reads plus x "" " " Hd Hf W1 W2) as (y & _ & _ & E'). rewrite E in E'. discriminate.
    + exists s. split; [reflexivity|]. intros w t Hw Ht. destruct x as [sx|sx| |sx m e]; try contradiction.
      * rewrite get_show_zero in E by auto. discriminate.
      * rewrite get_show in E |- * by auto. destruct (read_digits P sx m e); cbn [read_result] in E |- *; try discriminate. injection E as <-. eexists. split; reflexivity.
Qed.
Lemma near_reads_6 plus x : is_double x -> is_finite x -> exists y, reads_as (show_double plus 6) get_double x y /\ near 6 x y.
Proof. intros Hd Hf. destruct (near_reads plus 6 x Hd Hf) as (y & [H|[H _]]); [exists y; auto|contradiction]. Qed.
Theorem C88_vector_default : forall plus l target lead tail, fits (length l) -> Forall is_double l -> Forall is_finite l -> blank lead ->
  exists txt ws l', write_v (show_double plus 6) (show_double false 6) l = Ok txt /\ blank ws /\
    gread_v get_double target (good (lead ++ txt ++ tail)) = Ok (l', good (ws ++ tail)) /\ Forall2 (near 6) l l'.
Proof.
  intros plus l target lead tail Hl Hd Hf Hb.
  assert (H : exists l', Forall2 (reads_as (show_double plus 6) get_double) l l' /\ Forall2 (near 6) l l').
  { clear Hl. induction l as [|x l IH]; [exists nil; split; constructor|]. inversion Hd; inversion Hf; subst. destruct IH as (l' & H1' & H2'); auto.
    destruct (near_reads_6 plus x) as (y & Y1 & Y2); auto. exists (y :: l'). split; constructor; auto. }
  destruct H as (l' & H1 & H2). destruct (gfile_v (show_double plus 6) get_double (show_double false 6) l l' target lead tail Hl H1 Hb) as (txt & ws & E1 & E2 & E3).
  exists txt, ws, l'. auto.
Qed.
Lemma choice2 r c (P : nat -> nat -> double -> Prop) : (forall i j, i < r -> j < c -> exists y, P i j y) -> exists g, forall i j, i < r -> j < c -> P i j (g i j).
Proof.
  intros H. assert (R1 : forall i n, i < r -> n <= c -> exists g : nat -> double, forall j, j < n -> P i j (g j)).
  { intros i. induction n as [|n IH]; intros Hi Hn; [exists (fun _ => nan); lia|]. destruct IH as (g & Hg); [auto|lia|]. destruct (H i n) as (y & Hy); [auto|lia|].
    exists (fun j => if j =? n then y else g j). intros j Hj. destruct (Nat.eqb_spec j n) as [->|N]; [auto|apply Hg; lia]. }
  assert (R2 : forall n, n <= r -> exists g : nat -> nat -> double, forall i j, i < n -> j < c -> P i j (g i j)).
  { induction n as [|n IH]; intros Hn; [exists (fun _ _ => nan); lia|]. destruct IH as (g & Hg); [lia|]. destruct (R1 n c) as (h & Hh); [lia|lia|].
    exists (fun i j => if i =? n then h j else g i j). intros i j Hi Hj. destruct (Nat.eqb_spec i n) as [->|N]; [auto|apply Hg; lia]. }
  apply R2. lia.
Qed.
Theorem C88_matrix_default : forall plus A r c f target lead tail, readsL A r c f ->
  (forall i j, i < r -> j < c -> is_double (f i j) /\ is_finite (f i j)) -> wf target -> blank lead ->
  exists txt ws m g, write_m (show_double plus 6) (show_double false 6) A = Ok txt /\ blank ws /\
    gread_m get_double target (good (lead ++ txt ++ tail)) = Ok (m, good (ws ++ tail)) /\ is_mat m r c g /\
    (forall i j, i < r -> j < c -> near 6 (f i j) (g i j)).
Proof.
  intros plus A r c f target lead tail HA HF Hwf Hb.
  destruct (choice2 r c (fun i j y => reads_as (show_double plus 6) get_double (f i j) y /\ near 6 (f i j) y)) as (g & Hg).
  { intros i j Hi Hj. destruct (HF i j Hi Hj). now apply near_reads_6. }
  destruct (gfile_m (show_double plus 6) get_double (show_double false 6) A r c f g target lead tail HA) as (txt & ws & m & E1 & E2 & E3 & E4); auto.
  { intros i j Hi Hj. now apply Hg. }
  exists txt, ws, m, g. split; [auto|]. split; [auto|]. split; [auto|]. split; [auto|]. intros i j Hi Hj. now apply Hg.
Qed.

(** Up to 15 digits, the file of what was read from a file is that file. *)
Lemma write_v_text {T} (sh sh0 : T -> string) l l' : fits (length l) -> map sh l = map sh l' -> map sh0 l = map sh0 l' -> write_v sh sh0 l = write_v sh sh0 l'.
Proof.
  intros Hl E E0. assert (L : length l' = length l) by (apply (f_equal (@length string)) in E; rewrite !map_length in E; auto).
  unfold write_v. rewrite L. destruct l as [|d0 l0] eqn:El; [destruct l'; [reflexivity|discriminate]|]. rewrite <- El in *. clear El.
  pose proof (vec_as_fun l d0 Hl) as Hv. pose proof (vec_as_fun l' d0 ltac:(rewrite L; exact Hl)) as Hv'. rewrite L in Hv'.
  assert (NS : forall (s : T -> string) (i : nat), map s l = map s l' -> s (nth i l d0) = s (nth i l' d0)) by (intros s i Es; rewrite <- !(map_nth s), Es; reflexivity).
  rewrite (longhest_ok sh0 (length l) (lget l) (fun i => nth i l d0)) by (intros; apply lget_ok; destruct Hv as (_ & _ & Hg); auto).
  rewrite (longhest_ok sh0 (length l) (lget l') (fun i => nth i l' d0)) by (intros; apply lget_ok; destruct Hv' as (_ & _ & Hg); auto). cbn [bind].
  replace (map (fun i => sh0 (nth i l' d0)) (seq 0 (length l))) with (map (fun i => sh0 (nth i l d0)) (seq 0 (length l))) by (apply map_ext; intros; now apply NS).
  rewrite (out_elems_ok sh _ l _ _ Hv), (out_elems_ok sh _ l' _ _ Hv'). cbn [bind]. unfold joined. do 4 f_equal. f_equal. f_equal.
  apply map_ext. intros i. now rewrite NS.
Qed.
Lemma write_m_text {T} (sh sh0 : T -> string) A B r c f g : readsL A r c f -> readsL B r c g ->
  (forall i j, i < r -> j < c -> sh (f i j) = sh (g i j) /\ sh0 (f i j) = sh0 (g i j)) -> write_m sh sh0 A = write_m sh sh0 B.
Proof.
  intros [HA HLA] [HB HLB] H. pose proof HA as (Ar & Ac & As & _). pose proof HB as (Br & Bc & Bs & _). unfold write_m. rewrite As, Bs.
  rewrite (longhest_ok sh0 (r * c) (mlin A) (fun k => f (k / c) (k mod c))) by (intros; apply HLA; auto).
  rewrite (longhest_ok sh0 (r * c) (mlin B) (fun k => g (k / c) (k mod c))) by (intros; apply HLB; auto). cbn [bind].
  replace (map (fun k => sh0 (g (k / c) (k mod c))) (seq 0 (r * c))) with (map (fun k => sh0 (f (k / c) (k mod c))) (seq 0 (r * c))).
  - rewrite (out_rows_ok sh _ A r c f HA), (out_rows_ok sh _ B r c g HB). cbn [bind]. rewrite Ar, Ac, Br, Bc. unfold joined at 1 3.
    match goal with |- Ok (_ ++ _ ++ _ ++ _ ++ _ ++ String.concat nl ?x ++ _) = Ok (_ ++ _ ++ _ ++ _ ++ _ ++ String.concat nl ?y ++ _) => replace y with x; [reflexivity|] end.
    apply map_ext_in. intros i Hi. unfold joined. f_equal. apply map_ext_in. intros j Hj. apply in_seq in Hi, Hj. destruct (H i j) as [-> _]; [lia|lia|reflexivity].
  - apply map_ext_in. intros k Hk. apply in_seq in Hk. destruct c as [|c]; [lia|]. apply H; [apply Nat.div_lt_upper_bound; lia|apply Nat.mod_upper_bound; lia].
Qed.
(** Zero, or of ordinary size: neither subnormal nor close to the largest double. *)
Definition ordinary (x : double) : Prop := (dval x == 0 \/ 2 ^ (-1021) <= Qabs (dval x) <= inject_Z (10 ^ 308))%Q.
Lemma ordinary_normal x : ordinary x -> normal x.
Proof. intros [H|[H _]]; [left|right]; auto. Qed.
Lemma ordinary_reads plus P x : is_double x -> is_finite x -> ordinary x -> exists y, reads_as (show_double plus P) get_double x y /\ near P x y.
Proof.
  intros Hd Hf Ho. destruct (near_reads plus P x Hd Hf) as (y & [H|[_ (s & -> & H)]]); [exists y; auto|exfalso].
  destruct (C88_accuracy plus P x "" " " Hd Hf I (ws_sp "")) as (q & Hq & [(y & _ & E)|(Hi & s' & E)]).
  - destruct (H "" " " I (ws_sp "")) as (s0 & E0 & F). rewrite E in E0. injection E0 as _ <-. discriminate.
  - assert (HX : (Qabs (dval x) <= inject_Z (10 ^ 308))%Q).
    { destruct Ho as [H0|[_ H0]]; [|exact H0]. rewrite H0. change (Qabs 0) with 0%Q. unfold Qle. cbn [Qnum Qden inject_Z]. pose proof (p10_pos 308). lia. }
    pose proof (Qabs_triangle (q - dval x) (dval x)) as HT. setoid_replace (q - dval x + dval x)%Q with q in HT by ring.
    assert (HV : (1 <= inject_Z (10 ^ (Z.of_nat (Nat.max P 1) - 1)))%Q) by (unfold Qle; cbn [Qnum Qden inject_Z]; pose proof (p10_pos (Z.of_nat (Nat.max P 1) - 1)); lia).
    rewrite inject_Z_mult in Hq. set (v := inject_Z (10 ^ (Z.of_nat (Nat.max P 1) - 1))) in *. pose proof (Qabs_nonneg (q - dval x)) as HN.
    set (d := Qabs (q - dval x)) in *. set (a := Qabs (dval x)) in *. set (b := Qabs q) in *. clearbody v d a b.
    assert (H2 : (2 * d <= a)%Q).
    { apply Qle_trans with (inject_Z 2 * v * d)%Q; [|exact Hq]. setoid_replace (2 * d)%Q with (1 * (2 * d))%Q by ring. setoid_replace (inject_Z 2 * v * d)%Q with (v * (2 * d))%Q by (unfold inject_Z; ring).
      apply Qmult_le_compat_r; [exact HV|]. lra. }
    assert (HC : (3 * inject_Z (10 ^ 308) < 2 * inject_Z (2 ^ 1024 - 2 ^ 970))%Q) by (vm_compute; reflexivity).
    set (c1 := inject_Z (10 ^ 308)) in *. set (c2 := inject_Z (2 ^ 1024 - 2 ^ 970)) in *. clearbody c1 c2. lra.
Qed.
Lemma stable_reads plus P x y : P <= 15 -> is_double x -> is_finite x -> ordinary x -> reads_as (show_double plus P) get_double x y ->
  (forall plus', show_double plus' P y = show_double plus' P x) /\ reads_as (show_double plus P) get_double y y.
Proof.
  intros HP Hd Hf Ho H. destruct (C88_stable plus P x y "" " " HP Hd Hf (ordinary_normal x Ho) I (ws_sp "") (H "" " " I (ws_sp ""))) as [S1 S2].
  split; [exact S1|]. intros w t Hw Ht. now apply S2.
Qed.
Theorem C88_vector_stable : forall plus P l target lead tail, P <= 15 -> fits (length l) ->
  Forall is_double l -> Forall is_finite l -> Forall ordinary l -> blank lead ->
  exists txt ws l', write_v (show_double plus P) (show_double false P) l = Ok txt /\ blank ws /\
    gread_v get_double target (good (lead ++ txt ++ tail)) = Ok (l', good (ws ++ tail)) /\ Forall2 (near P) l l' /\
    write_v (show_double plus P) (show_double false P) l' = Ok txt.
Proof.
  intros plus P l target lead tail HP Hl Hd Hf Ho Hb.
  assert (H : exists l', Forall2 (reads_as (show_double plus P) get_double) l l' /\ Forall2 (near P) l l' /\ forall plus', map (show_double plus' P) l = map (show_double plus' P) l').
  { clear Hl. induction l as [|x l IH]; [exists nil; repeat split; constructor|]. inversion Hd; inversion Hf; inversion Ho; subst. destruct IH as (l' & H1' & H2' & H3'); auto.
    destruct (ordinary_reads plus P x) as (y & Y1 & Y2); auto. destruct (stable_reads plus P x y) as [S1 _]; auto. exists (y :: l'). split; [constructor; auto|]. split; [constructor; auto|].
    intros plus'. cbn [map]. now rewrite S1, H3'. }
  destruct H as (l' & H1 & H2 & H3). destruct (gfile_v (show_double plus P) get_double (show_double false P) l l' target lead tail Hl H1 Hb) as (txt & ws & E1 & E2 & E3).
  exists txt, ws, l'. split; [auto|]. split; [auto|]. split; [auto|]. split; [auto|]. rewrite <- E1. symmetry. apply write_v_text; auto.
Qed.
Theorem C88_matrix_stable : forall plus P A r c f target lead tail, P <= 15 -> readsL A r c f ->
  (forall i j, i < r -> j < c -> is_double (f i j) /\ is_finite (f i j) /\ ordinary (f i j)) -> wf target -> blank lead ->
  exists txt ws m g, write_m (show_double plus P) (show_double false P) A = Ok txt /\ blank ws /\
    gread_m get_double target (good (lead ++ txt ++ tail)) = Ok (m, good (ws ++ tail)) /\ is_mat m r c g /\
    (forall i j, i < r -> j < c -> near P (f i j) (g i j)) /\
    write_m (show_double plus P) (show_double false P) (mb_of_mat m) = Ok txt.
Proof.
  intros plus P A r c f target lead tail HP HA HF Hwf Hb.
  destruct (choice2 r c (fun i j y => reads_as (show_double plus P) get_double (f i j) y /\ near P (f i j) y)) as (g & Hg).
  { intros i j Hi Hj. destruct (HF i j Hi Hj) as (? & ? & ?). now apply ordinary_reads. }
  destruct (gfile_m (show_double plus P) get_double (show_double false P) A r c f g target lead tail HA) as (txt & ws & m & E1 & E2 & E3 & E4); auto.
  { intros i j Hi Hj. now apply Hg. }
  exists txt, ws, m, g. split; [auto|]. split; [auto|]. split; [auto|]. split; [auto|]. split; [intros i j Hi Hj; now apply Hg|].
  rewrite <- E1. symmetry. apply (write_m_text _ _ A (mb_of_mat m) r c f g HA); [now apply is_mat_readsL|].
  intros i j Hi Hj. destruct (Hg i j Hi Hj) as [G1 _]. destruct (HF i j Hi Hj) as (F1 & F2 & F3). destruct (stable_reads plus P (f i j) (g i j) HP F1 F2 F3 G1) as [S1 _].
  split; symmetry; apply S1.
Qed.

(** Whole numbers: the file is that of the integers and is read back exactly. *)
Theorem C88_vector_integers : forall plus P l ns target lead tail, fits (length l) -> 
  Forall2 (fun x n => is_double x /\ is_finite x /\ x <> S754_zero true /\ (dval x == inject_Z n)%Q /\ (Z.abs n < 10 ^ Z.of_nat (Nat.max P 1))%Z) l ns -> blank lead ->
  exists txt ws, write_v (show_double plus P) (show_double false P) l = Ok txt /\ write_v (show_Z plus) (show_Z false) ns = Ok txt /\ blank ws /\
    gread_v get_double target (good (lead ++ txt ++ tail)) = Ok (l, good (ws ++ tail)).
Proof.
  intros plus P l ns target lead tail Hl H Hb.
  assert (H1 : Forall2 (reads_as (show_double plus P) get_double) l l).
  { apply Forall2_refl_on. clear - H. induction H as [|x n l ns (X1 & X2 & X3 & X4 & X5) _ IH]; constructor; auto. intros w t Hw Ht. now apply (C88_integers plus P x n). }
  assert (H2 : forall p', map (show_double p' P) l = map (show_Z p') ns).
  { intros p'. clear - H. induction H as [|x n l ns (X1 & X2 & X3 & X4 & X5) _ IH]; [reflexivity|]. cbn [map]. rewrite IH. f_equal. now apply (C88_integers p' P x n). }
  destruct (gfile_v (show_double plus P) get_double (show_double false P) l l target lead tail Hl H1 Hb) as (txt & ws & E1 & E2 & E3).
  exists txt, ws. split; [auto|]. split; [|auto].
  rewrite <- E1. assert (LN : length l = length ns) by (clear - H; induction H; cbn; congruence). unfold write_v. rewrite <- LN.
  pose proof (vec_as_fun l nan Hl) as Hv. pose proof (vec_as_fun ns 0%Z ltac:(rewrite <- LN; exact Hl)) as Hv'. rewrite <- LN in Hv'.
  assert (NS : forall p' i, i < length l -> show_double p' P (nth i l nan) = show_Z p' (nth i ns 0%Z)).
  { intros p' i Hi. rewrite <- (map_nth (show_double p' P)), <- (map_nth (show_Z p')). rewrite H2. apply nth_indep. rewrite map_length, <- LN. exact Hi. }
  rewrite (longhest_ok (show_double false P) (length l) (lget l) (fun i => nth i l nan)) by (intros; apply lget_ok; destruct Hv as (_ & _ & Hg); auto).
  rewrite (longhest_ok (show_Z false) (length l) (lget ns) (fun i => nth i ns 0%Z)) by (intros; apply lget_ok; destruct Hv' as (_ & _ & Hg); auto). cbn [bind].
  replace (map (fun i => show_Z false (nth i ns 0%Z)) (seq 0 (length l))) with (map (fun i => show_double false P (nth i l nan)) (seq 0 (length l)))
    by (apply map_ext_in; intros i Hi; apply in_seq in Hi; apply NS; lia).
  rewrite (out_elems_ok _ _ l _ _ Hv), (out_elems_ok _ _ ns _ _ Hv'). cbn [bind]. unfold joined. do 4 f_equal. f_equal. f_equal.
  apply map_ext_in. intros i Hi. apply in_seq in Hi. rewrite NS by lia. reflexivity.
Qed.
Theorem C88_matrix_integers : forall plus P A r c f n target lead tail, readsL A r c f ->
  (forall i j, i < r -> j < c -> is_double (f i j) /\ is_finite (f i j) /\ f i j <> S754_zero true /\ (dval (f i j) == inject_Z (n i j))%Q /\ (Z.abs (n i j) < 10 ^ Z.of_nat (Nat.max P 1))%Z) ->
  wf target -> blank lead ->
  exists txt ws m, write_m (show_double plus P) (show_double false P) A = Ok txt /\ blank ws /\
    gread_m get_double target (good (lead ++ txt ++ tail)) = Ok (m, good (ws ++ tail)) /\ is_mat m r c f.
Proof.
  intros plus P A r c f n target lead tail HA HF Hwf Hb. apply (gfile_m _ _ _ A r c f f target lead tail HA); auto.
  intros i j Hi Hj w t Hw Ht. destruct (HF i j Hi Hj) as (X1 & X2 & X3 & X4 & X5). now apply (C88_integers plus P (f i j) (n i j)).
Qed.

(** NaN and the infinities are written but not read: that element becomes 0, the stream has
    failed, and the elements after it keep what the target had. *)
Lemma double_stuck : stuck get_double.
Proof. intros s Hs. unfold get_double, sentry. rewrite Hs. cbn [orb]. eexists. split; reflexivity. Qed.
Lemma special_fails plus P x : ~ is_finite x -> fails_as (show_double plus P) get_double x (S754_zero false).
Proof.
  intros Hf w t Hw Ht. destruct x as [s|s| |s m e]; try (exfalso; apply Hf; exact I).
  - rewrite get_inf by auto. eexists. split; reflexivity.
  - rewrite get_nan by auto. eexists. split; reflexivity.
Qed.
Theorem C88_vector_special : forall plus P l1 x l2 target lead tail, 17 <= P -> fits (length (l1 ++ x :: l2)) ->
  Forall is_double l1 -> Forall is_finite l1 -> ~ is_finite x -> blank lead ->
  exists txt s' v, write_v (show_double plus P) (show_double false P) (l1 ++ x :: l2) = Ok txt /\ failbit s' = true /\
    gread_v get_double target (good (lead ++ txt ++ tail)) = Ok (v, s') /\ length v = length (l1 ++ x :: l2) /\
    (forall i, i < length l1 -> nth_error v i = nth_error l1 i) /\ nth_error v (length l1) = Some (S754_zero false) /\
    (forall i, length l1 < i < length v -> nth_error v i = if i <? length target then nth_error target i else Some (S754_zero false)).
Proof.
  intros plus P l1 x l2 target lead tail HP Hl Hd Hf Hx Hb.
  assert (HF : Forall2 (reads_as (show_double plus P) get_double) l1 l1).
  { apply Forall2_refl_on. rewrite Forall_forall in *. intros y Hy w t Hw Ht. apply C88_17_digits; auto. }
  destruct (gfile_v_fail (show_double plus P) get_double (show_double false P) l1 l1 x (S754_zero false) l2 target lead tail double_stuck Hl HF (special_fails plus P x Hx) Hb) as (txt & s' & E1 & F & E2).
  set (n := length (l1 ++ x :: l2)) in *. assert (Hn : length l1 < n) by (unfold n; rewrite app_length; cbn; lia).
  set (v := (l1 ++ S754_zero false :: skipn (S (length l1)) (resized target n))%list) in *. exists txt, s', v.
  assert (LV : length v = n) by (unfold v; rewrite app_length; cbn [length]; rewrite skipn_length, resized_length; lia).
  split; [auto|]. split; [auto|]. split; [exact E2|]. split; [exact LV|]. unfold v. split; [intros i Hi; now apply nth_error_app1|]. split.
  - rewrite nth_error_app2, Nat.sub_diag by lia. reflexivity.
  - intros i Hi. fold v in Hi. rewrite LV in Hi. rewrite nth_error_app2 by lia. replace (i - length l1) with (S (i - S (length l1))) by lia. cbn [nth_error]. rewrite UtilFacts2.nth_error_skipn.
    replace (S (length l1) + (i - S (length l1))) with i by lia. unfold resized. destruct (Nat.ltb_spec i (length target)) as [L|L].
    + rewrite nth_error_app1 by (rewrite firstn_length; lia). apply ViewFacts2.nth_error_firstn_lt. lia.
    + rewrite nth_error_app2 by (rewrite firstn_length; lia). rewrite firstn_length. rewrite nth_error_repeat_lt by lia. reflexivity.
Qed.
Theorem C88_matrix_special : forall plus P A r c f i0 j0 target R C ft lead tail, 17 <= P -> readsL A r c f -> i0 < r -> j0 < c ->
  (forall i j, i < r -> j < c -> i * c + j < i0 * c + j0 -> is_double (f i j) /\ is_finite (f i j)) -> ~ is_finite (f i0 j0) -> is_mat target R C ft -> blank lead ->
  exists txt s' m, write_m (show_double plus P) (show_double false P) A = Ok txt /\ failbit s' = true /\
    gread_m get_double target (good (lead ++ txt ++ tail)) = Ok (m, s') /\
    is_mat m r c (fun i j => if i * c + j <? i0 * c + j0 then f i j else if i * c + j =? i0 * c + j0 then S754_zero false
                             else if (i <? R) && (j <? C) then ft i j else S754_zero false).
Proof.
  intros plus P A r c f i0 j0 target R C ft lead tail HP HA Hi Hj HF Hx Ht Hb.
  assert (HF' : forall i j, i < r -> j < c -> i * c + j < i0 * c + j0 -> reads_as (show_double plus P) get_double (f i j) (f i j)).
  { intros i j Hi' Hj' Hk w t Hw Ht'. destruct (HF i j Hi' Hj' Hk). apply C88_17_digits; auto. }
  pose proof (gfile_m_fail (show_double plus P) get_double (show_double false P) A r c f f (S754_zero false) i0 j0 target R C ft lead tail double_stuck HA Hi Hj HF' (special_fails plus P _ Hx) Ht Hb) as G.
  exact G.
Qed.
(** 17 digits tell any two doubles apart, NaN and infinities included. *)
Theorem C88_text_injective : forall plus P x y, 17 <= P -> is_double x -> is_double y -> show_double plus P x = show_double plus P y -> x = y.
Proof.
  intros plus P x y HP Hx Hy E. pose proof (ws_sp "") as W.
  assert (F : forall z, is_double z -> (is_finite z /\ get_double (good ("" ++ show_double plus P z ++ " ")) = (Some z, good " ")) \/
                (~ is_finite z /\ exists t, get_double (good ("" ++ show_double plus P z ++ " ")) = (Some (S754_zero false), mkIn t true false))).
  { intros z Hz. destruct z as [s|s| |s m e].
    - left. split; [exact I|]. apply C88_17_digits; auto; exact I.
    - right. split; [auto|]. eexists. apply get_inf. exact I.
    - right. split; [auto|]. eexists. apply get_nan. exact I.
    - left. split; [exact I|]. apply C88_17_digits; auto; exact I. }
  destruct (F x Hx) as [[Fx Gx]|[Fx (tx & Gx)]], (F y Hy) as [[Fy Gy]|[Fy (ty & Gy)]]; rewrite E in Gx; rewrite Gx in Gy; try discriminate.
  - injection Gy as Gy. exact Gy.
  - destruct x as [?|sx| |? ? ?], y as [?|sy| |? ? ?]; try (exfalso; (apply Fx; exact I) || (apply Fy; exact I)); cbn [show_double] in E; unfold show_sign in E.
    + destruct sx, sy, plus; try reflexivity; discriminate.
    + destruct sx, plus; discriminate.
    + destruct sy, plus; discriminate.
    + reflexivity.
Qed.

(** The hypotheses are met: a 2 x 2 matrix of doubles 0.1, -0, 2^60, 1/3. *)
Example C88_witness : let f := fun i j => match i, j with O, O => S754_finite false 7205759403792794 (-56) | O, _ => S754_zero true | _, O => S754_finite false 4503599627370496 8 | _, _ => S754_finite false 6004799503160661 (-54) end in
  (forall i j, i < 2 -> j < 2 -> is_double (f i j) /\ is_finite (f i j)) /\ ordinary (f 0 0) /\ ordinary (f 1 0) /\ ~ ordinary (S754_finite false 1 (-1074)) /\
  show_double false 17 (f 0 0) = "0.10000000000000001" /\ show_double false 6 (f 1 0) = "1.15292e+18" /\ show_double true 6 (f 1 1) = "+0.333333".
Proof.
  cbv zeta. split; [intros [|[|i]] [|[|j]] Hi Hj; try lia; (split; [reflexivity|exact I])|].
  split; [right; vm_compute; split; discriminate|]. split; [right; vm_compute; split; discriminate|].
  split; [intros [H|[H _]]; [vm_compute in H; discriminate|vm_compute in H; apply H; reflexivity]|]. split; [vm_compute; reflexivity|]. split; vm_compute; reflexivity.
Qed.
