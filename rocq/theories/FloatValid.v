(** FloatValid.v: the operations of SpecFloat on doubles give doubles. *)
From Coq Require Import ZArith Bool Lia SpecFloat.
From Verif Require Import Mat Feq Float FloatFacts.
Local Open Scope Z_scope.

Lemma dig_nonneg m : 0 <= Zdigits2 m. Proof. destruct m; cbn; lia. Qed.
Lemma dig_lb m d : 0 <= d -> 2 ^ d <= m -> d + 1 <= Zdigits2 m.
Proof.
  intros Hd H. pose proof (p2_pos d Hd). destruct m as [|p|p]; [lia| |lia]. cbn [Zdigits2]. pose proof (digits_bounds p) as [_ B].
  destruct (Z.le_gt_cases (d + 1) (Zpos (digits2_pos p))) as [|G]; [auto|]. exfalso.
  assert (2 ^ Zpos (digits2_pos p) <= 2 ^ d) by (apply Z.pow_le_mono_r; lia). lia.
Qed.
Lemma dig_bounds m : 0 < m -> 1 <= Zdigits2 m /\ 2 ^ (Zdigits2 m - 1) <= m < 2 ^ Zdigits2 m.
Proof. destruct m as [|p|p]; [lia| |lia]. intros _. cbn [Zdigits2]. split; [lia|]. apply digits_bounds. Qed.
Lemma dig_mono a b : 0 <= a <= b -> Zdigits2 a <= Zdigits2 b.
Proof.
  intros H. destruct (Z.eq_dec a 0) as [->|N]; [apply dig_nonneg|]. destruct (dig_bounds b) as (_ & _ & B); [lia|].
  apply digits_le; [apply dig_nonneg|lia|lia].
Qed.
(** Dropping k binary digits. *)
Lemma dig_div m k : 0 <= m -> 0 <= k -> (Zdigits2 m <= k -> m / 2 ^ k = 0) /\ (k < Zdigits2 m -> Zdigits2 (m / 2 ^ k) = Zdigits2 m - k).
Proof.
  intros Hm Hk. pose proof (p2_pos k Hk) as Pk. destruct (Z.eq_dec m 0) as [->|N]; [rewrite Z.div_0_l by lia; cbn; split; intros; [reflexivity|lia]|].
  destruct (dig_bounds m) as (D1 & B1 & B2); [lia|]. split; intros H.
  - apply Z.div_small. split; [lia|]. assert (2 ^ Zdigits2 m <= 2 ^ k) by (apply Z.pow_le_mono_r; lia). lia.
  - set (d := Zdigits2 m) in *. assert (E1 : 2 ^ (d - 1) = 2 ^ (d - k - 1) * 2 ^ k) by (rewrite <- Z.pow_add_r by lia; f_equal; lia).
    assert (E2 : 2 ^ d = 2 ^ (d - k) * 2 ^ k) by (rewrite <- Z.pow_add_r by lia; f_equal; lia).
    assert (L1 : 2 ^ (d - k - 1) <= m / 2 ^ k) by (apply Z.div_le_lower_bound; lia).
    assert (L2 : m / 2 ^ k < 2 ^ (d - k)) by (apply Z.div_lt_upper_bound; lia).
    apply Z.le_antisymm; [apply digits_le; lia|]. replace (d - k) with (d - k - 1 + 1) by lia. apply dig_lb; lia.
Qed.
Lemma shr_1_m x : 0 <= shr_m x -> shr_m (shr_1 x) = shr_m x / 2.
Proof.
  destruct x as [m r s]. cbn [shr_m]. intros H. unfold shr_1. destruct m as [|[p|p|]|p]; cbn [shr_m]; [reflexivity| | |reflexivity|lia].
  - apply (Z.div_unique _ _ _ 1); lia.
  - apply (Z.div_unique _ _ _ 0); lia.
Qed.
Lemma shr_iter_m p : forall x, 0 <= shr_m x -> shr_m (SpecFloat.iter_pos shr_1 p x) = shr_m x / 2 ^ Zpos p.
Proof.
  induction p as [p IH|p IH|]; intros x H; cbn [SpecFloat.iter_pos].
  - assert (H1 : 0 <= shr_m (shr_1 x)) by (rewrite shr_1_m by auto; apply Z.div_pos; lia).
    assert (H2 : 0 <= shr_m (SpecFloat.iter_pos shr_1 p (shr_1 x))) by (rewrite IH by auto; apply Z.div_pos; [auto|apply p2_pos; lia]).
    rewrite !IH, shr_1_m by auto. rewrite !Z.div_div by (try lia; pose proof (p2_pos (Zpos p)); lia). f_equal.
    replace (Zpos p~1) with (Zpos p + Zpos p + 1) by lia. rewrite p2_S, Z.pow_add_r by lia. ring.
  - assert (H2 : 0 <= shr_m (SpecFloat.iter_pos shr_1 p x)) by (rewrite IH by auto; apply Z.div_pos; [auto|apply p2_pos; lia]).
    rewrite !IH by auto. rewrite !Z.div_div by (try lia; pose proof (p2_pos (Zpos p)); lia). f_equal.
    replace (Zpos p~0) with (Zpos p + Zpos p) by lia. rewrite Z.pow_add_r by lia. ring.
  - rewrite shr_1_m by auto. reflexivity.
Qed.
Lemma shr_of_loc m l : shr_m (shr_record_of_loc m l) = m. Proof. destruct l as [|[]]; reflexivity. Qed.
Lemma shr_div m l e n : 0 <= m -> 0 <= n -> exists x, shr (shr_record_of_loc m l) e n = (x, e + n) /\ shr_m x = m / 2 ^ n.
Proof.
  intros Hm Hn. destruct n as [|p|p]; [| |lia]; cbn [shr]; eexists.
  - split; [f_equal; lia|]. rewrite shr_of_loc, Z.div_1_r. reflexivity.
  - split; [reflexivity|]. rewrite shr_iter_m; rewrite shr_of_loc; auto.
Qed.
Lemma round_step m l : m <= round_nearest_even m l <= m + 1.
Proof. destruct l as [|[]]; cbn; try lia. destruct (Z.even m); lia. Qed.

Section Valid.
Variables (prec emax : Z).
Hypothesis Hprec : 0 < prec.
Notation fexp := (fexp prec emax).
Notation valid := (valid_binary prec emax).
Lemma fexp_low n e : n <= e -> e <= fexp n -> forall k, e <= fexp k.
Proof. unfold SpecFloat.fexp. lia. Qed.
Lemma aux_valid s M E l : 0 <= M -> E <= fexp (Zdigits2 M + E) -> valid (binary_round_aux prec emax s M E l) = true.
Proof.
  intros HM HE. unfold binary_round_aux, shr_fexp.
  destruct (shr_div M l E (fexp (Zdigits2 M + E) - E)) as (x & -> & Hx); [lia|lia|].
  set (k1 := fexp (Zdigits2 M + E) - E) in *. pose proof (round_step (shr_m x) (loc_of_shr_record x)) as HR. set (R := round_nearest_even _ _) in *.
  assert (K1 : 0 <= k1) by (unfold k1; lia). assert (X0 : 0 <= M / 2 ^ k1) by (apply Z.div_pos; [lia|apply p2_pos; auto]). rewrite Hx in HR.
  assert (HE1 : E + k1 <= fexp (Zdigits2 R + (E + k1))).
  { destruct (Z.le_gt_cases (Zdigits2 M) k1) as [L|L].
    - apply (fexp_low (Zdigits2 M + E)); unfold k1 in *; lia.
    - replace (E + k1) with (fexp (Zdigits2 M + E)) at 1 by (unfold k1; lia). apply fexp_mono.
      assert (Zdigits2 (M / 2 ^ k1) <= Zdigits2 R) by (apply dig_mono; lia). rewrite (proj2 (dig_div M k1 HM K1) L) in H. lia. }
  destruct (shr_div R loc_Exact (E + k1) (fexp (Zdigits2 R + (E + k1)) - (E + k1))) as (y & -> & Hy); [lia|lia|].
  set (k2 := fexp (Zdigits2 R + (E + k1)) - (E + k1)) in *. rewrite Hy. destruct (R / 2 ^ k2) as [|m|m] eqn:Em; [reflexivity| |reflexivity].
  destruct (Z.leb_spec (E + k1 + k2) (emax - prec)) as [L|L]; [|reflexivity]. unfold valid_binary, bounded, canonical_mantissa.
  apply andb_true_iff. split; [|apply Z.leb_le; auto]. apply Zeq_is_eq_bool.
  destruct (dig_div R k2) as (Q1 & Q2); [lia|unfold k2; lia|]. destruct (Z.le_gt_cases (Zdigits2 R) k2) as [L2|L2]; [rewrite Q1 in Em by auto; discriminate|].
  specialize (Q2 L2). rewrite Em in Q2. cbn [Zdigits2] in Q2. rewrite Q2. unfold k2.
  replace (Zdigits2 R - (fexp (Zdigits2 R + (E + k1)) - (E + k1)) + (E + k1 + (fexp (Zdigits2 R + (E + k1)) - (E + k1)))) with (Zdigits2 R + (E + k1)) by lia. lia.
Qed.
Lemma shift_pos_val d m : Zpos (shift_pos d m) = Zpos m * 2 ^ Zpos d.
Proof. rewrite Zpower.shift_pos_correct, Z.mul_comm. reflexivity. Qed.
Lemma dig_shift d m : Zdigits2 (Zpos (shift_pos d m)) = Zpos (digits2_pos m) + Zpos d.
Proof.
 rewrite shift_pos_val. pose proof (digits_bounds m) as [B1 B2]. set (dm := Zpos (digits2_pos m)) in *.
      apply Z.le_antisymm.
      - apply digits_le; [lia|lia|]. rewrite Z.pow_add_r by lia. apply Z.mul_lt_mono_pos_r; [apply p2_pos; lia|auto].
      - replace (dm + Zpos d) with (dm - 1 + Zpos d + 1) by lia. apply dig_lb; [lia|]. rewrite Z.pow_add_r by lia. apply Z.mul_le_mono_nonneg_r; [pose proof (p2_pos (Zpos d)); lia|auto].
Qed.
Lemma round_valid s m e : valid (binary_round prec emax s m e) = true.
Proof.
  unfold binary_round, shl_align. destruct (fexp (Zpos (digits2_pos m) + e) - e) as [|d|d] eqn:Ed.
  - apply aux_valid; [lia|]. cbn [Zdigits2]. lia.
  - apply aux_valid; [lia|]. cbn [Zdigits2]. lia.
  - set (e' := fexp _) in *. apply aux_valid; [lia|]. assert (Hd : Zdigits2 (Zpos (shift_pos d m)) = Zpos (digits2_pos m) + Zpos d) by apply dig_shift.
    rewrite Hd. replace (Zpos (digits2_pos m) + Zpos d + e') with (Zpos (digits2_pos m) + e) by lia. fold e'. lia.
Qed.
(** Rounding is monotone, in one direction: a number that is at least x rounds to at
    least x, or to an infinity. *)
Lemma aux_ge M E mx ex : E <= fexp (Zdigits2 (Zpos M) + E) -> bounded prec emax mx ex = true -> E <= ex ->
  Zpos mx * 2 ^ (ex - E) <= Zpos M -> SFleb (S754_finite false mx ex) (binary_round_aux prec emax false (Zpos M) E loc_Exact) = true.
Proof.
  intros HE Hb HEx HM. unfold bounded, canonical_mantissa in Hb. apply andb_true_iff in Hb. destruct Hb as [Hc _]. apply Zeq_bool_eq in Hc.
  pose proof (digits_bounds mx) as [Bx1 Bx2]. set (dx := Zpos (digits2_pos mx)) in *. assert (Dx : 1 <= dx) by (unfold dx; lia).
  unfold binary_round_aux, shr_fexp.
  destruct (shr_div (Zpos M) loc_Exact E (fexp (Zdigits2 (Zpos M) + E) - E)) as (x & -> & Hx); [lia|lia|].
  set (k1 := fexp (Zdigits2 (Zpos M) + E) - E) in *. pose proof (round_step (shr_m x) (loc_of_shr_record x)) as HR. set (R := round_nearest_even _ _) in *.
  assert (K1 : 0 <= k1) by (unfold k1; lia). pose proof (p2_pos k1 K1) as P1. assert (X0 : 0 <= Zpos M / 2 ^ k1) by (apply Z.div_pos; lia). rewrite Hx in HR.
  set (e1 := E + k1) in *.
  (* the digits of R reach those of x *)
  assert (DM : dx + ex <= Zdigits2 (Zpos M) + E).
  { assert (dx - 1 + (ex - E) + 1 <= Zdigits2 (Zpos M)); [|lia]. apply dig_lb; [lia|]. rewrite Z.pow_add_r by lia.
    assert (2 ^ (dx - 1) * 2 ^ (ex - E) <= Zpos mx * 2 ^ (ex - E)) by (apply Z.mul_le_mono_nonneg_r; [pose proof (p2_pos (ex - E)); lia|auto]). lia. }
  assert (E1 : ex <= e1).
  { replace e1 with (fexp (Zdigits2 (Zpos M) + E)) by (unfold e1, k1; lia). rewrite <- Hc. apply fexp_mono. auto. }
  assert (RL : (e1 = ex -> Zpos mx <= R) /\ 0 <= R).
  { split; [|lia]. intros Ee. assert (Ek : k1 = ex - E) by (unfold e1 in Ee; lia).
    assert (Zpos mx <= Zpos M / 2 ^ k1); [|lia]. apply Z.div_le_lower_bound; [lia|]. rewrite Ek. lia. }
  destruct RL as [RL R0].
  (* R is not 0 *)
  assert (DR : ex < e1 -> prec <= Zdigits2 R).
  { intros Lt. assert (Ef : e1 = Zdigits2 (Zpos M) + E - prec).
    { unfold e1, k1 in *. unfold SpecFloat.fexp in *. lia. }
    assert (Zdigits2 (Zpos M / 2 ^ k1) <= Zdigits2 R) by (apply dig_mono; lia).
    rewrite (proj2 (dig_div (Zpos M) k1 ltac:(lia) K1)) in H; unfold e1 in Ef; lia. }
  assert (HE1 : e1 <= fexp (Zdigits2 R + e1)).
  { destruct (Z.le_gt_cases (Zdigits2 (Zpos M)) k1) as [L|L].
    - apply (fexp_low (Zdigits2 (Zpos M) + E)); unfold e1, k1 in *; lia.
    - replace e1 with (fexp (Zdigits2 (Zpos M) + E)) at 1 by (unfold e1, k1; lia). apply fexp_mono.
      assert (Zdigits2 (Zpos M / 2 ^ k1) <= Zdigits2 R) by (apply dig_mono; lia). rewrite (proj2 (dig_div (Zpos M) k1 ltac:(lia) K1) L) in H. unfold e1. lia. }
  destruct (shr_div R loc_Exact e1 (fexp (Zdigits2 R + e1) - e1)) as (y & -> & Hy); [lia|lia|].
  set (k2 := fexp (Zdigits2 R + e1) - e1) in *. assert (K2 : 0 <= k2) by (unfold k2; lia). rewrite Hy.
  assert (N0 : 0 < R / 2 ^ k2 /\ (e1 + k2 = ex -> Zpos mx <= R / 2 ^ k2)).
  { destruct (Z.eq_dec e1 ex) as [Ee|Ne].
    - specialize (RL Ee). assert (D : dx <= Zdigits2 R) by (change dx with (Zdigits2 (Zpos mx)); apply dig_mono; lia). split.
      + destruct (Z.le_gt_cases (Zdigits2 R) k2) as [L|L].
        * exfalso. unfold k2, SpecFloat.fexp in *. lia.
        * pose proof (proj2 (dig_div R k2 R0 K2) L) as Q. assert (0 <= R / 2 ^ k2) by (apply Z.div_pos; [lia|apply p2_pos; auto]).
          destruct (R / 2 ^ k2); [cbn in Q; lia|lia|lia].
      + intros Ek. assert (k2 = 0) by lia. rewrite H. rewrite Z.div_1_r. auto.
    - assert (Lt : ex < e1) by lia. specialize (DR Lt). split; [|lia]. destruct (Z.le_gt_cases (Zdigits2 R) k2) as [L|L].
      + exfalso. unfold k2, SpecFloat.fexp in *. lia.
      + pose proof (proj2 (dig_div R k2 R0 K2) L) as Q. assert (0 <= R / 2 ^ k2) by (apply Z.div_pos; [lia|apply p2_pos; auto]).
        destruct (R / 2 ^ k2); [cbn in Q; lia|lia|lia]. }
  destruct N0 as [N0 N1]. destruct (R / 2 ^ k2) as [|m|m]; [lia| |lia].
  destruct (Z.leb_spec (e1 + k2) (emax - prec)) as [L|L]; [|reflexivity].
  unfold SFleb, SFcompare. destruct (Z.compare_spec ex (e1 + k2)) as [Ee|Lt|Gt]; [|reflexivity|lia].
  specialize (N1 (eq_sym Ee)). change (Pos.compare_cont Eq mx m) with (Pos.compare mx m). destruct (Pos.compare_spec mx m); [reflexivity|reflexivity|lia].
Qed.
Lemma round_ge m e mx ex : bounded prec emax mx ex = true -> e <= ex -> Zpos mx * 2 ^ (ex - e) <= Zpos m ->
  SFleb (S754_finite false mx ex) (binary_round prec emax false m e) = true.
Proof.
  intros Hb He Hm. unfold binary_round, shl_align. destruct (fexp (Zpos (digits2_pos m) + e) - e) as [|d|d] eqn:Ed.
  - apply aux_ge; auto. cbn [Zdigits2]. lia.
  - apply aux_ge; auto. cbn [Zdigits2]. lia.
  - set (e' := fexp _) in *. assert (Hd : Zdigits2 (Zpos (shift_pos d m)) = Zpos (digits2_pos m) + Zpos d) by apply dig_shift.
    apply aux_ge; auto; [|lia|].
    + rewrite Hd. replace (Zpos (digits2_pos m) + Zpos d + e') with (Zpos (digits2_pos m) + e) by lia. fold e'. lia.
    + rewrite shift_pos_val. replace (ex - e') with (ex - e + Zpos d) by lia. rewrite Z.pow_add_r, Z.mul_assoc by lia.
      apply Z.mul_le_mono_nonneg_r; [pose proof (p2_pos (Zpos d)); lia|auto].
Qed.
Lemma normalize_valid m e z : valid (binary_normalize prec emax m e z) = true.
Proof. destruct m; cbn [binary_normalize]; [reflexivity|apply round_valid|apply round_valid]. Qed.
Lemma add_valid x y : valid x = true -> valid y = true -> valid (SFadd prec emax x y) = true.
Proof.
  destruct x as [sx|sx| |sx mx ex], y as [sy|sy| |sy my ey]; intros Hx Hy; cbn [SFadd]; auto; try (destruct (Bool.eqb _ _); reflexivity). apply normalize_valid.
Qed.
Lemma opp_valid x : valid x = true -> valid (SFopp x) = true.
Proof. destruct x; auto. Qed.
Lemma abs_valid x : valid x = true -> valid (SFabs x) = true.
Proof. destruct x; auto. Qed.
Lemma sub_valid x y : valid x = true -> valid y = true -> valid (SFsub prec emax x y) = true.
Proof.
  destruct x as [sx|sx| |sx mx ex], y as [sy|sy| |sy my ey]; intros Hx Hy; cbn [SFsub]; auto; try (destruct (Bool.eqb _ _); reflexivity). apply normalize_valid.
Qed.
Lemma bounded_exp m e : bounded prec emax m e = true -> fexp (Zpos (digits2_pos m) + e) = e.
Proof. unfold bounded, canonical_mantissa. intros H. apply andb_true_iff in H. destruct H as [H _]. apply Zeq_bool_eq in H. auto. Qed.
Hypothesis Hemax : 3 - emax - prec <= 0.
Lemma mul_valid x y : valid x = true -> valid y = true -> valid (SFmul prec emax x y) = true.
Proof.
  destruct x as [sx|sx| |sx mx ex], y as [sy|sy| |sy my ey]; intros Hx Hy; cbn [SFmul]; auto. apply aux_valid; [lia|].
  apply bounded_exp in Hx, Hy. pose proof (digits_bounds mx) as [Bx _]. pose proof (digits_bounds my) as [By _].
  set (dx := Zpos (digits2_pos mx)) in *. set (dy := Zpos (digits2_pos my)) in *. assert (1 <= dx /\ 1 <= dy) by (unfold dx, dy; lia).
  assert (D : dx + dy - 1 <= Zdigits2 (Zpos (mx * my))).
  { replace (dx + dy - 1) with (dx - 1 + (dy - 1) + 1) by lia. apply dig_lb; [lia|]. rewrite Z.pow_add_r by lia.
    replace (Zpos (mx * my)) with (Zpos mx * Zpos my) by lia. apply Z.mul_le_mono_nonneg; try lia; pose proof (p2_pos (dx - 1)); pose proof (p2_pos (dy - 1)); lia. }
  clearbody dx dy. unfold SpecFloat.fexp, emin in *. lia.
Qed.
Lemma div_valid x y : valid x = true -> valid y = true -> valid (SFdiv prec emax x y) = true.
Proof.
  destruct x as [sx|sx| |sx mx ex], y as [sy|sy| |sy my ey]; intros Hx Hy; cbn [SFdiv]; auto. unfold SFdiv_core_binary.
  pose proof (dig_bounds (Zpos mx)) as (D1 & Bx & _); [lia|]. pose proof (dig_bounds (Zpos my)) as (D2 & _ & By); [lia|].
  set (d1 := Zdigits2 (Zpos mx)) in *. set (d2 := Zdigits2 (Zpos my)) in *. set (e' := Z.min _ _). set (s := ex - ey - e').
  assert (S0 : 0 <= s) by (unfold s, e'; lia).
  assert (E : (match s with 0 => Zpos mx | Zpos _ => Z.shiftl (Zpos mx) s | Zneg _ => 0 end) = Zpos mx * 2 ^ s).
  { destruct s eqn:Es; [cbn; lia|rewrite Z.shiftl_mul_pow2 by lia; reflexivity|lia]. }
  rewrite E. pose proof (p2_pos s S0) as Ps. pose proof (Z_div_mod (Zpos mx * 2 ^ s) (Zpos my) ltac:(lia)) as Q. destruct (Z.div_eucl _ _) as [q r]. destruct Q as [Q1 Q2].
  assert (q0 : 0 <= q) by nia. apply aux_valid; [auto|].
  destruct (Z.le_gt_cases (d1 + s - d2) 0) as [L|L].
  - apply (fexp_low (d1 + ex - (d2 + ey))); unfold s, e' in *; lia.
  - assert (Dq : d1 + s - d2 <= Zdigits2 q).
    { replace (d1 + s - d2) with (d1 - 1 + s - d2 + 1) by lia. apply dig_lb; [lia|].
      destruct (Z.le_gt_cases (2 ^ (d1 - 1 + s - d2)) q) as [|G]; [auto|]. exfalso.
      assert (E1 : 2 ^ (d1 - 1) * 2 ^ s = 2 ^ (d1 - 1 + s - d2) * 2 ^ d2) by (rewrite <- !Z.pow_add_r by lia; f_equal; lia).
      assert (2 ^ (d1 - 1) * 2 ^ s <= Zpos mx * 2 ^ s) by (apply Z.mul_le_mono_nonneg_r; lia).
      assert (Zpos mx * 2 ^ s < Zpos my * (q + 1)) by nia.
      assert (Zpos my * (q + 1) <= 2 ^ d2 * 2 ^ (d1 - 1 + s - d2)) by (apply Z.mul_le_mono_nonneg; lia). lia. }
    assert (fexp (d1 + ex - (d2 + ey)) <= fexp (Zdigits2 q + e')) by (apply fexp_mono; unfold s in *; lia). unfold e' in *. lia.
Qed.
End Valid.
