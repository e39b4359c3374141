(** FloatFacts.v: facts about SpecFloat's rounding. *)
From Coq Require Import ZArith Bool Lia SpecFloat.
From Verif Require Import Mat Feq Float.
Local Open Scope Z_scope.

Lemma p2_pos n : 0 <= n -> 0 < 2 ^ n.
Proof. intros. apply Z.pow_pos_nonneg; lia. Qed.
Lemma p2_S n : 0 <= n -> 2 ^ (n + 1) = 2 * 2 ^ n.
Proof. intros. rewrite Z.pow_add_r by lia. lia. Qed.

(** Number of digits. *)
Lemma digits_bounds p : 2 ^ (Zpos (digits2_pos p) - 1) <= Zpos p < 2 ^ Zpos (digits2_pos p).
Proof.
  induction p as [p IH|p IH|]; cbn [digits2_pos].
  - rewrite Pos2Z.inj_succ. replace (Z.succ (Zpos (digits2_pos p)) - 1) with ((Zpos (digits2_pos p) - 1) + 1) by lia.
    unfold Z.succ. rewrite !p2_S by lia. lia.
  - rewrite Pos2Z.inj_succ. replace (Z.succ (Zpos (digits2_pos p)) - 1) with ((Zpos (digits2_pos p) - 1) + 1) by lia.
    unfold Z.succ. rewrite !p2_S by lia. lia.
  - cbn. lia.
Qed.
Lemma digits_le m d : 0 <= d -> 0 <= m -> m < 2 ^ d -> Zdigits2 m <= d.
Proof.
  intros Hd Hm H. destruct m as [|p|p]; cbn; [lia| |lia].
  destruct (Z.le_gt_cases (Zpos (digits2_pos p)) d) as [|G]; [auto|]. exfalso.
  pose proof (digits_bounds p) as [B _]. assert (2 ^ d <= 2 ^ (Zpos (digits2_pos p) - 1)) by (apply Z.pow_le_mono_r; lia). lia.
Qed.

(** The state after shifting m0 right by n bits. *)
Definition shifted (m0 n : Z) (x : shr_record) : Prop :=
  0 <= n /\ 0 <= shr_m x /\ exists rem, m0 = shr_m x * 2 ^ n + rem /\ 0 <= rem < 2 ^ n /\
    (shr_r x = true -> 1 <= n /\ 2 ^ (n - 1) <= rem).
Lemma shifted_1 m0 n x : shifted m0 n x -> shifted m0 (n + 1) (shr_1 x).
Proof.
  intros (Hn & Hm & rem & E & Hr & Hb). destruct x as [m r s]. cbn [shr_m shr_r] in *. unfold shifted. rewrite p2_S by lia.
  replace (n + 1 - 1) with n by lia. split; [lia|]. unfold shr_1. destruct m as [|[p|p|]|p]; cbn [shr_m shr_r]; [| | | |lia].
  - split; [lia|]. exists rem. split; [lia|]. split; [lia|]. discriminate.
  - split; [lia|]. exists (2 ^ n + rem). split; [|split; [lia|]].
    + rewrite E. replace (Zpos p~1) with (2 * Zpos p + 1) by lia. ring.
    + intros _. lia.
  - split; [lia|]. exists rem. split; [|split; [lia|discriminate]]. rewrite E. replace (Zpos p~0) with (2 * Zpos p) by lia. ring.
  - split; [lia|]. exists (2 ^ n + rem). split; [rewrite E; ring|]. split; [lia|]. intros _. lia.
Qed.
Lemma shifted_iter p : forall m0 n x, shifted m0 n x -> shifted m0 (n + Zpos p) (SpecFloat.iter_pos shr_1 p x).
Proof.
  induction p as [p IH|p IH|]; intros m0 n x H; cbn [SpecFloat.iter_pos].
  - replace (n + Zpos p~1) with (n + 1 + Zpos p + Zpos p) by lia. apply IH, IH, shifted_1, H.
  - replace (n + Zpos p~0) with (n + Zpos p + Zpos p) by lia. apply IH, IH, H.
  - apply shifted_1, H.
Qed.
(** [shr]: the shift is [Z.max 0 n]. *)
Lemma shr_shifted m0 e n : 0 <= m0 -> exists x, shr (shr_record_of_loc m0 loc_Exact) e n = (x, e + Z.max 0 n) /\ shifted m0 (Z.max 0 n) x.
Proof.
  intros H0. assert (B : shifted m0 0 (Build_shr_record m0 false false)).
  { split; [lia|]. split; [auto|]. exists 0. cbn. split; [lia|]. split; [lia|]. discriminate. }
  destruct n as [|p|p]; cbn [shr shr_record_of_loc].
  - eexists. split; [f_equal; lia|exact B].
  - eexists. split; [f_equal; lia|]. apply (shifted_iter p m0 0 _ B).
  - eexists. split; [f_equal; lia|exact B].
Qed.
(** Rounding: at most half a unit above. *)
Lemma rounded m0 n x : shifted m0 n x ->
  let R := round_nearest_even (shr_m x) (loc_of_shr_record x) in
  0 <= R /\ 2 * R * 2 ^ n <= 2 * m0 + 2 ^ n /\ (n = 0 -> R = m0).
Proof.
  intros (Hn & Hm & rem & E & Hr & Hb). cbv zeta. destruct x as [m r s]. cbn [shr_m shr_r] in *.
  pose proof (p2_pos n Hn) as Hp.
  assert (K : 0 <= m /\ 2 * m * 2 ^ n <= 2 * m0 + 2 ^ n /\ (n = 0 -> m = m0)).
  { split; [lia|]. split; [nia|]. intros ->. cbn in *. lia. }
  destruct r.
  - destruct Hb as [N1 B]; [reflexivity|].
    assert (K' : 0 <= m + 1 /\ 2 * (m + 1) * 2 ^ n <= 2 * m0 + 2 ^ n /\ (n = 0 -> m + 1 = m0)).
    { split; [lia|]. split; [|lia]. replace n with (n - 1 + 1) in * by lia. rewrite p2_S in * by lia.
      replace (n - 1 + 1 - 1) with (n - 1) in B by lia. nia. }
    destruct s; cbn [loc_of_shr_record round_nearest_even]; [exact K'|]. destruct (Z.even m); [exact K|exact K'].
  - destruct s; cbn [loc_of_shr_record round_nearest_even]; exact K.
Qed.

Section Round.
Variables (prec emax : Z).
(** Rounding the positive number M * 2^E: a zero, a finite number or an infinity of the
    given sign, with a mantissa and an exponent bounded as described. *)
Lemma round_aux s M E : exists R e1,
  e1 = E + Z.max 0 (fexp prec emax (Zdigits2 (Zpos M) + E) - E) /\
  0 <= R /\ 2 * R * 2 ^ (e1 - E) <= 2 * Zpos M + 2 ^ (e1 - E) /\ (e1 = E -> R = Zpos M) /\
  let e2 := e1 + Z.max 0 (fexp prec emax (Zdigits2 R + e1) - e1) in
  (binary_round_aux prec emax s (Zpos M) E loc_Exact = S754_zero s) \/
  (exists m, binary_round_aux prec emax s (Zpos M) E loc_Exact = S754_finite s m e2 /\ Zpos m * 2 ^ (e2 - e1) <= R /\ e2 <= emax - prec) \/
  (binary_round_aux prec emax s (Zpos M) E loc_Exact = S754_infinity s /\ emax - prec < e2).
Proof.
  unfold binary_round_aux, shr_fexp.
  destruct (shr_shifted (Zpos M) E (fexp prec emax (Zdigits2 (Zpos M) + E) - E)) as (x & Ex & Hx); [lia|]. rewrite Ex.
  set (k1 := Z.max 0 _) in *. pose proof (rounded _ _ _ Hx) as Hr. cbv zeta in Hr. set (R := round_nearest_even _ _) in *.
  destruct Hr as (R0 & R1 & R2). exists R, (E + k1). split; [reflexivity|]. split; [exact R0|].
  replace (E + k1 - E) with k1 by lia. split; [exact R1|]. split; [intros; apply R2; lia|]. cbv zeta.
  destruct (shr_shifted R (E + k1) (fexp prec emax (Zdigits2 R + (E + k1)) - (E + k1)) R0) as (y & Ey & Hy). rewrite Ey.
  set (k2 := Z.max 0 (_ - (E + k1))) in *. replace (E + k1 + k2 - (E + k1)) with k2 by lia.
  destruct Hy as (N2 & P2 & rem & E2 & Hrem & _). destruct (shr_m y) as [|m|m]; [left; reflexivity| |lia].
  destruct (Z.leb_spec (E + k1 + k2) (emax - prec)) as [L|L].
  - right. left. exists m. split; [reflexivity|]. split; [|exact L]. lia.
  - right. right. split; [reflexivity|exact L].
Qed.
Lemma fexp_mono a b : a <= b -> fexp prec emax a <= fexp prec emax b.
Proof. unfold fexp. lia. Qed.
(** Multiplying by at most 1/4 gives a smaller number. *)
Lemma mul_small mt et mx ex s : et < 0 -> 4 * Zpos mt <= 2 ^ (- et) -> bounded prec emax mx ex = true ->
  SFleb (S754_finite false mx ex) (SFmul prec emax (S754_finite s mt et) (S754_finite s mx ex)) = false.
Proof.
  intros Het Hmt Hb. unfold bounded in Hb. apply andb_true_iff in Hb. destruct Hb as [Hc He].
  unfold canonical_mantissa in Hc. apply Zeq_bool_eq in Hc. apply Z.leb_le in He.
  cbn [SFmul]. rewrite xorb_nilpotent. set (M := (mt * mx)%positive). set (E := et + ex).
  pose proof (digits_bounds mx) as [Bx1 Bx2]. set (dx := Zpos (digits2_pos mx)) in *.
  assert (HM : 4 * Zpos M <= Zpos mx * 2 ^ (- et)) by (unfold M; nia).
  assert (HdM : Zdigits2 (Zpos M) <= dx - et - 2).
  { apply digits_le; [lia|lia|]. assert (4 * 2 ^ (dx - et - 2) = 2 ^ dx * 2 ^ (- et)).
    { change 4 with (2 ^ 2). rewrite <- !Z.pow_add_r by lia. f_equal. lia. }
    assert (Zpos mx * 2 ^ (- et) < 2 ^ dx * 2 ^ (- et)) by (apply Z.mul_lt_mono_pos_r; [apply p2_pos; lia|lia]). lia. }
  destruct (round_aux false M E) as (R & e1 & Ee1 & R0 & R1 & R2 & H). cbv zeta in H.
  assert (L1 : e1 <= ex).
  { rewrite Ee1. assert (fexp prec emax (Zdigits2 (Zpos M) + E) <= ex); [|unfold E in *; lia].
    rewrite <- Hc. apply fexp_mono. unfold E. lia. }
  set (q := ex - e1). assert (Q0 : 0 <= q) by (unfold q; lia). pose proof (p2_pos q Q0) as Pq.
  assert (L2 : R < Zpos mx * 2 ^ q).
  { set (k1 := e1 - E) in *. assert (K0 : 0 <= k1) by (unfold k1; lia). pose proof (p2_pos k1 K0) as Pk.
    assert (Esp : 2 ^ (- et) = 2 ^ k1 * 2 ^ q) by (rewrite <- Z.pow_add_r by lia; f_equal; unfold k1, q, E; lia).
    rewrite Esp in HM. set (P := Zpos mx * 2 ^ q) in *. assert (P1 : 1 <= P) by (unfold P; nia).
    assert (4 * R * 2 ^ k1 <= P * 2 ^ k1 + 2 * 2 ^ k1) by (unfold P; nia).
    assert (4 * R <= P + 2) by nia. lia. }
  set (e2 := e1 + _) in H.
  assert (L3 : e2 <= ex).
  { unfold e2. assert (fexp prec emax (Zdigits2 R + e1) <= ex); [|lia]. rewrite <- Hc. apply fexp_mono.
    assert (Zdigits2 R <= dx + q); [|fold dx; lia]. apply digits_le; [lia|auto|]. rewrite Z.pow_add_r by lia.
    assert (Zpos mx * 2 ^ q < 2 ^ dx * 2 ^ q) by (apply Z.mul_lt_mono_pos_r; lia). lia. }
  destruct H as [H|[(m & H & Hm & _)|[H Hx]]].
  - rewrite H. reflexivity.
  - rewrite H. unfold SFleb, SFcompare. destruct (Z.compare_spec ex e2) as [Eqx|Lt1|Gt1]; [|lia|reflexivity].
    assert (m < mx)%positive.
    { rewrite <- Eqx in Hm. fold q in Hm. change (Z.pos m < Z.pos mx).
      apply (Z.mul_lt_mono_pos_r (2 ^ q)); [lia|]. lia. }
    change (Pos.compare_cont Eq mx m) with (Pos.compare mx m). destruct (Pos.compare_spec mx m); [lia|lia|reflexivity].
  - lia.
Qed.
(** The product of two positive numbers is a number of positive sign. *)
Lemma mul_pos m1 e1 m2 e2 : let y := SFmul prec emax (S754_finite false m1 e1) (S754_finite false m2 e2) in
  y = S754_zero false \/ y = S754_infinity false \/ exists m e, y = S754_finite false m e.
Proof.
  cbv zeta. cbn [SFmul]. destruct (round_aux (xorb false false) (m1 * m2) (e1 + e2)) as (R & e & _ & _ & _ & _ & H). cbv zeta in H.
  destruct H as [->|[(m & -> & _)|[-> _]]]; eauto.
Qed.
(** a - b and b - a have the same absolute value. *)
Lemma abs_round sx m e : SFabs (binary_round prec emax sx m e) = SFabs (binary_round prec emax (negb sx) m e).
Proof.
  unfold binary_round. destruct (shl_align m e _) as [mz ez]. unfold binary_round_aux.
  destruct (shr_fexp prec emax (Zpos mz) ez loc_Exact) as [x e']. destruct (shr_fexp prec emax _ e' loc_Exact) as [y e''].
  destruct (shr_m y); try reflexivity. destruct (e'' <=? emax - prec); reflexivity.
Qed.
Lemma abs_sub a b : SFabs (SFsub prec emax a b) = SFabs (SFsub prec emax b a).
Proof.
  destruct a as [sa|sa| |sa ma ea], b as [sb|sb| |sb mb eb]; cbn [SFsub]; try reflexivity.
  - destruct sa, sb; reflexivity.
  - destruct sa, sb; reflexivity.
  - rewrite Z.min_comm. set (x := cond_Zopp sa _). set (y := cond_Zopp sb _).
    replace (y - x) with (- (x - y)) by lia. destruct (x - y) as [|p|p]; cbn [Z.opp binary_normalize]; [reflexivity|apply (abs_round false)|].
    symmetry. apply (abs_round false).
Qed.
End Round.
Lemma ltb_asym a b : SFltb a b = true -> SFltb b a = false.
Proof.
  unfold SFltb, SFcompare. destruct a as [sa|sa| |sa ma ea], b as [sb|sb| |sb mb eb]; try discriminate; try (destruct sa; reflexivity || discriminate);
    try (destruct sb; reflexivity || discriminate); try (destruct sa, sb; reflexivity || discriminate).
  destruct sa, sb; try discriminate; try reflexivity; rewrite (Z.compare_antisym ea eb); destruct (ea ?= eb); cbn; try reflexivity; try discriminate;
    change (Pos.compare_cont Eq ma mb) with (Pos.compare ma mb); change (Pos.compare_cont Eq mb ma) with (Pos.compare mb ma);
    rewrite (Pos.compare_antisym ma mb); destruct (Pos.compare ma mb); cbn; reflexivity || discriminate.
Qed.
(** Absolute values that are not ordered are equal, or one is NaN. *)
Lemma ltb_abs a b : SFltb (SFabs a) (SFabs b) = false -> SFltb (SFabs b) (SFabs a) = false ->
  a = S754_nan \/ b = S754_nan \/ SFabs a = SFabs b.
Proof.
  unfold SFltb, SFcompare. destruct a as [sa|sa| |sa ma ea], b as [sb|sb| |sb mb eb]; cbn [SFabs]; auto; try discriminate.
  rewrite (Z.compare_antisym ea eb). destruct (Z.compare_spec ea eb) as [->|L|L]; cbn [CompOpp]; try discriminate.
  change (Pos.compare_cont Eq ma mb) with (Pos.compare ma mb). change (Pos.compare_cont Eq mb ma) with (Pos.compare mb ma).
  rewrite (Pos.compare_antisym ma mb). destruct (Pos.compare_spec ma mb) as [->|L|L]; cbn [CompOpp]; try discriminate. auto.
Qed.
(** The numeric order as a lexicographic one. *)
Definition key (x : double) : Z * Z * Z :=
  match x with
  | S754_zero _ => (0, 0, 0) | S754_infinity false => (2, 0, 0) | S754_infinity true => (-2, 0, 0) | S754_nan => (0, 0, 0)
  | S754_finite false m e => (1, e, Zpos m) | S754_finite true m e => (-1, - e, - Zpos m)
  end%Z.
Definition klt (a b : Z * Z * Z) : Prop :=
  let '(a1, a2, a3) := a in let '(b1, b2, b3) := b in (a1 < b1 \/ (a1 = b1 /\ (a2 < b2 \/ (a2 = b2 /\ a3 < b3))))%Z.
Lemma klt_ltb x y : x <> nan -> y <> nan -> (SFltb x y = true <-> klt (key x) (key y)).
Proof.
  intros Hx Hy. unfold nan in *. destruct x as [sx|[]| |[] mx ex]; [| | |congruence| |]; (destruct y as [sy|[]| |[] my ey]; [| | |congruence| |]);
    unfold SFltb, SFcompare, klt, key; try (split; [discriminate|lia]); try (split; [intros; lia|reflexivity]).
  - destruct (Z.compare_spec ex ey) as [->|L|L]; [|split; [discriminate|lia]|split; [lia|reflexivity]].
    change (Pos.compare_cont Eq mx my) with (Pos.compare mx my). destruct (Pos.compare_spec mx my) as [->|L|L]; cbn; (split; [discriminate || lia|]); [lia|lia|reflexivity].
  - destruct (Z.compare_spec ex ey) as [->|L|L]; [|split; [lia|reflexivity]|split; [discriminate|lia]].
    change (Pos.compare_cont Eq mx my) with (Pos.compare mx my). destruct (Pos.compare_spec mx my) as [->|L|L]; (split; [discriminate || lia|]); [lia|reflexivity|lia].
Qed.
Lemma klt_leb x y : SFleb x y = true <-> x <> nan /\ y <> nan /\ ~ klt (key y) (key x).
Proof.
  unfold nan. destruct (SFcompare x y) as [c|] eqn:E.
  - assert (Hx : x <> S754_nan) by (intros ->; destruct y; discriminate). assert (Hy : y <> S754_nan) by (intros ->; destruct x; discriminate).
    rewrite <- klt_ltb by auto. split.
    + intros H. split; [auto|]. split; [auto|]. intros H'. unfold SFleb in H. rewrite E in H. destruct c; [|apply ltb_asym in H'; unfold SFltb in H'; rewrite E in H'; discriminate|discriminate].
      apply klt_ltb in H'; auto. revert E H'. destruct x as [sx|[]| |[] mx ex]; [| | |congruence| |]; (destruct y as [sy|[]| |[] my ey]; [| | |congruence| |]);
        unfold SFcompare, klt, key; try discriminate; try (intros _; lia);
        (destruct (Z.compare_spec ex ey) as [->|L|L]; try discriminate); change (Pos.compare_cont Eq mx my) with (Pos.compare mx my);
        destruct (Pos.compare_spec mx my) as [->|L|L]; try discriminate; intros _; lia.
    + intros (_ & _ & H). unfold SFleb. rewrite E. destruct c; auto. exfalso. apply H. apply klt_ltb; auto.
      revert E. destruct x as [sx|[]| |[] mx ex]; [| | |congruence| |]; (destruct y as [sy|[]| |[] my ey]; [| | |congruence| |]);
        unfold SFcompare, klt, key; try discriminate; try (intros _; lia);
        (destruct (Z.compare_spec ex ey) as [->|L|L]; try discriminate; try (intros _; lia)); change (Pos.compare_cont Eq mx my) with (Pos.compare mx my);
        destruct (Pos.compare_spec mx my) as [->|L|L]; try discriminate; intros _; lia.
  - unfold SFleb. rewrite E. split; [discriminate|]. intros (Hx & Hy & _). exfalso. revert E.
    destruct x as [sx|[]| |[] mx ex]; [| | |congruence| |]; (destruct y as [sy|[]| |[] my ey]; [| | |congruence| |]); discriminate.
Qed.
Lemma ltb_nan x : SFltb x nan = false /\ SFltb nan x = false.
Proof. destruct x; split; reflexivity. Qed.
Ltac keys := intros; cbv beta in *;
  repeat match goal with H : SFltb ?a ?b = false |- _ => apply not_true_iff_false in H; rewrite klt_ltb in H by assumption end;
  repeat match goal with H : SFltb ?a ?b = true |- _ => rewrite klt_ltb in H by assumption end;
  rewrite klt_ltb by assumption; unfold klt in *;
  repeat match goal with |- context [key ?x] => destruct (key x) as [[? ?] ?] | H : context [key ?x] |- _ => destruct (key x) as [[? ?] ?] end; lia.
