(** FloatSqrt.v: the square root of SpecFloat rounds the exact root correctly.  Any precision
    and exponent range. *)
From Coq Require Import ZArith QArith Qabs Qpower Bool Lia Lqa SpecFloat.
From Verif Require Import Float FloatFacts FloatValid FloatRound FloatArith.
Local Open Scope Z_scope.
Section Sqrt.
Variables (prec emax : Z).
Hypothesis Hprec : 0 < prec.
Notation fexp := (fexp prec emax).
Notation rounds := (rounds prec emax).

(** All rational numbers in the same half unit are rounded alike. *)
Lemma cell_rounds M E (g : bool) r : 0 <= M -> E <= fexp (Zdigits2 M + E) ->
  let a := (inject_Z M + (if g then 1 # 2 else 0))%Q in (a * p2 E < r < (a + (1 # 2)) * p2 E)%Q ->
  rounds false r (binary_round_aux prec emax false M E (loc_Inexact (if g then Gt else Lt))).
Proof.
  intros HM HF a [L1 L2]. pose proof (q2_pos E) as PE. set (x := (r / p2 E)%Q).
  assert (EX : (r == x * p2 E)%Q) by (unfold x; field; lra). rewrite EX in L1, L2.
  assert (X1 : (a < x)%Q) by (apply (Qmult_lt_r _ _ (p2 E) PE); exact L1). assert (X2 : (x < a + (1 # 2))%Q) by (apply (Qmult_lt_r _ _ (p2 E) PE); exact L2).
  apply (aux_Q prec emax Hprec _ M E _ (Qnum x) (Zpos (Qden x))); [lia| |exact HF|].
  - clear - HM X1 X2. unfold a in *. destruct x as [n d]. cbn [Qnum Qden]. unfold rloc. rewrite shr_of_loc.
    destruct g; cbn [shr_record_of_loc shr_r shr_s]; unfold Qlt, Qplus, inject_Z in X1, X2; cbn [Qnum Qden] in X1, X2; split; try lia; rewrite ?Pos2Z.inj_mul in *; lia.
  - rewrite EX. destruct x as [n d]. cbn [Qnum Qden]. unfold Qeq, Qmult, inject_Z. cbn [Qnum Qden]. rewrite !Pos2Z.inj_mul. lia.
Qed.
Lemma half_le a b : 2 * a <= b -> a <= b / 2. Proof. intros H. apply Z.div_le_lower_bound; lia. Qed.
Lemma sqrt_digits M q : 0 < M -> q * q <= M < (q + 1) * (q + 1) -> 0 <= q -> (Zdigits2 M + 1) / 2 <= Zdigits2 q.
Proof.
  intros HM [H1 H2] H0. destruct (dig_bounds M HM) as (D1 & D2 & _). set (D := Zdigits2 M) in *. clearbody D.
  set (k := (D - 1) / 2). assert (K0 : 0 <= k) by (unfold k; apply Z.div_pos; lia). assert (K1 : 2 * k <= D - 1) by (unfold k; apply Z.mul_div_le; lia).
  replace ((D + 1) / 2) with (k + 1); [|unfold k; replace (D + 1) with (D - 1 + 1 * 2) by lia; rewrite Z.div_add by lia; lia].
  apply dig_lb; [exact K0|]. assert (2 ^ k * 2 ^ k <= M).
  { rewrite <- Z.pow_add_r by lia. eapply Z.le_trans; [|exact D2]. apply Z.pow_le_mono_r; lia. }
  pose proof (p2_pos k K0). nia.
Qed.
(** The result for m * 2^e: either the root is a rational number and rounded, or it lies
    between a and b, and everything there has the same rounding. *)
Definition root_cell (v : Q) (y : spec_float) : Prop :=
  (exists a, 0 < a /\ a * a == v /\ rounds false a y)%Q \/
  (exists a b, 0 < a /\ a < b /\ b <= 2 * a /\ a * a <= v /\ v <= b * b /\ forall r, a < r < b -> rounds false r y)%Q.
Theorem sqrt_cell m e : let y := (let '(mz, ez, lz) := SFsqrt_core_binary prec emax (Zpos m) e in binary_round_aux prec emax false mz ez lz) in
  valid_binary prec emax y = true /\ root_cell (inject_Z (Zpos m) * p2 e) y.
Proof.
  unfold SFsqrt_core_binary. cbv zeta. rewrite !Z.div2_div. set (a := Zpos m). assert (Ha : 0 < a) by (unfold a; lia). clearbody a.
  set (D := Zdigits2 a). set (E := Z.min (fexp ((D + e + 1) / 2)) (e / 2)). set (s := e - 2 * E).
  assert (S0 : 0 <= s) by (unfold s, E; pose proof (Z.mul_div_le e 2 ltac:(lia)); lia).
  assert (EM : match s with Zpos _ => Z.shiftl a s | 0 => a | Zneg _ => 0 end = a * 2 ^ s).
  { destruct s as [|q|q] eqn:Q; [cbn; lia|rewrite Z.shiftl_mul_pow2 by lia; reflexivity|lia]. }
  rewrite EM. pose proof (p2_pos s S0) as PS. set (M := a * 2 ^ s). assert (HM : 0 < M) by (unfold M; nia).
  pose proof (Z.sqrtrem_spec M ltac:(lia)) as SP. destruct (Z.sqrtrem M) as [q r]. destruct SP as (R1 & R2).
  assert (Q1 : 0 < q) by nia.
  assert (DM : D + s <= Zdigits2 M).
  { destruct (dig_bounds a Ha) as (D1 & D2 & _). fold D in D1, D2. replace (D + s) with (D - 1 + s + 1) by lia. apply dig_lb; [lia|]. rewrite Z.pow_add_r by lia. unfold M. nia. }
  assert (HF : E <= fexp (Zdigits2 q + E)).
  { pose proof (sqrt_digits M q HM ltac:(lia) ltac:(lia)) as DQ. assert (LE : (D + e + 1) / 2 <= Zdigits2 q + E).
    { replace (D + e + 1) with (D + s + 1 + E * 2) by (unfold s; lia). rewrite Z.div_add by lia. assert ((D + s + 1) / 2 <= (Zdigits2 M + 1) / 2) by (apply Z.div_le_mono; lia). lia. }
    etransitivity; [|apply fexp_mono; exact LE]. unfold E. lia. }
  assert (V : (inject_Z a * p2 e == inject_Z M * (p2 E * p2 E))%Q).
  { unfold M. rewrite inject_Z_mult, <- (q2_Z s), <- q2_add by lia. rewrite <- Qmult_assoc, <- q2_add. replace (s + (E + E)) with e by (unfold s; lia). reflexivity. }
  clearbody E. pose proof (q2_pos E) as PE. assert (QM : (inject_Z M == inject_Z q * inject_Z q + inject_Z r)%Q) by (rewrite R1, inject_Z_plus, inject_Z_mult; reflexivity).
  assert (Q1' : (1 <= inject_Z q)%Q) by (apply (injZ_le 1); lia).
  destruct (Zeq_bool r 0) eqn:EZ.
  - split; [apply aux_valid; auto; lia|]. apply Zeq_bool_eq in EZ. subst r. left. exists (inject_Z q * p2 E)%Q. split; [apply Qmult_lt_0_compat; lra|]. split.
    + rewrite V, QM. change (inject_Z 0) with 0%Q. ring.
    + apply (aux_Q prec emax Hprec _ q E _ q 1); [lia|apply rloc_exact; lia|exact HF|]. change (inject_Z 1) with 1%Q. ring.
  - apply Zeq_bool_neq in EZ. assert (LB : forall g : bool, (if g then q < r else r <= q) ->
      root_cell (inject_Z a * p2 e) (binary_round_aux prec emax false q E (loc_Inexact (if g then Gt else Lt)))).
    { intros g HG. right. exists ((inject_Z q + (if g then 1 # 2 else 0)) * p2 E)%Q, ((inject_Z q + (if g then 1 # 2 else 0) + (1 # 2)) * p2 E)%Q.
      set (x := (if g then 1 # 2 else 0)%Q). assert (X0 : (0 <= x <= 1 # 2)%Q) by (unfold x; destruct g; split; discriminate).
      assert (SQ : forall c k, ((inject_Z q + c) * (inject_Z q + c) <= k <-> (inject_Z q + c) * p2 E * ((inject_Z q + c) * p2 E) <= k * (p2 E * p2 E))%Q).
      { intros c k. assert (P2 : (0 < p2 E * p2 E)%Q) by (apply Qmult_lt_0_compat; lra). setoid_replace ((inject_Z q + c) * p2 E * ((inject_Z q + c) * p2 E))%Q with ((inject_Z q + c) * (inject_Z q + c) * (p2 E * p2 E))%Q by ring. symmetry. now apply Qmult_le_r. }
      assert (SQ' : forall c k, (k <= (inject_Z q + c) * (inject_Z q + c) <-> k * (p2 E * p2 E) <= (inject_Z q + c) * p2 E * ((inject_Z q + c) * p2 E))%Q).
      { intros c k. assert (P2 : (0 < p2 E * p2 E)%Q) by (apply Qmult_lt_0_compat; lra). setoid_replace ((inject_Z q + c) * p2 E * ((inject_Z q + c) * p2 E))%Q with ((inject_Z q + c) * (inject_Z q + c) * (p2 E * p2 E))%Q by ring. symmetry. now apply Qmult_le_r. }
      split; [apply Qmult_lt_0_compat; lra|]. split; [apply Qmult_lt_r; lra|]. split.
      { setoid_replace (2 * ((inject_Z q + x) * p2 E))%Q with (2 * (inject_Z q + x) * p2 E)%Q by ring. apply Qmult_le_r; lra. }
      rewrite V. split; [|split].
      - apply SQ. rewrite QM. unfold x. destruct g.
        + assert (H : (inject_Z q + 1 <= inject_Z r)%Q) by (change 1%Q with (inject_Z 1); rewrite <- inject_Z_plus; apply injZ_le; lia). setoid_replace ((inject_Z q + (1 # 2)) * (inject_Z q + (1 # 2)))%Q with (inject_Z q * inject_Z q + inject_Z q + (1 # 4))%Q by ring. lra.
        + assert (H : (0 <= inject_Z r)%Q) by (apply (injZ_le 0); lia). setoid_replace ((inject_Z q + 0) * (inject_Z q + 0))%Q with (inject_Z q * inject_Z q)%Q by ring. lra.
      - setoid_replace (inject_Z q + x + (1 # 2))%Q with (inject_Z q + (x + (1 # 2)))%Q by ring. apply SQ'. rewrite QM. unfold x. destruct g.
        + assert (H : (inject_Z r <= 2 * inject_Z q)%Q) by (change 2%Q with (inject_Z 2); rewrite <- inject_Z_mult; apply injZ_le; lia). setoid_replace ((inject_Z q + ((1 # 2) + (1 # 2))) * (inject_Z q + ((1 # 2) + (1 # 2))))%Q with (inject_Z q * inject_Z q + 2 * inject_Z q + 1)%Q by ring. lra.
        + assert (H : (inject_Z r <= inject_Z q)%Q) by (apply injZ_le; lia). setoid_replace ((inject_Z q + (0 + (1 # 2))) * (inject_Z q + (0 + (1 # 2))))%Q with (inject_Z q * inject_Z q + inject_Z q + (1 # 4))%Q by ring. lra.
      - intros t Ht. apply (cell_rounds q E g t); [lia|exact HF|exact Ht]. }
    destruct (Zle_bool r q) eqn:EL; (split; [apply aux_valid; auto; lia|]).
    + apply (LB false). now apply Zle_bool_imp_le.
    + apply (LB true). rewrite Z.leb_gt in EL. exact EL.
Qed.
Theorem sqrt_valid x : valid_binary prec emax x = true -> valid_binary prec emax (SFsqrt prec emax x) = true.
Proof. destruct x as [s|[|]| |[|] m e]; intros H; try exact H; try reflexivity. exact (proj1 (sqrt_cell m e)). Qed.
End Sqrt.
