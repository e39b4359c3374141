(** PropBasis.v: C91, what basis<T>() returns. *)
From Coq Require Import ZArith QArith Qabs Qpower Bool Lia Lqa SpecFloat.
From Verif Require Import Base Basis Float FloatFacts FloatValid FloatRound FloatArith FloatCmp.
Local Open Scope Z_scope.

Section FloatBasis.
Variables (prec emax : Z).
Hypothesis Hprec : 2 <= prec.
Hypothesis Hemax : prec < emax.
Notation valid := (valid_binary prec emax).
Notation one := (SFone prec emax).
Notation two := (binary_round prec emax false 1 1).
Notation add := (SFadd prec emax).
Notation sub := (SFsub prec emax).
Notation mul := (SFmul prec emax).
Let P1 : 0 < prec. Proof. lia. Qed.
Let P3 : 2 <= emax. Proof. lia. Qed.
Let P6 : 3 - emax - prec <= 0. Proof. lia. Qed.
(** The finite valid numbers with the integer value z. *)
Definition is_int (x : spec_float) (z : Z) : Prop := valid x = true /\ fin x /\ (sval x == inject_Z z)%Q.
Lemma pow_prec : 4 <= 2 ^ prec. Proof. change 4 with (2 ^ 2). apply Z.pow_le_mono_r; lia. Qed.
Lemma huge_big z : Z.abs z <= 2 ^ prec + 2 -> (Qabs (inject_Z z) < huge prec emax)%Q.
Proof.
  intros H. unfold huge. apply Qle_lt_trans with (inject_Z (2 ^ prec + 2)); [rewrite injZ_abs; now apply injZ_le|].
  apply Qlt_le_trans with ((p2 prec - (1 # 2)) * p2 1)%Q.
  - rewrite (q2_Z prec) by lia. rewrite inject_Z_plus. change (p2 1) with 2%Q. change (inject_Z 2) with 2%Q. pose proof pow_prec as PP. apply injZ_le in PP. change (inject_Z 4) with 4%Q in PP. lra.
  - rewrite !(Qmult_comm (p2 prec - _)). apply Qmult_le_compat_r; [apply q2_mono; lia|]. rewrite (q2_Z prec) by lia. pose proof pow_prec as PP. apply injZ_le in PP. change (inject_Z 4) with 4%Q in PP. lra.
Qed.
Lemma crt_int w y z k e : valid y = true -> crt prec emax w y -> (w == inject_Z z)%Q -> z = k * 2 ^ e -> 0 <= e -> Z.abs k <= 2 ^ prec -> Z.abs z <= 2 ^ prec + 2 -> is_int y z.
Proof.
  intros Hy Hc Hw Hz He Hk Hb. assert (W : (w == inject_Z k * p2 e)%Q) by (rewrite Hw, Hz, inject_Z_mult, q2_Z by lia; reflexivity).
  assert (EM : SpecFloat.emin prec emax <= e) by (unfold SpecFloat.emin; lia).
  destruct (crt_exact prec emax P1 P3 w y k e W EM Hk Hc) as [[F V]|[_ B]].
  - split; [exact Hy|]. split; [exact F|]. now rewrite V.
  - exfalso. rewrite Hw in B. pose proof (huge_big z Hb). lra.
Qed.
Lemma one_int : is_int one 1.
Proof.
  change one with (binary_normalize prec emax 1 0 false). pose proof pow_prec. eapply (crt_int _ _ 1 1 0); [now apply normalize_valid|apply normalize_crt; lia|reflexivity|reflexivity|lia|lia|lia].
Qed.
Lemma two_int : is_int two 2.
Proof.
  change two with (binary_normalize prec emax 1 1 false). pose proof pow_prec. eapply (crt_int _ _ 2 1 1); [now apply normalize_valid|apply normalize_crt; lia|reflexivity|reflexivity|lia|lia|lia].
Qed.
Lemma add_int x y a b k e : is_int x a -> is_int y b -> a + b = k * 2 ^ e -> 0 <= e -> Z.abs k <= 2 ^ prec -> Z.abs (a + b) <= 2 ^ prec + 2 -> is_int (add x y) (a + b).
Proof.
  intros (Vx & Fx & Ex) (Vy & Fy & Ey) Hz He Hk Hb. eapply crt_int; [now apply add_valid|now apply add_crt|rewrite Ex, Ey, inject_Z_plus; reflexivity|eauto..].
Qed.
Lemma sub_int x y a b : is_int x a -> is_int y b -> Z.abs (a - b) <= 2 ^ prec -> is_int (sub x y) (a - b).
Proof.
  intros (Vx & Fx & Ex) (Vy & Fy & Ey) Hb. eapply (crt_int _ _ (a - b) (a - b) 0); [now apply sub_valid|now apply sub_crt|rewrite Ex, Ey; unfold Z.sub; rewrite inject_Z_plus, inject_Z_opp; reflexivity|cbn; lia|lia|lia|lia].
Qed.
Lemma mul_int x y a b : is_int x a -> is_int y b -> Z.abs (a * b) <= 2 ^ prec -> is_int (mul x y) (a * b).
Proof.
  intros (Vx & Fx & Ex) (Vy & Fy & Ey) Hb. eapply (crt_int _ _ (a * b) (a * b) 0); [now apply mul_valid|now apply mul_crt|rewrite Ex, Ey, inject_Z_mult; reflexivity|cbn; lia|lia|lia|lia].
Qed.
Lemma eqb_int x y a b : is_int x a -> is_int y b -> SFeqb x y = (a =? b).
Proof.
  intros (Vx & Fx & Ex) (Vy & Fy & Ey). pose proof (eqb_val prec emax P1 x y Vx Vy Fx Fy) as E. rewrite Ex, Ey in E. rewrite inject_Z_injective in E.
  destruct (Z.eqb_spec a b) as [Q|Q]; [now apply E|]. destruct (SFeqb x y); [exfalso; apply Q; now apply E|reflexivity].
Qed.
(** Past 2^prec only the even integers are left. *)
Lemma add_one x : is_int x (2 ^ prec) -> is_int (add x one) (2 ^ prec) \/ is_int (add x one) (2 ^ prec + 2).
Proof.
  intros (Vx & Fx & Ex). pose proof one_int as (V1 & F1 & E1). pose proof pow_prec as PP.
  assert (VA : valid (add x one) = true) by now apply add_valid. pose proof (add_crt prec emax P1 x one Fx F1) as C.
  assert (W : (sval x + sval one == inject_Z (2 ^ prec + 1))%Q) by (rewrite Ex, E1, inject_Z_plus; reflexivity).
  assert (FA : fin (add x one)).
  { pose proof (huge_big (2 ^ prec + 1) ltac:(lia)) as HB. rewrite <- W in HB. pose proof (Qle_Qabs (sval x + sval one)) as A1. pose proof (Qle_Qabs (- (sval x + sval one))) as A2. rewrite Qabs_opp in A2.
    destruct (crt_range prec emax P1 P3 _ _ ltac:(lia) Hemax VA C) as [[F _]|[[_ B]|[_ B]]]; [exact F|lra|lra]. }
  pose proof (crt_nearest prec emax P1 _ _ x C FA Vx Fx) as N. rewrite W in N.
  assert (N1 : (Qabs (sval x - inject_Z (2 ^ prec + 1)) == 1)%Q).
  { rewrite Ex, inject_Z_plus. assert (Z1 : (inject_Z (2 ^ prec) - (inject_Z (2 ^ prec) + inject_Z 1) == - (1))%Q) by (change (inject_Z 1) with 1%Q; ring). rewrite Z1. reflexivity. }
  rewrite N1 in N. apply Qabs_Qle_condition in N. rewrite inject_Z_plus in N. change (inject_Z 1) with 1%Q in N. set (s := add x one) in *. clearbody s.
  pose proof PP as PQ. apply injZ_le in PQ. change (inject_Z 4) with 4%Q in PQ.
  assert (J : exists j, (sval s == inject_Z (2 * j))%Q).
  { destruct s as [b|b| |b m e]; try contradiction; [exists 0; reflexivity|]. cbn [sval] in *. pose proof (mpos_val m e) as MP. destruct b; [exfalso; lra|].
    pose proof (bounded_canon prec emax m e VA) as BC. pose proof (digits_bounds m) as [_ B]. unfold fexp in BC.
    assert (E1' : 1 <= e).
    { destruct (Z.le_gt_cases 1 e) as [|L]; [assumption|exfalso]. assert (M : (inject_Z (Zpos m) * p2 e < inject_Z (2 ^ prec))%Q); [|lra].
      apply Qle_lt_trans with (inject_Z (Zpos m) * p2 0)%Q.
      - rewrite !(Qmult_comm (inject_Z _)). apply Qmult_le_compat_r; [apply q2_mono; lia|]. now apply (injZ_le 0).
      - change (p2 0) with 1%Q. rewrite Qmult_1_r. apply injZ_lt. eapply Z.lt_le_trans; [exact B|]. apply Z.pow_le_mono_r; [lia|]. destruct (Z.max_spec (Zpos (digits2_pos m) + e - prec) (SpecFloat.emin prec emax)) as [[? ?]|[? ?]]; lia. }
    exists (Zpos m * 2 ^ (e - 1)). replace (2 * (Zpos m * 2 ^ (e - 1))) with (Zpos m * 2 ^ e) by (replace e with (1 + (e - 1)) at 1 by lia; rewrite Z.pow_add_r by lia; lia).
    rewrite inject_Z_mult, q2_Z by lia. ring. }
  destruct J as [j J]. rewrite J in N. assert (EP : 2 ^ prec = 2 * 2 ^ (prec - 1)) by (replace prec with (1 + (prec - 1)) at 1 by lia; rewrite Z.pow_add_r by lia; lia).
  assert (R : 2 ^ prec <= 2 * j <= 2 ^ prec + 2).
  { split; rewrite Zle_Qle; [lra|]. rewrite inject_Z_plus. change (inject_Z 2) with 2%Q. lra. }
  assert (C2 : 2 * j = 2 ^ prec \/ 2 * j = 2 ^ prec + 2) by lia.
  destruct C2 as [C2|C2]; rewrite C2 in J; [left|right]; (split; [exact VA|split; [exact FA|exact J]]).
Qed.
Notation grow := (basis_grow spec_float (fun x y => Ok (add x y)) (fun x y => Ok (sub x y)) (fun x y => Ok (mul x y)) SFeqb one two).
Notation step := (basis_step spec_float (fun x y => Ok (add x y)) (fun x y => Ok (mul x y)) SFeqb two).
Lemma grow_ok (d : nat) : forall x k fuel, is_int x (2 ^ k) -> 0 <= k -> k + Z.of_nat d = prec -> (d < fuel)%nat -> exists y, grow fuel x = Ok y /\ is_int y (2 ^ prec).
Proof.
  pose proof pow_prec as PP. induction d as [|d IH]; intros x k fuel Hx Hk Hd Hf; (destruct fuel as [|fuel]; [lia|]); cbn [basis_grow bind].
  - replace k with prec in * by lia. exists x. split; [|exact Hx].
    destruct (add_one x Hx) as [A|A].
    + rewrite (eqb_int _ _ _ 1 (sub_int _ _ _ _ A Hx ltac:(lia)) one_int). now replace (2 ^ prec - 2 ^ prec =? 1) with false by (symmetry; apply Z.eqb_neq; lia).
    + rewrite (eqb_int _ _ _ 1 (sub_int _ _ _ _ A Hx ltac:(lia)) one_int). now replace (2 ^ prec + 2 - 2 ^ prec =? 1) with false by (symmetry; apply Z.eqb_neq; lia).
  - assert (K1 : 2 ^ (k + 1) <= 2 ^ prec) by (apply Z.pow_le_mono_r; lia). rewrite Z.pow_add_r in K1 by lia. change (2 ^ 1) with 2 in K1. assert (KP : 0 < 2 ^ k) by (apply Z.pow_pos_nonneg; lia).
    assert (A : is_int (add x one) (2 ^ k + 1)) by (apply (add_int x one (2 ^ k) 1 (2 ^ k + 1) 0 Hx one_int); cbn; lia).
    rewrite (eqb_int _ _ _ 1 (sub_int _ _ _ _ A Hx ltac:(lia)) one_int). replace (2 ^ k + 1 - 2 ^ k =? 1) with true by (symmetry; apply Z.eqb_eq; lia).
    apply (IH (mul x two) (k + 1)); [|lia|lia|lia]. rewrite Z.pow_add_r by lia. apply (mul_int x two); auto using two_int. change (2 ^ 1) with 2. lia.
Qed.
Lemma to_int_ok x z : is_int x z -> - 2 ^ 31 <= z < 2 ^ 31 -> float_to_int x = Ok z.
Proof.
  intros (V & F & E) R. destruct x as [s|s| |s m e]; try contradiction; cbn [sval float_to_int] in *.
  - change 0%Q with (inject_Z 0) in E. rewrite inject_Z_injective in E. now rewrite <- E.
  - assert (EZ : cond_Zopp s (if 0 <=? e then Zpos m * 2 ^ e else Zpos m / 2 ^ (- e)) = z).
    { assert (A : (inject_Z (Zpos m) * p2 e == inject_Z (cond_Zopp s z))%Q).
      { destruct s; cbn [cond_Zopp]; rewrite ?inject_Z_opp, <- E; ring. }
      destruct (Z.leb_spec 0 e) as [L|L].
      - rewrite q2_Z, <- inject_Z_mult in A by lia. rewrite inject_Z_injective in A. rewrite A. destruct s; cbn [cond_Zopp]; lia.
      - assert (B : (inject_Z (Zpos m) == inject_Z (cond_Zopp s z * 2 ^ (- e)))%Q).
        { rewrite inject_Z_mult, <- A, <- q2_Z by lia. rewrite <- Qmult_assoc, <- q2_add. replace (e + - e) with 0 by lia. change (p2 0) with 1%Q. ring. }
        rewrite inject_Z_injective in B. rewrite B, Z.div_mul by (apply Z.pow_nonzero; lia). destruct s; cbn [cond_Zopp]; lia. }
    rewrite EZ. destruct (Z.leb_spec (- 2 ^ 31) z), (Z.ltb_spec z (2 ^ 31)); cbn [andb]; auto; lia.
Qed.
(** In every binary floating-point format basis() returns 2. *)
Theorem C91_float : forall fuel, (Z.to_nat prec < fuel)%nat -> basis_float prec emax fuel = Ok 2.
Proof.
  intros fuel Hf. pose proof pow_prec as PP. unfold basis_float, basis. destruct (grow_ok (Z.to_nat prec) one 0 fuel) as (x & E & Hx); [exact one_int|lia|lia|lia|]. rewrite E. cbn [bind].
  destruct fuel as [|[|fuel]]; [lia|lia|]. cbn [basis_step bind].
  assert (EP : 2 ^ prec + 2 = (2 ^ (prec - 1) + 1) * 2 ^ 1) by (replace prec with (1 + (prec - 1)) at 1 by lia; rewrite Z.pow_add_r by lia; lia).
  assert (HP : 2 ^ (prec - 1) + 1 <= 2 ^ prec) by lia. assert (0 < 2 ^ (prec - 1)) by (apply Z.pow_pos_nonneg; lia).
  destruct (add_one x Hx) as [A|A]; rewrite (eqb_int _ _ _ _ A Hx).
  - rewrite Z.eqb_refl. assert (B : is_int (mul one two) 2) by (apply (mul_int one two 1 2 one_int two_int); lia).
    assert (A2 : is_int (add x (mul one two)) (2 ^ prec + 2)) by (apply (add_int x _ (2 ^ prec) 2 (2 ^ (prec - 1) + 1) 1 Hx B); lia).
    rewrite (eqb_int _ _ _ _ A2 Hx). replace (2 ^ prec + 2 =? 2 ^ prec) with false by (symmetry; apply Z.eqb_neq; lia). cbn [bind].
    apply to_int_ok; [|lia]. replace 2 with (2 ^ prec + 2 - 2 ^ prec) at 1 by lia. apply sub_int; auto; lia.
  - replace (2 ^ prec + 2 =? 2 ^ prec) with false by (symmetry; apply Z.eqb_neq; lia). cbn [bind].
    apply to_int_ok; [|lia]. replace 2 with (2 ^ prec + 2 - 2 ^ prec) at 1 by lia. apply sub_int; auto; lia.
Qed.
End FloatBasis.

(** double and float. *)
Corollary C91_double : forall fuel, (53 < fuel)%nat -> basis_float 53 1024 fuel = Ok 2.
Proof. intros fuel H. apply C91_float; cbn; lia. Qed.
Corollary C91_single : forall fuel, (24 < fuel)%nat -> basis_float 24 128 fuel = Ok 2.
Proof. intros fuel H. apply C91_float; cbn; lia. Qed.

(** For a signed integer type the first loop overflows. *)
Theorem C91_signed : forall w fuel, 2 <= w -> (Z.to_nat w <= fuel)%nat -> basis_signed w fuel = UB.
Proof.
  intros w fuel Hw Hf. unfold basis_signed, basis. set (chk := fun z => if (- 2 ^ (w - 1) <=? z) && (z <? 2 ^ (w - 1)) then Ok z else UB).
  assert (CI : forall z, - 2 ^ (w - 1) <= z < 2 ^ (w - 1) -> chk z = Ok z).
  { intros z [A B]. unfold chk. apply Z.leb_le in A. apply Z.ltb_lt in B. now rewrite A, B. }
  assert (CO : chk (2 ^ (w - 1)) = UB) by (unfold chk; rewrite Z.ltb_irrefl, andb_false_r; reflexivity).
  enough (G : forall d k fuel, 0 <= k -> k + Z.of_nat d = w - 2 -> (d < fuel)%nat ->
    basis_grow Z (fun x y => chk (x + y)) (fun x y => chk (x - y)) (fun x y => chk (x * y)) Z.eqb 1 2 fuel (2 ^ k) = UB).
  { pose proof (G (Z.to_nat (w - 2)) 0 fuel ltac:(lia) ltac:(lia) ltac:(lia)) as G0. change (2 ^ 0) with 1 in G0. refine (eq_trans (f_equal (fun r => bind r _) G0) _). reflexivity. }
  clear fuel Hf. induction d as [|d IH]; intros k fuel Hk Hd Hf; (destruct fuel as [|fuel]; [lia|]); cbn [basis_grow].
  - replace k with (w - 2) by lia. assert (P : 2 ^ (w - 1) = 2 ^ (w - 2) * 2) by (replace (w - 1) with (w - 2 + 1) by lia; rewrite Z.pow_add_r by lia; lia).
    assert (0 < 2 ^ (w - 2)) by (apply Z.pow_pos_nonneg; lia). destruct (Z.eq_dec w 2) as [->|N].
    + unfold chk. reflexivity.
    + assert (2 ^ 1 <= 2 ^ (w - 2)) by (apply Z.pow_le_mono_r; lia). change (2 ^ 1) with 2 in *.
      rewrite CI by lia. cbn [bind]. rewrite CI by lia. cbn [bind]. replace (2 ^ (w - 2) + 1 - 2 ^ (w - 2)) with 1 by lia. cbn [Z.eqb Pos.eqb]. rewrite <- P, CO. reflexivity.
  - assert (2 ^ (k + 1) < 2 ^ (w - 1)) by (apply Z.pow_lt_mono_r; lia). assert (P : 2 ^ (k + 1) = 2 ^ k * 2) by (rewrite Z.pow_add_r by lia; lia). assert (0 < 2 ^ k) by (apply Z.pow_pos_nonneg; lia).
    rewrite CI by lia. cbn [bind]. rewrite CI by lia. cbn [bind]. replace (2 ^ k + 1 - 2 ^ k) with 1 by lia. cbn [Z.eqb Pos.eqb]. rewrite CI by lia. cbn [bind]. rewrite <- P. apply IH; lia.
Qed.
(** For an unsigned integer type the first loop never ends. *)
Theorem C91_unsigned : forall w fuel, 1 <= w -> basis_unsigned w fuel = Fuel.
Proof.
  intros w fuel Hw. unfold basis_unsigned, basis. assert (P : 2 ^ 1 <= 2 ^ w) by (apply Z.pow_le_mono_r; lia). change (2 ^ 1) with 2 in P.
  enough (G : forall x, basis_grow Z (fun x y => Ok ((x + y) mod 2 ^ w)) (fun x y => Ok ((x - y) mod 2 ^ w)) (fun x y => Ok ((x * y) mod 2 ^ w)) Z.eqb 1 2 fuel x = Fuel) by (rewrite G; reflexivity).
  induction fuel as [|fuel IH]; intros x; cbn [basis_grow bind]; [reflexivity|].
  rewrite Zminus_mod_idemp_l. replace (x + 1 - x) with 1 by lia. rewrite Z.mod_1_l by lia. cbn [Z.eqb Pos.eqb]. apply IH.
Qed.
(** A format meets the hypotheses, and the result does not depend on the fuel. *)
Example C91_ex : basis_float 53 1024 60 = Ok 2 /\ basis_float 24 128 30 = Ok 2 /\ basis_signed 32 40 = UB /\ basis_unsigned 32 1000 = Fuel.
Proof. repeat split; vm_compute; reflexivity. Qed.
