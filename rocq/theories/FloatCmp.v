(** FloatCmp.v: the comparisons of IEEE numbers are those of their values. *)
From Coq Require Import ZArith QArith Qabs Qpower Bool Lia Lqa SpecFloat.
From Verif Require Import Float FloatFacts FloatValid FloatRound FloatArith.
Local Open Scope Z_scope.
Section Cmp.
Variables (prec emax : Z).
Hypothesis Hprec : 0 < prec.
Notation valid := (valid_binary prec emax).
Lemma bounded_canon m e : bounded prec emax m e = true -> e = fexp prec emax (Zpos (digits2_pos m) + e).
Proof. unfold bounded, canonical_mantissa. intros H. apply andb_prop in H as [H _]. apply Zeq_bool_eq in H. now symmetry. Qed.
Lemma canon_lt m e m' e' : bounded prec emax m e = true -> bounded prec emax m' e' = true -> e < e' -> (inject_Z (Zpos m) * p2 e < inject_Z (Zpos m') * p2 e')%Q.
Proof.
  intros H H' L. apply bounded_canon in H, H'. unfold fexp in *. pose proof (digits_bounds m) as [_ B]. pose proof (digits_bounds m') as [B' _].
  assert (D' : Zpos (digits2_pos m') = prec) by lia. assert (D : Zpos (digits2_pos m) <= prec) by lia. rewrite D' in B'.
  apply Qlt_le_trans with (p2 (prec + e)).
  - rewrite q2_add, (q2_Z prec) by lia. apply Qmult_lt_compat_r; [apply q2_pos|]. apply injZ_lt. eapply Z.lt_le_trans; [exact B|]. apply Z.pow_le_mono_r; lia.
  - apply Qle_trans with (p2 (prec - 1 + e')); [apply q2_mono; lia|]. rewrite q2_add, (q2_Z (prec - 1)) by lia. apply Qmult_le_compat_r; [now apply injZ_le|]. pose proof (q2_pos e'). lra.
Qed.
Lemma mag_compare m e m' e' : bounded prec emax m e = true -> bounded prec emax m' e' = true ->
  (inject_Z (Zpos m) * p2 e ?= inject_Z (Zpos m') * p2 e')%Q = match e ?= e' with Lt => Lt | Gt => Gt | Eq => Pos.compare m m' end.
Proof.
  intros H H'. destruct (Z.compare_spec e e') as [<-|L|L].
  - destruct (Pos.compare_spec m m') as [->|L|L].
    + apply -> Qeq_alt. reflexivity.
    + apply -> Qlt_alt. apply Qmult_lt_compat_r; [apply q2_pos|apply injZ_lt; lia].
    + apply -> Qgt_alt. apply Qmult_lt_compat_r; [apply q2_pos|apply injZ_lt; lia].
  - apply -> Qlt_alt. now apply canon_lt.
  - apply -> Qgt_alt. now apply canon_lt.
Qed.
Lemma Qcmp_opp a b : (- a ?= - b)%Q = (b ?= a)%Q.
Proof.
  destruct (Qcompare_spec b a) as [H|H|H]; [apply -> Qeq_alt; rewrite H; reflexivity|apply -> Qlt_alt|apply -> Qgt_alt]; lra.
Qed.
Theorem compare_val x y : valid x = true -> valid y = true -> fin x -> fin y -> SFcompare x y = Some (sval x ?= sval y)%Q.
Proof.
  intros Hx Hy Fx Fy. destruct x as [sx|sx| |sx m e], y as [sy|sy| |sy m' e']; try contradiction; unfold SFcompare; cbn [sval].
  - reflexivity.
  - pose proof (mpos_val m' e'). f_equal. symmetry. destruct sy; [apply -> Qgt_alt|apply -> Qlt_alt]; lra.
  - pose proof (mpos_val m e). f_equal. symmetry. destruct sx; [apply -> Qlt_alt|apply -> Qgt_alt]; lra.
  - pose proof (mpos_val m e) as P. pose proof (mpos_val m' e') as P'. cbn [valid_binary] in Hx, Hy. pose proof (mag_compare m e m' e' Hx Hy) as C.
    change (Pos.compare_cont Eq m m') with (Pos.compare m m'). destruct sx, sy.
    + assert (E : (-1 * inject_Z (Zpos m) * p2 e ?= -1 * inject_Z (Zpos m') * p2 e')%Q = (inject_Z (Zpos m') * p2 e' ?= inject_Z (Zpos m) * p2 e)%Q).
      { rewrite <- Qcmp_opp. apply Qcompare_comp; ring. }
      rewrite E, (mag_compare m' e' m e Hy Hx), (Z.compare_antisym e e'), (Pos.compare_antisym m m'). destruct (e ?= e'); reflexivity.
    + f_equal. symmetry. apply -> Qlt_alt. lra.
    + f_equal. symmetry. apply -> Qgt_alt. lra.
    + assert (E : (1 * inject_Z (Zpos m) * p2 e ?= 1 * inject_Z (Zpos m') * p2 e')%Q = (inject_Z (Zpos m) * p2 e ?= inject_Z (Zpos m') * p2 e')%Q) by (apply Qcompare_comp; ring).
      rewrite E, C. destruct (e ?= e'); reflexivity.
Qed.
Corollary ltb_val x y : valid x = true -> valid y = true -> fin x -> fin y -> (SFltb x y = true <-> (sval x < sval y)%Q).
Proof. intros. unfold SFltb. rewrite compare_val by auto. rewrite Qlt_alt. destruct (sval x ?= sval y)%Q; split; intros; congruence. Qed.
Corollary leb_val x y : valid x = true -> valid y = true -> fin x -> fin y -> (SFleb x y = true <-> (sval x <= sval y)%Q).
Proof. intros. unfold SFleb. rewrite compare_val by auto. rewrite Qle_alt. destruct (sval x ?= sval y)%Q; split; intros; congruence. Qed.
Corollary eqb_val x y : valid x = true -> valid y = true -> fin x -> fin y -> (SFeqb x y = true <-> (sval x == sval y)%Q).
Proof. intros. unfold SFeqb. rewrite compare_val by auto. rewrite Qeq_alt. destruct (sval x ?= sval y)%Q; split; intros; congruence. Qed.
End Cmp.
