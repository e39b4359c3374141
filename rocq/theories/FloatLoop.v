(** FloatLoop.v: powers of two and reciprocals of integers as doubles: what makes the loops of
    log2_ceil and expm end. *)
From Coq Require Import ZArith QArith Qabs Qpower Bool Lia Lqa SpecFloat List.
From Verif Require Import LinalgFacts2 PropUtil PropMath Feq Float FloatFacts FloatValid FloatRound FloatIOFacts FloatArith FloatSum FloatCmp FloatMono PropFloat PropFloat2 PropFloatIO PropFloatSum PropFloatCmp.
Local Open Scope Z_scope.

Definition half : double := S754_finite false 4503599627370496 (-53).
Lemma half_proper : proper half /\ (dval half == 1 # 2)%Q. Proof. split; [split; [reflexivity|exact I]|reflexivity]. Qed.
Lemma one_proper : proper one /\ (dval one == 1)%Q. Proof. split; [split; [reflexivity|exact I]|reflexivity]. Qed.
Lemma mul_facts x y : proper x -> proper y -> is_double (SFmul prec64 emax64 x y) /\ crt prec64 emax64 (dval x * dval y) (SFmul prec64 emax64 x y).
Proof. intros [Vx Fx] [Vy Fy]. split; [now apply double_ops|]. destruct fmt2 as [P1 P3]. apply (mul_crt prec64 emax64 P1 P3 x y Vx Vy Fx Fy). Qed.
Lemma div_facts x y : proper x -> proper y -> ~ (dval y == 0)%Q -> is_double (SFdiv prec64 emax64 x y) /\ crt prec64 emax64 (dval x / dval y) (SFdiv prec64 emax64 x y).
Proof. intros [Vx Fx] [Vy Fy] N. split; [now apply double_ops|]. destruct fmt2 as [P1 P3]. apply (div_crt prec64 emax64 P1 x y Fx Fy N). Qed.

(** * 2^-k by repeated halving *)
Fixpoint sc (k : nat) : double := match k with O => one | S k => SFmul prec64 emax64 (sc k) half end.
Lemma sc_S k : sc (S k) = SFmul prec64 emax64 (sc k) half. Proof. reflexivity. Qed.
Lemma sc_ok k : (k <= 1074)%nat -> proper (sc k) /\ (dval (sc k) == p2 (- Z.of_nat k))%Q.
Proof.
  induction k as [|k IH]; intros Hk; [apply one_proper|]. destruct (IH ltac:(lia)) as [P E]. destruct half_proper as [Ph Eh].
  destruct (mul_facts _ _ P Ph) as [V C]. destruct (exact_small (dval (sc k) * dval half) (SFmul prec64 emax64 (sc k) half) 1 (- Z.of_nat (S k))) as [F X]; auto; [|lia|now apply Z.pow_le_mono_r with (b := 0)|].
  - rewrite E, Eh. replace (- Z.of_nat k) with (1 + - Z.of_nat (S k)) by lia. rewrite q2_add. change (p2 1) with 2%Q. change (inject_Z 1) with 1%Q. field.
  - split; [split; [exact V|exact F]|]. cbn [sc]. change (dval (SFmul prec64 emax64 (sc k) half)) with (sval (SFmul prec64 emax64 (sc k) half)). rewrite X, E, Eh.
    replace (- Z.of_nat k) with (1 + - Z.of_nat (S k)) by lia. rewrite q2_add. change (p2 1) with 2%Q. field.
Qed.
Lemma p2_lt a b : (p2 a < p2 b)%Q -> a < b.
Proof. intros H. destruct (Z.lt_ge_cases a b) as [L|L]; [exact L|]. apply q2_mono in L. exfalso. eapply Qlt_not_le; eauto. Qed.
(** The smallest double. *)
Lemma least_double x : proper x -> (dval x == p2 (-1074))%Q -> x = S754_finite false 1 (-1074).
Proof.
  intros [V F] E. destruct x as [s|s| |s m e]; try contradiction; cbn [dval] in E.
  - exfalso. pose proof (q2_pos (-1074)). lra.
  - pose proof (mpos_val m e) as MP. pose proof (q2_pos (-1074)) as TP. pose proof (bounded_emin prec64 emax64 m e V) as He. change (SpecFloat.emin prec64 emax64) with (-1074) in He.
    destruct s; [exfalso; lra|]. rewrite (q2_split e (-1074)), (q2_Z (e - -1074)) in E by lia.
    assert (G : (inject_Z (Zpos m * 2 ^ (e - -1074)) == inject_Z 1)%Q).
    { apply (Qmult_inj_r _ _ (p2 (-1074))); [lra|]. rewrite inject_Z_mult. change (inject_Z 1) with 1%Q. rewrite Qmult_1_l. eapply Qeq_trans; [|exact E]. ring. }
    rewrite inject_Z_injective in G. assert (PW : 0 < 2 ^ (e - -1074)) by (apply Z.pow_pos_nonneg; lia).
    destruct (Z.eq_dec (e - -1074) 0) as [D|D].
    + rewrite D in G. f_equal; lia.
    + assert (2 ^ 1 <= 2 ^ (e - -1074)) by (apply Z.pow_le_mono_r; lia). exfalso. clear - G H. change (2 ^ 1) with 2 in H. nia.
Qed.
Lemma sc_1074 : sc 1074 = S754_finite false 1 (-1074).
Proof. destruct (sc_ok 1074 ltac:(lia)) as [P E]. apply least_double; [exact P|exact E]. Qed.
Lemma sc_1075 : sc 1075 = S754_zero false.
Proof. change (sc (S 1074) = S754_zero false). rewrite sc_S, sc_1074. vm_compute. reflexivity. Qed.

(** * The test of log2_ceil: is x / 2^k above 1? *)
Lemma mant_bound s m e : is_double (S754_finite s m e) -> Zpos m < 2 ^ 53.
Proof.
  intros V. pose proof (bounded_canon prec64 emax64 m e V) as BC. pose proof (digits_bounds m) as [_ B]. eapply Z.lt_le_trans; [exact B|]. apply Z.pow_le_mono_r; [lia|].
  unfold fexp in BC. unfold prec64, emax64, SpecFloat.emin in BC. lia.
Qed.
Lemma above_one x k : proper x -> (0 <= dval x)%Q -> (k <= 1074)%nat -> (SFltb one (SFmul prec64 emax64 x (sc k)) = true <-> (p2 (Z.of_nat k) < dval x)%Q).
Proof.
  intros Px X0 Hk. destruct (sc_ok k Hk) as [Ps Es]. destruct (mul_facts _ _ Px Ps) as [V C]. destruct one_proper as [P1' E1].
  pose proof (q2_pos (Z.of_nat k)) as KP. pose proof (q2_pos (- Z.of_nat k)) as KN. assert (KK : (p2 (Z.of_nat k) * p2 (- Z.of_nat k) == 1)%Q) by (rewrite <- q2_add; now replace (Z.of_nat k + - Z.of_nat k) with 0 by lia).
  destruct fmt2 as [P1 P3], fmt3 as [P4 P5]. pose proof (valid_below prec64 emax64 P1 x P5 (proj1 Px) (proj2 Px)) as XB. change (sval x) with (dval x) in XB.
  assert (KL : (p2 (- Z.of_nat k) <= 1)%Q) by (change 1%Q with (p2 0); apply q2_mono; lia).
  assert (F : is_finite (SFmul prec64 emax64 x (sc k))).
  { apply (in_range_fin (dval x * dval (sc k))); [exact V|exact C|]. rewrite Es, Qabs_Qmult, (Qabs_pos (p2 _)) by lra.
    eapply Qle_lt_trans; [|exact XB]. rewrite <- (Qmult_1_r (Qabs (dval x))) at 2. rewrite !(Qmult_comm (Qabs _)). apply Qmult_le_compat_r; [exact KL|apply Qabs_nonneg]. }
  rewrite (lt_val one _ P1' (conj V F)), E1. set (y := SFmul prec64 emax64 x (sc k)) in *. split; intros H.
  - destruct (Qlt_le_dec (p2 (Z.of_nat k)) (dval x)) as [L|L]; [exact L|exfalso].
    assert (dval y <= dval one)%Q; [|lra]. apply (crt_le prec64 emax64 P1 (dval x * dval (sc k)) y one C F V (proj2 P1') (proj1 P1')). change (sval one) with (dval one). rewrite E1, Es, <- KK.
    apply Qmult_le_compat_r; [exact L|lra].
  - assert (W : (1 < dval x * p2 (- Z.of_nat k))%Q) by (rewrite <- KK; apply Qmult_lt_compat_r; auto).
    assert (Y : (dval y == dval x * p2 (- Z.of_nat k))%Q); [|now rewrite Y].
    destruct x as [s|s| |s m e]; try (destruct Px; contradiction); cbn [dval] in *; [exfalso; lra|].
    pose proof (mpos_val m e) as MP. destruct s; [exfalso; lra|]. pose proof (mant_bound false m e (proj1 Px)) as MB.
    assert (EE : -53 < e - Z.of_nat k).
    { apply p2_lt. destruct (Qlt_le_dec (p2 (-53)) (p2 (e - Z.of_nat k))) as [L|L]; [exact L|exfalso]. 
      assert (Q : (1 * inject_Z (Zpos m) * p2 e * p2 (- Z.of_nat k) <= 1)%Q); [|lra].
      rewrite <- Qmult_assoc, <- q2_add. change (e + - Z.of_nat k) with (e - Z.of_nat k). rewrite Qmult_1_l.
      apply Qle_trans with (inject_Z (2 ^ 53) * p2 (-53))%Q; [|vm_compute; discriminate].
      apply Qle_trans with (inject_Z (2 ^ 53) * p2 (e - Z.of_nat k))%Q.
      - apply Qmult_le_compat_r; [apply injZ_le; lia|apply Qlt_le_weak, q2_pos].
      - rewrite !(Qmult_comm (inject_Z _)). apply Qmult_le_compat_r; [exact L|]. now apply (injZ_le 0). }
    destruct (crt_exact prec64 emax64 P1 P3 (1 * inject_Z (Zpos m) * p2 e * dval (sc k)) y (Zpos m) (e - Z.of_nat k)) as [[_ X]|[[s X] _]]; auto.
    + rewrite Es. unfold Z.sub. rewrite q2_add. ring.
    + change (SpecFloat.emin prec64 emax64) with (-1074). lia.
    + change (2 ^ prec64) with (2 ^ 53). lia.
    + change (dval y) with (sval y). now rewrite X, Es.
    + rewrite X in F. contradiction.
Qed.

Section Loops.
Variable tol : double.
#[local] Instance Ol : Ops double := fops tol.
Lemma log2_finite x : proper x -> (0 <= dval x)%Q -> forall d k fuel, (k + d = 1024)%nat -> (d <= fuel)%nat ->
  exists k', (k <= k' <= 1024)%nat /\ log2_loop half fuel x (sc k) k = Ok (k', sc k') /\ (dval x <= p2 (Z.of_nat k'))%Q /\
    forall j, (k <= j < k')%nat -> (p2 (Z.of_nat j) < dval x)%Q.
Proof.
  intros Px X0. induction d as [|d IH]; intros k fuel Hk Hf; (destruct (SFltb one (SFmul prec64 emax64 x (sc k))) eqn:T).
  - exfalso. apply (above_one x k Px X0) in T; [|lia]. destruct fmt2 as [P1 P3], fmt3 as [P4 P5]. pose proof (valid_below prec64 emax64 P1 x P5 (proj1 Px) (proj2 Px)) as XB.
    assert (HB : (huge prec64 emax64 <= p2 1024)%Q).
    { unfold huge. change 1024 with (53 + 971). rewrite q2_add. change prec64 with 53. change (emax64 - 53) with 971. apply Qmult_le_compat_r; [lra|apply Qlt_le_weak, q2_pos]. }
    change (sval x) with (dval x) in XB. pose proof (Qle_Qabs (dval x)). replace (Z.of_nat k) with 1024 in T by lia. lra.
  - exists k. split; [lia|]. split; [|split; [|lia]].
    + destruct fuel; cbn [log2_loop]; cbn [olt o1 omul Ol fops fops0]; fold one; now rewrite T.
    + destruct (Qlt_le_dec (p2 (Z.of_nat k)) (dval x)) as [L|L]; [|exact L]. apply (above_one x k Px X0) in L; [congruence|lia].
  - destruct fuel as [|fuel]; [lia|]. destruct (IH (S k) fuel ltac:(lia) ltac:(lia)) as (k' & K & E & L & J). exists k'. split; [lia|]. split; [|split; [exact L|]].
    + cbn [log2_loop]. cbn [olt o1 omul Ol fops fops0]. fold one. rewrite T. exact E.
    + intros j Hj. destruct (Nat.eq_dec j k) as [->|N]; [|apply J; lia]. apply (above_one x k Px X0); [lia|exact T].
  - exists k. split; [lia|]. split; [|split; [|lia]].
    + destruct fuel; cbn [log2_loop]; cbn [olt o1 omul Ol fops fops0]; fold one; now rewrite T.
    + destruct (Qlt_le_dec (p2 (Z.of_nat k)) (dval x)) as [L|L]; [|exact L]. apply (above_one x k Px X0) in L; [congruence|lia].
Qed.
Lemma log2_nan fuel s : log2_loop half fuel nan s 0 = Ok (0%nat, s).
Proof. destruct fuel; reflexivity. Qed.
Lemma sc_sign k : (k <= 1074)%nat -> exists m e, sc k = S754_finite false m e.
Proof.
  intros Hk. destruct (sc_ok k Hk) as [[V F] E]. pose proof (q2_pos (- Z.of_nat k)) as KN. destruct (sc k) as [s|s| |s m e]; try contradiction; cbn [dval] in E; [exfalso; lra|].
  pose proof (mpos_val m e) as MP. destruct s; [exfalso; lra|eauto].
Qed.
Lemma log2_inf : forall d k fuel, (k + d = 1075)%nat -> (d <= fuel)%nat -> log2_loop half fuel (inf false) (sc k) k = Ok (1075%nat, S754_zero false).
Proof.
  induction d as [|d IH]; intros k fuel Hk Hf.
  - replace k with 1075%nat by lia. rewrite sc_1075. destruct fuel; reflexivity.
  - destruct fuel as [|fuel]; [lia|]. cbn [log2_loop]. destruct (sc_sign k ltac:(lia)) as (m & e & E).
    change (olt o1 (omul (inf false) (sc k))) with (SFltb one (SFmul prec64 emax64 (inf false) (sc k))). rewrite E. cbn [SFmul inf xorb]. cbn [SFltb SFcompare one]. change (omul (S754_finite false m e) half) with (SFmul prec64 emax64 (S754_finite false m e) half). rewrite <- E, <- sc_S. apply IH; lia.
Qed.
(** * The factor 1 / k! of expm *)
Definition natd (k : nat) : double := binary_normalize prec64 emax64 (Z.of_nat k) 0 false.
Lemma natd_ge k z b : proper z -> (dval z == inject_Z b)%Q -> 1 <= b <= Z.of_nat k ->
  (proper (natd k) /\ (inject_Z b <= dval (natd k))%Q) \/ natd k = inf false.
Proof.
  intros [Vz Fz] Ez Hb. destruct fmt2 as [P1 P3], fmt3 as [P4 P5]. pose proof (normalize_crt prec64 emax64 P1 (Z.of_nat k) 0 false) as C.
  assert (V : is_double (natd k)) by (apply normalize_valid; exact P1). fold (natd k) in C.
  assert (W : (inject_Z (Z.of_nat k) * p2 0 == inject_Z (Z.of_nat k))%Q) by (change (p2 0) with 1%Q; ring).
  assert (B1 : (1 <= inject_Z b)%Q) by (change 1%Q with (inject_Z 1); apply injZ_le; lia). assert (BK : (inject_Z b <= inject_Z (Z.of_nat k))%Q) by (apply injZ_le; lia).
  destruct (crt_range prec64 emax64 P1 P3 _ _ P4 P5 V C) as [[F _]|[[E _]|[_ B]]].
  - left. split; [split; [exact V|exact F]|]. rewrite <- Ez. apply (crt_ge prec64 emax64 P1 _ _ z C F V Fz Vz). change (sval z) with (dval z). rewrite Ez, W. exact BK.
  - right. exact E.
  - exfalso. rewrite W in B. assert (0 < huge prec64 emax64)%Q by (unfold huge; apply Qmult_lt_0_compat; [reflexivity|apply q2_pos]). lra.
Qed.
Lemma zero_proper : proper (S754_zero false) /\ (dval (S754_zero false) == 0)%Q. Proof. split; [split; [reflexivity|exact I]|reflexivity]. Qed.
(** The rounded 1 / k is at most a double that is not below 1 / b, b <= k. *)
Lemma recip_le k z b w : proper z -> (dval z == inject_Z b)%Q -> 1 <= b <= Z.of_nat k -> proper w -> (/ inject_Z b <= dval w)%Q ->
  proper (SFdiv prec64 emax64 one (natd k)) /\ (0 <= dval (SFdiv prec64 emax64 one (natd k)) <= dval w)%Q.
Proof.
  intros Hz Ez Hb [Vw Fw] Hw. destruct one_proper as [Po Eo]. destruct zero_proper as [[V0 F0] E0]. assert (B1 : (1 <= inject_Z b)%Q) by (change 1%Q with (inject_Z 1); apply injZ_le; lia).
  assert (IB : (0 < / inject_Z b)%Q) by (apply Qinv_lt_0_compat; lra).
  destruct (natd_ge k z b Hz Ez Hb) as [[Py Gy]|E].
  - set (y := natd k) in *. destruct (div_facts one y Po Py) as [V C]; [lra|]. destruct fmt2 as [P1 P3], fmt3 as [P4 P5].
    assert (W : (dval one / dval y <= / inject_Z b)%Q).
    { rewrite Eo. unfold Qdiv. rewrite Qmult_1_l. apply (Qmult_lt_0_le_reg_r _ _ (dval y * inject_Z b)); [apply Qmult_lt_0_compat; lra|].
      assert (X : (/ dval y * (dval y * inject_Z b) == inject_Z b)%Q) by (field; lra). assert (Y : (/ inject_Z b * (dval y * inject_Z b) == dval y)%Q) by (field; lra). rewrite X, Y. exact Gy. }
    assert (WP : (0 < dval one / dval y)%Q) by (rewrite Eo; unfold Qdiv; rewrite Qmult_1_l; apply Qinv_lt_0_compat; lra).
    assert (F : is_finite (SFdiv prec64 emax64 one y)).
    { apply (in_range_fin (dval one / dval y)); [exact V|exact C|]. rewrite Qabs_pos by lra. pose proof (valid_below prec64 emax64 P1 w P5 Vw Fw) as WB. change (sval w) with (dval w) in WB. eapply Qle_lt_trans; [|exact WB].
      eapply Qle_trans; [exact W|]. eapply Qle_trans; [exact Hw|apply Qle_Qabs]. }
    split; [split; [exact V|exact F]|]. split.
    + rewrite <- E0. apply (crt_ge prec64 emax64 P1 _ _ (S754_zero false) C F V F0 V0). change (sval (S754_zero false)) with (dval (S754_zero false)). lra.
    + apply (crt_le prec64 emax64 P1 _ _ w C F V Fw Vw). change (sval w) with (dval w). lra.
  - rewrite E. change (SFdiv prec64 emax64 one (inf false)) with (S754_zero false). split; [apply zero_proper|]. change (dval (S754_zero false)) with 0%Q. split; [apply Qle_refl|]. lra.
Qed.
Notation q k := (SFdiv prec64 emax64 one (natd k)).
Lemma q_one k : (1 <= k)%nat -> proper (q k) /\ (0 <= dval (q k) <= 1)%Q.
Proof. intros Hk. destruct one_proper as [P E]. destruct (recip_le k one 1 one P E ltac:(lia) P) as [A B]; [rewrite E; now apply Qle_refl|]. rewrite E in B. auto. Qed.
Definition two : double := S754_finite false 4503599627370496 (-51).
Definition three : double := S754_finite false 6755399441055744 (-51).
Definition three8 : double := S754_finite false 6755399441055744 (-54).
Lemma q_half k : (2 <= k)%nat -> proper (q k) /\ (0 <= dval (q k) <= 1 # 2)%Q.
Proof. intros Hk. destruct half_proper as [P E]. destruct (recip_le k two 2 half) as [A B]; [split; [reflexivity|exact I]|reflexivity|lia|exact P|rewrite E; now apply Qle_refl|]. rewrite E in B. auto. Qed.
Lemma q_three k : (3 <= k)%nat -> proper (q k) /\ (0 <= dval (q k) <= 3 # 8)%Q.
Proof. intros Hk. assert (P : proper three8) by (split; [reflexivity|exact I]). assert (E : (dval three8 == 3 # 8)%Q) by reflexivity.
  destruct (recip_le k three 3 three8) as [A B]; [split; [reflexivity|exact I]|reflexivity|lia|exact P|rewrite E; vm_compute; discriminate|]. rewrite E in B. auto. Qed.
(** Before the term k the factor is 0, or 1 (k = 1), or at most 2^(2-k), and then k <= 1076. *)
Definition fac_ok (k : nat) (x : double) : Prop := proper x /\ (0 <= dval x)%Q /\
  ((dval x == 0)%Q \/ (k = 1%nat /\ (dval x == 1)%Q) \/ ((2 <= k <= 1076)%nat /\ (dval x <= p2 (2 - Z.of_nat k))%Q)).
Lemma fac_step k x : (1 <= k)%nat -> fac_ok k x -> fac_ok (S k) (SFmul prec64 emax64 x (q k)).
Proof.
  intros Hk (Px & X0 & H). destruct (q_one k Hk) as [Pq [Q0 Q1]]. destruct (mul_facts _ _ Px Pq) as [V C]. destruct fmt2 as [P1 P3], fmt3 as [P4 P5]. destruct zero_proper as [[V0 F0] E0].
  assert (W0 : (0 <= dval x * dval (q k))%Q) by (apply Qmult_le_0_compat; lra).
  assert (LX : (dval x * dval (q k) <= dval x)%Q) by (rewrite <- (Qmult_1_r (dval x)) at 2; rewrite !(Qmult_comm (dval x)); apply Qmult_le_compat_r; lra).
  assert (F : is_finite (SFmul prec64 emax64 x (q k))).
  { apply (in_range_fin (dval x * dval (q k))); [exact V|exact C|]. rewrite Qabs_pos by lra. pose proof (valid_below prec64 emax64 P1 x P5 (proj1 Px) (proj2 Px)) as XB. change (sval x) with (dval x) in XB.
    eapply Qle_lt_trans; [|exact XB]. eapply Qle_trans; [exact LX|apply Qle_Qabs]. }
  assert (G0 : (0 <= dval (SFmul prec64 emax64 x (q k)))%Q).
  { rewrite <- E0. apply (crt_ge prec64 emax64 P1 _ _ (S754_zero false) C F V F0 V0). exact W0. }
  assert (LE : forall z, proper z -> (dval x * dval (q k) <= dval z)%Q -> (dval (SFmul prec64 emax64 x (q k)) <= dval z)%Q).
  { intros z [Vz Fz] L. apply (crt_le prec64 emax64 P1 _ _ z C F V Fz Vz). exact L. }
  split; [split; [exact V|exact F]|]. split; [exact G0|]. destruct H as [H|[[K1 H]|[K2 H]]].
  - left. apply Qle_antisym; [|exact G0]. rewrite <- E0. apply LE; [split; auto|]. rewrite E0. rewrite H. lra.
  - right. right. split; [lia|]. subst k. destruct one_proper as [Po Eo]. change (p2 (2 - Z.of_nat 2)) with 1%Q. rewrite <- Eo. apply LE; [exact Po|]. rewrite Eo. lra.
  - destruct (q_half k ltac:(lia)) as [_ [_ Qh]]. destruct (Nat.eq_dec k 1076) as [KE|KN].
    + left. destruct (q_three k ltac:(lia)) as [_ [_ Q3]]. rewrite KE in H at 1. change (2 - Z.of_nat 1076) with (-1074) in H. pose proof (q2_pos (-1074)) as TP.
      assert (W3 : (dval x * dval (q k) <= (3 # 8) * p2 (-1074))%Q).
      { eapply Qle_trans; [apply (Qmult_le_compat_r _ _ (dval (q k)) H Q0)|]. rewrite (Qmult_comm (3 # 8)), !(Qmult_comm (p2 _)). apply Qmult_le_compat_r; lra. }
      pose proof (crt_nearest prec64 emax64 P1 _ _ (S754_zero false) C F V0 F0) as N. change (sval (S754_zero false)) with 0%Q in N.
      assert (A0 : (Qabs (0 - dval x * dval (q k)) == dval x * dval (q k))%Q) by (assert (Z : (0 - dval x * dval (q k) == - (dval x * dval (q k)))%Q) by ring; rewrite Z, Qabs_opp, Qabs_pos; [reflexivity|exact W0]).
      rewrite A0 in N. pose proof (Qle_Qabs (sval (SFmul prec64 emax64 x (q k)) - dval x * dval (q k))) as A1.
      assert (S1 : (dval (SFmul prec64 emax64 x (q k)) < p2 (-1074))%Q) by (change (dval (SFmul prec64 emax64 x (q k))) with (sval (SFmul prec64 emax64 x (q k))); lra).
      destruct (SFmul prec64 emax64 x (q k)) as [s|s| |s m e]; try contradiction; [reflexivity|exfalso]. cbn [dval] in *. pose proof (mpos_val m e) as MP. destruct s; [lra|].
      pose proof (bounded_emin prec64 emax64 m e V) as He. change (SpecFloat.emin prec64 emax64) with (-1074) in He. apply q2_mono in He.
      assert (M1 : (1 * p2 e <= inject_Z (Zpos m) * p2 e)%Q) by (apply Qmult_le_compat_r; [change 1%Q with (inject_Z 1); apply injZ_le; lia|apply Qlt_le_weak, q2_pos]). lra.
    + right. right. split; [lia|]. destruct (sc_ok (k - 1) ltac:(lia)) as [Pz Ez]. replace (2 - Z.of_nat (S k)) with (- Z.of_nat (k - 1)) by lia. rewrite <- Ez. apply LE; [exact Pz|]. rewrite Ez.
      apply Qle_trans with (p2 (2 - Z.of_nat k) * (1 # 2))%Q.
      * eapply Qle_trans; [apply (Qmult_le_compat_r _ _ (dval (q k)) H Q0)|]. rewrite !(Qmult_comm (p2 _)). apply Qmult_le_compat_r; [exact Qh|apply Qlt_le_weak, q2_pos].
      * replace (2 - Z.of_nat k) with (1 + - Z.of_nat (k - 1)) by lia. rewrite q2_add. change (p2 1) with 2%Q. lra.
Qed.
Lemma fac_one : fac_ok 1 one.
Proof. destruct one_proper as [P E]. split; [exact P|]. split; [rewrite E; lra|]. right. left. auto. Qed.
Lemma fac_end k x : (1077 <= k)%nat -> fac_ok k x -> exists s, x = S754_zero s.
Proof.
  intros Hk ([V F] & _ & [H|[[K _]|[K _]]]); [|lia|lia]. destruct x as [s|s| |s m e]; try contradiction; [eauto|exfalso]. cbn [dval] in H. pose proof (mpos_val m e). destruct s; lra.
Qed.
(** The two tests of the factor agree, and hold for zero. *)
Lemma sub_zero_r x : is_finite x -> is_double x -> SFabs (SFsub prec64 emax64 x (S754_zero false)) = SFabs x.
Proof. destruct x as [s|s| |s m e]; try contradiction; intros; [destruct s; reflexivity|reflexivity]. Qed.
Lemma tests_agree x : proper x -> ofeq x o0 = oisz x.
Proof.
  intros [V F]. change (SFleb (SFabs (SFsub prec64 emax64 x (S754_zero false))) (SFmul prec64 emax64 tol (@std_max _ fops0 (SFabs x) (S754_zero false))) = SFleb (SFabs x) (SFmul prec64 emax64 tol (SFabs x))).
  rewrite sub_zero_r by auto. replace (@std_max _ fops0 (SFabs x) (S754_zero false)) with (SFabs x); [reflexivity|]. destruct x as [s|s| |s m e]; try contradiction; reflexivity.
Qed.
Lemma isz_zero s : is_finite tol -> oisz (S754_zero s) = true.
Proof. intros Ft. change (SFleb (SFabs (S754_zero s)) (SFmul prec64 emax64 tol (SFabs (S754_zero s))) = true). destruct tol as [b|b| |b m e]; try contradiction; reflexivity. Qed.
End Loops.
