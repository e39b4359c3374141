(** PropFloatLin.v: C94, linspace of doubles: how far the points are from the exact ones, their order,
    when they are exact, and what happens when the difference overflows. *)
From Coq Require Import ZArith QArith Qabs Qpower Qminmax Bool Lia Lqa SpecFloat List.
From Verif Require Import LinalgFacts2 PropUtil PropMath Feq Float FloatFacts FloatValid FloatRound FloatIOFacts FloatArith FloatSum FloatCmp FloatMono PropFloat PropFloat2 PropFloatIO PropFloatSum PropFloatCmp FloatLoop.
Import ListNotations.
Local Open Scope nat_scope.

(** * Specification *)
(** The i-th of n points from [a] to [b], exactly. *)
Definition point (a b : Q) (n i : nat) : Q := (a + (b - a) * (inject_Z (Z.of_nat i) / inject_Z (Z.of_nat (n - 1))))%Q.
(** 2^-50 of the larger end, and n times the smallest positive double for underflow. *)
Definition slack (a b : double) (n : nat) : Q := (2 ^ (-50) * size a b + inject_Z (Z.of_nat n) * 2 ^ (-1074))%Q.

(** * The step and its multiples *)
Local Open Scope Z_scope.
Notation qn k := (inject_Z (Z.of_nat k)).
Lemma natd_exact k : Z.of_nat k <= 2 ^ 53 -> proper (natd k) /\ (dval (natd k) == qn k)%Q.
Proof.
  intros Hk. destruct fmt2 as [P1 P3]. pose proof (normalize_crt prec64 emax64 P1 (Z.of_nat k) 0 false) as C. fold (natd k) in C.
  assert (V : is_double (natd k)) by (apply normalize_valid; exact P1).
  destruct (exact_small (inject_Z (Z.of_nat k) * p2 0) (natd k) (Z.of_nat k) 0) as [F E]; [reflexivity|lia|lia|exact C|]. split; [split; [exact V|exact F]|]. change (sval (natd k)) with (dval (natd k)) in E. rewrite E. change (p2 0) with 1%Q. ring.
Qed.
Lemma qn_nonneg k : (0 <= qn k)%Q. Proof. apply (injZ_le 0). lia. Qed.
Lemma qn_pos k : (0 < k)%nat -> (0 < qn k)%Q. Proof. intros H. apply (injZ_lt 0). lia. Qed.
Lemma qn_le i k : (i <= k)%nat -> (qn i <= qn k)%Q. Proof. intros H. apply injZ_le. lia. Qed.
Notation SMUL := (SFmul prec64 emax64). Notation SDIV := (SFdiv prec64 emax64).
Definition incr (w : double) (k i : nat) : double := SMUL (SDIV w (natd k)) (natd i).
Definition u1 : Q := 1 # 9007199254740992.
Lemma unit_u1 : (uu prec64 == u1)%Q. Proof. reflexivity. Qed.
Lemma small_range (x : Q) : (Qabs x <= p2 1023 + p2 1022)%Q -> (Qabs x < huge53)%Q.
Proof. intros H. eapply Qle_lt_trans; [exact H|]. vm_compute. reflexivity. Qed.
(** A rounded value is within one rounding error. *)
Lemma close_bound v y : close_u prec64 emax64 v y -> is_finite y -> (Qabs (dval y - v) <= u1 * Qabs v + tiny)%Q.
Proof.
  intros [[F B]|[[s E] _]] Fy; [|rewrite E in Fy; contradiction]. rewrite unit_u1 in B. change (sval y) with (dval y) in B. change (eta prec64 emax64) with tiny in B. pose proof (Qabs_nonneg v) as N.
  assert (T : (0 < tiny)%Q) by reflexivity. assert (U : (0 <= u1 * Qabs v)%Q) by (apply Qmult_le_0_compat; [discriminate|exact N]). destruct B as [B|[B _]]; lra.
Qed.
Lemma div_exact_nat w k : proper w -> (0 <= dval w)%Q -> (Qabs (dval w) <= p2 1023 + p2 1022)%Q -> (1 <= k)%nat -> Z.of_nat k <= 2 ^ 53 ->
  proper (SDIV w (natd k)) /\ (0 <= dval (SDIV w (natd k)))%Q /\ (Qabs (dval (SDIV w (natd k)) - dval w / qn k) <= u1 * (dval w / qn k) + tiny)%Q.
Proof.
  intros Pw W0 WB Hk Hk2. destruct (natd_exact k Hk2) as [Pk Ek]. pose proof (qn_pos k Hk) as KP. assert (NZ : ~ (dval (natd k) == 0)%Q) by (rewrite Ek; lra).
  destruct (div_facts w (natd k) Pw Pk NZ) as [V C]. destruct fmt2 as [P1 P3], fmt3 as [P4 P5]. assert (E : (dval w / dval (natd k) == dval w / qn k)%Q) by (now rewrite Ek).
  assert (Q0 : (0 <= dval w / qn k)%Q) by (apply Qle_shift_div_l; [exact KP|lra]). assert (K1 : (1 <= qn k)%Q) by (apply (qn_le 1); lia).
  assert (QW : (dval w / qn k <= dval w)%Q).
  { apply Qle_shift_div_r; [exact KP|]. rewrite <- (Qmult_1_r (dval w)) at 1. rewrite !(Qmult_comm (dval w)). apply Qmult_le_compat_r; [exact K1|exact W0]. }
  assert (F : is_finite (SDIV w (natd k))).
  { apply (in_range_fin (dval w / dval (natd k)) _ V C). apply small_range. rewrite E. eapply Qle_trans; [|exact WB]. rewrite !Qabs_pos by lra. exact QW. }
  split; [split; [exact V|exact F]|]. split.
  - destruct zero_proper as [[V0 F0] E0]. rewrite <- E0. apply (crt_ge prec64 emax64 P1 _ _ (S754_zero false) C F V F0 V0). change (sval (S754_zero false)) with 0%Q. rewrite E. exact Q0.
  - pose proof (close_bound _ _ (div_close prec64 emax64 P1 P3 w (natd k) (proj2 Pw) (proj2 Pk) NZ) F) as B. change (sval w / sval (natd k))%Q with (dval w / dval (natd k))%Q in B. rewrite E in B. rewrite (Qabs_pos (dval w / qn k)) in B by exact Q0. exact B.
Qed.
Lemma frac_ok i k : (1 <= k)%nat -> (i <= k)%nat -> (0 <= qn i / qn k)%Q /\ (qn i / qn k <= 1)%Q.
Proof.
  intros Hk Hi. pose proof (qn_pos k Hk) as KP. pose proof (qn_nonneg i) as I0. pose proof (qn_le i k Hi) as IK. split; [apply Qle_shift_div_l; [exact KP|rewrite Qmult_0_l; exact I0]|apply Qle_shift_div_r; [exact KP|rewrite Qmult_1_l; exact IK]].
Qed.
Lemma scale_ok D c : (0 <= D)%Q -> (0 <= c)%Q -> (c <= 1)%Q -> (0 <= D * c)%Q /\ (D * c <= D)%Q.
Proof. intros D0 C0 C1. split; [now apply Qmult_le_0_compat|]. rewrite <- (Qmult_1_r D) at 2. rewrite !(Qmult_comm D). now apply Qmult_le_compat_r. Qed.
Lemma between_up M a b t : (Qabs a <= M)%Q -> (Qabs b <= M)%Q -> (0 <= t)%Q -> (t <= b - a)%Q -> (Qabs (a + t) <= M)%Q.
Proof. intros A B T0 T1. apply Qabs_Qle_condition in A. apply Qabs_Qle_condition in B. apply Qabs_Qle_condition. split; lra. Qed.
Lemma between_down M a b t : (Qabs a <= M)%Q -> (Qabs b <= M)%Q -> (0 <= t)%Q -> (t <= a - b)%Q -> (Qabs (a - t) <= M)%Q.
Proof. intros A B T0 T1. apply Qabs_Qle_condition in A. apply Qabs_Qle_condition in B. apply Qabs_Qle_condition. split; lra. Qed.
Lemma diff_two M a b : (Qabs a <= M)%Q -> (Qabs b <= M)%Q -> (a - b <= 2 * M)%Q.
Proof. intros A B. apply Qabs_Qle_condition in A. apply Qabs_Qle_condition in B. lra. Qed.
Lemma half_1023 : (p2 1022 == (1 # 2) * p2 1023)%Q. Proof. reflexivity. Qed.
Lemma w_bound w D : (0 <= w)%Q -> (D <= p2 1023)%Q -> (Qabs (w - D) <= u1 * D)%Q -> (Qabs w <= p2 1023 + p2 1022)%Q.
Proof.
  intros W0 DB WD. apply Qabs_Qle_condition in WD. rewrite Qabs_pos by exact W0. rewrite half_1023. assert (P23 : (0 < p2 1023)%Q) by apply q2_pos. generalize dependent (p2 1023). intros P DB P23. unfold u1 in WD. lra.
Qed.
Definition c3 : Q := (3 * u1 + 3 * (u1 * u1) + u1 * u1 * u1)%Q.
Lemma incr_ok w D k i : proper w -> (0 <= dval w)%Q -> (0 <= D)%Q -> (D <= p2 1023)%Q -> (Qabs (dval w - D) <= u1 * D)%Q -> (1 <= k)%nat -> Z.of_nat k < 2 ^ 32 -> (i <= k)%nat ->
  proper (incr w k i) /\ (0 <= dval (incr w k i))%Q /\ (Qabs (dval (incr w k i) - D * (qn i / qn k)) <= c3 * (D * (qn i / qn k)) + ((1 + u1) * qn i + 1) * tiny)%Q.
Proof.
  intros Pw W0 D0 DB WD Hk Hk2 Hi. pose proof (w_bound _ _ W0 DB WD) as WB. apply Qabs_Qle_condition in WD.
  destruct (div_exact_nat w k Pw W0 WB Hk ltac:(lia)) as (Pq & Q0 & QB). destruct (natd_exact i ltac:(lia)) as [Pi Ei].
  pose proof (qn_pos k Hk) as KP. pose proof (qn_nonneg i) as I0. pose proof (qn_le i k Hi) as IK.
  set (q := SDIV w (natd k)) in *. destruct (mul_facts q (natd i) Pq Pi) as [V C]. fold q. change (SMUL q (natd i)) with (incr w k i) in V, C.
  assert (E : (dval q * dval (natd i) == dval q * qn i)%Q) by (now rewrite Ei).
  assert (QI0 : (0 <= dval q * qn i)%Q) by (apply Qmult_le_0_compat; assumption).
  destruct (frac_ok i k Hk Hi) as [C0 C1]. set (cc := (qn i / qn k)%Q) in *. destruct (scale_ok D cc D0 C0 C1) as [T0 TD]. set (t := (D * cc)%Q) in *.
  (* w i / k *)
  assert (WT : (- (u1 * t) <= dval w * cc - t /\ dval w * cc - t <= u1 * t)%Q).
  { unfold t. destruct WD as [WD1 WD2]. assert (M1 := Qmult_le_compat_r _ _ cc WD1 C0). assert (M2 := Qmult_le_compat_r _ _ cc WD2 C0). clear - M1 M2. split; lra. }
  (* q i *)
  assert (WC : (dval w * cc == dval w / qn k * qn i)%Q) by (unfold cc; field; lra).
  assert (QT : (- (u1 * (dval w * cc) + qn i * tiny) <= dval q * qn i - dval w * cc /\ dval q * qn i - dval w * cc <= u1 * (dval w * cc) + qn i * tiny)%Q).
  { apply Qabs_Qle_condition in QB. destruct QB as [B1 B2]. assert (M1 := Qmult_le_compat_r _ _ (qn i) B1 I0). assert (M2 := Qmult_le_compat_r _ _ (qn i) B2 I0). rewrite WC. clear - M1 M2. split; lra. }
  set (it := (qn i * tiny)%Q) in *. assert (IT0 : (0 <= it)%Q) by (apply Qmult_le_0_compat; [exact I0|discriminate]).
  assert (QI : (dval q * qn i <= (1 + u1) * (1 + u1) * t + it)%Q) by (destruct WT as [_ WT], QT as [_ QT]; clear - WT QT; unfold u1 in *; lra).
  assert (ITB : (it <= 1)%Q).
  { unfold it. apply Qle_trans with (inject_Z (2 ^ 32) * tiny)%Q; [|vm_compute; discriminate]. apply Qmult_le_compat_r; [apply injZ_le; lia|discriminate]. }
  destruct fmt2 as [P1 P3], fmt3 as [P4 P5].
  assert (F : is_finite (incr w k i)).
  { apply (in_range_fin _ _ V C). apply small_range. rewrite E, Qabs_pos by exact QI0. eapply Qle_trans; [exact QI|]. rewrite half_1023.
    assert (P24 : (4 <= p2 1023)%Q) by (vm_compute; discriminate). clear - TD DB ITB P24. generalize dependent (p2 1023). clearbody t it. intros. unfold u1. lra. }
  split; [split; [exact V|exact F]|]. split.
  - destruct zero_proper as [[V0 F0] E0]. rewrite <- E0. apply (crt_ge prec64 emax64 P1 _ _ (S754_zero false) C F V F0 V0). change (sval (S754_zero false)) with 0%Q. rewrite E. exact QI0.
  - pose proof (close_bound _ _ (mul_close prec64 emax64 P1 P3 q (natd i) (proj1 Pq) (proj1 Pi) (proj2 Pq) (proj2 Pi)) F) as B. change (SMUL q (natd i)) with (incr w k i) in B. change (sval q * sval (natd i))%Q with (dval q * dval (natd i))%Q in B. rewrite E in B.
    rewrite (Qabs_pos (dval q * qn i)) in B by exact QI0. apply Qabs_Qle_condition in B. apply Qabs_Qle_condition. fold cc t.
    assert (R : (((1 + u1) * qn i + 1) * tiny == (1 + u1) * it + tiny)%Q) by (unfold it; ring). rewrite R. clear - B QT WT QI. unfold c3, u1 in *. generalize dependent (dval q * qn i)%Q. generalize dependent (dval w * cc)%Q. intros. clearbody t it. split; lra.
Qed.
Lemma cmono w w' y y' : crt prec64 emax64 w y -> crt prec64 emax64 w' y' -> proper y -> proper y' -> (w <= w')%Q -> (dval y <= dval y')%Q.
Proof. intros C C' [V F] [V' F'] L. destruct fmt2 as [P1 P3]. exact (crt_mono prec64 emax64 P1 w w' y y' L C C' F F' V V'). Qed.
Lemma incr_mono w k i j : proper (SDIV w (natd k)) -> (0 <= dval (SDIV w (natd k)))%Q -> (i <= j)%nat -> Z.of_nat j <= 2 ^ 53 -> is_finite (incr w k i) -> is_finite (incr w k j) -> (dval (incr w k i) <= dval (incr w k j))%Q.
Proof.
  intros Pq Q0 Hij Hj Fi Fj. destruct (natd_exact i ltac:(lia)) as [Pi Ei]. destruct (natd_exact j Hj) as [Pj Ej]. destruct (mul_facts _ _ Pq Pi) as [Vi Ci]. destruct (mul_facts _ _ Pq Pj) as [Vj Cj]. destruct fmt2 as [P1 P3].
  apply (cmono _ _ _ _ Ci Cj); [split; auto|split; auto|]. rewrite Ei, Ej, !(Qmult_comm (dval _)). apply Qmult_le_compat_r; [now apply qn_le|exact Q0].
Qed.
Lemma incr_zero w k : proper (SDIV w (natd k)) -> exists s, incr w k 0 = S754_zero s.
Proof. unfold incr. intros [_ F]. destruct (SDIV w (natd k)) as [s|s| |s m e]; try contradiction; eexists; reflexivity. Qed.
Lemma size_bounds a b : (Qabs (dval a) <= size a b)%Q /\ (Qabs (dval b) <= size a b)%Q. Proof. split; [apply Q.le_max_l|apply Q.le_max_r]. Qed.
(** In range. *)
Lemma sum_range t e y i k : (0 <= t)%Q -> (t <= p2 1023)%Q -> (Qabs e <= p2 1022)%Q -> (i <= k)%nat -> Z.of_nat k < 2 ^ 32 -> (Qabs (y - e) <= c3 * t + ((1 + u1) * qn i + 1) * tiny)%Q -> (Qabs y < huge53)%Q.
Proof.
  intros T0 TB EB Hi Hk Y. apply small_range. assert (Z : (y == e + (y - e))%Q) by ring. rewrite Z. eapply Qle_trans; [apply Qabs_triangle|].
  assert (IT : (((1 + u1) * qn i + 1) * tiny <= 1)%Q).
  { apply Qle_trans with (((1 + u1) * inject_Z (2 ^ 32) + 1) * tiny)%Q; [|vm_compute; discriminate]. apply Qmult_le_compat_r; [|discriminate].
    assert (QI : (qn i <= inject_Z (2 ^ 32))%Q) by (apply injZ_le; lia). assert (QJ : ((1 + u1) * qn i <= (1 + u1) * inject_Z (2 ^ 32))%Q) by (rewrite !(Qmult_comm (1 + u1)); apply Qmult_le_compat_r; [assumption|discriminate]).
    clear - QJ. lra. }
  assert (P24 : (4 <= p2 1023)%Q) by (vm_compute; discriminate). rewrite half_1023 in *. clear - T0 TB EB Y IT P24. generalize dependent (((1 + u1) * qn i + 1) * tiny)%Q. generalize dependent (p2 1023). generalize dependent (Qabs (y - e)). generalize dependent (Qabs e). intros. unfold c3, u1 in *. lra.
Qed.
(** The last rounding. *)
Lemma final_bound M D t e y x n i tn : (0 <= t)%Q -> (t <= D)%Q -> (D <= 2 * M)%Q -> (Qabs e <= M)%Q -> (Qabs (y - e) <= c3 * t + ((1 + u1) * qn i + 1) * tn)%Q -> (Qabs (x - y) <= u1 * Qabs y)%Q -> (S i <= n)%nat -> (0 <= tn)%Q ->
  (Qabs (x - e) <= 8 * u1 * M + qn n * (2 * tn))%Q.
Proof.
  intros T0 TD DM EM Y X Hi N0. pose proof (qn_le (S i) n Hi) as IN. rewrite Nat2Z.inj_succ, <- Z.add_1_r, inject_Z_plus in IN. change (inject_Z 1) with 1%Q in IN. pose proof (qn_nonneg i) as I0.
  assert (YA : (Qabs y <= M + (c3 * t + ((1 + u1) * qn i + 1) * tn))%Q).
  { assert (Z : (y == e + (y - e))%Q) by ring. rewrite Z. eapply Qle_trans; [apply Qabs_triangle|]. lra. }
  assert (XA : (Qabs (x - e) <= Qabs (x - y) + Qabs (y - e))%Q).
  { assert (Z : (x - e == (x - y) + (y - e))%Q) by ring. rewrite Z. apply Qabs_triangle. }
  assert (IT : ((qn i + 1) * tn <= qn n * tn)%Q) by (apply Qmult_le_compat_r; assumption). assert (I1 : (0 <= qn i * tn)%Q) by (apply Qmult_le_0_compat; assumption).
  assert (R : (((1 + u1) * qn i + 1) * tn == (1 + u1) * (qn i * tn) + tn)%Q) by ring. rewrite R in *. assert (R2 : ((qn i + 1) * tn == qn i * tn + tn)%Q) by ring. rewrite R2 in IT.
  set (it := (qn i * tn)%Q) in *. set (nt := (qn n * tn)%Q) in *. assert (R3 : (qn n * (2 * tn) == 2 * nt)%Q) by (unfold nt; ring). rewrite R3. clearbody it nt.
  clear - XA YA Y X IT I1 N0 T0 TD DM. generalize dependent (Qabs y). generalize dependent (Qabs (x - y)). generalize dependent (Qabs (y - e)). generalize dependent (Qabs (x - e)). intros. unfold c3, u1 in *. lra.
Qed.
Lemma tiny_two : (2 * tiny == p2 (-1074))%Q. Proof. reflexivity. Qed.
Lemma u1_eight : (8 * u1 == p2 (-50))%Q. Proof. reflexivity. Qed.
Lemma rel_bound v y : close prec64 emax64 v y -> is_finite y -> (Qabs (dval y - v) <= u1 * Qabs v)%Q.
Proof. intros [[F B]|[[s E] _]] Fy; [|rewrite E in Fy; contradiction]. rewrite unit_u1 in B. exact B. Qed.

Section C94.
Variable tol : double.
#[local] Instance On : Ops double := fops tol.
Local Open Scope nat_scope.
(** * The points are near the exact ones, start at the first end, and are in order. *)
Theorem C94_linspace : forall a b n, proper a -> proper b -> (size a b <= 2 ^ 1022)%Q -> 2 <= n -> (Z.of_nat n <= 2 ^ 32)%Z -> fits n -> ofeq a b = false ->
  exists d x, linspace a b n = Ok d /\ is_vec d n x /\
    (forall i, i < n -> proper (x i) /\ (Qabs (dval (x i) - point (dval a) (dval b) n i) <= slack a b n)%Q) /\
    (dval (x 0%nat) == dval a)%Q /\
    ((dval a < dval b)%Q -> forall i j, i <= j -> j < n -> (dval (x i) <= dval (x j))%Q) /\
    ((dval b <= dval a)%Q -> forall i j, i <= j -> j < n -> (dval (x j) <= dval (x i))%Q).
Proof.
  intros a b n Pa Pb SB Hn Hn2 Hf Hne. destruct (size_bounds a b) as [Sa Sb]. change (size a b <= p2 1022)%Q in SB.
  assert (S2 : (2 * size a b <= p2 1023)%Q) by (rewrite half_1023 in SB; clear - SB; lra). pose proof (Qle_trans _ _ _ (diff_two _ _ _ Sb Sa) S2) as Bba. pose proof (Qle_trans _ _ _ (diff_two _ _ _ Sa Sb) S2) as Bab.
  destruct fmt2 as [P1 P3], fmt3 as [P4 P5]. destruct (C28_linspace_elements a b n Hn Hf Hne) as [Hup Hdn]. set (k := n - 1) in *. assert (Hk : 1 <= k) by lia. assert (Hk2 : (Z.of_nat k < 2 ^ 32)%Z) by lia.
  assert (KP := qn_pos k ltac:(lia)).
  (* the difference of the ends, the larger first *)
  assert (DF : forall y z, proper y -> proper z -> (dval z <= dval y)%Q -> (dval y - dval z <= p2 1023)%Q -> let w := SFsub prec64 emax64 y z in
    proper w /\ (0 <= dval w)%Q /\ (Qabs (dval w - (dval y - dval z)) <= u1 * (dval y - dval z))%Q).
  { intros y z Py Pz L B w. destruct (sub_facts y z Py Pz) as [V C]. fold w in V, C. assert (F : is_finite w).
    { apply (in_range_fin _ _ V C). apply small_range. rewrite Qabs_pos by (clear - L; lra). assert (PP : (0 < p2 1022)%Q) by apply q2_pos. clear - B PP. generalize dependent (p2 1022). intros. lra. }
    split; [split; [exact V|exact F]|]. split.
    - destruct zero_proper as [[V0 F0] E0]. rewrite <- E0. apply (crt_ge prec64 emax64 P1 _ _ (S754_zero false) C F V F0 V0). change (sval (S754_zero false)) with 0%Q. clear - L. lra.
    - pose proof (rel_bound _ _ (sub_close prec64 emax64 P1 P3 y z (proj1 Py) (proj1 Pz) (proj2 Py) (proj2 Pz)) F) as R. change (sval y - sval z)%Q with (dval y - dval z)%Q in R. rewrite (Qabs_pos (dval y - dval z)) in R by (clear - L; lra). exact R. }
  destruct (SFltb a b) eqn:EL.
  - pose proof (proj1 (lt_val a b Pa Pb) EL) as LT. destruct (DF b a Pb Pa (Qlt_le_weak _ _ LT) Bba) as (Pw & W0 & WD). set (w := SFsub prec64 emax64 b a) in *.
    destruct (Hup EL (SDIV w (natd k)) eq_refl) as (d & E & Hd). exists d. eexists. split; [exact E|]. split; [exact Hd|].
    assert (D0 : (0 <= dval b - dval a)%Q) by (clear - LT; lra). pose proof Bba as DB.
    pose proof (w_bound _ _ W0 DB WD) as WB.
    destruct (div_exact_nat w k Pw W0 WB Hk ltac:(lia)) as (Pq & Q0 & _).
    assert (X : forall i, i <= k -> let x := SFadd prec64 emax64 a (incr w k i) in proper x /\ crt prec64 emax64 (dval a + dval (incr w k i)) x /\ (Qabs (dval x - point (dval a) (dval b) n i) <= slack a b n)%Q).
    { intros i Hi x. destruct (incr_ok w (dval b - dval a) k i Pw W0 D0 DB WD Hk Hk2 Hi) as (Pi & I0 & IB).
      assert (C : crt prec64 emax64 (dval a + dval (incr w k i)) x) by exact (add_crt prec64 emax64 P1 a (incr w k i) (proj2 Pa) (proj2 Pi)). assert (V : is_double x) by (apply double_ops; [apply Pa|apply Pi]).
      destruct (frac_ok i k Hk Hi) as [C0 C1]. set (cc := (qn i / qn k)%Q) in *. destruct (scale_ok (dval b - dval a) cc D0 C0 C1) as [T0 TD].
      change (point (dval a) (dval b) n i) with (dval a + (dval b - dval a) * cc)%Q. set (t := ((dval b - dval a) * cc)%Q) in *.
      assert (EE : (Qabs (dval a + t) <= size a b)%Q) by (exact (between_up (size a b) (dval a) (dval b) t Sa Sb T0 TD)).
      assert (YB : (Qabs (dval a + dval (incr w k i) - (dval a + t)) <= c3 * t + ((1 + u1) * qn i + 1) * tiny)%Q).
      { eapply Qle_trans; [|exact IB]. apply Qle_lteq. right. apply Qabs_wd. ring. }
      assert (F : is_finite x) by (apply (in_range_fin _ _ V C); apply (sum_range t (dval a + t)%Q _ i k T0 (Qle_trans _ _ _ TD DB) (Qle_trans _ _ _ EE SB) Hi Hk2 YB)).
      split; [split; [exact V|exact F]|]. split; [exact C|]. unfold slack. rewrite <- u1_eight, <- tiny_two.
      apply (final_bound (size a b) (dval b - dval a) t (dval a + t) (dval a + dval (incr w k i)) (dval x) n i tiny); [exact T0|exact TD|apply diff_two; assumption|exact EE|exact YB| |lia|discriminate].
      exact (rel_bound _ _ (add_close prec64 emax64 P1 P3 a (incr w k i) (proj1 Pa) (proj1 Pi) (proj2 Pa) (proj2 Pi)) F). }
    split; [intros i Hi; destruct (X i ltac:(lia)) as (Q1 & _ & Q3); split; [exact Q1|exact Q3]|]. split; [|split].
    + destruct (incr_zero w k Pq) as (s & Ez). change (dval (SFadd prec64 emax64 a (incr w k 0)) == dval a)%Q. rewrite Ez. destruct a as [sa|sa| |sa ma ea]; try (destruct Pa; contradiction); [destruct sa, s; reflexivity|reflexivity].
    + intros _ i j Hij Hj. destruct (X i ltac:(lia)) as (Xi & Ci & _). destruct (X j ltac:(lia)) as (Xj & Cj & _).
      destruct (incr_ok w (dval b - dval a) k i Pw W0 D0 DB WD Hk Hk2 ltac:(lia)) as (Pi & _). destruct (incr_ok w (dval b - dval a) k j Pw W0 D0 DB WD Hk Hk2 ltac:(lia)) as (Pj & _).
      apply (cmono _ _ _ _ Ci Cj Xi Xj).
      pose proof (incr_mono w k i j Pq Q0 Hij ltac:(lia) (proj2 Pi) (proj2 Pj)) as IM. clear - IM. lra.
    + intros L. exfalso. revert L. first [apply Qlt_not_le; exact LT|apply Qle_not_lt; exact LE].
  - assert (LE : (dval b <= dval a)%Q) by (destruct (Qlt_le_dec (dval a) (dval b)) as [L|L]; [apply (lt_val a b Pa Pb) in L; congruence|exact L]).
    destruct (DF a b Pa Pb LE Bab) as (Pw & W0 & WD). set (w := SFsub prec64 emax64 a b) in *.
    destruct (Hdn EL (SDIV w (natd k)) eq_refl) as (d & E & Hd). exists d. eexists. split; [exact E|]. split; [exact Hd|].
    assert (D0 : (0 <= dval a - dval b)%Q) by (clear - LE; lra). pose proof Bab as DB.
    pose proof (w_bound _ _ W0 DB WD) as WB.
    destruct (div_exact_nat w k Pw W0 WB Hk ltac:(lia)) as (Pq & Q0 & _).
    assert (X : forall i, i <= k -> let x := SFsub prec64 emax64 a (incr w k i) in proper x /\ crt prec64 emax64 (dval a - dval (incr w k i)) x /\ (Qabs (dval x - point (dval a) (dval b) n i) <= slack a b n)%Q).
    { intros i Hi x. destruct (incr_ok w (dval a - dval b) k i Pw W0 D0 DB WD Hk Hk2 Hi) as (Pi & I0 & IB).
      assert (C : crt prec64 emax64 (dval a - dval (incr w k i)) x) by exact (sub_crt prec64 emax64 P1 a (incr w k i) (proj2 Pa) (proj2 Pi)). assert (V : is_double x) by (apply double_ops; [apply Pa|apply Pi]).
      destruct (frac_ok i k Hk Hi) as [C0 C1]. set (cc := (qn i / qn k)%Q) in *. destruct (scale_ok (dval a - dval b) cc D0 C0 C1) as [T0 TD].
      assert (PE : (point (dval a) (dval b) n i == dval a - (dval a - dval b) * cc)%Q) by (unfold point; fold k; fold cc; ring). rewrite PE. set (t := ((dval a - dval b) * cc)%Q) in *.
      assert (EE : (Qabs (dval a - t) <= size a b)%Q) by (exact (between_down (size a b) (dval a) (dval b) t Sa Sb T0 TD)).
      assert (YB : (Qabs (dval a - dval (incr w k i) - (dval a - t)) <= c3 * t + ((1 + u1) * qn i + 1) * tiny)%Q).
      { eapply Qle_trans; [|exact IB]. apply Qle_lteq. right. rewrite Qabs_Qminus. apply Qabs_wd. ring. }
      assert (F : is_finite x) by (apply (in_range_fin _ _ V C); apply (sum_range t (dval a - t)%Q _ i k T0 (Qle_trans _ _ _ TD DB) (Qle_trans _ _ _ EE SB) Hi Hk2 YB)).
      split; [split; [exact V|exact F]|]. split; [exact C|]. unfold slack. rewrite <- u1_eight, <- tiny_two.
      apply (final_bound (size a b) (dval a - dval b) t (dval a - t) (dval a - dval (incr w k i)) (dval x) n i tiny); [exact T0|exact TD|apply diff_two; assumption|exact EE|exact YB| |lia|discriminate].
      exact (rel_bound _ _ (sub_close prec64 emax64 P1 P3 a (incr w k i) (proj1 Pa) (proj1 Pi) (proj2 Pa) (proj2 Pi)) F). }
    split; [intros i Hi; destruct (X i ltac:(lia)) as (Q1 & _ & Q3); split; [exact Q1|exact Q3]|]. split; [|split].
    + destruct (incr_zero w k Pq) as (s & Ez). change (dval (SFsub prec64 emax64 a (incr w k 0)) == dval a)%Q. rewrite Ez. destruct a as [sa|sa| |sa ma ea]; try (destruct Pa; contradiction); [destruct sa, s; reflexivity|reflexivity].
    + intros L. exfalso. revert L. first [apply Qlt_not_le; exact LT|apply Qle_not_lt; exact LE].
    + intros _ i j Hij Hj. destruct (X i ltac:(lia)) as (Xi & Ci & _). destruct (X j ltac:(lia)) as (Xj & Cj & _).
      destruct (incr_ok w (dval a - dval b) k i Pw W0 D0 DB WD Hk Hk2 ltac:(lia)) as (Pi & _). destruct (incr_ok w (dval a - dval b) k j Pw W0 D0 DB WD Hk Hk2 ltac:(lia)) as (Pj & _).
      apply (cmono _ _ _ _ Cj Ci Xj Xi).
      pose proof (incr_mono w k i j Pq Q0 Hij ltac:(lia) (proj2 Pi) (proj2 Pj)) as IM. clear - IM. lra.
Qed.
(** * The points are exact when the ends and the step are integers of at most 53 bits, scaled by a power of two. *)
Lemma exact_incr w c k i e : proper w -> (0 <= c)%Z -> (dval w == inject_Z (c * Z.of_nat k) * p2 e)%Q -> 1 <= k -> (Z.of_nat k < 2 ^ 32)%Z -> (c * Z.of_nat k <= 2 ^ 53)%Z -> (-1074 <= e <= 970)%Z -> i <= k ->
  proper (incr w k i) /\ (dval (incr w k i) == inject_Z (c * Z.of_nat i) * p2 e)%Q.
Proof.
  intros Pw C0 E Hk Hk2 CB HE Hi. destruct (natd_exact k ltac:(lia)) as [Pk Ek]. destruct (natd_exact i ltac:(lia)) as [Pi Ei]. pose proof (qn_pos k ltac:(lia)) as KP.
  assert (NZ : ~ (dval (natd k) == 0)%Q) by (rewrite Ek; lra). destruct (div_facts w (natd k) Pw Pk NZ) as [V C]. assert (CK : (0 <= c <= c * Z.of_nat k)%Z) by nia. assert (CI : (0 <= c * Z.of_nat i <= c * Z.of_nat k)%Z) by nia.
  destruct (exact_small (dval w / dval (natd k)) (SDIV w (natd k)) c e) as [F EQ]; [|lia|lia|exact C|].
  { rewrite E, Ek, inject_Z_mult. field. lra. }
  assert (Pq : proper (SDIV w (natd k))) by (split; [exact V|exact F]). destruct (mul_facts _ _ Pq Pi) as [V2 C2].
  assert (EQ' : (dval (SDIV w (natd k)) == inject_Z c * p2 e)%Q). { change (dval (SDIV w (natd k))) with (sval (SDIV w (natd k))). rewrite EQ, E, Ek, inject_Z_mult. field. lra. }
  destruct (exact_small (dval (SDIV w (natd k)) * dval (natd i)) (SMUL (SDIV w (natd k)) (natd i)) (c * Z.of_nat i) e) as [F2 EQ2]; [|lia|lia|exact C2|].
  { rewrite EQ', Ei, inject_Z_mult. ring. }
  split; [split; [exact V2|exact F2]|]. change (dval (incr w k i)) with (sval (SMUL (SDIV w (natd k)) (natd i))). rewrite EQ2, EQ', Ei, inject_Z_mult. ring.
Qed.
Theorem C94_exact : forall a b n p s e, proper a -> proper b -> 2 <= n -> (Z.of_nat n <= 2 ^ 32)%Z -> fits n -> ofeq a b = false -> (-1074 <= e <= 970)%Z ->
  (dval a == inject_Z p * 2 ^ e)%Q -> (dval b == inject_Z (p + s * Z.of_nat (n - 1)) * 2 ^ e)%Q ->
  (Z.abs p <= 2 ^ 53)%Z -> (Z.abs (p + s * Z.of_nat (n - 1)) <= 2 ^ 53)%Z -> (Z.abs (s * Z.of_nat (n - 1)) <= 2 ^ 53)%Z ->
  exists d x, linspace a b n = Ok d /\ is_vec d n x /\ forall i, i < n -> proper (x i) /\ (dval (x i) == inject_Z (p + s * Z.of_nat i) * 2 ^ e)%Q.
Proof.
  intros a b n p s e Pa Pb Hn Hn2 Hf Hne HE Ea Eb Bp Bq Bs. destruct fmt2 as [P1 P3]. destruct (C28_linspace_elements a b n Hn Hf Hne) as [Hup Hdn]. set (k := n - 1) in *. assert (Hk : 1 <= k) by lia. assert (Hk2 : (Z.of_nat k < 2 ^ 32)%Z) by lia.
  pose proof (q2_pos e) as EP.
  assert (MID : forall i, i <= k -> (Z.abs (p + s * Z.of_nat i) <= 2 ^ 53)%Z).
  { intros i Hi. assert (M : (Z.min p (p + s * Z.of_nat k) <= p + s * Z.of_nat i <= Z.max p (p + s * Z.of_nat k))%Z); [|clear - M Bp Bq; lia].
    destruct (Z.le_gt_cases 0 s) as [L|L]; [assert (0 <= s * Z.of_nat i <= s * Z.of_nat k)%Z by nia; clear - H; lia|assert (s * Z.of_nat k <= s * Z.of_nat i <= 0)%Z by nia; clear - H; lia]. }
  destruct (SFltb a b) eqn:EL.
  - pose proof (proj1 (lt_val a b Pa Pb) EL) as LT. rewrite Ea, Eb in LT. assert (S0 : (0 <= s)%Z).
    { destruct (Z.le_gt_cases 0 s) as [L|L]; [exact L|exfalso]. apply (Qlt_not_le _ _ LT). apply Qmult_le_compat_r; [|lra]. apply injZ_le. nia. }
    destruct (sub_facts b a Pb Pa) as [V C]. destruct (exact_small (dval b - dval a) (SFsub prec64 emax64 b a) (s * Z.of_nat k) e) as [F EQ]; [|lia|exact Bs|exact C|].
    { rewrite Ea, Eb, inject_Z_plus. ring. }
    set (w := SFsub prec64 emax64 b a) in *. destruct (Hup EL (SDIV w (natd k)) eq_refl) as (d & E & Hd). exists d. eexists. split; [exact E|]. split; [exact Hd|].
    intros i Hi. assert (Ew : (dval w == inject_Z (s * Z.of_nat k) * p2 e)%Q). { change (dval w) with (sval w). rewrite EQ, Ea, Eb, inject_Z_plus. ring. }
    destruct (exact_incr w s k i e (conj V F) S0 Ew Hk Hk2 ltac:(lia) HE ltac:(lia)) as [Pi Ei].
    change (proper (SFadd prec64 emax64 a (incr w k i)) /\ (dval (SFadd prec64 emax64 a (incr w k i)) == inject_Z (p + s * Z.of_nat i) * 2 ^ e)%Q).
    assert (VX : is_double (SFadd prec64 emax64 a (incr w k i))) by (apply double_ops; [apply Pa|apply Pi]). pose proof (add_crt prec64 emax64 P1 a (incr w k i) (proj2 Pa) (proj2 Pi)) as CX.
    destruct (exact_small (dval a + dval (incr w k i)) (SFadd prec64 emax64 a (incr w k i)) (p + s * Z.of_nat i) e) as [FX EX]; [|lia|apply MID; lia|exact CX|].
    { rewrite Ea, Ei, inject_Z_plus. ring. }
    split; [split; [exact VX|exact FX]|]. change (dval (SFadd prec64 emax64 a (incr w k i))) with (sval (SFadd prec64 emax64 a (incr w k i))). rewrite EX, Ea, Ei, inject_Z_plus. ring.
  - assert (LE : (dval b <= dval a)%Q) by (destruct (Qlt_le_dec (dval a) (dval b)) as [L|L]; [apply (lt_val a b Pa Pb) in L; congruence|exact L]).
    rewrite Ea, Eb in LE. assert (S0 : (s <= 0)%Z).
    { destruct (Z.le_gt_cases s 0) as [L|L]; [exact L|exfalso]. apply (Qle_not_lt _ _ LE). apply Qmult_lt_compat_r; [exact EP|]. apply injZ_lt. nia. }
    destruct (sub_facts a b Pa Pb) as [V C]. destruct (exact_small (dval a - dval b) (SFsub prec64 emax64 a b) (- s * Z.of_nat k) e) as [F EQ]; [|lia|lia|exact C|].
    { rewrite Ea, Eb, inject_Z_plus, !inject_Z_mult, inject_Z_opp. ring. }
    set (w := SFsub prec64 emax64 a b) in *. destruct (Hdn EL (SDIV w (natd k)) eq_refl) as (d & E & Hd). exists d. eexists. split; [exact E|]. split; [exact Hd|].
    intros i Hi. assert (Ew : (dval w == inject_Z (- s * Z.of_nat k) * p2 e)%Q). { change (dval w) with (sval w). rewrite EQ, Ea, Eb, inject_Z_plus, !inject_Z_mult, inject_Z_opp. ring. }
    destruct (exact_incr w (- s) k i e (conj V F) ltac:(lia) Ew Hk Hk2 ltac:(lia) HE ltac:(lia)) as [Pi Ei].
    change (proper (SFsub prec64 emax64 a (incr w k i)) /\ (dval (SFsub prec64 emax64 a (incr w k i)) == inject_Z (p + s * Z.of_nat i) * 2 ^ e)%Q).
    assert (VX : is_double (SFsub prec64 emax64 a (incr w k i))) by (apply double_ops; [apply Pa|apply Pi]). pose proof (sub_crt prec64 emax64 P1 a (incr w k i) (proj2 Pa) (proj2 Pi)) as CX.
    destruct (exact_small (dval a - dval (incr w k i)) (SFsub prec64 emax64 a (incr w k i)) (p + s * Z.of_nat i) e) as [FX EX]; [|lia|apply MID; lia|exact CX|].
    { rewrite Ea, Ei, inject_Z_plus, !inject_Z_mult, inject_Z_opp. ring. }
    split; [split; [exact VX|exact FX]|]. change (dval (SFsub prec64 emax64 a (incr w k i))) with (sval (SFsub prec64 emax64 a (incr w k i))). rewrite EX, Ea, Ei, inject_Z_plus, !inject_Z_mult, inject_Z_opp. ring.
Qed.
(** * When the difference of the ends overflows, the first point is NaN and the others are infinite. *)
Lemma natd_shape i : 1 <= i -> (Z.of_nat i <= 2 ^ 53)%Z -> exists m e, natd i = S754_finite false m e.
Proof.
  intros Hi H2. destruct (natd_exact i H2) as [[V F] E]. pose proof (qn_pos i Hi) as P. destruct (natd i) as [s|s| |s m e]; try contradiction; cbn [dval] in E; [exfalso; lra|]. pose proof (mpos_val m e). destruct s; [exfalso; lra|eauto].
Qed.
Theorem C94_overflow : forall a b n, proper a -> proper b -> 2 <= n -> (Z.of_nat n <= 2 ^ 32)%Z -> fits n -> ofeq a b = false -> (limit <= Qabs (dval b - dval a))%Q ->
  exists d, linspace a b n = Ok d /\ is_vec d n (fun i => if i =? 0 then nan else inf (negb (SFltb a b))).
Proof.
  intros a b n Pa Pb Hn Hn2 Hf Hne HL. rewrite limit_huge in HL. destruct fmt2 as [P1 P3], fmt3 as [P4 P5]. destruct (C28_linspace_elements a b n Hn Hf Hne) as [Hup Hdn]. assert (H0 : (0 < huge53)%Q) by reflexivity.
  assert (W : forall y z, proper y -> proper z -> (huge53 <= dval y - dval z)%Q -> SFsub prec64 emax64 y z = inf false).
  { intros y z Py Pz L. destruct (sub_facts y z Py Pz) as [V C]. destruct (crt_range prec64 emax64 P1 P3 _ _ P4 P5 V C) as [[_ B]|[[E _]|[_ B]]]; [|exact E|].
    - exfalso. pose proof (Qle_Qabs (dval y - dval z)). apply (Qlt_not_le _ _ B). eapply Qle_trans; [exact L|]. exact H.
    - exfalso. assert (0 < huge prec64 emax64)%Q by exact H0. assert (LL : (huge prec64 emax64 <= dval y - dval z)%Q) by exact L. lra. }
  destruct (natd_shape (n - 1) ltac:(lia) ltac:(lia)) as (mk & ek & Ek).
  assert (I : forall i, i < n -> incr (inf false) (n - 1) i = if i =? 0 then nan else inf false).
  { intros i Hi. unfold incr. rewrite Ek. cbn [SFdiv inf xorb]. destruct (Nat.eqb_spec i 0) as [->|N]; [reflexivity|]. destruct (natd_shape i ltac:(lia) ltac:(lia)) as (mi & ei & ->). reflexivity. }
  assert (FA : forall i, (i < n) -> SFadd prec64 emax64 a (incr (inf false) (n - 1) i) = (if i =? 0 then nan else inf false) /\ SFsub prec64 emax64 a (incr (inf false) (n - 1) i) = (if i =? 0 then nan else inf true)).
  { intros i Hi. rewrite I by exact Hi. destruct Pa as [_ Fa]. destruct (i =? 0), a as [sa|sa| |sa ma ea]; try contradiction; split; reflexivity. }
  destruct (SFltb a b) eqn:EL; cbn [negb].
  - pose proof (proj1 (lt_val a b Pa Pb) EL) as LT. rewrite Qabs_pos in HL by lra. destruct (Hup EL (SDIV (inf false) (natd (n - 1)))) as (d & E & Hd).
    { cbn [odiv osub On fops]. rewrite (W b a Pb Pa HL). reflexivity. }
    exists d. split; [exact E|]. eapply is_vec_ext; [exact Hd|]. intros i Hi. apply (FA i Hi).
  - assert (LE : (dval b <= dval a)%Q) by (destruct (Qlt_le_dec (dval a) (dval b)) as [L|L]; [apply (lt_val a b Pa Pb) in L; congruence|exact L]).
    rewrite Qabs_Qminus, Qabs_pos in HL by lra. destruct (Hdn EL (SDIV (inf false) (natd (n - 1)))) as (d & E & Hd).
    { cbn [odiv osub On fops]. rewrite (W a b Pa Pb HL). reflexivity. }
    exists d. split; [exact E|]. eapply is_vec_ext; [exact Hd|]. intros i Hi. apply (FA i Hi).
Qed.
End C94.

(** * Examples *)
(** The last point can be below the second end, and above it. *)
Theorem C94_last_refuted :
  (exists d, @linspace double (fops tol6) (natd 0) (natd 1) 50 = Ok d /\ option_map (fun x => SFltb x (natd 1)) (nth_error d 49) = Some true) /\
  (exists d, @linspace double (fops tol6) (natd 0) (natd 7) 26 = Ok d /\ option_map (fun x => SFltb (natd 7) x) (nth_error d 25) = Some true).
Proof. split; eexists; (split; [vm_compute; reflexivity|vm_compute; reflexivity]). Qed.
Definition p1023 : double := S754_finite false 4503599627370496 971.
Example C94_witness : proper (natd 3) /\ proper (natd 11) /\ (size (natd 3) (natd 11) <= 2 ^ 1022)%Q /\ @ofeq double (fops tol6) (natd 3) (natd 11) = false /\ fits 5 /\
  (dval (natd 3) == inject_Z 3 * 2 ^ 0)%Q /\ (dval (natd 11) == inject_Z (3 + 2 * 4) * 2 ^ 0)%Q /\
  @linspace double (fops tol6) (natd 3) (natd 11) 5 = Ok (map natd [3; 5; 7; 9; 11]%nat) /\
  proper p1023 /\ proper (SFopp p1023) /\ (limit <= Qabs (dval p1023 - dval (SFopp p1023)))%Q /\ @ofeq double (fops tol6) (SFopp p1023) p1023 = false /\
  @linspace double (fops tol6) (SFopp p1023) p1023 3 = Ok [nan; inf false; inf false].
Proof.
  split; [split; [reflexivity|exact I]|]. split; [split; [reflexivity|exact I]|]. split; [vm_compute; discriminate|]. split; [reflexivity|]. split; [vm_compute; reflexivity|]. split; [reflexivity|]. split; [reflexivity|].
  split; [vm_compute; reflexivity|]. split; [split; [reflexivity|exact I]|]. split; [split; [reflexivity|exact I]|]. split; [vm_compute; discriminate|]. split; vm_compute; reflexivity.
Qed.
