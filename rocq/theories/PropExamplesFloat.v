(** PropExamplesFloat.v: the loop of sim_rlc_dt.cpp on doubles (C112): how many passes it makes,
    when it never ends, and how that compares with the number of time points it announces. *)
From Coq Require Import ZArith QArith Qabs Qpower Qround Bool Lia Lqa SpecFloat List.
From Verif Require Import LinalgFacts2 PropUtil PropMath Control ControlSpec ControlFacts Float FloatFacts FloatValid FloatRound FloatIOFacts FloatArith FloatSum FloatCmp FloatMono PropFloat PropFloat2 PropFloatIO PropFloatSum PropFloatCmp FloatLoop PropFloatLin PropFloatSim Examples PropExamples.
Import ListNotations.
Local Open Scope nat_scope.
Notation qn k := (inject_Z (Z.of_nat k)).

(** * The distance of two doubles *)
Local Open Scope Z_scope.
Lemma mant_bounds m e : bounded prec64 emax64 m e = true -> Zpos m < 2 ^ 53 /\ -1074 <= e /\ (-1074 < e -> 2 ^ 52 <= Zpos m).
Proof.
  intros Hb. unfold bounded, canonical_mantissa in Hb. apply andb_true_iff in Hb. destruct Hb as [Hc _]. apply Zeq_bool_eq in Hc.
  pose proof (digits_bounds m) as [A B]. set (d := Zpos (digits2_pos m)) in *. assert (d <= 53 /\ -1074 <= e /\ (-1074 < e -> d = 53)) as (D1 & D2 & D3) by (unfold fexp, prec64, emax64, emin in *; lia).
  split; [|split; [exact D2|]].
  - assert (2 ^ d <= 2 ^ 53) by (apply Z.pow_le_mono_r; lia). lia.
  - intros H. rewrite (D3 H) in A. exact A.
Qed.
Lemma spacing x y : proper x -> proper y -> (0 < dval x)%Q -> (dval x < dval y)%Q -> (dval x * unit <= dval y - dval x)%Q.
Proof.
  intros [Vx Fx] [Vy Fy] X0 L. destruct x as [s|s| |s m e]; try contradiction; [exfalso; revert X0; discriminate|]. destruct s; [exfalso; rewrite neg_val in X0; pose proof (mpos_val m e); lra|].
  destruct y as [s|s| |s m' e']; try contradiction; [exfalso; change (dval (S754_zero s)) with 0%Q in L; lra|]. destruct s; [exfalso; rewrite neg_val in L; pose proof (mpos_val m' e'); lra|].
  destruct (mant_bounds m e Vx) as (M1 & M2 & M3). destruct (mant_bounds m' e' Vy) as (N1 & N2 & N3).
  change (dval (S754_finite false m e)) with (inject_Z (Zpos m) * p2 e)%Q in *. change (dval (S754_finite false m' e')) with (inject_Z (Zpos m') * p2 e')%Q in *.
  destruct (Z.le_gt_cases e e') as [H|H].
  - assert (E : (p2 e' == inject_Z (2 ^ (e' - e)) * p2 e)%Q). { rewrite <- (q2_Z (e' - e)) by lia. replace e' with ((e' - e) + e) at 1 by lia. apply q2_add. }
    rewrite E in *. pose proof (q2_pos e) as P. rewrite Qmult_assoc, <- inject_Z_mult in *. set (k := Zpos m' * 2 ^ (e' - e)) in *.
    assert (K : Zpos m < k). { rewrite Zlt_Qlt. apply (Qmult_lt_r _ _ (p2 e)); [exact P|exact L]. }
    assert (K1 : (inject_Z (Zpos m) + 1 <= inject_Z k)%Q). { change 1%Q with (inject_Z 1). rewrite <- inject_Z_plus. apply injZ_le. lia. }
    assert (MU : (inject_Z (Zpos m) * unit <= 1)%Q). { apply Qle_trans with (inject_Z (2 ^ 53) * unit)%Q; [|discriminate]. apply Qmult_le_compat_r; [apply injZ_le; lia|discriminate]. }
    apply Qle_trans with (1 * p2 e)%Q.
    + assert (E1 : (inject_Z (Zpos m) * p2 e * unit == inject_Z (Zpos m) * unit * p2 e)%Q) by ring. rewrite E1. apply Qmult_le_compat_r; lra.
    + assert (E1 : (inject_Z k * p2 e - inject_Z (Zpos m) * p2 e == (inject_Z k - inject_Z (Zpos m)) * p2 e)%Q) by ring. rewrite E1. apply Qmult_le_compat_r; lra.
  - exfalso. specialize (M3 ltac:(lia)). assert (E : (p2 e == inject_Z (2 ^ (e - e')) * p2 e')%Q). { rewrite <- (q2_Z (e - e')) by lia. replace e with ((e - e') + e') at 1 by lia. apply q2_add. }
    rewrite E in L. pose proof (q2_pos e') as P. rewrite Qmult_assoc, <- inject_Z_mult in L.
    assert (K : Zpos m * 2 ^ (e - e') < Zpos m'). { rewrite Zlt_Qlt. apply (Qmult_lt_r _ _ (p2 e')); [exact P|exact L]. }
    assert (2 ^ 1 <= 2 ^ (e - e')) by (apply Z.pow_le_mono_r; lia). nia.
Qed.
Local Open Scope nat_scope.
Lemma first_false (f : nat -> bool) N : f N = false -> exists n, n <= N /\ (forall k, k < n -> f k = true) /\ f n = false.
Proof.
  revert f. induction N as [|N IH]; intros f H; [exists 0; repeat split; auto; lia|]. destruct (f 0) eqn:E; [|exists 0; repeat split; auto; lia].
  destruct (IH (fun k => f (S k)) H) as (n & L & A & B). exists (S n). split; [lia|]. split; [|exact B]. intros [|k] Hk; [exact E|]. apply A. lia.
Qed.
Lemma growth_small k : (Z.of_nat k <= 2 ^ 51)%Z -> (growth k <= 4 # 3)%Q.
Proof.
  intros H. pose proof (bernoulli k ltac:(lia)) as B. pose proof (growth_ge1 k) as G1.
  assert (KU : (qn k * unit <= 1 # 4)%Q). { apply Qle_trans with (inject_Z (2 ^ 51) * unit)%Q; [|discriminate]. apply Qmult_le_compat_r; [apply injZ_le; lia|discriminate]. }
  assert (GK : (growth k * (1 - (1 # 4)) <= growth k * (1 - qn k * unit))%Q) by (rewrite !(Qmult_comm (growth k)); apply Qmult_le_compat_r; lra). lra.
Qed.

Section D.
Variable tol : double.
#[local] Instance Oe : Ops double := fops tol.
Notation zero := (S754_zero false).
Lemma tick_ntimes dt k : tick zero dt k = ntimes dt k. Proof. induction k as [|k IH]; [reflexivity|]. cbn [tick ntimes]. now rewrite IH. Qed.
Section Clock.
Variables (t1 dt : double).
Hypotheses (P1 : proper t1) (Pd : proper dt) (T0 : (0 <= dval t1)%Q) (D0 : (0 < dval dt)%Q).
Let before k := olt (tick zero dt k) t1.
Lemma before_fin k : is_finite (ntimes dt k) -> (before k = true <-> (dval (ntimes dt k) < dval t1)%Q).
Proof. intros F. unfold before. rewrite tick_ntimes. destruct fmt2 as [R1 R3]. exact (ltb_val prec64 emax64 R1 (ntimes dt k) t1 (ntimes_isd tol dt k (proj1 Pd)) (proj1 P1) F (proj2 P1)). Qed.
Lemma ntimes_nonneg k : is_finite (ntimes dt k) -> (0 <= dval (ntimes dt k))%Q.
Proof. induction k as [|k IH]; intros F; [discriminate|]. eapply Qle_trans; [apply IH; apply (ntimes_fin tol dt k (S k)); auto|]. apply (ntimes_le tol); auto. lra. Qed.
Lemma ntimes_cases k : is_finite (ntimes dt k) \/ ntimes dt k = S754_infinity false.
Proof.
  induction k as [|k IH]; [left; exact I|]. change (ntimes dt (S k)) with (SFadd prec64 emax64 (ntimes dt k) dt). destruct IH as [F|E].
  - destruct fmt2 as [R1 R3], fmt3 as [R4 R5]. pose proof (add_crt prec64 emax64 R1 (ntimes dt k) dt F (proj2 Pd)) as C. assert (V : is_double (SFadd prec64 emax64 (ntimes dt k) dt)) by (apply double_ops; [apply (ntimes_isd tol); exact (proj1 Pd)|exact (proj1 Pd)]).
    destruct (crt_range prec64 emax64 R1 R3 _ _ R4 R5 V C) as [[Fy _]|[[E _]|[_ L]]]; [left; exact Fy|right; exact E|exfalso].
    pose proof (ntimes_nonneg k F) as N. change (sval (ntimes dt k)) with (dval (ntimes dt k)) in L. change (sval dt) with (dval dt) in L. revert L. apply Qlt_not_le. apply Qlt_le_trans with 0%Q; [reflexivity|lra].
  - right. rewrite E. destruct dt as [s|s| |s m e]; destruct Pd as [_ Fd]; try contradiction; reflexivity.
Qed.
Lemma before_inf k : ntimes dt k = S754_infinity false -> before k = false.
Proof. intros E. unfold before. rewrite tick_ntimes, E. destruct t1 as [s|s| |s m e]; destruct P1 as [_ Ft]; try contradiction; destruct s; reflexivity. Qed.
Let r := duration t1 dt.
Lemma r_mul : (dval t1 == r * dval dt)%Q. Proof. unfold r, duration. field. lra. Qed.
Lemma err_both k : is_finite (ntimes dt k) -> (qn k * (2 - growth k) * dval dt <= dval (ntimes dt k))%Q /\ (dval (ntimes dt k) <= qn k * growth k * dval dt)%Q.
Proof.
  intros F. assert (E : (Qabs (dval (ntimes dt k) - qn k * dval dt) <= (growth (k - 1) - 1) * (qn k * dval dt))%Q) by exact (ntimes_err tol dt k Pd (Qlt_le_weak _ _ D0) F). apply Qabs_Qle_condition in E. destruct E as [E1 E2].
  assert (K0 : (0 <= qn k * dval dt)%Q) by (apply Qmult_le_0_compat; [apply qn_nonneg|lra]). pose proof (growth_mono (k - 1) k ltac:(lia)) as G.
  assert (GM : (growth (k - 1) * (qn k * dval dt) <= growth k * (qn k * dval dt))%Q) by (apply Qmult_le_compat_r; assumption).
  split.
  - assert (X : (qn k * (2 - growth k) * dval dt == 2 * (qn k * dval dt) - growth k * (qn k * dval dt))%Q) by ring. rewrite X. lra.
  - assert (X : (qn k * growth k * dval dt == growth k * (qn k * dval dt))%Q) by ring. rewrite X. lra.
Qed.
(** A loop whose end is at most 2^50 increments away ends, after about as many passes. *)
Theorem C112_passes : (r <= inject_Z (2 ^ 50))%Q ->
  exists n, ends_after zero t1 dt n /\ (r <= qn n * growth n)%Q /\ (0 < n -> (qn (n - 1) * (2 - growth n) < r)%Q).
Proof.
  intros HR. assert (R0 : (0 <= r)%Q) by (exact (r_nonneg t1 dt T0 D0)). set (N := Z.to_nat (Qfloor ((3 # 2) * r) + 1)). pose proof (floor_0 ((3 # 2) * r) ltac:(lra)) as F0.
  assert (EN : qn N = inject_Z (Qfloor ((3 # 2) * r) + 1)) by (unfold N; rewrite Z2Nat.id by lia; reflexivity).
  assert (N1 : ((3 # 2) * r <= qn N)%Q) by (rewrite EN; apply Qlt_le_weak, Qlt_floor).
  assert (N2 : (Z.of_nat N <= 2 ^ 51)%Z).
  { unfold N. rewrite Z2Nat.id by lia. assert (Qfloor ((3 # 2) * r) < 2 ^ 51)%Z; [|lia]. apply floor_lt. apply Qle_lt_trans with ((3 # 2) * inject_Z (2 ^ 50))%Q; [lra|reflexivity]. }
  assert (BN : before N = false).
  { destruct (ntimes_cases N) as [F|E]; [|now apply before_inf]. apply not_true_iff_false. rewrite before_fin by exact F. apply Qle_not_lt. destruct (err_both N F) as [E _]. eapply Qle_trans; [|exact E].
    rewrite r_mul. apply Qmult_le_compat_r; [|lra]. pose proof (growth_small N N2) as G. apply Qle_trans with (qn N * (2 # 3))%Q; [lra|]. rewrite !(Qmult_comm (qn N)). apply Qmult_le_compat_r; [lra|apply qn_nonneg]. }
  destruct (first_false before N BN) as (n & Ln & A & B). exists n. split; [split; [exact A|exact B]|]. split.
  - apply (Qmult_le_r _ _ (dval dt) D0). rewrite <- r_mul. destruct (ntimes_cases n) as [F|E].
    + destruct (err_both n F) as [_ U]. eapply Qle_trans; [|exact U]. apply Qnot_lt_le. rewrite <- before_fin by exact F. rewrite B. discriminate.
    + apply Qnot_lt_le. intros L. assert (F : is_finite (ntimes dt n)); [|rewrite E in F; exact F]. rewrite (ntimes_osum tol : forall ts k, @ntimes double Oe ts k = @osum double Oe k (fun _ => ts)).
      destruct (sum_bounds tol n (fun _ => dt) ltac:(intros i _; exact (proj1 Pd))) as (_ & _ & G). apply G; [intros i _; exact (proj2 Pd)|]. rewrite qsum_const, (Qabs_pos (dval dt)) by lra.
      assert (K0 : (0 <= qn n * dval dt)%Q) by (apply Qmult_le_0_compat; [apply qn_nonneg|lra]). pose proof (growth_mono (n - 1) n ltac:(lia)) as GM.
      apply Qle_lt_trans with (growth n * (qn n * dval dt))%Q; [apply Qmult_le_compat_r; assumption|]. assert (X : (growth n * (qn n * dval dt) == qn n * growth n * dval dt)%Q) by ring. rewrite X. eapply Qlt_trans; [exact L|].
      destruct fmt2 as [R1 R3], fmt3 as [R4 R5]. rewrite limit_huge. eapply Qle_lt_trans; [apply Qle_Qabs|]. exact (valid_below prec64 emax64 R1 t1 R5 (proj1 P1) (proj2 P1)).
  - intros Hn. specialize (A (n - 1) ltac:(lia)). destruct (ntimes_cases (n - 1)) as [F|E]; [|rewrite before_inf in A by exact E; discriminate]. rewrite before_fin in A by exact F.
    destruct (err_both (n - 1) F) as [L _]. apply (Qmult_lt_r _ _ (dval dt) D0). rewrite <- r_mul. eapply Qle_lt_trans; [|exact A]. eapply Qle_trans; [|exact L]. apply Qmult_le_compat_r; [|lra].
    pose proof (growth_mono (n - 1) n ltac:(lia)). rewrite !(Qmult_comm (qn (n - 1))). apply Qmult_le_compat_r; [lra|apply qn_nonneg].
Qed.
(** From 2^55 increments on the loop never ends: the time stops moving before. *)
Lemma stall_step t : proper t -> (0 <= dval t)%Q -> (dval t <= inject_Z (2 ^ 54 + 2) * dval dt)%Q -> (inject_Z (2 ^ 55) * dval dt <= dval t1)%Q ->
  let t' := SFadd prec64 emax64 t dt in proper t' /\ (dval t' <= inject_Z (2 ^ 54 + 2) * dval dt)%Q.
Proof.
  intros [Vt Ft] X0 L B t'. destruct fmt2 as [R1 R3], fmt3 as [R4 R5]. assert (V : is_double t') by (apply double_ops; [exact Vt|exact (proj1 Pd)]).
  pose proof (add_crt prec64 emax64 R1 t dt Ft (proj2 Pd)) as C. fold t' in C. change (sval t) with (dval t) in C. change (sval dt) with (dval dt) in C.
  change (inject_Z (2 ^ 54 + 2)) with (18014398509481986 # 1) in *. change (inject_Z (2 ^ 55)) with (36028797018963968 # 1) in *.
  assert (F : is_finite t').
  { apply (in_range_fin (dval t + dval dt) t' V C). rewrite Qabs_pos by lra. pose proof (valid_below prec64 emax64 R1 t1 R5 (proj1 P1) (proj2 P1)) as H. change (sval t1) with (dval t1) in H. rewrite Qabs_pos in H by exact T0. eapply Qle_lt_trans; [|exact H]. clear H. lra. }
  split; [split; assumption|]. pose proof (crt_nearest prec64 emax64 R1 _ t' t C F Vt Ft) as N. change (sval t') with (dval t') in N. change (sval t) with (dval t) in N.
  rewrite (Qabs_neg (dval t - (dval t + dval dt))) in N by lra. pose proof (Qle_Qabs (dval t' - (dval t + dval dt))) as U.
  assert (S : (dval t' <= dval t + 2 * dval dt)%Q) by lra. clear N U. destruct (Qlt_le_dec (dval t) (dval t')) as [W|W]; [|lra].
  destruct (Qlt_le_dec (inject_Z (2 ^ 54) * dval dt) (dval t)) as [Y|Y]; [exfalso|change (inject_Z (2 ^ 54)) with (18014398509481984 # 1) in Y; lra].
  assert (Tp : (0 < dval t)%Q). { eapply Qle_lt_trans; [|exact Y]. apply Qmult_le_0_compat; [discriminate|lra]. }
  pose proof (spacing t t' (conj Vt Ft) (conj V F) Tp W) as SP. assert (M : (2 * dval dt < dval t * unit)%Q).
  { apply Qle_lt_trans with (inject_Z (2 ^ 54) * dval dt * unit)%Q; [|apply Qmult_lt_r; [reflexivity|exact Y]]. assert (E : (inject_Z (2 ^ 54) * dval dt * unit == inject_Z (2 ^ 54) * unit * dval dt)%Q) by ring. rewrite E. apply Qmult_le_compat_r; [discriminate|lra]. }
  lra.
Qed.
Theorem C112_never : (inject_Z (2 ^ 55) <= r)%Q -> never_ends zero t1 dt.
Proof.
  intros HR. assert (B : (inject_Z (2 ^ 55) * dval dt <= dval t1)%Q) by (rewrite r_mul; apply Qmult_le_compat_r; [exact HR|lra]).
  assert (K : forall k, proper (ntimes dt k) /\ (dval (ntimes dt k) <= inject_Z (2 ^ 54 + 2) * dval dt)%Q).
  { induction k as [|k [Pk Lk]]; [split; [split; [reflexivity|exact I]|]; change (dval (ntimes dt 0)) with 0%Q; apply Qmult_le_0_compat; [discriminate|lra]|].
    change (ntimes dt (S k)) with (SFadd prec64 emax64 (ntimes dt k) dt). exact (stall_step _ Pk (ntimes_nonneg k (proj2 Pk)) Lk B). }
  intros k. destruct (K k) as [[Vk Fk] Lk]. apply (before_fin k Fk). eapply Qle_lt_trans; [exact Lk|]. eapply Qlt_le_trans; [|exact B]. apply Qmult_lt_r; [exact D0|reflexivity].
Qed.
End Clock.
End D.

(** * The announced number of time points *)
(** With the sampling factor 1 it is the quotient cut off, up to the rounding of the quotient. *)
Theorem C112_announced : forall tol t1 dt, proper t1 -> proper dt -> (0 < dval t1)%Q -> (0 < dval dt)%Q -> (duration t1 dt < inject_Z (2 ^ 64 - 2 ^ 10))%Q ->
  exists K, @compute_samples double (fops tol) to_size (S754_zero false) t1 dt one = Ok K /\ near_steps (duration t1 dt) K.
Proof.
  intros tol t1 dt P1 Pd T0 D0 L. destruct (C99_steps t1 dt P1 Pd ltac:(lra) D0) as [G _]. destruct (G L) as (K & E & N). exists K. split; [|exact N].
  unfold compute_samples. cbn [osub odiv omul fops bind].
  assert (E1 : SFsub prec64 emax64 t1 (S754_zero false) = t1) by (destruct t1 as [s|s| |s m e]; destruct P1 as [_ F1]; try contradiction; [exfalso; revert T0; discriminate|reflexivity]).
  rewrite E1. assert (T1 : (0 <= dval t1)%Q) by lra. pose proof (q_finite t1 dt P1 Pd T1 D0 L) as F. pose proof (q_top t1 dt P1 Pd T1 D0 L) as B. pose proof (q_nonneg t1 dt P1 Pd T1 D0) as Q0.
  assert (V : is_double (SFdiv prec64 emax64 t1 dt)) by (apply double_ops; [exact (proj1 P1)|exact (proj1 Pd)]). rewrite (to_size_pos _ F Q0 B) in E. set (q := SFdiv prec64 emax64 t1 dt) in *.
  destruct (mul_facts q one (conj V F) ltac:(split; [reflexivity|exact I])) as [Vy C]. set (y := SFmul prec64 emax64 q one) in *. destruct fmt2 as [R1 R3], fmt3 as [R4 R5].
  assert (W : (dval q * dval one == dval q)%Q) by (change (dval one) with (4503599627370496 * p2 (-52))%Q; assert (O1 : (4503599627370496 * p2 (-52) == 1)%Q) by reflexivity; rewrite O1; ring).
  assert (Fy : is_finite y). { apply (in_range_fin _ y Vy C). rewrite W. exact (valid_below prec64 emax64 R1 q R5 V F). }
  pose proof (crt_nearest prec64 emax64 R1 _ y q C Fy V F) as H. change (sval y) with (dval y) in H. change (sval q) with (dval q) in H. rewrite W in H.
  assert (Z0 : (Qabs (dval q - dval q) == 0)%Q) by (setoid_replace (dval q - dval q)%Q with 0%Q by ring; reflexivity). rewrite Z0 in H.
  assert (EQ : (dval y == dval q)%Q). { pose proof (Qle_Qabs (dval y - dval q)) as H1. pose proof (Qle_Qabs (- (dval y - dval q))) as H2. rewrite Qabs_opp in H2. lra. }
  rewrite <- E, <- (Qfloor_comp _ _ EQ). apply to_size_pos; [exact Fy|rewrite EQ; exact Q0|rewrite EQ; exact B].
Qed.
(** * The program *)
(** Started with two states, one input and some outputs, on a time of at most 2^50 increments, the
    program ends and prints one line per pass. *)
Theorem C112_run : forall tol input d t1 dt p fA fB fC fD, let O := fops tol in
  is_mat (sA (dsys d)) 2 2 fA -> is_mat (sB (dsys d)) 2 1 fB -> is_mat (sC (dsys d)) p 2 fC -> is_mat (sD (dsys d)) p 1 fD -> fits p -> 0 < p ->
  proper t1 -> proper dt -> (0 <= dval t1)%Q -> (0 < dval dt)%Q ->
  ((duration t1 dt <= inject_Z (2 ^ 50))%Q -> exists n x' lines,
     (duration t1 dt <= qn n * growth n)%Q /\ (0 < n -> (qn (n - 1) * (2 - growth n) < duration t1 dt)%Q) /\
     length lines = n /\ (forall k, k < n -> nth_error lines k = Some (@line double O 2 fA (fun i => fB i 0) (fC 0) (fD 0 0) input (S754_zero false) dt (fun _ => S754_zero false) k)) /\
     forall fuel, n <= fuel -> @run_dt double O fuel input d (S754_zero false) t1 dt = Ok (n, x', lines)) /\
  ((inject_Z (2 ^ 55) <= duration t1 dt)%Q -> forall fuel, @run_dt double O fuel input d (S754_zero false) t1 dt = Fuel).
Proof.
  intros tol input d t1 dt p fA fB fC fD O HA HB HC HD Fp Hp P1 Pd T0 D0.
  assert (Vx : is_vec [S754_zero false; S754_zero false] 2 (fun _ => S754_zero false)) by (split; [reflexivity|]; split; [unfold fits, alloc_max; lia|]; intros [|[|i]] Hi; [reflexivity|reflexivity|lia]).
  split; intros HR.
  - destruct (C112_passes tol t1 dt P1 Pd T0 D0 HR) as (n & E & L1 & L2).
    destruct (@C112_loop double O input d (S754_zero false) t1 dt 2 p fA fC fD fB (fun _ => S754_zero false) HA HB HC HD Fp Hp n n (S754_zero false) _ Vx E (le_n n)) as (x' & R & _).
    exists n, x'. eexists. split; [exact L1|]. split; [exact L2|]. split; [rewrite map_length, seq_length; reflexivity|]. split.
    + intros k Hk. rewrite nth_error_map. rewrite (nth_error_nth' (seq 0 n) 0) by (now rewrite seq_length). rewrite seq_nth by exact Hk. reflexivity.
    + intros fuel Hf. destruct (@C112_loop double O input d (S754_zero false) t1 dt 2 p fA fC fD fB (fun _ => S754_zero false) HA HB HC HD Fp Hp n fuel (S754_zero false) _ Vx E Hf) as (x2 & R2 & V2).
      destruct (@C112_loop double O input d (S754_zero false) t1 dt 2 p fA fC fD fB (fun _ => S754_zero false) HA HB HC HD Fp Hp n n (S754_zero false) _ Vx E (le_n n)) as (x3 & R3 & V3).
      rewrite R in R3. injection R3 as R3. subst x3. unfold run_dt. change (@o0 double O) with (S754_zero false). rewrite R2. do 2 f_equal. f_equal. eapply is_vec_unique; eauto.
  - intros fuel. exact (@C112_loop_forever double O input d (S754_zero false) t1 dt 2 p fA fC fD fB (fun _ => S754_zero false) HA HB HC HD Fp Hp fuel (S754_zero false) _ Vx (C112_never tol t1 dt P1 Pd T0 D0 HR)).
Qed.

(** * The program's own numbers *)
Definition milli : double := S754_finite false 4611686018427388 (-62).
Definition t2000 : double := S754_finite false 9007199254740499 (-52).
Lemma milli_ok : proper milli /\ (0 < dval milli)%Q. Proof. split; [split; [reflexivity|exact I]|reflexivity]. Qed.
Lemma two_ok : proper (natd 2) /\ (dval (natd 2) == 2)%Q. Proof. split; [split; [reflexivity|exact I]|reflexivity]. Qed.
Fixpoint addup (k : nat) (t : double) : double := match k with 0 => t | S k => addup k (SFadd prec64 emax64 t milli) end.
Lemma addup_S k : forall t, addup (S k) t = SFadd prec64 emax64 (addup k t) milli.
Proof. induction k as [|k IH]; intros t; [reflexivity|]. change (addup (S (S k)) t) with (addup (S k) (SFadd prec64 emax64 t milli)). rewrite IH. reflexivity. Qed.
Lemma tick_addup tol k : @tick double (fops tol) (S754_zero false) milli k = addup k (S754_zero false).
Proof. induction k as [|k IH]; [reflexivity|]. rewrite addup_S. cbn [tick]. rewrite IH. reflexivity. Qed.
Lemma addup_2000 : addup 2000 (S754_zero false) = t2000. Proof. vm_compute. reflexivity. Qed.
Lemma ends_by tol N tN t1 : proper t1 -> addup N (S754_zero false) = tN -> is_finite tN -> (dval tN < dval t1)%Q -> SFltb (SFadd prec64 emax64 tN milli) t1 = false ->
  @ends_after double (fops tol) (S754_zero false) t1 milli (S N).
Proof.
  intros P1 EN FN L R. destruct milli_ok as [Pm M0]. assert (E : @tick double (Oe tol) (S754_zero false) milli N = tN) by (rewrite <- EN; exact (tick_addup tol N)).
  assert (E' : @ntimes double (Oe tol) milli N = tN) by (rewrite <- E; symmetry; apply tick_ntimes).
  split.
  - intros k Hk. assert (F : is_finite (@ntimes double (Oe tol) milli N)) by (now rewrite E'). assert (Fk : is_finite (@ntimes double (Oe tol) milli k)) by (apply (ntimes_fin tol milli k N); [lia|exact F]).
    apply (before_fin tol t1 milli P1 Pm k Fk). destruct (Nat.eq_dec k N) as [->|D]; [now rewrite E'|].
    destruct (clock_ok tol milli Pm M0) as [_ C]. destruct (C k N ltac:(lia) F) as (_ & L' & _). eapply Qle_lt_trans; [exact L'|]. change (@ntimes double (Os tol) milli N) with (@ntimes double (Oe tol) milli N). now rewrite E'.
  - change (SFltb (SFadd prec64 emax64 (@tick double (Oe tol) (S754_zero false) milli N) milli) t1 = false). now rewrite E.
Qed.
(** With the times written in sim_rlc_dt.cpp, from 0 to 2 in steps of 0.001, "Total time points"
    is 2000, but the loop makes one pass more: 2000 additions of the double 0.001 stay below 2. *)
Theorem C112_announced_refuted tol : let O := fops tol in
  nearest_double (1 # 1000) milli /\ @compute_samples double O to_size (S754_zero false) (natd 2) milli (natd 1) = Ok 2000 /\
  @compute_samples double O to_size (S754_zero false) (natd 2) milli (natd 3) = Ok 6000 /\
  @ends_after double O (S754_zero false) (natd 2) milli 2001.
Proof.
  split; [|split; [|split]].
  - apply (nearest_quot 1 1000); [lia|lia|lia|vm_compute; reflexivity|vm_compute; reflexivity].
  - vm_compute. reflexivity.
  - vm_compute. reflexivity.
  - apply (ends_by tol 2000 t2000 (natd 2) (proj1 two_ok) addup_2000 I); vm_compute; reflexivity.
Qed.
(** A case of the two theorems above: 0 to 2 in steps of 0.001 is 2000 increments, and from 0 to
    2^60 in steps of 1 the loop never ends. *)
Example C112_passes_case : exists n, @ends_after double (fops (S754_zero false)) (S754_zero false) (natd 2) milli n.
Proof.
  destruct milli_ok as [Pm M0]. destruct two_ok as [P2 _]. destruct (C112_passes (S754_zero false) (natd 2) milli P2 Pm) as (n & H & _); [discriminate|exact M0|vm_compute; discriminate|]. exists n. exact H.
Qed.
Example C112_never_case : @never_ends double (fops (S754_zero false)) (S754_zero false) (S754_finite false 4503599627370496 8) (natd 1).
Proof. apply C112_never; try (split; [reflexivity|exact I]); vm_compute; try reflexivity; discriminate. Qed.
