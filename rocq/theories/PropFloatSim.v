(** PropFloatSim.v: C99, the discrete simulation of doubles: the number of steps, the time
    points and the error of each step. *)
From Coq Require Import ZArith QArith Qabs Qpower Qround Bool Lia Lqa SpecFloat List.
From Verif Require Import LinalgFacts2 PropUtil PropMath Control ControlSpec ControlFacts Float FloatFacts FloatValid FloatRound FloatIOFacts FloatArith FloatSum FloatCmp FloatMono PropFloat PropFloat2 PropFloatIO PropFloatSum PropFloatCmp FloatLoop PropFloatLin.
Import ListNotations.
Local Open Scope nat_scope.

(** control.hpp:136, [static_cast<size_t>(x)] for a double x: truncation; undefined for
    NaN, infinities, values up to -1 and from 2^64 on. *)
Definition to_size (x : double) : Res nat :=
  match x with
  | S754_zero _ => Ok 0
  | S754_finite s m e =>
      let z := Z.shiftl (Zpos m) e in
      if s then if (z =? 0)%Z then Ok 0 else UB
      else if (z <? 2 ^ 64)%Z then Ok (Z.to_nat z) else UB
  | _ => UB
  end.

(** * Specification *)
(** The duration in sample times, exactly. *)
Definition duration (tm ts : double) : Q := (dval tm / dval ts)%Q.
(** One step of the simulation: [s i] is the computed row i of A x + B u. *)
Definition step_bound (n m : nat) (a b : nat -> double) (x u : nat -> double) (s : double) : Prop :=
  let exactly := (qsum n (fun j => dval (a j) * dval (x j)) + qsum m (fun j => dval (b j) * dval (u j)))%Q in
  let magnitude := (qsum n (fun j => Qabs (dval (a j) * dval (x j))) + qsum m (fun j => Qabs (dval (b j) * dval (u j))))%Q in
  let N := Nat.max n m in
  let underflow := (inject_Z (Z.of_nat (n + m)) * growth N * tiny)%Q in
  is_double s /\
  (is_finite s -> finites n x /\ finites m u /\ (Qabs (dval s - exactly) <= (growth (N + 1) - 1) * magnitude + underflow)%Q) /\
  (finites n a -> finites m b -> finites n x -> finites m u -> (growth (N + 1) * magnitude + underflow < limit)%Q -> is_finite s).
(** [K] is the number of whole sample times in the duration [r], up to the rounding of [r]. *)
Definition near_steps (r : Q) (K : nat) : Prop :=
  (r * (1 - unit) - 1 < inject_Z (Z.of_nat K))%Q /\ (inject_Z (Z.of_nat K) <= r * (1 + unit))%Q /\
  ((r < inject_Z (2 ^ 53))%Q -> (Qfloor r <= Z.of_nat K <= Qfloor r + 1)%Z).
(** The clock: [t k] is the time of step k. *)
Definition clock_bound (ts : double) (t : nat -> double) : Prop :=
  (forall k, is_double (t k) /\ (is_finite (t k) -> (Qabs (dval (t k) - inject_Z (Z.of_nat k) * dval ts) <= (growth (k - 1) - 1) * (inject_Z (Z.of_nat k) * dval ts))%Q)) /\
  (forall j k, j < k -> is_finite (t k) -> is_finite (t j) /\ (dval (t j) <= dval (t k))%Q /\ ((Z.of_nat k <= 2 ^ 51)%Z -> (dval (t j) < dval (t k))%Q)).

Local Open Scope Z_scope.
(** * The conversion to size_t *)
Lemma shiftl_floor m e : Z.shiftl (Zpos m) e = Qfloor (inject_Z (Zpos m) * p2 e).
Proof.
  destruct (Z.le_gt_cases 0 e) as [H|H].
  - rewrite Z.shiftl_mul_pow2 by exact H. assert (E : (inject_Z (Zpos m) * p2 e == inject_Z (Zpos m * 2 ^ e))%Q) by (rewrite (q2_Z e H), inject_Z_mult; reflexivity).
    now rewrite E, Qfloor_Z.
  - rewrite Z.shiftl_div_pow2 by lia. assert (P : 0 < 2 ^ (- e)) by (apply Z.pow_pos_nonneg; lia).
    assert (E : (inject_Z (Zpos m) * p2 e == Zpos m # Z.to_pos (2 ^ (- e)))%Q).
    { rewrite (Qmake_Qdiv (Zpos m) (Z.to_pos (2 ^ (- e)))). rewrite Z2Pos.id by exact P. unfold Qdiv. apply Qmult_comp; [reflexivity|]. rewrite <- (q2_Z (- e)) by lia. rewrite <- Qpower_opp. now rewrite Z.opp_involutive. }
    rewrite E. unfold Qfloor. now rewrite Z2Pos.id by exact P.
Qed.
Lemma floor_ge z q : (inject_Z z <= q)%Q -> z <= Qfloor q.
Proof. intros H. rewrite <- (Qfloor_Z z). now apply Qfloor_resp_le. Qed.
Lemma floor_lt z q : (q < inject_Z z)%Q -> Qfloor q < z.
Proof. intros H. rewrite Zlt_Qlt. eapply Qle_lt_trans; [apply Qfloor_le|exact H]. Qed.
Lemma floor_0 q : (0 <= q)%Q -> 0 <= Qfloor q. Proof. intros H. now apply floor_ge. Qed.
Lemma to_size_pos x : is_finite x -> (0 <= dval x)%Q -> (dval x < inject_Z (2 ^ 64))%Q -> to_size x = Ok (Z.to_nat (Qfloor (dval x))).
Proof.
  destruct x as [s|s| |s m e]; intros F H0 H1; try contradiction; [reflexivity|]. destruct s.
  - exfalso. pose proof (mpos_val m e) as P. change (dval (S754_finite true m e)) with (inject_Z (Zneg m) * p2 e)%Q in H0. change (inject_Z (Zneg m)) with (- inject_Z (Zpos m))%Q in H0. generalize dependent (p2 e). intros; lra.
  - change (dval (S754_finite false m e)) with (inject_Z (Zpos m) * p2 e)%Q in *. unfold to_size. rewrite shiftl_floor. cbv zeta.
    pose proof (floor_lt _ _ H1) as L. apply Z.ltb_lt in L. now rewrite L.
Qed.
Lemma neg_val m e : (dval (S754_finite true m e) == - (inject_Z (Zpos m) * p2 e))%Q.
Proof. change (dval (S754_finite true m e)) with (inject_Z (Zneg m) * p2 e)%Q. change (inject_Z (Zneg m)) with (- inject_Z (Zpos m))%Q. ring. Qed.
Lemma to_size_big x : (0 <= dval x)%Q -> (is_finite x -> (inject_Z (2 ^ 64) <= dval x)%Q) -> to_size x = UB.
Proof.
  intros H0 H. destruct x as [s|s| |s m e]; try reflexivity; specialize (H I); [exfalso; revert H; now apply Qlt_not_le|]. destruct s.
  - exfalso. pose proof (mpos_val m e) as P. rewrite neg_val in H0. lra.
  - change (dval (S754_finite false m e)) with (inject_Z (Zpos m) * p2 e)%Q in *. unfold to_size. rewrite shiftl_floor. cbv zeta.
    pose proof (floor_ge _ _ H) as L. apply Z.ltb_ge in L. now rewrite L.
Qed.
Lemma to_size_neg m e : to_size (S754_finite true m e) = if Qle_bool 1 (inject_Z (Zpos m) * p2 e) then UB else Ok 0%nat.
Proof.
  unfold to_size. rewrite shiftl_floor. cbv zeta. pose proof (mpos_val m e) as P. destruct (Qle_bool 1 (inject_Z (Zpos m) * p2 e)) eqn:B.
  - apply Qle_bool_iff in B. pose proof (floor_ge 1 _ B) as L. replace (Qfloor _ =? 0)%Z with false; [reflexivity|]. symmetry. apply Z.eqb_neq. lia.
  - assert (L : (inject_Z (Zpos m) * p2 e < 1)%Q) by (apply Qnot_le_lt; rewrite <- Qle_bool_iff; now rewrite B).
    pose proof (floor_lt 1 _ L) as L1. pose proof (floor_0 _ (Qlt_le_weak _ _ P)) as L0. replace (Qfloor _) with 0 by lia. reflexivity.
Qed.
(** static_cast<size_t> truncates what is above -1 and below 2^64, and is undefined
    otherwise. *)
Theorem C99_to_size : forall x,
  (is_finite x -> (0 <= dval x)%Q -> (dval x < inject_Z (2 ^ 64))%Q -> to_size x = Ok (Z.to_nat (Qfloor (dval x)))) /\
  (is_finite x -> (-1 < dval x)%Q -> (dval x <= 0)%Q -> to_size x = Ok 0%nat) /\
  (~ is_finite x \/ (dval x <= -1)%Q \/ (inject_Z (2 ^ 64) <= dval x)%Q -> to_size x = UB).
Proof.
  intros x. split; [exact (to_size_pos x)|]. split.
  - intros F L1 L0. destruct x as [s|s| |s m e]; try contradiction; [reflexivity|]. destruct s.
    + rewrite to_size_neg. rewrite neg_val in L1. destruct (Qle_bool 1 (inject_Z (Zpos m) * p2 e)) eqn:B; [|reflexivity]. apply Qle_bool_iff in B. exfalso. lra.
    + exfalso. pose proof (mpos_val m e) as P. change (dval (S754_finite false m e)) with (inject_Z (Zpos m) * p2 e)%Q in L0. lra.
  - intros [H|[H|H]].
    + destruct x as [s|s| |s m e]; try reflexivity; exfalso; apply H; exact I.
    + destruct x as [s|s| |s m e]; try reflexivity; [exfalso; revert H; now apply Qlt_not_le|]. destruct s.
      * rewrite to_size_neg. rewrite neg_val in H. assert (B : Qle_bool 1 (inject_Z (Zpos m) * p2 e) = true) by (apply Qle_bool_iff; lra). now rewrite B.
      * exfalso. pose proof (mpos_val m e) as P. change (dval (S754_finite false m e)) with (inject_Z (Zpos m) * p2 e)%Q in H. lra.
    + apply to_size_big; [|intros _; exact H]. eapply Qle_trans; [|exact H]. discriminate.
Qed.

(** * The number of steps *)
Section Steps.
Variables tm ts : double.
Hypotheses (Pm : proper tm) (Ps : proper ts) (T0 : (0 <= dval tm)%Q) (S0 : (0 < dval ts)%Q).
Let r := duration tm ts.
Let q := SFdiv prec64 emax64 tm ts.
Let NZ : ~ (dval ts == 0)%Q. Proof. lra. Qed.
Let Vq : is_double q. Proof. exact (proj1 (div_facts tm ts Pm Ps NZ)). Qed.
Let Cq : crt prec64 emax64 r q. Proof. exact (proj2 (div_facts tm ts Pm Ps NZ)). Qed.
Lemma r_nonneg : (0 <= r)%Q. Proof. unfold r, duration. apply Qle_shift_div_l; [exact S0|]. rewrite Qmult_0_l. exact T0. Qed.
Lemma q_above z : is_finite q -> proper z -> (dval z <= r)%Q -> (dval z <= dval q)%Q.
Proof. intros F [Vz Fz] L. destruct fmt2 as [P1 P3]. exact (crt_ge prec64 emax64 P1 r q z Cq F Vq Fz Vz L). Qed.
Lemma q_below z : is_finite q -> proper z -> (r <= dval z)%Q -> (dval q <= dval z)%Q.
Proof. intros F [Vz Fz] L. destruct fmt2 as [P1 P3]. exact (crt_le prec64 emax64 P1 r q z Cq F Vq Fz Vz L). Qed.
Lemma fin_cases (x : double) : is_finite x \/ (~ is_finite x /\ dval x = 0%Q).
Proof. destruct x as [s|s| |s m e]; [left; exact I|right; split; [intros []|reflexivity]|right; split; [intros []|reflexivity]|left; exact I]. Qed.
Lemma q_nonneg : (0 <= dval q)%Q.
Proof.
  destruct (fin_cases q) as [F|[_ E]]; [|rewrite E; apply Qle_refl]. 
  destruct zero_proper as [P0 E0]. rewrite <- E0. apply q_above; [exact F|exact P0|rewrite E0; exact r_nonneg].
Qed.
Definition top64 : double := S754_finite false 9007199254740991 11.
Lemma top64_ok : proper top64 /\ (dval top64 == inject_Z (2 ^ 64 - 2 ^ 11))%Q. Proof. split; [split; [reflexivity|exact I]|reflexivity]. Qed.
Lemma q_finite : (r < inject_Z (2 ^ 64 - 2 ^ 10))%Q -> is_finite q.
Proof.
  intros L. apply (in_range_fin r q Vq Cq). rewrite Qabs_pos by exact r_nonneg. eapply Qlt_trans; [exact L|]. vm_compute. reflexivity.
Qed.
Lemma q_top : (r < inject_Z (2 ^ 64 - 2 ^ 10))%Q -> (dval q < inject_Z (2 ^ 64))%Q.
Proof.
  intros L. pose proof (q_finite L) as F. destruct top64_ok as [Pt Et]. destruct (Qlt_le_dec (dval q) (inject_Z (2 ^ 64))) as [H|H]; [exact H|exfalso].
  destruct (Qlt_le_dec r (dval top64)) as [B|B].
  - pose proof (q_below top64 F Pt (Qlt_le_weak _ _ B)) as U. rewrite Et in U. assert (W : (inject_Z (2 ^ 64) <= inject_Z (2 ^ 64 - 2 ^ 11))%Q) by (eapply Qle_trans; eauto). revert W. apply Qlt_not_le. reflexivity.
  - destruct fmt2 as [P1 P3]. pose proof (crt_nearest prec64 emax64 P1 r q top64 Cq F (proj1 Pt) (proj2 Pt)) as N. change (sval q) with (dval q) in N. change (sval top64) with (dval top64) in N. rewrite Et in B, N.
    change (inject_Z (2 ^ 64 - 2 ^ 11)) with (18446744073709549568 # 1) in *. change (inject_Z (2 ^ 64 - 2 ^ 10)) with (18446744073709550592 # 1) in *. change (inject_Z (2 ^ 64)) with (18446744073709551616 # 1) in *.
    rewrite (Qabs_neg ((18446744073709549568 # 1) - r)) in N by lra. pose proof (Qle_Qabs (dval q - r)) as A. clear - N A H B L. lra.
Qed.
Lemma q_floor z : is_finite q -> 0 <= z -> z <= 2 ^ 53 -> (inject_Z z <= r)%Q -> (inject_Z z <= dval q)%Q.
Proof.
  intros F Z0 Z1 L. destruct (natd_exact (Z.to_nat z)) as [P E]; [rewrite Z2Nat.id by exact Z0; exact Z1|]. rewrite Z2Nat.id in E by exact Z0. rewrite <- E. apply q_above; [exact F|exact P|rewrite E; exact L].
Qed.
Lemma q_ceil z : is_finite q -> 0 <= z -> z <= 2 ^ 53 -> (r <= inject_Z z)%Q -> (dval q <= inject_Z z)%Q.
Proof.
  intros F Z0 Z1 L. destruct (natd_exact (Z.to_nat z)) as [P E]; [rewrite Z2Nat.id by exact Z0; exact Z1|]. rewrite Z2Nat.id in E by exact Z0. rewrite <- E. apply q_below; [exact F|exact P|rewrite E; exact L].
Qed.
Lemma q_rel : is_finite q -> (Qabs (dval q - r) <= unit * r)%Q \/ (Qabs (dval q - r) <= tiny /\ r < p2 (-1022))%Q.
Proof.
  intros F. destruct fmt2 as [P1 P3]. pose proof (div_close prec64 emax64 P1 P3 tm ts (proj2 Pm) (proj2 Ps) NZ) as C. change (SFdiv prec64 emax64 tm ts) with q in C. change (sval tm / sval ts)%Q with r in C.
  destruct C as [[_ B]|[[s E] _]]; [|rewrite E in F; contradiction]. rewrite (Qabs_pos r) in B by exact r_nonneg. exact B.
Qed.
End Steps.
(** The number of steps that fit in the simulated time: the exact quotient cut off, up to the
    rounding of the quotient. *)
Theorem C99_steps : forall tm ts, proper tm -> proper ts -> (0 <= dval tm)%Q -> (0 < dval ts)%Q -> let r := duration tm ts in
  ((r < inject_Z (2 ^ 64 - 2 ^ 10))%Q -> exists K, to_size (SFdiv prec64 emax64 tm ts) = Ok K /\ near_steps r K) /\
  ((inject_Z (2 ^ 64) <= r)%Q -> to_size (SFdiv prec64 emax64 tm ts) = UB).
Proof.
  intros tm ts Pm Ps T0 S0 r. pose proof (q_nonneg tm ts Pm Ps T0 S0) as Q0. pose proof (r_nonneg tm ts T0 S0) as R0. fold r in R0. split.
  - intros L. pose proof (q_finite tm ts Pm Ps T0 S0 L) as F. pose proof (q_top tm ts Pm Ps T0 S0 L) as Q1. set (q := SFdiv prec64 emax64 tm ts) in *.
    exists (Z.to_nat (Qfloor (dval q))). split; [now apply to_size_pos|]. pose proof (floor_0 _ Q0) as K0. unfold near_steps. rewrite Z2Nat.id by exact K0. pose proof (Qfloor_le (dval q)) as U. pose proof (Qlt_floor (dval q)) as D. rewrite inject_Z_plus in D. change (inject_Z 1) with 1%Q in D.
    pose proof (q_rel tm ts Pm Ps T0 S0 F) as B. fold q r in B. split; [|split].
    + destruct B as [B|[B S]].
      * apply Qabs_Qle_condition in B. lra.
      * apply Qle_lt_trans with (r - 1)%Q.
        { assert (UR : (0 <= unit * r)%Q) by (apply Qmult_le_0_compat; [discriminate|exact R0]). lra. }
        assert (r < 1)%Q by (eapply Qlt_trans; [exact S|reflexivity]). assert (0 <= inject_Z (Qfloor (dval q)))%Q by (apply (injZ_le 0); exact K0). lra.
    + destruct B as [B|[B S]].
      * apply Qabs_Qle_condition in B. lra.
      * assert (Z : Qfloor (dval q) = 0).
        { assert (Qfloor (dval q) < 1); [|lia]. apply floor_lt. apply Qabs_Qle_condition in B. apply Qle_lt_trans with (tiny + p2 (-1022))%Q; [|reflexivity]. lra. }
        rewrite Z. apply Qmult_le_0_compat; [exact R0|discriminate].
    + intros R1. pose proof (floor_lt _ _ R1) as F1. pose proof (floor_0 _ R0) as F0. split.
      * apply floor_ge. apply (q_floor tm ts); auto; [lia|]. apply Qfloor_le.
      * assert (Qfloor (dval q) < Qfloor r + 2); [|lia]. apply floor_lt. apply Qle_lt_trans with (inject_Z (Qfloor r + 1)); [|apply injZ_lt; lia]. apply (q_ceil tm ts); auto; [lia|lia|]. apply Qlt_le_weak. apply Qlt_floor.
  - intros L. apply to_size_big; [exact Q0|]. intros F. set (z := S754_finite false 4503599627370496 12). assert (P : proper z) by (split; [reflexivity|exact I]).
    change (inject_Z (2 ^ 64)) with (inject_Z 18446744073709551616). assert (E : (dval z == inject_Z 18446744073709551616)%Q) by reflexivity. rewrite <- E. apply (q_above tm ts); auto.
Qed.

(** * One step *)
Notation qn k := (inject_Z (Z.of_nat k)).
Local Open Scope nat_scope.
Lemma growth_S n : (growth (S n) == growth n * (1 + unit))%Q. Proof. rewrite !growth_gr. reflexivity. Qed.
Lemma growth_ge1 n : (1 <= growth n)%Q. Proof. rewrite growth_gr. apply gr_ge1. Qed.
Lemma growth_mono n m : n <= m -> (growth n <= growth m)%Q. Proof. intros H. rewrite !growth_gr. now apply gr_mono. Qed.
Lemma qsum_nonneg n g : (forall i, i < n -> (0 <= g i)%Q) -> (0 <= qsum n g)%Q.
Proof. induction n as [|n IH]; intros H; [apply Qle_refl|]. cbn [qsum]. assert (0 <= qsum n g)%Q by (apply IH; auto). pose proof (H n (Nat.lt_succ_diag_r n)). lra. Qed.
Lemma qsum_abs n g : (Qabs (qsum n g) <= qsum n (fun i => Qabs (g i)))%Q.
Proof. induction n as [|n IH]; [apply Qle_refl|]. cbn [qsum]. eapply Qle_trans; [apply Qabs_triangle|]. lra. Qed.
Lemma qsum_const n c : (qsum n (fun _ => c) == qn n * c)%Q.
Proof. induction n as [|n IH]; [cbn [qsum]; change (qn 0) with 0%Q; ring|]. cbn [qsum]. rewrite IH, Nat2Z.inj_succ. unfold Z.succ. rewrite inject_Z_plus. change (inject_Z 1) with 1%Q. ring. Qed.
(** The part of one product, in the units of the whole. *)
Lemma part_ok n N M : n <= N -> (0 <= M)%Q ->
  ((growth n - 1) * M + qn n * growth (n - 1) * tiny + unit * (growth n * M + qn n * growth (n - 1) * tiny) <= (growth (N + 1) - 1) * M + qn n * growth N * tiny)%Q.
Proof.
  intros H M0. assert (T0 : (0 < tiny)%Q) by reflexivity. assert (U0 : (0 < unit)%Q) by reflexivity. rewrite Nat.add_1_r, growth_S. pose proof (growth_mono n N H) as G.
  assert (G1 : (growth n * (1 + unit) * M <= growth N * (1 + unit) * M)%Q) by (apply Qmult_le_compat_r; [apply Qmult_le_compat_r; [exact G|lra]|exact M0]).
  assert (G2 : (qn n * (growth (n - 1) * (1 + unit)) * tiny <= qn n * growth N * tiny)%Q).
  { destruct n as [|n]; [change (qn 0) with 0%Q; rewrite !Qmult_0_l; apply Qle_refl|]. apply Qmult_le_compat_r; [|apply Qlt_le_weak; exact T0]. rewrite !(Qmult_comm (qn (S n))). apply Qmult_le_compat_r; [|apply qn_nonneg].
    replace (S n - 1) with n by lia. rewrite <- growth_S. exact G. }
  clear - G1 G2. generalize dependent tiny. intros; lra.
Qed.
Lemma one_part n N M : n <= N -> (0 <= M)%Q -> (growth n * M + qn n * growth (n - 1) * tiny <= growth (N + 1) * M + qn n * growth N * tiny)%Q.
Proof.
  intros H M0. pose proof (part_ok n N M H M0) as P. assert (U0 : (0 <= unit * (growth n * M + qn n * growth (n - 1) * tiny))%Q).
  { apply Qmult_le_0_compat; [discriminate|]. pose proof (growth_ge1 n) as G1. pose proof (growth_ge1 (n - 1)) as G2. pose proof (qn_nonneg n) as Q0.
    assert (0 <= growth n * M)%Q by (apply Qmult_le_0_compat; lra). assert (0 <= qn n * growth (n - 1) * tiny)%Q by (apply Qmult_le_0_compat; [apply Qmult_le_0_compat; [exact Q0|lra]|discriminate]). lra. }
  lra.
Qed.
Lemma err_sum s a b ea eb da db u : (Qabs (s - (a + b)) <= u * Qabs (a + b))%Q -> (Qabs (a - ea) <= da)%Q -> (Qabs (b - eb) <= db)%Q -> (0 <= u)%Q ->
  (Qabs (s - (ea + eb)) <= (da + u * (Qabs ea + da)) + (db + u * (Qabs eb + db)))%Q.
Proof.
  intros S A B U. assert (E : (s - (ea + eb) == (s - (a + b)) + ((a - ea) + (b - eb)))%Q) by ring. rewrite E. eapply Qle_trans; [apply Qabs_triangle|]. pose proof (Qabs_triangle (a - ea) (b - eb)) as T1.
  assert (AB : (Qabs (a + b) <= (Qabs ea + da) + (Qabs eb + db))%Q).
  { assert (E2 : (a + b == (ea + eb) + ((a - ea) + (b - eb)))%Q) by ring. rewrite E2. eapply Qle_trans; [apply Qabs_triangle|]. pose proof (Qabs_triangle ea eb). lra. }
  assert (UAB : (u * Qabs (a + b) <= u * ((Qabs ea + da) + (Qabs eb + db)))%Q) by (rewrite !(Qmult_comm u); apply Qmult_le_compat_r; assumption).
  lra.
Qed.

Section Sim.
Variable tol : double.
#[local] Instance Os : Ops double := fops tol.
Lemma osum_isd n g : doubles n g -> is_double (osum n g). Proof. intros H. exact (proj1 (sum_bounds tol n g H)). Qed.
Lemma step_ok n m a b x u : doubles n a -> doubles m b -> doubles n x -> doubles m u ->
  step_bound n m a b x u (oadd (osum n (fun j => omul (a j) (x j))) (osum m (fun j => omul (b j) (u j)))).
Proof.
  intros Ha Hb Hx Hu. destruct (dot_bounds_ok tol n a x Ha Hx) as (V1 & B1 & F1). destruct (dot_bounds_ok tol m b u Hb Hu) as (V2 & B2 & F2). cbn [oadd omul Os fops] in *.
  set (p := osum n _) in *. set (q := osum m _) in *. unfold step_bound.
  set (E1 := qsum n (fun j => (dval (a j) * dval (x j))%Q)) in *. set (E2 := qsum m (fun j => (dval (b j) * dval (u j))%Q)) in *.
  set (M1 := qsum n (fun j => Qabs (dval (a j) * dval (x j))%Q)) in *. set (M2 := qsum m (fun j => Qabs (dval (b j) * dval (u j))%Q)) in *.
  assert (M10 : (0 <= M1)%Q) by (apply qsum_nonneg; intros; apply Qabs_nonneg). assert (M20 : (0 <= M2)%Q) by (apply qsum_nonneg; intros; apply Qabs_nonneg).
  assert (A1 : (Qabs E1 <= M1)%Q) by apply qsum_abs. assert (A2 : (Qabs E2 <= M2)%Q) by apply qsum_abs.
  pose proof (part_ok n (Nat.max n m) M1 (Nat.le_max_l n m) M10) as P1. pose proof (part_ok m (Nat.max n m) M2 (Nat.le_max_r n m) M20) as P2.
  pose proof (one_part n (Nat.max n m) M1 (Nat.le_max_l n m) M10) as O1. pose proof (one_part m (Nat.max n m) M2 (Nat.le_max_r n m) M20) as O2.
  assert (QS : (qn (n + m) == qn n + qn m)%Q) by (rewrite Nat2Z.inj_add, inject_Z_plus; reflexivity).
  set (G := growth (Nat.max n m + 1)) in *. set (G' := growth (Nat.max n m)) in *. set (T1 := (qn n * growth (n - 1) * tiny)%Q) in *. set (T2 := (qn m * growth (m - 1) * tiny)%Q) in *.
  assert (RT : ((qn n + qn m) * G' * tiny == qn n * G' * tiny + qn m * G' * tiny)%Q) by ring.
  destruct fmt2 as [R1 R3]. cbv zeta. split; [now apply double_ops|]. split.
  - intros F. destruct (add_fin prec64 emax64 _ _ F) as [Fp Fq]. destruct (B1 Fp) as (Fa & Fx & D1). destruct (B2 Fq) as (Fb & Fu & D2). split; [exact Fx|]. split; [exact Fu|].
    pose proof (close_rel _ _ (add_close prec64 emax64 R1 R3 p q V1 V2 Fp Fq) F) as C. change (sval p) with (dval p) in C. change (sval q) with (dval q) in C.
    eapply Qle_trans; [apply (err_sum _ _ _ E1 E2 _ _ unit C D1 D2); discriminate|]. rewrite QS, RT.
    assert (N1 : (unit * (Qabs E1 + ((growth n - 1) * M1 + T1)) <= unit * (growth n * M1 + T1))%Q) by (rewrite !(Qmult_comm unit); apply Qmult_le_compat_r; [lra|discriminate]).
    assert (N2 : (unit * (Qabs E2 + ((growth m - 1) * M2 + T2)) <= unit * (growth m * M2 + T2))%Q) by (rewrite !(Qmult_comm unit); apply Qmult_le_compat_r; [lra|discriminate]).
    clear - P1 P2 N1 N2. generalize dependent (qn n * G' * tiny)%Q. generalize dependent (qn m * G' * tiny)%Q. generalize dependent (growth n). generalize dependent (growth m). generalize dependent (unit * (Qabs E1 + ((growth n - 1) * M1 + T1)))%Q. clearbody T1 T2 G M1 M2. intros. lra.
  - intros Fa Fb Fx Fu L. rewrite QS, RT in L. 
    assert (X1 : (0 <= growth n * M1 + T1)%Q). { pose proof (growth_ge1 n). pose proof (growth_ge1 (n - 1)). assert (0 <= growth n * M1)%Q by (apply Qmult_le_0_compat; lra). assert (0 <= T1)%Q by (apply Qmult_le_0_compat; [apply Qmult_le_0_compat; [apply qn_nonneg|lra]|discriminate]). lra. }
    assert (X2 : (0 <= growth m * M2 + T2)%Q). { pose proof (growth_ge1 m). pose proof (growth_ge1 (m - 1)). assert (0 <= growth m * M2)%Q by (apply Qmult_le_0_compat; lra). assert (0 <= T2)%Q by (apply Qmult_le_0_compat; [apply Qmult_le_0_compat; [apply qn_nonneg|lra]|discriminate]). lra. }
    assert (L12 : ((growth n * M1 + T1) + (growth m * M2 + T2) < limit)%Q) by (clear - L O1 O2; lra).
    assert (Fp : is_finite p) by (apply F1; auto; clear - L12 X2; lra). assert (Fq : is_finite q) by (apply F2; auto; clear - L12 X1; lra).
    destruct (B1 Fp) as (_ & _ & D1). destruct (B2 Fq) as (_ & _ & D2). apply (in_range_fin (dval p + dval q)); [now apply double_ops|exact (add_crt prec64 emax64 R1 p q Fp Fq)|].
    rewrite <- limit_huge. eapply Qle_lt_trans; [|exact L12]. eapply Qle_trans; [apply Qabs_triangle|].
    assert (Z1 : (Qabs (dval p) <= growth n * M1 + T1)%Q). { assert (E : (dval p == E1 + (dval p - E1))%Q) by ring. rewrite E. eapply Qle_trans; [apply Qabs_triangle|]. clear - A1 D1. lra. }
    assert (Z2 : (Qabs (dval q) <= growth m * M2 + T2)%Q). { assert (E : (dval q == E2 + (dval q - E2))%Q) by ring. rewrite E. eapply Qle_trans; [apply Qabs_triangle|]. clear - A2 D2. lra. }
    clear - Z1 Z2. lra.
Qed.

(** * The clock *)
Lemma ntimes_osum ts k : ntimes ts k = osum k (fun _ => ts). Proof. induction k as [|k IH]; [reflexivity|]. cbn [ntimes osum]. now rewrite IH. Qed.
Lemma bernoulli k : (Z.of_nat k <= 2 ^ 53)%Z -> (growth k * (1 - qn k * unit) <= 1)%Q.
Proof.
  induction k as [|k IH]; intros H; [discriminate|]. assert (G : (growth k * (1 - qn k * unit) <= 1)%Q) by (apply IH; lia). rewrite growth_S. eapply Qle_trans; [|exact G].
  rewrite Nat2Z.inj_succ. unfold Z.succ. rewrite inject_Z_plus. change (inject_Z 1) with 1%Q. rewrite <- Qmult_assoc, !(Qmult_comm (growth k)). apply Qmult_le_compat_r; [|pose proof (growth_ge1 k); lra].
  pose proof (qn_nonneg k) as K0. assert (U0 : (0 < unit)%Q) by reflexivity. assert (0 <= qn k * unit * unit)%Q by (apply Qmult_le_0_compat; [apply Qmult_le_0_compat; [exact K0|lra]|lra]). assert (0 <= unit * unit)%Q by discriminate. lra.
Qed.
Lemma ntimes_step ts k : ntimes ts (S k) = SFadd prec64 emax64 (ntimes ts k) ts. Proof. reflexivity. Qed.
Lemma ntimes_isd ts k : is_double ts -> is_double (ntimes ts k). Proof. intros V. rewrite ntimes_osum. apply osum_isd. intros i _. exact V. Qed.
Lemma ntimes_fin ts j k : j <= k -> is_finite (ntimes ts k) -> is_finite (ntimes ts j).
Proof. intros H. induction k as [|k IH]; [assert (j = 0) by lia; now subst|]. destruct (Nat.eq_dec j (S k)) as [->|N]; auto. intros F. apply IH; [lia|]. rewrite ntimes_step in F. exact (proj1 (add_fin prec64 emax64 _ _ F)). Qed.
Lemma ntimes_err ts k : proper ts -> (0 <= dval ts)%Q -> is_finite (ntimes ts k) -> (Qabs (dval (ntimes ts k) - qn k * dval ts) <= (growth (k - 1) - 1) * (qn k * dval ts))%Q.
Proof.
  intros [V F] S0 Fk. rewrite ntimes_osum in *. destruct (sum_bounds tol k (fun _ => ts) ltac:(intros i _; exact V)) as (_ & B & _). destruct (B Fk) as [_ E]. rewrite !qsum_const, (Qabs_pos (dval ts)) in E by exact S0. exact E.
Qed.
Lemma ntimes_le ts k : proper ts -> (0 <= dval ts)%Q -> is_finite (ntimes ts (S k)) -> (dval (ntimes ts k) <= dval (ntimes ts (S k)))%Q.
Proof.
  intros [V F] S0 Fk. pose proof (ntimes_fin ts k (S k) (Nat.le_succ_diag_r k) Fk) as F'. destruct fmt2 as [R1 R3]. rewrite ntimes_step in *.
  pose proof (ntimes_isd ts k V) as Vk. assert (Vs : is_double (SFadd prec64 emax64 (ntimes ts k) ts)) by (now apply double_ops).
  apply (crt_ge prec64 emax64 R1 _ _ _ (add_crt prec64 emax64 R1 (ntimes ts k) ts F' F) Fk Vs F' Vk). change (dval (ntimes ts k) <= dval (ntimes ts k) + dval ts)%Q. lra.
Qed.
Lemma ntimes_lt ts k : proper ts -> (0 < dval ts)%Q -> (Z.of_nat k < 2 ^ 51)%Z -> is_finite (ntimes ts (S k)) -> (dval (ntimes ts k) < dval (ntimes ts (S k)))%Q.
Proof.
  intros [V F] S0 Hk Fk. pose proof (ntimes_fin ts k (S k) (Nat.le_succ_diag_r k) Fk) as F'. destruct fmt2 as [R1 R3].
  pose proof (ntimes_err ts k (conj V F) (Qlt_le_weak _ _ S0) F') as E. rewrite ntimes_step in *. pose proof (close_rel _ _ (add_close prec64 emax64 R1 R3 _ ts (ntimes_isd ts k V) V F' F) Fk) as C.
  set (t := ntimes ts k) in *. set (t' := SFadd prec64 emax64 t ts) in *. change (sval t) with (dval t) in C. change (sval ts) with (dval ts) in C.
  apply Qabs_Qle_condition in E. destruct E as [_ E]. 
  assert (G : (growth (k - 1) <= 4 # 3)%Q).
  { pose proof (growth_mono (k - 1) k ltac:(lia)) as GM. eapply Qle_trans; [exact GM|]. pose proof (bernoulli k ltac:(lia)) as B. pose proof (growth_ge1 k) as G1.
    assert (KU : (qn k * unit <= 1 # 4)%Q). { apply Qle_trans with (inject_Z (2 ^ 51) * unit)%Q; [|discriminate]. apply Qmult_le_compat_r; [apply injZ_le; lia|discriminate]. }
    assert (GK : (growth k * (1 - (1 # 4)) <= growth k * (1 - qn k * unit))%Q) by (rewrite !(Qmult_comm (growth k)); apply Qmult_le_compat_r; lra). lra. }
  assert (K0 : (0 <= qn k * dval ts)%Q) by (apply Qmult_le_0_compat; [apply qn_nonneg|lra]).
  assert (T : (dval t <= (4 # 3) * (qn k * dval ts))%Q). { assert (growth (k - 1) * (qn k * dval ts) <= (4 # 3) * (qn k * dval ts))%Q by (apply Qmult_le_compat_r; assumption). lra. }
  assert (KU : (unit * (qn k * dval ts) <= (1 # 4) * dval ts)%Q). { rewrite Qmult_assoc. apply Qmult_le_compat_r; [|lra]. apply Qle_trans with (unit * inject_Z (2 ^ 51))%Q; [|discriminate]. rewrite !(Qmult_comm unit). apply Qmult_le_compat_r; [apply injZ_le; lia|discriminate]. }
  assert (T0 : (0 <= dval t)%Q). { clear - F' S0 V F R1. unfold t in *. clear t. revert F'. induction k as [|k IH]; intros F'; [discriminate|]. eapply Qle_trans; [apply IH; apply (ntimes_fin ts k (S k)); auto|]. apply ntimes_le; auto; [split; auto|lra]. }
  apply Qabs_Qle_condition in C. destruct C as [C _]. rewrite (Qabs_pos (dval t + dval ts)) in C by lra.
  assert (UT : (unit * dval t <= (1 # 3) * dval ts)%Q). { apply Qle_trans with (unit * ((4 # 3) * (qn k * dval ts)))%Q; [|clear - KU; lra]. rewrite !(Qmult_comm unit). apply Qmult_le_compat_r; [exact T|discriminate]. }
  assert (US : (unit * dval ts <= (1 # 3) * dval ts)%Q) by (apply Qmult_le_compat_r; [discriminate|lra]).
  clear - C UT US S0. lra.
Qed.
Lemma clock_ok : forall ts, proper ts -> (0 < dval ts)%Q -> clock_bound ts (ntimes ts).
Proof.
  intros ts P S0. pose proof (Qlt_le_weak _ _ S0) as S1. split.
  - intros k. split; [apply ntimes_isd; exact (proj1 P)|]. now apply ntimes_err.
  - intros j k H F. split; [apply (ntimes_fin ts j k); [lia|exact F]|]. induction k as [|k IH]; [lia|].
    pose proof (ntimes_fin ts k (S k) (Nat.le_succ_diag_r k) F) as F'. pose proof (ntimes_le ts k P S1 F) as L. destruct (Nat.eq_dec j k) as [->|N].
    + split; [exact L|]. intros Hk. apply ntimes_lt; auto. lia.
    + destruct (IH ltac:(lia) F') as [I1 I2]. split; [eapply Qle_trans; eauto|]. intros Hk. eapply Qlt_le_trans; [apply I2; lia|exact L].
Qed.

(** * The simulation *)
Lemma traj_double n m fA fB fu fx k : (forall i, i < n -> doubles n (fA i) /\ doubles m (fB i)) -> (forall k, doubles m (fu k)) -> doubles n fx -> doubles n (traj n m fA fB fu fx k).
Proof.
  intros HAB Hu Hx. induction k as [|k IH]; [exact Hx|]. intros i Hi. destruct (HAB i Hi) as [Ha Hb]. cbn [traj]. exact (proj1 (step_ok n m (fA i) (fB i) _ (fu k) Ha Hb IH (Hu k))).
Qed.
Theorem C99_simulate : forall sys u tm init n m p fA fB fC fD fx fu,
  is_mat (sA (dsys sys)) n n fA -> is_mat (sB (dsys sys)) n m fB -> is_mat (sC (dsys sys)) p n fC -> is_mat (sD (dsys sys)) p m fD ->
  is_vec init n fx -> inputs u m fu -> fits p ->
  (forall i, i < n -> doubles n (fA i) /\ doubles m (fB i)) -> (forall i, i < p -> doubles n (fC i) /\ doubles m (fD i)) -> doubles n fx -> (forall k, doubles m (fu k)) ->
  let ts := sample_time sys in proper tm -> proper ts -> (0 <= dval tm)%Q -> (0 < dval ts)%Q -> (duration tm ts < inject_Z (2 ^ 64 - 2 ^ 10))%Q ->
  exists K t x y, near_steps (duration tm ts) K /\ simulate to_size sys u tm init = Ok (t, x, y) /\
    let steps := Nat.min (length u) K in
    length t = S steps /\ length x = S steps /\ length y = steps /\
    (exists time, clock_bound ts time /\ (forall k, k < steps -> nth_error t k = Some (time k)) /\ nth_error t steps = Some (S754_zero false)) /\
    exists X Y, nth_error x 0 = Some init /\
      (forall k, k <= steps -> exists xk, nth_error x k = Some xk /\ is_vec xk n (X k)) /\
      (forall k, k < steps -> exists yk, nth_error y k = Some yk /\ is_vec yk p (Y k)) /\
      forall k, k < steps ->
        (forall i, i < n -> step_bound n m (fA i) (fB i) (X k) (fu k) (X (S k) i)) /\
        (forall i, i < p -> step_bound n m (fC i) (fD i) (X k) (fu k) (Y k i)).
Proof.
  intros sys u tm init n m p fA fB fC fD fx fu HA HB HC HD Hx Hu Fp DAB DCD Dx Du ts Pm Ps T0 S0 L.
  destruct (C99_steps tm ts Pm Ps T0 S0) as [G _]. destruct (G L) as (K & EK & NK).
  destruct (@simulate_ok double (fops tol) to_size sys u tm (SFdiv prec64 emax64 tm ts) K init n m p fA fB fC fD fx fu HA HB HC HD Hx Hu Fp eq_refl EK) as (t & x & y & E & L1 & L2 & L3 & Qx & Qy & Qt & Ql).
  exists K, t, x, y. split; [exact NK|]. split; [exact E|]. split; [exact L1|]. split; [exact L2|]. split; [exact L3|]. split.
  - exists (ntimes ts). split; [now apply clock_ok|]. split; [exact Qt|exact Ql].
  - exists (traj n m fA fB fu fx), (outp n m fA fB fC fD fu fx). split.
    + destruct (Qx 0 ltac:(lia)) as (x0 & E0 & V0). cbn [traj] in V0. rewrite E0. f_equal. exact (is_vec_unique _ _ _ _ V0 Hx).
    + split; [exact Qx|]. split; [exact Qy|]. intros k Hk. pose proof (traj_double n m fA fB fu fx k DAB Du Dx) as DT. split; intros i Hi.
      * destruct (DAB i Hi). cbn [traj]. now apply step_ok.
      * destruct (DCD i Hi). unfold outp. now apply step_ok.
Qed.
(** Simulating for 2^64 sample times or longer, for a negative time, or with the sample time zero is
    undefined behaviour, however few inputs there are. *)
Theorem C99_undefined : forall sys u tm init, let ts := sample_time sys in proper tm -> proper ts ->
  ((dval ts == 0)%Q \/ ((0 < dval ts)%Q /\ ((inject_Z (2 ^ 64) <= duration tm ts)%Q \/ (duration tm ts <= -1)%Q))) ->
  simulate to_size sys u tm init = UB.
Proof.
  intros sys u tm init ts Pm Ps H. unfold simulate. cbn [odiv Os fops bind]. fold ts. enough (E : to_size (SFdiv prec64 emax64 tm ts) = UB) by (now rewrite E).
  destruct H as [H|[S0 [H|H]]].
  - destruct ts as [s|s| |s k e], Ps as [_ Fs]; try contradiction; [destruct tm as [s'|s'| |s' k' e'], Pm as [_ Fm]; try contradiction; reflexivity|exfalso; pose proof (mpos_val k e) as MP; destruct s; [rewrite neg_val in H|change (inject_Z (Zpos k) * p2 e == 0)%Q in H]; lra].
  - apply (proj2 (C99_steps tm ts Pm Ps ltac:(apply Qlt_le_weak; apply (Qmult_lt_r _ _ (/ dval ts)); [now apply Qinv_lt_0_compat|]; rewrite Qmult_0_l; eapply Qlt_le_trans; [|exact H]; reflexivity) S0)). exact H.
  - assert (NZ : ~ (dval ts == 0)%Q) by lra. destruct (div_facts tm ts Pm Ps NZ) as [V C]. destruct (C99_to_size (SFdiv prec64 emax64 tm ts)) as (_ & _ & U). apply U. destruct (fin_cases (SFdiv prec64 emax64 tm ts)) as [F|[F _]]; [right; left|left; exact F].
    destruct fmt2 as [R1 R3]. set (z := SFopp one). assert (E : (dval z == -1)%Q) by reflexivity. rewrite <- E. apply (crt_le prec64 emax64 R1 _ _ z C F V); [exact I|reflexivity|]. change (sval z) with (dval z). rewrite E. exact H.
Qed.
End Sim.

(** * Cases *)
Definition tenth : double := S754_finite false 7205759403792794 (-56).
Definition three_tenths : double := S754_finite false 5404319552844595 (-54).
Lemma nearest_quot a b z : (Z.of_nat a <= 2 ^ 53)%Z -> (Z.of_nat b <= 2 ^ 53)%Z -> 0 < b -> SFdiv prec64 emax64 (natd a) (natd b) = z -> (Qabs (qn a / qn b) < limit)%Q -> nearest_double (qn a / qn b) z.
Proof.
  intros Ha Hb B0 E L. destruct (natd_exact a Ha) as [Pa Ea]. destruct (natd_exact b Hb) as [Pb Eb]. pose proof (qn_pos b B0) as BP.
  assert (NZ : ~ (dval (natd b) == 0)%Q) by (rewrite Eb; lra). destruct (div_facts _ _ Pa Pb NZ) as [V C]. rewrite E in V, C.
  assert (W : (dval (natd a) / dval (natd b) == qn a / qn b)%Q) by (now rewrite Ea, Eb). destruct fmt2 as [R1 R3]. pose proof (crt_wd prec64 emax64 _ _ _ W C) as C'.
  destruct (crt_correct _ _ V C') as [[H _]|[[H K]|[H K]]]; [exact H| |]; exfalso.
  - revert K. apply Qlt_not_le. eapply Qle_lt_trans; [apply Qle_Qabs|exact L].
  - pose proof (Qle_Qabs (- (qn a / qn b))) as N. rewrite Qabs_opp in N. lra.
Qed.
(** Three sample times of 0.1 do not fit in 0.3 seconds; ten fit in one second, although ten times
    the sample time is more than one. *)
Theorem C99_decimal_refuted : nearest_double (1 # 10) tenth /\ nearest_double (3 # 10) three_tenths /\
  to_size (SFdiv prec64 emax64 three_tenths tenth) = Ok 2 /\
  to_size (SFdiv prec64 emax64 (natd 1) tenth) = Ok 10 /\ (dval (natd 1) < inject_Z 10 * dval tenth)%Q.
Proof.
  split; [apply (nearest_quot 1 10); [lia|lia|lia|vm_compute; reflexivity|vm_compute; reflexivity]|].
  split; [apply (nearest_quot 3 10); [lia|lia|lia|vm_compute; reflexivity|vm_compute; reflexivity]|]. split; [vm_compute; reflexivity|]. split; vm_compute; reflexivity.
Qed.
(** x(k+1) = x(k) / 2 + u(k), y(k) = x(k), sampled every 0.1 s. *)
Definition decay : DSS double := mkDSS (mkSS (one_by_one half) (one_by_one one) (one_by_one one) (one_by_one (S754_zero false))) tenth.
Lemma one_mat x : is_double x -> is_mat (one_by_one x) 1 1 (fun _ _ => x) /\ forall i : nat, i < 1 -> doubles 1 ((fun _ _ => x) i).
Proof.
  intros V. split; [|intros i _ j _; exact V]. split; [reflexivity|]. split; [reflexivity|]. split; [split; [exact fits_1|split; exact fits_1]|]. split; [reflexivity|]. intros i j Hi Hj. assert (i = 0) by lia. assert (j = 0) by lia. now subst.
Qed.
Example C99_witness :
  is_mat (sA (dsys decay)) 1 1 (fun _ _ => half) /\ is_mat (sB (dsys decay)) 1 1 (fun _ _ => one) /\
  is_mat (sC (dsys decay)) 1 1 (fun _ _ => one) /\ is_mat (sD (dsys decay)) 1 1 (fun _ _ => S754_zero false) /\
  is_vec [one] 1 (fun _ => one) /\ inputs (repeat [one] 12) 1 (fun _ _ => one) /\ fits 1 /\
  proper (natd 1) /\ proper tenth /\ (0 <= dval (natd 1))%Q /\ (0 < dval tenth)%Q /\ (duration (natd 1) tenth < inject_Z (2 ^ 64 - 2 ^ 10))%Q /\
  (exists t x y, @simulate double (fops tol6) to_size decay (repeat [one] 12) (natd 1) [one] = Ok (t, x, y) /\ length t = 11 /\ length y = 10 /\
     nth_error x 2 = Some [S754_finite false 7881299347898368 (-52)]) /\
  (* undefined: more than 2^64 steps, and a sample time of zero *)
  proper p1023 /\ (inject_Z (2 ^ 64) <= duration p1023 tenth)%Q.
Proof.
  split; [now apply one_mat|]. split; [now apply one_mat|]. split; [now apply one_mat|]. split; [now apply one_mat|].
  split; [split; [reflexivity|]; split; [exact fits_1|]; intros i Hi; assert (i = 0) by lia; now subst|]. split.
  { intros k v H. apply nth_error_In in H. apply repeat_spec in H. subst v. split; [reflexivity|]. split; [exact fits_1|]. intros i Hi. assert (i = 0) by lia. now subst. }
  split; [exact fits_1|]. split; [split; [reflexivity|exact I]|]. split; [split; [reflexivity|exact I]|]. split; [discriminate|]. split; [reflexivity|]. split; [vm_compute; reflexivity|]. split.
  { do 3 eexists. split; [lazy; reflexivity|]. split; [reflexivity|]. split; reflexivity. }
  split; [split; [reflexivity|exact I]|]. vm_compute. discriminate.
Qed.
