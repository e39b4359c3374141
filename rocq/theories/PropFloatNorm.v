(** PropFloatNorm.v: C102, square roots and norms of doubles. *)
From Coq Require Import ZArith QArith Qabs Qpower Bool Lia Lqa SpecFloat List.
From Verif Require Import LinalgFacts2 MathM MathFacts PropUtil PropMath Float FloatFacts FloatValid FloatRound FloatIOFacts FloatArith FloatSum FloatCmp FloatMono PropFloat PropFloat2 PropFloatIO PropFloatSum PropFloatCmp FloatLoop PropFloatSim PropFloatExpm FloatDet FloatSqrt.
Import ListNotations.
Local Open Scope nat_scope.

(** * Specification *)
(** [z] is a double nearest to the square root of [v]: for each other double y, the root lies on the
    side of z of the middle of y and z.  (A y below zero is further away than zero is.) *)
Definition nearest_root (v : Q) (z : double) : Prop :=
  proper z /\ (0 <= dval z)%Q /\ forall y, proper y -> (0 <= dval y)%Q -> let mid := ((dval y + dval z) / 2)%Q in
    ((dval y < dval z)%Q -> (mid * mid <= v)%Q) /\ ((dval z < dval y)%Q -> (v <= mid * mid)%Q).
(** std::sqrt(double). *)
Definition dsqrt (x : double) : double := SFsqrt prec64 emax64 x.

(** * Squares of rational numbers *)
Lemma sq_lt a c : (0 <= a -> a < c -> a * a < c * c)%Q.
Proof. intros A C. apply Qle_lt_trans with (a * c)%Q; [apply Qmult_le_compat_nonneg; split; lra|apply Qmult_lt_r; lra]. Qed.
Lemma sq_le a c : (0 <= a -> a <= c -> a * a <= c * c)%Q.
Proof. intros A C. apply Qmult_le_compat_nonneg; split; assumption. Qed.
Lemma sq_lt_inv a c : (0 <= c -> a * a < c * c -> a < c)%Q.
Proof. intros A C. destruct (Qlt_le_dec a c) as [L|L]; [exact L|]. pose proof (sq_le c a A L). lra. Qed.
Lemma sq_le_inv a c : (0 <= c -> a * a <= c * c -> a <= c)%Q.
Proof. intros A C. destruct (Qlt_le_dec c a) as [L|L]; [|exact L]. pose proof (sq_lt c a A L). lra. Qed.
Lemma pow_sq k : (p2 k * p2 k == p2 (k + k))%Q. Proof. now rewrite q2_add. Qed.

(** * The square root *)
Lemma rounds_crt r z : (0 < r)%Q -> rounds prec64 emax64 false r z -> crt prec64 emax64 r z.
Proof. intros H R. right. exists false, r. split; [exact H|]. split; [cbn [sgn]; ring|exact R]. Qed.
(** The facts about one rational number r in the cell. *)
Lemma crt_root r z : is_double z -> (p2 (-538) <= r)%Q -> (r < p2 513)%Q -> crt prec64 emax64 r z ->
  is_finite z /\ (0 <= dval z)%Q /\ (Qabs (dval z - r) <= unit * r)%Q /\ forall y, proper y -> (Qabs (dval z - r) <= Qabs (dval y - r))%Q.
Proof.
  intros V L U C. destruct fmt2 as [P1 P3]. pose proof (q2_pos (-538)) as P0. assert (AR : (Qabs r == r)%Q) by (apply Qabs_pos; lra).
  assert (F : is_finite z). { apply (in_range_fin r z V C). rewrite AR. eapply Qlt_le_trans; [exact U|]. apply Qle_trans with (p2 1023); [now apply q2_mono|]. vm_compute. discriminate. }
  split; [exact F|]. destruct zero_proper as [[V0 F0] E0]. split; [rewrite <- E0; apply (crt_ge prec64 emax64 P1 r z (S754_zero false) C F V F0 V0); change (sval (S754_zero false)) with 0%Q; lra|]. split.
  - destruct (crt_close_u prec64 emax64 P1 P3 r z C) as [[_ [H|[_ H]]]|[[s H] _]].
    + rewrite AR in H. exact H.
    + exfalso. rewrite AR in H. assert (p2 (emin prec64 emax64 + prec64 - 1) <= p2 (-538))%Q by (apply q2_mono; vm_compute; discriminate). lra.
    + rewrite H in F. contradiction.
  - intros y [Vy Fy]. exact (crt_nearest prec64 emax64 P1 r z y C F Vy Fy).
Qed.
Lemma half_eq x : (x / 2 == x * (1 # 2))%Q. Proof. reflexivity. Qed.
Lemma near_side y z r : (Qabs (z - r) <= Qabs (y - r))%Q -> (y < z -> (y + z) / 2 <= r)%Q /\ (z < y -> r <= (y + z) / 2)%Q.
Proof.
  intros H. rewrite half_eq. split; intros L.
  - destruct (Qlt_le_dec r ((y + z) * (1 # 2))) as [K|K]; [exfalso|exact K]. revert H. apply Qlt_not_le. apply Qlt_le_trans with (z - r)%Q; [|apply Qle_Qabs]. apply Qabs_case; intros _; lra.
  - destruct (Qlt_le_dec ((y + z) * (1 # 2)) r) as [K|K]; [exfalso|exact K]. revert H. apply Qlt_not_le. rewrite (Qabs_Qminus z r). apply Qlt_le_trans with (r - z)%Q; [|apply Qle_Qabs]. apply Qabs_case; intros _; lra.
Qed.
Lemma between a b c : (a < b -> a < c -> exists r, a < r /\ r < b /\ r < c)%Q.
Proof. intros H1 H2. destruct (Qlt_le_dec b c) as [L|L]; [exists ((a + b) * (1 # 2))%Q|exists ((a + c) * (1 # 2))%Q]; repeat split; lra. Qed.
Lemma between' a b c : (a < b -> c < b -> exists r, a < r /\ r < b /\ c < r)%Q.
Proof. intros H1 H2. destruct (Qlt_le_dec c a) as [L|L]; [exists ((a + b) * (1 # 2))%Q|exists ((c + b) * (1 # 2))%Q]; repeat split; lra. Qed.
Lemma unit_range : (0 < unit)%Q /\ (unit < 1 # 2)%Q. Proof. split; reflexivity. Qed.
Lemma root_facts v z : is_double z -> (p2 (-1074) <= v)%Q -> (v < p2 1024)%Q -> root_cell prec64 emax64 v z ->
  nearest_root v z /\ ((1 - unit) * (1 - unit) * v <= dval z * dval z)%Q /\ (dval z * dval z <= (1 + unit) * (1 + unit) * v)%Q.
Proof.
  intros V L U H. destruct unit_range as [U0 U1]. assert (V0 : (0 < v)%Q) by (pose proof (q2_pos (-1074)); lra).
  assert (HU : forall a, (0 < a -> a * a <= v -> a < p2 512)%Q).
  { intros a A0 A1. apply sq_lt_inv; [pose proof (q2_pos 512); lra|]. rewrite pow_sq. change (512 + 512)%Z with 1024%Z. lra. }
  assert (M13 : (p2 513 == 2 * p2 512)%Q) by reflexivity. clear U.
  destruct H as [(a & A0 & A1 & R)|(a & b & A0 & AB & B2 & A1 & B1 & R)].
  - pose proof (HU a A0 ltac:(lra)) as AU. assert (AL : (p2 (-538) <= a)%Q).
    { apply Qle_trans with (p2 (-537)); [now apply q2_mono|]. apply sq_le_inv; [lra|]. rewrite pow_sq. change (-537 + -537)%Z with (-1074)%Z. lra. }
    destruct (crt_root a z V AL ltac:(lra) (rounds_crt a z A0 R)) as (F & Z0 & E & N). apply Qabs_Qle_condition in E. split; [|split].
    + split; [split; auto|]. split; [exact Z0|]. intros y Py Y0. destruct (near_side _ _ _ (N y Py)) as [S1 S2]. cbv zeta. rewrite <- A1. split; intros K; apply sq_le; auto. rewrite half_eq. lra. lra.
    + setoid_replace ((1 - unit) * (1 - unit) * v)%Q with (((1 - unit) * a) * ((1 - unit) * a))%Q by (rewrite <- A1; ring). apply sq_le; [apply Qmult_le_0_compat; lra|]. setoid_replace ((1 - unit) * a)%Q with (a - unit * a)%Q by ring. lra.
    + setoid_replace ((1 + unit) * (1 + unit) * v)%Q with (((1 + unit) * a) * ((1 + unit) * a))%Q by (rewrite <- A1; ring). apply sq_le; [lra|]. setoid_replace ((1 + unit) * a)%Q with (a + unit * a)%Q by ring. lra.
  - pose proof (HU a A0 ltac:(lra)) as AU. assert (AL : (p2 (-538) <= a)%Q).
    { apply sq_le_inv; [lra|]. rewrite pow_sq. assert (X : (b * b <= (2 * a) * (2 * a))%Q) by (apply sq_le; lra). setoid_replace (2 * a * (2 * a))%Q with (4 * (a * a))%Q in X by ring.
      change (-538 + -538)%Z with (-1074 + -2)%Z. rewrite q2_add. change (p2 (-2)) with (1 # 4)%Q. lra. }
    assert (FR : forall r, (a < r < b)%Q -> is_finite z /\ (0 <= dval z)%Q /\ (Qabs (dval z - r) <= unit * r)%Q /\ forall y, proper y -> (Qabs (dval z - r) <= Qabs (dval y - r))%Q).
    { intros r [R1 R2]. apply crt_root; [exact V|lra|lra|]. apply rounds_crt; [lra|]. apply R. split; assumption. }
    destruct (FR ((a + b) * (1 # 2))%Q ltac:(split; lra)) as (F & Z0 & _). split; [|split].
    + split; [split; auto|]. split; [exact Z0|]. intros y Py Y0. cbv zeta. set (c := ((dval y + dval z) / 2)%Q).
      assert (C0 : (0 <= c)%Q) by (unfold c; rewrite half_eq; lra). split; intros K.
      * assert (CA : (c <= a)%Q).
        { destruct (Qlt_le_dec a c) as [G|G]; [exfalso|exact G]. destruct (between a b c AB G) as (r & R1 & R2 & R3). destruct (FR r (conj R1 R2)) as (_ & _ & _ & N). destruct (near_side _ _ _ (N y Py)) as [S1 _]. specialize (S1 K). fold c in S1. lra. }
        pose proof (sq_le c a C0 CA). lra.
      * assert (CB : (b <= c)%Q).
        { destruct (Qlt_le_dec c b) as [G|G]; [exfalso|exact G]. destruct (between' a b c AB G) as (r & R1 & R2 & R3). destruct (FR r (conj R1 R2)) as (_ & _ & _ & N). destruct (near_side _ _ _ (N y Py)) as [_ S2]. specialize (S2 K). fold c in S2. lra. }
        pose proof (sq_le b c ltac:(lra) CB). lra.
    + assert (ZB : ((1 - unit) * b <= dval z)%Q).
      { destruct (Qlt_le_dec (dval z) ((1 - unit) * b)) as [G|G]; [exfalso|exact G]. assert (G' : (dval z / (1 - unit) < b)%Q) by (apply Qlt_shift_div_r; [lra|]; rewrite Qmult_comm; exact G).
        destruct (between' a b _ AB G') as (r & R1 & R2 & R3). destruct (FR r (conj R1 R2)) as (_ & _ & E & _). apply Qabs_Qle_condition in E.
        assert (X : (dval z < r * (1 - unit))%Q). { apply (Qmult_lt_r _ _ (1 - unit)) in R3; [|lra]. setoid_replace (dval z / (1 - unit) * (1 - unit))%Q with (dval z) in R3 by (field; lra). exact R3. }
        setoid_replace (r * (1 - unit))%Q with (r - unit * r)%Q in X by ring. lra. }
      assert (B0 : (0 <= (1 - unit) * b)%Q) by (apply Qmult_le_0_compat; lra). pose proof (sq_le _ _ B0 ZB) as X. eapply Qle_trans; [|exact X].
      setoid_replace ((1 - unit) * b * ((1 - unit) * b))%Q with ((1 - unit) * (1 - unit) * (b * b))%Q by ring. apply Qmult_le_compat_nonneg; split; try lra. apply Qmult_le_0_compat; lra.
    + assert (ZB : (dval z <= (1 + unit) * a)%Q).
      { destruct (Qlt_le_dec ((1 + unit) * a) (dval z)) as [G|G]; [exfalso|exact G]. assert (G' : (a < dval z / (1 + unit))%Q) by (apply Qlt_shift_div_l; [lra|]; rewrite Qmult_comm; exact G).
        destruct (between a b _ AB G') as (r & R1 & R2 & R3). destruct (FR r (conj R1 R2)) as (_ & _ & E & _). apply Qabs_Qle_condition in E.
        assert (X : (r * (1 + unit) < dval z)%Q). { apply (Qmult_lt_r _ _ (1 + unit)) in R3; [|lra]. setoid_replace (dval z / (1 + unit) * (1 + unit))%Q with (dval z) in R3 by (field; lra). exact R3. }
        setoid_replace (r * (1 + unit))%Q with (r + unit * r)%Q in X by ring. lra. }
      pose proof (sq_le _ _ Z0 ZB) as X. eapply Qle_trans; [exact X|].
      setoid_replace ((1 + unit) * a * ((1 + unit) * a))%Q with ((1 + unit) * (1 + unit) * (a * a))%Q by ring. apply Qmult_le_compat_nonneg; split; try lra. apply Qmult_le_0_compat; lra. apply Qmult_le_0_compat; lra.
Qed.
Lemma nearest_root_wd v w z : (v == w)%Q -> nearest_root v z -> nearest_root w z.
Proof.
  intros E (N1 & N2 & N3). split; [exact N1|]. split; [exact N2|]. intros y Py Y0. destruct (N3 y Py Y0) as [A B]. cbv zeta in *. split; intros K; [specialize (A K)|specialize (B K)]; lra.
Qed.
(** [d * d] is [v] up to the rounding of the root. *)
Definition root_error (v : Q) (d : double) : Prop := (Qabs (dval d * dval d - v) <= (growth 2 - 1) * v)%Q.
Lemma growth2 : (growth 2 == (1 + unit) * (1 + unit))%Q. Proof. reflexivity. Qed.
Lemma error_root v d : (0 <= v)%Q -> ((1 - unit) * (1 - unit) * v <= dval d * dval d)%Q -> (dval d * dval d <= (1 + unit) * (1 + unit) * v)%Q -> root_error v d.
Proof.
  intros V0 L U. unfold root_error. rewrite growth2. destruct unit_range as [U0 U1]. assert (P : (0 <= unit * unit * v)%Q) by (apply Qmult_le_0_compat; [apply Qmult_le_0_compat; lra|exact V0]).
  apply Qabs_Qle_condition. setoid_replace (((1 + unit) * (1 + unit) - 1) * v)%Q with (2 * (unit * v) + unit * unit * v)%Q by ring.
  setoid_replace ((1 + unit) * (1 + unit) * v)%Q with (v + 2 * (unit * v) + unit * unit * v)%Q in U by ring. setoid_replace ((1 - unit) * (1 - unit) * v)%Q with (v - 2 * (unit * v) + unit * unit * v)%Q in L by ring. split; lra.
Qed.
(** std::sqrt of a double: the nearest double to the root. *)
Theorem C102_square_root : forall x, is_double x -> is_double (dsqrt x) /\
  (is_finite x -> (0 < dval x)%Q -> nearest_root (dval x) (dsqrt x) /\ (0 < dval (dsqrt x))%Q /\ root_error (dval x) (dsqrt x)) /\
  (is_finite x -> (dval x < 0)%Q -> dsqrt x = nan) /\ (forall s, x = S754_zero s -> dsqrt x = x) /\
  (x = inf false -> dsqrt x = inf false) /\ (x = inf true -> dsqrt x = nan) /\ (x = nan -> dsqrt x = nan).
Proof.
  intros x V. destruct fmt2 as [P1 P3], fmt3 as [P4 P5]. split; [now apply sqrt_valid|]. split; [|repeat split; try (intros ->; reflexivity)].
  - intros F X0. destruct x as [s|s| |[|] m e]; try contradiction; try (exfalso; apply (Qlt_irrefl 0); exact X0).
    { exfalso. rewrite neg_val in X0. pose proof (mpos_val m e). lra. }
    destruct (sqrt_cell prec64 emax64 P1 m e) as [VZ RC]. change (let '(mz, ez, lz) := SFsqrt_core_binary prec64 emax64 (Zpos m) e in binary_round_aux prec64 emax64 false mz ez lz) with (dsqrt (S754_finite false m e)) in VZ, RC.
    assert (EV : (dval (S754_finite false m e) == inject_Z (Zpos m) * p2 e)%Q) by (cbn [dval]; ring).
    pose proof (valid_below prec64 emax64 P1 (S754_finite false m e) P5 V I) as VB. change (sval (S754_finite false m e)) with (dval (S754_finite false m e)) in VB. rewrite Qabs_pos in VB by lra.
    destruct (root_facts (inject_Z (Zpos m) * p2 e) (dsqrt (S754_finite false m e)) VZ) as (NR & L & U).
    + cbn [is_double valid_binary] in V. apply (bounded_emin prec64 emax64) in V. change (emin prec64 emax64) with (-1074)%Z in V. apply Qle_trans with (p2 e); [now apply q2_mono|].
      setoid_replace (p2 e) with (1 * p2 e)%Q at 1 by ring. apply Qmult_le_compat_r; [apply (injZ_le 1); lia|pose proof (q2_pos e); lra].
    + rewrite <- EV. eapply Qlt_le_trans; [exact VB|]. vm_compute. discriminate.
    + exact RC.
    + assert (NR' : nearest_root (dval (S754_finite false m e)) (dsqrt (S754_finite false m e))).
      { revert NR. apply nearest_root_wd. now symmetry. }
      rewrite <- EV in L, U. split; [exact NR'|]. split; [|apply error_root; auto; lra].
      destruct NR as (_ & Z0 & _). apply Qle_lteq in Z0. destruct Z0 as [Z0|Z0]; [exact Z0|exfalso]. rewrite <- Z0 in L. assert (0 < (1 - unit) * (1 - unit) * dval (S754_finite false m e))%Q by (apply Qmult_lt_0_compat; [reflexivity|exact X0]). lra.
  - intros F X0. destruct x as [s|s| |[|] m e]; try contradiction; try reflexivity; exfalso; [apply (Qlt_irrefl 0); exact X0|]. cbn [dval] in X0. pose proof (mpos_val m e). lra.
  - intros s ->. reflexivity.
Qed.
(** The root of a square of a double is that double. *)
Theorem C102_square_root_exact : forall x w, is_double x -> is_finite x -> proper w -> (0 <= dval w)%Q -> (dval x == dval w * dval w)%Q -> is_finite (dsqrt x) /\ (dval (dsqrt x) == dval w)%Q.
Proof.
  intros x w V F Pw W0 E. destruct (C102_square_root x V) as (VZ & H & _ & HZ & _). destruct (Qlt_le_dec 0 (dval x)) as [L|L].
  - destruct (H F L) as ((Pz & Z0 & N) & _). split; [apply Pz|]. destruct (N w Pw W0) as [N1 N2]. cbv zeta in N1, N2. rewrite half_eq in N1, N2.
    destruct (Qlt_le_dec (dval w) (dval (dsqrt x))) as [G|G]; [exfalso|destruct (Qlt_le_dec (dval (dsqrt x)) (dval w)) as [G'|G']; [exfalso|lra]].
    + specialize (N1 G). assert (dval w * dval w < ((dval w + dval (dsqrt x)) * (1 # 2)) * ((dval w + dval (dsqrt x)) * (1 # 2)))%Q by (apply sq_lt; lra). lra.
    + specialize (N2 G'). assert (((dval w + dval (dsqrt x)) * (1 # 2)) * ((dval w + dval (dsqrt x)) * (1 # 2)) < dval w * dval w)%Q by (apply sq_lt; lra). lra.
  - assert (W : (dval w == 0)%Q). { apply Qle_lteq in W0 as [W0|W0]; [|now symmetry]. exfalso. pose proof (sq_lt 0 (dval w) ltac:(lra) W0). lra. }
    destruct x as [s|s| |s m e]; try contradiction; [split; [exact I|now rewrite W]|]. exfalso. rewrite W in E. revert E. pose proof (mpos_val m e) as P. cbn [dval]. destruct s; intros E; lra.
Qed.

(** * Norms *)
(** The sum of the squares of the numbers in a list. *)
Fixpoint sumsq (l : list double) : Q := match l with [] => 0%Q | x :: l => (dval x * dval x + sumsq l)%Q end.
(** [d] is the computed square root of the sum of the squares of the numbers in [l]. *)
Definition norm_of (l : list double) (d : double) : Prop := let N := length l in
  is_double d /\
  (is_finite d -> Forall is_finite l /\ (Qabs (dval d * dval d - sumsq l) <= (growth (N + 2) - 1) * sumsq l + inject_Z (Z.of_nat N) * growth (N + 1) * tiny)%Q) /\
  (Forall is_finite l -> nonneg d) /\
  (Forall is_finite l -> (growth N * sumsq l + inject_Z (Z.of_nat N) * growth (N - 1) * tiny < limit)%Q -> is_finite d) /\
  (* zero exactly for zeros, unless squares vanish *)
  ((forall x, In x l -> (dval x == 0)%Q \/ (2 ^ (-537) <= Qabs (dval x))%Q) -> Forall is_finite l -> (d = S754_zero false <-> forall x, In x l -> (dval x == 0)%Q)) /\
  (* exact for small whole numbers *)
  (forall k e t, (forall i, i < N -> is_finite (nth i l nan) /\ (dval (nth i l nan) == inject_Z (k i) * 2 ^ e)%Q) -> (-537 <= e <= 485)%Z ->
     zsum N (fun i => k i * k i)%Z = (t * t)%Z -> (0 <= t)%Z -> (t * t <= 2 ^ 53)%Z -> is_finite d /\ (dval d == inject_Z t * 2 ^ e)%Q).

Section Norms.
Variable tol : double.
#[local] Instance On : Ops double := fops tol.
Definition dsq (x : double) : double := omul x x.
Definition accs (l : list double) : double := osum (length l) (fun i => dsq (nth i l nan)).
Lemma qsum_eq n a b : (forall i, i < n -> (a i == b i)%Q) -> (qsum n a == qsum n b)%Q.
Proof. induction n as [|n IH]; intros H; [reflexivity|]. cbn [qsum]. rewrite IH, H by auto. reflexivity. Qed.
Lemma qsum_first n a : (qsum (S n) a == a 0%nat + qsum n (fun i => a (S i)))%Q.
Proof. induction n as [|n IH]; [cbn [qsum]; ring|]. cbn [qsum] in *. rewrite IH. ring. Qed.
Lemma sumsq_qsum l : (qsum (length l) (fun i => dval (nth i l nan) * dval (nth i l nan)) == sumsq l)%Q.
Proof. induction l as [|x l IH]; [reflexivity|]. cbn [length sumsq]. rewrite qsum_first. cbn [nth]. now rewrite IH. Qed.
Lemma sumsq_nonneg l : (0 <= sumsq l)%Q.
Proof. induction l as [|x l IH]; cbn [sumsq]; [apply Qle_refl|]. assert (0 <= dval x * dval x)%Q; [|lra]. setoid_replace (dval x * dval x)%Q with (Qabs (dval x) * Qabs (dval x))%Q by (rewrite <- Qabs_Qmult; symmetry; apply Qabs_pos; destruct (Qlt_le_dec (dval x) 0); [setoid_replace (dval x * dval x)%Q with ((- dval x) * (- dval x))%Q by ring|]; apply Qmult_le_0_compat; lra). apply Qmult_le_0_compat; apply Qabs_nonneg. Qed.
Lemma sq_nonneg_q x : (0 <= x * x)%Q.
Proof. destruct (Qlt_le_dec x 0); [setoid_replace (x * x)%Q with ((- x) * (- x))%Q by ring|]; apply Qmult_le_0_compat; lra. Qed.
Lemma finites_list l : finites (length l) (fun i => nth i l nan) <-> Forall is_finite l.
Proof.
  rewrite Forall_forall. split.
  - intros H x Hx. destruct (In_nth l x nan Hx) as (i & Hi & <-). now apply H.
  - intros H i Hi. apply H, nth_In, Hi.
Qed.
(** Squares: not negative; at least 2^-1074 if the number is at least 2^-537. *)
Definition atleast (z : double) : Prop := z = inf false \/ proper z /\ (2 ^ (-1074) <= dval z)%Q.
Definition least : double := S754_finite false 1 (-1074).
Lemma least_ok : proper least /\ (dval least == 2 ^ (-1074))%Q. Proof. split; [split; [reflexivity|exact I]|reflexivity]. Qed.
Lemma huge_pos : (0 < huge prec64 emax64)%Q. Proof. unfold huge. apply Qmult_lt_0_compat; [reflexivity|apply q2_pos]. Qed.
Lemma crt_least w z : is_double z -> crt prec64 emax64 w z -> (2 ^ (-1074) <= w)%Q -> atleast z.
Proof.
  intros V C H. destruct fmt2 as [P1 P3], fmt3 as [P4 P5]. destruct least_ok as [[VL FL] EL]. destruct (crt_range prec64 emax64 P1 P3 _ _ P4 P5 V C) as [[F _]|[[E _]|[_ B]]].
  - right. split; [split; auto|]. rewrite <- EL. apply (crt_ge prec64 emax64 P1 w z least C F V FL VL). change (sval least) with (dval least). rewrite EL. exact H.
  - left. exact E.
  - exfalso. pose proof huge_pos. assert (0 < 2 ^ (-1074))%Q by reflexivity. lra.
Qed.
Lemma crt_nonneg w z : is_double z -> crt prec64 emax64 w z -> (0 <= w)%Q -> nonneg z.
Proof.
  intros V C H. destruct fmt2 as [P1 P3], fmt3 as [P4 P5]. destruct zero_proper as [[V0 F0] E0]. destruct (crt_range prec64 emax64 P1 P3 _ _ P4 P5 V C) as [[F _]|[[E _]|[_ B]]].
  - left. split; [split; auto|]. rewrite <- E0. apply (crt_ge prec64 emax64 P1 w z (S754_zero false) C F V F0 V0). exact H.
  - right. exact E.
  - exfalso. pose proof huge_pos. lra.
Qed.
Lemma dsq_nonneg x : proper x -> nonneg (dsq x).
Proof. intros P. destruct (mul_facts x x P P) as [V C]. apply (crt_nonneg _ _ V C). apply sq_nonneg_q. Qed.
Lemma dsq_atleast x : proper x -> (2 ^ (-537) <= Qabs (dval x))%Q -> atleast (dsq x).
Proof.
  intros P H. destruct (mul_facts x x P P) as [V C]. apply (crt_least _ _ V C).
  setoid_replace (dval x * dval x)%Q with (Qabs (dval x) * Qabs (dval x))%Q by (rewrite <- Qabs_Qmult; symmetry; apply Qabs_pos, sq_nonneg_q).
  change (2 ^ (-1074))%Q with (p2 (-537 + -537)). rewrite <- pow_sq. apply sq_le; [|exact H]. pose proof (q2_pos (-537)). lra.
Qed.
Lemma nonneg_nn x : nonneg x -> x = nan \/ nonneg x. Proof. auto. Qed.
Lemma add_nn x y : nonneg x -> nonneg y -> nonneg (SFadd prec64 emax64 x y).
Proof.
  intros Hx Hy. destruct (add_nonneg x y (or_intror Hx) (or_intror Hy)) as [E|E]; [exfalso|exact E].
  destruct Hx as [[[Vx Fx] X0]| ->], Hy as [[[Vy Fy] Y0]| ->].
  - destruct fmt2 as [P1 P3]. destruct (add_facts x y (conj Vx Fx) (conj Vy Fy)) as [V C]. rewrite E in *. destruct (crt_nonneg _ _ V C ltac:(lra)) as [[[_ F] _]|F]; [exact F|discriminate].
  - destruct x as [s|s| |s m e]; try contradiction; discriminate.
  - destruct y as [s|s| |s m e]; try contradiction; discriminate.
  - discriminate.
Qed.
Lemma add_atleast x y : nonneg x -> nonneg y -> atleast x \/ atleast y -> atleast (SFadd prec64 emax64 x y).
Proof.
  intros Hx Hy H. destruct Hx as [[Px X0]| ->], Hy as [[Py Y0]| ->].
  - destruct (add_facts x y Px Py) as [V C]. apply (crt_least _ _ V C). destruct H as [[->|[_ H]]|[->|[_ H]]]; [destruct Px as [_ []]|lra|destruct Py as [_ []]|lra].
  - left. destruct Px as [_ F]. destruct x as [s|s| |s m e]; try contradiction; reflexivity.
  - left. destruct Py as [_ F]. destruct y as [s|s| |s m e]; try contradiction; reflexivity.
  - left. reflexivity.
Qed.
Lemma accs_nonneg n g : (forall i, i < n -> proper (g i)) -> nonneg (osum n (fun i => dsq (g i))).
Proof.
  induction n as [|n IH]; intros H; cbn [osum]; [left; split; [exact (proj1 zero_proper)|apply Qle_refl]|].
  apply add_nn; [apply IH; intros; apply H; lia|apply dsq_nonneg, H; lia].
Qed.
Lemma accs_atleast n g : (forall i, i < n -> proper (g i)) -> (exists i, i < n /\ (2 ^ (-537) <= Qabs (dval (g i)))%Q) -> atleast (osum n (fun i => dsq (g i))).
Proof.
  induction n as [|n IH]; intros H (i & Hi & L); [lia|]. cbn [osum]. apply add_atleast; [apply accs_nonneg; intros; apply H; lia|apply dsq_nonneg, H; lia|].
  destruct (Nat.eq_dec i n) as [->|N]; [right; apply dsq_atleast; auto|left; apply IH; [intros; apply H; lia|exists i; split; [lia|exact L]]].
Qed.
Lemma zero_val x : is_finite x -> (dval x == 0)%Q -> exists s, x = S754_zero s.
Proof. intros F E. destruct x as [s|s| |s m e]; try contradiction; [eauto|]. exfalso. pose proof (mpos_val m e) as P. destruct s; [rewrite neg_val in E|cbn [dval] in E]; lra. Qed.
Lemma accs_zero n g : (forall i, i < n -> is_finite (g i) /\ (dval (g i) == 0)%Q) -> osum n (fun i => dsq (g i)) = S754_zero false.
Proof.
  induction n as [|n IH]; intros H; [reflexivity|]. cbn [osum]. rewrite IH by (intros; apply H; lia). destruct (H n ltac:(lia)) as [F E]. destruct (zero_val _ F E) as [s ->]. destruct s; reflexivity.
Qed.
Lemma fact_qn_nonneg n : (0 <= inject_Z (Z.of_nat n))%Q. Proof. apply (injZ_le 0). lia. Qed.
Theorem norm_ok l : Forall is_double l -> norm_of l (dsqrt (accs l)).
Proof.
  intros HD. assert (HX : doubles (length l) (fun i => nth i l nan)) by (intros i Hi; rewrite Forall_forall in HD; apply HD, nth_In, Hi).
  destruct (dot_bounds_ok tol (length l) _ _ HX HX) as (VA & FA & FF). change (fops tol) with On in VA, FA, FF.
  change (osum (length l) (fun i => omul (nth i l nan) (nth i l nan))) with (accs l) in *.
  set (a := accs l) in *. set (n := length l) in *. pose proof (sumsq_qsum l) as SQ. fold n in SQ. pose proof (sumsq_nonneg l) as S0.
  assert (SA : (qsum n (fun i => Qabs (dval (nth i l nan) * dval (nth i l nan))) == sumsq l)%Q).
  { rewrite <- SQ. apply qsum_eq. intros i _. apply Qabs_pos, sq_nonneg_q. }
  rewrite SQ, SA in FA. rewrite SA in FF. destruct (C102_square_root a VA) as (VD & HP & HN & HZ & HI & HJ & HK).
  assert (NN : Forall is_finite l -> nonneg a). { intros HF. apply accs_nonneg. intros i Hi. split; [now apply HX|]. rewrite Forall_forall in HF. apply HF, nth_In, Hi. }
  assert (FD : is_finite (dsqrt a) -> is_finite a). { destruct a as [s|[|]| |[|] m e]; intros H; try exact I; exact H. }
  assert (ROOT : nonneg a -> nonneg (dsqrt a) /\ (is_finite a -> is_finite (dsqrt a) /\ root_error (dval a) (dsqrt a))).
  { intros [[[_ F] A0]|E].
    - apply Qle_lteq in A0 as [A0|A0].
      + destruct (HP F A0) as ((P & Z0 & _) & _ & RE). split; [left; split; assumption|]. intros _. split; [apply P|exact RE].
      + destruct (zero_val a F (Qeq_sym _ _ A0)) as [s E]. rewrite (HZ s E), E. split; [left; split; [split; [reflexivity|exact I]|apply Qle_refl]|]. intros _. split; [exact I|]. unfold root_error. vm_compute. discriminate.
    - rewrite (HI E). split; [right; reflexivity|]. intros F. rewrite E in F. contradiction. }
  split; [exact VD|]. split; [|split; [|split; [|split]]].
  - intros F. specialize (FD F). destruct (FA FD) as (FX & _ & B). apply finites_list in FX. split; [exact FX|]. destruct (ROOT (NN FX)) as [_ R]. destruct (R FD) as [_ RE]. unfold root_error in RE. fold n.
    set (S := sumsq l) in *. set (k := inject_Z (Z.of_nat n)) in *. assert (K0 : (0 <= k)%Q) by apply fact_qn_nonneg. pose proof (growth_ge1 2) as G2. set (D := Qabs (dval a - S)) in *. assert (AD : (dval a <= S + D)%Q) by (pose proof (Qle_Qabs (dval a - S)); fold D in H; lra).
    assert (T1 : (Qabs (dval (dsqrt a) * dval (dsqrt a) - S) <= (growth 2 - 1) * dval a + D)%Q).
    { setoid_replace (dval (dsqrt a) * dval (dsqrt a) - S)%Q with ((dval (dsqrt a) * dval (dsqrt a) - dval a) + (dval a - S))%Q by ring. eapply Qle_trans; [apply Qabs_triangle|]. unfold D. lra. }
    eapply Qle_trans; [exact T1|]. assert (T2 : ((growth 2 - 1) * dval a <= (growth 2 - 1) * (S + D))%Q) by (rewrite !(Qmult_comm (growth 2 - 1)); apply Qmult_le_compat_r; lra).
    apply Qle_trans with ((growth 2 - 1) * S + growth 2 * D)%Q; [setoid_replace ((growth 2 - 1) * (S + D))%Q with ((growth 2 - 1) * S + growth 2 * D - D)%Q in T2 by ring; lra|].
    assert (T3 : (growth 2 * D <= growth 2 * ((growth n - 1) * S + k * growth (n - 1) * tiny))%Q) by (rewrite !(Qmult_comm (growth 2)); apply Qmult_le_compat_r; lra).
    assert (GN : (growth (n + 2) == growth n * growth 2)%Q) by apply growth_plus.
    assert (GM : (k * growth (n + 1) * tiny == growth 2 * (k * growth (n - 1) * tiny))%Q).
    { destruct n as [|n']; [unfold k; change (inject_Z (Z.of_nat 0)) with 0%Q; ring|]. replace (Datatypes.S n' + 1) with (n' + 2) by lia. replace (Datatypes.S n' - 1) with n' by lia. rewrite growth_plus. ring. }
    rewrite GM, GN. setoid_replace (growth 2 * ((growth n - 1) * S + k * growth (n - 1) * tiny))%Q with (growth n * growth 2 * S - growth 2 * S + growth 2 * (k * growth (n - 1) * tiny))%Q in T3 by ring.
    setoid_replace ((growth n * growth 2 - 1) * S)%Q with (growth n * growth 2 * S - S)%Q by ring. setoid_replace ((growth 2 - 1) * S)%Q with (growth 2 * S - S)%Q by ring. lra.
  - intros HF. apply ROOT, NN, HF.
  - intros HF HL. apply (ROOT (NN HF)). apply FF; [now apply finites_list|now apply finites_list|]. exact HL.
  - intros HU HF. split.
    + intros E x Hx. destruct (HU x Hx) as [Z|L]; [exact Z|exfalso]. destruct (In_nth l x nan Hx) as (i & Hi & Ei).
      assert (AL : atleast a). { apply accs_atleast; [intros j Hj; split; [now apply HX|rewrite Forall_forall in HF; apply HF, nth_In, Hj]|]. exists i. split; [exact Hi|]. now rewrite Ei. }
      destruct AL as [AL|[[_ F] AL]]; [rewrite (HI AL) in E; discriminate|]. assert (0 < 2 ^ (-1074))%Q by reflexivity. destruct (HP F ltac:(lra)) as (_ & P & _). rewrite E in P. apply (Qlt_irrefl 0 P).
    + intros H. assert (E : a = S754_zero false). { apply accs_zero. intros i Hi. rewrite Forall_forall in HF. split; [apply HF, nth_In, Hi|apply H, nth_In, Hi]. }
      now rewrite (HZ _ E).
  - intros k e t HK1 He HS Ht HB. fold n in HK1, HS. assert (ZP : forall j, zsum j (fun i => Z.abs (k i * k i)) = zsum j (fun i => k i * k i)%Z). { induction j as [|j IH]; [reflexivity|]. cbn [zsum]. rewrite IH. nia. }
    destruct (dot_exact_ok tol n _ _ k k e e HX HX HK1 HK1 ltac:(lia)) as [FE EE]; [rewrite ZP, HS; exact HB|]. change (fops tol) with On in FE, EE. change (osum n (fun i => omul (nth i l nan) (nth i l nan))) with a in FE, EE. rewrite HS in EE.
    set (w := binary_normalize prec64 emax64 t e false). destruct fmt2 as [P1 P3]. pose proof (normalize_crt prec64 emax64 P1 t e false) as C. fold w in C.
    destruct (exact_small (inject_Z t * p2 e) w t e) as [FW EW]; [reflexivity|lia|nia|exact C|]. change (sval w) with (dval w) in EW.
    destruct (C102_square_root_exact a w VA FE) as [RF RV].
    + split; [apply normalize_valid; exact P1|exact FW].
    + rewrite EW. apply Qmult_le_0_compat; [now apply (injZ_le 0)|]. pose proof (q2_pos e). lra.
    + rewrite EE, EW, inject_Z_mult. change (2 ^ (e + e))%Q with (p2 (e + e)). rewrite q2_add. ring.
    + split; [exact RF|]. rewrite RV. exact EW.
Qed.
(** The loops run over the elements in this order. *)
Lemma loop_fold {A B} (F : B -> A -> B) (g : nat -> list A) body n : forall lo s, (forall i s, lo <= i < lo + n -> body i s = Ok (fold_left F (g i) s)) ->
  for_range lo (lo + n) body s = Ok (fold_left F (flat_map g (seq lo n)) s).
Proof.
  induction n as [|n IH]; intros lo s H; [rewrite Nat.add_0_r; rewrite for_range_empty by lia; reflexivity|].
  rewrite for_range_first by lia. rewrite H by lia. cbn [bind seq flat_map]. rewrite fold_left_app. replace (lo + S n) with (S lo + n) by lia. apply IH. intros i s' Hi. apply H. lia.
Qed.
Definition addsq (a x : double) : double := oadd a (dsq x).
Lemma accs_fold l : fold_left addsq l o0 = accs l.
Proof.
  unfold accs. induction l as [|x l IH] using rev_ind; [reflexivity|]. rewrite fold_left_app, IH, app_length. cbn [fold_left length]. replace (length l + 1) with (S (length l)) by lia. cbn [osum]. unfold addsq at 1.
  rewrite app_nth2, Nat.sub_diag by lia. cbn [nth]. f_equal. apply osum_ext. intros i Hi. now rewrite app_nth1 by lia.
Qed.
(** The elements of rows i < r, of each the first w i. *)
Definition elems (r : nat) (w : nat -> nat) (f : nat -> nat -> double) : list double := flat_map (fun i => map (f i) (seq 0 (w i))) (seq 0 r).
Lemma flat_single {A} (g : nat -> A) s : flat_map (fun i => [g i]) s = map g s. Proof. induction s as [|x s IH]; [reflexivity|]. cbn [flat_map map app]. now rewrite IH. Qed.
Lemma row_fold (A : MB double) i n f : (forall j, j < n -> mget A i j = Ok (f i j)) -> forall s,
  for_range 0 n (fun c acc => let* x := mget A i c in Ok (oadd acc (dsq x))) s = Ok (fold_left addsq (map (f i) (seq 0 n)) s).
Proof.
  intros H s. rewrite <- (flat_single (f i)). apply (loop_fold addsq (fun j => [f i j]) _ n 0 s). intros j s' Hj. rewrite H by lia. reflexivity.
Qed.
Lemma elems_in r w f x : In x (elems r w f) -> exists i j, i < r /\ j < w i /\ x = f i j.
Proof. intros H. apply in_flat_map in H as (i & Hi & H). apply in_map_iff in H as (j & E & Hj). apply in_seq in Hi, Hj. exists i, j. split; [lia|]. split; [lia|now symmetry]. Qed.

Theorem C102_vector_norm : forall v, Forall is_double v -> exists d, square_norm_v dsq dsqrt v = Ok d /\ norm_of v d.
Proof.
  intros v Hv. exists (dsqrt (accs v)). split; [|now apply norm_ok]. unfold square_norm_v. rewrite (sum_loop (length v) _ (fun i => dsq (nth i v nan))); [reflexivity|].
  intros i s Hi. rewrite (lget_ok v i (nth i v nan)) by now apply nth_error_nth'. reflexivity.
Qed.
Theorem C102_matrix_norm : forall A r c f, reads A r c f -> (forall i j, i < r -> j < c -> is_double (f i j)) ->
  exists d, square_norm_m dsq dsqrt A = Ok d /\ norm_of (elems r (fun _ => c) f) d.
Proof.
  intros A r c f (Er & Ec & _ & _ & G) Hd. exists (dsqrt (accs (elems r (fun _ => c) f))). split.
  - unfold square_norm_m. rewrite Er, Ec. rewrite <- accs_fold. erewrite (loop_fold addsq (fun i => map (f i) (seq 0 c)) _ r 0); [reflexivity|]. intros i s Hi. apply row_fold. intros j Hj. apply G; lia.
  - apply norm_ok. apply Forall_forall. intros x Hx. apply elems_in in Hx as (i & j & Hi & Hj & ->). now apply Hd.
Qed.
(** Rows r0 .. r1 - 1 (as far as there are rows) of column j. *)
Theorem C102_column_length : forall A r c f j r0 r1, reads A r c f -> j < c -> (forall i, i < r -> is_double (f i j)) ->
  exists d, vector_length dsq dsqrt A j r0 r1 = Ok d /\ norm_of (map (fun i => f i j) (seq r0 (Nat.min r1 r - r0))) d.
Proof.
  intros A r c f j r0 r1 (Er & Ec & _ & _ & G) Hj Hd. eexists. split.
  - unfold vector_length. rewrite Er. set (n := Nat.min r1 r - r0).
    assert (E : for_range r0 (Nat.min r1 r) (fun i acc => let* x := mget A i j in Ok (oadd acc (dsq x))) o0 = Ok (fold_left addsq (map (fun i => f i j) (seq r0 n)) o0)).
    { destruct (Nat.le_gt_cases (Nat.min r1 r) r0) as [L|L]; [unfold n; rewrite for_range_empty by lia; replace (Nat.min r1 r - r0) with 0 by lia; reflexivity|].
      replace (Nat.min r1 r) with (r0 + n) by (unfold n; lia). rewrite <- flat_single. apply (loop_fold addsq (fun i => [f i j])). intros i s Hi. unfold n in Hi. rewrite G by lia. reflexivity. }
    rewrite E. cbn [bind]. reflexivity.
  - rewrite accs_fold. apply norm_ok. apply Forall_forall. intros x Hx. apply in_map_iff in Hx as (i & <- & Hi). apply in_seq in Hi. apply Hd. lia.
Qed.
(** sub_norm: the elements below the diagonal. *)
Theorem C102_sub_norm : forall m r c f, is_mat m r c f -> (forall i j, i < r -> j < c -> is_double (f i j)) ->
  (r * c = 0 -> sub_norm dsq dsqrt (mb_of_mat m) = Ok (S754_zero false)) /\
  (r * c <> 0 -> r <> c -> sub_norm dsq dsqrt (mb_of_mat m) = Throw) /\
  (r * c <> 0 -> r = c -> exists d, sub_norm dsq dsqrt (mb_of_mat m) = Ok d /\ norm_of (elems r (fun i => i) f) d).
Proof.
  intros m r c f H Hd. assert (HR := is_mat_reads _ _ _ _ H). destruct HR as (Er & Ec & _ & _ & G). destruct H as (Mr & Mc & _).
  assert (EM : mempty (mb_of_mat m) = (r * c =? 0)).
  { cbn [mempty mb_of_mat]. rewrite Mr, Mc. destruct r, c; try reflexivity. now rewrite Nat.mul_0_r. }
  assert (ES : is_square (mb_of_mat m) = (r =? c)) by (unfold is_square; now rewrite Er, Ec).
  unfold sub_norm. rewrite EM, ES. split; [|split].
  - intros ->. reflexivity.
  - intros N1 N2. apply Nat.eqb_neq in N1, N2. now rewrite N1, N2.
  - intros N1 ->. rewrite Nat.eqb_refl. apply Nat.eqb_neq in N1 as N2. rewrite N2. cbn [negb]. rewrite Er. exists (dsqrt (accs (elems c (fun i => i) f))). split.
    + destruct c as [|c]; [lia|]. rewrite <- accs_fold. unfold elems. cbn [seq flat_map map app].
      erewrite (loop_fold addsq (fun i => map (f i) (seq 0 i)) _ c 1); [reflexivity|]. intros i s Hi. apply row_fold. intros j Hj. apply G; lia.
    + apply norm_ok. apply Forall_forall. intros x Hx. apply elems_in in Hx as (i & j & Hi & Hj & ->). apply Hd; lia.
Qed.
(** The largest absolute value, not rounded. *)
Theorem C102_infinity_norm_vector : forall v n f, is_vec v n f -> (forall i, i < n -> proper (f i)) -> exists x, infinity_norm_v SFabs v = Ok x /\ proper x /\
  (forall i, i < n -> (Qabs (dval (f i)) <= dval x)%Q) /\ (0 < n -> exists i, i < n /\ (dval x == Qabs (dval (f i)))%Q) /\ (n = 0 -> (dval x == 0)%Q).
Proof.
  intros v n f Hv Hp. assert (Hg : forall i, i < n -> lget v i = Ok (f i)) by (intros i Hi; apply lget_ok, Hv, Hi). destruct Hv as (El & _). unfold infinity_norm_v. rewrite El. destruct (Nat.eqb_spec n 0) as [->|N].
  - exists (S754_zero false). split; [reflexivity|]. split; [exact (proj1 zero_proper)|]. split; [lia|]. split; [lia|]. reflexivity.
  - rewrite (Hg 0) by lia. cbn [bind].
    match goal with |- exists x, for_range 1 n ?bd ?s = _ /\ _ => destruct (for_range_inv (fun k x => proper x /\ (forall i, i < k -> (Qabs (dval (f i)) <= dval x)%Q) /\ exists i, i < n /\ (dval x == Qabs (dval (f i)))%Q) 1 n bd s) as (x & E & P & Q1 & Q2) end.
    + lia.
    + destruct (abs_val (f 0) (Hp 0 ltac:(lia))) as [P E]. split; [exact P|]. split; [intros i Hi; replace i with 0 by lia; rewrite E; apply Qle_refl|]. exists 0. split; [lia|exact E].
    + intros i x Hi (P & Q1 & Q2). rewrite (Hg i) by lia. cbn [bind]. eexists. split; [reflexivity|]. destruct (abs_val (f i) (Hp i ltac:(lia))) as [Pa Ea]. cbn [olt On fops].
      destruct (SFltb x (SFabs (f i))) eqn:L.
      * apply (lt_val x _ P Pa) in L. rewrite Ea in L. split; [exact Pa|]. split; [|exists i; split; [lia|exact Ea]]. intros k Hk. rewrite Ea. destruct (Nat.eq_dec k i) as [->|Nk]; [apply Qle_refl|]. specialize (Q1 k ltac:(lia)). lra.
      * split; [exact P|]. split; [|exact Q2]. intros k Hk. destruct (Nat.eq_dec k i) as [->|Nk]; [|apply Q1; lia]. destruct (Qlt_le_dec (dval x) (Qabs (dval (f i)))) as [K|K]; [|exact K]. rewrite <- Ea in K. apply (lt_val x _ P Pa) in K. congruence.
    + exists x. split; [exact E|]. split; [exact P|]. split; [exact Q1|]. split; [intros _; exact Q2|lia].
Qed.
End Norms.

(** * Cases *)
Definition d3 : double := S754_finite false (3 * 2 ^ 51) (-51).
Definition d4 : double := S754_finite false (2 ^ 52) (-50).
Definition d5 : double := S754_finite false (5 * 2 ^ 50) (-50).
Example C102_ex : @square_norm_v double double (fops tol6) (dsq tol6) dsqrt [d3; d4] = Ok d5 /\
  @square_norm_m double double (fops tol6) (dsq tol6) dsqrt (mb_of_mat (mkM 2 1 [d3; d4])) = Ok d5 /\
  @sub_norm double double (fops tol6) (dsq tol6) dsqrt (mb_of_mat (mkM 2 2 [d4; d4; d3; d4])) = Ok d3 /\
  @infinity_norm_v double double (fops tol6) SFabs [d3; SFopp d4] = Ok d4 /\ Forall is_finite [d3; d4] /\
  (growth 2 * sumsq [d3; d4] + inject_Z (Z.of_nat 2) * growth 1 * tiny < limit)%Q.
Proof. repeat split; try (vm_compute; reflexivity). repeat constructor. Qed.
(** Squares overflow and underflow: the norm of one number may be infinite or zero. *)
Theorem C102_norm_refuted : exists x y, proper x /\ proper y /\ (0 < dval x)%Q /\ (0 < dval y)%Q /\
  @square_norm_v double double (fops tol6) (dsq tol6) dsqrt [x] = Ok (inf false) /\ @square_norm_v double double (fops tol6) (dsq tol6) dsqrt [y] = Ok (S754_zero false).
Proof. exists (S754_finite false (2 ^ 52) 548), (S754_finite false (2 ^ 52) (-652)). repeat split. Qed.
