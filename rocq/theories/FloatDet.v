(** FloatDet.v: two relations between doubles and rational numbers that addition, subtraction
    and multiplication preserve: equality of multiples of a power of two that stay small, and
    a relative error.  The determinants up to order 4 preserve any such relation. *)
From Coq Require Import ZArith QArith Qabs Qpower Bool Lia Lqa SpecFloat List.
From Verif Require Import Linalg LinalgFacts LinalgFacts2 Float FloatFacts FloatValid FloatRound FloatIOFacts FloatArith FloatSum FloatCmp PropFloat PropFloat2 PropFloatIO PropFloatSum PropFloatCmp FloatLoop PropFloatLin.
Local Open Scope nat_scope.

(** * Determinants preserve relations *)
Section Rel.
Context {T1 T2 : Type} {O1 : Ops T1} {O2 : Ops T2}.
(** [R k w a b] for expressions of degree k with w terms. *)
Variable R : nat -> nat -> T1 -> T2 -> Prop.
Variables n N : nat.
Hypothesis Radd : forall k w w' a b a' b', 1 <= k <= n -> w + w' <= N -> 1 <= w -> 1 <= w' -> R k w a b -> R k w' a' b' -> R k (w + w') (oadd a a') (oadd b b').
Hypothesis Rsub : forall k w w' a b a' b', 1 <= k <= n -> w + w' <= N -> 1 <= w -> 1 <= w' -> R k w a b -> R k w' a' b' -> R k (w + w') (osub a a') (osub b b').
Hypothesis Rmul : forall k k' w w' a b a' b', k + k' <= n -> w * w' <= N -> 1 <= k -> 1 <= k' -> 1 <= w -> 1 <= w' -> R k w a b -> R k' w' a' b' -> R (k + k') (w * w') (omul a a') (omul b b').
Variables (f : nat -> nat -> T1) (g : nat -> nat -> T2).
Hypothesis Hfg : forall i j, i < n -> j < n -> R 1 1 (f i j) (g i j).

Lemma r2 a b c d a' b' c' d' : 2 <= n -> 1 <= N -> R 1 1 a a' -> R 1 1 b b' -> R 1 1 c c' -> R 1 1 d d' -> 2 <= N ->
  R 2 2 (osub (omul a b) (omul c d)) (osub (omul a' b') (omul c' d')).
Proof. intros H2 HN Ha Hb Hc Hd HN2. apply (Rsub 2 1 1); try lia; apply (Rmul 1 1 1 1); auto; lia. Qed.
Lemma det2_rel : n = 2 -> 2 <= N -> R 2 2 (det2 f) (det2 g).
Proof. intros E HN. unfold det2. apply r2; try lia; apply Hfg; lia. Qed.
Lemma det3_rel : n = 3 -> 6 <= N -> R 3 6 (det3 f) (det3 g).
Proof.
  intros E HN. assert (T : forall a b c d e a' b' c' d' e', R 1 1 a a' -> R 1 1 b b' -> R 1 1 c c' -> R 1 1 d d' -> R 1 1 e e' ->
    R 3 2 (omul a (osub (omul b c) (omul d e))) (omul a' (osub (omul b' c') (omul d' e')))).
  { intros. apply (Rmul 1 2 1 2); try lia; auto. apply r2; auto; lia. }
  unfold det3. apply (Radd 3 4 2); try lia; [apply (Rsub 3 2 2); try lia|]; apply T; apply Hfg; lia.
Qed.
Lemma add1 k w a b a' b' : 1 <= k <= n -> S w <= N -> 1 <= w -> R k w a b -> R k 1 a' b' -> R k (S w) (oadd a a') (oadd b b').
Proof. intros. replace (S w) with (w + 1) by lia. apply Radd; auto; lia. Qed.
Lemma sub1 k w a b a' b' : 1 <= k <= n -> S w <= N -> 1 <= w -> R k w a b -> R k 1 a' b' -> R k (S w) (osub a a') (osub b b').
Proof. intros. replace (S w) with (w + 1) by lia. apply Rsub; auto; lia. Qed.
Lemma det4_rel : n = 4 -> 24 <= N -> R 4 24 (det4 f) (det4 g).
Proof.
  intros E HN. assert (T : forall w x y z, w < 4 -> x < 4 -> y < 4 -> z < 4 ->
    R 4 1 (omul (omul (omul (f 0 w) (f 1 x)) (f 2 y)) (f 3 z)) (omul (omul (omul (g 0 w) (g 1 x)) (g 2 y)) (g 3 z))).
  { intros w x y z Hw Hx Hy Hz. apply (Rmul 3 1 1 1); try lia; [|apply Hfg; lia]. apply (Rmul 2 1 1 1); try lia; [|apply Hfg; lia]. apply (Rmul 1 1 1 1); try lia; apply Hfg; lia. }
  unfold det4. cbv zeta. do 23 (first [apply add1|apply sub1]; [lia|lia|lia| |apply T; lia]). apply T; lia.
Qed.
(** The formula of order n. *)
Definition detf (g : nat -> nat -> T2) : T2 := match n with 1 => g 0 0 | 2 => det2 g | 3 => det3 g | _ => det4 g end.
End Rel.

Lemma determinant_rel {T1 T2 : Type} {O1 : Ops T1} {O2 : Ops T2} (R : nat -> nat -> T1 -> T2 -> Prop) n A f g : @reads T1 A n n f -> 1 <= n <= 4 ->
  (forall k w w' a b a' b', 1 <= k <= n -> w + w' <= Factorial.fact n -> 1 <= w -> 1 <= w' -> R k w a b -> R k w' a' b' -> R k (w + w') (oadd a a') (oadd b b')) ->
  (forall k w w' a b a' b', 1 <= k <= n -> w + w' <= Factorial.fact n -> 1 <= w -> 1 <= w' -> R k w a b -> R k w' a' b' -> R k (w + w') (osub a a') (osub b b')) ->
  (forall k k' w w' a b a' b', k + k' <= n -> w * w' <= Factorial.fact n -> 1 <= k -> 1 <= k' -> 1 <= w -> 1 <= w' -> R k w a b -> R k' w' a' b' -> R (k + k') (w * w') (omul a a') (omul b b')) ->
  (forall i j, i < n -> j < n -> R 1 1 (f i j) (g i j)) -> exists d, determinant A = Ok d /\ R n (Factorial.fact n) d (@detf T2 O2 n g).
Proof.
  intros HA Hn Ra Rs Rm Hfg. pose proof HA as (Ar & Ac & _ & _ & Ag). unfold determinant, is_square. rewrite Ar, Ac, Nat.eqb_refl. cbn [negb].
  assert (C : n = 1 \/ n = 2 \/ n = 3 \/ n = 4) by lia. destruct C as [->|[->|[->| ->]]]; cbv beta iota zeta delta [Nat.eqb].
  - rewrite Ag by lia. eexists. split; [reflexivity|]. apply Hfg; lia.
  - destruct (@mget_all_ok T1 O1 A 2 f HA) as (h & -> & Hh). cbn [bind]. eexists. split; [reflexivity|]. apply (det2_rel R 2 2); try exact Ra; try exact Rs; try exact Rm; auto. intros i j Hi Hj. rewrite Hh by auto. auto.
  - destruct (@mget_all_ok T1 O1 A 3 f HA) as (h & -> & Hh). cbn [bind]. eexists. split; [reflexivity|]. apply (det3_rel R 3 6); try exact Ra; try exact Rs; try exact Rm; auto. intros i j Hi Hj. rewrite Hh by auto. auto.
  - destruct (@mget_all_ok T1 O1 A 4 f HA) as (h & -> & Hh). cbn [bind]. eexists. split; [reflexivity|]. apply (det4_rel R 4 24); try exact Ra; try exact Rs; try exact Rm; auto. intros i j Hi Hj. rewrite Hh by auto. auto.
Qed.

(** * Rational numbers with a magnitude *)
(** (v, m): a value, and the sum of the sizes of the products it was made from. *)
Definition vm : Ops (Q * Q) := {|
  o0 := (0%Q, 0%Q); o1 := (1%Q, 1%Q); oadd := fun a b => ((fst a + fst b)%Q, (snd a + snd b)%Q); osub := fun a b => ((fst a - fst b)%Q, (snd a + snd b)%Q);
  omul := fun a b => ((fst a * fst b)%Q, (snd a * snd b)%Q); oopp := fun a => ((- fst a)%Q, snd a); odiv := fun _ _ => UB;
  oeq := fun _ _ => false; olt := fun _ _ => false; ole := fun _ _ => false; ofeq := fun _ _ => false; oisz := fun _ => false;
  oabs := fun a => a; ofnat := fun _ => (0%Q, 0%Q) |}.

(** ** Exact multiples *)
Local Open Scope Z_scope.
Definition on_grid (e b : Z) (d : double) (q : Q) : Prop := proper d /\ (dval d == q)%Q /\ exists z, (q == inject_Z z * p2 e)%Q /\ Z.abs z <= b.
Lemma add_facts x y : proper x -> proper y -> is_double (SFadd prec64 emax64 x y) /\ crt prec64 emax64 (dval x + dval y) (SFadd prec64 emax64 x y).
Proof. intros [Vx Fx] [Vy Fy]. destruct fmt2 as [P1 P3]. split; [now apply add_valid|exact (add_crt prec64 emax64 P1 x y Fx Fy)]. Qed.
Lemma grid_round e b d q w : is_double d -> crt prec64 emax64 w d -> (w == q)%Q -> (exists z, (q == inject_Z z * p2 e)%Q /\ Z.abs z <= b) -> -1074 <= e <= 970 -> b <= 2 ^ 53 -> on_grid e b d q.
Proof.
  intros V C W (z & E & B) He Hb. destruct (exact_small w d z e) as [F X]; [now rewrite W|exact He|lia|exact C|].
  split; [split; [exact V|exact F]|]. split; [|exists z; split; auto]. change (sval d) with (dval d) in X. now rewrite X.
Qed.
Lemma grid_add e b b' d d' q q' : on_grid e b d q -> on_grid e b' d' q' -> -1074 <= e <= 970 -> b + b' <= 2 ^ 53 -> on_grid e (b + b') (SFadd prec64 emax64 d d') (q + q')%Q.
Proof.
  intros (P & V & z & E & B) (P' & V' & z' & E' & B') He Hb. destruct (add_facts d d' P P') as [D C]. apply (grid_round e _ _ _ _ D C); auto; [now rewrite V, V'|].
  exists (z + z'). split; [|lia]. rewrite E, E', inject_Z_plus. ring.
Qed.
Lemma grid_sub e b b' d d' q q' : on_grid e b d q -> on_grid e b' d' q' -> -1074 <= e <= 970 -> b + b' <= 2 ^ 53 -> on_grid e (b + b') (SFsub prec64 emax64 d d') (q - q')%Q.
Proof.
  intros (P & V & z & E & B) (P' & V' & z' & E' & B') He Hb. destruct (sub_facts d d' P P') as [D C]. apply (grid_round e _ _ _ _ D C); auto; [now rewrite V, V'|].
  exists (z - z'). split; [|lia]. unfold Z.sub. rewrite E, E', inject_Z_plus, inject_Z_opp. ring.
Qed.
Lemma grid_mul e e' b b' d d' q q' : on_grid e b d q -> on_grid e' b' d' q' -> -1074 <= e + e' <= 970 -> b * b' <= 2 ^ 53 -> on_grid (e + e') (b * b') (SFmul prec64 emax64 d d') (q * q')%Q.
Proof.
  intros (P & V & z & E & B) (P' & V' & z' & E' & B') He Hb. destruct (mul_facts d d' P P') as [D C]. apply (grid_round _ _ _ _ _ D C); auto; [now rewrite V, V'|].
  exists (z * z'). split; [|rewrite Z.abs_mul; apply Z.mul_le_mono_nonneg; lia]. rewrite E, E', inject_Z_mult, q2_add. ring.
Qed.

(** ** Relative errors *)
(** A rounded multiple of 2^e is a multiple of 2^e. *)
Definition grid (e : Z) (q : Q) : Prop := exists z, (q == inject_Z z * p2 e)%Q.
Lemma round_grid e w y : crt prec64 emax64 w y -> is_finite y -> -1074 <= e -> grid e w -> grid e (dval y).
Proof.
  intros C F He [k K]. destruct fmt2 as [P1 P3]. destruct C as [[_ E]|(s & v & Hv & E & H)]; [exists k; change (dval y) with (sval y); now rewrite E|].
  pose proof H as (R & e1 & -> & [R0 R1] & G & N & SZ & LT & TE).
  destruct (pack_sval prec64 emax64 P1 s R e1 R0) as [[_ V]|[V _]]; [|rewrite V in F; contradiction]. change (dval (FloatRound.pack prec64 emax64 s R e1)) with (sval (FloatRound.pack prec64 emax64 s R e1)).
  destruct (Z.le_gt_cases e e1) as [L|L].
  - exists ((if s then -1 else 1) * R * 2 ^ (e1 - e)). rewrite V, !inject_Z_mult, <- q2_Z, (q2_split e1 e) by lia. destruct s; cbn [sgn]; change (inject_Z (-1)) with (-1)%Q; change (inject_Z 1) with 1%Q; ring.
  - assert (A : (Qabs w == v)%Q) by (rewrite E; now apply sgn_val).
    assert (VK : (v == inject_Z (Z.abs k) * p2 e)%Q).
    { rewrite <- A, K, Qabs_Qmult, injZ_abs. rewrite (Qabs_pos (p2 e)); [reflexivity|pose proof (q2_pos e); lra]. }
    set (j := Z.abs k * 2 ^ (e - e1)). assert (X : (v == inject_Z j * p2 e1)%Q).
    { unfold j. rewrite VK, inject_Z_mult, <- q2_Z, (q2_split e e1) by lia. ring. }
    pose proof (q2_pos e1) as Q1.
    assert (XA : (Qabs (v - inject_Z R * p2 e1) == p2 e1 * inject_Z (Z.abs (j - R)))%Q).
    { rewrite <- injZ_abs, <- Qabs_scale by lra. apply Qabs_wd. rewrite X. unfold Z.sub. rewrite inject_Z_plus, inject_Z_opp. ring. }
    rewrite XA in N. assert (KR : (inject_Z (2 * Z.abs (j - R)) <= 1)%Q).
    { apply (Qmult_lt_0_le_reg_r _ _ (p2 e1) Q1). rewrite inject_Z_mult. change (inject_Z 2) with 2%Q. lra. }
    change 1%Q with (inject_Z 1) in KR. rewrite <- Zle_Qle in KR. assert (j = R) as EJ by lia. exists k. rewrite <- K, V, E, X, EJ. ring.
Qed.

From Verif Require Import PropFloatSim.
Definition near (e : Z) (L : nat) (d : double) (v m : Q) : Prop :=
  is_double d /\ (Qabs v <= m)%Q /\ (is_finite d -> grid e (dval d) /\ (Qabs (dval d - v) <= (growth L - 1) * m)%Q).
Lemma growth_plus a b : (growth (a + b) == growth a * growth b)%Q.
Proof. unfold growth. rewrite Nat2Z.inj_add, Qpower_plus; [reflexivity|discriminate]. Qed.
Lemma near_mono e L L' d v m : near e L d v m -> (L <= L')%nat -> near e L' d v m.
Proof.
  intros (D & V & H) HL. split; [exact D|]. split; [exact V|]. intros F. destruct (H F) as [G B]. split; [exact G|]. eapply Qle_trans; [exact B|].
  apply Qmult_le_compat_r; [pose proof (growth_mono L L' HL); lra|]. pose proof (Qabs_nonneg v). lra.
Qed.
Lemma triangle_add a b v v' g M M' : (Qabs (a - v) <= g * M)%Q -> (Qabs (b - v') <= g * M')%Q -> (Qabs ((a + b) - (v + v')) <= g * (M + M'))%Q.
Proof. intros H1 H2. setoid_replace (a + b - (v + v'))%Q with ((a - v) + (b - v'))%Q by ring. eapply Qle_trans; [apply Qabs_triangle|]. lra. Qed.
Lemma triangle_sub a b v v' g M M' : (Qabs (a - v) <= g * M)%Q -> (Qabs (b - v') <= g * M')%Q -> (Qabs ((a - b) - (v - v')) <= g * (M + M'))%Q.
Proof. intros H1 H2. setoid_replace (a - b - (v - v'))%Q with ((a - v) + - (b - v'))%Q by ring. eapply Qle_trans; [apply Qabs_triangle|]. rewrite Qabs_opp. lra. Qed.
(** One more rounding. *)
Lemma round_near r w v m g : (Qabs v <= m)%Q -> (1 <= g)%Q -> (Qabs (w - v) <= (g - 1) * m)%Q -> (Qabs (r - w) <= unit * Qabs w)%Q -> (Qabs (r - v) <= (g * (1 + unit) - 1) * m)%Q.
Proof.
  intros V G W R. assert (U : (0 <= unit)%Q) by discriminate. assert (A : (Qabs w <= g * m)%Q).
  { setoid_replace w with (v + (w - v))%Q by ring. eapply Qle_trans; [apply Qabs_triangle|]. lra. }
  assert (B : (unit * Qabs w <= unit * (g * m))%Q) by (rewrite !(Qmult_comm unit); now apply Qmult_le_compat_r).
  setoid_replace (r - v)%Q with ((r - w) + (w - v))%Q by ring. eapply Qle_trans; [apply Qabs_triangle|]. setoid_replace ((g * (1 + unit) - 1) * m)%Q with (unit * (g * m) + (g - 1) * m)%Q by ring. lra.
Qed.
Lemma close_fin w y : close prec64 emax64 w y -> is_finite y -> (Qabs (dval y - w) <= unit * Qabs w)%Q.
Proof. intros [[_ H]|[[s E] _]] F; [exact H|rewrite E in F; contradiction]. Qed.
Lemma grid_add_q e a b : grid e a -> grid e b -> grid e (a + b) /\ grid e (a - b).
Proof.
  intros [z E] [z' E']. split; [exists (z + z')|exists (z - z')]; unfold Z.sub; rewrite E, E', inject_Z_plus, ?inject_Z_opp; ring.
Qed.
Lemma near_add e L L' d d' v v' m m' : -1074 <= e -> near e L d v m -> near e L' d' v' m' -> near e (S (Nat.max L L')) (SFadd prec64 emax64 d d') (v + v') (m + m').
Proof.
  intros He H H'. apply (near_mono e L (Nat.max L L')) in H; [|lia]. apply (near_mono e L' (Nat.max L L')) in H'; [|lia]. set (K := Nat.max L L') in *. clearbody K.
  destruct H as (D & V & H), H' as (D' & V' & H'). destruct fmt2 as [P1 P3]. split; [now apply add_valid|]. split; [eapply Qle_trans; [apply Qabs_triangle|lra]|].
  intros F. destruct (add_fin prec64 emax64 d d' F) as [Fd Fd']. destruct (H Fd) as [G B], (H' Fd') as [G' B']. split.
  - apply (round_grid e (dval d + dval d')); auto; [apply (add_facts d d' (conj D Fd) (conj D' Fd'))|now apply grid_add_q].
  - rewrite growth_S. apply (round_near _ (dval d + dval d')); [eapply Qle_trans; [apply Qabs_triangle|lra]|apply growth_ge1|now apply triangle_add|].
    apply close_fin; [|exact F]. exact (add_close prec64 emax64 P1 P3 d d' D D' Fd Fd').
Qed.
Lemma near_sub e L L' d d' v v' m m' : -1074 <= e -> near e L d v m -> near e L' d' v' m' -> near e (S (Nat.max L L')) (SFsub prec64 emax64 d d') (v - v') (m + m').
Proof.
  intros He H H'. apply (near_mono e L (Nat.max L L')) in H; [|lia]. apply (near_mono e L' (Nat.max L L')) in H'; [|lia]. set (K := Nat.max L L') in *. clearbody K.
  destruct H as (D & V & H), H' as (D' & V' & H'). destruct fmt2 as [P1 P3]. assert (VS : (Qabs (v - v') <= m + m')%Q) by (unfold Qminus; eapply Qle_trans; [apply Qabs_triangle|rewrite Qabs_opp; lra]).
  split; [now apply sub_valid|]. split; [exact VS|].
  intros F. destruct (sub_fin prec64 emax64 d d' F) as [Fd Fd']. destruct (H Fd) as [G B], (H' Fd') as [G' B']. split.
  - apply (round_grid e (dval d - dval d')); auto; [apply (sub_facts d d' (conj D Fd) (conj D' Fd'))|now apply grid_add_q].
  - rewrite growth_S. apply (round_near _ (dval d - dval d')); [exact VS|apply growth_ge1|now apply triangle_sub|].
    apply close_fin; [|exact F]. exact (sub_close prec64 emax64 P1 P3 d d' D D' Fd Fd').
Qed.
Lemma mul_near a b v v' g g' m m' : (Qabs v <= m)%Q -> (Qabs v' <= m')%Q -> (1 <= g)%Q -> (1 <= g')%Q -> (Qabs (a - v) <= (g - 1) * m)%Q -> (Qabs (b - v') <= (g' - 1) * m')%Q ->
  (Qabs (a * b - v * v') <= (g * g' - 1) * (m * m'))%Q.
Proof.
  intros V V' G G' A B. pose proof (Qabs_nonneg v) as N. pose proof (Qabs_nonneg v') as N'.
  assert (BB : (Qabs b <= g' * m')%Q). { setoid_replace b with (v' + (b - v'))%Q by ring. eapply Qle_trans; [apply Qabs_triangle|]. lra. }
  setoid_replace (a * b - v * v')%Q with ((a - v) * b + v * (b - v'))%Q by ring. eapply Qle_trans; [apply Qabs_triangle|]. rewrite !Qabs_Qmult.
  assert (M1 : (Qabs (a - v) * Qabs b <= ((g - 1) * m) * (g' * m'))%Q) by (apply Qmult_le_compat_nonneg; (split; [apply Qabs_nonneg|assumption])).
  assert (M2 : (Qabs v * Qabs (b - v') <= m * ((g' - 1) * m'))%Q) by (apply Qmult_le_compat_nonneg; (split; [apply Qabs_nonneg|assumption])).
  setoid_replace ((g * g' - 1) * (m * m'))%Q with (((g - 1) * m) * (g' * m') + m * ((g' - 1) * m'))%Q by ring. lra.
Qed.
Lemma near_mul e e' L L' d d' v v' m m' : -1074 <= e + e' -> near e L d v m -> near e' L' d' v' m' -> near (e + e') (S (L + L')) (SFmul prec64 emax64 d d') (v * v') (m * m').
Proof.
  intros He (D & V & H) (D' & V' & H'). destruct fmt2 as [P1 P3].
  assert (VM : (Qabs (v * v') <= m * m')%Q) by (rewrite Qabs_Qmult; apply Qmult_le_compat_nonneg; (split; [apply Qabs_nonneg|assumption])).
  split; [now apply double_ops|]. split; [exact VM|]. intros F. destruct (mul_fin prec64 emax64 d d' F) as [Fd Fd']. destruct (H Fd) as [G B], (H' Fd') as [G' B'].
  destruct (mul_facts d d' (conj D Fd) (conj D' Fd')) as [_ C]. assert (GG : grid (e + e') (dval d * dval d')).
  { destruct G as [z E], G' as [z' E']. exists (z * z'). rewrite E, E', inject_Z_mult, q2_add. ring. }
  split; [now apply (round_grid (e + e') (dval d * dval d'))|]. rewrite growth_S, growth_plus. apply (round_near _ (dval d * dval d')); [exact VM| | |].
  - pose proof (growth_ge1 L). pose proof (growth_ge1 L'). setoid_replace 1%Q with (1 * 1)%Q by reflexivity. apply Qmult_le_compat_nonneg; split; lra.
  - apply mul_near; auto using growth_ge1.
  - destruct GG as [z E]. apply close_fin; [|exact F]. apply (crt_close prec64 emax64 P1 P3 _ _ z (e + e') E); [unfold emin, prec64, emax64; lia|exact C].
Qed.
