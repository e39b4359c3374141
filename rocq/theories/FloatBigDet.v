(** FloatBigDet.v: rounding errors of the elimination of linalg::determinant on doubles. *)
From Coq Require Import ZArith QArith Qabs Qpower Bool Lia Lqa SpecFloat.
From Verif Require Import LinalgFacts2 DetPlain Float FloatFacts FloatValid FloatRound FloatArith FloatSum FloatLU PropFloatIO PropFloatCmp FloatLoop.
Local Open Scope nat_scope.

Lemma qs_split2 n m i g : (m <= i)%nat -> (i < n)%nat -> (forall t, (m <= t)%nat -> (t < n)%nat -> t <> i -> (g t == 0)%Q) -> (qs n g == g i + qs m g)%Q.
Proof.
  intros Hm Hi. induction n as [|n IH]; intros Hz; [lia|]. cbn [qs]. destruct (Nat.eq_dec i n) as [->|N].
  - assert (E : forall a, (m <= a)%nat -> (a <= n)%nat -> (qs a g == qs m g)%Q).
    { induction a as [|a IA]; intros H1 H2; [replace m with 0%nat by lia; reflexivity|]. destruct (Nat.eq_dec m (S a)) as [->|]; [reflexivity|]. cbn [qs]. rewrite IA, (Hz a) by lia. ring. }
    rewrite (E n) by lia. ring.
  - rewrite IH, (Hz n) by (auto; lia). ring.
Qed.
Fixpoint qprod (n : nat) (g : nat -> Q) : Q := match n with 0 => 1%Q | S n => (qprod n g * g n)%Q end.
(** What an absolute error of one in each factor can amount to. *)
Fixpoint spill (n : nat) (g : nat -> Q) : Q := match n with 0 => 0%Q | S n => (spill n g * Qabs (g n) * (1 + u53) + 1)%Q end.

Section Big.
Variable tol : double.
#[local] Instance Ob : Ops double := fops tol.
Notation mul := (SFmul prec64 emax64).
Notation qdiv := (SFdiv prec64 emax64).
Notation osubs := (@osubs double (FloatLU.Of tol)).

(** Multiplication by -1 is exact. *)
Notation m1 := (SFopp (SFone prec64 emax64)).
Lemma neg_exact x : isd x -> fin (mul x m1) -> fin x /\ (sval (mul x m1) == - sval x)%Q.
Proof.
  intros V F. destruct (mul_fin _ _ _ _ F) as [Fx _]. split; [exact Fx|]. assert (P : proper m1) by (split; [reflexivity|exact I]). destruct (mul_facts x _ (conj V Fx) P) as [D C].
  assert (E1 : (dval m1 == -1)%Q) by reflexivity. destruct x as [s|s| |s m e]; try contradiction; [destruct s; reflexivity|].
  destruct fmt_ok as (P1 & P2 & P3). apply (crt_exact prec64 emax64 P1 P3 _ _ (if s then Zpos m else Zneg m) e) in C.
  - destruct C as [[_ E]|[[b I] _]]; [rewrite E, E1; change (dval (S754_finite s m e)) with (sval (S754_finite s m e)); ring|rewrite I in F; contradiction].
  - rewrite E1. destruct s; [change (dval (S754_finite true m e)) with (inject_Z (Zneg m) * p2 e)%Q; change (Zneg m) with (- Zpos m)%Z; rewrite inject_Z_opp; ring|]. change (dval (S754_finite false m e)) with (inject_Z (Zpos m) * p2 e)%Q. change (Zneg m) with (- Zpos m)%Z. rewrite inject_Z_opp. ring.
  - pose proof (bounded_exp prec64 emax64 m e V) as BE. unfold SpecFloat.fexp, prec64, emax64, SpecFloat.emin in *. unfold emin. lia.
  - pose proof (bounded_exp prec64 emax64 m e V) as BE. pose proof (digits_bounds m) as [_ M2]. unfold SpecFloat.fexp, prec64, emax64 in *.
    assert (2 ^ Zpos (digits2_pos m) <= 2 ^ 53)%Z by (apply Z.pow_le_mono_r; lia). destruct s; lia.
Qed.

Variables (n k : nat) (f L U : nat -> nat -> double) (p : nat -> nat) (e : nat -> bool).
Hypothesis Hk : k <= n.
Hypothesis HE : @elim double Ob qdiv n f k p e L U.
Hypothesis Hp : forall i, i < n -> p i < n.
Hypothesis Hf : forall i j, i < n -> j < n -> isd (f i j).

Lemma big_upper i j : i < n -> j < n -> Nat.min i k <= j -> U i j = osubs (Nat.min i k) (f (p i) j) (fun t => mul (L i t) (U t j)).
Proof. apply HE. Qed.
Lemma big_lower i t : i < n -> t < k -> t < i -> L i t = qdiv (osubs t (f (p i) t) (fun s => mul (L i s) (U s t))) (U t t).
Proof. apply HE. Qed.
Lemma big_isd_upto c : c <= n -> (forall i t, i < n -> t < c -> t < i -> t < k -> isd (L i t)) /\ (forall i j, i < c -> j < n -> Nat.min i k <= j -> isd (U i j)).
Proof.
  destruct fmt_ok as (P1 & P2 & P3). induction c as [|c IH]; intros Hc; [split; lia|]. destruct (IH ltac:(lia)) as [IL IU].
  assert (NU : forall j, j < n -> Nat.min c k <= j -> isd (U c j)).
  { intros j Hj Hm. rewrite big_upper by (auto; lia). apply osubs_double; [apply Hf; auto; apply Hp; lia|]. intros t Ht. apply mul_valid; auto; [apply IL; lia|apply IU; lia]. }
  split.
  - intros i t Hi Ht Hti Htk. destruct (Nat.eq_dec t c) as [->|]; [|apply IL; lia]. rewrite big_lower by auto. apply div_valid; auto; [|apply NU; lia].
    apply osubs_double; [apply Hf; [now apply Hp|lia]|]. intros s Hs. apply mul_valid; auto; [apply IL; lia|apply IU; lia].
  - intros i j Hi Hj Hm. destruct (Nat.eq_dec i c) as [->|]; [now apply NU|apply IU; lia].
Qed.
Lemma big_L i t : i < n -> t < i -> t < k -> isd (L i t). Proof. intros. apply (proj1 (big_isd_upto n (le_n n))); lia. Qed.
Lemma big_U i j : i < n -> j < n -> Nat.min i k <= j -> isd (U i j). Proof. intros. apply (proj2 (big_isd_upto n (le_n n))); lia. Qed.
Lemma big_P i t j : i < n -> j < n -> t < Nat.min i k -> Nat.min t k <= j -> isd (mul (L i t) (U t j)).
Proof. destruct fmt_ok as (P1 & P2 & P3). intros. apply mul_valid; auto; [apply big_L; lia|apply big_U; lia]. Qed.

(** The pivots of a finite result are finite. *)
Notation dprod := (@dprod double Ob).
Lemma dprod_S c : dprod e U (S c) = mul (if e c then mul (dprod e U c) m1 else dprod e U c) (U c c). Proof. reflexivity. Qed.
Lemma dprod_isd c : c <= k -> c <= n -> isd (dprod e U c).
Proof.
  destruct fmt_ok as (P1 & P2 & P3). induction c as [|c IH]; intros H1 H2; [reflexivity|]. rewrite dprod_S. apply mul_valid; auto; [|apply big_U; lia].
  assert (D := IH ltac:(lia) ltac:(lia)). destruct (e c); [apply mul_valid; auto; reflexivity|exact D].
Qed.
Lemma dprod_fin c : c <= k -> fin (dprod e U c) -> forall t, t < c -> fin (U t t).
Proof.
  induction c as [|c IH]; intros H F t Ht; [lia|]. rewrite dprod_S in F. destruct (mul_fin _ _ _ _ F) as [F1 F2]. destruct (Nat.eq_dec t c) as [->|]; [exact F2|]. apply IH; try lia.
  destruct (e c); [exact (proj1 (mul_fin _ _ _ _ F1))|exact F1].
Qed.
Definition fsign (c : nat) : Q := if flips e c then (-1)%Q else 1%Q.
Lemma dprod_err c : c <= k -> fin (dprod e U c) ->
  (Qabs (sval (dprod e U c) - fsign c * qprod c (fun t => sval (U t t))) <= (gr c - 1) * Qabs (qprod c (fun t => sval (U t t))) + eta53 * spill c (fun t => sval (U t t)))%Q.
Proof.
  destruct fmt_ok as (P1 & P2 & P3). induction c as [|c IH]; intros H F; [vm_compute; discriminate|]. rewrite dprod_S in *.
  set (x := if e c then mul (dprod e U c) m1 else dprod e U c) in *. set (g := fun t => sval (U t t)) in *. cbn [qprod spill gr].
  assert (D := dprod_isd c ltac:(lia) ltac:(lia)). assert (DU := big_U c c ltac:(lia) ltac:(lia) ltac:(lia)).
  assert (Dx : isd x) by (unfold x; destruct (e c); [apply mul_valid; auto; reflexivity|exact D]).
  destruct (prod_err x (U c c) Dx DU F) as (Fx & FU & B). fold (g c) in B.
  assert (X : fin (dprod e U c) /\ (Qabs (sval x - fsign (S c) * qprod c g) == Qabs (sval (dprod e U c) - fsign c * qprod c g))%Q).
  { unfold fsign. cbn [flips]. unfold x in *. destruct (e c).
    - destruct (neg_exact _ D Fx) as [F1 E]. split; [exact F1|]. rewrite E. destruct (flips e c); cbn [xorb]; rewrite <- Qabs_opp; apply Qabs_wd; ring.
    - split; [exact Fx|]. destruct (flips e c); reflexivity. }
  destruct X as [FD X]. specialize (IH ltac:(lia) FD). rewrite <- X in IH. clear X. set (s := fsign (S c)) in *. assert (S1 : (Qabs s == 1)%Q) by (unfold s, fsign; destruct (flips e (S c)); reflexivity).
  set (y := sval x) in *. set (Pc := qprod c g) in *. set (z := sval (mul x (U c c))) in *. pose proof (uu_pos prec64) as U0. fold u53 in U0. pose proof (gr_ge1 c) as G1. pose proof (Qabs_nonneg (g c)) as A0.
  set (a := Qabs (g c)) in *. set (G := gr c) in *. set (S0 := spill c g) in *.
  assert (Y : (Qabs y <= G * Qabs Pc + eta53 * S0)%Q).
  { pose proof (Qtri2 y (s * Pc)) as T. rewrite (Qabs_Qmult s Pc), S1 in T. lra. }
  assert (M1 : (Qabs (y * g c - s * (Pc * g c)) <= ((G - 1) * Qabs Pc + eta53 * S0) * a)%Q).
  { assert (E : (y * g c - s * (Pc * g c) == (y - s * Pc) * g c)%Q) by ring. rewrite E, Qabs_Qmult. apply Qmult_le_compat_r; [exact IH|exact A0]. }
  assert (M2 : (u53 * Qabs (y * g c) <= u53 * ((G * Qabs Pc + eta53 * S0) * a))%Q).
  { apply Qmle; [lra|]. rewrite Qabs_Qmult. apply Qmult_le_compat_r; [exact Y|exact A0]. }
  pose proof (Qtri z (y * g c) (s * (Pc * g c))) as T. rewrite (Qabs_Qmult Pc (g c)). fold a.
  assert (R : ((G * (1 + u53) - 1) * (Qabs Pc * a) + eta53 * (S0 * a * (1 + u53) + 1) == ((G - 1) * Qabs Pc + eta53 * S0) * a + u53 * ((G * Qabs Pc + eta53 * S0) * a) + eta53)%Q) by ring.
  rewrite R. lra.
Qed.

Hypothesis Fd : fin (dprod e U k).
Hypothesis FS : k < n -> forall i, k <= i -> i < n -> fin (U i k).
(** All elements in the first columns are finite. *)
Lemma row_fin i j : i < n -> j < n -> Nat.min i k <= j -> fin (U i j) -> fin (f (p i) j) /\ forall t, t < Nat.min i k -> fin (L i t) /\ fin (U t j) /\ fin (mul (L i t) (U t j)).
Proof.
  intros Hi Hj Hm F. rewrite big_upper in F by auto. destruct (osubs_back tol _ _ _ (Hf (p i) j (Hp i Hi) Hj) (fun t Ht => big_P i t j Hi Hj Ht ltac:(lia)) F) as (Ff & FP & _).
  split; [exact Ff|]. intros t Ht. pose proof (FP t Ht) as P. destruct (mul_fin _ _ _ _ P). auto.
Qed.
Lemma fin_L i t : i < n -> t < i -> t < k -> fin (L i t).
Proof.
  intros Hi Hti Htk. destruct (Nat.lt_ge_cases i k) as [C|C].
  - destruct (row_fin i i Hi Hi ltac:(lia) (dprod_fin k (le_n k) Fd i C)) as [_ R]. apply R. lia.
  - destruct (row_fin i k Hi ltac:(lia) ltac:(lia) (FS ltac:(lia) i C Hi)) as [_ R]. apply R. lia.
Qed.
Lemma fin_U i j : i < n -> j < n -> j <= k -> Nat.min i k <= j -> fin (U i j).
Proof.
  intros Hi Hj Hjk Hm. destruct (Nat.eq_dec j k) as [->|N].
  - destruct (Nat.lt_ge_cases i k) as [C|C]; [|apply FS; auto]. destruct (row_fin k k Hj Hj ltac:(lia) (FS ltac:(lia) k (le_n k) Hj)) as [_ R]. apply R. lia.
  - destruct (Nat.eq_dec i j) as [->|N2]; [apply (dprod_fin k (le_n k) Fd); lia|].
    destruct (row_fin j j Hj Hj ltac:(lia) (dprod_fin k (le_n k) Fd j ltac:(lia))) as [_ R]. apply R. lia.
Qed.

(** The factors: L has ones on the diagonal, U is zero below the diagonal in the columns done. *)
Definition facL (i t : nat) : double := if t <? Nat.min i k then L i t else if t =? i then SFone prec64 emax64 else S754_zero false.
Definition facU (t j : nat) : double := if j <? Nat.min t k then S754_zero false else U t j.
Notation LU i j := (fun t => (sval (facL i t) * sval (facU t j))%Q).
Lemma mul_w' i j t : i < n -> j < n -> t < Nat.min i k -> t <= j -> fin (mul (L i t) (U t j)) ->
  (Qabs (sval (mul (L i t) (U t j)) - LU i j t) <= (w53 - 1) * Qabs (LU i j t) + eta53)%Q.
Proof.
  intros Hi Hj Ht Htj F. unfold facL, facU. destruct (Nat.ltb_spec t (Nat.min i k)); [|lia]. destruct (Nat.ltb_spec j (Nat.min t k)); [lia|].
  apply up1. apply prod_err; [apply big_L; lia|apply big_U; lia|exact F].
Qed.
Lemma nat_le' a b : (a <= b)%nat -> (inject_Z (Z.of_nat a) <= inject_Z (Z.of_nat b))%Q.
Proof. intros. apply injZ_le. lia. Qed.
Lemma big_upper_err i j : i < n -> j < n -> j <= k -> Nat.min i k <= j -> fin (f (p i) j) /\
  (Qabs (sval (f (p i) j) - qs n (LU i j)) <= (wr (S (Nat.min i k)) - 1) * qs n (fun t => Qabs (LU i j t)) + inject_Z (Z.of_nat (Nat.min i k)) * wr (Nat.min i k) * eta53)%Q.
Proof.
  intros Hi Hj Hjk Hm. pose proof (big_upper i j Hi Hj Hm) as E. pose proof (fin_U i j Hi Hj Hjk Hm) as F. destruct (row_fin i j Hi Hj Hm F) as [Ff RF]. split; [exact Ff|].
  assert (F' := F). rewrite E in F'. destruct (osubs_back tol _ _ _ (Hf (p i) j (Hp i Hi) Hj) (fun t Ht => big_P i t j Hi Hj Ht ltac:(lia)) F') as (_ & _ & B). rewrite <- E in B.
  set (m := Nat.min i k) in *.
  assert (ZL : forall t, m <= t -> t < n -> t <> i -> (sval (facL i t) == 0)%Q).
  { intros t H1 H2 H3. unfold facL. destruct (Nat.ltb_spec t (Nat.min i k)); [unfold m in *; lia|]. destruct (Nat.eqb_spec t i); [lia|reflexivity]. }
  assert (II : (LU i j i == sval (U i j))%Q).
  { unfold facL, facU. destruct (Nat.ltb_spec i (Nat.min i k)); [lia|]. rewrite Nat.eqb_refl. destruct (Nat.ltb_spec j (Nat.min i k)); [unfold m in *; lia|]. change (sval (SFone prec64 emax64)) with (inject_Z (2 ^ 52) * p2 (-52))%Q. 
    assert (X : (inject_Z (2 ^ 52) * p2 (-52) == 1)%Q) by reflexivity. rewrite X. ring. }
  assert (Hmi : m <= i) by (unfold m; lia).
  rewrite (qs_split2 n m i (LU i j) Hmi Hi) by (intros t H1 H2 H3; cbv beta; rewrite (ZL t H1 H2 H3); ring).
  rewrite (qs_split2 n m i (fun t => Qabs (LU i j t)) Hmi Hi) by (intros t H1 H2 H3; cbv beta; rewrite (ZL t H1 H2 H3), Qmult_0_l; reflexivity).
  cbv beta in II |- *. rewrite II.
  pose proof (subst_err m (wr m) (sval (f (p i) j)) (sval (U i j)) (fun t => sval (mul (L i t) (U t j))) (LU i j) eta53 0 (wr_ge1 m)) as S.
  cbn [wr]. eapply Qle_trans; [apply S|].
  - pose proof (eta_pos prec64 emax64). lra.
  - rewrite Qplus_0_r. exact B.
  - intros t Ht. apply mul_w'; auto; [unfold m in *; lia|]. apply RF. exact Ht.
  - apply Qle_lteq. right. ring.
Qed.
Lemma big_lower_err i j : i < n -> j < i -> j < k -> fin (f (p i) j) /\
  (Qabs (sval (f (p i) j) - qs n (LU i j)) <= (wr (S j) - 1) * qs n (fun t => Qabs (LU i j t)) + inject_Z (Z.of_nat (S j)) * wr j * (eta53 + w53 * (Qabs (sval (U j j)) * eta53)))%Q.
Proof.
  intros Hi Hji Hjk. assert (Hj : j < n) by lia. pose proof (big_lower i j Hi Hjk Hji) as E. pose proof (fin_L i j Hi Hji Hjk) as F. rewrite E in F.
  pose proof (fin_U j j Hj Hj ltac:(lia) ltac:(lia)) as FU.
  set (x := osubs j (f (p i) j) (fun s => mul (L i s) (U s j))) in *. destruct (quot_err x (U j j) F FU) as (Fx & D0 & Q0). rewrite <- E in Q0.
  assert (DP : forall t, t < j -> isd (mul (L i t) (U t j))) by (intros t Ht; apply big_P; lia).
  destruct (osubs_back tol j _ _ (Hf (p i) j (Hp i Hi) Hj) DP Fx) as (Ff & FP & B). fold x in B. split; [exact Ff|].
  pose proof (eta_pos prec64 emax64) as E0. fold eta53 in E0. assert (H0 : (0 <= Qabs (sval (U j j)) * eta53)%Q) by (apply Qmult_le_0_compat; [apply Qabs_nonneg|lra]).
  destruct w_ge1 as [W1 _]. assert (H1 : (0 <= w53 * (Qabs (sval (U j j)) * eta53))%Q) by (apply Qmult_le_0_compat; lra).
  set (h := (w53 * (Qabs (sval (U j j)) * eta53))%Q) in *.
  assert (UZ : forall t, j < t -> t < n -> (sval (facU t j) == 0)%Q).
  { intros t H2 H3. unfold facU. destruct (Nat.ltb_spec j (Nat.min t k)); [reflexivity|lia]. }
  assert (GJ : (LU i j j == sval (U j j) * sval (L i j))%Q).
  { unfold facL, facU. destruct (Nat.ltb_spec j (Nat.min i k)); [|lia]. destruct (Nat.ltb_spec j (Nat.min j k)); [lia|]. ring. }
  rewrite (qs_split n j (LU i j) Hj) by (intros t H2 H3; cbv beta; rewrite (UZ t H2 H3); ring).
  rewrite (qs_split n j (fun t => Qabs (LU i j t)) Hj) by (intros t H2 H3; cbv beta; rewrite (UZ t H2 H3), Qmult_0_r; reflexivity).
  set (q' := fun t => if t =? j then sval x else sval (mul (L i t) (U t j))).
  assert (X1 : (qs (S j) q' == sval x + qs j (fun t => sval (mul (L i t) (U t j))))%Q).
  { cbn [qs]. unfold q' at 2. rewrite Nat.eqb_refl. rewrite (qs_ext j q' (fun t => sval (mul (L i t) (U t j)))); [ring|]. intros t Ht. unfold q'. destruct (Nat.eqb_spec t j); [lia|reflexivity]. }
  assert (X2 : (qs (S j) (fun t => Qabs (q' t)) == Qabs (sval x) + qs j (fun t => Qabs (sval (mul (L i t) (U t j)))))%Q).
  { cbn [qs]. unfold q' at 2. rewrite Nat.eqb_refl. rewrite (qs_ext j (fun t => Qabs (q' t)) (fun t => Qabs (sval (mul (L i t) (U t j))))); [ring|]. intros t Ht. unfold q'. destruct (Nat.eqb_spec t j); [lia|reflexivity]. }
  pose proof (subst_err (S j) (wr j) (sval (f (p i) j)) 0 q' (LU i j) (eta53 + h) 0 (wr_ge1 j) ltac:(lra)) as S0.
  assert (K1 : (Qabs (sval (f (p i) j) - (0 + qs (S j) q')) <= (wr j - 1) * (Qabs 0 + qs (S j) (fun t => Qabs (q' t))) + 0)%Q).
  { rewrite X1, X2. change (Qabs 0) with 0%Q. rewrite !Qplus_0_l, Qplus_0_r. exact B. }
  assert (K2 : forall t, (t < S j)%nat -> (Qabs (q' t - LU i j t) <= (w53 - 1) * Qabs (LU i j t) + (eta53 + h))%Q).
  { intros t Ht. unfold q'. destruct (Nat.eqb_spec t j) as [->|N].
    - cbv beta in GJ |- *. rewrite GJ. rewrite Qabs_Qminus. pose proof (back1 _ _ _ H0 Q0) as B1. fold h in B1. lra.
    - pose proof (mul_w' i j t Hi Hj ltac:(lia) ltac:(lia) (FP t ltac:(lia))) as M. cbv beta in M |- *. lra. }
  specialize (S0 K1 K2). cbn [wr qs] in S0 |- *. change (Qabs 0) with 0%Q in S0. rewrite !Qplus_0_l in S0.
  rewrite (Qplus_comm (LU i j j)), (Qplus_comm (Qabs (LU i j j))). exact S0.
Qed.
Theorem big_backward i j : i < n -> j < n -> j <= k -> fin (f (p i) j) /\
  (Qabs (qs n (LU i j) - sval (f (p i) j)) <= (wr n - 1) * qs n (fun t => Qabs (LU i j t)) + inject_Z (Z.of_nat n) * wr n * (1 + Qabs (sval (facU j j))) * eta53)%Q.
Proof.
  intros Hi Hj Hjk. assert (S0 : (0 <= qs n (fun t => Qabs (LU i j t)))%Q) by (apply qs_nonneg; intros; apply Qabs_nonneg).
  set (S := qs n (fun t => Qabs (LU i j t))) in *. pose proof (Qabs_nonneg (sval (facU j j))) as D0. set (d := Qabs (sval (facU j j))) in *. pose proof (eta_pos prec64 emax64) as E0. fold eta53 in E0. set (h := eta53) in *.
  assert (N0 : forall a, (0 <= inject_Z (Z.of_nat a))%Q) by (intros a; apply (injZ_le 0); lia).
  pose proof (wr_ge1 n) as W1. rewrite Qabs_Qminus. destruct (Nat.le_gt_cases (Nat.min i k) j) as [C|C].
  - destruct (big_upper_err i j Hi Hj Hjk C) as [Ff B]. split; [exact Ff|]. fold S h in B. set (m := Nat.min i k) in *. assert (Hmn : m < n) by (unfold m; lia). eapply Qle_trans; [exact B|]. apply Qplus_le_compat.
    + apply Qmult_le_compat_r; [|exact S0]. pose proof (wr_mono (Datatypes.S m) n ltac:(lia)). lra.
    + pose proof (wr_mono m n ltac:(lia)) as WJ. pose proof (wr_ge1 m). apply Qle_trans with (inject_Z (Z.of_nat n) * wr n * h)%Q.
      * apply Qmult_le_compat_r; [|lra]. apply Qle_trans with (inject_Z (Z.of_nat n) * wr m)%Q; [apply Qmult_le_compat_r; [apply nat_le'; lia|lra]|apply Qmle; auto].
      * assert (0 <= inject_Z (Z.of_nat n) * wr n * (d * h))%Q by (apply Qmult_le_0_compat; [apply Qmult_le_0_compat; [auto|lra]|apply Qmult_le_0_compat; lra]).
        assert (X : (inject_Z (Z.of_nat n) * wr n * (1 + d) * h == inject_Z (Z.of_nat n) * wr n * h + inject_Z (Z.of_nat n) * wr n * (d * h))%Q) by ring. rewrite X. lra.
  - destruct (big_lower_err i j Hi ltac:(lia) ltac:(lia)) as [Ff B]. split; [exact Ff|].
    assert (DE : d = Qabs (sval (U j j))) by (unfold d, facU; destruct (Nat.ltb_spec j (Nat.min j k)); [lia|reflexivity]). rewrite <- DE in B. fold S h in B. eapply Qle_trans; [exact B|]. apply Qplus_le_compat.
    + apply Qmult_le_compat_r; [|exact S0]. pose proof (wr_mono (Datatypes.S j) n ltac:(lia)). lra.
    + pose proof (wr_mono (Datatypes.S j) n ltac:(lia)) as WC. cbn [wr] in WC. destruct w_ge1 as [w1 _]. pose proof (wr_ge1 j) as WJ. pose proof (nat_le' (Datatypes.S j) n ltac:(lia)) as NI. pose proof (N0 (Datatypes.S j)) as I0.
      set (I := inject_Z (Z.of_nat (Datatypes.S j))) in *. set (N := inject_Z (Z.of_nat n)) in *. set (W := wr n) in *. set (V := wr j) in *. set (w := w53) in *.
      assert (DH : (0 <= d * h)%Q) by (apply Qmult_le_0_compat; lra).
      assert (X1 : (h + w * (d * h) <= w * ((1 + d) * h))%Q).
      { assert (0 <= (w - 1) * h)%Q by (apply Qmult_le_0_compat; lra). assert (X : (w * ((1 + d) * h) == h + w * (d * h) + (w - 1) * h)%Q) by ring. rewrite X. lra. }
      assert (IV : (0 <= I * V)%Q) by (apply Qmult_le_0_compat; lra). pose proof (Qmle _ _ _ IV X1) as X2.
      assert (P1 : (0 <= (1 + d) * h)%Q) by (apply Qmult_le_0_compat; lra).
      assert (X3 : (I * V * (w * ((1 + d) * h)) <= N * (W * ((1 + d) * h)))%Q).
      { apply Qle_trans with (I * (W * ((1 + d) * h)))%Q.
        - assert (R : (I * V * (w * ((1 + d) * h)) == I * ((V * w) * ((1 + d) * h)))%Q) by ring. rewrite R. apply Qmle; [exact I0|]. apply Qmult_le_compat_r; [exact WC|exact P1].
        - apply Qmult_le_compat_r; [exact NI|]. apply Qmult_le_0_compat; [lra|exact P1]. }
      assert (R : (N * W * (1 + d) * h == N * (W * ((1 + d) * h)))%Q) by ring. rewrite R. lra.
Qed.
End Big.
