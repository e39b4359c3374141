(** FloatLU.v: rounding errors of the LU decomposition of doubles. *)
From Coq Require Import ZArith QArith Qabs Qpower Bool Lia Lqa SpecFloat.
From Verif Require Import LinalgFacts2 Float FloatFacts FloatValid FloatRound FloatArith FloatSum.
Local Open Scope Z_scope.

(** 1 / (1 - u) and its powers. *)
Definition w53 : Q := / (1 - u53).
Fixpoint wr (n : nat) : Q := match n with O => 1%Q | S n => (wr n * w53)%Q end.
Lemma u_small : (0 < u53 /\ u53 < 1)%Q. Proof. split; reflexivity. Qed.
Lemma w_eq : (w53 * (1 - u53) == 1)%Q. Proof. unfold w53. rewrite Qmult_comm. apply Qmult_inv_r. intros H. vm_compute in H. discriminate. Qed.
Lemma w_ge1 : (1 <= w53 /\ u53 <= w53 - 1)%Q. Proof. split; vm_compute; discriminate. Qed.
Lemma wr_ge1 n : (1 <= wr n)%Q.
Proof. induction n as [|n IH]; cbn [wr]; [apply Qle_refl|]. destruct w_ge1 as [W _]. set (w := w53) in *. assert (0 <= (wr n) * (w - 1))%Q by (apply Qmult_le_0_compat; lra). assert (wr n * w == wr n + wr n * (w - 1))%Q by ring. lra. Qed.
Lemma wr_mono n m : (n <= m)%nat -> (wr n <= wr m)%Q.
Proof. induction 1 as [|m _ IH]; [apply Qle_refl|]. eapply Qle_trans; [exact IH|]. cbn [wr]. destruct w_ge1 as [W _]. pose proof (wr_ge1 m). set (w := w53) in *. assert (0 <= (wr m) * (w - 1))%Q by (apply Qmult_le_0_compat; lra). assert (wr m * w == wr m + wr m * (w - 1))%Q by ring. lra. Qed.
Lemma Qtri a b c : (Qabs (a - c) <= Qabs (a - b) + Qabs (b - c))%Q.
Proof. eapply Qle_trans; [|apply Qabs_triangle]. apply Qle_lteq. right. apply Qabs_wd. ring. Qed.
Lemma Qtri2 a b : (Qabs a <= Qabs (a - b) + Qabs b)%Q.
Proof. eapply Qle_trans; [|apply Qabs_triangle]. apply Qle_lteq. right. apply Qabs_wd. ring. Qed.
Lemma Qmle c a b : (0 <= c -> a <= b -> c * a <= c * b)%Q.
Proof. intros. rewrite !(Qmult_comm c). now apply Qmult_le_compat_r. Qed.

(** An error relative to the exact number, as one relative to the computed number. *)
Lemma back1 a b e : (0 <= e -> Qabs (a - b) <= u53 * Qabs b + e -> Qabs (a - b) <= (w53 - 1) * Qabs a + w53 * e)%Q.
Proof.
  intros E0 H. pose proof w_eq as WE. destruct w_ge1 as [W1 W2]. destruct u_small as [U0 U1]. set (u := u53) in *. set (w := w53) in *. clearbody u w.
  pose proof (Qtri2 b a) as T. rewrite (Qabs_Qminus b a) in T.
  assert (B : (Qabs b * (1 - u) <= Qabs a + e)%Q) by lra.
  assert (B2 : (Qabs b <= w * (Qabs a + e))%Q).
  { pose proof (Qmle w _ _ ltac:(lra) B) as M. assert (X : (w * (Qabs b * (1 - u)) == Qabs b * (w * (1 - u)))%Q) by ring. rewrite X, WE in M. lra. }
  pose proof (Qmle u _ _ ltac:(lra) B2) as M.
  assert (X : (u * (w * (Qabs a + e)) == (w - w * (1 - u)) * (Qabs a + e))%Q) by ring. rewrite X, WE in M.
  assert (Y : ((w - 1) * (Qabs a + e) == (w - 1) * Qabs a + w * e - e)%Q) by ring. rewrite Y in M. lra.
Qed.
Lemma up1 a b e : (Qabs (a - b) <= u53 * Qabs b + e -> Qabs (a - b) <= (w53 - 1) * Qabs b + e)%Q.
Proof. intros H. destruct w_ge1 as [_ W]. eapply Qle_trans; [exact H|]. pose proof (Qmult_le_compat_r _ _ (Qabs b) W (Qabs_nonneg b)). lra. Qed.
Lemma subst_err n W x s q r e c : (1 <= W)%Q -> (0 <= e)%Q ->
  (Qabs (x - (s + qs n q)) <= (W - 1) * (Qabs s + qs n (fun k => Qabs (q k))) + c)%Q ->
  (forall k, (k < n)%nat -> (Qabs (q k - r k) <= (w53 - 1) * Qabs (r k) + e)%Q) ->
  (Qabs (x - (s + qs n r)) <= (W * w53 - 1) * (Qabs s + qs n (fun k => Qabs (r k))) + (c + inject_Z (Z.of_nat n) * W * e))%Q.
Proof.
  intros HW He H Hq.
  assert (B1 : (Qabs (qs n q - qs n r) <= (w53 - 1) * qs n (fun k => Qabs (r k)) + inject_Z (Z.of_nat n) * e)%Q).
  { rewrite qs_sub. eapply Qle_trans; [apply qs_abs|]. rewrite <- qs_lin. apply qs_le. auto. }
  assert (B2 : (qs n (fun k => Qabs (q k)) <= w53 * qs n (fun k => Qabs (r k)) + inject_Z (Z.of_nat n) * e)%Q).
  { rewrite <- qs_lin. apply qs_le. intros k Hk. pose proof (Hq k Hk). pose proof (Qtri2 (q k) (r k)). lra. }
  assert (RP : (0 <= qs n (fun k => Qabs (r k)))%Q) by (apply qs_nonneg; intros; apply Qabs_nonneg).
  destruct w_ge1 as [W1 _]. set (w := w53) in *. set (N := inject_Z (Z.of_nat n)) in *. set (AQ := qs n (fun k => Qabs (q k))) in *. set (AR := qs n (fun k => Qabs (r k))) in *.
  set (SQ := qs n q) in *. set (SR := qs n r) in *. pose proof (Qabs_nonneg s) as S0. set (as_ := Qabs s) in *.
  assert (T : (Qabs (x - (s + SR)) <= Qabs (x - (s + SQ)) + Qabs (SQ - SR))%Q).
  { eapply Qle_trans; [|apply Qabs_triangle]. apply Qle_lteq. right. apply Qabs_wd. ring. }
  pose proof (Qmle (W - 1) (as_ + AQ) (as_ + (w * AR + N * e)) ltac:(lra) ltac:(lra)) as M.
  assert (Y : (0 <= W * (w - 1) * as_)%Q) by (apply Qmult_le_0_compat; [apply Qmult_le_0_compat; lra|auto]).
  assert (R : ((W * w - 1) * (as_ + AR) + (c + N * W * e) == (W - 1) * (as_ + (w * AR + N * e)) + c + ((w - 1) * AR + N * e) + W * (w - 1) * as_)%Q) by ring.
  rewrite R. lra.
Qed.
Lemma head_err W x y S A e : (1 <= W)%Q -> (Qabs (x - S) <= (W - 1) * A)%Q -> (Qabs S <= A)%Q -> (Qabs (x - y) <= (w53 - 1) * Qabs x + e)%Q ->
  (Qabs (y - S) <= (W * w53 - 1) * A + e)%Q.
Proof.
  intros HW H HS Hy. destruct w_ge1 as [W1 _]. set (w := w53) in *. pose proof (Qtri y x S) as T. rewrite (Qabs_Qminus y x) in T. pose proof (Qtri2 x S) as T2.
  assert (X : (Qabs x <= W * A)%Q) by lra. pose proof (Qmle (w - 1) _ _ ltac:(lra) X) as M.
  assert (R : ((W * w - 1) * A == (w - 1) * (W * A) + (W - 1) * A)%Q) by ring. rewrite R. lra.
Qed.

Section LU.
Variable tol : double.
#[local] Instance Of : Ops double := fops tol.
Notation osubs := (@osubs double Of).
Lemma osubs_double n a p : isd a -> (forall k, (k < n)%nat -> isd (p k)) -> isd (osubs n a p).
Proof.
  intros Ha. induction n as [|n IH]; intros Hp; [exact Ha|]. apply (sub_valid prec64 emax64); [unfold prec64; lia|apply IH; auto|auto].
Qed.
Lemma osubs_back n a p : isd a -> (forall k, (k < n)%nat -> isd (p k)) -> fin (osubs n a p) ->
  fin a /\ (forall k, (k < n)%nat -> fin (p k)) /\
  (Qabs (sval a - (sval (osubs n a p) + qs n (fun k => sval (p k)))) <= (wr n - 1) * (Qabs (sval (osubs n a p)) + qs n (fun k => Qabs (sval (p k)))))%Q.
Proof.
  intros Ha. induction n as [|n IH]; intros Hp Hf.
  - split; [exact Hf|]. split; [lia|]. cbn [LinalgFacts2.osubs qs wr]. assert (X : (sval a - (sval a + 0) == 0)%Q) by ring. rewrite X. change (Qabs 0) with 0%Q. lra.
  - change (osubs (S n) a p) with (SFsub prec64 emax64 (osubs n a p) (p n)) in *. destruct (sub_fin _ _ _ _ Hf) as [F1 F2]. destruct (IH ltac:(auto) F1) as (Fa & FA & B).
    split; [exact Fa|]. split; [intros k Hk; destruct (Nat.eq_dec k n) as [->|]; [auto|apply FA; lia]|].
    destruct fmt_ok as (P1 & P2 & P3).
    destruct (sub_close prec64 emax64 P1 P3 (osubs n a p) (p n) (osubs_double n a p Ha ltac:(auto)) (Hp n ltac:(auto)) F1 F2) as [[_ C]|[[b I] _]]; [|rewrite I in Hf; contradiction].
    assert (C' : (Qabs (sval (SFsub prec64 emax64 (osubs n a p) (p n)) - (sval (osubs n a p) - sval (p n))) <= (w53 - 1) * Qabs (sval (SFsub prec64 emax64 (osubs n a p) (p n))))%Q).
    { eapply Qle_trans; [apply (back1 _ _ 0); [lra|lra]|]. lra. }
    clear C. cbn [qs wr]. set (s' := sval (SFsub prec64 emax64 (osubs n a p) (p n))) in *. set (s := sval (osubs n a p)) in *. set (x := sval (p n)) in *.
    set (SP := qs n (fun k => sval (p k))) in *. set (AP := qs n (fun k => Qabs (sval (p k)))) in *.
    assert (AP0 : (0 <= AP)%Q) by (apply qs_nonneg; intros; apply Qabs_nonneg). pose proof (Qabs_nonneg x) as X0. pose proof (Qabs_nonneg s') as S0. pose proof (wr_ge1 n) as W1. destruct w_ge1 as [w1 _].
    set (W := wr n) in *. set (w := w53) in *.
    assert (T : (Qabs (sval a - (s' + (SP + x))) <= Qabs (sval a - (s + SP)) + Qabs (s' - (s - x)))%Q).
    { rewrite (Qabs_Qminus s'). eapply Qle_trans; [|apply Qabs_triangle]. apply Qle_lteq. right. apply Qabs_wd. ring. }
    assert (T2 : (Qabs s <= w * Qabs s' + Qabs x)%Q).
    { pose proof (Qtri2 (s - x) s') as H1. rewrite (Qabs_Qminus (s - x) s') in H1. pose proof (Qtri2 s (s - x)) as H2. assert (E : (s - (s - x) == x)%Q) by ring. rewrite E in H2. lra. }
    pose proof (Qmle (W - 1) (Qabs s + AP) (w * Qabs s' + Qabs x + AP) ltac:(lra) ltac:(lra)) as M.
    assert (Y : (0 <= W * (w - 1) * (Qabs x + AP))%Q) by (apply Qmult_le_0_compat; [apply Qmult_le_0_compat; lra|lra]).
    assert (R : ((W * w - 1) * (Qabs s' + (AP + Qabs x)) == (W - 1) * (w * Qabs s' + Qabs x + AP) + (w - 1) * Qabs s' + W * (w - 1) * (Qabs x + AP))%Q) by ring.
    rewrite R. lra.
Qed.
(** A quotient, multiplied by the divisor. *)
Lemma quot_err x d : fin (SFdiv prec64 emax64 x d) -> fin d -> fin x /\ ~ (sval d == 0)%Q /\
  (Qabs (sval d * sval (SFdiv prec64 emax64 x d) - sval x) <= u53 * Qabs (sval x) + Qabs (sval d) * eta53)%Q.
Proof.
  intros F Fd. destruct (div_fin _ _ _ _ F) as (Fx & _ & NZ). assert (D0 : ~ (sval d == 0)%Q).
  { destruct d as [s|s| |s m e]; try contradiction; [exfalso; eapply NZ; reflexivity|]. cbn [sval]. intros H. pose proof (q2_pos e). pose proof (mpos_val m e).
    destruct s; cbn [sgn] in H; lra. }
  split; [exact Fx|]. split; [exact D0|]. destruct fmt_ok as (P1 & P2 & P3). pose proof (eta_pos prec64 emax64) as E0. pose proof (uu_pos prec64) as U0.
  assert (K : (Qabs (sval (SFdiv prec64 emax64 x d) - sval x / sval d) <= u53 * Qabs (sval x / sval d) + eta53)%Q).
  { pose proof (Qabs_nonneg (sval x / sval d)) as A0. assert (UA : (0 <= u53 * Qabs (sval x / sval d))%Q) by (apply Qmult_le_0_compat; lra).
    destruct (div_close prec64 emax64 P1 P3 x d Fx Fd D0) as [[_ [C|[C _]]]|[[b I] _]]; [lra|lra|rewrite I in F; contradiction]. }
  pose proof (Qmle _ _ _ (Qabs_nonneg (sval d)) K) as M.
  assert (E1 : (Qabs (sval d) * Qabs (sval (SFdiv prec64 emax64 x d) - sval x / sval d) == Qabs (sval d * sval (SFdiv prec64 emax64 x d) - sval x))%Q).
  { rewrite <- Qabs_Qmult. apply Qabs_wd. field. exact D0. }
  assert (E2 : (Qabs (sval d) * Qabs (sval x / sval d) == Qabs (sval x))%Q) by (rewrite <- Qabs_Qmult; apply Qabs_wd; field; exact D0).
  rewrite E1 in M. eapply Qle_trans; [exact M|]. apply Qle_lteq. right. rewrite <- E2. ring.
Qed.
Lemma qs_split n p g : (p < n)%nat -> (forall t, (p < t)%nat -> (t < n)%nat -> (g t == 0)%Q) -> (qs n g == g p + qs p g)%Q.
Proof.
  induction n as [|n IH]; intros Hp Hz; [lia|]. cbn [qs]. destruct (Nat.eq_dec p n) as [->|N]; [ring|]. rewrite IH, (Hz n) by (auto; lia). ring.
Qed.
Lemma qs_scale n c g : (c * qs n g == qs n (fun k => c * g k))%Q.
Proof. induction n as [|n IH]; cbn [qs]; [ring|]. rewrite <- IH. ring. Qed.

Variables (n : nat) (f L U : nat -> nat -> double).
Notation qdiv := (SFdiv prec64 emax64).
Hypothesis HL : forall j k, (j < n)%nat -> (k < n)%nat -> L j k = if Nat.ltb j k then S754_zero false else osubs k (f j k) (fun t => SFmul prec64 emax64 (L j t) (U t k)).
Hypothesis HU : forall k j, (k < n)%nat -> (j < n)%nat -> U k j = if Nat.ltb j k then S754_zero false else if Nat.eqb j k then SFone prec64 emax64 else
     osubs k (qdiv (f k j) (L k k)) (fun t => qdiv (SFmul prec64 emax64 (L k t) (U t j)) (L k k)).
Hypothesis Hf : forall i j, (i < n)%nat -> (j < n)%nat -> isd (f i j).

Lemma lu_double k : (k <= n)%nat -> (forall i j, (i < n)%nat -> (j < k)%nat -> isd (L i j)) /\ (forall i j, (i < k)%nat -> (j < n)%nat -> isd (U i j)).
Proof.
  destruct fmt_ok as (P1 & P2 & P3). induction k as [|k IH]; intros Hk; [split; lia|]. destruct (IH ltac:(lia)) as [IL IU].
  assert (NL : forall i, (i < n)%nat -> isd (L i k)).
  { intros i Hi. rewrite HL by lia. destruct (Nat.ltb i k); [reflexivity|]. apply osubs_double; [apply Hf; lia|]. intros t Ht. apply mul_valid; auto; try (apply IL; lia); try (apply IU; lia). }
  assert (NU : forall j, (j < n)%nat -> isd (U k j)).
  { intros j Hj. rewrite HU by lia. destruct (Nat.ltb j k); [reflexivity|]. destruct (Nat.eqb j k); [reflexivity|].
    apply osubs_double; [apply div_valid; auto; try (apply Hf; lia)|]. intros t Ht. apply div_valid; auto; try (apply NL; lia). apply mul_valid; auto; try (apply IL; lia); try (apply IU; lia). }
  split; [intros i j Hi Hj; destruct (Nat.eq_dec j k) as [->|]; [auto|apply IL; lia]|intros i j Hi Hj; destruct (Nat.eq_dec i k) as [->|]; [auto|apply IU; lia]].
Qed.
Lemma lu_isd i j : (i < n)%nat -> (j < n)%nat -> isd (L i j) /\ isd (U i j).
Proof. intros Hi Hj. destruct (lu_double n ltac:(lia)) as [A B]. auto. Qed.

Hypothesis FL : forall i j, (i < n)%nat -> (j < n)%nat -> fin (L i j).
Hypothesis FU : forall i j, (i < n)%nat -> (j < n)%nat -> fin (U i j).
Notation LU i j := (fun t => (sval (L i t) * sval (U t j))%Q).
Lemma mul_w i j t : (i < n)%nat -> (j < n)%nat -> (t < n)%nat -> fin (SFmul prec64 emax64 (L i t) (U t j)) ->
  (Qabs (sval (SFmul prec64 emax64 (L i t) (U t j)) - LU i j t) <= (w53 - 1) * Qabs (LU i j t) + eta53)%Q.
Proof.
  intros Hi Hj Ht F. apply up1. apply prod_err; [apply lu_isd; auto|apply lu_isd; auto|exact F].
Qed.
Lemma nat_le a b : (a <= b)%nat -> (inject_Z (Z.of_nat a) <= inject_Z (Z.of_nat b))%Q.
Proof. intros. apply injZ_le. lia. Qed.
Lemma lu_lower i j : (i < n)%nat -> (j <= i)%nat -> fin (f i j) /\
  (Qabs (sval (f i j) - qs n (LU i j)) <= (wr (S j) - 1) * qs n (fun t => Qabs (LU i j t)) + inject_Z (Z.of_nat j) * wr j * eta53)%Q.
Proof.
  intros Hi Hj. assert (Hjn : (j < n)%nat) by lia. pose proof (HL i j Hi Hjn) as E. destruct (Nat.ltb_spec i j) as [|_]; [lia|].
  destruct (lu_double n (le_n n)) as [DL DU]. destruct fmt_ok as (P1 & P2 & P3).
  assert (DP : forall t, (t < j)%nat -> isd (SFmul prec64 emax64 (L i t) (U t j))) by (intros t Ht; apply mul_valid; auto; try (apply DL; lia); try (apply DU; lia)).
  pose proof (FL i j Hi Hjn) as F. rewrite E in F. destruct (osubs_back j (f i j) _ (Hf i j Hi Hjn) DP F) as (Ff & FP & B). rewrite <- E in B.
  split; [exact Ff|].
  assert (UJ : (sval (U j j) == 1)%Q) by (rewrite (HU j j Hjn Hjn), Nat.ltb_irrefl, Nat.eqb_refl; reflexivity).
  assert (UZ : forall t, (j < t)%nat -> (t < n)%nat -> (sval (U t j) == 0)%Q).
  { intros t H1 H2. rewrite (HU t j H2 Hjn). destruct (Nat.ltb_spec j t); [reflexivity|lia]. }
  rewrite (qs_split n j (LU i j) Hjn) by (intros t H1 H2; rewrite (UZ t H1 H2); ring).
  rewrite (qs_split n j (fun t => Qabs (LU i j t)) Hjn) by (intros t H1 H2; rewrite (UZ t H1 H2), Qmult_0_r; reflexivity).
  rewrite UJ, Qmult_1_r.
  pose proof (subst_err j (wr j) (sval (f i j)) (sval (L i j)) (fun t => sval (SFmul prec64 emax64 (L i t) (U t j))) (LU i j) eta53 0 (wr_ge1 j)) as S.
  cbn [wr]. eapply Qle_trans; [apply S|].
  - pose proof (eta_pos prec64 emax64). lra.
  - rewrite Qplus_0_r. exact B.
  - intros t Ht. apply mul_w; auto; lia.
  - apply Qle_lteq. right. ring.
Qed.
Lemma lu_upper i j : (i < j)%nat -> (j < n)%nat -> fin (f i j) /\ ~ (sval (L i i) == 0)%Q /\
  (Qabs (sval (f i j) - qs n (LU i j)) <= (wr (S (S (S i))) - 1) * qs n (fun t => Qabs (LU i j t)) +
    (w53 * (Qabs (sval (L i i)) * eta53) + inject_Z (Z.of_nat i) * wr (S i) * (Qabs (sval (L i i)) * eta53) + inject_Z (Z.of_nat i) * wr (S (S i)) * eta53))%Q.
Proof.
  intros Hij Hj. assert (Hi : (i < n)%nat) by lia. pose proof (HU i j Hi Hj) as E. destruct (Nat.ltb_spec j i) as [|_]; [lia|]. destruct (Nat.eqb_spec j i) as [|_]; [lia|].
  destruct (lu_double n (le_n n)) as [DL DU]. destruct fmt_ok as (P1 & P2 & P3).
  assert (DM : forall t, (t < i)%nat -> isd (SFmul prec64 emax64 (L i t) (U t j))) by (intros t Ht; apply mul_valid; auto; try (apply DL; lia); try (apply DU; lia)).
  assert (DQ : isd (qdiv (f i j) (L i i))) by (apply div_valid; auto).
  assert (DP : forall t, (t < i)%nat -> isd (qdiv (SFmul prec64 emax64 (L i t) (U t j)) (L i i))) by (intros t Ht; apply div_valid; auto).
  pose proof (FU i j Hi Hj) as F. rewrite E in F. destruct (osubs_back i _ _ DQ DP F) as (Fq & FP & B). rewrite <- E in B.
  destruct (quot_err _ _ Fq (FL i i Hi Hi)) as (Ff & D0 & Q0). split; [exact Ff|]. split; [exact D0|].
  pose proof (eta_pos prec64 emax64) as E0. set (d := sval (L i i)) in *. set (h := (Qabs d * eta53)%Q) in *. assert (H0 : (0 <= h)%Q) by (apply Qmult_le_0_compat; [apply Qabs_nonneg|lra]).
  assert (LZ : forall t, (i < t)%nat -> (t < n)%nat -> (sval (L i t) == 0)%Q).
  { intros t H1 H2. rewrite (HL i t Hi H2). destruct (Nat.ltb_spec i t); [reflexivity|lia]. }
  rewrite (qs_split n i (LU i j) Hi) by (intros t H1 H2; rewrite (LZ t H1 H2); ring).
  rewrite (qs_split n i (fun t => Qabs (LU i j t)) Hi) by (intros t H1 H2; rewrite (LZ t H1 H2), Qmult_0_l; reflexivity).
  fold d. set (P := fun t => SFmul prec64 emax64 (L i t) (U t j)) in *. set (s := sval (U i j)) in *.
  set (dq := fun t => (d * sval (qdiv (P t) (L i i)))%Q).
  assert (PE : forall t, (t < i)%nat -> fin (P t) /\ (Qabs (dq t - sval (P t)) <= u53 * Qabs (sval (P t)) + h)%Q).
  { intros t Ht. destruct (quot_err _ _ (FP t Ht) (FL i i Hi Hi)) as (Fp & _ & Q1). split; [exact Fp|exact Q1]. }
  assert (B1 : (Qabs (d * sval (qdiv (f i j) (L i i)) - (d * s + qs i dq)) <= (wr i - 1) * (Qabs (d * s) + qs i (fun t => Qabs (dq t))))%Q).
  { pose proof (Qmle _ _ _ (Qabs_nonneg d) B) as M. rewrite <- Qabs_Qmult in M.
    assert (E1 : (qs i dq == d * qs i (fun k => sval (qdiv (P k) (L i i))))%Q) by (rewrite qs_scale; apply qs_ext; intros; reflexivity).
    assert (E2 : (qs i (fun t => Qabs (dq t)) == Qabs d * qs i (fun k => Qabs (sval (qdiv (P k) (L i i)))))%Q) by (rewrite qs_scale; apply qs_ext; intros; unfold dq; apply Qabs_Qmult).
    rewrite E1, E2, (Qabs_Qmult d s). eapply Qle_trans; [|eapply Qle_trans; [exact M|]]; apply Qle_lteq; right; [apply Qabs_wd|]; unfold P; ring. }
  pose proof (head_err (wr i) _ (sval (f i j)) _ _ (w53 * h) (wr_ge1 i) B1) as B2.
  assert (B2' : (Qabs (sval (f i j) - (d * s + qs i dq)) <= (wr (S i) - 1) * (Qabs (d * s) + qs i (fun t => Qabs (dq t))) + w53 * h)%Q).
  { apply B2; [eapply Qle_trans; [apply Qabs_triangle|]; apply Qplus_le_r; apply qs_abs|]. apply back1; [exact H0|exact Q0]. }
  pose proof (subst_err i (wr (S i)) _ _ dq (fun t => sval (P t)) h _ (wr_ge1 (S i)) H0 B2' (fun t Ht => up1 _ _ _ (proj2 (PE t Ht)))) as B3.
  pose proof (subst_err i (wr (S (S i))) _ _ (fun t => sval (P t)) (LU i j) eta53 _ (wr_ge1 (S (S i))) ltac:(lra) B3 (fun t Ht => mul_w i j t Hi Hj ltac:(lia) (proj1 (PE t Ht)))) as B4.
  exact B4.
Qed.
Theorem lu_backward i j : (i < n)%nat -> (j < n)%nat -> fin (f i j) /\ ((i < j)%nat -> ~ (sval (L i i) == 0)%Q) /\
  (Qabs (qs n (LU i j) - sval (f i j)) <= (wr (S n) - 1) * qs n (fun t => Qabs (LU i j t)) + inject_Z (Z.of_nat n) * wr n * (1 + Qabs (sval (L i i))) * eta53)%Q.
Proof.
  intros Hi Hj. assert (S0 : (0 <= qs n (fun t => Qabs (LU i j t)))%Q) by (apply qs_nonneg; intros; apply Qabs_nonneg).
  set (S := qs n (fun t => Qabs (LU i j t))) in *. pose proof (Qabs_nonneg (sval (L i i))) as D0. set (d := Qabs (sval (L i i))) in *. pose proof (eta_pos prec64 emax64) as E0. set (h := eta53) in *.
  assert (N0 : forall a, (0 <= inject_Z (Z.of_nat a))%Q) by (intros a; apply (injZ_le 0); lia).
  pose proof (wr_ge1 n) as W1. rewrite Qabs_Qminus. destruct (Nat.le_gt_cases j i) as [C|C].
  - destruct (lu_lower i j Hi C) as [Ff B]. split; [exact Ff|]. split; [lia|]. fold S h in B. eapply Qle_trans; [exact B|]. apply Qplus_le_compat.
    + apply Qmult_le_compat_r; [|exact S0]. pose proof (wr_mono (Datatypes.S j) (Datatypes.S n) ltac:(lia)). lra.
    + pose proof (wr_mono j n ltac:(lia)) as WJ. pose proof (wr_ge1 j). apply Qle_trans with (inject_Z (Z.of_nat n) * wr n * h)%Q.
      * apply Qmult_le_compat_r; [|lra]. apply Qle_trans with (inject_Z (Z.of_nat n) * wr j)%Q; [apply Qmult_le_compat_r; [apply nat_le; lia|lra]|apply Qmle; auto].
      * assert (0 <= inject_Z (Z.of_nat n) * wr n * (d * h))%Q by (apply Qmult_le_0_compat; [apply Qmult_le_0_compat; [auto|lra]|apply Qmult_le_0_compat; lra]).
        assert (X : (inject_Z (Z.of_nat n) * wr n * (1 + d) * h == inject_Z (Z.of_nat n) * wr n * h + inject_Z (Z.of_nat n) * wr n * (d * h))%Q) by ring. rewrite X. lra.
  - destruct (lu_upper i j C Hj) as (Ff & D1 & B). split; [exact Ff|]. split; [auto|]. fold S d h in B. eapply Qle_trans; [exact B|]. apply Qplus_le_compat.
    + apply Qmult_le_compat_r; [|exact S0]. pose proof (wr_mono (Datatypes.S (Datatypes.S (Datatypes.S i))) (Datatypes.S n) ltac:(lia)). lra.
    + pose proof (wr_mono 1 n ltac:(lia)) as WA. pose proof (wr_mono (Datatypes.S i) n ltac:(lia)) as WB. pose proof (wr_mono (Datatypes.S (Datatypes.S i)) n ltac:(lia)) as WC. change (wr 1) with (1 * w53)%Q in WA.
      pose proof (nat_le (Datatypes.S i) n ltac:(lia)) as NI. rewrite Nat2Z.inj_succ, <- Z.add_1_r, inject_Z_plus in NI. change (inject_Z 1) with 1%Q in NI. pose proof (N0 i) as I0.
      set (I := inject_Z (Z.of_nat i)) in *. set (N := inject_Z (Z.of_nat n)) in *. set (W := wr n) in *.
      assert (DH : (0 <= d * h)%Q) by (apply Qmult_le_0_compat; lra).
      assert (X1 : (w53 * (d * h) <= W * (d * h))%Q) by (apply Qmult_le_compat_r; lra).
      assert (X2 : (I * wr (Datatypes.S i) * (d * h) <= I * W * (d * h))%Q) by (apply Qmult_le_compat_r; [apply Qmle; lra|lra]).
      assert (X3 : (I * wr (Datatypes.S (Datatypes.S i)) * h <= I * W * h)%Q) by (apply Qmult_le_compat_r; [apply Qmle; lra|lra]).
      assert (X4 : ((I + 1) * (W * (1 + d) * h) <= N * (W * (1 + d) * h))%Q) by (apply Qmult_le_compat_r; [lra|apply Qmult_le_0_compat; [apply Qmult_le_0_compat; lra|lra]]).
      assert (X5 : (0 <= W * h)%Q) by (apply Qmult_le_0_compat; lra).
      assert (R : (N * W * (1 + d) * h == N * (W * (1 + d) * h))%Q) by ring. rewrite R.
      assert (R2 : ((I + 1) * (W * (1 + d) * h) == W * (d * h) + I * W * (d * h) + I * W * h + W * h)%Q) by ring. rewrite R2 in X4. lra.
Qed.
End LU.
