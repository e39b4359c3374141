(** FloatSum.v: sums and sums of products of doubles. *)
From Coq Require Import ZArith QArith Qabs Qpower Bool Lia Lqa SpecFloat.
From Verif Require Import Mat Spec Float FloatFacts FloatValid FloatRound FloatArith.
Local Open Scope Z_scope.

(** g 0 + ... + g (n-1). *)
Fixpoint qs (n : nat) (g : nat -> Q) : Q := match n with O => 0%Q | S n => (qs n g + g n)%Q end.
Lemma qs_ext n g h : (forall i, (i < n)%nat -> (g i == h i)%Q) -> (qs n g == qs n h)%Q.
Proof. induction n as [|n IH]; intros H; cbn [qs]; [reflexivity|]. rewrite IH, (H n) by auto. reflexivity. Qed.
Lemma qs_le n g h : (forall i, (i < n)%nat -> (g i <= h i)%Q) -> (qs n g <= qs n h)%Q.
Proof. induction n as [|n IH]; intros H; cbn [qs]; [apply Qle_refl|]. apply Qplus_le_compat; auto. Qed.
Lemma qs_nonneg n g : (forall i, (i < n)%nat -> (0 <= g i)%Q) -> (0 <= qs n g)%Q.
Proof. induction n as [|n IH]; intros H; cbn [qs]; [apply Qle_refl|]. pose proof (H n ltac:(auto)). pose proof (IH ltac:(auto)). lra. Qed.
Lemma qs_abs n g : (Qabs (qs n g) <= qs n (fun i => Qabs (g i)))%Q.
Proof. induction n as [|n IH]; cbn [qs]; [apply Qle_refl|]. eapply Qle_trans; [apply Qabs_triangle|]. lra. Qed.
Lemma qs_lin n g c d : (qs n (fun i => c * g i + d) == c * qs n g + inject_Z (Z.of_nat n) * d)%Q.
Proof. induction n as [|n IH]; cbn [qs]; [change (inject_Z (Z.of_nat 0)) with 0%Q; ring|]. rewrite IH, Nat2Z.inj_succ, <- Z.add_1_r, inject_Z_plus. change (inject_Z 1) with 1%Q. ring. Qed.
Lemma qs_sub n g h : (qs n g - qs n h == qs n (fun i => g i - h i))%Q.
Proof. induction n as [|n IH]; cbn [qs]; [reflexivity|]. rewrite <- IH. ring. Qed.
Lemma qs_term n g i : (forall j, (j < n)%nat -> (0 <= g j)%Q) -> (i < n)%nat -> (g i <= qs n g)%Q.
Proof.
  induction n as [|n IH]; intros H Hi; [lia|]. cbn [qs]. destruct (Nat.eq_dec i n) as [->|N].
  - pose proof (qs_nonneg n g ltac:(auto)). lra.
  - pose proof (IH ltac:(auto) ltac:(lia)). pose proof (H n ltac:(auto)). lra.
Qed.

Notation u53 := (uu prec64).
Notation eta53 := (eta prec64 emax64).
Notation huge53 := (huge prec64 emax64).
Notation isd x := (valid_binary prec64 emax64 x = true).
Lemma fmt_ok : 0 < prec64 /\ 3 - emax64 - prec64 <= 0 /\ 2 <= emax64. Proof. unfold prec64, emax64. lia. Qed.
(** (1 + u)^n *)
Fixpoint gr (n : nat) : Q := match n with O => 1%Q | S n => (gr n * (1 + u53))%Q end.
Lemma gr_ge1 n : (1 <= gr n)%Q.
Proof. induction n as [|n IH]; cbn [gr]; [apply Qle_refl|]. pose proof (uu_pos prec64). assert (0 <= gr n * u53)%Q by (apply Qmult_le_0_compat; lra). lra. Qed.
Lemma gr_pred n : (gr n * (1 + u53) == gr (S n))%Q. Proof. reflexivity. Qed.
Lemma gr_mono n m : (n <= m)%nat -> (gr n <= gr m)%Q.
Proof. induction 1 as [|m _ IH]; [apply Qle_refl|]. eapply Qle_trans; [exact IH|]. cbn [gr]. pose proof (uu_pos prec64). pose proof (gr_ge1 m). assert (0 <= gr m * u53)%Q by (apply Qmult_le_0_compat; lra). lra. Qed.

Section Sum.
Variable tol : double.
Local Instance Of : Ops double := fops tol.
Notation osum := (@osum double Of).

Lemma osum_double n g : (forall i, (i < n)%nat -> isd (g i)) -> isd (osum n g).
Proof.
  induction n as [|n IH]; intros H; [reflexivity|]. apply (add_valid prec64 emax64); [unfold prec64; lia|apply IH; auto|auto].
Qed.
Lemma add_zero_l x : fin x -> fin (SFadd prec64 emax64 (S754_zero false) x) /\ (sval (SFadd prec64 emax64 (S754_zero false) x) == sval x)%Q.
Proof. destruct x as [s|s| |s m e]; intros F; try contradiction; cbn [SFadd]; [destruct (Bool.eqb false s); split; (exact I || reflexivity)|split; [exact I|reflexivity]]. Qed.

Lemma osum_err n g : (forall i, (i < n)%nat -> isd (g i)) -> fin (osum n g) -> (forall i, (i < n)%nat -> fin (g i)) /\
  (Qabs (sval (osum n g) - qs n (fun i => sval (g i))) <= (gr (n - 1) - 1) * qs n (fun i => Qabs (sval (g i))))%Q.
Proof.
  destruct n as [|n]; [intros _ _; split; [lia|]; cbn; discriminate|]. induction n as [|n IH]; intros Hd Hf.
  - assert (F : fin (g 0%nat)) by (apply add_fin in Hf; tauto). split; [intros i Hi; now replace i with 0%nat by lia|].
    destruct (add_zero_l (g 0%nat) F) as [_ E]. change (osum 1 g) with (SFadd prec64 emax64 (S754_zero false) (g 0%nat)). cbn [qs]. rewrite E. cbn [Nat.sub gr].
    assert (X : (sval (g 0%nat) - (0 + sval (g 0%nat)) == 0)%Q) by ring. rewrite X. change (Qabs 0) with 0%Q. lra.
  - change (osum (S (S n)) g) with (SFadd prec64 emax64 (osum (S n) g) (g (S n))) in *. pose proof (add_fin _ _ _ _ Hf) as [F1 F2].
    destruct (IH ltac:(auto) F1) as [FA B]. split; [intros i Hi; destruct (Nat.eq_dec i (S n)) as [->|]; [auto|apply FA; lia]|].
    replace (S (S n) - 1)%nat with (S n) by lia. replace (S n - 1)%nat with n in B by lia.
    change (qs (S (S n)) ?h) with (qs (S n) h + h (S n))%Q. cbn beta.
    set (S0 := qs (S n) (fun i => sval (g i))) in *. set (A0 := qs (S n) (fun i => Qabs (sval (g i)))) in *.
    assert (SA : (Qabs S0 <= A0)%Q) by apply qs_abs. assert (A0p : (0 <= A0)%Q) by (apply qs_nonneg; intros; apply Qabs_nonneg).
    set (s := sval (osum (S n) g)) in *. set (x := sval (g (S n))). cbn [gr]. pose proof (gr_ge1 n) as G1. set (G := gr n) in *. pose proof (uu_pos prec64) as U. set (u := u53) in *.
    destruct fmt_ok as (P1 & P2 & P3).
    destruct (add_close prec64 emax64 P1 P3 (osum (S n) g) (g (S n)) (osum_double (S n) g ltac:(auto)) (Hd (S n) ltac:(auto)) F1 F2) as [[_ C]|[[b I] _]]; [|rewrite I in Hf; contradiction].
    fold s x u in C. set (t := sval (SFadd prec64 emax64 (osum (S n) g) (g (S n)))) in *.
    assert (T1 : (Qabs (t - (S0 + x)) <= Qabs (t - (s + x)) + Qabs (s - S0))%Q).
    { eapply Qle_trans; [|apply Qabs_triangle]. apply Qle_lteq. right. apply Qabs_wd. ring. }
    assert (T2 : (Qabs (s + x) <= Qabs (s - S0) + Qabs S0 + Qabs x)%Q).
    { eapply Qle_trans; [apply Qabs_triangle|]. apply Qplus_le_l. eapply Qle_trans; [|apply Qabs_triangle]. apply Qle_lteq. right. apply Qabs_wd. ring. }
    pose proof (Qabs_nonneg x) as X0. set (ax := Qabs x) in *. set (d := Qabs (s - S0)) in *. set (w := Qabs (s + x)) in *.
    assert (W : (u * w <= u * (G * A0 + ax))%Q).
    { rewrite !(Qmult_comm u). apply Qmult_le_compat_r; [|lra]. lra. }
    assert (Y : (0 <= (G - 1) * u * ax)%Q) by (apply Qmult_le_0_compat; [apply Qmult_le_0_compat; lra|lra]).
    assert (Y2 : (0 <= (G - 1) * ax)%Q) by (apply Qmult_le_0_compat; lra).
    eapply Qle_trans; [exact T1|]. eapply Qle_trans; [apply Qplus_le_compat; [eapply Qle_trans; [exact C|exact W]|exact B]|].
    assert (R : ((G * (1 + u) - 1) * (A0 + ax) == u * (G * A0 + ax) + (G - 1) * A0 + ((G - 1) * u * ax + (G - 1) * ax))%Q) by ring.
    rewrite R. lra.
Qed.
(** No overflow while the sum of the absolute values stays below the largest double. *)
Lemma osum_finite n g : (forall i, (i < n)%nat -> isd (g i)) -> (forall i, (i < n)%nat -> fin (g i)) ->
  (gr (n - 1) * qs n (fun i => Qabs (sval (g i))) < huge53)%Q -> fin (osum n g).
Proof.
  destruct n as [|n]; [intros; exact I|]. induction n as [|n IH]; intros Hd Hf HH.
  - apply add_zero_l. apply Hf. lia.
  - replace (S (S n) - 1)%nat with (S n) in HH by lia. change (qs (S (S n)) ?h) with (qs (S n) h + h (S n))%Q in HH. cbn beta in HH.
    assert (A0p : (0 <= qs (S n) (fun i => Qabs (sval (g i))))%Q) by (apply qs_nonneg; intros; apply Qabs_nonneg).
    pose proof (Qabs_nonneg (sval (g (S n)))) as X0. pose proof (gr_ge1 n) as G1. pose proof (uu_pos prec64) as U. cbn [gr] in HH.
    assert (LE : (gr n * qs (S n) (fun i => Qabs (sval (g i))) + Qabs (sval (g (S n))) <= gr n * (1 + u53) * (qs (S n) (fun i => Qabs (sval (g i))) + Qabs (sval (g (S n)))))%Q).
    { set (A0 := qs (S n) _) in *. set (ax := Qabs (sval (g (S n)))) in *. set (G := gr n) in *. set (u := u53) in *.
      assert (0 <= (G - 1) * ax)%Q by (apply Qmult_le_0_compat; lra). assert (0 <= G * u * (A0 + ax))%Q by (apply Qmult_le_0_compat; [apply Qmult_le_0_compat; lra|lra]).
      assert (R : (G * (1 + u) * (A0 + ax) == G * A0 + ax + ((G - 1) * ax + G * u * (A0 + ax)))%Q) by ring. rewrite R. lra. }
    assert (F1 : fin (osum (S n) g)).
    { apply IH; auto. replace (S n - 1)%nat with n by lia. eapply Qle_lt_trans; [|exact HH]. eapply Qle_trans; [|exact LE]. lra. }
    change (osum (S (S n)) g) with (SFadd prec64 emax64 (osum (S n) g) (g (S n))). destruct fmt_ok as (P1 & P2 & P3).
    destruct (add_close prec64 emax64 P1 P3 (osum (S n) g) (g (S n)) (osum_double (S n) g ltac:(auto)) (Hd (S n) ltac:(auto)) F1 (Hf (S n) ltac:(auto))) as [[F _]|[_ C]]; [exact F|exfalso].
    destruct (osum_err (S n) g ltac:(auto) F1) as [_ B]. replace (S n - 1)%nat with n in B by lia.
    pose proof (qs_abs (S n) (fun i => sval (g i))) as SA. cbn beta in SA. set (S0 := qs (S n) (fun i => sval (g i))) in *. set (s := sval (osum (S n) g)) in *. set (x := sval (g (S n))) in *.
    assert (T2 : (Qabs (s + x) <= Qabs (s - S0) + Qabs S0 + Qabs x)%Q).
    { eapply Qle_trans; [apply Qabs_triangle|]. apply Qplus_le_l. eapply Qle_trans; [|apply Qabs_triangle]. apply Qle_lteq. right. apply Qabs_wd. ring. }
    lra.
Qed.
(** Multiples of one unit are added exactly while they stay below 2^53 units. *)
Lemma unit_small e : e <= 970 -> (inject_Z (2 ^ 53) * p2 e < huge53)%Q.
Proof.
  intros He. apply Qle_lt_trans with (p2 53 * p2 970)%Q.
  - rewrite <- (q2_Z 53) by lia. rewrite !(Qmult_comm (p2 53)). apply Qmult_le_compat_r; [now apply q2_mono|discriminate].
  - reflexivity.
Qed.
Lemma exact_small w y k e : (w == inject_Z k * p2 e)%Q -> -1074 <= e <= 970 -> Z.abs k <= 2 ^ 53 -> crt prec64 emax64 w y -> fin y /\ (sval y == w)%Q.
Proof.
  intros K He Hk C. destruct fmt_ok as (P1 & P2 & P3). destruct (crt_exact prec64 emax64 P1 P3 w y k e K ltac:(unfold emin, prec64, emax64; lia) Hk C) as [H|[_ H]]; [exact H|exfalso].
  pose proof (unit_small e ltac:(lia)) as US. assert (A : (Qabs w <= inject_Z (2 ^ 53) * p2 e)%Q); [|lra].
  rewrite K, Qabs_Qmult, injZ_abs, (Qabs_pos (p2 e)) by (pose proof (q2_pos e); lra). apply Qmult_le_compat_r; [now apply injZ_le|pose proof (q2_pos e); lra].
Qed.
Fixpoint zs (n : nat) (k : nat -> Z) : Z := match n with O => 0 | S n => zs n k + k n end.
Lemma zs_abs n k : Z.abs (zs n k) <= zs n (fun i => Z.abs (k i)).
Proof. induction n as [|n IH]; cbn [zs]; lia. Qed.
Lemma zs_nonneg n k : (forall i, (i < n)%nat -> 0 <= k i) -> 0 <= zs n k.
Proof. induction n as [|n IH]; intros H; cbn [zs]; [lia|]. pose proof (H n ltac:(auto)). pose proof (IH ltac:(auto)). lia. Qed.
Lemma zs_term n k i : (forall j, (j < n)%nat -> 0 <= k j) -> (i < n)%nat -> k i <= zs n k.
Proof.
  induction n as [|n IH]; intros H Hi; [lia|]. cbn [zs]. destruct (Nat.eq_dec i n) as [->|N].
  - pose proof (zs_nonneg n k ltac:(auto)). lia.
  - pose proof (IH ltac:(auto) ltac:(lia)). pose proof (H n ltac:(auto)). lia.
Qed.
Lemma qs_zs n k e : (qs n (fun i => inject_Z (k i) * p2 e) == inject_Z (zs n k) * p2 e)%Q.
Proof. induction n as [|n IH]; cbn [qs zs]; [change (inject_Z 0) with 0%Q; ring|]. rewrite IH, inject_Z_plus. ring. Qed.
Lemma osum_exact n g k e : (forall i, (i < n)%nat -> fin (g i) /\ (sval (g i) == inject_Z (k i) * p2 e)%Q) -> -1074 <= e <= 970 ->
  zs n (fun i => Z.abs (k i)) <= 2 ^ 53 -> fin (osum n g) /\ (sval (osum n g) == inject_Z (zs n k) * p2 e)%Q.
Proof.
  intros H He. induction n as [|n IH]; intros HS.
  - split; [exact I|]. cbn [zs]. change (sval (osum 0 g)) with 0%Q. change (inject_Z 0) with 0%Q. ring.
  - cbn [zs] in HS. destruct IH as [F E]; [auto|lia|]. destruct (H n ltac:(auto)) as [Fn En].
    change (osum (S n) g) with (SFadd prec64 emax64 (osum n g) (g n)).
    assert (EQ : (sval (osum n g) + sval (g n) == inject_Z (zs (S n) k) * p2 e)%Q) by (rewrite E, En; cbn [zs]; rewrite inject_Z_plus; ring).
    destruct fmt_ok as (P1 & P2 & P3). destruct (exact_small _ (SFadd prec64 emax64 (osum n g) (g n)) (zs (S n) k) e EQ He) as [F' E'].
    + cbn [zs]. pose proof (zs_abs n k). lia.
    + now apply add_crt.
    + split; [exact F'|]. now rewrite E'.
Qed.

(** * Sums of products *)
Definition prods (x y : nat -> double) : nat -> double := fun i => SFmul prec64 emax64 (x i) (y i).
Lemma prods_double n x y : (forall i, (i < n)%nat -> isd (x i) /\ isd (y i)) -> forall i, (i < n)%nat -> isd (prods x y i).
Proof. intros H i Hi. destruct (H i Hi). apply mul_valid; auto; unfold prec64, emax64; lia. Qed.
Lemma prod_err x y : isd x -> isd y -> fin (SFmul prec64 emax64 x y) -> fin x /\ fin y /\
  (Qabs (sval (SFmul prec64 emax64 x y) - sval x * sval y) <= u53 * Qabs (sval x * sval y) + eta53)%Q.
Proof.
  intros Hx Hy F. destruct (mul_fin _ _ _ _ F) as [Fx Fy]. split; [exact Fx|]. split; [exact Fy|]. destruct fmt_ok as (P1 & P2 & P3).
  pose proof (eta_pos prec64 emax64) as E0. pose proof (uu_pos prec64) as U0. pose proof (Qabs_nonneg (sval x * sval y)) as A0.
  assert (UA : (0 <= u53 * Qabs (sval x * sval y))%Q) by (apply Qmult_le_0_compat; lra).
  destruct (mul_close prec64 emax64 P1 P3 x y Hx Hy Fx Fy) as [[_ [C|[C _]]]|[[b I] _]]; [lra|lra|rewrite I in F; contradiction].
Qed.
Lemma dot_err n x y : (forall i, (i < n)%nat -> isd (x i) /\ isd (y i)) -> fin (osum n (prods x y)) ->
  (forall i, (i < n)%nat -> fin (x i) /\ fin (y i)) /\
  (Qabs (sval (osum n (prods x y)) - qs n (fun i => sval (x i) * sval (y i))) <=
   (gr n - 1) * qs n (fun i => Qabs (sval (x i) * sval (y i))) + inject_Z (Z.of_nat n) * gr (n - 1) * eta53)%Q.
Proof.
  intros Hd Hf. destruct (osum_err n (prods x y) (prods_double n x y Hd) Hf) as [FA B].
  assert (PE : forall i, (i < n)%nat -> fin (x i) /\ fin (y i) /\ (Qabs (sval (prods x y i) - sval (x i) * sval (y i)) <= u53 * Qabs (sval (x i) * sval (y i)) + eta53)%Q).
  { intros i Hi. destruct (Hd i Hi). apply prod_err; auto. apply FA; auto. }
  split; [intros i Hi; destruct (PE i Hi) as (H1 & H2 & _); auto|].
  destruct n as [|n]; [cbn; discriminate|]. replace (S n - 1)%nat with n in * by lia. cbn [gr].
  set (P := fun i => sval (prods x y i)) in *. set (E := fun i => (sval (x i) * sval (y i))%Q) in *.
  change (qs (S n) (fun i => Qabs (sval (prods x y i)))) with (qs (S n) (fun i => Qabs (P i))) in B.
  change (qs (S n) (fun i => Qabs (sval (x i) * sval (y i)))) with (qs (S n) (fun i => Qabs (E i))).
  change (qs (S n) (fun i => sval (prods x y i))) with (qs (S n) P) in B. change (qs (S n) (fun i => (sval (x i) * sval (y i))%Q)) with (qs (S n) E).
  assert (B1 : (Qabs (qs (S n) P - qs (S n) E) <= u53 * qs (S n) (fun i => Qabs (E i)) + inject_Z (Z.of_nat (S n)) * eta53)%Q).
  { rewrite qs_sub. eapply Qle_trans; [apply qs_abs|]. rewrite <- qs_lin. apply qs_le. intros i Hi. apply PE; auto. }
  assert (B2 : (qs (S n) (fun i => Qabs (P i)) <= (1 + u53) * qs (S n) (fun i => Qabs (E i)) + inject_Z (Z.of_nat (S n)) * eta53)%Q).
  { rewrite <- qs_lin. apply qs_le. intros i Hi. destruct (PE i Hi) as (_ & _ & H). 
    assert (Qabs (P i) <= Qabs (P i - E i) + Qabs (E i))%Q by (eapply Qle_trans; [|apply Qabs_triangle]; apply Qle_lteq; right; apply Qabs_wd; ring).
    unfold P, E in *. lra. }
  set (s := sval (osum (S n) (prods x y))) in *. set (SP := qs (S n) P) in *. set (SE := qs (S n) E) in *.
  set (AP := qs (S n) (fun i => Qabs (P i))) in *. set (AE := qs (S n) (fun i => Qabs (E i))) in *. set (N := inject_Z (Z.of_nat (S n))) in *.
  pose proof (gr_ge1 n) as G1. set (G := gr n) in *. set (u := u53) in *. set (h := eta53) in *.
  assert (T : (Qabs (s - SE) <= Qabs (s - SP) + Qabs (SP - SE))%Q).
  { eapply Qle_trans; [|apply Qabs_triangle]. apply Qle_lteq. right. apply Qabs_wd. ring. }
  assert (M : ((G - 1) * AP <= (G - 1) * ((1 + u) * AE + N * h))%Q).
  { rewrite !(Qmult_comm (G - 1)). apply Qmult_le_compat_r; [exact B2|lra]. }
  assert (R : ((G * (1 + u) - 1) * AE + N * G * h == (G - 1) * ((1 + u) * AE + N * h) + (u * AE + N * h))%Q) by ring.
  rewrite R. lra.
Qed.
Lemma dot_finite n x y : (forall i, (i < n)%nat -> isd (x i) /\ isd (y i)) -> (forall i, (i < n)%nat -> fin (x i) /\ fin (y i)) ->
  (gr n * qs n (fun i => Qabs (sval (x i) * sval (y i))) + inject_Z (Z.of_nat n) * gr (n - 1) * eta53 < huge53)%Q -> fin (osum n (prods x y)).
Proof.
  intros Hd Hf HH. destruct n as [|n]; [exact I|]. replace (S n - 1)%nat with n in HH by lia. cbn [gr] in HH. destruct fmt_ok as (P1 & P2 & P3).
  pose proof (gr_ge1 n) as G1. pose proof (uu_pos prec64) as U0. pose proof (eta_pos prec64 emax64) as E0.
  assert (AN : (0 <= qs (S n) (fun i => Qabs (sval (x i) * sval (y i))))%Q) by (apply qs_nonneg; intros; apply Qabs_nonneg).
  assert (NN : (0 <= inject_Z (Z.of_nat (S n)))%Q) by (apply (injZ_le 0); lia).
  set (N := inject_Z (Z.of_nat (S n))) in *. set (h := eta53) in *. set (u := u53) in *. set (G := gr n) in *.
  assert (NG : (0 <= N * G * h)%Q) by (apply Qmult_le_0_compat; [apply Qmult_le_0_compat|]; lra).
  assert (FP : forall i, (i < S n)%nat -> fin (prods x y i)).
  { intros i Hi. destruct (Hd i Hi) as [D1 D2]. destruct (Hf i Hi) as [F1 F2].
    destruct (mul_close prec64 emax64 P1 P3 (x i) (y i) D1 D2 F1 F2) as [[F _]|[_ C]]; [exact F|exfalso].
    pose proof (qs_term (S n) (fun i => Qabs (sval (x i) * sval (y i))) i ltac:(intros; apply Qabs_nonneg) Hi) as QT. cbn beta in QT.
    set (AE := qs (S n) _) in *. assert (0 <= (G - 1) * AE)%Q by (apply Qmult_le_0_compat; lra).
    assert (0 <= G * u * AE)%Q by (apply Qmult_le_0_compat; [apply Qmult_le_0_compat|]; lra).
    assert (R : (G * (1 + u) * AE == AE + ((G - 1) * AE + G * u * AE))%Q) by ring. rewrite R in HH. lra. }
  apply osum_finite; [now apply prods_double|exact FP|]. replace (S n - 1)%nat with n by lia. fold G. eapply Qle_lt_trans; [|exact HH].
  assert (B2 : (qs (S n) (fun i => Qabs (sval (prods x y i))) <= (1 + u) * qs (S n) (fun i => Qabs (sval (x i) * sval (y i))) + N * h)%Q).
  { unfold N. rewrite <- qs_lin. apply qs_le. intros i Hi. destruct (Hd i Hi) as [D1 D2]. destruct (prod_err (x i) (y i) D1 D2 (FP i Hi)) as (_ & _ & H). fold (prods x y i) u h in H.
    change (SFmul prec64 emax64 (x i) (y i)) with (prods x y i) in H.
    assert (Qabs (sval (prods x y i)) <= Qabs (sval (prods x y i) - sval (x i) * sval (y i)) + Qabs (sval (x i) * sval (y i)))%Q by (eapply Qle_trans; [|apply Qabs_triangle]; apply Qle_lteq; right; apply Qabs_wd; ring).
    lra. }
  eapply Qle_trans; [rewrite Qmult_comm; apply Qmult_le_compat_r; [exact B2|lra]|]. apply Qle_lteq. right. ring.
Qed.
Lemma dot_exact n x y k j a b : (forall i, (i < n)%nat -> isd (x i) /\ isd (y i)) ->
  (forall i, (i < n)%nat -> fin (x i) /\ (sval (x i) == inject_Z (k i) * p2 a)%Q /\ fin (y i) /\ (sval (y i) == inject_Z (j i) * p2 b)%Q) ->
  -1074 <= a + b <= 970 -> zs n (fun i => Z.abs (k i * j i)) <= 2 ^ 53 ->
  fin (osum n (prods x y)) /\ (sval (osum n (prods x y)) == inject_Z (zs n (fun i => (k i * j i)%Z)) * p2 (a + b))%Q.
Proof.
  intros Hd H He HS. apply osum_exact; auto. intros i Hi. destruct (H i Hi) as (F1 & E1 & F2 & E2). destruct (Hd i Hi) as [D1 D2]. destruct fmt_ok as (P1 & P2 & P3).
  assert (EQ : (sval (x i) * sval (y i) == inject_Z (k i * j i)%Z * p2 (a + b))%Q) by (rewrite E1, E2, inject_Z_mult, q2_add; ring).
  destruct (exact_small _ (prods x y i) (k i * j i) (a + b) EQ He) as [F E].
  - pose proof (zs_term n (fun i => Z.abs (k i * j i)) i ltac:(intros; lia) Hi). cbn beta in *. lia.
  - now apply mul_crt.
  - split; [exact F|]. now rewrite E.
Qed.
End Sum.
