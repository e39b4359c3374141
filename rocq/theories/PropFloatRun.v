(** PropFloatRun.v: C113, long runs of a discrete system on doubles: a box that the states never
    leave, and an error that never exceeds a fixed bound however long the run is. *)
From Coq Require Import ZArith QArith Qabs Qpower Qround Bool Lia Lqa SpecFloat List.
From Verif Require Import LinalgFacts2 PropUtil PropMath Control ControlSpec ControlFacts Float FloatFacts FloatValid FloatRound FloatIOFacts FloatArith FloatSum FloatCmp FloatMono PropFloat PropFloat2 PropFloatIO PropFloatSum PropFloatCmp FloatLoop PropFloatLin PropFloatSim.
Import ListNotations.
Local Open Scope nat_scope.

(** * Specification *)
(** The run of x(k+1) = A x(k) + B u(k) in exact arithmetic, and its outputs C x(k) + D u(k). *)
Section Exact.
Variables (n m : nat) (A B : nat -> nat -> double) (u : nat -> nat -> double) (x0 : nat -> double).
Fixpoint exact_state (k : nat) : nat -> Q :=
  match k with
  | 0 => fun i => dval (x0 i)
  | S k => fun i => (qsum n (fun j => dval (A i j) * exact_state k j) + qsum m (fun j => dval (B i j) * dval (u k j)))%Q
  end.
Definition exact_output (C D : nat -> nat -> double) (k : nat) (i : nat) : Q :=
  (qsum n (fun j => dval (C i j) * exact_state k j) + qsum m (fun j => dval (D i j) * dval (u k j)))%Q.
End Exact.
(** How large a row of A x + B u can be for states up to w and inputs up to U, what the rounding of
    its sums adds in proportion, and what underflow adds. *)
Definition load (n m : nat) (a b : nat -> double) (w U : nat -> Q) : Q :=
  (qsum n (fun j => Qabs (dval (a j)) * w j) + qsum m (fun j => Qabs (dval (b j)) * U j))%Q.
Definition widen (n m : nat) : Q := growth (Nat.max n m + 1).
Definition underflow (n m : nat) : Q := (inject_Z (Z.of_nat (n + m)) * growth (Nat.max n m) * tiny)%Q.
(** The box w is mapped into itself, rounding included. *)
Definition keeps (n m : nat) (A B : nat -> nat -> double) (w U : nat -> Q) : Prop :=
  forall i, i < n -> (widen n m * load n m (A i) (B i) w U + underflow n m <= w i)%Q /\ (w i < limit)%Q.
(** One step turns errors up to e into errors up to e. *)
Definition absorbs (n m : nat) (A B : nat -> nat -> double) (w U e : nat -> Q) : Prop :=
  forall i, i < n -> (qsum n (fun j => Qabs (dval (A i j)) * e j) + ((widen n m - 1) * load n m (A i) (B i) w U + underflow n m) <= e i)%Q.

(** * Proofs *)
Lemma qsum_le n f g : (forall i, i < n -> (f i <= g i)%Q) -> (qsum n f <= qsum n g)%Q.
Proof. induction n as [|n IH]; intros H; [apply Qle_refl|]. cbn [qsum]. apply Qplus_le_compat; [apply IH; intros; apply H; lia|apply H; lia]. Qed.
Lemma qsum_diff n f g h : (qsum n (fun j => h j * f j) - qsum n (fun j => h j * g j) == qsum n (fun j => h j * (f j - g j)))%Q.
Proof. induction n as [|n IH]; [reflexivity|]. cbn [qsum]. rewrite <- IH. ring. Qed.
Lemma qsum_prod_le n (a : nat -> double) (x w : nat -> Q) : (forall j, j < n -> (Qabs (x j) <= w j)%Q) -> (qsum n (fun j => Qabs (dval (a j) * x j)) <= qsum n (fun j => Qabs (dval (a j)) * w j))%Q.
Proof. intros H. apply qsum_le. intros j Hj. rewrite Qabs_Qmult, !(Qmult_comm (Qabs (dval (a j)))). apply Qmult_le_compat_r; [auto|apply Qabs_nonneg]. Qed.
Lemma widen_ge1 n m : (1 <= widen n m)%Q. Proof. apply growth_ge1. Qed.

(** One row. *)
Lemma row_ok n m a b x u s w U : step_bound n m a b x u s -> finites n a -> finites m b -> finites n x -> finites m u ->
  (forall j, j < n -> (Qabs (dval (x j)) <= w j)%Q) -> (forall j, j < m -> (Qabs (dval (u j)) <= U j)%Q) ->
  (widen n m * load n m a b w U + underflow n m < limit)%Q ->
  proper s /\ (Qabs (dval s) <= widen n m * load n m a b w U + underflow n m)%Q /\
  (Qabs (dval s - (qsum n (fun j => dval (a j) * dval (x j)) + qsum m (fun j => dval (b j) * dval (u j)))) <= (widen n m - 1) * load n m a b w U + underflow n m)%Q.
Proof.
  intros SB Fa Fb Fx Fu Hx Hu L. unfold step_bound in SB. cbv zeta in SB. destruct SB as (V & B & F).
  set (M := (qsum n (fun j => Qabs (dval (a j) * dval (x j))) + qsum m (fun j => Qabs (dval (b j) * dval (u j))))%Q) in *.
  assert (ML : (M <= load n m a b w U)%Q) by (unfold M, load; apply Qplus_le_compat; apply (qsum_prod_le _ _ (fun j => dval _)); assumption).
  pose proof (widen_ge1 n m) as W1. fold (widen n m) in B, F. fold (underflow n m) in B, F.
  assert (G1 : (widen n m * M <= widen n m * load n m a b w U)%Q) by (rewrite !(Qmult_comm (widen n m)); apply Qmult_le_compat_r; [exact ML|lra]).
  assert (G2 : ((widen n m - 1) * M <= (widen n m - 1) * load n m a b w U)%Q) by (rewrite !(Qmult_comm (widen n m - 1)); apply Qmult_le_compat_r; [exact ML|lra]).
  assert (FS : is_finite s) by (apply F; auto; lra). destruct (B FS) as (_ & _ & E). split; [split; assumption|].
  set (X := (qsum n (fun j => dval (a j) * dval (x j)) + qsum m (fun j => dval (b j) * dval (u j)))%Q) in *.
  assert (XM : (Qabs X <= M)%Q). { unfold X, M. eapply Qle_trans; [apply Qabs_triangle|]. apply Qplus_le_compat; apply qsum_abs. }
  split; [|lra]. assert (ES : (dval s == X + (dval s - X))%Q) by ring. rewrite ES. eapply Qle_trans; [apply Qabs_triangle|]. lra.
Qed.
(** The error of a row, against exact states. *)
Lemma row_err n (a : nat -> double) (x : nat -> double) (X e : nat -> Q) : (forall j, j < n -> (Qabs (dval (x j) - X j) <= e j)%Q) ->
  (Qabs (qsum n (fun j => dval (a j) * dval (x j)) - qsum n (fun j => dval (a j) * X j)) <= qsum n (fun j => Qabs (dval (a j)) * e j))%Q.
Proof.
  intros H. rewrite (qsum_diff n (fun j => dval (x j)) X (fun j => dval (a j))). eapply Qle_trans; [apply qsum_abs|]. apply (qsum_prod_le n a (fun j => (dval (x j) - X j)%Q) e H).
Qed.
Lemma add_err s p q p' q' c d : (Qabs (s - (p + q)) <= d)%Q -> (Qabs (p - p') <= c)%Q -> (q == q')%Q -> (Qabs (s - (p' + q')) <= c + d)%Q.
Proof.
  intros H1 H2 E. rewrite <- E. assert (X : (s - (p' + q) == (p - p') + (s - (p + q)))%Q) by ring. rewrite X. eapply Qle_trans; [apply Qabs_triangle|]. now apply Qplus_le_compat.
Qed.
Section Runs.
Variable tol : double.
#[local] Instance Or : Ops double := fops tol.
Section Run.
Variables (n m : nat) (fA fB fu : nat -> nat -> double) (fx : nat -> double) (w U e : nat -> Q).
Hypotheses (PA : forall i j, i < n -> j < n -> proper (fA i j)) (PB : forall i j, i < n -> j < m -> proper (fB i j)).
Hypotheses (Px : forall i, i < n -> proper (fx i) /\ (Qabs (dval (fx i)) <= w i)%Q).
Hypotheses (HK : keeps n m fA fB w U) (HE : absorbs n m fA fB w U e) (E0 : forall i, i < n -> (0 <= e i)%Q).
Lemma run_ok K : (forall k j, k < K -> j < m -> proper (fu k j) /\ (Qabs (dval (fu k j)) <= U j)%Q) -> forall k, k <= K -> forall i, i < n ->
  proper (traj n m fA fB fu fx k i) /\ (Qabs (dval (traj n m fA fB fu fx k i)) <= w i)%Q /\
  (Qabs (dval (traj n m fA fB fu fx k i) - exact_state n m fA fB fu fx k i) <= e i)%Q.
Proof.
  intros Hu. induction k as [|k IH]; intros Hk i Hi.
  - destruct (Px i Hi) as [P L]. cbn [traj exact_state]. split; [exact P|]. split; [exact L|]. setoid_replace (dval (fx i) - dval (fx i))%Q with 0%Q by ring. exact (E0 i Hi).
  - specialize (IH ltac:(lia)). destruct (HK i Hi) as [K1 K2]. cbn [traj exact_state]. set (x := traj n m fA fB fu fx k) in *.
    assert (SB : step_bound n m (fA i) (fB i) x (fu k) (oadd (osum n (fun j => omul (fA i j) (x j))) (osum m (fun j => omul (fB i j) (fu k j))))).
    { apply (step_ok tol); [intros j Hj; apply PA; lia|intros j Hj; apply PB; lia|intros j Hj; apply IH; lia|intros j Hj; apply Hu; lia]. }
    destruct (row_ok n m (fA i) (fB i) x (fu k) _ w U SB) as (P & L & E).
    + intros j Hj. now apply PA.
    + intros j Hj. now apply PB.
    + intros j Hj. now apply IH.
    + intros j Hj. apply Hu; lia.
    + intros j Hj. now apply IH.
    + intros j Hj. apply Hu; lia.
    + lra.
    + split; [exact P|]. split; [lra|]. eapply Qle_trans; [|exact (HE i Hi)].
      apply (add_err _ _ _ _ _ _ _ E); [|reflexivity]. apply row_err. intros j Hj. now apply IH.
Qed.
End Run.
(** The whole simulation.  It never overflows, its states stay in the box, and the distance from
    the exact run never exceeds e, however many steps there are. *)
Theorem C113_simulate : forall sys u tm init n m p fA fB fC fD fx fu w U e,
  is_mat (sA (dsys sys)) n n fA -> is_mat (sB (dsys sys)) n m fB -> is_mat (sC (dsys sys)) p n fC -> is_mat (sD (dsys sys)) p m fD ->
  is_vec init n fx -> inputs u m fu -> fits p ->
  (forall i j, i < n -> j < n -> proper (fA i j)) -> (forall i j, i < n -> j < m -> proper (fB i j)) ->
  (forall i j, i < p -> j < n -> proper (fC i j)) -> (forall i j, i < p -> j < m -> proper (fD i j)) ->
  (forall i, i < n -> proper (fx i) /\ (Qabs (dval (fx i)) <= w i)%Q) ->
  (forall k j, k < length u -> j < m -> proper (fu k j) /\ (Qabs (dval (fu k j)) <= U j)%Q) ->
  keeps n m fA fB w U -> absorbs n m fA fB w U e -> (forall i, i < n -> (0 <= e i)%Q) ->
  (forall i, i < p -> (widen n m * load n m (fC i) (fD i) w U + underflow n m < limit)%Q) ->
  let ts := sample_time sys in proper tm -> proper ts -> (0 <= dval tm)%Q -> (0 < dval ts)%Q -> (duration tm ts < inject_Z (2 ^ 64 - 2 ^ 10))%Q ->
  exists K t x y, near_steps (duration tm ts) K /\ simulate to_size sys u tm init = Ok (t, x, y) /\
    let steps := Nat.min (length u) K in
    length x = S steps /\ length y = steps /\
    (forall k, k <= steps -> exists xk X, nth_error x k = Some xk /\ is_vec xk n X /\ forall i, i < n ->
       proper (X i) /\ (Qabs (dval (X i)) <= w i)%Q /\ (Qabs (dval (X i) - exact_state n m fA fB fu fx k i) <= e i)%Q) /\
    (forall k, k < steps -> exists yk Y, nth_error y k = Some yk /\ is_vec yk p Y /\ forall i, i < p ->
       proper (Y i) /\ (Qabs (dval (Y i)) <= widen n m * load n m (fC i) (fD i) w U + underflow n m)%Q /\
       (Qabs (dval (Y i) - exact_output n m fA fB fu fx fC fD k i) <= qsum n (fun j => Qabs (dval (fC i j)) * e j) + ((widen n m - 1) * load n m (fC i) (fD i) w U + underflow n m))%Q).
Proof.
  intros sys u tm init n m p fA fB fC fD fx fu w U e HA HB HC HD Hx Hu Fp PA PB PC PD Px PU HK HE E0 HO ts Pm Ps T0 S0 L.
  destruct (C99_steps tm ts Pm Ps T0 S0) as [G _]. destruct (G L) as (K & EK & NK).
  destruct (@simulate_ok double (fops tol) to_size sys u tm (SFdiv prec64 emax64 tm ts) K init n m p fA fB fC fD fx fu HA HB HC HD Hx Hu Fp eq_refl EK) as (t & x & y & E & L1 & L2 & L3 & Qx & Qy & _ & _).
  exists K, t, x, y. split; [exact NK|]. split; [exact E|]. cbv zeta. split; [exact L2|]. split; [exact L3|].
  pose proof (run_ok n m fA fB fu fx w U e PA PB Px HK HE E0 (length u) PU) as R. split.
  - intros k Hk. destruct (Qx k Hk) as (xk & Ex & Vx). exists xk. eexists. split; [exact Ex|]. split; [exact Vx|]. apply R. lia.
  - intros k Hk. destruct (Qy k Hk) as (yk & Ey & Vy). exists yk. eexists. split; [exact Ey|]. split; [exact Vy|]. intros i Hi. specialize (R k ltac:(lia)).
    unfold outp, exact_output. change (@traj double (fops tol)) with (@traj double Or). set (z := traj n m fA fB fu fx k) in *.
    assert (SB : step_bound n m (fC i) (fD i) z (fu k) (oadd (osum n (fun j => omul (fC i j) (z j))) (osum m (fun j => omul (fD i j) (fu k j))))).
    { apply (step_ok tol); [intros j Hj; apply PC; lia|intros j Hj; apply PD; lia|intros j Hj; apply R; lia|intros j Hj; apply PU; lia]. }
    destruct (row_ok n m (fC i) (fD i) z (fu k) _ w U SB) as (P & B & D).
    + intros j Hj. now apply PC.
    + intros j Hj. now apply PD.
    + intros j Hj. now apply R.
    + intros j Hj. apply PU; lia.
    + intros j Hj. now apply R.
    + intros j Hj. apply PU; lia.
    + now apply HO.
    + split; [exact P|]. split; [exact B|]. apply (add_err _ _ _ _ _ _ _ D); [|reflexivity]. apply row_err. intros j Hj. now apply R.
Qed.
End Runs.
(** Where such boxes come from: if the rows of |A| sum up to at most r and those of |B| to at most
    s, inputs are at most U and W is large enough, the box W is kept and E absorbs. *)
Theorem C113_contraction : forall n m A B (r s U W E : Q), (0 <= U)%Q -> (0 <= W)%Q -> (0 <= E)%Q ->
  (forall i, i < n -> (qsum n (fun j => Qabs (dval (A i j))) <= r)%Q /\ (qsum m (fun j => Qabs (dval (B i j))) <= s)%Q) ->
  (widen n m * (r * W + s * U) + underflow n m <= W)%Q -> (W < limit)%Q -> (r * E + ((widen n m - 1) * (r * W + s * U) + underflow n m) <= E)%Q ->
  keeps n m A B (fun _ => W) (fun _ => U) /\ absorbs n m A B (fun _ => W) (fun _ => U) (fun _ => E).
Proof.
  intros n m A B r s U W E U0 W0 E0 H HW HL HE. pose proof (widen_ge1 n m) as W1.
  assert (SC : forall N (a : nat -> double) c, (qsum N (fun j => Qabs (dval (a j)) * c) == qsum N (fun j => Qabs (dval (a j))) * c)%Q).
  { intros N a c. induction N as [|N IH]; [cbn [qsum]; ring|]. cbn [qsum]. rewrite IH. ring. }
  assert (LD : forall i, i < n -> (load n m (A i) (B i) (fun _ => W) (fun _ => U) <= r * W + s * U)%Q).
  { intros i Hi. destruct (H i Hi) as [H1 H2]. unfold load. rewrite !SC. apply Qplus_le_compat; apply Qmult_le_compat_r; assumption. }
  split; intros i Hi; specialize (LD i Hi).
  - split; [|exact HL]. eapply Qle_trans; [|exact HW]. apply Qplus_le_l. rewrite !(Qmult_comm (widen n m)). apply Qmult_le_compat_r; [exact LD|lra].
  - destruct (H i Hi) as [H1 _]. eapply Qle_trans; [|exact HE]. rewrite SC. apply Qplus_le_compat; [now apply Qmult_le_compat_r|]. apply Qplus_le_l. rewrite !(Qmult_comm (widen n m - 1)). apply Qmult_le_compat_r; [exact LD|lra].
Qed.
(** A case: x(k+1) = x(k) / 2 + u(k) with inputs and start up to 1: the states stay within 3, with an
    error of at most 2^-49 for ever. *)
Example C113_case : keeps 1 1 (fun _ _ => half) (fun _ _ => one) (fun _ => 3%Q) (fun _ => 1%Q) /\
  absorbs 1 1 (fun _ _ => half) (fun _ _ => one) (fun _ => 3%Q) (fun _ => 1%Q) (fun _ => (1 # 562949953421312)%Q).
Proof.
  apply (C113_contraction 1 1 _ _ (1 # 2) 1); [discriminate|discriminate|discriminate| |vm_compute; discriminate|vm_compute; reflexivity|vm_compute; discriminate].
  intros i _. split; vm_compute; discriminate.
Qed.
Theorem C113_decay : forall tol u tm fu, inputs u 1 fu -> (forall k, k < length u -> proper (fu k 0) /\ (Qabs (dval (fu k 0%nat)) <= 1)%Q) ->
  proper tm -> (0 <= dval tm)%Q -> (duration tm tenth < inject_Z (2 ^ 64 - 2 ^ 10))%Q ->
  exists K t x y, near_steps (duration tm tenth) K /\ @simulate double (fops tol) to_size decay u tm [one] = Ok (t, x, y) /\ length x = S (Nat.min (length u) K) /\
    forall k, k <= Nat.min (length u) K -> exists s, nth_error x k = Some [s] /\ proper s /\ (Qabs (dval s) <= 3)%Q /\
      (Qabs (dval s - exact_state 1 1 (fun _ _ => half) (fun _ _ => one) fu (fun _ => one) k 0%nat) <= 1 # 562949953421312)%Q.
Proof.
  intros tol u tm fu Hu PU Pm T0 L. destruct C113_case as [KP AB]. destruct C99_witness as (HA & HB & HC & HD & Vx & _ & F1 & _ & Pt & _ & S0 & _).
  destruct (C113_simulate tol decay u tm [one] 1 1 1 _ _ _ _ _ fu (fun _ => 3%Q) (fun _ => 1%Q) (fun _ => 1 # 562949953421312) HA HB HC HD Vx Hu F1) as (K & t & x & y & NK & E & Lx & _ & Q & _); auto; try (intros; split; [reflexivity|exact I]).
  - intros i _. split; [split; [reflexivity|exact I]|vm_compute; discriminate].
  - intros k j Hk Hj. assert (j = 0) by lia. subst j. exact (PU k Hk).
  - exists K, t, x, y. split; [exact NK|]. split; [exact E|]. split; [exact Lx|]. intros k Hk. destruct (Q k Hk) as (xk & X & Ex & (Lk & _ & Nk) & B). destruct (B 0 ltac:(lia)) as (B1 & B2 & B3).
    exists (X 0). split; [|auto]. rewrite Ex. f_equal. destruct xk as [|a [|b xk]]; try discriminate Lk. f_equal. specialize (Nk 0 ltac:(lia)). now injection Nk.
Qed.
