(** PropFloatDet.v: C101, determinants, adjoints and inverses of doubles up to order 4. *)
From Coq Require Import ZArith QArith Qabs Qpower Bool Lia Lqa SpecFloat List.
From Verif Require Import Linalg LinalgFacts LinalgFacts2 Float FloatFacts FloatValid FloatRound FloatIOFacts FloatArith FloatSum FloatCmp PropFloat PropFloat2 PropFloatIO PropFloatSum PropFloatCmp FloatLoop PropFloatLin PropFloatSim FloatDet.
Import ListNotations.
Local Open Scope nat_scope.

(** * Specification: determinant, permanent and adjoint of rational numbers *)
Definition alt (j : nat) (x : Q) : Q := if Nat.even j then x else (- x)%Q.
(** Expansion along the first row; [fminor p q f] is f without row p and column q. *)
Fixpoint qdet (n : nat) (f : nat -> nat -> Q) : Q :=
  match n with 0 => 1%Q | S k => qsum (S k) (fun j => alt j (f 0%nat j * qdet k (fminor 0%nat j f))%Q) end.
(** The same with all signs positive. *)
Fixpoint qperm (n : nat) (f : nat -> nat -> Q) : Q :=
  match n with 0 => 1%Q | S k => qsum (S k) (fun j => (f 0%nat j * qperm k (fminor 0%nat j f))%Q) end.
Definition qadj (n : nat) (f : nat -> nat -> Q) (i j : nat) : Q := alt (i + j) (qdet (n - 1) (fminor j i f)).
Definition values (f : nat -> nat -> double) : nat -> nat -> Q := fun i j => dval (f i j).
Definition sizes (f : nat -> nat -> double) : nat -> nat -> Q := fun i j => Qabs (dval (f i j)).
(** All elements are integers of size at most x, times 2^e. *)
Definition whole (n : nat) (f : nat -> nat -> double) (x e : Z) : Prop :=
  forall i j, i < n -> j < n -> proper (f i j) /\ exists z, (dval (f i j) == inject_Z z * 2 ^ e)%Q /\ (Z.abs z <= x)%Z.
(** [h] is the inverse of [f]. *)
Definition inverse_of (n : nat) (f h : nat -> nat -> Q) : Prop :=
  forall i j, i < n -> j < n -> (qsum n (fun k => f i k * h k j) == if (i =? j)%nat then 1 else 0)%Q.

(** * The formulas of the library over the rational numbers *)
Section Formula.
Notation pairs g := (fun i j => (g i j, Qabs (g i j))).
Lemma detf_value n g : 1 <= n <= 4 -> (fst (@detf _ vm n (pairs g)) == qdet n g)%Q.
Proof.
  intros H. assert (C : n = 1 \/ n = 2 \/ n = 3 \/ n = 4) by lia. destruct C as [->|[->|[->| ->]]]; cbv [detf det2 det3 det4 oadd osub omul vm fst snd qdet qsum alt fminor Nat.even Nat.ltb Nat.leb]; ring.
Qed.
Lemma detf_size n g : 1 <= n <= 4 -> (snd (@detf _ vm n (pairs g)) == qperm n (fun i j => Qabs (g i j)))%Q.
Proof.
  intros H. assert (C : n = 1 \/ n = 2 \/ n = 3 \/ n = 4) by lia. destruct C as [->|[->|[->| ->]]]; cbv [detf det2 det3 det4 oadd osub omul vm fst snd qperm qsum fminor Nat.ltb Nat.leb]; ring.
Qed.
End Formula.
Lemma adj_right n f i j : 1 <= n <= 4 -> i < n -> j < n -> (qsum n (fun k => f i k * qadj n f k j) == if (i =? j)%nat then qdet n f else 0)%Q.
Proof.
  intros H Hi Hj. assert (C : n = 1 \/ n = 2 \/ n = 3 \/ n = 4) by lia.
  destruct C as [->|[->|[->| ->]]]; destruct i as [|[|[|[|i]]]]; try lia; destruct j as [|[|[|[|j]]]]; try lia;
    cbv [qadj qdet qsum alt fminor Nat.even Nat.ltb Nat.leb Nat.eqb Nat.add Nat.sub]; ring.
Qed.

(** * Exactness *)
Section Exact.
Variable tol : double.
Local Instance FO : Ops double := fops tol.
Lemma fact_mono k n : k <= n -> Factorial.fact k <= Factorial.fact n. Proof. apply Factorial.fact_le. Qed.
Lemma count_ok n x k w : (1 <= x)%Z -> (Z.of_nat (Factorial.fact n) * x ^ Z.of_nat n <= 2 ^ 53)%Z -> k <= n -> w <= Factorial.fact n -> (Z.of_nat w * x ^ Z.of_nat k <= 2 ^ 53)%Z.
Proof.
  intros Hx H Hk Hw. eapply Z.le_trans; [|exact H]. apply Z.mul_le_mono_nonneg; [lia|lia|apply Z.pow_nonneg; lia|apply Z.pow_le_mono_r; lia].
Qed.
Lemma deg_range k e : k <= 4 -> (-268 <= e <= 242)%Z -> (-1074 <= Z.of_nat k * e <= 970)%Z.
Proof. intros H He. assert (C : k = 0 \/ k = 1 \/ k = 2 \/ k = 3 \/ k = 4) by lia. destruct C as [->|[->|[->|[->| ->]]]]; lia. Qed.
Definition gridR (x e : Z) (k w : nat) (d : double) (p : Q * Q) : Prop := on_grid (Z.of_nat k * e) (Z.of_nat w * x ^ Z.of_nat k) d (fst p).
Lemma on_grid_wd e e' b b' d q q' : on_grid e b d q -> e = e' -> (b <= b')%Z -> (q == q')%Q -> on_grid e' b' d q'.
Proof. intros (P & V & z & E & B) <- Hb Hq. split; [exact P|]. split; [now rewrite V|]. exists z. split; [now rewrite <- Hq|lia]. Qed.
Lemma det_grid A n f g x e : reads A n n f -> 1 <= n <= 4 -> (1 <= x)%Z -> (-268 <= e <= 242)%Z -> (Z.of_nat (Factorial.fact n) * x ^ Z.of_nat n <= 2 ^ 53)%Z ->
  (forall i j, i < n -> j < n -> on_grid e x (f i j) (g i j)) -> exists d, determinant A = Ok d /\ on_grid (Z.of_nat n * e) (Z.of_nat (Factorial.fact n) * x ^ Z.of_nat n) d (qdet n g).
Proof.
  intros HA Hn Hx He HB Hf.
  destruct (@determinant_rel double (Q * Q) FO vm (gridR x e) n A f (fun i j => (g i j, Qabs (g i j))) HA Hn) as (d & E & R).
  - intros k w w' a b a' b' Hk Hw H1 H2 R1 R2. pose proof (count_ok n x k (w + w') Hx HB ltac:(lia) Hw) as B. unfold gridR in *. rewrite Nat2Z.inj_add, Z.mul_add_distr_r in *. apply grid_add; auto; try lia. nia.
  - intros k w w' a b a' b' Hk Hw H1 H2 R1 R2. pose proof (count_ok n x k (w + w') Hx HB ltac:(lia) Hw) as B. unfold gridR in *. rewrite Nat2Z.inj_add, Z.mul_add_distr_r in *. apply grid_sub; auto; try lia. nia.
  - intros k k' w w' a b a' b' Hk Hw K1 K2 H1 H2 R1 R2. pose proof (count_ok n x (k + k') (w * w') Hx HB ltac:(lia) Hw) as B. unfold gridR in *.
    rewrite Nat2Z.inj_mul, Nat2Z.inj_add, Z.pow_add_r in * by lia. replace (Z.of_nat w * Z.of_nat w' * (x ^ Z.of_nat k * x ^ Z.of_nat k'))%Z with (Z.of_nat w * x ^ Z.of_nat k * (Z.of_nat w' * x ^ Z.of_nat k'))%Z in * by ring.
    rewrite Z.mul_add_distr_r. apply grid_mul; auto. rewrite <- Z.mul_add_distr_r. nia.
  - intros i j Hi Hj. unfold gridR. eapply on_grid_wd; [now apply Hf|lia|change (Z.of_nat 1) with 1%Z; rewrite Z.pow_1_r; lia|reflexivity].
  - exists d. split; [exact E|]. eapply on_grid_wd; [exact R|reflexivity|lia|]. now apply detf_value.
Qed.
(** Whole numbers: the determinant is exact while n! times the n-th power of the largest
    element is at most 2^53. *)
Theorem C101_determinant_exact : forall A n f x e, reads A n n f -> 1 <= n <= 4 -> whole n f x e -> (1 <= x)%Z -> (-268 <= e <= 242)%Z ->
  (Z.of_nat (Factorial.fact n) * x ^ Z.of_nat n <= 2 ^ 53)%Z ->
  exists d, determinant A = Ok d /\ proper d /\ (dval d == qdet n (values f))%Q.
Proof.
  intros A n f x e HA Hn Hw Hx He HB. destruct (det_grid A n f (values f) x e HA Hn Hx He HB) as (d & E & (P & V & _)).
  - intros i j Hi Hj. destruct (Hw i j Hi Hj) as (P & z & Ez & B). split; [exact P|]. split; [reflexivity|]. exists z. split; [exact Ez|exact B].
  - exists d. split; [exact E|]. split; [exact P|exact V].
Qed.
Lemma sgn_mul e b d q i j : on_grid e b d q -> (-1074 <= e <= 970)%Z -> (b <= 2 ^ 53)%Z -> on_grid e b (omul (sgnf i j) d) (alt (i + j) q).
Proof.
  intros H He Hb. unfold sgnf, alt. assert (S1 : forall s : bool, on_grid 0 1 (if s then one else SFopp one) (if s then 1 else -1)%Q).
  { intros [|]; (split; [split; [reflexivity|exact I]|]; split; [reflexivity|]); [exists 1%Z|exists (-1)%Z]; (split; [reflexivity|lia]). }
  rewrite <- (Nat.bit0_mod (i + j)), Nat.bit0_odd. rewrite <- Nat.negb_even. 
  pose proof (grid_mul 0 e 1 b _ d _ q (S1 (Nat.even (i + j))) H ltac:(lia) ltac:(lia)) as G.
  assert (X : @omul double FO (if Nat.b2n (negb (Nat.even (i + j))) =? 0 then o1 else oopp o1) d = SFmul prec64 emax64 (if Nat.even (i + j) then one else SFopp one) d) by (destruct (Nat.even (i + j)); reflexivity).
  rewrite X. eapply on_grid_wd; [exact G|lia|lia|]. destruct (Nat.even (i + j)); ring.
Qed.
Lemma adj_grid A n f g x e : readsL A n n f -> 1 <= n <= 5 -> (1 <= x)%Z -> (-268 <= e <= 242)%Z -> (Z.of_nat (Factorial.fact (n - 1)) * x ^ Z.of_nat (n - 1) <= 2 ^ 53)%Z ->
  (forall i j, i < n -> j < n -> on_grid e x (f i j) (g i j)) -> exists m h, adjoint A = Ok m /\ is_mat m n n h /\
    forall i j, i < n -> j < n -> proper (h i j) /\ (dval (h i j) == qadj n g i j)%Q.
Proof.
  intros HA Hn Hx He HB Hf. pose proof HA as ((Ar & Ac & _ & Sh & _) & _). destruct (Nat.eq_dec n 1) as [->|N1].
  - unfold adjoint, is_square. rewrite Ar, Ac. cbn [Nat.eqb negb]. destruct (mat_new_ok (T := double) 1 1 o1 Sh) as (m & E & Hm). exists m. eexists. split; [exact E|]. split; [exact Hm|].
    intros i j Hi Hj. assert (i = 0) by lia. assert (j = 0) by lia. subst. split; [split; [reflexivity|exact I]|reflexivity].
  - set (B := (Z.of_nat (Factorial.fact (n - 1)) * x ^ Z.of_nat (n - 1))%Z) in *. set (ee := (Z.of_nat (n - 1) * e)%Z).
    assert (X : forall i j, i < n -> j < n -> exists d, determinant (mb_cof i j A) = Ok d /\ on_grid ee B d (qdet (n - 1) (fminor i j g))).
    { intros i j Hi Hj. apply (det_grid (mb_cof i j A) (n - 1) (fminor i j f)); auto; [apply (cof_readsL A n f i j HA); lia|lia|].
      intros a b Ha Hb. unfold fminor. apply Hf; [destruct (a <? i); lia|destruct (b <? j); lia]. }
    set (D := fun i j => match determinant (mb_cof i j A) with Ok d => d | _ => nan end).
    destruct (adjoint_ok A n f D HA N1) as (m & E & Hm).
    { intros i j Hi Hj. destruct (X i j Hi Hj) as (d & Ed & _). unfold D. now rewrite Ed. }
    exists m. eexists. split; [exact E|]. split; [exact Hm|]. intros i j Hi Hj. cbn beta. destruct (X j i Hj Hi) as (d & Ed & G). unfold D. rewrite Ed.
    destruct (sgn_mul ee B d _ j i G) as (P & V & _); [exact (deg_range (n - 1) e ltac:(lia) He)|exact HB|]. split; [exact P|]. rewrite V. unfold qadj. now rewrite (Nat.add_comm i j).
Qed.
(** The same for the adjoint, up to order 5. *)
Theorem C101_adjoint_exact : forall A n f x e, readsL A n n f -> 1 <= n <= 5 -> whole n f x e -> (1 <= x)%Z -> (-268 <= e <= 242)%Z ->
  (Z.of_nat (Factorial.fact (n - 1)) * x ^ Z.of_nat (n - 1) <= 2 ^ 53)%Z ->
  exists m h, adjoint A = Ok m /\ is_mat m n n h /\ forall i j, i < n -> j < n -> proper (h i j) /\ (dval (h i j) == qadj n (values f) i j)%Q.
Proof.
  intros A n f x e HA Hn Hw Hx He HB. apply (adj_grid A n f (values f) x e); auto.
  intros i j Hi Hj. destruct (Hw i j Hi Hj) as (P & z & Ez & B). split; [exact P|]. split; [reflexivity|]. exists z. split; [exact Ez|exact B].
Qed.
Lemma nonzero_val s m e : ~ (dval (S754_finite s m e) == 0)%Q.
Proof. pose proof (mpos_val m e) as P. destruct s; [rewrite neg_val|change (~ (inject_Z (Zpos m) * p2 e == 0)%Q)]; intros H; lra. Qed.
Lemma qsum_ext n a b : (forall i, i < n -> (a i == b i)%Q) -> (qsum n a == qsum n b)%Q.
Proof. induction n as [|n IH]; intros H; [reflexivity|]. cbn [qsum]. rewrite IH, H by auto. reflexivity. Qed.
Lemma qsum_scale n a c : (qsum n (fun i => a i * c) == qsum n a * c)%Q.
Proof. induction n as [|n IH]; cbn [qsum]; [ring|]. rewrite IH. ring. Qed.
(** If the determinant is not zero, the inverse is the adjoint divided by it. *)
Lemma inverse_ok n f : 1 <= n <= 4 -> ~ (qdet n f == 0)%Q -> inverse_of n f (fun i j => qadj n f i j / qdet n f)%Q.
Proof.
  intros Hn N i j Hi Hj. transitivity (qsum n (fun k => (f i k * qadj n f k j) * / qdet n f))%Q; [apply qsum_ext; intros k Hk; field; exact N|].
  rewrite qsum_scale, adj_right by auto. destruct (i =? j); field; exact N.
Qed.
(** Whole numbers: inverse finds out exactly whether the determinant is zero, and each element is
    the double nearest to that of the exact inverse. *)
Theorem C101_inverse_exact : small_tol tol -> forall A n f x e, readsL A n n f -> 1 <= n <= 4 -> whole n f x e -> (1 <= x)%Z -> (-268 <= e <= 242)%Z ->
  (Z.of_nat (Factorial.fact n) * x ^ Z.of_nat n <= 2 ^ 53)%Z ->
  ((qdet n (values f) == 0)%Q -> inverse A = Ok mat_empty) /\
  (~ (qdet n (values f) == 0)%Q -> exists m g, inverse A = Ok m /\ is_mat m n n g /\
     exists h, inverse_of n (values f) h /\ forall i j, i < n -> j < n -> correctly_rounded (h i j) (g i j)).
Proof.
  intros Ht A n f x e HA Hn Hw Hx He HB. destruct (C101_determinant_exact A n f x e (proj1 HA) Hn Hw Hx He HB) as (d & Ed & Pd & Vd).
  assert (HB' : (Z.of_nat (Factorial.fact (n - 1)) * x ^ Z.of_nat (n - 1) <= 2 ^ 53)%Z) by (apply (count_ok n x (n - 1)); auto; [lia|apply fact_mono; lia]).
  destruct (C101_adjoint_exact A n f x e HA ltac:(lia) Hw Hx He HB') as (adj & g & Ea & Ha & Hg).
  destruct (C85_inverse tol A n f Ht HA) as (d' & adj' & g' & Ed' & Ea' & Ha' & H).
  { intros i j Hi Hj. apply (Hw i j Hi Hj). }
  change (fops tol) with FO in Ed', Ea', H. rewrite Ed in Ed'. injection Ed' as <-. rewrite Ea in Ea'. injection Ea' as <-. pose proof (is_mat_fun _ _ _ _ _ Ha Ha') as EG. split.
  - intros Z. rewrite <- Vd in Z. destruct d as [s|s| |s m ex]; [exact H|exact H|destruct Pd; contradiction|]. exfalso. revert Z. apply nonzero_val.
  - intros N. rewrite <- Vd in N. destruct d as [s|s| |s m ex]; [exfalso; now apply N|destruct Pd; contradiction|destruct Pd; contradiction|]. destruct H as (mi & Ei & Hm). exists mi. eexists. split; [exact Ei|]. split; [exact Hm|].
    assert (N' : ~ (qdet n (values f) == 0)%Q) by (rewrite <- Vd; exact N). eexists. split; [exact (inverse_ok n (values f) Hn N')|].
    intros i j Hi Hj. cbn beta. rewrite <- EG by auto. destruct (Hg i j Hi Hj) as [Pg Vg]. destruct (div_facts (g i j) (S754_finite s m ex) Pg Pd N) as [D C]. apply crt_correct; [exact D|].
    eapply crt_wd; [|exact C]. now rewrite Vg, Vd.
Qed.
End Exact.

(** * Errors *)
(** Every element is zero or at least 2^-216 in size (so that products of four do not
    underflow). *)
Definition no_underflow (n : nat) (f : nat -> nat -> double) : Prop :=
  forall i j, i < n -> j < n -> is_double (f i j) /\ (is_finite (f i j) -> (dval (f i j) == 0 \/ 2 ^ (-216) <= Qabs (dval (f i j)))%Q).
Lemma normal_grid d : proper d -> (dval d == 0 \/ p2 (-216) <= Qabs (dval d))%Q -> grid (-268) (dval d).
Proof.
  intros [V F] [Z|H]; [exists 0%Z; rewrite Z; change (inject_Z 0) with 0%Q; ring|]. destruct d as [s|s| |s m e]; try contradiction.
  assert (A : (Qabs (dval (S754_finite s m e)) == inject_Z (Zpos m) * p2 e)%Q).
  { pose proof (mpos_val m e) as P. destruct s; [rewrite neg_val, Qabs_opp|change (dval (S754_finite false m e)) with (inject_Z (Zpos m) * p2 e)%Q]; apply Qabs_pos; lra. }
  assert (M : (Zpos m < 2 ^ 53)%Z).
  { pose proof (bounded_exp prec64 emax64 m e V) as BE. pose proof (digits_bounds m) as [_ M2]. unfold SpecFloat.fexp, prec64, emax64 in BE. assert (2 ^ Zpos (digits2_pos m) <= 2 ^ 53)%Z by (apply Z.pow_le_mono_r; lia). lia. }
  assert (E : (-268 <= e)%Z).
  { destruct (Z.le_gt_cases (-268) e) as [L|L]; [exact L|exfalso]. rewrite A in H. assert (H1 : (inject_Z (Zpos m) * p2 e < inject_Z (2 ^ 53) * p2 e)%Q) by (apply Qmult_lt_compat_r; [apply q2_pos|now apply injZ_lt]).
    assert (H2 : (inject_Z (2 ^ 53) * p2 e <= inject_Z (2 ^ 53) * p2 (-269))%Q) by (rewrite !(Qmult_comm (inject_Z (2 ^ 53))); apply Qmult_le_compat_r; [apply q2_mono; lia|discriminate]).
    assert (H3 : (inject_Z (2 ^ 53) * p2 (-269) == p2 (-216))%Q) by reflexivity. lra. }
  exists ((if s then -1 else 1) * Zpos m * 2 ^ (e + 268))%Z. rewrite !inject_Z_mult, <- q2_Z, <- !Qmult_assoc, <- q2_add by lia. replace (e + 268 + -268)%Z with e by lia.
  destruct s; [rewrite neg_val|change (dval (S754_finite false m e)) with (inject_Z (Zpos m) * p2 e)%Q]; [change (inject_Z (-1)) with (-1)%Q|change (inject_Z 1) with 1%Q]; ring.
Qed.
Section Error.
Variable tol : double.
Local Instance FO' : Ops double := fops tol.
Definition nearR (k w : nat) (d : double) (p : Q * Q) : Prop := near (Z.of_nat k * -268) (k + w - 2) d (fst p) (snd p).
Lemma nearR_add n N k w w' a b a' b' : n <= 4 -> 1 <= k <= n -> w + w' <= N -> 1 <= w -> 1 <= w' -> nearR k w a b -> nearR k w' a' b' -> nearR k (w + w') (oadd a a') (@oadd _ vm b b').
Proof. intros Hn Hk Hw H1 H2 R R'. eapply near_mono; [apply near_add; [|exact R|exact R']; lia|lia]. Qed.
Lemma nearR_sub n N k w w' a b a' b' : n <= 4 -> 1 <= k <= n -> w + w' <= N -> 1 <= w -> 1 <= w' -> nearR k w a b -> nearR k w' a' b' -> nearR k (w + w') (osub a a') (@osub _ vm b b').
Proof. intros Hn Hk Hw H1 H2 R R'. eapply near_mono; [apply near_sub; [|exact R|exact R']; lia|lia]. Qed.
Lemma nearR_mul n N k k' w w' a b a' b' : n <= 4 -> k + k' <= n -> w * w' <= N -> 1 <= k -> 1 <= k' -> 1 <= w -> 1 <= w' -> nearR k w a b -> nearR k' w' a' b' -> nearR (k + k') (w * w') (omul a a') (@omul _ vm b b').
Proof.
  intros Hn Hk Hw K1 K2 H1 H2 R R'. unfold nearR in *. replace (Z.of_nat (k + k') * -268)%Z with (Z.of_nat k * -268 + Z.of_nat k' * -268)%Z by lia. eapply near_mono; [apply near_mul; [|exact R|exact R']; lia|].
  assert (w + w' <= w * w' + 1) by nia. lia.
Qed.
Lemma near_elem d : is_double d -> (is_finite d -> (dval d == 0 \/ 2 ^ (-216) <= Qabs (dval d))%Q) -> nearR 1 1 d (dval d, Qabs (dval d)).
Proof.
  intros D H. split; [exact D|]. split; [apply Qle_refl|]. intros F. split; [change (Z.of_nat 1 * -268)%Z with (-268)%Z; apply normal_grid; [split; auto|now apply H]|].
  cbn [fst snd]. setoid_replace (dval d - dval d)%Q with 0%Q by ring. change (growth (1 + 1 - 2) - 1)%Q with (1 - 1)%Q. rewrite Qmult_comm, Qmult_0_r || (change (Qabs 0) with 0%Q; lra). apply Qle_refl.
Qed.
(** If the computed determinant is finite it is off by at most (1+u)^(n!+n-2) - 1 times the
    permanent of the sizes. *)
Theorem C101_determinant_error : forall A n f, reads A n n f -> 1 <= n <= 4 -> no_underflow n f ->
  exists d, determinant A = Ok d /\ is_double d /\
    (is_finite d -> (Qabs (dval d - qdet n (values f)) <= (growth (Factorial.fact n + n - 2) - 1) * qperm n (sizes f))%Q).
Proof.
  intros A n f HA Hn Hf. destruct (@determinant_rel double (Q * Q) FO' vm nearR n A f (fun i j => (values f i j, Qabs (values f i j))) HA Hn) as (d & E & (D & _ & R)).
  - intros. eapply nearR_add; eauto; lia.
  - intros. eapply nearR_sub; eauto; lia.
  - intros. eapply nearR_mul; eauto; lia.
  - intros i j Hi Hj. destruct (Hf i j Hi Hj). now apply near_elem.
  - exists d. split; [exact E|]. split; [exact D|]. intros F. destruct (R F) as [_ B]. rewrite detf_value, detf_size in B by auto. replace (Factorial.fact n + n - 2) with (n + Factorial.fact n - 2) by lia. exact B.
Qed.
(** Then, if the exact determinant is larger than that, the computed one is not zero and has
    its sign. *)
Corollary C101_determinant_sign : forall A n f d, reads A n n f -> 1 <= n <= 4 -> no_underflow n f -> determinant A = Ok d -> is_finite d ->
  ((growth (Factorial.fact n + n - 2) - 1) * qperm n (sizes f) < Qabs (qdet n (values f)))%Q ->
  ((0 < dval d <-> 0 < qdet n (values f)) /\ (dval d < 0 <-> qdet n (values f) < 0))%Q.
Proof.
  intros A n f d HA Hn Hf E F H. destruct (C101_determinant_error A n f HA Hn Hf) as (d' & E' & _ & B). rewrite E in E'. injection E' as <-. specialize (B F).
  set (b := ((growth (Factorial.fact n + n - 2) - 1) * qperm n (sizes f))%Q) in *. clearbody b. set (q := qdet n (values f)) in *. clearbody q.
  apply Qabs_Qle_condition in B. destruct (Qlt_le_dec q 0) as [L|L]; [rewrite Qabs_neg in H by lra|rewrite Qabs_pos in H by lra]; lra.
Qed.

(** It is finite when no product or sum can overflow. *)
Definition finR (x : Q) (k w : nat) (d : double) (p : Q * Q) : Prop := nearR k w d p /\ is_finite d /\ (snd p <= inject_Z (Z.of_nat w) * x ^ Z.of_nat k)%Q.
Lemma qpow_mono x k n : (1 <= x)%Q -> k <= n -> (x ^ Z.of_nat k <= x ^ Z.of_nat n)%Q.
Proof. intros Hx H. apply Qpower_le_compat_l; [lia|exact Hx]. Qed.
Lemma qpow_pos x k : (1 <= x)%Q -> (0 < x ^ Z.of_nat k)%Q.
Proof. intros Hx. apply Qpower_0_lt. lra. Qed.
Lemma size_ok n x G k w m g : (1 <= x)%Q -> (1 <= G)%Q -> (G * (inject_Z (Z.of_nat (Factorial.fact n)) * x ^ Z.of_nat n) < limit)%Q -> k <= n -> w <= Factorial.fact n ->
  (0 <= m)%Q -> (m <= inject_Z (Z.of_nat w) * x ^ Z.of_nat k)%Q -> (0 <= g <= G)%Q -> (g * m < limit)%Q.
Proof.
  intros Hx HG H Hk Hw M0 M [g0 gG]. eapply Qle_lt_trans; [|exact H]. apply Qmult_le_compat_nonneg; (split; [assumption|]); [assumption|].
  eapply Qle_trans; [exact M|]. apply Qmult_le_compat_nonneg; split; [apply qn_nonneg|now apply qn_le|pose proof (qpow_pos x k Hx); lra|now apply qpow_mono].
Qed.
Lemma near_size e L d v m : near e L d v m -> is_finite d -> (Qabs (dval d) <= growth L * m)%Q.
Proof.
  intros (_ & V & H) F. destruct (H F) as [_ B]. setoid_replace (dval d) with (v + (dval d - v))%Q by ring. eapply Qle_trans; [apply Qabs_triangle|]. lra.
Qed.
Theorem C101_determinant_finite : forall A n f x, reads A n n f -> 1 <= n <= 4 -> no_underflow n f -> (1 <= x)%Q ->
  (forall i j, i < n -> j < n -> is_finite (f i j) /\ (Qabs (dval (f i j)) <= x)%Q) ->
  (growth (Factorial.fact n + n - 2) * (inject_Z (Z.of_nat (Factorial.fact n)) * x ^ Z.of_nat n) < limit)%Q ->
  exists d, determinant A = Ok d /\ is_finite d.
Proof.
  intros A n f x HA Hn Hf Hx Hs HL. set (G := growth (Factorial.fact n + n - 2)) in *. assert (G1 : (1 <= G)%Q) by apply growth_ge1.
  assert (FIN : forall k w z r, is_double z -> crt prec64 emax64 r z -> k <= n -> w <= Factorial.fact n -> forall m g, (0 <= m)%Q -> (m <= inject_Z (Z.of_nat w) * x ^ Z.of_nat k)%Q -> (0 <= g <= G)%Q -> (Qabs r <= g * m)%Q -> is_finite z).
  { intros k w z r V C Hk Hw m g M0 M Hg B. apply (in_range_fin r z V C). rewrite <- limit_huge. eapply Qle_lt_trans; [exact B|]. now apply (size_ok n x G k w). }
  assert (GL : forall k w, k <= n -> w <= Factorial.fact n -> (0 <= growth (k + w - 2) <= G)%Q).
  { intros k w Hk Hw. split; [pose proof (growth_ge1 (k + w - 2)); lra|apply growth_mono; lia]. }
  assert (SZ : forall k w w' (b b' : Q * Q), (snd b <= inject_Z (Z.of_nat w) * x ^ Z.of_nat k)%Q -> (snd b' <= inject_Z (Z.of_nat w') * x ^ Z.of_nat k)%Q -> (snd b + snd b' <= inject_Z (Z.of_nat (w + w')) * x ^ Z.of_nat k)%Q).
  { intros k w w' b b' H1 H2. rewrite Nat2Z.inj_add, inject_Z_plus, Qmult_plus_distr_l. lra. }
  destruct (@determinant_rel double (Q * Q) FO' vm (finR x) n A f (fun i j => (values f i j, Qabs (values f i j))) HA Hn) as (d & E & (_ & F & _)).
  - intros k w w' a b a' b' Hk Hw H1 H2 (R & F & S) (R' & F' & S'). assert (RR := nearR_add n _ k w w' a b a' b' (proj2 Hn) Hk Hw H1 H2 R R'). assert (SS := SZ k w w' b b' S S').
    assert (D := conj (proj1 R) F). assert (D' := conj (proj1 R') F'). destruct (add_facts a a' D D') as [V C]. split; [exact RR|]. split; [|exact SS].
    apply (near_mono _ _ (k + (w + w') - 2)) in R; [|lia]. apply (near_mono _ _ (k + (w + w') - 2)) in R'; [|lia]. pose proof (near_size _ _ _ _ _ R F) as B. pose proof (near_size _ _ _ _ _ R' F') as B'. destruct R as (_ & V1 & _), R' as (_ & V2 & _).
    pose proof (Qabs_nonneg (fst b)). pose proof (Qabs_nonneg (fst b')).
    apply (FIN k (w + w') (SFadd prec64 emax64 a a') (dval a + dval a')%Q V C ltac:(lia) Hw (snd b + snd b')%Q (growth (k + (w + w') - 2))); [lra|exact SS|apply GL; lia|]. eapply Qle_trans; [apply Qabs_triangle|]. lra.
  - intros k w w' a b a' b' Hk Hw H1 H2 (R & F & S) (R' & F' & S'). assert (RR := nearR_sub n _ k w w' a b a' b' (proj2 Hn) Hk Hw H1 H2 R R'). assert (SS := SZ k w w' b b' S S').
    assert (D := conj (proj1 R) F). assert (D' := conj (proj1 R') F'). destruct (sub_facts a a' D D') as [V C]. split; [exact RR|]. split; [|exact SS].
    apply (near_mono _ _ (k + (w + w') - 2)) in R; [|lia]. apply (near_mono _ _ (k + (w + w') - 2)) in R'; [|lia]. pose proof (near_size _ _ _ _ _ R F) as B. pose proof (near_size _ _ _ _ _ R' F') as B'. destruct R as (_ & V1 & _), R' as (_ & V2 & _).
    pose proof (Qabs_nonneg (fst b)). pose proof (Qabs_nonneg (fst b')).
    apply (FIN k (w + w') (SFsub prec64 emax64 a a') (dval a - dval a')%Q V C ltac:(lia) Hw (snd b + snd b')%Q (growth (k + (w + w') - 2))); [lra|exact SS|apply GL; lia|]. unfold Qminus. eapply Qle_trans; [apply Qabs_triangle|]. rewrite Qabs_opp. lra.
  - intros k k' w w' a b a' b' Hk Hw K1 K2 H1 H2 (R & F & S) (R' & F' & S'). assert (RR := nearR_mul n _ k k' w w' a b a' b' (proj2 Hn) Hk Hw K1 K2 H1 H2 R R').
    pose proof (near_size _ _ _ _ _ R F) as B. pose proof (near_size _ _ _ _ _ R' F') as B'. assert (D := conj (proj1 R) F). assert (D' := conj (proj1 R') F'). destruct (mul_facts a a' D D') as [V C].
    destruct R as (_ & V1 & _), R' as (_ & V2 & _). pose proof (Qabs_nonneg (fst b)). pose proof (Qabs_nonneg (fst b')).
    assert (SS : (snd b * snd b' <= inject_Z (Z.of_nat (w * w')) * x ^ Z.of_nat (k + k'))%Q).
    { rewrite Nat2Z.inj_mul, Nat2Z.inj_add, inject_Z_mult, Qpower_plus by lra. setoid_replace (inject_Z (Z.of_nat w) * inject_Z (Z.of_nat w') * (x ^ Z.of_nat k * x ^ Z.of_nat k'))%Q with ((inject_Z (Z.of_nat w) * x ^ Z.of_nat k) * (inject_Z (Z.of_nat w') * x ^ Z.of_nat k'))%Q by ring.
      apply Qmult_le_compat_nonneg; (split; [lra|assumption]). }
    split; [exact RR|]. split; [|exact SS]. assert (w + w' <= w * w' + 1) by nia.
    apply (FIN (k + k') (w * w') (SFmul prec64 emax64 a a') (dval a * dval a')%Q V C Hk Hw (snd b * snd b')%Q (growth (k + w - 2) * growth (k' + w' - 2))%Q).
    + apply Qmult_le_0_compat; lra.
    + exact SS.
    + rewrite <- growth_plus. split; [pose proof (growth_ge1 (k + w - 2 + (k' + w' - 2))); lra|]. apply growth_mono. lia.
    + rewrite Qabs_Qmult. setoid_replace (growth (k + w - 2) * growth (k' + w' - 2) * (snd b * snd b'))%Q with ((growth (k + w - 2) * snd b) * (growth (k' + w' - 2) * snd b'))%Q by ring.
      apply Qmult_le_compat_nonneg; (split; [apply Qabs_nonneg|assumption]).
  - intros i j Hi Hj. destruct (Hf i j Hi Hj) as [D U]. destruct (Hs i j Hi Hj) as [F S]. split; [now apply near_elem|]. split; [exact F|]. cbn [snd]. change (inject_Z (Z.of_nat 1)) with 1%Q. change (x ^ Z.of_nat 1)%Q with x. unfold values. lra.
  - exists d. split; [exact E|exact F].
Qed.
End Error.

(** * Cases *)
Definition dz (z : Z) : double := binary_normalize prec64 emax64 z 0 false.
(** Whole numbers: the inverse of ((2,1),(1,3)) has the doubles nearest to 3/5, -1/5, -1/5, 2/5;
    ((1,2),(2,4)) is found singular. *)
Example C101_ex : let A := mkM 2 2 [dz 2; dz 1; dz 1; dz 3] in let B := mkM 2 2 [dz 1; dz 2; dz 2; dz 4] in
  @determinant double (fops tol6) (mb_of_mat A) = Ok (dz 5) /\
  @inverse double (fops tol6) (mb_of_mat A) = Ok (mkM 2 2 [SFdiv prec64 emax64 (dz 3) (dz 5); SFdiv prec64 emax64 (dz (-1)) (dz 5); SFdiv prec64 emax64 (dz (-1)) (dz 5); SFdiv prec64 emax64 (dz 2) (dz 5)]) /\
  @inverse double (fops tol6) (mb_of_mat B) = Ok mat_empty.
Proof. vm_compute. repeat split. Qed.
(** The hypotheses hold for it, and for 3 x 3 elements of size up to 2^30. *)
Definition f22d (i j : nat) : double := match i, j with 0, 0 => dz 2 | 1, 1 => dz 3 | _, _ => dz 1 end.
Example C101_hypotheses : whole 2 f22d 3 0 /\ no_underflow 2 f22d /\ (Z.of_nat (Factorial.fact 2) * 3 ^ Z.of_nat 2 <= 2 ^ 53)%Z /\
  (qdet 2 (values f22d) == 5)%Q /\ ((growth (Factorial.fact 2 + 2 - 2) - 1) * qperm 2 (sizes f22d) < Qabs (qdet 2 (values f22d)))%Q /\
  (growth (Factorial.fact 2 + 2 - 2) * (inject_Z (Z.of_nat (Factorial.fact 2)) * 3 ^ Z.of_nat 2) < limit)%Q.
Proof.
  split; [|split; [|split; [|split; [|split]]]].
  - intros i j Hi Hj. destruct i as [|[|i]]; try lia; destruct j as [|[|j]]; try lia; (split; [split; [reflexivity|exact I]|]); [exists 2%Z|exists 1%Z|exists 1%Z|exists 3%Z]; (split; [reflexivity|lia]).
  - intros i j Hi Hj. destruct i as [|[|i]]; try lia; destruct j as [|[|j]]; try lia; (split; [reflexivity|intros _; right; vm_compute; discriminate]).
  - vm_compute. discriminate.
  - reflexivity.
  - vm_compute. reflexivity.
  - vm_compute. reflexivity.
Qed.
(** The bound is needed: ((1+e, 1), (1, 1-e)) with e = 2^-30 has determinant -2^-60, but the
    computed one is zero and the inverse empty. *)
Theorem C101_inverse_refuted : exists A f, @readsL double A 2 2 f /\ whole 2 f (2 ^ 31) (-30) /\ ~ (qdet 2 (values f) == 0)%Q /\
  @determinant double (fops tol6) A = Ok (S754_zero false) /\ @inverse double (fops tol6) A = Ok mat_empty.
Proof.
  set (m := mkM 2 2 [SFdiv prec64 emax64 (dz (2 ^ 30 + 1)) (dz (2 ^ 30)); one; one; SFdiv prec64 emax64 (dz (2 ^ 30 - 1)) (dz (2 ^ 30))]).
  set (f := fun i j => nth (i * 2 + j) (data m) nan). exists (mb_of_mat m), f. split; [|split; [|split; [|split]]].
  - apply is_mat_readsL. repeat split; try (vm_compute; (reflexivity || lia)). intros i j Hi Hj. destruct i as [|[|i]]; try lia; destruct j as [|[|j]]; try lia; reflexivity.
  - intros i j Hi Hj. destruct i as [|[|i]]; try lia; destruct j as [|[|j]]; try lia; (split; [split; [reflexivity|exact I]|]); [exists (2 ^ 30 + 1)%Z|exists (2 ^ 30)%Z|exists (2 ^ 30)%Z|exists (2 ^ 30 - 1)%Z]; (split; [reflexivity|lia]).
  - vm_compute. discriminate.
  - vm_compute. reflexivity.
  - vm_compute. reflexivity.
Qed.
