(** PropExpm2.v: expm of a nilpotent matrix is exact (C56); the response of simulate scales (C62). *)
From Verif Require Import LinalgFacts2 PropMatrix PropUtil PropMath RingM DetFacts RatOps PropLinalg PropRing PropField PropReal Control ControlSpec ControlFacts PropControl PropControl2 PropExpm.
From mathcomp Require Import all_ssreflect all_algebra.
Set Implicit Arguments.
Unset Strict Implicit.
Unset Printing Implicit Defensive.
Import Order.Theory GRing.Theory Num.Theory.
Local Open Scope ring_scope.

(** The exponential of a nilpotent n x n matrix: a finite sum. *)
Definition nexp (F : fieldType) n (M : 'M[F]_n.+1) : 'M[F]_n.+1 := \sum_(k < n.+1) (k`!%:R)^-1 *: M ^+ k.

Section N.
Variable F : numFieldType.
Lemma factF k : k`!%:R != 0 :> F.
Proof. by rewrite pnatr_eq0 -lt0n fact_gt0. Qed.
Definition expp (m : nat) (a : F) : {poly F} := \poly_(k < m) (a ^+ k / k`!%:R).
Lemma expp_mul m a b k : (k < m)%N -> (expp m a * expp m b)`_k = (expp m (a + b))`_k.
Proof.
  move=> Hk. rewrite coefM [in RHS]coef_poly Hk addrC exprDn mulr_suml. apply: eq_bigr => j _.
  have Hj : (j <= k)%N by rewrite -ltnS.
  rewrite !coef_poly (leq_ltn_trans Hj Hk) (leq_ltn_trans (leq_subr _ _) Hk).
  rewrite -[_ *+ 'C(k, j)]mulr_natr -(bin_fact Hj) 2!natrM 2!invfM.
  have H3 : 'C(k, j)%:R != 0 :> F by rewrite pnatr_eq0 -lt0n bin_gt0.
  have E (x y u v c : F) : c != 0 -> x * u * (y * v) = y * x * c * (c^-1 * (u * v)).
    move=> Hc. by rewrite [RHS]mulrA mulfK // mulrACA [x * y]mulrC.
  exact: E.
Qed.
Lemma horner_mx_coef n (N : 'M[F]_n.+1) (p : {poly F}) : horner_mx N p = \sum_(i < size p) p`_i *: N ^+ i.
Proof.
  rewrite -{1}[p]coefK poly_def rmorph_sum. apply: eq_bigr => i _. by rewrite linearZ /= rmorphX /= horner_mx_X.
Qed.
Lemma horner_mx_nil n (N : 'M[F]_n.+1) m (p q : {poly F}) : N ^+ m = 0 -> (forall k, (k < m)%N -> p`_k = q`_k) -> horner_mx N p = horner_mx N q.
Proof.
  move=> HN H. apply/eqP; rewrite -subr_eq0. have -> : horner_mx N p - horner_mx N q = horner_mx N (p - q) by rewrite rmorphB.
  rewrite horner_mx_coef big1 // => i _. rewrite coefB.
  case: (ltnP i m) => Hi; first by rewrite H // subrr scale0r.
  by rewrite -(subnKC Hi) exprD HN mul0r scaler0.
Qed.
Lemma horner_expp n (N : 'M[F]_n.+1) m a : horner_mx N (expp m a) = \sum_(k < m) (k`!%:R)^-1 *: (a *: N) ^+ k.
Proof.
  rewrite /expp poly_def rmorph_sum. apply: eq_bigr => i _. by rewrite linearZ /= rmorphX /= horner_mx_X exprZn scalerA mulrC.
Qed.
Lemma nexp_add n (M : 'M[F]_n.+1) a b : M ^+ n.+1 = 0 -> nexp (a *: M) * nexp (b *: M) = nexp ((a + b) *: M).
Proof.
  move=> HM. rewrite /nexp -!horner_expp -[_ * _]rmorphM. apply: (horner_mx_nil HM) => k Hk. exact: expp_mul.
Qed.
Lemma nexp_pow n (M : 'M[F]_n.+1) a q : M ^+ n.+1 = 0 -> nexp (a *: M) ^+ q = nexp ((q%:R * a) *: M).
Proof.
  move=> HM. elim: q => [|q IH].
    rewrite expr0 mul0r scale0r /nexp (bigD1 ord0) //= expr0 invr1 scale1r big1 ?addr0 // => i Hi.
    by rewrite expr0n (negbTE (_ : (i : nat) != 0%N)) ?scaler0.
  by rewrite exprS IH nexp_add // [q.+1%:R]mulrS mulrDl mul1r.
Qed.
(** A longer Taylor polynomial of a nilpotent matrix is the same. *)
Lemma taylor_nil n (M : 'M[F]_n.+1) K : M ^+ n.+1 = 0 -> (n <= K)%N -> taylor M K = nexp M.
Proof.
  move=> HM HK. rewrite /taylor /nexp -(subnKC HK) -addSn big_split_ord /= [X in _ + X]big1 ?addr0 // => i _.
  by rewrite exprD HM mul0r scaler0.
Qed.
End N.

Section E.
Variables (F : archiFieldType) (O : Ops F).
Hypothesis HR : realO O.
Hypothesis HZ : exactZ O.
Hypothesis HE : forall x : F, ofeq x 0 = (x == 0).
Let HF : fieldO O. Proof. by case: HR. Qed.
Let HO : ringO O. Proof. by case: HF. Qed.
Hypothesis HA : forall x : F, oabs x = `|x|.
Variable nsqrt : F -> F.

(** The scaling and squaring and the cut of the series do not matter: the result is the
    exponential itself. *)
Theorem C56_nilpotent (m : Mat.Matrix F) n (M : 'M[F]_n.+1) fuel acc E : is_mx m M -> M ^+ n.+1 = 0 ->
  expm nsqrt (2%:R^-1) fuel (mb_of_mat m) acc = Ok E -> is_mx E (\sum_(k < n.+1) (k`!%:R)^-1 *: M ^+ k).
Proof.
  move=> Hm HM EE. have [norm [s [c [_ _ _ Hc H]]]] := C56_expm HR HZ HE HA Hm EE.
  apply: is_mx_ext; first exact: H. rewrite -/(taylor _ _) taylor_nil.
  - rewrite nexp_pow // natrX mulfV ?scale1r // expf_neq0 // pnatr_eq0 //.
  - by rewrite exprZn HM scaler0.
  - apply: (@leq_trans (n.+1 ^ 2)); last by rewrite leq_pmull.
    rewrite expnS expn1. by rewrite (leq_trans (leqnSn n)) // leq_pmulr.
Qed.
(** expm(A*(s+t)) == expm(A*s) * expm(A*t) and expm(A) has the inverse expm(-A). *)
Theorem C56_semigroup (m m1 m2 m12 E1 E2 E12 : Mat.Matrix F) n (M : 'M[F]_n.+1) f1 f2 f12 acc s t :
  is_mx m M -> M ^+ n.+1 = 0 ->
  m_muls (mb_of_mat m) s = Ok m1 -> m_muls (mb_of_mat m) t = Ok m2 -> m_muls (mb_of_mat m) (s + t) = Ok m12 ->
  expm nsqrt (2%:R^-1) f1 (mb_of_mat m1) acc = Ok E1 -> expm nsqrt (2%:R^-1) f2 (mb_of_mat m2) acc = Ok E2 ->
  expm nsqrt (2%:R^-1) f12 (mb_of_mat m12) acc = Ok E12 -> m_mul (mb_of_mat E1) (mb_of_mat E2) = Ok E12.
Proof.
  move=> Hm HM A1 A2 A12 X1 X2 X12.
  have sc x y : m_muls (mb_of_mat m) x = Ok y -> is_mx y (x *: M).
    have [y' [-> H _]] := m_muls_mx HO x (is_mx_reads Hm). case=> <-. exact: H.
  have nil x : (x *: M) ^+ n.+1 = 0 by rewrite exprZn HM scaler0.
  have H1 := C56_nilpotent (sc _ _ A1) (nil _) X1. have H2 := C56_nilpotent (sc _ _ A2) (nil _) X2. have H12 := C56_nilpotent (sc _ _ A12) (nil _) X12.
  have [P [-> HP _]] := m_mul_mxL HO (is_mx_reads H1) (is_mx_reads H2) (shape_mx (is_mx_reads H1)). congr Ok.
  apply: is_mx_unique HP _. apply: is_mx_ext; first exact: H12. exact: esym (nexp_add s t HM).
Qed.
End E.

(** * C62: scaling *)
Section R.
Variables (R : comRingType) (O : Ops R).
Hypothesis HO : ringO O.
Lemma traj_scale n m (A B : nat -> nat -> R) (u u' : nat -> nat -> R) (x x' : nat -> R) s N :
  (forall k i, (k < N)%N -> (i < m)%N -> u' k i = u k i * s) -> (forall i, (i < n)%N -> x' i = x i * s) ->
  forall k, (k <= N)%N -> forall i, (i < n)%N -> traj n m A B u' x' k i = traj n m A B u x k i * s.
Proof.
  move=> Hu Hx. elim=> [|k IH] Hk i Hi; first exact: Hx.
  rewrite /= !(osumE HO) !(oaddE HO) mulrDl !mulr_suml. congr (_ + _); apply: eq_bigr => j _; rewrite /= !(omulE HO) -mulrA.
    by rewrite IH // ltnW.
  by rewrite Hu.
Qed.
Lemma outp_scale n m (A B C D : nat -> nat -> R) (u u' : nat -> nat -> R) (x x' : nat -> R) s N :
  (forall k i, (k < N)%N -> (i < m)%N -> u' k i = u k i * s) -> (forall i, (i < n)%N -> x' i = x i * s) ->
  forall k, (k < N)%N -> forall i, outp n m A B C D u' x' k i = outp n m A B C D u x k i * s.
Proof.
  move=> Hu Hx k Hk i. rewrite /outp !(osumE HO) !(oaddE HO) mulrDl !mulr_suml. congr (_ + _); apply: eq_bigr => j _; rewrite /= !(omulE HO) -mulrA.
    by rewrite (traj_scale A B Hu Hx (ltnW Hk)).
  by rewrite Hu.
Qed.
Lemma v_muls_is (a c : seq R) s n f : is_vec a n f -> is_vec c n (fun i => f i * s) -> v_muls a s = Ok c.
Proof.
  move=> Ha Hc. have [d [-> Hd]] := C32_vec_mul_scalar s a n f Ha. congr Ok.
  apply: is_vec_unique; first exact: Hd. apply: is_vec_ext; first exact: Hc. move=> i _. by rewrite /= (omulE HO).
Qed.
Lemma v_muls_vec (a c : seq R) s n f : is_vec a n f -> v_muls a s = Ok c -> is_vec c n (fun i => f i * s).
Proof.
  move=> Ha E. have [d [Ed Hd]] := C32_vec_mul_scalar s a n f Ha. move: E. rewrite Ed. case=> <-.
  apply: is_vec_ext; first exact: Hd. move=> i _. by rewrite /= (omulE HO).
Qed.
(** Scaling the initial state and every input scales every state and output. *)
Theorem C62_scaling trunc (sys : DSS R) (u u' : seq (seq R)) s tm q K (x0 x0' : seq R) n m p fA fB fC fD fx fu fu' :
  is_mat (sA (dsys sys)) n n fA -> is_mat (sB (dsys sys)) n m fB -> is_mat (sC (dsys sys)) p n fC -> is_mat (sD (dsys sys)) p m fD -> fits p ->
  odiv tm (sample_time sys) = Ok q -> trunc q = Ok K ->
  is_vec x0 n fx -> inputs u m fu -> inputs u' m fu' ->
  v_muls x0 s = Ok x0' -> length u' = length u ->
  (forall k a b, nth_error u k = Some a -> nth_error u' k = Some b -> v_muls a s = Ok b) ->
  exists t t' x y x' y', [/\ simulate trunc sys u tm x0 = Ok (t, x, y), simulate trunc sys u' tm x0' = Ok (t', x', y'), t' = t,
    (forall k, (k <= Nat.min (length u) K)%N -> exists a b, [/\ nth_error x k = Some a, nth_error x' k = Some b & v_muls a s = Ok b]) &
    (forall k, (k < Nat.min (length u) K)%N -> exists a b, [/\ nth_error y k = Some a, nth_error y' k = Some b & v_muls a s = Ok b])].
Proof.
  move=> HA HB HC HD Fp Hq HK Hx Hu Hu' Ex L1 Eu.
  have Hx' := v_muls_vec Hx Ex.
  have [t [x [y [E1 T1 X1 Y1 [Q1 P1 R1 S1]]]]] := C61_simulate HA HB HC HD Hx Hu Fp Hq HK.
  have [t' [x' [y' [E2 T2 X2 Y2 [Q2 P2 R2 S2]]]]] := C61_simulate HA HB HC HD Hx' Hu' Fp Hq HK.
  rewrite L1 in T2 X2 Y2 Q2 P2 R2 S2. set N := Nat.min _ K in T1 X1 Y1 Q1 P1 R1 S1 T2 X2 Y2 Q2 P2 R2 S2 *.
  exists t, t', x, y, x', y'.
  have UU k i : (k < N)%N -> (i < m)%N -> fu' k i = fu k i * s.
    move=> Hk Hi. have Hl : (k < length u)%coq_nat by apply/ssrnat.ltP; apply: (leq_trans Hk); apply/ssrnat.leP; exact: Nat.le_min_l.
    have [a Ea] := nth_error_lt u k Hl. have [|b Eb] := nth_error_lt u' k; first by rewrite L1.
    apply: (vec_fun (Hu' _ _ Eb) (v_muls_vec (Hu _ _ Ea) (Eu _ _ _ Ea Eb)) Hi).
  split=> //.
  - apply: list_ext; first by rewrite T1 T2.
    move=> i; rewrite T2 => /ssrnat.ltP; rewrite ltnS leq_eqVlt => /orP [/eqP ->|Hi]; by rewrite ?S1 ?S2 ?R1 ?R2.
  - move=> k Hk. have [a [Ea Va]] := Q1 k Hk. have [b [Eb Vb]] := Q2 k Hk. exists a, b. split=> //.
    apply: v_muls_is Va _. apply: is_vec_ext; first exact: Vb. move=> i /ssrnat.ltP Hi. by apply: (traj_scale fA fB UU _ Hk Hi).
  - move=> k Hk. have [a [Ea Va]] := P1 k Hk. have [b [Eb Vb]] := P2 k Hk. exists a, b. split=> //.
    apply: v_muls_is Va _. apply: is_vec_ext; first exact: Vb. move=> i _. by apply: (outp_scale fA fB fC fD UU _ Hk).
Qed.
End R.
