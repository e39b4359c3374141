(** PropExact.v: C118, how far a run of a discretised system is from the exact solution of the
    continuous one at the sample times, over an archimedean field, in exact arithmetic. *)
From Verif Require Import LinalgFacts2 PropMatrix PropUtil PropMath RingM DetFacts RatOps PropLinalg PropRing PropField PropReal Control ControlSpec ControlFacts PropControl PropControl2 PropExpm ExpBound PropExpmBound PropSteady.
From mathcomp Require Import all_ssreflect all_algebra.
Set Implicit Arguments.
Unset Strict Implicit.
Unset Printing Implicit Defensive.
Import Order.Theory GRing.Theory Num.Theory.
Local Open Scope ring_scope.
Local Opaque simulate expm.

(** Z is the solution of x' = A x + B u at the sample times, with the input held at U k between
    the times k and k + 1: X is exp(A * ts), and W k is the equilibrium of the input U k
    (A W k + B U k = 0), towards or away from which the solution moves: Z(k+1) - W = X (Z(k) - W). *)
Definition exact_run (F : fieldType) n m (A X : 'M[F]_n) (B : 'M[F]_(n, m)) (U : nat -> 'cV[F]_m) (W Z : nat -> 'cV[F]_n) : Prop :=
  forall k, A *m W k + B *m U k = 0 /\ Z k.+1 = W k + X *m (Z k - W k).

(** X is the exponential of M up to dl: the sums of the first terms M^k/k! get, and stay, within any
    distance above dl of X.  With dl = 0 this is [is_exponential]. *)
Definition exponential_upto (F : numFieldType) n (M X : 'M[F]_n.+1) (dl : F) : Prop :=
  forall eps, 0 < eps -> exists L0, forall L, (L0 <= L)%N -> within X (\sum_(k < L.+1) (k`!%:R)^-1 *: M ^+ k) (dl + eps).

Section Algebra.
Variable F : archiFieldType.
Lemma closed_rec n m (Ad : 'M[F]_n.+1) (Bd : 'M[F]_(n.+1, m)) (U : nat -> 'cV[F]_m) X0 k :
  Ad ^+ k.+1 *m X0 + \sum_(j < k.+1) Ad ^+ (k - j) *m Bd *m U j = Ad *m (Ad ^+ k *m X0 + \sum_(j < k) Ad ^+ (k.-1 - j) *m Bd *m U j) + Bd *m U k.
Proof.
  rewrite big_ord_recr /= subnn expr0 mul1mx addrA. congr (_ + _). rewrite mulmxDr exprS -mulmxA. congr (_ + _). rewrite mulmx_sumr. apply: eq_bigr => j _.
  rewrite !mulmxA -[Ad *m Ad ^+ _]/(Ad * Ad ^+ _) -exprS. congr (_ ^+ _ *m _ *m _). case: k j => [[]|k] //= j. by rewrite subSn // -ltnS.
Qed.
Lemma mulv_bound n (M : 'M[F]_n) (v : 'cV[F]_n) a b : (forall i, \sum_j `|M i j| <= a) -> (forall i, `|v i 0| <= b) -> forall i, `|(M *m v) i 0| <= a * b.
Proof.
  move=> HM Hv i. have b0 : 0 <= b by apply: le_trans (Hv i). rewrite mxE. apply: le_trans (ler_norm_sum _ _ _) _.
  apply: le_trans (_ : \sum_j `|M i j| * b <= _); last by rewrite -mulr_suml; apply: ler_wpmul2r.
  apply: ler_sum => j _. rewrite normrM. exact: ler_wpmul2l.
Qed.
Lemma sub_el n (M N : 'cV[F]_n) i : (M - N) i 0 = M i 0 - N i 0. Proof. by rewrite !mxE. Qed.
Lemma add_el n (M N : 'cV[F]_n) i : (M + N) i 0 = M i 0 + N i 0. Proof. by rewrite !mxE. Qed.
Lemma err_step n m (Ad X : 'M[F]_n) (Bd : 'M[F]_(n, m)) (S Z W : 'cV[F]_n) (U : 'cV[F]_m) : Ad *m W + Bd *m U = W ->
  Ad *m S + Bd *m U - (W + X *m (Z - W)) = Ad *m (S - Z) + (Ad - X) *m (Z - W).
Proof.
  move=> Fix. have -> : Bd *m U = W - Ad *m W by rewrite -{1}Fix addrC addKr.
  rewrite mulmxBl. move: (X *m (Z - W)) => XT. rewrite !mulmxBr. move: (Ad *m S) (Ad *m Z) (Ad *m W) => a z b. by rewrite opprD !addrA subrK [a + W - b]addrAC addrK.
Qed.
End Algebra.

Section E.
Variables (F : archiFieldType) (O : Ops F).
Hypothesis HR : realO O.
Hypothesis HZ : exactZ O.
Hypothesis HE : forall x : F, ofeq x 0 = (x == 0).
Let HF : fieldO O. Proof. by case: HR. Qed.
Let HO : ringO O. Proof. by case: HF. Qed.
Variable nsqrt : F -> F.
Hypothesis Habs : forall x : F, oabs x = `|x|.
Variables (sys : SS F) (ts acc : F) (fuel : nat) (n m p : nat) (A : 'M[F]_n.+1) (B : 'M[F]_(n.+1, m.+1)) (C : 'M[F]_(p.+1, n.+1)) (D : 'M[F]_(p.+1, m.+1)) (d : DSS F).
Hypotheses (HA : is_mx (sA sys) A) (HB : is_mx (sB sys) B) (HC : is_mx (sC sys) C) (HD : is_mx (sD sys) D).
Hypotheses (Hn : (n.+1 <= 5)%N) (Hd : \det A != 0) (Ed : c2d nsqrt (2%:R^-1) acc fuel sys ts = Ok d).
Let unitA : A \in unitmx. Proof. by rewrite unitmxE unitfE. Qed.

Lemma run_near (X : 'M[F]_n.+1) dl : exponential_upto (ts *: A) X dl ->
  exists norm K, [/\ (forall i, \sum_j `|ts * A i j| <= norm), (exists i, \sum_j `|ts * A i j| = norm), (n.+1 ^ 2 <= K)%N &
  forall e, (forall N, dl + \sum_(K.+1 <= k < N) (k`!%:R)^-1 * norm ^+ k <= e) ->
  forall trunc u tm q k0 init (U : nat -> 'cV[F]_m.+1) (W Z : nat -> 'cV[F]_n.+1) h r,
  is_vec init n.+1 (cvf (Z 0%N)) -> inputs u m.+1 (fun k => cvf (U k)) -> odiv tm ts = Ok q -> trunc q = Ok k0 ->
  exact_run A X B U W Z -> (forall i, \sum_j `|X i j| <= h) -> (forall k i, `|Z k i 0 - W k i 0| <= r) ->
  exists t x y, [/\ simulate trunc d u tm init = Ok (t, x, y), length x = (Nat.min (length u) k0).+1 &
    forall k, (k <= Nat.min (length u) k0)%N -> exists xk (V : 'cV[F]_n.+1), [/\ nth_error x k = Some xk, is_vec xk n.+1 (cvf V) &
      forall i, `|V i 0 - Z k i 0| <= e * r * \sum_(j < k) (h + e) ^+ j]]].
Proof.
  move=> HX. have [s [K0 [Bd [HK _ HAd [HBd EB] [HC' HD' ET]]]]] := @c2d_parts F O HR HZ HE nsqrt Habs sys ts acc fuel n m p (p, m) A B C D d HA HB HC HD Hn Hd Ed.
  set Ad := taylor _ _ ^+ _ in HAd EB. have AC : A *m Ad = Ad *m A by apply: taylor_comm. clearbody Ad.
  have [At [EAt HAt _]] := m_muls_mx HO ts (is_mx_reads HA).
  have [E EE] : exists E, expm nsqrt (2%:R^-1) fuel (mb_of_mat At) acc = Ok E.
    move: Ed. rewrite /c2d EAt bindOk. case: (expm _ _ _ _ _) => // E _. by exists E.
  have [norm [K [s' [Y [En HK' HY HB']]]]] := C103_expm HR HZ HE Habs HAt EE.
  have EY : Y = Ad.
    have [d' [Bd' [Ed' EA _ _ _]]] := C63_c2d HR HZ HA HB HC (q := (p, m)) HD Hn Hd EAt EE HY. move: Ed'. rewrite Ed => -[Ed'].
    rewrite -Ed' in EA. rewrite EA in HAd. exact: is_mx_fun HY HAd.
  subst Y. have [|x [Ex Hx Hx']] := proj2 (C40_infinity_norm_matrix (ab := oabs) HR _ HAt) isT; first by move=> y; rewrite Habs.
  move: Ex. rewrite En => -[Ex]. subst x. exists norm, K.

  have Em i : \sum_j `|ts * A i j| = \sum_(j < n.+1) oabs (mxf (ts *: A) i j) by apply: eq_bigr => j _; rewrite mxfE Habs mxE.
  split=> //.
  - move=> i. rewrite Em. exact: Hx (ltn_ord i).
  - have [i [Hi ->]] := Hx'. by exists (Ordinal Hi); rewrite Em.
  move=> e Hte trunc u tm q k0 init U W Z h r H0 Hu Hq Hk0 Hrun Hh Hr.
  have He : within Ad X e.
    move=> i. apply/ler_addgt0Pr => eps He. have [L0 H1] := HX _ He. set L := maxn L0 K. have {}H1 := H1 L (leq_maxl _ _) i. have {}HB' := HB' L (leq_maxr _ _) i.
    set T := \sum_(k < L.+1) _ in H1 HB'. apply: le_trans (_ : \sum_j `|Ad i j - T i j| + \sum_j `|X i j - T i j| <= _).
      rewrite -big_split /=. apply: ler_sum => j _. rewrite [`|X i j - _|]distrC. exact: ler_dist_add.
    apply: le_trans (ler_add HB' H1) _. rewrite addrA ler_add2r addrC. exact: Hte.
  have Fp : fits p.+1.
    have [_ [_ S]] := shape_mx (is_mx_reads HC). apply: fits_le S. apply/ssrnat.leP. exact: (@leq_pmulr p.+1 n.+1 isT).
  rewrite -ET in Hq. have [t [x [y [Es _ L2 L3 [Q1 Q2 _ _]]]]] := C61_closed_form HO HAd HBd HC' HD' H0 Hu Fp Hq Hk0.
  exists t, x, y. split=> // k Hk. have [xk [E1 V1]] := Q1 k Hk. exists xk. eexists. split; [exact: E1|exact: V1|].
  have e0 : 0 <= e by apply: le_trans (He ord0); apply: sumr_ge0.
  have HAr i : \sum_j `|Ad i j| <= h + e.
    apply: le_trans (ler_add (Hh i) (He i)). rewrite -big_split /=. apply: ler_sum => j _. rewrite addrC. apply: le_trans (ler_norm_add _ _). by rewrite subrK.
  have HDX i : \sum_j `|(Ad - X) i j| <= e by rewrite (eq_bigr (fun j => `|Ad i j - X i j|)) => [|j _]; rewrite ?mxE //; exact: He.
  have Fix k' : Ad *m W k' + Bd *m U k' = W k'.
    have [HW _] := Hrun k'. apply/eqP. rewrite -subr_eq0. have H1 : A *m (Ad *m W k' + Bd *m U k' - W k') = 0.
      rewrite mulmxBr mulmxDr !mulmxA EB AC mulmxBl mulmxBl mul1mx addrA -mulmxA -[Ad *m B *m U _]mulmxA -mulmxDr HW mulmx0 add0r.
      by rewrite -opprD addrC HW oppr0.
    by move/(congr1 (mulmx (invmx A))): H1; rewrite mulmx0 mulKmx // => ->.
  elim: k {Hk xk E1 V1} => [|k IH] i; first by rewrite !big_ord0 addr0 expr0 mul1mx subrr normr0 mulr0.
  rewrite closed_rec. set S := Ad ^+ k *m _ + _ in IH *. have [_ ->] := Hrun k.
  rewrite -sub_el (err_step _ _ _ (Fix k)) add_el.
  rewrite big_ord_recl expr0 mulrDr mulr1 [X in _ <= X]addrC. apply: le_trans (ler_norm_add _ _) _. apply: ler_add.
    rewrite (eq_bigr (fun j : 'I_k => (h + e) * (h + e) ^+ j)) => [|j _]; last by rewrite /= /bump leq0n add1n exprS.
    rewrite -mulr_sumr mulrCA. apply: mulv_bound => // j. rewrite sub_el. exact: IH.
  apply: mulv_bound => // j. rewrite sub_el. exact: Hr.
Qed.
(** The run of the discretised system is within e r (1 + (h + e) + ... + (h + e)^(k-1)) of the exact one after k steps, where h bounds the
    exponential X, r the distance of the exact solution from the equilibria of its inputs, and e is dl plus the rest of the exponential series after the
    K terms that expm adds.  When h + e < 1 the distance stays below e r/(1 - (h + e)) for ever. *)
Theorem C118_run (X : 'M[F]_n.+1) dl : exponential_upto (ts *: A) X dl ->
  exists norm K, [/\ (forall i, \sum_j `|ts * A i j| <= norm), (exists i, \sum_j `|ts * A i j| = norm), (n.+1 ^ 2 <= K)%N &
  forall e, (forall N, dl + \sum_(K.+1 <= k < N) (k`!%:R)^-1 * norm ^+ k <= e) ->
  forall trunc u tm q k0 init (U : nat -> 'cV[F]_m.+1) (W Z : nat -> 'cV[F]_n.+1) h r,
  is_vec init n.+1 (cvf (Z 0%N)) -> inputs u m.+1 (fun k => cvf (U k)) -> odiv tm ts = Ok q -> trunc q = Ok k0 ->
  exact_run A X B U W Z -> (forall i, \sum_j `|X i j| <= h) -> (forall k i, `|Z k i 0 - W k i 0| <= r) ->
  exists t x y, [/\ simulate trunc d u tm init = Ok (t, x, y), length x = (Nat.min (length u) k0).+1 &
    forall k, (k <= Nat.min (length u) k0)%N -> exists xk (V : 'cV[F]_n.+1), [/\ nth_error x k = Some xk, is_vec xk n.+1 (cvf V) &
      forall i, `|V i 0 - Z k i 0| <= e * r * (\sum_(j < k) (h + e) ^+ j) /\ (h + e < 1 -> `|V i 0 - Z k i 0| <= e * r / (1 - (h + e)))]]].
Proof.
  move=> HX. have [norm [K [N1 N2 N3 H]]] := run_near HX. exists norm, K. split=> // e Hte.
  have dl0 : 0 <= dl.
    apply/ler_addgt0Pr => eps He. have [L0 HL] := HX _ He. apply: le_trans (HL L0 (leqnn _) ord0). exact: sumr_ge0.
  have e0 : 0 <= e by have := Hte 0%N; rewrite big_geq // addr0; exact: le_trans.
  move=> trunc u tm q k0 init U W Z h r H0 Hu Hq Hk Hrun Hh Hr. have [t [x [y [E1 E2 E3]]]] := H e Hte trunc u tm q k0 init U W Z h r H0 Hu Hq Hk Hrun Hh Hr.
  exists t, x, y. split=> // k Hk'. have [xk [V [V1 V2 V3]]] := E3 k Hk'. exists xk, V. split=> // i. split=> // Hhe.
  apply: le_trans (V3 i) _. apply: ler_wpmul2l; first by apply: mulr_ge0 => //; apply: le_trans (Hr 0%N i).
  have h0 : 0 <= h by apply: le_trans (Hh ord0); exact: sumr_ge0.
  have P : 0 < 1 - (h + e) by rewrite subr_gt0.
  rewrite -[_^-1]mul1r ler_pdivl_mulr // mulrC -[X in X * _]opprB mulNr -subrX1 opprB. by rewrite ler_subl_addr ler_addl exprn_ge0 // addr_ge0.
Qed.
(** The case dl = 0: with the exponential itself, e can be norm^(K+1)/(K+1)! (K+2)/(K+2-norm). *)
Theorem C118_exponential (X : 'M[F]_n.+1) : is_exponential (ts *: A) X ->
  exists norm K, [/\ (forall i, \sum_j `|ts * A i j| <= norm), (exists i, \sum_j `|ts * A i j| = norm), (n.+1 ^ 2 <= K)%N &
  forall e, (forall N, \sum_(K.+1 <= k < N) (k`!%:R)^-1 * norm ^+ k <= e) \/ norm < K.+2%:R /\ e = norm ^+ K.+1 / K.+1`!%:R * (K.+2%:R / (K.+2%:R - norm)) ->
  forall trunc u tm q k0 init (U : nat -> 'cV[F]_m.+1) (W Z : nat -> 'cV[F]_n.+1) h r,
  is_vec init n.+1 (cvf (Z 0%N)) -> inputs u m.+1 (fun k => cvf (U k)) -> odiv tm ts = Ok q -> trunc q = Ok k0 ->
  exact_run A X B U W Z -> (forall i, \sum_j `|X i j| <= h) -> (forall k i, `|Z k i 0 - W k i 0| <= r) ->
  exists t x y, [/\ simulate trunc d u tm init = Ok (t, x, y), length x = (Nat.min (length u) k0).+1 &
    forall k, (k <= Nat.min (length u) k0)%N -> exists xk (V : 'cV[F]_n.+1), [/\ nth_error x k = Some xk, is_vec xk n.+1 (cvf V) &
      forall i, `|V i 0 - Z k i 0| <= e * r * (\sum_(j < k) (h + e) ^+ j) /\ (h + e < 1 -> `|V i 0 - Z k i 0| <= e * r / (1 - (h + e)))]]].
Proof.
  move=> HX. have HX' : exponential_upto (ts *: A) X 0 by move=> eps He; have [L0 H] := HX _ He; exists L0 => L HL; rewrite add0r; exact: H.
  have [norm [K [N1 N2 N3 H]]] := C118_run HX'. exists norm, K. split=> // e He.
  have N0 : 0 <= norm by apply: le_trans (N1 ord0); exact: sumr_ge0.
  have Hte : forall N, 0 + \sum_(K.+1 <= k < N) (k`!%:R)^-1 * norm ^+ k <= e.
    move=> N. rewrite add0r. case: He => [He|[He ->]]; first exact: He. rewrite [norm ^+ _ / _]mulrC.
    case: N => [|N]; last exact: eterm_tail. rewrite big_geq //. by have := eterm_tail K N0 He; rewrite big_geq.
  exact: H.
Qed.
End E.
