(** PropSteady.v: equilibria and modes of a discretised system (C111), over an archimedean
    field, in exact arithmetic.  However coarse the exponential is, c2d keeps the equilibria,
    and a real mode that decays, or grows, goes on to do so for every sample time. *)
From Verif Require Import LinalgFacts2 PropMatrix PropUtil PropMath RingM DetFacts RatOps PropLinalg PropRing PropField PropReal Control ControlSpec ControlFacts PropControl PropControl2 PropExpm ExpBound PropExpmBound.
From mathcomp Require Import all_ssreflect all_algebra.
Set Implicit Arguments.
Unset Strict Implicit.
Unset Printing Implicit Defensive.
Import Order.Theory GRing.Theory Num.Theory.
Local Open Scope ring_scope.

(** * The Taylor sum of the exponential at a number *)
Section Sums.
Variable F : archiFieldType.
Definition esum (K : nat) (z : F) : F := \sum_(k < K.+1) (k`!%:R)^-1 * z ^+ k.
Let a (y : F) k := (k`!%:R)^-1 * y ^+ k.
Let alt (y : F) j N := \sum_(i < N) (-1) ^+ i * a y (j + i).
Lemma term_ge0 y k : 0 <= y -> 0 <= a y k.
Proof. move=> Hy. by rewrite mulr_ge0 ?invr_ge0 ?ler0n // exprn_ge0. Qed.
Lemma term_le y k : 0 <= y -> y <= 1 -> a y k.+1 <= a y k.
Proof.
  move=> H0 H1. rewrite /a factS natrM invfM exprS mulrACA [k.+1%:R^-1 * y]mulrC -[X in _ <= X]mul1r.
  apply: ler_wpmul2r; first exact: term_ge0. rewrite ler_pdivr_mulr ?ltr0Sn // mul1r. apply: le_trans H1 _. by rewrite ler1n.
Qed.
Lemma alt_rec y j N : alt y j N.+1 = a y j - alt y j.+1 N.
Proof.
  rewrite /alt big_ord_recl expr0 mul1r addn0. congr (_ + _). rewrite -sumrN. apply: eq_bigr => i _.
  by rewrite /= /bump leq0n add1n exprS mulN1r addnS addSn mulNr.
Qed.
Lemma alt_bounds y N : 0 <= y -> y <= 1 -> forall j, 0 <= alt y j N <= a y j.
Proof.
  move=> H0 H1. elim: N => [|N IH] j; first by rewrite /alt big_ord0 lexx; apply: term_ge0.
  rewrite alt_rec. have /andP [L U] := IH j.+1. rewrite subr_ge0 (le_trans U (term_le j H0 H1)) /=. by rewrite ler_subl_addl ler_addr.
Qed.
Lemma esum_alt y K : esum K (- y) = alt y 0 K.+1.
Proof. apply: eq_bigr => i _. by rewrite /a add0n [(- y) ^+ i]exprNn mulrCA. Qed.
Lemma esum_neg K z : (0 < K)%N -> -1 <= z -> z < 0 -> 0 <= esum K z < 1.
Proof.
  move=> HK H1 H0. rewrite -[z]opprK esum_alt. set y := - z. have y0 : 0 < y by rewrite oppr_gt0. have y1 : y <= 1 by rewrite ler_oppl.
  have /andP [L _] := alt_bounds K.+1 (ltW y0) y1 0. rewrite L /= alt_rec {1}/a fact0 invr1 expr0 mulr1 ltr_subl_addl ltr_addr.
  case: K HK L => // K _ _. rewrite alt_rec subr_gt0. have /andP [_ U] := alt_bounds K (ltW y0) y1 2. apply: le_lt_trans U _.
  rewrite /a -[2`!]/2%N -[1`!]/1%N invr1 expr1 mul1r expr2. have y2 : y * y <= y by rewrite -[X in _ <= X]mulr1 ler_pmul2l.
  apply: le_lt_trans (_ : 2%:R^-1 * y < y); first by apply: ler_wpmul2l => //; rewrite invr_ge0 ler0n.
  by rewrite -[X in _ < X]mul1r ltr_pmul2r // invf_lt1 ?ltr0n // ltr1n.
Qed.
Lemma esum_pos K z : (0 < K)%N -> 0 <= z -> 1 + z <= esum K z.
Proof.
  case: K => // K _ H. rewrite /esum !big_ord_recl /= fact0 expr0 factS fact0 expr1 !invr1 !mul1r addrA ler_addl.
  apply: sumr_ge0 => i _. by rewrite mulr_ge0 ?exprn_ge0 ?invr_ge0 ?ler0n.
Qed.
Lemma bernoulli k (z : F) : 0 <= z -> 1 + k%:R * z <= (1 + z) ^+ k.
Proof.
  move=> H. elim: k => [|k IH]; first by rewrite mul0r addr0 expr0.
  rewrite exprS. apply: le_trans (_ : (1 + z) * (1 + k%:R * z) <= _); last by apply: ler_wpmul2l => //; apply: addr_ge0 => //; exact: ler01.
  rewrite mulrDl mul1r mulrDr mulr1 -addn1 natrD mulrDl mul1r -!addrA ler_add2l ler_add2l ler_addl. by rewrite mulr_ge0 // mulr_ge0 ?ler0n.
Qed.
End Sums.

Section E.
Variables (F : archiFieldType) (O : Ops F).
Hypothesis HR : realO O.
Hypothesis HZ : exactZ O.
Hypothesis HE : forall x : F, ofeq x 0 = (x == 0).
Let HF : fieldO O. Proof. by case: HR. Qed.
Let HO : ringO O. Proof. by case: HF. Qed.
Variable nsqrt : F -> F.
Hypothesis Habs : forall x : F, oabs x = `|x|.

Lemma taylor_mode n (X : 'M[F]_n.+1) K (v : 'cV[F]_n.+1) z : X *m v = z *: v -> taylor X K *m v = esum K z *: v.
Proof.
  move=> H. have P k : X ^+ k *m v = z ^+ k *: v.
    elim: k => [|k IH]; first by rewrite !expr0 mul1mx scale1r.
    by rewrite exprSr -mulmxA H -scalemxAr IH scalerA -exprS.
  rewrite /taylor mulmx_suml /esum scaler_suml. apply: eq_bigr => k _. by rewrite -scalemxAl P scalerA.
Qed.
Lemma power_mode n (X : 'M[F]_n.+1) k (v : 'cV[F]_n.+1) z : X *m v = z *: v -> X ^+ k *m v = z ^+ k *: v.
Proof.
  move=> H. elim: k => [|k IH]; first by rewrite !expr0 mul1mx scale1r.
  by rewrite exprSr -mulmxA H -scalemxAr IH scalerA -exprS.
Qed.
Lemma mode_bound n (X : 'M[F]_n.+1) b (v : 'cV[F]_n.+1) z : rows_le X b -> X *m v = z *: v -> v != 0 -> `|z| <= b.
Proof.
  move=> HX H Hv. have [i _ Hi] := @arg_maxP _ _ _ ord0 xpredT (fun i => `|v i 0|) isT.
  have V0 : 0 < `|v i 0|.
    rewrite lt_neqAle normr_ge0 andbT eq_sym. apply: contra Hv => /eqP V0. apply/eqP/matrixP => j k. rewrite ord1 mxE. apply/eqP.
    by rewrite -normr_le0 -V0; apply: Hi.
  rewrite -(ler_pmul2r V0) -normrM. have <- : (X *m v) i 0 = z * v i 0 by rewrite H mxE.
  rewrite mxE. apply: le_trans (ler_norm_sum _ _ _) _. apply: le_trans (_ : \sum_j `|X i j| * `|v i 0| <= _).
    apply: ler_sum => j _. rewrite normrM. apply: ler_wpmul2l => //. exact: Hi.
  by rewrite -mulr_suml ler_pmul2r //; exact: HX.
Qed.

(** Everything c2d says about A and B. *)
Lemma c2d_parts (sys : SS F) ts acc fuel n m p q (A : 'M[F]_n.+1) (B : 'M[F]_(n.+1, m.+1)) (C : 'M[F]_(p.+1, n.+1)) (D : 'M[F]_(q.1.+1, q.2.+1)) d :
  is_mx (sA sys) A -> is_mx (sB sys) B -> is_mx (sC sys) C -> is_mx (sD sys) D -> (n.+1 <= 5)%N -> \det A != 0 -> c2d nsqrt (2%:R^-1) acc fuel sys ts = Ok d ->
  exists s K Bd, let X := (ts / 2%:R ^+ s) *: A in let Ad := taylor X K ^+ (2 ^ s) in
   [/\ (0 < K)%N, rows_le X 1, is_mx (sA (dsys d)) Ad, is_mx (sB (dsys d)) Bd /\ A *m Bd = (Ad - 1%:M) *m B &
     [/\ is_mx (sC (dsys d)) C, is_mx (sD (dsys d)) D & sample_time d = ts]].
Proof.
  move=> HA HB HC HD Hn Hd Ed. have [At [EAt HAt _]] := m_muls_mx HO ts (is_mx_reads HA).
  have [E EE] : exists E, expm nsqrt (2%:R^-1) fuel (mb_of_mat At) acc = Ok E.
    move: Ed. rewrite /c2d EAt bindOk. case: (expm _ _ _ _ _) => // E _. by exists E.
  have [norm [s [c [En N1 _ Hc HE']]]] := C56_expm HR HZ HE Habs HAt EE. have [R _] := norm_rows HR Habs HAt En.
  have [d' [Bd [Ed' EA [HBd EB] [EC ED] ET]]] := C63_c2d HR HZ HA HB HC HD Hn Hd EAt EE HE'. move: Ed. rewrite Ed' => -[<-].
  have EX : (2%:R ^+ s)^-1 *: (ts *: A) = (ts / 2%:R ^+ s) *: A by rewrite scalerA mulrC.
  exists s, (c * n.+1 ^ 2)%N, Bd => X Ad. have EAd : Ad = (\sum_(k < (c * n.+1 ^ 2).+1) (k`!%:R)^-1 *: ((2%:R ^+ s)^-1 *: (ts *: A)) ^+ k) ^+ (2 ^ s).
    by rewrite /Ad /taylor EX.
  rewrite EAd EA EC ED. split=> //; first by rewrite muln_gt0 Hc expn_gt0.
  rewrite /X -EX => i. have P : 0 < (2%:R ^+ s)^-1 :> F by rewrite invr_gt0 exprn_gt0 // ltr0n.
  apply: le_trans N1. rewrite [X in _ <= X]mulrC. rewrite (eq_bigr (fun j => (2%:R ^+ s)^-1 * `|(ts *: A) i j|)); last first.
    by move=> j _; rewrite mxE normrM (gtr0_norm P).
  rewrite -mulr_sumr ler_pmul2l //.
Qed.
Lemma taylor_comm n (A : 'M[F]_n.+1) c K k : A *m taylor (c *: A) K ^+ k = taylor (c *: A) K ^+ k *m A.
Proof.
  have S k' (X : 'M[F]_n.+1) : GRing.comm A X -> GRing.comm A (k' *: X) by move=> H; rewrite /GRing.comm -!mulmxE -scalemxAr -scalemxAl [A *m X]H.
  apply: commrX. apply: commr_sum => i _. apply: (S). apply: commrX. exact: (S).
Qed.

(** * Equilibria: states and inputs with A x + B u = 0 *)
Section Sys.
Variables (sys : SS F) (ts acc : F) (fuel : nat) (n m p : nat) (A : 'M[F]_n.+1) (B : 'M[F]_(n.+1, m.+1)) (C : 'M[F]_(p.+1, n.+1)) (D : 'M[F]_(p.+1, m.+1)) (d : DSS F).
Hypotheses (HA : is_mx (sA sys) A) (HB : is_mx (sB sys) B) (HC : is_mx (sC sys) C) (HD : is_mx (sD sys) D).
Hypotheses (Hn : (n.+1 <= 5)%N) (Hd : \det A != 0) (Ed : c2d nsqrt (2%:R^-1) acc fuel sys ts = Ok d).
Let unitA : A \in unitmx. Proof. by rewrite unitmxE unitfE. Qed.

(** The step of the discrete system from the state x under the input u goes to x + g, where A g is
    (A_d - I)(A x + B u). *)
Theorem C111_step (x u : list F) (X : 'cV[F]_n.+1) (U : 'cV[F]_m.+1) : is_vec x n.+1 (cvf X) -> is_vec u m.+1 (cvf U) ->
  exists x' y (G : 'cV[F]_n.+1) (Ad : 'M[F]_n.+1), [/\ simulate_step d x u = Ok (x', y), is_vec x' n.+1 (cvf (X + G)), is_vec y p.+1 (cvf (C *m X + D *m U)),
    is_mx (sA (dsys d)) Ad & A *m G = (Ad - 1%:M) *m (A *m X + B *m U)].
Proof.
  move=> Hx Hu. have [s [K [Bd [HK _ HAd [HBd EB] [HC' HD' _]]]]] := @c2d_parts sys ts acc fuel n m p (p, m) A B C D d HA HB HC HD Hn Hd Ed.
  set Ad := taylor _ _ ^+ _ in HAd EB. have AC : A *m Ad = Ad *m A by apply: taylor_comm. clearbody Ad.
  have Fp : fits p.+1.
    have [_ [_ S]] := shape_mx (is_mx_reads HC). apply: fits_le S. apply/ssrnat.leP. exact: (@leq_pmulr p.+1 n.+1 isT).
  have [x' [y [E [V1 V2]]]] := simulate_step_ok d x u _ _ _ _ _ _ _ _ _ HAd HBd HC' HD' Hx Hu Fp.
  exists x', y, (Ad *m X + Bd *m U - X), Ad. split=> //.
  - apply: is_vec_ext; first exact: V1. move=> i /ssrnat.ltP Hi. cbv beta. rewrite addrC subrK !(osumE HO) (oaddE HO) -[i]/(val (Ordinal Hi)) cvfE !mxE.
    by congr (_ + _); apply: eq_bigr => j _; rewrite (omulE HO) mxfE cvfE.
  - apply: is_vec_ext; first exact: V2. move=> i /ssrnat.ltP Hi. cbv beta. rewrite !(osumE HO) (oaddE HO) -[i]/(val (Ordinal Hi)) cvfE !mxE.
    by congr (_ + _); apply: eq_bigr => j _; rewrite (omulE HO) mxfE cvfE.
  - by rewrite mulmxBr !mulmxDr !mulmxA EB AC [(Ad - 1%:M) *m A]mulmxBl mul1mx [(_ - A) *m X]mulmxBl addrAC.
Qed.
(** An equilibrium of the given system is one of the discrete system. *)
Theorem C111_equilibrium (x u : list F) (X : 'cV[F]_n.+1) (U : 'cV[F]_m.+1) : is_vec x n.+1 (cvf X) -> is_vec u m.+1 (cvf U) ->
  A *m X + B *m U = 0 -> exists y, simulate_step d x u = Ok (x, y) /\ is_vec y p.+1 (cvf (C *m X + D *m U)).
Proof.
  move=> Hx Hu H. have [x' [y [G [Ad [E V1 V2 _ EG]]]]] := C111_step Hx Hu. exists y. split=> //. rewrite E. congr (Ok (_, _)).
  have G0 : G = 0 by move: EG; rewrite H mulmx0 => /(congr1 (mulmx (invmx A))); rewrite mulmx0 mulKmx.
  apply: (is_vec_unique _ _ _ _ V1). by rewrite G0 addr0.
Qed.
(** The discrete system has no other, if its A does not have the eigenvalue 1. *)
Theorem C111_equilibrium_only (Ad : 'M[F]_n.+1) (x u y : list F) (X : 'cV[F]_n.+1) (U : 'cV[F]_m.+1) : is_mx (sA (dsys d)) Ad -> \det (Ad - 1%:M) != 0 ->
  is_vec x n.+1 (cvf X) -> is_vec u m.+1 (cvf U) -> simulate_step d x u = Ok (x, y) -> A *m X + B *m U = 0.
Proof.
  move=> HAd U1 Hx Hu Es. have [x' [y' [G [Ad' [E V1 V2 HAd' EG]]]]] := C111_step Hx Hu. move: E. rewrite Es => -[Ex _].
  have G0 : G = 0.
    apply/matrixP => i j. rewrite ord1 mxE. rewrite -Ex in V1. have := vec_fun V1 Hx (ltn_ord i). rewrite !cvfE mxE => /eqP. by rewrite -subr_eq0 addrAC subrr add0r => /eqP.
  rewrite G0 mulmx0 in EG. have EA : Ad' = Ad by apply: is_mx_fun HAd' HAd.
  have U2 : (Ad - 1%:M) \in unitmx by rewrite unitmxE unitfE.
  by move: EG; rewrite EA => /(congr1 (mulmx (invmx (Ad - 1%:M)))); rewrite mulmx0 mulKmx.
Qed.

(** * Modes *)
(** The start is an equilibrium X of the held input U plus r eigenvectors of A with eigenvalues
    lam i.  Eigenvector i is multiplied at every step by a fixed number mu i, which lies in [0, 1)
    if lam i * ts is negative and is at least 1 + lam i * ts if it is positive. *)
Theorem C111_modes r (V : 'I_r -> 'cV[F]_n.+1) (lam : 'I_r -> F) : (forall i, A *m V i = lam i *: V i) -> (forall i, V i != 0) ->
  exists mu : 'I_r -> F, (forall i, (lam i * ts < 0 -> 0 <= mu i < 1) /\ (0 < lam i * ts -> 1 + lam i * ts <= mu i)) /\
  forall trunc (X : 'cV[F]_n.+1) (U : 'cV[F]_m.+1) x0 u0 N tm q k0, A *m X + B *m U = 0 ->
  is_vec x0 n.+1 (cvf (X + \sum_i V i)) -> is_vec u0 m.+1 (cvf U) -> odiv tm ts = Ok q -> trunc q = Ok k0 ->
  exists t x y, [/\ simulate trunc d (List.repeat u0 N) tm x0 = Ok (t, x, y), length x = (Nat.min N k0).+1, length y = Nat.min N k0,
    forall k, (k <= Nat.min N k0)%N -> exists xk, nth_error x k = Some xk /\ is_vec xk n.+1 (cvf (X + \sum_i mu i ^+ k *: V i)) &
    forall k, (k < Nat.min N k0)%N -> exists yk, nth_error y k = Some yk /\ is_vec yk p.+1 (cvf (C *m (X + \sum_i mu i ^+ k *: V i) + D *m U))].
Proof.
  move=> HV V0. have [s [K [Bd [HK R HAd [HBd EB] [HC' HD' ET]]]]] := @c2d_parts sys ts acc fuel n m p (p, m) A B C D d HA HB HC HD Hn Hd Ed.
  set c := ts / 2%:R ^+ s in R HAd EB. set Ad := taylor _ _ ^+ _ in HAd EB.
  have Fp : fits p.+1.
    have [_ [_ S]] := shape_mx (is_mx_reads HC). apply: fits_le S. apply/ssrnat.leP. exact: (@leq_pmulr p.+1 n.+1 isT).
  pose mu i := esum K (c * lam i) ^+ (2 ^ s). exists mu.
  have Vc i : (c *: A) *m V i = (c * lam i) *: V i by rewrite -scalemxAl HV scalerA.
  have Vd i : Ad *m V i = mu i *: V i by apply: power_mode; apply: taylor_mode.
  split.
    move=> i. have P : 0 < 2%:R ^+ s :> F by rewrite exprn_gt0 // ltr0n.
    have Ec : c * lam i = (lam i * ts) / 2%:R ^+ s by rewrite /c mulrAC [ts * _]mulrC.
    have B1 := mode_bound R (Vc i) (V0 i). split=> Hs.
    + have Z0 : c * lam i < 0 by rewrite Ec pmulr_llt0 // invr_gt0.
      have /andP [L1 U1] : 0 <= esum K (c * lam i) < 1 by apply: esum_neg => //; move: B1; rewrite ler_norml => /andP [].
      rewrite /mu exprn_ge0 //= exprn_ilt1 // -lt0n expn_gt0. by [].
    + have Z0 : 0 < c * lam i by rewrite Ec divr_gt0.
      apply: le_trans (_ : (1 + c * lam i) ^+ (2 ^ s) <= _); last first.
        rewrite /mu. apply: ler_expn2r; rewrite ?nnegrE.
        - by apply: addr_ge0; [exact: ler01|exact: ltW].
        - apply: le_trans (esum_pos HK (ltW Z0)). by apply: addr_ge0; [exact: ler01|exact: ltW].
        - by apply: esum_pos => //; exact: ltW.
      apply: le_trans (bernoulli (2 ^ s) (ltW Z0)). by rewrite Ec natrX mulrCA divff ?mulr1 // gt_eqF.
  move=> trunc X U x0 u0 N tm q k0 HX Hx Hu Hq Hk. have Hus : inputs (List.repeat u0 N) m.+1 (fun k => cvf U).
    move=> k v Hv. rewrite (repeat_spec _ _ _ (nth_error_In _ _ Hv)). exact: Hu.
  rewrite -ET in Hq. have [t [x [y [E _ L2 L3 [Q1 Q2 _ _]]]]] := C61_closed_form HO HAd HBd HC' HD' Hx (Hus : inputs _ _ (fun k => cvf ((fun=> U) k))) Fp Hq Hk.
  rewrite repeat_length in L2 L3 Q1 Q2.
  have Fix : Ad *m X + Bd *m U = X.
    apply/eqP. rewrite -subr_eq0. have H0 : A *m (Ad *m X + Bd *m U - X) = 0.
      rewrite mulmxBr mulmxDr !mulmxA EB. rewrite /Ad taylor_comm -/Ad mulmxBl mulmxBl mul1mx addrA -mulmxA -[Ad *m B *m U]mulmxA -mulmxDr HX mulmx0 add0r.
      by rewrite -opprD addrC HX oppr0.
    by move/(congr1 (mulmx (invmx A))): H0; rewrite mulmx0 mulKmx // => ->.
  have St k : Ad ^+ k *m (X + \sum_i V i) + \sum_(j < k) Ad ^+ (k.-1 - j) *m Bd *m U = X + \sum_i mu i ^+ k *: V i.
    rewrite mulmxDr addrAC. congr (_ + _); last first.
      rewrite mulmx_sumr. apply: eq_bigr => i _. exact: power_mode.
    elim: k => [|k IH]; first by rewrite big_ord0 addr0 expr0 mul1mx.
    rewrite big_ord_recr /= subnn expr0 mul1mx addrA. rewrite exprS -mulmxA. rewrite (eq_bigr (fun j : 'I_k => Ad *m (Ad ^+ (k.-1 - j) *m Bd *m U))).
      by rewrite -mulmx_sumr -mulmxDr IH.
    move=> j _. rewrite !mulmxA -[Ad *m Ad ^+ _]/(Ad * Ad ^+ _) -exprS. congr (_ ^+ _ *m _ *m _). case: k j {IH} => [[]|k] //= j. by rewrite subSn // -ltnS.
  exists t, x, y. split=> //.
  - move=> k Lk. have [xk [E1 V1]] := Q1 k Lk. exists xk. split=> //. by rewrite -St.
  - move=> k Lk. have [yk [E1 V1]] := Q2 k Lk. exists yk. split=> //. by rewrite -St.
Qed.
Lemma power_small (z : F) eps : 0 <= z < 1 -> 0 < eps -> exists k1, forall k, (k1 <= k)%N -> z ^+ k <= eps.
Proof.
  case/andP => z0 z1 He. move: z0. rewrite le_eqVlt => /orP [/eqP <-|z0].
    exists 1%N => k Hk. by rewrite expr0n gtn_eqF //= ltW.
  pose w := z^-1 - 1. have w0 : 0 < w by rewrite subr_gt0 invf_gt1.
  have P : 0 <= (eps * w)^-1 by rewrite invr_ge0 mulr_ge0 // ltW.
  exists (Num.bound (eps * w)^-1) => k Hk. have B0 := archi_boundP P. have B1 : (eps * w)^-1 < k%:R by apply: lt_le_trans B0 _; rewrite ler_nat.
  have B2 := bernoulli k (ltW w0). have Ew : 1 + w = z^-1 by rewrite /w addrC subrK. rewrite Ew in B2. have K0 : 0 < z ^+ k by rewrite exprn_gt0.
  rewrite -[z ^+ k]invrK -[eps]invrK -exprVn. rewrite ler_pinv ?inE ?unitfE ?invr_gt0 ?invr_eq0 ?(gt_eqF He) ?exprn_gt0 ?invr_gt0 ?He //; last first.
    by rewrite expf_eq0 invr_eq0 (gt_eqF z0) andbF.
  apply: le_trans B2. apply: le_trans (_ : k%:R * w <= _); last by rewrite ler_addr ler01.
  by rewrite -ler_pdivr_mulr // -invfM ltW.
Qed.
(** If every eigenvalue in play has a negative product with the sample time, then the run tends to the equilibrium, at a
    rate that does not depend on how long it is. *)
Theorem C111_decay r (V : 'I_r -> 'cV[F]_n.+1) (lam : 'I_r -> F) eps : (forall i, A *m V i = lam i *: V i) -> (forall i, V i != 0) ->
  (forall i, lam i * ts < 0) -> 0 < eps ->
  exists k1, forall trunc (X : 'cV[F]_n.+1) (U : 'cV[F]_m.+1) x0 u0 N tm q k0, A *m X + B *m U = 0 ->
  is_vec x0 n.+1 (cvf (X + \sum_i V i)) -> is_vec u0 m.+1 (cvf U) -> odiv tm ts = Ok q -> trunc q = Ok k0 ->
  exists t x y, simulate trunc d (List.repeat u0 N) tm x0 = Ok (t, x, y) /\ length x = (Nat.min N k0).+1 /\
    forall k, (k1 <= k <= Nat.min N k0)%N -> exists xk (Z : 'cV[F]_n.+1), [/\ nth_error x k = Some xk, is_vec xk n.+1 (cvf Z) & forall i, `|Z i 0 - X i 0| <= eps].
Proof.
  move=> HV V0 Hl He. have [mu [Hmu H]] := C111_modes HV V0.
  pose b := 1 + \sum_i \sum_l `|V i l 0|. have b0 : 0 < b.
    apply: ltr_paddr ltr01. apply: sumr_ge0 => i _. exact: sumr_ge0.
  have He' : 0 < eps / b by rewrite divr_gt0.
  have [k1 Hk1] : exists k1, forall i k, (k1 <= k)%N -> mu i ^+ k <= eps / b.
    have Q : forall i, exists k1, forall k, (k1 <= k)%N -> mu i ^+ k <= eps / b by move=> i; apply: power_small => //; apply: (proj1 (Hmu i)).
    have [f Hf] := fin_all_exists Q. exists (\max_i f i) => i k Hk. apply: Hf. apply: leq_trans Hk. exact: leq_bigmax.
  exists k1 => trunc X U x0 u0 N tm q k0 HX Hx Hu Hq Hk. have [t [x [y [E L1 _ Q _]]]] := H trunc X U x0 u0 N tm q k0 HX Hx Hu Hq Hk.
  exists t, x, y. split=> //. split=> // k /andP [K1 K2]. have [xk [E1 V1]] := Q k K2. exists xk. eexists. split; [exact: E1|exact: V1|].
  move=> i. rewrite mxE addrC addKr summxE. apply: le_trans (ler_norm_sum _ _ _) _.
  apply: le_trans (_ : \sum_l eps / b * `|V l i 0| <= _).
    apply: ler_sum => l _. have /andP [m0 _] := proj1 (Hmu l) (Hl l). rewrite mxE normrM ger0_norm ?exprn_ge0 //. apply: ler_wpmul2r => //. exact: Hk1.
  rewrite -mulr_sumr -[X in _ <= X](divfK (lt0r_neq0 b0)) ler_pmul2l //. rewrite /b. apply: le_trans (_ : \sum_l \sum_j `|V l j 0| <= _); last by rewrite ler_addr ler01.
  apply: ler_sum => l _. rewrite [X in _ <= X](bigD1 i) //= ler_addl. exact: sumr_ge0.
Qed.
End Sys.
End E.
