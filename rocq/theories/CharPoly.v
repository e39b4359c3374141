(** CharPoly.v: the derivative of the characteristic polynomial and the recurrence of
    Faddeev and Le Verrier.  Pure matrix theory: nothing here refers to the library. *)
From mathcomp Require Import all_ssreflect all_algebra fingroup perm.
Set Implicit Arguments.
Unset Strict Implicit.
Unset Printing Implicit Defensive.
Import GRing.Theory.
Local Open Scope ring_scope.

Section C.
Variable R : comRingType.

Lemma deriv_prod (I : eqType) (r : seq I) (f : I -> {poly R}) : uniq r ->
  (\prod_(i <- r) f i)^`() = \sum_(j <- r) \prod_(i <- r) (if i == j then (f i)^`() else f i).
Proof.
  elim: r => [|a r IH] /=; first by rewrite !big_nil derivC. move=> /andP [Ha Hr].
  rewrite !big_cons derivM (IH Hr) eqxx. congr (_ + _).
    congr (_ * _). rewrite !big_seq. apply: eq_bigr => i Hi. case: eqP => // E. by rewrite -E Hi in Ha.
  rewrite big_distrr /= !big_seq. apply: eq_bigr => j Hj. rewrite big_cons. case: eqP => // E. by rewrite E Hj in Ha.
Qed.

(** The matrix M with row j replaced by the unit row e_j. *)
Definition unitrow n (M : 'M[{poly R}]_n) (j : 'I_n) : 'M[{poly R}]_n := \matrix_(i, k) (if i == j then (k == j)%:R else M i k).
Lemma cofactor_unitrow n (M : 'M[{poly R}]_n) (j : 'I_n) : cofactor M j j = \det (unitrow M j).
Proof.
  rewrite (expand_det_row _ j) (bigD1 j) //= !mxE !eqxx mul1r big1 ?addr0; last first.
    move=> i Hi. by rewrite mxE eqxx (negbTE Hi) mul0r.
  rewrite /cofactor. congr (_ * \det _). apply/matrixP => a b. rewrite !mxE. by rewrite eq_sym (negbTE (neq_lift _ _)).
Qed.
Lemma deriv_det n (M : 'M[{poly R}]_n) : (\det M)^`() =
  \sum_(j < n) \det (\matrix_(i, k) (if i == j then (M i k)^`() else M i k)).
Proof.
  rewrite /determinant raddf_sum exchange_big /=. apply: eq_bigr => s _.
  have -> : (-1) ^+ s = ((-1) ^+ s)%:P :> {poly R} by rewrite polyC_exp polyCN.
  rewrite mul_polyC linearZ /= -mul_polyC -big_distrr /=. congr (_ * _).
  rewrite /index_enum -enumT deriv_prod ?enum_uniq //. apply: eq_bigr => j _. apply: eq_bigr => i _. by rewrite mxE.
Qed.
Lemma deriv_char_poly n (A : 'M[R]_n) : (char_poly A)^`() = \tr (\adj (char_poly_mx A)).
Proof.
  rewrite /char_poly deriv_det /mxtrace. apply: eq_bigr => j _. rewrite mxE cofactor_unitrow. congr (\det _).
  apply/matrixP => i k. rewrite !mxE. case: eqP => // ->. rewrite derivB derivC subr0 eq_sym.
  by case: (k == j); rewrite ?derivX ?derivC.
Qed.

(** Coefficient matrices of adj(xI - A). *)
Definition adjc n (A : 'M[R]_n) (k : nat) : 'M[R]_n := \matrix_(i, j) ((\adj (char_poly_mx A)) i j)`_k.
Lemma adjc_rec n (A : 'M[R]_n) k : (if k is k'.+1 then adjc A k' else 0) = (char_poly A)`_k *: 1%:M + A *m adjc A k.
Proof.
  have E := mul_mx_adj (char_poly_mx A). rewrite -/(char_poly A) in E. rewrite /adjc. move: (\adj _) E => Q E.
  rewrite /char_poly_mx mulmxBl in E.
  apply/matrixP => i j. have := congr1 (fun M : 'M[{poly R}]_n => (M i j : {poly R})`_k) E. rewrite mul_scalar_mx !mxE coefB coefXM.
  rewrite coef_sum coefMn -[in X in X -> _](mulr_natr _ (i == j)).
  have -> : \sum_(l < n) ((map_mx polyC A) i l * Q l j)`_k = \sum_(l < n) A i l * (\matrix_(i, j) (Q i j)`_k) l j.
    apply: eq_bigr => l _. by rewrite !mxE coefCM.
  move/eqP. rewrite subr_eq => /eqP <-. case: k => [|k] /=; by rewrite ?mxE.
Qed.
Lemma adjc_trace n (A : 'M[R]_n) k : \tr (adjc A k) = (char_poly A)`_k.+1 *+ k.+1.
Proof.
  rewrite -coef_deriv deriv_char_poly /mxtrace coef_sum. apply: eq_bigr => i _. by rewrite mxE.
Qed.
Lemma adjc_big n (A : 'M[R]_n) k : (n <= k)%N -> adjc A k = 0.
Proof.
  pose K := \max_(p : 'I_n * 'I_n) size ((\adj (char_poly_mx A)) p.1 p.2).
  have HK l : (K <= l)%N -> adjc A l = 0.
    move=> H. apply/matrixP => i j. rewrite [LHS]mxE [RHS]mxE nth_default // (leq_trans _ H) //.
    exact: (@leq_bigmax _ (fun p : 'I_n * 'I_n => size ((\adj (char_poly_mx A)) p.1 p.2)) (i, j)).
  have HD d l : (n <= l)%N -> (K <= l + d)%N -> adjc A l = 0.
    elim: d l => [|d IH] l Hn Hl; first by apply: HK; rewrite addn0 in Hl.
    have := adjc_rec A l.+1. rewrite (IH l.+1) ?(leqW Hn) ?addSnnS // mulmx0 addr0 => ->.
    by rewrite nth_default ?scale0r // size_char_poly.
  move=> H. apply: (HD K) => //. exact: leq_addl.
Qed.
Lemma char_poly_top n (A : 'M[R]_n) : (char_poly A)`_n = 1.
Proof. have := char_poly_monic A. rewrite monicE lead_coefE size_char_poly => /eqP //. Qed.
Lemma adjc_top n (A : 'M[R]_n.+1) : adjc A n = 1%:M.
Proof. have := adjc_rec A n.+1. by rewrite (adjc_big A (leqnn n.+1)) mulmx0 addr0 char_poly_top scale1r. Qed.
(** Le Verrier: tr(A M_m) = - m p_(n-m), M_m = adjc (n-m). *)
Lemma leverrier_trace n (A : 'M[R]_n) k : (k < n)%N -> \tr (A *m adjc A k) = - ((char_poly A)`_k *+ (n - k)).
Proof.
  move=> Hk. have := congr1 (@mxtrace _ _) (adjc_rec A k). rewrite mxtraceD linearZ /= mxtrace1.
  case: k Hk => [|k] Hk; last rewrite adjc_trace.
    rewrite linear0 subn0 => /esym/eqP. rewrite addrC addr_eq0 => /eqP ->. by rewrite mulr_natr.
  move/esym/eqP. rewrite addrC eq_sym -subr_eq => /eqP <-. rewrite mulr_natr -opprB -mulrnBr //. exact: ltnW.
Qed.
End C.

(** Ackermann's formula. *)
Section Ackermann.
Variables (R : comRingType) (n : nat) (M : 'M[R]_n.+1) (N : 'cV[R]_n.+1) (q : 'rV[R]_n.+1) (P : {poly R}).
(** The controllability matrix: column k is M^k N. *)
Definition ctrbmx : 'M[R]_n.+1 := \matrix_(i, k) (M ^+ k *m N) i 0.
Hypothesis Hq : q *m ctrbmx = delta_mx 0 ord_max.
Hypothesis HP : P \is monic.
Hypothesis HS : size P = n.+2.
Let K := q *m horner_mx M P.
Let Ac := M - N *m K.

Lemma horner_mxS (A : 'M[R]_n.+1) (p : {poly R}) m : (size p <= m)%N -> horner_mx A p = \sum_(i < m) p`_i *: A ^+ i.
Proof.
  move=> H. have E : p = \poly_(i < m) p`_i.
    apply/polyP => i. rewrite coef_poly. case: ltnP => // Hi. by rewrite nth_default // (leq_trans H).
  rewrite [in LHS]E poly_def linear_sum /=. apply: eq_bigr => i _. rewrite horner_mxZ rmorphX /=. by rewrite horner_mx_X.
Qed.
Lemma ack_q k : (k <= n)%N -> (q *m M ^+ k *m N) 0 0 = (k == n)%:R.
Proof.
  move=> Hk. have := congr1 (fun X : 'rV[R]_n.+1 => X 0 (Ordinal (n:=n.+1) (m:=k) Hk)) Hq. rewrite [X in _ = X -> _]mxE eqxx /= -val_eqE /= => <-.
  rewrite -mulmxA !mxE. apply: eq_bigr => i _. by rewrite [in RHS]mxE.
Qed.
Lemma ack_rank1 k : (k <= n)%N -> q *m M ^+ k *m (N *m K) = (k == n)%:R *: K.
Proof.
  move=> Hk. rewrite mulmxA -(ack_q Hk). move: (q *m M ^+ k *m N) => x. by rewrite [x in LHS]mx11_scalar mul_scalar_mx.
Qed.
Lemma ack_pow k : (k <= n)%N -> q *m Ac ^+ k = q *m M ^+ k.
Proof.
  elim: k => [|k IH] Hk //. rewrite exprSr -[_ * Ac]/(_ *m Ac) mulmxA IH; last exact: ltnW.
  by rewrite mulmxBr ack_rank1 ?(ltnW Hk) // ltn_eqF // scale0r subr0 exprSr -[M ^+ k * M]/(M ^+ k *m M) mulmxA.
Qed.
Lemma ack_top : q *m Ac ^+ n.+1 = q *m M ^+ n.+1 - K.
Proof.
  rewrite exprSr -[_ * Ac]/(_ *m Ac) mulmxA ack_pow // mulmxBr ack_rank1 // eqxx scale1r exprSr -[M ^+ n * M]/(M ^+ n *m M) mulmxA. by [].
Qed.
Lemma ackermann : char_poly Ac = P.
Proof.
  have PT : P`_n.+1 = 1 by move: HP; rewrite monicE lead_coefE HS => /eqP.
  have ZP : q *m horner_mx Ac P = 0.
    have E (A : 'M[R]_n.+1) : q *m horner_mx A P = \sum_(i < n.+1) P`_i *: (q *m A ^+ i) + q *m A ^+ n.+1.
      rewrite (@horner_mxS A P n.+2) ?HS // big_ord_recr /= PT scale1r mulmxDr mulmx_sumr. congr (_ + _). apply: eq_bigr => i _. by rewrite scalemxAr.
    rewrite E ack_top. have -> : \sum_(i < n.+1) P`_i *: (q *m Ac ^+ i) = \sum_(i < n.+1) P`_i *: (q *m M ^+ i).
      by apply: eq_bigr => i _; rewrite ack_pow // -ltnS.
    by rewrite addrA -E subrr.
  pose D := char_poly Ac - P. have SD : (size D <= n.+1)%N.
    apply/leq_sizeP => j Hj. rewrite coefB. move: Hj. rewrite leq_eqVlt => /orP [/eqP <-|Hj].
      by rewrite PT char_poly_top subrr.
    by rewrite !nth_default ?subr0 // ?HS ?size_char_poly.
  have ZD : \sum_(i < n.+1) D`_i *: (q *m M ^+ i) = 0.
    have : q *m horner_mx Ac D = 0 by rewrite rmorphB /= Cayley_Hamilton sub0r mulmxN ZP oppr0.
    rewrite (horner_mxS Ac SD) mulmx_sumr => E. rewrite -[RHS]E. apply: eq_bigr => i _. by rewrite -scalemxAr ack_pow // -ltnS.
  have HD j : (j <= n)%N -> D`_(n - j) = 0.
    elim/ltn_ind: j => j IH Hj. have := congr1 (fun X : 'rV[R]_n.+1 => (X *m (M ^+ j *m N)) 0 0) ZD.
    rewrite mul0mx mulmx_suml summxE [X in _ = X -> _]mxE.
    rewrite (eq_bigr (fun i : 'I_n.+1 => D`_i * (q *m M ^+ (i + j) *m N) 0 0)); last first.
      move=> i _. rewrite -scalemxAl [LHS]mxE exprD -[_ * M ^+ j]/(_ *m M ^+ j). by rewrite !mulmxA.
    have Hi : (n - j < n.+1)%N by rewrite ltnS leq_subr.
    rewrite (bigD1 (Ordinal Hi)) //= big1 ?addr0.
      by rewrite subnK // ack_q // eqxx mulr1.
    move=> i Ni. have Hin : (i <= n)%N by rewrite -ltnS. case: (ltngtP i (n - j)%N) => [L|L|E].
    - have L' : (i + j < n)%N by rewrite addnC -ltn_subRL. by rewrite ack_q ?(ltnW L') // ltn_eqF // mulr0.
    - rewrite -[i : nat](subKn Hin) IH ?mul0r ?leq_subr //. by rewrite ltn_subCl.
    - by case/eqP: Ni; apply: val_inj.
  apply/eqP. rewrite -subr_eq0 -/D. apply/eqP/polyP => i. rewrite coef0. case: (leqP i n) => Hi; last by rewrite nth_default // (leq_trans SD).
  by rewrite -(subKn Hi) HD // leq_subr.
Qed.
End Ackermann.
