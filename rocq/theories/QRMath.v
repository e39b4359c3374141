(** QRMath.v: Householder reflections, in mathcomp's matrices only.  Nothing here
    refers to the library. *)
From mathcomp Require Import all_ssreflect all_algebra.
Set Implicit Arguments.
Unset Strict Implicit.
Unset Printing Implicit Defensive.
Import Order.Theory GRing.Theory Num.Theory.
Local Open Scope ring_scope.

Section Householder.
Variable F : realFieldType.
(** The ring operations under fixed names, for the [ring] tactic. *)
Definition qT : Type := Num.RealField.sort F.
Definition qadd (a b : qT) : qT := GRing.add a b.
Definition qmul (a b : qT) : qT := GRing.mul a b.
Definition qopp (a : qT) : qT := GRing.opp a.
Definition qzero : qT := 0%R.
Definition qone : qT := 1%R.
Lemma Q_ring : ring_theory qzero qone qadd qmul (fun a b => qadd a (qopp b)) qopp eq.
Proof.
  by split; [exact: add0r|exact: addrC|exact: addrA|exact: mul1r|exact: mulrC|exact: mulrA|exact: mulrDl| |exact: subrr].
Qed.
Add Ring QQR : Q_ring.
Lemma qaddE (a b : F) : a + b = qadd a b. Proof. by []. Qed.
Lemma qmulE (a b : F) : a * b = qmul a b. Proof. by []. Qed.
Lemma qoppE (a : F) : - a = qopp a. Proof. by []. Qed.
Lemma qzeroE : 0 = qzero :> F. Proof. by []. Qed.
Lemma qoneE : 1 = qone :> F. Proof. by []. Qed.
Lemma qtwoE : 2%:R = 1 + 1 :> F. Proof. by []. Qed.
Ltac qring := rewrite ?expr2 ?qtwoE ?qaddE ?qmulE ?qoppE ?qzeroE ?qoneE; match goal with |- @eq _ ?a ?b => change (@eq qT a b) end; ring.

(** The square of the length of a column. *)
Definition sqlen n (w : 'cV[F]_n) : F := \sum_k w k 0 ^+ 2.
(** The reflection across the plane orthogonal to w. *)
Definition reflector n (w : 'cV[F]_n) : 'M[F]_n := 1%:M - (2%:R / sqlen w) *: (w *m w^T).

Lemma sqlenE n (w : 'cV[F]_n) : w^T *m w = (sqlen w)%:M.
Proof.
  apply/matrixP => i j. rewrite !ord1 !mxE mulr1n. apply: eq_bigr => k _. by rewrite mxE expr2.
Qed.
Lemma reflector_sym n (w : 'cV[F]_n) : (reflector w)^T = reflector w.
Proof. by rewrite /reflector linearB linearZ /= trmx1 trmx_mul trmxK. Qed.
Lemma reflector_sq n (w : 'cV[F]_n) : sqlen w != 0 -> reflector w *m reflector w = 1%:M.
Proof.
  move=> N. rewrite {2}/reflector mulmxBr mulmx1 -scalemxAr {2}/reflector mulmxBl mul1mx -scalemxAl.
  rewrite -mulmxA [w^T *m _]mulmxA sqlenE mul_scalar_mx -scalemxAr scalerA divfK // /reflector.
  rewrite scalerBr scalerA opprB addrA. rewrite -addrA -addrA. set Y := w *m w^T. set t := 2%:R / sqlen w.
  have -> : - (t *: Y) + ((t * 2%:R) *: Y - t *: Y) = 0.
    rewrite mulr_natr mulr2n scalerDl addrK. by rewrite addNr.
  by rewrite addr0.
Qed.
Lemma reflector_orth n (w : 'cV[F]_n) : sqlen w != 0 -> (reflector w)^T *m reflector w = 1%:M.
Proof. by move=> N; rewrite reflector_sym reflector_sq. Qed.
Lemma reflector_app n (w X : 'cV[F]_n) : reflector w *m X = X - (2%:R / sqlen w * (\sum_k w k 0 * X k 0)) *: w.
Proof.
  rewrite /reflector mulmxBl mul1mx -scalemxAl -mulmxA.
  have -> : w^T *m X = (\sum_k w k 0 * X k 0)%:M.
    apply/matrixP => i j. rewrite !ord1 !mxE mulr1n. by apply: eq_bigr => k _; rewrite mxE.
  by rewrite mul_mx_scalar scalerA.
Qed.

(** The vector the code builds from column X, from row i down, with sg the signed length. *)
Definition hcol n (i : 'I_n) (X : 'cV[F]_n) (sg : F) : 'cV[F]_n :=
  \col_k (if (k < i)%N then 0 else if k == i then 1 else X k 0 / (X i 0 + sg)).

Lemma split_at n (i : 'I_n) (g : 'I_n -> F) : (forall k : 'I_n, (k < i)%N -> g k = 0) ->
  \sum_k g k = g i + \sum_(k : 'I_n | (i < k)%N) g k.
Proof.
  move=> H. rewrite (bigD1 i) //=. congr (_ + _). rewrite (bigID (fun k : 'I_n => (i < k)%N)) /=.
  rewrite [X in _ + X]big1 ?addr0.
  - apply: eq_bigl => k. rewrite andb_idl // => L. apply/eqP => E. by move: L; rewrite E ltnn.
  - move=> k /andP [/eqP N L]. apply: H. rewrite -leqNgt in L. rewrite ltn_neqAle L andbT. by apply/eqP => /val_inj.
Qed.
Section Column.
Variables (n : nat) (i : 'I_n) (X : 'cV[F]_n) (sg : F).
Hypothesis Hsq : sg ^+ 2 = \sum_(k : 'I_n | (i <= k)%N) X k 0 ^+ 2.
Hypothesis Hs : 0 <= sg * X i 0.
Hypothesis Hnz : sg != 0.
Let v0 := X i 0 + sg.
Let P := \sum_(k : 'I_n | (i < k)%N) X k 0 ^+ 2.
Let w := hcol i X sg.

Lemma v0_nz : v0 != 0.
Proof.
  rewrite -sqrf_eq0 /v0 sqrrD. apply: lt0r_neq0. apply: (lt_le_trans (y := sg ^+ 2)).
    by rewrite lt_def sqrf_eq0 Hnz sqr_ge0.
  rewrite ler_addr addr_ge0 ?sqr_ge0 // mulrC mulrn_wge0 //.
Qed.
Lemma tail_sq : P = sg ^+ 2 - X i 0 ^+ 2.
Proof.
  rewrite Hsq (bigD1 i) //= addrAC subrr add0r. apply: eq_bigl => k.
  by rewrite ltn_neqAle eq_sym -val_eqE andbC.
Qed.
Lemma w_at (k : 'I_n) : w k 0 = if (k < i)%N then 0 else if k == i then 1 else X k 0 / v0.
Proof. by rewrite mxE. Qed.
Lemma w_i : w i 0 = 1. Proof. by rewrite w_at ltnn eqxx. Qed.
Lemma w_below (k : 'I_n) : (i < k)%N -> w k 0 = X k 0 / v0.
Proof. move=> L. rewrite w_at ltnNge (ltnW L) /=. case: eqP => // E. by move: L; rewrite E ltnn. Qed.
Lemma w_above (k : 'I_n) : (k < i)%N -> w k 0 = 0. Proof. by move=> L; rewrite w_at L. Qed.
Lemma sqlen_w : sqlen w = 2%:R * sg / v0.
Proof.
  rewrite /sqlen (@split_at _ i); last by move=> k L; rewrite w_above // expr0n.
  rewrite w_i (eq_bigr (fun k => X k 0 ^+ 2 / v0 ^+ 2)); last by move=> k L; rewrite w_below // expr_div_n.
  rewrite -mulr_suml -/P tail_sq. apply: (mulIf v0_nz). rewrite divfK ?v0_nz //.
  apply: (mulIf v0_nz). rewrite -[LHS]mulrA -expr2 [LHS]mulrDl divfK ?expf_neq0 ?v0_nz // expr1n mul1r.
  rewrite /v0. qring.
Qed.
Lemma sqlen_nz : sqlen w != 0.
Proof. by rewrite sqlen_w mulf_neq0 ?invr_eq0 ?v0_nz // mulf_neq0 // pnatr_eq0. Qed.
Lemma w_dot : \sum_k w k 0 * X k 0 = sg.
Proof.
  rewrite (@split_at _ i); last by move=> k L; rewrite w_above // mul0r.
  rewrite w_i mul1r (eq_bigr (fun k => X k 0 ^+ 2 / v0)); last by move=> k L; rewrite w_below // mulrAC expr2.
  rewrite -mulr_suml -/P tail_sq. apply: (mulIf v0_nz). rewrite [LHS]mulrDl divfK ?v0_nz // /v0. qring.
Qed.
(** Rows above i are kept, row i becomes -sg and the rows below become 0. *)
Lemma reflector_col (k : 'I_n) : (reflector w *m X) k 0 = if (k < i)%N then X k 0 else if k == i then - sg else 0.
Proof.
  rewrite reflector_app w_dot sqlen_w !mxE.
  have -> : 2%:R / (2%:R * sg / v0) * sg = v0.
    have N2 : 2%:R != 0 :> F by rewrite pnatr_eq0.
    by rewrite invf_div mulrAC mulrC divfK // mulf_neq0.
  rewrite -/v0. case: ltnP => L; first by rewrite mulr0 subr0.
  case: eqP => [->|_]; first by rewrite mulr1 /v0 opprD addrA subrr sub0r.
  by rewrite mulrC divfK ?v0_nz // subrr.
Qed.
End Column.
(** A column that ends above row i is kept. *)
Lemma reflector_keep n (i : 'I_n) (X Y : 'cV[F]_n) sg : (forall k : 'I_n, (i <= k)%N -> Y k 0 = 0) ->
  reflector (hcol i X sg) *m Y = Y.
Proof.
  move=> H. rewrite reflector_app big1 ?mulr0 ?scale0r ?subr0 // => k _. rewrite mxE. case: ltnP => L; first by rewrite mul0r.
  by rewrite H // mulr0.
Qed.
End Householder.
