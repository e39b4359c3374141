(** PropRepaired2.v: C100 over a field: invertibility, linear dependence and orthogonality. *)
From Verif Require Import LinalgFacts2 PropMatrix PropUtil PropMath RingM DetFacts LUFacts PropLinalg PropRing PropField PropFieldEx RatOps PropReal PropFeq Repaired PropRepaired.
From mathcomp Require Import all_ssreflect all_algebra.
Set Implicit Arguments.
Unset Strict Implicit.
Unset Printing Implicit Defensive.
Import Order.Theory GRing.Theory Num.Theory.
Local Open Scope ring_scope.
Local Opaque Linalg.determinant.

Section P.
Variables (F : fieldType) (O : Ops F).
Hypothesis HF : fieldO O.
Hypothesis HZ : exactZ O.
Let HO : ringO O. Proof. by case: HF. Qed.
Implicit Types (A : MB F).

Lemma three A d : Linalg.determinant A = Ok d ->
  [/\ is_invertible A = Ok (d != 0), is_linearly_dependent A = Ok (d == 0) & is_linearly_independent A = Ok (d != 0)].
Proof.
  move=> E. case: HF => [[H0 _ _ _] _ He]. by rewrite /is_linearly_independent /is_linearly_dependent /is_invertible E /= He H0.
Qed.
(** Up to order 4 the three tests say what their names say: [M \in unitmx] is that M has an
    inverse, [row_free M] that its rows are linearly independent. *)
Theorem C100_invertible A n (M : 'M[F]_n) : reads_mx A M -> (n <= 4)%N ->
  [/\ is_invertible A = Ok (M \in unitmx), is_linearly_dependent A = Ok (~~ row_free M) & is_linearly_independent A = Ok (row_free M)].
Proof.
  move=> HA Hn. have E : Linalg.determinant A = Ok (\det M).
    case: n M HA Hn => [|n] M HA Hn; first by have [] := C49_zero_by_zero HF HZ HA. exact: (C48_determinant HO HA).
  have [-> -> ->] := three E. by rewrite row_free_unit unitmxE unitfE negbK.
Qed.
(** From order 5 on they are right for matrices that have an inverse ... *)
Theorem C100_invertible_large A n (M : 'M[F]_n) : reads_mx A M -> M \in unitmx ->
  [/\ is_invertible A = Ok true, is_linearly_dependent A = Ok false & is_linearly_independent A = Ok true].
Proof.
  move=> HA Hu. rewrite unitmxE unitfE in Hu. have [-> -> ->] := three (C49_nonsingular HF HZ HA Hu). by rewrite Hu (negbTE Hu).
Qed.
(** ... but they never find a matrix singular. *)
Theorem C100_invertible_refuted A n (M : 'M[F]_n) : reads_mx A M -> (5 <= n)%N ->
  [/\ is_invertible A = Ok true, is_linearly_dependent A = Ok false & is_linearly_independent A = Ok true].
Proof.
  move=> HA Hn. have [d [E Hd]] := C50_never_zero HF HZ HA Hn. have [-> -> ->] := three E. by rewrite Hd (negbTE Hd).
Qed.
Theorem C100_invertible_throws A r c f : reads A r c f -> r <> c ->
  [/\ is_invertible A = Throw, is_linearly_dependent A = Throw & is_linearly_independent A = Throw].
Proof.
  move=> HA N. have E := C48_throws A r c f HA N. by rewrite /is_linearly_independent /is_linearly_dependent /is_invertible E.
Qed.
(** is_orthogonal compares M times its transpose with the unit matrix; a matrix that is
    orthogonal passes. *)
Theorem C100_orthogonal A n (M : 'M[F]_n.+1) : reads_mx A M ->
  is_orthogonal A = Ok [forall i, forall j, ofeq ((M *m M^T) i j) ((1%:M : 'M[F]_n.+1) i j)].
Proof.
  move=> HA. have [H0 H1 Ha [_ Hm _]] := HO. have [_ [_ H]] := C100_is_orthogonal _ _ _ _ HA. have [|b [E Hb]] := H erefl; first exact: Nat.lt_0_succ.
  have P (i j : 'I_n.+1) : osum n.+1 (fun k => omul (mxf M i k) (mxf M j k)) = (M *m M^T) i j.
    rewrite (osumE HO) mxE. by apply: eq_bigr => k _; rewrite Hm !mxfE mxE.
  have Q (i j : 'I_n.+1) : (if (i =? j)%nat then o1 else o0) = (1%:M : 'M[F]_n.+1) i j.
    rewrite H0 H1 nateqbE mxE -val_eqE /=. by case: (_ == _).
  rewrite E. congr Ok. apply/idP/forallP.
  - move=> /Hb G i. apply/forallP => j. by rewrite -P -Q; apply: G; exact/ssrnat.ltP.
  - move=> G. apply/Hb => i j /ssrnat.ltP Hi /ssrnat.ltP Hj. have /forallP/(_ (Ordinal Hj)) := G (Ordinal Hi). by rewrite -P -Q.
Qed.
Corollary C100_orthogonal_passes A n (M : 'M[F]_n.+1) : reads_mx A M -> (forall x : F, ofeq x x) -> M *m M^T = 1%:M ->
  is_orthogonal A = Ok true.
Proof. move=> HA Hr HM. rewrite (C100_orthogonal HA) HM. congr Ok. apply/forallP => i. apply/forallP => j. exact: Hr. Qed.
End P.

(** Concrete cases: an invertible and a singular matrix of order 2, and the matrix of ones of
    order 5, which is singular. *)
Example C100_field_ex :
  is_invertible (mb_of_mat (qmx (fmx 2 2 f22))) = Ok true /\
  is_invertible (mb_of_mat (qmx (0 : 'M[rat]_2))) = Ok false /\
  is_linearly_dependent (mb_of_mat (qmx (const_mx 1 : 'M[rat]_5))) = Ok false /\ \det (const_mx 1 : 'M[rat]_5) = 0.
Proof.
  split; [|split; [|split]].
  - have [|-> _ _] := C100_invertible rat_field rat_exactZ (qmx_ok (fmx 2 2 f22) isT isT) _; first by []. by rewrite unitmxE unitfE f22_det2.
  - have [|-> _ _] := C100_invertible rat_field rat_exactZ (qmx_ok (0 : 'M[rat]_2) isT isT) _; first by []. by rewrite unitmxE unitfE det0 eqxx.
  - have [|_ -> _] := C100_invertible_refuted rat_field rat_exactZ (qmx_ok (const_mx 1 : 'M[rat]_5) isT isT) _; by [].
  - exact: const_det.
Qed.
Example C100_orthogonal_ex : is_orthogonal (mb_of_mat (qmx (- 1%:M : 'M[rat]_3))) = Ok true.
Proof.
  apply: (C100_orthogonal_passes rat_field (qmx_ok (- 1%:M : 'M[rat]_3) isT isT)).
  - move=> x. have [-> _] := ratops_feq x x. apply: (C65_reflexive rat_real (fun _ => erefl)). exact: ltW (proj1 (andP rtol_lt1)).
  - by rewrite linearN /= trmx1 mulmxN mulNmx mul1mx opprK.
Qed.
