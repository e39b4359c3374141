(** PropDimsEx.v: concrete cases for C95 over the rational numbers. *)
From Verif Require Import LinalgFacts2 PropMatrix PropUtil PropMath RingM DetFacts RatOps PropLinalg PropRing PropField PropReal Control ControlSpec ControlFacts PropControl PropControl2 PropExpm PropFieldEx PropControlEx CharPoly PropExpmEx PropDims PropDims2.
From mathcomp Require Import all_ssreflect all_algebra.
Set Implicit Arguments.
Unset Strict Implicit.
Unset Printing Implicit Defensive.
Import Order.Theory GRing.Theory Num.Theory.
Local Open Scope ring_scope.
Local Opaque expm c2d acker poly_m.
(** Two states and one pole; two states and the three poles 0, 0, -1. *)
Example C95_few_ex : acker (mb_of_mat (qmx (fmx 2 2 f22))) (mb_of_mat (qmx e2)) (mb_of_mat (qmx (const_mx (-1) : 'rV[rat]_1))) = UB.
Proof.
  by apply: (C95_acker_few rat_field rat_exactZ (isT : 2 <= 5)%N (qmx_ok (fmx 2 2 f22) isT isT) (qmx_ok e2 isT isT)
     (qmx_ok (const_mx (-1) : 'rV[rat]_1) isT isT) _ ctrb_ex_det isT isT).
Qed.
Example C95_many_ex : exists k (K : 'rV[rat]_2), [/\ acker (mb_of_mat (qmx (fmx 2 2 f22))) (mb_of_mat (qmx e2)) (mb_of_mat (qmx (\row_i (if i == 2%N :> nat then -1 else 0) : 'rV[rat]_3))) = Ok k,
   is_mx k K & char_poly (fmx 2 2 f22 - e2 *m K) = ('X ^+ 2 + 'X)].
Proof.
  have [|||k [K [E H HK]]] := C95_acker_many rat_field rat_exactZ (isT : 2 <= 5)%N (qmx_ok (fmx 2 2 f22) isT isT) (qmx_ok e2 isT isT)
     (qmx_ok (\row_i (if i == 2%N :> nat then -1 else 0) : 'rV[rat]_3) isT isT) _ ctrb_ex_det; [by []|by []|by rewrite /fits /alloc_max; lia|].
  exists k, K. split; [exact: E|exact: H|].
  have SZ : size (char_poly (fmx 2 2 f22 - e2 *m K)) = 3%N by rewrite size_char_poly.
  have EP : \prod_(j < 3) ('X - (mxf (\row_i (if i == 2%N :> nat then -1 else 0) : 'rV[rat]_3) 0%N j)%:P) = 'X ^+ 3 + 'X ^+ 2 :> {poly rat}.
    under eq_bigr => j _ do rewrite -[0%N]/(val (0 : 'I_1)) mxfE mxE.
    rewrite !big_ord_recr big_ord0 /= !subr0 mul1r polyCN opprK mulrDr mulr1 -expr2 -exprSr. by [].
  rewrite EP in HK. move: (char_poly _) SZ HK => P SZ HK.
  apply/polyP => i. case: (leqP i 2%N) => Hi; last first.
    rewrite [LHS]nth_default; last by rewrite SZ. rewrite coefD coefXn coefX. by case: i Hi => [|[|[|i]]].
  rewrite (HK _ Hi) !coefD !coefXn coefX. by case: i Hi => [|[|[|i]]].
Qed.
Example C95_expm_ex : exists k, forall fuel, (k <= fuel)%N -> expm (fun x : rat => x) (2%:R^-1) fuel (mb_of_mat (qmx (const_mx 1 : 'M[rat]_(1, 2)))) (1 : rat) = Throw.
Proof.
  have H := @C95_expm_not_square [archiFieldType of rat] ratops rat_real rat_exactZ rat_feq0 (fun x => erefl) id (qmx (const_mx 1 : 'M[rat]_(1, 2))) 1%N 2%N _ 1 (is_mx_qmx (const_mx 1 : 'M[rat]_(1, 2)) isT isT) isT isT.
  by apply: H.
Qed.
(** The input matrix has two rows. *)
Lemma mx11 (x : rat) : is_mx (mkM 1 1 [:: x]) (const_mx x : 'M[rat]_1).
Proof.
  split=> //. split=> //. split=> //. split=> // i j Hi Hj. have -> : i = 0%N by lia. have -> : j = 0%N by lia.
  by rewrite -[0%N]/(val (0 : 'I_1)) mxfE mxE.
Qed.
Example C95_c2d_ex : c2d (fun x : rat => x) (2%:R^-1) 1 5 (mkSS (mkM 1 1 [:: 1]) (mkM 2 1 [:: 1; 1]) (mkM 1 1 [:: 3%:R]) (mkM 1 1 [:: 0])) (1 : rat) = Throw.
Proof.
  apply: (@C95_c2d_input [archiFieldType of rat] ratops rat_real rat_exactZ id (mkSS (mkM 1 1 [:: 1]) (mkM 2 1 [:: 1; 1]) (mkM 1 1 [:: 3%:R]) (mkM 1 1 [:: 0])) 1 1 5 0 (const_mx 1) 2 1 (fun _ _ => 1) (mkM 1 1 [:: 1]) _ _ _ (mx11 1) _ _ _ _ _ C56_ex (mx11 2%:R)) => //.
  - split=> //. split=> //. split=> //. split=> // -[|[|i]] [|j] Hi Hj //; lia.
  - by rewrite det_mx11 mxE.
Qed.
