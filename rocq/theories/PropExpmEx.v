(** PropExpmEx.v: concrete cases for C56, C59 and C64 over the rational numbers. *)
From Verif Require Import LinalgFacts2 PropMatrix PropUtil PropMath RingM DetFacts RatOps PropLinalg PropRing PropField PropReal Control ControlSpec ControlFacts PropControl PropControl2 PropExpm PropFieldEx PropControlEx CharPoly.
From mathcomp Require Import all_ssreflect all_algebra.
Set Implicit Arguments.
Unset Strict Implicit.
Unset Printing Implicit Defensive.
Import Order.Theory GRing.Theory Num.Theory.
Local Open Scope ring_scope.
Local Opaque expm c2d acker poly_m.
Lemma rat_feq0 (x : rat) : ofeq x 0 = (x == 0).
Proof.
  rewrite -rat_isz /=. by rewrite subr0 normr0 max_l ?normr_ge0.
Qed.
(** expm([1], 1) with the rational square root replaced by the identity: 1 + 1. *)
Example C56_ex : expm (fun x : rat => x) (2%:R^-1) 5 (mb_of_mat (mkM 1 1 [:: 1 : rat])) 1 = Ok (mkM 1 1 [:: 2%:R : rat]).
Proof. by vm_compute. Qed.
Example C56_zero_ex : exists E, expm (fun x : rat => x) (2%:R^-1) 1 (mb_of_mat (qmx (0 : 'M[rat]_7))) (1 : rat) = Ok E /\ is_mx E (1%:M : 'M[rat]_7).
Proof.
  apply: (@C56_zero [archiFieldType of rat] ratops rat_real rat_exactZ rat_feq0 id _ (qmx (0 : 'M[rat]_7)) 6 1 0) ; [by move=> x|exact: is_mx_qmx|exact: ler01|reflexivity].
Qed.
Example C59_ex : exists d, poly_m (mb_of_mat (qmx (fmx 2 2 f22))) = Ok d /\ coeffs d 2 (char_poly (fmx 2 2 f22)).
Proof.
  apply: (C59_char_poly rat_field (qmx_ok (fmx 2 2 f22) isT isT)); first by rewrite /fits /alloc_max; lia.
  move=> m /andP [H _]. split=> //. by rewrite pnatr_eq0 -lt0n ltnW.
Qed.
Definition e2 : 'cV[rat]_2 := \col_i (i == 1)%:R.
Lemma ctrb_ex_det : \det (ctrbmx (fmx 2 2 f22) e2) != 0.
Proof.
  have -> : ctrbmx (fmx 2 2 f22) e2 = fmx 2 2 (qrow [:: [:: 0; 1]; [:: 1; 3%:R]]).
    apply/matrixP => i j. rewrite !mxE. under eq_bigr => k _ do rewrite mxE. rewrite !big_ord_recr big_ord0 /=.
    case: i => [[|[|i]] Hi] //; case: j => [[|[|j]] Hj] //; by rewrite ?expr0 ?expr1 !mxE.
  by rewrite -rdetE.
Qed.
Example C64_ex : exists k (K : 'rV[rat]_2), [/\ acker (mb_of_mat (qmx (fmx 2 2 f22))) (mb_of_mat (qmx e2)) (mb_of_mat (qmx (const_mx (-1) : 'rV[rat]_2))) = Ok k,
   is_mx k K & char_poly (fmx 2 2 f22 - e2 *m K) = ('X + 1%:P) ^+ 2].
Proof.
  have [|k [K [E H HK]]] := C64_acker rat_field rat_exactZ (isT : 2 <= 5)%N (qmx_ok (fmx 2 2 f22) isT isT) (qmx_ok e2 isT isT)
     (qmx_ok (const_mx (-1) : 'rV[rat]_2) isT isT) _ ctrb_ex_det; first by [].
  exists k, K. split; [exact: E|exact: H|]. rewrite {}HK.
  have M1 (j : 'I_2) : mxf (const_mx (-1) : 'rV[rat]_2) 0 j = -1 by rewrite -[0%N]/(val (0 : 'I_1)) mxfE mxE.
  under eq_bigr => j _ do rewrite M1 polyCN opprK.
  by rewrite prodr_const card_ord.
Qed.
(** c2d of the scalar system x' = x + u with sample time 1: A_d = 2 (two terms, the
    accuracy being 1 here), B_d = 1. *)
Example C63_ex : c2d (fun x : rat => x) (2%:R^-1) 1 5 (mkSS (mkM 1 1 [:: 1]) (mkM 1 1 [:: 1]) (mkM 1 1 [:: 3%:R]) (mkM 1 1 [:: 0])) (1 : rat) =
  Ok (mkDSS (mkSS (mkM 1 1 [:: 2%:R]) (mkM 1 1 [:: 1]) (mkM 1 1 [:: 3%:R]) (mkM 1 1 [:: 0])) 1).
Proof. by vm_compute. Qed.
(** An integrator cannot be converted. *)
Example C63_singular_ex : c2d (fun x : rat => x) (2%:R^-1) 1 5 (mkSS (mkM 1 1 [:: 0]) (mkM 1 1 [:: 1]) (mkM 1 1 [:: 3%:R]) (mkM 1 1 [:: 0])) (1 : rat) = Throw.
Proof. by vm_compute. Qed.
