(** PropExpmBoundEx.v: concrete cases for C103 over the rational numbers. *)
From Verif Require Import LinalgFacts2 PropMatrix PropUtil PropMath RingM DetFacts RatOps PropLinalg PropRing PropField PropReal Control ControlSpec ControlFacts PropControl PropControl2 PropExpm PropFieldEx PropControlEx PropExpmEx PropDimsEx ExpBound PropExpmBound.
From mathcomp Require Import all_ssreflect all_algebra.
Set Implicit Arguments.
Unset Strict Implicit.
Unset Printing Implicit Defensive.
Import Order.Theory GRing.Theory Num.Theory.
Local Open Scope ring_scope.
Local Opaque expm.
(** expm([1], 1) is 1 + 1: one term was summed, and every longer sum is within 1/2! + ... + 1/L!. *)
Example C103_ex : expm (fun x : rat => x) (2%:R^-1) 5 (mb_of_mat (mkM 1 1 [:: 1 : rat])) 1 = Ok (mkM 1 1 [:: 2%:R : rat]) /\
  exists norm K s (X : 'M[rat]_1), [/\ infinity_norm_m oabs (mb_of_mat (mkM 1 1 [:: 1 : rat])) = Ok norm, (1 <= K)%N, is_mx (mkM 1 1 [:: 2%:R : rat]) X &
    forall L, (K <= L)%N -> within X (\sum_(k < L.+1) (k`!%:R)^-1 *: (const_mx 1) ^+ k) (\sum_(K.+1 <= k < (maxn L (K * 2 ^ s)).+1) (k`!%:R)^-1 * norm ^+ k)].
Proof. split; first exact: C56_ex. exact: (@C103_expm [archiFieldType of rat] ratops rat_real rat_exactZ rat_feq0 id (fun x => erefl) _ 0 (const_mx 1) _ _ _ (mx11 1) C56_ex). Qed.
(** A 3 by 3 matrix whose square is zero: the first row is (0, 3, 3), the others are zero. *)
Definition nil3 : 'M[rat]_3 := \matrix_(i, j) if (i == ord0) && (j != ord0) then 3%:R else 0.
Lemma nil3_sq : nil3 ^+ 2 = 0.
Proof.
  apply/matrixP => i j. rewrite expr2 !mxE big1 // => k _. rewrite !mxE. case: (k == ord0); first by rewrite andbF mul0r. by rewrite mulr0.
Qed.
Example C103_exponential_ex : exists X, [/\ is_exponential nil3 X, nil3 <> 0 &
  exists fuel E norm K (Y : 'M[rat]_3), [/\ expm (fun x : rat => x) (2%:R^-1) fuel (mb_of_mat (qmx nil3)) 0 = Ok E, (9 <= K)%N, is_mx E Y,
    infinity_norm_m oabs (mb_of_mat (qmx nil3)) = Ok norm & norm < K.+2%:R /\ within Y X (norm ^+ K.+1 / K.+1`!%:R * (K.+2%:R / (K.+2%:R - norm)))]].
Proof.
  have X0 := C103_nilpotent nil3_sq. eexists. split; first exact: X0.
    move=> /matrixP /(_ ord0 (lift ord0 ord0)). rewrite !mxE => /eqP. by rewrite pnatr_eq0.
  have Hm : is_mx (qmx nil3) nil3 by apply: is_mx_qmx.
  have [f0 H0] := @C103_square_zero [archiFieldType of rat] ratops rat_real rat_exactZ rat_feq0 id (fun x => erefl) _ 2 nil3 Hm nil3_sq erefl.
  have [E [EE _]] := H0 f0 (leqnn _).
  have [norm [K [Y [En HK HY [_ H]]]]] := @C103_exponential [archiFieldType of rat] ratops rat_real rat_exactZ rat_feq0 id (fun x => erefl) _ 2 nil3 _ _ _ _ Hm EE X0.
  have Hn : norm < K.+2%:R.
    have [|x [Ex _ [i [Hi Hx]]]] := proj2 (C40_infinity_norm_matrix (ab := oabs) rat_real _ Hm) isT; first by move=> y; exact: normr_ge0.
    move: Ex. rewrite En => -[->]. rewrite Hx. apply: (@le_lt_trans _ _ (\sum_(j < 3) 3%:R)); last first.
      rewrite sumr_const card_ord -mulrnA ltr_nat. apply: (@leq_ltn_trans K) => //.
    apply: ler_sum => j _. rewrite -[i]/(val (Ordinal Hi)) mxfE mxE -[oabs _]/(`| _ |). by case: ifP => _; rewrite ?normr0 ?ler0n // normr_nat.
  exists f0, E, norm, K, Y. split; [exact: EE|exact: HK|exact: HY|exact: En|exact: (conj Hn (H Hn))].
Qed.
