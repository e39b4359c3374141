(** PropQREx.v: concrete cases for C96 over any real closed field, and over the real
    algebraic numbers in particular. *)
From Verif Require Import LinalgFacts2 MathFacts MatFacts Util PropUtil PropMath MathM ControlFacts RingM DetFacts PropRing PropReal PropField PropControl PropControl2 QR QRMath PropQR PropQR2.
From mathcomp Require Import all_ssreflect all_algebra realalg.
Set Implicit Arguments.
Unset Strict Implicit.
Unset Printing Implicit Defensive.
Import Order.Theory GRing.Theory Num.Theory.
Local Open Scope ring_scope.

Section Ex.
Variable RA : rcfType.
Definition raops : Ops RA := realops 0.
Lemma ra_real : realO raops. Proof. exact: realops_ok. Qed.
Lemma ra_exactZ : exactZ raops.
Proof. move=> x. by rewrite /oisz /= mul0r normr_le0. Qed.
Definition ra_copysign (x y : RA) : RA := if y < 0 then - x else x.
Lemma ra_cs (x y : RA) : 0 <= x -> ra_copysign x y = if y < 0 then - x else x. Proof. by []. Qed.

Definition c34 : 'M[RA]_(2, 1) := fmx 2 1 (fun i _ => if i is 0 then 3%:R else 4%:R).
Definition m34 : Mat.Matrix RA := mkM 2 1 [:: 3%:R; 4%:R].
Definition m43 : Mat.Matrix RA := mkM 1 2 [:: 3%:R; 4%:R].
Lemma shape22 : shape_ok 2 2. Proof. by repeat split; vm_compute. Qed.
Lemma m34_ok : is_mx m34 c34.
Proof.
  apply: is_mx_mat. split; first by []. split; first by []. split; first by repeat split; vm_compute. split; first by [].
  move=> i j Hi Hj. have -> : j = 0%N by lia. case: i Hi => [|[|i]] Hi; [by []|by []|lia].
Qed.
Lemma m43_ok : is_mx m43 c34^T.
Proof.
  have -> : c34^T = fmx 1 2 (fun _ j => if j is 0 then 3%:R else 4%:R) by apply/matrixP => i j; rewrite !mxE.
  apply: is_mx_mat. split; first by []. split; first by []. split; first by repeat split; vm_compute. split; first by [].
  move=> i j Hi Hj. have -> : i = 0%N by lia. case: j Hj => [|[|j]] Hj; [by []|by []|lia].
Qed.
Lemma c34_indep : indep c34.
Proof.
  move=> x /matrixP /(_ 0 0). rewrite !mxE big_ord1 mxE => /eqP. rewrite mulf_eq0 pnatr_eq0 /= => /eqP E.
  apply/colP => i. by rewrite ord1 E mxE.
Qed.
(** The column (3, 4): R is (5, 0) or (-5, 0). *)
Example C96_qr_ex : exists q u (MQ : 'M[RA]_2) (MR : 'M[RA]_(2, 1)),
  [/\ qr_decomposition Num.sqrt ra_copysign (O := raops) m34 = Ok (q, u), is_mx q MQ, is_mx u MR, MQ *m MR = c34 & MR 0 0 ^+ 2 = 5%:R ^+ 2 /\ MR 1 0 = 0].
Proof.
  have [q [u [MQ [MR [E Hq Hu [Q1 Q2 U1 U2]]]]]] := C96_qr ra_real ra_cs m34_ok isT shape22 c34_indep.
  exists q, u, MQ, MR. have U10 : MR 1 0 = 0 by exact: U1. split=> //. split=> //.
  have : MR^T *m MR = c34^T *m c34 by rewrite -Q2 trmx_mul -mulmxA [MQ^T *m _]mulmxA Q1 mul1mx.
  move/matrixP/(_ 0 0). rewrite !mxE !big_ord_recr !big_ord0 /= !add0r !mxE /=.
  have -> : widen_ord (leqnSn 1) ord_max = 0 :> 'I_2 by exact: val_inj. have -> : ord_max = 1 :> 'I_2 by exact: val_inj.
  rewrite U10 mulr0 addr0 -expr2 => ->. by rewrite /= -!natrM -natrD -natrX.
Qed.
Lemma vec_cvf n (l : seq RA) (V : 'cV[RA]_n) : length l = n -> fits n -> (forall i : 'I_n, List.nth_error l i = Some (V i 0)) -> is_vec l n (cvf V).
Proof.
  move=> L Hf H. split=> //. split=> // i /ssrnat.ltP Hi. by rewrite -[i]/(val (Ordinal Hi)) H cvfE.
Qed.
(** 3x = 1 and 4x = 2, in the least squares sense: x = 11/25. *)
Example C96_tall_ex : exists x, solve Num.sqrt ra_copysign (O := raops) m34 [:: 1; 2%:R] = Ok [:: x] /\ 25%:R * x = 11%:R.
Proof.
  pose V : 'cV[RA]_2 := \col_i (if i == 0 then 1 else 2%:R).
  have Hb : is_vec [:: 1; 2%:R] 2 (cvf V).
    apply: vec_cvf => //. case=> [[|[|i]] Hi] //; by rewrite mxE.
  have [x [X [E Hx HN _]]] := C96_solve_tall ra_real ra_exactZ ra_cs m34_ok Hb isT isT shape22 c34_indep.
  exists (X 0 0). have [Lx [_ Gx]] := Hx. rewrite E. split.
    case: x Lx Gx {E Hx} => [|y [|z x]] //= _ /(_ 0%N Nat.lt_0_1) /= [->]. by rewrite -[0%N]/(val (0 : 'I_1)) cvfE.
  move/matrixP/(_ 0 0): HN. rewrite mulmxA !mxE big_ord1 !mxE !big_ord_recr !big_ord0 /= !add0r !mxE /=.
  by rewrite mulr1 -!natrM -!natrD.
Qed.
(** 3x + 4y = 5 has a solution of least length. *)
Example C96_wide_ex : exists x (X : 'cV[RA]_2), [/\ solve Num.sqrt ra_copysign (O := raops) m43 [:: 5%:R] = Ok x, is_vec x 2 (cvf X), c34^T *m X = const_mx 5%:R & sqlen X <= 1].
Proof.
  pose V : 'cV[RA]_1 := const_mx 5%:R.
  have Hb : is_vec [:: 5%:R] 1 (cvf V). { apply: vec_cvf => // i. by rewrite ord1 /= mxE. }
  have HI : indep c34^T^T by rewrite trmxK; exact: c34_indep.
  have [x [X [E Hx HN HL]]] := C96_solve_wide ra_real ra_exactZ ra_copysign m43_ok Hb isT isT (ltac:(by repeat split; vm_compute) : shape_ok 1 1) (ltac:(by vm_compute) : fits 2) HI.
  exists x, X. split=> //. pose Y : 'cV[RA]_2 := \col_i (if i == 0 then 3%:R / 5%:R else 4%:R / 5%:R).
  have N5 : 5%:R != 0 :> RA by rewrite pnatr_eq0.
  apply: le_trans (HL Y _) _.
  - apply/colP => i. rewrite ord1 !mxE !big_ord_recr big_ord0 /= add0r !mxE /= !mulrA -!natrM -mulrDl -natrD.
    rewrite (_ : (3 * 3 + 4 * 4)%N = (5 * 5)%N) // natrM. by rewrite mulfK.
  - rewrite /sqlen !big_ord_recr big_ord0 /= add0r !mxE /= !expr_div_n -mulrDl -!natrX -natrD.
    by rewrite divff // pnatr_eq0.
Qed.
End Ex.
(** There is such a field. *)
Example C96_field_ex : exists F : rcfType, [/\ realO (raops F), exactZ (raops F) & forall x y, 0 <= x -> ra_copysign (RA := F) x y = if y < 0 then - x else x].
Proof. exists [rcfType of realalg]. split; [exact: ra_real|exact: ra_exactZ|exact: ra_cs]. Qed.
