(** PropFieldEx.v: concrete cases that meet the hypotheses of the ring and field theorems. *)
From Verif Require Import LinalgFacts2 PropMatrix PropUtil PropMath RingM DetFacts LUFacts PropLinalg PropRing PropField RatOps.
From mathcomp Require Import all_ssreflect all_algebra fingroup perm.
Set Implicit Arguments.
Unset Strict Implicit.
Unset Printing Implicit Defensive.
Import GRing.Theory Num.Theory.
Local Open Scope ring_scope.
(* so that [//] does not start to compute with rationals *)
Local Opaque m_mul m_add Linalg.determinant adjoint inverse div lu_decomposition powm trace projection v_sub dot determinant.

Lemma shape_small r c : (r <= 9)%N -> (c <= 9)%N -> shape_ok r c.
Proof.
  move=> Hr Hc. have H : (r * c <= 81)%N by apply: (@leq_trans (9 * 9)); rewrite ?leq_mul.
  move/leP: Hr => Hr. move/leP: Hc => Hc. move/leP: H => H. rewrite /shape_ok /is_size /fits /alloc_max /two64.
  have E : (r * c)%coq_nat = (r * c)%N by []. rewrite E. lia.
Qed.
(** A rational Matrix object with the elements of M. *)
Definition qmx r c (M : 'M[rat]_(r, c)) : Mat.Matrix rat := qmat r c (mxf M).
Lemma qmx_ok r c (M : 'M[rat]_(r, c)) : (r <= 9)%N -> (c <= 9)%N -> reads_mx (mb_of_mat (qmx M)) M.
Proof. move=> Hr Hc. apply: is_mx_reads. exact: qmat_ok (shape_small Hr Hc). Qed.
Lemma rat_exactZ : exactZ ratops. Proof. exact: rat_isz. Qed.

Definition f22 (i j : nat) : rat := qrow [:: [:: 2%:R; 1]; [:: 1; 3%:R]] i j.
Lemma f22_det1 : \det (fmx 1 1 f22) != 0. Proof. by rewrite -rdetE. Qed.
Lemma f22_det2 : \det (fmx 2 2 f22) != 0. Proof. by rewrite -rdetE. Qed.

Example C33_ring_ex : exists (M : 'M[rat]_(2, 3)) (N : 'M[rat]_(3, 2)) m, [/\ reads_mx (mb_of_mat (qmx M)) M,
  reads_mx (mb_of_mat (qmx N)) N, m_mul (mb_of_mat (qmx M)) (mb_of_mat (qmx N)) = Ok m & is_mx m (const_mx 6%:R : 'M[rat]_2)].
Proof.
  exists (const_mx 1), (const_mx 2%:R). have H1 := qmx_ok (const_mx 1 : 'M[rat]_(2, 3)) isT isT. have H2 := qmx_ok (const_mx 2%:R : 'M[rat]_(3, 2)) isT isT.
  have [m [E H]] := C33_ring_product rat_ring H1 H2 (@shape_small 2 2 isT isT). exists m. split; [exact: H1|exact: H2|exact: E|].
  apply: is_mx_ext; first exact: H. apply/matrixP => i j. rewrite !mxE. under eq_bigr => k _ do rewrite !mxE. by rewrite !big_ord_recr big_ord0.
Qed.
Example C39_trace_ex : trace (mb_of_mat (qmx (fmx 2 2 f22))) = Ok (5%:R : rat).
Proof. rewrite (C39_ring_trace rat_ring (qmx_ok (fmx 2 2 f22) isT isT)). congr Ok. by rewrite /mxtrace !big_ord_recr big_ord0 /= !mxE. Qed.
Example C46_ex : exists m, powm (mb_of_mat (qmx (fmx 2 2 f22))) 3 = Ok m /\ is_mx m (fmx 2 2 f22 ^+ 3).
Proof. exact: (C46_powm (n := 1) rat_ring 3 (qmx_ok (fmx 2 2 f22) isT isT)). Qed.
Example C48_ex : Linalg.determinant (mb_of_mat (qmx (fmx 2 2 f22))) = Ok (5%:R : rat).
Proof. rewrite (C48_determinant rat_ring (qmx_ok (fmx 2 2 f22) isT isT)) // -rdetE. by congr Ok. Qed.

(** 5 x 5, non-singular, first diagonal element zero: a row exchange is needed. *)
Definition swap5 : 'M[rat]_5 := perm_mx (tperm 0 1).
Lemma swap5_det : \det swap5 = -1.
Proof. by rewrite /swap5 det_perm odd_tperm. Qed.
Example C49_ex : Linalg.determinant (mb_of_mat (qmx swap5)) = Ok (-1 : rat) /\ swap5 0 0 = 0.
Proof.
  split; last by rewrite /swap5 !mxE tpermL. rewrite (C49_determinant rat_field rat_exactZ (qmx_ok swap5 isT isT)) ?swap5_det //.
Qed.
Lemma const_det n : (1 < n)%N -> \det (const_mx 1 : 'M[rat]_n) = 0.
Proof.
  case: n => [|[|n]] // _. apply: (@determinant_alternate _ _ _ ord0 (lift ord0 ord0)) => // j. by rewrite !mxE.
Qed.
Example C50_ex : Linalg.determinant (mb_of_mat (qmx (0 : 'M[rat]_5))) = Ok (1 : rat) /\
  (exists d, Linalg.determinant (mb_of_mat (qmx (const_mx 1 : 'M[rat]_5))) = Ok d /\ d != 0) /\ \det (const_mx 1 : 'M[rat]_5) = 0.
Proof.
  split; first exact: (C50_zero_matrix rat_field rat_exactZ (qmx_ok (0 : 'M[rat]_5) isT isT)).
  split; [exact: (C50_never_zero rat_field rat_exactZ (qmx_ok (const_mx 1 : 'M[rat]_5) isT isT))|exact: const_det].
Qed.
Example C51_ex : exists m, adjoint (mb_of_mat (qmx swap5)) = Ok m /\ is_mx m (\adj swap5).
Proof. exact: (C51_adjoint rat_ring (qmx_ok swap5 isT isT)). Qed.

(** A 6 x 6 matrix all of whose cofactors are non-zero: I + J. *)
Definition IJ : 'M[rat]_6 := 1%:M + const_mx 1.
Definition IJi : 'M[rat]_6 := 1%:M - const_mx (7%:R^-1).
Lemma IJ_inv : IJ *m IJi = 1%:M.
Proof.
  have E : (const_mx 1 : 'M[rat]_6) *m (const_mx (7%:R^-1) : 'M[rat]_6) = const_mx (6%:R / 7%:R).
    apply/matrixP => i j. rewrite !mxE. under eq_bigr => k _ do rewrite !mxE mul1r. by rewrite sumr_const card_ord -mulr_natl.
  rewrite /IJ /IJi mulmxDl mul1mx mulmxBr mulmx1 E. apply/matrixP => i j. rewrite !mxE -addrA.
  have -> : - 7%:R^-1 + (1 - 6%:R / 7%:R) = 0 :> rat by []. by rewrite addr0.
Qed.
Lemma IJ_det : \det IJ != 0.
Proof. have := congr1 determinant IJ_inv. rewrite det_mulmx det1 => E. apply/eqP => Z. by rewrite Z mul0r in E. Qed.
Lemma IJ_cof i j : matrix.cofactor IJ i j != 0.
Proof.
  have -> : matrix.cofactor IJ i j = (\adj IJ) j i by rewrite mxE.
  have -> : \adj IJ = \det IJ *: IJi by rewrite -[\adj IJ]mulmx1 -IJ_inv mulmxA mul_adj_mx mul_scalar_mx.
  rewrite mxE mulf_neq0 ?IJ_det // !mxE. by case: (j == i).
Qed.
Example C51_large_ex : exists m, adjoint (mb_of_mat (qmx IJ)) = Ok m /\ is_mx m (\adj IJ).
Proof. exact: (C51_adjoint_large rat_field rat_exactZ (qmx_ok IJ isT isT) isT IJ_cof). Qed.
Example C51_identity_ex : exists m, adjoint (mb_of_mat (qmx (1%:M : 'M[rat]_6))) = Ok m /\ ~ is_mx m (\adj (1%:M : 'M[rat]_6)).
Proof.
  have H := qmx_ok (1%:M : 'M[rat]_6) isT isT.
  have [m [f [E _ _]]] := C51_adjoint_no_zero rat_field rat_exactZ H isT. exists m. split; first exact: E.
  exact: (C51_identity_refuted rat_field rat_exactZ H isT E).
Qed.
Example C52_ex : exists m (N : 'M[rat]_5), [/\ inverse (mb_of_mat (qmx swap5)) = Ok m, is_mx m N, swap5 *m N = 1%:M & N *m swap5 = 1%:M].
Proof. apply: (C52_inverse rat_field rat_exactZ (qmx_ok swap5 isT isT)) => //. by rewrite swap5_det. Qed.
Example C52_singular_ex : inverse (mb_of_mat (qmx (const_mx 1 : 'M[rat]_4))) = Ok mat_empty /\
  inverse (mb_of_mat (qmx (const_mx 1 : 'M[rat]_5))) <> Ok mat_empty.
Proof.
  split; first by apply/(C52_singular rat_field rat_exactZ (qmx_ok (const_mx 1 : 'M[rat]_4) isT isT)) => //; exact: const_det.
  by apply: (C52_singular_5_refuted rat_field rat_exactZ (qmx_ok (const_mx 1 : 'M[rat]_5) isT isT)); exact: const_det.
Qed.
Example C52_large_ex : exists m (N : 'M[rat]_6), [/\ inverse (mb_of_mat (qmx IJ)) = Ok m, is_mx m N, IJ *m N = 1%:M & N *m IJ = 1%:M].
Proof. exact: (C52_inverse_large rat_field rat_exactZ (qmx_ok IJ isT isT) isT IJ_det IJ_cof). Qed.
Example C53_ex : exists X, div (mb_of_mat (qmx (const_mx 3%:R : 'M[rat]_(2, 5)))) (mb_of_mat (qmx swap5)) = Ok X /\
  m_mul (mb_of_mat X) (mb_of_mat (qmx swap5)) = Ok (qmx (const_mx 3%:R : 'M[rat]_(2, 5))).
Proof.
  apply: (C53_div_product rat_field rat_exactZ _ (qmx_ok swap5 isT isT)) => //; last by rewrite swap5_det.
  exact: qmat_ok (@shape_small 2 5 isT isT).
Qed.
Example C53_singular_ex : div (mb_of_mat (qmx (const_mx 3%:R : 'M[rat]_(1, 2)))) (mb_of_mat (qmx (const_mx 1 : 'M[rat]_2))) = Throw.
Proof.
  by apply: (C53_singular rat_field rat_exactZ (qmx_ok (const_mx 3%:R : 'M[rat]_(1, 2)) isT isT) _ (qmx_ok (const_mx 1 : 'M[rat]_2) isT isT)) => //; exact: const_det.
Qed.
Example C54_ex : exists l u (L U : 'M[rat]_2), [/\ lu_decomposition (mb_of_mat (qmx (fmx 2 2 f22))) = Ok (l, u), is_mx l L, is_mx u U, L *m U = fmx 2 2 f22 &
    (forall i, L i i != 0)].
Proof.
  have [|l [u [L [U [E1 E2 E3 E4 [_ H _ _]]]]]] := C54_lu_exists rat_field (qmx_ok (fmx 2 2 f22) isT isT); last by exists l, u, L, U.
  move=> k Hk. have -> : fmx k k (mxf (fmx 2 2 f22)) = fmx k k f22.
    apply: fmx_ext => i j Hi Hj. case/andP: Hk => _ Hk. by rewrite mxf_fmx // (leq_trans _ Hk).
  case: k Hk => [|[|[|k]]] // _; [exact: f22_det1|exact: f22_det2].
Qed.
Example C44_ex : exists p q d, [/\ projection [:: 3%:R; 4%:R : rat] [:: 1; 2%:R] = Ok p, is_vec p 2 (fun i => q * seq.nth 0 [:: 1; 2%:R] i),
  v_sub [:: 3%:R; 4%:R : rat] p = Ok d, dot d [:: 1; 2%:R] = Ok (0 : rat) & projection p [:: 1; 2%:R] = Ok p].
Proof.
  have V (x y : rat) : is_vec [:: x; y] 2 (fun i => seq.nth 0 [:: x; y] i).
    split=> //. split; first by rewrite /fits /alloc_max; lia. by move=> [|[|i]] //= H; exfalso; lia.
  apply: (C44_projection rat_field (V 3%:R 4%:R) (V 1 2%:R)). by rewrite !big_ord_recr big_ord0.
Qed.
