(** PropControlEx.v: concrete cases for the theorems of PropControl.v: the values the
    model computes over Z, and the hypotheses met over the rationals. *)
From Verif Require Import LinalgFacts2 PropMatrix PropUtil PropMath RingM DetFacts RatOps PropLinalg PropRing PropFieldEx Control ControlSpec ControlFacts PropControl Scalar.
From mathcomp Require Import all_ssreflect all_algebra.
Set Implicit Arguments.
Unset Strict Implicit.
Unset Printing Implicit Defensive.
Import GRing.Theory.
Local Open Scope ring_scope.
Local Opaque ctrb obsv poly_m poly_v polyreduce simulate m_mul transpose.

Section Z.
Local Open Scope Z_scope.
Import ListNotations.
Definition zA := mkM 2 2 [1; 2; 0; 3]. Definition zB := mkM 2 1 [0; 1]. Definition zC := mkM 1 2 [1; 0]. Definition zD := mkM 1 1 [7].
Example C57_ex : ctrb (mb_of_mat zA) (mb_of_mat zB) = Ok (mkM 2 2 [0; 2; 1; 3]) /\ obsv (mb_of_mat zA) (mb_of_mat zC) = Ok (mkM 2 2 [1; 0; 1; 2]) /\
  ctrb (mb_of_mat zA) (mb_of_mat zC) = Throw /\ obsv (mb_of_mat zB) (mb_of_mat zC) = Throw.
Proof. by repeat split; vm_compute; reflexivity. Qed.
Example C58_ex : poly_v [2; -3; 5] = Ok [1; -4; -11; 30] /\ poly_m (mb_of_mat zB) = Ok [1; -1; 0] /\
  poly_v (@nil Z) = Ok [1].
Proof. by repeat split; vm_compute; reflexivity. Qed.
Example C60_ex : polyreduce [0; 0; 3; 0; 1] = Ok [3; 0; 1] /\ polyreduce [0; 0] = Ok [0] /\ polyreduce (@nil Z) = Ok [0].
Proof. by repeat split; vm_compute; reflexivity. Qed.
Definition zsys := mkDSS (mkSS zA zB zC zD) 2.
Definition ztrunc (z : Z) : Res nat := if (z <? 0)%Z then UB else Ok (Z.to_nat z).
Example C61_ex : simulate ztrunc zsys [[1]; [0]; [5]; [9]] 7 [1; -1] = Ok ([0; 2; 4; 0], [[1; -1]; [-1; -2]; [-5; -6]; [-17; -13]], [[8]; [-1]; [30]]).
Proof. by vm_compute; reflexivity. Qed.
Example C62_ex : generate_state_zero (dsys zsys) = Ok [0; 0] /\ generate_input_zero (dsys zsys) = Ok [0] /\
  simulate ztrunc zsys [[0]; [0]] 4 [0; 0] = Ok ([0; 2; 0], [[0; 0]; [0; 0]; [0; 0]], [[0]; [0]]).
Proof. by repeat split; vm_compute; reflexivity. Qed.
End Z.

(** The hypotheses of the ring theorems are met by rational systems. *)
Example C57_ring_ex : exists m f, [/\ ctrb (mb_of_mat (qmx (fmx 2 2 f22))) (mb_of_mat (qmx (const_mx 1 : 'M[rat]_(2, 3)))) = Ok m, is_mat m 2 6 f &
    forall k i (j : nat), (k <= 1)%N -> (j < 3)%N -> f i (k * 3 + j)%N = mxf (fmx 2 2 f22 ^+ k *m (const_mx 1 : 'M[rat]_(2, 3))) i j].
Proof. exact: (C57_ctrb rat_ring (qmx_ok (fmx 2 2 f22) isT isT) (qmx_ok (const_mx 1 : 'M[rat]_(2, 3)) isT isT) (@shape_small 2 6 isT isT)). Qed.
Lemma qvec_ok (l : seq rat) : (size l <= 9)%N -> is_vec l (size l) (fun i => seq.nth 0 l i).
Proof.
  move=> H. split=> //. split; first by move/leP: H => H; rewrite /fits /alloc_max; lia.
  elim: l {H} => [|x l IH] [|i] //= Hi; try lia. apply: IH. lia.
Qed.
Example C58_ring_ex : exists d, [/\ poly_v [:: 2%:R; 3%:R : rat] = Ok d, coeffs d 2 (\prod_(k < 2) ('X - (seq.nth 0 [:: 2%:R; 3%:R : rat] k)%:P)) & nth_error d 0 = Some 1].
Proof. apply: (C58_poly_vector rat_ring); [exact: (@qvec_ok [:: 2%:R; 3%:R])|by rewrite /fits /alloc_max; lia]. Qed.
Definition qsys := mkDSS (mkSS (qmx (fmx 2 2 f22)) (qmx (const_mx 1 : 'M[rat]_(2, 1))) (qmx (const_mx 3%:R : 'M[rat]_(1, 2))) (qmx (1%:M : 'M[rat]_1))) 2%:R.
Definition qtrunc (x : rat) : Res nat := Ok (`|numq x| %/ `|denq x|)%N.
Lemma is_mx_qmx r c (M : 'M[rat]_(r, c)) : (r <= 9)%N -> (c <= 9)%N -> is_mx (qmx M) M.
Proof. move=> Hr Hc. exact: qmat_ok (shape_small Hr Hc). Qed.
Example C61_ring_ex : exists t x y, simulate qtrunc qsys [:: [:: 1]; [:: 2%:R]] 5%:R [:: 1; 0] = Ok (t, x, y) /\ length x = 3%N /\ length y = 2%N.
Proof.
  have V2 : is_vec [:: 1; 0] 2 (cvf (\col_(i < 2) seq.nth 0 [:: 1; 0 : rat] i)).
    apply: is_vec_ext; first exact: (@qvec_ok [:: 1; 0]). move=> i /ssrnat.ltP Hi. by rewrite -[i]/(val (Ordinal Hi)) cvfE mxE.
  have U : inputs [:: [:: 1]; [:: 2%:R : rat]] 1 (fun k => cvf (const_mx (k.+1)%:R : 'cV[rat]_1)).
    move=> k v E. have Hk : (k < 2)%N by case: k E => [|[|[|k]]].
    have -> : v = [:: k.+1%:R] by case: k E Hk => [|[|k]] //= [<-].
    apply: is_vec_ext; first exact: (@qvec_ok [:: k.+1%:R]). move=> [|i] Hi; last lia.
    have := cvfE (const_mx k.+1%:R : 'cV[rat]_1) 0. by rewrite mxE.
  have F1 : fits 1 by rewrite /fits /alloc_max; lia.
  have [|t [x [y [E _ L1 L2 _]]]] := C61_closed_form (sys := qsys) (trunc := qtrunc) (tm := 5%:R) (q := 5%:R / 2%:R) (K := 2%N) rat_ring
    (is_mx_qmx (fmx 2 2 f22) isT isT) (is_mx_qmx (const_mx 1 : 'M[rat]_(2, 1)) isT isT)
    (is_mx_qmx (const_mx 3%:R : 'M[rat]_(1, 2)) isT isT) (is_mx_qmx (1%:M : 'M[rat]_1) isT isT) V2 U F1 erefl; first by vm_compute; reflexivity.
  by exists t, x, y.
Qed.
