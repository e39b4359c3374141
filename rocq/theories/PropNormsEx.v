(** PropNormsEx.v: concrete cases for C119, over any real closed field R and its complex numbers. *)
From Verif Require Import LinalgFacts2 MathFacts MatFacts Util PropUtil PropMath MathM ControlFacts RingM DetFacts PropRing PropReal PropField PropControl PropControl2 QR PropQR Complex Eigen PropEigen.
From mathcomp Require Import all_ssreflect all_algebra realalg complex.
From Verif Require Import EigenMath PropHess PropEigenEx PropCoord PropNorms PropNorms2.
Set Implicit Arguments.
Unset Strict Implicit.
Unset Printing Implicit Defensive.
Import Order.Theory GRing.Theory Num.Theory.
Local Open Scope ring_scope.
Section Ex.
Variable R : rcfType.
Let HO : realO (rops R). Proof. exact: realops_ok. Qed.
Lemma vec2 (a b : R) : is_vec [:: a; b] 2 (nth 0 [:: a; b]).
Proof. split; [by []|split; [by rewrite /fits /alloc_max; lia|]]. move=> [|[|i]] Hi //. exfalso. lia. Qed.
(** The vector (3, 4) has the norm 5, and its projection on (1, 0) is shorter. *)
Example C119_ex_norm : @square_norm_v _ _ (rops R) (fun x => x * x) Num.sqrt [:: 3%:R; 4%:R] = Ok (5%:R : R).
Proof.
  rewrite (norm2v_E HO (vec2 _ _)) !big_ord_recl big_ord0 /= addr0. congr Ok. rewrite -!natrX -natrD. by rewrite -[(_ + _)%N]/(5 ^ 2)%N natrX sqrtr_sqr ger0_norm // ler0n.
Qed.
Example C119_projection_ex : exists p d x y z, [/\ projection (O := rops R) [:: 3%:R; 4%:R] [:: 1; 0] = Ok p, v_sub (O := rops R) [:: 3%:R; 4%:R] p = Ok d,
  [/\ square_norm_v (OU := rops R) (fun x : R => x * x) Num.sqrt [:: 3%:R; 4%:R] = Ok x, square_norm_v (OU := rops R) (fun x : R => x * x) Num.sqrt p = Ok y &
      square_norm_v (OU := rops R) (fun x : R => x * x) Num.sqrt d = Ok z], x ^+ 2 = y ^+ 2 + z ^+ 2 & 0 <= y <= x].
Proof. apply: (C119_projection HO (vec2 _ _) (vec2 _ _)). exists 0%N. by rewrite /= oner_neq0. Qed.
(** Two complex matrices: the laws of sums and products, with std::norm and std::abs. *)
Definition nA : nat -> nat -> R[i] := fun i j => Complex i%:R (j + 1)%:R.
Definition nB : nat -> nat -> R[i] := fun i j => Complex (i * j)%:R 1.
Example C119_complex_ex :
  let norm m := square_norm_m (OU := rops R) (@cxnorm R) Num.sqrt (mb_of_mat m) in
  exists s t x y z w, [/\ m_add (O := cxops R) (mb_of_mat (lib2 nA)) (mb_of_mat (lib2 nB)) = Ok s, m_mul (O := cxops R) (mb_of_mat (lib2 nA)) (mb_of_mat (lib2 nB)) = Ok t,
    [/\ norm (lib2 nA) = Ok x, norm (lib2 nB) = Ok y, norm s = Ok z & norm t = Ok w], z <= x + y & w <= x * y].
Proof.
  move=> norm. have HC := cx_complexO R. have HR : ringO (cxops R) by case: HC => -[].
  have [s [x [y [z [_ [_ [_ [E1 [X1 Y1 Z1 L1] _]]]]]]]] := C119_sum HR HO (C119_complex HC) (lib2_ok nA) (lib2_ok nB).
  have [t [x' [y' [w [_ [_ [_ [E2 [X2 Y2 Z2 L2] _]]]]]]]] := C119_product HR HO (C119_complex HC) (lib2_ok nA) (lib2_ok nB) (shape_mx (is_mx_reads (lib2_ok nA))).
  exists s, t, x, y, z, w. move: X2 Y2. rewrite X1 Y1 => -[Ex] [Ey]. rewrite -Ex -Ey in L2. by split.
Qed.
(** A quarter turn keeps the norm. *)
Example C119_unitary_ex : exists s x, [/\ m_mul (O := cxops R) (mb_of_mat (lib2 (fun i j => if i == j then 0 else Complex 0 1))) (mb_of_mat (lib2 nA)) = Ok s,
  square_norm_m (OU := rops R) (@cxnorm R) Num.sqrt (mb_of_mat (lib2 nA)) = Ok x & square_norm_m (OU := rops R) (@cxnorm R) Num.sqrt (mb_of_mat s) = Ok x].
Proof.
  apply: (C119_unitary (cx_complexO R) (lib2_ok _) (lib2_ok nA) (shape_mx (is_mx_reads (lib2_ok nA)))).
  have ii : conjC (Complex 0 1) * Complex 0 1 = 1 :> R[i] by rewrite -normCKC normc_def /= expr0n expr1n add0r sqrtr1 expr1n.
  apply/matrixP => -[[|[|i]] Hi] // -[[|[|j]] Hj] //; rewrite !mxE !big_ord_recl big_ord0 !mxE /= ?conjC0 ?mul0r ?mulr0 ?addr0 ?add0r //; try exact: ii;
    by rewrite (_ : Complex 0 (- 0) = 0 :> R[i]) ?mul0r // oppr0.
Qed.
End Ex.
Definition C119_complex_algebraic := C119_complex_ex [rcfType of realalg].
