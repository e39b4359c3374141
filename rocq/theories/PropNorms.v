(** PropNorms.v: C119, the norms of math.hpp are norms: how square_norm and infinity_norm relate to
    sums, multiples, products and projections, for real and for complex elements. *)
From Verif Require Import LinalgFacts2 PropMatrix PropUtil PropMath RingM DetFacts RatOps PropLinalg PropRing PropField PropReal Control ControlSpec ControlFacts PropControl PropControl2 PropHess PropCoord.
From mathcomp Require Import all_ssreflect all_algebra.
Set Implicit Arguments.
Unset Strict Implicit.
Unset Printing Implicit Defensive.
Import Order.Theory GRing.Theory Num.Theory.
Local Open Scope ring_scope.

(** [ab] is an absolute value on the elements, with values in the type of the norm, and [sq] its square
    (std::abs and std::norm for complex elements, |x| and x * x for real ones). *)
Definition magnitude (T : comRingType) (U : rcfType) (ab sq : T -> U) : Prop :=
  [/\ (forall x, 0 <= ab x), (forall x, ab x = 0 <-> x = 0), (forall x y, ab (x + y) <= ab x + ab y), (forall x y, ab (x * y) = ab x * ab y) &
   (forall x, sq x = ab x ^+ 2)].

(** * Sums of squares *)
Section Sums.
Variables (U : rcfType) (I : finType).
Implicit Types f g h : I -> U.
Lemma sq_sum_ge0 f : 0 <= \sum_i f i ^+ 2. Proof. by apply: sumr_ge0 => i _; exact: sqr_ge0. Qed.
Lemma sq_sum0 f : \sum_i f i ^+ 2 = 0 -> forall i, f i = 0.
Proof.
  move=> H i. apply/eqP. rewrite -sqrf_eq0. move: H => /eqP. rewrite psumr_eq0 => [/allP H|j _]; last exact: sqr_ge0. exact: H (mem_index_enum i).
Qed.
Lemma cauchy f g : (\sum_i f i * g i) ^+ 2 <= (\sum_i f i ^+ 2) * (\sum_i g i ^+ 2).
Proof.
  set S := \sum_i f i ^+ 2. set P := \sum_i f i * g i. set Q := \sum_i g i ^+ 2. have Q0 : 0 <= Q := sq_sum_ge0 g.
  have [EQ|NQ] := eqVneq Q 0.
    have -> : P = 0 by apply: big1 => i _; rewrite (sq_sum0 EQ) mulr0. by rewrite expr0n EQ mulr0.
  have QP : 0 < Q by rewrite lt_def NQ.
  have H t : 0 <= S - t * P *+ 2 + t ^+ 2 * Q.
    apply: le_trans (sq_sum_ge0 (fun i => f i - t * g i)) _. rewrite /S /P /Q !mulr_sumr -sumrMnl -sumrB -big_split /=. apply: ler_sum => i _.
    by rewrite sqrrB exprMn mulrCA.
  have := H (P / Q). rewrite exprMn mulrAC -expr2 [Q^-1 ^+ 2]expr2 !mulrA [P ^+ 2 / Q / Q * Q]mulfVK // mulr2n opprD addrA subrK subr_ge0.
  by rewrite ler_pdivr_mulr.
Qed.
Lemma minkowski f g h : (forall i, 0 <= h i) -> (forall i, h i <= f i + g i) ->
  Num.sqrt (\sum_i h i ^+ 2) <= Num.sqrt (\sum_i f i ^+ 2) + Num.sqrt (\sum_i g i ^+ 2).
Proof.
  move=> H0 H. set S := \sum_i f i ^+ 2. set Q := \sum_i g i ^+ 2. have S0 : 0 <= S := sq_sum_ge0 f. have Q0 : 0 <= Q := sq_sum_ge0 g.
  have P0 : 0 <= Num.sqrt S + Num.sqrt Q by rewrite addr_ge0 ?sqrtr_ge0.
  rewrite -(@ler_pexpn2r _ 2) // ?nnegrE ?sqrtr_ge0 // sqr_sqrtr ?sq_sum_ge0 // sqrrD !sqr_sqrtr //.
  apply: le_trans (_ : \sum_i (f i + g i) ^+ 2 <= _).
    apply: ler_sum => i _. by rewrite ler_pexpn2r // nnegrE // (le_trans (H0 i)).
  rewrite (eq_bigr (fun i => f i ^+ 2 + f i * g i *+ 2 + g i ^+ 2)) => [|i _]; last by rewrite sqrrD.
  rewrite big_split /= big_split /= ler_add2r ler_add2l sumrMnl ler_muln2r /=. apply: le_trans (ler_norm _) _.
  rewrite -(@ler_pexpn2r _ 2) // ?nnegrE ?mulr_ge0 ?sqrtr_ge0 // exprMn !sqr_sqrtr // real_normK ?num_real //. exact: cauchy.
Qed.
End Sums.

Section N.
Variables (T : comRingType) (U : rcfType) (OT : Ops T) (OU : Ops U).
Hypothesis HT : ringO OT.
Hypothesis HU : realO OU.
Let HV : ringO OU. Proof. by case: HU => -[]. Qed.
Variables (ab sq : T -> U).
Hypothesis HM : magnitude ab sq.
Let ab0 x : 0 <= ab x. Proof. by case: HM. Qed.
Let abz x : ab x = 0 <-> x = 0. Proof. by case: HM. Qed.
Let abD x y : ab (x + y) <= ab x + ab y. Proof. by case: HM. Qed.
Let abM x y : ab (x * y) = ab x * ab y. Proof. by case: HM. Qed.
Let sqE x : sq x = ab x ^+ 2. Proof. by case: HM. Qed.
Let ab00 : ab 0 = 0. Proof. exact/abz. Qed.
Lemma ab_sum (I : finType) (f : I -> T) : ab (\sum_i f i) <= \sum_i ab (f i).
Proof. elim/big_ind2: _ => // [|x a y b Hx Hy]; first by rewrite ab00. exact: le_trans (abD _ _) (ler_add Hx Hy). Qed.
Let sqrt (x : U) : U := Num.sqrt x.
Notation norm2 m := (square_norm_m sq sqrt (mb_of_mat m)).
Notation norm2v v := (square_norm_v sq sqrt v).
Notation norminf m := (infinity_norm_m ab (mb_of_mat m)).
Notation norminfv v := (infinity_norm_v ab v).

Definition fro r c (M : 'M[T]_(r, c)) : U := Num.sqrt (\sum_(p : 'I_r * 'I_c) ab (M p.1 p.2) ^+ 2).
Lemma fro_mx m r c (M : 'M[T]_(r, c)) : is_mx m M -> norm2 m = Ok (fro M).
Proof.
  move=> H. have [R _] := is_mx_reads H. rewrite (C40_square_norm_matrix HU sq sqrt R) /fro /sqrt. congr (Ok (Num.sqrt _)).
  rewrite pair_bigA. apply: eq_bigr => -[i j] _ /=. by rewrite sqE mxfE.
Qed.
Lemma fro_vec v n (V : 'cV[T]_n) : is_vec v n (cvf V) -> norm2v v = Ok (fro V).
Proof.
  move=> H. rewrite (C40_square_norm_vector HU sq sqrt H) /fro /sqrt. congr (Ok (Num.sqrt _)).
  rewrite -(pair_bigA _ (fun i j => ab (V i j) ^+ 2)) /=. apply: eq_bigr => i _. by rewrite big_ord1 sqE cvfE.
Qed.
Lemma fro_sq r c (M : 'M[T]_(r, c)) : fro M ^+ 2 = \sum_i \sum_j ab (M i j) ^+ 2.
Proof. rewrite sqr_sqrtr; last exact: sq_sum_ge0. by rewrite -(pair_bigA _ (fun i j => ab (M i j) ^+ 2)). Qed.
Lemma fro_ge0 r c (M : 'M[T]_(r, c)) : 0 <= fro M. Proof. exact: sqrtr_ge0. Qed.
Lemma fro_le r c r' c' (M : 'M[T]_(r, c)) (N : 'M[T]_(r', c')) k : 0 <= k -> fro M ^+ 2 <= k ^+ 2 * fro N ^+ 2 -> fro M <= k * fro N.
Proof. move=> Hk H. by rewrite -(@ler_pexpn2r _ 2) // ?nnegrE ?mulr_ge0 ?fro_ge0 // exprMn. Qed.
Lemma fro0 r c (M : 'M[T]_(r, c)) : fro M = 0 <-> M = 0.
Proof.
  split=> [H|->]; last by rewrite /fro big1 ?sqrtr0 // => p _; rewrite mxE ab00 expr0n.
  apply/matrixP => i j. rewrite mxE. apply/abz. apply: (@sq_sum0 _ _ (fun p : 'I_r * 'I_c => ab (M p.1 p.2)) _ (i, j)).
  have := sqr_sqrtr (sq_sum_ge0 (fun p : 'I_r * 'I_c => ab (M p.1 p.2))). by rewrite -/(fro M) H expr0n => <-.
Qed.
Lemma froD r c (M N : 'M[T]_(r, c)) : fro (M + N) <= fro M + fro N.
Proof. apply: minkowski => p //. by rewrite mxE. Qed.
Lemma froZ r c (M : 'M[T]_(r, c)) a : fro (a *: M) = ab a * fro M.
Proof.
  rewrite /fro -{1}(ger0_norm (ab0 a)) -sqrtr_sqr -sqrtrM ?sqr_ge0 // mulr_sumr. congr Num.sqrt. apply: eq_bigr => p _. by rewrite mxE abM exprMn.
Qed.
Lemma ab_dot n (f g : 'I_n -> T) : ab (\sum_i f i * g i) ^+ 2 <= (\sum_i ab (f i) ^+ 2) * (\sum_i ab (g i) ^+ 2).
Proof.
  apply: le_trans (cauchy _ _). rewrite ler_pexpn2r // ?nnegrE //; last by apply: sumr_ge0 => i _; rewrite mulr_ge0.
  apply: le_trans (ab_sum _) _. by under eq_bigr do rewrite abM.
Qed.
Lemma froM r n c (M : 'M[T]_(r, n)) (N : 'M[T]_(n, c)) : fro (M *m N) <= fro M * fro N.
Proof.
  apply: fro_le; first exact: fro_ge0. rewrite !fro_sq mulr_suml. apply: ler_sum => i _. rewrite exchange_big mulr_sumr. apply: ler_sum => j _.
  rewrite mxE. exact: ab_dot.
Qed.

(** x is the largest row sum of M (0 when there are no elements). *)
Definition rowmax r c (M : 'M[T]_(r, c)) (x : U) : Prop :=
  [/\ 0 <= x, (forall i, \sum_j ab (M i j) <= x) & forall y, 0 <= y -> (forall i, \sum_j ab (M i j) <= y) -> x <= y].
Lemma rowmax_unique r c (M : 'M[T]_(r, c)) x y : rowmax M x -> rowmax M y -> x = y.
Proof. move=> [X1 X2 X3] [Y1 Y2 Y3]. apply/eqP. by rewrite eq_le X3 // Y3. Qed.
Lemma inf_mx m r c (M : 'M[T]_(r, c)) : is_mx m M -> exists x, norminf m = Ok x /\ rowmax M x.
Proof.
  move=> H. have [H1 H2] := C40_infinity_norm_matrix (ab := ab) HU ab0 H. have [E|P] := posnP (r * c)%N.
    exists 0. split; first exact: H1. split=> // i. rewrite big1 // => j _. exfalso. move: E => /eqP. rewrite muln_eq0 => /orP [] /eqP E; [move: i|move: j]; by rewrite E => -[].
  have [x [Ex B [i [Hi Ei]]]] := H2 P. exists x. split=> //. have S i' : \sum_j ab (M i' j) = \sum_(j < c) ab (mxf M i' j) by apply: eq_bigr => j _; rewrite mxfE.
  split; first by rewrite Ei; apply: sumr_ge0 => j _.
  - move=> i'. rewrite S. apply: B. exact: ltn_ord.
  - move=> y _ Hy. rewrite Ei. by have := Hy (Ordinal Hi); rewrite S.
Qed.
Lemma inf_vec v n (V : 'cV[T]_n) : is_vec v n (cvf V) -> exists x, norminfv v = Ok x /\ rowmax V x.
Proof.
  move=> H. have [H1 H2] := C40_infinity_norm_vector HU ab H. have [E|P] := posnP n.
    exists 0. split; first exact: H1. split=> // -[i Hi]. exfalso. by rewrite E in Hi.
  have [x [Ex B [i [Hi Ei]]]] := H2 P. exists x. split=> //. have S i' : \sum_j ab (V i' j) = ab (cvf V i') by rewrite big_ord1 cvfE.
  split; first by rewrite Ei.
  - move=> i'. rewrite S. apply: B. exact: ltn_ord.
  - move=> y _ Hy. rewrite Ei. by have := Hy (Ordinal Hi); rewrite S.
Qed.
Lemma rowmax0 r c (M : 'M[T]_(r, c)) x : rowmax M x -> x = 0 <-> M = 0.
Proof.
  move=> [X1 X2 X3]. split=> E.
    apply/matrixP => i j. rewrite mxE. apply/abz/eqP. rewrite -(ger0_norm (ab0 _)) normr_eq0 eq_le ab0 andbT -E. apply: le_trans (X2 i). rewrite (bigD1 j) //= ler_addl. exact: sumr_ge0.
  apply/eqP. rewrite eq_le X1 andbT. apply: X3 => // i. rewrite big1 // => j _. by rewrite E mxE ab00.
Qed.
Lemma rowmaxD r c (M N : 'M[T]_(r, c)) x y z : rowmax M x -> rowmax N y -> rowmax (M + N) z -> z <= x + y.
Proof.
  move=> [X1 X2 _] [Y1 Y2 _] [_ _ Z]. apply: Z => [|i]; first exact: addr_ge0. apply: le_trans (ler_add (X2 i) (Y2 i)). rewrite -big_split /=. apply: ler_sum => j _. by rewrite mxE.
Qed.
Lemma rowmaxZ r c (M : 'M[T]_(r, c)) a x z : rowmax M x -> rowmax (a *: M) z -> z = ab a * x.
Proof.
  move=> [X1 X2 X3] [Z1 Z2 Z3]. have S i : \sum_j ab ((a *: M) i j) = ab a * \sum_j ab (M i j) by rewrite mulr_sumr; apply: eq_bigr => j _; rewrite mxE abM.
  apply/eqP. rewrite eq_le. apply/andP. split.
    apply: Z3 => [|i]; first by rewrite mulr_ge0. rewrite S. exact: ler_wpmul2l.
  have [E|N] := eqVneq (ab a) 0; first by rewrite E mul0r. have P : 0 < ab a by rewrite lt_def N ab0.
  rewrite mulrC -ler_pdivl_mulr //. apply: X3 => [|i]; first by rewrite divr_ge0. by rewrite ler_pdivl_mulr // mulrC -S.
Qed.
Lemma rowmaxM r n c (M : 'M[T]_(r, n)) (N : 'M[T]_(n, c)) x y z : rowmax M x -> rowmax N y -> rowmax (M *m N) z -> z <= x * y.
Proof.
  move=> [X1 X2 _] [Y1 Y2 _] [_ _ Z]. apply: Z => [|i]; first exact: mulr_ge0.
  apply: le_trans (_ : \sum_j \sum_k ab (M i k) * ab (N k j) <= _).
    apply: ler_sum => j _. rewrite mxE. apply: le_trans (ab_sum _) _. by under eq_bigr do rewrite abM.
  rewrite exchange_big /=. apply: le_trans (_ : \sum_k ab (M i k) * y <= _); last by rewrite -mulr_suml; apply: ler_wpmul2r.
  apply: ler_sum => k _. rewrite -mulr_sumr. exact: ler_wpmul2l.
Qed.
Lemma rowmax_fro r c (M : 'M[T]_(r, c)) x : rowmax M x -> x ^+ 2 <= c%:R * fro M ^+ 2 /\ fro M ^+ 2 <= r%:R * x ^+ 2.
Proof.
  move=> [X1 X2 X3]. split; last first.
    rewrite fro_sq mulr_natl -[r in _ *+ r]card_ord -sumr_const. apply: ler_sum => i _. apply: le_trans (_ : (\sum_j ab (M i j)) ^+ 2 <= _); last first.
      by rewrite ler_pexpn2r // nnegrE // sumr_ge0.
    rewrite expr2 mulr_suml. apply: ler_sum => j _. rewrite expr2. apply: ler_wpmul2l => //. rewrite (bigD1 j) //= ler_addl. exact: sumr_ge0.
  set b := c%:R * fro M ^+ 2. have b0 : 0 <= b by rewrite mulr_ge0 ?ler0n ?sqr_ge0.
  rewrite -(sqr_sqrtr b0) ler_pexpn2r // ?nnegrE ?sqrtr_ge0 //. apply: X3 => [|i]; first exact: sqrtr_ge0.
  have s0 : 0 <= \sum_j ab (M i j) by apply: sumr_ge0.
  rewrite -(@ler_pexpn2r _ 2) // ?nnegrE ?sqrtr_ge0 // sqr_sqrtr //.
  have := cauchy (fun=> 1) (fun j => ab (M i j)). under eq_bigr do rewrite mul1r. move/le_trans; apply. rewrite expr1n sumr_const card_ord. apply: ler_wpmul2l; first exact: ler0n.
  rewrite fro_sq (bigD1 i) //= ler_addl. apply: sumr_ge0 => k _. exact: sq_sum_ge0.
Qed.

(** * The theorems *)
(** A norm is 0 only for zero elements. *)
Theorem C119_zero m r c (M : 'M[T]_(r, c)) v n (V : 'cV[T]_n) : is_mx m M -> is_vec v n (cvf V) ->
  [/\ norm2 m = Ok 0 <-> M = 0, norminf m = Ok 0 <-> M = 0, norm2v v = Ok 0 <-> V = 0 & norminfv v = Ok 0 <-> V = 0].
Proof.
  move=> Hm Hv. rewrite (fro_mx Hm) (fro_vec Hv). have [x [-> /rowmax0 X]] := inf_mx Hm. have [y [-> /rowmax0 Y]] := inf_vec Hv.
  have G (z : U) (P : Prop) : (z = 0 <-> P) -> (Ok z = Ok 0 <-> P) by move=> Q; split=> [[/Q]|/Q ->].
  split; apply: G; [exact: fro0|exact: X|exact: fro0|exact: Y].
Qed.
(** The norms of a sum. *)
Theorem C119_sum a b r c (M N : 'M[T]_(r, c)) : is_mx a M -> is_mx b N ->
  exists s x y z x' y' z', [/\ m_add (mb_of_mat a) (mb_of_mat b) = Ok s, [/\ norm2 a = Ok x, norm2 b = Ok y, norm2 s = Ok z & z <= x + y] &
    [/\ norminf a = Ok x', norminf b = Ok y', norminf s = Ok z' & z' <= x' + y']].
Proof.
  move=> Ha Hb. have [s [E Hs _]] := m_add_mx HT (is_mx_reads Ha) (is_mx_reads Hb).
  have [x [Ex Rx]] := inf_mx Ha. have [y [Ey Ry]] := inf_mx Hb. have [z [Ez Rz]] := inf_mx Hs.
  exists s, (fro M), (fro N), (fro (M + N)), x, y, z. split=> //; split=> //; try exact: fro_mx; [exact: froD|exact: rowmaxD Rx Ry Rz].
Qed.
Theorem C119_vector_sum a b n (V W : 'cV[T]_n) : is_vec a n (cvf V) -> is_vec b n (cvf W) ->
  exists s x y z x' y' z', [/\ v_add a b = Ok s, [/\ norm2v a = Ok x, norm2v b = Ok y, norm2v s = Ok z & z <= x + y] &
    [/\ norminfv a = Ok x', norminfv b = Ok y', norminfv s = Ok z' & z' <= x' + y']].
Proof.
  move=> Ha Hb. have [_ H] := C32_vec_add a b n _ n _ Ha Hb. have [s [E Hs]] := H erefl.
  have {}Hs : is_vec s n (cvf (V + W)).
    apply: is_vec_ext; first exact: Hs. move=> i /ssrnat.ltP Hi. by rewrite -[i]/(val (Ordinal Hi)) (oaddE HT) !cvfE mxE.
  have [x [Ex Rx]] := inf_vec Ha. have [y [Ey Ry]] := inf_vec Hb. have [z [Ez Rz]] := inf_vec Hs.
  exists s, (fro V), (fro W), (fro (V + W)), x, y, z. split=> //; split=> //; try exact: fro_vec; [exact: froD|exact: rowmaxD Rx Ry Rz].
Qed.
(** The norms of a multiple. *)
Theorem C119_multiple a r c (M : 'M[T]_(r, c)) k : is_mx a M ->
  exists s x x', [/\ m_muls (mb_of_mat a) k = Ok s, norm2 a = Ok x, norminf a = Ok x', norm2 s = Ok (ab k * x) & norminf s = Ok (ab k * x')].
Proof.
  move=> Ha. have [s [E Hs _]] := m_muls_mx HT k (is_mx_reads Ha). have [x [Ex Rx]] := inf_mx Ha. have [z [Ez Rz]] := inf_mx Hs.
  exists s, (fro M), x. split=> //; [exact: fro_mx|by rewrite -froZ; exact: fro_mx|by rewrite Ez (rowmaxZ Rx Rz)].
Qed.
Theorem C119_vector_multiple a n (V : 'cV[T]_n) k : is_vec a n (cvf V) ->
  exists s x x', [/\ v_muls a k = Ok s, norm2v a = Ok x, norminfv a = Ok x', norm2v s = Ok (ab k * x) & norminfv s = Ok (ab k * x')].
Proof.
  move=> Ha. have [s [E Hs]] := C32_vec_mul_scalar k a n _ Ha.
  have {}Hs : is_vec s n (cvf (k *: V)).
    apply: is_vec_ext; first exact: Hs. move=> i /ssrnat.ltP Hi. by rewrite -[i]/(val (Ordinal Hi)) (omulE HT) !cvfE mxE mulrC.
  have [x [Ex Rx]] := inf_vec Ha. have [z [Ez Rz]] := inf_vec Hs.
  exists s, (fro V), x. split=> //; [exact: fro_vec|by rewrite -froZ; exact: fro_vec|by rewrite Ez (rowmaxZ Rx Rz)].
Qed.
(** The norms of a product of matrices, and of a matrix and a vector. *)
Theorem C119_product a b r n c (M : 'M[T]_(r, n)) (N : 'M[T]_(n, c)) : is_mx a M -> is_mx b N -> shape_ok r c ->
  exists s x y z x' y' z', [/\ m_mul (mb_of_mat a) (mb_of_mat b) = Ok s, [/\ norm2 a = Ok x, norm2 b = Ok y, norm2 s = Ok z & z <= x * y] &
    [/\ norminf a = Ok x', norminf b = Ok y', norminf s = Ok z' & z' <= x' * y']].
Proof.
  move=> Ha Hb Sh. have [s [E Hs _]] := m_mul_mxL HT (is_mx_reads Ha) (is_mx_reads Hb) Sh.
  have [x [Ex Rx]] := inf_mx Ha. have [y [Ey Ry]] := inf_mx Hb. have [z [Ez Rz]] := inf_mx Hs.
  exists s, (fro M), (fro N), (fro (M *m N)), x, y, z. split=> //; split=> //; try exact: fro_mx; [exact: froM|exact: rowmaxM Rx Ry Rz].
Qed.
Theorem C119_apply a b r n (M : 'M[T]_(r, n)) (V : 'cV[T]_n) : is_mx a M -> is_vec b n (cvf V) -> fits r ->
  exists s x y z x' y' z', [/\ m_mulv (mb_of_mat a) b = Ok s, [/\ norm2 a = Ok x, norm2v b = Ok y, norm2v s = Ok z & z <= x * y] &
    [/\ norminf a = Ok x', norminfv b = Ok y', norminfv s = Ok z' & z' <= x' * y']].
Proof.
  move=> Ha Hb Fr. have [s [E Hs]] := mulv_cv HT (is_mx_reads Ha) Hb Fr.
  have [x [Ex Rx]] := inf_mx Ha. have [y [Ey Ry]] := inf_vec Hb. have [z [Ez Rz]] := inf_vec Hs.
  exists s, (fro M), (fro V), (fro (M *m V)), x, y, z. split=> //; split=> //; try exact: fro_mx; try exact: fro_vec; [exact: froM|exact: rowmaxM Rx Ry Rz].
Qed.
(** The product of two vectors (Cauchy and Schwarz). *)
Theorem C119_dot a b n (V W : 'cV[T]_n) : is_vec a n (cvf V) -> is_vec b n (cvf W) ->
  exists d x y, [/\ dot a b = Ok d, norm2v a = Ok x, norm2v b = Ok y & ab d <= x * y].
Proof.
  move=> Ha Hb. have [_ H] := C35_dot a b n _ n _ Ha Hb. exists (\sum_i V i 0 * W i 0), (fro V), (fro W). split; [|exact: fro_vec|exact: fro_vec|].
    rewrite H // (osumE HT). congr Ok. apply: eq_bigr => i _. by rewrite (omulE HT) !cvfE.
  rewrite -(@ler_pexpn2r _ 2) // ?nnegrE ?mulr_ge0 ?fro_ge0 // exprMn !fro_sq. apply: le_trans (ab_dot _ _) _.
  by rewrite le_eqVlt; apply/orP; left; apply/eqP; congr (_ * _); apply: eq_bigr => i _; rewrite big_ord1.
Qed.
(** The two norms of a matrix and of a vector against each other. *)
Theorem C119_compare a r c (M : 'M[T]_(r, c)) : is_mx a M ->
  exists x y, [/\ norm2 a = Ok x, norminf a = Ok y, y ^+ 2 <= c%:R * x ^+ 2 & x ^+ 2 <= r%:R * y ^+ 2].
Proof. move=> Ha. have [y [Ey /rowmax_fro [R1 R2]]] := inf_mx Ha. exists (fro M), y. split=> //. exact: fro_mx. Qed.
Theorem C119_vector_compare v n (V : 'cV[T]_n) : is_vec v n (cvf V) ->
  exists x y, [/\ norm2v v = Ok x, norminfv v = Ok y, 0 <= y, y <= x & x ^+ 2 <= n%:R * y ^+ 2].
Proof.
  move=> Hv. have [y [Ey R]] := inf_vec Hv. have [R1 R2] := rowmax_fro R. exists (fro V), y. have [Y0 _ _] := R. split=> //; first exact: fro_vec.
  by rewrite -(@ler_pexpn2r _ 2) // ?nnegrE ?fro_ge0 //; rewrite mul1r in R1.
Qed.
End N.
