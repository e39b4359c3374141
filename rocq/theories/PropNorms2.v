(** PropNorms2.v: C119 for real and for complex elements: the laws of PropNorms.v hold for both;
    projections and orthogonal or unitary matrices. *)
From Verif Require Import LinalgFacts2 PropMatrix PropUtil PropMath RingM DetFacts RatOps PropLinalg PropRing PropField PropReal Control ControlSpec ControlFacts PropControl PropControl2 PropHess PropCoord PropNorms.
From mathcomp Require Import all_ssreflect all_algebra.
Set Implicit Arguments.
Unset Strict Implicit.
Unset Printing Implicit Defensive.
Import Order.Theory GRing.Theory Num.Theory.
Local Open Scope ring_scope.

(** Real elements: |x| and x * x. *)
Theorem C119_real (U : rcfType) (O : Ops U) : realO O -> magnitude (fun x : U => `|x|) (fun x : U => omul x x).
Proof.
  move=> HU. have HO : ringO O by case: HU => -[].
  split=> [x|x|x y|x y|x]; [exact: normr_ge0| |exact: ler_norm_add|exact: normrM|by rewrite real_normK ?num_real // (omulE HO)].
  by split=> [/eqP|->]; [rewrite normr_eq0 => /eqP|rewrite normr0].
Qed.
(** Complex elements: std::abs and std::norm. *)
Theorem C119_complex (K : numClosedFieldType) (U : rcfType) (emb : {rmorphism U -> K}) (OC : Ops K) (OU : Ops U) (cnorm cabs : K -> U) (conj : K -> K) (ofr : U -> K) :
  complexO emb OC OU cnorm cabs conj ofr -> magnitude cabs cnorm.
Proof.
  move=> [_ _ Hm [H1 H2 _ _]]. have I : injective emb by apply: fmorph_inj.
  split=> [x|x|x y|x y|x].
  - by rewrite -Hm rmorph0 H2.
  - split=> [E|->]; last by apply: I; rewrite H2 rmorph0 normr0. apply/eqP. by rewrite -normr_eq0 -H2 E rmorph0.
  - by rewrite -Hm rmorphD !H2 ler_norm_add.
  - by apply: I; rewrite rmorphM !H2 normrM.
  - by apply: I; rewrite rmorphX H1 H2.
Qed.

Section Real.
Variables (U : rcfType) (O : Ops U).
Hypothesis HU : realO O.
Let HF : fieldO O. Proof. by case: HU. Qed.
Let HO : ringO O. Proof. by case: HF. Qed.
Notation norm2 m := (square_norm_m (fun x => omul x x) Num.sqrt (mb_of_mat m)).
Notation norm2v v := (square_norm_v (fun x => omul x x) Num.sqrt v).
Let Hsq : (fun x : U => omul x x) =1 (fun x => x * x). Proof. move=> x. exact: omulE. Qed.
Lemma norm2v_E v n f : is_vec v n f -> norm2v v = Ok (Num.sqrt (\sum_(i < n) f i ^+ 2)).
Proof. move=> H. rewrite (C40_square_norm_vector HU (fun x => omul x x) Num.sqrt H). congr (Ok (Num.sqrt _)). apply: eq_bigr => i _. by rewrite Hsq expr2. Qed.
Lemma norm2_E m r c f : is_mat m r c f -> norm2 m = Ok (Num.sqrt (\sum_(i < r) \sum_(j < c) f i j ^+ 2)).
Proof.
  move=> H. have R := is_mat_reads _ _ _ _ H. rewrite (C40_square_norm_matrix HU (fun x => omul x x) Num.sqrt R). congr (Ok (Num.sqrt _)).
  apply: eq_bigr => i _. apply: eq_bigr => j _. by rewrite Hsq expr2.
Qed.
(** The projection of a on b is never longer than a: a is the hypotenuse of the projection p and of a - p. *)
Theorem C119_projection a b n fa fb : is_vec a n fa -> is_vec b n fb -> (exists i, (i < n)%N /\ fb i != 0) ->
  exists p d x y z, [/\ projection a b = Ok p, v_sub a p = Ok d, [/\ norm2v a = Ok x, norm2v p = Ok y & norm2v d = Ok z], x ^+ 2 = y ^+ 2 + z ^+ 2 & 0 <= y <= x].
Proof.
  move=> Ha Hb [i0 [Hi0 N0]].
  have NZ : \sum_(i < n) fb i * fb i != 0.
    rewrite gt_eqF // (bigD1 (Ordinal Hi0)) //= ltr_paddr //; first by apply: sumr_ge0 => i _; rewrite -expr2 sqr_ge0.
    by rewrite -expr2 lt_def sqrf_eq0 N0 sqr_ge0.
  have [p [q [d [Ep Hp Ed Dd _]]]] := C44_projection HF Ha Hb NZ.
  have [_ H] := C32_vec_sub a p n _ n _ Ha Hp. have [d' [Ed' Hd]] := H erefl. move: Ed'. rewrite Ed => -[Ed']. subst d'.
  have {}Hd : is_vec d n (fun i => fa i - q * fb i) by apply: is_vec_ext; first exact: Hd; move=> i _; rewrite /= (osubE HO).
  have D0 : \sum_(i < n) (fa i - q * fb i) * fb i = 0.
    have [_ H'] := C35_dot d b n _ n _ Hd Hb. move: Dd. rewrite H' // (osumE HO) => -[D]. rewrite -[RHS]D. apply: eq_bigr => i _. by rewrite (omulE HO).
  have S0 (f : nat -> U) : 0 <= \sum_(i < n) f i ^+ 2 by apply: sumr_ge0 => i _; exact: sqr_ge0.
  have P : \sum_(i < n) fa i ^+ 2 = \sum_(i < n) (q * fb i) ^+ 2 + \sum_(i < n) (fa i - q * fb i) ^+ 2.
    have Z : \sum_(i < n) (q * ((fa i - q * fb i) * fb i)) *+ 2 = 0 by rewrite sumrMnl -mulr_sumr D0 mulr0 mul0rn.
    rewrite -[RHS]addr0 -[X in _ = _ + X]Z -big_split -big_split /=. apply: eq_bigr => i _.
    rewrite -{1}[fa i](subrK (q * fb i)). move: (fa i - _) => w. by rewrite sqrrD [w * (q * fb i)]mulrCA addrC addrA.
  have E1 := norm2v_E Ha. have E2 := norm2v_E Hp. have E3 := norm2v_E Hd. exists p, d, (Num.sqrt (\sum_(i < n) fa i ^+ 2)), (Num.sqrt (\sum_(i < n) (q * fb i) ^+ 2)), (Num.sqrt (\sum_(i < n) (fa i - q * fb i) ^+ 2)).
  split; [exact: Ep|exact: Ed|by []|by rewrite (sqr_sqrtr (S0 fa)) (sqr_sqrtr (S0 (fun i => q * fb i))) (sqr_sqrtr (S0 (fun i => fa i - q * fb i)))|].
  rewrite sqrtr_ge0 /= ler_wsqrtr // P ler_addl. exact: (S0 (fun i => fa i - q * fb i)).
Qed.
(** Multiplying by a matrix with orthonormal columns keeps the square norm. *)
Theorem C119_orthogonal a b r n c (Q : 'M[U]_(r, n)) (N : 'M[U]_(n, c)) : is_mx a Q -> is_mx b N -> shape_ok r c -> Q^T *m Q = 1%:M ->
  exists s x, [/\ m_mul (mb_of_mat a) (mb_of_mat b) = Ok s, norm2 b = Ok x & norm2 s = Ok x].
Proof.
  move=> Ha Hb Sh HQ. have [s [E Hs _]] := m_mul_mxL HO (is_mx_reads Ha) (is_mx_reads Hb) Sh. exists s. eexists. split; [exact: E|exact: norm2_E Hb|].
  have F r' (M : 'M[U]_(r', c)) : \sum_(i < r') \sum_(j < c) mxf M i j ^+ 2 = \tr (M^T *m M).
    rewrite exchange_big. apply: eq_bigr => j _. rewrite mxE. apply: eq_bigr => i _. by rewrite mxE mxfE expr2.
  by rewrite (norm2_E Hs) !F trmx_mul !mulmxA -[N^T *m Q^T *m Q]mulmxA HQ mulmx1.
Qed.
End Real.

Section Complex.
Variables (K : numClosedFieldType) (U : rcfType) (emb : {rmorphism U -> K}) (OC : Ops K) (OU : Ops U).
Variables (cnorm cabs : K -> U) (conj : K -> K) (ofr : U -> K).
Hypothesis HC : complexO emb OC OU cnorm cabs conj ofr.
Let HF : fieldO OC. Proof. by case: HC. Qed.
Let HO : ringO OC. Proof. by case: HF. Qed.
Let HU : realO OU. Proof. by case: HC. Qed.
Notation norm2 m := (square_norm_m cnorm Num.sqrt (mb_of_mat m)).
(** ... and by a matrix with unitary columns, for complex elements. *)
Theorem C119_unitary a b r n c (Q : 'M[K]_(r, n)) (N : 'M[K]_(n, c)) : is_mx a Q -> is_mx b N -> shape_ok r c -> map_mx conjC Q^T *m Q = 1%:M ->
  exists s x, [/\ m_mul (mb_of_mat a) (mb_of_mat b) = Ok s, norm2 b = Ok x & norm2 s = Ok x].
Proof.
  move=> Ha Hb Sh HQ. have [s [E Hs _]] := m_mul_mxL HO (is_mx_reads Ha) (is_mx_reads Hb) Sh. exists s. eexists.
  split; [exact: E|exact: (C40_square_norm_matrix HU cnorm Num.sqrt (proj1 (is_mx_reads Hb)))|].
  rewrite (C40_square_norm_matrix HU cnorm Num.sqrt (proj1 (is_mx_reads Hs))). congr (Ok (Num.sqrt _)). apply: (fmorph_inj emb).
  have F r' (M : 'M[K]_(r', c)) : emb (\sum_(i < r') \sum_(j < c) cnorm (mxf M i j)) = \tr (map_mx conjC M^T *m M).
    rewrite exchange_big rmorph_sum. apply: eq_bigr => j _. rewrite rmorph_sum mxE. apply: eq_bigr => i _. have [_ _ _ [H1 _ _ _]] := HC.
    by rewrite H1 !mxE mxfE normCK mulrC.
  by rewrite !F trmx_mul map_mxM !mulmxA -[map_mx _ N^T *m _ *m Q]mulmxA HQ mulmx1.
Qed.
End Complex.
