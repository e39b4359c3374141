(** PropField.v: properties over a field, in exact arithmetic.  [exactZ O] says that
    the zero test of the library holds exactly for zero, which is what its formula
    [|a| <= tol * |a|] means in exact arithmetic (RatOps.rat_isz). *)
From Verif Require Import LinalgFacts2 PropMatrix PropUtil PropMath RingM DetFacts LUFacts PropLinalg PropRing RatOps.
From mathcomp Require Import all_ssreflect all_algebra.
Set Implicit Arguments.
Unset Strict Implicit.
Unset Printing Implicit Defensive.
Import GRing.Theory.
Local Open Scope ring_scope.

Definition exactZ (F : fieldType) (O : Ops F) : Prop := forall x : F, oisz x = (x == 0).

Section P.
Variables (F : fieldType) (O : Ops F).
Hypothesis HF : fieldO O.
Hypothesis HZ : exactZ O.
Let HO : ringO O. Proof. by case: HF. Qed.
Implicit Types (A B C : MB F).

(** * C49 / C50 determinant beyond 4 x 4 *)
Theorem C49_determinant A n (M : 'M[F]_n) : reads_mx A M -> (5 <= n)%N -> \det M != 0 -> Linalg.determinant A = Ok (\det M).
Proof.
  move=> HA Hn Hd. have [d [P [U [k [E1 E2 E3 E4 E5]]]]] := det_big HF HZ HA (or_intror Hn).
  rewrite fmx_mxf in E2. have [_ [H1 H2]] := ech_det E2 E3 E4 E5. have Hk : (k <= n)%N by case: E4.
  rewrite E1 H2 //. apply/eqP. rewrite eqn_leq Hk leqNgt. apply/negP => /H1 E. by rewrite E eqxx in Hd.
Qed.
Theorem C49_zero_by_zero A (M : 'M[F]_0) : reads_mx A M -> Linalg.determinant A = Ok (\det M) /\ \det M = 1.
Proof.
  move=> HA. have [d [P [U [k [E1 E2 E3 E4 E5]]]]] := det_big HF HZ HA (or_introl erefl).
  rewrite fmx_mxf in E2. have [_ [H1 H2]] := ech_det E2 E3 E4 E5. rewrite det_mx00; split=> //.
  rewrite E1 H2 ?det_mx00 //. by case: E4; case: (k).
Qed.
(** For every size, over a field: the computed determinant is right if the matrix is
    non-singular. *)
Corollary C49_nonsingular A n (M : 'M[F]_n) : reads_mx A M -> \det M != 0 -> Linalg.determinant A = Ok (\det M).
Proof.
  move=> HA Hd. have [Hn|Hn] := leqP n 4; last exact: C49_determinant. case: n M HA Hd Hn => [|n] M HA Hd Hn.
    by have [] := C49_zero_by_zero HA. exact: (C48_determinant HO HA).
Qed.
Theorem C50_never_zero A n (M : 'M[F]_n) : reads_mx A M -> (5 <= n)%N -> exists d, Linalg.determinant A = Ok d /\ d != 0.
Proof.
  move=> HA Hn. have [d [P [U [k [E1 E2 E3 E4 E5]]]]] := det_big HF HZ HA (or_intror Hn).
  rewrite fmx_mxf in E2. have [H0 _] := ech_det E2 E3 E4 E5. by exists d.
Qed.
(** The exact value for a singular matrix: row operations (P, of determinant 1 or -1)
    bring it to U; the first k columns are triangular with non-zero diagonal, column k is
    zero from the diagonal down, and the result is the product of the k pivots, with the
    sign of the row exchanges. *)
Theorem C50_singular A n (M : 'M[F]_n) : reads_mx A M -> (5 <= n)%N -> \det M = 0 ->
  exists d (P U : 'M[F]_n) k, [/\ Linalg.determinant A = Ok d, U = P *m M, \det P = 1 \/ \det P = -1, (k < n)%N &
    [/\ (forall i j : 'I_n, (j < k)%N -> (j < i)%N -> U i j = 0), (forall i : 'I_n, (i < k)%N -> U i i != 0),
        (forall i j : 'I_n, j = k :> nat -> (k <= i)%N -> U i j = 0), d = \det P * \prod_(i < n | (i < k)%N) U i i & d != 0]].
Proof.
  move=> HA Hn Hd. have [d [P [U [k [E1 E2 E3 E4 E5]]]]] := det_big HF HZ HA (or_intror Hn).
  rewrite fmx_mxf in E2. have [H0 [H1 H2]] := ech_det E2 E3 E4 E5. exists d, P, U, k.
  have [Hk HU Hp Hz] := E4. split=> //. rewrite ltn_neqAle Hk andbT. apply/negP => /eqP E. have := H2 E. rewrite Hd => E'. by rewrite E' eqxx in H0.
Qed.
Theorem C50_zero_matrix A n : reads_mx A (0 : 'M[F]_n) -> (5 <= n)%N -> Linalg.determinant A = Ok 1.
Proof.
  move=> HA Hn. rewrite /Linalg.determinant (det_square (proj1 HA)) [negb true]/=.
  have [[Ar [Ac _]] _] := HA. rewrite Ac. have [m [-> Hm]] := mat_of_mb_ok _ _ _ _ HA.
  case: n Hn HA Ar Ac Hm => [|[|[|[|[|n]]]]] // _ HA Ar Ac Hm. rewrite [_ =? _]/= /bind -/(bind _ _).
  rewrite /det_loop -/(@det_loop F O).
  have [[Hz _]|[[k [_ [_ [_ [Hz _]]]]]|[_ E]]] := det_pivot_ok m _ _ 0 o1 Hm (elimT ltP (ltn0Sn _)).
  - move: Hz. rewrite HZ -[0%N]/(val (ord0 : 'I_n.+4.+1)) mxfE mxE eqxx. by [].
  - move: Hz. rewrite HZ. case: (ltnP k n.+4.+1) => Hk; last by (rewrite mxf_out; [rewrite eqxx|rewrite ltnNge Hk]).
    by rewrite -[k]/(val (Ordinal Hk)) -[0%N]/(val (ord0 : 'I_n.+4.+1)) mxfE mxE eqxx.
  - by rewrite E /= (o1E HO).
Qed.
(** So a zero result does not characterise singularity: *)
Theorem C50_refuted A n (M : 'M[F]_n) : reads_mx A M -> (5 <= n)%N -> \det M = 0 -> Linalg.determinant A <> Ok (\det M).
Proof. move=> HA Hn Hd. have [d [-> H0]] := C50_never_zero HA Hn. rewrite Hd. case=> E. by rewrite E eqxx in H0. Qed.

(** * C51 adjoint beyond 5 x 5 *)
Lemma cof_reads_mx A n (M : 'M[F]_n) i j : reads_mx A M -> (0 < n)%N ->
  reads_mx (mb_cof i j A) (fmx n.-1 n.-1 (fminor i j (mxf M))).
Proof. move=> HA Hn. rewrite -subn1. apply: reads_mxP. exact: cof_readsL HA (elimT ltP Hn). Qed.
Theorem C51_adjoint_large A n (M : 'M[F]_n) : reads_mx A M -> (6 <= n)%N ->
  (forall i j : 'I_n, matrix.cofactor M i j != 0) -> exists m, adjoint A = Ok m /\ is_mx m (\adj M).
Proof.
  move=> HA Hn Hc. apply: (adj_mx HO) => //; first by move=> E; rewrite E in Hn.
  move=> i j Hi Hj. have Hn0 : (0 < n)%N by apply: leq_ltn_trans Hi.
  rewrite (C49_determinant (cof_reads_mx i j HA Hn0)) //; first by rewrite -subn1 leq_subRL // addn1.
  case: n M HA Hn Hc Hi Hj {Hn0} => [|n] M HA Hn Hc Hi Hj //=.
  have := Hc (Ordinal Hi) (Ordinal Hj). rewrite -[M in matrix.cofactor M]fmx_mxf cofactorE /=.
  apply: contraNneq => ->. by rewrite mulr0.
Qed.
(** No element of the computed adjoint is ever zero ... *)
Theorem C51_adjoint_no_zero A n (M : 'M[F]_n) : reads_mx A M -> (6 <= n)%N ->
  exists m f, [/\ adjoint A = Ok m, is_mat m n n f & forall i j, (i < n)%N -> (j < n)%N -> f i j != 0].
Proof.
  move=> HA Hn.
  have D (i j : nat) : exists d, (i < n)%N -> (j < n)%N -> Linalg.determinant (mb_cof i j A) = Ok d /\ d != 0.
    case: (ltnP i n) => Hi; last by exists 0.
    have Hn0 : (0 < n)%N by apply: leq_ltn_trans Hi.
    have [|d Hd] := C50_never_zero (cof_reads_mx i j HA Hn0); first by rewrite -subn1 leq_subRL // addn1. by exists d.
  have [D' HD'] : exists D' : nat -> nat -> F, forall i j, (i < n)%N -> (j < n)%N -> Linalg.determinant (mb_cof i j A) = Ok (D' i j) /\ D' i j != 0.
    exists (fun i j => match Linalg.determinant (mb_cof i j A) with Ok d => d | _ => 0 end) => i j Hi Hj.
    by have [d Hd] := D i j; have [E Hd0] := Hd Hi Hj; rewrite E.
  have [||m [E H]] := adjoint_ok A n (mxf M) D' HA.
  - by move=> E; rewrite E in Hn.
  - by move=> i j /ltP Hi /ltP Hj; have [] := HD' i j Hi Hj.
  - exists m, (fun i j => omul (sgnf j i) (D' j i)). split=> // i j Hi Hj.
    rewrite (omulE HO) (sgnfE HO) mulf_neq0 ?signr_eq0 //. by have [] := HD' j i Hj Hi.
Qed.
(** ... so it is wrong for the identity matrix of every size from 6 on. *)
Theorem C51_identity_refuted A n : reads_mx A (1%:M : 'M[F]_n) -> (6 <= n)%N ->
  forall m, adjoint A = Ok m -> ~ is_mx m (\adj (1%:M : 'M[F]_n)).
Proof.
  move=> HA Hn m E H. have [m' [f [E' H' Hf]]] := C51_adjoint_no_zero HA Hn. rewrite E in E'. case: E' => E'. subst m'.
  have H0 : (0 < n)%N by apply: leq_trans Hn. have H1 : (1 < n)%N by apply: leq_trans Hn.
  have := Hf 0%N 1%N H0 H1. rewrite -(is_mat_fun _ _ _ _ _ H H' 0%N 1%N); [|exact/ltP..].
  rewrite -[0%N]/(val (Ordinal H0)) -[1%N]/(val (Ordinal H1)) mxfE adj1 mxE -val_eqE /= eqxx. by [].
Qed.

(** * C52 inverse *)
Lemma inverse_mx A n (M : 'M[F]_n) d (N : 'M[F]_n) : reads_mx A M -> Linalg.determinant A = Ok d -> d != 0 ->
  (exists m, adjoint A = Ok m /\ is_mx m N) -> exists m, inverse A = Ok m /\ is_mx m (d^-1 *: N).
Proof.
  move=> HA Ed Hd Hadj.
  have [||m [E H]] := inverse_ok A n (mxf M) d (mxf N) (fun i j => mxf N i j / d) HA Ed _ Hadj.
  - by rewrite HZ (negbTE Hd).
  - by move=> i j _ _; case: HF => _ ->.
  - exists m. split=> //. apply: is_mat_ext; first exact: H. move=> i j /ltP Hi /ltP Hj.
    by rewrite -[i]/(val (Ordinal Hi)) -[j]/(val (Ordinal Hj)) !mxfE mxE mulrC.
Qed.
Theorem C52_inverse A n (M : 'M[F]_n) : reads_mx A M -> (n <= 5)%N -> \det M != 0 ->
  exists m (N : 'M[F]_n), [/\ inverse A = Ok m, is_mx m N, M *m N = 1%:M & N *m M = 1%:M].
Proof.
  move=> HA Hn Hd. have [m [E H]] := inverse_mx HA (C49_nonsingular HA Hd) Hd (adj_small HO HA Hn).
  exists m, ((\det M)^-1 *: \adj M). split=> //.
  - by rewrite -scalemxAr mul_mx_adj -mul_scalar_mx -scalar_mxM mulVf.
  - by rewrite -scalemxAl mul_adj_mx -mul_scalar_mx -scalar_mxM mulVf.
Qed.
(** The two-sided inverse through the API's own product. *)
Theorem C52_inverse_product A n (M : 'M[F]_n) : reads_mx A M -> (0 < n <= 5)%N -> \det M != 0 ->
  exists m I, [/\ inverse A = Ok m, identity n (o1 : F) = Ok I, m_mul A (mb_of_mat m) = Ok I & m_mul (mb_of_mat m) A = Ok I].
Proof.
  move=> HA /andP [Hn0 Hn] Hd. have [m [N [E H H1 H2]]] := C52_inverse HA Hn Hd. have Hs := shape_mx HA.
  have [I [EI HI _]] := identity_mx HO Hn0 Hs. exists m, I.
  have [X [E1 HX _]] := m_mul_mxL HO HA (is_mx_reads H) Hs. have [Y [E2 HY _]] := m_mul_mxL HO (is_mx_reads H) HA Hs.
  split=> //; rewrite ?E1 ?E2; congr Ok; apply: is_mx_unique HI; by rewrite -?H1 -?H2 // H1 -H2.
Qed.
Theorem C52_singular A n (M : 'M[F]_n) : reads_mx A M -> (0 < n <= 4)%N -> (inverse A = Ok mat_empty <-> \det M = 0).
Proof.
  move=> HA Hn. have Hs := det_square (proj1 HA). split=> [E|Hd]; last first.
    by rewrite /inverse Hs /= (C48_determinant HO HA Hn) /= HZ Hd eqxx.
  apply/eqP. apply/negPn/negP => Hd. have Hn5 : (n <= 5)%N by case/andP: Hn => _ /leqW.
  have [m [N [E' [Er _] _ _]]] := C52_inverse HA Hn5 Hd. rewrite E in E'. case: E' => E'. subst m.
  rewrite /= in Er. by case/andP: Hn => Hn _; rewrite -Er in Hn.
Qed.
(** 5 x 5 singular: a non-empty matrix that is no inverse (the product with A is 0). *)
Theorem C52_singular_5 A (M : 'M[F]_5) : reads_mx A M -> \det M = 0 ->
  exists m (N : 'M[F]_5), [/\ inverse A = Ok m, is_mx m N, M *m N = 0 & N *m M = 0].
Proof.
  move=> HA Hd. have [d [Ed Hd0]] := C50_never_zero HA isT. have [m [E H]] := inverse_mx HA Ed Hd0 (adj_small HO HA isT).
  exists m, (d^-1 *: \adj M). split=> //.
  - by rewrite -scalemxAr mul_mx_adj Hd raddf0 scaler0.
  - by rewrite -scalemxAl mul_adj_mx Hd raddf0 scaler0.
Qed.
Theorem C52_singular_5_refuted A (M : 'M[F]_5) : reads_mx A M -> \det M = 0 -> inverse A <> Ok mat_empty.
Proof.
  move=> HA Hd E. have [m [N [E' [Er _] _ _]]] := C52_singular_5 HA Hd. rewrite E in E'. case: E' => E'. by subst m.
Qed.
(** From 6 x 6 on: right when no cofactor is zero ... *)
Theorem C52_inverse_large A n (M : 'M[F]_n) : reads_mx A M -> (6 <= n)%N -> \det M != 0 -> (forall i j : 'I_n, matrix.cofactor M i j != 0) ->
  exists m (N : 'M[F]_n), [/\ inverse A = Ok m, is_mx m N, M *m N = 1%:M & N *m M = 1%:M].
Proof.
  move=> HA Hn Hd Hc. have [m [E H]] := inverse_mx HA (C49_nonsingular HA Hd) Hd (C51_adjoint_large HA Hn Hc).
  exists m, ((\det M)^-1 *: \adj M). split=> //.
  - by rewrite -scalemxAr mul_mx_adj -mul_scalar_mx -scalar_mxM mulVf.
  - by rewrite -scalemxAl mul_adj_mx -mul_scalar_mx -scalar_mxM mulVf.
Qed.
(** ... and wrong for the identity. *)
Theorem C52_identity_refuted A n : reads_mx A (1%:M : 'M[F]_n) -> (6 <= n)%N ->
  forall m, inverse A = Ok m -> ~ is_mx m (1%:M : 'M[F]_n).
Proof.
  move=> HA Hn m E H. have [m' [f [E' H' Hf]]] := C51_adjoint_no_zero HA Hn.
  have Hd : \det (1%:M : 'M[F]_n) != 0 by rewrite det1 oner_eq0.
  have [m2 [E2 H2]] := inverse_mx HA (C49_nonsingular HA Hd) Hd (ex_intro _ m' (conj E' (is_mx_mat H'))).
  rewrite E in E2. case: E2 => E2. subst m2.
  have H0 : (0 < n)%N by apply: leq_trans Hn. have H1 : (1 < n)%N by apply: leq_trans Hn.
  have := is_mx_fun H H2. move/matrixP/(_ (Ordinal H0) (Ordinal H1)). rewrite !mxE -val_eqE /= det1 invr1 mul1r => E0.
  by have := Hf 0%N 1%N H0 H1; rewrite -E0 eqxx.
Qed.

(** * C53 div *)
Theorem C53_div A B r n (M : 'M[F]_(r, n)) (N : 'M[F]_n) : reads_mx A M -> reads_mx B N -> (n <= 5)%N -> \det N != 0 ->
  exists X (Q : 'M[F]_(r, n)), [/\ div A B = Ok X, is_mx X Q & Q *m N = M].
Proof.
  move=> HA HB Hn Hd. have [m [V [E H _ H2]]] := C52_inverse HB Hn Hd.
  have [X [EX HX _]] := m_mul_mxL HO HA (is_mx_reads H) (shape_mx HA). exists X, (M *m V). rewrite /div E /=. split=> //.
  by rewrite -mulmxA H2 mulmx1.
Qed.
Theorem C53_div_product (a : Mat.Matrix F) B r n (M : 'M[F]_(r, n)) (N : 'M[F]_n) : is_mx a M -> reads_mx B N -> (n <= 5)%N -> \det N != 0 ->
  exists X, div (mb_of_mat a) B = Ok X /\ m_mul (mb_of_mat X) B = Ok a.
Proof.
  move=> HA HB Hn Hd. have [X [Q [E H EQ]]] := C53_div (is_mx_reads HA) HB Hn Hd. exists X. split=> //.
  have [Y [-> HY _]] := m_mul_mxL HO (is_mx_reads H) HB (shape_mx (is_mx_reads HA)). congr Ok. apply: is_mx_unique HA. by rewrite -EQ.
Qed.
Theorem C53_singular A B r c n (M : 'M[F]_(r, c)) (N : 'M[F]_n) : reads_mx A M -> (0 < c)%N -> reads_mx B N -> (0 < n <= 4)%N -> \det N = 0 ->
  div A B = Throw.
Proof.
  move=> [[_ [Ac _]] _] Hc HB Hn Hd. rewrite /div (proj2 (C52_singular HB Hn) Hd) /= /m_mul Ac /=.
  have -> : (c =? 0) = false by case: (c) Hc. by [].
Qed.

(** * C54 LU *)
Theorem C54_lu A n (M : 'M[F]_n) l u : reads_mx A M -> lu_decomposition A = Ok (l, u) ->
  exists L U : 'M[F]_n, [/\ is_mx l L, is_mx u U & (forall i, L i i != 0) ->
    [/\ (forall i j : 'I_n, (i < j)%N -> L i j = 0), (forall i j : 'I_n, (j < i)%N -> U i j = 0), (forall i, U i i = 1) & L *m U = M]].
Proof.
  move=> [HA _] E. have [L [U [Hl Hu HL HU]]] := lu_partial HF HA E. rewrite /= in Hl Hu.
  exists (fmx n n L), (fmx n n U). split; [exact: is_mx_mat|exact: is_mx_mat|]. move=> Hd.
  have Hd' i : (i < n)%N -> L i i != 0 by move=> Hi; have := Hd (Ordinal Hi); rewrite mxE.
  split.
  - move=> i j Hij. by rewrite mxE (HL i j) ?ltn_ord // Hij.
  - move=> i j Hij. by rewrite mxE (HU i j) ?ltn_ord ?Hij // Hd'.
  - move=> i. by rewrite mxE (HU i i) ?ltn_ord ?Hd' ?ltnn ?eqxx // Hd'.
  - by rewrite (lu_prod HL HU Hd') fmx_mxf.
Qed.
(** Non-zero leading principal minors: it returns, and the factors are right. *)
Theorem C54_lu_exists A n (M : 'M[F]_n) : reads_mx A M ->
  (forall k, (0 < k <= n)%N -> \det (fmx k k (mxf M)) != 0) ->
  exists l u (L U : 'M[F]_n), [/\ lu_decomposition A = Ok (l, u), is_mx l L, is_mx u U, L *m U = M &
    [/\ (forall i j : 'I_n, (i < j)%N -> L i j = 0), (forall i, L i i != 0), (forall i j : 'I_n, (j < i)%N -> U i j = 0) & (forall i, U i i = 1)]].
Proof.
  move=> HA Hm. have [|l [u [L [U [E Hl Hu [HL HU Hd]]]]]] := lu_total HF (proj1 HA).
    by move=> i Hi; apply: Hm.
  exists l, u. have [L' [U' [H1 H2 H3]]] := C54_lu HA E. exists L', U'.
  have Hd' (i : 'I_n) : L' i i != 0.
    rewrite -mxfE (is_mat_fun _ _ _ _ _ H1 Hl) ?Hd //; exact/ltP.
  by have [? ? ? ?] := H3 Hd'.
Qed.

(** * C44 projection *)
Theorem C44_throws (a b : list F) : length a <> length b -> projection a b = Throw.
Proof. move=> N. rewrite /projection /dot. by have /Nat.eqb_neq -> := N. Qed.
Theorem C44_projection (a b : list F) n fa fb : is_vec a n fa -> is_vec b n fb -> \sum_(i < n) fb i * fb i != 0 ->
  exists p q d, [/\ projection a b = Ok p, is_vec p n (fun i => q * fb i), v_sub a p = Ok d, dot d b = Ok 0 & projection p b = Ok p].
Proof.
  move=> Ha Hb Hn.
  have dotE (x y : list F) fx fy : is_vec x n fx -> is_vec y n fy -> dot x y = Ok (\sum_(i < n) fx i * fy i).
    move=> Hx Hy. have [_ ->] := C35_dot x y n fx n fy Hx Hy; last by []. congr Ok. rewrite (osumE HO).
    by apply: eq_bigr => i _; rewrite (omulE HO).
  have projE (x : list F) fx : is_vec x n fx -> exists p, projection x b = Ok p /\
      is_vec p n (fun i => (\sum_(i < n) fx i * fb i) / (\sum_(i < n) fb i * fb i) * fb i).
    move=> Hx. rewrite /projection (dotE x b fx fb) //= (dotE b b fb fb) //=. case: (HF) => _ -> // _ /=.
    have [p [E H]] := C32_vec_mul_scalar ((\sum_(i < n) fx i * fb i) / (\sum_(i < n) fb i * fb i)) b n fb Hb. exists p. split=> //.
    apply: is_vec_ext; first exact: H. move=> i _ /=. by rewrite (omulE HO) mulrC.
  have [p [E H]] := projE a fa Ha. set q := (_ / _) in H.
  have [_ D] := C32_vec_sub a p n fa n _ Ha H. have [d [Ed Hd]] := D erefl.
  exists p, q, d. split=> //.
  - rewrite (dotE d b _ _ Hd Hb). congr Ok.
    under eq_bigr => i _ do rewrite (osubE HO) mulrBl -mulrA. rewrite sumrB -mulr_sumr /q divfK // subrr. by [].
  - have [p' [E' H']] := projE p _ H. rewrite E'. congr Ok. apply: is_vec_unique H' _. apply: is_vec_ext; first exact: H.
    move=> i _ /=. congr (_ * _). under eq_bigr => j _ do rewrite -mulrA. by rewrite -mulr_sumr mulfK.
Qed.
End P.
