(** PropRing.v: properties that hold when the element type is a commutative ring
    (exact arithmetic).  Matrices of the mathcomp library are the specification:
    [reads_mx A M] says that the Matrix or view A shows the elements of M. *)
From Verif Require Import LinalgFacts2 PropMatrix PropUtil PropMath RingM DetFacts RatOps.
From mathcomp Require Import all_ssreflect all_algebra.
Set Implicit Arguments.
Unset Strict Implicit.
Unset Printing Implicit Defensive.
Import GRing.Theory.
Local Open Scope ring_scope.

Section P.
Variables (R : comRingType) (O : Ops R).
Hypothesis HO : ringO O.
Implicit Types (A B C : MB R).

Lemma shape_mx X r c (M : 'M[R]_(r, c)) : reads_mx X M -> shape_ok r c.
Proof. by case=> [[_ [_ [_ []]]]]. Qed.
Lemma m_mul_mxL A B r n c (M : 'M[R]_(r, n)) (N : 'M[R]_(n, c)) : reads_mx A M -> reads_mx B N -> shape_ok r c ->
  exists m, [/\ m_mul A B = Ok m, is_mx m (M *m N) & reads_mx (mb_of_mat m) (M *m N)].
Proof. move=> HA HB Hs. have [m [E H]] := m_mul_mx HO HA HB Hs. exists m. split=> //. exact: is_mx_reads. Qed.
Lemma m_add_mx A B r c (M N : 'M[R]_(r, c)) : reads_mx A M -> reads_mx B N ->
  exists m, [/\ m_add A B = Ok m, is_mx m (M + N) & reads_mx (mb_of_mat m) (M + N)].
Proof.
  move=> HA HB. have [m [E H]] := proj2 (C32_add A B r c (mxf M) r c (mxf N) HA HB) erefl erefl.
  have Hm : is_mx m (M + N).
    apply: is_mat_ext; first exact: H. move=> i j /ltP Hi /ltP Hj.
    by rewrite -[i]/(val (Ordinal Hi)) -[j]/(val (Ordinal Hj)) (oaddE HO) !mxfE mxE.
  exists m. split=> //. exact: is_mx_reads.
Qed.
Lemma m_muls_mx A r c (M : 'M[R]_(r, c)) s : reads_mx A M ->
  exists m, [/\ m_muls A s = Ok m, is_mx m (s *: M) & reads_mx (mb_of_mat m) (s *: M)].
Proof.
  move=> HA. have [m [E H]] := proj1 (C32_mul_scalar s) A r c (mxf M) HA.
  have Hm : is_mx m (s *: M).
    apply: is_mat_ext; first exact: H. move=> i j /ltP Hi /ltP Hj.
    by rewrite -[i]/(val (Ordinal Hi)) -[j]/(val (Ordinal Hj)) (omulE HO) !mxfE mxE mulrC.
  exists m. split=> //. exact: is_mx_reads.
Qed.
Lemma identity_mx n : (0 < n)%N -> shape_ok n n ->
  exists m, [/\ identity n (o1 : R) = Ok m, is_mx m (1%:M : 'M[R]_n) & reads_mx (mb_of_mat m) (1%:M : 'M[R]_n)].
Proof.
  move=> /ltP Hn Hs. have [m [E H]] := C21_identity n (o1 : R) Hn Hs.
  have Hm : is_mx m (1%:M : 'M[R]_n).
    apply: is_mat_ext; first exact: H. move=> i j /ltP Hi /ltP Hj.
    rewrite -[i]/(val (Ordinal Hi)) -[j]/(val (Ordinal Hj)) mxfE mxE nateqbE (o0E HO) (o1E HO) /= -val_eqE /=. by case: eqP.
  exists m. split=> //. exact: is_mx_reads.
Qed.

(** * C33 product *)
Theorem C33_ring_product A B r n c (M : 'M[R]_(r, n)) (N : 'M[R]_(n, c)) : reads_mx A M -> reads_mx B N -> shape_ok r c ->
  exists m, m_mul A B = Ok m /\ is_mx m (M *m N).
Proof. exact: m_mul_mx. Qed.
Theorem C33_associative A B C r n k c (MA : 'M[R]_(r, n)) (MB' : 'M[R]_(n, k)) (MC : 'M[R]_(k, c)) :
  reads_mx A MA -> reads_mx B MB' -> reads_mx C MC -> shape_ok r k -> shape_ok n c -> shape_ok r c ->
  exists AB BC X, [/\ m_mul A B = Ok AB, m_mul B C = Ok BC, m_mul (mb_of_mat AB) C = Ok X & m_mul A (mb_of_mat BC) = Ok X].
Proof.
  move=> HA HB HC S1 S2 S3.
  have [AB [E1 _ H1]] := m_mul_mxL HA HB S1. have [BC [E2 _ H2]] := m_mul_mxL HB HC S2.
  have [X [E3 H3 _]] := m_mul_mxL H1 HC S3. have [Y [E4 H4 _]] := m_mul_mxL HA H2 S3.
  exists AB, BC, X. split=> //. rewrite E4. congr Ok. apply: is_mx_unique H4 _. by rewrite mulmxA.
Qed.
Theorem C33_distributive_right A B C r n c (MA : 'M[R]_(r, n)) (MB' MC : 'M[R]_(n, c)) :
  reads_mx A MA -> reads_mx B MB' -> reads_mx C MC -> shape_ok r c ->
  exists S AB AC X, [/\ m_add B C = Ok S, m_mul A B = Ok AB, m_mul A C = Ok AC,
    m_mul A (mb_of_mat S) = Ok X & m_add (mb_of_mat AB) (mb_of_mat AC) = Ok X].
Proof.
  move=> HA HB HC S1. have [S [E1 _ H1]] := m_add_mx HB HC.
  have [AB [E2 _ H2]] := m_mul_mxL HA HB S1. have [AC [E3 _ H3]] := m_mul_mxL HA HC S1.
  have [X [E4 H4 _]] := m_mul_mxL HA H1 S1. have [Y [E5 H5 _]] := m_add_mx H2 H3.
  exists S, AB, AC, X. split=> //. rewrite E5. congr Ok. apply: is_mx_unique H5 _. by rewrite -mulmxDr.
Qed.
Theorem C33_distributive_left A B C r n c (MA MB' : 'M[R]_(r, n)) (MC : 'M[R]_(n, c)) :
  reads_mx A MA -> reads_mx B MB' -> reads_mx C MC -> shape_ok r c ->
  exists S AC BC X, [/\ m_add A B = Ok S, m_mul A C = Ok AC, m_mul B C = Ok BC,
    m_mul (mb_of_mat S) C = Ok X & m_add (mb_of_mat AC) (mb_of_mat BC) = Ok X].
Proof.
  move=> HA HB HC S1. have [S [E1 _ H1]] := m_add_mx HA HB.
  have [AC [E2 _ H2]] := m_mul_mxL HA HC S1. have [BC [E3 _ H3]] := m_mul_mxL HB HC S1.
  have [X [E4 H4 _]] := m_mul_mxL H1 HC S1. have [Y [E5 H5 _]] := m_add_mx H2 H3.
  exists S, AC, BC, X. split=> //. rewrite E5. congr Ok. apply: is_mx_unique H5 _. by rewrite -mulmxDl.
Qed.
Theorem C33_identity (m : Mat.Matrix R) r c (f : nat -> nat -> R) : is_mat m r c f -> (0 < r)%N -> (0 < c)%N -> shape_ok r r -> shape_ok c c ->
  exists Ir Ic, [/\ identity r (o1 : R) = Ok Ir, identity c (o1 : R) = Ok Ic,
    m_mul (mb_of_mat Ir) (mb_of_mat m) = Ok m & m_mul (mb_of_mat m) (mb_of_mat Ic) = Ok m].
Proof.
  move=> /is_mx_mat H Hr Hc Sr Sc. have Hm := is_mx_reads H. have Hs := shape_mx Hm.
  have [Ir [E1 _ H1]] := identity_mx Hr Sr. have [Ic [E2 _ H2]] := identity_mx Hc Sc.
  have [X [E3 H3 _]] := m_mul_mxL H1 Hm Hs. have [Y [E4 H4 _]] := m_mul_mxL Hm H2 Hs.
  exists Ir, Ic. split=> //; rewrite ?E3 ?E4; congr Ok; apply: is_mx_unique H; by [rewrite mul1mx in H3|rewrite mulmx1 in H4].
Qed.

(** * C39 trace *)
Theorem C39_ring_trace A n (M : 'M[R]_n) : reads_mx A M -> trace A = Ok (\tr M).
Proof.
  move=> [H _]. rewrite (C39_trace A n n (mxf M) H); last by apply/leP. congr Ok. rewrite (osumE HO).
  by apply: eq_bigr => i _; rewrite mxfE.
Qed.
Theorem C39_trace_linear A B n (MA MB' : 'M[R]_n) (s : R) : reads_mx A MA -> reads_mx B MB' ->
  exists S sA ta tb, [/\ m_add A B = Ok S, m_muls A s = Ok sA, trace A = Ok ta, trace B = Ok tb &
    trace (mb_of_mat S) = Ok (ta + tb) /\ trace (mb_of_mat sA) = Ok (s * ta)].
Proof.
  move=> HA HB. have [S [E1 _ H1]] := m_add_mx HA HB. have [sA [E2 _ H2]] := m_muls_mx s HA.
  exists S, sA, (\tr MA), (\tr MB'). split=> //; try exact: C39_ring_trace.
  by rewrite (C39_ring_trace H1) (C39_ring_trace H2) mxtraceD mxtraceZ.
Qed.
Theorem C39_trace_commutes A B r n (MA : 'M[R]_(r, n)) (MB' : 'M[R]_(n, r)) : reads_mx A MA -> reads_mx B MB' ->
  shape_ok r r -> shape_ok n n ->
  exists AB BA t, [/\ m_mul A B = Ok AB, m_mul B A = Ok BA, trace (mb_of_mat AB) = Ok t & trace (mb_of_mat BA) = Ok t].
Proof.
  move=> HA HB S1 S2. have [AB [E1 _ H1]] := m_mul_mxL HA HB S1. have [BA [E2 _ H2]] := m_mul_mxL HB HA S2.
  exists AB, BA, (\tr (MA *m MB')). split=> //; first exact: C39_ring_trace. by rewrite (C39_ring_trace H2) mxtrace_mulC.
Qed.

(** * C46 powm *)
Theorem C46_powm A n (M : 'M[R]_n.+1) k : reads_mx A M -> exists m, powm A k = Ok m /\ is_mx m (M ^+ k).
Proof.
  move=> HA. have Hs := shape_mx HA. have [[Ar [Ac _]] _] := HA. rewrite /powm Ar Ac.
  have [m0 [E0 H0 _]] := identity_mx (ltn0Sn n) Hs. rewrite /identity in E0. rewrite E0 [bind _ _]/=.
  have [||i s Hi Hs'|m [E H]] := for_range_inv (fun t m => is_mx m (M ^+ t)) 0 k (fun _ Q => m_imul Root (fun _ => A) Q) m0.
  - by apply/leP.
  - by rewrite expr0.
  - rewrite (C34_same_as_product s n.+1 n.+1 _ A _ Hs' (proj1 HA)).
    have [m [E Hm _]] := m_mul_mxL (is_mx_reads Hs') HA Hs. exists m. split=> //. by rewrite exprSr.
  - by exists m.
Qed.
Theorem C46_powm_add A n (M : 'M[R]_n.+1) p q : reads_mx A M ->
  exists P Q X, [/\ powm A p = Ok P, powm A q = Ok Q, m_mul (mb_of_mat P) (mb_of_mat Q) = Ok X & powm A (p + q) = Ok X].
Proof.
  move=> HA. have [P [E1 H1]] := C46_powm p HA. have [Q [E2 H2]] := C46_powm q HA. have [X [E3 H3]] := C46_powm (p + q) HA.
  have [Y [E4 H4 _]] := m_mul_mxL (is_mx_reads H1) (is_mx_reads H2) (shape_mx HA).
  exists P, Q, Y. split=> //. rewrite E3. congr Ok. apply: is_mx_unique H3 _. by rewrite exprD.
Qed.

(** * C48 determinant up to 4 x 4: the Leibniz determinant *)
Theorem C48_determinant A n (M : 'M[R]_n) : reads_mx A M -> (0 < n <= 4)%N -> Linalg.determinant A = Ok (\det M).
Proof. move=> [H _] Hn. by rewrite (det_small HO H Hn) fmx_mxf. Qed.
(** Consequences at the level of the API. *)
Theorem C48_multiplicative A B n (M N : 'M[R]_n) : reads_mx A M -> reads_mx B N -> (0 < n <= 4)%N ->
  exists AB a b, [/\ m_mul A B = Ok AB, Linalg.determinant A = Ok a, Linalg.determinant B = Ok b &
    Linalg.determinant (mb_of_mat AB) = Ok (a * b)].
Proof.
  move=> HA HB Hn. have [AB [E _ H]] := m_mul_mxL HA HB (shape_mx HA). exists AB, (\det M), (\det N).
  by rewrite -det_mulmx (C48_determinant HA Hn) (C48_determinant HB Hn) (C48_determinant H Hn).
Qed.
Theorem C48_transpose A n (M : 'M[R]_n) : reads_mx A M -> (0 < n <= 4)%N ->
  exists t d, [/\ transpose A = Ok t, Linalg.determinant A = Ok d & Linalg.determinant (mb_of_mat t) = Ok d].
Proof.
  move=> HA Hn. have [t [E H]] := tmap_ok (fun x => x) A n n (mxf M) (proj1 HA). exists t, (\det M).
  have Ht : is_mx t (M^T).
    apply: is_mat_ext; first exact: H. move=> i j /ltP Hi /ltP Hj.
    by rewrite -[i]/(val (Ordinal Hi)) -[j]/(val (Ordinal Hj)) !mxfE mxE.
  by split=> //; [exact: C48_determinant|rewrite (C48_determinant (is_mx_reads Ht) Hn) det_tr].
Qed.

(** * C51 adjoint up to 5 x 5 *)
Lemma sgnfE i j : sgnf i j = (-1) ^+ (i + j) :> R.
Proof.
  rewrite /sgnf !(opsE HO). have E : (i + j)%coq_nat = (i + j)%N by []. rewrite E -[(-1) ^+ _]signr_odd.
  have -> : ((i + j)%N mod 2 =? 0) = ~~ odd (i + j).
    rewrite -[(i+j)%N in LHS]odd_double_half addnC -muln2 -[(_ * 2 + _)%N]/((_ * 2)%coq_nat + _)%coq_nat.
    rewrite Nat.add_comm Nat.mod_add //. by case: odd.
  by case: odd; rewrite /= ?expr0 ?expr1.
Qed.
(** Whenever the minors are computed exactly, the result is the adjugate. *)
Lemma adj_mx A n (M : 'M[R]_n) : reads_mx A M -> n <> 1%N ->
  (forall i j, (i < n)%N -> (j < n)%N -> Linalg.determinant (mb_cof i j A) = Ok (\det (fmx n.-1 n.-1 (fminor i j (mxf M))))) ->
  exists m, adjoint A = Ok m /\ is_mx m (\adj M).
Proof.
  move=> HA N HD. have [|m [E H]] := adjoint_ok A n (mxf M) (fun i j => \det (fmx n.-1 n.-1 (fminor i j (mxf M)))) HA N.
    by move=> i j /ltP Hi /ltP Hj; apply: HD.
  exists m. split=> //. apply: is_mat_ext; first exact: H. move=> i j /ltP Hi /ltP Hj.
  rewrite -[i]/(val (Ordinal Hi)) -[j]/(val (Ordinal Hj)) mxfE mxE (omulE HO) sgnfE {N HD H E HA}.
  case: n M Hi Hj => [|n] M Hi Hj; first by []. by rewrite -cofactorE fmx_mxf.
Qed.
Lemma adj_small A n (M : 'M[R]_n) : reads_mx A M -> (n <= 5)%N -> exists m, adjoint A = Ok m /\ is_mx m (\adj M).
Proof.
  move=> HA Hn. have [E|N] := eqVneq n 1%N.
    subst n. have [m [E H]] := adjoint_1 A _ HA. exists m. split=> //. apply: is_mat_ext; first exact: H. move=> i j /ltP Hi /ltP Hj.
    rewrite -[i]/(val (Ordinal Hi)) -[j]/(val (Ordinal Hj)) mxfE mxE (o1E HO) /matrix.cofactor det_mx00 mulr1.
    by rewrite (ord1 (Ordinal Hi)) (ord1 (Ordinal Hj)).
  apply: adj_mx => //; first exact/eqP. move=> i j Hi Hj.
  have Hn0 : (0 < n)%N by apply: leq_ltn_trans Hi.
  have [H _] := cof_readsL A n (mxf M) i j HA (elimT ltP Hn0). rewrite (det_small HO H) -?[(n - 1)%coq_nat]/(n - 1)%N subn1 //.
  case: n N Hn Hn0 {M HA H Hi Hj} => [|[|n]] //.
Qed.
Theorem C51_adjoint A n (M : 'M[R]_n) : reads_mx A M -> (0 < n <= 5)%N -> exists m, adjoint A = Ok m /\ is_mx m (\adj M).
Proof. move=> HA /andP [_ Hn]. exact: adj_small. Qed.
(** A * adjoint(A) = adjoint(A) * A = det(A) I, with the determinant of the definition. *)
Theorem C51_product A n (M : 'M[R]_n) : reads_mx A M -> (0 < n <= 5)%N ->
  exists adj X, [/\ adjoint A = Ok adj, m_mul A (mb_of_mat adj) = Ok X, m_mul (mb_of_mat adj) A = Ok X & is_mx X ((\det M)%:M : 'M[R]_n)].
Proof.
  move=> HA Hn. have [m [E H]] := C51_adjoint HA Hn.
  have [X [E1 H1 _]] := m_mul_mxL HA (is_mx_reads H) (shape_mx HA). have [Y [E2 H2 _]] := m_mul_mxL (is_mx_reads H) HA (shape_mx HA).
  exists m, X. split=> //; last by rewrite -mul_mx_adj. rewrite E2. congr Ok. apply: is_mx_unique H2 _. by rewrite mul_adj_mx -mul_mx_adj.
Qed.
(** ... and with the computed determinant, up to 4 x 4. *)
Corollary C51_product_computed A n (M : 'M[R]_n) : reads_mx A M -> (0 < n <= 4)%N ->
  exists adj X d, [/\ adjoint A = Ok adj, Linalg.determinant A = Ok d, m_mul A (mb_of_mat adj) = Ok X, m_mul (mb_of_mat adj) A = Ok X &
    is_mat X n n (fun i j => if i =? j then d else 0)].
Proof.
  move=> HA Hn. have Hn5 : (0 < n <= 5)%N by case/andP: Hn => -> /leqW.
  have [adj [X [E1 E2 E3 H]]] := C51_product HA Hn5. exists adj, X, (\det M). split=> //; first exact: C48_determinant.
  apply: is_mat_ext; first exact: H. move=> i j /ltP Hi /ltP Hj.
  rewrite -[i]/(val (Ordinal Hi)) -[j]/(val (Ordinal Hj)) mxfE mxE nateqbE -val_eqE /=. by case: eqP.
Qed.
End P.
