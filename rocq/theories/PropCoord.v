(** PropCoord.v: change of the state coordinates of a system (C115), in exact arithmetic: with
    x' = T x, S the inverse of T, the system (A, B, C, D) becomes (T A S, T B, C S, D). *)
From Verif Require Import LinalgFacts2 PropMatrix PropUtil PropMath RingM DetFacts RatOps PropLinalg PropRing PropField PropReal Control ControlSpec ControlFacts CharPoly PropControl PropControl2 PropQR2.
From mathcomp Require Import all_ssreflect all_algebra.
Set Implicit Arguments.
Unset Strict Implicit.
Unset Printing Implicit Defensive.
Import GRing.Theory.
Local Open Scope ring_scope.

Section Ring.
Variables (R : comRingType) (O : Ops R).
Hypothesis HO : ringO O.
Variables (n : nat) (T S : 'M[R]_n.+1).
Hypothesis TS : T *m S = 1%:M.
Let ST : S *m T = 1%:M. Proof. exact: mulmx1C. Qed.

Lemma conj_expr (M : 'M[R]_n.+1) k : (T *m M *m S) ^+ k = T *m M ^+ k *m S.
Proof.
  elim: k => [|k IH]; first by rewrite !expr0 mulmx1 TS.
  by rewrite !exprS IH -!mulmxE -!mulmxA (mulmxA S T) ST mul1mx !mulmxA.
Qed.
Lemma mulv_cv (A : MB R) r c (M : 'M[R]_(r, c)) b V : reads_mx A M -> is_vec b c (cvf V) -> fits r -> exists d, m_mulv A b = Ok d /\ is_vec d r (cvf (M *m V)).
Proof.
  move=> [HA _] Hb Hf. have [Lb _] := Hb. have Lc : (c <= length b)%coq_nat by rewrite Lb.
  have [d [E Hd]] := m_mulv_ok A r c (mxf M) b HA Lc Hf 0. exists d. split; first exact: E.
  apply: is_vec_ext; first exact: Hd. move=> i /ssrnat.ltP Hi. rewrite (osumE HO) -[i]/(val (Ordinal Hi)) cvfE mxE.
  apply: eq_bigr => k _. by rewrite (omulE HO) mxfE (is_vec_nthE _ _ _ Hb) ?cvfE //; apply/ssrnat.ltP.
Qed.
Lemma nth_error_ext X (l l' : seq X) : (forall k, nth_error l k = nth_error l' k) -> l = l'.
Proof. elim: l l' => [|a l IH] [|b l'] H //; try by have := H 0%N. have := H 0%N => -[->]. congr (_ :: _). apply: IH => k. exact: (H k.+1). Qed.
(** The controllability matrix is multiplied by T from the left, ... *)
Theorem C115_ctrb (A A' B B' : MB R) (Tm : Mat.Matrix R) q (M : 'M[R]_n.+1) (N : 'M[R]_(n.+1, q)) :
  reads_mx A M -> reads_mx B N -> reads_mx A' (T *m M *m S) -> reads_mx B' (T *m N) -> is_mx Tm T -> shape_ok n.+1 (n.+1 * q) ->
  exists m m', [/\ ctrb A B = Ok m, ctrb A' B' = Ok m' & m_mul (mb_of_mat Tm) (mb_of_mat m) = Ok m'].
Proof.
  move=> HA HB HA' HB' HT Hs. have [m [f [E H Hf]]] := C57_ctrb HO HA HB Hs. have [m' [f' [E' H' Hf']]] := C57_ctrb HO HA' HB' Hs.
  exists m, m'. split=> //. pose W : 'M[R]_(n.+1, n.+1 * q) := \matrix_(i, j) f i j.
  have HW : is_mx m W. { apply: is_mat_ext; first exact: H. move=> i j /ssrnat.ltP Hi /ssrnat.ltP Hj. by rewrite -[i]/(val (Ordinal Hi)) -[j]/(val (Ordinal Hj)) mxfE mxE. }
  have [P [-> HP _]] := m_mul_mxL HO (is_mx_reads HT) (is_mx_reads HW) Hs. congr Ok. apply: is_mat_unique; first exact: HP. apply: is_mat_ext; first exact: H'.
  move=> i j /ssrnat.ltP Hi /ssrnat.ltP Hj. have q0 : (0 < q)%N by move: Hj; case: (q) => //; rewrite muln0.
  have Hk : (j %/ q <= n)%N by rewrite -ltnS ltn_divLR. have Hr : (j %% q < q)%N by rewrite ltn_mod.
  have Ej : j = (j %/ q * q + j %% q)%N by rewrite -divn_eq. rewrite [in LHS]Ej Hf' // conj_expr -!mulmxA (mulmxA S) ST mul1mx.
  rewrite -[i in LHS]/(val (Ordinal Hi)) -[(j %% q)%N]/(val (Ordinal Hr)) mxfE -[i in RHS]/(val (Ordinal Hi)) -[j in RHS]/(val (Ordinal Hj)) mxfE !mxE.
  apply: eq_bigr => a _. rewrite [W _ _]mxE [X in f _ X]/= [in RHS]Ej Hf // -[(j %% q)%N in RHS]/(val (Ordinal Hr)) mxfE. by [].
Qed.
(** ... the observability matrix by S from the right. *)
Theorem C115_obsv (A A' C C' : MB R) (Sm : Mat.Matrix R) p (M : 'M[R]_n.+1) (N : 'M[R]_(p, n.+1)) :
  reads_mx A M -> reads_mx C N -> reads_mx A' (T *m M *m S) -> reads_mx C' (N *m S) -> is_mx Sm S -> shape_ok (n.+1 * p) n.+1 ->
  exists m m', [/\ obsv A C = Ok m, obsv A' C' = Ok m' & m_mul (mb_of_mat m) (mb_of_mat Sm) = Ok m'].
Proof.
  move=> HA HC HA' HC' HS Hs. have [m [f [E H Hf]]] := C57_obsv HO HA HC Hs. have [m' [f' [E' H' Hf']]] := C57_obsv HO HA' HC' Hs.
  exists m, m'. split=> //. pose W : 'M[R]_(n.+1 * p, n.+1) := \matrix_(i, j) f i j.
  have HW : is_mx m W. { apply: is_mat_ext; first exact: H. move=> i j /ssrnat.ltP Hi /ssrnat.ltP Hj. by rewrite -[i]/(val (Ordinal Hi)) -[j]/(val (Ordinal Hj)) mxfE mxE. }
  have [P [-> HP _]] := m_mul_mxL HO (is_mx_reads HW) (is_mx_reads HS) Hs. congr Ok. apply: is_mat_unique; first exact: HP. apply: is_mat_ext; first exact: H'.
  move=> i j /ssrnat.ltP Hi /ssrnat.ltP Hj. have p0 : (0 < p)%N by move: Hi; case: (p) => //; rewrite muln0.
  have Hk : (i %/ p <= n)%N by rewrite -ltnS ltn_divLR. have Hr : (i %% p < p)%N by rewrite ltn_mod.
  have Ei : i = (i %/ p * p + i %% p)%N by rewrite -divn_eq. rewrite [in LHS]Ei Hf' // conj_expr -!mulmxA (mulmxA S) ST mul1mx mulmxA.
  rewrite -[j in LHS]/(val (Ordinal Hj)) -[(i %% p)%N]/(val (Ordinal Hr)) mxfE -[i in RHS]/(val (Ordinal Hi)) -[j in RHS]/(val (Ordinal Hj)) mxfE !mxE.
  apply: eq_bigr => a _. rewrite [W _ _]mxE [X in f X _]/= [in RHS]Ei Hf // -[(i %% p)%N in RHS]/(val (Ordinal Hr)) mxfE. by rewrite mxE.
Qed.
(** The trace stays. *)
Theorem C115_trace (A A' : MB R) (M : 'M[R]_n.+1) : reads_mx A M -> reads_mx A' (T *m M *m S) -> exists t, trace A = Ok t /\ trace A' = Ok t.
Proof.
  move=> HA HA'. rewrite (C39_ring_trace HO HA) (C39_ring_trace HO HA'). by rewrite mxtrace_mulC mulmxA ST mul1mx; eexists.
Qed.
(** The same inputs give the same outputs, and the states are multiplied by T. *)
Theorem C115_simulate trunc (sys sys' : DSS R) u tm q K init init' (Tm : Mat.Matrix R) m p
  (A : 'M[R]_n.+1) (B : 'M[R]_(n.+1, m)) (C : 'M[R]_(p, n.+1)) (D : 'M[R]_(p, m)) (X0 : 'cV[R]_n.+1) (U : nat -> 'cV[R]_m) :
  is_mx (sA (dsys sys)) A -> is_mx (sB (dsys sys)) B -> is_mx (sC (dsys sys)) C -> is_mx (sD (dsys sys)) D ->
  is_mx (sA (dsys sys')) (T *m A *m S) -> is_mx (sB (dsys sys')) (T *m B) -> is_mx (sC (dsys sys')) (C *m S) -> is_mx (sD (dsys sys')) D ->
  sample_time sys' = sample_time sys -> is_mx Tm T -> is_vec init n.+1 (cvf X0) -> m_mulv (mb_of_mat Tm) init = Ok init' ->
  inputs u m (fun k => cvf (U k)) -> fits p -> odiv tm (sample_time sys) = Ok q -> trunc q = Ok K ->
  exists t x x' y, [/\ simulate trunc sys u tm init = Ok (t, x, y), simulate trunc sys' u tm init' = Ok (t, x', y), length x' = length x &
    forall k xk, nth_error x k = Some xk -> exists xk', nth_error x' k = Some xk' /\ m_mulv (mb_of_mat Tm) xk = Ok xk'].
Proof.
  move=> HA HB HC HD HA' HB' HC' HD' Ets HT Hx E0 Hu Fp Hq HK.
  have Fn : fits n.+1 by have [_ [F _]] := Hx.
  have [i0 [E0' Hx']] := mulv_cv (is_mx_reads HT) Hx Fn. move: E0; rewrite E0' => -[Ei]. subst i0.
  have [t [x [y [E1 Lt Lx Ly [Q1 Q2 Q3 Q4]]]]] := C61_closed_form HO HA HB HC HD Hx Hu Fp Hq HK.
  have Hq' : odiv tm (sample_time sys') = Ok q by rewrite Ets.
  have [t' [x' [y' [E1' Lt' Lx' Ly' [Q1' Q2' Q3' Q4']]]]] := C61_closed_form HO HA' HB' HC' HD' Hx' Hu Fp Hq' HK.
  set steps := Nat.min (length u) K in Lt Lx Ly Q1 Q2 Q3 Q4 Lt' Lx' Ly' Q1' Q2' Q3' Q4'.
  have ES k : (T *m A *m S) ^+ k *m (T *m X0) + \sum_(j < k) (T *m A *m S) ^+ (k.-1 - j) *m (T *m B) *m U j = T *m (A ^+ k *m X0 + \sum_(j < k) A ^+ (k.-1 - j) *m B *m U j).
    rewrite mulmxDr mulmx_sumr conj_expr. congr (_ + _); first by rewrite -!mulmxA (mulmxA S T) ST mul1mx.
    apply: eq_bigr => j _. by rewrite conj_expr -!mulmxA (mulmxA S T) ST mul1mx.
  exists t, x, x', y. split=> //; [|by rewrite Lx Lx'|].
  - rewrite E1'. congr (Ok (_, _, _)).
    + apply: nth_error_ext => k. case: (ltngtP k steps) => Hk.
      * by rewrite (Q3 _ Hk) (Q3' _ Hk) Ets.
      * rewrite (proj2 (nth_error_None t' k)) ?(proj2 (nth_error_None t k)) // ?Lt ?Lt'; exact/ssrnat.leP.
      * by rewrite Hk Q4 Q4'.
    + apply: nth_error_ext => k. case: (ltnP k steps) => Hk; last first.
        rewrite (proj2 (nth_error_None y' k)) ?(proj2 (nth_error_None y k)) // ?Ly ?Ly'; exact/ssrnat.leP.
      have [a [-> Ha]] := Q2 k Hk. have [b [-> Hb]] := Q2' k Hk. congr Some. apply: is_vec_unique; first exact: Hb.
      by rewrite ES -mulmxA (mulmxA S T) ST mul1mx.
  - move=> k xk Ek. have Hk : (k <= steps)%N. { rewrite -ltnS -Lx. apply/ssrnat.ltP. apply/nth_error_Some. by rewrite Ek. }
    have [a [Ea Ha]] := Q1 k Hk. have [b [Eb Hb]] := Q1' k Hk. move: Ea; rewrite Ek => -[Ea]. subst a. exists b. split=> //.
    have [c [-> Hc]] := mulv_cv (is_mx_reads HT) Ha Fn. congr Ok. apply: is_vec_unique; first exact: Hc. by rewrite -ES.
Qed.
End Ring.

Section Field.
Variables (F : fieldType) (O : Ops F).
Hypotheses (HF : fieldO O) (HZ : exactZ O).
Let HO : ringO O. Proof. by case: HF. Qed.
Variables (n : nat) (T S : 'M[F]_n.+1).
Hypothesis TS : T *m S = 1%:M.
Let ST : S *m T = 1%:M. Proof. exact: mulmx1C. Qed.
Lemma conj_det (M : 'M[F]_n.+1) : \det (T *m M *m S) = \det M.
Proof. by rewrite !det_mulmx mulrAC -det_mulmx TS det1 mul1r. Qed.
(** The determinant stays (for singular matrices from order 5 on it is not computed, see C50), ... *)
Theorem C115_determinant (A A' : MB F) (M : 'M[F]_n.+1) : reads_mx A M -> reads_mx A' (T *m M *m S) -> (n.+1 <= 4)%N \/ \det M != 0 ->
  exists d, Linalg.determinant A = Ok d /\ Linalg.determinant A' = Ok d.
Proof.
  move=> HA HA' [Hn|Hd].
    by rewrite (C48_determinant HO HA) ?(C48_determinant HO HA') ?conj_det //; eexists.
  by rewrite (C49_nonsingular HF HZ HA) ?(C49_nonsingular HF HZ HA') ?conj_det //; eexists.
Qed.
(** ... as does the characteristic polynomial. *)
Lemma conj_char (M : 'M[F]_n.+1) : char_poly (T *m M *m S) = char_poly M.
Proof.
  rewrite /char_poly. have -> : char_poly_mx (T *m M *m S) = map_mx polyC T *m char_poly_mx M *m map_mx polyC S.
    rewrite /char_poly_mx mulmxBr mulmxBl -!map_mxM. congr (_ - _). by rewrite scalar_mxC -mulmxA -map_mxM TS map_mx1 mulmx1.
  rewrite !det_mulmx mulrAC -det_mulmx -map_mxM TS map_mx1 det1 mul1r. by [].
Qed.
Theorem C115_poly (A A' : MB F) (M : 'M[F]_n.+1) : reads_mx A M -> reads_mx A' (T *m M *m S) -> fits n.+2 ->
  (forall m, (1 < m <= n.+1)%N -> ofnat m = m%:R :> F /\ m%:R != 0 :> F) -> exists d, poly_m A = Ok d /\ poly_m A' = Ok d.
Proof.
  move=> HA HA' Fn Hc. have [d [E H]] := C59_char_poly HF HA Fn Hc. have [d' [E' H']] := C59_char_poly HF HA' Fn Hc. exists d. split=> //. rewrite E'. congr Ok.
  rewrite conj_char in H'. exact: is_vec_unique H' H.
Qed.
(** The gain that acker finds for the given poles is multiplied by S. *)
Theorem C115_acker (A A' B B' poles : MB F) (Sm : Mat.Matrix F) (M : 'M[F]_n.+1) (N : 'cV[F]_n.+1) fp : (n.+1 <= 5)%N ->
  reads_mx A M -> reads_mx B N -> reads_mx A' (T *m M *m S) -> reads_mx B' (T *m N) -> is_mx Sm S ->
  readsL poles 1 n.+1 fp -> mempty poles = false -> \det (ctrbmx M N) != 0 ->
  exists k k', [/\ acker A B poles = Ok k, acker A' B' poles = Ok k' & m_mul (mb_of_mat k) (mb_of_mat Sm) = Ok k'].
Proof.
  move=> Hn HA HB HA' HB' HS HP He Hd. have Fn : fits n.+2 by move/ssrnat.leP: Hn => Hn; rewrite /fits /alloc_max; lia.
  have EC : ctrbmx (T *m M *m S) (T *m N) = T *m ctrbmx M N.
    apply/matrixP => i k. rewrite mxE conj_expr // -!mulmxA (mulmxA S T) ST mul1mx mxE [RHS]mxE. by apply: eq_bigr => j _; rewrite [ctrbmx _ _ _ _]mxE.
  have Hd' : \det (ctrbmx (T *m M *m S) (T *m N)) != 0.
    rewrite EC det_mulmx mulf_neq0 //. apply/eqP => Z. have := congr1 determinant TS. rewrite det_mulmx Z mul0r det1 => /esym/eqP. by rewrite oner_eq0.
  have W A1 B1 (M1 : 'M[F]_n.+1) (N1 : 'cV[F]_n.+1) : reads_mx A1 M1 -> reads_mx B1 N1 -> \det (ctrbmx M1 N1) != 0 ->
    exists k, acker A1 B1 poles = Ok k /\ is_mx k ((delta_mx 0 ord_max : 'rV[F]_n.+1) *m invmx (ctrbmx M1 N1) *m horner_mx M1 (poles_poly n.+1 (fp 0%N))).
    move=> H1 H2 D. apply: (acker_run HF H1 H2 HP He Fn) => ct Hct. have R := is_mx_reads Hct. exists (\det (ctrbmx M1 N1)).
    have [inv [Ei Hi]] := inverse_mx HF HZ R (C49_nonsingular HF HZ R D) D (adj_small HO R Hn).
    exists inv. split=> //; [exact: (C49_nonsingular HF HZ R D)|by rewrite HZ (negbTE D)|]. by rewrite /invmx unitmxE unitfE D.
  have [k [E H]] := W _ _ _ _ HA HB Hd. have [k' [E' H']] := W _ _ _ _ HA' HB' Hd'. exists k, k'. split=> //.
  have Ps : shape_ok 1 n.+1 by case: HP => [[_ [_ [_ []]]]].
  have [P [-> HPm _]] := m_mul_mxL HO (is_mx_reads H) (is_mx_reads HS) Ps. congr Ok. apply: is_mat_unique; first exact: HPm. apply: is_mx_ext; first exact: H'.
  have UT : T \in unitmx by have [] := mulmx1_unit TS. have UC : ctrbmx M N \in unitmx by rewrite unitmxE unitfE.
  have -> : invmx (ctrbmx (T *m M *m S) (T *m N)) = invmx (ctrbmx M N) *m S.
    have UTC : T *m ctrbmx M N \in unitmx by rewrite unitmx_mul UT. rewrite EC. apply: (can_inj (mulKmx UTC)).
    by rewrite mulmxV // -!mulmxA (mulmxA (ctrbmx M N)) mulmxV // mul1mx TS.
  have -> : horner_mx (T *m M *m S) (poles_poly n.+1 (fp 0%N)) = T *m horner_mx M (poles_poly n.+1 (fp 0%N)) *m S.
    rewrite !(@horner_mxS _ _ _ _ n.+2) ?poles_size // mulmx_sumr mulmx_suml. apply: eq_bigr => j _. by rewrite conj_expr // -scalemxAr -scalemxAl.
  by rewrite -!mulmxA (mulmxA S T) ST mul1mx.
Qed.
End Field.
