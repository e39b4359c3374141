(** PropQR2.v: solve (C96), with the repairs of QR.v. *)
From Verif Require Import LinalgFacts2 MathFacts MatFacts ViewFacts ViewFacts2 Util UtilFacts2 PropUtil PropMath MathM ControlFacts RingM DetFacts PropRing PropReal PropField PropControl PropControl2 QR QRMath PropDims PropQR.
From mathcomp Require Import all_ssreflect all_algebra realalg.
Set Implicit Arguments.
Unset Strict Implicit.
Unset Printing Implicit Defensive.
Import Order.Theory GRing.Theory Num.Theory.
Local Open Scope ring_scope.

(** * Least squares, in mathcomp's matrices only *)
Section LeastSquares.
Variable F : realFieldType.
Lemma sqlen_ge0 n (x : 'cV[F]_n) : 0 <= sqlen x.
Proof. by apply: sumr_ge0 => k _; exact: sqr_ge0. Qed.
Lemma sqlen_eq0 n (x : 'cV[F]_n) : sqlen x = 0 -> x = 0.
Proof.
  move=> E. apply/colP => k. rewrite mxE. apply/eqP. rewrite -sqrf_eq0. apply/eqP.
  by apply: (psumr_eq0P (F := fun k => x k 0 ^+ 2) _ E) => // j _; exact: sqr_ge0.
Qed.
Lemma sqlen_add n (x y : 'cV[F]_n) : x^T *m y = 0 -> sqlen (x + y) = sqlen x + sqlen y.
Proof.
  move=> E. have E2 : y^T *m x = 0 by rewrite -[y^T *m x]trmxK trmx_mul trmxK E trmx0.
  have : (x + y)^T *m (x + y) = (sqlen x + sqlen y)%:M.
    by rewrite [(x + y)^T]raddfD /= mulmxDl !mulmxDr E E2 addr0 add0r !sqlenE raddfD.
  by rewrite sqlenE => /matrixP /(_ 0 0); rewrite !mxE !mulr1n.
Qed.
Lemma gram_unit r c (M : 'M[F]_(r, c)) : indep M -> \det (M^T *m M) != 0.
Proof.
  move=> H. apply/negP => /det0P [v Nv Ev]. move/negP: Nv; apply. apply/eqP.
  have : M *m v^T = 0.
    apply: sqlen_eq0. have : (M *m v^T)^T *m (M *m v^T) = 0 by rewrite trmx_mul trmxK -mulmxA [M^T *m _]mulmxA mulmxA Ev mul0mx.
    by rewrite sqlenE => /matrixP /(_ 0 0); rewrite !mxE mulr1n.
  by move=> /H E; rewrite -[v]trmxK E trmx0.
Qed.
Lemma normal_minimal r c (M : 'M[F]_(r, c)) (x y : 'cV[F]_c) b : M^T *m (M *m x - b) = 0 -> sqlen (M *m x - b) <= sqlen (M *m y - b).
Proof.
  move=> E. have -> : M *m y - b = M *m (y - x) + (M *m x - b) by rewrite mulmxBr addrA subrK.
  rewrite [X in _ <= X]sqlen_add; first by rewrite ler_addr sqlen_ge0.
  by rewrite trmx_mul -mulmxA E mulmx0.
Qed.
Lemma least_norm r c (M : 'M[F]_(r, c)) (z : 'cV[F]_r) (y : 'cV[F]_c) : M *m y = M *m (M^T *m z) -> sqlen (M^T *m z) <= sqlen y.
Proof.
  move=> E. have -> : y = (y - M^T *m z) + M^T *m z by rewrite subrK.
  rewrite [X in _ <= X]sqlen_add; first by rewrite ler_addr sqlen_ge0.
  by rewrite mulmxA -trmx_mul mulmxBr E subrr trmx0 mul0mx.
Qed.
End LeastSquares.

Section Solve.
Variable F : rcfType.
Variable O : Ops F.
Hypothesis HR : realO O.
Hypothesis HZ : exactZ O.
Let HF : fieldO O. Proof. by case: HR. Qed.
Let HO : ringO O. Proof. by case: HF. Qed.
Variable cs : F -> F -> F.
Hypothesis Hcs : forall x y, 0 <= x -> cs x y = if y < 0 then - x else x.

Lemma mulv_mx A r c (M : 'M[F]_(r, c)) b V : reads_mx A M -> is_vec b c (cvf V) -> fits r ->
  exists d, dot_mv A b = Ok d /\ is_vec d r (cvf (M *m V)).
Proof.
  move=> [HA _] Hb Hf. have [Lb _] := Hb. have Lc : (c <= length b)%coq_nat by rewrite Lb.
  have [d [E Hd]] := m_mulv_ok A r c (mxf M) b HA Lc Hf 0. exists d. split; first exact: E.
  apply: is_vec_ext; first exact: Hd. move=> i /ssrnat.ltP Hi. rewrite (osumE HO) -[i]/(val (Ordinal Hi)) cvfE mxE.
  apply: eq_bigr => k _. by rewrite (omulE HO) mxfE (is_vec_nthE _ _ _ Hb) ?cvfE //; apply/ssrnat.ltP.
Qed.

(** Square and invertible: the solution. *)
Theorem C96_solve_square (A : Mat.Matrix F) n (MA : 'M[F]_n) b V : is_mx A MA -> is_vec b n (cvf V) -> (n <= 5)%N -> \det MA != 0 ->
  exists x X, [/\ solve Num.sqrt cs A b = Ok x, is_vec x n (cvf X) & MA *m X = V].
Proof.
  move=> HA Hb Hn Hd. have [Er [Ec _]] := HA. rewrite /solve Er Ec Nat.eqb_refl.
  have [m [N [-> Hm H1 H2]]] := C52_inverse HF HZ (is_mx_reads HA) Hn Hd. rewrite bindOk.
  have Fn : fits n by case: Hb => _ [].
  have [x [-> Hx]] := mulv_mx (is_mx_reads Hm) Hb Fn. exists x, (N *m V). split=> //. by rewrite mulmxA H1 mul1mx.
Qed.
(** Square and singular (up to order 4): an empty vector. *)
Theorem C96_solve_singular (A : Mat.Matrix F) n (MA : 'M[F]_n) b : is_mx A MA -> (0 < n <= 4)%N -> \det MA = 0 ->
  solve Num.sqrt cs A b = Ok [::].
Proof.
  move=> HA Hn Hd. have [Er [Ec _]] := HA. rewrite /solve Er Ec Nat.eqb_refl.
  by have [_ ->] := C52_singular HF HZ (is_mx_reads HA) Hn.
Qed.
(** More equations than unknowns, independent columns: the least squares solution. *)
Theorem C96_solve_tall (A : Mat.Matrix F) r c (MA : 'M[F]_(r, c)) b V : is_mx A MA -> is_vec b r (cvf V) -> (0 < c < r)%N -> (c <= 5)%N ->
  shape_ok r r -> indep MA ->
  exists x X, [/\ solve Num.sqrt cs A b = Ok x, is_vec x c (cvf X), MA^T *m (MA *m X) = MA^T *m V &
    forall Y, sqlen (MA *m X - V) <= sqlen (MA *m Y - V)].
Proof.
  move=> HA Hb /andP [Hc Hcr] Hn Sr HI. have [Er [Ec _]] := HA. rewrite /solve Er Ec nateqbE gtn_eqF // ltbE Hcr.
  have Hcr' : (0 < c <= r)%N by rewrite Hc ltnW.
  have [q [u [MQ [MR [-> Hq Hu [Q1 Q2 U1 U2]]]]]] := C96_qr HR Hcs HA Hcr' Sr HI. rewrite bindOk.
  have Lcr : (c < r)%coq_nat by apply/ssrnat.ltP. have Lc : (0 < c)%coq_nat by apply/ssrnat.ltP.
  pose J : 'M[F]_(r, c) := pid_mx c.
  have HVu : vshape (PView (mkRange 0 c) (mkRange 0 c) Root) r c = Some (c, c).
    rewrite /vshape /=. replace (Nat.ltb 0 c) with true by (symmetry; apply/Nat.ltb_lt; lia). rewrite /= !Nat.min_l; [|lia|lia]. by rewrite !Nat.sub_0_r.
  have HVq : vshape (PView (mkRange 0 r) (mkRange 0 c) Root) r r = Some (r, c).
    rewrite /vshape /=. replace (Nat.ltb 0 c) with true by (symmetry; apply/Nat.ltb_lt; lia). replace (Nat.ltb 0 r) with true by (symmetry; apply/Nat.ltb_lt; lia).
    rewrite /= !Nat.min_l; [|lia|lia]. by rewrite !Nat.sub_0_r.
  have RU : reads_mx (vmb (PView (mkRange 0 c) (mkRange 0 c) Root) u) (J^T *m MR).
    have R0 := vmb_readsL (PView (mkRange 0 c) (mkRange 0 c) Root) u r c (mxf MR) c c Hu HVu I.
    apply: readsL_ext; first exact: R0. move=> i j Hi Hj. rewrite /vsel /vpos [fst _]/= [snd _]/=.
    have Hi' : (i < r)%N by exact: ltn_trans Hi Hcr.
    rewrite -[i in RHS]/(val (Ordinal Hi)) -[j in RHS]/(val (Ordinal Hj)) mxfE mxE (bigD1 (Ordinal Hi')) //= big1 ?addr0.
    - by rewrite !mxE /= eqxx Hi mul1r -[i]/(val (Ordinal Hi')) -[j]/(val (Ordinal Hj)) mxfE.
    - move=> k Nk. rewrite !mxE /= (_ : (nat_of_ord k == i) = false) ?mul0r //. apply/negbTE. by rewrite -val_eqE in Nk.
  have RQ : reads_mx (vmb (PView (mkRange 0 r) (mkRange 0 c) Root) q) (MQ *m J).
    have R0 := vmb_readsL (PView (mkRange 0 r) (mkRange 0 c) Root) q r r (mxf MQ) r c Hq HVq I.
    apply: readsL_ext; first exact: R0. move=> i j Hi Hj. rewrite /vsel /vpos [fst _]/= [snd _]/=.
    have Hj' : (j < r)%N by exact: ltn_trans Hj Hcr.
    rewrite -[i in RHS]/(val (Ordinal Hi)) -[j in RHS]/(val (Ordinal Hj)) mxfE mxE (bigD1 (Ordinal Hj')) //= big1 ?addr0.
    - by rewrite !mxE /= eqxx Hj mulr1 -[i]/(val (Ordinal Hi)) -[j]/(val (Ordinal Hj')) mxfE.
    - move=> k Nk. rewrite !mxE /= (_ : (nat_of_ord k == j) = false) ?mulr0 //. apply/negbTE. by rewrite -val_eqE in Nk.
  have EJ : J *m (J^T *m MR) = MR.
    rewrite mulmxA tr_pid_mx pid_mx_id //. apply/matrixP => a d. rewrite mxE (bigD1 a) //= big1 ?addr0.
    - rewrite [pid_mx _ _ _]mxE eqxx /=. case: ltnP => L; first by rewrite mul1r. by rewrite mul0r U1 // (leq_trans (ltn_ord d)).
    - move=> k Nk. rewrite [pid_mx _ _ _]mxE [(_ == _)]eq_sym val_eqE (negbTE Nk) /=. by rewrite mul0r.
  have JJ : J^T *m J = 1%:M by rewrite tr_pid_mx (pid_mx_id _ _ _ (ltnW Hcr)) pid_mx_1.
  set R1 := J^T *m MR in RU EJ. set K1 := MQ *m J in RQ.
  have EA : MA = K1 *m R1 by rewrite -Q2 -[in LHS]EJ mulmxA.
  have KK : K1^T *m K1 = 1%:M by rewrite trmx_mul mulmxA -[J^T *m _ *m _]mulmxA Q1 mulmx1.
  have D1 : \det R1 != 0.
    apply/negP => /eqP Z. have := gram_unit HI. by rewrite EA trmx_mul mulmxA -[R1^T *m _ *m _]mulmxA KK mulmx1 det_mulmx Z mulr0 eqxx.
  have [m [N [-> Hm N1 N2]]] := C52_inverse HF HZ RU Hn D1. rewrite bindOk.
  have [t [-> Ht]] := tr_mx O RQ. rewrite bindOk.
  have Fc : fits c. { case: Hb => _ [Fr _]. apply: (fits_le _ r) => //. lia. }
  have [y [-> Hy]] := mulv_mx (is_mx_reads Ht) Hb Fc. rewrite bindOk.
  have [x [-> Hx]] := mulv_mx (is_mx_reads Hm) Hy Fc. exists x, (N *m (K1^T *m V)).
  have NE : MA^T *m (MA *m (N *m (K1^T *m V))) = MA^T *m V.
    rewrite EA trmx_mul. rewrite [K1 *m R1 *m _]mulmxA -[K1 *m R1 *m N]mulmxA N1 mulmx1.
    by rewrite -[R1^T *m K1^T *m _]mulmxA [K1^T *m (K1 *m _)]mulmxA KK mul1mx mulmxA.
  split=> // Y. apply: normal_minimal. by rewrite mulmxBr NE subrr.
Qed.
(** More unknowns than equations, independent rows: the solution of least length. *)
Theorem C96_solve_wide (A : Mat.Matrix F) r c (MA : 'M[F]_(r, c)) b V : is_mx A MA -> is_vec b r (cvf V) -> (r < c)%N -> (r <= 5)%N ->
  shape_ok r r -> fits c -> indep MA^T ->
  exists x X, [/\ solve Num.sqrt cs A b = Ok x, is_vec x c (cvf X), MA *m X = V & forall Y, MA *m Y = V -> sqlen X <= sqlen Y].
Proof.
  move=> HA Hb Hrc Hn Sr Fc HI. have [Er [Ec _]] := HA. rewrite /solve Er Ec nateqbE ltn_eqF // ltbE ltnNge ltnW //=.
  have [t [-> Ht]] := tr_mx O (is_mx_reads HA). rewrite bindOk.
  have [AA [-> _ HAA]] := m_mul_mxL HO (is_mx_reads HA) (is_mx_reads Ht) Sr. rewrite bindOk.
  have D1 : \det (MA *m MA^T) != 0 by have := gram_unit HI; rewrite trmxK.
  have [m [N [-> Hm N1 N2]]] := C52_inverse HF HZ HAA Hn D1. rewrite bindOk.
  have St := shape_mx (is_mx_reads Ht).
  have [P [-> _ HP]] := m_mul_mxL HO (is_mx_reads Ht) (is_mx_reads Hm) St. rewrite bindOk.
  have [x [-> Hx]] := mulv_mx HP Hb Fc. exists x, (MA^T *m N *m V).
  have ES : MA *m (MA^T *m N *m V) = V by rewrite !mulmxA N1 mul1mx.
  split=> // Y EY. rewrite -mulmxA. apply: least_norm. by rewrite mulmxA in ES; rewrite EY -[in LHS]ES !mulmxA.
Qed.
End Solve.
