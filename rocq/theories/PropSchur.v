(** PropSchur.v: eigen::QRHessenberg (C98), with the repairs of Eigen.v. *)
From Verif Require Import MathFacts MatFacts Util UtilFacts2 PropUtil PropMath MathM ControlFacts RingM DetFacts PropRing PropReal PropControl PropControl2 QR PropQR Eigen.
From mathcomp Require Import all_ssreflect all_algebra.
From Verif Require Import EigenMath PropHess PropHess2 PropGivens.
Set Implicit Arguments.
Unset Strict Implicit.
Unset Printing Implicit Defensive.
Import Order.Theory GRing.Theory Num.Theory.
Local Open Scope ring_scope.

(** Similar matrices have the same characteristic polynomial. *)
Lemma char_poly_similar (F : comRingType) n (P Q A : 'M[F]_n) : Q *m P = 1%:M -> char_poly (Q *m A *m P) = char_poly A.
Proof.
  move=> E. rewrite /char_poly.
  have -> : char_poly_mx (Q *m A *m P) = map_mx polyC Q *m char_poly_mx A *m map_mx polyC P.
    rewrite /char_poly_mx mulmxBr mulmxBl !map_mxM /=. congr (_ - _).
    by rewrite mul_mx_scalar -scalemxAl -map_mxM E map_mx1 scalemx1.
  rewrite !det_mulmx mulrC mulrA -det_mulmx -map_mxM. have -> : P *m Q = 1%:M by exact: mulmx1C.
  by rewrite map_mx1 det1 mul1r.
Qed.
Lemma char_poly_upper (F : comRingType) n (A : 'M[F]_n) : (forall a b : 'I_n, (b < a)%N -> A a b = 0) ->
  char_poly A = \prod_(i < n) ('X - (A i i)%:P).
Proof.
  move=> H. rewrite /char_poly -det_tr det_trig; first by apply: eq_bigr => i _; rewrite !mxE eqxx.
  apply/is_trig_mxP => i j L. rewrite !mxE [A _ _]H // -val_eqE /= gtn_eqF // polyC0 subr0. by [].
Qed.

Section Schur.
Variables (K : numClosedFieldType) (U : rcfType) (emb : {rmorphism U -> K}) (OC : Ops K) (OU : Ops U).
Variables (cnorm cabs : K -> U) (conj : K -> K) (ofr : U -> K).
Hypothesis HC : complexO emb OC OU cnorm cabs conj ofr.

Let HF : fieldO OC. Proof. by case: HC. Qed.
Let HO : ringO OC. Proof. by case: HF. Qed.
Let HU : realO OU. Proof. by case: HC. Qed.
Let HV : ringO OU. Proof. by case: HU => -[]. Qed.
Let Hlt (x y : U) : olt x y = (x < y). Proof. by case: HU. Qed.
Let Hnorm z : emb (cnorm z) = `|z| ^+ 2. Proof. by case: HC => _ _ _ []. Qed.

Lemma lincomb_mx A B r c (M N : 'M[K]_(r, c)) a b : reads_mx A M -> reads_mx B N ->
  exists m, [/\ linear_combination A a B b = Ok m, is_mx m (a *: M + b *: N) & reads_mx (mb_of_mat m) (a *: M + b *: N)].
Proof.
  move=> HA HB. have [m [E H]] := proj2 (C42_linear_combination a b A B r c (mxf M) r c (mxf N) HA HB) erefl erefl.
  have Hm : is_mx m (a *: M + b *: N).
    apply: is_mat_ext; first exact: H. move=> i j /ssrnat.ltP Hi /ssrnat.ltP Hj.
    by rewrite -[i]/(val (Ordinal Hi)) -[j]/(val (Ordinal Hj)) (oaddE HO) !(omulE HO) !mxfE !mxE mulrC [_ * b]mulrC.
  exists m. split=> //. exact: is_mx_reads.
Qed.

(** The part below the diagonal, measured by the root of the sum of the squared moduli. *)
Definition subn n (M : 'M[K]_n) : U := Num.sqrt (\sum_(i < n) \sum_(j < n | (j < i)%N) cnorm (M i j)).
Lemma sub_norm_mx (X : Mat.Matrix K) n (M : 'M[K]_n) : (0 < n)%N -> is_mx X M -> sub_norm cnorm Num.sqrt (mb_of_mat X) = Ok (subn M).
Proof.
  move=> Hn HX. have [_ [_ H]] := C40_sub_norm HU cnorm Num.sqrt HX. rewrite H ?muln_gt0 ?Hn //.
  congr (Ok (Num.sqrt _)). apply: eq_bigr => i _. apply: eq_bigr => j _. by rewrite mxfE.
Qed.
Lemma subn_bound n (M : 'M[K]_n) (a b : 'I_n) : (b < a)%N -> `|M a b| <= emb (subn M).
Proof.
  move=> L. have P : forall i j : 'I_n, 0 <= cnorm (M i j) by move=> i j; exact: (cnorm_ge0 HC).
  have S0 : 0 <= \sum_(i < n) \sum_(j < n | (j < i)%N) cnorm (M i j) by apply: sumr_ge0 => i _; apply: sumr_ge0.
  rewrite -(@ler_pexpn2r _ 2) // ?nnegrE //; last by rewrite -(rmorph0 emb) (emb_le HC) sqrtr_ge0.
  rewrite -Hnorm -rmorphX (emb_le HC) /= sqr_sqrtr // (bigD1 a) //= (bigD1 b) //= -addrA ler_addl.
  apply: addr_ge0; first by apply: sumr_ge0. by apply: sumr_ge0 => i _; apply: sumr_ge0.
Qed.

Variables (eps : U) (shift : Mat.Matrix K -> Res K) (tolerance : U).
Hypothesis eps_gt0 : 0 < eps.

Lemma schur_step_ok (Id HM UT : Mat.Matrix K) n (MH MU : 'M[K]_n) : (0 < n)%N -> is_mx Id (1%:M : 'M[K]_n) -> is_mx HM MH -> is_mx UT MU ->
  (exists mu, shift UT = Ok mu) ->
  exists HM' UT' r (G : 'M[K]_n), [/\ schur_step cnorm cabs conj ofr Num.sqrt eps shift Id HM UT = Ok (HM', UT', r),
    is_mx HM' (MH *m G), is_mx UT' (adj G *m MU *m G), unitary G & subn (adj G *m MU *m G) <= r].
Proof.
  move=> Hn HI HH HT [mu0 Es]. have Hs := shape_mx (is_mx_reads HH).
  rewrite /schur_step (mat_copy_ok _ _ _ _ HT) bindOk Es bindOk. set mu := if _ then _ else _.
  have [X1 [-> HX1 _]] := lincomb_mx o1 (oopp mu) (is_mx_reads HT) (is_mx_reads HI). rewrite bindOk.
  rewrite (o1E HO) (ooppE HO) scale1r scalemx1 in HX1. have HT1 := mv_assign HT HX1. set UT1 := fst _ in HT1 *.
  have [Q [R [MQ [MR [-> HQ HR [UQ EQ _]]]]]] := C97_givens HC eps_gt0 Hn HT1. rewrite bindOk.
  have [X2 [-> HX2 _]] := m_mul_mxL HO (is_mx_reads HR) (is_mx_reads HQ) Hs. rewrite bindOk.
  have HT2 := mv_assign HT1 HX2. set UT2 := fst _ in HT2 *.
  have [X3 [-> HX3 _]] := m_mul_mxL HO (is_mx_reads HH) (is_mx_reads HQ) Hs. rewrite bindOk.
  have HH1 := mv_assign HH HX3.
  have [X4 [-> HX4 _]] := lincomb_mx o1 mu (is_mx_reads HT2) (is_mx_reads HI). rewrite bindOk.
  have HT3 := mv_assign HT2 HX4. set UT3 := fst _ in HT3 *. rewrite (o1E HO) scale1r scalemx1 in HT3.
  have EU : MR *m MQ + mu%:M = adj MQ *m MU *m MQ.
    have ER : MR = adj MQ *m (MU + (- mu)%:M) by rewrite -EQ mulmxA UQ mul1mx.
    rewrite ER mulmxDr mulmxDl mul_mx_scalar -scalemxAl UQ scaleNr scalemx1 -addrA addNr addr0. by [].
  rewrite EU in HT3.
  have [D [-> _ RD]] := lincomb_mx o1 (oopp o1) (is_mx_reads HT3) (is_mx_reads HT). rewrite bindOk.
  rewrite (C40_square_norm_matrix HU cnorm Num.sqrt (proj1 RD)) bindOk (sub_norm_mx Hn HT3) bindOk.
  eexists _, _, _, MQ. split; [reflexivity|exact: HH1|exact: HT3|exact: UQ|].
  rewrite (oaddE HV) ler_addr. exact: sqrtr_ge0.
Qed.

Lemma schur_loop_ok todo (Id HM UT : Mat.Matrix K) n (MH MU : 'M[K]_n) r : (0 < n)%N -> is_mx Id (1%:M : 'M[K]_n) -> is_mx HM MH -> is_mx UT MU ->
  (forall (X : Mat.Matrix K) (MX : 'M[K]_n), is_mx X MX -> exists mu, shift X = Ok mu) ->
  exists HM' UT' r' (G : 'M[K]_n), [/\ schur_loop cnorm cabs conj ofr Num.sqrt eps shift tolerance todo Id HM UT r = Ok (HM', UT', r'),
    is_mx HM' (MH *m G), is_mx UT' (adj G *m MU *m G), unitary G & (r' = r /\ G = 1%:M) \/ subn (adj G *m MU *m G) <= r'].
Proof.
  move=> Hn HI HH HT HS. elim: todo HM UT MH MU r HH HT => [|todo IH] HM UT MH MU r HH HT /=.
    exists HM, UT, r, 1%:M. split; [by []|by rewrite mulmx1|by rewrite adj1 mul1mx mulmx1|exact: unitary1|by left].
  rewrite Hlt. case: ltP => L; last first.
    exists HM, UT, r, 1%:M. split; [by []|by rewrite mulmx1|by rewrite adj1 mul1mx mulmx1|exact: unitary1|by left].
  have [HM1 [UT1 [r1 [G [-> H1 H2 UG S1]]]]] := schur_step_ok Hn HI HH HT (HS _ _ HT). rewrite bindOk.
  have [HM2 [UT2 [r2 [G2 [-> H3 H4 UG2 S2]]]]] := IH HM1 UT1 _ _ r1 H1 H2.
  have E : adj G2 *m (adj G *m MU *m G) *m G2 = adj (G *m G2) *m MU *m (G *m G2) by rewrite adj_mul !mulmxA.
  rewrite E in H4 S2. exists HM2, UT2, r2, (G *m G2). split; [by []|by rewrite mulmxA|exact: H4|exact: unitaryM|].
  right. case: S2 => [[-> E2]|//]. by rewrite E2 mulmx1.
Qed.

(** What QRHessenberg returns, whatever the elements of A, the number of passes allowed
    and the shifts used: HM and UT with UT = HM* A HM; if no warning is printed, the
    elements of UT below the diagonal are at most the tolerance in absolute value. *)
Theorem C98_conjugate itermax (A : Mat.Matrix K) n (MA : 'M[K]_n) : (0 < n)%N -> is_mx A MA -> tolerance < 1 ->
  (forall (X : Mat.Matrix K) (MX : 'M[K]_n), is_mx X MX -> exists mu, shift X = Ok mu) ->
  exists HM UT warned (MH MU : 'M[K]_n), [/\ QRHessenberg cnorm cabs conj ofr Num.sqrt eps shift tolerance itermax A = Ok (HM, UT, warned),
    is_mx HM MH, is_mx UT MU, MU = adj MH *m MA *m MH &
    warned = false -> forall a b : 'I_n, (b < a)%N -> `|MU a b| <= emb tolerance].
Proof.
  move=> Hn HA Ht HS. have Hs := shape_mx (is_mx_reads HA). have [Er _] := HA. rewrite /QRHessenberg Er.
  have [J [-> HJ _]] := identity_mx HO Hn Hs. rewrite bindOk.
  have [P [H [MP [MH [-> HP HH EH]]]]] := C97_hessenberg_conjugate HC eps_gt0 Hn HA. rewrite bindOk.
  have [HM [UT [r [G [-> H1 H2 UG S]]]]] := schur_loop_ok (itermax - 1)%coq_nat o1 Hn HJ HP HH HS. rewrite bindOk.
  eexists HM, UT, _, _, _. split; [reflexivity|exact: H1|exact: H2|by rewrite EH adj_mul !mulmxA|].
  rewrite Hlt. move/negbT. rewrite -leNgt => Lr a b Lb. apply: le_trans (subn_bound _ Lb) _. rewrite (emb_le HC).
  case: S => [[Er' _]|S]; last exact: le_trans Lr.
  exfalso. move: Lr. by rewrite Er' (o1E HV) leNgt Ht.
Qed.
End Schur.

Section Schur2.
Variables (K : numClosedFieldType) (U : rcfType) (emb : {rmorphism U -> K}) (OC : Ops K) (OU : Ops U).
Variables (cnorm cabs : K -> U) (conj : K -> K) (ofr : U -> K).
Hypothesis HC : complexO emb OC OU cnorm cabs conj ofr.
Let HF : fieldO OC. Proof. by case: HC. Qed.
Let HO : ringO OC. Proof. by case: HF. Qed.
Let HU : realO OU. Proof. by case: HC. Qed.
Let HV : ringO OU. Proof. by case: HU => -[]. Qed.
Let Hlt (x y : U) : olt x y = (x < y). Proof. by case: HU. Qed.

(** For every square A there is a bound such that, for every machine epsilon up to it and
    however many passes are allowed and whatever shifts are used, QRHessenberg returns a
    unitary HM and a UT with A = HM UT HM*.  A and UT have the same eigenvalues, with
    multiplicity.  If no warning is printed, every element of UT below the diagonal is at
    most the tolerance; if these elements are zero, the eigenvalues of A are the diagonal
    elements of UT. *)
Theorem C98_schur n (MA : 'M[K]_n) : (0 < n)%N -> shape_ok n n ->
  exists e0 : U, 0 < e0 /\ forall eps shift tolerance itermax (A : Mat.Matrix K), 0 < eps -> eps <= e0 -> tolerance < 1 ->
    (forall (X : Mat.Matrix K) (MX : 'M[K]_n), is_mx X MX -> exists mu, shift X = Ok mu) -> is_mx A MA ->
    exists HM UT warned (MH MU : 'M[K]_n), [/\ QRHessenberg cnorm cabs conj ofr Num.sqrt eps shift tolerance itermax A = Ok (HM, UT, warned),
      is_mx HM MH, is_mx UT MU &
      [/\ unitary MH, MA = MH *m MU *m adj MH, char_poly MA = char_poly MU,
        (warned = false -> forall a b : 'I_n, (b < a)%N -> `|MU a b| <= emb tolerance) &
        ((forall a b : 'I_n, (b < a)%N -> MU a b = 0) -> char_poly MA = \prod_(i < n) ('X - (MU i i)%:P))]].
Proof.
  move=> Hn Hs. have [e0 [MP [MH [P0 UP EA HH He]]]] := C97_hessenberg HC MA Hn Hs. exists e0. split=> //.
  move=> eps shift tolerance itermax A E0 Le Ht HS HA. have [Er _] := HA. rewrite /QRHessenberg Er.
  have [J [-> HJ _]] := identity_mx HO Hn Hs. rewrite bindOk.
  have [P [H [-> HP HHm]]] := He eps A E0 Le HA. rewrite bindOk.
  have [HM [UT [r [G [-> H1 H2 UG S]]]]] := schur_loop_ok HC tolerance E0 (itermax - 1)%coq_nat o1 Hn HJ HP HHm HS. rewrite bindOk.
  have UM : unitary (MP *m G) by exact: unitaryM.
  have EM : MA = MP *m G *m (adj G *m MH *m G) *m adj (MP *m G).
    rewrite adj_mul !mulmxA -[MP *m G *m adj G]mulmxA (unitaryC UG) mulmx1 -[MP *m MH *m G *m adj G]mulmxA (unitaryC UG) mulmx1. exact: EA.
  have CP : char_poly MA = char_poly (adj G *m MH *m G).
    rewrite EM char_poly_similar //. exact: unitaryC.
  eexists HM, UT, _, _, _. split; [reflexivity|exact: H1|exact: H2|]. split=> //.
  - rewrite Hlt. move/negbT. rewrite -leNgt => Lr a b Lb. apply: le_trans (subn_bound HC _ Lb) _. rewrite (emb_le HC).
    case: S => [[Er' _]|S]; last exact: le_trans Lr.
    exfalso. move: Lr. by rewrite Er' (o1E HV) leNgt Ht.
  - move=> Hz. by rewrite CP char_poly_upper.
Qed.
End Schur2.
