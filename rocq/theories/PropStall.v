(** PropStall.v: the iteration of eigen::QRHessenberg can go on without getting anywhere (C108), with the repairs of
    Eigen.v.  Exact complex arithmetic; the same with doubles is in PropStallFloat.v. *)
From Verif Require Import MathFacts MatFacts Util UtilFacts2 PropUtil PropMath MathM ControlFacts RingM DetFacts PropRing PropReal PropControl PropControl2 QR PropQR Complex Eigen PropEigen.
From mathcomp Require Import all_ssreflect all_algebra realalg complex.
From Verif Require Import EigenMath PropHess PropHess2 PropGivens PropSchur PropSchurRun PropEigenEx.
Set Implicit Arguments.
Unset Strict Implicit.
Unset Printing Implicit Defensive.
Import Order.Theory GRing.Theory Num.Theory.
Local Open Scope ring_scope.

(** * Specification *)
(** T' is D T D*, D a diagonal matrix of numbers of modulus 1. *)
Definition same_up_to_phases (K : numClosedFieldType) n (T T' : 'M[K]_n) : Prop :=
  exists d : 'I_n -> K, (forall i, `|d i| = 1) /\ forall a b, T' a b = d a * T a b * (d b)^*.

Section Phases.
Variables (K : numClosedFieldType) (n : nat).
Implicit Types T M R Q : 'M[K]_n.
Lemma phases_refl T : same_up_to_phases T T.
Proof. exists (fun=> 1). split=> [i|a b]; first exact: normr1. by rewrite mul1r rmorph1 mulr1. Qed.
Lemma phases_trans T1 T2 T3 : same_up_to_phases T1 T2 -> same_up_to_phases T2 T3 -> same_up_to_phases T1 T3.
Proof.
  move=> [d [Hd E]] [d' [Hd' E']]. exists (fun i => d' i * d i). split=> [i|a b]; first by rewrite normrM Hd Hd' mulr1.
  by rewrite E' E rmorphM /= [(d' b)^* * _]mulrC !mulrA.
Qed.
Lemma phases_abs T T' : same_up_to_phases T T' -> forall a b, `|T' a b| = `|T a b|.
Proof. move=> [d [Hd E]] a b. by rewrite E !normrM norm_conjC !Hd mul1r mulr1. Qed.
Lemma phases_hess T T' : same_up_to_phases T T' -> hessenberg_form T -> hessenberg_form T'.
Proof. move=> [d [_ E]] H a b L. by rewrite E H // mulr0 mul0r. Qed.
Lemma mod1 (x : K) : `|x| = 1 -> x * x^* = 1.
Proof. move=> H. by rewrite -normCK H expr1n. Qed.
Lemma phases_diag T T' : same_up_to_phases T T' -> forall a, T' a a = T a a.
Proof. move=> [d [Hd E]] a. by rewrite E mulrAC mod1 // mul1r. Qed.
Lemma phases_shift T T' mu : same_up_to_phases T T' -> same_up_to_phases (T - mu%:M) (T' - mu%:M).
Proof.
  move=> [d [Hd E]]. exists d. split=> // a b. rewrite !mxE E mulrBr mulrBl. congr (_ - _).
  case: eqP => [->|_]; last by rewrite !mulr0n mulr0 mul0r. by rewrite !mulr1n [d b * mu]mulrC -mulrA mod1 // mulr1.
Qed.
Lemma phases_unitary T T' : same_up_to_phases T T' -> unitary T -> unitary T'.
Proof.
  move=> [d [Hd E]] /matrixP U1. apply/matrixP => a b. rewrite mxE.
  transitivity (d a * (adj T *m T) a b * (d b)^*).
    rewrite [_ a b]mxE mulr_sumr mulr_suml. apply: eq_bigr => i _. rewrite !adjE !E !rmorphM /= conjCK.
    by rewrite mulrACA [X in X * _]mulrACA [(d i)^* * _]mulrC mod1 // mul1r [RHS]mulrAC mulrC [d a * _]mulrC.
  rewrite U1 !mxE. case: eqP => [->|_]; last by rewrite !mulr0n mulr0 mul0r. by rewrite mulr1n mulr1 mod1.
Qed.
(** An upper triangular unitary matrix is diagonal. *)
Lemma upper_unitary R : unitary R -> (forall a b : 'I_n, (b < a)%N -> R a b = 0) ->
  forall a : 'I_n, `|R a a| = 1 /\ forall b : 'I_n, b != a -> R a b = 0.
Proof.
  move=> /matrixP U1 HR a. have [m Lm] := ubnP (nat_of_ord a). elim: m a Lm => [//|m IH] a Lm.
  have Col (b : 'I_n) : (R a a)^* * R a b = (a == b)%:R.
    have := U1 a b. rewrite [RHS]mxE => <-. rewrite mxE (bigD1 a) //= adjE big1 ?addr0 // => i Ni. rewrite adjE.
    case: (ltngtP i a) => Li.
    - have [|_ Hz] := IH i; first exact: leq_trans Li _. by rewrite (Hz a) 1?eq_sym // rmorph0 mul0r.
    - by rewrite HR // rmorph0 mul0r.
    - by case/negP: Ni; apply/eqP/ord_inj.
  have A1 : `|R a a| = 1.
    have := Col a. rewrite eqxx -normCKC => /eqP. by rewrite sqrp_eq1 // => /eqP.
  split=> // b Nb. have := Col b. rewrite eq_sym (negbTE Nb) => /eqP. rewrite mulf_eq0 => /orP [|/eqP //].
  by rewrite conjC_eq0 -normr_eq0 A1 oner_eq0.
Qed.
(** A pass with shift [mu] from T, T - mu I unitary and without small elements below its diagonal. *)
Lemma pass_stalls e mu T T' Q : qr_pass e mu T T' Q -> hessenberg_form T -> (forall a b : 'I_n, nat_of_ord a = b.+1 -> e <= `|T a b|) ->
  unitary (T - mu%:M) -> same_up_to_phases T T'.
Proof.
  move=> [R [UQ EQ -> HR _]] HT HB UT. have [_ /(_ HB) Z] := HR HT.
  have ER : R = adj Q *m (T - mu%:M) by rewrite EQ mulmxA UQ mul1mx.
  have UR : unitary R by rewrite /unitary ER adj_mul adjK mulmxA -[adj (T - mu%:M) *m Q *m _]mulmxA (unitaryC UQ) mulmx1.
  have D := upper_unitary UR Z. have EQ' : Q = (T - mu%:M) *m adj R by rewrite EQ -mulmxA (unitaryC UR) mulmx1.
  have [d [Hd E]] : same_up_to_phases (T - mu%:M) (R *m Q).
    exists (fun i => R i i). split=> [i|a b]; first by case: (D i).
    rewrite mxE (bigD1 a) //= big1 ?addr0 => [|i Ni]; last by case: (D a) => _ ->; rewrite ?mul0r.
    rewrite EQ' mxE (bigD1 b) //= adjE big1 ?addr0 ?mulrA // => i Ni. rewrite adjE. by case: (D b) => _ ->; rewrite ?rmorph0 ?mulr0.
  have : same_up_to_phases (T - mu%:M - (- mu)%:M) (R *m Q - (- mu)%:M) by apply: phases_shift; exists d.
  by rewrite !raddfN !opprK /= subrK.
Qed.
End Phases.

Section Stall.
Variables (K : numClosedFieldType) (U : rcfType) (emb : {rmorphism U -> K}) (OC : Ops K) (OU : Ops U).
Variables (cnorm cabs : K -> U) (conj : K -> K) (ofr : U -> K).
Hypothesis HC : complexO emb OC OU cnorm cabs conj ofr.
Let HF : fieldO OC. Proof. by case: HC. Qed.
Let HO : ringO OC. Proof. by case: HF. Qed.
Let Hnorm z : emb (cnorm z) = `|z| ^+ 2. Proof. by case: HC => _ _ _ []. Qed.
Let Habs z : emb (cabs z) = `|z|. Proof. by case: HC => _ _ _ []. Qed.
Variables (eps : U) (shift : Mat.Matrix K -> Res K) (tolerance : U).
Hypothesis eps_gt0 : 0 < eps.

Lemma clen_delta n (c : K) (e : 'I_n) : clen cnorm (c *: delta_mx e 0) = cabs c.
Proof.
  apply: (fmorph_inj emb). apply/eqP. rewrite -(@eqr_expn2 _ 2) //; last 2 first.
  - by rewrite -(rmorph0 emb) (emb_le HC) clen_ge0.
  - by rewrite Habs.
  rewrite (clen_sq HC) Habs /sql (bigD1 e) //= big1 ?addr0 => [|i Ni]; last by rewrite !mxE (negbTE Ni) mulr0 normr0 expr0n.
  by rewrite !mxE !eqxx mulr1.
Qed.
(** The reflection for a column that is already zero below the subdiagonal. *)
Lemma refl_keeps n (M : 'M[K]_n) (k e : 'I_n) : nat_of_ord e = k.+1 -> hessenberg_form M -> emb eps < `|M e k| ->
  forall a b, refl (hu emb cnorm cabs eps M k e) a b = (a == b)%:R * (if a == e then -1 else 1).
Proof.
  move=> Ee HM L. set x := M e k. have x0 : x != 0 by rewrite -normr_eq0 gt_eqF // (lt_trans _ L) // -(rmorph0 emb) (emb_lt HC).
  have EC : hcolk M k = x *: delta_mx e 0.
    apply/matrixP => i j. rewrite !mxE ord1 eqxx andbT. case: (eqVneq i e) => [->|Ni]; first by rewrite Ee ltnSn mulr1.
    rewrite mulr0. case: ltnP => // Li. apply: HM. rewrite ltn_neqAle Li andbT. by apply/eqP => E; case/eqP: Ni; apply: ord_inj; rewrite -E Ee.
  have EV : hv emb cnorm cabs eps (hcolk M k) e = (x + x) *: delta_mx e 0.
    rewrite /hv EC clen_delta !mxE !eqxx mulr1 /hrho -(emb_lt HC) Habs L -Habs mulNr mulNr divfK; last by rewrite fmorph_eq0 -(fmorph_eq0 emb) Habs normr_eq0.
    by rewrite scaleNr opprK scalerDl.
  have E2 : x + x = 2%:R * x by rewrite mulrDl mul1r.
  have N2 : `|x + x| = 2%:R * `|x| by rewrite E2 normrM normr_nat.
  have EU : hu emb cnorm cabs eps M k e = (x / `|x|) *: delta_mx e 0.
    rewrite /hu EV /hl clen_delta. have -> : cabs (x + x) < eps = false.
      apply/negbTE. rewrite -leNgt -(emb_le HC) Habs N2. apply: (le_trans (ltW L)). by rewrite ler_pemull // ler1n.
    rewrite Habs scalerA. congr (_ *: _). by rewrite N2 E2 invfM mulrACA mulVf ?mul1r ?pnatr_eq0 // mulrC.
  move=> a b. rewrite reflE EU !mxE !eqxx !andbT. case: (eqVneq a e) => [->|Na]; last by rewrite mulr0 mulr0 mul0r subr0 mulr1.
  rewrite mulr1 [b == e]eq_sym. case: (eqVneq e b) => _; last by rewrite mulr0 rmorph0 mulr0 subr0 mul0r.
  rewrite mulr1 -[2%:R * _ * _]mulrA -normCK normrM normfV normr_id divff ?normr_eq0 // expr1n mulr1 mul1r.
  by rewrite -[2%:R]/(1 + 1) opprD addrA subrr add0r.
Qed.
Lemma keeps_phases n (M W : 'M[K]_n) (e : 'I_n) : (forall a b, W a b = (a == b)%:R * (if a == e then -1 else 1)) -> same_up_to_phases M (W *m (M *m W)).
Proof.
  move=> HW. exists (fun i => if i == e then -1 else 1). split=> [i|a b]; first by case: ifP; rewrite ?normrN normr1.
  rewrite mxE (bigD1 a) //= big1 ?addr0 => [|i Ni]; last by rewrite HW eq_sym (negbTE Ni) !mul0r.
  rewrite mxE (bigD1 b) //= big1 ?addr0 => [|i Ni]; last by rewrite HW (negbTE Ni) mul0r mulr0.
  rewrite !HW !eqxx !mul1r mulrA. congr (_ * _). by case: ifP; rewrite ?rmorphN rmorph1.
Qed.

(** The Hessenberg form of a Hessenberg matrix whose elements just below the diagonal are larger than epsilon is that
    matrix up to phases. *)
Theorem C108_hessenberg_keeps (A : Mat.Matrix K) n (MA : 'M[K]_n) : (0 < n)%N -> is_mx A MA -> hessenberg_form MA ->
  (forall a b : 'I_n, nat_of_ord a = b.+1 -> emb eps < `|MA a b|) ->
  exists P H (MH : 'M[K]_n), [/\ hessenberg cnorm cabs conj ofr Num.sqrt eps A = Ok (P, H), is_mx H MH & same_up_to_phases MA MH].
Proof.
  move=> Hn HA Hh Hb. have Hs := shape_mx (is_mx_reads HA). have [Er _] := HA. rewrite /hessenberg Er.
  have [J [-> HJ _]] := identity_mx HO Hn Hs. rewrite bindOk (mat_copy_ok _ _ _ _ HA) bindOk.
  have [||[P H] [E [MP [MH [/= _ H2 H3]]]]] := for_range_inv (fun _ (s : Mat.Matrix K * Mat.Matrix K) =>
      exists MP MH : 'M[K]_n, [/\ is_mx s.1 MP, is_mx s.2 MH & same_up_to_phases MA MH]) 0 (n - 2)%coq_nat
    (hess_step cnorm cabs conj ofr Num.sqrt eps n) (J, A) (Nat.le_0_l _).
  - exists 1%:M, MA. split; [exact: HJ|exact: HA|exact: phases_refl].
  - move=> k [P H] [_ Hk] [MP [MH [/= HP HH E]]]. have Lk : (k < n)%N by apply/ssrnat.ltP; lia. have Le : (k.+1 < n)%N by apply/ssrnat.ltP; lia.
    have [P' [H' [Es HP' HH']]] := hess_step_ok HC eps_gt0 (k := Ordinal Lk) (e := Ordinal Le) HP HH erefl.
    exists (P', H'). split; first exact: Es. eexists _, _. split; first exact: HP'; first exact: HH'.
    apply: (phases_trans E). apply: (@keeps_phases n MH _ (Ordinal Le)). apply: refl_keeps => //; first exact: phases_hess E Hh.
    rewrite (phases_abs E). exact: Hb.
  exists P, H, MH. split=> //.
Qed.

(** A Hessenberg matrix A without small elements just below its diagonal, a shift that is [mu] for A and for every matrix
    that is A up to phases, and A - mu I unitary (A - I, if mu is smaller than epsilon): however many passes are allowed, the matrix UT that is returned is
    A up to phases, and the warning is printed. *)
Theorem C108_stalls itermax (A : Mat.Matrix K) n (MA : 'M[K]_n) mu : (1 < n)%N -> is_mx A MA -> hessenberg_form MA ->
  (forall a b : 'I_n, nat_of_ord a = b.+1 -> emb eps < `|MA a b| /\ emb tolerance < `|MA a b|) -> tolerance < 1 ->
  unitary (MA - (used_shift cabs eps mu)%:M) -> (forall (X : Mat.Matrix K) (MX : 'M[K]_n), is_mx X MX -> exists nu, shift X = Ok nu) ->
  (forall (X : Mat.Matrix K) (MX : 'M[K]_n), is_mx X MX -> same_up_to_phases MA MX -> shift X = Ok mu) ->
  exists HM UT (MU : 'M[K]_n), [/\ QRHessenberg cnorm cabs conj ofr Num.sqrt eps shift tolerance itermax A = Ok (HM, UT, true), is_mx UT MU & same_up_to_phases MA MU].
Proof.
  move=> H1n HA Hh Hb Ht Un HS Hsh. have Hn : (0 < n)%N by exact: ltnW.
  have Hb1 a b Eab := proj1 (Hb a b Eab). have Hb2 a b Eab := proj2 (Hb a b Eab).
  have [P1 [H1 [MH [EH HH PH]]]] := C108_hessenberg_keeps Hn HA Hh Hb1.
  have [P0 [T0 [HM [UT [w [k [P [T [E1 _ E3 _ [E4 _ E6 E7 [_ _ _ E11]]]]]]]]]]] := C98_passes HC tolerance eps_gt0 itermax Hn HA HS.
  move: E1. rewrite EH => -[_ ET]. rewrite -ET in E3. rewrite (is_mx_fun HH E3) in PH.
  have S j : (j <= k)%N -> same_up_to_phases MA (T j).
    elim: j => [_|j IH Lj]; first exact: PH. have PJ := IH (ltnW Lj). have [X [nu [Q [HX EX Hp _]]]] := E7 j Lj.
    move: EX. rewrite (Hsh _ _ HX PJ) => -[En]. rewrite -{}En in Hp.
    apply: (phases_trans PJ). apply: (pass_stalls Hp).
    - exact: phases_hess PJ Hh.
    - move=> a b Eab. rewrite (phases_abs PJ). exact: ltW (Hb1 a b Eab).
    - exact: phases_unitary (phases_shift _ PJ) Un.
  exists HM, UT, (T k). split; [|exact: E6|exact: S]. rewrite E4 E11. congr (Ok (_, _, _)).
  case: k {E4 E6 E7 E11} S => [|k] S //=. rewrite /residual. pose a := Ordinal H1n. pose b := Ordinal Hn.
  have L : emb tolerance < `|MA a b| by exact: Hb2.
  rewrite -(phases_abs (S k.+1 (leqnn _))) in L. have B := subn_bound HC (T k.+1) (a := a) (b := b) isT.
  have : tolerance < subn cnorm (T k.+1) by rewrite -(emb_lt HC); exact: lt_le_trans L B.
  move=> L2. apply: (lt_le_trans L2). by rewrite ler_addr /frobenius sqrtr_ge0.
Qed.
End Stall.

Section Cyclic.
Variable R : rcfType.
(** The matrix with z on the diagonal, 1 just below it and 1 in the upper right corner. *)
Definition cyclic (z : R[i]) (n i j : nat) : R[i] := if i == j then z else if (i == j.+1) || ((i == 0) && (j.+1 == n))%N then 1 else 0.
Lemma cyclic_unitary (z : R[i]) n : unitary (fmx n.+2 n.+2 (cyclic z n.+2) - z%:M).
Proof.
  apply/matrixP => a b. rewrite mxE.
  pose nx (c : 'I_n.+2) : 'I_n.+2 := inord (if c.+1 == n.+2 then 0 else c.+1)%N.
  have nxE (c : 'I_n.+2) : nat_of_ord (nx c) = (if c.+1 == n.+2 then 0 else c.+1)%N.
    rewrite inordK //. case: eqP => // N. move: (ltn_ord c) N. by rewrite leq_eqVlt => /orP [/eqP //|].
  have EM (i c : 'I_n.+2) : (fmx n.+2 n.+2 (cyclic z n.+2) - z%:M) i c = (i == nx c)%:R.
    rewrite !mxE /cyclic -!val_eqE /= nxE. case: (eqVneq (nat_of_ord i) c) => [->|Ni].
      rewrite mulr1n subrr. case: (eqVneq c.+1 n.+2) => [[->] //|_]. by rewrite ltn_eqF.
    rewrite mulr0n subr0. case: (eqVneq c.+1 n.+2) => Ec; rewrite ?andbT ?andbF ?orbF; last by case: eqP.
    have -> : (nat_of_ord i == c.+1) = false by rewrite Ec ltn_eqF. by case: eqP.
  rewrite (bigD1 (nx a)) //= big1 ?addr0 => [|i Ni]; last by rewrite adjE EM (negbTE Ni) rmorph0 mul0r.
  rewrite adjE !EM eqxx rmorph1 mul1r [RHS]mxE. congr (_%:R). congr nat_of_bool. apply/eqP/eqP => [|-> //].
  move/(congr1 (@nat_of_ord _)). rewrite !nxE. move=> H. apply: ord_inj. move: H.
  case: eqP => Ea; case: eqP => Eb H //; first by move: Ea Eb => [->] [->]. by case: H.
Qed.
Lemma ofCK (x : R[i]) : toC (ofC x) = x. Proof. by case: x. Qed.
(** The shift of a matrix whose trailing block has twice mu on the diagonal and zero above it. *)
Lemma wshift_corner (csqrt : cplx R -> cplx R) n (X : Mat.Matrix R[i]) (MX : 'M[R[i]]_n.+2) mu : (forall z, toC (csqrt z) ^+ 2 = toC z) -> is_mx X MX ->
  mxf MX n n = mu -> mxf MX n.+1 n.+1 = mu -> mxf MX n n.+1 = 0 -> wshift csqrt X = Ok mu.
Proof.
  move=> Hq HX E1 E2 E3. rewrite /wshift. have [s [-> Es _]] := C72_wilkinson_shift (realops_ok (0 : R)) Hq (ofC_mat HX) (leqnn _).
  rewrite /=. congr Ok. move: Es. rewrite eigen2 !mxE /= !addn0 !addn1 !ofCK E1 E2 E3 mul0r subr0 => /eqP H. apply/eqP.
  rewrite -subr_eq0 -[_ - _ == 0]sqrf_eq0 sqrrB -H. apply/eqP. by rewrite !expr2 mulr2n mulrDl [toC s * mu]mulrC.
Qed.
(** For every n >= 3 and every z of modulus at least epsilon, the matrix z I + C, C the cyclic permutation: with the
    library's shifts and however many passes, the warning is printed and every element of UT has the modulus that the element
    of the argument has; so those just below the diagonal have modulus 1. *)
Theorem C108_cyclic_refuted (csqrt : cplx R -> cplx R) n (z : R[i]) eps tolerance itermax (A : Mat.Matrix R[i]) : (forall w, toC (csqrt w) ^+ 2 = toC w) ->
  0 < eps < 1 -> eps%:C%C <= `|z| -> tolerance < 1 -> is_mx A (fmx n.+3 n.+3 (cyclic z n.+3)) ->
  exists HM UT (MU : 'M[R[i]]_n.+3), [/\ QRHessenberg (OC := cxops R) (OU := rops R) (@cxnorm R) (@cxabs R) (@cxconj R) (@cxofr R) Num.sqrt eps (wshift csqrt) tolerance itermax A = Ok (HM, UT, true),
    is_mx UT MU, (forall a b : 'I_n.+3, `|MU a b| = `|cyclic z n.+3 a b|) & forall a b : 'I_n.+3, nat_of_ord a = b.+1 -> `|MU a b| = 1].
Proof.
  move=> Hq /andP [e0 e1] Hz Ht HA. set MA := fmx _ _ _ in HA.
  have SD (a b : 'I_n.+3) : nat_of_ord a = b.+1 -> MA a b = 1 by move=> E; rewrite mxE /cyclic E eqxx /= gtn_eqF.
  have HF : hessenberg_form MA.
    move=> a b L. rewrite mxE /cyclic. have La : (b < a)%N by exact: ltnW. rewrite gtn_eqF // gtn_eqF //=.
    by case: (nat_of_ord a) L.
  have [||||||HM [UT [MU [E HU PU]]]] := C108_stalls (cx_complexO R) e0 (shift := wshift csqrt) (tolerance := tolerance) itermax (mu := z) _ HA HF.
  - by [].
  - move=> a b /SD ->. by rewrite normr1 -(rmorph1 (cxemb R)) !ltcR.
  - exact: Ht.
  - rewrite /used_shift ltNge -(emb_le (cx_complexO R)). case: (cx_complexO R) => _ _ _ [_ Ha _ _]. rewrite Ha Hz /=. exact: cyclic_unitary.
  - exact: (wshift_total Hq).
  - move=> X MX HX PX. have I1 : (n.+1 < n.+3)%N by []. have I2 : (n.+2 < n.+3)%N by [].
    apply: (wshift_corner Hq HX).
    + rewrite -[n.+1]/(nat_of_ord (Ordinal I1)) mxfE (phases_diag PX) mxE /cyclic. by rewrite eqxx.
    + rewrite -[n.+2]/(nat_of_ord (Ordinal I2)) mxfE (phases_diag PX) mxE /cyclic. by rewrite eqxx.
    + rewrite -[n.+1]/(nat_of_ord (Ordinal I1)) -[n.+2]/(nat_of_ord (Ordinal I2)) mxfE. apply/eqP. rewrite -normr_eq0 (phases_abs PX) mxE /cyclic /=.
      by rewrite !ltn_eqF //= ?normr0.
  - exists HM, UT, MU. split=> //; first by move=> a b; rewrite (phases_abs PU) mxE.
    move=> a b Eab. by rewrite (phases_abs PU) SD ?normr1.
Qed.
(** Three rows, 2 on the diagonal; epsilon 1/4, tolerance 1/2. *)
Example C108_cyclic_ex itermax : exists HM UT (MU : 'M[R[i]]_3),
  [/\ QRHessenberg (OC := cxops R) (OU := rops R) (@cxnorm R) (@cxabs R) (@cxconj R) (@cxofr R) Num.sqrt (4%:R^-1) (wshift (@rsqrtc R)) (2%:R^-1) itermax (lib3 (cyclic 2%:R 3)) = Ok (HM, UT, true), is_mx UT MU & `|MU 1 0| = 1].
Proof.
  have [|||HM [UT [MU [E HU _ H]]]] := C108_cyclic_refuted (n := 0) (z := 2%:R) (eps := 4%:R^-1) (tolerance := 2%:R^-1) itermax (@rsqrtcE R) _ _ _ (lib3_ok (cyclic 2%:R 3)).
  - by rewrite invr_gt0 ltr0n invf_lt1 ?ltr0n // ltr1n.
  - rewrite normr_nat -(rmorph_nat (cxemb R)) lecR. apply: (@le_trans _ _ 1); last by rewrite ler1n. by rewrite invf_le1 ?ltr0n // ler1n.
  - by rewrite invf_lt1 ?ltr0n // ltr1n.
  - exists HM, UT, MU. split=> //. exact: H.
Qed.
End Cyclic.
Definition C108_cyclic_algebraic := C108_cyclic_ex [rcfType of realalg].
