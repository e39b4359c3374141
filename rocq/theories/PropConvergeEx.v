(** PropConvergeEx.v: C110 with the shifts of the library: two rows, and matrices of two rows for which the iteration never
    converges. *)
From Verif Require Import MathFacts MatFacts Util UtilFacts2 PropUtil PropMath MathM ControlFacts RingM DetFacts PropRing PropReal PropControl PropControl2 QR PropQR Complex Eigen PropEigen.
From mathcomp Require Import all_ssreflect all_algebra realalg complex.
From Verif Require Import EigenMath PropHess PropHess2 PropGivens PropSchur PropSchurRun PropEigenEx PropStall PropConverge.
Set Implicit Arguments.
Unset Strict Implicit.
Unset Printing Implicit Defensive.
Import Order.Theory GRing.Theory Num.Theory.
Local Open Scope ring_scope.

Section Cx.
Variable R : rcfType.
(** QRHessenberg over R[i] with the library's shifts. *)
Notation QRH csqrt eps tolerance itermax := (QRHessenberg (OC := cxops R) (OU := rops R) (@cxnorm R) (@cxabs R) (@cxconj R) (@cxofr R) Num.sqrt eps (wshift csqrt) tolerance itermax).
Variable csqrt : cplx R -> cplx R.
Hypothesis Hq : forall z, toC (csqrt z) ^+ 2 = toC z.

(** The shift of a matrix of two rows is an eigenvalue of it, one nearest to its last element. *)
Lemma wshift2 (X : Mat.Matrix R[i]) (MX : 'M[R[i]]_2) : is_mx X MX ->
  exists mu, [/\ wshift csqrt X = Ok mu, eigenvalue MX mu & forall t, eigenvalue MX t -> `|mu - MX 1 1| <= `|t - MX 1 1|].
Proof.
  move=> HX. have [s [E Es Hm]] := C72_wilkinson_shift (realops_ok (0 : R)) Hq (ofC_mat HX) (leqnn _).
  have EC : corner 0 (fun i j : nat => ofC (mxf MX i j)) = MX.
    apply/matrixP => i j. rewrite mxE !add0n ofCK. exact: mxfE.
  rewrite EC in Es Hm. exists (toC s). rewrite /wshift E. split=> // t /Hm. rewrite ofCK. by rewrite -[mxf MX 1 1]/(mxf MX (1 : 'I_2) (1 : 'I_2)) mxfE.
Qed.

(** Two rows, epsilon at most the tolerance, at least three passes allowed.  If the element below the diagonal is smaller than
    epsilon, nothing changes.  If not, and both eigenvalues have modulus at least epsilon, UT is upper triangular and its last
    element is the eigenvalue that is nearest to the last element of A.  No warning. *)
Theorem C110_order2_wilkinson eps tolerance itermax (A : Mat.Matrix R[i]) (MA : 'M[R[i]]_2) : 0 < eps -> eps <= tolerance < 1 -> (2 < itermax)%N -> is_mx A MA ->
  `|MA 1 0| < eps%:C%C \/ (forall t, eigenvalue MA t -> eps%:C%C <= `|t|) ->
  exists HM UT (MH MU : 'M[R[i]]_2), [/\ QRH csqrt eps tolerance itermax A = Ok (HM, UT, false), is_mx HM MH, is_mx UT MU &
    [/\ unitary MH, MA = MH *m MU *m adj MH & if `|MA 1 0| < eps%:C%C then MH = 1%:M /\ MU = MA else
      [/\ MU 1 0 = 0, eigenvalue MA (MU 1 1) & forall t, eigenvalue MA t -> `|MU 1 1 - MA 1 1| <= `|t - MA 1 1|]]].
Proof.
  move=> e0 Ht Hi HA Hc. have [mu [E1 E2 E3]] := wshift2 HA.
  have [||HM [UT [MH [MU [H1 H2 H3 [H4 H5 H6]]]]]] := C110_order2 (cx_complexO R) e0 HA Hi Ht _ E1 E2.
  - by move=> X MX /wshift2 [nu [E _ _]]; exists nu.
  - case: Hc => [L|L]; [by left|right]. exact: L.
  exists HM, UT, MH, MU. split=> //. split=> //. move: H6. rewrite /cxemb /=. case: ifP => // _ [-> ->]. by split.
Qed.

(** * Two rows: matrices for which it never converges. *)
(** Rows (2 - d, z), (z*, d). *)
Definition sing2 (d : R) (z : R[i]) (i j : nat) : R[i] := match i, j with O, O => (2%:R - d)%:C%C | O, _ => z | _, O => z^* | _, _ => d%:C%C end.
Lemma all2 (P : 'I_2 -> Prop) : P 0 -> P 1 -> forall a, P a.
Proof. move=> H0 H1. case=> [[|[|a]] La] //; [have -> : Ordinal La = 0 by exact: val_inj|have -> : Ordinal La = 1 by exact: val_inj]; by []. Qed.
Lemma conj_real (x : R) : (x%:C%C : R[i])^* = x%:C%C.
Proof. by apply/eqP; rewrite eq_complex /= oppr0 !eqxx. Qed.
Lemma sing2_unitary d z : `|z| ^+ 2 = (d * (2%:R - d))%:C%C -> unitary (fmx 2 2 (sing2 d z) - 1%:M).
Proof.
  move=> Ez. set M := _ - _. pose q : R[i] := 1 - d%:C%C.
  have E00 : M 0 0 = q by rewrite !mxE -[sing2 d z _ _]/((2%:R - d)%:C%C) rmorphB rmorph_nat addrAC -[2%:R]/(1 + 1) addrK.
  have E01 : M 0 1 = z by rewrite !mxE subr0.
  have E10 : M 1 0 = z^* by rewrite !mxE subr0.
  have E11 : M 1 1 = - q by rewrite !mxE opprB.
  have cq : q^* = q by rewrite rmorphB rmorph1 conj_real.
  have S2 : q * q + z * z^* = 1.
    rewrite -normCK Ez -expr2 /q -(rmorph1 (cxemb R)) -rmorphB -rmorphX -rmorphD /=. congr (_%:C%C). rewrite sqrrB expr1n mul1r mulrBr -expr2 mulr_natr.
    by rewrite [d *+ 2 - _]addrC addrA addrK subrK.
  apply/matrixP. apply: all2; apply: all2; rewrite mxE !big_ord_recl big_ord0 addr0; have -> : lift ord0 ord0 = 1 :> 'I_2 by exact: val_inj.
  - by rewrite !adjE E00 E10 conjCK cq [RHS]mxE.
  - by rewrite !adjE E00 E01 E10 E11 conjCK cq [RHS]mxE mulrN [q * z]mulrC subrr.
  - by rewrite !adjE E00 E01 E10 E11 rmorphN cq [RHS]mxE mulNr [q * _]mulrC subrr.
  - by rewrite !adjE E01 E11 rmorphN cq [RHS]mxE mulrNN addrC [z^* * z]mulrC.
Qed.
Lemma phases2 (MA MX : 'M[R[i]]_2) : same_up_to_phases MA MX -> [/\ MX 0 0 = MA 0 0, MX 1 1 = MA 1 1 & MX 0 1 * MX 1 0 = MA 0 1 * MA 1 0].
Proof.
  move=> P. split; [exact: phases_diag P _|exact: phases_diag P _|]. case: P => d [Hd E]. rewrite !E.
  have := mod1 (Hd 0). have := mod1 (Hd 1). move=> H1 H0.
  by rewrite [d 1 * _ * _]mulrAC [d 0 * _ * _]mulrAC mulrACA [d 1 * (d 0)^*]mulrC [X in X * _]mulrACA H0 mul1r [_^* * _]mulrC H1 mul1r.
Qed.
Lemma sing2_eig d z (MX : 'M[R[i]]_2) : `|z| ^+ 2 = (d * (2%:R - d))%:C%C -> same_up_to_phases (fmx 2 2 (sing2 d z)) MX ->
  MX 1 1 = d%:C%C /\ forall t, eigenvalue MX t = (t == 0) || (t == 2%:R).
Proof.
  move=> Ez P. have [E1 E2 E3] := phases2 P. split; first by rewrite E2 mxE. move=> t. rewrite eigen2 E1 E2 E3 !mxE.
  rewrite -[sing2 d z 0 0]/((2%:R - d)%:C%C) -[sing2 d z 1 1]/(d%:C%C) -[sing2 d z 0 1]/z -[sing2 d z 1 0]/(z^*).
  by rewrite -normCK Ez -rmorphM [d * _]mulrC subrr addr0 -rmorphD subrK rmorph_nat -mulrBl mulf_eq0 subr_eq0 orbC.
Qed.
(** Every Hermitian matrix of two rows with the eigenvalues 0 and 2 whose last element d is smaller than 1 (so that the nearest
    eigenvalue to it is 0): the shift is 0, the code uses 1 in its place, and however many passes are allowed the warning is
    printed and the element below the diagonal keeps its modulus. *)
Theorem C110_singular_refuted eps tolerance itermax d z (A : Mat.Matrix R[i]) : 0 < eps -> tolerance < 1 -> 0 < d < 1 -> `|z| ^+ 2 = (d * (2%:R - d))%:C%C ->
  eps%:C%C < `|z| -> tolerance%:C%C < `|z| -> is_mx A (fmx 2 2 (sing2 d z)) ->
  (forall t, eigenvalue (fmx 2 2 (sing2 d z)) t = (t == 0) || (t == 2%:R)) /\
  exists HM UT (MU : 'M[R[i]]_2), [/\ QRH csqrt eps tolerance itermax A = Ok (HM, UT, true), is_mx UT MU & `|MU 1 0| = `|z|].
Proof.
  move=> e0 Ht /andP [d0 d1] Ez Le Lt HA. split; first exact: (proj2 (sing2_eig Ez (phases_refl _))).
  have low (a b : 'I_2) : nat_of_ord a = b.+1 -> `|fmx 2 2 (sing2 d z) a b| = `|z| by case: a b => [[|[|a]] La] // [[|[|b]] Lb] //= _; rewrite mxE -[sing2 _ _ _ _]/(z^*) norm_conjC.
  have [|||||||HM [UT [MU [E HU PU]]]] := C108_stalls (cx_complexO R) e0 (shift := wshift csqrt) (tolerance := tolerance) itermax (mu := 0) _ HA.
  - by [].
  - by case=> [[|[|a]] La] // [[|[|b]] Lb].
  - by move=> a b /low ->.
  - exact: Ht.
  - rewrite /used_shift. have -> : cxabs (0 : R[i]) = 0 by rewrite /cxabs /cxnorm /= expr0n addr0 sqrtr0. rewrite e0. exact: sing2_unitary.
  - by move=> X MX /wshift2 [nu [Es _ _]]; exists nu.
  - move=> X MX HX PX. have [mu [Es Ev Hm]] := wshift2 HX. have [E11 HE] := sing2_eig Ez PX. move: Ev. rewrite HE => /orP [/eqP M0|/eqP M2]; first by rewrite Es M0.
    have := Hm 0. rewrite HE eqxx E11 M2 => /(_ isT). rewrite sub0r normrN -(rmorph_nat (cxemb R)) -rmorphB.
    rewrite !ger0_norm ?lecR; [| |]; rewrite -?(rmorph0 (cxemb R)) ?lecR; [|exact: ltW|].
    + rewrite ler_subl_addr => L. have : 2%:R < 2%:R :> R by apply: (le_lt_trans L); rewrite -[2%:R]/(1 + 1); exact: ltr_add. by rewrite ltxx.
    + by rewrite subr_ge0; apply: (le_trans (ltW d1)); rewrite ler1n.
  - exists HM, UT, MU. split=> //. by rewrite (phases_abs PU) low.
Qed.
(** The tie: both eigenvalues, 0 and 2, are as near to the last element, 1. *)
Lemma toC_inj : injective (@toC R). Proof. move=> [a b] [c d] H. by case: H => -> ->. Qed.
Lemma tie_shift (O : Ops R) (HR : realO O) A f : is_mat A 2 2 f -> toC (f 0 0)%N = 1 -> toC (f 1 1)%N = 1 -> toC (f 0 1)%N * toC (f 1 0)%N = 1 -> csqrt (Cx 4%:R 0) = Cx 2%:R 0 ->
  wilkinson_shift csqrt A = Ok (Cx 0 0).
Proof.
  move=> HA E00 E11 E01 H4. have HF : fieldO O by case: HR. have HO : ringO O by case: HF.
  have [E1 [_ [[S1 _] _]]] := HA. rewrite /wilkinson_shift E1.
  have -> : sub64 2 1 = 1%N by rewrite sub64_small //=; lia. have -> : sub64 1 1 = 0%N by rewrite sub64_small //=; lia.
  rewrite /= !(is_mat_at _ _ _ _ _ _ HA); try lia.
  have N2 : 1 + 1 != 0 :> R by rewrite -(natrD _ 1 1) pnatr_eq0.
  rewrite /= !(o1E HO) !(oaddE HO). case: HF => _ HD _. rewrite HD //=. set h : R := 1 / (1 + 1).
  set a := f 0%N 0%N; set b := f 0%N 1%N; set c := f 1%N 0%N; set d := f 1%N 1%N.
  set w := csqrt _. have Ew : w = Cx 2%:R 0.
    rewrite /w -H4. congr csqrt. apply: toC_inj. rewrite (toC_sub HR) !(toC_mul HR) (toC_mulr HR) (toC_sub HR) !(toC_mul HR) !(toC_add HR) E00 E11 E01.
    rewrite mul1r subrr mul0r subr0 -[1 + 1]/(2%:R : R[i]) -natrM -[RHS]/((4%:R : R)%:C%C). by rewrite rmorph_nat.
  have tw : toC w = 2%:R by rewrite Ew -[LHS]/((2%:R : R)%:C%C) rmorph_nat.
  have H2 : h%:C%C * 2%:R = 1 :> R[i].
    have -> : 2%:R = (1 + 1)%:C%C :> R[i] by rewrite rmorphD rmorph1.
    by rewrite -rmorphM /= /h divfK.
  rewrite (norm_lt HR) !(toC_sub HR) !(toC_mulr HR) (toC_sub HR) !(toC_add HR) E00 E11 tw -[1 + 1]/(2%:R) subrr mul0r sub0r normrN normr1.
  have -> : (2%:R + 2%:R) * h%:C%C - 1 = 1 :> R[i] by rewrite mulrDl ![2%:R * _]mulrC !H2 addrK.
  rewrite normr1 ltxx. congr Ok. apply: toC_inj. by rewrite (toC_mulr HR) (toC_sub HR) !(toC_add HR) E00 E11 tw subrr mul0r.
Qed.
(** The matrix of two rows whose elements are all 1, with std::sqrt(4) = 2: the same. *)
Theorem C110_ones_refuted eps tolerance itermax (A : Mat.Matrix R[i]) : csqrt (Cx 4%:R 0) = Cx 2%:R 0 -> 0 < eps < 1 -> tolerance < 1 -> is_mx A (const_mx 1 : 'M[R[i]]_2) ->
  exists HM UT (MU : 'M[R[i]]_2), [/\ QRH csqrt eps tolerance itermax A = Ok (HM, UT, true), is_mx UT MU & `|MU 1 0| = 1].
Proof.
  move=> H4 /andP [e0 e1] Ht HA.
  have EA : const_mx 1 = fmx 2 2 (sing2 1 1) by apply/matrixP; apply: all2; apply: all2; rewrite !mxE // -?[sing2 1 1 0 0]/((2%:R - 1)%:C%C) ?addrK ?rmorph1 // -[sing2 1 1 1 0]/(1^*) rmorph1.
  have Ez : `|1 : R[i]| ^+ 2 = (1 * (2%:R - 1))%:C%C by rewrite normr1 expr1n mul1r addrK.
  have [|||||||HM [UT [MU [E HU PU]]]] := C108_stalls (cx_complexO R) e0 (shift := wshift csqrt) (tolerance := tolerance) itermax (mu := 0) _ HA.
  - by [].
  - by case=> [[|[|a]] La] // [[|[|b]] Lb].
  - move=> a b _. by rewrite mxE normr1 -(rmorph1 (cxemb R)) !ltcR.
  - exact: Ht.
  - rewrite /used_shift. have -> : cxabs (0 : R[i]) = 0 by rewrite /cxabs /cxnorm /= expr0n addr0 sqrtr0. rewrite e0 EA. exact: sing2_unitary.
  - by move=> X MX /wshift2 [nu [Es _ _]]; exists nu.
  - move=> X MX HX PX. have [e00 e11 e01] := phases2 PX. rewrite !mxE mulr1 in e00 e11 e01.
    rewrite /wshift (tie_shift (realops_ok (0 : R)) (ofC_mat HX)) //; rewrite ?ofCK //.
    + by rewrite -[mxf MX 0 0]/(mxf MX (0 : 'I_2) (0 : 'I_2)) mxfE.
    + by rewrite -[mxf MX 1 1]/(mxf MX (1 : 'I_2) (1 : 'I_2)) mxfE.
    + by rewrite -[mxf MX 0 1]/(mxf MX (0 : 'I_2) (1 : 'I_2)) -[mxf MX 1 0]/(mxf MX (1 : 'I_2) (0 : 'I_2)) !mxfE.
  - exists HM, UT, MU. split=> //. by rewrite (phases_abs PU) mxE normr1.
Qed.
End Cx.
Section RingId.
Variable K : comRingType.
Add Ring RK : (R_ring K).
Ltac rring := rewrite ?raddE ?rmulE ?roppE ?rzeroE ?roneE; match goal with |- @eq _ ?a ?b => change (@eq (rT K) a b) end; ring.
Lemma exS_id (t : K) : t * t - (1 + 1 + (1 + 1)) * t + ((1 + 1) * (1 + 1) - 1 * 1) = (t - 1) * (t - (1 + (1 + 1))).
Proof. rring. Qed.
End RingId.
Section Examples.
Variable R : rcfType.
Notation QRH csqrt eps tolerance itermax := (QRHessenberg (OC := cxops R) (OU := rops R) (@cxnorm R) (@cxabs R) (@cxconj R) (@cxofr R) Num.sqrt eps (wshift csqrt) tolerance itermax).
Lemma quarter (q := 4%:R^-1 : R) (h := 2%:R^-1 : R) : 0 < q /\ q <= h < 1.
Proof. by rewrite /q /h invr_gt0 ltr0n lef_pinv ?posrE ?ltr0n // ler_nat invf_lt1 ?ltr0n // ltr1n. Qed.
(** Rows (2, 1), (1, 2), at most 10000 passes; epsilon 1/4, tolerance 1/2. *)
Definition exS (i j : nat) : R[i] := if i == j then 2%:R else 1.
Example C110_order2_ex : exists HM UT (MH MU : 'M[R[i]]_2), [/\ QRH (@rsqrtc R) (4%:R^-1) (2%:R^-1) (100 * 100) (lib2 exS) = Ok (HM, UT, false), is_mx HM MH, is_mx UT MU &
  [/\ unitary MH, fmx 2 2 exS = MH *m MU *m adj MH, MU 1 0 = 0 & MU 1 1 = 1 \/ MU 1 1 = 3%:R]].
Proof.
  have [q0 q1] := quarter. have L4 : 4%:R^-1 <= 1 :> R by rewrite invf_le1 ?ltr0n // ler1n.
  have HE t : eigenvalue (fmx 2 2 exS) t -> t = 1 \/ t = 3%:R.
    rewrite eigen2 !mxE -[exS 0 0]/(1 + 1) -[exS 1 1]/(1 + 1) -[exS 0 1]/1 -[exS 1 0]/1 exS_id.
    rewrite mulf_eq0 !subr_eq0 => /orP [/eqP ->|/eqP ->]; [by left|by right].
  have [||HM [UT [MH [MU [H1 H2 H3 [H4 H5 H6]]]]]] := C110_order2_wilkinson (@rsqrtcE R) q0 q1 (itermax := 100 * 100) _ (lib2_ok exS).
  - by [].
  - right=> t /HE [->|->]; rewrite ?normr1 ?normr_nat -?(rmorph1 (cxemb R)) -?(rmorph_nat (cxemb R)) lecR // ; apply: (le_trans L4); by rewrite ler1n.
  exists HM, UT, MH, MU. split=> //. move: H6. have -> : (`|fmx 2 2 exS 1 0| < (4%:R^-1 : R)%:C%C) = false.
    rewrite mxE -[exS 1 0]/1 normr1 -(rmorph1 (cxemb R)) ltcR. by rewrite ltNge L4.
  move=> [H7 /HE H8 _]. by split.
Qed.
(** Rows (1, 1), (0, 2): one pass. *)
Example C110_triangular_ex : exists HM UT, [/\ QRH (@rsqrtc R) (4%:R^-1) 0 2 (lib2 (exT 2%:R)) = Ok (HM, UT, false), is_mx HM (1%:M : 'M[R[i]]_2) & is_mx UT (fmx 2 2 (exT (2%:R : R)))].
Proof.
  have [q0 _] := quarter. apply: (C110_triangular (cx_complexO R) q0 _ (lib2_ok (exT 2%:R))) => //; first exact: exT_up.
  - by rewrite lexx ltr01.
  - exact: (wshift_total (@rsqrtcE R)).
Qed.
(** Rows (8/5, 4/5), (4/5, 2/5). *)
Example C110_singular_ex itermax : exists HM UT (MU : 'M[R[i]]_2),
  [/\ QRH (@rsqrtc R) (4%:R^-1) (2%:R^-1) itermax (lib2 (sing2 (2%:R / 5%:R) (4%:R / 5%:R : R)%:C%C)) = Ok (HM, UT, true), is_mx UT MU & `|MU 1 0| = (4%:R / 5%:R : R)%:C%C].
Proof.
  have [q0 /andP [q1 q2]] := quarter. have P5 : 0 < 5%:R :> R by rewrite ltr0n. have N5 : 5%:R != 0 :> R by rewrite gt_eqF.
  have z0 : 0 <= 4%:R / 5%:R :> R by rewrite divr_ge0 // ler0n.
  have nz : `|(4%:R / 5%:R : R)%:C%C : R[i]| = (4%:R / 5%:R)%:C%C by rewrite ger0_norm // -(rmorph0 (cxemb R)) lecR.
  have L : 2%:R^-1 < 4%:R / 5%:R :> R by rewrite ltr_pdivl_mulr // mulrC ltr_pdivr_mulr ?ltr0n // -natrM ltr_nat.
  have [||||_ [HM [UT [MU [E HU H]]]]] := C110_singular_refuted (@rsqrtcE R) itermax q0 q2 (d := 2%:R / 5%:R) (z := (4%:R / 5%:R)%:C%C) _ _ _ _ (lib2_ok _).
  - by rewrite divr_gt0 ?ltr0n // ltr_pdivr_mulr // mul1r ltr_nat.
  - rewrite nz -rmorphX. congr (_%:C%C). have -> : 2%:R - 2%:R / 5%:R = 8%:R / 5%:R :> R.
      apply: (mulIf N5). by rewrite mulrBl !divfK // -natrM -natrB.
    by rewrite expr2 !mulf_div -!natrM.
  - rewrite nz ltcR. exact: le_lt_trans L.
  - by rewrite nz ltcR.
  - by exists HM, UT, MU; rewrite H nz.
Qed.
Lemma rsqrtc4 : rsqrtc (Cx (4%:R : R) 0) = Cx 2%:R 0.
Proof.
  have S4 : Num.sqrt (4%:R : R) = 2%:R by rewrite -(_ : 2%:R ^+ 2 = 4%:R) ?sqrtr_sqr ?normr_nat // -natrX.
  rewrite /rsqrtc /toC /toCk /sqrtc /= eqxx mul1r expr0n addr0 sqrtr_sqr normr_nat subrr mul0r sqrtr0.
  by rewrite -natrD -[(4 + 4)%N]/(4 * 2)%N natrM mulfK ?pnatr_eq0 // S4.
Qed.
Example C110_ones_ex itermax : exists HM UT (MU : 'M[R[i]]_2), [/\ QRH (@rsqrtc R) (4%:R^-1) (2%:R^-1) itermax (lib2 (fun _ _ => 1)) = Ok (HM, UT, true), is_mx UT MU & `|MU 1 0| = 1].
Proof.
  have [q0 /andP [q1 q2]] := quarter. apply: (C110_ones_refuted (@rsqrtcE R) itermax rsqrtc4) => //; first by rewrite q0 (le_lt_trans q1).
  have -> : const_mx 1 = fmx 2 2 (fun _ _ => 1 : R[i]) by apply/matrixP => a b; rewrite !mxE. exact: lib2_ok.
Qed.
End Examples.
Definition C110_order2_algebraic := C110_order2_ex [rcfType of realalg].
Definition C110_singular_algebraic := C110_singular_ex [rcfType of realalg].
Definition C110_ones_algebraic := C110_ones_ex [rcfType of realalg].
