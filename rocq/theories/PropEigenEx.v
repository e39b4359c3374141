(** PropEigenEx.v: C98 with the shifts that the library uses, and concrete cases for C97
    and C98: complex numbers over any real closed field, and over the real algebraic
    numbers in particular. *)
From Verif Require Import LinalgFacts2 MathFacts MatFacts Util PropUtil PropMath MathM ControlFacts RingM DetFacts PropRing PropReal PropField PropControl PropControl2 QR PropQR Complex Eigen PropEigen.
From mathcomp Require Import all_ssreflect all_algebra realalg complex.
From Verif Require Import EigenMath PropHess PropHess2 PropHess3 PropGivens PropSchur PropSchurRun PropTriEig.
Set Implicit Arguments.
Unset Strict Implicit.
Unset Printing Implicit Defensive.
Import Order.Theory GRing.Theory Num.Theory.
Local Open Scope ring_scope.

Section Cx.
Variable R : rcfType.
(** Exact arithmetic on complex numbers over R, and the functions of <complex>. *)
Definition cxops : Ops R[i] := {|
  o0 := 0; o1 := 1; oadd := +%R; osub := fun a b => a - b; omul := *%R; oopp := -%R;
  odiv := fun a b => if b == 0 then UB else Ok (a / b);
  oeq := fun a b => a == b; olt := fun a b => a < b; ole := fun a b => a <= b;
  ofeq := fun a b => a == b; oisz := fun a => a == 0; oabs := fun a => `|a|; ofnat := fun n => n%:R |}.
Definition rops : Ops R := realops 0.
Definition cxnorm (z : R[i]) : R := complex.Re z ^+ 2 + complex.Im z ^+ 2.
Definition cxabs (z : R[i]) : R := Num.sqrt (cxnorm z).
Definition cxconj (z : R[i]) : R[i] := let: Complex a b := z in Complex a (- b).
Definition cxemb : {rmorphism R -> R[i]} := [rmorphism of real_complex R].
Definition cxofr (x : R) : R[i] := Complex x 0.
Lemma cx_complexO : complexO cxemb cxops rops cxnorm cxabs cxconj cxofr.
Proof.
  split.
  - split; [by []|move=> x y N; by rewrite /odiv /= (negbTE N)|by []].
  - exact: realops_ok.
  - move=> x y. exact: lecR.
  - split=> //; first by move=> z; rewrite -add_Re2_Im2.
    by move=> [a b]; rewrite normc_def.
Qed.

(** [wilkinson_shift] of Complex.v, on matrices of R[i]. *)
Definition ofC (z : R[i]) : cplx R := Cx (complex.Re z) (complex.Im z).
Definition wshift (csqrt : cplx R -> cplx R) (X : Mat.Matrix R[i]) : Res R[i] :=
  let* s := wilkinson_shift (O := rops) csqrt (mkM (rows X) (cols X) (map ofC (data X))) in Ok (toC s).
Lemma ofC_mat (X : Mat.Matrix R[i]) r c f : is_mat X r c f -> is_mat (mkM (rows X) (cols X) (map ofC (data X))) r c (fun i j => ofC (f i j)).
Proof.
  move=> [E1 [E2 [E3 [E4 E5]]]]. split; first exact: E1. split; first exact: E2. split; first exact: E3.
  split; first by rewrite /= List.map_length.
  move=> i j Hi Hj. rewrite /= List.nth_error_map. by have /= -> := E5 i j Hi Hj.
Qed.
Lemma wshift_total csqrt (Hq : forall z, toC (csqrt z) ^+ 2 = toC z) n : (0 < n)%N -> forall (X : Mat.Matrix R[i]) (MX : 'M[R[i]]_n), is_mx X MX -> exists mu, wshift csqrt X = Ok mu.
Proof.
  case: n => [//|[|n]] _ X MX /ofC_mat HX; rewrite /wshift.
  - rewrite (C72_single (realops_ok (0 : R)) csqrt HX). by eexists.
  - have [s [-> _ _]] := C72_wilkinson_shift (realops_ok (0 : R)) Hq HX (leqnn _). by eexists.
Qed.
(** C98_schur with the shifts of the library: the shift never fails. *)
Theorem C98_schur_wilkinson (csqrt : cplx R -> cplx R) n (MA : 'M[R[i]]_n) : (forall z, toC (csqrt z) ^+ 2 = toC z) -> (0 < n)%N -> shape_ok n n ->
  exists e0 : R, 0 < e0 /\ forall eps tolerance itermax (A : Mat.Matrix R[i]), 0 < eps -> eps <= e0 -> tolerance < 1 -> is_mx A MA ->
    exists HM UT warned (MH MU : 'M[R[i]]_n), [/\ QRHessenberg (OC := cxops) (OU := rops) cxnorm cxabs cxconj cxofr Num.sqrt eps (wshift csqrt) tolerance itermax A = Ok (HM, UT, warned),
      is_mx HM MH, is_mx UT MU &
      [/\ unitary MH, MA = MH *m MU *m adj MH, char_poly MA = char_poly MU &
        (warned = false -> forall a b : 'I_n, (b < a)%N -> `|MU a b| <= tolerance%:C%C)]].
Proof.
  move=> Hq Hn Hs. have [e0 [P0 He]] := C98_schur cx_complexO MA Hn Hs. exists e0. split=> // eps tolerance itermax A E0 Le Ht HA.
  have [HM [UT [w [MH [MU [E H1 H2 [H3 H4 H5 H6 _]]]]]]] := He eps (wshift csqrt) tolerance itermax A E0 Le Ht (wshift_total Hq Hn) HA.
  by exists HM, UT, w, MH, MU.
Qed.

Lemma shape2 : shape_ok 2 2. Proof. by repeat split; vm_compute. Qed.
Lemma shape3 : shape_ok 3 3. Proof. by repeat split; vm_compute. Qed.
Definition lib2 (f : nat -> nat -> R[i]) : Mat.Matrix R[i] := mkM 2 2 [:: f 0 0; f 0 1; f 1 0; f 1 1]%N.
Definition lib3 (f : nat -> nat -> R[i]) : Mat.Matrix R[i] := mkM 3 3 [:: f 0 0; f 0 1; f 0 2; f 1 0; f 1 1; f 1 2; f 2 0; f 2 1; f 2 2]%N.
Lemma lib2_ok f : is_mx (lib2 f) (fmx 2 2 f).
Proof.
  apply: is_mx_mat. split; first by []. split; first by []. split; first exact: shape2. split; first by [].
  move=> i j Hi Hj. case: i Hi => [|[|i]] Hi; [| |lia]; (case: j Hj => [|[|j]] Hj; [by []|by []|lia]).
Qed.
Lemma lib3_ok f : is_mx (lib3 f) (fmx 3 3 f).
Proof.
  apply: is_mx_mat. split; first by []. split; first by []. split; first exact: shape3. split; first by [].
  move=> i j Hi Hj. case: i Hi => [|[|[|i]]] Hi; [| | |lia]; (case: j Hj => [|[|[|j]]] Hj; [by []|by []|by []|lia]).
Qed.
(** A(i,j) = (i + 2j) + (i j) i, three rows: not Hessenberg itself. *)
Definition exA (i j : nat) : R[i] := Complex (i + 2 * j)%:R (i * j)%:R.
Example C97_hessenberg_ex : exists eps P H (MP MH : 'M[R[i]]_3),
  [/\ fmx 3 3 exA 2%:R 0 != 0, 0 < eps, hessenberg (OC := cxops) (OU := rops) cxnorm cxabs cxconj cxofr Num.sqrt eps (lib3 exA) = Ok (P, H), is_mx P MP & is_mx H MH /\
    [/\ unitary MP, fmx 3 3 exA = MP *m MH *m adj MP & MH 2%:R 0 = 0]].
Proof.
  have [e0 [MP [MH [E0 U1 EA HH G]]]] := C97_hessenberg cx_complexO (fmx 3 3 exA) (ltn0Sn 2) shape3.
  have [P [H [E HP HHm]]] := G e0 (lib3 exA) E0 (lexx e0) (lib3_ok exA). exists e0, P, H, MP, MH. split=> //; last by split=> //; split=> //; exact: HH.
  by rewrite mxE eq_complex /= negb_and pnatr_eq0.
Qed.
(** epsilon = 1: the column (0, 0, 1/2) is short. *)
Example C97_short_ex : exists P H (MP : 'M[R[i]]_3),
  [/\ hessenberg (OC := cxops) (OU := rops) cxnorm cxabs cxconj cxofr Num.sqrt 1 (lib3 (fun i j => if (i == 2)%N && (j == 0)%N then (2%:R^-1 : R)%:C%C else 0)) = Ok (P, H), is_mx P MP & \det MP = 0].
Proof.
  set f := fun i j : nat => _. have E : fmx 3 3 f = cxemb (1 / 2%:R) *: delta_mx 2%:R 0.
    apply/matrixP => a b. rewrite [LHS]mxE [RHS]mxE [delta_mx _ _ a b]mxE /f div1r. have -> : (a == 2%:R) = (a == 2%N :> nat) by []. have -> : (b == 0) = (b == 0%N :> nat) by [].
    by case: ifP; rewrite ?mulr1 ?mulr0.
  have [P [H [MP [MH [E1 H1 _ [D _ _]]]]]] := C97_short_column_refuted cx_complexO ltr01 E (lib3_ok f).
  exists P, H, MP. by split.
Qed.
(** The rotations for the matrix of rows (3, i), (4, 1): |R(0,0)|^2 + |R(1,0)|^2 is 25. *)
Definition exG (i j : nat) : R[i] := match i, j with O, O => 3%:R | O, _ => Complex 0 1 | _, O => 4%:R | _, _ => 1 end.
Example C97_givens_ex : exists Q Rm (MQ MR : 'M[R[i]]_2),
  [/\ qr_factorise_givens (OC := cxops) (OU := rops) cxnorm cxabs cxconj cxofr Num.sqrt 1 (lib2 exG) = Ok (Q, Rm), is_mx Q MQ, is_mx Rm MR, `|MR 1 0| < 1 & `|MR 0 0| ^+ 2 + `|MR 1 0| ^+ 2 = 25%:R].
Proof.
  have [Q [Rm [MQ [MR [E HQ HR [U1 QR S]]]]]] := C97_givens cx_complexO ltr01 (ltn0Sn 1) (lib2_ok exG). exists Q, Rm, MQ, MR. split=> //.
  - rewrite -(rmorph1 cxemb). apply: S => //. by case=> [[|[|a]] La] // [[|[|b]] Lb].
  - have : adj (MQ *m MR) *m (MQ *m MR) = adj MR *m MR by rewrite adj_mul -mulmxA [adj MQ *m _]mulmxA U1 mul1mx.
    have e3 : fmx 2 2 exG 0 0 = 3%:R by rewrite mxE. have e4 : fmx 2 2 exG 1 0 = 4%:R by rewrite mxE.
    move/matrixP/(_ 0 0). rewrite QR mxE [RHS]mxE !big_ord_recl !big_ord0 !addr0. have -> : lift ord0 ord0 = 1 :> 'I_2 by exact: val_inj.
    rewrite !adjE -!normCKC e3 e4 !normr_nat => <-. by rewrite -!natrX -natrD.
Qed.
(** A Schur form of exA, with the library's shifts and at most 10000 passes. *)
Example C98_schur_ex : exists eps HM UT warned (MH MU : 'M[R[i]]_3),
  [/\ 0 < eps, QRHessenberg (OC := cxops) (OU := rops) cxnorm cxabs cxconj cxofr Num.sqrt eps (wshift (@rsqrtc R)) (2%:R^-1) (100 * 100) (lib3 exA) = Ok (HM, UT, warned), is_mx HM MH, is_mx UT MU &
    unitary MH /\ char_poly (fmx 3 3 exA) = char_poly MU].
Proof.
  have [e0 [E0 G]] := C98_schur_wilkinson (fmx 3 3 exA) (@rsqrtcE R) (ltn0Sn 2) shape3.
  have L : 2%:R^-1 < 1 :> R by rewrite invf_lt1 ?ltr0n // ltr1n.
  have [HM [UT [w [MH [MU [E H1 H2 [H3 H4 H5 _]]]]]]] := G e0 _ (100 * 100)%N (lib3 exA) E0 (lexx e0) L (lib3_ok exA).
  exists e0, HM, UT, w, MH, MU. split=> //.
Qed.
(** The single element 3 + 4i: one pass and no warning. *)
Example C98_order1_ex : exists HM UT, QRHessenberg (OC := cxops) (OU := rops) cxnorm cxabs cxconj cxofr Num.sqrt 1 (wshift (@rsqrtc R)) 0 (100 * 100) (mkM 1 1 [:: Complex 3%:R 4%:R]) = Ok (HM, UT, false) /\
  is_mx UT ((Complex 3%:R 4%:R)%:M : 'M[R[i]]_1).
Proof.
  apply: (C98_order1 cx_complexO ltr01 (MA := (Complex 3%:R 4%:R)%:M : 'M[R[i]]_1)) => //; last 2 first.
  - by rewrite lexx ltr01.
  - move=> X MX HX. exact: (wshift_total (@rsqrtcE R) (ltn0Sn 0) HX).
  have E : (Complex 3%:R 4%:R)%:M = fmx 1 1 (fun _ _ => Complex 3%:R 4%:R : R[i]) by apply/matrixP => a b; rewrite !mxE !ord1.
  rewrite E. apply: is_mx_mat. split; first by []. split; first by []. split; first by repeat split; vm_compute. split; first by [].
  move=> i j Hi Hj. have -> : i = 0%N by lia. by have -> : j = 0%N by lia.
Qed.
(** Rows (1, 1), (0, 2): two eigenvectors.  Rows (1, 1), (0, 1): the second column is zero. *)
Definition exT (d : R) (i j : nat) : R[i] := match i, j with O, _ => 1 | _, O => 0 | _, _ => d%:C%C end.
Lemma exT_up d (a b : 'I_2) : (b < a)%N -> fmx 2 2 (exT d) a b = 0.
Proof. rewrite mxE. by case: a b => [[|[|a]] La] // [[|[|b]] Lb]. Qed.
Example C98_eigenbasis_ex : exists E (ME : 'M[R[i]]_2),
  [/\ eigenvectorUpper (OC := cxops) (OU := rops) cxnorm cxabs cxofr Num.sqrt 1 (lib2 (exT 2%:R)) = Ok (E, true), is_mx E ME & ME \in unitmx].
Proof.
  have [||E [ME [E1 H1 _ H2 _]]] := C98_eigenbasis cx_complexO ltr01 (lib2_ok (exT 2%:R)).
  - exact: exT_up.
  - move=> a b N. rewrite !mxE rmorph1. have E : (2%:R : R)%:C%C - 1 = 1 :> R[i] by rewrite rmorphD rmorph1 addrK.
    move: N. case: a b => [[|[|a]] La] // [[|[|b]] Lb] //= _; last by rewrite E normr1. by rewrite distrC E normr1.
  - by exists E, ME.
Qed.
Example C98_eigenvectors_ex : exists E (ME : 'M[R[i]]_2),
  [/\ eigenvectorUpper (OC := cxops) (OU := rops) cxnorm cxabs cxofr Num.sqrt 2%:R^-1 (lib2 (exT 1)) = Ok (E, false), is_mx E ME & col 1 ME = 0].
Proof.
  have L0 : 0 < 2%:R^-1 :> R by rewrite invr_gt0 ltr0n.
  have [E [fs [ME [E1 H1 H2 H3]]]] := C98_eigenvectors cx_complexO L0 (lib2_ok (exT 1)) (exT_up 1).
  have D1 i : fmx 2 2 (exT 1) i i = 1 by rewrite mxE; case: i => [[|[|i]] Li].
  have Z : col 1 ME = 0.
    case: (H2 1) => [|[] //]. move=> D. exfalso. apply: C98_deficient D; [exact: (exT_up 1)|by rewrite ltcR|].
    exists (delta_mx 1 0). split; [by rewrite mxE|by case=> [[|[|i]] Li]|by case=> [[|[|i]] Li] //; rewrite !mxE|split].
    + move=> i. by rewrite !D1 subrr normr0 -(rmorph0 cxemb) lecR leNgt L0.
    + exists 0. split=> //; first by rewrite !D1 subrr normr0 -(rmorph0 cxemb) ltcR.
      rewrite mxE [X in _ + X]mxE mxE !big_ord_recl big_ord0 !mxE /= !mulr0 add0r addr0 mul1r subr0 normr1 -(rmorph1 cxemb) ltcR invf_lt1 ?ltr0n // ltr1n //.
  have F : fs = false by apply/H3; exists 1. rewrite F in E1. by exists E, ME.
Qed.
End Cx.

(** Over the real algebraic numbers. *)
Definition C97_hessenberg_algebraic := C97_hessenberg_ex [rcfType of realalg].
Definition C97_short_algebraic := C97_short_ex [rcfType of realalg].
Definition C97_givens_algebraic := C97_givens_ex [rcfType of realalg].
Definition C98_schur_algebraic := C98_schur_ex [rcfType of realalg].
Definition C98_eigenbasis_algebraic := C98_eigenbasis_ex [rcfType of realalg].
Definition C98_eigenvectors_algebraic := C98_eigenvectors_ex [rcfType of realalg].
