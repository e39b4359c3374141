(** PropSchurRun.v: the passes eigen::QRHessenberg makes and when it stops (C98), with the repairs of Eigen.v. *)
From Verif Require Import MathFacts MatFacts Util UtilFacts2 PropUtil PropMath MathM ControlFacts RingM DetFacts PropRing PropReal PropControl PropControl2 QR PropQR Eigen.
From mathcomp Require Import all_ssreflect all_algebra.
From Verif Require Import EigenMath PropHess PropHess2 PropGivens PropSchur.
Set Implicit Arguments.
Unset Strict Implicit.
Unset Printing Implicit Defensive.
Import Order.Theory GRing.Theory Num.Theory.
Local Open Scope ring_scope.

(** * Specification *)
Section Spec.
Variables (K : numClosedFieldType) (U : rcfType) (cnorm cabs : K -> U).
(** The root of the sum of the squared moduli. *)
Definition frobenius n (M : 'M[K]_n) : U := Num.sqrt (\sum_(i < n) \sum_(j < n) cnorm (M i j)).
(** How much a pass from [T] to [T'] changed, and how much of T' is left below the diagonal. *)
Definition residual n (T T' : 'M[K]_n) : U := frobenius (T' - T) + subn cnorm T'.
Definition hessenberg_form n (T : 'M[K]_n) : Prop := forall a b : 'I_n, (b.+1 < a)%N -> T a b = 0.
(** One pass with the shift [mu]: T - mu I = Q R with Q unitary, and T' = R Q + mu I.  If T is Hessenberg, the elements of
    R below the diagonal are smaller than epsilon, and zero if none just below the diagonal of T is.  If all of those are,
    Q is the identity. *)
Definition qr_pass n (e : K) (mu : K) (T T' Q : 'M[K]_n) : Prop := exists R, [/\ unitary Q, T - mu%:M = Q *m R, T' = R *m Q + mu%:M,
  hessenberg_form T -> (forall a b : 'I_n, (b < a)%N -> `|R a b| < e) /\
    ((forall a b : 'I_n, nat_of_ord a = b.+1 -> e <= `|T a b|) -> forall a b : 'I_n, (b < a)%N -> R a b = 0)
  & (forall a b : 'I_n, nat_of_ord a = b.+1 -> `|T a b| < e) -> Q = 1%:M].
(** The shift the code uses where the Wilkinson shift is [mu]. *)
Definition used_shift (eps : U) (mu : K) : K := if cabs mu < eps then 1 else mu.
(** The residual after the pass number [j] of a run; before the first pass it is [r0]. *)
Definition residual_at n (r0 : U) (T : nat -> 'M[K]_n) (j : nat) : U := if j is j'.+1 then residual (T j') (T j) else r0.
End Spec.

Section Run.
Variables (K : numClosedFieldType) (U : rcfType) (emb : {rmorphism U -> K}) (OC : Ops K) (OU : Ops U).
Variables (cnorm cabs : K -> U) (conj : K -> K) (ofr : U -> K).
Hypothesis HC : complexO emb OC OU cnorm cabs conj ofr.

Let HF : fieldO OC. Proof. by case: HC. Qed.
Let HO : ringO OC. Proof. by case: HF. Qed.
Let HU : realO OU. Proof. by case: HC. Qed.
Let HV : ringO OU. Proof. by case: HU => -[]. Qed.
Let Hlt (x y : U) : olt x y = (x < y). Proof. by case: HU. Qed.

Variables (eps : U) (shift : Mat.Matrix K -> Res K) (tolerance : U).
Hypothesis eps_gt0 : 0 < eps.

Lemma pass_ok (Id HM UT : Mat.Matrix K) n (MH MU : 'M[K]_n) mu0 : (0 < n)%N -> is_mx Id (1%:M : 'M[K]_n) -> is_mx HM MH -> is_mx UT MU -> shift UT = Ok mu0 ->
  exists HM' UT' (MQ MU' : 'M[K]_n), [/\ schur_step cnorm cabs conj ofr Num.sqrt eps shift Id HM UT = Ok (HM', UT', residual cnorm MU MU'),
    is_mx HM' (MH *m MQ), is_mx UT' MU' & qr_pass (emb eps) (used_shift cabs eps mu0) MU MU' MQ].
Proof.
  move=> Hn HI HH HT Es. have Hs := shape_mx (is_mx_reads HH).
  rewrite /schur_step (mat_copy_ok _ _ _ _ HT) bindOk Es bindOk Hlt (o1E HO) -/(used_shift cabs eps mu0). set mu := used_shift _ _ _.
  have [X1 [-> HX1 _]] := lincomb_mx HC 1 (oopp mu) (is_mx_reads HT) (is_mx_reads HI). rewrite bindOk.
  rewrite (ooppE HO) scale1r scalemx1 in HX1. have HT1 := mv_assign HT HX1. set UT1 := fst _ in HT1 *.
  have [Q [R [MQ [MR [EG HQ HR [UQ EQ SQ]]]]]] := C97_givens HC eps_gt0 Hn HT1. rewrite EG bindOk.
  have [X2 [-> HX2 _]] := m_mul_mxL HO (is_mx_reads HR) (is_mx_reads HQ) Hs. rewrite bindOk.
  have HT2 := mv_assign HT1 HX2. set UT2 := fst _ in HT2 *.
  have [X3 [-> HX3 _]] := m_mul_mxL HO (is_mx_reads HH) (is_mx_reads HQ) Hs. rewrite bindOk.
  have HH1 := mv_assign HH HX3.
  have [X4 [-> HX4 _]] := lincomb_mx HC 1 mu (is_mx_reads HT2) (is_mx_reads HI). rewrite bindOk.
  have HT3 := mv_assign HT2 HX4. set UT3 := fst _ in HT3 *. rewrite scale1r scalemx1 in HT3.
  have [D [-> _ RD]] := lincomb_mx HC 1 (oopp 1) (is_mx_reads HT3) (is_mx_reads HT). rewrite bindOk.
  rewrite (C40_square_norm_matrix HU cnorm Num.sqrt (proj1 RD)) bindOk (sub_norm_mx HC Hn HT3) bindOk.
  eexists _, _, MQ, (MR *m MQ + mu%:M). split; [|exact: HH1|exact: HT3|].
  - congr (Ok (_, _, _)). rewrite (oaddE HV) /residual. congr (_ + _). rewrite /frobenius. congr (Num.sqrt _).
    apply: eq_bigr => i _. apply: eq_bigr => j _. by rewrite mxfE (ooppE HO) scale1r scaleN1r.
  - have SB (a b : 'I_n) : (b < a)%N -> (MU + (- mu)%:M) a b = MU a b by move=> L; rewrite !mxE -val_eqE /= gtn_eqF // addr0.
    exists MR. split=> //; first by rewrite EQ raddfN.
    2:{ move=> HB. have [|Q2 [EG2 HQ2]] := C97_givens_skip HC (eps := eps) Hn HT1; first by move=> a b Ea; rewrite SB ?Ea //; exact: HB.
      move: EG2. rewrite EG => -[EQ2 _]. rewrite -EQ2 in HQ2. exact: (is_mx_fun HQ HQ2). }
    move=> HH0. have HH2 : forall a b : 'I_n, (b.+1 < a)%N -> (MU + (- mu)%:M) a b = 0 by move=> a b L; rewrite SB ?HH0 //; exact: ltnW.
    split; first exact: SQ. move=> HB. have [|Q2 [R2 [MQ2 [MR2 [EG2 _ HR2 [_ _ Z]]]]]] := C97_givens_triangular HC eps_gt0 Hn HT1 HH2.
      by move=> a b Ea; rewrite SB ?Ea //; exact: HB.
    move: EG2. rewrite EG => -[_ ER]. rewrite -ER in HR2. by rewrite (is_mx_fun HR HR2).
Qed.

Lemma run_ok todo (Id HM UT : Mat.Matrix K) n (MH MU : 'M[K]_n) r : (0 < n)%N -> is_mx Id (1%:M : 'M[K]_n) -> is_mx HM MH -> is_mx UT MU ->
  (forall (X : Mat.Matrix K) (MX : 'M[K]_n), is_mx X MX -> exists mu, shift X = Ok mu) ->
  exists HM' UT' k (P T : nat -> 'M[K]_n), [/\ schur_loop cnorm cabs conj ofr Num.sqrt eps shift tolerance todo Id HM UT r = Ok (HM', UT', residual_at cnorm r T k),
    is_mx HM' (P k), is_mx UT' (T k), P 0%N = MH /\ T 0%N = MU &
    [/\ forall j, (j < k)%N -> exists X mu Q, [/\ is_mx X (T j), shift X = Ok mu, qr_pass (emb eps) (used_shift cabs eps mu) (T j) (T j.+1) Q & P j.+1 = P j *m Q],
      forall j, (j < k)%N -> tolerance < residual_at cnorm r T j, (k <= todo)%N & (k < todo)%N -> residual_at cnorm r T k <= tolerance]].
Proof.
  move=> Hn HI HH HT HS. elim: todo HM UT MH MU r HH HT => [|todo IH] HM UT MH MU r HH HT /=.
    by exists HM, UT, 0%N, (fun=> MH), (fun=> MU).
  rewrite Hlt. case: ltP => L; last first.
    by exists HM, UT, 0%N, (fun=> MH), (fun=> MU).
  have [mu Es] := HS _ _ HT. have [HM1 [UT1 [MQ [MU1 [-> H1 H2 HP]]]]] := pass_ok Hn HI HH HT Es. rewrite bindOk.
  have [HM2 [UT2 [k [P [T [-> H3 H4 [P0 T0] [H5 H6 H7 H8]]]]]]] := IH HM1 UT1 _ _ (residual cnorm MU MU1) H1 H2.
  pose P' j := if j is j'.+1 then P j' else MH. pose T' j := if j is j'.+1 then T j' else MU.
  have RE j : residual_at cnorm r T' j.+1 = residual_at cnorm (residual cnorm MU MU1) T j by case: j => [|j] //=; rewrite T0.
  exists HM2, UT2, k.+1, P', T'. split=> //; first by rewrite RE. split=> //.
  - case=> [_|j Lj]; last exact: H5. exists UT, mu, MQ. split=> //; by rewrite /T' /P' ?T0 ?P0.
  - case=> [_|j Lj] //. rewrite RE. exact: H6.
  - move=> Lk. rewrite RE. exact: H8.
Qed.

(** QRHessenberg makes passes from the Hessenberg form of A, each with the shift computed from the matrix at that point,
    until the residual is at most the tolerance or itermax - 1 passes have been made; HM accumulates the factors Q; the
    warning is printed exactly if the last residual is above the tolerance. *)
Theorem C98_passes itermax (A : Mat.Matrix K) n (MA : 'M[K]_n) : (0 < n)%N -> is_mx A MA ->
  (forall (X : Mat.Matrix K) (MX : 'M[K]_n), is_mx X MX -> exists mu, shift X = Ok mu) ->
  exists P0 T0 HM UT warned k (P T : nat -> 'M[K]_n), [/\ hessenberg cnorm cabs conj ofr Num.sqrt eps A = Ok (P0, T0), is_mx P0 (P 0%N), is_mx T0 (T 0%N),
    T 0%N = adj (P 0%N) *m MA *m P 0%N &
    [/\ QRHessenberg cnorm cabs conj ofr Num.sqrt eps shift tolerance itermax A = Ok (HM, UT, warned), is_mx HM (P k), is_mx UT (T k),
      (forall j, (j < k)%N -> exists X mu Q, [/\ is_mx X (T j), shift X = Ok mu, qr_pass (emb eps) (used_shift cabs eps mu) (T j) (T j.+1) Q & P j.+1 = P j *m Q]) &
      [/\ forall j, (j < k)%N -> tolerance < residual_at cnorm 1 T j, (k <= itermax - 1)%N, (k < itermax - 1)%N -> residual_at cnorm 1 T k <= tolerance &
        warned = (tolerance < residual_at cnorm 1 T k)]]].
Proof.
  move=> Hn HA HS. have Hs := shape_mx (is_mx_reads HA). have [Er _] := HA. rewrite /QRHessenberg Er.
  have [J [-> HJ _]] := identity_mx HO Hn Hs. rewrite bindOk.
  have [P0 [T0 [MP [MT [E HP HT ET]]]]] := C97_hessenberg_conjugate HC eps_gt0 Hn HA.
  have [HM [UT [k [P [T [EL H1 H2 [P0E T0E] [H3 H4 H5 H6]]]]]]] := run_ok (itermax - 1)%coq_nat o1 Hn HJ HP HT HS. rewrite (o1E HV) in EL H4 H6.
  exists P0, T0, HM, UT, (tolerance < residual_at cnorm 1 T k), k, P, T. split=> //; rewrite ?P0E ?T0E //.
  split=> //. by rewrite E bindOk (o1E HV) EL bindOk Hlt.
Qed.

Lemma mul11 (X Y : 'M[K]_1) : X *m Y = Y *m X.
Proof. by rewrite [X]mx11_scalar [Y]mx11_scalar -!scalar_mxM mulrC. Qed.
(** A single element: one pass, which changes nothing, and no warning. *)
Theorem C98_order1 itermax (A : Mat.Matrix K) (MA : 'M[K]_1) : is_mx A MA -> (1 < itermax)%N -> 0 <= tolerance < 1 ->
  (forall (X : Mat.Matrix K) (MX : 'M[K]_1), is_mx X MX -> exists mu, shift X = Ok mu) ->
  exists HM UT, QRHessenberg cnorm cabs conj ofr Num.sqrt eps shift tolerance itermax A = Ok (HM, UT, false) /\ is_mx UT MA.
Proof.
  move=> HA Hi /andP [t0 t1] HS. have [P0 [T0 [HM [UT [w [k [P [T [E1 _ E3 _ [E4 _ E6 E7 [E8 E9 E10 E11]]]]]]]]]]] := C98_passes itermax (ltn0Sn 0) HA HS.
  have S j : (j < k)%N -> T j.+1 = T j.
    move=> Lj. have [X [mu [Q [_ _ [R [_ E -> _ _]] _]]]] := E7 j Lj. by rewrite mul11 -E subrK.
  have R0 j : (j < k)%N -> residual_at cnorm 1 T j.+1 = 0.
    move=> Lj. rewrite /= S // /residual subrr /frobenius /subn !big_ord1 mxE (cnorm0 HC) sqrtr0 add0r big_pred0 ?sqrtr0 // => -[[|i] Hl] //.
  have K1 : k = 1%N.
    case: k E4 E6 E7 E8 E9 E10 E11 S R0 => [|[|k]] E4 E6 E7 E8 E9 E10 E11 S R0 //.
    - have := E10. by rewrite subn_gt0 Hi /= leNgt t1 => /(_ isT).
    - have := E8 1%N isT. by rewrite R0 // ltNge t0.
  subst k. exists HM, UT. split; first by rewrite E4 E11 R0 // ltNge t0.
  have Hs := shape_mx (is_mx_reads HA). have [Er _] := HA. have [J [EJ HJ _]] := identity_mx HO (ltn0Sn 0) Hs.
  move: E1. rewrite /hessenberg Er EJ bindOk (mat_copy_ok _ _ _ _ HA) bindOk => -[_ ET].
  rewrite S // in E6. rewrite -ET in E3. by rewrite (is_mx_fun HA E3).
Qed.
End Run.
