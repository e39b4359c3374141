(** PropEigen.v: complex_math.hpp (C73) and eigen.hpp's wilkinson_shift (C72). *)
From Verif Require Import MathFacts RingM DetFacts PropReal Complex.
From mathcomp Require Import all_ssreflect all_algebra realalg complex.
Set Implicit Arguments.
Unset Strict Implicit.
Unset Printing Implicit Defensive.
Import Order.Theory GRing.Theory Num.Theory.
Local Open Scope ring_scope.

(** The mathematical complex number that a [std::complex] stands for, after converting
    its two parts with [k]. *)
Definition toCk {U} (F : realFieldType) (k : U -> F) (z : cplx U) : F[i] := Complex (k (cre z)) (k (cim z)).
Definition toC (F : realFieldType) (z : cplx F) : F[i] := toCk id z.

(** * C73 *)
Section Mixed.
Variables (T1 T2 : Type) (F : realFieldType) (O : Ops F).
Hypothesis HF : fieldO O.
Variables (k1 : T1 -> F) (k2 : T2 -> F).
Let HO : ringO O. Proof. by case: HF. Qed.
Let CE := (oaddE HO, osubE HO, omulE HO, o0E HO).

Theorem C73_add : forall z1 z2 x1 x2,
  [/\ toC (add_cc k1 k2 z1 z2) = toCk k1 z1 + toCk k2 z2,
      toC (add_cr k1 k2 z1 x2) = toCk k1 z1 + (k2 x2)%:C%C &
      toC (add_rc k1 k2 x1 z2) = (k1 x1)%:C%C + toCk k2 z2].
Proof. by move=> [a b] [c d] x1 x2; split; rewrite /toC /toCk /= !CE; simpc. Qed.
Theorem C73_sub : forall z1 z2 x1 x2,
  [/\ toC (sub_cc k1 k2 z1 z2) = toCk k1 z1 - toCk k2 z2,
      toC (sub_cr k1 k2 z1 x2) = toCk k1 z1 - (k2 x2)%:C%C &
      toC (sub_rc k1 k2 x1 z2) = (k1 x1)%:C%C - toCk k2 z2].
Proof. by move=> [a b] [c d] x1 x2; split; rewrite /toC /toCk /= !CE; simpc. Qed.
Theorem C73_mul : forall z1 z2 x1 x2,
  [/\ toC (mul_cc k1 k2 z1 z2) = toCk k1 z1 * toCk k2 z2,
      toC (mul_cr k1 k2 z1 x2) = toCk k1 z1 * (k2 x2)%:C%C &
      toC (mul_rc k1 k2 x1 z2) = (k1 x1)%:C%C * toCk k2 z2].
Proof.
  move=> [a b] [c d] x1 x2; split; rewrite /toC /toCk /= !CE; simpc => //.
Qed.

Lemma normsq_neq0 (z : F[i]) : z != 0 -> (complex.Re z) ^+ 2 + (complex.Im z) ^+ 2 != 0.
Proof.
  case: z => a b. rewrite eq_complex /= => N. apply: contraNneq N => /eqP.
  by rewrite paddr_eq0 ?sqr_ge0 // !sqrf_eq0.
Qed.
Lemma cx_divaE (z w : cplx F) : toC w != 0 -> exists q, cx_diva z w = Ok q /\ toC q = toC z / toC w.
Proof.
  case: HF => _ HD _. case: z w => [a b] [c d] N. have /= N2 := normsq_neq0 N.
  rewrite /cx_diva /cx_norm /= !CE -!expr2 !HD //=. eexists; split; first reflexivity.
  rewrite /toC /toCk /=. rewrite -[Complex a b / _]/(ComplexField.mulc (Complex a b) (ComplexField.invc (Complex c d))) /=.
  congr Complex.
  - by rewrite mulrDl !mulrA mulrN opprK !mulrA.
  - by rewrite mulrBl mulrN mulrA addrC mulrA.
Qed.
Theorem C73_div : forall z1 z2 x1 x2,
  [/\ (toCk k2 z2 != 0 -> exists q, div_cc k1 k2 z1 z2 = Ok q /\ toC q = toCk k1 z1 / toCk k2 z2),
      (k2 x2 != 0 -> exists q, div_cr k1 k2 z1 x2 = Ok q /\ toC q = toCk k1 z1 / (k2 x2)%:C%C) &
      (toCk k2 z2 != 0 -> exists q, div_rc k1 k2 x1 z2 = Ok q /\ toC q = (k1 x1)%:C%C / toCk k2 z2)].
Proof.
  move=> z1 z2 x1 x2. split.
  - move=> N. exact: (cx_divaE (cx_conv k1 z1) (w := cx_conv k2 z2) N).
  - case: HF => _ HD _. move=> N. rewrite /div_cr /cx_divr !HD //=. eexists; split; first reflexivity.
    have N' : (k2 x2)%:C%C != 0 :> F[i] by rewrite eq_complex /= negb_and N.
    apply: (canRL (mulfK N')). case: z1 => a b. rewrite /toC /toCk /=. simpc. by rewrite !divfK.
  - move=> N. have [q [E Eq]] := cx_divaE (cx_of (k1 x1)) (w := cx_conv k2 z2) N.
    exists q; split=> //. by rewrite Eq /toC /toCk /= CE.
Qed.
End Mixed.
(** int and rational operands, common type rational: (1 + 2i) / (1 + i) = 3/2 + i/2. *)
Example ex_C73 : exists q, div_cc (O := realops (0 : rat)) (fun z : int => z%:~R : rat) id (Cx 1%R 2%:Z) (Cx 1 1) = Ok q /\
  toC q = Complex (3%:R / 2%:R) (2%:R^-1).
Proof.
  have HO := let: And4 H _ _ _ := realops_ok (0 : rat) in H.
  have N : toCk id (Cx (1 : rat) 1) != 0 by [].
  have [H _ _] := C73_div HO (fun z : int => z%:~R : rat) id (Cx 1%R 2%:Z) (Cx 1 1) 0 0.
  have [q [E Eq]] := H N. exists q; split; first exact: E.
  rewrite Eq. apply: (canLR (mulfK N)). exact/eqP.
Qed.

(** * C72 *)
Section RingIds.
Variable K : comRingType.
Add Ring RK : (R_ring K).
Ltac rring := rewrite ?raddE ?rmulE ?roppE ?rzeroE ?roneE; match goal with |- @eq _ ?a ?b => change (@eq (rT K) a b) end; ring.
Lemma char2_id (x a b c d : K) : (x - a) * (x - d) + - b * -1 * - c = x * x - (a + d) * x + a * d - b * c.
Proof. rring. Qed.
Lemma vieta_id (t a b c d e : K) : (1 + 1) * (1 + 1) * (t * t - (a + d) * t + (a * d - b * c)) =
  (t * (1 + 1) - (a + d + e)) * (t * (1 + 1) - (a + d - e)) +
  (e * e - ((a + d) * (a + d) - (a * d - b * c) * (1 + 1 + 1 + 1))).
Proof. rring. Qed.
Lemma ex_id (s n : K) : (s - n) * (s - n) - -1 = s * s - (n + n) * s + (n * n - 1 * -1).
Proof. rring. Qed.
End RingIds.
Section Wilkinson.
Variables (R : rcfType) (O : Ops R).
Hypothesis HR : realO O.
Let HF : fieldO O. Proof. by case: HR. Qed.
Let HO : ringO O. Proof. by case: HF. Qed.
Let CE := (oaddE HO, osubE HO, omulE HO, o0E HO).
(** std::sqrt returns some square root. *)
Variable csqrt : cplx R -> cplx R.
Hypothesis csqrtE : forall z, toC (csqrt z) ^+ 2 = toC z.

Lemma toC_add (z w : cplx R) : toC (cx_adda z w) = toC z + toC w.
Proof. by case: z w => [a b] [c d]; rewrite /toC /toCk /= !CE; simpc. Qed.
Lemma toC_sub (z w : cplx R) : toC (cx_suba z w) = toC z - toC w.
Proof. by case: z w => [a b] [c d]; rewrite /toC /toCk /= !CE; simpc. Qed.
Lemma toC_mul (z w : cplx R) : toC (cx_mula z w) = toC z * toC w.
Proof. by case: z w => [a b] [c d]; rewrite /toC /toCk /= !CE; simpc. Qed.
Lemma toC_mulr (z : cplx R) x : toC (cx_mulr z x) = toC z * x%:C%C.
Proof. by case: z => [a b]; rewrite /toC /toCk /= !CE; simpc. Qed.
Lemma toC_norm (z : cplx R) : (cx_norm z)%:C%C = `|toC z| ^+ 2.
Proof. by rewrite -add_Re2_Im2 /cx_norm !CE. Qed.
Lemma norm_lt (z w : cplx R) : olt (cx_norm z) (cx_norm w) = (`|toC z| < `|toC w|).
Proof. case: HR => _ -> _ _. by rewrite -ltcR !toC_norm ltr_pexpn2r // nnegrE. Qed.

(** The bottom-right 2x2 block of the matrix with elements f and n+2 rows. *)
Definition corner n (f : nat -> nat -> cplx R) : 'M[R[i]]_2 := \matrix_(i, j) toC (f (n + i)%N (n + j)%N).

Lemma eigen2 (B : 'M[R[i]]_2) (x : R[i]) :
  eigenvalue B x = (x * x - (B 0 0 + B 1 1) * x + (B 0 0 * B 1 1 - B 0 1 * B 1 0) == 0).
Proof.
  rewrite eigenvalue_root_char rootE /char_poly (expand_det_row _ 0) !big_ord_recl big_ord0 /matrix.cofactor !det_mx11 /char_poly_mx !mxE /=.
  have -> : lift 0 0 = 1 :> 'I_2 by apply/val_inj.
  have -> : lift (1 : 'I_2) (0 : 'I_1) = 0 :> 'I_2 by apply/val_inj.
  rewrite /= !hornerE. congr (_ == 0).
  rewrite ?expr0 ?expr1. rewrite ?mulr1n ?mulr0n ?hornerE ?addr0 ?add0r ?mul1r. exact: char2_id.
Qed.

(** With at least two rows: an eigenvalue of the bottom-right block, at least as close
    to the last diagonal element as any other eigenvalue of the block. *)
Theorem C72_wilkinson_shift : forall A n c f, is_mat A n.+2 c f -> (n.+2 <= c)%N ->
  exists s, [/\ wilkinson_shift csqrt A = Ok s, eigenvalue (corner n f) (toC s) &
    forall t, eigenvalue (corner n f) t -> `|toC s - toC (f n.+1 n.+1)| <= `|t - toC (f n.+1 n.+1)|].
Proof.
  move=> A n c f HA Hc.
  have [E1 [_ [[S1 _] _]]] := HA.
  have Sn : is_size n.+1 by move: S1; rewrite /is_size; lia.
  have Ea : sub64 n.+2 1 = n.+1 by rewrite sub64_small //=; lia.
  have Eb : sub64 n.+1 1 = n by rewrite sub64_small //=; lia.
  have Hc1 : (n.+1 < c)%coq_nat by apply/ssrnat.ltP.
  rewrite /wilkinson_shift E1 Ea Eb /= !(is_mat_at _ _ _ _ _ _ HA); try lia.
  rewrite /=. case: HR => -[_ HD _] _ _ _.
  have N2 : 1 + 1 != 0 :> R by rewrite -(natrD _ 1 1) pnatr_eq0.
  rewrite !CE (o1E HO) HD //=. set h : R := 1 / (1 + 1).
  set a := f n n; set b := f n n.+1; set c' := f n.+1 n; set d := f n.+1 n.+1.
  set delta := csqrt _. set s1 := cx_mulr _ h. set s2 := cx_mulr _ h.
  have H2 : h%:C%C * (1 + 1) = 1 :> R[i].
    have -> : 1 + 1 = (1 + 1)%:C%C :> R[i] by rewrite rmorphD rmorph1.
    by rewrite -rmorphM /= /h divfK.
  have N2C : 1 + 1 != 0 :> R[i] by rewrite -(natrD _ 1 1) pnatr_eq0.
  have ED : toC delta * toC delta = (toC a + toC d) * (toC a + toC d) - (toC a * toC d - toC b * toC c') * (1 + 1 + 1 + 1).
    rewrite -expr2 csqrtE toC_sub !toC_mul toC_mulr toC_sub !toC_mul !toC_add. by rewrite !rmorphD rmorph1.
  have ES1 : toC s1 * (1 + 1) = toC a + toC d + toC delta by rewrite toC_mulr !toC_add -mulrA H2 mulr1.
  have ES2 : toC s2 * (1 + 1) = toC a + toC d - toC delta by rewrite toC_mulr toC_sub !toC_add -mulrA H2 mulr1.
  have root t : eigenvalue (corner n f) t = (t == toC s1) || (t == toC s2).
    rewrite eigen2 !mxE /= !addn0 !addn1 -/a -/b -/c' -/d.
    have N4 : (1 + 1) * (1 + 1) != 0 :> R[i] by rewrite mulf_neq0.
    rewrite -(mulrI_eq0 _ (mulfI N4)) (vieta_id t (toC a) (toC b) (toC c') (toC d) (toC delta)) ED subrr addr0 mulf_eq0.
    by rewrite -ES1 -ES2 -!mulrBl !mulf_eq0 (negbTE N2C) !orbF !subr_eq0.
  have [r1 r2] : eigenvalue (corner n f) (toC s1) /\ eigenvalue (corner n f) (toC s2) by rewrite !root !eqxx orbT.
  rewrite norm_lt !toC_sub.
  exists (if `|toC s1 - toC d| < `|toC s2 - toC d| then s1 else s2). split=> //; first by case: ifP.
  move=> t. rewrite root => /orP[]/eqP->; case: ifP => // L; first by rewrite real_leNgt ?normr_real // L.
  exact: ltW.
Qed.
(** A 1 x 1 matrix: 0. *)
Theorem C72_single : forall A c f, is_mat A 1 c f -> wilkinson_shift csqrt A = Ok (Cx 0 0).
Proof.
  move=> A c f [E1 _]. rewrite /wilkinson_shift E1 sub64_small //=. by rewrite /cx_of !CE.
Qed.
(** An empty matrix: the row index wraps around and storage outside the matrix is read. *)
Theorem C72_empty : forall A c f, is_mat A 0 c f -> wilkinson_shift csqrt A = UB.
Proof.
  move=> A c f HA. have [E1 [E2 [_ [HL _]]]] := HA. rewrite /wilkinson_shift E1.
  have P : Nat.ltb 0 (sub64 0 1).
    apply/Nat.ltb_lt. have := @sub64_wraps 0 1 ltac:(lia) ltac:(done). rewrite /two64. lia.
  move: (sub64 0 1) P => n P. rewrite P /mat_at. have -> : data A = nil by case: (data A) HL.
  have E k : lget (@nil (cplx R)) k = UB by case: k.
  move: (mat_idx _ _ _) => k. by rewrite E.
Qed.
End Wilkinson.

(** [sqrtc] of mathcomp, transported to pairs, is a square root; the matrix
    [[9, 1], [-1, 9]] below a 9: the shift is 9 + i or 9 - i. *)
Definition rsqrtc (R : rcfType) (z : cplx R) : cplx R := let: Complex a b := sqrtc (toC z) in Cx a b.
Lemma rsqrtcE (R : rcfType) (z : cplx R) : toC (rsqrtc z) ^+ 2 = toC z.
Proof. rewrite /rsqrtc. have := sqr_sqrtc (toC z). by case: sqrtc. Qed.
Example ex_C72 : let R := [rcfType of realalg] in
  exists A n f s, [/\ is_mat A n.+2 n.+2 f, wilkinson_shift (O := realops (0 : R)) (@rsqrtc R) A = Ok s &
    (toC s - 9%:R) ^+ 2 = -1].
Proof.
  set R := [rcfType of realalg].
  pose f i j : cplx R := match i, j with S O, S O => Cx 9%:R 0 | S (S O), S (S O) => Cx 9%:R 0 | S O, S (S O) => Cx 1 0 | S (S O), S O => Cx (-1) 0 | _, _ => Cx 5%:R 1 end.
  pose A := Mat.mkM 3 3 (map (fun k => f (Nat.div k 3) (Nat.modulo k 3)) (iota 0 9)).
  have HA : is_mat A 3 3 f.
    split=> //; split=> //; split; first by repeat split.
    split=> // i j /ssrnat.ltP Hi /ssrnat.ltP Hj. by case: i Hi => [|[|[|]]] // _; case: j Hj => [|[|[|]]].
  have [s [Es]] := C72_wilkinson_shift (realops_ok (0 : R)) (@rsqrtcE R) HA (leqnn _).
  rewrite eigen2 !mxE /= => /eqP H _. exists A, 1%N, f, s. split=> //.
  have e9 : toC (Cx (9%:R : R) 0) = 9%:R by rewrite -[LHS]/((9%:R : R)%:C%C) rmorph_nat.
  have e1 : toC (Cx (1 : R) 0) = 1 by [].
  have em : toC (Cx (-1 : R) 0) = -1 by rewrite /toC /toCk /=; apply/eqP; rewrite eq_complex /= oppr0 !eqxx.
  move: H. rewrite e9 e1 em => H. apply/eqP. rewrite -subr_eq0 -H. apply/eqP.
  rewrite expr2. exact: ex_id.
Qed.
