(** QDet.v: determinants of rational matrices (in the standard library's rationals) are
    multiplicative and change sign when two rows are exchanged.  By way of mathcomp's. *)
From Coq Require Import ZArith QArith Lia.
From Verif Require Import LinalgFacts2 RingM DetFacts DetPlain PropFloatSum PropFloatDet FloatBigDet.
From mathcomp Require Import all_ssreflect all_algebra all_fingroup.
Set Implicit Arguments.
Unset Strict Implicit.
Unset Printing Implicit Defensive.
Import GRing.Theory Num.Theory.
Local Open Scope ring_scope.
Delimit Scope Z_scope with ZZ.

Section Bridge.
Variable F : numFieldType.
Definition zr (z : Z) : F := match z with Z0 => 0 | Zpos p => (Pos.to_nat p)%:R | Zneg p => - (Pos.to_nat p)%:R end.
Lemma zr_nat n : zr (Z.of_nat n) = n%:R.
Proof. case: n => [//|n]. by rewrite /= SuccNat2Pos.id_succ. Qed.
Lemma zr_opp z : zr (- z) = - zr z.
Proof. case: z => [|p|p] /=; by rewrite ?oppr0 ?opprK. Qed.
Lemma zr_diff a b : zr (Z.of_nat a - Z.of_nat b) = a%:R - b%:R.
Proof.
  case/orP: (leq_total b a) => H.
  - rewrite -Nat2Z.inj_sub; last exact/leP. by rewrite zr_nat -natrB.
  - have -> : (Z.of_nat a - Z.of_nat b = - (Z.of_nat b - Z.of_nat a))%ZZ by lia. rewrite -Nat2Z.inj_sub; last exact/leP. by rewrite zr_opp zr_nat -opprB -natrB.
Qed.
Lemma z_diff z : exists a b, z = (Z.of_nat a - Z.of_nat b)%ZZ.
Proof. exists (Z.to_nat z), (Z.to_nat (- z)). lia. Qed.
Lemma zr_add z w : zr (z + w) = zr z + zr w.
Proof.
  have [a [b ->]] := z_diff z. have [c [d ->]] := z_diff w.
  have -> : (Z.of_nat a - Z.of_nat b + (Z.of_nat c - Z.of_nat d) = Z.of_nat (a + c) - Z.of_nat (b + d))%ZZ by rewrite -!plusE; lia.
  by rewrite !zr_diff !natrD opprD addrACA.
Qed.
Lemma zr_mul z w : zr (z * w) = zr z * zr w.
Proof.
  have [a [b ->]] := z_diff z. have [c [d ->]] := z_diff w.
  have -> : ((Z.of_nat a - Z.of_nat b) * (Z.of_nat c - Z.of_nat d) = Z.of_nat (a * c + b * d) - Z.of_nat (a * d + b * c))%ZZ.
    rewrite -!plusE -!multE !Nat2Z.inj_add !Nat2Z.inj_mul. ring.
  by rewrite !zr_diff !natrD !natrM mulrBl !mulrBr opprB addrACA -opprD.
Qed.
Lemma zr_eq0 z : zr z = 0 -> z = 0%ZZ.
Proof.
  case: z => [//|p|p] /=; [move/eqP|move/eqP; rewrite oppr_eq0]; rewrite pnatr_eq0 => /eqP H; have := Pos2Nat.is_pos p; lia.
Qed.
Definition qr (q : Q) : F := zr (Qnum q) / zr (Zpos (Qden q)).
Lemma den_neq0 p : zr (Zpos p) != 0. Proof. by apply/eqP => /zr_eq0. Qed.
Lemma qr_wd p q : Qeq p q -> qr p = qr q.
Proof. rewrite /Qeq /qr => E. apply/eqP. by rewrite eqr_div ?den_neq0 // -!zr_mul E. Qed.
Lemma qr_inj p q : qr p = qr q -> Qeq p q.
Proof.
  rewrite /Qeq /qr => /eqP. rewrite eqr_div ?den_neq0 // -!zr_mul => /eqP E.
  have : zr (Qnum p * Zpos (Qden q) - Qnum q * Zpos (Qden p)) = 0 by rewrite zr_add zr_opp E subrr. move/zr_eq0. lia.
Qed.
Lemma qr_add p q : qr (p + q) = qr p + qr q.
Proof. rewrite /qr /Qplus [Qnum _]/= [Qden _]/= -[Zpos (_ * _)]/(Zpos _ * Zpos _)%ZZ zr_add !zr_mul addf_div ?den_neq0 //. Qed.
Lemma qr_mul p q : qr (p * q) = qr p * qr q.
Proof. rewrite /qr /Qmult [Qnum _]/= [Qden _]/= -[Zpos (_ * _)]/(Zpos _ * Zpos _)%ZZ !zr_mul. by rewrite mulf_div. Qed.
Lemma qr_opp p : qr (- p) = - qr p.
Proof. by rewrite /qr /Qopp [Qnum _]/= [Qden _]/= zr_opp mulNr. Qed.
Lemma qr1 : qr 1 = 1. Proof. by rewrite /qr /= divr1. Qed.
Lemma qr0 : qr 0 = 0. Proof. by rewrite /qr /= mul0r. Qed.
Lemma qr_sum n g : qr (qsum n g) = \sum_(i < n) qr (g i).
Proof. elim: n => [|n IH]; first by rewrite big_ord0 -qr0. by rewrite big_ord_recr /= -IH -qr_add. Qed.
Lemma even_odd j : Nat.even j = ~~ odd j.
Proof. elim: j => [//|j IH]. rewrite Nat.even_succ -Nat.negb_even IH [odd j.+1]/=. by case: (odd j). Qed.
Lemma qr_alt j x : qr (alt j x) = (-1) ^+ j * qr x.
Proof. rewrite /alt even_odd -signr_odd. case: (odd j) => /=; by rewrite ?qr_opp ?expr1 ?mulN1r ?expr0 ?mul1r. Qed.
Definition qmx n (f : nat -> nat -> Q) : 'M[F]_n := \matrix_(i, j) qr (f i j).
Lemma qr_det n f : qr (qdet n f) = \det (qmx n f).
Proof.
  elim: n f => [|n IH] f; first by rewrite det_mx00 /= qr1.
  rewrite (expand_det_row _ ord0) /qdet -/qdet qr_sum. apply: eq_bigr => j _. rewrite mxE qr_alt qr_mul IH mulrCA /matrix.cofactor add0n. congr (_ * (_ * \det _)).
  apply/matrixP => a b. rewrite !mxE /fminor. congr qr. congr (f _ _). by rewrite /lift /= /bump ltbE ltnNge; case: (j <= b)%N; rewrite ?add0n ?add1n.
Qed.
Lemma qmx_ext n f g : (forall i j, (i < n)%N -> (j < n)%N -> Qeq (f i j) (g i j)) -> qmx n f = qmx n g.
Proof. move=> H. apply/matrixP => i j. rewrite !mxE. apply: qr_wd. exact: H. Qed.
Lemma qr_prod n g : qr (qprod n g) = \prod_(i < n) qr (g i).
Proof. elim: n => [|n IH]; first by rewrite big_ord0 /= qr1. by rewrite big_ord_recr /= -IH -qr_mul. Qed.
Lemma qmx_mul n f g : qmx n (fun i j => qsum n (fun t => Qmult (f i t) (g t j))) = qmx n f *m qmx n g.
Proof. apply/matrixP => i j. rewrite !mxE qr_sum. apply: eq_bigr => t _. by rewrite qr_mul !mxE. Qed.
Lemma qmx_swaps n p b f : swaps n p b -> \det (qmx n (fun i j => f (p i) j)) = (-1) ^+ b * \det (qmx n f).
Proof.
  elim=> {p b} [|p b i k _ IH Hik Hk]; first by rewrite expr0 mul1r.
  have Hi : (i < n)%N by apply/ltP; lia. have {}Hk : (k < n)%N by apply/ltP.
  have -> : qmx n (fun a j => f (p (if Nat.eqb a i then k else if Nat.eqb a k then i else a)) j) = xrow (Ordinal Hi) (Ordinal Hk) (qmx n (fun a j => f (p a) j)).
    apply/matrixP => a j. rewrite !mxE. congr qr. congr (f (p _) j). rewrite permE /= !nateqbE -!val_eqE /=. by case: eqP => // _; case: eqP.
  rewrite xrowE det_mulmx det_perm odd_tperm IH -val_eqE /=. have -> : i != k by apply/eqP; lia. case: (b) => /=; by rewrite ?expr1 ?expr0 ?mulrA ?mulrNN ?mulr1 ?mul1r.
Qed.
End Bridge.

(** The determinant depends on the values only. *)
Lemma qdet_wd n f g : (forall i j, Peano.lt i n -> Peano.lt j n -> Qeq (f i j) (g i j)) -> Qeq (qdet n f) (qdet n g).
Proof. move=> H. apply: (@qr_inj [numFieldType of rat]). rewrite !qr_det. congr (\det _). apply: qmx_ext => i j /ltP Hi /ltP Hj. exact: H. Qed.
Lemma qdet_swaps n p b f : swaps n p b -> Qeq (qdet n (fun i j => f (p i) j)) (if b then Qopp (qdet n f) else qdet n f).
Proof.
  move=> H. apply: (@qr_inj [numFieldType of rat]). rewrite qr_det (qmx_swaps _ _ H). case: (b); by rewrite ?qr_opp qr_det ?expr1 ?mulN1r ?expr0 ?mul1r.
Qed.
(** Of a product of two matrices, and of triangular ones. *)
Lemma qdet_mul n f g : Qeq (qdet n (fun i j => qsum n (fun t => Qmult (f i t) (g t j)))) (Qmult (qdet n f) (qdet n g)).
Proof. apply: (@qr_inj [numFieldType of rat]). by rewrite qr_mul !qr_det qmx_mul det_mulmx. Qed.
Lemma qdet_lower n f : (forall i j, Peano.lt i n -> Peano.lt j n -> Peano.lt i j -> Qeq (f i j) 0) -> Qeq (qdet n f) (qprod n (fun i => f i i)).
Proof.
  move=> H. apply: (@qr_inj [numFieldType of rat]). rewrite qr_det qr_prod det_trig; first by apply: eq_bigr => i _; rewrite mxE.
  apply/is_trig_mxP => i j Hij. rewrite mxE -[RHS](qr0 [numFieldType of rat]). apply: qr_wd. apply: H; exact/ltP.
Qed.
Lemma qdet_upper n f : (forall i j, Peano.lt i n -> Peano.lt j n -> Peano.lt j i -> Qeq (f i j) 0) -> Qeq (qdet n f) (qprod n (fun i => f i i)).
Proof.
  move=> H. apply: (@qr_inj [numFieldType of rat]). rewrite qr_det qr_prod -det_tr det_trig; first by apply: eq_bigr => i _; rewrite !mxE.
  apply/is_trig_mxP => i j Hij. rewrite !mxE -[RHS](qr0 [numFieldType of rat]). apply: qr_wd. apply: H; exact/ltP.
Qed.
Lemma qprod_one n g : (forall i, Peano.lt i n -> Qeq (g i) 1) -> Qeq (qprod n g) 1.
Proof.
  move=> H. apply: (@qr_inj [numFieldType of rat]). rewrite qr_prod qr1 big1 // => i _. rewrite -[RHS](qr1 [numFieldType of rat]). apply: qr_wd. apply: H. exact/ltP.
Qed.
(** If the columns up to k (k + 1 of them) are combinations of only k columns, the determinant is 0. *)
Lemma qdet_stuck n k L U g : Peano.lt k n -> (forall i j, Peano.lt i n -> Peano.le j k -> Qeq (g i j) (qsum n (fun t => Qmult (L i t) (U t j)))) ->
  (forall t j, Peano.le k t -> Peano.lt t n -> Peano.le j k -> Qeq (U t j) 0) -> Qeq (qdet n g) 0.
Proof.
  move=> Hk HG HU. set F := [numFieldType of rat]. apply: (@qr_inj F). rewrite qr_det qr0. have Hkn : (k < n)%N by apply/ssrnat.ltP.
  set N : 'M[F]_(k.+1, k) := \matrix_(j, t) qr F (U t j).
  have : kermx N != 0.
    apply/negP => /eqP K. have := mxrank_ker N. rewrite K mxrank0 => /esym /eqP. rewrite subn_eq0 leqNgt ltnS rank_leq_col //.
  case/rowV0Pn => w /sub_kermxP W0 Wn. have HM : (k.+1 <= n)%N by [].
  apply/eqP. rewrite -det_tr. apply/det0P. exists (\row_(j < n) (if insub (val j) is Some a then w 0 a else 0)).
  - apply: contraNneq Wn => V. apply/eqP/rowP => a. have := congr1 (fun M : 'rV[F]_n => M 0 (widen_ord HM a)) V. rewrite !mxE /=. by case: insubP => [b _ /val_inj ->|]; rewrite ?ltn_ord.
  - apply/rowP => i. rewrite !mxE. rewrite (eq_bigr (fun j : 'I_n => if (j < k.+1)%N then (fun j => w 0 (inord j) * qr F (g i j)) (val j) else 0)); last first.
      move=> j _. rewrite !mxE. case: insubP => [b Hj E|/negbTE ->]; last by rewrite mul0r. rewrite Hj. congr (w 0 _ * _). apply: val_inj. by rewrite [RHS]inordK.
    rewrite -big_mkcond -(big_ord_widen_cond _ xpredT (fun j => w 0 (inord j) * qr F (g i j)) HM) /=.
    rewrite (eq_bigr (fun j : 'I_k.+1 => \sum_(t < n) qr F (L i t) * (w 0 j * qr F (U t j)))); last first.
      move=> j _. rewrite inord_val (@qr_wd F _ _ (HG i j _ _)); [|by apply/ssrnat.ltP|by apply/ssrnat.leP; rewrite -ltnS].
      rewrite qr_sum big_distrr /=. apply: eq_bigr => t _. by rewrite qr_mul mulrCA.
    rewrite exchange_big big1 //= => t _. rewrite -big_distrr /=. case: (ltnP t k) => Ht.
      have := congr1 (fun M : 'rV[F]_k => M 0 (Ordinal Ht)) W0. rewrite !mxE => E. rewrite [X in _ * X](_ : _ = 0) ?mulr0 // -[RHS]E. by apply: eq_bigr => j _; rewrite mxE.
    rewrite big1 ?mulr0 // => j _. rewrite (@qr_wd F _ _ (HU t j _ _ _)) ?qr0 ?mulr0 //; [exact/ssrnat.leP|exact/ssrnat.ltP|apply/ssrnat.leP; by rewrite -ltnS].
Qed.
