(** PropHess3.v: a matrix for which eigen::hessenberg does not give a unitary P (C97). *)
From Verif Require Import MathFacts MatFacts Util UtilFacts2 PropUtil PropMath MathM ControlFacts RingM DetFacts PropRing PropReal PropControl PropControl2 QR PropQR Eigen.
From mathcomp Require Import all_ssreflect all_algebra.
From Verif Require Import EigenMath PropHess.
Set Implicit Arguments.
Unset Strict Implicit.
Unset Printing Implicit Defensive.
Import Order.Theory GRing.Theory Num.Theory.
Local Open Scope ring_scope.

Section Hess3.
Variables (K : numClosedFieldType) (U : rcfType) (emb : {rmorphism U -> K}) (OC : Ops K) (OU : Ops U).
Variables (cnorm cabs : K -> U) (conj : K -> K) (ofr : U -> K).
Hypothesis HC : complexO emb OC OU cnorm cabs conj ofr.

Let HF : fieldO OC. Proof. by case: HC. Qed.
Let HO : ringO OC. Proof. by case: HF. Qed.
Let Hnorm z : emb (cnorm z) = `|z| ^+ 2. Proof. by case: HC => _ _ _ []. Qed.

Definition c3 : 'cV[K]_3 := \col_i ((i == 1)%:R - (i == 2%:R)%:R).

Lemma cnorm_emb x : cnorm (emb x) = x ^+ 2.
Proof. apply: (fmorph_inj emb). by rewrite Hnorm real_normK ?(emb_real HC) // rmorphX. Qed.
Lemma cnormN z : cnorm (- z) = cnorm z.
Proof. apply: (fmorph_inj emb). by rewrite !Hnorm normrN. Qed.

Lemma short_u eps : 0 < eps -> hu emb cnorm cabs eps (emb (eps / 2%:R) *: delta_mx (2%:R : 'I_3) 0) 0 1 = - (2%:R)^-1 *: c3.
Proof.
  move=> E0. set h := eps / 2%:R. have h0 : 0 < h by rewrite divr_gt0 // ltr0n.
  rewrite /hu. set x := hcolk _ _.
  have xE : x = emb h *: delta_mx (2%:R : 'I_3) 0.
    apply/colP => i. rewrite !mxE eqxx andbT. case: (i == 2%:R) / eqP => [->|N] //=; by rewrite mulr0; case: ifP.
  have cx : clen cnorm x = h.
    rewrite /clen xE !big_ord_recl big_ord0 !mxE /= !mulr0 mulr1 (cnorm0 HC) cnorm_emb !add0r addr0 sqrtr_sqr ger0_norm // ltW //.
  have xe : x 1 0 = 0 by rewrite xE !mxE /= mulr0.
  have vE : hv emb cnorm cabs eps x 1 = - emb h *: c3.
    rewrite /hv xe cx /hrho (cabs0 HC) lt_gtF // mul1r xE. apply/colP => i. rewrite !mxE !eqxx !andbT.
    by rewrite mulrBr !mulNr opprK addrC.
  have cv : clen cnorm (- emb h *: c3) < eps.
    rewrite /clen !big_ord_recl big_ord0 !mxE /= subrr subr0 sub0r mulr0 mulrN !mulr1 opprK (cnorm0 HC) cnormN cnorm_emb add0r addr0.
    rewrite -[X in _ < X](ger0_norm (ltW E0)) -sqrtr_sqr ltr_sqrt; last by rewrite exprn_gt0.
    rewrite -mulr2n -[X in _ < X]mulr1 /h expr_div_n -mulrnAr -mulr_natr. rewrite ltr_pmul2l ?exprn_gt0 //.
    rewrite -natrX ltr_pdivr_mull ?ltr0n // mulr1 ltr_nat //.
  rewrite vE /hl cv scalerA. congr (_ *: _). rewrite mulrN /h fmorph_div rmorph_nat /= mulrA mulVf ?mul1r //.
  by rewrite fmorph_eq0 gt_eqF.
Qed.

Lemma c3_sql : adj c3 *m c3 = (2%:R)%:M.
Proof.
  apply/matrixP => i j. rewrite !ord1 sqlE mxE eqxx mulr1n /sql !big_ord_recl big_ord0 !mxE /= subrr subr0 sub0r normr0 normrN normr1.
  by rewrite expr0n expr1n add0r addr0.
Qed.
Lemma c3_kills : adj c3 *m refl (- (2%:R)^-1 *: c3) = 0.
Proof.
  have N2 : 2%:R != 0 :> K by rewrite pnatr_eq0.
  apply/eqP. rewrite -(inj_eq (can_inj (@adjK K 1 3))) adj_mul refl_herm adjK. apply/eqP.
  rewrite refl_app adj_scale -scalemxAl c3_sql -scalemxAr mul_mx_scalar !scalerA rmorphN fmorphV rmorph_nat.
  rewrite mulNr mulVf // mulrN1 mulrNN divff //.
  rewrite scale1r subrr. by apply/matrixP => i j; rewrite !mxE rmorph0.
Qed.
(** The 0 by 0 matrix is refused: identity throws. *)
Theorem C97_hessenberg_empty eps (A : Mat.Matrix K) : rows A = 0%N -> hessenberg cnorm cabs conj ofr Num.sqrt eps A = Throw.
Proof. move=> E. by rewrite /hessenberg E. Qed.

(** Whatever epsilon is: for the 3 by 3 matrix that is zero except for the element
    epsilon/2 at (2,0), the P returned is singular and so not unitary, and A is not P H P*. *)
Theorem C97_short_column_refuted : forall eps (A : Mat.Matrix K) (MA : 'M[K]_3), 0 < eps ->
  MA = emb (eps / 2%:R) *: delta_mx 2%:R 0 -> is_mx A MA ->
  exists P H (MP MH : 'M[K]_3), [/\ hessenberg cnorm cabs conj ofr Num.sqrt eps A = Ok (P, H), is_mx P MP, is_mx H MH &
    [/\ \det MP = 0, ~ unitary MP & MP *m MH *m adj MP <> MA]].
Proof.
  move=> eps A MA E0 EA HA. have Hs := shape_mx (is_mx_reads HA). have [Er _] := HA.
  rewrite /hessenberg Er. have [J [-> HJ _]] := identity_mx HO (ltn0Sn 2) Hs. rewrite bindOk (mat_copy_ok _ _ _ _ HA) bindOk.
  have [P [H [Es HP HH]]] := hess_step_ok HC E0 (k := 0) (e := 1) HJ HA erefl.
  exists P, H. rewrite {1}EA short_u // in HP. eexists _, _. split; [|exact: HP|exact: HH|].
  - rewrite for_range_first; last by lia. rewrite Es bindOk. apply: for_range_empty. lia.
  rewrite mul1mx EA short_u // -EA. move: (refl _) c3_kills => W Hk.
  have N0 : adj c3 != 0.
    apply/eqP => /matrixP /(_ 0 1) /eqP. by rewrite !mxE /= subr0 rmorph1 oner_eq0.
  have D0 : \det W = 0 by apply/eqP/det0P; exists (adj c3).
  split=> //.
  - move=> UW. have := congr1 determinant UW. rewrite det_mulmx D0 mulr0 det1 => /esym/eqP. by rewrite oner_eq0.
  - move=> E. have := congr1 (mulmx (adj c3)) E. rewrite !mulmxA Hk !mul0mx EA. move=> /matrixP /(_ 0 0) /eqP.
    rewrite mxE [X in _ == X]mxE !big_ord_recl big_ord0 !mxE /= !mulr0 !add0r addr0. rewrite mulr1n mulr1 rmorphN rmorph1 mulN1r eq_sym oppr_eq0 fmorph_eq0 gt_eqF //.
    by rewrite divr_gt0 // ltr0n.
Qed.
End Hess3.
