(** EigenMath.v: conjugate transposes, reflections and rotations over the complex numbers.
    Nothing here refers to the library. *)
From mathcomp Require Import all_ssreflect all_algebra.
Set Implicit Arguments.
Unset Strict Implicit.
Unset Printing Implicit Defensive.
Import Order.Theory GRing.Theory Num.Theory.
Local Open Scope ring_scope.

(** Ring identities, by the [ring] tactic. *)
Section RingIds.
Variable F : comRingType.
Definition kT : Type := GRing.ComRing.sort F.
Definition kadd (a b : kT) : kT := GRing.add a b.
Definition kmul (a b : kT) : kT := GRing.mul a b.
Definition kopp (a : kT) : kT := GRing.opp a.
Definition kzero : kT := 0%R.
Definition kone : kT := 1%R.
Lemma K_ring : ring_theory kzero kone kadd kmul (fun a b => kadd a (kopp b)) kopp eq.
Proof.
  by split; [exact: add0r|exact: addrC|exact: addrA|exact: mul1r|exact: mulrC|exact: mulrA|exact: mulrDl| |exact: subrr].
Qed.
Add Ring KKR : K_ring.
Lemma kaddE (a b : F) : a + b = kadd a b. Proof. by []. Qed.
Lemma kmulE (a b : F) : a * b = kmul a b. Proof. by []. Qed.
Lemma koppE (a : F) : - a = kopp a. Proof. by []. Qed.
Lemma kzeroE : 0 = kzero :> F. Proof. by []. Qed.
Lemma koneE : 1 = kone :> F. Proof. by []. Qed.
Lemma ktwoE : 2%:R = 1 + 1 :> F. Proof. by []. Qed.
Ltac kring := rewrite ?expr2 ?ktwoE ?kaddE ?kmulE ?koppE ?kzeroE ?koneE; match goal with |- @eq _ ?a ?b => change (@eq kT a b) end; ring.
Lemma refl_id1 (s r rc x : F) : s ^+ 2 - rc * s * x = s ^+ 2 - s * (rc * x). Proof. kring. Qed.
Lemma refl_id2 (s r rc x xc : F) : xc * r = rc * x -> rc * r = 1 -> s ^+ 2 - r * s * xc - (rc * s * x - r * s * (rc * s)) = 2%:R * (s ^+ 2 - s * (rc * x)).
Proof.
  move=> E1 E2. have -> : s ^+ 2 - r * s * xc - (rc * s * x - r * s * (rc * s)) = s ^+ 2 - s * (xc * r) - s * (rc * x) + (rc * r) * s ^+ 2 by kring.
  rewrite E1 E2. kring.
Qed.
End RingIds.

Section Adjoint.
Variable K : numClosedFieldType.
(** The conjugate transpose. *)
Definition adj m n (M : 'M[K]_(m, n)) : 'M[K]_(n, m) := \matrix_(i, j) (M j i)^*.
(** Q* Q = I. *)
Definition unitary n (Q : 'M[K]_n) : Prop := adj Q *m Q = 1%:M.

Lemma adjE m n (M : 'M[K]_(m, n)) i j : adj M i j = (M j i)^*. Proof. by rewrite mxE. Qed.
Lemma adjK m n (M : 'M[K]_(m, n)) : adj (adj M) = M.
Proof. by apply/matrixP => i j; rewrite !mxE conjCK. Qed.
Lemma adj_mul m n p (A : 'M[K]_(m, n)) (B : 'M[K]_(n, p)) : adj (A *m B) = adj B *m adj A.
Proof. apply/matrixP => i j. rewrite !mxE rmorph_sum. apply: eq_bigr => k _. by rewrite !mxE rmorphM mulrC. Qed.
Lemma adj1 n : adj (1%:M : 'M[K]_n) = 1%:M.
Proof. apply/matrixP => i j. by rewrite !mxE rmorph_nat eq_sym. Qed.
Lemma adj_sub m n (A B : 'M[K]_(m, n)) : adj (A - B) = adj A - adj B.
Proof. apply/matrixP => i j. by rewrite !mxE rmorphB. Qed.
Lemma adj_scale m n a (A : 'M[K]_(m, n)) : adj (a *: A) = a^* *: adj A.
Proof. apply/matrixP => i j. by rewrite !mxE rmorphM. Qed.
Lemma unitary1 n : unitary (1%:M : 'M[K]_n). Proof. by rewrite /unitary adj1 mul1mx. Qed.
Lemma unitaryM n (P Q : 'M[K]_n) : unitary P -> unitary Q -> unitary (P *m Q).
Proof. rewrite /unitary => HP HQ. by rewrite adj_mul mulmxA -[_ *m adj P *m P]mulmxA HP mulmx1. Qed.
Lemma unitaryC n (P : 'M[K]_n) : unitary P -> P *m adj P = 1%:M. Proof. exact: mulmx1C. Qed.

(** I - 2 u u*. *)
Definition refl n (u : 'cV[K]_n) : 'M[K]_n := 1%:M - 2%:R *: (u *m adj u).
Lemma reflE n (u : 'cV[K]_n) a b : refl u a b = (a == b)%:R - 2%:R * u a 0 * (u b 0)^*.
Proof. by rewrite !mxE big_ord1 mxE mulrA. Qed.
Lemma refl_herm n (u : 'cV[K]_n) : adj (refl u) = refl u.
Proof. by rewrite /refl adj_sub adj1 adj_scale adj_mul adjK rmorph_nat. Qed.
Lemma refl_sq n (u : 'cV[K]_n) : adj u *m u = 1%:M -> refl u *m refl u = 1%:M.
Proof.
  move=> H. rewrite /refl. set E := u *m adj u.
  have EE : E *m E = E by rewrite /E -[u *m adj u *m _]mulmxA [adj u *m (u *m _)]mulmxA H mul1mx.
  rewrite scaler_nat mulr2n mulmxBl mul1mx mulmxBr mulmx1 mulmxDl mulmxDr EE. move: (E + E) => D.
  by rewrite opprB addrK subrK.
Qed.
Lemma refl0 n : refl (0 : 'cV[K]_n) = 1%:M.
Proof. by rewrite /refl mul0mx scaler0 subr0. Qed.
Lemma refl_unitary n (u : 'cV[K]_n) : adj u *m u = 1%:M \/ u = 0 -> unitary (refl u).
Proof. case=> [H|->]; rewrite /unitary; [by rewrite refl_herm refl_sq|by rewrite refl0 adj1 mul1mx]. Qed.
Lemma refl_app n m (u : 'cV[K]_n) (Y : 'M[K]_(n, m)) : refl u *m Y = Y - 2%:R *: (u *m (adj u *m Y)).
Proof. by rewrite /refl mulmxBl mul1mx -scalemxAl mulmxA. Qed.

(** The squared length of a column. *)
Definition sql n (u : 'cV[K]_n) : K := \sum_k `|u k 0| ^+ 2.
Lemma sqlE n (u : 'cV[K]_n) : (adj u *m u) 0 0 = sql u.
Proof. rewrite mxE. apply: eq_bigr => k _. by rewrite mxE normCK mulrC. Qed.
Lemma sql_ge0 n (u : 'cV[K]_n) : 0 <= sql u.
Proof. apply: sumr_ge0 => k _. exact: exprn_ge0. Qed.
Lemma sql_eq0 n (u : 'cV[K]_n) : sql u = 0 -> u = 0.
Proof.
  move/eqP. rewrite psumr_eq0; last by move=> k _; exact: exprn_ge0. move/allP => H. apply/colP => k.
  have := H k (mem_index_enum _). by rewrite sqrf_eq0 normr_eq0 mxE => /eqP.
Qed.
Lemma adj_scalar (u : 'M[K]_1) : adj u = (u 0 0)^*%:M.
Proof. apply/matrixP => i j. by rewrite !mxE !ord1 eqxx mulr1n. Qed.

(** The reflection that takes x to r s e: u = (x - r s e) / l, where s is the length
    of x, |r| = 1, r* x_e is real, and l the length of x - r s e. *)
Lemma reflect_to n (y x : 'cV[K]_n) (e : 'I_n) (r s l : K) : `|r| = 1 -> s \is Num.real -> s ^+ 2 = sql x -> r^* * x e 0 \is Num.real ->
  let v := x - (r * s) *: delta_mx e 0 in
  (forall k, v k 0 != 0 -> y k 0 = x k 0) -> l ^+ 2 = sql v -> l \is Num.real -> l != 0 ->
  refl (l^-1 *: v) *m y = y - v.
Proof.
  move=> Hr Hs Es Hx v Hy El Rl Nl.
  have vy : adj v *m y = adj v *m x.
    apply/matrixP => i j. rewrite !mxE. apply: eq_bigr => k _. rewrite !ord1 adjE.
    case: (eqVneq (v k 0) 0) => [->|N]; first by rewrite rmorph0 !mul0r. by rewrite Hy.
  have ex : adj (delta_mx e 0 : 'cV[K]_n) *m x = (x e 0)%:M.
    apply/matrixP => i j. rewrite !ord1 !mxE eqxx mulr1n (bigD1 e) //= big1 ?addr0.
    - by rewrite !mxE !eqxx rmorph_nat mul1r.
    - move=> k Nk. by rewrite !mxE (negbTE Nk) rmorph0 mul0r.
  have xe : adj x *m (delta_mx e 0 : 'cV[K]_n) = (x e 0)^*%:M.
    by rewrite -[LHS]adjK adj_mul adjK ex adj_scalar mxE eqxx mulr1n.
  have ee : adj (delta_mx e 0 : 'cV[K]_n) *m (delta_mx e 0) = 1%:M.
    apply/matrixP => i j. rewrite !ord1 !mxE eqxx (bigD1 e) //= big1 ?addr0.
    - by rewrite !mxE !eqxx rmorph_nat mul1r.
    - move=> k Nk. by rewrite !mxE (negbTE Nk) rmorph0 mul0r.
  have xx : adj x *m x = (sql x)%:M by apply/matrixP => i j; rewrite !ord1 sqlE mxE eqxx mulr1n.
  have cs : s^* = s by apply/eqP; rewrite -CrealE.
  have rr : r^* * r = 1 by rewrite -normCKC Hr expr1n.
  have xr : (x e 0)^* * r = r^* * x e 0.
    apply/esym/eqP. move: Hx. rewrite CrealE rmorphM conjCK mulrC => /eqP <-. by [].
  have crs : (r * s)^* = r^* * s by rewrite rmorphM /= cs.
  have vx : (adj v *m x) 0 0 = s ^+ 2 - s * (r^* * x e 0).
    rewrite /v adj_sub mulmxBl xx -Es adj_scale -scalemxAl ex crs !mxE eqxx !mulr1n. exact: refl_id1.
  have vv : sql v = 2%:R * (s ^+ 2 - s * (r^* * x e 0)).
    rewrite -sqlE /v adj_sub mulmxBl !mulmxBr xx -Es adj_scale -!scalemxAl -!scalemxAr ex xe ee crs !mxE eqxx !mulr1n. rewrite mulr1 [r^* * s * (r * s)]mulrC. exact: refl_id2.
  have cl : (l^-1)^* = l^-1. { rewrite fmorphV. congr (_^-1). apply/eqP. by rewrite -CrealE. }
  have vx2 : (adj v *m x) 0 0 = l ^+ 2 / 2%:R by rewrite El vv mulrAC divff ?mul1r // pnatr_eq0.
  rewrite refl_app adj_scale -scalemxAl vy cl. congr (_ - _). apply/colP => k.
  rewrite !mxE big_ord1 !mxE -[\sum_j _]/(\sum_j (adj v) 0 j * x j 0). have -> : \sum_j (adj v) 0 j * x j 0 = l ^+ 2 / 2%:R by rewrite -vx2 mxE.
  have N2 : 2%:R != 0 :> K by rewrite pnatr_eq0.
  have -> : l^-1 * (l ^+ 2 / 2%:R) = l / 2%:R by rewrite expr2 -mulrA mulKf.
  move: (x k 0 - _) => w. by rewrite [l^-1 * _]mulrC [w / l * _]mulrA divfK // mulrC divfK.
Qed.
End Adjoint.
