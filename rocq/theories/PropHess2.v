(** PropHess2.v: when eigen::hessenberg gives a unitary P and a Hessenberg H (C97). *)
From Verif Require Import MathFacts MatFacts Util UtilFacts2 PropUtil PropMath MathM ControlFacts RingM DetFacts PropRing PropReal PropControl PropControl2 QR PropQR Eigen.
From mathcomp Require Import all_ssreflect all_algebra.
From Verif Require Import EigenMath PropHess.
Set Implicit Arguments.
Unset Strict Implicit.
Unset Printing Implicit Defensive.
Import Order.Theory GRing.Theory Num.Theory.
Local Open Scope ring_scope.

Section Hess2.
Variables (K : numClosedFieldType) (U : rcfType) (emb : {rmorphism U -> K}) (OC : Ops K) (OU : Ops U).
Variables (cnorm cabs : K -> U) (conj : K -> K) (ofr : U -> K).
Hypothesis HC : complexO emb OC OU cnorm cabs conj ofr.

Let HF : fieldO OC. Proof. by case: HC. Qed.
Let HO : ringO OC. Proof. by case: HF. Qed.
Let Habs z : emb (cabs z) = `|z|. Proof. by case: HC => _ _ _ []. Qed.

(** The elements below the first subdiagonal are zero, in the first m columns. *)
Definition hessk n (m : nat) (M : 'M[K]_n) : Prop := forall a b : 'I_n, (b < m)%N -> (b.+1 < a)%N -> M a b = 0.

Lemma unit_scaled n (v : 'cV[K]_n) l : emb l ^+ 2 = sql v -> l != 0 -> adj ((emb l)^-1 *: v) *m ((emb l)^-1 *: v) = 1%:M.
Proof.
  move=> El Nl. have Nl' : emb l != 0 by rewrite fmorph_eq0.
  rewrite adj_scale -scalemxAl -scalemxAr scalerA. apply/matrixP => i j. rewrite !ord1 mxE sqlE -El mxE eqxx mulr1n.
  have -> : ((emb l)^-1)^* = (emb l)^-1. { rewrite fmorphV. congr (_^-1). apply/eqP. rewrite -CrealE. exact: (emb_real HC). }
  by rewrite -expr2 exprVn mulVf // expf_neq0.
Qed.

Lemma hess_small n (M : 'M[K]_n) (k e : 'I_n) : nat_of_ord e = k.+1 ->
  exists e0 (w : 'cV[K]_n), [/\ 0 < e0, (forall eps, 0 < eps -> eps <= e0 -> refl (hu emb cnorm cabs eps M k e) = refl w),
    unitary (refl w), (forall i : 'I_n, (i <= k)%N -> w i 0 = 0) & forall i : 'I_n, (k.+1 < i)%N -> (refl w *m M) i k = 0].
Proof.
  move=> Ee. set x := hcolk M k. set z := x e 0. set rho := if z == 0 then 1 else - z / emb (cabs z).
  set v := x - (rho * emb (clen cnorm x)) *: delta_mx e 0. set w := (emb (clen cnorm v))^-1 *: v.
  have ca0 : z != 0 -> 0 < cabs z by rewrite (cabs_gt0 HC).
  have cl0 : v != 0 -> clen cnorm v != 0 by move=> Nv; apply: contraNneq Nv => /(clen_eq0 HC) ->.
  have cl0' : v != 0 -> 0 < clen cnorm v by move=> Nv; rewrite lt_def cl0 // (clen_ge0 cnorm v).
  have vlow (i : 'I_n) : (i <= k)%N -> v i 0 = 0.
    move=> L. rewrite !mxE [(k < i)%N]ltnNge L. have -> : (i == e) = false by apply/negbTE/eqP => E; move: L; rewrite E Ee ltnn.
    by rewrite mulr0 subr0.
  have vhigh (i : 'I_n) : (k.+1 < i)%N -> v i 0 = M i k.
    move=> L. rewrite !mxE ltnW //. have -> : (i == e) = false by apply/negbTE/eqP => E; move: L; rewrite E Ee ltnn.
    by rewrite mulr0 subr0.
  exists (Num.min (if z == 0 then 1 else cabs z / 2%:R) (if v == 0 then 1 else clen cnorm v)), w. split.
  - rewrite lt_minr. apply/andP. split.
    + case: (eqVneq z 0) => [_|N]; first exact: ltr01. apply: divr_gt0; [exact: ca0|by rewrite ltr0n].
    + case: (eqVneq v 0) => [_|N]; [exact: ltr01|exact: cl0'].
  - move=> eps E0. rewrite le_minr => /andP [E1 E2].
    have Er : hrho emb cabs eps z = rho.
      rewrite /hrho /rho. case: (eqVneq z 0) E1 => [->|N E1]; first by rewrite (cabs0 HC) lt_gtF.
      have -> : eps < cabs z. { apply: le_lt_trans E1 _. rewrite ltr_pdivr_mulr ?ltr0n //. by rewrite ltr_pmulr ?ca0 // ltr1n. }
      by [].
    rewrite /hu /hv -/x -/z Er -/v /hl. case: (eqVneq v 0) E2 => [Ev _|N E2]; first by rewrite /w Ev !scaler0.
    by rewrite ltNge E2.
  - apply: refl_unitary. case: (eqVneq v 0) => [Ev|N]; [right; by rewrite /w Ev scaler0|left].
    apply: unit_scaled; [exact: (clen_sq HC)|exact: cl0].
  - move=> i L. by rewrite mxE vlow // mulr0.
  - move=> i L. have -> : (refl w *m M) i k = (refl w *m col k M) i 0 by rewrite [LHS]mxE [RHS]mxE; apply: eq_bigr => j _; rewrite [col k M _ _]mxE.
    case: (eqVneq v 0) => [Ev|N]; first by rewrite /w Ev scaler0 refl0 mul1mx mxE -vhigh // Ev mxE.
    rewrite /w (@reflect_to K n (col k M) x e rho (emb (clen cnorm x)) (emb (clen cnorm v))).
    + rewrite -/v mxE [X in X + _]mxE [X in _ + X]mxE vhigh //. exact: subrr.
    + rewrite /rho. case: (eqVneq z 0) => [_|Nz]; first by rewrite normr1.
      rewrite normrM normrN normfV Habs normr_id divff // normr_eq0 //.
    + exact: (emb_real HC).
    + exact: (clen_sq HC).
    + rewrite -/z /rho. case: (eqVneq z 0) => [->|Nz]; first by rewrite mulr0 real0.
      rewrite rmorphM rmorphN fmorphV /= -mulrA [_^-1 * z]mulrC mulrA mulNr -normCKC Habs.
      apply: rpredM; last by rewrite rpredV CrealE conjCK; apply/eqP/esym/CrealP; exact: normr_real.
      by rewrite rpredN rpredX // normr_real.
    + move=> i' /= Nv. rewrite !mxE ifT //. rewrite ltnNge. apply: contra Nv => L'. by rewrite -/v vlow.
    + exact: (clen_sq HC).
    + exact: (emb_real HC).
    + by rewrite fmorph_eq0 cl0.
Qed.
Lemma hess_next n (M : 'M[K]_n) (w : 'cV[K]_n) (k : 'I_n) : (forall i : 'I_n, (i <= k)%N -> w i 0 = 0) ->
  (forall i : 'I_n, (k.+1 < i)%N -> (refl w *m M) i k = 0) -> hessk k M -> hessk k.+1 (refl w *m (M *m refl w)).
Proof.
  move=> Hw Hk HM a b. rewrite ltnS => Lb La. rewrite mulmxA.
  have -> : (refl w *m M *m refl w) a b = (refl w *m M) a b.
    rewrite mxE (bigD1 b) //= big1 ?addr0.
    - by rewrite reflE Hw // rmorph0 mulr0 subr0 eqxx mulr1.
    - move=> c Nc. by rewrite reflE (Hw b) // rmorph0 mulr0 subr0 (negbTE Nc) mulr0.
  move: Lb. rewrite leq_eqVlt => /orP [/eqP/ord_inj Eb|Lb]; first by rewrite Eb; apply: Hk; rewrite -Eb.
  rewrite refl_app. have -> : (M - 2%:R *: (w *m (adj w *m M))) a b = M a b - 2%:R * (w *m (adj w *m M)) a b by rewrite !mxE.
  have -> : (w *m (adj w *m M)) a b = w a 0 * (adj w *m M) 0 b by rewrite mxE big_ord1.
  have -> : (adj w *m M) 0 b = 0.
    rewrite mxE big1 // => c _. case: (leqP c k) => Lc; first by rewrite adjE Hw // rmorph0 mul0r.
    by rewrite HM ?mulr0 //; exact: leq_ltn_trans Lc.
  by rewrite mulr0 mulr0 subr0 HM.
Qed.

(** For every square A there is a bound such that, for every machine epsilon up to it,
    hessenberg returns the same unitary P and Hessenberg H, and A = P H P*. *)
Theorem C97_hessenberg n (MA : 'M[K]_n) : (0 < n)%N -> shape_ok n n ->
  exists (e0 : U) (MP MH : 'M[K]_n), [/\ 0 < e0, unitary MP, MA = MP *m MH *m adj MP,
    (forall a b : 'I_n, (b.+1 < a)%N -> MH a b = 0) &
    forall eps (A : Mat.Matrix K), 0 < eps -> eps <= e0 -> is_mx A MA ->
      exists P H, [/\ hessenberg cnorm cabs conj ofr Num.sqrt eps A = Ok (P, H), is_mx P MP & is_mx H MH]].
Proof.
  move=> Hn Hs. have [J [EJ HJ _]] := identity_mx HO Hn Hs.
  have Main m : (m <= n - 2)%N -> exists (e0 : U) (MP MH : 'M[K]_n), [/\ 0 < e0, unitary MP, MA = MP *m MH *m adj MP, hessk m MH &
    forall eps (A : Mat.Matrix K), 0 < eps -> eps <= e0 -> is_mx A MA ->
      exists P H, [/\ for_range 0 m (hess_step cnorm cabs conj ofr Num.sqrt eps n) (J, A) = Ok (P, H), is_mx P MP & is_mx H MH]].
    elim: m => [|m IH] Hm.
    - exists 1, 1%:M, MA. split; [exact: ltr01|exact: unitary1|by rewrite adj1 mul1mx mulmx1|by move=> a b; rewrite ltn0|].
      move=> eps A _ _ HA. exists J, A. split=> //.
    - have [e1 [MP [MH [P1 UP EA HH IH']]]] := IH (ltnW Hm).
      have Lm : (m.+1 < n)%N by move: Hm; rewrite ltn_subRL addnC addn2 => Hm; exact: leq_trans Hm.
      have Lm' : (m < n)%N by exact: ltnW.
      have [e2 [w [P2 E2 UW Hw Hz]]] := @hess_small n MH (Ordinal Lm') (Ordinal Lm) erefl.
      exists (Num.min e1 e2), (MP *m refl w), (refl w *m (MH *m refl w)). split.
      + by rewrite lt_minr P1.
      + exact: unitaryM.
      + rewrite adj_mul refl_herm EA !mulmxA. have Ew : refl w *m refl w = 1%:M by move: UW; rewrite /unitary refl_herm.
        by rewrite -[MP *m refl w *m refl w]mulmxA Ew mulmx1 -[MP *m MH *m refl w *m refl w]mulmxA Ew mulmx1.
      + exact: (@hess_next n MH w (Ordinal Lm')).
      + move=> eps A E0. rewrite le_minr => /andP [L1 L2] HA. have [P [H [Es HP HHm]]] := IH' eps A E0 L1 HA.
        rewrite for_range_last; last exact: Nat.le_0_l. rewrite Es bindOk.
        have [P' [H' [Es' HP' HH']]] := hess_step_ok HC E0 (k := Ordinal Lm') (e := Ordinal Lm) HP HHm erefl.
        rewrite (E2 _ E0 L2) in HP' HH'. exists P', H'. split=> //.
  have [e0 [MP [MH [P0 UP EA HH He]]]] := Main (n - 2)%N (leqnn _).
  exists e0, MP, MH. split=> //.
  - move=> a b L. apply: HH => //. rewrite ltn_subRL. have := ltn_ord a. move: L. rewrite addnC addn2. exact: leq_ltn_trans.
  - move=> eps A E0 L HA. have [P [H [Es HP HHm]]] := He eps A E0 L HA. have [Er _] := HA.
    exists P, H. split=> //. by rewrite /hessenberg Er EJ bindOk (mat_copy_ok _ _ _ _ HA) bindOk.
Qed.
End Hess2.
