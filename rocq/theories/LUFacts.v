(** LUFacts.v: the equations of the LU loops over a field and what they imply. *)
From Verif Require Import LinalgFacts2 RingM DetFacts.
From mathcomp Require Import all_ssreflect all_algebra.
Set Implicit Arguments.
Unset Strict Implicit.
Unset Printing Implicit Defensive.
Import GRing.Theory.
Local Open Scope ring_scope.

Section LU.
Variables (F : fieldType) (O : Ops F).
Hypothesis HF : fieldO O.
Let HO : ringO O. Proof. by case: HF. Qed.
Implicit Types (f L U : nat -> nat -> F).

Lemma osubsE n (a : F) (s : nat -> F) : osubs n a s = a - \sum_(k < n) s k.
Proof.
  elim: n => [|n IH] /=; first by rewrite big_ord0 subr0.
  by rewrite (osubE HO) IH big_ord_recr /= opprD addrA.
Qed.

(** Columns below i of L and rows below i of U are as the algorithm defines them. *)
Definition lcol n f L U i : Prop := forall j k, (j < n)%N -> (k < i)%N ->
  L j k = if (j < k)%N then 0 else f j k - \sum_(t < k) L j t * U t k.
Definition urow n f L U i : Prop := forall k j, (k < i)%N -> (j < n)%N -> L k k != 0 ->
  U k j = if (j < k)%N then 0 else if j == k then 1 else (f k j - \sum_(t < k) L k t * U t j) / L k k.

Lemma lu_prod n f L U : lcol n f L U n -> urow n f L U n -> (forall i, (i < n)%N -> L i i != 0) ->
  fmx n n L *m fmx n n U = fmx n n f.
Proof.
  move=> HL HU Hd. apply/matrixP => i j. rewrite !mxE.
  under eq_bigr => t _ do rewrite !mxE.
  (* split the sum at p = min i j *)
  have split_at p (Hp : (p < n)%N) (g : nat -> F) : (forall t, (p < t)%N -> (t < n)%N -> g t = 0) ->
      \sum_(t < n) g t = \sum_(t < p) g t + g p.
    move=> Hz. rewrite -(big_mkord xpredT g) (@big_cat_nat _ _ _ p.+1) //= big_mkord big_ord_recr /=.
    rewrite [X in _ + X]big_nat_cond [X in _ + X]big1 ?addr0 // => t /andP [/andP [H1 H2] _]. exact: Hz.
  have Hi := ltn_ord i. have Hj := ltn_ord j.
  case: (ltnP i j) => Hij.
  - rewrite (split_at i Hi (fun t => L i t * U t j)); last first.
      by move=> t Ht Htn; rewrite (HL i t) // Ht mul0r.
    rewrite (HU i j Hi Hj (Hd i Hi)) ltnNge (ltnW Hij) /= eq_sym (ltn_eqF Hij) mulrC divfK ?Hd //.
    by rewrite addrC subrK.
  - rewrite (split_at j Hj (fun t => L i t * U t j)); last first.
      move=> t Ht Htn; rewrite (HU t j) //; last exact: Hd. by rewrite Ht mulr0.
    rewrite (HU j j Hj Hj (Hd j Hj)) ltnn eqxx mulr1 (HL i j Hi Hj) ltnNge Hij /=. by rewrite addrC subrK.
Qed.

Section Run.
Variables (A : MB F) (n : nat) (f : nat -> nat -> F).
Hypothesis HA : reads A n n f.
Definition lu_inv i (s : Mat.Matrix F * Mat.Matrix F) : Prop :=
  exists L U, [/\ is_mat s.1 n n L, is_mat s.2 n n U, lcol n f L U i & urow n f L U i].

Lemma lu_l_step i (l u : Mat.Matrix F) L U : (i < n)%N -> is_mat l n n L -> is_mat u n n U -> lcol n f L U i -> urow n f L U i ->
  exists l' L', [/\ lu_l A n i (l, u) = Ok (l', u), is_mat l' n n L', lcol n f L' U i.+1, urow n f L' U i &
    forall k, (k < i)%N -> L' k k = L k k].
Proof.
  move=> Hi Hl Hu HL HU. have [l' [E H]] := lu_l_ok A n f i l u L U HA Hl Hu (elimT ltP Hi).
  have H' : is_mat l' n n (fun a b => if b == i then (if (a < i)%N then 0 else f a i - \sum_(k < i) L a k * U k i) else L a b).
    apply: is_mat_ext; first exact: H. move=> a b _ _ /=. rewrite nateqbE ltbE osubsE (o0E HO).
    case: eqP => // _. case: ltnP => // _. congr (_ - _). by apply: eq_bigr => k _; rewrite (omulE HO).
  exists l'. eexists. split; [exact: E|exact: H'| | |].
  - move=> j k Hj. rewrite ltnS leq_eqVlt => /orP [/eqP ->|Hk].
      rewrite eqxx. case: ltnP => // _. congr (_ - _). apply: eq_bigr => t _. by rewrite (ltn_eqF (ltn_ord t)).
    rewrite (ltn_eqF Hk) (HL j k Hj Hk). case: ltnP => // _. congr (_ - _). apply: eq_bigr => t _.
    by rewrite (ltn_eqF (ltn_trans (ltn_ord t) Hk)).
  - move=> k j Hk Hj. rewrite (ltn_eqF Hk) => Hd. rewrite (HU k j Hk Hj Hd). case: ltnP => // _. case: eqP => // _.
    congr (_ / _). congr (_ - _). apply: eq_bigr => t _. by rewrite (ltn_eqF (ltn_trans (ltn_ord t) Hk)).
  - by move=> k Hk /=; rewrite (ltn_eqF Hk).
Qed.
Lemma lu_u_step i (l u : Mat.Matrix F) L U : (i < n)%N -> is_mat l n n L -> is_mat u n n U -> lcol n f L U i.+1 -> urow n f L U i -> L i i != 0 ->
  exists u' U', [/\ lu_u A n i (l, u) = Ok (l, u'), is_mat u' n n U', lcol n f L U' i.+1 & urow n f L U' i.+1].
Proof.
  move=> Hi Hl Hu HL HU Hd.
  have [|u' [E H]] := lu_u_ok A n f i l u L U (fun x => x / L i i) HA Hl Hu (elimT ltP Hi).
    by move=> x; case: HF => _ -> .
  have H' : is_mat u' n n (fun a b => if a == i then (if (b < i)%N then 0 else if b == i then 1 else (f i b - \sum_(k < i) L i k * U k b) / L i i) else U a b).
    apply: is_mat_ext; first exact: H. move=> a b _ _ /=. rewrite !nateqbE ltbE osubsE !(opsE HO).
    case: eqP => // _. case: ltnP => // _. case: eqP => // _. rewrite mulrBl. congr (_ - _). rewrite mulr_suml.
    by apply: eq_bigr => k _; rewrite (omulE HO).
  exists u'. eexists. split; [exact: E|exact: H'| |].
  - move=> j k Hj Hk. rewrite (HL j k Hj Hk). case: ltnP => // _. congr (_ - _). apply: eq_bigr => t _.
    by rewrite (ltn_eqF (leq_trans (ltn_ord t) _)) // -ltnS.
  - move=> k j. rewrite ltnS leq_eqVlt => /orP [/eqP ->|Hk] Hj Hd'.
      rewrite eqxx. case: ltnP => // _. case: eqP => // _. congr (_ / _). congr (_ - _). apply: eq_bigr => t _. by rewrite (ltn_eqF (ltn_ord t)).
    rewrite (ltn_eqF Hk) (HU k j Hk Hj Hd'). case: ltnP => // _. case: eqP => // _. congr (_ / _). congr (_ - _). apply: eq_bigr => t _.
    by rewrite (ltn_eqF (ltn_trans (ltn_ord t) Hk)).
Qed.
(** Whatever a division by zero yields, a completed step keeps the invariant. *)
Lemma lu_u_partial i (l u : Mat.Matrix F) L U s' : (i < n)%N -> is_mat l n n L -> is_mat u n n U -> lcol n f L U i.+1 -> urow n f L U i ->
  lu_u A n i (l, u) = Ok s' -> lu_inv i.+1 s'.
Proof.
  move=> Hi Hl Hu HL HU E. have [Hd|Hd] := eqVneq (L i i) 0; last first.
    have [u' [U' [E' H1 H2 H3]]] := lu_u_step Hi Hl Hu HL HU Hd. rewrite E' in E. case: E => <-. by exists L, U'.
  case: s' E => l' u' E. have [E1 [V [H1 H2]]] := lu_u_frame A n i l u U _ Hu (elimT ltP Hi) E. rewrite /= in E1 H1. subst l'.
  have H2' a b : (a < i)%N -> (b < n)%N -> V a b = U a b.
    move=> Ha Hb. apply: H2; [exact/ltP/(ltn_trans Ha)|exact/ltP|]. by move=> E'; rewrite E' ltnn in Ha.
  exists L, V. split=> //.
  - move=> j k Hj Hk. rewrite (HL j k Hj Hk). case: ltnP => // _. congr (_ - _). apply: eq_bigr => t _.
    rewrite H2' //; first by apply: (leq_trans (ltn_ord t)); rewrite -ltnS. exact: leq_trans Hk Hi.
  - move=> k j. rewrite ltnS leq_eqVlt => /orP [/eqP ->|Hk] Hj Hd'; first by rewrite Hd eqxx in Hd'.
    rewrite H2' // (HU k j Hk Hj Hd'). case: ltnP => // _. case: eqP => // _. congr (_ / _). congr (_ - _). apply: eq_bigr => t _.
    by rewrite H2' // (ltn_trans (ltn_ord t) Hk).
Qed.

Lemma lu_start : exists l, mat_new n n (o0 : F) = Ok l /\ lu_inv 0 (l, l).
Proof.
  have [_ [_ [_ [Hs _]]]] := HA. have [l [E H]] := mat_new_ok n n (o0 : F) Hs.
  exists l. split=> //. exists (fun _ _ => o0), (fun _ _ => o0). by split.
Qed.
Lemma lu_unfold : lu_decomposition A = (let* l := mat_new n n o0 in let* u := mat_new n n o0 in
  for_range 0 n (fun i s => let* s := lu_l A n i s in lu_u A n i s) (l, u)).
Proof. have [Ar [Ac _]] := HA. by rewrite /lu_decomposition /is_square Ar Ac Nat.eqb_refl. Qed.

Lemma lu_partial l u : lu_decomposition A = Ok (l, u) -> lu_inv n (l, u).
Proof.
  rewrite lu_unfold. have [l0 [-> H0]] := lu_start. rewrite /bind -/(bind _ _) => E.
  refine (for_range_partial lu_inv _ 0 n (l0, l0) (l, u) _ H0 E _); first exact/leP.
  move=> i [s1 s2] s' _ /ltP Hi [L [U [H1 H2 H3 H4]]]. rewrite /= in H1 H2.
  have [l' [L' [E' H1' H3' H4' _]]] := lu_l_step Hi H1 H2 H3 H4. rewrite E' /=. exact: lu_u_partial H1' H2 H3' H4'.
Qed.
(** Leading principal minors non-zero: no division by zero occurs. *)
Lemma lu_total : (forall i, (i < n)%N -> \det (fmx i.+1 i.+1 f) != 0) ->
  exists l u L U, [/\ lu_decomposition A = Ok (l, u), is_mat l n n L, is_mat u n n U & [/\ lcol n f L U n, urow n f L U n & forall i, (i < n)%N -> L i i != 0]].
Proof.
  move=> Hm. rewrite lu_unfold. have [l0 [-> [L0 [U0 [H1 H2 H3 H4]]]]] := lu_start. rewrite /bind -/(bind _ _).
  pose P i (s : Mat.Matrix F * Mat.Matrix F) := exists L U, [/\ is_mat s.1 n n L, is_mat s.2 n n U & [/\ lcol n f L U i, urow n f L U i & forall k, (k < i)%N -> L k k != 0]].
  have [||i [l u] Hi [L [U [Hl Hu [HL HU Hd]]]]|[l u] [E [L [U [Hl Hu [HL HU Hd]]]]]] :=
    for_range_inv P 0 n (fun i s => let* s := lu_l A n i s in lu_u A n i s) (l0, l0).
  - exact/leP.
  - exists L0, U0. by split.
  - rewrite /= in Hl Hu. have {}Hi : (i < n)%N by apply/ltP; case: Hi.
    have [l' [L' [E' Hl' HL' HU' Hd']]] := lu_l_step Hi Hl Hu HL HU. rewrite E' [bind _ _]/=.
    have Hp : L' i i != 0.
      (* the leading block of order i+1 is L' times U with a unit row i *)
      pose U1 a b := if a == i then (b == i)%:R else U a b.
      have HLp : lcol i.+1 f (fun a b => L' a b) U1 i.+1.
        move=> j k Hj Hk. rewrite (HL' j k) //; last exact: leq_trans Hi. case: ltnP => // _. congr (_ - _). apply: eq_bigr => t _.
        by rewrite /U1 (ltn_eqF (leq_trans (ltn_ord t) _)) // -ltnS.
      apply/negP => /eqP Z.
      have HUp (k j : nat) : (k < i.+1)%N -> (j < i.+1)%N -> U1 k j = if (j < k)%N then 0 else if j == k then 1 else (f k j - \sum_(t < k) L' k t * U1 t j) / L' k k.
        rewrite ltnS leq_eqVlt => /orP [/eqP ->|Hk] Hj.
          rewrite /U1 eqxx. move: Hj; rewrite ltnS leq_eqVlt => /orP [/eqP ->|Hj]; first by rewrite eqxx ltnn.
          by rewrite (ltn_eqF Hj) Hj.
        rewrite {1}/U1 (ltn_eqF Hk) (HU' k j Hk); [|exact: leq_trans Hi|by rewrite Hd' // Hd].
        case: ltnP => // _. case: eqP => // _. congr (_ / _). congr (_ - _). apply: eq_bigr => t _.
        by rewrite /U1 (ltn_eqF (ltn_trans (ltn_ord t) Hk)).
      have D : \det (fmx i.+1 i.+1 f) = 0.
        (* perturb nothing: compute the product directly *)
        have -> : fmx i.+1 i.+1 f = fmx i.+1 i.+1 L' *m fmx i.+1 i.+1 U1.
          apply/esym/matrixP => a b. rewrite !mxE. under eq_bigr => t _ do rewrite !mxE.
          have split_at p (Hp : (p < i.+1)%N) (g : nat -> F) : (forall t, (p < t)%N -> (t < i.+1)%N -> g t = 0) ->
              \sum_(t < i.+1) g t = \sum_(t < p) g t + g p.
            move=> Hz. rewrite -(big_mkord xpredT g) (@big_cat_nat _ _ _ p.+1) //= big_mkord big_ord_recr /=.
            rewrite [X in _ + X]big_nat_cond [X in _ + X]big1 ?addr0 // => t /andP [/andP [Ha Hb] _]. exact: Hz.
          have Ha := ltn_ord a. have Hb := ltn_ord b.
          case: (ltnP a b) => Hab.
          + have Hai : (a < i)%N by apply: (leq_trans Hab); rewrite -ltnS.
            rewrite (split_at a Ha (fun t => L' a t * U1 t b)); last by move=> t Ht Htn; rewrite (HLp a t) // Ht mul0r.
            rewrite (HUp a b Ha Hb) ltnNge (ltnW Hab) /= eq_sym (ltn_eqF Hab) mulrC divfK; last by rewrite Hd' // Hd.
            by rewrite addrC subrK.
          + rewrite (split_at b Hb (fun t => L' a t * U1 t b)); last by move=> t Ht Htn; rewrite (HUp t b) // Ht mulr0.
            rewrite (HUp b b Hb Hb) ltnn eqxx mulr1 (HLp a b Ha Hb) ltnNge Hab /=. by rewrite addrC subrK.
        rewrite det_mulmx det_trig; last first.
          apply/is_trig_mxP => a b Hab. rewrite mxE (HLp a b (ltn_ord a) (ltn_ord b)). by rewrite Hab.
        by rewrite (bigD1 ord_max) //= mxE /= Z mul0r mul0r.
      by have := Hm i Hi; rewrite D eqxx.
    have [u' [U' [E2 Hu' HL2 HU2]]] := lu_u_step Hi Hl' Hu HL' HU' Hp. exists (l', u'). split=> //.
    exists L', U'. split=> //. split=> // k. rewrite ltnS leq_eqVlt => /orP [/eqP -> //|Hk]. by rewrite Hd' // Hd.
  - by exists l, u, L, U.
Qed.
End Run.
End LU.
