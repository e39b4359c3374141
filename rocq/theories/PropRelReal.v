(** PropRelReal.v: C106 for rings and fields.  A homomorphism between two commutative rings
    commutes with the functions that add and multiply; an order-preserving one between two
    ordered fields commutes with every function.  In particular a computation with rational
    numbers gives the same as with real numbers. *)
From Verif Require Import Control MathFacts RingM RatOps PropReal Rel PropRel.
From mathcomp Require Import all_ssreflect all_algebra.
Set Implicit Arguments.
Unset Strict Implicit.
Unset Printing Implicit Defensive.
Import Order.Theory GRing.Theory Num.Theory.
Local Open Scope ring_scope.

Lemma hom_ring (A B : comRingType) (OA : Ops A) (OB : Ops B) (h : {rmorphism A -> B}) : ringO OA -> ringO OB -> (forall n, ofnat n = n%:R :> A) -> (forall n, ofnat n = n%:R :> B) ->
  same_ring OA OB (fun a b => b = h a).
Proof.
  move=> HA HB NA NB. split.
  - by rewrite (o0E HA) (o0E HB) rmorph0.
  - by rewrite (o1E HA) (o1E HB) rmorph1.
  - move=> a _ a' _ -> ->. by rewrite (oaddE HA) (oaddE HB) rmorphD.
  - move=> a _ a' _ -> ->. by rewrite (osubE HA) (osubE HB) rmorphB.
  - move=> a _ a' _ -> ->. by rewrite (omulE HA) (omulE HB) rmorphM.
  - move=> a _ ->. by rewrite (ooppE HA) (ooppE HB) rmorphN.
  - move=> n. by rewrite NA NB rmorph_nat.
Qed.
(** A homomorphism of rings: no order, no division. *)
Theorem C106_homomorphism (A B : comRingType) (OA : Ops A) (OB : Ops B) (h : {rmorphism A -> B}) : ringO OA -> ringO OB -> (forall n, ofnat n = n%:R :> A) -> (forall n, ofnat n = n%:R :> B) ->
  ring_agree OA OB (fun a b => b = h a).
Proof. move=> HA HB NA NB. exact: C106_ring (hom_ring h HA HB NA NB). Qed.
(** Complex conjugation, for one. *)
Theorem C106_conjugate (C : numClosedFieldType) (O : Ops C) : ringO O -> (forall n, ofnat n = n%:R :> C) -> ring_agree O O (fun a b => b = a^*).
Proof. move=> H N. exact: (@C106_homomorphism C C O O [rmorphism of @conjC C] H H N N). Qed.

Section Ordered.
Variables (F G : realFieldType) (h : {rmorphism F -> G}) (tol : F).
Hypothesis mono : forall a b : F, a <= b -> h a <= h b.
Lemma h_le a b : (h a <= h b) = (a <= b).
Proof.
  apply/idP/idP; last exact: mono. move=> H. case: (lerP a b) => // L. have := mono (ltW L) => H'.
  have E : h a = h b by apply/eqP; rewrite eq_le H H'. by rewrite (fmorph_inj h E) ltxx in L.
Qed.
Lemma h_lt a b : (h a < h b) = (a < b). Proof. by rewrite !ltNge h_le. Qed.
Lemma h_abs a : `|h a| = h `|a|.
Proof.
  have [H|H] := lerP 0 a.
    have K : 0 <= h a by rewrite -(rmorph0 h) h_le. by rewrite (ger0_norm K) (ger0_norm H).
  have K : h a < 0 by rewrite -(rmorph0 h) h_lt. by rewrite (ltr0_norm K) (ltr0_norm H) rmorphN.
Qed.
Lemma h_max a b : Num.max (h a) (h b) = h (Num.max a b).
Proof. rewrite !/Num.max h_lt. by case: (a < b). Qed.
Lemma ordered_same : [/\ same_ring (realops tol) (realops (h tol)) (fun a b => b = h a), same_div (realops tol) (realops (h tol)) (fun a b => b = h a) & same_order (realops tol) (realops (h tol)) (fun a b => b = h a)].
Proof.
  split.
  - by apply: hom_ring.
  - split=> a _ a' _ -> -> /=. rewrite fmorph_eq0. by case: (a' == 0) => //=; rewrite fmorph_div.
  - split=> /=.
    + move=> a _ a' _ -> ->. by rewrite (inj_eq (@fmorph_inj _ _ h)).
    + move=> a _ a' _ -> ->. by rewrite h_lt.
    + move=> a _ a' _ -> ->. by rewrite h_le.
    + move=> a _ a' _ -> ->. by rewrite -rmorphB !h_abs h_max -rmorphM h_le.
    + move=> a _ ->. by rewrite h_abs -rmorphM h_le.
    + move=> a _ ->. by rewrite h_abs.
Qed.
(** Everything, for an order-preserving homomorphism of ordered fields. *)
Theorem C106_ordered : [/\ moves_agree (realops tol) (realops (h tol)) (fun a b => b = h a), ring_agree (realops tol) (realops (h tol)) (fun a b => b = h a),
  div_agree (realops tol) (realops (h tol)) (fun a b => b = h a), order_agree (realops tol) (realops (h tol)) (fun a b => b = h a) & full_agree (realops tol) (realops (h tol)) (fun a b => b = h a)].
Proof.
  case: ordered_same => SR SD SO. split.
  - apply: C106_moves. by rewrite /= rmorph0.
  - exact: C106_ring.
  - exact: C106_division.
  - exact: C106_comparisons.
  - exact: C106_all.
Qed.
End Ordered.
(** Rational numbers in any ordered field. *)
Theorem C106_rational (G : realFieldType) (tol : rat) (R := fun (q : rat) (x : G) => x = ratr q) :
  [/\ moves_agree (realops tol) (realops (ratr tol)) R, ring_agree (realops tol) (realops (ratr tol)) R,
      div_agree (realops tol) (realops (ratr tol)) R, order_agree (realops tol) (realops (ratr tol)) R & full_agree (realops tol) (realops (ratr tol)) R].
Proof. apply: (@C106_ordered [realFieldType of rat] G [rmorphism of ratr] tol). by move=> a b; rewrite ler_rat. Qed.
(** ** Examples *)
(** The rational matrix and the same in the real algebraic numbers. *)
From Verif Require Import PropRelInt.
From mathcomp Require Import all_real_closed.
Example C106_ex_real : let m := qmat 2 2 (qrow [:: [:: 3%:R; -4%:R]; [:: 2%:R^-1; 0]]) in
  rmat (fun (q : rat) (x : realalg) => x = ratr q) m (each ratr m) /\ transpose (O := realops (ratr rtol)) (mb_of_mat (each ratr m)) = result (each (ratr : rat -> realalg)) (transpose (O := realops rtol) (mb_of_mat m)).
Proof.
  move=> m. split; first exact: each_rel. apply: rel_each. apply: r_transpose; first by rewrite /= rmorph0. apply: r_mat. exact: each_rel.
Qed.
(** A complex matrix and its conjugate. *)
Example C106_ex_conjugate (C : numClosedFieldType) : let m := mkM 1 2 [:: 'i; 1 + 'i : C] in rmat (fun a b => b = a^*) m (each conjC m) /\ data (each conjC m) = [:: - 'i; 1 - 'i].
Proof. move=> m. split; first exact: each_rel. by rewrite /= rmorphD rmorph1 conjCi. Qed.
