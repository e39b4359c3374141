(** LUPlain.v: [lu_entries] and [lu_total] (LURound.v) in terms of the standard library. *)
From Verif Require Import LinalgFacts2 RingM DetFacts LURound.
From mathcomp Require Import all_ssreflect.
Set Implicit Arguments.
Unset Strict Implicit.
Unset Printing Implicit Defensive.
Lemma lu_plain (T : Type) (O : Ops T) (q : T -> T -> T) (A : MB T) (n : nat) (f : nat -> nat -> T) :
  (forall x d, odiv x d = Ok (q x d)) -> reads A n n f ->
  exists l u L U, lu_decomposition A = Ok (l, u) /\ is_mat l n n L /\ is_mat u n n U /\
  (forall j k, Peano.lt j n -> Peano.lt k n -> L j k = if Nat.ltb j k then o0 else osubs k (f j k) (fun t => omul (L j t) (U t k))) /\
  (forall k j, Peano.lt k n -> Peano.lt j n -> U k j = if Nat.ltb j k then o0 else if Nat.eqb j k then o1 else
     osubs k (q (f k j) (L k k)) (fun t => q (omul (L k t) (U t j)) (L k k))).
Proof.
  move=> Hq HA. have Hd d : divides O d by move=> x; exists (q x d).
  have [l [u E]] := lu_total HA Hd. have [L [U [Hl Hu HL HU]]] := lu_entries HA E.
  have Q x d : quo O x d = q x d by rewrite /quo Hq.
  exists l, u, L, U. do 3 (split; first done). split.
  - move=> j k /ltP Hj /ltP Hk. by rewrite HL // ltbE.
  - move=> k j /ltP Hk /ltP Hj. rewrite HU // ltbE nateqbE Q. case: ltnP => // _. case: eqP => // _. apply: osubs_eq => t _. by rewrite Q.
Qed.
