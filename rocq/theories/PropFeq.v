(** PropFeq.v: C65 and C66, the comparisons of feq.hpp over an ordered field. *)
From Verif Require Import MathFacts RingM Feq PropReal RatOps PropFieldEx.
From mathcomp Require Import all_ssreflect all_algebra.
Set Implicit Arguments.
Unset Strict Implicit.
Unset Printing Implicit Defensive.
Import Order.Theory GRing.Theory Num.Theory.
Local Open Scope ring_scope.

Section Feq.
Variable F : realFieldType.
Variable O : Ops F.
Hypothesis HO : realO O.
Hypothesis Habs : forall x : F, oabs x = `|x|.
Implicit Types (a b c k tol : F).
Let Hlt x y : olt x y = (x < y) :> bool. Proof. by case: HO. Qed.
Let Hle x y : ole x y = (x <= y) :> bool. Proof. by case: HO. Qed.
Let Hsub x y : osub x y = x - y :> F. Proof. by case: HO => -[[? ? ? []]]. Qed.
Let Hmul x y : omul x y = x * y :> F. Proof. by case: HO => -[[? ? ? []]]. Qed.

(** What is computed: |a - b| <= tol * max(|a|, |b|). *)
Theorem C65_formula tol a b : approximately_equal tol a b = (`|a - b| <= tol * Num.max `|a| `|b|).
Proof.
  by rewrite /approximately_equal /std_max !Habs Hle Hsub Hmul Hlt /Num.max /Order.max.
Qed.
Theorem C65_reflexive tol a : 0 <= tol -> approximately_equal tol a a.
Proof. move=> H. by rewrite C65_formula subrr normr0 mulr_ge0 // le_maxr normr_ge0. Qed.
Theorem C65_symmetric tol a b : approximately_equal tol a b = approximately_equal tol b a.
Proof. by rewrite !C65_formula distrC maxC. Qed.
(** Multiplying both values by the same non-zero number changes nothing. *)
Theorem C65_scale_invariant tol a b k : k != 0 -> approximately_equal tol (k * a) (k * b) = approximately_equal tol a b.
Proof.
  move=> H. have H0 : 0 < `|k| by rewrite normr_gt0.
  by rewrite !C65_formula -mulrBr !normrM -maxr_pmulr ?normr_ge0 // mulrCA ler_pmul2l.
Qed.
Theorem C65_opposite_signs tol a b : tol < 1 -> a < 0 -> 0 < b -> approximately_equal tol a b = false.
Proof.
  move=> Ht Ha Hb. rewrite C65_formula. apply/negbTE. rewrite -ltNge distrC (gtr0_norm (x := b - a)); last by rewrite subr_gt0 (lt_trans Ha).
  rewrite (ltr0_norm Ha) (gtr0_norm Hb). have M0 : 0 < Num.max (- a) b by rewrite lt_maxr Hb orbT.
  apply: (lt_trans (y := Num.max (- a) b)); first by rewrite -[X in _ < X]mul1r ltr_pmul2r.
  by rewrite lt_maxl addrC ltr_addl Hb ltr_addr oppr_gt0 Ha.
Qed.
Theorem C65_zero tol a : tol < 1 -> approximately_equal tol a 0 = (a == 0) /\ approximately_equal tol 0 a = (a == 0).
Proof.
  move=> Ht. rewrite (C65_symmetric tol 0) C65_formula subr0 normr0 max_l ?normr_ge0 //.
  have [->|N] := eqVneq a 0; first by rewrite normr0 mulr0 lexx.
  suff -> : (`|a| <= tol * `|a|) = false by [].
  apply/negbTE. by rewrite -ltNge -[X in _ < X]mul1r ltr_pmul2r // normr_gt0.
Qed.
(** A larger tolerance accepts more; from 2 on everything is accepted. *)
Theorem C65_monotone tol tol' a b : tol <= tol' -> approximately_equal tol a b -> approximately_equal tol' a b.
Proof.
  rewrite !C65_formula => H1 /le_trans; apply. by rewrite ler_wpmul2r // le_maxr normr_ge0.
Qed.
Theorem C65_tolerance_2 tol a b : 2%:R <= tol -> approximately_equal tol a b.
Proof.
  move=> H. apply: (C65_monotone H). rewrite C65_formula. apply: (le_trans (ler_norm_sub _ _)).
  by rewrite mulr2n mulrDl mul1r ler_add // le_maxr lexx ?orbT.
Qed.
(** No tolerance strictly between 0 and 1 makes the relation transitive. *)
Theorem C65_transitive_refuted tol : 0 < tol < 1 ->
  exists a b c, [/\ approximately_equal tol a b, approximately_equal tol b c & approximately_equal tol a c = false].
Proof.
  case/andP => H0 H1. have S0 : 0 < 1 - tol by rewrite subr_gt0.
  have step x : 0 < x -> approximately_equal tol ((1 - tol) * x) x.
    move=> Hx. rewrite C65_formula.
    have -> : (1 - tol) * x - x = - (tol * x) by rewrite mulrBl mul1r addrAC subrr add0r.
    by rewrite normrN normrM (gtr0_norm H0) ler_pmul2l // le_maxr lexx orbT.
  exists ((1 - tol) * (1 - tol)), (1 - tol), 1. split.
  - exact: step.
  - have := step 1. rewrite mulr1. by apply; apply: ltr01.
  - rewrite C65_formula. apply/negbTE. rewrite -ltNge normr1.
    have L1 : (1 - tol) * (1 - tol) < 1 by rewrite -[X in _ < X]mul1r ltr_pmul // ?ltW // ltr_subl_addr ltr_addl.
    rewrite distrC (gtr0_norm (x := 1 - _)) ?subr_gt0 // (gtr0_norm (x := _ * _)) ?mulr_gt0 // max_r ?(ltW L1) // mulr1.
    have -> : 1 - (1 - tol) * (1 - tol) = tol + (tol - tol * tol).
      rewrite mulrBl mul1r mulrBr mulr1 !opprB addrCA [1 + _]addrC subrK addrC //.
    by rewrite ltr_addl subr_gt0 -[X in _ < X]mulr1 ltr_pmul2l.
Qed.

(** approximately_equal_to_zero accepts exactly 0: small non-zero values are rejected. *)
Theorem C66_zero tol a : 0 <= tol < 1 -> approximately_equal_to_zero tol a = (a == 0).
Proof.
  case/andP => H0 H1. rewrite /approximately_equal_to_zero !Habs Hle Hmul.
  have [->|N] := eqVneq a 0; first by rewrite normr0 mulr0 lexx.
  apply/negbTE. by rewrite -ltNge -[X in _ < X]mul1r ltr_pmul2r // normr_gt0.
Qed.
Theorem C66_tolerance_1 tol a : 1 <= tol -> approximately_equal_to_zero tol a.
Proof.
  move=> H. rewrite /approximately_equal_to_zero !Habs Hle Hmul.
  by rewrite -[X in X <= _]mul1r ler_wpmul2r ?normr_ge0.
Qed.
(** The ordering variants. *)
Theorem C66_lesser tol a b : approximately_lesser_than_equal tol a b = (a < b) || (`|a - b| <= tol * Num.max `|a| `|b|).
Proof. by rewrite /approximately_lesser_than_equal C65_formula Hlt. Qed.
Theorem C66_greater tol a b : approximately_greater_than_equal tol a b = (b < a) || (`|a - b| <= tol * Num.max `|a| `|b|).
Proof. by rewrite /approximately_greater_than_equal C65_formula Hlt. Qed.
Theorem C66_total tol a b : 0 <= tol -> approximately_lesser_than_equal tol a b || approximately_greater_than_equal tol a b.
Proof.
  move=> H. rewrite /approximately_lesser_than_equal /approximately_greater_than_equal !Hlt.
  have [->|N] := eqVneq a b; first by rewrite C65_reflexive ?orbT.
  by move: N; rewrite neq_lt => /orP [->|->]; rewrite ?orbT.
Qed.
(** They never contradict the exact order, and both hold exactly on approximate equality. *)
Theorem C66_weaker tol a b : 0 <= tol ->
  (a <= b -> approximately_lesser_than_equal tol a b) /\ (b <= a -> approximately_greater_than_equal tol a b).
Proof.
  move=> H. rewrite /approximately_lesser_than_equal /approximately_greater_than_equal !Hlt. split.
  - rewrite le_eqVlt => /orP [/eqP ->|->] //. by rewrite C65_reflexive ?orbT.
  - rewrite le_eqVlt => /orP [/eqP ->|->] //. by rewrite C65_reflexive ?orbT.
Qed.
Theorem C66_both tol a b : approximately_lesser_than_equal tol a b && approximately_greater_than_equal tol a b = approximately_equal tol a b.
Proof.
  rewrite /approximately_lesser_than_equal /approximately_greater_than_equal !Hlt.
  by case: (ltgtP a b) => //= _; case: approximately_equal.
Qed.
Theorem C66_symmetric tol a b : approximately_lesser_than_equal tol a b = approximately_greater_than_equal tol b a.
Proof. by rewrite /approximately_lesser_than_equal /approximately_greater_than_equal C65_symmetric. Qed.
End Feq.

(** Rational examples; 1e-06 is the default tolerance. *)
Example C65_ex : approximately_equal (10%:R^-1) (9%:R : rat) 10%:R /\ approximately_equal (10%:R^-1) (8%:R : rat) 9%:R = false.
Proof. by vm_compute. Qed.
Example C65_trans_ex : exists a b c : rat, [/\ approximately_equal rtol a b, approximately_equal rtol b c & approximately_equal rtol a c = false].
Proof. exact: (C65_transitive_refuted rat_real (fun _ => erefl) rtol_lt1). Qed.
Example C66_ex k : approximately_equal_to_zero rtol ((10%:R ^+ k)^-1 : rat) = false /\ approximately_equal_to_zero rtol (0 : rat).
Proof.
  have H : 0 <= rtol < 1 by case/andP: rtol_lt1 => /ltW -> ->.
  have E (x : rat) := C66_zero rat_real (fun _ => erefl) x H. split.
  - apply: (etrans (E _)). apply/negbTE. by rewrite invr_eq0 expf_neq0.
  - by rewrite E.
Qed.
(** The element type used in the other examples compares with these functions. *)
Lemma ratops_feq (a b : rat) : ofeq a b = approximately_equal rtol a b /\ oisz a = approximately_equal_to_zero rtol a.
Proof. by rewrite /approximately_equal /std_max /=; split; rewrite // /Num.max /Order.max. Qed.
