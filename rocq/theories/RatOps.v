(** RatOps.v: exact rational numbers as an element type, for the examples of the ring
    and field theorems.  Comparison with tolerance is the formula of feq.hpp:15-62
    with tolerance 1e-6; dividing by zero has no value. *)
From Verif Require Import MathFacts RingM.
From mathcomp Require Import all_ssreflect all_algebra.
Set Implicit Arguments.
Unset Strict Implicit.
Unset Printing Implicit Defensive.
Import Order.Theory GRing.Theory Num.Theory.
Local Open Scope ring_scope.

Definition rtol : rat := (10%:R ^+ 6)^-1.
#[global] Instance ratops : Ops rat := {
  o0 := 0; o1 := 1; oadd := +%R; osub := fun a b => a - b; omul := *%R; oopp := -%R;
  odiv := fun a b => if b == 0 then UB else Ok (a / b);
  oeq := fun a b => a == b; olt := fun a b => a < b; ole := fun a b => a <= b;
  ofeq := fun a b => `|a - b| <= rtol * Num.max `|a| `|b|; oisz := fun a => `|a| <= rtol * `|a|;
  oabs := fun a => `|a|; ofnat := fun n => n%:R }.

Lemma rat_ring : ringO ratops. Proof. by []. Qed.
Lemma rat_field : fieldO ratops.
Proof. split=> // x y /= N. by rewrite (negbTE N). Qed.
Lemma tol_lt1 (x : rat) k : 1 < x -> (0 < k)%N -> 0 < (x ^+ k)^-1 < 1.
Proof.
  move=> H Hk. have H0 : 0 < x := lt_trans ltr01 H. have H1 := exprn_gt0 k H0.
  by rewrite invr_gt0 H1 invf_lt1 // exprn_egt1 // -lt0n.
Qed.
Lemma rtol_lt1 : 0 < rtol < 1.
Proof. exact: tol_lt1. Qed.
Opaque rtol.
Lemma rat_isz (x : rat) : oisz x = (x == 0).
Proof.
  rewrite /=. have [->|N] := eqVneq x 0; first by rewrite normr0 mulr0.
  apply/negbTE. rewrite -ltNge. rewrite -[X in _ < X]mul1r ltr_pmul2r ?normr_gt0; last exact: N.
  by case/andP: rtol_lt1.
Qed.
(** A concrete matrix from its rows. *)
Definition qrow (l : seq (seq rat)) (i j : nat) : rat := seq.nth 0 (seq.nth [::] l i) j.
Definition qmat (r c : nat) (f : nat -> nat -> rat) : Mat.Matrix rat :=
  mkM r c [seq f (k %/ c)%N (k %% c)%N | k <- iota 0 (r * c)].
Lemma qmat_ok r c f : shape_ok r c -> is_mat (qmat r c f) r c f.
Proof.
  move=> Hs. split=> //; split=> //; split=> //; split.
    by rewrite /qmat /= -[length _]/(size _) size_map size_iota.
  move=> i j /ssrnat.ltP Hi /ssrnat.ltP Hj /=.
  have Hk : (i * c + j < r * c)%N by apply: (@leq_trans (i.+1 * c)); [rewrite mulSn addnC ltn_add2r|rewrite leq_mul2r Hi orbT].
  have E (l : seq rat) k : (k < size l)%N -> List.nth_error l k = Some (seq.nth 0 l k).
    elim: l k => [|x l IH] [|k] //= H. exact: IH.
  rewrite E ?size_map ?size_iota //. rewrite (nth_map 0%N) ?size_iota // nth_iota // add0n.
  by rewrite divnMDl ?(leq_ltn_trans _ Hj) // divn_small // addn0 modnMDl modn_small.
Qed.
