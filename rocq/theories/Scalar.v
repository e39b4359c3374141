(** Scalar.v: concrete element types used in examples and refutations. *)
From Verif Require Import Base Mat.

(** Mathematical integers; C++ [/] truncates towards zero.  Signed overflow is not
    modelled.  [ofeq] is [==] for integral types (math.hpp:320-327); [oisz]:
    [std::abs(a) <= 1e-6 * std::abs(a)] holds exactly for 0. *)
#[global] Instance zops : Ops Z := {
  o0 := 0%Z; o1 := 1%Z; oadd := Z.add; osub := Z.sub; omul := Z.mul; oopp := Z.opp;
  odiv := fun a b => if Z.eqb b 0 then UB else Ok (Z.quot a b);
  oeq := Z.eqb; olt := Z.ltb; ole := Z.leb; ofeq := Z.eqb; oisz := Z.eqb 0;
  oabs := Z.abs; ofnat := Z.of_nat }.

(** size_t values as elements of [Matrix<std::size_t>] (utility.hpp:937): arithmetic
    wraps modulo 2^64. *)
#[global] Instance natops : Ops nat := {
  o0 := 0; o1 := 1; oadd := add64; osub := sub64; omul := mul64; oopp := sub64 0;
  odiv := fun a b => if b =? 0 then UB else Ok (a / b);
  oeq := Nat.eqb; olt := Nat.ltb; ole := Nat.leb; ofeq := Nat.eqb; oisz := Nat.eqb 0;
  oabs := fun x => x; ofnat := fun n => n }.

(** Elements of [Matrix<bool>] / [Vector<bool>]: arithmetic on int, converted back. *)
#[global] Instance boolops : Ops bool := {
  o0 := false; o1 := true; oadd := orb; osub := xorb; omul := andb; oopp := fun b => b;
  odiv := fun a b => if b then Ok a else UB;
  oeq := Bool.eqb; olt := fun a b => negb a && b; ole := fun a b => negb a || b;
  ofeq := Bool.eqb; oisz := negb; oabs := fun x => x; ofnat := fun n => negb (n =? 0) }.
