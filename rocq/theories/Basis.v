(** Basis.v: utility.hpp, basis<T>(). *)
From Coq Require Import ZArith SpecFloat.
From Verif Require Import Base.
Local Open Scope Z_scope.

Section Basis.
Variable T : Type.
(** The arithmetic of T; an operation that is undefined gives [UB]. *)
Variables (add sub mul : T -> T -> Res T) (eqb : T -> T -> bool) (one two : T) (to_int : T -> Res Z).
(** utility.hpp:30-32: while ((x + eins) - x == eins) x *= 2; *)
Fixpoint basis_grow (fuel : nat) (x : T) : Res T :=
  match fuel with
  | O => Fuel
  | S fuel => let* s := add x one in let* d := sub s x in
              if eqb d one then let* x := mul x two in basis_grow fuel x else Ok x
  end.
(** utility.hpp:33-35: while ((x + b) == x) b *= 2; *)
Fixpoint basis_step (fuel : nat) (x b : T) : Res T :=
  match fuel with
  | O => Fuel
  | S fuel => let* s := add x b in
              if eqb s x then let* b := mul b two in basis_step fuel x b else Ok b
  end.
(** utility.hpp:27-37.  [Fuel]: the loops have not ended after that many rounds. *)
Definition basis (fuel : nat) : Res Z :=
  let* x := basis_grow fuel one in let* b := basis_step fuel x one in
  let* s := add x b in let* d := sub s x in to_int d.
End Basis.

(** Conversion of a floating-point number to a 32-bit int: truncation, undefined out of range. *)
Definition float_to_int (x : spec_float) : Res Z :=
  match x with
  | S754_zero _ => Ok 0
  | S754_finite s m e =>
      let z := cond_Zopp s (if 0 <=? e then Zpos m * 2 ^ e else Zpos m / 2 ^ (- e)) in
      if (- 2 ^ 31 <=? z) && (z <? 2 ^ 31) then Ok z else UB
  | _ => UB
  end.
(** basis<T>() for a floating-point type with [prec] binary digits and exponents below [emax]:
    float is 24 and 128, double 53 and 1024. *)
Definition basis_float (prec emax : Z) (fuel : nat) : Res Z :=
  basis spec_float (fun x y => Ok (SFadd prec emax x y)) (fun x y => Ok (SFsub prec emax x y)) (fun x y => Ok (SFmul prec emax x y))
    SFeqb (SFone prec emax) (binary_round prec emax false 1 1) float_to_int fuel.
(** For a signed type of w bits (int and wider): undefined when a result is out of range. *)
Definition basis_signed (w : Z) (fuel : nat) : Res Z :=
  let chk z := if (- 2 ^ (w - 1) <=? z) && (z <? 2 ^ (w - 1)) then Ok z else UB in
  basis Z (fun x y => chk (x + y)) (fun x y => chk (x - y)) (fun x y => chk (x * y)) Z.eqb 1 2 (fun z => Ok z) fuel.
(** For an unsigned type of w bits (unsigned int and wider): modulo 2^w. *)
Definition basis_unsigned (w : Z) (fuel : nat) : Res Z :=
  basis Z (fun x y => Ok ((x + y) mod 2 ^ w)) (fun x y => Ok ((x - y) mod 2 ^ w)) (fun x y => Ok ((x * y) mod 2 ^ w)) Z.eqb 1 2 (fun z => Ok z) fuel.
