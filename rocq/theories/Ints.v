(** Ints.v: C++ integers of w bits as element types (w is 32 or 64 in practice: narrower
    types are promoted to int first).  Signed arithmetic outside the range is undefined:
    [None] marks a value that depends on such an operation.  Unsigned arithmetic is modulo
    2^w. *)
From Verif Require Import Linalg.
Local Open Scope Z_scope.

Definition in_range (w z : Z) : Prop := - 2 ^ (w - 1) <= z < 2 ^ (w - 1).
Definition in_rangeb (w z : Z) : bool := (- 2 ^ (w - 1) <=? z) && (z <? 2 ^ (w - 1)).
Definition checked (w z : Z) : option Z := if in_rangeb w z then Some z else None.
Definition lift2 (w : Z) (g : Z -> Z -> Z) (x y : option Z) : option Z :=
  match x, y with Some a, Some b => checked w (g a b) | _, _ => None end.
(** Signed integers.  Comparisons with an undefined value are given the value false. *)
Definition sops (w : Z) : Ops (option Z) := {|
  o0 := Some 0; o1 := Some 1; oadd := lift2 w Z.add; osub := lift2 w Z.sub; omul := lift2 w Z.mul;
  oopp := fun x => lift2 w Z.sub (Some 0) x;
  odiv := fun x y => match x, y with
    | Some a, Some b => if b =? 0 then UB else if in_rangeb w (Z.quot a b) then Ok (Some (Z.quot a b)) else UB
    | _, _ => Ok None end;
  oeq := fun x y => match x, y with Some a, Some b => a =? b | _, _ => false end;
  olt := fun x y => match x, y with Some a, Some b => a <? b | _, _ => false end;
  ole := fun x y => match x, y with Some a, Some b => a <=? b | _, _ => false end;
  ofeq := fun x y => match x, y with Some a, Some b => a =? b | _, _ => false end;
  oisz := fun x => match x with Some a => a =? 0 | None => false end;
  oabs := fun x => match x with Some a => checked w (Z.abs a) | None => None end;
  ofnat := fun n => checked w (Z.of_nat n) |}.
(** Unsigned integers, represented by 0 ... 2^w - 1. *)
Definition uops (w : Z) : Ops Z := {|
  o0 := 0; o1 := 1 mod 2 ^ w; oadd := fun a b => (a + b) mod 2 ^ w; osub := fun a b => (a - b) mod 2 ^ w;
  omul := fun a b => (a * b) mod 2 ^ w; oopp := fun a => (- a) mod 2 ^ w;
  odiv := fun a b => if b =? 0 then UB else Ok (a / b);
  oeq := Z.eqb; olt := Z.ltb; ole := Z.leb; ofeq := Z.eqb; oisz := fun a => a =? 0; oabs := fun a => a;
  ofnat := fun n => Z.of_nat n mod 2 ^ w |}.
(** linalg.hpp:36-40 with T signed, and with T unsigned. *)
Fixpoint factorial_s (w : Z) (fuel : nat) (n : Z) : Res (option Z) :=
  if n <=? 0 then Ok (Some 1)
  else match fuel with
       | O => Fuel
       | S fuel => let* x := factorial_s w fuel (n - 1) in Ok (lift2 w Z.mul (Some n) x)
       end.
Fixpoint factorial_u (w : Z) (fuel : nat) (n : Z) : Res Z :=
  if n <=? 0 then Ok (1 mod 2 ^ w)
  else match fuel with
       | O => Fuel
       | S fuel => let* x := factorial_u w fuel ((n - 1) mod 2 ^ w) in Ok ((n * x) mod 2 ^ w)
       end.
