(** IntInv.v: inverse and div of integer matrices.  There data_type_t (linalg.hpp:238) is
    double: the determinant and the adjoint are computed in the integer type, each is converted
    to double, and only the division is one of doubles. *)
From Coq Require Import ZArith SpecFloat.
From Verif Require Import Linalg Mixed Ints Float.
Local Open Scope nat_scope.

(** The conversion of an integer to double: the nearest double.  [None] is a value that depends on
    signed arithmetic out of range. *)
Definition z_double (z : Z) : double := binary_normalize prec64 emax64 z 0 false.
Definition int_double (x : option Z) : Res double := match x with Some z => Ok (z_double z) | None => UB end.
(** linalg.hpp:231-257; [O] is the arithmetic of the integer type and tol the tolerance of
    feq.hpp:15-19. *)
Definition inverse_in (O : Ops (option Z)) (tol : double) (A : MB (option Z)) : Res (Matrix double) :=
  if negb (is_square A) then Throw
  else
    let* d := @determinant _ O A in
    let* det := int_double d in
    if @oisz _ (fops tol) det then Ok mat_empty
    else
      let* adj := @adjoint _ O A in
      let* m := @mat_new _ (fops tol) (mrows A) (mcols A) (S754_zero false) in
      fill_rc (mrows A) (mcols A) (fun r c => let* x := mat_at adj r c in let* x := int_double x in @odiv _ (fops tol) x det) m.
(** linalg.hpp:377-381 with T1 and T2 integer types: the elements of A are converted
    (math.hpp:177-197).  The elements of a program's matrix are defined, so the value for
    [None] does not matter. *)
Definition elem_double (x : option Z) : double := match x with Some z => z_double z | None => nan end.
Definition div_in (O : Ops (option Z)) (tol : double) (A B : MB (option Z)) : Res (Matrix double) :=
  let* m := inverse_in O tol B in @m_mul _ (fops tol) (mb_conv elem_double A) (mb_of_mat m).
(** Signed integers of w bits. *)
Definition inverse_int (w : Z) := inverse_in (sops w).
Definition div_int (w : Z) := div_in (sops w).
(** The same with two's complement wrapping instead of undefined results: not what the language
    promises, but what compilers usually produce. *)
Definition wrap (w z : Z) : Z := (z + 2 ^ (w - 1)) mod 2 ^ w - 2 ^ (w - 1).
Definition wlift (w : Z) (g : Z -> Z -> Z) (x y : option Z) : option Z :=
  match x, y with Some a, Some b => Some (wrap w (g a b)) | _, _ => None end.
Definition wops (w : Z) : Ops (option Z) := {|
  o0 := Some 0%Z; o1 := Some 1%Z; oadd := wlift w Z.add; osub := wlift w Z.sub; omul := wlift w Z.mul;
  oopp := fun x => wlift w Z.sub (Some 0%Z) x;
  odiv := fun x y => match x, y with Some a, Some b => if (b =? 0)%Z then UB else Ok (Some (wrap w (Z.quot a b))) | _, _ => Ok None end;
  oeq := @oeq _ (sops w); olt := @olt _ (sops w); ole := @ole _ (sops w); ofeq := @ofeq _ (sops w); oisz := @oisz _ (sops w);
  oabs := fun x => match x with Some a => Some (wrap w (Z.abs a)) | None => None end;
  ofnat := fun n => Some (wrap w (Z.of_nat n)) |}.
