(** Float.v: IEEE 754 binary64 ([double]) as an element type.  The operations are those of
    Coq's SpecFloat: round to nearest even, gradual underflow, infinities, one NaN, and no
    wider intermediate results or fused operations. *)
From Coq Require Import ZArith Bool SpecFloat.
From Verif Require Import Mat Feq.

Notation double := spec_float.
Definition prec64 : Z := 53.
Definition emax64 : Z := 1024.
Definition nan : double := S754_nan.
Definition inf (s : bool) : double := S754_infinity s.
(** feq.hpp:17: the initial tolerance, the double nearest to 1e-06. *)
Definition tol6 : double := S754_finite false 4722366482869645 (-72).

(** The operators of [double] without the two comparisons that malg defines. *)
Definition fops0 : Ops double := {|
  o0 := S754_zero false; o1 := SFone prec64 emax64;
  oadd := SFadd prec64 emax64; osub := SFsub prec64 emax64; omul := SFmul prec64 emax64; oopp := SFopp;
  odiv := fun x y => Ok (SFdiv prec64 emax64 x y);
  oeq := SFeqb; olt := SFltb; ole := SFleb; ofeq := SFeqb; oisz := fun _ => false; oabs := SFabs;
  ofnat := fun n => binary_normalize prec64 emax64 (Z.of_nat n) 0 false |}.
(** With them (feq.hpp), for the tolerance [tol]. *)
#[export] Instance fops (tol : double) : Ops double := {|
  o0 := @o0 _ fops0; o1 := @o1 _ fops0;
  oadd := SFadd prec64 emax64; osub := SFsub prec64 emax64; omul := SFmul prec64 emax64; oopp := SFopp;
  odiv := fun x y => Ok (SFdiv prec64 emax64 x y);
  oeq := SFeqb; olt := SFltb; ole := SFleb;
  ofeq := @approximately_equal double fops0 tol; oisz := @approximately_equal_to_zero double fops0 tol;
  oabs := SFabs; ofnat := @ofnat _ fops0 |}.
