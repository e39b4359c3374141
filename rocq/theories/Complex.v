(** Complex.v: model of complex_math.hpp and of eigen.hpp's wilkinson_shift.
    [std::complex<T>] is a pair; its compound assignments are those of libstdc++'s
    primary template (the specialisations for float and double compute the same
    formulas on finite values without intermediate overflow).  Element operations are
    those of [Ops T]. *)
From Verif Require Import Base Mat.

(** std::complex<T>. *)
Record cplx (T : Type) := Cx { cre : T; cim : T }.
Arguments Cx {T} _ _. Arguments cre {T} _. Arguments cim {T} _.

Section StdComplex.
Context {T : Type} {O : Ops T}.
(** complex(re = T(), im = T()) with one argument. *)
Definition cx_of (x : T) : cplx T := Cx x o0.
(** operator+=, -=, *=, /= with a complex right-hand side. *)
Definition cx_adda (a b : cplx T) : cplx T := Cx (oadd (cre a) (cre b)) (oadd (cim a) (cim b)).
Definition cx_suba (a b : cplx T) : cplx T := Cx (osub (cre a) (cre b)) (osub (cim a) (cim b)).
Definition cx_mula (a b : cplx T) : cplx T :=
  Cx (osub (omul (cre a) (cre b)) (omul (cim a) (cim b)))
     (oadd (omul (cre a) (cim b)) (omul (cim a) (cre b))).
(** std::norm. *)
Definition cx_norm (a : cplx T) : T := oadd (omul (cre a) (cre a)) (omul (cim a) (cim a)).
Definition cx_diva (a b : cplx T) : Res (cplx T) :=
  let r := oadd (omul (cre a) (cre b)) (omul (cim a) (cim b)) in
  let n := cx_norm b in
  let* i := odiv (osub (omul (cim a) (cre b)) (omul (cre a) (cim b))) n in
  let* r' := odiv r n in Ok (Cx r' i).
(** operator+=, -=, *=, /= with a T right-hand side. *)
Definition cx_addr (a : cplx T) (x : T) : cplx T := Cx (oadd (cre a) x) (cim a).
Definition cx_subr (a : cplx T) (x : T) : cplx T := Cx (osub (cre a) x) (cim a).
Definition cx_mulr (a : cplx T) (x : T) : cplx T := Cx (omul (cre a) x) (omul (cim a) x).
Definition cx_divr (a : cplx T) (x : T) : Res (cplx T) :=
  let* r := odiv (cre a) x in let* i := odiv (cim a) x in Ok (Cx r i).
End StdComplex.

(** complex_math.hpp: operands with element types T1, T2; [k1], [k2] convert them to
    the common type T. *)
Section ComplexMath.
Context {T1 T2 T : Type} {O : Ops T} (k1 : T1 -> T) (k2 : T2 -> T).
(** complex<T> from complex<Ti>. *)
Definition cx_conv {U} (k : U -> T) (a : cplx U) : cplx T := Cx (k (cre a)) (k (cim a)).
(** complex_math.hpp:13-19, 25-31, 37-43. *)
Definition add_cc (lhs : cplx T1) (rhs : cplx T2) : cplx T := let tmp := cx_conv k1 lhs in cx_adda tmp (cx_conv k2 rhs).
Definition add_cr (lhs : cplx T1) (rhs : T2) : cplx T := let tmp := cx_conv k1 lhs in cx_addr tmp (k2 rhs).
Definition add_rc (lhs : T1) (rhs : cplx T2) : cplx T := let tmp := cx_of (k1 lhs) in cx_adda tmp (cx_conv k2 rhs).
(** complex_math.hpp:49-55, 61-67, 73-79. *)
Definition sub_cc (lhs : cplx T1) (rhs : cplx T2) : cplx T := let tmp := cx_conv k1 lhs in cx_suba tmp (cx_conv k2 rhs).
Definition sub_cr (lhs : cplx T1) (rhs : T2) : cplx T := let tmp := cx_conv k1 lhs in cx_subr tmp (k2 rhs).
Definition sub_rc (lhs : T1) (rhs : cplx T2) : cplx T := let tmp := cx_of (k1 lhs) in cx_suba tmp (cx_conv k2 rhs).
(** complex_math.hpp:85-91, 97-103, 109-115. *)
Definition mul_cc (lhs : cplx T1) (rhs : cplx T2) : cplx T := let tmp := cx_conv k1 lhs in cx_mula tmp (cx_conv k2 rhs).
Definition mul_cr (lhs : cplx T1) (rhs : T2) : cplx T := let tmp := cx_conv k1 lhs in cx_mulr tmp (k2 rhs).
Definition mul_rc (lhs : T1) (rhs : cplx T2) : cplx T := let tmp := cx_of (k1 lhs) in cx_mula tmp (cx_conv k2 rhs).
(** complex_math.hpp:121-127, 133-139, 145-151. *)
Definition div_cc (lhs : cplx T1) (rhs : cplx T2) : Res (cplx T) := let tmp := cx_conv k1 lhs in cx_diva tmp (cx_conv k2 rhs).
Definition div_cr (lhs : cplx T1) (rhs : T2) : Res (cplx T) := let tmp := cx_conv k1 lhs in cx_divr tmp (k2 rhs).
Definition div_rc (lhs : T1) (rhs : cplx T2) : Res (cplx T) := let tmp := cx_of (k1 lhs) in cx_diva tmp (cx_conv k2 rhs).
End ComplexMath.

Section Wilkinson.
Context {T : Type} {O : Ops T}.
(** The binary operators of <complex> on one element type copy and use the compound
    assignment. *)
Notation "a +c b" := (cx_adda a b) (at level 50, left associativity).
Notation "a -c b" := (cx_suba a b) (at level 50, left associativity).
Notation "a *c b" := (cx_mula a b) (at level 40, left associativity).
(** eigen.hpp:26-39.  [std::sqrt] on complex numbers is the argument [csqrt]; the
    literals 4.0 and 0.5 are [1+1+1+1] and [1/(1+1)]; a factor T on the left is
    [cx_mulr]. *)
Definition wilkinson_shift (csqrt : cplx T -> cplx T) (A : Matrix (cplx T)) : Res (cplx T) :=
  let n := sub64 (rows A) 1 in
  if 0 <? n then
    let* a := mat_at A (sub64 n 1) (sub64 n 1) in
    let* b := mat_at A (sub64 n 1) n in
    let* c := mat_at A n (sub64 n 1) in
    let* d := mat_at A n n in
    let four := oadd (oadd (oadd o1 o1) o1) o1 in
    let delta := csqrt (((a +c d) *c (a +c d)) -c cx_mulr ((a *c d) -c (b *c c)) four) in
    let* half := odiv o1 (oadd o1 o1) in
    let s1 := cx_mulr (a +c d +c delta) half in
    let s2 := cx_mulr (a +c d -c delta) half in
    Ok (if olt (cx_norm (s1 -c d)) (cx_norm (s2 -c d)) then s1 else s2)
  else Ok (cx_of o0).
End Wilkinson.
