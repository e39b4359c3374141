(** Feq.v: model of feq.hpp.  The tolerance is a mutable static variable
    (feq.hpp:15-19, initially 1e-06); each comparison reads it once, so it is an
    argument here.  The two operand types may differ in C++; both are converted to the
    common type, which is the element type here. *)
From Verif Require Import Mat.
Section FeqModel.
Context {T : Type} {O : Ops T}.
(** std::max: the first argument unless it is less than the second. *)
Definition std_max (a b : T) : T := if olt a b then b else a.
(** feq.hpp:26-30. *)
Definition approximately_equal (tol a b : T) : bool :=
  ole (oabs (osub a b)) (omul tol (std_max (oabs a) (oabs b))).
(** feq.hpp:37-41. *)
Definition approximately_lesser_than_equal (tol a b : T) : bool := olt a b || approximately_equal tol a b.
(** feq.hpp:48-52. *)
Definition approximately_greater_than_equal (tol a b : T) : bool := olt b a || approximately_equal tol a b.
(** feq.hpp:58-62. *)
Definition approximately_equal_to_zero (tol a : T) : bool := ole (oabs a) (omul tol (oabs a)).
End FeqModel.
