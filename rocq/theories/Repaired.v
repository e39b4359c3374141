(** Repaired.v: model of the small templates that no instantiation compiles, each with the
    least repair that makes it compile.  The repair is stated at each definition. *)
From Coq Require Import String.
From Verif Require Import Mat Scalar Util MathM Linalg IO.
Local Open Scope nat_scope.

Section Repaired.
Context {T : Type} {O : Ops T}.

(** utility.hpp:574-578.  MatrixBase has no begin() and end(); here the elements are those
    of operator[], in order. *)
Definition is_zero (A : MB T) : Res bool :=
  all_range 0 (msize A) (fun i => let* x := mlin A i in Ok (oeq x o0)).
(** utility.hpp:584-588.  The same repair; adjacent_find finds nothing if no element differs
    from its successor. *)
Definition is_constant (A : MB T) : Res bool :=
  all_range 0 (msize A - 1) (fun i => let* x := mlin A i in let* y := mlin A (S i) in Ok (oeq x y)).
(** utility.hpp:640-647.  The comparison gives a matrix of bool and not a bool; here all() of
    it is returned, and identity() gets the value 1. *)
Definition is_identity (A : MB T) : Res bool :=
  if negb (is_square A) then Ok false
  else
    let* D := identity (mcols A) o1 in
    let* E := m_eq A (mb_of_mat D) in
    all_m (mb_of_mat E).
(** utility.hpp:653-660.  The same repair, and linalg::transpose(matrix) for the missing member
    transpose(). *)
Definition is_orthogonal (A : MB T) : Res bool :=
  if negb (is_square A) then Ok false
  else
    let* At := transpose A in
    let* P := m_mul A (mb_of_mat At) in
    let* D := identity (mcols A) o1 in
    let* E := m_eq (mb_of_mat P) (mb_of_mat D) in
    all_m (mb_of_mat E).
(** utility.hpp:666-670.  linalg::determinant(matrix) for the missing member determinant(). *)
Definition is_invertible (A : MB T) : Res bool := let* d := determinant A in Ok (negb (oeq d o0)).
(** utility.hpp:676-680.  The same repair. *)
Definition is_linearly_dependent (A : MB T) : Res bool := let* d := determinant A in Ok (oeq d o0).
(** utility.hpp:686-690.  is_linearly_dependent(matrix) for the missing member. *)
Definition is_linearly_independent (A : MB T) : Res bool := let* b := is_linearly_dependent A in Ok (negb b).
(** linalg.hpp:59-69.  The result has complex elements (as written, real ones, to which the
    conjugates cannot be assigned). *)
Definition hermitian_transpose (conj : T -> T) (A : MB T) : Res (Matrix T) := tmap conj A.

(** math.hpp:84-92, 162-170.  The return type is a reference (as written, the abstract class
    by value). *)
Definition m_iadds (p : vpath) (b : T) := mb_imap (fun x => Ok (oadd x b)) p.
Definition m_isubs (p : vpath) (b : T) := mb_imap (fun x => Ok (osub x b)) p.
(** math.hpp:719-727, 795-803, 871-879, 907-915.  The vector is not const. *)
Definition v_imap (g : T -> Res T) (a : list T) : Res (list T) :=
  for_range 0 (length a) (fun i a => let* x := lget a i in let* z := g x in lset a i z) a.
Definition v_iadds (a : list T) (b : T) := v_imap (fun x => Ok (oadd x b)) a.
Definition v_isubs (a : list T) (b : T) := v_imap (fun x => Ok (osub x b)) a.
Definition v_imuls (a : list T) (b : T) := v_imap (fun x => Ok (omul x b)) a.
Definition v_idivs (a : list T) (b : T) := v_imap (fun x => odiv x b) a.
(** math.hpp:853-865.  b.size() for a.size(): a is a number. *)
Definition v_smul (a : T) (b : list T) : Res (list T) := v_map (fun x => Ok (omul a x)) b.
(** math.hpp:1128-1147, real elements.  `if constexpr` for `if`.  element_wise_function
    (math.hpp:985-1017) is as written. *)
Definition sign_m (A : MB T) : Res (Matrix T) := ew_fun_m A (fun x => Ok (if olt o0 x then o1 else oopp o1)).
Definition sign_v (a : list T) : Res (list T) := ew_fun_v a (fun x => Ok (if olt o0 x then o1 else oopp o1)).
End Repaired.

Section Text.
Context {T : Type}.
Variable sh : T -> string.
Local Open Scope string_scope.
(** io.hpp:329-346.  v.size() and v[i] for v->size() and v->operator[](i); for complex
    elements [sh] is real part, imaginary part with showpos, "i". *)
Definition to_cpp_v (name type : string) (v : list T) : Res string :=
  let* s := for_range 0 (length v) (fun i s =>
    let* x := lget v i in
    let s := s ++ sh x in
    Ok (if (i <? sub64 (length v) 1)%nat then s ++ ", " else s)) ("malg::Vector<" ++ type ++ "> " ++ name ++ " = {") in
  Ok (s ++ "}").
(** io.hpp:353-375.  The same repair. *)
Definition to_cpp_m (name type : string) (A : MB T) : Res string :=
  let* s := for_range 0 (mrows A) (fun r s =>
    let* s := for_range 0 (mcols A) (fun c s =>
      let* x := mget A r c in
      let s := s ++ sh x in
      Ok (if (c <? sub64 (mcols A) 1)%nat then s ++ "," else s)) (s ++ "{") in
    let s := s ++ "}" in
    Ok (if (r <? sub64 (mrows A) 1)%nat then s ++ "," else s)) ("malg::Matrix<" ++ type ++ "> " ++ name ++ " = {") in
  Ok (s ++ "}").
End Text.
