(** Base.v: outcomes, size_t arithmetic, loops.  Shared by the whole model. *)
From Coq Require Export List Arith NArith ZArith Lia Bool.
From Coq Require Import ZifyBool ZifyNat ZifyN.
Export ListNotations.

(** Outcome of running a piece of C++.
    [Throw]: a C++ exception leaves the function.  [UB]: undefined behaviour or a
    failed [assert].  [Exit]: the program called [exit].  [Fuel]: the bound that
    makes a C++ [while] loop a total function was too small; theorems exclude it. *)
Inductive Res (A : Type) : Type :=
| Ok (a : A) | Throw | UB | Exit | Fuel.
Arguments Ok {A} a. Arguments Throw {A}. Arguments UB {A}.
Arguments Exit {A}. Arguments Fuel {A}.

Definition bind {A B} (x : Res A) (f : A -> Res B) : Res B :=
  match x with
  | Ok a => f a | Throw => Throw | UB => UB | Exit => Exit | Fuel => Fuel
  end.
Notation "'let*' x ':=' e1 'in' e2" := (bind e1 (fun x => e2))
  (at level 200, x pattern, e1 at level 100, e2 at level 200, right associativity).

(** [size_t] is 64 bits wide: results wrap modulo 2^64. *)
Definition two64 : N := 18446744073709551616%N.
Definition wrap64 (n : N) : nat := N.to_nat (N.modulo n two64).
Definition add64 (a b : nat) : nat := wrap64 (N.of_nat a + N.of_nat b).
Definition mul64 (a b : nat) : nat := wrap64 (N.of_nat a * N.of_nat b).
Definition sub64 (a b : nat) : nat := wrap64 (N.of_nat a + (two64 - N.modulo (N.of_nat b) two64)).
(** [std::numeric_limits<std::size_t>::max()], also [static_cast<size_t>(-1)]. *)
Definition size_max : N := 18446744073709551615%N.

(** Requests for this many elements or more cannot be served: [sizeof(T)*size]
    (vector.hpp:338) wraps for sizeof(T) > 16, or exceeds the address space.
    The code does not check [realloc]'s result. *)
Definition alloc_max : N := 576460752303423488%N. (* 2^59 *)
Definition fits (n : nat) : Prop := (N.of_nat n < alloc_max)%N.
Definition fitsb (n : nat) : bool := (N.of_nat n <? alloc_max)%N.
(** a value of type size_t *)
Definition is_size (n : nat) : Prop := (N.of_nat n < two64)%N.

(** [for (i = lo; i < hi; ++i) body] with loop-carried state [S]. *)
Fixpoint for_n {S} (n lo : nat) (body : nat -> S -> Res S) (s : S) : Res S :=
  match n with
  | O => Ok s
  | Datatypes.S n' => let* s' := body lo s in for_n n' (Datatypes.S lo) body s'
  end.
Definition for_range {S} (lo hi : nat) (body : nat -> S -> Res S) (s : S) : Res S :=
  for_n (hi - lo) lo body s.

(** [for (i = lo; i < hi; ++i) if (!test(i)) return false; return true;] *)
Fixpoint all_n (n lo : nat) (test : nat -> Res bool) : Res bool :=
  match n with
  | O => Ok true
  | Datatypes.S n' =>
      let* b := test lo in if b then all_n n' (Datatypes.S lo) test else Ok false
  end.
Definition all_range (lo hi : nat) (test : nat -> Res bool) : Res bool :=
  all_n (hi - lo) lo test.

(** [for (i = lo; i < hi; ++i) if (f(i) is "return x") return x;] : the first
    [Some], or [None] when the loop runs to its end. *)
Fixpoint first_n {A} (n lo : nat) (f : nat -> Res (option A)) : Res (option A) :=
  match n with
  | O => Ok None
  | Datatypes.S n' =>
      let* o := f lo in
      match o with Some a => Ok (Some a) | None => first_n n' (Datatypes.S lo) f end
  end.
Definition first_range {A} (lo hi : nat) (f : nat -> Res (option A)) : Res (option A) :=
  first_n (hi - lo) lo f.

(** Unchecked element access of a buffer holding [l]. *)
Definition lget {A} (l : list A) (i : nat) : Res A :=
  match nth_error l i with Some a => Ok a | None => UB end.
Fixpoint upd {A} (l : list A) (i : nat) (v : A) : list A :=
  match l, i with
  | nil, _ => nil
  | _ :: t, O => v :: t
  | h :: t, S i' => h :: upd t i' v
  end.
Definition lset {A} (l : list A) (i : nat) (v : A) : Res (list A) :=
  if i <? length l then Ok (upd l i v) else UB.
