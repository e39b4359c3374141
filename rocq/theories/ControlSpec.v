(** ControlSpec.v: vocabulary for the properties of control.hpp.  It refers to no
    algorithm of the library. *)
From Verif Require Import Mat Spec.

Section S.
Context {T : Type} {O : Ops T}.
(** State k of the system x(k+1) = A x(k) + B u(k), A n x n, B n x m, from x0. *)
Fixpoint traj (n m : nat) (A B : nat -> nat -> T) (u : nat -> nat -> T) (x0 : nat -> T) (k : nat) : nat -> T :=
  match k with
  | 0 => x0
  | S k => fun i => oadd (osum n (fun j => omul (A i j) (traj n m A B u x0 k j))) (osum m (fun j => omul (B i j) (u k j)))
  end.
(** Output k: C x(k) + D u(k). *)
Definition outp (n m : nat) (A B C D : nat -> nat -> T) (u : nat -> nat -> T) (x0 : nat -> T) (k : nat) : nat -> T :=
  fun i => oadd (osum n (fun j => omul (C i j) (traj n m A B u x0 k j))) (osum m (fun j => omul (D i j) (u k j))).
(** ts + ... + ts, k times, accumulated from zero. *)
Fixpoint ntimes (ts : T) (k : nat) : T := match k with 0 => o0 | S k => oadd (ntimes ts k) ts end.
(** Value at x of the polynomial with the coefficients l, highest degree first. *)
Definition pvalue (l : list T) (x : T) : T := fold_left (fun acc a => oadd (omul acc x) a) l o0.
(** The inputs u are vectors of m elements, [fu k] the elements of the k-th. *)
Definition inputs (u : list (list T)) (m : nat) (fu : nat -> nat -> T) : Prop :=
  forall k v, nth_error u k = Some v -> is_vec v m (fu k).
End S.
