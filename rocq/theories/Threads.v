(** Threads.v: several threads that use Vectors in the same memory.  The library has no
    locks and, apart from the tolerance (feq.hpp:15-19), no global variables; the
    memory of vector.hpp is the only thing threads share.  A thread is any program whose
    next statement depends on what it has seen; the statements are those of VecHeap.v,
    so an element is read or written in one step, and so is one call of a constructor,
    an assignment, [resize] or a destructor.  [malloc], [realloc] and [free] are safe to
    call from several threads (C17 7.22.3), and may place blocks differently each time. *)
From Verif Require Export VecHeap.

Section ThreadModel.
Context {T : Type} {O : Ops T} {A : Type}.

(** The program of a thread; it ends with a result. *)
Inductive prog :=
| Done (a : A)
| Do (c : @vop T) (k : @obs T -> prog).

(** The memory and what is left of each thread; a thread that does not exist is [Done]. *)
Record conf := mkC { mem : @vst T; todo : nat -> prog }.
(** The scheduler lets thread [t] execute its next statement; [ip] is what the
    allocator does this time. *)
Inductive cstep : conf -> conf -> Prop :=
| Sched s th t c k ip s' ob : th t = Do c k -> vstep ip s c = Ok (s', ob) ->
    cstep (mkC s th) (mkC s' (fun u => if u =? t then k ob else th u)).
(** [n] steps of any schedule. *)
Inductive csteps : nat -> conf -> conf -> Prop :=
| Stop x : csteps 0 x x
| More n x y z : csteps n x y -> cstep y z -> csteps (S n) x z.
End ThreadModel.
Arguments prog : clear implicits.
Arguments conf : clear implicits.
