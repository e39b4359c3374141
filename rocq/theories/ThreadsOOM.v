(** ThreadsOOM.v: the threads of Threads.v with the allocator of VecOOM.v, which may refuse
    any request of any thread. *)
From Verif Require Export Threads VecOOM.

Section ThreadOOM.
Context {T : Type} {O : Ops T} {A : Type} (sz : N).
(** The scheduler lets thread [t] execute its next statement (vector.hpp, as in
    VecOOM.v); [r] is the answer to its request for memory, one of those that [t] [may] get. *)
Inductive cstep2 (may : nat -> reply -> Prop) : conf T A -> conf T A -> Prop :=
| Sched2 s th t c k r s' ob : th t = Do c k -> may t r -> vstep2 sz r s c = Ok (s', ob) ->
    cstep2 may (mkC s th) (mkC s' (fun u => if u =? t then k ob else th u)).
(** [n] steps of any schedule. *)
Inductive csteps2 (may : nat -> reply -> Prop) : nat -> conf T A -> conf T A -> Prop :=
| Stop2 x : csteps2 may 0 x x
| More2 n x y z : csteps2 may n x y -> cstep2 may y z -> csteps2 may (S n) x z.
End ThreadOOM.
