(** Iter.v: iterators, data() and the range form of operator(). *)
From Verif Require Export Util.

Section Iter.
Context {T : Type}.
(** vector.hpp:273-311 [begin]/[end]: pointers to the first element and one past the
    last; [for (const auto &x : v) body].  Simplification: the body does not resize v. *)
Definition vec_foreach {S} (body : T -> S -> Res S) (l : list T) (s : S) : Res S :=
  for_range 0 (length l) (fun i s => let* x := lget l i in body x s) s.
(** [for (auto &x : v) x = g(x)]. *)
Definition vec_foreach_set (g : T -> Res T) (l : list T) : Res (list T) :=
  for_range 0 (length l) (fun i l => let* x := lget l i in let* y := g x in lset l i y) l.
(** matrix.hpp:469-495 [begin]/[end]: those of the Vector that holds the elements. *)
Definition mat_foreach {S} (body : T -> S -> Res S) (m : Matrix T) (s : S) : Res S :=
  vec_foreach body (data m) s.
Definition mat_foreach_set (g : T -> Res T) (m : Matrix T) : Res (Matrix T) :=
  let* d := vec_foreach_set g (data m) in Ok (mkM (rows m) (cols m) d).
(** vector.hpp:165-177, matrix.hpp:197-208, view.hpp:171-181, 321-331 [data()]: the
    address of the buffer of the root matrix; [vdata p m] is that buffer. *)
Fixpoint vdata (p : vpath) (m : Matrix T) : list T :=
  match p with
  | Root => data m
  | PView _ _ p' => vdata p' m
  | PCof _ _ p' => vdata p' m
  end.
(** view.hpp:245-255 [Matrix::operator()(Range, Range)]. *)
Definition mat_range (m : Matrix T) (rr rc : Range) : Res (MB T) := view_new (mb_of_mat m) rr rc.
End Iter.
Section Wrappers.
Context {T : Type} {O : Ops T}.
(** utility.hpp:735-750: the free functions call the members. *)
Definition util_reshape (m : Matrix T) (r c : nat) : Res (Matrix T) := mat_reshape m r c.
Definition util_resize (m : Matrix T) (r c : nat) : Res (Matrix T) := mat_resize m r c.
End Wrappers.
