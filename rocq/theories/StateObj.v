(** StateObj.v: objects of StateSpace and DiscreteStateSpace (control.hpp:17-81): default
    construction and the copies and moves that the compiler defines, member by member in the
    order A, B, C, D, sample_time (no member function of the classes is user-declared).  The
    operations on the members are those of matrix.hpp in Mat.v. *)
From Verif Require Export Control.
Section StateObj.
Context {T : Type} {O : Ops T}.

(** control.hpp:30-37, 62-67; .0 is converted to T. *)
Definition ss_default : SS T := mkSS mat_empty mat_empty mat_empty mat_empty.
Definition dss_default : DSS T := mkDSS ss_default o0.
(** Copy constructors. *)
Definition ss_copy (s : SS T) : Res (SS T) := ss_new (sA s) (sB s) (sC s) (sD s).
Definition dss_copy (d : DSS T) : Res (DSS T) := let* s := ss_copy (dsys d) in Ok (mkDSS s (sample_time d)).
(** Move constructors: (new object, moved-from object). *)
Definition ss_move (s : SS T) : SS T * SS T :=
  let (A, A') := mat_move_ctor (sA s) in let (B, B') := mat_move_ctor (sB s) in
  let (C, C') := mat_move_ctor (sC s) in let (D, D') := mat_move_ctor (sD s) in (mkSS A B C D, mkSS A' B' C' D').
Definition dss_move (d : DSS T) : DSS T * DSS T :=
  let (s, s') := ss_move (dsys d) in (mkDSS s (sample_time d), mkDSS s' (sample_time d)).
(** Copy assignment from another object (matrix.hpp:259-278 for each member). *)
Definition ss_assign (dst src : SS T) : Res (SS T) :=
  let* A := mat_assign (fun _ => mb_of_mat (sA src)) (sA dst) in
  let* B := mat_assign (fun _ => mb_of_mat (sB src)) (sB dst) in
  let* C := mat_assign (fun _ => mb_of_mat (sC src)) (sC dst) in
  let* D := mat_assign (fun _ => mb_of_mat (sD src)) (sD dst) in Ok (mkSS A B C D).
Definition dss_assign (dst src : DSS T) : Res (DSS T) :=
  let* s := ss_assign (dsys dst) (dsys src) in Ok (mkDSS s (sample_time src)).
(** Assignment of an object to itself (matrix.hpp:261-263). *)
Definition dss_assign_self (d : DSS T) : Res (DSS T) :=
  let* A := mat_assign_self (sA (dsys d)) in let* B := mat_assign_self (sB (dsys d)) in
  let* C := mat_assign_self (sC (dsys d)) in let* D := mat_assign_self (sD (dsys d)) in
  Ok (mkDSS (mkSS A B C D) (sample_time d)).
(** Move assignment from another object (matrix.hpp:355-365 for each member): (target, source). *)
Definition ss_move_assign (dst src : SS T) : SS T * SS T :=
  let (A, A') := mat_move_assign (sA dst) (sA src) in let (B, B') := mat_move_assign (sB dst) (sB src) in
  let (C, C') := mat_move_assign (sC dst) (sC src) in let (D, D') := mat_move_assign (sD dst) (sD src) in
  (mkSS A B C D, mkSS A' B' C' D').
Definition dss_move_assign (dst src : DSS T) : DSS T * DSS T :=
  let (s, s') := ss_move_assign (dsys dst) (dsys src) in (mkDSS s (sample_time src), mkDSS s' (sample_time src)).

(** What a program can do to a variable of type DiscreteStateSpace<T>. *)
Inductive sop := AssignCopy (src : DSS T) | AssignMove (src : DSS T) | AssignSelf | SetTime (ts : T).
Definition sstep (d : DSS T) (op : sop) : Res (DSS T) :=
  match op with
  | AssignCopy src => dss_assign d src
  | AssignMove src => Ok (fst (dss_move_assign d src))
  | AssignSelf => dss_assign_self d
  | SetTime ts => Ok (mkDSS (dsys d) ts)
  end.
Fixpoint srun (d : DSS T) (ops : list sop) : Res (DSS T) :=
  match ops with nil => Ok d | op :: rest => let* d := sstep d op in srun d rest end.
End StateObj.
Arguments sop T : clear implicits.
