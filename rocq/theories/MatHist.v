(** MatHist.v: programs that are sequences of Matrix operations on named matrices. *)
From Verif Require Export MathM Util.

Section HistModel.
Context {T : Type} {O : Ops T}.

(** One statement of a program using Matrices; names are numbers.  [p] is a view path
    of the first-named matrix (Root: the matrix itself). *)
Inductive mop :=
| MNew (x : nat)                              (* Matrix<T> x;                      matrix.hpp:43-48 *)
| MFill (x r c : nat) (v : T)                 (* Matrix<T> x(r, c, v);             matrix.hpp:54-59 *)
| MList (x r c : nat) (l : list T)            (* Matrix<T> x(r, c, {...});         matrix.hpp:65-91 *)
| MNested (x : nat) (ll : list (list T))      (* Matrix<T> x{{...},...};           matrix.hpp:95-121 *)
| MCopy (x y : nat) (p : vpath)               (* Matrix<T> x(y), x(view of y);     matrix.hpp:125-168 *)
| MMove (x y : nat)                           (* Matrix<T> x(std::move(y));        matrix.hpp:172-177 *)
| MAssign (x y : nat) (p : vpath)             (* x = y; x = view of y;             matrix.hpp:259-324 *)
| MMoveAssign (x y : nat)                     (* x = std::move(y);                 matrix.hpp:355-365 *)
| MAssignNested (x : nat) (ll : list (list T))(* x = {{...},...};                  matrix.hpp:370-395 *)
| MResize (x r c : nat)                       (* x.resize(r, c);                   matrix.hpp:228-254 *)
| MReshape (x r c : nat)                      (* x.reshape(r, c);                  matrix.hpp:214-222 *)
| MRemoveRow (x k : nat)                      (* remove_row(x, k);                 utility.hpp:447-459 *)
| MRemoveCol (x k : nat)                      (* remove_column(x, k);              utility.hpp:466-478 *)
| MSwapRows (x : nat) (p : vpath) (i j c0 c1 : nat) (* swap_rows(view of x, ...);  utility.hpp:419-425 *)
| MSwapCols (x : nat) (p : vpath) (i j r0 r1 : nat) (* swap_cols(view of x, ...);  utility.hpp:434-440 *)
| MSet (x : nat) (p : vpath) (i j : nat) (v : T)    (* view(i, j) = v; *)
| MViewAssign (x : nat) (p : vpath) (y : nat) (* view of x = y;                    view.hpp:97-132 *)
| MAdd (x : nat) (p : vpath) (y : nat)        (* view of x += y;                   math.hpp:64-79 *)
| MSub (x : nat) (p : vpath) (y : nat)        (* view of x -= y;                   math.hpp:142-157 *)
| MMul (x : nat) (p : vpath) (y : nat)        (* view of x *= y;                   math.hpp:232-255 *)
| MScale (x : nat) (p : vpath) (s : T)        (* view of x *= s;                   math.hpp:262-269 *)
| MGet (x : nat) (p : vpath) (i j : nat)      (* read view(i, j) *)
| MDestroy (x : nat).

Definition menv := nat -> option (Matrix T).
Definition mbind (e : menv) (x : nat) (a : option (Matrix T)) : menv := fun y => if y =? x then a else e y.
Definition mlook (e : menv) (x : nat) : Res (Matrix T) := match e x with Some m => Ok m | None => UB end.
Definition mfresh (e : menv) (x : nat) : Res unit := match e x with Some _ => UB | None => Ok tt end.
Definition keep (e : menv) (x : nat) (a : Res (Matrix T)) : Res menv := let* m := a in Ok (mbind e x (Some m)).

Definition mstep (e : menv) (c : mop) : Res menv :=
  match c with
  | MNew x => let* _ := mfresh e x in keep e x (Ok mat_empty)
  | MFill x r c v => let* _ := mfresh e x in keep e x (mat_new r c v)
  | MList x r c l => let* _ := mfresh e x in keep e x (mat_of_list r c l)
  | MNested x ll => let* _ := mfresh e x in keep e x (mat_of_nested ll)
  | MCopy x y p => let* _ := mfresh e x in let* my := mlook e y in keep e x (mat_of_mb (vmb p my))
  | MMove x y =>
      let* _ := mfresh e x in let* my := mlook e y in
      Ok (mbind (mbind e y (Some (snd (mat_move_ctor my)))) x (Some (fst (mat_move_ctor my))))
  | MAssign x y p =>
      let* mx := mlook e x in let* my := mlook e y in
      if x =? y then match p with Root => Ok e | _ => keep e x (mat_assign (vmb p) mx) end
      else keep e x (mat_assign (fun _ => vmb p my) mx)
  | MMoveAssign x y =>
      let* mx := mlook e x in let* my := mlook e y in
      if x =? y then Ok e
      else Ok (mbind (mbind e y (Some (snd (mat_move_assign mx my)))) x (Some (fst (mat_move_assign mx my))))
  | MAssignNested x ll => let* mx := mlook e x in keep e x (mat_assign_nested mx ll)
  | MResize x r c => let* mx := mlook e x in keep e x (mat_resize mx r c)
  | MReshape x r c => let* mx := mlook e x in keep e x (mat_reshape mx r c)
  | MRemoveRow x k => let* mx := mlook e x in keep e x (remove_row mx k)
  | MRemoveCol x k => let* mx := mlook e x in keep e x (remove_column mx k)
  | MSwapRows x p i j c0 c1 => let* mx := mlook e x in keep e x (swap_rows p i j c0 c1 mx)
  | MSwapCols x p i j r0 r1 => let* mx := mlook e x in keep e x (swap_cols p i j r0 r1 mx)
  | MSet x p i j v => let* mx := mlook e x in keep e x (vset p i j v mx)
  | MViewAssign x p y =>
      let* mx := mlook e x in let* my := mlook e y in
      keep e x (view_assign p (if x =? y then mb_of_mat else fun _ => mb_of_mat my) mx)
  | MAdd x p y =>
      let* mx := mlook e x in let* my := mlook e y in
      keep e x (m_iadd p (if x =? y then mb_of_mat else fun _ => mb_of_mat my) mx)
  | MSub x p y =>
      let* mx := mlook e x in let* my := mlook e y in
      keep e x (m_isub p (if x =? y then mb_of_mat else fun _ => mb_of_mat my) mx)
  | MMul x p y =>
      let* mx := mlook e x in let* my := mlook e y in
      keep e x (m_imul p (if x =? y then mb_of_mat else fun _ => mb_of_mat my) mx)
  | MScale x p s => let* mx := mlook e x in keep e x (m_imuls p s mx)
  | MGet x p i j => let* mx := mlook e x in let* _ := mget (vmb p mx) i j in Ok e
  | MDestroy x => let* _ := mlook e x in Ok (mbind e x None)
  end.
(** The program catches the exceptions; they are all thrown before anything is changed. *)
Fixpoint mrun (e : menv) (cs : list mop) : Res menv :=
  match cs with
  | nil => Ok e
  | c :: cs => match mstep e c with Throw => mrun e cs | r => let* e := r in mrun e cs end
  end.
End HistModel.
