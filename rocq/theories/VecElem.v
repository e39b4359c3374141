(** VecElem.v: vector.hpp at pointer level, as VecHeap.v, for an element type with an
    assignment operator of its own.  A cell that [realloc] gave is [None]: no object was
    ever constructed there, and the class never uses placement new.  Writing an element is
    a call of the operator on whatever the cell holds; [asg old v] is its result.  For
    arithmetic types and std::complex it is [Ok v] whatever the cell held.  For a class
    such as Vector or Matrix, whose operator frees what its left side owns, it is [UB]
    on a cell where nothing was constructed. *)
From Verif Require Import VecHeap.

Section Elem.
Context {T : Type} {O : Ops T}.
Context (in_place : @heap T -> nat -> nat -> bool).
(** The element type's [operator=]: the left side ([None]: raw memory) and the right. *)
Context (asg : option T -> T -> Res T).

(** [_data[i] = v]: vector.hpp:55, 72, 86, 99, 224, 346, 351 and the user's [x[i] = v]. *)
Definition e_store (h : heap) (p : ptr) (i : nat) (v : T) : Res heap :=
  match p with
  | None => UB
  | Some b => match nth_error h b with
              | Some (Some cells) =>
                  match nth_error cells i with
                  | Some old => let* w := asg old v in Ok (upd h b (Some (upd cells i (Some w))))
                  | None => UB
                  end
              | _ => UB
              end
  end.

(** vector.hpp:328-360. *)
Definition e_allocate (h : heap) (o : vobj) (size : nat) : Res (heap * vobj * bool) :=
  if size =? 0 then v_deallocate h o
  else if size =? vsz o then Ok (h, o, true)
  else
    let* (h, p) := hrealloc in_place h (vptr o) size in
    let* h :=
      if vsz o <? size then for_range (vsz o) size (fun i h => e_store h p i o0) h
      else if vsz o =? 0 then for_range 0 size (fun i h => e_store h p i o0) h
      else Ok h in
    Ok (h, mkV p size, true).
(** vector.hpp:41-46. *)
Definition e_sized (h : heap) (n : nat) : Res (heap * vobj) :=
  let* (h, o, _) := e_allocate h vnull n in Ok (h, o).
(** vector.hpp:51-60. *)
Definition e_fill (h : heap) (n : nat) (v : T) : Res (heap * vobj) :=
  let* (h, o, b) := e_allocate h vnull n in
  if b : bool then let* h := for_range 0 (vsz o) (fun i h => e_store h (vptr o) i v) h in Ok (h, o)
  else Ok (h, o).
(** vector.hpp:80-90. *)
Definition e_list (h : heap) (l : list T) : Res (heap * vobj) :=
  let* (h, o, b) := e_allocate h vnull (length l) in
  if b : bool then let* h := for_range 0 (vsz o) (fun i h => let* x := lget l i in e_store h (vptr o) i x) h in Ok (h, o)
  else Ok (h, o).
(** vector.hpp:94-103. *)
Definition e_copy (h : heap) (other : vobj) : Res (heap * vobj) :=
  let* (h, o, b) := e_allocate h vnull (vsz other) in
  if b : bool then
    let* h := for_range 0 (vsz o) (fun i h => let* x := load h (vptr other) i in e_store h (vptr o) i x) h in Ok (h, o)
  else Ok (h, o).
(** vector.hpp:218-228, [this != &other]. *)
Definition e_assign (h : heap) (o other : vobj) : Res (heap * vobj) :=
  let* (h, o, b) := e_allocate h o (vsz other) in
  if b : bool then
    let* h := for_range 0 (vsz o) (fun i h => let* x := load h (vptr other) i in e_store h (vptr o) i x) h in Ok (h, o)
  else Ok (h, o).
(** vector.hpp:184-197. *)
Definition e_resize (h : heap) (o : vobj) (n : nat) : Res (heap * vobj) :=
  let* (h, o, _) := e_allocate h o n in Ok (h, o).

(** One statement; the moves (vector.hpp:121-130, 247-255), the destructor (147-150), the
    reads and the size touch no element with [operator=] and are those of VecHeap.v. *)
Definition estep (s : vst) (c : vop) : Res (vst * obs) :=
  match c with
  | Sized x n =>
      let* _ := fresh_name s x in
      let* (h, o) := e_sized (hp s) n in Ok (mkSt h (bindn (env s) x (Some o)), Nothing)
  | Fill x n v =>
      let* _ := fresh_name s x in
      let* (h, o) := e_fill (hp s) n v in Ok (mkSt h (bindn (env s) x (Some o)), Nothing)
  | FromList x l =>
      let* _ := fresh_name s x in
      let* (h, o) := e_list (hp s) l in Ok (mkSt h (bindn (env s) x (Some o)), Nothing)
  | FromListN x n l => (* vector.hpp:65-76, with its assert *)
      let* _ := fresh_name s x in
      if n =? length l then
        let* (h, o) := e_list (hp s) l in Ok (mkSt h (bindn (env s) x (Some o)), Nothing)
      else UB
  | Copy x y =>
      let* _ := fresh_name s x in let* oy := look s y in
      let* (h, o) := e_copy (hp s) oy in Ok (mkSt h (bindn (env s) x (Some o)), Nothing)
  | Assign x y =>
      let* ox := look s x in let* oy := look s y in
      if x =? y then Ok (s, Nothing)
      else let* (h, o) := e_assign (hp s) ox oy in Ok (mkSt h (bindn (env s) x (Some o)), Nothing)
  | Resize x n =>
      let* ox := look s x in
      let* (h, o) := e_resize (hp s) ox n in Ok (mkSt h (bindn (env s) x (Some o)), Nothing)
  | ResizeAs x y =>
      let* ox := look s x in let* oy := look s y in
      let* (h, o) := e_resize (hp s) ox (vsz oy) in Ok (mkSt h (bindn (env s) x (Some o)), Nothing)
  | Write x i v => (* vector.hpp:202-205 *)
      let* ox := look s x in let* h := e_store (hp s) (vptr ox) i v in Ok (mkSt h (env s), Nothing)
  | New _ | Move _ _ | MoveAssign _ _ | Read _ _ | Size _ | Destroy _ => vstep in_place s c
  end.
Fixpoint erun (s : vst) (cs : list vop) : Res (vst * list obs) :=
  match cs with
  | nil => Ok (s, nil)
  | c :: cs => let* (s, o) := estep s c in let* (s, os) := erun s cs in Ok (s, o :: os)
  end.
End Elem.
