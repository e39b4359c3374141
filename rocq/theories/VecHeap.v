(** VecHeap.v: vector.hpp at pointer level.  A heap of blocks, Vector objects holding
    a data pointer and a size, and programs that are sequences of Vector operations on
    named Vectors.  Every access through a null or dangling pointer, outside of a
    block, or to a cell that was never written is [UB], as is freeing anything but a
    live block. *)
From Verif Require Export Mat.

Section HeapModel.
Context {T : Type} {O : Ops T}.

(** A heap: block number -> [None] if it was freed, [Some cells] if it is live; a cell
    is [None] until it is written.  Block numbers are never used again, so a dangling
    pointer stays recognisable. *)
Definition heap := list (option (list (option T))).
Definition ptr := option nat. (* None: nullptr *)

Definition load (h : heap) (p : ptr) (i : nat) : Res T :=
  match p with
  | None => UB
  | Some b => match nth_error h b with
              | Some (Some cells) => match nth_error cells i with Some (Some v) => Ok v | _ => UB end
              | _ => UB
              end
  end.
Definition store (h : heap) (p : ptr) (i : nat) (v : T) : Res heap :=
  match p with
  | None => UB
  | Some b => match nth_error h b with
              | Some (Some cells) => if i <? length cells then Ok (upd h b (Some (upd cells i (Some v)))) else UB
              | _ => UB
              end
  end.
(** C [free]. *)
Definition hfree (h : heap) (p : ptr) : Res heap :=
  match p with
  | None => Ok h
  | Some b => match nth_error h b with Some (Some _) => Ok (upd h b None) | _ => UB end
  end.
(** The allocator's choice: whether growing or shrinking block [b] to [n] cells leaves
    it in place.  Nothing is assumed about it. *)
Context (in_place : heap -> nat -> nat -> bool).
(** C [realloc], [n] in elements, n > 0: a null pointer allocates; otherwise the common
    prefix is kept.  It gives a null pointer when the request cannot be served. *)
Definition hrealloc (h : heap) (p : ptr) (n : nat) : Res (heap * ptr) :=
  match p with
  | None => if fitsb n then Ok (h ++ [Some (repeat None n)], Some (length h)) else Ok (h, None)
  | Some b =>
      match nth_error h b with
      | Some (Some cells) =>
          let cells' := firstn n cells ++ repeat None (n - length cells) in
          if negb (fitsb n) then Ok (h, None)
          else if in_place h b n then Ok (upd h b (Some cells'), Some b)
          else Ok (upd h b None ++ [Some cells'], Some (length h))
      | _ => UB
      end
  end.

(** vector.hpp:362-365: the members [_data] and [_size]. *)
Record vobj := mkV { vptr : ptr; vsz : nat }.
(** vector.hpp:32-37: [_data(nullptr), _size(0)], also the start of every constructor. *)
Definition vnull : vobj := mkV None 0.

(** vector.hpp:314-326. *)
Definition v_deallocate (h : heap) (o : vobj) : Res (heap * vobj * bool) :=
  if 0 <? vsz o then let* h := hfree h (vptr o) in Ok (h, mkV None 0, true)
  else Ok (h, o, false).
(** vector.hpp:328-360. *)
Definition v_allocate (h : heap) (o : vobj) (size : nat) : Res (heap * vobj * bool) :=
  if size =? 0 then v_deallocate h o
  else if size =? vsz o then Ok (h, o, true)
  else
    let* (h, p) := hrealloc h (vptr o) size in
    let* h :=
      if vsz o <? size then for_range (vsz o) size (fun i h => store h p i o0) h
      else if vsz o =? 0 then for_range 0 size (fun i h => store h p i o0) h
      else Ok h in
    Ok (h, mkV p size, true).
(** vector.hpp:41-46. *)
Definition v_sized (h : heap) (n : nat) : Res (heap * vobj) :=
  let* (h, o, _) := v_allocate h vnull n in Ok (h, o).
(** vector.hpp:51-60. *)
Definition v_fill (h : heap) (n : nat) (v : T) : Res (heap * vobj) :=
  let* (h, o, b) := v_allocate h vnull n in
  if b : bool then let* h := for_range 0 (vsz o) (fun i h => store h (vptr o) i v) h in Ok (h, o)
  else Ok (h, o).
(** vector.hpp:80-90; [l] is the initializer list. *)
Definition v_list (h : heap) (l : list T) : Res (heap * vobj) :=
  let* (h, o, b) := v_allocate h vnull (length l) in
  if b : bool then let* h := for_range 0 (vsz o) (fun i h => let* x := lget l i in store h (vptr o) i x) h in Ok (h, o)
  else Ok (h, o).
(** vector.hpp:94-103. *)
Definition v_copy (h : heap) (other : vobj) : Res (heap * vobj) :=
  let* (h, o, b) := v_allocate h vnull (vsz other) in
  if b : bool then
    let* h := for_range 0 (vsz o) (fun i h => let* x := load h (vptr other) i in store h (vptr o) i x) h in Ok (h, o)
  else Ok (h, o).
(** vector.hpp:121-130: (heap, new object, other). *)
Definition v_move (h : heap) (other : vobj) : Res (heap * vobj * vobj) :=
  let* (h, o, _) := v_deallocate h vnull in Ok (h, other, o).
(** vector.hpp:218-228, [this != &other]. *)
Definition v_assign (h : heap) (o other : vobj) : Res (heap * vobj) :=
  let* (h, o, b) := v_allocate h o (vsz other) in
  if b : bool then
    let* h := for_range 0 (vsz o) (fun i h => let* x := load h (vptr other) i in store h (vptr o) i x) h in Ok (h, o)
  else Ok (h, o).
(** vector.hpp:247-255, [this != &other]: (heap, this, other). *)
Definition v_move_assign (h : heap) (o other : vobj) : Res (heap * vobj * vobj) :=
  let* (h, o, _) := v_deallocate h o in Ok (h, other, o).
(** vector.hpp:184-197. *)
Definition v_resize (h : heap) (o : vobj) (n : nat) : Res (heap * vobj) :=
  let* (h, o, _) := v_allocate h o n in Ok (h, o).

(** * Programs *)
(** One statement of a program using Vectors; names are numbers. *)
Inductive vop :=
| New (x : nat)                     (* Vector<T> x; *)
| Sized (x n : nat)                 (* Vector<T> x(n); *)
| Fill (x n : nat) (v : T)          (* Vector<T> x(n, v); *)
| FromList (x : nat) (l : list T)   (* Vector<T> x{...}; *)
| FromListN (x n : nat) (l : list T)(* Vector<T> x(n, {...}); *)
| Copy (x y : nat)                  (* Vector<T> x(y); *)
| Move (x y : nat)                  (* Vector<T> x(std::move(y)); *)
| Assign (x y : nat)                (* x = y; *)
| MoveAssign (x y : nat)            (* x = std::move(y); *)
| Resize (x n : nat)                (* x.resize(n); *)
| ResizeAs (x y : nat)              (* x.resize(y); *)
| Write (x i : nat) (v : T)         (* x[i] = v; *)
| Read (x i : nat)                  (* observe x[i] *)
| Size (x : nat)                    (* observe x.size() *)
| Destroy (x : nat).                (* x goes out of scope *)
(** What a statement lets the program see. *)
Inductive obs := Nothing | Value (v : T) | Len (n : nat).

Record vst := mkSt { hp : heap; env : nat -> option vobj }.
Definition vst0 : vst := mkSt nil (fun _ => None).
Definition bindn {A} (e : nat -> option A) (x : nat) (a : option A) : nat -> option A :=
  fun y => if y =? x then a else e y.
Definition look (s : vst) (x : nat) : Res vobj := match env s x with Some o => Ok o | None => UB end.
(** Construct under a new name. *)
Definition fresh_name (s : vst) (x : nat) : Res unit := match env s x with Some _ => UB | None => Ok tt end.

Definition vstep (s : vst) (c : vop) : Res (vst * obs) :=
  match c with
  | New x => let* _ := fresh_name s x in Ok (mkSt (hp s) (bindn (env s) x (Some vnull)), Nothing)
  | Sized x n =>
      let* _ := fresh_name s x in
      let* (h, o) := v_sized (hp s) n in Ok (mkSt h (bindn (env s) x (Some o)), Nothing)
  | Fill x n v =>
      let* _ := fresh_name s x in
      let* (h, o) := v_fill (hp s) n v in Ok (mkSt h (bindn (env s) x (Some o)), Nothing)
  | FromList x l =>
      let* _ := fresh_name s x in
      let* (h, o) := v_list (hp s) l in Ok (mkSt h (bindn (env s) x (Some o)), Nothing)
  | FromListN x n l => (* vector.hpp:65-76, with its assert *)
      let* _ := fresh_name s x in
      if n =? length l then
        let* (h, o) := v_list (hp s) l in Ok (mkSt h (bindn (env s) x (Some o)), Nothing)
      else UB
  | Copy x y =>
      let* _ := fresh_name s x in let* oy := look s y in
      let* (h, o) := v_copy (hp s) oy in Ok (mkSt h (bindn (env s) x (Some o)), Nothing)
  | Move x y =>
      let* _ := fresh_name s x in let* oy := look s y in
      let* (h, o, oy) := v_move (hp s) oy in
      Ok (mkSt h (bindn (bindn (env s) y (Some oy)) x (Some o)), Nothing)
  | Assign x y =>
      let* ox := look s x in let* oy := look s y in
      if x =? y then Ok (s, Nothing)
      else let* (h, o) := v_assign (hp s) ox oy in Ok (mkSt h (bindn (env s) x (Some o)), Nothing)
  | MoveAssign x y =>
      let* ox := look s x in let* oy := look s y in
      if x =? y then Ok (s, Nothing)
      else let* (h, o, oy) := v_move_assign (hp s) ox oy in
           Ok (mkSt h (bindn (bindn (env s) y (Some oy)) x (Some o)), Nothing)
  | Resize x n =>
      let* ox := look s x in
      let* (h, o) := v_resize (hp s) ox n in Ok (mkSt h (bindn (env s) x (Some o)), Nothing)
  | ResizeAs x y =>
      let* ox := look s x in let* oy := look s y in
      let* (h, o) := v_resize (hp s) ox (vsz oy) in Ok (mkSt h (bindn (env s) x (Some o)), Nothing)
  | Write x i v => (* vector.hpp:202-205 *)
      let* ox := look s x in let* h := store (hp s) (vptr ox) i v in Ok (mkSt h (env s), Nothing)
  | Read x i => (* vector.hpp:210-213 *)
      let* ox := look s x in let* v := load (hp s) (vptr ox) i in Ok (s, Value v)
  | Size x => (* vector.hpp:168-171 *)
      let* ox := look s x in Ok (s, Len (vsz ox))
  | Destroy x => (* vector.hpp:147-150 *)
      let* ox := look s x in
      let* (h, _, _) := v_deallocate (hp s) ox in Ok (mkSt h (bindn (env s) x None), Nothing)
  end.
Fixpoint vrun (s : vst) (cs : list vop) : Res (vst * list obs) :=
  match cs with
  | nil => Ok (s, nil)
  | c :: cs => let* (s, o) := vstep s c in let* (s, os) := vrun s cs in Ok (s, o :: os)
  end.
End HeapModel.
