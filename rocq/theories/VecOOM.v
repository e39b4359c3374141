(** VecOOM.v: vector.hpp at pointer level with an allocator that may refuse any request, and with
    the size in bytes computed modulo 2^64.  The heap, the objects and the statements are those of
    VecHeap.v; only [std::realloc] and the functions that call it differ. *)
From Verif Require Export VecHeap.

Section OOM.
Context {T : Type} {O : Ops T}.
Local Notation heap := (@heap T).
Local Notation vst := (@vst T).
Local Notation obs := (@obs T).
(** sizeof(T). *)
Context (sz : N).
(** What the allocator does with a request: refuse it (a null pointer), or serve it with the block
    left in place or moved. *)
Inductive reply := Refuse | InPlace | Elsewhere.
(** vector.hpp:338: the argument [sizeof(T) * size] of realloc, in bytes, and the number of elements that fit in. *)
Definition bytes (n : nat) : N := ((sz * N.of_nat n) mod 2 ^ 64)%N.
Definition served (n : nat) : nat := N.to_nat (bytes n / sz).
(** C [realloc]: a null pointer allocates; 0 bytes free the block and give a null pointer (glibc);
    a refused request leaves the old block as it is and gives a null pointer. *)
Definition hrealloc2 (r : reply) (h : heap) (p : ptr) (n : nat) : Res (heap * ptr) :=
  match p with
  | None => match r with Refuse => Ok (h, None) | _ => Ok (h ++ [Some (repeat None (served n))], Some (length h)) end
  | Some b =>
      match nth_error h b with
      | Some (Some cells) =>
          let cells' := firstn (served n) cells ++ repeat None (served n - length cells) in
          if (bytes n =? 0)%N then Ok (upd h b None, None)
          else match r with
               | Refuse => Ok (h, None)
               | InPlace => Ok (upd h b (Some cells'), Some b)
               | Elsewhere => Ok (upd h b None ++ [Some cells'], Some (length h))
               end
      | _ => UB
      end
  end.
Context (r : reply).
(** vector.hpp:328-360. *)
Definition v_allocate2 (h : heap) (o : vobj) (size : nat) : Res (heap * vobj * bool) :=
  if size =? 0 then v_deallocate h o
  else if size =? vsz o then Ok (h, o, true)
  else
    let* (h, p) := hrealloc2 r h (vptr o) size in
    let* h :=
      if vsz o <? size then for_range (vsz o) size (fun i h => store h p i o0) h
      else if vsz o =? 0 then for_range 0 size (fun i h => store h p i o0) h
      else Ok h in
    Ok (h, mkV p size, true).
(** vector.hpp:41-46. *)
Definition v_sized2 (h : heap) (n : nat) : Res (heap * vobj) :=
  let* (h, o, _) := v_allocate2 h vnull n in Ok (h, o).
(** The loops of vector.hpp:55-59, 84-88, 98-102, 221-225 after [allocate]: [g i] is the element stored at [i]. *)
Definition v_set2 (h : heap) (o : vobj) (n : nat) (g : nat -> heap -> Res T) : Res (heap * vobj) :=
  let* (h, o, b) := v_allocate2 h o n in
  if b : bool then let* h := for_range 0 (vsz o) (fun i h => let* x := g i h in store h (vptr o) i x) h in Ok (h, o)
  else Ok (h, o).
(** vector.hpp:51-60, 80-90, 94-103, 218-228. *)
Definition v_fill2 (h : heap) (n : nat) (v : T) := v_set2 h vnull n (fun _ _ => Ok v).
Definition v_list2 (h : heap) (l : list T) := v_set2 h vnull (length l) (fun i _ => lget l i).
Definition v_copy2 (h : heap) (other : vobj) := v_set2 h vnull (vsz other) (fun i h => load h (vptr other) i).
Definition v_assign2 (h : heap) (o other : vobj) := v_set2 h o (vsz other) (fun i h => load h (vptr other) i).
(** vector.hpp:184-197. *)
Definition v_resize2 (h : heap) (o : vobj) (n : nat) : Res (heap * vobj) :=
  let* (h, o, _) := v_allocate2 h o n in Ok (h, o).

(** One statement; each calls realloc at most once, and [r] is the answer to that call. *)
Definition vstep2 (s : vst) (c : @vop T) : Res (vst * obs) :=
  match c with
  | Sized x n =>
      let* _ := fresh_name s x in
      let* (h, o) := v_sized2 (hp s) n in Ok (mkSt h (bindn (env s) x (Some o)), Nothing)
  | Fill x n v =>
      let* _ := fresh_name s x in
      let* (h, o) := v_fill2 (hp s) n v in Ok (mkSt h (bindn (env s) x (Some o)), Nothing)
  | FromList x l =>
      let* _ := fresh_name s x in
      let* (h, o) := v_list2 (hp s) l in Ok (mkSt h (bindn (env s) x (Some o)), Nothing)
  | FromListN x n l =>
      let* _ := fresh_name s x in
      if n =? length l then
        let* (h, o) := v_list2 (hp s) l in Ok (mkSt h (bindn (env s) x (Some o)), Nothing)
      else UB
  | Copy x y =>
      let* _ := fresh_name s x in let* oy := look s y in
      let* (h, o) := v_copy2 (hp s) oy in Ok (mkSt h (bindn (env s) x (Some o)), Nothing)
  | Assign x y =>
      let* ox := look s x in let* oy := look s y in
      if x =? y then Ok (s, Nothing)
      else let* (h, o) := v_assign2 (hp s) ox oy in Ok (mkSt h (bindn (env s) x (Some o)), Nothing)
  | Resize x n =>
      let* ox := look s x in
      let* (h, o) := v_resize2 (hp s) ox n in Ok (mkSt h (bindn (env s) x (Some o)), Nothing)
  | ResizeAs x y =>
      let* ox := look s x in let* oy := look s y in
      let* (h, o) := v_resize2 (hp s) ox (vsz oy) in Ok (mkSt h (bindn (env s) x (Some o)), Nothing)
  | New _ | Move _ _ | MoveAssign _ _ | Write _ _ _ | Read _ _ | Size _ | Destroy _ =>
      vstep (fun _ _ _ => true) s c (* these do not allocate *)
  end.
End OOM.
(** A program, with the answer of the allocator to each statement. *)
Fixpoint vrun2 {T} {O : Ops T} (sz : N) (s : @vst T) (cs : list (@vop T * reply)) : Res (@vst T * list (@obs T)) :=
  match cs with
  | nil => Ok (s, nil)
  | (c, r) :: cs => let* (s, o) := vstep2 sz r s c in let* (s, os) := vrun2 sz s cs in Ok (s, o :: os)
  end.
