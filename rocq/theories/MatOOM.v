(** MatOOM.v: the matrices of MatHeap.v with the allocator of VecOOM.v, which may refuse
    any request.  The functions are those of MatHeap.v; only the statements on Vectors
    they consist of are those of VecOOM.v.  A statement on matrices makes at most one
    request, and [r] is the answer to it. *)
From Verif Require Export MatHeap VecOOM.

Section OOMModel.
Context {T : Type} {O : Ops T} (sz : N) (r : reply).
(** One statement on a Vector. *)
Definition hdo2 (s : hst) (c : vop) : Res hst :=
  let* (v, _) := vstep2 sz r (hv s) c in Ok (mkH v (hshape s)).
Definition hread2 (s : hst) (x i : nat) : Res T :=
  let* (_, o) := vstep2 sz r (hv s) (Read x i) in match o with Value v => Ok v | _ => UB end.

(** matrix.hpp:400-460, matrix_base.hpp:60-80: the Matrix [x] as a MatrixBase whose
    elements are read from memory; [v] is the Vector it holds. *)
Definition hmbv2 (s : hst) (v r c : nat) : MB T :=
  mkMB r c (mul64 r c) ((r =? 0) || (c =? 0)) (fun i j => hread2 s v (add64 (mul64 i c) j)) (hread2 s v).
Definition hmb2 (s : hst) (x : nat) : MB T := hmbv2 s (S x) (hrows s x) (hcols s x).
(** Views of it (view.hpp:30-392). *)
Definition hsrc2 (p : vpath) (y : nat) (s : hst) : MB T := pview p (hmb2 s y).
(** Writes through [operator()] and [operator[]] of a view of [x]. *)
Definition hset2 (p : vpath) (x i j : nat) (a : T) (s : hst) : Res hst :=
  hdo2 s (Write (S x) (add64 (mul64 (fst (voff p i j)) (hcols s x)) (snd (voff p i j))) a).
Definition hlset2 (p : vpath) (x k : nat) (a : T) (s : hst) : Res hst :=
  match p with
  | Root => hdo2 s (Write (S x) k a)
  | PView _ _ _ => let nc := mcols (hsrc2 p x s) in if nc =? 0 then UB else hset2 p x (k / nc) (k mod nc) a s
  | PCof _ _ _ => let nr := mrows (hsrc2 p x s) in if nr =? 0 then UB else hset2 p x (k / nr) (k mod nr) a s
  end.
(** [_data = Vector<T>(n)]: construct the temporary, move-assign, destroy it. *)
Definition renew2 (s : hst) (x n : nat) : Res hst :=
  let* s := hdo2 s (Sized 0 n) in let* s := hdo2 s (MoveAssign (S x) 0) in hdo2 s (Destroy 0).

(** The copy loop of matrix.hpp:114-120 and 387-393. *)
Definition hnested2 (x r c : nat) (ll : list (list T)) (s : hst) : Res hst :=
  for_range 0 r (fun i s => for_range 0 c (fun j s =>
    let* a := (let* row := lget ll i in lget row j) in hset2 Root x i j a s) s) s.
(** matrix.hpp:65-91. *)
Definition hlist2 (x r c : nat) (l : list T) (s : hst) : Res hst :=
  let* s := hdo2 s (Sized (S x) (mul64 r c)) in
  let s := setd s x (Some (r, c)) in
  let* s := for_range 0 r (fun i s => for_range 0 c (fun j (s : hst * nat) =>
              let* a := lget l (snd s) in
              let* h := hset2 Root x i j a (fst s) in Ok (h, S (snd s))) s) (s, 0) in
  Ok (fst s).
(** matrix.hpp:95-121. *)
Definition hctor_nested2 (x : nat) (ll : list (list T)) (s : hst) : Res hst :=
  match ll with
  | nil => Throw
  | nil :: _ => Throw
  | first :: _ =>
      let r := length ll in let c := length first in
      let* s := hdo2 s (New (S x)) in
      let s := setd s x (Some (r, c)) in
      let* s := renew2 s x (mul64 r c) in hnested2 x r c ll s
  end.
(** matrix.hpp:125-168. *)
Definition hcopy2 (x y : nat) (p : vpath) (s : hst) : Res hst :=
  let r := mrows (hsrc2 p y s) in let c := mcols (hsrc2 p y s) in
  let* s := hdo2 s (Sized (S x) (mul64 r c)) in
  let s := setd s x (Some (r, c)) in
  for_range 0 (mul64 r c) (fun i s => let* a := mlin (hsrc2 p y s) i in hdo2 s (Write (S x) i a)) s.
(** matrix.hpp:172-177. *)
Definition hmove2 (x y : nat) (s : hst) : Res hst :=
  let* s := hdo2 s (Move (S x) (S y)) in Ok (setd s x (Some (hrows s y, hcols s y))).
(** matrix.hpp:259-324; [&rhs == this] only if the source is [x] itself. *)
Definition hassign2 (x y : nat) (p : vpath) (s : hst) : Res hst :=
  if (x =? y) && match p with Root => true | _ => false end then Ok s
  else if msize (hsrc2 p y s) =? 0 then Ok s
  else
    let* s := renew2 s x (mul64 (mrows (hsrc2 p y s)) (mcols (hsrc2 p y s))) in
    let s := setd s x (Some (mrows (hsrc2 p y s), hcols s x)) in
    let s := setd s x (Some (hrows s x, mcols (hsrc2 p y s))) in
    for_range 0 (hrows s x) (fun r s' => for_range 0 (hcols s x) (fun c s' =>
      let* a := mget (hsrc2 p y s') r c in hset2 Root x r c a s') s') s.
(** matrix.hpp:355-365. *)
Definition hmove_assign2 (x y : nat) (s : hst) : Res hst :=
  if x =? y then Ok s
  else if mul64 (hrows s y) (hcols s y) =? 0 then Ok s
  else let* s := hdo2 s (MoveAssign (S x) (S y)) in Ok (setd s x (Some (hrows s y, hcols s y))).
(** matrix.hpp:370-395. *)
Definition hassign_nested2 (x : nat) (ll : list (list T)) (s : hst) : Res hst :=
  match ll with
  | nil => Ok s
  | nil :: _ => Ok s
  | first :: _ =>
      let r := length ll in let c := length first in
      let s := setd s x (Some (r, c)) in
      let* s := renew2 s x (mul64 r c) in hnested2 x r c ll s
  end.
(** matrix.hpp:228-254; the local Matrix [m] is the Vector 0. *)
Definition hresize2 (x r c : nat) (s : hst) : Res hst :=
  if (hrows s x =? r) && (hcols s x =? c) then Ok s
  else
    let* s :=
      if hcols s x =? c then hdo2 s (Resize (S x) (mul64 r c))
      else
        let* s := hdo2 s (Fill 0 (mul64 r c) o0) in
        let* s := for_range 0 (Nat.min (hrows s x) r) (fun i s' => for_range 0 (Nat.min (hcols s x) c) (fun j s' =>
                    let* a := mget (hmb2 s' x) i j in hdo2 s' (Write 0 (add64 (mul64 i c) j) a)) s') s in
        let* s := hdo2 s (MoveAssign (S x) 0) in hdo2 s (Destroy 0) in
    Ok (setd s x (Some (r, c))).
(** [std::swap(view(i, j), view(a, b))]. *)
Definition hswap2 (p : vpath) (x i j a b : nat) (s : hst) : Res hst :=
  let* t := mget (hsrc2 p x s) i j in
  let* u := mget (hsrc2 p x s) a b in
  let* s := hset2 p x i j u s in
  hset2 p x a b t s.
(** utility.hpp:419-440. *)
Definition hswap_rows2 (x : nat) (p : vpath) (i j c0 c1 : nat) (s : hst) : Res hst :=
  let c1 := Nat.min c1 (mcols (hsrc2 p x s)) in
  for_range c0 c1 (fun c s => hswap2 p x i c j c s) s.
Definition hswap_cols2 (x : nat) (p : vpath) (i j r0 r1 : nat) (s : hst) : Res hst :=
  let r1 := Nat.min (mrows (hsrc2 p x s)) r1 in
  for_range r0 r1 (fun r s => hswap2 p x r i r j s) s.
(** utility.hpp:447-478. *)
Definition hremove_row2 (x row : nat) (s : hst) : Res hst :=
  if hrows s x <=? row then Throw
  else
    let* s := for_range row (hrows s x - 1) (fun r s =>
                for_range 0 (hcols s x) (fun c s => hswap2 Root x r c (S r) c s) s) s in
    hresize2 x (hrows s x - 1) (hcols s x) s.
Definition hremove_column2 (x col : nat) (s : hst) : Res hst :=
  if hcols s x <=? col then Throw
  else
    let* s := for_range col (hcols s x - 1) (fun c s =>
                for_range 0 (hrows s x) (fun r s => hswap2 Root x r c r (S c) s) s) s in
    hresize2 x (hrows s x) (hcols s x - 1) s.
(** view.hpp:97-132. *)
Definition hview_assign2 (x : nat) (p : vpath) (y : nat) (s : hst) : Res hst :=
  if (mrows (hsrc2 p x s) =? hrows s y) && (mcols (hsrc2 p x s) =? hcols s y) then
    for_range 0 (hrows s y) (fun r s => for_range 0 (hcols s y) (fun c s =>
      let* a := mget (hmb2 s y) r c in hset2 p x r c a s) s) s
  else UB.
(** math.hpp:64-79, 142-157. *)
Definition hizip2 (f : T -> T -> Res T) (x : nat) (p : vpath) (y : nat) (s : hst) : Res hst :=
  if negb (mrows (hsrc2 p x s) =? hrows s y) then Throw
  else if negb (mcols (hsrc2 p x s) =? hcols s y) then Throw
  else for_range 0 (msize (hsrc2 p x s)) (fun i s =>
         let* a := mlin (hsrc2 p x s) i in let* b := mlin (hmb2 s y) i in
         let* v := f a b in hlset2 p x i v s) s.
(** math.hpp:262-269. *)
Definition himap2 (f : T -> Res T) (x : nat) (p : vpath) (s : hst) : Res hst :=
  for_range 0 (msize (hsrc2 p x s)) (fun i s =>
    let* a := mlin (hsrc2 p x s) i in let* v := f a in hlset2 p x i v s) s.
(** math.hpp:232-255; the local Matrix [result] is the Vector 0. *)
Definition himul2 (x : nat) (p : vpath) (y : nat) (s : hst) : Res hst :=
  if negb (mcols (hsrc2 p x s) =? hrows s y) then Throw
  else
    let nr := mrows (hsrc2 p x s) in let nc := mcols (hsrc2 p x s) in
    let* s := hdo2 s (Fill 0 (mul64 nr nc) o0) in
    let* s := for_range 0 nr (fun r s => for_range 0 (hcols s y) (fun c s => for_range 0 (hrows s y) (fun k s =>
                let* a := mget (hsrc2 p x s) r k in let* b := mget (hmb2 s y) k c in
                let* v := hread2 s 0 (add64 (mul64 r nc) c) in
                hdo2 s (Write 0 (add64 (mul64 r nc) c) (oadd v (omul a b)))) s) s) s in
    let* s := for_range 0 (msize (hsrc2 p x s)) (fun i s => let* a := hread2 s 0 i in hlset2 p x i a s) s in
    hdo2 s (Destroy 0).

(** The statements of MatHist.v. *)
Definition hstep2 (s : hst) (c : mop) : Res hst :=
  match c with
  | MNew x => let* _ := hfresh s x in let* s := hdo2 s (New (S x)) in Ok (setd s x (Some (0, 0)))
  | MFill x r c v =>
      let* _ := hfresh s x in
      let* s := hdo2 s (Fill (S x) (mul64 r c) v) in Ok (setd s x (Some (r, c)))
  | MList x r c l => let* _ := hfresh s x in hlist2 x r c l s
  | MNested x ll => let* _ := hfresh s x in hctor_nested2 x ll s
  | MCopy x y p => let* _ := hfresh s x in let* _ := hlook s y in hcopy2 x y p s
  | MMove x y => let* _ := hfresh s x in let* _ := hlook s y in hmove2 x y s
  | MAssign x y p => let* _ := hlook s x in let* _ := hlook s y in hassign2 x y p s
  | MMoveAssign x y => let* _ := hlook s x in let* _ := hlook s y in hmove_assign2 x y s
  | MAssignNested x ll => let* _ := hlook s x in hassign_nested2 x ll s
  | MResize x r c => let* _ := hlook s x in hresize2 x r c s
  | MReshape x r c => let* _ := hlook s x in hreshape x r c s
  | MRemoveRow x k => let* _ := hlook s x in hremove_row2 x k s
  | MRemoveCol x k => let* _ := hlook s x in hremove_column2 x k s
  | MSwapRows x p i j c0 c1 => let* _ := hlook s x in hswap_rows2 x p i j c0 c1 s
  | MSwapCols x p i j r0 r1 => let* _ := hlook s x in hswap_cols2 x p i j r0 r1 s
  | MSet x p i j v => let* _ := hlook s x in hset2 p x i j v s
  | MViewAssign x p y => let* _ := hlook s x in let* _ := hlook s y in hview_assign2 x p y s
  | MAdd x p y => let* _ := hlook s x in let* _ := hlook s y in hizip2 (fun a b => Ok (oadd a b)) x p y s
  | MSub x p y => let* _ := hlook s x in let* _ := hlook s y in hizip2 (fun a b => Ok (osub a b)) x p y s
  | MMul x p y => let* _ := hlook s x in let* _ := hlook s y in himul2 x p y s
  | MScale x p a => let* _ := hlook s x in himap2 (fun v => Ok (omul v a)) x p s
  | MGet x p i j => let* _ := hlook s x in let* _ := mget (hsrc2 p x s) i j in Ok s
  | MDestroy x => let* _ := hlook s x in let* s := hdo2 s (Destroy (S x)) in Ok (setd s x None)
  end.
End OOMModel.
(** A program with the answer of the allocator to each statement; it catches the
    exceptions. *)
Fixpoint hrun2 {T} {O : Ops T} (sz : N) (s : @hst T) (cs : list (@mop T * reply)) : Res hst :=
  match cs with
  | nil => Ok s
  | (c, a) :: cs => match hstep2 sz a s c with Throw => hrun2 sz s cs | r => let* s := r in hrun2 sz s cs end
  end.
