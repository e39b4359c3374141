(** MatHeap.v: the statements of MatHist.v, with every matrix holding a pointer to
    a block of memory.  A Matrix is a pair of counters and a Vector (matrix.hpp:21-30
    [_rows], [_cols], [_data]); every access to [_data] is a statement of VecHeap.v.
    Matrix [x] keeps its elements in the Vector named [S x]; the Vector named 0 is the
    temporary Vector or the local Matrix of the statement being run. *)
From Verif Require Export MatHist VecHeap.

Section HeapModel.
Context {T : Type} {O : Ops T} (ip : @heap T -> nat -> nat -> bool).

(** The memory and the [_rows], [_cols] of every matrix. *)
Record hst := mkH { hv : @vst T; hshape : nat -> option (nat * nat) }.
Definition hst0 : hst := mkH vst0 (fun _ => None).
(** One statement on a Vector. *)
Definition hdo (s : hst) (c : vop) : Res hst :=
  let* (v, _) := vstep ip (hv s) c in Ok (mkH v (hshape s)).
Definition hread (s : hst) (x i : nat) : Res T :=
  let* (_, o) := vstep ip (hv s) (Read x i) in match o with Value v => Ok v | _ => UB end.
(** [_rows] and [_cols] are set, or the object begins or ends. *)
Definition setd (s : hst) (x : nat) (d : option (nat * nat)) : hst :=
  mkH (hv s) (fun y => if y =? x then d else hshape s y).
Definition hdims (s : hst) (x : nat) : nat * nat := match hshape s x with Some d => d | None => (0, 0) end.
Definition hrows s x := fst (hdims s x).
Definition hcols s x := snd (hdims s x).
Definition hlook (s : hst) (x : nat) : Res unit := match hshape s x with Some _ => Ok tt | None => UB end.
Definition hfresh (s : hst) (x : nat) : Res unit := match hshape s x with Some _ => UB | None => Ok tt end.

(** matrix.hpp:400-460, matrix_base.hpp:60-80: the Matrix [x] as a MatrixBase whose
    elements are read from memory; [v] is the Vector it holds. *)
Definition hmbv (s : hst) (v r c : nat) : MB T :=
  mkMB r c (mul64 r c) ((r =? 0) || (c =? 0)) (fun i j => hread s v (add64 (mul64 i c) j)) (hread s v).
Definition hmb (s : hst) (x : nat) : MB T := hmbv s (S x) (hrows s x) (hcols s x).
(** Views of it (view.hpp:30-392). *)
Fixpoint pview (p : vpath) (X : MB T) : MB T :=
  match p with
  | Root => X
  | PView rr rc p' => mb_view rr rc (pview p' X)
  | PCof er ec p' => mb_cof er ec (pview p' X)
  end.
Definition hsrc (p : vpath) (y : nat) (s : hst) : MB T := pview p (hmb s y).
(** Writes through [operator()] and [operator[]] of a view of [x]. *)
Definition hset (p : vpath) (x i j : nat) (a : T) (s : hst) : Res hst :=
  hdo s (Write (S x) (add64 (mul64 (fst (voff p i j)) (hcols s x)) (snd (voff p i j))) a).
Definition hlset (p : vpath) (x k : nat) (a : T) (s : hst) : Res hst :=
  match p with
  | Root => hdo s (Write (S x) k a)
  | PView _ _ _ => let nc := mcols (hsrc p x s) in if nc =? 0 then UB else hset p x (k / nc) (k mod nc) a s
  | PCof _ _ _ => let nr := mrows (hsrc p x s) in if nr =? 0 then UB else hset p x (k / nr) (k mod nr) a s
  end.
(** [_data = Vector<T>(n)]: construct the temporary, move-assign, destroy it. *)
Definition renew (s : hst) (x n : nat) : Res hst :=
  let* s := hdo s (Sized 0 n) in let* s := hdo s (MoveAssign (S x) 0) in hdo s (Destroy 0).

(** The copy loop of matrix.hpp:114-120 and 387-393. *)
Definition hnested (x r c : nat) (ll : list (list T)) (s : hst) : Res hst :=
  for_range 0 r (fun i s => for_range 0 c (fun j s =>
    let* a := (let* row := lget ll i in lget row j) in hset Root x i j a s) s) s.
(** matrix.hpp:65-91. *)
Definition hlist (x r c : nat) (l : list T) (s : hst) : Res hst :=
  let* s := hdo s (Sized (S x) (mul64 r c)) in
  let s := setd s x (Some (r, c)) in
  let* s := for_range 0 r (fun i s => for_range 0 c (fun j (s : hst * nat) =>
              let* a := lget l (snd s) in
              let* h := hset Root x i j a (fst s) in Ok (h, S (snd s))) s) (s, 0) in
  Ok (fst s).
(** matrix.hpp:95-121. *)
Definition hctor_nested (x : nat) (ll : list (list T)) (s : hst) : Res hst :=
  match ll with
  | nil => Throw
  | nil :: _ => Throw
  | first :: _ =>
      let r := length ll in let c := length first in
      let* s := hdo s (New (S x)) in
      let s := setd s x (Some (r, c)) in
      let* s := renew s x (mul64 r c) in hnested x r c ll s
  end.
(** matrix.hpp:125-168. *)
Definition hcopy (x y : nat) (p : vpath) (s : hst) : Res hst :=
  let r := mrows (hsrc p y s) in let c := mcols (hsrc p y s) in
  let* s := hdo s (Sized (S x) (mul64 r c)) in
  let s := setd s x (Some (r, c)) in
  for_range 0 (mul64 r c) (fun i s => let* a := mlin (hsrc p y s) i in hdo s (Write (S x) i a)) s.
(** matrix.hpp:172-177. *)
Definition hmove (x y : nat) (s : hst) : Res hst :=
  let* s := hdo s (Move (S x) (S y)) in Ok (setd s x (Some (hrows s y, hcols s y))).
(** matrix.hpp:259-324; [&rhs == this] only if the source is [x] itself. *)
Definition hassign (x y : nat) (p : vpath) (s : hst) : Res hst :=
  if (x =? y) && match p with Root => true | _ => false end then Ok s
  else if msize (hsrc p y s) =? 0 then Ok s
  else
    let* s := renew s x (mul64 (mrows (hsrc p y s)) (mcols (hsrc p y s))) in
    let s := setd s x (Some (mrows (hsrc p y s), hcols s x)) in
    let s := setd s x (Some (hrows s x, mcols (hsrc p y s))) in
    for_range 0 (hrows s x) (fun r s' => for_range 0 (hcols s x) (fun c s' =>
      let* a := mget (hsrc p y s') r c in hset Root x r c a s') s') s.
(** matrix.hpp:355-365. *)
Definition hmove_assign (x y : nat) (s : hst) : Res hst :=
  if x =? y then Ok s
  else if mul64 (hrows s y) (hcols s y) =? 0 then Ok s
  else let* s := hdo s (MoveAssign (S x) (S y)) in Ok (setd s x (Some (hrows s y, hcols s y))).
(** matrix.hpp:370-395. *)
Definition hassign_nested (x : nat) (ll : list (list T)) (s : hst) : Res hst :=
  match ll with
  | nil => Ok s
  | nil :: _ => Ok s
  | first :: _ =>
      let r := length ll in let c := length first in
      let s := setd s x (Some (r, c)) in
      let* s := renew s x (mul64 r c) in hnested x r c ll s
  end.
(** matrix.hpp:228-254; the local Matrix [m] is the Vector 0. *)
Definition hresize (x r c : nat) (s : hst) : Res hst :=
  if (hrows s x =? r) && (hcols s x =? c) then Ok s
  else
    let* s :=
      if hcols s x =? c then hdo s (Resize (S x) (mul64 r c))
      else
        let* s := hdo s (Fill 0 (mul64 r c) o0) in
        let* s := for_range 0 (Nat.min (hrows s x) r) (fun i s' => for_range 0 (Nat.min (hcols s x) c) (fun j s' =>
                    let* a := mget (hmb s' x) i j in hdo s' (Write 0 (add64 (mul64 i c) j) a)) s') s in
        let* s := hdo s (MoveAssign (S x) 0) in hdo s (Destroy 0) in
    Ok (setd s x (Some (r, c))).
(** matrix.hpp:214-222. *)
Definition hreshape (x r c : nat) (s : hst) : Res hst :=
  if mul64 (hrows s x) (hcols s x) =? mul64 r c then Ok (setd s x (Some (r, c))) else Throw.
(** [std::swap(view(i, j), view(a, b))]. *)
Definition hswap (p : vpath) (x i j a b : nat) (s : hst) : Res hst :=
  let* t := mget (hsrc p x s) i j in
  let* u := mget (hsrc p x s) a b in
  let* s := hset p x i j u s in
  hset p x a b t s.
(** utility.hpp:419-440. *)
Definition hswap_rows (x : nat) (p : vpath) (i j c0 c1 : nat) (s : hst) : Res hst :=
  let c1 := Nat.min c1 (mcols (hsrc p x s)) in
  for_range c0 c1 (fun c s => hswap p x i c j c s) s.
Definition hswap_cols (x : nat) (p : vpath) (i j r0 r1 : nat) (s : hst) : Res hst :=
  let r1 := Nat.min (mrows (hsrc p x s)) r1 in
  for_range r0 r1 (fun r s => hswap p x r i r j s) s.
(** utility.hpp:447-478. *)
Definition hremove_row (x row : nat) (s : hst) : Res hst :=
  if hrows s x <=? row then Throw
  else
    let* s := for_range row (hrows s x - 1) (fun r s =>
                for_range 0 (hcols s x) (fun c s => hswap Root x r c (S r) c s) s) s in
    hresize x (hrows s x - 1) (hcols s x) s.
Definition hremove_column (x col : nat) (s : hst) : Res hst :=
  if hcols s x <=? col then Throw
  else
    let* s := for_range col (hcols s x - 1) (fun c s =>
                for_range 0 (hrows s x) (fun r s => hswap Root x r c r (S c) s) s) s in
    hresize x (hrows s x) (hcols s x - 1) s.
(** view.hpp:97-132. *)
Definition hview_assign (x : nat) (p : vpath) (y : nat) (s : hst) : Res hst :=
  if (mrows (hsrc p x s) =? hrows s y) && (mcols (hsrc p x s) =? hcols s y) then
    for_range 0 (hrows s y) (fun r s => for_range 0 (hcols s y) (fun c s =>
      let* a := mget (hmb s y) r c in hset p x r c a s) s) s
  else UB.
(** math.hpp:64-79, 142-157. *)
Definition hizip (f : T -> T -> Res T) (x : nat) (p : vpath) (y : nat) (s : hst) : Res hst :=
  if negb (mrows (hsrc p x s) =? hrows s y) then Throw
  else if negb (mcols (hsrc p x s) =? hcols s y) then Throw
  else for_range 0 (msize (hsrc p x s)) (fun i s =>
         let* a := mlin (hsrc p x s) i in let* b := mlin (hmb s y) i in
         let* v := f a b in hlset p x i v s) s.
(** math.hpp:262-269. *)
Definition himap (f : T -> Res T) (x : nat) (p : vpath) (s : hst) : Res hst :=
  for_range 0 (msize (hsrc p x s)) (fun i s =>
    let* a := mlin (hsrc p x s) i in let* v := f a in hlset p x i v s) s.
(** math.hpp:232-255; the local Matrix [result] is the Vector 0. *)
Definition himul (x : nat) (p : vpath) (y : nat) (s : hst) : Res hst :=
  if negb (mcols (hsrc p x s) =? hrows s y) then Throw
  else
    let nr := mrows (hsrc p x s) in let nc := mcols (hsrc p x s) in
    let* s := hdo s (Fill 0 (mul64 nr nc) o0) in
    let* s := for_range 0 nr (fun r s => for_range 0 (hcols s y) (fun c s => for_range 0 (hrows s y) (fun k s =>
                let* a := mget (hsrc p x s) r k in let* b := mget (hmb s y) k c in
                let* v := hread s 0 (add64 (mul64 r nc) c) in
                hdo s (Write 0 (add64 (mul64 r nc) c) (oadd v (omul a b)))) s) s) s in
    let* s := for_range 0 (msize (hsrc p x s)) (fun i s => let* a := hread s 0 i in hlset p x i a s) s in
    hdo s (Destroy 0).

(** The statements of MatHist.v. *)
Definition hstep (s : hst) (c : mop) : Res hst :=
  match c with
  | MNew x => let* _ := hfresh s x in let* s := hdo s (New (S x)) in Ok (setd s x (Some (0, 0)))
  | MFill x r c v =>
      let* _ := hfresh s x in
      let* s := hdo s (Fill (S x) (mul64 r c) v) in Ok (setd s x (Some (r, c)))
  | MList x r c l => let* _ := hfresh s x in hlist x r c l s
  | MNested x ll => let* _ := hfresh s x in hctor_nested x ll s
  | MCopy x y p => let* _ := hfresh s x in let* _ := hlook s y in hcopy x y p s
  | MMove x y => let* _ := hfresh s x in let* _ := hlook s y in hmove x y s
  | MAssign x y p => let* _ := hlook s x in let* _ := hlook s y in hassign x y p s
  | MMoveAssign x y => let* _ := hlook s x in let* _ := hlook s y in hmove_assign x y s
  | MAssignNested x ll => let* _ := hlook s x in hassign_nested x ll s
  | MResize x r c => let* _ := hlook s x in hresize x r c s
  | MReshape x r c => let* _ := hlook s x in hreshape x r c s
  | MRemoveRow x k => let* _ := hlook s x in hremove_row x k s
  | MRemoveCol x k => let* _ := hlook s x in hremove_column x k s
  | MSwapRows x p i j c0 c1 => let* _ := hlook s x in hswap_rows x p i j c0 c1 s
  | MSwapCols x p i j r0 r1 => let* _ := hlook s x in hswap_cols x p i j r0 r1 s
  | MSet x p i j v => let* _ := hlook s x in hset p x i j v s
  | MViewAssign x p y => let* _ := hlook s x in let* _ := hlook s y in hview_assign x p y s
  | MAdd x p y => let* _ := hlook s x in let* _ := hlook s y in hizip (fun a b => Ok (oadd a b)) x p y s
  | MSub x p y => let* _ := hlook s x in let* _ := hlook s y in hizip (fun a b => Ok (osub a b)) x p y s
  | MMul x p y => let* _ := hlook s x in let* _ := hlook s y in himul x p y s
  | MScale x p a => let* _ := hlook s x in himap (fun v => Ok (omul v a)) x p s
  | MGet x p i j => let* _ := hlook s x in let* _ := mget (hsrc p x s) i j in Ok s
  | MDestroy x => let* _ := hlook s x in let* s := hdo s (Destroy (S x)) in Ok (setd s x None)
  end.
(** The program catches the exceptions, as in MatHist.v.  They are thrown before
    anything is changed. *)
Fixpoint hrun (s : hst) (cs : list mop) : Res hst :=
  match cs with
  | nil => Ok s
  | c :: cs => match hstep s c with Throw => hrun s cs | r => let* s := r in hrun s cs end
  end.
End HeapModel.
