(** ProgSpec.v: what programs over matrices mean, in terms of mathematical matrices
    (dimensions and a function from positions to elements).  No algorithm of the library
    appears here. *)
From Verif Require Import MatProg Spec.

Section Spec.
Context {T : Type} {O : Ops T}.

(** A live matrix is an r x c table of elements, or was moved from. *)
Inductive aval := Mx (r c : nat) (f : nat -> nat -> T) | Moved.
Definition aenv := nat -> option aval.
Definition aset (s : aenv) (x : nat) (a : option aval) : aenv := fun y => if y =? x then a else s y.

Definition shape_okb (r c : nat) : bool := (N.of_nat r <? two64)%N && (N.of_nat c <? two64)%N && fitsb (r * c).
Definition sizeb (n : nat) : bool := (N.of_nat n <? two64)%N.
Definition lin_okb (p : vpath) (r c : nat) : bool :=
  match p with
  | PCof _ _ _ => match vshape p r c with Some (r', c') => r' =? c' | None => false end
  | _ => true
  end.
Definition is_root (p : vpath) : bool := match p with Root => true | _ => false end.

(** The element of the view p that stands for position (a, b) of the root, if any. *)
Fixpoint vinv (p : vpath) (a b : nat) : option (nat * nat) :=
  match p with
  | Root => Some (a, b)
  | PView rr rc p' =>
      match vinv p' a b with
      | Some (i, j) =>
          if (start rr <=? i) && (i <? stop rr) && (start rc <=? j) && (j <? stop rc)
          then Some (i - start rr, j - start rc) else None
      | None => None
      end
  | PCof er ec p' =>
      match vinv p' a b with
      | Some (i, j) =>
          if (i =? er) || (j =? ec) then None
          else Some (if i <? er then i else i - 1, if j <? ec then j else j - 1)
      | None => None
      end
  end.
(** Writing the r' x c' table h through the view p. *)
Definition awrite (p : vpath) (r' c' : nat) (h f : nat -> nat -> T) : nat -> nat -> T :=
  fun a b => match vinv p a b with
             | Some (i, j) => if (i <? r') && (j <? c') then h i j else f a b
             | None => f a b
             end.

(** Result of an expression: [None] illegal, [Some None] throws. *)
Definition ares := option (option (nat * nat * (nat -> nat -> T))).
Definition azip (g : T -> T -> T) (a b : ares) : ares :=
  match a, b with
  | Some None, Some _ => Some None
  | Some _, Some None => Some None
  | Some (Some (r, c, f)), Some (Some (r', c', f')) =>
      if (r =? r') && (c =? c') then Some (Some (r, c, fun i j => g (f i j) (f' i j))) else Some None
  | _, _ => None
  end.
Fixpoint aeval (s : aenv) (a : expr) : ares :=
  match a with
  | EVar y p =>
      match s y with
      | Some (Mx r c f) =>
          match vshape p r c with
          | Some (r', c') => if lin_okb p r c then Some (Some (r', c', vsel p f)) else None
          | None => None
          end
      | _ => None
      end
  | EAdd a b => azip oadd (aeval s a) (aeval s b)
  | ESub a b => azip osub (aeval s a) (aeval s b)
  | EEw a b => azip omul (aeval s a) (aeval s b)
  | EMul a b =>
      match aeval s a, aeval s b with
      | Some None, Some _ => Some None
      | Some _, Some None => Some None
      | Some (Some (r, n, f)), Some (Some (n', c, g)) =>
          if negb (n =? n') then Some None
          else if shape_okb r c then Some (Some (r, c, mprod n f g)) else None
      | _, _ => None
      end
  | EScale a v =>
      match aeval s a with
      | Some (Some (r, c, f)) => Some (Some (r, c, fun i j => omul (f i j) v))
      | x => x
      end
  | ETrans a =>
      match aeval s a with
      | Some (Some (r, c, f)) => Some (Some (c, r, fun i j => f j i))
      | x => x
      end
  end.

(** A list of rows as a table: [None] illegal (no common length), [Some None] no element. *)
Definition atable (ll : list (list T)) : ares :=
  match ll with
  | nil => Some None
  | nil :: _ => Some None
  | first :: _ =>
      let r := length ll in let c := length first in
      if shape_okb r c && forallb (fun row => c <=? length row) ll
      then Some (Some (r, c, fun i j => nth j (nth i ll nil) o0)) else None
  end.

(** [astep s c = Some (s', o)]: the statement is legal, leads to s' and shows o. *)
Definition astep (s : aenv) (st : stmt) : option (aenv * obs) :=
  let ok s := Some (s, Done) in
  let fresh x (k : option (aenv * obs)) := match s x with None => k | Some _ => None end in
  let live x (k : option (aenv * obs)) := match s x with None => None | Some _ => k end in
  let new x a := match a : ares with None => None | Some None => Some (s, Threw)
                 | Some (Some (r, c, f)) => ok (aset s x (Some (Mx r c f))) end in
  (* x (seen through p) is r' x c' with elements v; write h *)
  let onview x p (k : nat -> nat -> (nat -> nat -> T) -> option (option (nat -> nat -> T))) :=
    match s x with
    | Some (Mx r c f) =>
        match vshape p r c with
        | Some (r', c') =>
            match k r' c' (vsel p f) with
            | None => None
            | Some None => Some (s, Threw)
            | Some (Some h) => ok (aset s x (Some (Mx r c (awrite p r' c' h f))))
            end
        | None => None
        end
    | _ => None
    end in
  let linview x p k := onview x p (fun r' c' v =>
    match s x with Some (Mx r c _) => if lin_okb p r c then k r' c' v else None | _ => None end) in
  let mat y (k : nat -> nat -> (nat -> nat -> T) -> option (option (nat -> nat -> T))) :=
    match s y with Some (Mx r c f) => k r c f | _ => None end in
  match st with
  | SOp (MNew x) => fresh x (ok (aset s x (Some (Mx 0 0 (fun _ _ => o0)))))
  | SOp (MFill x r c v) => fresh x (if shape_okb r c then ok (aset s x (Some (Mx r c (fun _ _ => v)))) else None)
  | SOp (MList x r c l) =>
      fresh x (if shape_okb r c && (r * c <=? length l)
               then ok (aset s x (Some (Mx r c (fun i j => nth (i * c + j) l o0)))) else None)
  | SOp (MNested x ll) => fresh x (new x (atable ll))
  | SOp (MCopy x y p) => fresh x (new x (aeval s (EVar y p)))
  | SOp (MMove x y) =>
      fresh x match s y with
              | Some (Mx r c f) => ok (aset (if r * c =? 0 then s else aset s y (Some Moved)) x (Some (Mx r c f)))
              | _ => None
              end
  | SOp (MAssign x y p) | SAssign x (EVar y p) =>
      live x (if x =? y then if is_root p then ok s else None
              else match s y with
                   | Some (Mx r c f) =>
                       match vshape p r c with
                       | Some (r', c') => if r' * c' =? 0 then ok s else ok (aset s x (Some (Mx r' c' (vsel p f))))
                       | None => None
                       end
                   | _ => None
                   end)
  | SOp (MMoveAssign x y) =>
      live x (if x =? y then ok s
              else match s y with
                   | Some (Mx r c f) => if r * c =? 0 then ok s else ok (aset (aset s y (Some Moved)) x (Some (Mx r c f)))
                   | Some Moved => ok (aset s x (Some Moved))
                   | None => None
                   end)
  | SOp (MAssignNested x ll) =>
      live x match atable ll with None => None | Some None => ok s
             | Some (Some (r, c, f)) => ok (aset s x (Some (Mx r c f))) end
  | SOp (MResize x r' c') =>
      match s x with
      | Some (Mx r c f) =>
          if shape_okb r' c'
          then ok (aset s x (Some (Mx r' c' (fun i j => if (i <? r) && (j <? c) then f i j else o0)))) else None
      | _ => None
      end
  | SOp (MReshape x r' c') =>
      match s x with
      | Some (Mx r c f) =>
          if sizeb r' && sizeb c' && sizeb (r' * c') then
            if r' * c' =? r * c
            then ok (aset s x (Some (Mx r' c' (fun i j => f ((i * c' + j) / c) ((i * c' + j) mod c)))))
            else Some (s, Threw)
          else None
      | _ => None
      end
  | SOp (MRemoveRow x k) =>
      match s x with
      | Some (Mx r c f) =>
          if k <? r then ok (aset s x (Some (Mx (r - 1) c (fun i j => f (if i <? k then i else S i) j)))) else Some (s, Threw)
      | _ => None
      end
  | SOp (MRemoveCol x k) =>
      match s x with
      | Some (Mx r c f) =>
          if k <? c then ok (aset s x (Some (Mx r (c - 1) (fun i j => f i (if j <? k then j else S j))))) else Some (s, Threw)
      | _ => None
      end
  | SOp (MSwapRows x p i j c0 c1) => onview x p (fun r' c' v =>
      if (i <? r') && (j <? r') then Some (Some (fun a b =>
        if (c0 <=? b) && (b <? c1) then v (if a =? i then j else if a =? j then i else a) b else v a b)) else None)
  | SOp (MSwapCols x p i j r0 r1) => onview x p (fun r' c' v =>
      if (i <? c') && (j <? c') then Some (Some (fun a b =>
        if (r0 <=? a) && (a <? r1) then v a (if b =? i then j else if b =? j then i else b) else v a b)) else None)
  | SOp (MSet x p i j w) => onview x p (fun r' c' v =>
      if (i <? r') && (j <? c') then Some (Some (fun a b => if (a =? i) && (b =? j) then w else v a b)) else None)
  | SOp (MViewAssign x p y) => onview x p (fun r' c' v => mat y (fun r c g =>
      if negb (x =? y) && (r =? r') && (c =? c') then Some (Some g) else None))
  | SOp (MAdd x p y) => linview x p (fun r' c' v => mat y (fun r c g =>
      if (x =? y) && negb (is_root p) then None
      else if (r =? r') && (c =? c') then Some (Some (fun i j => oadd (v i j) (g i j))) else Some None))
  | SOp (MSub x p y) => linview x p (fun r' c' v => mat y (fun r c g =>
      if (x =? y) && negb (is_root p) then None
      else if (r =? r') && (c =? c') then Some (Some (fun i j => osub (v i j) (g i j))) else Some None))
  | SOp (MMul x p y) => linview x p (fun r' c' v => mat y (fun n c g =>
      if (x =? y) && negb (is_root p) then None
      else if negb (n =? c') then Some None
      else if c <=? c' then Some (Some (fun i j => if j <? c then mprod c' v g i j else o0)) else None))
  | SOp (MScale x p w) => linview x p (fun r' c' v => Some (Some (fun i j => omul (v i j) w)))
  | SOp (MGet x p i j) =>
      match s x with
      | Some (Mx r c f) =>
          match vshape p r c with
          | Some (r', c') => if (i <? r') && (j <? c') then Some (s, Val (vsel p f i j)) else None
          | None => None
          end
      | _ => None
      end
  | SOp (MDestroy x) => live x (ok (aset s x None))
  | SLet x a => fresh x (new x (aeval s a))
  | SAssign x a =>
      live x match aeval s a with
             | None => None
             | Some None => Some (s, Threw)
             | Some (Some (r, c, f)) => if r * c =? 0 then ok s else ok (aset s x (Some (Mx r c f)))
             end
  | SDims x p =>
      match s x with
      | Some (Mx r c f) => match vshape p r c with Some (r', c') => Some (s, Dims r' c') | None => None end
      | _ => None
      end
  end.
Fixpoint arun (s : aenv) (cs : list stmt) : option (aenv * list obs) :=
  match cs with
  | nil => Some (s, nil)
  | c :: cs =>
      match astep s c with
      | Some (s, o) => match arun s cs with Some (s, os) => Some (s, o :: os) | None => None end
      | None => None
      end
  end.
End Spec.
