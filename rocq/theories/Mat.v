(** Mat.v: model of vector.hpp (value level), matrix_base.hpp, matrix.hpp and
    view.hpp.  The pointer level of vector.hpp is in VecHeap.v. *)
From Verif Require Export Base.

(** The operations on element values that the library uses.  Nothing is assumed
    about them here; laws appear as hypotheses or by instantiation (Scalar.v).
    [odiv] may fail: integer division by zero is undefined, and an exact field
    has no value for it.
    [oeq olt ole]: C++ [==], [<], [<=].
    [ofeq]: the comparison that matrix [operator==] selects for the element type
    (math.hpp:320-327): [feq::approximately_equal] for floating point, the two
    components for complex, [==] otherwise.
    [oisz]: [feq::approximately_equal_to_zero] (feq.hpp:59-62).
    [ofnat]: [static_cast<T>(n)]. *)
Class Ops (T : Type) := {
  o0 : T; o1 : T;
  oadd : T -> T -> T; osub : T -> T -> T; omul : T -> T -> T; oopp : T -> T;
  odiv : T -> T -> Res T;
  oeq : T -> T -> bool; olt : T -> T -> bool; ole : T -> T -> bool;
  ofeq : T -> T -> bool; oisz : T -> bool;
  oabs : T -> T; ofnat : nat -> T }.

(** * Vector (value level): a Vector is the list of its elements. *)
Section VectorModel.
Context {T : Type} {O : Ops T}.

(** vector.hpp:328-360 [allocate] (seen from the contents; 184-197 [resize] calls
    it).  Same size: nothing; 0: deallocate; otherwise realloc keeps the common
    prefix and the new tail is set to T(0.). *)
Definition vec_allocate (l : list T) (size : nat) : Res (list T) :=
  if size =? 0 then Ok nil
  else if size =? length l then Ok l
  else if fitsb size then Ok (firstn size l ++ repeat o0 (size - length l))
  else UB.
(** vector.hpp:41-46 [Vector(size)]. *)
Definition vec_new (size : nat) : Res (list T) := vec_allocate nil size.
(** vector.hpp:51-60 [Vector(size, value)]: allocate, then the fill loop. *)
Definition vec_fill (size : nat) (v : T) : Res (list T) :=
  let* d := vec_allocate nil size in
  for_range 0 (length d) (fun i d => lset d i v) d.
(** vector.hpp:80-90 [Vector(initializer_list)], 94-103 copy constructor: allocate,
    then copy element by element. *)
Definition vec_of_list (l : list T) : Res (list T) :=
  let* d := vec_allocate nil (length l) in
  for_range 0 (length d) (fun i d => let* x := lget l i in lset d i x) d.
(** vector.hpp:65-76 [Vector(size, initializer_list)]: [assert(size == data.size())]. *)
Definition vec_of_list_n (n : nat) (l : list T) : Res (list T) :=
  if n =? length l then vec_of_list l else UB.
(** vector.hpp:218-228 / 234-242 [operator=(const Vector&)], distinct objects. *)
Definition vec_assign (dst src : list T) : Res (list T) :=
  let* d := vec_allocate dst (length src) in
  for_range 0 (length d) (fun i d => let* x := lget src i in lset d i x) d.
End VectorModel.

(** * Matrix *)
Record Matrix (T : Type) := mkM { rows : nat; cols : nat; data : list T }.
Arguments mkM {T} rows cols data. Arguments rows {T} m. Arguments cols {T} m.
Arguments data {T} m.

(** The virtual interface of matrix_base.hpp:17-123 as seen through a
    [const MatrixBase<T>&]: rows(), cols(), size(), empty(), operator()/at, operator[]. *)
Record MB (T : Type) := mkMB {
  mrows : nat; mcols : nat; msize : nat; mempty : bool;
  mget : nat -> nat -> Res T; mlin : nat -> Res T }.
Arguments mkMB {T} mrows mcols msize mempty mget mlin.
Arguments mrows {T} m. Arguments mcols {T} m. Arguments msize {T} m.
Arguments mempty {T} m. Arguments mget {T} m. Arguments mlin {T} m.

(** matrix.hpp:447-467 [at] (ROW_MAJOR is defined, matrix_base.hpp:11). *)
Definition mat_idx {T} (m : Matrix T) (r c : nat) : nat := add64 (mul64 r (cols m)) c.
Definition mat_at {T} (m : Matrix T) (r c : nat) : Res T := lget (data m) (mat_idx m r c).
Definition mat_set {T} (m : Matrix T) (r c : nat) (v : T) : Res (Matrix T) :=
  let* d := lset (data m) (mat_idx m r c) v in Ok (mkM (rows m) (cols m) d).
(** matrix.hpp:400-411 [operator[]]. *)
Definition mat_lset {T} (m : Matrix T) (k : nat) (v : T) : Res (Matrix T) :=
  let* d := lset (data m) k v in Ok (mkM (rows m) (cols m) d).

(** A Matrix as a MatrixBase; size() matrix_base.hpp:69-72, empty() 77-80. *)
Definition mb_of_mat {T} (m : Matrix T) : MB T :=
  mkMB (rows m) (cols m) (mul64 (rows m) (cols m)) ((rows m =? 0) || (cols m =? 0))
       (mat_at m) (lget (data m)).

(** view.hpp:16-28 [Range]. *)
Record Range := mkRange { start : nat; stop : nat }.
(** view.hpp:24-27 [Range::all]; 2^64-1 (kept as [N.to_nat] so it is never unfolded). *)
Definition range_all : Range := mkRange 0 (N.to_nat size_max).

(** view.hpp:74-91, 186-241 [View]: rows(), cols(), size(), operator[], at().
    empty() is inherited and reads the base class's _rows/_cols, which no View
    constructor sets (they stay 0, matrix_base.hpp:34-38): always true.
    operator[] divides by cols(): division by zero is UB. *)
Definition mb_view {T} (rr rc : Range) (X : MB T) : MB T :=
  let nr := sub64 (Nat.min (stop rr) (mrows X)) (start rr) in
  let nc := sub64 (Nat.min (stop rc) (mcols X)) (start rc) in
  let g := fun i j => mget X (add64 (start rr) i) (add64 (start rc) j) in
  mkMB nr nc (mul64 nr nc) true g
       (fun k => if nc =? 0 then UB else g (k / nc) (k mod nc)).
(** view.hpp:50-70: the constructors assert start < stop for both ranges. *)
Definition view_new {T} (X : MB T) (rr rc : Range) : Res (MB T) :=
  if (start rr <? stop rr) && (start rc <? stop rc) then Ok (mb_view rr rc X) else UB.
(** view.hpp:257-392 [CofactorView]; operator[] (336-355) divides by rows(). *)
Definition skip (p i : nat) : nat := add64 i (if p <=? i then 1 else 0).
Definition mb_cof {T} (p q : nat) (X : MB T) : MB T :=
  let nr := sub64 (mrows X) 1 in
  let nc := sub64 (mcols X) 1 in
  let g := fun i j => mget X (skip p i) (skip q j) in
  mkMB nr nc (mul64 nr nc) true g
       (fun k => if nr =? 0 then UB else g (k / nr) (k mod nr)).

(** A MatrixBase object reached from a root Matrix through any nesting of
    [View] and [CofactorView] objects. *)
Inductive vpath :=
| Root
| PView (rr rc : Range) (p : vpath)
| PCof (er ec : nat) (p : vpath).
Fixpoint vmb {T} (p : vpath) (m : Matrix T) : MB T :=
  match p with
  | Root => mb_of_mat m
  | PView rr rc p' => mb_view rr rc (vmb p' m)
  | PCof er ec p' => mb_cof er ec (vmb p' m)
  end.
(** Where element (i,j) of the view lies in the root (view.hpp:229-241, 379-391). *)
Fixpoint voff (p : vpath) (i j : nat) : nat * nat :=
  match p with
  | Root => (i, j)
  | PView rr rc p' => voff p' (add64 (start rr) i) (add64 (start rc) j)
  | PCof er ec p' => voff p' (skip er i) (skip ec j)
  end.
(** Writing through the mutable reference returned by [at]/[operator()]. *)
Definition vset {T} (p : vpath) (i j : nat) (v : T) (m : Matrix T) : Res (Matrix T) :=
  mat_set m (fst (voff p i j)) (snd (voff p i j)) v.
(** Writing through [operator[]] (matrix.hpp:400, view.hpp:186, 336). *)
Definition vlset {T} (p : vpath) (k : nat) (v : T) (m : Matrix T) : Res (Matrix T) :=
  match p with
  | Root => mat_lset m k v
  | PView _ _ _ => let nc := mcols (vmb p m) in
                   if nc =? 0 then UB else vset p (k / nc) (k mod nc) v m
  | PCof _ _ _ => let nr := mrows (vmb p m) in
                  if nr =? 0 then UB else vset p (k / nr) (k mod nr) v m
  end.

(** [for r in [0,nr) for c in [0,nc) out(r,c) = g(r,c)]: the copy loop that most
    functions share. *)
Definition fill_rc {T} (nr nc : nat) (g : nat -> nat -> Res T) (m : Matrix T) : Res (Matrix T) :=
  for_range 0 nr (fun r m =>
    for_range 0 nc (fun c m => let* v := g r c in mat_set m r c v) m) m.
(** [for i in [0,n) out[i] = g(i)]. *)
Definition fill_lin {T} (n : nat) (g : nat -> Res T) (m : Matrix T) : Res (Matrix T) :=
  for_range 0 n (fun i m => let* v := g i in mat_lset m i v) m.

Section MatrixModel.
Context {T : Type} {O : Ops T}.

(** matrix.hpp:43-48. *)
Definition mat_empty : Matrix T := mkM 0 0 nil.
(** matrix.hpp:54-59 [Matrix(rows, cols, initial)]; rows*cols wraps. *)
Definition mat_new (r c : nat) (v : T) : Res (Matrix T) :=
  let* d := vec_fill (mul64 r c) v in Ok (mkM r c d).
(** The buffer part of the other constructors: [_data(rows*cols)]. *)
Definition mat_zero (r c : nat) : Res (Matrix T) :=
  let* d := vec_new (mul64 r c) in Ok (mkM r c d).
(** matrix.hpp:65-75 (initializer_list) and 81-91 (std::vector): the iterator
    advances once per element; reading past its end is UB. *)
Definition mat_of_list (r c : nat) (l : list T) : Res (Matrix T) :=
  let* m := mat_zero r c in
  let* s := for_range 0 r (fun i s =>
              for_range 0 c (fun j (s : Matrix T * nat) =>
                let* v := lget l (snd s) in
                let* m := mat_set (fst s) i j v in
                Ok (m, S (snd s))) s) (m, 0) in
  Ok (fst s).
(** The copy loop of matrix.hpp:114-120 and 387-393. *)
Definition nested_copy (r c : nat) (ll : list (list T)) (m : Matrix T) : Res (Matrix T) :=
  fill_rc r c (fun i j => let* row := lget ll i in lget row j) m.
(** matrix.hpp:95-121 [Matrix({{...},...})]. *)
Definition mat_of_nested (ll : list (list T)) : Res (Matrix T) :=
  match ll with
  | nil => Throw
  | nil :: _ => Throw
  | first :: _ =>
      let r := length ll in let c := length first in
      let* m := mat_zero r c in nested_copy r c ll m
  end.
(** matrix.hpp:125-132 (and 137-144, 148-155, 161-168): construct from a
    MatrixBase / Matrix, reading it with [rhs[i]]. *)
Definition mat_of_mb (X : MB T) : Res (Matrix T) :=
  let* m := mat_zero (mrows X) (mcols X) in
  fill_lin (mul64 (mrows X) (mcols X)) (mlin X) m.
Definition mat_copy (m : Matrix T) : Res (Matrix T) := mat_of_mb (mb_of_mat m).
(** matrix.hpp:172-177 move constructor: (new object, moved-from object).  The
    moved-from Vector is empty (vector.hpp:121-130), its rows/cols stay. *)
Definition mat_move_ctor (m : Matrix T) : Matrix T * Matrix T :=
  (mkM (rows m) (cols m) (data m), mkM (rows m) (cols m) nil).

(** matrix.hpp:214-222. *)
Definition mat_reshape (m : Matrix T) (r c : nat) : Res (Matrix T) :=
  if mul64 (rows m) (cols m) =? mul64 r c then Ok (mkM r c (data m)) else Throw.
(** matrix.hpp:228-254. *)
Definition mat_resize (m : Matrix T) (r c : nat) : Res (Matrix T) :=
  if (rows m =? r) && (cols m =? c) then Ok m
  else if cols m =? c then
    let* d := vec_allocate (data m) (mul64 r c) in Ok (mkM r c d)
  else
    let* n := mat_new r c o0 in
    let* n := fill_rc (Nat.min (rows m) r) (Nat.min (cols m) c) (mat_at m) n in
    Ok (mkM r c (data n)).

(** matrix.hpp:259-278, 283-302, 308-324 [operator=] from another Matrix or a
    MatrixBase object.  [src] gives the source as seen when [*this] is in the given
    state, so a source that is a view of [*this] is covered; an unrelated source is
    a constant function.  [&rhs == this] is [mat_assign_self]. *)
Definition mat_assign (src : Matrix T -> MB T) (m : Matrix T) : Res (Matrix T) :=
  if msize (src m) =? 0 then Ok m
  else
    let* d := vec_new (mul64 (mrows (src m)) (mcols (src m))) in
    let m1 := mkM (rows m) (cols m) d in
    let m2 := mkM (mrows (src m1)) (cols m1) d in
    let m3 := mkM (rows m2) (mcols (src m2)) d in
    for_range 0 (rows m3) (fun r m =>
      for_range 0 (cols m3) (fun c m =>
        let* v := mget (src m) r c in mat_set m r c v) m) m3.
Definition mat_assign_self (m : Matrix T) : Res (Matrix T) := Ok m.
(** matrix.hpp:355-365 move assignment, distinct objects: (target, source). *)
Definition mat_move_assign (m rhs : Matrix T) : Matrix T * Matrix T :=
  if mul64 (rows rhs) (cols rhs) =? 0 then (m, rhs)
  else (mkM (rows rhs) (cols rhs) (data rhs), mkM (rows rhs) (cols rhs) nil).
(** matrix.hpp:370-395 [operator=({{...},...})]. *)
Definition mat_assign_nested (m : Matrix T) (ll : list (list T)) : Res (Matrix T) :=
  match ll with
  | nil => Ok m
  | nil :: _ => Ok m
  | first :: _ =>
      let r := length ll in let c := length first in
      let* m' := mat_zero r c in nested_copy r c ll m'
  end.

(** view.hpp:97-132 (and CofactorView 309-317): [V = rhs], element by element; [p]
    is the destination inside the root [m], [src] the source as seen in the current
    state of the root. Bounds come from rhs. *)
Definition view_assign (p : vpath) (src : Matrix T -> MB T) (m : Matrix T) : Res (Matrix T) :=
  if (mrows (vmb p m) =? mrows (src m)) && (mcols (vmb p m) =? mcols (src m)) then
    for_range 0 (mrows (src m)) (fun r m =>
      for_range 0 (mcols (src m)) (fun c m =>
        let* v := mget (src m) r c in vset p r c v m) m) m
  else UB.
(** view.hpp:137-167 [V = {{...},...}]. *)
Definition view_assign_nested (p : vpath) (ll : list (list T)) (m : Matrix T) : Res (Matrix T) :=
  let nr := mrows (vmb p m) in
  let nc := mcols (vmb p m) in
  match ll with
  | nil => Ok m
  | first :: _ =>
      if negb (nr =? length ll) then Ok m
      else if 0 =? length first then Ok m
      else if negb (nc =? length first) then Ok m
      else for_range 0 nr (fun r m =>
             let* row := lget ll r in
             for_range 0 nc (fun c m => let* v := lget row c in vset p r c v m) m) m
  end.
End MatrixModel.
Arguments mat_empty {T}.
