(** Spec.v: the vocabulary in which the theorems are stated.  It does not refer to
    any algorithm of the library, only to what a caller can observe. *)
From Verif Require Import Mat.

(** A shape that the library can represent: dimensions are size_t values and
    the number of elements is below the allocation limit. *)
Definition shape_ok (r c : nat) : Prop := is_size r /\ is_size c /\ fits (r * c).

(** [m] is an r x c Matrix whose element (i,j) is [f i j]. *)
Definition is_mat {T} (m : Matrix T) (r c : nat) (f : nat -> nat -> T) : Prop :=
  rows m = r /\ cols m = c /\ shape_ok r c /\ length (data m) = r * c /\
  forall i j, i < r -> j < c -> nth_error (data m) (i * c + j) = Some (f i j).

(** A Matrix object in a usable state. *)
Definition wf {T} (m : Matrix T) : Prop :=
  shape_ok (rows m) (cols m) /\ length (data m) = rows m * cols m.

(** Through the MatrixBase interface [X] is seen as an r x c matrix with elements [f]. *)
Definition reads {T} (X : MB T) (r c : nat) (f : nat -> nat -> T) : Prop :=
  mrows X = r /\ mcols X = c /\ msize X = r * c /\ shape_ok r c /\
  forall i j, i < r -> j < c -> mget X i j = Ok (f i j).
(** ... and its linear access [X[k]] follows row-major order. *)
Definition linear {T} (X : MB T) (r c : nat) (f : nat -> nat -> T) : Prop :=
  forall k, k < r * c -> mlin X k = Ok (f (k / c) (k mod c)).
Definition readsL {T} (X : MB T) (r c : nat) (f : nat -> nat -> T) : Prop :=
  reads X r c f /\ linear X r c f.

(** [l] is a Vector of n elements [f]. *)
Definition is_vec {T} (l : list T) (n : nat) (f : nat -> T) : Prop :=
  length l = n /\ fits n /\ forall i, i < n -> nth_error l i = Some (f i).

(** Shape of the view [p] of an r x c root; [None] when a range does not lie
    within its parent or a cofactor view has an empty parent. *)
Fixpoint vshape (p : vpath) (r c : nat) : option (nat * nat) :=
  match p with
  | Root => Some (r, c)
  | PView rr rc p' =>
      match vshape p' r c with
      | Some (r', c') =>
          if (start rr <? stop rr) && (start rc <? stop rc) &&
             (start rr <=? r') && (start rc <=? c')
          then Some (Nat.min (stop rr) r' - start rr, Nat.min (stop rc) c' - start rc)
          else None
      | None => None
      end
  | PCof er ec p' =>
      match vshape p' r c with
      | Some (r', c') => if (0 <? r') && (0 <? c') then Some (r' - 1, c' - 1) else None
      | None => None
      end
  end.
(** The root position that element (i,j) of the view stands for. *)
Fixpoint vpos (p : vpath) (i j : nat) : nat * nat :=
  match p with
  | Root => (i, j)
  | PView rr rc p' => vpos p' (start rr + i) (start rc + j)
  | PCof er ec p' => vpos p' (if i <? er then i else S i) (if j <? ec then j else S j)
  end.
(** The element of the root matrix function that (i,j) of the view stands for. *)
Definition vsel {T} (p : vpath) (f : nat -> nat -> T) (i j : nat) : T :=
  f (fst (vpos p i j)) (snd (vpos p i j)).
(** Views whose operator[] is row-major: everything but a non-square CofactorView. *)
Definition lin_ok (p : vpath) (r c : nat) : Prop :=
  match p with
  | Root => True | PView _ _ _ => True
  | PCof _ _ _ => match vshape p r c with Some (r', c') => r' = c' | None => False end
  end.

(** [f'] results from writing [h] through the view [p] of the r x c root [f]: the
    elements of the view have the new values, everything else is as before. *)
Definition vwritten {T} (p : vpath) (r' c' : nat) (h f f' : nat -> nat -> T) (r c : nat) : Prop :=
  (forall i j, i < r' -> j < c' -> f' (fst (vpos p i j)) (snd (vpos p i j)) = h i j) /\
  (forall a b, a < r -> b < c -> (forall i j, i < r' -> j < c' -> vpos p i j <> (a, b)) -> f' a b = f a b).
(** The root, initially [f], is in state [m]; seen through [p] (an r' x c' view) it
    is [h], and outside of the view nothing has changed. *)
Definition vstate {T} (p : vpath) (r c r' c' : nat) (f h : nat -> nat -> T) (m : Matrix T) : Prop :=
  exists f', is_mat m r c f' /\ vwritten p r' c' h f f' r c.

(** [f] with the value at (i,j) replaced. *)
Definition fset {T} (f : nat -> nat -> T) (i j : nat) (v : T) : nat -> nat -> T :=
  fun a b => if (a =? i) && (b =? j) then v else f a b.

(** [g 0 + g 1 + ... + g (n-1)], accumulated left to right starting from zero. *)
Fixpoint osum {T} {O : Ops T} (n : nat) (g : nat -> T) : T :=
  match n with 0 => o0 | S n' => oadd (osum n' g) (g n') end.
(** Elements of the textbook matrix product with inner dimension n. *)
Definition mprod {T} {O : Ops T} (n : nat) (f g : nat -> nat -> T) : nat -> nat -> T :=
  fun i j => osum n (fun k => omul (f i k) (g k j)).

(** [op A B] throws iff the shapes differ and otherwise is the matrix of the
    [h (A(i,j)) (B(i,j))].  A and B are matrices or views with row-major [operator[]]. *)
Definition elementwise {T U} (op : MB T -> MB T -> Res (Matrix U)) (h : T -> T -> U) : Prop :=
  forall A B ra ca fa rb cb fb, readsL A ra ca fa -> readsL B rb cb fb ->
    (op A B = Throw <-> ~ (ra = rb /\ ca = cb)) /\
    (ra = rb -> ca = cb -> exists m, op A B = Ok m /\ is_mat m ra ca (fun i j => h (fa i j) (fb i j))).
(** [op A s] is the matrix of the [h (A(i,j))]. *)
Definition pointwise {T U} (op : MB T -> Res (Matrix U)) (h : T -> U) : Prop :=
  forall A r c f, readsL A r c f -> exists m, op A = Ok m /\ is_mat m r c (fun i j => h (f i j)).
(** The same for vectors. *)
Definition velementwise {T U} (op : list T -> list T -> Res (list U)) (h : T -> T -> U) : Prop :=
  forall a b n fa k fb, is_vec a n fa -> is_vec b k fb ->
    (op a b = Throw <-> n <> k) /\
    (n = k -> exists d, op a b = Ok d /\ is_vec d n (fun i => h (fa i) (fb i))).
Definition vpointwise {T U} (op : list T -> Res (list U)) (h : T -> U) : Prop :=
  forall a n f, is_vec a n f -> exists d, op a = Ok d /\ is_vec d n (fun i => h (f i)).
(** In place: [op p B m] is the statement [V op= B] where V is the view [p] of the
    matrix m (Root: m itself) and B another object, or a view of the same matrix with
    the same window. *)
Definition inplace_elementwise {T} (op : vpath -> (Matrix T -> MB T) -> Matrix T -> Res (Matrix T)) (h : T -> T -> T) : Prop :=
  forall m r c f p r' c', is_mat m r c f -> vshape p r c = Some (r', c') -> lin_ok p r c ->
    (forall B rb cb fb, readsL B rb cb fb ->
       (op p (fun _ => B) m = Throw <-> ~ (r' = rb /\ c' = cb)) /\
       (r' = rb -> c' = cb -> exists m', op p (fun _ => B) m = Ok m' /\
          vstate p r c r' c' f (fun i j => h (vsel p f i j) (fb i j)) m')) /\
    (exists m', op p (vmb p) m = Ok m' /\ vstate p r c r' c' f (fun i j => h (vsel p f i j) (vsel p f i j)) m').
Definition inplace_pointwise {T} (op : vpath -> Matrix T -> Res (Matrix T)) (h : T -> T) : Prop :=
  forall m r c f p r' c', is_mat m r c f -> vshape p r c = Some (r', c') -> lin_ok p r c ->
    exists m', op p m = Ok m' /\ vstate p r c r' c' f (fun i j => h (vsel p f i j)) m'.
(** [a op= b] for another vector b, and [a op= a]. *)
Definition vinplace_elementwise {T} (op : (list T -> list T) -> list T -> Res (list T)) (h : T -> T -> T) : Prop :=
  forall a n f, is_vec a n f ->
    (forall b k fb, is_vec b k fb -> (op (fun _ => b) a = Throw <-> n <> k) /\
       (n = k -> exists d, op (fun _ => b) a = Ok d /\ is_vec d n (fun i => h (f i) (fb i)))) /\
    (exists d, op (fun x => x) a = Ok d /\ is_vec d n (fun i => h (f i) (f i))).

(** [lt] is a strict total order. *)
Definition strict_total {T} (lt : T -> T -> bool) : Prop :=
  (forall x, lt x x = false) /\
  (forall x y z, lt x y = true -> lt y z = true -> lt x z = true) /\
  (forall x y, lt x y = false -> lt y x = false -> x = y).
(** [pos] is the first position of the least (for [lt]) of the values g 0 .. g (n-1). *)
Definition first_least {T} (lt : T -> T -> bool) (g : nat -> T) (n pos : nat) : Prop :=
  pos < n /\ (forall i, i < n -> lt (g i) (g pos) = false) /\ (forall i, i < pos -> lt (g pos) (g i) = true).

(** [f] without row p and column q. *)
Definition fminor {T} (p q : nat) (f : nat -> nat -> T) : nat -> nat -> T :=
  fun a b => f (if a <? p then a else S a) (if b <? q then b else S b).
