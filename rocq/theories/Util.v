(** Util.v: model of utility.hpp.  [const MatrixBase<T>&] arguments are [MB T],
    [MatrixBase<T>&] arguments are a root Matrix and a [vpath], [Matrix<T>&] a
    Matrix.  Mixed element types are not modelled: both operands have type T. *)
From Verif Require Export Mat.

Section UtilModel.
Context {T : Type} {O : Ops T}.

(** utility.hpp:45-59. *)
Definition eye (r c : nat) (v : T) : Res (Matrix T) :=
  if r =? 0 then Throw else if c =? 0 then Throw
  else let* m := mat_new r c o0 in
       for_range 0 (Nat.min r c) (fun i m => mat_set m i i v) m.
(** utility.hpp:66-69. *)
Definition identity (n : nat) (v : T) : Res (Matrix T) := eye n n v.
(** utility.hpp:76-86. *)
Definition zeros (r c : nat) : Res (Matrix T) :=
  if r =? 0 then Throw else if c =? 0 then Throw else mat_new r c o0.
(** utility.hpp:92-99. *)
Definition zeros_v (n : nat) : Res (list T) := if n =? 0 then Throw else vec_fill n o0.
(** utility.hpp:106-116. *)
Definition ones (r c : nat) : Res (Matrix T) :=
  if r =? 0 then Throw else if c =? 0 then Throw else mat_new r c o1.
(** utility.hpp:122-129. *)
Definition ones_v (n : nat) : Res (list T) := if n =? 0 then Throw else vec_fill n o1.
(** utility.hpp:135-144. *)
Definition diag_m (A : MB T) : Res (list T) :=
  let size := Nat.min (mrows A) (mcols A) in
  let* d := vec_fill size o0 in
  for_range 0 size (fun i d => let* x := mget A i i in lset d i x) d.
(** utility.hpp:150-158. *)
Definition diag_v (a : list T) : Res (Matrix T) :=
  let* m := mat_new (length a) (length a) o0 in
  for_range 0 (length a) (fun i m => let* x := lget a i in mat_set m i i x) m.
(** utility.hpp:165-173. *)
Definition to_matrix (v : list T) (row_matrix : bool) : Res (Matrix T) :=
  let* m := mat_new (if row_matrix then 1 else length v) (if row_matrix then length v else 1) o0 in
  fill_lin (length v) (lget v) m.
(** utility.hpp:179-186. *)
Definition to_vector (m : Matrix T) : Res (list T) :=
  let X := mb_of_mat m in
  let* d := vec_new (msize X) in
  for_range 0 (msize X) (fun i d => let* x := mlin X i in lset d i x) d.
(** utility.hpp:192-200. *)
Definition ravel (A : MB T) : Res (list T) :=
  let* d := vec_new (msize A) in
  for_range 0 (length d) (fun i d => let* x := mlin A i in lset d i x) d.
(** utility.hpp:207-228. *)
Definition vstack (A B : MB T) : Res (Matrix T) :=
  if negb (mcols A =? mcols B) then Throw
  else
    let* C := mat_new (add64 (mrows A) (mrows B)) (mcols A) o0 in
    let* C := fill_rc (mrows A) (mcols A) (mget A) C in
    for_range 0 (mrows B) (fun r C => for_range 0 (mcols B) (fun c C =>
      let* v := mget B r c in mat_set C (add64 r (mrows A)) c v) C) C.
(** utility.hpp:235-251 (with the constructor of line 243 not explicit). *)
Definition vstack_v (A : MB T) (b : list T) : Res (Matrix T) :=
  if negb (mcols A =? length b) then Throw
  else
    let* C := mat_of_mb A in
    let* C := mat_resize C (add64 (mrows A) 1) (mcols A) in
    for_range 0 (length b) (fun i C => let* x := lget b i in mat_set C (mrows A) i x) C.
(** utility.hpp:258-279. *)
Definition hstack (A B : MB T) : Res (Matrix T) :=
  if negb (mrows A =? mrows B) then Throw
  else
    let* C := mat_new (mrows A) (add64 (mcols A) (mcols B)) o0 in
    let* C := for_range 0 (mcols A) (fun c C => for_range 0 (mrows A) (fun r C =>
      let* v := mget A r c in mat_set C r c v) C) C in
    for_range 0 (mcols B) (fun c C => for_range 0 (mrows B) (fun r C =>
      let* v := mget B r c in mat_set C r (add64 c (mcols A)) v) C) C.
(** utility.hpp:286-302 (with the constructor of line 294 not explicit). *)
Definition hstack_v (A : MB T) (b : list T) : Res (Matrix T) :=
  if negb (mrows A =? length b) then Throw
  else
    let* C := mat_of_mb A in
    let* C := mat_resize C (mrows A) (add64 (mcols A) 1) in
    for_range 0 (length b) (fun i C => let* x := lget b i in mat_set C i (mcols A) x) C.
(** utility.hpp:311-324. *)
Definition concatenate (a b : list T) : Res (list T) :=
  let* c := vec_of_list a in
  let* c := vec_allocate c (add64 (length a) (length b)) in
  for_range 0 (length b) (fun i c => let* x := lget b i in lset c (add64 (length a) i) x) c.
(** utility.hpp:334-356. *)
Definition extract (A : MB T) (r0 r1 c0 c1 : nat) : Res (Matrix T) :=
  if r1 <=? r0 then Throw else if c1 <=? c0 then Throw
  else
    let r1 := Nat.min (mrows A) r1 in
    let c1 := Nat.min (mcols A) c1 in
    let* m := mat_new (sub64 r1 r0) (sub64 c1 c0) o0 in
    for_range r0 r1 (fun r m => for_range c0 c1 (fun c m =>
      let* v := mget A r c in mat_set m (r - r0) (c - c0) v) m) m.
(** utility.hpp:365-383. *)
Definition extract_column (A : MB T) (col r0 r1 : nat) : Res (list T) :=
  if r1 <=? r0 then Throw else if mcols A <=? col then Throw
  else
    let r1 := Nat.min (mrows A) r1 in
    let* d := vec_fill (sub64 r1 r0) o0 in
    for_range r0 r1 (fun r d => let* v := mget A r col in lset d (r - r0) v) d.
(** utility.hpp:392-410. *)
Definition extract_row (A : MB T) (row c0 c1 : nat) : Res (list T) :=
  if mrows A <=? row then Throw else if c1 <=? c0 then Throw
  else
    let c1 := Nat.min (mcols A) c1 in
    let* d := vec_fill (sub64 c1 c0) o0 in
    for_range c0 c1 (fun c d => let* v := mget A row c in lset d (c - c0) v) d.

(** std::swap of two elements of a MatrixBase object. *)
Definition vswap (p : vpath) (i j a b : nat) (m : Matrix T) : Res (Matrix T) :=
  let* t := mget (vmb p m) i j in
  let* u := mget (vmb p m) a b in
  let* m := vset p i j u m in
  vset p a b t m.
(** utility.hpp:419-425. *)
Definition swap_rows (p : vpath) (i j c0 c1 : nat) (m : Matrix T) : Res (Matrix T) :=
  let c1 := Nat.min c1 (mcols (vmb p m)) in
  for_range c0 c1 (fun c m => vswap p i c j c m) m.
(** utility.hpp:434-440. *)
Definition swap_cols (p : vpath) (i j r0 r1 : nat) (m : Matrix T) : Res (Matrix T) :=
  let r1 := Nat.min (mrows (vmb p m)) r1 in
  for_range r0 r1 (fun r m => vswap p r i r j m) m.
(** utility.hpp:447-459. *)
Definition remove_row (m : Matrix T) (row : nat) : Res (Matrix T) :=
  if rows m <=? row then Throw
  else
    let* m := for_range row (rows m - 1) (fun r m =>
                for_range 0 (cols m) (fun c m => vswap Root r c (S r) c m) m) m in
    mat_resize m (rows m - 1) (cols m).
(** utility.hpp:466-478. *)
Definition remove_column (m : Matrix T) (col : nat) : Res (Matrix T) :=
  if cols m <=? col then Throw
  else
    let* m := for_range col (cols m - 1) (fun c m =>
                for_range 0 (rows m) (fun r m => vswap Root r c r (S c) m) m) m in
    mat_resize m (rows m) (cols m - 1).

(** utility.hpp:485-508. *)
Definition is_square (A : MB T) : bool := mrows A =? mcols A.
Definition is_column_vector (A : MB T) : bool := mcols A =? 1.
Definition is_row_vector (A : MB T) : bool := mrows A =? 1.
(** utility.hpp:515-528. *)
Definition is_symmetric (A : MB T) : Res bool :=
  if negb (is_square A) then Ok false
  else all_range 0 (mrows A) (fun i => all_range 0 (mcols A) (fun j =>
    let* x := mget A i j in let* y := mget A j i in Ok (oeq x y))).
(** utility.hpp:535-548. *)
Definition is_skew_symmetric (A : MB T) : Res bool :=
  if negb (is_square A) then Ok false
  else all_range 0 (mrows A) (fun i => all_range (S i) (mcols A) (fun j =>
    let* x := mget A i j in let* y := mget A j i in Ok (oeq x (oopp y)))).
(** utility.hpp:555-568; the element is read only when i <> j. *)
Definition is_diagonal (A : MB T) : Res bool :=
  if negb (is_square A) then Ok false
  else all_range 0 (mrows A) (fun i => all_range 0 (mcols A) (fun j =>
    if i =? j then Ok true else let* x := mget A i j in Ok (oeq x o0))).
(** utility.hpp:696-709; [if (matrix(r,c))] tests for non-zero. *)
Definition is_lower_triangular (A : MB T) : Res bool :=
  if negb (is_square A) then Ok false
  else all_range 0 (mrows A) (fun r => all_range (S r) (mcols A) (fun c =>
    let* x := mget A r c in Ok (oeq x o0))).
(** utility.hpp:716-729. *)
Definition is_upper_triangular (A : MB T) : Res bool :=
  if negb (is_square A) then Ok false
  else all_range 0 (mrows A) (fun r => all_range 0 r (fun c =>
    let* x := mget A r c in Ok (oeq x o0))).

(** utility.hpp:597-609; the tolerance is taken to be of the element type. *)
Definition all_close_v (a b : list T) (tol : T) : Res bool :=
  if negb (length a =? length b) then Throw
  else all_range 0 (length a) (fun i =>
    let* x := lget a i in let* y := lget b i in Ok (negb (olt tol (oabs (osub x y))))).
(** utility.hpp:618-633. *)
Definition all_close (A B : MB T) (tol : T) : Res bool :=
  if negb (mrows A =? mrows B) then Throw
  else if negb (mcols A =? mcols B) then Throw
  else all_range 0 (msize A) (fun i =>
    let* x := mlin A i in let* y := mlin B i in Ok (negb (olt tol (oabs (osub x y))))).

(** utility.hpp:760-767.  The pointers are positions in buffers [l1], [l2]; when
    [first1] is past [last1] the loop runs off the end of the buffer. *)
Definition inner_product (l1 l2 : list T) (first1 last1 first2 : nat) (init : T) : Res T :=
  if last1 <? first1 then UB
  else for_range first1 last1 (fun i acc =>
    let* x := lget l1 i in let* y := lget l2 (first2 + (i - first1)) in Ok (oadd acc (omul x y))) init.
(** utility.hpp:775-782. *)
Definition accumulate (l : list T) (first last : nat) (init : T) : Res T :=
  if last <? first then UB
  else for_range first last (fun i acc => let* x := lget l i in Ok (oadd acc x)) init.

(** utility.hpp:791-824.  [num] is [unsigned] (32 bit); [ofeq] is the comparison
    selected at lines 798-802. *)
Definition linspace (start stop : T) (num : nat) : Res (list T) :=
  let* result := vec_fill num o1 in
  if num =? 0 then Ok result
  else if num =? 1 then lset result 0 stop
  else if ofeq start stop then
    for_range 0 num (fun i d => lset d i stop) result
  else if olt start stop then
    let* step := odiv (osub stop start) (ofnat (num - 1)) in
    for_range 0 num (fun i d => lset d i (oadd start (omul step (ofnat i)))) result
  else
    let* step := odiv (osub start stop) (ofnat (num - 1)) in
    for_range 0 num (fun i d => lset d i (osub start (omul step (ofnat i)))) result.

(** [for (unsigned i = 0; i < num; ++i)] with [num] of type size_t: the counter
    wraps modulo 2^32.  [fuel] bounds the number of iterations. *)
Definition two32 : N := 4294967296%N.
Definition incr32 (i : nat) : nat := N.to_nat (N.modulo (N.of_nat i + 1) two32).
Fixpoint loop32 {S} (fuel : nat) (num i : nat) (body : nat -> S -> Res S) (s : S) : Res S :=
  if i <? num then
    match fuel with
    | 0 => Fuel
    | Datatypes.S fuel => let* s := body i s in loop32 fuel num (incr32 i) body s
    end
  else Ok s.
(** utility.hpp:834-867; [pow] is std::pow. *)
Definition logspace (fuel : nat) (pow : T -> T -> T) (start stop : T) (num : nat) (base : T) : Res (list T) :=
  let* result := vec_fill num o1 in
  if num =? 0 then Ok result
  else if num =? 1 then lset result 0 (pow base stop)
  else if ofeq start stop then
    loop32 fuel num 0 (fun i d => lset d i (pow base stop)) result
  else if olt start stop then
    let* step := odiv (osub stop start) (ofnat (num - 1)) in
    loop32 fuel num 0 (fun i d => lset d i (pow base (oadd start (omul step (ofnat i))))) result
  else
    let* step := odiv (osub start stop) (ofnat (num - 1)) in
    loop32 fuel num 0 (fun i d => lset d i (pow base (osub start (omul step (ofnat i))))) result.

(** utility.hpp:877-904 (constructors: view.hpp:63-70). *)
Definition util_view (A : MB T) (r0 r1 c0 c1 : nat) : Res (MB T) := view_new A (mkRange r0 r1) (mkRange c0 c1).
Definition util_row (A : MB T) (r c0 c1 : nat) : Res (MB T) := view_new A (mkRange r (add64 r 1)) (mkRange c0 c1).
Definition util_col (A : MB T) (c r0 r1 : nat) : Res (MB T) := view_new A (mkRange r0 r1) (mkRange c (add64 c 1)).

(** utility.hpp:910-927; [oisz] is the zero test selected at lines 914-924. *)
Definition flatnonzero (m : Matrix T) : Res (list nat) :=
  let X := mb_of_mat m in
  for_range 0 (msize X) (fun i acc =>
    let* x := mlin X i in Ok (if oisz x then acc else acc ++ [i])) nil.

(** utility.hpp:967-982. *)
Definition compare (A B : MB T) : Res Z :=
  if negb (msize A =? msize B) then Throw
  else
    let* o := first_range 0 (msize A) (fun i =>
      let* x := mlin A i in let* y := mlin B i in
      Ok (if olt x y then Some (- Z.of_nat i)%Z
          else if olt y x then Some (Z.of_nat i) else None)) in
    Ok (match o with Some z => z | None => 0%Z end).
(** utility.hpp:992-1007. *)
Definition compare_v (a b : list T) : Res Z :=
  if negb (length a =? length b) then Throw
  else
    let* o := first_range 0 (length a) (fun i =>
      let* x := lget a i in let* y := lget b i in
      Ok (if olt x y then Some (- Z.of_nat i)%Z
          else if olt y x then Some (Z.of_nat i) else None)) in
    Ok (match o with Some z => z | None => 0%Z end).

(** utility.hpp:1039-1058 (real element types).  [draw k] is the value of the k-th
    call of [dist(rng)]; the state is (matrix, number of draws so far). *)
Definition rand_matrix (draw : nat -> T) (r c : nat) : Res (Matrix T * nat) :=
  let* m := mat_new r c o0 in
  for_range 0 (mul64 r c) (fun i s =>
    let* m := mat_lset (fst s) i (draw (snd s)) in Ok (m, S (snd s))) (m, 0).
(** utility.hpp:1090-1109. *)
Definition rand_vector (draw : nat -> T) (n : nat) : Res (list T * nat) :=
  let* d := vec_fill n o0 in
  for_range 0 (length d) (fun i s =>
    let* d := lset (fst s) i (draw (snd s)) in Ok (d, S (snd s))) (d, 0).
End UtilModel.

(** utility.hpp:1018-1038, 1069-1089 (complex element types).  The order in which the
    two arguments of the complex constructor are evaluated is unspecified: [swap]
    selects it per element. *)
Definition rand_cplx {T C} (cplx : T -> T -> C) (draw : nat -> T) (swap : nat -> bool) (k i : nat) : C :=
  if swap i then cplx (draw (S k)) (draw k) else cplx (draw k) (draw (S k)).
Definition rand_matrix_c {T C} {O : Ops C} (cplx : T -> T -> C) (draw : nat -> T) (swap : nat -> bool) (r c : nat) : Res (Matrix C * nat) :=
  let* m := mat_new r c o0 in
  for_range 0 (mul64 r c) (fun i s =>
    let* m := mat_lset (fst s) i (rand_cplx cplx draw swap (snd s) i) in Ok (m, S (S (snd s)))) (m, 0).
Definition rand_vector_c {T C} {O : Ops C} (cplx : T -> T -> C) (draw : nat -> T) (swap : nat -> bool) (n : nat) : Res (list C * nat) :=
  let* d := vec_fill n o0 in
  for_range 0 (length d) (fun i s =>
    let* d := lset (fst s) i (rand_cplx cplx draw swap (snd s) i) in Ok (d, S (S (snd s)))) (d, 0).

(** utility.hpp:937-957.  [std::vector<size_t>(a, b)] with two integers (lines 947,
    949) is [a] copies of the value [b].  [OI] is the element structure of size_t. *)
Definition find {T} {O : Ops T} {OI : Ops nat} (m : Matrix T) (n : nat) (first_last : bool) : Res (Matrix nat) :=
  let* index := flatnonzero m in
  if n =? 0 then mat_new 0 0 o0
  else
    let* index :=
      if n <? length index then
        let* start := lget index 0 in
        if first_last then Ok (repeat (add64 start n) start)
        else Ok (repeat (add64 start (length index)) (sub64 (add64 start (length index)) n))
      else Ok index in
    if is_row_vector (mb_of_mat m) then mat_of_list 1 (length index) index
    else mat_of_list (length index) 1 index.
