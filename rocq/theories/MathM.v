(** MathM.v: model of math.hpp.  Both operands have the same element type T (mixed
    types and the conversions they imply are not modelled).  Not modelled because
    they do not compile when instantiated: [MatrixBase += scalar], [-= scalar]
    (lines 84-92, 162-170: they return the abstract MatrixBase by value), the Vector
    [+= -= *= /=] scalar forms (719-727, 795-803, 871-879, 907-915: they assign to
    a const vector), [scalar * Vector] (853-865: calls size() on the scalar) and
    [sign] (1128-1147: one of its branches is ill-typed for every T). *)
From Verif Require Export Util Scalar.

Section MathModel.
Context {T : Type} {O : Ops T}.

(** * Matrix with matrix, matrix with scalar *)

(** The shape test, the result matrix and the loop [result[i] = g(A[i], B[i])] that
    the element-wise binary operators share; [n] is the loop bound. *)
Definition mb_zip {U} {OU : Ops U} (g : T -> T -> Res U) (n : nat) (A B : MB T) : Res (Matrix U) :=
  if negb (mrows A =? mrows B) then Throw
  else if negb (mcols A =? mcols B) then Throw
  else
    let* m := mat_new (mrows A) (mcols A) o0 in
    fill_lin n (fun i => let* x := mlin A i in let* y := mlin B i in g x y) m.
(** The same for an operation with a scalar: [result[i] = g(A[i])]. *)
Definition mb_map {U} {OU : Ops U} (g : T -> Res U) (A : MB T) : Res (Matrix U) :=
  let* m := mat_new (mrows A) (mcols A) o0 in
  fill_lin (msize A) (fun i => let* x := mlin A i in g x) m.
(** In place: [A[i] = g(A[i], B[i])].  A is the view [p] of the root; [src] is B as
    seen in the current state of that root. *)
Definition mb_izip (g : T -> T -> Res T) (p : vpath) (src : Matrix T -> MB T) (m : Matrix T) : Res (Matrix T) :=
  if negb (mrows (vmb p m) =? mrows (src m)) then Throw
  else if negb (mcols (vmb p m) =? mcols (src m)) then Throw
  else for_range 0 (msize (vmb p m)) (fun i m =>
         let* x := mlin (vmb p m) i in let* y := mlin (src m) i in
         let* z := g x y in vlset p i z m) m.
Definition mb_imap (g : T -> Res T) (p : vpath) (m : Matrix T) : Res (Matrix T) :=
  for_range 0 (msize (vmb p m)) (fun i m =>
    let* x := mlin (vmb p m) i in let* z := g x in vlset p i z m) m.

(** math.hpp:21-39; the loop bound is result.size(). *)
Definition m_add (A B : MB T) := mb_zip (fun x y => Ok (oadd x y)) (mul64 (mrows A) (mcols A)) A B.
(** math.hpp:46-57. *)
Definition m_adds (A : MB T) (b : T) := mb_map (fun x => Ok (oadd x b)) A.
(** math.hpp:64-78. *)
Definition m_iadd := mb_izip (fun x y => Ok (oadd x y)).
(** math.hpp:99-117. *)
Definition m_sub (A B : MB T) := mb_zip (fun x y => Ok (osub x y)) (mul64 (mrows A) (mcols A)) A B.
(** math.hpp:124-135. *)
Definition m_subs (A : MB T) (b : T) := mb_map (fun x => Ok (osub x b)) A.
(** math.hpp:142-156. *)
Definition m_isub := mb_izip (fun x y => Ok (osub x y)).

(** [result(r, c) += v]. *)
Definition macc (m : Matrix T) (r c : nat) (v : T) : Res (Matrix T) :=
  let* x := mat_at m r c in mat_set m r c (oadd x v).
(** The triple loop of lines 189-195 and 244-250. *)
Definition mul_loop (A B : MB T) (m : Matrix T) : Res (Matrix T) :=
  for_range 0 (mrows A) (fun r m =>
    for_range 0 (mcols B) (fun c m =>
      for_range 0 (mrows B) (fun k m =>
        let* x := mget A r k in let* y := mget B k c in macc m r c (omul x y)) m) m) m.
(** math.hpp:177-197. *)
Definition m_mul (A B : MB T) : Res (Matrix T) :=
  if negb (mcols A =? mrows B) then Throw
  else let* m := mat_new (mrows A) (mcols B) o0 in mul_loop A B m.
(** math.hpp:204-215 and 222-225. *)
Definition m_muls (A : MB T) (b : T) := mb_map (fun x => Ok (omul x b)) A.
Definition m_smul (a : T) (B : MB T) := m_muls B a.
(** math.hpp:232-255; the result has A's shape, and is copied into A afterwards. *)
Definition m_imul (p : vpath) (src : Matrix T -> MB T) (m : Matrix T) : Res (Matrix T) :=
  let A := vmb p m in
  let B := src m in
  if negb (mcols A =? mrows B) then Throw
  else
    let* res := mat_new (mrows A) (mcols A) o0 in
    let* res := mul_loop A B res in
    for_range 0 (msize A) (fun i m => let* x := lget (data res) i in vlset p i x m) m.
(** math.hpp:262-269. *)
Definition m_imuls (p : vpath) (b : T) := mb_imap (fun x => Ok (omul x b)) p.
(** math.hpp:276-287. *)
Definition m_divs (A : MB T) (b : T) := mb_map (fun x => odiv x b) A.
(** math.hpp:294-301. *)
Definition m_idivs (p : vpath) (b : T) := mb_imap (fun x => odiv x b) p.

(** math.hpp:309-330, 364-378, 408-429, 463-477; [ofeq] is the comparison chosen by
    [if constexpr]. *)
Definition m_eq (A B : MB T) := mb_zip (fun x y => Ok (ofeq x y)) (msize A) A B.
Definition m_eqs (A : MB T) (b : T) := mb_map (fun x => Ok (ofeq x b)) A.
Definition m_ne (A B : MB T) := mb_zip (fun x y => Ok (negb (ofeq x y))) (msize A) A B.
Definition m_nes (A : MB T) (b : T) := mb_map (fun x => Ok (negb (ofeq x b))) A.
(** math.hpp:507-573: [A[i] > B[i]] is [B[i] < A[i]]. *)
Definition m_gt (A B : MB T) := mb_zip (fun x y => Ok (olt y x)) (msize A) A B.
Definition m_ge (A B : MB T) := mb_zip (fun x y => Ok (ole y x)) (msize A) A B.
Definition m_gts (A : MB T) (b : T) := mb_map (fun x => Ok (olt b x)) A.
Definition m_ges (A : MB T) (b : T) := mb_map (fun x => Ok (ole b x)) A.
(** math.hpp:581-647. *)
Definition m_lt (A B : MB T) := mb_zip (fun x y => Ok (olt x y)) (msize A) A B.
Definition m_le (A B : MB T) := mb_zip (fun x y => Ok (ole x y)) (msize A) A B.
Definition m_lts (A : MB T) (b : T) := mb_map (fun x => Ok (olt x b)) A.
Definition m_les (A : MB T) (b : T) := mb_map (fun x => Ok (ole x b)) A.

(** * Vectors *)

(** Size test, [Vector result(a.size())], [result[i] = g(a[i], b[i])]. *)
Definition v_zip {U} {OU : Ops U} (g : T -> T -> Res U) (a b : list T) : Res (list U) :=
  if negb (length a =? length b) then Throw
  else
    let* d := vec_new (length a) in
    for_range 0 (length a) (fun i d =>
      let* x := lget a i in let* y := lget b i in let* z := g x y in lset d i z) d.
Definition v_map {U} {OU : Ops U} (g : T -> Res U) (a : list T) : Res (list U) :=
  let* d := vec_new (length a) in
  for_range 0 (length a) (fun i d => let* x := lget a i in let* z := g x in lset d i z) d.
(** [a[i] = g(a[i], b[i])]; [src] is b as seen in the current state of a. *)
Definition v_izip (g : T -> T -> Res T) (src : list T -> list T) (a : list T) : Res (list T) :=
  if negb (length a =? length (src a)) then Throw
  else for_range 0 (length a) (fun i a =>
         let* x := lget a i in let* y := lget (src a) i in let* z := g x y in lset a i z) a.
(** math.hpp:338-356, 386-400, 437-455, 485-499. *)
Definition v_eq := v_zip (fun x y => Ok (ofeq x y)).
Definition v_eqs (a : list T) (b : T) := v_map (fun x => Ok (ofeq x b)) a.
Definition v_ne := v_zip (fun x y => Ok (negb (ofeq x y))).
Definition v_nes (a : list T) (b : T) := v_map (fun x => Ok (negb (ofeq x b))) a.
(** math.hpp:662-677, 684-695, 702-713. *)
Definition v_add := v_zip (fun x y => Ok (oadd x y)).
Definition v_adds (a : list T) (b : T) := v_map (fun x => Ok (oadd x b)) a.
Definition v_iadd := v_izip (fun x y => Ok (oadd x y)).
(** math.hpp:738-753, 760-771, 778-789. *)
Definition v_sub := v_zip (fun x y => Ok (osub x y)).
Definition v_subs (a : list T) (b : T) := v_map (fun x => Ok (osub x b)) a.
Definition v_isub := v_izip (fun x y => Ok (osub x y)).
(** math.hpp:814-829, 836-847, 890-901. *)
Definition v_mul := v_zip (fun x y => Ok (omul x y)).
Definition v_muls (a : list T) (b : T) := v_map (fun x => Ok (omul x b)) a.
Definition v_divs (a : list T) (b : T) := v_map (fun x => odiv x b) a.

(** * Specific functions *)

(** math.hpp:926-939 ([A * b]) and 971-984 ([dot(A, b)]): the same body. *)
Definition m_mulv (A : MB T) (b : list T) : Res (list T) :=
  let* d := vec_new (mrows A) in
  for_range 0 (mrows A) (fun r d =>
    for_range 0 (mcols A) (fun c d =>
      let* x := mget A r c in let* y := lget b c in
      let* z := lget d r in lset d r (oadd z (omul x y))) d) d.
Definition dot_mv := m_mulv.
(** math.hpp:949-964. *)
Definition dot (a b : list T) : Res T :=
  if negb (length a =? length b) then Throw
  else for_range 0 (length a) (fun i acc =>
         let* x := lget a i in let* y := lget b i in Ok (oadd acc (omul x y))) o0.

(** math.hpp:991-1001: std::for_each calls [fn] on every element of the copy and
    discards the result.  [fn] may have any result type. *)
Definition ew_fun_v {U} (a : list T) (fn : T -> Res U) : Res (list T) :=
  let* d := vec_of_list a in
  for_range 0 (length d) (fun i d => let* x := lget d i in let* _ := fn x in Ok d) d.
(** math.hpp:1008-1018: the copy is replaced by a zero matrix. *)
Definition ew_fun_m {U} (A : MB T) (fn : T -> Res U) : Res (Matrix T) :=
  let* m := mat_new (mrows A) (mcols A) o0 in
  for_range 0 (length (data m)) (fun i m => let* x := lget (data m) i in let* _ := fn x in Ok m) m.
(** math.hpp:1111-1123 (abs); real and imag (1075-1105) are the same with another
    function. *)
Definition abs_m (A : MB T) := ew_fun_m A (fun x => Ok (oabs x)).
Definition abs_v (a : list T) := ew_fun_v a (fun x => Ok (oabs x)).
(** math.hpp:1026-1042. *)
Definition ew_bin_v {U} {OU : Ops U} (a b : list T) (fn : T -> T -> Res U) : Res (list U) := v_zip fn a b.
(** math.hpp:1050-1069. *)
Definition ew_bin_m {U} {OU : Ops U} (A B : MB T) (fn : T -> T -> Res U) : Res (Matrix U) := mb_zip fn (msize A) A B.
(** math.hpp:1154-1157. *)
Definition projection (a b : list T) : Res (list T) :=
  let* x := dot a b in
  let* y := dot b b in
  let* q := odiv x y in
  v_muls b q.
(** math.hpp:1184-1187. *)
Definition ew_product (A B : MB T) : Res (Matrix T) := ew_bin_m A B (fun x y => Ok (omul x y)).
(** math.hpp:1196-1199. *)
Definition linear_combination (A : MB T) (a : T) (B : MB T) (b : T) : Res (Matrix T) :=
  ew_bin_m A B (fun x y => Ok (oadd (omul x a) (omul y b))).
(** math.hpp:1205-1212. *)
Definition sum (v : list T) : Res T :=
  for_range 0 (length v) (fun i s => let* x := lget v i in Ok (oadd s x)) o0.
(** math.hpp:1218-1229. *)
Definition trace (A : MB T) : Res T :=
  for_range 0 (mrows A) (fun i s => let* x := mget A i i in Ok (oadd s x)) o0.
(** math.hpp:1235-1248; the loop over i with the position of the best so far.
    [lt x y] is [x < y] for min and [y < x] for max (1276-1289). *)
Definition best_v (lt : T -> T -> bool) (v : list T) : Res (T * nat) :=
  if length v =? 0 then Ok (o0, 0)
  else
    let* pos := for_range 1 (length v) (fun i pos =>
      let* x := lget v i in let* y := lget v pos in Ok (if lt x y then i else pos)) 0 in
    let* x := lget v pos in Ok (x, pos).
Definition min_v := best_v olt.
Definition max_v := best_v (fun x y => olt y x).
(** math.hpp:1254-1270 and 1295-1311; the argument is a Matrix. *)
Definition best_m (lt : T -> T -> bool) (m : Matrix T) : Res (list T) :=
  if (rows m =? 0) || (cols m =? 0) then Ok nil
  else
    let* d := vec_fill (cols m) o0 in
    for_range 0 (cols m) (fun c d =>
      let* pos := for_range 1 (rows m) (fun r pos =>
        let* x := mat_at m r c in let* y := mat_at m pos c in Ok (if lt x y then r else pos)) 0 in
      let* x := mat_at m pos c in lset d c x) d.
Definition min_m := best_m olt.
Definition max_m := best_m (fun x y => olt y x).
(** math.hpp:1318-1341. *)
Definition all_m (A : MB T) : Res bool :=
  all_range 0 (msize A) (fun i => let* x := mlin A i in Ok (negb (oeq x o0))).
Definition all_v (v : list T) : Res bool :=
  all_range 0 (length v) (fun i => let* x := lget v i in Ok (negb (oeq x o0))).
(** math.hpp:1348-1371. *)
Definition any_m (A : MB T) : Res bool :=
  let* o := first_range 0 (msize A) (fun i =>
    let* x := mlin A i in Ok (if negb (oeq x o0) then Some tt else None)) in
  Ok (match o with Some _ => true | None => false end).
Definition any_v (v : list T) : Res bool :=
  let* o := first_range 0 (length v) (fun i =>
    let* x := lget v i in Ok (if negb (oeq x o0) then Some tt else None)) in
  Ok (match o with Some _ => true | None => false end).

(** * Norms.  U is the real type of T; [nsq x] is [std::norm(x)] for complex and
    [x*x] for real T, [nabs] is std::abs, [nsqrt] std::sqrt. *)
Section Norms.
Context {U : Type} {OU : Ops U} (nsq nabs : T -> U) (nsqrt : U -> U).
(** math.hpp:1166-1177. *)
Definition vector_length (A : MB T) (c r0 r1 : nat) : Res U :=
  let* acc := for_range r0 (Nat.min r1 (mrows A)) (fun r acc =>
    let* x := mget A r c in Ok (oadd acc (nsq x))) o0 in Ok (nsqrt acc).
(** math.hpp:1377-1388. *)
Definition square_norm_v (v : list T) : Res U :=
  let* acc := for_range 0 (length v) (fun i acc => let* x := lget v i in Ok (oadd acc (nsq x))) o0 in
  Ok (nsqrt acc).
(** math.hpp:1394-1409. *)
Definition square_norm_m (A : MB T) : Res U :=
  let* acc := for_range 0 (mrows A) (fun r acc => for_range 0 (mcols A) (fun c acc =>
    let* x := mget A r c in Ok (oadd acc (nsq x))) acc) o0 in
  Ok (nsqrt acc).
(** math.hpp:1415-1429. *)
Definition infinity_norm_v (v : list T) : Res U :=
  if length v =? 0 then Ok o0
  else
    let* x := lget v 0 in
    for_range 1 (length v) (fun i mx => let* x := lget v i in Ok (if olt mx (nabs x) then nabs x else mx)) (nabs x).
(** math.hpp:1435-1450; std::max(a, b) is [a < b ? b : a]. *)
Definition infinity_norm_m (A : MB T) : Res U :=
  if mempty A then Ok o0
  else for_range 0 (mrows A) (fun r mx =>
    let* acc := for_range 0 (mcols A) (fun c acc => let* x := mget A r c in Ok (oadd acc (nabs x))) o0 in
    Ok (if olt mx acc then acc else mx)) o0.
(** math.hpp:1456-1476. *)
Definition sub_norm (A : MB T) : Res U :=
  if mempty A then Ok o0
  else if negb (is_square A) then Throw
  else
    let* acc := for_range 1 (mrows A) (fun r acc => for_range 0 r (fun c acc =>
      let* x := mget A r c in Ok (oadd acc (nsq x))) acc) o0 in
    Ok (nsqrt acc).
(** math.hpp:1482-1493; [half] is 0.5.  [fuel] bounds the while loop. *)
Fixpoint log2_loop (half : U) (fuel : nat) (norm scale : U) (it : nat) : Res (nat * U) :=
  if olt o1 (omul norm scale) then
    match fuel with
    | 0 => Fuel
    | S fuel => log2_loop half fuel norm (omul scale half) (S it)
    end
  else Ok (it, scale).
Definition log2_ceil (half : U) (fuel : nat) (A : MB T) : Res (nat * U) :=
  let* norm := infinity_norm_m A in log2_loop half fuel norm o1 0.
End Norms.
End MathModel.
