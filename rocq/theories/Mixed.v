(** Mixed.v: the operations whose operands have different element types.  T1 and T2 are
    the element types of the operands and T the common type
    (type_traits.hpp:48-60 [extract_common_type_t]); c1 and c2 are the implicit
    conversions to T, b1 the conversion from T back to T1, k the one from T2 to T1.
    An operator on two elements of different types converts both to T first.
    Simplification: the common type of complex<A> and B is taken to be
    complex<common_type<A,B>>, with the operators of complex_math.hpp (see Complex.v)
    doing the conversion. *)
From Verif Require Export MathM.

(** An object read through a conversion of its elements. *)
Definition mb_conv {S T} (c : S -> T) (X : MB S) : MB T :=
  mkMB (mrows X) (mcols X) (msize X) (mempty X)
    (fun i j => let* v := mget X i j in Ok (c v)) (fun k => let* v := mlin X k in Ok (c v)).

Section Convert.
Context {S T : Type} {O : Ops T}.
Variable c : S -> T.
(** matrix.hpp:135-144, 160-168 [Matrix(const MatrixBase<T2>&)], [Matrix(const Matrix<T2>&)]. *)
Definition mat_conv (X : MB S) : Res (Matrix T) := mat_of_mb (mb_conv c X).
(** matrix.hpp:308-324 [operator=(const MatrixBase<T2>&)]; the source has another element
    type, so it is not a view of the target. *)
Definition mat_assign_conv (X : MB S) (m : Matrix T) : Res (Matrix T) := mat_assign (fun _ => mb_conv c X) m.
(** vector.hpp:108-118 [Vector(const Vector<T2>&)]. *)
Definition vec_conv (l : list S) : Res (list T) :=
  let* d := vec_allocate nil (length l) in
  for_range 0 (length d) (fun i d => let* x := lget l i in lset d i (c x)) d.
(** vector.hpp:229-243 [operator=(const Vector<T2>&)]. *)
Definition vec_assign_conv (l : list S) (dst : list T) : Res (list T) :=
  let* d := vec_allocate dst (length l) in
  for_range 0 (length d) (fun i d => let* x := lget l i in lset d i (c x)) d.
End Convert.

Section Mixed.
Context {T1 T2 T : Type} {O1 : Ops T1} {O : Ops T}.
Variables (c1 : T1 -> T) (c2 : T2 -> T) (b1 : T -> T1) (k : T2 -> T1).

(** math.hpp:21-39, 99-117, 177-197, 926-939, 953-965. *)
Definition mix_add (A : MB T1) (B : MB T2) := m_add (mb_conv c1 A) (mb_conv c2 B).
Definition mix_sub (A : MB T1) (B : MB T2) := m_sub (mb_conv c1 A) (mb_conv c2 B).
Definition mix_mul (A : MB T1) (B : MB T2) := m_mul (mb_conv c1 A) (mb_conv c2 B).
Definition mix_mulv (A : MB T1) (b : list T2) := m_mulv (mb_conv c1 A) (map c2 b).
Definition mix_dot (a : list T1) (b : list T2) := dot (map c1 a) (map c2 b).
(** math.hpp:662-677, 738-753, 814-829. *)
Definition mix_vadd (a : list T1) (b : list T2) := v_add (map c1 a) (map c2 b).
Definition mix_vsub (a : list T1) (b : list T2) := v_sub (map c1 a) (map c2 b).
Definition mix_vmul (a : list T1) (b : list T2) := v_mul (map c1 a) (map c2 b).
(** math.hpp:581-611, 507-537: the comparison is done in the common type. *)
Definition mix_lt (A : MB T1) (B : MB T2) := m_lt (mb_conv c1 A) (mb_conv c2 B).
Definition mix_gt (A : MB T1) (B : MB T2) := m_gt (mb_conv c1 A) (mb_conv c2 B).
Definition mix_le (A : MB T1) (B : MB T2) := m_le (mb_conv c1 A) (mb_conv c2 B).
Definition mix_ge (A : MB T1) (B : MB T2) := m_ge (mb_conv c1 A) (mb_conv c2 B).
(** math.hpp:309-331, 408-430.  Two different integer types only: with a floating point
    type feq.hpp:28 calls std::max on two types, which does not compile. *)
Definition mix_eq (A : MB T1) (B : MB T2) := m_eq (mb_conv c1 A) (mb_conv c2 B).
Definition mix_ne (A : MB T1) (B : MB T2) := m_ne (mb_conv c1 A) (mb_conv c2 B).
(** math.hpp:551-574, 625-648: a scalar of type T2. *)
Definition mix_lts (A : MB T1) (b : T2) := m_lts (mb_conv c1 A) (c2 b).
Definition mix_les (A : MB T1) (b : T2) := m_les (mb_conv c1 A) (c2 b).
Definition mix_gts (A : MB T1) (b : T2) := m_gts (mb_conv c1 A) (c2 b).
Definition mix_ges (A : MB T1) (b : T2) := m_ges (mb_conv c1 A) (c2 b).
(** math.hpp:46-57, 124-135, 204-215, 276-287: a scalar of type T2. *)
Definition mix_adds (A : MB T1) (b : T2) := m_adds (mb_conv c1 A) (c2 b).
Definition mix_subs (A : MB T1) (b : T2) := m_subs (mb_conv c1 A) (c2 b).
Definition mix_muls (A : MB T1) (b : T2) := m_muls (mb_conv c1 A) (c2 b).
Definition mix_divs (A : MB T1) (b : T2) := m_divs (mb_conv c1 A) (c2 b).

(** [A[i] = g(A[i], B[i])] with the result converted to A's element type. *)
Definition mix_izip (g : T -> T -> Res T) (p : vpath) (B : MB T2) (m : Matrix T1) : Res (Matrix T1) :=
  if negb (mrows (vmb p m) =? mrows B) then Throw
  else if negb (mcols (vmb p m) =? mcols B) then Throw
  else for_range 0 (msize (vmb p m)) (fun i m =>
         let* x := mlin (vmb p m) i in let* y := mlin B i in
         let* z := g (c1 x) (c2 y) in vlset p i (b1 z) m) m.
(** math.hpp:64-78, 142-156. *)
Definition mix_iadd := mix_izip (fun x y => Ok (oadd x y)).
Definition mix_isub := mix_izip (fun x y => Ok (osub x y)).
(** math.hpp:262-269, 294-301. *)
Definition mix_imuls (p : vpath) (b : T2) (m : Matrix T1) := mb_imap (fun x => Ok (b1 (omul (c1 x) (c2 b)))) p m.
Definition mix_idivs (p : vpath) (b : T2) (m : Matrix T1) := mb_imap (fun x => let* q := odiv (c1 x) (c2 b) in Ok (b1 q)) p m.
(** math.hpp:232-255: the product is accumulated in the common type and converted to
    T1 when it is copied into A. *)
Definition mix_imul (p : vpath) (B : MB T2) (m : Matrix T1) : Res (Matrix T1) :=
  let A := vmb p m in
  if negb (mcols A =? mrows B) then Throw
  else
    let* res := mat_new (mrows A) (mcols A) o0 in
    let* res := mul_loop (mb_conv c1 A) (mb_conv c2 B) res in
    for_range 0 (msize A) (fun i m => let* x := lget (data res) i in vlset p i (b1 x) m) m.

(** math.hpp:702-713, 778-789: [a[i] = a[i] + b[i]] with the result converted to a's element type. *)
Definition mix_vizip (g : T -> T -> Res T) (b : list T2) (a : list T1) : Res (list T1) :=
  if negb (length a =? length b) then Throw
  else for_range 0 (length a) (fun i a =>
         let* x := lget a i in let* y := lget b i in let* z := g (c1 x) (c2 y) in lset a i (b1 z)) a.
Definition mix_viadd := mix_vizip (fun x y => Ok (oadd x y)).
Definition mix_visub := mix_vizip (fun x y => Ok (osub x y)).

(** math.hpp:1183-1187 [element_wise_product]: the lambda takes [const T1 lhs, const T1 rhs],
    so an element of B is converted to T1 and the product is a T1; the result matrix has
    the common type. *)
Definition mix_ew_product (A : MB T1) (B : MB T2) : Res (Matrix T) :=
  mb_zip (fun x y => Ok (c1 (omul x y))) (msize A) A (mb_conv k B).
(** math.hpp:1195-1199 [linear_combination]: again both elements are T1's.  The scalars
    a and b have the common type. *)
Definition mix_linear_combination (A : MB T1) (a : T) (B : MB T2) (b : T) : Res (Matrix T) :=
  mb_zip (fun x y => Ok (oadd (omul (c1 x) a) (omul (c1 y) b))) (msize A) A (mb_conv k B).
End Mixed.
