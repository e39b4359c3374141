(** Linalg.v: model of linalg.hpp.  Element types: one type T throughout (for an
    integral T the library computes [inverse] in double; T then stands for that
    type).  Not modelled because they do not compile when instantiated:
    [hermitian_transpose] (59-69: assigns a complex to a T), [qr_decomposition]
    (262-305: [2. / (u * u)] divides a scalar by a Vector) and [solve] (352-371:
    calls [qr_decomposition]). *)
From Verif Require Export MathM.

Section LinalgModel.
Context {T : Type} {O : Ops T}.

(** linalg.hpp:24-29, 77-82 and 389-394: [result(c, r) = g(A(r, c))]. *)
Definition tmap (g : T -> T) (A : MB T) : Res (Matrix T) :=
  let* m := mat_new (mcols A) (mrows A) o0 in
  for_range 0 (mrows A) (fun r m =>
    for_range 0 (mcols A) (fun c m => let* x := mget A r c in mat_set m c r (g x)) m) m.
(** linalg.hpp:21-31. *)
Definition transpose (A : MB T) : Res (Matrix T) := tmap (fun x => x) A.
(** linalg.hpp:36-40, at type int without overflow.  [fuel] bounds the recursion. *)
Fixpoint factorial (fuel : nat) (n : Z) : Res Z :=
  if Z.leb n 0 then Ok 1%Z
  else match fuel with
       | 0 => Fuel
       | S fuel => let* x := factorial fuel (n - 1) in Ok (n * x)%Z
       end.
(** linalg.hpp:46-54. *)
Definition powm (A : MB T) (n : nat) : Res (Matrix T) :=
  let* R := eye (mrows A) (mcols A) o1 in
  for_range 0 n (fun _ R => m_imul Root (fun _ => A) R) R.
(** linalg.hpp:74-84; [conj] is std::conj. *)
Definition conjugate_transpose (conj : T -> T) (A : MB T) : Res (Matrix T) := tmap conj A.
(** linalg.hpp:386-396; [fexp] is std::exp. *)
Definition exp_m (fexp : T -> T) (A : MB T) : Res (Matrix T) := tmap fexp A.

(** linalg.hpp:92-113; the state is (output, i, j). *)
Definition cofactor (A : MB T) (p q : nat) : Res (Matrix T) :=
  let* m := mat_new (sub64 (mrows A) 1) (sub64 (mcols A) 1) o0 in
  let* s := for_range 0 (mrows A) (fun row s =>
    for_range 0 (mcols A) (fun col (s : Matrix T * nat * nat) =>
      let '(m, i, j) := s in
      if negb (row =? p) && negb (col =? q) then
        let* x := mget A row col in
        let* m := mat_set m i j x in
        if S j =? sub64 (mcols A) 1 then Ok (m, S i, 0) else Ok (m, i, S j)
      else Ok s) s) (m, 0, 0) in
  Ok (fst (fst s)).

(** One step of the elimination, linalg.hpp:184-191. *)
Definition det_elim (n c : nat) (pivot : T) (A : Matrix T) : Res (Matrix T) :=
  for_range (S c) n (fun r A =>
    let* x := mat_at A r c in
    let* ratio := odiv x pivot in
    for_range c n (fun k A =>
      let* x := mat_at A r k in let* y := mat_at A c k in
      mat_set A r k (osub x (omul ratio y))) A) A.
(** linalg.hpp:168-183: (matrix, det) after the row exchange, if one is needed;
    [None] is the [break]. *)
Definition det_pivot (c : nat) (A : Matrix T) (det : T) : Res (option (Matrix T * T)) :=
  let* x := mat_at A c c in
  if oisz x then
    let* o := first_range (S c) (rows A) (fun k =>
      let* x := mat_at A k c in Ok (if oisz x then None else Some k)) in
    match o with
    | None => Ok None
    | Some k => let* A := swap_rows Root c k 0 (N.to_nat size_max) A in Ok (Some (A, omul det (oopp o1)))
    end
  else Ok (Some (A, det)).
(** linalg.hpp:165-195; [todo] columns are left, starting with column c. *)
Fixpoint det_loop (todo n c : nat) (A : Matrix T) (det : T) : Res T :=
  match todo with
  | 0 => Ok det
  | S todo =>
      let* o := det_pivot c A det in
      match o with
      | None => Ok det
      | Some (A, det) =>
          let* pivot := mat_at A c c in
          let* A := det_elim n c pivot A in
          det_loop todo n (S c) A (omul det pivot)
      end
  end.
(** linalg.hpp:134-142. *)
Definition det2 (a : nat -> nat -> T) : T := osub (omul (a 0 0) (a 1 1)) (omul (a 0 1) (a 1 0)).
Definition det3 (a : nat -> nat -> T) : T :=
  oadd (osub (omul (a 0 0) (osub (omul (a 1 1) (a 2 2)) (omul (a 2 1) (a 1 2))))
             (omul (a 0 1) (osub (omul (a 1 0) (a 2 2)) (omul (a 1 2) (a 2 0)))))
       (omul (a 0 2) (osub (omul (a 1 0) (a 2 1)) (omul (a 1 1) (a 2 0)))).
(** linalg.hpp:144-157, term by term; operators associate to the left. *)
Definition det4 (a : nat -> nat -> T) : T :=
  let t w x y z := omul (omul (omul (a 0 w) (a 1 x)) (a 2 y)) (a 3 z) in
  let s := t 3 2 1 0 in
  let s := osub s (t 2 3 1 0) in let s := osub s (t 3 1 2 0) in let s := oadd s (t 1 3 2 0) in
  let s := oadd s (t 2 1 3 0) in let s := osub s (t 1 2 3 0) in let s := osub s (t 3 2 0 1) in
  let s := oadd s (t 2 3 0 1) in let s := oadd s (t 3 0 2 1) in let s := osub s (t 0 3 2 1) in
  let s := osub s (t 2 0 3 1) in let s := oadd s (t 0 2 3 1) in let s := oadd s (t 3 1 0 2) in
  let s := osub s (t 1 3 0 2) in let s := osub s (t 3 0 1 2) in let s := oadd s (t 0 3 1 2) in
  let s := oadd s (t 1 0 3 2) in let s := osub s (t 0 1 3 2) in let s := osub s (t 2 1 0 3) in
  let s := oadd s (t 1 2 0 3) in let s := oadd s (t 2 0 1 3) in let s := osub s (t 0 2 1 3) in
  let s := osub s (t 1 0 2 3) in oadd s (t 0 1 2 3).
(** Reads the n x n elements that a closed formula uses (every formula uses all of
    them); the value outside is irrelevant. *)
Definition mget_all (A : MB T) (n : nat) : Res (nat -> nat -> T) :=
  for_range 0 n (fun i f => for_range 0 n (fun j (f : nat -> nat -> T) =>
    let* x := mget A i j in
    Ok (fun a b => if (a =? i) && (b =? j) then x else f a b)) f) (fun _ _ => o0).
(** linalg.hpp:119-196. *)
Definition determinant (A : MB T) : Res T :=
  if negb (is_square A) then Throw
  else
    let n := mcols A in
    if n =? 1 then mget A 0 0
    else if n =? 2 then let* a := mget_all A 2 in Ok (det2 a)
    else if n =? 3 then let* a := mget_all A 3 in Ok (det3 a)
    else if n =? 4 then let* a := mget_all A 4 in Ok (det4 a)
    else let* m := mat_of_mb A in det_loop n n 0 m o1.
(** linalg.hpp:201-226. *)
Definition adjoint (A : MB T) : Res (Matrix T) :=
  if negb (is_square A) then Throw
  else
    let n := mcols A in
    if n =? 1 then mat_new 1 1 o1
    else
      let* m := mat_new n n o0 in
      for_range 0 n (fun i m => for_range 0 n (fun j m =>
        let* d := determinant (mb_cof i j A) in
        mat_set m j i (omul (if (i + j) mod 2 =? 0 then o1 else oopp o1) d)) m) m.
(** linalg.hpp:231-257. *)
Definition inverse (A : MB T) : Res (Matrix T) :=
  if negb (is_square A) then Throw
  else
    let* det := determinant A in
    if oisz det then Ok mat_empty
    else
      let* adj := adjoint A in
      let* m := mat_new (mrows A) (mcols A) o0 in
      fill_rc (mrows A) (mcols A) (fun r c => let* x := mat_at adj r c in odiv x det) m.
(** linalg.hpp:310-346; the state is (l, u).  The l column and the u row of step i. *)
Definition lu_l (A : MB T) (n i : nat) (s : Matrix T * Matrix T) : Res (Matrix T * Matrix T) :=
  for_range 0 n (fun j (s : Matrix T * Matrix T) =>
    let (l, u) := s in
    if j <? i then let* l := mat_set l j i o0 in Ok (l, u)
    else
      let* x := mget A j i in
      let* l := mat_set l j i x in
      let* l := for_range 0 i (fun k l =>
        let* x := mat_at l j i in let* y := mat_at l j k in let* z := mat_at u k i in
        mat_set l j i (osub x (omul y z))) l in
      Ok (l, u)) s.
Definition lu_u (A : MB T) (n i : nat) (s : Matrix T * Matrix T) : Res (Matrix T * Matrix T) :=
  for_range 0 n (fun j (s : Matrix T * Matrix T) =>
    let (l, u) := s in
    if j <? i then let* u := mat_set u i j o0 in Ok (l, u)
    else if j =? i then let* u := mat_set u i j o1 in Ok (l, u)
    else
      let* x := mget A i j in let* d := mat_at l i i in
      let* q := odiv x d in
      let* u := mat_set u i j q in
      let* u := for_range 0 i (fun k u =>
        let* x := mat_at u i j in let* y := mat_at l i k in let* z := mat_at u k j in
        let* d := mat_at l i i in
        let* q := odiv (omul y z) d in
        mat_set u i j (osub x q)) u in
      Ok (l, u)) s.
Definition lu_decomposition (A : MB T) : Res (Matrix T * Matrix T) :=
  if negb (is_square A) then Throw
  else
    let n := mrows A in
    let* l := mat_new n n o0 in
    let* u := mat_new n n o0 in
    for_range 0 n (fun i s => let* s := lu_l A n i s in lu_u A n i s) (l, u).
(** linalg.hpp:377-381. *)
Definition div (A B : MB T) : Res (Matrix T) :=
  let* m := inverse B in m_mul A (mb_of_mat m).

(** linalg.hpp:402-445, T a real type.  [nsqrt] is std::sqrt, [half] 0.5; [fuel]
    bounds the two data-dependent loops. *)
Section Expm.
Context (nsqrt : T -> T) (half : T).
(** Lines 425-433: the batch loop with its break, on (fac_inv, mtk, local_accum). *)
Fixpoint expm_batch (todo k : nat) (sa : Matrix T) (fac : T) (mtk acc : Matrix T) : Res (T * Matrix T * Matrix T) :=
  match todo with
  | 0 => Ok (fac, mtk, acc)
  | S todo =>
      let* q := odiv o1 (ofnat k) in
      let fac := omul fac q in
      if ofeq fac o0 then Ok (fac, mtk, acc)
      else
        let* p := m_mul (mb_of_mat mtk) (mb_of_mat sa) in
        let mtk := fst (mat_move_assign mtk p) in
        let* t := m_muls (mb_of_mat mtk) fac in
        let* acc := m_iadd Root (fun _ => mb_of_mat t) acc in
        expm_batch todo (S k) sa fac mtk acc
  end.
(** Lines 423-439, on (mtk, ret, fac_inv, rel_square_diff). *)
Fixpoint expm_loop (fuel : nat) (A : MB T) (batch start : nat) (sa : Matrix T) (accuracy sqacc : T)
    (mtk ret : Matrix T) (fac rel : T) : Res (Matrix T) :=
  if olt sqacc rel && negb (oisz fac) then
    match fuel with
    | 0 => Fuel
    | S fuel =>
        let* acc := mat_new (mrows A) (mcols A) o0 in
        let* s := expm_batch batch start sa fac mtk acc in
        let '(fac, mtk, acc) := s in
        let* ret := m_iadd Root (fun _ => mb_of_mat acc) ret in
        let* num := m_mul (mb_of_mat acc) (mb_of_mat acc) in
        let* sq := m_mul (mb_of_mat ret) (mb_of_mat ret) in
        let* den := m_adds (mb_of_mat sq) accuracy in
        let* err := div (mb_of_mat num) (mb_of_mat den) in
        let* rel := square_norm_m (fun x => omul x x) nsqrt (mb_of_mat err) in
        expm_loop fuel A batch (start + batch) sa accuracy sqacc mtk ret fac rel
    end
  else Ok ret.
Definition expm (fuel : nat) (A : MB T) (accuracy : T) : Res (Matrix T) :=
  let* ls := log2_ceil oabs half fuel A in
  let (iterations, scale) := ls in
  let* sa := m_muls A scale in
  let batch := mul64 (mrows A) (mrows A) in
  let sqacc := omul (omul (omul accuracy accuracy) scale) scale in
  let* mtk := eye (mrows A) (mcols A) o1 in
  let* ret := eye (mrows A) (mcols A) o1 in
  let* ret := expm_loop fuel A batch 1 sa accuracy sqacc mtk ret o1 (oadd sqacc o1) in
  for_range 0 iterations (fun _ ret =>
    let* p := m_mul (mb_of_mat ret) (mb_of_mat ret) in Ok (fst (mat_move_assign ret p))) ret.
End Expm.
End LinalgModel.
