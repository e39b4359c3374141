(** QR.v: model of linalg::qr_decomposition and linalg::solve (linalg.hpp).

    Neither template compiles as written: [2. / (u * u)] divides a number by the
    element-wise product of two vectors, for which there is no operator, and
    [View(H, ...)] passes a matrix where the constructor takes a pointer.  The model is
    what the code does after two repairs and no other change:
      - [2. / (u * u)] is read as [2. / malg::dot(u, u)];
      - [View(X, ...)] is read as [View(&X, ...)].
    The element type is the [data_type_t] of the code (T and double joined). *)
From Verif Require Export Linalg.

Section QRModel.
Context {T : Type} {O : Ops T}.
(** [std::sqrt] and [std::copysign]. *)
Variable nsqrt : T -> T.
Variable copysign : T -> T -> T.

(** linalg.hpp:268-275, the lambda [make_householder]. *)
Definition make_householder (a : list T) : Res (Matrix T) :=
  let* a0 := lget a 0 in
  let* nrm := square_norm_v (fun x => omul x x) nsqrt a in
  let* a0' := lget a 0 in
  let* u := v_divs a (oadd a0 (copysign nrm a0')) in
  let* u := lset u 0 o1 in
  let* E := eye (length a) (length a) o1 in
  let* uc := to_matrix u false in
  let* ur := to_matrix u true in
  let* P := m_mul (mb_of_mat uc) (mb_of_mat ur) in
  let* d := dot u u in
  let* t := odiv (oadd o1 o1) d in
  let* W := m_muls (mb_of_mat P) t in
  m_sub (mb_of_mat E) (mb_of_mat W).

(** linalg.hpp:287-291: [H] is overwritten with the identity. *)
Definition reset_identity (H : Matrix T) : Res (Matrix T) :=
  fill_rc (rows H) (cols H) (fun r c => Ok (if r =? c then o1 else o0)) H.
(** [View(&H, i, -1, i, -1)]. *)
Definition corner (i : nat) : vpath := PView (mkRange i (N.to_nat size_max)) (mkRange i (N.to_nat size_max)) Root.
(** linalg.hpp:285-297, one pass of the loop: (Q, R, H). *)
Definition qr_step (i : nat) (s : Matrix T * Matrix T * Matrix T) : Res (Matrix T * Matrix T * Matrix T) :=
  let '(Q, R, H) := s in
  let* H := reset_identity H in
  let* a := extract_column (mb_of_mat R) i i (N.to_nat size_max) in
  let* h := make_householder a in
  let* H := view_assign (corner i) (fun _ => mb_of_mat h) H in
  let* q := m_mul (mb_of_mat Q) (mb_of_mat H) in
  let Q := fst (mat_move_assign Q q) in
  let* r := m_mul (mb_of_mat H) (mb_of_mat R) in
  let R := fst (mat_move_assign R r) in
  Ok (Q, R, H).
(** linalg.hpp:299-303. *)
Definition clear_lower (R : Matrix T) : Res (Matrix T) :=
  let nc := cols R in
  for_range 1 (rows R) (fun r R => for_range 0 (Nat.min r nc) (fun c R => mat_set R r c o0) R) R.
(** linalg.hpp:262-305. *)
Definition qr_decomposition (A : Matrix T) : Res (Matrix T * Matrix T) :=
  let* R := mat_copy A in
  let* Q := eye (rows R) (rows R) o1 in
  let* H := mat_new (rows R) (rows R) o0 in
  let* s := for_range 0 (sub64 (cols R) (if cols R =? rows R then 1 else 0)) qr_step (Q, R, H) in
  let '(Q, R, _) := s in
  let* R := clear_lower R in
  Ok (Q, R).

(** linalg.hpp:352-372. *)
Definition solve (A : Matrix T) (b : list T) : Res (list T) :=
  if rows A =? cols A then
    let* v := inverse (mb_of_mat A) in dot_mv (mb_of_mat v) b
  else if cols A <? rows A then
    let* qr := qr_decomposition A in
    let (q, r) := qr in
    let* v := inverse (vmb (PView (mkRange 0 (cols A)) (mkRange 0 (cols A)) Root) r) in
    let* qt := transpose (vmb (PView (mkRange 0 (rows A)) (mkRange 0 (cols A)) Root) q) in
    let* y := dot_mv (mb_of_mat qt) b in
    dot_mv (mb_of_mat v) y
  else
    let* At := transpose (mb_of_mat A) in
    let* AA := m_mul (mb_of_mat A) (mb_of_mat At) in
    let* v := inverse (mb_of_mat AA) in
    let* P := m_mul (mb_of_mat At) (mb_of_mat v) in
    dot_mv (mb_of_mat P) b.
End QRModel.
