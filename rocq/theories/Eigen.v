(** Eigen.v: model of eigen.hpp: hessenberg, qr_factorise_givens, QRHessenberg,
    eigenvectorUpper ([wilkinson_shift] is in Complex.v).

    None of the four compiles as written.  The model is what the code does after three
    repairs and no other change:
      - [identity<std::complex<T>>(N)] is given the value it needs, 1;
      - [vector_length(H, k, k + 1)] is given the end row it needs, H.rows();
      - the norms of math.hpp, whose [if (is_complex_v<T>)] also compiles the branch for
        real elements, use [if constexpr].
    [C] is std::complex<T> and [U] is T (double).  Simplifications: a real operand of a
    complex operation is first converted to complex ([ofr]); row numbers are below 2^31,
    so the [int] loop counters do not overflow; what is written to std::cout is kept as
    a flag. *)
From Verif Require Export Linalg.

Section EigenModel.
Context {C U : Type} {OC : Ops C} {OU : Ops U}.
(** [std::norm], [std::abs], [std::conj] of a complex number; the complex number with a
    given real part; [std::sqrt] and [std::numeric_limits<T>::epsilon()]. *)
Variables (cnorm cabs : C -> U) (conj : C -> C) (ofr : U -> C) (nsqrt : U -> U) (eps : U).

(** eigen.hpp:55-75: the vector U of the reflection for column k. *)
Definition hess_vector (H : Matrix C) (n k : nat) : Res (list C) :=
  let* xlength := vector_length cnorm nsqrt (mb_of_mat H) k (k + 1) (rows H) in
  let* u := vec_fill n o0 in
  let* xk := mat_at H (k + 1) k in
  let axk := cabs xk in
  let* rho := if olt eps axk then odiv (oopp xk) (ofr axk) else Ok o1 in
  let* u := lset u (k + 1) (osub xk (omul rho (ofr xlength))) in
  let* u1 := lget u (k + 1) in
  let* s := for_range (k + 2) n (fun i (s : list C * U) =>
    let* h := mat_at H i k in
    let* u := lset (fst s) i h in
    let* y := lget u i in
    Ok (u, oadd (snd s) (cnorm y))) (u, cnorm u1) in
  let (u, ulength) := s in
  let ulength := if olt (nsqrt ulength) eps then eps else nsqrt ulength in
  for_range (k + 1) n (fun i u =>
    let* x := lget u i in
    let* y := odiv x (ofr ulength) in
    lset u i y) u.
(** eigen.hpp:77-83: I - 2 U U*. *)
Definition hess_reflection (u : list C) (n k : nat) : Res (Matrix C) :=
  let* PK := identity n o1 in
  for_range (k + 1) n (fun r PK => for_range (k + 1) n (fun c PK =>
    let* x := mat_at PK r c in
    let* ur := lget u r in
    let* uc := lget u c in
    mat_set PK r c (osub x (omul (omul (oadd o1 o1) ur) (conj uc)))) PK) PK.
(** eigen.hpp:53-88, one pass: (P, H). *)
Definition hess_step (n k : nat) (s : Matrix C * Matrix C) : Res (Matrix C * Matrix C) :=
  let (P, H) := s in
  let* u := hess_vector H n k in
  let* PK := hess_reflection u n k in
  let* X := m_mul (mb_of_mat H) (mb_of_mat PK) in
  let* Y := m_mul (mb_of_mat PK) (mb_of_mat X) in
  let H := fst (mat_move_assign H Y) in
  let* Z := m_mul (mb_of_mat P) (mb_of_mat PK) in
  let P := fst (mat_move_assign P Z) in
  Ok (P, H).
(** eigen.hpp:48-90. *)
Definition hessenberg (A : Matrix C) : Res (Matrix C * Matrix C) :=
  let n := rows A in
  let* P := identity n o1 in
  let* H := mat_copy A in
  for_range 0 (n - 2) (hess_step n) (P, H).

(** eigen.hpp:101-123, one pass: (Q, R). *)
Definition givens_step (nc i : nat) (s : Matrix C * Matrix C) : Res (Matrix C * Matrix C) :=
  let (Q, R) := s in
  let j := i - 1 in
  let* rij := mat_at R i j in
  if olt (cabs rij) eps then Ok (Q, R)
  else
    let* c := mat_at R j j in
    let* rij := mat_at R i j in
    let s := oopp (conj rij) in
    let len := nsqrt (oadd (cnorm c) (cnorm s)) in
    let* c := odiv c (ofr len) in
    let* s := odiv s (ofr len) in
    let cstar := conj c in
    let sstar := conj s in
    let* RR := mat_copy R in
    let* QQ := mat_copy Q in
    for_range 0 nc (fun m (st : Matrix C * Matrix C) =>
      let (Q, R) := st in
      let* rj := mat_at RR j m in
      let* ri := mat_at RR i m in
      let* R := mat_set R j m (osub (omul cstar rj) (omul s ri)) in
      let* rj := mat_at RR j m in
      let* ri := mat_at RR i m in
      let* R := mat_set R i m (oadd (omul sstar rj) (omul c ri)) in
      let* qj := mat_at QQ m j in
      let* qi := mat_at QQ m i in
      let* Q := mat_set Q m j (osub (omul c qj) (omul sstar qi)) in
      let* qj := mat_at QQ m j in
      let* qi := mat_at QQ m i in
      let* Q := mat_set Q m i (oadd (omul s qj) (omul cstar qi)) in
      Ok (Q, R)) (Q, R).
(** eigen.hpp:97-125: (Q, R). *)
Definition qr_factorise_givens (A : Matrix C) : Res (Matrix C * Matrix C) :=
  let* Q := identity (rows A) o1 in
  let* R := mat_copy A in
  for_range 1 (rows A) (givens_step (cols A)) (Q, R).

(** [wilkinson_shift], and the literal 1e-14. *)
Variables (shift : Matrix C -> Res C) (tolerance : U).
(** eigen.hpp:159-182 (Told, assigned from UT of the same shape, is a copy), one pass: (HM, UT, residual). *)
Definition schur_step (Id HM UT : Matrix C) : Res (Matrix C * Matrix C * U) :=
  let* Told := mat_copy UT in
  let* mu := shift UT in
  let mu := if olt (cabs mu) eps then o1 else mu in
  let* X := linear_combination (mb_of_mat UT) o1 (mb_of_mat Id) (oopp mu) in
  let UT := fst (mat_move_assign UT X) in
  let* qr := qr_factorise_givens UT in
  let (Q, R) := qr in
  let* X := m_mul (mb_of_mat R) (mb_of_mat Q) in
  let UT := fst (mat_move_assign UT X) in
  let* X := m_mul (mb_of_mat HM) (mb_of_mat Q) in
  let HM := fst (mat_move_assign HM X) in
  let* X := linear_combination (mb_of_mat UT) o1 (mb_of_mat Id) mu in
  let UT := fst (mat_move_assign UT X) in
  let* D := linear_combination (mb_of_mat UT) o1 (mb_of_mat Told) (oopp o1) in
  let* r1 := square_norm_m cnorm nsqrt (mb_of_mat D) in
  let* r2 := sub_norm cnorm nsqrt (mb_of_mat UT) in
  Ok (HM, UT, oadd r1 r2).
(** eigen.hpp:156-184, the loop: [todo] is ITERMAX - iter.  The result has the final
    residual. *)
Fixpoint schur_loop (todo : nat) (Id HM UT : Matrix C) (residual : U) : Res (Matrix C * Matrix C * U) :=
  match todo with
  | 0 => Ok (HM, UT, residual)
  | S todo =>
      if olt tolerance residual then
        let* s := schur_step Id HM UT in
        let '(HM, UT, residual) := s in
        schur_loop todo Id HM UT residual
      else Ok (HM, UT, residual)
  end.
(** eigen.hpp:142-190 with [itermax] for the constant ITERMAX (10000): (HM, UT) and
    whether the warning is printed. *)
Definition QRHessenberg (itermax : nat) (A : Matrix C) : Res (Matrix C * Matrix C * bool) :=
  let n := rows A in
  let* Id := identity n o1 in
  let* pu := hessenberg A in
  let (HM, UT) := pu in
  let* s := schur_loop (itermax - 1) Id HM UT o1 in
  let '(HM, UT, residual) := s in
  Ok (HM, UT, olt tolerance residual).

(** eigen.hpp:218-220. *)
Definition shift_diagonal (M : Matrix C) (n : nat) (lambda : C) (TT : Matrix C) : Res (Matrix C) :=
  for_range 0 n (fun k TT => let* m := mat_at M k k in mat_set TT k k (osub m lambda)) TT.
(** eigen.hpp:224-236, one pass of the back substitution: (V, ok). *)
Definition back_step (TT : Matrix C) (l i : nat) (s : list C * bool) : Res (list C * bool) :=
  let (V, ok) := s in
  let* V := lset V i o0 in
  let* V := for_range (i + 1) (l + 1) (fun j V =>
    let* vi := lget V i in let* t := mat_at TT i j in let* vj := lget V j in
    lset V i (osub vi (omul t vj))) V in
  let* t := mat_at TT i i in
  if olt (cabs t) eps then
    let* vi := lget V i in
    let ok := if olt eps (cabs vi) then false else ok in
    let* V := lset V i o0 in
    Ok (V, ok)
  else
    let* vi := lget V i in
    let* t := mat_at TT i i in
    let* q := odiv vi t in
    let* V := lset V i q in
    Ok (V, ok).
(** eigen.hpp:208-248, one pass: (E, TT, fullset). *)
Definition upper_step (M : Matrix C) (n l : nat) (s : Matrix C * Matrix C * bool) : Res (Matrix C * Matrix C * bool) :=
  let '(E, TT, fullset) := s in
  let* V := vec_fill n o0 in
  let* lambda := mat_at M l l in
  let* TT := shift_diagonal M n lambda TT in
  let* V := lset V l o1 in
  let* (V, ok) := for_range 0 l (fun k => back_step TT l (l - 1 - k)) (V, true) in
  if ok : bool then
    let* len := square_norm_v cnorm nsqrt V in
    let* E := for_range 0 (l + 1) (fun i E =>
      let* v := lget V i in let* q := odiv v (ofr len) in mat_set E i l q) E in
    Ok (E, TT, fullset)
  else
    let* E := for_range 0 (l + 1) (fun i E => mat_set E i l o0) E in
    Ok (E, TT, false).
(** eigen.hpp:198-256: (E, fullset). *)
Definition eigenvectorUpper (M : Matrix C) : Res (Matrix C * bool) :=
  let n := rows M in
  let* E := mat_new n n o0 in
  let* TT := mat_copy M in
  let* (E, _, fullset) := for_range 0 n (fun k => upper_step M n (n - 1 - k)) (E, TT, true) in
  Ok (E, fullset).
End EigenModel.
