(** Control.v: model of control.hpp.  One element type T throughout. *)
From Verif Require Export Linalg.

(** control.hpp:17-52 [StateSpace] and 55-81 [DiscreteStateSpace]. *)
Record SS (T : Type) := mkSS { sA : Matrix T; sB : Matrix T; sC : Matrix T; sD : Matrix T }.
Arguments mkSS {T} sA sB sC sD. Arguments sA {T} s. Arguments sB {T} s. Arguments sC {T} s. Arguments sD {T} s.
Record DSS (T : Type) := mkDSS { dsys : SS T; sample_time : T }.
Arguments mkDSS {T} dsys sample_time. Arguments dsys {T} d. Arguments sample_time {T} d.

Section ControlModel.
Context {T : Type} {O : Ops T}.

(** control.hpp:44-51, 75-80: the matrices are copied. *)
Definition ss_new (A B C D : Matrix T) : Res (SS T) :=
  let* A := mat_copy A in let* B := mat_copy B in let* C := mat_copy C in let* D := mat_copy D in
  Ok (mkSS A B C D).
Definition dss_new (A B C D : Matrix T) (ts : T) : Res (DSS T) :=
  let* s := ss_new A B C D in Ok (mkDSS s ts).

(** control.hpp:87-104, T a real type.  [acc] is 1e-05; [nsqrt], [half] and [fuel] are
    those of [expm].  The members of dsys are empty and are (move-)assigned to.  A
    failing assert (100-102) is UB. *)
Definition c2d (nsqrt : T -> T) (half acc : T) (fuel : nat) (sys : SS T) (ts : T) : Res (DSS T) :=
  let* At := m_muls (mb_of_mat (sA sys)) ts in
  let* E := expm nsqrt half fuel (mb_of_mat At) acc in
  let dA := fst (mat_move_assign mat_empty E) in
  let* inv := inverse (mb_of_mat (sA sys)) in
  let* Id := identity (rows (sA sys)) o1 in
  let* D := m_sub (mb_of_mat dA) (mb_of_mat Id) in
  let* P := m_mul (mb_of_mat inv) (mb_of_mat D) in
  let* P := m_mul (mb_of_mat P) (mb_of_mat (sB sys)) in
  let dB := fst (mat_move_assign mat_empty P) in
  let* dC := mat_assign (fun _ => mb_of_mat (sC sys)) mat_empty in
  let* dD := mat_assign (fun _ => mb_of_mat (sD sys)) mat_empty in
  if (rows dA =? cols dA) && (rows dB =? rows dA) && (cols dC =? rows dA)
  then Ok (mkDSS (mkSS dA dB dC dD) ts) else UB.

(** control.hpp:111-120. *)
Definition simulate_step (sys : DSS T) (x u : list T) : Res (list T * list T) :=
  let* ax := dot_mv (mb_of_mat (sA (dsys sys))) x in
  let* bu := dot_mv (mb_of_mat (sB (dsys sys))) u in
  let* x' := v_add ax bu in
  let* cx := dot_mv (mb_of_mat (sC (dsys sys))) x in
  let* du := dot_mv (mb_of_mat (sD (dsys sys))) u in
  let* y := v_add cx du in
  Ok (x', y).
(** control.hpp:128-152.  [trunc] is the conversion to size_t (undefined when the value
    does not fit).  The state of the loop is (t, x, y, rtime); rtime is a double, here T. *)
Definition simulate (trunc : T -> Res nat) (sys : DSS T) (u : list (list T)) (simulated_time : T) (init : list T) :
    Res (list T * list (list T) * list (list T)) :=
  let* q := odiv simulated_time (sample_time sys) in
  let* k := trunc q in
  let steps := Nat.min (length u) k in
  let* (t, x, y, _) := for_range 0 steps (fun i (s : list T * list (list T) * list (list T) * T) =>
    let '(t, x, y, rtime) := s in
    let* t := lset t i rtime in
    let* xb := lget x (length x - 1) in
    let* ui := lget u i in
    let* (x', y') := simulate_step sys xb ui in
    Ok (t, x ++ [x'], y ++ [y'], oadd rtime (sample_time sys))) (repeat o0 (steps + 1), [init], nil, o0) in
  Ok (t, x, y).

(** control.hpp:159-175. *)
Definition ctrb (A B : MB T) : Res (Matrix T) :=
  if negb (is_square A) then Throw
  else if negb (mrows A =? mrows B) then Throw
  else
    let* result := mat_of_mb B in
    for_range 1 (mrows A) (fun i result =>
      let* P := powm A i in
      let* P := m_mul (mb_of_mat P) B in
      let* h := hstack (mb_of_mat result) (mb_of_mat P) in
      Ok (fst (mat_move_assign result h))) result.
(** control.hpp:187-203. *)
Definition obsv (A C : MB T) : Res (Matrix T) :=
  if negb (is_square A) then Throw
  else if negb (mrows A =? mcols C) then Throw
  else
    let* result := mat_of_mb C in
    for_range 1 (mrows A) (fun i result =>
      let* P := powm A i in
      let* P := m_mul C (mb_of_mat P) in
      let* h := vstack (mb_of_mat result) (mb_of_mat P) in
      Ok (fst (mat_move_assign result h))) result.

(** control.hpp:213-217 and 259-263: [for (i = j + 1; i >= 1; --i) c[i] -= a_j * c[i - 1]]
    for j < n; the inner counter k counts 0 .. j, i = j + 1 - k. *)
Definition poly_loop (n : nat) (a : nat -> Res T) (c : list T) : Res (list T) :=
  for_range 0 n (fun j c =>
    for_range 0 (S j) (fun k c =>
      let i := S j - k in
      let* x := lget c i in let* aj := a j in let* y := lget c (i - 1) in
      lset c i (osub x (omul aj y))) c) c.
(** control.hpp:208-219. *)
Definition poly_v (a : list T) : Res (list T) :=
  let* c := vec_new (add64 (length a) 1) in
  let* c := lset c 0 o1 in
  poly_loop (length a) (lget a) c.
(** control.hpp:225-242.  [Vector<T>({0})] is the vector holding one 0: the conversion to
    an initializer_list is preferred to the one to size_t. *)
Definition polyreduce (a : list T) : Res (list T) :=
  let* o := first_range 0 (length a) (fun j => let* x := lget a j in Ok (if negb (oeq x o0) then Some j else None)) in
  let j := match o with Some j => j | None => length a end in
  if j =? length a then vec_of_list [o0]
  else
    let* c := vec_new (sub64 (length a) j) in
    for_range j (length a) (fun i c => let* x := lget a i in lset c (sub64 i j) x) c.
(** control.hpp:247-283; the state of the loop is (c, B, last_c). *)
Definition poly_m (A : MB T) : Res (list T) :=
  if msize A =? 0 then vec_of_list [o1]
  else if (mrows A =? 1) || (mcols A =? 1) then
    let* c := vec_new (add64 (msize A) 1) in
    let* c := lset c 0 o1 in
    poly_loop (msize A) (mlin A) c
  else if negb (is_square A) then Throw
  else
    let n := mrows A in
    let* c := vec_new (add64 n 1) in
    let* B := mat_of_mb A in
    let* last := trace (mb_of_mat B) in
    let* c := lset c 0 o1 in
    let* c := lset c 1 (oopp last) in
    let* Id := identity (rows B) o1 in
    let* (c, _, _) := for_range 2 (add64 n 1) (fun m (s : list T * Matrix T * T) =>
      let '(c, B, last) := s in
      let* L := m_muls (mb_of_mat Id) last in
      let* D := m_sub (mb_of_mat B) (mb_of_mat L) in
      let* P := m_mul A (mb_of_mat D) in
      let B := fst (mat_move_assign B P) in
      let* t := trace (mb_of_mat B) in
      let* last := odiv t (ofnat m) in
      let* c := lset c m (oopp last) in
      Ok (c, B, last)) (c, B, last) in
    Ok c.
(** control.hpp:290-321. *)
Definition acker (A B poles : MB T) : Res (Matrix T) :=
  if negb (is_square A) || negb (is_column_vector B) || negb (mrows A =? mrows B) then Exit
  else if negb (is_row_vector poles) || mempty poles then Exit
  else
    let* ct := ctrb A B in
    let* d := determinant (mb_of_mat ct) in
    if oisz d then Exit
    else
      let* p := poly_m poles in
      let* Ap := zeros (mrows A) (mcols A) in
      let* Ap := for_range 0 (add64 (mrows A) 1) (fun i Ap =>
        let* P := powm A (sub64 (mcols A) i) in
        let* pi := lget p i in
        let* P := m_muls (mb_of_mat P) pi in
        m_iadd Root (fun _ => mb_of_mat P) Ap) Ap in
      let* sel := zeros 1 (rows ct) in
      let* sel := mat_lset sel (sub64 (rows ct) 1) o1 in
      let* inv := inverse (mb_of_mat ct) in
      let* P := m_mul (mb_of_mat sel) (mb_of_mat inv) in
      m_mul (mb_of_mat P) (mb_of_mat Ap).
(** control.hpp:326-330 and 335-339. *)
Definition generate_input_zero (sys : SS T) : Res (list T) := vec_new (cols (sB sys)).
Definition generate_state_zero (sys : SS T) : Res (list T) := vec_new (rows (sA sys)).
End ControlModel.
