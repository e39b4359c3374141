(** Examples.v: the programs in /repo/examples, up to what they take from other libraries
    (the integrators of numint, the plots and the stop watch are not modelled; std::sin is an
    arbitrary function of the time). *)
From Verif Require Export Control.

Section ExampleModel.
Context {T : Type} {O : Ops T}.

(** sim_rlc_dt.cpp:42-56: the series circuit with resistance R0, inductance L0 and capacity
    C0; the state is the current and the voltage of the capacitor.  [-R0 / L0] is [(-R0) / L0]. *)
Definition rlc_dt (R0 L0 C0 : T) : Res (SS T) :=
  let* a := odiv (oopp R0) L0 in let* b := odiv (oopp o1) L0 in let* c := odiv o1 C0 in let* e := odiv o1 L0 in
  let* A := mat_assign_nested mat_empty [[a; b]; [c; o0]] in
  let* B := mat_assign_nested mat_empty [[e]; [o0]] in
  let* C := mat_assign_nested mat_empty [[o0; o1]] in
  let* D := mat_assign_nested mat_empty [[o0]] in
  Ok (mkSS A B C D).
(** sim_rlc_ct.cpp:56-78: the same circuit, written again. *)
Definition rlc_ct (R0 L0 C0 : T) : Res (SS T) :=
  let* a := odiv (oopp R0) L0 in let* b := odiv o1 L0 in let* c := odiv o1 C0 in let* e := odiv o1 L0 in
  let* A := mat_assign_nested mat_empty [[a; b]; [c; o0]] in
  let* B := mat_assign_nested mat_empty [[e]; [o0]] in
  let* C := mat_assign_nested mat_empty [[o1; o0]] in
  let* D := mat_assign_nested mat_empty [[o0]] in
  Ok (mkSS A B C D).
(** pendulum.cpp:68-87: mass m, length l, damping b, gravity g; the state is the angle and its
    velocity. *)
Definition pendulum (m l b g : T) : Res (SS T) :=
  let* a := odiv (oopp g) l in let* c := odiv (oopp b) (omul (omul m l) l) in let* e := odiv o1 (omul (omul m l) l) in
  let* A := mat_assign_nested mat_empty [[o0; o1]; [a; c]] in
  let* B := mat_assign_nested mat_empty [[o0]; [e]] in
  let* C := mat_assign_nested mat_empty [[o0; o1]] in
  let* D := mat_assign_nested mat_empty [[o0]] in
  Ok (mkSS A B C D).
(** sim_rlc_ct.cpp:84-89 and pendulum.cpp:93-102: the right-hand side, with the input already
    in u. *)
Definition derivative (sys : SS T) (x u : list T) : Res (list T) :=
  let* ax := dot_mv (mb_of_mat (sA sys)) x in
  let* bu := dot_mv (mb_of_mat (sB sys)) u in
  v_add ax bu.
(** sim_rlc_dt.cpp:21-25 [compute_samples]. *)
Definition compute_samples (trunc : T -> Res nat) (t0 t1 dt sampling : T) : Res nat :=
  let* q := odiv (osub t1 t0) dt in trunc (omul q sampling).
(** sim_rlc_dt.cpp:78-92: one pass of the loop.  The output is computed from the new state. *)
Definition loop_pass (d : DSS T) (x u : list T) : Res (list T * list T) :=
  let* ax := dot_mv (mb_of_mat (sA (dsys d))) x in
  let* bu := dot_mv (mb_of_mat (sB (dsys d))) u in
  let* x := v_add ax bu in
  let* cx := dot_mv (mb_of_mat (sC (dsys d))) x in
  let* du := dot_mv (mb_of_mat (sD (dsys d))) u in
  let* y := v_add cx du in
  Ok (x, y).
(** sim_rlc_dt.cpp:78-92: [for (t = t0; t < t1; t += dt, ++steps)].  [input t] is the value put
    into u[0] and a line is what is printed: t, u[0] and y[0].  [Fuel] is what comes out of a
    loop that has not ended after [fuel] passes. *)
Fixpoint time_loop (fuel : nat) (input : T -> T) (d : DSS T) (t1 dt t : T) (steps : nat) (u x : list T) (lines : list (T * T * T)) :
    Res (nat * list T * list (T * T * T)) :=
  if olt t t1 then
    match fuel with
    | 0 => Fuel
    | S fuel =>
        let* u := lset u 0 (input t) in
        let* (x, y) := loop_pass d x u in
        let* u0 := lget u 0 in
        let* y0 := lget y 0 in
        time_loop fuel input d t1 dt (oadd t dt) (S steps) u x (lines ++ [(t, u0, y0)])
    end
  else Ok (steps, x, lines).
(** sim_rlc_dt.cpp:66-92: u{0}, x{0, 0} and the loop. *)
Definition run_dt (fuel : nat) (input : T -> T) (d : DSS T) (t0 t1 dt : T) : Res (nat * list T * list (T * T * T)) :=
  time_loop fuel input d t1 dt t0 0 [o0] [o0; o0] nil.
End ExampleModel.
