(** PropExamples.v: the loop of the example program sim_rlc_dt.cpp (C112), for every element
    type. *)
From Coq Require Import ZArith Lia List.
From Verif Require Import LinalgFacts2 PropUtil PropMath Control ControlSpec ControlFacts Examples.
Import ListNotations.
Local Open Scope nat_scope.

Section L.
Context {T : Type} {O : Ops T}.
(** * Specification *)
(** The time after k passes. *)
Fixpoint tick (t0 dt : T) (k : nat) : T := match k with 0 => t0 | S k => oadd (tick t0 dt k) dt end.
(** The loop makes exactly n passes. *)
Definition ends_after (t0 t1 dt : T) (n : nat) : Prop := (forall k, k < n -> olt (tick t0 dt k) t1 = true) /\ olt (tick t0 dt n) t1 = false.
Definition never_ends (t0 t1 dt : T) : Prop := forall k, olt (tick t0 dt k) t1 = true.
(** Line k of the output: the time, the input at that time, and the first output of the state
    after the step. *)
Definition line (n : nat) (A : nat -> nat -> T) (B : nat -> T) (C : nat -> T) (D : T) (input : T -> T) (t0 dt : T) (x0 : nat -> T) (k : nat) : T * T * T :=
  let t := tick t0 dt k in
  let x := traj n 1 A (fun i _ => B i) (fun k _ => input (tick t0 dt k)) x0 (S k) in
  (t, input t, oadd (osum n (fun j => omul (C j) (x j))) (oadd o0 (omul D (input t)))).

Section Loop.
Variables (input : T -> T) (d : DSS T) (t0 t1 dt : T) (n p : nat) (fA fC fD fB : nat -> nat -> T) (fx : nat -> T).
Hypotheses (HA : is_mat (sA (dsys d)) n n fA) (HB : is_mat (sB (dsys d)) n 1 fB) (HC : is_mat (sC (dsys d)) p n fC) (HD : is_mat (sD (dsys d)) p 1 fD).
Hypotheses (Fp : fits p) (Hp : 0 < p).
Let fu := fun (k : nat) (_ : nat) => input (tick t0 dt k).
Let tr := traj n 1 fA (fun i _ => fB i 0) fu fx.
Lemma pass_ok x u gx gu : is_vec x n gx -> is_vec u 1 gu ->
  exists x' y, loop_pass d x u = Ok (x', y) /\
    is_vec x' n (fun i => oadd (osum n (fun j => omul (fA i j) (gx j))) (osum 1 (fun j => omul (fB i 0) (gu j)))) /\
    is_vec y p (fun i => oadd (osum n (fun j => omul (fC i j) (oadd (osum n (fun l => omul (fA j l) (gx l))) (osum 1 (fun l => omul (fB j 0) (gu l)))))) (osum 1 (fun j => omul (fD i 0) (gu j)))).
Proof.
  intros Hx Hu. assert (Fn : fits n) by apply Hx. unfold loop_pass.
  destruct (dot_ok' _ n n fA x gx (is_mat_reads _ _ _ _ HA) Hx Fn) as (ax & E1 & Q1). rewrite E1. cbn [bind].
  destruct (dot_ok' _ n 1 fB u gu (is_mat_reads _ _ _ _ HB) Hu Fn) as (bu & E2 & Q2). rewrite E2. cbn [bind].
  destruct (C32_vec_add ax bu n _ n _ Q1 Q2) as (_ & G). destruct (G eq_refl) as (x' & E3 & Q3). rewrite E3. cbn [bind].
  destruct (dot_ok' _ p n fC x' _ (is_mat_reads _ _ _ _ HC) Q3 Fp) as (cx & E4 & Q4). rewrite E4. cbn [bind].
  destruct (dot_ok' _ p 1 fD u gu (is_mat_reads _ _ _ _ HD) Hu Fp) as (du & E5 & Q5). rewrite E5. cbn [bind].
  destruct (C32_vec_add cx du p _ p _ Q4 Q5) as (_ & G'). destruct (G' eq_refl) as (y & E6 & Q6). rewrite E6. cbn [bind].
  exists x', y. split; [reflexivity|]. split; [exact Q3|exact Q6].
Qed.
Lemma one_vec (a : T) : is_vec [a] 1 (fun _ => a).
Proof. split; [reflexivity|]. split; [exact fits_1|]. intros i Hi. assert (i = 0) by lia. now subst. Qed.
Lemma loop_step fuel k u0 x lines : olt (tick t0 dt k) t1 = true -> is_vec x n (tr k) ->
  exists x', is_vec x' n (tr (S k)) /\
    time_loop (S fuel) input d t1 dt (tick t0 dt k) k [u0] x lines =
    time_loop fuel input d t1 dt (tick t0 dt (S k)) (S k) [input (tick t0 dt k)] x' (lines ++ [line n fA (fun i => fB i 0) (fC 0) (fD 0 0) input t0 dt fx k]).
Proof.
  intros L Hx. destruct (pass_ok x [input (tick t0 dt k)] _ _ Hx (one_vec _)) as (x' & y & E & Vx & Vy). exists x'. split; [exact Vx|].
  cbn [time_loop]. rewrite L. change (lset [u0] 0 (input (tick t0 dt k))) with (Ok [input (tick t0 dt k)]). cbn [bind]. rewrite E. cbn [bind].
  change (lget [input (tick t0 dt k)] 0) with (Ok (input (tick t0 dt k))). cbn [bind]. destruct Vy as (Ly & _ & Ny). rewrite (lget_ok _ _ _ (Ny 0 Hp)). cbn [bind]. reflexivity.
Qed.
Lemma loop_run m : forall k fuel u0 x lines, (forall j, k <= j < k + m -> olt (tick t0 dt j) t1 = true) -> is_vec x n (tr k) ->
  exists x' u', is_vec x' n (tr (k + m)) /\
    time_loop (m + fuel) input d t1 dt (tick t0 dt k) k [u0] x lines =
    time_loop fuel input d t1 dt (tick t0 dt (k + m)) (k + m) [u'] x' (lines ++ map (line n fA (fun i => fB i 0) (fC 0) (fD 0 0) input t0 dt fx) (seq k m)).
Proof.
  induction m as [|m IH]; intros k fuel u0 x lines H Hx.
  - exists x, u0. rewrite Nat.add_0_r. cbn [seq map plus]. rewrite app_nil_r. auto.
  - destruct (loop_step (m + fuel) k u0 x lines ltac:(apply H; lia) Hx) as (x1 & V1 & E1).
    destruct (IH (S k) fuel (input (tick t0 dt k)) x1 (lines ++ [line n fA (fun i => fB i 0) (fC 0) (fD 0 0) input t0 dt fx k]) ltac:(intros; apply H; lia) V1) as (x' & u' & V & E).
    exists x', u'. replace (k + S m) with (S k + m) by lia. split; [exact V|]. cbn [plus] in *. rewrite E1, E. cbn [seq map]. now rewrite <- app_assoc.
Qed.
(** If the time is below t1 for the first passes and then is not, the loop ends, having counted
    its passes, with the state that many steps on, and the lines above have been printed. *)
Theorem C112_loop passes fuel u0 x : is_vec x n fx -> ends_after t0 t1 dt passes -> passes <= fuel ->
  exists x', time_loop fuel input d t1 dt t0 0 [u0] x [] = Ok (passes, x', map (line n fA (fun i => fB i 0) (fC 0) (fD 0 0) input t0 dt fx) (seq 0 passes)) /\
    is_vec x' n (traj n 1 fA (fun i _ => fB i 0) (fun k _ => input (tick t0 dt k)) fx passes).
Proof.
  intros Hx [H1 H2] Hf. destruct (loop_run passes 0 (fuel - passes) u0 x [] ltac:(intros; apply H1; lia) Hx) as (x' & u' & V & E).
  exists x'. split; [|exact V]. replace (passes + (fuel - passes)) with fuel in E by lia. change (tick t0 dt 0) with t0 in E. rewrite E. cbn [plus app].
  destruct (fuel - passes); cbn [time_loop]; rewrite H2; reflexivity.
Qed.
(** The program starts from rest. *)
Corollary C112_run passes fuel : n = 2 -> (forall i, fx i = o0) -> ends_after t0 t1 dt passes -> passes <= fuel ->
  exists x', run_dt fuel input d t0 t1 dt = Ok (passes, x', map (line n fA (fun i => fB i 0) (fC 0) (fD 0 0) input t0 dt fx) (seq 0 passes)) /\
    is_vec x' n (traj n 1 fA (fun i _ => fB i 0) (fun k _ => input (tick t0 dt k)) fx passes).
Proof.
  intros Hn Hx. apply C112_loop. subst n. split; [reflexivity|]. split; [now vm_compute|]. intros [|[|i]] Hi; try lia; now rewrite Hx.
Qed.
(** If the time never reaches t1, no number of passes ends the loop. *)
Theorem C112_loop_forever fuel u0 x : is_vec x n fx -> never_ends t0 t1 dt -> time_loop fuel input d t1 dt t0 0 [u0] x [] = Fuel.
Proof.
  intros Hx H. destruct (loop_run fuel 0 0 u0 x [] ltac:(intros; apply H) Hx) as (x' & u' & V & E). rewrite Nat.add_0_r in E. change (tick t0 dt 0) with t0 in E. rewrite E.
  cbn [time_loop plus]. now rewrite (H fuel).
Qed.
End Loop.
End L.

(** A case over the integers: a double integrator driven by the time, from 0 to 3. *)
Definition ramp : DSS Z := mkDSS (mkSS (mkM 2 2 [1; 1; 0; 1]%Z) (mkM 2 1 [0; 1]%Z) (mkM 1 2 [1; 0]%Z) (mkM 1 1 [1]%Z)) 1%Z.
Example C112_loop_case : @ends_after Z zops 0%Z 3%Z 1%Z 3 /\
  @run_dt Z zops 5 (fun t => (t + 1)%Z) ramp 0%Z 3%Z 1%Z = Ok (3, [4; 6]%Z, [(0, 1, 1); (1, 2, 3); (2, 3, 7)]%Z).
Proof. split; [split; [intros [|[|[|k]]] H; try reflexivity; lia|reflexivity]|vm_compute; reflexivity]. Qed.
Example C112_forever_case : @never_ends Z zops 0%Z 3%Z 0%Z.
Proof. intros k. assert (E : @tick Z zops 0%Z 0%Z k = 0%Z) by (induction k as [|k IH]; [reflexivity|]; cbn [tick]; rewrite IH; reflexivity). rewrite E. reflexivity. Qed.
