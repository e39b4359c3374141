(** PropExpm2Ex.v: concrete cases for PropExpm2.v. *)
From Verif Require Import LinalgFacts2 PropMatrix PropUtil PropMath RingM DetFacts RatOps PropLinalg PropRing PropField PropReal Control ControlSpec ControlFacts PropControl PropControl2 PropExpm PropFieldEx PropControlEx PropExpm2 Scalar.
From mathcomp Require Import all_ssreflect all_algebra.
Set Implicit Arguments.
Unset Strict Implicit.
Unset Printing Implicit Defensive.
Import Order.Theory GRing.Theory Num.Theory.
Section ZEx.
Local Open Scope Z_scope.
Example C62_scaling_ex : simulate ztrunc zsys [[3]; [0]; [15]] 7 [3; -3] = Ok ([0; 2; 4; 0], [[3; -3]; [-3; -6]; [-15; -18]; [-51; -39]], [[24]; [-3]; [90]]).
Proof. reflexivity. Qed.
End ZEx.
Local Open Scope ring_scope.

(** The double integrator: expm([[0,4],[0,0]]) is [[1,4],[0,1]] exactly. *)
Definition dint : 'M[rat]_2 := fmx 2 2 (fun i j => if (i == 0%N) && (j == 1%N) then 4%:R else 0).
Example C56_nilpotent_ex : dint ^+ 2 = 0 /\
  expm (fun x : rat => x) (2%:R^-1) 3 (mb_of_mat (mkM 2 2 [:: 0; 4%:R; 0; 0 : rat])) 1 = Ok (mkM 2 2 [:: 1; 4%:R; 0; 1 : rat]).
Proof.
  split; last by vm_compute.
  apply/matrixP => i j. rewrite expr2 !mxE big_ord_recr big_ord1 /= !mxE /=.
  by case: i j => [[|[|i]] Hi] [[|[|j]] Hj].
Qed.
