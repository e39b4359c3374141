(** IOControl.v: model of the output of state-space models, io.hpp:213-250.  The matrices
    are Matrix objects and the stream is an ostream (there is no ofstream version), so
    they are printed by the untagged operator. *)
From Coq Require Import String.
From Verif Require Import Mat IO Control.
Local Open Scope string_scope.

Section ShowSS.
Context {T : Type}.
Variables (sh sh0 : T -> string).
(** io.hpp:218-230 [ostream << StateSpace]. *)
Definition print_ss (s : SS T) : Res string :=
  let* a := print_m sh sh0 (mb_of_mat (sA s)) in
  let* b := print_m sh sh0 (mb_of_mat (sB s)) in
  let* c := print_m sh sh0 (mb_of_mat (sC s)) in
  let* d := print_m sh sh0 (mb_of_mat (sD s)) in
  Ok ("A =" ++ nl ++ a ++ nl ++ "B =" ++ nl ++ b ++ nl ++ "C =" ++ nl ++ c ++ nl ++ "D =" ++ nl ++ d ++ nl ++
      "Continuous-time state-space model." ++ nl).
(** io.hpp:237-250 [ostream << DiscreteStateSpace]. *)
Definition print_dss (s : DSS T) : Res string :=
  let* a := print_m sh sh0 (mb_of_mat (sA (dsys s))) in
  let* b := print_m sh sh0 (mb_of_mat (sB (dsys s))) in
  let* c := print_m sh sh0 (mb_of_mat (sC (dsys s))) in
  let* d := print_m sh sh0 (mb_of_mat (sD (dsys s))) in
  Ok ("A =" ++ nl ++ a ++ nl ++ "B =" ++ nl ++ b ++ nl ++ "C =" ++ nl ++ c ++ nl ++ "D =" ++ nl ++ d ++ nl ++
      "Sample time: " ++ sh (sample_time s) ++ " seconds" ++ nl ++ "Discrete-time state-space model." ++ nl).
End ShowSS.
