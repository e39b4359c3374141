(** PropOnesFloat.v: eigen::QRHessenberg of the matrix of two rows of complex doubles whose elements are all 1 (C110), with the
    repairs of Eigen.v.  The shift is an eigenvalue, 0, and is replaced by 1; the passes then go back and forth between two
    matrices.  Complex doubles are computed by the formulas of Complex.v, bit by bit. *)
From Coq Require Import ZArith Bool SpecFloat List String.
From Verif Require Import Scalar Linalg Float Complex Eigen FloatIO FloatLoop PropFloat PropIntInvEx TestSuite PropStallFloat.
Import ListNotations.
Local Open Scope nat_scope.

(** Rows (1, 1), (1, 1); and (1, -1), (-1, 1). *)
Definition ones2 : Matrix (cplx double) := mkM 2 2 [re "1"; re "1"; re "1"; re "1"].
Definition ones2' : Matrix (cplx double) := mkM 2 2 [re "1"; re "-1"; re "-1"; re "1"].
(** The two values of HM. *)
Definition id2 : Matrix (cplx double) := mkM 2 2 [re "1"; re "0"; re "0"; re "1"].
Definition rot2 : Matrix (cplx double) := mkM 2 2 [re "0"; re "-1"; re "1"; re "0"].

Section Ones.
Variable csqrt : cplx double -> cplx double.
Hypothesis csqrt4 : csqrt (re "4") = re "2".
Let shift := @wilkinson_shift _ D6 csqrt.
Ltac shift_tac A := unfold shift, wilkinson_shift; replace (0 <? sub64 (rows A) 1) with true by (vm_compute; reflexivity); cbv zeta;
  repeat match goal with |- context [mat_at A ?i ?j] => let v := eval vm_compute in (mat_at A i j) in replace (mat_at A i j) with v by (vm_compute; reflexivity) end;
  cbn [bind]; match goal with |- context [csqrt ?e] => replace e with (re "4") by (vm_compute; reflexivity) end; rewrite csqrt4; vm_compute; reflexivity.
(** The shift is an eigenvalue, 0. *)
Lemma shift_ones : shift ones2 = Ok (re "0").
Proof. shift_tac ones2. Qed.
Lemma shift_ones' : shift ones2' = Ok (re "0").
Proof. shift_tac ones2'. Qed.
Let step := @schur_step _ _ C6 D6 (@cx_norm _ D6) cabs cconj cofr (SFsqrt prec64 emax64) eps52 shift.
(** The residual of each pass: the root of 8, plus 1. *)
Definition res_ones : double := @oadd _ D6 (SFsqrt prec64 emax64 (lit "8")) (lit "1").
Lemma ones_step : step id2 id2 ones2 = Ok (rot2, ones2', res_ones).
Proof. unfold step, schur_step. rewrite shift_ones. vm_compute. reflexivity. Qed.
Lemma ones_step' : step id2 rot2 ones2' = Ok (id2, ones2, res_ones).
Proof. unfold step, schur_step. rewrite shift_ones'. vm_compute. reflexivity. Qed.
Lemma res_big : @olt _ D6 tol14 res_ones = true.
Proof. vm_compute. reflexivity. Qed.
Definition odd_state (b : bool) : Matrix (cplx double) * Matrix (cplx double) := if b then (rot2, ones2') else (id2, ones2).
Lemma ones_loop todo : forall b r, @olt _ D6 tol14 r = true -> exists r',
  @schur_loop _ _ C6 D6 (@cx_norm _ D6) cabs cconj cofr (SFsqrt prec64 emax64) eps52 shift tol14 todo id2 (fst (odd_state b)) (snd (odd_state b)) r =
    Ok (odd_state (xorb b (Nat.odd todo)), r') /\ @olt _ D6 tol14 r' = true.
Proof.
  induction todo as [|todo IH]; intros b r Hr; cbn [schur_loop].
  { exists r. split; [destruct b; reflexivity|exact Hr]. }
  rewrite Hr. pose proof ones_step as E0. pose proof ones_step' as E1. unfold step in E0, E1.
  rewrite Nat.odd_succ, <- Nat.negb_odd. destruct b.
  - cbn [odd_state fst snd]. rewrite E1. cbn [bind]. destruct (IH false _ res_big) as [r' [E H]]. exists r'. split; [|exact H].
    cbn [odd_state fst snd] in E. rewrite E. destruct (Nat.odd todo); reflexivity.
  - cbn [odd_state fst snd]. rewrite E0. cbn [bind]. destruct (IH true _ res_big) as [r' [E H]]. exists r'. split; [|exact H].
    cbn [odd_state fst snd] in E. rewrite E. destruct (Nat.odd todo); reflexivity.
Qed.
(** However many passes are allowed: UT is ones2 or ones2', whose elements below the diagonal are 1 and -1, and the warning is
    printed. *)
Theorem C110_doubles_refuted itermax : exists HM UT, QRH csqrt itermax ones2 = Ok (HM, UT, true) /\
  UT = if Nat.odd (itermax - 1) then ones2' else ones2.
Proof.
  unfold QRH, QRHessenberg. change (rows ones2) with 2.
  replace (@identity _ C6 2 (@o1 _ C6)) with (Ok id2) by (vm_compute; reflexivity).
  replace (@hessenberg _ _ C6 D6 (@cx_norm _ D6) cabs cconj cofr (SFsqrt prec64 emax64) eps52 ones2) with (Ok (id2, ones2)) by (vm_compute; reflexivity).
  cbn [bind]. destruct (ones_loop (itermax - 1) false (@o1 _ D6)) as [r' [E Hr]]; [vm_compute; reflexivity|].
  fold shift. cbn [odd_state fst snd] in E. rewrite E. cbn [xorb]. destruct (Nat.odd (itermax - 1)); cbn [odd_state bind]; rewrite Hr; eexists _, _; split; reflexivity.
Qed.
End Ones.
(** The same with 10000 passes at most, the constant ITERMAX of the code. *)
Example C110_doubles_ex csqrt : csqrt (re "4") = re "2" -> exists HM, QRH csqrt (100 * 100) ones2 = Ok (HM, ones2', true).
Proof. intros H. destruct (C110_doubles_refuted csqrt H (100 * 100)) as [HM [UT [E ->]]]. exists HM. exact E. Qed.
