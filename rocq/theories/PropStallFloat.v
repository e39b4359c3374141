(** PropStallFloat.v: eigen::QRHessenberg of complex doubles that never gets anywhere (C108), with the repairs of Eigen.v.
    Complex doubles are computed by the formulas of Complex.v, bit by bit. *)
From Coq Require Import ZArith Bool SpecFloat List String.
From Verif Require Import Scalar Linalg Float Complex Eigen FloatIO FloatLoop PropFloat PropIntInvEx TestSuite.
Import ListNotations.
Local Open Scope nat_scope.

(** std::numeric_limits<double>::epsilon(), 2^-52, and TOLERANCE (eigen.hpp:146). *)
Definition eps52 : double := S754_finite false 4503599627370496 (-104).
Definition tol14 : double := lit "1e-14".
Definition cconj (z : cplx double) : cplx double := Cx (cre z) (SFopp (cim z)).
Definition cofr (x : double) : cplx double := Cx x (S754_zero false).
(** QRHessenberg<double> with std::sqrt on complex numbers as a parameter and any number of passes (10000 in the code). *)
Definition QRH (csqrt : cplx double -> cplx double) (itermax : nat) (A : Matrix (cplx double)) :=
  @QRHessenberg _ _ C6 D6 (@cx_norm _ D6) cabs cconj cofr (SFsqrt prec64 emax64) eps52 (@wilkinson_shift _ D6 csqrt) tol14 itermax A.

Definition re (s : string) : cplx double := Cx (lit s) (S754_zero false).
(** Rows (2, 0, 1), (1, 2, 0), (0, 1, 2). *)
Definition cyc3 : Matrix (cplx double) := mkM 3 3 [re "2"; re "0"; re "1"; re "1"; re "2"; re "0"; re "0"; re "1"; re "2"].
(** Rows (2, 0, 1), (-1, 2, 0), (0, -1, 2). *)
Definition cyc3' : Matrix (cplx double) := mkM 3 3 [re "2"; re "0"; re "1"; re "-1"; re "2"; re "0"; re "0"; re "-1"; re "2"].
Definition id3 : Matrix (cplx double) := mkM 3 3 [re "1"; re "0"; re "0"; re "0"; re "1"; re "0"; re "0"; re "0"; re "1"].
(** The three values of HM. *)
Definition hm0 : Matrix (cplx double) := mkM 3 3 [re "1"; re "0"; re "0"; re "0"; re "-1"; re "0"; re "0"; re "0"; re "1"].
Definition hm1 : Matrix (cplx double) := mkM 3 3 [re "0"; re "0"; re "1"; re "1"; re "0"; re "0"; re "0"; re "-1"; re "0"].
Definition hm2 : Matrix (cplx double) := mkM 3 3 [re "0"; re "-1"; re "0"; re "0"; re "0"; re "1"; re "1"; re "0"; re "0"].

Section Stall.
Variable csqrt : cplx double -> cplx double.
Hypothesis csqrt0 : csqrt (re "0") = re "0".
Let shift := @wilkinson_shift _ D6 csqrt.
Lemma shift_cyc : shift cyc3' = Ok (re "2").
Proof.
  unfold shift, wilkinson_shift. replace (0 <? sub64 (rows cyc3') 1) with true by (vm_compute; reflexivity). cbv zeta.
  replace (mat_at cyc3' (sub64 (sub64 (rows cyc3') 1) 1) (sub64 (sub64 (rows cyc3') 1) 1)) with (Ok (re "2")) by (vm_compute; reflexivity).
  replace (mat_at cyc3' (sub64 (sub64 (rows cyc3') 1) 1) (sub64 (rows cyc3') 1)) with (Ok (re "0")) by (vm_compute; reflexivity).
  replace (mat_at cyc3' (sub64 (rows cyc3') 1) (sub64 (sub64 (rows cyc3') 1) 1)) with (Ok (re "-1")) by (vm_compute; reflexivity).
  replace (mat_at cyc3' (sub64 (rows cyc3') 1) (sub64 (rows cyc3') 1)) with (Ok (re "2")) by (vm_compute; reflexivity).
  cbn [bind]. match goal with |- context [csqrt ?e] => replace e with (re "0") by (vm_compute; reflexivity) end. rewrite csqrt0.
  vm_compute. reflexivity.
Qed.
Let step := @schur_step _ _ C6 D6 (@cx_norm _ D6) cabs cconj cofr (SFsqrt prec64 emax64) eps52 shift.
Definition next (h : Matrix (cplx double)) : Matrix (cplx double) -> Prop := fun h' => step id3 h cyc3' = Ok (h', cyc3', SFsqrt prec64 emax64 (lit "2")).
Lemma step0 : next hm0 hm1.
Proof. unfold next, step, schur_step. rewrite shift_cyc. vm_compute. reflexivity. Qed.
Lemma step1 : next hm1 hm2.
Proof. unfold next, step, schur_step. rewrite shift_cyc. vm_compute. reflexivity. Qed.
Lemma step2 : next hm2 hm0.
Proof. unfold next, step, schur_step. rewrite shift_cyc. vm_compute. reflexivity. Qed.
Lemma loop todo : forall h r, In h [hm0; hm1; hm2] -> @olt _ D6 tol14 r = true ->
  exists h' r', @schur_loop _ _ C6 D6 (@cx_norm _ D6) cabs cconj cofr (SFsqrt prec64 emax64) eps52 shift tol14 todo id3 h cyc3' r = Ok (h', cyc3', r') /\ @olt _ D6 tol14 r' = true.
Proof.
  induction todo as [|todo IH]; intros h r Hh Hr; cbn [schur_loop]; [exists h, r; split; [reflexivity|exact Hr]|].
  assert (E : exists h', next h h' /\ In h' [hm0; hm1; hm2]).
  { destruct Hh as [<-|[<-|[<-|[]]]];
    [exists hm1; split; [exact step0|right; left; reflexivity]|exists hm2; split; [exact step1|right; right; left; reflexivity]|exists hm0; split; [exact step2|left; reflexivity]]. }
  destruct E as [h' [E Hh']]. rewrite Hr. unfold next, step in E. rewrite E. cbn [bind]. apply IH; [exact Hh'|vm_compute; reflexivity].
Qed.
(** However many passes are allowed: UT is still Hessenberg with -1 just below the diagonal, and the warning is printed. *)
Theorem C108_doubles_refuted itermax : exists HM, QRH csqrt itermax cyc3 = Ok (HM, cyc3', true).
Proof.
  unfold QRH, QRHessenberg. change (rows cyc3) with 3.
  replace (@identity _ C6 3 (@o1 _ C6)) with (Ok id3) by (vm_compute; reflexivity).
  replace (@hessenberg _ _ C6 D6 (@cx_norm _ D6) cabs cconj cofr (SFsqrt prec64 emax64) eps52 cyc3) with (Ok (hm0, cyc3')) by (vm_compute; reflexivity).
  cbn [bind]. destruct (loop (itermax - 1) hm0 (@o1 _ D6)) as [h' [r' [E Hr]]]; [left; reflexivity|vm_compute; reflexivity|].
  fold shift. rewrite E. cbn [bind]. rewrite Hr. exists h'. reflexivity.
Qed.
End Stall.
(** The same with 10000 passes, the constant ITERMAX of the code. *)
Example C108_ex csqrt : csqrt (re "0") = re "0" -> exists HM, QRH csqrt (100 * 100) cyc3 = Ok (HM, cyc3', true).
Proof. intros H. exact (C108_doubles_refuted csqrt H (100 * 100)). Qed.
