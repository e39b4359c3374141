(** PropQRFloat.v: C96 for doubles: a column of zeros (a rank the code does not expect)
    fills Q and R with NaN. *)
From Coq Require Import SpecFloat ZArith.
From Verif Require Import Float PropFloat QR.
Import ListNotations.
(** [std::copysign]. *)
Definition dneg (y : double) : bool := match y with S754_zero s | S754_infinity s | S754_finite s _ _ => s | S754_nan => false end.
Definition dcopysign (x y : double) : double := match x with S754_zero _ => S754_zero (dneg y) | S754_infinity _ => S754_infinity (dneg y) | S754_finite _ m e => S754_finite (dneg y) m e | S754_nan => S754_nan end.
Theorem C96_zero_column_refuted : exists q r,
  qr_decomposition (O := fops tol6) (SFsqrt prec64 emax64) dcopysign (mkM 2 2 [S754_zero false; one; S754_zero false; one]) = Ok (q, r) /\
  data q = [nan; nan; nan; nan] /\ data r = [nan; nan; S754_zero false; nan].
Proof. eexists. eexists. split; [lazy; reflexivity|]. split; reflexivity. Qed.
