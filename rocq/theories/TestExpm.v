(** TestExpm.v: tests/test_linalg.cpp:6-94, run in the model (see TestSuite.v).  Its main ignores the
    result.  Two of its five matrices; the others pass in the same way but take the checker long. *)
From Coq Require Import ZArith Bool SpecFloat List String.
From Verif Require Import Scalar Linalg Control Ints Float FloatIO IO FloatLoop PropFloat PropIntInvEx TestSuite.
Import ListNotations.
Local Open Scope nat_scope.

Definition te_a := dmat
  [["-15.5458944"; "-97.1885676"; "-2.25545699"; "70.1863391"; "-35.2873173"];
   ["66.4465788"; "43.8484354"; "12.583171"; "-79.0772638"; "95.624119"];
   ["99.8136885"; "59.3016462"; "84.9035347"; "-23.2639528"; "-50.9771463"];
   ["91.4942282"; "-22.5984618"; "17.8706132"; "44.7630693"; "-9.99790168"];
   ["39.0343824"; "-19.6871119"; "98.6161879"; "-60.2191987"; "98.6344944"]]%string.
Definition te_d := dmat
  [["65.1809585"; "-42.8504736"; "68.1575291"; "-25.2619994"; "-71.1127418"];
   ["-79.749854"; "-63.0507856"; "58.6389908"; "27.6389739"; "-5.2120999"];
   ["-0.49745321"; "60.8086088"; "-53.7952418"; "-54.9404498"; "62.5375388"];
   ["55.0985219"; "-14.0161005"; "96.1509587"; "-17.6416804"; "54.0363257"];
   ["64.5736433"; "6.62711579"; "12.3644458"; "-68.3727389"; "2.99360322"]]%string.
Definition te_ref_a := dmat
  [["-6.8641161e+38"; "-5.28956323e+38"; "-1.17870565e+39"; "8.60190225e+38"; "-1.64630967e+37"];
   ["1.99255725e+38"; "7.7264104e+37"; "4.6416759e+37"; "8.30193829e+37"; "-3.95544728e+38"];
   ["-6.20626954e+38"; "-5.01862772e+38"; "-1.20254272e+39"; "9.16562108e+38"; "-1.98642391e+38"];
   ["-9.92990851e+38"; "-8.77721929e+38"; "-2.10767045e+39"; "1.70844095e+39"; "-5.69710177e+38"];
   ["-3.66179457e+38"; "-4.0415798e+38"; "-1.13267554e+39"; "1.01542957e+39"; "-6.89858307e+38"]]%string.
Definition te_ref_d := dmat
  [["-536745180"; "-150592812"; "-858208588"; "-108725257"; "823064724"];
   ["1.72332308e+09"; "-111399009"; "1.5766801e+09"; "264337160"; "-2.04796303e+09"];
   ["1.13733153e+09"; "-63466680.6"; "1.06047066e+09"; "175884570"; "-1.36163042e+09"];
   ["-74309435.1"; "-111544364"; "-298521411"; "-27972724.2"; "204606147"];
   ["-759985590"; "86666024.2"; "-620935752"; "-111225953"; "865629943"]]%string.
Definition exponential (a r : Res (Matrix double)) : Res bool :=
  let* a := a in let* r := r in let* e := @expm _ D6 (SFsqrt prec64 emax64) half 1100 (mb_of_mat a) (lit "1e-05") in all_eq D6 (mb_of_mat e) (mb_of_mat r).
Definition test_expm : Res Z := checks [exponential te_a te_ref_a; exponential te_d te_ref_d].
Example test_expm_passes : test_expm = Ok 0%Z.
Proof. vm_compute. reflexivity. Qed.
