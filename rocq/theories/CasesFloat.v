(** CasesFloat.v: concrete cases of the theorems on doubles: matrices with the elements a tenth, -1024 and a third, and
    one with small whole numbers.  As in Cases.v each proof discharges all hypotheses of the theorem. *)
From Coq Require Import ZArith QArith Qabs SpecFloat Lia List.
From Verif Require Import Base Mat Spec MatFacts ViewFacts2 Scalar Float MathM Util Linalg PropFloat PropFloat2 PropFloatIO PropFloatSum PropFloatCmp PropFloatDet PropFloatNorm Cases CasesIO.
Import ListNotations. Open Scope nat_scope.
Notation tol := tol16.
#[local] Instance dops : Ops double := fops tol16.
Definition fv (i : nat) : double := nth i [tenth; m1024; third] nan.
Definition w22 := mkM 2 2 [dz 2; dz 1; dz 1; dz 3].
Definition kz (i j : nat) : Z := nth (i * 2 + j) [2; 1; 1; 3]%Z 0%Z.
Definition wf22 (i j : nat) : double := dz (kz i j).
Lemma fv_is : is_vec [tenth; m1024; third] 3 fv. Proof. repeat split; try (vm_compute; reflexivity). intros [|[|[|i]]] Hi; try lia; reflexivity. Qed.
Lemma md_is : is_mat md 2 2 fd. Proof. small. Qed.
Lemma w22_is : is_mat w22 2 2 wf22. Proof. small. Qed.
Lemma wv_is : is_vec [dz 2; dz 1] 2 (wf22 0). Proof. repeat split; try (vm_compute; reflexivity). intros [|[|i]] Hi; try lia; reflexivity. Qed.
Lemma bad_is : is_mat (mkM 2 2 [dz 1; dz 2; dz 2; dz 4]) 2 2 (fun i j => nth (i * 2 + j) [dz 1; dz 2; dz 2; dz 4] nan). Proof. small. Qed.
Lemma nan_is : is_mat (mkM 1 2 [nan; nan]) 1 2 (fun _ _ => nan). Proof. small. Qed.
Lemma t12_is : is_mat (mkM 1 2 [tenth; third]) 1 2 (fun _ j => nth j [tenth; third] nan). Proof. small. Qed.
Lemma tol_pos : pos_tol tol16. Proof. eexists _, _. reflexivity. Qed.
Lemma tol_small : small_tol tol16. Proof. eexists _, _. split; [reflexivity|split; [reflexivity|vm_compute; discriminate]]. Qed.
Definition det_md : double := match determinant (mb_of_mat md) with Ok d => d | _ => nan end.
Lemma det_md_is : determinant (mb_of_mat md) = Ok det_md. Proof. vm_compute. reflexivity. Qed.
Ltac ent := intros; repeat match goal with i : nat |- _ => destruct i as [|[|[|i]]]; try lia end.
Ltac prop1 := (split; [reflexivity|exact I]).
Ltac side1 := first
  [ exact det_md_is | exact tol_pos | exact tol_small | exact tol_ok | exact (proj1 tol_6) | exact I | exact md_is | exact md_r | exact (is_mat_reads _ _ _ _ md_is) | exact w22_is | exact (is_mat_readsL _ _ _ _ w22_is) | exact (is_mat_reads _ _ _ _ w22_is)
  | exact (is_mat_readsL _ _ _ _ nan_is) | exact (is_mat_readsL _ _ _ _ t12_is) | exact (is_mat_readsL _ _ _ _ bad_is) | exact fv_is | exact wv_is
  | reflexivity | discriminate | (apply ft; cbn; lia) | (apply sh; cbn; lia) | (cbn; lia) | (vm_compute; discriminate) | (split; vm_compute; discriminate) | prop1
  | (ent; reflexivity) | (ent; exact I) | (ent; prop1) | (ent; split; [exact I|vm_compute; discriminate])
  | (ent; split; [prop1|eexists; split; [vm_compute; reflexivity|vm_compute; discriminate]])
  | (ent; split; ent; [reflexivity|split; [exact I|vm_compute; reflexivity]]) | (ent; split; [exact I|vm_compute; reflexivity])
  | (ent; split; [reflexivity|intros _; right; vm_compute; discriminate]) | (ent; vm_compute; discriminate)
  | (left; eexists; vm_compute; reflexivity) | (vm_compute; reflexivity) | (repeat constructor) ].
Lemma w22_r : readsL (mb_of_mat w22) 2 2 wf22. Proof. apply is_mat_readsL, w22_is. Qed.
Lemma kz_sum i j : i < 2 -> j < 2 -> (zsum 2 (fun t => Z.abs (kz i t * kz t j)) <= 2 ^ 53)%Z. Proof. ent; vm_compute; discriminate. Qed.
Lemma w_row i : i < 2 -> doubles 2 (wf22 i) /\ multiples 2 (wf22 i) (kz i) 0. Proof. ent; split; intros t Ht; destruct t as [|[|t]]; try lia; (reflexivity + (split; [exact I|vm_compute; reflexivity])). Qed.
Lemma w_col j : j < 2 -> doubles 2 (fun t => wf22 t j) /\ multiples 2 (fun t => wf22 t j) (fun t => kz t j) 0. Proof. ent; split; intros t Ht; destruct t as [|[|t]]; try lia; (reflexivity + (split; [exact I|vm_compute; reflexivity])). Qed.
Lemma w_whole : whole 2 wf22 3 0. Proof. intros i j Hi Hj. split; [|exists (kz i j)]; ent; (prop1 + (split; [vm_compute; reflexivity|vm_compute; discriminate])). Qed.
Ltac side := lazymatch goal with
  | |- readsL (mb_of_mat w22) _ _ _ => exact w22_r
  | |- reads (mb_of_mat w22) _ _ _ => exact (is_mat_reads _ _ _ _ w22_is)
  | |- whole _ _ _ _ => exact w_whole
  | |- forall i, _ -> doubles _ (wf22 i) /\ _ => exact w_row
  | |- forall i, _ -> doubles _ (fun _ => _) /\ _ => exact w_col
  | |- forall i j, _ -> _ -> (zsum _ _ <= _)%Z => exact kz_sum
  | |- _ => side1 end.
Ltac feed H := repeat lazymatch type of H with
  | ?P -> _ => let T := type of P in unify T Prop; let p := fresh in assert (p : P) by side; specialize (H p); clear p end.
Tactic Notation "meets" uconstr(t) := let H := fresh in epose proof t as H; feed H; exact H.
Example case_C84_reflexive : feq tol tenth tenth = true /\ fle tol tenth tenth = true /\ fge tol tenth tenth = true.
Proof. meets (C84_reflexive tol tenth). Qed.
Example case_C84_infinity : feq tol (inf true) (inf true) = false /\ feq tol (inf true) (inf (negb true)) = true /\ (forall x : double, is_finite x -> feq tol (inf true) x = true /\ feq tol x (inf true) = true) /\ fzero tol (inf true) = true.
Proof. meets (C84_infinity tol true). Qed.
Example case_C84_zero : fzero tol tenth = true <-> (exists s : bool, tenth = S754_zero s) \/ (exists s : bool, tenth = inf s).
Proof. meets (C84_zero tol tenth). Qed.
Example case_C84_equal_zero : feq tol tenth (S754_zero true) = fzero tol tenth /\ feq tol (S754_zero true) tenth = fzero tol tenth.
Proof. meets (C84_equal_zero tol tenth true). Qed.
Example case_C84_opposite_signs : feq tol (S754_finite true 4503599627370496 (-42)) (S754_finite false 7205759403792794 (-56)) = false /\ feq tol (S754_finite false 7205759403792794 (-56)) (S754_finite true 4503599627370496 (-42)) = false.
Proof. meets (C84_opposite_signs tol 4503599627370496 (-42) 7205759403792794 (-56)). Qed.
Example case_C84_matrix_reflexive : exists E : Matrix bool, m_eq (mb_of_mat md) (mb_of_mat md) = Ok E /\ is_mat E 2 2 (fun i j : nat => match fd i j with | S754_infinity _ | S754_nan => false | _ => true end).
Proof. meets (C84_matrix_reflexive tol (mb_of_mat md) 2 2 fd). Qed.
Example case_C85_all_close : exists b : bool, all_close (mb_of_mat md) (mb_of_mat w22) third = Ok b /\ (b = true <-> (forall i j : nat, i < 2 -> j < 2 -> comparable (fd i j) (wf22 i j) -> SFltb third (SFabs (SFsub prec64 emax64 (fd i j) (wf22 i j))) = false)).
Proof. meets (C85_all_close tol (mb_of_mat md) (mb_of_mat w22) 2 2 fd wf22 third). Qed.
Example case_C85_all_close_nan : all_close (mb_of_mat {| rows := 1; cols := 2; data := [nan; nan] |}) (mb_of_mat {| rows := 1; cols := 2; data := [tenth; third] |}) third = Ok true /\ all_close (mb_of_mat {| rows := 1; cols := 2; data := [tenth; third] |}) (mb_of_mat {| rows := 1; cols := 2; data := [nan; nan] |}) third = Ok true.
Proof. meets (C85_all_close_nan tol (mb_of_mat (mkM 1 2 [nan; nan])) (mb_of_mat (mkM 1 2 [tenth; third])) 1 2 _ third). Qed.
Example case_C85_min : (fv 0 = nan -> min_v [tenth; m1024; third] = Ok (nan, 0)) /\ (fv 0 <> nan -> exists pos : nat, min_v [tenth; m1024; third] = Ok (fv pos, pos) /\ first_least_number SFltb fv 3 pos).
Proof. meets (C85_min tol [tenth; m1024; third] 3 fv). Qed.
Example case_C85_max : (fv 0 = nan -> max_v [tenth; m1024; third] = Ok (nan, 0)) /\ (fv 0 <> nan -> exists pos : nat, max_v [tenth; m1024; third] = Ok (fv pos, pos) /\ first_least_number (fun x y : double => SFltb y x) fv 3 pos).
Proof. meets (C85_max tol [tenth; m1024; third] 3 fv). Qed.
Example case_C85_flatnonzero : exists ls : list nat, flatnonzero md = Ok ls /\ Sorted.StronglySorted lt ls /\ (forall k : nat, In k ls <-> k < 2 * 2 /\ (forall s : bool, fd (k / 2) (k mod 2) <> S754_zero s /\ fd (k / 2) (k mod 2) <> inf s)).
Proof. meets (C85_flatnonzero tol md 2 2 fd). Qed.
Example case_C85_total : (exists d : double, determinant (mb_of_mat md) = Ok d) /\ (exists m : Matrix double, adjoint (mb_of_mat md) = Ok m) /\ (exists m : Matrix double, inverse (mb_of_mat md) = Ok m) /\ (exists l u : Matrix double, lu_decomposition (mb_of_mat md) = Ok (l, u)).
Proof. meets (C85_total tol (mb_of_mat md) 2 fd). Qed.
Example case_C85_closed : exists (d : double) (adj : Matrix double) (g : nat -> nat -> double), determinant (mb_of_mat md) = Ok d /\ is_double d /\ adjoint (mb_of_mat md) = Ok adj /\ is_mat adj 2 2 g /\ (forall i j : nat, i < 2 -> j < 2 -> is_double (g i j)).
Proof. meets (C85_closed tol (mb_of_mat md) 2 fd). Qed.
Example case_C85_inverse : exists (d : double) (adj : Matrix double) (g : nat -> nat -> double), determinant (mb_of_mat md) = Ok d /\ adjoint (mb_of_mat md) = Ok adj /\ is_mat adj 2 2 g /\ match d with | S754_nan => exists m : Matrix double, inverse (mb_of_mat md) = Ok m /\ is_mat m 2 2 (fun _ _ : nat => nan) | S754_finite _ _ _ => exists m0 : Matrix double, inverse (mb_of_mat md) = Ok m0 /\ is_mat m0 2 2 (fun i j : nat => SFdiv prec64 emax64 (g i j) d) | _ => inverse (mb_of_mat md) = Ok mat_empty end.
Proof. meets (C85_inverse tol (mb_of_mat md) 2 fd). Qed.
Example case_C85_div : inverse (mb_of_mat {| rows := 2; cols := 2; data := [dz 1; dz 2; dz 2; dz 4] |}) = Ok mat_empty /\ div (mb_of_mat md) (mb_of_mat {| rows := 2; cols := 2; data := [dz 1; dz 2; dz 2; dz 4] |}) = Throw.
Proof. meets (C85_div tol (mb_of_mat md) (mb_of_mat (mkM 2 2 [dz 1; dz 2; dz 2; dz 4])) 2 _ (S754_zero false)). Qed.
Example case_C89_sum : doubles 3 fv -> exists s : double, sum [tenth; m1024; third] = Ok s /\ is_double s /\ (is_finite s -> finites 3 fv /\ (Qabs (dval s - qsum 3 (fun i : nat => dval (fv i))) <= (growth (3 - 1) - 1) * qsum 3 (fun i : nat => Qabs (dval (fv i))))%Q) /\ (finites 3 fv -> (growth (3 - 1) * qsum 3 (fun i : nat => Qabs (dval (fv i))) < limit)%Q -> is_finite s).
Proof. meets (C89_sum tol [tenth; m1024; third] 3 fv). Qed.
Example case_C89_trace : doubles 2 (fun i : nat => fd i i) -> exists s : double, trace (mb_of_mat md) = Ok s /\ is_double s /\ (is_finite s -> finites 2 (fun i : nat => fd i i) /\ (Qabs (dval s - qsum 2 (fun i : nat => dval (fd i i))) <= (growth (2 - 1) - 1) * qsum 2 (fun i : nat => Qabs (dval (fd i i))))%Q) /\ (finites 2 (fun i : nat => fd i i) -> (growth (2 - 1) * qsum 2 (fun i : nat => Qabs (dval (fd i i))) < limit)%Q -> is_finite s).
Proof. meets (C89_trace tol (mb_of_mat md) 2 2 fd). Qed.
Example case_C89_dot : doubles 3 fv -> doubles 3 fv -> exists s : double, dot [tenth; m1024; third] [tenth; m1024; third] = Ok s /\ dot_bounds 3 fv fv s.
Proof. meets (C89_dot tol [tenth; m1024; third] [tenth; m1024; third] 3 fv fv). Qed.
Example case_C89_matrix_vector : (forall i : nat, i < 2 -> doubles 2 (fd i)) -> doubles 2 (wf22 0) -> exists (d : list double) (s : nat -> double), m_mulv (mb_of_mat md) [dz 2; dz 1] = Ok d /\ is_vec d 2 s /\ (forall i : nat, i < 2 -> dot_bounds 2 (fd i) (wf22 0) (s i)).
Proof. meets (C89_matrix_vector tol (mb_of_mat md) 2 2 fd [dz 2; dz 1] (wf22 0)). Qed.
Example case_C89_product : (forall i : nat, i < 2 -> doubles 2 (fd i)) -> (forall j : nat, j < 2 -> doubles 2 (fun k : nat => wf22 k j)) -> exists (m : Matrix double) (s : nat -> nat -> double), m_mul (mb_of_mat md) (mb_of_mat w22) = Ok m /\ is_mat m 2 2 s /\ (forall i j : nat, i < 2 -> j < 2 -> dot_bounds 2 (fd i) (fun k : nat => wf22 k j) (s i j)).
Proof. meets (C89_product tol (mb_of_mat md) (mb_of_mat w22) 2 2 2 fd wf22). Qed.
Example case_C89_sum_exact : multiples 2 (wf22 0) (kz 0) 0 -> (-1074 <= 0 <= 970)%Z -> (zsum 2 (fun i : nat => Z.abs (kz 0 i)) <= 2 ^ 53)%Z -> exists s : double, sum [dz 2; dz 1] = Ok s /\ is_finite s /\ dval s == inject_Z (zsum 2 (kz 0)) * 2 ^ 0.
Proof. meets (C89_sum_exact tol [dz 2; dz 1] 2 (wf22 0) (kz 0) 0%Z). Qed.
Example case_C89_dot_exact : doubles 2 (wf22 0) -> doubles 2 (wf22 0) -> multiples 2 (wf22 0) (kz 0) 0 -> multiples 2 (wf22 0) (kz 0) 0 -> (-1074 <= 0 + 0 <= 970)%Z -> (zsum 2 (fun i : nat => Z.abs (kz 0 i * kz 0 i)) <= 2 ^ 53)%Z -> exists s : double, dot [dz 2; dz 1] [dz 2; dz 1] = Ok s /\ is_finite s /\ dval s == inject_Z (zsum 2 (fun i : nat => (kz 0 i * kz 0 i)%Z)) * 2 ^ (0 + 0).
Proof. meets (C89_dot_exact tol [dz 2; dz 1] [dz 2; dz 1] 2 (wf22 0) (wf22 0) (kz 0) (kz 0) 0%Z 0%Z). Qed.
Example case_C89_product_exact : exists (m : Matrix double) (s : nat -> nat -> double), m_mul (mb_of_mat w22) (mb_of_mat w22) = Ok m /\ is_mat m 2 2 s /\ (forall i j : nat, i < 2 -> j < 2 -> is_finite (s i j) /\ dval (s i j) == inject_Z (zsum 2 (fun t : nat => (kz i t * kz t j)%Z)) * 2 ^ (0 + 0)).
Proof. meets (C89_product_exact tol (mb_of_mat w22) (mb_of_mat w22) 2 2 2 wf22 wf22 kz kz 0%Z 0%Z). Qed.
Example case_C89_add : exists (m : Matrix double) (h : nat -> nat -> double), m_add (mb_of_mat md) (mb_of_mat w22) = Ok m /\ is_mat m 2 2 h /\ (forall i j : nat, i < 2 -> j < 2 -> is_double (fd i j) -> is_double (wf22 i j) -> is_finite (fd i j) -> is_finite (wf22 i j) -> correctly_rounded (dval (fd i j) + dval (wf22 i j)) (h i j) /\ rel_close (dval (fd i j) + dval (wf22 i j)) (h i j)).
Proof. meets (C89_add tol (mb_of_mat md) (mb_of_mat w22) 2 2 fd wf22). Qed.
Example case_C89_sub : exists (m : Matrix double) (h : nat -> nat -> double), m_sub (mb_of_mat md) (mb_of_mat w22) = Ok m /\ is_mat m 2 2 h /\ (forall i j : nat, i < 2 -> j < 2 -> is_double (fd i j) -> is_double (wf22 i j) -> is_finite (fd i j) -> is_finite (wf22 i j) -> correctly_rounded (dval (fd i j) - dval (wf22 i j)) (h i j) /\ rel_close (dval (fd i j) - dval (wf22 i j)) (h i j)).
Proof. meets (C89_sub tol (mb_of_mat md) (mb_of_mat w22) 2 2 fd wf22). Qed.
Example case_C89_scale : exists (m : Matrix double) (h : nat -> nat -> double), m_muls (mb_of_mat md) third = Ok m /\ is_mat m 2 2 h /\ (forall i j : nat, i < 2 -> j < 2 -> is_double (fd i j) -> is_finite (fd i j) -> correctly_rounded (dval (fd i j) * dval third) (h i j) /\ abs_close (dval (fd i j) * dval third) (h i j)).
Proof. meets (C89_scale tol (mb_of_mat md) 2 2 fd third). Qed.
Example case_C89_divide : exists (m : Matrix double) (h : nat -> nat -> double), m_divs (mb_of_mat md) third = Ok m /\ is_mat m 2 2 h /\ (forall i j : nat, i < 2 -> j < 2 -> is_double (fd i j) -> is_finite (fd i j) -> correctly_rounded (dval (fd i j) / dval third) (h i j) /\ abs_close (dval (fd i j) / dval third) (h i j)).
Proof. meets (C89_divide tol (mb_of_mat md) 2 2 fd third). Qed.
Example case_C92_min : vec_proper 3 fv -> exists pos : nat, min_v [tenth; m1024; third] = Ok (fv pos, pos) /\ pos < 3 /\ (forall k : nat, k < 3 -> (dval (fv pos) <= dval (fv k))%Q) /\ (forall k : nat, k < pos -> (dval (fv pos) < dval (fv k))%Q).
Proof. meets (C92_min tol [tenth; m1024; third] 3 fv). Qed.
Example case_C92_max : vec_proper 3 fv -> exists pos : nat, max_v [tenth; m1024; third] = Ok (fv pos, pos) /\ pos < 3 /\ (forall k : nat, k < 3 -> (dval (fv k) <= dval (fv pos))%Q) /\ (forall k : nat, k < pos -> (dval (fv k) < dval (fv pos))%Q).
Proof. meets (C92_max tol [tenth; m1024; third] 3 fv). Qed.
Example case_C92_matrix_min_max : all_proper 2 2 fd -> (exists (d : list double) (g : nat -> double), min_m md = Ok d /\ is_vec d 2 g /\ (forall j : nat, j < 2 -> (exists i : nat, i < 2 /\ g j = fd i j) /\ (forall k : nat, k < 2 -> (dval (g j) <= dval (fd k j))%Q))) /\ (exists (d : list double) (g : nat -> double), max_m md = Ok d /\ is_vec d 2 g /\ (forall j : nat, j < 2 -> (exists i : nat, i < 2 /\ g j = fd i j) /\ (forall k : nat, k < 2 -> (dval (fd k j) <= dval (g j))%Q))).
Proof. meets (C92_matrix_min_max tol md 2 2 fd). Qed.
Example case_C92_all_close : all_proper 2 2 fd -> all_proper 2 2 wf22 -> proper third -> exists b : bool, all_close (mb_of_mat md) (mb_of_mat w22) third = Ok b /\ ((forall i j : nat, i < 2 -> j < 2 -> (Qabs (dval (fd i j) - dval (wf22 i j)) <= dval third)%Q) -> b = true) /\ (b = true -> forall i j : nat, i < 2 -> j < 2 -> ((1 - unit) * Qabs (dval (fd i j) - dval (wf22 i j)) <= dval third)%Q).
Proof. meets (C92_all_close tol (mb_of_mat md) (mb_of_mat w22) 2 2 fd wf22 third). Qed.
Example case_C92_equal : all_proper 2 2 fd -> all_proper 2 2 wf22 -> proper tol -> (0 <= dval tol <= 1)%Q -> exists (m : Matrix bool) (g : nat -> nat -> bool), m_eq (mb_of_mat md) (mb_of_mat w22) = Ok m /\ is_mat m 2 2 g /\ (forall i j : nat, i < 2 -> j < 2 -> ((Qabs (dval (fd i j) - dval (wf22 i j)) <= dval tol * size (fd i j) (wf22 i j))%Q -> g i j = true) /\ (g i j = true -> ((1 - unit) * Qabs (dval (fd i j) - dval (wf22 i j)) <= (1 + unit) * (dval tol * size (fd i j) (wf22 i j)) + tiny)%Q)).
Proof. meets (C92_equal tol (mb_of_mat md) (mb_of_mat w22) 2 2 fd wf22). Qed.
Example case_C92_less_equal : ((dval tenth <= dval m1024)%Q -> fle tol tenth m1024 = true /\ fge tol m1024 tenth = true) /\ (fle tol tenth m1024 = true \/ fge tol m1024 tenth = true -> ((1 - unit) * (dval tenth - dval m1024) <= (1 + unit) * (dval tol * size tenth m1024) + tiny)%Q).
Proof. meets (C92_less_equal tol tenth m1024). Qed.
Example case_C101_determinant_exact : exists d : double, determinant (mb_of_mat w22) = Ok d /\ proper d /\ dval d == qdet 2 (values wf22).
Proof. meets (C101_determinant_exact tol (mb_of_mat w22) 2 wf22 3%Z 0%Z). Qed.
Example case_C101_adjoint_exact : exists (m : Matrix double) (h : nat -> nat -> double), adjoint (mb_of_mat w22) = Ok m /\ is_mat m 2 2 h /\ (forall i j : nat, i < 2 -> j < 2 -> proper (h i j) /\ dval (h i j) == qadj 2 (values wf22) i j).
Proof. meets (C101_adjoint_exact tol (mb_of_mat w22) 2 wf22 3%Z 0%Z). Qed.
Example case_C101_inverse_exact : (qdet 2 (values wf22) == 0 -> inverse (mb_of_mat w22) = Ok mat_empty) /\ (~ qdet 2 (values wf22) == 0 -> exists (m : Matrix double) (g : nat -> nat -> double), inverse (mb_of_mat w22) = Ok m /\ is_mat m 2 2 g /\ (exists h : nat -> nat -> Q, inverse_of 2 (values wf22) h /\ (forall i j : nat, i < 2 -> j < 2 -> correctly_rounded (h i j) (g i j)))).
Proof. meets (C101_inverse_exact tol tol_small (mb_of_mat w22) 2 wf22 3%Z 0%Z). Qed.
Example case_C101_determinant_error : no_underflow 2 fd -> exists d : double, determinant (mb_of_mat md) = Ok d /\ is_double d /\ (is_finite d -> (Qabs (dval d - qdet 2 (values fd)) <= (growth (fact 2 + 2 - 2) - 1) * qperm 2 (sizes fd))%Q).
Proof. meets (C101_determinant_error tol (mb_of_mat md) 2 fd). Qed.
Example case_C101_determinant_sign : no_underflow 2 fd -> determinant (mb_of_mat md) = Ok det_md -> is_finite det_md -> ((growth (fact 2 + 2 - 2) - 1) * qperm 2 (sizes fd) < Qabs (qdet 2 (values fd)))%Q -> ((0 < dval det_md)%Q <-> (0 < qdet 2 (values fd))%Q) /\ ((dval det_md < 0)%Q <-> (qdet 2 (values fd) < 0)%Q).
Proof. meets (C101_determinant_sign tol (mb_of_mat md) 2 fd det_md). Qed.
Example case_C101_determinant_finite : no_underflow 2 fd -> (1 <= 1024)%Q -> (forall i j : nat, i < 2 -> j < 2 -> is_finite (fd i j) /\ (Qabs (dval (fd i j)) <= 1024)%Q) -> (growth (fact 2 + 2 - 2) * (inject_Z (Z.of_nat (fact 2)) * 1024 ^ Z.of_nat 2) < limit)%Q -> exists d : double, determinant (mb_of_mat md) = Ok d /\ is_finite d.
Proof. meets (C101_determinant_finite tol (mb_of_mat md) 2 fd 1024%Q). Qed.
Example case_C102_square_root : is_double (dsqrt third) /\ (is_finite third -> (0 < dval third)%Q -> nearest_root (dval third) (dsqrt third) /\ (0 < dval (dsqrt third))%Q /\ root_error (dval third) (dsqrt third)) /\ (is_finite third -> (dval third < 0)%Q -> dsqrt third = nan) /\ (forall s : bool, third = S754_zero s -> dsqrt third = third) /\ (third = inf false -> dsqrt third = inf false) /\ (third = inf true -> dsqrt third = nan) /\ (third = nan -> dsqrt third = nan).
Proof. meets (C102_square_root third). Qed.
Example case_C102_square_root_exact : is_finite (dsqrt (dz 9)) /\ dval (dsqrt (dz 9)) == dval (dz 3).
Proof. meets (C102_square_root_exact (dz 9) (dz 3)). Qed.
Example case_C102_vector_norm : exists d : double, square_norm_v (dsq tol) dsqrt [tenth; m1024; third] = Ok d /\ norm_of [tenth; m1024; third] d.
Proof. meets (C102_vector_norm tol [tenth; m1024; third]). Qed.
Example case_C102_matrix_norm : exists d : double, square_norm_m (dsq tol) dsqrt (mb_of_mat md) = Ok d /\ norm_of (elems 2 (fun _ : nat => 2) fd) d.
Proof. meets (C102_matrix_norm tol (mb_of_mat md) 2 2 fd). Qed.
Example case_C102_column_length : exists d : double, vector_length (dsq tol) dsqrt (mb_of_mat md) 1 0 2 = Ok d /\ norm_of (map (fun i : nat => fd i 1) (seq 0 (Nat.min 2 2 - 0))) d.
Proof. meets (C102_column_length tol (mb_of_mat md) 2 2 fd 1 0 2). Qed.
Example case_C102_sub_norm : (2 * 2 = 0 -> sub_norm (dsq tol) dsqrt (mb_of_mat md) = Ok (S754_zero false)) /\ (2 * 2 <> 0 -> 2 <> 2 -> sub_norm (dsq tol) dsqrt (mb_of_mat md) = Throw) /\ (2 * 2 <> 0 -> 2 = 2 -> exists d : double, sub_norm (dsq tol) dsqrt (mb_of_mat md) = Ok d /\ norm_of (elems 2 (fun i : nat => i) fd) d).
Proof. meets (C102_sub_norm tol md 2 2 fd). Qed.
Example case_C102_infinity_norm_vector : exists x : double, infinity_norm_v SFabs [tenth; m1024; third] = Ok x /\ proper x /\ (forall i : nat, i < 3 -> (Qabs (dval (fv i)) <= dval x)%Q) /\ (0 < 3 -> exists i : nat, i < 3 /\ dval x == Qabs (dval (fv i))) /\ (3 = 0 -> dval x == 0).
Proof. meets (C102_infinity_norm_vector tol [tenth; m1024; third] 3 fv). Qed.
