(** CasesMixed.v: concrete cases of the theorems on operands of different element types (C81): naturals (size_t) on the
    left, integers on the right, integer arithmetic.  As in Cases.v each proof discharges all hypotheses of the theorem. *)
From Coq Require Import ZArith Lia List.
From Verif Require Import Base Mat Spec MatFacts ViewFacts2 Scalar Mixed PropMixed Cases.
Import ListNotations. Open Scope nat_scope.
Definition h22 (i j : nat) : nat := nth (i * 2 + j) [7; 0; 2; 1] 0.
Definition u22 := mkM 2 2 [7; 0; 2; 1].
Definition gv (i : nat) : nat := nth i [3; 8] 0.
Definition zv (i : nat) : Z := nth i [4; 7]%Z 0%Z.
Definition c1 : nat -> Z := Z.of_nat. Definition c2 : Z -> Z := fun z => z. Definition b1 : Z -> nat := Z.to_nat.
Definition right_col := PView (mkRange 0 2) (mkRange 1 2) Root.
Lemma u22_is : is_mat u22 2 2 h22. Proof. small. Qed.
Lemma u22_r : readsL (mb_of_mat u22) 2 2 h22. Proof. apply is_mat_readsL, u22_is. Qed.
Lemma m1_r : readsL (mb_of_mat (mkM 2 1 [5; -6]%Z)) 2 1 (fun i _ => nth i [5; -6]%Z 0%Z). Proof. apply is_mat_readsL. small. Qed.
Lemma m11_r : reads (mb_of_mat (mkM 1 1 [5]%Z)) 1 1 (fun _ _ => 5%Z). Proof. apply is_mat_reads. small. Qed.
Lemma gv_is : is_vec [3; 8] 2 gv. Proof. repeat split; try (vm_compute; reflexivity). intros [|[|i]] Hi; try lia; reflexivity. Qed.
Ltac side := first
  [ exact u22_is | exact u22_r | exact (is_mat_reads _ _ _ _ u22_is) | exact m22_r | exact (is_mat_reads _ _ _ _ m22_is) | exact (is_mat_readsL _ _ _ _ m22_is) | exact m1_r | exact m11_r | exact gv_is | exact v2_is
  | reflexivity | (apply ft; cbn; lia) | (apply sh; cbn; lia) | (cbn; lia) | (cbn; discriminate) | (left; cbn; discriminate) | (right; cbn; discriminate)
  | (vm_compute; reflexivity) ].
Ltac feed H := repeat lazymatch type of H with
  | ?P -> _ => let T := type of P in unify T Prop; let p := fresh in assert (p : P) by side; specialize (H p); clear p end.
Tactic Notation "meets" uconstr(t) := let H := fresh in epose proof t as H; feed H; exact H.
Example case_C81_convert_matrix : exists m : Matrix Z, mat_conv c1 (mb_of_mat u22) = Ok m /\ is_mat m 2 2 (fun i j : nat => c1 (h22 i j)).
Proof. meets (C81_convert_matrix c1 (mb_of_mat u22) 2 2 h22). Qed.
Example case_C81_assign_matrix : exists m' : Matrix Z, mat_assign_conv c1 (mb_of_mat u22) m23 = Ok m' /\ is_mat m' 2 2 (fun i j : nat => c1 (h22 i j)).
Proof. meets (C81_assign_matrix c1 (mb_of_mat u22) 2 2 h22 m23). Qed.
Example case_C81_convert_vector : exists d : list Z, vec_conv c1 [3; 8] = Ok d /\ is_vec d 2 (fun i : nat => c1 (gv i)).
Proof. meets (C81_convert_vector c1 [3; 8] 2 gv). Qed.
Example case_C81_assign_vector : exists d : list Z, vec_assign_conv c1 [3; 8] [1%Z; 1%Z; 1%Z] = Ok d /\ is_vec d 2 (fun i : nat => c1 (gv i)).
Proof. meets (C81_assign_vector c1 [3; 8] 2 gv [1; 1; 1]%Z). Qed.
Example case_C81_sub : exists m : Matrix Z, mix_sub c1 c2 (mb_of_mat u22) (mb_of_mat m22) = Ok m /\ is_mat m 2 2 (fun i j : nat => osub (c1 (h22 i j)) (c2 (f22 i j))).
Proof. meets (C81_sub c1 c2 (mb_of_mat u22) (mb_of_mat m22) 2 2 h22 f22). Qed.
Example case_C81_product : exists m : Matrix Z, mix_mul c1 c2 (mb_of_mat u22) (mb_of_mat m22) = Ok m /\ is_mat m 2 2 (mprod 2 (fun i j : nat => c1 (h22 i j)) (fun i j : nat => c2 (f22 i j))).
Proof. meets (C81_product c1 c2 (mb_of_mat u22) (mb_of_mat m22) 2 2 2 h22 f22). Qed.
Example case_C81_dot : mix_dot c1 c2 [3; 8] [4%Z; 7%Z] = Ok (osum 2 (fun i : nat => omul (c1 (gv i)) (c2 (zv i)))).
Proof. meets (C81_dot c1 c2 [3; 8] [4; 7]%Z 2 gv zv). Qed.
Example case_C81_matvec : exists d : list Z, mix_mulv c1 c2 (mb_of_mat u22) [4%Z; 7%Z] = Ok d /\ is_vec d 2 (fun i : nat => osum 2 (fun q : nat => omul (c1 (h22 i q)) (c2 (zv q)))).
Proof. meets (C81_matvec c1 c2 (mb_of_mat u22) 2 2 h22 [4; 7]%Z zv). Qed.
Example case_C81_vectors : (exists d : list Z, mix_vadd c1 c2 [3; 8] [4%Z; 7%Z] = Ok d /\ is_vec d 2 (fun i : nat => oadd (c1 (gv i)) (c2 (zv i)))) /\ (exists d : list Z, mix_vsub c1 c2 [3; 8] [4%Z; 7%Z] = Ok d /\ is_vec d 2 (fun i : nat => osub (c1 (gv i)) (c2 (zv i)))) /\ (exists d : list Z, mix_vmul c1 c2 [3; 8] [4%Z; 7%Z] = Ok d /\ is_vec d 2 (fun i : nat => omul (c1 (gv i)) (c2 (zv i)))).
Proof. meets (C81_vectors c1 c2 [3; 8] [4; 7]%Z 2 gv zv). Qed.
Example case_C81_compare : (exists m : Matrix bool, mix_lt c1 c2 (mb_of_mat u22) (mb_of_mat m22) = Ok m /\ is_mat m 2 2 (fun i j : nat => olt (c1 (h22 i j)) (c2 (f22 i j)))) /\ (exists m : Matrix bool, mix_gt c1 c2 (mb_of_mat u22) (mb_of_mat m22) = Ok m /\ is_mat m 2 2 (fun i j : nat => olt (c2 (f22 i j)) (c1 (h22 i j)))) /\ (exists m : Matrix bool, mix_le c1 c2 (mb_of_mat u22) (mb_of_mat m22) = Ok m /\ is_mat m 2 2 (fun i j : nat => ole (c1 (h22 i j)) (c2 (f22 i j)))) /\ (exists m : Matrix bool, mix_ge c1 c2 (mb_of_mat u22) (mb_of_mat m22) = Ok m /\ is_mat m 2 2 (fun i j : nat => ole (c2 (f22 i j)) (c1 (h22 i j)))) /\ (exists m : Matrix bool, mix_eq c1 c2 (mb_of_mat u22) (mb_of_mat m22) = Ok m /\ is_mat m 2 2 (fun i j : nat => ofeq (c1 (h22 i j)) (c2 (f22 i j)))) /\ (exists m : Matrix bool, mix_ne c1 c2 (mb_of_mat u22) (mb_of_mat m22) = Ok m /\ is_mat m 2 2 (fun i j : nat => negb (ofeq (c1 (h22 i j)) (c2 (f22 i j))))).
Proof. meets (C81_compare c1 c2 (mb_of_mat u22) (mb_of_mat m22) 2 2 h22 f22). Qed.
Example case_C81_compare_scalar : (exists m : Matrix bool, mix_lts c1 c2 (mb_of_mat u22) (-2)%Z = Ok m /\ is_mat m 2 2 (fun i j : nat => olt (c1 (h22 i j)) (c2 (-2)))) /\ (exists m : Matrix bool, mix_les c1 c2 (mb_of_mat u22) (-2)%Z = Ok m /\ is_mat m 2 2 (fun i j : nat => ole (c1 (h22 i j)) (c2 (-2)))) /\ (exists m : Matrix bool, mix_gts c1 c2 (mb_of_mat u22) (-2)%Z = Ok m /\ is_mat m 2 2 (fun i j : nat => olt (c2 (-2)) (c1 (h22 i j)))) /\ (exists m : Matrix bool, mix_ges c1 c2 (mb_of_mat u22) (-2)%Z = Ok m /\ is_mat m 2 2 (fun i j : nat => ole (c2 (-2)) (c1 (h22 i j)))).
Proof. meets (C81_compare_scalar c1 c2 (mb_of_mat u22) 2 2 h22 (-2)%Z). Qed.
Example case_C81_compare_shapes : mix_lt c1 c2 (mb_of_mat u22) (mb_of_mat m23) = Throw /\ mix_gt c1 c2 (mb_of_mat u22) (mb_of_mat m23) = Throw /\ mix_le c1 c2 (mb_of_mat u22) (mb_of_mat m23) = Throw /\ mix_ge c1 c2 (mb_of_mat u22) (mb_of_mat m23) = Throw /\ mix_eq c1 c2 (mb_of_mat u22) (mb_of_mat m23) = Throw /\ mix_ne c1 c2 (mb_of_mat u22) (mb_of_mat m23) = Throw.
Proof. meets (C81_compare_shapes c1 c2 (mb_of_mat u22) (mb_of_mat m23)). Qed.
Example case_C81_scalar : (exists m : Matrix Z, mix_adds c1 c2 (mb_of_mat u22) (-2)%Z = Ok m /\ is_mat m 2 2 (fun i j : nat => oadd (c1 (h22 i j)) (c2 (-2)))) /\ (exists m : Matrix Z, mix_subs c1 c2 (mb_of_mat u22) (-2)%Z = Ok m /\ is_mat m 2 2 (fun i j : nat => osub (c1 (h22 i j)) (c2 (-2)))) /\ (exists m : Matrix Z, mix_muls c1 c2 (mb_of_mat u22) (-2)%Z = Ok m /\ is_mat m 2 2 (fun i j : nat => omul (c1 (h22 i j)) (c2 (-2)))) /\ (forall quo : Z -> Z, (forall x : Z, odiv x (c2 (-2)) = Ok (quo x)) -> exists m : Matrix Z, mix_divs c1 c2 (mb_of_mat u22) (-2)%Z = Ok m /\ is_mat m 2 2 (fun i j : nat => quo (c1 (h22 i j)))).
Proof. meets (C81_scalar c1 c2 (mb_of_mat u22) 2 2 h22 (-2)%Z). Qed.
Example case_C81_shapes : mix_add c1 c2 (mb_of_mat u22) (mb_of_mat m23) = Throw /\ mix_sub c1 c2 (mb_of_mat u22) (mb_of_mat m23) = Throw /\ mix_ew_product c1 b1 (mb_of_mat u22) (mb_of_mat m23) = Throw /\ (forall a b : Z, mix_linear_combination c1 b1 (mb_of_mat u22) a (mb_of_mat m23) b = Throw).
Proof. meets (C81_shapes c1 c2 b1 (mb_of_mat u22) (mb_of_mat m23)). Qed.
Example case_C81_product_shapes : mix_mul c1 c2 (mb_of_mat u22) (mb_of_mat m32) = Throw.
Proof. meets (C81_product_shapes c1 c2 (mb_of_mat u22) (mb_of_mat m32)). Qed.
Example case_C81_inplace_add : exists m' : Matrix nat, mix_iadd c1 c2 b1 right_col (mb_of_mat {| rows := 2; cols := 1; data := [5%Z; (-6)%Z] |}) u22 = Ok m' /\ vstate right_col 2 2 2 1 h22 (fun i j : nat => b1 (oadd (c1 (vsel right_col h22 i j)) (c2 (nth i [5%Z; (-6)%Z] 0%Z)))) m'.
Proof. meets (C81_inplace_add c1 c2 b1 u22 2 2 h22 right_col 2 1 (mb_of_mat (mkM 2 1 [5; -6]%Z)) (fun i _ => nth i [5; -6]%Z 0%Z)). Qed.
Example case_C81_inplace_sub : exists m' : Matrix nat, mix_isub c1 c2 b1 right_col (mb_of_mat {| rows := 2; cols := 1; data := [5%Z; (-6)%Z] |}) u22 = Ok m' /\ vstate right_col 2 2 2 1 h22 (fun i j : nat => b1 (osub (c1 (vsel right_col h22 i j)) (c2 (nth i [5%Z; (-6)%Z] 0%Z)))) m'.
Proof. meets (C81_inplace_sub c1 c2 b1 u22 2 2 h22 right_col 2 1 (mb_of_mat (mkM 2 1 [5; -6]%Z)) (fun i _ => nth i [5; -6]%Z 0%Z)). Qed.
Example case_C81_inplace_scale : (exists m' : Matrix nat, mix_imuls c1 c2 b1 right_col 3%Z u22 = Ok m' /\ vstate right_col 2 2 2 1 h22 (fun i j : nat => b1 (omul (c1 (vsel right_col h22 i j)) (c2 3))) m') /\ (forall quo : Z -> Z, (forall x : Z, odiv x (c2 3) = Ok (quo x)) -> exists m' : Matrix nat, mix_idivs c1 c2 b1 right_col 3%Z u22 = Ok m' /\ vstate right_col 2 2 2 1 h22 (fun i j : nat => b1 (quo (c1 (vsel right_col h22 i j)))) m').
Proof. meets (C81_inplace_scale c1 c2 b1 u22 2 2 h22 right_col 2 1 3%Z). Qed.
Example case_C81_inplace_product : exists m' : Matrix nat, mix_imul c1 c2 b1 right_col (mb_of_mat {| rows := 1; cols := 1; data := [5%Z] |}) u22 = Ok m' /\ vstate right_col 2 2 2 1 h22 (fun i j : nat => b1 (mprod 1 (fun i0 j0 : nat => c1 (vsel right_col h22 i0 j0)) (fun _ _ : nat => c2 5) i j)) m'.
Proof. meets (C81_inplace_product c1 c2 b1 u22 2 2 h22 right_col 2 1 (mb_of_mat (mkM 1 1 [5]%Z)) (fun _ _ => 5%Z)). Qed.
Example case_C81_inplace_vectors : (exists d : list nat, mix_viadd c1 c2 b1 [4%Z; 7%Z] [3; 8] = Ok d /\ is_vec d 2 (fun i : nat => b1 (oadd (c1 (gv i)) (c2 (zv i))))) /\ (exists d : list nat, mix_visub c1 c2 b1 [4%Z; 7%Z] [3; 8] = Ok d /\ is_vec d 2 (fun i : nat => b1 (osub (c1 (gv i)) (c2 (zv i))))).
Proof. meets (C81_inplace_vectors c1 c2 b1 [3; 8] [4; 7]%Z 2 gv zv). Qed.
Example case_C81_vector_sizes : mix_vadd c1 c2 [3; 8] [4%Z; 7%Z; 1%Z] = Throw /\ mix_vsub c1 c2 [3; 8] [4%Z; 7%Z; 1%Z] = Throw /\ mix_vmul c1 c2 [3; 8] [4%Z; 7%Z; 1%Z] = Throw /\ mix_viadd c1 c2 b1 [4%Z; 7%Z; 1%Z] [3; 8] = Throw /\ mix_visub c1 c2 b1 [4%Z; 7%Z; 1%Z] [3; 8] = Throw.
Proof. meets (C81_vector_sizes c1 c2 b1 [3; 8] [4; 7; 1]%Z). Qed.
Example case_C81_element_wise_product : exists m : Matrix Z, mix_ew_product c1 b1 (mb_of_mat u22) (mb_of_mat m22) = Ok m /\ is_mat m 2 2 (fun i j : nat => c1 (omul (h22 i j) (b1 (f22 i j)))).
Proof. meets (C81_element_wise_product c1 b1 (mb_of_mat u22) (mb_of_mat m22) 2 2 h22 f22). Qed.
Example case_C81_linear_combination : exists m : Matrix Z, mix_linear_combination c1 b1 (mb_of_mat u22) 2%Z (mb_of_mat m22) (-1)%Z = Ok m /\ is_mat m 2 2 (fun i j : nat => oadd (omul (c1 (h22 i j)) 2%Z) (omul (c1 (b1 (f22 i j))) (-1)%Z)).
Proof. meets (C81_linear_combination c1 b1 (mb_of_mat u22) 2%Z (mb_of_mat m22) (-1)%Z 2 2 h22 f22). Qed.
