(** Cases.v: concrete cases of the theorems that hold for any element type. Each example is a theorem applied to
    small matrices and Vectors of integers: its proof discharges all hypotheses of that theorem for them
    (is_mat, readsL, sizes, index bounds, ...), its statement is what the theorem then says about them. *)
From Verif Require Import ViewFacts2 UtilFacts2 MathM Linalg Iter Scalar PropMatrix PropMatrix2 PropMatrix3 PropUtil PropUtil2 PropMath PropColumns PropMisc PropMixed PropIter PropDims PropTotal PropLinalg PropStateObj PropRepaired.
From Coq Require Import ZifyBool.
Definition f22 (i j : nat) : Z := nth (i * 2 + j) [1; 2; 3; 5]%Z 0%Z.
Definition g22 (i j : nat) : Z := nth (i * 2 + j) [0; -4; 6; 7]%Z 0%Z.
Definition f23 (i j : nat) : Z := nth (i * 3 + j) [9; 8; 7; 1; 2; 3]%Z 0%Z.
Definition f32 (i j : nat) : Z := nth (i * 2 + j) [9; 8; 7; 1; 2; 3]%Z 0%Z.
Definition m22 := mkM 2 2 [1; 2; 3; 5]%Z. Definition n22 := mkM 2 2 [0; -4; 6; 7]%Z.
Definition m23 := mkM 2 3 [9; 8; 7; 1; 2; 3]%Z. Definition m32 := mkM 3 2 [9; 8; 7; 1; 2; 3]%Z.
Ltac small := repeat split; try (vm_compute; reflexivity); intros [|[|[|i]]] [|[|[|j]]] Hi Hj; try lia; try reflexivity.
Lemma m22_is : is_mat m22 2 2 f22. Proof. small. Qed.
Lemma n22_is : is_mat n22 2 2 g22. Proof. small. Qed.
Lemma m23_is : is_mat m23 2 3 f23. Proof. small. Qed.
Lemma m32_is : is_mat m32 3 2 f32. Proof. small. Qed.
Lemma m22_r : readsL (mb_of_mat m22) 2 2 f22. Proof. apply is_mat_readsL, m22_is. Qed.
Lemma v2_is : is_vec [4; 7]%Z 2 (fun i => nth i [4; 7]%Z 0%Z). Proof. repeat split; try (vm_compute; reflexivity). intros [|[|i]] Hi; try lia; reflexivity. Qed.
Lemma v3_is : is_vec [4; 7; -1]%Z 3 (fun i => nth i [4; 7; -1]%Z 0%Z). Proof. repeat split; try (vm_compute; reflexivity). intros [|[|[|i]]] Hi; try lia; reflexivity. Qed.
Lemma sh r c : r <= 9 -> c <= 9 -> shape_ok r c.
Proof. intros Hr Hc. assert (r * c <= 81) by nia. repeat split; unfold is_size, fits, alloc_max, two64; lia. Qed.
Lemma ft n : n <= 99 -> fits n. Proof. intros H. unfold fits, alloc_max. lia. Qed.
Lemma sz n : n <= 99 -> is_size n. Proof. intros H. unfold is_size, two64. lia. Qed.
Lemma e22 : is_mat (mkM 0 3 (@nil Z)) 0 3 f23. Proof. repeat split; try (vm_compute; reflexivity). intros; lia. Qed.
Lemma m33_is : is_mat (mkM 3 3 [2; 0; 1; 1; 5; 3; 4; 0; 6]%Z) 3 3 (fun i j => nth (i * 3 + j) [2; 0; 1; 1; 5; 3; 4; 0; 6]%Z 0%Z). Proof. small. Qed.
Lemma m22_wf : wf m22. Proof. split; [apply sh; cbn; lia|reflexivity]. Qed.
Lemma m23_wf : wf m23. Proof. split; [apply sh; cbn; lia|reflexivity]. Qed.
Lemma l12 : 1 < 2. Proof. lia. Qed.
Lemma l02 : 0 < 2. Proof. lia. Qed.
Lemma l23 : 2 < 3. Proof. lia. Qed.
Lemma l13 : 1 < 3. Proof. lia. Qed.
Lemma le1 : 1 <= 2. Proof. lia. Qed.
Lemma le3 : 1 <= 3. Proof. lia. Qed.
Lemma w22 : vshape (PView (mkRange 0 2) (mkRange 1 3) Root) 2 3 = Some (2, 2). Proof. reflexivity. Qed.
Ltac sol :=
  lazymatch goal with
  | |- is_mat _ _ _ _ => (exact n22_is + exact m22_is + exact m23_is + exact m32_is + exact e22 + exact m33_is)
  | |- readsL _ _ _ _ => (exact (is_mat_readsL _ _ _ _ n22_is) + exact (is_mat_readsL _ _ _ _ m22_is) + exact (is_mat_readsL _ _ _ _ m23_is)+ exact (is_mat_readsL _ _ _ _ m32_is) + exact (is_mat_readsL _ _ _ _ e22) + exact (is_mat_readsL _ _ _ _ m33_is))
  | |- reads _ _ _ _ => (exact (is_mat_reads _ _ _ _ n22_is) + exact (is_mat_reads _ _ _ _ m22_is) + exact (is_mat_reads _ _ _ _ m23_is)+ exact (is_mat_reads _ _ _ _ m32_is))
  | |- is_vec _ _ _ => (exact v2_is + exact v3_is)
  | |- wf _ => (exact m22_wf + exact m23_wf)
  | |- shape_ok _ _ => ((apply (sh 2 2); lia) + (apply (sh 2 3); lia) + (apply sh; cbn; lia))
  | |- is_size _ => ((apply sz; cbn; lia) + (apply (sz 4); lia))
  | |- fits _ => ((apply ft; cbn; lia) + (apply (ft 2); lia))
  | |- vshape _ _ _ = _ => exact w22 
  | |- _ /\ _ => (split; sol)
  | |- _ \/ _ => ((left; sol) + (right; sol))
  | |- forall _, _ => (intros; subst; cbn in *; try lia; (reflexivity + (eexists; reflexivity) + lia))
  | |- _ => ((exact l12) + (exact l02) + exact l23 + exact l13 + exact le1 + exact le3 + (cbn; lia) + reflexivity + discriminate + (cbn; discriminate))
  end.
Ltac sol1 :=
  lazymatch goal with
  | |- is_mat _ _ _ _ => (exact m22_is + exact m23_is + exact m32_is + exact e22 + exact m33_is)
  | |- readsL _ _ _ _ => (exact (is_mat_readsL _ _ _ _ m22_is) + exact (is_mat_readsL _ _ _ _ m23_is)+ exact (is_mat_readsL _ _ _ _ m32_is) + exact (is_mat_readsL _ _ _ _ e22) + exact (is_mat_readsL _ _ _ _ m33_is))
  | |- reads _ _ _ _ => (exact (is_mat_reads _ _ _ _ m22_is) + exact (is_mat_reads _ _ _ _ m23_is)+ exact (is_mat_reads _ _ _ _ m32_is))
  | |- _ => sol
  end.
Ltac dflt :=
  lazymatch goal with
  | |- nat => exact 1
  | |- Z => exact 3%Z
  | |- list Z => exact [4; 7]%Z
  | |- list (list Z) => exact [[1; 2]; [3; 4]]%Z
  | |- Matrix Z => exact m22
  | |- MB Z => exact (mb_of_mat m22)
  | |- bool => exact true
  | |- Range => exact (mkRange 0 1)
  | |- vpath => exact (PView (mkRange 0 2) (mkRange 0 2) Root)
  | |- nat -> nat -> Z => exact f23
  | |- nat -> Z => exact (fun i => Z.of_nat i)
  | |- Z -> Z => exact (fun x => (x + 1)%Z)
  | |- Z -> Z -> Z => exact (fun x y => (x + 2 * y)%Z)
  | |- Z -> bool => exact (fun x => (x <? 2)%Z)
  | |- Z -> Res Z => exact (fun x => Ok (x + 1)%Z)
  | |- Z -> Z -> Res Z => exact (fun x y => Ok (x + 2 * y)%Z)
  | |- nat -> bool => exact Nat.even
  | |- Type => exact Z
  | |- Ops Z => exact zops
  end.
Ltac pick A k :=
  lazymatch A with
  | nat => (k 1 + k 2 + k 0 + k 3)
  | list Z => (k [4; 7]%Z + k [1; 2; 3; 5]%Z + k [4; 7; -1]%Z + k (@nil Z))
  | MB Z => (k (mb_of_mat m22) + k (mb_of_mat m23) + k (mb_of_mat m32))
  | Matrix Z => (k m22 + k m23 + k m32)
  | Z => (k 3%Z + k 0%Z + k (-2)%Z)
  | _ => let e := fresh "e" in evar (e : A); let e' := eval unfold e in e in clear e; k e'
  end.
Ltac meet2 H :=
  lazymatch type of H with
  | forall x : ?A, _ =>
     lazymatch type of A with
     | Prop => let h := fresh "h" in assert (h : A); [sol | meet2 (H h)]
     | _ => let e := fresh "e" in evar (e : A); let e' := eval unfold e in e in clear e; meet2 (H e')
     end
  | _ => exact H
  end.
Ltac meet1 H :=
  lazymatch type of H with
  | forall x : ?A, _ =>
     lazymatch type of A with
     | Prop => let h := fresh "h" in assert (h : A); [sol1 | meet2 (H h)]
     | _ => let e := fresh "e" in evar (e : A); let e' := eval unfold e in e in clear e; meet1 (H e')
     end
  | _ => exact H
  end.
Ltac meete2 H :=
  lazymatch type of H with
  | forall x : ?A, _ =>
     lazymatch type of A with
     | Prop => let h := fresh "h" in assert (h : A); [sol | meete2 (H h)]
     | _ => pick A ltac:(fun e => meete2 (H e))
     end
  | _ => exact H
  end.
Ltac meete H :=
  lazymatch type of H with
  | forall x : ?A, _ =>
     lazymatch type of A with
     | Prop => let h := fresh "h" in assert (h : A); [sol1 | meete2 (H h)]
     | _ => pick A ltac:(fun e => meete (H e))
     end
  | _ => exact H
  end.
Ltac lazily H := unshelve (once (meet1 H)); dflt.
Ltac choosing H := unshelve (once (meete H)); dflt.

Example case_C03_vector_resize : exists l' : list Z, vec_allocate [4%Z; 7%Z] 2 = Ok l' /\ length l' = 2 /\ (forall i : nat, i < 2 -> i < length [4%Z; 7%Z] -> nth_error l' i = nth_error [4%Z; 7%Z] i) /\ (forall i : nat, length [4%Z; 7%Z] <= i -> i < 2 -> nth_error l' i = Some o0).
Proof. lazily (@C03_vector_resize Z zops). Qed.
Example case_C05_access_agrees : exists v : Z, mget (mb_of_mat m22) 1 1 = Ok v /\ mlin (mb_of_mat m22) (1 * cols m22 + 1) = Ok v.
Proof. lazily (@C05_access_agrees Z). Qed.
Example case_C05_write_one : exists m' : Matrix Z, mat_set m22 1 1 3%Z = Ok m' /\ mat_lset m22 (1 * 2 + 1) 3%Z = Ok m' /\ is_mat m' 2 2 (fun a b : nat => if (a =? 1) && (b =? 1) then 3%Z else f22 a b).
Proof. lazily (@C05_write_one Z). Qed.
Example case_C05_injective : 1 = 1 /\ 1 = 1.
Proof. lazily (@C05_injective Z). Qed.
Example case_C06_fill : exists m : Matrix Z, mat_new 2 2 3%Z = Ok m /\ is_mat m 2 2 (fun _ _ : nat => 3%Z).
Proof. lazily (@C06_fill Z zops). Qed.
Example case_C06_from_list : exists m : Matrix Z, mat_of_list 1 1 [4%Z; 7%Z] = Ok m /\ is_mat m 1 1 (fun i j : nat => nth (i * 1 + j) [4%Z; 7%Z] 3%Z).
Proof. choosing (@C06_from_list Z zops). Qed.
Example case_C06_from_view : exists m' : Matrix Z, mat_of_mb (vmb (PView {| start := 0; stop := 2 |} {| start := 1; stop := 3 |} Root) m23) = Ok m' /\ is_mat m' 2 2 (vsel (PView {| start := 0; stop := 2 |} {| start := 1; stop := 3 |} Root) f23).
Proof. lazily (@C06_from_view Z zops). Qed.
Example case_C07_assign : exists m' : Matrix Z, mat_assign (fun _ : Matrix Z => mb_of_mat m22) m22 = Ok m' /\ is_mat m' 2 2 f22.
Proof. lazily (@C07_assign Z zops). Qed.
Example case_C07_assign_from_matrix : mat_assign (fun _ : Matrix Z => mb_of_mat m22) m22 = Ok (if 2 * 2 =? 0 then m22 else m22).
Proof. lazily (@C07_assign_from_matrix Z zops). Qed.
Example case_C07_move_assign : exists b' : Matrix Z, mat_move_assign m22 m22 = (m22, b') /\ (forall i j : nat, mget (mb_of_mat b') i j = UB).
Proof. lazily (@C07_move_assign Z). Qed.
Example case_C07_move_assign_full : exists m1 b1 : Matrix Z, mat_move_assign m22 m22 = (m1, b1) /\ is_mat m1 2 2 f22 /\ mrows (mb_of_mat b1) = 2 /\ mcols (mb_of_mat b1) = 2 /\ msize (mb_of_mat b1) = 2 * 2 /\ (forall i j : nat, mget (mb_of_mat b1) i j = UB).
Proof. lazily (@C07_move_assign_full Z). Qed.
Example case_C07_assign_nested_empty : mat_assign_nested m22 [] = Ok m22.
Proof. lazily (@C07_assign_nested_empty Z zops). Qed.
Example case_C08_self_view_zero : exists m' : Matrix Z, mat_assign (vmb (PView {| start := 0; stop := 2 |} {| start := 0; stop := 2 |} Root)) m22 = Ok m' /\ is_mat m' (Nat.min 2 2) (Nat.min 2 2) (fun _ _ : nat => o0).
Proof. lazily (@C08_self_view_zero Z zops). Qed.
Example case_C08_self_view_undefined : mat_assign (vmb (PView {| start := 1; stop := 2 |} {| start := 1; stop := 2 |} Root)) m22 = UB.
Proof. lazily (@C08_self_view_undefined Z zops). Qed.
Example case_C09_utility : exists m' : Matrix Z, Iter.util_resize m22 2 2 = Ok m' /\ is_mat m' 2 2 (fun i j : nat => if (i <? 2) && (j <? 2) then f22 i j else o0).
Proof. lazily (@C09_utility Z zops). Qed.
Example case_C09_resize : exists m' : Matrix Z, mat_resize m22 2 2 = Ok m' /\ is_mat m' 2 2 (fun i j : nat => if (i <? 2) && (j <? 2) then f22 i j else o0).
Proof. lazily (@C09_resize Z zops). Qed.
Example case_C10_utility : (4 * 4 = 2 * 2 -> exists m' : Matrix Z, Iter.util_reshape m22 4 4 = Ok m' /\ is_mat m' 4 4 (fun i j : nat => f22 ((i * 4 + j) / 2) ((i * 4 + j) mod 2))) /\ (is_size (4 * 4) -> 4 * 4 <> 2 * 2 -> Iter.util_reshape m22 4 4 = Throw).
Proof. lazily (@C10_utility Z). Qed.
Example case_C10_reshape : exists m' : Matrix Z, mat_reshape m22 2 2 = Ok m' /\ rows m' = 2 /\ cols m' = 2 /\ (forall k : nat, mlin (mb_of_mat m') k = mlin (mb_of_mat m22) k) /\ is_mat m' 2 2 (fun i j : nat => f22 ((i * 2 + j) / 2) ((i * 2 + j) mod 2)) /\ mat_reshape m' 2 2 = Ok m22.
Proof. choosing (@C10_reshape Z). Qed.
Example case_C10_reshape_throws : mat_reshape m22 1 1 = Throw.
Proof. choosing (@C10_reshape_throws Z). Qed.
Example case_C12_view_writes : let V := PView {| start := 0; stop := 2 |} {| start := 0; stop := 2 |} Root in exists m' : Matrix Z, vset V 1 1 3%Z m22 = Ok m' /\ vlset V (1 * (Nat.min 2 2 - 0) + 1) 3%Z m22 = Ok m' /\ is_mat m' 2 2 (fun a b : nat => if (a =? 0 + 1) && (b =? 0 + 1) then 3%Z else f22 a b).
Proof. lazily (@C12_view_writes Z). Qed.
Example case_C12_range_all : readsL (mb_view range_all range_all (mb_of_mat m22)) 2 2 f22.
Proof. lazily (@C12_range_all Z). Qed.
Example case_C12_util_view : exists V : MB Z, util_view (mb_of_mat m22) 1 2 1 2 = Ok V /\ readsL V (Nat.min 2 2 - 1) (Nat.min 2 2 - 1) (fun i j : nat => f22 (1 + i) (1 + j)).
Proof. lazily (@C12_util_view Z). Qed.
Example case_C12_util_row : exists V : MB Z, util_row (mb_of_mat m22) 1 1 2 = Ok V /\ readsL V 1 (Nat.min 2 2 - 1) (fun _ j : nat => f22 1 (1 + j)).
Proof. lazily (@C12_util_row Z). Qed.
Example case_C12_util_col : exists V : MB Z, util_col (mb_of_mat m22) 1 1 2 = Ok V /\ readsL V (Nat.min 2 2 - 1) 1 (fun i _ : nat => f22 (1 + i) 1).
Proof. lazily (@C12_util_col Z). Qed.
Example case_C13_nested_reads : reads (vmb (PView {| start := 0; stop := 2 |} {| start := 1; stop := 3 |} Root) m23) 2 2 (fun i j : nat => f23 (fst (vpos (PView {| start := 0; stop := 2 |} {| start := 1; stop := 3 |} Root) i j)) (snd (vpos (PView {| start := 0; stop := 2 |} {| start := 1; stop := 3 |} Root) i j))).
Proof. lazily (@C13_nested_reads Z). Qed.
Example case_C13_nested_inside : fst (vpos (PView {| start := 0; stop := 2 |} {| start := 1; stop := 3 |} Root) 1 1) < 2 /\ snd (vpos (PView {| start := 0; stop := 2 |} {| start := 1; stop := 3 |} Root) 1 1) < 3.
Proof. lazily (C13_nested_inside). Qed.
Example case_C13_nested_distinct : 1 = 1 /\ 1 = 1.
Proof. lazily (C13_nested_distinct). Qed.
Example case_C13_nested_writes : exists m' : Matrix Z, vset (PView {| start := 0; stop := 2 |} {| start := 1; stop := 3 |} Root) 1 1 3%Z m23 = Ok m' /\ is_mat m' 2 3 (fun a b : nat => if (a =? fst (vpos (PView {| start := 0; stop := 2 |} {| start := 1; stop := 3 |} Root) 1 1)) && (b =? snd (vpos (PView {| start := 0; stop := 2 |} {| start := 1; stop := 3 |} Root) 1 1)) then 3%Z else f23 a b).
Proof. lazily (@C13_nested_writes Z). Qed.
Example case_C15_assign_unrelated : exists (m' : Matrix Z) (f' : nat -> nat -> Z), view_assign (PView {| start := 0; stop := 2 |} {| start := 1; stop := 3 |} Root) (fun _ : Matrix Z => mb_of_mat n22) m23 = Ok m' /\ is_mat m' 2 3 f' /\ (forall i j : nat, i < 2 -> j < 2 -> f' (fst (vpos (PView {| start := 0; stop := 2 |} {| start := 1; stop := 3 |} Root) i j)) (snd (vpos (PView {| start := 0; stop := 2 |} {| start := 1; stop := 3 |} Root) i j)) = g22 i j) /\ (forall a b : nat, a < 2 -> b < 3 -> (forall i j : nat, i < 2 -> j < 2 -> vpos (PView {| start := 0; stop := 2 |} {| start := 1; stop := 3 |} Root) i j <> (a, b)) -> f' a b = f23 a b).
Proof. lazily (@C15_assign_unrelated Z). Qed.
Example case_C15_assign_forward_windows : let P := PView {| start := 1; stop := 1 |} {| start := 1; stop := 1 |} Root in let Q := PView {| start := 1; stop := 1 |} {| start := 1; stop := 1 |} Root in is_mat m22 1 1 f23 -> vshape P 1 1 = Some (1, 1) -> vshape Q 1 1 = Some (1, 1) -> 1 < 1 \/ 1 = 1 /\ 1 <= 1 -> exists m' : Matrix Z, view_assign P (vmb Q) m22 = Ok m' /\ is_mat m' 1 1 (fun a b : nat => if (1 <=? a) && (a <? 1 + 1) && (1 <=? b) && (b <? 1 + 1) then f23 (1 + (a - 1)) (1 + (b - 1)) else f23 a b).
Proof. lazily (@C15_assign_forward_windows Z). Qed.
Example case_C18_cofactor_writes : exists m' : Matrix Z, vset (PCof 1 1 Root) 0 0 3%Z m22 = Ok m' /\ is_mat m' 2 2 (fset f22 (if 0 <? 1 then 0 else 1) (if 0 <? 1 then 0 else 1) 3%Z).
Proof. lazily (@C18_cofactor_writes Z). Qed.
Example case_C18_cofactor_linear_square : linear (mb_cof 1 1 (mb_of_mat m22)) (2 - 1) (2 - 1) (fun i j : nat => f22 (if i <? 1 then i else S i) (if j <? 1 then j else S j)).
Proof. lazily (@C18_cofactor_linear_square Z). Qed.
Example case_C19_self_add : exists m' : Matrix Z, MathM.m_iadd (PView {| start := 0; stop := 2 |} {| start := 1; stop := 3 |} Root) (vmb (PView {| start := 0; stop := 2 |} {| start := 1; stop := 3 |} Root)) m23 = Ok m' /\ vstate (PView {| start := 0; stop := 2 |} {| start := 1; stop := 3 |} Root) 2 3 2 2 f23 (fun i j : nat => oadd (vsel (PView {| start := 0; stop := 2 |} {| start := 1; stop := 3 |} Root) f23 i j) (vsel (PView {| start := 0; stop := 2 |} {| start := 1; stop := 3 |} Root) f23 i j)) m'.
Proof. lazily (@C19_self_add Z zops). Qed.
Example case_C19_self_sub : exists m' : Matrix Z, MathM.m_isub (PView {| start := 0; stop := 2 |} {| start := 1; stop := 3 |} Root) (vmb (PView {| start := 0; stop := 2 |} {| start := 1; stop := 3 |} Root)) m23 = Ok m' /\ vstate (PView {| start := 0; stop := 2 |} {| start := 1; stop := 3 |} Root) 2 3 2 2 f23 (fun _ _ : nat => o0) m'.
Proof. lazily (@C19_self_sub Z zops). Qed.
Example case_C20_transpose : exists m : Matrix Z, Linalg.transpose (mb_of_mat m22) = Ok m /\ is_mat m 2 2 (fun j i : nat => f22 i j).
Proof. lazily (@C20_transpose Z zops). Qed.
Example case_C20_involution : exists t : Matrix Z, Linalg.transpose (mb_of_mat m22) = Ok t /\ Linalg.transpose (mb_of_mat t) = Ok m22.
Proof. lazily (@C20_involution Z zops). Qed.
Example case_C20_involution_view : exists t m : Matrix Z, Linalg.transpose (mb_of_mat m22) = Ok t /\ Linalg.transpose (mb_of_mat t) = Ok m /\ mat_of_mb (mb_of_mat m22) = Ok m.
Proof. lazily (@C20_involution_view Z zops). Qed.
Example case_C20_product : exists ab tab ta tb : Matrix Z, MathM.m_mul (mb_of_mat n22) (mb_of_mat n22) = Ok ab /\ Linalg.transpose (mb_of_mat ab) = Ok tab /\ Linalg.transpose (mb_of_mat n22) = Ok ta /\ Linalg.transpose (mb_of_mat n22) = Ok tb /\ MathM.m_mul (mb_of_mat tb) (mb_of_mat ta) = Ok tab.
Proof. lazily (@C20_product Z zops). Qed.
Example case_C21_eye : exists m : Matrix Z, eye 2 2 3%Z = Ok m /\ is_mat m 2 2 (fun i j : nat => if i =? j then 3%Z else o0).
Proof. lazily (@C21_eye Z zops). Qed.
Example case_C21_identity : exists m : Matrix Z, identity 2 3%Z = Ok m /\ is_mat m 2 2 (fun i j : nat => if i =? j then 3%Z else o0).
Proof. lazily (@C21_identity Z zops). Qed.
Example case_C21_zeros_ones : (exists m : Matrix Z, zeros 2 2 = Ok m /\ is_mat m 2 2 (fun _ _ : nat => o0)) /\ (exists m : Matrix Z, ones 2 2 = Ok m /\ is_mat m 2 2 (fun _ _ : nat => o1)).
Proof. lazily (@C21_zeros_ones Z zops). Qed.
Example case_C21_diag_vector : exists m : Matrix Z, diag_v [4%Z; 7%Z] = Ok m /\ is_mat m (length [4%Z; 7%Z]) (length [4%Z; 7%Z]) (fun i j : nat => if i =? j then nth i [4%Z; 7%Z] 3%Z else o0).
Proof. choosing (@C21_diag_vector Z zops). Qed.
Example case_C21_diag_matrix : exists d : list Z, diag_m (mb_of_mat m22) = Ok d /\ is_vec d (Nat.min 2 2) (fun i : nat => f22 i i).
Proof. lazily (@C21_diag_matrix Z zops). Qed.
Example case_C21_diag_diag : exists m : Matrix Z, diag_v [4%Z; 7%Z] = Ok m /\ diag_m (mb_of_mat m) = Ok [4%Z; 7%Z].
Proof. choosing (@C21_diag_diag Z zops). Qed.
Example case_C22_to_matrix : exists m : Matrix Z, to_matrix [4%Z; 7%Z] true = Ok m /\ is_mat m 1 (length [4%Z; 7%Z]) (fun _ j : nat => nth j [4%Z; 7%Z] 3%Z).
Proof. choosing (@C22_to_matrix Z zops). Qed.
Example case_C22_to_vector : exists d : list Z, to_vector m22 = Ok d /\ is_vec d (2 * 2) (fun k : nat => f22 (k / 2) (k mod 2)).
Proof. lazily (@C22_to_vector Z zops). Qed.
Example case_C22_ravel : exists d : list Z, ravel (mb_of_mat m22) = Ok d /\ is_vec d (2 * 2) (fun k : nat => f22 (k / 2) (k mod 2)).
Proof. lazily (@C22_ravel Z zops). Qed.
Example case_C22_ravel_view : exists d : list Z, ravel (vmb (PView {| start := 0; stop := 2 |} {| start := 1; stop := 3 |} Root) m23) = Ok d /\ is_vec d (2 * 2) (fun k : nat => vsel (PView {| start := 0; stop := 2 |} {| start := 1; stop := 3 |} Root) f23 (k / 2) (k mod 2)).
Proof. lazily (@C22_ravel_view Z zops). Qed.
Example case_C22_round_trip : exists m : Matrix Z, to_matrix [4%Z; 7%Z] true = Ok m /\ to_vector m = Ok [4%Z; 7%Z] /\ ravel (mb_of_mat m) = Ok [4%Z; 7%Z].
Proof. choosing (@C22_round_trip Z zops). Qed.
Example case_C23_vstack : exists m : Matrix Z, vstack (mb_of_mat m22) (mb_of_mat n22) = Ok m /\ is_mat m (2 + 2) 2 (fun i j : nat => if i <? 2 then f22 i j else g22 (i - 2) j).
Proof. lazily (@C23_vstack Z zops). Qed.
Example case_C23_vstack_throws : vstack (mb_of_mat m22) (mb_of_mat m23) = Throw.
Proof. choosing (@C23_vstack_throws Z zops). Qed.
Example case_C23_hstack : exists m : Matrix Z, hstack (mb_of_mat m22) (mb_of_mat n22) = Ok m /\ is_mat m 2 (2 + 2) (fun i j : nat => if j <? 2 then f22 i j else g22 i (j - 2)).
Proof. lazily (@C23_hstack Z zops). Qed.
Example case_C23_hstack_throws : hstack (mb_of_mat m22) (mb_of_mat m32) = Throw.
Proof. choosing (@C23_hstack_throws Z zops). Qed.
Example case_C23_vstack_vector : exists m : Matrix Z, vstack_v (mb_of_mat m22) [4%Z; 7%Z] = Ok m /\ is_mat m (2 + 1) 2 (fun i j : nat => if i <? 2 then f22 i j else nth j [4%Z; 7%Z] 3%Z).
Proof. choosing (@C23_vstack_vector Z zops). Qed.
Example case_C23_hstack_vector : exists m : Matrix Z, hstack_v (mb_of_mat m22) [4%Z; 7%Z] = Ok m /\ is_mat m 2 (2 + 1) (fun i j : nat => if j <? 2 then f22 i j else nth i [4%Z; 7%Z] 3%Z).
Proof. choosing (@C23_hstack_vector Z zops). Qed.
Example case_C23_stack_vector_throws : (mcols (mb_of_mat m22) <> length [4%Z; 7%Z] -> vstack_v (mb_of_mat m22) [4%Z; 7%Z] = Throw) /\ (mrows (mb_of_mat m22) <> length [4%Z; 7%Z] -> hstack_v (mb_of_mat m22) [4%Z; 7%Z] = Throw).
Proof. lazily (@C23_stack_vector_throws Z zops). Qed.
Example case_C23_concatenate : concatenate [4%Z; 7%Z] [4%Z; 7%Z] = Ok ([4%Z; 7%Z] ++ [4%Z; 7%Z]).
Proof. choosing (@C23_concatenate Z zops). Qed.
Example case_C24_extract : exists m : Matrix Z, extract (mb_of_mat m22) 1 2 1 2 = Ok m /\ is_mat m (Nat.min 2 2 - 1) (Nat.min 2 2 - 1) (fun i j : nat => f22 (1 + i) (1 + j)).
Proof. lazily (@C24_extract Z zops). Qed.
Example case_C24_extract_throws : extract (mb_of_mat m22) 2 2 1 1 = Throw.
Proof. lazily (@C24_extract_throws Z zops). Qed.
Example case_C24_extract_column : exists d : list Z, extract_column (mb_of_mat m22) 1 1 2 = Ok d /\ is_vec d (Nat.min 2 2 - 1) (fun i : nat => f22 (1 + i) 1).
Proof. lazily (@C24_extract_column Z zops). Qed.
Example case_C24_extract_row : exists d : list Z, extract_row (mb_of_mat m22) 1 1 2 = Ok d /\ is_vec d (Nat.min 2 2 - 1) (fun i : nat => f22 1 (1 + i)).
Proof. lazily (@C24_extract_row Z zops). Qed.
Example case_C24_extract_line_throws : (1 <= 1 \/ mcols (mb_of_mat m22) <= 1 -> extract_column (mb_of_mat m22) 1 1 1 = Throw) /\ (1 <= 1 \/ mrows (mb_of_mat m22) <= 1 -> extract_row (mb_of_mat m22) 1 1 1 = Throw).
Proof. lazily (@C24_extract_line_throws Z zops). Qed.
Example case_C24_split_rows : exists m1 m2 : Matrix Z, extract (mb_of_mat m32) 0 2 0 2 = Ok m1 /\ extract (mb_of_mat m32) 2 3 0 2 = Ok m2 /\ vstack (mb_of_mat m1) (mb_of_mat m2) = Ok m32.
Proof. lazily (@C24_split_rows Z zops). Qed.
Example case_C24_split_cols : exists m1 m2 : Matrix Z, extract (mb_of_mat m23) 0 2 0 2 = Ok m1 /\ extract (mb_of_mat m23) 0 2 2 3 = Ok m2 /\ hstack (mb_of_mat m1) (mb_of_mat m2) = Ok m23.
Proof. lazily (@C24_split_cols Z zops). Qed.
Example case_C25_swap_rows : exists (m' : Matrix Z) (f' : nat -> nat -> Z), swap_rows (PView {| start := 0; stop := 2 |} {| start := 1; stop := 3 |} Root) 1 1 1 1 m23 = Ok m' /\ is_mat m' 2 3 f' /\ (forall a b : nat, a < 2 -> b < 2 -> vsel (PView {| start := 0; stop := 2 |} {| start := 1; stop := 3 |} Root) f' a b = (if (1 <=? b) && (b <? Nat.min 1 2) then vsel (PView {| start := 0; stop := 2 |} {| start := 1; stop := 3 |} Root) f23 (if a =? 1 then 1 else if a =? 1 then 1 else a) b else vsel (PView {| start := 0; stop := 2 |} {| start := 1; stop := 3 |} Root) f23 a b)) /\ (forall a b : nat, a < 2 -> b < 3 -> (forall x y : nat, x < 2 -> y < 2 -> vpos (PView {| start := 0; stop := 2 |} {| start := 1; stop := 3 |} Root) x y <> (a, b)) -> f' a b = f23 a b).
Proof. lazily (@C25_swap_rows Z). Qed.
Example case_C25_swap_cols : exists (m' : Matrix Z) (f' : nat -> nat -> Z), swap_cols (PView {| start := 0; stop := 2 |} {| start := 1; stop := 3 |} Root) 1 1 1 1 m23 = Ok m' /\ is_mat m' 2 3 f' /\ (forall a b : nat, a < 2 -> b < 2 -> vsel (PView {| start := 0; stop := 2 |} {| start := 1; stop := 3 |} Root) f' a b = (if (1 <=? a) && (a <? Nat.min 1 2) then vsel (PView {| start := 0; stop := 2 |} {| start := 1; stop := 3 |} Root) f23 a (if b =? 1 then 1 else if b =? 1 then 1 else b) else vsel (PView {| start := 0; stop := 2 |} {| start := 1; stop := 3 |} Root) f23 a b)) /\ (forall a b : nat, a < 2 -> b < 3 -> (forall x y : nat, x < 2 -> y < 2 -> vpos (PView {| start := 0; stop := 2 |} {| start := 1; stop := 3 |} Root) x y <> (a, b)) -> f' a b = f23 a b).
Proof. lazily (@C25_swap_cols Z). Qed.
Example case_C25_swap_rows_involutive : exists m' : Matrix Z, swap_rows (PView {| start := 0; stop := 2 |} {| start := 1; stop := 3 |} Root) 1 1 1 1 m23 = Ok m' /\ swap_rows (PView {| start := 0; stop := 2 |} {| start := 1; stop := 3 |} Root) 1 1 1 1 m' = Ok m23.
Proof. lazily (@C25_swap_rows_involutive Z). Qed.
Example case_C25_swap_cols_involutive : exists m' : Matrix Z, swap_cols (PView {| start := 0; stop := 2 |} {| start := 1; stop := 3 |} Root) 1 1 1 1 m23 = Ok m' /\ swap_cols (PView {| start := 0; stop := 2 |} {| start := 1; stop := 3 |} Root) 1 1 1 1 m' = Ok m23.
Proof. lazily (@C25_swap_cols_involutive Z). Qed.
Example case_C26_cofactor_is_removal : exists a b : Matrix Z, remove_row m22 1 = Ok a /\ remove_column a 1 = Ok b /\ Linalg.cofactor (mb_of_mat m22) 1 1 = Ok b.
Proof. lazily (@C26_cofactor_is_removal Z zops). Qed.
Example case_C26_remove_row : exists m' : Matrix Z, remove_row m22 1 = Ok m' /\ is_mat m' (2 - 1) 2 (fun i j : nat => f22 (if i <? 1 then i else S i) j).
Proof. lazily (@C26_remove_row Z zops). Qed.
Example case_C26_remove_column : exists m' : Matrix Z, remove_column m22 1 = Ok m' /\ is_mat m' 2 (2 - 1) (fun i j : nat => f22 i (if j <? 1 then j else S j)).
Proof. lazily (@C26_remove_column Z zops). Qed.
Example case_C26_remove_throws : (rows m22 <= 1 -> remove_row m22 1 = Throw) /\ (cols m22 <= 1 -> remove_column m22 1 = Throw).
Proof. lazily (@C26_remove_throws Z zops). Qed.
Example case_C26_remove_is_minor : exists m1 m2 : Matrix Z, remove_row m22 1 = Ok m1 /\ remove_column m1 1 = Ok m2 /\ mat_of_mb (mb_cof 1 1 (mb_of_mat m22)) = Ok m2.
Proof. lazily (@C26_remove_is_minor Z zops). Qed.
Example case_C27_shape_predicates : (is_square (mb_of_mat m22) = true <-> 2 = 2) /\ (is_row_vector (mb_of_mat m22) = true <-> 2 = 1) /\ (is_column_vector (mb_of_mat m22) = true <-> 2 = 1).
Proof. lazily (@C27_shape_predicates Z). Qed.
Example case_C27_symmetric : exists b : bool, is_symmetric (mb_of_mat n22) = Ok b /\ (b = true <-> 2 = 2 /\ (forall i j : nat, i < 2 -> j < 2 -> g22 i j = g22 j i)).
Proof. lazily (@C27_symmetric Z zops). Qed.
Example case_C27_skew_symmetric_offdiag : exists b : bool, is_skew_symmetric (mb_of_mat n22) = Ok b /\ (b = true <-> 2 = 2 /\ (forall i j : nat, i < j -> j < 2 -> g22 i j = oopp (g22 j i))).
Proof. lazily (@C27_skew_symmetric_offdiag Z zops). Qed.
Example case_C27_diagonal : exists b : bool, is_diagonal (mb_of_mat n22) = Ok b /\ (b = true <-> 2 = 2 /\ (forall i j : nat, i < 2 -> j < 2 -> i <> j -> g22 i j = o0)).
Proof. lazily (@C27_diagonal Z zops). Qed.
Example case_C27_lower_triangular : exists b : bool, is_lower_triangular (mb_of_mat n22) = Ok b /\ (b = true <-> 2 = 2 /\ (forall i j : nat, i < j -> j < 2 -> g22 i j = o0)).
Proof. lazily (@C27_lower_triangular Z zops). Qed.
Example case_C27_upper_triangular : exists b : bool, is_upper_triangular (mb_of_mat n22) = Ok b /\ (b = true <-> 2 = 2 /\ (forall i j : nat, j < i -> i < 2 -> g22 i j = o0)).
Proof. lazily (@C27_upper_triangular Z zops). Qed.
Example case_C27_skew_symmetric_refuted : exists (m : Matrix Z) (f : nat -> nat -> Z), is_mat m 2 2 f /\ is_skew_symmetric (mb_of_mat m) = Ok true /\ ~ (forall i j : nat, i < 2 -> j < 2 -> f i j = (- f j i)%Z).
Proof. lazily (C27_skew_symmetric_refuted). Qed.
Example case_C27_integers : oeq 3%Z 3%Z = true <-> 3%Z = 3%Z.
Proof. lazily (C27_integers). Qed.
Example case_C28_linspace_elements : (olt 3%Z 0%Z = true -> forall step : Z, odiv (osub 0%Z 3%Z) (ofnat (2 - 1)) = Ok step -> exists d : list Z, linspace 3%Z 0%Z 2 = Ok d /\ is_vec d 2 (fun i : nat => oadd 3%Z (omul step (ofnat i)))) /\ (olt 3%Z 0%Z = false -> forall step : Z, odiv (osub 3%Z 0%Z) (ofnat (2 - 1)) = Ok step -> exists d : list Z, linspace 3%Z 0%Z 2 = Ok d /\ is_vec d 2 (fun i : nat => osub 3%Z (omul step (ofnat i)))).
Proof. choosing (@C28_linspace_elements Z zops). Qed.
Example case_C28_linspace_degenerate : linspace 3%Z 3%Z 0 = Ok [] /\ linspace 3%Z 3%Z 1 = Ok [3%Z] /\ (1 <= 2 -> ofeq 3%Z 3%Z = true -> linspace 3%Z 3%Z 2 = Ok (repeat 3%Z 2)).
Proof. lazily (@C28_linspace_degenerate Z zops). Qed.
Example case_C28_linspace_integers : exists d : list Z, linspace 3%Z 0%Z 2 = Ok d /\ is_vec d 2 (fun i : nat => (3 + (0 - 3) ÷ Z.of_nat (2 - 1) * Z.of_nat i)%Z).
Proof. choosing (C28_linspace_integers). Qed.
Example case_C29_flatnonzero : exists ls : list nat, flatnonzero m22 = Ok ls /\ Sorted.StronglySorted lt ls /\ (forall k : nat, In k ls <-> k < 2 * 2 /\ oisz (f22 (k / 2) (k mod 2)) = false).
Proof. lazily (@C29_flatnonzero Z zops). Qed.
Example case_C29_find_n_defect : (exists x : Matrix nat, find m22 2 true = Ok x /\ is_mat x (if 2 =? 1 then 1 else 0) (if 2 =? 1 then 0 else 1) (fun _ _ : nat => 0 + 2)) /\ (exists x : Matrix nat, find m22 2 false = Ok x /\ is_mat x (if 2 =? 1 then 1 else 0 + length (if oisz 5%Z then if oisz 3%Z then if oisz 2%Z then if oisz 1%Z then [] else [] ++ [0] else (if oisz 1%Z then [] else [] ++ [0]) ++ [1] else (if oisz 2%Z then if oisz 1%Z then [] else [] ++ [0] else (if oisz 1%Z then [] else [] ++ [0]) ++ [1]) ++ [2] else (if oisz 3%Z then if oisz 2%Z then if oisz 1%Z then [] else [] ++ [0] else (if oisz 1%Z then [] else [] ++ [0]) ++ [1] else (if oisz 2%Z then if oisz 1%Z then [] else [] ++ [0] else (if oisz 1%Z then [] else [] ++ [0]) ++ [1]) ++ [2]) ++ [3]) - 2) (if 2 =? 1 then 0 + length (if oisz 5%Z then if oisz 3%Z then if oisz 2%Z then if oisz 1%Z then [] else [] ++ [0] else (if oisz 1%Z then [] else [] ++ [0]) ++ [1] else (if oisz 2%Z then if oisz 1%Z then [] else [] ++ [0] else (if oisz 1%Z then [] else [] ++ [0]) ++ [1]) ++ [2] else (if oisz 3%Z then if oisz 2%Z then if oisz 1%Z then [] else [] ++ [0] else (if oisz 1%Z then [] else [] ++ [0]) ++ [1] else (if oisz 2%Z then if oisz 1%Z then [] else [] ++ [0] else (if oisz 1%Z then [] else [] ++ [0]) ++ [1]) ++ [2]) ++ [3]) - 2 else 1) (fun _ _ : nat => 0 + length (if oisz 5%Z then if oisz 3%Z then if oisz 2%Z then if oisz 1%Z then [] else [] ++ [0] else (if oisz 1%Z then [] else [] ++ [0]) ++ [1] else (if oisz 2%Z then if oisz 1%Z then [] else [] ++ [0] else (if oisz 1%Z then [] else [] ++ [0]) ++ [1]) ++ [2] else (if oisz 3%Z then if oisz 2%Z then if oisz 1%Z then [] else [] ++ [0] else (if oisz 1%Z then [] else [] ++ [0]) ++ [1] else (if oisz 2%Z then if oisz 1%Z then [] else [] ++ [0] else (if oisz 1%Z then [] else [] ++ [0]) ++ [1]) ++ [2]) ++ [3]))).
Proof. lazily (@C29_find_n_defect Z zops). Qed.
Example case_C29_find_zero : find m22 0 true = Ok {| rows := 0; cols := 0; data := [] |}.
Proof. lazily (@C29_find_zero Z zops). Qed.
Example case_C30_compare_throws : compare (mb_of_mat m22) (mb_of_mat m23) = Throw.
Proof. choosing (@C30_compare_throws Z zops). Qed.
Example case_C30_compare_vector : compare_v [4%Z; 7%Z] [4%Z; 7%Z] = compare {| mrows := 1; mcols := length [4%Z; 7%Z]; msize := length [4%Z; 7%Z]; mempty := false; mget := fun _ j : nat => lget [4%Z; 7%Z] j; mlin := lget [4%Z; 7%Z] |} {| mrows := 1; mcols := length [4%Z; 7%Z]; msize := length [4%Z; 7%Z]; mempty := false; mget := fun _ j : nat => lget [4%Z; 7%Z] j; mlin := lget [4%Z; 7%Z] |} /\ (forall k : nat, k < length [4%Z; 7%Z] -> lget [4%Z; 7%Z] k = Ok (nth k [4%Z; 7%Z] 3%Z)).
Proof. lazily (@C30_compare_vector Z zops). Qed.
Example case_C30_compare_vector_throws : compare_v [4%Z; 7%Z] [1%Z; 2%Z; 3%Z; 5%Z] = Throw.
Proof. choosing (@C30_compare_vector_throws Z zops). Qed.
Example case_C31_all_close : exists b : bool, all_close (mb_of_mat m22) (mb_of_mat n22) 3%Z = Ok b /\ (b = true <-> (forall i j : nat, i < 2 -> j < 2 -> olt 3%Z (oabs (osub (f22 i j) (g22 i j))) = false)).
Proof. lazily (@C31_all_close Z zops). Qed.
Example case_C31_all_close_throws : all_close (mb_of_mat m22) (mb_of_mat m23) 3%Z = Throw.
Proof. choosing (@C31_all_close_throws Z zops). Qed.
Example case_C31_all_close_vector : exists r : bool, all_close_v [4%Z; 7%Z] [4%Z; 7%Z] 3%Z = Ok r /\ (r = true <-> (forall i : nat, i < length [4%Z; 7%Z] -> olt 3%Z (oabs (osub (nth i [4%Z; 7%Z] 3%Z) (nth i [4%Z; 7%Z] 3%Z))) = false)).
Proof. lazily (@C31_all_close_vector Z zops). Qed.
Example case_C31_all_close_vector_throws : all_close_v [4%Z; 7%Z] [1%Z; 2%Z; 3%Z; 5%Z] 3%Z = Throw.
Proof. choosing (@C31_all_close_vector_throws Z zops). Qed.
Example case_C31_all_close_laws : all_close (mb_of_mat m22) (mb_of_mat m22) 3%Z = Ok true /\ all_close (mb_of_mat m22) (mb_of_mat m22) 3%Z = all_close (mb_of_mat m22) (mb_of_mat m22) 3%Z /\ (all_close (mb_of_mat m22) (mb_of_mat m22) 3%Z = Ok true -> all_close (mb_of_mat m22) (mb_of_mat m22) 3%Z = Ok true).
Proof. choosing (@C31_all_close_laws Z zops). Qed.
Example case_C31_all_close_integers : (all_close (mb_of_mat m22) (mb_of_mat n22) 0%Z = Ok true <-> (forall i j : nat, i < 2 -> j < 2 -> (Z.abs (f22 i j - g22 i j) <= 0)%Z)) /\ all_close (mb_of_mat m22) (mb_of_mat m22) 0%Z = Ok true /\ all_close (mb_of_mat m22) (mb_of_mat n22) 0%Z = all_close (mb_of_mat n22) (mb_of_mat m22) 0%Z /\ (all_close (mb_of_mat m22) (mb_of_mat n22) 0%Z = Ok true -> all_close (mb_of_mat m22) (mb_of_mat n22) 0%Z = Ok true).
Proof. lazily (C31_all_close_integers). Qed.
Example case_C32_div_scalar : pointwise (fun A : MB Z => MathM.m_divs A 3%Z) (fun x : Z => (x ÷ 3)%Z).
Proof. choosing (@C32_div_scalar Z zops). Qed.
Example case_C32_div_undefined : MathM.m_divs (mb_of_mat m22) 0%Z = UB.
Proof. choosing (@C32_div_undefined Z zops). Qed.
Example case_C32_inplace_div_scalar : inplace_pointwise (fun p : vpath => MathM.m_idivs p 3%Z) (fun x : Z => (x ÷ 3)%Z).
Proof. choosing (@C32_inplace_div_scalar Z zops). Qed.
Example case_C32_vec_div_scalar : vpointwise (fun a : list Z => MathM.v_divs a 3%Z) (fun x : Z => (x ÷ 3)%Z).
Proof. choosing (@C32_vec_div_scalar Z zops). Qed.
Example case_C32_inplace_is_binary : MathM.m_iadd Root (fun _ : Matrix Z => mb_of_mat n22) m22 = MathM.m_add (mb_of_mat m22) (mb_of_mat n22) /\ MathM.m_isub Root (fun _ : Matrix Z => mb_of_mat n22) m22 = MathM.m_sub (mb_of_mat m22) (mb_of_mat n22).
Proof. lazily (@C32_inplace_is_binary Z zops). Qed.
Example case_C33_product : (MathM.m_mul (mb_of_mat m22) (mb_of_mat n22) = Throw <-> 2 <> 2) /\ (2 = 2 -> exists m : Matrix Z, MathM.m_mul (mb_of_mat m22) (mb_of_mat n22) = Ok m /\ is_mat m 2 2 (mprod 2 f22 g22)).
Proof. lazily (@C33_product Z zops). Qed.
Example case_C34_self : exists m' : Matrix Z, MathM.m_imul Root (vmb Root) m22 = Ok m' /\ is_mat m' 2 2 (mprod 2 f22 f22).
Proof. lazily (@C34_self Z zops). Qed.
Example case_C34_same_as_product : MathM.m_imul Root (fun _ : Matrix Z => mb_of_mat n22) m22 = MathM.m_mul (mb_of_mat m22) (mb_of_mat n22).
Proof. lazily (@C34_same_as_product Z zops). Qed.
Example case_C34_more_columns_undefined : MathM.m_imul (PView {| start := 0; stop := 2 |} {| start := 1; stop := 3 |} Root) mb_of_mat m23 = UB.
Proof. lazily (@C34_more_columns_undefined Z zops). Qed.
Example case_C35_dot : (MathM.dot [4%Z; 7%Z] [4%Z; 7%Z] = Throw <-> 2 <> 2) /\ (2 = 2 -> MathM.dot [4%Z; 7%Z] [4%Z; 7%Z] = Ok (osum 2 (fun i : nat => omul (nth i [4%Z; 7%Z] 0%Z) (nth i [4%Z; 7%Z] 0%Z)))).
Proof. lazily (@C35_dot Z zops). Qed.
Example case_C35_matvec : exists d : list Z, MathM.m_mulv (mb_of_mat m22) [4%Z; 7%Z] = Ok d /\ is_vec d 2 (fun i : nat => osum 2 (fun k : nat => omul (f22 i k) (nth k [4%Z; 7%Z] 0%Z))).
Proof. lazily (@C35_matvec Z zops). Qed.
Example case_C35_matvec_undefined : MathM.m_mulv (mb_of_mat m22) [] = UB.
Proof. choosing (@C35_matvec_undefined Z zops). Qed.
Example case_C35_matvec_is_product : exists (bm m : Matrix Z) (d : list Z), to_matrix [4%Z; 7%Z] false = Ok bm /\ MathM.m_mul (mb_of_mat m22) (mb_of_mat bm) = Ok m /\ MathM.m_mulv (mb_of_mat m22) [4%Z; 7%Z] = Ok d /\ to_vector m = Ok d.
Proof. lazily (@C35_matvec_is_product Z zops). Qed.
Example case_C36_mirror : MathM.m_lt (mb_of_mat m22) (mb_of_mat n22) = MathM.m_gt (mb_of_mat n22) (mb_of_mat m22) /\ MathM.m_le (mb_of_mat m22) (mb_of_mat n22) = MathM.m_ge (mb_of_mat n22) (mb_of_mat m22).
Proof. lazily (@C36_mirror Z zops). Qed.
Example case_C37_all : exists b : bool, MathM.all_m (mb_of_mat m22) = Ok b /\ (b = true <-> (forall i j : nat, i < 2 -> j < 2 -> oeq (f22 i j) o0 = false)).
Proof. lazily (@C37_all Z zops). Qed.
Example case_C37_all_vec : exists b : bool, MathM.all_v [4%Z; 7%Z] = Ok b /\ (b = true <-> (forall i : nat, i < 2 -> oeq (nth i [4%Z; 7%Z] 0%Z) o0 = false)).
Proof. lazily (@C37_all_vec Z zops). Qed.
Example case_C37_any : exists b : bool, MathM.any_m (mb_of_mat m22) = Ok b /\ (b = true <-> (exists i j : nat, i < 2 /\ j < 2 /\ oeq (f22 i j) o0 = false)).
Proof. lazily (@C37_any Z zops). Qed.
Example case_C37_any_vec : exists b : bool, MathM.any_v [4%Z; 7%Z] = Ok b /\ (b = true <-> (exists i : nat, i < 2 /\ oeq (nth i [4%Z; 7%Z] 0%Z) o0 = false)).
Proof. lazily (@C37_any_vec Z zops). Qed.
Example case_C37_empty : MathM.all_m (mb_of_mat {| rows := 0; cols := 3; data := [] |}) = Ok true /\ MathM.any_m (mb_of_mat {| rows := 0; cols := 3; data := [] |}) = Ok false.
Proof. lazily (@C37_empty Z zops). Qed.
Example case_C37_any_is_not_all_zero : exists (E : Matrix bool) (b : bool), MathM.m_eqs (mb_of_mat n22) o0 = Ok E /\ MathM.any_m (mb_of_mat n22) = Ok b /\ MathM.all_m (mb_of_mat E) = Ok (negb b).
Proof. lazily (@C37_any_is_not_all_zero Z zops). Qed.
Example case_C38_columns : (exists (d : list Z) (g : nat -> Z), MathM.min_m m22 = Ok d /\ is_vec d 2 g /\ (forall j : nat, j < 2 -> exists pos : nat, MathM.min_v (column f22 2 j) = Ok (g j, pos))) /\ (exists (d : list Z) (g : nat -> Z), MathM.max_m m22 = Ok d /\ is_vec d 2 g /\ (forall j : nat, j < 2 -> exists pos : nat, MathM.max_v (column f22 2 j) = Ok (g j, pos))).
Proof. lazily (@C38_columns Z zops). Qed.
Example case_C39_sum : MathM.sum [4%Z; 7%Z] = Ok (osum 2 (fun i : nat => nth i [4%Z; 7%Z] 0%Z)).
Proof. lazily (@C39_sum Z zops). Qed.
Example case_C39_trace_undefined : MathM.trace (mb_of_mat m32) = UB.
Proof. lazily (@C39_trace_undefined Z zops). Qed.
Example case_C41_vector : MathM.ew_fun_v [4%Z; 7%Z] (fun _ : Z => Ok 3%Z) = Ok [4%Z; 7%Z].
Proof. lazily (@C41_vector Z zops). Qed.
Example case_C41_matrix : exists m : Matrix Z, MathM.ew_fun_m (mb_of_mat n22) (fun _ : Z => Ok 3%Z) = Ok m /\ is_mat m 2 2 (fun _ _ : nat => o0).
Proof. lazily (@C41_matrix Z zops). Qed.
Example case_C41_abs : (forall (a : list Z) (n : nat) (f : nat -> Z), is_vec a n f -> MathM.abs_v a = Ok a) /\ (forall (A : MB Z) (r c : nat) (f : nat -> nat -> Z), reads A r c f -> exists m : Matrix Z, MathM.abs_m A = Ok m /\ is_mat m r c (fun _ _ : nat => o0)).
Proof. lazily (@C41_abs Z zops). Qed.
Example case_C45_factorial : Linalg.factorial 1 0 = Ok (Z.of_nat (fact (Z.to_nat 0))).
Proof. lazily (C45_factorial). Qed.
Example case_C45_negative : Linalg.factorial 1 (-2) = Ok 1%Z.
Proof. choosing (C45_negative). Qed.
Example case_C45_recurrence : exists x : Z, Linalg.factorial 3 (3 - 1) = Ok x /\ Linalg.factorial 3 3 = Ok (3 * x)%Z.
Proof. choosing (C45_recurrence). Qed.
Example case_C46_not_square : Linalg.powm (mb_of_mat m23) 2 = Throw.
Proof. lazily (@C46_not_square Z zops). Qed.
Example case_C46_zeroth_power : exists m : Matrix Z, Linalg.powm (mb_of_mat m22) 0 = Ok m /\ is_mat m 2 2 (fun i j : nat => if i =? j then o1 else o0).
Proof. lazily (@C46_zeroth_power Z zops). Qed.
Example case_C47_conjugate_transpose : exists m : Matrix Z, Linalg.conjugate_transpose (fun x : Z => (x + 1)%Z) (mb_of_mat m22) = Ok m /\ is_mat m 2 2 (fun j i : nat => (f22 i j + 1)%Z).
Proof. lazily (@C47_conjugate_transpose Z zops). Qed.
Example case_C51_throws : Linalg.adjoint (mb_of_mat m23) = Throw.
Proof. lazily (@C51_throws Z zops). Qed.
Example case_C52_throws : Linalg.inverse (mb_of_mat m23) = Throw.
Proof. lazily (@C52_throws Z zops). Qed.
Example case_C54_throws : Linalg.lu_decomposition (mb_of_mat m23) = Throw.
Proof. lazily (@C54_throws Z zops). Qed.
Example case_C55_exp : exists m : Matrix Z, Linalg.exp_m (fun x : Z => (x + 1)%Z) (mb_of_mat m22) = Ok m /\ is_mat m 2 2 (fun j i : nat => (f22 i j + 1)%Z).
Proof. lazily (@C55_exp Z zops). Qed.
Example case_C55_exp_is_transposed : exists t e : Matrix Z, Linalg.transpose (mb_of_mat m22) = Ok t /\ MathM.mb_map (fun x : Z => Ok (x + 1)%Z) (mb_of_mat t) = Ok e /\ Linalg.exp_m (fun x : Z => (x + 1)%Z) (mb_of_mat m22) = Ok e.
Proof. lazily (@C55_exp_is_transposed Z zops). Qed.
Example case_C74_logspace_is_pow_of_linspace : exists e : list Z, logspace 1 (fun x y : Z => (x + 2 * y)%Z) 3%Z 3%Z 0 3%Z = Ok e /\ is_vec e 0 (fun i : nat => (3 + 2 * nth i [] 3)%Z).
Proof. choosing (@C74_logspace_is_pow_of_linspace Z zops). Qed.
Example case_C75_outside : inner_product [4%Z; 7%Z] [4%Z; 7%Z] 1 2 2 3%Z = UB.
Proof. choosing (@C75_outside Z zops). Qed.
Example case_C75_accumulate_outside : accumulate [4%Z; 7%Z] 1 3 3%Z = UB.
Proof. choosing (@C75_accumulate_outside Z zops). Qed.
Example case_C75_accumulate : accumulate [4%Z; 7%Z] (length [4%Z; 7%Z]) (length [4%Z; 7%Z]) 3%Z = Ok (fold_left oadd (firstn (length [4%Z; 7%Z] - length [4%Z; 7%Z]) (skipn (length [4%Z; 7%Z]) [4%Z; 7%Z])) 3%Z) /\ (forall i : nat, length [4%Z; 7%Z] <= i < length [4%Z; 7%Z] -> nth_error (firstn (length [4%Z; 7%Z] - length [4%Z; 7%Z]) (skipn (length [4%Z; 7%Z]) [4%Z; 7%Z])) (i - length [4%Z; 7%Z]) = Some (nth i [4%Z; 7%Z] 3%Z)).
Proof. lazily (@C75_accumulate Z zops). Qed.
Example case_C75_inner_product : inner_product [4%Z; 7%Z] [4%Z; 7%Z] 1 1 1 3%Z = Ok (fold_left (fun (acc : Z) (xy : Z * Z) => oadd acc (omul (fst xy) (snd xy))) (combine (firstn (1 - 1) (skipn 1 [4%Z; 7%Z])) (firstn (1 - 1) (skipn 1 [4%Z; 7%Z]))) 3%Z).
Proof. choosing (@C75_inner_product Z zops). Qed.
Example case_C75_past_the_end : inner_product [4%Z; 7%Z] [4%Z; 7%Z] 2 1 1 3%Z = UB /\ accumulate [4%Z; 7%Z] 2 1 3%Z = UB.
Proof. lazily (@C75_past_the_end Z zops). Qed.
Example case_C75_inner_product_whole : inner_product [4%Z; 7%Z] [4%Z; 7%Z] 0 (length [4%Z; 7%Z]) 0 o0 = Ok (fold_left (fun (acc : Z) (xy : Z * Z) => oadd acc (omul (fst xy) (snd xy))) (combine [4%Z; 7%Z] [4%Z; 7%Z]) o0).
Proof. lazily (@C75_inner_product_whole Z zops). Qed.
Example case_C76_rand_matrix : exists m : Matrix Z, rand_matrix (fun i : nat => Z.of_nat i) 2 2 = Ok (m, 2 * 2) /\ is_mat m 2 2 (fun i j : nat => Z.of_nat (i * 2 + j)).
Proof. lazily (@C76_rand_matrix Z zops). Qed.
Example case_C76_rand_vector : exists d : list Z, rand_vector (fun i : nat => Z.of_nat i) 2 = Ok (d, 2) /\ is_vec d 2 (fun i : nat => Z.of_nat i).
Proof. lazily (@C76_rand_vector Z zops). Qed.
Example case_C82_iterate_vector : Iter.vec_foreach (fun x y : Z => Ok (x + 2 * y)%Z) [4%Z; 7%Z] 3%Z = for_range 0 2 (fun (i : nat) (s : Z) => Ok (nth i [4; 7] 0 + 2 * s)%Z) 3%Z.
Proof. lazily (@C82_iterate_vector Z). Qed.
Example case_C82_iterate_matrix : Iter.mat_foreach (fun x y : Z => Ok (x + 2 * y)%Z) m22 3%Z = for_range 0 2 (fun (i : nat) (s : Z) => for_range 0 2 (fun (j : nat) (s0 : Z) => Ok (f22 i j + 2 * s0)%Z) s) 3%Z.
Proof. lazily (@C82_iterate_matrix Z). Qed.
Example case_C82_data : nth_error (Iter.vdata (PView {| start := 0; stop := 2 |} {| start := 0; stop := 2 |} Root) m22) 1 = Some (f22 (1 / 2) (1 mod 2)).
Proof. choosing (@C82_data Z). Qed.
Example case_C95_swap_rows : swap_rows Root 1 2 1 2 m22 = UB.
Proof. choosing (@C95_swap_rows Z). Qed.
Example case_C95_swap_cols : swap_cols Root 2 0 1 2 m22 = UB.
Proof. lazily (@C95_swap_cols Z). Qed.
Example case_C100_is_zero : exists b : bool, Repaired.is_zero (mb_of_mat n22) = Ok b /\ (b = true <-> (forall i j : nat, i < 2 -> j < 2 -> g22 i j = o0)).
Proof. lazily (@C100_is_zero Z zops). Qed.
Example case_C100_is_constant : exists b : bool, Repaired.is_constant (mb_of_mat n22) = Ok b /\ (b = true <-> (forall i j i' j' : nat, i < 2 -> j < 2 -> i' < 2 -> j' < 2 -> g22 i j = g22 i' j')).
Proof. lazily (@C100_is_constant Z zops). Qed.
Example case_C100_is_identity : (2 <> 2 -> Repaired.is_identity (mb_of_mat m22) = Ok false) /\ (2 = 2 -> 2 = 0 -> Repaired.is_identity (mb_of_mat m22) = Throw) /\ (2 = 2 -> 0 < 2 -> exists b : bool, Repaired.is_identity (mb_of_mat m22) = Ok b /\ (b = true <-> (forall i j : nat, i < 2 -> j < 2 -> ofeq (f22 i j) (if i =? j then o1 else o0) = true))).
Proof. lazily (@C100_is_identity Z zops). Qed.
Example case_C100_is_orthogonal : (2 <> 2 -> Repaired.is_orthogonal (mb_of_mat m22) = Ok false) /\ (2 = 2 -> 2 = 0 -> Repaired.is_orthogonal (mb_of_mat m22) = Throw) /\ (2 = 2 -> 0 < 2 -> exists b : bool, Repaired.is_orthogonal (mb_of_mat m22) = Ok b /\ (b = true <-> (forall i j : nat, i < 2 -> j < 2 -> ofeq (osum 2 (fun k : nat => omul (f22 i k) (f22 j k))) (if i =? j then o1 else o0) = true))).
Proof. lazily (@C100_is_orthogonal Z zops). Qed.
Example case_C100_hermitian_transpose : exists m : Matrix Z, Repaired.hermitian_transpose (fun x : Z => (x + 1)%Z) (mb_of_mat m22) = Ok m /\ is_mat m 2 2 (fun i j : nat => (f22 j i + 1)%Z).
Proof. lazily (@C100_hermitian_transpose Z zops). Qed.
Example case_C100_vector_scalar : vpointwise (fun a : list Z => Repaired.v_iadds a 3%Z) (fun x : Z => oadd x 3%Z) /\ vpointwise (fun a : list Z => Repaired.v_isubs a 3%Z) (fun x : Z => osub x 3%Z) /\ vpointwise (fun a : list Z => Repaired.v_imuls a 3%Z) (fun x : Z => omul x 3%Z) /\ vpointwise (fun a : list Z => Repaired.v_smul 3%Z a) (fun x : Z => omul 3%Z x) /\ (forall quo : Z -> Z, (forall x : Z, odiv x 3%Z = Ok (quo x)) -> vpointwise (fun a : list Z => Repaired.v_idivs a 3%Z) quo).
Proof. lazily (@C100_vector_scalar Z zops). Qed.
Example case_C100_sign : (forall (a : list Z) (n : nat) (f : nat -> Z), is_vec a n f -> Repaired.sign_v a = Ok a) /\ (forall (A : MB Z) (r c : nat) (f : nat -> nat -> Z), reads A r c f -> exists m : Matrix Z, Repaired.sign_m A = Ok m /\ is_mat m r c (fun _ _ : nat => o0)).
Proof. lazily (@C100_sign Z zops). Qed.
Example case_C109_powm : exists m : Matrix Z, Linalg.powm (mb_of_mat m22) 1 = Ok m /\ is_mat m 2 2 (fpow 2 f22 1).
Proof. lazily (@C109_powm Z zops). Qed.
Example case_C109_ctrb : exists m : Matrix Z, Control.ctrb (mb_of_mat m22) (mb_of_mat n22) = Ok m /\ is_mat m 2 (2 * 2) (fun i j : nat => ctrb_blk 2 f22 g22 (j / 2) i (j mod 2)).
Proof. lazily (@C109_ctrb Z zops). Qed.
Example case_C109_obsv : exists m : Matrix Z, Control.obsv (mb_of_mat m22) (mb_of_mat n22) = Ok m /\ is_mat m (2 * 2) 2 (fun i j : nat => obsv_blk 2 f22 g22 (i / 2) (i mod 2) j).
Proof. lazily (@C109_obsv Z zops). Qed.

(** Cases with hypotheses of their own. *)
Definition nest := [[1; 2]; [3; 5]]%Z.
Lemma nest_row row : nth_error nest 0 = Some row -> length row = 2. Proof. cbn. intros E. inversion E. reflexivity. Qed.
Lemma nest_el i j : i < 2 -> j < 2 -> exists row, nth_error nest i = Some row /\ nth_error row j = Some (f22 i j).
Proof. intros Hi Hj. destruct i as [|[|i]]; try lia; (eexists; split; [reflexivity|]); destruct j as [|[|j]]; try lia; reflexivity. Qed.
Example case_C06_nested : exists m, mat_of_nested nest = Ok m /\ is_mat m 2 2 f22.
Proof. apply C06_nested; [reflexivity|lia|lia|apply sh; lia|exact nest_row|exact nest_el]. Qed.
Example case_C06_nested_ragged_undefined : mat_of_nested [[1; 2]; [3]]%Z = UB.
Proof. apply (C06_nested_ragged_undefined [[1; 2]; [3]]%Z 2); [lia|apply sh; cbn; lia|cbn; intros row E; inversion E; reflexivity|exists 1, [3]%Z; cbn; split; [reflexivity|lia]]. Qed.
Example case_C06_from_list_short_undefined : mat_of_list 2 3 [1; 2; 3; 5]%Z = UB.
Proof. apply C06_from_list_short_undefined; [apply sh; lia|cbn; lia]. Qed.
Example case_C07_assign_nested : exists m', mat_assign_nested m23 nest = Ok m' /\ is_mat m' 2 2 f22.
Proof. apply C07_assign_nested; [reflexivity|lia|lia|apply sh; lia|exact nest_row|exact nest_el]. Qed.
Example case_C07_assign_empty_noop : mat_assign (fun _ => mb_of_mat (mkM 0 3 nil)) m22 = Ok m22.
Proof. apply C07_assign_empty_noop. reflexivity. Qed.
Example case_C07_move_assign_empty : mat_move_assign m22 (mkM 0 3 nil) = (m22, mkM 0 3 nil).
Proof. apply C07_move_assign_empty; [split; [apply sh; cbn; lia|reflexivity]|reflexivity]. Qed.
Example case_C12_bad_range_asserts : view_new (mb_of_mat m22) (mkRange 1 1) (mkRange 0 2) = UB.
Proof. apply C12_bad_range_asserts. left. cbn. lia. Qed.
Example case_C15_shape_mismatch_asserts : view_assign (PView (mkRange 0 1) (mkRange 0 2) Root) (fun _ => mb_of_mat n22) m22 = UB.
Proof. apply C15_shape_mismatch_asserts. left. cbn. discriminate. Qed.
Example case_C15_assign_same_matrix : exists m', view_assign (PView (mkRange 0 2) (mkRange 0 2) Root) (vmb (PView (mkRange 0 2) (mkRange 1 3) Root)) m23 = Ok m'.
Proof.
  destruct (C15_assign_same_matrix (PView (mkRange 0 2) (mkRange 0 2) Root) (PView (mkRange 0 2) (mkRange 1 3) Root) m23 2 3 f23 2 2 m23_is eq_refl w22) as (m' & f' & E & _); [|eauto].
  intros i j x y Hi Hj Hx Hy H E. cbn in E. inversion E. lia.
Qed.
Example case_C16_shift_right_spreads : exists m', view_assign (PView (mkRange 0 1) (mkRange 1 4) Root) (vmb (PView (mkRange 0 1) (mkRange 0 3) Root)) (mkM 1 4 [5; 6; 7; 8]%Z) = Ok m' /\ is_mat m' 1 4 (fun _ _ => 5%Z).
Proof.
  apply (C16_shift_right_spreads _ 3 (fun _ j => nth j [5; 6; 7; 8]%Z 0%Z)); [|lia].
  repeat split; try (vm_compute; reflexivity). intros [|i] [|[|[|[|j]]]] Hi Hj; try lia; reflexivity.
Qed.
Example case_C17_assign_nested_noop : view_assign_nested (PView (mkRange 0 1) (mkRange 0 2) Root) nest m22 = Ok m22.
Proof. apply C17_assign_nested_noop. left. cbn. discriminate. Qed.
Example case_C17_assign_nested : exists m' f', view_assign_nested (PView (mkRange 0 2) (mkRange 1 3) Root) nest m23 = Ok m' /\ is_mat m' 2 3 f' /\ f' 1 2 = 5%Z /\ f' 1 0 = 1%Z.
Proof.
  destruct (C17_assign_nested (PView (mkRange 0 2) (mkRange 1 3) Root) nest m23 2 3 f23 2 2 f22 m23_is w22 l02 l02 eq_refl nest_row nest_el) as (m' & f' & E & M & Q & K).
  exists m', f'. split; [exact E|]. split; [exact M|]. split; [exact (Q 1 1 l12 l12)|]. apply (K 1 0); try lia. intros i j Hi Hj H. cbn in H. inversion H.
Qed.
Example case_C21_vector_forms : zeros_v 2 = Ok [0; 0]%Z /\ ones_v 2 = Ok [1; 1]%Z.
Proof. exact (C21_vector_forms (T := Z) 2 l02 (ft 2 ltac:(lia))). Qed.
Example case_C21_zero_dimension_throws : eye 0 4 3%Z = Throw /\ @zeros Z _ 0 4 = Throw /\ @ones Z _ 0 4 = Throw /\ @zeros_v Z _ 0 = Throw /\ @ones_v Z _ 0 = Throw /\ identity 0 3%Z = Throw.
Proof. apply C21_zero_dimension_throws. auto. Qed.
Example case_C28_linspace_integer_last d : linspace 1%Z 9%Z 4 = Ok d -> nth_error d 0 = Some 1%Z /\ (nth_error d 3 = Some 9%Z <-> (3 | 8)%Z).
Proof. apply (C28_linspace_integer_last 1 9 4 d); [lia|apply ft; lia|discriminate]. Qed.
Example case_C29_find_all : exists x, find n22 5 true = Ok x /\ is_mat x 3 1 (fun i _ => nth i [1; 2; 3] 0).
Proof. destruct (C29_find_all n22 2 2 g22 5 true [1; 2; 3] n22_is) as (x & E & M); [reflexivity|lia|cbn; lia|]. exists x. split; [exact E|exact M]. Qed.
Lemma lin22 (m : Matrix Z) f : is_mat m 2 2 f -> msize (mb_of_mat m) = 4 /\ forall k, k < 4 -> mlin (mb_of_mat m) k = Ok (f (k / 2) (k mod 2)).
Proof. intros H. destruct (is_mat_readsL _ _ _ _ H) as (R & Q). split; [destruct R as (_ & _ & R & _); exact R|exact Q]. Qed.
Example case_C30_compare_antisymmetric : exists z, compare (mb_of_mat m22) (mb_of_mat n22) = Ok z /\ compare (mb_of_mat n22) (mb_of_mat m22) = Ok (- z)%Z.
Proof. destruct (lin22 _ _ m22_is) as (S1 & Q1), (lin22 _ _ n22_is) as (S2 & Q2). eapply (C30_compare_antisymmetric _ _ 4 (fun k => f22 (k / 2) (k mod 2)) (fun k => g22 (k / 2) (k mod 2)) S1 Q1 S2 Q2). cbn. intros x y. lia. Qed.
Example case_C30_compare_zero : compare (mb_of_mat m22) (mb_of_mat m22) = Ok 0%Z <-> forall k, k < 4 -> f22 (k / 2) (k mod 2) = f22 (k / 2) (k mod 2).
Proof. destruct (lin22 _ _ m22_is) as (S1 & Q1). eapply (C30_compare_zero _ _ 4 (fun k => f22 (k / 2) (k mod 2)) (fun k => f22 (k / 2) (k mod 2)) S1 Q1 S1 Q1); [cbn; intros x y; lia|cbn; intros x; lia|reflexivity]. Qed.
Lemma lin_v : lin_ok (PView (mkRange 0 2) (mkRange 1 3) Root) 2 3. Proof. cbn. auto. Qed.
Example case_C34_square : exists m', m_imul (PView (mkRange 0 2) (mkRange 1 3) Root) (fun _ => mb_of_mat m22) m23 = Ok m'.
Proof. destruct (C34_square m23 2 3 f23 _ 2 2 (fun _ => mb_of_mat m22) f22 m23_is w22 lin_v (is_mat_reads _ _ _ _ m22_is)) as (m' & E & _). eauto. Qed.
Example case_C34_throws : m_imul (PView (mkRange 0 2) (mkRange 1 3) Root) (fun _ => mb_of_mat m32) m23 = Throw.
Proof. apply (C34_throws m23 2 3 f23 _ 2 2 (fun _ => mb_of_mat m32) m23_is w22). discriminate. Qed.
Lemma z_total : strict_total (T := Z) olt. Proof. unfold strict_total. cbn. repeat split; intros; lia. Qed.
Example case_C38_min : exists pos, min_v [4; 7; -1]%Z = Ok (nth pos [4; 7; -1]%Z 0%Z, pos) /\ first_least olt (fun i => nth i [4; 7; -1]%Z 0%Z) 3 pos.
Proof. apply (C38_min [4; 7; -1]%Z 3 (fun i => nth i [4; 7; -1]%Z 0%Z) z_total v3_is). lia. Qed.
Example case_C38_matrix_min : exists d g, min_m m23 = Ok d /\ is_vec d 3 g /\ forall j, j < 3 -> exists pos, g j = f23 pos j /\ first_least olt (fun i => f23 i j) 2 pos.
Proof. apply (C38_matrix_min m23 2 3 f23 z_total m23_is); lia. Qed.
Example case_C46_zero_dimension : powm (mb_of_mat (mkM 0 3 nil)) 2 = @Throw (Matrix Z).
Proof. apply (C46_zero_dimension _ 0 3 f23 2 (is_mat_reads _ _ _ _ e22)). auto. Qed.
Example case_C47_involution : exists t, conjugate_transpose Z.opp (mb_of_mat m23) = Ok t /\ conjugate_transpose Z.opp (mb_of_mat t) = Ok m23.
Proof. apply (C47_involution Z.opp Z.opp_involutive m23 2 3 f23 m23_is). Qed.
Example case_C82_range_call : exists V, mat_range m23 (mkRange 0 9) (mkRange 1 3) = Ok V /\ reads V 2 2 (fun i j => f23 (0 + i) (1 + j)).
Proof. apply (C82_range_call m23 2 3 f23 (mkRange 0 9) (mkRange 1 3) m23_is); cbn; lia. Qed.
Example case_C76_rand_in_bounds m k : rand_matrix (fun n => Z.of_nat (n mod 6)) 2 3 = Ok (m, k) -> Forall (fun x => 0 <= x < 6)%Z (data m).
Proof. apply (C76_rand_in_bounds (fun x => 0 <= x < 6)%Z); [apply sh; lia|]. intros n _. pose proof (Nat.mod_upper_bound n 6). lia. Qed.
