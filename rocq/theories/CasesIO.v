(** CasesIO.v: concrete cases of the theorems on reading and writing, on Vector programs and on refused allocations.
    Each example is a theorem applied to small texts, matrices and programs; its proof discharges all of that
    theorem's hypotheses for them and its statement is what the theorem then says. *)
From Coq Require Import ZArith QArith SpecFloat Lia List String Ascii.
From Verif Require Import Base Mat Spec MatFacts ViewFacts2 IO IOSpec IOControl Control Scalar Float FloatIO PropIO PropIO2 PropIO3 PropIO4 PropFileCmp PropHeap PropOOM VecHeap VecOOM Cases.
Import ListNotations. Open Scope string_scope. Open Scope list_scope. Open Scope nat_scope.
Definition lo32 := (-2147483648)%Z. Definition hi32 := 2147483647%Z.
Definition tail := " rest".
Definition txt1 := String "010" "-3 9 x".
Definition txt2 := String "010" "-3 9 ".
Definition txt3 := String "010" "-3 9 99999999999 x".
Definition prog := [FromList 0 [5; 6; 7]%Z; Copy 1 0; Write 1 2 8%Z; Move 2 0; Resize 1 4; Read 1 2].
Definition prog_end := [FromList 0 [5; 6; 7]%Z; Copy 1 0; Destroy 0; Resize 1 5; Destroy 1].
Definition asked := map (fun c => (c, Elsewhere)) prog.
Ltac bl := repeat split.
Lemma blank_sp : blank "  ". Proof. bl. Qed.
Lemma sz8 : (0 < 8 <= 32)%N. Proof. split; reflexivity || discriminate. Qed.
Lemma toks1 : toks false [-3; 9]%Z txt1 "x".
Proof. apply (toks_cons false nl (-3)%Z [9%Z] " 9 x"); [bl|reflexivity|]. apply (toks_cons false " " 9%Z nil " x"); [bl|reflexivity|]. apply (toks_nil false " "). bl. Qed.
Lemma toks2 : toks false [-3; 9]%Z txt2 "".
Proof. apply (toks_cons false nl (-3)%Z [9%Z] " 9 "); [bl|reflexivity|]. apply (toks_cons false " " 9%Z nil " "); [bl|reflexivity|]. apply (toks_nil false " "). bl. Qed.
Lemma toks3 : toks false [-3; 9]%Z txt3 (show_Z false 99999999999 ++ " x").
Proof. apply (toks_cons false nl (-3)%Z [9%Z] " 9 99999999999 x"); [bl|reflexivity|]. apply (toks_cons false " " 9%Z nil " 99999999999 x"); [bl|reflexivity|]. apply (toks_nil false " "). bl. Qed.
Definition asked_end : vst := match vrun2 8%N vst0 asked with Ok (s, _) => s | _ => vst0 end.
(** Large sizes, sealed so that nothing computes with them. *)
Lemma big_s : { k : nat | N.of_nat k = (2 ^ 62)%N }. Proof. exists (N.to_nat (2 ^ 62)). apply N2Nat.id. Qed.
Lemma near_s : { k : nat | N.of_nat k = (2 ^ 64 - 3)%N }. Proof. exists (N.to_nat (2 ^ 64 - 3)). apply N2Nat.id. Qed.
Definition big : nat := proj1_sig big_s. Definition near64 : nat := proj1_sig near_s.
Lemma big_size : is_size big. Proof. unfold is_size, big. rewrite (proj2_sig big_s). reflexivity. Qed.
Lemma big_unfit : ~ fits big. Proof. unfold fits, big. rewrite (proj2_sig big_s). discriminate. Qed.
Lemma big_not2 : big <> List.length [1; 2]%Z. Proof. intros E. pose proof (proj2_sig big_s) as H. fold big in H. rewrite E in H. discriminate. Qed.
Lemma big_row : is_size (1 * big). Proof. rewrite Nat.mul_1_l. exact big_size. Qed.
Lemma big_row_unfit : ~ fits (1 * big). Proof. rewrite Nat.mul_1_l. exact big_unfit. Qed.
Lemma near_sum : (N.of_nat 3 + N.of_nat near64 = two64)%N. Proof. unfold near64. rewrite (proj2_sig near_s). reflexivity. Qed.
Lemma near_pos : 0 < near64. Proof. pose proof (proj2_sig near_s) as H. fold near64 in H. destruct near64; [discriminate|apply Nat.lt_0_succ]. Qed.
(** Doubles: a tenth, -1024, a third; the tolerance is 2^-16. *)
Definition tenth : double := S754_finite false 7205759403792794 (-56).
Definition m1024 : double := S754_finite true 4503599627370496 (-42).
Definition third : double := S754_finite false 6004799503160661 (-54).
Definition tol16 : double := S754_finite false 4503599627370496 (-68).
#[local] Instance tolops : Ops double := fops tol16.
Definition fd (i j : nat) : double := match i, j with O, O => tenth | O, _ => m1024 | _, O => third | _, _ => tenth end.
Definition md := mkM 2 2 [tenth; m1024; third; tenth].
Lemma md_r : readsL (mb_of_mat md) 2 2 fd. Proof. apply is_mat_readsL. small. Qed.
Lemma md_wf : wf md. Proof. split; [apply sh; cbn; lia|reflexivity]. Qed.
Ltac dq := split; [split; [repeat split; reflexivity || (cbn; lia)|exact I]|vm_compute; discriminate].
Lemma tenth_ok : in_reach tenth. Proof. dq. Qed.
Lemma m1024_ok : in_reach m1024. Proof. dq. Qed.
Lemma third_ok : in_reach third. Proof. dq. Qed.
Lemma tol_ok : PropFloatCmp.proper tol16. Proof. split; [repeat split; reflexivity || (cbn; lia)|exact I]. Qed.
Lemma tol_6 : (last_digit 6 <= PropFloatIO.dval tol16 <= 1)%Q. Proof. split; vm_compute; discriminate. Qed.
Lemma fd_ok i j : i < 2 -> j < 2 -> in_reach (fd i j).
Proof. intros _ _. destruct i, j; cbn; (exact tenth_ok + exact m1024_ok + exact third_ok). Qed.
Lemma lok : Forall in_reach [tenth; m1024; third]. Proof. repeat constructor; (apply tenth_ok + apply m1024_ok + apply third_ok). Qed.
Ltac side := first
  [ exact big_size | exact big_unfit | exact big_not2 | exact big_row | exact big_row_unfit | exact near_sum | exact near_pos | exact md_r | exact fd_ok | exact md_wf | exact lok | exact tol_ok | exact tol_6 | exact m22_is | exact n22_is | exact m23_is | exact m22_r | exact (is_mat_readsL _ _ _ _ m23_is) | exact (is_mat_reads _ _ _ _ m22_is) | exact m22_wf | exact m23_wf | exact v3_is | exact v2_is
  | exact toks1 | exact toks2 | exact toks3 | reflexivity | exact blank_sp | (apply ft; cbn; lia) | (apply sz; cbn; lia) | (apply sh; cbn; lia) | (cbn; lia) | discriminate | (cbn; discriminate)
  | (repeat constructor; (reflexivity || discriminate || (cbn; lia)))
  | (split; [reflexivity|split; [reflexivity|split; discriminate]]) | (intros c Hc; cbn in Hc; intuition; subst; discriminate)
  | (intros [|[|i]] [|[|[|j]]] Hi Hj; cbn; unfold in_range, lo32, hi32; lia) | (repeat (constructor; [unfold in_range, lo32, hi32; lia|]); constructor) | (intros; cbn in *; unfold in_range, lo32, hi32; lia) | (left; reflexivity) | (right; reflexivity) ].
Ltac feed H := repeat lazymatch type of H with
  | ?P -> _ => let T := type of P in unify T Prop; let p := fresh in assert (p : P) by side; specialize (H p); clear p end.
Tactic Notation "meets" uconstr(t) := let H := fresh in epose proof t as H; feed H; exact H.
Example case_C01_memory_safe : exists s : vst, vrun (fun (_ : heap) (_ _ : nat) => false) vst0 prog = Ok (s, [Nothing; Nothing; Nothing; Nothing; Nothing; Value 8%Z]) /\ mem_ok s.
Proof. meets (C01_memory_safe (fun _ _ _ => false) prog _ _). Qed.
Example case_C01_no_leak : (forall x : nat, sset (sset (sset (sset (sset (fun _ : nat => None) 0 (Some [5%Z; 6%Z; 7%Z])) 1 (Some [5%Z; 6%Z; 7%Z])) 0 None) 1 (Some (sresize [5%Z; 6%Z; 7%Z] 5))) 1 None x = None) -> exists s : vst, vrun (fun (_ : heap) (_ _ : nat) => false) vst0 prog_end = Ok (s, [Nothing; Nothing; Nothing; Nothing; Nothing]) /\ (forall b : nat, ~ live s b).
Proof. meets (C01_no_leak (fun _ _ _ => false) prog_end _ _). Qed.
Example case_C01_out_of_range : vrun (fun (_ : heap) (_ _ : nat) => false) vst0 [FromList 0 [5%Z; 6%Z]; Read 0 2] = UB.
Proof. meets (C01_out_of_range (fun _ _ _ => false) [5; 6]%Z 2). Qed.
Example case_C67_vector_round_trip : exists txt ws : string, write_v (show_Z true) (show_Z false) [12%Z; (-7)%Z; 2147483647%Z] = Ok txt /\ blank ws /\ read_v lo32 hi32 [1%Z; 1%Z] (good ("  " ++ txt ++ tail)) = Ok ([12%Z; (-7)%Z; 2147483647%Z], good (ws ++ tail)).
Proof. meets (C67_vector_round_trip lo32 hi32 true [12; -7; 2147483647]%Z [1; 1]%Z "  " tail). Qed.
Example case_C68_matrix_round_trip : exists (txt ws : string) (m : Matrix Z), write_m (show_Z false) (show_Z false) (mb_of_mat m23) = Ok txt /\ blank ws /\ read_m lo32 hi32 m22 (good ("  " ++ txt ++ tail)) = Ok (m, good (ws ++ tail)) /\ is_mat m 2 3 f23.
Proof. meets (C68_matrix_round_trip lo32 hi32 false (mb_of_mat m23) 2 3 f23 m22 "  " tail). Qed.
Example case_C68_matrix_same : exists txt ws : string, write_m (show_Z false) (show_Z false) (mb_of_mat m23) = Ok txt /\ blank ws /\ read_m lo32 hi32 m22 (good ("  " ++ txt ++ tail)) = Ok (m23, good (ws ++ tail)).
Proof. meets (C68_matrix_same lo32 hi32 m23 m22 "  " tail). Qed.
Example case_C69_wrong_tag_vector : read_v lo32 hi32 [1%Z; 2%Z] (good ("  " ++ String "X" tail)) = Ok ([1%Z; 2%Z], good tail).
Proof. meets (C69_wrong_tag_vector lo32 hi32 [1; 2]%Z "  " "X"%char tail). Qed.
Example case_C69_wrong_tag_matrix : read_m lo32 hi32 m23 (good ("  " ++ String "V" tail)) = Ok (m23, good tail).
Proof. meets (C69_wrong_tag_matrix lo32 hi32 m23 "  " "V"%char tail). Qed.
Example case_C69_end_of_file : read_v lo32 hi32 [1%Z; 2%Z] (good "  ") = UB /\ read_m lo32 hi32 m23 (good "  ") = UB.
Proof. meets (C69_end_of_file lo32 hi32 [1; 2]%Z m23 "  "). Qed.
Example case_C69_failed_stream : read_v lo32 hi32 [1%Z; 2%Z] {| rest := "V 1"; failbit := true; eofbit := false |} = UB /\ read_m lo32 hi32 m23 {| rest := "V 1"; failbit := true; eofbit := false |} = UB.
Proof. meets (C69_failed_stream lo32 hi32 [1; 2]%Z m23 (mkIn "V 1" true false)). Qed.
Example case_C70_matrix : exists w : nat, print_m (show_Z false) (show_Z false) (mb_of_mat m23) = Ok (joined nl 2 (fun i : nat => joined " " 3 (fun j : nat => setw w (show_Z false (f23 i j))))) /\ (forall i j : nat, i < 2 -> j < 3 -> String.length (show_Z false (f23 i j)) <= w) /\ (0 < 2 * 3 -> exists i j : nat, i < 2 /\ j < 3 /\ String.length (show_Z false (f23 i j)) = w) /\ (forall i : nat, i < 2 -> String.length (joined " " 3 (fun j : nat => setw w (show_Z false (f23 i j)))) = 3 * w + (3 - 1)).
Proof. meets (C70_matrix (show_Z false) (mb_of_mat m23) 2 3 f23). Qed.
Example case_C70_vector : exists w : nat, print_v (show_Z false) (show_Z false) [4%Z; 7%Z; (-1)%Z] = Ok (joined " " 3 (fun i : nat => setw w (show_Z false (nth i [4%Z; 7%Z; (-1)%Z] 0%Z)))) /\ (forall i : nat, i < 3 -> String.length (show_Z false (nth i [4%Z; 7%Z; (-1)%Z] 0%Z)) <= w) /\ (0 < 3 -> exists i : nat, i < 3 /\ String.length (show_Z false (nth i [4%Z; 7%Z; (-1)%Z] 0%Z)) = w).
Proof. meets (C70_vector (show_Z false) [4; 7; -1]%Z 3 (fun i => nth i [4; 7; -1]%Z 0%Z)). Qed.
Example case_C71_vector : to_matlab_v (show_Z false) "v" [4%Z; 7%Z; (-1)%Z] = Ok ("v" ++ " = [" ++ joined " " 3 (fun i : nat => show_Z false (nth i [4%Z; 7%Z; (-1)%Z] 0%Z)) ++ "]")%string.
Proof. meets (C71_vector (show_Z false) "v" [4; 7; -1]%Z 3 (fun i => nth i [4; 7; -1]%Z 0%Z)). Qed.
Example case_C71_matrix : to_matlab_m (show_Z false) "A" (mb_of_mat m22) = Ok ("A" ++ " = [" ++ joined "" 2 (fun i : nat => "[" ++ joined " " 2 (fun j : nat => show_Z false (f22 i j)) ++ "];") ++ "]")%string.
Proof. meets (C71_matrix (show_Z false) "A" (mb_of_mat m22) 2 2 f22). Qed.
Example case_C70_matrix_injective : 2 = 2 /\ 2 = 2 /\ (forall i j : nat, i < 2 -> j < 2 -> f22 i j = f22 i j).
Proof. meets (C70_matrix_injective (mb_of_mat m22) 2 2 f22 (mb_of_mat m22) 2 2 f22). Qed.
Example case_C71_matlab_recoverable : 2 = 2 /\ (0 < 2 -> 2 = 2) /\ (forall i j : nat, i < 2 -> j < 2 -> f22 i j = f22 i j).
Proof. meets (C71_matlab_recoverable "A" (mb_of_mat m22) 2 2 f22 (mb_of_mat m22) 2 2 f22). Qed.
Example case_C77_bad_element : read_v lo32 hi32 [1%Z; 1%Z; 1%Z; 1%Z] (good ("  " ++ header 4 ++ txt1)) = Ok ([(-3)%Z; 9%Z] ++ 0%Z :: map (old [1%Z; 1%Z; 1%Z; 1%Z]) (seq (S (Datatypes.length [(-3)%Z; 9%Z])) (4 - S (Datatypes.length [(-3)%Z; 9%Z]))), {| rest := "x"; failbit := true; eofbit := false |}).
Proof. meets (C77_bad_element lo32 hi32 4 [1; 1; 1; 1]%Z "  " false [-3; 9]%Z txt1 "x"%char ""). Qed.
Example case_C77_out_of_range : read_v lo32 hi32 [1%Z; 1%Z; 1%Z; 1%Z] (good ("  " ++ header 4 ++ txt3)) = Ok ([(-3)%Z; 9%Z] ++ (if (99999999999 <? lo32)%Z then lo32 else hi32) :: map (old [1%Z; 1%Z; 1%Z; 1%Z]) (seq (S (Datatypes.length [(-3)%Z; 9%Z])) (4 - S (Datatypes.length [(-3)%Z; 9%Z]))), {| rest := " x"; failbit := true; eofbit := false |}).
Proof. meets (C77_out_of_range lo32 hi32 4 [1; 1; 1; 1]%Z "  " false [-3; 9]%Z txt3 99999999999%Z " x"). Qed.
Example case_C77_bad_size : read_v lo32 hi32 [1%Z; 2%Z] (good ("  " ++ "V" ++ "  " ++ String "z" tail)) = Ok ([], {| rest := String "z" tail; failbit := true; eofbit := false |}).
Proof. meets (C77_bad_size lo32 hi32 [1; 2]%Z "  " "  " "z"%char tail). Qed.
Example case_C77_no_size : read_v lo32 hi32 [1%Z; 2%Z] (good ("  " ++ "V" ++ "  ")) = UB /\ read_m lo32 hi32 m23 (good ("  " ++ "M" ++ "  ")) = UB.
Proof. meets (C77_no_size lo32 hi32 [1; 2]%Z m23 "  " "  "). Qed.
Example case_C77_matrix_bad_element : exists m' : Matrix Z, read_m lo32 hi32 m22 (good ("  " ++ mheader 2 2 ++ txt1)) = Ok (m', {| rest := "x"; failbit := true; eofbit := false |}) /\ is_mat m' 2 2 (fun i j : nat => let k := i * 2 + j in if k <? Datatypes.length [(-3)%Z; 9%Z] then nth k [(-3)%Z; 9%Z] 0%Z else if k =? Datatypes.length [(-3)%Z; 9%Z] then 0%Z else kept 2 2 f22 i j).
Proof. meets (C77_matrix_bad_element lo32 hi32 m22 2 2 f22 2 2 "  " false [-3; 9]%Z txt1 "x"%char ""). Qed.
Example case_C77_matrix_truncated : exists m' : Matrix Z, read_m lo32 hi32 m22 (good ("  " ++ mheader 2 2 ++ txt2)) = Ok (m', {| rest := ""; failbit := true; eofbit := true |}) /\ is_mat m' 2 2 (fun i j : nat => let k := i * 2 + j in if k <? Datatypes.length [(-3)%Z; 9%Z] then nth k [(-3)%Z; 9%Z] 0%Z else kept 2 2 f22 i j).
Proof. meets (C77_matrix_truncated lo32 hi32 m22 2 2 f22 2 2 "  " false [-3; 9]%Z txt2). Qed.
Example case_C77_matrix_out_of_range : exists m' : Matrix Z, read_m lo32 hi32 m22 (good ("  " ++ mheader 2 2 ++ txt3)) = Ok (m', {| rest := " x"; failbit := true; eofbit := false |}) /\ is_mat m' 2 2 (fun i j : nat => let k := i * 2 + j in if k <? Datatypes.length [(-3)%Z; 9%Z] then nth k [(-3)%Z; 9%Z] 0%Z else if k =? Datatypes.length [(-3)%Z; 9%Z] then if (99999999999 <? lo32)%Z then lo32 else hi32 else kept 2 2 f22 i j).
Proof. meets (C77_matrix_out_of_range lo32 hi32 m22 2 2 f22 2 2 "  " false [-3; 9]%Z txt3 99999999999%Z " x"). Qed.
Example case_C77_matrix_bad_rows : read_m lo32 hi32 m23 (good ("  " ++ "M" ++ "  " ++ String "z" tail)) = UB.
Proof. meets (C77_matrix_bad_rows lo32 hi32 m23 "  " "  " "z"%char tail). Qed.
Example case_C77_matrix_bad_cols : exists m' : Matrix Z, read_m lo32 hi32 m23 (good ("  " ++ "M " ++ show_nat 2 ++ "  " ++ String "z" tail)) = Ok (m', {| rest := String "z" tail; failbit := true; eofbit := false |}) /\ is_mat m' 2 0 (fun _ _ : nat => 0%Z).
Proof. meets (C77_matrix_bad_cols lo32 hi32 m23 2 3 f23 "  " 2 "  " "z"%char tail). Qed.
Example case_C77_matrix_no_cols : read_m lo32 hi32 m23 (good ("  " ++ "M " ++ show_nat 2 ++ "  ")) = UB.
Proof. meets (C77_matrix_no_cols lo32 hi32 m23 "  " 2 "  "). Qed.
Example case_C78_after_text_refuted : exists (txt : string) (s : istream), write_chain true [WText "  "; WVec [4%Z; 5%Z]] = Ok txt /\ read_v lo32 hi32 [1%Z] (good txt) = Ok ([1%Z], s).
Proof. meets (C78_after_text_refuted lo32 hi32 "  " [4; 5]%Z [1]%Z). Qed.
Example case_C78_matrix_after_text_refuted : exists (txt : string) (s : istream), write_chain true [WText "  "; WMat (mb_of_mat m22)] = Ok txt /\ read_m lo32 hi32 m23 (good txt) = Ok (m23, s).
Proof. meets (C78_matrix_after_text_refuted lo32 hi32 "  " (mb_of_mat m22) 2 2 f22 m23). Qed.
Example case_C77_huge_size : read_v lo32 hi32 [1%Z; 2%Z] (good ("  " ++ header big ++ tail)) = UB.
Proof. meets (C77_huge_size lo32 hi32 [1; 2]%Z "  " big tail). Qed.
Example case_C77_matrix_huge : read_m lo32 hi32 m23 (good ("  " ++ mheader 1 big ++ tail)) = UB.
Proof. meets (C77_matrix_huge lo32 hi32 m23 "  " 1 big tail). Qed.
Example case_C77_negative_size : read_v lo32 hi32 [1%Z; 2%Z] (good ("  " ++ "V -" ++ show_nat 3 ++ tail)) = read_v lo32 hi32 [1%Z; 2%Z] (good ("  " ++ header near64 ++ tail)).
Proof. meets (C77_negative_size lo32 hi32 [1; 2]%Z "  " 3 near64 tail). Qed.
Example case_C77_negative_rows : read_m lo32 hi32 m23 (good ("  " ++ "M -" ++ show_nat 3 ++ tail)) = read_m lo32 hi32 m23 (good ("  " ++ "M " ++ show_nat near64 ++ tail)).
Proof. meets (C77_negative_rows lo32 hi32 m23 "  " 3 near64 tail). Qed.
Example case_C77_negative_cols : read_m lo32 hi32 m23 (good ("  " ++ "M " ++ show_nat 2 ++ " -" ++ show_nat 3 ++ tail)) = read_m lo32 hi32 m23 (good ("  " ++ mheader 2 near64 ++ tail)).
Proof. meets (C77_negative_cols lo32 hi32 m23 "  " 2 3 near64 tail). Qed.
Example case_C105_vector : exists (txt ws : string) (l' : list double) (E E' : list bool), write_v (show_double true 6) (show_double false 6) [tenth; m1024; third] = Ok txt /\ blank ws /\ gread_v get_double [tenth] (good ("  " ++ txt ++ tail)) = Ok (l', good (ws ++ tail)) /\ v_eq l' [tenth; m1024; third] = Ok E /\ all_v E = Ok true /\ v_eq [tenth; m1024; third] l' = Ok E' /\ all_v E' = Ok true.
Proof. meets (C105_vector tol16 6 tol_ok tol_6 true [tenth; m1024; third] [tenth] "  " tail). Qed.
Example case_C105_matrix : exists (txt ws : string) (m : Matrix double) (E E' : Matrix bool), write_m (show_double false 6) (show_double false 6) (mb_of_mat md) = Ok txt /\ blank ws /\ gread_m get_double md (good ("  " ++ txt ++ tail)) = Ok (m, good (ws ++ tail)) /\ rows m = 2 /\ cols m = 2 /\ m_eq (mb_of_mat m) (mb_of_mat md) = Ok E /\ all_m (mb_of_mat E) = Ok true /\ m_eq (mb_of_mat md) (mb_of_mat m) = Ok E' /\ all_m (mb_of_mat E') = Ok true.
Proof. meets (C105_matrix tol16 6 tol_ok tol_6 false (mb_of_mat md) 2 2 fd md "  " tail). Qed.
Example case_C120_values : vrun2 8 vst0 asked = UB \/ (exists s : vst, vrun2 8 vst0 asked = Ok (s, [Nothing; Nothing; Nothing; Nothing; Nothing; Value 8%Z])).
Proof. meets (C120_values 8%N sz8 asked _ _). Qed.
Example case_C120_no_refusal : exists s : vst, vrun2 8 vst0 asked = Ok (s, [Nothing; Nothing; Nothing; Nothing; Nothing; Value 8%Z]) /\ mem_ok s /\ same_values s (sset (sset (sset (sset (sset (sset (fun _ : nat => None) 0 (Some [5%Z; 6%Z; 7%Z])) 1 (Some [5%Z; 6%Z; 7%Z])) 1 (Some (upd [5%Z; 6%Z; 7%Z] 2 8%Z))) 0 (Some [])) 2 (Some [5%Z; 6%Z; 7%Z])) 1 (Some (sresize (upd [5%Z; 6%Z; 7%Z] 2 8%Z) 4))).
Proof. meets (C120_no_refusal 8%N sz8 asked _ _). Qed.
Example case_C120_refused_growth : vrun2 8 vst0 (asked ++ [(Resize 1 9, Refuse); (Size 2, Elsewhere)]) = UB.
Proof. meets (C120_refused_growth 8%N sz8 asked _ _ (Resize 1 9) _ _ 4 9 [(Size 2, Elsewhere)]). Qed.
Example case_C120_refused_assign : vrun2 8 vst0 (asked ++ [(Assign 1 2, Refuse); (Size 2, Elsewhere)]) = UB.
Proof. meets (C120_refused_assign 8%N sz8 asked _ _ 1 2 _ _ [(Size 2, Elsewhere)]). Qed.
Example case_C120_refused_shrink : exists s' : vst, vstep2 8 Refuse asked_end (Resize 1 2) = Ok (s', Nothing) /\ (forall r : reply, vstep2 8 r s' (Size 1) = Ok (s', Len 2)) /\ (forall (r : reply) (i : nat), vstep2 8 r s' (Read 1 i) = UB) /\ (forall (r : reply) (i : nat) (v : Z), vstep2 8 r s' (Write 1 i v) = UB) /\ (forall (r : reply) (y : nat), vstep2 8 r s' (Copy y 1) = UB).
Proof. meets (C120_refused_shrink 8%N sz8 asked _ _ asked_end 1 _ 2). Qed.
Example case_C120_leak : exists b : nat, forall (rest : list (vop * reply)) (s : vst) (os' : list obs), vrun2 8 vst0 (asked ++ (Resize 1 2, Refuse) :: rest) = Ok (s, os') -> live s b /\ (forall (y : nat) (o : vobj), env s y = Some o -> vptr o <> Some b).
Proof. meets (C120_leak 8%N sz8 asked _ _ 1 _ 2). Qed.
Example case_C120_not_asked : vstep2 8 Refuse asked_end (Resize 1 4) = vstep2 8 Elsewhere asked_end (Resize 1 4).
Proof. meets (C120_not_asked 8%N sz8 asked _ _ asked_end (Resize 1 4) 4 4 Refuse Elsewhere). Qed.
