(** PropMisc.v: further theorems for C75 and concrete cases for C02. *)
From Verif Require Import UtilFacts2 Scalar MathM ViewFacts2 PropMatrix PropUtil PropMath PropHeap VecHeap.

Section Inner.
Context {T : Type} {O : Ops T}.
(** inner_product of two whole vectors of the same length, starting from 0, is dot. *)
Theorem C75_dot : forall (a b : list T), length a = length b -> inner_product a b 0 (length a) 0 o0 = dot a b.
Proof.
  intros a b E. unfold inner_product, dot. rewrite <- E, Nat.eqb_refl. cbn [negb Nat.ltb Nat.leb].
  apply for_range_ext. intros i s Hi. rewrite Nat.sub_0_r. reflexivity.
Qed.
(** A range that leaves one of the buffers. *)
Theorem C75_outside : forall (l1 l2 : list T) first1 last1 first2 init, first1 <= last1 ->
  length l1 < last1 /\ first1 < last1 \/ length l2 < first2 + (last1 - first1) /\ first1 < last1 ->
  inner_product l1 l2 first1 last1 first2 init = UB.
Proof.
  intros l1 l2 p q s init H1 H. unfold inner_product. destruct (Nat.ltb_spec q p); [lia|].
  match goal with |- for_range p q ?bd ?s0 = UB =>
    destruct (for_range_ok_ub_inv (fun i (_ : T) => i = p \/ i <= length l1 /\ s + (i - p) <= length l2) p q bd s0) as [E|(x & _ & E)] end; auto; try lia.
  intros i acc Hi _. destruct (Nat.lt_ge_cases i (length l1)) as [L1|L1]; [|right; rewrite lget_ub by auto; reflexivity].
  destruct (nth_error_lt l1 i L1) as (x & Ex). rewrite (lget_ok _ _ _ Ex). cbn [bind].
  destruct (Nat.lt_ge_cases (s + (i - p)) (length l2)) as [L2|L2]; [|right; rewrite lget_ub by auto; reflexivity].
  destruct (nth_error_lt l2 _ L2) as (y & Ey). rewrite (lget_ok _ _ _ Ey). left. eexists. split; [reflexivity|]. right. lia.
Qed.
Theorem C75_accumulate_outside : forall (l : list T) first last init, first < last -> length l < last ->
  accumulate l first last init = UB.
Proof.
  intros l p q init H1 H. unfold accumulate. destruct (Nat.ltb_spec q p); [lia|].
  match goal with |- for_range p q ?bd ?s0 = UB =>
    destruct (for_range_ok_ub_inv (fun i (_ : T) => i = p \/ i <= length l) p q bd s0) as [E|(x & _ & E)] end; auto; try lia.
  intros i acc Hi _. destruct (Nat.lt_ge_cases i (length l)) as [L1|L1]; [|right; rewrite lget_ub by auto; reflexivity].
  destruct (nth_error_lt l i L1) as (x & Ex). rewrite (lget_ok _ _ _ Ex). left. eexists. split; [reflexivity|]. right. lia.
Qed.
End Inner.
Example C75_dot_ex : inner_product [1;2;3]%Z [4;5;6]%Z 0 3 0 0%Z = Ok 32%Z /\ dot [1;2;3]%Z [4;5;6]%Z = Ok 32%Z /\
  inner_product [1;2;3]%Z [4;5]%Z 0 3 0 0%Z = UB.
Proof. repeat split; reflexivity. Qed.

(** A write through one vector is not seen through its copy, nor through the vector it was
    moved from. *)
Example ex_C02 : forall ip, exists s, vrun ip vst0
    [FromList 0 [1;2]%Z; Copy 1 0; Write 1 0 9%Z; Read 0 0; Read 1 0; Move 2 1; Write 2 1 8%Z; Size 1; Assign 0 2; Resize 2 3; Read 0 1; Read 2 2] =
  Ok (s, [Nothing; Nothing; Nothing; Value 1%Z; Value 9%Z; Nothing; Nothing; Len 0; Nothing; Nothing; Value 8%Z; Value 0%Z]).
Proof.
  intros ip. destruct (srun (fun _ => None) [FromList 0 [1;2]%Z; Copy 1 0; Write 1 0 9%Z; Read 0 0; Read 1 0; Move 2 1; Write 2 1 8%Z; Size 1; Assign 0 2; Resize 2 3; Read 0 1; Read 2 2])
    as [[e os]|] eqn:E; [|vm_compute in E; discriminate].
  destruct (C02_value_semantics ip _ e os E) as (s & -> & _). exists s. f_equal. f_equal.
  apply (f_equal (option_map snd)) in E. vm_compute in E. congruence.
Qed.
