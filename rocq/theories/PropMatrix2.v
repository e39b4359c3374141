(** PropMatrix2.v: moves, empty objects, iteration and the range form of operator(). *)
From Verif Require Import Mat Spec MatFacts ViewFacts ViewFacts2 PropMatrix.
From Coq Require Import ZArith Lia List.
Import ListNotations.
Local Open Scope nat_scope.

Section Props.
Context {T : Type} {O : Ops T}.
Implicit Types (m b : Matrix T).

(** empty() says that there is no element. *)
Theorem C05_empty : forall m r c f, is_mat m r c f ->
  (mempty (mb_of_mat m) = true <-> msize (mb_of_mat m) = 0) /\ (mempty (mb_of_mat m) = true <-> r = 0 \/ c = 0).
Proof.
  intros m r c f H. destruct (is_mat_reads _ _ _ _ H) as (_ & _ & Z & _). rewrite Z.
  destruct H as (Hr & Hc & _). unfold mb_of_mat; cbn. rewrite Hr, Hc.
  destruct (Nat.eqb_spec r 0), (Nat.eqb_spec c 0); cbn; split; split; intros; auto; try nia; try discriminate.
Qed.
(** [Matrix b(std::move(a))]: b is what a was; a still reports its shape, but has no
    elements, so reading any of them is undefined. *)
Theorem C06_move : forall m r c f, is_mat m r c f -> exists m1 m2, mat_move_ctor m = (m1, m2) /\
  is_mat m1 r c f /\ mrows (mb_of_mat m2) = r /\ mcols (mb_of_mat m2) = c /\ msize (mb_of_mat m2) = r * c /\
  forall i j, mget (mb_of_mat m2) i j = UB.
Proof.
  intros m r c f H. exists (fst (mat_move_ctor m)), (snd (mat_move_ctor m)). split; [reflexivity|].
  assert (H' := H). destruct H' as (Hr & Hc & Hs & _). destruct m as [mr mc md]. cbn in *. subst.
  split; [exact H|]. repeat split; auto.
  - apply mul64_small. apply shape_size; auto.
  - intros i j. apply lget_ub. cbn. lia.
Qed.
(** [a = std::move(b)]: nothing happens when b is empty; otherwise a is what b was and b keeps
    its shape but no elements. *)
Theorem C07_move_assign_empty : forall m b, wf b -> rows b * cols b = 0 -> mat_move_assign m b = (m, b).
Proof. intros m b (Hs & _) E. unfold mat_move_assign. rewrite mul64_small by (apply shape_size; auto). rewrite E. reflexivity. Qed.
Theorem C07_move_assign_full : forall m b r c f, is_mat b r c f -> 0 < r * c -> exists m1 b1, mat_move_assign m b = (m1, b1) /\
  is_mat m1 r c f /\ mrows (mb_of_mat b1) = r /\ mcols (mb_of_mat b1) = c /\ msize (mb_of_mat b1) = r * c /\
  forall i j, mget (mb_of_mat b1) i j = UB.
Proof.
  intros m b r c f H Hp. destruct (C06_move b r c f H) as (m1 & b1 & E & Q). exists m1, b1. split; auto. rewrite <- E.
  destruct H as (Hr & Hc & Hs & _). unfold mat_move_assign. rewrite Hr, Hc, mul64_small by (apply shape_size; auto).
  destruct (Nat.eqb_spec (r * c) 0); [lia|]. destruct b; cbn in *; subst; reflexivity.
Qed.
(** Assigning [{}] or [{{}}] changes nothing (the constructor throws for them, C06). *)
Theorem C07_assign_nested_empty : forall m (ll : list (list T)), (ll = nil \/ exists rest, ll = nil :: rest) ->
  mat_assign_nested m ll = Ok m.
Proof. intros m ll [->|(rest & ->)]; reflexivity. Qed.
End Props.
Example C06_move_ex : mat_move_ctor (mkM 1 2 [3; 4]%Z) = (mkM 1 2 [3; 4]%Z, mkM 1 2 []).
Proof. reflexivity. Qed.
Example C05_empty_ex : is_mat (mkM 0 3 (@nil Z)) 0 3 (fun _ _ => 0%Z) /\ mempty (mb_of_mat (mkM 0 3 (@nil Z))) = true.
Proof. split; [|reflexivity]. repeat split; try (unfold fits, alloc_max; cbn; lia). Qed.
