(** PropVecElem.v: C122, Vectors whose elements are objects with an assignment operator of
    their own, such as Vector<Vector<double>>. *)
From Verif Require Import VecHeap VecElem BaseFacts Scalar.
From Coq Require Import Lia.

(** An element type like [double] or std::complex: assigning replaces the value and does
    not look at what was there. *)
Definition plain {T} (asg : option T -> T -> Res T) : Prop := forall old v, asg old v = Ok v.
(** A class whose [operator=] must not be called where no object was constructed. *)
Definition needs_object {T} (asg : option T -> T -> Res T) : Prop := forall v, asg None v = UB.

(** A Vector of this kind, element type [list Z]: the left side is what the inner Vector
    owned, which [operator=] gives back to the allocator (vector.hpp:218-228, 314-360); in
    raw memory it would give back whatever bytes happen to be there. *)
Definition inner_assign (old : option (list Z)) (v : list Z) : Res (list Z) :=
  match old with Some _ => Ok v | None => UB end.

Section S.
Context {T : Type} {O : Ops T}.
Context (ip : @heap T -> nat -> nat -> bool).

(** ** Plain elements: nothing new *)
Section Plain.
Context (asg : option T -> T -> Res T) (P : plain asg).
Lemma e_store_plain h p i v : e_store asg h p i v = store h p i v.
Proof.
  unfold e_store, store. destruct p as [b|]; [|reflexivity].
  destruct (nth_error h b) as [[cells|]|]; try reflexivity.
  destruct (nth_error cells i) as [old|] eqn:E.
  - rewrite P. cbn. assert (L : i < length cells) by (apply nth_error_Some; congruence).
    apply Nat.ltb_lt in L. rewrite L. reflexivity.
  - apply nth_error_None in E. apply Nat.ltb_ge in E. rewrite E. reflexivity.
Qed.
Lemma e_alloc_plain h o n : e_allocate ip asg h o n = v_allocate ip h o n.
Proof.
  unfold e_allocate, v_allocate. destruct (n =? 0); [reflexivity|]. destruct (n =? vsz o); [reflexivity|].
  destruct (hrealloc ip h (vptr o) n) as [[h1 p]| | | |]; cbn; try reflexivity.
  rewrite (for_range_ext (fun i h => e_store asg h p i o0) (fun i h => store h p i o0)) by (intros; apply e_store_plain).
  rewrite (for_range_ext (fun i h => e_store asg h p i o0) (fun i h => store h p i o0) 0) by (intros; apply e_store_plain).
  reflexivity.
Qed.

(** C122: with plain elements every program behaves as the one of VecHeap.v does, so that
    C01 and C02 are about these Vectors. *)
Theorem C122_plain : forall s cs, erun ip asg s cs = vrun ip s cs.
Proof.
  intros s cs. revert s. induction cs as [|c cs IH]; intros s; [reflexivity|].
  cbn. assert (E : estep ip asg s c = vstep ip s c).
  { assert (ES : forall A (g : nat -> heap -> Res A) p n h (f : A -> T),
      for_range 0 n (fun i h => let* x := g i h in e_store asg h p i (f x)) h
      = for_range 0 n (fun i h => let* x := g i h in store h p i (f x)) h).
    { intros. apply for_range_ext. intros i h' _. destruct (g i h'); cbn; try reflexivity. apply e_store_plain. }
    destruct c; cbn [estep vstep]; try reflexivity;
      unfold e_sized, v_sized, e_fill, v_fill, e_list, v_list, e_copy, v_copy, e_assign, v_assign, e_resize, v_resize;
      repeat (destruct (fresh_name _ _); cbn; try reflexivity);
      repeat (destruct (look _ _); cbn; try reflexivity);
      try (destruct (_ =? _); cbn; try reflexivity);
      rewrite ?e_alloc_plain;
      try (match goal with |- context [v_allocate ip ?h ?o ?n] => destruct (v_allocate ip h o n) as [[[h1 o1] [|]]| | | |]; cbn; try reflexivity end).
    - rewrite (for_range_ext (fun i h => e_store asg h (vptr o1) i v) (fun i h => store h (vptr o1) i v)) by (intros; apply e_store_plain). reflexivity.
    - rewrite (ES T (fun i _ => lget l i) (vptr o1) (vsz o1) h1 (fun x => x)). reflexivity.
    - rewrite (ES T (fun i _ => lget l i) (vptr o1) (vsz o1) h1 (fun x => x)). reflexivity.
    - rewrite (ES T (fun i h => load h (vptr a0) i) (vptr o1) (vsz o1) h1 (fun x => x)). reflexivity.
    - rewrite (ES T (fun i h => load h (vptr a0) i) (vptr o1) (vsz o1) h1 (fun x => x)). reflexivity.
    - rewrite e_store_plain. reflexivity. }
  rewrite E. destruct (vstep ip s c) as [[s1 o1]| | | |]; cbn; try reflexivity.
  rewrite IH. reflexivity.
Qed.
End Plain.

(** ** Elements that need an object *)
Section Class.
Context (asg : option T -> T -> Res T) (N : needs_object asg).
Lemma e_alloc_null h n : e_allocate ip asg h vnull n = if n =? 0 then Ok (h, vnull, false) else UB.
Proof.
  unfold e_allocate. cbn [vnull vsz vptr]. destruct n as [|n]; [reflexivity|]. cbn [Nat.eqb Nat.ltb Nat.leb].
  unfold hrealloc. destruct (fitsb (S n)) eqn:F; cbn.
  - rewrite for_range_first by lia. cbn. rewrite nth_error_app2, Nat.sub_diag by lia. cbn. rewrite N. reflexivity.
  - rewrite for_range_first by lia. reflexivity.
Qed.

(** C122: no constructor gives such a Vector with an element. *)
Theorem C122_construct : forall h n v l, 0 < n -> l <> nil ->
  e_sized ip asg h n = UB /\ e_fill ip asg h n v = UB /\ e_list ip asg h l = UB.
Proof.
  intros h n v l Hn Hl. unfold e_sized, e_fill, e_list. rewrite !e_alloc_null.
  destruct n; [lia|]. destruct l; [congruence|]. cbn. auto.
Qed.

(** C122: nor does any way of growing one: whatever the Vector holds, if its block has
    exactly the cells of its elements. *)
Theorem C122_grow : forall h o cells b n, vptr o = Some b -> nth_error h b = Some (Some cells) ->
  length cells = vsz o -> vsz o < n -> e_resize ip asg h o n = UB.
Proof.
  intros h o cells b n Hp Hb Hl Hn. unfold e_resize, e_allocate.
  destruct (n =? 0) eqn:E0; [apply Nat.eqb_eq in E0; lia|].
  destruct (n =? vsz o) eqn:E1; [apply Nat.eqb_eq in E1; lia|].
  assert (E2 : vsz o <? n = true) by (apply Nat.ltb_lt; lia). rewrite E2, Hp. cbn. rewrite Hb.
  assert (K : nth_error (firstn n cells ++ repeat None (n - length cells)) (vsz o) = Some (@None T)).
  { rewrite nth_error_app2; rewrite firstn_length, Nat.min_r by lia; [|lia].
    rewrite Hl, Nat.sub_diag. destruct (n - vsz o) eqn:D; [lia|reflexivity]. }
  destruct (negb (fitsb n)); [|destruct (ip h b n)]; cbn; rewrite for_range_first by lia; cbn.
  - reflexivity.
  - rewrite upd_same by (apply nth_error_Some; congruence). rewrite K, N. reflexivity.
  - rewrite nth_error_app2 by (rewrite upd_length; lia). rewrite upd_length, Nat.sub_diag. cbn. rewrite K, N. reflexivity.
Qed.

Definition all_empty (s : vst) : Prop := @hp T s = nil /\ forall x o, env s x = Some o -> o = vnull.
Definition saw_nothing (ob : obs) : Prop := @Nothing T = ob \/ Len 0 = ob.

Lemma empty_bind s x a h : all_empty s -> h = nil -> (a = None \/ a = Some vnull) -> all_empty (mkSt h (bindn (env s) x a)).
Proof.
  intros [H E] Hh Ha. split; [exact Hh|]. cbn. intros y o. unfold bindn.
  destruct (y =? x); [destruct Ha; congruence|apply E].
Qed.
Lemma step_empty s c s' ob : all_empty s -> estep ip asg s c = Ok (s', ob) -> all_empty s' /\ saw_nothing ob.
Proof.
  intros A. pose proof A as [H E].
  assert (L : forall x o, look s x = Ok o -> o = vnull).
  { intros x o. unfold look. destruct (env s x) eqn:Ex; intros [= <-]. exact (E _ _ Ex). }
  assert (Pt : forall i v, e_store asg (hp s) None i v = UB) by reflexivity.
  unfold saw_nothing.
  destruct c; cbn [estep vstep];
    unfold e_sized, v_sized, e_fill, v_fill, e_list, v_list, e_copy, v_copy, e_assign, v_assign, e_resize, v_resize, v_move, v_move_assign;
    repeat (match goal with |- context [fresh_name s ?x] => destruct (fresh_name s x); cbn; try discriminate end);
    repeat (match goal with |- context [look s ?x] => let Q := fresh "Q" in destruct (look s x) eqn:Q; cbn; try discriminate; apply L in Q; subst end);
    rewrite ?e_alloc_null; rewrite ?H;
    repeat (match goal with |- context [if ?b then _ else _] => destruct b; cbn; try discriminate end);
    intros [= <- <-]; (split; [try assumption; repeat (apply empty_bind; auto)|auto]).
  all: apply (empty_bind (mkSt nil (bindn (env s) y (Some vnull)))); [apply empty_bind; auto|reflexivity|auto].
Qed.

(** C122: whatever a program does with such Vectors, if it is defined then no Vector of it
    ever has an element: every size it sees is 0, nothing is ever allocated, and every
    Vector that is left is empty. *)
Theorem C122_history : forall cs s os, erun ip asg vst0 cs = Ok (s, os) ->
  hp s = nil /\ (forall x o, env s x = Some o -> vsz o = 0 /\ vptr o = None) /\
  (forall ob, In ob os -> Nothing = ob \/ Len 0 = ob).
Proof.
  assert (G : forall cs s s' os, all_empty s -> erun ip asg s cs = Ok (s', os) -> all_empty s' /\ forall ob, In ob os -> saw_nothing ob).
  { induction cs as [|c cs IH]; intros s s' os A; cbn.
    - intros [= <- <-]. split; [exact A|intros ob []].
    - destruct (estep ip asg s c) as [[s1 o1]| | | |] eqn:E1; cbn; try discriminate.
      destruct (erun ip asg s1 cs) as [[s2 os2]| | | |] eqn:E2; cbn; try discriminate.
      intros [= <- <-]. destruct (step_empty s c s1 o1 A E1) as [A1 B1]. destruct (IH s1 s2 os2 A1 E2) as [A2 B2].
      split; [exact A2|]. intros ob [<-|I]; auto. }
  intros cs s os R. destruct (G cs vst0 s os) as [[H E] B]; auto.
  { split; [reflexivity|discriminate]. }
  split; [exact H|]. split; [|exact B]. intros x o Ex. rewrite (E x o Ex). auto.
Qed.
End Class.
End S.

(** ** Concrete cases *)
(** Vector<Vector<int>>: only the zero element, an empty inner Vector, is of interest. *)
#[local] Instance listops : Ops (list Z) := {|
  o0 := nil; o1 := nil; oadd := @app Z; osub := @app Z; omul := @app Z; oopp := fun a => a; odiv := fun a _ => Ok a;
  oeq := fun a b => if list_eq_dec Z.eq_dec a b then true else false; olt := fun a b => length a <? length b;
  ole := fun a b => length a <=? length b; ofeq := fun a b => if list_eq_dec Z.eq_dec a b then true else false;
  oisz := fun a => length a =? 0; oabs := fun a => a; ofnat := fun _ => nil |}.
Example C122_inner_needs_object : needs_object inner_assign.
Proof. intros v. reflexivity. Qed.
(** [Vector<Vector<int>> x(2);] and [Vector<Vector<int>> x; x.resize(1);] are undefined. *)
Example C122_sized_ex : erun (fun _ _ _ => true) inner_assign vst0 [Sized 0 2] = UB.
Proof. reflexivity. Qed.
Example C122_resize_ex : erun (fun _ _ _ => true) inner_assign vst0 [New 0; Resize 0 1] = UB.
Proof. reflexivity. Qed.
(** A defined program: it never has an element. *)
Example C122_history_ex : exists s,
  erun (fun _ _ _ => true) inner_assign vst0 [New 0; Copy 1 0; Resize 1 0; Assign 0 1; Size 1; Destroy 0]
  = Ok (s, [Nothing; Nothing; Nothing; Nothing; Len 0; Nothing]) /\ env s 1 = Some vnull.
Proof. eexists. split; reflexivity. Qed.
(** Where two inner Vectors were constructed by other means, growing is still undefined. *)
Example C122_grow_ex : e_resize (fun _ _ _ => false) inner_assign [Some [Some [1%Z]; Some [2%Z; 3%Z]]] (mkV (Some 0) 2) 3 = UB.
Proof. eapply (C122_grow _ inner_assign C122_inner_needs_object); [reflexivity|reflexivity|reflexivity|cbn; lia]. Qed.
(** The same two programs with [int] elements. *)
Example C122_plain_ex : exists s, erun (T := Z) (fun _ _ _ => true) (fun _ v => Ok v) vst0 [Sized 0 2; Resize 0 3; Size 0; Read 0 2]
  = Ok (s, [Nothing; Nothing; Len 3; Value 0%Z]).
Proof. eexists. rewrite (C122_plain _ _ (fun _ _ => eq_refl)). reflexivity. Qed.
