(** PropThreadsOOM.v: threads that only write to their own Vectors, when memory runs
    out (C131).  [obeys], [alone] and the other words of the statements are those of
    PropThreads.v. *)
From Verif Require Import ThreadsOOM PropHeap PropOOM PropThreads MatFacts BaseFacts.
Arguments Nat.ltb : simpl never.
Arguments Nat.leb : simpl never.
Arguments Nat.eqb : simpl never.

Section Vectors.
Context {T : Type} {O : Ops T} {A : Type} (sz : N) (Hsz : (0 < sz <= 32)%N).
Implicit Types (e f : @seqs T) (p : prog T A).

(** One proof for both: [Rel] is what holds of the memory, [may] the answers allowed. *)
Section Run.
Context (may : nat -> reply -> Prop) (Rel : @vst T -> @seqs T -> Prop) (own : nat -> option nat).
Hypothesis Hstep : forall t r s e c e1 ob s' ob', may t r -> allowed own t (writes c) (only_reads c) -> Rel s e -> sstep e c = Some (e1, ob) -> vstep2 sz r s c = Ok (s', ob') -> ob' = ob /\ Rel s' e1.
Context (N : nat) (e0 : @seqs T) (s0 : @vst T) (th : nat -> prog T A) (E : nat -> @seqs T) (a : nat -> A) (n : nat -> nat).
Hypothesis (HR : Rel s0 e0) (Hob : forall t, obeys own t (th t)) (Hal : forall t, alone e0 (th t) = Some (E t, a t, n t))
  (HN : forall t, N <= t -> n t = 0).
Definition inv2 (k : nat) (x : conf T A) : Prop := exists e m, Rel (mem x) e /\ (forall z, own z = None -> e z = e0 z) /\
  (forall t, obeys own t (todo x t) /\ exists e', alone e (todo x t) = Some (e', a t, m t) /\ agree own t e' (E t)) /\
  k + list_sum (map m (seq 0 N)) = list_sum (map n (seq 0 N)) /\ (forall t, N <= t -> m t = 0).
Lemma inv2_init : inv2 0 (mkC s0 th).
Proof.
  exists e0, n. cbn [mem todo]. split; [exact HR|]. split; [auto|]. split; [|split; auto].
  intros t. split; auto. exists (E t). split; auto. intros z _. auto.
Qed.
Lemma inv2_step k x y : inv2 k x -> cstep2 sz may x y -> inv2 (S k) y.
Proof.
  intros (e & m & Hr & Hs & Ht & Hk & Hm) Hc. destruct Hc as [s th' t c q r s' ob Eq Er Ev]. cbn [mem todo] in *.
  destruct (Ht t) as (Ot & e' & At & Gt). rewrite Eq in Ot, At. cbn [obeys alone] in Ot, At. destruct Ot as (Oc & Oq).
  destruct (sstep e c) as [[e1 ob1]|] eqn:Es; [|discriminate]. destruct (alone e1 (q ob1)) as [[[e2 a2] m2]|] eqn:Ea; [|discriminate].
  injection At as -> -> Hmt.
  destruct (Hstep _ _ _ _ _ _ _ _ _ Er Oc Hr Es Ev) as (-> & Hr2).
  assert (Hoff : forall z, own z <> Some t -> e1 z = e z).
  { intros z Hz. destruct (sstep_local e e c e1 ob1 ltac:(auto) Es) as (e1' & E1' & _ & W). assert (e1' = e1) by congruence. subst e1'.
    apply (W z). intros Hin. apply Hz. apply Oc, Hin. }
  assert (HtN : t < N) by (destruct (Nat.lt_ge_cases t N) as [|G]; auto; specialize (Hm t G); lia).
  exists e1, (fun u => if u =? t then m2 else m u). cbn [mem todo]. split; [auto|]. split; [|split; [|split]].
  - intros z Hz. rewrite Hoff by congruence. auto.
  - intros u. destruct (Nat.eqb_spec u t) as [->|Nu]. { split; [apply Oq|]. eauto. }
    destruct (Ht u) as (Ou & eu & Au & Gu). split; auto.
    destruct (alone_local own u (th' u) e1 e eu (a u) (m u) Ou) as (eu' & -> & Gu'); [|exact Au|].
    { intros z Hz. apply Hoff. destruct Hz as [-> | ->]; congruence. }
    exists eu'. split; auto. intros z Hz. rewrite Gu' by auto. auto.
  - rewrite (sum_one m (fun u => if u =? t then m2 else m u) t N) in Hk; [lia|auto|rewrite Nat.eqb_refl; auto|].
    intros u Hu. apply Nat.eqb_neq in Hu. now rewrite Hu.
  - intros u Hu. destruct (Nat.eqb_spec u t); [lia|auto].
Qed.
Lemma inv2_steps k x y : csteps2 sz may k x y -> inv2 0 x -> inv2 k y.
Proof. intros H Hi. induction H; auto. eapply inv2_step; eauto. Qed.
End Run.

Lemma w_det r s e c e1 ob s' ob' : W s e -> sstep e c = Some (e1, ob) -> vstep2 sz r s c = Ok (s', ob') -> ob' = ob /\ W s' e1.
Proof. intros HW Hs Hv. destruct (wstep sz Hsz r s e c e1 ob HW Hs) as [X|(s2 & X & HW2)]; rewrite X in Hv; [discriminate|]. injection Hv as <- <-. auto. Qed.
Lemma r_det r s e c e1 ob s' ob' : r <> Refuse -> R s e -> sstep e c = Some (e1, ob) -> vstep2 sz r s c = Ok (s', ob') -> ob' = ob /\ R s' e1.
Proof.
  intros Hr HR Hs Hv. rewrite (step_same sz Hsz r s e c e1 ob Hr HR Hs) in Hv.
  destruct (step_ok (fun _ _ _ => moves r) s e c e1 ob HR Hs) as (s2 & X & HR2). rewrite X in Hv. injection Hv as <- <-. auto.
Qed.

(** * C131: the allocator may refuse any request of any thread.  A thread that ends has the
    result it has alone, with enough memory; the next statement of a thread is undefined
    behaviour or succeeds, it never throws; no schedule is longer than all threads together. *)
Theorem C131_values : forall cs e0 os s0 own N (th : nat -> prog T A) E a n,
  srun (fun _ => None) (map fst cs) = Some (e0, os) -> vrun2 sz vst0 cs = Ok (s0, os) ->
  (forall t, obeys own t (th t)) -> (forall t, alone e0 (th t) = Some (E t, a t, n t)) -> (forall t, N <= t -> n t = 0) ->
  forall k s th', csteps2 sz (fun _ _ => True) k (mkC s0 th) (mkC s th') ->
    (forall t, match th' t with Done r => r = a t | Do c _ => forall r, vstep2 sz r s c = UB \/ exists s' ob, vstep2 sz r s c = Ok (s', ob) end) /\
    k <= list_sum (map n (seq 0 N)).
Proof.
  intros cs e0 os s0 own N th E a n Hs Hv Ho Hal HN k s th' Hk.
  destruct (wrun sz Hsz cs vst0 _ e0 os W_init Hs) as [X|(s1 & X & HW)]; rewrite X in Hv; [discriminate|]. injection Hv as ->.
  assert (I1 : inv2 W own N e0 E a n k (mkC s th')).
  { eapply (inv2_steps (fun _ _ => True) W) with (th := th); first [exact Ho|exact Hal|exact HN|exact HW|exact Hk|eapply inv2_init; eauto|intros; eapply w_det; eauto]. }
  destruct I1 as (e & m & Hr & Hsh & Ht & Hks & Hm). cbn [mem todo] in *. split; [|lia].
  intros t. destruct (Ht t) as (_ & e' & At & _). destruct (th' t) as [r|c q]; cbn [alone] in At; [congruence|].
  intros r. destruct (sstep e c) as [[e1 ob]|] eqn:Es; [|discriminate].
  destruct (wstep sz Hsz r s e c e1 ob Hr Es) as [->|(s2 & -> & _)]; eauto.
Qed.

(** If no request is refused, wherever blocks are placed, no thread meets undefined
    behaviour, the memory stays in order and the Vectors end as their owners alone leave them. *)
Theorem C131_no_refusal : forall cs e0 os s0 own N (th : nat -> prog T A) E a n,
  srun (fun _ => None) (map fst cs) = Some (e0, os) -> (forall c, In c cs -> snd c <> Refuse) -> vrun2 sz vst0 cs = Ok (s0, os) ->
  (forall t, obeys own t (th t)) -> (forall t, alone e0 (th t) = Some (E t, a t, n t)) -> (forall t, N <= t -> n t = 0) ->
  forall k s th', csteps2 sz (fun _ r => r <> Refuse) k (mkC s0 th) (mkC s th') ->
    mem_ok s /\
    (forall t, match th' t with Done r => r = a t | Do c _ => forall r, r <> Refuse -> exists s' ob, vstep2 sz r s c = Ok (s', ob) end) /\
    ((forall t, exists r, th' t = Done r) -> same_values s (fun x => match own x with Some t => E t x | None => e0 x end)).
Proof.
  intros cs e0 os s0 own N th E a n Hs Hc Hv Ho Hal HN k s th' Hk.
  destruct (run_same sz Hsz cs vst0 _ e0 os R_init Hc Hs) as (s1 & X & HR). rewrite X in Hv. injection Hv as ->.
  assert (I1 : inv2 R own N e0 E a n k (mkC s th')).
  { eapply (inv2_steps (fun _ r => r <> Refuse) R) with (th := th); first [exact Ho|exact Hal|exact HN|exact HR|exact Hk|eapply inv2_init; eauto|intros; eapply r_det; eauto]. }
  destruct I1 as (e & m & Hr & Hsh & Ht & Hks & Hm). cbn [mem todo] in *.
  split; [apply (R_mem (fun _ _ _ => true) s e Hr)|]. split.
  - intros t. destruct (Ht t) as (_ & e' & At & _). destruct (th' t) as [r|c q]; cbn [alone] in At; [congruence|].
    intros r Nr. destruct (sstep e c) as [[e1 ob]|] eqn:Es; [|discriminate].
    rewrite (step_same sz Hsz r s e c e1 ob Nr Hr Es).
    destruct (step_ok (fun _ _ _ => moves r) s e c e1 ob Hr Es) as (s2 & -> & _). eauto.
  - intros Hd. apply R_values. eapply R_ext; [exact Hr|]. intros x. destruct (own x) as [t|] eqn:Ex; [|auto].
    destruct (Ht t) as (_ & e' & At & G). destruct (Hd t) as (r & Er). rewrite Er in At. cbn in At. injection At as <- _ _. apply G. auto.
Qed.
End Vectors.

(** * A case that meets the hypotheses: thread 0 reads Vector 0, thread 1 copies it and makes
    the copy shorter.  The request to make it shorter is refused and passes unnoticed; a
    refused copy is undefined. *)
From Verif Require Import Scalar.
Definition len (o : @obs Z) : Z := match o with Len n => Z.of_nat n | _ => 0%Z end.
Definition reader : prog Z Z := Do (Read 0 1) (fun v => Done (val v)).
Definition shrinker : prog Z Z := Do (Copy 1 0) (fun _ => Do (Resize 1 1) (fun _ => Do (Size 1) (fun n => Done (len n)))).
Definition ex2 (t : nat) : prog Z Z := match t with 0 => reader | 1 => shrinker | _ => Done 0%Z end.
Definition ex2_own (x : nat) : option nat := match x with 0 => None | _ => Some 1 end.
Definition ex2_start : list (@vop Z * reply) := [(FromList 0 [3; 4]%Z, InPlace)].
Example C131_ex_obeys : forall t, obeys ex2_own t (ex2 t).
Proof.
  intros [|[|t]]; cbn; repeat (first [split | intros ob | intros ?]); cbn in *;
    repeat match goal with H : _ \/ _ |- _ => destruct H end; subst; try contradiction; auto.
Qed.
Example C131_ex_alone : match srun (fun _ => None) (map fst ex2_start) with
  | Some (e0, _) => (exists e, alone e0 (ex2 0) = Some (e, 4%Z, 1)) /\ (exists e, alone e0 (ex2 1) = Some (e, 1%Z, 3) /\ e 1 = Some [3%Z]) /\
      (forall t, alone e0 (ex2 (S (S t))) = Some (e0, 0%Z, 0))
  | None => False end.
Proof. cbn. split; [|split]; [eexists; reflexivity|eexists; split; reflexivity|reflexivity]. Qed.
(** The schedule 1, 1 (refused), 0, 1 ends with the results of the threads alone. *)
Example C131_ex_run : exists s0 os s th', vrun2 4 vst0 ex2_start = Ok (s0, os) /\
  csteps2 4 (fun _ _ => True) 4 (mkC s0 ex2) (mkC s th') /\ th' 0 = Done 4%Z /\ th' 1 = Done 1%Z /\
  vstep2 4 InPlace s (Read 1 0) = UB /\ vstep2 4 Refuse s0 (Copy 1 0) = UB.
Proof.
  eexists _, _, _, _. split; [reflexivity|]. split.
  { eapply More2. eapply More2. eapply More2. eapply More2. apply Stop2.
    - eapply (Sched2 4) with (t := 1) (r := InPlace); [reflexivity|exact I|vm_compute; reflexivity].
    - eapply (Sched2 4) with (t := 1) (r := Refuse); [reflexivity|exact I|vm_compute; reflexivity].
    - eapply (Sched2 4) with (t := 0) (r := InPlace); [reflexivity|exact I|vm_compute; reflexivity].
    - eapply (Sched2 4) with (t := 1) (r := InPlace); [reflexivity|exact I|vm_compute; reflexivity]. }
  repeat split; vm_compute; reflexivity.
Qed.
