(** PropThreads.v: threads that only write to their own Vectors and matrices do not
    disturb each other, whatever the schedule (C129). *)
From Verif Require Import Threads PropHeap PropMatHeap MatHeap MatHist MatFacts BaseFacts.
Arguments Nat.ltb : simpl never.
Arguments Nat.leb : simpl never.
Arguments Nat.eqb : simpl never.

(** * Specification *)
Section Spec.
Context {T : Type} {O : Ops T} {A : Type}.
(** The Vectors a statement changes, constructs or destroys, and those it only reads. *)
Definition writes (c : @vop T) : list nat :=
  match c with
  | New x | Sized x _ | Fill x _ _ | FromList x _ | FromListN x _ _ | Copy x _ | Assign x _
  | Resize x _ | ResizeAs x _ | Write x _ _ | Destroy x => [x]
  | Move x y | MoveAssign x y => [x; y]
  | Read _ _ | Size _ => []
  end.
Definition only_reads (c : @vop T) : list nat :=
  match c with Copy _ y | Assign _ y | ResizeAs _ y => [y] | Read x _ | Size x => [x] | _ => [] end.
(** [own x = Some t]: Vector [x] belongs to thread [t]; [None]: it is shared.  Thread
    [t] writes only to its own Vectors and reads only those and the shared ones. *)
Definition allowed (own : nat -> option nat) (t : nat) (w r : list nat) : Prop :=
  (forall x, In x w -> own x = Some t) /\ (forall x, In x r -> own x = Some t \/ own x = None).
Fixpoint obeys (own : nat -> option nat) (t : nat) (p : prog T A) : Prop :=
  match p with Done _ => True | Do c k => allowed own t (writes c) (only_reads c) /\ forall ob, obeys own t (k ob) end.
(** A thread running alone, on independent sequences: the sequences at the end, its
    result, and the number of statements.  [None]: it breaks a precondition. *)
Fixpoint alone (e : @seqs T) (p : prog T A) : option (@seqs T * A * nat) :=
  match p with
  | Done a => Some (e, a, 0)
  | Do c k => match sstep e c with
              | Some (e1, ob) => match alone e1 (k ob) with Some (e2, a, n) => Some (e2, a, S n) | None => None end
              | None => None end
  end.
(** The matrices a statement of MatHist.v changes, constructs or destroys, and those it only reads. *)
Definition mwrites (c : @mop T) : list nat :=
  match c with
  | MNew x | MFill x _ _ _ | MList x _ _ _ | MNested x _ | MCopy x _ _ | MAssign x _ _ | MAssignNested x _ | MResize x _ _ | MReshape x _ _
  | MRemoveRow x _ | MRemoveCol x _ | MSwapRows x _ _ _ _ _ | MSwapCols x _ _ _ _ _ | MSet x _ _ _ _ | MViewAssign x _ _
  | MAdd x _ _ | MSub x _ _ | MMul x _ _ | MScale x _ _ | MDestroy x => [x]
  | MMove x y | MMoveAssign x y => [x; y]
  | MGet _ _ _ _ => []
  end.
Definition mreads (c : @mop T) : list nat :=
  match c with
  | MCopy _ y _ | MAssign _ y _ | MViewAssign _ _ y | MAdd _ _ y | MSub _ _ y | MMul _ _ y => [y] | MGet x _ _ _ => [x] | _ => []
  end.
(** What thread [t] executes in the schedule [cs]. *)
Definition part (t : nat) (cs : list (nat * @mop T)) : list mop := map snd (filter (fun tc => fst tc =? t) cs).
End Spec.

(** * Proofs: Vectors *)
Section Vectors.
Context {T : Type} {O : Ops T} {A : Type}.
Implicit Types (e f : @seqs T) (p : prog T A).

Lemma sstep_local e f c f1 ob : (forall x, In x (writes c ++ only_reads c) -> e x = f x) -> sstep f c = Some (f1, ob) ->
  exists e1, sstep e c = Some (e1, ob) /\ (forall x, In x (writes c) -> e1 x = f1 x) /\
    (forall x, ~ In x (writes c) -> e1 x = e x /\ f1 x = f x).
Proof.
  intros H Hs.
  assert (K1 : forall x a, (forall z, In z [x] -> sset e x a z = sset f x a z) /\
    (forall z, ~ In z [x] -> sset e x a z = e z /\ sset f x a z = f z)).
  { intros x a. unfold sset. split; intros z Hz.
    - destruct Hz as [<-|[]]. now rewrite Nat.eqb_refl.
    - destruct (Nat.eqb_spec z x) as [->|]; [exfalso; apply Hz; left; auto|auto]. }
  assert (K2 : forall x y a b, (forall z, In z [x; y] -> sset (sset e y a) x b z = sset (sset f y a) x b z) /\
    (forall z, ~ In z [x; y] -> sset (sset e y a) x b z = e z /\ sset (sset f y a) x b z = f z)).
  { intros x y a b. unfold sset. split; intros z Hz.
    - destruct (Nat.eqb_spec z x); auto. destruct (Nat.eqb_spec z y); auto. destruct Hz as [<-|[<-|[]]]; congruence.
    - destruct (Nat.eqb_spec z x) as [->|]; [exfalso; apply Hz; left; auto|].
      destruct (Nat.eqb_spec z y) as [->|]; [exfalso; apply Hz; right; left; auto|auto]. }
  destruct c; cbn [writes only_reads app sstep] in *;
    match type of H with
    | forall z, In z [?x] -> _ => pose proof (H x (or_introl eq_refl)) as E1; rewrite E1
    | forall z, In z [?x; ?y] -> _ => pose proof (H x (or_introl eq_refl)) as E1; pose proof (H y (or_intror (or_introl eq_refl))) as E2; rewrite E1; try rewrite E2
    end;
    repeat match type of Hs with context [match ?b with _ => _ end] => destruct b eqn:?; try discriminate end;
    injection Hs as <- <-; eexists; (split; [reflexivity|]);
    first [ apply K1 | apply K2 | (split; [intros z Hz; first [destruct Hz; fail | now apply H]|intros; auto]) | idtac ].
Qed.

(** [e] and [f] look the same to thread [t]. *)
Definition agree {B} (own : nat -> option nat) (t : nat) (e f : nat -> B) : Prop :=
  forall x, own x = Some t \/ own x = None -> e x = f x.
Lemma allowed_agree {B} own t w r (e f : nat -> B) : allowed own t w r -> agree own t e f -> forall x, In x (w ++ r) -> e x = f x.
Proof. intros (Hw & Hr) H x Hx. apply H. apply in_app_or in Hx. destruct Hx; auto. Qed.

Lemma alone_local own t p : forall e f f' a n, obeys own t p -> agree own t e f -> alone f p = Some (f', a, n) ->
  exists e', alone e p = Some (e', a, n) /\ agree own t e' f'.
Proof.
  induction p as [r|c k IH]; intros e f f' a n Ho Ha Hf; cbn [alone obeys] in *.
  - injection Hf as <- <- <-. eauto.
  - destruct Ho as (Hc & Hk). destruct (sstep f c) as [[f1 ob]|] eqn:E; [|discriminate].
    destruct (alone f1 (k ob)) as [[[f2 a2] n2]|] eqn:E2; [|discriminate]. injection Hf as <- <- <-.
    destruct (sstep_local e f c f1 ob (allowed_agree _ _ _ _ _ _ Hc Ha) E) as (e1 & -> & W1 & W2).
    destruct (IH ob e1 f1 f2 a2 n2 (Hk ob)) as (e2 & -> & W); [|exact E2|eauto].
    intros x Hx. destruct (in_dec Nat.eq_dec x (writes c)) as [Hi|Hi]; [auto|]. destruct (W2 x Hi) as (-> & ->). auto.
Qed.

Lemma sum_one (m m' : nat -> nat) t N : t < N -> m t = S (m' t) -> (forall u, u <> t -> m u = m' u) ->
  list_sum (map m (seq 0 N)) = S (list_sum (map m' (seq 0 N))).
Proof.
  intros Ht H1 H2. induction N as [|N IH]; [lia|]. rewrite !seq_S, !map_app. unfold list_sum in *. rewrite !fold_right_app. cbn [map fold_right plus].
  assert (G : forall l z, fold_right Nat.add z l = fold_right Nat.add 0 l + z) by (induction l as [|b l IHl]; intros z; cbn; [auto|rewrite IHl; lia]).
  rewrite (G (map m _)), (G (map m' _)). destruct (Nat.eq_dec t N) as [->|Hn].
  - rewrite H1. replace (map m (seq 0 N)) with (map m' (seq 0 N)); [lia|]. apply map_ext_in. intros u Hu. apply in_seq in Hu. symmetry. apply H2. lia.
  - rewrite IH by lia. rewrite (H2 N) by auto. lia.
Qed.

Section Run.
Context (own : nat -> option nat) (N : nat) (e0 : @seqs T) (s0 : @vst T) (th : nat -> prog T A) (E : nat -> @seqs T) (a : nat -> A) (n : nat -> nat).
Hypothesis (HR : R s0 e0) (Hob : forall t, obeys own t (th t)) (Hal : forall t, alone e0 (th t) = Some (E t, a t, n t))
  (HN : forall t, N <= t -> n t = 0).
Definition inv (k : nat) (x : conf T A) : Prop := exists e m, R (mem x) e /\ (forall z, own z = None -> e z = e0 z) /\
  (forall z t, own z = Some t -> N <= t -> e z = e0 z) /\
  (forall t, obeys own t (todo x t) /\ exists e', alone e (todo x t) = Some (e', a t, m t) /\ agree own t e' (E t)) /\
  k + list_sum (map m (seq 0 N)) = list_sum (map n (seq 0 N)) /\ (forall t, N <= t -> m t = 0).
Lemma inv_init : inv 0 (mkC s0 th).
Proof.
  exists e0, n. cbn [mem todo]. split; [exact HR|]. do 2 (split; [auto|]). split; [|split; auto].
  intros t. split; auto. exists (E t). split; auto. intros z _. auto.
Qed.
Lemma inv_step k x y : inv k x -> cstep x y -> inv (S k) y.
Proof.
  intros (e & m & Hr & Hs & Hn & Ht & Hk & Hm) Hc. destruct Hc as [s th' t c q ip s' ob Eq Ev]. cbn [mem todo] in *.
  destruct (Ht t) as (Ot & e' & At & Gt). rewrite Eq in Ot, At. cbn [obeys alone] in Ot, At. destruct Ot as (Oc & Oq).
  destruct (sstep e c) as [[e1 ob1]|] eqn:Es; [|discriminate]. destruct (alone e1 (q ob1)) as [[[e2 a2] m2]|] eqn:Ea; [|discriminate].
  injection At as -> -> Hmt.
  destruct (step_ok ip _ _ _ _ _ Hr Es) as (s2 & Ev2 & Hr2). rewrite Ev in Ev2. injection Ev2 as <- <-.
  assert (Hoff : forall z, own z <> Some t -> e1 z = e z).
  { intros z Hz. destruct (sstep_local e e c e1 ob ltac:(auto) Es) as (e1' & E1' & _ & W). assert (e1' = e1) by congruence. subst e1'.
    apply (W z). intros Hin. apply Hz. apply Oc, Hin. }
  assert (HtN : t < N) by (destruct (Nat.lt_ge_cases t N) as [|G]; auto; specialize (Hm t G); lia).
  exists e1, (fun u => if u =? t then m2 else m u). cbn [mem todo]. split; [auto|]. split; [|split; [|split; [|split]]].
  - intros z Hz. rewrite Hoff by congruence. auto.
  - intros z u Hz Hu. rewrite Hoff by (rewrite Hz; intros [= <-]; lia). eauto.
  - intros u. destruct (Nat.eqb_spec u t) as [->|Nu]. { split; [apply Oq|]. eauto. }
    destruct (Ht u) as (Ou & eu & Au & Gu). split; auto.
    destruct (alone_local own u (th' u) e1 e eu (a u) (m u) Ou) as (eu' & -> & Gu'); [|exact Au|].
    { intros z Hz. apply Hoff. destruct Hz as [-> | ->]; congruence. }
    exists eu'. split; auto. intros z Hz. rewrite Gu' by auto. auto.
  - rewrite (sum_one m (fun u => if u =? t then m2 else m u) t N) in Hk; [lia|auto|rewrite Nat.eqb_refl; auto|].
    intros u Hu. apply Nat.eqb_neq in Hu. now rewrite Hu.
  - intros u Hu. destruct (Nat.eqb_spec u t); [lia|auto].
Qed.
Lemma inv_steps k x y : csteps k x y -> inv 0 x -> inv k y.
Proof. intros H Hi. induction H; auto. eapply inv_step; eauto. Qed.
End Run.

(** * C129: whatever the schedule and the allocator do, in every state the threads can
    reach the memory is in order, every thread that has not ended can go on without
    undefined behaviour, a thread that has ended has the result it has when it runs
    alone; no schedule is longer than all the threads together; and when all have ended,
    every Vector holds what its owner leaves there when it runs alone. *)
Theorem C129_threads : forall cs e0 os ip s0 own N (th : nat -> prog T A) E a n,
  srun (fun _ => None) cs = Some (e0, os) -> vrun ip vst0 cs = Ok (s0, os) ->
  (forall t, obeys own t (th t)) -> (forall t, alone e0 (th t) = Some (E t, a t, n t)) -> (forall t, N <= t -> n t = 0) ->
  forall k s th', csteps k (mkC s0 th) (mkC s th') ->
    mem_ok s /\
    (forall t, match th' t with Done r => r = a t | Do c _ => forall ip, exists s' ob, vstep ip s c = Ok (s', ob) end) /\
    k <= list_sum (map n (seq 0 N)) /\
    ((forall t, exists r, th' t = Done r) -> same_values s (fun x => match own x with Some t => E t x | None => e0 x end)).
Proof.
  intros cs e0 os ip s0 own N th E a n Hs Hv Ho Hal HN k s th' Hk.
  destruct (run_ok ip cs vst0 _ e0 os R_init Hs) as (s1 & E1 & HR). rewrite Hv in E1. injection E1 as <-.
  assert (I0 : inv own N e0 E a n 0 (mkC s0 th)) by (apply inv_init; auto).
  assert (I1 : inv own N e0 E a n k (mkC s th')) by (eapply inv_steps; eauto). destruct I1 as (e & m & Hr & Hsh & Hnn & Ht & Hks & Hm).
  cbn [mem todo] in *. split; [eapply R_mem; [exact ip|exact Hr]|]. split; [|split; [lia|]].
  - intros t. destruct (Ht t) as (_ & e' & At & _). destruct (th' t) as [r|c q]; cbn [alone] in At; [congruence|].
    intros ip'. destruct (sstep e c) as [[e1 ob]|] eqn:Es; [|discriminate].
    destruct (step_ok ip' _ _ _ _ _ Hr Es) as (s' & -> & _). eauto.
  - intros Hd. apply R_values. eapply R_ext; [exact Hr|]. intros x. destruct (own x) as [t|] eqn:Ex; [|auto].
    destruct (Ht t) as (_ & e' & At & G). destruct (Hd t) as (r & Er). rewrite Er in At. cbn in At. injection At as <- _ _. apply G. auto.
Qed.
(** Two threads are never both about to use a Vector that one of them changes. *)
Theorem C129_no_race : forall own (th : nat -> prog T A) s0 k s th' t u c d q q', (forall t, obeys own t (th t)) ->
  csteps k (mkC s0 th) (mkC s th') -> t <> u -> th' t = Do c q -> th' u = Do d q' ->
  forall x, In x (writes c) -> ~ In x (writes d ++ only_reads d).
Proof.
  intros own th s0 k s th' t u c d q q' Ho Hk Ntu Et Eu.
  assert (G : forall k (x y : conf T A), csteps k x y -> (forall t, obeys own t (todo x t)) -> forall t, obeys own t (todo y t)).
  { clear. intros k x y H. induction H as [x|k x y z H IH Hc]; auto. intros Hx t. specialize (IH Hx).
    destruct Hc as [s th t' c q ip s' ob Eq Ev]. cbn [todo] in *. destruct (Nat.eqb_spec t t') as [->|]; auto.
    specialize (IH t'). rewrite Eq in IH. apply IH. }
  pose proof (G _ _ _ Hk Ho) as Hy. cbn [todo] in Hy. pose proof (Hy t) as Ht. pose proof (Hy u) as Hu. rewrite Et in Ht. rewrite Eu in Hu.
  destruct Ht as ((Hw & _) & _), Hu as ((Hw' & Hr') & _). intros x Hx Hin. specialize (Hw x Hx).
  apply in_app_or in Hin. destruct Hin as [Hin|Hin]; [specialize (Hw' x Hin); congruence|].
  destruct (Hr' x Hin); congruence.
Qed.
End Vectors.

(** * Proofs: matrices *)
Section Matrices.
Context {T : Type} {O : Ops T}.
Implicit Types (e f : @menv T).

Lemma mstep_local e f c : (forall x, In x (mwrites c ++ mreads c) -> e x = f x) ->
  match mstep f c with
  | Ok f1 => exists e1, mstep e c = Ok e1 /\ (forall x, In x (mwrites c) -> e1 x = f1 x) /\ (forall x, ~ In x (mwrites c) -> e1 x = e x /\ f1 x = f x)
  | Throw => mstep e c = Throw
  | _ => True
  end.
Proof.
  intros H.
  assert (K1 : forall x a, (forall z, In z [x] -> mbind e x a z = mbind f x a z) /\
    (forall z, ~ In z [x] -> mbind e x a z = e z /\ mbind f x a z = f z)).
  { intros x a. unfold mbind. split; intros z Hz.
    - destruct Hz as [<-|[]]. now rewrite Nat.eqb_refl.
    - destruct (Nat.eqb_spec z x) as [->|]; [exfalso; apply Hz; left; auto|auto]. }
  assert (K2 : forall x y a b, (forall z, In z [x; y] -> mbind (mbind e y a) x b z = mbind (mbind f y a) x b z) /\
    (forall z, ~ In z [x; y] -> mbind (mbind e y a) x b z = e z /\ mbind (mbind f y a) x b z = f z)).
  { intros x y a b. unfold mbind. split; intros z Hz.
    - destruct (Nat.eqb_spec z x); auto. destruct (Nat.eqb_spec z y); auto. destruct Hz as [<-|[<-|[]]]; congruence.
    - destruct (Nat.eqb_spec z x) as [->|]; [exfalso; apply Hz; left; auto|].
      destruct (Nat.eqb_spec z y) as [->|]; [exfalso; apply Hz; right; left; auto|auto]. }
  assert (KE : forall l, (forall z, In z l -> e z = f z) -> (forall z, In z l -> e z = f z) /\ (forall z, ~ In z l -> e z = e z /\ f z = f z)) by auto.
  destruct c; cbn [mwrites mreads app mstep] in *; unfold mlook, mfresh, keep;
    match type of H with
    | forall z, In z [?x] -> _ => pose proof (H x (or_introl eq_refl)) as E1; rewrite E1
    | forall z, In z [?x; ?y] -> _ => pose proof (H x (or_introl eq_refl)) as E1; pose proof (H y (or_intror (or_introl eq_refl))) as E2; rewrite E1; try rewrite E2
    end;
    repeat match goal with |- context [match f ?x with _ => _ end] => destruct (f x); cbn [bind]; auto end;
    try match goal with |- context [if ?x =? ?y then _ else _] => destruct (x =? y) eqn:? end;
    repeat match goal with |- context [match ?p with Root => _ | _ => _ end] => destruct p end;
    try match goal with |- context [let* _ := ?r in Ok _] => destruct r; cbn [bind]; auto end;
    try (eexists; split; [reflexivity|]; first [apply K1|apply K2|apply KE; intros; apply H; cbn in *; tauto]).
Qed.
Lemma part_cons t u c cs : part t ((u, c) :: cs) = if u =? t then c :: part t cs else @part T t cs.
Proof. unfold part. cbn. destruct (u =? t); reflexivity. Qed.
Lemma weave own cs : forall e (f g : nat -> @menv T), (forall t c, In (t, c) cs -> allowed own t (mwrites c) (mreads c)) -> (forall t, agree own t e (f t)) ->
  (forall t, mrun (f t) (part t cs) = Ok (g t)) ->
  exists e', mrun e (map snd cs) = Ok e' /\ (forall t x, own x = Some t -> e' x = g t x) /\ (forall x, own x = None -> e' x = e x).
Proof.
  induction cs as [|(u, c) cs IH]; intros e f g Ha Hf Hg; cbn [map snd mrun].
  { exists e. split; auto. split; auto. intros t x Hx. specialize (Hg t). cbn in Hg. injection Hg as <-. apply Hf; auto. }
  assert (Hc : allowed own u (mwrites c) (mreads c)) by (apply Ha; left; auto).
  assert (Ha' : forall t d, In (t, d) cs -> allowed own t (mwrites d) (mreads d)) by (intros; apply Ha; right; auto).
  pose proof (mstep_local e (f u) c (allowed_agree _ _ _ _ _ _ Hc (Hf u))) as W.
  pose proof (Hg u) as Gu. rewrite part_cons, Nat.eqb_refl in Gu. cbn [mrun] in Gu.
  assert (Hg' : forall t, t <> u -> mrun (f t) (part t cs) = Ok (g t)).
  { intros t Ht. specialize (Hg t). rewrite part_cons in Hg. destruct (Nat.eqb_spec u t); [congruence|auto]. }
  destruct (mstep (f u) c) as [f1| | | |]; try discriminate.
  - destruct W as (e1 & -> & W1 & W2). cbn [bind] in Gu |- *.
    assert (Hoff : forall x, own x <> Some u -> e1 x = e x) by (intros x Hx; apply W2; intros Hi; apply Hx, Hc, Hi).
    destruct (IH e1 (fun t => if t =? u then f1 else f t) g) as (e' & E' & Q1 & Q2); auto.
    + intros t x Hx. destruct (Nat.eqb_spec t u) as [->|Nt].
      * destruct (in_dec Nat.eq_dec x (mwrites c)) as [Hi|Hi]; [auto|]. destruct (W2 x Hi) as (-> & ->). apply Hf; auto.
      * rewrite Hoff by (destruct Hx as [-> | ->]; congruence). apply Hf; auto.
    + intros t. destruct (Nat.eqb_spec t u) as [->|Nt]; auto.
    + exists e'. split; auto. split; auto. intros x Hx. rewrite Q2 by auto. apply Hoff. congruence.
  - rewrite W. apply (IH e f g); auto. intros t. destruct (Nat.eq_dec t u) as [->|]; auto.
Qed.
(** The same for threads that use matrices and views, one statement at a time: any
    schedule is defined if every thread alone is, and each matrix ends as its owner
    alone leaves it. *)
Theorem C129_matrices : forall ip cs0 e0 own (cs : list (nat * @mop T)) g, mrun (fun _ => None) cs0 = Ok e0 ->
  (forall t c, In (t, c) cs -> allowed own t (mwrites c) (mreads c)) -> (forall t, mrun e0 (part t cs) = Ok (g t)) ->
  exists s, hrun ip hst0 (cs0 ++ map snd cs) = Ok s /\ mem_ok (hv s) /\
    matrices_are s (fun x => match own x with Some t => g t x | None => e0 x end).
Proof.
  intros ip cs0 e0 own cs g H0 Ha Hg. destruct (weave own cs e0 (fun _ => e0) g Ha) as (e' & E' & Q1 & Q2); auto.
  { intros t x _. auto. }
  assert (App : mrun (fun _ => None) (cs0 ++ map snd cs) = Ok e').
  { rewrite <- E'. revert H0. generalize (fun _ : nat => @None (Matrix T)). clear. induction cs0 as [|c l IH]; intros e H; cbn [mrun app] in *.
    { now injection H as ->. } destruct (mstep e c); cbn in *; auto; discriminate. }
  destruct (C128_memory_safe ip _ _ App) as (s & E & M & (V0 & V)). exists s. split; auto. split; auto. split; auto.
  intros x. specialize (V x). destruct (own x) as [t|] eqn:Ex; [rewrite <- (Q1 t x Ex)|rewrite <- (Q2 x Ex)]; exact V.
Qed.
End Matrices.

(** * A case that meets the hypotheses: both threads read Vector 0; thread 0 adds up its
    elements, thread 1 copies it, changes and grows the copy. *)
From Verif Require Import Scalar.
Definition val (o : @obs Z) : Z := match o with Value v => v | _ => 0%Z end.
Definition adder : prog Z Z :=
  Do (Fill 1 1 0%Z) (fun _ => Do (Read 0 0) (fun a => Do (Read 0 1) (fun b => Do (Write 1 0 (val a + val b)%Z) (fun _ =>
  Do (Read 1 0) (fun r => Done (val r)))))).
Definition copier : prog Z Z :=
  Do (Copy 2 0) (fun _ => Do (Write 2 0 9%Z) (fun _ => Do (Resize 2 4) (fun _ => Do (Move 3 2) (fun _ =>
  Do (Read 3 0) (fun r => Do (Destroy 2) (fun _ => Done (val r))))))).
Definition ex_threads (t : nat) : prog Z Z := match t with 0 => adder | 1 => copier | _ => Done 0%Z end.
Definition ex_own (x : nat) : option nat := match x with 0 => None | 1 => Some 0 | _ => Some 1 end.
Definition ex_start : list (@vop Z) := [FromList 0 [3; 4]%Z].
Example C129_ex_obeys : forall t, obeys ex_own t (ex_threads t).
Proof.
  intros [|[|t]]; cbn; repeat (first [split | intros ob | intros ?]); cbn in *;
    repeat match goal with H : _ \/ _ |- _ => destruct H end; subst; try contradiction; auto.
Qed.
Example C129_ex_alone : match srun (fun _ => None) ex_start with
  | Some (e0, _) =>
      (exists e, alone e0 (ex_threads 0) = Some (e, 7%Z, 5) /\ e 1 = Some [7%Z]) /\
      (exists e, alone e0 (ex_threads 1) = Some (e, 9%Z, 6) /\ e 3 = Some [9; 4; 0; 0]%Z /\ e 2 = None) /\
      (forall t, alone e0 (ex_threads (S (S t))) = Some (e0, 0%Z, 0))
  | None => False end.
Proof. cbn. split; [|split]; [eexists; split; reflexivity|eexists; repeat split; reflexivity|reflexivity]. Qed.
(** Without the rule a result depends on the schedule: thread 0 writes to the shared
    Vector that thread 1 reads. *)
Definition racy (t : nat) : prog Z Z :=
  match t with 0 => Do (Write 0 0 5%Z) (fun _ => Done 0%Z) | 1 => Do (Read 0 0) (fun r => Done (val r)) | _ => Done 0%Z end.
Theorem C129_rule_needed : forall ip s0 os, vrun ip vst0 ex_start = Ok (s0, os) ->
  exists s s' th th', csteps 2 (mkC s0 racy) (mkC s th) /\ csteps 2 (mkC s0 racy) (mkC s' th') /\ th 1 = Done 5%Z /\ th' 1 = Done 3%Z.
Proof.
  intros ip s0 os H. destruct (run_ok ip ex_start vst0 _ _ _ R_init eq_refl) as (s1 & E1 & HR). rewrite H in E1. injection E1 as <- ->.
  set (e0 := sset _ 0 _) in HR.
  destruct (step_ok ip s0 e0 (Write 0 0 5%Z) _ _ HR eq_refl) as (s2 & V2 & HR2).
  destruct (step_ok ip s2 _ (Read 0 0) _ _ HR2 eq_refl) as (s3 & V3 & HR3).
  destruct (step_ok ip s0 e0 (Read 0 0) _ _ HR eq_refl) as (s4 & V4 & HR4).
  destruct (step_ok ip s4 _ (Write 0 0 5%Z) _ _ HR4 eq_refl) as (s5 & V5 & HR5).
  exists s3, s5. eexists; eexists. split; [|split; [|split]].
  - eapply More; [eapply More; [apply Stop|]|].
    + eapply (Sched _ _ 0); [reflexivity|exact V2].
    + eapply (Sched _ _ 1); [reflexivity|exact V3].
  - eapply More; [eapply More; [apply Stop|]|].
    + eapply (Sched _ _ 1); [reflexivity|exact V4].
    + eapply (Sched _ _ 0); [reflexivity|exact V5].
  - reflexivity.
  - reflexivity.
Qed.
(** Matrices: thread 0 squares its own copy of matrix 0, thread 1 resizes another copy. *)
Definition ex_mown (x : nat) : option nat := match x with 0 => None | 1 => Some 0 | _ => Some 1 end.
Definition ex_sched : list (nat * @mop Z) :=
  [(0, MCopy 1 0 Root); (1, MCopy 2 0 (PCof 0 0 Root)); (1, MResize 2 2 2); (0, MMul 1 Root 0); (1, MReshape 2 9 9); (0, MAdd 1 Root 0); (1, MMove 3 2); (1, MDestroy 2)].
Example C129_ex_matrices : (forall t c, In (t, c) ex_sched -> allowed ex_mown t (mwrites c) (mreads c)) /\
  match mrun (fun _ => None) [MNested 0 [[1; 2]; [3; 4]]%Z] with
  | Ok e0 =>
      match mrun e0 (part 0 ex_sched) with Ok e => option_map (@data Z) (e 1) = Some [8; 12; 18; 26]%Z | _ => False end /\
      match mrun e0 (part 1 ex_sched) with Ok e => option_map (@data Z) (e 3) = Some [4; 0; 0; 0]%Z /\ e 2 = None | _ => False end
  | _ => False end.
Proof.
  split.
  - intros t c H. cbn in H. repeat (destruct H as [[= <- <-]|H]; [split; cbn; intros x Hx; repeat (destruct Hx as [<-|Hx]; [cbn; auto|]); destruct Hx|]). destruct H.
  - vm_compute. auto.
Qed.
