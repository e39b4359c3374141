(** PropMatOOM.v: C130, what happens to programs that use matrices when memory runs out. *)
From Verif Require Import ControlFacts VecHeap MatHeap PropHeap MatFacts BaseFacts VecOOM PropOOM PropMatHeap MatOOM.
Arguments Nat.ltb : simpl never.
Arguments Nat.leb : simpl never.
Arguments Nat.eqb : simpl never.
Arguments N.ltb : simpl never.

(** * Specification *)
Section Spec.
Context {T : Type} {O : Ops T} (sz : N).
(** Matrix [x] has the numbers of rows and columns of [m], and an element of it that can
    be read at all is that of [m]. *)
Definition as_far_as_readable (s : @hst T) (x : nat) (m : Matrix T) : Prop :=
  hshape s x = Some (rows m, cols m) /\
  forall r i v, hread2 sz r s (S x) i = Ok v -> nth_error (data m) i = Some v.
(** The number of elements in the new block a statement asks for, where it needs a larger
    one than it has or builds its result in a new Vector. *)
Definition asks (e : @menv T) (c : @mop T) : option nat :=
  match c with
  | MFill _ r c _ | MList _ r c _ => Some (mul64 r c)
  | MNested _ ll | MAssignNested _ ll => Some (mul64 (length ll) (length (hd nil ll)))
  | MCopy _ y p => match e y with Some m => Some (mul64 (mrows (vmb p m)) (mcols (vmb p m))) | None => None end
  | MAssign x y p =>
      if (x =? y) && match p with Root => true | _ => false end then None
      else match e y with Some m => Some (mul64 (mrows (vmb p m)) (mcols (vmb p m))) | None => None end
  | MResize x r c =>
      match e x with
      | Some m => if (cols m =? c) && ((rows m =? r) || (mul64 r c <=? length (data m))) then None else Some (mul64 r c)
      | None => None
      end
  | MRemoveCol x _ => match e x with Some m => Some (mul64 (rows m) (cols m - 1)) | None => None end
  | MMul x p _ => match e x with Some m => Some (mul64 (mrows (vmb p m)) (mcols (vmb p m))) | None => None end
  | _ => None
  end.
End Spec.

(** * Proofs *)
Ltac triv := first [reflexivity | left; reflexivity | right; right; reflexivity].
Section Proofs.
Context {T : Type} {O : Ops T} (sz : N) (ans : reply) (strict : bool) (Rel : @vst T -> @seqs T -> Prop).
(** [Rel] pairs the memory with sequences; unless [strict], a statement may also be undefined. *)
Context (Rel_step : forall s e c e' ob, Rel s e -> sstep e c = Some (e', ob) ->
    (strict = false /\ vstep2 sz ans s c = UB) \/ exists s', vstep2 sz ans s c = Ok (s', ob) /\ Rel s' e').
Context (Rel_ext : forall s e e', Rel s e -> (forall x, e x = e' x) -> Rel s e').
Context (Rel_fits : forall s e x l, Rel s e -> e x = Some l -> fits (length l)).
Notation hdo := (hdo2 sz ans). Notation hread := (hread2 sz ans). Notation hsrc := (hsrc2 sz ans). Notation hset := (hset2 sz ans).

(** [b] does what [a] does, if [a] is defined; unless [strict], [b] may also be undefined. *)
Definition simW {A B} (P : A -> B -> Prop) (a : Res A) (b : Res B) : Prop :=
  a = UB \/ (strict = false /\ b = UB) \/
  match a with Ok x => exists y, b = Ok y /\ P x y | Throw => b = Throw | UB => True | Exit => b = Exit | Fuel => b = Fuel end.
Lemma sim_bind {A B A' B'} (P : A -> B -> Prop) (Q : A' -> B' -> Prop) a b f g :
  simW P a b -> (forall x y, P x y -> simW Q (f x) (g y)) -> simW Q (bind a f) (bind b g).
Proof.
  intros [->|[(S & ->)|H]] K; [left; reflexivity|right; left; split; auto|].
  destruct a; try (right; right; cbn in *; rewrite H; reflexivity); [|left; reflexivity]. destruct H as (y & -> & H). cbn. auto.
Qed.
Lemma sim_eqbind {A A' B'} (Q : A' -> B' -> Prop) (a b : Res A) f g :
  simW eq a b -> (forall x, simW Q (f x) (g x)) -> simW Q (bind a f) (bind b g).
Proof. intros H K. eapply sim_bind; eauto. intros x y <-. auto. Qed.
Lemma sim_refl {A} (a : Res A) : simW eq a a.
Proof. right; right. destruct a; cbn; eauto. Qed.
Lemma sim_ret {A B} (P : A -> B -> Prop) x y : P x y -> simW P (Ok x) (Ok y).
Proof. intros H. right; right. cbn. eauto. Qed.
Lemma sim_map {A B A'} (P : A -> B -> Prop) (Q : A' -> B -> Prop) a b f :
  simW P a b -> (forall x y, P x y -> Q (f x) y) -> simW Q (let* x := a in Ok (f x)) b.
Proof.
  intros [->|[(S & ->)|H]] K; [left; reflexivity|right; left; auto|].
  destruct a; cbn in *; auto; try (right; right; exact H). destruct H as (y & -> & H). apply sim_ret. auto.
Qed.
Lemma sim_impl {A B} (P Q : A -> B -> Prop) a b : simW P a b -> (forall x y, P x y -> Q x y) -> simW Q a b.
Proof.
  intros [->|[(S & ->)|H]] K; [left; reflexivity|right; left; auto|]. right; right. destruct a; auto. destruct H as (y & -> & H). eauto.
Qed.
Lemma sim_for {A B} (P : A -> B -> Prop) lo hi f g : (forall i x y, P x y -> simW P (f i x) (g i y)) ->
  forall x y, P x y -> simW P (for_range lo hi f x) (for_range lo hi g y).
Proof.
  intros H. unfold for_range. generalize (hi - lo) as n. intros n. revert lo.
  induction n as [|n IH]; intros lo x y Hp; cbn [for_n]. { apply sim_ret; auto. }
  eapply sim_bind; [apply H, Hp|]. intros; apply IH; auto.
Qed.
Lemma sim_if {A B} (P : A -> B -> Prop) (c c' : bool) a b a' b' : c = c' -> simW P a a' -> simW P b b' ->
  simW P (if c then a else b) (if c' then a' else b').
Proof. intros <-. destruct c; auto. Qed.
(** Something only done in memory. *)
Definition does {B} (P : B -> Prop) (b : Res B) : Prop := simW (fun (_ : unit) y => P y) (Ok tt) b.
Lemma sim_then {A B C} (P : C -> Prop) (Q : A -> B -> Prop) a (b : Res C) g :
  does P b -> (forall y, P y -> simW Q a (g y)) -> simW Q a (bind b g).
Proof.
  intros [H|[(S & ->)|H]] K; [discriminate|right; left; auto|]. destruct H as (y & -> & H). cbn. auto.
Qed.
Lemma sim_last {A B} (P : B -> Prop) (Q : A -> B -> Prop) x b : does P b -> (forall y, P y -> Q x y) -> simW Q (Ok x) b.
Proof. intros [H|[(S & ->)|H]] K; [discriminate|right; left; auto|]. destruct H as (y & -> & H). apply sim_ret. auto. Qed.

(** The Vectors behind the matrices of [e]; [t] is the temporary. *)
Definition vecs (t : option (list T)) (e : @menv T) : @seqs T :=
  fun v => match v with 0 => t | S x => option_map (@data T) (e x) end.
Definition dims (e : @menv T) (x : nat) := option_map (fun m : Matrix T => (rows m, cols m)) (e x).
Definition RE (s : @hst T) (E : @seqs T) (D : nat -> option (nat * nat)) : Prop :=
  Rel (hv s) E /\ forall x, hshape s x = D x.
Definition RM s t e := RE s (vecs t e) (dims e).

Lemma RE_do s E D c E1 ob E' : RE s E D -> sstep E c = Some (E1, ob) -> (forall v, E1 v = E' v) ->
  does (fun s' => RE s' E' D) (hdo s c).
Proof.
  intros (HR & HD) Hs HE. unfold hdo2. destruct (Rel_step _ _ _ _ _ HR Hs) as [(S & U)|(v & Hv & HR')].
  { right; left. rewrite U. auto. }
  right; right. exists (mkH v (hshape s)). rewrite Hv. split; [reflexivity|]. split; auto. eapply Rel_ext; eauto.
Qed.
Lemma RE_do1 s E D (H : RE s E D) c E1 ob : sstep E c = Some (E1, ob) -> does (fun s' => RE s' E1 D) (hdo s c).
Proof. intros Hs. eapply RE_do; eauto. Qed.
Lemma RE_setd s E D x d D' : RE s E D -> (forall z, (if z =? x then d else D z) = D' z) -> RE (setd s x d) E D'.
Proof. intros (HR & HD) H. split; auto. intros z. cbn. rewrite <- H. destruct (z =? x); auto. Qed.
Lemma RE_ext s E D E' D' : RE s E D -> (forall v, E v = E' v) -> (forall x, D x = D' x) -> RE s E' D'.
Proof. intros (HR & HD) HE H. split; [eapply Rel_ext; eauto|]. intros z. rewrite <- H. auto. Qed.
Lemma RM_ext s t e e' : RM s t e -> (forall x, e x = e' x) -> RM s t e'.
Proof. intros H He. eapply RE_ext; eauto; intros v; unfold vecs, dims. - destruct v; rewrite ?He; auto. - now rewrite He. Qed.
Lemma RE_read s E D v i l : RE s E D -> E v = Some l -> simW eq (lget l i) (hread s v i).
Proof.
  intros (HR & HD) Hl. unfold lget. destruct (nth_error l i) as [a|] eqn:Ea; [|left; reflexivity].
  assert (Hs : sstep E (Read v i) = Some (E, Value a)) by (cbn; rewrite Hl, Ea; reflexivity).
  unfold hread2. destruct (Rel_step _ _ _ _ _ HR Hs) as [(S & ->)|(w & -> & _)]; [right; left; auto|]. apply sim_ret. auto.
Qed.
Lemma RE_write s E D v i a l : RE s E D -> E v = Some l ->
  simW (fun l' s' => RE s' (sset E v (Some l')) D) (lset l i a) (hdo s (Write v i a)).
Proof.
  intros H Hl. unfold lset. destruct (Nat.ltb_spec i (length l)) as [Hi|Hi]; [|left; reflexivity].
  apply Nat.ltb_lt in Hi. eapply sim_last; [eapply RE_do1; [exact H|cbn; rewrite Hl, Hi; reflexivity]|]. auto.
Qed.

(** The two ways to say "matrix [x] becomes [m]". *)
Lemma vecs_set t e x m v : sset (vecs t e) (S x) (Some (data m)) v = vecs t (mbind e x (Some m)) v.
Proof. unfold sset, vecs, mbind. destruct v as [|v]; [triv|]. change (S v =? S x) with (v =? x). destruct (v =? x); auto. Qed.
Lemma vecs_none t e x v : sset (vecs t e) (S x) None v = vecs t (mbind e x None) v.
Proof. unfold sset, vecs, mbind. destruct v as [|v]; [triv|]. change (S v =? S x) with (v =? x). destruct (v =? x); auto. Qed.
Lemma vecs_tmp t t' e v : sset (vecs t e) 0 t' v = vecs t' e v.
Proof. destruct v; triv. Qed.
Lemma dims_set e x m z : (if z =? x then Some (rows m, cols m) else dims e z) = dims (mbind e x (Some m)) z.
Proof. unfold dims, mbind. destruct (z =? x); auto. Qed.
Lemma dims_none e x z : (if z =? x then None else dims e z) = dims (mbind e x None) z.
Proof. unfold dims, mbind. destruct (z =? x); auto. Qed.
Lemma mbind_mbind (e : @menv T) x a b z : mbind (mbind e x a) x b z = mbind e x b z.
Proof. unfold mbind. destruct (z =? x); auto. Qed.
Lemma mbind_same (e : @menv T) x a : mbind e x a x = a.
Proof. unfold mbind. now rewrite Nat.eqb_refl. Qed.
Lemma mbind_other (e : @menv T) x y a : y <> x -> mbind e x a y = e y.
Proof. intros H. unfold mbind. apply Nat.eqb_neq in H. now rewrite H. Qed.
Lemma mbind_id (e : @menv T) x m : e x = Some m -> forall z, e z = mbind e x (Some m) z.
Proof. intros H z. unfold mbind. destruct (Nat.eqb_spec z x); subst; auto. Qed.

Section Env.
Context (s : @hst T) (t : option (list T)) (e : @menv T) (H : RM s t e).
Lemma RM_dims x m : e x = Some m -> hrows s x = rows m /\ hcols s x = cols m.
Proof. intros Hx. destruct H as (_ & HD). unfold hrows, hcols, hdims. rewrite HD. unfold dims. rewrite Hx. auto. Qed.
Lemma RM_look x : simW (fun m _ => e x = Some m) (mlook e x) (hlook s x).
Proof.
  unfold mlook, hlook. destruct H as (_ & HD). rewrite HD. unfold dims. destruct (e x); [|left; reflexivity]. apply sim_ret; auto.
Qed.
Lemma RM_fresh x : simW (fun _ _ => e x = None) (mfresh e x) (hfresh s x).
Proof.
  unfold mfresh, hfresh. destruct H as (_ & HD). rewrite HD. unfold dims. destruct (e x); [left; reflexivity|]. apply sim_ret; auto.
Qed.
Lemma RM_fits x m : e x = Some m -> fits (length (data m)).
Proof.
  intros Hx. destruct H as (HR & _). apply (Rel_fits _ _ (S x) _ HR). cbn. now rewrite Hx.
Qed.
End Env.

(** Reading a matrix or a view of it. *)
Definition simMB (X Y : MB T) : Prop :=
  mrows X = mrows Y /\ mcols X = mcols Y /\ msize X = msize Y /\
  (forall i j, simW eq (mget X i j) (mget Y i j)) /\ (forall k, simW eq (mlin X k) (mlin Y k)).
Lemma sim_root s t e y m : RM s t e -> e y = Some m -> simMB (mb_of_mat m) (hmb2 sz ans s y).
Proof.
  intros H Hy. destruct (RM_dims _ _ _ H _ _ Hy) as (Hr & Hc). unfold hmb2. rewrite Hr, Hc.
  assert (Hv : vecs t e (S y) = Some (data m)) by (cbn; now rewrite Hy).
  repeat split; cbn; intros; eapply RE_read; eauto.
Qed.
Lemma sim_view p : forall X Y, simMB X Y -> simMB (pview p X) (pview p Y).
Proof.
  induction p as [|rr rc p IH|er ec p IH]; cbn [pview]; intros X Y H; auto;
    specialize (IH _ _ H); destruct IH as (A & B & C & G & L); unfold mb_view, mb_cof; repeat split; cbn; rewrite ?A, ?B; auto;
    intros; (destruct (_ =? 0); [triv|auto]).
Qed.
Lemma vmb_pview p (m : Matrix T) : vmb p m = pview p (mb_of_mat m).
Proof. induction p; cbn; congruence. Qed.
Lemma sim_src s t e y m p : RM s t e -> e y = Some m -> simMB (vmb p m) (hsrc p y s).
Proof. intros H Hy. rewrite vmb_pview. apply sim_view. eapply sim_root; eauto. Qed.

(** Writing to a matrix: the state of a loop that changes [x] only. *)
Definition P e x t (m : Matrix T) (s : @hst T) := RM s t (mbind e x (Some m)).
Lemma P_start s t e x m : RM s t e -> e x = Some m -> P e x t m s.
Proof. intros H Hx. eapply RM_ext; eauto. now apply mbind_id. Qed.
Lemma P_other e x t m s y my : P e x t m s -> e y = Some my -> y <> x -> mbind e x (Some m) y = Some my.
Proof. intros _ Hy N. now rewrite mbind_other. Qed.
Lemma sim_wr e x t m s k a : P e x t m s -> simW (P e x t) (mat_lset m k a) (hdo s (Write (S x) k a)).
Proof.
  intros H. unfold mat_lset. assert (Hv : vecs t (mbind e x (Some m)) (S x) = Some (data m)) by (cbn; now rewrite mbind_same).
  eapply sim_map; [apply (RE_write _ _ _ _ k a _ H Hv)|]. intros d s' W. set (m' := mkM (rows m) (cols m) d).
  eapply RE_ext; [exact W| |].
  + intros v. change d with (data m'). rewrite vecs_set. unfold vecs. destruct v; auto. now rewrite mbind_mbind.
  + intros z. unfold dims, mbind. destruct (z =? x); auto.
Qed.
Lemma sim_set e x t m s p i j a : P e x t m s -> simW (P e x t) (vset p i j a m) (hset p x i j a s).
Proof.
  intros H. unfold vset, mat_set, hset2, mat_idx.
  destruct (RM_dims _ _ _ H x m (mbind_same _ _ _)) as (_ & ->). apply (sim_wr e x t m s _ a H).
Qed.
Lemma sim_srcP e x t m s p : P e x t m s -> simMB (vmb p m) (hsrc p x s).
Proof. intros H. eapply sim_src; [exact H|apply mbind_same]. Qed.
Lemma sim_lset e x t m s p k a : P e x t m s -> simW (P e x t) (vlset p k a m) (hlset2 sz ans p x k a s).
Proof.
  intros H. destruct p as [|rr rc p|er ec p]; cbn [vlset hlset2]; [now apply sim_wr| |].
  - destruct (sim_srcP _ _ _ _ _ (PView rr rc p) H) as (_ & <- & _). cbv zeta. destruct (_ =? 0); [triv|now apply sim_set].
  - destruct (sim_srcP _ _ _ _ _ (PCof er ec p) H) as (<- & _). cbv zeta. destruct (_ =? 0); [triv|now apply sim_set].
Qed.
(** The source [y] of a statement that changes [x]. *)
Lemma sim_srcY e x t m s p y my : P e x t m s -> e y = Some my ->
  simMB (if x =? y then vmb p m else vmb p my) (hsrc p y s).
Proof.
  intros H Hy. destruct (Nat.eqb_spec x y) as [<-|N]; [now apply (sim_srcP e x t)|].
  eapply sim_src; [exact H|]. rewrite mbind_other; auto.
Qed.

(** Allocation. *)
Lemma sim_sized s E D x n : RE s E D -> E x = None ->
  simW (fun d s' => RE s' (sset E x (Some d)) D) (vec_new n) (hdo s (Sized x n)).
Proof.
  intros H Hx. rewrite vec_new_if. destruct (fitsb n) eqn:F; [|left; reflexivity].
  eapply sim_last; [eapply RE_do1; [exact H|cbn; rewrite F, Hx, repeat_length, F; reflexivity]|]. auto.
Qed.
Lemma sim_fillv s E D x n v : RE s E D -> E x = None ->
  simW (fun d s' => RE s' (sset E x (Some d)) D) (vec_fill n v) (hdo s (Fill x n v)).
Proof.
  intros H Hx. rewrite vec_fill_if. destruct (fitsb n) eqn:F; [|left; reflexivity].
  eapply sim_last; [eapply RE_do1; [exact H|cbn; rewrite F, Hx, repeat_length, F; reflexivity]|]. auto.
Qed.
(** [_data = std::move(tmp)] and the end of the temporary. *)
Lemma renew_end s E D x l d : RE s (sset E 0 (Some d)) D -> E (S x) = Some l -> E 0 = None ->
  does (fun s' => RE s' (sset E (S x) (Some d)) D) (let* s := hdo s (MoveAssign (S x) 0) in hdo s (Destroy 0)).
Proof.
  intros H Hx H0. eapply sim_then; [eapply (RE_do1 s _ _ H (MoveAssign (S x) 0))|].
  { cbn [sstep]. change (sset E 0 (Some d) (S x)) with (E (S x)). rewrite Hx.
    change (sset E 0 (Some d) 0) with (Some d). cbv iota. change (S x =? 0) with false. reflexivity. }
  intros s1 H1. eapply RE_do; [exact H1|reflexivity|].
  intros v. unfold sset. destruct v as [|v]; [change (0 =? S x) with false; cbn; auto|].
  change (S v =? 0) with false. reflexivity.
Qed.
Lemma sim_renew s E D x n l : RE s E D -> E (S x) = Some l -> E 0 = None ->
  simW (fun d s' => RE s' (sset E (S x) (Some d)) D) (vec_new n) (renew2 sz ans s x n).
Proof.
  intros H Hx H0. unfold renew2. replace (vec_new n) with (let* d := vec_new n in Ok d) by (destruct (vec_new n); reflexivity).
  eapply sim_bind; [apply (sim_sized s E D 0 n H H0)|]. intros d s1 H1. eapply sim_last; [exact (renew_end s1 E D x l d H1 Hx H0)|]. auto.
Qed.

(** Whole statements. *)
Lemma P_of s e x t d r c E' D' : RE s E' D' -> (forall v, E' v = sset (vecs t e) (S x) (Some d) v) ->
  (forall z, D' z = if z =? x then Some (r, c) else dims e z) -> P e x t (mkM r c d) s.
Proof.
  intros H HE HD. eapply RE_ext; [exact H| |].
  - intros v. rewrite HE. apply (vecs_set t e x (mkM r c d)).
  - intros z. rewrite HD. apply (dims_set e x (mkM r c d)).
Qed.
Lemma P_setd s e x t m r c : P e x t m s -> P e x t (mkM r c (data m)) (setd s x (Some (r, c))).
Proof.
  intros H. eapply P_of.
  - eapply RE_setd; [exact H|triv].
  - intros v. symmetry. apply (vecs_set t e x m).
  - intros z. cbn. unfold dims, mbind. destruct (z =? x); auto.
Qed.
Lemma P_dims e x t m s : P e x t m s -> hrows s x = rows m /\ hcols s x = cols m.
Proof. intros H. eapply RM_dims; [exact H|apply mbind_same]. Qed.
Definition Q (e : @menv T) (s : @hst T) := RM s None e.
Lemma sim_keep e x a b : simW (P e x None) a b -> simW Q (keep e x a) b.
Proof.
  intros [->|[(S & ->)|H]]; [left; reflexivity|right; left; auto|]. unfold keep. right; right. destruct a; cbn in *; auto.
Qed.

Lemma sim_fill e x s r c v : RM s None e -> e x = None ->
  simW (P e x None) (mat_new r c v) (let* s := hdo s (Fill (S x) (mul64 r c) v) in Ok (setd s x (Some (r, c)))).
Proof.
  intros H Hx. unfold mat_new. eapply sim_bind. { eapply sim_fillv; [exact H|cbn; now rewrite Hx]. }
  intros d s' H'. apply sim_ret. eapply P_of; [eapply RE_setd; [exact H'|triv]|triv|triv].
Qed.
Lemma sim_zero e x s r c : RM s None e -> e x = None ->
  simW (fun m s' => P e x None m (setd s' x (Some (r, c)))) (mat_zero r c) (hdo s (Sized (S x) (mul64 r c))).
Proof.
  intros H Hx. unfold mat_zero. eapply sim_map.
  { apply (sim_sized s _ _ (S x) (mul64 r c) H). cbn. now rewrite Hx. }
  intros d s' W. eapply P_of; [eapply RE_setd; [exact W|reflexivity]|reflexivity|reflexivity].
Qed.
Lemma sim_list e x s r c l : RM s None e -> e x = None -> simW (P e x None) (mat_of_list r c l) (hlist2 sz ans x r c l s).
Proof.
  intros H Hx. unfold mat_of_list, hlist2. eapply sim_bind; [eapply sim_zero; eauto|]. intros m s' H'. cbv beta zeta.
  eapply sim_bind with (P := fun a b => P e x None (fst a) (fst b) /\ snd a = snd b).
  - apply sim_for; [|cbn; auto]. intros i a b Hab. apply sim_for; auto. clear a b Hab. intros j (a, k) (b, k') (Hab & Hk). cbn in Hab, Hk |- *. subst k'.
    apply sim_eqbind; [apply sim_refl|]. intros v. eapply sim_bind; [apply (sim_set e x None a b Root), Hab|].
    intros a' b' H1. apply sim_ret. auto.
  - intros (a, k) (b, k') (Hab & _). apply sim_ret. exact Hab.
Qed.
Lemma sim_nested e x t m s r c ll : P e x t m s -> simW (P e x t) (nested_copy r c ll m) (hnested2 sz ans x r c ll s).
Proof.
  intros H. unfold nested_copy, fill_rc, hnested2. apply sim_for; auto. intros i a b Hab. apply sim_for; auto. clear a b Hab.
  intros j a b Hab. apply sim_eqbind; [apply sim_refl|]. intros v. now apply (sim_set e x t a b Root).
Qed.
(** [renew2] on a matrix whose counters are already set. *)
Lemma sim_renewP e x m s n : P e x None m s ->
  simW (fun d s' => P e x None (mkM (rows m) (cols m) d) s') (vec_new n) (renew2 sz ans s x n).
Proof.
  intros H. eapply sim_impl. { eapply sim_renew; [exact H|cbn; rewrite mbind_same; triv|triv]. }
  intros d s' H'. eapply P_of; [exact H'| |].
  - intros v. unfold sset, vecs, mbind. destruct v as [|v]; auto. change (S v =? S x) with (v =? x). destruct (v =? x); auto.
  - intros z. unfold dims, mbind. destruct (z =? x); auto.
Qed.
Lemma sim_zeroP e x m s r c : P e x None m s ->
  simW (P e x None) (mat_zero r c) (renew2 sz ans (setd s x (Some (r, c))) x (mul64 r c)).
Proof.
  intros H. unfold mat_zero. eapply sim_map; [apply (sim_renewP _ _ _ _ (mul64 r c) (P_setd _ _ _ _ _ r c H))|]. auto.
Qed.
Lemma sim_ctor_nested e x s ll : RM s None e -> e x = None -> simW (P e x None) (mat_of_nested ll) (hctor_nested2 sz ans x ll s).
Proof.
  intros H Hx. unfold mat_of_nested, hctor_nested2. destruct ll as [|[|a f] ll]; [triv|triv|].
  cbv zeta. eapply sim_then; [eapply (RE_do1 s _ _ H (New (S x))); cbn; rewrite Hx; reflexivity|].
  intros s1 H1. set (r := length _). set (c := length _).
  assert (HS : RM (setd s1 x (Some (r, c))) None (mbind e x (Some (mkM r c nil)))).
  { eapply P_of; [eapply RE_setd; [exact H1|reflexivity]|reflexivity|reflexivity]. }
  eapply sim_bind with (P := P e x None); [|intros m s' Hm; now apply sim_nested].
  unfold mat_zero. eapply sim_map; [apply (sim_renewP e x (mkM r c nil) _ (mul64 r c) HS)|]. auto.
Qed.
Lemma sim_copy e x y p s my : RM s None e -> e x = None -> e y = Some my ->
  simW (P e x None) (mat_of_mb (vmb p my)) (hcopy2 sz ans x y p s).
Proof.
  intros H Hx Hy. assert (N : x <> y) by congruence. unfold mat_of_mb, hcopy2. cbv zeta.
  destruct (sim_src _ _ _ _ _ p H Hy) as (<- & <- & _).
  eapply sim_bind; [eapply sim_zero; eauto|]. intros m s' H'. unfold fill_lin. cbv beta.
  apply sim_for; auto. clear m s' H'. intros i a b Hab.
  assert (SY : simMB (vmb p my) (hsrc p y b)). { eapply sim_src; [exact Hab|]. rewrite mbind_other; auto. }
  apply sim_eqbind; [apply SY|]. intros v. now apply sim_wr.
Qed.
Lemma sim_move e x y s my : RM s None e -> e x = None -> e y = Some my ->
  simW Q (Ok (mbind (mbind e y (Some (snd (mat_move_ctor my)))) x (Some (fst (mat_move_ctor my))))) (hmove2 sz ans x y s).
Proof.
  intros H Hx Hy. assert (N : y <> x) by congruence. unfold hmove2. cbn [mat_move_ctor fst snd].
  set (m1 := mkM (rows my) (cols my) nil). set (m2 := mkM _ _ (data my)).
  eapply sim_then; [eapply (RE_do s (vecs None e) (dims e) (Move (S x) (S y)) (sset (sset (vecs None e) (S y) (Some nil)) (S x) (Some (data my))) Nothing
      (vecs None (mbind (mbind e y (Some m1)) x (Some m2))) H)|].
  { cbn. rewrite Hx, Hy. reflexivity. }
  { intros v. unfold sset, vecs, mbind. destruct v as [|v]; auto. change (S v =? S x) with (v =? x). change (S v =? S y) with (v =? y).
    destruct (v =? x), (v =? y); auto. }
  intros s1 H1. apply sim_ret.
  assert (Hd : hrows s1 y = rows my /\ hcols s1 y = cols my).
  { unfold hrows, hcols, hdims. destruct H1 as (_ & ->). unfold dims. rewrite Hy. auto. }
  destruct Hd as (-> & ->). eapply RE_ext; [eapply RE_setd; [exact H1|reflexivity]|reflexivity|].
  intros z. cbn beta. unfold dims, mbind. destruct (Nat.eqb_spec z x); auto. destruct (Nat.eqb_spec z y); auto. subst z. now rewrite Hy.
Qed.
Lemma sim_assign e x y p s mx my : RM s None e -> e x = Some mx -> e y = Some my -> (x =? y) && match p with Root => true | _ => false end = false ->
  simW (P e x None) (mat_assign (fun m => if x =? y then vmb p m else vmb p my) mx) (hassign2 sz ans x y p s).
Proof.
  intros H Hx Hy Hn. unfold mat_assign, hassign2. rewrite Hn. cbv beta zeta. pose proof (P_start _ _ _ _ _ H Hx) as H0.
  assert (SY : forall m s', P e x None m s' -> simMB (if x =? y then vmb p m else vmb p my) (hsrc p y s')) by (intros; eapply sim_srcY; eauto).
  remember (fun m => if x =? y then vmb p m else vmb p my) as src eqn:Hsrc.
  assert (SY' : forall m s', P e x None m s' -> simMB (src m) (hsrc p y s')) by (subst src; exact SY). clear SY.
  change (simW (P e x None) (mat_assign (fun m => if x =? y then vmb p m else vmb p my) mx)
    (if msize (hsrc p y s) =? 0 then Ok s else
     let* s := renew2 sz ans s x (mul64 (mrows (hsrc p y s)) (mcols (hsrc p y s))) in
     let s := setd s x (Some (mrows (hsrc p y s), hcols s x)) in
     let s := setd s x (Some (hrows s x, mcols (hsrc p y s))) in
     for_range 0 (hrows s x) (fun r s' => for_range 0 (hcols s x) (fun c s' =>
       let* a := mget (hsrc p y s') r c in hset Root x r c a s') s') s)).
  rewrite <- Hsrc. unfold mat_assign. cbv zeta. destruct (SY' _ _ H0) as (-> & -> & -> & _). apply sim_if; auto.
  { apply sim_ret. auto. }
  eapply sim_bind; [eapply sim_renewP, H0|]. intros d s1 H1. cbv beta in H1 |- *. set (m1 := mkM (rows mx) (cols mx) d) in *.
  destruct (SY' _ _ H1) as (-> & _). destruct (P_dims _ _ _ _ _ H1) as (_ & ->).
  pose proof (P_setd _ _ _ _ _ (mrows (hsrc p y s1)) (cols m1) H1) as H2.
  cbn [data rows cols m1] in H2 |- *. set (s2 := setd s1 x _) in *.
  destruct (SY' _ _ H2) as (_ & -> & _). destruct (P_dims _ _ _ _ _ H2) as (-> & _).
  pose proof (P_setd _ _ _ _ _ (mrows (hsrc p y s1)) (mcols (hsrc p y s2)) H2) as H3. cbn [data rows cols] in H3 |- *.
  set (s3 := setd s2 x _) in *. destruct (P_dims _ _ _ _ _ H3) as (-> & ->).
  apply sim_for; auto. clear - SY' Rel_step Rel_ext Rel_fits. intros r a b Hab. apply sim_for; auto. clear a b Hab. intros c a b Hab.
  apply sim_eqbind; [now apply SY'|]. intros v. now apply (sim_set e x None a b Root).
Qed.
Lemma sim_move_assign e x y s mx my : RM s None e -> e x = Some mx -> e y = Some my -> x <> y ->
  simW Q (Ok (mbind (mbind e y (Some (snd (mat_move_assign mx my)))) x (Some (fst (mat_move_assign mx my))))) (hmove_assign2 sz ans x y s).
Proof.
  intros H Hx Hy N. unfold hmove_assign2. destruct (Nat.eqb_spec x y) as [|_]; [contradiction|].
  destruct (RM_dims _ _ _ H _ _ Hy) as (-> & ->). unfold mat_move_assign. destruct (_ =? 0); cbn [fst snd].
  { apply sim_ret. eapply RM_ext; [exact H|]. intros z. unfold mbind. destruct (Nat.eqb_spec z x); [subst; auto|]. destruct (Nat.eqb_spec z y); subst; auto. }
  set (m1 := mkM (rows my) (cols my) nil). set (m2 := mkM _ _ (data my)).
  eapply sim_then; [eapply (RE_do s (vecs None e) (dims e) (MoveAssign (S x) (S y)) (sset (sset (vecs None e) (S y) (Some nil)) (S x) (Some (data my))) Nothing
      (vecs None (mbind (mbind e y (Some m1)) x (Some m2))) H)|].
  { cbn. rewrite Hx, Hy. change (S x =? S y) with (x =? y). destruct (Nat.eqb_spec x y); [contradiction|]. reflexivity. }
  { intros v. unfold sset, vecs, mbind. destruct v as [|v]; auto. change (S v =? S x) with (v =? x). change (S v =? S y) with (v =? y).
    destruct (v =? x), (v =? y); auto. }
  intros s1 H1. apply sim_ret.
  assert (Hd : hrows s1 y = rows my /\ hcols s1 y = cols my).
  { unfold hrows, hcols, hdims. destruct H1 as (_ & ->). unfold dims. rewrite Hy. auto. }
  destruct Hd as (-> & ->). eapply RE_ext; [eapply RE_setd; [exact H1|reflexivity]|reflexivity|].
  intros z. cbn beta. unfold dims, mbind. destruct (Nat.eqb_spec z x); auto. destruct (Nat.eqb_spec z y); auto. subst z. now rewrite Hy.
Qed.
Lemma sim_assign_nested e x s mx ll : P e x None mx s -> simW (P e x None) (mat_assign_nested mx ll) (hassign_nested2 sz ans x ll s).
Proof.
  intros H. unfold mat_assign_nested, hassign_nested2. destruct ll as [|[|a f] ll]; [apply sim_ret; auto|apply sim_ret; auto|].
  cbv zeta. eapply sim_bind; [eapply sim_zeroP, H|]. intros m s' Hm. now apply sim_nested.
Qed.
(** Writing to the local matrix. *)
Definition L r c (e : @menv T) (n : Matrix T) (s : @hst T) := RM s (Some (data n)) e /\ rows n = r /\ cols n = c.
Lemma sim_local r c e n s i j a : L r c e n s -> simW (L r c e) (mat_set n i j a) (hdo s (Write 0 (add64 (mul64 i c) j) a)).
Proof.
  intros (H & Hr & Hc). unfold mat_set, mat_idx. rewrite Hc.
  eapply sim_map; [apply (RE_write s _ _ 0 (add64 (mul64 i c) j) a (data n) H eq_refl)|]. intros d s' W.
  split; auto. eapply RE_ext; [exact W| |reflexivity]. apply vecs_tmp.
Qed.
Lemma sim_local_new r c e s v : RM s None e -> simW (L r c e) (mat_new r c v) (hdo s (Fill 0 (mul64 r c) v)).
Proof.
  intros H. unfold mat_new. eapply sim_map; [apply (sim_fillv _ _ _ 0 (mul64 r c) v H eq_refl)|]. intros d s' W.
  split; auto. eapply RE_ext; [exact W| |reflexivity]. apply vecs_tmp.
Qed.
Lemma sim_resize e x s m r c : P e x None m s -> simW (P e x None) (mat_resize m r c) (hresize2 sz ans x r c s).
Proof.
  intros H. unfold mat_resize, hresize2. destruct (P_dims _ _ _ _ _ H) as (-> & ->). apply sim_if; auto. { apply sim_ret; auto. }
  destruct (cols m =? c).
  - rewrite vec_alloc_if by (eapply RM_fits; [exact H|apply mbind_same]).
    destruct (fitsb _) eqn:F; [|left; reflexivity]. cbn [bind].
    eapply sim_then; [eapply (RE_do1 s _ _ H (Resize (S x) (mul64 r c))); cbn; rewrite mbind_same, F; reflexivity|].
    intros s1 H1. apply sim_ret. eapply P_of; [eapply RE_setd; [exact H1|reflexivity]| |].
    + intros v. unfold sset, vecs, mbind. destruct v as [|v]; auto. change (S v =? S x) with (v =? x). destruct (v =? x); auto.
    + intros z. cbn. unfold dims, mbind. destruct (z =? x); auto.
  - rewrite bind_assoc. eapply sim_bind; [apply (sim_local_new r c _ s o0 H)|]. intros n s1 W.
    rewrite bind_assoc. eapply sim_bind with (P := L r c (mbind e x (Some m))).
    + destruct (RM_dims _ _ _ (proj1 W) x m (mbind_same _ _ _)) as (-> & ->).
      unfold fill_rc. apply sim_for; auto. intros i a b Hab. apply sim_for; auto. clear a b Hab. intros j a b Hab.
      apply sim_eqbind; [|intros v; now apply sim_local].
      destruct (sim_root b _ _ x m (proj1 Hab) (mbind_same _ _ _)) as (_ & _ & _ & G & _). apply G.
    + intros n' s2 (V & Hr & Hc).
      eapply sim_then; [apply (renew_end s2 (vecs None (mbind e x (Some m))) (dims (mbind e x (Some m))) x (data m) (data n'))|].
      { eapply RE_ext; [exact V| |reflexivity]. intros v. symmetry. apply vecs_tmp. } { cbn. now rewrite mbind_same. } { reflexivity. }
      intros s3 H3. apply sim_ret. eapply P_of; [eapply RE_setd; [exact H3|reflexivity]| |].
      * intros v. unfold sset, vecs, mbind. destruct v as [|v]; auto. change (S v =? S x) with (v =? x). destruct (v =? x); auto.
      * intros z. cbn. unfold dims, mbind. destruct (z =? x); auto.
Qed.
Lemma sim_reshape e x s m r c : P e x None m s -> simW (P e x None) (mat_reshape m r c) (hreshape x r c s).
Proof.
  intros H. unfold mat_reshape, hreshape. destruct (P_dims _ _ _ _ _ H) as (-> & ->). destruct (_ =? _); [|triv].
  apply sim_ret. now apply P_setd.
Qed.
Lemma sim_swap e x t s m p i j a b : P e x t m s -> simW (P e x t) (vswap p i j a b m) (hswap2 sz ans p x i j a b s).
Proof.
  intros H. unfold vswap, hswap2. destruct (sim_srcP _ _ _ _ _ p H) as (_ & _ & _ & G & _).
  apply sim_eqbind; [apply G|]. intros u. apply sim_eqbind; [apply G|]. intros v.
  eapply sim_bind; [apply sim_set, H|]. intros m' s' H'. now apply sim_set.
Qed.
Lemma sim_swap_rows e x s m p i j c0 c1 : P e x None m s -> simW (P e x None) (swap_rows p i j c0 c1 m) (hswap_rows2 sz ans x p i j c0 c1 s).
Proof.
  intros H. unfold swap_rows, hswap_rows2. destruct (sim_srcP _ _ _ _ _ p H) as (_ & <- & _). cbv zeta.
  apply sim_for; auto. intros. now apply sim_swap.
Qed.
Lemma sim_swap_cols e x s m p i j c0 c1 : P e x None m s -> simW (P e x None) (swap_cols p i j c0 c1 m) (hswap_cols2 sz ans x p i j c0 c1 s).
Proof.
  intros H. unfold swap_cols, hswap_cols2. destruct (sim_srcP _ _ _ _ _ p H) as (<- & _). cbv zeta.
  apply sim_for; auto. intros. now apply sim_swap.
Qed.
Lemma sim_remove_row e x s m k : P e x None m s -> simW (P e x None) (remove_row m k) (hremove_row2 sz ans x k s).
Proof.
  intros H. unfold remove_row, hremove_row2. destruct (P_dims _ _ _ _ _ H) as (-> & _). destruct (_ <=? k); [triv|].
  eapply sim_bind with (P := P e x None).
  - apply sim_for; auto. intros i a b Hab. destruct (P_dims _ _ _ _ _ Hab) as (_ & ->). apply sim_for; auto. intros. now apply sim_swap.
  - intros a b Hab. destruct (P_dims _ _ _ _ _ Hab) as (-> & ->). now apply sim_resize.
Qed.
Lemma sim_remove_column e x s m k : P e x None m s -> simW (P e x None) (remove_column m k) (hremove_column2 sz ans x k s).
Proof.
  intros H. unfold remove_column, hremove_column2. destruct (P_dims _ _ _ _ _ H) as (_ & ->). destruct (_ <=? k); [triv|].
  eapply sim_bind with (P := P e x None).
  - apply sim_for; auto. intros i a b Hab. destruct (P_dims _ _ _ _ _ Hab) as (-> & _). apply sim_for; auto. intros. now apply sim_swap.
  - intros a b Hab. destruct (P_dims _ _ _ _ _ Hab) as (-> & ->). now apply sim_resize.
Qed.
Lemma sim_srcB e x t m s y my : P e x t m s -> e y = Some my ->
  simMB ((if x =? y then mb_of_mat else fun _ => mb_of_mat my) m) (hmb2 sz ans s y).
Proof. intros H Hy. pose proof (sim_srcY e x t m s Root y my H Hy) as W. destruct (x =? y); exact W. Qed.
Lemma sim_view_assign e x s m p y my : P e x None m s -> e y = Some my ->
  simW (P e x None) (view_assign p (if x =? y then mb_of_mat else fun _ => mb_of_mat my) m) (hview_assign2 sz ans x p y s).
Proof.
  intros H Hy. unfold view_assign, hview_assign2. set (src := if x =? y then _ else _).
  assert (SB : forall m s, P e x None m s -> simMB (src m) (hmb2 sz ans s y)) by (intros; now apply (sim_srcB e x None)).
  assert (SR : forall m s, P e x None m s -> mrows (src m) = hrows s y) by (intros a b Hab; apply (SB a b Hab)).
  assert (SC : forall m s, P e x None m s -> mcols (src m) = hcols s y) by (intros a b Hab; apply (SB a b Hab)).
  destruct (sim_srcP _ _ _ _ _ p H) as (<- & <- & _). rewrite (SR _ _ H), (SC _ _ H).
  apply sim_if; auto; [|triv]. apply sim_for; auto. intros r a b Hab. rewrite (SC _ _ Hab). apply sim_for; auto.
  clear a b Hab. intros c a b Hab. apply sim_eqbind; [now apply SB|]. intros v. now apply sim_set.
Qed.
Lemma sim_izip f e x s m p y my : P e x None m s -> e y = Some my ->
  simW (P e x None) (mb_izip f p (if x =? y then mb_of_mat else fun _ => mb_of_mat my) m) (hizip2 sz ans f x p y s).
Proof.
  intros H Hy. unfold mb_izip, hizip2. set (src := if x =? y then _ else _).
  assert (SB : forall m s, P e x None m s -> simMB (src m) (hmb2 sz ans s y)) by (intros; now apply (sim_srcB e x None)).
  assert (SR : forall m s, P e x None m s -> mrows (src m) = hrows s y) by (intros a b Hab; apply (SB a b Hab)).
  assert (SC : forall m s, P e x None m s -> mcols (src m) = hcols s y) by (intros a b Hab; apply (SB a b Hab)).
  destruct (sim_srcP _ _ _ _ _ p H) as (<- & <- & <- & _). rewrite (SR _ _ H), (SC _ _ H).
  apply sim_if; [auto|triv|]. apply sim_if; [auto|triv|]. apply sim_for; auto. clear - SB Rel_step Rel_ext Rel_fits. intros i a b Hab.
  apply sim_eqbind; [now apply (sim_srcP e x None)|]. intros u. apply sim_eqbind; [now apply SB|]. intros v.
  apply sim_eqbind; [apply sim_refl|]. intros w. now apply sim_lset.
Qed.
Lemma sim_imap f e x s m p : P e x None m s -> simW (P e x None) (mb_imap f p m) (himap2 sz ans f x p s).
Proof.
  intros H. unfold mb_imap, himap2. destruct (sim_srcP _ _ _ _ _ p H) as (_ & _ & <- & _). apply sim_for; auto. clear - Rel_step Rel_ext Rel_fits. intros i a b Hab.
  apply sim_eqbind; [now apply (sim_srcP e x None)|]. intros u. apply sim_eqbind; [apply sim_refl|]. intros w. now apply sim_lset.
Qed.
Lemma sim_imul e x s m p y my : P e x None m s -> e x = Some m -> e y = Some my ->
  simW (P e x None) (m_imul p (if x =? y then mb_of_mat else fun _ => mb_of_mat my) m) (himul2 sz ans x p y s).
Proof.
  intros H Hx Hy. assert (E : (if x =? y then mb_of_mat else fun _ => mb_of_mat my) m = mb_of_mat my).
  { destruct (Nat.eqb_spec x y); auto. subst. congruence. }
  unfold m_imul, himul2. rewrite E. cbv zeta. clear E.
  assert (He : RM s None e). { eapply RM_ext; [exact H|]. intros z. symmetry. now apply mbind_id. }
  destruct (sim_src _ _ _ _ _ p He Hx) as (<- & <- & _). destruct (RM_dims _ _ _ He _ _ Hy) as (-> & _).
  cbn [mb_of_mat mrows]. apply sim_if; [auto|triv|].
  set (nr := mrows (vmb p m)). set (nc := mcols (vmb p m)).
  eapply sim_bind; [eapply sim_local_new, He|]. intros n0 s0 L0.
  eapply sim_bind with (P := L nr nc e).
  - unfold mul_loop. fold nr. cbn [mb_of_mat mrows mcols]. apply sim_for; auto. clear n0 s0 L0. intros r a b Hab.
    destruct (RM_dims _ _ _ (proj1 Hab) _ _ Hy) as (_ & ->). apply sim_for; auto. clear a b Hab. intros c a b Hab.
    destruct (RM_dims _ _ _ (proj1 Hab) _ _ Hy) as (-> & _). apply sim_for; auto. clear a b Hab. intros k a b Hab.
    apply sim_eqbind. { apply (sim_src _ _ _ _ _ p (proj1 Hab) Hx). } intros u.
    apply sim_eqbind. { apply (sim_root _ _ _ _ _ (proj1 Hab) Hy). } intros v. unfold macc.
    apply sim_eqbind. { unfold mat_at, mat_idx. destruct Hab as (Hab & _ & ->). eapply RE_read; [exact Hab|triv]. } intros w.
    now apply sim_local.
  - intros res s1 (L1 & _). destruct (sim_src _ _ _ _ _ p L1 Hx) as (_ & _ & <- & _).
    pose proof (P_start _ _ _ _ _ L1 Hx) as H1.
    match goal with |- simW _ ?a _ => replace a with (let* m := a in Ok m) by (destruct a; reflexivity) end.
    eapply sim_bind with (P := P e x (Some (data res))).
    { apply sim_for; auto. clear - Rel_step Rel_ext Rel_fits. intros i a b Hab. apply sim_eqbind; [eapply RE_read; [exact Hab|reflexivity]|]. intros v. now apply sim_lset. }
    intros m' s2 V. eapply sim_last; [eapply (RE_do1 s2 _ _ V (Destroy 0)); reflexivity|].
    intros s3 H3. eapply RE_ext; [exact H3| |reflexivity]. apply vecs_tmp.
Qed.

Lemma step_sim s e c : RM s None e -> simW Q (mstep e c) (hstep2 sz ans s c).
Proof.
  intros H. destruct c; cbn [mstep hstep2];
    try (eapply sim_bind; [apply (RM_look s None e H)|]; intros mx ? Hx; cbv beta);
    try (eapply sim_bind; [apply (RM_fresh s None e H)|]; intros ? ? Hx; cbv beta);
    try (eapply sim_bind; [apply (RM_look s None e H)|]; intros my ? Hy; cbv beta);
    try pose proof (P_start _ _ _ _ _ H Hx) as HP.
  - apply sim_keep. eapply sim_then; [eapply (RE_do1 s _ _ H (New (S x))); cbn; rewrite Hx; reflexivity|].
    intros s1 H1. apply sim_ret. eapply P_of; [eapply RE_setd; [exact H1|triv]|triv|triv].
  - apply sim_keep. now apply sim_fill.
  - apply sim_keep. now apply sim_list.
  - apply sim_keep. now apply sim_ctor_nested.
  - apply sim_keep. now apply sim_copy.
  - now apply sim_move.
  - destruct ((x =? y) && match p with Root => true | _ => false end) eqn:B.
    + apply andb_prop in B. destruct B as (B1 & B2). destruct p; try discriminate. unfold hassign2. rewrite B1. apply sim_ret; auto.
    + pose proof (sim_assign e x y p s mx my H Hx Hy B) as W. destruct (x =? y) eqn:B1; [|now apply sim_keep].
      destruct p; [discriminate B| |]; now apply sim_keep.
  - destruct (Nat.eqb_spec x y) as [<-|N]; [|now apply sim_move_assign]. unfold hmove_assign2. rewrite Nat.eqb_refl. apply sim_ret; auto.
  - apply sim_keep. now apply sim_assign_nested.
  - apply sim_keep. now apply sim_resize.
  - apply sim_keep. now apply sim_reshape.
  - apply sim_keep. now apply sim_remove_row.
  - apply sim_keep. now apply sim_remove_column.
  - apply sim_keep. now apply sim_swap_rows.
  - apply sim_keep. now apply sim_swap_cols.
  - apply sim_keep. now apply sim_set.
  - apply sim_keep. now apply sim_view_assign.
  - apply sim_keep. now apply sim_izip.
  - apply sim_keep. now apply sim_izip.
  - apply sim_keep. now apply sim_imul.
  - apply sim_keep. now apply sim_imap.
  - apply sim_eqbind. { apply (sim_src _ _ _ _ _ p H Hx). } intros v. apply sim_ret. auto.
  - eapply sim_then; [eapply (RE_do1 s _ _ H (Destroy (S x))); cbn; rewrite Hx; reflexivity|].
    intros s1 H1. apply sim_ret. eapply RE_ext; [eapply RE_setd; [exact H1|triv]| |].
    + apply vecs_none. + apply dims_none.
Qed.
End Proofs.

Section Main.
Context {T : Type} {O : Ops T} (sz : N) (Hsz : (0 < sz <= 32)%N).
Notation RW := (RM (@W T)). Notation RR := (RM (@R T)).
Lemma W_steps ans : forall s e c e' ob, W s e -> sstep e c = Some (e', ob) ->
  (false = false /\ vstep2 sz ans s c = UB) \/ exists s' : @vst T, vstep2 sz ans s c = Ok (s', ob) /\ W s' e'.
Proof. intros s e c e' ob H Hs. destruct (wstep sz Hsz ans s e c e' ob H Hs) as [?|?]; auto. Qed.
Lemma W_fit : forall (s : @vst T) e x l, W s e -> e x = Some l -> fits (length l).
Proof. intros s e x l (_ & H & _). apply H. Qed.
Lemma R_steps ans : ans <> Refuse -> forall s e c e' ob, R s e -> sstep e c = Some (e', ob) ->
  (true = false /\ vstep2 sz ans s c = UB) \/ exists s' : @vst T, vstep2 sz ans s c = Ok (s', ob) /\ R s' e'.
Proof.
  intros Ha s e c e' ob H Hs. right. rewrite (step_same sz Hsz ans s e c e' ob Ha H Hs). eapply step_ok; eauto.
Qed.
Lemma R_fit : forall (s : @vst T) e x l, R s e -> e x = Some l -> fits (length l).
Proof. intros s e x l (_ & H & _). apply H. Qed.
Definition wstep_sim ans := step_sim sz ans false (@W T) (W_steps ans) (@W_ext T) W_fit.
Definition rstep_sim ans (Ha : ans <> Refuse) := step_sim sz ans true (@R T) (R_steps ans Ha) (@R_ext T) R_fit.

Lemma wrun_sim cs : forall s e e', RW s None e -> mrun e (map fst cs) = Ok e' ->
  hrun2 sz s cs = UB \/ exists s', hrun2 sz s cs = Ok s' /\ RW s' None e'.
Proof.
  induction cs as [|(c, a) cs IH]; intros s e e' H Hr; cbn [mrun hrun2 map fst] in *. { injection Hr as <-. eauto. }
  destruct (wstep_sim a s e c H) as [E|[(_ & E)|E]].
  - rewrite E in Hr. discriminate.
  - rewrite E. auto.
  - destruct (mstep e c) as [e1| | | |]; try discriminate.
    + destruct E as (s1 & -> & H1). cbn [bind] in *. eapply IH; eauto.
    + rewrite E. eapply IH; eauto.
Qed.
Lemma rrun_sim cs : forall s e e', RR s None e -> (forall c, In c cs -> snd c <> Refuse) -> mrun e (map fst cs) = Ok e' ->
  exists s', hrun2 sz s cs = Ok s' /\ RR s' None e'.
Proof.
  induction cs as [|(c, a) cs IH]; intros s e e' H Hc Hr; cbn [mrun hrun2 map fst] in *. { injection Hr as <-. eauto. }
  assert (Ha : a <> Refuse) by (apply (Hc (c, a)); cbn; auto). assert (Hc' : forall c, In c cs -> snd c <> Refuse) by (intros; apply Hc; cbn; auto).
  destruct (rstep_sim a Ha s e c H) as [E|[(E & _)|E]].
  - rewrite E in Hr. discriminate.
  - discriminate.
  - destruct (mstep e c) as [e1| | | |]; try discriminate.
    + destruct E as (s1 & -> & H1). cbn [bind] in *. eapply IH; eauto.
    + rewrite E. eapply IH; eauto.
Qed.
Lemma RW_init : RW hst0 None (fun _ => None).
Proof. split; [|reflexivity]. eapply W_ext; [apply W_init|]. intros [|x]; reflexivity. Qed.
Lemma RR_init : RR hst0 None (fun _ => None).
Proof. split; [|reflexivity]. eapply R_ext; [apply R_init|]. intros [|x]; reflexivity. Qed.
Lemma hrun2_app cs cs' : forall s, hrun2 sz s (cs ++ cs') = (let* s := hrun2 sz s cs in hrun2 sz s cs').
Proof.
  induction cs as [|(c, a) cs IH]; intros s; cbn [app hrun2]; [reflexivity|]. destruct (hstep2 sz a s c); cbn [bind]; auto.
Qed.

(** * C130: programs that use matrices when memory runs out.  [cs] is a program in which each
    statement comes with the allocator's answer to the request it may make; [mrun] runs the
    statements on matrices as lists. *)
(** Whatever the allocator answers, the program is undefined, or its matrices have the right
    numbers of rows and columns and no wrong element can be read. *)
Theorem C130_values : forall cs e, mrun (fun _ => None) (map fst cs) = Ok e ->
  hrun2 sz hst0 cs = UB \/
  exists s, hrun2 sz hst0 cs = Ok s /\
    forall x, match e x with
              | Some m => as_far_as_readable sz s x m
              | None => hshape s x = None /\ env (hv s) (S x) = None
              end.
Proof.
  intros cs e Hr. destruct (wrun_sim cs _ _ _ RW_init Hr) as [->|(s & -> & H)]; auto. right. exists s. split; auto.
  intros x. destruct H as (HW & HD). specialize (HD x). unfold dims in HD. destruct (e x) as [m|] eqn:Ex; cbn in HD.
  - split; auto. intros r i v Hv. assert (Hx : vecs None e (S x) = Some (data m)) by (cbn; now rewrite Ex).
    destruct (W_look _ _ _ _ HW Hx) as (o & Lk & _ & Wo & _). unfold hread2 in Hv. cbn [vstep2 vstep] in Hv. rewrite Lk in Hv. cbn [bind] in Hv.
    destruct (load (hp (hv s)) (vptr o) i) as [w| | | |] eqn:El; cbn [bind] in Hv; try discriminate. injection Hv as <-.
    unfold load in El. destruct (vptr o) as [b|] eqn:Eb; [|discriminate]. destruct Wo as (_ & Wo). destruct (Wo b Eb) as (_ & cells & Hb & _ & Hc).
    rewrite Hb in El. destruct (nth_error cells i) as [[u|]|] eqn:Ec; try discriminate. injection El as <-. auto.
  - split; auto. apply (W_fresh _ _ _ HW). cbn. now rewrite Ex.
Qed.
(** If no request is refused all is well. *)
Theorem C130_no_refusal : forall cs e, mrun (fun _ => None) (map fst cs) = Ok e -> (forall c, In c cs -> snd c <> Refuse) ->
  exists s, hrun2 sz hst0 cs = Ok s /\ mem_ok (hv s) /\ matrices_are s e.
Proof.
  intros cs e Hr Hc. destruct (rrun_sim cs _ _ _ RR_init Hc Hr) as (s & E & H). exists s. split; auto. split.
  - apply (R_mem (fun _ _ _ => true) _ _ (proj1 H)).
  - apply RM_are. exact H.
Qed.

(** A refused request. *)
Lemma refuse_new s E D x n : RE (@W T) s E D -> E x = None -> fitsb n = true -> 0 < n ->
  hdo2 sz Refuse s (Sized x n) = UB /\ forall v, hdo2 sz Refuse s (Fill x n v) = UB.
Proof.
  intros (HW & _) Hx F Hn. apply fitsb_spec in F. unfold hdo2. cbn [vstep2]. unfold fresh_name. rewrite (W_fresh _ _ _ HW Hx). cbn [bind].
  unfold v_sized2, v_fill2. assert (U : v_allocate2 sz Refuse (hp (hv s)) vnull n = UB) by (apply (refused_alloc sz Hsz _ _ nil); auto using wowns_null).
  rewrite U. split; [reflexivity|]. intros v. rewrite set_ub by exact U. reflexivity.
Qed.
Lemma refuse_renew s E D x n : RE (@W T) s E D -> E 0 = None -> fitsb n = true -> 0 < n -> renew2 sz Refuse s x n = UB.
Proof. intros H Hx F Hn. unfold renew2. rewrite (proj1 (refuse_new s E D 0 n H Hx F Hn)). reflexivity. Qed.
Lemma new_fits n (d : list T) : vec_new n = Ok d -> fitsb n = true.
Proof. rewrite vec_new_if. destruct (fitsb n); [auto|discriminate]. Qed.
Lemma fill_fits n v (d : list T) : vec_fill n v = Ok d -> fitsb n = true.
Proof. rewrite vec_fill_if. destruct (fitsb n); [auto|discriminate]. Qed.
Lemma keep_ok (e : @menv T) x a e' : keep e x a = Ok e' -> exists m, a = Ok m.
Proof. unfold keep. destruct a; cbn; try discriminate. eauto. Qed.
Lemma bind_ok {A B} (a : Res A) (f : A -> Res B) y : bind a f = Ok y -> exists x, a = Ok x /\ f x = Ok y.
Proof. destruct a; cbn; try discriminate. eauto. Qed.
Notation srcW s e y m p H Hy := (sim_src sz Refuse false (@W T) (W_steps Refuse) s None e y m p H Hy).
Lemma refuse_resize s e x m r c : RW s None e -> e x = Some m -> fitsb (mul64 r c) = true -> 0 < mul64 r c ->
  (cols m =? c) && ((rows m =? r) || (mul64 r c <=? length (data m))) = false -> hresize2 sz Refuse x r c s = UB.
Proof.
  intros H Hx F Hn Hb. unfold hresize2. destruct (RM_dims _ _ _ _ H _ _ Hx) as (-> & ->).
  destruct (cols m =? c); rewrite ?andb_false_r.
  - cbn [andb] in Hb. apply Bool.orb_false_elim in Hb. destruct Hb as (-> & Hb). cbn [andb]. apply Nat.leb_gt in Hb. unfold hdo2. cbn [vstep2]. assert (Hv : vecs None e (S x) = Some (data m)) by (cbn; now rewrite Hx).
    destruct (W_look _ _ _ _ (proj1 H) Hv) as (o & -> & _ & Wo & _). cbn [bind]. unfold v_resize2. apply fitsb_spec in F.
    rewrite (refused_alloc sz Hsz _ _ (data m)) by auto. reflexivity.
  - rewrite (proj2 (refuse_new s _ _ 0 _ H eq_refl F Hn)). reflexivity.
Qed.
Lemma for_keep {A} (I : A -> Prop) lo hi body : (forall i a a', I a -> body i a = Ok a' -> I a') ->
  forall a a', I a -> for_range lo hi body a = Ok a' -> I a'.
Proof.
  intros K. unfold for_range. generalize (hi - lo) as n. intros n. revert lo. induction n as [|n IH]; intros lo a a' Ia; cbn [for_n]. { intros [= <-]. auto. }
  intros E. apply bind_ok in E. destruct E as (b & E1 & E2). eapply IH; [|exact E2]. eauto.
Qed.
Lemma set_keeps (m m' : Matrix T) i j (w : T) : mat_set m i j w = Ok m' -> rows m' = rows m /\ cols m' = cols m.
Proof. unfold mat_set. intros E. apply bind_ok in E. destruct E as (d & _ & [= <-]). auto. Qed.
Lemma swap_keeps (m m' : Matrix T) i j a b : vswap Root i j a b m = Ok m' -> rows m' = rows m /\ cols m' = cols m.
Proof.
  unfold vswap. intros E. apply bind_ok in E. destruct E as (u & _ & E). apply bind_ok in E. destruct E as (v & _ & E). apply bind_ok in E. destruct E as (m1 & E1 & E2).
  destruct (set_keeps _ _ _ _ _ E1), (set_keeps _ _ _ _ _ E2). split; congruence.
Qed.
Lemma swap_length (m m' : Matrix T) i j a b : vswap Root i j a b m = Ok m' -> length (data m') = length (data m).
Proof.
  assert (S : forall m m' i j (w : T), mat_set m i j w = Ok m' -> length (data m') = length (data m)).
  { clear. unfold mat_set, lset. intros m m' i j w. destruct (_ <? _); cbn [bind]; [|discriminate]. intros [= <-]. cbn. apply upd_length. }
  unfold vswap. intros E. apply bind_ok in E. destruct E as (u & _ & E). apply bind_ok in E. destruct E as (v & _ & E). apply bind_ok in E. destruct E as (m1 & E1 & E2).
  apply S in E1. apply S in E2. congruence.
Qed.
Lemma resize_fits (m m' : Matrix T) r c : mat_resize m r c = Ok m' -> (cols m =? c) && ((rows m =? r) || (mul64 r c <=? length (data m))) = false -> fitsb (mul64 r c) = true.
Proof.
  unfold mat_resize. destruct (cols m =? c); rewrite ?andb_false_r.
  - cbn [andb]. intros E B. apply Bool.orb_false_elim in B. destruct B as (B & Hb). rewrite B in E. cbn [andb] in E. apply bind_ok in E. destruct E as (d & E & _).
    apply Nat.leb_gt in Hb. destruct (fitsb (mul64 r c)) eqn:F; auto. exfalso. rewrite vec_allocate_ub in E; [discriminate| |lia].
    intros Hf. apply fitsb_spec in Hf. congruence.
  - intros E _. apply bind_ok in E. destruct E as (n & E & _). apply bind_ok in E. destruct E as (d & E & _). eapply fill_fits; eauto.
Qed.
Lemma refuse_step s e c e' n : RW s None e -> mstep e c = Ok e' -> asks e c = Some n -> 0 < n -> hstep2 sz Refuse s c = UB.
Proof.
  intros H Hs Ha Hn.
  assert (HF : forall x, e x = None -> hfresh s x = Ok tt).
  { intros x Hx. unfold hfresh. destruct H as (_ & ->). unfold dims. rewrite Hx. reflexivity. }
  assert (HL : forall x m, e x = Some m -> hlook s x = Ok tt).
  { intros x m Hx. unfold hlook. destruct H as (_ & ->). unfold dims. rewrite Hx. reflexivity. }
  assert (HV : forall x, e x = None -> vecs None e (S x) = None) by (intros x Hx; cbn; now rewrite Hx).
  destruct c; cbn [asks] in Ha; try discriminate; cbn [mstep hstep2] in *; unfold mfresh, mlook in Hs.
  - destruct (e x) eqn:Hx; [discriminate|]. cbn [bind] in Hs. apply keep_ok in Hs. destruct Hs as (m & Hm). injection Ha as <-.
    rewrite (HF _ Hx). cbn [bind]. apply bind_ok in Hm. destruct Hm as (d & Hd & _). apply fill_fits in Hd.
    rewrite (proj2 (refuse_new s _ _ (S x) _ H (HV _ Hx) Hd Hn)). reflexivity.
  - destruct (e x) eqn:Hx; [discriminate|]. cbn [bind] in Hs. apply keep_ok in Hs. destruct Hs as (m & Hm). injection Ha as <-.
    rewrite (HF _ Hx). cbn [bind]. unfold mat_of_list in Hm. apply bind_ok in Hm. destruct Hm as (d & Hd & _). apply bind_ok in Hd. destruct Hd as (d' & Hd & _).
    apply new_fits in Hd. unfold hlist2. rewrite (proj1 (refuse_new s _ _ (S x) _ H (HV _ Hx) Hd Hn)). reflexivity.
  - destruct (e x) eqn:Hx; [discriminate|]. cbn [bind] in Hs. apply keep_ok in Hs. destruct Hs as (m & Hm). injection Ha as <-.
    rewrite (HF _ Hx). cbn [bind]. unfold mat_of_nested in Hm. unfold hctor_nested2. destruct ll as [|[|a f] ll]; try discriminate. cbv zeta in *. cbn [hd] in Hn.
    apply bind_ok in Hm. destruct Hm as (d & Hd & _). apply bind_ok in Hd. destruct Hd as (d' & Hd & _). apply new_fits in Hd.
    assert (W0 : forall s', RE (@W T) s' (sset (vecs None e) (S x) (Some nil)) (dims e) ->
      renew2 sz Refuse (setd s' x (Some (length ((a :: f) :: ll), length (a :: f)))) x (mul64 (length ((a :: f) :: ll)) (length (a :: f))) = UB).
    { intros s' H'. eapply refuse_renew; eauto. eapply RE_setd; [exact H'|reflexivity]. reflexivity. }
    destruct (RE_do1 sz Refuse false (@W T) (W_steps Refuse) (@W_ext T) s _ _ H (New (S x)) (sset (vecs None e) (S x) (Some nil)) Nothing) as [E|[(_ & E)|E]].
    { cbn. rewrite Hx. reflexivity. } { discriminate. } { rewrite E. reflexivity. }
    destruct E as (s' & -> & H'). cbn [bind]. rewrite (W0 s' H'). reflexivity.
  - destruct (e x) eqn:Hx; [discriminate|]. destruct (e y) as [my|] eqn:Hy; [|discriminate]. cbn [bind] in Hs. apply keep_ok in Hs. destruct Hs as (m & Hm). injection Ha as <-.
    rewrite (HF _ Hx), (HL _ _ Hy). cbn [bind]. unfold mat_of_mb in Hm. unfold hcopy2. cbv zeta. destruct (srcW s e y my p H Hy) as (<- & <- & _).
    apply bind_ok in Hm. destruct Hm as (d & Hd & _). apply bind_ok in Hd. destruct Hd as (d' & Hd & _). apply new_fits in Hd.
    rewrite (proj1 (refuse_new s _ _ (S x) _ H (HV _ Hx) Hd Hn)). reflexivity.
  - destruct (e x) as [mx|] eqn:Hx; [|discriminate]. destruct ((x =? y) && match p with Root => true | _ => false end) eqn:B; [discriminate|].
    destruct (e y) as [my|] eqn:Hy; [|discriminate]. cbn [bind] in Hs. injection Ha as <-. rewrite (HL _ _ Hx), (HL _ _ Hy). cbn [bind].
    assert (Hm : exists m, mat_assign (fun m => if x =? y then vmb p m else vmb p my) mx = Ok m).
    { destruct (x =? y) eqn:B1; [|now apply keep_ok in Hs]. destruct p; [discriminate B| |]; now apply keep_ok in Hs. }
    destruct Hm as (m & Hm). unfold mat_assign in Hm. unfold hassign2. rewrite B. cbv beta zeta in *. destruct (srcW s e y my p H Hy) as (E1 & E2 & E3 & _).
    assert (Ey : (if x =? y then vmb p mx else vmb p my) = vmb p my). { destruct (Nat.eqb_spec x y); auto. subst. congruence. }
    rewrite Ey in Hm. rewrite <- E3. destruct (msize (vmb p my) =? 0) eqn:Z.
    { exfalso. apply Nat.eqb_eq in Z. assert (Zm : msize (vmb p my) = mul64 (mrows (vmb p my)) (mcols (vmb p my))) by (destruct p; reflexivity). lia. }
    rewrite <- E1, <- E2. apply bind_ok in Hm. destruct Hm as (d & Hd & _). apply new_fits in Hd.
    rewrite (refuse_renew s _ _ x _ H eq_refl Hd Hn). reflexivity.
  - destruct (e x) as [mx|] eqn:Hx; [|discriminate]. cbn [bind] in Hs. apply keep_ok in Hs. destruct Hs as (m & Hm). injection Ha as <-.
    rewrite (HL _ _ Hx). cbn [bind]. unfold mat_assign_nested in Hm. unfold hassign_nested2.
    destruct ll as [|[|a f] ll]; cbn [hd] in Hn; [exfalso; rewrite mul64_small in Hn by reflexivity; cbn in Hn; lia| |].
    { exfalso. cbn [length] in Hn. rewrite mul64_small in Hn by (rewrite Nat.mul_0_r; reflexivity). lia. }
    cbv zeta in *. apply bind_ok in Hm. destruct Hm as (d & Hd & _). apply bind_ok in Hd. destruct Hd as (d' & Hd & _). apply new_fits in Hd.
    erewrite refuse_renew; [reflexivity|eapply RE_setd; [exact H|reflexivity]|reflexivity|exact Hd|exact Hn].
  - destruct (e x) as [m|] eqn:Hx; [|discriminate]. cbn [bind] in Hs. apply keep_ok in Hs. destruct Hs as (m' & Hm). rewrite (HL _ _ Hx). cbn [bind].
    destruct ((cols m =? c) && ((rows m =? r) || (mul64 r c <=? length (data m)))) eqn:B; [discriminate|]. injection Ha as <-.
    eapply refuse_resize; eauto. eapply resize_fits; eauto.
  - destruct (e x) as [m|] eqn:Hx; [|discriminate]. cbn [bind] in Hs. apply keep_ok in Hs. destruct Hs as (m' & Hm). rewrite (HL _ _ Hx). cbn [bind].
    injection Ha as <-. unfold remove_column in Hm. unfold hremove_column2. destruct (RM_dims _ _ _ _ H _ _ Hx) as (_ & ->).
    destruct (Nat.leb_spec (cols m) k) as [|Hc]; [discriminate|]. apply bind_ok in Hm. destruct Hm as (m1 & Hm1 & Hm).
    assert (Sh : rows m1 = rows m /\ cols m1 = cols m).
    { eapply (for_keep (fun a => rows a = rows m /\ cols a = cols m)); [|auto|exact Hm1]. intros i a a' Ha' Hf.
      eapply (for_keep (fun a => rows a = rows m /\ cols a = cols m)); [|exact Ha'|exact Hf]. intros j b b' (A & B) Hb. destruct (swap_keeps _ _ _ _ _ _ Hb). split; congruence. }
    assert (V : simW false (P (@W T) e x None) (for_range k (cols m - 1) (fun c m => for_range 0 (rows m) (fun r m => vswap Root r c r (S c) m) m) m)
      (for_range k (cols m - 1) (fun c s => for_range 0 (hrows s x) (fun r s => hswap2 sz Refuse Root x r c r (S c) s) s) s)).
    { apply sim_for; [|exact (P_start (@W T) (@W_ext T) s None e x m H Hx)]. intros i a b Hab. destruct (P_dims _ _ _ _ _ _ Hab) as (-> & _). apply sim_for; auto.
      intros. apply (sim_swap sz Refuse false (@W T) (W_steps Refuse) (@W_ext T)). auto. }
    rewrite Hm1 in V. destruct V as [V|[(_ & V)|(s1 & V & H1)]]; [discriminate|rewrite V; reflexivity|]. rewrite V. cbn [bind].
    destruct (P_dims _ _ _ _ _ _ H1) as (-> & ->). destruct Sh as (Sr & Sc). rewrite Sr, Sc in *.
    eapply refuse_resize; [exact H1|apply mbind_same|eapply resize_fits; [exact Hm|]|exact Hn|].
    + rewrite Sc. destruct (Nat.eqb_spec (cols m) (cols m - 1)); [lia|]. reflexivity.
    + rewrite Sc. destruct (Nat.eqb_spec (cols m) (cols m - 1)); [lia|]. reflexivity.
  - destruct (e x) as [m|] eqn:Hx; [|discriminate]. destruct (e y) as [my|] eqn:Hy; [|discriminate]. cbn [bind] in Hs. apply keep_ok in Hs. destruct Hs as (m' & Hm).
    rewrite (HL _ _ Hx), (HL _ _ Hy). cbn [bind]. injection Ha as <-. unfold himul2. destruct (srcW s e x m p H Hx) as (<- & <- & _).
    destruct (RM_dims _ _ _ _ H _ _ Hy) as (-> & _). unfold m_imul in Hm. cbv zeta in *.
    assert (Ey : (if x =? y then mb_of_mat else fun _ => mb_of_mat my) m = mb_of_mat my). { destruct (Nat.eqb_spec x y); auto. subst. congruence. }
    rewrite Ey in Hm. cbn [mb_of_mat mrows] in Hm. destruct (negb _); [discriminate|]. apply bind_ok in Hm. destruct Hm as (n0 & Hn0 & _). apply bind_ok in Hn0. destruct Hn0 as (d & Hd & _).
    apply fill_fits in Hd. rewrite (proj2 (refuse_new s _ _ 0 _ H eq_refl Hd Hn)). reflexivity.
Qed.
(** A refused request of a statement that builds its result in a new block, or that
    makes a matrix larger, is undefined behaviour at once: no exception tells the program. *)
Theorem C130_refused : forall cs e c e' n rest, mrun (fun _ => None) (map fst cs) = Ok e -> mstep e c = Ok e' -> asks e c = Some n -> 0 < n ->
  hrun2 sz hst0 (cs ++ (c, Refuse) :: rest) = UB.
Proof.
  intros cs e c e' n rest Hr Hs Ha Hn. rewrite hrun2_app. destruct (wrun_sim cs _ _ _ RW_init Hr) as [->|(s & -> & H)]; [reflexivity|].
  cbn [bind hrun2]. rewrite (refuse_step s e c e' n H Hs Ha Hn). reflexivity.
Qed.
(** What is left when the request to make a matrix smaller is refused: the new numbers of rows
    and columns, and no element. *)
Definition hollow (s : @hst T) (x r c : nat) : Prop :=
  hshape s x = Some (r, c) /\
  forall a, (forall p i j, hstep2 sz a s (MGet x p i j) = UB) /\ (forall p i j v, hstep2 sz a s (MSet x p i j v) = UB) /\
    (forall y, 0 < mul64 r c -> hstep2 sz a s (MCopy y x Root) = UB).
Lemma null_hollow s x r c n : env (hv s) (S x) = Some (mkV None n) -> hshape s x = Some (r, c) -> fits (mul64 r c) -> hollow s x r c.
Proof.
  intros He Hd Hf. split; auto. intros a.
  assert (Lx : hlook s x = Ok tt) by (unfold hlook; now rewrite Hd).
  assert (Rd : forall (s' : @hst T) i, env (hv s') (S x) = Some (mkV None n) -> hread2 sz a s' (S x) i = UB).
  { intros s' i E. unfold hread2. cbn [vstep2 vstep]. unfold look. rewrite E. reflexivity. }
  split; [|split].
  - intros p i j. cbn [hstep2]. rewrite Lx. cbn [bind].
    assert (G : forall p i j, mget (hsrc2 sz a p x s) i j = UB).
    { clear p i j. intros p. unfold hsrc2. induction p as [|rr rc p IH|er ec p IH]; intros i j; cbn [pview mb_view mb_cof mget]; auto. apply Rd; auto. }
    rewrite G. reflexivity.
  - intros p i j v. cbn [hstep2]. rewrite Lx. cbn [bind]. unfold hset2, hdo2. cbn [vstep2 vstep]. unfold look. rewrite He. reflexivity.
  - intros y Hn. cbn [hstep2]. unfold hfresh. destruct (hshape s y) eqn:Ey; [reflexivity|]. cbn [bind]. rewrite Lx. cbn [bind].
    unfold hcopy2. cbv zeta. cbn [hsrc2 pview]. unfold hsrc2. cbn [pview hmb2 hmbv2 mrows mcols]. unfold hrows, hcols, hdims. rewrite Hd. cbn [fst snd].
    unfold hdo2 at 1. cbn [vstep2]. unfold fresh_name. destruct (env (hv s) (S y)) as [o|] eqn:Ev; [reflexivity|]. cbn [bind]. unfold v_sized2.
    destruct (walloc sz Hsz a (hp (hv s)) vnull nil _ (wowns_null _) Hf) as [->|(h1 & o1 & f & -> & F & Wo & Hfl)]; [reflexivity|]. cbn [bind].
    rewrite for_range_first by lia. cbn [mlin hmb2 hmbv2]. rewrite Rd; [reflexivity|]. cbn [hv setd env bindn]. unfold bindn.
    destruct (Nat.eqb_spec (S x) (S y)) as [E|]; auto. injection E as <-. congruence.
Qed.
Lemma shrink_step s e x m r : RW s None e -> e x = Some m -> 0 < mul64 r (cols m) < length (data m) -> rows m <> r ->
  exists s', hresize2 sz Refuse x r (cols m) s = Ok s' /\ hollow s' x r (cols m).
Proof.
  intros H Hx Hn Hr. assert (Hv : vecs None e (S x) = Some (data m)) by (cbn; now rewrite Hx).
  destruct (W_look _ _ _ _ (proj1 H) Hv) as (o & Lk & _ & Wo & Hf). assert (Hf' : fits (mul64 r (cols m))) by (unfold fits in *; lia).
  unfold hresize2. destruct (RM_dims _ _ _ _ H _ _ Hx) as (-> & ->). rewrite Nat.eqb_refl. apply Nat.eqb_neq in Hr. rewrite Hr. cbn [andb].
  unfold hdo2. cbn [vstep2]. rewrite Lk. cbn [bind]. unfold v_resize2. rewrite (refused_shrink_alloc sz Hsz _ _ (data m)) by auto. cbn [bind].
  eexists. split; [reflexivity|]. eapply null_hollow with (n := mul64 r (cols m)); auto.
  - cbn [hv setd env]. unfold bindn. rewrite Nat.eqb_refl. reflexivity.
  - cbn. rewrite Nat.eqb_refl. reflexivity.
Qed.
(** A refused request of a resize to fewer rows goes unnoticed: the matrix reports the new size,
    but every access to an element and every copy is undefined behaviour. *)
Theorem C130_refused_shrink : forall cs e s x m r, mrun (fun _ => None) (map fst cs) = Ok e -> hrun2 sz hst0 cs = Ok s ->
  e x = Some m -> 0 < mul64 r (cols m) < length (data m) -> rows m <> r ->
  exists s', hstep2 sz Refuse s (MResize x r (cols m)) = Ok s' /\ hollow s' x r (cols m).
Proof.
  intros cs e s x m r Hr Hs Hx Hn Hd. destruct (wrun_sim cs _ _ _ RW_init Hr) as [E|(s0 & E & H)]; [congruence|].
  assert (s0 = s) by congruence. subst s0. cbn [hstep2]. unfold hlook. rewrite (proj2 H). unfold dims. rewrite Hx. cbn [option_map bind].
  eapply shrink_step; eauto.
Qed.
(** So does one of remove_row, and the elements of all the other rows are lost. *)
Theorem C130_remove_row : forall cs e e' x m k, mrun (fun _ => None) (map fst cs) = Ok e -> (forall c, In c cs -> snd c <> Refuse) ->
  mstep e (MRemoveRow x k) = Ok e' -> e x = Some m -> length (data m) = rows m * cols m -> 1 < rows m -> 0 < cols m ->
  exists s s', hrun2 sz hst0 cs = Ok s /\ hstep2 sz Refuse s (MRemoveRow x k) = Ok s' /\ hollow s' x (rows m - 1) (cols m).
Proof.
  intros cs e e' x m k Hr Hc Hs Hx Hl Hr1 Hc1. destruct (rrun_sim cs _ _ _ RR_init Hc Hr) as (s & E & HR).
  destruct (wrun_sim cs _ _ _ RW_init Hr) as [U|(s0 & E0 & HW)]; [congruence|]. assert (s0 = s) by congruence. subst s0. clear E0.
  exists s. cbn [mstep] in Hs. unfold mlook in Hs. rewrite Hx in Hs. cbn [bind] in Hs. apply keep_ok in Hs. destruct Hs as (m' & Hm).
  cbn [hstep2]. unfold hlook. rewrite (proj2 HW). unfold dims. rewrite Hx. cbn [option_map bind].
  unfold remove_row in Hm. unfold hremove_row2. destruct (RM_dims _ _ _ _ HW _ _ Hx) as (-> & _).
  destruct (Nat.leb_spec (rows m) k) as [|Hk]; [discriminate|]. apply bind_ok in Hm. destruct Hm as (m1 & Hm1 & _).
  assert (Sh : rows m1 = rows m /\ cols m1 = cols m /\ length (data m1) = length (data m)).
  { eapply (for_keep (fun a => rows a = rows m /\ cols a = cols m /\ length (data a) = length (data m))); [|auto|exact Hm1]. intros i a a' Ha' Hf.
    eapply (for_keep (fun a => rows a = rows m /\ cols a = cols m /\ length (data a) = length (data m))); [|exact Ha'|exact Hf]. intros j b b' (A & B & C) Hb.
    destruct (swap_keeps _ _ _ _ _ _ Hb). rewrite (swap_length _ _ _ _ _ _ Hb). repeat split; congruence. }
  set (loop a := for_range k (rows m - 1) (fun r s => for_range 0 (hcols s x) (fun c s => hswap2 sz a Root x r c (S r) c s) s) s).
  assert (V : simW false (P (@W T) e x None) (Ok m1) (loop Refuse)).
  { rewrite <- Hm1. apply sim_for; [|exact (P_start (@W T) (@W_ext T) s None e x m HW Hx)]. intros i a b Hab. destruct (P_dims _ _ _ _ _ _ Hab) as (_ & ->). apply sim_for; auto.
    intros. apply (sim_swap sz Refuse false (@W T) (W_steps Refuse) (@W_ext T)). auto. }
  assert (NR : InPlace <> Refuse) by discriminate.
  assert (V' : simW true (P (@R T) e x None) (Ok m1) (loop InPlace)).
  { rewrite <- Hm1. apply sim_for; [|exact (P_start (@R T) (@R_ext T) s None e x m HR Hx)]. intros i a b Hab. destruct (P_dims _ _ _ _ _ _ Hab) as (_ & ->). apply sim_for; auto.
    intros. apply (sim_swap sz InPlace true (@R T) (R_steps InPlace NR) (@R_ext T)). auto. }
  assert (EL : loop Refuse = loop InPlace) by reflexivity.
  destruct V' as [V'|[(V' & _)|(s2 & V' & _)]]; [discriminate|discriminate|].
  destruct V as [V|[(_ & V)|(s1 & V & H1)]]; [discriminate|congruence|]. fold (loop Refuse). rewrite V. cbn [bind].
  destruct (P_dims _ _ _ _ _ _ H1) as (-> & ->). destruct Sh as (Sr & Sc & Sl). 
  assert (Hf : fits (length (data m))). { eapply W_fit with (x := S x); [exact (proj1 HW)|]. cbn. now rewrite Hx. }
  assert (Hz : is_size ((rows m - 1) * cols m)). { rewrite Hl in Hf. unfold fits, alloc_max in Hf. unfold is_size, two64. nia. }
  destruct (shrink_step s1 _ x m1 (rows m1 - 1) H1 (mbind_same _ _ _)) as (s' & E1 & Ho).
  { rewrite Sr, Sc, Sl, Hl, mul64_small by auto. nia. } { lia. }
  exists s'. split; auto. rewrite E1. split; auto. rewrite <- Sr, <- Sc. exact Ho.
Qed.

(** Once lost, a block stays lost. *)
Section Lost.
Context (a : reply) (b : nat).
Notation kl := (fun m : Res (@hst T) => forall s', m = Ok s' -> lost (hv s') b).
Lemma kl_ok s : lost (hv s) b -> kl (Ok s).
Proof. intros H s' [= <-]. auto. Qed.
Lemma kl_do s c : lost (hv s) b -> kl (hdo2 sz a s c).
Proof.
  intros H s' E. unfold hdo2 in E. destruct (vstep2 sz a (hv s) c) as [[v o]| | | |] eqn:Ev; try discriminate. injection E as <-. eapply lost_step; eauto.
Qed.
Lemma kl_bindh (m : Res (@hst T)) f : kl m -> (forall s, lost (hv s) b -> kl (f s)) -> kl (bind m f).
Proof. intros H K s' E. apply bind_ok in E. destruct E as (s & E1 & E2). eapply K; eauto. Qed.
Lemma kl_bind {A} (m : Res A) f : (forall x, kl (f x)) -> kl (bind m f).
Proof. intros K s' E. apply bind_ok in E. destruct E as (x & E1 & E2). eapply K; eauto. Qed.
Lemma kl_for lo hi body s : lost (hv s) b -> (forall i s, lost (hv s) b -> kl (body i s)) -> kl (for_range lo hi body s).
Proof. intros H K s' E. eapply (for_keep (fun s => lost (hv s) b)); [|exact H|exact E]. intros i x x' Hx Ex. eapply K; eauto. Qed.
Lemma kl_if (c : bool) m m' : kl m -> kl m' -> kl (if c then m else m').
Proof. destruct c; auto. Qed.
Lemma kl_throw : kl Throw. Proof. discriminate. Qed.
Lemma kl_ub : kl UB. Proof. discriminate. Qed.
Ltac klt := repeat (cbv zeta; first
  [ assumption | apply kl_throw | apply kl_ub | apply kl_ok | apply kl_do | (apply kl_if) | (apply kl_for; [|intros ? ? ?]) | (apply kl_bindh; [|intros ? ?]) | (apply kl_bind; intros ?) ]).
Lemma kl_set p x i j v s : lost (hv s) b -> kl (hset2 sz a p x i j v s).
Proof. intros H. unfold hset2. klt. Qed.
Lemma kl_lset p x k v s : lost (hv s) b -> kl (hlset2 sz a p x k v s).
Proof. intros H. unfold hlset2. destruct p; klt; apply kl_set; auto. Qed.
Lemma kl_renew s x n : lost (hv s) b -> kl (renew2 sz a s x n).
Proof. intros H. unfold renew2. klt. Qed.
Lemma kl_nested x r c ll s : lost (hv s) b -> kl (hnested2 sz a x r c ll s).
Proof. intros H. unfold hnested2. klt; apply kl_set; auto. Qed.
Lemma kl_list x r c l s : lost (hv s) b -> kl (hlist2 sz a x r c l s).
Proof.
  intros H. unfold hlist2. apply kl_bindh; [klt|]. intros s1 H1 s' E. apply bind_ok in E. destruct E as ((s2, k) & E & [= <-]). cbn [fst].
  change (lost (hv (fst (s2, k))) b). eapply (for_keep (fun q : @hst T * nat => lost (hv (fst q)) b)); [| |exact E]; [|exact H1]. clear - Hsz. intros i q q' Hq Eq.
  eapply (for_keep (fun q : @hst T * nat => lost (hv (fst q)) b)); [|exact Hq|exact Eq]. clear - Hsz. intros j (s, k) q' Hq Eq. cbn [fst snd] in *.
  apply bind_ok in Eq. destruct Eq as (v & _ & Eq). apply bind_ok in Eq. destruct Eq as (h & Eh & [= <-]). cbn. eapply kl_set; eauto.
Qed.
Lemma kl_resize x r c s : lost (hv s) b -> kl (hresize2 sz a x r c s).
Proof. intros H. unfold hresize2. klt. Qed.
Lemma kl_swap p x i j k l s : lost (hv s) b -> kl (hswap2 sz a p x i j k l s).
Proof. intros H. unfold hswap2. klt; apply kl_set; auto. Qed.
Lemma kl_step s c : lost (hv s) b -> kl (hstep2 sz a s c).
Proof.
  intros H. destruct c; cbn [hstep2]; repeat (apply (@kl_bind unit); intros ?); try (klt; fail).
  all: try (now apply kl_list).
  all: unfold hctor_nested2, hcopy2, hmove2, hassign2, hmove_assign2, hassign_nested2, hreshape, hremove_row2, hremove_column2, hswap_rows2, hswap_cols2, hview_assign2, hizip2, himul2, himap2.
  all: try match goal with ll : list (list T) |- _ => destruct ll as [|[|? ?] ?] end.
  all: klt; now apply kl_lset.
Qed.
End Lost.
Lemma lost_hrun cs b : forall s s', lost (hv s) b -> hrun2 sz s cs = Ok s' -> lost (hv s') b.
Proof.
  induction cs as [|(c, a) cs IH]; intros s s' L; cbn [hrun2]. { intros [= <-]. auto. }
  destruct (hstep2 sz a s c) as [s1| | | |] eqn:E; cbn [bind]; try discriminate; [|eauto]. apply IH. eapply kl_step; eauto.
Qed.
(** The old block of the matrix is lost: it stays allocated whatever the program does afterwards. *)
Theorem C130_leak : forall cs e x m r, mrun (fun _ => None) (map fst cs) = Ok e -> (forall c, In c cs -> snd c <> Refuse) ->
  e x = Some m -> 0 < mul64 r (cols m) < length (data m) -> rows m <> r ->
  exists b, forall rest s, hrun2 sz hst0 (cs ++ (MResize x r (cols m), Refuse) :: rest) = Ok s ->
    live (hv s) b /\ forall y o, env (hv s) y = Some o -> vptr o <> Some b.
Proof.
  intros cs e x m r Hr Hc Hx Hn Hd. destruct (rrun_sim cs _ _ _ RR_init Hc Hr) as (s & E & HR).
  destruct (wrun_sim cs _ _ _ RW_init Hr) as [U|(s0 & E0 & HW)]; [congruence|]. assert (s0 = s) by congruence. subst s0. clear E0.
  assert (Hv : vecs None e (S x) = Some (data m)) by (cbn; now rewrite Hx).
  destruct (R_look _ _ _ _ (proj1 HR) Hv) as (o & Lk & Eo & Wo & Hf). assert (Hf' : fits (mul64 r (cols m))) by (unfold fits in *; lia).
  destruct (W_look _ _ _ _ (proj1 HW) Hv) as (o' & Lk' & _ & Wx & _). assert (o' = o) by congruence. subst o'.
  destruct Wo as [(_ & _ & Hnil)|(b & Pb & Sb & Nb & Hb)]; [rewrite Hnil in Hn; cbn in Hn; lia|]. exists b. intros rest s2. rewrite hrun2_app, E. cbn [bind hrun2].
  cbn [hstep2]. unfold hlook. rewrite (proj2 HW). unfold dims. rewrite Hx. cbn [option_map bind].
  unfold hresize2. destruct (RM_dims _ _ _ _ HW _ _ Hx) as (-> & ->). rewrite Nat.eqb_refl. apply Nat.eqb_neq in Hd. rewrite Hd. cbn [andb].
  unfold hdo2 at 1. cbn [vstep2]. rewrite Lk. cbn [bind]. unfold v_resize2. rewrite (refused_shrink_alloc sz Hsz _ _ (data m)) by auto. cbn [bind].
  intros E2. eapply (lost_hrun rest b) in E2; [exact E2|]. cbn [hv setd]. split; [exists (map Some (data m)); exact Hb|].
  intros y oy. cbn [env]. unfold bindn. destruct (Nat.eqb_spec y (S x)) as [->|Hy]; [intros [= <-]; discriminate|]. intros Ey Py. apply Hy.
  destruct HR as ((_ & _ & H2 & _) & _). eapply H2; eauto.
Qed.
End Main.

(** * Examples, on integers of 8 bytes *)
From Verif Require Import Scalar.
Definition ex_moom : list (@mop Z * reply) :=
  [(MNested 0 [[1; 2]; [3; 4]; [5; 6]]%Z, Elsewhere); (MCopy 1 0 Root, InPlace); (MResize 1 3 3, Elsewhere); (MReshape 1 2 2, Refuse); (MMul 1 Root 1, InPlace)].
Example C130_ex : match mrun (fun _ => None) (map fst ex_moom) with
  | Ok e => option_map (@data Z) (e 0) = Some [1; 2; 3; 4; 5; 6]%Z /\ option_map (@rows Z) (e 1) = Some 3 /\ asks e (MAssign 1 0 Root) = Some 6 /\ asks e (MResize 0 2 2) = None /\
            (exists e', mstep e (MAssign 1 0 Root) = Ok e') /\ exists e', mstep e (MRemoveRow 0 1) = Ok e'
  | _ => False end.
Proof. vm_compute. repeat split; eauto. Qed.
Example C130_ex_run : match hrun2 8 hst0 ex_moom with Ok s => hshape s 0 = Some (3, 2) | _ => False end /\
  hrun2 8 hst0 (ex_moom ++ [(MAssign 1 0 Root, Refuse)]) = UB /\
  match hrun2 8 hst0 (ex_moom ++ [(MRemoveRow 0 1, Refuse)]) with Ok s => hshape s 0 = Some (2, 2) /\ hread2 8 InPlace s 1 0 = UB | _ => False end /\
  match hrun2 8 hst0 (ex_moom ++ [(MResize 0 2 2, Refuse); (MDestroy 0, Refuse); (MDestroy 1, Refuse)]) with
  | Ok s => hd None (hp (hv s)) = Some (map Some [1; 2; 3; 4; 5; 6]%Z) | _ => False end.
Proof. vm_compute. auto. Qed.
