(** PropMatHeap.v: memory safety, absence of leaks and value semantics of programs
    that use matrices, at the level of pointers and blocks (C128). *)
From Verif Require Import MatHeap PropHeap MatFacts BaseFacts.
Arguments Nat.ltb : simpl never.
Arguments Nat.leb : simpl never.
Arguments Nat.eqb : simpl never.
Arguments N.ltb : simpl never.

(** * Specification *)
Section Spec.
Context {T : Type} {O : Ops T}.
(** Matrix [x] of the program in memory is the matrix [m]: it has its numbers of rows
    and columns, and reading its elements from memory gives those of [m]. *)
Definition matrix_is (s : @hst T) (x : nat) (m : Matrix T) : Prop :=
  hshape s x = Some (rows m, cols m) /\ reads_as (hv s) (S x) (data m).
(** The matrices in memory are exactly those of [e], and no temporary is left. *)
Definition matrices_are (s : @hst T) (e : @menv T) : Prop :=
  env (hv s) 0 = None /\
  forall x, match e x with
            | Some m => matrix_is s x m
            | None => hshape s x = None /\ env (hv s) (S x) = None
            end.
End Spec.

(** * Proofs *)
(** [b] does what [a] does: the same result, up to [P], the same exception, undefined
    behaviour together. *)
Definition simR {A B} (P : A -> B -> Prop) (a : Res A) (b : Res B) : Prop :=
  match a with Ok x => exists y, b = Ok y /\ P x y | Throw => b = Throw | UB => b = UB | Exit => b = Exit | Fuel => b = Fuel end.

Lemma sim_bind {A B A' B'} (P : A -> B -> Prop) (Q : A' -> B' -> Prop) a b f g :
  simR P a b -> (forall x y, P x y -> simR Q (f x) (g y)) -> simR Q (bind a f) (bind b g).
Proof. destruct a; cbn; try now intros ->. intros (y & -> & H) K. cbn. auto. Qed.
Lemma sim_eqbind {A A' B'} (Q : A' -> B' -> Prop) (a b : Res A) f g :
  simR eq a b -> (forall x, simR Q (f x) (g x)) -> simR Q (bind a f) (bind b g).
Proof. intros H K. eapply sim_bind; eauto. intros x y <-. auto. Qed.
Lemma sim_refl {A} (a : Res A) : simR eq a a.
Proof. destruct a; cbn; eauto. Qed.
Lemma sim_ret {A B} (P : A -> B -> Prop) x y : P x y -> simR P (Ok x) (Ok y).
Proof. cbn. eauto. Qed.
Lemma sim_impl {A B} (P Q : A -> B -> Prop) a b : simR P a b -> (forall x y, P x y -> Q x y) -> simR Q a b.
Proof. destruct a; cbn; auto. intros (y & -> & H) K. eauto. Qed.
Lemma sim_for {A B} (P : A -> B -> Prop) lo hi f g : (forall i x y, P x y -> simR P (f i x) (g i y)) ->
  forall x y, P x y -> simR P (for_range lo hi f x) (for_range lo hi g y).
Proof.
  intros H. unfold for_range. generalize (hi - lo) as n. intros n. revert lo.
  induction n as [|n IH]; intros lo x y Hp; cbn [for_n]. { cbn; eauto. }
  eapply sim_bind; [apply H, Hp|]. intros; apply IH; auto.
Qed.
Lemma sim_if {A B} (P : A -> B -> Prop) (c c' : bool) a b a' b' : c = c' -> simR P a a' -> simR P b b' ->
  simR P (if c then a else b) (if c' then a' else b').
Proof. intros <-. destruct c; auto. Qed.
(** Something only done in memory. *)
Lemma sim_right {A B C} (Q : A -> B -> Prop) a (b : Res C) g y : b = Ok y -> simR Q a (g y) -> simR Q a (bind b g).
Proof. intros -> H. exact H. Qed.

Section Proofs.
Context {T : Type} {O : Ops T} (ip : @heap T -> nat -> nat -> bool).
Notation hdo := (hdo ip). Notation hread := (hread ip). Notation hsrc := (hsrc ip). Notation hset := (hset ip).

(** The Vectors behind the matrices of [e]; [t] is the temporary. *)
Definition vecs (t : option (list T)) (e : @menv T) : @seqs T :=
  fun v => match v with 0 => t | S x => option_map (@data T) (e x) end.
Definition dims (e : @menv T) (x : nat) := option_map (fun m : Matrix T => (rows m, cols m)) (e x).
Definition RE (s : @hst T) (E : @seqs T) (D : nat -> option (nat * nat)) : Prop :=
  R (hv s) E /\ forall x, hshape s x = D x.
Definition RM s t e := RE s (vecs t e) (dims e).

Lemma RE_do s E D c E1 ob E' : RE s E D -> sstep E c = Some (E1, ob) -> (forall v, E1 v = E' v) ->
  exists s', hdo s c = Ok s' /\ RE s' E' D.
Proof.
  intros (HR & HD) Hs HE. destruct (step_ok ip _ _ _ _ _ HR Hs) as (v & Hv & HR').
  exists (mkH v (hshape s)). unfold MatHeap.hdo. rewrite Hv. split; [reflexivity|]. split; auto. eapply R_ext; eauto.
Qed.
Lemma RE_do1 s E D (H : RE s E D) c E1 ob : sstep E c = Some (E1, ob) -> exists s', hdo s c = Ok s' /\ RE s' E1 D.
Proof. intros Hs. eapply RE_do; eauto. Qed.
Lemma RE_setd s E D x d D' : RE s E D -> (forall z, (if z =? x then d else D z) = D' z) -> RE (setd s x d) E D'.
Proof. intros (HR & HD) H. split; auto. intros z. cbn. rewrite <- H. destruct (z =? x); auto. Qed.
Lemma RE_ext s E D E' D' : RE s E D -> (forall v, E v = E' v) -> (forall x, D x = D' x) -> RE s E' D'.
Proof. intros (HR & HD) HE H. split; [eapply R_ext; eauto|]. intros z. rewrite <- H. auto. Qed.
Lemma RM_ext s t e e' : RM s t e -> (forall x, e x = e' x) -> RM s t e'.
Proof. intros H He. eapply RE_ext; eauto; intros v; unfold vecs, dims. - destruct v; rewrite ?He; auto. - now rewrite He. Qed.
Lemma RE_read s E D v i l : RE s E D -> E v = Some l -> simR eq (lget l i) (hread s v i).
Proof.
  intros (HR & HD) Hl. unfold lget. destruct (nth_error l i) as [a|] eqn:Ea.
  2: { cbn. unfold MatHeap.hread. cbn [vstep]. destruct (R_look _ _ _ _ HR Hl) as (o & -> & _ & W & _). cbn [bind]. unfold load.
       destruct W as [(-> & _)|(b & -> & _ & _ & ->)]; [reflexivity|]. rewrite nth_error_map, Ea. reflexivity. }
  cbn.
  assert (Hs : sstep E (Read v i) = Some (E, Value a)) by (cbn; rewrite Hl, Ea; reflexivity).
  destruct (step_ok ip _ _ _ _ _ HR Hs) as (w & Hw & _). exists a. unfold MatHeap.hread. rewrite Hw. auto.
Qed.
Lemma RE_write s E D v i a l : RE s E D -> E v = Some l ->
  simR (fun l' s' => RE s' (sset E v (Some l')) D) (lset l i a) (hdo s (Write v i a)).
Proof.
  intros H Hl. unfold lset. destruct (Nat.ltb_spec i (length l)) as [Hi|Hi].
  2: { cbn. unfold MatHeap.hdo. cbn [vstep]. destruct H as (HR & _). destruct (R_look _ _ _ _ HR Hl) as (o & -> & _ & W & _). cbn [bind]. unfold store.
       destruct W as [(-> & _)|(b & -> & _ & _ & ->)]; [reflexivity|]. rewrite map_length. apply Nat.ltb_ge in Hi. rewrite Hi. reflexivity. }
  cbn.
  eapply RE_do; eauto. cbn. rewrite Hl. apply Nat.ltb_lt in Hi. rewrite Hi. reflexivity.
Qed.

(** The two ways to say "matrix [x] becomes [m]". *)
Lemma vecs_set t e x m v : sset (vecs t e) (S x) (Some (data m)) v = vecs t (mbind e x (Some m)) v.
Proof. unfold sset, vecs, mbind. destruct v as [|v]; [reflexivity|]. change (S v =? S x) with (v =? x). destruct (v =? x); auto. Qed.
Lemma vecs_none t e x v : sset (vecs t e) (S x) None v = vecs t (mbind e x None) v.
Proof. unfold sset, vecs, mbind. destruct v as [|v]; [reflexivity|]. change (S v =? S x) with (v =? x). destruct (v =? x); auto. Qed.
Lemma vecs_tmp t t' e v : sset (vecs t e) 0 t' v = vecs t' e v.
Proof. destruct v; reflexivity. Qed.
Lemma dims_set e x m z : (if z =? x then Some (rows m, cols m) else dims e z) = dims (mbind e x (Some m)) z.
Proof. unfold dims, mbind. destruct (z =? x); auto. Qed.
Lemma dims_none e x z : (if z =? x then None else dims e z) = dims (mbind e x None) z.
Proof. unfold dims, mbind. destruct (z =? x); auto. Qed.
Lemma mbind_mbind (e : @menv T) x a b z : mbind (mbind e x a) x b z = mbind e x b z.
Proof. unfold mbind. destruct (z =? x); auto. Qed.
Lemma mbind_same (e : @menv T) x a : mbind e x a x = a.
Proof. unfold mbind. now rewrite Nat.eqb_refl. Qed.
Lemma mbind_other (e : @menv T) x y a : y <> x -> mbind e x a y = e y.
Proof. intros H. unfold mbind. apply Nat.eqb_neq in H. now rewrite H. Qed.
Lemma mbind_id (e : @menv T) x m : e x = Some m -> forall z, e z = mbind e x (Some m) z.
Proof. intros H z. unfold mbind. destruct (Nat.eqb_spec z x); subst; auto. Qed.

Section Env.
Context (s : @hst T) (t : option (list T)) (e : @menv T) (H : RM s t e).
Lemma RM_dims x m : e x = Some m -> hrows s x = rows m /\ hcols s x = cols m.
Proof. intros Hx. destruct H as (_ & HD). unfold hrows, hcols, hdims. rewrite HD. unfold dims. rewrite Hx. auto. Qed.
Lemma RM_look x : simR (fun m _ => e x = Some m) (mlook e x) (hlook s x).
Proof.
  unfold mlook, hlook. destruct H as (_ & HD). rewrite HD. unfold dims. destruct (e x); cbn; eauto.
Qed.
Lemma RM_fresh x : simR (fun _ _ => e x = None) (mfresh e x) (hfresh s x).
Proof. unfold mfresh, hfresh. destruct H as (_ & HD). rewrite HD. unfold dims. destruct (e x); cbn; eauto. Qed.
Lemma RM_fits x m : e x = Some m -> fits (length (data m)).
Proof. intros Hx. destruct H as ((_ & HF & _) & _). apply (HF (S x)). cbn. now rewrite Hx. Qed.
End Env.

(** Reading a matrix or a view of it. *)
Definition simMB (X Y : MB T) : Prop :=
  mrows X = mrows Y /\ mcols X = mcols Y /\ msize X = msize Y /\
  (forall i j, simR eq (mget X i j) (mget Y i j)) /\ (forall k, simR eq (mlin X k) (mlin Y k)).
Lemma sim_root s t e y m : RM s t e -> e y = Some m -> simMB (mb_of_mat m) (hmb ip s y).
Proof.
  intros H Hy. destruct (RM_dims _ _ _ H _ _ Hy) as (Hr & Hc). unfold hmb. rewrite Hr, Hc.
  assert (Hv : vecs t e (S y) = Some (data m)) by (cbn; now rewrite Hy).
  repeat split; cbn; intros; eapply RE_read; eauto.
Qed.
Lemma sim_view p : forall X Y, simMB X Y -> simMB (pview p X) (pview p Y).
Proof.
  induction p as [|rr rc p IH|er ec p IH]; cbn [pview]; intros X Y H; auto;
    specialize (IH _ _ H); destruct IH as (A & B & C & G & L); unfold mb_view, mb_cof; repeat split; cbn; rewrite ?A, ?B; auto;
    intros; (destruct (_ =? 0); [reflexivity|auto]).
Qed.
Lemma vmb_pview p (m : Matrix T) : vmb p m = pview p (mb_of_mat m).
Proof. induction p; cbn; congruence. Qed.
Lemma sim_src s t e y m p : RM s t e -> e y = Some m -> simMB (vmb p m) (hsrc p y s).
Proof. intros H Hy. rewrite vmb_pview. apply sim_view. eapply sim_root; eauto. Qed.

(** Writing to a matrix: the state of a loop that changes [x] only. *)
Definition P e x t (m : Matrix T) (s : @hst T) := RM s t (mbind e x (Some m)).
Lemma P_start s t e x m : RM s t e -> e x = Some m -> P e x t m s.
Proof. intros H Hx. eapply RM_ext; eauto. now apply mbind_id. Qed.
Lemma P_other e x t m s y my : P e x t m s -> e y = Some my -> y <> x -> mbind e x (Some m) y = Some my.
Proof. intros _ Hy N. now rewrite mbind_other. Qed.
Lemma sim_wr e x t m s k a : P e x t m s -> simR (P e x t) (mat_lset m k a) (hdo s (Write (S x) k a)).
Proof.
  intros H. unfold mat_lset. assert (Hv : vecs t (mbind e x (Some m)) (S x) = Some (data m)) by (cbn; now rewrite mbind_same).
  pose proof (RE_write _ _ _ _ k a _ H Hv) as W. destruct (lset (data m) k a) as [d| | | |]; cbn in *; auto.
  - destruct W as (s' & -> & W). exists s'. split; auto. set (m' := mkM (rows m) (cols m) d).
    eapply RE_ext; [exact W| |].
    + intros v. change d with (data m'). rewrite vecs_set. unfold vecs. destruct v; auto. now rewrite mbind_mbind.
    + intros z. unfold dims, mbind. destruct (z =? x); auto.
Qed.
Lemma sim_set e x t m s p i j a : P e x t m s -> simR (P e x t) (vset p i j a m) (hset p x i j a s).
Proof.
  intros H. unfold vset, mat_set, MatHeap.hset, mat_idx.
  destruct (RM_dims _ _ _ H x m (mbind_same _ _ _)) as (_ & ->). apply (sim_wr e x t m s _ a H).
Qed.
Lemma sim_srcP e x t m s p : P e x t m s -> simMB (vmb p m) (hsrc p x s).
Proof. intros H. eapply sim_src; [exact H|apply mbind_same]. Qed.
Lemma sim_lset e x t m s p k a : P e x t m s -> simR (P e x t) (vlset p k a m) (hlset ip p x k a s).
Proof.
  intros H. destruct p as [|rr rc p|er ec p]; cbn [vlset hlset]; [now apply sim_wr| |].
  - destruct (sim_srcP _ _ _ _ _ (PView rr rc p) H) as (_ & <- & _). cbv zeta. destruct (_ =? 0); [reflexivity|now apply sim_set].
  - destruct (sim_srcP _ _ _ _ _ (PCof er ec p) H) as (<- & _). cbv zeta. destruct (_ =? 0); [reflexivity|now apply sim_set].
Qed.
(** The source [y] of a statement that changes [x]. *)
Lemma sim_srcY e x t m s p y my : P e x t m s -> e y = Some my ->
  simMB (if x =? y then vmb p m else vmb p my) (hsrc p y s).
Proof.
  intros H Hy. destruct (Nat.eqb_spec x y) as [<-|N]; [now apply (sim_srcP e x t)|].
  eapply sim_src; [exact H|]. rewrite mbind_other; auto.
Qed.

(** Allocation. *)
Lemma vec_new_if n : vec_new n = if fitsb n then Ok (repeat o0 n) else UB.
Proof.
  destruct (fitsb n) eqn:F. { apply vec_new_ok. now apply fitsb_spec. }
  unfold vec_new. apply vec_allocate_ub. { intros Hf. apply fitsb_spec in Hf. congruence. } intros ->. discriminate F.
Qed.
Lemma vec_fill_if n v : vec_fill n v = if fitsb n then Ok (repeat v n) else UB.
Proof.
  destruct (fitsb n) eqn:F. { apply vec_fill_ok. now apply fitsb_spec. }
  unfold vec_fill. fold (vec_new n). rewrite vec_new_if, F. reflexivity.
Qed.
Lemma vec_alloc_if l n : fits (length l) -> vec_allocate l n = if fitsb n then Ok (sresize l n) else UB.
Proof.
  intros Hl. destruct (fitsb n) eqn:F. { apply vec_allocate_ok. now apply fitsb_spec. }
  assert (~ fits n) by (intros Hf; apply fitsb_spec in Hf; congruence). apply vec_allocate_ub; auto. congruence.
Qed.
(** A request that cannot be served is undefined behaviour: the null pointer is written to. *)
Lemma alloc_ub (h : @heap T) o l n : owns h o l -> fits (length l) -> fitsb n = false -> v_allocate ip h o n = UB.
Proof.
  intros W Hl F. assert (Hn : ~ fits n) by (intros Hf; apply fitsb_spec in Hf; congruence).
  assert (Hs : vsz o = length l) by (eapply owns_len; eauto). assert (Hlt : length l < n) by (unfold fits in *; lia).
  unfold v_allocate. rewrite Hs. destruct (Nat.eqb_spec n 0); [lia|]. destruct (Nat.eqb_spec n (length l)); [lia|].
  assert (Hr : hrealloc ip h (vptr o) n = Ok (h, None)).
  { unfold hrealloc. destruct W as [(-> & _)|(b & -> & _ & _ & ->)]; rewrite F; reflexivity. }
  rewrite Hr. cbn [bind]. apply Nat.ltb_lt in Hlt. rewrite Hlt. apply Nat.ltb_lt in Hlt.
  unfold for_range. destruct (n - length l) as [|k] eqn:K; [lia|]. reflexivity.
Qed.
Lemma sim_sized s E D x n : RE s E D -> E x = None ->
  simR (fun d s' => RE s' (sset E x (Some d)) D) (vec_new n) (hdo s (Sized x n)).
Proof.
  intros H Hx. rewrite vec_new_if. destruct (fitsb n) eqn:F.
  2: { cbn. unfold MatHeap.hdo. cbn [vstep]. unfold fresh_name. rewrite (R_fresh _ _ _ (proj1 H) Hx). cbn [bind]. unfold v_sized.
       rewrite (alloc_ub _ vnull nil); auto. left. auto. }
  cbn. eapply RE_do; eauto.
  cbn. rewrite F, Hx, repeat_length, F. reflexivity.
Qed.
Lemma sim_fillv s E D x n v : RE s E D -> E x = None ->
  simR (fun d s' => RE s' (sset E x (Some d)) D) (vec_fill n v) (hdo s (Fill x n v)).
Proof.
  intros H Hx. rewrite vec_fill_if. destruct (fitsb n) eqn:F.
  2: { cbn. unfold MatHeap.hdo. cbn [vstep]. unfold fresh_name. rewrite (R_fresh _ _ _ (proj1 H) Hx). cbn [bind]. unfold v_fill.
       rewrite (alloc_ub _ vnull nil); auto. left. auto. }
  cbn. eapply RE_do; eauto.
  cbn. rewrite F, Hx, repeat_length, F. reflexivity.
Qed.
(** [_data = std::move(tmp)] and the end of the temporary. *)
Lemma renew_end s E D x l d : RE s (sset E 0 (Some d)) D -> E (S x) = Some l -> E 0 = None ->
  exists s', (let* s := hdo s (MoveAssign (S x) 0) in hdo s (Destroy 0)) = Ok s' /\ RE s' (sset E (S x) (Some d)) D.
Proof.
  intros H Hx H0. edestruct (RE_do s (sset E 0 (Some d)) D (MoveAssign (S x) 0)) as (s1 & E1 & H1); [exact H| | |].
  { cbn [sstep]. change (sset E 0 (Some d) (S x)) with (E (S x)). rewrite Hx.
    change (sset E 0 (Some d) 0) with (Some d). cbv iota. change (S x =? 0) with false. reflexivity. } { reflexivity. }
  rewrite E1. cbn [bind]. eapply RE_do; [exact H1|reflexivity|].
  intros v. unfold sset. destruct v as [|v]; [change (0 =? S x) with false; cbn; auto|].
  change (S v =? 0) with false. reflexivity.
Qed.
Lemma sim_renew s E D x n l : RE s E D -> E (S x) = Some l -> E 0 = None ->
  simR (fun d s' => RE s' (sset E (S x) (Some d)) D) (vec_new n) (renew ip s x n).
Proof.
  intros H Hx H0. unfold renew. pose proof (sim_sized s E D 0 n H H0) as W.
  destruct (vec_new n) as [d| | | |]; cbn in *; auto.
  1: { destruct W as (s1 & -> & W). cbn [bind]. eapply renew_end; eauto. }
  all: rewrite W; reflexivity.
Qed.

(** Whole statements. *)
Lemma P_of s e x t d r c E' D' : RE s E' D' -> (forall v, E' v = sset (vecs t e) (S x) (Some d) v) ->
  (forall z, D' z = if z =? x then Some (r, c) else dims e z) -> P e x t (mkM r c d) s.
Proof.
  intros H HE HD. eapply RE_ext; [exact H| |].
  - intros v. rewrite HE. apply (vecs_set t e x (mkM r c d)).
  - intros z. rewrite HD. apply (dims_set e x (mkM r c d)).
Qed.
Lemma P_setd s e x t m r c : P e x t m s -> P e x t (mkM r c (data m)) (setd s x (Some (r, c))).
Proof.
  intros H. eapply P_of.
  - eapply RE_setd; [exact H|reflexivity].
  - intros v. symmetry. apply (vecs_set t e x m).
  - intros z. cbn. unfold dims, mbind. destruct (z =? x); auto.
Qed.
Lemma P_dims e x t m s : P e x t m s -> hrows s x = rows m /\ hcols s x = cols m.
Proof. intros H. eapply RM_dims; [exact H|apply mbind_same]. Qed.
Definition Q (e : @menv T) (s : @hst T) := RM s None e.
Lemma sim_keep e x a b : simR (P e x None) a b -> simR Q (keep e x a) b.
Proof. unfold keep. destruct a; cbn; auto. Qed.

Lemma sim_fill e x s r c v : RM s None e -> e x = None ->
  simR (P e x None) (mat_new r c v) (let* s := hdo s (Fill (S x) (mul64 r c) v) in Ok (setd s x (Some (r, c)))).
Proof.
  intros H Hx. unfold mat_new. eapply sim_bind. { eapply sim_fillv; [exact H|cbn; now rewrite Hx]. }
  intros d s' H'. apply sim_ret. eapply P_of; [eapply RE_setd; [exact H'|reflexivity]|reflexivity|reflexivity].
Qed.
Lemma sim_zero e x s r c : RM s None e -> e x = None ->
  simR (fun m s' => P e x None m (setd s' x (Some (r, c)))) (mat_zero r c) (hdo s (Sized (S x) (mul64 r c))).
Proof.
  intros H Hx. unfold mat_zero.
  pose proof (sim_sized s _ _ (S x) (mul64 r c) H ltac:(cbn; now rewrite Hx)) as W.
  destruct (vec_new _) as [d| | | |]; cbn in *; auto. destruct W as (s' & -> & W). exists s'. split; auto.
  eapply P_of; [eapply RE_setd; [exact W|reflexivity]|reflexivity|reflexivity].
Qed.
Lemma sim_list e x s r c l : RM s None e -> e x = None -> simR (P e x None) (mat_of_list r c l) (hlist ip x r c l s).
Proof.
  intros H Hx. unfold mat_of_list, hlist. eapply sim_bind; [eapply sim_zero; eauto|]. intros m s' H'. cbv beta zeta.
  eapply sim_bind with (P := fun a b => P e x None (fst a) (fst b) /\ snd a = snd b).
  - apply sim_for; [|cbn; auto]. intros i a b Hab. apply sim_for; auto. clear a b Hab. intros j (a, k) (b, k') (Hab & Hk). cbn in Hab, Hk |- *. subst k'.
    apply sim_eqbind; [apply sim_refl|]. intros v. eapply sim_bind; [apply (sim_set e x None a b Root), Hab|].
    intros a' b' H1. apply sim_ret. auto.
  - intros (a, k) (b, k') (Hab & _). apply sim_ret. exact Hab.
Qed.
Lemma sim_nested e x t m s r c ll : P e x t m s -> simR (P e x t) (nested_copy r c ll m) (hnested ip x r c ll s).
Proof.
  intros H. unfold nested_copy, fill_rc, hnested. apply sim_for; auto. intros i a b Hab. apply sim_for; auto. clear a b Hab.
  intros j a b Hab. apply sim_eqbind; [apply sim_refl|]. intros v. now apply (sim_set e x t a b Root).
Qed.
(** [renew] on a matrix whose counters are already set. *)
Lemma sim_renewP e x m s n : P e x None m s ->
  simR (fun d s' => P e x None (mkM (rows m) (cols m) d) s') (vec_new n) (renew ip s x n).
Proof.
  intros H. eapply sim_impl. { eapply sim_renew; [exact H|cbn; rewrite mbind_same; reflexivity|reflexivity]. }
  intros d s' H'. eapply P_of; [exact H'| |].
  - intros v. unfold sset, vecs, mbind. destruct v as [|v]; auto. change (S v =? S x) with (v =? x). destruct (v =? x); auto.
  - intros z. unfold dims, mbind. destruct (z =? x); auto.
Qed.
Lemma sim_zeroP e x m s r c : P e x None m s ->
  simR (P e x None) (mat_zero r c) (renew ip (setd s x (Some (r, c))) x (mul64 r c)).
Proof.
  intros H. unfold mat_zero. pose proof (sim_renewP _ _ _ _ (mul64 r c) (P_setd _ _ _ _ _ r c H)) as W.
  destruct (vec_new _) as [d| | | |]; cbn in *; auto.
Qed.
Lemma sim_ctor_nested e x s ll : RM s None e -> e x = None -> simR (P e x None) (mat_of_nested ll) (hctor_nested ip x ll s).
Proof.
  intros H Hx. unfold mat_of_nested, hctor_nested. destruct ll as [|[|a f] ll]; [reflexivity|reflexivity|].
  cbv zeta. destruct (RE_do s (vecs None e) (dims e) (New (S x)) (sset (vecs None e) (S x) (Some nil)) Nothing (sset (vecs None e) (S x) (Some nil)) H) as (s1 & E1 & H1); auto.
  { cbn. rewrite Hx. reflexivity. }
  eapply sim_right; [exact E1|]. cbv beta.
  assert (HP : P e x None (mkM 0 0 nil) (setd s1 x (Some (0, 0)))).
  { eapply P_of; [eapply RE_setd; [exact H1|reflexivity]|reflexivity|reflexivity]. }
  set (r := length _). set (c := length _).
  assert (HS : RM (setd s1 x (Some (r, c))) None (mbind e x (Some (mkM r c nil)))).
  { eapply P_of; [eapply RE_setd; [exact H1|reflexivity]|reflexivity|reflexivity]. }
  eapply sim_bind with (P := P e x None); [|intros m s' Hm; now apply sim_nested].
  unfold mat_zero. pose proof (sim_renewP e x (mkM r c nil) _ (mul64 r c) HS) as W.
  destruct (vec_new _) as [d| | | |]; cbn in *; auto.
Qed.
Lemma sim_copy e x y p s my : RM s None e -> e x = None -> e y = Some my ->
  simR (P e x None) (mat_of_mb (vmb p my)) (hcopy ip x y p s).
Proof.
  intros H Hx Hy. assert (N : x <> y) by congruence. unfold mat_of_mb, hcopy. cbv zeta.
  destruct (sim_src _ _ _ _ _ p H Hy) as (<- & <- & _).
  eapply sim_bind; [eapply sim_zero; eauto|]. intros m s' H'. unfold fill_lin. cbv beta.
  apply sim_for; auto. clear m s' H'. intros i a b Hab.
  assert (SY : simMB (vmb p my) (hsrc p y b)). { eapply sim_src; [exact Hab|]. rewrite mbind_other; auto. }
  apply sim_eqbind; [apply SY|]. intros v. now apply sim_wr.
Qed.
Lemma sim_move e x y s my : RM s None e -> e x = None -> e y = Some my ->
  simR Q (Ok (mbind (mbind e y (Some (snd (mat_move_ctor my)))) x (Some (fst (mat_move_ctor my))))) (hmove ip x y s).
Proof.
  intros H Hx Hy. assert (N : y <> x) by congruence. unfold hmove. cbn [mat_move_ctor fst snd].
  set (m1 := mkM (rows my) (cols my) nil). set (m2 := mkM _ _ (data my)).
  destruct (RE_do s (vecs None e) (dims e) (Move (S x) (S y)) (sset (sset (vecs None e) (S y) (Some nil)) (S x) (Some (data my))) Nothing
      (vecs None (mbind (mbind e y (Some m1)) x (Some m2))) H) as (s1 & E1 & H1); auto.
  { cbn. rewrite Hx, Hy. reflexivity. }
  { intros v. unfold sset, vecs, mbind. destruct v as [|v]; auto. change (S v =? S x) with (v =? x). change (S v =? S y) with (v =? y).
    destruct (v =? x), (v =? y); auto. }
  eapply sim_right; [exact E1|]. apply sim_ret.
  assert (Hd : hrows s1 y = rows my /\ hcols s1 y = cols my).
  { unfold hrows, hcols, hdims. destruct H1 as (_ & ->). unfold dims. rewrite Hy. auto. }
  destruct Hd as (-> & ->). eapply RE_ext; [eapply RE_setd; [exact H1|reflexivity]|reflexivity|].
  intros z. cbn beta. unfold dims, mbind. destruct (Nat.eqb_spec z x); auto. destruct (Nat.eqb_spec z y); auto. subst z. now rewrite Hy.
Qed.
Lemma sim_assign e x y p s mx my : RM s None e -> e x = Some mx -> e y = Some my -> (x =? y) && match p with Root => true | _ => false end = false ->
  simR (P e x None) (mat_assign (fun m => if x =? y then vmb p m else vmb p my) mx) (hassign ip x y p s).
Proof.
  intros H Hx Hy Hn. unfold mat_assign, hassign. rewrite Hn. cbv beta zeta. pose proof (P_start _ _ _ _ _ H Hx) as H0.
  assert (SY : forall m s', P e x None m s' -> simMB (if x =? y then vmb p m else vmb p my) (hsrc p y s')) by (intros; eapply sim_srcY; eauto).
  remember (fun m => if x =? y then vmb p m else vmb p my) as src eqn:Hsrc.
  assert (SY' : forall m s', P e x None m s' -> simMB (src m) (hsrc p y s')) by (subst src; exact SY). clear SY.
  change (simR (P e x None) (mat_assign (fun m => if x =? y then vmb p m else vmb p my) mx)
    (if msize (hsrc p y s) =? 0 then Ok s else
     let* s := renew ip s x (mul64 (mrows (hsrc p y s)) (mcols (hsrc p y s))) in
     let s := setd s x (Some (mrows (hsrc p y s), hcols s x)) in
     let s := setd s x (Some (hrows s x, mcols (hsrc p y s))) in
     for_range 0 (hrows s x) (fun r s' => for_range 0 (hcols s x) (fun c s' =>
       let* a := mget (hsrc p y s') r c in hset Root x r c a s') s') s)).
  rewrite <- Hsrc. unfold mat_assign. cbv zeta. destruct (SY' _ _ H0) as (-> & -> & -> & _). apply sim_if; auto.
  { apply sim_ret. auto. }
  eapply sim_bind; [eapply sim_renewP, H0|]. intros d s1 H1. cbv beta in H1 |- *. set (m1 := mkM (rows mx) (cols mx) d) in *.
  destruct (SY' _ _ H1) as (-> & _). destruct (P_dims _ _ _ _ _ H1) as (_ & ->).
  pose proof (P_setd _ _ _ _ _ (mrows (hsrc p y s1)) (cols m1) H1) as H2.
  cbn [data rows cols m1] in H2 |- *. set (s2 := setd s1 x _) in *.
  destruct (SY' _ _ H2) as (_ & -> & _). destruct (P_dims _ _ _ _ _ H2) as (-> & _).
  pose proof (P_setd _ _ _ _ _ (mrows (hsrc p y s1)) (mcols (hsrc p y s2)) H2) as H3. cbn [data rows cols] in H3 |- *.
  set (s3 := setd s2 x _) in *. destruct (P_dims _ _ _ _ _ H3) as (-> & ->).
  apply sim_for; auto. clear - SY'. intros r a b Hab. apply sim_for; auto. clear a b Hab. intros c a b Hab.
  apply sim_eqbind; [now apply SY'|]. intros v. now apply (sim_set e x None a b Root).
Qed.
Lemma sim_move_assign e x y s mx my : RM s None e -> e x = Some mx -> e y = Some my -> x <> y ->
  simR Q (Ok (mbind (mbind e y (Some (snd (mat_move_assign mx my)))) x (Some (fst (mat_move_assign mx my))))) (hmove_assign ip x y s).
Proof.
  intros H Hx Hy N. unfold hmove_assign. destruct (Nat.eqb_spec x y) as [|_]; [contradiction|].
  destruct (RM_dims _ _ _ H _ _ Hy) as (-> & ->). unfold mat_move_assign. destruct (_ =? 0); cbn [fst snd].
  { apply sim_ret. eapply RM_ext; [exact H|]. intros z. unfold mbind. destruct (Nat.eqb_spec z x); [subst; auto|]. destruct (Nat.eqb_spec z y); subst; auto. }
  set (m1 := mkM (rows my) (cols my) nil). set (m2 := mkM _ _ (data my)).
  destruct (RE_do s (vecs None e) (dims e) (MoveAssign (S x) (S y)) (sset (sset (vecs None e) (S y) (Some nil)) (S x) (Some (data my))) Nothing
      (vecs None (mbind (mbind e y (Some m1)) x (Some m2))) H) as (s1 & E1 & H1); auto.
  { cbn. rewrite Hx, Hy. change (S x =? S y) with (x =? y). destruct (Nat.eqb_spec x y); [contradiction|]. reflexivity. }
  { intros v. unfold sset, vecs, mbind. destruct v as [|v]; auto. change (S v =? S x) with (v =? x). change (S v =? S y) with (v =? y).
    destruct (v =? x), (v =? y); auto. }
  eapply sim_right; [exact E1|]. apply sim_ret.
  assert (Hd : hrows s1 y = rows my /\ hcols s1 y = cols my).
  { unfold hrows, hcols, hdims. destruct H1 as (_ & ->). unfold dims. rewrite Hy. auto. }
  destruct Hd as (-> & ->). eapply RE_ext; [eapply RE_setd; [exact H1|reflexivity]|reflexivity|].
  intros z. cbn beta. unfold dims, mbind. destruct (Nat.eqb_spec z x); auto. destruct (Nat.eqb_spec z y); auto. subst z. now rewrite Hy.
Qed.
Lemma sim_assign_nested e x s mx ll : P e x None mx s -> simR (P e x None) (mat_assign_nested mx ll) (hassign_nested ip x ll s).
Proof.
  intros H. unfold mat_assign_nested, hassign_nested. destruct ll as [|[|a f] ll]; [apply sim_ret; auto|apply sim_ret; auto|].
  cbv zeta. eapply sim_bind; [eapply sim_zeroP, H|]. intros m s' Hm. now apply sim_nested.
Qed.
(** Writing to the local matrix. *)
Definition L r c (e : @menv T) (n : Matrix T) (s : @hst T) := RM s (Some (data n)) e /\ rows n = r /\ cols n = c.
Lemma sim_local r c e n s i j a : L r c e n s -> simR (L r c e) (mat_set n i j a) (hdo s (Write 0 (add64 (mul64 i c) j) a)).
Proof.
  intros (H & Hr & Hc). unfold mat_set, mat_idx. rewrite Hc.
  pose proof (RE_write s _ _ 0 (add64 (mul64 i c) j) a (data n) H eq_refl) as W.
  destruct (lset _ _ _) as [d| | | |]; cbn in *; auto.
  destruct W as (s' & -> & W). exists s'. split; auto. split; auto. eapply RE_ext; [exact W| |reflexivity]. apply vecs_tmp.
Qed.
Lemma sim_local_new r c e s v : RM s None e -> simR (L r c e) (mat_new r c v) (hdo s (Fill 0 (mul64 r c) v)).
Proof.
  intros H. unfold mat_new. pose proof (sim_fillv _ _ _ 0 (mul64 r c) v H eq_refl) as W.
  destruct (vec_fill _ _) as [d| | | |]; cbn in *; auto.
  destruct W as (s' & -> & W). exists s'. split; auto. split; auto. eapply RE_ext; [exact W| |reflexivity]. apply vecs_tmp.
Qed.
Lemma sim_resize e x s m r c : P e x None m s -> simR (P e x None) (mat_resize m r c) (hresize ip x r c s).
Proof.
  intros H. unfold mat_resize, hresize. destruct (P_dims _ _ _ _ _ H) as (-> & ->). apply sim_if; auto. { apply sim_ret; auto. }
  destruct (cols m =? c).
  - rewrite vec_alloc_if by (eapply RM_fits; [exact H|apply mbind_same]).
    destruct (fitsb _) eqn:F.
    2: { assert (Hv : vecs None (mbind e x (Some m)) (S x) = Some (data m)) by (cbn; now rewrite mbind_same).
         cbn [bind simR]. unfold MatHeap.hdo. cbn [vstep]. destruct (R_look _ _ _ _ (proj1 H) Hv) as (o & -> & _ & W & Hf). cbn [bind].
         unfold v_resize. rewrite (alloc_ub _ o (data m)); auto. }
    cbn [bind]. edestruct (RE_do1 s _ _ H (Resize (S x) (mul64 r c))) as (s1 & E1 & H1).
    { cbn. rewrite mbind_same, F. reflexivity. }
    eapply sim_right; [exact E1|]. apply sim_ret. eapply P_of; [eapply RE_setd; [exact H1|reflexivity]| |].
    + intros v. unfold sset, vecs, mbind. destruct v as [|v]; auto. change (S v =? S x) with (v =? x). destruct (v =? x); auto.
    + intros z. cbn. unfold dims, mbind. destruct (z =? x); auto.
  - pose proof (sim_local_new r c _ s o0 H) as W. destruct (mat_new r c o0) as [n| | | |]; cbn in W; [|rewrite W; reflexivity..].
    destruct W as (s1 & -> & W). cbn [bind]. destruct (RM_dims _ _ _ (proj1 W) x m (mbind_same _ _ _)) as (-> & ->).
    assert (V : simR (L r c (mbind e x (Some m))) (fill_rc (Nat.min (rows m) r) (Nat.min (cols m) c) (mat_at m) n)
       (for_range 0 (Nat.min (rows m) r) (fun i s' => for_range 0 (Nat.min (cols m) c) (fun j s' =>
          let* a := mget (hmb ip s' x) i j in hdo s' (Write 0 (add64 (mul64 i c) j) a)) s') s1)).
    { unfold fill_rc. apply sim_for; auto. intros i a b Hab. apply sim_for; auto. clear a b Hab. intros j a b Hab.
      apply sim_eqbind; [|intros v; now apply sim_local].
      destruct (sim_root b _ _ x m (proj1 Hab) (mbind_same _ _ _)) as (_ & _ & _ & G & _). apply G. }
    destruct (fill_rc _ _ _ n) as [n'| | | |]; cbn [simR] in V; [|rewrite V; reflexivity..].
    destruct V as (s2 & -> & (V & Hr & Hc)). cbn [bind].
    destruct (renew_end s2 (vecs None (mbind e x (Some m))) (dims (mbind e x (Some m))) x (data m) (data n')) as (s3 & E3 & H3).
    { eapply RE_ext; [exact V| |reflexivity]. intros v. symmetry. apply vecs_tmp. } { cbn. now rewrite mbind_same. } { reflexivity. }
    rewrite E3. cbn [bind]. apply sim_ret. eapply P_of; [eapply RE_setd; [exact H3|reflexivity]| |].
    + intros v. unfold sset, vecs, mbind. destruct v as [|v]; auto. change (S v =? S x) with (v =? x). destruct (v =? x); auto.
    + intros z. cbn. unfold dims, mbind. destruct (z =? x); auto.
Qed.
Lemma sim_reshape e x s m r c : P e x None m s -> simR (P e x None) (mat_reshape m r c) (hreshape x r c s).
Proof.
  intros H. unfold mat_reshape, hreshape. destruct (P_dims _ _ _ _ _ H) as (-> & ->). destruct (_ =? _); [|reflexivity].
  apply sim_ret. now apply P_setd.
Qed.
Lemma sim_swap e x t s m p i j a b : P e x t m s -> simR (P e x t) (vswap p i j a b m) (hswap ip p x i j a b s).
Proof.
  intros H. unfold vswap, hswap. destruct (sim_srcP _ _ _ _ _ p H) as (_ & _ & _ & G & _).
  apply sim_eqbind; [apply G|]. intros u. apply sim_eqbind; [apply G|]. intros v.
  eapply sim_bind; [apply sim_set, H|]. intros m' s' H'. now apply sim_set.
Qed.
Lemma sim_swap_rows e x s m p i j c0 c1 : P e x None m s -> simR (P e x None) (swap_rows p i j c0 c1 m) (hswap_rows ip x p i j c0 c1 s).
Proof.
  intros H. unfold swap_rows, hswap_rows. destruct (sim_srcP _ _ _ _ _ p H) as (_ & <- & _). cbv zeta.
  apply sim_for; auto. intros. now apply sim_swap.
Qed.
Lemma sim_swap_cols e x s m p i j c0 c1 : P e x None m s -> simR (P e x None) (swap_cols p i j c0 c1 m) (hswap_cols ip x p i j c0 c1 s).
Proof.
  intros H. unfold swap_cols, hswap_cols. destruct (sim_srcP _ _ _ _ _ p H) as (<- & _). cbv zeta.
  apply sim_for; auto. intros. now apply sim_swap.
Qed.
Lemma sim_remove_row e x s m k : P e x None m s -> simR (P e x None) (remove_row m k) (hremove_row ip x k s).
Proof.
  intros H. unfold remove_row, hremove_row. destruct (P_dims _ _ _ _ _ H) as (-> & _). destruct (_ <=? k); [reflexivity|].
  eapply sim_bind with (P := P e x None).
  - apply sim_for; auto. intros i a b Hab. destruct (P_dims _ _ _ _ _ Hab) as (_ & ->). apply sim_for; auto. intros. now apply sim_swap.
  - intros a b Hab. destruct (P_dims _ _ _ _ _ Hab) as (-> & ->). now apply sim_resize.
Qed.
Lemma sim_remove_column e x s m k : P e x None m s -> simR (P e x None) (remove_column m k) (hremove_column ip x k s).
Proof.
  intros H. unfold remove_column, hremove_column. destruct (P_dims _ _ _ _ _ H) as (_ & ->). destruct (_ <=? k); [reflexivity|].
  eapply sim_bind with (P := P e x None).
  - apply sim_for; auto. intros i a b Hab. destruct (P_dims _ _ _ _ _ Hab) as (-> & _). apply sim_for; auto. intros. now apply sim_swap.
  - intros a b Hab. destruct (P_dims _ _ _ _ _ Hab) as (-> & ->). now apply sim_resize.
Qed.
Lemma sim_srcB e x t m s y my : P e x t m s -> e y = Some my ->
  simMB ((if x =? y then mb_of_mat else fun _ => mb_of_mat my) m) (hmb ip s y).
Proof. intros H Hy. pose proof (sim_srcY e x t m s Root y my H Hy) as W. destruct (x =? y); exact W. Qed.
Lemma sim_view_assign e x s m p y my : P e x None m s -> e y = Some my ->
  simR (P e x None) (view_assign p (if x =? y then mb_of_mat else fun _ => mb_of_mat my) m) (hview_assign ip x p y s).
Proof.
  intros H Hy. unfold view_assign, hview_assign. set (src := if x =? y then _ else _).
  assert (SB : forall m s, P e x None m s -> simMB (src m) (hmb ip s y)) by (intros; now apply (sim_srcB e x None)).
  assert (SR : forall m s, P e x None m s -> mrows (src m) = hrows s y) by (intros a b Hab; apply (SB a b Hab)).
  assert (SC : forall m s, P e x None m s -> mcols (src m) = hcols s y) by (intros a b Hab; apply (SB a b Hab)).
  destruct (sim_srcP _ _ _ _ _ p H) as (<- & <- & _). rewrite (SR _ _ H), (SC _ _ H).
  apply sim_if; auto; [|reflexivity]. apply sim_for; auto. intros r a b Hab. rewrite (SC _ _ Hab). apply sim_for; auto.
  clear a b Hab. intros c a b Hab. apply sim_eqbind; [now apply SB|]. intros v. now apply sim_set.
Qed.
Lemma sim_izip f e x s m p y my : P e x None m s -> e y = Some my ->
  simR (P e x None) (mb_izip f p (if x =? y then mb_of_mat else fun _ => mb_of_mat my) m) (hizip ip f x p y s).
Proof.
  intros H Hy. unfold mb_izip, hizip. set (src := if x =? y then _ else _).
  assert (SB : forall m s, P e x None m s -> simMB (src m) (hmb ip s y)) by (intros; now apply (sim_srcB e x None)).
  assert (SR : forall m s, P e x None m s -> mrows (src m) = hrows s y) by (intros a b Hab; apply (SB a b Hab)).
  assert (SC : forall m s, P e x None m s -> mcols (src m) = hcols s y) by (intros a b Hab; apply (SB a b Hab)).
  destruct (sim_srcP _ _ _ _ _ p H) as (<- & <- & <- & _). rewrite (SR _ _ H), (SC _ _ H).
  apply sim_if; [auto|reflexivity|]. apply sim_if; [auto|reflexivity|]. apply sim_for; auto. clear - SB. intros i a b Hab.
  apply sim_eqbind; [now apply (sim_srcP e x None)|]. intros u. apply sim_eqbind; [now apply SB|]. intros v.
  apply sim_eqbind; [apply sim_refl|]. intros w. now apply sim_lset.
Qed.
Lemma sim_imap f e x s m p : P e x None m s -> simR (P e x None) (mb_imap f p m) (himap ip f x p s).
Proof.
  intros H. unfold mb_imap, himap. destruct (sim_srcP _ _ _ _ _ p H) as (_ & _ & <- & _). apply sim_for; auto. clear. intros i a b Hab.
  apply sim_eqbind; [now apply (sim_srcP e x None)|]. intros u. apply sim_eqbind; [apply sim_refl|]. intros w. now apply sim_lset.
Qed.
Lemma sim_imul e x s m p y my : P e x None m s -> e x = Some m -> e y = Some my ->
  simR (P e x None) (m_imul p (if x =? y then mb_of_mat else fun _ => mb_of_mat my) m) (himul ip x p y s).
Proof.
  intros H Hx Hy. assert (E : (if x =? y then mb_of_mat else fun _ => mb_of_mat my) m = mb_of_mat my).
  { destruct (Nat.eqb_spec x y); auto. subst. congruence. }
  unfold m_imul, himul. rewrite E. cbv zeta. clear E.
  assert (He : RM s None e). { eapply RM_ext; [exact H|]. intros z. symmetry. now apply mbind_id. }
  destruct (sim_src _ _ _ _ _ p He Hx) as (<- & <- & _). destruct (RM_dims _ _ _ He _ _ Hy) as (-> & _).
  cbn [mb_of_mat mrows]. apply sim_if; [auto|reflexivity|].
  set (nr := mrows (vmb p m)). set (nc := mcols (vmb p m)).
  eapply sim_bind; [eapply sim_local_new, He|]. intros n0 s0 L0.
  eapply sim_bind with (P := L nr nc e).
  - unfold mul_loop. fold nr. cbn [mb_of_mat mrows mcols]. apply sim_for; auto. clear n0 s0 L0. intros r a b Hab.
    destruct (RM_dims _ _ _ (proj1 Hab) _ _ Hy) as (_ & ->). apply sim_for; auto. clear a b Hab. intros c a b Hab.
    destruct (RM_dims _ _ _ (proj1 Hab) _ _ Hy) as (-> & _). apply sim_for; auto. clear a b Hab. intros k a b Hab.
    apply sim_eqbind. { apply (sim_src _ _ _ _ _ p (proj1 Hab) Hx). } intros u.
    apply sim_eqbind. { apply (sim_root _ _ _ _ _ (proj1 Hab) Hy). } intros v. unfold macc.
    apply sim_eqbind. { unfold mat_at, mat_idx. destruct Hab as (Hab & _ & ->). eapply RE_read; [exact Hab|reflexivity]. } intros w.
    now apply sim_local.
  - intros res s1 (L1 & _). destruct (sim_src _ _ _ _ _ p L1 Hx) as (_ & _ & <- & _).
    pose proof (P_start _ _ _ _ _ L1 Hx) as H1.
    assert (V : simR (P e x (Some (data res))) (for_range 0 (msize (vmb p m)) (fun i m => let* x := lget (data res) i in vlset p i x m) m)
      (for_range 0 (msize (vmb p m)) (fun i s => let* a := hread s 0 i in hlset ip p x i a s) s1)).
    { apply sim_for; auto. clear. intros i a b Hab. apply sim_eqbind; [eapply RE_read; [exact Hab|reflexivity]|]. intros v. now apply sim_lset. }
    destruct (for_range 0 (msize (vmb p m)) (fun i m => let* x := lget (data res) i in vlset p i x m) m) as [m'| | | |]; cbn [simR] in V; [|rewrite V; reflexivity..].
    destruct V as (s2 & -> & V). cbn [bind]. edestruct (RE_do1 s2 _ _ V (Destroy 0)) as (s3 & E3 & H3); [reflexivity|].
    cbn. exists s3. split; auto. eapply RE_ext; [exact H3| |reflexivity]. apply vecs_tmp.
Qed.

Lemma step_sim s e c : RM s None e -> simR Q (mstep e c) (hstep ip s c).
Proof.
  intros H. destruct c; cbn [mstep hstep];
    try (eapply sim_bind; [apply (RM_look s None e H)|]; intros mx ? Hx; cbv beta);
    try (eapply sim_bind; [apply (RM_fresh s None e H)|]; intros ? ? Hx; cbv beta);
    try (eapply sim_bind; [apply (RM_look s None e H)|]; intros my ? Hy; cbv beta);
    try pose proof (P_start _ _ _ _ _ H Hx) as HP.
  - apply sim_keep. edestruct (RE_do1 s _ _ H (New (S x))) as (s1 & E1 & H1).
    { cbn. rewrite Hx. reflexivity. }
    eapply sim_right; [exact E1|]. apply sim_ret. eapply P_of; [eapply RE_setd; [exact H1|reflexivity]|reflexivity|reflexivity].
  - apply sim_keep. now apply sim_fill.
  - apply sim_keep. now apply sim_list.
  - apply sim_keep. now apply sim_ctor_nested.
  - apply sim_keep. now apply sim_copy.
  - now apply sim_move.
  - destruct ((x =? y) && match p with Root => true | _ => false end) eqn:B.
    + apply andb_prop in B. destruct B as (B1 & B2). destruct p; try discriminate. unfold hassign. rewrite B1. cbn. eauto.
    + pose proof (sim_assign e x y p s mx my H Hx Hy B) as W. destruct (x =? y) eqn:B1; [|now apply sim_keep].
      destruct p; [discriminate B| |]; now apply sim_keep.
  - destruct (Nat.eqb_spec x y) as [<-|N]; [|now apply sim_move_assign]. unfold hmove_assign. rewrite Nat.eqb_refl. apply sim_ret; auto.
  - apply sim_keep. now apply sim_assign_nested.
  - apply sim_keep. now apply sim_resize.
  - apply sim_keep. now apply sim_reshape.
  - apply sim_keep. now apply sim_remove_row.
  - apply sim_keep. now apply sim_remove_column.
  - apply sim_keep. now apply sim_swap_rows.
  - apply sim_keep. now apply sim_swap_cols.
  - apply sim_keep. now apply sim_set.
  - apply sim_keep. now apply sim_view_assign.
  - apply sim_keep. now apply sim_izip.
  - apply sim_keep. now apply sim_izip.
  - apply sim_keep. now apply sim_imul.
  - apply sim_keep. now apply sim_imap.
  - apply sim_eqbind. { apply (sim_src _ _ _ _ _ p H Hx). } intros v. apply sim_ret. auto.
  - edestruct (RE_do1 s _ _ H (Destroy (S x))) as (s1 & E1 & H1).
    { cbn. rewrite Hx. reflexivity. }
    eapply sim_right; [exact E1|]. apply sim_ret. eapply RE_ext; [eapply RE_setd; [exact H1|reflexivity]| |].
    + apply vecs_none. + apply dims_none.
Qed.
Lemma run_simR cs : forall s e, RM s None e -> simR Q (mrun e cs) (hrun ip s cs).
Proof.
  induction cs as [|c cs IH]; intros s e H; cbn [mrun hrun]. { now apply sim_ret. }
  pose proof (step_sim s e c H) as W. destruct (mstep e c) as [e1| | | |]; cbn [simR] in W.
  1: { destruct W as (s1 & -> & W). cbn [bind]. now apply IH. }
  1: { rewrite W. now apply IH. }
  all: rewrite W; reflexivity.
Qed.
Lemma run_sim cs s e e' : RM s None e -> mrun e cs = Ok e' -> exists s', hrun ip s cs = Ok s' /\ RM s' None e'.
Proof. intros H Hr. pose proof (run_simR cs s e H) as W. rewrite Hr in W. exact W. Qed.
Lemma RM_init : RM hst0 None (fun _ => None).
Proof. split; [|reflexivity]. eapply R_ext; [apply R_init|]. intros [|x]; reflexivity. Qed.
Lemma RM_are s e : RM s None e -> matrices_are s e.
Proof.
  intros (HR & HD). pose proof (R_values _ _ HR) as HV. split; [exact (HV 0)|]. intros x. specialize (HV (S x)). cbn in HV.
  specialize (HD x). unfold dims in HD. unfold matrix_is. destruct (e x); cbn in *; auto.
Qed.

(** * C128: whatever the program does with its matrices, if it breaks no precondition
    of the operations it never touches memory that is not its own and the matrices
    hold what they should; wherever the allocator puts the blocks. *)
Theorem C128_memory_safe : forall cs e, mrun (fun _ => None) cs = Ok e ->
  exists s, hrun ip hst0 cs = Ok s /\ mem_ok (hv s) /\ matrices_are s e.
Proof.
  intros cs e Hr. destruct (run_sim cs _ _ _ RM_init Hr) as (s & E & H). exists s. split; auto. split; [|now apply RM_are].
  destruct H as (HR & _). eapply R_mem; [exact ip|exact HR].
Qed.
(** When every matrix has been destroyed no block is left, not even one of a
    temporary. *)
Theorem C128_no_leak : forall cs e, mrun (fun _ => None) cs = Ok e -> (forall x, e x = None) ->
  exists s, hrun ip hst0 cs = Ok s /\ forall b, ~ live (hv s) b.
Proof.
  intros cs e Hr He. destruct (run_sim cs _ _ _ RM_init Hr) as (s & E & (HR & _)). exists s. split; auto.
  destruct HR as (H1 & _ & _ & H3). intros b Hb. destruct (H3 b Hb) as (x & o & Ex & _). specialize (H1 x).
  unfold vecs in H1. destruct x as [|x]; [congruence|]. rewrite He in H1. cbn in H1. congruence.
Qed.
(** An exception leaves the memory as it was, so the program can go on. *)
Theorem C128_exception : forall cs e c, mrun (fun _ => None) cs = Ok e -> mstep e c = Throw ->
  exists s, hrun ip hst0 cs = Ok s /\ hstep ip s c = Throw /\ hrun ip hst0 (cs ++ [c]) = Ok s.
Proof.
  intros cs e c Hr Ht. destruct (run_sim cs _ _ _ RM_init Hr) as (s & E & H). exists s. split; auto.
  pose proof (step_sim s e c H) as W. rewrite Ht in W. cbn in W. split; auto.
  revert E. generalize (@hst0 T). clear - W. induction cs as [|a cs IH]; intros s0 E; cbn [app hrun] in *.
  { injection E as ->. rewrite W. reflexivity. }
  destruct (hstep ip s0 a); cbn in *; auto.
Qed.
(** Nothing is lost by reasoning about matrices as lists: a program is undefined in
    memory exactly when it is for lists. *)
Theorem C128_same_outcome : forall cs,
  match mrun (fun _ => None) cs with
  | Ok e => exists s, hrun ip hst0 cs = Ok s /\ matrices_are s e
  | Throw => hrun ip hst0 cs = Throw
  | UB => hrun ip hst0 cs = UB
  | Exit => hrun ip hst0 cs = Exit
  | Fuel => hrun ip hst0 cs = Fuel
  end.
Proof.
  intros cs. pose proof (run_simR cs _ _ RM_init) as W. destruct (mrun _ cs); cbn [simR] in W; auto.
  destruct W as (s & E & W). exists s. split; auto. now apply RM_are.
Qed.
(** A matrix that has been moved from still has its numbers of rows and columns, but
    its pointer is null: reading any element of it is undefined behaviour. *)
Theorem C128_moved_from : forall cs e x y m i j, mrun (fun _ => None) cs = Ok e -> e x = None -> e y = Some m ->
  (exists s, hrun ip hst0 (cs ++ [MMove x y]) = Ok s /\ hshape s y = Some (rows m, cols m) /\ reads_as (hv s) (S y) nil /\
     reads_as (hv s) (S x) (data m)) /\
  hrun ip hst0 (cs ++ [MMove x y; MGet y Root i j]) = UB.
Proof.
  intros cs e x y m i j Hr Hx Hy. assert (N : y <> x) by congruence.
  assert (App : forall e0 cs', mrun e0 cs = Ok e -> mrun e0 (cs ++ cs') = mrun e cs').
  { clear. induction cs as [|c cs IH]; intros e0 cs' H; cbn [mrun app] in *. { now injection H as ->. }
    destruct (mstep e0 c); cbn in *; auto; discriminate. }
  pose proof (App _ [MMove x y] Hr) as H1. cbn in H1. unfold mfresh, mlook in H1. rewrite Hx, Hy in H1. cbn in H1.
  set (e1 := mbind _ x _) in H1.
  assert (Hx1 : e1 x = Some (mkM (rows m) (cols m) (data m))) by apply mbind_same.
  assert (Hy1 : e1 y = Some (mkM (rows m) (cols m) nil)) by (unfold e1; rewrite mbind_other by auto; apply mbind_same).
  split.
  - destruct (C128_memory_safe _ _ H1) as (s & E & _ & (_ & M)). exists s. split; auto.
    pose proof (M x) as Mx. pose proof (M y) as My. rewrite Hx1 in Mx. rewrite Hy1 in My. destruct Mx as (_ & Mx), My as (My1 & My2). auto.
  - pose proof (C128_same_outcome (cs ++ [MMove x y; MGet y Root i j])) as W. rewrite (App _ _ Hr) in W.
    cbn [mrun] in W. unfold mstep at 1 in W. unfold mfresh, mlook in W. rewrite Hx, Hy in W. cbn [bind mat_move_ctor fst snd] in W. fold e1 in W.
    cbn [mstep] in W. unfold mlook in W. rewrite Hy1 in W. cbn [bind vmb mb_of_mat mget mat_at data] in W. unfold mat_at, lget in W. cbn [data] in W.
    rewrite (proj2 (nth_error_None (@nil T) _)) in W by (cbn; lia). exact W.
Qed.
End Proofs.

(** A program that uses every statement, with views of a matrix assigned to that
    matrix, exceptions and temporaries; the allocator moves blocks or not. *)
From Verif Require Import Scalar.
Definition ex_matrices : list (@mop Z) :=
  [MNested 0 [[1; 2; 3]; [4; 5; 6]]%Z; MCopy 1 0 Root; MCopy 2 0 (PView (mkRange 0 2) (mkRange 1 3) Root); MFill 3 2 2 7%Z; MList 4 1 2 [8; 9]%Z; MNew 5;
   MResize 0 3 4; MResize 0 5 4; MResize 0 1 4; MSet 0 Root 0 3 11%Z; MReshape 0 2 2; MReshape 0 9 9; MMove 6 4; MAssign 4 1 Root; MAssign 4 4 Root;
   MAssign 4 1 (PCof 0 0 Root); MMoveAssign 5 6; MMoveAssign 5 5; MAssignNested 6 [[1]; [2]]%Z; MRemoveRow 1 0; MRemoveCol 1 1; MRemoveCol 1 7;
   MSwapRows 2 Root 0 1 0 9; MSwapCols 2 Root 0 1 0 9; MViewAssign 3 (PView (mkRange 0 1) (mkRange 0 2) Root) 5; MAdd 2 Root 3; MSub 2 Root 2; MMul 3 Root 3;
   MScale 3 Root 2%Z; MGet 3 Root 1 1; MNested 9 [];
   MDestroy 0; MDestroy 1; MDestroy 2; MDestroy 3; MDestroy 4; MDestroy 5; MDestroy 6].
Example C128_ex : match mrun (fun _ => None) (firstn 31 ex_matrices) with
  | Ok e => option_map (@data Z) (e 0) = Some [1; 2; 3; 11]%Z /\ option_map (@data Z) (e 1) = Some [4; 6]%Z /\
            option_map (@data Z) (e 3) = Some [254; 270; 210; 224]%Z /\ e 7 = None
  | _ => False end.
Proof. vm_compute. auto. Qed.
Example C128_ex_end : match mrun (fun _ => None) ex_matrices with
  | Ok e => (fix none n := match n with 0 => True | S n => e n = None /\ none n end) 10 | _ => False end.
Proof. vm_compute. repeat split. Qed.
(** The model with pointers runs it too, with an allocator that always or never moves
    blocks, and every block is released. *)
Example C128_ex_run : forall ip, ip = (fun _ _ _ => true) \/ ip = (fun _ _ _ => false) ->
  match hrun ip hst0 ex_matrices with Ok s => forallb (fun b => match b with None => true | Some _ => false end) (hp (hv s)) = true /\ hp (hv s) <> nil | _ => False end.
Proof. intros ip [-> | ->]; vm_compute; split; congruence. Qed.
