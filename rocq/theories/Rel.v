(** Rel.v: the functions of the library preserve relations between element types.  If the
    elements of two inputs are related, and the operations of the two element types take
    related operands to related results, then the two results are related. *)
From Verif Require Import Util MathM Linalg Control.

(** * Specification *)
(** The same outcome, with related results. *)
Definition rres {A B} (S : A -> B -> Prop) (x : Res A) (y : Res B) : Prop :=
  match x, y with
  | Ok a, Ok b => S a b
  | Throw, Throw | UB, UB | Exit, Exit | Fuel, Fuel => True
  | _, _ => False
  end.
Definition rpair {A B A' B'} (S : A -> A' -> Prop) (S' : B -> B' -> Prop) (x : A * B) (y : A' * B') : Prop := S (fst x) (fst y) /\ S' (snd x) (snd y).
(** The same shape, with related elements. *)
Definition rmat {A B} (R : A -> B -> Prop) (m : Matrix A) (m' : Matrix B) : Prop := rows m = rows m' /\ cols m = cols m' /\ Forall2 R (data m) (data m').
(** The same for anything that has the interface of a MatrixBase. *)
Definition rmb {A B} (R : A -> B -> Prop) (X : MB A) (Y : MB B) : Prop :=
  mrows X = mrows Y /\ mcols X = mcols Y /\ msize X = msize Y /\ mempty X = mempty Y /\
  (forall i j, rres R (mget X i j) (mget Y i j)) /\ (forall k, rres R (mlin X k) (mlin Y k)).
(** The operations of a ring, and the rest. *)
Record same_ring {A B} (O1 : Ops A) (O2 : Ops B) (R : A -> B -> Prop) : Prop := {
  r_0 : R o0 o0; r_1 : R o1 o1;
  r_add : forall a b a' b', R a b -> R a' b' -> R (oadd a a') (oadd b b');
  r_sub : forall a b a' b', R a b -> R a' b' -> R (osub a a') (osub b b');
  r_mul : forall a b a' b', R a b -> R a' b' -> R (omul a a') (omul b b');
  r_opp : forall a b, R a b -> R (oopp a) (oopp b);
  r_nat : forall n, R (ofnat n) (ofnat n) }.
Record same_div {A B} (O1 : Ops A) (O2 : Ops B) (R : A -> B -> Prop) : Prop := {
  r_div : forall a b a' b', R a b -> R a' b' -> rres R (odiv a a') (odiv b b') }.
Record same_order {A B} (O1 : Ops A) (O2 : Ops B) (R : A -> B -> Prop) : Prop := {
  r_eq : forall a b a' b', R a b -> R a' b' -> oeq a a' = oeq b b';
  r_lt : forall a b a' b', R a b -> R a' b' -> olt a a' = olt b b';
  r_le : forall a b a' b', R a b -> R a' b' -> ole a a' = ole b b';
  r_feq : forall a b a' b', R a b -> R a' b' -> ofeq a a' = ofeq b b';
  r_isz : forall a b, R a b -> oisz a = oisz b;
  r_abs : forall a b, R a b -> R (oabs a) (oabs b) }.

(** * Outcomes, loops, buffers *)
Lemma rbind {A B A' B'} (S : A -> B -> Prop) (S' : A' -> B' -> Prop) x y f g : rres S x y -> (forall a b, S a b -> rres S' (f a) (g b)) -> rres S' (bind x f) (bind y g).
Proof. destruct x, y; cbn; intros H F; try contradiction; auto. Qed.
Lemma rOk {A B} (S : A -> B -> Prop) a b : S a b -> rres S (Ok a) (Ok b). Proof. auto. Qed.
Lemma rfor {A B} (S : A -> B -> Prop) lo lo' hi hi' f g s s' : lo = lo' -> hi = hi' -> S s s' ->
  (forall i t t', S t t' -> rres S (f i t) (g i t')) -> rres S (for_range lo hi f s) (for_range lo' hi' g s').
Proof.
  intros <- <- Hs H. unfold for_range. revert s s' Hs. generalize lo at 2 4. induction (hi - lo) as [|n IH]; intros k s s' Hs; [exact Hs|]. cbn [for_n].
  eapply rbind; [apply H; exact Hs|]. intros a b Hab. now apply IH.
Qed.
Lemma rall lo lo' hi hi' f g : lo = lo' -> hi = hi' -> (forall i, rres eq (f i) (g i)) -> rres eq (all_range lo hi f) (all_range lo' hi' g).
Proof.
  intros <- <- H. unfold all_range. generalize lo at 2 4. induction (hi - lo) as [|n IH]; intros k; [reflexivity|]. cbn [all_n].
  eapply rbind; [apply H|]. intros a b <-. destruct a; [apply IH|reflexivity].
Qed.
Lemma rfirst {A} lo lo' hi hi' (f g : nat -> Res (option A)) : lo = lo' -> hi = hi' -> (forall i, rres eq (f i) (g i)) -> rres eq (first_range lo hi f) (first_range lo' hi' g).
Proof.
  intros <- <- H. unfold first_range. generalize lo at 2 4. induction (hi - lo) as [|n IH]; intros k; [reflexivity|]. cbn [first_n].
  eapply rbind; [apply H|]. intros a b <-. destruct a; [reflexivity|apply IH].
Qed.
Lemma rif {A B} (S : A -> B -> Prop) (c c' : bool) x x' y y' : c = c' -> rres S x y -> rres S x' y' -> rres S (if c then x else x') (if c' then y else y').
Proof. intros <-. now destruct c. Qed.
Lemma f2_len {A B} (R : A -> B -> Prop) l l' : Forall2 R l l' -> length l = length l'.
Proof. induction 1; cbn; congruence. Qed.
Lemma f2_nth {A B} (R : A -> B -> Prop) l l' i : Forall2 R l l' -> match nth_error l i, nth_error l' i with Some a, Some b => R a b | None, None => True | _, _ => False end.
Proof. intros H. revert i. induction H as [|x y l l' N F IH]; intros [|i]; cbn; auto. apply IH. Qed.
Lemma rlget {A B} (R : A -> B -> Prop) l l' i i' : i = i' -> Forall2 R l l' -> rres R (lget l i) (lget l' i').
Proof. intros <- H. unfold lget. pose proof (f2_nth R l l' i H) as N. destruct (nth_error l i), (nth_error l' i); cbn; auto. Qed.
Lemma f2_upd {A B} (R : A -> B -> Prop) l l' i v v' : Forall2 R l l' -> R v v' -> Forall2 R (upd l i v) (upd l' i v').
Proof. intros H Hv. revert i. induction H as [|x y l l' N F IH]; intros [|i]; cbn; constructor; auto. Qed.
Lemma rlset {A B} (R : A -> B -> Prop) l l' i i' v v' : i = i' -> Forall2 R l l' -> R v v' -> rres (Forall2 R) (lset l i v) (lset l' i' v').
Proof. intros <- H Hv. unfold lset. rewrite (f2_len R l l' H). destruct (_ <? _); cbn; auto. now apply f2_upd. Qed.
Lemma f2_repeat {A B} (R : A -> B -> Prop) a b n : R a b -> Forall2 R (repeat a n) (repeat b n).
Proof. intros H. induction n; cbn; auto. Qed.
Lemma f2_app {A B} (R : A -> B -> Prop) l l' k k' : Forall2 R l l' -> Forall2 R k k' -> Forall2 R (l ++ k) (l' ++ k').
Proof. intros H H'. induction H; cbn; auto. Qed.
Lemma f2_firstn {A B} (R : A -> B -> Prop) l l' n : Forall2 R l l' -> Forall2 R (firstn n l) (firstn n l').
Proof. intros H. revert n. induction H; intros [|n]; cbn; auto. Qed.


(** ** Tactics *)
(** Equations between sizes from the relations in the context. *)
Ltac dims :=
  repeat match goal with
  | H : rmat _ ?m ?m' |- _ => lazymatch goal with _ : rows m = rows m' |- _ => fail | _ => pose proof (proj1 H : rows m = rows m'); pose proof (proj1 (proj2 H) : cols m = cols m'); pose proof (f2_len _ _ _ (proj2 (proj2 H)) : length (data m) = length (data m')) end
  | H : rmb _ ?m ?m' |- _ => lazymatch goal with _ : mrows m = mrows m' |- _ => fail | _ => pose proof (proj1 H : mrows m = mrows m'); pose proof (proj1 (proj2 H) : mcols m = mcols m'); pose proof (proj1 (proj2 (proj2 H)) : msize m = msize m'); pose proof (proj1 (proj2 (proj2 (proj2 H))) : mempty m = mempty m') end
  | H : Forall2 _ ?l ?l' |- _ => lazymatch goal with _ : length l = length l' |- _ => fail | _ => pose proof (f2_len _ _ _ H : length l = length l') end
  end.
Ltac req := try reflexivity; unfold mat_idx, is_square, is_row_vector, is_column_vector; cbn [mb_of_mat mrows mcols msize mempty rows cols fst snd data vmb]; dims; try congruence.

Lemma r_get {A B} (R : A -> B -> Prop) X Y i j i' j' : rmb R X Y -> i = i' -> j = j' -> rres R (mget X i j) (mget Y i' j').
Proof. intros (_ & _ & _ & _ & H & _) -> ->. apply H. Qed.
Lemma r_lin {A B} (R : A -> B -> Prop) X Y k k' : rmb R X Y -> k = k' -> rres R (mlin X k) (mlin Y k').
Proof. intros (_ & _ & _ & _ & _ & H) ->. apply H. Qed.
Lemma r_at {A B} (R : A -> B -> Prop) X Y i j i' j' : rmat R X Y -> i = i' -> j = j' -> rres R (mat_at X i j) (mat_at Y i' j').
Proof. intros H -> ->. apply rlget; [req|apply H]. Qed.
Lemma r_mk {A B} (R : A -> B -> Prop) r r' c c' d d' : r = r' -> c = c' -> Forall2 R d d' -> rmat R (mkM r c d) (mkM r' c' d').
Proof. now repeat split. Qed.
Lemma r_set {A B} (R : A -> B -> Prop) X Y i j i' j' v v' : rmat R X Y -> i = i' -> j = j' -> R v v' -> rres (rmat R) (mat_set X i j v) (mat_set Y i' j' v').
Proof. intros H -> -> Hv. unfold mat_set. eapply rbind; [apply rlset; [req|apply H|exact Hv]|]. intros d d' Hd. apply r_mk; [req..|exact Hd]. Qed.
Lemma r_lset {A B} (R : A -> B -> Prop) X Y k k' v v' : rmat R X Y -> k = k' -> R v v' -> rres (rmat R) (mat_lset X k v) (mat_lset Y k' v').
Proof. intros H -> Hv. unfold mat_lset. eapply rbind; [apply rlset; [req|apply H|exact Hv]|]. intros d d' Hd. apply r_mk; [req..|exact Hd]. Qed.
Lemma r_mat {A B} (R : A -> B -> Prop) X Y : rmat R X Y -> rmb R (mb_of_mat X) (mb_of_mat Y).
Proof.
  intros H. repeat split; try (req; fail).
  - intros i j. now apply r_at.
  - intros k. apply rlget; [req|apply H].
Qed.
Lemma r_view {A B} (R : A -> B -> Prop) X Y rr rc : rmb R X Y -> rmb R (mb_view rr rc X) (mb_view rr rc Y).
Proof.
  intros H. unfold mb_view. dims. rewrite H0, H1. repeat split; try (cbn; req; fail).
  - intros i j. cbn. now apply r_get.
  - intros k. cbn. destruct (_ =? 0); [exact I|]. now apply r_get.
Qed.
Lemma r_cof {A B} (R : A -> B -> Prop) X Y p q : rmb R X Y -> rmb R (mb_cof p q X) (mb_cof p q Y).
Proof.
  intros H. unfold mb_cof. dims. rewrite H0, H1. repeat split; try (cbn; req; fail).
  - intros i j. cbn. now apply r_get.
  - intros k. cbn. destruct (_ =? 0); [exact I|]. now apply r_get.
Qed.
Lemma r_vmb {A B} (R : A -> B -> Prop) X Y p : rmat R X Y -> rmb R (vmb p X) (vmb p Y).
Proof. intros H. induction p; cbn [vmb]; [now apply r_mat|now apply r_view|now apply r_cof]. Qed.
Lemma r_vset {A B} (R : A -> B -> Prop) X Y p i j i' j' v v' : rmat R X Y -> i = i' -> j = j' -> R v v' -> rres (rmat R) (vset p i j v X) (vset p i' j' v' Y).
Proof. intros H -> -> Hv. now apply r_set. Qed.
Lemma r_vlset {A B} (R : A -> B -> Prop) X Y p k k' v v' : rmat R X Y -> k = k' -> R v v' -> rres (rmat R) (vlset p k v X) (vlset p k' v' Y).
Proof.
  intros H <- Hv. destruct p; cbn [vlset]; [now apply r_lset| |].
  - pose proof (r_vmb R X Y (PView rr rc p) H) as (_ & V & _). cbv zeta. rewrite <- V. destruct (_ =? 0); [exact I|]. now apply r_vset.
  - pose proof (r_vmb R X Y (PCof er ec p) H) as (V & _). cbv zeta. rewrite <- V. destruct (_ =? 0); [exact I|]. now apply r_vset.
Qed.

Ltac rleaf :=
  lazymatch goal with
  | |- rres _ (mget _ _ _) (mget _ _ _) => eapply r_get
  | |- rres _ (mlin _ _) (mlin _ _) => eapply r_lin
  | |- rres _ (mat_at _ _ _) (mat_at _ _ _) => eapply r_at
  | |- rres _ (mat_set _ _ _ _) (mat_set _ _ _ _) => eapply r_set
  | |- rres _ (mat_lset _ _ _) (mat_lset _ _ _) => eapply r_lset
  | |- rres _ (vset _ _ _ _ _) (vset _ _ _ _ _) => eapply r_vset
  | |- rres _ (vlset _ _ _ _) (vlset _ _ _ _) => eapply r_vlset
  | |- rres _ (lget _ _) (lget _ _) => eapply rlget
  | |- rres _ (lset _ _ _) (lset _ _ _) => eapply rlset
  | |- rres _ (bind _ _) (bind _ _) => eapply rbind
  | |- rres _ (for_range _ _ _ _) (for_range _ _ _ _) => eapply rfor
  | |- rres _ (all_range _ _ _) (all_range _ _ _) => eapply rall
  | |- rres _ (first_range _ _ _) (first_range _ _ _) => eapply rfirst
  | |- rres _ (if _ then _ else _) (if _ then _ else _) => eapply rif
  | |- rres _ (Ok _) (Ok _) => eapply rOk
  | |- rres _ Throw Throw => exact I
  | |- rres _ UB UB => exact I
  | |- rres _ Exit Exit => exact I
  | |- rres _ Fuel Fuel => exact I
  | |- rmb _ (mb_of_mat _) (mb_of_mat _) => eapply r_mat
  | |- rmb _ (mb_cof _ _ _) (mb_cof _ _ _) => eapply r_cof
  | |- rmb _ (mb_view _ _ _) (mb_view _ _ _) => eapply r_view
  | |- rmb _ (vmb _ _) (vmb _ _) => eapply r_vmb
  | |- rmat _ (mkM _ _ _) (mkM _ _ _) => eapply r_mk
  | |- Forall2 _ (data _) (data _) => eapply (fun H => proj2 (proj2 H))
  | |- Forall2 _ (_ ++ _) (_ ++ _) => eapply f2_app
  | |- Forall2 _ (repeat _ _) (repeat _ _) => eapply f2_repeat
  | |- Forall2 _ (_ :: _) (_ :: _) => eapply Forall2_cons
  | |- Forall2 _ nil nil => eapply Forall2_nil
  | |- rpair _ _ _ _ => split; cbn [fst snd]
  end.
Create HintDb rel.
Ltac rext := fail.
Lemma rifS {A B} (S : A -> B -> Prop) (c c' : bool) x x' y y' : c = c' -> S x y -> S x' y' -> S (if c then x else x') (if c' then y else y').
Proof. intros <-. now destruct c. Qed.
Lemma rpairI {A B A' B'} (S : A -> A' -> Prop) (S' : B -> B' -> Prop) a b a' b' : S a a' -> S' b b' -> rpair S S' (a, b) (a', b').
Proof. now split. Qed.
Ltac rscal :=
  lazymatch goal with
  | |- _ (oadd _ _) (oadd _ _) => eapply r_add
  | |- _ (osub _ _) (osub _ _) => eapply r_sub
  | |- _ (omul _ _) (omul _ _) => eapply r_mul
  | |- _ (oopp _) (oopp _) => eapply r_opp
  | |- _ (oabs _) (oabs _) => eapply r_abs
  | |- _ (ofnat ?n) (ofnat ?n) => eapply r_nat
  | |- _ o0 o0 => eapply r_0
  | |- _ o1 o1 => eapply r_1
  | |- rres _ (odiv _ _) (odiv _ _) => eapply r_div
  | |- olt _ _ = olt _ _ => eapply r_lt
  | |- ole _ _ = ole _ _ => eapply r_le
  | |- oeq _ _ = oeq _ _ => eapply r_eq
  | |- ofeq _ _ = ofeq _ _ => eapply r_feq
  | |- oisz _ = oisz _ => eapply r_isz
  | |- negb ?x = negb ?y => apply (f_equal negb)
  | |- Some ?x = Some ?y => apply (f_equal Some)
  | |- (if _ then _ else _) = (if _ then _ else _) => eapply rifS
  | |- _ (if _ then _ else _) (if _ then _ else _) => eapply rifS
  end.
Ltac rgo :=
  repeat (cbn beta zeta in *; match goal with
  | H : rpair _ _ _ _ |- _ => let H1 := fresh in let H2 := fresh in destruct H as [H1 H2]; cbn [fst snd] in H1, H2
  | p : (_ * _)%type |- _ => destruct p
  | |- forall _, _ => intros ?
  | H : rmat ?R ?m ?m' |- context [vmb ?p ?m] => lazymatch goal with _ : rmb R (vmb p m) (vmb p m') |- _ => fail | _ => pose proof (r_vmb R m m' p H) end
  | F : forall m m', rmat ?R m m' -> rmb ?R (?f m) (?g m'), H : rmat ?R ?m ?m' |- context [?f ?m] => lazymatch goal with _ : rmb R (f m) (g m') |- _ => fail | _ => pose proof (F m m' H) end
  | H : ?x = ?y :> nat |- _ => is_var x; is_var y; subst y
  | H : ?x = ?y :> bool |- _ => is_var x; is_var y; subst y
  | |- _ = _ => solve [req]
  | |- _ => eassumption
  | |- ?S (_, _) (_, _) => is_evar S; eapply rpairI
  | |- ?S ?n ?n => is_evar S; lazymatch type of n with nat => unify S (@eq nat); reflexivity end
  | |- _ => rleaf
  | |- _ => rext
  | |- _ => rscal
  | H : forall _, _ |- _ => eapply H
  end).

Lemma r_alloc {T1 T2} {O1 : Ops T1} {O2 : Ops T2} (R : T1 -> T2 -> Prop) (R0 : R o0 o0) a0 b0 a1 b1 : a1 = b1 :> nat -> Forall2 R a0 b0 -> rres (Forall2 R) (vec_allocate a0 a1) (vec_allocate b0 b1).
Proof. intros <- H. unfold vec_allocate. rewrite (f2_len R _ _ H). repeat apply rif; auto; cbn; auto.
  apply f2_app; [now apply f2_firstn|now apply f2_repeat]. Qed.
Ltac rx1 := lazymatch goal with
  | |- rres _ (vec_allocate _ _) _ => eapply r_alloc
  | |- _ => fail end.
Ltac rext ::= rx1.
Lemma r_vnew {T1 T2} {O1 : Ops T1} {O2 : Ops T2} (R : T1 -> T2 -> Prop) (R0 : R o0 o0) a0 b0 : a0 = b0 :> nat -> rres (Forall2 R) (vec_new a0) (vec_new b0).
Proof. intros; unfold vec_new; rgo. Qed.
Lemma r_vfill {T1 T2} {O1 : Ops T1} {O2 : Ops T2} (R : T1 -> T2 -> Prop) (R0 : R o0 o0) a0 b0 a1 b1 : a0 = b0 :> nat -> R a1 b1 -> rres (Forall2 R) (vec_fill a0 a1) (vec_fill b0 b1).
Proof. intros; unfold vec_fill; rgo. Qed.
Lemma r_vofl {T1 T2} {O1 : Ops T1} {O2 : Ops T2} (R : T1 -> T2 -> Prop) (R0 : R o0 o0) a0 b0 : Forall2 R a0 b0 -> rres (Forall2 R) (vec_of_list a0) (vec_of_list b0).
Proof. intros; unfold vec_of_list; rgo. Qed.
Lemma r_vofln {T1 T2} {O1 : Ops T1} {O2 : Ops T2} (R : T1 -> T2 -> Prop) (R0 : R o0 o0) a0 b0 a1 b1 : a0 = b0 :> nat -> Forall2 R a1 b1 -> rres (Forall2 R) (vec_of_list_n a0 a1) (vec_of_list_n b0 b1).
Proof. intros; unfold vec_of_list_n; rgo; now apply r_vofl. Qed.
Lemma r_vassign {T1 T2} {O1 : Ops T1} {O2 : Ops T2} (R : T1 -> T2 -> Prop) (R0 : R o0 o0) a0 b0 a1 b1 : Forall2 R a0 b0 -> Forall2 R a1 b1 -> rres (Forall2 R) (vec_assign a0 a1) (vec_assign b0 b1).
Proof. intros; unfold vec_assign; rgo. Qed.
Lemma r_fill_rc {T1 T2} (R : T1 -> T2 -> Prop) a0 b0 a1 b1 a2 b2 a3 b3 : a0 = b0 :> nat -> a1 = b1 :> nat -> (forall i j, rres R (a2 i j) (b2 i j)) -> rmat R a3 b3 -> rres (rmat R) (fill_rc a0 a1 a2 a3) (fill_rc b0 b1 b2 b3).
Proof. intros; unfold fill_rc; rgo. Qed.
Lemma r_fill_lin {T1 T2} (R : T1 -> T2 -> Prop) a0 b0 a1 b1 a2 b2 : a0 = b0 :> nat -> (forall i, rres R (a1 i) (b1 i)) -> rmat R a2 b2 -> rres (rmat R) (fill_lin a0 a1 a2) (fill_lin b0 b1 b2).
Proof. intros; unfold fill_lin; rgo. Qed.
Ltac rx2 := lazymatch goal with
  | |- rres _ (vec_new _) _ => eapply r_vnew
  | |- rres _ (vec_fill _ _) _ => eapply r_vfill
  | |- rres _ (vec_of_list _) _ => eapply r_vofl
  | |- rres _ (vec_of_list_n _ _) _ => eapply r_vofln
  | |- rres _ (vec_assign _ _) _ => eapply r_vassign
  | |- rres _ (fill_rc _ _ _ _) _ => eapply r_fill_rc
  | |- rres _ (fill_lin _ _ _) _ => eapply r_fill_lin
  | |- _ => rx1 end.
Ltac rext ::= rx2.
Lemma r_mnew {T1 T2} {O1 : Ops T1} {O2 : Ops T2} (R : T1 -> T2 -> Prop) (R0 : R o0 o0) a0 b0 a1 b1 a2 b2 : a0 = b0 :> nat -> a1 = b1 :> nat -> R a2 b2 -> rres (rmat R) (mat_new a0 a1 a2) (mat_new b0 b1 b2).
Proof. intros; unfold mat_new; rgo. Qed.
Lemma r_mzero {T1 T2} {O1 : Ops T1} {O2 : Ops T2} (R : T1 -> T2 -> Prop) (R0 : R o0 o0) a0 b0 a1 b1 : a0 = b0 :> nat -> a1 = b1 :> nat -> rres (rmat R) (mat_zero a0 a1) (mat_zero b0 b1).
Proof. intros; unfold mat_zero; rgo. Qed.
Ltac rx3 := lazymatch goal with
  | |- rres _ (mat_new _ _ _) _ => eapply r_mnew
  | |- rres _ (mat_zero _ _) _ => eapply r_mzero
  | |- _ => rx2 end.
Ltac rext ::= rx3.
Lemma r_mofl {T1 T2} {O1 : Ops T1} {O2 : Ops T2} (R : T1 -> T2 -> Prop) (R0 : R o0 o0) a0 b0 a1 b1 a2 b2 : a0 = b0 :> nat -> a1 = b1 :> nat -> Forall2 R a2 b2 -> rres (rmat R) (mat_of_list a0 a1 a2) (mat_of_list b0 b1 b2).
Proof. intros; unfold mat_of_list; rgo. Qed.
Lemma r_nested {T1 T2} {O1 : Ops T1} {O2 : Ops T2} (R : T1 -> T2 -> Prop) (R0 : R o0 o0) a0 b0 a1 b1 a2 b2 a3 b3 : a0 = b0 :> nat -> a1 = b1 :> nat -> Forall2 (Forall2 R) a2 b2 -> rmat R a3 b3 -> rres (rmat R) (nested_copy a0 a1 a2 a3) (nested_copy b0 b1 b2 b3).
Proof. intros; unfold nested_copy; rgo. Qed.
Lemma r_mofmb {T1 T2} {O1 : Ops T1} {O2 : Ops T2} (R : T1 -> T2 -> Prop) (R0 : R o0 o0) a0 b0 : rmb R a0 b0 -> rres (rmat R) (mat_of_mb a0) (mat_of_mb b0).
Proof. intros; unfold mat_of_mb; rgo. Qed.
Ltac rx4 := lazymatch goal with
  | |- rres _ (mat_of_list _ _ _) _ => eapply r_mofl
  | |- rres _ (nested_copy _ _ _ _) _ => eapply r_nested
  | |- rres _ (mat_of_mb _) _ => eapply r_mofmb
  | |- _ => rx3 end.
Ltac rext ::= rx4.
Lemma r_mcopy {T1 T2} {O1 : Ops T1} {O2 : Ops T2} (R : T1 -> T2 -> Prop) (R0 : R o0 o0) a0 b0 : rmat R a0 b0 -> rres (rmat R) (mat_copy a0) (mat_copy b0).
Proof. intros; unfold mat_copy; rgo. Qed.
Lemma r_reshape {T1 T2} {O1 : Ops T1} {O2 : Ops T2} (R : T1 -> T2 -> Prop) (R0 : R o0 o0) a0 b0 a1 b1 a2 b2 : rmat R a0 b0 -> a1 = b1 :> nat -> a2 = b2 :> nat -> rres (rmat R) (mat_reshape a0 a1 a2) (mat_reshape b0 b1 b2).
Proof. intros; unfold mat_reshape; rgo. Qed.
Lemma r_resize {T1 T2} {O1 : Ops T1} {O2 : Ops T2} (R : T1 -> T2 -> Prop) (R0 : R o0 o0) a0 b0 a1 b1 a2 b2 : rmat R a0 b0 -> a1 = b1 :> nat -> a2 = b2 :> nat -> rres (rmat R) (mat_resize a0 a1 a2) (mat_resize b0 b1 b2).
Proof. intros; unfold mat_resize; rgo. Qed.
Lemma r_mofnested {T1 T2} {O1 : Ops T1} {O2 : Ops T2} (R : T1 -> T2 -> Prop) (R0 : R o0 o0) a0 b0 : Forall2 (Forall2 R) a0 b0 -> rres (rmat R) (mat_of_nested a0) (mat_of_nested b0).
Proof. intros H; unfold mat_of_nested; inversion H as [|l l' ll ll' H1 H2]; subst; [exact I|]; inversion H1; subst; [exact I|]; cbv zeta; rgo. Qed.
Lemma r_moved {T1 T2} (R : T1 -> T2 -> Prop) a a' b b' : rmat R a a' -> rmat R b b' -> rmat R (fst (mat_move_assign a b)) (fst (mat_move_assign a' b')).
Proof. intros H H'. unfold mat_move_assign. dims. rewrite H0, H1. destruct (_ =? 0); [exact H|]. cbn. rgo. Qed.
Lemma r_moved2 {T1 T2} (R : T1 -> T2 -> Prop) a a' b b' : rmat R a a' -> rmat R b b' -> rmat R (snd (mat_move_assign a b)) (snd (mat_move_assign a' b')).
Proof. intros H H'. unfold mat_move_assign. dims. rewrite H0, H1. destruct (_ =? 0); [exact H'|]. cbn. rgo. Qed.
Lemma r_empty {T1 T2} (R : T1 -> T2 -> Prop) : rmat R mat_empty mat_empty.
Proof. repeat split. constructor. Qed.
Ltac rx5 := lazymatch goal with
  | |- rres _ (mat_copy _) _ => eapply r_mcopy
  | |- rres _ (mat_reshape _ _ _) _ => eapply r_reshape
  | |- rres _ (mat_resize _ _ _) _ => eapply r_resize
  | |- rres _ (mat_of_nested _) _ => eapply r_mofnested
  | |- rmat _ (fst (mat_move_assign _ _)) _ => eapply r_moved
  | |- rmat _ mat_empty _ => eapply r_empty
  | |- _ => rx4 end.
Ltac rext ::= rx5.
Lemma r_massign {T1 T2} {O1 : Ops T1} {O2 : Ops T2} (R : T1 -> T2 -> Prop) (R0 : R o0 o0) a0 b0 a1 b1 : (forall m m', rmat R m m' -> rmb R (a0 m) (b0 m')) -> rmat R a1 b1 -> rres (rmat R) (mat_assign a0 a1) (mat_assign b0 b1).
Proof. intros F H. unfold mat_assign. pose proof (F _ _ H) as H1. apply rif; [req|rgo|]. eapply rbind; [rgo; cbn; req|]. intros d d' Hd. cbv zeta.
  set (m1 := mkM (rows a1) (cols a1) d). set (m1' := mkM (rows b1) (cols b1) d').
  assert (E1 : rmat R m1 m1') by (apply r_mk; [req..|exact Hd]). pose proof (F _ _ E1) as G1.
  set (m2 := mkM (mrows (a0 m1)) (cols m1) d). set (m2' := mkM (mrows (b0 m1')) (cols m1') d').
  assert (E2 : rmat R m2 m2') by (apply r_mk; [req..|exact Hd]). pose proof (F _ _ E2) as G2.
  clearbody m2 m2'. cbn [rows cols]. rgo. Qed.
Lemma r_vwassign {T1 T2} {O1 : Ops T1} {O2 : Ops T2} (R : T1 -> T2 -> Prop) (R0 : R o0 o0) (p : vpath) a1 b1 a2 b2 : (forall m m', rmat R m m' -> rmb R (a1 m) (b1 m')) -> rmat R a2 b2 -> rres (rmat R) (view_assign p a1 a2) (view_assign p b1 b2).
Proof. intros; unfold view_assign; rgo. Qed.
Lemma r_eye {T1 T2} {O1 : Ops T1} {O2 : Ops T2} (R : T1 -> T2 -> Prop) (R0 : R o0 o0) a0 b0 a1 b1 a2 b2 : a0 = b0 :> nat -> a1 = b1 :> nat -> R a2 b2 -> rres (rmat R) (eye a0 a1 a2) (eye b0 b1 b2).
Proof. intros; unfold eye; rgo. Qed.
Lemma r_zeros {T1 T2} {O1 : Ops T1} {O2 : Ops T2} (R : T1 -> T2 -> Prop) (R0 : R o0 o0) a0 b0 a1 b1 : a0 = b0 :> nat -> a1 = b1 :> nat -> rres (rmat R) (zeros a0 a1) (zeros b0 b1).
Proof. intros; unfold zeros; rgo. Qed.
Lemma r_zeros_v {T1 T2} {O1 : Ops T1} {O2 : Ops T2} (R : T1 -> T2 -> Prop) (R0 : R o0 o0) a0 b0 : a0 = b0 :> nat -> rres (Forall2 R) (zeros_v a0) (zeros_v b0).
Proof. intros; unfold zeros_v; rgo. Qed.
Lemma r_ones {T1 T2} {O1 : Ops T1} {O2 : Ops T2} (R : T1 -> T2 -> Prop) (SR : same_ring O1 O2 R) a0 b0 a1 b1 : a0 = b0 :> nat -> a1 = b1 :> nat -> rres (rmat R) (ones a0 a1) (ones b0 b1).
Proof. intros; unfold ones; rgo. Qed.
Lemma r_ones_v {T1 T2} {O1 : Ops T1} {O2 : Ops T2} (R : T1 -> T2 -> Prop) (SR : same_ring O1 O2 R) a0 b0 : a0 = b0 :> nat -> rres (Forall2 R) (ones_v a0) (ones_v b0).
Proof. intros; unfold ones_v; rgo. Qed.
Lemma r_diag_m {T1 T2} {O1 : Ops T1} {O2 : Ops T2} (R : T1 -> T2 -> Prop) (R0 : R o0 o0) a0 b0 : rmb R a0 b0 -> rres (Forall2 R) (diag_m a0) (diag_m b0).
Proof. intros; unfold diag_m; rgo. Qed.
Lemma r_diag_v {T1 T2} {O1 : Ops T1} {O2 : Ops T2} (R : T1 -> T2 -> Prop) (R0 : R o0 o0) a0 b0 : Forall2 R a0 b0 -> rres (rmat R) (diag_v a0) (diag_v b0).
Proof. intros; unfold diag_v; rgo. Qed.
Lemma r_to_matrix {T1 T2} {O1 : Ops T1} {O2 : Ops T2} (R : T1 -> T2 -> Prop) (R0 : R o0 o0) a0 b0 a1 b1 : Forall2 R a0 b0 -> a1 = b1 :> bool -> rres (rmat R) (to_matrix a0 a1) (to_matrix b0 b1).
Proof. intros; unfold to_matrix; rgo. Qed.
Lemma r_to_vector {T1 T2} {O1 : Ops T1} {O2 : Ops T2} (R : T1 -> T2 -> Prop) (R0 : R o0 o0) a0 b0 : rmat R a0 b0 -> rres (Forall2 R) (to_vector a0) (to_vector b0).
Proof. intros; unfold to_vector; rgo. Qed.
Lemma r_ravel {T1 T2} {O1 : Ops T1} {O2 : Ops T2} (R : T1 -> T2 -> Prop) (R0 : R o0 o0) a0 b0 : rmb R a0 b0 -> rres (Forall2 R) (ravel a0) (ravel b0).
Proof. intros; unfold ravel; rgo. Qed.
Lemma r_vstack {T1 T2} {O1 : Ops T1} {O2 : Ops T2} (R : T1 -> T2 -> Prop) (R0 : R o0 o0) a0 b0 a1 b1 : rmb R a0 b0 -> rmb R a1 b1 -> rres (rmat R) (vstack a0 a1) (vstack b0 b1).
Proof. intros; unfold vstack; rgo. Qed.
Lemma r_hstack {T1 T2} {O1 : Ops T1} {O2 : Ops T2} (R : T1 -> T2 -> Prop) (R0 : R o0 o0) a0 b0 a1 b1 : rmb R a0 b0 -> rmb R a1 b1 -> rres (rmat R) (hstack a0 a1) (hstack b0 b1).
Proof. intros; unfold hstack; rgo. Qed.
Lemma r_vstack_v {T1 T2} {O1 : Ops T1} {O2 : Ops T2} (R : T1 -> T2 -> Prop) (R0 : R o0 o0) a0 b0 a1 b1 : rmb R a0 b0 -> Forall2 R a1 b1 -> rres (rmat R) (vstack_v a0 a1) (vstack_v b0 b1).
Proof. intros; unfold vstack_v; rgo. Qed.
Lemma r_hstack_v {T1 T2} {O1 : Ops T1} {O2 : Ops T2} (R : T1 -> T2 -> Prop) (R0 : R o0 o0) a0 b0 a1 b1 : rmb R a0 b0 -> Forall2 R a1 b1 -> rres (rmat R) (hstack_v a0 a1) (hstack_v b0 b1).
Proof. intros; unfold hstack_v; rgo. Qed.
Lemma r_concatenate {T1 T2} {O1 : Ops T1} {O2 : Ops T2} (R : T1 -> T2 -> Prop) (R0 : R o0 o0) a0 b0 a1 b1 : Forall2 R a0 b0 -> Forall2 R a1 b1 -> rres (Forall2 R) (concatenate a0 a1) (concatenate b0 b1).
Proof. intros; unfold concatenate; rgo. Qed.
Lemma r_extract {T1 T2} {O1 : Ops T1} {O2 : Ops T2} (R : T1 -> T2 -> Prop) (R0 : R o0 o0) a0 b0 a1 b1 a2 b2 a3 b3 a4 b4 : rmb R a0 b0 -> a1 = b1 :> nat -> a2 = b2 :> nat -> a3 = b3 :> nat -> a4 = b4 :> nat -> rres (rmat R) (extract a0 a1 a2 a3 a4) (extract b0 b1 b2 b3 b4).
Proof. intros; unfold extract; rgo. Qed.
Lemma r_extract_column {T1 T2} {O1 : Ops T1} {O2 : Ops T2} (R : T1 -> T2 -> Prop) (R0 : R o0 o0) a0 b0 a1 b1 a2 b2 a3 b3 : rmb R a0 b0 -> a1 = b1 :> nat -> a2 = b2 :> nat -> a3 = b3 :> nat -> rres (Forall2 R) (extract_column a0 a1 a2 a3) (extract_column b0 b1 b2 b3).
Proof. intros; unfold extract_column; rgo. Qed.
Lemma r_extract_row {T1 T2} {O1 : Ops T1} {O2 : Ops T2} (R : T1 -> T2 -> Prop) (R0 : R o0 o0) a0 b0 a1 b1 a2 b2 a3 b3 : rmb R a0 b0 -> a1 = b1 :> nat -> a2 = b2 :> nat -> a3 = b3 :> nat -> rres (Forall2 R) (extract_row a0 a1 a2 a3) (extract_row b0 b1 b2 b3).
Proof. intros; unfold extract_row; rgo. Qed.
Lemma r_vswap {T1 T2} (R : T1 -> T2 -> Prop) (p : vpath) a1 b1 a2 b2 a3 b3 a4 b4 a5 b5 : a1 = b1 :> nat -> a2 = b2 :> nat -> a3 = b3 :> nat -> a4 = b4 :> nat -> rmat R a5 b5 -> rres (rmat R) (vswap p a1 a2 a3 a4 a5) (vswap p b1 b2 b3 b4 b5).
Proof. intros; unfold vswap; rgo. Qed.
Ltac rx6 := lazymatch goal with
  | |- rres _ (mat_assign _ _) _ => eapply r_massign
  | |- rres _ (view_assign _ _ _) _ => eapply r_vwassign
  | |- rres _ (eye _ _ _) _ => eapply r_eye
  | |- rres _ (zeros _ _) _ => eapply r_zeros
  | |- rres _ (zeros_v _) _ => eapply r_zeros_v
  | |- rres _ (ones _ _) _ => eapply r_ones
  | |- rres _ (ones_v _) _ => eapply r_ones_v
  | |- rres _ (diag_m _) _ => eapply r_diag_m
  | |- rres _ (diag_v _) _ => eapply r_diag_v
  | |- rres _ (to_matrix _ _) _ => eapply r_to_matrix
  | |- rres _ (to_vector _) _ => eapply r_to_vector
  | |- rres _ (ravel _) _ => eapply r_ravel
  | |- rres _ (vstack _ _) _ => eapply r_vstack
  | |- rres _ (hstack _ _) _ => eapply r_hstack
  | |- rres _ (vstack_v _ _) _ => eapply r_vstack_v
  | |- rres _ (hstack_v _ _) _ => eapply r_hstack_v
  | |- rres _ (concatenate _ _) _ => eapply r_concatenate
  | |- rres _ (extract _ _ _ _ _) _ => eapply r_extract
  | |- rres _ (extract_column _ _ _ _) _ => eapply r_extract_column
  | |- rres _ (extract_row _ _ _ _) _ => eapply r_extract_row
  | |- rres _ (vswap _ _ _ _ _ _) _ => eapply r_vswap
  | |- _ => rx5 end.
Ltac rext ::= rx6.
Lemma r_identity {T1 T2} {O1 : Ops T1} {O2 : Ops T2} (R : T1 -> T2 -> Prop) (R0 : R o0 o0) a0 b0 a1 b1 : a0 = b0 :> nat -> R a1 b1 -> rres (rmat R) (identity a0 a1) (identity b0 b1).
Proof. intros; unfold identity; rgo. Qed.
Lemma r_swap_rows {T1 T2} (R : T1 -> T2 -> Prop) (p : vpath) a1 b1 a2 b2 a3 b3 a4 b4 a5 b5 : a1 = b1 :> nat -> a2 = b2 :> nat -> a3 = b3 :> nat -> a4 = b4 :> nat -> rmat R a5 b5 -> rres (rmat R) (swap_rows p a1 a2 a3 a4 a5) (swap_rows p b1 b2 b3 b4 b5).
Proof. intros; unfold swap_rows; rgo. Qed.
Lemma r_swap_cols {T1 T2} (R : T1 -> T2 -> Prop) (p : vpath) a1 b1 a2 b2 a3 b3 a4 b4 a5 b5 : a1 = b1 :> nat -> a2 = b2 :> nat -> a3 = b3 :> nat -> a4 = b4 :> nat -> rmat R a5 b5 -> rres (rmat R) (swap_cols p a1 a2 a3 a4 a5) (swap_cols p b1 b2 b3 b4 b5).
Proof. intros; unfold swap_cols; rgo. Qed.
Lemma r_remove_row {T1 T2} {O1 : Ops T1} {O2 : Ops T2} (R : T1 -> T2 -> Prop) (R0 : R o0 o0) a0 b0 a1 b1 : rmat R a0 b0 -> a1 = b1 :> nat -> rres (rmat R) (remove_row a0 a1) (remove_row b0 b1).
Proof. intros; unfold remove_row; rgo. Qed.
Lemma r_remove_column {T1 T2} {O1 : Ops T1} {O2 : Ops T2} (R : T1 -> T2 -> Prop) (R0 : R o0 o0) a0 b0 a1 b1 : rmat R a0 b0 -> a1 = b1 :> nat -> rres (rmat R) (remove_column a0 a1) (remove_column b0 b1).
Proof. intros; unfold remove_column; rgo. Qed.
Ltac rx7 := lazymatch goal with
  | |- rres _ (identity _ _) _ => eapply r_identity
  | |- rres _ (swap_rows _ _ _ _ _ _) _ => eapply r_swap_rows
  | |- rres _ (swap_cols _ _ _ _ _ _) _ => eapply r_swap_cols
  | |- rres _ (remove_row _ _) _ => eapply r_remove_row
  | |- rres _ (remove_column _ _) _ => eapply r_remove_column
  | |- _ => rx6 end.
Ltac rext ::= rx7.
(** Element-wise operations, with results of another pair of types. *)
Lemma r_mb_zip {T1 T2 U1 U2} {O1 : Ops U1} {O2 : Ops U2} (R : T1 -> T2 -> Prop) (Q : U1 -> U2 -> Prop) (Q0 : Q o0 o0) f g n n' A A' B B' :
  (forall x x' y y', R x x' -> R y y' -> rres Q (f x y) (g x' y')) -> n = n' -> rmb R A A' -> rmb R B B' -> rres (rmat Q) (mb_zip f n A B) (mb_zip g n' A' B').
Proof. intros; unfold mb_zip; rgo. Qed.
Lemma r_mb_map {T1 T2 U1 U2} {O1 : Ops U1} {O2 : Ops U2} (R : T1 -> T2 -> Prop) (Q : U1 -> U2 -> Prop) (Q0 : Q o0 o0) f g A A' :
  (forall x x', R x x' -> rres Q (f x) (g x')) -> rmb R A A' -> rres (rmat Q) (mb_map f A) (mb_map g A').
Proof. intros; unfold mb_map; rgo. Qed.
Lemma r_mb_izip {T1 T2} (R : T1 -> T2 -> Prop) f g p a b m m' :
  (forall x x' y y', R x x' -> R y y' -> rres R (f x y) (g x' y')) -> (forall m m', rmat R m m' -> rmb R (a m) (b m')) -> rmat R m m' -> rres (rmat R) (mb_izip f p a m) (mb_izip g p b m').
Proof. intros; unfold mb_izip; rgo. Qed.
Lemma r_mb_imap {T1 T2} (R : T1 -> T2 -> Prop) f g p m m' :
  (forall x x', R x x' -> rres R (f x) (g x')) -> rmat R m m' -> rres (rmat R) (mb_imap f p m) (mb_imap g p m').
Proof. intros; unfold mb_imap; rgo. Qed.
Lemma r_v_zip {T1 T2 U1 U2} {O1 : Ops U1} {O2 : Ops U2} (R : T1 -> T2 -> Prop) (Q : U1 -> U2 -> Prop) (Q0 : Q o0 o0) f g A A' B B' :
  (forall x x' y y', R x x' -> R y y' -> rres Q (f x y) (g x' y')) -> Forall2 R A A' -> Forall2 R B B' -> rres (Forall2 Q) (v_zip f A B) (v_zip g A' B').
Proof. intros; unfold v_zip; rgo. Qed.
Lemma r_v_map {T1 T2 U1 U2} {O1 : Ops U1} {O2 : Ops U2} (R : T1 -> T2 -> Prop) (Q : U1 -> U2 -> Prop) (Q0 : Q o0 o0) f g A A' :
  (forall x x', R x x' -> rres Q (f x) (g x')) -> Forall2 R A A' -> rres (Forall2 Q) (v_map f A) (v_map g A').
Proof. intros; unfold v_map; rgo. Qed.
Lemma r_v_izip {T1 T2} (R : T1 -> T2 -> Prop) f g a b l l' :
  (forall x x' y y', R x x' -> R y y' -> rres R (f x y) (g x' y')) -> (forall m m', Forall2 R m m' -> Forall2 R (a m) (b m')) -> Forall2 R l l' -> rres (Forall2 R) (v_izip f a l) (v_izip g b l').
Proof. intros Hf F H; unfold v_izip; pose proof (F _ _ H); rgo. Qed.
Ltac rx8 := lazymatch goal with
  | |- rres _ (mb_zip _ _ _ _ ) _ => eapply r_mb_zip
  | |- rres _ (mb_map _ _ ) _ => eapply r_mb_map
  | |- rres _ (mb_izip _ _ _ _ ) _ => eapply r_mb_izip
  | |- rres _ (mb_imap _ _ _ ) _ => eapply r_mb_imap
  | |- rres _ (v_zip _ _ _ ) _ => eapply r_v_zip
  | |- rres _ (v_map _ _ ) _ => eapply r_v_map
  | |- rres _ (v_izip _ _ _ ) _ => eapply r_v_izip
  | |- _ => rx7 end.
Ltac rext ::= rx8.
Lemma r_m_add {T1 T2} {O1 : Ops T1} {O2 : Ops T2} (R : T1 -> T2 -> Prop) (SR : same_ring O1 O2 R) a0 b0 a1 b1 : rmb R a0 b0 -> rmb R a1 b1 -> rres (rmat R) (m_add a0 a1) (m_add b0 b1).
Proof. intros; unfold m_add; rgo. Qed.
Lemma r_m_sub {T1 T2} {O1 : Ops T1} {O2 : Ops T2} (R : T1 -> T2 -> Prop) (SR : same_ring O1 O2 R) a0 b0 a1 b1 : rmb R a0 b0 -> rmb R a1 b1 -> rres (rmat R) (m_sub a0 a1) (m_sub b0 b1).
Proof. intros; unfold m_sub; rgo. Qed.
Lemma r_ew_product {T1 T2} {O1 : Ops T1} {O2 : Ops T2} (R : T1 -> T2 -> Prop) (SR : same_ring O1 O2 R) a0 b0 a1 b1 : rmb R a0 b0 -> rmb R a1 b1 -> rres (rmat R) (ew_product a0 a1) (ew_product b0 b1).
Proof. intros; unfold ew_product, ew_bin_m; rgo. Qed.
Lemma r_m_adds {T1 T2} {O1 : Ops T1} {O2 : Ops T2} (R : T1 -> T2 -> Prop) (SR : same_ring O1 O2 R) a0 b0 a1 b1 : rmb R a0 b0 -> R a1 b1 -> rres (rmat R) (m_adds a0 a1) (m_adds b0 b1).
Proof. intros; unfold m_adds; rgo. Qed.
Lemma r_m_subs {T1 T2} {O1 : Ops T1} {O2 : Ops T2} (R : T1 -> T2 -> Prop) (SR : same_ring O1 O2 R) a0 b0 a1 b1 : rmb R a0 b0 -> R a1 b1 -> rres (rmat R) (m_subs a0 a1) (m_subs b0 b1).
Proof. intros; unfold m_subs; rgo. Qed.
Lemma r_m_muls {T1 T2} {O1 : Ops T1} {O2 : Ops T2} (R : T1 -> T2 -> Prop) (SR : same_ring O1 O2 R) a0 b0 a1 b1 : rmb R a0 b0 -> R a1 b1 -> rres (rmat R) (m_muls a0 a1) (m_muls b0 b1).
Proof. intros; unfold m_muls; rgo. Qed.
Lemma r_macc {T1 T2} {O1 : Ops T1} {O2 : Ops T2} (R : T1 -> T2 -> Prop) (SR : same_ring O1 O2 R) a0 b0 a1 b1 a2 b2 a3 b3 : rmat R a0 b0 -> a1 = b1 :> nat -> a2 = b2 :> nat -> R a3 b3 -> rres (rmat R) (macc a0 a1 a2 a3) (macc b0 b1 b2 b3).
Proof. intros; unfold macc; rgo. Qed.
Lemma r_m_divs {T1 T2} {O1 : Ops T1} {O2 : Ops T2} (R : T1 -> T2 -> Prop) (SR : same_ring O1 O2 R) (SD : same_div O1 O2 R) a0 b0 a1 b1 : rmb R a0 b0 -> R a1 b1 -> rres (rmat R) (m_divs a0 a1) (m_divs b0 b1).
Proof. intros; unfold m_divs; rgo. Qed.
Lemma r_m_iadd {T1 T2} {O1 : Ops T1} {O2 : Ops T2} (R : T1 -> T2 -> Prop) (SR : same_ring O1 O2 R) (p : vpath) a1 b1 a2 b2 : (forall m m', rmat R m m' -> rmb R (a1 m) (b1 m')) -> rmat R a2 b2 -> rres (rmat R) (m_iadd p a1 a2) (m_iadd p b1 b2).
Proof. intros; unfold m_iadd; rgo. Qed.
Lemma r_m_isub {T1 T2} {O1 : Ops T1} {O2 : Ops T2} (R : T1 -> T2 -> Prop) (SR : same_ring O1 O2 R) (p : vpath) a1 b1 a2 b2 : (forall m m', rmat R m m' -> rmb R (a1 m) (b1 m')) -> rmat R a2 b2 -> rres (rmat R) (m_isub p a1 a2) (m_isub p b1 b2).
Proof. intros; unfold m_isub; rgo. Qed.
Lemma r_m_imuls {T1 T2} {O1 : Ops T1} {O2 : Ops T2} (R : T1 -> T2 -> Prop) (SR : same_ring O1 O2 R) (p : vpath) a1 b1 a2 b2 : R a1 b1 -> rmat R a2 b2 -> rres (rmat R) (m_imuls p a1 a2) (m_imuls p b1 b2).
Proof. intros; unfold m_imuls; rgo. Qed.
Lemma r_m_idivs {T1 T2} {O1 : Ops T1} {O2 : Ops T2} (R : T1 -> T2 -> Prop) (SR : same_ring O1 O2 R) (SD : same_div O1 O2 R) (p : vpath) a1 b1 a2 b2 : R a1 b1 -> rmat R a2 b2 -> rres (rmat R) (m_idivs p a1 a2) (m_idivs p b1 b2).
Proof. intros; unfold m_idivs; rgo. Qed.
Lemma r_v_add {T1 T2} {O1 : Ops T1} {O2 : Ops T2} (R : T1 -> T2 -> Prop) (SR : same_ring O1 O2 R) a0 b0 a1 b1 : Forall2 R a0 b0 -> Forall2 R a1 b1 -> rres (Forall2 R) (v_add a0 a1) (v_add b0 b1).
Proof. intros; unfold v_add; rgo. Qed.
Lemma r_v_sub {T1 T2} {O1 : Ops T1} {O2 : Ops T2} (R : T1 -> T2 -> Prop) (SR : same_ring O1 O2 R) a0 b0 a1 b1 : Forall2 R a0 b0 -> Forall2 R a1 b1 -> rres (Forall2 R) (v_sub a0 a1) (v_sub b0 b1).
Proof. intros; unfold v_sub; rgo. Qed.
Lemma r_v_mul {T1 T2} {O1 : Ops T1} {O2 : Ops T2} (R : T1 -> T2 -> Prop) (SR : same_ring O1 O2 R) a0 b0 a1 b1 : Forall2 R a0 b0 -> Forall2 R a1 b1 -> rres (Forall2 R) (v_mul a0 a1) (v_mul b0 b1).
Proof. intros; unfold v_mul; rgo. Qed.
Lemma r_v_adds {T1 T2} {O1 : Ops T1} {O2 : Ops T2} (R : T1 -> T2 -> Prop) (SR : same_ring O1 O2 R) a0 b0 a1 b1 : Forall2 R a0 b0 -> R a1 b1 -> rres (Forall2 R) (v_adds a0 a1) (v_adds b0 b1).
Proof. intros; unfold v_adds; rgo. Qed.
Lemma r_v_subs {T1 T2} {O1 : Ops T1} {O2 : Ops T2} (R : T1 -> T2 -> Prop) (SR : same_ring O1 O2 R) a0 b0 a1 b1 : Forall2 R a0 b0 -> R a1 b1 -> rres (Forall2 R) (v_subs a0 a1) (v_subs b0 b1).
Proof. intros; unfold v_subs; rgo. Qed.
Lemma r_v_muls {T1 T2} {O1 : Ops T1} {O2 : Ops T2} (R : T1 -> T2 -> Prop) (SR : same_ring O1 O2 R) a0 b0 a1 b1 : Forall2 R a0 b0 -> R a1 b1 -> rres (Forall2 R) (v_muls a0 a1) (v_muls b0 b1).
Proof. intros; unfold v_muls; rgo. Qed.
Lemma r_v_divs {T1 T2} {O1 : Ops T1} {O2 : Ops T2} (R : T1 -> T2 -> Prop) (SR : same_ring O1 O2 R) (SD : same_div O1 O2 R) a0 b0 a1 b1 : Forall2 R a0 b0 -> R a1 b1 -> rres (Forall2 R) (v_divs a0 a1) (v_divs b0 b1).
Proof. intros; unfold v_divs; rgo. Qed.
Lemma r_v_iadd {T1 T2} {O1 : Ops T1} {O2 : Ops T2} (R : T1 -> T2 -> Prop) (SR : same_ring O1 O2 R) a0 b0 a1 b1 : (forall m m', Forall2 R m m' -> Forall2 R (a0 m) (b0 m')) -> Forall2 R a1 b1 -> rres (Forall2 R) (v_iadd a0 a1) (v_iadd b0 b1).
Proof. intros; unfold v_iadd; rgo. Qed.
Lemma r_v_isub {T1 T2} {O1 : Ops T1} {O2 : Ops T2} (R : T1 -> T2 -> Prop) (SR : same_ring O1 O2 R) a0 b0 a1 b1 : (forall m m', Forall2 R m m' -> Forall2 R (a0 m) (b0 m')) -> Forall2 R a1 b1 -> rres (Forall2 R) (v_isub a0 a1) (v_isub b0 b1).
Proof. intros; unfold v_isub; rgo. Qed.
Lemma r_m_mulv {T1 T2} {O1 : Ops T1} {O2 : Ops T2} (R : T1 -> T2 -> Prop) (SR : same_ring O1 O2 R) a0 b0 a1 b1 : rmb R a0 b0 -> Forall2 R a1 b1 -> rres (Forall2 R) (m_mulv a0 a1) (m_mulv b0 b1).
Proof. intros; unfold m_mulv; rgo. Qed.
Lemma r_dot {T1 T2} {O1 : Ops T1} {O2 : Ops T2} (R : T1 -> T2 -> Prop) (SR : same_ring O1 O2 R) a0 b0 a1 b1 : Forall2 R a0 b0 -> Forall2 R a1 b1 -> rres R (dot a0 a1) (dot b0 b1).
Proof. intros; unfold dot; rgo. Qed.
Lemma r_sum {T1 T2} {O1 : Ops T1} {O2 : Ops T2} (R : T1 -> T2 -> Prop) (SR : same_ring O1 O2 R) a0 b0 : Forall2 R a0 b0 -> rres R (sum a0) (sum b0).
Proof. intros; unfold sum; rgo. Qed.
Lemma r_trace {T1 T2} {O1 : Ops T1} {O2 : Ops T2} (R : T1 -> T2 -> Prop) (SR : same_ring O1 O2 R) a0 b0 : rmb R a0 b0 -> rres R (trace a0) (trace b0).
Proof. intros; unfold trace; rgo. Qed.
Lemma r_linear_combination {T1 T2} {O1 : Ops T1} {O2 : Ops T2} (R : T1 -> T2 -> Prop) (SR : same_ring O1 O2 R) a0 b0 a1 b1 a2 b2 a3 b3 : rmb R a0 b0 -> R a1 b1 -> rmb R a2 b2 -> R a3 b3 -> rres (rmat R) (linear_combination a0 a1 a2 a3) (linear_combination b0 b1 b2 b3).
Proof. intros; unfold linear_combination, ew_bin_m; rgo. Qed.
Lemma r_inner_product {T1 T2} {O1 : Ops T1} {O2 : Ops T2} (R : T1 -> T2 -> Prop) (SR : same_ring O1 O2 R) a0 b0 a1 b1 a2 b2 a3 b3 a4 b4 a5 b5 : Forall2 R a0 b0 -> Forall2 R a1 b1 -> a2 = b2 :> nat -> a3 = b3 :> nat -> a4 = b4 :> nat -> R a5 b5 -> rres R (inner_product a0 a1 a2 a3 a4 a5) (inner_product b0 b1 b2 b3 b4 b5).
Proof. intros; unfold inner_product; rgo. Qed.
Lemma r_accumulate {T1 T2} {O1 : Ops T1} {O2 : Ops T2} (R : T1 -> T2 -> Prop) (SR : same_ring O1 O2 R) a0 b0 a1 b1 a2 b2 a3 b3 : Forall2 R a0 b0 -> a1 = b1 :> nat -> a2 = b2 :> nat -> R a3 b3 -> rres R (accumulate a0 a1 a2 a3) (accumulate b0 b1 b2 b3).
Proof. intros; unfold accumulate; rgo. Qed.
Ltac rx9 := lazymatch goal with
  | |- rres _ (m_add _ _) _ => eapply r_m_add
  | |- rres _ (m_sub _ _) _ => eapply r_m_sub
  | |- rres _ (ew_product _ _) _ => eapply r_ew_product
  | |- rres _ (m_adds _ _) _ => eapply r_m_adds
  | |- rres _ (m_subs _ _) _ => eapply r_m_subs
  | |- rres _ (m_muls _ _) _ => eapply r_m_muls
  | |- rres _ (macc _ _ _ _) _ => eapply r_macc
  | |- rres _ (m_divs _ _) _ => eapply r_m_divs
  | |- rres _ (m_iadd _ _ _) _ => eapply r_m_iadd
  | |- rres _ (m_isub _ _ _) _ => eapply r_m_isub
  | |- rres _ (m_imuls _ _ _) _ => eapply r_m_imuls
  | |- rres _ (m_idivs _ _ _) _ => eapply r_m_idivs
  | |- rres _ (v_add _ _) _ => eapply r_v_add
  | |- rres _ (v_sub _ _) _ => eapply r_v_sub
  | |- rres _ (v_mul _ _) _ => eapply r_v_mul
  | |- rres _ (v_adds _ _) _ => eapply r_v_adds
  | |- rres _ (v_subs _ _) _ => eapply r_v_subs
  | |- rres _ (v_muls _ _) _ => eapply r_v_muls
  | |- rres _ (v_divs _ _) _ => eapply r_v_divs
  | |- rres _ (v_iadd _ _) _ => eapply r_v_iadd
  | |- rres _ (v_isub _ _) _ => eapply r_v_isub
  | |- rres _ (m_mulv _ _) _ => eapply r_m_mulv
  | |- rres _ (dot _ _) _ => eapply r_dot
  | |- rres _ (sum _) _ => eapply r_sum
  | |- rres _ (trace _) _ => eapply r_trace
  | |- rres _ (linear_combination _ _ _ _) _ => eapply r_linear_combination
  | |- rres _ (inner_product _ _ _ _ _ _) _ => eapply r_inner_product
  | |- rres _ (accumulate _ _ _ _) _ => eapply r_accumulate
  | |- _ => rx8 end.
Ltac rext ::= rx9.
Lemma r_mul_loop {T1 T2} {O1 : Ops T1} {O2 : Ops T2} (R : T1 -> T2 -> Prop) (SR : same_ring O1 O2 R) a0 b0 a1 b1 a2 b2 : rmb R a0 b0 -> rmb R a1 b1 -> rmat R a2 b2 -> rres (rmat R) (mul_loop a0 a1 a2) (mul_loop b0 b1 b2).
Proof. intros; unfold mul_loop; rgo. Qed.
Lemma r_m_smul {T1 T2} {O1 : Ops T1} {O2 : Ops T2} (R : T1 -> T2 -> Prop) (SR : same_ring O1 O2 R) a0 b0 a1 b1 : R a0 b0 -> rmb R a1 b1 -> rres (rmat R) (m_smul a0 a1) (m_smul b0 b1).
Proof. intros; unfold m_smul; rgo. Qed.
Lemma r_dot_mv {T1 T2} {O1 : Ops T1} {O2 : Ops T2} (R : T1 -> T2 -> Prop) (SR : same_ring O1 O2 R) a0 b0 a1 b1 : rmb R a0 b0 -> Forall2 R a1 b1 -> rres (Forall2 R) (dot_mv a0 a1) (dot_mv b0 b1).
Proof. intros; unfold dot_mv; rgo. Qed.
Lemma r_projection {T1 T2} {O1 : Ops T1} {O2 : Ops T2} (R : T1 -> T2 -> Prop) (SR : same_ring O1 O2 R) (SD : same_div O1 O2 R) a0 b0 a1 b1 : Forall2 R a0 b0 -> Forall2 R a1 b1 -> rres (Forall2 R) (projection a0 a1) (projection b0 b1).
Proof. intros; unfold projection; rgo. Qed.
Ltac rx10 := lazymatch goal with
  | |- rres _ (mul_loop _ _ _) _ => eapply r_mul_loop
  | |- rres _ (m_smul _ _) _ => eapply r_m_smul
  | |- rres _ (dot_mv _ _) _ => eapply r_dot_mv
  | |- rres _ (projection _ _) _ => eapply r_projection
  | |- _ => rx9 end.
Ltac rext ::= rx10.
Lemma r_m_mul {T1 T2} {O1 : Ops T1} {O2 : Ops T2} (R : T1 -> T2 -> Prop) (SR : same_ring O1 O2 R) a0 b0 a1 b1 : rmb R a0 b0 -> rmb R a1 b1 -> rres (rmat R) (m_mul a0 a1) (m_mul b0 b1).
Proof. intros; unfold m_mul; rgo. Qed.
Lemma r_m_imul {T1 T2} {O1 : Ops T1} {O2 : Ops T2} (R : T1 -> T2 -> Prop) (SR : same_ring O1 O2 R) (p : vpath) a1 b1 a2 b2 : (forall m m', rmat R m m' -> rmb R (a1 m) (b1 m')) -> rmat R a2 b2 -> rres (rmat R) (m_imul p a1 a2) (m_imul p b1 b2).
Proof. intros; unfold m_imul; rgo. Qed.
Ltac rx11 := lazymatch goal with
  | |- rres _ (m_mul _ _) _ => eapply r_m_mul
  | |- rres _ (m_imul _ _ _) _ => eapply r_m_imul
  | |- _ => rx10 end.
Ltac rext ::= rx11.
Lemma r_powm {T1 T2} {O1 : Ops T1} {O2 : Ops T2} (R : T1 -> T2 -> Prop) (SR : same_ring O1 O2 R) a0 b0 a1 b1 : rmb R a0 b0 -> a1 = b1 :> nat -> rres (rmat R) (powm a0 a1) (powm b0 b1).
Proof. intros; unfold powm; rgo. Qed.
Lemma r_tmap {T1 T2} {O1 : Ops T1} {O2 : Ops T2} (R : T1 -> T2 -> Prop) (R0 : R o0 o0) a0 b0 a1 b1 : (forall x x', R x x' -> R (a0 x) (b0 x')) -> rmb R a1 b1 -> rres (rmat R) (tmap a0 a1) (tmap b0 b1).
Proof. intros; unfold tmap; rgo. Qed.
Ltac rx12 := lazymatch goal with
  | |- rres _ (powm _ _) _ => eapply r_powm
  | |- rres _ (tmap _ _) _ => eapply r_tmap
  | |- _ => rx11 end.
Ltac rext ::= rx12.
Lemma r_transpose {T1 T2} {O1 : Ops T1} {O2 : Ops T2} (R : T1 -> T2 -> Prop) (R0 : R o0 o0) a0 b0 : rmb R a0 b0 -> rres (rmat R) (transpose a0) (transpose b0).
Proof. intros; unfold transpose; rgo. Qed.
Lemma r_cofactor {T1 T2} {O1 : Ops T1} {O2 : Ops T2} (R : T1 -> T2 -> Prop) (R0 : R o0 o0) a0 b0 a1 b1 a2 b2 : rmb R a0 b0 -> a1 = b1 :> nat -> a2 = b2 :> nat -> rres (rmat R) (cofactor a0 a1 a2) (cofactor b0 b1 b2).
Proof. intros; unfold cofactor; rgo. Qed.
Ltac rx13 := lazymatch goal with
  | |- rres _ (transpose _) _ => eapply r_transpose
  | |- rres _ (cofactor _ _ _) _ => eapply r_cofactor
  | |- _ => rx12 end.
Ltac rext ::= rx13.
Lemma r_m_eq {T1 T2} {O1 : Ops T1} {O2 : Ops T2} (R : T1 -> T2 -> Prop) (SR : same_ring O1 O2 R) (SO : same_order O1 O2 R) a0 b0 a1 b1 : rmb R a0 b0 -> rmb R a1 b1 -> rres (rmat eq) (m_eq a0 a1) (m_eq b0 b1).
Proof. intros; unfold m_eq; rgo. Qed.
Lemma r_m_ne {T1 T2} {O1 : Ops T1} {O2 : Ops T2} (R : T1 -> T2 -> Prop) (SR : same_ring O1 O2 R) (SO : same_order O1 O2 R) a0 b0 a1 b1 : rmb R a0 b0 -> rmb R a1 b1 -> rres (rmat eq) (m_ne a0 a1) (m_ne b0 b1).
Proof. intros; unfold m_ne; rgo. Qed.
Lemma r_m_gt {T1 T2} {O1 : Ops T1} {O2 : Ops T2} (R : T1 -> T2 -> Prop) (SR : same_ring O1 O2 R) (SO : same_order O1 O2 R) a0 b0 a1 b1 : rmb R a0 b0 -> rmb R a1 b1 -> rres (rmat eq) (m_gt a0 a1) (m_gt b0 b1).
Proof. intros; unfold m_gt; rgo. Qed.
Lemma r_m_ge {T1 T2} {O1 : Ops T1} {O2 : Ops T2} (R : T1 -> T2 -> Prop) (SR : same_ring O1 O2 R) (SO : same_order O1 O2 R) a0 b0 a1 b1 : rmb R a0 b0 -> rmb R a1 b1 -> rres (rmat eq) (m_ge a0 a1) (m_ge b0 b1).
Proof. intros; unfold m_ge; rgo. Qed.
Lemma r_m_lt {T1 T2} {O1 : Ops T1} {O2 : Ops T2} (R : T1 -> T2 -> Prop) (SR : same_ring O1 O2 R) (SO : same_order O1 O2 R) a0 b0 a1 b1 : rmb R a0 b0 -> rmb R a1 b1 -> rres (rmat eq) (m_lt a0 a1) (m_lt b0 b1).
Proof. intros; unfold m_lt; rgo. Qed.
Lemma r_m_le {T1 T2} {O1 : Ops T1} {O2 : Ops T2} (R : T1 -> T2 -> Prop) (SR : same_ring O1 O2 R) (SO : same_order O1 O2 R) a0 b0 a1 b1 : rmb R a0 b0 -> rmb R a1 b1 -> rres (rmat eq) (m_le a0 a1) (m_le b0 b1).
Proof. intros; unfold m_le; rgo. Qed.
Lemma r_m_eqs {T1 T2} {O1 : Ops T1} {O2 : Ops T2} (R : T1 -> T2 -> Prop) (SR : same_ring O1 O2 R) (SO : same_order O1 O2 R) a0 b0 a1 b1 : rmb R a0 b0 -> R a1 b1 -> rres (rmat eq) (m_eqs a0 a1) (m_eqs b0 b1).
Proof. intros; unfold m_eqs; rgo. Qed.
Lemma r_m_nes {T1 T2} {O1 : Ops T1} {O2 : Ops T2} (R : T1 -> T2 -> Prop) (SR : same_ring O1 O2 R) (SO : same_order O1 O2 R) a0 b0 a1 b1 : rmb R a0 b0 -> R a1 b1 -> rres (rmat eq) (m_nes a0 a1) (m_nes b0 b1).
Proof. intros; unfold m_nes; rgo. Qed.
Lemma r_m_gts {T1 T2} {O1 : Ops T1} {O2 : Ops T2} (R : T1 -> T2 -> Prop) (SR : same_ring O1 O2 R) (SO : same_order O1 O2 R) a0 b0 a1 b1 : rmb R a0 b0 -> R a1 b1 -> rres (rmat eq) (m_gts a0 a1) (m_gts b0 b1).
Proof. intros; unfold m_gts; rgo. Qed.
Lemma r_m_ges {T1 T2} {O1 : Ops T1} {O2 : Ops T2} (R : T1 -> T2 -> Prop) (SR : same_ring O1 O2 R) (SO : same_order O1 O2 R) a0 b0 a1 b1 : rmb R a0 b0 -> R a1 b1 -> rres (rmat eq) (m_ges a0 a1) (m_ges b0 b1).
Proof. intros; unfold m_ges; rgo. Qed.
Lemma r_m_lts {T1 T2} {O1 : Ops T1} {O2 : Ops T2} (R : T1 -> T2 -> Prop) (SR : same_ring O1 O2 R) (SO : same_order O1 O2 R) a0 b0 a1 b1 : rmb R a0 b0 -> R a1 b1 -> rres (rmat eq) (m_lts a0 a1) (m_lts b0 b1).
Proof. intros; unfold m_lts; rgo. Qed.
Lemma r_m_les {T1 T2} {O1 : Ops T1} {O2 : Ops T2} (R : T1 -> T2 -> Prop) (SR : same_ring O1 O2 R) (SO : same_order O1 O2 R) a0 b0 a1 b1 : rmb R a0 b0 -> R a1 b1 -> rres (rmat eq) (m_les a0 a1) (m_les b0 b1).
Proof. intros; unfold m_les; rgo. Qed.
Lemma r_v_eq {T1 T2} {O1 : Ops T1} {O2 : Ops T2} (R : T1 -> T2 -> Prop) (SR : same_ring O1 O2 R) (SO : same_order O1 O2 R) a0 b0 a1 b1 : Forall2 R a0 b0 -> Forall2 R a1 b1 -> rres (Forall2 eq) (v_eq a0 a1) (v_eq b0 b1).
Proof. intros; unfold v_eq; rgo. Qed.
Lemma r_v_ne {T1 T2} {O1 : Ops T1} {O2 : Ops T2} (R : T1 -> T2 -> Prop) (SR : same_ring O1 O2 R) (SO : same_order O1 O2 R) a0 b0 a1 b1 : Forall2 R a0 b0 -> Forall2 R a1 b1 -> rres (Forall2 eq) (v_ne a0 a1) (v_ne b0 b1).
Proof. intros; unfold v_ne; rgo. Qed.
Lemma r_v_eqs {T1 T2} {O1 : Ops T1} {O2 : Ops T2} (R : T1 -> T2 -> Prop) (SR : same_ring O1 O2 R) (SO : same_order O1 O2 R) a0 b0 a1 b1 : Forall2 R a0 b0 -> R a1 b1 -> rres (Forall2 eq) (v_eqs a0 a1) (v_eqs b0 b1).
Proof. intros; unfold v_eqs; rgo. Qed.
Lemma r_v_nes {T1 T2} {O1 : Ops T1} {O2 : Ops T2} (R : T1 -> T2 -> Prop) (SR : same_ring O1 O2 R) (SO : same_order O1 O2 R) a0 b0 a1 b1 : Forall2 R a0 b0 -> R a1 b1 -> rres (Forall2 eq) (v_nes a0 a1) (v_nes b0 b1).
Proof. intros; unfold v_nes; rgo. Qed.
Lemma r_is_symmetric {T1 T2} {O1 : Ops T1} {O2 : Ops T2} (R : T1 -> T2 -> Prop) (SR : same_ring O1 O2 R) (SO : same_order O1 O2 R) a0 b0 : rmb R a0 b0 -> rres eq (is_symmetric a0) (is_symmetric b0).
Proof. intros; unfold is_symmetric; rgo. Qed.
Lemma r_is_skew_symmetric {T1 T2} {O1 : Ops T1} {O2 : Ops T2} (R : T1 -> T2 -> Prop) (SR : same_ring O1 O2 R) (SO : same_order O1 O2 R) a0 b0 : rmb R a0 b0 -> rres eq (is_skew_symmetric a0) (is_skew_symmetric b0).
Proof. intros; unfold is_skew_symmetric; rgo. Qed.
Lemma r_is_diagonal {T1 T2} {O1 : Ops T1} {O2 : Ops T2} (R : T1 -> T2 -> Prop) (SR : same_ring O1 O2 R) (SO : same_order O1 O2 R) a0 b0 : rmb R a0 b0 -> rres eq (is_diagonal a0) (is_diagonal b0).
Proof. intros; unfold is_diagonal; rgo. Qed.
Lemma r_is_lower_triangular {T1 T2} {O1 : Ops T1} {O2 : Ops T2} (R : T1 -> T2 -> Prop) (SR : same_ring O1 O2 R) (SO : same_order O1 O2 R) a0 b0 : rmb R a0 b0 -> rres eq (is_lower_triangular a0) (is_lower_triangular b0).
Proof. intros; unfold is_lower_triangular; rgo. Qed.
Lemma r_is_upper_triangular {T1 T2} {O1 : Ops T1} {O2 : Ops T2} (R : T1 -> T2 -> Prop) (SR : same_ring O1 O2 R) (SO : same_order O1 O2 R) a0 b0 : rmb R a0 b0 -> rres eq (is_upper_triangular a0) (is_upper_triangular b0).
Proof. intros; unfold is_upper_triangular; rgo. Qed.
Lemma r_all_m {T1 T2} {O1 : Ops T1} {O2 : Ops T2} (R : T1 -> T2 -> Prop) (SR : same_ring O1 O2 R) (SO : same_order O1 O2 R) a0 b0 : rmb R a0 b0 -> rres eq (all_m a0) (all_m b0).
Proof. intros; unfold all_m; rgo. Qed.
Lemma r_all_v {T1 T2} {O1 : Ops T1} {O2 : Ops T2} (R : T1 -> T2 -> Prop) (SR : same_ring O1 O2 R) (SO : same_order O1 O2 R) a0 b0 : Forall2 R a0 b0 -> rres eq (all_v a0) (all_v b0).
Proof. intros; unfold all_v; rgo. Qed.
Lemma r_all_close_v {T1 T2} {O1 : Ops T1} {O2 : Ops T2} (R : T1 -> T2 -> Prop) (SR : same_ring O1 O2 R) (SO : same_order O1 O2 R) a0 b0 a1 b1 a2 b2 : Forall2 R a0 b0 -> Forall2 R a1 b1 -> R a2 b2 -> rres eq (all_close_v a0 a1 a2) (all_close_v b0 b1 b2).
Proof. intros; unfold all_close_v; rgo. Qed.
Lemma r_all_close {T1 T2} {O1 : Ops T1} {O2 : Ops T2} (R : T1 -> T2 -> Prop) (SR : same_ring O1 O2 R) (SO : same_order O1 O2 R) a0 b0 a1 b1 a2 b2 : rmb R a0 b0 -> rmb R a1 b1 -> R a2 b2 -> rres eq (all_close a0 a1 a2) (all_close b0 b1 b2).
Proof. intros; unfold all_close; rgo. Qed.
Lemma r_best_v {T1 T2} {O1 : Ops T1} {O2 : Ops T2} (R : T1 -> T2 -> Prop) (R0 : R o0 o0) f g a b : (forall x x' y y', R x x' -> R y y' -> f x y = g x' y') -> Forall2 R a b -> rres (rpair R eq) (best_v f a) (best_v g b).
Proof. intros; unfold best_v; rgo. Qed.
Lemma r_best_m {T1 T2} {O1 : Ops T1} {O2 : Ops T2} (R : T1 -> T2 -> Prop) (R0 : R o0 o0) f g a b : (forall x x' y y', R x x' -> R y y' -> f x y = g x' y') -> rmat R a b -> rres (Forall2 R) (best_m f a) (best_m g b).
Proof. intros; unfold best_m; rgo. Qed.
Lemma r_some {A} (x y : Res (option A)) : rres eq x y -> rres eq (bind x (fun o => Ok (match o with Some _ => true | None => false end))) (bind y (fun o => Ok (match o with Some _ => true | None => false end))).
Proof. intros H. eapply rbind; [exact H|]. now intros a b <-. Qed.
Lemma r_code (x y : Res (option Z)) : rres eq x y -> rres eq (bind x (fun o => Ok (match o with Some z => z | None => 0%Z end))) (bind y (fun o => Ok (match o with Some z => z | None => 0%Z end))).
Proof. intros H. eapply rbind; [exact H|]. now intros a b <-. Qed.
Ltac rx14 := lazymatch goal with
  | |- rres _ (m_eq _ _) _ => eapply r_m_eq
  | |- rres _ (m_ne _ _) _ => eapply r_m_ne
  | |- rres _ (m_gt _ _) _ => eapply r_m_gt
  | |- rres _ (m_ge _ _) _ => eapply r_m_ge
  | |- rres _ (m_lt _ _) _ => eapply r_m_lt
  | |- rres _ (m_le _ _) _ => eapply r_m_le
  | |- rres _ (m_eqs _ _) _ => eapply r_m_eqs
  | |- rres _ (m_nes _ _) _ => eapply r_m_nes
  | |- rres _ (m_gts _ _) _ => eapply r_m_gts
  | |- rres _ (m_ges _ _) _ => eapply r_m_ges
  | |- rres _ (m_lts _ _) _ => eapply r_m_lts
  | |- rres _ (m_les _ _) _ => eapply r_m_les
  | |- rres _ (v_eq _ _) _ => eapply r_v_eq
  | |- rres _ (v_ne _ _) _ => eapply r_v_ne
  | |- rres _ (v_eqs _ _) _ => eapply r_v_eqs
  | |- rres _ (v_nes _ _) _ => eapply r_v_nes
  | |- rres _ (is_symmetric _) _ => eapply r_is_symmetric
  | |- rres _ (is_skew_symmetric _) _ => eapply r_is_skew_symmetric
  | |- rres _ (is_diagonal _) _ => eapply r_is_diagonal
  | |- rres _ (is_lower_triangular _) _ => eapply r_is_lower_triangular
  | |- rres _ (is_upper_triangular _) _ => eapply r_is_upper_triangular
  | |- rres _ (all_m _) _ => eapply r_all_m
  | |- rres _ (all_v _) _ => eapply r_all_v
  | |- rres _ (all_close_v _ _ _) _ => eapply r_all_close_v
  | |- rres _ (all_close _ _ _) _ => eapply r_all_close
  | |- rres _ (best_v _ _) _ => eapply r_best_v
  | |- rres _ (best_m _ _) _ => eapply r_best_m
  | |- _ => rx13 end.
Ltac rext ::= rx14.
Lemma r_any_m {T1 T2} {O1 : Ops T1} {O2 : Ops T2} (R : T1 -> T2 -> Prop) (SR : same_ring O1 O2 R) (SO : same_order O1 O2 R) a0 b0 : rmb R a0 b0 -> rres eq (any_m a0) (any_m b0).
Proof. intros; unfold any_m; apply r_some; rgo. Qed.
Lemma r_any_v {T1 T2} {O1 : Ops T1} {O2 : Ops T2} (R : T1 -> T2 -> Prop) (SR : same_ring O1 O2 R) (SO : same_order O1 O2 R) a0 b0 : Forall2 R a0 b0 -> rres eq (any_v a0) (any_v b0).
Proof. intros; unfold any_v; apply r_some; rgo. Qed.
Lemma r_compare {T1 T2} {O1 : Ops T1} {O2 : Ops T2} (R : T1 -> T2 -> Prop) (SR : same_ring O1 O2 R) (SO : same_order O1 O2 R) a0 b0 a1 b1 : rmb R a0 b0 -> rmb R a1 b1 -> rres eq (compare a0 a1) (compare b0 b1).
Proof. intros; unfold compare; apply rif; [req|exact I|apply r_code; rgo]. Qed.
Lemma r_compare_v {T1 T2} {O1 : Ops T1} {O2 : Ops T2} (R : T1 -> T2 -> Prop) (SR : same_ring O1 O2 R) (SO : same_order O1 O2 R) a0 b0 a1 b1 : Forall2 R a0 b0 -> Forall2 R a1 b1 -> rres eq (compare_v a0 a1) (compare_v b0 b1).
Proof. intros; unfold compare_v; apply rif; [req|exact I|apply r_code; rgo]. Qed.
Lemma r_min_v {T1 T2} {O1 : Ops T1} {O2 : Ops T2} (R : T1 -> T2 -> Prop) (SR : same_ring O1 O2 R) (SO : same_order O1 O2 R) a0 b0 : Forall2 R a0 b0 -> rres (rpair R eq) (min_v a0) (min_v b0).
Proof. intros; unfold min_v; rgo. Qed.
Lemma r_max_v {T1 T2} {O1 : Ops T1} {O2 : Ops T2} (R : T1 -> T2 -> Prop) (SR : same_ring O1 O2 R) (SO : same_order O1 O2 R) a0 b0 : Forall2 R a0 b0 -> rres (rpair R eq) (max_v a0) (max_v b0).
Proof. intros; unfold max_v; rgo. Qed.
Lemma r_min_m {T1 T2} {O1 : Ops T1} {O2 : Ops T2} (R : T1 -> T2 -> Prop) (SR : same_ring O1 O2 R) (SO : same_order O1 O2 R) a0 b0 : rmat R a0 b0 -> rres (Forall2 R) (min_m a0) (min_m b0).
Proof. intros; unfold min_m; rgo. Qed.
Lemma r_max_m {T1 T2} {O1 : Ops T1} {O2 : Ops T2} (R : T1 -> T2 -> Prop) (SR : same_ring O1 O2 R) (SO : same_order O1 O2 R) a0 b0 : rmat R a0 b0 -> rres (Forall2 R) (max_m a0) (max_m b0).
Proof. intros; unfold max_m; rgo. Qed.
Lemma r_flatnonzero {T1 T2} {O1 : Ops T1} {O2 : Ops T2} (R : T1 -> T2 -> Prop) (SR : same_ring O1 O2 R) (SO : same_order O1 O2 R) a0 b0 : rmat R a0 b0 -> rres eq (flatnonzero a0) (flatnonzero b0).
Proof. intros; unfold flatnonzero; cbv zeta; apply (rfor eq); rgo. Qed.
Lemma r_linspace {T1 T2} {O1 : Ops T1} {O2 : Ops T2} (R : T1 -> T2 -> Prop) (SR : same_ring O1 O2 R) (SD : same_div O1 O2 R) (SO : same_order O1 O2 R) a0 b0 a1 b1 a2 b2 : R a0 b0 -> R a1 b1 -> a2 = b2 :> nat -> rres (Forall2 R) (linspace a0 a1 a2) (linspace b0 b1 b2).
Proof. intros; unfold linspace; rgo. Qed.
Ltac rx15 := lazymatch goal with
  | |- rres _ (any_m _) _ => eapply r_any_m
  | |- rres _ (any_v _) _ => eapply r_any_v
  | |- rres _ (compare _ _) _ => eapply r_compare
  | |- rres _ (compare_v _ _) _ => eapply r_compare_v
  | |- rres _ (min_v _) _ => eapply r_min_v
  | |- rres _ (max_v _) _ => eapply r_max_v
  | |- rres _ (min_m _) _ => eapply r_min_m
  | |- rres _ (max_m _) _ => eapply r_max_m
  | |- rres _ (flatnonzero _) _ => eapply r_flatnonzero
  | |- rres _ (linspace _ _ _) _ => eapply r_linspace
  | |- _ => rx14 end.
Ltac rext ::= rx15.
Lemma r_vector_length {T1 T2} {O1 : Ops T1} {O2 : Ops T2} (R : T1 -> T2 -> Prop) (SR : same_ring O1 O2 R) a0 b0 a1 b1 a2 b2 a3 b3 a4 b4 a5 b5 : (forall x x', R x x' -> R (a0 x) (b0 x')) -> (forall x x', R x x' -> R (a1 x) (b1 x')) -> rmb R a2 b2 -> a3 = b3 :> nat -> a4 = b4 :> nat -> a5 = b5 :> nat -> rres R (vector_length a0 a1 a2 a3 a4 a5) (vector_length b0 b1 b2 b3 b4 b5).
Proof. intros; unfold vector_length; rgo. Qed.
Lemma r_square_norm_v {T1 T2} {O1 : Ops T1} {O2 : Ops T2} (R : T1 -> T2 -> Prop) (SR : same_ring O1 O2 R) a0 b0 a1 b1 a2 b2 : (forall x x', R x x' -> R (a0 x) (b0 x')) -> (forall x x', R x x' -> R (a1 x) (b1 x')) -> Forall2 R a2 b2 -> rres R (square_norm_v a0 a1 a2) (square_norm_v b0 b1 b2).
Proof. intros; unfold square_norm_v; rgo. Qed.
Lemma r_square_norm_m {T1 T2} {O1 : Ops T1} {O2 : Ops T2} (R : T1 -> T2 -> Prop) (SR : same_ring O1 O2 R) a0 b0 a1 b1 a2 b2 : (forall x x', R x x' -> R (a0 x) (b0 x')) -> (forall x x', R x x' -> R (a1 x) (b1 x')) -> rmb R a2 b2 -> rres R (square_norm_m a0 a1 a2) (square_norm_m b0 b1 b2).
Proof. intros; unfold square_norm_m; rgo. Qed.
Lemma r_infinity_norm_v {T1 T2} {O1 : Ops T1} {O2 : Ops T2} (R : T1 -> T2 -> Prop) (SR : same_ring O1 O2 R) (SO : same_order O1 O2 R) a0 b0 a1 b1 : (forall x x', R x x' -> R (a0 x) (b0 x')) -> Forall2 R a1 b1 -> rres R (infinity_norm_v a0 a1) (infinity_norm_v b0 b1).
Proof. intros; unfold infinity_norm_v; rgo. Qed.
Lemma r_infinity_norm_m {T1 T2} {O1 : Ops T1} {O2 : Ops T2} (R : T1 -> T2 -> Prop) (SR : same_ring O1 O2 R) (SO : same_order O1 O2 R) a0 b0 a1 b1 : (forall x x', R x x' -> R (a0 x) (b0 x')) -> rmb R a1 b1 -> rres R (infinity_norm_m a0 a1) (infinity_norm_m b0 b1).
Proof. intros; unfold infinity_norm_m; rgo. Qed.
Lemma r_sub_norm {T1 T2} {O1 : Ops T1} {O2 : Ops T2} (R : T1 -> T2 -> Prop) (SR : same_ring O1 O2 R) a0 b0 a1 b1 a2 b2 : (forall x x', R x x' -> R (a0 x) (b0 x')) -> (forall x x', R x x' -> R (a1 x) (b1 x')) -> rmb R a2 b2 -> rres R (sub_norm a0 a1 a2) (sub_norm b0 b1 b2).
Proof. intros; unfold sub_norm; rgo. Qed.
Lemma r_log2_loop {T1 T2} {O1 : Ops T1} {O2 : Ops T2} (R : T1 -> T2 -> Prop) (SR : same_ring O1 O2 R) (SO : same_order O1 O2 R) h h' n it : R h h' -> forall x x' s s', R x x' -> R s s' ->
  rres (rpair eq R) (log2_loop h n x s it) (log2_loop h' n x' s' it).
Proof. intros Hh. revert it. induction n as [|n IH]; intros it x x' s s' Hx Hs; cbn [log2_loop]; rgo. Qed.
Ltac rx16 := lazymatch goal with
  | |- rres _ (vector_length _ _ _ _ _ _) _ => eapply r_vector_length
  | |- rres _ (square_norm_v _ _ _) _ => eapply r_square_norm_v
  | |- rres _ (square_norm_m _ _ _) _ => eapply r_square_norm_m
  | |- rres _ (infinity_norm_v _ _) _ => eapply r_infinity_norm_v
  | |- rres _ (infinity_norm_m _ _) _ => eapply r_infinity_norm_m
  | |- rres _ (sub_norm _ _ _) _ => eapply r_sub_norm
  | |- rres _ (log2_loop _ _ _ _ _) _ => eapply r_log2_loop
  | |- _ => rx15 end.
Ltac rext ::= rx16.
Lemma r_log2_ceil {T1 T2} {O1 : Ops T1} {O2 : Ops T2} (R : T1 -> T2 -> Prop) (SR : same_ring O1 O2 R) (SO : same_order O1 O2 R) a0 b0 a1 b1 a2 b2 a3 b3 : (forall x x', R x x' -> R (a0 x) (b0 x')) -> R a1 b1 -> a2 = b2 :> nat -> rmb R a3 b3 -> rres (rpair eq R) (log2_ceil a0 a1 a2 a3) (log2_ceil b0 b1 b2 b3).
Proof. intros; unfold log2_ceil; rgo. Qed.
Lemma r_det_elim {T1 T2} {O1 : Ops T1} {O2 : Ops T2} (R : T1 -> T2 -> Prop) (SR : same_ring O1 O2 R) (SD : same_div O1 O2 R) a0 b0 a1 b1 a2 b2 a3 b3 : a0 = b0 :> nat -> a1 = b1 :> nat -> R a2 b2 -> rmat R a3 b3 -> rres (rmat R) (det_elim a0 a1 a2 a3) (det_elim b0 b1 b2 b3).
Proof. intros; unfold det_elim; rgo. Qed.
Lemma r_det_pivot {T1 T2} {O1 : Ops T1} {O2 : Ops T2} (R : T1 -> T2 -> Prop) (SR : same_ring O1 O2 R) (SO : same_order O1 O2 R) c A A' d d' : rmat R A A' -> R d d' ->
  rres (fun o o' => match o, o' with Some x, Some y => rpair (rmat R) R x y | None, None => True | _, _ => False end) (det_pivot c A d) (det_pivot c A' d').
Proof.
  intros HA Hd. unfold det_pivot. eapply rbind; [rgo|]. intros x x' Hx. apply rif; [rgo| |now split].
  eapply (rbind eq); [rgo|]. intros o o' <-. destruct o as [k|]; [|exact I].
  eapply rbind; [eapply r_swap_rows; [reflexivity..|exact HA]|]. intros B B' HB. split; cbn [fst snd]; rgo.
Qed.
Lemma r_det_loop {T1 T2} {O1 : Ops T1} {O2 : Ops T2} (R : T1 -> T2 -> Prop) (SR : same_ring O1 O2 R) (SD : same_div O1 O2 R) (SO : same_order O1 O2 R) t n c A A' d d' : rmat R A A' -> R d d' ->
  rres R (det_loop t n c A d) (det_loop t n c A' d').
Proof.
  revert c A A' d d'. induction t as [|t IH]; intros c A A' d d' HA Hd; cbn [det_loop]; [exact Hd|].
  eapply rbind; [eapply (r_det_pivot R SR SO); eassumption|]. intros [[B x]|] [[B' x']|] HB; try contradiction; [|exact Hd]. destruct HB as [HB Hx]. cbn [fst snd] in HB, Hx.
  eapply rbind; [rgo|]. intros p p' Hp. eapply rbind; [eapply r_det_elim; eassumption || reflexivity|]. intros C C' HC. apply IH; [exact HC|rgo].
Qed.
Definition rfun {A B} (R : A -> B -> Prop) (f : nat -> nat -> A) (g : nat -> nat -> B) : Prop := forall i j, R (f i j) (g i j).
Lemma r_mget_all {T1 T2} {O1 : Ops T1} {O2 : Ops T2} (R : T1 -> T2 -> Prop) (R0 : R o0 o0) A A' n : rmb R A A' -> rres (rfun R) (mget_all A n) (mget_all A' n).
Proof.
  intros H. unfold mget_all. apply (rfor (rfun R)); [reflexivity..|now intros i j|]. intros i f f' Hf. apply (rfor (rfun R)); [reflexivity..|exact Hf|]. intros j g g' Hg.
  eapply rbind; [rgo|]. intros x x' Hx a b. now apply rifS.
Qed.
Lemma r_small_det {T1 T2} {O1 : Ops T1} {O2 : Ops T2} (R : T1 -> T2 -> Prop) (SR : same_ring O1 O2 R) f g : rfun R f g -> R (det2 f) (det2 g) /\ R (det3 f) (det3 g) /\ R (det4 f) (det4 g).
Proof.
  intros H. unfold det2, det3, det4, rfun in *. repeat split; cbv zeta;
    repeat first [apply (r_add _ _ _ SR) | apply (r_sub _ _ _ SR) | apply (r_mul _ _ _ SR) | apply H].
Qed.
(** Up to order four no division is needed. *)
Lemma r_det4 {T1 T2} {O1 : Ops T1} {O2 : Ops T2} (R : T1 -> T2 -> Prop) (SR : same_ring O1 O2 R) A A' : mcols A <= 4 -> rmb R A A' -> 0 < mcols A -> rres R (determinant A) (determinant A').
Proof.
  intros L H P. unfold determinant. apply rif; [rgo|exact I|]. cbv zeta. assert (E : mcols A = mcols A') by apply H. rewrite <- E.
  destruct (mcols A =? 1) eqn:E1; [rgo|]. destruct (mcols A =? 2) eqn:E2; [|destruct (mcols A =? 3) eqn:E3; [|destruct (mcols A =? 4) eqn:E4; [|lia]]].
  all: eapply rbind; [apply r_mget_all; [apply (r_0 _ _ _ SR)|exact H]|]; intros f g F; apply (r_small_det R SR f g F).
Qed.
Lemma r_determinant {T1 T2} {O1 : Ops T1} {O2 : Ops T2} (R : T1 -> T2 -> Prop) (SR : same_ring O1 O2 R) (SD : same_div O1 O2 R) (SO : same_order O1 O2 R) a0 b0 : rmb R a0 b0 -> rres R (determinant a0) (determinant b0).
Proof. intros H. unfold determinant. apply rif; [rgo|exact I|]. cbv zeta. assert (E : mcols a0 = mcols b0) by apply H. rewrite <- E.
  apply rif; [reflexivity|rgo|].
  do 3 (apply rif; [reflexivity|eapply rbind; [apply r_mget_all; [apply (r_0 _ _ _ SR)|exact H]|]; intros f g F; apply (r_small_det R SR f g F)|]).
  eapply rbind; [rgo|]. intros m m' Hm. apply r_det_loop; rgo. Qed.
Ltac rx17 := lazymatch goal with
  | |- rres _ (log2_ceil _ _ _ _) _ => eapply r_log2_ceil
  | |- rres _ (det_elim _ _ _ _) _ => eapply r_det_elim
  | |- rres _ (determinant _) _ => eapply r_determinant
  | |- _ => rx16 end.
Ltac rext ::= rx17.
Lemma r_adjoint {T1 T2} {O1 : Ops T1} {O2 : Ops T2} (R : T1 -> T2 -> Prop) (SR : same_ring O1 O2 R) (SD : same_div O1 O2 R) (SO : same_order O1 O2 R) a0 b0 : rmb R a0 b0 -> rres (rmat R) (adjoint a0) (adjoint b0).
Proof. intros; unfold adjoint; rgo. Qed.
Lemma r_adjoint5 {T1 T2} {O1 : Ops T1} {O2 : Ops T2} (R : T1 -> T2 -> Prop) (SR : same_ring O1 O2 R) A A' : 0 < mcols A <= 5 -> rmb R A A' -> rres (rmat R) (adjoint A) (adjoint A').
Proof.
  intros L H. unfold adjoint. apply rif; [rgo|exact I|]. cbv zeta. assert (E : mcols A = mcols A') by apply H. rewrite <- E. destruct (mcols A =? 1) eqn:E1; [rgo|].
  eapply rbind; [rgo|]. intros m m' Hm. apply (rfor (rmat R)); [reflexivity..|exact Hm|]. intros i n n' Hn. apply (rfor (rmat R)); [reflexivity..|exact Hn|]. intros j k k' Hk.
  assert (S1 : sub64 (mcols A) 1 = mcols A - 1) by (unfold sub64, wrap64, two64; replace ((N.of_nat (mcols A) + (18446744073709551616 - N.of_nat 1 mod 18446744073709551616))%N) with (N.of_nat (mcols A - 1) + 1 * 18446744073709551616)%N by lia; rewrite N.mod_add, N.mod_small by lia; lia).
  eapply rbind; [apply r_det4; [exact SR|cbn; lia|now apply r_cof|cbn; lia]|]. rgo.
Qed.
Ltac rx18 := lazymatch goal with
  | |- rres _ (adjoint _) _ => eapply r_adjoint
  | |- _ => rx17 end.
Ltac rext ::= rx18.
Lemma r_inverse {T1 T2} {O1 : Ops T1} {O2 : Ops T2} (R : T1 -> T2 -> Prop) (SR : same_ring O1 O2 R) (SD : same_div O1 O2 R) (SO : same_order O1 O2 R) a0 b0 : rmb R a0 b0 -> rres (rmat R) (inverse a0) (inverse b0).
Proof. intros; unfold inverse; rgo. Qed.
Lemma r_lu_l {T1 T2} {O1 : Ops T1} {O2 : Ops T2} (R : T1 -> T2 -> Prop) (SR : same_ring O1 O2 R) A A' n i s s' : rmb R A A' -> rpair (rmat R) (rmat R) s s' -> rres (rpair (rmat R) (rmat R)) (lu_l A n i s) (lu_l A' n i s').
Proof. intros; unfold lu_l; apply (rfor (rpair (rmat R) (rmat R))); rgo. Qed.
Lemma r_lu_u {T1 T2} {O1 : Ops T1} {O2 : Ops T2} (R : T1 -> T2 -> Prop) (SR : same_ring O1 O2 R) (SD : same_div O1 O2 R) A A' n i s s' : rmb R A A' -> rpair (rmat R) (rmat R) s s' -> rres (rpair (rmat R) (rmat R)) (lu_u A n i s) (lu_u A' n i s').
Proof. intros; unfold lu_u; apply (rfor (rpair (rmat R) (rmat R))); rgo. Qed.
Lemma r_lu_decomposition {T1 T2} {O1 : Ops T1} {O2 : Ops T2} (R : T1 -> T2 -> Prop) (SR : same_ring O1 O2 R) (SD : same_div O1 O2 R) A A' : rmb R A A' -> rres (rpair (rmat R) (rmat R)) (lu_decomposition A) (lu_decomposition A').
Proof.
  intros H; unfold lu_decomposition; cbv zeta. dims. apply rif; [rgo|exact I|]. eapply rbind; [rgo|]. intros l l' Hl. eapply rbind; [rgo|]. intros u u' Hu.
  apply (rfor (rpair (rmat R) (rmat R))); [congruence..|now split|]. intros i s s' Hs. rewrite <- H0. eapply rbind; [eapply (r_lu_l R SR); eassumption|]. intros t t' Ht. now apply (r_lu_u R SR SD).
Qed.
Ltac rx19 := lazymatch goal with
  | |- rres _ (inverse _) _ => eapply r_inverse
  | |- _ => rx18 end.
Ltac rext ::= rx19.
Lemma r_divm {T1 T2} {O1 : Ops T1} {O2 : Ops T2} (R : T1 -> T2 -> Prop) (SR : same_ring O1 O2 R) (SD : same_div O1 O2 R) (SO : same_order O1 O2 R) a0 b0 a1 b1 : rmb R a0 b0 -> rmb R a1 b1 -> rres (rmat R) (div a0 a1) (div b0 b1).
Proof. intros; unfold div; rgo. Qed.
Ltac rx20 := lazymatch goal with
  | |- rres _ (div _ _) _ => eapply r_divm
  | |- _ => rx19 end.
Ltac rext ::= rx20.
(** The exponential. *)
Lemma r_expm_batch {T1 T2} {O1 : Ops T1} {O2 : Ops T2} (R : T1 -> T2 -> Prop) (SR : same_ring O1 O2 R) (SD : same_div O1 O2 R) (SO : same_order O1 O2 R) t k sa sa' fac fac' m m' a a' :
  rmat R sa sa' -> R fac fac' -> rmat R m m' -> rmat R a a' -> rres (rpair (rpair R (rmat R)) (rmat R)) (expm_batch t k sa fac m a) (expm_batch t k sa' fac' m' a').
Proof.
  intros Hs. revert k fac fac' m m' a a'. induction t as [|t IH]; intros k fac fac' m m' a a' Hf Hm Ha; cbn [expm_batch]; [rgo|].
  eapply rbind; [rgo|]. intros q q' Hq. cbv zeta. apply rif; [rgo|rgo|].
  eapply rbind; [rgo|]. intros P P' HP. eapply rbind; [rgo|]. intros X X' HX. eapply rbind; [rgo|]. intros Y Y' HY. apply IH; rgo.
Qed.
Lemma r_expm_loop {T1 T2} {O1 : Ops T1} {O2 : Ops T2} (R : T1 -> T2 -> Prop) (SR : same_ring O1 O2 R) (SD : same_div O1 O2 R) (SO : same_order O1 O2 R) sq sq' (Hsq : forall x x', R x x' -> R (sq x) (sq' x'))
  n A A' b st sa sa' ac ac' qa qa' m m' r r' fac fac' rl rl' : rmb R A A' ->
  rmat R sa sa' -> R ac ac' -> R qa qa' -> rmat R m m' -> rmat R r r' -> R fac fac' -> R rl rl' -> rres (rmat R) (expm_loop sq n A b st sa ac qa m r fac rl) (expm_loop sq' n A' b st sa' ac' qa' m' r' fac' rl').
Proof.
  intros HA Hs Hac Hqa. revert st m m' r r' fac fac' rl rl'. induction n as [|n IH]; intros st m m' r r' fac fac' rl rl' Hm Hr Hf Hl; cbn [expm_loop].
  - apply rif; [f_equal; rgo|exact I|exact Hr].
  - apply rif; [f_equal; rgo| |exact Hr]. eapply rbind; [rgo|]. intros X X' HX. eapply rbind; [eapply (r_expm_batch R SR SD SO); eassumption|].
    intros [[f1 m1] a1] [[f2 m2] a2] [[H1 H2] H3]. cbn [fst snd] in H1, H2, H3.
    do 4 (eapply rbind; [rgo|]; intros ? ? ?).
    eapply rbind; [eapply r_divm; rgo|]. intros E E' HE. eapply rbind; [eapply r_square_norm_m; [exact SR| |exact Hsq|]; rgo|]. intros z z' Hz. apply IH; assumption.
Qed.
Lemma r_expm {T1 T2} {O1 : Ops T1} {O2 : Ops T2} (R : T1 -> T2 -> Prop) (SR : same_ring O1 O2 R) (SD : same_div O1 O2 R) (SO : same_order O1 O2 R) sq sq' h h' (Hsq : forall x x', R x x' -> R (sq x) (sq' x'))
  n A A' ac ac' : R h h' -> rmb R A A' -> R ac ac' -> rres (rmat R) (expm sq h n A ac) (expm sq' h' n A' ac').
Proof.
  intros Hh HA Hac. unfold expm. eapply rbind; [eapply (r_log2_ceil R SR SO); [|exact Hh|reflexivity|exact HA]; intros; now apply (r_abs _ _ _ SO)|].
  intros [it s] [it' s'] [E Hs]. cbn [fst snd] in E, Hs. subst it'. eapply rbind; [rgo|]. intros sa sa' Hsa. cbv zeta. assert (Er : mrows A = mrows A') by apply HA. assert (Ec : mcols A = mcols A') by apply HA. rewrite <- Er, <- Ec.
  do 2 (eapply rbind; [rgo|]; intros ? ? ?). eapply rbind; [eapply (r_expm_loop R SR SD SO sq sq' Hsq); rgo|]. rgo.
Qed.

(** * control.hpp *)
Definition rss {A B} (R : A -> B -> Prop) (s : SS A) (s' : SS B) : Prop := rmat R (sA s) (sA s') /\ rmat R (sB s) (sB s') /\ rmat R (sC s) (sC s') /\ rmat R (sD s) (sD s').
Definition rdss {A B} (R : A -> B -> Prop) (s : DSS A) (s' : DSS B) : Prop := rss R (dsys s) (dsys s') /\ R (sample_time s) (sample_time s').
Lemma r_ss_new {T1 T2} {O1 : Ops T1} {O2 : Ops T2} (R : T1 -> T2 -> Prop) (R0 : R o0 o0) a0 b0 a1 b1 a2 b2 a3 b3 : rmat R a0 b0 -> rmat R a1 b1 -> rmat R a2 b2 -> rmat R a3 b3 -> rres (rss R) (ss_new a0 a1 a2 a3) (ss_new b0 b1 b2 b3).
Proof. intros; unfold ss_new; do 4 (eapply rbind; [rgo|]; intros ? ? ?); repeat split; cbn; apply H3 || apply H4 || apply H5 || apply H6. Qed.
Lemma r_dss_new {T1 T2} {O1 : Ops T1} {O2 : Ops T2} (R : T1 -> T2 -> Prop) (R0 : R o0 o0) a a' b b' c c' d d' t t' : rmat R a a' -> rmat R b b' -> rmat R c c' -> rmat R d d' -> R t t' -> rres (rdss R) (dss_new a b c d t) (dss_new a' b' c' d' t').
Proof. intros; unfold dss_new. eapply rbind; [apply (r_ss_new R R0); eassumption|]. intros s s' Hs. now split. Qed.
Lemma r_ctrb {T1 T2} {O1 : Ops T1} {O2 : Ops T2} (R : T1 -> T2 -> Prop) (SR : same_ring O1 O2 R) a0 b0 a1 b1 : rmb R a0 b0 -> rmb R a1 b1 -> rres (rmat R) (ctrb a0 a1) (ctrb b0 b1).
Proof. intros; unfold ctrb; rgo. Qed.
Lemma r_obsv {T1 T2} {O1 : Ops T1} {O2 : Ops T2} (R : T1 -> T2 -> Prop) (SR : same_ring O1 O2 R) a0 b0 a1 b1 : rmb R a0 b0 -> rmb R a1 b1 -> rres (rmat R) (obsv a0 a1) (obsv b0 b1).
Proof. intros; unfold obsv; rgo. Qed.
Lemma r_poly_loop {T1 T2} {O1 : Ops T1} {O2 : Ops T2} (R : T1 -> T2 -> Prop) (SR : same_ring O1 O2 R) a0 b0 a1 b1 a2 b2 : a0 = b0 :> nat -> (forall i, rres R (a1 i) (b1 i)) -> Forall2 R a2 b2 -> rres (Forall2 R) (poly_loop a0 a1 a2) (poly_loop b0 b1 b2).
Proof. intros; unfold poly_loop; rgo. Qed.
Ltac rx21 := lazymatch goal with
  | |- rres _ (ss_new _ _ _ _) _ => eapply r_ss_new
  | |- rres _ (ctrb _ _) _ => eapply r_ctrb
  | |- rres _ (obsv _ _) _ => eapply r_obsv
  | |- rres _ (poly_loop _ _ _) _ => eapply r_poly_loop
  | |- _ => rx20 end.
Ltac rext ::= rx21.
Lemma r_poly_v {T1 T2} {O1 : Ops T1} {O2 : Ops T2} (R : T1 -> T2 -> Prop) (SR : same_ring O1 O2 R) a0 b0 : Forall2 R a0 b0 -> rres (Forall2 R) (poly_v a0) (poly_v b0).
Proof. intros; unfold poly_v; rgo. Qed.
Lemma r_polyreduce {T1 T2} {O1 : Ops T1} {O2 : Ops T2} (R : T1 -> T2 -> Prop) (SR : same_ring O1 O2 R) (SO : same_order O1 O2 R) a0 b0 : Forall2 R a0 b0 -> rres (Forall2 R) (polyreduce a0) (polyreduce b0).
Proof. intros H. unfold polyreduce. eapply (rbind eq); [rgo|]. intros o o' <-. cbv zeta. rewrite (f2_len _ _ _ H). set (j := match o with Some j => j | None => _ end). rgo. Qed.
Lemma r_poly_m {T1 T2} {O1 : Ops T1} {O2 : Ops T2} (R : T1 -> T2 -> Prop) (SR : same_ring O1 O2 R) (SD : same_div O1 O2 R) a0 b0 : rmb R a0 b0 -> rres (Forall2 R) (poly_m a0) (poly_m b0).
Proof. intros H. unfold poly_m. apply rif; [rgo|rgo|]. apply rif; [rgo|rgo|]. apply rif; [rgo|rgo|]. cbv zeta.
  eapply rbind; [rgo|]. intros c c' Hc. eapply rbind; [rgo|]. intros B B' HB. do 3 (eapply rbind; [rgo|]; intros ? ? ?). eapply rbind; [rgo|]. intros Id Id' HI.
  eapply (rbind (rpair (rpair (Forall2 R) (rmat R)) R)); [|rgo].
  eapply (rfor (rpair (rpair (Forall2 R) (rmat R)) R)); rgo. Qed.
Ltac rx22 := lazymatch goal with
  | |- rres _ (poly_v _) _ => eapply r_poly_v
  | |- rres _ (polyreduce _) _ => eapply r_polyreduce
  | |- rres _ (poly_m _) _ => eapply r_poly_m
  | |- _ => rx21 end.
Ltac rext ::= rx22.
Lemma r_acker {T1 T2} {O1 : Ops T1} {O2 : Ops T2} (R : T1 -> T2 -> Prop) (SR : same_ring O1 O2 R) (SD : same_div O1 O2 R) (SO : same_order O1 O2 R) a0 b0 a1 b1 a2 b2 : rmb R a0 b0 -> rmb R a1 b1 -> rmb R a2 b2 -> rres (rmat R) (acker a0 a1 a2) (acker b0 b1 b2).
Proof. intros HA HB HP. unfold acker. apply rif; [rgo|exact I|]. apply rif; [rgo|exact I|].
  eapply rbind; [rgo|]. intros ct ct' Hct. eapply rbind; [eapply (r_determinant R SR SD SO); rgo|]. intros d d' Hd. apply rif; [rgo|exact I|].
  eapply rbind; [rgo|]. intros p p' Hp. eapply rbind; [rgo|]. intros Z Z' HZ. eapply rbind; [rgo|]. intros Ap Ap' HAp.
  eapply rbind; [rgo; cbn; req|]. intros s s' Hs. eapply rbind; [rgo|]. intros t t' Ht. eapply rbind; [eapply (r_inverse R SR SD SO); rgo|]. rgo. Qed.
Lemma r_simulate_step {T1 T2} {O1 : Ops T1} {O2 : Ops T2} (R : T1 -> T2 -> Prop) (SR : same_ring O1 O2 R) s s' x x' u u' : rdss R s s' -> Forall2 R x x' -> Forall2 R u u' -> rres (rpair (Forall2 R) (Forall2 R)) (simulate_step s x u) (simulate_step s' x' u').
Proof. intros [(HA & HB & HC & HD) Ht] Hx Hu. unfold simulate_step. do 6 (eapply rbind; [rgo|]; intros ? ? ?). now split. Qed.
Lemma rbind2 {A B A' B' C} (S : A' -> B' -> Prop) (x : Res A) (y : Res B) (h : A -> Res C) (k : B -> Res C) f g : rres eq (bind x h) (bind y k) -> (forall n, rres S (f n) (g n)) ->
  rres S (bind x (fun q => bind (h q) f)) (bind y (fun q => bind (k q) g)).
Proof. destruct x as [a| | | |], y as [b| | | |]; cbn; try contradiction; auto; try (destruct (h a)); try (destruct (k b)); cbn; try contradiction; auto. now intros <-. Qed.
Lemma r_simulate {T1 T2} {O1 : Ops T1} {O2 : Ops T2} (R : T1 -> T2 -> Prop) (SR : same_ring O1 O2 R) tr tr' s s' u u' t t' i i' :
  rres eq (bind (odiv t (sample_time s)) tr) (bind (odiv t' (sample_time s')) tr') -> rdss R s s' -> Forall2 (Forall2 R) u u' -> Forall2 R i i' ->
  rres (rpair (rpair (Forall2 R) (Forall2 (Forall2 R))) (Forall2 (Forall2 R))) (simulate tr s u t i) (simulate tr' s' u' t' i').
Proof.
  intros Htr Hs Hu Hi. unfold simulate. assert (Hst : R (sample_time s) (sample_time s')) by apply Hs. apply rbind2; [exact Htr|]. intros k. cbv zeta.
  rewrite (f2_len _ _ _ Hu).
  eapply (rbind (rpair (rpair (rpair (Forall2 R) (Forall2 (Forall2 R))) (Forall2 (Forall2 R))) R)); [|intros [[[a b] c] d] [[[a' b'] c'] d'] [[[H1 H2] H3] H4]; now repeat split].
  apply (rfor (rpair (rpair (rpair (Forall2 R) (Forall2 (Forall2 R))) (Forall2 (Forall2 R))) R)); [reflexivity..|repeat split; cbn [fst snd]|].
  - apply f2_repeat. rgo.
  - now repeat constructor.
  - constructor.
  - rgo.
  - intros n [[[a b] c] d] [[[a' b'] c'] d'] [[[H1 H2] H3] H4]. cbn [fst snd] in *. eapply rbind; [rgo|]. intros ? ? ?. eapply rbind; [eapply rlget; [req|exact H2]|]. intros xb xb' Hx.
    eapply rbind; [eapply rlget; [reflexivity|exact Hu]|]. intros ui ui' Hui. eapply rbind; [eapply (r_simulate_step R SR); eassumption|]. intros [x1 y1] [x2 y2] [Hx1 Hy1]. cbn [fst snd] in *.
    repeat split; cbn [fst snd]; [assumption|apply f2_app; [assumption|now repeat constructor]|apply f2_app; [assumption|now repeat constructor]|rgo].
Qed.
Lemma r_c2d {T1 T2} {O1 : Ops T1} {O2 : Ops T2} (R : T1 -> T2 -> Prop) (SR : same_ring O1 O2 R) (SD : same_div O1 O2 R) (SO : same_order O1 O2 R) sq sq' h h' (Hsq : forall x x', R x x' -> R (sq x) (sq' x'))
  ac ac' n s s' t t' : R h h' -> R ac ac' -> rss R s s' -> R t t' -> rres (rdss R) (c2d sq h ac n s t) (c2d sq' h' ac' n s' t').
Proof.
  intros Hh Hac (HA & HB & HC & HD) Ht. unfold c2d. eapply rbind; [rgo|]. intros At At' HAt. eapply rbind; [eapply (r_expm R SR SD SO sq sq' h h' Hsq); rgo|]. intros E E' HE. cbv zeta.
  eapply rbind; [eapply (r_inverse R SR SD SO); rgo|]. intros inv inv' Hinv. eapply rbind; [rgo|]. intros Id Id' HI. eapply rbind; [rgo|]. intros D D' HDD. do 2 (eapply rbind; [rgo|]; intros ? ? ?).
  eapply rbind; [rgo|]. intros dC dC' HdC. eapply rbind; [rgo|]. intros dD dD' HdD.
  pose proof (r_moved R _ _ _ _ (r_empty R) HE) as K1. pose proof (r_moved R _ _ _ _ (r_empty R) H0) as K2.
  apply rif; [|split; [split; [exact K1|split; [exact K2|split; [exact HdC|exact HdD]]]|exact Ht]|exact I]. dims. congruence.
Qed.
