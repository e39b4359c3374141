(** RelProg.v: whole programs (MatProg.v) in two element types. *)
From Verif Require Import MatProg Control Rel.
Section RelProg.
Context {T1 T2 : Type} {O1 : Ops T1} {O2 : Ops T2} (R : T1 -> T2 -> Prop).

(** * The same program with related constants *)
Inductive rmop : @mop T1 -> @mop T2 -> Prop :=
| q_MNew x : rmop (MNew x) (MNew x)
| q_MFill x r c v v' : R v v' -> rmop (MFill x r c v) (MFill x r c v')
| q_MList x r c l l' : Forall2 R l l' -> rmop (MList x r c l) (MList x r c l')
| q_MNested x l l' : Forall2 (Forall2 R) l l' -> rmop (MNested x l) (MNested x l')
| q_MCopy x y p : rmop (MCopy x y p) (MCopy x y p)
| q_MMove x y : rmop (MMove x y) (MMove x y)
| q_MAssign x y p : rmop (MAssign x y p) (MAssign x y p)
| q_MMoveAssign x y : rmop (MMoveAssign x y) (MMoveAssign x y)
| q_MAssignNested x l l' : Forall2 (Forall2 R) l l' -> rmop (MAssignNested x l) (MAssignNested x l')
| q_MResize x r c : rmop (MResize x r c) (MResize x r c)
| q_MReshape x r c : rmop (MReshape x r c) (MReshape x r c)
| q_MRemoveRow x k : rmop (MRemoveRow x k) (MRemoveRow x k)
| q_MRemoveCol x k : rmop (MRemoveCol x k) (MRemoveCol x k)
| q_MSwapRows x p i j a b : rmop (MSwapRows x p i j a b) (MSwapRows x p i j a b)
| q_MSwapCols x p i j a b : rmop (MSwapCols x p i j a b) (MSwapCols x p i j a b)
| q_MSet x p i j v v' : R v v' -> rmop (MSet x p i j v) (MSet x p i j v')
| q_MViewAssign x p y : rmop (MViewAssign x p y) (MViewAssign x p y)
| q_MAdd x p y : rmop (MAdd x p y) (MAdd x p y)
| q_MSub x p y : rmop (MSub x p y) (MSub x p y)
| q_MMul x p y : rmop (MMul x p y) (MMul x p y)
| q_MScale x p s s' : R s s' -> rmop (MScale x p s) (MScale x p s')
| q_MGet x p i j : rmop (MGet x p i j) (MGet x p i j)
| q_MDestroy x : rmop (MDestroy x) (MDestroy x).
Inductive rexpr : @expr T1 -> @expr T2 -> Prop :=
| q_EVar y p : rexpr (EVar y p) (EVar y p)
| q_EAdd a a' b b' : rexpr a a' -> rexpr b b' -> rexpr (EAdd a b) (EAdd a' b')
| q_ESub a a' b b' : rexpr a a' -> rexpr b b' -> rexpr (ESub a b) (ESub a' b')
| q_EMul a a' b b' : rexpr a a' -> rexpr b b' -> rexpr (EMul a b) (EMul a' b')
| q_EEw a a' b b' : rexpr a a' -> rexpr b b' -> rexpr (EEw a b) (EEw a' b')
| q_EScale a a' s s' : rexpr a a' -> R s s' -> rexpr (EScale a s) (EScale a' s')
| q_ETrans a a' : rexpr a a' -> rexpr (ETrans a) (ETrans a').
Inductive rstmt : @stmt T1 -> @stmt T2 -> Prop :=
| q_SOp c c' : rmop c c' -> rstmt (SOp c) (SOp c')
| q_SLet x a a' : rexpr a a' -> rstmt (SLet x a) (SLet x a')
| q_SAssign x a a' : rexpr a a' -> rstmt (SAssign x a) (SAssign x a')
| q_SDims x p : rstmt (SDims x p) (SDims x p).
(** * Related variables and observations *)
Definition renv (e : @menv T1) (e' : @menv T2) : Prop := forall x, match e x, e' x with Some m, Some m' => rmat R m m' | None, None => True | _, _ => False end.
Inductive robs : @obs T1 -> @obs T2 -> Prop :=
| q_Done : robs Done Done | q_Threw : robs Threw Threw | q_Val v v' : R v v' -> robs (Val v) (Val v') | q_Dims r c : robs (Dims r c) (Dims r c).

(** * Steps *)
Context (SR : same_ring O1 O2 R).
Let R0 : R o0 o0 := r_0 _ _ _ SR.
Lemma renv_bind e e' x m m' : renv e e' -> rmat R m m' -> renv (mbind e x (Some m)) (mbind e' x (Some m')).
Proof. intros H K y. unfold mbind. destruct (y =? x); [exact K|apply H]. Qed.
Lemma renv_del e e' x : renv e e' -> renv (mbind e x None) (mbind e' x None).
Proof. intros H y. unfold mbind. destruct (y =? x); [exact I|apply H]. Qed.
Lemma r_look e e' x : renv e e' -> rres (rmat R) (mlook e x) (mlook e' x).
Proof. intros H. specialize (H x). unfold mlook. destruct (e x), (e' x); cbn; auto. Qed.
Lemma r_fresh e e' x : renv e e' -> rres eq (mfresh e x) (mfresh e' x).
Proof. intros H. specialize (H x). unfold mfresh. destruct (e x), (e' x); cbn; auto. Qed.
Lemma r_keep e e' x a a' : renv e e' -> rres (rmat R) a a' -> rres renv (keep e x a) (keep e' x a').
Proof. intros H K. unfold keep. eapply rbind; [exact K|]. intros m m' Hm. cbn. now apply renv_bind. Qed.
Lemma r_moved_ctor m m' : rmat R m m' -> rmat R (fst (mat_move_ctor m)) (fst (mat_move_ctor m')) /\ rmat R (snd (mat_move_ctor m)) (snd (mat_move_ctor m')).
Proof. intros H. split; cbn; [exact H|]. destruct H as (H1 & H2 & _). repeat split; try reflexivity; try assumption. constructor. Qed.
Lemma r_src (x y : nat) (my : Matrix T1) (my' : Matrix T2) : rmat R my my' -> forall m m', rmat R m m' -> rmb R ((if x =? y then mb_of_mat else fun _ => mb_of_mat my) m) ((if x =? y then mb_of_mat else fun _ => mb_of_mat my') m').
Proof. intros H m m' K. destruct (x =? y); now apply r_mat. Qed.
Lemma r_mget X Y i j : rmb R X Y -> rres R (mget X i j) (mget Y i j).
Proof. intros (_ & _ & _ & _ & H & _). apply H. Qed.
Lemma r_nested_assign m m' l l' : rmat R m m' -> Forall2 (Forall2 R) l l' -> rres (rmat R) (mat_assign_nested m l) (mat_assign_nested m' l').
Proof.
  intros H K. destruct K as [|f f' l l' [|v v' r r' V F] K]; [exact H|exact H|]. cbn [mat_assign_nested]. cbv zeta.
  assert (L : length (cons (cons v r) l) = length (cons (cons v' r') l')) by (cbn; now rewrite (f2_len _ _ _ K)). assert (L' : length (cons v r) = length (cons v' r')) by (cbn; now rewrite (f2_len _ _ _ F)). rewrite L, L'.
  eapply rbind; [apply (r_mzero _ R0); reflexivity|]. intros z z' Hz. apply (r_nested _ R0); [reflexivity|reflexivity| |exact Hz]. constructor; [now constructor|exact K].
Qed.
Lemma r_mstep e e' c c' : renv e e' -> rmop c c' -> rres renv (mstep e c) (mstep e' c').
Proof.
  intros H [].
  all: cbn [mstep].
  all: repeat first [eapply rbind; [eapply r_fresh; exact H|intros [] _ _]|eapply rbind; [eapply r_look; exact H|intros ? ? ?]].
  all: try (apply r_keep; [exact H|]).
  - cbn. apply r_empty.
  - now apply (r_mnew _ R0).
  - now apply (r_mofl _ R0).
  - now apply (r_mofnested _ R0).
  - apply (r_mofmb _ R0). now apply r_vmb.
  - cbn [rres]. match goal with K : rmat R _ _ |- _ => destruct (r_moved_ctor _ _ K) end. apply renv_bind; [apply renv_bind|]; assumption.
  - destruct (x =? y); [destruct p; [exact H|apply r_keep; [exact H|apply (r_massign _ R0); [intros; now apply r_vmb|assumption]]..]|apply r_keep; [exact H|apply (r_massign _ R0); [intros; now apply r_vmb|assumption]]].
  - destruct (x =? y); [exact H|]. cbn [rres]. apply renv_bind; [apply renv_bind; [exact H|now apply r_moved2]|now apply r_moved].
  - apply r_nested_assign; assumption.
  - apply (r_resize _ R0); [assumption|reflexivity..].
  - apply (r_reshape _ R0); [assumption|reflexivity..].
  - apply (r_remove_row _ R0); [assumption|reflexivity].
  - apply (r_remove_column _ R0); [assumption|reflexivity].
  - apply r_swap_rows; [reflexivity..|assumption].
  - apply r_swap_cols; [reflexivity..|assumption].
  - apply r_vset; [assumption|reflexivity|reflexivity|assumption].
  - apply (r_vwassign _ R0); [now apply r_src|assumption].
  - apply (r_m_iadd _ SR); [now apply r_src|assumption].
  - apply (r_m_isub _ SR); [now apply r_src|assumption].
  - apply (r_m_imul _ SR); [now apply r_src|assumption].
  - apply (r_m_imuls _ SR); assumption.
  - eapply rbind; [apply r_mget; now apply r_vmb|]. intros _ _ _. exact H.
  - cbn [rres]. now apply renv_del.
Qed.
Lemma r_eval e e' a a' : renv e e' -> rexpr a a' -> rres (rmb R) (eval e a) (eval e' a').
Proof.
  intros H K. induction K; cbn [eval].
  1: eapply rbind; [eapply r_look; exact H|intros ? ? ?; cbn; now apply r_vmb].
  all: repeat (eapply rbind; [eassumption|intros ? ? ?]).
  1: eapply rbind; [apply (r_m_add _ SR); eassumption|]. 
  2: eapply rbind; [apply (r_m_sub _ SR); eassumption|]. 
  3: eapply rbind; [apply (r_m_mul _ SR); eassumption|]. 
  4: eapply rbind; [apply (r_ew_product _ SR); eassumption|]. 
  5: eapply rbind; [apply (r_m_muls _ SR); eassumption|]. 
  6: eapply rbind; [apply (r_transpose _ R0); eassumption|]. 
  all: intros ? ? ?; cbn; now apply r_mat.
Qed.
Lemma r_evalm e e' a a' : renv e e' -> rexpr a a' -> rres (rmat R) (evalm e a) (evalm e' a').
Proof. intros H K. unfold evalm. eapply rbind; [eapply r_eval; eassumption|]. intros A A' HA. now apply (r_mofmb _ R0). Qed.
Lemma r_pstep e e' c c' : renv e e' -> rstmt c c' -> rres (rpair renv robs) (pstep e c) (pstep e' c').
Proof.
  intros H K. destruct K as [c c' K|x a a' K|x a a' K|x p].
  - pose proof (r_mstep e e' c c' H K) as M. destruct K; cbn [pstep];
      try (eapply rbind; [exact M|intros ? ? ?; split; [assumption|constructor]]).
    eapply rbind; [eapply r_look; exact H|]. intros m m' Hm. eapply rbind; [apply r_mget; now apply r_vmb|]. intros v v' Hv. split; [exact H|now constructor].
  - cbn [pstep]. eapply rbind; [eapply r_fresh; exact H|]. intros _ _ _. eapply rbind; [eapply r_evalm; eassumption|]. intros m m' Hm. split; [now apply renv_bind|constructor].
  - pose proof (r_evalm e e' a a' H K) as M. assert (G : rres (rpair renv robs) (let* mx := mlook e x in let* m := evalm e a in Ok (mbind e x (Some (fst (mat_move_assign mx m))), Done)) (let* mx := mlook e' x in let* m := evalm e' a' in Ok (mbind e' x (Some (fst (mat_move_assign mx m))), Done))).
    { eapply rbind; [eapply r_look; exact H|]. intros mx mx' Hx. eapply rbind; [exact M|]. intros m m' Hm. split; [apply renv_bind; [exact H|now apply r_moved]|constructor]. }
    destruct K; cbn [pstep]; try exact G. eapply rbind; [eapply r_mstep; [exact H|constructor]|]. intros ? ? ?. split; [assumption|constructor].
  - cbn [pstep]. eapply rbind; [eapply r_look; exact H|]. intros m m' Hm. destruct (r_vmb R _ _ p Hm) as (H1 & H2 & _). cbn. rewrite H1, H2. split; [exact H|constructor].
Qed.
Lemma r_prun cs cs' : Forall2 rstmt cs cs' -> forall e e', renv e e' -> rres (rpair renv (Forall2 robs)) (prun e cs) (prun e' cs').
Proof.
  induction 1 as [|c c' cs cs' K _ IH]; intros e e' H; cbn [prun]; [split; [exact H|constructor]|].
  pose proof (r_pstep e e' c c' H K) as P. destruct (pstep e c) as [[e1 o1]| | | |], (pstep e' c') as [[e1' o1']| | | |]; cbn [rres] in P; try contradiction; try exact I.
  - destruct P as [P1 P2]. cbn [fst snd] in P1, P2. cbn [bind]. eapply rbind; [apply IH; exact P1|]. intros [e2 l2] [e2' l2'] [Q1 Q2]. cbn [fst snd] in Q1, Q2. split; [exact Q1|]. now constructor.
  - eapply rbind; [apply IH; exact H|]. intros [e2 l2] [e2' l2'] [Q1 Q2]. cbn [fst snd] in Q1, Q2. split; [exact Q1|]. constructor; [constructor|exact Q2].
Qed.
End RelProg.
