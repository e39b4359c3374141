(** LinalgFacts2.v: adjoint, inverse, LU and div, for any element type. *)
From Verif Require Export LinalgFacts.
From Coq Require Import ZifyBool ZifyNat ZifyN.
Ltac Zify.zify_post_hook ::= Z.div_mod_to_equations.

(** Partial correctness of a counted loop. *)
Lemma for_n_partial {S} (P : nat -> S -> Prop) body n lo (s s' : S) : P lo s -> for_n n lo body s = Ok s' ->
  (forall i s s', lo <= i -> i < lo + n -> P i s -> body i s = Ok s' -> P (Datatypes.S i) s') -> P (lo + n) s'.
Proof.
  revert lo s. induction n as [|n IH]; intros lo s H0 E Hs; cbn in E.
  - injection E as <-. rewrite Nat.add_0_r. auto.
  - destruct (body lo s) as [s1| | | |] eqn:Eb; cbn in E; try discriminate.
    replace (lo + Datatypes.S n) with (Datatypes.S lo + n) by lia. apply (IH (Datatypes.S lo) s1); auto.
    + apply (Hs lo s s1); auto; lia.
    + intros i t t' H1 H2. apply Hs; lia.
Qed.
Lemma for_range_partial {S} (P : nat -> S -> Prop) body lo hi (s s' : S) : lo <= hi -> P lo s -> for_range lo hi body s = Ok s' ->
  (forall i s s', lo <= i -> i < hi -> P i s -> body i s = Ok s' -> P (Datatypes.S i) s') -> P hi s'.
Proof.
  intros Hl H0 E Hs. replace hi with (lo + (hi - lo)) by lia. unfold for_range in E.
  apply (for_n_partial P body (hi - lo) lo s s'); auto. intros i t t' H1 H2. apply Hs; lia.
Qed.

Section L.
Context {T : Type} {O : Ops T}.
Implicit Types (A B : MB T).

Definition sgnf (i j : nat) : T := if (i + j) mod 2 =? 0 then o1 else oopp o1.
Lemma adjoint_ok A n f (D : nat -> nat -> T) : readsL A n n f -> n <> 1 ->
  (forall i j, i < n -> j < n -> determinant (mb_cof i j A) = Ok (D i j)) ->
  exists m, adjoint A = Ok m /\ is_mat m n n (fun a b => omul (sgnf b a) (D b a)).
Proof.
  intros ((Ar & Ac & _ & As & Ag) & _) N HD. unfold adjoint, is_square. rewrite Ar, Ac, Nat.eqb_refl. cbn [negb].
  destruct (Nat.eqb_spec n 1) as [E|_]; [congruence|].
  destruct (mat_new_ok (T:=T) n n o0 As) as (m & E & Hm). rewrite E. cbn [bind].
  destruct (for2_inv (fun i j m => is_mat m n n (fun a b => if before i j b a then omul (sgnf b a) (D b a) else o0)) n n
    (fun i j m => let* d := determinant (mb_cof i j A) in
        mat_set m j i (omul (if (i + j) mod 2 =? 0 then o1 else oopp o1) d)) m) as (m' & E' & Q).
  - eapply is_mat_ext; [exact Hm|]. intros a b Ha Hb. unfold before. nb.
  - intros i j s Hi Hj Q. rewrite HD by auto. cbn [bind].
    destruct (mat_set_ok s n n _ j i (omul (sgnf i j) (D i j)) Q Hj Hi) as (s' & E' & Q').
    exists s'. split; auto. eapply is_mat_ext; [exact Q'|]. intros a b Ha Hb. unfold fset, before.
    destruct (Nat.eqb_spec a j) as [->|N1]; destruct (Nat.eqb_spec b i) as [->|N2]; nb.
  - intros i s Hi Q. eapply is_mat_ext; [exact Q|]. intros a b Ha Hb. unfold before. nb.
  - exists m'. split; auto. eapply is_mat_ext; [exact Q|]. intros a b Ha Hb. unfold before. nb.
Qed.
Lemma adjoint_1 A f : readsL A 1 1 f -> exists m, adjoint A = Ok m /\ is_mat m 1 1 (fun _ _ => o1).
Proof.
  intros ((Ar & Ac & _ & As & Ag) & _). unfold adjoint, is_square. rewrite Ar, Ac, Nat.eqb_refl. cbn [negb].
  apply mat_new_ok. auto.
Qed.
Lemma inverse_ok A n f d g h : readsL A n n f -> determinant A = Ok d -> oisz d = false ->
  (exists m, adjoint A = Ok m /\ is_mat m n n g) -> (forall i j, i < n -> j < n -> odiv (g i j) d = Ok (h i j)) ->
  exists m, inverse A = Ok m /\ is_mat m n n h.
Proof.
  intros ((Ar & Ac & _ & As & Ag) & _) Hd Hz (ma & Ea & Ha) Hh. unfold inverse, is_square. rewrite Ar, Ac, Nat.eqb_refl. cbn [negb].
  rewrite Hd. cbn [bind]. rewrite Hz, Ea. cbn [bind].
  destruct (mat_new_ok (T:=T) n n o0 As) as (m & E & Hm). rewrite E. cbn [bind].
  apply (fill_rc_full m n n (fun _ _ => o0)); auto.
  intros i j Hi Hj. rewrite (is_mat_at _ _ _ _ i j Ha) by auto. cbn [bind]. auto.
Qed.

(** ** LU *)
(** osub a (s 0) ... (s (n-1)), left to right. *)
Fixpoint osubs (n : nat) (a : T) (s : nat -> T) : T := match n with 0 => a | S k => osub (osubs k a s) (s k) end.
Lemma osubs_ext n a s s' : (forall k, k < n -> s k = s' k) -> osubs n a s = osubs n a s'.
Proof. induction n as [|n IH]; intros H; cbn; auto. rewrite IH, H; auto. Qed.

Lemma lu_l_ok A n f i l u L U : reads A n n f -> is_mat l n n L -> is_mat u n n U -> i < n ->
  exists l', lu_l A n i (l, u) = Ok (l', u) /\
    is_mat l' n n (fun a b => if b =? i then (if a <? i then o0 else osubs i (f a i) (fun k => omul (L a k) (U k i))) else L a b).
Proof.
  intros (_ & _ & _ & _ & Ag) Hl Hu Hi. unfold lu_l.
  set (V := fun a => if a <? i then o0 else osubs i (f a i) (fun k => omul (L a k) (U k i))).
  set (body := fun j (s : Matrix T * Matrix T) =>
    let (l, u) := s in
    if j <? i then let* l := mat_set l j i o0 in Ok (l, u)
    else
      let* x := mget A j i in
      let* l := mat_set l j i x in
      let* l := for_range 0 i (fun k l =>
        let* x := mat_at l j i in let* y := mat_at l j k in let* z := mat_at u k i in
        mat_set l j i (osub x (omul y z))) l in
      Ok (l, u)).
  set (P := fun t (s : Matrix T * Matrix T) => snd s = u /\ is_mat (fst s) n n (fun a b => if (b =? i) && (a <? t) then V a else L a b)).
  destruct (for_range_inv P 0 n body (l, u)) as ((l' & u') & E & Eu & Q).
  - lia.
  - split; auto. cbn. eapply is_mat_ext; [exact Hl|]. intros a b Ha Hb. cbn. nb.
  - intros j (s1 & s2) Hj (Eu & Q). cbn in Eu, Q. subst s2. unfold body.
    destruct (Nat.ltb_spec j i) as [Lj|Lj].
    + destruct (mat_set_ok s1 n n _ j i o0 Q) as (s' & E & Q'); try lia. rewrite E. cbn [bind]. eexists. split; [reflexivity|].
      split; auto. cbn. eapply is_mat_ext; [exact Q'|]. intros a b Ha Hb. unfold fset, V.
      destruct (Nat.eqb_spec a j) as [->|N1]; destruct (Nat.eqb_spec b i) as [->|N2]; nb.
    + rewrite Ag by lia. cbn [bind].
      destruct (mat_set_ok s1 n n _ j i (f j i) Q) as (s' & E & Q'); try lia. rewrite E. cbn [bind].
      destruct (for_range_inv (fun t m => is_mat m n n (fun a b => if (b =? i) && (a =? j) then osubs t (f j i) (fun k => omul (L j k) (U k i))
           else if (b =? i) && (a <? j) then V a else L a b)) 0 i
        (fun k (l : Matrix T) => let* x := mat_at l j i in let* y := mat_at l j k in let* z := mat_at u k i in
        mat_set l j i (osub x (omul y z))) s') as (s3 & E3 & Q3).
      * lia.
      * eapply is_mat_ext; [exact Q'|]. intros a b Ha Hb. unfold fset.
        destruct (Nat.eqb_spec a j) as [->|N1]; destruct (Nat.eqb_spec b i) as [->|N2]; cbn; nb.
      * intros k t Hk Qt. rewrite (is_mat_at _ _ _ _ j i Qt), (is_mat_at _ _ _ _ j k Qt), (is_mat_at _ _ _ _ k i Hu) by lia. cbn [bind].
        rewrite !Nat.eqb_refl. cbn [andb]. destruct (Nat.eqb_spec k i) as [Ek|_]; [lia|]. cbn [andb].
        match goal with |- exists s', mat_set t j i ?v = _ /\ _ => destruct (mat_set_ok t n n _ j i v Qt) as (t' & Et & Qt'); try lia end.
        exists t'. split; auto. eapply is_mat_ext; [exact Qt'|]. intros a b Ha Hb. unfold fset.
        destruct (Nat.eqb_spec a j) as [->|N1]; destruct (Nat.eqb_spec b i) as [->|N2]; cbn [andb]; auto.
      * rewrite E3. cbn [bind]. eexists. split; [reflexivity|]. split; auto. cbn. eapply is_mat_ext; [exact Q3|].
        intros a b Ha Hb. unfold V. destruct (Nat.eqb_spec a j) as [->|N1]; destruct (Nat.eqb_spec b i) as [->|N2]; cbn [andb]; nb.
  - cbn in Eu, Q. subst u'. rewrite E. exists l'. split; auto.
    eapply is_mat_ext; [exact Q|]. intros a b Ha Hb. unfold V. nb.
Qed.

Lemma lu_u_ok A n f i l u L U (dv : T -> T) : reads A n n f -> is_mat l n n L -> is_mat u n n U -> i < n ->
  (forall x, odiv x (L i i) = Ok (dv x)) ->
  exists u', lu_u A n i (l, u) = Ok (l, u') /\
    is_mat u' n n (fun a b => if a =? i then (if b <? i then o0 else if b =? i then o1 else
       osubs i (dv (f i b)) (fun k => dv (omul (L i k) (U k b)))) else U a b).
Proof.
  intros (_ & _ & _ & _ & Ag) Hl Hu Hi Hd. unfold lu_u.
  set (V := fun b => if b <? i then o0 else if b =? i then o1 else
       osubs i (dv (f i b)) (fun k => dv (omul (L i k) (U k b)))).
  set (body := fun j (s : Matrix T * Matrix T) =>
    let (l, u) := s in
    if j <? i then let* u := mat_set u i j o0 in Ok (l, u)
    else if j =? i then let* u := mat_set u i j o1 in Ok (l, u)
    else
      let* x := mget A i j in let* d := mat_at l i i in
      let* q := odiv x d in
      let* u := mat_set u i j q in
      let* u := for_range 0 i (fun k u =>
        let* x := mat_at u i j in let* y := mat_at l i k in let* z := mat_at u k j in
        let* d := mat_at l i i in
        let* q := odiv (omul y z) d in
        mat_set u i j (osub x q)) u in
      Ok (l, u)).
  set (P := fun t (s : Matrix T * Matrix T) => fst s = l /\ is_mat (snd s) n n (fun a b => if (a =? i) && (b <? t) then V b else U a b)).
  destruct (for_range_inv P 0 n body (l, u)) as ((l' & u') & E & El & Q).
  - lia.
  - split; auto. cbn. eapply is_mat_ext; [exact Hu|]. intros a b Ha Hb. cbn. nb.
  - intros j (s2 & s1) Hj (El & Q). cbn in El, Q. subst s2. unfold body.
    destruct (Nat.ltb_spec j i) as [Lj|Lj]; [|destruct (Nat.eqb_spec j i) as [Ej|Nj]].
    + destruct (mat_set_ok s1 n n _ i j o0 Q) as (s' & E & Q'); try lia. rewrite E. cbn [bind]. eexists. split; [reflexivity|].
      split; auto. cbn. eapply is_mat_ext; [exact Q'|]. intros a b Ha Hb. unfold fset, V.
      destruct (Nat.eqb_spec a i) as [->|N1]; destruct (Nat.eqb_spec b j) as [->|N2]; nb.
    + destruct (mat_set_ok s1 n n _ i j o1 Q) as (s' & E & Q'); try lia. rewrite E. cbn [bind]. eexists. split; [reflexivity|].
      split; auto. cbn. eapply is_mat_ext; [exact Q'|]. intros a b Ha Hb. unfold fset, V.
      destruct (Nat.eqb_spec a i) as [->|N1]; destruct (Nat.eqb_spec b j) as [->|N2]; nb.
    + rewrite Ag by lia. cbn [bind]. rewrite (is_mat_at _ _ _ _ i i Hl) by lia. cbn [bind]. rewrite Hd. cbn [bind].
      destruct (mat_set_ok s1 n n _ i j (dv (f i j)) Q) as (s' & E & Q'); try lia. rewrite E. cbn [bind].
      destruct (for_range_inv (fun t m => is_mat m n n (fun a b => if (a =? i) && (b =? j) then osubs t (dv (f i j)) (fun k => dv (omul (L i k) (U k j)))
           else if (a =? i) && (b <? j) then V b else U a b)) 0 i
        (fun k (u : Matrix T) => let* x := mat_at u i j in let* y := mat_at l i k in let* z := mat_at u k j in
        let* q := odiv (omul y z) (L i i) in
        mat_set u i j (osub x q)) s') as (s3 & E3 & Q3).
      * lia.
      * eapply is_mat_ext; [exact Q'|]. intros a b Ha Hb. unfold fset.
        destruct (Nat.eqb_spec a i) as [->|N1]; destruct (Nat.eqb_spec b j) as [->|N2]; cbn; nb.
      * intros k t Hk Qt. rewrite (is_mat_at _ _ _ _ i j Qt), (is_mat_at _ _ _ _ k j Qt), (is_mat_at _ _ _ _ i k Hl) by lia. cbn [bind].
        rewrite Hd. cbn [bind].
        rewrite !Nat.eqb_refl. cbn [andb]. destruct (Nat.eqb_spec k i) as [Ek|_]; [lia|]. cbn [andb].
        match goal with |- exists s', mat_set t i j ?v = _ /\ _ => destruct (mat_set_ok t n n _ i j v Qt) as (t' & Et & Qt'); try lia end.
        exists t'. split; auto. eapply is_mat_ext; [exact Qt'|]. intros a b Ha Hb. unfold fset.
        destruct (Nat.eqb_spec a i) as [->|N1]; destruct (Nat.eqb_spec b j) as [->|N2]; cbn [andb]; auto.
      * rewrite E3. cbn [bind]. eexists. split; [reflexivity|]. split; auto. cbn. eapply is_mat_ext; [exact Q3|].
        intros a b Ha Hb. unfold V. destruct (Nat.eqb_spec a i) as [->|N1]; destruct (Nat.eqb_spec b j) as [->|N2]; cbn [andb]; nb.
  - cbn in El, Q. subst l'. rewrite E. exists u'. split; auto.
    eapply is_mat_ext; [exact Q|]. intros a b Ha Hb. unfold V. nb.
Qed.

(** Whatever the divisions do, a completed step changes only row i of u. *)
Definition row_only (n i : nat) (U : nat -> nat -> T) (m : Matrix T) : Prop :=
  exists V, is_mat m n n V /\ forall a b, a < n -> b < n -> a <> i -> V a b = U a b.
Lemma row_only_set n i U m j v m' : row_only n i U m -> i < n -> j < n -> mat_set m i j v = Ok m' -> row_only n i U m'.
Proof.
  intros (V & Q & H) Hi Hj E. destruct (mat_set_ok m n n _ i j v Q Hi Hj) as (s & E' & Q'). rewrite E in E'. injection E' as <-.
  eexists. split; [exact Q'|]. intros a b Ha Hb N. unfold fset. destruct (Nat.eqb_spec a i); [congruence|]. cbn. auto.
Qed.
Lemma bind_Ok {S1 S2} (x : Res S1) (k : S1 -> Res S2) y : bind x k = Ok y -> exists a, x = Ok a /\ k a = Ok y.
Proof. destruct x; cbn; try discriminate. eauto. Qed.
Lemma lu_u_frame A n i l u U s' : is_mat u n n U -> i < n -> lu_u A n i (l, u) = Ok s' -> fst s' = l /\ row_only n i U (snd s').
Proof.
  intros Hu Hi E. unfold lu_u in E.
  refine (for_range_partial (fun t (s : Matrix T * Matrix T) => fst s = l /\ row_only n i U (snd s)) _ 0 n (l, u) s' _ _ E _).
  - lia.
  - split; auto. exists U. auto.
  - intros j (s1 & s2) t _ Hj (El & Q) Eb. cbn in El, Q. subst s1.
    destruct (j <? i); [|destruct (j =? i)].
    + apply bind_Ok in Eb. destruct Eb as (x & Ex & Et). injection Et as <-. split; auto. cbn. eapply row_only_set; [exact Q| | |exact Ex]; auto.
    + apply bind_Ok in Eb. destruct Eb as (x & Ex & Et). injection Et as <-. split; auto. cbn. eapply row_only_set; [exact Q| | |exact Ex]; auto.
    + apply bind_Ok in Eb. destruct Eb as (x & _ & Eb). apply bind_Ok in Eb. destruct Eb as (d & _ & Eb).
      apply bind_Ok in Eb. destruct Eb as (q & _ & Eb). apply bind_Ok in Eb. destruct Eb as (m1 & E1 & Eb).
      apply bind_Ok in Eb. destruct Eb as (m2 & E2 & Eb). injection Eb as <-. split; auto. cbn.
      refine (for_range_partial (fun t m => row_only n i U m) _ 0 i m1 m2 _ _ E2 _).
      * lia.
      * eapply row_only_set; [exact Q| | |exact E1]; auto.
      * intros k m3 m4 _ Hk Q3 E3. apply bind_Ok in E3. destruct E3 as (? & _ & E3). apply bind_Ok in E3. destruct E3 as (? & _ & E3).
        apply bind_Ok in E3. destruct E3 as (? & _ & E3). apply bind_Ok in E3. destruct E3 as (? & _ & E3).
        apply bind_Ok in E3. destruct E3 as (? & _ & E3). eapply row_only_set; [exact Q3| | |exact E3]; auto.
Qed.
End L.
