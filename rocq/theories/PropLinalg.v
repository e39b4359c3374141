(** PropLinalg.v: properties of linalg.hpp that hold for every element type. *)
From Verif Require Import LinalgFacts2 PropMatrix PropUtil PropMath.
From Coq Require Import ZifyBool ZifyNat ZifyN Factorial.
Ltac Zify.zify_post_hook ::= Z.div_mod_to_equations.

Section P.
Context {T : Type} {O : Ops T}.
Implicit Types (A B : MB T).

Lemma mprod_ok A B r n c fa fb : reads A r n fa -> reads B n c fb -> shape_ok r c ->
  exists m, m_mul A B = Ok m /\ is_mat m r c (mprod n fa fb).
Proof. apply m_mul_ok. Qed.

(** * C20 transpose *)
Theorem C20_transpose : forall A r c f, reads A r c f ->
  exists m, transpose A = Ok m /\ is_mat m c r (fun j i => f i j).
Proof. intros A r c f H. apply (tmap_ok (fun x => x) A r c f H). Qed.
Theorem C20_involution : forall m r c f, is_mat m r c f ->
  exists t, transpose (mb_of_mat m) = Ok t /\ transpose (mb_of_mat t) = Ok m.
Proof.
  intros m r c f H. destruct (C20_transpose _ r c f (is_mat_reads _ _ _ _ H)) as (t & E & Ht). exists t. split; auto.
  destruct (C20_transpose _ c r _ (is_mat_reads _ _ _ _ Ht)) as (m' & E' & Hm'). rewrite E'. f_equal. eapply is_mat_unique; eauto.
Qed.
(** The involution through any view: the copy of the view comes back. *)
Theorem C20_involution_view : forall A r c f, readsL A r c f ->
  exists t m, transpose A = Ok t /\ transpose (mb_of_mat t) = Ok m /\ mat_of_mb A = Ok m.
Proof.
  intros A r c f H. destruct (C20_transpose _ r c f (proj1 H)) as (t & E & Ht).
  destruct (C20_transpose _ c r _ (is_mat_reads _ _ _ _ Ht)) as (m' & E' & Hm').
  destruct (mat_of_mb_ok _ _ _ _ H) as (m2 & E2 & H2). exists t, m'. repeat split; auto. rewrite E2. f_equal. eapply is_mat_unique; eauto.
Qed.
(** Needs only that the element product commutes. *)
Theorem C20_product : (forall x y : T, omul x y = omul y x) ->
  forall A B r n c fa fb, reads A r n fa -> reads B n c fb -> shape_ok r c ->
  exists ab tab ta tb, m_mul A B = Ok ab /\ transpose (mb_of_mat ab) = Ok tab /\
    transpose A = Ok ta /\ transpose B = Ok tb /\ m_mul (mb_of_mat tb) (mb_of_mat ta) = Ok tab.
Proof.
  intros Hc A B r n c fa fb HA HB Hs. destruct (mprod_ok A B r n c fa fb HA HB Hs) as (ab & E1 & H1).
  destruct (C20_transpose _ _ _ _ (is_mat_reads _ _ _ _ H1)) as (tab & E2 & H2).
  destruct (C20_transpose _ _ _ _ HA) as (ta & E3 & H3). destruct (C20_transpose _ _ _ _ HB) as (tb & E4 & H4).
  destruct (mprod_ok (mb_of_mat tb) (mb_of_mat ta) c n r _ _ (is_mat_reads _ _ _ _ H4) (is_mat_reads _ _ _ _ H3) (shape_ok_sym _ _ Hs)) as (x & E5 & H5).
  exists ab, tab, ta, tb. repeat split; auto. rewrite E5. f_equal. eapply is_mat_unique; [exact H5|]. eapply is_mat_ext; [exact H2|].
  intros i j Hi Hj. unfold mprod. apply osum_ext. intros k Hk. apply Hc.
Qed.

(** * C26 cofactor *)
Theorem C26_cofactor : forall A r c f p q, reads A r c f -> p < r -> q < c ->
  exists m, cofactor A p q = Ok m /\ is_mat m (r - 1) (c - 1) (fminor p q f).
Proof. intros. apply cofactor_ok; auto. Qed.
Theorem C26_cofactor_is_removal : forall m r c f p q, is_mat m r c f -> p < r -> q < c ->
  exists a b, remove_row m p = Ok a /\ remove_column a q = Ok b /\ cofactor (mb_of_mat m) p q = Ok b.
Proof.
  intros m r c f p q H Hp Hq. destruct (C26_remove_row m r c f p H Hp) as (a & E1 & H1).
  destruct (C26_remove_column a _ _ _ q H1 Hq) as (b & E2 & H2). exists a, b. split; auto. split; auto.
  destruct (C26_cofactor _ r c f p q (is_mat_reads _ _ _ _ H) Hp Hq) as (m' & E3 & H3). rewrite E3. f_equal.
  eapply is_mat_unique; [exact H3|]. eapply is_mat_ext; [exact H2|]. intros; reflexivity.
Qed.

(** * C45 factorial *)
Theorem C45_factorial : forall (n : Z) fuel, (0 <= n)%Z -> (Z.to_nat n <= fuel)%nat ->
  factorial fuel n = Ok (Z.of_nat (fact (Z.to_nat n))).
Proof.
  intros n fuel Hn. remember (Z.to_nat n) as k eqn:Ek. revert n Hn Ek fuel. induction k as [|k IH]; intros n Hn Ek fuel Hf.
  - destruct fuel; cbn; destruct (Z.leb_spec n 0); try lia; reflexivity.
  - destruct fuel; [lia|]. cbn [factorial]. destruct (Z.leb_spec n 0); [lia|].
    rewrite (IH (n - 1)%Z) by lia. cbn [bind]. f_equal. replace n with (Z.of_nat (S k)) by lia. rewrite <- Nat2Z.inj_mul. reflexivity.
Qed.
Theorem C45_negative : forall (n : Z) fuel, (n < 0)%Z -> factorial fuel n = Ok 1%Z.
Proof. intros n fuel H. destruct fuel; cbn; destruct (Z.leb_spec n 0); auto; lia. Qed.
Theorem C45_recurrence : forall (n : Z) fuel, (0 < n)%Z -> (Z.to_nat n <= fuel)%nat ->
  exists x, factorial fuel (n - 1) = Ok x /\ factorial fuel n = Ok (n * x)%Z.
Proof.
  intros n fuel Hn Hf. eexists. rewrite !C45_factorial by lia. split; [reflexivity|]. f_equal.
  replace (Z.to_nat n) with (S (Z.to_nat (n - 1))) by lia. change (fact (S (Z.to_nat (n - 1)))) with (S (Z.to_nat (n - 1)) * fact (Z.to_nat (n - 1))).
  rewrite Nat2Z.inj_mul. f_equal. lia.
Qed.

(** * C46 powm: the cases that throw *)
Theorem C46_zero_dimension : forall A r c f k, reads A r c f -> r = 0 \/ c = 0 -> powm A k = Throw.
Proof.
  intros A r c f k (Ar & Ac & _) H. unfold powm. rewrite Ar, Ac.
  destruct (C21_zero_dimension_throws (T:=T) r c o1 H) as (E & _). rewrite E. reflexivity.
Qed.
Theorem C46_not_square : forall A r c f k, reads A r c f -> 0 < r -> 0 < c -> r <> c -> 0 < k -> powm A k = Throw.
Proof.
  intros A r c f k HA Hr Hc N Hk. destruct HA as (Ar & Ac & Az & As & Ag). unfold powm. rewrite Ar, Ac.
  destruct (C21_eye (T:=T) r c o1 Hr Hc As) as (m & E & Hm). rewrite E. cbn [bind].
  destruct k as [|k]; [lia|]. unfold for_range. rewrite Nat.sub_0_r. cbn [for_n].
  assert (HA : reads A r c f) by (repeat split; auto; apply As).
  assert (E1 : m_imul Root (fun _ => A) m = Throw).
  { apply (C34_throws m r c _ Root r c (fun _ => A) Hm eq_refl). rewrite Ar. auto. }
  rewrite E1. reflexivity.
Qed.
Theorem C46_zeroth_power : forall A r c f, reads A r c f -> 0 < r -> 0 < c ->
  exists m, powm A 0 = Ok m /\ is_mat m r c (fun i j => if i =? j then o1 else o0).
Proof.
  intros A r c f (Ar & Ac & _ & As & _) Hr Hc. unfold powm. rewrite Ar, Ac.
  destruct (C21_eye (T:=T) r c o1 Hr Hc As) as (m & E & Hm). rewrite E. exists m. split; [reflexivity|exact Hm].
Qed.

(** * C47 conjugate_transpose, for any conjugation *)
Theorem C47_conjugate_transpose : forall (conj : T -> T) A r c f, reads A r c f ->
  exists m, conjugate_transpose conj A = Ok m /\ is_mat m c r (fun j i => conj (f i j)).
Proof. intros conj A r c f H. apply (tmap_ok conj A r c f H). Qed.
Theorem C47_involution : forall (conj : T -> T), (forall x, conj (conj x) = x) -> forall m r c f, is_mat m r c f ->
  exists t, conjugate_transpose conj (mb_of_mat m) = Ok t /\ conjugate_transpose conj (mb_of_mat t) = Ok m.
Proof.
  intros conj Hcc m r c f H. destruct (C47_conjugate_transpose conj _ r c f (is_mat_reads _ _ _ _ H)) as (t & E & Ht). exists t. split; auto.
  destruct (C47_conjugate_transpose conj _ c r _ (is_mat_reads _ _ _ _ Ht)) as (m' & E' & Hm'). rewrite E'. f_equal. eapply is_mat_unique; [exact Hm'|].
  eapply is_mat_ext; [exact H|]. intros i j _ _. rewrite Hcc. reflexivity.
Qed.
Theorem C47_product : forall (conj : T -> T), conj o0 = o0 -> (forall x y, conj (oadd x y) = oadd (conj x) (conj y)) ->
  (forall x y, conj (omul x y) = omul (conj y) (conj x)) ->
  forall A B r n c fa fb, reads A r n fa -> reads B n c fb -> shape_ok r c ->
  exists ab tab ta tb, m_mul A B = Ok ab /\ conjugate_transpose conj (mb_of_mat ab) = Ok tab /\
    conjugate_transpose conj A = Ok ta /\ conjugate_transpose conj B = Ok tb /\ m_mul (mb_of_mat tb) (mb_of_mat ta) = Ok tab.
Proof.
  intros conj C0 Ca Cm A B r n c fa fb HA HB Hs. destruct (mprod_ok A B r n c fa fb HA HB Hs) as (ab & E1 & H1).
  destruct (C47_conjugate_transpose conj _ _ _ _ (is_mat_reads _ _ _ _ H1)) as (tab & E2 & H2).
  destruct (C47_conjugate_transpose conj _ _ _ _ HA) as (ta & E3 & H3). destruct (C47_conjugate_transpose conj _ _ _ _ HB) as (tb & E4 & H4).
  destruct (mprod_ok (mb_of_mat tb) (mb_of_mat ta) c n r _ _ (is_mat_reads _ _ _ _ H4) (is_mat_reads _ _ _ _ H3) (shape_ok_sym _ _ Hs)) as (x & E5 & H5).
  exists ab, tab, ta, tb. repeat split; auto. rewrite E5. f_equal. eapply is_mat_unique; [exact H5|]. eapply is_mat_ext; [exact H2|].
  intros i j Hi Hj. unfold mprod. clear -C0 Ca Cm. induction n as [|n IH]; cbn; auto. rewrite Ca, Cm, IH. reflexivity.
Qed.

(** * Non-square arguments *)
Theorem C48_throws : forall A r c f, reads A r c f -> r <> c -> determinant A = Throw.
Proof. intros A r c f (Ar & Ac & _) N. unfold determinant, is_square. rewrite Ar, Ac. apply Nat.eqb_neq in N. rewrite N. reflexivity. Qed.
Theorem C51_throws : forall A r c f, reads A r c f -> r <> c -> adjoint A = Throw.
Proof. intros A r c f (Ar & Ac & _) N. unfold adjoint, is_square. rewrite Ar, Ac. apply Nat.eqb_neq in N. rewrite N. reflexivity. Qed.
Theorem C52_throws : forall A r c f, reads A r c f -> r <> c -> inverse A = Throw.
Proof. intros A r c f (Ar & Ac & _) N. unfold inverse, is_square. rewrite Ar, Ac. apply Nat.eqb_neq in N. rewrite N. reflexivity. Qed.
Theorem C54_throws : forall A r c f, reads A r c f -> r <> c -> lu_decomposition A = Throw.
Proof. intros A r c f (Ar & Ac & _) N. unfold lu_decomposition, is_square. rewrite Ar, Ac. apply Nat.eqb_neq in N. rewrite N. reflexivity. Qed.

(** * C55 linalg::exp *)
Theorem C55_exp : forall (fexp : T -> T) A r c f, reads A r c f ->
  exists m, exp_m fexp A = Ok m /\ is_mat m c r (fun j i => fexp (f i j)).
Proof. intros fexp A r c f H. apply (tmap_ok fexp A r c f H). Qed.
Theorem C55_exp_is_transposed : forall (fexp : T -> T) A r c f, readsL A r c f ->
  exists t e, transpose A = Ok t /\ mb_map (fun x => Ok (fexp x)) (mb_of_mat t) = Ok e /\ exp_m fexp A = Ok e.
Proof.
  intros fexp A r c f H. destruct (C20_transpose _ _ _ _ (proj1 H)) as (t & E & Ht). destruct (C55_exp fexp _ _ _ _ (proj1 H)) as (e & Ee & He).
  destruct (mb_map_ok (fun x => Ok (fexp x)) (mb_of_mat t) c r _ (fun j i => fexp (f i j)) (is_mat_readsL _ _ _ _ Ht)) as (e' & E' & He'); auto.
  exists t, e'. repeat split; auto. rewrite Ee. f_equal. eapply is_mat_unique; eauto.
Qed.
End P.

Example C20_ex : transpose (mb_of_mat ex23) = Ok (mkM 3 2 [1;4;2;5;3;6]%Z) /\ is_mat ex23 2 3 ex23f /\
  transpose (vmb (PView (mkRange 0 2) (mkRange 1 3) Root) ex23) = Ok (mkM 2 2 [2;5;3;6]%Z).
Proof. split; [vm_compute; reflexivity|]. split; [exact ex23_ok|vm_compute; reflexivity]. Qed.
Example C26_cofactor_ex : cofactor (mb_of_mat ex23) 0 1 = Ok (mkM 1 2 [4;6]%Z) /\ is_mat ex23 2 3 ex23f.
Proof. split; [vm_compute; reflexivity|exact ex23_ok]. Qed.
Example C45_ex : factorial 7 5 = Ok 120%Z /\ factorial 3 (-4) = Ok 1%Z.
Proof. split; reflexivity. Qed.
Example C46_throw_ex : powm (mb_of_mat ex23) 2 = Throw /\ powm (mb_of_mat (mkM 0 3 (@nil Z))) 2 = Throw /\
  powm (mb_of_mat (mkM 2 2 [1;1;1;0]%Z)) 5 = Ok (mkM 2 2 [8;5;5;3]%Z).
Proof. repeat split; vm_compute; reflexivity. Qed.
(** Gaussian integers with their conjugation meet the hypotheses of C47. *)
Definition gadd (x y : Z * Z) : Z * Z := (fst x + fst y, snd x + snd y)%Z.
Definition gmul (x y : Z * Z) : Z * Z := (fst x * fst y - snd x * snd y, fst x * snd y + snd x * fst y)%Z.
Definition gconj (x : Z * Z) : Z * Z := (fst x, - snd x)%Z.
#[local] Instance gops : Ops (Z * Z) := {
  o0 := (0, 0)%Z; o1 := (1, 0)%Z; oadd := gadd; osub := fun x y => (fst x - fst y, snd x - snd y)%Z; omul := gmul;
  oopp := fun x => (- fst x, - snd x)%Z; odiv := fun _ _ => UB; oeq := fun x y => Z.eqb (fst x) (fst y) && Z.eqb (snd x) (snd y);
  olt := fun _ _ => false; ole := fun _ _ => false; ofeq := fun x y => Z.eqb (fst x) (fst y) && Z.eqb (snd x) (snd y);
  oisz := fun x => Z.eqb (fst x) 0 && Z.eqb (snd x) 0; oabs := fun x => x; ofnat := fun n => (Z.of_nat n, 0%Z) }.
Example C47_ex : conjugate_transpose gconj (mb_of_mat (mkM 1 2 [(1,2);(3,-4)]%Z)) = Ok (mkM 2 1 [(1,-2);(3,4)]%Z) /\
  gconj o0 = o0 /\ (forall x, gconj (gconj x) = x) /\ (forall x y, gconj (oadd x y) = oadd (gconj x) (gconj y)) /\
  (forall x y, gconj (omul x y) = omul (gconj y) (gconj x)).
Proof.
  split; [vm_compute; reflexivity|]. split; [reflexivity|].
  repeat split; intros; unfold gconj; cbn; unfold gadd, gmul; cbn;
    repeat match goal with x : (Z * Z)%type |- _ => destruct x end; cbn; f_equal; lia.
Qed.
Example C48_throws_ex : determinant (mb_of_mat ex23) = Throw /\ adjoint (mb_of_mat ex23) = Throw /\ inverse (mb_of_mat ex23) = Throw /\
  lu_decomposition (mb_of_mat ex23) = Throw.
Proof. repeat split; vm_compute; reflexivity. Qed.
Example C55_ex : exp_m (fun x => x * x)%Z (mb_of_mat ex23) = Ok (mkM 3 2 [1;16;4;25;9;36]%Z).
Proof. vm_compute. reflexivity. Qed.
