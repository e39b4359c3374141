(** PropInt2.v: C87, unsigned elements, and examples for C86 and C87. *)
From Verif Require Import LinalgFacts2 PropMath PropLinalg Ints PropInt.
Import ListNotations.
Local Open Scope Z_scope.

Section Unsigned.
Variable w : Z.
Hypothesis Hw : 1 <= w.
Notation UO := (uops w).
Notation M := (2 ^ w).
(** The values of the type. *)
Definition is_unsigned (z : Z) : Prop := 0 <= z < M.
Lemma M_pos : 0 < M. Proof. apply Z.pow_pos_nonneg; lia. Qed.
Lemma osum_u n g : @osum _ UO n g = zsum n g mod M.
Proof.
  induction n as [|n IH]; cbn [osum zsum oadd o0 uops]; [rewrite Z.mod_0_l by (pose proof M_pos; lia); reflexivity|].
  rewrite IH, Z.add_mod_idemp_l by (pose proof M_pos; lia). reflexivity.
Qed.
Lemma zsum_mod n g h : (forall k, (k < n)%nat -> g k mod M = h k mod M) -> zsum n g mod M = zsum n h mod M.
Proof.
  pose proof M_pos. induction n as [|n IH]; intros E; cbn [zsum]; [reflexivity|].
  rewrite Z.add_mod, IH, E, <- Z.add_mod by (try lia; intros; apply E; lia). reflexivity.
Qed.
Lemma osum_prod_u n (a b : nat -> Z) : @osum _ UO n (fun k => @omul _ UO (a k) (b k)) = zsum n (fun k => a k * b k) mod M.
Proof.
  rewrite osum_u. apply zsum_mod. intros k _. cbn [omul uops]. apply Z.mod_mod. pose proof M_pos. lia.
Qed.
(** * C87: everything is the mathematical result modulo 2^w. *)
Theorem C87_elementwise A B r c fa fb : @readsL Z A r c fa -> readsL B r c fb ->
  (exists m, @m_add _ UO A B = Ok m /\ is_mat m r c (fun i j => (fa i j + fb i j) mod M)) /\
  (exists m, @m_sub _ UO A B = Ok m /\ is_mat m r c (fun i j => (fa i j - fb i j) mod M)) /\
  (forall s, exists m, @m_muls _ UO A s = Ok m /\ is_mat m r c (fun i j => (fa i j * s) mod M)).
Proof.
  intros HA HB. split; [|split].
  - apply (@C32_add _ UO A B _ _ _ _ _ _ HA HB); reflexivity.
  - apply (@C32_sub _ UO A B _ _ _ _ _ _ HA HB); reflexivity.
  - intros s. apply (proj1 (@C32_mul_scalar _ UO s) A r c _ HA).
Qed.
Theorem C87_sum v n f : is_vec v n f -> @sum _ UO v = Ok (zsum n f mod M).
Proof. intros H. rewrite (@C39_sum _ UO v n f H), osum_u. reflexivity. Qed.
Theorem C87_dot a b n fa fb : is_vec a n fa -> is_vec b n fb -> @dot _ UO a b = Ok (zsum n (fun k => fa k * fb k) mod M).
Proof. intros Ha Hb. rewrite (proj2 (@C35_dot _ UO a b n fa n fb Ha Hb) eq_refl), osum_prod_u. reflexivity. Qed.
Theorem C87_product A B r n c fa fb : @reads Z A r n fa -> reads B n c fb -> shape_ok r c ->
  exists m, @m_mul _ UO A B = Ok m /\ is_mat m r c (fun i j => zprod n fa fb i j mod M).
Proof.
  intros HA HB Hs. destruct (proj2 (@C33_product _ UO A B r n fa n c fb HA HB Hs) eq_refl) as (m & E & Hm). exists m. split; [exact E|].
  eapply is_mat_ext; [exact Hm|]. intros i j _ _. apply (osum_prod_u n (fa i) (fun k => fb k j)).
Qed.
(** The k-th power of f, with the product on the right, as powm multiplies. *)
Fixpoint zpow (n : nat) (f : nat -> nat -> Z) (k : nat) : nat -> nat -> Z :=
  match k with O => fun i j => if (i =? j)%nat then 1 else 0 | S k => zprod n (zpow n f k) f end.
Theorem C87_powm A n f k : @reads Z A n n f -> (0 < n)%nat -> exists m, @powm _ UO A k = Ok m /\ is_mat m n n (fun i j => zpow n f k i j mod M).
Proof.
  intros HA Hn. pose proof M_pos as PM. assert (HA' := HA). destruct HA' as (Ar & Ac & _ & Sh & _). unfold powm. rewrite Ar, Ac.
  destruct (@eye_ok _ UO n n (1 mod M) Hn Hn Sh) as (m0 & E0 & H0). cbn [o1 uops]. rewrite E0. cbn [bind].
  destruct (for_range_inv (fun t m => is_mat m n n (fun i j => zpow n f t i j mod M)) 0 k (fun _ R => @m_imul _ UO Root (fun _ => A) R) m0) as (m & E & H).
  - lia.
  - eapply is_mat_ext; [exact H0|]. intros i j _ _. cbn [zpow o0 uops]. destruct (i =? j)%nat; [reflexivity|]. rewrite Z.mod_0_l by lia. reflexivity.
  - intros t s _ Hs. rewrite (@C34_same_as_product _ UO s n n _ A f Hs HA).
    destruct (C87_product (mb_of_mat s) A n n n _ f (is_mat_reads _ _ _ _ Hs) HA Sh) as (m' & E' & H'). exists m'. split; [exact E'|].
    eapply is_mat_ext; [exact H'|]. intros i j _ _. cbn [zpow]. unfold zprod. apply zsum_mod. intros q _. cbn beta. apply Z.mul_mod_idemp_l. lia.
  - exists m. auto.
Qed.
(** Determinants up to 4 x 4 (the closed formulas). *)
Definition cong (x z : Z) : Prop := x = z mod M.
Lemma cong_add x z x' z' : cong x z -> cong x' z' -> cong (@oadd _ UO x x') (z + z').
Proof. pose proof M_pos. unfold cong. intros -> ->. cbn. rewrite <- Z.add_mod by lia. reflexivity. Qed.
Lemma cong_sub x z x' z' : cong x z -> cong x' z' -> cong (@osub _ UO x x') (z - z').
Proof. unfold cong. intros -> ->. cbn. symmetry. apply Zminus_mod. Qed.
Lemma cong_mul x z x' z' : cong x z -> cong x' z' -> cong (@omul _ UO x x') (z * z').
Proof. pose proof M_pos. unfold cong. intros -> ->. cbn. rewrite <- Z.mul_mod by lia. reflexivity. Qed.
Theorem C87_determinant A n f : @readsL Z A n n f -> (forall i j, (i < n)%nat -> (j < n)%nat -> is_unsigned (f i j)) -> (1 <= n <= 4)%nat ->
  exists d, @determinant Z zops A = Ok d /\ @determinant Z UO A = Ok (d mod M).
Proof.
  intros HA Hf Hn. assert (HA' := HA). destruct HA' as ((Ar & Ac & _ & _ & Ag) & _).
  unfold determinant, is_square. rewrite Ar, Ac, Nat.eqb_refl. cbn [negb].
  assert (Cases : n = 1%nat \/ n = 2%nat \/ n = 3%nat \/ n = 4%nat) by lia.
  destruct Cases as [->|[->|[->| ->]]]; cbv beta iota zeta delta [Nat.eqb].
  - rewrite Ag by lia. eexists. split; [reflexivity|]. f_equal. symmetry. apply Z.mod_small. apply Hf; lia.
  - destruct (@mget_all_ok _ UO A 2 _ (proj1 HA)) as (g & -> & Hg). destruct (@mget_all_ok _ zops A 2 _ (proj1 HA)) as (h & -> & Hh). cbn [bind].
    assert (E : forall i j, (i < 2)%nat -> (j < 2)%nat -> cong (g i j) (h i j)) by (intros i j Hi Hj; rewrite Hg, Hh by auto; symmetry; apply Z.mod_small, Hf; auto).
    eexists. split; [reflexivity|]. f_equal. apply cong_sub; apply cong_mul; apply E; lia.
  - destruct (@mget_all_ok _ UO A 3 _ (proj1 HA)) as (g & -> & Hg). destruct (@mget_all_ok _ zops A 3 _ (proj1 HA)) as (h & -> & Hh). cbn [bind].
    assert (E : forall i j, (i < 3)%nat -> (j < 3)%nat -> cong (g i j) (h i j)) by (intros i j Hi Hj; rewrite Hg, Hh by auto; symmetry; apply Z.mod_small, Hf; auto).
    eexists. split; [reflexivity|]. f_equal. unfold det3. change (@omul Z zops) with Z.mul. change (@oadd Z zops) with Z.add. change (@osub Z zops) with Z.sub.
    match goal with |- ?l = ?z mod _ => change (cong l z) end.
    repeat match goal with |- cong (oadd _ _) _ => apply cong_add | |- cong (osub _ _) _ => apply cong_sub | |- cong (omul _ _) _ => apply cong_mul end; apply E; lia.
  - destruct (@mget_all_ok _ UO A 4 _ (proj1 HA)) as (g & -> & Hg). destruct (@mget_all_ok _ zops A 4 _ (proj1 HA)) as (h & -> & Hh). cbn [bind].
    assert (E : forall i j, (i < 4)%nat -> (j < 4)%nat -> cong (g i j) (h i j)) by (intros i j Hi Hj; rewrite Hg, Hh by auto; symmetry; apply Z.mod_small, Hf; auto).
    eexists. split; [reflexivity|]. f_equal. unfold det4. cbv zeta. change (@omul Z zops) with Z.mul. change (@oadd Z zops) with Z.add. change (@osub Z zops) with Z.sub.
    match goal with |- ?l = ?z mod _ => change (cong l z) end.
    repeat match goal with |- cong (oadd _ _) _ => apply cong_add | |- cong (osub _ _) _ => apply cong_sub | |- cong (omul _ _) _ => apply cong_mul end; apply E; lia.
Qed.
(** factorial(n) is n! modulo 2^w. *)
Theorem C87_factorial fuel n : (n <= fuel)%nat -> Z.of_nat n < M -> factorial_u w fuel (Z.of_nat n) = Ok (zfact n mod M).
Proof.
  pose proof M_pos. revert fuel. induction n as [|n IH]; intros fuel Hf Hn; [destruct fuel; reflexivity|].
  destruct fuel as [|fuel]; [lia|]. cbn [factorial_u]. destruct (Z.leb_spec (Z.of_nat (S n)) 0); [lia|].
  replace (Z.of_nat (S n) - 1) with (Z.of_nat n) by lia. rewrite Z.mod_small by lia. rewrite IH by lia. cbn [bind]. f_equal.
  rewrite Z.mul_mod_idemp_r by lia. reflexivity.
Qed.
End Unsigned.

(** * Examples *)
Definition big : Z := 2000000000.
Example C86_ex : @m_add _ (sops 32) (mb_of_mat (mkM 1 2 [Some big; Some 1])) (mb_of_mat (mkM 1 2 [Some big; Some 2])) = Ok (mkM 1 2 [None; Some 3]) /\
  @sum _ (sops 32) [Some big; Some big; Some (- big)] = Ok None /\ @sum _ (sops 32) [Some big; Some (- big); Some big] = Ok (Some big) /\
  @m_mul _ (sops 32) (mb_of_mat (mkM 1 2 [Some 3; Some 4])) (mb_of_mat (mkM 2 1 [Some 5; Some (- 6)])) = Ok (mkM 1 1 [Some (-9)]) /\
  @determinant _ (sops 32) (mb_of_mat (mkM 2 2 [Some 3; Some 4; Some 5; Some 6])) = Ok (Some (-2)) /\
  @determinant _ (sops 32) (mb_of_mat (mkM 2 2 [Some 100000; Some 1; Some 1; Some 100000])) = Ok None /\
  factorial_s 32 20 12 = Ok (Some 479001600) /\ factorial_s 32 20 13 = Ok None.
Proof. vm_compute. repeat split. Qed.
Example C87_ex : @m_sub _ (uops 32) (mb_of_mat (mkM 1 2 [1; 5])) (mb_of_mat (mkM 1 2 [2; 3])) = Ok (mkM 1 2 [4294967295; 2]) /\
  @determinant _ (uops 32) (mb_of_mat (mkM 2 2 [3; 4; 5; 6])) = Ok 4294967294 /\ factorial_u 32 20 13 = Ok 1932053504.
Proof. vm_compute. repeat split. Qed.
