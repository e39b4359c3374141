(** PropIntInv.v: C104, determinant, adjoint, inverse and div of integer matrices. *)
From Coq Require Import ZArith QArith Qabs Qpower Bool Lia Lqa SpecFloat List.
From Verif Require Import Linalg LinalgFacts LinalgFacts2 Mixed PropMixed Ints PropInt IntInv Float FloatFacts FloatValid FloatRound FloatIOFacts FloatArith FloatSum FloatCmp PropFloat PropFloat2 PropFloatIO PropFloatSum PropFloatCmp FloatLoop PropFloatLin PropFloatSim FloatDet PropFloatDet.
Import ListNotations.
Local Open Scope nat_scope.

(** * Specification *)
(** The integers of a matrix as rational numbers. *)
Definition fracs (f : nat -> nat -> Z) : nat -> nat -> Q := fun i j => inject_Z (f i j).
(** All elements are at most x in size. *)
Definition bounded (n : nat) (f : nat -> nat -> Z) (x : Z) : Prop := forall i j, i < n -> j < n -> (Z.abs (f i j) <= x)%Z.
(** [g] are the doubles of the integers f. *)
Definition as_doubles (f : nat -> nat -> Z) : nat -> nat -> double := fun i j => z_double (f i j).

(** Integers up to 2^53 become doubles exactly. *)
Lemma z_double_exact z : (Z.abs z <= 2 ^ 53)%Z -> proper (z_double z) /\ (dval (z_double z) == inject_Z z)%Q.
Proof.
  intros Hz. destruct fmt2 as [P1 P3]. pose proof (normalize_crt prec64 emax64 P1 z 0 false) as C. fold (z_double z) in C.
  assert (V : is_double (z_double z)) by (apply normalize_valid; exact P1).
  destruct (exact_small (inject_Z z * p2 0) (z_double z) z 0) as [F E]; [reflexivity|lia|exact Hz|exact C|].
  split; [split; [exact V|exact F]|]. change (sval (z_double z)) with (dval (z_double z)) in E. rewrite E. change (p2 0) with 1%Q. ring.
Qed.
Lemma z_double_zero z : (Z.abs z <= 2 ^ 53)%Z -> ((exists s, z_double z = S754_zero s) \/ (exists s, z_double z = inf s)) <-> z = 0%Z.
Proof.
  intros Hz. destruct (z_double_exact z Hz) as [[_ F] V]. split.
  - intros [[s E]|[s E]]; rewrite E in *; [|contradiction]. apply inject_Z_injective. rewrite <- V. reflexivity.
  - intros ->. left. exists false. reflexivity.
Qed.
Section Signed.
Variable w : Z.
Local Instance SO : Ops (option Z) := sops w.
(** [y] is the integer z, equal to q, of size at most c x^k. *)
Definition intR (x : Z) (k c : nat) (y : option Z) (p : Q * Q) : Prop :=
  exists z, y = Some z /\ (inject_Z z == fst p)%Q /\ (Z.abs z <= Z.of_nat c * x ^ Z.of_nat k)%Z.
Lemma checked_abs z b : (Z.abs z <= b)%Z -> (b < 2 ^ (w - 1))%Z -> checked w z = Some z.
Proof. intros H Hb. apply checked_in. unfold in_range. lia. Qed.
Lemma count_lt n x k c : (1 <= x)%Z -> (Z.of_nat (Factorial.fact n) * x ^ Z.of_nat n < 2 ^ (w - 1))%Z -> k <= n -> c <= Factorial.fact n -> (Z.of_nat c * x ^ Z.of_nat k < 2 ^ (w - 1))%Z.
Proof.
  intros Hx H Hk Hw. eapply Z.le_lt_trans; [|exact H]. apply Z.mul_le_mono_nonneg; [lia|lia|apply Z.pow_nonneg; lia|apply Z.pow_le_mono_r; lia].
Qed.
Lemma det_int A n f x : reads A n n (ints f) -> 1 <= n <= 4 -> (1 <= x)%Z -> bounded n f x -> (Z.of_nat (Factorial.fact n) * x ^ Z.of_nat n < 2 ^ (w - 1))%Z ->
  exists d, determinant A = Ok (Some d) /\ (inject_Z d == qdet n (fracs f))%Q /\ (Z.abs d <= Z.of_nat (Factorial.fact n) * x ^ Z.of_nat n)%Z.
Proof.
  intros HA Hn Hx Hf HB.
  destruct (@determinant_rel (option Z) (Q * Q) SO vm (intR x) n A (ints f) (fun i j => (fracs f i j, Qabs (fracs f i j))) HA Hn) as (d & E & R).
  - intros k c c' a b a' b' Hk Hw H1 H2 (z & -> & V & B) (z' & -> & V' & B'). pose proof (count_lt n x k (c + c') Hx HB ltac:(lia) Hw) as L.
    rewrite Nat2Z.inj_add, Z.mul_add_distr_r in L. exists (z + z')%Z. split; [|split].
    + change (lift2 w Z.add (Some z) (Some z') = Some (z + z')%Z). cbn [lift2]. eapply checked_abs; [|exact L]. lia.
    + rewrite inject_Z_plus, V, V'. reflexivity.
    + rewrite Nat2Z.inj_add, Z.mul_add_distr_r. lia.
  - intros k c c' a b a' b' Hk Hw H1 H2 (z & -> & V & B) (z' & -> & V' & B'). pose proof (count_lt n x k (c + c') Hx HB ltac:(lia) Hw) as L.
    rewrite Nat2Z.inj_add, Z.mul_add_distr_r in L. exists (z - z')%Z. split; [|split].
    + change (lift2 w Z.sub (Some z) (Some z') = Some (z - z')%Z). cbn [lift2]. eapply checked_abs; [|exact L]. lia.
    + unfold Z.sub. rewrite inject_Z_plus, inject_Z_opp, V, V'. reflexivity.
    + rewrite Nat2Z.inj_add, Z.mul_add_distr_r. lia.
  - intros k k' c c' a b a' b' Hk Hw K1 K2 H1 H2 (z & -> & V & B) (z' & -> & V' & B'). pose proof (count_lt n x (k + k') (c * c') Hx HB Hk Hw) as L.
    assert (M : (Z.abs (z * z') <= Z.of_nat (c * c') * x ^ Z.of_nat (k + k'))%Z).
    { rewrite Nat2Z.inj_mul, Nat2Z.inj_add, Z.pow_add_r, Z.abs_mul by lia.
      replace (Z.of_nat c * Z.of_nat c' * (x ^ Z.of_nat k * x ^ Z.of_nat k'))%Z with (Z.of_nat c * x ^ Z.of_nat k * (Z.of_nat c' * x ^ Z.of_nat k'))%Z by ring.
      apply Z.mul_le_mono_nonneg; [apply Z.abs_nonneg|exact B|apply Z.abs_nonneg|exact B']. }
    exists (z * z')%Z. split; [|split].
    + change (lift2 w Z.mul (Some z) (Some z') = Some (z * z')%Z). cbn [lift2]. eapply checked_abs; [|exact L]. exact M.
    + rewrite inject_Z_mult, V, V'. reflexivity.
    + exact M.
  - intros i j Hi Hj. exists (f i j). split; [reflexivity|]. split; [reflexivity|]. change (Z.of_nat 1) with 1%Z. rewrite Z.pow_1_r, Z.mul_1_l. now apply Hf.
  - destruct R as (z & -> & V & B). exists z. split; [exact E|]. split; [|exact B]. rewrite V. now apply detf_value.
Qed.
(** Up to order 4 the determinant of integers is exact while n! times the n-th power of the largest
    element is in the range of the type. *)
Theorem C104_determinant : forall A n f x, reads A n n (ints f) -> 1 <= n <= 4 -> (1 <= x)%Z -> bounded n f x ->
  (Z.of_nat (Factorial.fact n) * x ^ Z.of_nat n < 2 ^ (w - 1))%Z ->
  exists d, determinant A = Ok (Some d) /\ (inject_Z d == qdet n (fracs f))%Q.
Proof. intros A n f x HA Hn Hx Hf HB. destruct (det_int A n f x HA Hn Hx Hf HB) as (d & E & V & _). eauto. Qed.
Lemma adj_int A n f x : readsL A n n (ints f) -> 1 <= n <= 5 -> (1 <= x)%Z -> bounded n f x -> (Z.of_nat (Factorial.fact (n - 1)) * x ^ Z.of_nat (n - 1) < 2 ^ (w - 1))%Z ->
  exists m h, adjoint A = Ok m /\ is_mat m n n (ints h) /\
    forall i j, i < n -> j < n -> (inject_Z (h i j) == qadj n (fracs f) i j)%Q /\ (Z.abs (h i j) <= Z.of_nat (Factorial.fact (n - 1)) * x ^ Z.of_nat (n - 1))%Z.
Proof.
  intros HA Hn Hx Hf HB. pose proof HA as ((Ar & Ac & _ & Sh & _) & _). destruct (Nat.eq_dec n 1) as [->|N1].
  - destruct (adjoint_1 A _ HA) as (m & E & Hm). exists m, (fun _ _ => 1%Z). split; [exact E|]. split; [exact Hm|].
    intros i j Hi Hj. assert (i = 0) by lia. assert (j = 0) by lia. subst. split; [reflexivity|]. change (1 <= 1 * x ^ 0)%Z. lia.
  - set (B := (Z.of_nat (Factorial.fact (n - 1)) * x ^ Z.of_nat (n - 1))%Z) in *.
    assert (X : forall i j, i < n -> j < n -> exists d, determinant (mb_cof i j A) = Ok (Some d) /\ (inject_Z d == qdet (n - 1) (fminor i j (fracs f)))%Q /\ (Z.abs d <= B)%Z).
    { intros i j Hi Hj. pose proof (cof_readsL A n (ints f) i j HA ltac:(lia)) as HC.
      destruct (det_int (mb_cof i j A) (n - 1) (fminor i j f) x (proj1 HC) ltac:(lia) Hx) as (d & E & V & Bd); [|exact HB|eauto].
      intros a b Ha Hb. unfold fminor. apply Hf; [destruct (a <? i); lia|destruct (b <? j); lia]. }
    set (D := fun i j => match determinant (mb_cof i j A) with Ok (Some d) => d | _ => 0%Z end).
    destruct (adjoint_ok A n _ (fun i j => Some (D i j)) HA N1) as (m & E & Hm).
    { intros i j Hi Hj. destruct (X i j Hi Hj) as (d & Ed & _). unfold D. now rewrite Ed. }
    exists m, (fun i j => if Nat.even (i + j) then D j i else (- D j i)%Z). split; [exact E|]. 
    assert (Y : forall i j, i < n -> j < n -> (inject_Z (D i j) == qdet (n - 1) (fminor i j (fracs f)))%Q /\ (Z.abs (D i j) <= B)%Z).
    { intros i j Hi Hj. destruct (X i j Hi Hj) as (d & Ed & H). unfold D. now rewrite Ed. }
    split.
    + eapply is_mat_ext; [exact Hm|]. intros i j Hi Hj. cbn beta. destruct (Y j i Hj Hi) as [_ YB]. unfold sgnf, ints.
      rewrite <- (Nat.bit0_mod (j + i)), Nat.bit0_odd, <- Nat.negb_even, (Nat.add_comm j i).
      assert (B1 : (1 <= B)%Z) by (unfold B; pose proof (Factorial.lt_O_fact (n - 1)); pose proof (Z.pow_pos_nonneg x (Z.of_nat (n - 1)) ltac:(lia) ltac:(lia)); nia).
      destruct (Nat.even (i + j)); cbn [Nat.b2n negb Nat.eqb].
      * change (lift2 w Z.mul (Some 1%Z) (Some (D j i)) = Some (D j i)). cbn [lift2]. rewrite Z.mul_1_l. now apply (checked_abs _ B).
      * change (lift2 w Z.mul (lift2 w Z.sub (Some 0%Z) (Some 1%Z)) (Some (D j i)) = Some (- D j i)%Z). cbn [lift2]. rewrite (checked_abs (0 - 1) B) by (cbn; lia).
        cbn [lift2]. change (0 - 1)%Z with (-1)%Z. replace (-1 * D j i)%Z with (- D j i)%Z by ring. apply (checked_abs _ B); [lia|exact HB].
    + intros i j Hi Hj. destruct (Y j i Hj Hi) as [YV YB]. unfold qadj, alt. destruct (Nat.even (i + j)); [split; [exact YV|exact YB]|]. rewrite inject_Z_opp, YV. split; [reflexivity|lia].
Qed.
(** The adjoint up to order 5. *)
Theorem C104_adjoint : forall A n f x, readsL A n n (ints f) -> 1 <= n <= 5 -> (1 <= x)%Z -> bounded n f x ->
  (Z.of_nat (Factorial.fact (n - 1)) * x ^ Z.of_nat (n - 1) < 2 ^ (w - 1))%Z ->
  exists m h, adjoint A = Ok m /\ is_mat m n n (ints h) /\ forall i j, i < n -> j < n -> (inject_Z (h i j) == qadj n (fracs f) i j)%Q.
Proof. intros A n f x HA Hn Hx Hf HB. destruct (adj_int A n f x HA Hn Hx Hf HB) as (m & h & E & Hm & H). exists m, h. split; [exact E|]. split; [exact Hm|]. intros i j Hi Hj. now apply H. Qed.
(** The inverse up to order 4, if moreover the bound is at most 2^53 (for int it is): empty exactly
    if the determinant is zero, and otherwise each element is the double nearest to that of the
    exact inverse. *)
Theorem C104_inverse : forall tol, small_tol tol -> forall A n f x, readsL A n n (ints f) -> 1 <= n <= 4 -> (1 <= x)%Z -> bounded n f x ->
  (Z.of_nat (Factorial.fact n) * x ^ Z.of_nat n < 2 ^ (w - 1))%Z -> (Z.of_nat (Factorial.fact n) * x ^ Z.of_nat n <= 2 ^ 53)%Z ->
  ((qdet n (fracs f) == 0)%Q -> inverse_int w tol A = Ok mat_empty) /\
  (~ (qdet n (fracs f) == 0)%Q -> exists m g, inverse_int w tol A = Ok m /\ is_mat m n n g /\
     exists h, inverse_of n (fracs f) h /\ forall i j, i < n -> j < n -> correctly_rounded (h i j) (g i j)).
Proof.
  intros tol Ht A n f x HA Hn Hx Hf HB HB2. destruct (det_int A n f x (proj1 HA) Hn Hx Hf HB) as (d & Ed & Vd & Bd).
  destruct (z_double_exact d ltac:(lia)) as [Pd Zd]. pose proof (z_double_zero d ltac:(lia)) as ZZ. pose proof (C84_zero tol (z_double d) Ht (proj1 Pd)) as FZ.
  pose proof HA as ((Ar & Ac & _ & Sh & _) & _). unfold inverse_int, inverse_in, is_square. rewrite Ar, Ac, Nat.eqb_refl. cbn [negb]. fold SO. rewrite Ed. cbn [bind int_double]. change (@oisz _ (fops tol) (z_double d)) with (fzero tol (z_double d)). split.
  - intros Z. rewrite (proj2 FZ); [reflexivity|]. apply ZZ. apply inject_Z_injective. rewrite Vd. exact Z.
  - intros N. assert (Nd : d <> 0%Z) by (intros ->; apply N; rewrite <- Vd; reflexivity).
    destruct (fzero tol (z_double d)) eqn:E0; [exfalso; apply Nd, ZZ, FZ; reflexivity|].
    assert (HB1 : (Z.of_nat (Factorial.fact (n - 1)) * x ^ Z.of_nat (n - 1) < 2 ^ (w - 1))%Z) by (apply (count_lt n x (n - 1)); auto; [lia|apply fact_mono; lia]).
    assert (HB3 : (Z.of_nat (Factorial.fact (n - 1)) * x ^ Z.of_nat (n - 1) <= 2 ^ 53)%Z) by (apply (count_ok n x (n - 1)); auto; [lia|apply fact_mono; lia]).
    destruct (adj_int A n f x HA ltac:(lia) Hx Hf HB1) as (ma & h & Ea & Ha & Hh). rewrite Ea. cbn [bind].
    destruct (@mat_new_ok double (fops tol) n n (S754_zero false) Sh) as (m0 & E & Hm0). rewrite E. cbn [bind].
    assert (NZ : ~ (dval (z_double d) == 0)%Q) by (rewrite Zd, Vd; exact N).
    destruct (@fill_rc_full double m0 n n (fun _ _ => S754_zero false) (fun r c => let* x := mat_at ma r c in let* x := int_double x in @odiv _ (fops tol) x (z_double d)) (fun i j => SFdiv prec64 emax64 (z_double (h i j)) (z_double d))) as (m & Em & Hm); [exact Hm0| |].
    { intros i j Hi Hj. rewrite (is_mat_at _ _ _ _ i j Ha) by auto. cbn [bind ints int_double]. reflexivity. }
    exists m. eexists. split; [exact Em|]. split; [exact Hm|]. eexists. split; [exact (PropFloatDet.inverse_ok n (fracs f) Hn N)|].
    intros i j Hi Hj. cbn beta. destruct (Hh i j Hi Hj) as [Vh Bh]. destruct (z_double_exact (h i j) ltac:(lia)) as [Ph Zh].
    destruct (div_facts _ _ Ph Pd NZ) as [DD CC]. apply crt_correct; [exact DD|]. eapply crt_wd; [|exact CC]. now rewrite Zh, Vh, Zd, Vd.
Qed.
Theorem C104_not_square : forall tol A, mrows A <> mcols A -> inverse_int w tol A = Throw.
Proof. intros tol A H. unfold inverse_int, inverse_in, is_square. apply Nat.eqb_neq in H. now rewrite H. Qed.
(** div of integer matrices: it throws if B has determinant zero; otherwise row i of A and column j
    of a correctly rounded inverse of B are multiplied as in C89. *)
Theorem C104_div : forall tol, small_tol tol -> forall A B r n f g x y, readsL A r n (ints f) -> readsL B n n (ints g) -> 1 <= n <= 4 -> (1 <= x)%Z -> bounded n g x -> shape_ok r n ->
  (Z.of_nat (Factorial.fact n) * x ^ Z.of_nat n < 2 ^ (w - 1))%Z -> (Z.of_nat (Factorial.fact n) * x ^ Z.of_nat n <= 2 ^ 53)%Z ->
  (forall i j, i < r -> j < n -> (Z.abs (f i j) <= y <= 2 ^ 53)%Z) ->
  ((qdet n (fracs g) == 0)%Q -> div_int w tol A B = Throw) /\
  (~ (qdet n (fracs g) == 0)%Q -> exists m s u h, div_int w tol A B = Ok m /\ is_mat m r n s /\
     inverse_of n (fracs g) h /\ (forall i j, i < n -> j < n -> correctly_rounded (h i j) (u i j)) /\
     (forall i j, i < r -> j < n -> proper (as_doubles f i j) /\ (dval (as_doubles f i j) == inject_Z (f i j))%Q) /\
     forall i j, i < r -> j < n -> dot_bounds n (as_doubles f i) (fun k => u k j) (s i j)).
Proof.
  intros tol Ht A B r n f g x y HA HB Hn Hx Hg Sh H1 H2 Hf. destruct (C104_inverse tol Ht B n g x HB Hn Hx Hg H1 H2) as [I0 I1]. unfold div_int, div_in. fold (inverse_int w). split.
  - intros Z. rewrite (I0 Z). cbn [bind]. unfold m_mul. pose proof HA as ((Ar & Ac & _) & _). cbn [mb_conv mcols mb_of_mat mrows mat_empty rows]. rewrite Ac. destruct n as [|n]; [lia|]. reflexivity.
  - intros N. destruct (I1 N) as (mi & u & Ei & Hu & h & Hh & Hr). rewrite Ei. cbn [bind].
    assert (DU : forall i j, i < n -> j < n -> is_double (u i j)) by (intros i j Hi Hj; destruct (Hr i j Hi Hj) as [[D _]|[[-> _]|[-> _]]]; [exact (proj1 D)|reflexivity|reflexivity]).
    assert (EF : forall i j, i < r -> j < n -> proper (as_doubles f i j) /\ (dval (as_doubles f i j) == inject_Z (f i j))%Q) by (intros i j Hi Hj; apply z_double_exact; specialize (Hf i j Hi Hj); lia).
    destruct (C89_product tol (mb_conv elem_double A) (mb_of_mat mi) r n n (as_doubles f) u) as (m & s & Em & Hm & Hs).
    + exact (reads_conv elem_double A r n (ints f) (proj1 HA)).
    + exact (is_mat_reads _ _ _ _ Hu).
    + exact Sh.
    + intros i Hi j Hj. apply (EF i j Hi Hj).
    + intros j Hj k Hk. now apply DU.
    + exists m, s, u, h. repeat (split; [assumption|]). exact Hs.
Qed.
End Signed.
