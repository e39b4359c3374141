(** PropFloatBigDet.v: C114, determinants of doubles of order 5 and above: the result is close
    to the exact determinant of a matrix close to the given one. *)
From Coq Require Import ZArith QArith Qabs Qpower Bool Lia Lqa SpecFloat List.
From Verif Require Import LinalgFacts2 DetPlain Float FloatFacts FloatValid FloatRound FloatIOFacts FloatArith FloatSum FloatLU PropFloat PropFloat2 PropFloatIO PropFloatSum PropFloatCmp PropFloatLU FloatLoop FloatDet PropFloatDet FloatBigDet QDet.
Import ListNotations.
Local Open Scope nat_scope.

(** * Specification (with [unit], [tiny], [growth] of PropFloatSum.v, [back_growth], [exact_product] and [abs_product] of
    PropFloatLU.v, [qdet] of PropFloatDet.v and [swaps] of DetPlain.v) *)
(** The product of the first n numbers of g. *)
Fixpoint product (n : nat) (g : nat -> Q) : Q := match n with 0 => 1%Q | S n => (product n g * g n)%Q end.
(** What underflows in the course of a product can amount to, in units of [tiny]. *)
Fixpoint underflows (n : nat) (g : nat -> Q) : Q := match n with 0 => 0%Q | S n => (underflows n g * Qabs (g n) * (1 + unit) + 1)%Q end.
(** [p] and [q] are orders of n rows, inverse to each other; [b]: an odd number of exchanges leads to p. *)
Definition orders (n : nat) (p q : nat -> nat) (b : bool) : Prop :=
  swaps n p b /\ forall i, i < n -> p i < n /\ q i < n /\ p (q i) = i /\ q (p i) = i.
Definition sign (b : bool) : Q := if b then (-1)%Q else 1%Q.
(** x - g 0 - ... - g (m - 1), each difference rounded. *)
Fixpoint minus_all (m : nat) (x : double) (g : nat -> double) : double := match m with 0 => x | S m => SFsub prec64 emax64 (minus_all m x g) (g m) end.
(** L and U are what k steps of elimination make of the rows of f in the order p: element by element, in doubles. *)
Definition eliminates (n : nat) (f : nat -> nat -> double) (k : nat) (p : nat -> nat) (L U : nat -> nat -> double) : Prop :=
  (forall i j, i < n -> j < n -> Nat.min i k <= j -> U i j = minus_all (Nat.min i k) (f (p i) j) (fun t => SFmul prec64 emax64 (L i t) (U t j))) /\
  (forall i t, i < n -> t < i -> t < k -> L i t = SFdiv prec64 emax64 (minus_all t (f (p i) t) (fun s => SFmul prec64 emax64 (L i s) (U s t))) (U t t)).
Definition pivots (U : nat -> nat -> double) (t : nat) : Q := dval (U t t).
(** The bound on the change of element (i, j) that explains the result. *)
Definition det_bound (n : nat) (L U : nat -> nat -> double) (i j : nat) : Q :=
  ((back_growth n - 1) * abs_product n L U i j + inject_Z (Z.of_nat n) * back_growth n * (1 + Qabs (dval (U j j))) * tiny)%Q.

Lemma product_qprod n g : product n g = qprod n g. Proof. induction n as [|n IH]; [reflexivity|]. cbn. now rewrite IH. Qed.
Lemma underflows_spill n g : underflows n g = spill n g. Proof. induction n as [|n IH]; [reflexivity|]. cbn. now rewrite IH. Qed.
Lemma swaps_inv n p b : swaps n p b -> exists q, orders n p q b.
Proof.
  intros H. assert (H0 := H). cut (exists q, forall i, i < n -> p i < n /\ q i < n /\ p (q i) = i /\ q (p i) = i); [intros (q & Q); exists q; split; auto|].
  clear H0. induction H as [|p b i k H (q & IH) Hik Hk].
  - exists (fun a => a). auto.
  - exists (fun a => tau i k (q a)). fold (tau i k). assert (TT : forall a, tau i k (tau i k a) = a).
    { intros a. unfold tau. destruct (Nat.eqb_spec a i) as [->|N1]; [rewrite Nat.eqb_refl; destruct (Nat.eqb_spec k i); lia|]. destruct (Nat.eqb_spec a k) as [->|N2]; [now rewrite Nat.eqb_refl|].
      destruct (Nat.eqb_spec a i); [lia|]. destruct (Nat.eqb_spec a k); [lia|reflexivity]. }
    assert (TN : forall a, a < n -> tau i k a < n) by (intros a Ha; unfold tau; destruct (Nat.eqb_spec a i); [lia|]; destruct (Nat.eqb_spec a k); lia).
    intros a Ha. change (if a =? i then k else if a =? k then i else a) with (tau i k a). destruct (IH (tau i k a) (TN a Ha)) as (P1 & P2 & P3 & P4). destruct (IH a Ha) as (Q1 & Q2 & Q3 & Q4).
    split; [exact P1|]. split; [auto|]. split; [change (p (tau i k (tau i k (q a))) = a); now rewrite TT|]. rewrite P4. apply TT.
Qed.

Section C114.
Variable tol : double.
Hypothesis Ht : small_tol tol.
#[local] Instance O114 : Ops double := fops tol.

(** Every square matrix of doubles, of order 5 or more, is eliminated in k <= n steps to L U: L is lower triangular with
    ones on the diagonal, the first k columns of U are upper triangular, its k pivots are neither zero nor infinite, and if k < n all elements of column k
    from row k on are zero or infinite.  The elements are computed from those of A as [eliminates] says.  If the result is finite and that column is, the rows of A (row i has
    become row q i) are those of L U up to rounding, in all columns that are done, and the result is the product of the
    pivots up to rounding, with the sign of the row exchanges.  If k = n, that product is the determinant of L U with the
    rows put back.  If k < n, every matrix that has the columns up to k of L U with the rows put back is singular. *)
Theorem C114_elimination : forall A n f, readsL A n n f -> 5 <= n -> all_doubles n f ->
  exists d k p q b L U, determinant A = Ok d /\ is_double d /\ k <= n /\ orders n p q b /\
    eliminates n f k p L U /\ all_doubles n L /\ (forall i j, i < n -> j < n -> Nat.min i k <= j -> is_double (U i j)) /\
    (forall i t, i < n -> t < n -> i < t -> L i t = plus_zero) /\ (forall i, i < n -> L i i = one) /\
    (forall i j, i < n -> j < n -> j < i -> j < k -> U i j = plus_zero) /\
    (forall t, t < k -> ~ (exists s, U t t = S754_zero s) /\ ~ (exists s, U t t = inf s)) /\
    (k < n -> forall i, k <= i -> i < n -> (exists s, U i k = S754_zero s) \/ (exists s, U i k = inf s)) /\
    (is_finite d -> (k < n -> forall i, k <= i -> i < n -> is_finite (U i k)) ->
      all_finite n L /\ (forall i j, i < n -> j < n -> j <= k -> is_finite (U i j)) /\
      (forall i j, i < n -> j < n -> j <= k -> is_finite (f i j) /\ (Qabs (exact_product n L U (q i) j - dval (f i j)) <= det_bound n L U (q i) j)%Q) /\
      (Qabs (dval d - sign b * product k (pivots U)) <= (growth k - 1) * Qabs (product k (pivots U)) + tiny * underflows k (pivots U))%Q) /\
    (k = n -> (qdet n (fun i j => exact_product n L U (q i) j) == sign b * product n (pivots U))%Q) /\
    (k < n -> (forall i, k <= i -> i < n -> is_finite (U i k)) ->
      forall g, (forall i j, i < n -> j <= k -> (g i j == exact_product n L U (q i) j)%Q) -> (qdet n g == 0)%Q).
Proof.
  intros A n f HA Hn Hf. destruct (@det_plain double O114 (SFdiv prec64 emax64) (fun x d => eq_refl) n f A HA Hn) as (k & p & e & L & U & Hk & HE & HS & E).
  assert (SW := el_swaps _ _ _ _ _ _ _ _ HE). destruct (swaps_inv n p _ SW) as (q & OR). assert (Hp : forall i, i < n -> p i < n) by (intros i Hi; apply (proj2 OR i Hi)).
  assert (DL := big_L tol n k f L U p e Hk HE Hp Hf). assert (DU := big_U tol n k f L U p e Hk HE Hp Hf).
  assert (DD : is_double (dprod e U k)) by (apply (dprod_isd tol n k f L U p e Hk HE Hp Hf); lia).
  assert (ZL : forall i t, i < n -> t < n -> i < t -> facL k L i t = plus_zero).
  { intros i t Hi Htn Hit. unfold facL. destruct (Nat.ltb_spec t (Nat.min i k)); [lia|]. destruct (Nat.eqb_spec t i); [lia|reflexivity]. }
  assert (OL : forall i, i < n -> facL k L i i = one).
  { intros i Hi. unfold facL. destruct (Nat.ltb_spec i (Nat.min i k)); [lia|]. rewrite Nat.eqb_refl. reflexivity. }
  assert (DFL : all_doubles n (facL k L)).
  { intros i t Hi Htn. unfold facL. destruct (Nat.ltb_spec t (Nat.min i k)); [apply DL; lia|]. destruct (t =? i); reflexivity. }
  assert (UE : forall i j, Nat.min i k <= j -> facU k U i j = U i j).
  { intros i j H. unfold facU. destruct (Nat.ltb_spec j (Nat.min i k)); [lia|reflexivity]. }
  assert (ZU : forall i j, i < n -> j < n -> j < i -> j < k -> facU k U i j = plus_zero).
  { intros i j Hi Hj Hji Hjk. unfold facU. destruct (Nat.ltb_spec j (Nat.min i k)); [reflexivity|lia]. }
  exists (dprod e U k), k, p, q, (flips e k), (facL k L), (facU k U).
  split; [exact E|]. split; [exact DD|]. split; [exact Hk|]. split; [exact OR|].
  assert (MA : forall m x g g', (forall t, t < m -> g t = g' t) -> osubs m x g = minus_all m x g').
  { induction m as [|m IH]; intros x g g' Hg; [reflexivity|]. cbn [osubs minus_all]. rewrite (IH x g g'), Hg by auto. reflexivity. }
  assert (LE : forall i t, t < i -> t < k -> facL k L i t = L i t).
  { intros i t H1 H2. unfold facL. destruct (Nat.ltb_spec t (Nat.min i k)); [reflexivity|lia]. }
  split.
  { split.
    - intros i j Hi Hj Hm. rewrite UE by auto. rewrite (el_upper _ _ _ _ _ _ _ _ HE i j Hi Hj Hm). apply MA. intros t Htm. rewrite LE, UE by lia. reflexivity.
    - intros i t Hi Hti Htk. rewrite LE by auto. rewrite (el_lower _ _ _ _ _ _ _ _ HE i t Hi Htk Hti), UE by lia. f_equal. apply MA. intros s Hs. rewrite LE, UE by lia. reflexivity. }
  split; [exact DFL|]. split; [intros i j Hi Hj Hm; rewrite UE by auto; now apply DU|]. split; [exact ZL|]. split; [exact OL|].
  split; [exact ZU|].
  assert (STU : k < n -> forall i, k <= i -> i < n -> (exists s, facU k U i k = S754_zero s) \/ (exists s, facU k U i k = inf s)).
  { intros H i H1 H2. rewrite UE by lia. apply (C84_zero tol (U i k) Ht); [apply DU; lia|]. apply (HS H i H1 H2). }
  split; [|split; [exact STU|split; [|split]]].
  - intros t Htk. rewrite UE by lia. pose proof (el_pivot _ _ _ _ _ _ _ _ HE t Htk) as Z. pose proof (C84_zero tol (U t t) Ht (DU t t ltac:(lia) ltac:(lia) ltac:(lia))) as [_ C].
    change (fzero tol (U t t) = false) in Z. split; intros X; rewrite C in Z by auto; discriminate.
  - intros Fd FS0. assert (FS : k < n -> forall i, k <= i -> i < n -> fin (U i k)) by (intros H i H1 H2; rewrite <- (UE i k) by lia; now apply FS0).
    assert (FL := fin_L tol n k f L U p e Hk HE Hp Hf Fd FS). assert (FU := fin_U tol n k f L U p e Hk HE Hp Hf Fd FS).
    split; [|split; [|split]].
    + intros i t Hi Htn. unfold facL. destruct (Nat.ltb_spec t (Nat.min i k)); [apply FL; lia|]. destruct (t =? i); exact I.
    + intros i j Hi Hj Hjk. unfold facU. destruct (Nat.ltb_spec j (Nat.min i k)); [exact I|apply FU; lia].
    + intros i j Hi Hj Hjk. destruct (proj2 OR i Hi) as (P1 & P2 & P3 & P4).
      destruct (big_backward tol n k f L U p e Hk HE Hp Hf Fd FS (q i) j P2 Hj Hjk) as [F1 B]. rewrite P3 in F1, B. split; [exact F1|].
      unfold det_bound. rewrite back_growth_wr. exact B.
    + pose proof (dprod_err tol n k f L U p e Hk HE Hp Hf k (le_n k) Fd) as B. rewrite product_qprod, underflows_spill, growth_gr.
      assert (EP : forall m, m <= k -> qprod m (pivots (facU k U)) = qprod m (fun t => sval (U t t)) /\ spill m (pivots (facU k U)) = spill m (fun t => sval (U t t))).
      { induction m as [|m IH]; intros Hm; [auto|]. destruct (IH ltac:(lia)) as [I1 I2]. cbn [qprod spill]. rewrite I1, I2. unfold pivots at 1 2. rewrite UE by lia. auto. }
      destruct (EP k (le_n k)) as [-> ->]. exact B.
  - intros ->. assert (LU : (qdet n (exact_product n (facL n L) (facU n U)) == product n (pivots (facU n U)))%Q).
    { assert (X := qdet_mul n (fun i t => dval (facL n L i t)) (fun t j => dval (facU n U t j))). rewrite product_qprod.
      transitivity (qdet n (fun i t => dval (facL n L i t)) * qdet n (fun t j => dval (facU n U t j)))%Q; [exact X|].
      rewrite qdet_lower, qdet_upper, qprod_one; [unfold pivots; ring| | |].
      - intros i Hi. rewrite OL by auto. reflexivity.
      - intros i j Hi Hj H. rewrite ZU by lia. reflexivity.
      - intros i j Hi Hj H. rewrite ZL by lia. reflexivity. }
    rewrite <- LU. set (g := fun i j => exact_product n (facL n L) (facU n U) (q i) j).
    assert (X := @qdet_swaps n p _ g SW). assert (Y : (qdet n (fun i j => g (p i) j) == qdet n (exact_product n (facL n L) (facU n U)))%Q).
    { apply qdet_wd. intros i j Hi Hj. unfold g. destruct (proj2 OR i Hi) as (_ & _ & _ & ->). reflexivity. }
    rewrite <- Y, X. unfold sign. destruct (flips e n); ring.
  - intros H FS g Hg. apply (@qdet_stuck n k (fun i t => dval (facL k L (q i) t)) (fun t j => dval (facU k U t j)) g H); [exact Hg|].
    intros t j H1 H2 H3. destruct (Nat.eq_dec j k) as [->|N]; [|rewrite ZU by lia; reflexivity].
    destruct (STU H t H1 H2) as [[s Es]|[s Es]]; [rewrite Es; reflexivity|]. specialize (FS t H1 H2). rewrite Es in FS. contradiction.
Qed.

(** So there are three cases for a finite result.  All columns are done, and it is the exact determinant of a nearby matrix,
    up to rounding.  Or only zeros are left in column k, a nearby matrix is singular (the elements of the columns after k
    need not be changed), and yet the result is the product of the k pivots found until then.  Or an element of column k has overflowed. *)
Corollary C114_determinant : forall A n f d, readsL A n n f -> 5 <= n -> all_doubles n f -> determinant A = Ok d -> is_finite d ->
  exists k p q b L U, k <= n /\ orders n p q b /\ eliminates n f k p L U /\
  (forall i j, i < n -> j < n -> i < j -> L i j = plus_zero) /\ (forall i, i < n -> L i i = one) /\ (forall i j, i < n -> j < n -> j < i -> j < k -> U i j = plus_zero) /\
  ((k = n /\ exists g, (forall i j, i < n -> j < n -> is_finite (f i j) /\ (Qabs (g i j - dval (f i j)) <= det_bound n L U (q i) j)%Q) /\
      (qdet n g == sign b * product n (pivots U))%Q /\
      (Qabs (dval d - qdet n g) <= (growth n - 1) * Qabs (qdet n g) + tiny * underflows n (pivots U))%Q) \/
   (k < n /\ (forall i, k <= i -> i < n -> exists s, U i k = S754_zero s) /\
      exists g, (forall i j, i < n -> j <= k -> is_finite (f i j) /\ (Qabs (g i j - dval (f i j)) <= det_bound n L U (q i) j)%Q) /\
      (forall i j, i < n -> k < j -> g i j = dval (f i j)) /\ (qdet n g == 0)%Q /\
      (Qabs (dval d - sign b * product k (pivots U)) <= (growth k - 1) * Qabs (product k (pivots U)) + tiny * underflows k (pivots U))%Q) \/
   (k < n /\ exists i s, k <= i /\ i < n /\ U i k = inf s)).
Proof.
  intros A n f d HA Hn Hf Ed Fd. destruct (C114_elimination A n f HA Hn Hf) as (d' & k & p & q & b & L & U & E & _ & Hk & OR & EL & _ & _ & ZL & OL & ZU & _ & ST & B & Q & SG).
  rewrite E in Ed. injection Ed as ->. exists k, p, q, b, L, U. split; [exact Hk|]. split; [exact OR|]. split; [exact EL|]. split; [exact ZL|]. split; [exact OL|]. split; [exact ZU|]. destruct (Nat.eq_dec k n) as [->|N].
  - left. split; [reflexivity|]. destruct (B Fd ltac:(lia)) as (_ & _ & B1 & B2). specialize (Q eq_refl). exists (fun i j => exact_product n L U (q i) j).
    assert (QA : (Qabs (qdet n (fun i j => exact_product n L U (q i) j)) == Qabs (product n (pivots U)))%Q).
    { rewrite Q, Qabs_Qmult. unfold sign. destruct b; change (Qabs (-1)) with 1%Q; change (Qabs 1) with 1%Q; ring. }
    split; [intros i j Hi Hj; apply B1; auto; lia|]. split; [exact Q|]. rewrite QA, Q. exact B2.
  - right. assert (H : k < n) by lia. assert (D : forall m, m <= n -> (forall i, k <= i -> i < m -> is_finite (U i k)) \/ exists i s, k <= i /\ i < n /\ U i k = inf s).
    { induction m as [|m IH]; intros Hm; [left; intros; lia|]. destruct (IH ltac:(lia)) as [I|I]; [|auto]. destruct (le_lt_dec k m) as [Hkm|Hkm].
      - destruct (ST H m Hkm ltac:(lia)) as [[s Es]|[s Es]]; [left|right; exists m, s; auto]. intros i H1 H2. destruct (Nat.eq_dec i m) as [->|]; [rewrite Es; exact Logic.I|apply I; lia].
      - left. intros; lia. }
    destruct (D n (le_n n)) as [FS|FS]; [left|right; auto]. split; [exact H|]. split.
    { intros i H1 H2. destruct (ST H i H1 H2) as [X|[s Es]]; [exact X|]. specialize (FS i H1 H2). rewrite Es in FS. contradiction. }
    destruct (B Fd (fun _ => FS)) as (_ & _ & B1 & B2). exists (fun i j => if j <=? k then exact_product n L U (q i) j else dval (f i j)).
    split; [intros i j Hi Hj; destruct (Nat.leb_spec j k); [apply B1; auto; lia|lia]|]. split; [intros i j Hi Hj; destruct (Nat.leb_spec j k); [lia|reflexivity]|].
    split; [|exact B2]. apply SG; auto. intros i j Hi Hj. destruct (Nat.leb_spec j k); [reflexivity|lia].
Qed.
End C114.

(** * Cases *)
Definition dbl1 (z : Z) : double := match z with Z0 => S754_zero false | Zpos m => binary_normalize prec64 emax64 (Zpos m) 0 false | Zneg m => binary_normalize prec64 emax64 (Zneg m) 0 false end.
Definition five (rows : list (list double)) : Matrix double := mkM 5 5 (concat rows).
Definition ent (m : Matrix double) (i j : nat) : double := nth (i * 5 + j) (data m) (S754_zero false).
Lemma five_reads l : length (concat l) = 25 -> readsL (mb_of_mat (five l)) 5 5 (ent (five l)).
Proof.
  intros H. apply is_mat_readsL. split; [reflexivity|]. split; [reflexivity|]. split; [split; [|split]; vm_compute; reflexivity|]. split; [exact H|].
  intros i j Hi Hj. unfold ent. cbn [data five]. apply nth_error_nth'. rewrite H. lia.
Qed.
Fixpoint all_below (n : nat) (P : nat -> bool) : bool := match n with 0 => true | S n => P n && all_below n P end.
Lemma all_belowP n P : all_below n P = true -> forall i, i < n -> P i = true.
Proof. induction n as [|n IH]; intros H i Hi; [lia|]. cbn in H. apply andb_prop in H. destruct H as [H1 H2]. destruct (Nat.eq_dec i n) as [->|]; [exact H1|apply IH; auto; lia]. Qed.
Lemma five_doubles m : all_below 5 (fun i => all_below 5 (fun j => valid_binary prec64 emax64 (ent m i j))) = true -> all_doubles 5 (ent m).
Proof. intros H i j Hi Hj. exact (all_belowP 5 _ (all_belowP 5 _ H i Hi) j Hj). Qed.
(** Twos on the diagonal, ones beside it. *)
Definition band : Matrix double := five (map (map dbl1) [[2; 1; 0; 0; 0]; [1; 2; 1; 0; 0]; [0; 1; 2; 1; 0]; [0; 0; 1; 2; 1]; [0; 0; 0; 1; 2]]%Z).
Example C114_case : small_tol tol6 /\ readsL (mb_of_mat band) 5 5 (ent band) /\ all_doubles 5 (ent band) /\
  exists d, @determinant double (fops tol6) (mb_of_mat band) = Ok d /\ is_finite d.
Proof. split; [exact tol6_small|]. split; [apply five_reads; reflexivity|]. split; [apply five_doubles; vm_compute; reflexivity|]. exists (S754_finite false 6755399441055744 (-50)). split; [vm_compute; reflexivity|exact I]. Qed.
(** The second case of C114_determinant: the identity with a zero in the last place has the result 1. *)
Definition early : Matrix double := five (map (map dbl1) [[1; 0; 0; 0; 0]; [0; 1; 0; 0; 0]; [0; 0; 1; 0; 0]; [0; 0; 0; 1; 0]; [0; 0; 0; 0; 0]]%Z).
Theorem C114_singular_refuted : readsL (mb_of_mat early) 5 5 (ent early) /\ all_doubles 5 (ent early) /\ (qdet 5 (values (ent early)) == 0)%Q /\
  @determinant double (fops tol6) (mb_of_mat early) = Ok one.
Proof. split; [apply five_reads; reflexivity|]. split; [apply five_doubles; vm_compute; reflexivity|]. split; vm_compute; reflexivity. Qed.
(** The pivots are not chosen by size: for a matrix with elements of size at most 1 and the exact determinant 1 - 2^-60 the result is -1. *)
Definition tiny_pivot : Matrix double := five ([binary_normalize prec64 emax64 1 (-60) false; dbl1 1; dbl1 1; dbl1 0; dbl1 0] ::
  map (map dbl1) [[1; 1; 1; 0; 0]; [1; 1; 0; 0; 0]; [0; 0; 0; 1; 0]; [0; 0; 0; 0; 1]]%Z).
Theorem C114_sign_refuted : small_tol tol6 /\ readsL (mb_of_mat tiny_pivot) 5 5 (ent tiny_pivot) /\ all_doubles 5 (ent tiny_pivot) /\
  (forall i j, i < 5 -> j < 5 -> (Qabs (dval (ent tiny_pivot i j)) <= 1)%Q) /\
  (qdet 5 (values (ent tiny_pivot)) == 1 - 2 ^ (-60))%Q /\
  @determinant double (fops tol6) (mb_of_mat tiny_pivot) = Ok (S754_finite true (2 ^ 52) (-52)).
Proof.
  split; [exact tol6_small|]. split; [apply five_reads; reflexivity|]. split; [apply five_doubles; vm_compute; reflexivity|].
  split; [|split; [vm_compute; reflexivity|vm_compute; reflexivity]].
  intros i j Hi Hj. apply Qle_bool_iff. revert i j Hi Hj. assert (H : all_below 5 (fun i => all_below 5 (fun j => Qle_bool (Qabs (dval (ent tiny_pivot i j))) 1)) = true) by (vm_compute; reflexivity).
  intros i j Hi Hj. exact (all_belowP 5 _ (all_belowP 5 _ H i Hi) j Hj).
Qed.
