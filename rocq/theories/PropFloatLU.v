(** PropFloatLU.v: C90, the LU decomposition of a matrix of doubles: what the product of
    the computed factors is, and when they are finite. *)
From Coq Require Import ZArith QArith Qabs Qpower Bool Lia Lqa SpecFloat List.
From Verif Require Import LinalgFacts2 PropUtil PropMath Float FloatFacts FloatValid FloatRound FloatIOFacts FloatArith FloatSum PropFloat PropFloatIO PropFloatSum FloatLU LUPlain.
Import ListNotations.
Local Open Scope nat_scope.

(** * Specification (with [unit], [tiny], [qsum] of PropFloatSum.v) *)
(** (1 - unit)^-n, the growth of the error over n operations, relative to the computed numbers. *)
Definition back_growth (n : nat) : Q := (/ (1 - unit) ^ Z.of_nat n)%Q.
Definition all_doubles (n : nat) (f : nat -> nat -> double) : Prop := forall i j, i < n -> j < n -> is_double (f i j).
Definition all_finite (n : nat) (f : nat -> nat -> double) : Prop := forall i j, i < n -> j < n -> is_finite (f i j).
(** Element (i, j) of the exact product of two matrices of doubles, and of their absolute values. *)
Definition exact_product (n : nat) (L U : nat -> nat -> double) (i j : nat) : Q := qsum n (fun t => dval (L i t) * dval (U t j))%Q.
Definition abs_product (n : nat) (L U : nat -> nat -> double) (i j : nat) : Q := qsum n (fun t => Qabs (dval (L i t) * dval (U t j)))%Q.
Definition plus_zero : double := S754_zero false.
Definition one : double := S754_finite false (2 ^ 52) (-52).

Lemma back_growth_wr n : (back_growth n == wr n)%Q.
Proof.
  induction n as [|n IH]; [reflexivity|]. unfold back_growth in *. rewrite Nat2Z.inj_succ, <- Z.add_1_r, Qpower_plus by discriminate.
  rewrite Qinv_mult_distr, IH. reflexivity.
Qed.

Section C90.
Variable tol : double.
#[local] Instance Od : Ops double := fops tol.
(** For every square matrix of doubles the decomposition returns two matrices of doubles, lower triangular and
    upper triangular with ones on the diagonal.  If they are finite, so is the matrix, no pivot but the last is zero,
    and their exact product is the matrix up to the given error. *)
Theorem C90_backward : forall A n f, reads A n n f -> all_doubles n f -> exists l u L U, lu_decomposition A = Ok (l, u) /\
  is_mat l n n L /\ is_mat u n n U /\ all_doubles n L /\ all_doubles n U /\
  (forall i j, i < n -> j < n -> i < j -> L i j = plus_zero) /\ (forall i j, i < n -> j < n -> j < i -> U i j = plus_zero) /\ (forall i, i < n -> U i i = one) /\
  (all_finite n L -> all_finite n U -> all_finite n f /\ (forall i, i + 1 < n -> ~ (dval (L i i) == 0)%Q) /\
   forall i j, i < n -> j < n -> (Qabs (exact_product n L U i j - dval (f i j)) <=
     (back_growth (n + 1) - 1) * abs_product n L U i j + inject_Z (Z.of_nat n) * back_growth n * (1 + Qabs (dval (L i i))) * tiny)%Q).
Proof.
  intros A n f HA Hf. destruct (@lu_plain double Od (SFdiv prec64 emax64) A n f (fun x d => eq_refl) HA) as (l & u & L & U & E & Hl & Hu & RL & RU).
  exists l, u, L, U. split; [exact E|]. split; [exact Hl|]. split; [exact Hu|].
  split; [intros i j Hi Hj; apply (lu_isd tol n f L U RL RU Hf i j Hi Hj)|]. split; [intros i j Hi Hj; apply (lu_isd tol n f L U RL RU Hf i j Hi Hj)|].
  split. { intros i j Hi Hj H. rewrite RL by auto. destruct (Nat.ltb_spec i j); [reflexivity|lia]. }
  split. { intros i j Hi Hj H. rewrite RU by auto. destruct (Nat.ltb_spec j i); [reflexivity|lia]. }
  split. { intros i Hi. rewrite RU, Nat.ltb_irrefl, Nat.eqb_refl by auto. reflexivity. }
  intros FL FU. split; [intros i j Hi Hj; apply (lu_backward tol n f L U RL RU Hf FL FU i j Hi Hj)|].
  split. { intros i Hi. destruct (lu_backward tol n f L U RL RU Hf FL FU i (i + 1)) as (_ & P & _); [lia|lia|]. apply P. lia. }
  intros i j Hi Hj. destruct (lu_backward tol n f L U RL RU Hf FL FU i j Hi Hj) as (_ & _ & B). rewrite !back_growth_wr. rewrite Nat.add_1_r. exact B.
Qed.
End C90.

(** * What does not hold *)
Definition two_by_two (a b c d : double) : Mat.Matrix double := mkM 2 2 [a; b; c; d].
Definition entry (m : Mat.Matrix double) (i j : nat) : double := nth (i * 2 + j) (data m) nan.
Lemma two_ok a b c d : is_mat (two_by_two a b c d) 2 2 (entry (two_by_two a b c d)).
Proof.
  unfold is_mat. split; [reflexivity|]. split; [reflexivity|]. split; [repeat split; vm_compute; reflexivity|]. split; [reflexivity|].
  intros i j Hi Hj. destruct i as [|[|i]]; try lia; destruct j as [|[|j]]; try lia; reflexivity.
Qed.
Ltac two_cases := let i := fresh in let j := fresh in intros i j ? ?; destruct i as [|[|i]]; try lia; destruct j as [|[|j]]; try lia; (reflexivity || exact I).
(** There is no pivoting: a finite invertible matrix may have factors that are not finite. *)
Theorem C90_finite_refuted : exists a b c d l u, let A := two_by_two a b c d in
  all_doubles 2 (entry A) /\ all_finite 2 (entry A) /\ ~ (dval a * dval d - dval b * dval c == 0)%Q /\
  @lu_decomposition _ (fops tol6) (mb_of_mat A) = Ok (l, u) /\ is_mat u 2 2 (entry u) /\ ~ all_finite 2 (entry u).
Proof.
  exists plus_zero, one, one, plus_zero. eexists. eexists. cbv zeta. split; [two_cases|]. split; [two_cases|]. split; [intros H; vm_compute in H; discriminate|].
  split; [vm_compute; reflexivity|]. split; [apply two_ok|]. intros H. exact (H 0 1 ltac:(lia) ltac:(lia)).
Qed.
(** So the product of the factors may be as far from the matrix as the matrix is large: the bound is in terms of the factors. *)
Theorem C90_residual_refuted : exists a b c d l u, let A := two_by_two a b c d in
  all_doubles 2 (entry A) /\ (forall i j, i < 2 -> j < 2 -> (Qabs (dval (entry A i j)) <= 1)%Q) /\
  @lu_decomposition _ (fops tol6) (mb_of_mat A) = Ok (l, u) /\ is_mat l 2 2 (entry l) /\ is_mat u 2 2 (entry u) /\ all_finite 2 (entry l) /\ all_finite 2 (entry u) /\
  (Qabs (exact_product 2 (entry l) (entry u) 1 1 - dval d) == 1)%Q.
Proof.
  exists (dbl (2 ^ 52) (-112)), one, one, one. eexists. eexists. cbv zeta. split; [two_cases|].
  split; [intros i j Hi Hj; destruct i as [|[|i]]; try lia; destruct j as [|[|j]]; try lia; vm_compute; discriminate|].
  split; [vm_compute; reflexivity|]. split; [apply two_ok|]. split; [apply two_ok|]. split; [two_cases|]. split; [two_cases|]. vm_compute. reflexivity.
Qed.
(** * A concrete case: 0.3, 0.1, 0.1, 0.3 has finite factors, whose product is not exactly the matrix. *)
Definition d01 : double := dbl 7205759403792794 (-56).
Definition d03 : double := dbl 5404319552844595 (-54).
Example C90_witness : exists l u, let A := two_by_two d03 d01 d01 d03 in
  is_mat A 2 2 (entry A) /\ all_doubles 2 (entry A) /\ @lu_decomposition _ (fops tol6) (mb_of_mat A) = Ok (l, u) /\
  is_mat l 2 2 (entry l) /\ is_mat u 2 2 (entry u) /\ all_finite 2 (entry l) /\ all_finite 2 (entry u) /\ ~ (exact_product 2 (entry l) (entry u) 0 1 == dval d01)%Q.
Proof.
  eexists. eexists. cbv zeta. split; [apply two_ok|]. split; [two_cases|]. split; [vm_compute; reflexivity|]. split; [apply two_ok|]. split; [apply two_ok|]. split; [two_cases|]. split; [two_cases|].
  intros H. vm_compute in H. discriminate.
Qed.
