(** RingM.v: the vocabulary for element types that form a commutative ring or a
    field, and the bridge to mathcomp's matrices.  Nothing here refers to the
    algorithms of the library. *)
From Verif Require Import MathFacts.
From mathcomp Require Import all_ssreflect all_algebra.
Set Implicit Arguments.
Unset Strict Implicit.
Unset Printing Implicit Defensive.
Import GRing.Theory.
Local Open Scope ring_scope.

(** The element type's arithmetic is that of the commutative ring R. *)
Definition ringO (R : comRingType) (O : Ops R) : Prop :=
  [/\ o0 = 0 :> R, o1 = 1 :> R, (forall x y, oadd x y = x + y) &
   [/\ (forall x y, osub x y = x - y), (forall x y, omul x y = x * y) & (forall x, oopp x = - x)]].
(** ... of the field F; nothing is said about dividing by zero. *)
Definition fieldO (F : fieldType) (O : Ops F) : Prop :=
  [/\ ringO O, (forall x y, y != 0 -> odiv x y = Ok (x / y)) & (forall x y, oeq x y = (x == y))].

(** The elements of a mathcomp matrix, as a function on natural numbers. *)
Definition mxf (R : ringType) r c (M : 'M[R]_(r, c)) (i j : nat) : R :=
  match insub i, insub j with Some i', Some j' => M i' j' | _, _ => 0 end.
Definition fmx (R : ringType) r c (f : nat -> nat -> R) : 'M[R]_(r, c) := \matrix_(i, j) f i j.
(** The library Matrix [m] (or MatrixBase [X]) has the elements of [M]. *)
Definition is_mx (R : ringType) (m : Mat.Matrix R) r c (M : 'M[R]_(r, c)) : Prop := is_mat m r c (mxf M).
Definition reads_mx (R : ringType) (X : MB R) r c (M : 'M[R]_(r, c)) : Prop := readsL X r c (mxf M).

Section Bridge.
Variable R : comRingType.
Implicit Types (f g : nat -> nat -> R).

Lemma mxfE r c (M : 'M[R]_(r, c)) (i : 'I_r) (j : 'I_c) : mxf M i j = M i j.
Proof. by rewrite /mxf !valK. Qed.
Lemma mxf_out r c (M : 'M[R]_(r, c)) i j : ~~ ((i < r) && (j < c))%N -> mxf M i j = 0.
Proof.
  rewrite /mxf. case: (ltnP i r) => Hi; last by rewrite insubF // ltnNge Hi.
  case: (ltnP j c) => Hj //. by rewrite (@insubF _ _ _ j) ?ltnNge ?Hj //; case: insub.
Qed.
Lemma mxf_fmx r c f i j : (i < r)%N -> (j < c)%N -> mxf (fmx r c f) i j = f i j.
Proof. move=> Hi Hj. by rewrite -[i]/(val (Ordinal Hi)) -[j]/(val (Ordinal Hj)) mxfE mxE. Qed.
Lemma fmx_mxf r c (M : 'M[R]_(r, c)) : fmx r c (mxf M) = M.
Proof. by apply/matrixP => i j; rewrite mxE mxfE. Qed.
Lemma is_mx_mat (m : Mat.Matrix R) r c f : is_mat m r c f -> is_mx m (fmx r c f).
Proof. move=> H. apply: is_mat_ext; first exact: H. move=> i j /ltP Hi /ltP Hj. by rewrite mxf_fmx. Qed.
Lemma is_mx_iff (m : Mat.Matrix R) r c f : is_mat m r c f <-> is_mx m (fmx r c f).
Proof.
  split; first exact: is_mx_mat. move=> H. apply: is_mat_ext; first exact: H.
  move=> i j /ltP Hi /ltP Hj. by rewrite mxf_fmx.
Qed.
Lemma readsL_ext (X : MB R) r c f g : readsL X r c f -> (forall i j, (i < r)%N -> (j < c)%N -> f i j = g i j) -> readsL X r c g.
Proof.
  move=> [H1 H2] E. split.
  - apply: reads_ext; first exact: H1. by move=> i j /ltP Hi /ltP Hj; apply: E.
  - move=> k Hk. rewrite (H2 k Hk). congr Ok. apply: E; apply/ltP; [exact: (div_lt_rc _ _ _ Hk)|exact: (mod_lt_rc _ _ _ Hk)].
Qed.
Lemma reads_mxP (X : MB R) r c f : readsL X r c f -> reads_mx X (fmx r c f).
Proof. move=> H. apply: readsL_ext; first exact: H. by move=> i j Hi Hj; rewrite mxf_fmx. Qed.
Lemma is_mx_ext (m : Mat.Matrix R) r c (M N : 'M[R]_(r, c)) : is_mx m M -> M = N -> is_mx m N.
Proof. by move=> H <-. Qed.
Lemma is_mx_reads (m : Mat.Matrix R) r c (M : 'M[R]_(r, c)) : is_mx m M -> reads_mx (mb_of_mat m) M.
Proof. exact: is_mat_readsL. Qed.
Lemma is_mx_unique (m m' : Mat.Matrix R) r c (M : 'M[R]_(r, c)) : is_mx m M -> is_mx m' M -> m = m'.
Proof. exact: is_mat_unique. Qed.
Lemma is_mx_fun (m : Mat.Matrix R) r c (M N : 'M[R]_(r, c)) : is_mx m M -> is_mx m N -> M = N.
Proof.
  move=> H1 H2. apply/matrixP => i j. rewrite -!mxfE. apply: (is_mat_fun _ _ _ _ _ H1 H2); exact/ltP.
Qed.

Section WithOps.
Variable O : Ops R.
Hypothesis HO : ringO O.
Lemma o0E : o0 = 0 :> R. Proof. by case: HO. Qed.
Lemma o1E : o1 = 1 :> R. Proof. by case: HO. Qed.
Lemma oaddE (x y : R) : oadd x y = x + y. Proof. by case: HO. Qed.
Lemma osubE (x y : R) : osub x y = x - y. Proof. by case: HO => _ _ _ []. Qed.
Lemma omulE (x y : R) : omul x y = x * y. Proof. by case: HO => _ _ _ []. Qed.
Lemma ooppE (x : R) : oopp x = - x. Proof. by case: HO => _ _ _ []. Qed.
Definition opsE := (o0E, o1E, oaddE, osubE, omulE, ooppE).

Lemma osumE n (g : nat -> R) : osum n g = \sum_(k < n) g k.
Proof. elim: n => [|n IH] /=; first by rewrite big_ord0 o0E. by rewrite oaddE IH big_ord_recr. Qed.
Lemma mprodE r n c (M : 'M[R]_(r, n)) (N : 'M[R]_(n, c)) i j : (i < r)%N -> (j < c)%N ->
  mprod n (mxf M) (mxf N) i j = mxf (M *m N) i j.
Proof.
  move=> Hi Hj. rewrite /mprod osumE -[i]/(val (Ordinal Hi)) -[j]/(val (Ordinal Hj)) mxfE mxE.
  apply: eq_bigr => k _. by rewrite omulE !mxfE.
Qed.
Lemma m_mul_mx (A B : MB R) r n c (M : 'M[R]_(r, n)) (N : 'M[R]_(n, c)) : reads_mx A M -> reads_mx B N -> shape_ok r c ->
  exists m, m_mul A B = Ok m /\ is_mx m (M *m N).
Proof.
  move=> [HA _] [HB _] Hs. have [m [E H]] := m_mul_ok A B r n c (mxf M) (mxf N) HA HB Hs.
  exists m. split=> //. apply: is_mat_ext; first exact: H. move=> i j /ltP Hi /ltP Hj. exact: mprodE.
Qed.
End WithOps.
End Bridge.
