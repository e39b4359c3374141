(** DetFacts.v: lemmas about determinant, adjoint and inverse over rings and fields. *)
From Verif Require Import LinalgFacts RingM.
From mathcomp Require Import all_ssreflect all_algebra fingroup perm.
From Coq Require Import Ring.
Set Implicit Arguments.
Unset Strict Implicit.
Unset Printing Implicit Defensive.
Import GRing.Theory.
Local Open Scope ring_scope.

Lemma ltbE (a b : nat) : Nat.ltb a b = (a < b)%N.
Proof. by apply/idP/idP => [/Nat.ltb_lt/ltP|/ltP/Nat.ltb_lt]. Qed.
Lemma lebE (a b : nat) : Nat.leb a b = (a <= b)%N.
Proof. by apply/idP/idP => [/Nat.leb_le/leP|/leP/Nat.leb_le]. Qed.
Lemma nateqbE (a b : nat) : Nat.eqb a b = (a == b).
Proof. by apply/idP/idP => [/Nat.eqb_eq/eqP|/eqP/Nat.eqb_eq]. Qed.
Lemma bumpE (p a : nat) : (if Nat.ltb a p then a else S a) = bump p a.
Proof. by rewrite ltbE /bump ltnNge; case: (p <= a)%N. Qed.

Section DetRing.
Variable R : comRingType.
(** The ring operations under fixed names, for the [ring] tactic. *)
Definition rT : Type := GRing.ComRing.sort R.
Definition radd (a b : rT) : rT := GRing.add a b.
Definition rmul (a b : rT) : rT := GRing.mul a b.
Definition ropp (a : rT) : rT := GRing.opp a.
Definition rzero : rT := 0%R.
Definition rone : rT := 1%R.
Lemma R_ring : ring_theory rzero rone radd rmul (fun a b => radd a (ropp b)) ropp eq.
Proof.
  by split; [exact: add0r|exact: addrC|exact: addrA|exact: mul1r|exact: mulrC|exact: mulrA|exact: mulrDl| |exact: subrr].
Qed.
Add Ring RR : R_ring.
Lemma raddE (a b : R) : a + b = radd a b. Proof. by []. Qed.
Lemma rmulE (a b : R) : a * b = rmul a b. Proof. by []. Qed.
Lemma roppE (a : R) : - a = ropp a. Proof. by []. Qed.
Lemma rzeroE : 0 = rzero :> R. Proof. by []. Qed.
Lemma roneE : 1 = rone :> R. Proof. by []. Qed.
Ltac rring := rewrite ?raddE ?rmulE ?roppE ?rzeroE ?roneE; match goal with |- @eq _ ?a ?b => change (@eq rT a b) end; ring.
Implicit Types (f g : nat -> nat -> R).

Lemma fmx_minor n f (i j : 'I_n.+1) : row' i (col' j (fmx n.+1 n.+1 f)) = fmx n n (fminor i j f).
Proof. by apply/matrixP => a b; rewrite !mxE /fminor !bumpE. Qed.
Lemma cofactorE n f (i j : 'I_n.+1) : matrix.cofactor (fmx n.+1 n.+1 f) i j = (-1) ^+ (i + j) * \det (fmx n n (fminor i j f)).
Proof. by rewrite /matrix.cofactor fmx_minor. Qed.
Lemma detS n f : \det (fmx n.+1 n.+1 f) = \sum_(j < n.+1) f 0%N j * ((-1) ^+ j * \det (fmx n n (fminor 0 j f))).
Proof. rewrite (expand_det_row _ ord0). apply: eq_bigr => j _. by rewrite mxE cofactorE add0n. Qed.
Lemma det0 f : \det (fmx 0 0 f) = 1.
Proof. exact: det_mx00. Qed.
Lemma fmx_ext n k f g : (forall i j, (i < n)%N -> (j < k)%N -> f i j = g i j) -> fmx n k f = fmx n k g.
Proof. move=> H. by apply/matrixP => i j; rewrite !mxE H. Qed.

(** The same expansion as a computable function. *)
Fixpoint rsum (n : nat) (g : nat -> rT) : rT := match n with 0%N => rzero | S n => radd (rsum n g) (g n) end.
Fixpoint rsgn (n : nat) : rT := match n with 0%N => rone | S n => ropp (rsgn n) end.
Fixpoint rdet (n : nat) (f : nat -> nat -> rT) : rT :=
  match n with 0%N => rone | S k => rsum (S k) (fun j => rmul (f 0%N j) (rmul (rsgn j) (rdet k (fminor 0 j f)))) end.
Lemma rsgnE n : rsgn n = (-1) ^+ n.
Proof. elim: n => [|n IH] /=; first by rewrite expr0. by rewrite IH exprS mulN1r. Qed.
Lemma rsumE n (g : nat -> R) : rsum n g = \sum_(i < n) g i.
Proof. elim: n => [|n IH] /=; first by rewrite big_ord0. by rewrite IH big_ord_recr. Qed.
Lemma rdetE n f : rdet n f = \det (fmx n n f).
Proof.
  elim: n f => [|n IH] f; first by rewrite det0. rewrite detS.
  have -> : rdet n.+1 f = rsum n.+1 (fun j => rmul (f 0%N j) (rmul (rsgn j) (rdet n (fminor 0 j f)))) by [].
  rewrite rsumE.
  apply: eq_bigr => j _. by rewrite IH rsgnE.
Qed.
Ltac rcomp := cbv [rdet rsum rsgn fminor Nat.ltb Nat.leb]; rring.

Section WithOps.
Variable O : Ops R.
Hypothesis HO : ringO O.
Lemma det2E f : det2 f = \det (fmx 2 2 f).
Proof. rewrite -rdetE /det2 !(opsE HO). rcomp. Qed.
Lemma det3E f : det3 f = \det (fmx 3 3 f).
Proof. rewrite -rdetE /det3 !(opsE HO). rcomp. Qed.
Lemma det4E f : det4 f = \det (fmx 4 4 f).
Proof. rewrite -rdetE /det4 !(opsE HO). rcomp. Qed.
End WithOps.
End DetRing.

(** Values up to 4 x 4, over any commutative ring. *)
Section Small.
Variables (R : comRingType) (O : Ops R).
Hypothesis HO : ringO O.

Lemma det_square (A : MB R) n f : reads A n n f -> is_square A = true.
Proof. move=> [Ar [Ac _]]. by rewrite /is_square Ar Ac Nat.eqb_refl. Qed.
Lemma det_throws (A : MB R) r c f : reads A r c f -> r <> c -> Linalg.determinant A = Throw.
Proof. move=> [Ar [Ac _]] N. rewrite /Linalg.determinant /is_square Ar Ac. by have /Nat.eqb_neq -> := N. Qed.

Lemma det_small (A : MB R) n f : reads A n n f -> (0 < n <= 4)%N -> Linalg.determinant A = Ok (\det (fmx n n f)).
Proof.
  move=> H Hn. rewrite /Linalg.determinant (det_square H) [negb true]/=.
  have [Ar [Ac [_ [_ Ag]]]] := H. rewrite Ac.
  case: n Hn H Ar Ac Ag => [|[|[|[|[|n]]]]] // Hn H Ar Ac Ag; rewrite [_ =? _]/= ?[in X in bind X]/=.
  - by rewrite Ag; [|apply/ltP..]; rewrite ?det_mx11 ?mxE.
  - have [g [-> Hg]] := mget_all_ok _ _ _ H. rewrite /= (det2E HO). congr (Ok (\det _)). by apply: fmx_ext => i j /ltP Hi /ltP Hj; apply: Hg.
  - have [g [-> Hg]] := mget_all_ok _ _ _ H. rewrite /= (det3E HO). congr (Ok (\det _)). by apply: fmx_ext => i j /ltP Hi /ltP Hj; apply: Hg.
  - have [g [-> Hg]] := mget_all_ok _ _ _ H. rewrite /= (det4E HO). congr (Ok (\det _)). by apply: fmx_ext => i j /ltP Hi /ltP Hj; apply: Hg.
Qed.
End Small.

(** ** Elimination over a field *)
Section Big.
Variables (F : fieldType) (O : Ops F).
Hypothesis HF : fieldO O.
Hypothesis HZ : forall x : F, oisz x = (x == 0).
Let HO : ringO O. Proof. by case: HF. Qed.
Implicit Types (f g : nat -> nat -> F).

(** Columns below k are upper triangular. *)
Definition upper n k (U : 'M[F]_n) : Prop := forall i j : 'I_n, (j < k)%N -> (j < i)%N -> U i j = 0.

Lemma upper_det n (U : 'M[F]_n) : upper n U -> \det U = \prod_(i < n) U i i.
Proof.
  move=> H. rewrite -det_tr det_trig; first by apply: eq_bigr => i _; rewrite mxE.
  apply/is_trig_mxP => i j Hij. rewrite mxE. exact: H.
Qed.
Lemma zero_col_det n (U : 'M[F]_n) (k : 'I_n) : upper k U -> (forall i : 'I_n, (k <= i)%N -> U i k = 0) -> \det U = 0.
Proof.
  move=> HU Hk. rewrite /determinant. apply: big1 => s _.
  suff [i Hi] : exists i, U i (s i) = 0 by rewrite (bigD1 i) //= Hi mul0r mulr0.
  have [/existsP [i /andP [H1 H2]]|H] := boolP [exists i : 'I_n, (k <= i)%N && (s i <= k)%N].
    exists i. move: H2. rewrite leq_eqVlt => /orP [/eqP E|L].
      have -> : s i = k by apply: val_inj. exact: Hk.
    apply: HU => //. exact: leq_trans H1.
  exfalso. pose A := [set i : 'I_n | (k <= i)%N]. pose B := [set i : 'I_n | (k < i)%N].
  have HP : B \proper A.
    apply/properP. split; first by apply/subsetP => i; rewrite !inE => /ltnW.
    by exists k; rewrite !inE ?leqnn ?ltnn.
  have HS : s @: A \subset B.
    apply/subsetP => j /imsetP [i]. rewrite inE => Hi ->. rewrite inE ltnNge. apply/negP => L.
    by move/existsP: H; apply; exists i; rewrite Hi L.
  have := subset_leq_card HS. rewrite card_imset; last exact: perm_inj.
  by rewrite leqNgt (proper_card HP).
Qed.

Definition elimf c f : nat -> nat -> F := fun i j =>
  if (c <? i) && (c <=? j) then f i j - f i c / f c c * f c j else f i j.
Lemma elim_mx n (c : 'I_n) f : upper c (fmx n n f) -> f c c != 0 ->
  exists L : 'M[F]_n, [/\ fmx n n (elimf c f) = L *m fmx n n f, \det L = 1 & upper c.+1 (fmx n n (elimf c f))].
Proof.
  move=> HU Hp.
  have Z (i j : 'I_n) : (j < c)%N -> (j < i)%N -> f i j = 0 by move=> H1 H2; have := HU i j H1 H2; rewrite mxE.
  pose L : 'M[F]_n := \matrix_(i, j) ((i == j)%:R - (if (c < i)%N then f i c / f c c else 0) * (j == c)%:R).
  exists L. split.
  - apply/matrixP => i j. rewrite !mxE /elimf ltbE lebE.
    under eq_bigr => k _ do rewrite !mxE mulrBl. rewrite sumrB.
    rewrite (bigD1 i) //= eqxx mul1r big1 ?addr0; last by move=> k /negbTE; rewrite eq_sym => ->; rewrite mul0r.
    rewrite (bigD1 c) //= eqxx mulr1 big1 ?addr0; last by move=> k /negbTE ->; rewrite mulr0 mul0r.
    case: ltnP => Hci /=; last by rewrite mul0r subr0.
    case: leqP => Hcj //. by rewrite (Z c j) // mulr0 subr0.
  - rewrite det_trig.
      apply: big1 => i _. rewrite mxE eqxx. have [->|N] := eqVneq i c; first by rewrite ltnn mul0r subr0.
      by rewrite mulr0 subr0.
    apply/is_trig_mxP => i j Hij. rewrite mxE. have -> : (i == j) = false by apply/negP => /eqP E; rewrite E ltnn in Hij.
    have [E|N] := eqVneq j c; last by rewrite mulr0 subr0.
    rewrite sub0r mulr1; case: ltnP => H; rewrite ?oppr0 //. by move: Hij; rewrite E ltnNge (ltnW H).
  - move=> i j Hj Hij. rewrite mxE /elimf ltbE lebE. move: Hj. rewrite ltnS leq_eqVlt => /orP [/eqP E|L'].
      have -> : j = c by apply: val_inj. rewrite -E Hij leqnn /= E divfK ?subrr //.
    rewrite [(c <= j)%N]leqNgt L' andbF. exact: Z.
Qed.
Lemma swap_mx n (c k : 'I_n) f : c != k -> upper c (fmx n n f) -> (c <= k)%N ->
  exists P : 'M[F]_n, [/\ fmx n n (fswap c k f) = P *m fmx n n f, \det P = -1 & upper c (fmx n n (fswap c k f))].
Proof.
  move=> N HU Hck. exists (perm_mx (tperm c k)).
  have E : fmx n n (fswap c k f) = perm_mx (tperm c k) *m fmx n n f.
    rewrite -row_permE. apply/matrixP => i j. rewrite !mxE /fswap !nateqbE.
    by case: tpermP => [->|->|/eqP N1 /eqP N2]; rewrite ?eqxx //;
      [case: eqP => // -> | rewrite !(inj_eq val_inj) (negbTE N1) (negbTE N2)].
  split=> //; first by rewrite det_perm odd_tperm N expr1.
  move=> i j Hj Hij. rewrite E -row_permE mxE. apply: HU => //.
  by case: tpermP => [_|_|//]; [exact: leq_trans Hck|].
Qed.

(** What the elimination leaves: k columns are triangular with non-zero diagonal, and
    either all are, or column k is zero from the diagonal down. *)
Definition echelon n k (U : 'M[F]_n) : Prop :=
  [/\ (k <= n)%N, upper k U, (forall i : 'I_n, (i < k)%N -> U i i != 0) &
   (forall i j : 'I_n, val j = k -> (k <= i)%N -> U i j = 0)].

Lemma det_run n (M : 'M[F]_n) todo c (m : Mat.Matrix F) f (P : 'M[F]_n) : is_mat m n n f -> (c + todo = n)%N ->
  fmx n n f = P *m M -> \det P ^+ 2 = 1 -> upper c (fmx n n f) -> (forall i : 'I_n, (i < c)%N -> f i i != 0) ->
  exists d P' U k, [/\ det_loop todo n c m (\det P * \prod_(i < n | (i < c)%N) f i i) = Ok d, U = P' *m M, \det P' ^+ 2 = 1,
    echelon k U & d = \det P' * \prod_(i < n | (i < k)%N) U i i].
Proof.
  elim: todo c m f P => [|todo IH] c m f P Hm Hc EP HP HU Hd.
    exists (\det P * \prod_(i < n | (i < c)%N) f i i), P, (fmx n n f), c. split=> //.
    - move: Hc; rewrite addn0 => Hc. split=> //; first by rewrite Hc.
      + by move=> i Hi; rewrite mxE; apply: Hd.
      + by move=> i j Ej; have := ltn_ord j; rewrite Ej Hc ltnn.
    - congr (_ * _). by apply: eq_bigr => i _; rewrite mxE.
  have Hcn : (c < n)%N by rewrite -Hc addnS ltnS leq_addr.
  pose co := Ordinal Hcn.
  have HdC (det : F) : forall (m' : Mat.Matrix F) f' (P' : 'M[F]_n), is_mat m' n n f' -> fmx n n f' = P' *m M -> \det P' ^+ 2 = 1 ->
      upper c (fmx n n f') -> (forall i : 'I_n, (i < c)%N -> f' i i != 0) -> f' c c != 0 ->
      det = \det P' * \prod_(i < n | (i < c)%N) f' i i ->
      exists d P' U k, [/\ (let* pivot := mat_at m' c c in let* A := det_elim n c pivot m' in det_loop todo n (S c) A (omul det pivot)) = Ok d,
        U = P' *m M, \det P' ^+ 2 = 1, echelon k U & d = \det P' * \prod_(i < n | (i < k)%N) U i i].
    move=> m' f' P' Hm' EP' HP' HU' Hd' Hp Edet.
    rewrite (is_mat_at _ _ _ _ c c Hm'); [|exact/ltP..]. rewrite /bind -/(bind _ _).
    have [|m2 [E2 Hm2]] := det_elim_ok m' n f' c (f' c c) (fun r => f' r c / f' c c) Hm' (elimT ltP Hcn).
      move=> r _ _. by case: HF => _ -> .
    rewrite E2 /bind -/(bind _ _).
    have Hm2' : is_mat m2 n n (elimf c f').
      apply: is_mat_ext; first exact: Hm2. move=> i j _ _ /=. by rewrite /elimf !(opsE HO).
    have [L [EL HL HUL]] := @elim_mx n co f' HU' Hp.
    have EdS : \prod_(i < n | (i < c.+1)%N) elimf c f' i i = \prod_(i < n | (i < c)%N) f' i i * f' c c.
      rewrite (bigD1 co) //= mulrC. congr (_ * _); last by rewrite /elimf ltbE ltnn.
      apply: eq_big => i.
        rewrite ltnS -(inj_eq val_inj) /= [in RHS]ltn_neqAle andbC. by [].
      move=> /andP [Hi _]. by rewrite /elimf ltbE ltnNge -ltnS Hi.
    have -> : omul det (f' c c) = \det (L *m P') * \prod_(i < n | (i < c.+1)%N) elimf c f' i i.
      by rewrite (omulE HO) Edet EdS det_mulmx HL mul1r mulrA.
    apply: IH => //; rewrite ?det_mulmx ?HL ?mul1r //.
    - by rewrite addSn -addnS.
    - by rewrite EL EP' mulmxA.
    - move=> i. rewrite ltnS /elimf ltbE => Hi. rewrite ltnNge Hi /=. move: Hi. rewrite leq_eqVlt => /orP [/eqP -> //|]. exact: Hd'.
  rewrite /=.
  have [[Hz E]|[[k [m' [Hk1 [Hk2 [Hz [Hm' E]]]]]]|[Hz E]]] := det_pivot_ok m n f c (\det P * \prod_(i < n | (i < c)%N) f i i) Hm (elimT ltP Hcn).
  - rewrite E /bind -/(bind _ _). apply: (HdC _ m f P) => //. by rewrite -HZ Hz.
  - rewrite E /bind -/(bind _ _). move/ltP: Hk1 => Hk1. move/ltP: Hk2 => Hk2. pose ko := Ordinal Hk2.
    have [||Q [EQ HQ HUQ]] := @swap_mx n co ko f _ HU.
      by apply/negP => /eqP [E']; rewrite E' ltnn in Hk1. by apply: ltnW.
    apply: (HdC _ m' (fswap c k f) (Q *m P)) => //.
    + by rewrite EQ EP mulmxA.
    + by rewrite det_mulmx HQ mulN1r sqrrN.
    + move=> i Hi. rewrite /fswap !nateqbE. rewrite (ltn_eqF Hi) (ltn_eqF (ltn_trans Hi Hk1)). exact: Hd.
    + rewrite /fswap Nat.eqb_refl -HZ. by rewrite Hz.
    + rewrite !(opsE HO) det_mulmx HQ mulN1r mulrN1 mulNr. congr (- (_ * _)).
      apply: eq_bigr => i Hi. by rewrite /fswap !nateqbE (ltn_eqF Hi) (ltn_eqF (ltn_trans Hi Hk1)).
  - rewrite E /bind. exists (\det P * \prod_(i < n | (i < c)%N) f i i), P, (fmx n n f), c. split=> //.
    + split=> //; first exact: ltnW.
        by move=> i Hi; rewrite mxE; apply: Hd.
      move=> i j Ej Hi. rewrite mxE Ej. apply/eqP. rewrite -HZ. apply: Hz; [exact/leP|exact/ltP].
    + congr (_ * _). by apply: eq_bigr => i _; rewrite mxE.
Qed.

(** The value that [determinant] returns for n = 0 or n >= 5. *)
Lemma det_big (A : MB F) n f : readsL A n n f -> (n = 0 \/ 5 <= n)%N ->
  exists d (P U : 'M[F]_n) k, [/\ Linalg.determinant A = Ok d, U = P *m fmx n n f, \det P = 1 \/ \det P = -1,
    echelon k U & d = \det P * \prod_(i < n | (i < k)%N) U i i].
Proof.
  move=> H Hn. rewrite /Linalg.determinant (det_square (proj1 H)) [negb true]/=.
  have [[Ar [Ac [_ [_ Ag]]]] _] := H. rewrite Ac.
  have Hn' : [/\ n <> 1, n <> 2, n <> 3 & n <> 4]%N by case: Hn => [->|L]; split=> // E; rewrite E in L.
  have -> : (if n =? 1 then mget A 0 0 else if n =? 2 then let* a := mget_all A 2 in Ok (det2 a)
    else if n =? 3 then let* a := mget_all A 3 in Ok (det3 a) else if n =? 4 then let* a := mget_all A 4 in Ok (det4 a)
    else let* m := mat_of_mb A in det_loop n n 0 m o1) = (let* m := mat_of_mb A in det_loop n n 0 m o1).
    by case: Hn' => /Nat.eqb_neq -> /Nat.eqb_neq -> /Nat.eqb_neq -> /Nat.eqb_neq ->.
  have [m [-> Hm]] := mat_of_mb_ok _ _ _ _ H. rewrite /bind.
  have := @det_run n (fmx n n f) n 0 m f 1%:M Hm (add0n n).
  rewrite mul1mx det1 expr1n big_pred0 // mulr1 (o1E HO) => D.
  have [|//|d [P [U [k [E1 E2 E3 E4 E5]]]]] := D erefl erefl; first by [].
  exists d, P, U, k. split=> //. move/eqP: E3. rewrite sqrf_eq1 => /orP [] /eqP; by [left|right].
Qed.
Lemma ech_det n (M P U : 'M[F]_n) k d : U = P *m M -> \det P = 1 \/ \det P = -1 -> echelon k U ->
  d = \det P * \prod_(i < n | (i < k)%N) U i i -> d != 0 /\ ((k < n)%N -> \det M = 0) /\ (k = n -> d = \det M).
Proof.
  move=> EU HP [Hk HU Hd Hz] ->. have P0 : \det P != 0 by case: HP => ->; rewrite ?oppr_eq0 oner_eq0.
  have P2 : \det P * \det P = 1 by case: HP => ->; rewrite ?mulrNN mulr1.
  split; [|split].
  - rewrite mulf_neq0 //. apply/prodf_neq0 => i Hi. exact: Hd.
  - move=> L. have := @zero_col_det n U (Ordinal L) HU (fun i => Hz i (Ordinal L) erefl).
    rewrite EU det_mulmx => /eqP. by rewrite mulf_eq0 (negbTE P0) => /eqP.
  - move=> E. have -> : \prod_(i < n | (i < k)%N) U i i = \det U.
      rewrite upper_det; last by move=> i j _; apply: HU; rewrite E. apply: eq_bigl => i. by rewrite E ltn_ord.
    by rewrite EU det_mulmx mulrA P2 mul1r.
Qed.
End Big.
