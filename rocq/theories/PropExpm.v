(** PropExpm.v: the matrix exponential (C56) and continuous to discrete conversion (C63)
    over an archimedean field, in exact arithmetic. *)
From Verif Require Import LinalgFacts2 PropMatrix PropUtil PropMath RingM DetFacts RatOps PropLinalg PropRing PropField PropReal Control ControlSpec ControlFacts PropControl PropControl2.
From mathcomp Require Import all_ssreflect all_algebra.
Set Implicit Arguments.
Unset Strict Implicit.
Unset Printing Implicit Defensive.
Import Order.Theory GRing.Theory Num.Theory.
Local Open Scope ring_scope.

(** The Taylor polynomial of degree K of the exponential at the matrix X. *)
Definition taylor (F : fieldType) n (X : 'M[F]_n.+1) (K : nat) : 'M[F]_n.+1 := \sum_(k < K.+1) (k`!%:R)^-1 *: X ^+ k.

Section E.
Variables (F : archiFieldType) (O : Ops F).
Hypothesis HR : realO O.
Hypothesis HZ : exactZ O.
Hypothesis HE : forall x : F, ofeq x 0 = (x == 0).
Let HF : fieldO O. Proof. by case: HR. Qed.
Let HO : ringO O. Proof. by case: HF. Qed.
Let Hlt x y : olt x y = (x < y) :> bool. Proof. by case: HR. Qed.
Let Hnat k : ofnat k = k%:R :> F. Proof. by case: HR. Qed.
Variable nsqrt : F -> F.
Implicit Types (A : MB F).

Lemma fact_neq0 k : k`!%:R != 0 :> F.
Proof. by rewrite pnatr_eq0 -lt0n fact_gt0. Qed.
Lemma batch_ok n (X : 'M[F]_n.+1) sa todo : forall k mtk acc (S : 'M[F]_n.+1), is_mx sa X -> is_mx mtk (X ^+ k) -> is_mx acc S ->
  exists mtk' acc', [/\ expm_batch todo k.+1 sa (k`!%:R)^-1 mtk acc = Ok (((k + todo)`!%:R)^-1, mtk', acc'), is_mx mtk' (X ^+ (k + todo)) &
    is_mx acc' (S + \sum_(j < todo) ((k + j).+1`!%:R)^-1 *: X ^+ (k + j).+1)].
Proof.
  elim: todo => [|todo IH] k mtk acc S HX Hm Ha /=.
    exists mtk, acc. rewrite addn0 big_ord0 addr0. by split.
  have Hk : k.+1%:R != 0 :> F by rewrite pnatr_eq0. have [_ Hdiv _] := HF.
  rewrite Hnat Hdiv // bindOk (o1E HO) (o0E HO) (omulE HO) HE div1r -invfM -natrM mulnC -factS.
  rewrite (negbTE (invr_neq0 (fact_neq0 k.+1))).
  have Hs := shape_mx (is_mx_reads Hm).
  have [P [-> HP _]] := m_mul_mxL HO (is_mx_reads Hm) (is_mx_reads HX) Hs. rewrite bindOk.
  have HP' : is_mx P (X ^+ k.+1) by rewrite exprSr.
  have Hm' := move_mx Hm HP' isT. move: (fst (mat_move_assign mtk P)) Hm' => mtk' Hm'.
  have [t [-> _ Ht]] := m_muls_mx HO (k.+1`!%:R)^-1 (is_mx_reads Hm'). rewrite bindOk.
  have [acc' [-> Ha']] := m_iadd_mx HF Ha Ht. rewrite bindOk.
  have [mtk2 [acc2 [E Hm2 Ha2]]] := IH k.+1 mtk' acc' _ HX Hm' Ha'. exists mtk2, acc2. rewrite addSnnS in E Hm2. split=> //.
  rewrite big_ord_recl addn0 addrA. apply: is_mx_ext; first exact: Ha2. congr (_ + _). apply: eq_bigr => j _. by rewrite !addSnnS.
Qed.
Lemma taylor_add n (X : 'M[F]_n.+1) a b : taylor X (a + b) = taylor X a + \sum_(j < b) ((a + j).+1`!%:R)^-1 *: X ^+ (a + j).+1.
Proof. rewrite /taylor -addSn big_split_ord /=. by congr (_ + _). Qed.
(** The change made by the last of c batches of b terms is below the bound [sq]: the
    norm of L*L / (S*S + acc), L the last batch and S the sum. *)
Definition settled n (X : 'M[F]_n.+1) (b c : nat) (acc sq : F) : Prop :=
  exists num den err rel, [/\ is_mx num ((taylor X (c * b) - taylor X (c.-1 * b)) ^+ 2), is_mx den (taylor X (c * b) ^+ 2 + const_mx acc),
    div (mb_of_mat num) (mb_of_mat den) = Ok err, square_norm_m (fun x => omul x x) nsqrt (mb_of_mat err) = Ok rel & rel <= sq].
Lemma m_adds_mx A r c (M : 'M[F]_(r, c)) s : reads_mx A M -> exists m, m_adds A s = Ok m /\ is_mx m (M + const_mx s).
Proof.
  move=> HA. have [m [E H]] := C32_add_scalar s A r c (mxf M) HA. exists m. split=> //.
  apply: is_mat_ext; first exact: H. move=> i j /ssrnat.ltP Hi /ssrnat.ltP Hj.
  by rewrite -[i]/(val (Ordinal Hi)) -[j]/(val (Ordinal Hj)) (oaddE HO) !mxfE !mxE.
Qed.
(** The loop: whole batches of terms are added. *)
Lemma loop_ok n A b (X : 'M[F]_n.+1) sa acc0 sq fuel : mrows A = n.+1 -> mcols A = n.+1 -> is_mx sa X ->
  forall c mtk ret rel E, is_mx mtk (X ^+ (c * b)) -> is_mx ret (taylor X (c * b)) ->
  expm_loop nsqrt fuel A b (c * b).+1 sa acc0 sq mtk ret ((c * b)`!%:R)^-1 rel = Ok E ->
  exists c', [/\ (c <= c')%N, sq < rel -> (c < c')%N, c' = c \/ settled X b c' acc0 sq & is_mx E (taylor X (c' * b))] /\ (c' = c -> rel <= sq).
Proof.
  move=> Ar Ac HX. elim: fuel => [|fuel IH] c mtk ret rel E Hm Hr /=; rewrite Hlt HZ (negbTE (invr_neq0 (fact_neq0 _))) andbT.
    case: ltP => // Hle [<-]. exists c. split=> //. split=> //. by left.
  case: (ltP sq rel) => Hlt'; last first. { case=> <-. exists c. split=> //. split=> //; by [left|rewrite ltNge Hlt']. }
  have Hs := shape_mx (is_mx_reads Hm). rewrite Ar Ac.
  have [acc [-> Hacc]] := mat_new_ok n.+1 n.+1 o0 Hs. rewrite bindOk.
  have Hacc' : is_mx acc (0 : 'M[F]_n.+1).
    apply: is_mat_ext; first exact: Hacc. move=> i j /ssrnat.ltP Hi /ssrnat.ltP Hj.
    by rewrite -[i]/(val (Ordinal Hi)) -[j]/(val (Ordinal Hj)) mxfE mxE (o0E HO).
  have [mtk' [acc' [-> Hm' Ha']]] := batch_ok b HX Hm Hacc'. rewrite bindOk. rewrite add0r in Ha'.
  have [ret' [-> Hr']] := m_iadd_mx HF Hr (is_mx_reads Ha'). rewrite bindOk.
  have Ecb : (c * b + b = c.+1 * b)%N by rewrite mulSnr.
  rewrite -taylor_add Ecb in Hr'. rewrite Ecb in Hm'.
  have [num [-> Hnum _]] := m_mul_mxL HO (is_mx_reads Ha') (is_mx_reads Ha') Hs. rewrite bindOk.
  have [sq' [-> Hsq _]] := m_mul_mxL HO (is_mx_reads Hr') (is_mx_reads Hr') Hs. rewrite bindOk.
  have [den [-> Hden]] := m_adds_mx acc0 (is_mx_reads Hsq). rewrite bindOk.
  move=> H. case: (bind_Ok _ _ _ H) => err [Eerr {}H]. case: (bind_Ok _ _ _ H) => rel' [Erel {}H].
  have Est : ((c * b)%N + b)%coq_nat = (c.+1 * b)%N by rewrite -Ecb.
  rewrite Ecb Est in H. have [c' [[Hc _ Hset HE'] Hrel]] := IH c.+1 mtk' ret' rel' E Hm' Hr' H.
  exists c'. split; last by move=> Z; rewrite Z ltnn in Hc.
  split=> //; [exact: ltnW|]. right. case: Hset => // Ec'.
  exists num, den, err, rel'. split=> //; [|by rewrite Ec'|exact: Hrel Ec'].
  rewrite Ec' /= -Ecb taylor_add addrC addKr. exact: Hnum.
Qed.
Lemma squares_ok n (m : Mat.Matrix F) (M : 'M[F]_n.+1) it : is_mx m M ->
  exists m', for_range 0 it (fun _ ret => let* p := m_mul (mb_of_mat ret) (mb_of_mat ret) in Ok (fst (mat_move_assign ret p))) m = Ok m' /\
    is_mx m' (M ^+ (2 ^ it)).
Proof.
  move=> H0. have Hs := shape_mx (is_mx_reads H0).
  have [||i s Hi Hm|m' [E H]] := for_range_inv (fun i m => is_mx m (M ^+ (2 ^ i))) 0 it
    (fun _ ret => let* p := m_mul (mb_of_mat ret) (mb_of_mat ret) in Ok (fst (mat_move_assign ret p))) m.
  - lia.
  - by rewrite expn0 expr1.
  - have [P [-> HP _]] := m_mul_mxL HO (is_mx_reads Hm) (is_mx_reads Hm) Hs. rewrite bindOk. eexists. split; first reflexivity.
    apply: (move_mx Hm) => //. by rewrite expnS mul2n -addnn exprD.
  - by exists m'.
Qed.
Lemma eye_mx n : shape_ok n.+1 n.+1 -> exists m, eye n.+1 n.+1 (o1 : F) = Ok m /\ is_mx m (1%:M : 'M[F]_n.+1).
Proof. move=> Hs. have [m [E H _]] := identity_mx HO (ltn0Sn n) Hs. by exists m. Qed.
Lemma ltr_addr1 (x : F) : x < x + 1. Proof. by rewrite ltr_addl ltr01. Qed.
(** Value of expm, whatever the scaling. *)
Lemma expm_value A n (M : 'M[F]_n.+1) fuel acc s E : reads_mx A M -> log2_ceil oabs (2%:R^-1) fuel A = Ok (s, (2%:R ^+ s)^-1) ->
  expm nsqrt (2%:R^-1) fuel A acc = Ok E ->
  exists c, [/\ (0 < c)%N, settled ((2%:R ^+ s)^-1 *: M) (n.+1 * n.+1) c acc (acc * acc * (2%:R ^+ s)^-1 * (2%:R ^+ s)^-1) &
    is_mx E (taylor ((2%:R ^+ s)^-1 *: M) (c * (n.+1 * n.+1)) ^+ (2 ^ s))].
Proof.
  move=> HA El. rewrite /expm El bindOk. have [[Ar [Ac _]] _] := HA. have As := shape_mx HA.
  have [sa [-> Hsa _]] := m_muls_mx HO (2%:R ^+ s)^-1 HA. rewrite bindOk Ar Ac.
  have [m1 [-> H1]] := eye_mx As. rewrite !bindOk mul64_small; last exact: shape_size.
  move=> H. case: (bind_Ok _ _ _ H) => ret [El1 El2] {H}.
  set b := (n.+1 * n.+1)%coq_nat in El1 *. set X := _ *: M in Hsa *.
  have Ha : is_mx m1 (X ^+ (0 * b)) by rewrite mul0n expr0.
  have Hb : is_mx m1 (taylor X (0 * b)) by rewrite mul0n /taylor big_ord_recl big_ord0 addr0 expr0 invr1 scale1r.
  have Ef : ((0 * b)`!%:R)^-1 = o1 :> F by rewrite mul0n fact0 invr1 (o1E HO).
  have [c [[_ Hc Hset Hret] _]] := loop_ok (c := 0) (rel := oadd _ o1) Ar Ac Hsa Ha Hb (eq_trans (congr1 (fun x => expm_loop _ _ _ _ _ _ _ _ _ _ x _) Ef) El1).
  exists c. rewrite (oaddE HO) (o1E HO) in Hc. have {}Hc := Hc (ltr_addr1 _). split=> //.
    case: Hset => [Z|]; [by rewrite Z in Hc|by rewrite !(omulE HO)].
  have [m' [E' H']] := squares_ok s Hret. move: El2. rewrite E' => -[<-]. exact: H'.
Qed.
Lemma log2_loop_mono (half : F) fuel fuel' norm sc it r : (fuel <= fuel')%N -> log2_loop half fuel norm sc it = Ok r -> log2_loop half fuel' norm sc it = Ok r.
Proof.
  elim: fuel fuel' sc it => [|fuel IH] [|fuel'] sc it //= Hf; case: ifP => // _; exact: IH.
Qed.
Hypothesis Habs : forall x : F, oabs x = `|x|.

(** A Matrix object: s is the least scaling exponent of C43. *)
Theorem C56_expm (m : Mat.Matrix F) n (M : 'M[F]_n.+1) fuel acc E : is_mx m M -> expm nsqrt (2%:R^-1) fuel (mb_of_mat m) acc = Ok E ->
  exists norm s c, [/\ infinity_norm_m oabs (mb_of_mat m) = Ok norm, norm / 2%:R ^+ s <= 1, (forall j, (j < s)%N -> 1 < norm / 2%:R ^+ j), (0 < c)%N &
    is_mx E ((\sum_(k < (c * n.+1 ^ 2).+1) (k`!%:R)^-1 *: ((2%:R ^+ s)^-1 *: M) ^+ k) ^+ (2 ^ s))].
Proof.
  move=> Hm He. have [|norm [s [En H1 H2 H3]]] := C43_log2_ceil (ab := oabs) HR _ Hm; first by move=> x; rewrite Habs.
  exists norm, s. have El : log2_ceil oabs (2%:R^-1) fuel (mb_of_mat m) = Ok (s, (2%:R ^+ s)^-1).
    case El : (log2_ceil oabs (2%:R^-1) fuel (mb_of_mat m)) => [r| | | |]; try by move: He; rewrite /expm El.
    have := H3 (maxn s fuel) (leq_maxl _ _). move: El. rewrite /log2_ceil En !bindOk => /(log2_loop_mono (leq_maxr s fuel)) ->. by [].
  have [c [Hc _ HE']] := expm_value (is_mx_reads Hm) El He. by exists c; split.
Qed.
(** A view is never scaled (its norm is taken to be zero). *)
Theorem C56_expm_view (m : Mat.Matrix F) p n (M : 'M[F]_n.+1) fuel acc E : p <> Root -> reads_mx (vmb p m) M -> expm nsqrt (2%:R^-1) fuel (vmb p m) acc = Ok E ->
  exists c, (0 < c)%N /\ is_mx E (\sum_(k < (c * n.+1 ^ 2).+1) (k`!%:R)^-1 *: M ^+ k).
Proof.
  move=> Hp HA He. have El := C43_log2_ceil_view HR oabs m fuel Hp.
  have [|c [Hc _ H]] := expm_value (s := 0) HA _ He; first by rewrite expr0 invr1.
  exists c. split=> //. apply: is_mx_ext; first exact: H. by rewrite expn0 expr1 expr0 invr1 scale1r.
Qed.
(** When expm returns, the last batch of terms changed the sum by little: the Frobenius norm
    of L*L / (S*S + acc) is at most (acc / 2^s)^2, L the last batch, S the sum; [/] is the
    library's division and [square_norm_m] its norm. *)
Theorem C56_accuracy (m : Mat.Matrix F) n (M : 'M[F]_n.+1) fuel acc E : is_mx m M -> expm nsqrt (2%:R^-1) fuel (mb_of_mat m) acc = Ok E ->
  exists s c (S L : 'M[F]_n.+1) num den err rel, 
   [/\ is_mx E (S ^+ (2 ^ s)), S = \sum_(k < (c * n.+1 ^ 2).+1) (k`!%:R)^-1 *: ((2%:R ^+ s)^-1 *: M) ^+ k,
       L = \sum_(k < (c * n.+1 ^ 2).+1 | (c.-1 * n.+1 ^ 2 < k)%N) (k`!%:R)^-1 *: ((2%:R ^+ s)^-1 *: M) ^+ k &
     [/\ is_mx num (L ^+ 2), is_mx den (S ^+ 2 + const_mx acc), div (mb_of_mat num) (mb_of_mat den) = Ok err,
         square_norm_m (fun x => omul x x) nsqrt (mb_of_mat err) = Ok rel & rel <= (acc / 2%:R ^+ s) ^+ 2]].
Proof.
  move=> Hm He. have [|norm [s [En H1 H2 H3]]] := C43_log2_ceil (ab := oabs) HR _ Hm; first by move=> x; rewrite Habs.
  exists s. have El : log2_ceil oabs (2%:R^-1) fuel (mb_of_mat m) = Ok (s, (2%:R ^+ s)^-1).
    case El : (log2_ceil oabs (2%:R^-1) fuel (mb_of_mat m)) => [r| | | |]; try by move: He; rewrite /expm El.
    have := H3 (maxn s fuel) (leq_maxl _ _). move: El. rewrite /log2_ceil En !bindOk => /(log2_loop_mono (leq_maxr s fuel)) ->. by [].
  have [c [Hc [num [den [err [rel [S1 S2 S3 S4 S5]]]]] HE']] := expm_value (is_mx_reads Hm) El He.
  exists c. eexists. eexists. exists num, den, err, rel. split; [exact: HE'|by []|reflexivity|]. split; [|exact: S2|exact: S3|exact: S4|].
  - apply: is_mx_ext; first exact: S1. congr (_ ^+ 2). case: c Hc {HE' S1 S2} => // c _ /=. rewrite -[(n.+1 * n.+1)%N]/(n.+1 ^ 2)%N.
    rewrite mulSnr taylor_add addrC addKr. rewrite -addSn big_split_ord /= [X in _ = X + _]big1 ?add0r.
      by apply: eq_big => [j|j _] //; rewrite ltnS leq_addr.
    move=> i Hi. by rewrite ltnNge -ltnS ltn_ord in Hi.
  - by rewrite expr2 mulrACA mulrA.
Qed.

(** expm of the zero matrix is the identity, whatever the size (accuracy positive or zero). *)
Lemma inv_any n (X : 'M[F]_n.+1) (m : Mat.Matrix F) : is_mx m X -> \det X != 0 -> exists v (V : 'M[F]_n.+1), inverse (mb_of_mat m) = Ok v /\ is_mx v V.
Proof.
  move=> Hm Hd. have R := is_mx_reads Hm. have [Hn|Hn] := leqP n.+1 5.
    have [v [V [E H _ _]]] := C52_inverse HF HZ R Hn Hd. by exists v, V.
  have [a [f [Ea Ha _]]] := C51_adjoint_no_zero HF HZ R Hn. have Ha' := is_mx_mat Ha.
  have [|v [E H]] := inverse_mx HF HZ R (C49_nonsingular HF HZ R Hd) Hd (N := fmx n.+1 n.+1 f); first by exists a.
  by exists v; eexists; split; [exact: E|exact: H].
Qed.
Lemma onesJ n (a : F) : (const_mx 1 : 'M[F]_n) *m (const_mx a : 'M[F]_n) = const_mx (n%:R * a).
Proof. apply/matrixP => i j. rewrite !mxE. under eq_bigr => k _ do rewrite !mxE mul1r. by rewrite sumr_const card_ord mulr_natl. Qed.
Lemma det_IJ n (a : F) : 0 <= a -> \det (1%:M + const_mx a : 'M[F]_n.+1) != 0.
Proof.
  move=> Ha. have P : 0 < 1 + n.+1%:R * a by apply: ltr_spaddl; rewrite ?ltr01 // mulr_ge0 ?ler0n.
  pose Y : 'M[F]_n.+1 := 1%:M - const_mx (a / (1 + n.+1%:R * a)).
  suff E : (1%:M + const_mx a) *m Y = 1%:M.
    have := congr1 matrix.determinant E. rewrite det_mulmx det1 => E'. apply/eqP => Z. move: E'. rewrite Z mul0r => /eqP. by rewrite eq_sym oner_eq0.
  have CE : const_mx a = a *: const_mx 1 :> 'M[F]_n.+1 by apply/matrixP => i j; rewrite !mxE mulr1.
  rewrite /Y mulmxDl mul1mx mulmxBr mulmx1 {2}CE -scalemxAl onesJ -addrA. rewrite [X in _ + X](_ : _ = 0) ?addr0 //.
  have N0 : 1 + n.+1%:R * a != 0 by rewrite gt_eqF.
  apply/matrixP => i j. rewrite !mxE. set q := a / _. have Ea : a = q + a * (n.+1%:R * q).
    rewrite mulrCA mulrA -[q in X in X + _]mul1r -mulrDl /q [RHS]mulrC divfK //.
  by rewrite {1}Ea addrK addNr.
Qed.
Theorem C56_zero (m : Mat.Matrix F) n acc fuel : is_mx m (0 : 'M[F]_n.+1) -> 0 <= acc -> nsqrt 0 = 0 ->
  exists E, expm nsqrt (2%:R^-1) fuel.+1 (mb_of_mat m) acc = Ok E /\ is_mx E (1%:M : 'M[F]_n.+1).
Proof.
  move=> Hm Hacc H0. have [[Ar [Ac _]] _] := is_mx_reads Hm. have As := shape_mx (is_mx_reads Hm).
  have [|norm [s [En H1 H2 H3]]] := C43_log2_ceil (ab := oabs) HR _ Hm; first by move=> x; rewrite Habs.
  have [|x [Ex _ [i [Hi Hx]]]] := proj2 (C40_infinity_norm_matrix (ab := oabs) HR _ Hm) isT; first by move=> y; rewrite Habs.
  have N0 : norm = 0.
    move: Ex. rewrite En => -[->]. rewrite Hx. apply: big1 => j _. by rewrite -[i]/(val (Ordinal Hi)) mxfE mxE Habs normr0.
  have S0 : s = 0%N by case: s H1 H2 H3 => // s _ H2 _; have := H2 0%N isT; rewrite N0 mul0r ltNge ler01.
  rewrite S0 expr0 invr1 in H3. rewrite /expm H3 // bindOk.
  have [sa [-> Hsa _]] := m_muls_mx HO 1 (is_mx_reads Hm). rewrite scaler0 in Hsa. rewrite bindOk Ar Ac.
  have [m1 [-> I1]] := eye_mx As. rewrite !bindOk mul64_small; last exact: shape_size.
  move: (n.+1 * n.+1)%coq_nat => b.
  have Ar' : rows m = n.+1 := Ar. have Ac' : cols m = n.+1 := Ac.
  rewrite [expm_loop _ _ _ _ _ _ _ _ _ _ _ _]/= Hlt HZ (oaddE HO) !(o1E HO) ltr_addr1 oner_eq0 Ar' Ac' [_ && _]/= /for_range [(0 - 0)%coq_nat]/=.
  have [z [-> Hz]] := mat_new_ok n.+1 n.+1 o0 As. rewrite bindOk.
  have Hz' : is_mx z (0 : 'M[F]_n.+1).
    apply: is_mat_ext; first exact: Hz. move=> i0 j /ssrnat.ltP Hi0 /ssrnat.ltP Hj.
    by rewrite -[i0]/(val (Ordinal Hi0)) -[j]/(val (Ordinal Hj)) mxfE mxE (o0E HO).
  have I1' : is_mx m1 ((0 : 'M[F]_n.+1) ^+ 0) by rewrite expr0.
  have [mtk' [acc' [Eb Hm' Ha']]] := batch_ok b Hsa I1' Hz'. rewrite fact0 invr1 in Eb. rewrite Eb bindOk.
  have {}Ha' : is_mx acc' (0 : 'M[F]_n.+1).
    apply: is_mx_ext; first exact: Ha'. rewrite add0r big1 // => j _. by rewrite expr0n scaler0.
  have [ret' [-> Hr']] := m_iadd_mx HF I1 (is_mx_reads Ha'). rewrite addr0 in Hr'. rewrite bindOk.
  have [num [-> Hnum _]] := m_mul_mxL HO (is_mx_reads Ha') (is_mx_reads Ha') As. rewrite bindOk.
  have [sq' [-> Hsq _]] := m_mul_mxL HO (is_mx_reads Hr') (is_mx_reads Hr') As. rewrite bindOk.
  have [den [-> Hden]] := m_adds_mx acc (is_mx_reads Hsq). rewrite bindOk. rewrite mulmx1 in Hden.
  have [v [V [Ev Hv]]] := inv_any Hden (det_IJ n Hacc). rewrite /div Ev bindOk.
  have [err [-> Herr Herr']] := m_mul_mxL HO (is_mx_reads Hnum) (is_mx_reads Hv) As. rewrite bindOk.
  rewrite mulmx0 mul0mx in Herr'. rewrite (C40_square_norm_matrix HR _ nsqrt (proj1 Herr')) bindOk.
  rewrite big1; last first.
    move=> i0 _. rewrite big1 // => j _. by rewrite (omulE HO) mxfE mxE mul0r.
  rewrite H0.
  exists ret'. split=> //. rewrite !(omulE HO) !mulr1.
  by case: fuel => [|fuel] /=; rewrite Hlt ltNge mulr_ge0.
Qed.

(** * C63 c2d *)
Lemma move_empty r c (h : Mat.Matrix F) g : is_mat h r c g -> (0 < r * c)%N -> fst (mat_move_assign mat_empty h) = h.
Proof.
  move=> Hh Hp. have [Er [Ec [_ [El _]]]] := Hh. rewrite /mat_move_assign Er Ec mul64_small; last exact: shape_size (is_mat_shape _ _ _ _ Hh).
  rewrite nateqbE. case: eqP => [Z|_]; first by move: Hp; rewrite -[(r * c)%N]/(r * c)%coq_nat Z.
  rewrite [fst _]/=. case: h Er Ec {Hh El} => /= ? ? ? -> ->. by [].
Qed.
Lemma assign_empty r c (h : Mat.Matrix F) g : is_mat h r c g -> (0 < r * c)%N -> mat_assign (fun _ => mb_of_mat h) mat_empty = Ok h.
Proof.
  move=> Hh Hp. have [m [-> Hm]] := mat_assign_ok (mb_of_mat h) mat_empty r c g (is_mat_reads _ _ _ _ Hh) (elimT ssrnat.ltP Hp).
  congr Ok. exact: is_mat_unique Hm Hh.
Qed.
(** A invertible, of order at most 5, and none of the matrices empty: whenever the
    exponential of A*Ts returns, c2d returns the discrete system with A_d = expm(A*Ts),
    A * B_d = (A_d - I) * B, and C, D and the sample time unchanged. *)
Theorem C63_c2d (sys : SS F) ts acc fuel n m p q (A : 'M[F]_n.+1) (B : 'M[F]_(n.+1, m.+1)) (C : 'M[F]_(p.+1, n.+1)) (D : 'M[F]_(q.1.+1, q.2.+1)) At E half :
  is_mx (sA sys) A -> is_mx (sB sys) B -> is_mx (sC sys) C -> is_mx (sD sys) D -> (n.+1 <= 5)%N -> \det A != 0 ->
  m_muls (mb_of_mat (sA sys)) ts = Ok At -> expm nsqrt half fuel (mb_of_mat At) acc = Ok E -> forall Ad : 'M[F]_n.+1, is_mx E Ad ->
  exists d (Bd : 'M[F]_(n.+1, m.+1)), [/\ c2d nsqrt half acc fuel sys ts = Ok d, sA (dsys d) = E,
    is_mx (sB (dsys d)) Bd /\ A *m Bd = (Ad - 1%:M) *m B, sC (dsys d) = sC sys /\ sD (dsys d) = sD sys & sample_time d = ts].
Proof.
  move=> HA HB HC HD Hn Hd EAt EE Ad HE'. have As := shape_mx (is_mx_reads HA). have Bs := shape_mx (is_mx_reads HB).
  rewrite /c2d EAt bindOk EE bindOk. cbv zeta. rewrite (move_empty HE') //.
  have [v [V [-> HV H1 H2]]] := C52_inverse HF HZ (is_mx_reads HA) Hn Hd. rewrite bindOk.
  have [Ar _] := HA. rewrite Ar. have [J [-> _ HJ]] := identity_mx HO (ltn0Sn n) As. rewrite bindOk.
  have [X [-> _ HX]] := m_sub_mx HF (is_mx_reads HE') HJ. rewrite bindOk.
  have [Y [-> _ HY]] := m_mul_mxL HO (is_mx_reads HV) HX As. rewrite bindOk.
  have [Z [-> HZ' _]] := m_mul_mxL HO HY (is_mx_reads HB) Bs. rewrite bindOk (move_empty HZ') //.
  rewrite (assign_empty HC) // bindOk (assign_empty HD) // bindOk.
  have [E1 [E2 _]] := HE'. have [Z1 _] := HZ'. have [_ [C2 _]] := HC. rewrite E1 E2 Z1 C2 Nat.eqb_refl.
  eexists. exists (V *m (Ad - 1%:M) *m B). split; [reflexivity|by []|split|by []|by []]; first exact: HZ'.
  by rewrite !mulmxA H1 mul1mx.
Qed.
(** A singular of order at most 4: the inverse is the empty matrix and the product throws. *)
Theorem C63_singular (sys : SS F) ts acc fuel n (A : 'M[F]_n.+1) At E half (Ad : 'M[F]_n.+1) :
  is_mx (sA sys) A -> (n.+1 <= 4)%N -> \det A = 0 ->
  m_muls (mb_of_mat (sA sys)) ts = Ok At -> expm nsqrt half fuel (mb_of_mat At) acc = Ok E -> is_mx E Ad -> c2d nsqrt half acc fuel sys ts = Throw.
Proof.
  move=> HA Hn Hd EAt EE HE'. have As := shape_mx (is_mx_reads HA).
  rewrite /c2d EAt bindOk EE bindOk. cbv zeta. rewrite (move_empty HE') //.
  rewrite (proj2 (C52_singular HF HZ (is_mx_reads HA) Hn) Hd) bindOk. have [Ar _] := HA. rewrite Ar.
  have [J [-> _ HJ]] := identity_mx HO (ltn0Sn n) As. rewrite bindOk.
  have [X [-> _ HX]] := m_sub_mx HF (is_mx_reads HE') HJ. rewrite bindOk.
  have [[Xr _] _] := HX. by rewrite /m_mul Xr.
Qed.
(** No outputs: the empty C is not copied and the check of the dimensions fails. *)
Theorem C63_no_output (sys : SS F) ts acc fuel n m (A : 'M[F]_n.+1) (B : 'M[F]_(n.+1, m.+1)) p c fC q r fD At E half (Ad : 'M[F]_n.+1) :
  is_mx (sA sys) A -> is_mx (sB sys) B -> is_mat (sC sys) p c fC -> p = 0%N \/ c = 0%N -> is_mat (sD sys) q r fD -> (n.+1 <= 5)%N -> \det A != 0 ->
  m_muls (mb_of_mat (sA sys)) ts = Ok At -> expm nsqrt half fuel (mb_of_mat At) acc = Ok E -> is_mx E Ad ->
  c2d nsqrt half acc fuel sys ts = UB.
Proof.
  move=> HA HB HC Hpc HD Hn Hd EAt EE HE'. have As := shape_mx (is_mx_reads HA). have Bs := shape_mx (is_mx_reads HB).
  rewrite /c2d EAt bindOk EE bindOk. cbv zeta. rewrite (move_empty HE') //.
  have [v [V [-> HV H1 H2]]] := C52_inverse HF HZ (is_mx_reads HA) Hn Hd. rewrite bindOk.
  have [Ar _] := HA. rewrite Ar. have [J [-> _ HJ]] := identity_mx HO (ltn0Sn n) As. rewrite bindOk.
  have [X [-> _ HX]] := m_sub_mx HF (is_mx_reads HE') HJ. rewrite bindOk.
  have [Y [-> _ HY]] := m_mul_mxL HO (is_mx_reads HV) HX As. rewrite bindOk.
  have [Z [-> HZ' _]] := m_mul_mxL HO HY (is_mx_reads HB) Bs. rewrite bindOk (move_empty HZ') //.
  rewrite mat_assign_empty; last first.
    have [_ [_ [-> _]]] := is_mat_reads _ _ _ _ HC. by case: Hpc => ->; rewrite ?Nat.mul_0_r.
  rewrite bindOk. have [dD ->] : exists dD, mat_assign (fun _ => mb_of_mat (sD sys)) mat_empty = Ok dD.
    case: (posnP (q * r)%N) => [Z0|Hp]; last by exists (sD sys); exact: (assign_empty HD).
    exists mat_empty. apply: mat_assign_empty. have [_ [_ [-> _]]] := is_mat_reads _ _ _ _ HD. exact: Z0.
  have [E1 _] := HE'. rewrite bindOk E1 [cols mat_empty]/= andbF. by [].
Qed.
End E.
