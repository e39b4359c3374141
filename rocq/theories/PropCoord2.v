(** PropCoord2.v: renumbering the states of a system (C115): state i of the new system is state
    s i of the old one.  expm and c2d are renumbered with it, in exact arithmetic up to order 4. *)
From Verif Require Import LinalgFacts2 PropMatrix PropUtil PropMath RingM DetFacts RatOps PropLinalg PropRing PropField PropReal Control ControlSpec ControlFacts PropControl PropControl2 PropExpm ExpBound PropExpmBound.
From mathcomp Require Import all_ssreflect all_algebra all_fingroup.
Set Implicit Arguments.
Unset Strict Implicit.
Unset Printing Implicit Defensive.
Import Order.Theory GRing.Theory Num.Theory.
Local Open Scope ring_scope.

(** The matrix M with its rows and columns renumbered. *)
Definition renumber (F : Type) n (s : 'S_n) (M : 'M[F]_n) : 'M[F]_n := \matrix_(i, j) M (s i) (s j).
Definition renumber_rows (F : Type) n m (s : 'S_n) (M : 'M[F]_(n, m)) : 'M[F]_(n, m) := \matrix_(i, j) M (s i) j.
Definition renumber_cols (F : Type) n m (s : 'S_n) (M : 'M[F]_(m, n)) : 'M[F]_(m, n) := \matrix_(i, j) M i (s j).

Section Algebra.
Variables (F : comRingType) (n : nat) (s : 'S_n.+1).
Notation ren := (renumber s).
Lemma ren1 : ren 1%:M = 1%:M :> 'M[F]_n.+1.
Proof. apply/matrixP => i j. by rewrite !mxE (inj_eq perm_inj). Qed.
Lemma renM (M N : 'M[F]_n.+1) : ren (M *m N) = ren M *m ren N.
Proof. apply/matrixP => i j. rewrite !mxE [LHS](reindex_inj (@perm_inj _ s)). apply: eq_bigr => k _. by rewrite !mxE. Qed.
Lemma renD (M N : 'M[F]_n.+1) : ren (M + N) = ren M + ren N. Proof. by apply/matrixP => i j; rewrite !mxE. Qed.
Lemma renB (M N : 'M[F]_n.+1) : ren (M - N) = ren M - ren N. Proof. by apply/matrixP => i j; rewrite !mxE. Qed.
Lemma renZ a (M : 'M[F]_n.+1) : ren (a *: M) = a *: ren M. Proof. by apply/matrixP => i j; rewrite !mxE. Qed.
Lemma renX (M : 'M[F]_n.+1) k : ren (M ^+ k) = ren M ^+ k.
Proof. elim: k => [|k IH]; first by rewrite !expr0 ren1. by rewrite !exprS -!mulmxE renM IH. Qed.
Lemma ren_const (a : F) : ren (const_mx a) = const_mx a. Proof. by apply/matrixP => i j; rewrite !mxE. Qed.
Lemma ren_sum I (r : seq I) (P : pred I) (f : I -> 'M[F]_n.+1) : ren (\sum_(k <- r | P k) f k) = \sum_(k <- r | P k) ren (f k).
Proof. apply: (big_morph ren renD). by apply/matrixP => i j; rewrite !mxE. Qed.
Lemma ren_perm (M : 'M[F]_n.+1) : ren M = perm_mx s *m M *m perm_mx s^-1.
Proof. rewrite -row_permE -[perm_mx s^-1]/(perm_mx s^-1) -[RHS]/(_ *m perm_mx (s^-1)%g) -col_permE. by apply/matrixP => i j; rewrite !mxE. Qed.
Lemma ren_det (M : 'M[F]_n.+1) : \det (ren M) = \det M.
Proof. rewrite ren_perm !det_mulmx mulrAC -det_mulmx -perm_mxM mulgV perm_mx1 det1 mul1r. by []. Qed.
End Algebra.

Section E.
Variables (F : archiFieldType) (O : Ops F).
Hypothesis HR : realO O.
Hypothesis HZ : exactZ O.
Hypothesis HE : forall x : F, ofeq x 0 = (x == 0).
Let HF : fieldO O. Proof. by case: HR. Qed.
Let HO : ringO O. Proof. by case: HF. Qed.
Let Hlt x y : olt x y = (x < y) :> bool. Proof. by case: HR. Qed.
Variable nsqrt : F -> F.
Hypothesis Habs : forall x : F, oabs x = `|x|.
Variables (n : nat) (s : 'S_n.+1).
Hypothesis Hn : (n.+1 <= 4)%N.
Notation ren := (renumber s).

(** Both computations end in the same way, and if both return a matrix the second is the first one renumbered. *)
Definition renumbered (r r' : Res (Mat.Matrix F)) : Prop :=
  match r, r' with
  | Ok m, Ok m' => exists M : 'M[F]_n.+1, is_mx m M /\ is_mx m' (ren M)
  | Throw, Throw | UB, UB | Exit, Exit | Fuel, Fuel => True
  | _, _ => False
  end.
Lemma ren_taylor (X : 'M[F]_n.+1) K : taylor (ren X) K = ren (taylor X K).
Proof. rewrite /taylor ren_sum. apply: eq_bigr => k _. by rewrite renZ renX. Qed.
Lemma norm_ren (err err' : Mat.Matrix F) (M : 'M[F]_n.+1) : is_mx err M -> is_mx err' (ren M) ->
  exists x, square_norm_m (fun x => omul x x) nsqrt (mb_of_mat err) = Ok x /\ square_norm_m (fun x => omul x x) nsqrt (mb_of_mat err') = Ok x.
Proof.
  move=> H H'. have [R _] := is_mx_reads H. have [R' _] := is_mx_reads H'. eexists. split; first exact: (C40_square_norm_matrix HR (fun x => omul x x) nsqrt R).
  rewrite (C40_square_norm_matrix HR (fun x => omul x x) nsqrt R'). congr (Ok (nsqrt _)). rewrite [RHS](reindex_inj (@perm_inj _ s)). apply: eq_bigr => i _.
  rewrite [RHS](reindex_inj (@perm_inj _ s)). apply: eq_bigr => j _. by rewrite !mxfE !mxE.
Qed.
Lemma div_ren (a a' b b' : Mat.Matrix F) (M N : 'M[F]_n.+1) : is_mx a M -> is_mx a' (ren M) -> is_mx b N -> is_mx b' (ren N) ->
  renumbered (div (mb_of_mat a) (mb_of_mat b)) (div (mb_of_mat a') (mb_of_mat b')).
Proof.
  move=> Ha Ha' Hb Hb'. have [Z|Z] := eqVneq (\det N) 0.
    by rewrite (C53_singular HF HZ (is_mx_reads Ha) (ltn0Sn n) (is_mx_reads Hb)) // (C53_singular HF HZ (is_mx_reads Ha') (ltn0Sn n) (is_mx_reads Hb')) // ren_det.
  have Z' : \det (ren N) != 0 by rewrite ren_det. have Hn5 : (n.+1 <= 5)%N by apply: leq_trans Hn _.
  have [x [Q [-> HQ EQ]]] := C53_div HF HZ (is_mx_reads Ha) (is_mx_reads Hb) Hn5 Z.
  have [x' [Q' [-> HQ' EQ']]] := C53_div HF HZ (is_mx_reads Ha') (is_mx_reads Hb') Hn5 Z'.
  exists Q. split=> //. apply: is_mx_ext; first exact: HQ'. apply: (can_inj (mulmxK (_ : ren N \in unitmx))); first by rewrite unitmxE unitfE.
  by rewrite EQ' -renM EQ.
Qed.
Lemma loop_ren A A' b (X : 'M[F]_n.+1) sa sa' acc0 sq fuel : mrows A = n.+1 -> mcols A = n.+1 -> mrows A' = n.+1 -> mcols A' = n.+1 -> is_mx sa X -> is_mx sa' (ren X) ->
  forall c mtk ret mtk' ret' rel, is_mx mtk (X ^+ (c * b)) -> is_mx ret (taylor X (c * b)) -> is_mx mtk' (ren X ^+ (c * b)) -> is_mx ret' (taylor (ren X) (c * b)) ->
  renumbered (expm_loop nsqrt fuel A b (c * b).+1 sa acc0 sq mtk ret ((c * b)`!%:R)^-1 rel) (expm_loop nsqrt fuel A' b (c * b).+1 sa' acc0 sq mtk' ret' ((c * b)`!%:R)^-1 rel).
Proof.
  move=> Ar Ac Ar' Ac' HX HX'. elim: fuel => [|fuel IH] c mtk ret mtk' ret' rel Hm Hr Hm' Hr' /=; rewrite Hlt HZ (negbTE (invr_neq0 (fact_neq0 F _))) andbT.
    case: ltP => // _. exists (taylor X (c * b)). by rewrite -ren_taylor.
  case: (ltP sq rel) => _; last by exists (taylor X (c * b)); rewrite -ren_taylor.
  have Hs := shape_mx (is_mx_reads Hm). rewrite Ar Ac Ar' Ac'.
  have [acc [-> Hacc]] := mat_new_ok n.+1 n.+1 o0 Hs. rewrite !bindOk.
  have Hacc' : is_mx acc (0 : 'M[F]_n.+1).
    apply: is_mat_ext; first exact: Hacc. move=> i j /ssrnat.ltP Hi /ssrnat.ltP Hj.
    by rewrite -[i]/(val (Ordinal Hi)) -[j]/(val (Ordinal Hj)) mxfE mxE (o0E HO).
  have Ecb : (c * b + b = c.+1 * b)%N by rewrite mulSnr. have Est : ((c * b)%N + b)%coq_nat = (c.+1 * b)%N by rewrite -Ecb.
  have [mtk1 [acc1 [-> Hm1 Ha1]]] := batch_ok HR HE b HX Hm Hacc'. have [mtk1' [acc1' [-> Hm1' Ha1']]] := batch_ok HR HE b HX' Hm' Hacc'. rewrite !bindOk. rewrite !add0r in Ha1 Ha1'.
  have [ret1 [-> Hr1]] := m_iadd_mx HF Hr (is_mx_reads Ha1). have [ret1' [-> Hr1']] := m_iadd_mx HF Hr' (is_mx_reads Ha1'). rewrite !bindOk.
  rewrite -taylor_add Ecb in Hr1. rewrite -taylor_add Ecb in Hr1'. rewrite Ecb in Hm1 Hm1'.
  have Ha2 : is_mx acc1' (ren (taylor X (c.+1 * b) - taylor X (c * b))). { apply: is_mx_ext; first exact: Ha1'. by rewrite renB -!ren_taylor -Ecb taylor_add addrC addKr. }
  have {}Ha1 : is_mx acc1 (taylor X (c.+1 * b) - taylor X (c * b)). { apply: is_mx_ext; first exact: Ha1. by rewrite -Ecb taylor_add addrC addKr. }
  have [num [-> Hnum _]] := m_mul_mxL HO (is_mx_reads Ha1) (is_mx_reads Ha1) Hs. have [num' [-> Hnum' _]] := m_mul_mxL HO (is_mx_reads Ha2) (is_mx_reads Ha2) Hs. rewrite !bindOk.
  have Hr2 := Hr1'. rewrite ren_taylor in Hr2.
  have [sq1 [-> Hsq _]] := m_mul_mxL HO (is_mx_reads Hr1) (is_mx_reads Hr1) Hs. have [sq2 [-> Hsq' _]] := m_mul_mxL HO (is_mx_reads Hr2) (is_mx_reads Hr2) Hs. rewrite !bindOk.
  have [den [-> Hden]] := m_adds_mx HR acc0 (is_mx_reads Hsq). have [den' [-> Hden']] := m_adds_mx HR acc0 (is_mx_reads Hsq'). rewrite !bindOk.
  rewrite -renM in Hnum'. rewrite -renM -(ren_const s acc0) -renD in Hden'. have := div_ren Hnum Hnum' Hden Hden'.
  case: (div _ _) => [err| | | |]; case: (div _ _) => [err'| | | |] // [Q [HQ HQ']]. rewrite !bindOk.
  have [x [-> ->]] := norm_ren HQ HQ'. rewrite !bindOk Ecb Est. exact: IH.
Qed.
Lemma norm_same (m m' : Mat.Matrix F) (M : 'M[F]_n.+1) : is_mx m M -> is_mx m' (ren M) -> infinity_norm_m oabs (mb_of_mat m) = infinity_norm_m oabs (mb_of_mat m').
Proof.
  move=> H H'. have [|x [-> B [i [Hi Ei]]]] := proj2 (C40_infinity_norm_matrix (ab := oabs) HR _ H) isT; first by move=> y; rewrite Habs.
  have [|x' [-> B' [i' [Hi' Ei']]]] := proj2 (C40_infinity_norm_matrix (ab := oabs) HR _ H') isT; first by move=> y; rewrite Habs.
  have S (a : 'I_n.+1) : \sum_(j < n.+1) oabs (mxf (ren M) a j) = \sum_(j < n.+1) oabs (mxf M (s a) j).
    rewrite [RHS](reindex_inj (@perm_inj _ s)). apply: eq_bigr => j _. by rewrite !mxfE !mxE.
  congr Ok. apply/eqP. rewrite eq_le. apply/andP. split.
  - rewrite Ei -[i]/(val (Ordinal Hi)) -[Ordinal Hi](permKV s) -S. exact: B' (ltn_ord _).
  - rewrite Ei' -[i']/(val (Ordinal Hi')) S. exact: B (ltn_ord _).
Qed.
Lemma bind_ren r r' (k k' : Mat.Matrix F -> Res (Mat.Matrix F)) : renumbered r r' ->
  (forall m m' M, is_mx m M -> is_mx m' (ren M) -> renumbered (k m) (k' m')) -> renumbered (bind r k) (bind r' k').
Proof. case: r => [m| | | |]; case: r' => [m'| | | |] //= [M [H H']] K. exact: K H H'. Qed.
(** expm of a renumbered matrix is the renumbered exponential, for any accuracy; it throws or goes on for ever for both or for none. *)
Theorem C115_expm (m m' : Mat.Matrix F) (M : 'M[F]_n.+1) fuel acc : is_mx m M -> is_mx m' (ren M) ->
  renumbered (expm nsqrt (2%:R^-1) fuel (mb_of_mat m) acc) (expm nsqrt (2%:R^-1) fuel (mb_of_mat m') acc).
Proof.
  move=> H H'. have R := is_mx_reads H. have R' := is_mx_reads H'. have As := shape_mx R. have [[Ar [Ac _]] _] := R. have [[Ar' [Ac' _]] _] := R'.
  have EL : log2_ceil oabs (2%:R^-1) fuel (mb_of_mat m) = log2_ceil oabs (2%:R^-1) fuel (mb_of_mat m') by rewrite /log2_ceil (norm_same H H').
  rewrite /expm EL. case: (log2_ceil _ _ _ _) => [[it sc]| | | |] //. rewrite !bindOk.
  have [sa [-> Hsa _]] := m_muls_mx HO sc R. have [sa' [-> Hsa' _]] := m_muls_mx HO sc R'. rewrite -renZ in Hsa'. rewrite !bindOk Ar Ac Ar' Ac'.
  have [m1 [-> H1]] := eye_mx HR As. rewrite !bindOk mul64_small; last exact: shape_size. set b := (n.+1 * n.+1)%coq_nat. set X := sc *: M in Hsa Hsa' *.
  have Ha (Y : 'M[F]_n.+1) : is_mx m1 (Y ^+ (0 * b)) by rewrite mul0n expr0.
  have Hb (Y : 'M[F]_n.+1) : is_mx m1 (taylor Y (0 * b)) by rewrite mul0n /taylor big_ord_recl big_ord0 addr0 expr0 invr1 scale1r.
  have Ef : ((0 * b)`!%:R)^-1 = o1 :> F by rewrite mul0n fact0 invr1 (o1E HO).
  have := @loop_ren (mb_of_mat m) (mb_of_mat m') b X sa sa' acc (@omul F O (@omul F O (@omul F O acc acc) sc) sc) fuel Ar Ac Ar' Ac' Hsa Hsa' 0%N m1 m1 m1 m1 (@oadd F O (@omul F O (@omul F O (@omul F O acc acc) sc) sc) (@o1 F O)) (Ha X) (Hb X) (Ha (ren X)) (Hb (ren X)).
  rewrite Ef mul0n => L. apply: (bind_ren L) => ret ret' Q HQ HQ'.
  have [e [-> He]] := squares_ok HR it HQ. have [e' [-> He']] := squares_ok HR it HQ'. exists (Q ^+ (2 ^ it)). split=> //. by rewrite renX.
Qed.
(** c2d of the renumbered system is the renumbered discrete system. *)
Theorem C115_c2d (sys sys' : SS F) ts acc fuel m p q (A : 'M[F]_n.+1) (B : 'M[F]_(n.+1, m.+1)) (C : 'M[F]_(p.+1, n.+1)) (D : 'M[F]_(q.1.+1, q.2.+1)) :
  is_mx (sA sys) A -> is_mx (sB sys) B -> is_mx (sC sys) C -> is_mx (sD sys) D -> \det A != 0 ->
  is_mx (sA sys') (ren A) -> is_mx (sB sys') (renumber_rows s B) -> is_mx (sC sys') (renumber_cols s C) -> is_mx (sD sys') D ->
  match c2d nsqrt (2%:R^-1) acc fuel sys ts, c2d nsqrt (2%:R^-1) acc fuel sys' ts with
  | Ok d, Ok d' => exists (Ad : 'M[F]_n.+1) (Bd : 'M[F]_(n.+1, m.+1)),
      [/\ is_mx (sA (dsys d)) Ad /\ is_mx (sA (dsys d')) (ren Ad), is_mx (sB (dsys d)) Bd /\ is_mx (sB (dsys d')) (renumber_rows s Bd),
          is_mx (sC (dsys d)) C /\ is_mx (sC (dsys d')) (renumber_cols s C), is_mx (sD (dsys d)) D /\ is_mx (sD (dsys d')) D & sample_time d = ts /\ sample_time d' = ts]
  | Throw, Throw | UB, UB | Exit, Exit | Fuel, Fuel => True
  | _, _ => False
  end.
Proof.
  move=> HA HB HC HD Hd HA' HB' HC' HD'. have Hn5 : (n.+1 <= 5)%N by apply: leq_trans Hn _.
  have [At [EAt HAt _]] := m_muls_mx HO ts (is_mx_reads HA). have [At' [EAt' HAt' _]] := m_muls_mx HO ts (is_mx_reads HA'). rewrite -renZ in HAt'.
  have := C115_expm fuel acc HAt HAt'. have EX X E : expm nsqrt (2%:R^-1) fuel (mb_of_mat X) acc = E -> (forall M, E <> Ok M) ->
      forall sy, m_muls (mb_of_mat (sA sy)) ts = Ok X -> c2d nsqrt (2%:R^-1) acc fuel sy ts = match E with Ok _ => UB | Throw => Throw | UB => UB | Exit => Exit | Fuel => Fuel end.
    move=> EE NE sy Es. rewrite /c2d Es bindOk EE. by case: E {EE} NE => // M /(_ M).
  case EE : (expm nsqrt _ fuel (mb_of_mat At) acc) => [E| | | |]; case EE' : (expm nsqrt _ fuel (mb_of_mat At') acc) => [E'| | | |] // H.
  - have [Ad [HAd HAd']] := H. have [d [Bd [-> EA [HBd EB] [-> ->] ->]]] := C63_c2d HR HZ HA HB HC HD Hn5 Hd EAt EE HAd.
    have Hd' : \det (ren A) != 0 by rewrite ren_det.
    have [d' [Bd' [-> EA' [HBd' EB'] [-> ->] ->]]] := C63_c2d HR HZ HA' HB' HC' HD' Hn5 Hd' EAt' EE' HAd'.
    exists Ad, Bd. rewrite EA EA'. split=> //. split=> //. apply: is_mx_ext; first exact: HBd'.
    have U : ren A \in unitmx by rewrite unitmxE unitfE. apply: (can_inj (mulKmx U)). rewrite EB' -[1%:M](ren1 F s) -renB.
    have W (M : 'M[F]_n.+1) k (N : 'M[F]_(n.+1, k)) : ren M *m renumber_rows s N = renumber_rows s (M *m N).
      apply/matrixP => i j. rewrite !mxE [RHS](reindex_inj (@perm_inj _ s)). apply: eq_bigr => l _. by rewrite !mxE.
    by rewrite !W EB.
  all: by rewrite (EX _ _ EE _ _ EAt) // (EX _ _ EE' _ _ EAt').
Qed.
End E.
