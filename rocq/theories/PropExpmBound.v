(** PropExpmBound.v: how close expm is to the exponential (C103), over an archimedean field. *)
From Verif Require Import LinalgFacts2 PropMatrix PropUtil PropMath RingM DetFacts RatOps PropLinalg PropRing PropField PropReal Control ControlSpec ControlFacts PropControl PropControl2 PropExpm ExpBound.
From mathcomp Require Import all_ssreflect all_algebra.
Set Implicit Arguments.
Unset Strict Implicit.
Unset Printing Implicit Defensive.
Import Order.Theory GRing.Theory Num.Theory.
Local Open Scope ring_scope.

(** The largest row sum of absolute values of [X - Y] is at most [b]. *)
Definition within (F : numDomainType) n (X Y : 'M[F]_n) (b : F) : Prop := forall i, \sum_j `|X i j - Y i j| <= b.
(** X is the exponential of M: the sums of the first terms M^k/k! converge to X. *)
Definition is_exponential (F : numFieldType) n (M X : 'M[F]_n.+1) : Prop :=
  forall eps, 0 < eps -> exists L0, forall L, (L0 <= L)%N -> within X (\sum_(k < L.+1) (k`!%:R)^-1 *: M ^+ k) eps.

Section E.
Variables (F : archiFieldType) (O : Ops F).
Hypothesis HR : realO O.
Hypothesis HZ : exactZ O.
Hypothesis HE : forall x : F, ofeq x 0 = (x == 0).
Let HF : fieldO O. Proof. by case: HR. Qed.
Let HO : ringO O. Proof. by case: HF. Qed.
Let Hlt x y : olt x y = (x < y) :> bool. Proof. by case: HR. Qed.
Variable nsqrt : F -> F.
Hypothesis Habs : forall x : F, oabs x = `|x|.

Lemma within_rows n (X Y : 'M[F]_n) b : rows_le (X - Y) b -> within X Y b.
Proof. move=> H i. have -> : \sum_j `|X i j - Y i j| = \sum_j `|(X - Y) i j| by apply: eq_bigr => j _; rewrite !mxE. exact: H. Qed.
Lemma rows_of_abs n (X : 'M[F]_n.+1) : exists a, rows_le X a.
Proof. exists (\sum_i \sum_j `|X i j|) => i. rewrite [X in _ <= X](bigD1 i) //= ler_addl. apply: sumr_ge0 => k _. exact: sumr_ge0. Qed.
Lemma norm_rows (m : Mat.Matrix F) n (M : 'M[F]_n.+1) norm : is_mx m M -> infinity_norm_m oabs (mb_of_mat m) = Ok norm -> rows_le M norm /\ 0 <= norm.
Proof.
  move=> Hm En. have [|x [Ex H _]] := proj2 (C40_infinity_norm_matrix (ab := oabs) HR _ Hm) isT; first by move=> y; rewrite Habs.
  move: Ex. rewrite En => -[->]. have R : rows_le M x.
    move=> i. have := H (val i) (ltn_ord i). apply: le_trans. apply: ler_sum => j _. by rewrite mxfE Habs.
  split=> //. apply: le_trans (R ord0). exact: sumr_ge0.
Qed.
Lemma limit_within n (M X Y : 'M[F]_n.+1) B K : is_exponential M X ->
  (forall L, (K <= L)%N -> within Y (\sum_(k < L.+1) (k`!%:R)^-1 *: M ^+ k) B) -> within Y X B.
Proof.
  move=> HX HY i. apply/ler_addgt0Pr => eps He. have [L0 H] := HX _ He. set L := maxn K L0.
  have H1 := H L (leq_maxr _ _) i. have H2 := HY L (leq_maxl _ _) i. set T := \sum_(k < L.+1) _ in H1 H2.
  apply: le_trans (ler_add H2 H1). rewrite -big_split /=. apply: ler_sum => j _. rewrite [`|X i j - _|]distrC.
  exact: ler_dist_add.
Qed.

(** A Matrix object: when expm returns, K >= rows^2 terms were summed, and the result is no further
    from the sum of the first L terms of the series, for any L >= K, than the terms after K. *)
Theorem C103_expm (m : Mat.Matrix F) n (M : 'M[F]_n.+1) fuel acc E : is_mx m M -> expm nsqrt (2%:R^-1) fuel (mb_of_mat m) acc = Ok E ->
  exists norm K s (X : 'M[F]_n.+1), [/\ infinity_norm_m oabs (mb_of_mat m) = Ok norm, (n.+1 ^ 2 <= K)%N, is_mx E X &
    forall L, (K <= L)%N -> within X (\sum_(k < L.+1) (k`!%:R)^-1 *: M ^+ k) (\sum_(K.+1 <= k < (maxn L (K * 2 ^ s)).+1) (k`!%:R)^-1 * norm ^+ k)].
Proof.
  move=> Hm EE. have [norm [s [c [En _ _ Hc H]]]] := C56_expm HR HZ HE Habs Hm EE. have [R N0] := norm_rows Hm En.
  exists norm, (c * n.+1 ^ 2)%N, s. eexists. split; [exact: En|by rewrite -{1}[(n.+1 ^ 2)%N]mul1n leq_mul2r Hc orbT|exact: H|].
  move=> L HL. apply: within_rows. have P : (0 < 2 ^ s)%N by rewrite expn_gt0.
  have := exp_error P HL R. by rewrite natrX.
Qed.
(** So it is within norm^(K+1)/(K+1)! * (K+2)/(K+2-norm) of the exponential, when norm < K+2. *)
Theorem C103_exponential (m : Mat.Matrix F) n (M X : 'M[F]_n.+1) fuel acc E : is_mx m M -> expm nsqrt (2%:R^-1) fuel (mb_of_mat m) acc = Ok E -> is_exponential M X ->
  exists norm K (Y : 'M[F]_n.+1), [/\ infinity_norm_m oabs (mb_of_mat m) = Ok norm, (n.+1 ^ 2 <= K)%N, is_mx E Y &
    (forall B, (forall N, \sum_(K.+1 <= k < N) (k`!%:R)^-1 * norm ^+ k <= B) -> within Y X B) /\
    (norm < K.+2%:R -> within Y X (norm ^+ K.+1 / K.+1`!%:R * (K.+2%:R / (K.+2%:R - norm))))].
Proof.
  move=> Hm EE HX. have [norm [K [s [Y [En HK HY H]]]]] := C103_expm Hm EE. have [_ N0] := norm_rows Hm En.
  exists norm, K, Y. split=> //. split=> [B HB|Hn]; apply: (limit_within (K := K) HX) => L HL i; apply: le_trans (H L HL i) _; first exact: HB.
  rewrite [norm ^+ _ / _]mulrC. exact: eterm_tail.
Qed.
(** A view, whose matrix is never scaled: the result is the sum of the first K terms. *)
Theorem C103_view (m : Mat.Matrix F) p n (M : 'M[F]_n.+1) fuel acc E norm : p <> Root -> reads_mx (vmb p m) M -> expm nsqrt (2%:R^-1) fuel (vmb p m) acc = Ok E ->
  (forall i, \sum_j `|M i j| <= norm) ->
  exists K (Y : 'M[F]_n.+1), [/\ (n.+1 ^ 2 <= K)%N, is_mx E Y,
    forall L, (K <= L)%N -> within Y (\sum_(k < L.+1) (k`!%:R)^-1 *: M ^+ k) (\sum_(K.+1 <= k < L.+1) (k`!%:R)^-1 * norm ^+ k) &
    forall X, is_exponential M X -> norm < K.+2%:R -> within Y X (norm ^+ K.+1 / K.+1`!%:R * (K.+2%:R / (K.+2%:R - norm)))].
Proof.
  move=> Hp HA EE R. have [c [Hc H]] := C56_expm_view HR HZ HE Hp HA EE.
  exists (c * n.+1 ^ 2)%N. eexists. set K := (c * n.+1 ^ 2)%N. have N0 : 0 <= norm by apply: le_trans (R ord0); exact: sumr_ge0.
  have HH : forall L, (K <= L)%N -> within (\sum_(k < K.+1) (k`!%:R)^-1 *: M ^+ k) (\sum_(k < L.+1) (k`!%:R)^-1 *: M ^+ k) (\sum_(K.+1 <= k < L.+1) (k`!%:R)^-1 * norm ^+ k).
    move=> L HL. apply: within_rows. have := exp_error (m := 1) isT HL R. rewrite expr1 muln1 (maxn_idPl HL) invr1. by rewrite scale1r.
  split; [by rewrite -{1}[(n.+1 ^ 2)%N]mul1n leq_mul2r Hc orbT|exact: H|exact: HH|].
  move=> X HX Hn. apply: (limit_within (K := K) HX) => L HL i; apply: le_trans (HH L HL i) _.
  rewrite [norm ^+ _ / _]mulrC. exact: eterm_tail.
Qed.
(** A matrix whose square is zero: with the accuracy 0 expm returns, and returns the exponential I + M. *)
Theorem C103_square_zero (m : Mat.Matrix F) n (M : 'M[F]_n.+1) : is_mx m M -> M ^+ 2 = 0 -> nsqrt 0 = 0 ->
  exists fuel0, forall fuel, (fuel0 <= fuel)%N -> exists E, expm nsqrt (2%:R^-1) fuel (mb_of_mat m) 0 = Ok E /\ is_mx E (1%:M + M).
Proof.
  move=> Hm H2 H0. have [[Ar [Ac _]] _] := is_mx_reads Hm. have As := shape_mx (is_mx_reads Hm).
  have [|norm [s [En H1 _ H3]]] := C43_log2_ceil (ab := oabs) HR _ Hm; first by move=> x; rewrite Habs.
  exists s.+1 => -[//|fuel] Hf. rewrite ltnS in Hf. rewrite /expm H3 ?(leqW Hf) // bindOk. set sc := (2%:R ^+ s)^-1. set X := sc *: M.
  have [sa [-> Hsa _]] := m_muls_mx HO sc (is_mx_reads Hm). rewrite -/X in Hsa. rewrite bindOk Ar Ac.
  have X2 : X *m X = 0 by rewrite /X -scalemxAl -scalemxAr -[M *m M]/(M ^+ 2) H2 !scaler0.
  have [m1 [-> I1]] := eye_mx HR As. rewrite !bindOk mul64_small; last exact: shape_size.
  have Hb : (0 < (n.+1 * n.+1)%coq_nat)%N by []. move: (n.+1 * n.+1)%coq_nat Hb => b Hb.
  have Ar' : rows m = n.+1 := Ar. have Ac' : cols m = n.+1 := Ac.
  rewrite [expm_loop _ _ _ _ _ _ _ _ _ _ _ _]/= Hlt HZ (oaddE HO) !(o1E HO) ltr_addr1 oner_eq0 Ar' Ac' [_ && _]/=.
  have [z [-> Hz]] := mat_new_ok n.+1 n.+1 o0 As. rewrite bindOk.
  have Hz' : is_mx z (0 : 'M[F]_n.+1).
    apply: is_mat_ext; first exact: Hz. move=> i0 j /ssrnat.ltP Hi0 /ssrnat.ltP Hj.
    by rewrite -[i0]/(val (Ordinal Hi0)) -[j]/(val (Ordinal Hj)) mxfE mxE (o0E HO).
  have I1' : is_mx m1 (X ^+ 0) by rewrite expr0.
  have [mtk' [acc' [Eb Hm' Ha']]] := batch_ok HR HE b Hsa I1' Hz'. rewrite fact0 invr1 in Eb. rewrite Eb bindOk.
  have {}Ha' : is_mx acc' X.
    apply: is_mx_ext; first exact: Ha'. rewrite add0r. case: b Hb {Eb Hm' Ha'} => [//|b _].
    rewrite big_ord_recl big1 ?addr0 => [|j _]; first by rewrite expr1 invr1 scale1r.
    rewrite lift0 add0n !exprS. by rewrite [X * (X * _)]mulrA -[X * X]/(X *m X) X2 mul0r scaler0.
  have [ret' [-> Hr']] := m_iadd_mx HF I1 (is_mx_reads Ha'). rewrite bindOk.
  have [num [-> Hnum _]] := m_mul_mxL HO (is_mx_reads Ha') (is_mx_reads Ha') As. rewrite bindOk. rewrite X2 in Hnum.
  have [sq' [-> Hsq _]] := m_mul_mxL HO (is_mx_reads Hr') (is_mx_reads Hr') As. rewrite bindOk.
  have [den [-> Hden]] := m_adds_mx HR 0 (is_mx_reads Hsq). rewrite bindOk.
  have Ed : (1%:M + X) *m (1%:M + X) + const_mx 0 = 1%:M + (X + X).
    have -> : const_mx 0 = 0 :> 'M[F]_n.+1 by apply/matrixP => i j; rewrite !mxE.
    by rewrite mulmxDl mul1mx mulmxDr mulmx1 X2 !addr0 -addrA.
  rewrite Ed in Hden. have Dt : \det (1%:M + (X + X)) != 0.
    have E : (1%:M + (X + X)) *m (1%:M - (X + X)) = 1%:M.
      rewrite mulmxBr mulmx1 mulmxDl mul1mx mulmxDr !mulmxDl X2 !addr0. by rewrite addrK.
    have := congr1 matrix.determinant E. rewrite det_mulmx det1 => E'. apply/eqP => Z. move: E'. rewrite Z mul0r => /eqP. by rewrite eq_sym oner_eq0.
  have [v [V [Ev Hv]]] := inv_any HR HZ Hden Dt. rewrite /div Ev bindOk.
  have [err [-> Herr Herr']] := m_mul_mxL HO (is_mx_reads Hnum) (is_mx_reads Hv) As. rewrite bindOk.
  rewrite mul0mx in Herr'. rewrite (C40_square_norm_matrix HR _ nsqrt (proj1 Herr')) bindOk.
  rewrite big1; last first.
    move=> i0 _. rewrite big1 // => j _. by rewrite (omulE HO) mxfE mxE mul0r.
  rewrite H0. set l := expm_loop _ _ _ _ _ _ _ _ _ _ _ _. have -> : l = Ok ret'.
    rewrite /l !(omulE HO) !mul0r. by case: (fuel) => [|f'] /=; rewrite Hlt ltxx.
  rewrite bindOk. have [E [-> HE']] := squares_ok HR s Hr'. exists E. split=> //. apply: is_mx_ext; first exact: HE'.
  have P : forall k, (1%:M + X) ^+ k = 1%:M + X *+ k.
    elim=> [|k IH]; first by rewrite expr0 mulr0n addr0.
    rewrite exprS IH -[_ * _]/(_ *m _) mulmxDl mul1mx mulmxDr mulmx1 -[X *m (X *+ k)]/(X * (X *+ k)) mulrnAr -[X * X]/(X *m X) X2 mul0rn addr0.
    by rewrite mulrSr addrA.
  rewrite P. congr (_ + _). by rewrite /X -scaler_nat scalerA natrX mulfV ?scale1r // expf_neq0 // pnatr_eq0.
Qed.
(** There is at most one exponential. *)
Theorem C103_unique n (M X Y : 'M[F]_n.+1) : is_exponential M X -> is_exponential M Y -> X = Y.
Proof.
  move=> HX HY. apply/matrixP => i j. apply/eqP. rewrite -subr_eq0 -normr_le0. apply/ler_addgt0Pr => e He. rewrite add0r.
  have e2 : 0 < e / 2%:R by rewrite divr_gt0 // ltr0n.
  have [L0 H0] := HX _ e2. have [L1 H1] := HY _ e2. set L := maxn L0 L1. have {}H0 := H0 L (leq_maxl _ _) i. have {}H1 := H1 L (leq_maxr _ _) i.
  set T := \sum_(k < L.+1) _ in H0 H1. have P : forall Z : 'M[F]_n.+1, `|Z i j - T i j| <= \sum_k `|Z i k - T i k|.
    move=> Z. rewrite [X in _ <= X](bigD1 j) //= ler_addl. exact: sumr_ge0.
  apply: le_trans (ler_dist_add (T i j) _ _) _. rewrite [`|T i j - _|]distrC.
  have -> : e = e / 2%:R + e / 2%:R by rewrite -mulrDr -mulr2n -[2%:R^-1 *+ 2]mulr_natl mulfV ?mulr1 // pnatr_eq0.
  exact: ler_add (le_trans (P _) H0) (le_trans (P _) H1).
Qed.
End E.

(** A matrix with a power that is zero has an exponential in every field. *)
Theorem C103_nilpotent (F : numFieldType) n (M : 'M[F]_n.+1) d : M ^+ d = 0 -> is_exponential M (\sum_(k < d) (k`!%:R)^-1 *: M ^+ k).
Proof.
  move=> Hd eps He. exists d => L HL i. have -> : \sum_(k < L.+1) (k`!%:R)^-1 *: M ^+ k = \sum_(k < d) (k`!%:R)^-1 *: M ^+ k.
    rewrite -(big_mkord xpredT (fun k => (k`!%:R)^-1 *: M ^+ k)) (@big_cat_nat _ _ _ d 0) //=; last exact: leqW.
    rewrite big_mkord [X in _ + X]big_nat_cond [X in _ + X]big1 ?addr0 // => k /andP [/andP [Hk _] _].
    by rewrite -(subnKC Hk) exprD Hd mul0r scaler0.
  rewrite big1 => [|j _]; first exact: ltW. by rewrite subrr normr0.
Qed.
