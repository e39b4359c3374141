(** ExpBound.v: a power of a truncated exponential series against the series itself. *)
From mathcomp Require Import all_ssreflect all_algebra.
Set Implicit Arguments.
Unset Strict Implicit.
Unset Printing Implicit Defensive.
Import Order.Theory GRing.Theory Num.Theory.
Local Open Scope ring_scope.
Section B.
Variable F : realFieldType.
(** a^k / k!. *)
Definition eterm (a : F) (k : nat) : F := (k`!%:R)^-1 * a ^+ k.
Lemma fact_pos k : 0 < k`!%:R :> F. Proof. by rewrite ltr0n fact_gt0. Qed.
Lemma eterm_ge0 a k : 0 <= a -> 0 <= eterm a k.
Proof. move=> H. by rewrite mulr_ge0 ?exprn_ge0 // invr_ge0 ltW // fact_pos. Qed.
Lemma eterm_conv x y i : \sum_(k < i.+1) eterm x k * eterm y (i - k) = eterm (x + y) i.
Proof.
  rewrite /eterm addrC exprDn mulr_sumr. apply: eq_bigr => k _.
  have Hk : (k <= i)%N by rewrite -ltnS ltn_ord. have E : i`!%:R = 'C(i, k)%:R * (k`!%:R * (i - k)`!%:R) :> F by rewrite -!natrM bin_fact.
  have N1 := lt0r_neq0 (fact_pos k). have N2 := lt0r_neq0 (fact_pos (i - k)). have N3 : 'C(i, k)%:R != 0 :> F by rewrite pnatr_eq0 -lt0n bin_gt0.
  move: E N1 N2 N3. move: (x ^+ k) (y ^+ (i - k)) => X Y. move: (i`!%:R) ('C(i, k)) (k`!%:R) ((i - k)`!%:R) => f c p q -> N1 N2 N3.
  rewrite -(mulr_natl (Y * X)) invfM [RHS]mulrACA mulVf // mul1r invfM mulrACA. by rewrite (mulrC X).
Qed.
Definition epoly (K : nat) (a : F) : {poly F} := \poly_(k < K.+1) eterm a k.
Lemma epoly_pow K a : 0 <= a -> forall j i, [/\ 0 <= (epoly K a ^+ j)`_i, (epoly K a ^+ j)`_i <= eterm (j%:R * a) i & (i <= K)%N -> (epoly K a ^+ j)`_i = eterm (j%:R * a) i].
Proof.
  move=> Ha. have E0 : forall i, eterm 0 i = (i == 0%N)%:R by case=> [|i]; rewrite /eterm ?fact0 ?invr1 ?mul1r ?expr0 // expr0n mulr0.
  elim=> [|j IH] i.
  - rewrite expr0 mul0r E0 coef1. split; [exact: ler0n|exact: lexx|by []].
  - have D : j.+1%:R * a = j%:R * a + a by rewrite -addn1 natrD mulrDl mul1r.
    have C0 : forall k, 0 <= (epoly K a)`_k <= eterm a k by move=> k; rewrite coef_poly; case: ifP => _; rewrite ?lexx eterm_ge0.
    rewrite exprSr coefM D -eterm_conv. split.
    + apply: sumr_ge0 => k _. have [H _ _] := IH k. have /andP [H' _] := C0 (i - k)%N. exact: mulr_ge0.
    + apply: ler_sum => k _. have [H1 H2 _] := IH k. have /andP [H3 H4] := C0 (i - k)%N. exact: ler_pmul.
    + move=> Hi. apply: eq_bigr => k _. have Hk : (k <= i)%N by rewrite -ltnS ltn_ord. have [_ _ ->] := IH k; last exact: leq_trans Hk Hi.
      by rewrite coef_poly ltnS (leq_trans (leq_subr _ _) Hi).
Qed.
Lemma epoly_size K a j : (size (epoly K a ^+ j) <= (K * j).+1)%N.
Proof.
  apply: leq_trans (size_exp_leq _ _) _. rewrite ltnS leq_mul2r. apply/orP. right. have := size_poly K.+1 (eterm a). rewrite -/(epoly K a). by case: (size _).
Qed.
(** Row sums of absolute values. *)
Definition rows_le n (X : 'M[F]_n) (a : F) : Prop := forall i, \sum_j `|X i j| <= a.
Lemma rows_mul n (X Y : 'M[F]_n) a b : rows_le X a -> rows_le Y b -> rows_le (X *m Y) (a * b).
Proof.
  move=> HX HY i. have T : \sum_j `|(X *m Y) i j| <= \sum_j \sum_k `|X i k| * `|Y k j|.
    apply: ler_sum => j _. rewrite mxE. apply: le_trans (ler_norm_sum _ _ _) _. by apply: ler_sum => k _; rewrite normrM.
  apply: le_trans T _. rewrite exchange_big /=. have T : \sum_k \sum_j `|X i k| * `|Y k j| <= \sum_k `|X i k| * b.
    apply: ler_sum => k _. rewrite -mulr_sumr. exact: ler_wpmul2l.
  apply: le_trans T _. rewrite -mulr_suml. apply: ler_wpmul2r (HX i). have := HY i. apply: le_trans. by apply: sumr_ge0.
Qed.
Lemma rows_add n (X Y : 'M[F]_n) a b : rows_le X a -> rows_le Y b -> rows_le (X + Y) (a + b).
Proof.
  move=> HX HY i. have T : \sum_j `|(X + Y) i j| <= \sum_j (`|X i j| + `|Y i j|) by apply: ler_sum => j _; rewrite mxE ler_norm_add.
  apply: le_trans T _. rewrite big_split /=. exact: ler_add.
Qed.
Lemma rows_scale n (X : 'M[F]_n) a c : rows_le X a -> rows_le (c *: X) (`|c| * a).
Proof.
  move=> HX i. have T : \sum_j `|(c *: X) i j| = `|c| * \sum_j `|X i j| by rewrite mulr_sumr; apply: eq_bigr => j _; rewrite mxE normrM.
  rewrite T. exact: ler_wpmul2l.
Qed.
Lemma rows_0 n : rows_le (0 : 'M[F]_n) 0.
Proof. move=> i. rewrite big1 // => j _. by rewrite mxE normr0. Qed.
Lemma rows_pow n (X : 'M[F]_n.+1) a k : rows_le X a -> rows_le (X ^+ k) (a ^+ k).
Proof.
  move=> HX. elim: k => [|k IH]; last by rewrite !exprS; exact: rows_mul.
  move=> i. rewrite !expr0 (bigD1 i) //= big1 ?addr0 => [|j Hj]; rewrite mxE; first by rewrite eqxx normr1.
  by rewrite eq_sym (negbTE Hj) normr0.
Qed.
Lemma rows_sum n (X : nat -> 'M[F]_n) (b : nat -> F) N : (forall k, (k < N)%N -> rows_le (X k) (b k)) -> rows_le (\sum_(k < N) X k) (\sum_(k < N) b k).
Proof.
  elim: N => [|N IH] H; first by rewrite !big_ord0; exact: rows_0.
  rewrite !big_ord_recr /=. apply: rows_add; [by apply: IH => k Hk; apply: H; exact: ltnW|exact: H].
Qed.
Lemma horner_coefs n (M : 'M[F]_n.+1) (p : {poly F}) N : (size p <= N)%N -> horner_mx M p = \sum_(k < N) p`_k *: M ^+ k.
Proof.
  move=> Hs. have -> : p = \sum_(k < N) p`_k *: 'X^k.
    rewrite -poly_def. apply/polyP => i. rewrite coef_poly. case: ltnP => // H. by rewrite nth_default // (leq_trans Hs).
  rewrite raddf_sum /=. apply: eq_bigr => k _. rewrite linearZ /= rmorphX /= horner_mx_X. congr (_ *: _).
  rewrite -poly_def coef_poly ltn_ord. congr (nth 0 _ _).
Qed.
(** The polynomial that expm computes and the series to degree L differ by at most the terms of the
    series after K. *)
Theorem exp_error n (M : 'M[F]_n.+1) K L m a : (0 < m)%N -> (K <= L)%N -> rows_le M a ->
  rows_le ((\sum_(k < K.+1) (k`!%:R)^-1 *: (m%:R^-1 *: M) ^+ k) ^+ m - \sum_(k < L.+1) (k`!%:R)^-1 *: M ^+ k)
    (\sum_(K.+1 <= k < (maxn L (K * m)).+1) eterm a k).
Proof.
  move=> Hm HKL HM. have m0 : m%:R != 0 :> F by rewrite pnatr_eq0 -lt0n. set N := maxn L (K * m).
  have E1 : forall J c, \sum_(k < J.+1) (k`!%:R)^-1 *: (c *: M) ^+ k = horner_mx M (epoly J c).
    move=> J c. rewrite (@horner_coefs _ M (epoly J c) J.+1) ?size_poly //. apply: eq_bigr => k _. by rewrite coef_poly ltn_ord /eterm exprZn scalerA.
  have E2 : \sum_(k < L.+1) (k`!%:R)^-1 *: M ^+ k = horner_mx M (epoly L 1) by rewrite -E1; apply: eq_bigr => k _; rewrite scale1r.
  rewrite E1 E2 -rmorphX -rmorphB /=. set q := _ - _.
  have Hs : (size q <= N.+1)%N.
    rewrite /q. apply: leq_trans (size_add _ _) _. rewrite geq_max size_opp. apply/andP. split.
      apply: leq_trans (epoly_size _ _ _) _. by rewrite ltnS leq_maxr.
    apply: leq_trans (size_poly _ _) _. by rewrite ltnS leq_maxl.
  rewrite (horner_coefs M Hs) -(big_mkord xpredT (fun k => q`_k *: M ^+ k)) (@big_cat_nat _ _ _ K.+1) //=; last first.
    rewrite ltnS. exact: leq_trans HKL (leq_maxl _ _).
  have i0 : 0 <= m%:R^-1 :> F by rewrite invr_ge0 ler0n. have C1 : forall i, 0 <= (epoly L 1)`_i <= eterm 1 i by move=> i; rewrite coef_poly; case: ifP => _; rewrite ?lexx eterm_ge0 ?ler01.
  rewrite big_nat big1 ?add0r => [|k /andP [_ Hk]]; last first.
    have [_ _ E] := epoly_pow K i0 m k. have Z : q`_k = 0 by rewrite /q coefB E // mulfV // coef_poly (leq_trans Hk) ?ltnS // subrr.
    by rewrite Z scale0r.
  have A0 : 0 <= a by apply: le_trans (HM ord0); apply: sumr_ge0.
  have -> : \sum_(K.+1 <= k < N.+1) q`_k *: M ^+ k = \sum_(k < N.+1) (if (K < k)%N then q`_k *: M ^+ k else 0).
    rewrite -(big_mkord xpredT (fun k => if (K < k)%N then q`_k *: M ^+ k else 0)) (@big_cat_nat _ _ _ K.+1 0) //; last by rewrite ltnS; exact: leq_trans HKL (leq_maxl _ _).
    rewrite [X in _ = X + _]big_nat_cond [X in _ = X + _]big1 ?add0r => [|k /andP [/andP [_ Hk] _]]; last by rewrite ltnNge -ltnS Hk.
    by apply: eq_big_nat => k /andP [Hk _]; rewrite Hk.
  have -> : \sum_(K.+1 <= k < N.+1) eterm a k = \sum_(k < N.+1) (if (K < k)%N then eterm a k else 0).
    rewrite -(big_mkord xpredT (fun k => if (K < k)%N then eterm a k else 0)) (@big_cat_nat _ _ _ K.+1 0) //; last by rewrite ltnS; exact: leq_trans HKL (leq_maxl _ _).
    rewrite [X in _ = X + _]big_nat_cond [X in _ = X + _]big1 ?add0r => [|k /andP [/andP [_ Hk] _]]; last by rewrite ltnNge -ltnS Hk.
    by apply: eq_big_nat => k /andP [Hk _]; rewrite Hk.
  apply: (rows_sum (X := fun k => if (K < k)%N then q`_k *: M ^+ k else 0) (b := fun k => if (K < k)%N then eterm a k else 0)) => k _.
  case: ifP => _; last exact: rows_0. have R := rows_scale q`_k (rows_pow k HM). move=> i. apply: le_trans (R i) _.
  apply: ler_wpmul2r; first exact: exprn_ge0. have [P1 P2 _] := epoly_pow K i0 m k. have /andP [Q1 Q2] := C1 k.
  rewrite mulfV // in P2. rewrite /eterm expr1n mulr1 in P2 Q2. rewrite /q coefB ler_norml. apply/andP. split.
    rewrite ler_subr_addr. apply: le_trans P1. by rewrite addrC subr_le0.
  rewrite ler_subl_addr. apply: le_trans P2 _. by rewrite ler_addl.
Qed.
(** The terms after K, when they decrease. *)
Lemma eterm_tail a K N : 0 <= a -> a < K.+2%:R -> \sum_(K.+1 <= k < N.+1) eterm a k <= eterm a K.+1 * (K.+2%:R / (K.+2%:R - a)).
Proof.
  move=> A0 HA. set g := _ / _. have D0 : 0 < K.+2%:R - a by rewrite subr_gt0. have K0 : 0 < K.+2%:R :> F by rewrite ltr0n.
  have g0 : 0 <= g by rewrite divr_ge0 // ltW.
  have G : forall k, (K < k)%N -> eterm a k + eterm a k.+1 * g <= eterm a k * g.
    move=> k Hk. have -> : eterm a k.+1 = eterm a k * (a / k.+1%:R).
      rewrite /eterm factS natrM invfM exprS. move: (k.+1%:R^-1) (k`!%:R^-1) (a ^+ k) => u v w. by rewrite (mulrC u) (mulrC a) mulrACA (mulrC u).
    rewrite -{1}[eterm a k]mulr1 -mulrA -mulrDr. apply: ler_wpmul2l; first exact: eterm_ge0.
    have T : a / k.+1%:R * g <= a / K.+2%:R * g by apply: ler_wpmul2r => //; apply: ler_wpmul2l => //; rewrite lef_pinv ?posrE ?ltr0n // ler_nat.
    have E : a / K.+2%:R * g = a / (K.+2%:R - a) by rewrite /g mulrA mulfVK // lt0r_neq0.
    have E' : g = 1 + a / (K.+2%:R - a).
      have -> : g = (K.+2%:R - a + a) / (K.+2%:R - a) by rewrite subrK.
      by rewrite mulrDl mulfV ?lt0r_neq0.
    rewrite {2}E' ler_add2l. by rewrite -E.
  have H : forall j, \sum_(K.+1 <= k < K.+1 + j) eterm a k + eterm a (K.+1 + j) * g <= eterm a K.+1 * g.
    elim=> [|j IH]; first by rewrite addn0 big_geq // add0r.
    apply: le_trans IH. rewrite addnS big_nat_recr ?leq_addr //= -addrA. apply: ler_add => //. apply: G. by rewrite addSn ltnS leq_addr.
  case: (leqP N K) => HN; first by rewrite big_geq ?ltnS // mulr_ge0 // eterm_ge0.
  have := H (N.+1 - K.+1)%N. rewrite subnKC; last by rewrite ltnW.
  apply: le_trans. by rewrite ler_addl mulr_ge0 // eterm_ge0.
Qed.
End B.
