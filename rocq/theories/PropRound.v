(** PropRound.v: rounding errors (C79).  The element type T has values in an ordered
    field; each operation is correct up to a relative error u (the standard model of
    floating-point arithmetic without overflow and underflow), and adding to zero is
    exact.  The theorems bound the error of the library's sums and products. *)
From Verif Require Import MathFacts PropMath RingM DetFacts LinalgFacts2 LURound.
From mathcomp Require Import all_ssreflect all_algebra.
Set Implicit Arguments.
Unset Strict Implicit.
Unset Printing Implicit Defensive.
Import Order.Theory GRing.Theory Num.Theory.
Local Open Scope ring_scope.

(** [a] is [b] up to a relative error u. *)
Definition near (F : realFieldType) (u a b : F) : Prop := `|a - b| <= u * `|b|.
(** The standard model; [val] is the number that an element stands for. *)
Definition roundO (F : realFieldType) (T : Type) (O : Ops T) (val : T -> F) (u : F) : Prop :=
  [/\ 0 <= u, val o0 = 0 /\ val o1 = 1, (forall x, val (oadd o0 x) = val x), (forall x y, near u (val (oadd x y)) (val x + val y)) &
   [/\ (forall x y, near u (val (osub x y)) (val x - val y)), (forall x y, near u (val (omul x y)) (val x * val y)) &
    (forall x y, val y != 0 -> exists q, odiv x y = Ok q /\ near u (val q) (val x / val y))]].

Section RingIds.
Variable K : comRingType.
Add Ring RK : (R_ring K).
Ltac rring := rewrite ?raddE ?rmulE ?roppE ?rzeroE ?roneE; match goal with |- @eq _ ?a ?b => change (@eq (rT K) a b) end; ring.
Lemma id1 (w s p S : K) : w - (S + p) = (w - (s + p)) + (s - S).
Proof. rring. Qed.
Lemma id2 (u e A p : K) : u * ((1 + e) * A + p) + e * A = ((1 + e) * (1 + u) - 1) * A + u * p.
Proof. rring. Qed.
Lemma id3 (u e x y : K) : (e * (1 + u) - 1) * x + u * y = (e * (1 + u) - 1) * (x + y) - (e * (1 + u) - (1 + u)) * y.
Proof. rring. Qed.
Lemma id4 (u e x : K) : (e - 1) * ((1 + u) * x) + u * x = (e * (1 + u) - 1) * x.
Proof. rring. Qed.
Lemma id5 (a s p s' S : K) : a - (s' + (S + p)) = (a - (s + S)) + (s - p - s').
Proof. rring. Qed.
Lemma id6 (w e s p S : K) : (e - 1) * ((w * s + p) + S) + (w - 1) * s = (e * w - 1) * (s + (S + p)) - e * (w - 1) * (S + p).
Proof. rring. Qed.
Lemma id7 (e w s S : K) : (e - 1) * (s + w * S) + (w - 1) * S = (e * w - 1) * (s + S) - e * (w - 1) * s.
Proof. rring. Qed.
Lemma id8 (s p t : K) : ((s - p) - t) + (t + p) = s.
Proof. rring. Qed.
Lemma id9 (e w A : K) : (w - 1) * (e * A) + (e - 1) * A = (e * w - 1) * A.
Proof. rring. Qed.
Lemma id10 (d x y : K) : d * x - d * y = d * (x - y).
Proof. rring. Qed.
Lemma id11 (a x : K) : (x - a) + a = x.
Proof. rring. Qed.
Lemma id12 (e A : K) : (e - 1) * A + A = e * A.
Proof. rring. Qed.
End RingIds.

Section Rounding.
Variables (F : realFieldType) (T : Type) (O : Ops T) (val : T -> F) (u : F).
Hypothesis HR : roundO O val u.
Let u0 : 0 <= u. Proof. by case: HR. Qed.

Lemma onep_ge1 n : 1 <= (1 + u) ^+ n. Proof. by apply: exprn_ege1; rewrite ler_addl. Qed.
Lemma near_abs a b : near u a b -> `|a| <= (1 + u) * `|b|.
Proof. move=> H. rewrite mulrDl mul1r -ler_subl_addl. apply: le_trans H. exact: ler_sub_dist. Qed.
(** The triangle inequality for approximations. *)
Lemma abs_tri (a b c x y : F) : `|a - b| <= x -> `|b - c| <= y -> `|a - c| <= x + y.
Proof. move=> Hx Hy. have -> : a - c = (a - b) + (b - c) by rewrite addrA subrK. apply: le_trans (ler_norm_add _ _) _. exact: ler_add. Qed.

(** One more rounded addition. *)
Lemma add_err s p (S A e : F) : `|val s - S| <= e * A -> `|S| <= A ->
  `|val (oadd s p) - (S + val p)| <= ((1 + e) * (1 + u) - 1) * A + u * `|val p|.
Proof.
  move=> Hs HS. case: HR => _ _ _ Hadd _. rewrite (id1 _ (val s)) -id2.
  apply: le_trans (ler_norm_add _ _) _. apply: ler_add => //.
  apply: le_trans (Hadd s p) _. apply: ler_wpmul2l => //. apply: le_trans (ler_norm_add _ _) _.
  apply: ler_add => //. have -> : val s = S + (val s - S) by rewrite addrC subrK.
  apply: le_trans (ler_norm_add _ _) _. rewrite mulrDl mul1r. exact: ler_add.
Qed.
Lemma osum_err n (g : nat -> T) :
  `|val (osum n g) - \sum_(i < n) val (g i)| <= ((1 + u) ^+ n.-1 - 1) * \sum_(i < n) `|val (g i)|.
Proof.
  case: n => [|n]; first by case: HR => _ [H0 _] _ _ _; rewrite /= H0 !big_ord0 subrr normr0 mulr0.
  elim: n => [|n IH].
    case: HR => _ _ H1 _ _. by rewrite /= H1 !big_ord1 subrr normr0 expr0 subrr mul0r.
  have -> : osum n.+2 g = oadd (osum n.+1 g) (g n.+1) by [].
  rewrite big_ord_recr [in X in _ <= X]big_ord_recr /=.
  apply: le_trans (add_err _ IH (ler_norm_sum _ _ _)) _.
  rewrite [1 + (_ - 1)]addrC subrK id3 -exprSr ler_subl_addr ler_addl mulr_ge0 //.
  by rewrite subr_ge0 exprS ler_pmulr ?onep_ge1 ?ltr_paddr ?ltr01.
Qed.
(** Rounded products first. *)
Lemma osum_mul_err n (f g : nat -> T) :
  `|val (osum n (fun i => omul (f i) (g i))) - \sum_(i < n) val (f i) * val (g i)|
    <= ((1 + u) ^+ n - 1) * \sum_(i < n) `|val (f i) * val (g i)|.
Proof.
  case: n => [|n]; first by case: HR => _ [H0 _] _ _ _; rewrite /= H0 !big_ord0 subrr normr0 mulr0.
  case: HR => _ _ _ _ [_ Hm _].
  rewrite [_ ^+ n.+1]exprSr -id4. apply: abs_tri.
  - apply: le_trans (osum_err _ _) _. apply: ler_wpmul2l; first by rewrite subr_ge0 onep_ge1.
    rewrite mulr_sumr. apply: ler_sum => i _. exact: near_abs.
  - rewrite -sumrB mulr_sumr. apply: le_trans (ler_norm_sum _ _ _) _. apply: ler_sum => i _. exact: Hm.
Qed.

(** * The library's functions *)
Theorem C79_sum : forall v n f, is_vec v n f -> exists s, sum v = Ok s /\
  `|val s - \sum_(i < n) val (f i)| <= ((1 + u) ^+ n.-1 - 1) * \sum_(i < n) `|val (f i)|.
Proof. move=> v n f H. eexists. split; [exact: C39_sum H|exact: osum_err]. Qed.
Theorem C79_dot : forall a b n f g, is_vec a n f -> is_vec b n g -> exists s, dot a b = Ok s /\
  `|val s - \sum_(i < n) val (f i) * val (g i)| <= ((1 + u) ^+ n - 1) * \sum_(i < n) `|val (f i) * val (g i)|.
Proof.
  move=> a b n f g Ha Hb. have [_ H] := C35_dot _ _ _ _ _ _ Ha Hb.
  eexists. split; [exact: H|exact: (osum_mul_err n f g)].
Qed.
Theorem C79_matrix_vector : forall A r c f b g, reads A r c f -> is_vec b c g -> fits r ->
  exists d h, [/\ m_mulv A b = Ok d, is_vec d r h & forall i, (i < r)%N ->
  `|val (h i) - \sum_(k < c) val (f i k) * val (g k)| <= ((1 + u) ^+ c - 1) * \sum_(k < c) `|val (f i k) * val (g k)|].
Proof.
  move=> A r c f b g HA Hb Hr. have [d [E H]] := C35_matvec _ _ _ _ _ _ _ HA Hb (le_n c) Hr.
  exists d; eexists; split; [exact: E|exact: H|]. move=> i _ /=. exact: (osum_mul_err c (f i) g).
Qed.
Theorem C79_product : forall A B r n c f g, reads A r n f -> reads B n c g -> shape_ok r c ->
  exists m h, [/\ m_mul A B = Ok m, is_mat m r c h & forall i j, (i < r)%N -> (j < c)%N ->
  `|val (h i j) - \sum_(k < n) val (f i k) * val (g k j)| <= ((1 + u) ^+ n - 1) * \sum_(k < n) `|val (f i k) * val (g k j)|].
Proof.
  move=> A B r n c f g HA HB Hs. have [_ H] := C33_product _ _ _ _ _ _ _ _ HA HB Hs. have [m [E Hm]] := H erefl.
  exists m; eexists; split; [exact: E|exact: Hm|]. move=> i j _ _. exact: (osum_mul_err n (f i) (g^~ j)).
Qed.
Theorem C79_trace : forall A r c f, reads A r c f -> (r <= c)%N -> exists s, trace A = Ok s /\
  `|val s - \sum_(i < r) val (f i i)| <= ((1 + u) ^+ r.-1 - 1) * \sum_(i < r) `|val (f i i)|.
Proof.
  move=> A r c f H /ssrnat.leP Hr. eexists. split; [exact: C39_trace H Hr|exact: (osum_err r (fun i => f i i))].
Qed.

(** * LU decomposition: the product of the factors is close to the matrix *)
Hypothesis u1 : u < 1.
Let w : F := (1 - u)^-1.
Let du0 : 0 < 1 - u. Proof. by rewrite subr_gt0. Qed.
Let w0 : 0 < w. Proof. by rewrite invr_gt0. Qed.
Let w1 : 1 <= w. Proof. by rewrite /w -[X in X <= _]invr1 lef_pinv ?posrE ?ltr01 // ler_subl_addl ler_addr. Qed.
Let wm1 : 0 <= w - 1. Proof. by rewrite subr_ge0. Qed.
Let we n : 1 <= w ^+ n. Proof. exact: exprn_ege1. Qed.
Let wen n : 0 <= w ^+ n - 1. Proof. by rewrite subr_ge0. Qed.
Let wu : w - 1 = u * w. Proof. by rewrite /w -[X in _ - X](mulfV (lt0r_neq0 du0)) -{1}[_^-1]mul1r -mulrBl opprB addrC subrK. Qed.
Let uw : u <= w - 1. Proof. by rewrite wu ler_pemulr. Qed.

Lemma near_back (a b : F) : near u a b -> `|a - b| <= (w - 1) * `|a|.
Proof.
  move=> H. apply: (le_trans (H : _ <= _)). rewrite wu -mulrA. apply: ler_wpmul2l => //.
  rewrite /w mulrC ler_pdivl_mulr // mulrBr mulr1 ler_subl_addl -ler_subl_addr [`|b| * u]mulrC.
  apply: le_trans (H : _ <= _). rewrite distrC. exact: ler_sub_dist.
Qed.
Lemma near_w (a b : F) : near u a b -> `|a - b| <= (w - 1) * `|b|.
Proof. move=> H. apply: le_trans H _. exact: ler_wpmul2r. Qed.
Lemma w_abs (a b : F) : `|a - b| <= (w - 1) * `|b| -> `|a| <= w * `|b|.
Proof. move=> H. rewrite -(subrK 1 w) mulrDl mul1r -ler_subl_addr. apply: le_trans H. exact: ler_sub_dist. Qed.
(** Sequential subtraction. *)
Lemma osubs_back n a (p : nat -> T) :
  `|val a - (val (osubs n a p) + \sum_(k < n) val (p k))| <= (w ^+ n - 1) * (`|val (osubs n a p)| + \sum_(k < n) `|val (p k)|).
Proof.
  elim: n => [|n IH]; first by rewrite /= !big_ord0 !addr0 subrr normr0 expr0 subrr mul0r.
  have -> : osubs n.+1 a p = osub (osubs n a p) (p n) by [].
  move: (osubs n a p) IH => s IH.
  have Hs : `|val s - val (p n) - val (osub s (p n))| <= (w - 1) * `|val (osub s (p n))|.
    rewrite distrC. apply: near_back. by case: HR => _ _ _ _ [H _ _].
  move: (osub s (p n)) Hs => s' Hs.
  rewrite !big_ord_recr /= (id5 _ (val s)).
  apply: le_trans (ler_norm_add _ _) _. apply: le_trans (ler_add IH Hs) _.
  have Hs' : `|val s| <= w * `|val s'| + `|val (p n)|.
    rewrite -[X in `|X|](id8 _ (val (p n)) (val s')). apply: le_trans (ler_norm_add _ _) _.
    have -> : w * `|val s'| = (w - 1) * `|val s'| + `|val s'| by rewrite mulrBl mul1r subrK.
    rewrite -[X in _ <= X]addrA. apply: ler_add => //. exact: ler_norm_add.
  have H0 : 0 <= \sum_(i < n) `|val (p i)| by apply: sumr_ge0.
  apply: (@le_trans _ _ ((w ^+ n - 1) * ((w * `|val s'| + `|val (p n)|) + \sum_(i < n) `|val (p i)|) + (w - 1) * `|val s'|)).
    apply: ler_add => //. apply: ler_wpmul2l => //. exact: ler_add.
  rewrite id6 -exprSr ler_subl_addr ler_addl. apply: mulr_ge0; last by apply: addr_ge0.
  by rewrite mulr_ge0 // (le_trans ler01 (we n)).
Qed.
(** Replacing the subtracted terms by numbers that they approximate. *)
Lemma subst_err n m (x s : F) (q r : nat -> F) :
  `|x - (s + \sum_(k < n) q k)| <= (w ^+ m - 1) * (`|s| + \sum_(k < n) `|q k|) ->
  (forall k : 'I_n, `|q k - r k| <= (w - 1) * `|r k|) ->
  `|x - (s + \sum_(k < n) r k)| <= (w ^+ m.+1 - 1) * (`|s| + \sum_(k < n) `|r k|).
Proof.
  move=> H Hq. have Hsum : `|(s + \sum_(k < n) q k) - (s + \sum_(k < n) r k)| <= (w - 1) * \sum_(k < n) `|r k|.
    rewrite opprD addrACA subrr add0r -sumrB mulr_sumr. apply: le_trans (ler_norm_sum _ _ _) _. exact: ler_sum.
  apply: le_trans (abs_tri H Hsum) _.
  apply: (@le_trans _ _ ((w ^+ m - 1) * (`|s| + w * \sum_(k < n) `|r k|) + (w - 1) * \sum_(k < n) `|r k|)).
    apply: ler_add => //. apply: ler_wpmul2l => //. apply: ler_add => //. rewrite mulr_sumr. apply: ler_sum => k _. exact: w_abs.
  rewrite id7 -exprSr ler_subl_addr ler_addl mulr_ge0 // mulr_ge0 // (le_trans ler01 (we m)) //.
Qed.
(** Replacing the first number by one that it approximates. *)
Lemma head_err m (x y S A : F) : `|x - S| <= (w ^+ m - 1) * A -> `|S| <= A -> `|x - y| <= (w - 1) * `|x| ->
  `|y - S| <= (w ^+ m.+1 - 1) * A.
Proof.
  move=> H HS Hy. rewrite distrC in Hy. apply: le_trans (abs_tri Hy H) _. rewrite [_ ^+ m.+1]exprSr -id9.
  apply: ler_add => //. apply: ler_wpmul2l => //. rewrite -[X in `|X|](id11 S). apply: le_trans (ler_norm_add _ _) _.
  rewrite -id12. exact: ler_add.
Qed.
Lemma wmono m n : (m <= n)%N -> w ^+ m - 1 <= w ^+ n - 1.
Proof. move=> H. by rewrite ler_add2r ler_weexpn2l. Qed.

(** The decomposition exists whenever every division has a value (as in floating point). *)
Theorem C80_lu_defined : (forall x y : T, exists q, odiv x y = Ok q) -> forall A n f, reads A n n f ->
  exists l m, lu_decomposition A = Ok (l, m).
Proof. move=> H A n f HA. apply: (lu_total HA) => d x. exact: H. Qed.
(** The product of the factors is the matrix, up to a multiple of the products added. *)
Theorem C80_lu_backward : forall A n f l m, reads A n n f -> lu_decomposition A = Ok (l, m) ->
  exists L U, [/\ is_mat l n n L, is_mat m n n U &
  (forall i, (i < n)%N -> val (L i i) != 0) -> forall i j, (i < n)%N -> (j < n)%N ->
  `|\sum_(t < n) val (L i t) * val (U t j) - val (f i j)| <= ((1 - u)^-1 ^+ n.+1 - 1) * \sum_(t < n) `|val (L i t) * val (U t j)|].
Proof.
  move=> A n f l m HA E. have [L [U [Hl Hu HL HU]]] := lu_entries HA E. rewrite /= in Hl Hu.
  exists L, U. split=> // Hd i j Hi Hj. rewrite -/w.
  case: HR => _ [V0 V1] _ _ [_ Hmul Hdiv].
  have Hdiv' k : (k < n)%N -> divides O (L k k). by move=> Hk x; case: (Hdiv x _ (Hd k Hk)) => q [Eq _]; exists q.
  have split_at p (Hp : (p < n)%N) (g : nat -> F) : (forall t, (p < t)%N -> (t < n)%N -> g t = 0) ->
      \sum_(t < n) g t = g p + \sum_(t < p) g t.
    move=> Hz. rewrite -(big_mkord xpredT g) (@big_cat_nat _ _ _ p.+1) //= big_mkord big_ord_recr /= [X in X + _]addrC.
    rewrite [X in _ + X]big_nat_cond [X in _ + X]big1 ?addr0 // => t /andP [/andP [H1 H2] _]. exact: Hz.
  rewrite distrC. case: (ltnP i j) => Hij.
  - (* above the diagonal *)
    have Z t : (i < t)%N -> (t < n)%N -> val (L i t) * val (U t j) = 0.
      by move=> H1 H2; rewrite (HL i t Hi H2) H1 V0 mul0r.
    have Z' t : (i < t)%N -> (t < n)%N -> `|val (L i t) * val (U t j)| = 0 by move=> H1 H2; rewrite Z // normr0.
    rewrite (split_at i Hi (fun t => val (L i t) * val (U t j))) // (split_at i Hi (fun t => `|val (L i t) * val (U t j)|)) //.
    have EU := HU i j Hi Hj (Hdiv' i Hi). rewrite ltnNge (ltnW Hij) /= (gtn_eqF Hij) in EU.
    have Hb := osubs_back i (quo O (f i j) (L i i)) (fun t => quo O (@omul T O (L i t) (U t j)) (L i i)). rewrite -EU in Hb.
    have Hq x : near u (val (quo O x (L i i))) (val x / val (L i i)).
      by rewrite /quo; case: (Hdiv x _ (Hd i Hi)) => q [-> Hq].
    have d0 := Hd i Hi. move: (val (L i i)) d0 Hq => d d0 Hq.
    move: Hb Hq. set q := fun x => quo O x (L i i). rewrite -/(q (f i j)).
    set P := fun t => @omul T O (L i t) (U t j). move=> Hb Hq.
    have Hb1 : `|d * val (q (f i j)) - (d * val (U i j) + \sum_(t < i) d * val (q (P t)))|
        <= (w ^+ i - 1) * (`|d * val (U i j)| + \sum_(t < i) `|d * val (q (P t))|).
      rewrite -mulr_sumr -mulrDr id10 !normrM.
      have -> : \sum_(t < i) `|d * val (q (P t))| = `|d| * \sum_(t < i) `|val (q (P t))|.
        by rewrite mulr_sumr; apply: eq_bigr => t _; rewrite normrM.
      rewrite -mulrDr mulrCA. by apply: ler_wpmul2l.
    have Hqd x : near u (d * val (q x)) (val x).
      have -> : val x = d * (val x / d) by rewrite mulrC divfK.
      rewrite /near id10 normrM [X in u * X]normrM mulrCA. by apply: ler_wpmul2l => //; exact: Hq.
    have Hb2 := head_err Hb1 _ (near_back (Hqd (f i j))).
    have {}Hb2 := Hb2 (le_trans (ler_norm_add _ _) (ler_add (lexx _) (ler_norm_sum _ _ _))).
    have Hb3 := subst_err (q := fun t => d * val (q (P t))) (r := fun t => val (P t)) Hb2 (fun t => near_w (Hqd (P t))).
    have Hb4 := subst_err (q := fun t => val (P t)) (r := fun t => val (L i t) * val (U t j)) Hb3 (fun t => near_w (Hmul _ _)).
    apply: le_trans Hb4 _. apply: ler_wpmul2r; first by rewrite addr_ge0 // sumr_ge0.
    apply: wmono. rewrite ltnS. apply: leq_trans Hj. exact: (leq_ltn_trans Hij).
  - (* on and below the diagonal *)
    have Z t : (j < t)%N -> (t < n)%N -> val (L i t) * val (U t j) = 0.
      by move=> H1 H2; rewrite (HU t j H2 Hj (Hdiv' t H2)) H1 V0 mulr0.
    have Z' t : (j < t)%N -> (t < n)%N -> `|val (L i t) * val (U t j)| = 0 by move=> H1 H2; rewrite Z // normr0.
    rewrite (split_at j Hj (fun t => val (L i t) * val (U t j))) // (split_at j Hj (fun t => `|val (L i t) * val (U t j)|)) //.
    have EU := HU j j Hj Hj (Hdiv' j Hj). rewrite ltnn eqxx in EU. rewrite EU V1 !mulr1.
    have EL := HL i j Hi Hj. rewrite ltnNge Hij /= in EL.
    have Hb := osubs_back j (f i j) (fun t => @omul T O (L i t) (U t j)). rewrite -EL in Hb.
    have Hb2 := subst_err (q := fun t => val (@omul T O (L i t) (U t j))) (r := fun t => val (L i t) * val (U t j)) Hb (fun t => near_w (Hmul _ _)).
    apply: le_trans Hb2 _. apply: ler_wpmul2r; first by rewrite addr_ge0 // sumr_ge0.
    apply: wmono. rewrite ltnS. exact: ltnW.
Qed.
End Rounding.
