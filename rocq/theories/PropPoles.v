(** PropPoles.v: C117, what the gain of acker does to a run: with A - B K in place of A the
    simulation forgets its initial state after n steps if all the chosen poles are 0, and at a
    rate that does not depend on the run if they lie strictly between -1 and 1. *)
From Verif Require Import LinalgFacts2 PropMatrix PropUtil PropMath RingM DetFacts RatOps PropLinalg PropRing PropField PropReal Control ControlSpec ControlFacts CharPoly PropControl PropControl2 PropSteady PropCoord.
From mathcomp Require Import all_ssreflect all_algebra.
Set Implicit Arguments.
Unset Strict Implicit.
Unset Printing Implicit Defensive.
Import Order.Theory GRing.Theory Num.Theory.
Local Open Scope ring_scope.
Local Opaque simulate acker.

(** * Powers of a matrix with known characteristic roots *)
Section Nil.
Variables (F : fieldType) (n : nat).
Lemma roots_horner (M : 'M[F]_n.+1) (p : 'I_n.+1 -> F) : char_poly M = \prod_j ('X - (p j)%:P) -> horner_mx M (\prod_j ('X - (p j)%:P)) = 0.
Proof. move=> <-. exact: Cayley_Hamilton. Qed.
Lemma nilpotent (M : 'M[F]_n.+1) k : char_poly M = \prod_(j < n.+1) ('X - 0%:P) -> (n < k)%N -> M ^+ k = 0.
Proof.
  move=> H Hk. have := Cayley_Hamilton M. rewrite H polyC0 subr0 prodr_const card_ord rmorphX /= horner_mx_X => E.
  by rewrite -(subnK Hk) exprD E mulr0.
Qed.
End Nil.

Section Decay.
Variables (F : archiFieldType) (n : nat).
(** The sum of the absolute values of all elements. *)
Definition esize r c (V : 'M[F]_(r, c)) : F := \sum_i \sum_j `|V i j|.
Lemma esizeD r c (V W : 'M[F]_(r, c)) : esize (V + W) <= esize V + esize W.
Proof. rewrite /esize -big_split /=. apply: ler_sum => i _. rewrite -big_split /=. apply: ler_sum => j _. rewrite mxE. exact: ler_norm_add. Qed.
Lemma esizeZ r c a (V : 'M[F]_(r, c)) : esize (a *: V) = `|a| * esize V.
Proof. rewrite /esize mulr_sumr. apply: eq_bigr => i _. rewrite mulr_sumr. apply: eq_bigr => j _. by rewrite mxE normrM. Qed.
Lemma esize_ge0 r c (V : 'M[F]_(r, c)) : 0 <= esize V.
Proof. apply: sumr_ge0 => i _. exact: sumr_ge0. Qed.
Lemma esize_el r c (V : 'M[F]_(r, c)) i j : `|V i j| <= esize V.
Proof.
  rewrite /esize (bigD1 i) //= (bigD1 j) //= -addrA ler_addl. apply: addr_ge0; first exact: sumr_ge0.
  apply: sumr_ge0 => k _. exact: sumr_ge0.
Qed.
Lemma damped (a e : nat -> F) rho : 0 <= rho < 1 -> (forall k, a k.+1 <= rho * a k + e k) -> (forall eps, 0 < eps -> exists k1, forall k, (k1 <= k)%N -> e k <= eps) ->
  forall eps, 0 < eps -> exists k1, forall k, (k1 <= k)%N -> a k <= eps.
Proof.
  move=> /andP [r0 r1] Ha He eps E0. pose h := eps / 2%:R. have h0 : 0 < h by rewrite divr_gt0 // ltr0n.
  have q0 : 0 < 1 - rho by rewrite subr_gt0.
  have [k1 H1] := He _ (mulr_gt0 q0 h0).
  have S m : a (m + k1)%N - h <= rho ^+ m * (a k1 - h).
    elim: m => [|m IH]; first by rewrite add0n expr0 mul1r. rewrite addSn exprS -mulrA.
    apply: le_trans (ler_wpmul2l r0 IH). rewrite mulrBr ler_subl_addr. apply: le_trans (Ha _) _.
    apply: le_trans (ler_add (lexx _) (H1 (m + k1)%N (leq_addl _ _))) _. by rewrite mulrBl mul1r [h - _]addrC addrA.
  pose b := `|a k1 - h| + 1. have b0 : 0 < b by rewrite ltr_paddl.
  have [m1 Hm] := @power_small F rho (h / b) (introT andP (conj r0 r1)) (divr_gt0 h0 b0).
  exists (m1 + k1)%N => k Hk. have Hk1 : (k1 <= k)%N by apply: leq_trans Hk; rewrite leq_addl.
  rewrite -(subnK Hk1). have Hm1 : (m1 <= k - k1)%N by rewrite leq_subRL // addnC.
  have := S (k - k1)%N. rewrite ler_subl_addr => /le_trans; apply.
  rewrite [eps](splitr eps) -/h ler_add2r. apply: le_trans (_ : rho ^+ (k - k1) * b <= _).
    apply: ler_wpmul2l; first exact: exprn_ge0. apply: le_trans (ler_norm _) _. by rewrite ler_addl ler01.
  by rewrite -ler_pdivl_mulr //; apply: Hm.
Qed.
Lemma poles_decay (M : 'M[F]_n.+1) q (ps : seq F) : (forall p, p \in ps -> `|p| < 1) -> forall V : 'M[F]_(n.+1, q),
  horner_mx M (\prod_(p <- ps) ('X - p%:P)) *m V = 0 ->
  forall eps, 0 < eps -> exists k1, forall k, (k1 <= k)%N -> esize (M ^+ k *m V) <= eps.
Proof.
  elim: ps => [|p ps IH] Hp V HV eps E0.
    exists 0%N => k _. move: HV. rewrite big_nil rmorph1 mul1mx => ->. rewrite mulmx0. apply: le_trans (ltW E0). by rewrite /esize big1 // => i _; rewrite big1 // => j _; rewrite mxE normr0.
  have HW : horner_mx M (\prod_(p <- ps) ('X - p%:P)) *m ((M - p%:M) *m V) = 0.
    by rewrite mulmxA -[M - p%:M]/(M - p%:M) -{2}[M]horner_mx_X -[p%:M](horner_mx_C M) -rmorphB mulmxE -rmorphM /= mulrC; move: HV; rewrite big_cons.
  have Hps : forall x, x \in ps -> `|x| < 1 by move=> x Hx; apply: Hp; rewrite inE Hx orbT.
  apply: (@damped (fun k => esize (M ^+ k *m V)) (fun k => esize (M ^+ k *m ((M - p%:M) *m V))) `|p|) => //; last exact: IH HW.
    by rewrite normr_ge0 /= Hp // inE eqxx.
  move=> k. have -> : M ^+ k.+1 *m V = p *: (M ^+ k *m V) + M ^+ k *m ((M - p%:M) *m V).
    by rewrite mulmxBl mulmxBr mul_scalar_mx scalemxAr addrCA addrN addr0 exprSr -mulmxE mulmxA.
  rewrite -esizeZ. exact: esizeD.
Qed.
End Decay.

(** * Runs of the closed loop *)
Section Run.
Variables (F : fieldType) (O : Ops F).
Hypothesis HF : fieldO O.
Hypothesis HZ : exactZ O.
Let HO : ringO O. Proof. by case: HF. Qed.
(** The closed loop: K = acker(A, B, poles); A - B * K. *)
Definition closed_loop (A B poles : MB F) : Res (Mat.Matrix F) :=
  let* k := acker A B poles in
  let* bk := m_mul B (mb_of_mat k) in
  m_sub A (mb_of_mat bk).
Lemma closed_loop_ok A B poles n (M : 'M[F]_n.+1) (N : 'cV[F]_n.+1) fp : (n.+1 <= 5)%N ->
  reads_mx A M -> reads_mx B N -> readsL poles 1 n.+1 fp -> mempty poles = false -> \det (ctrbmx M N) != 0 ->
  exists acl (L : 'M[F]_n.+1), [/\ closed_loop A B poles = Ok acl, is_mx acl L & char_poly L = \prod_(j < n.+1) ('X - (fp 0%N j)%:P)].
Proof.
  move=> Hn HA HB HP He Hd. have [k [K [E H1 H2]]] := C64_acker HF HZ Hn HA HB HP He Hd.
  rewrite /closed_loop E bindOk. have [bk [-> Hbk Rbk]] := m_mul_mxL HO HB (is_mx_reads H1) (shape_mx HA). rewrite bindOk.
  have [acl [-> Ha _]] := m_sub_mx HF HA Rbk. by exists acl, (M - N *m K).
Qed.
(** Two runs with the same inputs differ by a power of the system matrix times the difference of the initial states. *)
Lemma run_diff trunc (sys : DSS F) u tm q K init init' n m p (A : 'M[F]_n.+1) (B : 'M[F]_(n.+1, m)) (C : 'M[F]_(p, n.+1)) (D : 'M[F]_(p, m)) (X0 X0' : 'cV[F]_n.+1) (U : nat -> 'cV[F]_m) :
  is_mx (sA (dsys sys)) A -> is_mx (sB (dsys sys)) B -> is_mx (sC (dsys sys)) C -> is_mx (sD (dsys sys)) D ->
  is_vec init n.+1 (cvf X0) -> is_vec init' n.+1 (cvf X0') -> inputs u m (fun k => cvf (U k)) -> fits p -> odiv tm (sample_time sys) = Ok q -> trunc q = Ok K ->
  exists t x y x' y', [/\ simulate trunc sys u tm init = Ok (t, x, y), simulate trunc sys u tm init' = Ok (t, x', y'), length x = (Nat.min (length u) K).+1, length x' = length x &
    forall k, (k < length x)%N -> exists xk xk' (Z Z' : 'cV[F]_n.+1), [/\ nth_error x k = Some xk /\ is_vec xk n.+1 (cvf Z), nth_error x' k = Some xk' /\ is_vec xk' n.+1 (cvf Z') & Z - Z' = A ^+ k *m (X0 - X0')]].
Proof.
  move=> HA HB HC HD Hx Hx' Hu Fp Hq HK.
  have [t [x [y [E Lt Lx Ly [Q1 Q2 Q3 Q4]]]]] := C61_closed_form HO HA HB HC HD Hx Hu Fp Hq HK.
  have [t' [x' [y' [E' Lt' Lx' Ly' [Q1' Q2' Q3' Q4']]]]] := C61_closed_form HO HA HB HC HD Hx' Hu Fp Hq HK.
  have Et : t' = t.
    apply: nth_error_ext => k. have [Hk|Hk|Hk] := ltngtP k (Nat.min (length u) K); [by rewrite Q3 ?Q3'| |by rewrite Hk Q4 Q4'].
    have Z (l : seq F) : length l = (Nat.min (length u) K).+1 -> nth_error l k = None by move=> Hl; apply/nth_error_None; rewrite Hl; apply/ssrnat.leP.
    by rewrite !Z.
  rewrite Et in E'. exists t, x, y, x', y'. split=> //; first by rewrite Lx'. move=> k. rewrite Lx ltnS => Hk.
  have [xk [E1 V1]] := Q1 k Hk. have [xk' [E1' V1']] := Q1' k Hk. exists xk, xk'. eexists. eexists. split; [split; [exact: E1|exact: V1]|split; [exact: E1'|exact: V1']|].
  by rewrite opprD addrACA subrr addr0 mulmxBr.
Qed.

(** All poles 0: from step n on, the state does not depend on the initial one. *)
Theorem C117_deadbeat A B poles n (M : 'M[F]_n.+1) (N : 'cV[F]_n.+1) : (n.+1 <= 5)%N ->
  reads_mx A M -> reads_mx B N -> readsL poles 1 n.+1 (fun _ _ => 0) -> mempty poles = false -> \det (ctrbmx M N) != 0 ->
  exists acl, closed_loop A B poles = Ok acl /\
  forall trunc (sys : DSS F) u tm q K init init' m p (Bs : 'M[F]_(n.+1, m)) (C : 'M[F]_(p, n.+1)) (D : 'M[F]_(p, m)) (X0 X0' : 'cV[F]_n.+1) (U : nat -> 'cV[F]_m),
  sA (dsys sys) = acl -> is_mx (sB (dsys sys)) Bs -> is_mx (sC (dsys sys)) C -> is_mx (sD (dsys sys)) D ->
  is_vec init n.+1 (cvf X0) -> is_vec init' n.+1 (cvf X0') -> inputs u m (fun k => cvf (U k)) -> fits p -> odiv tm (sample_time sys) = Ok q -> trunc q = Ok K ->
  exists t x y x' y', [/\ simulate trunc sys u tm init = Ok (t, x, y), simulate trunc sys u tm init' = Ok (t, x', y'), length x = (Nat.min (length u) K).+1 &
    forall k, (n < k)%N -> nth_error x k = nth_error x' k].
Proof.
  move=> Hn HA HB HP He Hd. have [acl [L [E HL HC]]] := closed_loop_ok Hn HA HB HP He Hd. exists acl. split=> //.
  move=> trunc sys u tm q K init init' m p Bs C D X0 X0' U Es HBs HCs HDs Hx Hx' Hu Fp Hq HK. rewrite -Es in HL.
  have [t [x [y [x' [y' [E1 E2 L1 L2 Q]]]]]] := run_diff HL HBs HCs HDs Hx Hx' Hu Fp Hq HK. exists t, x, y, x', y'. split=> // k Hk.
  case: (ltnP k (length x)) => Hl; last first.
    have Hl' : (length x' <= k)%N by rewrite L2. move/ssrnat.leP: Hl => Hl. move/ssrnat.leP: Hl' => Hl'. by rewrite (proj2 (nth_error_None _ _) Hl) (proj2 (nth_error_None _ _) Hl').
  have [xk [xk' [Z [Z' [[-> V] [-> V'] Ed]]]]] := Q k Hl. congr Some. move: Ed. rewrite (nilpotent HC Hk) mul0mx => /eqP. rewrite subr_eq0 => /eqP EZ. rewrite EZ in V.
  exact: is_vec_unique V V'.
Qed.
End Run.
Arguments closed_loop {F O} A B poles.

Section Stable.
Variables (F : archiFieldType) (O : Ops F).
Hypothesis HR : realO O.
Hypothesis HZ : exactZ O.
Let HF : fieldO O. Proof. by case: HR. Qed.
Let HO : ringO O. Proof. by case: HF. Qed.
Lemma decayed n (L : 'M[F]_n.+1) (fp : nat -> F) r eps : char_poly L = \prod_(j < n.+1) ('X - (fp j)%:P) -> (forall j, (j <= n)%N -> -1 < fp j < 1) -> 0 <= r -> 0 < eps ->
  exists k1, forall k (X : 'cV[F]_n.+1), (k1 <= k)%N -> (forall i, `|X i 0| <= r) -> forall i, `|(L ^+ k *m X) i 0| <= eps.
Proof.
  move=> HC Hp Hr E0. have r1 : 0 < r + 1 by rewrite ltr_spaddr ?ltr01.
  have Hps : forall x, x \in [seq fp (val j) | j <- enum 'I_n.+1] -> `|x| < 1.
    move=> x /mapP [j _ ->]. rewrite ltr_norml. apply: Hp. rewrite -ltnS. exact: ltn_ord.
  have HV : horner_mx L (\prod_(x <- [seq fp (val j) | j <- enum 'I_n.+1]) ('X - x%:P)) *m (1%:M : 'M[F]_n.+1) = 0.
    rewrite mulmx1 big_map big_enum /= -HC. exact: Cayley_Hamilton.
  have [k1 H1] := poles_decay Hps HV (divr_gt0 E0 r1). exists k1 => k X Hk HX i. rewrite mxE.
  apply: le_trans (ler_norm_sum _ _ _) _. apply: le_trans (_ : \sum_j `|(L ^+ k *m 1%:M) i j| * r <= _).
    apply: ler_sum => j _. rewrite mulmx1 normrM. exact: ler_wpmul2l.
  rewrite -mulr_suml. apply: le_trans (_ : esize (L ^+ k *m (1%:M : 'M[F]_n.+1)) * (r + 1) <= _); last by rewrite -ler_pdivl_mulr //; apply: H1.
  apply: ler_pmul => //; [exact: sumr_ge0|rewrite /esize [X in _ <= X](bigD1 i) //= ler_addl|by rewrite ler_addl ler01].
  apply: sumr_ge0 => j _. exact: sumr_ge0.
Qed.
(** Poles strictly between -1 and 1: the states of two runs with the same inputs tend to each other, after a number of steps that depends only on how far apart they start. *)
Theorem C117_stable A B poles n (M : 'M[F]_n.+1) (N : 'cV[F]_n.+1) fp r eps : (n.+1 <= 5)%N ->
  reads_mx A M -> reads_mx B N -> readsL poles 1 n.+1 fp -> mempty poles = false -> \det (ctrbmx M N) != 0 ->
  (forall j, (j <= n)%N -> -1 < fp 0%N j < 1) -> 0 <= r -> 0 < eps ->
  exists acl k1, closed_loop A B poles = Ok acl /\
  forall trunc (sys : DSS F) u tm q K init init' m p (Bs : 'M[F]_(n.+1, m)) (C : 'M[F]_(p, n.+1)) (D : 'M[F]_(p, m)) (X0 X0' : 'cV[F]_n.+1) (U : nat -> 'cV[F]_m),
  sA (dsys sys) = acl -> is_mx (sB (dsys sys)) Bs -> is_mx (sC (dsys sys)) C -> is_mx (sD (dsys sys)) D ->
  is_vec init n.+1 (cvf X0) -> is_vec init' n.+1 (cvf X0') -> (forall i, `|X0 i 0 - X0' i 0| <= r) ->
  inputs u m (fun k => cvf (U k)) -> fits p -> odiv tm (sample_time sys) = Ok q -> trunc q = Ok K ->
  exists t x y x' y', [/\ simulate trunc sys u tm init = Ok (t, x, y), simulate trunc sys u tm init' = Ok (t, x', y'), length x = (Nat.min (length u) K).+1 &
    forall k xk xk', (k1 <= k)%N -> nth_error x k = Some xk -> nth_error x' k = Some xk' ->
    forall i a b, (i <= n)%N -> nth_error xk i = Some a -> nth_error xk' i = Some b -> `|a - b| <= eps].
Proof.
  move=> Hn HA HB HP He Hd Hp Hr E0. have [acl [L [E HL HC]]] := closed_loop_ok HF HZ Hn HA HB HP He Hd.
  have [k1 H1] := decayed HC Hp Hr E0.
  exists acl, k1. split=> //. move=> trunc sys u tm q K init init' m p Bs C D X0 X0' U Es HBs HCs HDs Hx Hx' Hd0 Hu Fp Hq HK. rewrite -Es in HL.
  have [t [x [y [x' [y' [E1 E2 L1 L2 Q]]]]]] := run_diff HF HL HBs HCs HDs Hx Hx' Hu Fp Hq HK. exists t, x, y, x', y'. split=> // k xk xk' Hk Ex Ex' i a b Hi Ea Eb.
  have Hl : (k < length x)%N. { apply/ssrnat.ltP. apply/nth_error_Some. by rewrite Ex. }
  have [xk0 [xk0' [Z [Z' [[Ez V] [Ez' V'] Ed]]]]] := Q k Hl. move: Ez Ez'. rewrite Ex Ex' => -[E3] -[E4]. subst xk0 xk0'.
  have [_ [_ Va]] := V. have [_ [_ Vb]] := V'. have Hi1 : (i < n.+1)%N by rewrite ltnS. move/ssrnat.ltP: (Hi1) => Hi2.
  move: (Va i Hi2) (Vb i Hi2). rewrite Ea Eb => -[->] -[->]. rewrite -[i]/(val (Ordinal Hi1)) !cvfE.
  have -> : Z (Ordinal Hi1) 0 - Z' (Ordinal Hi1) 0 = (Z - Z') (Ordinal Hi1) 0 by rewrite !mxE. rewrite Ed.
  apply: H1 => // j. have -> : (X0 - X0') j 0 = X0 j 0 - X0' j 0 by rewrite !mxE. exact: Hd0.
Qed.
(** ... and without input the state tends to 0. *)
Theorem C117_regulates A B poles n (M : 'M[F]_n.+1) (N : 'cV[F]_n.+1) fp r eps : (n.+1 <= 5)%N ->
  reads_mx A M -> reads_mx B N -> readsL poles 1 n.+1 fp -> mempty poles = false -> \det (ctrbmx M N) != 0 ->
  (forall j, (j <= n)%N -> -1 < fp 0%N j < 1) -> 0 <= r -> 0 < eps ->
  exists acl k1, closed_loop A B poles = Ok acl /\
  forall trunc (sys : DSS F) u tm q K init m p (Bs : 'M[F]_(n.+1, m)) (C : 'M[F]_(p, n.+1)) (D : 'M[F]_(p, m)) f0,
  sA (dsys sys) = acl -> is_mx (sB (dsys sys)) Bs -> is_mx (sC (dsys sys)) C -> is_mx (sD (dsys sys)) D ->
  is_vec init n.+1 f0 -> (forall i, (i <= n)%N -> `|f0 i| <= r) ->
  inputs u m (fun _ _ => 0) -> fits p -> odiv tm (sample_time sys) = Ok q -> trunc q = Ok K ->
  exists t x y, [/\ simulate trunc sys u tm init = Ok (t, x, y), length x = (Nat.min (length u) K).+1 &
    forall k xk, (k1 <= k)%N -> nth_error x k = Some xk -> exists g, is_vec xk n.+1 g /\ forall i, (i <= n)%N -> `|g i| <= eps].
Proof.
  move=> Hn HA HB HP He Hd Hp Hr E0. have [acl [L [E HL HC]]] := closed_loop_ok HF HZ Hn HA HB HP He Hd.
  have [k1 H1] := decayed HC Hp Hr E0.
  exists acl, k1. split=> //. move=> trunc sys u tm q K init m p Bs C D f0 Es HBs HCs HDs Hx Hd0 Hu Fp Hq HK. rewrite -Es in HL.
  pose X0 : 'cV[F]_n.+1 := \col_i f0 i.
  have Hx' : is_vec init n.+1 (cvf X0).
    apply: is_vec_ext; first exact: Hx. move=> i /ssrnat.ltP Hi. by rewrite -[i]/(val (Ordinal Hi)) cvfE mxE.
  have Hu' : inputs u m (fun k => cvf (0 : 'cV[F]_m)).
    move=> k v Ev. apply: is_vec_ext; first exact: Hu Ev. move=> i /ssrnat.ltP Hi. by rewrite -[i]/(val (Ordinal Hi)) cvfE mxE.
  have [t [x [y [E1 Lt Lx Ly [Q1 Q2 Q3 Q4]]]]] := C61_closed_form HO HL HBs HCs HDs Hx' Hu' Fp Hq HK. exists t, x, y. split=> // k xk Hk Ex.
  have Hl : (k <= Nat.min (length u) K)%N. { rewrite -ltnS -Lx. apply/ssrnat.ltP. apply/nth_error_Some. by rewrite Ex. }
  have [xk' [Ex' V]] := Q1 k Hl. move: Ex'. rewrite Ex => -[Ek]. subst xk'. eexists. split; first exact: V.
  move=> i Hi. have Hi1 : (i < n.+1)%N by rewrite ltnS. rewrite -[i]/(val (Ordinal Hi1)) cvfE big1 ?addr0; last by move=> j _; rewrite mulmx0.
  apply: H1 => // j. rewrite mxE. apply: Hd0. by rewrite -ltnS.
Qed.
End Stable.
