(** PropGivens.v: eigen::qr_factorise_givens (C97), with the repairs of Eigen.v. *)
From Verif Require Import MathFacts MatFacts Util UtilFacts2 PropUtil PropMath MathM ControlFacts RingM DetFacts PropRing PropReal PropControl PropControl2 QR PropQR Eigen.
From mathcomp Require Import all_ssreflect all_algebra.
From Verif Require Import EigenMath PropHess.
Set Implicit Arguments.
Unset Strict Implicit.
Unset Printing Implicit Defensive.
Import Order.Theory GRing.Theory Num.Theory.
Local Open Scope ring_scope.

(** The rotation of rows and columns j and i. *)
Section Rotation.
Variables (K : numClosedFieldType) (n : nat) (i j : 'I_n) (c s : K).
Hypothesis Nij : i != j.
Definition giv : 'M[K]_n := \matrix_(a, b)
  if a == j then (if b == j then c else if b == i then s else 0)
  else if a == i then (if b == j then - s^* else if b == i then c^* else 0) else (a == b)%:R.
Lemma mul_giv m (Q : 'M[K]_(m, n)) a b : (Q *m giv) a b =
  if b == j then c * Q a j - s^* * Q a i else if b == i then s * Q a j + c^* * Q a i else Q a b.
Proof.
  have Nji : j != i by rewrite eq_sym.
  rewrite mxE. case: (eqVneq b j) => [->|Nj]; last case: (eqVneq b i) => [->|Ni].
  - rewrite (bigD1 j) //= (bigD1 i) //= big1 ?addr0; first by rewrite !mxE !eqxx (negbTE Nij) [Q a j * _]mulrC mulrN [Q a i * _]mulrC.
    move=> k /andP [Nk1 Nk2]. by rewrite mxE (negbTE Nk1) (negbTE Nk2) mulr0.
  - rewrite (bigD1 j) //= (bigD1 i) //= big1 ?addr0; first by rewrite !mxE !eqxx (negbTE Nij) [Q a j * _]mulrC [Q a i * _]mulrC.
    move=> k /andP [Nk1 Nk2]. by rewrite mxE (negbTE Nk1) (negbTE Nk2) mulr0.
  - rewrite (bigD1 b) //= big1 ?addr0; first by rewrite mxE (negbTE Nj) (negbTE Ni) eqxx mulr1.
    move=> k Nk. rewrite mxE (negbTE Nj) (negbTE Ni) (negbTE Nk). by case: (k == j); [rewrite mulr0|case: (k == i); rewrite mulr0].
Qed.
Lemma givM_mul m (R : 'M[K]_(n, m)) a b : (adj giv *m R) a b =
  if a == j then c^* * R j b - s * R i b else if a == i then s^* * R j b + c * R i b else R a b.
Proof.
  rewrite -[LHS]conjCK -adjE adj_mul adjK mul_giv !adjE.
  by case: ifP => _; [rewrite rmorphB !rmorphM /= !conjCK|case: ifP => _; [rewrite rmorphD !rmorphM /= !conjCK|rewrite conjCK]].
Qed.
Lemma giv_unitary : `|c| ^+ 2 + `|s| ^+ 2 = 1 -> unitary giv.
Proof.
  move=> H. have Nji : j != i by rewrite eq_sym. have H' : c^* * c + s * s^* = 1 by rewrite -normCKC -normCK.
  apply/matrixP => a b. rewrite givM_mul !mxE !eqxx (negbTE Nij).
  case: (eqVneq a j) => [->|Na]; last case: (eqVneq a i) => [->|Ni].
  - case: (eqVneq b j) => [_|Nb]; last case: (eqVneq b i) => [_|Nbi].
    + by rewrite mulrN opprK H'.
    + by rewrite [c^* * s]mulrC subrr.
    + by rewrite !mulr0 subrr.
  - case: (eqVneq b j) => [->|Nb]; last case: (eqVneq b i) => [_|Nbi].
    + by rewrite (negbTE Nij) mulrN [s^* * c]mulrC subrr.
    + by rewrite [s^* * s]mulrC addrC [c * _]mulrC H'.
    + by rewrite !mulr0 addr0.
  - by [].
Qed.
End Rotation.

Section Givens.
Variables (K : numClosedFieldType) (U : rcfType) (emb : {rmorphism U -> K}) (OC : Ops K) (OU : Ops U).
Variables (cnorm cabs : K -> U) (conj : K -> K) (ofr : U -> K).
Hypothesis HC : complexO emb OC OU cnorm cabs conj ofr.

Let HF : fieldO OC. Proof. by case: HC. Qed.
Let HO : ringO OC. Proof. by case: HF. Qed.
Let HU : realO OU. Proof. by case: HC. Qed.
Let HV : ringO OU. Proof. by case: HU => -[]. Qed.
Let HD (x y : K) : y != 0 -> odiv x y = Ok (x / y). Proof. case: HF => _ H _. exact: H. Qed.
Let Hlt (x y : U) : olt x y = (x < y). Proof. by case: HU. Qed.
Let Hnorm z : emb (cnorm z) = `|z| ^+ 2. Proof. by case: HC => _ _ _ []. Qed.
Let Habs z : emb (cabs z) = `|z|. Proof. by case: HC => _ _ _ []. Qed.
Let Hconj z : conj z = z^*. Proof. by case: HC => _ _ _ []. Qed.
Let Hofr x : ofr x = emb x. Proof. by case: HC => _ _ _ []. Qed.

Variable eps : U.
Hypothesis eps_gt0 : 0 < eps.
Let gstep := givens_step cnorm cabs conj ofr Num.sqrt eps.

Definition glen (MR : K * K) : U := Num.sqrt (cnorm MR.1 + cnorm (- (MR.2)^*)).
Definition gc n (M : 'M[K]_n) (i j : 'I_n) : K := M j j / emb (glen (M j j, M i j)).
Definition gs n (M : 'M[K]_n) (i j : 'I_n) : K := - (M i j)^* / emb (glen (M j j, M i j)).

Lemma glen_gt0 x y : eps <= cabs y -> 0 < glen (x, y).
Proof.
  move=> H. rewrite sqrtr_gt0. apply: ltr_paddl; first exact: (cnorm_ge0 HC).
  rewrite -(emb_lt HC) rmorph0 Hnorm normrN norm_conjC exprn_gt0 // -Habs -(rmorph0 emb) (emb_lt HC). exact: lt_le_trans H.
Qed.
Lemma glen_sq x y : emb (glen (x, y)) ^+ 2 = `|x| ^+ 2 + `|y| ^+ 2.
Proof.
  rewrite -rmorphX /= sqr_sqrtr; last by apply: addr_ge0; exact: (cnorm_ge0 HC).
  by rewrite rmorphD /= !Hnorm normrN norm_conjC.
Qed.
Lemma g_norm n (M : 'M[K]_n) (i j : 'I_n) : eps <= cabs (M i j) -> `|gc M i j| ^+ 2 + `|gs M i j| ^+ 2 = 1.
Proof.
  move=> H. have P := glen_gt0 (M j j) H.
  have P' : 0 < emb (glen (M j j, M i j)) by rewrite -(rmorph0 emb) (emb_lt HC).
  rewrite /gc /gs !normrM !normfV normrN norm_conjC !exprMn -mulrDl -glen_sq (ger0_norm (ltW P')) -exprMn divff ?expr1n //. by rewrite gt_eqF.
Qed.

Lemma givens_skip n (Q R : Mat.Matrix K) (MR : 'M[K]_n) (i j : 'I_n) : is_mx R MR -> nat_of_ord i = j.+1 -> cabs (MR i j) < eps ->
  gstep n i (Q, R) = Ok (Q, R).
Proof.
  move=> HR Ei L. rewrite /gstep /givens_step. have -> : (i - 1)%coq_nat = j by rewrite Ei; lia.
  by rewrite (is_mat_at _ _ _ _ _ _ HR (elimT ssrnat.ltP (ltn_ord i)) (elimT ssrnat.ltP (ltn_ord j))) bindOk mxfE Hlt L.
Qed.
Lemma givens_rot n (Q R : Mat.Matrix K) (MQ MR : 'M[K]_n) (i j : 'I_n) : is_mx Q MQ -> is_mx R MR -> nat_of_ord i = j.+1 -> eps <= cabs (MR i j) ->
  let G := giv i j (gc MR i j) (gs MR i j) in
  exists Q' R', [/\ gstep n i (Q, R) = Ok (Q', R'), is_mx Q' (MQ *m G) & is_mx R' (adj G *m MR)].
Proof.
  move=> HQ HR Ei L G. have Nij : i != j by rewrite -val_eqE /= Ei gtn_eqF.
  rewrite /gstep /givens_step. have -> : (i - 1)%coq_nat = j by rewrite Ei; lia.
  have Li := elimT ssrnat.ltP (ltn_ord i). have Lj := elimT ssrnat.ltP (ltn_ord j).
  rewrite !(is_mat_at _ _ _ _ _ _ HR Li Lj) !bindOk !mxfE Hlt ltNge L /=.
  rewrite !(is_mat_at _ _ _ _ _ _ HR Lj Lj) !bindOk !mxfE (ooppE HO) Hconj (oaddE HV) Hofr.
  rewrite -[Num.sqrt (_ + _)]/(glen (MR j j, MR i j)). have P := glen_gt0 (MR j j) L.
  have N0 : emb (glen (MR j j, MR i j)) != 0 by rewrite fmorph_eq0 gt_eqF.
  rewrite !HD // !bindOk -[MR j j / _]/(gc MR i j) -[- _ / _]/(gs MR i j) !Hconj (mat_copy_ok _ _ _ _ HR) (mat_copy_ok _ _ _ _ HQ) !bindOk.
  set cc := gc MR i j in G *. set ss := gs MR i j in G *.
  set body := fun (m : nat) (st : Mat.Matrix K * Mat.Matrix K) => _.
  have [||[Q' R'] [E [/= HQ' HR']]] := for_range_inv (fun m (st : Mat.Matrix K * Mat.Matrix K) =>
     is_mat st.1 n n (fun a b => if (a < m)%N then mxf (MQ *m G) a b else mxf MQ a b) /\
     is_mat st.2 n n (fun a b => if (b < m)%N then mxf (adj G *m MR) a b else mxf MR a b)) 0 n body (Q, R) (Nat.le_0_l _).
  - by [].
  - move=> m [Q1 R1] [_ Lm] [/= H1 H2]. rewrite /body.
    rewrite !(is_mat_at _ _ _ _ _ _ HR Lj Lm) !bindOk !(is_mat_at _ _ _ _ _ _ HR Li Lm) !bindOk.
    set x1 := osub _ _. have [R2 [-> H3]] := mat_set_ok _ _ _ _ j m x1 H2 Lj Lm. rewrite ?bindOk.
    rewrite ?(is_mat_at _ _ _ _ _ _ HR Lj Lm) ?bindOk ?(is_mat_at _ _ _ _ _ _ HR Li Lm) ?bindOk.
    set x2 := oadd _ _. have [R3 [-> H4]] := mat_set_ok _ _ _ _ i m x2 H3 Li Lm. rewrite ?bindOk.
    rewrite ?(is_mat_at _ _ _ _ _ _ HQ Lm Lj) ?bindOk ?(is_mat_at _ _ _ _ _ _ HQ Lm Li) ?bindOk.
    set x3 := osub _ _. have [Q2 [-> H5]] := mat_set_ok _ _ _ _ m j x3 H1 Lm Lj. rewrite ?bindOk.
    rewrite ?(is_mat_at _ _ _ _ _ _ HQ Lm Lj) ?bindOk ?(is_mat_at _ _ _ _ _ _ HQ Lm Li) ?bindOk.
    set x4 := oadd _ _. have [Q3 [-> H6]] := mat_set_ok _ _ _ _ m i x4 H5 Lm Li. rewrite ?bindOk.
    exists (Q3, R3). split=> //. have Lm' := introT ssrnat.ltP Lm.
    have Nij' : (i == j :> nat) = false by rewrite Ei gtn_eqF.
    split=> /=.
    + apply: is_mat_ext; first exact: H6. move=> a b /ssrnat.ltP Ha /ssrnat.ltP Hb. rewrite /fset !nateqbE ltnS.
      case: (ltngtP a m) => Ea; [by rewrite /= ?Ea|by rewrite /= ?Ea|]. rewrite {a Ha}Ea.
      rewrite /= -[in RHS](_ : val (Ordinal Lm') = m) // -[in RHS](_ : val (Ordinal Hb) = b) // mxfE mul_giv // -!val_eqE /=.
      case: (eqVneq b j) => Ebj; last case: (eqVneq b i) => Ebi.
      * rewrite Ebj eq_sym Nij' /x3 (osubE HO) !(omulE HO). by rewrite -[m]/(val (Ordinal Lm')) !mxfE.
      * rewrite /x4 (oaddE HO) !(omulE HO). by rewrite -[m]/(val (Ordinal Lm')) !mxfE.
      * by rewrite ?ltnn -[m]/(val (Ordinal Lm')) -[b]/(val (Ordinal Hb)) mxfE.
    + apply: is_mat_ext; first exact: H4. move=> a b /ssrnat.ltP Ha /ssrnat.ltP Hb. rewrite /fset !nateqbE ltnS.
      case: (ltngtP b m) => Eb; [by rewrite /= ?andbF ?Eb|by rewrite /= ?andbF ?Eb|]. rewrite {b Hb}Eb.
      rewrite /= -[in RHS](_ : val (Ordinal Lm') = m) // -[in RHS](_ : val (Ordinal Ha) = a) // mxfE givM_mul // -!val_eqE /= !andbT.
      case: (eqVneq a j) => Eaj; last case: (eqVneq a i) => Eai.
      * rewrite Eaj eq_sym Nij' /x1 (osubE HO) !(omulE HO). by rewrite -[m]/(val (Ordinal Lm')) !mxfE.
      * rewrite /x2 (oaddE HO) !(omulE HO). by rewrite -[m]/(val (Ordinal Lm')) !mxfE.
      * by rewrite ?ltnn -[m]/(val (Ordinal Lm')) -[a]/(val (Ordinal Ha)) mxfE.
  exists Q', R'. split; first exact: E.
  - apply: is_mat_ext; first exact: HQ'. by move=> a b /ssrnat.ltP -> _.
  - apply: is_mat_ext; first exact: HR'. by move=> a b _ /ssrnat.ltP ->.
Qed.

Lemma rot_zero n (MR : 'M[K]_n) (i j : 'I_n) : i != j -> eps <= cabs (MR i j) ->
  (adj (giv i j (gc MR i j) (gs MR i j)) *m MR) i j = 0.
Proof.
  move=> N L. rewrite givM_mul // (negbTE N) eqxx /gc /gs.
  have -> : (- (MR i j)^* / emb (glen (MR j j, MR i j)))^* = - MR i j / emb (glen (MR j j, MR i j)).
    rewrite rmorphM rmorphN /= conjCK fmorphV. congr (_ / _). apply/eqP. rewrite -CrealE. exact: (emb_real HC).
  by rewrite mulrAC mulNr mulrAC [_ * MR i j]mulrC mulNr addNr.
Qed.
Lemma c_le1 n (M : 'M[K]_n) (i j : 'I_n) : eps <= cabs (M i j) -> `|gc M i j| <= 1 /\ `|gs M i j| <= 1.
Proof.
  move=> /g_norm H.
  split; rewrite -(@expr_le1 _ 2) // -H; [rewrite ler_addl|rewrite ler_addr]; exact: exprn_ge0.
Qed.

(** For every square A: Q is unitary and Q R = A.  If A is Hessenberg, every element of R
    below the diagonal is smaller than epsilon. *)
Theorem C97_givens (A : Mat.Matrix K) n (MA : 'M[K]_n) : (0 < n)%N -> is_mx A MA ->
  exists Q R (MQ MR : 'M[K]_n), [/\ qr_factorise_givens cnorm cabs conj ofr Num.sqrt eps A = Ok (Q, R), is_mx Q MQ, is_mx R MR &
    [/\ unitary MQ, MQ *m MR = MA &
      (forall a b : 'I_n, (b.+1 < a)%N -> MA a b = 0) -> forall a b : 'I_n, (b < a)%N -> `|MR a b| < emb eps]].
Proof.
  move=> Hn HA. have Hs := shape_mx (is_mx_reads HA). have [Er [Ec _]] := HA. rewrite /qr_factorise_givens Er Ec.
  have [J [-> HJ _]] := identity_mx HO Hn Hs. rewrite bindOk (mat_copy_ok _ _ _ _ HA) bindOk.
  have [||[Q R] [E [MQ [MR [/= H1 H2 H3 [H4 H5]]]]]] := for_range_inv (fun i (s : Mat.Matrix K * Mat.Matrix K) =>
      exists MQ MR : 'M[K]_n, [/\ is_mx s.1 MQ, is_mx s.2 MR, unitary MQ &
        MQ *m MR = MA /\ ((forall a b : 'I_n, (b.+1 < a)%N -> MA a b = 0) ->
          [/\ (forall a b : 'I_n, (b < a)%N -> (a < i)%N -> `|MR a b| < emb eps) &
              (forall a b : 'I_n, (b.+1 < a)%N -> (i <= a)%N -> MR a b = 0)])]) 1 n (givens_step cnorm cabs conj ofr Num.sqrt eps n) (J, A) (elimT ssrnat.leP Hn).
  - exists 1%:M, MA. split; [exact: HJ|exact: HA|exact: unitary1|]. rewrite mul1mx. split=> // HH. split; last by move=> a b L _; exact: HH.
    move=> a b Lb. by case: (nat_of_ord a) Lb.
  - move=> i [Q R] [Hi1 /ssrnat.ltP Hi2] [MQ [MR [/= HQ HR UQ [EQ HH]]]].
    case: i Hi1 Hi2 HH => [|j] Hi1 Hi2 HH; first by lia. have Lj : (j < n)%N by exact: ltnW.
    set i' := Ordinal Hi2. set j' := Ordinal Lj.
    case: (ltP (cabs (MR i' j')) eps) => L.
    + exists (Q, R). split; first exact: (@givens_skip n Q R MR i' j' HR erefl L).
      exists MQ, MR. split=> //. split=> // /HH [B1 B2]. split; last by move=> a b Lb La; apply: B2 => //; exact: ltnW.
      move=> a b Lb. rewrite ltnS leq_eqVlt => /orP [/eqP Ea|La]; last exact: B1.
      have -> : a = i' by apply: ord_inj. case: (ltngtP b j) => Eb.
      * by rewrite B2 ?normr0 // -(rmorph0 emb) (emb_lt HC).
      * by move: Lb; rewrite Ea ltnS leqNgt Eb.
      * have -> : b = j' by apply: ord_inj. by rewrite -Habs (emb_lt HC).
    + have [Q' [R' [Es HQ' HR']]] := @givens_rot n Q R MQ MR i' j' HQ HR erefl L.
      exists (Q', R'). split; first exact: Es. set G := giv _ _ _ _ in HQ' HR'.
      have Nij : i' != j' by rewrite -val_eqE /= gtn_eqF.
      have UG : unitary G by apply: giv_unitary => //; exact: g_norm.
      exists (MQ *m G), (adj G *m MR). split=> //; first exact: unitaryM.
      split. { rewrite mulmxA -[MQ *m G *m adj G]mulmxA (unitaryC UG) mulmx1. exact: EQ. }
      move=> /HH [B1 B2]. have [C1 C2] := c_le1 L. split.
      * move=> a b Lb La. rewrite givM_mul // -!val_eqE /=. case: (eqVneq (nat_of_ord a) j) => Ea; last case: (eqVneq (nat_of_ord a) j.+1) => Ea'.
        -- have -> : MR i' b = 0 by apply: B2; rewrite /= ltnS // -Ea.
           rewrite mulr0 subr0 normrM norm_conjC. have B3 : `|MR j' b| < emb eps by apply: B1; rewrite /= -?Ea // Ea.
           apply: le_lt_trans B3. by rewrite ler_pimull.
        -- case: (ltngtP b j) => Eb.
           ++ have -> : MR i' b = 0 by apply: B2.
              rewrite mulr0 addr0 normrM norm_conjC. have B3 : `|MR j' b| < emb eps by apply: B1.
              apply: le_lt_trans B3. by rewrite ler_pimull.
           ++ by move: Lb; rewrite Ea' ltnS leqNgt Eb.
           ++ have -> : b = j' by apply: ord_inj. have Z := rot_zero Nij L. rewrite givM_mul // (negbTE Nij) eqxx in Z.
              by rewrite Z normr0 -(rmorph0 emb) (emb_lt HC).
        -- apply: B1 => //. move: La. by rewrite ltnS leq_eqVlt (negbTE Ea').
      * move=> a b Lb La. rewrite givM_mul // -!val_eqE /= gtn_eqF; last exact: ltnW. rewrite gtn_eqF //. apply: B2 => //. exact: ltnW.
  exists Q, R, MQ, MR. split; [exact: E|exact: H1|exact: H2|]. split; [exact: H3|exact: H4|]. move=> /H5 [B _] a b L. exact: B.
Qed.
(** If A is Hessenberg and no element below its diagonal is smaller than epsilon, R is upper triangular. *)
Theorem C97_givens_triangular (A : Mat.Matrix K) n (MA : 'M[K]_n) : (0 < n)%N -> is_mx A MA ->
  (forall a b : 'I_n, (b.+1 < a)%N -> MA a b = 0) -> (forall a b : 'I_n, nat_of_ord a = b.+1 -> emb eps <= `|MA a b|) ->
  exists Q R (MQ MR : 'M[K]_n), [/\ qr_factorise_givens cnorm cabs conj ofr Num.sqrt eps A = Ok (Q, R), is_mx Q MQ, is_mx R MR &
    [/\ unitary MQ, MQ *m MR = MA & forall a b : 'I_n, (b < a)%N -> MR a b = 0]].
Proof.
  move=> Hn HA Hh Hb. have Hs := shape_mx (is_mx_reads HA). have [Er [Ec _]] := HA. rewrite /qr_factorise_givens Er Ec.
  have [J [-> HJ _]] := identity_mx HO Hn Hs. rewrite bindOk (mat_copy_ok _ _ _ _ HA) bindOk.
  have [||[Q R] [E [MQ [MR [/= H1 H2 H3 [H4 H5 _]]]]]] := for_range_inv (fun i (s : Mat.Matrix K * Mat.Matrix K) =>
      exists MQ MR : 'M[K]_n, [/\ is_mx s.1 MQ, is_mx s.2 MR, unitary MQ &
        [/\ MQ *m MR = MA, (forall a b : 'I_n, (b < a)%N -> (a < i)%N -> MR a b = 0) &
              (forall a b : 'I_n, (i <= a)%N -> MR a b = MA a b)]]) 1 n (givens_step cnorm cabs conj ofr Num.sqrt eps n) (J, A) (elimT ssrnat.leP Hn).
  - exists 1%:M, MA. split; [exact: HJ|exact: HA|exact: unitary1|]. rewrite mul1mx. split=> //.
    move=> a b Lb. by case: (nat_of_ord a) Lb.
  - move=> i [Q R] [Hi1 /ssrnat.ltP Hi2] [MQ [MR [/= HQ HR UQ [EQ B1 B2]]]].
    case: i Hi1 Hi2 B1 B2 => [|j] Hi1 Hi2 B1 B2; first by lia. have Lj : (j < n)%N by exact: ltnW.
    set i' := Ordinal Hi2. set j' := Ordinal Lj.
    have L : eps <= cabs (MR i' j') by rewrite -(emb_le HC) Habs B2 //; exact: Hb.
    have [Q' [R' [Es HQ' HR']]] := @givens_rot n Q R MQ MR i' j' HQ HR erefl L.
    exists (Q', R'). split; first exact: Es. set G := giv _ _ _ _ in HQ' HR'.
    have Nij : i' != j' by rewrite -val_eqE /= gtn_eqF.
    have UG : unitary G by apply: giv_unitary => //; exact: g_norm.
    exists (MQ *m G), (adj G *m MR). split=> //; first exact: unitaryM.
    split.
    + rewrite mulmxA -[MQ *m G *m adj G]mulmxA (unitaryC UG) mulmx1. exact: EQ.
    + move=> a b Lb La. rewrite givM_mul // -!val_eqE /=. case: (eqVneq (nat_of_ord a) j) => Ea; last case: (eqVneq (nat_of_ord a) j.+1) => Ea'.
      * rewrite [MR i' b]B2 // Hh /= ?ltnS -?Ea // mulr0 subr0 B1 ?mulr0 //= -?Ea // Ea.
      * case: (ltngtP b j) => Eb.
        -- by rewrite [MR i' b]B2 // Hh //= mulr0 addr0 B1 ?mulr0.
        -- by move: Lb; rewrite Ea' ltnS leqNgt Eb.
        -- have -> : b = j' by apply: ord_inj. have Z := rot_zero Nij L. by rewrite givM_mul // (negbTE Nij) eqxx in Z.
      * apply: B1 => //. move: La. by rewrite ltnS leq_eqVlt (negbTE Ea').
    + move=> a b La. rewrite givM_mul // -!val_eqE /= gtn_eqF; last exact: ltnW. rewrite gtn_eqF //. apply: B2 => //. exact: ltnW.
  exists Q, R, MQ, MR. split; [exact: E|exact: H1|exact: H2|]. split; [exact: H3|exact: H4|]. move=> a b L. exact: H5.
Qed.
(** If every element just below the diagonal is smaller than epsilon, nothing is done: Q is the identity and R is A. *)
Theorem C97_givens_skip (A : Mat.Matrix K) n (MA : 'M[K]_n) : (0 < n)%N -> is_mx A MA ->
  (forall a b : 'I_n, nat_of_ord a = b.+1 -> `|MA a b| < emb eps) ->
  exists Q, qr_factorise_givens cnorm cabs conj ofr Num.sqrt eps A = Ok (Q, A) /\ is_mx Q (1%:M : 'M[K]_n).
Proof.
  move=> Hn HA Hb. have Hs := shape_mx (is_mx_reads HA). have [Er [Ec _]] := HA. rewrite /qr_factorise_givens Er Ec.
  have [J [-> HJ _]] := identity_mx HO Hn Hs. rewrite bindOk (mat_copy_ok _ _ _ _ HA) bindOk. exists J. split=> //.
  have [||s [-> ->]] := for_range_inv (fun _ (s : Mat.Matrix K * Mat.Matrix K) => s = (J, A)) 1 n (givens_step cnorm cabs conj ofr Num.sqrt eps n) (J, A) (elimT ssrnat.leP Hn) => //.
  move=> i s [Hi1 /ssrnat.ltP Hi2] ->. exists (J, A). split=> //.
  case: i Hi1 Hi2 => [|j] Hi1 Hi2; first by lia. have Lj : (j < n)%N by exact: ltnW.
  apply: (@givens_skip n J A MA (Ordinal Hi2) (Ordinal Lj) HA erefl). rewrite -(emb_lt HC) Habs. exact: Hb.
Qed.
(** The 0 by 0 matrix is refused. *)
Theorem C97_givens_empty (A : Mat.Matrix K) : rows A = 0%N -> qr_factorise_givens cnorm cabs conj ofr Num.sqrt eps A = Throw.
Proof. move=> E. by rewrite /qr_factorise_givens E. Qed.
End Givens.
