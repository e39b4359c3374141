(** PropDims2.v: pole placement with the wrong number of poles, the exponential and the
    discretisation of systems whose dimensions do not fit together (C95). *)
From Verif Require Import LinalgFacts2 PropMatrix PropUtil PropMath RingM DetFacts RatOps PropLinalg PropRing PropField PropReal Control ControlSpec ControlFacts PropControl CharPoly PropControl2 PropExpm PropDims.
From mathcomp Require Import all_ssreflect all_algebra.
Set Implicit Arguments.
Unset Strict Implicit.
Unset Printing Implicit Defensive.
Import Order.Theory GRing.Theory Num.Theory.
Local Open Scope ring_scope.

Section P.
Variables (F : fieldType) (O : Ops F).
Hypothesis HF : fieldO O.
Hypothesis HZ : exactZ O.
Let HO : ringO O. Proof. by case: HF. Qed.
Implicit Types (A B C : MB F).

(** The first steps of the loop of acker. *)
Lemma acker_loop A p n (M : 'M[F]_n.+1) k (P : {poly F}) Z0 j : reads_mx A M -> coeffs p k P -> fits n.+2 -> (j <= n.+2)%N -> (j <= k.+1)%N ->
  is_mx Z0 (0 : 'M[F]_n.+1) ->
  exists Ap, for_range 0 j (fun i Ap => let* Q := powm A (sub64 n.+1 i) in let* pi := lget p i in let* Q := m_muls (mb_of_mat Q) pi in m_iadd Root (fun _ => mb_of_mat Q) Ap) Z0 = Ok Ap /\
    is_mx Ap (\sum_(i < j) P`_(k - i) *: M ^+ (n.+1 - i)).
Proof.
  move=> HA Hp Fn Hj Hk HZ0. have Sz1 : is_size n.+1. { apply: fits_size. apply: (fits_le _ n.+2) => //. lia. }
  apply: (for_range_inv (fun i m => is_mx m (\sum_(a < i) P`_(k - a) *: M ^+ (n.+1 - a)))); [lia|by rewrite big_ord0|].
  move=> i s Hi Hs. move/ssrnat.leP: Hj => Hj. move/ssrnat.leP: Hk => Hk. rewrite sub64_small //; last lia. rewrite -[(n.+1 - i)%coq_nat]/(n.+1 - i)%N.
  have [X [-> HX]] := C46_powm HO (n.+1 - i)%N HA. rewrite bindOk. rewrite (is_vec_get _ _ _ i Hp); last lia. rewrite bindOk.
  have [Y [-> HY HY']] := m_muls_mx HO P`_(k - i) (is_mx_reads HX). rewrite bindOk.
  have [m' [-> Hm']] := m_iadd_mx HF Hs HY'. exists m'. split=> //. by rewrite big_ord_recr.
Qed.
(** Up to the loop. *)
Lemma acker_head A B poles n (M : 'M[F]_n.+1) (N : 'cV[F]_n.+1) fp k : (n.+1 <= 5)%N ->
  reads_mx A M -> reads_mx B N -> readsL poles 1 k fp -> (0 < k)%N -> fits k.+1 -> mempty poles = false -> \det (ctrbmx M N) != 0 ->
  exists ct p Z0 inv, [/\ is_mx ct (ctrbmx M N), coeffs p k (poles_poly k (fp 0%N)), is_mx Z0 (0 : 'M[F]_n.+1), inverse (mb_of_mat ct) = Ok inv &
    is_mx inv ((\det (ctrbmx M N))^-1 *: \adj (ctrbmx M N)) /\
    acker A B poles = (let* Ap := for_range 0 n.+2 (fun i Ap => let* Q := powm A (sub64 n.+1 i) in let* pi := lget p i in let* Q := m_muls (mb_of_mat Q) pi in m_iadd Root (fun _ => mb_of_mat Q) Ap) Z0 in
      let* sel := zeros 1 (rows ct) in let* sel := mat_lset sel (sub64 (rows ct) 1) o1 in let* inv := inverse (mb_of_mat ct) in
      let* P := m_mul (mb_of_mat sel) (mb_of_mat inv) in m_mul (mb_of_mat P) (mb_of_mat Ap))].
Proof.
  move=> Hn HA HB HP Hk Fk He Hd. have Fn : fits n.+2 by move/ssrnat.leP: Hn => Hn; rewrite /fits /alloc_max; lia.
  have [[Ar [Ac _]] _] := HA. have [[Br [Bc _]] _] := HB. have [[Pr [Pc _]] _] := HP. have As := shape_mx HA.
  rewrite /acker /is_square /is_column_vector /is_row_vector Ar Ac Br Bc Pr He !nateqbE !eqxx -[~~ true || ~~ true || ~~ true]/false.
  have [ct [-> Hct]] := ctrb_mx HF HA HB. rewrite bindOk. have R := is_mx_reads Hct.
  have [inv [Ei Hi]] := inverse_mx HF HZ R (C49_nonsingular HF HZ R Hd) Hd (adj_small HO R Hn).
  rewrite (C49_nonsingular HF HZ R Hd) bindOk HZ (negbTE Hd).
  have [||| p [-> Hp]] := C58_poly_matrix HO HP; [by left|by rewrite mul1n|by rewrite mul1n|]. rewrite bindOk.
  have {}Hp : coeffs p k (poles_poly k (fp 0%N)) by move: Hp; rewrite mul1n /coeffs /poles_poly eqxx.
  have [Z0 [-> HZ0]] := zeros_mx HF (ltn0Sn n) (ltn0Sn n) As. rewrite bindOk.
  have Sz : is_size (n.+1 + 1)%coq_nat by apply: fits_size; rewrite Nat.add_1_r.
  have -> : add64 n.+1 1 = n.+2 by rewrite add64_small // Nat.add_1_r.
  exists ct, p, Z0, inv. split=> //.
Qed.
(** Fewer poles than states: the coefficients are read out of bounds. *)
Theorem C95_acker_few A B poles n (M : 'M[F]_n.+1) (N : 'cV[F]_n.+1) fp k : (n.+1 <= 5)%N ->
  reads_mx A M -> reads_mx B N -> readsL poles 1 k fp -> mempty poles = false -> \det (ctrbmx M N) != 0 ->
  (0 < k)%N -> (k < n.+1)%N -> acker A B poles = UB.
Proof.
  move=> Hn HA HB HP He Hd Hk0 Hk. have Fn : fits n.+2 by move/ssrnat.leP: Hn => Hn; rewrite /fits /alloc_max; lia.
  have Fk : fits k.+1. { apply: (fits_le _ n.+2) => //. move/ssrnat.leP: Hk => Hk. lia. }
  have [ct [p [Z0 [inv [Hct Hp HZ0 _ [_ ->]]]]]] := acker_head Hn HA HB HP Hk0 Fk He Hd.
  have Hk2 : (k.+1 < n.+2)%coq_nat by apply/ssrnat.ltP.
  have [Ap [E HAp]] := acker_loop HA Hp Fn (introT ssrnat.leP (Nat.lt_le_incl _ _ Hk2)) (leqnn _) HZ0.
  rewrite (for_range_split 0 k.+1) ?E; [|lia|lia]. rewrite bindOk for_range_first //.
  have Sz1 : is_size n.+1. { apply: fits_size. apply: (fits_le _ n.+2) => //. lia. }
  rewrite sub64_small //; last lia. have [X [-> HX]] := C46_powm HO (n.+1 - k.+1)%N HA. rewrite bindOk.
  have [L _] := Hp. rewrite /lget (proj2 (nth_error_None _ _)) //. rewrite L. lia.
Qed.
(** More poles than states: only the leading n + 1 coefficients of their polynomial are used,
    so the closed loop has another characteristic polynomial. *)
Theorem C95_acker_many A B poles n (M : 'M[F]_n.+1) (N : 'cV[F]_n.+1) fp k : (n.+1 <= 5)%N ->
  reads_mx A M -> reads_mx B N -> readsL poles 1 k fp -> mempty poles = false -> \det (ctrbmx M N) != 0 ->
  (n.+1 <= k)%N -> fits k.+1 ->
  exists g (K : 'rV[F]_n.+1), [/\ acker A B poles = Ok g, is_mx g K &
    forall i, (i <= n.+1)%N -> (char_poly (M - N *m K))`_i = (\prod_(j < k) ('X - (fp 0%N j)%:P))`_(i + (k - n.+1))].
Proof.
  move=> Hn HA HB HP He Hd Hk Fk. have Fn : fits n.+2 by move/ssrnat.leP: Hn => Hn; rewrite /fits /alloc_max; lia.
  have [ct [p [Z0 [inv [Hct Hp HZ0 Ei [Hi ->]]]]]] := acker_head Hn HA HB HP (leq_trans (ltn0Sn n) Hk) Fk He Hd.
  have As := shape_mx HA. have Ps : shape_ok 1 n.+1.
    have [_ [S1 S2]] := As. split; [exact: fits_size fits_1|split; [exact: S1|]]. apply: (fits_le _ (n.+1 * n.+1)%coq_nat); [nia|exact: S2].
  have Sz1 : is_size n.+1. { apply: fits_size. apply: (fits_le _ n.+2) => //. lia. }
  have [|Ap [-> HAp]] := acker_loop HA Hp Fn (leqnn _) _ HZ0; first exact: Hk.
  pose P := poles_poly k (fp 0%N). pose Q := \poly_(i < n.+2) P`_(i + (k - n.+1)).
  have QT : P`_(n.+1 + (k - n.+1)) = 1. { rewrite subnKC //. have := poles_monic k (fp 0%N). by rewrite monicE lead_coefE poles_size => /eqP. }
  have SQ : size Q = n.+2. { apply: size_poly_eq. by rewrite QT oner_eq0. }
  have MQ : Q \is monic by rewrite monicE lead_coefE SQ coef_poly ltnSn QT.
  have EAp : \sum_(i < n.+2) P`_(k - i) *: M ^+ (n.+1 - i) = horner_mx M Q.
    rewrite (horner_mxS M (m := n.+2)) ?SQ // (reindex_inj rev_ord_inj) /=. apply: eq_bigr => j _. rewrite !subSS subKn; last by rewrite -ltnS.
    rewrite coef_poly ltn_ord. congr (P`_ _ *: _). by rewrite subnBA ?subnA // ?(leq_trans _ Hk) 1?addnC ?addnBA // -ltnS.
  rewrite EAp in HAp. rewrite bindOk. have [Er [Ec _]] := Hct. rewrite Er.
  have [S0 [-> HS0]] := zeros_mx HF (ltn0Sn 0) (ltn0Sn n) Ps. rewrite bindOk.
  rewrite sub64_small //; last lia. have -> : (n.+1 - 1)%coq_nat = n by lia.
  have [|sel [-> Hsel]] := mat_lset_ok S0 1 n.+1 _ n o1 HS0; first lia. rewrite bindOk.
  have Hsel' : is_mx sel (delta_mx 0 ord_max : 'rV[F]_n.+1).
    apply: is_mat_ext; first exact: Hsel. move=> i j /ssrnat.ltP Hi0 /ssrnat.ltP Hj.
    rewrite /fset Nat.div_small ?Nat.mod_small; try lia. rewrite !nateqbE.
    rewrite -[i]/(val (Ordinal Hi0)) -[j]/(val (Ordinal Hj)) !mxfE !mxE (o1E HO) -!val_eqE /=. by case: (i == 0)%N; case: (j == n).
  rewrite Ei bindOk. have [X [-> HX HX']] := m_mul_mxL HO (is_mx_reads Hsel') (is_mx_reads Hi) Ps. rewrite bindOk.
  have [Y [-> HY _]] := m_mul_mxL HO HX' (is_mx_reads HAp) Ps. exists Y. eexists. split; [by []|exact: HY|].
  have HV : ((\det (ctrbmx M N))^-1 *: \adj (ctrbmx M N)) *m ctrbmx M N = 1%:M by rewrite -scalemxAl mul_adj_mx -mul_scalar_mx -scalar_mxM mulVf.
  move=> i Hi'. rewrite (acker_place HV MQ SQ) coef_poly ltnS Hi'. by [].
Qed.
End P.

Section E.
Variables (F : archiFieldType) (O : Ops F).
Hypothesis HR : realO O.
Hypothesis HZ : exactZ O.
Hypothesis HE : forall x : F, ofeq x 0 = (x == 0).
Hypothesis Habs : forall x : F, oabs x = `|x|.
Let HF : fieldO O. Proof. by case: HR. Qed.
Let HO : ringO O. Proof. by case: HF. Qed.
Let Hlt x y : olt x y = (x < y) :> bool. Proof. by case: HR. Qed.
Let Hnat k : ofnat k = k%:R :> F. Proof. by case: HR. Qed.
Variable nsqrt : F -> F.

(** The exponential of a matrix that is not square throws; that of an empty one too. *)
Theorem C95_expm_not_square (m : Mat.Matrix F) r c f acc : is_mat m r c f -> (0 < r)%N -> (0 < c)%N -> r <> c ->
  exists k, forall fuel, (k <= fuel)%N -> expm nsqrt (2%:R^-1) fuel (mb_of_mat m) acc = Throw.
Proof.
  move=> Hm Hr Hc Hne. have [|norm [s [En H1 H2 H3]]] := C43_log2_ceil (ab := oabs) HR _ Hm; first by move=> x; rewrite Habs.
  exists (maxn s 1) => fuel Hf. rewrite /expm H3; last exact: leq_trans (leq_maxl _ _) Hf. rewrite bindOk.
  have HmL := is_mat_readsL _ _ _ _ Hm. have [Ar [Ac [_ [As _]]]] := proj1 HmL.
  have [sa [-> Hsa]] := proj1 (C32_mul_scalar ((2%:R ^+ s)^-1 : F)) _ r c f HmL. rewrite bindOk Ar Ac.
  have [m1 [-> I1]] := C21_eye r c o1 (elimT ssrnat.ltP Hr) (elimT ssrnat.ltP Hc) As. rewrite !bindOk.
  case: fuel Hf => [|fuel] Hf; first by move: Hf; rewrite leqNgt leq_maxr.
  have Ar' : rows m = r := Ar. have Ac' : cols m = c := Ac.
  rewrite [expm_loop _ _ _ _ _ _ _ _ _ _ _ _]/= Hlt HZ (oaddE HO) !(o1E HO) ltr_addr1 oner_eq0 Ar' Ac' [_ && _]/= /for_range.
  have [z [-> Hz]] := mat_new_ok r c o0 As. rewrite bindOk.
  have Thr (a b : Mat.Matrix F) g h : is_mat a r c g -> is_mat b r c h -> m_mul (mb_of_mat a) (mb_of_mat b) = Throw.
    move=> [_ [Ea _]] [Eb _]. rewrite /m_mul [mcols _]/= [mrows _]/= Ea Eb nateqbE. by case: eqP => // E; case: Hne.
  case: (mul64 r r) => [|b] /=.
    have [-> _] := C32_inplace_is_binary m1 r c _ _ r c _ I1 (is_mat_readsL _ _ _ _ Hz).
    have [_ [//|//|a [-> _]]] := C32_add _ _ r c _ r c _ (is_mat_readsL _ _ _ _ I1) (is_mat_readsL _ _ _ _ Hz). rewrite bindOk.
    by rewrite (Thr _ _ _ _ Hz Hz).
  have [_ Hdiv _] := HF. rewrite Hnat Hdiv ?oner_eq0 // bindOk (o1E HO) (o0E HO) (omulE HO) HE divr1 mulr1 oner_eq0.
  by rewrite (Thr _ _ _ _ I1 Hsa).
Qed.

(** c2d: a state matrix that is not square, and an input matrix with the wrong number of
    rows, make it throw; an output matrix with the wrong number of columns fails the check
    of the dimensions. *)
Theorem C95_c2d_not_square (sys : SS F) ts acc r c f : is_mat (sA sys) r c f -> (0 < r)%N -> (0 < c)%N -> r <> c ->
  exists k, forall fuel, (k <= fuel)%N -> c2d nsqrt (2%:R^-1) acc fuel sys ts = Throw.
Proof.
  move=> HA Hr Hc Hne. have [At [EAt HAt]] := proj1 (C32_mul_scalar ts) _ r c f (is_mat_readsL _ _ _ _ HA).
  have [k Hk] := C95_expm_not_square acc HAt Hr Hc Hne. exists k => fuel Hf. by rewrite /c2d EAt bindOk Hk.
Qed.
Theorem C95_c2d_input (sys : SS F) ts acc fuel n (A : 'M[F]_n.+1) r c fB At E half (Ad : 'M[F]_n.+1) :
  is_mx (sA sys) A -> is_mat (sB sys) r c fB -> r <> n.+1 -> (n.+1 <= 5)%N -> \det A != 0 ->
  m_muls (mb_of_mat (sA sys)) ts = Ok At -> expm nsqrt half fuel (mb_of_mat At) acc = Ok E -> is_mx E Ad -> c2d nsqrt half acc fuel sys ts = Throw.
Proof.
  move=> HA HB Hne Hn Hd EAt EE HE'. have As := shape_mx (is_mx_reads HA).
  rewrite /c2d EAt bindOk EE bindOk. cbv zeta. rewrite (move_empty HE') //.
  have [v [V [-> HV H1 H2]]] := C52_inverse HF HZ (is_mx_reads HA) Hn Hd. rewrite bindOk.
  have [Ar _] := HA. rewrite Ar. have [J [-> _ HJ]] := identity_mx HO (ltn0Sn n) As. rewrite bindOk.
  have [X [-> _ HX]] := m_sub_mx HF (is_mx_reads HE') HJ. rewrite bindOk.
  have [Y [-> [_ [HY _]] _]] := m_mul_mxL HO (is_mx_reads HV) HX As. rewrite bindOk. have [Br _] := HB.
  rewrite /m_mul [mcols _]/= [mrows _]/= HY Br nateqbE. by case: eqP => // Eq; case: Hne.
Qed.
Theorem C95_c2d_output (sys : SS F) ts acc fuel n m (A : 'M[F]_n.+1) (B : 'M[F]_(n.+1, m.+1)) p c fC q r fD At E half (Ad : 'M[F]_n.+1) :
  is_mx (sA sys) A -> is_mx (sB sys) B -> is_mat (sC sys) p c fC -> c <> n.+1 -> is_mat (sD sys) q r fD -> (n.+1 <= 5)%N -> \det A != 0 ->
  m_muls (mb_of_mat (sA sys)) ts = Ok At -> expm nsqrt half fuel (mb_of_mat At) acc = Ok E -> is_mx E Ad -> c2d nsqrt half acc fuel sys ts = UB.
Proof.
  move=> HA HB HC Hne HD Hn Hd EAt EE HE'.
  case: (posnP (p * c)%N) => [Z0|Hpc].
    apply: (C63_no_output HR HZ HA HB HC _ HD Hn Hd EAt EE HE'). move/eqP: Z0. rewrite muln_eq0 => /orP [/eqP ->|/eqP ->]; by [left|right].
  have As := shape_mx (is_mx_reads HA). have Bs := shape_mx (is_mx_reads HB).
  rewrite /c2d EAt bindOk EE bindOk. cbv zeta. rewrite (move_empty HE') //.
  have [v [V [-> HV H1 H2]]] := C52_inverse HF HZ (is_mx_reads HA) Hn Hd. rewrite bindOk.
  have [Ar _] := HA. rewrite Ar. have [J [-> _ HJ]] := identity_mx HO (ltn0Sn n) As. rewrite bindOk.
  have [X [-> _ HX]] := m_sub_mx HF (is_mx_reads HE') HJ. rewrite bindOk.
  have [Y [-> _ HY]] := m_mul_mxL HO (is_mx_reads HV) HX As. rewrite bindOk.
  have [Z [-> HZ' _]] := m_mul_mxL HO HY (is_mx_reads HB) Bs. rewrite bindOk (move_empty HZ') //.
  rewrite (assign_empty O HC) // bindOk.
  have [dD ->] : exists dD, mat_assign (fun _ => mb_of_mat (sD sys)) mat_empty = Ok dD.
    case: (posnP (q * r)%N) => [Z0|Hp]; last by exists (sD sys); exact: (assign_empty O HD).
    exists mat_empty. apply: mat_assign_empty. have [_ [_ [-> _]]] := is_mat_reads _ _ _ _ HD. exact: Z0.
  have [E1 [E2 _]] := HE'. have [_ [C2 _]] := HC. rewrite bindOk E1 E2 C2 [(c =? _)]nateqbE. case: eqP => // _. by rewrite andbF.
Qed.
End E.
