(** PropControl2.v: characteristic polynomial and pole placement (C59, C64). *)
From Verif Require Import LinalgFacts2 PropMatrix PropUtil PropMath RingM DetFacts RatOps PropLinalg PropRing PropField Control ControlSpec ControlFacts PropControl CharPoly.
From mathcomp Require Import all_ssreflect all_algebra.
Set Implicit Arguments.
Unset Strict Implicit.
Unset Printing Implicit Defensive.
Import GRing.Theory.
Local Open Scope ring_scope.

Lemma vec_set T (l : seq T) n f i v : is_vec l n f -> (i < n)%N -> exists l', lset l i v = Ok l' /\ is_vec l' n (fun k => if k == i then v else f k).
Proof.
  move=> [L [F H]] /ssrnat.ltP Hi. exists (upd l i v). rewrite lset_ok; last by rewrite L. split=> //. split; first by rewrite upd_length. split=> // k Hk.
  rewrite upd_nth_error; last by rewrite L. rewrite nateqbE. by case: eqP => // _; apply: H.
Qed.

Lemma bindOk A B (a : A) (f : A -> Res B) : bind (Ok a) f = f a. Proof. by []. Qed.
(** * C59: when poly throws *)
Theorem C59_throws T (O : Ops T) (A : MB T) r c f : reads A r c f -> r <> c -> (1 < r)%N -> (1 < c)%N -> poly_m A = Throw.
Proof.
  move=> [Ar [Ac [Az _]]] N Hr Hc. rewrite /poly_m Az Ar Ac /is_square Ar Ac !nateqbE.
  rewrite -[(r * c)%coq_nat]/(r * c)%N muln_eq0 (gtn_eqF Hr) (gtn_eqF Hc) (gtn_eqF (ltnW Hr)) (gtn_eqF (ltnW Hc)) /=. by move/eqP/negbTE: N => ->.
Qed.
Theorem C59_empty T (O : Ops T) (A : MB T) r c f : reads A r c f -> r = 0%N \/ c = 0%N -> poly_m A = Ok [:: o1].
Proof.
  move=> [Ar [Ac [Az _]]] H. rewrite /poly_m Az nateqbE -[(r * c)%coq_nat]/(r * c)%N muln_eq0.
  by case: H => ->; rewrite eqxx ?orbT; apply: vec_of_list_ok; rewrite /fits /alloc_max /=; lia.
Qed.

Section P.
Variables (F : fieldType) (O : Ops F).
Hypothesis HF : fieldO O.
Let HO : ringO O. Proof. by case: HF. Qed.
Implicit Types (A B C : MB F).

Lemma m_sub_mx A B r c (M N : 'M[F]_(r, c)) : reads_mx A M -> reads_mx B N ->
  exists m, [/\ m_sub A B = Ok m, is_mx m (M - N) & reads_mx (mb_of_mat m) (M - N)].
Proof.
  move=> HA HB. have [m [E H]] := proj2 (C32_sub A B r c (mxf M) r c (mxf N) HA HB) erefl erefl.
  have Hm : is_mx m (M - N).
    apply: is_mat_ext; first exact: H. move=> i j /ltP Hi /ltP Hj.
    by rewrite -[i]/(val (Ordinal Hi)) -[j]/(val (Ordinal Hj)) (osubE HO) !mxfE !mxE.
  exists m. split=> //. exact: is_mx_reads.
Qed.
Lemma move_mx (m h : Mat.Matrix F) r c (M : 'M[F]_(r, c)) r' c' (N : 'M[F]_(r', c')) : is_mx m M -> is_mx h N -> (0 < r' * c')%N ->
  is_mx (fst (mat_move_assign m h)) N.
Proof. move=> Hm Hh Hp. apply: (move_assign_ok m h r c (mxf M)) => //. left. exact/ssrnat.ltP. Qed.

(** poly(A) of a square matrix is the characteristic polynomial, highest degree first. *)
Theorem C59_char_poly A n (M : 'M[F]_n) : reads_mx A M -> fits n.+1 ->
  (forall m, (1 < m <= n)%N -> ofnat m = m%:R :> F /\ m%:R != 0 :> F) ->
  exists d, poly_m A = Ok d /\ coeffs d n (char_poly M).
Proof.
  move=> HA Fn Hch. have [Hr _] := HA. have [Ar [Ac [Az [As _]]]] := Hr.
  case: n => [|[|n]] in M HA Fn Hch Hr Ar Ac Az As *.
  - exists [:: o1]. split; first by apply: (C59_empty O Hr); left. split=> //. split=> // -[|i] Hi //=; last lia.
    by rewrite (char_poly_top M) (o1E HO).
  - have [||//|d [E H]] := C58_poly_matrix HO HA; [by left|by []|]. exists d. split=> //.
    apply: is_vec_ext; first exact: H. move=> i Hi. rewrite -[(1 * 1)%N]/1%N eqxx. congr (nth 0 _ _). congr (polyseq _).
    rewrite big_ord_recl big_ord0 mulr1 /char_poly det_mx11 !mxE eqxx. by rewrite -[0%N]/(val (0 : 'I_1)) mxfE.
  have Sz : is_size (n.+2 + 1)%coq_nat by rewrite Nat.add_1_r; move: Fn; rewrite /fits /is_size /alloc_max /two64; lia.
  rewrite /poly_m Az Ar Ac /is_square Ar Ac !nateqbE -[(n.+2 * n.+2)%coq_nat]/(n.+2 * n.+2)%N muln_eq0 [(n.+2 == 0)%N]/= [(n.+2 == 1)%N]/= eqxx [~~ true]/= [false || false]/=.
  set p := char_poly M.
  have Ea : add64 n.+2 1 = n.+3 by rewrite add64_small // Nat.add_1_r. rewrite !Ea.
  rewrite vec_new_ok // bindOk.
  have [B0 [-> H0]] := mat_of_mb_ok _ _ _ _ HA. rewrite bindOk. rewrite (C39_ring_trace HO (is_mx_reads H0)) bindOk.
  have V0 : is_vec (List.repeat (o0 : F) n.+3) n.+3 (fun _ => 0).
    split; first by rewrite repeat_length. split=> // i Hi. rewrite nth_error_repeat_lt // (o0E HO). by [].
  have [c1 [-> V1]] := vec_set o1 V0 (ltn0Sn _). rewrite bindOk.
  have [//|c2 [-> V2]] := vec_set (i := 1) (oopp (\tr M)) V1. rewrite bindOk.
  have [Er0 [Ec0 _]] := H0. rewrite Er0. have [J [-> HJ HJ']] := identity_mx HO (ltn0Sn n.+1) As. rewrite bindOk.
  have [||m [[c B] last] Hm [Hc HB Hl]|[[c B] last] [E [Hc _ _]]] := for_range_inv (fun m (s : seq F * Mat.Matrix F * F) =>
      let '(c, B, last) := s in [/\ is_vec c n.+3 (fun i => if (i < m)%N then p`_(n.+2 - i) else 0),
         is_mx B (M *m adjc M (n.+3 - m)%N) & last = - p`_(n.+3 - m)]) 2 n.+3 (fun m (s : list F * Mat.Matrix F * F) =>
      let '(c, B, last) := s in
      let* L := m_muls (mb_of_mat J) last in
      let* D := m_sub (mb_of_mat B) (mb_of_mat L) in
      let* P := m_mul A (mb_of_mat D) in
      let B := fst (mat_move_assign B P) in
      let* t := trace (mb_of_mat B) in
      let* last := odiv t (ofnat m) in
      let* c := lset c m (oopp last) in
      Ok (c, B, last)) (c2, B0, \tr M).
  - lia.
  - have Tr : \tr M = - p`_n.+1.
      have := leverrier_trace M (ltnSn n.+1). by rewrite adjc_top mulmx1 subSnn mulr1n.
    split.
    + apply: is_vec_ext; first exact: V2. move=> i Hi. case: i Hi => [|[|i]] Hi //=.
        by rewrite (char_poly_top M) (o1E HO).
      by rewrite (ooppE HO) Tr opprK.
    + rewrite !subSS subn0 /= adjc_top mulmx1. exact: H0.
    + by rewrite !subSS subn0.
  - case: Hm => /ssrnat.leP Hm1 /ssrnat.ltP Hm2. cbv beta iota.
    have [L [-> _ HL]] := m_muls_mx HO last HJ'. rewrite bindOk.
    have [D [-> _ HD]] := m_sub_mx (is_mx_reads HB) HL. rewrite bindOk.
    have [P [-> HP _]] := m_mul_mxL HO HA HD As. rewrite bindOk.
    have Hmn : (m <= n.+2)%N by rewrite -ltnS.
    have ED : M *m adjc M (n.+3 - m) - last *: 1%:M = adjc M (n.+2 - m).
      have := adjc_rec M (n.+3 - m). rewrite Hl -/p. have -> : (n.+3 - m = (n.+2 - m).+1)%N by rewrite -subSn.
      move=> ->. by rewrite scaleNr opprK addrC.
    cbv zeta. rewrite ED in HP. have HB' := move_mx HB HP isT. move: (fst (mat_move_assign B P)) HB' => B1 HB'.
    rewrite (C39_ring_trace HO (is_mx_reads HB')) bindOk.
    have [|-> Nz] := Hch m; first by rewrite Hm1.
    rewrite leverrier_trace; last by rewrite ltn_subrL (ltnW Hm1).
    have [_ Hdiv _] := HF. rewrite (Hdiv _ _ Nz) bindOk subKn // mulNr -mulr_natr mulfK // -/p.
    have [|c' [-> V']] := vec_set (i := m) (oopp (- p`_(n.+2 - m))) Hc; first exact: Hm2. rewrite bindOk.
    eexists. split; first reflexivity. have Es : (n.+3 - m.+1 = n.+2 - m)%N by rewrite subSS. split.
    + apply: is_vec_ext; first exact: V'. move=> i Hi /=. rewrite ltnS (ooppE HO) opprK. case: ltngtP => [h|h|->] //; by rewrite leqNgt ?h ?(ltnW h).
    + by rewrite Es.
    + by rewrite Es.
  - rewrite E /=. exists c. split=> //. apply: is_vec_ext; first exact: Hc. move=> i /ssrnat.ltP Hi /=. by rewrite Hi.
Qed.

(** * C64 acker *)
Lemma ctrb_mx A B n (M : 'M[F]_n.+1) (N : 'cV[F]_n.+1) : reads_mx A M -> reads_mx B N -> exists ct, ctrb A B = Ok ct /\ is_mx ct (ctrbmx M N).
Proof.
  move=> HA HB. have [|ct [f [E H Hf]]] := C57_ctrb HO HA HB; first by rewrite muln1; exact: (shape_mx HA).
  exists ct. split=> //. rewrite muln1 in H. apply: is_mat_ext; first exact: H. move=> i j /ssrnat.ltP Hi /ssrnat.ltP Hj.
  have := Hf j i 0%N Hj isT. rewrite muln1 addn0 => ->.
  rewrite -[i]/(val (Ordinal Hi)) -[j]/(val (Ordinal Hj)) mxfE -[0%N]/(val (0 : 'I_1)) mxfE [in RHS]mxE. by [].
Qed.
Definition poles_poly n (fp : nat -> F) : {poly F} := \prod_(k < n) ('X - (fp k)%:P).
Lemma poles_size n fp : size (poles_poly n fp) = n.+1.
Proof. by rewrite size_prod_XsubC /index_enum -enumT size_enum_ord. Qed.
Lemma poles_monic n fp : poles_poly n fp \is monic. Proof. exact: monic_prod_XsubC. Qed.
Lemma m_iadd_mx (m : Mat.Matrix F) B r c (M N : 'M[F]_(r, c)) : is_mx m M -> reads_mx B N ->
  exists m', m_iadd Root (fun _ => B) m = Ok m' /\ is_mx m' (M + N).
Proof.
  move=> Hm HB. have [-> _] := C32_inplace_is_binary m r c _ B r c _ Hm HB.
  by have [m' [E H _]] := m_add_mx HO (is_mx_reads Hm) HB; exists m'.
Qed.
Lemma zeros_mx r c : (0 < r)%N -> (0 < c)%N -> shape_ok r c -> exists m, zeros r c = Ok m /\ is_mx m (0 : 'M[F]_(r, c)).
Proof.
  move=> /ssrnat.ltP Hr /ssrnat.ltP Hc Hs. have [[m [E H]] _] := C21_zeros_ones r c Hr Hc Hs. exists m. split=> //.
  apply: is_mat_ext; first exact: H. move=> i j /ssrnat.ltP Hi /ssrnat.ltP Hj.
  by rewrite -[i]/(val (Ordinal Hi)) -[j]/(val (Ordinal Hj)) mxfE mxE (o0E HO).
Qed.
Lemma acker_run A B poles n (M : 'M[F]_n.+1) (N : 'cV[F]_n.+1) fp (V : 'M[F]_n.+1) :
  reads_mx A M -> reads_mx B N -> readsL poles 1 n.+1 fp -> mempty poles = false -> fits n.+2 ->
  (forall ct, is_mx ct (ctrbmx M N) -> exists d inv, [/\ Linalg.determinant (mb_of_mat ct) = Ok d, oisz d = false,
     inverse (mb_of_mat ct) = Ok inv & is_mx inv V]) ->
  exists k, acker A B poles = Ok k /\ is_mx k ((delta_mx 0 ord_max : 'rV[F]_n.+1) *m V *m horner_mx M (poles_poly n.+1 (fp 0%N))).
Proof.
  move=> HA HB HP He Fn Hinv. have [[Ar [Ac _]] _] := HA. have [[Br [Bc _]] _] := HB. have [[Pr [Pc _]] _] := HP.
  have As := shape_mx HA. have Ps : shape_ok 1 n.+1 by case: HP => [[_ [_ [_ []]]]].
  rewrite /acker /is_square /is_column_vector /is_row_vector Ar Ac Br Bc Pr He !nateqbE !eqxx -[~~ true || ~~ true || ~~ true]/false.
  have [ct [-> Hct]] := ctrb_mx HA HB. rewrite bindOk. have [d [inv [-> Hz Ei Hi]]] := Hinv ct Hct. rewrite bindOk Hz.
  have [|//||p [-> Hp]] := C58_poly_matrix HO HP; [by left|by rewrite mul1n|]. rewrite bindOk.
  have {Hp} Hp : coeffs p n.+1 (poles_poly n.+1 (fp 0%N)).
    by move: Hp; rewrite mul1n /coeffs /poles_poly eqxx.
  have [Z0 [-> HZ0]] := zeros_mx (ltn0Sn n) (ltn0Sn n) As. rewrite bindOk.
  have Sz : is_size (n.+1 + 1)%coq_nat by apply: fits_size; rewrite Nat.add_1_r.
  have Sz1 : is_size n.+1. { apply: fits_size. apply: (fits_le _ n.+2) => //. lia. }
  have -> : add64 n.+1 1 = n.+2 by rewrite add64_small // Nat.add_1_r.
  have [||i s Hi' Hs|Ap [-> HAp]] := for_range_inv (fun i m => is_mx m (\sum_(j < i) (poles_poly n.+1 (fp 0%N))`_(n.+1 - j) *: M ^+ (n.+1 - j))) 0 n.+2
     (fun i Ap => let* P := powm A (sub64 n.+1 i) in let* pi := lget p i in let* P := m_muls (mb_of_mat P) pi in m_iadd Root (fun _ => mb_of_mat P) Ap) Z0.
  - lia.
  - by rewrite big_ord0.
  - have Hi2 : (i <= n.+1)%coq_nat by lia. rewrite sub64_small //. rewrite -[(n.+1 - i)%coq_nat]/(n.+1 - i)%N.
    have [X [-> HX]] := C46_powm HO (n.+1 - i)%N HA. rewrite bindOk. rewrite (is_vec_get _ _ _ i Hp); last lia. rewrite bindOk.
    have [Y [-> HY HY']] := m_muls_mx HO (poles_poly n.+1 (fp 0%N))`_(n.+1 - i) (is_mx_reads HX). rewrite bindOk.
    have [m' [-> Hm']] := m_iadd_mx Hs HY'. exists m'. split=> //. by rewrite big_ord_recr.
  have EAp : \sum_(j < n.+2) (poles_poly n.+1 (fp 0%N))`_(n.+1 - j) *: M ^+ (n.+1 - j) = horner_mx M (poles_poly n.+1 (fp 0%N)).
    rewrite (horner_mxS M (m := n.+2)) ?poles_size // (reindex_inj rev_ord_inj) /=. apply: eq_bigr => j _. by rewrite !subSS subKn // -ltnS.
  rewrite EAp in HAp. rewrite bindOk. have [Er [Ec _]] := Hct. rewrite Er.
  have [S0 [-> HS0]] := zeros_mx (ltn0Sn 0) (ltn0Sn n) Ps. rewrite bindOk.
  rewrite sub64_small //; last lia. have -> : (n.+1 - 1)%coq_nat = n by lia.
  have [|sel [-> Hsel]] := mat_lset_ok S0 1 n.+1 _ n o1 HS0; first lia. rewrite bindOk.
  have Hsel' : is_mx sel (delta_mx 0 ord_max : 'rV[F]_n.+1).
    apply: is_mat_ext; first exact: Hsel. move=> i j /ssrnat.ltP Hi0 /ssrnat.ltP Hj.
    rewrite /fset Nat.div_small ?Nat.mod_small; try lia. rewrite !nateqbE.
    rewrite -[i]/(val (Ordinal Hi0)) -[j]/(val (Ordinal Hj)) !mxfE !mxE (o1E HO) -!val_eqE /=. by case: (i == 0)%N; case: (j == n).
  rewrite Ei bindOk. have [X [-> HX HX']] := m_mul_mxL HO (is_mx_reads Hsel') (is_mx_reads Hi) Ps. rewrite bindOk.
  have [Y [-> HY _]] := m_mul_mxL HO HX' (is_mx_reads HAp) Ps. by exists Y.
Qed.
Lemma acker_place n (M : 'M[F]_n.+1) (N : 'cV[F]_n.+1) (V : 'M[F]_n.+1) P : V *m ctrbmx M N = 1%:M -> P \is monic -> size P = n.+2 ->
  char_poly (M - N *m ((delta_mx 0 ord_max : 'rV[F]_n.+1) *m V *m horner_mx M P)) = P.
Proof. move=> HV HP HS. apply: ackermann => //. by rewrite -mulmxA HV mulmx1. Qed.

Hypothesis HZ : exactZ O.
(** acker of a controllable system: the closed loop A - B*K has the wanted poles. *)
Theorem C64_acker A B poles n (M : 'M[F]_n.+1) (N : 'cV[F]_n.+1) fp : (n.+1 <= 5)%N ->
  reads_mx A M -> reads_mx B N -> readsL poles 1 n.+1 fp -> mempty poles = false -> \det (ctrbmx M N) != 0 ->
  exists k (K : 'rV[F]_n.+1), [/\ acker A B poles = Ok k, is_mx k K & char_poly (M - N *m K) = \prod_(j < n.+1) ('X - (fp 0%N j)%:P)].
Proof.
  move=> Hn HA HB HP He Hd. have Fn : fits n.+2 by move/ssrnat.leP: Hn => Hn; rewrite /fits /alloc_max; lia.
  pose V := (\det (ctrbmx M N))^-1 *: \adj (ctrbmx M N).
  have HV : V *m ctrbmx M N = 1%:M by rewrite -scalemxAl mul_adj_mx -mul_scalar_mx -scalar_mxM mulVf.
  have [|k [E H]] := @acker_run A B poles n M N fp V HA HB HP He Fn; last first.
    exists k. eexists. split; [exact: E|exact: H|]. exact: (acker_place HV (poles_monic _ _) (poles_size _ _)).
  move=> ct Hct. have R := is_mx_reads Hct. exists (\det (ctrbmx M N)).
  have [inv [Ei Hi]] := inverse_mx HF HZ R (C49_nonsingular HF HZ R Hd) Hd (adj_small HO R Hn).
  exists inv. split=> //; [exact: (C49_nonsingular HF HZ R Hd)|by rewrite HZ (negbTE Hd)].
Qed.
(** Beyond order 5 the same holds when no cofactor of the controllability matrix is zero
    (see C51, C52: the library's inverse is wrong otherwise). *)
Theorem C64_acker_large A B poles n (M : 'M[F]_n.+1) (N : 'cV[F]_n.+1) fp : (6 <= n.+1)%N -> fits n.+2 ->
  reads_mx A M -> reads_mx B N -> readsL poles 1 n.+1 fp -> mempty poles = false -> \det (ctrbmx M N) != 0 ->
  (forall i j, matrix.cofactor (ctrbmx M N) i j != 0) ->
  exists k (K : 'rV[F]_n.+1), [/\ acker A B poles = Ok k, is_mx k K & char_poly (M - N *m K) = \prod_(j < n.+1) ('X - (fp 0%N j)%:P)].
Proof.
  move=> Hn Fn HA HB HP He Hd Hc.
  pose V := (\det (ctrbmx M N))^-1 *: \adj (ctrbmx M N).
  have HV : V *m ctrbmx M N = 1%:M by rewrite -scalemxAl mul_adj_mx -mul_scalar_mx -scalar_mxM mulVf.
  have [|k [E H]] := @acker_run A B poles n M N fp V HA HB HP He Fn; last first.
    exists k. eexists. split; [exact: E|exact: H|]. exact: (acker_place HV (poles_monic _ _) (poles_size _ _)).
  move=> ct Hct. have R := is_mx_reads Hct. exists (\det (ctrbmx M N)).
  have [inv [Ei Hi]] := inverse_mx HF HZ R (C49_nonsingular HF HZ R Hd) Hd (C51_adjoint_large HF HZ R Hn Hc).
  exists inv. split=> //; [exact: (C49_nonsingular HF HZ R Hd)|by rewrite HZ (negbTE Hd)].
Qed.
(** An uncontrollable system of order at most 4 ends the program. *)
Theorem C64_uncontrollable A B poles n (M : 'M[F]_n.+1) (N : 'cV[F]_n.+1) : (n.+1 <= 4)%N ->
  reads_mx A M -> reads_mx B N -> \det (ctrbmx M N) = 0 -> acker A B poles = Exit.
Proof.
  move=> Hn HA HB Hd. rewrite /acker. have [[Ar [Ac _]] _] := HA. have [[Br [Bc _]] _] := HB.
  rewrite /is_square /is_column_vector Ar Ac Br Bc !nateqbE !eqxx -[~~ true || ~~ true || ~~ true]/false. case: ifP => // _.
  have [ct [-> Hct]] := ctrb_mx HA HB. by rewrite bindOk (C48_determinant HO (is_mx_reads Hct)) // bindOk HZ Hd eqxx.
Qed.
(** From order 5 on the test for controllability never fires. *)
Theorem C64_uncontrollable_5_refuted A B poles (M : 'M[F]_5) (N : 'cV[F]_5) fp :
  reads_mx A M -> reads_mx B N -> readsL poles 1 5 fp -> mempty poles = false -> \det (ctrbmx M N) = 0 ->
  exists k, acker A B poles = Ok k.
Proof.
  move=> HA HB HP He Hd.
  have [ct [_ Hct]] := ctrb_mx HA HB. have R := is_mx_reads Hct. have [d [Ed Nd]] := C50_never_zero HF HZ R isT.
  have [inv [Ei Hi]] := inverse_mx HF HZ R Ed Nd (adj_small HO R isT).
  have [||k [E _]] := @acker_run A B poles 4 M N fp (d^-1 *: \adj (ctrbmx M N)) HA HB HP He.
  - by rewrite /fits /alloc_max; lia.
  - move=> ct' Hct'. have -> := is_mx_unique Hct' Hct. exists d, inv. split=> //. by rewrite HZ (negbTE Nd).
  - by exists k.
Qed.
End P.
(** Non-conformal arguments, and poles that are no row or report themselves empty (every
    view does), end the program. *)
Theorem C64_bad_system T (O : Ops T) (A B poles : MB T) ra ca fa rb cb fb : reads A ra ca fa -> reads B rb cb fb ->
  ra <> ca \/ cb <> 1%N \/ ra <> rb -> acker A B poles = Exit.
Proof.
  move=> [Ar [Ac _]] [Br [Bc _]] H. rewrite /acker /is_square /is_column_vector Ar Ac Br Bc !nateqbE.
  by case: H => [/eqP/negbTE ->|[/eqP/negbTE ->|/eqP/negbTE ->]]; rewrite /= ?orbT.
Qed.
Theorem C64_bad_poles T (O : Ops T) (A B poles : MB T) rp cp fp : reads poles rp cp fp -> rp <> 1%N \/ mempty poles = true -> acker A B poles = Exit.
Proof.
  move=> [Pr _] H. rewrite /acker. case: ifP => // _. rewrite /is_row_vector Pr nateqbE.
  by case: H => [/eqP/negbTE ->|->]; rewrite /= ?orbT.
Qed.
Theorem C64_view_poles T (O : Ops T) (A B : MB T) m p : p <> Root -> acker A B (vmb p m) = Exit.
Proof.
  move=> N. rewrite /acker. case: ifP => // _. by case: p N => [|rr cr p|i j p] //= _; rewrite ?orbT.
Qed.
