(** PropQR.v: the QR decomposition (C96), with the two repairs of QR.v. *)
From Verif Require Import MathFacts MatFacts ViewFacts ViewFacts2 Util UtilFacts2 PropUtil PropMath MathM ControlFacts RingM DetFacts PropRing PropReal PropControl2 QR QRMath PropDims.
From mathcomp Require Import all_ssreflect all_algebra realalg.
Set Implicit Arguments.
Unset Strict Implicit.
Unset Printing Implicit Defensive.
Import Order.Theory GRing.Theory Num.Theory.
Local Open Scope ring_scope.

Lemma reflectorE (F : realFieldType) n (w : 'cV[F]_n) a b : reflector w a b = (a == b)%:R - 2%:R / sqlen w * (w a 0 * w b 0).
Proof. by rewrite !mxE big_ord1 mxE. Qed.

Section QR.
Variable F : rcfType.
Variable O : Ops F.
Hypothesis HR : realO O.
Let HF : fieldO O. Proof. by case: HR. Qed.
Let HO : ringO O. Proof. by case: HF. Qed.
(** std::copysign: the magnitude of the first argument with the sign of the second. *)
Variable cs : F -> F -> F.
Hypothesis Hcs : forall x y, 0 <= x -> cs x y = if y < 0 then - x else x.

Lemma bindOk T U (x : T) (k : T -> Res U) : bind (Ok x) k = k x. Proof. by []. Qed.

Lemma householder_ok (a : seq F) m f : is_vec a m.+1 f -> shape_ok m.+1 m.+1 ->
  let sg := cs (Num.sqrt (\sum_(k < m.+1) f k ^+ 2)) (f 0%N) in
  let w := \col_(k < m.+1) (if k == 0 then 1 else f k / (f 0%N + sg)) in
  f 0%N + sg != 0 -> sqlen w != 0 ->
  exists h, make_householder Num.sqrt cs a = Ok h /\ is_mx h (reflector w).
Proof.
  move=> Ha Hs sg w Hv Hw. have [La [Fa Ga]] := Ha. case: HF => _ HD _.
  have E0 : lget a 0 = Ok (f 0%N) by apply: (is_vec_get _ _ _ _ Ha); lia.
  rewrite /make_householder E0 bindOk.
  have -> : square_norm_v (fun x => omul x x) Num.sqrt a = Ok (Num.sqrt (\sum_(k < m.+1) f k ^+ 2)).
    rewrite (C40_square_norm_vector HR _ _ Ha). congr (Ok (Num.sqrt _)). apply: eq_bigr => k _. by rewrite (omulE HO) expr2.
  rewrite !bindOk -/sg (oaddE HO).
  have [u0 [Eu0 Hu0]] := v_map_ok (fun x => odiv x (f 0%N + sg)) a _ _ (fun k => f k / (f 0%N + sg)) Ha (fun k _ => HD _ _ Hv).
  rewrite /v_divs Eu0 bindOk.
  have [u [Eu Hu]] := vec_set o1 Hu0 (ltn0Sn m). rewrite Eu bindOk La.
  have [J [EJ _ HJ]] := identity_mx HO (ltn0Sn m) Hs. rewrite -[eye _ _ _]/(identity m.+1 (o1 : F)) EJ bindOk.
  have [Lu [Fu Gu]] := Hu. rewrite (o1E HO) in Gu.
  have nthE : forall k, (k < m.+1)%N -> List.nth k u 0 = if k == 0%N then 1 else f k / (f 0%N + sg).
    move=> k Hk. apply: List.nth_error_nth. apply: Gu. exact/ssrnat.ltP.
  have Fu' : fits (length u) by rewrite Lu.
  have [uc [-> Huc]] := C22_to_matrix u false 0 Fu'. rewrite bindOk. rewrite Lu in Huc.
  have [ur [-> Hur]] := C22_to_matrix u true 0 Fu'. rewrite bindOk. rewrite Lu in Hur.
  have HC : is_mx uc w.
    apply: is_mat_ext; first exact: Huc. move=> i j /ssrnat.ltP Hi /ssrnat.ltP Hj. rewrite nthE //.
    by rewrite -[i]/(val (Ordinal Hi)) -[j]/(val (Ordinal Hj)) mxfE mxE -val_eqE.
  have HT : is_mx ur w^T.
    apply: is_mat_ext; first exact: Hur. move=> i j /ssrnat.ltP Hi /ssrnat.ltP Hj. rewrite nthE //.
    by rewrite -[i]/(val (Ordinal Hi)) -[j]/(val (Ordinal Hj)) mxfE !mxE -val_eqE.
  have [P [-> _ HP]] := m_mul_mxL HO (is_mx_reads HC) (is_mx_reads HT) Hs. rewrite bindOk.
  have [_ Ed] := C35_dot u u _ _ _ _ Hu Hu. rewrite (Ed erefl) bindOk (osumE HO).
  have -> : \sum_(k < m.+1) omul (if nat_of_ord k == 0%N then o1 else f k / (f 0%N + sg)) (if nat_of_ord k == 0%N then o1 else f k / (f 0%N + sg)) = sqlen w.
    apply: eq_bigr => k _. by rewrite (omulE HO) (o1E HO) mxE expr2 -val_eqE.
  rewrite HD // bindOk (oaddE HO) (o1E HO).
  have [W [-> _ HW]] := m_muls_mx HO ((1 + 1) / sqlen w) HP. rewrite bindOk.
  have [h [-> Hh _]] := m_sub_mx HF HJ HW. by exists h.
Qed.

Lemma reset_ok (H : Mat.Matrix F) r g : is_mat H r r g -> exists H', reset_identity H = Ok H' /\ is_mx H' (1%:M : 'M[F]_r).
Proof.
  move=> HH. have [Hr [Hc _]] := HH. rewrite /reset_identity Hr Hc.
  have [H' [E H1]] := fill_rc_full H r r g (fun i j => Ok (if Nat.eqb i j then o1 else o0)) (fun i j => if Nat.eqb i j then o1 else o0) HH (fun _ _ _ _ => erefl).
  exists H'. split; first exact: E. apply: is_mat_ext; first exact: H1. move=> i j /ssrnat.ltP Hi /ssrnat.ltP Hj.
  rewrite -[i]/(val (Ordinal Hi)) -[j]/(val (Ordinal Hj)) mxfE mxE nateqbE (o0E HO) (o1E HO) /= -val_eqE /=. by case: eqP.
Qed.
Lemma size_max_gt n : is_size n -> (n < N.to_nat size_max)%coq_nat \/ n = N.to_nat size_max.
Proof. rewrite /is_size /two64 /size_max. lia. Qed.
(** The identity with a square block written into its lower right corner. *)
Lemma corner_ok (H h : Mat.Matrix F) r i (W : 'M[F]_r) g : (i < r)%N -> is_mx H (1%:M : 'M[F]_r) ->
  reads (mb_of_mat h) (r - i)%coq_nat (r - i)%coq_nat g ->
  (forall a b : 'I_r, W a b = if (i <= a)%N && (i <= b)%N then g (a - i)%N (b - i)%N else (a == b)%:R) ->
  exists H', view_assign (corner i) (fun _ => mb_of_mat h) H = Ok H' /\ is_mx H' W.
Proof.
  move=> Hi HH Hh HW. have [_ [_ [Sh _]]] := HH. have [Sr _] := Sh.
  have Lr : (r <= N.to_nat size_max)%coq_nat by case: (size_max_gt Sr); lia.
  have Li : (i < r)%coq_nat by apply/ssrnat.ltP.
  have Hv : vshape (corner i) r r = Some ((r - i)%coq_nat, (r - i)%coq_nat).
    rewrite /corner. move: (N.to_nat size_max) Lr => M Lr. rewrite /vshape [start _]/= [stop _]/= (Nat.min_r _ _ Lr).
    have -> : Nat.ltb i M = true by apply/Nat.ltb_lt; lia.
    by have -> : Nat.leb i r = true by apply/Nat.leb_le; lia.
  have [H' [f' [E [H1 [H2 H3]]]]] := view_assign_const (corner i) (mb_of_mat h) H r r _ _ _ g HH Hv Hh.
  have H2' : forall x y, (x < (r - i)%coq_nat)%coq_nat -> (y < (r - i)%coq_nat)%coq_nat -> f' (i + x)%coq_nat (i + y)%coq_nat = g x y := H2.
  have H3' : forall a b, (a < r)%coq_nat -> (b < r)%coq_nat -> (a < i)%coq_nat \/ (b < i)%coq_nat -> f' a b = mxf (1%:M : 'M[F]_r) a b.
    move=> a b Ha Hb Hab. apply: H3 => // x y _ _. rewrite -[vpos _ _ _]/((i + x)%coq_nat, (i + y)%coq_nat) => -[? ?]. lia.
  clear H2 H3 Hv. exists H'. split; first exact: E. clear E. apply: is_mat_ext; first exact: H1. move=> a b Ha Hb.
  have Ha' : (a < r)%N by apply/ssrnat.ltP. have Hb' : (b < r)%N by apply/ssrnat.ltP.
  rewrite -[in RHS](_ : val (Ordinal Ha') = a) // -[in RHS](_ : val (Ordinal Hb') = b) // mxfE HW /=.
  case: (leqP i a) => [/ssrnat.leP La|/ssrnat.leP La]; [case: (leqP i b) => [/ssrnat.leP Lb|/ssrnat.leP Lb]|] => /=.
  - rewrite -(H2' (a - i)%coq_nat (b - i)%coq_nat); [|lia|lia]. congr f'; lia.
  - rewrite H3' //; last by right. by rewrite -[a]/(val (Ordinal Ha')) -[b]/(val (Ordinal Hb')) mxfE mxE.
  - rewrite H3' //; last by left. by rewrite -[a]/(val (Ordinal Ha')) -[b]/(val (Ordinal Hb')) mxfE mxE.
Qed.

(** The signed length of column X from row i down. *)
Definition slen n (i : 'I_n) (X : 'cV[F]_n) : F := cs (Num.sqrt (\sum_(k : 'I_n | (i <= k)%N) X k 0 ^+ 2)) (X i 0).
Lemma tail_shift r i (g : nat -> F) : (i <= r)%N -> \sum_(k < r | (i <= k)%N) g k = \sum_(k < r - i) g (k + i)%N.
Proof.
  move=> Hi. rewrite -(big_mkord (fun k => (i <= k)%N) g) (big_cat_nat _ (n := i)) //= big_nat_cond big1 ?add0r.
  - rewrite -{1}[i]add0n big_addn big_mkord. apply: eq_bigl => k. by rewrite leq_addl.
  - move=> k /andP [/andP [_ L] L2]. by move: (leq_trans L L2); rewrite ltnn.
Qed.
Lemma tail_sum_nz n (i : 'I_n) (X : 'cV[F]_n) (k : 'I_n) : (i <= k)%N -> X k 0 != 0 -> 0 < \sum_(k : 'I_n | (i <= k)%N) X k 0 ^+ 2.
Proof.
  move=> Hk Hx. rewrite (bigD1 k) //=. apply: ltr_paddr; first by apply: sumr_ge0 => j _; exact: sqr_ge0.
  by rewrite lt_def sqrf_eq0 Hx sqr_ge0.
Qed.
Lemma slen_ok n (i : 'I_n) (X : 'cV[F]_n) (k : 'I_n) : (i <= k)%N -> X k 0 != 0 ->
  [/\ slen i X ^+ 2 = \sum_(k : 'I_n | (i <= k)%N) X k 0 ^+ 2, 0 <= slen i X * X i 0 & slen i X != 0].
Proof.
  move=> Hk Hx. have P := tail_sum_nz Hk Hx. set s := \sum_(_ | _) _ in P *.
  have S2 : slen i X ^+ 2 = s. { rewrite /slen -/s Hcs ?sqrtr_ge0 //. by case: ifP => _; rewrite ?sqrrN sqr_sqrtr // ltW. }
  split=> //; last by rewrite -sqrf_eq0 S2 gt_eqF.
  rewrite /slen -/s Hcs ?sqrtr_ge0 //. case: ltP => L; last by rewrite mulr_ge0 // sqrtr_ge0.
  by rewrite mulNr oppr_ge0 mulr_ge0_le0 ?sqrtr_ge0 // ltW.
Qed.

(** One pass: both matrices are multiplied by the reflection for column i of R. *)
Lemma step_ok (Q R H : Mat.Matrix F) r c (MQ : 'M[F]_r) (MR : 'M[F]_(r, c)) (ir : 'I_r) (ic : 'I_c) g (k : 'I_r) :
  is_mx Q MQ -> is_mx R MR -> is_mat H r r g -> nat_of_ord ir = nat_of_ord ic -> (ir <= k)%N -> MR k ic != 0 ->
  let W := reflector (hcol ir (col ic MR) (slen ir (col ic MR))) in
  exists Q' R' H', [/\ qr_step Num.sqrt cs ic (Q, R, H) = Ok (Q', R', H'), is_mx Q' (MQ *m W), is_mx R' (W *m MR) & is_mx H' W].
Proof.
  move=> HQ HRm HH Ei Hk Hnz W. set X := col ic MR in W *.
  have HX : X k 0 != 0 by rewrite mxE.
  have [S1 S2 S3] := slen_ok Hk HX. have Hv := v0_nz S2 S3. have Hw := sqlen_nz S1 S2 S3.
  rewrite /qr_step. have [H0 [-> HH0]] := reset_ok HH. rewrite bindOk.
  have SQ := shape_mx (is_mx_reads HQ). have SR := shape_mx (is_mx_reads HRm).
  have Li : (ic < r)%N by rewrite -Ei. have Sr : is_size r by case: SQ.
  have Lic : (ic < r)%coq_nat by apply/ssrnat.ltP.
  have Lc : (ic < c)%coq_nat by apply/ssrnat.ltP.
  have Lm : (ic < N.to_nat size_max)%coq_nat by case: (size_max_gt Sr); lia.
  have [a [-> Ha]] := C24_extract_column (mb_of_mat R) r c (mxf MR) ic ic (N.to_nat size_max) (proj1 (is_mx_reads HRm)) Lm (Nat.lt_le_incl _ _ Lic) Lc.
  rewrite bindOk.
  have Er : (Nat.min r (N.to_nat size_max) - ic)%coq_nat = (r - ic).-1.+1.
    rewrite Nat.min_l; last by case: (size_max_gt Sr); lia. rewrite prednK // subn_gt0. exact: Li.
  rewrite Er in Ha.
  have Srr : shape_ok (r - ic).-1.+1 (r - ic).-1.+1.
    have Lr : ((r - ic).-1.+1 <= r)%coq_nat by rewrite prednK ?subn_gt0 //; apply/ssrnat.leP; rewrite leq_subr.
    have [Z1 [_ Z2]] := SQ. split; [|split]; [exact: (size_le _ _ Lr Z1)|exact: (size_le _ _ Lr Z1)|]. apply: (fits_le _ (r * r)%coq_nat) => //. nia.
  set m := (r - ic).-1 in Er Ha Srr.
  have Em : m.+1 = (r - ic)%N by rewrite /m prednK // subn_gt0.
  have mx_at : forall x : 'I_r, mxf MR x ic = X x 0 by move=> x; rewrite mxfE mxE.
  have f0 : mxf MR (ic + 0)%coq_nat ic = X ir 0 by rewrite -mx_at Ei; congr mxf; lia.
  have sumE : forall (G : F -> F), \sum_(x < m.+1) G (mxf MR (ic + x)%coq_nat ic) = \sum_(x : 'I_r | (ir <= x)%N) G (X x 0).
    move=> G. rewrite Em. rewrite (eq_bigr (fun x : 'I_r => G (mxf MR x ic))); last by move=> x _; rewrite mx_at.
    rewrite Ei (@tail_shift r ic (fun x => G (mxf MR x ic))); last exact: ltnW.
    apply: eq_bigr => x _. congr (G (mxf MR _ _)). by rewrite addnC.
  have := householder_ok Ha Srr. rewrite f0 (sumE (fun y => y ^+ 2)) -/(slen ir X).
  set sg := slen ir X in W S1 S2 S3 Hv Hw *. cbv zeta.
  pose w' : 'cV[F]_m.+1 := \col_(k < m.+1) (if k == 0 then 1 else mxf MR (ic + k)%coq_nat ic / (X ir 0 + sg)). rewrite -/w'.
  have wE : forall x : 'I_r, hcol ir X sg x 0 = if (x < ic)%N then 0 else if (x - ic)%N == 0%N then 1 else mxf MR (ic + (x - ic)%N)%coq_nat ic / (X ir 0 + sg).
    move=> x. rewrite mxE Ei. case: ltnP => L //. rewrite subn_eq0 -val_eqE /= Ei eqn_leq L andbT. case: leqP => // _.
    rewrite -mx_at. congr (mxf _ _ _ / _). apply/esym. exact: subnKC.
  have sqE : sqlen w' = sqlen (hcol ir X sg).
    rewrite /sqlen. have -> : \sum_k (hcol ir X sg) k 0 ^+ 2 = \sum_(x < r | (ic <= x)%N) (if (x - ic)%N == 0%N then 1 else mxf MR (ic + (x - ic)%N)%coq_nat ic / (X ir 0 + sg)) ^+ 2.
      rewrite [RHS]big_mkcond. apply: eq_bigr => x _. rewrite wE. case: ltnP => L //. by rewrite expr0n.
    rewrite (@tail_shift r ic (fun x => (if (x - ic)%N == 0%N then 1 else mxf MR (ic + (x - ic)%N)%coq_nat ic / (X ir 0 + sg)) ^+ 2)); last exact: ltnW.
    rewrite -Em. apply: eq_bigr => x _. rewrite mxE addnK -val_eqE. by [].
  rewrite sqE => /(_ Hv Hw) [h [-> Hh]]. rewrite bindOk.
  have [H1 [-> HH1]] : exists H', view_assign (corner ic) (fun _ => mb_of_mat h) H0 = Ok H' /\ is_mx H' W.
    apply: (@corner_ok _ h r ic W (mxf (reflector w'))) => //.
    - have -> : (r - ic)%coq_nat = m.+1 by rewrite Em. exact: (proj1 (is_mx_reads Hh)).
    - move=> a0 b0. rewrite /W reflectorE !wE.
      case: ltnP => La /=; first by rewrite mul0r mulr0 subr0.
      case: ltnP => Lb /=; first by rewrite !mulr0 subr0.
      have Ha0 : (a0 - ic < m.+1)%N by rewrite Em ltn_sub2r.
      have Hb0 : (b0 - ic < m.+1)%N by rewrite Em ltn_sub2r.
      rewrite -[(a0 - ic)%N in RHS]/(val (Ordinal Ha0)) -[(b0 - ic)%N in RHS]/(val (Ordinal Hb0)) mxfE reflectorE sqE.
      congr ((nat_of_bool _)%:R - _); first by rewrite -!val_eqE /= -[RHS](eqn_add2r ic) !subnK.
      by rewrite !mxE -!val_eqE.
  rewrite bindOk.
  have [q [-> Hq _]] := m_mul_mxL HO (is_mx_reads HQ) (is_mx_reads HH1) SQ. rewrite bindOk.
  have [r1 [-> Hr1 _]] := m_mul_mxL HO (is_mx_reads HH1) (is_mx_reads HRm) SR. rewrite bindOk.
  exists (mat_move_assign Q q).1, (mat_move_assign R r1).1, H1. split=> //.
  - by apply: (move_assign_ok _ _ _ _ _ _ _ _ HQ Hq); right.
  - by apply: (move_assign_ok _ _ _ _ _ _ _ _ HRm Hr1); right.
Qed.

Lemma clear_ok (R : Mat.Matrix F) r c (MR : 'M[F]_(r, c)) : is_mx R MR -> (forall (a : 'I_r) (b : 'I_c), (b < a)%N -> MR a b = 0) ->
  clear_lower R = Ok R.
Proof.
  move=> HM HU. have [Er [Ec _]] := HM. rewrite /clear_lower Er Ec.
  case: (leqP r 1) => Hr; first by rewrite for_range_empty //; apply/ssrnat.leP.
  have Hr' : (1 <= r)%coq_nat by apply/ssrnat.leP; exact: ltnW.
  have [|R' [-> HR']] := for_range_inv (fun _ X => is_mx X MR) 1 r (fun x R => for_range 0 (Nat.min x c) (fun y R => mat_set R x y o0) R) R Hr' HM.
    move=> x X [Hx1 Hx2] HX.
    have [|X' [-> HX']] := for_range_inv (fun _ X => is_mx X MR) 0 (Nat.min x c) (fun y R => mat_set R x y o0) X (Nat.le_0_l _) HX; last by exists X'.
    move=> y Y [_ Hy] HY. have Lx : (x < r)%N by apply/ssrnat.ltP. have Ly : (y < c)%N by apply/ssrnat.ltP; lia.
    have [Y' [-> HY']] := mat_set_ok Y r c _ x y o0 HY Hx2 (elimT ssrnat.ltP Ly). exists Y'. split=> //.
    apply: is_mat_ext; first exact: HY'. move=> a b Ha Hb. rewrite /fset !nateqbE. case: eqP => [->|//]. case: eqP => [->|//] /=.
    rewrite (o0E HO) -[x]/(val (Ordinal Lx)) -[y]/(val (Ordinal Ly)) mxfE HU //=. apply/ssrnat.ltP. lia.
  congr Ok. exact: is_mx_unique HR' HM.
Qed.
End QR.

(** * Spec: independent columns, upper triangular; independent columns leave something below every step *)
Section Rank.
Variable F : fieldType.
Definition indep r c (M : 'M[F]_(r, c)) : Prop := forall x : 'cV[F]_c, M *m x = 0 -> x = 0.
(** The first k columns are independent. *)
Definition indep_to r c (k : nat) (M : 'M[F]_(r, c)) : Prop :=
  forall x : 'cV[F]_c, (forall j : 'I_c, (k <= j)%N -> x j 0 = 0) -> M *m x = 0 -> x = 0.
Definition upper_to r c (k : nat) (M : 'M[F]_(r, c)) : Prop := forall (a : 'I_r) (b : 'I_c), (b < k)%N -> (b < a)%N -> M a b = 0.
Lemma wide_kernel n (B : 'M[F]_(n, n.+1)) : exists y : 'cV[F]_n.+1, B *m y = 0 /\ y != 0.
Proof.
  have : kermx B^T != 0. { rewrite -mxrank_eq0 mxrank_ker -lt0n subn_gt0 mxrank_tr. exact: leq_ltn_trans (rank_leq_row B) _. }
  move/rowV0Pn => [v /sub_kermxP Hv Nv]. exists v^T. split; last by rewrite trmx_eq0.
  by rewrite -[B]trmxK -trmx_mul Hv trmx0.
Qed.
Lemma tail_nz r c (M : 'M[F]_(r, c)) (ir : 'I_r) (ic : 'I_c) : nat_of_ord ir = nat_of_ord ic -> indep_to ic.+1 M -> upper_to ic M ->
  exists k : 'I_r, (ir <= k)%N /\ M k ic != 0.
Proof.
  move=> Ei Hi Hu. case: (pickP (fun k : 'I_r => (ir <= k)%N && (M k ic != 0))) => [k /andP [H1 H2]|H0]; first by exists k.
  exfalso. pose J : 'M[F]_(c, ic.+1) := pid_mx ic.+1.
  have Z : forall (a : 'I_r) b, (ic <= a)%N -> (M *m J) a b = 0.
    move=> a b La. rewrite mxE big1 // => k _. rewrite mxE. case: (ltngtP k ic) => Hk.
    - by rewrite Hu ?mul0r // (leq_trans Hk).
    - case: eqP => [E|_]; last by rewrite mulr0. have := ltn_ord b. by rewrite -E ltnS leqNgt Hk.
    - have -> : k = ic by exact: val_inj. have := H0 a. rewrite Ei La /= => /negbFE /eqP ->. by rewrite mul0r.
  have [y [Hy Ny]] := wide_kernel (pid_mx ic *m (M *m J)).
  have E : M *m J = (pid_mx ic : 'M_(r, ic)) *m (pid_mx ic *m (M *m J)).
    rewrite [RHS]mulmxA pid_mx_id //. apply/matrixP => a b. rewrite [RHS]mxE (bigD1 a) //= big1 ?addr0.
    - rewrite [pid_mx _ _ _]mxE eqxx /=. case: ltnP => L; first by rewrite mul1r. by rewrite mul0r Z.
    - move=> k Nk. rewrite [pid_mx _ _ _]mxE [(_ == _)]eq_sym val_eqE (negbTE Nk) /=. by rewrite mul0r.
  have HJ0 : forall j : 'I_c, (ic.+1 <= j)%N -> (J *m y) j 0 = 0.
    move=> j Lj. rewrite mxE big1 // => k _. rewrite mxE ltnNge Lj andbF mul0r. by [].
  have := Hi (J *m y) HJ0. rewrite mulmxA E -mulmxA Hy mulmx0 => /(_ erefl) HJ.
  move/negP: Ny; apply. apply/eqP. have : (pid_mx ic.+1 : 'M_(ic.+1, c)) *m (J *m y) = 0 by rewrite HJ mulmx0.
  by rewrite mulmxA pid_mx_id // pid_mx_1 mul1mx.
Qed.
End Rank.

Section Decomposition.
Variable F : rcfType.
Variable O : Ops F.
Hypothesis HR : realO O.
Let HF : fieldO O. Proof. by case: HR. Qed.
Let HO : ringO O. Proof. by case: HF. Qed.
Variable cs : F -> F -> F.
Hypothesis Hcs : forall x y, 0 <= x -> cs x y = if y < 0 then - x else x.

Lemma loop_ok (A Q H : Mat.Matrix F) r c (MA : 'M[F]_(r, c)) g K : is_mx A MA -> is_mx Q (1%:M : 'M[F]_r) -> is_mat H r r g ->
  (K <= r)%N -> (K <= c)%N -> indep_to K MA ->
  exists Q' R' H' (MQ : 'M[F]_r) (MR : 'M[F]_(r, c)) (g' : nat -> nat -> F),
   [/\ for_range 0 K (qr_step Num.sqrt cs) (Q, A, H) = Ok (Q', R', H'), is_mx Q' MQ, is_mx R' MR, is_mat H' r r g' &
    [/\ MQ^T *m MQ = 1%:M, MQ *m MR = MA & upper_to K MR]].
Proof.
  move=> HA HQ HH Kr Kc HI.
  have [| |[[Q' R'] H'] [E [MQ [MR [g' [P1 P2 P3 [P4 P5 P6]]]]]]] := for_range_inv (fun k s => let '(Q, R, H) := s in exists (MQ : 'M[F]_r) (MR : 'M[F]_(r, c)) (g' : nat -> nat -> F),
    [/\ is_mx Q MQ, is_mx R MR, is_mat H r r g' & [/\ MQ^T *m MQ = 1%:M, MQ *m MR = MA & upper_to k MR]]) 0 K (qr_step Num.sqrt cs) (Q, A, H) (Nat.le_0_l _).
  - exists 1%:M, MA, g. split=> //. by split=> //; rewrite ?trmx1 mul1mx.
  - move=> i [[Q1 R1] H1] [_ /ssrnat.ltP Hi] [MQ [MR [g1 [P1 P2 P3 [P4 P5 P6]]]]].
    pose ir := Ordinal (leq_trans Hi Kr). pose ic := Ordinal (leq_trans Hi Kc).
    have [k [Hk Nk]] : exists k : 'I_r, (ir <= k)%N /\ MR k ic != 0.
      apply: tail_nz => //= x Hx E. apply: HI; first by move=> j Hj; apply: Hx; exact: leq_trans Hi Hj. by rewrite -P5 -mulmxA E mulmx0.
    set X := col ic MR.
    have [Q2 [R2 [H2 [E Q2m R2m H2m]]]] := step_ok HR Hcs P1 P2 P3 (erefl : nat_of_ord ir = nat_of_ord ic) Hk Nk.
    have HX : X k 0 != 0 by rewrite mxE. have [S1 S2 S3] := slen_ok Hcs Hk HX. have Hw := sqlen_nz S1 S2 S3.
    set W := reflector _ in Q2m R2m H2m.
    exists (Q2, R2, H2). split; first exact: E. exists (MQ *m W), (W *m MR), (mxf W).
    have Ws : W^T = W by exact: reflector_sym. have W2 : W *m W = 1%:M by exact: reflector_sq.
    split=> //. split.
    + by rewrite trmx_mul Ws mulmxA -[W *m _ *m _]mulmxA P4 mulmx1.
    + by rewrite mulmxA -[MQ *m W *m W]mulmxA W2 mulmx1.
    + move=> a b Hb Hab. have -> : (W *m MR) a b = (W *m col b MR) a 0 by rewrite !mxE; apply: eq_bigr => j _; rewrite [col _ _ _ _]mxE.
      move: Hb. rewrite ltnS leq_eqVlt => /orP [/eqP Eb|Lb].
      * have -> : b = ic by exact: val_inj. rewrite (reflector_col S1 S2 S3) ltnNge ltnW /=; last by rewrite -Eb.
        case: eqP => // Ea. by move: Hab; rewrite Eb Ea ltnn.
      * rewrite reflector_keep; first by rewrite mxE P6.
        move=> j Hj. rewrite mxE P6 //. exact: leq_trans Lb Hj.
  - by exists Q', R', H', MQ, MR, g'.
Qed.

(** C96.  A matrix with independent columns and at least as many rows as columns:
    Q is orthogonal, R is upper triangular with no zero on its diagonal, and Q * R = A. *)
Theorem C96_qr (A : Mat.Matrix F) r c (MA : 'M[F]_(r, c)) : is_mx A MA -> (0 < c <= r)%N -> shape_ok r r -> indep MA ->
  exists q u (MQ : 'M[F]_r) (MR : 'M[F]_(r, c)),
   [/\ qr_decomposition Num.sqrt cs A = Ok (q, u), is_mx q MQ, is_mx u MR &
    [/\ MQ^T *m MQ = 1%:M, MQ *m MR = MA, (forall (a : 'I_r) (b : 'I_c), (b < a)%N -> MR a b = 0) & (forall (a : 'I_r) (b : 'I_c), b = a :> nat -> MR a b != 0)]].
Proof.
  move=> HA /andP [Hc Hcr] Sr HI. have [Er [Ec _]] := HA. have Hr := leq_trans Hc Hcr.
  rewrite /qr_decomposition (mat_copy_ok _ _ _ _ HA) bindOk Er Ec.
  have [J [EJ HJ _]] := identity_mx HO Hr Sr. rewrite -[eye _ _ _]/(identity r (o1 : F)) EJ bindOk.
  have [H0 [-> HH]] := mat_new_ok r r o0 Sr. rewrite bindOk.
  have [Z1 [Z2 _]] := shape_mx (is_mx_reads HA).
  set d := (if _ then _ else _).
  have Hd : sub64 c d = (c - d)%N.
    rewrite sub64_small //. rewrite /d. move/ssrnat.ltP: Hc. case: ifP => _ ?; lia.
  rewrite Hd.
  have HIt : indep_to (c - d) MA by move=> x _; exact: HI.
  have Kc : (c - d <= c)%N by exact: leq_subr.
  have [Q' [R' [H' [MQ [MR [g' [-> P1 P2 _ [P4 P5 P6]]]]]]]] := loop_ok HA HJ HH (leq_trans Kc Hcr) Kc HIt.
  rewrite bindOk.
  have HU : forall (a : 'I_r) (b : 'I_c), (b < a)%N -> MR a b = 0.
    move=> a b Hab. case: (ltnP b (c - d)) => Hb; first exact: P6. exfalso. move: Hb Hab. rewrite /d nateqbE.
    case: eqP => [E|_] Hb Hab; last by move: (ltn_ord b); rewrite ltnNge; rewrite subn0 in Hb; rewrite Hb.
    rewrite leq_subLR add1n in Hb. move: (leq_ltn_trans (leq_trans Hb Hab) (ltn_ord a)). by rewrite E ltnn.
  rewrite (clear_ok HR P2 HU) bindOk.
  exists Q', R', MQ, MR. split=> //. split=> // a b E.
  have HIR : indep_to b.+1 MR by move=> x _ Ex; apply: HI; rewrite -P5 -mulmxA Ex mulmx0.
  have [k [Hk Nk]] := tail_nz (esym E) HIR (fun x y _ Hxy => HU x y Hxy).
  case: (ltngtP a k) => Hak; [by move/eqP: Nk; case; apply: HU; rewrite E|by move: Hk; rewrite leqNgt Hak|].
  by have -> : a = k by exact: val_inj.
Qed.
(** More columns than rows: after the last row the code reads the first element of an
    empty vector. *)
Theorem C96_wide_undefined (A : Mat.Matrix F) r c (MA : 'M[F]_(r, c)) : is_mx A MA -> (0 < r < c)%N -> shape_ok r r -> indep_to r MA ->
  qr_decomposition Num.sqrt cs A = UB.
Proof.
  move=> HA /andP [Hr Hrc] Sr HI. have [Er [Ec _]] := HA.
  rewrite /qr_decomposition (mat_copy_ok _ _ _ _ HA) bindOk Er Ec.
  have [J [EJ HJ _]] := identity_mx HO Hr Sr. rewrite -[eye _ _ _]/(identity r (o1 : F)) EJ bindOk.
  have [H0 [-> HH]] := mat_new_ok r r o0 Sr. rewrite bindOk.
  have [Z1 [Z2 _]] := shape_mx (is_mx_reads HA).
  have -> : sub64 c (if Nat.eqb c r then 1%N else 0%N) = c.
    rewrite nateqbE gtn_eqF // sub64_small ?Nat.sub_0_r //. lia.
  have Lrc : (r < c)%coq_nat by apply/ssrnat.ltP.
  rewrite (for_range_split 0 r c) //; [|lia|lia].
  have [Q' [R' [H' [MQ [MR [g' [-> P1 P2 P3 _]]]]]]] := loop_ok HA HJ HH (leqnn r) (ltnW Hrc) HI.
  rewrite bindOk for_range_first // {1}/qr_step. have [H1 [-> _]] := reset_ok HR P3. rewrite bindOk.
  have Lm : (r < N.to_nat size_max)%coq_nat by case: (size_max_gt Z2); lia.
  have [a [-> Ha]] := C24_extract_column (mb_of_mat R') r c (mxf MR) r r (N.to_nat size_max) (proj1 (is_mx_reads P2)) Lm (Nat.le_refl _) Lrc.
  rewrite bindOk. rewrite (Nat.min_l _ _ (Nat.lt_le_incl _ _ Lm)) Nat.sub_diag in Ha. have [La _] := Ha.
  by case: a La {Ha}.
Qed.
(** An empty matrix is rejected. *)
Theorem C96_empty_throws (A : Mat.Matrix F) c f : is_mat A 0 c f -> qr_decomposition Num.sqrt cs A = Throw.
Proof. move=> HA. have [Er [Ec _]] := HA. by rewrite /qr_decomposition (mat_copy_ok _ _ _ _ HA) bindOk Er. Qed.
End Decomposition.
