(** PropConverge.v: matrices for which the iteration of eigen::QRHessenberg converges (C110), with the repairs of Eigen.v.
    Exact complex arithmetic. *)
From Verif Require Import MathFacts MatFacts Util UtilFacts2 PropUtil PropMath MathM ControlFacts RingM DetFacts PropRing PropReal PropControl PropControl2 QR PropQR Complex Eigen PropEigen.
From mathcomp Require Import all_ssreflect all_algebra realalg complex.
From Verif Require Import EigenMath PropHess PropHess2 PropGivens PropSchur PropSchurRun PropEigenEx.
Set Implicit Arguments.
Unset Strict Implicit.
Unset Printing Implicit Defensive.
Import Order.Theory GRing.Theory Num.Theory.
Local Open Scope ring_scope.

Section Pass.
Variables (K : numClosedFieldType) (n : nat) (e : K).
Hypothesis e0 : 0 < e.
Implicit Types T Q R : 'M[K]_n.
(** The factors of a Hessenberg matrix M without zeros just below its diagonal. *)
Lemma unreduced M Q R : M = Q *m R -> hessenberg_form M -> (forall a b : 'I_n, nat_of_ord a = b.+1 -> M a b != 0) ->
  (forall a b : 'I_n, (b < a)%N -> R a b = 0) -> forall i : 'I_n, (i.+1 < n)%N -> R i i != 0 /\ forall a : 'I_n, (i.+1 < a)%N -> Q a i = 0.
Proof.
  move=> EM HM HB HR i. have [m Lm] := ubnP (nat_of_ord i). elim: m i Lm => [//|m IH] i Lm Li.
  have EA (a : 'I_n) : (i < a)%N -> M a i = Q a i * R i i.
    move=> La. rewrite EM mxE (bigD1 i) //= big1 ?addr0 // => k Nk. case: (ltngtP k i) => Lk.
    - have [||_ Qz] := IH k; [exact: leq_trans Lk _|by apply: leq_ltn_trans Lk _; exact: ltnW|].
      by rewrite Qz ?mul0r //; exact: leq_ltn_trans La.
    - by rewrite HR ?mulr0.
    - by case/negP: Nk; apply/eqP/ord_inj.
  have N : R i i != 0.
    have := HB (Ordinal Li) i erefl. rewrite EA //=. apply: contra => /eqP ->. by rewrite mulr0.
  split=> // a La. have := EA a (ltnW La). rewrite HM // => /esym /eqP. by rewrite mulf_eq0 (negbTE N) orbF => /eqP.
Qed.
Lemma shift_hess T mu : hessenberg_form T -> hessenberg_form (T - mu%:M).
Proof. move=> H a b L. rewrite !mxE H // -val_eqE /= gtn_eqF ?mulr0n ?subrr //. exact: ltnW. Qed.
(** A pass from a Hessenberg matrix whose elements just below the diagonal are not smaller than epsilon leads to a
    Hessenberg matrix. *)
Theorem C110_pass_hessenberg mu T T' Q : qr_pass e mu T T' Q -> hessenberg_form T -> (forall a b : 'I_n, nat_of_ord a = b.+1 -> e <= `|T a b|) ->
  hessenberg_form T'.
Proof.
  move=> [R [UQ EQ -> HR _]] HT HB. have [_ /(_ HB) Z] := HR HT. move=> a b L.
  have NB (c d : 'I_n) : nat_of_ord c = d.+1 -> (T - mu%:M) c d != 0.
    move=> E. rewrite !mxE -val_eqE /= E gtn_eqF // mulr0n subr0 -normr_eq0 gt_eqF //. exact: lt_le_trans (HB _ _ E).
  have Q0 := unreduced EQ (shift_hess mu HT) NB Z.
  rewrite mxE [X in _ + X]mxE -val_eqE /= gtn_eqF ?mulr0n ?addr0; last exact: ltnW.
  rewrite mxE big1 // => k _. case: (ltnP k a) => Lk; first by rewrite Z ?mul0r.
  have [|_ Qz] := Q0 b; first exact: leq_trans L (ltnW (ltn_ord a)). by rewrite Qz ?mulr0 //; exact: leq_trans Lk.
Qed.
(** If besides the shift is an eigenvalue of T, its last row is zero but for the shift, in the last column. *)
Theorem C110_deflates mu T T' Q : qr_pass e mu T T' Q -> hessenberg_form T -> (forall a b : 'I_n, nat_of_ord a = b.+1 -> e <= `|T a b|) ->
  eigenvalue T mu -> forall a b : 'I_n, a.+1 = n -> T' a b = if b == a then mu else 0.
Proof.
  move=> [R [UQ EQ -> HR _]] HT HB HE a b Ea. have [_ /(_ HB) Z] := HR HT.
  have NB (c d : 'I_n) : nat_of_ord c = d.+1 -> (T - mu%:M) c d != 0.
    move=> E. rewrite !mxE -val_eqE /= E gtn_eqF // mulr0n subr0 -normr_eq0 gt_eqF //. exact: lt_le_trans (HB _ _ E).
  have D0 : \det (T - mu%:M) = 0.
    have [v Ev Nv] := eigenvalueP HE. apply/eqP. apply/det0P. exists v => //. by rewrite mulmxBr Ev mul_mx_scalar subrr.
  have DR : \det R = 0.
    apply/eqP. move: D0. rewrite EQ det_mulmx => /eqP. rewrite mulf_eq0 => /orP [/eqP D|//].
    have := congr1 determinant UQ. by rewrite det_mulmx D mulr0 det1 => /eqP; rewrite eq_sym oner_eq0.
  have Ra : R a a = 0.
    have Tr : is_trig_mx R^T by apply/is_trig_mxP => i j L; rewrite mxE Z.
    have : \prod_i (R^T i i) = 0 by rewrite -(det_trig Tr) det_tr. move/eqP. rewrite prodf_seq_eq0 => /hasP [i _ /=]. rewrite mxE => /eqP Ri.
    case: (ltnP i.+1 n) => Li; first by have [+ _] := unreduced EQ (shift_hess mu HT) NB Z Li; rewrite Ri eqxx.
    have -> : a = i by apply: ord_inj; apply/eqP; rewrite -eqSS Ea eqn_leq Li ltn_ord. exact: Ri.
  have Rz k : R a k = 0.
    case: (ltngtP k a) => L; first by rewrite Z.
    - have := ltn_ord k. by rewrite -[X in (_ < X)%N]Ea ltnS leqNgt L.
    - by rewrite -[RHS]Ra; congr (R a _); apply: ord_inj.
  rewrite mxE [X in X + _]mxE big1 => [|k _]; last by rewrite Rz mul0r. rewrite add0r mxE eq_sym. by case: eqP.
Qed.
(** A pass from a matrix whose elements just below the diagonal are all smaller than epsilon changes nothing. *)
Theorem C110_pass_idle mu T T' Q : qr_pass e mu T T' Q -> (forall a b : 'I_n, nat_of_ord a = b.+1 -> `|T a b| < e) -> T' = T /\ Q = 1%:M.
Proof. move=> [R [_ EQ -> _ HQ]] HB. have E := HQ HB. split=> //. by rewrite E mulmx1 -[R]mul1mx -{1}E -EQ subrK. Qed.
End Pass.

Section Converge.
Variables (K : numClosedFieldType) (U : rcfType) (emb : {rmorphism U -> K}) (OC : Ops K) (OU : Ops U).
Variables (cnorm cabs : K -> U) (conj : K -> K) (ofr : U -> K).
Hypothesis HC : complexO emb OC OU cnorm cabs conj ofr.
Let HF : fieldO OC. Proof. by case: HC. Qed.
Let HO : ringO OC. Proof. by case: HF. Qed.
Let Hnorm z : emb (cnorm z) = `|z| ^+ 2. Proof. by case: HC => _ _ _ []. Qed.
Let Habs z : emb (cabs z) = `|z|. Proof. by case: HC => _ _ _ []. Qed.
Variables (eps : U) (shift : Mat.Matrix K -> Res K) (tolerance : U).
Hypothesis eps_gt0 : 0 < eps.
Let eps_gt0' : 0 < emb eps. Proof. by rewrite -(rmorph0 emb) (emb_lt HC). Qed.

Lemma hv0 n (e : 'I_n) : hv emb cnorm cabs eps (0 : 'cV[K]_n) e = 0.
Proof.
  rewrite /hv. have -> : clen cnorm (0 : 'cV[K]_n) = 0 by rewrite /clen big1 ?sqrtr0 // => i _; rewrite mxE (cnorm0 HC).
  by rewrite rmorph0 mulr0 scale0r subr0.
Qed.
Lemma refl0 n (M : 'M[K]_n) (k e : 'I_n) : (forall i : 'I_n, (k < i)%N -> M i k = 0) -> refl (hu emb cnorm cabs eps M k e) = 1%:M.
Proof.
  move=> Z. have E : hcolk M k = 0 by apply/matrixP => i j; rewrite !mxE; case: ifP => // /Z.
  rewrite /hu E hv0 scaler0. apply/matrixP => a b. by rewrite reflE !mxE mulr0 mul0r subr0.
Qed.
(** The Hessenberg form of an upper triangular matrix is that matrix. *)
Theorem C110_hessenberg_triangular (A : Mat.Matrix K) n (MA : 'M[K]_n) : (0 < n)%N -> is_mx A MA -> (forall a b : 'I_n, (b < a)%N -> MA a b = 0) ->
  exists P H, [/\ hessenberg cnorm cabs conj ofr Num.sqrt eps A = Ok (P, H), is_mx P (1%:M : 'M[K]_n) & is_mx H MA].
Proof.
  move=> Hn HA Hz. have Hs := shape_mx (is_mx_reads HA). have [Er _] := HA. rewrite /hessenberg Er.
  have [J [-> HJ _]] := identity_mx HO Hn Hs. rewrite bindOk (mat_copy_ok _ _ _ _ HA) bindOk.
  have [||[P H] [E [/= H1 H2]]] := for_range_inv (fun _ (s : Mat.Matrix K * Mat.Matrix K) => is_mx s.1 (1%:M : 'M[K]_n) /\ is_mx s.2 MA)
    0 (n - 2)%coq_nat (hess_step cnorm cabs conj ofr Num.sqrt eps n) (J, A) (Nat.le_0_l _).
  - by [].
  - move=> k [P H] [_ Hk] [/= HP HH]. have Lk : (k < n)%N by apply/ssrnat.ltP; lia. have Le : (k.+1 < n)%N by apply/ssrnat.ltP; lia.
    have [P' [H' [Es HP' HH']]] := hess_step_ok HC eps_gt0 (k := Ordinal Lk) (e := Ordinal Le) HP HH erefl.
    rewrite refl0 ?mulmx1 ?mul1mx in HP' HH'; last by move=> i; exact: Hz. by exists (P', H').
  by exists P, H.
Qed.
Lemma subn_upper n (M : 'M[K]_n) : (forall a b : 'I_n, (b < a)%N -> M a b = 0) -> subn cnorm M = 0.
Proof. move=> Z. by rewrite /subn big1 ?sqrtr0 // => i _; rewrite big1 // => j L; rewrite Z // (cnorm0 HC). Qed.
Lemma residual_same n (M : 'M[K]_n) : residual cnorm M M = subn cnorm M.
Proof. by rewrite /residual subrr /frobenius big1 ?sqrtr0 ?add0r // => i _; rewrite big1 // => j _; rewrite mxE (cnorm0 HC). Qed.

(** An upper triangular matrix of any order: one pass, no warning, HM = I and UT = A. *)
Theorem C110_triangular itermax (A : Mat.Matrix K) n (MA : 'M[K]_n) : (0 < n)%N -> is_mx A MA -> (forall a b : 'I_n, (b < a)%N -> MA a b = 0) ->
  (1 < itermax)%N -> 0 <= tolerance < 1 -> (forall (X : Mat.Matrix K) (MX : 'M[K]_n), is_mx X MX -> exists mu, shift X = Ok mu) ->
  exists HM UT, [/\ QRHessenberg cnorm cabs conj ofr Num.sqrt eps shift tolerance itermax A = Ok (HM, UT, false), is_mx HM (1%:M : 'M[K]_n) & is_mx UT MA].
Proof.
  move=> Hn HA Hz Hi /andP [t0 t1] HS.
  have [P1 [H1 [EH HP1 HH1]]] := C110_hessenberg_triangular Hn HA Hz.
  have [P0 [T0 [HM [UT [w [k [P [T [E1 E2 E3 _ [E4 E5 E6 E7 [E8 E9 E10 E11]]]]]]]]]]] := C98_passes HC tolerance eps_gt0 itermax Hn HA HS.
  move: E1. rewrite EH => -[EP ET]. rewrite -ET in E3. rewrite -EP in E2. have TA := is_mx_fun HH1 E3. have PI := is_mx_fun HP1 E2.
  have S j : (j <= k)%N -> P j = 1%:M /\ T j = MA.
    elim: j => [//|j IH] Lj. have [IP IT] := IH (ltnW Lj). have [X [mu [Q [_ _ Hp ->]]]] := E7 j Lj.
    have [|-> ->] := C110_pass_idle Hp; last by rewrite IP mulmx1.
    move=> a b Ea. by rewrite IT Hz ?normr0 // Ea.
  have R0 j : (j < k)%N -> residual_at cnorm 1 T j.+1 = 0.
    move=> Lj. have [_ e1] := S j (ltnW Lj). have [_ e2] := S j.+1 Lj. by rewrite /= e1 e2 residual_same subn_upper.
  have K1 : k = 1%N.
    case: k E4 E5 E6 E7 E8 E9 E10 E11 S R0 => [|[|k]] E4 E5 E6 E7 E8 E9 E10 E11 S R0 //.
    - have := E10. by rewrite subn_gt0 Hi /= leNgt t1 => /(_ isT).
    - have := E8 1%N isT. by rewrite R0 // ltNge t0.
  subst k. have [SP ST] := S 1%N isT. rewrite SP in E5. rewrite ST in E6. exists HM, UT. split=> //. by rewrite E4 E11 R0 // ltNge t0.
Qed.

(** Two rows, epsilon at most the tolerance, and a shift of A that is an eigenvalue of A of modulus at least epsilon (or the
    element below the diagonal smaller than epsilon): two passes at most, no warning.  UT is A if its element below the
    diagonal is smaller than epsilon; else UT is upper triangular with that eigenvalue in its last place. *)
Theorem C110_order2 itermax (A : Mat.Matrix K) (MA : 'M[K]_2) mu : is_mx A MA -> (2 < itermax)%N -> eps <= tolerance < 1 ->
  (forall (X : Mat.Matrix K) (MX : 'M[K]_2), is_mx X MX -> exists nu, shift X = Ok nu) ->
  shift A = Ok mu -> eigenvalue MA mu -> `|MA 1 0| < emb eps \/ emb eps <= `|mu| ->
  exists HM UT (MH MU : 'M[K]_2), [/\ QRHessenberg cnorm cabs conj ofr Num.sqrt eps shift tolerance itermax A = Ok (HM, UT, false), is_mx HM MH, is_mx UT MU &
    [/\ unitary MH, MA = MH *m MU *m adj MH & if `|MA 1 0| < emb eps then MH = 1%:M /\ MU = MA else MU 1 0 = 0 /\ MU 1 1 = mu]].
Proof.
  move=> HA Hi /andP [t0 t1] HS Hmu Hev Hcase.
  have [P0 [T0 [HM [UT [w [k [P [T [E1 E2 E3 _ [E4 E5 E6 E7 [E8 E9 E10 E11]]]]]]]]]]] := C98_passes HC tolerance eps_gt0 itermax (ltn0Sn 1) HA HS.
  have Hs := shape_mx (is_mx_reads HA). have [Er _] := HA. have [J [EJ HJ _]] := identity_mx HO (ltn0Sn 1) Hs.
  move: E1. rewrite /hessenberg Er EJ bindOk (mat_copy_ok _ _ _ _ HA) bindOk => -[EP ET].
  rewrite -ET in E3. rewrite -EP in E2. have TA := is_mx_fun E3 HA. have PI := is_mx_fun E2 HJ. clear P0 T0 EP ET E2 E3.
  have te : 0 <= tolerance by exact: le_trans (ltW eps_gt0) t0.
  have K0 : (0 < k)%N by case: k E10 {E4 E5 E6 E7 E8 E9 E11} => //= /(_ _); rewrite subn_gt0 (ltn_trans _ Hi) // leNgt t1 => /(_ isT).
  have sub2 (M : 'M[K]_2) : emb (subn cnorm M) = `|M 1 0|.
    rewrite /subn !big_ord_recl !big_ord0 !addr0. have -> : lift ord0 ord0 = 1 :> 'I_2 by exact: val_inj.
    rewrite big_pred0 ?add0r => [|i]; last by rewrite ltn0. rewrite (bigD1 0) //= big1 ?addr0 => [|i /andP [L /negP N]]; last by case: i L N => [[|[|i]] Li].
    apply/eqP. rewrite -(@eqr_expn2 _ 2) //; last by rewrite -(rmorph0 emb) (emb_le HC) sqrtr_ge0.
    by rewrite -rmorphX /= sqr_sqrtr ?(cnorm_ge0 HC) // Hnorm.
  have low (M : 'M[K]_2) (a b : 'I_2) : nat_of_ord a = b.+1 -> M a b = M 1 0 by case: a b => [[|[|a]] La] // [[|[|b]] Lb] //= _; congr (M _ _); exact: val_inj.
  have idle j : (j < k)%N -> `|T j 1 0| < emb eps -> [/\ T j.+1 = T j, P j.+1 = P j & k = j.+1].
    move=> Lj L. have [X [nu [Q [_ _ Hp Ep]]]] := E7 j Lj. have [|ET EQ] := C110_pass_idle Hp; first by move=> a b Ea; rewrite (low _ _ _ Ea).
    split=> //; first by rewrite Ep EQ mulmx1. apply/eqP. rewrite eqn_leq Lj andbT leqNgt. apply/negP => L2.
    have := E8 j.+1 L2. rewrite /= ET residual_same ltNge -(emb_le HC) sub2. case/negP. apply: (le_trans (ltW L)). by rewrite (emb_le HC).
  have [X [nu [Q [HX EX Hp Ep]]]] := E7 0%N K0. rewrite TA in HX. move: EX. rewrite (is_mat_unique _ _ _ _ _ HX HA) Hmu => -[En]. rewrite -{}En in Hp.
  rewrite TA in Hp. case: (boolP (`|MA 1 0| < emb eps)) => L10.
  - have [|T1 P1 K1] := idle 0%N K0; first by rewrite TA. rewrite K1 in E4 E5 E6 E11. rewrite P1 PI in E5. rewrite T1 TA in E6.
    exists HM, UT, 1%:M, MA. split=> //; last by split=> //; [exact: unitary1|rewrite mul1mx adj1 mulmx1].
    rewrite E4 E11 /= T1 TA residual_same. congr (Ok (_, _, _)). apply/negbTE. rewrite -leNgt -(emb_le HC) sub2. apply: (le_trans (ltW L10)). by rewrite (emb_le HC).
  - have R01 x y : x \is Num.real -> ~~ (`|y : K| < x) -> x <= `|y| by move=> rx; rewrite real_leNgt // normr_real.
    have Hx : emb eps <= `|MA 1 0| by apply: R01 => //; exact: (emb_real HC).
    have Eu : used_shift cabs eps mu = mu.
      case: Hcase => [L|L]; first by rewrite L in L10. by rewrite /used_shift ltNge -(emb_le HC) Habs L.
    rewrite Eu in Hp. have HB (a b : 'I_2) : nat_of_ord a = b.+1 -> emb eps <= `|MA a b| by move=> E; rewrite (low _ _ _ E).
    have HH : hessenberg_form MA by case=> [[|[|a]] La] // [[|[|b]] Lb].
    have D := C110_deflates eps_gt0' Hp HH HB Hev (a := 1) _ erefl.
    have T10 : T 1%N 1 0 = 0 by rewrite D. have T11 : T 1%N 1 1 = mu by rewrite D.
    have UQ : unitary Q by case: Hp => R0 [].
    have EA : MA = Q *m T 1%N *m adj Q.
      case: Hp => R0 [_ EQ -> _ _]. rewrite mulmxDr mulmxDl mulmxA -EQ -[X in X + _]mulmxA (unitaryC UQ) mulmx1.
      by rewrite scalar_mxC -mulmxA (unitaryC UQ) mulmx1 subrK.
    rewrite PI mul1mx in Ep.
    have [TK PK] : T k = T 1%N /\ P k = P 1%N.
      case: k K0 {E4 E5 E6 E7 E8 E9 E10 E11} idle => [//|[|k]] _ idle //. have [//||e1 e2 [e3]] := idle 1%N; first by rewrite T10 normr0.
      by rewrite e3 e1 e2.
    rewrite TK in E6. rewrite PK Ep in E5. exists HM, UT, Q, (T 1%N). split=> //. rewrite E4 E11. congr (Ok (_, _, _)). apply/negbTE. rewrite -leNgt.
    case: k K0 {E4 E5 E6 E7 E11} idle E8 E9 E10 TK PK => [//|[|k]] _ idle E8 E9 E10 TK PK.
    + apply: E10. by rewrite ltn_subRL.
    + have [//||e1 e2 [e3]] := idle 1%N; first by rewrite T10 normr0. subst k. by rewrite /= e1 residual_same -(emb_le HC) sub2 T10 normr0 -(rmorph0 emb) (emb_le HC).
Qed.
End Converge.
