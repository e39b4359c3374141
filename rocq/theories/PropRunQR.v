(** PropRunQR.v: C125.  How far the QR decomposition of a matrix of doubles is from the exact
    one over the real numbers: the same function, run on pairs of a centre and a bound. *)
From Coq Require Import ZArith QArith Qabs Lqa SpecFloat.
From Verif Require Import LinalgFacts2 MathFacts RingM DetFacts PropReal QR Rel RelQR PropRel PropRelInt PropRelQR PropQR PropQR2 PropQREx Float PropFloat PropFloatIO PropFloatSum PropFloatCmp FloatLoop PropFloatLin PropFloatNorm PropQRFloat QDet PropRunErr RunQR.
From mathcomp Require Import all_ssreflect all_algebra all_real_closed.
Set Implicit Arguments.
Unset Strict Implicit.
Unset Printing Implicit Defensive.
Import Order.Theory GRing.Theory Num.Theory.
Local Open Scope ring_scope.
Delimit Scope Z_scope with ZZ.
Delimit Scope Q_scope with QQ.
Local Notation double := SpecFloat.spec_float.
Local Notation proper := PropFloatCmp.proper.

(** * Specification *)
Section Spec.
Variable F : rcfType.
(** Exact arithmetic in a real closed field; x / 0 is 0. *)
Definition fieldops : Ops F := {|
  o0 := 0; o1 := 1; oadd := +%R; osub := fun a b => a - b; omul := *%R; oopp := -%R; odiv := fun a b => Ok (a / b);
  oeq := fun a b => a == b; olt := fun a b => a < b; ole := fun a b => a <= b; ofeq := fun a b => a == b; oisz := fun a => a == 0; oabs := fun a => `|a|; ofnat := fun n => n%:R |}.
(** The exact number lies within the bound of the centre. *)
Definition contains (b : bounded) (x : F) : Prop := match b with None => Logic.True | Some (c, e) => `|x - qr F c| <= qr F e end.
(** The value of a finite double. *)
Definition dreal (d : double) : F := qr F (dval d).
(** Where there is a bound, the double is finite and within twice the bound of the exact number. *)
Definition near1 (b : bounded) (d : double) (x : F) : Prop := forall c e, b = Some (c, e) -> proper d /\ `|dreal d - x| <= 2%:R * qr F e.
Definition near (c : seq bounded) (d : seq double) (x : seq F) : Prop := size c = size d /\ size c = size x /\
  forall i, (i < size c)%N -> near1 (nth None c i) (nth nan d i) (nth 0 x i).
Definition near_m (c : Mat.Matrix bounded) (d : Mat.Matrix double) (x : Mat.Matrix F) : Prop :=
  [/\ Mat.rows c = Mat.rows d, Mat.cols c = Mat.cols d, Mat.rows c = Mat.rows x, Mat.cols c = Mat.cols x & near (data c) (data d) (data x)].

(** * Rational numbers in a field *)
Local Notation q_ := (qr F).
Lemma qr_sub p q : q_ (p - q)%QQ = q_ p - q_ q. Proof. by rewrite /Qminus qr_add qr_opp. Qed.
Lemma zr_pos p : 0 < zr F (Zpos p). Proof. rewrite /= ltr0n. apply/ssrnat.ltP. exact: Pos2Nat.is_pos. Qed.
Lemma qr_ge0 p : (0 <= p)%QQ -> 0 <= q_ p.
Proof. rewrite /Qle /qr /= Z.mul_1_r => H. apply: divr_ge0; last exact: ltW (zr_pos _). case: (Qnum p) H => [|a|a] //= H; exact: ler0n. Qed.
Lemma qr_le p q : (p <= q)%QQ -> q_ p <= q_ q.
Proof. move=> H. rewrite -subr_ge0 -qr_sub. apply: qr_ge0. lra. Qed.
Lemma qr_lt p q : (p < q)%QQ -> q_ p < q_ q.
Proof. move=> H. rewrite lt_neqAle qr_le ?andbT; last lra. apply/eqP => /qr_inj. lra. Qed.
Lemma qr_le_inv p q : q_ p <= q_ q -> (p <= q)%QQ.
Proof. move=> H. case: (Qlt_le_dec q p) => // /qr_lt. by rewrite ltNge H. Qed.
Lemma qr_abs p : q_ (Qabs p) = `|q_ p|.
Proof.
  case: (Qlt_le_dec p 0) => H.
  - rewrite ler0_norm; last by rewrite -(qr0 F); apply: qr_le; lra. rewrite -qr_opp. apply: qr_wd. apply: Qabs_neg. lra.
  - rewrite ger0_norm; last exact: qr_ge0. apply: qr_wd. exact: Qabs_pos.
Qed.
Lemma qr_neq0 p : ~ (p == 0)%QQ -> q_ p != 0. Proof. move=> N. apply/eqP => E. apply: N. apply: (@qr_inj F). by rewrite qr0. Qed.
Lemma qr_div p q : ~ (q == 0)%QQ -> q_ (p / q)%QQ = q_ p / q_ q.
Proof.
  move=> N. apply: (mulIf (qr_neq0 N)). rewrite divfK ?qr_neq0 // -qr_mul. apply: qr_wd. field. exact: N.
Qed.

(** * The bounds contain the exact numbers *)
Lemma dist_ge0 x c e : `|x - q_ c| <= q_ e -> (0 <= e)%QQ.
Proof. move=> H. apply: qr_le_inv. rewrite qr0. exact: le_trans (normr_ge0 _) H. Qed.
Lemma wide_contains v b x : `|x - q_ v| <= q_ b -> contains (wide v b) x.
Proof.
  move=> H. rewrite /wide. case: (Qle_bool _ _) => //. cbv zeta. move: (RunQR.short _ v) => c. rewrite /contains. apply: le_trans (qr_le (short_up_le _ _)). rewrite !qr_add.
  have -> : x - q_ c = (x - q_ v) + q_ (v - c)%QQ by rewrite qr_sub addrA subrK. apply: le_trans (ler_norm_add _ _) _. rewrite -qr_abs -!addrA. apply: ler_add => //. rewrite ler_addl. rewrite -qr_add. apply: qr_ge0.
  have B := dist_ge0 H. have A := Qabs_nonneg v. have U : (0 <= unit * (Qabs v + b))%QQ by apply: Qmult_le_0_compat; [discriminate|lra]. have T : (0 <= small)%QQ by discriminate. lra.
Qed.
Lemma mul_dist (x y a b ea eb : F) : `|x - a| <= ea -> `|y - b| <= eb -> `|x * y - a * b| <= `|a| * eb + ea * `|b| + ea * eb.
Proof.
  move=> Hx Hy. have -> : x * y - a * b = a * (y - b) + (x - a) * b + (x - a) * (y - b).
    rewrite -addrA -mulrDr [b + _]addrC subrK mulrBr mulrBl. by rewrite [RHS]addrC addrA subrK.
  apply: le_trans (ler_norm_add _ _) _. rewrite !normrM. apply: ler_add; last by apply: ler_pmul.
  apply: le_trans (ler_norm_add _ _) _. rewrite !normrM. apply: ler_add; [exact: ler_wpmul2l|exact: ler_wpmul2r].
Qed.
Lemma div_dist (x y a b ea eb : F) : `|x - a| <= ea -> `|y - b| <= eb -> eb < `|b| -> `|x / y - a / b| <= (ea + `|a / b| * eb) / (`|b| - eb).
Proof.
  move=> Hx Hy L. have Ly : `|b| - eb <= `|y|.
    rewrite ler_subl_addr -ler_subl_addl. apply: le_trans Hy. apply: le_trans (ler_dist_dist _ _). rewrite distrC. exact: ler_norm.
  have P : 0 < `|b| - eb by rewrite subr_gt0. have Py := lt_le_trans P Ly. have Ny : y != 0 by rewrite -normr_gt0. have E0 : 0 <= eb := le_trans (normr_ge0 _) Hy. have Nb : b != 0 by rewrite -normr_gt0; exact: le_lt_trans E0 L.
  have -> : x / y - a / b = ((x - a) - (a / b) * (y - b)) / y.
    apply: (mulIf Ny). rewrite mulrBl !divfK // mulrBr divfK // opprB addrA. by rewrite subrK.
  rewrite normrM normfV. apply: ler_pmul; rewrite ?invr_ge0 //; last by rewrite lef_pinv ?posrE.
  apply: le_trans (ler_norm_sub _ _) _. rewrite normrM. apply: ler_add => //. exact: ler_wpmul2l.
Qed.
Lemma contains_ring : same_ring wideops fieldops contains.
Proof.
  split.
  - by rewrite /contains /= qr0 subrr normr0.
  - by rewrite /contains /= qr1 qr0 subrr normr0.
  - move=> [[a ea]|] x [[b eb]|] y //= Hx Hy. apply: wide_contains => /=. rewrite !qr_add opprD addrACA. apply: le_trans (ler_norm_add _ _) _. exact: ler_add.
  - move=> [[a ea]|] x [[b eb]|] y //= Hx Hy. apply: wide_contains => /=. rewrite qr_sub qr_add.
    have -> : x - y - (q_ a - q_ b) = (x - q_ a) - (y - q_ b) by rewrite !opprD !opprK [LHS]addrACA.
    apply: le_trans (ler_norm_sub _ _) _. exact: ler_add.
  - move=> [[a ea]|] x [[b eb]|] y //= Hx Hy. apply: wide_contains => /=. rewrite !qr_add !qr_mul !qr_abs. exact: mul_dist.
  - move=> [[a ea]|] x //= Hx. by rewrite qr_opp opprK addrC distrC.
  - move=> n. rewrite /ofnat /=. case: ifP => // _. by rewrite /contains /qr /= zr_nat divr1 mul0r subrr normr0.
Qed.
Lemma contains_div : same_div wideops fieldops contains.
Proof.
  split. move=> [[a ea]|] x [[b eb]|] y //= Hx Hy. case L: (Qle_bool _ _) => //. have {}L := qleb_false _ _ L. have E0 := dist_ge0 Hy. apply: wide_contains.
  rewrite -[Z.abs _ # _]/(Qabs (a / b)%QQ). have Nb : ~ (b == 0)%QQ by move=> E; move: L; rewrite (Qabs_wd _ _ E) /=; lra.
  have Nd : ~ (Qabs b - eb == 0)%QQ by lra. rewrite (qr_div _ Nd) qr_sub qr_add qr_mul !qr_abs !(qr_div _ Nb). apply: div_dist => //. rewrite -qr_abs. exact: qr_lt.
Qed.
Lemma contains_sqrt : fun_agree contains contains bsqrt Num.sqrt.
Proof.
  move=> [[c e]|] x //= Hx. case L: (Qle_bool c e) => //. have {}L := qleb_false _ _ L. case S: (Qle_bool _ 0) => //. have {S} := qleb_false _ _ S. move: (RunQR.short _ _) => s S. rewrite -[Z.abs _ # _]/(Qabs (c - s * s)%QQ) /contains. have E0 := dist_ge0 Hx.
  apply: le_trans (qr_le (short_up_le _ _)). have S0 : 0 < q_ s by rewrite -(qr0 F); exact: qr_lt.
  have X0 : 0 <= x. move: Hx. rewrite ler_distl => /andP [H _]. apply: le_trans H. rewrite -qr_sub. apply: qr_ge0. lra.
  rewrite qr_div; last lra. rewrite ler_pdivl_mulr //.
  have B : `|Num.sqrt x - q_ s| * q_ s <= `|x - q_ s * q_ s|.
    rewrite -{2}(sqr_sqrtr X0) expr2 -[_ * _ - _]/(Num.sqrt x * Num.sqrt x - q_ s * q_ s) -!expr2 subr_sqr normrM. apply: ler_wpmul2l => //. apply: le_trans (ler_norm _). by rewrite ler_addr sqrtr_ge0.
  apply: le_trans B _. have -> : x - q_ s * q_ s = (x - q_ c) + q_ (c - s * s)%QQ by rewrite qr_sub qr_mul addrA subrK.
  apply: le_trans (ler_norm_add _ _) _. rewrite -qr_abs. move: (Qabs (c - s * s)%QQ) => z. rewrite !qr_add. apply: ler_add => //. rewrite -[X in X <= _]add0r. apply: ler_add => //. apply: qr_ge0. apply: Qmult_le_0_compat; [discriminate|lra].
Qed.
Lemma contains_copysign : fun2_agree contains bcopysign (@ra_copysign F).
Proof.
  move=> [[a ea]|] x [[b eb]|] y //= Hx Hy. case: (Qle_bool ea a) => //=. case L: (Qle_bool _ eb) => //. have {}L := qleb_false _ _ L. rewrite /ra_copysign.
  have -> : (y < 0) = Qle_bool b 0.
    move: Hy. rewrite ler_distl => /andP [H1 H2]. case N: (Qle_bool b 0).
    - have {}N := qleb_true _ _ N. have A := Qabs_neg _ N. apply: le_lt_trans H2 _. rewrite -qr_add -(qr0 F). apply: qr_lt. lra.
    - have {}N := qleb_false _ _ N. have A := Qabs_pos b ltac:(lra). apply/negbTE. rewrite -leNgt. apply: le_trans H1. rewrite -qr_sub. apply: qr_ge0. lra.
  case: (Qle_bool b 0) => //. by rewrite /contains qr_opp opprK addrC distrC.
Qed.

(** * C125 *)
Lemma near_one b d x : within b d -> contains b x -> near1 b d x.
Proof.
  move=> H K c e E. rewrite E in H K. case: H => P H. split=> //. have H' : `|dreal d - q_ c| <= q_ e by rewrite -qr_sub -qr_abs; exact: qr_le.
  have -> : dreal d - x = (dreal d - q_ c) - (x - q_ c) by rewrite opprB addrA subrK. apply: le_trans (ler_norm_sub _ _) _. rewrite mulr2n mulrDl !mul1r. exact: ler_add.
Qed.
Lemma near_list c d x : List.Forall2 within c d -> List.Forall2 contains c x -> near c d x.
Proof.
  move=> H. elim: H x => {c d} [|b d c l Hb _ IH] [|x s] K; try by inversion K.
  have [K1 K2] : contains b x /\ List.Forall2 contains c s by inversion K. have [S1 [S2 N]] := IH _ K2. split; first by rewrite /= S1. split; first by rewrite /= S2. case=> [|i] Hi; [exact: near_one|exact: N].
Qed.
Lemma near_mat c d x : rmat within c d -> rmat contains c x -> near_m c d x.
Proof. move=> [H1 [H2 H3]] [K1 [K2 K3]]. split=> //. exact: near_list. Qed.
Lemma known_contains A : rmat contains (each known A) (each dreal A).
Proof.
  split=> //; split=> //=. elim: (data A) => [|d l IH]; constructor=> //. by rewrite /contains /= subrr normr0 qr0.
Qed.

(** If the computation with bounds returns, so do the one with doubles and the exact one, and wherever
    there is a bound, the double is finite and within twice the bound of the exact element. *)
Theorem C125_qr t (A : Mat.Matrix double) : all_finite (data A) ->
  forall c, qr_decomposition (O := wideops) bsqrt bcopysign (each known A) = Ok c ->
  exists d x, [/\ qr_decomposition (O := fops t) dsqrt dcopysign A = Ok d, qr_decomposition (O := fieldops) Num.sqrt (@ra_copysign F) (each dreal A) = Ok x,
    near_m c.1 d.1 x.1 & near_m c.2 d.2 x.2].
Proof.
  move=> HA c E. have [W _] := known_m A HA.
  have := C124_qr (wide_ring t) (wide_div t) run_sqrt run_copysign W. have := C124_qr contains_ring contains_div contains_sqrt contains_copysign (known_contains A).
  rewrite E. case: (qr_decomposition _ _ _) => //= x [K1 K2]. case: (qr_decomposition _ _ _) => //= d [H1 H2]. exists d, x. split=> //; exact: near_mat.
Qed.
Lemma field_real : realO fieldops. Proof. by split. Qed.
(** For a matrix with independent columns, and at least as many rows as columns, all three return,
    and the exact factors are orthogonal and upper triangular, and their product is the matrix. *)
Theorem C125_factors t (A : Mat.Matrix double) r k (MA : 'M[F]_(r, k)) : all_finite (data A) -> is_mx (each dreal A) MA -> (0 < k <= r)%N -> shape_ok r r -> indep MA ->
  exists c d q u (MQ : 'M[F]_r) (MR : 'M[F]_(r, k)),
   [/\ qr_decomposition (O := wideops) bsqrt bcopysign (each known A) = Ok c, qr_decomposition (O := fops t) dsqrt dcopysign A = Ok d,
       near_m c.1 d.1 q /\ near_m c.2 d.2 u, is_mx q MQ /\ is_mx u MR &
       [/\ MQ^T *m MQ = 1%:M, MQ *m MR = MA & forall (a : 'I_r) (b : 'I_k), (b < a)%N -> MR a b = 0]].
Proof.
  move=> HA HM Hk Sr HI. have [q [u [MQ [MR [E Hq Hu [Q1 Q2 U1 _]]]]]] := C96_qr field_real (@ra_cs F) HM Hk Sr HI.
  have := C124_qr contains_ring contains_div contains_sqrt contains_copysign (known_contains A). rewrite E. case Ec: (qr_decomposition _ _ _) => [c| | | |] //= _.
  have [d [x [Ed Ex N1 N2]]] := C125_qr t HA Ec. have Ex' : Ok (q, u) = Ok x by rewrite -E -Ex. case: Ex' N1 N2 => <- N1 N2. by exists c, d, q, u, MQ, MR.
Qed.
(** If no bound is larger than [eps], every element of the computed Q and R is finite and within
    [2 eps] of that of the exact factor. *)
Definition le_all (eps : Q) (c : seq bounded) : bool := all (fun b => if b is Some (_, e) then Qle_bool e eps else false) c.
Lemma nth_err (T : Type) (z : T) l i x : List.nth_error l i = Some x -> (i < size l)%N /\ nth z l i = x.
Proof. elim: l i => [|a l IH] [|i] //=; [by case=> ->|exact: IH]. Qed.
Lemma mx_at (m : Mat.Matrix F) r k (M : 'M[F]_(r, k)) : is_mx m M -> forall (a : 'I_r) (b : 'I_k), (a * k + b < size (data m))%N /\ M a b = nth 0 (data m) (a * k + b).
Proof.
  move=> [_ [_ [_ [_ H]]]] a b. have := H a b ltac:(exact/ssrnat.ltP) ltac:(exact/ssrnat.ltP). rewrite mxfE => E. by have [S N] := nth_err 0 E.
Qed.
Theorem C125_all t (A : Mat.Matrix double) r k (MA : 'M[F]_(r, k)) eps : all_finite (data A) -> is_mx (each dreal A) MA -> (0 < k <= r)%N -> shape_ok r r -> indep MA ->
  match qr_decomposition (O := wideops) bsqrt bcopysign (each known A) with Ok c => le_all eps (data c.1) && le_all eps (data c.2) | _ => true end ->
  exists q u (MQ : 'M[F]_r) (MR : 'M[F]_(r, k)),
   [/\ qr_decomposition (O := fops t) dsqrt dcopysign A = Ok (q, u), MQ^T *m MQ = 1%:M, MQ *m MR = MA, (forall (a : 'I_r) (b : 'I_k), (b < a)%N -> MR a b = 0) &
    (forall a b : 'I_r, proper (nth nan (data q) (a * r + b)) /\ `|dreal (nth nan (data q) (a * r + b)) - MQ a b| <= 2%:R * q_ eps) /\
    (forall (a : 'I_r) (b : 'I_k), proper (nth nan (data u) (a * k + b)) /\ `|dreal (nth nan (data u) (a * k + b)) - MR a b| <= 2%:R * q_ eps)].
Proof.
  move=> HA HM Hk Sr HI. have [c [[dq du] [q [u [MQ [MR [-> Ed [N1 N2] [Hq Hu] [Q1 Q2 U1]]]]]]]] := C125_factors t HA HM Hk Sr HI. case/andP => L1 L2. exists dq, du, MQ, MR. split=> //.
  have G (b : seq bounded) (d : seq double) (x : seq F) : near b d x -> le_all eps b -> forall i, (i < size x)%N -> proper (nth nan d i) /\ `|dreal (nth nan d i) - nth 0 x i| <= 2%:R * q_ eps.
    move=> [S1 [S2 N]] L i Hi. rewrite -S2 in Hi. have := elimT (all_nthP None) L _ Hi. have := N _ Hi. case: (nth None b i) => [[v e]|] // K Le. have [P D] := K _ _ (erefl _). split=> //.
    apply: le_trans D _. apply: ler_wpmul2l; first exact: ler0n. apply: qr_le. exact: qleb_true Le.
  case: N1 => _ _ _ _ N1. case: N2 => _ _ _ _ N2. split=> a b.
  - have [S ->] := mx_at Hq a b. exact: G N1 L1 _ S.
  - have [S ->] := mx_at Hu a b. exact: G N2 L2 _ S.
Qed.
End Spec.

(** * Example *)
(** The columns (3, 1) and (4, 2): the eight elements of the computed factors are within
    2^-45 of the exact ones, over any real closed field. *)
Definition exM : Mat.Matrix double := mkM 2 2 [:: natd 3; natd 4; natd 1; natd 2].
Example exM_bounds : match qr_decomposition (O := wideops) bsqrt bcopysign (each known exM) with Ok c => le_all (2 ^ (-46))%QQ (data c.1) && le_all (2 ^ (-46))%QQ (data c.2) | _ => true end.
Proof. lazy. reflexivity. Qed.
Lemma exM_finite : all_finite (data exM).
Proof. repeat (apply: List.Forall_cons; [split; [by lazy|exact: I]|]). exact: List.Forall_nil. Qed.
Section Ex.
Variable F : rcfType.
Definition mM : 'M[F]_2 := fmx 2 2 (fun i j => if i is O then (if j is O then 3%:R else 4%:R) else (if j is O then 1 else 2%:R)).
Lemma dreal_nat n : (n <= 4)%N -> dreal F (natd n) = n%:R.
Proof.
  move=> /ssrnat.leP Hn. have H : (Z.of_nat n <= 2 ^ 53)%ZZ by lia. have [_ E] := natd_exact n H. by rewrite /dreal (qr_wd F E) /qr [Qnum _]/= [Qden _]/= zr_nat divr1.
Qed.
Lemma exM_is : is_mx (each (dreal F) exM) mM.
Proof.
  have -> : each (dreal F) exM = mkM 2 2 [:: 3%:R; 4%:R; 1; 2%:R].
    by rewrite -[LHS]/(mkM 2 2 [:: dreal F (natd 3); dreal F (natd 4); dreal F (natd 1); dreal F (natd 2)]) !dreal_nat.
  apply: is_mx_mat. split; first by []. split; first by []. split; first exact: shape22. split; first by [].
  move=> i j Hi Hj. case: i Hi => [|[|i]] Hi; [| |lia]; (case: j Hj => [|[|j]] Hj; [by []|by []|lia]).
Qed.
Lemma mM_indep : indep mM.
Proof.
  move=> x /matrixP H. have := H ord0 ord0. have := H ord_max ord0. rewrite !mxE !big_ord_recr !big_ord0 /= !mxE /= !add0r mul1r. set a := x _ _. set b := x _ _. move=> E1 E2.
  have A : a = 0. have : (3%:R * a + 4%:R * b) - 2%:R * (a + 2%:R * b) = 0 by rewrite E1 E2 mulr0 subrr. rewrite mulrDr mulrA -natrM opprD addrACA subrr addr0 -mulrBl -natrB // mul1r. by [].
  have B : b = 0. move: E1. rewrite A add0r => /eqP. rewrite mulf_eq0 pnatr_eq0 /= => /eqP. by [].
  apply/colP => i. rewrite mxE. case: i => [[|[|i]] Hi] //; [rewrite -[RHS]A|rewrite -[RHS]B]; congr (x _ _); exact: val_inj.
Qed.
Example C125_ex t : exists q u (MQ MR : 'M[F]_2),
  [/\ qr_decomposition (O := fops t) dsqrt dcopysign exM = Ok (q, u), MQ^T *m MQ = 1%:M, MQ *m MR = mM,
   forall a b : 'I_2, proper (nth nan (data q) (a * 2 + b)) /\ `|dreal F (nth nan (data q) (a * 2 + b)) - MQ a b| <= 2%:R * qr F (2 ^ (-46))%QQ &
   forall a b : 'I_2, proper (nth nan (data u) (a * 2 + b)) /\ `|dreal F (nth nan (data u) (a * 2 + b)) - MR a b| <= 2%:R * qr F (2 ^ (-46))%QQ].
Proof.
  have [q [u [MQ [MR [E Q1 Q2 _ [N1 N2]]]]]] := @C125_all F t exM 2 2 mM (2 ^ (-46))%QQ exM_finite exM_is isT shape22 mM_indep exM_bounds.
  exists q, u, MQ, MR. split; [exact E|exact Q1|exact Q2|exact N1|exact N2].
Qed.
End Ex.
