(** PropTriEig.v: eigen::eigenvectorUpper (C98), with the repairs of Eigen.v. *)
From Verif Require Import MathFacts MatFacts Util UtilFacts2 PropUtil PropMath MathM ControlFacts RingM DetFacts PropRing PropReal PropControl PropControl2 QR PropQR Eigen.
From mathcomp Require Import all_ssreflect all_algebra.
From Verif Require Import EigenMath PropHess PropHess2.
Set Implicit Arguments.
Unset Strict Implicit.
Unset Printing Implicit Defensive.
Import Order.Theory GRing.Theory Num.Theory.
Local Open Scope ring_scope.

Section Spec.
Variables (K : numClosedFieldType).
(** v is a unit vector, zero below row l and nonzero in row l, and M v - M(l,l) v is zero
    in row l and below, and in each row whose diagonal element is at least eps away from
    M(l,l); elsewhere it is at most eps |v(l)|, and v is zero in such a row above l. *)
Definition eigcol n (M : 'M[K]_n) (eps : K) (l : 'I_n) (v : 'cV[K]_n) : Prop :=
  let d := M *m v - M l l *: v in
  [/\ \sum_i `|v i 0| ^+ 2 = 1, (forall i : 'I_n, (l < i)%N -> v i 0 = 0), v l 0 != 0 &
    [/\ (forall i : 'I_n, (l <= i)%N -> d i 0 = 0), (forall i : 'I_n, eps <= `|M i i - M l l| -> d i 0 = 0), (forall i : 'I_n, (i < l)%N -> `|M i i - M l l| < eps -> v i 0 = 0) & forall i, `|d i 0| <= eps * `|v l 0|]].
(** There is no such vector (C98_deficient): the only w with w(l) = 1, zero below row l and
    in each row above l whose diagonal element is nearer than eps to M(l,l), and M w -
    M(l,l) w zero in the other rows, has an element of M w - M(l,l) w greater than eps. *)
Definition deficient n (M : 'M[K]_n) (eps : K) (l : 'I_n) : Prop :=
  exists w : 'cV[K]_n, let d := M *m w - M l l *: w in
  [/\ w l 0 = 1, (forall i : 'I_n, (l < i)%N -> w i 0 = 0), (forall i : 'I_n, (i < l)%N -> `|M i i - M l l| < eps -> w i 0 = 0) &
   (forall i : 'I_n, eps <= `|M i i - M l l| -> d i 0 = 0) /\ exists i : 'I_n, [/\ (i < l)%N, `|M i i - M l l| < eps & eps < `|d i 0|]].
End Spec.

Section Tri.
Variables (K : numClosedFieldType) (U : rcfType) (emb : {rmorphism U -> K}) (OC : Ops K) (OU : Ops U).
Variables (cnorm cabs : K -> U) (conj : K -> K) (ofr : U -> K).
Hypothesis HC : complexO emb OC OU cnorm cabs conj ofr.

Let HF : fieldO OC. Proof. by case: HC. Qed.
Let HO : ringO OC. Proof. by case: HF. Qed.
Let HU : realO OU. Proof. by case: HC. Qed.
Let HV : ringO OU. Proof. by case: HU => -[]. Qed.
Let HD (x y : K) : y != 0 -> odiv x y = Ok (x / y). Proof. case: HF => _ H _. exact: H. Qed.
Let Hlt (x y : U) : olt x y = (x < y). Proof. by case: HU. Qed.
Let Hnorm z : emb (cnorm z) = `|z| ^+ 2. Proof. by case: HC => _ _ _ []. Qed.
Let Habs z : emb (cabs z) = `|z|. Proof. by case: HC => _ _ _ []. Qed.
Let Hofr x : ofr x = emb x. Proof. by case: HC => _ _ _ []. Qed.

Variable eps : U.
Hypothesis eps_gt0 : 0 < eps.

(** sum of g(i,j) f(j) for i < j <= l *)
Definition tail (g : nat -> nat -> K) (l i : nat) (f : nat -> K) : K := \sum_(i.+1 <= j < l.+1) g i j * f j.
Lemma tail_ext g l i f f' : (forall j, (i < j <= l)%N -> f j = f' j) -> tail g l i f = tail g l i f'.
Proof. move=> H. apply: eq_big_nat => j /andP [L1 L2]. by rewrite H // L1. Qed.

Lemma back_step_ok (TT : Mat.Matrix K) n g V f l i ok : is_mat TT n n g -> is_vec V n f -> (i < l)%N -> (l < n)%N ->
  let small := cabs (g i i) < eps in let t := - tail g l i f in
  exists V', back_step cabs eps TT l i (V, ok) = Ok (V', if small && (eps < cabs t) then false else ok) /\
    is_vec V' n (fun j => if j == i then (if small then 0 else t / g i i) else f j).
Proof.
  move=> HT HVv Li Ll small t. have Hi : (i < n)%N by exact: ltn_trans Ll. have Hi' := elimT ssrnat.ltP Hi.
  rewrite /back_step. have [V0 [-> HV0]] := vec_set o0 HVv Hi. rewrite bindOk.
  have e1 : (i + 1)%coq_nat = i.+1 by lia. have e2 : (l + 1)%coq_nat = l.+1 by lia. rewrite e1 e2.
  set body := fun (j : nat) (V : seq K) => _.
  have [|||V1 [-> HV1]] := for_range_inv (fun j V => is_vec V n (fun k => if k == i then - \sum_(i.+1 <= j' < j) g i j' * f j' else f k)) i.+1 l.+1 body V0.
  - apply/ssrnat.leP. exact: ltnW.
  - apply: is_vec_ext; first exact: HV0. move=> k _ /=. by rewrite big_geq // oppr0 (o0E HO).
  - move=> j V1 [/ssrnat.leP L1 /ssrnat.ltP L2] HV1. have Hj : (j < n)%N by exact: leq_trans Ll. rewrite /body.
    rewrite (is_vec_get _ _ _ _ HV1 Hi') eqxx bindOk (is_mat_at _ _ _ _ _ _ HT Hi' (elimT ssrnat.ltP Hj)) bindOk.
    rewrite (is_vec_get _ _ _ _ HV1 (elimT ssrnat.ltP Hj)) gtn_eqF // bindOk.
    set x := osub _ _. have [V2 [-> HV2]] := vec_set x HV1 Hi. exists V2. split=> //.
    apply: is_vec_ext; first exact: HV2. move=> k _ /=. case: eqP => // _. by rewrite /x (osubE HO) (omulE HO) big_nat_recr //= opprD.
  rewrite bindOk. have Vi : lget V1 i = Ok t by rewrite (is_vec_get _ _ _ _ HV1 Hi') eqxx.
  rewrite !(is_mat_at _ _ _ _ _ _ HT Hi' Hi') !bindOk Vi !bindOk !Hlt -/small.
  case E: small => /=.
  - have [V2 [-> HV2]] := vec_set o0 HV1 Hi. exists V2. rewrite bindOk. split; first by [].
    apply: is_vec_ext; first exact: HV2. move=> k _ /=. by case: eqP => // _; rewrite (o0E HO).
  - have N : g i i != 0. { rewrite -(cabs_gt0 HC). move/negbT: E. rewrite /small -leNgt. exact: lt_le_trans. }
    rewrite HD // !bindOk. have [V2 [-> HV2]] := vec_set (t / g i i) HV1 Hi. exists V2. rewrite bindOk. split; first by [].
    apply: is_vec_ext; first exact: HV2. move=> k _ /=. by case: eqP.
Qed.

(** What the back substitution leaves in rows i0..l-1. *)
Definition solved (g : nat -> nat -> K) (l i0 : nat) (f : nat -> K) (ok : bool) : Prop :=
  [/\ f l = 1, (forall j, (l < j)%N -> f j = 0), (forall j, (j < i0)%N -> f j = 0) &
   (forall i, (i0 <= i < l)%N -> let t := - tail g l i f in
      if cabs (g i i) < eps then f i = 0 /\ (ok -> cabs t <= eps) else f i = t / g i i) /\
   (ok = false -> exists i, [/\ (i0 <= i < l)%N, cabs (g i i) < eps & eps < cabs (- tail g l i f)])].

Lemma back_ok (TT : Mat.Matrix K) n g V l : is_mat TT n n g -> (l < n)%N -> is_vec V n (fun j => if j == l then 1 else 0) ->
  exists V' ok f, [/\ for_range 0 l (fun k => back_step cabs eps TT l (l - 1 - k)%coq_nat) (V, true) = Ok (V', ok), is_vec V' n f & solved g l 0 f ok].
Proof.
  move=> HT Hl HVv.
  have [||[V' ok] [E [f [/= H1 H2]]]] := for_range_inv (fun k (s : seq K * bool) => exists f, is_vec s.1 n f /\ solved g l (l - k)%N f s.2) 0 l
    (fun k => back_step cabs eps TT l (l - 1 - k)%coq_nat) (V, true) (Nat.le_0_l _).
  - exists (fun j => if j == l then 1 else 0). split; first exact: HVv. rewrite subn0. split.
    + by rewrite eqxx.
    + by move=> j L; rewrite gtn_eqF.
    + by move=> j L; rewrite ltn_eqF.
    + split=> // i /andP [A B]. by move: (leq_trans B A); rewrite ltnn.
  - move=> k [V1 ok1] [_ /ssrnat.ltP Lk] [f [/= HV1 [F1 F2 F3 [F4 F5]]]].
    have Ei : (l - 1 - k)%coq_nat = (l - k.+1)%N by rewrite -[(l - 1 - k)%coq_nat]/(l - 1 - k)%N -subnDA add1n.
    rewrite -/(back_step cabs eps TT l (l - 1 - k)%coq_nat (V1, ok1)) Ei. set i := (l - k.+1)%N. have ei : (l - k)%N = i.+1 by rewrite /i subnSK.
    have Li : (i < l)%N by rewrite -ei leq_subr.
    have [V2 [E2 HV2]] := back_step_ok ok1 HT HV1 Li Hl. eexists; split; first exact: E2. simpl fst. simpl snd. eexists; split; first exact: HV2.
    set small := cabs (g i i) < eps. set t := - tail g l i f. set f' := fun j => _.
    have tE i1 : (i <= i1)%N -> tail g l i1 f' = tail g l i1 f.
      move=> L1. apply: tail_ext => j /andP [L2 _]. by rewrite /f' gtn_eqF // (leq_ltn_trans L1).
    split.
    + by rewrite /f' gtn_eqF.
    + move=> j L. rewrite /f' gtn_eqF; last exact: ltn_trans L. exact: F2.
    + move=> j L. rewrite /f' ltn_eqF //. apply: F3. rewrite ei. exact: ltnW.
    + split.
      * move=> i1 /andP [A B] t1. case: (eqVneq i1 i) => [E1|N1].
        -- have -> : t1 = t by rewrite /t1 /t E1 tE. rewrite E1 -/small /f' eqxx. case E: small => //=. split=> //.
           case: ifP => //. by move/negbT; rewrite -leNgt.
        -- have A' : (i < i1)%N by rewrite ltn_neqAle eq_sym N1.
           have -> : t1 = - tail g l i1 f by rewrite /t1 tE. have -> : f' i1 = f i1 by rewrite /f' (negbTE N1).
           have := F4 i1. rewrite ei A' B /= => /(_ isT). case: ifP => // _ [-> G]. split=> // H. apply: G. by move: H; case: ifP.
      * case S: (small && (eps < cabs t)) => H; first by case/andP: S => S1 S2; exists i; rewrite tE // leqnn Li.
        have [i1 [/andP [A B] C D]] := F5 H. rewrite ei in A. exists i1. by rewrite (ltnW A) B tE // ltnW.
  exists V', ok, f. rewrite subnn in H2. split=> //.
Qed.

Lemma shift_diagonal_ok (Mm TT : Mat.Matrix K) n fM g lam : is_mat Mm n n fM -> is_mat TT n n g ->
  exists T', shift_diagonal Mm n lam TT = Ok T' /\ is_mat T' n n (fun a b => if a == b then fM a a - lam else g a b).
Proof.
  move=> HM HT. rewrite /shift_diagonal.
  have [||T' [E H]] := for_range_inv (fun k T => is_mat T n n (fun a b => if (a == b) && (a < k)%N then fM a a - lam else g a b)) 0 n
    (fun k TT => let* m := mat_at Mm k k in mat_set TT k k (osub m lam)) TT (Nat.le_0_l _).
  - apply: is_mat_ext; first exact: HT. move=> a b _ _ /=. by rewrite andbF.
  - move=> k T1 [_ Lk] H1. rewrite (is_mat_at _ _ _ _ _ _ HM Lk Lk) bindOk.
    have [T2 [E2 H2]] := mat_set_ok _ _ _ _ k k (osub (fM k k) lam) H1 Lk Lk. exists T2. split; first exact: E2.
    apply: is_mat_ext; first exact: H2. move=> a b _ _. rewrite /fset !nateqbE (osubE HO) ltnS.
    case: (eqVneq a b) => [<-|N] /=; last by case: (eqVneq a k) => [Ea|//]; case: (eqVneq b k) => [Eb|//]; move: N; rewrite Ea Eb eqxx.
    rewrite andbb. by case: (ltngtP a k) => // ->.
  exists T'. split; first exact: E. apply: is_mat_ext; first exact: H. move=> a b /ssrnat.ltP Ha _ /=. by rewrite Ha andbT.
Qed.
Lemma column_loop (E : Mat.Matrix K) n fE l (q : nat -> K) body : is_mat E n n fE -> (l < n)%N ->
  (forall i E', (i <= l)%N -> body i E' = mat_set E' i l (q i)) ->
  exists E', for_range 0 (l + 1)%coq_nat body E = Ok E' /\ is_mat E' n n (fun a b => if (b == l) && (a <= l)%N then q a else fE a b).
Proof.
  move=> HE Hl Hb. have -> : (l + 1)%coq_nat = l.+1 by lia.
  have [||E' [Ee H]] := for_range_inv (fun i X => is_mat X n n (fun a b => if (b == l) && (a < i)%N then q a else fE a b)) 0 l.+1 body E (Nat.le_0_l _).
  - apply: is_mat_ext; first exact: HE. move=> a b _ _ /=. by rewrite andbF.
  - move=> i E1 [_ /ssrnat.ltP Li] H1. have Hi : (i < n)%N by exact: leq_trans Hl. rewrite Hb //.
    have [E2 [Es H2]] := mat_set_ok _ _ _ _ i l (q i) H1 (elimT ssrnat.ltP Hi) (elimT ssrnat.ltP Hl). exists E2. split; first exact: Es.
    apply: is_mat_ext; first exact: H2. move=> a b _ _. rewrite /fset !nateqbE ltnS andbC.
    case: (eqVneq b l) => //= _. by case: (ltngtP a i) => // ->.
  exists E'. by split.
Qed.

Section Column.
Variables (n : nat) (M : 'M[K]_n) (l : 'I_n).
Hypothesis upM : forall a b : 'I_n, (b < a)%N -> M a b = 0.
Definition gsh (a b : nat) : K := if a == b then mxf M a a - M l l else mxf M a b.
Variable f : nat -> K.
Variable ok : bool.
Hypothesis Hf : solved gsh l 0 f ok.
Let w : 'cV[K]_n := \col_i f i.

Lemma row_tail (i : 'I_n) : (i <= l)%N -> (M *m w) i 0 = M i i * f i + tail gsh l i f.
Proof.
  move=> Li. case: Hf => F1 F2 _ _.
  have -> : (M *m w) i 0 = \sum_(0 <= j < n) mxf M i j * f j.
    rewrite big_mkord mxE. by apply: eq_bigr => j _; rewrite mxfE mxE.
  rewrite (big_cat_nat _ (n := i)) //=; last exact: ltnW. rewrite [X in X + _]big_nat_cond big1 ?add0r; last first.
    move=> j /andP [/andP [_ Lj] _]. have Hj : (j < n)%N by exact: ltn_trans (ltn_ord i).
    by rewrite -[j]/(val (Ordinal Hj)) mxfE upM // mul0r.
  rewrite big_ltn // mxfE. congr (_ + _). rewrite (big_cat_nat _ (n := l.+1)) //=.
  rewrite [X in _ + X]big_nat_cond [X in _ + X]big1 ?addr0; last by move=> j /andP [/andP [Lj _] _]; rewrite F2 // mulr0.
  apply: eq_big_nat => j /andP [Lj _]. by rewrite /gsh ltn_eqF.
Qed.
Lemma row_d (i : 'I_n) : (i <= l)%N -> (M *m w - M l l *: w) i 0 = gsh i i * f i + tail gsh l i f.
Proof.
  move=> Li. rewrite mxE row_tail // [X in _ + X]mxE [X in _ - X]mxE [w i 0]mxE /gsh eqxx mxfE mulrBl. by rewrite addrAC.
Qed.
Lemma row_high (i : 'I_n) : (l < i)%N -> (M *m w - M l l *: w) i 0 = 0.
Proof.
  move=> Li. case: Hf => _ F2 _ _. rewrite mxE [X in _ + X]mxE [X in _ - X]mxE [w i 0]mxE F2 // mulr0 subr0 mxE big1 // => j _.
  case: (ltnP j i) => Lj; first by rewrite upM // mul0r. by rewrite mxE F2 ?mulr0 // (leq_trans Li).
Qed.
Lemma row_l : (M *m w - M l l *: w) l 0 = 0.
Proof. by rewrite row_d // /gsh eqxx mxfE subrr mul0r add0r /tail big_geq. Qed.
Lemma row_apart (i : 'I_n) : (i < l)%N -> eps <= cabs (M i i - M l l) -> (M *m w - M l l *: w) i 0 = 0.
Proof.
  move=> Li L. case: Hf => _ _ _ [F4 _]. have := F4 i. rewrite Li => /(_ isT). rewrite row_d; last exact: ltnW.
  have gi : gsh i i = M i i - M l l by rewrite /gsh eqxx mxfE. rewrite gi ltNge L /= => ->.
  rewrite mulrC divfK ?addNr // -(cabs_gt0 HC). exact: lt_le_trans L.
Qed.
Lemma row_zero (i : 'I_n) : (i < l)%N -> cabs (M i i - M l l) < eps -> f i = 0.
Proof.
  move=> Li L. case: Hf => _ _ _ [F4 _]. have := F4 i. rewrite Li => /(_ isT).
  have gi : gsh i i = M i i - M l l by rewrite /gsh eqxx mxfE. by rewrite gi L => -[].
Qed.
Lemma row_near (Eok : ok) (i : 'I_n) : `|(M *m w - M l l *: w) i 0| <= emb eps.
Proof.
  have P : 0 <= emb eps by rewrite -(rmorph0 emb) (emb_le HC) ltW.
  case: (ltngtP i l) => Li; [|by rewrite row_high // normr0|by rewrite (ord_inj Li) row_l normr0].
  case: (leP eps (cabs (M i i - M l l))) => L; first by rewrite row_apart // normr0.
  case: Hf => _ _ _ [F4 _]. have := F4 i. rewrite Li => /(_ isT). rewrite row_d; last exact: ltnW.
  have gi : gsh i i = M i i - M l l by rewrite /gsh eqxx mxfE. rewrite gi L => -[-> /(_ Eok) H].
  rewrite mulr0 add0r -normrN -Habs (emb_le HC). exact: H.
Qed.
Lemma clen_w : 1 <= clen cnorm w.
Proof.
  case: Hf => F1 _ _ _.
  have -> : 1 = Num.sqrt 1 :> U by rewrite sqrtr1. apply: ler_wsqrtr.
  rewrite (bigD1 l) //=. have -> : cnorm (w l 0) = 1 by apply: (fmorph_inj emb); rewrite Hnorm mxE F1 normr1 expr1n rmorph1.
  rewrite ler_addl. by apply: sumr_ge0 => i _; exact: (cnorm_ge0 HC).
Qed.
Lemma solved_eigcol (Eok : ok) : eigcol M (emb eps) l (\col_i (f i / emb (clen cnorm w))).
Proof.
  have C1 := clen_w. have C0 : 0 < clen cnorm w by exact: lt_le_trans C1. case: (Hf) => F1 F2 _ _.
  set L := emb (clen cnorm w). have L0 : 0 < L by rewrite -(rmorph0 emb) (emb_lt HC).
  have L1 : 1 <= L by rewrite -(rmorph1 emb) (emb_le HC).
  have Ev : \col_i (f i / L) = L^-1 *: w by apply/colP => i; rewrite !mxE mulrC.
  have Ed i : (M *m (\col_i (f i / L)) - M l l *: (\col_i (f i / L))) i 0 = L^-1 * (M *m w - M l l *: w) i 0.
    rewrite Ev -scalemxAr scalerA mulrC -scalerA -scalerBr [LHS]mxE. by [].
  split.
  - have -> : \sum_(k < n) `|(\col_(i < n) (f i / L)) k 0| ^+ 2 = (\sum_(k < n) `|w k 0| ^+ 2) / L ^+ 2.
      rewrite [RHS]mulr_suml. apply: eq_bigr => i _. by rewrite !mxE normrM normfV (ger0_norm (ltW L0)) expr_div_n.
    rewrite -/(sql w) -(clen_sq HC) divff // expf_neq0 // gt_eqF //.
  - move=> i Li. by rewrite mxE F2 // mul0r.
  - by rewrite mxE F1 mul1r invr_eq0 gt_eqF.
  - split.
    + move=> i. rewrite leq_eqVlt => /orP [/eqP/ord_inj <-|Li]; rewrite Ed ?row_l ?row_high // ?mulr0 //.
    + move=> i. rewrite -Habs (emb_le HC) Ed => Le. case: (ltngtP i l) => Li.
      * by rewrite row_apart // mulr0.
      * by rewrite row_high // mulr0.
      * by rewrite (ord_inj Li) row_l mulr0.
    + move=> i Li. rewrite -Habs (emb_lt HC) => Le. by rewrite mxE row_zero // mul0r.
    + move=> i. have Evl : (\col_(k < n) (f k / L)) l 0 = L^-1 by rewrite mxE F1 mul1r.
      rewrite Ed Evl normrM normfV (ger0_norm (ltW L0)) mulrC ler_pmul2r ?invr_gt0 //. exact: row_near.
Qed.
Lemma solved_deficient : ok = false -> deficient M (emb eps) l.
Proof.
  move=> Eok. case: (Hf) => F1 F2 _ [_ /(_ Eok) [i [Li Hi Ht]]]. exists w. split.
  - by rewrite mxE.
  - move=> j Lj. by rewrite mxE F2.
  - move=> j Lj. rewrite -Habs (emb_lt HC) => Le. by rewrite mxE row_zero.
  - split.
    + move=> j. rewrite -Habs (emb_le HC) => Le. case: (ltngtP j l) => Lj; [exact: row_apart|exact: row_high|by rewrite (ord_inj Lj) row_l].
    + have Hn : (i < n)%N by exact: ltn_trans (ltn_ord l). move: Hi. rewrite -[i]/(val (Ordinal Hn)) /gsh eqxx mxfE => Hi.
      exists (Ordinal Hn). rewrite -Habs (emb_lt HC) row_d; last exact: ltnW. rewrite row_zero // mulr0 add0r -normrN -Habs (emb_lt HC). by split.
Qed.
End Column.

Lemma upper_step_ok (Mm E TT : Mat.Matrix K) n (M ME : 'M[K]_n) (l : 'I_n) fs tf : (forall a b : 'I_n, (b < a)%N -> M a b = 0) ->
  is_mx Mm M -> is_mx E ME -> is_mat TT n n tf -> (forall a b : 'I_n, a != b -> tf a b = M a b) -> (forall a, ME a l = 0) ->
  exists E' T' fs' (ME' : 'M[K]_n) tf', [/\ upper_step cnorm cabs ofr Num.sqrt eps Mm n l (E, TT, fs) = Ok (E', T', fs'), is_mx E' ME',
    is_mat T' n n tf', (forall a b : 'I_n, a != b -> tf' a b = M a b) &
    [/\ (forall a b, b != l -> ME' a b = ME a b),
      (fs' = fs /\ eigcol M (emb eps) l (col l ME')) \/
      (fs' = false /\ (forall a, ME' a l = 0) /\ deficient M (emb eps) l) & True]].
Proof.
  move=> upM HM HE HT Htf Hz. have Hs := shape_mx (is_mx_reads HM). have Ll := elimT ssrnat.ltP (ltn_ord l).
  have Hn : (0 < n)%N by exact: leq_trans (ltn_ord l).
  have Fn : fits n. { case: Hs => _ [_ F]. apply: (fits_le _ _ _ F). rewrite -[(n * n)%coq_nat]/(n * n)%N. apply/ssrnat.leP. exact: leq_pmulr. }
  rewrite /upper_step vec_fill_ok // bindOk (is_mat_at _ _ _ _ _ _ HM Ll Ll) bindOk mxfE.
  have [T1 [-> HT1]] := shift_diagonal_ok (M l l) HM HT. rewrite bindOk.
  have [V0 [-> HV0]] := vec_set o1 (vec_fill0 HC Fn) (ltn_ord l). rewrite bindOk (o1E HO) in HV0 *.
  have HT1' : is_mat T1 n n (gsh M l).
    apply: is_mat_ext; first exact: HT1. move=> a b /ssrnat.ltP Ha /ssrnat.ltP Hb /=. rewrite /gsh. case: (eqVneq a b) => // N.
    by rewrite -[a]/(val (Ordinal Ha)) -[b]/(val (Ordinal Hb)) mxfE Htf.
  have [V [ok [f [-> HVv Hf]]]] := back_ok HT1' (ltn_ord l) HV0. rewrite bindOk.
  set tf1 := fun a b : nat => if a == b then mxf M a a - M l l else tf a b in HT1.
  have Htf1 (a b : 'I_n) : a != b -> tf1 a b = M a b. { move=> N. rewrite /tf1. have -> : (a == b :> nat) = false by apply/negbTE. exact: Htf. }
  case: ok Hf => Hf.
  - rewrite (C40_square_norm_vector HU cnorm Num.sqrt HVv) bindOk.
    have -> : Num.sqrt (\sum_(i < n) cnorm (f i)) = clen cnorm (\col_(i < n) f i) by rewrite /clen; congr (Num.sqrt _); apply: eq_bigr => i _; rewrite mxE.
    have C0 : 0 < clen cnorm (\col_(i < n) f i) by exact: lt_le_trans (clen_w Hf).
    have N0 : emb (clen cnorm (\col_(i < n) f i)) != 0 by rewrite fmorph_eq0 gt_eqF.
    have [|E' [-> HE']] := column_loop (q := fun i => f i / emb (clen cnorm (\col_(i < n) f i))) (body := fun i E =>
      let* v := lget V i in let* q := odiv v (ofr (clen cnorm (\col_(i < n) f i))) in mat_set E i l q) HE (ltn_ord l).
      move=> i E1 Li. have Hi : (i < n)%N by exact: leq_ltn_trans (ltn_ord l).
      by rewrite (is_vec_get _ _ _ _ HVv (elimT ssrnat.ltP Hi)) bindOk Hofr HD // bindOk.
    rewrite bindOk. have HE2 := is_mx_mat HE'. set ME' := fmx _ _ _ in HE2.
    exists E', T1, fs, ME', tf1. split=> //.
    split=> //.
    + move=> a b N. rewrite mxE. have -> : (b == l :> nat) = false by apply/negbTE. by rewrite mxfE.
    + left. split=> //. have -> : col l ME' = \col_i (f i / emb (clen cnorm (\col_(i < n) f i))); last exact: solved_eigcol Hf isT.
      apply/colP => a. rewrite !mxE eqxx /=. case: leqP => La //. case: Hf => _ F2 _ _. by rewrite mxfE Hz F2 // mul0r.
  - have [|E' [-> HE']] := column_loop (q := fun i => 0) (body := fun i E => mat_set E i l o0) HE (ltn_ord l).
      by move=> i E1 _; rewrite (o0E HO).
    rewrite bindOk. have HE2 := is_mx_mat HE'. set ME' := fmx _ _ _ in HE2.
    exists E', T1, false, ME', tf1. split=> //. split=> //.
    + move=> a b N. rewrite mxE. have -> : (b == l :> nat) = false by apply/negbTE. by rewrite mxfE.
    + right. split=> //. split.
      * move=> a. rewrite mxE eqxx /=. case: leqP => // _. by rewrite mxfE Hz.
      * exact: solved_deficient Hf erefl.
Qed.

(** For every upper triangular M: each column l of the matrix returned is a unit
    eigenvector for M(l,l), up to epsilon in the rows whose diagonal element is nearer
    than epsilon to M(l,l), or it is zero and there is no such vector; the flag returned says whether none is zero. *)
Theorem C98_eigenvectors (Mm : Mat.Matrix K) n (M : 'M[K]_n) : is_mx Mm M -> (forall a b : 'I_n, (b < a)%N -> M a b = 0) ->
  exists E fullset (ME : 'M[K]_n), [/\ eigenvectorUpper cnorm cabs ofr Num.sqrt eps Mm = Ok (E, fullset), is_mx E ME,
    (forall l : 'I_n, eigcol M (emb eps) l (col l ME) \/
       (col l ME = 0 /\ deficient M (emb eps) l)) &
    fullset = false <-> exists l : 'I_n, col l ME = 0].
Proof.
  move=> HM upM. have Hs := shape_mx (is_mx_reads HM). have [Er _] := HM. rewrite /eigenvectorUpper Er.
  have [E0 [-> HE0]] := mat_new_ok n n (o0 : K) Hs. rewrite bindOk (mat_copy_ok _ _ _ _ HM) bindOk.
  have HE0' : is_mx E0 (0 : 'M[K]_n).
    apply: is_mat_ext; first exact: HE0. move=> a b /ssrnat.ltP Ha /ssrnat.ltP Hb.
    by rewrite -[a]/(val (Ordinal Ha)) -[b]/(val (Ordinal Hb)) mxfE mxE (o0E HO).
  pose good (ME : 'M[K]_n) (l : 'I_n) := eigcol M (emb eps) l (col l ME) \/
       (col l ME = 0 /\ deficient M (emb eps) l).
  have [||[[E TT] fs] [-> [ME [tf [/= H1 H2 H3 [H4 H5 H6]]]]]] := for_range_inv (fun k (s : Mat.Matrix K * Mat.Matrix K * bool) =>
     exists (ME : 'M[K]_n) tf, [/\ is_mx s.1.1 ME, is_mat s.1.2 n n tf, (forall a b : 'I_n, a != b -> tf a b = M a b) &
       [/\ (forall a b : 'I_n, (b < n - k)%N -> ME a b = 0), (forall l : 'I_n, (n - k <= l)%N -> good ME l) &
         s.2 = false <-> exists l : 'I_n, (n - k <= l)%N /\ col l ME = 0]]) 0 n
    (fun k => upper_step cnorm cabs ofr Num.sqrt eps Mm n (n - 1 - k)%coq_nat) (E0, Mm, true) (Nat.le_0_l _).
  - exists 0, (mxf M). split; [exact: HE0'|exact: HM|by move=> a b _; rewrite mxfE|]. rewrite subn0. split.
    + by move=> a b _; rewrite mxE.
    + by move=> l; rewrite leqNgt ltn_ord.
    + split=> // -[l [L _]]. by move: L; rewrite leqNgt ltn_ord.
  - move=> k [[E TT] fs] [_ /ssrnat.ltP Lk] [ME [tf [H1 H2 H3 [H4 H5 H6]]]].
    have Ei : (n - 1 - k)%coq_nat = (n - k.+1)%N by rewrite -[(n - 1 - k)%coq_nat]/(n - 1 - k)%N -subnDA add1n.
    rewrite Ei. have Hl : (n - k.+1 < n)%N by rewrite ltn_subrL; move: Lk; case: (n).
    have el : (n - k)%N = (n - k.+1).+1 by rewrite subnSK.
    pose l := Ordinal Hl. have Hz a : ME a l = 0 by apply: H4; rewrite el /=.
    have [E' [T' [fs' [ME' [tf' [Es G1 G2 G3 [G4 G5 _]]]]]]] := upper_step_ok fs upM HM H1 H2 H3 Hz.
    exists (E', T', fs'). split; first exact: Es. exists ME', tf'. split; [exact: G1|exact: G2|exact: G3|].
    have other (l' : 'I_n) : (n - k <= l')%N -> col l' ME' = col l' ME.
      move=> L'. apply/colP => a. rewrite !mxE G4 // -val_eqE /=. rewrite gtn_eqF // -el. exact: L'.
    have split_l (l' : 'I_n) : (n - k.+1 <= l')%N -> l' = l \/ (n - k <= l')%N.
      rewrite leq_eqVlt => /orP [/eqP E1|L1]; [left; apply: ord_inj; by rewrite -E1|right; by rewrite el].
    split.
    + move=> a b Lb. rewrite G4; first by apply: H4; rewrite el ltnS; exact: ltnW. by rewrite -val_eqE /= ltn_eqF.
    + move=> l' /split_l [->|L']; last by rewrite /good (other _ L'); exact: H5.
      case: G5 => [[_ X]|[_ [X1 X2]]]; [by left|right]. split=> //. apply/colP => a. by rewrite !mxE X1.
    + have nz : eigcol M (emb eps) l (col l ME') -> col l ME' <> 0.
        move=> [_ _ N _] Z. by move: N; rewrite Z mxE eqxx.
      case: G5 => [[-> X]|[-> [X1 X2]]].
      * split.
        -- move/H6 => [l' [L' Z]]. exists l'. rewrite other //. split=> //. apply: leq_trans L'. rewrite el. exact: leqnSn.
        -- move=> [l' [/split_l [->|L'] Z]]; first by case: (nz X). apply/H6. exists l'. split=> //. by rewrite -other.
      * split=> // _. exists l. split; first exact: leqnn. apply/colP => a. by rewrite !mxE X1.
  rewrite subnn in H4 H5 H6. exists E, fs, ME. split=> //.
  - move=> l. exact: H5.
  - split; first by move/H6 => [l [_ Z]]; exists l. move=> [l Z]. apply/H6. by exists l.
Qed.
(** The two cases exclude each other. *)
Theorem C98_deficient n (M : 'M[K]_n) (e : K) (l : 'I_n) : (forall a b : 'I_n, (b < a)%N -> M a b = 0) -> 0 < e ->
  deficient M e l -> forall v, ~ eigcol M e l v.
Proof.
  move=> upM e0 [w [W1 W2 W3 [W4 [i [Li Ni Di]]]]] v [_ V2 V3 [_ V5 V6 V7]].
  pose u : 'cV[K]_n := v - v l 0 *: w.
  have du a : (M *m u - M l l *: u) a 0 = (M *m v - M l l *: v) a 0 - v l 0 * (M *m w - M l l *: w) a 0.
    rewrite /u mulmxBr scalerBr -scalemxAr !scalerA [M l l * _]mulrC -scalerA.
    have -> : M *m v - v l 0 *: (M *m w) - (M l l *: v - v l 0 *: (M l l *: w)) = (M *m v - M l l *: v) - v l 0 *: (M *m w - M l l *: w).
      by rewrite scalerBr !opprD addrACA.
    by rewrite [LHS]mxE [X in _ + X]mxE [X in _ - X]mxE.
  have uE a : u a 0 = v a 0 - v l 0 * w a 0 by rewrite [LHS]mxE [X in _ + X]mxE [X in _ - X]mxE.
  have u0 m : (m <= n)%N -> forall a : 'I_n, (n - m <= a)%N -> u a 0 = 0.
    elim: m => [_ a|m IH Lm a]; first by rewrite subn0 leqNgt ltn_ord.
    rewrite leq_eqVlt => /orP [/eqP Ea|La]; last by apply: (IH (ltnW Lm)); rewrite -subnSK.
    have hi (b : 'I_n) : (a < b)%N -> u b 0 = 0 by move=> Lb; apply: (IH (ltnW Lm)); rewrite -(subnSK Lm) Ea.
    case: (ltngtP a l) => Lal; last 2 first.
    - by rewrite uE V2 // W2 // mulr0 subr0.
    - by rewrite (ord_inj Lal) uE W1 mulr1 subrr.
    case: (real_leP (gtr0_real e0) (normr_real (M a a - M l l))) => [Ap|Nr].
    - have := du a. rewrite V5 // W4 // mulr0 subr0 mxE [X in _ + X]mxE [X in _ - X]mxE mxE (bigD1 a) //= big1 ?addr0.
        rewrite -mulrBl => /eqP. rewrite mulf_eq0 => /orP [/eqP E|/eqP //]. move: Ap. by rewrite E normr0 (lt_geF e0).
      move=> b Nb. case: (ltngtP b a) => Lb; [by rewrite upM // mul0r|by rewrite hi // mulr0|].
      by case/eqP: Nb; exact: ord_inj.
    - by rewrite uE V6 // W3 // mulr0 subr0.
  have := du i. have -> : u = 0 by apply/colP => a; rewrite (u0 n) ?leqnn ?subnn // mxE.
  rewrite mulmx0 scaler0 subr0 mxE => /esym/eqP. rewrite subr_eq0 => /eqP E. have := V7 i. rewrite E normrM mulrC ler_pmul2r ?normr_gt0 //.
  by rewrite (lt_geF Di).
Qed.
(** If the diagonal elements are pairwise at least epsilon apart, the flag is set, M E = E D
    with D the diagonal of M, and E is invertible. *)
Theorem C98_eigenbasis (Mm : Mat.Matrix K) n (M : 'M[K]_n) : is_mx Mm M -> (forall a b : 'I_n, (b < a)%N -> M a b = 0) ->
  (forall a b : 'I_n, a != b -> emb eps <= `|M a a - M b b|) ->
  exists E (ME : 'M[K]_n), [/\ eigenvectorUpper cnorm cabs ofr Num.sqrt eps Mm = Ok (E, true), is_mx E ME,
    M *m ME = ME *m diag_mx (\row_i M i i), ME \in unitmx & forall l : 'I_n, \sum_i `|ME i l| ^+ 2 = 1].
Proof.
  move=> HM upM Ap. have [E [fs [ME [Es HE Hc Hfs]]]] := C98_eigenvectors HM upM.
  have good (l : 'I_n) : eigcol M (emb eps) l (col l ME).
    case: (Hc l) => // -[_ [w [_ _ _ [_ [i [Li H' _]]]]]]. have N : i != l by rewrite -val_eqE /= ltn_eqF.
    by have := Ap i l N; rewrite (lt_geF H').
  have Efs : fs = true.
    case: fs Hfs {Es} => // H. have [l Z] := proj1 H erefl. have [_ _ N _] := good l. by move: N; rewrite Z mxE eqxx.
  exists E, ME. rewrite Efs in Es. split=> //.
  - apply/matrixP => a l. have [_ _ _ [D1 D2 _ _]] := good l. rewrite mul_mx_diag [RHS]mxE [X in _ * X]mxE mulrC.
    have D : (M *m col l ME - M l l *: col l ME) a 0 = 0.
      case: (eqVneq a l) => [->|N]; [exact: D1|apply: D2; exact: Ap].
    move: D. rewrite mxE [X in _ + X]mxE [X in _ - X]mxE [col l ME a 0]mxE => /eqP. rewrite subr_eq0 => /eqP <-.
    rewrite !mxE. by apply: eq_bigr => j _; rewrite mxE.
  - rewrite unitmxE -det_tr det_trig; last first.
      apply/is_trig_mxP => i j L. have [_ Z _ _] := good i. have := Z j L. by rewrite !mxE.
    rewrite unitfE. apply/prodf_neq0 => i _. have [_ _ N _] := good i. by move: N; rewrite !mxE.
  - move=> l. have [S1 _ _ _] := good l. rewrite -[RHS]S1. by apply: eq_bigr => i _; rewrite mxE.
Qed.
End Tri.
