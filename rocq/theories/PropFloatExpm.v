(** PropFloatExpm.v: C93, the norm, log2_ceil and expm of doubles: what the norm is when there are
    NaN and infinities, that the two loops end, and what scale they find. *)
From Coq Require Import ZArith QArith Qabs Qpower Bool Lia Lqa SpecFloat List.
From Verif Require Import LinalgFacts2 PropUtil PropMath ControlFacts Feq Float FloatFacts FloatValid FloatRound FloatIOFacts FloatArith FloatSum FloatCmp FloatMono PropFloat PropFloat2 PropFloatIO PropFloatSum PropFloatCmp FloatLoop.
Import ListNotations.
Local Open Scope nat_scope.

(** * Specification *)
(** A number that is not negative, or +infinity. *)
Definition nonneg (x : double) : Prop := (proper x /\ (0 <= dval x)%Q) \/ x = inf false.

Lemma abs_nonneg x : is_double x -> SFabs x = nan \/ nonneg (SFabs x).
Proof.
  intros V. destruct x as [s|s| |s m e]; [| |left; reflexivity|]; right.
  - left. split; [split; [reflexivity|exact I]|]. apply Qle_refl.
  - right. reflexivity.
  - destruct (abs_val (S754_finite s m e)) as [P E]; [split; [exact V|exact I]|]. left. split; [exact P|]. rewrite E. apply Qabs_nonneg.
Qed.
Lemma add_nonneg x y : (x = nan \/ nonneg x) -> (y = nan \/ nonneg y) -> SFadd prec64 emax64 x y = nan \/ nonneg (SFadd prec64 emax64 x y).
Proof.
  intros [->|[[[Vx Fx] X0]| ->]] [->|[[[Vy Fy] Y0]| ->]]; try (left; reflexivity); try (right; right; reflexivity).
  - left. destruct x; reflexivity.
  - destruct fmt2 as [P1 P3], fmt3 as [P4 P5]. assert (V : is_double (SFadd prec64 emax64 x y)) by (apply double_ops; auto). pose proof (add_crt prec64 emax64 P1 x y Fx Fy) as C. change (sval x + sval y)%Q with (dval x + dval y)%Q in C.
    destruct zero_proper as [[V0 F0] E0]. destruct (crt_range prec64 emax64 P1 P3 _ _ P4 P5 V C) as [[F _]|[[E _]|[_ B]]].
    + right. left. split; [split; auto|]. rewrite <- E0. apply (crt_ge prec64 emax64 P1 _ _ (S754_zero false) C F V F0 V0). change (sval (S754_zero false)) with 0%Q. lra.
    + right. right. exact E.
    + exfalso. assert (0 < huge prec64 emax64)%Q by (unfold huge; apply Qmult_lt_0_compat; [reflexivity|apply q2_pos]). lra.
  - right. right. destruct x as [s|s| |s m e]; try contradiction; reflexivity.
  - right. right. destruct y as [s|s| |s m e]; try contradiction; reflexivity.
Qed.

Section C93.
Variable tol : double.
#[local] Instance Oe : Ops double := fops tol.
Definition row_sum (f : nat -> nat -> double) (c i : nat) : double := osum c (fun j => SFabs (f i j)).
Lemma osum_nonneg n g : (forall i, i < n -> g i = nan \/ nonneg (g i)) -> osum n g = nan \/ nonneg (osum n g).
Proof.
  induction n as [|n IH]; intros H; cbn [osum].
  - right. left. split; [split; [reflexivity|exact I]|]. apply Qle_refl.
  - apply add_nonneg; [apply IH; intros; apply H; lia|apply H; lia].
Qed.
(** * The infinity norm is never NaN: it is zero or the largest row sum, and rows whose sum is NaN do not count. *)
Theorem C93_infinity_norm : forall m r c f, is_mat m r c f -> (forall i j, i < r -> j < c -> is_double (f i j)) ->
  exists x, infinity_norm_m SFabs (mb_of_mat m) = Ok x /\ nonneg x /\
    (x = S754_zero false \/ exists i, i < r /\ x = row_sum f c i) /\ (0 < c -> forall i, i < r -> SFltb x (row_sum f c i) = false).
Proof.
  intros m r c f H Hd. assert (HR := is_mat_reads _ _ _ _ H). destruct HR as (Ar & Ac & _ & _ & Ag). assert (Z0 : nonneg (S754_zero false)) by (left; split; [split; [reflexivity|exact I]|apply Qle_refl]).
  unfold infinity_norm_m. destruct (mempty (mb_of_mat m)) eqn:EM.
  - exists (S754_zero false). split; [reflexivity|]. split; [exact Z0|]. split; [auto|]. intros Hc i Hi. exfalso. cbn [mempty mb_of_mat] in EM. destruct H as (Er & Ec & _). rewrite Er, Ec in EM. destruct r; [lia|]. destruct c; [lia|]. discriminate.
  - rewrite Ar, Ac.
    match goal with |- exists x, for_range 0 r ?bd ?s = _ /\ _ => destruct (for_range_inv (fun k x => nonneg x /\ (x = S754_zero false \/ exists i, i < k /\ x = row_sum f c i) /\ forall i, i < k -> SFltb x (row_sum f c i) = false) 0 r bd s) as (x & E & Q1 & Q2 & Q3) end.
    + lia.
    + split; [exact Z0|]. split; [auto|lia].
    + intros i x Hi (Q1 & Q2 & Q3). rewrite (sum_loop c _ (fun j => SFabs (f i j))) by (intros j s Hj; rewrite Ag by lia; reflexivity). cbn [bind].
      fold (row_sum f c i). cbn [olt Oe fops]. eexists. split; [reflexivity|].
      assert (RS : row_sum f c i = nan \/ nonneg (row_sum f c i)) by (apply osum_nonneg; intros j Hj; apply abs_nonneg, Hd; lia).
      assert (NN : forall y, nonneg y -> y <> nan) by (intros y [[[_ F] _]| ->]; [intros ->; exact F|discriminate]).
      destruct (SFltb x (row_sum f c i)) eqn:L.
      * assert (N : row_sum f c i <> nan) by (intros N; rewrite N in L; now rewrite (proj1 (ltb_nan x)) in L). destruct RS as [RS|RS]; [contradiction|].
        split; [exact RS|]. split; [right; exists i; auto|]. intros k Hk. destruct (Nat.eq_dec k i) as [->|Nk].
        -- destruct (SFltb (row_sum f c i) (row_sum f c i)) eqn:L'; [|reflexivity]. pose proof (ltb_asym _ _ L'). congruence.
        -- destruct (nan_dec (row_sum f c k)) as [E|Nn]; [rewrite E; apply ltb_nan|]. specialize (Q3 k ltac:(lia)). pose proof (NN x Q1) as Nx.
           destruct (SFltb (row_sum f c i) (row_sum f c k)) eqn:L'; [|reflexivity]. exfalso. apply not_true_iff_false in Q3. apply Q3.
           apply klt_ltb in L; auto. apply klt_ltb in L'; auto. apply klt_ltb; auto. revert L L'. unfold klt.
           destruct (key x) as [[? ?] ?], (key (row_sum f c i)) as [[? ?] ?], (key (row_sum f c k)) as [[? ?] ?]. lia.
      * split; [exact Q1|]. split; [destruct Q2 as [Q2|(k & Hk & Q2)]; [auto|right; exists k; split; [lia|exact Q2]]|]. intros k Hk. destruct (Nat.eq_dec k i) as [->|Nk]; [exact L|apply Q3; lia].
    + exists x. split; [exact E|]. split; [exact Q1|]. split; [exact Q2|]. intros _. exact Q3.
Qed.
(** * log2_ceil ends for every matrix of doubles: after at most 1024 halvings, and then the scale is the
    exact power of two, or after 1075 if the norm is infinite, and then the scale is zero. *)
Theorem C93_log2_ceil : forall m r c f, is_mat m r c f -> (forall i j, i < r -> j < c -> is_double (f i j)) -> exists x, infinity_norm_m SFabs (mb_of_mat m) = Ok x /\
  (is_finite x -> exists k s, k <= 1024 /\ (dval s == 2 ^ (- Z.of_nat k))%Q /\ (dval x <= 2 ^ Z.of_nat k)%Q /\ (forall j, j < k -> (2 ^ Z.of_nat j < dval x)%Q) /\
     forall fuel, 1024 <= fuel -> log2_ceil SFabs half fuel (mb_of_mat m) = Ok (k, s)) /\
  (~ is_finite x -> x = inf false /\ forall fuel, 1075 <= fuel -> log2_ceil SFabs half fuel (mb_of_mat m) = Ok (1075, S754_zero false)).
Proof.
  intros m r c f H Hd. destruct (C93_infinity_norm m r c f H Hd) as (x & E & Hn & _). exists x. split; [exact E|]. unfold log2_ceil. rewrite E. cbn [bind]. split.
  - intros F. destruct Hn as [[P X0]| ->]; [|contradiction]. destruct (log2_finite tol x P X0 1024 0 1024 eq_refl (le_n _)) as (k & K & L & B & J). exists k, (sc k).
    split; [lia|]. split; [apply sc_ok; lia|]. split; [exact B|]. split; [intros j Hj; apply J; lia|]. intros fuel Hf.
    destruct (log2_finite tol x P X0 1024 0 fuel eq_refl Hf) as (k' & K' & L' & B' & J'). refine (eq_trans L' _).
    destruct (Nat.lt_trichotomy k k') as [G|[->|G]]; [|reflexivity|]; exfalso.
    + specialize (J' k ltac:(lia)). apply (Qlt_not_le _ _ J' B).
    + specialize (J k' ltac:(lia)). apply (Qlt_not_le _ _ J B').
  - intros F. destruct Hn as [[[_ P] _]| ->]; [contradiction|]. split; [reflexivity|]. intros fuel Hf. exact (log2_inf tol 1075 0 fuel eq_refl Hf).
Qed.

(** * expm *)
Notation square n m := (exists g, is_mat m n n g).
Lemma mul_total n (a b : Matrix double) : square n a -> square n b -> exists p, m_mul (mb_of_mat a) (mb_of_mat b) = Ok p /\ square n p.
Proof.
  intros (fa & Ha) (fb & Hb). destruct (C33_product (mb_of_mat a) (mb_of_mat b) n n fa n n fb) as [_ G]; try (now apply is_mat_reads); [apply Ha|].
  destruct (G eq_refl) as (p & E & Hp). exists p. split; [exact E|eauto].
Qed.
Lemma iadd_total n (a b : Matrix double) : square n a -> square n b -> exists p, m_iadd Root (fun _ => mb_of_mat b) a = Ok p /\ square n p.
Proof.
  intros (fa & Ha) (fb & Hb). rewrite (proj1 (C32_inplace_is_binary a n n fa (mb_of_mat b) n n fb Ha (is_mat_readsL _ _ _ _ Hb))).
  destruct (C32_add (mb_of_mat a) (mb_of_mat b) n n fa n n fb (is_mat_readsL _ _ _ _ Ha) (is_mat_readsL _ _ _ _ Hb)) as [_ G]. destruct (G eq_refl eq_refl) as (p & E & Hp). exists p. split; [exact E|eauto].
Qed.
Lemma square_shape n (m : Matrix double) : square n m -> shape_ok n n. Proof. intros (f & H). apply H. Qed.
Lemma batch_total n sa : 0 < n -> square n sa -> forall todo k fac mtk acc, 1 <= k -> fac_ok k fac -> square n mtk -> square n acc ->
  exists fac' mtk' acc', expm_batch todo k sa fac mtk acc = Ok (fac', mtk', acc') /\ square n mtk' /\ square n acc' /\
    (fac_ok (k + todo) fac' \/ oisz fac' = true).
Proof.
  intros Hn Hs. induction todo as [|todo IH]; intros k fac mtk acc Hk Hfac Hm Ha; cbn [expm_batch].
  - exists fac, mtk, acc. rewrite Nat.add_0_r. auto.
  - cbn [odiv Oe fops bind]. set (fac1 := omul fac _). assert (F1 : fac_ok (S k) fac1) by exact (fac_step k fac Hk Hfac).
    destruct (ofeq fac1 o0) eqn:T.
    + exists fac1, mtk, acc. split; [reflexivity|]. split; [exact Hm|]. split; [exact Ha|]. right. rewrite <- T. symmetry. apply (tests_agree tol). apply F1.
    + destruct (mul_total n mtk sa Hm Hs) as (p & -> & Hp). cbn [bind]. assert (HP : square n (fst (mat_move_assign mtk p))).
      { destruct Hm as (fm & Hm), Hp as (fp & Hp). exists fp. eapply move_assign_ok; eauto. }
      destruct HP as (fp & HP). destruct (proj1 (C32_mul_scalar fac1) (mb_of_mat (fst (mat_move_assign mtk p))) n n fp (is_mat_readsL _ _ _ _ HP)) as (t & -> & Ht). cbn [bind].
      destruct (iadd_total n acc t Ha ltac:(eauto)) as (acc' & -> & Ha'). cbn [bind].
      destruct (IH (S k) fac1 (fst (mat_move_assign mtk p)) acc' ltac:(lia) F1 ltac:(eauto) Ha') as (f2 & m2 & a2 & E & M2 & A2 & Q). exists f2, m2, a2. rewrite E.
      split; [reflexivity|]. split; [exact M2|]. split; [exact A2|]. now replace (k + S todo) with (S k + todo) by lia.
Qed.
Lemma norm_total (nsqrt : double -> double) (A : MB double) r c f : reads A r c f -> exists x, square_norm_m (fun x => omul x x) nsqrt A = Ok x.
Proof.
  intros (Ar & Ac & _ & _ & Ag). unfold square_norm_m. rewrite Ar, Ac.
  match goal with |- exists x, bind (for_range 0 r ?bd ?s) _ = _ => destruct (for_range_inv (fun _ _ => True) 0 r bd s) as (x & -> & _); [lia|exact I| |eexists; reflexivity] end.
  intros i s Hi _. match goal with |- exists x, for_range 0 c ?bd ?s = _ /\ _ => destruct (for_range_inv (fun _ _ => True) 0 c bd s) as (x & -> & _); [lia|exact I| |eauto] end.
  intros j s' Hj _. rewrite Ag by lia. eexists. split; [reflexivity|exact I].
Qed.
Lemma div_total n (a b : Matrix double) : 0 < n -> square n a -> square n b -> div (mb_of_mat a) (mb_of_mat b) = Throw \/ exists m, div (mb_of_mat a) (mb_of_mat b) = Ok m /\ square n m.
Proof.
  intros Hn Ha (fb & Hb). unfold div. destruct (@inverse_total double Oe (fdiv_total tol) (mb_of_mat b) n fb (is_mat_readsL _ _ _ _ Hb)) as (d & adj & g & _ & _ & _ & [(_ & ->)|(_ & i & -> & Hi)]); cbn [bind].
  - left. destruct Ha as (fa & Ha). unfold m_mul. destruct Ha as (_ & Ec & _). cbn [mb_of_mat mcols mrows mat_empty rows]. rewrite Ec. destruct n; [lia|reflexivity].
  - right. apply mul_total; eauto.
Qed.
Lemma loop_total nsqrt n A sa batch accuracy sqacc : is_finite tol -> 0 < n -> 1 <= batch -> mrows A = n -> mcols A = n -> square n sa ->
  forall fuel start mtk ret fac rel, 1 <= start -> 1077 <= start + fuel -> (fac_ok start fac \/ oisz fac = true) -> square n mtk -> square n ret ->
  expm_loop nsqrt fuel A batch start sa accuracy sqacc mtk ret fac rel = Throw \/ exists E, expm_loop nsqrt fuel A batch start sa accuracy sqacc mtk ret fac rel = Ok E /\ square n E.
Proof.
  intros Ft Hn Hb Ar Ac Hs. induction fuel as [|fuel IH]; intros start mtk ret fac rel H1 Hf Hfac Hm Hr; cbn [expm_loop].
  - assert (Z : oisz fac = true) by (destruct Hfac as [Hfac|Hfac]; [|exact Hfac]; destruct (fac_end start fac ltac:(lia) Hfac) as (s & ->); now apply isz_zero).
    rewrite Z, andb_false_r. right. eauto.
  - destruct (olt sqacc rel && negb (oisz fac)) eqn:T; [|right; eauto]. apply andb_true_iff in T. destruct T as [_ T]. apply negb_true_iff in T.
    destruct Hfac as [Hfac|Hfac]; [|congruence]. rewrite Ar, Ac. destruct (mat_new_ok n n (o0 : double) (square_shape _ _ Hs)) as (acc & -> & Hacc). cbn [bind].
    destruct (batch_total n sa Hn Hs batch start fac mtk acc H1 Hfac Hm ltac:(eauto)) as (fac' & mtk' & acc' & -> & Hm' & Ha' & Q). cbn [bind].
    destruct (iadd_total n ret acc' Hr Ha') as (ret' & -> & Hr'). cbn [bind]. destruct (mul_total n acc' acc' Ha' Ha') as (num & -> & Hnum). cbn [bind].
    destruct (mul_total n ret' ret' Hr' Hr') as (sq & -> & fsq & Hsq). cbn [bind].
    destruct (C32_add_scalar accuracy (mb_of_mat sq) n n fsq (is_mat_readsL _ _ _ _ Hsq)) as (den & -> & Hden). cbn [bind].
    destruct (div_total n num den Hn Hnum ltac:(eauto)) as [->|(err & -> & ferr & Herr)]; [left; reflexivity|]. cbn [bind].
    destruct (norm_total nsqrt (mb_of_mat err) n n ferr (is_mat_reads _ _ _ _ Herr)) as (rel' & ->). cbn [bind]. apply IH; auto; lia.
Qed.
(** expm ends for every square matrix of doubles, every accuracy and every finite tolerance: at most 1076
    terms of the series are added, and at most 1075 squarings are done.  It can throw, when the divisor of its
    convergence test is singular (C85_div). *)
Theorem C93_expm : forall nsqrt m n f accuracy fuel, is_finite tol -> 0 < n -> is_mat m n n f -> (forall i j, i < n -> j < n -> is_double (f i j)) -> 1076 <= fuel ->
  expm nsqrt half fuel (mb_of_mat m) accuracy = Throw \/ exists E g, expm nsqrt half fuel (mb_of_mat m) accuracy = Ok E /\ is_mat E n n g.
Proof.
  intros nsqrt m n f accuracy fuel Ft Hn H Hd Hf. unfold expm.
  assert (EL : exists k s, log2_ceil SFabs half fuel (mb_of_mat m) = Ok (k, s)).
  { destruct (C93_log2_ceil m n n f H Hd) as (x & _ & L1 & L2). assert (D : is_finite x \/ ~ is_finite x) by (destruct x; cbn; auto).
    destruct D as [D|D]; [destruct (L1 D) as (k & s & _ & _ & _ & _ & L); exists k, s; apply L; lia|destruct (L2 D) as [_ L]; do 2 eexists; apply L; lia]. }
  destruct EL as (k & s & EL). change (@oabs double Oe) with SFabs. rewrite EL. cbn [bind]. assert (Hs : square n m) by eauto. pose proof (square_shape n m Hs) as Sh.
  destruct (proj1 (C32_mul_scalar s) (mb_of_mat m) n n f (is_mat_readsL _ _ _ _ H)) as (sa & -> & Hsa). cbn [bind]. cbn [mrows mcols mb_of_mat]. assert (H' := H). destruct H' as (Er & Ec & _). rewrite Er, Ec.
  destruct (C21_eye n n (o1 : double) Hn Hn Sh) as (e & -> & He). cbn [bind]. rewrite mul64_small by now apply shape_size.
  destruct (loop_total nsqrt n (mb_of_mat m) sa (n * n) accuracy (omul (omul (omul accuracy accuracy) s) s) Ft Hn ltac:(nia) Er Ec ltac:(eauto) fuel 1 e e o1 (oadd (omul (omul (omul accuracy accuracy) s) s) o1)) as [->|(E & -> & HE)]; eauto; [lia|left; exact fac_one| ].
  cbn [bind]. right.
  match goal with |- exists _ _, for_range 0 k ?bd E = _ /\ _ => destruct (for_range_inv (fun _ x => square n x) 0 k bd E) as (E' & -> & g & HE'); [lia|exact HE| |exists E', g; auto] end.
  intros i x Hi Hx. destruct (mul_total n x x Hx Hx) as (p & -> & Hp). cbn [bind]. eexists. split; [reflexivity|].
  destruct Hx as (fx & Hx), Hp as (fp & Hp). exists fp. eapply move_assign_ok; eauto.
Qed.
End C93.

(** * Examples *)
Definition m308 : double := S754_finite true 5010420900022432 971.
Definition int (n : nat) : double := natd n.
Definition eye2 : Matrix double := mkM 2 2 [one; S754_zero false; S754_zero false; one].
(** The row -1e308 -1e308 has an infinite sum: the matrix is scaled to zero and the result is the
    identity, although the exponential of the matrix is near (0 -1; 0 1). *)
Definition bigA : Matrix double := mkM 2 2 [m308; m308; S754_zero false; S754_zero false].
Theorem C93_expm_overflow_refuted : (forall x, In x (data bigA) -> proper x) /\ @expm double (fops tol6) (SFsqrt prec64 emax64) half 1076 (mb_of_mat bigA) tol6 = Ok eye2.
Proof. split; [intros x Hx; repeat (destruct Hx as [<-|Hx]; [split; [reflexivity|exact I]|]); contradiction|vm_compute; reflexivity]. Qed.
Example C93_witness : is_finite tol6 /\ is_mat (mkM 2 2 [int 1; int 2; int 3; int 4]) 2 2 (fun i j => int (2 * i + j + 1)) /\
  @infinity_norm_m double double (fops tol6) SFabs (mb_of_mat (mkM 2 2 [int 1; int 2; int 3; int 4])) = Ok (int 7) /\
  @log2_ceil double double (fops tol6) SFabs half 1075 (mb_of_mat (mkM 2 2 [int 1; int 2; int 3; int 4])) = Ok (3, sc 3) /\
  @infinity_norm_m double double (fops tol6) SFabs (mb_of_mat (mkM 2 2 [nan; int 2; int 3; int 4])) = Ok (int 7) /\
  @expm double (fops tol6) (SFsqrt prec64 emax64) half 1076 (mb_of_mat (mkM 1 1 [S754_zero false])) tol6 = Ok (mkM 1 1 [one]) /\
  @expm double (fops tol6) (SFsqrt prec64 emax64) half 1076 (mb_of_mat (mkM 1 1 [S754_zero false])) (SFopp one) = Throw.
Proof.
  split; [exact I|]. split.
  - split; [reflexivity|]. split; [reflexivity|]. split; [repeat split; vm_compute; reflexivity|]. split; [reflexivity|]. intros i j Hi Hj. destruct i as [|[|]]; destruct j as [|[|]]; try lia; reflexivity.
  - split; [vm_compute; reflexivity|]. split; [vm_compute; reflexivity|]. split; [vm_compute; reflexivity|]. split; vm_compute; reflexivity.
Qed.
