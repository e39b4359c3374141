(** PropFloatSum.v: C89, sums and products of doubles: how far the computed result is
    from the exact one, when it is exact, and when it is not finite. *)
From Coq Require Import ZArith QArith Qabs Qpower Bool Lia Lqa SpecFloat List Permutation.
From Verif Require Import LinalgFacts2 PropUtil PropMath Float FloatFacts FloatValid FloatRound FloatIOFacts FloatArith FloatSum PropFloat PropFloatIO.
Import ListNotations.
Local Open Scope nat_scope.

(** * Specification *)
(** Unit of rounding; half of the smallest positive double; the numbers from here on are rounded to infinity. *)
Definition unit : Q := (2 ^ (-53))%Q.
Definition tiny : Q := (2 ^ (-1075))%Q.
Definition limit : Q := (2 ^ 1024 - 2 ^ 970)%Q.
(** (1 + unit)^n, the growth of the error over n operations. *)
Definition growth (n : nat) : Q := ((1 + unit) ^ Z.of_nat n)%Q.
(** g 0 + ... + g (n-1), exactly. *)
Fixpoint qsum (n : nat) (g : nat -> Q) : Q := match n with 0 => 0%Q | S n => (qsum n g + g n)%Q end.
Fixpoint zsum (n : nat) (g : nat -> Z) : Z := match n with 0 => 0%Z | S n => (zsum n g + g n)%Z end.
(** [z] is the double nearest to [v], or infinite exactly when v is out of range. *)
Definition correctly_rounded (v : Q) (z : double) : Prop :=
  (nearest_double v z /\ (Qabs v < limit)%Q) \/ (z = inf false /\ (limit <= v)%Q) \/ (z = inf true /\ (v <= - limit)%Q).
(** A finite [z] is [v] up to a relative error. *)
Definition rel_close (v : Q) (z : double) : Prop := is_finite z -> (Qabs (dval z - v) <= unit * Qabs v)%Q.
(** The same, but near zero the error is absolute. *)
Definition abs_close (v : Q) (z : double) : Prop :=
  is_finite z -> (Qabs (dval z - v) <= unit * Qabs v \/ Qabs (dval z - v) <= tiny /\ Qabs v < 2 ^ (-1022))%Q.
Definition doubles (n : nat) (f : nat -> double) : Prop := forall i, i < n -> is_double (f i).
Definition finites (n : nat) (f : nat -> double) : Prop := forall i, i < n -> is_finite (f i).
(** Every element is an integer k i times 2^e. *)
Definition multiples (n : nat) (f : nat -> double) (k : nat -> Z) (e : Z) : Prop :=
  forall i, i < n -> is_finite (f i) /\ (dval (f i) == inject_Z (k i) * 2 ^ e)%Q.

(** * Translation *)
Lemma growth_gr n : (growth n == gr n)%Q.
Proof.
  induction n as [|n IH]; [reflexivity|]. unfold growth in *. rewrite Nat2Z.inj_succ, <- Z.add_1_r, Qpower_plus, IH by discriminate. reflexivity.
Qed.
Lemma limit_huge : (limit == huge53)%Q. Proof. reflexivity. Qed.
Lemma not_inf (z : double) : is_finite z -> forall s, z <> inf s. Proof. intros H s ->. exact H. Qed.
Lemma close_rel v z : close prec64 emax64 v z -> rel_close v z.
Proof. intros [[_ H]|[[s H] L]] F; [exact H|exfalso; now apply (not_inf z F s)]. Qed.
Lemma close_abs v z : close_u prec64 emax64 v z -> abs_close v z.
Proof. intros [[_ H]|[[s H] L]] F; [exact H|exfalso; now apply (not_inf z F s)]. Qed.
Lemma fmt2 : (0 < prec64)%Z /\ (2 <= emax64)%Z. Proof. unfold prec64, emax64. lia. Qed.
Lemma fmt3 : (1 < prec64)%Z /\ (prec64 < emax64)%Z. Proof. unfold prec64, emax64. lia. Qed.
Lemma crt_correct v z : is_double z -> crt prec64 emax64 v z -> correctly_rounded v z.
Proof.
  intros Hz C. destruct fmt2 as [P1 P3], fmt3 as [P4 P5]. destruct (crt_range prec64 emax64 P1 P3 v z P4 P5 Hz C) as [[F L]|[[E L]|[E L]]].
  - left. split; [|now rewrite limit_huge]. split; [exact Hz|]. split; [exact F|]. intros y Hy Fy. exact (crt_nearest prec64 emax64 P1 v z y C F Hy Fy).
  - right. left. now rewrite limit_huge.
  - right. right. now rewrite limit_huge.
Qed.

Section C89.
Variable tol : double.
(** The operations of double, with the tolerance of the comparisons. *)
#[local] Instance Od : Ops double := fops tol.

(** * Sums *)
Lemma sum_bounds n f : doubles n f -> is_double (osum n f) /\
  (is_finite (osum n f) -> finites n f /\ (Qabs (dval (osum n f) - qsum n (fun i => dval (f i))) <= (growth (n - 1) - 1) * qsum n (fun i => Qabs (dval (f i))))%Q) /\
  (finites n f -> (growth (n - 1) * qsum n (fun i => Qabs (dval (f i))) < limit)%Q -> is_finite (osum n f)).
Proof.
  intros Hd. split; [now apply (osum_double tol)|]. split.
  - intros Hf. destruct (osum_err tol n f Hd Hf) as [FA B]. split; [exact FA|]. rewrite growth_gr. exact B.
  - intros Hf HH. rewrite growth_gr, limit_huge in HH. now apply (osum_finite tol).
Qed.
Theorem C89_sum : forall v n f, is_vec v n f -> doubles n f -> exists s, sum v = Ok s /\ is_double s /\
  (is_finite s -> finites n f /\ (Qabs (dval s - qsum n (fun i => dval (f i))) <= (growth (n - 1) - 1) * qsum n (fun i => Qabs (dval (f i))))%Q) /\
  (finites n f -> (growth (n - 1) * qsum n (fun i => Qabs (dval (f i))) < limit)%Q -> is_finite s).
Proof. intros v n f Hv Hd. exists (osum n f). split; [exact (C39_sum v n f Hv)|now apply sum_bounds]. Qed.
Theorem C89_trace : forall A r c f, reads A r c f -> r <= c -> doubles r (fun i => f i i) -> exists s, trace A = Ok s /\ is_double s /\
  (is_finite s -> finites r (fun i => f i i) /\ (Qabs (dval s - qsum r (fun i => dval (f i i))) <= (growth (r - 1) - 1) * qsum r (fun i => Qabs (dval (f i i))))%Q) /\
  (finites r (fun i => f i i) -> (growth (r - 1) * qsum r (fun i => Qabs (dval (f i i))) < limit)%Q -> is_finite s).
Proof. intros A r c f HA Hr Hd. eexists. split; [exact (C39_trace A r c f HA Hr)|exact (sum_bounds r (fun i => f i i) Hd)]. Qed.

(** * Sums of products *)
(** [s] is the computed sum of the n products. *)
Definition dot_bounds (n : nat) (x y : nat -> double) (s : double) : Prop :=
  is_double s /\
  (is_finite s -> finites n x /\ finites n y /\ (Qabs (dval s - qsum n (fun i => dval (x i) * dval (y i))) <=
    (growth n - 1) * qsum n (fun i => Qabs (dval (x i) * dval (y i))) + inject_Z (Z.of_nat n) * growth (n - 1) * tiny)%Q) /\
  (finites n x -> finites n y ->
   (growth n * qsum n (fun i => Qabs (dval (x i) * dval (y i))) + inject_Z (Z.of_nat n) * growth (n - 1) * tiny < limit)%Q -> is_finite s).
Lemma dot_bounds_ok n x y : doubles n x -> doubles n y -> dot_bounds n x y (osum n (fun i => omul (x i) (y i))).
Proof.
  intros Hx Hy. assert (HD : forall i, i < n -> is_double (x i) /\ is_double (y i)) by (intros i Hi; split; [apply Hx|apply Hy]; auto).
  split; [apply (osum_double tol); intros i Hi; now apply (prods_double n x y HD)|]. split.
  - intros Hf. destruct (dot_err tol n x y HD Hf) as [FA B]. split; [intros i Hi; now apply FA|]. split; [intros i Hi; now apply FA|]. rewrite !growth_gr. exact B.
  - intros Fx Fy HH. rewrite !growth_gr, limit_huge in HH. apply (dot_finite tol n x y HD); [intros i Hi; split; [apply Fx|apply Fy]; auto|exact HH].
Qed.
Theorem C89_dot : forall a b n x y, is_vec a n x -> is_vec b n y -> doubles n x -> doubles n y ->
  exists s, dot a b = Ok s /\ dot_bounds n x y s.
Proof. intros a b n x y Ha Hb Hx Hy. destruct (C35_dot a b n x n y Ha Hb) as [_ E]. eexists. split; [exact (E eq_refl)|now apply dot_bounds_ok]. Qed.
Theorem C89_matrix_vector : forall A r c f b y, reads A r c f -> is_vec b c y -> fits r ->
  (forall i, i < r -> doubles c (f i)) -> doubles c y ->
  exists d s, m_mulv A b = Ok d /\ is_vec d r s /\ forall i, i < r -> dot_bounds c (f i) y (s i).
Proof.
  intros A r c f b y HA Hb Hr Hf Hy. destruct (C35_matvec A r c f b c y HA Hb (le_n c) Hr) as (d & E & Hd).
  exists d. eexists. split; [exact E|]. split; [exact Hd|]. intros i Hi. apply dot_bounds_ok; auto.
Qed.
Theorem C89_product : forall A B r n c f g, reads A r n f -> reads B n c g -> shape_ok r c ->
  (forall i, i < r -> doubles n (f i)) -> (forall j, j < c -> doubles n (fun k => g k j)) ->
  exists m s, m_mul A B = Ok m /\ is_mat m r c s /\ forall i j, i < r -> j < c -> dot_bounds n (f i) (fun k => g k j) (s i j).
Proof.
  intros A B r n c f g HA HB Hs Hf Hg. destruct (C33_product A B r n f n c g HA HB Hs) as [_ E]. destruct (E eq_refl) as (m & Em & Hm).
  exists m. eexists. split; [exact Em|]. split; [exact Hm|]. intros i j Hi Hj. unfold mprod. exact (dot_bounds_ok n (f i) (fun k => g k j) (Hf i Hi) (Hg j Hj)).
Qed.

(** * Exact results: integers (e = 0) and other multiples of one power of two *)
Theorem C89_sum_exact : forall v n f k e, is_vec v n f -> multiples n f k e -> (-1074 <= e <= 970)%Z ->
  (zsum n (fun i => Z.abs (k i)) <= 2 ^ 53)%Z ->
  exists s, sum v = Ok s /\ is_finite s /\ (dval s == inject_Z (zsum n k) * 2 ^ e)%Q.
Proof. intros v n f k e Hv Hm He HS. eexists. split; [exact (C39_sum v n f Hv)|exact (osum_exact tol n f k e Hm He HS)]. Qed.
Lemma dot_exact_ok n x y k j a b : doubles n x -> doubles n y -> multiples n x k a -> multiples n y j b ->
  (-1074 <= a + b <= 970)%Z -> (zsum n (fun i => Z.abs (k i * j i)) <= 2 ^ 53)%Z ->
  is_finite (osum n (fun i => omul (x i) (y i))) /\ (dval (osum n (fun i => omul (x i) (y i))) == inject_Z (zsum n (fun i => (k i * j i)%Z)) * 2 ^ (a + b))%Q.
Proof.
  intros Hx Hy Mx My He HS. apply (dot_exact tol n x y k j a b); auto.
  - intros i Hi. split; [apply Hx|apply Hy]; auto.
  - intros i Hi. destruct (Mx i Hi), (My i Hi). auto.
Qed.
Theorem C89_dot_exact : forall u v n x y k j a b, is_vec u n x -> is_vec v n y -> doubles n x -> doubles n y ->
  multiples n x k a -> multiples n y j b -> (-1074 <= a + b <= 970)%Z -> (zsum n (fun i => Z.abs (k i * j i)) <= 2 ^ 53)%Z ->
  exists s, dot u v = Ok s /\ is_finite s /\ (dval s == inject_Z (zsum n (fun i => (k i * j i)%Z)) * 2 ^ (a + b))%Q.
Proof.
  intros u v n x y k j a b Hu Hv Hx Hy Mx My He HS. destruct (C35_dot u v n x n y Hu Hv) as [_ E].
  eexists. split; [exact (E eq_refl)|exact (dot_exact_ok n x y k j a b Hx Hy Mx My He HS)].
Qed.
Theorem C89_product_exact : forall A B r n c f g k l a b, reads A r n f -> reads B n c g -> shape_ok r c ->
  (forall i, i < r -> doubles n (f i) /\ multiples n (f i) (k i) a) ->
  (forall j, j < c -> doubles n (fun t => g t j) /\ multiples n (fun t => g t j) (fun t => l t j) b) ->
  (-1074 <= a + b <= 970)%Z -> (forall i j, i < r -> j < c -> (zsum n (fun t => Z.abs (k i t * l t j)) <= 2 ^ 53)%Z) ->
  exists m s, m_mul A B = Ok m /\ is_mat m r c s /\ forall i j, i < r -> j < c ->
    is_finite (s i j) /\ (dval (s i j) == inject_Z (zsum n (fun t => (k i t * l t j)%Z)) * 2 ^ (a + b))%Q.
Proof.
  intros A B r n c f g k l a b HA HB Hs Hf Hg He HS. destruct (C33_product A B r n f n c g HA HB Hs) as [_ E]. destruct (E eq_refl) as (m & Em & Hm).
  exists m. eexists. split; [exact Em|]. split; [exact Hm|]. intros i j Hi Hj. destruct (Hf i Hi) as [D1 M1]. destruct (Hg j Hj) as [D2 M2].
  exact (dot_exact_ok n (f i) (fun t => g t j) (k i) (fun t => l t j) a b D1 D2 M1 M2 He (HS i j Hi Hj)).
Qed.

(** * Element-wise operations: every element is correctly rounded *)
Theorem C89_add : forall A B r c f g, readsL A r c f -> readsL B r c g -> exists m h, m_add A B = Ok m /\ is_mat m r c h /\
  forall i j, i < r -> j < c -> is_double (f i j) -> is_double (g i j) -> is_finite (f i j) -> is_finite (g i j) ->
  correctly_rounded (dval (f i j) + dval (g i j)) (h i j) /\ rel_close (dval (f i j) + dval (g i j)) (h i j).
Proof.
  intros A B r c f g HA HB. destruct (C32_add A B r c f r c g HA HB) as [_ E]. destruct (E eq_refl eq_refl) as (m & Em & Hm).
  exists m. eexists. split; [exact Em|]. split; [exact Hm|]. intros i j Hi Hj D1 D2 F1 F2. destruct fmt2 as [P1 P3], prec64_ok as [_ P6]. split; [apply crt_correct; [now apply add_valid|now apply add_crt]|]. apply close_rel. now apply add_close.
Qed.
Theorem C89_sub : forall A B r c f g, readsL A r c f -> readsL B r c g -> exists m h, m_sub A B = Ok m /\ is_mat m r c h /\
  forall i j, i < r -> j < c -> is_double (f i j) -> is_double (g i j) -> is_finite (f i j) -> is_finite (g i j) ->
  correctly_rounded (dval (f i j) - dval (g i j)) (h i j) /\ rel_close (dval (f i j) - dval (g i j)) (h i j).
Proof.
  intros A B r c f g HA HB. destruct (C32_sub A B r c f r c g HA HB) as [_ E]. destruct (E eq_refl eq_refl) as (m & Em & Hm).
  exists m. eexists. split; [exact Em|]. split; [exact Hm|]. intros i j Hi Hj D1 D2 F1 F2. destruct fmt2 as [P1 P3], prec64_ok as [_ P6]. split; [apply crt_correct; [now apply sub_valid|now apply sub_crt]|]. apply close_rel. now apply sub_close.
Qed.
Theorem C89_scale : forall A r c f s, readsL A r c f -> is_double s -> is_finite s -> exists m h, m_muls A s = Ok m /\ is_mat m r c h /\
  forall i j, i < r -> j < c -> is_double (f i j) -> is_finite (f i j) -> correctly_rounded (dval (f i j) * dval s) (h i j) /\ abs_close (dval (f i j) * dval s) (h i j).
Proof.
  intros A r c f s HA Ds Fs. destruct (C32_mul_scalar s) as [E _]. destruct (E A r c f HA) as (m & Em & Hm).
  exists m. eexists. split; [exact Em|]. split; [exact Hm|]. intros i j Hi Hj D F. destruct fmt2 as [P1 P3], prec64_ok as [_ P6]. split; [apply crt_correct; [now apply mul_valid|now apply mul_crt]|]. apply close_abs. now apply mul_close.
Qed.
Theorem C89_divide : forall A r c f s, readsL A r c f -> is_double s -> is_finite s -> ~ (dval s == 0)%Q -> exists m h, m_divs A s = Ok m /\ is_mat m r c h /\
  forall i j, i < r -> j < c -> is_double (f i j) -> is_finite (f i j) -> correctly_rounded (dval (f i j) / dval s) (h i j) /\ abs_close (dval (f i j) / dval s) (h i j).
Proof.
  intros A r c f s HA Ds Fs Ns. destruct (@C32_div_scalar double Od s (fun x => SFdiv prec64 emax64 x s) (fun x => eq_refl) A r c f HA) as (m & Em & Hm).
  exists m. eexists. split; [exact Em|]. split; [exact Hm|]. intros i j Hi Hj D F. destruct fmt2 as [P1 P3], prec64_ok as [_ P6]. split; [apply crt_correct; [now apply div_valid|now apply div_crt]|]. apply close_abs. now apply div_close.
Qed.
End C89.

(** * What does not hold *)
Definition dbl (m : positive) (e : Z) : double := S754_finite false m e.
(** The underflow term is needed. *)
Theorem C89_no_underflow_refuted : exists a b x y s, is_vec a 1 x /\ is_vec b 1 y /\ doubles 1 x /\ doubles 1 y /\
  @dot _ (fops tol6) a b = Ok s /\ is_finite s /\
  ~ (Qabs (dval s - qsum 1 (fun i => dval (x i) * dval (y i))) <= (growth 1 - 1) * qsum 1 (fun i => Qabs (dval (x i) * dval (y i))))%Q.
Proof.
  pose (h := dbl (2 ^ 52) (-652)). exists [h], [h], (fun _ => h), (fun _ => h), (S754_zero false).
  assert (V : is_vec [h] 1 (fun _ => h)) by (split; [reflexivity|split; [vm_compute; reflexivity|intros i Hi; now replace i with 0 by lia]]).
  split; [exact V|]. split; [exact V|]. split; [intros i _; reflexivity|]. split; [intros i _; reflexivity|]. split; [vm_compute; reflexivity|]. split; [exact I|].
  intros H. vm_compute in H. apply H. reflexivity.
Qed.
(** The order of the elements matters. *)
Theorem C89_order_refuted : exists v w s t, Permutation v w /\ Forall is_double v /\ @sum _ (fops tol6) v = Ok s /\ @sum _ (fops tol6) w = Ok t /\
  is_finite s /\ is_finite t /\ ~ (dval s == dval t)%Q.
Proof.
  pose (a := dbl (2 ^ 52) 1). pose (o := dbl (2 ^ 52) (-52)). exists [a; o; o], [o; o; a], (dbl (2 ^ 52) 1), (dbl (2 ^ 52 + 1) 1).
  split; [apply Permutation_sym; change [o; o; a] with ([o; o] ++ [a]); change [a; o; o] with ([a] ++ [o; o]); apply Permutation_app_comm|].
  split; [repeat constructor|]. split; [vm_compute; reflexivity|]. split; [vm_compute; reflexivity|]. split; [exact I|]. split; [exact I|].
  intros H. vm_compute in H. discriminate.
Qed.
(** Products of matrices are not associative. *)
Definition one_by_one (x : double) : Mat.Matrix double := mkM 1 1 [x].
Theorem C89_associative_refuted : exists a b c ab bc s t, is_double a /\ is_double b /\ is_double c /\
  @m_mul _ (fops tol6) (mb_of_mat (one_by_one a)) (mb_of_mat (one_by_one b)) = Ok ab /\
  @m_mul _ (fops tol6) (mb_of_mat (one_by_one b)) (mb_of_mat (one_by_one c)) = Ok bc /\
  @m_mul _ (fops tol6) (mb_of_mat ab) (mb_of_mat (one_by_one c)) = Ok (one_by_one s) /\
  @m_mul _ (fops tol6) (mb_of_mat (one_by_one a)) (mb_of_mat bc) = Ok (one_by_one t) /\
  is_finite s /\ is_finite t /\ ~ (dval s == dval t)%Q.
Proof.
  exists (dbl (2 ^ 52) (-652)), (dbl (2 ^ 52) (-652)), (dbl (2 ^ 52) 548).
  eexists. eexists. eexists. eexists. split; [reflexivity|]. split; [reflexivity|]. split; [reflexivity|].
  split; [vm_compute; reflexivity|]. split; [vm_compute; reflexivity|]. split; [vm_compute; reflexivity|]. split; [vm_compute; reflexivity|].
  split; [exact I|]. split; [exact I|]. intros H. vm_compute in H. discriminate.
Qed.

(** * A concrete case: 0.1 + 0.2 + 0.3, not exact; and 1 + 2 + 3, exact. *)
Definition tenths : list double := [dbl 7205759403792794 (-56); dbl 7205759403792794 (-55); dbl 5404319552844595 (-54)].
Definition small_ints : list double := [dbl (2 ^ 52) (-52); dbl (2 ^ 52) (-51); dbl (3 * 2 ^ 51) (-51)].
Example C89_witness : let f := fun i => nth i tenths nan in
  is_vec tenths 3 f /\ doubles 3 f /\ finites 3 f /\ (growth 2 * qsum 3 (fun i => Qabs (dval (f i))) < limit)%Q /\
  (exists s, @sum _ (fops tol6) tenths = Ok s /\ is_finite s /\ ~ (dval s == qsum 3 (fun i => dval (f i)))%Q) /\
  let g := fun i => nth i small_ints nan in
  is_vec small_ints 3 g /\ multiples 3 g (fun i => Z.of_nat (S i)) 0 /\ (zsum 3 (fun i => Z.abs (Z.of_nat (S i))) <= 2 ^ 53)%Z.
Proof.
  cbv zeta. split.
  { split; [reflexivity|]. split; [vm_compute; reflexivity|]. intros i Hi. destruct i as [|[|[|i]]]; try reflexivity; lia. }
  split; [intros i Hi; destruct i as [|[|[|i]]]; try reflexivity; lia|]. split; [intros i Hi; destruct i as [|[|[|i]]]; try exact I; lia|].
  split; [vm_compute; reflexivity|]. split.
  { eexists. split; [vm_compute; reflexivity|]. split; [exact I|]. intros H. vm_compute in H. discriminate. }
  split. { split; [reflexivity|]. split; [vm_compute; reflexivity|]. intros i Hi. destruct i as [|[|[|i]]]; try reflexivity; lia. }
  split; [|vm_compute; discriminate]. intros i Hi. destruct i as [|[|[|i]]]; try lia; (split; [exact I|vm_compute; reflexivity]).
Qed.
