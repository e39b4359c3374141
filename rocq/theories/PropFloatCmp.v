(** PropFloatCmp.v: C92, what the comparisons and searches of finite doubles say about the numbers. *)
From Coq Require Import ZArith QArith Qabs Qpower Qminmax Bool Lia Lqa SpecFloat List.
From Verif Require Import LinalgFacts2 PropUtil PropMath Feq Float FloatFacts FloatValid FloatRound FloatIOFacts FloatArith FloatSum FloatCmp FloatMono PropFloat PropFloat2 PropFloatIO PropFloatSum PropColumns.
Import ListNotations.
Local Open Scope nat_scope.

(** * Specification *)
(** Finite doubles, as they are stored. *)
Definition proper (x : double) : Prop := is_double x /\ is_finite x.
Definition all_proper (r c : nat) (f : nat -> nat -> double) : Prop := forall i j, i < r -> j < c -> proper (f i j).
Definition vec_proper (n : nat) (f : nat -> double) : Prop := forall i, i < n -> proper (f i).
(** [g] is the truth table of a relation between the numbers. *)
Definition decides (R : Q -> Q -> Prop) (r c : nat) (fa fb : nat -> nat -> double) (g : nat -> nat -> bool) : Prop :=
  forall i j, i < r -> j < c -> (g i j = true <-> R (dval (fa i j)) (dval (fb i j))).
(** The larger of the two magnitudes. *)
Definition size (x y : double) : Q := Qmax (Qabs (dval x)) (Qabs (dval y)).

(** * Translation *)
Lemma lt_val x y : proper x -> proper y -> (SFltb x y = true <-> (dval x < dval y)%Q).
Proof. intros [Vx Fx] [Vy Fy]. destruct fmt2 as [P1 _]. exact (ltb_val prec64 emax64 P1 x y Vx Vy Fx Fy). Qed.
Lemma le_val x y : proper x -> proper y -> (SFleb x y = true <-> (dval x <= dval y)%Q).
Proof. intros [Vx Fx] [Vy Fy]. destruct fmt2 as [P1 _]. exact (leb_val prec64 emax64 P1 x y Vx Vy Fx Fy). Qed.
Lemma abs_val x : proper x -> proper (SFabs x) /\ (dval (SFabs x) == Qabs (dval x))%Q.
Proof.
  intros [V F]. destruct x as [s|s| |s m e]; try contradiction.
  - split; [split; [reflexivity|exact I]|reflexivity].
  - split; [split; [exact V|exact I]|]. cbn [SFabs dval]. pose proof (mpos_val m e) as P. destruct s; rewrite <- !Qmult_assoc, Qabs_Qmult, (Qabs_pos (inject_Z (Zpos m) * _)) by lra; reflexivity.
Qed.
Lemma proper_nan x : proper x -> x <> nan. Proof. intros [_ F] ->. exact F. Qed.

Section C92.
Variable tol : double.
#[local] Instance Oc : Ops double := fops tol.
(** * The operators <, <=, >, >= compare the numbers. *)
Theorem C92_order : forall A B r c fa fb, readsL A r c fa -> readsL B r c fb -> all_proper r c fa -> all_proper r c fb ->
  (exists m g, m_lt A B = Ok m /\ is_mat m r c g /\ decides Qlt r c fa fb g) /\
  (exists m g, m_le A B = Ok m /\ is_mat m r c g /\ decides Qle r c fa fb g) /\
  (exists m g, m_gt A B = Ok m /\ is_mat m r c g /\ decides (fun x y => Qlt y x) r c fa fb g) /\
  (exists m g, m_ge A B = Ok m /\ is_mat m r c g /\ decides (fun x y => Qle y x) r c fa fb g).
Proof.
  intros A B r c fa fb HA HB Pa Pb. destruct (@C36_compare double Oc) as (_ & _ & L1 & L2 & G1 & G2).
  destruct (proj2 (L1 A B _ _ _ _ _ _ HA HB) eq_refl eq_refl) as (m1 & E1 & M1). destruct (proj2 (L2 A B _ _ _ _ _ _ HA HB) eq_refl eq_refl) as (m2 & E2 & M2).
  destruct (proj2 (G1 A B _ _ _ _ _ _ HA HB) eq_refl eq_refl) as (m3 & E3 & M3). destruct (proj2 (G2 A B _ _ _ _ _ _ HA HB) eq_refl eq_refl) as (m4 & E4 & M4).
  split; [|split; [|split]]; (eexists; eexists; split; [eassumption|]; split; [eassumption|]); intros i j Hi Hj; cbn [olt ole Oc fops];
    (apply lt_val || apply le_val); auto.
Qed.
(** * min and max of finite numbers: the first one of the least (greatest). *)
Theorem C92_min : forall v n f, is_vec v n f -> 0 < n -> vec_proper n f -> exists pos, min_v v = Ok (f pos, pos) /\ pos < n /\
  (forall k, k < n -> (dval (f pos) <= dval (f k))%Q) /\ (forall k, k < pos -> (dval (f pos) < dval (f k))%Q).
Proof.
  intros v n f Hv Hn Hp. destruct (C85_min tol v n f Hv Hn) as [_ H]. destruct (H (proper_nan _ (Hp 0 Hn))) as (pos & E & P & _ & A & B).
  exists pos. split; [exact E|]. split; [exact P|]. split.
  - intros k Hk. specialize (A k Hk (proper_nan _ (Hp k Hk))). destruct (Qlt_le_dec (dval (f k)) (dval (f pos))) as [L|L]; [|exact L].
    apply (lt_val (f k) (f pos)) in L; auto. congruence.
  - intros k Hk. apply lt_val; auto; [apply Hp; lia|]. apply B; [exact Hk|]. apply proper_nan, Hp. lia.
Qed.
Theorem C92_max : forall v n f, is_vec v n f -> 0 < n -> vec_proper n f -> exists pos, max_v v = Ok (f pos, pos) /\ pos < n /\
  (forall k, k < n -> (dval (f k) <= dval (f pos))%Q) /\ (forall k, k < pos -> (dval (f k) < dval (f pos))%Q).
Proof.
  intros v n f Hv Hn Hp. destruct (C85_max tol v n f Hv Hn) as [_ H]. destruct (H (proper_nan _ (Hp 0 Hn))) as (pos & E & P & _ & A & B).
  exists pos. split; [exact E|]. split; [exact P|]. split.
  - intros k Hk. specialize (A k Hk (proper_nan _ (Hp k Hk))). cbv beta in A. destruct (Qlt_le_dec (dval (f pos)) (dval (f k))) as [L|L]; [|exact L].
    apply (lt_val (f pos) (f k)) in L; auto. congruence.
  - intros k Hk. apply lt_val; auto; [apply Hp; lia|]. apply B; [exact Hk|]. apply proper_nan, Hp. lia.
Qed.
Theorem C92_matrix_min_max : forall m r c f, is_mat m r c f -> 0 < r -> 0 < c -> all_proper r c f ->
  (exists d g, min_m m = Ok d /\ is_vec d c g /\ forall j, j < c -> (exists i, i < r /\ g j = f i j) /\ forall k, k < r -> (dval (g j) <= dval (f k j))%Q) /\
  (exists d g, max_m m = Ok d /\ is_vec d c g /\ forall j, j < c -> (exists i, i < r /\ g j = f i j) /\ forall k, k < r -> (dval (f k j) <= dval (g j))%Q).
Proof.
  intros m r c f H Hr Hc Hp. assert (Fr : fits r) by (apply (fits_le _ (r * c)); [nia|apply H]).
  destruct (@C38_columns double Oc m r c f H Hr Hc) as [(d & g & E & Hd & Q) (d' & g' & E' & Hd' & Q')].
  split; [exists d, g|exists d', g']; (split; [assumption|]); (split; [assumption|]); intros j Hj.
  - destruct (Q j Hj) as (pos & P). destruct (C92_min _ r (fun i => f i j) (column_vec f r j Fr) Hr) as (p & B1 & B2 & B3 & _); [intros i Hi; now apply Hp|].
    rewrite B1 in P. injection P as P1 P2. rewrite <- P1. split; [exists p; auto|exact B3].
  - destruct (Q' j Hj) as (pos & P). destruct (C92_max _ r (fun i => f i j) (column_vec f r j Fr) Hr) as (p & B1 & B2 & B3 & _); [intros i Hi; now apply Hp|].
    rewrite B1 in P. injection P as P1 P2. rewrite <- P1. split; [exists p; auto|exact B3].
Qed.

(** * Comparison with a tolerance *)
(** A difference and a product that stay in range. *)
Lemma in_range_fin w z : valid_binary prec64 emax64 z = true -> crt prec64 emax64 w z -> (Qabs w < huge53)%Q -> is_finite z.
Proof.
  intros V C L. destruct fmt2 as [P1 P3], fmt3 as [P4 P5]. pose proof (Qle_Qabs w) as A. pose proof (Qle_Qabs (- w)) as B. rewrite Qabs_opp in B.
  destruct (crt_range prec64 emax64 P1 P3 w z P4 P5 V C) as [[F _]|[[_ H]|[_ H]]]; [exact F|exfalso; unfold huge53 in *; lra|exfalso; unfold huge53 in *; lra].
Qed.
Lemma sub_facts x y : proper x -> proper y -> is_double (SFsub prec64 emax64 x y) /\ crt prec64 emax64 (dval x - dval y) (SFsub prec64 emax64 x y).
Proof. intros [Vx Fx] [Vy Fy]. destruct fmt2 as [P1 P3]. split; [now apply sub_valid|exact (sub_crt prec64 emax64 P1 x y Fx Fy)]. Qed.
Lemma abs_inf_le t s : is_finite t -> SFleb (SFabs (inf s)) t = false /\ SFltb t (SFabs (inf s)) = true.
Proof. destruct t as [b|b| |b m e]; try contradiction; intros _; split; (reflexivity || (destruct b; reflexivity)). Qed.
(** How the computed |x - y| compares with a finite double t. *)
Lemma diff_le x y t : proper x -> proper y -> proper t -> (Qabs (dval x - dval y) <= dval t)%Q -> SFleb (SFabs (SFsub prec64 emax64 x y)) t = true.
Proof.
  intros Hx Hy [Vt Ft] H. destruct (sub_facts x y Hx Hy) as [V C]. destruct fmt2 as [P1 P3], fmt3 as [P4 P5].
  pose proof (valid_below prec64 emax64 P1 t P5 Vt Ft) as TB. pose proof (Qle_Qabs (dval t)) as TA. change (sval t) with (dval t) in TB.
  assert (F : is_finite (SFsub prec64 emax64 x y)) by (apply (in_range_fin (dval x - dval y)); [exact V|exact C|]; eapply Qle_lt_trans; [exact H|]; eapply Qle_lt_trans; [exact TA|exact TB]).
  destruct (abs_val _ (conj V F)) as [PA EA]. apply le_val; [exact PA|split; auto|]. rewrite EA.
  apply Qabs_case; intros _.
  - apply (crt_le prec64 emax64 P1 (dval x - dval y) _ t C F V Ft Vt). pose proof (Qle_Qabs (dval x - dval y)). change (sval t) with (dval t). lra.
  - assert (VO : is_double (SFopp t)) by (destruct t; auto). assert (FO : is_finite (SFopp t)) by (destruct t; auto).
    assert (EO : (dval (SFopp t) == - dval t)%Q) by (destruct t as [b|b| |b m e]; try contradiction; [reflexivity|destruct b; cbn [SFopp negb dval]; ring]).
    assert (G : (dval (SFopp t) <= dval (SFsub prec64 emax64 x y))%Q).
    { apply (crt_ge prec64 emax64 P1 (dval x - dval y) _ (SFopp t) C F V FO VO). change (sval (SFopp t)) with (dval (SFopp t)). rewrite EO.
      pose proof (Qle_Qabs (- (dval x - dval y))) as QA. rewrite Qabs_opp in QA. lra. }
    rewrite EO in G. lra.
Qed.
Lemma diff_le_inv x y t : proper x -> proper y -> proper t -> SFleb (SFabs (SFsub prec64 emax64 x y)) t = true -> ((1 - unit) * Qabs (dval x - dval y) <= dval t)%Q.
Proof.
  intros Hx Hy Ht H. destruct (sub_facts x y Hx Hy) as [V C]. destruct Hx as [Vx Fx], Hy as [Vy Fy]. destruct fmt2 as [P1 P3].
  destruct (sub_close prec64 emax64 P1 P3 x y Vx Vy Fx Fy) as [[F B]|[[s E] _]].
  - destruct (abs_val _ (conj V F)) as [PA EA]. apply le_val in H; [|exact PA|exact Ht]. rewrite EA in H.
    change (sval (SFsub prec64 emax64 x y)) with (dval (SFsub prec64 emax64 x y)) in B. change (sval x - sval y)%Q with (dval x - dval y)%Q in B. change (uu prec64) with unit in B.
    pose proof (Qabs_triangle (dval x - dval y - dval (SFsub prec64 emax64 x y)) (dval (SFsub prec64 emax64 x y))) as T.
    assert (X : (dval x - dval y - dval (SFsub prec64 emax64 x y) + dval (SFsub prec64 emax64 x y) == dval x - dval y)%Q) by ring. rewrite X in T. rewrite (Qabs_Qminus (dval x - dval y) (dval (SFsub prec64 emax64 x y))) in T.
    assert (Y : ((1 - unit) * Qabs (dval x - dval y) == Qabs (dval x - dval y) - unit * Qabs (dval x - dval y))%Q) by ring. rewrite Y. lra.
  - rewrite E in H. change (S754_infinity s) with (inf s) in H. rewrite (proj1 (abs_inf_le t s (proj2 Ht))) in H. discriminate.
Qed.
Lemma ltb_leb x y : proper y -> x <> nan -> SFltb y x = false <-> SFleb x y = true.
Proof.
  intros [Vy Fy] Nx. destruct x as [s|s| |s m e], y as [s'|s'| |s' m' e']; try contradiction; try (now elim Nx); unfold SFltb, SFleb, SFcompare;
    try (split; reflexivity); try (destruct s; split; (reflexivity || discriminate)); try (destruct s'; split; (reflexivity || discriminate)).
  rewrite (Z.compare_antisym e e'). rewrite !Pos.compare_cont_spec. rewrite (Pos.compare_antisym m m'). cbn [Pos.switch_Eq].
  destruct s, s'; try (split; (reflexivity || discriminate)); destruct (e ?= e')%Z; cbn [CompOpp]; try (split; (reflexivity || discriminate)); destruct (Pos.compare m m'); cbn [CompOpp Pos.switch_Eq]; split; (reflexivity || discriminate).
Qed.
Lemma diff_nan x y : proper x -> proper y -> SFabs (SFsub prec64 emax64 x y) <> nan.
Proof.
  intros Hx Hy. destruct (sub_facts x y Hx Hy) as [_ C]. destruct (SFsub prec64 emax64 x y) eqn:E; try discriminate. exfalso.
  destruct Hx as [Vx Fx], Hy as [Vy Fy]. destruct fmt2 as [P1 P3]. destruct (sub_close prec64 emax64 P1 P3 x y Vx Vy Fx Fy) as [[F _]|[[s S] _]]; [rewrite E in F; exact F|congruence].
Qed.
(** all_close: true if no two elements differ by more than the tolerance; and then they do not differ by more than
    the tolerance with a relative error of one rounding. *)
Theorem C92_all_close : forall A B r c fa fb t, readsL A r c fa -> readsL B r c fb -> all_proper r c fa -> all_proper r c fb -> proper t ->
  exists b, all_close A B t = Ok b /\
    ((forall i j, i < r -> j < c -> (Qabs (dval (fa i j) - dval (fb i j)) <= dval t)%Q) -> b = true) /\
    (b = true -> forall i j, i < r -> j < c -> ((1 - unit) * Qabs (dval (fa i j) - dval (fb i j)) <= dval t)%Q).
Proof.
  intros A B r c fa fb t HA HB Pa Pb Ht. destruct (@C31_all_close double Oc A B r c fa fb t HA HB) as (b & E & Q). exists b. split; [exact E|].
  cbn [olt oabs osub Oc fops] in Q. split.
  - intros H. apply Q. intros i j Hi Hj. apply ltb_leb; [exact Ht|apply diff_nan; auto|]. apply diff_le; auto.
  - intros Eb i j Hi Hj. apply diff_le_inv; auto. apply ltb_leb; [exact Ht|apply diff_nan; auto|]. now apply (proj1 Q Eb).
Qed.
(** approximately_equal *)
Lemma pack_opp s R e : pack prec64 emax64 (negb s) R e = SFopp (pack prec64 emax64 s R e).
Proof. unfold pack. destruct (R =? 2 ^ prec64)%Z; [destruct (2 ^ (prec64 - 1))%Z|destruct R]; try reflexivity; destruct (_ <=? _)%Z; reflexivity. Qed.
Lemma dval_opp z : (dval (SFopp z) == - dval z)%Q.
Proof. destruct z as [b|b| |b m e]; try reflexivity. destruct b; cbn [SFopp negb dval]; ring. Qed.
Lemma crt_opp w z : crt prec64 emax64 w z -> crt prec64 emax64 (- w) (SFopp z).
Proof.
  intros [[F E]|(s & v & Hv & E & (R & e1 & -> & H))].
  - left. split; [destruct z; auto|]. change (dval (SFopp z) == - w)%Q. rewrite dval_opp. change (dval z) with (sval z). rewrite E. reflexivity.
  - right. exists (negb s), v. split; [exact Hv|]. split; [rewrite E; destruct s; cbn [sgn negb]; ring|]. exists R, e1. split; [symmetry; apply pack_opp|exact H].
Qed.
Lemma max_val x y : proper x -> proper y -> proper (@std_max double fops0 (SFabs x) (SFabs y)) /\ (dval (@std_max double fops0 (SFabs x) (SFabs y)) == size x y)%Q.
Proof.
  intros Hx Hy. destruct (abs_val x Hx) as [Px Ex], (abs_val y Hy) as [Py Ey]. unfold std_max, size. cbn [olt fops0]. pose proof (lt_val _ _ Px Py) as L. rewrite Ex, Ey in L.
  destruct (SFltb (SFabs x) (SFabs y)).
  - split; [exact Py|]. rewrite Ey. symmetry. apply Q.max_r. assert (Qabs (dval x) < Qabs (dval y))%Q by now apply L. lra.
  - split; [exact Px|]. rewrite Ex. symmetry. apply Q.max_l. destruct (Qlt_le_dec (Qabs (dval x)) (Qabs (dval y))) as [G|G]; [apply L in G; discriminate|exact G].
Qed.
Lemma prod_proper t z : proper t -> proper z -> (0 <= dval t <= 1)%Q -> (0 <= dval z)%Q -> proper (SFmul prec64 emax64 t z) /\ crt prec64 emax64 (dval t * dval z) (SFmul prec64 emax64 t z).
Proof.
  intros [Vt Ft] [Vz Fz] [T0 T1] Z0. destruct fmt2 as [P1 P3], fmt3 as [P4 P5], prec64_ok as [_ P6].
  assert (V : is_double (SFmul prec64 emax64 t z)) by (apply mul_valid; auto). pose proof (mul_crt prec64 emax64 P1 t z Vt Vz Ft Fz) as C || pose proof (mul_crt prec64 emax64 P1 P3 t z Vt Vz Ft Fz) as C.
  split; [|exact C]. split; [exact V|]. apply (in_range_fin _ _ V C). pose proof (valid_below prec64 emax64 P1 z P5 Vz Fz) as ZB. rewrite Qabs_Qmult.
  eapply Qle_lt_trans; [|exact ZB]. change (sval t) with (dval t). change (sval z) with (dval z). rewrite (Qabs_pos (dval t)) by exact T0.
  pose proof (Qmult_le_compat_r _ _ (Qabs (dval z)) T1 (Qabs_nonneg _)) as M. lra.
Qed.
Lemma size_nonneg x y : (0 <= size x y)%Q.
Proof. unfold size. eapply Qle_trans; [apply Qabs_nonneg|apply Q.le_max_l]. Qed.
Lemma equal_val t x y : proper t -> (0 <= dval t <= 1)%Q -> proper x -> proper y ->
  ((Qabs (dval x - dval y) <= dval t * size x y)%Q -> feq t x y = true) /\
  (feq t x y = true -> ((1 - unit) * Qabs (dval x - dval y) <= (1 + unit) * (dval t * size x y) + tiny)%Q).
Proof.
  intros Ht Tr Hx Hy. destruct (max_val x y Hx Hy) as [PM EM]. pose proof (size_nonneg x y) as S0. unfold approximately_equal. cbn [ole oabs osub omul fops0].
  set (M := @std_max double fops0 (SFabs x) (SFabs y)) in *. destruct (prod_proper t M Ht PM Tr) as [PP C]; [rewrite EM; exact S0|]. destruct fmt2 as [P1 P3], fmt3 as [P4 P5]. split.
  - intros H. rewrite <- EM in H. destruct (sub_facts x y Hx Hy) as [V CS].
    assert (B : (Qabs (dval t * dval M) < huge53)%Q).
    { destruct Ht as [Vt Ft], PM as [VM FM]. pose proof (valid_below prec64 emax64 P1 M P5 VM FM) as ZB. rewrite Qabs_Qmult, (Qabs_pos (dval t)) by apply Tr.
      eapply Qle_lt_trans; [|exact ZB]. pose proof (Qmult_le_compat_r _ _ (Qabs (dval M)) (proj2 Tr) (Qabs_nonneg _)) as X. change (sval M) with (dval M). lra. }
    assert (F : is_finite (SFsub prec64 emax64 x y)).
    { apply (in_range_fin _ _ V CS). eapply Qle_lt_trans; [exact H|]. eapply Qle_lt_trans; [apply Qle_Qabs|exact B]. }
    destruct (abs_val _ (conj V F)) as [PA EA]. apply le_val; [exact PA|exact PP|]. rewrite EA. destruct PP as [VP FP]. apply Qabs_case; intros _.
    + apply (crt_mono prec64 emax64 P1 (dval x - dval y) (dval t * dval M) _ _); auto. eapply Qle_trans; [apply Qle_Qabs|exact H].
    + rewrite <- dval_opp. apply (crt_mono prec64 emax64 P1 (- (dval x - dval y)) (dval t * dval M) _ _); auto.
      * eapply Qle_trans; [apply Qle_Qabs|]. rewrite Qabs_opp. exact H.
      * now apply crt_opp.
      * destruct (SFsub prec64 emax64 x y); auto.
      * unfold is_double in V. destruct (SFsub prec64 emax64 x y); auto.
  - intros H. pose proof (diff_le_inv x y _ Hx Hy PP H) as D. eapply Qle_trans; [exact D|]. destruct Ht as [Vt Ft], PM as [VM FM].
    pose proof (Qmult_le_0_compat _ _ (proj1 Tr) S0) as TS. assert (EP : (dval t * dval M == dval t * size x y)%Q) by (rewrite EM; reflexivity).
    pose proof (uu_pos prec64) as U0. change (uu prec64) with unit in U0. pose proof (Qmult_le_0_compat unit (dval t * size x y) ltac:(lra) TS) as US.
    assert (T0 : (0 <= tiny)%Q) by (vm_compute; discriminate). pose proof (Qle_Qabs (dval (SFmul prec64 emax64 t M) - dval t * dval M)) as QA.
    assert (Y : ((1 + unit) * (dval t * size x y) == dval t * size x y + unit * (dval t * size x y))%Q) by ring. rewrite Y.
    destruct (mul_close prec64 emax64 P1 P3 t M Vt VM Ft FM) as [[_ [B|[B _]]]|[[s E] _]].
    + change (sval (SFmul prec64 emax64 t M)) with (dval (SFmul prec64 emax64 t M)) in B. change (sval t * sval M)%Q with (dval t * dval M)%Q in B. change (uu prec64) with unit in B. rewrite EP in B, QA. rewrite (Qabs_pos (dval t * size x y)) in B by exact TS. lra.
    + change (sval (SFmul prec64 emax64 t M)) with (dval (SFmul prec64 emax64 t M)) in B. change (sval t * sval M)%Q with (dval t * dval M)%Q in B. change (eta prec64 emax64) with tiny in B. rewrite EP in B, QA. lra.
    + destruct PP as [_ FP]. rewrite E in FP. contradiction.
Qed.
(** A == B: true wherever the elements differ by at most the tolerance times the larger magnitude, and only where this
    holds up to two roundings. *)
Theorem C92_equal : forall A B r c fa fb, readsL A r c fa -> readsL B r c fb -> all_proper r c fa -> all_proper r c fb -> proper tol -> (0 <= dval tol <= 1)%Q ->
  exists m g, m_eq A B = Ok m /\ is_mat m r c g /\ forall i j, i < r -> j < c ->
    ((Qabs (dval (fa i j) - dval (fb i j)) <= dval tol * size (fa i j) (fb i j))%Q -> g i j = true) /\
    (g i j = true -> ((1 - unit) * Qabs (dval (fa i j) - dval (fb i j)) <= (1 + unit) * (dval tol * size (fa i j) (fb i j)) + tiny)%Q).
Proof.
  intros A B r c fa fb HA HB Pa Pb Ht Tr. destruct (@C36_compare double Oc) as (L & _). destruct (proj2 (L A B _ _ _ _ _ _ HA HB) eq_refl eq_refl) as (m & E & M).
  exists m. eexists. split; [exact E|]. split; [exact M|]. intros i j Hi Hj. apply equal_val; auto.
Qed.
(** The approximate order: at least the exact one, and at most the exact one with the tolerance. *)
Theorem C92_less_equal : forall x y, proper x -> proper y -> proper tol -> (0 <= dval tol <= 1)%Q ->
  ((dval x <= dval y)%Q -> fle tol x y = true /\ fge tol y x = true) /\
  (fle tol x y = true \/ fge tol y x = true -> ((1 - unit) * (dval x - dval y) <= (1 + unit) * (dval tol * size x y) + tiny)%Q).
Proof.
  intros x y Hx Hy Ht Tr. destruct (equal_val tol x y Ht Tr Hx Hy) as [E1 E2]. destruct (equal_val tol y x Ht Tr Hy Hx) as [E1' E2'].
  pose proof (lt_val x y Hx Hy) as L. unfold approximately_lesser_than_equal, approximately_greater_than_equal. cbn [olt fops0].
  assert (SY : (size y x == size x y)%Q) by apply Q.max_comm. pose proof (size_nonneg x y) as S0. pose proof (Qmult_le_0_compat _ _ (proj1 Tr) S0) as TS.
  assert (U1 : (0 <= 1 - unit)%Q) by (vm_compute; discriminate). assert (U2 : (0 <= 1 + unit)%Q) by (vm_compute; discriminate). assert (T0 : (0 <= tiny)%Q) by (vm_compute; discriminate).
  pose proof (Qmult_le_0_compat _ _ U2 TS) as P. split.
  - intros H. destruct (Qlt_le_dec (dval x) (dval y)) as [G|G].
    + apply L in G. rewrite G. auto.
    + assert (Z : (dval x - dval y == 0)%Q) by lra. assert (Z' : (dval y - dval x == 0)%Q) by lra. rewrite E1, E1'; [now rewrite !orb_true_r|rewrite Z', SY; exact TS|rewrite Z; exact TS].
  - intros H. assert (K : SFltb x y = true \/ feq tol x y = true \/ feq tol y x = true) by (destruct H as [H|H]; apply orb_true_iff in H; tauto).
    destruct K as [K|[K|K]].
    + apply L in K. assert (N : (0 <= (1 - unit) * (dval y - dval x))%Q) by (apply Qmult_le_0_compat; lra).
      assert (X : ((1 - unit) * (dval x - dval y) == - ((1 - unit) * (dval y - dval x)))%Q) by ring. rewrite X. lra.
    + apply E2 in K. eapply Qle_trans; [|exact K]. rewrite !(Qmult_comm (1 - unit)). apply Qmult_le_compat_r; [apply Qle_Qabs|exact U1].
    + apply E2' in K. rewrite SY in K. eapply Qle_trans; [|exact K]. rewrite !(Qmult_comm (1 - unit)). apply Qmult_le_compat_r; [|exact U1]. rewrite Qabs_Qminus. apply Qle_Qabs.
Qed.
End C92.

(** * A concrete case, with the tolerance of malg: 1, and 1 with the last digit changed. *)
Definition one_up : double := S754_finite false (2 ^ 52 + 1) (-52).
Example C92_witness : let A := mb_of_mat (mkM 1 2 [one; one]) in let B := mb_of_mat (mkM 1 2 [one_up; dbl (2 ^ 52) (-51)]) in
  let fa := fun _ _ : nat => one in let fb := fun _ j => nth j [one_up; dbl (2 ^ 52) (-51)] nan in
  readsL A 1 2 fa /\ readsL B 1 2 fb /\ all_proper 1 2 fa /\ all_proper 1 2 fb /\ proper tol6 /\ (0 <= dval tol6 <= 1)%Q /\
  @m_eq double (fops tol6) A B = Ok (mkM 1 2 [true; false]) /\ @m_lt double (fops tol6) A B = Ok (mkM 1 2 [true; true]) /\
  @all_close double (fops tol6) A B tol6 = Ok false /\ @all_close double (fops tol6) A B one = Ok true.
Proof.
  cbv zeta. split; [|split; [|split; [|split; [|split; [|split; [|split; [|split; [|split]]]]]]]].
  1, 2: apply is_mat_readsL; split; [reflexivity|]; split; [reflexivity|]; split; [repeat split; vm_compute; reflexivity|]; split; [reflexivity|];
    intros i j Hi Hj; replace i with 0 by lia; destruct j as [|[|j]]; try reflexivity; lia.
  1, 2: intros i j Hi Hj; destruct j as [|[|j]]; try lia; split; (reflexivity || exact I).
  - split; [reflexivity|exact I].
  - split; vm_compute; discriminate.
  - vm_compute; reflexivity.
  - vm_compute; reflexivity.
  - vm_compute; reflexivity.
  - vm_compute; reflexivity.
Qed.
(** The slack is needed: 1 and -2^-60 are within 1 of each other for all_close, although they differ by more. *)
Theorem C92_all_close_exact_refuted : ~ (forall A B fa fb t, readsL A 1 1 fa -> readsL B 1 1 fb -> all_proper 1 1 fa -> all_proper 1 1 fb -> proper t ->
  @all_close double (fops tol6) A B t = Ok true -> (Qabs (dval (fa 0%nat 0%nat) - dval (fb 0%nat 0%nat)) <= dval t)%Q).
Proof.
  intros H. specialize (H (mb_of_mat (mkM 1 1 [one])) (mb_of_mat (mkM 1 1 [S754_finite true (2 ^ 52) (-112)])) (fun _ _ => one) (fun _ _ => S754_finite true (2 ^ 52) (-112)) one).
  assert (X : (Qabs (dval one - dval (S754_finite true (2 ^ 52) (-112))) <= dval one)%Q).
  { apply H.
    1, 2: apply is_mat_readsL; split; [reflexivity|]; split; [reflexivity|]; split; [repeat split; vm_compute; reflexivity|]; split; [reflexivity|];
      intros i j Hi Hj; replace i with 0 by lia; replace j with 0 by lia; reflexivity.
    1, 2: intros i j Hi Hj; split; (reflexivity || exact I).
    - split; [reflexivity|exact I].
    - vm_compute; reflexivity. }
  revert X. vm_compute. intros X. now apply X.
Qed.
