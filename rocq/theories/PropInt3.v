(** PropInt3.v: C86 and C87, division, matrix-vector products and comparison of integer elements. *)
From Verif Require Import MatFacts LinalgFacts2 PropUtil PropMath PropLinalg Ints PropInt PropInt2.
Import ListNotations.
Local Open Scope Z_scope.

Section Signed.
Variable w : Z.
Hypothesis Hw : 1 <= w.
Notation SO := (sops w).
Notation lowest := (- 2 ^ (w - 1)).
Lemma quot_range a s : in_range w a -> s <> 0 -> in_range w (Z.quot a s) <-> ~ (a = lowest /\ s = -1).
Proof.
  unfold in_range. assert (P : 0 < 2 ^ (w - 1)) by (apply Z.pow_pos_nonneg; lia). intros Ha Hs. set (M := 2 ^ (w - 1)) in *. clearbody M. split.
  - intros H [-> ->]. assert (E : Z.quot (- M) (-1) = M) by (change (-1) with (- (1)); rewrite Z.quot_opp_r, Z.quot_1_r by lia; lia). rewrite E in H. lia.
  - intros H. destruct (Z.eq_dec s (-1)) as [->|N1].
    + assert (E : Z.quot a (-1) = - a) by (change (-1) with (- (1)); rewrite Z.quot_opp_r, Z.quot_1_r by lia; lia). rewrite E. lia.
    + destruct (Z.eq_dec s 1) as [->|N2]; [rewrite Z.quot_1_r; exact Ha|]. assert (S2 : 2 <= Z.abs s) by (clear - Hs N1 N2; lia). assert (B : Z.abs a <= M) by (clear - Ha; lia).
      assert (Q2 : 2 * Z.abs (Z.quot a s) <= M).
      { rewrite <- Z.quot_abs by exact Hs. rewrite Z.quot_div_nonneg by (clear - S2; lia). pose proof (Z.div_le_compat_l (Z.abs a) 2 (Z.abs s) (Z.abs_nonneg a) (conj eq_refl S2)) as D.
        pose proof (Z.mul_div_le (Z.abs a) 2 eq_refl) as D2. clear - D D2 B. revert D D2 B. generalize (Z.abs a / Z.abs s), (Z.abs a / 2), (Z.abs a). intros; lia. }
      clear - Q2 P. revert Q2. generalize (Z.quot a s). intros; lia.
Qed.
Lemma div_s a s : in_range w a -> odiv (Ops := SO) (Some a) (Some s) =
  if (s =? 0) || ((a =? lowest) && (s =? -1)) then UB else Ok (Some (Z.quot a s)).
Proof.
  intros Ha. cbn [odiv sops]. destruct (Z.eqb_spec s 0) as [->|Hs]; [reflexivity|]. cbn [orb].
  pose proof (quot_range a s Ha Hs) as Q. destruct (in_rangeb w (Z.quot a s)) eqn:E.
  - apply (rangeb_spec w) in E. apply Q in E. destruct (Z.eqb_spec a lowest), (Z.eqb_spec s (-1)); cbn [andb]; auto; exfalso; auto.
  - assert (NR : ~ in_range w (Z.quot a s)) by (intros H; apply (rangeb_spec w) in H; congruence).
    destruct (Z.eqb_spec a lowest), (Z.eqb_spec s (-1)); cbn [andb]; auto; exfalso; apply NR, Q; tauto.
Qed.
(** A / s truncates toward zero; it is undefined exactly when s is zero, or when s is -1 and an
    element is the lowest value. *)
Theorem C86_divide A r c fa s : @readsL (option Z) A r c (ints fa) -> (forall i j, (i < r)%nat -> (j < c)%nat -> in_range w (fa i j)) ->
  (s <> 0 -> (s = -1 -> forall i j, (i < r)%nat -> (j < c)%nat -> fa i j <> lowest) ->
   exists m, @m_divs _ SO A (Some s) = Ok m /\ is_mat m r c (ints (fun i j => Z.quot (fa i j) s))) /\
  (s = 0 -> (0 < r)%nat -> (0 < c)%nat -> @m_divs _ SO A (Some s) = UB) /\
  (s = -1 -> (exists i j, (i < r)%nat /\ (j < c)%nat /\ fa i j = lowest) -> @m_divs _ SO A (Some s) = UB).
Proof.
  intros HA HR.
  assert (UBC : forall i j, (i < r)%nat -> (j < c)%nat -> odiv (Ops := SO) (Some (fa i j)) (Some s) = UB -> @m_divs _ SO A (Some s) = UB).
  { intros i j Hi Hj E. destruct HA as ((Ar & Ac & Az & Sh & _) & Hl). unfold m_divs, mb_map. rewrite Ar, Ac, Az.
    destruct (@mat_new_ok _ SO r c (@o0 _ SO) Sh) as (m & Em & Hm). rewrite Em. cbn [bind]. unfold fill_lin.
    assert (Hk : forall k, (k < r * c)%nat -> (k / c < r)%nat /\ (k mod c < c)%nat) by (intros k Hk; split; [eapply div_lt_rc|eapply mod_lt_rc]; eauto).
    assert (LS : forall k v (m' : Mat.Matrix (option Z)), (length (data m') = r * c)%nat -> (k < r * c)%nat -> exists m'', mat_lset m' k v = Ok m'' /\ (length (data m'') = r * c)%nat).
    { intros k v m' L Hk'. unfold mat_lset, lset. destruct (Nat.ltb_spec k (length (data m'))); [|lia]. cbn [bind]. eexists. split; [reflexivity|]. cbn [data]. rewrite upd_length. exact L. }
    assert (G : forall k0, (k0 <= i * c + j)%nat -> forall m' : Mat.Matrix (option Z), (length (data m') = r * c)%nat ->
      for_range k0 (r * c) (fun k m => let* v := (let* x := mlin A k in @odiv _ SO x (Some s)) in mat_lset m k v) m' = UB).
    { intros k0 H0. remember (i * c + j - k0)%nat as d eqn:Ed. revert k0 H0 Ed. induction d as [|d IH]; intros k0 H0 Ed m' L.
      - assert (k0 = (i * c + j)%nat) by lia. subst k0. assert (B : (i * c + j < r * c)%nat) by nia. rewrite for_range_first by auto. rewrite Hl by auto. cbn [bind].
        unfold ints. rewrite idx_div, idx_mod by auto. rewrite E. reflexivity.
      - assert (B : (k0 < r * c)%nat) by nia. rewrite for_range_first by auto. rewrite Hl by auto. cbn [bind]. unfold ints at 1. destruct (Hk k0 B) as [K1 K2].
        rewrite div_s by auto. destruct (_ || _); [reflexivity|]. cbn [bind]. destruct (LS k0 (Some (Z.quot (fa (k0 / c)%nat (k0 mod c)%nat) s)) m' L B) as (m'' & E2 & L2). rewrite E2. cbn [bind]. apply IH; auto; lia. }
    apply G; [lia|]. apply Hm. }
  split; [|split].
  - intros Hs H1. apply (@mb_map_ok _ _ SO _ A r c (ints fa)); [exact HA|]. intros i j Hi Hj. unfold ints. rewrite div_s by auto.
    destruct (Z.eqb_spec s 0); [contradiction|]. cbn [orb]. destruct (Z.eqb_spec (fa i j) lowest) as [E|]; [|reflexivity]. destruct (Z.eqb_spec s (-1)) as [E1|]; [|reflexivity]. exfalso. exact (H1 E1 i j Hi Hj E).
  - intros -> Hr Hc. apply (UBC 0%nat 0%nat Hr Hc). reflexivity.
  - intros Hs (i & j & Hi & Hj & E). apply (UBC i j Hi Hj). rewrite div_s by auto. rewrite E, Hs, !Z.eqb_refl. now rewrite orb_true_r.
Qed.
(** Each element of A * b, and the trace. *)
Theorem C86_matrix_vector A r c fa b fb : @reads (option Z) A r c (ints fa) -> is_vec b c (vints fb) -> fits r ->
  exists d g, @m_mulv _ SO A b = Ok d /\ is_vec d r g /\ forall i, (i < r)%nat ->
    (dot_defined w c (fa i) fb /\ g i = Some (zsum c (fun k => fa i k * fb k))) \/ (~ dot_defined w c (fa i) fb /\ g i = None).
Proof.
  intros HA Hb Hr. destruct (@C35_matvec _ SO A r c _ b c _ HA Hb (le_n c) Hr) as (d & E & Hd).
  exists d. eexists. split; [exact E|]. split; [exact Hd|]. intros i _. apply (osum_prod w Hw c (fa i) fb).
Qed.
Theorem C86_trace A r c fa : @reads (option Z) A r c (ints fa) -> (r <= c)%nat ->
  exists x, @trace _ SO A = Ok x /\
    (((forall k, (k <= r)%nat -> in_range w (zsum k (fun i => fa i i))) /\ x = Some (zsum r (fun i => fa i i))) \/
     (~ (forall k, (k <= r)%nat -> in_range w (zsum k (fun i => fa i i))) /\ x = None)).
Proof.
  intros HA Hr. eexists. split; [apply (@C39_trace _ SO A r c _ HA Hr)|].
  destruct (osum_s w Hw r (fun i => ints fa i i) (fun i => fa i i) (fun _ => True)) as [((_ & D) & E)|(D & E)]; [left; auto|left; auto|right].
  split; [|exact E]. intros H. apply D. split; auto.
Qed.
(** all_close compares |a - b| with the tolerance, provided that the difference and its absolute value are in range. *)
Theorem C86_all_close A B r c fa fb tol : @readsL (option Z) A r c (ints fa) -> readsL B r c (ints fb) ->
  (forall i j, (i < r)%nat -> (j < c)%nat -> Z.abs (fa i j - fb i j) < 2 ^ (w - 1)) ->
  exists b, @all_close _ SO A B (Some tol) = Ok b /\ (b = true <-> forall i j, (i < r)%nat -> (j < c)%nat -> Z.abs (fa i j - fb i j) <= tol).
Proof.
  intros HA HB HD. destruct (@C31_all_close _ SO A B r c _ _ (Some tol) HA HB) as (b & E & Q). exists b. split; [exact E|]. rewrite Q.
  split; intros H i j Hi Hj; specialize (H i j Hi Hj); specialize (HD i j Hi Hj); unfold ints in *; cbn [osub oabs olt sops lift2] in *;
    rewrite (checked_in w (fa i j - fb i j)) in * by (unfold in_range; lia); rewrite (checked_in w (Z.abs _)) in * by (unfold in_range; lia).
  - apply Z.ltb_ge in H. exact H.
  - apply Z.ltb_ge. exact H.
Qed.
End Signed.

Section Unsigned.
Variable w : Z.
Hypothesis Hw : 1 <= w.
Notation UO := (uops w).
(** A / s, A * b and the trace of unsigned elements. *)
Theorem C87_divide A r c fa s : @readsL Z A r c fa ->
  (s <> 0 -> exists m, @m_divs _ UO A s = Ok m /\ is_mat m r c (fun i j => fa i j / s)) /\
  (s = 0 -> (0 < r)%nat -> (0 < c)%nat -> @m_divs _ UO A s = UB).
Proof.
  intros HA. split.
  - intros Hs. apply (@C32_div_scalar _ UO s (fun x => x / s)); [|exact HA]. intros x. cbn [odiv uops]. destruct (Z.eqb_spec s 0); [contradiction|reflexivity].
  - intros -> Hr Hc. apply (@C32_div_undefined _ UO 0) with (f := fa) (r := r) (c := c); auto.
Qed.
Theorem C87_matrix_vector A r c fa b fb : @reads Z A r c fa -> is_vec b c fb -> fits r ->
  exists d, @m_mulv _ UO A b = Ok d /\ is_vec d r (fun i => zsum c (fun k => fa i k * fb k) mod 2 ^ w).
Proof.
  intros HA Hb Hr. destruct (@C35_matvec _ UO A r c _ b c _ HA Hb (le_n c) Hr) as (d & E & Hd).
  exists d. split; [exact E|]. eapply is_vec_ext; [exact Hd|]. intros i _. apply (osum_prod_u w Hw c (fa i) fb).
Qed.
Theorem C87_trace A r c fa : @reads Z A r c fa -> (r <= c)%nat -> @trace _ UO A = Ok (zsum r (fun i => fa i i) mod 2 ^ w).
Proof. intros HA Hr. rewrite (@C39_trace _ UO A r c _ HA Hr). f_equal. apply (osum_u w Hw). Qed.
End Unsigned.

(** A 1 x 2 matrix of 32-bit integers with the lowest value, divided by 2 and by -1. *)
Example C86_divide_ex : let A := mb_of_mat (mkM 1 2 [Some (- 2 ^ 31); Some (-7)]) in
  @readsL (option Z) A 1 2 (ints (fun i j => nth j [- 2 ^ 31; -7] 0)) /\
  @m_divs _ (sops 32) A (Some 2) = Ok (mkM 1 2 [Some (- 2 ^ 30); Some (-3)]) /\ @m_divs _ (sops 32) A (Some (-1)) = UB.
Proof.
  cbv zeta. split; [|split; vm_compute; reflexivity]. apply is_mat_readsL. split; [reflexivity|]. split; [reflexivity|]. split; [repeat split; vm_compute; reflexivity|]. split; [reflexivity|].
  intros i j Hi Hj. replace i with 0%nat by lia. destruct j as [|[|j]]; try reflexivity; lia.
Qed.
