(** PropDims.v: what the simulation functions do when the dimensions of the system, the
    state and the inputs do not fit together (C95). *)
From Verif Require Import LinalgFacts2 PropMatrix PropUtil PropMath Control ControlSpec ControlFacts.
Import ListNotations.

(** The product of an r x c matrix and v can be computed within bounds; the library does
    not compare the sizes, and elements of v past c are not looked at. *)
Definition readable {T} (r c : nat) (v : list T) : Prop := r = 0 \/ c <= length v.
Lemma readable_dec {T} r c (v : list T) : readable r c v \/ (0 < r /\ length v < c).
Proof. unfold readable. lia. Qed.

Lemma for_range_split {S} lo mid hi (body : nat -> S -> Res S) s : lo <= mid -> mid <= hi ->
  for_range lo hi body s = (let* s1 := for_range lo mid body s in for_range mid hi body s1).
Proof.
  intros H. remember (mid - lo) as n eqn:En. revert lo s H En. induction n as [|n IH]; intros lo s H En Hh.
  - assert (lo = mid) as -> by lia. rewrite (for_range_empty mid mid) by lia. reflexivity.
  - rewrite for_range_first, (for_range_first lo mid) by lia. destruct (body lo s); cbn [bind]; auto. apply IH; lia.
Qed.

Section C95.
Context {T : Type} {O : Ops T}.
Implicit Types (sys : DSS T) (v : list T).

Lemma mulv_readable (M : Matrix T) r c f v : is_mat M r c f -> fits r -> readable r c v -> exists d, dot_mv (mb_of_mat M) v = Ok d /\ length d = r /\ fits r.
Proof.
  intros HM Fr Hv. pose proof (is_mat_reads _ _ _ _ HM) as R. destruct Hv as [->|Hv].
  - exists nil. split; [|auto]. unfold dot_mv, m_mulv. destruct R as (Ar & _). rewrite Ar, vec_new_ok by auto. reflexivity.
  - destruct (m_mulv_ok _ _ _ _ v R Hv Fr o0) as (d & E & (L & _)). exists d. auto.
Qed.
Lemma mulv_unreadable (M : Matrix T) r c f v : is_mat M r c f -> fits r -> ~ readable r c v -> dot_mv (mb_of_mat M) v = UB.
Proof.
  intros HM Fr Hv. destruct (readable_dec r c v) as [H|[H1 H2]]; [contradiction|]. exact (C35_matvec_undefined _ _ _ _ v (is_mat_reads _ _ _ _ HM) H2 H1 Fr).
Qed.
Lemma list_vec v : fits (length v) -> is_vec v (length v) (fun i => nth i v o0).
Proof. intros F. split; [reflexivity|]. split; [exact F|]. intros i Hi. apply nth_error_nth'. exact Hi. Qed.
Lemma add_ok a b : fits (length a) -> length a = length b -> exists d, v_add a b = Ok d /\ length d = length a.
Proof.
  intros F E. destruct (C32_vec_add a b _ _ _ _ (list_vec a F) (list_vec b ltac:(rewrite <- E; exact F))) as [_ H].
  destruct (H E) as (d & Ed & (L & _)). eauto.
Qed.
Lemma add_throws a b : length a <> length b -> v_add a b = Throw.
Proof. intros N. unfold v_add, v_zip. destruct (Nat.eqb_spec (length a) (length b)); [contradiction|reflexivity]. Qed.

(** One step, for matrices of any shapes and vectors of any sizes. *)
Theorem C95_step : forall sys (x u : list T) ra ca fa rb cb fb rc cc fc rd cd fd,
  is_mat (sA (dsys sys)) ra ca fa -> is_mat (sB (dsys sys)) rb cb fb -> is_mat (sC (dsys sys)) rc cc fc -> is_mat (sD (dsys sys)) rd cd fd ->
  fits ra -> fits rb -> fits rc -> fits rd ->
  let state := readable ra ca x /\ readable rb cb u in
  let output := readable rc cc x /\ readable rd cd u in
  (simulate_step sys x u = UB <-> ~ state \/ (ra = rb /\ ~ output)) /\
  (simulate_step sys x u = Throw <-> state /\ (ra <> rb \/ (output /\ rc <> rd))) /\
  ((exists x' y, simulate_step sys x u = Ok (x', y) /\ length x' = ra /\ length y = rc) <-> state /\ output /\ ra = rb /\ rc = rd).
Proof.
  intros sys x u ra ca fa rb cb fb rc cc fc rd cd fd HA HB HC HD Fa Fb Fc Fd state output. unfold state, output.
  unfold simulate_step.
  assert (DA : readable ra ca x \/ ~ readable ra ca x) by (unfold readable; lia). assert (DB : readable rb cb u \/ ~ readable rb cb u) by (unfold readable; lia).
  assert (DC : readable rc cc x \/ ~ readable rc cc x) by (unfold readable; lia). assert (DD : readable rd cd u \/ ~ readable rd cd u) by (unfold readable; lia).
  destruct DA as [RA|RA]; [|rewrite (mulv_unreadable _ _ _ _ _ HA Fa RA); cbn [bind]; split; [tauto|]; split; [split; [discriminate|tauto]|]; split; [intros (? & ? & ? & _); discriminate|tauto]].
  destruct (mulv_readable _ _ _ _ _ HA Fa RA) as (d1 & -> & L1 & _). cbn [bind].
  destruct DB as [RB|RB]; [|rewrite (mulv_unreadable _ _ _ _ _ HB Fb RB); cbn [bind]; split; [tauto|]; split; [split; [discriminate|tauto]|]; split; [intros (? & ? & ? & _); discriminate|tauto]].
  destruct (mulv_readable _ _ _ _ _ HB Fb RB) as (d2 & -> & L2 & _). cbn [bind].
  destruct (Nat.eq_dec ra rb) as [Eab|Nab].
  2:{ rewrite add_throws by congruence. cbn [bind]. split; [split; [discriminate|tauto]|]. split; [tauto|]. split; [intros (? & ? & ? & _); discriminate|tauto]. }
  destruct (add_ok d1 d2 ltac:(congruence) ltac:(congruence)) as (d3 & -> & L3). cbn [bind].
  destruct DC as [RC|RC]; [|rewrite (mulv_unreadable _ _ _ _ _ HC Fc RC); cbn [bind]; split; [tauto|]; split; [split; [discriminate|tauto]|]; split; [intros (? & ? & ? & _); discriminate|tauto]].
  destruct (mulv_readable _ _ _ _ _ HC Fc RC) as (d4 & -> & L4 & _). cbn [bind].
  destruct DD as [RD|RD]; [|rewrite (mulv_unreadable _ _ _ _ _ HD Fd RD); cbn [bind]; split; [tauto|]; split; [split; [discriminate|tauto]|]; split; [intros (? & ? & ? & _); discriminate|tauto]].
  destruct (mulv_readable _ _ _ _ _ HD Fd RD) as (d5 & -> & L5 & _). cbn [bind].
  destruct (Nat.eq_dec rc rd) as [Ecd|Ncd].
  2:{ rewrite add_throws by congruence. cbn [bind]. split; [split; [discriminate|tauto]|]. split; [tauto|]. split; [intros (? & ? & ? & _); discriminate|tauto]. }
  destruct (add_ok d4 d5 ltac:(congruence) ltac:(congruence)) as (d6 & -> & L6). cbn [bind].
  split; [split; [discriminate|tauto]|]. split; [split; [discriminate|tauto]|]. split; [tauto|]. intros _. exists d3, d6. split; [reflexivity|]. split; congruence.
Qed.

(** The whole simulation of a consistent system: it is defined exactly when the initial
    state and every input that is used are long enough; then all states and outputs have
    the right size, and otherwise it reads out of bounds. *)
Theorem C95_simulate : forall trunc sys us tm q K init n m p fA fB fC fD, 0 < n ->
  is_mat (sA (dsys sys)) n n fA -> is_mat (sB (dsys sys)) n m fB -> is_mat (sC (dsys sys)) p n fC -> is_mat (sD (dsys sys)) p m fD ->
  fits n -> fits p -> odiv tm (sample_time sys) = Ok q -> trunc q = Ok K ->
  let steps := Nat.min (length us) K in
  let enough := steps = 0 \/ (n <= length init /\ forall k u, k < steps -> nth_error us k = Some u -> m <= length u) in
  ((exists t x y, simulate trunc sys us tm init = Ok (t, x, y) /\ length x = S steps /\ length y = steps /\
      (forall k xk, 0 < k -> nth_error x k = Some xk -> length xk = n) /\ (forall k yk, nth_error y k = Some yk -> length yk = p)) <-> enough) /\
  (simulate trunc sys us tm init = UB <-> ~ enough).
Proof.
  intros trunc sys us tm q K init n m p fA fB fC fD Hn HA HB HC HD Fn Fp Eq EK steps enough.
  assert (ST : forall (x u : list T), ((n <= length x /\ m <= length u) -> exists x' y, simulate_step sys x u = Ok (x', y) /\ length x' = n /\ length y = p) /\
                           (~ (n <= length x /\ m <= length u) -> simulate_step sys x u = UB)).
  { intros x u. destruct (C95_step sys x u _ _ _ _ _ _ _ _ _ _ _ _ HA HB HC HD Fn Fn Fp Fp) as (U & _ & K1). unfold readable in U, K1. split.
    - intros [H1 H2]. apply K1. auto.
    - intros H. apply U. left. intros [[H1|H1] [H2|H2]]; try lia. }
  unfold simulate. rewrite Eq. cbn [bind]. rewrite EK. cbn [bind]. fold steps.
  set (body := fun i (s : list T * list (list T) * list (list T) * T) => _).
  assert (Hs : steps <= length us) by (unfold steps; lia).
  (* the first k steps, when they are all defined *)
  assert (RUN : forall k, k <= steps -> (k = 0 \/ (n <= length init /\ forall j u, j < k -> nth_error us j = Some u -> m <= length u)) ->
    exists t x y w, for_range 0 k body (repeat o0 (steps + 1), [init], nil, o0) = Ok (t, x, y, w) /\ length t = S steps /\ length x = S k /\ length y = k /\
      (forall j xj, 0 < j -> nth_error x j = Some xj -> length xj = n) /\ (forall j yj, nth_error y j = Some yj -> length yj = p) /\ (nth_error x 0 = Some init)).
  { intros k Hk Hen.
    destruct (for_range_inv (fun i (s : list T * list (list T) * list (list T) * T) => let '(t, x, y, w) := s in
        length t = S steps /\ length x = S i /\ length y = i /\ (forall j xj, 0 < j -> nth_error x j = Some xj -> length xj = n) /\ (forall j yj, nth_error y j = Some yj -> length yj = p) /\ nth_error x 0 = Some init)
      0 k body (repeat o0 (steps + 1), [init], nil, o0)) as ([[[t x] y] w] & E & H); [lia| | |].
    - rewrite repeat_length. cbn [length]. split; [lia|]. split; [reflexivity|]. split; [reflexivity|]. split; [intros [|[|j]] xj Hj E; [lia|discriminate E|discriminate E]|]. split; [intros [|j] yj E; discriminate E|reflexivity].
    - intros i [[[t x] y] w] Hi (Lt & Lx & Ly & Sx & Sy & S0). unfold body.
      rewrite lset_ok by lia. cbn [bind].
      rewrite Lx. replace (S i - 1) with i by lia. destruct (nth_error_lt x i) as (xi & Exi); [lia|]. rewrite (lget_ok _ _ _ Exi). cbn [bind].
      destruct (nth_error_lt us i) as (ui & Eui); [lia|]. rewrite (lget_ok _ _ _ Eui). cbn [bind].
      destruct Hen as [->|[Hin Hu]]; [lia|].
      assert (Lxi : n <= length xi). { destruct i as [|i]; [rewrite S0 in Exi; injection Exi as <-; exact Hin|]. rewrite (Sx (S i) xi (Nat.lt_0_succ i) Exi). apply Nat.le_refl. }
      destruct (proj1 (ST xi ui) (conj Lxi (Hu i ui ltac:(lia) Eui))) as (x' & y' & -> & Lx' & Ly'). cbn [bind].
      eexists. split; [reflexivity|]. cbv beta iota. rewrite !app_length, upd_length. cbn [length]. split; [exact Lt|]. split; [lia|]. split; [lia|]. split; [|split].
      + intros j xj Hj E. destruct (Nat.lt_ge_cases j (length x)) as [L|L]; [rewrite nth_error_app1 in E by exact L; eauto|].
        rewrite nth_error_app2 in E by exact L. destruct (j - length x) as [|z]; [injection E as <-; exact Lx'|destruct z; discriminate E].
      + intros j yj E. destruct (Nat.lt_ge_cases j (length y)) as [L|L]; [rewrite nth_error_app1 in E by exact L; eauto|].
        rewrite nth_error_app2 in E by exact L. destruct (j - length y) as [|z]; [injection E as <-; exact Ly'|destruct z; discriminate E].
      + rewrite nth_error_app1 by lia. exact S0.
    - exists t, x, y, w. split; [exact E|]. exact H. }
  assert (DEC : enough \/ (exists k, k < steps /\ (k = 0 \/ (n <= length init /\ forall j u, j < k -> nth_error us j = Some u -> m <= length u)) /\
      ((k = 0 /\ length init < n) \/ exists u, nth_error us k = Some u /\ length u < m))).
  { unfold enough. destruct (Nat.eq_dec steps 0) as [Z|Z]; [left; left; exact Z|]. destruct (Nat.le_gt_cases n (length init)) as [Li|Li].
    2:{ right. exists 0. split; [lia|]. split; [left; reflexivity|]. left. split; [reflexivity|exact Li]. }
    assert (S1 : forall k, k <= steps -> (forall j u, j < k -> nth_error us j = Some u -> m <= length u) \/ exists k', k' < k /\ (forall j u, j < k' -> nth_error us j = Some u -> m <= length u) /\ exists u, nth_error us k' = Some u /\ length u < m).
    { induction k as [|k IH]; intros Hk; [left; intros j u H; lia|]. destruct (IH ltac:(lia)) as [A|(k' & A & B & C)]; [|right; exists k'; split; [lia|auto]].
      destruct (nth_error_lt us k) as (uk & Ek); [lia|]. destruct (Nat.le_gt_cases m (length uk)) as [L|L].
      - left. intros j u Hj E. destruct (Nat.eq_dec j k) as [->|N]; [rewrite Ek in E; injection E as <-; exact L|apply (A j); [lia|exact E]].
      - right. exists k. split; [lia|]. split; [exact A|]. eauto. }
    destruct (S1 steps (Nat.le_refl _)) as [A|(k' & A & B & C)]; [left; right; split; [exact Li|exact A]|]. right. exists k'. split; [exact A|]. split; [right; split; [exact Li|exact B]|right; exact C]. }
  assert (BAD : forall k, k < steps -> (k = 0 \/ (n <= length init /\ forall j u, j < k -> nth_error us j = Some u -> m <= length u)) ->
      ((k = 0 /\ length init < n) \/ exists u, nth_error us k = Some u /\ length u < m) -> for_range 0 steps body (repeat o0 (steps + 1), [init], nil, o0) = UB).
  { intros k Hk Hen Hb. destruct (RUN k ltac:(lia) Hen) as (t & x & y & w & E & Lt & Lx & Ly & Sx & Sy & S0).
    rewrite (for_range_split 0 k steps) by lia. rewrite E. cbn [bind]. rewrite for_range_first by lia.
    unfold body at 1. rewrite lset_ok by lia. cbn [bind].
    rewrite Lx. replace (S k - 1) with k by lia. destruct (nth_error_lt x k) as (xk & Exk); [lia|]. rewrite (lget_ok _ _ _ Exk). cbn [bind].
    destruct (nth_error_lt us k) as (uk & Euk); [lia|]. rewrite (lget_ok _ _ _ Euk). cbn [bind].
    rewrite (proj2 (ST xk uk)); [reflexivity|]. intros [H1 H2]. destruct Hb as [[-> Hb]|(u & Eu & Hb)].
    - rewrite S0 in Exk. injection Exk as <-. lia.
    - rewrite Euk in Eu. injection Eu as <-. lia. }
  destruct DEC as [EN|(k & Hk & Hen & Hb)].
  - destruct (RUN steps (Nat.le_refl _) EN) as (t & x & y & w & -> & Lt & Lx & Ly & Sx & Sy & S0). cbn [bind]. split; [|split; [discriminate|tauto]].
    split; [intros _; exact EN|]. intros _. exists t, x, y. split; [reflexivity|]. auto.
  - rewrite (BAD k Hk Hen Hb). cbn [bind]. assert (NE : ~ enough).
    { unfold enough. intros [Z|[H1 H2]]; [lia|]. destruct Hb as [[_ Hb]|(u & Eu & Hb)]; [lia|]. specialize (H2 k u Hk Eu). lia. }
    split; [|tauto]. split; [intros (? & ? & ? & H & _); discriminate H|contradiction].
Qed.
(** For any system: if the first step throws or is undefined, so is the simulation. *)
Theorem C95_first_step : forall trunc sys u0 us tm q K init, odiv tm (sample_time sys) = Ok q -> trunc q = Ok K -> 0 < K ->
  (simulate_step sys init u0 = Throw -> simulate trunc sys (u0 :: us) tm init = Throw) /\
  (simulate_step sys init u0 = UB -> simulate trunc sys (u0 :: us) tm init = UB).
Proof.
  intros trunc sys u0 us tm q K init Eq EK HK. unfold simulate. rewrite Eq. cbn [bind]. rewrite EK. cbn [bind].
  assert (H : 0 < Nat.min (length (u0 :: us)) K) by (cbn [length]; lia). rewrite for_range_first by exact H.
  rewrite lset_ok by (rewrite repeat_length; lia). cbn [bind length]. change (1 - 1) with 0. rewrite (lget_ok [init] 0 init eq_refl). cbn [bind]. rewrite (lget_ok (u0 :: us) 0 u0 eq_refl). cbn [bind]. split; intros ->; reflexivity.
Qed.
(** swap_rows with a row that does not exist. *)
Lemma at_past (m : Matrix T) r c f i j : is_mat m r c f -> r * c <= i * c + j -> is_size (i * c + j) -> mat_at m i j = UB.
Proof.
  intros (_ & Hc & _ & L & _) H S. unfold mat_at, mat_idx. rewrite Hc, mul64_small, add64_small; [|exact S|eapply size_le; [|exact S]; lia].
  unfold lget. rewrite (proj2 (nth_error_None _ _)) by lia. reflexivity.
Qed.
Theorem C95_swap_rows : forall (m : Matrix T) r c f i j c0 c1, is_mat m r c f -> r <= i \/ r <= j -> is_size (S i * c) -> is_size (S j * c) -> c0 < Nat.min c1 c ->
  swap_rows Root i j c0 c1 m = UB.
Proof.
  intros m r c f i j c0 c1 H Hij Si Sj Hc. pose proof (is_mat_reads _ _ _ _ H) as (_ & Ec & _ & _ & G). unfold swap_rows. cbn [vmb] in *. rewrite Ec, for_range_first by exact Hc.
  unfold vswap at 1. cbn [vmb mb_of_mat mget].
  assert (Zi : is_size (i * c + c0)) by (eapply size_le; [|exact Si]; lia). assert (Zj : is_size (j * c + c0)) by (eapply size_le; [|exact Sj]; lia).
  destruct (Nat.le_gt_cases r i) as [L|L]; [rewrite (at_past _ _ _ _ _ _ H) by (auto; nia); reflexivity|].
  rewrite (G i c0 L ltac:(lia)) || (change (mat_at m i c0) with (mget (mb_of_mat m) i c0); rewrite (G i c0 L ltac:(lia))). cbn [bind].
  rewrite (at_past _ _ _ _ _ _ H) by (auto; nia). reflexivity.
Qed.
(** swap_cols with a column that does not exist: undefined if the last row is included
    (otherwise elements of other rows can be exchanged, see the case below). *)
Lemma set_shape (m m' : Matrix T) i j (w : T) : mat_set m i j w = Ok m' -> rows m' = rows m /\ cols m' = cols m /\ length (data m') = length (data m).
Proof.
  unfold mat_set, lset. destruct (_ <? _); cbn [bind]; [|discriminate]. intros E. injection E as <-. cbn. rewrite upd_length. auto.
Qed.
Lemma swap_shape (m m' : Matrix T) i j a b : vswap Root i j a b m = Ok m' -> rows m' = rows m /\ cols m' = cols m /\ length (data m') = length (data m).
Proof.
  unfold vswap. destruct (mget _ i j); cbn [bind]; try discriminate. destruct (mget _ a b); cbn [bind]; try discriminate. unfold vset. cbn [voff fst snd].
  destruct (mat_set m i j _) as [m1| | | |] eqn:E1; cbn [bind]; try discriminate. intros E2. destruct (set_shape _ _ _ _ _ E1) as (A1 & A2 & A3). destruct (set_shape _ _ _ _ _ E2) as (B1 & B2 & B3). split; [congruence|]. split; congruence.
Qed.
Lemma at_ok_ub (m : Matrix T) i j : (exists x, mat_at m i j = Ok x) \/ mat_at m i j = UB.
Proof. unfold mat_at, lget. destruct (nth_error _ _); eauto. Qed.
Lemma swap_ok_ub (m : Matrix T) i j a b : (exists m', vswap Root i j a b m = Ok m') \/ vswap Root i j a b m = UB.
Proof.
  unfold vswap. cbn [vmb mb_of_mat mget]. destruct (at_ok_ub m i j) as [(x & ->)| ->]; [|right; reflexivity]. destruct (at_ok_ub m a b) as [(y & ->)| ->]; [|right; reflexivity]. cbn [bind].
  unfold vset. cbn [voff fst snd]. destruct (mat_set_ok_ub m i j y) as [(m1 & ->)| ->]; [|right; reflexivity]. cbn [bind]. apply mat_set_ok_ub.
Qed.
Theorem C95_swap_cols : forall (m : Matrix T) r c f i j r0 r1, is_mat m r c f -> c <= i \/ c <= j -> is_size (r * c + i) -> is_size (r * c + j) -> r0 < r -> r <= r1 ->
  swap_cols Root i j r0 r1 m = UB.
Proof.
  intros m r c f i j r0 r1 H Hij Si Sj Hr Hr1. destruct H as (Er & Ec & _ & L & _). unfold swap_cols. cbn [vmb mb_of_mat mrows]. rewrite Er, (Nat.min_l r r1) by exact Hr1.
  replace r with (S (r - 1)) at 1 by lia. rewrite for_range_last by lia.
  destruct (for_range_ok_ub_inv (fun _ (m : Matrix T) => rows m = r /\ cols m = c /\ length (data m) = r * c) r0 (r - 1) (fun k m => vswap Root k i k j m) m) as [->|(m' & -> & E1 & E2 & E3)]; [lia|auto| |reflexivity|].
  { intros k m1 Hk (E1 & E2 & E3). destruct (swap_ok_ub m1 k i k j) as [(m2 & E)|E]; [|right; exact E]. left. exists m2. split; [exact E|]. destruct (swap_shape _ _ _ _ _ _ E) as (A & B & D). split; [congruence|]. split; congruence. }
  cbn [bind]. assert (P : forall b, c <= b -> is_size (r * c + b) -> mat_at m' (r - 1) b = UB).
  { intros b Hb Sb. assert (Z : is_size ((r - 1) * c + b)) by (eapply size_le; [|exact Sb]; nia). unfold mat_at, mat_idx. rewrite E2, mul64_small, add64_small; [|exact Z|eapply size_le; [|exact Z]; lia].
    unfold lget. rewrite (proj2 (nth_error_None _ _)) by (rewrite E3; nia). reflexivity. }
  unfold vswap. cbn [vmb mb_of_mat mget]. destruct (at_ok_ub m' (r - 1) i) as [(x & Ex)|Ex]; rewrite Ex; [|reflexivity]. cbn [bind].
  destruct (Nat.le_gt_cases c i) as [Li|Li]; [rewrite (P i Li Si) in Ex; discriminate|]. rewrite (P j) by (auto; lia). reflexivity.
Qed.
End C95.

(** A system with two states, one input and one output. *)
Definition dsys95 : DSS Z := mkDSS (mkSS (mkM 2 2 [1;1;0;1]%Z) (mkM 2 1 [0;1]%Z) (mkM 1 2 [1;0]%Z) (mkM 1 1 [0]%Z)) 1%Z.
Definition trunc95 (z : Z) : Res nat := Ok (Z.to_nat z).
Example C95_witness : is_mat (sA (dsys dsys95)) 2 2 (fun i j => nth (i * 2 + j) [1;1;0;1]%Z 0%Z) /\ fits 2 /\
  @simulate Z zops trunc95 dsys95 [[1]; [2; 7]]%Z 2%Z [3; 4; 5]%Z = Ok ([0; 1; 0], [[3; 4; 5]; [7; 5]; [12; 7]], [[3]; [7]])%Z /\
  @simulate Z zops trunc95 dsys95 [[1]; []]%Z 2%Z [3; 4]%Z = UB /\ @simulate Z zops trunc95 dsys95 [[1]; []]%Z 1%Z [3; 4]%Z = Ok ([0; 0], [[3; 4]; [7; 5]], [[3]])%Z /\
  @simulate Z zops trunc95 dsys95 [[1]]%Z 1%Z [3]%Z = UB /\ @simulate Z zops trunc95 dsys95 nil 1%Z [3]%Z = Ok ([0], [[3]], nil)%Z /\
  @swap_cols Z Root 0 2 0 1 (mkM 2 2 [1; 2; 3; 4]%Z) = Ok (mkM 2 2 [3; 2; 1; 4]%Z) /\
  @simulate_step Z zops (mkDSS (mkSS (mkM 2 2 [1;1;0;1]%Z) (mkM 1 1 [1]%Z) (mkM 1 2 [1;0]%Z) (mkM 1 1 [0]%Z)) 1%Z) [1; 2]%Z [3]%Z = Throw.
Proof.
  split; [|split; [vm_compute; reflexivity|repeat split; vm_compute; reflexivity]].
  split; [reflexivity|]. split; [reflexivity|]. split; [repeat split; vm_compute; reflexivity|]. split; [reflexivity|]. intros [|[|i]] [|[|j]] Hi Hj; try lia; reflexivity.
Qed.
