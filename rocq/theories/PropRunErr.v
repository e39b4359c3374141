(** PropRunErr.v: C107.  A bound on the rounding errors of a computation with doubles, for every
    function that only adds, multiplies and divides: the same function, run on pairs of an
    exact value and a bound on the distance between it and the double. *)
From Coq Require Import ZArith QArith Qabs Lia Lqa SpecFloat List.
From Verif Require Import Control Ints Float FloatFacts FloatValid FloatRound FloatIOFacts FloatArith FloatSum FloatCmp PropFloat PropFloat2 PropFloatIO PropFloatSum PropFloatCmp FloatLoop PropFloatLin FloatDet Rel PropRel PropRelInt.
Local Open Scope Q_scope.

(** * Specification *)
(** An exact value with an error bound, or nothing known. *)
Definition bounded := option (Q * Q).
(** The double is finite and within the bound of the exact value. *)
Definition within (x : bounded) (d : double) : Prop := match x with None => True | Some (q, e) => proper d /\ Qabs (dval d - q) <= e end.
(** The exact value of the pair. *)
Definition centre (x : bounded) (q : Q) : Prop := match x with None => True | Some (c, e) => c == q /\ 0 <= e end.
(** Rounding a number that is within [b] of [v] to a double adds at most this error, unless it
    may overflow.  ([Qred] reduces a fraction.) *)
Definition rounded (v b : Q) : bounded :=
  let v := Qred v in let b := Qred b in
  if Qle_bool limit (Qabs v + b) then None else Some (v, Qred (b + (unit * (Qabs v + b) + tiny))).
Definition lift (g : Q * Q -> Q * Q -> bounded) (x y : bounded) : bounded := match x, y with Some a, Some b => g a b | _, _ => None end.
(** The arithmetic of such pairs.  The comparisons are not used. *)
Definition runops : Ops bounded := {|
  o0 := Some (0, 0); o1 := Some (1, 0);
  oadd := lift (fun x y => rounded (fst x + fst y) (snd x + snd y));
  osub := lift (fun x y => rounded (fst x - fst y) (snd x + snd y));
  omul := lift (fun x y => rounded (fst x * fst y) (Qabs (fst x) * snd y + snd x * Qabs (fst y) + snd x * snd y));
  oopp := fun x => match x with Some (q, e) => Some (- q, e) | None => None end;
  odiv := fun x y => Ok (lift (fun x y =>
    if Qle_bool (Qabs (fst y)) (snd y) then None
    else rounded (fst x / fst y) ((snd x + Qabs (fst x / fst y) * snd y) / (Qabs (fst y) - snd y))) x y);
  oeq := fun _ _ => false; olt := fun _ _ => false; ole := fun _ _ => false; ofeq := fun _ _ => false; oisz := fun _ => false; oabs := fun x => x;
  ofnat := fun n => if (Z.of_nat n <=? 2 ^ 53)%Z then Some (inject_Z (Z.of_nat n), 0) else None |}.
(** Exact rational arithmetic; x / 0 is 0. *)
Definition exactops : Ops Q := {|
  o0 := 0; o1 := 1; oadd := Qplus; osub := Qminus; omul := Qmult; oopp := Qopp; odiv := fun x y => Ok (x / y);
  oeq := Qeq_bool; olt := fun x y => negb (Qle_bool y x); ole := Qle_bool; ofeq := Qeq_bool; oisz := fun x => Qeq_bool x 0; oabs := Qabs; ofnat := fun n => inject_Z (Z.of_nat n) |}.

(** * Proofs *)
Lemma u1_unit : u1 == unit. Proof. reflexivity. Qed.
Lemma rounded_within v b w d : Qabs (w - v) <= b -> is_double d -> crt prec64 emax64 w d -> within (rounded v b) d.
Proof.
  intros B V C. unfold rounded. cbv zeta. rewrite <- (Qred_correct v), <- (Qred_correct b) in B. revert B. generalize (Qred v), (Qred b). clear v b. intros v b B. destruct (Qle_bool limit (Qabs v + b)) eqn:E; [exact I|].
  assert (L : Qabs v + b < limit) by (apply Qnot_le_lt; intros H; apply Qle_bool_iff in H; congruence).
  assert (W : Qabs w <= Qabs v + b). { setoid_replace w with (v + (w - v)) by ring. eapply Qle_trans; [apply Qabs_triangle|]. lra. }
  destruct (crt_correct w d V C) as [[(_ & F & _) _]|[[_ H]|[_ H]]].
  - destruct fmt2 as [P1 P3]. pose proof (close_bound w d (crt_close_u prec64 emax64 P1 P3 w d C) F) as D. rewrite u1_unit in D. split; [now split|]. rewrite !Qred_correct.
    assert (U : unit * Qabs w <= unit * (Qabs v + b)) by (rewrite !(Qmult_comm unit); apply Qmult_le_compat_r; [exact W|discriminate]).
    setoid_replace (dval d - v) with ((dval d - w) + (w - v)) by ring. eapply Qle_trans; [apply Qabs_triangle|]. lra.
  - exfalso. pose proof (Qle_Qabs w). lra.
  - exfalso. pose proof (Qle_Qabs (- w)) as N. rewrite Qabs_opp in N. lra.
Qed.
Lemma within_nonneg q e d : Qabs (dval d - q) <= e -> 0 <= e.
Proof. intros H. eapply Qle_trans; [apply Qabs_nonneg|exact H]. Qed.
Lemma run_ring t : same_ring runops (fops t) within.
Proof.
  split.
  - split; [apply zero_proper|discriminate].
  - split; [apply one_proper|discriminate].
  - intros [[q e]|] b [[q' e']|] b'; [|intros _ _; exact I|intros _ _; exact I|intros _ _; exact I]. intros [P E] [P' E']. destruct (add_facts b b' P P') as [V C].
    apply (rounded_within _ _ _ _ ) with (2 := V) (3 := C). cbn [fst snd]. setoid_replace (dval b + dval b' - (q + q')) with ((dval b - q) + (dval b' - q')) by ring. eapply Qle_trans; [apply Qabs_triangle|]. lra.
  - intros [[q e]|] b [[q' e']|] b'; [|intros _ _; exact I|intros _ _; exact I|intros _ _; exact I]. intros [P E] [P' E']. destruct (sub_facts b b' P P') as [V C].
    apply (rounded_within _ _ _ _ ) with (2 := V) (3 := C). cbn [fst snd]. setoid_replace (dval b - dval b' - (q - q')) with ((dval b - q) + - (dval b' - q')) by ring. eapply Qle_trans; [apply Qabs_triangle|]. rewrite Qabs_opp. lra.
  - intros [[q e]|] b [[q' e']|] b'; [|intros _ _; exact I|intros _ _; exact I|intros _ _; exact I]. intros [P E] [P' E']. destruct (mul_facts b b' P P') as [V C].
    apply (rounded_within _ _ _ _ ) with (2 := V) (3 := C). cbn [fst snd]. set (x := dval b - q) in *. set (y := dval b' - q') in *.
    setoid_replace (dval b * dval b' - q * q') with (q * y + x * q' + x * y) by (unfold x, y; ring).
    eapply Qle_trans; [apply Qabs_triangle|]. apply Qplus_le_compat; [eapply Qle_trans; [apply Qabs_triangle|]; apply Qplus_le_compat|]; rewrite Qabs_Qmult.
    + rewrite !(Qmult_comm (Qabs q)). apply Qmult_le_compat_r; [exact E'|apply Qabs_nonneg].
    + apply Qmult_le_compat_r; [exact E|apply Qabs_nonneg].
    + apply Qle_trans with (e * Qabs y); [apply Qmult_le_compat_r; [exact E|apply Qabs_nonneg]|]. rewrite !(Qmult_comm e). apply Qmult_le_compat_r; [exact E'|exact (within_nonneg _ _ _ E)].
  - intros [[q e]|] b; [|intros; exact I]. intros [[V F] E]. cbn [oopp runops fops within]. split; [split; [now apply double_ops|destruct b; auto]|]. rewrite dval_opp.
    setoid_replace (- dval b - - q) with (- (dval b - q)) by ring. now rewrite Qabs_opp.
  - intros n. cbn [ofnat runops]. destruct (Z.of_nat n <=? 2 ^ 53)%Z eqn:E; [|exact I]. apply Z.leb_le in E. destruct (natd_exact n E) as [P D]. split; [exact P|]. change (dval (natd n) == inject_Z (Z.of_nat n)) in D.
    change (@ofnat double (fops t) n) with (natd n). rewrite D. setoid_replace (inject_Z (Z.of_nat n) - inject_Z (Z.of_nat n)) with 0 by ring. discriminate.
Qed.
Lemma over_le a c d : 0 <= a -> 0 < c -> c <= d -> a * / d <= a / c.
Proof.
  intros A C D. apply Qle_shift_div_l; [exact C|]. assert (ND : ~ d == 0) by (intros H; rewrite H in D; lra). setoid_replace (a * / d * c) with (c / d * a) by (field; exact ND).
  setoid_replace a with (1 * a) at 2 by ring. apply Qmult_le_compat_r; [|exact A]. apply Qle_shift_div_r; lra.
Qed.
Lemma run_div t : same_div runops (fops t) within.
Proof.
  split. intros [[q e]|] b [[q' e']|] b'; [|intros _ _; exact I|intros _ _; exact I|intros _ _; exact I]. intros [P E] [P' E']. cbn [odiv runops fops lift fst snd rres].
  destruct (Qle_bool (Qabs q') e') eqn:L; [exact I|]. assert (L' : e' < Qabs q') by (apply Qnot_le_lt; intros H; apply Qle_bool_iff in H; congruence).
  pose proof (within_nonneg _ _ _ E') as E0.
  assert (Lo : Qabs q' - e' <= Qabs (dval b')).
  { setoid_replace q' with (dval b' - (dval b' - q')) at 1 by ring. pose proof (Qabs_triangle (dval b') (- (dval b' - q'))) as T. rewrite Qabs_opp in T. unfold Qminus in *. lra. }
  assert (NB : ~ dval b' == 0) by (intros H; rewrite H in Lo; cbn in Lo; lra).
  assert (NQ : ~ q' == 0) by (intros H; rewrite H in L'; cbn in L'; lra).
  destruct (div_facts b b' P P' NB) as [V C]. apply (rounded_within _ _ _ _ ) with (2 := V) (3 := C).
  set (x := dval b - q) in *. set (y := dval b' - q') in *.
  setoid_replace (dval b / dval b' - q / q') with ((x - (q / q') * y) / dval b') by (unfold x, y; field; now split).
  unfold Qdiv at 1. rewrite Qabs_Qmult, Qabs_Qinv.
  assert (N : Qabs (x - q / q' * y) <= e + Qabs (q / q') * e').
  { unfold Qminus at 1. eapply Qle_trans; [apply Qabs_triangle|]. rewrite Qabs_opp, Qabs_Qmult. apply Qplus_le_compat; [exact E|]. rewrite !(Qmult_comm (Qabs (q / q'))). apply Qmult_le_compat_r; [exact E'|apply Qabs_nonneg]. }
  assert (PB : 0 < Qabs (dval b')) by lra.
  apply Qle_trans with ((e + Qabs (q / q') * e') * / Qabs (dval b')); [apply Qmult_le_compat_r; [exact N|apply Qlt_le_weak, Qinv_lt_0_compat, PB]|].
  apply over_le; [eapply Qle_trans; [apply Qabs_nonneg|exact N]|lra|exact Lo].
Qed.
(** The exact values of the pairs are the exact results. *)
Lemma rounded_centre v b w : v == w -> 0 <= b -> centre (rounded v b) w.
Proof.
  intros E B. unfold rounded. cbv zeta. rewrite <- (Qred_correct v) in E. rewrite <- (Qred_correct b) in B. revert E B. generalize (Qred v), (Qred b). clear v b. intros v b E B. destruct (Qle_bool _ _); [exact I|]. split; [exact E|]. rewrite Qred_correct. pose proof (Qabs_nonneg v) as A. assert (0 <= unit * (Qabs v + b)) by (apply Qmult_le_0_compat; [discriminate|lra]).
  assert (0 <= tiny) by discriminate. lra.
Qed.
Lemma centre_ring : same_ring runops exactops centre.
Proof.
  split.
  - now split.
  - now split.
  - intros [[q e]|] b [[q' e']|] b'; [|intros _ _; exact I|intros _ _; exact I|intros _ _; exact I]. intros [P E] [P' E']. apply rounded_centre; cbn [fst snd]; [now rewrite P, P'|lra].
  - intros [[q e]|] b [[q' e']|] b'; [|intros _ _; exact I|intros _ _; exact I|intros _ _; exact I]. intros [P E] [P' E']. apply rounded_centre; cbn [fst snd]; [now rewrite P, P'|lra].
  - intros [[q e]|] b [[q' e']|] b'; [|intros _ _; exact I|intros _ _; exact I|intros _ _; exact I]. intros [P E] [P' E']. apply rounded_centre; cbn [fst snd]; [now rewrite P, P'|].
    assert (0 <= Qabs q * e') by (apply Qmult_le_0_compat; [apply Qabs_nonneg|exact E']). assert (0 <= e * Qabs q') by (apply Qmult_le_0_compat; [exact E|apply Qabs_nonneg]). assert (0 <= e * e') by (now apply Qmult_le_0_compat). lra.
  - intros [[q e]|] b; [|intros; exact I]. intros [P E]. split; [cbn; now rewrite P|exact E].
  - intros n. cbn [ofnat runops exactops]. destruct (_ <=? _)%Z; [|exact I]. split; [reflexivity|discriminate].
Qed.
Lemma centre_div : same_div runops exactops centre.
Proof.
  split. intros [[q e]|] b [[q' e']|] b'; [|intros _ _; exact I|intros _ _; exact I|intros _ _; exact I]. intros [P E] [P' E']. cbn [odiv runops exactops lift fst snd rres].
  destruct (Qle_bool (Qabs q') e') eqn:L; [exact I|]. assert (L' : e' < Qabs q') by (apply Qnot_le_lt; intros H; apply Qle_bool_iff in H; congruence).
  apply rounded_centre; [now rewrite P, P'|]. apply Qle_shift_div_l; [lra|]. assert (0 <= Qabs (q / q') * e') by (apply Qmult_le_0_compat; [apply Qabs_nonneg|exact E']). lra.
Qed.

(** * C107 *)
(** The doubles lie within the bounds. *)
Theorem C107_bounds t : ring_agree runops (fops t) within /\ div_agree runops (fops t) within.
Proof. split; [apply C106_ring, run_ring|apply C106_division; [apply run_ring|apply run_div]]. Qed.
(** The values that the bounds are about are those of exact arithmetic. *)
Theorem C107_exact : ring_agree runops exactops centre /\ div_agree runops exactops centre.
Proof. split; [apply C106_ring, centre_ring|apply C106_division; [apply centre_ring|apply centre_div]]. Qed.

(** ** For given doubles *)
(** A finite double is known exactly. *)
Definition known (d : double) : bounded := Some (dval d, 0).
(** Where there is a bound, the double is finite and that close to the exact value. *)
Definition certified1 (b : bounded) (d : double) (q : Q) : Prop := forall v e, b = Some (v, e) -> proper d /\ Qabs (dval d - q) <= e.
Definition certified (c : list bounded) (d : list double) (q : list Q) : Prop := length c = length d /\ length c = length q /\
  forall i b, nth_error c i = Some b -> exists x y, nth_error d i = Some x /\ nth_error q i = Some y /\ certified1 b x y.
Definition certified_m (c : Matrix bounded) (d : Matrix double) (q : Matrix Q) : Prop :=
  rows c = rows d /\ cols c = cols d /\ rows c = rows q /\ cols c = cols q /\ certified (data c) (data d) (data q).
Definition all_finite (l : list double) : Prop := Forall proper l.

Lemma cert1 b d q : within b d -> centre b q -> certified1 b d q.
Proof. intros H H' v e ->. destruct H as [P H], H' as [E _]. split; [exact P|]. now rewrite <- E. Qed.
Lemma cert c d q : Forall2 within c d -> Forall2 centre c q -> certified c d q.
Proof.
  intros H H'. split; [exact (f2_len _ _ _ H)|]. split; [exact (f2_len _ _ _ H')|]. intros i b E. pose proof (f2_nth _ _ _ i H) as N. pose proof (f2_nth _ _ _ i H') as N'. rewrite E in N, N'.
  destruct (nth_error d i) as [x|]; [|contradiction]. destruct (nth_error q i) as [y|]; [|contradiction]. exists x, y. split; [reflexivity|]. split; [reflexivity|]. now apply cert1.
Qed.
Lemma cert_m c d q : rmat within c d -> rmat centre c q -> certified_m c d q.
Proof. intros (H1 & H2 & H3) (K1 & K2 & K3). exact (conj H1 (conj H2 (conj K1 (conj K2 (cert _ _ _ H3 K3))))). Qed.
Lemma res3 {A B C} (S : A -> B -> Prop) (S' : A -> C -> Prop) (S3 : A -> B -> C -> Prop) x y z : (forall a b c, S a b -> S' a c -> S3 a b c) ->
  rres S x y -> rres S' x z -> forall a, x = Ok a -> exists b c, y = Ok b /\ z = Ok c /\ S3 a b c.
Proof. intros K H H' a ->. destruct y as [b| | | |], z as [c| | | |]; cbn in *; try contradiction. exists b, c. split; [reflexivity|]. split; [reflexivity|]. now apply K. Qed.
Lemma known_within l : all_finite l -> Forall2 within (map known l) l.
Proof. induction 1 as [|d l P H IH]; cbn [map]; constructor; [split; [exact P|]|exact IH]. setoid_replace (dval d - dval d) with 0 by ring. discriminate. Qed.
Lemma known_centre l : Forall2 centre (map known l) (map dval l).
Proof. induction l as [|d l IH]; cbn [map]; constructor; [split; [reflexivity|discriminate]|exact IH]. Qed.
Lemma known_m m : all_finite (data m) -> rmat within (each known m) m /\ rmat centre (each known m) (each dval m).
Proof. intros H. split; (split; [reflexivity|split; [reflexivity|]]); [now apply known_within|apply known_centre]. Qed.

(** Products, powers, the controllability matrix, the adjoint. *)
Theorem C107_matrices t (A B : Matrix double) : all_finite (data A) -> all_finite (data B) ->
  let E := mb_of_mat (each known A) in let F := mb_of_mat (each known B) in let X := mb_of_mat (each dval A) in let Y := mb_of_mat (each dval B) in
  (forall c, m_mul (O := runops) E F = Ok c -> exists d q, m_mul (O := fops t) (mb_of_mat A) (mb_of_mat B) = Ok d /\ m_mul (O := exactops) X Y = Ok q /\ certified_m c d q) /\
  (forall n c, powm (O := runops) E n = Ok c -> exists d q, powm (O := fops t) (mb_of_mat A) n = Ok d /\ powm (O := exactops) X n = Ok q /\ certified_m c d q) /\
  (forall c, ctrb (O := runops) E F = Ok c -> exists d q, ctrb (O := fops t) (mb_of_mat A) (mb_of_mat B) = Ok d /\ ctrb (O := exactops) X Y = Ok q /\ certified_m c d q) /\
  (forall c, (0 < cols A <= 5)%nat -> adjoint (O := runops) E = Ok c -> exists d q, adjoint (O := fops t) (mb_of_mat A) = Ok d /\ adjoint (O := exactops) X = Ok q /\ certified_m c d q).
Proof.
  intros HA HB E F X Y. destruct (known_m A HA) as [WA CA]. destruct (known_m B HB) as [WB CB]. apply r_mat in WA, CA, WB, CB. fold E X in WA, CA. fold F Y in WB, CB. pose proof (run_ring t) as SR. pose proof centre_ring as SC.
  repeat split.
  - intros c. eapply res3; [apply cert_m|now apply (r_m_mul _ SR)|now apply (r_m_mul _ SC)].
  - intros n c. eapply res3; [apply cert_m|now apply (r_powm _ SR)|now apply (r_powm _ SC)].
  - intros c. eapply res3; [apply cert_m|now apply (r_ctrb _ SR)|now apply (r_ctrb _ SC)].
  - intros c L. eapply res3; [apply cert_m|now apply (r_adjoint5 _ SR)|now apply (r_adjoint5 _ SC)].
Qed.
(** The LU decomposition and the characteristic polynomial, which divide. *)
Theorem C107_division t (A : Matrix double) : all_finite (data A) -> let E := mb_of_mat (each known A) in let X := mb_of_mat (each dval A) in
  (forall c, lu_decomposition (O := runops) E = Ok c -> exists d q, lu_decomposition (O := fops t) (mb_of_mat A) = Ok d /\ lu_decomposition (O := exactops) X = Ok q /\
     certified_m (fst c) (fst d) (fst q) /\ certified_m (snd c) (snd d) (snd q)) /\
  (forall c, poly_m (O := runops) E = Ok c -> exists d q, poly_m (O := fops t) (mb_of_mat A) = Ok d /\ poly_m (O := exactops) X = Ok q /\ certified c d q).
Proof.
  intros HA E X. destruct (known_m A HA) as [WA CA]. apply r_mat in WA, CA. fold E X in WA, CA. pose proof (run_ring t) as SR. pose proof centre_ring as SC. pose proof (run_div t) as DR. pose proof centre_div as DC.
  split; intros c.
  - eapply (res3 (rpair (rmat within) (rmat within)) (rpair (rmat centre) (rmat centre)) (fun c d q => certified_m (fst c) (fst d) (fst q) /\ certified_m (snd c) (snd d) (snd q))); [|now apply (r_lu_decomposition _ SR DR)|now apply (r_lu_decomposition _ SC DC)].
    intros x y z [H1 H2] [K1 K2]. split; now apply cert_m.
  - eapply res3; [apply cert|now apply (r_poly_m _ SR DR)|now apply (r_poly_m _ SC DC)].
Qed.
(** Vectors and numbers. *)
Theorem C107_vectors t (A : Matrix double) (u v : list double) : all_finite (data A) -> all_finite u -> all_finite v -> let E := mb_of_mat (each known A) in let X := mb_of_mat (each dval A) in
  (forall c, m_mulv (O := runops) E (map known u) = Ok c -> exists d q, m_mulv (O := fops t) (mb_of_mat A) u = Ok d /\ m_mulv (O := exactops) X (map dval u) = Ok q /\ certified c d q) /\
  (forall c, poly_v (O := runops) (map known u) = Ok c -> exists d q, poly_v (O := fops t) u = Ok d /\ poly_v (O := exactops) (map dval u) = Ok q /\ certified c d q) /\
  (forall c, dot (O := runops) (map known u) (map known v) = Ok c -> exists d q, dot (O := fops t) u v = Ok d /\ dot (O := exactops) (map dval u) (map dval v) = Ok q /\ certified1 c d q) /\
  (forall c, (0 < cols A <= 4)%nat -> determinant (O := runops) E = Ok c -> exists d q, determinant (O := fops t) (mb_of_mat A) = Ok d /\ determinant (O := exactops) X = Ok q /\ certified1 c d q).
Proof.
  intros HA Hu Hv E X. destruct (known_m A HA) as [WA CA]. apply r_mat in WA, CA. fold E X in WA, CA. pose proof (run_ring t) as SR. pose proof centre_ring as SC.
  pose proof (known_within u Hu) as Wu. pose proof (known_centre u) as Cu. pose proof (known_within v Hv) as Wv. pose proof (known_centre v) as Cv. repeat split.
  - intros c. eapply res3; [apply cert|now apply (r_m_mulv _ SR)|now apply (r_m_mulv _ SC)].
  - intros c. eapply res3; [apply cert|now apply (r_poly_v _ SR)|now apply (r_poly_v _ SC)].
  - intros c. eapply res3; [apply cert1|now apply (r_dot _ SR)|now apply (r_dot _ SC)].
  - intros c L. eapply res3; [apply cert1|apply (r_det4 _ SR); [cbn; lia|exact WA|cbn; lia]|apply (r_det4 _ SC); [cbn; lia|exact CA|cbn; lia]].
Qed.
(** Whole simulations: every state and output of every step, given that the number of steps
    is the same. *)
Theorem C107_simulate t tr tr' (sys : DSS double) (rs : DSS bounded) u ru st rt init ri : rdss within rs sys -> Forall2 (Forall2 within) ru u -> Forall2 within ri init ->
  rres eq (let* q := @odiv _ runops rt (sample_time rs) in tr q) (let* q := @odiv _ (fops t) st (sample_time sys) in tr' q) ->
  rres (rpair (rpair (Forall2 within) (Forall2 (Forall2 within))) (Forall2 (Forall2 within))) (simulate (O := runops) tr rs ru rt ri) (simulate (O := fops t) tr' sys u st init).
Proof. intros Hs Hu Hi Ht. now apply (r_simulate _ (run_ring t)). Qed.

(** ** Examples *)
Definition tenth : double := SFdiv prec64 emax64 one (natd 10).
Definition exA : Matrix double := mkM 2 2 [tenth; natd 3; one; natd 7].
Definition all_bounds (l : list bounded) (b : Q) : bool := forallb (fun x => match x with Some (_, e) => Qle_bool e b | None => false end) l.
Lemma exA_finite : all_finite (data exA).
Proof. repeat (apply Forall_cons; [split; [vm_compute; reflexivity|vm_compute; exact I]|]). apply Forall_nil. Qed.
(** Every element of the factors is within 2^-46 of the exact one. *)
Example C107_ex_lu : match lu_decomposition (O := runops) (mb_of_mat (each known exA)) with Ok (l, u) => all_bounds (data l) (2 ^ (-46)) && all_bounds (data u) (2 ^ (-46)) | _ => false end = true.
Proof. vm_compute. reflexivity. Qed.
(** The square and the determinant. *)
Example C107_ex_powm : match powm (O := runops) (mb_of_mat (each known exA)) 2 with Ok c => all_bounds (data c) (2 ^ (-44)) | _ => false end = true.
Proof. vm_compute. reflexivity. Qed.
Example C107_ex_det : match determinant (O := runops) (mb_of_mat (each known exA)) with Ok c => all_bounds [c] (2 ^ (-48)) | _ => false end = true.
Proof. vm_compute. reflexivity. Qed.
(** No bound is given where the computation may overflow. *)
Example C107_ex_none : rounded limit 0 = None.
Proof. vm_compute. reflexivity. Qed.
