(** PropFloat2.v: C85, NaN, infinities and overflow in the functions that compare elements. *)
From Coq Require Import ZArith Bool Lia SpecFloat.
From Verif Require Import LinalgFacts2 PropUtil PropMath PropLinalg Feq Float FloatFacts FloatValid PropFloat.
From Verif Require LURound.
Import ListNotations.

(** * all_close *)
(** The positions that all_close looks at: no NaN there, and not twice the same infinity. *)
Definition comparable (x y : double) : Prop := x <> nan /\ y <> nan /\ forall s, ~ (x = inf s /\ y = inf s).
Lemma not_comparable tol x y : ~ comparable x y -> SFltb tol (SFabs (SFsub prec64 emax64 x y)) = false.
Proof.
  intros H. assert (E : SFabs (SFsub prec64 emax64 x y) = nan \/ comparable x y).
  { destruct x as [sx|sx| |sx mx ex], y as [sy|sy| |sy my ey]; try (left; reflexivity);
      try (right; split; [discriminate|]; split; [discriminate|]; intros s [H1 H2]; congruence || discriminate).
    destruct sx, sy; try (left; reflexivity); right; (split; [discriminate|]; split; [discriminate|]; intros s [H1 H2]; congruence). }
  destruct E as [-> |E]; [destruct tol; reflexivity|contradiction].
Qed.
Lemma comparable_dec x y : {comparable x y} + {~ comparable x y}.
Proof.
  unfold comparable. destruct x as [sx|sx| |sx mx ex]; [| |right; intros (H & _); apply H; reflexivity|];
    (destruct y as [sy|sy| |sy my ey]; [| |right; intros (_ & H & _); apply H; reflexivity|]);
    try (left; split; [discriminate|]; split; [discriminate|]; intros s [H1 H2]; congruence || discriminate).
  destruct (Bool.bool_dec sx sy) as [->|N].
  - right. intros (_ & _ & H). apply (H sy). auto.
  - left. split; [discriminate|]. split; [discriminate|]. intros s [H1 H2]. congruence.
Qed.
Theorem C85_all_close t A B r c fa fb tol : @readsL double A r c fa -> readsL B r c fb ->
  exists b, @all_close double (fops t) A B tol = Ok b /\
    (b = true <-> forall i j, i < r -> j < c -> comparable (fa i j) (fb i j) -> SFltb tol (SFabs (SFsub prec64 emax64 (fa i j) (fb i j))) = false).
Proof.
  intros HA HB. destruct (@C31_all_close double (fops t) A B r c fa fb tol HA HB) as (b & E & Q). exists b. split; [exact E|].
  rewrite Q. cbn [olt oabs osub fops]. split; [auto|]. intros H i j Hi Hj.
  destruct (comparable_dec (fa i j) (fb i j)) as [C|C]; [auto|]. apply not_comparable, C.
Qed.
(** A matrix of NaN is close to every matrix of its shape. *)
Theorem C85_all_close_nan t A B r c fb tol : @readsL double A r c (fun _ _ => nan) -> readsL B r c fb ->
  @all_close double (fops t) A B tol = Ok true /\ @all_close double (fops t) B A tol = Ok true.
Proof.
  intros HA HB. destruct (C85_all_close t A B r c _ fb tol HA HB) as (b & -> & Q). destruct (C85_all_close t B A r c fb _ tol HB HA) as (b' & -> & Q').
  split; f_equal; [apply Q; intros i j _ _ (H & _)|apply Q'; intros i j _ _ (_ & H & _)]; exfalso; apply H; reflexivity.
Qed.

(** * min and max *)
(** The first of the least elements that are not NaN. *)
Definition first_least_number (lt : double -> double -> bool) (f : nat -> double) (n pos : nat) : Prop :=
  pos < n /\ f pos <> nan /\ (forall i, i < n -> f i <> nan -> lt (f i) (f pos) = false) /\
  (forall i, i < pos -> f i <> nan -> lt (f pos) (f i) = true).
Lemma nan_dec (x : double) : {x = nan} + {x <> nan}.
Proof. destruct x; [right|right|left|right]; try discriminate; reflexivity. Qed.
Lemma best_nan (lt : double -> double -> bool) v n f : (forall x, lt x nan = false /\ lt nan x = false) ->
  (forall x y z, x <> nan -> y <> nan -> z <> nan -> lt x y = true -> lt z y = false -> lt x z = true) ->
  (forall x y z, x <> nan -> y <> nan -> z <> nan -> lt x y = true -> lt y z = true -> lt x z = true) ->
  (forall x, lt x x = false) ->
  is_vec v n f -> 0 < n ->
  (f 0 = nan -> @best_v double fops0 lt v = Ok (nan, 0)) /\
  (f 0 <> nan -> exists pos, @best_v double fops0 lt v = Ok (f pos, pos) /\ first_least_number lt f n pos).
Proof.
  intros Hn H1 H2 H3 Hv N0. unfold best_v. rewrite (is_vec_list _ _ _ Hv). destruct (Nat.eqb_spec n 0); [lia|].
  assert (B : forall P : nat -> nat -> Prop, P 1 0 -> (forall i pos, 1 <= i < n -> P i pos -> pos < n /\ P (S i) (if lt (f i) (f pos) then i else pos)) ->
    exists pos, pos < n /\ P n pos /\ (let* pos := for_range 1 n (fun i pos => let* x := lget v i in let* y := lget v pos in Ok (if lt x y then i else pos)) 0 in
      let* x := lget v pos in Ok (x, pos)) = Ok (f pos, pos)).
  { intros P P0 PS. destruct (for_range_inv (fun i pos => pos < n /\ P i pos) 1 n
      (fun i pos => let* x := lget v i in let* y := lget v pos in Ok (if lt x y then i else pos)) 0) as (pos & E & Q & Q').
    - lia.
    - split; [lia|auto].
    - intros i pos Hi [Q1 Q2]. rewrite (is_vec_get _ _ _ i Hv), (is_vec_get _ _ _ pos Hv) by lia. cbn [bind].
      eexists. split; [reflexivity|]. split; [destruct (lt (f i) (f pos)); lia|]. apply PS; auto.
    - exists pos. split; [auto|]. split; [auto|]. rewrite E. cbn [bind]. rewrite (is_vec_get _ _ _ pos Hv) by lia. reflexivity. }
  split.
  - intros E0. destruct (B (fun _ pos => pos = 0)) as (pos & _ & -> & E); [reflexivity| |rewrite E, E0; reflexivity].
    intros i pos Hi ->. split; [lia|]. rewrite E0, (proj1 (Hn (f i))). reflexivity.
  - intros E0. destruct (B (fun i pos => first_least_number lt f i pos)) as (pos & _ & Q & E).
    + split; [lia|]. split; [auto|]. split; intros i Hi; [replace i with 0 by lia; auto|lia].
    + intros i pos Hi (Q1 & Q2 & Q3 & Q4). split; [lia|]. destruct (lt (f i) (f pos)) eqn:El.
      * assert (Ni : f i <> nan) by (intros Ei; rewrite Ei, (proj2 (Hn (f pos))) in El; discriminate).
        split; [lia|]. split; [auto|]. split.
        -- intros k Hk Nk. destruct (Nat.eq_dec k i) as [->|Nki]; [auto|]. destruct (lt (f k) (f i)) eqn:Ek; [|auto].
           rewrite <- (Q3 k) by (auto; lia). symmetry. eapply H2; [exact Nk|exact Ni|exact Q2|auto|auto].
        -- intros k Hk Nk. eapply H1; [exact Ni|exact Q2|exact Nk|auto|]. apply Q3; auto.
      * split; [lia|]. split; [auto|]. split; [|auto]. intros k Hk Nk. destruct (Nat.eq_dec k i) as [->|Nki]; [auto|]. apply Q3; auto. lia.
    + exists pos. auto.
Qed.
(** NaN in front wins; otherwise NaN is skipped. *)
Theorem C85_min t v n f : is_vec v n f -> 0 < n ->
  (f 0 = nan -> @min_v double (fops t) v = Ok (nan, 0)) /\
  (f 0 <> nan -> exists pos, @min_v double (fops t) v = Ok (f pos, pos) /\ first_least_number SFltb f n pos).
Proof.
  intros Hv Hn. apply (best_nan SFltb v n f); auto.
  - intros x. apply ltb_nan.
  - keys.
  - keys.
  - intros x. destruct (nan_dec x) as [->|N]; [reflexivity|]. apply not_true_iff_false. rewrite klt_ltb by auto. unfold klt. destruct (key x) as [[? ?] ?]. lia.
Qed.
Theorem C85_max t v n f : is_vec v n f -> 0 < n ->
  (f 0 = nan -> @max_v double (fops t) v = Ok (nan, 0)) /\
  (f 0 <> nan -> exists pos, @max_v double (fops t) v = Ok (f pos, pos) /\ first_least_number (fun x y => SFltb y x) f n pos).
Proof.
  intros Hv Hn. apply (best_nan (fun x y => SFltb y x) v n f); auto.
  - intros x. destruct (ltb_nan x). auto.
  - keys.
  - keys.
  - intros x. destruct (nan_dec x) as [->|N]; [reflexivity|]. apply not_true_iff_false. rewrite klt_ltb by auto. unfold klt. destruct (key x) as [[? ?] ?]. lia.
Qed.

(** * flatnonzero *)
(** It lists the NaN and the finite non-zero elements, and not the infinite ones. *)
Theorem C85_flatnonzero t (m : Matrix double) r c f : small_tol t -> is_mat m r c f -> (forall i j, i < r -> j < c -> is_double (f i j)) ->
  exists ls : list nat, @flatnonzero double (fops t) m = Ok ls /\ Sorted.StronglySorted lt ls /\
    forall k, In k ls <-> k < r * c /\ forall s, f (k / c) (k mod c) <> S754_zero s /\ f (k / c) (k mod c) <> inf s.
Proof.
  intros Ht Hm Hf. destruct (@C29_flatnonzero double (fops t) m r c f Hm) as (ls & E & Hs & Q). exists ls. split; [exact E|]. split; [exact Hs|].
  intros k. rewrite Q. cbn [oisz fops]. split; intros (Hk & H); (split; [exact Hk|]).
  - assert (Hd : is_double (f (k / c) (k mod c))) by (apply Hf; [eapply div_lt_rc|eapply mod_lt_rc]; exact Hk).
    intros s. split; intros E0; rewrite (proj2 (C84_zero t _ Ht Hd)) in H by eauto; discriminate.
  - assert (Hd : is_double (f (k / c) (k mod c))) by (apply Hf; [eapply div_lt_rc|eapply mod_lt_rc]; exact Hk).
    apply not_true_iff_false. intros E0. apply (C84_zero t _ Ht Hd) in E0. destruct E0 as [[s E0]|[s E0]]; destruct (H s); contradiction.
Qed.

(** * determinant, adjoint, inverse, div and lu_decomposition *)
(** They have a value for every square matrix when the division has (floating types). *)
Section Total.
Context {T : Type} {O : Ops T}.
Hypothesis Hd : forall x y : T, exists q, odiv x y = Ok q.
Definition quot (x y : T) : T := match odiv x y with Ok q => q | _ => o0 end.
Lemma quot_ok x y : odiv x y = Ok (quot x y).
Proof. unfold quot. destruct (Hd x y) as (q & ->). reflexivity. Qed.
Lemma det_loop_total todo : forall n c (m : Matrix T) f det, todo + c = n -> is_mat m n n f -> exists d, det_loop todo n c m det = Ok d.
Proof.
  induction todo as [|todo IH]; intros n c m f det Hc Hm; cbn [det_loop]; [eauto|].
  assert (K : forall (m' : Matrix T) f' det', is_mat m' n n f' ->
    exists d, (let* pivot := mat_at m' c c in let* A := det_elim n c pivot m' in det_loop todo n (S c) A (omul det' pivot)) = Ok d).
  { intros m' f' det' Hm'. rewrite (is_mat_at _ _ _ _ c c Hm') by lia. cbn [bind].
    destruct (det_elim_ok m' n f' c (f' c c) (fun r => quot (f' r c) (f' c c)) Hm' ltac:(lia)) as (m2 & -> & H2); [intros; apply quot_ok|].
    cbn [bind]. eapply IH; [lia|exact H2]. }
  destruct (det_pivot_ok m n f c det Hm ltac:(lia)) as [(_ & ->)|[(k & m' & _ & _ & _ & Hm' & ->)|(_ & ->)]]; cbn [bind]; eauto.
Qed.
Lemma determinant_total (A : MB T) n f : readsL A n n f -> exists d, determinant A = Ok d.
Proof.
  intros HA. assert (HA' := HA). destruct HA' as ((Ar & Ac & _ & _ & Ag) & _). unfold determinant, is_square. rewrite Ar, Ac, Nat.eqb_refl. cbn [negb].
  destruct (Nat.eqb_spec n 1) as [->|_]; [rewrite Ag by lia; eauto|].
  destruct (Nat.eqb_spec n 2) as [->|_]; [destruct (mget_all_ok A 2 f (proj1 HA)) as (g & -> & _); cbn [bind]; eauto|].
  destruct (Nat.eqb_spec n 3) as [->|_]; [destruct (mget_all_ok A 3 f (proj1 HA)) as (g & -> & _); cbn [bind]; eauto|].
  destruct (Nat.eqb_spec n 4) as [->|_]; [destruct (mget_all_ok A 4 f (proj1 HA)) as (g & -> & _); cbn [bind]; eauto|].
  destruct (mat_of_mb_ok A n n f HA) as (m & -> & Hm). cbn [bind]. eapply det_loop_total; [|exact Hm]. lia.
Qed.
Lemma adjoint_total (A : MB T) n f : readsL A n n f -> exists m g, adjoint A = Ok m /\ is_mat m n n g.
Proof.
  intros HA. destruct (Nat.eq_dec n 1) as [->|N1]; [destruct (adjoint_1 A f HA) as (m & E & H); eauto|].
  destruct (adjoint_ok A n f (fun i j => match determinant (mb_cof i j A) with Ok d => d | _ => o0 end) HA N1) as (m & E & H); [|eauto].
  intros i j Hi Hj. destruct (determinant_total (mb_cof i j A) (n - 1) (fminor i j f)) as (d & ->); [|reflexivity].
  apply cof_readsL; auto. lia.
Qed.
Lemma inverse_total (A : MB T) n f : readsL A n n f ->
  exists d adj g, determinant A = Ok d /\ adjoint A = Ok adj /\ is_mat adj n n g /\
    ((oisz d = true /\ inverse A = Ok mat_empty) \/
     (oisz d = false /\ exists m, inverse A = Ok m /\ is_mat m n n (fun i j => quot (g i j) d))).
Proof.
  intros HA. destruct (determinant_total A n f HA) as (d & Ed). destruct (adjoint_total A n f HA) as (adj & g & Ea & Ha).
  exists d, adj, g. split; [auto|]. split; [auto|]. split; [auto|]. destruct (oisz d) eqn:Ez; [left|right]; (split; [reflexivity|]).
  - assert (HA' := HA). destruct HA' as ((Ar & Ac & _) & _). unfold inverse, is_square. rewrite Ar, Ac, Nat.eqb_refl. cbn [negb]. rewrite Ed. cbn [bind]. rewrite Ez. reflexivity.
  - apply (inverse_ok A n f d g); eauto. intros. apply quot_ok.
Qed.
End Total.
(** Any set of values that the operations do not leave contains what they return. *)
Section Closed.
Context {T : Type} {O : Ops T}.
Hypothesis Hd : forall x y : T, exists q, odiv x y = Ok q.
Variable P : T -> Prop.
Hypotheses (P0 : P o0) (P1 : P o1) (Popp : forall x, P x -> P (oopp x)) (Padd : forall x y, P x -> P y -> P (oadd x y))
  (Psub : forall x y, P x -> P y -> P (osub x y)) (Pmul : forall x y, P x -> P y -> P (omul x y))
  (Pdiv : forall x y q, P x -> P y -> odiv x y = Ok q -> P q).
Definition allP (n : nat) (f : nat -> nat -> T) : Prop := forall i j, i < n -> j < n -> P (f i j).
Lemma det_loop_closed todo : forall n c (m : Matrix T) f det d, todo + c = n -> is_mat m n n f -> allP n f -> P det ->
  det_loop todo n c m det = Ok d -> P d.
Proof.
  induction todo as [|todo IH]; intros n c m f det d Hc Hm Hf Hdet; cbn [det_loop]; [intros E; injection E as <-; auto|].
  assert (K : forall (m' : Matrix T) f' det', is_mat m' n n f' -> allP n f' -> P det' ->
    (let* pivot := mat_at m' c c in let* A := det_elim n c pivot m' in det_loop todo n (S c) A (omul det' pivot)) = Ok d -> P d).
  { intros m' f' det' Hm' Hf' Hdet'. rewrite (is_mat_at _ _ _ _ c c Hm') by lia. cbn [bind].
    destruct (det_elim_ok m' n f' c (f' c c) (fun r => quot (f' r c) (f' c c)) Hm' ltac:(lia)) as (m2 & -> & H2); [intros; apply quot_ok, Hd|].
    cbn [bind]. eapply IH; [lia|exact H2| |apply Pmul; [auto|apply Hf'; lia]].
    intros i j Hi Hj. cbv beta. destruct ((c <? i) && (c <=? j)); [|auto]. apply Psub; [auto|]. apply Pmul; [|apply Hf'; lia].
    eapply Pdiv; [| |apply quot_ok, Hd]; apply Hf'; lia. }
  destruct (det_pivot_ok m n f c det Hm ltac:(lia)) as [(_ & ->)|[(k & m' & Hk1 & Hk2 & _ & Hm' & ->)|(_ & ->)]]; cbn [bind].
  - apply (K m f det); auto.
  - apply (K m' (fswap c k f) (omul det (oopp o1))); auto. intros i j Hi Hj. unfold fswap. apply Hf; [|auto].
    destruct (i =? c); [auto|]. destruct (i =? k); lia.
  - intros E; injection E as <-; auto.
Qed.
Lemma determinant_closed (A : MB T) n f d : readsL A n n f -> allP n f -> determinant A = Ok d -> P d.
Proof.
  intros HA Hf. assert (HA' := HA). destruct HA' as ((Ar & Ac & _ & _ & Ag) & _). unfold determinant, is_square. rewrite Ar, Ac, Nat.eqb_refl. cbn [negb].
  destruct (Nat.eqb_spec n 1) as [->|_]; [rewrite Ag by lia; intros E; injection E as <-; apply Hf; lia|].
  destruct (Nat.eqb_spec n 2) as [->|_];
    [destruct (mget_all_ok A 2 f (proj1 HA)) as (g & -> & Hg); cbn [bind]; intros E; injection E as <-; unfold det2; rewrite !Hg by lia;
     repeat first [apply Padd|apply Psub|apply Pmul]; apply Hf; lia|].
  destruct (Nat.eqb_spec n 3) as [->|_];
    [destruct (mget_all_ok A 3 f (proj1 HA)) as (g & -> & Hg); cbn [bind]; intros E; injection E as <-; unfold det3; rewrite !Hg by lia;
     repeat first [apply Padd|apply Psub|apply Pmul]; apply Hf; lia|].
  destruct (Nat.eqb_spec n 4) as [->|_];
    [destruct (mget_all_ok A 4 f (proj1 HA)) as (g & -> & Hg); cbn [bind]; intros E; injection E as <-; unfold det4; cbv zeta; rewrite !Hg by lia;
     repeat first [apply Padd|apply Psub|apply Pmul]; apply Hf; lia|].
  destruct (mat_of_mb_ok A n n f HA) as (m & -> & Hm). cbn [bind]. apply (det_loop_closed n n 0 m f); auto; lia.
Qed.
Lemma sgnf_closed i j : P (sgnf i j).
Proof. unfold sgnf. destruct (_ =? 0); auto. Qed.
Lemma adjoint_closed (A : MB T) n f m g : readsL A n n f -> allP n f -> adjoint A = Ok m -> is_mat m n n g -> allP n g.
Proof.
  intros HA Hf E Hm i j Hi Hj. destruct (Nat.eq_dec n 1) as [->|N1].
  - destruct (adjoint_1 A f HA) as (m' & E' & H'). rewrite E in E'. injection E' as <-. rewrite (is_mat_fun _ _ _ _ _ Hm H' i j Hi Hj). auto.
  - set (D := fun i j => match determinant (mb_cof i j A) with Ok d => d | _ => o0 end).
    assert (HD : forall i j, i < n -> j < n -> determinant (mb_cof i j A) = Ok (D i j)).
    { intros a b Ha Hb. unfold D. destruct (determinant_total Hd (mb_cof a b A) (n - 1) (fminor a b f)) as (d & ->); [|reflexivity].
      apply cof_readsL; auto. lia. }
    destruct (adjoint_ok A n f D HA N1 HD) as (m' & E' & H'). rewrite E in E'. injection E' as <-.
    rewrite (is_mat_fun _ _ _ _ _ Hm H' i j Hi Hj). apply Pmul; [apply sgnf_closed|].
    apply (determinant_closed (mb_cof j i A) (n - 1) (fminor j i f)); [apply cof_readsL; auto; lia| |auto].
    intros a b Ha Hb. unfold fminor. apply Hf; [destruct (a <? j)|destruct (b <? i)]; lia.
Qed.
End Closed.
Lemma fdiv_total t x y : exists q, @odiv double (fops t) x y = Ok q.
Proof. eexists. reflexivity. Qed.
(** For doubles none of them throws or is undefined, whatever the elements are. *)
Theorem C85_total t A n f : @readsL double A n n f ->
  (exists d, @determinant double (fops t) A = Ok d) /\ (exists m, @adjoint double (fops t) A = Ok m) /\
  (exists m, @inverse double (fops t) A = Ok m) /\ (exists l u, @lu_decomposition double (fops t) A = Ok (l, u)).
Proof.
  intros HA. destruct (@inverse_total double (fops t) (fdiv_total t) A n f HA) as (d & adj & g & Ed & Ea & _ & Hi).
  split; [eauto|]. split; [eauto|]. split; [destruct Hi as [(_ & E)|(_ & m & E & _)]; eauto|].
  apply (@LURound.lu_total double (fops t) A n f (proj1 HA)). intros y x. apply fdiv_total.
Qed.
(** The values that they compute are doubles, when the elements are. *)
Lemma double_ops : is_double (S754_zero false) /\ is_double one /\ (forall x, is_double x -> is_double (SFopp x)) /\
  (forall x y, is_double x -> is_double y -> is_double (SFadd prec64 emax64 x y) /\ is_double (SFsub prec64 emax64 x y) /\
     is_double (SFmul prec64 emax64 x y) /\ is_double (SFdiv prec64 emax64 x y)).
Proof.
  assert (0 < prec64)%Z by (unfold prec64; lia). assert (3 - emax64 - prec64 <= 0)%Z by (unfold prec64, emax64; lia).
  split; [reflexivity|]. split; [reflexivity|]. split; [apply opp_valid|]. intros x y Hx Hy.
  split; [apply add_valid; auto|]. split; [apply sub_valid; auto|]. split; [apply mul_valid; auto|apply div_valid; auto].
Qed.
Theorem C85_closed t A n f : @readsL double A n n f -> (forall i j, i < n -> j < n -> is_double (f i j)) ->
  exists d adj g, @determinant double (fops t) A = Ok d /\ is_double d /\ @adjoint double (fops t) A = Ok adj /\ is_mat adj n n g /\
    (forall i j, i < n -> j < n -> is_double (g i j)).
Proof.
  intros HA Hf. destruct (@determinant_total double (fops t) (fdiv_total t) A n f HA) as (d & Ed).
  destruct (@adjoint_total double (fops t) (fdiv_total t) A n f HA) as (adj & g & Ea & Ha). exists d, adj, g.
  destruct double_ops as (D0 & D1 & Do & D2). split; [exact Ed|]. split; [|split; [exact Ea|split; [exact Ha|]]].
  - apply (@determinant_closed double (fops t) (fdiv_total t) is_double D1 Do) with A n f; auto; try (intros; apply D2; auto).
    intros x y q Hx Hy E. injection E as <-. apply D2; auto.
  - apply (@adjoint_closed double (fops t) (fdiv_total t) is_double D1 Do) with A f adj; auto; try (intros; apply D2; auto).
    intros x y q Hx Hy E. injection E as <-. apply D2; auto.
Qed.
(** What inverse returns: the empty matrix when the computed determinant is a zero or an
    infinity (the product overflowed, although the matrix may be far from singular), all
    NaN when it is NaN, and adjoint / determinant otherwise. *)
Theorem C85_inverse t A n f : small_tol t -> @readsL double A n n f -> (forall i j, i < n -> j < n -> is_double (f i j)) ->
  exists d adj g, @determinant double (fops t) A = Ok d /\ @adjoint double (fops t) A = Ok adj /\ is_mat adj n n g /\
    match d with
    | S754_zero _ | S754_infinity _ => @inverse double (fops t) A = Ok mat_empty
    | S754_nan => exists m, @inverse double (fops t) A = Ok m /\ is_mat m n n (fun _ _ => nan)
    | S754_finite _ _ _ => exists m, @inverse double (fops t) A = Ok m /\ is_mat m n n (fun i j => SFdiv prec64 emax64 (g i j) d)
    end.
Proof.
  intros Ht HA Hf. destruct (@inverse_total double (fops t) (fdiv_total t) A n f HA) as (d & adj & g & Ed & Ea & Ha & Hi).
  exists d, adj, g. split; [exact Ed|]. split; [exact Ea|]. split; [exact Ha|].
  assert (Hd : is_double d).
  { destruct (C85_closed t A n f HA Hf) as (d' & _ & _ & Ed' & Hd' & _). rewrite Ed in Ed'. injection Ed' as <-. exact Hd'. }
  pose proof (C84_zero t d Ht Hd) as Z. cbn [oisz fops] in Hi.
  destruct d as [s|s| |s md ed].
  - destruct Hi as [(_ & E)|(E0 & _)]; [exact E|]. rewrite (proj2 Z) in E0 by eauto. discriminate.
  - destruct Hi as [(_ & E)|(E0 & _)]; [exact E|]. rewrite (proj2 Z) in E0 by (right; exists s; reflexivity). discriminate.
  - destruct Hi as [(E0 & _)|(_ & m & E & Hm)]; [discriminate E0|]. exists m. split; [exact E|]. eapply is_mat_ext; [exact Hm|].
    intros i j _ _. unfold quot. cbn [odiv fops]. destruct (g i j); reflexivity.
  - destruct Hi as [(E0 & _)|(_ & m & E & Hm)]; [|exists m; split; [exact E|exact Hm]].
    apply Z in E0. destruct E0 as [[s' E0]|[s' E0]]; discriminate.
Qed.
(** Then div throws. *)
Theorem C85_div t A B n f d : pos_tol t -> @readsL double B n n f -> mcols A <> 0 ->
  @determinant double (fops t) B = Ok d -> (exists s, d = S754_zero s) \/ (exists s, d = inf s) ->
  @inverse double (fops t) B = Ok mat_empty /\ @div double (fops t) A B = Throw.
Proof.
  intros (mt & et & ->) HB Hc Ed Hd.
  assert (E : @inverse double (fops (S754_finite false mt et)) B = Ok mat_empty).
  { destruct HB as ((Br & Bc & _) & _). unfold inverse, is_square. rewrite Br, Bc, Nat.eqb_refl. cbn [negb]. rewrite Ed. cbn [bind].
    destruct Hd as [[s ->]|[s ->]]; reflexivity. }
  split; [exact E|]. unfold div. rewrite E. cbn [bind]. unfold m_mul. cbn [mb_of_mat mrows mat_empty rows].
  destruct (Nat.eqb_spec (mcols A) 0); [contradiction|reflexivity].
Qed.

(** * Examples *)
Definition e200 : double := S754_finite false 5883593420661338 612.
Definition em200 : double := S754_finite false 6894565328877484 (-717).
Definition diag2 (x : double) : Matrix double := mkM 2 2 [x; S754_zero false; S754_zero false; x].
(** 1e200 I and 1e-200 I are invertible, and are reported as singular. *)
Theorem C85_inverse_refuted : is_double e200 /\ is_double em200 /\
  @inverse double (fops tol6) (mb_of_mat (diag2 e200)) = Ok mat_empty /\ @inverse double (fops tol6) (mb_of_mat (diag2 em200)) = Ok mat_empty /\
  @determinant double (fops tol6) (mb_of_mat (diag2 e200)) = Ok (inf false) /\
  @inverse double (fops tol6) (mb_of_mat (mkM 1 1 [e200])) = Ok (mkM 1 1 [SFdiv prec64 emax64 one e200]) /\
  @inverse double (fops tol6) (mb_of_mat (mkM 1 1 [nan])) = Ok (mkM 1 1 [nan]).
Proof. vm_compute. repeat split. Qed.
Example C85_ex : @min_v double (fops tol6) [nan; one] = Ok (nan, 0) /\ @min_v double (fops tol6) [e200; nan; one; nan] = Ok (one, 2) /\
  @max_v double (fops tol6) [one; nan; inf false] = Ok (inf false, 2) /\
  @flatnonzero double (fops tol6) (mkM 2 2 [nan; inf true; S754_zero true; one]) = Ok [0; 3] /\
  @all_close double (fops tol6) (mb_of_mat (mkM 1 2 [nan; one])) (mb_of_mat (mkM 1 2 [e200; one])) tol6 = Ok true /\
  @all_close double (fops tol6) (mb_of_mat (mkM 1 2 [inf true; one])) (mb_of_mat (mkM 1 2 [inf false; one])) tol6 = Ok false.
Proof. vm_compute. repeat split. Qed.
