(** ViewFacts2.v: view assignment, self-assignment from a view, resize, reshape,
    nested lists (lemmas). *)
From Verif Require Export ViewFacts.
From Coq Require Import ZifyBool ZifyNat ZifyN.
Ltac Zify.zify_post_hook ::= Z.div_mod_to_equations.

Lemma nth_error_firstn_lt {A} (l : list A) : forall n i, i < n -> nth_error (firstn n l) i = nth_error l i.
Proof.
  induction l as [|x l IH]; intros [|n] [|i] H; cbn; auto; try lia. apply IH. lia.
Qed.

Section A.
Context {T : Type} {O : Ops T}.
Implicit Types (m : Matrix T) (f g h : nat -> nat -> T) (X : MB T) (p q : vpath).

Lemma view_assign_const p X m r c f r' c' h :
  is_mat m r c f -> vshape p r c = Some (r', c') -> reads X r' c' h ->
  exists m' f', view_assign p (fun _ => X) m = Ok m' /\ is_mat m' r c f' /\ vwritten p r' c' h f f' r c.
Proof.
  intros H Hv Hx. apply (view_copy_ok p (fun _ => X) (fun _ => h)); auto.
Qed.
Lemma view_assign_same_root p q m r c f r' c' :
  is_mat m r c f -> vshape p r c = Some (r', c') -> vshape q r c = Some (r', c') ->
  (forall i j x y, i < r' -> j < c' -> x < r' -> y < c' -> before i j x y = true -> vpos p x y <> vpos q i j) ->
  exists m' f', view_assign p (vmb q) m = Ok m' /\ is_mat m' r c f' /\ vwritten p r' c' (vsel q f) f f' r c.
Proof.
  intros H Hv Hq Hs. apply (view_copy_ok p (vmb q) (fun g => vsel q g)); auto.
  - intros m1 g H1. apply vmb_reads with (r := r) (c := c); auto.
  - intros g i j Hi Hj Hg. unfold vsel. destruct (vpos_range q r c r' c' i j Hq Hi Hj). apply Hg; auto.
    intros x y Hx Hy Hb. rewrite <- surjective_pairing. auto.
Qed.
(** Windows of the same matrix: the source starts at or after the destination. *)
Lemma window_forward (r0 r1 c0 c1 s0 s1 t0 t1 : nat) p :
  r0 < s0 \/ (r0 = s0 /\ c0 <= t0) ->
  forall i j x y, before i j x y = true ->
  vpos (PView (mkRange r0 r1) (mkRange c0 c1) p) x y <> vpos (PView (mkRange s0 s1) (mkRange t0 t1) p) i j.
Proof.
  intros Hs i j x y Hb E. cbn in E. apply vpos_inj in E. unfold before in Hb. lia.
Qed.

Lemma view_assign_shape_ub p src m : 
  mrows (vmb p m) <> mrows (src m) \/ mcols (vmb p m) <> mcols (src m) -> view_assign p src m = UB.
Proof. intros H. unfold view_assign. replace (_ && _) with false by lia. reflexivity. Qed.

Lemma view_assign_nested_ok p (ll : list (list T)) m r c f r' c' h :
  is_mat m r c f -> vshape p r c = Some (r', c') -> 0 < r' -> 0 < c' -> length ll = r' ->
  (forall row, nth_error ll 0 = Some row -> length row = c') ->
  (forall i j, i < r' -> j < c' -> exists row, nth_error ll i = Some row /\ nth_error row j = Some (h i j)) ->
  exists m' f', view_assign_nested p ll m = Ok m' /\ is_mat m' r c f' /\ vwritten p r' c' h f f' r c.
Proof.
  intros H Hv Hr' Hc' Hl Hf Hh. destruct (vmb_reads p m r c f r' c' H Hv) as (D1 & D2 & _).
  unfold view_assign_nested. rewrite D1, D2. destruct ll as [|first rest]; [cbn in Hl; lia|].
  specialize (Hf first eq_refl).
  rewrite (proj2 (Nat.eqb_eq r' _) (eq_sym Hl)), Hf, Nat.eqb_refl. cbn [negb].
  destruct (Nat.eqb_spec 0 c'); [lia|].
  pose (X := mkMB r' c' (r' * c') true (fun i j => let* row := lget (first :: rest) i in lget row j) (fun _ => UB)).
  assert (HX : reads X r' c' h).
  { repeat split; try apply (shape_ok_le r c r' c'); try apply (vshape_le p r c r' c'); auto; try apply (is_mat_shape _ _ _ _ H).
    intros i j Hi Hj. cbn. destruct (Hh i j Hi Hj) as (row & E1 & E2). rewrite (lget_ok _ _ _ E1). cbn. apply lget_ok; auto. }
  destruct (view_assign_const p X m r c f r' c' h H Hv HX) as (m' & f' & E & Q).
  exists m', f'. split; auto. rewrite <- E. unfold view_assign, X. rewrite D1, D2. cbn [mrows mcols mget].
  rewrite !Nat.eqb_refl. cbn [andb]. apply for_range_ext. intros i s Hi.
  destruct (Hh i 0 ltac:(lia) Hc') as (row & E1 & _). rewrite (lget_ok _ _ _ E1). cbn [bind]. reflexivity.
Qed.
Lemma view_assign_nested_noop p (ll : list (list T)) m :
  length ll <> mrows (vmb p m) \/ (forall row, nth_error ll 0 = Some row -> length row <> mcols (vmb p m) \/ length row = 0) ->
  view_assign_nested p ll m = Ok m.
Proof.
  intros H. unfold view_assign_nested. destruct ll as [|first rest]; auto.
  destruct H as [H|H].
  - destruct (Nat.eqb_spec (mrows (vmb p m)) (length (first :: rest))); [congruence|reflexivity].
  - destruct (negb _); auto. destruct (Nat.eqb_spec 0 (length first)); auto.
    destruct (H first eq_refl); [|lia].
    destruct (Nat.eqb_spec (mcols (vmb p m)) (length first)); [congruence|reflexivity].
Qed.

(** ** construction *)
Lemma mat_of_nested_ok (ll : list (list T)) r c h :
  length ll = r -> 0 < r -> 0 < c -> shape_ok r c ->
  (forall row, nth_error ll 0 = Some row -> length row = c) ->
  (forall i j, i < r -> j < c -> exists row, nth_error ll i = Some row /\ nth_error row j = Some (h i j)) ->
  exists m, mat_of_nested ll = Ok m /\ is_mat m r c h.
Proof.
  intros Hl Hr Hc Hs Hf Hh. unfold mat_of_nested. destruct ll as [|first rest]; [cbn in Hl; lia|].
  specialize (Hf first eq_refl). destruct first as [|x first]; [cbn in Hf; lia|].
  rewrite Hl, Hf. destruct (mat_zero_ok r c Hs) as (m & E & Hm). rewrite E. cbn [bind].
  unfold nested_copy. eapply fill_rc_full; eauto.
  intros i j Hi Hj. destruct (Hh i j Hi Hj) as (row & E1 & E2). rewrite (lget_ok _ _ _ E1). cbn. apply lget_ok; auto.
Qed.

(** A loop that never leaves by anything else than [Ok] or [UB], and fails with
    [UB] in one of its iterations, fails with [UB]. *)
Lemma for_n_ub {S} (body : nat -> S -> Res S) n : forall lo s,
  (forall i s, lo <= i < lo + n -> (exists s', body i s = Ok s') \/ body i s = UB) ->
  (exists i, lo <= i < lo + n /\ forall s, body i s = UB) ->
  for_n n lo body s = UB.
Proof.
  induction n as [|n IH]; intros lo s H (k & Hk & Hu); [lia|].
  cbn. destruct (H lo s ltac:(lia)) as [(s' & E)|E]; rewrite E; cbn; auto.
  destruct (Nat.eq_dec k lo) as [->|N].
  - rewrite Hu in E. discriminate.
  - apply IH; [intros; apply H; lia|]. exists k. split; [lia|auto].
Qed.
Lemma for_range_ub {S} (body : nat -> S -> Res S) lo hi s :
  (forall i s, lo <= i < hi -> (exists s', body i s = Ok s') \/ body i s = UB) ->
  (exists i, lo <= i < hi /\ forall s, body i s = UB) ->
  for_range lo hi body s = UB.
Proof.
  intros H (k & Hk & Hu). apply for_n_ub.
  - intros i s1 Hi. apply H. lia.
  - exists k. split; [lia|auto].
Qed.
Lemma for_range_ok_ub {S} (body : nat -> S -> Res S) lo hi s :
  (forall i s, lo <= i < hi -> (exists s', body i s = Ok s') \/ body i s = UB) ->
  (exists s', for_range lo hi body s = Ok s') \/ for_range lo hi body s = UB.
Proof.
  intros H. unfold for_range. remember (hi - lo) as n eqn:E.
  assert (H' : forall i s, lo <= i < lo + n -> (exists s', body i s = Ok s') \/ body i s = UB) by (intros; apply H; lia).
  clear H E. revert lo s H'. induction n as [|n IH]; intros lo s H; cbn; eauto.
  destruct (H lo s ltac:(lia)) as [(s' & E)|E]; rewrite E; cbn; auto. apply IH. intros; apply H; lia.
Qed.
Lemma for_range_ok_ub_inv {S} (P : nat -> S -> Prop) lo hi body s :
  lo <= hi -> P lo s ->
  (forall i s, lo <= i < hi -> P i s -> (exists s', body i s = Ok s' /\ P (Datatypes.S i) s') \/ body i s = UB) ->
  for_range lo hi body s = UB \/ exists s', for_range lo hi body s = Ok s' /\ P hi s'.
Proof.
  intros Hle Hp H. unfold for_range. remember (hi - lo) as n eqn:E. revert lo s Hle Hp H E.
  induction n as [|n IH]; intros lo s Hle Hp H E; cbn.
  - right. exists s. split; auto. replace hi with lo by lia. auto.
  - destruct (H lo s ltac:(lia) Hp) as [(s' & E1 & P1)|E1]; rewrite E1; cbn; auto.
    apply IH; auto; try lia. intros; apply H; auto; lia.
Qed.
Lemma for2_ok_ub {S} (P : nat -> nat -> S -> Prop) nr nc body s :
  P 0 0 s ->
  (forall i j s, i < nr -> j < nc -> P i j s -> (exists s', body i j s = Ok s' /\ P i (Datatypes.S j) s') \/ body i j s = UB) ->
  (forall i s, i < nr -> P i nc s -> P (Datatypes.S i) 0 s) ->
  for_range 0 nr (fun r s => for_range 0 nc (fun c s => body r c s) s) s = UB \/
  exists s', for_range 0 nr (fun r s => for_range 0 nc (fun c s => body r c s) s) s = Ok s' /\ P nr 0 s'.
Proof.
  intros H0 Hb Hr.
  apply (for_range_ok_ub_inv (fun i s => P i 0 s)); [lia|auto|].
  intros i s1 Hi Hp.
  destruct (for_range_ok_ub_inv (fun j s => P i j s) 0 nc (fun c s => body i c s) s1) as [E|(s2 & E & Q)]; [lia|auto| | |]; auto.
  - intros j s2 Hj Hp2. apply Hb; auto; lia.
  - left. exists s2. split; auto. apply Hr; auto; lia.
Qed.
Lemma lget_ok_ub {A} (l : list A) i : (exists a, lget l i = Ok a) \/ lget l i = UB.
Proof. unfold lget. destruct (nth_error l i); eauto. Qed.
Lemma lset_ok_ub {A} (l : list A) i (a : A) : (exists l', lset l i a = Ok l') \/ lset l i a = UB.
Proof. unfold lset. destruct (_ <? _); eauto. Qed.
Lemma mat_set_ok_ub m i j (v : T) : (exists m', mat_set m i j v = Ok m') \/ mat_set m i j v = UB.
Proof. unfold mat_set. destruct (lset_ok_ub (data m) (mat_idx m i j) v) as [(l & E)|E]; rewrite E; cbn; eauto. Qed.

(** ** resize, reshape *)
Definition fresize r c f : nat -> nat -> T := fun i j => if (i <? r) && (j <? c) then f i j else o0.
Lemma mat_resize_ok m r c f r' c' : is_mat m r c f -> shape_ok r' c' ->
  exists m', mat_resize m r' c' = Ok m' /\ is_mat m' r' c' (fresize r c f).
Proof.
  intros H Hs. assert (H' := H). destruct H' as (Hr & Hc & Hsh & Hl & Hn). unfold mat_resize. rewrite Hr, Hc.
  destruct (Nat.eqb_spec c c') as [->|Nc].
  - destruct (Nat.eqb_spec r r') as [->|Nr]; cbn [andb].
    + exists m. split; auto. eapply is_mat_ext; eauto. intros i j Hi Hj. unfold fresize.
      rewrite (proj2 (Nat.ltb_lt i r')), (proj2 (Nat.ltb_lt j c')) by auto. reflexivity.
    + rewrite mul64_small by (apply shape_size; auto). rewrite vec_allocate_ok by apply Hs. cbn [bind].
      eexists. split; [reflexivity|]. repeat split; try apply Hs; cbn [rows cols data].
      * rewrite app_length, firstn_length, repeat_length, Hl. nia.
      * intros i j Hi Hj. assert (Hij := idx_lt i j r' c' Hi Hj). unfold fresize. rewrite (proj2 (Nat.ltb_lt j c')) by auto.
        destruct (Nat.ltb_spec i r) as [Hir|Hir]; cbn [andb].
        -- rewrite nth_error_app1. 2:{ rewrite firstn_length, Hl. assert (Q := idx_lt i j r c' Hir Hj). lia. }
           rewrite nth_error_firstn_lt by lia. auto.
        -- assert (r * c' <= i * c') by (apply Nat.mul_le_mono_r; lia).
           rewrite nth_error_app2 by (rewrite firstn_length, Hl; lia).
           apply nth_error_repeat_lt. rewrite firstn_length, Hl. lia.
  - rewrite andb_false_r. destruct (mat_new_ok r' c' o0 Hs) as (n & E & Hn0). rewrite E. cbn [bind].
    destruct (fill_rc_ok n r' c' _ (Nat.min r r') (Nat.min c c') (mat_at m) f Hn0) as (n' & E' & Hn'); [lia|lia| |].
    + intros i j Hi Hj. eapply is_mat_at; eauto; lia.
    + rewrite E'. cbn [bind]. eexists. split; [reflexivity|].
      assert (Q := Hn'). destruct Q as (Q1 & Q2 & Q). rewrite <- Q1, <- Q2 at 1.
      destruct n' as [a b d]. cbn in *. subst a b. eapply is_mat_ext; [exact Hn'|].
      intros i j Hi Hj. unfold fresize. cbn. destruct (Nat.ltb_spec i r), (Nat.ltb_spec j c);
      destruct (Nat.ltb_spec i (Nat.min r r')), (Nat.ltb_spec j (Nat.min c c')); cbn; auto; lia.
Qed.
Lemma mat_reshape_ok m r c f r' c' : is_mat m r c f -> is_size r' -> is_size c' -> r' * c' = r * c ->
  exists m', mat_reshape m r' c' = Ok m' /\ data m' = data m /\
    is_mat m' r' c' (fun i j => f ((i * c' + j) / c) ((i * c' + j) mod c)).
Proof.
  intros H Hr' Hc' E. assert (H' := H). destruct H' as (Hr & Hc & Hsh & Hl & Hn).
  assert (Hs' : shape_ok r' c') by (repeat split; auto; rewrite E; apply Hsh).
  unfold mat_reshape. rewrite Hr, Hc, !mul64_small, E, Nat.eqb_refl by (apply shape_size; auto).
  eexists. split; [reflexivity|]. cbn [data]. split; auto. repeat split; try apply Hs'; cbn [rows cols data].
  - congruence.
  - intros i j Hi Hj. assert (Hij := idx_lt i j r' c' Hi Hj). rewrite E in Hij.
    rewrite <- (Hn ((i*c'+j)/c) ((i*c'+j) mod c)).
    + rewrite (div_mod_rc _ r c); auto.
    + eapply div_lt_rc; eauto.
    + eapply mod_lt_rc; eauto.
Qed.
Lemma mat_reshape_throw m r c f r' c' : is_mat m r c f -> is_size (r' * c') -> r' * c' <> r * c ->
  mat_reshape m r' c' = Throw.
Proof.
  intros H Hs N. assert (H' := H). destruct H' as (Hr & Hc & Hsh & _ & _). unfold mat_reshape.
  rewrite Hr, Hc, !mul64_small by (auto; apply shape_size; auto). destruct (Nat.eqb_spec (r * c) (r' * c')); congruence.
Qed.

(** ** A = view of A *)
Lemma self_view_zero m r c f r1 c1 : is_mat m r c f -> 0 < r1 -> 0 < c1 -> 0 < r -> 0 < c ->
  exists m', mat_assign (vmb (PView (mkRange 0 r1) (mkRange 0 c1) Root)) m = Ok m' /\
    is_mat m' (Nat.min r1 r) (Nat.min c1 c) (fun _ _ => o0).
Proof.
  intros H Hr1 Hc1 Hr0 Hc0. assert (H' := H). destruct H' as (Hr & Hc & (Sr & Sc & Sf) & _ & _).
  assert (S0 : forall n k, is_size n -> sub64 (Nat.min k n) 0 = Nat.min k n).
  { intros n k Hn. rewrite sub64_small; [lia|lia|apply (size_le _ n); [lia|auto]]. }
  assert (Hs : shape_ok (Nat.min r1 r) (Nat.min c1 c)).
  { apply (shape_ok_le r c); [lia|lia|repeat split; auto]. }
  unfold mat_assign. cbn [vmb mb_view mb_of_mat msize mrows mcols start stop rows cols mget].
  rewrite Hr, Hc, !S0 by auto. rewrite mul64_small by (apply shape_size; auto).
  destruct (Nat.eqb_spec (Nat.min r1 r * Nat.min c1 c) 0); [nia|].
  rewrite vec_new_ok by apply Hs. cbn [bind rows cols].
  set (R := Nat.min r1 r) in *. set (C := Nat.min c1 c) in *.
  destruct (for2_inv (fun _ _ m => is_mat m R C (fun _ _ => o0)) R C
     (fun i j (m : Matrix T) => let* v := mat_at m (add64 0 i) (add64 0 j) in mat_set m i j v)
     (mkM R C (repeat o0 (R * C)))) as (m' & E & Q).
  - apply is_mat_repeat; auto.
  - intros i j m1 Hi Hj H1. rewrite !add64_small; cbn [Nat.add].
    2:{ apply (size_le _ c); [lia|auto]. } 2:{ apply (size_le _ r); [lia|auto]. }
    rewrite (is_mat_at _ _ _ _ i j H1) by auto. cbn [bind].
    destruct (mat_set_ok m1 R C _ i j o0 H1 Hi Hj) as (m2 & E2 & H2). exists m2. split; auto.
    eapply is_mat_ext; eauto. intros a b Ha Hb. unfold fset. destruct (_ && _); auto.
  - auto.
  - exists m'. auto.
Qed.
Lemma self_view_ub m r c f r0 r1 c0 c1 : is_mat m r c f ->
  r0 < r1 -> c0 < c1 -> r0 < r -> c0 < c -> 0 < r0 \/ 0 < c0 ->
  mat_assign (vmb (PView (mkRange r0 r1) (mkRange c0 c1) Root)) m = UB.
Proof.
  intros H Hr1 Hc1 Hr0 Hc0 Hpos. assert (H' := H). destruct H' as (Hr & Hc & (Sr & Sc & Sf) & _ & _).
  assert (S0 : forall n k s, is_size n -> s < k -> s < n -> sub64 (Nat.min k n) s = Nat.min k n - s).
  { intros n k s Hn Hk Hsn. apply sub64_small; [lia|apply (size_le _ n); [lia|auto]]. }
  set (R := Nat.min r1 r - r0) in *. set (C := Nat.min c1 c - c0) in *.
  assert (Hs : shape_ok R C).
  { apply (shape_ok_le r c); [subst R; lia|subst C; lia|repeat split; auto]. }
  assert (R0 : 0 < R) by (subst R; lia). assert (C0 : 0 < C) by (subst C; lia).
  unfold mat_assign. cbn [vmb mb_view mb_of_mat msize mrows mcols start stop rows cols mget].
  rewrite Hr, Hc, !S0 by auto. fold R C. rewrite mul64_small by (apply shape_size; auto).
  destruct (Nat.eqb_spec (R * C) 0); [nia|].
  rewrite vec_new_ok by apply Hs. cbn [bind rows cols].
  (* every state of the loop keeps the shape, so use an invariant on the state *)
  set (body := fun i j (m : Matrix T) => let* v := mat_at m (add64 r0 i) (add64 c0 j) in mat_set m i j v).
  assert (Hinner : forall i s, (exists s', for_range 0 C (body i) s = Ok s') \/ for_range 0 C (body i) s = UB).
  { intros i s. apply for_range_ok_ub. intros j s' _. unfold body, mat_at.
    destruct (lget_ok_ub (data s') (mat_idx s' (add64 r0 i) (add64 c0 j))) as [(x & E)|E]; rewrite E; cbn; auto.
    apply mat_set_ok_ub. }
  (* generalise: run with the invariant "shape and length are R, C" *)
  assert (Hkeep : forall i j s s', body i j s = Ok s' -> (rows s = R /\ cols s = C /\ length (data s) = R * C) ->
      (rows s' = R /\ cols s' = C /\ length (data s') = R * C)).
  { unfold body. intros i j s s' E (A1 & A2 & A3). apply bind_ok in E. destruct E as (x & _ & E).
    unfold mat_set in E. apply bind_ok in E. destruct E as (d & E & E'). inversion E'; subst. cbn. repeat split; auto.
    unfold lset in E. destruct (_ <? _); inversion E. rewrite upd_length. auto. }
  assert (Hkeep2 : forall i n lo s s', for_n n lo (body i) s = Ok s' -> (rows s = R /\ cols s = C /\ length (data s) = R * C) ->
      (rows s' = R /\ cols s' = C /\ length (data s') = R * C)).
  { intros i n0. induction n0 as [|n0 IH]; cbn; intros lo s s' E Hp. { inversion E; subst; auto. }
    apply bind_ok in E. destruct E as (s1 & E1 & E2). eapply IH; eauto. }
  assert (Hbad : forall s, (rows s = R /\ cols s = C /\ length (data s) = R * C) -> body (R-1) (C-1) s = UB).
  { intros s (A1 & A2 & A3). unfold body, mat_at. rewrite lget_ub; auto. rewrite A3. unfold mat_idx. rewrite A2.
    rewrite (add64_small r0), (add64_small c0) by (subst R C; size_by r c).
    assert (Q : R * C <= (r0 + (R-1)) * C + (c0 + (C-1))) by nia.
    assert (Q2 : is_size ((r0 + (R - 1)) * C + (c0 + (C - 1)))).
    { apply (size_le _ (r * c)); [|auto]. assert (r0 + (R-1) < r) by (subst R; lia). assert (c0 + (C-1) < c) by (subst C; lia).
      assert (C <= c) by (subst C; lia). nia. }
    rewrite mul64_small. 2:{ apply (size_le _ _ ltac:(apply Nat.le_add_r) Q2). }
    rewrite add64_small by auto. exact Q. }
  assert (Hrow : forall i s, i <= R-1 -> (rows s = R /\ cols s = C /\ length (data s) = R * C) ->
     (exists s', for_range 0 C (body i) s = Ok s' /\ (rows s' = R /\ cols s' = C /\ length (data s') = R * C) /\ i < R - 1) \/ for_range 0 C (body i) s = UB).
  { intros i s Hi Hp. destruct (Hinner i s) as [(s' & E)|E]; auto. destruct (Nat.eq_dec i (R-1)) as [->|N].
    - exfalso. replace C with (S (C-1)) in E by lia. rewrite for_range_last in E by lia.
      apply bind_ok in E. destruct E as (s1 & E1 & E2). rewrite Hbad in E2; [discriminate|]. eapply Hkeep2; eauto.
    - left. exists s'. split; [auto|]. split; [|lia]. eapply Hkeep2; [exact E|exact Hp]. }
  assert (Hall : forall n lo s, lo + n = R -> 0 < n -> (rows s = R /\ cols s = C /\ length (data s) = R * C) ->
     for_n n lo (fun i s => for_range 0 C (body i) s) s = UB).
  { induction n0 as [|n0 IH]; intros lo s E E0 Hp; [lia|]. cbn.
    destruct (Hrow lo s ltac:(lia) Hp) as [(s' & E1 & Hp' & Hlt)|E1]; rewrite E1; cbn; auto.
    apply IH; auto; lia. }
  unfold for_range at 1. apply Hall; [lia|lia|]. cbn. rewrite repeat_length. auto.
Qed.
End A.
