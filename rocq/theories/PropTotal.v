(** PropTotal.v: powers, controllability and observability matrices, polynomials, pole placement and
    discretisation for elements of any type (C109): no law of arithmetic is assumed, so what is said here
    holds of doubles with their rounding, infinities and NaNs. *)
From Verif Require Import LinalgFacts2 PropMatrix PropUtil PropMath PropLinalg DetFacts Control ControlFacts PropDims PropFloat PropFloat2.
From Coq Require Import Lia.

(** * What is computed, in the element type's own operations *)
Section Spec.
Context {T : Type} {O : Ops T}.
(** The k-th power of an n x n array: the identity, multiplied on the right k times. *)
Fixpoint fpow (n : nat) (f : nat -> nat -> T) (k : nat) : nat -> nat -> T :=
  match k with 0 => fun i j => if i =? j then o1 else o0 | S k => mprod n (fpow n f k) f end.
(** Block k of the controllability and of the observability matrices: block 0 is B (C) itself. *)
Definition ctrb_blk (n : nat) (fa fb : nat -> nat -> T) (k : nat) : nat -> nat -> T := if k =? 0 then fb else mprod n (fpow n fa k) fb.
Definition obsv_blk (n : nat) (fa fc : nat -> nat -> T) (k : nat) : nat -> nat -> T := if k =? 0 then fc else mprod n fc (fpow n fa k).
(** The recurrence of Faddeev and Le Verrier: (B1, t1) = (A, tr A), then
    B(m) = A (B(m-1) - t(m-1) I) and t(m) = tr B(m) / m.  [q] is the quotient. *)
Fixpoint faddeev (q : T -> T -> T) (n : nat) (f : nat -> nat -> T) (k : nat) : (nat -> nat -> T) * T :=
  match k with
  | 0 => (f, osum n (fun i => f i i))
  | S k => let '(b, t) := faddeev q n f k in
    let b' := mprod n f (fun i j => osub (b i j) (omul (if i =? j then o1 else o0) t)) in
    (b', q (osum n (fun i => b' i i)) (ofnat (S (S k))))
  end.
(** A^n c(0) + A^(n-1) c(1) + ... (the first k terms), summed from zero in that order. *)
Fixpoint mpoly (n : nat) (f : nat -> nat -> T) (c : nat -> T) (k : nat) : nat -> nat -> T :=
  match k with 0 => fun _ _ => o0 | S k => fun i j => oadd (mpoly n f c k i j) (omul (fpow n f (n - k) i j) (c k)) end.
End Spec.

Section Any.
Context {T : Type} {O : Ops T}.
Implicit Types (A B C : MB T).

(** * powm, ctrb, obsv: no division, any element type *)
Theorem C109_powm : forall A n f k, reads A n n f -> 0 < n -> exists m, powm A k = Ok m /\ is_mat m n n (fpow n f k).
Proof.
  intros A n f k HA Hn. assert (HA' := HA). destruct HA' as (Ar & Ac & _ & Sh & _). unfold powm. rewrite Ar, Ac.
  destruct (C21_eye n n (o1 : T) Hn Hn Sh) as (e & -> & He). cbn [bind].
  match goal with |- exists m, for_range 0 k ?bd ?s = _ /\ _ => destruct (for_range_inv (fun i x => is_mat x n n (fpow n f i)) 0 k bd s) as (m & E & Q); [lia|exact He| |eauto] end.
  intros i x Hi Hx. cbv beta. rewrite (C34_same_as_product x n n _ A f Hx HA).
  destruct (m_mul_ok (mb_of_mat x) A n n n _ f (is_mat_reads _ _ _ _ Hx) HA Sh) as (p & E & Hp). eauto.
Qed.
Theorem C109_ctrb : forall A B n q fa fb, reads A n n fa -> readsL B n q fb -> 0 < n -> shape_ok n (n * q) ->
  exists m, ctrb A B = Ok m /\ is_mat m n (n * q) (fun i j => ctrb_blk n fa fb (j / q) i (j mod q)).
Proof.
  intros A B n q fa fb HA HB Hn Hs. assert (HA' := HA). destruct HA' as (Ar & Ac & _ & Sh & _). assert (HB' := HB). destruct HB' as ((Br & Bc & _ & Sb & _) & _).
  unfold ctrb, is_square. rewrite Ar, Ac, Br, Nat.eqb_refl. cbn [negb]. destruct (mat_of_mb_ok B n q fb HB) as (m0 & -> & H0). cbn [bind].
  set (f := fun i j => ctrb_blk n fa fb (j / q) i (j mod q)).
  match goal with |- exists m, for_range 1 n ?bd ?s = _ /\ _ => destruct (for_range_inv (fun i m => is_mat m n (i * q) f) 1 n bd s) as (m & E & Q); [lia| | |eauto] end.
  - rewrite Nat.mul_1_l. eapply is_mat_ext; [exact H0|]. intros i j _ Hj. unfold f. rewrite Nat.div_small, Nat.mod_small by auto. reflexivity.
  - intros i x Hi Hx. cbv beta. destruct (C109_powm A n fa i HA Hn) as (P & -> & HP). cbn [bind].
    destruct (m_mul_ok (mb_of_mat P) B n n q _ fb (is_mat_reads _ _ _ _ HP) (proj1 HB) Sb) as (p & -> & Hp). cbn [bind].
    assert (Sh' : shape_ok n (i * q + q)) by (apply (shape_le n (n * q)); [nia|exact Hs]).
    destruct (hstack_ok _ _ n (i * q) q f _ (is_mat_reads _ _ _ _ Hx) (is_mat_reads _ _ _ _ Hp) Sh') as (h & -> & Hh). cbn [bind]. eexists. split; [reflexivity|].
    replace (S i * q) with (i * q + q) by lia. eapply (move_assign_ok x h n (i * q) f); [exact Hx| |destruct q; [right; lia|left; nia]].
    eapply is_mat_ext; [exact Hh|]. intros a b Ha Hb. cbv beta. destruct (Nat.ltb_spec b (i * q)) as [L|L]; [reflexivity|].
    unfold f. rewrite (sub_add _ _ L) at 2 3. destruct (block_div i (b - i * q) q) as [-> ->]; [lia|]. unfold ctrb_blk. destruct (Nat.eqb_spec i 0); [lia|reflexivity].
Qed.
Theorem C109_obsv : forall A C n p fa fc, reads A n n fa -> readsL C p n fc -> 0 < n -> shape_ok (n * p) n ->
  exists m, obsv A C = Ok m /\ is_mat m (n * p) n (fun i j => obsv_blk n fa fc (i / p) (i mod p) j).
Proof.
  intros A C n p fa fc HA HC Hn Hs. assert (HA' := HA). destruct HA' as (Ar & Ac & _ & Sh & _). assert (HC' := HC). destruct HC' as ((Cr & Cc & _ & Sc & _) & _).
  unfold obsv, is_square. rewrite Ar, Ac, Cc, Nat.eqb_refl. cbn [negb]. destruct (mat_of_mb_ok C p n fc HC) as (m0 & -> & H0). cbn [bind].
  set (f := fun i j => obsv_blk n fa fc (i / p) (i mod p) j).
  match goal with |- exists m, for_range 1 n ?bd ?s = _ /\ _ => destruct (for_range_inv (fun i m => is_mat m (i * p) n f) 1 n bd s) as (m & E & Q); [lia| | |eauto] end.
  - rewrite Nat.mul_1_l. eapply is_mat_ext; [exact H0|]. intros i j Hi _. unfold f. rewrite Nat.div_small, Nat.mod_small by auto. reflexivity.
  - intros i x Hi Hx. cbv beta. destruct (C109_powm A n fa i HA Hn) as (P & -> & HP). cbn [bind].
    destruct (m_mul_ok C (mb_of_mat P) p n n fc _ (proj1 HC) (is_mat_reads _ _ _ _ HP) Sc) as (pr & -> & Hp). cbn [bind].
    assert (Sh' : shape_ok (i * p + p) n) by (apply (shape_le' (n * p)); [nia|exact Hs]).
    destruct (vstack_ok _ _ (i * p) p n f _ (is_mat_reads _ _ _ _ Hx) (is_mat_reads _ _ _ _ Hp) Sh') as (h & -> & Hh). cbn [bind]. eexists. split; [reflexivity|].
    replace (S i * p) with (i * p + p) by lia. eapply (move_assign_ok x h (i * p) n f); [exact Hx| |destruct p; [right; lia|left; nia]].
    eapply is_mat_ext; [exact Hh|]. intros a b Ha Hb. cbv beta. destruct (Nat.ltb_spec a (i * p)) as [L|L]; [reflexivity|].
    unfold f. rewrite (sub_add _ _ L) at 2 3. destruct (block_div i (a - i * p) p) as [-> ->]; [lia|]. unfold obsv_blk. destruct (Nat.eqb_spec i 0); [lia|reflexivity].
Qed.

Lemma pcoef_ext (a b : nat -> T) p : (forall k, k < p -> a k = b k) -> forall i, pcoef a p i = pcoef b p i.
Proof.
  induction p as [|p IH]; intros H i; [reflexivity|]. cbn [pcoef]. destruct i; [apply IH; auto|]. rewrite !IH by auto. rewrite H by lia. reflexivity.
Qed.
(** * poly and acker: element types whose division always has a value *)
Hypothesis Hd : forall x y : T, exists q, odiv x y = Ok q.
Theorem C109_poly_matrix : forall A n f, readsL A n n f -> 2 <= n -> fits (n + 1) ->
  exists d, poly_m A = Ok d /\ is_vec d (n + 1) (fun i => match i with 0 => o1 | S i => oopp (snd (faddeev quot n f i)) end).
Proof.
  intros A n f HA Hn F. assert (HA' := HA). destruct HA' as ((Ar & Ac & Az & Sh & Ag) & Al). unfold poly_m, is_square. rewrite Az, Ar, Ac, Nat.eqb_refl.
  destruct (Nat.eqb_spec (n * n) 0); [nia|]. destruct (Nat.eqb_spec n 1); [lia|]. cbn [orb negb].
  rewrite add64_small by auto. rewrite vec_new_ok by auto. cbn [bind]. destruct (mat_of_mb_ok A n n f HA) as (B0 & -> & H0). cbn [bind].
  rewrite (C39_trace _ n n f (is_mat_reads _ _ _ _ H0)) by lia. cbn [bind]. rewrite lset_ok by (rewrite repeat_length; lia). cbn [bind].
  rewrite lset_ok by (rewrite upd_length, repeat_length; lia). cbn [bind]. replace (rows B0) with n by (symmetry; apply H0).
  destruct (C21_identity n (o1 : T) ltac:(lia) Sh) as (Id & -> & HI). cbn [bind].
  set (g := fun i => match i with 0 => o1 | S i => oopp (snd (faddeev quot n f i)) end).
  match goal with |- exists d, bind (for_range 2 (n + 1) ?bd ?ini) _ = _ /\ _ =>
    destruct (for_range_inv (fun i (s : list T * Matrix T * T) => let '(c, b, t) := s in
      length c = n + 1 /\ (forall k, k < i -> nth_error c k = Some (g k)) /\ is_mat b n n (fst (faddeev quot n f (i - 2))) /\ t = snd (faddeev quot n f (i - 2))) 2 (n + 1) bd ini) as (((c & b) & t) & -> & Q) end.
  - lia.
  - split; [now rewrite !upd_length, repeat_length|]. split; [|split; [exact H0|reflexivity]].
    intros k Hk. rewrite upd_nth_error by (rewrite upd_length, repeat_length; lia). destruct (Nat.eqb_spec k 1) as [->|]; [reflexivity|].
    rewrite upd_nth_error by (rewrite repeat_length; lia). assert (k = 0) as -> by lia. reflexivity.
  - intros i ((c & b) & t) Hi (L & Qc & Hb & ->). cbv beta iota. set (t := snd (faddeev quot n f (i - 2))) in *.
    destruct (proj1 (C32_mul_scalar t) (mb_of_mat Id) n n _ (is_mat_readsL _ _ _ _ HI)) as (l & -> & Hl). cbn [bind].
    destruct (proj2 (C32_sub (mb_of_mat b) (mb_of_mat l) n n _ n n _ (is_mat_readsL _ _ _ _ Hb) (is_mat_readsL _ _ _ _ Hl)) eq_refl eq_refl) as (d & -> & HD). cbn [bind].
    destruct (m_mul_ok A (mb_of_mat d) n n n f _ (proj1 HA) (is_mat_reads _ _ _ _ HD) Sh) as (p & -> & Hp). cbn [bind].
    assert (Hb' := move_assign_ok b p n n _ n n _ Hb Hp ltac:(auto)). rewrite (C39_trace _ n n _ (is_mat_reads _ _ _ _ Hb')) by lia. cbn [bind].
    rewrite (quot_ok Hd). cbn [bind]. rewrite lset_ok by lia. cbn [bind]. eexists. split; [reflexivity|]. cbv beta iota.
    replace (S i - 2) with (S (i - 2)) by lia. cbn [faddeev]. unfold t in *. destruct (faddeev quot n f (i - 2)) as [fb ft] eqn:EF. cbn [fst snd] in *.
    replace (S (S (i - 2))) with i by lia. split; [now rewrite upd_length|]. split; [|split; [exact Hb'|reflexivity]].
    intros k Hk. rewrite upd_nth_error by lia. destruct (Nat.eqb_spec k i) as [->|]; [|apply Qc; lia].
    destruct i as [|i]; [lia|]. unfold g. destruct i as [|i]; [lia|]. cbn [faddeev]. replace (S (S i) - 2) with i in EF by lia. rewrite EF. reflexivity.
  - destruct Q as (L & Qc & _). cbn [bind]. exists c. split; [reflexivity|]. split; [exact L|]. split; [exact F|]. intros i Hi. rewrite Qc by lia. reflexivity.
Qed.
(** acker on a system of n states, one input and p poles: with at least n poles it returns a row of n
    gains or ends the program, with fewer it ends the program or is undefined; which of the two is decided
    by the computed determinant of the controllability matrix. *)
Theorem C109_acker : forall A B poles n p fa fb fp, readsL A n n fa -> readsL B n 1 fb -> 0 < n -> readsL poles 1 p fp -> mempty poles = false -> 0 < p -> fits (p + 1) -> fits (n + 1) ->
  exists ct d, ctrb A B = Ok ct /\ is_mat ct n n (fun i k => ctrb_blk n fa fb k i 0) /\ determinant (mb_of_mat ct) = Ok d /\
    (oisz d = true -> acker A B poles = Exit) /\
    (oisz d = false -> p < n -> acker A B poles = UB) /\
    (oisz d = false -> n <= p -> exists inv fi k, inverse (mb_of_mat ct) = Ok inv /\ is_mat inv n n fi /\ acker A B poles = Ok k /\
       is_mat k 1 n (mprod n (mprod n (fun _ j => if j =? n - 1 then o1 else o0) fi) (mpoly n fa (pcoef (fp 0) p) (n + 1)))).
Proof.
  intros A B poles n p fa fb fp HA HB Hn HP HE Hp F Fn. assert (HA' := HA). destruct HA' as ((Ar & Ac & _ & Sh & _) & _). assert (HB' := HB). destruct HB' as ((Br & Bc & _) & _). assert (HP' := HP). destruct HP' as ((Pr & Pc & _) & _).
  destruct (C109_ctrb A B n 1 fa fb (proj1 HA) HB Hn ltac:(rewrite Nat.mul_1_r; exact Sh)) as (ct & E & Hc0). rewrite Nat.mul_1_r in Hc0.
  assert (Hc : is_mat ct n n (fun i k => ctrb_blk n fa fb k i 0)).
  { eapply is_mat_ext; [exact Hc0|]. intros i j _ _. cbv beta. rewrite Nat.div_1_r, Nat.mod_1_r. reflexivity. }
  destruct (inverse_total Hd (mb_of_mat ct) n _ (is_mat_readsL _ _ _ _ Hc)) as (d & adj & g & Ed & _ & _ & Hi).
  exists ct, d. split; [exact E|]. split; [exact Hc|]. split; [exact Ed|].
  unfold acker, is_square, is_column_vector, is_row_vector. rewrite Ar, Ac, Br, Bc, Pr, HE, !Nat.eqb_refl. cbn [negb orb]. rewrite E. cbn [bind]. rewrite Ed. cbn [bind].
  split; [intros ->; reflexivity|]. destruct Hi as [(Z & _)|(Z & inv & EI & HI)]; [split; rewrite Z; discriminate|]. rewrite Z.
  destruct (poly_m_vec poles 1 p fp HP ltac:(auto) ltac:(lia) ltac:(rewrite Nat.mul_1_l; exact F)) as (c & -> & Hc'). cbn [bind]. rewrite Nat.mul_1_l in Hc'.
  assert (Hcf : is_vec c (p + 1) (pcoef (fp 0) p)).
  { eapply is_vec_ext; [exact Hc'|]. intros i Hi. apply pcoef_ext. intros k Hk. rewrite Nat.div_small, Nat.mod_small by auto. reflexivity. }
  destruct (proj1 (C21_zeros_ones n n Hn Hn Sh)) as (Z0 & -> & HZ). cbn [bind]. rewrite add64_small by auto.
  set (body := fun i Ap => let* P := powm A (sub64 n i) in let* pi := lget c i in let* P0 := m_muls (mb_of_mat P) pi in m_iadd Root (fun _ : Matrix T => mb_of_mat P0) Ap).
  assert (St : forall i x, i < n + 1 -> i < p + 1 -> is_mat x n n (mpoly n fa (pcoef (fp 0) p) i) -> exists y, body i x = Ok y /\ is_mat y n n (mpoly n fa (pcoef (fp 0) p) (S i))).
  { intros i x Hi Hip Hx. unfold body. rewrite sub64_small by (try apply Sh; lia). destruct (C109_powm A n fa (n - i) (proj1 HA) Hn) as (P & -> & HPw). cbn [bind].
    rewrite (is_vec_get _ _ _ _ Hcf) by lia. cbn [bind]. destruct (proj1 (C32_mul_scalar (pcoef (fp 0) p i)) (mb_of_mat P) n n _ (is_mat_readsL _ _ _ _ HPw)) as (l & -> & Hl). cbn [bind].
    rewrite (proj1 (C32_inplace_is_binary x n n _ (mb_of_mat l) n n _ Hx (is_mat_readsL _ _ _ _ Hl))).
    destruct (proj2 (C32_add (mb_of_mat x) (mb_of_mat l) n n _ n n _ (is_mat_readsL _ _ _ _ Hx) (is_mat_readsL _ _ _ _ Hl)) eq_refl eq_refl) as (y & -> & Hy). eauto. }
  split; intros _ Hpn.
  - rewrite (for_range_split 0 (p + 1) (n + 1) body) by lia.
    destruct (for_range_inv (fun i x => is_mat x n n (mpoly n fa (pcoef (fp 0) p) i)) 0 (p + 1) body Z0) as (x & -> & Hx); [lia|exact HZ|intros; apply St; auto; lia|]. cbn [bind].
    rewrite for_range_first by lia. unfold body at 1. rewrite sub64_small by (try apply Sh; lia). destruct (C109_powm A n fa (n - (p + 1)) (proj1 HA) Hn) as (P & -> & HPw). cbn [bind].
    rewrite (lget_ub c (p + 1)) by (rewrite (is_vec_list _ _ _ Hcf); lia). reflexivity.
  - destruct (for_range_inv (fun i x => is_mat x n n (mpoly n fa (pcoef (fp 0) p) i)) 0 (n + 1) body Z0) as (x & -> & Hx); [lia|exact HZ|intros; apply St; auto; lia|]. cbn [bind].
    assert (Ec : rows ct = n) by apply Hc. rewrite Ec.
    destruct (proj1 (C21_zeros_ones (T:=T) 1 n ltac:(lia) Hn ltac:(apply (shape_le' n); [lia|exact Sh]))) as (S0 & -> & HS). cbn [bind]. rewrite sub64_small by (try apply Sh; lia).
    destruct (mat_lset_ok S0 1 n _ (n - 1) o1 HS ltac:(lia)) as (sel & -> & Hsel). cbn [bind]. rewrite EI. cbn [bind].
    destruct (m_mul_ok (mb_of_mat sel) (mb_of_mat inv) 1 n n _ _ (is_mat_reads _ _ _ _ Hsel) (is_mat_reads _ _ _ _ HI) ltac:(apply (shape_le' n); [lia|exact Sh])) as (r1 & -> & Hr1). cbn [bind].
    destruct (m_mul_ok (mb_of_mat r1) (mb_of_mat x) 1 n n _ _ (is_mat_reads _ _ _ _ Hr1) (is_mat_reads _ _ _ _ Hx) ltac:(apply (shape_le' n); [lia|exact Sh])) as (k & E2 & Hk).
    exists inv, (fun i j => quot (g i j) d), k. split; [reflexivity|]. split; [exact HI|]. split; [exact E2|].
    eapply is_mat_ext; [exact Hk|]. intros i j Hi' Hj'. cbv beta. unfold mprod. apply osum_ext. intros a Ha. f_equal. apply osum_ext. intros b Hb. f_equal.
    cbv beta. unfold fset. rewrite Nat.div_small, Nat.mod_small by lia. assert (i = 0) as -> by lia. reflexivity.
Qed.
End Any.
