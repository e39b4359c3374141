(** PropMatrix.v: property theorems about Vector values, Matrix, View and
    CofactorView (vector.hpp, matrix.hpp, view.hpp).  Vocabulary: Spec.v. *)
From Verif Require Import ViewFacts2 Scalar.
From Coq Require Import ZifyBool ZifyNat ZifyN.
Ltac Zify.zify_post_hook ::= Z.div_mod_to_equations.

Ltac shape := repeat split; vm_compute; reflexivity.

(** A 2x3 integer matrix used in the examples. *)
Definition ex23 : Matrix Z := mkM 2 3 [1;2;3;4;5;6]%Z.
Definition ex23f (i j : nat) : Z := Z.of_nat (3 * i + j + 1).
Lemma ex23_ok : is_mat ex23 2 3 ex23f.
Proof.
  repeat split; try reflexivity. intros i j Hi Hj. destruct i as [|[|i]]; [| |lia];
  destruct j as [|[|[|j]]]; try lia; reflexivity.
Qed.

Section Props.
Context {T : Type} {O : Ops T}.
Implicit Types (m : Matrix T) (f g h : nat -> nat -> T) (l : list T).

(** * C03 *)
Theorem C03_vector_resize : forall l n, fits n ->
  exists l', vec_allocate l n = Ok l' /\ length l' = n /\
    (forall i, i < n -> i < length l -> nth_error l' i = nth_error l i) /\
    (forall i, length l <= i -> i < n -> nth_error l' i = Some o0).
Proof.
  intros l n Hn. eexists. split; [apply vec_allocate_ok; auto|]. split; [|split].
  - rewrite app_length, firstn_length, repeat_length. lia.
  - intros i H1 H2. rewrite nth_error_app1 by (rewrite firstn_length; lia). apply nth_error_firstn_lt; auto.
  - intros i H1 H2. rewrite nth_error_app2 by (rewrite firstn_length; lia).
    apply nth_error_repeat_lt. rewrite firstn_length. lia.
Qed.

(** * C05 *)
(** A(i,j), A.at(i,j) and A[i*cols+j] denote the same element. *)
Theorem C05_access_agrees : forall m i j, wf m -> i < rows m -> j < cols m ->
  exists v, mget (mb_of_mat m) i j = Ok v /\ mlin (mb_of_mat m) (i * cols m + j) = Ok v.
Proof.
  intros m i j (Hs & Hl) Hi Hj.
  destruct (nth_error_lt (data m) (i * cols m + j)) as (v & E).
  { rewrite Hl. apply idx_lt; auto. }
  exists v. cbn. unfold mat_at, mat_idx. rewrite mul64_small, add64_small.
  - split; apply lget_ok; auto.
  - apply (shape_idx (rows m)); auto.
  - eapply size_le; [|apply (shape_idx (rows m) (cols m) i j); auto]. lia.
Qed.
(** Writing A(i,j) (or A[k]) changes that element only, and no other. *)
Theorem C05_write_one : forall m r c f i j v, is_mat m r c f -> i < r -> j < c ->
  exists m', mat_set m i j v = Ok m' /\ mat_lset m (i * c + j) v = Ok m' /\
    is_mat m' r c (fun a b => if (a =? i) && (b =? j) then v else f a b).
Proof.
  intros m r c f i j v H Hi Hj. destruct (mat_set_ok m r c f i j v H Hi Hj) as (m1 & E1 & H1).
  destruct (mat_lset_ok m r c f (i * c + j) v H (idx_lt _ _ _ _ Hi Hj)) as (m2 & E2 & H2).
  rewrite idx_div, idx_mod in H2 by auto.
  exists m1. split; auto. split; auto. rewrite E2. f_equal. eapply is_mat_unique; eauto.
Qed.
(** Different positions are different storage cells. *)
Theorem C05_injective : forall m i j a b, wf m ->
  i < rows m -> j < cols m -> a < rows m -> b < cols m ->
  mat_idx m i j = mat_idx m a b -> i = a /\ j = b.
Proof.
  intros m i j a b (Hs & Hl) Hi Hj Ha Hb E. unfold mat_idx in E.
  assert (forall x y, x < rows m -> y < cols m -> add64 (mul64 x (cols m)) y = x * cols m + y) as Q.
  { intros x y Hx Hy. rewrite mul64_small, add64_small; auto.
    - apply (shape_idx (rows m)); auto.
    - eapply size_le; [|apply (shape_idx (rows m) (cols m) x y); auto]. lia. }
  rewrite !Q in E by auto. eapply idx_inj; eauto.
Qed.

(** * C06 *)
Theorem C06_fill : forall r c v, shape_ok r c ->
  exists m, mat_new r c v = Ok m /\ is_mat m r c (fun _ _ => v).
Proof. exact mat_new_ok. Qed.
Theorem C06_from_list : forall r c l d, shape_ok r c -> r * c <= length l ->
  exists m, mat_of_list r c l = Ok m /\ is_mat m r c (fun i j => nth (i * c + j) l d).
Proof. intros. apply mat_of_list_ok; auto. Qed.
(** With fewer values than elements the constructor reads past the end of the list. *)
Theorem C06_from_list_short_undefined : forall r c l, shape_ok r c -> length l < r * c ->
  mat_of_list r c l = UB.
Proof.
  intros r c l Hs Hl. unfold mat_of_list. destruct (mat_zero_ok r c Hs) as (m & E & Hm). rewrite E. cbn [bind].
  destruct (for2_ok_ub (fun i j (s : Matrix T * nat) => snd s = i * c + j /\ i * c + j <= length l /\ exists f, is_mat (fst s) r c f) r c
    (fun i j (s : Matrix T * nat) => let* v := lget l (snd s) in let* m := mat_set (fst s) i j v in Ok (m, S (snd s))) (m, 0))
    as [Q|(s' & _ & _ & Q & _)].
  - cbn. split; auto. split; [lia|]. eauto.
  - intros i j s Hi Hj (H1 & H2 & f & H3).
    destruct (le_lt_dec (length l) (i * c + j)) as [L|L].
    + right. rewrite H1, lget_ub by auto. reflexivity.
    + left. destruct (nth_error_lt l (i * c + j) L) as (x & Ex). rewrite H1, (lget_ok _ _ _ Ex). cbn.
      destruct (mat_set_ok (fst s) r c f i j x H3 Hi Hj) as (m' & E' & Hm'). rewrite E'. cbn.
      eexists. split; [reflexivity|]. cbn. split; [lia|]. split; [lia|]. eauto.
  - intros i s Hi (H1 & H2 & H3). split; [lia|]. split; [lia|auto].
  - rewrite Q. reflexivity.
  - lia.
Qed.
Theorem C06_nested : forall (ll : list (list T)) r c h,
  length ll = r -> 0 < r -> 0 < c -> shape_ok r c ->
  (forall row, nth_error ll 0 = Some row -> length row = c) ->
  (forall i j, i < r -> j < c -> exists row, nth_error ll i = Some row /\ nth_error row j = Some (h i j)) ->
  exists m, mat_of_nested ll = Ok m /\ is_mat m r c h.
Proof. exact mat_of_nested_ok. Qed.
Theorem C06_nested_throws : forall (ll : list (list T)), (ll = nil \/ exists rest, ll = nil :: rest) ->
  mat_of_nested ll = Throw.
Proof. intros ll [->|(rest & ->)]; reflexivity. Qed.
Theorem C06_nested_ragged_undefined : forall (ll : list (list T)) c,
  0 < c -> shape_ok (length ll) c ->
  (forall row, nth_error ll 0 = Some row -> length row = c) -> 
  (exists i row, nth_error ll i = Some row /\ length row < c) ->
  mat_of_nested ll = UB.
Proof.
  intros ll c Hc Hs Hf (i0 & row0 & E0 & L0). unfold mat_of_nested.
  assert (Hi0 : i0 < length ll) by (apply nth_error_Some; congruence).
  destruct ll as [|first rest]; [cbn in Hi0; lia|].
  specialize (Hf first eq_refl). destruct first as [|x first]; [cbn in Hf; lia|].
  set (ll := (x :: first) :: rest) in *. set (r := length ll) in *. rewrite Hf.
  destruct (mat_zero_ok r c Hs) as (m & E & Hm). rewrite E. cbn [bind]. unfold nested_copy, fill_rc.
  destruct (for2_ok_ub (fun i j (s : Matrix T) => (exists f, is_mat s r c f) /\
      (forall a row, nth_error ll a = Some row -> a < i -> c <= length row) /\
      (forall row, nth_error ll i = Some row -> j <= length row)) r c
    (fun i j s => let* v := (let* row := lget ll i in lget row j) in mat_set s i j v) m)
    as [Q|(s' & _ & _ & Q & _)].
  - split; eauto. split; [intros; lia|]. intros; lia.
  - intros i j s Hi Hj ((f & H1) & H2 & H3). destruct (nth_error_lt ll i Hi) as (row & Er).
    rewrite (lget_ok _ _ _ Er). cbn [bind]. destruct (le_lt_dec (length row) j) as [L|L].
    + right. rewrite lget_ub by auto. reflexivity.
    + left. destruct (nth_error_lt row j L) as (y & Ey). rewrite (lget_ok _ _ _ Ey). cbn [bind].
      destruct (mat_set_ok s r c f i j y H1 Hi Hj) as (m' & E' & Hm'). exists m'. split; auto. split; eauto.
      split; auto. intros row' Er'. rewrite Er' in Er. inversion Er; subst. lia.
  - intros i s Hi (H1 & H2 & H3). split; auto. split; [|intros; lia].
    intros a row Ea La. destruct (Nat.eq_dec a i) as [->|N]; auto. apply (H2 a); auto; lia.
  - exact Q.
  - exfalso. specialize (Q i0 row0 E0 Hi0). lia.
Qed.
(** Matrix(view), for any nesting of views whose linear access is row-major. *)
Theorem C06_from_view : forall m r c f p r' c', is_mat m r c f -> vshape p r c = Some (r', c') -> lin_ok p r c ->
  exists m', mat_of_mb (vmb p m) = Ok m' /\ is_mat m' r' c' (vsel p f).
Proof. intros. apply mat_of_mb_ok. eapply vmb_readsL; eauto. Qed.

(** * C07 *)
Theorem C07_assign : forall X m r c f, reads X r c f -> 0 < r * c ->
  exists m', mat_assign (fun _ => X) m = Ok m' /\ is_mat m' r c f.
Proof. exact mat_assign_ok. Qed.
Theorem C07_assign_empty_noop : forall src m, msize (src m) = 0 -> mat_assign src m = Ok m.
Proof. exact mat_assign_empty. Qed.
Theorem C07_assign_from_matrix : forall m b r c f, is_mat b r c f ->
  mat_assign (fun _ => mb_of_mat b) m = Ok (if r * c =? 0 then m else b).
Proof.
  intros m b r c f H. destruct (Nat.eqb_spec (r * c) 0) as [E|E].
  - apply mat_assign_empty. destruct (is_mat_reads _ _ _ _ H) as (_ & _ & Q & _). congruence.
  - destruct (mat_assign_ok (mb_of_mat b) m r c f (is_mat_reads _ _ _ _ H)) as (m' & E' & H'); [lia|].
    rewrite E'. f_equal. eapply is_mat_unique; eauto.
Qed.
Theorem C07_move_assign : forall m b, wf b -> 0 < rows b * cols b ->
  exists b', mat_move_assign m b = (b, b') /\
    forall i j, mget (mb_of_mat b') i j = UB.
Proof.
  intros m b (Hs & Hl) Hp. unfold mat_move_assign. rewrite mul64_small by (apply shape_size; auto).
  destruct (Nat.eqb_spec (rows b * cols b) 0); [lia|]. eexists. split.
  - destruct b; reflexivity.
  - intros i j. cbn. unfold mat_at. apply lget_ub. cbn. lia.
Qed.
Theorem C07_assign_nested : forall m (ll : list (list T)) r c h,
  length ll = r -> 0 < r -> 0 < c -> shape_ok r c ->
  (forall row, nth_error ll 0 = Some row -> length row = c) ->
  (forall i j, i < r -> j < c -> exists row, nth_error ll i = Some row /\ nth_error row j = Some (h i j)) ->
  exists m', mat_assign_nested m ll = Ok m' /\ is_mat m' r c h.
Proof.
  intros m ll r c h H1 H2 H3 H4 H5 H6. destruct (mat_of_nested_ok ll r c h) as (m' & E & Q); auto.
  exists m'. split; auto. rewrite <- E. unfold mat_of_nested, mat_assign_nested.
  destruct ll as [|[|x first] rest]; auto; try discriminate.
Qed.

(** * C08 *)
Theorem C08_self_view_zero : forall m r c f r1 c1, is_mat m r c f -> 0 < r1 -> 0 < c1 -> 0 < r -> 0 < c ->
  exists m', mat_assign (vmb (PView (mkRange 0 r1) (mkRange 0 c1) Root)) m = Ok m' /\
    is_mat m' (Nat.min r1 r) (Nat.min c1 c) (fun _ _ => o0).
Proof. exact self_view_zero. Qed.
Theorem C08_self_view_undefined : forall m r c f r0 r1 c0 c1, is_mat m r c f ->
  r0 < r1 -> c0 < c1 -> r0 < r -> c0 < c -> 0 < r0 \/ 0 < c0 ->
  mat_assign (vmb (PView (mkRange r0 r1) (mkRange c0 c1) Root)) m = UB.
Proof. exact self_view_ub. Qed.

(** * C09 *)
Theorem C09_resize : forall m r c f r' c', is_mat m r c f -> shape_ok r' c' ->
  exists m', mat_resize m r' c' = Ok m' /\
    is_mat m' r' c' (fun i j => if (i <? r) && (j <? c) then f i j else o0).
Proof. exact mat_resize_ok. Qed.

(** * C10 *)
Theorem C10_reshape : forall m r c f r' c', is_mat m r c f -> is_size r' -> is_size c' -> r' * c' = r * c ->
  exists m', mat_reshape m r' c' = Ok m' /\ rows m' = r' /\ cols m' = c' /\
    (forall k, mlin (mb_of_mat m') k = mlin (mb_of_mat m) k) /\
    is_mat m' r' c' (fun i j => f ((i * c' + j) / c) ((i * c' + j) mod c)) /\
    mat_reshape m' r c = Ok m.
Proof.
  intros m r c f r' c' H Hr Hc E. destruct (mat_reshape_ok m r c f r' c' H Hr Hc E) as (m' & Em & Ed & Hm).
  exists m'. assert (Q := Hm). destruct Q as (Q1 & Q2 & _). repeat (split; auto).
  - intros k. cbn. rewrite Ed. reflexivity.
  - assert (Hsz := is_mat_shape _ _ _ _ H). destruct (mat_reshape_ok m' r' c' _ r c Hm) as (m2 & E2 & D2 & H2); try apply Hsz; auto.
    rewrite E2. f_equal. destruct m as [a b d], m2 as [a2 b2 d2]. cbn in *.
    destruct H2 as (<- & <- & _). destruct H as (A & B & _). cbn in A, B. congruence.
Qed.
Theorem C10_reshape_throws : forall m r c f r' c', is_mat m r c f -> is_size (r' * c') -> r' * c' <> r * c ->
  mat_reshape m r' c' = Throw.
Proof. exact mat_reshape_throw. Qed.

(** * C11 *)
Theorem C11_overflow_construct : forall r c v, 0 < r -> 0 < c ->
  ((N.of_nat r * N.of_nat c) mod two64 = 0)%N ->
  exists m, mat_new r c v = Ok m /\ rows m = r /\ cols m = c /\
    msize (mb_of_mat m) = 0 /\ msize (mb_of_mat m) <> rows m * cols m /\
    forall i j, mget (mb_of_mat m) i j = UB.
Proof.
  intros r c v Hr Hc E. unfold mat_new.
  assert (Z : mul64 r c = 0) by (unfold mul64, wrap64; rewrite E; reflexivity).
  rewrite Z, vec_fill_ok by auto. cbn [bind]. eexists. split; [reflexivity|]. cbn [rows cols msize mb_of_mat mget].
  rewrite Z. repeat (split; auto).
  - intros Q. assert (0 < r * c) by nia. lia.
  - intros i j. apply lget_ub. cbn. lia.
Qed.
Theorem C11_overflow_reshape : forall r c, 0 < r -> 0 < c ->
  ((N.of_nat r * N.of_nat c) mod two64 = 0)%N ->
  exists m, mat_reshape (mat_empty (T:=T)) r c = Ok m /\ rows m = r /\ cols m = c /\
    forall i j, mget (mb_of_mat m) i j = UB.
Proof.
  intros r c Hr Hc E. unfold mat_reshape.
  assert (Z : mul64 r c = 0) by (unfold mul64, wrap64; rewrite E; reflexivity).
  rewrite Z. cbn [mat_empty rows cols]. eexists. split; [reflexivity|]. cbn [rows cols]. repeat split.
  intros i j. apply lget_ub. cbn. lia.
Qed.

(** * C12 *)
Theorem C12_view_reads : forall m r c f r0 r1 c0 c1, is_mat m r c f ->
  r0 < r1 -> c0 < c1 -> r0 <= r -> c0 <= c ->
  view_new (mb_of_mat m) (mkRange r0 r1) (mkRange c0 c1) = Ok (mb_view (mkRange r0 r1) (mkRange c0 c1) (mb_of_mat m)) /\
  readsL (mb_view (mkRange r0 r1) (mkRange c0 c1) (mb_of_mat m))
         (Nat.min r1 r - r0) (Nat.min c1 c - c0) (fun i j => f (r0 + i) (c0 + j)).
Proof.
  intros m r c f r0 r1 c0 c1 H H1 H2 H3 H4.
  assert (Hv : vshape (PView (mkRange r0 r1) (mkRange c0 c1) Root) r c = Some (Nat.min r1 r - r0, Nat.min c1 c - c0)).
  { cbn. replace (_ && _) with true by lia. reflexivity. }
  split.
  - unfold view_new. cbn. replace (_ && _) with true by lia. reflexivity.
  - exact (vmb_readsL _ m r c f _ _ H Hv I).
Qed.
Theorem C12_view_writes : forall m r c f r0 r1 c0 c1 i j v, is_mat m r c f ->
  r0 < r1 -> c0 < c1 -> r0 <= r -> c0 <= c -> i < Nat.min r1 r - r0 -> j < Nat.min c1 c - c0 ->
  let V := PView (mkRange r0 r1) (mkRange c0 c1) Root in
  exists m', vset V i j v m = Ok m' /\ vlset V (i * (Nat.min c1 c - c0) + j) v m = Ok m' /\
    is_mat m' r c (fun a b => if (a =? r0 + i) && (b =? c0 + j) then v else f a b).
Proof.
  intros m r c f r0 r1 c0 c1 i j v H H1 H2 H3 H4 Hi Hj V.
  assert (Hv : vshape V r c = Some (Nat.min r1 r - r0, Nat.min c1 c - c0)).
  { cbn. replace (_ && _) with true by lia. reflexivity. }
  destruct (vset_ok V m r c f _ _ i j v H Hv Hi Hj) as (m1 & E1 & Q1).
  destruct (vlset_ok V m r c f _ _ (i * (Nat.min c1 c - c0) + j) v H Hv I (idx_lt _ _ _ _ Hi Hj)) as (m2 & E2 & Q2).
  exists m1. split; auto. rewrite idx_div, idx_mod in Q2 by auto. split; [|exact Q1].
  rewrite E2. f_equal. eapply is_mat_unique; eauto.
Qed.
Theorem C12_range_all : forall m r c f, is_mat m r c f ->
  readsL (mb_view range_all range_all (mb_of_mat m)) r c f.
Proof.
  intros m r c f H. assert (Hs := is_mat_shape _ _ _ _ H). destruct Hs as (Sr & Sc & Sf).
  assert (Hm : forall n, is_size n -> n <= N.to_nat size_max).
  { intros n Hn. unfold is_size, two64 in Hn. unfold size_max. lia. }
  assert (Hmin : forall n, is_size n -> Nat.min (N.to_nat size_max) n - 0 = n).
  { intros n Hn. specialize (Hm n Hn). lia. }
  assert (Hv : vshape (PView range_all range_all Root) r c = Some (r, c)).
  { cbn [vshape range_all start stop]. rewrite !Hmin by auto. assert (Q := Hm 1 eq_refl). replace (_ && _) with true by lia. reflexivity. }
  exact (vmb_readsL _ m r c f _ _ H Hv I).
Qed.
Theorem C12_bad_range_asserts : forall (X : MB T) rr rc, stop rr <= start rr \/ stop rc <= start rc -> view_new X rr rc = UB.
Proof. intros X rr rc H. unfold view_new. replace (_ && _) with false by lia. reflexivity. Qed.

(** * C13 *)
Theorem C13_nested_reads : forall p m r c f r' c', is_mat m r c f -> vshape p r c = Some (r', c') ->
  reads (vmb p m) r' c' (fun i j => f (fst (vpos p i j)) (snd (vpos p i j))).
Proof. intros. eapply vmb_reads; eauto. Qed.
Theorem C13_nested_inside : forall p r c r' c' i j, vshape p r c = Some (r', c') -> i < r' -> j < c' ->
  fst (vpos p i j) < r /\ snd (vpos p i j) < c.
Proof. exact vpos_range. Qed.
Theorem C13_nested_distinct : forall p i j a b, vpos p i j = vpos p a b -> i = a /\ j = b.
Proof. exact vpos_inj. Qed.
Theorem C13_nested_writes : forall p m r c f r' c' i j v, is_mat m r c f -> vshape p r c = Some (r', c') -> i < r' -> j < c' ->
  exists m', vset p i j v m = Ok m' /\
   is_mat m' r c (fun a b => if (a =? fst (vpos p i j)) && (b =? snd (vpos p i j)) then v else f a b).
Proof. exact vset_ok. Qed.

(** * C14 *)
Theorem C14_row_start_wraps : forall m r c f r0 r1 rc, is_mat m r c f -> r < r0 -> r0 < r1 -> is_size r0 ->
  N.of_nat (mrows (mb_view (mkRange r0 r1) rc (mb_of_mat m))) = (two64 - (N.of_nat r0 - N.of_nat r))%N /\
  forall i j, is_size ((r0 + i) * c + (start rc + j)) -> is_size (r0 + i) -> is_size (start rc + j) ->
    mget (mb_view (mkRange r0 r1) rc (mb_of_mat m)) i j = UB.
Proof.
  intros m r c f r0 r1 rc (Hr & Hc & Hs & Hl & _) L1 L2 S0. split.
  - cbn. rewrite Hr. replace (Nat.min r1 r) with r by lia. apply sub64_wraps; auto.
  - intros i j Q1 Q2 Q3. cbn. rewrite !add64_small by auto. apply lget_ub. unfold mat_idx. rewrite Hc, Hl.
    rewrite mul64_small by (eapply size_le; [|exact Q1]; lia). rewrite add64_small by auto. nia.
Qed.
Theorem C14_col_start_wraps : forall m r c f rr c0 c1, is_mat m r c f -> c < c0 -> c0 < c1 -> is_size c0 ->
  N.of_nat (mcols (mb_view rr (mkRange c0 c1) (mb_of_mat m))) = (two64 - (N.of_nat c0 - N.of_nat c))%N /\
  forall i j, is_size ((start rr + i) * c + (c0 + j)) -> is_size (start rr + i) -> is_size (c0 + j) ->
    mget (mb_view rr (mkRange c0 c1) (mb_of_mat m)) i j =
      if (start rr + i) * c + (c0 + j) <? r * c
      then mlin (mb_of_mat m) ((start rr + i) * c + (c0 + j)) else UB.
Proof.
  intros m r c f rr c0 c1 (Hr & Hc & Hs & Hl & _) L1 L2 S0. split.
  - cbn. rewrite Hc. replace (Nat.min c1 c) with c by lia. apply sub64_wraps; auto.
  - intros i j Q1 Q2 Q3. cbn. rewrite !add64_small by auto. unfold mat_at, mat_idx. rewrite Hc.
    rewrite mul64_small by (eapply size_le; [|exact Q1]; lia). rewrite add64_small by auto.
    destruct (Nat.ltb_spec ((start rr + i) * c + (c0 + j)) (r * c)); auto. apply lget_ub. lia.
Qed.

(** * C15 *)
Theorem C15_assign_unrelated : forall p X m r c f r' c' h,
  is_mat m r c f -> vshape p r c = Some (r', c') -> reads X r' c' h ->
  exists m' f', view_assign p (fun _ => X) m = Ok m' /\ is_mat m' r c f' /\
    (forall i j, i < r' -> j < c' -> f' (fst (vpos p i j)) (snd (vpos p i j)) = h i j) /\
    (forall a b, a < r -> b < c -> (forall i j, i < r' -> j < c' -> vpos p i j <> (a, b)) -> f' a b = f a b).
Proof. exact view_assign_const. Qed.
(** Source a view of the same matrix; no element is read after it was written. *)
Theorem C15_assign_same_matrix : forall p q m r c f r' c',
  is_mat m r c f -> vshape p r c = Some (r', c') -> vshape q r c = Some (r', c') ->
  (forall i j x y, i < r' -> j < c' -> x < r' -> y < c' ->
     (x < i \/ (x = i /\ y < j)) -> vpos p x y <> vpos q i j) ->
  exists m' f', view_assign p (vmb q) m = Ok m' /\ is_mat m' r c f' /\
    (forall i j, i < r' -> j < c' -> f' (fst (vpos p i j)) (snd (vpos p i j)) = vsel q f i j) /\
    (forall a b, a < r -> b < c -> (forall i j, i < r' -> j < c' -> vpos p i j <> (a, b)) -> f' a b = f a b).
Proof.
  intros p q m r c f r' c' H Hp Hq Hs. apply (view_assign_same_root p q m r c f r' c' H Hp Hq).
  intros i j x y Hi Hj Hx Hy Hb. apply Hs; auto. unfold before in Hb. lia.
Qed.
Theorem C15_assign_forward_windows : forall m r c f r0 r1 c0 c1 s0 s1 t0 t1 r' c',
  let P := PView (mkRange r0 r1) (mkRange c0 c1) Root in
  let Q := PView (mkRange s0 s1) (mkRange t0 t1) Root in
  is_mat m r c f -> vshape P r c = Some (r', c') -> vshape Q r c = Some (r', c') ->
  (r0 < s0 \/ (r0 = s0 /\ c0 <= t0)) ->
  exists m', view_assign P (vmb Q) m = Ok m' /\
    is_mat m' r c (fun a b => if (r0 <=? a) && (a <? r0 + r') && (c0 <=? b) && (b <? c0 + c')
                              then f (s0 + (a - r0)) (t0 + (b - c0)) else f a b).
Proof.
  intros m r c f r0 r1 c0 c1 s0 s1 t0 t1 r' c' P Q H Hp Hq Hs.
  destruct (view_assign_same_root P Q m r c f r' c' H Hp Hq) as (m' & f' & E & H' & W1 & W2).
  { intros i j x y _ _ _ _ Hb. apply window_forward; auto. }
  exists m'. split; auto. eapply is_mat_ext; [exact H'|]. intros a b Ha Hb.
  destruct ((r0 <=? a) && (a <? r0 + r') && (c0 <=? b) && (b <? c0 + c')) eqn:Eq.
  - specialize (W1 (a - r0) (b - c0) ltac:(lia) ltac:(lia)). cbn in W1.
    replace (r0 + (a - r0)) with a in W1 by lia. replace (c0 + (b - c0)) with b in W1 by lia. exact W1.
  - apply W2; auto. intros i j Hi Hj E'. cbn in E'. inversion E'. lia.
Qed.
Theorem C15_shape_mismatch_asserts : forall p src m,
  mrows (vmb p m) <> mrows (src m) \/ mcols (vmb p m) <> mcols (src m) -> view_assign p src m = UB.
Proof. exact view_assign_shape_ub. Qed.

(** * C16 *)
(** Shifting a row right by one position spreads its first element over the row. *)
Theorem C16_shift_right_spreads : forall m n f, is_mat m 1 (S n) f -> 0 < n ->
  exists m', view_assign (PView (mkRange 0 1) (mkRange 1 (S n)) Root)
                         (vmb (PView (mkRange 0 1) (mkRange 0 n) Root)) m = Ok m' /\
    is_mat m' 1 (S n) (fun _ _ => f 0 0).
Proof.
  intros m n f H Hn.
  set (P := PView (mkRange 0 1) (mkRange 1 (S n)) Root). set (Q := PView (mkRange 0 1) (mkRange 0 n) Root).
  assert (Hp : vshape P 1 (S n) = Some (1, n)).
  { cbn. replace (_ && _) with true by lia. do 2 f_equal; lia. }
  assert (Hq : vshape Q 1 (S n) = Some (1, n)).
  { cbn. replace (_ && _) with true by lia. do 2 f_equal; lia. }
  unfold view_assign.
  destruct (vmb_reads P m 1 (S n) f _ _ H Hp) as (D1 & D2 & _).
  destruct (vmb_reads Q m 1 (S n) f _ _ H Hq) as (E1 & E2 & _).
  rewrite D1, D2, E1, E2, !Nat.eqb_refl. cbn [andb].
  destruct (for2_inv_dep (fun i j m => is_mat m 1 (S n) (fun a b => if (0 <? i) || (b <=? j) then f 0 0 else f a b)) 1 n
     (fun _ s => mcols (vmb Q s)) (fun i j s => let* v := mget (vmb Q s) i j in vset P i j v s) m) as (m' & E & H').
  - eapply is_mat_ext; [exact H|]. intros a b Ha Hb. cbn. destruct (Nat.leb_spec b 0); cbn; auto. replace a with 0 by lia. replace b with 0 by lia. auto.
  - intros i s _ Hs. apply (vmb_reads Q s 1 (S n) _ _ _ Hs Hq).
  - intros i j s Hi Hj Hs. destruct (vmb_reads Q s 1 (S n) _ _ _ Hs Hq) as (_ & _ & _ & _ & Hg).
    rewrite Hg by auto. cbn [bind]. 
    destruct (vset_ok P s 1 (S n) _ _ _ i j (vsel Q (fun a b => if (0 <? i) || (b <=? j) then f 0 0 else f a b) i j) Hs Hp Hi Hj) as (s' & Es & Hs').
    exists s'. split; auto. eapply is_mat_ext; [exact Hs'|]. intros a b Ha Hb. unfold fset, vsel. cbn.
    assert (i = 0) by lia. assert (a = 0) by lia. subst i a. cbn.
    destruct (Nat.eqb_spec b (S j)) as [->|N].
    + rewrite !Nat.leb_refl. auto.
    + destruct (Nat.leb_spec b j), (Nat.leb_spec b (S j)); auto; lia.
  - intros i s Hi Hs. eapply is_mat_ext; [exact Hs|]. intros a b Ha Hb. cbn.
    assert (i = 0) by lia. subst i. cbn. destruct (Nat.leb_spec b n); auto; lia.
  - exists m'. split; [exact E|]. exact H'.
Qed.

(** * C17 *)
Theorem C17_assign_nested : forall p (ll : list (list T)) m r c f r' c' h,
  is_mat m r c f -> vshape p r c = Some (r', c') -> 0 < r' -> 0 < c' -> length ll = r' ->
  (forall row, nth_error ll 0 = Some row -> length row = c') ->
  (forall i j, i < r' -> j < c' -> exists row, nth_error ll i = Some row /\ nth_error row j = Some (h i j)) ->
  exists m' f', view_assign_nested p ll m = Ok m' /\ is_mat m' r c f' /\
    (forall i j, i < r' -> j < c' -> f' (fst (vpos p i j)) (snd (vpos p i j)) = h i j) /\
    (forall a b, a < r -> b < c -> (forall i j, i < r' -> j < c' -> vpos p i j <> (a, b)) -> f' a b = f a b).
Proof. exact view_assign_nested_ok. Qed.
Theorem C17_assign_nested_noop : forall p (ll : list (list T)) m,
  length ll <> mrows (vmb p m) \/
  (forall row, nth_error ll 0 = Some row -> length row <> mcols (vmb p m) \/ length row = 0) ->
  view_assign_nested p ll m = Ok m.
Proof. exact view_assign_nested_noop. Qed.

(** * C18 *)
Theorem C18_cofactor_reads : forall m r c f p q, is_mat m r c f -> 0 < r -> 0 < c ->
  reads (mb_cof p q (mb_of_mat m)) (r - 1) (c - 1)
        (fun i j => f (if i <? p then i else S i) (if j <? q then j else S j)).
Proof.
  intros m r c f p q H Hr Hc. apply (vmb_reads (PCof p q Root) m r c f _ _ H).
  cbn. replace (_ && _) with true by lia. reflexivity.
Qed.
Theorem C18_cofactor_writes : forall m r c f p q i j v, is_mat m r c f -> S i < r -> S j < c ->
  exists m', vset (PCof p q Root) i j v m = Ok m' /\
    is_mat m' r c (fset f (if i <? p then i else S i) (if j <? q then j else S j) v).
Proof.
  intros m r c f p q i j v H Hi Hj.
  destruct (vset_ok (PCof p q Root) m r c f (r-1) (c-1) i j v H) as (m' & E & Q); eauto; try lia.
  cbn. replace (_ && _) with true by lia. reflexivity.
Qed.
Theorem C18_cofactor_linear_square : forall m n f p q, is_mat m n n f -> 0 < n ->
  linear (mb_cof p q (mb_of_mat m)) (n - 1) (n - 1)
        (fun i j => f (if i <? p then i else S i) (if j <? q then j else S j)).
Proof.
  intros m n f p q H Hn. assert (Hv : vshape (PCof p q Root) n n = Some (n-1, n-1)).
  { cbn. replace (_ && _) with true by lia. reflexivity. }
  apply (vmb_linear (PCof p q Root) m n n f _ _ H Hv). cbn [lin_ok]. rewrite Hv. reflexivity.
Qed.
End Props.

(** Refutations and concrete instances. *)
Theorem C16_overlap_refuted : exists (m : Matrix Z) f p q r' c', is_mat m 1 3 f /\
  vshape p 1 3 = Some (r', c') /\ vshape q 1 3 = Some (r', c') /\
  exists m', view_assign p (vmb q) m = Ok m' /\
    exists i j, i < r' /\ j < c' /\ mget (vmb p m') i j <> mget (vmb q m) i j.
Proof.
  exists (mkM 1 3 [1;2;3]%Z), (fun _ j => Z.of_nat (S j)),
    (PView (mkRange 0 1) (mkRange 1 3) Root), (PView (mkRange 0 1) (mkRange 0 2) Root), 1, 2.
  split. { repeat split; try reflexivity. intros i j Hi Hj. destruct i; [|lia]. destruct j as [|[|[|j]]]; try lia; reflexivity. }
  split; [reflexivity|]. split; [reflexivity|]. eexists. split; [vm_compute; reflexivity|].
  exists 0, 1. split; [lia|]. split; [lia|]. vm_compute. discriminate.
Qed.
(** C08: the documented meaning (the former contents of the view). *)
Theorem C08_self_view_refuted : exists (m : Matrix Z) f m', is_mat m 2 3 f /\
  mat_assign (vmb (PView range_all range_all Root)) m = Ok m' /\ m' <> m.
Proof.
  destruct (C08_self_view_zero ex23 2 3 ex23f (N.to_nat size_max) (N.to_nat size_max) ex23_ok) as (m' & E & H);
    try (unfold size_max; lia).
  exists ex23, ex23f, m'. split; [apply ex23_ok|]. split; [exact E|].
  replace (Nat.min (N.to_nat size_max) 2) with 2 in H by (unfold size_max; lia).
  replace (Nat.min (N.to_nat size_max) 3) with 3 in H by (unfold size_max; lia).
  intros ->. assert (Q := is_mat_fun _ _ _ _ _ ex23_ok H 0 0 ltac:(lia) ltac:(lia)). discriminate.
Qed.
(** C18: linear access of the minor of a non-square matrix is not row-major. *)
Theorem C18_cofactor_linear_refuted : exists (m : Matrix Z) f, is_mat m 2 3 f /\
  ~ linear (mb_cof 0 0 (mb_of_mat m)) 1 2 (fun i j => f (S i) (S j)).
Proof.
  exists ex23, ex23f. split; [apply ex23_ok|]. intros H. specialize (H 1 ltac:(lia)). vm_compute in H. discriminate.
Qed.

(** * Concrete cases that meet the hypotheses *)
Example C03_ex : vec_allocate [7;8;9]%Z 5 = Ok [7;8;9;0;0]%Z /\ vec_allocate [7;8;9]%Z 2 = Ok [7;8]%Z /\ fits 5.
Proof. repeat split. Qed.
Example C05_ex : wf ex23 /\ 1 < rows ex23 /\ 2 < cols ex23 /\ mget (mb_of_mat ex23) 1 2 = Ok 6%Z /\
  mat_set ex23 1 0 9%Z = Ok (mkM 2 3 [1;2;3;9;5;6]%Z).
Proof. split; [eapply is_mat_wf; apply ex23_ok|]. repeat split; cbn; lia. Qed.
Example C06_ex : mat_of_list 2 3 [1;2;3;4;5;6]%Z = Ok ex23 /\ mat_of_list 2 3 [1;2]%Z = UB /\
  mat_of_nested [[1;2;3];[4;5;6]]%Z = Ok ex23 /\ mat_of_nested [[1;2;3];[4;5]]%Z = UB /\
  shape_ok 2 3 /\ mat_of_mb (vmb (PView (mkRange 0 2) (mkRange 1 9) Root) ex23) = Ok (mkM 2 2 [2;3;5;6]%Z).
Proof. repeat split. Qed.
Example C06_view_ex : vshape (PCof 0 1 (PView (mkRange 0 2) (mkRange 1 3) Root)) 2 3 = Some (1, 1) /\
  lin_ok (PCof 0 1 (PView (mkRange 0 2) (mkRange 1 3) Root)) 2 3.
Proof. split; reflexivity. Qed.
Example C07_ex : mat_assign (fun _ => mb_of_mat ex23) (mkM 1 1 [0%Z]) = Ok ex23 /\
  mat_assign (fun _ => mb_of_mat mat_empty) ex23 = Ok ex23 /\ 0 < 2 * 3 /\ reads (mb_of_mat ex23) 2 3 ex23f.
Proof. split; [reflexivity|]. split; [reflexivity|]. split; [lia|]. apply is_mat_reads, ex23_ok. Qed.
Example C08_ex : mat_assign (vmb (PView (mkRange 0 1) (mkRange 0 2) Root)) ex23 = Ok (mkM 1 2 [0;0]%Z) /\
  mat_assign (vmb (PView (mkRange 1 2) (mkRange 0 2) Root)) ex23 = UB.
Proof. split; reflexivity. Qed.
Example C09_ex : mat_resize ex23 3 2 = Ok (mkM 3 2 [1;2;4;5;0;0]%Z) /\ mat_resize ex23 3 3 = Ok (mkM 3 3 [1;2;3;4;5;6;0;0;0]%Z)
  /\ shape_ok 3 2.
Proof. repeat split. Qed.
Example C10_ex : mat_reshape ex23 3 2 = Ok (mkM 3 2 [1;2;3;4;5;6]%Z) /\ mat_reshape ex23 4 2 = Throw /\ 3 * 2 = 2 * 3 /\ is_size (4 * 2).
Proof. repeat split. Qed.
Example C11_ex : exists r c, 0 < r /\ 0 < c /\ is_size r /\ is_size c /\ ((N.of_nat r * N.of_nat c) mod two64 = 0)%N.
Proof.
  exists (N.to_nat 4294967296), (N.to_nat 4294967296). unfold is_size. rewrite !N2Nat.id. repeat split; lia.
Qed.
Example C12_ex : readsL (mb_view (mkRange 1 5) (mkRange 1 3) (mb_of_mat ex23)) 1 2 (fun i j => ex23f (1 + i) (1 + j)).
Proof. apply (C12_view_reads ex23 2 3 ex23f 1 5 1 3 ex23_ok); lia. Qed.
Example C13_ex : vshape (PView (mkRange 1 2) (mkRange 0 9) (PCof 0 1 (PView (mkRange 0 4) (mkRange 1 4) Root))) 4 4 = Some (1, 2)
  /\ vpos (PView (mkRange 1 2) (mkRange 0 9) (PCof 0 1 (PView (mkRange 0 4) (mkRange 1 4) Root))) 0 1 = (2, 3).
Proof. split; reflexivity. Qed.
Example C14_ex : mget (mb_view (mkRange 3 9) (mkRange 0 1) (mb_of_mat ex23)) 0 0 = UB /\
  mget (mb_view (mkRange 0 1) (mkRange 4 9) (mb_of_mat ex23)) 0 0 = Ok 5%Z /\
  N.of_nat (mrows (mb_view (mkRange 3 9) (mkRange 0 1) (mb_of_mat ex23))) = 18446744073709551615%N.
Proof.
  split; [reflexivity|]. split; [reflexivity|].
  destruct (C14_row_start_wraps ex23 2 3 ex23f 3 9 (mkRange 0 1) ex23_ok) as (E & _); try lia; [reflexivity|]. rewrite E. reflexivity.
Qed.
Example C15_ex : view_assign (PView (mkRange 0 1) (mkRange 0 2) Root) (vmb (PView (mkRange 0 1) (mkRange 1 3) Root)) ex23
  = Ok (mkM 2 3 [2;3;3;4;5;6]%Z) /\
  vshape (PView (mkRange 0 1) (mkRange 0 2) Root) 2 3 = Some (1, 2) /\
  vshape (PView (mkRange 0 1) (mkRange 1 3) Root) 2 3 = Some (1, 2).
Proof. repeat split. Qed.
Example C16_ex : view_assign (PView (mkRange 0 1) (mkRange 1 3) Root) (vmb (PView (mkRange 0 1) (mkRange 0 2) Root)) (mkM 1 3 [1;2;3]%Z)
  = Ok (mkM 1 3 [1;1;1]%Z).
Proof. reflexivity. Qed.
Example C17_ex : view_assign_nested (PView (mkRange 0 2) (mkRange 1 3) Root) [[7;8];[9;10]]%Z ex23 = Ok (mkM 2 3 [1;7;8;4;9;10]%Z) /\
  view_assign_nested (PView (mkRange 0 2) (mkRange 1 3) Root) [[7;8]]%Z ex23 = Ok ex23.
Proof. split; reflexivity. Qed.
Example C18_ex : reads (mb_cof 0 1 (mb_of_mat ex23)) 1 2 (fun i j => ex23f (if i <? 0 then i else S i) (if j <? 1 then j else S j))
  /\ mget (mb_cof 0 1 (mb_of_mat ex23)) 0 1 = Ok 6%Z.
Proof. split; [|reflexivity]. apply (C18_cofactor_reads ex23 2 3 ex23f 0 1 ex23_ok); lia. Qed.
