(** UtilFacts2.v: more lemmas for utility.hpp. *)
From Verif Require Export UtilFacts.
From Coq Require Import ZifyBool ZifyNat ZifyN Sorted.
Ltac Zify.zify_post_hook ::= Z.div_mod_to_equations.

Lemma is_vec_intro {T} (l : list T) n f : length l = n -> fits n -> (forall i, i < n -> nth_error l i = Some (f i)) -> is_vec l n f.
Proof. repeat split; auto. Qed.
Lemma is_vec_nth {T} (l : list T) d : fits (length l) -> is_vec l (length l) (fun i => nth i l d).
Proof. repeat split; auto. intros i Hi. apply nth_error_nth'. auto. Qed.
Lemma fits_add_l a b : fits (a + b) -> fits a.
Proof. apply fits_le. lia. Qed.
Lemma shape_ok_sym r c : shape_ok r c -> shape_ok c r.
Proof. intros (A & B & C). repeat split; auto. rewrite Nat.mul_comm. auto. Qed.
Lemma shape_ok_1l n : fits n -> shape_ok 1 n.
Proof. intros H. repeat split; auto. rewrite Nat.mul_1_l. auto. Qed.
Lemma shape_ok_1r n : fits n -> shape_ok n 1.
Proof. intros H. apply shape_ok_sym, shape_ok_1l, H. Qed.
Lemma all_range2_spec (pr : nat -> nat -> bool) lo1 hi1 (lo2 hi2 : nat -> nat) test :
  (forall i j, lo1 <= i < hi1 -> lo2 i <= j < hi2 i -> test i j = Ok (pr i j)) ->
  exists b, all_range lo1 hi1 (fun i => all_range (lo2 i) (hi2 i) (test i)) = Ok b /\
    (b = true <-> forall i j, lo1 <= i < hi1 -> lo2 i <= j < hi2 i -> pr i j = true).
Proof.
  intros H.
  assert (Hr : forall i, lo1 <= i < hi1 -> exists b, all_range (lo2 i) (hi2 i) (test i) = Ok b /\
     (b = true <-> forall j, lo2 i <= j < hi2 i -> pr i j = true)).
  { intros i Hi. apply all_range_spec. auto. }
  set (q := fun i => match all_range (lo2 i) (hi2 i) (test i) with Ok b => b | _ => false end).
  destruct (all_range_spec q (fun i => all_range (lo2 i) (hi2 i) (test i)) lo1 hi1) as (b & E & Q).
  { intros i Hi. destruct (Hr i Hi) as (b & E & _). unfold q. rewrite E. reflexivity. }
  exists b. split; auto. rewrite Q. split.
  - intros A i j Hi Hj. specialize (A i Hi). destruct (Hr i Hi) as (b' & E' & Q'). unfold q in A. rewrite E' in A.
    apply Q'; auto.
  - intros A i Hi. destruct (Hr i Hi) as (b' & E' & Q'). unfold q. rewrite E'. apply Q'. auto.
Qed.

Lemma nth_error_skipn {A} (l : list A) : forall n i, nth_error (skipn n l) i = nth_error l (n + i).
Proof. induction l as [|x l IH]; intros [|n] i; cbn; auto. destruct i; auto. Qed.
Lemma firstn_S {A} (l : list A) : forall n x, nth_error l n = Some x -> firstn (S n) l = firstn n l ++ [x].
Proof.
  induction l as [|y l IH]; intros [|n] x H; cbn in *; try discriminate. { inversion H; auto. }
  f_equal. apply IH. auto.
Qed.
Lemma combine_app_eq {A B} (a : list A) : forall (b : list B) x y, length a = length b ->
  combine (a ++ [x]) (b ++ [y]) = combine a b ++ [(x, y)].
Proof. induction a as [|u a IH]; intros [|v b] x y H; cbn in *; try discriminate; auto. f_equal. apply IH. lia. Qed.
Lemma filter_length_le {A} (p : A -> bool) l : length (filter p l) <= length l.
Proof. induction l; cbn; auto. destruct (p a); cbn; lia. Qed.

Section U2.
Context {T : Type} {O : Ops T}.
Implicit Types (m : Matrix T) (f g h : nat -> nat -> T) (X A B : MB T) (p q : vpath) (l : list T).

Lemma eye_ok r c (v : T) : 0 < r -> 0 < c -> shape_ok r c ->
  exists m, eye r c v = Ok m /\ is_mat m r c (fun i j => if i =? j then v else o0).
Proof.
  intros Hr Hc Hs. unfold eye. destruct (Nat.eqb_spec r 0); [lia|]. destruct (Nat.eqb_spec c 0); [lia|].
  destruct (mat_new_ok r c o0 Hs) as (m & E & Hm). rewrite E. cbn [bind].
  destruct (scatter1_ok m r c _ 0 (Nat.min r c) (fun i => (i, i)) (fun _ => Ok v) (fun _ => v) Hm) as (m' & f' & E' & H' & W1 & W2).
  - cbn. lia.
  - intros i a _ _ Q. congruence.
  - auto.
  - exists m'. split; [exact E'|]. eapply is_mat_ext; [exact H'|]. intros i j Hi Hj.
    destruct (Nat.eqb_spec i j) as [->|N].
    + apply (W1 j). lia.
    + apply W2; auto. intros k Hk Q. inversion Q. congruence.
Qed.
Lemma diag_v_ok l : shape_ok (length l) (length l) -> forall d,
  exists m, diag_v l = Ok m /\ is_mat m (length l) (length l) (fun i j => if i =? j then nth i l d else o0).
Proof.
  intros Hs d. unfold diag_v. set (n := length l) in *.
  destruct (mat_new_ok n n o0 Hs) as (m & E & Hm). rewrite E. cbn [bind].
  destruct (scatter1_ok m n n _ 0 n (fun i => (i, i)) (lget l) (fun i => nth i l d) Hm) as (m' & f' & E' & H' & W1 & W2).
  - cbn. lia.
  - intros i a _ _ Q. congruence.
  - intros i Hi. apply lget_ok, nth_error_nth'. fold n. lia.
  - exists m'. split; [exact E'|]. eapply is_mat_ext; [exact H'|]. intros i j Hi Hj.
    destruct (Nat.eqb_spec i j) as [->|N].
    + apply (W1 j). lia.
    + apply W2; auto. intros k Hk Q. inversion Q. congruence.
Qed.
Lemma fits_min_shape r c : shape_ok r c -> fits (Nat.min r c).
Proof.
  intros (_ & _ & H). eapply fits_le; [|exact H]. destruct r as [|r]; [lia|]. destruct c as [|c]; [lia|]. nia.
Qed.
Lemma diag_m_ok A r c f : reads A r c f ->
  exists d, diag_m A = Ok d /\ is_vec d (Nat.min r c) (fun i => f i i).
Proof.
  intros (Hr & Hc & _ & Hs & Hg). unfold diag_m. rewrite Hr, Hc. rewrite vec_fill_ok by (apply fits_min_shape; auto). cbn [bind].
  apply vec_build; auto.
  - apply repeat_length.
  - apply fits_min_shape; auto.
  - intros i Hi. apply Hg; lia.
Qed.
Lemma to_matrix_ok l (row : bool) : fits (length l) -> forall d,
  exists m, to_matrix l row = Ok m /\
    is_mat m (if row then 1 else length l) (if row then length l else 1) (fun i j => nth (if row then j else i) l d).
Proof.
  intros Hf d. unfold to_matrix. set (r := if row then 1 else length l). set (c := if row then length l else 1).
  assert (Hs : shape_ok r c). { unfold r, c. destruct row; [apply shape_ok_1l|apply shape_ok_1r]; auto. }
  destruct (mat_new_ok r c o0 Hs) as (m & E & Hm). rewrite E. cbn [bind].
  assert (Hn : length l = r * c) by (unfold r, c; destruct row; lia).
  rewrite Hn. eapply fill_lin_full; eauto. intros k Hk. rewrite (lget_ok l k (nth k l d)) by (apply nth_error_nth'; lia).
  f_equal. unfold r, c in *. destruct row; f_equal.
  - rewrite Nat.mod_small; lia.
  - rewrite Nat.div_1_r. reflexivity.
Qed.
Lemma ravel_ok A r c f : readsL A r c f -> exists d, ravel A = Ok d /\ is_vec d (r * c) (fun k => f (k / c) (k mod c)).
Proof.
  intros ((Hr & Hc & Hz & Hs & Hg) & Hl). unfold ravel. rewrite Hz, vec_new_ok by apply Hs. cbn [bind]. rewrite repeat_length.
  apply vec_build; auto. { apply repeat_length. } apply Hs.
Qed.
Lemma to_vector_ok m r c f : is_mat m r c f -> exists d, to_vector m = Ok d /\ d = data m /\ is_vec d (r * c) (fun k => f (k / c) (k mod c)).
Proof.
  intros H. destruct (is_mat_readsL _ _ _ _ H) as ((Hr & Hc & Hz & Hs & Hg) & Hl).
  unfold to_vector. rewrite Hz, vec_new_ok by apply Hs. cbn [bind].
  destruct (vec_build (fun i => mlin (mb_of_mat m) i) (fun k => f (k / c) (k mod c)) (r * c) (repeat o0 (r * c))) as (d & E & Q); auto.
  { apply repeat_length. } { apply Hs. }
  exists d. split; [exact E|]. split; auto. apply list_ext.
  - rewrite (is_vec_list _ _ _ Q). symmetry. apply H.
  - intros i Hi. rewrite (is_vec_list _ _ _ Q) in Hi. destruct Q as (_ & _ & Q). rewrite Q by auto.
    symmetry. specialize (Hl i Hi). cbn in Hl. apply lget_inv. auto.
Qed.
Lemma vstack_ok A B ra rb c fa fb : reads A ra c fa -> reads B rb c fb -> shape_ok (ra + rb) c ->
  exists m, vstack A B = Ok m /\ is_mat m (ra + rb) c (fun i j => if i <? ra then fa i j else fb (i - ra) j).
Proof.
  intros (Ar & Ac & _ & As & Ag) (Br & Bc & _ & Bs & Bg) Hs. unfold vstack. rewrite Ar, Ac, Br, Bc, Nat.eqb_refl. cbn [negb].
  rewrite add64_small by apply Hs. destruct (mat_new_ok (ra + rb) c o0 Hs) as (m & E & Hm). rewrite E. cbn [bind].
  destruct (fill_rc_ok m (ra+rb) c _ ra c (mget A) fa Hm) as (m1 & E1 & H1); auto; try lia. rewrite E1. cbn [bind].
  destruct (scatter_ok m1 (ra+rb) c _ rb c (fun i j => (add64 i ra, j)) (mget B) fb H1) as (m2 & f2 & E2 & H2 & W1 & W2); auto.
  - intros i j Hi Hj. cbn. rewrite add64_small. lia. destruct Hs as (Hs & _). apply (size_le _ (ra+rb)); auto. lia.
  - intros i j a b Hi Hj Ha Hb Q. inversion Q as [[Q1 Q2]]. rewrite !add64_small in Q1; try (destruct Hs as (Hs & _); apply (size_le _ (ra+rb)); auto; lia). lia.
  - exists m2. split; [exact E2|]. eapply is_mat_ext; [exact H2|]. intros i j Hi Hj.
    destruct (Nat.ltb_spec i ra).
    + rewrite W2; auto. { nb. } intros x y Hx Hy Q. inversion Q as [[Q1 Q2]].
      rewrite add64_small in Q1; try (destruct Hs as (Hs & _); apply (size_le _ (ra+rb)); auto; lia). lia.
    + specialize (W1 (i - ra) j ltac:(lia) Hj). cbn in W1.
      rewrite add64_small in W1; try (destruct Hs as (Hs & _); apply (size_le _ (ra+rb)); auto; lia).
      replace (i - ra + ra) with i in W1 by lia. exact W1.
Qed.
Lemma hstack_ok A B r ca cb fa fb : reads A r ca fa -> reads B r cb fb -> shape_ok r (ca + cb) ->
  exists m, hstack A B = Ok m /\ is_mat m r (ca + cb) (fun i j => if j <? ca then fa i j else fb i (j - ca)).
Proof.
  intros (Ar & Ac & _ & As & Ag) (Br & Bc & _ & Bs & Bg) Hs. unfold hstack. rewrite Ar, Ac, Br, Bc, Nat.eqb_refl. cbn [negb].
  assert (Sa : forall k, k < cb -> add64 k ca = k + ca).
  { intros k Hk. apply add64_small. destruct Hs as (_ & Hs & _). apply (size_le _ (ca+cb)); auto. lia. }
  rewrite (add64_small ca cb) by apply Hs. destruct (mat_new_ok r (ca+cb) o0 Hs) as (m & E & Hm). rewrite E. cbn [bind].
  destruct (scatter_ok m r (ca+cb) _ ca r (fun c r => (r, c)) (fun c r => mget A r c) (fun c r => fa r c) Hm) as (m1 & f1 & E1 & H1 & V1 & V2).
  { cbn. lia. } { intros i j a b _ _ _ _ Q. inversion Q; auto. } { auto. }
  cbn [fst snd] in E1. rewrite E1. cbn [bind].
  destruct (scatter_ok m1 r (ca+cb) _ cb r (fun c r => (r, add64 c ca)) (fun c r => mget B r c) (fun c r => fb r c) H1) as (m2 & f2 & E2 & H2 & W1 & W2).
  { intros i j Hi Hj. cbn. rewrite Sa by auto. lia. }
  { intros i j a b Hi Hj Ha Hb Q. inversion Q as [[Q1 Q2]]. rewrite !Sa in Q2 by auto. lia. } { auto. }
  exists m2. split; [exact E2|]. eapply is_mat_ext; [exact H2|]. intros i j Hi Hj.
  destruct (Nat.ltb_spec j ca).
  - rewrite W2; auto.
    + apply (V1 j i); auto.
    + intros x y Hx Hy Q. inversion Q as [[Q1 Q2]]. rewrite Sa in Q2 by auto. lia.
  - specialize (W1 (j - ca) i ltac:(lia) Hi). cbn in W1. rewrite Sa in W1 by lia.
    replace (j - ca + ca) with j in W1 by lia. exact W1.
Qed.
Lemma vstack_v_ok A r c f b d : readsL A r c f -> length b = c -> shape_ok (r + 1) c ->
  exists m, vstack_v A b = Ok m /\ is_mat m (r + 1) c (fun i j => if i <? r then f i j else nth j b d).
Proof.
  intros HL Hb Hs. assert (HA := HL). destruct HA as ((Ar & Ac & _ & As & Ag) & _). unfold vstack_v. rewrite Ar, Ac, Hb, Nat.eqb_refl. cbn [negb].
  destruct (mat_of_mb_ok A r c f HL) as (m & E & Hm). rewrite E. cbn [bind]. rewrite add64_small by apply Hs.
  destruct (mat_resize_ok m r c f (r+1) c Hm Hs) as (m1 & E1 & H1). rewrite E1. cbn [bind].
  destruct (scatter1_ok m1 (r+1) c _ 0 c (fun i => (r, i)) (lget b) (fun i => nth i b d) H1) as (m2 & f2 & E2 & H2 & W1 & W2).
  { cbn; lia. } { intros i a _ _ Q; congruence. } { intros i Hi. apply lget_ok, nth_error_nth'. lia. }
  exists m2. split; [exact E2|]. eapply is_mat_ext; [exact H2|]. intros i j Hi Hj.
  destruct (Nat.ltb_spec i r).
  - rewrite W2; auto. { unfold fresize. nb. } intros x Hx Q. inversion Q. lia.
  - replace i with r by lia. apply (W1 j). lia.
Qed.
Lemma hstack_v_ok A r c f b d : readsL A r c f -> length b = r -> shape_ok r (c + 1) ->
  exists m, hstack_v A b = Ok m /\ is_mat m r (c + 1) (fun i j => if j <? c then f i j else nth i b d).
Proof.
  intros HL Hb Hs. assert (HA := HL). destruct HA as ((Ar & Ac & _ & As & Ag) & _). unfold hstack_v. rewrite Ar, Ac, Hb, Nat.eqb_refl. cbn [negb].
  destruct (mat_of_mb_ok A r c f HL) as (m & E & Hm). rewrite E. cbn [bind]. rewrite add64_small by apply Hs.
  destruct (mat_resize_ok m r c f r (c+1) Hm Hs) as (m1 & E1 & H1). rewrite E1. cbn [bind].
  destruct (scatter1_ok m1 r (c+1) _ 0 r (fun i => (i, c)) (lget b) (fun i => nth i b d) H1) as (m2 & f2 & E2 & H2 & W1 & W2).
  { cbn; lia. } { intros i a _ _ Q; congruence. } { intros i Hi. apply lget_ok, nth_error_nth'. lia. }
  exists m2. split; [exact E2|]. eapply is_mat_ext; [exact H2|]. intros i j Hi Hj.
  destruct (Nat.ltb_spec j c).
  - rewrite W2; auto. { unfold fresize. nb. } intros x Hx Q. inversion Q. lia.
  - replace j with c by lia. apply (W1 i). lia.
Qed.
Lemma concatenate_ok (a b : list T) : fits (length a + length b) -> concatenate a b = Ok (a ++ b).
Proof.
  intros Hf. unfold concatenate. rewrite vec_of_list_ok by (eapply fits_add_l; eauto). cbn [bind].
  rewrite add64_small by auto. rewrite vec_allocate_ok by auto. cbn [bind].
  set (n := length a + length b). rewrite firstn_all2 by lia. replace (n - length a) with (length b) by lia.
  set (d0 := a ++ repeat o0 (length b)). assert (Hd0 : length d0 = n) by (unfold d0; rewrite app_length, repeat_length; auto).
  assert (Sa : forall i, i < length b -> add64 (length a) i = length a + i).
  { intros i Hi. apply add64_small. apply (size_le _ n); auto. lia. }
  assert (Hb : b = nil \/ exists x0 b0, b = x0 :: b0) by (destruct b; eauto).
  destruct Hb as [Eb|(x0 & b0 & Eb)].
  { rewrite for_range_empty by (rewrite Eb; cbn; lia). unfold d0. rewrite Eb. reflexivity. }
  clear Eb b0.
  destruct (vscatter_ok d0 0 (length b) (fun i => add64 (length a) i) (lget b) (fun i => nth i b x0)) as (d & E & L & W1 & W2).
  - intros i Hi. rewrite Sa by lia. lia.
  - intros i k Hi Hk Q. rewrite !Sa in Q by lia. lia.
  - intros i Hi. apply lget_ok, nth_error_nth'. lia.
  - rewrite E. f_equal. apply list_ext. { rewrite L, Hd0, app_length. reflexivity. }
    intros k Hk. rewrite L, Hd0 in Hk. destruct (le_lt_dec (length a) k).
    + rewrite nth_error_app2 by auto. specialize (W1 (k - length a) ltac:(lia)). rewrite Sa in W1 by lia.
      replace (length a + (k - length a)) with k in W1 by lia. rewrite W1. symmetry. apply nth_error_nth'. lia.
    + rewrite W2. 2:{ intros i Hi. rewrite Sa by lia. lia. } unfold d0. rewrite !nth_error_app1 by auto. reflexivity.
Qed.
Lemma extract_ok A r c f r0 r1 c0 c1 : reads A r c f -> r0 < r1 -> c0 < c1 -> r0 <= r -> c0 <= c ->
  exists m, extract A r0 r1 c0 c1 = Ok m /\
    is_mat m (Nat.min r r1 - r0) (Nat.min c c1 - c0) (fun i j => f (r0 + i) (c0 + j)).
Proof.
  intros (Ar & Ac & _ & As & Ag) H1 H2 H3 H4. unfold extract. rewrite Ar, Ac.
  destruct (Nat.leb_spec r1 r0); [lia|]. destruct (Nat.leb_spec c1 c0); [lia|].
  assert (Hs : shape_ok (Nat.min r r1 - r0) (Nat.min c c1 - c0)) by (apply (shape_ok_le r c); auto; lia).
  destruct As as (Sr & Sc & Sf).
  rewrite !sub64_small by (try lia; size_by r c).
  destruct (mat_new_ok _ _ o0 Hs) as (m & E & Hm). rewrite E. cbn [bind].
  set (R := Nat.min r r1 - r0) in *. set (C := Nat.min c c1 - c0) in *.
  destruct (scatter_ok m R C _ R C (fun i j => (r0 + i - r0, c0 + j - c0)) (fun i j => mget A (r0 + i) (c0 + j)) (fun i j => f (r0 + i) (c0 + j)) Hm) as (m1 & f1 & E1 & Q1 & W1 & W2).
  { cbn. lia. } { intros i j a b _ _ _ _ Q. inversion Q. lia. } { intros i j Hi Hj. apply Ag; lia. }
  exists m1. split.
  - rewrite <- E1. rewrite for_range_shift. fold R. apply for_range_ext. intros i s Hi. rewrite for_range_shift. fold C. reflexivity.
  - eapply is_mat_ext; [exact Q1|]. intros i j Hi Hj. specialize (W1 i j Hi Hj). cbn in W1.
    replace (r0 + i - r0) with i in W1 by lia. replace (c0 + j - c0) with j in W1 by lia. exact W1.
Qed.
Lemma fits_shape_r r c : shape_ok r c -> 0 < c -> fits r.
Proof. intros (_ & _ & H) Hc. eapply fits_le; [|exact H]. nia. Qed.
Lemma fits_shape_c r c : shape_ok r c -> 0 < r -> fits c.
Proof. intros (_ & _ & H) Hc. eapply fits_le; [|exact H]. nia. Qed.
Lemma extract_column_ok A r c f col r0 r1 : reads A r c f -> r0 < r1 -> r0 <= r -> col < c ->
  exists d, extract_column A col r0 r1 = Ok d /\ is_vec d (Nat.min r r1 - r0) (fun i => f (r0 + i) col).
Proof.
  intros (Ar & Ac & _ & As & Ag) H1 H2 H3. unfold extract_column. rewrite Ar, Ac.
  destruct (Nat.leb_spec r1 r0); [lia|]. destruct (Nat.leb_spec c col); [lia|].
  assert (Hf : fits (Nat.min r r1 - r0)). { apply (fits_le _ r); [lia|]. apply (fits_shape_r r c); auto; lia. }
  destruct As as (Sr & Sc & Sf).
  rewrite sub64_small by (try lia; size_by r c). rewrite vec_fill_ok by auto. cbn [bind].
  set (n := Nat.min r r1 - r0) in *. rewrite for_range_shift. fold n.
  destruct (vec_build (fun i => mget A (r0 + i) col) (fun i => f (r0 + i) col) n (repeat o0 n)) as (d & E & Q); auto.
  { apply repeat_length. } { intros i Hi. apply Ag; lia. }
  exists d. split; auto. rewrite <- E. apply for_range_ext. intros i s Hi. replace (r0 + i - r0) with i by lia. reflexivity.
Qed.
Lemma extract_row_ok A r c f row c0 c1 : reads A r c f -> c0 < c1 -> c0 <= c -> row < r ->
  exists d, extract_row A row c0 c1 = Ok d /\ is_vec d (Nat.min c c1 - c0) (fun i => f row (c0 + i)).
Proof.
  intros (Ar & Ac & _ & As & Ag) H1 H2 H3. unfold extract_row. rewrite Ar, Ac.
  destruct (Nat.leb_spec c1 c0); [lia|]. destruct (Nat.leb_spec r row); [lia|].
  assert (Hf : fits (Nat.min c c1 - c0)). { apply (fits_le _ c); [lia|]. apply (fits_shape_c r c); auto; lia. }
  destruct As as (Sr & Sc & Sf).
  rewrite sub64_small by (try lia; size_by r c). rewrite vec_fill_ok by auto. cbn [bind].
  set (n := Nat.min c c1 - c0) in *. rewrite for_range_shift. fold n.
  destruct (vec_build (fun i => mget A row (c0 + i)) (fun i => f row (c0 + i)) n (repeat o0 n)) as (d & E & Q); auto.
  { apply repeat_length. } { intros i Hi. apply Ag; lia. }
  exists d. split; auto. rewrite <- E. apply for_range_ext. intros i s Hi. replace (c0 + i - c0) with i by lia. reflexivity.
Qed.

(** flatnonzero *)
Lemma flatnonzero_ok m r c f : is_mat m r c f ->
  flatnonzero m = Ok (filter (fun k => negb (oisz (f (k / c) (k mod c)))) (seq 0 (r * c))).
Proof.
  intros H. destruct (is_mat_readsL _ _ _ _ H) as ((Hr & Hc & Hz & Hs & Hg) & Hl). unfold flatnonzero. rewrite Hz.
  destruct (for_range_inv (fun k acc => acc = filter (fun k => negb (oisz (f (k / c) (k mod c)))) (seq 0 k)) 0 (r * c)
    (fun i acc => let* x := mlin (mb_of_mat m) i in Ok (if oisz x then acc else acc ++ [i])) nil) as (d & E & Q); [lia|reflexivity| |].
  - intros i s Hi ->. rewrite Hl by lia. cbn [bind]. eexists. split; [reflexivity|].
    rewrite seq_S, filter_app. cbn. destruct (oisz (f (i / c) (i mod c))); cbn; auto. rewrite app_nil_r. reflexivity.
  - rewrite E, Q. reflexivity.
Qed.

Lemma vec_build_off (d : list T) n (h : nat -> T) : length d = n -> fits n ->
  exists d', for_range 0 n (fun i d => lset d i (h i)) d = Ok d' /\ is_vec d' n h.
Proof.
  intros Hl Hf. destruct (vec_build (fun i => Ok (h i)) h n d Hl Hf) as (d' & E & Q); auto. exists d'. split; auto.
Qed.
End U2.

Lemma lin_step {T} (h : nat -> T) (g : nat -> nat -> T) k i j r c : k < r * c -> i < r -> j < c ->
  fset (fun i j => if i * c + j <? k then h (i * c + j) else g i j) (k / c) (k mod c) (h k) i j
  = if i * c + j <? S k then h (i * c + j) else g i j.
Proof.
  intros Hk Hi Hj. unfold fset. destruct (Nat.eq_dec (i * c + j) k) as [<-|N].
  - rewrite idx_div, idx_mod by auto. rewrite !Nat.eqb_refl. cbn [andb]. destruct (Nat.ltb_spec (i*c+j) (S (i*c+j))); auto. lia.
  - assert (E : (i =? k / c) && (j =? k mod c) = false).
    { apply andb_false_iff. rewrite !Nat.eqb_neq. destruct (Nat.eq_dec i (k / c)); auto. right. intros E2. apply N.
      subst i j. eapply div_mod_rc; eauto. }
    rewrite E. destruct (Nat.ltb_spec (i*c+j) k), (Nat.ltb_spec (i*c+j) (S k)); auto; lia.
Qed.
