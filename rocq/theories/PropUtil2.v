(** PropUtil2.v: logspace, integer instances, refutations and concrete cases for
    utility.hpp. *)
From Verif Require Import UtilFacts2 Scalar PropMatrix PropUtil.
From Coq Require Import ZifyBool ZifyNat ZifyN Sorted.
Ltac Zify.zify_post_hook ::= Z.div_mod_to_equations.

(** * The 32 bit loop counter of logspace *)
Lemma loop32_ok {S} (body : nat -> S -> Res S) num : (N.of_nat num < two32)%N -> forall fuel i s, num - i <= fuel ->
  loop32 fuel num i body s = for_range i num body s.
Proof.
  intros Hn. induction fuel as [|fuel IH]; intros i s Hf; cbn [loop32].
  - destruct (Nat.ltb_spec i num); [lia|]. rewrite for_range_empty; auto.
  - destruct (Nat.ltb_spec i num).
    + rewrite for_range_first by auto. destruct (body i s); cbn; auto.
      assert (E : incr32 i = Datatypes.S i). { unfold incr32. rewrite N.mod_small by lia. lia. }
      rewrite E. apply IH. lia.
    + rewrite for_range_empty; auto.
Qed.
Lemma loop32_diverges {S} (P : S -> Prop) (body : nat -> S -> Res S) num : (two32 <= N.of_nat num)%N ->
  (forall i s, i < num -> P s -> exists s', body i s = Ok s' /\ P s') ->
  forall fuel i s, i < num -> P s -> loop32 fuel num i body s = Fuel.
Proof.
  intros Hn Hb. induction fuel as [|fuel IH]; intros i s Hi Hs; cbn [loop32].
  - destruct (Nat.ltb_spec i num); [|lia]. reflexivity.
  - destruct (Nat.ltb_spec i num); [|lia]. destruct (Hb i s Hi Hs) as (s' & E & Hs'). rewrite E. cbn [bind].
    apply IH; auto. unfold incr32. assert (Hm : ((N.of_nat i + 1) mod two32 < two32)%N) by (apply N.mod_lt; discriminate). lia.
Qed.

Section Log.
Context {T : Type} {O : Ops T}.
(** * C74 *)
(** For n below 2^32 the result is base^x for the elements x of linspace. *)
Theorem C74_logspace_is_pow_of_linspace : forall pow (start stop base : T) n fuel d, (N.of_nat n < 2 ^ 32)%N -> n <= fuel ->
  linspace start stop n = Ok d ->
  exists e, logspace fuel pow start stop n base = Ok e /\ is_vec e n (fun i => pow base (nth i d base)).
Proof.
  intros pow start stop base n fuel d Hn Hf. change (2 ^ 32)%N with two32 in Hn.
  assert (F : fits n) by (unfold fits, alloc_max, two32 in *; lia).
  unfold logspace, linspace. rewrite vec_fill_ok by auto. cbn [bind].
  destruct (Nat.eqb_spec n 0) as [->|N0]. { intros E. exists nil. split; auto. repeat split; auto. intros; lia. }
  destruct (Nat.eqb_spec n 1) as [->|N1].
  { cbn. intros E. injection E as <-. eexists. split; [reflexivity|]. repeat split; auto. intros i Hi. replace i with 0 by lia. reflexivity. }
  assert (G : forall h : nat -> T, for_range 0 n (fun i d => lset d i (h i)) (repeat o1 n) = Ok d ->
     exists e, loop32 fuel n 0 (fun i d => lset d i (pow base (h i))) (repeat o1 n) = Ok e /\ is_vec e n (fun i => pow base (nth i d base))).
  { intros h E. destruct (vec_build_off (repeat o1 n) n h) as (d' & E1 & Q1); auto. { apply repeat_length. }
    rewrite E in E1. injection E1 as <-.
    rewrite loop32_ok by (auto; lia). destruct (vec_build_off (repeat o1 n) n (fun i => pow base (h i))) as (e & E2 & Q2); auto. { apply repeat_length. }
    exists e. split; auto. eapply is_vec_ext; [exact Q2|]. intros i Hi. cbn.
    destruct Q1 as (_ & _ & Q1). rewrite (nth_error_nth d i base (Q1 i Hi)). reflexivity. }
  destruct (ofeq start stop); [apply (G (fun _ => stop))|]. destruct (olt start stop).
  - destruct (odiv _ _) as [step| | | |]; cbn [bind]; try discriminate. apply (G (fun i => oadd start (omul step (ofnat i)))).
  - destruct (odiv _ _) as [step| | | |]; cbn [bind]; try discriminate. apply (G (fun i => osub start (omul step (ofnat i)))).
Qed.
Theorem C74_logspace_one : forall fuel pow (start stop base : T), logspace fuel pow start stop 1 base = Ok [pow base stop].
Proof. reflexivity. Qed.
(** From 2^32 elements on no number of iterations is enough. *)
Theorem C74_logspace_never_ends : forall pow (start stop base : T) n fuel, (2 ^ 32 <= N.of_nat n)%N -> fits n ->
  (exists s, odiv (osub stop start) (ofnat (n - 1)) = Ok s) -> (exists s, odiv (osub start stop) (ofnat (n - 1)) = Ok s) ->
  logspace fuel pow start stop n base = Fuel.
Proof.
  intros pow start stop base n fuel Hn F (s1 & E1) (s2 & E2). change (2 ^ 32)%N with two32 in Hn.
  unfold logspace. rewrite vec_fill_ok by auto. cbn [bind].
  destruct (Nat.eqb_spec n 0) as [->|N0]. { unfold two32 in Hn. lia. }
  destruct (Nat.eqb_spec n 1) as [->|N1]. { unfold two32 in Hn. lia. }
  assert (G : forall h : nat -> T, loop32 fuel n 0 (fun i d => lset d i (h i)) (repeat o1 n) = Fuel).
  { intros h. apply (loop32_diverges (fun d => length d = n)); auto; [|lia|apply repeat_length].
    intros i s Hi Hs. rewrite lset_ok by lia. eexists. split; [reflexivity|]. rewrite upd_length. auto. }
  destruct (ofeq start stop); [apply (G (fun _ => pow base stop))|]. destruct (olt start stop).
  - rewrite E1. cbn [bind]. apply (G (fun i => pow base (oadd start (omul s1 (ofnat i))))).
  - rewrite E2. cbn [bind]. apply (G (fun i => pow base (osub start (omul s2 (ofnat i))))).
Qed.

(** * C76, bounds: any set that contains every draw contains every element. *)
Theorem C76_rand_in_bounds : forall (P : T -> Prop) draw r c m k, shape_ok r c -> (forall n, n < r * c -> P (draw n)) ->
  rand_matrix draw r c = Ok (m, k) -> Forall P (data m).
Proof.
  intros P draw r c m k Hs HP E. destruct (C76_rand_matrix draw r c Hs) as (m' & E' & _ & _ & _ & Hl & H).
  rewrite E in E'. injection E' as -> ->. apply Forall_forall. intros x Hx. apply In_nth_error in Hx. destruct Hx as (t & Ht).
  assert (L : t < r * c). { rewrite <- Hl. apply nth_error_Some. rewrite Ht. discriminate. }
  specialize (H (t / c) (t mod c) (div_lt_rc _ _ _ L) (mod_lt_rc _ _ _ L)). rewrite (div_mod_rc _ _ _ L), Ht in H.
  injection H as ->. apply HP. auto.
Qed.
Theorem C76_rand_vector_in_bounds : forall (P : T -> Prop) draw n d k, fits n -> (forall i, i < n -> P (draw i)) ->
  rand_vector draw n = Ok (d, k) -> Forall P d.
Proof.
  intros P draw n d k Hs HP E. destruct (C76_rand_vector draw n Hs) as (m' & E' & Hl & _ & H).
  rewrite E in E'. injection E' as -> ->. apply Forall_forall. intros x Hx. apply In_nth_error in Hx. destruct Hx as (t & Ht).
  assert (L : t < n). { rewrite <- Hl. apply nth_error_Some. rewrite Ht. discriminate. }
  rewrite (H t L) in Ht. injection Ht as <-. auto.
Qed.

(** * C75: over a ring, inner_product with init 0 is the sum of products. *)
Theorem C75_inner_product_whole : forall (a b : list T), length a = length b ->
  inner_product a b 0 (length a) 0 o0 = Ok (fold_left (fun acc xy => oadd acc (omul (fst xy) (snd xy))) (combine a b) o0).
Proof.
  intros a b E. rewrite C75_inner_product by lia. cbn [skipn]. rewrite Nat.sub_0_r, firstn_all, E, firstn_all. reflexivity.
Qed.

(** * C22, C27 refutations *)
End Log.
(** ravel of a non-square CofactorView does not list it in row-major order. *)
Theorem C22_ravel_cofactor_refuted : exists (m : Matrix Z) f d, is_mat m 2 3 f /\
  reads (mb_cof 0 0 (mb_of_mat m)) 1 2 (fun i j => f (S i) (S j)) /\
  ~ (ravel (mb_cof 0 0 (mb_of_mat m)) = Ok d) /\ is_vec d 2 (fun k => f (S (k / 2)) (S (k mod 2))).
Proof.
  exists ex23, ex23f, [5;6]%Z. split; [apply ex23_ok|]. split.
  - apply (C18_cofactor_reads ex23 2 3 ex23f 0 0 ex23_ok); lia.
  - split. { vm_compute. discriminate. } split; [reflexivity|]. split; [reflexivity|].
    intros i Hi. assert (i = 0 \/ i = 1) as [->| ->] by lia; reflexivity.
Qed.
(** is_skew_symmetric accepts matrices that are not skew-symmetric. *)
Theorem C27_skew_symmetric_refuted : exists (m : Matrix Z) f, is_mat m 2 2 f /\
  is_skew_symmetric (mb_of_mat m) = Ok true /\ ~ (forall i j, i < 2 -> j < 2 -> f i j = (- f j i)%Z).
Proof.
  exists (mkM 2 2 [1;2;-2;1]%Z), (fun i j => nth (i * 2 + j) [1;2;-2;1]%Z 0%Z). split.
  - repeat split. intros i j Hi Hj. apply nth_error_nth'. cbn. lia.
  - split; [reflexivity|]. intros H. specialize (H 0 0 ltac:(lia) ltac:(lia)). vm_compute in H. discriminate.
Qed.
(** compare returns 0 on arguments that differ (at index 0), and ignores shapes. *)
Theorem C30_compare_zero_refuted : exists (A B : Matrix Z), wf A /\ wf B /\
  compare (mb_of_mat A) (mb_of_mat B) = Ok 0%Z /\ rows A = rows B /\ cols A = cols B /\ data A <> data B.
Proof. exists (mkM 1 2 [1;2]%Z), (mkM 1 2 [5;2]%Z). repeat split. cbn. discriminate. Qed.
Theorem C30_compare_shape_refuted : exists (A B : Matrix Z), wf A /\ wf B /\
  compare (mb_of_mat A) (mb_of_mat B) = Ok 0%Z /\ rows A <> rows B.
Proof. exists (mkM 1 2 [1;2]%Z), (mkM 2 1 [1;2]%Z). repeat split. cbn. discriminate. Qed.
(** find(A, n) is not the first n indices. *)
Theorem C29_find_first_n_refuted : exists (m : Matrix Z), wf m /\
  flatnonzero m = Ok [1;2;3] /\ find m 2 true = Ok (mkM 1 1 [3]) /\ find m 2 false = Ok (mkM 1 2 [4;4]).
Proof. exists (mkM 1 4 [0;5;6;7]%Z). repeat split. Qed.

(** * Integer instances *)
Theorem C27_integers : forall x y : Z, oeq x y = true <-> x = y.
Proof. intros. apply Z.eqb_eq. Qed.
Theorem C31_all_close_integers : forall (A B : MB Z) r c fa fb tol tol', readsL A r c fa -> readsL B r c fb ->
  (0 <= tol <= tol')%Z ->
  (all_close A B tol = Ok true <-> forall i j, i < r -> j < c -> (Z.abs (fa i j - fb i j) <= tol)%Z) /\
  all_close A A tol = Ok true /\ all_close A B tol = all_close B A tol /\
  (all_close A B tol = Ok true -> all_close A B tol' = Ok true).
Proof.
  intros A B r c fa fb tol tol' HA HB Ht. split.
  - destruct (C31_all_close A B r c fa fb tol HA HB) as (b & E & Q). rewrite E. split.
    + intros E1. injection E1 as ->. intros i j Hi Hj. pose proof (proj1 Q eq_refl i j Hi Hj) as Q1. cbn in Q1. lia.
    + intros H. f_equal. apply Q. intros i j Hi Hj. specialize (H i j Hi Hj). cbn. lia.
  - apply (C31_all_close_laws A B r c fa fb tol tol' HA HB); cbn; intros; lia.
Qed.
(** Integer linspace: the step is truncated. *)
Theorem C28_linspace_integers : forall (start stop : Z) n, 2 <= n -> fits n -> start <> stop ->
  exists d, linspace start stop n = Ok d /\
    is_vec d n (fun i => start + (Z.quot (stop - start) (Z.of_nat (n - 1))) * Z.of_nat i)%Z.
Proof.
  intros start stop n Hn Hf Hne.
  destruct (C28_linspace_elements start stop n Hn Hf) as (H1 & H2). { cbn. lia. }
  cbn [odiv olt osub zops ofnat] in H1, H2. rewrite (proj2 (Z.eqb_neq (Z.of_nat (n - 1)) 0)) in H1, H2 by lia.
  destruct (Z.ltb_spec start stop).
  - destruct (H1 eq_refl _ eq_refl) as (d & E & Q). exists d. split; auto.
  - destruct (H2 eq_refl _ eq_refl) as (d & E & Q). exists d. split; auto. eapply is_vec_ext; [exact Q|]. intros i Hi. cbn.
    replace (stop - start)%Z with (- (start - stop))%Z by lia. rewrite Z.quot_opp_l by lia. lia.
Qed.
Theorem C28_linspace_integer_last : forall (start stop : Z) n d, 2 <= n -> fits n -> start <> stop -> linspace start stop n = Ok d ->
  nth_error d 0 = Some start /\
  (nth_error d (n - 1) = Some stop <-> (Z.of_nat (n - 1) | stop - start)%Z).
Proof.
  intros start stop n d Hn Hf Hne E. destruct (C28_linspace_integers start stop n Hn Hf Hne) as (d' & E' & _ & _ & Q).
  rewrite E in E'. injection E' as <-. rewrite !Q by lia. split. { f_equal. lia. }
  set (k := Z.of_nat (n - 1)). assert (Hk : (0 < k)%Z) by lia. split.
  - intros H. injection H as H. exists ((stop - start) ÷ k)%Z. lia.
  - intros (q & Hq). rewrite Hq. rewrite Z.quot_mul by lia. f_equal. lia.
Qed.

(** * Concrete cases *)
Example C12_util_ex : exists V, util_row (mb_of_mat ex23) 1 1 9 = Ok V /\ mlin V 1 = Ok 6%Z.
Proof. eexists. split; reflexivity. Qed.
Example C14_extract_ex : exists r0, 2 < r0 /\ is_size r0 /\ (N.of_nat (r0 - 2) <= 2 ^ 63)%N /\
  extract (mb_of_mat ex23) r0 (S r0) 0 1 = UB /\ extract_column (mb_of_mat ex23) 1 r0 (S r0) = UB.
Proof.
  exists 5. assert (R := is_mat_reads _ _ _ _ ex23_ok). assert (is_size 5) by (unfold is_size, two64; lia).
  split; [lia|]. split; [auto|]. split; [lia|]. split.
  - apply (C14_extract_undefined_1col _ 2 3 ex23f); auto; lia.
  - apply (C14_extract_column_undefined _ 2 3 ex23f); auto; lia.
Qed.
Example C21_ex : eye 2 3 7%Z = Ok (mkM 2 3 [7;0;0;0;7;0]%Z) /\ diag_v [4;5]%Z = Ok (mkM 2 2 [4;0;0;5]%Z) /\
  diag_m (mb_of_mat ex23) = Ok [1;5]%Z /\ identity 0 1%Z = Throw /\ ones (T:=Z) 1 2 = Ok (mkM 1 2 [1;1]%Z) /\ shape_ok 2 2.
Proof. repeat split. Qed.
Example C22_ex : to_matrix [1;2;3]%Z true = Ok (mkM 1 3 [1;2;3]%Z) /\ to_matrix [1;2;3]%Z false = Ok (mkM 3 1 [1;2;3]%Z) /\
  to_vector ex23 = Ok [1;2;3;4;5;6]%Z /\ ravel (vmb (PView (mkRange 0 2) (mkRange 1 3) Root) ex23) = Ok [2;3;5;6]%Z.
Proof. repeat split. Qed.
Example C23_ex : vstack (mb_of_mat ex23) (mb_of_mat (mkM 1 3 [7;8;9]%Z)) = Ok (mkM 3 3 [1;2;3;4;5;6;7;8;9]%Z) /\
  hstack (mb_of_mat ex23) (mb_of_mat (mkM 2 1 [7;8]%Z)) = Ok (mkM 2 4 [1;2;3;7;4;5;6;8]%Z) /\
  hstack_v (mb_of_mat ex23) [7;8]%Z = Ok (mkM 2 4 [1;2;3;7;4;5;6;8]%Z) /\ vstack_v (mb_of_mat ex23) [7;8]%Z = Throw /\
  concatenate [1;2]%Z [3]%Z = Ok [1;2;3]%Z /\ shape_ok (2 + 1) 3.
Proof. repeat split. Qed.
Example C24_ex : extract (mb_of_mat ex23) 0 9 1 3 = Ok (mkM 2 2 [2;3;5;6]%Z) /\ extract_row (mb_of_mat ex23) 1 1 9 = Ok [5;6]%Z /\
  extract_column (mb_of_mat ex23) 2 0 9 = Ok [3;6]%Z /\ extract (mb_of_mat ex23) 1 1 0 1 = Throw.
Proof. repeat split. Qed.
Example C25_ex : swap_rows (PView (mkRange 0 2) (mkRange 1 3) Root) 0 1 0 9 ex23 = Ok (mkM 2 3 [1;5;6;4;2;3]%Z) /\
  swap_cols Root 0 2 1 9 ex23 = Ok (mkM 2 3 [1;2;3;6;5;4]%Z) /\ vshape (PView (mkRange 0 2) (mkRange 1 3) Root) 2 3 = Some (2, 2).
Proof. repeat split. Qed.
Example C26_ex : remove_row ex23 0 = Ok (mkM 1 3 [4;5;6]%Z) /\ remove_column ex23 1 = Ok (mkM 2 2 [1;3;4;6]%Z) /\ remove_row ex23 2 = Throw.
Proof. repeat split. Qed.
Example C27_ex : is_symmetric (mb_of_mat (mkM 2 2 [1;2;2;5]%Z)) = Ok true /\ is_symmetric (mb_of_mat ex23) = Ok false /\
  is_lower_triangular (mb_of_mat (mkM 2 2 [1;0;2;5]%Z)) = Ok true /\ is_upper_triangular (mb_of_mat (mkM 2 2 [1;0;2;5]%Z)) = Ok false /\
  is_diagonal (mb_of_mat (mkM 2 2 [1;0;0;5]%Z)) = Ok true.
Proof. repeat split. Qed.
Example C28_ex : linspace 0%Z 10%Z 3 = Ok [0;5;10]%Z /\ linspace 10%Z 0%Z 4 = Ok [10;7;4;1]%Z /\ linspace 3%Z 3%Z 2 = Ok [3;3]%Z.
Proof. repeat split. Qed.
Example C29_ex : flatnonzero (mkM 2 2 [0;5;0;7]%Z) = Ok [1;3] /\ find (mkM 2 2 [0;5;0;7]%Z) 2 true = Ok (mkM 2 1 [1;3]).
Proof. repeat split. Qed.
Example C30_ex : compare (mb_of_mat (mkM 1 3 [1;2;3]%Z)) (mb_of_mat (mkM 1 3 [1;5;0]%Z)) = Ok (-1)%Z /\
  compare_v [1;5;0]%Z [1;2;3]%Z = Ok 1%Z.
Proof. repeat split. Qed.
Example C31_ex : all_close (mb_of_mat ex23) (mb_of_mat (mkM 2 3 [1;2;3;4;5;8]%Z)) 1%Z = Ok false /\
  all_close (mb_of_mat ex23) (mb_of_mat (mkM 2 3 [1;2;3;4;5;8]%Z)) 2%Z = Ok true.
Proof. repeat split. Qed.
Example C74_ex : logspace 10 Z.pow 0%Z 4%Z 3 10%Z = Ok [1;100;10000]%Z.
Proof. reflexivity. Qed.
Example C74_hyp_ex : exists n, (2 ^ 32 <= N.of_nat n)%N /\ fits n /\ forall fuel, logspace fuel Z.pow 0%Z 4%Z n 10%Z = Fuel.
Proof.
  destruct (ex_intro (fun n => N.of_nat n = 4294967297%N) (N.to_nat 4294967297) (N2Nat.id _)) as (n & E).
  exists n. split; [lia|]. assert (F : fits n) by (unfold fits, alloc_max; lia). split; auto.
  intros fuel. apply C74_logspace_never_ends; auto; try lia; cbn [odiv zops ofnat];
  rewrite (proj2 (Z.eqb_neq _ 0)) by lia; eauto.
Qed.
Example C75_ex : accumulate [1;2;3;4]%Z 1 3 10%Z = Ok 15%Z /\ inner_product [1;2;3]%Z [4;5;6]%Z 0 3 0 0%Z = Ok 32%Z.
Proof. repeat split. Qed.
Example C76_ex : rand_matrix (fun k => Z.of_nat k) 2 2 = Ok (mkM 2 2 [0;1;2;3]%Z, 4).
Proof. reflexivity. Qed.
