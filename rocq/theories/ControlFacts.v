(** ControlFacts.v: lemmas about control.hpp for any element type. *)
From Verif Require Import Control ControlSpec MathFacts UtilFacts UtilFacts2 ViewFacts ViewFacts2 PropMatrix PropUtil PropMath.
Arguments Nat.ltb : simpl never.
Arguments Nat.leb : simpl never.
Arguments Nat.eqb : simpl never.

Section Facts.
Context {T : Type} {O : Ops T}.

(** * poly of roots *)
(** coefficient i after the roots a 0 .. a (j-1) *)
Fixpoint pcoef (a : nat -> T) (j i : nat) : T :=
  match j with
  | 0 => if i =? 0 then o1 else o0
  | S j => match i with
           | 0 => pcoef a j 0
           | S i' => if S i' <=? S j then osub (pcoef a j (S i')) (omul (a j) (pcoef a j i')) else pcoef a j (S i')
           end
  end.
Lemma poly_loop_ok n (g : nat -> Res T) (a : nat -> T) c : (forall j, j < n -> g j = Ok (a j)) ->
  is_vec c (n + 1) (pcoef a 0) -> exists d, poly_loop n g c = Ok d /\ is_vec d (n + 1) (pcoef a n).
Proof.
  intros Hg Hc. unfold poly_loop.
  destruct (for_range_inv (fun j c => is_vec c (n + 1) (pcoef a j)) 0 n (fun j c =>
    for_range 0 (S j) (fun k c => let i := S j - k in
      let* x := lget c i in let* aj := g j in let* y := lget c (i - 1) in lset c i (osub x (omul aj y))) c) c) as (d & E & Q); [lia|exact Hc| |eauto].
  intros j s Hj Hs.
  destruct (for_range_inv (fun k d => is_vec d (n + 1) (fun i => if S j - k <? i then pcoef a (S j) i else pcoef a j i)) 0 (S j) (fun k c => let i := S j - k in
      let* x := lget c i in let* aj := g j in let* y := lget c (i - 1) in lset c i (osub x (omul aj y))) s) as (d & E & Q); [lia| | |].
  - eapply is_vec_ext; [exact Hs|]. intros i Hi. destruct (Nat.ltb_spec (S j - 0) i); auto. cbn [pcoef]. destruct i; [lia|]. nb.
  - intros k t Hk Ht. cbv zeta. rewrite (is_vec_get _ _ _ _ Ht) by lia. cbn [bind]. rewrite Hg by lia. cbn [bind].
    rewrite (is_vec_get _ _ _ _ Ht) by lia. cbn [bind]. rewrite lset_ok by (rewrite (is_vec_list _ _ _ Ht); lia).
    eexists. split; [reflexivity|]. destruct Ht as (Q1 & Q2 & Q3). split; [rewrite upd_length; auto|]. split; auto.
    intros i Hi. rewrite upd_nth_error by lia. destruct (Nat.eqb_spec i (S j - k)) as [->|N].
    + destruct (Nat.ltb_spec (S j - k) (S j - k)); [lia|]. destruct (Nat.ltb_spec (S j - k) (S j - k - 1)); [lia|].
      destruct (Nat.ltb_spec (S j - S k) (S j - k)); [|lia]. cbn [pcoef]. destruct (S j - k) as [|i'] eqn:Ei; [lia|].
      replace (S i' - 1) with i' by lia. destruct (Nat.leb_spec (S i') (S j)); [reflexivity|lia].
    + rewrite Q3 by auto. destruct (Nat.ltb_spec (S j - k) i); destruct (Nat.ltb_spec (S j - S k) i); auto; lia.
  - exists d. split; auto. eapply is_vec_ext; [exact Q|]. intros i Hi. cbn beta. destruct (Nat.ltb_spec (S j - S j) i); auto.
    destruct i; [reflexivity|lia].
Qed.
Lemma vec_set_one n : fits (n + 1) -> exists c, (let* c := vec_new (add64 n 1) in lset c 0 o1) = Ok c /\ is_vec (T:=T) c (n + 1) (fun i => if i =? 0 then o1 else o0).
Proof.
  intros F. rewrite add64_small by auto. rewrite vec_new_ok by auto. cbn [bind]. rewrite lset_ok by (rewrite repeat_length; lia).
  eexists. split; [reflexivity|]. split; [rewrite upd_length, repeat_length; auto|]. split; auto.
  intros i Hi. rewrite upd_nth_error by (rewrite repeat_length; lia). destruct (i =? 0); auto. apply nth_error_repeat_lt; auto.
Qed.
Lemma bind_assoc {A B C} (x : Res A) (f : A -> Res B) (g : B -> Res C) : (let* y := (let* a := x in f a) in g y) = (let* a := x in let* y := f a in g y).
Proof. destruct x; reflexivity. Qed.
Lemma poly_v_ok a n f : is_vec a n f -> fits (n + 1) -> exists d, poly_v a = Ok d /\ is_vec d (n + 1) (pcoef f n).
Proof.
  intros Ha F. unfold poly_v. rewrite (is_vec_list _ _ _ Ha). destruct (vec_set_one n F) as (c & E & Hc). rewrite <- bind_assoc, E. cbn [bind].
  apply poly_loop_ok; auto. intros j Hj. apply (is_vec_get _ _ _ _ Ha Hj).
Qed.
Lemma poly_m_vec A r c f : readsL A r c f -> r = 1 \/ c = 1 -> 0 < r * c -> fits (r * c + 1) ->
  exists d, poly_m A = Ok d /\ is_vec d (r * c + 1) (pcoef (fun k => f (k / c) (k mod c)) (r * c)).
Proof.
  intros ((Ar & Ac & Az & As & Ag) & Al) Hv Hp F. unfold poly_m. rewrite Az, Ar, Ac. destruct (Nat.eqb_spec (r * c) 0); [lia|].
  assert ((r =? 1) || (c =? 1) = true) as ->. { destruct Hv as [->| ->]; [reflexivity|apply orb_true_r]. }
  destruct (vec_set_one (r * c) F) as (d & E & Hd). rewrite <- bind_assoc, E. cbn [bind]. apply poly_loop_ok; auto.
Qed.

(** * polyreduce *)
Lemma vec_of_list_id (l : list T) : fits (length l) -> vec_of_list l = Ok l.
Proof.
  exact (vec_of_list_ok l).
Qed.
Lemma polyreduce_ok (a : list T) : fits (length a) ->
  (exists k, k < length a /\ (forall i x, i < k -> nth_error a i = Some x -> oeq x o0 = true) /\
     (forall x, nth_error a k = Some x -> oeq x o0 = false) /\ polyreduce a = Ok (skipn k a)) \/
  ((forall x, In x a -> oeq x o0 = true) /\ polyreduce a = Ok [o0]).
Proof.
  intros F. unfold polyreduce.
  set (p := fun j => match nth_error a j with Some x => if negb (oeq x o0) then Some j else None | None => None end).
  destruct (first_range_spec p (fun j => let* x := lget a j in Ok (if negb (oeq x o0) then Some j else None)) 0 (length a)) as [(k & b & Hk & Pk & Hb & E)|(Hn & E)].
  - intros i Hi. destruct (nth_error_lt a i) as (x & Ex); [lia|]. unfold p. rewrite Ex, (lget_ok _ _ _ Ex). reflexivity.
  - left. destruct (nth_error_lt a k) as (x & Ex); [lia|]. unfold p in Pk. rewrite Ex in Pk. destruct (oeq x o0) eqn:Ez; [discriminate|]. cbn in Pk.
    injection Pk as <-. exists k. split; [lia|]. split; [|split].
    + intros i y Hi Ey. specialize (Hb i ltac:(lia)). unfold p in Hb. rewrite Ey in Hb. destruct (oeq y o0); auto; discriminate.
    + intros y Ey. congruence.
    + rewrite E. cbn [bind]. destruct (Nat.eqb_spec k (length a)); [lia|]. assert (Fs : is_size (length a)) by auto.
      rewrite sub64_small by (auto; lia). rewrite vec_new_ok by (apply (fits_le _ (length a)); auto; lia). cbn [bind].
      destruct (for_range_inv (fun i d => length d = length a - k /\ forall t, t < i - k -> nth_error d t = nth_error a (k + t)) k (length a)
        (fun i c => let* x := lget a i in lset c (sub64 i k) x) (repeat o0 (length a - k))) as (d & Ed & Ld & Qd); [lia| | |].
      * rewrite repeat_length. split; auto. intros t Ht. lia.
      * intros i d Hi (Ld & Qd). destruct (nth_error_lt a i) as (y & Ey); [lia|]. rewrite (lget_ok _ _ _ Ey). cbn [bind].
        rewrite sub64_small by (try lia; apply (size_le _ (length a)); auto; lia). rewrite lset_ok by lia. eexists. split; [reflexivity|].
        rewrite upd_length. split; auto. intros t Ht. rewrite upd_nth_error by lia. destruct (Nat.eqb_spec t (i - k)) as [->|Nt].
        { rewrite <- Ey. f_equal. lia. } { apply Qd. lia. }
      * rewrite Ed. f_equal. apply list_ext; [rewrite skipn_length; auto|]. intros i Hi. rewrite Qd by lia. symmetry. apply nth_error_skipn.
  - right. split.
    + intros x Hx. apply In_nth_error in Hx. destruct Hx as (i & Ei). assert (i < length a) by (apply nth_error_Some; congruence).
      specialize (Hn i ltac:(lia)). unfold p in Hn. rewrite Ei in Hn. destruct (oeq x o0); auto; discriminate.
    + rewrite E. cbn [bind]. rewrite Nat.eqb_refl. apply vec_of_list_id. apply fits_1.
Qed.

(** * simulate *)
Lemma is_vec_nthE (l : list T) n f : is_vec l n f -> forall d i, i < n -> nth i l d = f i.
Proof. intros (L & F & H) d i Hi. apply nth_error_nth. auto. Qed.
Lemma dot_ok' A r c fa b fb : reads A r c fa -> is_vec b c fb -> fits r ->
  exists d, dot_mv A b = Ok d /\ is_vec d r (fun i => osum c (fun k => omul (fa i k) (fb k))).
Proof.
  intros HA Hb Fr. destruct (m_mulv_ok A r c fa b HA) with (dflt := o0 : T) as (d & E & Q); auto.
  { destruct Hb as (-> & _). auto. }
  exists d. split; auto. eapply is_vec_ext; [exact Q|]. intros i Hi. cbn beta. apply osum_ext. intros k Hk. rewrite (is_vec_nthE _ _ _ Hb); auto.
Qed.
Lemma simulate_step_ok sys x u n m p fA fB fC fD fx fu :
  is_mat (sA (dsys sys)) n n fA -> is_mat (sB (dsys sys)) n m fB -> is_mat (sC (dsys sys)) p n fC -> is_mat (sD (dsys sys)) p m fD ->
  is_vec x n fx -> is_vec u m fu -> fits p ->
  exists x' y, simulate_step sys x u = Ok (x', y) /\
    is_vec x' n (fun i => oadd (osum n (fun j => omul (fA i j) (fx j))) (osum m (fun j => omul (fB i j) (fu j)))) /\
    is_vec y p (fun i => oadd (osum n (fun j => omul (fC i j) (fx j))) (osum m (fun j => omul (fD i j) (fu j)))).
Proof.
  intros HA HB HC HD Hx Hu Fp. assert (Fn : fits n) by apply Hx. unfold simulate_step.
  destruct (dot_ok' _ n n fA x fx (is_mat_reads _ _ _ _ HA) Hx Fn) as (ax & E1 & Q1). rewrite E1. cbn [bind].
  destruct (dot_ok' _ n m fB u fu (is_mat_reads _ _ _ _ HB) Hu Fn) as (bu & E2 & Q2). rewrite E2. cbn [bind].
  destruct (C32_vec_add ax bu n _ n _ Q1 Q2) as (_ & G). destruct (G eq_refl) as (x' & E3 & Q3). rewrite E3. cbn [bind].
  destruct (dot_ok' _ p n fC x fx (is_mat_reads _ _ _ _ HC) Hx Fp) as (cx & E4 & Q4). rewrite E4. cbn [bind].
  destruct (dot_ok' _ p m fD u fu (is_mat_reads _ _ _ _ HD) Hu Fp) as (du & E5 & Q5). rewrite E5. cbn [bind].
  destruct (C32_vec_add cx du p _ p _ Q4 Q5) as (_ & G'). destruct (G' eq_refl) as (y & E6 & Q6). rewrite E6. cbn [bind]. eauto.
Qed.
Lemma simulate_ok trunc sys u tm q K init n m p fA fB fC fD fx fu :
  is_mat (sA (dsys sys)) n n fA -> is_mat (sB (dsys sys)) n m fB -> is_mat (sC (dsys sys)) p n fC -> is_mat (sD (dsys sys)) p m fD ->
  is_vec init n fx -> inputs u m fu -> fits p -> odiv tm (sample_time sys) = Ok q -> trunc q = Ok K ->
  let steps := Nat.min (length u) K in
  exists t x y, simulate trunc sys u tm init = Ok (t, x, y) /\ length t = S steps /\ length x = S steps /\ length y = steps /\
    (forall k, k <= steps -> exists xk, nth_error x k = Some xk /\ is_vec xk n (traj n m fA fB fu fx k)) /\
    (forall k, k < steps -> exists yk, nth_error y k = Some yk /\ is_vec yk p (outp n m fA fB fC fD fu fx k)) /\
    (forall k, k < steps -> nth_error t k = Some (ntimes (sample_time sys) k)) /\ nth_error t steps = Some o0.
Proof.
  intros HA HB HC HD Hx Hu Fp Hq HK steps. unfold simulate. rewrite Hq. cbn [bind]. rewrite HK. cbn [bind]. fold steps.
  set (body := fun i (s : list T * list (list T) * list (list T) * T) => _).
  destruct (for_range_inv (fun i (s : list T * list (list T) * list (list T) * T) =>
    let '(t, x, y, rt) := s in length t = S steps /\ length x = S i /\ length y = i /\
    (forall k, k <= i -> exists xk, nth_error x k = Some xk /\ is_vec xk n (traj n m fA fB fu fx k)) /\
    (forall k, k < i -> exists yk, nth_error y k = Some yk /\ is_vec yk p (outp n m fA fB fC fD fu fx k)) /\
    (forall k, k < S steps -> nth_error t k = Some (if k <? i then ntimes (sample_time sys) k else o0)) /\ rt = ntimes (sample_time sys) i)
    0 steps body (repeat o0 (steps + 1), [init], nil, o0)) as ((((t & x) & y) & rt) & E & Q); [lia| | |].
  - rewrite repeat_length. split; [lia|]. split; auto. split; auto. split.
    { intros k Hk. assert (k = 0) by lia. subst. exists init. auto. } split. { intros k Hk. lia. }
    split; auto. intros k Hk. rewrite nth_error_repeat_lt by lia. reflexivity.
  - intros i (((t & x) & y) & rt) Hi (L1 & L2 & L3 & Qx & Qy & Qt & ->). unfold body. rewrite lset_ok by lia. cbn [bind].
    rewrite L2. destruct (Qx i) as (xi & Exi & Vxi); [lia|]. replace (S i - 1) with i by lia. rewrite (lget_ok _ _ _ Exi). cbn [bind].
    destruct (nth_error_lt u i) as (ui & Eui). { unfold steps in Hi. lia. } rewrite (lget_ok _ _ _ Eui). cbn [bind].
    destruct (simulate_step_ok sys xi ui n m p fA fB fC fD _ _ HA HB HC HD Vxi (Hu _ _ Eui) Fp) as (x' & y' & -> & Vx & Vy). cbn [bind].
    eexists. split; [reflexivity|]. cbv beta iota. rewrite upd_length, !app_length. cbn [length]. split; auto. split; [lia|]. split; [lia|]. split; [|split; [|split]].
    + intros k Hk. destruct (Nat.eq_dec k (S i)) as [->|N].
      { exists x'. split; [|exact Vx]. rewrite nth_error_app2 by lia. replace (S i - length x) with 0 by lia. reflexivity. }
      { destruct (Qx k) as (xk & E1 & E2); [lia|]. exists xk. split; auto. rewrite nth_error_app1 by lia. auto. }
    + intros k Hk. destruct (Nat.eq_dec k i) as [->|N].
      { exists y'. split; [|exact Vy]. rewrite nth_error_app2 by lia. replace (i - length y) with 0 by lia. reflexivity. }
      { destruct (Qy k) as (yk & E1 & E2); [lia|]. exists yk. split; auto. rewrite nth_error_app1 by lia. auto. }
    + intros k Hk. rewrite upd_nth_error by lia. destruct (Nat.eqb_spec k i) as [->|N]; [nb|]. rewrite Qt by auto. nb.
    + reflexivity.
  - rewrite E. cbn [bind]. destruct Q as (L1 & L2 & L3 & Qx & Qy & Qt & _). exists t, x, y. split; auto. split; auto. split; auto. split; auto.
    split; auto. split; auto. split.
    + intros k Hk. rewrite Qt by lia. nb.
    + rewrite Qt by lia. nb.
Qed.
End Facts.

Section Move.
Context {T : Type} {O : Ops T}.
Lemma move_assign_ok (m h : Matrix T) r c f r' c' g : is_mat m r c f -> is_mat h r' c' g -> 0 < r' * c' \/ (r = r' /\ c = c') ->
  is_mat (fst (mat_move_assign m h)) r' c' g.
Proof.
  intros Hm Hh H. assert (Hh' := Hh). destruct Hh' as (Er & Ec & Es & El & En). unfold mat_move_assign. rewrite Er, Ec, mul64_small by (apply shape_size; auto).
  destruct (Nat.eqb_spec (r' * c') 0) as [E|E]; cbn [fst].
  - destruct H as [H|(-> & ->)]; [lia|]. eapply is_mat_ext; [exact Hm|]. intros i j Hi Hj. exfalso. destruct r'; [lia|]. destruct c'; [lia|]. cbn in E. lia.
  - destruct h; cbn in *; subst; exact Hh.
Qed.
Lemma ctrb_throw (A B : MB T) : mrows A <> mcols A \/ mrows A <> mrows B -> ctrb A B = Throw.
Proof. unfold ctrb, is_square. intros [H|H]; repeat match goal with |- context [?a =? ?b] => destruct (Nat.eqb_spec a b) end; cbn; auto; congruence. Qed.
Lemma obsv_throw (A C : MB T) : mrows A <> mcols A \/ mrows A <> mcols C -> obsv A C = Throw.
Proof. unfold obsv, is_square. intros [H|H]; repeat match goal with |- context [?a =? ?b] => destruct (Nat.eqb_spec a b) end; cbn; auto; congruence. Qed.
Lemma block_div k j q : j < q -> (k * q + j) / q = k /\ (k * q + j) mod q = j.
Proof.
  intros H. assert (q <> 0) by lia. rewrite (Nat.add_comm (k * q)), Nat.div_add, Nat.div_small, Nat.mod_add, Nat.mod_small by auto. lia.
Qed.
Lemma sub_blk x b q : x <= b -> b < x + q -> b - x < q.
Proof. lia. Qed.
Lemma sub_add x b : x <= b -> b = x + (b - x).
Proof. lia. Qed.
Lemma shape_le r c c' : c' <= c -> shape_ok r c -> shape_ok r c'.
Proof. intros H (H1 & H2 & H3). split; auto. split; [apply (size_le _ c); auto|]. apply (fits_le _ (r * c)); auto. apply Nat.mul_le_mono_l; auto. Qed.
Lemma shape_le' r r' c : r' <= r -> shape_ok r c -> shape_ok r' c.
Proof. intros H (H1 & H2 & H3). split; [apply (size_le _ r); auto|]. split; auto. apply (fits_le _ (r * c)); auto. apply Nat.mul_le_mono_r; auto. Qed.
End Move.
