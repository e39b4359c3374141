(** BaseFacts.v: lemmas about Base.v. *)
From Verif Require Export Base.
From Coq Require Import ZifyBool ZifyNat ZifyN.

#[global] Arguments Nat.ltb : simpl never.
#[global] Arguments Nat.leb : simpl never.
#[global] Arguments Nat.eqb : simpl never.
#[global] Arguments Nat.sub : simpl never.
#[global] Arguments Nat.div : simpl never.
#[global] Arguments Nat.modulo : simpl never.
#[global] Arguments Nat.min : simpl never.
#[global] Arguments mul64 : simpl never.
#[global] Arguments add64 : simpl never.
#[global] Arguments sub64 : simpl never.

Ltac inv H := inversion H; subst; clear H.

Lemma bind_ok {A B} (x : Res A) (f : A -> Res B) b :
  bind x f = Ok b -> exists a, x = Ok a /\ f a = Ok b.
Proof. destruct x; cbn; intros H; try discriminate. eauto. Qed.

(** size_t *)
Lemma wrap64_small n : (n < two64)%N -> wrap64 n = N.to_nat n.
Proof. intros H. unfold wrap64. rewrite N.mod_small; auto. Qed.
Lemma wrap64_lt n : is_size (wrap64 n).
Proof.
  unfold is_size, wrap64. rewrite N2Nat.id. apply N.mod_lt. discriminate.
Qed.
Lemma mul64_small a b : is_size (a * b) -> mul64 a b = a * b.
Proof.
  unfold is_size, mul64. intros H. rewrite wrap64_small; rewrite <- Nat2N.inj_mul; [apply Nat2N.id|exact H].
Qed.
Lemma add64_small a b : is_size (a + b) -> add64 a b = a + b.
Proof.
  unfold is_size, add64. intros H. rewrite wrap64_small; rewrite <- Nat2N.inj_add; [apply Nat2N.id|exact H].
Qed.
Lemma sub64_small a b : b <= a -> is_size a -> sub64 a b = a - b.
Proof.
  unfold is_size, sub64, wrap64. intros Hle Ha.
  rewrite (N.mod_small (N.of_nat b)) by lia.
  replace (N.of_nat a + (two64 - N.of_nat b))%N with (N.of_nat (a - b) + 1 * two64)%N by (unfold two64 in *; lia).
  rewrite N.mod_add by discriminate. rewrite N.mod_small by lia. lia.
Qed.
Lemma sub64_wraps a b : a < b -> is_size b -> N.of_nat (sub64 a b) = (two64 - (N.of_nat b - N.of_nat a))%N.
Proof.
  unfold is_size, sub64, wrap64. intros Hle Ha.
  rewrite (N.mod_small (N.of_nat b)) by lia.
  rewrite N.mod_small by (unfold two64 in *; lia).
  rewrite N2Nat.id. unfold two64 in *; lia.
Qed.
Lemma fits_size n : fits n -> is_size n.
Proof. unfold fits, is_size, alloc_max, two64. lia. Qed.
Lemma fits_le a b : a <= b -> fits b -> fits a.
Proof. unfold fits. lia. Qed.
Lemma size_le a b : a <= b -> is_size b -> is_size a.
Proof. unfold is_size. lia. Qed.
Lemma fitsb_spec n : fitsb n = true <-> fits n.
Proof. unfold fitsb, fits. apply N.ltb_lt. Qed.
Lemma fits_0 : fits 0. Proof. reflexivity. Qed.
Lemma fits_1 : fits 1. Proof. reflexivity. Qed.
#[global] Hint Resolve fits_0 fits_1 fits_size : core.

(** loops *)
Lemma for_n_inv {S} (P : nat -> S -> Prop) body n : forall lo s,
  P lo s ->
  (forall i s, lo <= i < lo + n -> P i s -> exists s', body i s = Ok s' /\ P (Datatypes.S i) s') ->
  exists s', for_n n lo body s = Ok s' /\ P (lo + n) s'.
Proof.
  induction n as [|n IH]; intros lo s H0 Hs; cbn.
  - exists s. rewrite Nat.add_0_r. auto.
  - destruct (Hs lo s) as (s1 & E & P1); [lia|auto|]. rewrite E. cbn.
    destruct (IH (Datatypes.S lo) s1 P1) as (s2 & E2 & P2).
    + intros i si Hi. apply Hs. lia.
    + exists s2. split; [exact E2|]. replace (lo + Datatypes.S n) with (Datatypes.S lo + n) by lia. exact P2.
Qed.

(** Main loop rule: [P i] holds before iteration [i]. *)
Lemma for_range_inv {S} (P : nat -> S -> Prop) lo hi body s :
  lo <= hi -> P lo s ->
  (forall i s, lo <= i < hi -> P i s -> exists s', body i s = Ok s' /\ P (Datatypes.S i) s') ->
  exists s', for_range lo hi body s = Ok s' /\ P hi s'.
Proof.
  intros Hl H0 Hs. unfold for_range.
  destruct (for_n_inv P body (hi - lo) lo s H0) as (s' & E & H').
  - intros i si Hi. apply Hs. lia.
  - exists s'. split; auto. replace hi with (lo + (hi - lo)) by lia. exact H'.
Qed.
Lemma for_range_empty {S} lo hi (body : nat -> S -> Res S) s : hi <= lo -> for_range lo hi body s = Ok s.
Proof. intros H. unfold for_range. replace (hi - lo) with 0 by lia. reflexivity. Qed.
Lemma for_range_first {S} lo hi (body : nat -> S -> Res S) s :
  lo < hi -> for_range lo hi body s = (let* s' := body lo s in for_range (Datatypes.S lo) hi body s').
Proof.
  intros H. unfold for_range. destruct (hi - lo) as [|n] eqn:E; [lia|]. cbn.
  replace (hi - Datatypes.S lo) with n by lia. reflexivity.
Qed.
Lemma for_n_app {S} (body : nat -> S -> Res S) n m : forall lo s,
  for_n (n + m) lo body s = (let* s' := for_n n lo body s in for_n m (lo + n) body s').
Proof.
  induction n as [|n IH]; intros lo s; cbn.
  - rewrite Nat.add_0_r. reflexivity.
  - destruct (body lo s); cbn; auto. rewrite IH. replace (Datatypes.S lo + n) with (lo + Datatypes.S n) by lia. reflexivity.
Qed.
Lemma for_range_last {S} lo hi (body : nat -> S -> Res S) s :
  lo <= hi -> for_range lo (Datatypes.S hi) body s = (let* s' := for_range lo hi body s in body hi s').
Proof.
  intros H. unfold for_range. replace (Datatypes.S hi - lo) with ((hi - lo) + 1) by lia.
  rewrite for_n_app. destruct (for_n (hi - lo) lo body s); cbn; auto.
  replace (lo + (hi - lo)) with hi by lia. destruct (body hi a); reflexivity.
Qed.
Lemma for_n_ext {S} (b1 b2 : nat -> S -> Res S) n : forall lo s,
  (forall i s, lo <= i < lo + n -> b1 i s = b2 i s) -> for_n n lo b1 s = for_n n lo b2 s.
Proof.
  induction n as [|n IH]; intros lo s H; cbn; auto.
  rewrite H by lia. destruct (b2 lo s); cbn; auto. apply IH. intros; apply H; lia.
Qed.
Lemma for_range_ext {S} (b1 b2 : nat -> S -> Res S) lo hi s :
  (forall i s, lo <= i < hi -> b1 i s = b2 i s) -> for_range lo hi b1 s = for_range lo hi b2 s.
Proof. intros H. apply for_n_ext. intros; apply H; lia. Qed.

Lemma all_n_spec (p : nat -> bool) test n : forall lo,
  (forall i, lo <= i < lo + n -> test i = Ok (p i)) ->
  exists b, all_n n lo test = Ok b /\ (b = true <-> forall i, lo <= i < lo + n -> p i = true).
Proof.
  induction n as [|n IH]; intros lo H; cbn.
  - exists true. split; auto. split; auto; intros; lia.
  - rewrite H by lia. cbn. destruct (p lo) eqn:E.
    + destruct (IH (S lo)) as (b & Eb & Hb); [intros; apply H; lia|].
      exists b. split; auto. rewrite Hb. split; intros Hx i Hi.
      * destruct (Nat.eq_dec i lo); [congruence|apply Hx; lia].
      * apply Hx; lia.
    + exists false. split; auto. split; [discriminate|]. intros Hx. rewrite <- E. apply Hx. lia.
Qed.
Lemma all_range_spec (p : nat -> bool) test lo hi :
  (forall i, lo <= i < hi -> test i = Ok (p i)) ->
  exists b, all_range lo hi test = Ok b /\ (b = true <-> forall i, lo <= i < hi -> p i = true).
Proof.
  intros H. destruct (all_n_spec p test (hi - lo) lo) as (b & E & Hb).
  - intros; apply H; lia.
  - exists b. split; auto. rewrite Hb. split; intros Hx i Hi; apply Hx; lia.
Qed.

Lemma first_n_spec {A} (p : nat -> option A) f n : forall lo,
  (forall i, lo <= i < lo + n -> f i = Ok (p i)) ->
  (exists k a, lo <= k < lo + n /\ p k = Some a /\ (forall i, lo <= i < k -> p i = None) /\ first_n n lo f = Ok (Some a))
  \/ ((forall i, lo <= i < lo + n -> p i = None) /\ first_n n lo f = Ok None).
Proof.
  induction n as [|n IH]; intros lo H; cbn.
  - right. split; auto. intros; lia.
  - rewrite H by lia. cbn. destruct (p lo) as [a|] eqn:E.
    + left. exists lo, a. repeat split; auto; try lia; intros; lia.
    + destruct (IH (S lo)) as [(k & a & Hk & Hp & Hb & Ef)|[Hn Ef]]; [intros; apply H; lia| |].
      * left. exists k, a. repeat split; auto; try lia. intros i Hi. destruct (Nat.eq_dec i lo); [congruence|apply Hb; lia].
      * right. split; auto. intros i Hi. destruct (Nat.eq_dec i lo); [congruence|apply Hn; lia].
Qed.
Lemma first_range_spec {A} (p : nat -> option A) f lo hi :
  (forall i, lo <= i < hi -> f i = Ok (p i)) ->
  (exists k a, lo <= k < hi /\ p k = Some a /\ (forall i, lo <= i < k -> p i = None) /\ first_range lo hi f = Ok (Some a))
  \/ ((forall i, lo <= i < hi -> p i = None) /\ first_range lo hi f = Ok None).
Proof.
  intros H. unfold first_range. destruct (first_n_spec p f (hi - lo) lo) as [(k & a & Hk & Hp & Hb & Ef)|[Hn Ef]].
  - intros; apply H; lia.
  - left. exists k, a. repeat split; auto; lia.
  - right. split; auto. intros; apply Hn; lia.
Qed.

(** buffers *)
Lemma upd_length {A} (l : list A) i v : length (upd l i v) = length l.
Proof. revert i; induction l as [|h t IH]; intros [|i]; cbn; auto. Qed.
Lemma upd_same {A} (l : list A) i v : i < length l -> nth_error (upd l i v) i = Some v.
Proof. revert i; induction l as [|h t IH]; intros [|i]; cbn; intros H; auto; try lia. apply IH; lia. Qed.
Lemma upd_other {A} (l : list A) i k v : i <> k -> nth_error (upd l i v) k = nth_error l k.
Proof. revert i k; induction l as [|h t IH]; intros [|i] [|k] H; cbn; auto; try lia. Qed.
Lemma upd_nth_error {A} (l : list A) i k v : i < length l ->
  nth_error (upd l i v) k = if k =? i then Some v else nth_error l k.
Proof.
  intros H. destruct (Nat.eqb_spec k i) as [->|N]; [apply upd_same; auto|apply upd_other; auto].
Qed.
Lemma lset_ok {A} (l : list A) i v : i < length l -> lset l i v = Ok (upd l i v).
Proof. intros H. unfold lset. destruct (Nat.ltb_spec i (length l)); auto; lia. Qed.
Lemma lset_ub {A} (l : list A) i v : length l <= i -> lset l i v = UB.
Proof. intros H. unfold lset. destruct (Nat.ltb_spec i (length l)); auto; lia. Qed.
Lemma lget_ok {A} (l : list A) i a : nth_error l i = Some a -> lget l i = Ok a.
Proof. unfold lget. intros ->. reflexivity. Qed.
Lemma lget_ub {A} (l : list A) i : length l <= i -> lget l i = UB.
Proof. unfold lget. intros H. apply nth_error_None in H. rewrite H. reflexivity. Qed.
Lemma lget_inv {A} (l : list A) i a : lget l i = Ok a -> nth_error l i = Some a.
Proof. unfold lget. destruct (nth_error l i); congruence. Qed.
Lemma list_ext {A} (l1 l2 : list A) :
  length l1 = length l2 -> (forall i, i < length l1 -> nth_error l1 i = nth_error l2 i) -> l1 = l2.
Proof.
  revert l2; induction l1 as [|a l1 IH]; intros [|b l2] HL H; cbn in *; try lia; auto.
  assert (H0 := H 0 ltac:(lia)). cbn in H0. inv H0. f_equal. apply IH; [lia|].
  intros i Hi. apply (H (S i)). lia.
Qed.
Lemma nth_error_lt {A} (l : list A) i : i < length l -> exists a, nth_error l i = Some a.
Proof. intros H. destruct (nth_error l i) eqn:E; eauto. apply nth_error_None in E. lia. Qed.
Lemma nth_error_repeat_lt {A} (x : A) n i : i < n -> nth_error (repeat x n) i = Some x.
Proof. revert i; induction n as [|n IH]; intros [|i] H; cbn; auto; try lia. apply IH; lia. Qed.
Lemma nth_error_seq lo n i : i < n -> nth_error (seq lo n) i = Some (lo + i).
Proof.
  revert lo i; induction n as [|n IH]; intros lo [|i] H; cbn; try lia; auto.
  rewrite IH by lia. f_equal; lia.
Qed.
