(** DetPlain.v: what the elimination of linalg::determinant (order 5 and above) computes,
    element by element, in any arithmetic. *)
From Verif Require Import LinalgFacts LinalgFacts2.
From Coq Require Import Lia Bool.

(** A row order made from the given one by exchanges of two rows; [true] after an odd number. *)
Inductive swaps (n : nat) : (nat -> nat) -> bool -> Prop :=
| swaps_none : swaps n (fun a => a) false
| swaps_more p b i k : swaps n p b -> i < k -> k < n -> swaps n (fun a => p (if a =? i then k else if a =? k then i else a)) (negb b).
Fixpoint flips (e : nat -> bool) (c : nat) : bool := match c with 0 => false | S c => xorb (e c) (flips e c) end.

Section Plain.
Context {T : Type} {O : Ops T}.
Variable q : T -> T -> T.
Hypothesis Hq : forall x d, odiv x d = Ok (q x d).
Variables (n : nat) (f : nat -> nat -> T).

Fixpoint dprod (e : nat -> bool) (U : nat -> nat -> T) (c : nat) : T :=
  match c with 0 => o1 | S c => omul (if e c then omul (dprod e U c) (oopp o1) else dprod e U c) (U c c) end.
Record elim (c : nat) (p : nat -> nat) (e : nat -> bool) (L U : nat -> nat -> T) : Prop := {
  el_swaps : swaps n p (flips e c);
  el_upper : forall i j, i < n -> j < n -> Nat.min i c <= j -> U i j = osubs (Nat.min i c) (f (p i) j) (fun t => omul (L i t) (U t j));
  el_lower : forall i t, i < n -> t < c -> t < i -> L i t = q (osubs t (f (p i) t) (fun s => omul (L i s) (U s t))) (U t t);
  el_pivot : forall t, t < c -> oisz (U t t) = false }.

Lemma elim_0 : elim 0 (fun i => i) (fun _ => false) (fun _ _ => o0) f.
Proof. split; try (intros; lia); [constructor|]. intros i j Hi Hj _. rewrite Nat.min_0_r. reflexivity. Qed.
Lemma dprod_ext e e' U U' c : (forall t, t < c -> e t = e' t) -> (forall t, t < c -> U t t = U' t t) -> dprod e U c = dprod e' U' c.
Proof. induction c as [|c IH]; intros H1 H2; [reflexivity|]. cbn [dprod]. rewrite IH, H1, H2 by auto. reflexivity. Qed.
Lemma flips_ext e e' c : (forall t, t < c -> e t = e' t) -> flips e c = flips e' c.
Proof. induction c as [|c IH]; intros H1; [reflexivity|]. cbn [flips]. rewrite IH, H1 by auto. reflexivity. Qed.

Definition upd {X} (g : nat -> X) (c : nat) (x : X) : nat -> X := fun t => if t =? c then x else g t.
Lemma upd_lt {X} (g : nat -> X) c x t : t < c -> upd g c x t = g t.
Proof. intros. unfold upd. destruct (Nat.eqb_spec t c); [lia|reflexivity]. Qed.
Lemma upd_eq {X} (g : nat -> X) c x : upd g c x c = x. Proof. unfold upd. now rewrite Nat.eqb_refl. Qed.

(** The exchange of rows c and k. *)
Definition tau (c k a : nat) : nat := if a =? c then k else if a =? k then c else a.
Lemma tau_lt c k a : a < c -> c < k -> tau c k a = a.
Proof. intros. unfold tau. destruct (Nat.eqb_spec a c); [lia|]. destruct (Nat.eqb_spec a k); [lia|reflexivity]. Qed.
Lemma tau_ge c k a : c <= a -> c < k -> c <= tau c k a.
Proof. intros. unfold tau. destruct (Nat.eqb_spec a c); [lia|]. destruct (Nat.eqb_spec a k); lia. Qed.
Lemma tau_n c k a : a < n -> c < k -> k < n -> tau c k a < n.
Proof. intros. unfold tau. destruct (Nat.eqb_spec a c); [lia|]. destruct (Nat.eqb_spec a k); lia. Qed.
Lemma tau_min c k a : c < k -> Nat.min (tau c k a) c = Nat.min a c.
Proof. intros H. destruct (Nat.lt_ge_cases a c) as [C|C]; [now rewrite tau_lt|]. pose proof (tau_ge c k a C H). lia. Qed.
Record swapped (c : nat) (p : nat -> nat) (b : bool) (e : nat -> bool) (L U : nat -> nat -> T) : Prop := {
  sw_swaps : swaps n p (xorb b (flips e c));
  sw_upper : forall i j, i < n -> j < n -> Nat.min i c <= j -> U i j = osubs (Nat.min i c) (f (p i) j) (fun t => omul (L i t) (U t j));
  sw_lower : forall i t, i < n -> t < c -> t < i -> L i t = q (osubs t (f (p i) t) (fun s => omul (L i s) (U s t))) (U t t);
  sw_pivot : forall t, t < c -> oisz (U t t) = false }.
Lemma elim_same c p e L U : elim c p e L U -> swapped c p false e L U.
Proof. intros [A B C D]. split; auto. now rewrite xorb_false_l. Qed.
Lemma elim_swap c k p e L U : elim c p e L U -> c < k -> k < n -> swapped c (fun a => p (tau c k a)) true e (fun i t => L (tau c k i) t) (fun i j => U (tau c k i) j).
Proof.
  intros [A B C D] Hck Hk. split.
  - rewrite xorb_true_l. apply (swaps_more n p _ c k A Hck Hk).
  - intros i j Hi Hj Hm. rewrite (B (tau c k i) j) by (auto using tau_n; rewrite tau_min by auto; auto). rewrite tau_min by auto.
    apply osubs_ext. intros t Ht. rewrite (tau_lt c k t) by lia. reflexivity.
  - intros i t Hi Ht Hti. rewrite (C (tau c k i) t); auto using tau_n.
    + rewrite (tau_lt c k t) by lia. f_equal. apply osubs_ext. intros s Hs. rewrite (tau_lt c k s) by lia. reflexivity.
    + destruct (Nat.lt_ge_cases i c) as [Q|Q]; [now rewrite tau_lt|]. pose proof (tau_ge c k i Q Hck). lia.
  - intros t Ht. rewrite tau_lt by lia. auto.
Qed.
(** One step of the elimination. *)
Lemma swapped_elim c p b e L U : swapped c p b e L U -> c < n -> oisz (U c c) = false ->
  elim (S c) p (upd e c b) (fun i t => if t =? c then q (U i c) (U c c) else L i t)
    (fun i j => if c <? i then osub (U i j) (omul (q (U i c) (U c c)) (U c j)) else U i j).
Proof.
  intros [A B C D] Hc Hz. split.
  - cbn [flips]. rewrite upd_eq, (flips_ext _ e) by (intros; now apply upd_lt). exact A.
  - intros i j Hi Hj Hm. destruct (Nat.ltb_spec c i) as [Q|Q].
    + replace (Nat.min i (S c)) with (S c) in * by lia. cbn [osubs]. rewrite Nat.eqb_refl. rewrite Nat.ltb_irrefl. f_equal. rewrite (B i j) by (auto; lia).
      replace (Nat.min i c) with c by lia. apply osubs_ext. intros t Ht. destruct (Nat.eqb_spec t c); [lia|]. destruct (Nat.ltb_spec c t); [lia|]. reflexivity.
    + replace (Nat.min i (S c)) with i in * by lia. rewrite (B i j) by (auto; lia). replace (Nat.min i c) with i by lia. apply osubs_ext. intros t Ht.
      destruct (Nat.eqb_spec t c); [lia|]. destruct (Nat.ltb_spec c t); [lia|]. reflexivity.
  - intros i t Hi Ht Hti. destruct (Nat.ltb_spec c t); [lia|]. destruct (Nat.eqb_spec t c) as [->|N].
    + f_equal. rewrite (B i c) by (auto; lia). replace (Nat.min i c) with c by lia. apply osubs_ext. intros s Hs. destruct (Nat.eqb_spec s c); [lia|]. destruct (Nat.ltb_spec c s); [lia|]. reflexivity.
    + rewrite (C i t) by (auto; lia). f_equal. apply osubs_ext. intros s Hs. destruct (Nat.eqb_spec s c); [lia|]. destruct (Nat.ltb_spec c s); [lia|]. reflexivity.
  - intros t Ht. destruct (Nat.ltb_spec c t); [lia|]. destruct (Nat.eq_dec t c) as [->|N]; [exact Hz|]. apply D. lia.
Qed.

Definition stuck (k : nat) (U : nat -> nat -> T) : Prop := k < n -> forall i, k <= i -> i < n -> oisz (U i k) = true.
Lemma det_loop_plain todo : forall c m F p e L U det, c + todo = n -> elim c p e L U -> is_mat m n n F ->
  (forall i j, c <= i -> i < n -> c <= j -> j < n -> F i j = U i j) -> det = dprod e U c ->
  exists k p e L U, k <= n /\ elim k p e L U /\ stuck k U /\ det_loop todo n c m det = Ok (dprod e U k).
Proof.
  induction todo as [|todo IH]; intros c m F p e L U det Hc He Hm HF Hd.
  - exists c, p, e, L, U. split; [lia|]. split; [exact He|]. split; [intros H; lia|]. now rewrite Hd.
  - assert (Hcn : c < n) by lia.
    assert (STEP : forall m' F' p' b L' U' det', is_mat m' n n F' -> (forall i j, c <= i -> i < n -> c <= j -> j < n -> F' i j = U' i j) -> swapped c p' b e L' U' ->
      det' = (if b then omul (dprod e U' c) (oopp o1) else dprod e U' c) -> oisz (U' c c) = false ->
      exists k p e L U, k <= n /\ elim k p e L U /\ stuck k U /\
      (let* pivot := mat_at m' c c in let* A := det_elim n c pivot m' in det_loop todo n (S c) A (omul det' pivot)) = Ok (dprod e U k)).
    { intros m' F' p' b L' U' det' Hm' HF' Hs Hd' Hz. rewrite (is_mat_at _ _ _ _ c c Hm') by auto. cbn [bind]. pose proof (swapped_elim c p' b e L' U' Hs Hcn Hz) as He'.
      destruct (det_elim_ok m' n F' c (F' c c) (fun r => q (F' r c) (F' c c)) Hm' Hcn) as (m2 & -> & H2); [intros; apply Hq|]. cbn [bind].
      eapply IH; [|exact He'|exact H2| |]; [lia| |].
      - intros i j Hi1 Hi2 Hj1 Hj2. cbv beta. destruct (Nat.ltb_spec c i); [|lia]. destruct (Nat.leb_spec c j); [|lia]. cbn [andb]. rewrite !HF' by lia. reflexivity.
      - cbn [dprod]. rewrite upd_eq, Nat.ltb_irrefl, HF' by lia. rewrite Hd'. rewrite (dprod_ext (upd e c b) e _ U'); [reflexivity|intros; now apply upd_lt|].
        intros t Ht. destruct (Nat.ltb_spec c t); [lia|reflexivity]. }
    cbn [det_loop]. destruct (det_pivot_ok m n F c det Hm Hcn) as [(Hz & ->)|[(k & m' & Hk1 & Hk2 & Hz & Hm' & ->)|(Hz & ->)]]; cbn [bind].
    + apply (STEP m F p false L U det); auto; [now apply elim_same|rewrite <- HF by lia; exact Hz].
    + apply (STEP m' (fswap c k F) (fun a => p (tau c k a)) true (fun i t => L (tau c k i) t) (fun i j => U (tau c k i) j)); auto.
      * intros i j Hi1 Hi2 Hj1 Hj2. unfold fswap. rewrite <- HF; auto using tau_ge, tau_n.
      * now apply elim_swap.
      * rewrite Hd. f_equal; apply dprod_ext; [auto|]. intros t Ht. rewrite tau_lt by lia. reflexivity.
      * unfold tau. rewrite Nat.eqb_refl. rewrite <- HF by lia. exact Hz.
    + exists c, p, e, L, U. split; [lia|]. split; [exact He|]. split; [|now rewrite Hd]. intros _ i Hi1 Hi2. rewrite <- HF by lia. now apply Hz.
Qed.
Theorem det_plain (A : MB T) : readsL A n n f -> 5 <= n ->
  exists k p e L U, k <= n /\ elim k p e L U /\ stuck k U /\ determinant A = Ok (dprod e U k).
Proof.
  intros HA Hn. destruct (mat_of_mb_ok A n n f HA) as (m & E & Hm). destruct HA as [(E1 & E2 & _) _].
  unfold determinant, is_square. rewrite E1, E2, Nat.eqb_refl. cbn [negb].
  destruct (Nat.eqb_spec n 1); [lia|]. destruct (Nat.eqb_spec n 2); [lia|]. destruct (Nat.eqb_spec n 3); [lia|]. destruct (Nat.eqb_spec n 4); [lia|].
  rewrite E. cbn [bind]. apply (det_loop_plain n 0 m f (fun i => i) (fun _ => false) (fun _ _ => o0) f o1); auto. apply elim_0.
Qed.
End Plain.
