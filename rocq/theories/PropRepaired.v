(** PropRepaired.v: C100, the small templates that do not compile, once repaired (Repaired.v). *)
From Coq Require Import String.
From Verif Require Import Repaired Scalar Util MathM MathFacts Linalg LinalgFacts IO IOSpec IOFacts PropUtil PropMath PropIO PropIO2.
From Coq Require Import Ascii ZArith Lia List.
Import ListNotations.
Local Open Scope nat_scope.

Section Generic.
Context {T : Type} {O : Ops T}.
(** [==] decides equality (integers, exact fields). *)
Variable Heq : forall x y : T, oeq x y = true <-> x = y.

Theorem C100_is_zero : forall A r c f, readsL A r c f ->
  exists b, is_zero A = Ok b /\ (b = true <-> forall i j, i < r -> j < c -> f i j = o0).
Proof.
  intros A r c f ((_ & _ & Hz & _) & Hl). unfold is_zero. rewrite Hz.
  destruct (all_range_spec (fun k => oeq (f (k / c) (k mod c)) o0) (fun i => let* x := mlin A i in Ok (oeq x o0)) 0 (r * c)) as (b & E & Hb).
  - intros i Hi. rewrite Hl by lia. reflexivity.
  - exists b. split; auto. rewrite Hb. split.
    + intros H i j Hi Hj. specialize (H (i * c + j)). rewrite idx_div, idx_mod in H by auto. apply Heq, H. assert (i * c + j < r * c) by (apply idx_lt; auto). lia.
    + intros H k Hk. apply Heq, H; [eapply div_lt_rc|eapply mod_lt_rc]; apply Hk.
Qed.
Theorem C100_is_constant : forall A r c f, readsL A r c f ->
  exists b, is_constant A = Ok b /\ (b = true <-> forall i j i' j', i < r -> j < c -> i' < r -> j' < c -> f i j = f i' j').
Proof.
  intros A r c f ((_ & _ & Hz & _) & Hl). unfold is_constant. rewrite Hz. set (g := fun k => f (k / c) (k mod c)).
  destruct (all_range_spec (fun k => oeq (g k) (g (S k))) (fun i => let* x := mlin A i in let* y := mlin A (S i) in Ok (oeq x y)) 0 (r * c - 1)) as (b & E & Hb).
  - intros i Hi. rewrite !Hl by lia. reflexivity.
  - exists b. split; auto. rewrite Hb. split.
    + intros H. assert (G : forall k, k < r * c -> g k = g 0).
      { induction k as [|k IH]; intros Hk; [reflexivity|]. rewrite <- IH by lia. symmetry. apply Heq, H. lia. }
      intros i j i' j' Hi Hj Hi' Hj'. pose proof (G _ (idx_lt _ _ _ _ Hi Hj)) as G1. pose proof (G _ (idx_lt _ _ _ _ Hi' Hj')) as G2. change (f ((i * c + j) / c) ((i * c + j) mod c) = g 0) in G1. change (f ((i' * c + j') / c) ((i' * c + j') mod c) = g 0) in G2. rewrite idx_div, idx_mod in G1, G2 by auto. congruence.
    + intros H k Hk. apply Heq. assert (K1 : k < r * c) by lia. assert (K2 : S k < r * c) by lia. apply H; first [eapply div_lt_rc|eapply mod_lt_rc]; eassumption.
Qed.
Lemma eq_all A r c f B g : readsL A r c f -> readsL B r c g ->
  exists E b, m_eq A B = Ok E /\ all_m (mb_of_mat E) = Ok b /\ (b = true <-> forall i j, i < r -> j < c -> ofeq (f i j) (g i j) = true).
Proof.
  intros HA HB. destruct C36_compare as (C & _). destruct (C A B r c f r c g HA HB) as (_ & Q). destruct (Q eq_refl eq_refl) as (E & E1 & HE).
  destruct (C37_all (mb_of_mat E) r c _ (is_mat_readsL _ _ _ _ HE)) as (b & E2 & Hb). exists E, b. split; auto. split; auto. rewrite Hb. split; intros H i j Hi Hj; specialize (H i j Hi Hj).
  - destruct (ofeq (f i j) (g i j)); auto.
  - rewrite H. reflexivity.
Qed.
(** The comparison is that of operator==: equality for integers, approximate equality for
    floating point.  A matrix that is not square is not the identity; the one without elements
    throws. *)
Theorem C100_is_identity : forall A r c f, readsL A r c f ->
  (r <> c -> is_identity A = Ok false) /\
  (r = c -> r = 0 -> is_identity A = Throw) /\
  (r = c -> 0 < r -> exists b, is_identity A = Ok b /\ (b = true <-> forall i j, i < r -> j < r -> ofeq (f i j) (if i =? j then o1 else o0) = true)).
Proof.
  intros A r c f HA. pose proof HA as ((Ar & Ac & _ & Sh & _) & _). unfold is_identity, is_square. rewrite Ar, Ac. split; [|split].
  - intros N. apply Nat.eqb_neq in N. now rewrite N.
  - intros <- ->. reflexivity.
  - intros <- H0. rewrite Nat.eqb_refl. cbn [negb]. destruct (C21_identity r o1 H0 Sh) as (D & ED & HD). rewrite ED. cbn [bind].
    destruct (eq_all A r r f _ _ HA (is_mat_readsL _ _ _ _ HD)) as (E & b & E1 & E2 & Hb). rewrite E1. cbn [bind]. exists b. split; auto.
Qed.
(** The matrix times its transpose, elementwise. *)
Theorem C100_is_orthogonal : forall A r c f, readsL A r c f ->
  (r <> c -> is_orthogonal A = Ok false) /\
  (r = c -> r = 0 -> is_orthogonal A = Throw) /\
  (r = c -> 0 < r -> exists b, is_orthogonal A = Ok b /\
    (b = true <-> forall i j, i < r -> j < r -> ofeq (osum r (fun k => omul (f i k) (f j k))) (if i =? j then o1 else o0) = true)).
Proof.
  intros A r c f HA. pose proof HA as ((Ar & Ac & _ & Sh & _) & _). unfold is_orthogonal, is_square. rewrite Ar, Ac.
  assert (RA : reads A r c f) by apply HA. destruct (tmap_ok (fun x => x) A r c f RA) as (At & Et & Ht). split; [|split].
  - intros N. apply Nat.eqb_neq in N. now rewrite N.
  - intros <- ->. cbn [Nat.eqb negb]. unfold transpose. rewrite Et. cbn [bind].
    destruct (C33_product A (mb_of_mat At) 0 0 f 0 0 _ RA (is_mat_reads _ _ _ _ Ht) Sh) as [_ Q]. destruct (Q eq_refl) as (P & EP & _). rewrite EP. reflexivity.
  - intros <- H0. rewrite Nat.eqb_refl. cbn [negb]. unfold transpose. rewrite Et. cbn [bind].
    destruct (C33_product A (mb_of_mat At) r r f r r _ RA (is_mat_reads _ _ _ _ Ht) Sh) as [_ Q]. destruct (Q eq_refl) as (P & EP & HP). rewrite EP. cbn [bind].
    destruct (C21_identity r o1 H0 Sh) as (D & ED & HD). rewrite ED. cbn [bind].
    destruct (eq_all _ r r _ _ _ (is_mat_readsL _ _ _ _ HP) (is_mat_readsL _ _ _ _ HD)) as (E & b & E1 & E2 & Hb). rewrite E1. cbn [bind]. exists b. split; auto.
Qed.
End Generic.

Section Scalars.
Context {T : Type} {O : Ops T}.
Theorem C100_hermitian_transpose : forall (conj : T -> T) A r c f, reads A r c f ->
  exists m, hermitian_transpose conj A = Ok m /\ is_mat m c r (fun i j => conj (f j i)).
Proof. intros conj A r c f H. exact (tmap_ok conj A r c f H). Qed.
Theorem C100_matrix_scalar : forall s : T,
  inplace_pointwise (fun p => m_iadds p s) (fun x => oadd x s) /\ inplace_pointwise (fun p => m_isubs p s) (fun x => osub x s).
Proof. intros s. split; intros m r c f p r' c' H Hv Hl; eapply mb_imap_ok; eauto. Qed.
Lemma vec_set_ok (l : list T) n f i v : is_vec l n f -> i < n -> exists l', lset l i v = Ok l' /\ is_vec l' n (fun k => if k =? i then v else f k).
Proof.
  intros (Hl & Hf & Hg) Hi. rewrite lset_ok by lia. eexists. split; [reflexivity|]. split; [rewrite upd_length; exact Hl|]. split; [exact Hf|]. intros k Hk.
  destruct (Nat.eqb_spec k i) as [->|N]; [apply upd_same; lia|rewrite upd_other by auto; auto].
Qed.
Lemma v_imap_ok (g : T -> Res T) (h : nat -> T) (a : list T) n f : is_vec a n f -> (forall i, i < n -> g (f i) = Ok (h i)) -> exists d, v_imap g a = Ok d /\ is_vec d n h.
Proof.
  intros Ha Hg. unfold v_imap. rewrite (is_vec_list _ _ _ Ha).
  destruct (for_range_inv (fun k d => is_vec d n (fun i => if i <? k then h i else f i)) 0 n (fun i a => let* x := lget a i in let* z := g x in lset a i z) a) as (d & E & Q); [lia| | |].
  - eapply is_vec_ext; [exact Ha|]. intros i Hi. reflexivity.
  - intros k d Hk Hd. rewrite (is_vec_get _ _ _ k Hd) by lia. cbn [bind]. rewrite Nat.ltb_irrefl, Hg by lia. cbn [bind].
    destruct (vec_set_ok d n _ k (h k) Hd ltac:(lia)) as (d' & E' & Hd'). rewrite E'. exists d'. split; auto. eapply is_vec_ext; [exact Hd'|]. intros i Hi. cbn beta.
    destruct (Nat.eqb_spec i k) as [->|N]; [destruct (Nat.ltb_spec k (S k)); [reflexivity|lia]|]. destruct (Nat.ltb_spec i (S k)), (Nat.ltb_spec i k); try lia; reflexivity.
  - exists d. split; auto. eapply is_vec_ext; [exact Q|]. intros i Hi. cbn beta. destruct (Nat.ltb_spec i n); [reflexivity|lia].
Qed.
Theorem C100_vector_scalar : forall s : T,
  vpointwise (fun a => v_iadds a s) (fun x => oadd x s) /\ vpointwise (fun a => v_isubs a s) (fun x => osub x s) /\
  vpointwise (fun a => v_imuls a s) (fun x => omul x s) /\ vpointwise (fun a => v_smul s a) (fun x => omul s x) /\
  (forall quo, (forall x, odiv x s = Ok (quo x)) -> vpointwise (fun a => v_idivs a s) quo).
Proof.
  intros s. split; [|split; [|split; [|split]]].
  - intros a n f Ha. apply (v_imap_ok _ (fun i => oadd (f i) s) a n f Ha). reflexivity.
  - intros a n f Ha. apply (v_imap_ok _ (fun i => osub (f i) s) a n f Ha). reflexivity.
  - intros a n f Ha. apply (v_imap_ok _ (fun i => omul (f i) s) a n f Ha). reflexivity.
  - intros a n f Ha. apply (v_map_ok _ a n f (fun i => omul s (f i)) Ha). reflexivity.
  - intros quo Hq a n f Ha. apply (v_imap_ok _ (fun i => quo (f i)) a n f Ha). intros i _. apply Hq.
Qed.
(** Like abs, sign returns its argument for a vector and zeros for a matrix. *)
Theorem C100_sign : (forall (a : list T) n f, is_vec a n f -> sign_v a = Ok a) /\
  (forall (A : MB T) r c f, reads A r c f -> exists m, sign_m A = Ok m /\ is_mat m r c (fun _ _ => o0)).
Proof. split; intros; [eapply C41_vector|eapply C41_matrix]; eauto. Qed.
End Scalars.

(** * to_cpp *)
Section Text.
Context {T : Type}.
Variable sh : T -> string.
Local Open Scope string_scope.
Theorem C100_to_cpp_vector : forall name type v n f, is_vec v n f ->
  to_cpp_v sh name type v = Ok ("malg::Vector<" ++ type ++ "> " ++ name ++ " = {" ++ joined ", " n (fun i => sh (f i)) ++ "}").
Proof.
  intros name type v n f (Hl & Hf & Hg). unfold to_cpp_v. rewrite Hl.
  rewrite (sep_loop ", " n _ (fun i => sh (f i))); [|auto|].
  - cbn [bind]. rewrite !app_assoc_s. reflexivity.
  - intros i s Hi. rewrite (lget_ok _ _ _ (Hg i Hi)). reflexivity.
Qed.
Theorem C100_to_cpp_matrix : forall name type A r c f, reads A r c f ->
  to_cpp_m sh name type A = Ok ("malg::Matrix<" ++ type ++ "> " ++ name ++ " = {" ++ joined "," r (fun i => "{" ++ joined "," c (fun j => sh (f i j)) ++ "}") ++ "}").
Proof.
  intros name type A r c f (Hr & Hc & _ & (Sr & Sc & _) & Hg). unfold to_cpp_m. rewrite Hr, Hc.
  rewrite (sep_loop "," r _ (fun i => "{" ++ joined "," c (fun j => sh (f i j)) ++ "}")); [|auto|].
  - cbn [bind]. rewrite !app_assoc_s. reflexivity.
  - intros i s Hi. rewrite (sep_loop "," c _ (fun j => sh (f i j))); [|auto|].
    + cbn [bind]. rewrite !app_assoc_s. reflexivity.
    + intros j s' Hj. rewrite Hg by auto. reflexivity.
Qed.
End Text.

(** * Cases *)
Example C100_ex :
  is_zero (mb_of_mat (mkM 2 2 [0;0;0;0]%Z)) = Ok true /\ is_zero (mb_of_mat (mkM 2 2 [0;0;0;1]%Z)) = Ok false /\
  is_constant (mb_of_mat (mkM 2 2 [7;7;7;7]%Z)) = Ok true /\ is_constant (mb_of_mat (mkM 2 2 [7;7;8;7]%Z)) = Ok false /\
  is_identity (mb_of_mat (mkM 2 2 [1;0;0;1]%Z)) = Ok true /\ is_identity (mb_of_mat (mkM 2 2 [1;0;2;1]%Z)) = Ok false /\
  is_orthogonal (mb_of_mat (mkM 2 2 [0;-1;1;0]%Z)) = Ok true /\ is_orthogonal (mb_of_mat (mkM 2 2 [1;1;0;1]%Z)) = Ok false /\
  m_iadds Root 5%Z (mkM 1 2 [1;2]%Z) = Ok (mkM 1 2 [6;7]%Z) /\ v_isubs [5;6]%Z 2%Z = Ok [3;4]%Z /\ v_smul 3%Z [5;6]%Z = Ok [15;18]%Z /\
  sign_v [-4;3]%Z = Ok [-4;3]%Z /\ sign_m (mb_of_mat (mkM 1 2 [-4;3]%Z)) = Ok (mkM 1 2 [0;0]%Z) /\
  to_cpp_v (show_Z false) "v" "int" [1;-2]%Z = Ok "malg::Vector<int> v = {1, -2}"%string /\
  to_cpp_m (show_Z false) "A" "int" (mb_of_mat (mkM 2 2 [1;2;3;4]%Z)) = Ok "malg::Matrix<int> A = {{1,2},{3,4}}"%string.
Proof. repeat split; vm_compute; reflexivity. Qed.
