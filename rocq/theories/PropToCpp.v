(** PropToCpp.v: C100, the declaration that [to_cpp] writes (Repaired.v) determines the
    vector or matrix. *)
From Coq Require Import String DecimalString Decimal.
From Verif Require Import MatFacts PropMatrix Repaired Scalar IO IOSpec IOFacts PropIO PropIO2 PropRepaired.
From Coq Require Import Ascii ZArith Lia List.
Import ListNotations.
Local Open Scope string_scope.
Local Open Scope nat_scope.

(** Texts that contain neither a comma nor a closing brace. *)
Fixpoint unbraced (s : string) : Prop :=
  match s with "" => True | String c s' => c <> ","%char /\ c <> "}"%char /\ unbraced s' end.

Section Cpp.
Context {T : Type}.
Variable sh : T -> string.
Hypothesis sh_plain : forall x, unbraced (sh x) /\ sh x <> "".
Hypothesis sh_inj : forall x y, sh x = sh y -> x = y.
Definition stopc (s : string) : Prop := match s with String c _ => c = ","%char \/ c = "}"%char | "" => False end.
Lemma unbraced_split a b s t : unbraced a -> unbraced b -> stopc s -> stopc t -> a ++ s = b ++ t -> a = b /\ s = t.
Proof.
  revert b. induction a as [|x a IH]; intros [|y b] Ha Hb Hs Ht E; cbn in E.
  - auto.
  - exfalso. subst s. cbn in Hs, Hb. destruct Hs; tauto.
  - exfalso. subst t. cbn in Ht, Ha. destruct Ht; tauto.
  - injection E as -> E. destruct (IH b) as [-> ->]; cbn in Ha, Hb; tauto.
Qed.
Lemma ok_inj {A} (a b : A) : Ok a = Ok b -> a = b.
Proof. congruence. Qed.
(** The separator is a comma and what may follow it. *)
Lemma cells_split sp (l1 l2 : list T) s t :
  String.concat (String "," sp) (map sh l1) ++ "}" ++ s = String.concat (String "," sp) (map sh l2) ++ "}" ++ t -> l1 = l2 /\ s = t.
Proof.
  set (sep := String "," sp).
  assert (NE : forall x l u v, "}" ++ u = String.concat sep (map sh (x :: l)%list) ++ "}" ++ v -> False).
  { intros x l u v E. assert (Ht : exists tl, String.concat sep (map sh (x :: l)%list) ++ "}" ++ v = sh x ++ tl).
    { cbn [map]. destruct l; [exists ("}" ++ v); reflexivity|]. cbn [map]. rewrite IOFacts.concat_cons by discriminate. rewrite app_assoc_s. eauto. }
    destruct Ht as (tl & Ht). rewrite Ht in E. destruct (sh_plain x) as [P N]. destruct (sh x) as [|c w]; [contradiction|].
    cbn in E, P. injection E as <- _. tauto. }
  revert l2. induction l1 as [|x l1 IH]; intros [|y l2] E.
  - cbn in E. injection E as ->. auto.
  - exfalso. eapply NE. exact E.
  - exfalso. eapply NE. symmetry. exact E.
  - assert (S : forall z l u, exists tl, stopc tl /\ String.concat sep (map sh (z :: l)%list) ++ "}" ++ u = sh z ++ tl /\
        (l = nil /\ tl = "}" ++ u \/ tl = sep ++ String.concat sep (map sh l) ++ "}" ++ u /\ l <> nil)).
    { intros z l u. destruct l as [|z' l].
      - exists ("}" ++ u). cbn. auto.
      - exists (sep ++ String.concat sep (map sh (z' :: l)%list) ++ "}" ++ u). split; [cbn; auto|]. split.
        + cbn [map]. rewrite IOFacts.concat_cons by discriminate. rewrite !app_assoc_s. reflexivity.
        + right. split; [reflexivity|discriminate]. }
    destruct (S x l1 s) as (t1 & P1 & E1 & C1). destruct (S y l2 t) as (t2 & P2 & E2 & C2).
    rewrite E1, E2 in E. destruct (unbraced_split (sh x) (sh y) t1 t2) as [Exy Et]; auto; try apply sh_plain.
    apply sh_inj in Exy. subst y. rewrite Et in C1. destruct C1 as [[-> ->]|[-> N1]], C2 as [[-> C2]|[C2 N2]].
    + cbn in C2. injection C2 as ->. auto.
    + discriminate.
    + discriminate.
    + apply app_cancel in C2. destruct (IH l2 C2) as [-> ->]. auto.
Qed.
Lemma cpp_v_list name type v : fits (length v) ->
  to_cpp_v sh name type v = Ok ("malg::Vector<" ++ type ++ "> " ++ name ++ " = {" ++ String.concat ", " (map sh v) ++ "}").
Proof.
  intros H. destruct v as [|x v].
  - unfold to_cpp_v. rewrite for_range_empty by (cbn; lia). cbn [bind]. rewrite !app_assoc_s. reflexivity.
  - rewrite (C100_to_cpp_vector _ name type _ _ _ (vec_as_fun _ x H)). unfold joined.
    rewrite <- (map_map (fun i => nth i (x :: v) x) sh), map_nth_seq. reflexivity.
Qed.
(** Two vectors with the same declaration are equal. *)
Theorem C100_to_cpp_vector_injective : forall name type v v', fits (length v) -> fits (length v') ->
  to_cpp_v sh name type v = to_cpp_v sh name type v' -> v = v'.
Proof.
  intros name type v v' H1 H2 E. rewrite !cpp_v_list in E by auto. apply ok_inj in E.
  do 5 apply app_cancel in E. apply (cells_split " " v v' "" "") in E. tauto.
Qed.
Definition cpp_row (row : list T) : string := "{" ++ String.concat "," (map sh row) ++ "}".
Lemma rows_split_cpp (L1 L2 : list (list T)) s t :
  String.concat "," (map cpp_row L1) ++ "}" ++ s = String.concat "," (map cpp_row L2) ++ "}" ++ t -> L1 = L2.
Proof.
  assert (H : forall r L u, exists tl, String.concat "," (map cpp_row (r :: L)%list) ++ "}" ++ u =
      "{" ++ String.concat "," (map sh r) ++ "}" ++ tl /\
      (L = nil /\ tl = "}" ++ u \/ L <> nil /\ tl = "," ++ String.concat "," (map cpp_row L) ++ "}" ++ u)).
  { intros r [|r' L] u.
    - exists ("}" ++ u). split; [|auto]. cbn [map String.concat]. unfold cpp_row. rewrite !app_assoc_s. reflexivity.
    - eexists. split; [|right; split; [discriminate|reflexivity]]. cbn [map]. rewrite IOFacts.concat_cons by discriminate.
      unfold cpp_row at 1. rewrite !app_assoc_s. reflexivity. }
  revert L2. induction L1 as [|r1 L1 IH]; intros [|r2 L2] E.
  - reflexivity.
  - exfalso. destruct (H r2 L2 t) as (tl & X & _). rewrite X in E. discriminate.
  - exfalso. destruct (H r1 L1 s) as (tl & X & _). rewrite X in E. discriminate.
  - destruct (H r1 L1 s) as (t1 & E1 & C1), (H r2 L2 t) as (t2 & E2 & C2). rewrite E1, E2 in E.
    apply app_cancel in E. apply (cells_split "") in E. destruct E as [-> Et]. rewrite Et in C1.
    destruct C1 as [[-> ->]|[N1 ->]], C2 as [[-> C2]|[N2 C2]]; try discriminate; [reflexivity|].
    apply app_cancel in C2. now rewrite (IH _ C2).
Qed.
(** Two matrices with the same declaration have the same shape and the same elements; the
    number of columns is lost only if there are no rows. *)
Theorem C100_to_cpp_matrix_injective : forall name type A r c f A' r' c' f', reads A r c f -> reads A' r' c' f' ->
  to_cpp_m sh name type A = to_cpp_m sh name type A' ->
  r = r' /\ (0 < r -> c = c') /\ forall i j, i < r -> j < c -> f i j = f' i j.
Proof.
  intros name type A r c f A' r' c' f' H1 H2 E.
  rewrite (C100_to_cpp_matrix _ _ _ _ _ _ _ H1), (C100_to_cpp_matrix _ _ _ _ _ _ _ H2) in E.
  apply ok_inj in E. do 5 apply app_cancel in E. apply rowlist_inj. apply (rows_split_cpp _ _ "" "").
  assert (M : forall r c f, String.concat "," (map cpp_row (rowlist r c f)) = joined "," r (fun i => "{" ++ joined "," c (fun j => sh (f i j)) ++ "}")).
  { clear. intros r c f. unfold joined, rowlist. f_equal. rewrite map_map. apply map_ext. intros i. unfold cpp_row. now rewrite map_map. }
  rewrite !M. exact E.
Qed.
End Cpp.

(** * Integers and complex integers *)
Lemma unbraced_app a b : unbraced a -> unbraced b -> unbraced (a ++ b).
Proof. induction a as [|x a IH]; cbn; tauto. Qed.
Lemma unbraced_uint d : unbraced (NilEmpty.string_of_uint d).
Proof. induction d; cbn; auto; (split; [discriminate|split; [discriminate|assumption]]). Qed.
Lemma unbraced_show p z : unbraced (show_Z p z).
Proof.
  unfold show_Z. apply unbraced_app; [destruct (p && _)%bool; cbn; auto; repeat split; discriminate|].
  assert (U : forall u, unbraced (NilZero.string_of_uint u)).
  { intros []; try apply unbraced_uint. cbn. repeat split; discriminate. }
  destruct (Z.to_int z) as [u|u]; cbn [NilZero.string_of_int]; [apply U|]. split; [discriminate|split; [discriminate|apply U]].
Qed.
Lemma ints : (forall x, unbraced (show_Z false x) /\ show_Z false x <> "") /\ (forall x y, show_Z false x = show_Z false y -> x = y).
Proof.
  destruct C71_integers as [H1 H2]. split; [|exact H2]. intros x. split; [apply unbraced_show|apply H1].
Qed.
Lemma cplxs : (forall x, unbraced (show_cplx x) /\ show_cplx x <> "") /\ (forall x y, show_cplx x = show_cplx y -> x = y).
Proof.
  destruct C71_complex as [H1 H2]. split; [|exact H2]. intros x. split; [|apply H1].
  unfold show_cplx. apply unbraced_app; [apply unbraced_show|]. apply unbraced_app; [apply unbraced_show|].
  split; [discriminate|split; [discriminate|exact I]].
Qed.
Corollary C100_to_cpp_recoverable : (forall name type v v', fits (length v) -> fits (length v') ->
    to_cpp_v (show_Z false) name type v = to_cpp_v (show_Z false) name type v' -> v = v') /\
  (forall name type A r c f A' r' c' f', reads A r c f -> reads A' r' c' f' ->
    to_cpp_m (show_Z false) name type A = to_cpp_m (show_Z false) name type A' ->
    r = r' /\ (0 < r -> c = c') /\ forall i j, i < r -> j < c -> f i j = f' i j).
Proof.
  destruct ints as [H1 H2]. split; intros *; [now apply C100_to_cpp_vector_injective|now apply C100_to_cpp_matrix_injective].
Qed.
Corollary C100_to_cpp_recoverable_complex : (forall name type v v', fits (length v) -> fits (length v') ->
    to_cpp_v show_cplx name type v = to_cpp_v show_cplx name type v' -> v = v') /\
  (forall name type A r c f A' r' c' f', reads A r c f -> reads A' r' c' f' ->
    to_cpp_m show_cplx name type A = to_cpp_m show_cplx name type A' ->
    r = r' /\ (0 < r -> c = c') /\ forall i j, i < r -> j < c -> f i j = f' i j).
Proof.
  destruct cplxs as [H1 H2]. split; intros *; [now apply C100_to_cpp_vector_injective|now apply C100_to_cpp_matrix_injective].
Qed.
(** Different shapes of the same elements, and complex elements. *)
Example C100_ex_to_cpp :
  to_cpp_m (show_Z false) "A" "int" (mb_of_mat (mkM 1 4 [1;2;3;4]%Z)) = Ok "malg::Matrix<int> A = {{1,2,3,4}}" /\
  to_cpp_m (show_Z false) "A" "int" (mb_of_mat (mkM 4 1 [1;2;3;4]%Z)) = Ok "malg::Matrix<int> A = {{1},{2},{3},{4}}" /\
  to_cpp_v show_cplx "v" "c" [(1,-2); (0,3)]%Z = Ok "malg::Vector<c> v = {1-2i, 0+3i}".
Proof. repeat split; vm_compute; reflexivity. Qed.
