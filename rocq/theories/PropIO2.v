(** PropIO2.v: C71 for integers and complex numbers, C77 (damaged files), C78 (chained
    output), and concrete cases for C67-C71. *)
From Coq Require Import String Ascii DecimalString Decimal.
From Verif Require Import MatFacts PropMatrix IO IOSpec IOFacts PropIO Scalar.
Local Open Scope string_scope.
Local Open Scope nat_scope.

(** * Printed integers *)
Lemma plain_app a b : plain a -> plain b -> plain (a ++ b).
Proof. induction a as [|c a IH]; cbn; [auto|]. tauto. Qed.
Lemma plain_uint u : plain (NilEmpty.string_of_uint u).
Proof. induction u; cbn; auto; (split; [discriminate|split; [discriminate|auto]]). Qed.
Lemma plain_zuint u : plain (NilZero.string_of_uint u).
Proof. destruct u; [cbn; repeat split; auto; discriminate|..]; apply plain_uint. Qed.
Lemma plain_show p z : plain (show_Z p z).
Proof.
  unfold show_Z. apply plain_app.
  - destruct (p && (0 <=? z)%Z); cbn; auto. split; [discriminate|split; [discriminate|auto]].
  - destruct (Z.to_int z); cbn [NilZero.string_of_int]; [apply plain_zuint|].
    split; [discriminate|split; [discriminate|apply plain_zuint]].
Qed.
(** The first character of a printed integer. *)
Lemma show_head p z : exists c s, show_Z p z = String c s /\ isspace c = false /\ c <> "V"%char /\ c <> "M"%char /\ c <> "i"%char.
Proof.
  unfold show_Z. destruct (p && (0 <=? z)%Z).
  - eexists. eexists. split; [reflexivity|]. repeat split; discriminate.
  - cbn [String.append]. destruct (Z.to_int z) as [u|u]; cbn [NilZero.string_of_int].
    + destruct (uint_head u) as (c & s & E & Hc). exists c, s. split; [exact E|]. destruct (digit_head c Hc) as [H1 _].
      split; [auto|]. repeat split; intros ->; now apply Hc.
    + eexists. eexists. split; [reflexivity|]. repeat split; discriminate.
Qed.
Lemma show_inj p z z' t t' : nodigit t -> nodigit t' -> show_Z p z ++ t = show_Z p z' ++ t' -> z = z' /\ t = t'.
Proof.
  intros H1 H2 E.
  pose proof (get_int_at (Z.min z z') (Z.max z z') p "" z t I) as G1. pose proof (get_int_at (Z.min z z') (Z.max z z') p "" z' t' I) as G2.
  cbn [String.append] in G1, G2. unfold in_range in G1, G2. specialize (G1 ltac:(lia) H1). specialize (G2 ltac:(lia) H2).
  rewrite E in G1. rewrite G1 in G2. injection G2 as -> ->. auto.
Qed.
Lemma show_sp_head z t : nodigit (show_Z true z ++ t).
Proof.
  unfold show_Z. cbn [andb]. destruct (Z.leb_spec 0 z).
  - reflexivity.
  - destruct z; [lia|lia|]. cbn. reflexivity.
Qed.

(** Real (integer) and complex elements. *)
Theorem C71_integers : (forall x, plain (show_Z false x) /\ show_Z false x <> "") /\ (forall x y, show_Z false x = show_Z false y -> x = y).
Proof.
  split.
  - intros x. split; [apply plain_show|]. destruct (show_head false x) as (c & s & -> & _). discriminate.
  - intros x y E. apply (show_inj false x y "]" "]"); [reflexivity|reflexivity|]. now rewrite E.
Qed.
Theorem C71_complex : (forall x, plain (show_cplx x) /\ show_cplx x <> "") /\ (forall x y, show_cplx x = show_cplx y -> x = y).
Proof.
  split.
  - intros [x y]. unfold show_cplx. split.
    + apply plain_app; [apply plain_show|]. apply plain_app; [apply plain_show|]. split; [discriminate|split; [discriminate|exact I]].
    + cbn [fst]. destruct (show_head false x) as (c & s & -> & _). discriminate.
  - intros [x y] [x' y'] E. unfold show_cplx in E. cbn [fst snd] in E.
    apply show_inj in E; try apply show_sp_head. destruct E as [-> E].
    apply show_inj in E; try reflexivity. destruct E as [-> _]. reflexivity.
Qed.
(** Two integer (complex) matrices with the same text have the same elements. *)
Corollary C71_matlab_recoverable : forall name A r c f A' r' c' f', reads A r c f -> reads A' r' c' f' ->
  to_matlab_m (show_Z false) name A = to_matlab_m (show_Z false) name A' ->
  r = r' /\ (0 < r -> c = c') /\ forall i j, i < r -> j < c -> f i j = f' i j.
Proof. destruct C71_integers. now apply C71_matrix_injective. Qed.
Corollary C71_matlab_recoverable_complex : forall name A r c f A' r' c' f', reads A r c f -> reads A' r' c' f' ->
  to_matlab_m show_cplx name A = to_matlab_m show_cplx name A' ->
  r = r' /\ (0 < r -> c = c') /\ forall i j, i < r -> j < c -> f i j = f' i j.
Proof. destruct C71_complex. now apply C71_matrix_injective. Qed.

(** * C77: damaged records *)
Lemma upd_mid {A} (l d : list A) x z : upd (l ++ x :: d)%list (length l) z = (l ++ z :: d)%list.
Proof. induction l as [|y l IH]; cbn; [reflexivity|now rewrite IH]. Qed.
Section Damaged.
Variables (lo hi : Z).
Lemma in_elem_failed d s k : forall i, failbit s = true -> i + k <= length d -> for_n k i (in_elem lo hi) (d, s) = Ok (d, s).
Proof.
  induction k as [|k IH]; intros i Hs Hk; [reflexivity|]. cbn [for_n]. unfold in_elem at 1. cbn [snd fst].
  unfold get_int, sentry. rewrite Hs. cbn [orb]. replace (i <? length d) with true by (symmetry; apply Nat.ltb_lt; lia). cbn [bind].
  replace (mkIn (rest s) true (eofbit s)) with s by (destruct s; cbn in *; now rewrite Hs). apply IH; auto; lia.
Qed.
(** The value an element has before it is read: resize keeps the old ones. *)
Definition old (target : list Z) (i : nat) : Z := nth i target 0%Z.
Lemma resized_nth target n i : i < n -> nth_error (firstn n target ++ repeat o0 (n - length target))%list i = Some (old target i).
Proof.
  intros Hi. unfold old. change (@o0 Z _) with 0%Z. destruct (Nat.lt_ge_cases i (length target)).
  - rewrite nth_error_app1 by (rewrite firstn_length; lia).
    assert (M : forall (l : list Z) a b, b < a -> nth_error (firstn a l) b = nth_error l b).
    { clear. induction l as [|x l IH]; intros [|a] [|b] Hb; cbn; auto; try lia. apply IH. lia. }
    rewrite M by auto. apply nth_error_nth'. auto.
  - rewrite nth_error_app2 by (rewrite firstn_length; lia). rewrite firstn_length.
    rewrite nth_error_repeat_lt by lia. f_equal. symmetry. apply nth_overflow. lia.
Qed.
(** A character that starts neither a number nor white space. *)
Definition not_number (c : ascii) : Prop := isspace c = false /\ digit c = None /\ c <> "-"%char /\ c <> "+"%char.
(** The header of an n-element vector. *)
Definition header (n : nat) : string := "V " ++ show_nat n.
Lemma read_header n t target lead : fits n -> nodigit t -> blank lead ->
  read_v lo hi target (good (lead ++ header n ++ t)) =
  for_n n 0 (in_elem lo hi) ((firstn n target ++ repeat o0 (n - length target))%list, good t).
Proof.
  intros Hn Ht Hb. unfold header, read_v. rewrite app_assoc_s. cbn [String.append]. rewrite get_char_at by auto. cbn [Ascii.eqb Bool.eqb negb].
  change (String " " (show_nat n ++ t)) with (" " ++ show_nat n ++ t). rewrite get_size_at by (cbn; auto).
  rewrite Nnat.Nat2N.id, vec_allocate_ok by auto. cbn [bind]. unfold for_range. rewrite Nat.sub_0_r. f_equal.
  rewrite app_length, firstn_length, repeat_length. lia.
Qed.
Lemma split_old target n k : k <= n -> (firstn n target ++ repeat o0 (n - length target))%list =
  (firstn k (firstn n target ++ repeat o0 (n - length target)) ++ map (old target) (seq k (n - k)))%list.
Proof.
  intros Hk. rewrite <- (firstn_skipn k (firstn n target ++ repeat o0 (n - length target))%list) at 1. f_equal.
  apply list_ext.
  - rewrite skipn_length, app_length, firstn_length, repeat_length, map_length, seq_length. lia.
  - intros i Hi. rewrite skipn_length, app_length, firstn_length, repeat_length in Hi.
    rewrite nth_error_map, nth_error_seq by lia. cbn [option_map].
    assert (N : forall (l : list Z) a b, nth_error (skipn a l) b = nth_error l (a + b)).
    { clear. induction l as [|x l IH]; intros [|a] b; cbn; auto. destruct b; reflexivity. }
    rewrite N. apply resized_nth. lia.
Qed.
Lemma run_first n target l t r plus : length l <= n -> toks plus l t r -> Forall (in_range lo hi) l ->
  exists w, blank w /\
  for_n n 0 (in_elem lo hi) ((firstn n target ++ repeat o0 (n - length target))%list, good t) =
  for_n (n - length l) (length l) (in_elem lo hi) ((l ++ map (old target) (seq (length l) (n - length l)))%list, good (w ++ r)).
Proof.
  intros Hl Ht HF. destruct (toks_read lo hi plus l t r Ht HF nil (firstn (length l) (firstn n target ++ repeat o0 (n - length target)))%list) as (w & Hw & E).
  { rewrite firstn_length, app_length, firstn_length, repeat_length. lia. }
  exists w. split; [auto|]. rewrite (split_old target n (length l)) by auto.
  replace n with (length l + (n - length l)) at 1 by lia. rewrite for_n_app. cbn [app length] in E.
  assert (G : forall d2 d1 k s i, for_n k i (in_elem lo hi) (d1, s) <> UB -> (forall x, for_n k i (in_elem lo hi) (d1, s) = Ok x ->
     for_n k i (in_elem lo hi) ((d1 ++ d2)%list, s) = Ok ((fst x ++ d2)%list, snd x))).
  { clear. intros d2 d1 k. revert d1. induction k as [|k IH]; intros d1 s i Hn x E; [injection E as <-; reflexivity|].
    cbn [for_n] in *. unfold in_elem at 1 in E. unfold in_elem at 1 in Hn. unfold in_elem at 1. cbn [fst snd] in *.
    destruct (get_int lo hi s) as [[z|] s1].
    - destruct (Nat.lt_ge_cases i (length d1)) as [Hi|Hi].
      + rewrite lset_ok in E, Hn by auto. rewrite lset_ok by (rewrite app_length; lia). cbn [bind] in *.
        replace (upd (d1 ++ d2) i z) with (upd d1 i z ++ d2)%list; [now apply IH|].
        clear -Hi. revert i Hi. induction d1 as [|y d1 IH]; intros [|i] Hi; cbn in *; try lia; auto. rewrite IH by lia. reflexivity.
      + rewrite lset_ub in E by auto. discriminate.
    - destruct (Nat.ltb_spec i (length d1)); [|discriminate]. cbn [bind] in *.
      replace (i <? length (d1 ++ d2)) with true by (symmetry; apply Nat.ltb_lt; rewrite app_length; lia). cbn [bind]. now apply IH. }
  rewrite (G _ _ _ _ _ ltac:(rewrite E; discriminate) _ E). cbn [bind fst snd]. reflexivity.
Qed.

(** Something that is not a number: the elements before it are stored, that element
    becomes 0, the following ones keep their old value (0 for new elements), and the
    stream fails in front of the offending character. *)
Theorem C77_bad_element : forall n target lead plus l text c t,
  fits n -> length l < n -> blank lead -> nodigit text ->
  toks plus l text (String c t) -> Forall (in_range lo hi) l -> not_number c ->
  read_v lo hi target (good (lead ++ header n ++ text)) =
    Ok ((l ++ 0%Z :: map (old target) (seq (S (length l)) (n - S (length l))))%list, mkIn (String c t) true false).
Proof.
  intros n target lead plus l text c t Hn Hl Hb Hd Ht HF (N1 & N2 & N3 & N4).
  rewrite read_header by auto. destruct (run_first n target l text _ plus (Nat.lt_le_incl _ _ Hl) Ht HF) as (w & Hw & ->).
  replace (n - length l) with (S (n - S (length l))) by lia. cbn [seq map for_n]. unfold in_elem at 1. cbn [snd fst].
  unfold get_int. rewrite sentry_at by auto. cbv beta iota zeta. cbn [scan_sign]. apply Ascii.eqb_neq in N3, N4. rewrite N3, N4.
  cbv beta iota zeta. cbn [scan]. rewrite N2. cbn [negb String.eqb]. rewrite lset_ok by (rewrite app_length; cbn; lia). cbn [bind].
  rewrite upd_mid.
  apply in_elem_failed; [reflexivity|]. rewrite app_length. cbn [length]. rewrite map_length, seq_length. lia.
Qed.
(** The file ends too early: the remaining elements keep their old value. *)
Theorem C77_truncated : forall n target lead plus l text,
  fits n -> length l < n -> blank lead -> nodigit text ->
  toks plus l text "" -> Forall (in_range lo hi) l ->
  read_v lo hi target (good (lead ++ header n ++ text)) =
    Ok ((l ++ map (old target) (seq (length l) (n - length l)))%list, mkIn "" true true).
Proof.
  intros n target lead plus l text Hn Hl Hb Hd Ht HF.
  rewrite read_header by auto. destruct (run_first n target l text _ plus (Nat.lt_le_incl _ _ Hl) Ht HF) as (w & Hw & ->).
  set (d := (l ++ map (old target) (seq (length l) (n - length l)))%list).
  assert (Ld : length d = n) by (unfold d; rewrite app_length, map_length, seq_length; lia).
  destruct (n - length l) as [|k] eqn:Ek; [lia|]. cbn [for_n]. unfold in_elem at 1. cbn [snd fst].
  unfold get_int. rewrite sentry_blank by (rewrite app_nil_s; auto). cbv iota.
  replace (length l <? length d) with true by (symmetry; apply Nat.ltb_lt; lia). cbn [bind].
  apply in_elem_failed; [reflexivity|]. lia.
Qed.
(** A value that the element type cannot hold is replaced by the nearest one, and the
    stream fails behind it. *)
Theorem C77_out_of_range : forall n target lead plus l text z t,
  fits n -> length l < n -> blank lead -> nodigit text -> nodigit t ->
  toks plus l text (show_Z false z ++ t) -> Forall (in_range lo hi) l -> (lo <= hi)%Z -> ~ in_range lo hi z ->
  read_v lo hi target (good (lead ++ header n ++ text)) =
    Ok ((l ++ (if (z <? lo)%Z then lo else hi) :: map (old target) (seq (S (length l)) (n - S (length l))))%list, mkIn t true false).
Proof.
  intros n target lead plus l text z t Hn Hl Hb Hd Hnt Ht HF Hlh Hz.
  rewrite read_header by auto. destruct (run_first n target l text _ plus (Nat.lt_le_incl _ _ Hl) Ht HF) as (w & Hw & ->).
  replace (n - length l) with (S (n - S (length l))) by lia. cbn [seq map for_n]. unfold in_elem at 1. cbn [snd fst].
  assert (G : get_int lo hi (good (w ++ show_Z false z ++ t)) = (Some (if (z <? lo)%Z then lo else hi), mkIn t true false)).
  { pose proof (get_int_at (Z.min z lo) (Z.max z hi) false w z t Hw) as X. unfold in_range in X, Hz.
    specialize (X ltac:(lia) Hnt). unfold get_int in X |- *. destruct (sentry (good (w ++ show_Z false z ++ t))) as [[u|] s']; [|discriminate].
    destruct (scan_sign u) as [neg t1]. destruct (scan t1 0 false) as [[k any] t2]. cbv beta iota zeta in X |- *.
    destruct (negb any); [injection X as X1 X2 X3; discriminate|].
    set (y := if neg then (- Z.of_N k)%Z else Z.of_N k) in *.
    destruct (y <? Z.min z lo)%Z eqn:B1; [injection X; discriminate|]. destruct (Z.max z hi <? y)%Z eqn:B2; [injection X; discriminate|].
    injection X as X1 X2 X3. rewrite X1, X3, X2. destruct (Z.ltb_spec z lo); [reflexivity|]. destruct (Z.ltb_spec hi z); [reflexivity|]. lia. }
  rewrite G. rewrite lset_ok by (rewrite app_length; cbn; lia). cbn [bind].
  set (b := if (z <? lo)%Z then lo else hi).
  rewrite upd_mid.
  apply in_elem_failed; [reflexivity|]. rewrite app_length. cbn [length]. rewrite map_length, seq_length. lia.
Qed.
(** No size after the tag: the target is emptied and the stream fails; if the file ends
    there the size variable is used without having been set. *)
Theorem C77_bad_size : forall target lead w c t, blank lead -> blank w -> not_number c ->
  read_v lo hi target (good (lead ++ "V" ++ w ++ String c t)) = Ok (nil, mkIn (String c t) true false).
Proof.
  intros target lead w c t Hb Hw (N1 & N2 & N3 & N4). unfold read_v. cbn [String.append]. rewrite get_char_at by auto.
  cbn [Ascii.eqb Bool.eqb negb]. unfold get_size. rewrite sentry_at by auto. cbv beta iota zeta. cbn [scan_sign].
  apply Ascii.eqb_neq in N3, N4. rewrite N3, N4. cbv beta iota zeta. cbn [scan]. rewrite N2. cbn [negb String.eqb].
  rewrite (vec_allocate_ok target 0) by auto. cbn [bind]. reflexivity.
Qed.
Theorem C77_no_size : forall target m lead w, blank lead -> blank w ->
  read_v lo hi target (good (lead ++ "V" ++ w)) = UB /\ read_m lo hi m (good (lead ++ "M" ++ w)) = UB.
Proof.
  intros target m lead w Hb Hw. unfold read_v, read_m. cbn [String.append]. rewrite !get_char_at by auto.
  cbn [Ascii.eqb Bool.eqb negb]. unfold get_size. rewrite sentry_blank by auto. auto.
Qed.
(** A size that cannot be allocated is not detected. *)
Theorem C77_huge_size : forall target lead n t, blank lead -> is_size n -> ~ fits n -> n <> length target -> nodigit t ->
  read_v lo hi target (good (lead ++ header n ++ t)) = UB.
Proof.
  intros target lead n t Hb Hn Hf Hl Ht. unfold header, read_v. rewrite app_assoc_s. cbn [String.append]. rewrite get_char_at by auto. cbn [Ascii.eqb Bool.eqb negb].
  change (String " " (show_nat n ++ t)) with (" " ++ show_nat n ++ t). rewrite get_size_at by (cbn; auto).
  rewrite Nnat.Nat2N.id, vec_allocate_ub by auto. reflexivity.
Qed.
End Damaged.

(** * C78: chained output *)
Definition as_item (x : record) : witem := match x with RVec l => WVec l | RMat m => WMat (mb_of_mat m) end.
(** [f << a << b << ...] with vectors and matrices only is the same as separate statements. *)
Theorem C78_chain : forall recs, write_chain true (map as_item recs) = write_all recs.
Proof.
  induction recs as [|x recs IH]; [reflexivity|]. cbn [map write_all]. destruct x as [l|m]; cbn [as_item write_chain write_rec]; rewrite IH; reflexivity.
Qed.
(** After anything else in the chain the record is written without its tag; reading it
    back leaves the target unchanged. *)
Theorem C78_after_text_refuted : forall lo hi blanks l target, blank blanks -> fits (length l) -> l <> nil ->
  exists txt s, write_chain true [WText blanks; WVec l] = Ok txt /\ read_v lo hi target (good txt) = Ok (target, s).
Proof.
  intros lo hi blanks l target Hb Hf Hl. cbn [write_chain].
  destruct (C70_vector (show_Z false) l (length l) (fun i => nth i l 0%Z) (vec_as_fun l 0%Z Hf)) as (w & E & _). rewrite E. cbn [bind].
  destruct l as [|z l]; [contradiction|]. cbn [length nth] in *. unfold joined. cbn [seq map].
  assert (H : exists t, String.concat " " (setw w (show_Z false z) :: map (fun i => setw w (show_Z false (nth i (z :: l) 0%Z))) (seq 1 (length l)))%list = setw w (show_Z false z) ++ t).
  { destruct (length l); [exists ""; cbn; now rewrite app_nil_s|]. rewrite concat_cons by discriminate. eauto. }
  destruct H as (t & H). cbn [nth] in H. rewrite H. clear H.
  destruct (show_head false z) as (c & s & Ec & H1 & H2 & _). destruct (setw_show false w z) as (ws & Hws & Es). rewrite Es, Ec, !app_assoc_s.
  eexists. exists (good (s ++ t)). split; [rewrite app_nil_s; reflexivity|].
  rewrite <- app_assoc_s. cbn [String.append]. apply C69_wrong_tag_vector; auto. now apply blank_app.
Qed.

(** * Concrete cases (8-bit elements: -128..127) *)
Example C67_ex : exists txt, write_v (show_Z false) (show_Z false) [1; -20; 3]%Z = Ok txt /\ txt = "V 3" ++ nl ++ "  1 -20   3" ++ nl /\
  read_v (-128) 127 [9; 9; 9; 9; 9]%Z (good (txt ++ "V 0")) = Ok ([1; -20; 3]%Z, good (nl ++ "V 0")) /\ Forall (in_range (-128) 127) [1; -20; 3]%Z.
Proof. eexists. split; [reflexivity|]. split; [reflexivity|]. split; [reflexivity|]. repeat constructor; discriminate. Qed.
Example C67_empty_ex : read_v (-128) 127 [9]%Z (good ("V 0" ++ nl ++ nl)) = Ok (nil, good (nl ++ nl)).
Proof. reflexivity. Qed.
Example C68_ex : exists txt, write_m (show_Z true) (show_Z false) (mb_view (mkRange 0 2) (mkRange 1 3) (mb_of_mat (mkM 2 3 [1;2;3;4;5;-6]%Z))) = Ok txt /\
  read_m (-128) 127 (mkM 1 1 [7]%Z) (good txt) = Ok (mkM 2 2 [2;3;5;-6]%Z, good nl).
Proof. eexists. split; reflexivity. Qed.
Example C68_sequence_ex : exists txt, write_all [RMat (mkM 1 2 [1;-2]%Z); RVec nil; RVec [5]%Z] = Ok txt /\
  read_all (-128) 127 [RMat (mkM 0 0 nil); RVec [1]%Z; RVec nil] (good txt) = Ok ([RMat (mkM 1 2 [1;-2]%Z); RVec nil; RVec [5]%Z], good nl).
Proof. eexists. split; reflexivity. Qed.
Example C69_ex : read_v (-128) 127 [4]%Z (good " M 1 1") = Ok ([4]%Z, good " 1 1") /\ read_m (-128) 127 (mkM 1 1 [4]%Z) (good (nl ++ nl)) = UB.
Proof. split; reflexivity. Qed.
Example C70_ex : print_m (show_Z false) (show_Z false) (mb_of_mat (mkM 2 2 [1;-20;300;4]%Z)) = Ok ("  1 -20" ++ nl ++ "300   4").
Proof. reflexivity. Qed.
Example C71_ex : to_matlab_m show_cplx "A" (mb_of_mat (mkM 2 1 [(1,-2);(0,3)]%Z)) = Ok "A = [[1-2i];[0+3i];]" /\
  to_matlab_v (show_Z false) "v" [1;-2]%Z = Ok "v = [1 -2]".
Proof. split; reflexivity. Qed.
Example C77_ex : toks false [1]%Z (nl ++ "1 x 3") (String "x" " 3") /\ not_number "x" /\
  read_v (-128) 127 [7;8;9]%Z (good (header 4 ++ nl ++ "1 x 3")) = Ok ([1;0;9;0]%Z, mkIn "x 3" true false).
Proof.
  split; [|split; [repeat split; discriminate|reflexivity]].
  apply (toks_cons false nl 1%Z nil " x 3"); [cbn; auto|reflexivity|]. apply (toks_nil false " "). cbn. auto.
Qed.
Example C77_truncated_ex : toks false [1]%Z (nl ++ "1 ") "" /\
  read_v (-128) 127 [7;8;9]%Z (good (header 4 ++ nl ++ "1 ")) = Ok ([1;8;9;0]%Z, mkIn "" true true).
Proof. split; [|reflexivity]. apply (toks_cons false nl 1%Z nil " "); [cbn; auto|reflexivity|]. apply (toks_nil false " " ""). cbn. auto. Qed.
Example C77_range_ex : read_v (-128) 127 [7;8;9]%Z (good (header 3 ++ nl ++ "1 200 3")) = Ok ([1;127;9]%Z, mkIn " 3" true false).
Proof. reflexivity. Qed.
Example C78_ex : write_chain true [WVec [1]%Z; WText nl; WVec [5]%Z] = Ok ("V 1" ++ nl ++ "1" ++ nl ++ nl ++ "5").
Proof. reflexivity. Qed.
