(** PropIO3.v: C77 for matrix files, C78 for whole chains, C70 for state-space models. *)
From Coq Require Import String Ascii DecimalString Decimal.
From Verif Require Import MatFacts PropMatrix IO IOSpec IOFacts PropIO PropIO2 Scalar Control IOControl.
Local Open Scope string_scope.
Local Open Scope nat_scope.

(** * C77: damaged matrix files *)
Section DamagedMatrix.
Variables (lo hi : Z).
(** The header of an r x c matrix. *)
Definition mheader (r c : nat) : string := "M " ++ show_nat r ++ " " ++ show_nat c.
(** What the elements are before they are read: the target resized to r x c. *)
Definition kept (R C : nat) (f : nat -> nat -> Z) (i j : nat) : Z := if (i <? R) && (j <? C) then f i j else 0%Z.

Lemma read_mheader m r c t lead : is_size r -> is_size c -> nodigit t -> blank lead ->
  read_m lo hi m (good (lead ++ mheader r c ++ t)) =
  let* m := mat_resize m r c in
  for_range 0 (rows m) (fun r st =>
    for_range 0 (cols m) (fun c (st : Matrix Z * istream) =>
      let* st' := in_elem lo hi (mat_idx (fst st) r c) (data (fst st), snd st) in
      Ok (mkM (rows (fst st)) (cols (fst st)) (fst st'), snd st')) st) (m, good t).
Proof.
  intros Hr Hc Ht Hb. unfold mheader, read_m. rewrite app_assoc_s. cbn [String.append]. rewrite get_char_at by auto.
  cbn [Ascii.eqb Bool.eqb negb].
  assert (ET : String " " ((show_nat r ++ String " " (show_nat c)) ++ t) = " " ++ show_nat r ++ (" " ++ show_nat c ++ t)).
  { cbn [String.append]. f_equal. rewrite app_assoc_s. reflexivity. }
  rewrite ET. rewrite (get_size_at " " r) by (cbn; auto). rewrite (get_size_at " " c) by (cbn; auto).
  rewrite !Nnat.Nat2N.id. reflexivity.
Qed.
(** The element loop over a matrix is the element loop over its buffer. *)
Lemma matrix_as_vector m R C f r c lead text (res : list Z -> list Z) s :
  is_mat m R C f -> shape_ok r c -> nodigit text -> blank lead ->
  (forall d, length d = r * c -> read_v lo hi d (good ("" ++ header (r * c) ++ text)) = Ok (res d, s)) ->
  exists m1, is_mat m1 r c (kept R C f) /\
    read_m lo hi m (good (lead ++ mheader r c ++ text)) = Ok (mkM r c (res (data m1)), s).
Proof.
  intros Hm Hs Ht Hb H. destruct (C09_resize m R C f r c Hm Hs) as (m1 & E1 & H1). exists m1. split; [exact H1|].
  destruct H1 as (R1 & C1 & _ & L1 & _). pose proof Hs as (Sr & Sc & Sf).
  rewrite read_mheader by auto. rewrite E1. cbn [bind]. rewrite read_nested by (rewrite R1, C1; auto). rewrite R1, C1.
  specialize (H (data m1) L1). rewrite read_header in H by (cbn; auto).
  rewrite firstn_all2 in H by lia. rewrite L1, Nat.sub_diag in H. cbn [repeat] in H. rewrite app_nil_r in H.
  rewrite H. reflexivity.
Qed.
Lemma list_mat r c (d : list Z) : shape_ok r c -> length d = r * c -> is_mat (mkM r c d) r c (fun i j => nth (i * c + j) d 0%Z).
Proof. intros Hs Hl. apply (wf_is_mat 0%Z (mkM r c d)). split; auto. Qed.
Lemma is_mat_ext {T} (m : Matrix T) r c f g : is_mat m r c f -> (forall i j, i < r -> j < c -> f i j = g i j) -> is_mat m r c g.
Proof.
  intros (A1 & A2 & A3 & A4 & A5) H. repeat split; auto; try apply A3. intros i j Hi Hj. rewrite A5 by auto. now rewrite H.
Qed.
Lemma old_kept m1 r c g i j : is_mat m1 r c g -> i < r -> j < c -> old (data m1) (i * c + j) = g i j.
Proof.
  intros (_ & _ & _ & _ & A5) Hi Hj. unfold old. apply nth_error_nth. auto.
Qed.
Lemma nth_mid (l tl : list Z) (x : Z) (g : nat -> Z) n k : length l < n -> k < n ->
  nth k (l ++ x :: map g (seq (S (length l)) (n - S (length l))))%list 0%Z =
  if k <? length l then nth k l 0%Z else if k =? length l then x else g k.
Proof.
  intros Hl Hk. destruct (Nat.ltb_spec k (length l)); [now rewrite app_nth1|].
  rewrite app_nth2 by lia. destruct (Nat.eqb_spec k (length l)) as [->|N]; [now rewrite Nat.sub_diag|].
  destruct (k - length l) as [|q] eqn:Eq; [lia|]. cbn [nth].
  rewrite (nth_indep _ 0%Z (g 0)) by (rewrite map_length, seq_length; lia). rewrite map_nth, seq_nth by lia. f_equal. lia.
Qed.
Lemma nth_end (l : list Z) (g : nat -> Z) n k : length l < n -> k < n ->
  nth k (l ++ map g (seq (length l) (n - length l)))%list 0%Z = if k <? length l then nth k l 0%Z else g k.
Proof.
  intros Hl Hk. destruct (Nat.ltb_spec k (length l)); [now rewrite app_nth1|].
  rewrite app_nth2 by lia.
  rewrite (nth_indep _ 0%Z (g 0)) by (rewrite map_length, seq_length; lia). rewrite map_nth, seq_nth by lia. f_equal. lia.
Qed.

(** Element (i,j) is the (i*c+j)-th number of the file.  Something that is not a number:
    the elements before it are stored, that element becomes 0, the following ones are
    those of the resized target, and the stream fails in front of the character. *)
Theorem C77_matrix_bad_element : forall m R C f r c lead plus l text ch t,
  is_mat m R C f -> shape_ok r c -> length l < r * c -> blank lead -> nodigit text ->
  toks plus l text (String ch t) -> Forall (in_range lo hi) l -> not_number ch ->
  exists m', read_m lo hi m (good (lead ++ mheader r c ++ text)) = Ok (m', mkIn (String ch t) true false) /\
    is_mat m' r c (fun i j => let k := i * c + j in
      if k <? length l then nth k l 0%Z else if k =? length l then 0%Z else kept R C f i j).
Proof.
  intros m R C f r c lead plus l text ch t Hm Hs Hl Hb Hd Ht HF Hn. pose proof Hs as (_ & _ & Hf).
  destruct (matrix_as_vector m R C f r c lead text _ _ Hm Hs Hd Hb
    (fun d _ => C77_bad_element lo hi (r * c) d "" plus l text ch t Hf Hl I Hd Ht HF Hn)) as (m1 & H1 & E).
  eexists. split; [exact E|]. eapply is_mat_ext.
  - apply list_mat; [auto|]. rewrite app_length. cbn [length]. rewrite map_length, seq_length. lia.
  - intros i j Hi Hj. cbv zeta beta. rewrite nth_mid; [|exact l|lia|apply idx_lt; auto].
    rewrite (old_kept m1 r c _ i j H1) by auto. reflexivity.
Qed.
(** The file ends too early. *)
Theorem C77_matrix_truncated : forall m R C f r c lead plus l text,
  is_mat m R C f -> shape_ok r c -> length l < r * c -> blank lead -> nodigit text ->
  toks plus l text "" -> Forall (in_range lo hi) l ->
  exists m', read_m lo hi m (good (lead ++ mheader r c ++ text)) = Ok (m', mkIn "" true true) /\
    is_mat m' r c (fun i j => let k := i * c + j in if k <? length l then nth k l 0%Z else kept R C f i j).
Proof.
  intros m R C f r c lead plus l text Hm Hs Hl Hb Hd Ht HF. pose proof Hs as (_ & _ & Hf).
  destruct (matrix_as_vector m R C f r c lead text _ _ Hm Hs Hd Hb
    (fun d _ => C77_truncated lo hi (r * c) d "" plus l text Hf Hl I Hd Ht HF)) as (m1 & H1 & E).
  eexists. split; [exact E|]. eapply is_mat_ext.
  - apply list_mat; [auto|]. rewrite app_length, map_length, seq_length. lia.
  - intros i j Hi Hj. cbv zeta beta. rewrite nth_end; [|lia|apply idx_lt; auto].
    rewrite (old_kept m1 r c _ i j H1) by auto. reflexivity.
Qed.
(** A value that the element type cannot hold. *)
Theorem C77_matrix_out_of_range : forall m R C f r c lead plus l text z t,
  is_mat m R C f -> shape_ok r c -> length l < r * c -> blank lead -> nodigit text -> nodigit t ->
  toks plus l text (show_Z false z ++ t) -> Forall (in_range lo hi) l -> (lo <= hi)%Z -> ~ in_range lo hi z ->
  exists m', read_m lo hi m (good (lead ++ mheader r c ++ text)) = Ok (m', mkIn t true false) /\
    is_mat m' r c (fun i j => let k := i * c + j in
      if k <? length l then nth k l 0%Z else if k =? length l then (if (z <? lo)%Z then lo else hi) else kept R C f i j).
Proof.
  intros m R C f r c lead plus l text z t Hm Hs Hl Hb Hd Hnt Ht HF Hlh Hz. pose proof Hs as (_ & _ & Hf).
  destruct (matrix_as_vector m R C f r c lead text _ _ Hm Hs Hd Hb
    (fun d _ => C77_out_of_range lo hi (r * c) d "" plus l text z t Hf Hl I Hd Hnt Ht HF Hlh Hz)) as (m1 & H1 & E).
  eexists. split; [exact E|]. eapply is_mat_ext.
  - apply list_mat; [auto|]. rewrite app_length. cbn [length]. rewrite map_length, seq_length. lia.
  - intros i j Hi Hj. cbv zeta beta. rewrite nth_mid; [|exact l|lia|apply idx_lt; auto].
    rewrite (old_kept m1 r c _ i j H1) by auto. reflexivity.
Qed.
Lemma get_size_bad w ch t : blank w -> not_number ch -> get_size (good (w ++ String ch t)) = (Some 0%N, mkIn (String ch t) true false).
Proof.
  intros Hw (N1 & N2 & N3 & N4). unfold get_size. rewrite sentry_at by auto. cbv beta iota zeta. cbn [scan_sign].
  apply Ascii.eqb_neq in N3, N4. rewrite N3, N4. cbv beta iota zeta. cbn [scan]. rewrite N2. reflexivity.
Qed.
(** No row count: the column count is used without having been set. *)
Theorem C77_matrix_bad_rows : forall m lead w ch t, blank lead -> blank w -> not_number ch ->
  read_m lo hi m (good (lead ++ "M" ++ w ++ String ch t)) = UB.
Proof.
  intros m lead w ch t Hb Hw Hn. unfold read_m. cbn [String.append]. rewrite get_char_at by auto.
  cbn [Ascii.eqb Bool.eqb negb]. rewrite get_size_bad by auto. unfold get_size, sentry. reflexivity.
Qed.
(** A row count but no column count: the target gets no columns and the stream fails; at
    the end of the file the column count is used without having been set. *)
Theorem C77_matrix_bad_cols : forall m R C f lead r w ch t, is_mat m R C f -> blank lead -> is_size r -> w <> "" -> blank w -> not_number ch ->
  exists m', read_m lo hi m (good (lead ++ "M " ++ show_nat r ++ w ++ String ch t)) = Ok (m', mkIn (String ch t) true false) /\ is_mat m' r 0 (fun _ _ => 0%Z).
Proof.
  intros m R C f lead r w ch t Hm Hb Hr Hw0 Hw Hn. unfold read_m. cbn [String.append]. rewrite get_char_at by auto.
  cbn [Ascii.eqb Bool.eqb negb]. change (String " " (show_nat r ++ w ++ String ch t)) with (" " ++ show_nat r ++ (w ++ String ch t)).
  assert (Hd : nodigit (w ++ String ch t)).
  { destruct w as [|a w]; [contradiction|]. destruct Hw as [Ha _]. cbn. destruct (digit a) eqn:E; [|reflexivity]. exfalso.
    destruct (digit_head a); [unfold is_digit; congruence|congruence]. }
  rewrite (get_size_at " " r) by (cbn; auto). rewrite get_size_bad by auto. rewrite Nnat.Nat2N.id.
  assert (Hs : shape_ok r 0) by (split; [auto|split; [reflexivity|rewrite Nat.mul_0_r; apply fits_0]]).
  destruct (C09_resize m R C f r 0 Hm Hs) as (m1 & E1 & H1). change (N.to_nat 0) with 0. rewrite E1. cbn [bind].
  pose proof H1 as (R1 & C1 & _). rewrite read_nested by (rewrite R1, C1; auto). rewrite R1, C1, Nat.mul_0_r. cbn [for_n bind fst snd].
  eexists. split; [reflexivity|]. destruct H1 as (_ & _ & _ & L1 & _). split; [reflexivity|split; [reflexivity|split; [auto|split; [exact L1|]]]].
  intros i j Hi Hj. lia.
Qed.
Theorem C77_matrix_no_cols : forall m lead r w, blank lead -> is_size r -> w <> "" -> blank w ->
  read_m lo hi m (good (lead ++ "M " ++ show_nat r ++ w)) = UB.
Proof.
  intros m lead r w Hb Hr Hw0 Hw. unfold read_m. cbn [String.append]. rewrite get_char_at by auto.
  cbn [Ascii.eqb Bool.eqb negb]. change (String " " (show_nat r ++ w)) with (" " ++ show_nat r ++ w).
  assert (Hd : nodigit w).
  { destruct w as [|a w]; [contradiction|]. destruct Hw as [Ha _]. cbn. destruct (digit a) eqn:E; [|reflexivity]. exfalso.
    destruct (digit_head a); [unfold is_digit; congruence|congruence]. }
  rewrite (get_size_at " " r) by (cbn; auto). unfold get_size. rewrite sentry_blank by auto. reflexivity.
Qed.
(** A size that cannot be allocated is not detected. *)
Theorem C77_matrix_huge : forall m lead r c t, wf m -> blank lead -> is_size r -> is_size c -> is_size (r * c) -> ~ fits (r * c) -> nodigit t ->
  read_m lo hi m (good (lead ++ mheader r c ++ t)) = UB.
Proof.
  intros m lead r c t [[W1 [W2 W3]] W4] Hb Hr Hc Hrc Hf Ht. rewrite read_mheader by auto. unfold mat_resize.
  destruct (Nat.eqb_spec (cols m) c) as [Ec|Nc].
  - subst c. destruct (Nat.eqb_spec (rows m) r) as [Er|Nr]; [subst r; contradiction|]. cbn [andb].
    rewrite mul64_small by auto. rewrite vec_allocate_ub; [reflexivity|auto|]. intros E. apply Hf. rewrite E, W4. exact W3.
  - rewrite Bool.andb_false_r. unfold mat_new. rewrite mul64_small by auto. unfold vec_fill, vec_new.
    rewrite vec_allocate_ub; [reflexivity|auto|]. cbn [length]. intros E. apply Hf. rewrite E. apply fits_0.
Qed.
End DamagedMatrix.

(** * C78: any chain *)
(** What an ostream gets for one item. *)
Definition plain_text (x : witem) : Res string :=
  match x with
  | WVec v => print_v (show_Z false) (show_Z false) v
  | WMat A => print_m (show_Z false) (show_Z false) A
  | WText t => Ok t
  end.
Fixpoint plain_texts (l : list witem) : Res string :=
  match l with nil => Ok "" | x :: l' => let* s := plain_text x in let* s' := plain_texts l' in Ok (s ++ s') end.
(** [f << a << b ... << text << rest...]: what comes before the first text is written as
    tagged records, everything after it untagged. *)
Theorem C78_after_text : forall recs t rest,
  write_chain true (map as_item recs ++ WText t :: rest) =
  let* s := write_all recs in let* s' := plain_texts rest in Ok (s ++ t ++ s').
Proof.
  assert (P : forall l, write_chain false l = plain_texts l).
  { induction l as [|x l IH]; [reflexivity|]. destruct x; cbn [write_chain plain_texts plain_text]; rewrite IH; reflexivity. }
  induction recs as [|x recs IH]; intros t rest.
  - cbn [map app write_chain write_all bind]. rewrite P. destruct (plain_texts rest); reflexivity.
  - destruct x as [l|m]; cbn [map as_item app write_chain write_all write_rec]; rewrite IH.
    + destruct (write_v (show_Z false) (show_Z false) l); try reflexivity. cbn [bind].
      destruct (write_all recs); try reflexivity. cbn [bind]. destruct (plain_texts rest); try reflexivity. cbn [bind]. now rewrite app_assoc_s.
    + destruct (write_m (show_Z false) (show_Z false) (mb_of_mat m)); try reflexivity. cbn [bind].
      destruct (write_all recs); try reflexivity. cbn [bind]. destruct (plain_texts rest); try reflexivity. cbn [bind]. now rewrite app_assoc_s.
Qed.
(** A non-empty matrix written after white space is not read back. *)
Theorem C78_matrix_after_text_refuted : forall lo hi blanks A r c f target, blank blanks -> readsL A r c f -> 0 < r -> 0 < c ->
  exists txt s, write_chain true [WText blanks; WMat A] = Ok txt /\ read_m lo hi target (good txt) = Ok (target, s).
Proof.
  intros lo hi blanks A r c f target Hb HA Hr Hc. cbn [write_chain].
  destruct (C70_matrix (show_Z false) A r c f HA) as (w & E & _). rewrite E. cbn [bind].
  destruct r as [|r]; [lia|]. destruct c as [|c]; [lia|].
  assert (J : forall sep n g, exists t, joined sep (S n) g = g 0 ++ t).
  { intros sep n g. unfold joined. cbn [seq map]. destruct n; [exists ""; cbn; now rewrite app_nil_s|]. rewrite IOFacts.concat_cons by discriminate. eauto. }
  destruct (J nl r (fun i => joined " " (S c) (fun j => setw w (show_Z false (f i j))))) as (t1 & ->).
  destruct (J " " c (fun j => setw w (show_Z false (f 0 j)))) as (t2 & ->).
  destruct (show_head false (f 0 0)) as (ch & s & Ec & H1 & _ & H3 & _). destruct (setw_show false w (f 0 0)) as (ws & Hws & Es). rewrite Es, Ec, !app_assoc_s.
  eexists. exists (good (s ++ t2 ++ t1)). split; [rewrite app_nil_s; reflexivity|].
  rewrite <- app_assoc_s. cbn [String.append]. apply C69_wrong_tag_matrix; auto. now apply blank_app.
Qed.

(** * C70: the text determines what was printed *)
(** The first character that is neither white space nor part of a number. *)
Definition stopped (r : string) : Prop := exists ch t, r = String ch t /\ not_number ch.
Lemma show_head2 z : exists c s, show_Z false z = String c s /\ isspace c = false /\ (is_digit c \/ c = "-"%char).
Proof.
  unfold show_Z. cbn [andb String.append]. destruct (Z.to_int z) as [u|u]; cbn [NilZero.string_of_int].
  - destruct (uint_head u) as (c & s & E & Hc). exists c, s. split; [exact E|]. destruct (digit_head c Hc) as [H1 _]. auto.
  - eexists. eexists. split; [reflexivity|]. split; [reflexivity|]. auto.
Qed.
Lemma blank_split w w' a b s s' : blank w -> blank w' -> isspace a = false -> isspace b = false ->
  w ++ String a s = w' ++ String b s' -> String a s = String b s'.
Proof.
  revert w'. induction w as [|x w IH]; intros [|x' w'] H1 H2 Ha Hb E; cbn in *.
  - exact E.
  - injection E as -> _. destruct H2 as [H2 _]. congruence.
  - injection E as <- _. destruct H1 as [H1 _]. congruence.
  - injection E as _ E. destruct H1 as [_ H1], H2 as [_ H2]. exact (IH w' H1 H2 Ha Hb E).
Qed.
Lemma toks_unique l s r : toks false l s r -> stopped r -> forall l' r', toks false l' s r' -> stopped r' -> l = l' /\ r = r'.
Proof.
  intros H. induction H as [w r H|w z l s r H1 H2 H3 IH]; intros (ch & t & -> & N) l' r' Ht (ch' & t' & -> & N').
  - inversion Ht as [w' ? Hw' E1 E2 E3|w' z' l1 s1 ? Hw' Hs1 Ht1 E1 E2 E3]; subst.
    + split; [reflexivity|]. symmetry. eapply blank_split; [| | | |exact E2]; auto; [apply N'|apply N].
    + destruct (show_head2 z') as (c & s & Es & Hs & Hc). rewrite Es in E2. cbn [String.append] in E2.
      apply blank_split in E2; auto; [|apply N]. injection E2 as -> _. destruct N as (_ & N2 & N3 & _).
      destruct Hc as [Hc|Hc]; [|contradiction]. unfold is_digit in Hc. contradiction.
  - inversion Ht as [w' ? Hw' E1 E2 E3|w' z' l1 s1 ? Hw' Hs1 Ht1 E1 E2 E3]; subst.
    + destruct (show_head2 z) as (c & s' & Es & Hs & Hc). rewrite Es in E2. cbn [String.append] in E2.
      apply blank_split in E2; auto; [|apply N']. injection E2 as -> _. destruct N' as (_ & N2 & N3 & _).
      destruct Hc as [Hc|Hc]; [|contradiction]. unfold is_digit in Hc. contradiction.
    + destruct (show_head2 z) as (c & s' & Es & Hs & Hc). destruct (show_head2 z') as (c' & s'' & Es' & Hs' & Hc').
      assert (E : show_Z false z' ++ s1 = show_Z false z ++ s).
      { rewrite Es, Es' in E2 |- *. cbn [String.append] in E2 |- *. eapply blank_split; [| | | |exact E2]; auto. }
      apply show_inj in E; auto. destruct E as [-> ->].
      destruct (IH ltac:(exists ch, t; auto) _ _ Ht1 ltac:(exists ch', t'; auto)) as [-> ->]. auto.
Qed.
(** The number of lines ends. *)
Fixpoint newlines (s : string) : nat :=
  match s with "" => 0 | String c s' => (if Ascii.eqb c (ascii_of_nat 10) then 1 else 0) + newlines s' end.
Lemma newlines_app a b : newlines (a ++ b) = newlines a + newlines b.
Proof. induction a as [|c a IH]; cbn; [reflexivity|]. rewrite IH. lia. Qed.
Lemma newlines_spaces n : newlines (spaces n) = 0.
Proof. induction n; auto. Qed.
Lemma newlines_uint u : newlines (NilEmpty.string_of_uint u) = 0.
Proof. induction u; auto. Qed.
Lemma newlines_show z : newlines (show_Z false z) = 0.
Proof.
  unfold show_Z. cbn [andb String.append]. destruct (Z.to_int z) as [u|u]; cbn [NilZero.string_of_int].
  - destruct u; [reflexivity|..]; apply newlines_uint.
  - cbn. destruct u; [reflexivity|..]; apply newlines_uint.
Qed.
Lemma newlines_joined sep n t k : (forall i, i < n -> newlines (t i) = k) -> newlines (joined sep n t) = n * k + (n - 1) * newlines sep.
Proof.
  unfold joined. assert (G : forall n lo, (forall i, lo <= i < lo + n -> newlines (t i) = k) ->
    newlines (String.concat sep (map t (seq lo n))) = n * k + (n - 1) * newlines sep).
  { clear. induction n as [|n IH]; intros lo H; [reflexivity|]. cbn [seq map]. destruct n as [|n].
    - cbn [seq map String.concat]. rewrite H by lia. lia.
    - rewrite IOFacts.concat_cons by discriminate. rewrite !newlines_app, IH by (intros; apply H; lia). rewrite H by lia. nia. }
  intros H. apply G. intros. apply H. lia.
Qed.
Lemma newlines_rows w r c (f : nat -> nat -> Z) : newlines (joined nl r (fun i => joined " " c (fun j => setw w (show_Z false (f i j))))) = r - 1.
Proof.
  rewrite (newlines_joined nl r _ 0).
  - cbn. lia.
  - intros i _. rewrite (newlines_joined " " c _ 0); [cbn; lia|]. intros j _. unfold setw. rewrite newlines_app, newlines_spaces, newlines_show. reflexivity.
Qed.
Lemma elems_inj {T} r c (f g : nat -> nat -> T) : elems r c f = elems r c g -> forall i j, i < r -> j < c -> f i j = g i j.
Proof.
  intros E i j Hi Hj. pose proof (elems_nth r c f i j Hi Hj) as E1. rewrite E, (elems_nth r c g i j Hi Hj) in E1. now injection E1 as ->.
Qed.
(** Two printed matrices followed by the same kind of text. *)
Lemma rows_inj w w' r c f r' c' f' t t' : 0 < r -> 0 < c -> 0 < r' -> 0 < c' -> stopped t -> stopped t' ->
  joined nl r (fun i => joined " " c (fun j => setw w (show_Z false (f i j)))) ++ nl ++ t =
  joined nl r' (fun i => joined " " c' (fun j => setw w' (show_Z false (f' i j)))) ++ nl ++ t' ->
  r = r' /\ c = c' /\ t = t' /\ forall i j, i < r -> j < c -> f i j = f' i j.
Proof.
  intros Hr Hc Hr' Hc' St St' E.
  assert (K : forall w r c f t, toks false (elems r c f) (joined nl r (fun i => joined " " c (fun j => setw w (show_Z false (f i j)))) ++ nl ++ t) t).
  { clear. intros w r c f t. rewrite <- (app_nil_r (elems r c f)). eapply toks_app; [apply (toks_rows false w f r c t 0)|].
    apply (toks_nil false nl t). cbn. auto. }
  pose proof (K w r c f t) as K1. pose proof (K w' r' c' f' t') as K2. rewrite <- E in K2.
  destruct (toks_unique _ _ _ K1 St _ _ K2 St') as [El Et]. subst t'.
  assert (L : r * c = r' * c') by (rewrite <- (elems_length r c f), <- (elems_length r' c' f'); now rewrite El).
  assert (N : r = r').
  { apply (f_equal newlines) in E. rewrite !newlines_app, !newlines_rows in E. lia. }
  subst r'. assert (c = c') by nia. subst c'. split; [auto|]. split; [auto|]. split; [auto|]. now apply elems_inj.
Qed.
(** The printed text of a non-empty integer matrix determines its shape and elements. *)
Theorem C70_matrix_injective : forall A r c f A' r' c' f', readsL A r c f -> readsL A' r' c' f' -> 0 < r -> 0 < c -> 0 < r' -> 0 < c' ->
  print_m (show_Z false) (show_Z false) A = print_m (show_Z false) (show_Z false) A' ->
  r = r' /\ c = c' /\ forall i j, i < r -> j < c -> f i j = f' i j.
Proof.
  intros A r c f A' r' c' f' H H' Hr Hc Hr' Hc' E.
  destruct (C70_matrix (show_Z false) A r c f H) as (w & Ew & _). destruct (C70_matrix (show_Z false) A' r' c' f' H') as (w' & Ew' & _).
  rewrite Ew, Ew' in E. injection E as E.
  destruct (rows_inj w w' r c f r' c' f' "x" "x") as (E1 & E2 & _ & E3); auto.
  - exists "x"%char, "". split; [reflexivity|]. repeat split; discriminate.
  - exists "x"%char, "". split; [reflexivity|]. repeat split; discriminate.
  - now rewrite E.
Qed.
(** An empty one does not: a 0 x 2 and a 1 x 0 matrix are printed alike. *)
Theorem C70_empty_refuted : print_m (show_Z false) (show_Z false) (mb_of_mat (mkM 0 2 nil)) = Ok "" /\
  print_m (show_Z false) (show_Z false) (mb_of_mat (mkM 1 0 nil)) = Ok "".
Proof. split; reflexivity. Qed.

(** * C70: state-space models *)
(** A named matrix: its name, then its rows. *)
Definition block {T} (sh : T -> string) (name : string) (w r c : nat) (f : nat -> nat -> T) : string :=
  name ++ " =" ++ nl ++ joined nl r (fun i => joined " " c (fun j => setw w (sh (f i j)))) ++ nl.
Section SSText.
Context {T : Type}.
Variable sh : T -> string.
Variables (A B C D : Matrix T) (ra ca rb cb rc cc rd cd : nat) (fa fb fc fd : nat -> nat -> T).
Hypotheses (HA : is_mat A ra ca fa) (HB : is_mat B rb cb fb) (HC : is_mat C rc cc fc) (HD : is_mat D rd cd fd).
Theorem C70_state_space : exists wa wb wc wd,
  print_ss sh sh (mkSS A B C D) = Ok (block sh "A" wa ra ca fa ++ block sh "B" wb rb cb fb ++ block sh "C" wc rc cc fc ++ block sh "D" wd rd cd fd ++
    "Continuous-time state-space model." ++ nl) /\
  forall ts, print_dss sh sh (mkDSS (mkSS A B C D) ts) =
    Ok (block sh "A" wa ra ca fa ++ block sh "B" wb rb cb fb ++ block sh "C" wc rc cc fc ++ block sh "D" wd rd cd fd ++
      "Sample time: " ++ sh ts ++ " seconds" ++ nl ++ "Discrete-time state-space model." ++ nl).
Proof.
  destruct (C70_matrix sh _ _ _ _ (is_mat_readsL _ _ _ _ HA)) as (wa & Ea & _). destruct (C70_matrix sh _ _ _ _ (is_mat_readsL _ _ _ _ HB)) as (wb & Eb & _).
  destruct (C70_matrix sh _ _ _ _ (is_mat_readsL _ _ _ _ HC)) as (wc & Ec & _). destruct (C70_matrix sh _ _ _ _ (is_mat_readsL _ _ _ _ HD)) as (wd & Ed & _).
  exists wa, wb, wc, wd. split.
  - unfold print_ss. cbn [sA sB sC sD]. rewrite Ea, Eb, Ec, Ed. cbn [bind]. f_equal. unfold block. rewrite !app_assoc_s. reflexivity.
  - intros ts. unfold print_dss. cbn [sA sB sC sD dsys sample_time]. rewrite Ea, Eb, Ec, Ed. cbn [bind]. f_equal. unfold block. rewrite !app_assoc_s. reflexivity.
Qed.
End SSText.
(** The printed text of a state-space model with non-empty integer matrices determines
    the model; so does that of a discrete one, with its sample time. *)
Definition same_mat (m m' : Matrix Z) : Prop := wf m /\ wf m' /\ 0 < rows m /\ 0 < cols m /\ 0 < rows m' /\ 0 < cols m'.
Lemma block_split name w r c f w' r' c' f' t t' : 0 < r -> 0 < c -> 0 < r' -> 0 < c' -> stopped t -> stopped t' ->
  block (show_Z false) name w r c f ++ t = block (show_Z false) name w' r' c' f' ++ t' ->
  r = r' /\ c = c' /\ t = t' /\ forall i j, i < r -> j < c -> f i j = f' i j.
Proof.
  intros H1 H2 H3 H4 H5 H6 E. unfold block in E. rewrite !app_assoc_s in E. apply app_cancel in E. apply app_cancel in E. apply app_cancel in E.
  eapply rows_inj; [..|exact E]; auto.
Qed.
Lemma ok_inj (a b : string) : Ok a = Ok b -> a = b.
Proof. intros E. congruence. Qed.
Lemma stopped_app c t t' : not_number c -> stopped (String c t ++ t').
Proof. intros H. exists c, (t ++ t'). auto. Qed.
Lemma mat_eq (m m' : Matrix Z) : wf m -> wf m' -> rows m = rows m' -> cols m = cols m' ->
  (forall i j, i < rows m -> j < cols m -> nth (i * cols m + j) (data m) 0%Z = nth (i * cols m' + j) (data m') 0%Z) -> m = m'.
Proof.
  intros H H' Er Ec E. eapply is_mat_unique; [apply (wf_is_mat 0%Z m H)|]. eapply is_mat_ext.
  - rewrite Er, Ec. apply (wf_is_mat 0%Z m' H').
  - intros i j Hi Hj. symmetry. now apply E.
Qed.
Theorem C70_state_space_injective : forall A B C D A' B' C' D',
  same_mat A A' -> same_mat B B' -> same_mat C C' -> same_mat D D' ->
  (print_ss (show_Z false) (show_Z false) (mkSS A B C D) = print_ss (show_Z false) (show_Z false) (mkSS A' B' C' D') ->
    mkSS A B C D = mkSS A' B' C' D') /\
  (forall ts ts', print_dss (show_Z false) (show_Z false) (mkDSS (mkSS A B C D) ts) = print_dss (show_Z false) (show_Z false) (mkDSS (mkSS A' B' C' D') ts') ->
    mkDSS (mkSS A B C D) ts = mkDSS (mkSS A' B' C' D') ts').
Proof.
  intros A B C D A' B' C' D' (HA & HA' & A1 & A2 & A3 & A4) (HB & HB' & B1 & B2 & B3 & B4) (HC & HC' & C1 & C2 & C3 & C4) (HD & HD' & D1 & D2 & D3 & D4).
  destruct (C70_state_space (show_Z false) A B C D _ _ _ _ _ _ _ _ _ _ _ _ (wf_is_mat 0%Z A HA) (wf_is_mat 0%Z B HB) (wf_is_mat 0%Z C HC) (wf_is_mat 0%Z D HD))
    as (wa & wb & wc & wd & E1 & E2).
  destruct (C70_state_space (show_Z false) A' B' C' D' _ _ _ _ _ _ _ _ _ _ _ _ (wf_is_mat 0%Z A' HA') (wf_is_mat 0%Z B' HB') (wf_is_mat 0%Z C' HC') (wf_is_mat 0%Z D' HD'))
    as (wa' & wb' & wc' & wd' & E1' & E2').
  assert (K : forall t t', stopped t -> stopped t' ->
    block (show_Z false) "A" wa (rows A) (cols A) (fun i j => nth (i * cols A + j) (data A) 0%Z) ++
    block (show_Z false) "B" wb (rows B) (cols B) (fun i j => nth (i * cols B + j) (data B) 0%Z) ++
    block (show_Z false) "C" wc (rows C) (cols C) (fun i j => nth (i * cols C + j) (data C) 0%Z) ++
    block (show_Z false) "D" wd (rows D) (cols D) (fun i j => nth (i * cols D + j) (data D) 0%Z) ++ t =
    block (show_Z false) "A" wa' (rows A') (cols A') (fun i j => nth (i * cols A' + j) (data A') 0%Z) ++
    block (show_Z false) "B" wb' (rows B') (cols B') (fun i j => nth (i * cols B' + j) (data B') 0%Z) ++
    block (show_Z false) "C" wc' (rows C') (cols C') (fun i j => nth (i * cols C' + j) (data C') 0%Z) ++
    block (show_Z false) "D" wd' (rows D') (cols D') (fun i j => nth (i * cols D' + j) (data D') 0%Z) ++ t' ->
    mkSS A B C D = mkSS A' B' C' D' /\ t = t').
  { intros t t' St St' E.
    apply block_split in E; auto; try (apply stopped_app; repeat split; discriminate). destruct E as (Ra & Ca & E & Fa).
    apply block_split in E; auto; try (apply stopped_app; repeat split; discriminate). destruct E as (Rb & Cb & E & Fb).
    apply block_split in E; auto; try (apply stopped_app; repeat split; discriminate). destruct E as (Rc & Cc & E & Fc).
    apply block_split in E; auto. destruct E as (Rd & Cd & E & Fd). split; [|exact E].
    f_equal; apply mat_eq; auto. }
  split.
  - intros E. rewrite E1, E1' in E. apply ok_inj in E. apply K in E; [apply E|..]; apply stopped_app; repeat split; discriminate.
  - intros ts ts' E. rewrite E2, E2' in E. apply ok_inj in E. apply K in E; try (apply stopped_app; repeat split; discriminate).
    destruct E as [-> E]. apply app_cancel in E. apply show_inj in E; [|reflexivity|reflexivity]. now destruct E as [-> _].
Qed.

(** * Concrete cases *)
Example C77_matrix_ex : read_m (-128) 127 (mkM 2 3 [7;8;9;10;11;12]%Z) (good (mheader 3 2 ++ nl ++ "1 2" ++ nl ++ "x 4" ++ nl)) =
    Ok (mkM 3 2 [1;2;0;11;0;0]%Z, mkIn ("x 4" ++ nl) true false) /\
  read_m (-128) 127 (mkM 2 3 [7;8;9;10;11;12]%Z) (good (mheader 3 2 ++ nl ++ "1 ")) = Ok (mkM 3 2 [1;8;10;11;0;0]%Z, mkIn "" true true) /\
  read_m (-128) 127 (mkM 2 3 [7;8;9;10;11;12]%Z) (good (mheader 3 2 ++ nl ++ "1 -200 3" ++ nl)) =
    Ok (mkM 3 2 [1;-128;10;11;0;0]%Z, mkIn (" 3" ++ nl) true false) /\
  toks false [1;2]%Z (nl ++ "1 2" ++ nl ++ "x 4" ++ nl) (String "x" (" 4" ++ nl)) /\
  is_mat (mkM 2 3 [7;8;9;10;11;12]%Z) 2 3 (fun i j => nth (i * 3 + j) [7;8;9;10;11;12]%Z 0%Z).
Proof.
  split; [reflexivity|]. split; [reflexivity|]. split; [reflexivity|]. split.
  - apply (toks_cons false nl 1%Z [2]%Z (" 2" ++ nl ++ "x 4" ++ nl)); [cbn; auto|reflexivity|].
    apply (toks_cons false " " 2%Z nil (nl ++ "x 4" ++ nl)); [cbn; auto|reflexivity|]. apply (toks_nil false nl). cbn. auto.
  - apply (wf_is_mat 0%Z (mkM 2 3 [7;8;9;10;11;12]%Z)). split; [split; [reflexivity|split; reflexivity]|reflexivity].
Qed.
Example C77_matrix_header_ex : read_m (-128) 127 (mkM 1 1 [7]%Z) (good "M x 2") = UB /\
  read_m (-128) 127 (mkM 1 1 [7]%Z) (good "M 2 x") = Ok (mkM 2 0 nil, mkIn "x" true false) /\ read_m (-128) 127 (mkM 1 1 [7]%Z) (good "M 2 ") = UB.
Proof. repeat split; reflexivity. Qed.
Example C78_after_text_ex : write_chain true [WVec [1]%Z; WText nl; WVec [5]%Z; WMat (mb_of_mat (mkM 1 1 [7]%Z))] = Ok ("V 1" ++ nl ++ "1" ++ nl ++ nl ++ "5" ++ "7").
Proof. reflexivity. Qed.
Example C70_state_space_ex : let m := mkM 1 2 [1;-2]%Z in same_mat m m /\
  print_dss (show_Z false) (show_Z false) (mkDSS (mkSS m m m m) 3%Z) = Ok (
    "A =" ++ nl ++ " 1 -2" ++ nl ++ "B =" ++ nl ++ " 1 -2" ++ nl ++ "C =" ++ nl ++ " 1 -2" ++ nl ++ "D =" ++ nl ++ " 1 -2" ++ nl ++
    "Sample time: 3 seconds" ++ nl ++ "Discrete-time state-space model." ++ nl).
Proof.
  cbv zeta. split; [|reflexivity]. assert (W : wf (mkM 1 2 [1;-2]%Z)) by (split; [split; [reflexivity|split; reflexivity]|reflexivity]).
  repeat split; auto; try apply W; cbn; lia.
Qed.
