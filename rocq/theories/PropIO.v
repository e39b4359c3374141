(** PropIO.v: C67-C71, text output and file input/output. *)
From Coq Require Import String Ascii.
From Verif Require Import MatFacts PropMatrix IO IOSpec IOFacts Scalar.
Local Open Scope string_scope.
Local Open Scope nat_scope.

Lemma vec_as_fun {T} (l : list T) (d : T) : fits (length l) -> is_vec l (length l) (fun i => nth i l d).
Proof. intros H. split; [reflexivity|split; [auto|]]. intros i Hi. now apply nth_error_nth'. Qed.
Lemma map_nth_seq {T} (l : list T) d : map (fun i => nth i l d) (seq 0 (length l)) = l.
Proof.
  apply nth_ext with (d := d) (d' := d).
  - now rewrite map_length, seq_length.
  - intros i Hi. rewrite map_length, seq_length in Hi. rewrite (nth_indep _ d (nth 0 l d)) by (now rewrite map_length, seq_length).
    rewrite (map_nth (fun i => nth i l d) (seq 0 (length l)) 0 i), seq_nth by auto. reflexivity.
Qed.
Lemma vec_map {T} (v : list T) n f : is_vec v n f -> v = map f (seq 0 n).
Proof.
  intros (Hl & _ & H). apply list_ext.
  - now rewrite map_length, seq_length.
  - intros i Hi. rewrite Hl in Hi. rewrite (H i Hi). rewrite nth_error_map, nth_error_seq by auto. reflexivity.
Qed.
(** * C67: vectors *)
Section RoundTrip.
Variables (lo hi : Z).

(** [plus]: the file stream has the showpos flag. *)
Theorem C67_vector_round_trip : forall plus l target lead tail,
  fits (length l) -> Forall (in_range lo hi) l -> blank lead ->
  exists txt ws, write_v (show_Z plus) (show_Z false) l = Ok txt /\ blank ws /\
    read_v lo hi target (good (lead ++ txt ++ tail)) = Ok (l, good (ws ++ tail)).
Proof.
  intros plus l target lead tail Hf HF Hb. pose proof (vec_as_fun l 0%Z Hf) as Hv.
  destruct (Hv) as (_ & _ & Hg). unfold write_v.
  rewrite (longhest_ok (show_Z false) (length l) (lget l) (fun i => nth i l 0%Z)) by (intros; apply lget_ok; auto).
  cbn [bind]. set (w := longest _). rewrite (out_elems_ok _ w l _ _ Hv). cbn [bind].
  set (body := joined " " (length l) (fun i => setw w (show_Z plus (nth i l 0%Z)))).
  assert (HT : toks plus l (nl ++ body ++ nl ++ tail) (nl ++ tail)).
  { apply toks_ws; [cbn; auto|]. pose proof (toks_row plus w (fun i => nth i l 0%Z) (length l) tail 0) as HT.
    rewrite map_nth_seq in HT. exact HT. }
  destruct (toks_read lo hi plus l _ _ HT HF nil (firstn (length l) target ++ repeat o0 (length l - length target))%list) as (ws & Hws & E).
  { rewrite app_length, firstn_length, repeat_length. lia. }
  exists ("V " ++ show_nat (length l) ++ nl ++ body ++ nl), (ws ++ nl). split; [reflexivity|]. split; [apply blank_app; [auto|cbn; auto]|].
  unfold read_v. change ("V " ++ show_nat (length l) ++ nl ++ body ++ nl) with (String "V" (" " ++ show_nat (length l) ++ nl ++ body ++ nl)).
  cbn [String.append]. rewrite get_char_at by auto. cbn [Ascii.eqb Bool.eqb negb].
  assert (ET : String " " (show_nat (length l) ++ nl ++ body ++ nl) ++ tail = " " ++ show_nat (length l) ++ (nl ++ body ++ nl ++ tail)).
  { cbn [String.append]. f_equal. rewrite !app_assoc_s. reflexivity. }
  cbn [String.append] in ET |- *. rewrite ET.
  change (String " " (show_nat (length l) ++ nl ++ body ++ nl ++ tail)) with (" " ++ show_nat (length l) ++ nl ++ body ++ nl ++ tail).
  rewrite (get_size_at " " (length l)) by (cbn; auto). rewrite Nnat.Nat2N.id.
  rewrite (vec_allocate_ok target) by auto. cbn [bind]. unfold for_range. rewrite Nat.sub_0_r.
  replace (length (firstn (length l) target ++ repeat o0 (length l - length target))) with (length l)
    by (rewrite app_length, firstn_length, repeat_length; lia).
  cbn [app length] in E. rewrite E. rewrite app_assoc_s. reflexivity.
Qed.

(** * C68: matrices and views *)
Lemma read_nested m s : shape_ok (rows m) (cols m) ->
  for_range 0 (rows m) (fun r st =>
    for_range 0 (cols m) (fun c (st : Matrix Z * istream) =>
      let* st' := in_elem lo hi (mat_idx (fst st) r c) (data (fst st), snd st) in
      Ok (mkM (rows (fst st)) (cols (fst st)) (fst st'), snd st')) st) (m, s)
  = let* st := for_n (rows m * cols m) 0 (in_elem lo hi) (data m, s) in Ok (mkM (rows m) (cols m) (fst st), snd st).
Proof.
  destruct m as [R C d]. cbn [rows cols data]. intros Hs. unfold for_range. rewrite !Nat.sub_0_r.
  set (body := fun (r c : nat) (st : Matrix Z * istream) => let* st' := in_elem lo hi (mat_idx (fst st) r c) (data (fst st), snd st) in
      Ok (mkM (rows (fst st)) (cols (fst st)) (fst st'), snd st')).
  assert (I1 : forall r k c0 d s, r < R -> c0 + k <= C ->
    for_n k c0 (body r) (mkM R C d, s) = let* st := for_n k (r * C + c0) (in_elem lo hi) (d, s) in Ok (mkM R C (fst st), snd st)).
  { intros r. induction k as [|k IH]; intros c0 d' s' Hr Hk; [reflexivity|]. cbn [for_n]. unfold body at 1. cbn [fst snd data rows cols].
    unfold mat_idx. cbn [cols]. assert (Z1 : is_size (r * C + c0)) by (apply (shape_idx R C); auto; lia).
    assert (Z2 : is_size (r * C)) by (eapply size_le; [|exact Z1]; lia).
    rewrite (mul64_small r C) by auto. rewrite add64_small by auto.
    destruct (in_elem lo hi (r * C + c0) (d', s')) as [[d1 s1]| | | |] eqn:E; try reflexivity. cbn [bind fst snd].
    rewrite IH by lia. replace (r * C + S c0) with (S (r * C + c0)) by lia. reflexivity. }
  assert (I2 : forall k r0 d s, r0 + k <= R ->
    for_n k r0 (fun r st => for_n C 0 (body r) st) (mkM R C d, s) = let* st := for_n (k * C) (r0 * C) (in_elem lo hi) (d, s) in Ok (mkM R C (fst st), snd st)).
  { induction k as [|k IH]; intros r0 d' s' Hk; [reflexivity|]. cbn [for_n]. rewrite I1 by lia. cbn [Nat.mul]. rewrite for_n_app.
    rewrite Nat.add_0_r. destruct (for_n C (r0 * C) (in_elem lo hi) (d', s')) as [[d1 s1]| | | |] eqn:E; try reflexivity. cbn [bind fst snd].
    rewrite IH by lia. replace (S r0 * C) with (r0 * C + C) by (cbn; lia). reflexivity. }
  apply (I2 R 0 d s). lia.
Qed.
Lemma elems_length {T} r c (f : nat -> nat -> T) : length (elems r c f) = r * c.
Proof.
  unfold elems. assert (G : forall k s, length (flat_map (fun i => map (fun j => f i j) (seq 0 c)) (seq s k)) = k * c).
  { induction k as [|k IH]; intros s; [reflexivity|]. cbn [seq flat_map]. rewrite app_length, map_length, seq_length, IH. reflexivity. }
  apply G.
Qed.
Lemma elems_nth {T} r c (f : nat -> nat -> T) i j : i < r -> j < c -> nth_error (elems r c f) (i * c + j) = Some (f i j).
Proof.
  unfold elems. intros Hi Hj.
  assert (G : forall k s i, i < k -> nth_error (flat_map (fun i => map (fun j => f i j) (seq 0 c)) (seq s k)) (i * c + j) = Some (f (s + i) j)).
  { induction k as [|k IH]; intros s i' Hi'; [lia|]. cbn [seq flat_map]. destruct i' as [|i'].
    - rewrite nth_error_app1 by (rewrite map_length, seq_length; cbn; lia). cbn [Nat.mul Nat.add].
      rewrite nth_error_map, nth_error_seq by auto. rewrite Nat.add_0_r. reflexivity.
    - rewrite nth_error_app2 by (rewrite map_length, seq_length; cbn; lia). rewrite map_length, seq_length.
      replace (S i' * c + j - c) with (i' * c + j) by (cbn; lia). rewrite IH by lia. f_equal. f_equal. lia. }
  now apply (G r 0 i).
Qed.
Lemma elems_mat {T} r c (f : nat -> nat -> T) : shape_ok r c -> is_mat (mkM r c (elems r c f)) r c f.
Proof.
  intros Hs. split; [reflexivity|split; [reflexivity|split; [auto|split; [apply elems_length|]]]].
  intros i j Hi Hj. cbn [data]. now apply elems_nth.
Qed.
Lemma Forall_elems r c (f : nat -> nat -> Z) (P : Z -> Prop) : (forall i j, i < r -> j < c -> P (f i j)) -> Forall P (elems r c f).
Proof.
  intros H. apply Forall_forall. intros x Hx. unfold elems in Hx. apply in_flat_map in Hx. destruct Hx as (i & Hi & Hx).
  apply in_map_iff in Hx. destruct Hx as (j & <- & Hj). apply in_seq in Hi, Hj. apply H; lia.
Qed.

(** For anything read through the MatrixBase interface (a Matrix, or a view whose linear
    access is row-major), written and read into any Matrix. *)
Theorem C68_matrix_round_trip : forall plus A r c f target lead tail,
  readsL A r c f -> (forall i j, i < r -> j < c -> in_range lo hi (f i j)) -> wf target -> blank lead ->
  exists txt ws m, write_m (show_Z plus) (show_Z false) A = Ok txt /\ blank ws /\
    read_m lo hi target (good (lead ++ txt ++ tail)) = Ok (m, good (ws ++ tail)) /\ is_mat m r c f.
Proof.
  intros plus A r c f target lead tail [HA HL] HF Hwf Hb. pose proof HA as (Hr & Hc & Hsz & Hs & Hg).
  destruct Hs as (Sr & Sc & Hfit). pose proof (conj Sr (conj Sc Hfit)) as Hs. unfold write_m. rewrite Hsz.
  rewrite (longhest_ok (show_Z false) (r * c) (mlin A) (fun k => f (k / c) (k mod c))) by (intros; apply HL; auto).
  cbn [bind]. set (w := longest _). rewrite (out_rows_ok _ w A r c f HA). cbn [bind]. rewrite Hr, Hc.
  set (body := joined nl r _).
  assert (HT : toks plus (elems r c f) (nl ++ body ++ nl ++ tail) (nl ++ tail)).
  { apply toks_ws; [cbn; auto|]. exact (toks_rows plus w f r c tail 0). }
  destruct (C09_resize target (rows target) (cols target) (fun i j => nth (i * cols target + j) (data target) 0%Z) r c) as (m1 & E1 & H1).
  { apply wf_is_mat; auto. } { auto. }
  destruct H1 as (R1 & C1 & _ & L1 & _).
  destruct (toks_read lo hi plus _ _ _ HT (Forall_elems r c f _ HF) nil (data m1)) as (ws & Hws & E).
  { rewrite elems_length. exact L1. }
  exists ("M " ++ show_nat r ++ " " ++ show_nat c ++ nl ++ body ++ nl), (ws ++ nl), (mkM r c (elems r c f)).
  split; [reflexivity|]. split; [apply blank_app; [auto|cbn; auto]|]. split; [|now apply elems_mat].
  unfold read_m. change ("M " ++ show_nat r ++ " " ++ show_nat c ++ nl ++ body ++ nl) with (String "M" (" " ++ show_nat r ++ " " ++ show_nat c ++ nl ++ body ++ nl)).
  cbn [String.append]. rewrite get_char_at by auto. cbn [Ascii.eqb Bool.eqb negb].
  assert (ET : String " " (show_nat r ++ String " " (show_nat c ++ nl ++ body ++ nl)) ++ tail = " " ++ show_nat r ++ (" " ++ show_nat c ++ (nl ++ body ++ nl ++ tail))).
  { cbn [String.append]. f_equal. rewrite !app_assoc_s. cbn [String.append]. rewrite !app_assoc_s. reflexivity. }
  cbn [String.append] in ET |- *. rewrite ET.
  change (String " " (show_nat r ++ String " " (show_nat c ++ nl ++ body ++ nl ++ tail))) with (" " ++ show_nat r ++ String " " (show_nat c ++ nl ++ body ++ nl ++ tail)).
  rewrite (get_size_at " " r) by (cbn; auto).
  change (String " " (show_nat c ++ nl ++ body ++ nl ++ tail)) with (" " ++ show_nat c ++ nl ++ body ++ nl ++ tail).
  rewrite (get_size_at " " c) by (cbn; auto). rewrite !Nnat.Nat2N.id. rewrite E1. cbn [bind].
  rewrite read_nested by (rewrite R1, C1; auto). rewrite R1, C1. rewrite elems_length in E. cbn [app length] in E. rewrite E. cbn [bind fst snd].
  rewrite app_assoc_s. reflexivity.
Qed.
(** The Matrix read is the Matrix written. *)
Corollary C68_matrix_same : forall m target lead tail, wf m -> Forall (in_range lo hi) (data m) -> wf target -> blank lead ->
  exists txt ws, write_m (show_Z false) (show_Z false) (mb_of_mat m) = Ok txt /\ blank ws /\
    read_m lo hi target (good (lead ++ txt ++ tail)) = Ok (m, good (ws ++ tail)).
Proof.
  intros m target lead tail Hm HF Hwf Hb. pose proof (wf_is_mat 0%Z m Hm) as HM.
  destruct (C68_matrix_round_trip false (mb_of_mat m) _ _ _ target lead tail (is_mat_readsL _ _ _ _ HM)) as (txt & ws & m' & E1 & Hw & E2 & H2); auto.
  - intros i j Hi Hj. rewrite Forall_forall in HF. apply HF. apply nth_In. destruct Hm as [_ Hl]. rewrite Hl. apply idx_lt; auto.
  - exists txt, ws. rewrite (is_mat_unique _ _ _ _ _ H2 HM) in E2. auto.
Qed.

(** Files with several records. *)
Inductive record := RVec (l : list Z) | RMat (m : Matrix Z).
Definition record_ok (x : record) : Prop :=
  match x with RVec l => fits (length l) /\ Forall (in_range lo hi) l | RMat m => wf m /\ Forall (in_range lo hi) (data m) end.
(** [f << x;] and [f >> y;] with y of the same kind as x. *)
Definition write_rec (x : record) : Res string :=
  match x with RVec l => write_v (show_Z false) (show_Z false) l | RMat m => write_m (show_Z false) (show_Z false) (mb_of_mat m) end.
Definition read_rec (y : record) (s : istream) : Res (record * istream) :=
  match y with
  | RVec l => let* x := read_v lo hi l s in Ok (RVec (fst x), snd x)
  | RMat m => let* x := read_m lo hi m s in Ok (RMat (fst x), snd x)
  end.
Fixpoint write_all (l : list record) : Res string :=
  match l with
  | nil => Ok ""
  | (x :: l)%list => let* t := write_rec x in let* t' := write_all l in Ok (t ++ t')
  end.
Fixpoint read_all (l : list record) (s : istream) : Res (list record * istream) :=
  match l with
  | nil => Ok (nil, s)
  | (y :: l)%list => let* x := read_rec y s in let* xs := read_all l (snd x) in Ok ((fst x :: fst xs)%list, snd xs)
  end.
(** A target of the same kind as the record that is read into it. *)
Definition fits_record (x y : record) : Prop :=
  match x, y with RVec _, RVec _ => True | RMat _, RMat m => wf m | _, _ => False end.

Theorem C68_sequence : forall recs targets lead tail,
  Forall record_ok recs -> Forall2 fits_record recs targets -> blank lead ->
  exists txt ws, write_all recs = Ok txt /\ blank ws /\
    read_all targets (good (lead ++ txt ++ tail)) = Ok (recs, good (ws ++ tail)).
Proof.
  induction recs as [|x recs IH]; intros targets lead tail HF H2 Hb.
  - inversion H2; subst. exists "", lead. auto.
  - inversion H2 as [|? y ? ts Hxy H2']; subst. inversion HF as [|? ? Hx HF']; subst.
    assert (S1 : forall tl, exists txt ws, write_rec x = Ok txt /\ blank ws /\ read_rec y (good (lead ++ txt ++ tl)) = Ok (x, good (ws ++ tl))).
    { intros tl. destruct x as [l|m], y as [l'|m']; try contradiction.
      - destruct Hx as [Hx1 Hx2]. destruct (C67_vector_round_trip false l l' lead tl Hx1 Hx2 Hb) as (txt & ws & E1 & Hw & E2).
        exists txt, ws. cbn [read_rec write_rec]. rewrite E2. auto.
      - destruct Hx as [Hx1 Hx2]. destruct (C68_matrix_same m m' lead tl Hx1 Hx2 Hxy Hb) as (txt & ws & E1 & Hw & E2).
        exists txt, ws. cbn [read_rec write_rec]. rewrite E2. auto. }
    destruct (S1 "") as (t1 & _ & E1 & _ & _).
    destruct (IH ts "" tail HF' H2' I) as (t2 & _ & E2 & _ & _).
    destruct (S1 (t2 ++ tail)) as (t1' & w1 & E1' & Hw1 & R1). rewrite E1 in E1'. injection E1' as <-.
    destruct (IH ts w1 tail HF' H2' Hw1) as (t2' & w2 & E2' & Hw2 & R2). rewrite E2 in E2'. injection E2' as <-.
    exists (t1 ++ t2), w2. cbn [write_all read_all]. rewrite E1, E2. cbn [bind]. split; [reflexivity|split; [auto|]].
    rewrite (app_assoc_s t1 t2 tail), R1. cbn [bind snd fst]. rewrite R2. reflexivity.
Qed.

(** * C69: wrong tags *)
Theorem C69_wrong_tag_vector : forall v lead c t, blank lead -> isspace c = false -> c <> "V"%char ->
  read_v lo hi v (good (lead ++ String c t)) = Ok (v, good t).
Proof. intros v lead c t Hb Hc Hn. unfold read_v. rewrite get_char_at by auto. apply Ascii.eqb_neq in Hn. rewrite Hn. reflexivity. Qed.
Theorem C69_wrong_tag_matrix : forall m lead c t, blank lead -> isspace c = false -> c <> "M"%char ->
  read_m lo hi m (good (lead ++ String c t)) = Ok (m, good t).
Proof. intros v lead c t Hb Hc Hn. unfold read_m. rewrite get_char_at by auto. apply Ascii.eqb_neq in Hn. rewrite Hn. reflexivity. Qed.
(** Nothing left to read, or a stream that is not good: the tag variable is read without
    having been set. *)
Theorem C69_end_of_file : forall v m lead, blank lead ->
  read_v lo hi v (good lead) = UB /\ read_m lo hi m (good lead) = UB.
Proof. intros v m lead Hb. unfold read_v, read_m, get_char. rewrite sentry_blank by auto. auto. Qed.
Theorem C69_failed_stream : forall v m s, failbit s || eofbit s = true ->
  read_v lo hi v s = UB /\ read_m lo hi m s = UB.
Proof. intros v m s H. unfold read_v, read_m, get_char, sentry. rewrite H. auto. Qed.
End RoundTrip.

(** * C70: printing *)
Section Print.
Context {T : Type}.
Variable sh : T -> string.
(** setw pads on the left up to the width and never truncates. *)
Theorem C70_setw : forall w s, exists n, setw w s = spaces n ++ s /\ String.length (setw w s) = Nat.max w (String.length s).
Proof.
  intros w s. exists (w - String.length s). split; [reflexivity|]. unfold setw. rewrite length_app_s, length_spaces. lia.
Qed.
Lemma joined_length sep n t k : (forall i, i < n -> String.length (t i) = k) ->
  String.length (joined sep n t) = n * k + (n - 1) * String.length sep.
Proof.
  unfold joined. assert (G : forall n lo, (forall i, lo <= i < lo + n -> String.length (t i) = k) ->
    String.length (String.concat sep (map t (seq lo n))) = n * k + (n - 1) * String.length sep).
  { clear. induction n as [|n IH]; intros lo H; [reflexivity|]. cbn [seq map]. destruct n as [|n].
    - cbn [seq map String.concat]. rewrite H by lia. lia.
    - rewrite concat_cons by discriminate. rewrite !length_app_s, IH by (intros; apply H; lia). rewrite H by lia. nia. }
  intros H. apply G. intros. apply H. lia.
Qed.

(** Rows separated by newlines, elements by one space; each element is right-aligned in a
    field as wide as the longest element, so all rows have the same length. *)
Theorem C70_matrix : forall A r c f, readsL A r c f ->
  exists w, print_m sh sh A = Ok (joined nl r (fun i => joined " " c (fun j => setw w (sh (f i j))))) /\
    (forall i j, i < r -> j < c -> String.length (sh (f i j)) <= w) /\
    (0 < r * c -> exists i j, i < r /\ j < c /\ String.length (sh (f i j)) = w) /\
    (forall i, i < r -> String.length (joined " " c (fun j => setw w (sh (f i j)))) = c * w + (c - 1)).
Proof.
  intros A r c f [HA HL]. pose proof HA as (Hr & Hc & Hsz & Hs & Hg). unfold print_m. rewrite Hsz.
  rewrite (longhest_ok sh (r * c) (mlin A) (fun k => f (k / c) (k mod c))) by (intros; apply HL; auto). cbn [bind].
  set (l := map (fun k => sh (f (k / c) (k mod c))) (seq 0 (r * c))). exists (longest l).
  assert (LE : forall i j, i < r -> j < c -> String.length (sh (f i j)) <= longest l).
  { intros i j Hi Hj. apply longest_ge. apply in_map_iff. exists (i * c + j). split.
    - rewrite idx_div, idx_mod by auto. reflexivity.
    - apply in_seq. split; [lia|]. apply idx_lt; auto. }
  split; [now apply out_rows_ok|]. split; [exact LE|]. split.
  - intros H0. destruct (longest_hit l) as (s & Hin & E).
    { unfold l. destruct (r * c); [lia|discriminate]. }
    apply in_map_iff in Hin. destruct Hin as (k & <- & Hk). apply in_seq in Hk.
    exists (k / c), (k mod c). split; [apply div_lt_rc; lia|]. split; [apply (mod_lt_rc k r c); lia|]. exact E.
  - intros i Hi. rewrite (joined_length " " c _ (longest l)).
    + cbn [String.length]. lia.
    + intros j Hj. destruct (C70_setw (longest l) (sh (f i j))) as (n & _ & ->). specialize (LE i j Hi Hj). lia.
Qed.
Theorem C70_vector : forall v n f, is_vec v n f ->
  exists w, print_v sh sh v = Ok (joined " " n (fun i => setw w (sh (f i)))) /\
    (forall i, i < n -> String.length (sh (f i)) <= w) /\ (0 < n -> exists i, i < n /\ String.length (sh (f i)) = w).
Proof.
  intros v n f Hv. pose proof Hv as (Hl & Hf & Hg). unfold print_v. rewrite Hl.
  rewrite (longhest_ok sh n (lget v) f) by (intros; apply lget_ok; auto). cbn [bind].
  exists (longest (map (fun i => sh (f i)) (seq 0 n))). split; [now apply out_elems_ok|]. split.
  - intros i Hi. apply longest_ge. apply (in_map (fun i => sh (f i))). apply in_seq. lia.
  - intros H0. destruct (longest_hit (map (fun i => sh (f i)) (seq 0 n))) as (s & Hin & E).
    { destruct n; [lia|discriminate]. }
    apply in_map_iff in Hin. destruct Hin as (k & <- & Hk). apply in_seq in Hk. exists k. split; [lia|exact E].
Qed.
(** The named dumps. *)
Theorem C70_dump : forall name v A,
  dump_vector sh sh name v = (let* s := print_v sh sh v in Ok (name ++ " = " ++ s)) /\
  dump_matrix sh sh name A = (let* s := print_m sh sh A in Ok (name ++ " = " ++ nl ++ s)).
Proof. intros. split; reflexivity. Qed.
End Print.
(** The width is computed without the stream's flags: with showpos the columns are not
    aligned, two rows of a 2 x 1 matrix have different lengths. *)
Theorem C70_showpos_refuted : print_m (show_Z true) (show_Z false) (mb_of_mat (mkM 2 1 [5; 10]%Z)) = Ok ("+5" ++ nl ++ "+10").
Proof. reflexivity. Qed.
(** A non-square cofactor view is measured through its defective linear access, which
    leaves the matrix: printing it is undefined. *)
Theorem C70_cofactor_refuted : print_m (show_Z false) (show_Z false) (mb_cof 0 0 (mb_of_mat (mkM 2 3 [1;2;3;4;5;6]%Z))) = UB.
Proof. reflexivity. Qed.

(** * C71: to_matlab *)
Section Matlab.
Context {T : Type}.
Variable sh : T -> string.
Theorem C71_vector : forall name v n f, is_vec v n f ->
  to_matlab_v sh name v = Ok (name ++ " = [" ++ joined " " n (fun i => sh (f i)) ++ "]").
Proof.
  intros name v n f (Hl & Hf & Hg). unfold to_matlab_v. rewrite Hl.
  rewrite (sep_loop " " n _ (fun i => sh (f i))); [|auto|].
  - cbn [bind]. rewrite !app_assoc_s. reflexivity.
  - intros i s Hi. rewrite (lget_ok _ _ _ (Hg i Hi)). reflexivity.
Qed.
Theorem C71_matrix : forall name A r c f, reads A r c f ->
  to_matlab_m sh name A = Ok (name ++ " = [" ++ joined "" r (fun i => "[" ++ joined " " c (fun j => sh (f i j)) ++ "];") ++ "]").
Proof.
  intros name A r c f (Hr & Hc & _ & (Sr & Sc & _) & Hg). unfold to_matlab_m. rewrite Hr, Hc.
  rewrite (sep_loop "" r _ (fun i => "[" ++ joined " " c (fun j => sh (f i j)) ++ "];")); [|auto|].
  - cbn [bind]. rewrite !app_assoc_s. reflexivity.
  - intros i s Hi. rewrite (sep_loop " " c _ (fun j => sh (f i j))); [|auto|].
    + cbn [bind]. rewrite !app_assoc_s, !app_nil_s. destruct (i <? sub64 r 1); reflexivity.
    + intros j s' Hj. rewrite Hg by auto. reflexivity.
Qed.

(** Texts that contain neither a space nor a bracket. *)
Fixpoint plain (s : string) : Prop :=
  match s with "" => True | String c s' => c <> " "%char /\ c <> "]"%char /\ plain s' end.
Hypothesis sh_plain : forall x, plain (sh x) /\ sh x <> "".
Hypothesis sh_inj : forall x y, sh x = sh y -> x = y.
Definition stop1 (s : string) : Prop := match s with String c _ => c = " "%char \/ c = "]"%char | "" => False end.
Lemma plain_split a b s t : plain a -> plain b -> stop1 s -> stop1 t -> a ++ s = b ++ t -> a = b /\ s = t.
Proof.
  revert b. induction a as [|x a IH]; intros [|y b] Ha Hb Hs Ht E; cbn in E.
  - auto.
  - exfalso. subst s. cbn in Hs, Hb. destruct Hs; tauto.
  - exfalso. subst t. cbn in Ht, Ha. destruct Ht; tauto.
  - injection E as -> E. destruct (IH b) as [-> ->]; cbn in Ha, Hb; tauto.
Qed.
Lemma row_split (l1 l2 : list T) s t :
  String.concat " " (map sh l1) ++ "]" ++ s = String.concat " " (map sh l2) ++ "]" ++ t -> l1 = l2 /\ s = t.
Proof.
  assert (NE : forall x l u v, "]" ++ u = String.concat " " (map sh (x :: l)%list) ++ "]" ++ v -> False).
  { intros x l u v E. assert (Ht : exists tl, String.concat " " (map sh (x :: l)%list) ++ "]" ++ v = sh x ++ tl).
    { cbn [map]. destruct l; [exists ("]" ++ v); reflexivity|]. cbn [map]. rewrite concat_cons by discriminate. rewrite app_assoc_s. eauto. }
    destruct Ht as (tl & Ht). rewrite Ht in E. destruct (sh_plain x) as [P N]. destruct (sh x) as [|c w]; [contradiction|].
    cbn in E, P. injection E as <- _. tauto. }
  revert l2. induction l1 as [|x l1 IH]; intros [|y l2] E.
  - cbn in E. injection E as ->. auto.
  - exfalso. eapply NE. exact E.
  - exfalso. eapply NE. symmetry. exact E.
  - assert (S : forall z l u, exists tl, stop1 tl /\ String.concat " " (map sh (z :: l)%list) ++ "]" ++ u = sh z ++ tl /\
        (l = nil /\ tl = "]" ++ u \/ tl = " " ++ String.concat " " (map sh l) ++ "]" ++ u /\ l <> nil)).
    { intros z l u. destruct l as [|z' l].
      - exists ("]" ++ u). cbn. auto.
      - exists (" " ++ String.concat " " (map sh (z' :: l)%list) ++ "]" ++ u). split; [cbn; auto|]. split.
        + cbn [map]. rewrite concat_cons by discriminate. rewrite !app_assoc_s. reflexivity.
        + right. split; [reflexivity|discriminate]. }
    destruct (S x l1 s) as (t1 & P1 & E1 & C1). destruct (S y l2 t) as (t2 & P2 & E2 & C2).
    rewrite E1, E2 in E. destruct (plain_split (sh x) (sh y) t1 t2) as [Exy Et]; auto; try apply sh_plain.
    apply sh_inj in Exy. subst y. rewrite Et in C1. destruct C1 as [[-> ->]|[-> N1]], C2 as [[-> C2]|[C2 N2]].
    + cbn in C2. injection C2 as ->. auto.
    + discriminate.
    + discriminate.
    + cbn in C2. injection C2 as C2. destruct (IH l2 C2) as [-> ->]. auto.
Qed.
Lemma app_cancel (a b c : string) : a ++ b = a ++ c -> b = c.
Proof. induction a as [|z a IH]; cbn; auto. intros E. injection E as E. auto. Qed.
Lemma matlab_v_list name v : fits (length v) -> to_matlab_v sh name v = Ok (name ++ " = [" ++ String.concat " " (map sh v) ++ "]").
Proof.
  intros H. destruct v as [|x v].
  - unfold to_matlab_v. rewrite for_range_empty by (cbn; lia). cbn [bind]. rewrite app_assoc_s. reflexivity.
  - rewrite (C71_vector name _ _ _ (vec_as_fun _ x H)). unfold joined.
    rewrite <- (map_map (fun i => nth i (x :: v) x) sh), map_nth_seq. reflexivity.
Qed.
(** The text determines the vector. *)
Theorem C71_vector_injective : forall name v v', fits (length v) -> fits (length v') ->
  to_matlab_v sh name v = to_matlab_v sh name v' -> v = v'.
Proof.
  intros name v v' H1 H2 E. rewrite !matlab_v_list in E by auto. injection E as E. apply app_cancel in E.
  cbn [String.append] in E. injection E as E. apply (row_split v v' "" "") in E. tauto.
Qed.
Lemma rows_split (L1 L2 : list (list T)) s t :
  flat (map (fun row => "[" ++ String.concat " " (map sh row) ++ "];") L1) ++ "]" ++ s =
  flat (map (fun row => "[" ++ String.concat " " (map sh row) ++ "];") L2) ++ "]" ++ t -> L1 = L2.
Proof.
  revert L2. induction L1 as [|r1 L1 IH]; intros [|r2 L2] E; cbn [map flat] in E; rewrite ?app_assoc_s in E.
  - reflexivity.
  - discriminate.
  - discriminate.
  - cbn [String.append] in E. injection E as E.
    assert (E' : String.concat " " (map sh r1) ++ "]" ++ (";" ++ flat (map (fun row => "[" ++ String.concat " " (map sh row) ++ "];") L1) ++ "]" ++ s) =
                 String.concat " " (map sh r2) ++ "]" ++ (";" ++ flat (map (fun row => "[" ++ String.concat " " (map sh row) ++ "];") L2) ++ "]" ++ t)) by exact E.
    apply row_split in E'. destruct E' as [-> E']. cbn [String.append] in E'. injection E' as E'. now rewrite (IH L2 E').
Qed.
Lemma concat_flat l : String.concat "" l = flat l.
Proof.
  induction l as [|x l IH]; [reflexivity|]. destruct l as [|y l].
  - cbn. now rewrite app_nil_s.
  - rewrite concat_cons by discriminate. rewrite IH. reflexivity.
Qed.
Definition rowlist (r c : nat) (f : nat -> nat -> T) : list (list T) := map (fun i => map (fun j => f i j) (seq 0 c)) (seq 0 r).
Lemma rowlist_inj r c f r' c' f' : rowlist r c f = rowlist r' c' f' ->
  r = r' /\ (0 < r -> c = c') /\ forall i j, i < r -> j < c -> f i j = f' i j.
Proof.
  intros E. assert (Er : r = r') by (apply (f_equal (@length _)) in E; unfold rowlist in E; now rewrite !map_length, !seq_length in E).
  subst r'. assert (G : forall i, i < r -> map (fun j => f i j) (seq 0 c) = map (fun j => f' i j) (seq 0 c')).
  { intros i Hi. apply (f_equal (fun l => nth_error l i)) in E. unfold rowlist in E.
    rewrite !nth_error_map, !nth_error_seq in E by auto. cbn [option_map Nat.add] in E. injection E as E. exact E. }
  split; [reflexivity|]. split.
  - intros H0. specialize (G 0 H0). apply (f_equal (@length _)) in G. now rewrite !map_length, !seq_length in G.
  - intros i j Hi Hj. specialize (G i Hi). assert (c = c') as <- by (apply (f_equal (@length _)) in G; now rewrite !map_length, !seq_length in G).
    apply (f_equal (fun l => nth_error l j)) in G. rewrite !nth_error_map, !nth_error_seq in G by auto. cbn in G. now injection G.
Qed.
Theorem C71_matrix_injective : forall name A r c f A' r' c' f', reads A r c f -> reads A' r' c' f' ->
  to_matlab_m sh name A = to_matlab_m sh name A' ->
  r = r' /\ (0 < r -> c = c') /\ forall i j, i < r -> j < c -> f i j = f' i j.
Proof.
  intros name A r c f A' r' c' f' H1 H2 E. rewrite (C71_matrix _ _ _ _ _ H1), (C71_matrix _ _ _ _ _ H2) in E.
  injection E as E. apply app_cancel in E. cbn [String.append] in E. injection E as E.
  apply rowlist_inj. apply (rows_split _ _ "" ""). unfold rowlist. rewrite !map_map. unfold joined in E. rewrite !concat_flat in E.
  assert (M : forall r c f, map (fun i => "[" ++ String.concat " " (map (fun j => sh (f i j)) (seq 0 c)) ++ "];") (seq 0 r) =
      map (fun x => "[" ++ String.concat " " (map sh (map (fun j => f x j) (seq 0 c))) ++ "];") (seq 0 r)).
  { clear. intros r c f. apply map_ext. intros i. now rewrite map_map. }
  rewrite <- !M. exact E.
Qed.
End Matlab.

(** Integers and complex integers are printed by such texts. *)
