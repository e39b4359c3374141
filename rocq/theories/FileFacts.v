(** FileFacts.v: files of vectors and matrices for any element type, given how one element
    is written and read. *)
From Coq Require Import String Ascii.
From Verif Require Import MatFacts ViewFacts2 UtilFacts2 PropMatrix IO IOSpec IOFacts PropIO Float FloatRound FloatIO FloatIOFacts.
Local Open Scope string_scope.
Local Open Scope nat_scope.

Section Codec.
Context {T : Type} {OT : Ops T}.
Variables (sh : T -> string) (get : istream -> option T * istream).

(** The element [x], written between white space, is read as [y]. *)
Definition reads_as (x y : T) : Prop := forall w t, blank w -> wsnext t -> get (good (w ++ sh x ++ t)) = (Some y, good t).
(** It is read as [y], and then the stream has failed. *)
Definition fails_as (x y : T) : Prop := forall w t, blank w -> wsnext t -> exists s, get (good (w ++ sh x ++ t)) = (Some y, s) /\ failbit s = true.
(** A failed stream assigns nothing. *)
Definition stuck : Prop := forall s, failbit s = true -> exists s', get s = (None, s') /\ failbit s' = true.

Inductive gtoks : list T -> string -> string -> Prop :=
| gtoks_nil w r : blank w -> gtoks nil (w ++ r) r
| gtoks_cons w x l s r : blank w -> wsnext s -> gtoks l s r -> gtoks (x :: l) (w ++ sh x ++ s) r.
Lemma gtoks_ws l s r w : blank w -> gtoks l s r -> gtoks l (w ++ s) r.
Proof.
  intros Hw H. destruct H as [w' r H|w' z l s r H1 H2 H3]; rewrite <- app_assoc_s.
  - constructor. now apply blank_app.
  - constructor; auto. now apply blank_app.
Qed.
Lemma gtoks_app l1 l2 s r1 r2 : gtoks l1 s r1 -> gtoks l2 r1 r2 -> gtoks (l1 ++ l2)%list s r2.
Proof.
  intros H. induction H as [w r H|w z l s r H1 H2 H3 IH]; intros Ht; cbn [app].
  - now apply gtoks_ws.
  - constructor; auto.
Qed.
Lemma ws_sp t : wsnext (String " " t). Proof. eexists _, _. split; reflexivity. Qed.
Lemma ws_nl t : wsnext (nl ++ t). Proof. eexists _, _. split; reflexivity. Qed.
Lemma setw_blank w t : exists ws, blank ws /\ setw w t = ws ++ t.
Proof. exists (spaces (w - String.length t)). split; [apply blank_spaces|reflexivity]. Qed.
Lemma gtoks_row w (f : nat -> T) n t : forall lo,
  gtoks (map f (seq lo n)) (String.concat " " (map (fun i => setw w (sh (f i))) (seq lo n)) ++ nl ++ t) (nl ++ t).
Proof.
  induction n as [|n IH]; intros lo.
  - apply (gtoks_nil "" (nl ++ t) I).
  - cbn [seq map]. destruct (setw_blank w (sh (f lo))) as (ws & Hw & E). destruct n as [|n].
    + cbn [seq map String.concat]. rewrite E, app_assoc_s. constructor; [auto|apply ws_nl|]. apply (gtoks_nil "" (nl ++ t) I).
    + rewrite concat_cons by discriminate. rewrite E, !app_assoc_s. constructor; [auto|apply ws_sp|]. apply gtoks_ws; [cbn; auto|]. apply IH.
Qed.
Lemma gtoks_rows w (f : nat -> nat -> T) r c t : forall lo,
  gtoks (flat_map (fun i => map (fun j => f i j) (seq 0 c)) (seq lo r))
    (String.concat nl (map (fun i => joined " " c (fun j => setw w (sh (f i j)))) (seq lo r)) ++ nl ++ t) (nl ++ t).
Proof.
  induction r as [|r IH]; intros lo.
  - apply (gtoks_nil "" (nl ++ t) I).
  - cbn [seq map flat_map]. destruct r as [|r].
    + cbn [seq map String.concat flat_map]. rewrite app_nil_r. apply gtoks_row.
    + rewrite concat_cons by discriminate. rewrite !app_assoc_s. eapply gtoks_app; [apply gtoks_row|].
      apply gtoks_ws; [cbn; auto|]. apply IH.
Qed.
Lemma upd_mid (d1 : list T) y d2 z : upd (d1 ++ y :: d2) (length d1) z = ((d1 ++ [z]) ++ d2)%list.
Proof. rewrite <- app_assoc. cbn [app]. induction d1 as [|x d1 IH]; cbn; [reflexivity|]. now rewrite IH. Qed.
Lemma gtoks_read l s r : gtoks l s r -> forall l', Forall2 reads_as l l' -> forall d1 d2, length d2 = length l ->
  exists w, blank w /\ for_n (length l) (length d1) (gin_elem get) (d1 ++ d2, good s)%list = Ok (d1 ++ l', good (w ++ r))%list.
Proof.
  intros H. induction H as [w r H|w z l s r H1 H2 H3 IH]; intros l' HF d1 d2 Hd.
  - destruct d2; [|discriminate]. inversion HF; subst. exists w. split; auto.
  - destruct d2 as [|y d2]; [discriminate|]. inversion HF as [|? z' ? l2 Hz HF']; subst. injection Hd as Hd.
    destruct (IH l2 HF' (d1 ++ [z'])%list d2 Hd) as (w' & Hw' & E). exists w'. split; [auto|].
    cbn [length for_n]. unfold gin_elem at 1. cbn [snd fst]. rewrite (Hz w s) by auto.
    rewrite lset_ok by (rewrite app_length; cbn; lia). cbn [bind]. rewrite upd_mid.
    rewrite app_length in E. cbn [length] in E. replace (length d1 + 1) with (S (length d1)) in E by lia.
    rewrite E. rewrite <- app_assoc. reflexivity.
Qed.
Lemma stuck_rest : stuck -> forall n i d s, failbit s = true -> i + n <= length d ->
  exists s', failbit s' = true /\ for_n n i (gin_elem get) (d, s) = Ok (d, s').
Proof.
  intros HS. induction n as [|n IH]; intros i d s Hf Hl; [exists s; split; auto|]. destruct (HS s Hf) as (s1 & E & F1).
  destruct (IH (S i) d s1 F1) as (s2 & F2 & E2); [lia|]. exists s2. split; [auto|]. cbn [for_n]. unfold gin_elem at 1. cbn [fst snd]. rewrite E.
  replace (i <? length d) with true by (symmetry; apply Nat.ltb_lt; lia). cbn [bind]. exact E2.
Qed.
(** Up to a failing element. *)
Lemma gtoks_fail : stuck -> forall l s r, gtoks l s r -> forall l1 l1' x y l2, l = (l1 ++ x :: l2)%list -> Forall2 reads_as l1 l1' -> fails_as x y ->
  forall d1 d2, length d2 = length l ->
  exists s', failbit s' = true /\ for_n (length l) (length d1) (gin_elem get) (d1 ++ d2, good s)%list = Ok (d1 ++ l1' ++ y :: skipn (S (length l1)) d2, s')%list.
Proof.
  intros HS l s r H. induction H as [w r H|w z l s r H1 H2 H3 IH]; intros l1 l1' x y l2 E HF Hx d1 d2 Hd; [destruct l1; discriminate|].
  destruct d2 as [|v d2]; [discriminate|]. injection Hd as Hd. destruct l1 as [|z1 l1].
  - injection E as -> ->. inversion HF; subst. cbn [length app]. destruct (Hx w s H1 H2) as (s1 & E1 & F1). destruct (stuck_rest HS (length l2) (S (length d1)) ((d1 ++ [y]) ++ d2)%list s1 F1) as (s2 & F2 & E2).
    { rewrite !app_length. cbn. lia. }
    exists s2. split; [auto|]. cbn [for_n]. unfold gin_elem at 1. cbn [snd fst]. rewrite E1. rewrite lset_ok by (rewrite app_length; cbn; lia). cbn [bind].
    rewrite upd_mid, E2. rewrite <- app_assoc. reflexivity.
  - injection E as -> E. inversion HF as [|? z' ? l2' Hz HF']; subst. destruct (IH l1 l2' x y l2 eq_refl HF' Hx (d1 ++ [z'])%list d2 Hd) as (s' & F & EE). exists s'. split; [auto|].
    cbn [length for_n]. unfold gin_elem at 1. cbn [snd fst]. rewrite (Hz w s) by auto.
    rewrite lset_ok by (rewrite app_length; cbn; lia). cbn [bind]. rewrite upd_mid.
    rewrite (app_length d1 [z']) in EE. cbn [length] in EE. replace (length d1 + 1) with (S (length d1)) in EE by lia.
    rewrite EE. rewrite <- app_assoc. reflexivity.
Qed.

(** * Vectors *)
Variable sh0 : T -> string.
Definition resized (v : list T) (n : nat) : list T := (firstn n v ++ repeat o0 (n - length v))%list.
Lemma resized_length v n : length (resized v n) = n.
Proof. unfold resized. rewrite app_length, firstn_length, repeat_length. lia. Qed.
Lemma gwrite_v l target lead tail : fits (length l) -> blank lead ->
  exists txt body r, write_v sh sh0 l = Ok txt /\ gtoks l body (nl ++ tail) /\
    gread_v get target (good (lead ++ txt ++ tail)) = r /\
    r = for_n (length l) 0 (gin_elem get) (resized target (length l), good body).
Proof.
  intros Hf Hb. destruct l as [|d0 l0] eqn:El.
  - unfold write_v. cbn [length]. unfold get_longhest_value, out_elems, for_range. cbn [Nat.sub for_n bind length].
    exists ("V " ++ show_nat 0 ++ nl ++ "" ++ nl), (nl ++ nl ++ tail), (Ok (resized target 0, good (nl ++ nl ++ tail))).
    split; [reflexivity|]. split; [apply gtoks_nil; cbn; auto|]. split; [|reflexivity].
    unfold gread_v. change ("V " ++ show_nat 0 ++ nl ++ "" ++ nl) with (String "V" (" " ++ show_nat 0 ++ nl ++ nl)).
    cbn [String.append]. rewrite get_char_at by auto. cbn [Ascii.eqb Bool.eqb negb].
    match goal with |- context [get_size (good ?x)] => replace x with (" " ++ show_nat 0 ++ (nl ++ nl ++ tail)) by reflexivity end.
    rewrite (get_size_at " " 0) by (cbn; auto). change (N.to_nat (N.of_nat 0)) with 0. rewrite (vec_allocate_ok target) by auto. cbn [bind].
    unfold for_range. fold (resized target 0). rewrite resized_length. reflexivity.
  - rewrite <- El in *. clear El. pose proof (vec_as_fun l d0 Hf) as Hv. unfold write_v.
    rewrite (longhest_ok sh0 (length l) (lget l) (fun i => nth i l d0)) by (intros; apply lget_ok; destruct Hv as (_ & _ & Hg); auto).
    cbn [bind]. set (w := longest _). rewrite (out_elems_ok _ w l _ _ Hv). cbn [bind].
    set (body := joined " " (length l) (fun i => setw w (sh (nth i l d0)))).
    exists ("V " ++ show_nat (length l) ++ nl ++ body ++ nl), (nl ++ body ++ nl ++ tail). eexists. split; [reflexivity|]. split.
    { apply gtoks_ws; [cbn; auto|]. pose proof (gtoks_row w (fun i => nth i l d0) (length l) tail 0) as HT. rewrite map_nth_seq in HT. exact HT. }
    split; [reflexivity|].
    unfold gread_v. change ("V " ++ show_nat (length l) ++ nl ++ body ++ nl) with (String "V" (" " ++ show_nat (length l) ++ nl ++ body ++ nl)).
    cbn [String.append]. rewrite get_char_at by auto. cbn [Ascii.eqb Bool.eqb negb].
    assert (ET : String " " (show_nat (length l) ++ nl ++ body ++ nl) ++ tail = " " ++ show_nat (length l) ++ (nl ++ body ++ nl ++ tail)).
    { cbn [String.append]. f_equal. rewrite !app_assoc_s. reflexivity. }
    cbn [String.append] in ET |- *. rewrite ET.
    change (String " " (show_nat (length l) ++ nl ++ body ++ nl ++ tail)) with (" " ++ show_nat (length l) ++ nl ++ body ++ nl ++ tail).
    rewrite (get_size_at " " (length l)) by (cbn; auto). rewrite Nnat.Nat2N.id.
    rewrite (vec_allocate_ok target) by auto. cbn [bind]. unfold for_range. fold (resized target (length l)). rewrite resized_length, Nat.sub_0_r. reflexivity.
Qed.
Lemma gfile_v l l' target lead tail : fits (length l) -> Forall2 reads_as l l' -> blank lead ->
  exists txt ws, write_v sh sh0 l = Ok txt /\ blank ws /\
    gread_v get target (good (lead ++ txt ++ tail)) = Ok (l', good (ws ++ tail)).
Proof.
  intros Hf HF Hb. destruct (gwrite_v l target lead tail Hf Hb) as (txt & body & r & E1 & HT & E2 & E3).
  destruct (gtoks_read l body _ HT l' HF nil (resized target (length l)) (resized_length _ _)) as (ws & Hws & E). cbn [app length] in E.
  exists txt, (ws ++ nl). split; [auto|]. split; [apply blank_app; [auto|cbn; auto]|]. rewrite E2, E3, E, app_assoc_s. reflexivity.
Qed.
Lemma gfile_v_fail l1 l1' x y l2 target lead tail : stuck -> fits (length (l1 ++ x :: l2)) -> Forall2 reads_as l1 l1' -> fails_as x y -> blank lead ->
  exists txt s', write_v sh sh0 (l1 ++ x :: l2) = Ok txt /\ failbit s' = true /\
    gread_v get target (good (lead ++ txt ++ tail)) = Ok (l1' ++ y :: skipn (S (length l1)) (resized target (length (l1 ++ x :: l2))), s')%list.
Proof.
  intros HS Hf HF Hx Hb. destruct (gwrite_v (l1 ++ x :: l2) target lead tail Hf Hb) as (txt & body & r & E1 & HT & E2 & E3).
  destruct (gtoks_fail HS _ body _ HT l1 l1' x y l2 eq_refl HF Hx nil (resized target (length (l1 ++ x :: l2))) (resized_length _ _)) as (s' & F & E). cbn [app length] in E.
  exists txt, s'. split; [auto|]. split; [auto|]. rewrite E2, E3. exact E.
Qed.

(** * Matrices *)
Lemma gread_nested m s : shape_ok (rows m) (cols m) ->
  for_range 0 (rows m) (fun r st =>
    for_range 0 (cols m) (fun c (st : Matrix T * istream) =>
      let* st' := gin_elem get (mat_idx (fst st) r c) (data (fst st), snd st) in
      Ok (mkM (rows (fst st)) (cols (fst st)) (fst st'), snd st')) st) (m, s)
  = let* st := for_n (rows m * cols m) 0 (gin_elem get) (data m, s) in Ok (mkM (rows m) (cols m) (fst st), snd st).
Proof.
  destruct m as [R C d]. cbn [rows cols data]. intros Hs. unfold for_range. rewrite !Nat.sub_0_r.
  set (body := fun (r c : nat) (st : Matrix T * istream) => let* st' := gin_elem get (mat_idx (fst st) r c) (data (fst st), snd st) in
      Ok (mkM (rows (fst st)) (cols (fst st)) (fst st'), snd st')).
  assert (I1 : forall r k c0 d s, r < R -> c0 + k <= C ->
    for_n k c0 (body r) (mkM R C d, s) = let* st := for_n k (r * C + c0) (gin_elem get) (d, s) in Ok (mkM R C (fst st), snd st)).
  { intros r. induction k as [|k IH]; intros c0 d' s' Hr Hk; [reflexivity|]. cbn [for_n]. unfold body at 1. cbn [fst snd data rows cols].
    unfold mat_idx. cbn [cols]. assert (Z1 : is_size (r * C + c0)) by (apply (shape_idx R C); auto; lia).
    assert (Z2 : is_size (r * C)) by (eapply size_le; [|exact Z1]; lia).
    rewrite (mul64_small r C) by auto. rewrite add64_small by auto.
    destruct (gin_elem get (r * C + c0) (d', s')) as [[d1 s1]| | | |] eqn:E; try reflexivity. cbn [bind fst snd].
    rewrite IH by lia. replace (r * C + S c0) with (S (r * C + c0)) by lia. reflexivity. }
  assert (I2 : forall k r0 d s, r0 + k <= R ->
    for_n k r0 (fun r st => for_n C 0 (body r) st) (mkM R C d, s) = let* st := for_n (k * C) (r0 * C) (gin_elem get) (d, s) in Ok (mkM R C (fst st), snd st)).
  { induction k as [|k IH]; intros r0 d' s' Hk; [reflexivity|]. cbn [for_n]. rewrite I1 by lia. cbn [Nat.mul]. rewrite for_n_app.
    rewrite Nat.add_0_r. destruct (for_n C (r0 * C) (gin_elem get) (d', s')) as [[d1 s1]| | | |] eqn:E; try reflexivity. cbn [bind fst snd].
    rewrite IH by lia. replace (S r0 * C) with (r0 * C + C) by (cbn; lia). reflexivity. }
  apply (I2 R 0 d s). lia.
Qed.
Lemma gwrite_m A r c f target lead tail : readsL A r c f -> wf target -> blank lead ->
  exists txt body m1, write_m sh sh0 A = Ok txt /\ gtoks (elems r c f) body (nl ++ tail) /\ mat_resize target r c = Ok m1 /\ length (data m1) = r * c /\
    gread_m get target (good (lead ++ txt ++ tail)) = let* st := for_n (r * c) 0 (gin_elem get) (data m1, good body) in Ok (mkM r c (fst st), snd st).
Proof.
  intros [HA HL] Hwf Hb. pose proof HA as (Hr & Hc & Hsz & Hs & Hg).
  destruct Hs as (Sr & Sc & Hfit). pose proof (conj Sr (conj Sc Hfit)) as Hs. unfold write_m. rewrite Hsz.
  rewrite (longhest_ok sh0 (r * c) (mlin A) (fun k => f (k / c) (k mod c))) by (intros; apply HL; auto).
  cbn [bind]. set (w := longest _). rewrite (out_rows_ok _ w A r c f HA). cbn [bind]. rewrite Hr, Hc.
  set (body := joined nl r _).
  assert (HT : gtoks (elems r c f) (nl ++ body ++ nl ++ tail) (nl ++ tail)).
  { apply gtoks_ws; [cbn; auto|]. exact (gtoks_rows w f r c tail 0). }
  destruct (C09_resize target (rows target) (cols target) (fun i j => nth (i * cols target + j) (data target) o0) r c) as (m1 & E1 & H1).
  { apply wf_is_mat; auto. } { auto. }
  destruct H1 as (R1 & C1 & _ & L1 & _).
  exists ("M " ++ show_nat r ++ " " ++ show_nat c ++ nl ++ body ++ nl), (nl ++ body ++ nl ++ tail), m1.
  split; [reflexivity|]. split; [exact HT|]. split; [exact E1|]. split; [exact L1|].
  unfold gread_m. change ("M " ++ show_nat r ++ " " ++ show_nat c ++ nl ++ body ++ nl) with (String "M" (" " ++ show_nat r ++ " " ++ show_nat c ++ nl ++ body ++ nl)).
  cbn [String.append]. rewrite get_char_at by auto. cbn [Ascii.eqb Bool.eqb negb].
  assert (ET : String " " (show_nat r ++ String " " (show_nat c ++ nl ++ body ++ nl)) ++ tail = " " ++ show_nat r ++ (" " ++ show_nat c ++ (nl ++ body ++ nl ++ tail))).
  { cbn [String.append]. f_equal. rewrite !app_assoc_s. cbn [String.append]. rewrite !app_assoc_s. reflexivity. }
  cbn [String.append] in ET |- *. rewrite ET.
  change (String " " (show_nat r ++ String " " (show_nat c ++ nl ++ body ++ nl ++ tail))) with (" " ++ show_nat r ++ String " " (show_nat c ++ nl ++ body ++ nl ++ tail)).
  rewrite (get_size_at " " r) by (cbn; auto).
  change (String " " (show_nat c ++ nl ++ body ++ nl ++ tail)) with (" " ++ show_nat c ++ nl ++ body ++ nl ++ tail).
  rewrite (get_size_at " " c) by (cbn; auto). rewrite !Nnat.Nat2N.id. rewrite E1. cbn [bind].
  rewrite gread_nested by (rewrite R1, C1; auto). rewrite R1, C1. reflexivity.
Qed.
Lemma Forall2_elems r c (f g : nat -> nat -> T) (P : T -> T -> Prop) : (forall i j, i < r -> j < c -> P (f i j) (g i j)) -> Forall2 P (elems r c f) (elems r c g).
Proof.
  intros H. unfold elems. assert (G : forall k s, s + k <= r -> Forall2 P (flat_map (fun i => map (fun j => f i j) (seq 0 c)) (seq s k)) (flat_map (fun i => map (fun j => g i j) (seq 0 c)) (seq s k))).
  { induction k as [|k IH]; intros s Hs; [constructor|]. cbn [seq flat_map]. apply Forall2_app; [|apply IH; lia].
    assert (G2 : forall n t, t + n <= c -> Forall2 P (map (fun j => f s j) (seq t n)) (map (fun j => g s j) (seq t n))).
    { induction n as [|n IHn]; intros t Ht; [constructor|]. cbn [seq map]. constructor; [apply H; lia|apply IHn; lia]. }
    apply G2. lia. }
  apply G. lia.
Qed.
Lemma gfile_m A r c f g target lead tail : readsL A r c f -> (forall i j, i < r -> j < c -> reads_as (f i j) (g i j)) -> wf target -> blank lead ->
  exists txt ws m, write_m sh sh0 A = Ok txt /\ blank ws /\
    gread_m get target (good (lead ++ txt ++ tail)) = Ok (m, good (ws ++ tail)) /\ is_mat m r c g.
Proof.
  intros HA HF Hwf Hb. destruct (gwrite_m A r c f target lead tail HA Hwf Hb) as (txt & body & m1 & E1 & HT & E2 & L1 & E3).
  destruct (gtoks_read _ body _ HT _ (Forall2_elems r c f g _ HF) nil (data m1)) as (ws & Hws & E). { now rewrite elems_length. }
  rewrite elems_length in E. cbn [app length] in E. exists txt, (ws ++ nl), (mkM r c (elems r c g)).
  split; [auto|]. split; [apply blank_app; [auto|cbn; auto]|]. split; [rewrite E3, E; cbn [bind fst snd]; rewrite app_assoc_s; reflexivity|].
  apply elems_mat. destruct HA as [(_ & _ & _ & Hs & _) _]. exact Hs.
Qed.
(** The target's element, if it had one there, else the default. *)
Definition gkept (R C : nat) (ft : nat -> nat -> T) (i j : nat) : T := if (i <? R) && (j <? C) then ft i j else o0.
Lemma gfile_m_fail A r c f g y i0 j0 target R C ft lead tail : stuck -> readsL A r c f -> i0 < r -> j0 < c ->
  (forall i j, i < r -> j < c -> i * c + j < i0 * c + j0 -> reads_as (f i j) (g i j)) -> fails_as (f i0 j0) y -> is_mat target R C ft -> blank lead ->
  exists txt s' m, write_m sh sh0 A = Ok txt /\ failbit s' = true /\
    gread_m get target (good (lead ++ txt ++ tail)) = Ok (m, s') /\
    is_mat m r c (fun i j => if i * c + j <? i0 * c + j0 then g i j else if i * c + j =? i0 * c + j0 then y else gkept R C ft i j).
Proof.
  intros HS HA Hi Hj HF Hy Ht Hb. pose proof (is_mat_wf _ _ _ _ Ht) as Hwf. destruct (gwrite_m A r c f target lead tail HA Hwf Hb) as (txt & body & m1 & E1 & HT & E2 & L1 & E3).
  assert (Hs : shape_ok r c) by (destruct HA as [(_ & _ & _ & Hs & _) _]; exact Hs).
  destruct (C09_resize target R C ft r c Ht Hs) as (m1' & E1' & H1). rewrite E2 in E1'. injection E1' as <-.
  set (k0 := i0 * c + j0) in *. pose proof (idx_lt i0 j0 r c Hi Hj) as K0. fold k0 in K0.
  set (l1 := firstn k0 (elems r c f)). set (l1' := firstn k0 (elems r c g)). set (l2 := skipn (S k0) (elems r c f)).
  assert (EL : elems r c f = (l1 ++ f i0 j0 :: l2)%list).
  { unfold l1, l2. pose proof (elems_nth r c f i0 j0 Hi Hj) as EN. fold k0 in EN.
    rewrite <- (firstn_skipn k0 (elems r c f)) at 1. f_equal. apply nth_error_split in EN. destruct EN as (u & v & EU & LU). rewrite EU.
    rewrite <- LU. replace (S (length u)) with (length u + 1) by lia. rewrite !skipn_app, skipn_all, Nat.sub_diag. cbn [skipn app].
    replace (length u + 1 - length u) with 1 by lia. cbn [skipn]. rewrite skipn_all2 by lia. reflexivity. }
  assert (N1 : length l1 = k0) by (unfold l1; rewrite firstn_length, elems_length; lia).
  assert (N1' : length l1' = k0) by (unfold l1'; rewrite firstn_length, elems_length; lia).
  assert (HF2 : Forall2 reads_as l1 l1').
  { assert (G : forall a b : list T, length a = length b -> (forall k x x', nth_error a k = Some x -> nth_error b k = Some x' -> reads_as x x') -> Forall2 reads_as a b).
    { induction a as [|x a IH]; intros [|x' b] Hl H; try discriminate; constructor; [apply (H 0); reflexivity|]. apply IH; [now injection Hl|]. intros k. apply (H (S k)). }
    apply G; [congruence|]. intros k x x' X1 X2. assert (K : k < k0) by (rewrite <- N1; apply nth_error_Some; congruence).
    unfold l1, l1' in *. rewrite nth_error_firstn_lt in X1, X2 by lia.
    assert (Hc : c <> 0) by lia. pose proof (Nat.div_mod k c Hc) as DM. pose proof (Nat.mod_upper_bound k c Hc) as MB.
    assert (DR : k / c < r) by (apply Nat.div_lt_upper_bound; lia). replace k with (k / c * c + k mod c) in X1, X2 by lia.
    rewrite elems_nth in X1, X2 by auto. injection X1 as <-. injection X2 as <-. apply HF; auto. lia. }
  destruct (gtoks_fail HS _ body _ HT l1 l1' (f i0 j0) y l2 EL HF2 Hy nil (data m1)) as (s' & F & E). { now rewrite elems_length. }
  rewrite elems_length in E. cbn [app length] in E. rewrite N1 in E.
  exists txt, s', (mkM r c (l1' ++ y :: skipn (S k0) (data m1))). split; [auto|]. split; [auto|]. split; [rewrite E3, E; reflexivity|].
  split; [reflexivity|split; [reflexivity|split; [auto|split]]]; cbn [data].
  - rewrite app_length. cbn [length]. rewrite skipn_length, L1, N1'. lia.
  - intros i j Hi' Hj'. pose proof (idx_lt i j r c Hi' Hj') as K. destruct (Nat.ltb_spec (i * c + j) k0) as [C1|C1].
    + rewrite nth_error_app1 by lia. unfold l1'. rewrite nth_error_firstn_lt by lia. now apply elems_nth.
    + rewrite nth_error_app2 by lia. rewrite N1'. destruct (Nat.eqb_spec (i * c + j) k0) as [C2|C2].
      * rewrite C2, Nat.sub_diag. reflexivity.
      * replace (i * c + j - k0) with (S (i * c + j - S k0)) by lia. cbn [nth_error]. rewrite nth_error_skipn. replace (S k0 + (i * c + j - S k0)) with (i * c + j) by lia.
        destruct H1 as (_ & _ & _ & _ & H1). apply H1; auto.
Qed.
End Codec.
