(** IOFacts.v: lemmas about the model of io.hpp. *)
From Coq Require Import String Ascii DecimalString Decimal DecimalFacts DecimalN DecimalZ.
From Verif Require Import MatFacts IO IOSpec.
Local Open Scope string_scope.
Local Open Scope nat_scope.

(** * Strings *)
Lemma app_assoc_s (a b c : string) : (a ++ b) ++ c = a ++ b ++ c.
Proof. induction a as [|x a IH]; cbn; [reflexivity|]. now rewrite IH. Qed.
Lemma app_nil_s (a : string) : a ++ "" = a.
Proof. induction a as [|x a IH]; cbn; [reflexivity|]. now rewrite IH. Qed.
Lemma length_app_s (a b : string) : String.length (a ++ b) = String.length a + String.length b.
Proof. induction a as [|x a IH]; cbn; [reflexivity|]. now rewrite IH. Qed.
Lemma concat_cons sep x l : l <> nil -> String.concat sep (x :: l) = x ++ sep ++ String.concat sep l.
Proof. destruct l; [contradiction|reflexivity]. Qed.

Lemma blank_app a b : blank a -> blank b -> blank (a ++ b).
Proof. induction a as [|x a IH]; cbn; [auto|]. intros [H1 H2] Hb. auto. Qed.
Lemma blank_spaces n : blank (spaces n).
Proof. induction n; cbn; auto. Qed.
Lemma length_spaces n : String.length (spaces n) = n.
Proof. induction n; cbn; auto. Qed.
Lemma skipws_blank w s : blank w -> skipws (w ++ s) = skipws s.
Proof. induction w as [|x w IH]; cbn; [auto|]. intros [-> H]. auto. Qed.
Lemma skipws_nonblank c s : isspace c = false -> skipws (String c s) = String c s.
Proof. cbn. now intros ->. Qed.

(** * Separated loops *)
Lemma sub1 n : is_size n -> 0 < n -> sub64 n 1 = n - 1.
Proof. intros H1 H2. apply sub64_small; auto; lia. Qed.
Fixpoint flat (l : list string) : string := match l with nil => "" | (x :: l)%list => x ++ flat l end.
Lemma flat_app a b : flat (a ++ b)%list = flat a ++ flat b.
Proof. induction a as [|x a IH]; cbn; [reflexivity|]. now rewrite IH, app_assoc_s. Qed.
Lemma flat_sep sep (t : nat -> string) n : forall lo,
  flat (map (fun k => if k <? lo + n - 1 then t k ++ sep else t k) (seq lo n)) = String.concat sep (map t (seq lo n)).
Proof.
  induction n as [|n IH]; intros lo; [reflexivity|]. cbn [seq map flat].
  destruct n as [|n].
  - cbn [seq map flat String.concat]. replace (lo <? lo + 1 - 1) with false by (symmetry; apply Nat.ltb_ge; lia). apply app_nil_s.
  - rewrite concat_cons by discriminate.
    replace (lo <? lo + S (S n) - 1) with true by (symmetry; apply Nat.ltb_lt; lia).
    rewrite app_assoc_s. f_equal. f_equal. rewrite <- IH. f_equal. apply map_ext. intros k.
    replace (S lo + S n - 1) with (lo + S (S n) - 1) by lia. reflexivity.
Qed.
(** [for i in [0,n): s += t(i); if (i < n - 1) s += sep] *)
Lemma sep_loop sep n (body : nat -> string -> Res string) (t : nat -> string) s0 : is_size n ->
  (forall i s, i < n -> body i s = Ok (if i <? sub64 n 1 then (s ++ t i) ++ sep else s ++ t i)) ->
  for_range 0 n body s0 = Ok (s0 ++ joined sep n t).
Proof.
  intros Hn Hb.
  destruct (for_range_inv (fun i s => s = s0 ++ flat (map (fun k => if k <? 0 + n - 1 then t k ++ sep else t k) (seq 0 i))) 0 n body s0) as (s & E & P).
  - lia.
  - cbn. now rewrite app_nil_s.
  - intros i s Hi ->. rewrite Hb by lia. rewrite sub1 by (auto; lia). eexists. split; [reflexivity|].
    rewrite seq_S, map_app, flat_app. cbn [map flat]. rewrite app_nil_s, Nat.add_0_l, <- app_assoc_s.
    cbn [Nat.add]. destruct (i <? n - 1); rewrite ?app_assoc_s; reflexivity.
  - rewrite E, P, flat_sep. reflexivity.
Qed.
Lemma joined_ext sep n t t' : (forall i, i < n -> t i = t' i) -> joined sep n t = joined sep n t'.
Proof. intros H. unfold joined. f_equal. apply map_ext_in. intros k Hk. apply in_seq in Hk. apply H. lia. Qed.

Lemma list_max_app a b : list_max (a ++ b) = Nat.max (list_max a) (list_max b).
Proof. apply List.list_max_app. Qed.
Lemma longest_ge l s : In s l -> String.length s <= longest l.
Proof.
  intros H. unfold longest.
  assert (F : Forall (fun k => k <= list_max (map String.length l)) (map String.length l)) by (apply list_max_le; lia).
  rewrite Forall_forall in F. apply F. now apply in_map.
Qed.
Lemma longest_hit l : l <> nil -> exists s, In s l /\ String.length s = longest l.
Proof.
  induction l as [|x l IH]; [contradiction|]. intros _. unfold longest in *. cbn [map list_max fold_right].
  change (fold_right Nat.max 0 (map String.length l)) with (list_max (map String.length l)).
  destruct (Nat.max_spec (String.length x) (list_max (map String.length l))) as [[H ->]|[H ->]].
  - destruct l as [|y l]; [cbn in H; lia|]. destruct IH as (s & H1 & H2); [discriminate|]. exists s. split; [now right|auto].
  - exists x. split; [now left|reflexivity].
Qed.

Section Out.
Context {T : Type}.
Variables (sh sh0 : T -> string).
Lemma longhest_ok n (g : nat -> Res T) (x : nat -> T) : (forall i, i < n -> g i = Ok (x i)) ->
  get_longhest_value sh0 n g = Ok (longest (map (fun i => sh0 (x i)) (seq 0 n))).
Proof.
  intros Hg. unfold get_longhest_value.
  match goal with |- for_range _ _ ?b ?z = _ =>
    destruct (for_range_inv (fun i w => w = longest (map (fun i => sh0 (x i)) (seq 0 i))) 0 n b z) as (s & E & P) end.
  - lia.
  - reflexivity.
  - intros i w Hi ->. rewrite Hg by lia. cbn [bind]. eexists. split; [reflexivity|].
    unfold longest. rewrite seq_S, !map_app, list_max_app. cbn [map list_max fold_right Nat.add].
    rewrite Nat.max_0_r. destruct (Nat.ltb_spec (list_max (map String.length (map (fun i0 => sh0 (x i0)) (seq 0 i)))) (String.length (sh0 (x i)))); lia.
  - rewrite E, P. reflexivity.
Qed.
Lemma out_elems_ok w (v : list T) (f : nat -> T) n : is_vec v n f ->
  out_elems sh w v = Ok (joined " " n (fun i => setw w (sh (f i)))).
Proof.
  intros (Hl & Hf & Hv). unfold out_elems. rewrite Hl.
  rewrite (sep_loop " " n _ (fun i => setw w (sh (f i)))); [reflexivity|auto|].
  intros i s Hi. rewrite (lget_ok _ _ _ (Hv i Hi)). reflexivity.
Qed.
Lemma out_rows_ok w (A : MB T) r c f : reads A r c f ->
  out_rows sh w A = Ok (joined nl r (fun i => joined " " c (fun j => setw w (sh (f i j))))).
Proof.
  intros (Hr & Hc & _ & (Sr & Sc & _) & Hg). unfold out_rows. rewrite Hr, Hc.
  rewrite (sep_loop nl r _ (fun i => joined " " c (fun j => setw w (sh (f i j))))); [reflexivity|auto|].
  intros i s Hi. rewrite (sep_loop " " c _ (fun j => setw w (sh (f i j)))); [reflexivity|auto|].
  intros j s' Hj. rewrite Hg by auto. reflexivity.
Qed.
End Out.

(** * Numbers *)
(** The value of a digit string. *)
Fixpoint val (u : uint) (acc : N) : N :=
  match u with
  | Nil => acc
  | D0 u => val u (10 * acc) | D1 u => val u (10 * acc + 1) | D2 u => val u (10 * acc + 2)
  | D3 u => val u (10 * acc + 3) | D4 u => val u (10 * acc + 4) | D5 u => val u (10 * acc + 5)
  | D6 u => val u (10 * acc + 6) | D7 u => val u (10 * acc + 7) | D8 u => val u (10 * acc + 8)
  | D9 u => val u (10 * acc + 9)
  end.
Lemma val_pos u : forall p, val u (N.pos p) = N.pos (Pos.of_uint_acc u p).
Proof.
  induction u as [|u IH|u IH|u IH|u IH|u IH|u IH|u IH|u IH|u IH|u IH]; intros p; [reflexivity|..];
    cbn [val Pos.of_uint_acc]; rewrite <- IH; f_equal; lia.
Qed.
Lemma val_uint u : val u 0 = N.of_uint u.
Proof.
  unfold N.of_uint. induction u as [|u IH|u IH|u IH|u IH|u IH|u IH|u IH|u IH|u IH|u IH]; [reflexivity|exact IH|..];
    cbn [val Pos.of_uint]; apply val_pos.
Qed.
Lemma scan_uint u : forall t acc any, nodigit t ->
  scan (NilEmpty.string_of_uint u ++ t) acc any = (val u acc, any || negb (match u with Nil => true | _ => false end), t).
Proof.
  induction u as [|u IH|u IH|u IH|u IH|u IH|u IH|u IH|u IH|u IH|u IH]; intros t acc any Ht.
  - cbn. destruct t as [|c t]; [contradiction|]. cbn in Ht |- *. rewrite Ht, orb_false_r. reflexivity.
  - cbn [NilEmpty.string_of_uint String.append scan val]. change (digit "0") with (Some 0%N). cbv iota. rewrite IH, orb_true_r by auto. rewrite N.add_0_r. reflexivity.
  - cbn [NilEmpty.string_of_uint String.append scan val]. change (digit "1") with (Some 1%N). cbv iota. rewrite IH, orb_true_r by auto. reflexivity.
  - cbn [NilEmpty.string_of_uint String.append scan val]. change (digit "2") with (Some 2%N). cbv iota. rewrite IH, orb_true_r by auto. reflexivity.
  - cbn [NilEmpty.string_of_uint String.append scan val]. change (digit "3") with (Some 3%N). cbv iota. rewrite IH, orb_true_r by auto. reflexivity.
  - cbn [NilEmpty.string_of_uint String.append scan val]. change (digit "4") with (Some 4%N). cbv iota. rewrite IH, orb_true_r by auto. reflexivity.
  - cbn [NilEmpty.string_of_uint String.append scan val]. change (digit "5") with (Some 5%N). cbv iota. rewrite IH, orb_true_r by auto. reflexivity.
  - cbn [NilEmpty.string_of_uint String.append scan val]. change (digit "6") with (Some 6%N). cbv iota. rewrite IH, orb_true_r by auto. reflexivity.
  - cbn [NilEmpty.string_of_uint String.append scan val]. change (digit "7") with (Some 7%N). cbv iota. rewrite IH, orb_true_r by auto. reflexivity.
  - cbn [NilEmpty.string_of_uint String.append scan val]. change (digit "8") with (Some 8%N). cbv iota. rewrite IH, orb_true_r by auto. reflexivity.
  - cbn [NilEmpty.string_of_uint String.append scan val]. change (digit "9") with (Some 9%N). cbv iota. rewrite IH, orb_true_r by auto. reflexivity.
Qed.
Lemma scan_z u t : nodigit t -> scan (NilZero.string_of_uint u ++ t) 0 false = (N.of_uint u, true, t).
Proof.
  intros Ht. rewrite <- val_uint. destruct u.
  { cbn. destruct t as [|c t]; [contradiction|]. cbn in Ht |- *. now rewrite Ht. }
  all: cbn [NilZero.string_of_uint]; rewrite scan_uint by auto; reflexivity.
Qed.
Definition is_digit (c : ascii) : Prop := digit c <> None.
Lemma digit_head c : is_digit c -> isspace c = false /\ Ascii.eqb c "-" = false /\ Ascii.eqb c "+" = false.
Proof.
  unfold is_digit, digit, isspace. intros H.
  destruct ((48 <=? nat_of_ascii c) && (nat_of_ascii c <=? 57)) eqn:E; [|congruence].
  apply andb_true_iff in E. destruct E as [E1 E2]. apply Nat.leb_le in E1, E2. split; [|split].
  - apply orb_false_iff. split; [apply Nat.eqb_neq; lia|]. apply andb_false_iff. right. apply Nat.leb_gt. lia.
  - apply Ascii.eqb_neq. intros ->. change (nat_of_ascii "-") with 45 in E1. lia.
  - apply Ascii.eqb_neq. intros ->. change (nat_of_ascii "+") with 43 in E1. lia.
Qed.
Lemma uint_head u : exists c s, NilZero.string_of_uint u = String c s /\ is_digit c.
Proof. destruct u; cbn; eexists; eexists; (split; [reflexivity|discriminate]). Qed.
Lemma sentry_at w c t : blank w -> isspace c = false -> sentry (good (w ++ String c t)) = (Some (String c t), good (String c t)).
Proof. intros Hw Hc. unfold sentry. cbn [failbit eofbit good orb rest]. rewrite skipws_blank by auto. rewrite skipws_nonblank by auto. reflexivity. Qed.
Lemma sentry_blank w : blank w -> sentry (good w) = (None, mkIn "" true true).
Proof. intros Hw. unfold sentry. cbn [failbit eofbit good orb rest]. rewrite <- (app_nil_s w), skipws_blank by auto. reflexivity. Qed.
Lemma eqb_nodigit t : nodigit t -> String.eqb t "" = false.
Proof. destruct t; [contradiction|reflexivity]. Qed.
Lemma get_char_at w c t : blank w -> isspace c = false -> get_char (good (w ++ String c t)) = (Some c, good t).
Proof. intros Hw Hc. unfold get_char. rewrite sentry_at by auto. reflexivity. Qed.
Lemma get_size_at w n t : blank w -> is_size n -> nodigit t -> get_size (good (w ++ show_nat n ++ t)) = (Some (N.of_nat n), good t).
Proof.
  intros Hw Hn Ht. unfold show_nat, show_N. destruct (uint_head (N.to_uint (N.of_nat n))) as (c & s & E & Hc).
  destruct (digit_head c Hc) as (H1 & H2 & H3). pose proof (scan_z (N.to_uint (N.of_nat n)) t Ht) as Hz.
  rewrite E in Hz |- *. cbn [String.append] in Hz |- *. unfold get_size. rewrite sentry_at by auto. cbv beta iota zeta. cbn [scan_sign].
  rewrite H2, H3. cbv beta iota zeta. rewrite Hz. rewrite DecimalN.Unsigned.of_to. cbn [negb].
  rewrite eqb_nodigit by auto. unfold is_size, size_max, two64 in *.
  destruct (N.ltb_spec 18446744073709551615 (N.of_nat n)); [lia|]. reflexivity.
Qed.
Lemma get_int_at lo hi p w z t : blank w -> in_range lo hi z -> nodigit t -> get_int lo hi (good (w ++ show_Z p z ++ t)) = (Some z, good t).
Proof.
  intros Hw [Hl Hh] Ht. unfold show_Z, get_int.
  assert (R : forall y, y = z -> (if (y <? lo)%Z then (Some lo, mkIn t true false) else if (hi <? y)%Z then (Some hi, mkIn t true false) else (Some y, mkIn t false false)) = (Some z, good t)).
  { intros y ->. destruct (Z.ltb_spec z lo); [lia|]. destruct (Z.ltb_spec hi z); [lia|]. reflexivity. }
  pose proof (of_to z) as Hz. destruct (Z.to_int z) as [u|u] eqn:E.
  - destruct (uint_head u) as (c & s & Eu & Hc). destruct (digit_head c Hc) as (H1 & H2 & H3).
    pose proof (scan_z u t Ht) as Hs.
    assert (Hn : (if false then (- Z.of_N (N.of_uint u))%Z else Z.of_N (N.of_uint u)) = z).
    { rewrite <- Hz. cbn. unfold Z.of_uint. destruct (N.of_uint u) eqn:E2; unfold N.of_uint in E2; rewrite E2; reflexivity. }
    destruct (p && (0 <=? z)%Z).
    + cbn [String.append NilZero.string_of_int]. rewrite sentry_at by auto. cbv beta iota zeta. cbn [scan_sign]. cbv beta iota zeta.
      change (Ascii.eqb "+" "-") with false. change (Ascii.eqb "+" "+") with true. cbv beta iota zeta.
      rewrite Hs. cbn [negb]. rewrite eqb_nodigit by auto. apply R. exact Hn.
    + cbn [String.append NilZero.string_of_int]. rewrite Eu in Hs |- *. cbn [String.append] in Hs |- *. rewrite sentry_at by auto. cbv beta iota zeta. cbn [scan_sign].
      rewrite H2, H3. cbv beta iota zeta. rewrite Hs. cbn [negb]. rewrite eqb_nodigit by auto. apply R. exact Hn.
  - pose proof (scan_z u t Ht) as Hs.
    assert (Hn : (- Z.of_N (N.of_uint u))%Z = z).
    { rewrite <- Hz. cbn. unfold Z.of_uint. destruct (N.of_uint u) eqn:E2; unfold N.of_uint in E2; rewrite E2; reflexivity. }
    assert (Hp : p && (0 <=? z)%Z = false).
    { destruct (Z.leb_spec 0 z) as [H0|H0]; [|now rewrite andb_false_r]. destruct z; cbn in E; try discriminate. lia. }
    rewrite Hp. cbn [String.append NilZero.string_of_int]. rewrite sentry_at by auto. cbv beta iota zeta. cbn [scan_sign]. cbv beta iota zeta.
    change (Ascii.eqb "-" "-") with true. cbv beta iota zeta. rewrite Hs. cbn [negb]. rewrite eqb_nodigit by auto. apply R. exact Hn.
Qed.

(** * Sequences of numbers *)
Lemma toks_ws p l s r w : blank w -> toks p l s r -> toks p l (w ++ s) r.
Proof.
  intros Hw H. destruct H as [w' r H|w' z l s r H1 H2 H3]; rewrite <- app_assoc_s.
  - constructor. now apply blank_app.
  - constructor; auto. now apply blank_app.
Qed.
Lemma toks_app p l1 l2 s r1 r2 : toks p l1 s r1 -> toks p l2 r1 r2 -> toks p (l1 ++ l2)%list s r2.
Proof.
  intros H. induction H as [w r H|w z l s r H1 H2 H3 IH]; intros Ht; cbn [app].
  - now apply toks_ws.
  - constructor; auto.
Qed.
Lemma nodigit_sp t : nodigit (String " " t). Proof. reflexivity. Qed.
Lemma nodigit_nl t : nodigit (nl ++ t). Proof. reflexivity. Qed.
Lemma setw_show p w z : exists ws, blank ws /\ setw w (show_Z p z) = ws ++ show_Z p z.
Proof. exists (spaces (w - String.length (show_Z p z))). split; [apply blank_spaces|reflexivity]. Qed.
Lemma toks_row p w (f : nat -> Z) n t : forall lo,
  toks p (map f (seq lo n)) (String.concat " " (map (fun i => setw w (show_Z p (f i))) (seq lo n)) ++ nl ++ t) (nl ++ t).
Proof.
  induction n as [|n IH]; intros lo.
  - apply (toks_nil p "" (nl ++ t) I).
  - cbn [seq map]. destruct (setw_show p w (f lo)) as (ws & Hw & E). destruct n as [|n].
    + cbn [seq map String.concat]. rewrite E, app_assoc_s. constructor; [auto|apply nodigit_nl|]. apply (toks_nil p "" (nl ++ t) I).
    + rewrite concat_cons by discriminate. rewrite E, !app_assoc_s. constructor; [auto|reflexivity|]. apply toks_ws; [cbn; auto|]. apply IH.
Qed.
Lemma toks_rows p w (f : nat -> nat -> Z) r c t : forall lo,
  toks p (flat_map (fun i => map (fun j => f i j) (seq 0 c)) (seq lo r))
    (String.concat nl (map (fun i => joined " " c (fun j => setw w (show_Z p (f i j)))) (seq lo r)) ++ nl ++ t) (nl ++ t).
Proof.
  induction r as [|r IH]; intros lo.
  - apply (toks_nil p "" (nl ++ t) I).
  - cbn [seq map flat_map]. destruct r as [|r].
    + cbn [seq map String.concat flat_map]. rewrite app_nil_r. apply toks_row.
    + rewrite concat_cons by discriminate. rewrite !app_assoc_s. eapply toks_app; [apply toks_row|].
      apply toks_ws; [cbn; auto|]. apply IH.
Qed.

(** Reading them into a buffer, starting at index [length d1]. *)
Section In.
Context {O : Ops Z}.
Variables (lo hi : Z).
Lemma toks_read p l s r : toks p l s r -> Forall (in_range lo hi) l -> forall d1 d2, length d2 = length l ->
  exists w, blank w /\ for_n (length l) (length d1) (in_elem lo hi) (d1 ++ d2, good s)%list = Ok (d1 ++ l, good (w ++ r))%list.
Proof.
  intros H. induction H as [w r H|w z l s r H1 H2 H3 IH]; intros HF d1 d2 Hd.
  - destruct d2; [|discriminate]. exists w. split; auto.
  - destruct d2 as [|y d2]; [discriminate|]. inversion HF as [|? ? Hz HF']; subst. injection Hd as Hd.
    destruct (IH HF' (d1 ++ [z])%list d2 Hd) as (w' & Hw' & E). exists w'. split; [auto|].
    cbn [length for_n]. unfold in_elem at 1. cbn [snd fst]. rewrite (get_int_at lo hi p w z s) by auto.
    rewrite lset_ok by (rewrite app_length; cbn; lia). cbn [bind].
    replace (upd (d1 ++ y :: d2) (length d1) z) with ((d1 ++ [z]) ++ d2)%list.
    + rewrite app_length in E. cbn [length] in E. replace (length d1 + 1) with (S (length d1)) in E by lia.
      rewrite E. rewrite <- app_assoc. reflexivity.
    + rewrite <- app_assoc. cbn [app]. clear. induction d1 as [|x d1 IH]; cbn; [reflexivity|]. now rewrite IH.
Qed.
End In.
