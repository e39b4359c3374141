(** PropIO4.v: C77 for headers with a negative size, C70 for ranges. *)
From Coq Require Import String Ascii DecimalString Decimal.
From Verif Require Import MatFacts PropMatrix IO IOSpec IOFacts PropIO PropIO2 PropIO3 Scalar.
Local Open Scope string_scope.
Local Open Scope nat_scope.

Lemma get_size_neg w n k t : blank w -> (N.of_nat n + N.of_nat k = two64)%N -> 0 < n -> 0 < k -> nodigit t ->
  get_size (good (w ++ "-" ++ show_nat n ++ t)) = (Some (N.of_nat k), good t).
Proof.
  intros Hw Hs Hn Hk Ht. unfold show_nat, show_N. pose proof (scan_z (N.to_uint (N.of_nat n)) t Ht) as Hz.
  cbn [String.append]. unfold get_size. rewrite sentry_at by auto. cbv beta iota zeta. cbn [scan_sign Ascii.eqb Bool.eqb].
  cbv beta iota zeta. rewrite Hz, DecimalN.Unsigned.of_to. cbn [negb]. rewrite eqb_nodigit by auto. unfold size_max.
  destruct (N.ltb_spec 18446744073709551615 (N.of_nat n)); [unfold two64 in Hs; lia|].
  replace ((two64 - N.of_nat n) mod two64)%N with (N.of_nat k); [reflexivity|]. rewrite N.mod_small; lia.
Qed.
Section Negative.
Variables (lo hi : Z).
(** A negative size -n in a file is not an error: it stands for 2^64 - n. *)
Theorem C77_negative_size : forall target lead n k t, blank lead -> (N.of_nat n + N.of_nat k = two64)%N -> 0 < n -> 0 < k -> nodigit t ->
  read_v lo hi target (good (lead ++ "V -" ++ show_nat n ++ t)) = read_v lo hi target (good (lead ++ header k ++ t)).
Proof.
  intros target lead n k t Hb Hs Hn Hk Ht. unfold header, read_v. rewrite !app_assoc_s. cbn [String.append]. rewrite !get_char_at by auto.
  cbn [Ascii.eqb Bool.eqb negb].
  change (String " " (String "-" (show_nat n ++ t))) with (" " ++ "-" ++ show_nat n ++ t). rewrite (get_size_neg " " n k) by (cbn; auto).
  change (String " " (show_nat k ++ t)) with (" " ++ show_nat k ++ t). rewrite (get_size_at " " k) by (cbn; auto; unfold is_size; lia). reflexivity.
Qed.
Theorem C77_negative_rows : forall m lead n k t, blank lead -> (N.of_nat n + N.of_nat k = two64)%N -> 0 < n -> 0 < k -> nodigit t ->
  read_m lo hi m (good (lead ++ "M -" ++ show_nat n ++ t)) = read_m lo hi m (good (lead ++ "M " ++ show_nat k ++ t)).
Proof.
  intros m lead n k t Hb Hs Hn Hk Ht. unfold read_m. cbn [String.append]. rewrite !get_char_at by auto.
  cbn [Ascii.eqb Bool.eqb negb].
  change (String " " (String "-" (show_nat n ++ t))) with (" " ++ "-" ++ show_nat n ++ t). rewrite (get_size_neg " " n k) by (cbn; auto).
  change (String " " (show_nat k ++ t)) with (" " ++ show_nat k ++ t). rewrite (get_size_at " " k) by (cbn; auto; unfold is_size; lia). reflexivity.
Qed.
Theorem C77_negative_cols : forall m lead r n k t, blank lead -> is_size r -> (N.of_nat n + N.of_nat k = two64)%N -> 0 < n -> 0 < k -> nodigit t ->
  read_m lo hi m (good (lead ++ "M " ++ show_nat r ++ " -" ++ show_nat n ++ t)) = read_m lo hi m (good (lead ++ mheader r k ++ t)).
Proof.
  intros m lead r n k t Hb Hr Hs Hn Hk Ht. unfold mheader, read_m. rewrite !app_assoc_s. cbn [String.append]. rewrite !get_char_at by auto.
  cbn [Ascii.eqb Bool.eqb negb].
  assert (G : forall t', nodigit t' -> get_size (good (String " " (show_nat r ++ t'))) = (Some (N.of_nat r), good t')).
  { intros t' Ht'. apply (get_size_at " " r); cbn; auto. }
  rewrite !G by reflexivity.
  change (String " " (String "-" (show_nat n ++ t))) with (" " ++ "-" ++ show_nat n ++ t). rewrite (get_size_neg " " n k) by (cbn; auto).
  change (String " " (show_nat k ++ t)) with (" " ++ show_nat k ++ t). rewrite (get_size_at " " k) by (cbn; auto; unfold is_size; lia). reflexivity.
Qed.
(** So a size of -1, -2, ... asks for more memory than there is. *)
Theorem C77_negative_undefined : forall target lead n t, blank lead -> 0 < n -> (N.of_nat n <= two64 - alloc_max)%N -> (N.of_nat (length target) < alloc_max)%N -> nodigit t ->
  read_v lo hi target (good (lead ++ "V -" ++ show_nat n ++ t)) = UB.
Proof.
  intros target lead n t Hb Hn Hs Hl Ht. 
  assert (A : (0 < alloc_max /\ alloc_max < two64)%N) by (split; reflexivity). revert A Hs Hl.
  assert (F : forall k, ~ (N.of_nat k < alloc_max)%N -> ~ fits k) by (intros k H; exact H). revert F.
  generalize alloc_max. intros am F [A1 A2] Hs Hl.
  assert (K : exists k, (N.of_nat n + N.of_nat k = two64)%N). { exists (N.to_nat (two64 - N.of_nat n)). rewrite Nnat.N2Nat.id. lia. }
  destruct K as [k K]. rewrite (C77_negative_size target lead n k t) by (auto; lia).
  apply C77_huge_size; auto; [unfold is_size; lia|apply F; lia|]. intros ->. lia.
Qed.
End Negative.

(** A printed Range is [start, stop], and determines both. *)
Lemma digits_sep u v a b c t t' : digit c = None -> NilZero.string_of_uint u = a -> NilZero.string_of_uint v = b -> a ++ String c t = b ++ String c t' -> N.of_uint u = N.of_uint v /\ t = t'.
Proof.
  intros Hc Ha Hb E. subst a b.
  pose proof (scan_z u (String c t) Hc) as H1. pose proof (scan_z v (String c t') Hc) as H2. rewrite E, H2 in H1.
  injection H1 as E1 E2. auto.
Qed.
Theorem C70_range : forall a b a' b', print_range (mkRange a b) = print_range (mkRange a' b') -> a = a' /\ b = b'.
Proof.
  intros a b a' b' E. unfold print_range in E. cbn [start stop] in E. cbn [String.append] in E. injection E as E.
  unfold show_nat, show_N in E.
  eapply digits_sep in E; [|reflexivity|reflexivity|reflexivity]. destruct E as [E1 E2].
  rewrite !DecimalN.Unsigned.of_to in E1. injection E2 as E2.
  eapply digits_sep in E2; [|reflexivity|reflexivity|reflexivity]. destruct E2 as [E3 _].
  rewrite !DecimalN.Unsigned.of_to in E3. split; lia.
Qed.
Example C70_range_ex : print_range (mkRange 2 15) = "[2, 15]". Proof. reflexivity. Qed.
Example C77_negative_ex : read_v (-128) 127 [7;8]%Z (good ("V -1" ++ nl ++ "1 2")) = UB /\
  read_v (-128) 127 nil (good ("V -18446744073709551613" ++ nl ++ "1 2 3 ")) = Ok ([1;2;3]%Z, good " ").
Proof.
  split.
  - apply (C77_negative_undefined (-128) 127 [7;8]%Z "" 1 (nl ++ "1 2")); [exact I|lia|discriminate|reflexivity|reflexivity].
  - reflexivity.
Qed.
