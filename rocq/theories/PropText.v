(** PropText.v: the texts of C67-C72 in terms of characters only: what white space is, what a digit
    is, and that numbers are written as the usual decimal numerals. *)
From Coq Require Import String Ascii List ZArith NArith Lia Decimal DecimalString DecimalFacts DecimalN DecimalPos.
From Verif Require Import Mat Spec IO IOSpec IOFacts.
Import ListNotations.
Local Open Scope string_scope.
Local Open Scope nat_scope.

(** * Specification *)
(** Space, tab, line feed, vertical tab, form feed, carriage return. *)
Definition white : list ascii := map ascii_of_nat [32; 9; 10; 11; 12; 13].
Definition numerals : list ascii := ["0"; "1"; "2"; "3"; "4"; "5"; "6"; "7"; "8"; "9"]%char.
Definition chars := list_ascii_of_string.
(** [value s v]: the text [s] is a decimal numeral for [v]. *)
Inductive value : string -> N -> Prop :=
| value_1 c d : nth_error numerals d = Some c -> value (String c "") (N.of_nat d)
| value_s s v c d : value s v -> nth_error numerals d = Some c -> value (s ++ String c "") (10 * v + N.of_nat d)%N.
Definition no_leading_zero (s : string) : Prop := s = "0" \/ forall t, s <> String "0" t.
Definition sign_of (plus : bool) (z : Z) : string := if (z <? 0)%Z then "-" else if plus then "+" else "".

(** * White space and digits *)
Theorem C69_white_space : (forall c, isspace c = true <-> In c white) /\ forall s, blank s <-> forall c, In c (chars s) -> In c white.
Proof.
  assert (W : forall c, isspace c = true <-> In c white).
  { intros c. split.
    - intros H. destruct c as [[|] [|] [|] [|] [|] [|] [|] [|]]; try discriminate H; cbv; tauto.
    - cbn [white map In]. intros H. repeat (destruct H as [<-|H]; [reflexivity|]). contradiction. }
  split; [exact W|]. induction s as [|c s IH]; cbn [blank chars list_ascii_of_string In]; [now split|]. rewrite IH, W. split.
  - intros [H1 H2] x [<-|H]; [exact H1|now apply H2].
  - intros H. split; [apply H; now left|]. intros x Hx. apply H. now right.
Qed.
Theorem C69_digits : forall c, (forall d, digit c = Some (N.of_nat d) <-> nth_error numerals d = Some c) /\ (digit c = None <-> ~ In c numerals).
Proof.
  intros c. assert (A : forall d, digit c = Some (N.of_nat d) <-> nth_error numerals d = Some c).
  { intros d. split.
    - intros H. destruct c as [[|] [|] [|] [|] [|] [|] [|] [|]]; try discriminate H; injection H as H; do 10 (destruct d as [|d]; [try discriminate H; reflexivity|]); lia.
    - intros H. do 10 (destruct d as [|d]; [injection H as <-; reflexivity|]). destruct d; discriminate H. }
  split; [exact A|]. split.
  - intros H K. apply In_nth_error in K as [d K]. apply A in K. congruence.
  - intros H. destruct (digit c) as [d|] eqn:E; [|reflexivity]. exfalso. apply H. specialize (A (N.to_nat d)). rewrite N2Nat.id in A. exact (nth_error_In _ _ (proj1 A eq_refl)).
Qed.

(** * Decimal numerals *)
Lemma app_nil_r (s : string) : s ++ "" = s. Proof. induction s as [|c s IH]; cbn; [reflexivity|now rewrite IH]. Qed.
Lemma app_char (s t : string) c : s ++ String c t = (s ++ String c "") ++ t.
Proof. induction s as [|x s IH]; cbn; [reflexivity|now rewrite IH]. Qed.
Lemma value_uint u : forall s v, value s v -> value (s ++ NilEmpty.string_of_uint u) (val u v).
Proof.
  induction u as [|u IH|u IH|u IH|u IH|u IH|u IH|u IH|u IH|u IH|u IH]; intros s v H; cbn [NilEmpty.string_of_uint val]; [now rewrite app_nil_r|..]; rewrite app_char; apply IH.
  1: rewrite <- (N.add_0_r (10 * v)); exact (value_s s v "0" 0 H eq_refl).
  - exact (value_s s v "1" 1 H eq_refl).
  - exact (value_s s v "2" 2 H eq_refl).
  - exact (value_s s v "3" 3 H eq_refl).
  - exact (value_s s v "4" 4 H eq_refl).
  - exact (value_s s v "5" 5 H eq_refl).
  - exact (value_s s v "6" 6 H eq_refl).
  - exact (value_s s v "7" 7 H eq_refl).
  - exact (value_s s v "8" 8 H eq_refl).
  - exact (value_s s v "9" 9 H eq_refl).
Qed.
Lemma value_z u : value (NilZero.string_of_uint u) (val u 0).
Proof.
  destruct u as [|u|u|u|u|u|u|u|u|u|u]; cbn [NilZero.string_of_uint NilEmpty.string_of_uint val]; [exact (value_1 "0" 0 eq_refl)|..].
  - exact (value_uint u _ _ (value_1 "0" 0 eq_refl)).
  - exact (value_uint u _ _ (value_1 "1" 1 eq_refl)).
  - exact (value_uint u _ _ (value_1 "2" 2 eq_refl)).
  - exact (value_uint u _ _ (value_1 "3" 3 eq_refl)).
  - exact (value_uint u _ _ (value_1 "4" 4 eq_refl)).
  - exact (value_uint u _ _ (value_1 "5" 5 eq_refl)).
  - exact (value_uint u _ _ (value_1 "6" 6 eq_refl)).
  - exact (value_uint u _ _ (value_1 "7" 7 eq_refl)).
  - exact (value_uint u _ _ (value_1 "8" 8 eq_refl)).
  - exact (value_uint u _ _ (value_1 "9" 9 eq_refl)).
Qed.
Theorem C71_decimal : (forall n, value (show_N n) n /\ no_leading_zero (show_N n)) /\ forall plus z, show_Z plus z = sign_of plus z ++ show_N (Z.abs_N z).
Proof.
  split.
  - intros n. split.
    + unfold show_N. pose proof (value_z (N.to_uint n)) as H. rewrite val_uint, DecimalN.Unsigned.of_to in H. exact H.
    + unfold show_N, no_leading_zero. assert (U : unorm (N.to_uint n) = N.to_uint n) by (rewrite <- DecimalN.Unsigned.to_of; now rewrite DecimalN.Unsigned.of_to).
      unfold unorm in U. destruct (nzhead (N.to_uint n)) eqn:E; rewrite <- U; [now left|exfalso; exact (nzhead_nonzero _ _ E)|right..]; intros t; discriminate.
  - intros plus z. unfold show_Z, sign_of, show_N. destruct z as [|p|p]; [now destruct plus|now destruct plus|]. change (0 <=? Z.neg p)%Z with false. rewrite andb_false_r. reflexivity.
Qed.
(** The numeral determines the number. *)
Lemma app_last (s t : string) c d : s ++ String c "" = t ++ String d "" -> s = t /\ c = d.
Proof.
  revert t. induction s as [|x s IH]; intros [|y t]; cbn; intros E; [now injection E as ->|injection E as E1 E2; subst..].
  - destruct t; discriminate E2.
  - destruct s; discriminate E2.
  - destruct (IH t E2) as [-> ->]. auto.
Qed.
Theorem C71_decimal_unique : forall s v w, value s v -> value s w -> v = w.
Proof.
  assert (D : forall c d e, nth_error numerals d = Some c -> nth_error numerals e = Some c -> d = e).
  { intros c d e H K. apply (proj1 (C69_digits c)) in H, K. rewrite H in K. injection K. lia. }
  assert (N0 : forall s v, value s v -> s <> "") by (intros s v [|s' v' c d H1 H2]; [discriminate|destruct s'; discriminate]).
  intros s v w H. revert w. induction H as [c d E|s v c d H IH E]; intros w K; inversion K as [c' d' E' X|s' v' c' d' H' E' X].
  - subst. now rewrite (D _ _ _ E E').
  - exfalso. destruct s' as [|x s']; [now apply (N0 _ _ H')|]. destruct s'; discriminate X.
  - exfalso. destruct s as [|x s]; [now apply (N0 _ _ H)|]. destruct s; discriminate X.
  - apply app_last in X as [-> ->]. now rewrite (IH _ H'), (D _ _ _ E E').
Qed.

(** * Examples *)
Example C71_decimal_ex : show_Z true 407 = "+407" /\ show_Z false (-12)%Z = "-12" /\ value "407" 407 /\ no_leading_zero "407".
Proof.
  split; [reflexivity|]. split; [reflexivity|]. split; [|right; discriminate].
  exact (value_s "40" 40 "7" 7 (value_s "4" 4 "0" 0 (value_1 "4" 4 eq_refl) eq_refl) eq_refl).
Qed.
Example C69_white_ex : blank (String (ascii_of_nat 13) nl) /\ ~ blank "x". Proof. split; [now repeat split|intros [H _]; discriminate]. Qed.
