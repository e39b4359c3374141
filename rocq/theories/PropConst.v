(** PropConst.v: the constants of other statements, in terms of numbers and characters only: the
    tolerance (C84), line breaks and padding (C67). *)
From Coq Require Import ZArith QArith Qabs Qpower Lia Lqa SpecFloat String Ascii.
From Verif Require Import Mat IO PropText FloatIO Float FloatFacts FloatValid FloatRound FloatIOFacts FloatArith FloatSum FloatCmp PropFloat PropFloat2 PropFloatIO PropFloatSum PropFloatCmp FloatLoop PropFloatSim.

(** feq.hpp's tolerance of 1e-06 is the double nearest to one millionth; it is a little less. *)
Theorem C84_tolerance : nearest_double (1 # 1000000) tol6 /\ (0 < (1 # 1000000) - dval tol6 < (1 # 1000000) * (1 # 2 ^ 54))%Q.
Proof.
  split; [|split; reflexivity]. set (mn := S754_finite false 8589934592000000 (-33)).
  assert (P1 : proper one) by apply one_proper. assert (Pm : proper mn) by (split; [reflexivity|exact I]). assert (V : (dval mn == 1000000)%Q) by reflexivity.
  assert (NZ : ~ (dval mn == 0)%Q) by (rewrite V; lra). destruct (div_facts _ _ P1 Pm NZ) as [D C]. assert (E : SFdiv prec64 emax64 one mn = tol6) by (vm_compute; reflexivity). rewrite E in D, C.
  assert (W : (dval one / dval mn == 1 # 1000000)%Q) by (rewrite V; reflexivity). pose proof (crt_wd prec64 emax64 _ _ _ W C) as C'.
  destruct (crt_correct _ _ D C') as [[H _]|[[H _]|[H _]]]; [exact H|discriminate H|discriminate H].
Qed.
(** A line break is the one character number 10; a text shorter than the width gets spaces (character
    number 32) before it, up to the width; a longer one is left alone. *)
Theorem C67_padding : list_ascii_of_string nl = (ascii_of_nat 10 :: nil)%list /\
  forall w s, list_ascii_of_string (setw w s) = (repeat (ascii_of_nat 32) (w - String.length s) ++ list_ascii_of_string s)%list /\
    String.length (setw w s) = Nat.max w (String.length s) /\ ((w <= String.length s)%nat -> setw w s = s).
Proof.
  split; [reflexivity|]. intros w s. unfold setw. set (n := (w - String.length s)%nat). assert (A : list_ascii_of_string (append (spaces n) s) = (repeat (ascii_of_nat 32) n ++ list_ascii_of_string s)%list) by (induction n as [|n IH]; cbn; [reflexivity|now rewrite IH]).
  split; [exact A|]. split; [|intros H; unfold n; now replace (w - String.length s)%nat with 0%nat by lia]. enough (L : String.length (append (spaces n) s) = (n + String.length s)%nat) by lia. clear A. induction n as [|n IH]; cbn; [reflexivity|now rewrite IH].
Qed.
Example C67_padding_ex : setw 4 "-7" = append "  " "-7". Proof. reflexivity. Qed.
(** A complex element in the MATLAB text: the real part, then the imaginary part with its sign, then i. *)
Theorem C71_complex_text : forall x y, show_cplx (x, y) = append (sign_of false x) (append (show_N (Z.abs_N x)) (append (sign_of true y) (append (show_N (Z.abs_N y)) "i"))).
Proof.
  intros x y. unfold show_cplx. cbn [fst snd]. rewrite !(proj2 C71_decimal).
  assert (A : forall a b c : string, append (append a b) c = append a (append b c)) by (intros a b c; induction a as [|k a IH]; cbn; [reflexivity|now rewrite IH]). now rewrite !A.
Qed.
(** What is stored when a number in a file is too large for a double: the largest finite one, 2^1024 - 2^971, with its sign. *)
Theorem C88_largest : forall s, is_double (max_double s) /\ is_finite (max_double s) /\ (dval (max_double s) == (if s then -1 else 1) * inject_Z (2 ^ 1024 - 2 ^ 971))%Q /\
  forall d, is_double d -> is_finite d -> (Qabs (dval d) <= Qabs (dval (max_double s)))%Q.
Proof.
  intros s. split; [destruct s; reflexivity|]. split; [exact I|]. split; [destruct s; vm_compute; reflexivity|].
  assert (A : forall (b : bool) m e, (Qabs (dval (S754_finite b m e)) == inject_Z (Zpos m) * 2 ^ e)%Q).
  { intros b m e. assert (P : (0 <= inject_Z (Zpos m) * 2 ^ e)%Q) by (apply Qmult_le_0_compat; [change (inject_Z 0 <= inject_Z (Zpos m))%Q; rewrite <- Zle_Qle; lia|apply Qpower_pos; lra]).
    cbn [dval]. destruct b; [setoid_replace (-1 * inject_Z (Zpos m) * 2 ^ e)%Q with (- (inject_Z (Zpos m) * 2 ^ e))%Q by ring; rewrite Qabs_opp|rewrite Qmult_1_l]; now apply Qabs_pos. }
  intros d V F. destruct d as [b| | |b m e]; try contradiction; [cbn [dval]; apply Qabs_nonneg|]. unfold max_double. change (2 ^ 53 - 1)%positive with 9007199254740991%positive. rewrite !A.
  assert (B : bounded prec64 emax64 m e = true) by exact V. assert (B' : bounded prec64 emax64 9007199254740991 971 = true) by reflexivity.
  assert (E : (e <= 971)%Z) by (unfold bounded in B; apply andb_prop in B as [_ B]; apply Zle_bool_imp_le in B; exact B).
  destruct (Z.eq_dec e 971) as [->|N]; [|apply Qlt_le_weak; eapply (canon_lt prec64 emax64); [reflexivity..|exact B|exact B'|lia]].
  apply Qmult_le_compat_r; [|apply Qpower_pos; lra]. rewrite <- Zle_Qle. pose proof (bounded_canon prec64 emax64 _ _ B) as C. pose proof (digits_bounds m) as [_ D].
  assert (K : (Zpos (digits2_pos m) <= 53)%Z) by (unfold fexp, emin, prec64, emax64 in C; lia). assert (2 ^ Zpos (digits2_pos m) <= 2 ^ 53)%Z by (apply Z.pow_le_mono_r; lia). lia.
Qed.
