(** PropRelInt.v: C106 for the integer types.  What the library computes with unsigned
    integers is what exact integers give, reduced modulo 2^w; a signed result that does not
    depend on an overflow is the exact one, whatever the width; and signed and unsigned
    integers of one width hold the same bits. *)
From Verif Require Import Control Ints Float Rel PropRel.
Local Open Scope Z_scope.

(** A result with a function applied to every element. *)
Definition each {A B} (h : A -> B) (m : Matrix A) : Matrix B := mkM (rows m) (cols m) (map h (data m)).
Definition result {A B} (h : A -> B) (x : Res A) : Res B := let* a := x in Ok (h a).

Lemma f2_map {A B} (h : A -> B) l l' : Forall2 (fun a b => b = h a) l l' -> l' = map h l.
Proof. induction 1; cbn; congruence. Qed.
Lemma map_f2 {A B} (h : A -> B) l : Forall2 (fun a b => b = h a) l (map h l).
Proof. induction l; cbn; auto. Qed.
Lemma each_rel {A B} (h : A -> B) m : rmat (fun a b => b = h a) m (each h m).
Proof. repeat split. apply map_f2. Qed.
Lemma rel_each {A B} (h : A -> B) x y : rres (rmat (fun a b => b = h a)) x y -> y = result (each h) x.
Proof.
  destruct x as [m| | | |], y as [[r c d]| | | |]; cbn; try contradiction; try reflexivity. intros (H1 & H2 & H3). cbn in *. unfold each. now rewrite H1, H2, (f2_map h _ _ H3).
Qed.
Lemma rel_map {A B} (h : A -> B) x y : rres (Forall2 (fun a b => b = h a)) x y -> y = result (map h) x.
Proof. destruct x, y; cbn; try contradiction; try reflexivity. intros H. now rewrite (f2_map h _ _ H). Qed.
Lemma rel_elt {A B} (h : A -> B) x y : rres (fun a b => b = h a) x y -> y = result h x.
Proof. destruct x, y; cbn; try contradiction; try reflexivity. now intros ->. Qed.

(** ** Unsigned *)
Definition low (w z : Z) : Z := z mod 2 ^ w.
Lemma low_ring w : 0 <= w -> same_ring zops (uops w) (fun z u => u = low w z).
Proof.
  intros Hw. assert (P : 2 ^ w <> 0) by (apply Z.pow_nonzero; lia). unfold low. split; cbn -[Z.modulo Z.pow Z.opp]; intros; subst.
  - now rewrite Zmod_0_l.
  - reflexivity.
  - now rewrite (Z.add_mod a a').
  - now rewrite (Zminus_mod a a').
  - now rewrite (Z.mul_mod a a').
  - rewrite <- (Z.sub_0_l a), <- (Z.sub_0_l (a mod 2 ^ w)). now rewrite Zminus_mod_idemp_r.
  - reflexivity.
Qed.
Theorem C106_unsigned w : 0 <= w -> ring_agree zops (uops w) (fun z u => u = low w z).
Proof. intros Hw. apply C106_ring, low_ring, Hw. Qed.
(** The same as equations, for some of the functions. *)
Theorem C106_unsigned_results w A B u : 0 <= w ->
  m_mul (O := uops w) (mb_of_mat (each (low w) A)) (mb_of_mat (each (low w) B)) = result (each (low w)) (m_mul (mb_of_mat A) (mb_of_mat B)) /\
  (forall n, powm (O := uops w) (mb_of_mat (each (low w) A)) n = result (each (low w)) (powm (mb_of_mat A) n)) /\
  (0 < cols A <= 4 -> determinant (O := uops w) (mb_of_mat (each (low w) A)) = result (low w) (determinant (mb_of_mat A)))%nat /\
  (0 < cols A <= 5 -> adjoint (O := uops w) (mb_of_mat (each (low w) A)) = result (each (low w)) (adjoint (mb_of_mat A)))%nat /\
  m_mulv (O := uops w) (mb_of_mat (each (low w) A)) (map (low w) u) = result (map (low w)) (m_mulv (mb_of_mat A) u) /\
  poly_v (O := uops w) (map (low w) u) = result (map (low w)) (poly_v u) /\
  ctrb (O := uops w) (mb_of_mat (each (low w) A)) (mb_of_mat (each (low w) B)) = result (each (low w)) (ctrb (mb_of_mat A) (mb_of_mat B)).
Proof.
  intros Hw. pose proof (low_ring w Hw) as SR. pose proof (each_rel (low w) A) as HA. pose proof (each_rel (low w) B) as HB. pose proof (map_f2 (low w) u) as Hu. repeat split; intros.
  - apply rel_each, (r_m_mul _ SR); now apply r_mat.
  - apply rel_each, (r_powm _ SR); [now apply r_mat|reflexivity].
  - apply rel_elt, (r_det4 _ SR); cbn; [lia|now apply r_mat|lia].
  - apply rel_each, (r_adjoint5 _ SR); cbn; [lia|now apply r_mat].
  - apply rel_map, (r_m_mulv _ SR); [now apply r_mat|assumption].
  - apply rel_map, (r_poly_v _ SR); assumption.
  - apply rel_each, (r_ctrb _ SR); now apply r_mat.
Qed.

(** ** Signed *)
(** [None] is a value that depends on an overflow. *)
Definition exact_or_lost (x : option Z) (z : Z) : Prop := x = None \/ x = Some z.
Lemma in_rangeb_ok w z : in_rangeb w z = true <-> in_range w z.
Proof. unfold in_rangeb, in_range. lia. Qed.
Lemma checked_some w z a : checked w z = Some a -> a = z /\ in_range w z.
Proof. unfold checked. destruct (in_rangeb w z) eqn:E; [|discriminate]. intros [= <-]. split; [reflexivity|]. now apply in_rangeb_ok. Qed.
Lemma checked_cases w z : checked w z = None \/ checked w z = Some z.
Proof. unfold checked. destruct (in_rangeb w z); auto. Qed.
Lemma signed_ring w : same_ring (sops w) zops exact_or_lost.
Proof.
  unfold exact_or_lost. split; cbn; auto.
  1-3: intros a b a' b' [->| ->] [->| ->]; cbn; auto using checked_cases.
  - intros a b [->| ->]; cbn; auto. change (- b) with (0 - b). apply checked_cases.
  - intros n. apply checked_cases.
Qed.
Theorem C106_signed w : ring_agree (sops w) zops exact_or_lost.
Proof. apply C106_ring, signed_ring. Qed.
(** The same result in any wider type. *)
Definition same_or_lost (x y : option Z) : Prop := x = None \/ x = y.
Lemma wider_checked w w' z : 0 < w <= w' -> same_or_lost (checked w z) (checked w' z).
Proof.
  intros Hw. destruct (checked w z) as [a|] eqn:E; [|now left]. apply checked_some in E. destruct E as [-> E]. right. unfold checked.
  assert (P : 2 ^ (w - 1) <= 2 ^ (w' - 1)) by (apply Z.pow_le_mono_r; lia). assert (Q : in_rangeb w' z = true) by (apply in_rangeb_ok; unfold in_range in *; lia). now rewrite Q.
Qed.
Lemma wider_ring w w' : 0 < w <= w' -> same_ring (sops w) (sops w') same_or_lost.
Proof.
  intros Hw. split; cbn; try (now right).
  1-3: intros a b a' b' [->| ->] [->| ->]; cbn; try (now left); [destruct b; now left|destruct b, b'; cbn; try (now left); now apply wider_checked].
  - intros a b [->| ->]; [now left|]. destruct b; [|now left]. now apply wider_checked.
  - intros n. now apply wider_checked.
Qed.
Theorem C106_wider w w' : 0 < w <= w' -> ring_agree (sops w) (sops w') same_or_lost.
Proof. intros Hw. apply C106_ring. now apply wider_ring. Qed.
(** Signed and unsigned of one width: the same bits. *)
Definition bits_or_lost (w : Z) (x : option Z) (u : Z) : Prop := x = None \/ exists z, x = Some z /\ u = low w z.
Lemma bits_checked w z u : u = low w z -> bits_or_lost w (checked w z) u.
Proof. intros ->. destruct (checked_cases w z) as [->| ->]; [now left|right; now exists z]. Qed.
Lemma bits_ring w : 0 <= w -> same_ring (sops w) (uops w) (bits_or_lost w).
Proof.
  intros Hw. destruct (low_ring w Hw) as [Z0 Z1 ZA ZS ZM ZO ZN]. cbn in *. split; cbn.
  - right. now exists 0.
  - right. now exists 1.
  - intros a b a' b' [->|(z & -> & ->)] [->|(z' & -> & ->)]; try (now left). apply bits_checked. now apply ZA.
  - intros a b a' b' [->|(z & -> & ->)] [->|(z' & -> & ->)]; try (now left). apply bits_checked. now apply ZS.
  - intros a b a' b' [->|(z & -> & ->)] [->|(z' & -> & ->)]; try (now left). apply bits_checked. now apply ZM.
  - intros a b [->|(z & -> & ->)]; [now left|]. apply bits_checked. now apply ZO.
  - intros n. apply bits_checked, ZN.
Qed.
Theorem C106_same_bits w : 0 <= w -> ring_agree (sops w) (uops w) (bits_or_lost w).
Proof. intros Hw. apply C106_ring. now apply bits_ring. Qed.

(** ** Doubles: the tolerance *)
(** The tolerance of the comparisons has no effect on sums, products and quotients. *)
Theorem C106_tolerance t t' : ring_agree (fops t) (fops t') eq /\ div_agree (fops t) (fops t') eq.
Proof.
  assert (SR : same_ring (fops t) (fops t') eq) by (split; intros; subst; reflexivity). assert (SD : same_div (fops t) (fops t') eq) by (split; intros; subst; reflexivity).
  split; [now apply C106_ring|now apply C106_division].
Qed.

(** ** Examples *)
(** 70000 * 70000 does not fit in 32 bits: the unsigned product is the low half, the signed
    one is lost, the 64-bit one is exact. *)
Definition big : Matrix Z := mkM 1 2 [70000; 3].
Definition big' : Matrix Z := mkM 2 1 [70000; -1].
Example C106_ex_unsigned : m_mul (mb_of_mat big) (mb_of_mat big') = Ok (mkM 1 1 [4899999997]) /\
  m_mul (O := uops 32) (mb_of_mat (each (low 32) big)) (mb_of_mat (each (low 32) big')) = Ok (mkM 1 1 [605032701]).
Proof. split; reflexivity. Qed.
Example C106_ex_signed : m_mul (O := sops 32) (mb_of_mat (each Some big)) (mb_of_mat (each Some big')) = Ok (mkM 1 1 [None]) /\
  m_mul (O := sops 64) (mb_of_mat (each Some big)) (mb_of_mat (each Some big')) = Ok (mkM 1 1 [Some 4899999997]).
Proof. split; reflexivity. Qed.
