(** RelSure.v: inverse and solve in two number systems, when the first is only sure that a
    determinant is not zero: [oisz x = false] means that no related number is zero. *)
From Coq Require Import Lia Arith List NArith.
From Verif Require Import Rel RelQR QR MatFacts MathFacts.
Import ListNotations.

Section Sure.
Context {T1 T2 : Type} {O1 : Ops T1} {O2 : Ops T2} (R : T1 -> T2 -> Prop) (SR : same_ring O1 O2 R) (SD : same_div O1 O2 R).
Context (SZ : forall x x', R x x' -> oisz x = false -> oisz x' = false).
Context (sq : T1 -> T1) (sq' : T2 -> T2) (Hsq : forall x x', R x x' -> R (sq x) (sq' x')).
Context (cs : T1 -> T1 -> T1) (cs' : T2 -> T2 -> T2) (Hcs : forall x x' y y', R x x' -> R y y' -> R (cs x y) (cs' x' y')).
Lemma r_sure_inverse A A' : rmb R A A' -> 0 < mcols A <= 4 -> forall m, inverse A = Ok m -> m <> mat_empty -> exists m', inverse A' = Ok m' /\ rmat R m m'.
Proof.
  intros H L m E N. unfold inverse in *. assert (S : is_square A = is_square A') by (destruct H as (H1 & H2 & _); unfold is_square; now rewrite H1, H2). rewrite <- S. destruct (is_square A); cbn [negb] in *; [|discriminate].
  pose proof (r_det4 R SR A A' ltac:(lia) H ltac:(lia)) as HD. destruct (determinant A) as [d| | | |]; try discriminate. destruct (determinant A') as [d'| | | |]; try contradiction. cbn [rres bind] in *.
  destruct (oisz d) eqn:Z; [injection E as <-; contradiction|]. rewrite (SZ d d' HD Z).
  assert (K : rres (rmat R) (let* adj := adjoint A in let* m := mat_new (mrows A) (mcols A) o0 in fill_rc (mrows A) (mcols A) (fun r c => let* x := mat_at adj r c in odiv x d) m)
    (let* adj := adjoint A' in let* m := mat_new (mrows A') (mcols A') o0 in fill_rc (mrows A') (mcols A') (fun r c => let* x := mat_at adj r c in odiv x d') m)).
  { eapply rbind; [eapply r_adjoint5; [exact SR|lia|exact H]|]. intros j j' Hj. pose proof H as (E1 & E2 & _). rewrite <- E1, <- E2. eapply rbind; [rgo|]. intros n n' Hn. eapply r_fill_rc; [reflexivity..| |exact Hn].
    intros a b. eapply rbind; [rgo|]. intros x x' Hx. now apply (r_div _ _ _ SD). }
  rewrite E in K. destruct (let* adj := adjoint A' in _) as [m'| | | |]; try contradiction. eauto.
Qed.
Lemma mulv_empty (b : list T1) c : dot_mv (mb_of_mat mat_empty) b = Ok c -> c = [].
Proof. unfold dot_mv, m_mulv. cbn. intros [= <-]. reflexivity. Qed.
Lemma r_then (m : Matrix T1) m' b b' c : rmat R m m' -> Forall2 R b b' -> dot_mv (mb_of_mat m) b = Ok c -> exists d, dot_mv (mb_of_mat m') b' = Ok d /\ Forall2 R c d.
Proof.
  intros Hm Hb E. pose proof (r_dot_mv R SR _ _ _ _ (r_mat R _ _ Hm) Hb) as H. rewrite E in H. destruct (dot_mv (mb_of_mat m') b') as [d| | | |]; try contradiction. eauto.
Qed.
(** A result that is not empty: the determinant was certainly not zero. *)
Lemma r_sure_square A A' b b' c : rmat R A A' -> Forall2 R b b' -> rows A = cols A -> 0 < cols A <= 4 -> solve sq cs A b = Ok c -> c <> [] ->
  exists d, solve sq' cs' A' b' = Ok d /\ Forall2 R c d.
Proof.
  intros HA Hb S L E N. pose proof HA as (E1 & E2 & _). unfold solve in *. rewrite <- E1, <- E2, S, Nat.eqb_refl in *.
  destruct (inverse (mb_of_mat A)) as [v| | | |] eqn:EI; try discriminate. cbn [bind] in E.
  destruct (r_sure_inverse _ _ (r_mat R _ _ HA) L v EI) as (v' & -> & Hv). { intros ->. now apply mulv_empty in E. }
  cbn [bind]. eapply r_then; eassumption.
Qed.
Lemma r_sure_tall A A' b b' c : rmat R A A' -> Forall2 R b b' -> cols A < rows A -> 0 < cols A <= 4 ->
  (forall q r, qr_decomposition sq cs A = Ok (q, r) -> cols r = cols A) -> solve sq cs A b = Ok c -> c <> [] ->
  exists d, solve sq' cs' A' b' = Ok d /\ Forall2 R c d.
Proof.
  intros HA Hb S L HQ E N. pose proof HA as (E1 & E2 & _). unfold solve in *. rewrite <- E1, <- E2. replace (rows A =? cols A) with false in * by (symmetry; apply Nat.eqb_neq; lia). replace (cols A <? rows A) with true in * by (symmetry; apply Nat.ltb_lt; lia).
  pose proof (r_qr_decomposition R SR SD sq sq' Hsq cs cs' Hcs A A' HA) as K. destruct (qr_decomposition sq cs A) as [[q r]| | | |] eqn:EQ; try discriminate. destruct (qr_decomposition sq' cs' A') as [[q' r']| | | |]; try contradiction. destruct K as [Kq Kr]. cbn [fst snd bind] in *. specialize (HQ q r eq_refl).
  set (p := PView (mkRange 0 (cols A)) (mkRange 0 (cols A)) Root) in *. set (p2 := PView (mkRange 0 (rows A)) (mkRange 0 (cols A)) Root) in *.
  assert (C : mcols (vmb p r) = cols A).
  { unfold p. cbn [vmb mb_view mcols stop start mb_of_mat]. rewrite HQ, Nat.min_id. unfold sub64, wrap64, two64. replace (N.of_nat (cols A) + (18446744073709551616 - N.of_nat 0 mod 18446744073709551616))%N with (N.of_nat (cols A) + 1 * 18446744073709551616)%N by (cbn; lia). rewrite N.mod_add by lia. rewrite N.mod_small by lia. apply Nat2N.id. }
  destruct (inverse (vmb p r)) as [v| | | |] eqn:EI; try discriminate. cbn [bind] in E.
  pose proof (r_transpose R (r_0 _ _ _ SR) _ _ (r_vmb R q q' p2 Kq)) as KT. destruct (transpose (vmb p2 q)) as [t| | | |]; try discriminate. destruct (transpose (vmb p2 q')) as [t'| | | |]; try contradiction. cbn [bind] in *.
  destruct (dot_mv (mb_of_mat t) b) as [y| | | |] eqn:EY; try discriminate. destruct (r_then t t' b b' y KT Hb EY) as (y' & EY' & Ky). cbn [bind] in E.
  destruct (r_sure_inverse _ _ (r_vmb R r r' p Kr) ltac:(rewrite C; lia) v EI) as (v' & -> & Hv). { intros ->. now apply mulv_empty in E. }
  cbn [bind]. rewrite EY'. cbn [bind]. eapply r_then; eassumption.
Qed.
Lemma r_sure_wide A A' b b' c : rmat R A A' -> Forall2 R b b' -> rows A < cols A -> 0 < rows A <= 4 ->
  (forall t m, transpose (mb_of_mat A) = Ok t -> m_mul (mb_of_mat A) (mb_of_mat t) = Ok m -> cols t = rows A /\ cols m = rows A) -> solve sq cs A b = Ok c ->
  exists d, solve sq' cs' A' b' = Ok d /\ Forall2 R c d.
Proof.
  intros HA Hb S L HQ E. pose proof HA as (E1 & E2 & _). unfold solve in *. rewrite <- E1, <- E2. replace (rows A =? cols A) with false in * by (symmetry; apply Nat.eqb_neq; lia). replace (cols A <? rows A) with false in * by (symmetry; apply Nat.ltb_ge; lia).
  pose proof (r_transpose R (r_0 _ _ _ SR) _ _ (r_mat R A A' HA)) as KT. destruct (transpose (mb_of_mat A)) as [t| | | |]; try discriminate. destruct (transpose (mb_of_mat A')) as [t'| | | |]; try contradiction. cbn [bind rres] in *.
  pose proof (r_m_mul R SR _ _ _ _ (r_mat R A A' HA) (r_mat R t t' KT)) as KM. destruct (m_mul (mb_of_mat A) (mb_of_mat t)) as [m| | | |] eqn:EM; try discriminate. destruct (m_mul (mb_of_mat A') (mb_of_mat t')) as [m'| | | |]; try contradiction. cbn [bind rres] in *.
  destruct (HQ t m eq_refl EM) as [Ct Cm]. destruct (inverse (mb_of_mat m)) as [v| | | |] eqn:EI; try discriminate. cbn [bind] in E.
  destruct (r_sure_inverse _ _ (r_mat R m m' KM) ltac:(cbn; lia) v EI) as (v' & -> & Hv). { intros ->. unfold m_mul in E. cbn [mb_of_mat mcols mrows mat_empty rows] in E. replace (cols t =? 0) with false in E by (symmetry; apply Nat.eqb_neq; lia). discriminate. }
  cbn [bind]. pose proof (r_m_mul R SR _ _ _ _ (r_mat R t t' KT) (r_mat R v v' Hv)) as KP. destruct (m_mul (mb_of_mat t) (mb_of_mat v)) as [P| | | |]; try discriminate. destruct (m_mul (mb_of_mat t') (mb_of_mat v')) as [P'| | | |]; try contradiction. cbn [bind rres] in *. eapply r_then; eassumption.
Qed.
End Sure.
