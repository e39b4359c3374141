(** RelQR.v: the functions of QR.v and Eigen.v take related arguments to related results, as Rel.v
    shows for the other functions. *)
From Verif Require Import Rel QR Eigen.

Section RelQR.
Context {T1 T2 : Type} {O1 : Ops T1} {O2 : Ops T2} (R : T1 -> T2 -> Prop) (SR : same_ring O1 O2 R) (SD : same_div O1 O2 R).
Context (sq : T1 -> T1) (sq' : T2 -> T2) (Hsq : forall x x', R x x' -> R (sq x) (sq' x')).
Context (cs : T1 -> T1 -> T1) (cs' : T2 -> T2 -> T2) (Hcs : forall x x' y y', R x x' -> R y y' -> R (cs x y) (cs' x' y')).
Lemma r_make_householder a a' : Forall2 R a a' -> rres (rmat R) (make_householder sq cs a) (make_householder sq' cs' a').
Proof.
  intros Ha. unfold make_householder. rgo.
Qed.
Lemma r_reset_identity m m' : rmat R m m' -> rres (rmat R) (reset_identity m) (reset_identity m').
Proof. intros H. pose proof H as (E1 & E2 & _). unfold reset_identity. rewrite E1, E2. eapply r_fill_rc; auto. intros i j. cbn. destruct (i =? j); [apply SR|apply SR]. Qed.
Definition rtriple (x : Matrix T1 * Matrix T1 * Matrix T1) (y : Matrix T2 * Matrix T2 * Matrix T2) : Prop := rpair (rpair (rmat R) (rmat R)) (rmat R) x y.
Lemma r_qr_step i s s' : rtriple s s' -> rres rtriple (qr_step sq cs i s) (qr_step sq' cs' i s').
Proof.
  destruct s as [[Q M] H], s' as [[Q' M'] H']. intros [[HQ HM] HH]. cbn [fst snd] in *. unfold qr_step.
  eapply rbind; [eapply r_reset_identity; exact HH|]. intros E E' HE. eapply rbind; [rgo|]. intros a a' Ha. eapply rbind; [eapply r_make_householder; exact Ha|]. intros h h' Hh.
  eapply rbind; [rgo|]. intros F F' HF. eapply rbind; [rgo|]. intros q q' Hq. cbv zeta. eapply rbind; [rgo|]. intros r r' Hr. cbv zeta.
  repeat split; cbn [fst snd]; try (eapply r_moved; eassumption); apply HF.
Qed.
Lemma r_clear_lower m m' : rmat R m m' -> rres (rmat R) (clear_lower m) (clear_lower m').
Proof. intros H. unfold clear_lower. rgo. Qed.
Lemma r_qr_decomposition A A' : rmat R A A' -> rres (rpair (rmat R) (rmat R)) (qr_decomposition sq cs A) (qr_decomposition sq' cs' A').
Proof.
  intros H. unfold qr_decomposition. eapply rbind; [rgo|]. intros M M' HM. pose proof HM as (E1 & E2 & _). eapply rbind; [rgo|]. intros Q Q' HQ. eapply rbind; [rgo|]. intros Z Z' HZ.
  eapply (rbind rtriple).
  - rewrite E1, E2. eapply (rfor rtriple); [reflexivity..|split; [split; [exact HQ|exact HM]|exact HZ]|]. intros i s s' Hs. now apply r_qr_step.
  - intros [[q r] h] [[q' r'] h'] [[Hq Hr] Hh]. cbn [fst snd] in *. eapply rbind; [eapply r_clear_lower; exact Hr|]. intros r1 r1' Hr1. now split.
Qed.
Context (SO : same_order O1 O2 R).
Lemma r_solve A A' b b' : rmat R A A' -> Forall2 R b b' -> rres (Forall2 R) (solve sq cs A b) (solve sq' cs' A' b').
Proof.
  intros H Hb. pose proof H as (E1 & E2 & _). unfold solve. rewrite E1, E2. apply rif; [reflexivity| |apply rif; [reflexivity| |]].
  - eapply rbind; [eapply (r_inverse R SR SD SO); rgo|]. intros v v' Hv. rgo.
  - eapply rbind; [eapply r_qr_decomposition; exact H|]. intros [q r] [q' r'] [Hq Hr]. cbn [fst snd] in *.
    eapply rbind; [eapply (r_inverse R SR SD SO); rgo|]. intros v v' Hv. eapply rbind; [rgo|]. intros qt qt' Hqt. eapply rbind; [rgo|]. intros y y' Hy. rgo.
  - eapply rbind; [rgo|]. intros At At' HAt. eapply rbind; [rgo|]. intros P P' HP. eapply rbind; [eapply (r_inverse R SR SD SO); rgo|]. intros v v' Hv. eapply rbind; [rgo|]. intros W W' HW. rgo.
Qed.
End RelQR.

Section RelEigen.
Context {C1 C2 U1 U2 : Type} {OC1 : Ops C1} {OC2 : Ops C2} {OU1 : Ops U1} {OU2 : Ops U2} (RC : C1 -> C2 -> Prop) (RU : U1 -> U2 -> Prop).
Context (SC : same_ring OC1 OC2 RC) (DC : same_div OC1 OC2 RC) (SU : same_ring OU1 OU2 RU) (SO : same_order OU1 OU2 RU).
Context (cn ca : C1 -> U1) (cn' ca' : C2 -> U2) (Hn : forall x x', RC x x' -> RU (cn x) (cn' x')) (Ha : forall x x', RC x x' -> RU (ca x) (ca' x')).
Context (cj : C1 -> C1) (cj' : C2 -> C2) (Hj : forall x x', RC x x' -> RC (cj x) (cj' x')).
Context (ofr : U1 -> C1) (ofr' : U2 -> C2) (Hr : forall x x', RU x x' -> RC (ofr x) (ofr' x')).
Context (sq : U1 -> U1) (sq' : U2 -> U2) (Hsq : forall x x', RU x x' -> RU (sq x) (sq' x')).
Context (eps : U1) (eps' : U2) (He : RU eps eps').
Context (shift : Matrix C1 -> Res C1) (shift' : Matrix C2 -> Res C2) (Hs : forall m m', rmat RC m m' -> rres RC (shift m) (shift' m')).
Context (tol : U1) (tol' : U2) (Ht : RU tol tol').
Lemma r_vlen A A' k i j : rmb RC A A' -> rres RU (vector_length cn sq A k i j) (vector_length cn' sq' A' k i j).
Proof. intros; unfold vector_length; rgo. Qed.
Lemma r_hess_vector H H' n k : rmat RC H H' -> rres (Forall2 RC) (hess_vector cn ca ofr sq eps H n k) (hess_vector cn' ca' ofr' sq' eps' H' n k).
Proof.
  intros HH. pose proof HH as (E1 & E2 & _). unfold hess_vector. rewrite E1. eapply rbind; [eapply r_vlen; rgo|]. intros xl xl' Hxl. eapply rbind; [rgo|]. intros u u' Hu. eapply rbind; [rgo|]. intros xk xk' Hxk. cbv zeta.
  eapply (rbind RC); [rgo|]. intros rho rho' Hrho. rgo.
Qed.
Lemma r_hess_reflection u u' n k : Forall2 RC u u' -> rres (rmat RC) (hess_reflection cj u n k) (hess_reflection cj' u' n k).
Proof. intros H. unfold hess_reflection. rgo. Qed.
Lemma r_hess_step n k s s' : rpair (rmat RC) (rmat RC) s s' -> rres (rpair (rmat RC) (rmat RC)) (hess_step cn ca cj ofr sq eps n k s) (hess_step cn' ca' cj' ofr' sq' eps' n k s').
Proof.
  destruct s as [P H], s' as [P' H']. intros [HP HH]. cbn [fst snd] in *. unfold hess_step. eapply rbind; [now apply r_hess_vector|]. intros u u' Hu. eapply rbind; [now apply r_hess_reflection|]. intros K K' HK.
  eapply rbind; [rgo|]. intros X X' HX. eapply rbind; [rgo|]. intros Y Y' HY. cbv zeta. eapply rbind; [rgo|]. intros Z Z' HZ. split; eapply r_moved; eassumption.
Qed.
Lemma r_hessenberg A A' : rmat RC A A' -> rres (rpair (rmat RC) (rmat RC)) (hessenberg cn ca cj ofr sq eps A) (hessenberg cn' ca' cj' ofr' sq' eps' A').
Proof.
  intros HA. pose proof HA as (E1 & _). unfold hessenberg. cbv zeta. rewrite E1. eapply rbind; [rgo|]. intros P P' HP. eapply rbind; [rgo|]. intros H H' HH.
  eapply rfor; [reflexivity..|now split|]. intros i s s' Hx. now apply r_hess_step.
Qed.
Lemma r_givens_step nc i s s' : rpair (rmat RC) (rmat RC) s s' -> rres (rpair (rmat RC) (rmat RC)) (givens_step cn ca cj ofr sq eps nc i s) (givens_step cn' ca' cj' ofr' sq' eps' nc i s').
Proof.
  destruct s as [Q M], s' as [Q' M']. intros [HQ HM]. cbn [fst snd] in *. unfold givens_step. cbv zeta. eapply rbind; [rgo|]. intros x x' Hx. apply rif; [rgo|now split|].
  eapply rbind; [rgo|]. intros c c' Hc. eapply rbind; [rgo|]. intros y y' Hy. eapply rbind; [rgo|]. intros c1 c1' Hc1. eapply rbind; [rgo|]. intros s1 s1' Hs1.
  eapply rbind; [rgo|]. intros RR RR' HRR. eapply rbind; [rgo|]. intros QQ QQ' HQQ.
  eapply (rfor (rpair (rmat RC) (rmat RC))); [reflexivity..|now split|]. intros m [a b] [a' b'] [H1 H2]. cbn [fst snd] in *. rgo.
Qed.
Lemma r_qr_factorise_givens A A' : rmat RC A A' -> rres (rpair (rmat RC) (rmat RC)) (qr_factorise_givens cn ca cj ofr sq eps A) (qr_factorise_givens cn' ca' cj' ofr' sq' eps' A').
Proof.
  intros HA. pose proof HA as (E1 & E2 & _). unfold qr_factorise_givens. rewrite E1, E2. eapply rbind; [rgo|]. intros P P' HP. eapply rbind; [rgo|]. intros H H' HH.
  eapply rfor; [reflexivity..|now split|]. intros i s s' Hx. now apply r_givens_step.
Qed.
Lemma r_sqn A A' : rmb RC A A' -> rres RU (square_norm_m cn sq A) (square_norm_m cn' sq' A').
Proof. intros; unfold square_norm_m; rgo. Qed.
Lemma r_sqnv a a' : Forall2 RC a a' -> rres RU (square_norm_v cn sq a) (square_norm_v cn' sq' a').
Proof. intros; unfold square_norm_v; rgo. Qed.
Lemma r_subn A A' : rmb RC A A' -> rres RU (sub_norm cn sq A) (sub_norm cn' sq' A').
Proof. intros; unfold sub_norm; rgo. Qed.
Definition rstate (x : Matrix C1 * Matrix C1 * U1) (y : Matrix C2 * Matrix C2 * U2) : Prop := rpair (rpair (rmat RC) (rmat RC)) RU x y.
Lemma r_schur_step Id Id' H H' M M' : rmat RC Id Id' -> rmat RC H H' -> rmat RC M M' ->
  rres rstate (schur_step cn ca cj ofr sq eps shift Id H M) (schur_step cn' ca' cj' ofr' sq' eps' shift' Id' H' M').
Proof.
  intros HI HH HM. unfold schur_step. eapply rbind; [rgo|]. intros T0 T0' HT0. eapply rbind; [now apply Hs|]. intros mu mu' Hmu. cbv zeta.
  assert (Hm : RC (if olt (ca mu) eps then o1 else mu) (if olt (ca' mu') eps' then o1 else mu')) by rgo.
  set (nu := if olt (ca mu) eps then o1 else mu) in *. set (nu' := if olt (ca' mu') eps' then o1 else mu') in *. clearbody nu nu'.
  eapply rbind; [rgo|]. intros X X' HX. pose proof (r_moved _ _ _ _ _ HM HX) as K1.
  eapply rbind; [apply r_qr_factorise_givens; exact K1|]. intros [Q N] [Q' N'] [HQ HN]. cbn [fst snd] in HQ, HN.
  eapply rbind; [rgo|]. intros Y Y' HY. pose proof (r_moved _ _ _ _ _ K1 HY) as K2. eapply rbind; [rgo|]. intros Z Z' HZ. pose proof (r_moved _ _ _ _ _ HH HZ) as K3.
  eapply rbind; [rgo|]. intros W W' HW. pose proof (r_moved _ _ _ _ _ K2 HW) as K4. eapply rbind; [rgo|]. intros V V' HV. eapply rbind; [apply r_sqn; rgo|]. intros n1 n1' Hn1.
  eapply rbind; [apply r_subn; rgo|]. intros n2 n2' Hn2. split; [split; [exact K3|exact K4]|]. cbn [snd]. rgo.
Qed.
Lemma r_schur_loop n Id Id' : rmat RC Id Id' -> forall H H' M M' x x', rmat RC H H' -> rmat RC M M' -> RU x x' ->
  rres rstate (schur_loop cn ca cj ofr sq eps shift tol n Id H M x) (schur_loop cn' ca' cj' ofr' sq' eps' shift' tol' n Id' H' M' x').
Proof.
  intros HI. induction n as [|n IH]; intros H H' M M' x x' HH HM Hx; cbn [schur_loop]; [now split; [split|]|]. apply rif; [rgo| |now split; [split|]].
  eapply rbind; [now apply r_schur_step|]. intros [[a b] c] [[a' b'] c'] [[H1 H2] H3]. now apply IH.
Qed.
Lemma r_QRHessenberg n A A' : rmat RC A A' ->
  rres (rpair (rpair (rmat RC) (rmat RC)) eq) (QRHessenberg cn ca cj ofr sq eps shift tol n A) (QRHessenberg cn' ca' cj' ofr' sq' eps' shift' tol' n A').
Proof.
  intros HA. pose proof HA as (E1 & _). unfold QRHessenberg. cbv zeta. rewrite E1. eapply rbind; [rgo|]. intros I I' HI. eapply rbind; [now apply r_hessenberg|]. intros [H M] [H' M'] [HH HM].
  eapply rbind; [apply r_schur_loop; [exact HI|exact HH|exact HM|rgo]|]. intros [[a b] c] [[a' b'] c'] [[H1 H2] H3]. cbn [fst snd] in *. split; [now split|]. cbn [snd]. rgo.
Qed.
Lemma r_shift_diagonal M M' n l l' N N' : rmat RC M M' -> RC l l' -> rmat RC N N' -> rres (rmat RC) (shift_diagonal M n l N) (shift_diagonal M' n l' N').
Proof. intros. unfold shift_diagonal. rgo. Qed.
Lemma r_back_step M M' l i s s' : rmat RC M M' -> rpair (Forall2 RC) eq s s' -> rres (rpair (Forall2 RC) eq) (back_step ca eps M l i s) (back_step ca' eps' M' l i s').
Proof.
  intros HM. destruct s as [V b], s' as [V' b']. intros [HV Hb]. cbn [fst snd] in *. subst b'. unfold back_step. eapply rbind; [rgo|]. intros V1 V1' H1. eapply rbind; [rgo|]. intros V2 V2' H2.
  eapply rbind; [rgo|]. intros t t' Htt. apply rif; [rgo| |].
  - eapply rbind; [rgo|]. intros v v' Hv. cbv zeta. eapply rbind; [rgo|]. intros V3 V3' H3. split; [exact H3|]. cbn [snd]. rgo.
  - rgo.
Qed.
Lemma r_upper_step M M' n l s s' : rmat RC M M' -> rpair (rpair (rmat RC) (rmat RC)) eq s s' -> rres (rpair (rpair (rmat RC) (rmat RC)) eq) (upper_step cn ca ofr sq eps M n l s) (upper_step cn' ca' ofr' sq' eps' M' n l s').
Proof.
  intros HM. destruct s as [[E N] b], s' as [[E' N'] b']. intros [[HE HN] Hb]. cbn [fst snd] in *. subst b'. unfold upper_step. eapply rbind; [rgo|]. intros V V' HV. eapply rbind; [rgo|]. intros x x' Hx.
  eapply rbind; [apply r_shift_diagonal; eassumption|]. intros K K' HK. eapply rbind; [rgo|]. intros V1 V1' H1.
  eapply (rbind (rpair (Forall2 RC) eq)).
  { eapply (rfor (rpair (Forall2 RC) eq)); [reflexivity..|now split|]. intros k s s' Hss. now apply r_back_step. }
  intros [W ok] [W' ok'] [HW Hok]. cbn [fst snd] in *. subst ok'. destruct ok.
  - eapply rbind; [apply r_sqnv; exact HW|]. intros len len' Hl. eapply rbind; [rgo|]. intros E1 E1' HE1. now split; [split|].
  - eapply rbind; [rgo|]. intros E1 E1' HE1. now split; [split|].
Qed.
Lemma r_eigenvectorUpper M M' : rmat RC M M' -> rres (rpair (rmat RC) eq) (eigenvectorUpper cn ca ofr sq eps M) (eigenvectorUpper cn' ca' ofr' sq' eps' M').
Proof.
  intros HM. pose proof HM as (E1 & _). unfold eigenvectorUpper. cbv zeta. rewrite E1. eapply rbind; [rgo|]. intros E E' HE. eapply rbind; [rgo|]. intros N N' HN.
  eapply (rbind (rpair (rpair (rmat RC) (rmat RC)) eq)).
  { eapply (rfor (rpair (rpair (rmat RC) (rmat RC)) eq)); [reflexivity..|now split; [split|]|]. intros k s s' Hss. now apply r_upper_step. }
  intros [[a b] c] [[a' b'] c'] [[H1 H2] H3]. now split.
Qed.
End RelEigen.
