(** PropRelQR.v: C124, QR decomposition, solve and the functions of eigen.hpp across number systems:
    as in C106, corresponding operands give corresponding results; the functions of eigen.hpp commute
    with complex conjugation and give real results for real matrices. *)
From Verif Require Import MathFacts RingM RatOps PropReal QR Eigen Rel RelQR PropRel PropRelInt PropRelReal Complex PropQREx PropHess PropHess2 PropHess3 PropGivens PropSchurRun PropEigenEx.
From mathcomp Require Import all_ssreflect all_algebra all_real_closed.
Set Implicit Arguments.
Unset Strict Implicit.
Unset Printing Implicit Defensive.
Import Order.Theory GRing.Theory Num.Theory.
Local Open Scope ring_scope.

(** * Any two element types *)
(** Square roots and copysign that correspond. *)
Definition fun_agree {A B A' B'} (R : A -> B -> Prop) (S : A' -> B' -> Prop) (f : A -> A') (g : B -> B') : Prop := forall x y, R x y -> S (f x) (g y).
Definition fun2_agree {A B} (R : A -> B -> Prop) (f : A -> A -> A) (g : B -> B -> B) : Prop := forall x y x' y', R x y -> R x' y' -> R (f x x') (g y y').
Theorem C124_qr {T1 T2} (O1 : Ops T1) (O2 : Ops T2) (R : T1 -> T2 -> Prop) : same_ring O1 O2 R -> same_div O1 O2 R -> forall sq sq' cs cs', fun_agree R R sq sq' -> fun2_agree R cs cs' ->
  forall A A', rmat R A A' -> rres (rpair (rmat R) (rmat R)) (qr_decomposition sq cs A) (qr_decomposition sq' cs' A').
Proof. move=> SR SD sq sq' cs cs' Hq Hc A A' H. exact: r_qr_decomposition. Qed.
Theorem C124_solve {T1 T2} (O1 : Ops T1) (O2 : Ops T2) (R : T1 -> T2 -> Prop) : same_ring O1 O2 R -> same_div O1 O2 R -> same_order O1 O2 R -> forall sq sq' cs cs', fun_agree R R sq sq' -> fun2_agree R cs cs' ->
  forall A A' b b', rmat R A A' -> Forall2 R b b' -> rres (Forall2 R) (solve sq cs A b) (solve sq' cs' A' b').
Proof. move=> SR SD SO sq sq' cs cs' Hq Hc A A' b b' H Hb. exact: (r_solve R SR SD). Qed.
(** The functions of eigen.hpp, for corresponding complex numbers (RC) and real numbers (RU). *)
Theorem C124_eigen {C1 C2 U1 U2} (OC1 : Ops C1) (OC2 : Ops C2) (OU1 : Ops U1) (OU2 : Ops U2) (RC : C1 -> C2 -> Prop) (RU : U1 -> U2 -> Prop) cn cn' ca ca' cj cj' ofr ofr' sq sq' eps eps' :
  same_ring OC1 OC2 RC -> same_div OC1 OC2 RC -> same_ring OU1 OU2 RU -> same_order OU1 OU2 RU ->
  fun_agree RC RU cn cn' -> fun_agree RC RU ca ca' -> fun_agree RC RC cj cj' -> fun_agree RU RC ofr ofr' -> fun_agree RU RU sq sq' -> RU eps eps' ->
  [/\ forall A A', rmat RC A A' -> rres (rpair (rmat RC) (rmat RC)) (hessenberg cn ca cj ofr sq eps A) (hessenberg cn' ca' cj' ofr' sq' eps' A'),
      forall A A', rmat RC A A' -> rres (rpair (rmat RC) (rmat RC)) (qr_factorise_givens cn ca cj ofr sq eps A) (qr_factorise_givens cn' ca' cj' ofr' sq' eps' A'),
      forall shift shift' tol tol' n A A', (forall m m', rmat RC m m' -> rres RC (shift m) (shift' m')) -> RU tol tol' -> rmat RC A A' ->
        rres (rpair (rpair (rmat RC) (rmat RC)) eq) (QRHessenberg cn ca cj ofr sq eps shift tol n A) (QRHessenberg cn' ca' cj' ofr' sq' eps' shift' tol' n A') &
      forall A A', rmat RC A A' -> rres (rpair (rmat RC) eq) (eigenvectorUpper cn ca ofr sq eps A) (eigenvectorUpper cn' ca' ofr' sq' eps' A')].
Proof.
  move=> SC DC SU SO Hn Ha Hj Hr Hs He. split.
  - move=> A A' H. eapply r_hessenberg; eassumption.
  - move=> A A' H. eapply r_qr_factorise_givens; eassumption.
  - move=> shift shift' tol tol' n A A' Hsh Ht H. eapply r_QRHessenberg; eassumption.
  - move=> A A' H. eapply r_eigenvectorUpper; eassumption.
Qed.

(** * Conjugation *)
Section Conj.
Variable R : rcfType.
Local Notation C := R[i].
Local Notation hess := (hessenberg (OC := cxops R) (OU := rops R) (@cxnorm R) (@cxabs R) (@cxconj R) (@cxofr R) Num.sqrt).
Local Notation givens := (qr_factorise_givens (OC := cxops R) (OU := rops R) (@cxnorm R) (@cxabs R) (@cxconj R) (@cxofr R) Num.sqrt).
Local Notation vectors := (eigenvectorUpper (OC := cxops R) (OU := rops R) (@cxnorm R) (@cxabs R) (@cxofr R) Num.sqrt).
Local Notation schur := (QRHessenberg (OC := cxops R) (OU := rops R) (@cxnorm R) (@cxabs R) (@cxconj R) (@cxofr R) Num.sqrt).
Lemma conjE (z : C) : cxconj z = z^*. Proof. by case: z. Qed.
Lemma eq_ring : same_ring (rops R) (rops R) eq. Proof. by split=> //; move=> *; subst. Qed.
Lemma eq_order : same_order (rops R) (rops R) eq. Proof. by split=> //; move=> *; subst. Qed.
Lemma conj_ring : same_ring (cxops R) (cxops R) (fun a b => b = cxconj a).
Proof.
  split.
  - change (0 = cxconj (0 : C)). by rewrite conjE rmorph0.
  - change (1 = cxconj (1 : C)). by rewrite conjE rmorph1.
  - move=> a _ b _ -> ->. change (cxconj a + cxconj b = cxconj (a + b)). by rewrite !conjE rmorphD.
  - move=> a _ b _ -> ->. change (cxconj a - cxconj b = cxconj (a - b)). by rewrite !conjE rmorphB.
  - move=> a _ b _ -> ->. change (cxconj a * cxconj b = cxconj (a * b)). by rewrite !conjE rmorphM.
  - move=> a _ ->. change (- cxconj a = cxconj (- a)). by rewrite !conjE rmorphN.
  - move=> n. change (n%:R = cxconj (n%:R : C)). by rewrite !conjE rmorph_nat.
Qed.
Lemma conj_div : same_div (cxops R) (cxops R) (fun a b => b = cxconj a).
Proof. split=> a _ a' _ -> -> /=. rewrite !conjE conjC_eq0. case: (a' == 0) => //=. by rewrite conjE rmorphM fmorphV. Qed.
Lemma conj_norm (z : C) : cxnorm (cxconj z) = cxnorm z.
Proof. case: z => a b. by rewrite /cxnorm /= sqrrN. Qed.
(** Both factors, the unitary one and the other. *)
Definition both {A B} (h : A -> B) (x : Mat.Matrix A * Mat.Matrix A) := (each h x.1, each h x.2).
Lemma rel_both {A B} (h : A -> B) x y : rres (rpair (rmat (fun a b => b = h a)) (rmat (fun a b => b = h a))) x y -> y = result (both h) x.
Proof.
  case: x => [[a b]| | | |]; case: y => [[a' b']| | | |] //= [H1 H2]. rewrite /both /=.
  have E1 : Ok a' = result (each h) (Ok a) by apply: rel_each. have E2 : Ok b' = result (each h) (Ok b) by apply: rel_each. by case: E1 => ->; case: E2 => ->.
Qed.
(** The conjugate of a matrix has the conjugate results. *)
Theorem C124_conjugate (eps : R) (A : Mat.Matrix C) : [/\ hess eps (each (@cxconj R) A) = result (both (@cxconj R)) (hess eps A),
  givens eps (each (@cxconj R) A) = result (both (@cxconj R)) (givens eps A) &
  vectors eps (each (@cxconj R) A) = result (fun x => (each (@cxconj R) x.1, x.2)) (vectors eps A)].
Proof.
  have Hn : fun_agree (fun a b : C => b = cxconj a) eq (@cxnorm R) (@cxnorm R) by move=> a _ ->; rewrite conj_norm.
  have Ha : fun_agree (fun a b : C => b = cxconj a) eq (@cxabs R) (@cxabs R) by move=> a _ ->; rewrite /cxabs conj_norm.
  have Hj : fun_agree (fun a b : C => b = cxconj a) (fun a b : C => b = cxconj a) (@cxconj R) (@cxconj R) by move=> a _ ->.
  have Hr : fun_agree eq (fun a b : C => b = cxconj a) (@cxofr R) (@cxofr R) by move=> a _ <-; rewrite /cxofr /= oppr0.
  have Hs : fun_agree eq eq (@Num.sqrt R) (@Num.sqrt R) by move=> a _ <-.
  have [H1 H2 _ H3] := C124_eigen conj_ring conj_div eq_ring eq_order Hn Ha Hj Hr Hs (erefl eps). split.
  - apply: rel_both. apply: H1. exact: each_rel.
  - apply: rel_both. apply: H2. exact: each_rel.
  - have := H3 _ _ (each_rel (@cxconj R) A). case: (vectors eps A) => [[a b]| | | |]; case: (vectors eps _) => [[a' b']| | | |] //= [K1 K2]. simpl in K1, K2. rewrite -K2.
    have E1 : Ok a' = result (each (@cxconj R)) (Ok a) by apply: rel_each. by case: E1 => ->.
Qed.

(** * Real matrices *)
(** All elements of the matrix are real. *)
Definition real_m (A : Mat.Matrix C) : Prop := List.Forall (fun z => complex.Im z = 0) (data A).
Local Notation same_real := (fun a b : C => b = a /\ complex.Im a = 0).
Lemma real_rel A : real_m A <-> rmat same_real A A.
Proof.
  split.
  - move=> H. split=> //. split=> //. elim: H => [|z l Hz Hl IH]; by constructor.
  - move=> [_ [_ H]]. move: H. rewrite /real_m. elim: (data A) => [|z l IH] H; first by constructor. inversion H; subst. constructor; [by case: H3|exact: IH].
Qed.
Lemma Im0 (z : C) : complex.Im z = 0 -> z = (complex.Re z)%:C%C. Proof. by case: z => a b /= ->. Qed.
Lemma real_ring : same_ring (cxops R) (cxops R) same_real.
Proof.
  split=> /=; try by split.
  - move=> [a b] _ [c d] _ [-> /= ->] [-> /= ->]. by split=> //=; rewrite addr0.
  - move=> [a b] _ [c d] _ [-> /= ->] [-> /= ->]. by split=> //=; rewrite subr0.
  - move=> [a b] _ [c d] _ [-> /= ->] [-> /= ->]. by split=> //=; rewrite mulr0 mul0r addr0.
  - move=> [a b] _ [-> /= ->]. by split=> //=; rewrite oppr0.
  - move=> n. split=> //. have -> : n%:R = (n%:R)%:C%C :> C by rewrite rmorph_nat. by [].
Qed.
Lemma real_div : same_div (cxops R) (cxops R) same_real.
Proof.
  split=> a _ b _ [-> Ha] [-> Hb] /=. case: eqP => //= N. split=> //. rewrite (Im0 Ha) (Im0 Hb) -fmorph_div. by [].
Qed.
Lemma real_two x : rres (rpair (rmat same_real) (rmat same_real)) x x -> forall a b, x = Ok (a, b) -> real_m a /\ real_m b.
Proof. move=> H a b E. move: H. rewrite E => -[/= H1 H2]. by split; apply/real_rel. Qed.
(** The results for a real matrix are real. *)
Theorem C124_real (eps : R) (A : Mat.Matrix C) : real_m A ->
  [/\ forall P H, hess eps A = Ok (P, H) -> real_m P /\ real_m H, forall Q U, givens eps A = Ok (Q, U) -> real_m Q /\ real_m U & forall E full, vectors eps A = Ok (E, full) -> real_m E].
Proof.
  move=> /real_rel HA.
  have Hn : fun_agree same_real eq (@cxnorm R) (@cxnorm R) by move=> a _ [-> _].
  have Ha : fun_agree same_real eq (@cxabs R) (@cxabs R) by move=> a _ [-> _].
  have Hj : fun_agree same_real same_real (@cxconj R) (@cxconj R) by move=> [a b] _ [-> /= ->]; split=> //=; rewrite oppr0.
  have Hr : fun_agree eq same_real (@cxofr R) (@cxofr R) by move=> a _ <-.
  have Hs : fun_agree eq eq (@Num.sqrt R) (@Num.sqrt R) by move=> a _ <-.
  have [H1 H2 _ H3] := C124_eigen real_ring real_div eq_ring eq_order Hn Ha Hj Hr Hs (erefl eps). split.
  - exact: real_two (H1 _ _ HA).
  - exact: real_two (H2 _ _ HA).
  - move=> E full EE. have := H3 _ _ HA. rewrite EE => -[/= K _]. exact/real_rel.
Qed.
(** So are those of QRHessenberg, as long as the shifts are: only complex shifts lead away from the real numbers. *)
Theorem C124_real_schur (eps : R) shift tol n (A : Mat.Matrix C) : (forall m z, real_m m -> shift m = Ok z -> complex.Im z = 0) -> real_m A ->
  forall H U w, schur eps shift tol n A = Ok (H, U, w) -> real_m H /\ real_m U.
Proof.
  move=> Hsh /real_rel HA.
  have Hn : fun_agree same_real eq (@cxnorm R) (@cxnorm R) by move=> a _ [-> _].
  have Ha : fun_agree same_real eq (@cxabs R) (@cxabs R) by move=> a _ [-> _].
  have Hj : fun_agree same_real same_real (@cxconj R) (@cxconj R) by move=> [a b] _ [-> /= ->]; split=> //=; rewrite oppr0.
  have Hr : fun_agree eq same_real (@cxofr R) (@cxofr R) by move=> a _ <-.
  have Hs : fun_agree eq eq (@Num.sqrt R) (@Num.sqrt R) by move=> a _ <-.
  have [_ _ H3 _] := C124_eigen real_ring real_div eq_ring eq_order Hn Ha Hj Hr Hs (erefl eps).
  have K : forall m m', rmat same_real m m' -> rres same_real (shift m) (shift m').
    move=> m m' Hm. have E : m' = m.
      case: m Hm => r c d; case: m' => r' c' d' [/= -> [-> H]]. congr mkM. elim: H => // x y l l' [-> _] _ ->. by [].
    subst m'. have Hr' : real_m m by apply/real_rel. case Es: (shift m) => [z| | | |] //=. split=> //. exact: Hsh Hr' Es.
  move=> H U w E. have := H3 shift shift tol tol n A A K (erefl tol) HA. rewrite E => -[[/= K1 K2] _]. by split; apply/real_rel.
Qed.
End Conj.

(** * Real closed fields *)
Section Fields.
Variables (F G : rcfType) (h : {rmorphism F -> G}).
Hypothesis mono : forall a b : F, a <= b -> h a <= h b.
Lemma h_sqrt x : Num.sqrt (h x) = h (Num.sqrt x).
Proof.
  have [Hx|Hx] := lerP 0 x.
  - have S0 : 0 <= h (Num.sqrt x) by rewrite -(rmorph0 h) (h_le mono) sqrtr_ge0. by rewrite -{1}(sqr_sqrtr Hx) rmorphX sqrtr_sqr ger0_norm.
  - rewrite !ler0_sqrtr ?rmorph0 //; first exact: ltW. rewrite -(rmorph0 h) (h_le mono). exact: ltW.
Qed.
Lemma h_copysign x y : ra_copysign (h x) (h y) = h (ra_copysign x y).
Proof. rewrite /ra_copysign -(rmorph0 h) (h_lt mono). by case: (y < 0); rewrite ?rmorphN. Qed.
(** An order-preserving embedding of one real closed field in another, such as the real algebraic numbers in the real numbers. *)
Theorem C124_embedding (tol : F) (A : Mat.Matrix F) (b : list F) :
  qr_decomposition (O := realops (h tol)) Num.sqrt (@ra_copysign G) (each h A) = result (both h) (qr_decomposition (O := realops tol) Num.sqrt (@ra_copysign F) A) /\
  solve (O := realops (h tol)) Num.sqrt (@ra_copysign G) (each h A) (map h b) = result (map h) (solve (O := realops tol) Num.sqrt (@ra_copysign F) A b).
Proof.
  case: (ordered_same tol mono) => SR SD SO.
  have Hq : fun_agree (fun a b => b = h a) (fun a b => b = h a) Num.sqrt Num.sqrt by move=> a _ ->; rewrite h_sqrt.
  have Hc : fun2_agree (fun a b => b = h a) (@ra_copysign F) (@ra_copysign G) by move=> a _ c _ -> ->; rewrite h_copysign.
  split.
  - apply: rel_both. apply: (C124_qr SR SD Hq Hc). exact: each_rel.
  - apply: rel_map. apply: (C124_solve SR SD SO Hq Hc); [exact: each_rel|exact: map_f2].
Qed.
End Fields.

(** * Examples *)
Section Ex.
Variable R : rcfType.
Local Notation C := R[i].
Local Notation hess := (hessenberg (OC := cxops R) (OU := rops R) (@cxnorm R) (@cxabs R) (@cxconj R) (@cxofr R) Num.sqrt).
Local Notation givens := (qr_factorise_givens (OC := cxops R) (OU := rops R) (@cxnorm R) (@cxabs R) (@cxconj R) (@cxofr R) Num.sqrt).
(** The Hessenberg form of the real matrix i + 2j, of order 3. *)
Definition realA (i j : nat) : C := ((i + 2 * j)%:R : R)%:C%C.
Lemma realA_m : real_m (lib3 realA).
Proof. by repeat constructor. Qed.
Example C124_real_ex : exists eps P H, [/\ hess eps (lib3 realA) = Ok (P, H), real_m P & real_m H].
Proof.
  have [e0 [MP [MH [E0 U1 EA HH G]]]] := C97_hessenberg (cx_complexO R) (fmx 3 3 realA) (ltn0Sn 2) (shape3).
  have [P [H [E _ _]]] := G e0 (lib3 realA) E0 (lexx e0) (lib3_ok realA). exists e0, P, H.
  have [K _ _] := C124_real e0 realA_m. by have [? ?] := K _ _ E.
Qed.
(** The rotations for the matrix of rows (3, i), (4, 1) and for its conjugate. *)
Example C124_conjugate_ex : exists Q U, givens 1 (lib2 (@exG R)) = Ok (Q, U) /\ givens 1 (each (@cxconj R) (lib2 (@exG R))) = Ok (each (@cxconj R) Q, each (@cxconj R) U) /\
  List.nth 1 (data (each (@cxconj R) (lib2 (@exG R)))) 0 = Complex 0 (-1).
Proof.
  have [Q [Rm [MQ [MR [E HQ HR _]]]]] := C97_givens (cx_complexO R) ltr01 (ltn0Sn 1) (lib2_ok (@exG R)). exists Q, Rm. split=> //. split=> //.
  have [_ K _] := C124_conjugate 1 (lib2 (@exG R)). by rewrite K E.
Qed.
(** One real element and a constant real shift. *)
Example C124_schur_ex : exists H U, QRHessenberg (OC := cxops R) (OU := rops R) (@cxnorm R) (@cxabs R) (@cxconj R) (@cxofr R) Num.sqrt 1 (fun _ => Ok 1) 0 9 (mkM 1 1 [:: (3%:R : R)%:C%C]) = Ok (H, U, false) /\ real_m H /\ real_m U.
Proof.
  have HA : is_mx (mkM 1 1 [:: (3%:R : R)%:C%C]) (fmx 1 1 (fun _ _ => (3%:R : R)%:C%C)).
    apply: is_mx_mat. split; first by []. split; first by []. split; first by repeat split; vm_compute. split; first by []. move=> i j Hi Hj. have -> : i = 0%N by lia. by have -> : j = 0%N by lia.
  have [||H [U [E _]]] := C98_order1 (cx_complexO R) ltr01 (shift := fun _ => Ok 1) (tolerance := 0) (itermax := 9) HA isT; [by rewrite lexx ltr01|by move=> X MX _; exists 1|].
  exists H, U. split=> //. apply: (C124_real_schur _ _ E); [by move=> m z _ [<-]|by repeat constructor].
Qed.
End Ex.
(** The column (3, 4) of real algebraic numbers, and the same in the real closure of that field. *)
Example C124_embedding_ex : let h := [rmorphism of RealAlg.to_alg [archiFieldType of realalg]] in
  exists q u, qr_decomposition (O := realops 0) Num.sqrt (@ra_copysign [rcfType of realalg]) (m34 _) = Ok (q, u) /\
    qr_decomposition (O := realops (h 0)) Num.sqrt (@ra_copysign _) (each h (m34 _)) = Ok (each h q, each h u).
Proof.
  move=> h. have [q [u [MQ [MR [E _ _ _ _]]]]] := C96_qr_ex [rcfType of realalg]. exists q, u. split; first exact: E.
  have M : forall a b : realalg, a <= b -> h a <= h b by move=> a b; rewrite RealAlg.ler_to_alg.
  have [K _] := C124_embedding M 0 (m34 [rcfType of realalg]) [::]. rewrite K. by rewrite E.
Qed.
