(** PropRunSolve.v: C127.  How far inverse and solve of doubles are from the exact inverse, the exact
    solution, the least squares solution and the shortest solution. *)
From Coq Require Import ZArith QArith Qabs Lqa SpecFloat.
From Verif Require Import Spec LinalgFacts2 MathFacts RingM DetFacts PropRing PropField PropControl PropReal QR QRMath Rel RelQR RelSure PropRel PropRelInt PropRelQR PropQR PropQR2 PropQREx Float PropFloat PropFloatIO PropFloatSum PropFloatCmp FloatLoop PropFloatLin PropFloatNorm PropQRFloat QDet PropRunErr RunQR PropRunQR.
Lemma sure_q (c e x : Q) : (Qabs (x - c) <= e)%Q -> (e < Qabs c)%Q -> ~ (x == 0)%Q.
Proof. intros H L Z. rewrite Z in H. setoid_replace (0 - c)%Q with (- c)%Q in H by ring. rewrite Qabs_opp in H. lra. Qed.
From mathcomp Require Import all_ssreflect all_algebra all_real_closed.
Set Implicit Arguments.
Unset Strict Implicit.
Unset Printing Implicit Defensive.
Import Order.Theory GRing.Theory Num.Theory.
Local Open Scope ring_scope.
Delimit Scope Q_scope with QQ.
Local Notation double := SpecFloat.spec_float.
Local Notation proper := PropFloatCmp.proper.

(** * Specification *)
(** Centres and bounds as in C125; "is zero" is answered no only if it is certain. *)
Definition sureops : Ops bounded := {|
  o0 := @o0 _ wideops; o1 := @o1 _ wideops; oadd := @oadd _ wideops; osub := @osub _ wideops; omul := @omul _ wideops; oopp := @oopp _ wideops; odiv := @odiv _ wideops;
  oeq := fun _ _ => false; olt := fun _ _ => false; ole := fun _ _ => false; ofeq := fun _ _ => false; oisz := fun x => if x is Some (c, e) then Qle_bool (Qabs c) e else true; oabs := fun x => x;
  ofnat := @ofnat _ wideops |}.
Section Spec.
Variable F : rcfType.
Local Notation dreal := (dreal F).
Local Notation near1 := (@near1 F).
(** Element by element: where there is a bound, the double is finite and within twice the bound of the number. *)
Definition near_v n (c : seq bounded) (d : seq double) (X : 'cV[F]_n) : Prop := size d = n /\ size c = n /\ forall i : 'I_n, near1 (nth None c i) (nth nan d i) (X i 0).
Definition near_mx r k (c : Mat.Matrix bounded) (d : Mat.Matrix double) (X : 'M[F]_(r, k)) : Prop :=
  [/\ Mat.rows d = r, Mat.cols d = k & forall (i : 'I_r) (j : 'I_k), near1 (nth None (data c) (i * k + j)) (nth nan (data d) (i * k + j)) (X i j)].
(** The doubles as an exact column. *)
Definition column n (b : seq double) (V : 'cV[F]_n) : Prop := is_vec (map dreal b) n (cvf V).

(** * Proofs *)
Lemma sure_ring t : same_ring sureops (fops t) within. Proof. by case: (wide_ring t). Qed.
Lemma sure_div t : same_div sureops (fops t) within. Proof. by case: (wide_div t). Qed.
Lemma sure_ringF : same_ring sureops (fieldops F) (@contains F). Proof. by case: (contains_ring F). Qed.
Lemma sure_divF : same_div sureops (fieldops F) (@contains F). Proof. by case: (contains_div F). Qed.
Lemma sure_zero t : small_tol t -> forall x d, within x d -> @oisz _ sureops x = false -> @oisz _ (fops t) d = false.
Proof.
  move=> Ht [[c e]|] d // [[P1 P2] H] /qleb_false L. apply/negbTE/negP => Z. have [[s E]|[s E]] := proj1 (C84_zero t d Ht P1) Z; subst d; last by [].
  exact: (sure_q _ _ _ H L (Qeq_refl _)).
Qed.
Lemma sure_zeroF x (y : F) : contains x y -> @oisz _ sureops x = false -> @oisz _ (fieldops F) y = false.
Proof.
  case: x => [[c e]|] //= H /qleb_false L. apply/negbTE/eqP => Z. subst y. move: H. rewrite sub0r normrN -qr_abs => H. apply: (Qlt_not_le _ _ L). exact: qr_le_inv H.
Qed.
Lemma field_f : fieldO (fieldops F). Proof. by case: (field_real F). Qed.
Lemma field_z : exactZ (fieldops F). Proof. by []. Qed.
Lemma known_f2 b : List.Forall2 (@contains F) (map known b) (map dreal b).
Proof. elim: b => [|d l IH]; constructor=> //. by rewrite /contains /= subrr normr0 qr0. Qed.
Lemma near_of_vec n c d x (X : 'cV[F]_n) : near c d x -> is_vec x n (cvf X) -> near_v c d X.
Proof.
  move=> [S1 [S2 N]] [L [_ H]]. have Sx : size x = n := L. split; first by rewrite -S1 S2. split; first by rewrite S2. move=> i. have Hi : (i < size c)%N by rewrite S2 Sx.
  have := N i Hi. have /(nth_err 0) [_ ->] := H i ltac:(exact/ssrnat.ltP). by rewrite cvfE.
Qed.
Lemma near_of_mx r k c d x (X : 'M[F]_(r, k)) : near_m c d x -> is_mx x X -> near_mx c d X.
Proof.
  move=> [H1 H2 H3 H4 [S1 [S2 N]]] HX. have [E1 [E2 _]] := HX. split; [by rewrite -H1 H3|by rewrite -H2 H4|]. move=> i j. have [S ->] := mx_at HX i j. apply: N. by rewrite S2.
Qed.
Lemma empty_rel A B (R : A -> B -> Prop) c : rmat R c mat_empty -> c = mat_empty.
Proof. case: c => [a b l] [/= E1 [/= E2 /= H]]. by inversion H; subst. Qed.

(** * C127 *)
(** inverse: if the run with bounds does not end with the empty matrix, the matrix is invertible and the
    inverse of the doubles is close to its inverse. *)
Theorem C127_inverse t (A : Mat.Matrix double) n (MA : 'M[F]_n) c : small_tol t -> all_finite (data A) -> is_mx (each dreal A) MA -> (0 < n <= 4)%N ->
  inverse (O := sureops) (mb_of_mat (each known A)) = Ok c -> c <> mat_empty ->
  exists d N, [/\ inverse (O := fops t) (mb_of_mat A) = Ok d, MA *m N = 1%:M, N *m MA = 1%:M & near_mx c d N].
Proof.
  move=> Ht HA HM /andP [Hn0 Hn] E Ne. have [W _] := known_m A HA. have [Er [Ec _]] := HM. have L : Peano.lt 0 (mcols (mb_of_mat (each known A))) /\ Peano.le (mcols (mb_of_mat (each known A))) 4.
    by rewrite -[mcols _]/(Mat.cols (each dreal A)) Ec; split; apply/ssrnat.leP.
  have [d [Ed Hd]] := r_sure_inverse _ (sure_ring t) (sure_div t) (sure_zero Ht) _ _ run_sqrt _ _ run_copysign _ _ (r_mat _ _ _ W) L _ E Ne.
  have [x [Ex Hx]] := r_sure_inverse _ sure_ringF sure_divF sure_zeroF _ _ (@contains_sqrt F) _ _ (@contains_copysign F) _ _ (r_mat _ _ _ (known_contains F A)) L _ E Ne.
  have Hn5 : (n <= 5)%N by exact: leq_trans Hn _.
  have D : \det MA != 0.
    apply/negP => /eqP Z. have Hn' : (0 < n <= 4)%N by rewrite Hn0.
    have Es := proj2 (C52_singular field_f field_z (is_mx_reads HM) Hn') Z. apply: Ne. apply: (@empty_rel _ _ (@contains F)). by move: Ex; rewrite Es => -[->].
  have [m [N [Em Hm N1 N2]]] := C52_inverse field_f field_z (is_mx_reads HM) Hn5 D. have Exm : x = m by move: Ex; rewrite Em => -[].
  exists d, N. split; [exact: Ed|exact: N1|exact: N2|]. apply: near_of_mx; last exact: Hm. rewrite -Exm. exact: near_mat.
Qed.

(** solve, as many equations as unknowns: if the run with bounds does not end with the empty vector, the
    matrix is invertible and the doubles are close to the solution. *)
Theorem C127_square t (A : Mat.Matrix double) b n (MA : 'M[F]_n) (V : 'cV[F]_n) c : small_tol t -> all_finite (data A) -> all_finite b -> is_mx (each dreal A) MA -> column b V -> (0 < n <= 4)%N ->
  solve (O := sureops) bsqrt bcopysign (each known A) (map known b) = Ok c -> c <> [::] ->
  exists d X, [/\ solve (O := fops t) dsqrt dcopysign A b = Ok d, \det MA != 0, MA *m X = V & near_v c d X].
Proof.
  move=> Ht HA Hb HM HV Hn E Ne. have [W _] := known_m A HA. have [Er [Ec _]] := HM. have Wb := known_within b Hb. have S : Mat.rows (each known A) = Mat.cols (each known A) by rewrite -[Mat.rows _]/(Mat.rows (each dreal A)) -[Mat.cols _]/(Mat.cols (each dreal A)) Er Ec.
  have L : Peano.lt 0 (Mat.cols (each known A)) /\ Peano.le (Mat.cols (each known A)) 4 by case/andP: (Hn) => H1 H2; rewrite -[Mat.cols _]/(Mat.cols (each dreal A)) Ec; split; apply/ssrnat.leP.
  have [d [Ed Hd]] := r_sure_square _ (sure_ring t) (sure_div t) (sure_zero Ht) _ _ run_sqrt _ _ run_copysign _ _ _ _ _ W Wb S L E Ne.
  have [x [Ex Hx]] := r_sure_square _ sure_ringF sure_divF sure_zeroF _ _ (@contains_sqrt F) _ _ (@contains_copysign F) _ _ _ _ _ (known_contains F A) (known_f2 b) S L E Ne.
  have D : \det MA != 0.
    apply/negP => /eqP Z. have Es := C96_solve_singular (field_real F) field_z (@ra_copysign F) (map dreal b) HM Hn Z. apply: Ne. move: Ex Hx. rewrite Es => -[<-] Hx. by inversion Hx.
  have Hn5 : (n <= 5)%N by case/andP: Hn => _ H; exact: leq_trans H _.
  have [y [X [Ey Hy EX]]] := C96_solve_square (field_real F) field_z (@ra_copysign F) HM HV Hn5 D. have Exy : x = y by move: Ex; rewrite Ey => -[].
  exists d, X. split; [exact: Ed|exact: D|exact: EX|]. apply: near_of_vec; last exact: Hy. rewrite -Exy. exact: near_list.
Qed.
(** More equations than unknowns: close to the least squares solution. *)
Theorem C127_tall t (A : Mat.Matrix double) b r k (MA : 'M[F]_(r, k)) (V : 'cV[F]_r) c : small_tol t -> all_finite (data A) -> all_finite b -> is_mx (each dreal A) MA -> column b V -> (0 < k < r)%N -> (k <= 4)%N ->
  shape_ok r r -> indep MA ->
  solve (O := sureops) bsqrt bcopysign (each known A) (map known b) = Ok c -> c <> [::] ->
  exists d X, [/\ solve (O := fops t) dsqrt dcopysign A b = Ok d, MA^T *m (MA *m X) = MA^T *m V, (forall Y, sqlen (MA *m X - V) <= sqlen (MA *m Y - V)) & near_v c d X].
Proof.
  move=> Ht HA Hb HM HV Hk Hk4 Sr HI E Ne. have [W _] := known_m A HA. have [Er [Ec _]] := HM. have Wb := known_within b Hb. have /andP [Hk0 Hkr] := Hk.
  have ER : Mat.rows (each known A) = r := Er. have EC : Mat.cols (each known A) = k := Ec.
  have S : Peano.lt (Mat.cols (each known A)) (Mat.rows (each known A)) by rewrite ER EC; apply/ssrnat.leP.
  have L : Peano.lt 0 (Mat.cols (each known A)) /\ Peano.le (Mat.cols (each known A)) 4 by rewrite EC; split; apply/ssrnat.leP.
  have HQ q u : qr_decomposition (O := sureops) bsqrt bcopysign (each known A) = Ok (q, u) -> Mat.cols u = Mat.cols (each known A).
    move=> EQ. have Hk' : (0 < k <= r)%N by rewrite Hk0 ltnW. have [q' [u' [MQ [MR [E' _ Hu _]]]]] := C96_qr (field_real F) (@ra_cs F) HM Hk' Sr HI.
    have := C124_qr sure_ringF sure_divF (@contains_sqrt F) (@contains_copysign F) (known_contains F A). rewrite EQ E' => -[_ [_ [H _]]]. rewrite EC. have [_ [Cu _]] := Hu. exact: (etrans H Cu).
  have [d [Ed Hd]] := r_sure_tall _ (sure_ring t) (sure_div t) (sure_zero Ht) _ _ run_sqrt _ _ run_copysign _ _ _ _ _ W Wb S L HQ E Ne.
  have [x [Ex Hx]] := r_sure_tall _ sure_ringF sure_divF sure_zeroF _ _ (@contains_sqrt F) _ _ (@contains_copysign F) _ _ _ _ _ (known_contains F A) (known_f2 b) S L HQ E Ne.
  have Hk5 : (k <= 5)%N by exact: leq_trans Hk4 _.
  have [y [X [Ey Hy E1 E2]]] := C96_solve_tall (field_real F) field_z (@ra_cs F) HM HV Hk Hk5 Sr HI. have Exy : x = y by move: Ex; rewrite Ey => -[].
  exists d, X. split; [exact: Ed|exact: E1|exact: E2|]. apply: near_of_vec; last exact: Hy. rewrite -Exy. exact: near_list.
Qed.
(** More unknowns than equations: close to the shortest solution. *)
Theorem C127_wide t (A : Mat.Matrix double) b r k (MA : 'M[F]_(r, k)) (V : 'cV[F]_r) c : small_tol t -> all_finite (data A) -> all_finite b -> is_mx (each dreal A) MA -> column b V -> (0 < r < k)%N -> (r <= 4)%N ->
  shape_ok r r -> fits k -> indep MA^T ->
  solve (O := sureops) bsqrt bcopysign (each known A) (map known b) = Ok c ->
  exists d X, [/\ solve (O := fops t) dsqrt dcopysign A b = Ok d, MA *m X = V, (forall Y, MA *m Y = V -> sqlen X <= sqlen Y) & near_v c d X].
Proof.
  move=> Ht HA Hb HM HV /andP [Hr0 Hrk] Hr4 Sr Fk HI E. have [W _] := known_m A HA. have [Er [Ec _]] := HM. have Wb := known_within b Hb.
  have ER : Mat.rows (each known A) = r := Er. have EC : Mat.cols (each known A) = k := Ec.
  have S : Peano.lt (Mat.rows (each known A)) (Mat.cols (each known A)) by rewrite ER EC; apply/ssrnat.leP.
  have L : Peano.lt 0 (Mat.rows (each known A)) /\ Peano.le (Mat.rows (each known A)) 4 by rewrite ER; split; apply/ssrnat.leP.
  have HQ u m : transpose (O := sureops) (mb_of_mat (each known A)) = Ok u -> m_mul (O := sureops) (mb_of_mat (each known A)) (mb_of_mat u) = Ok m -> Mat.cols u = Mat.rows (each known A) /\ Mat.cols m = Mat.rows (each known A).
    move=> Eu Em. have [u' [Eu' Hu]] := tr_mx (fieldops F) (is_mx_reads HM). have HO : ringO (fieldops F) by case: field_f. have [m' [Em' Hm _]] := m_mul_mxL HO (is_mx_reads HM) (is_mx_reads Hu) Sr.
    have HK := r_mat _ _ _ (known_contains F A). have := r_transpose _ (r_0 _ _ _ sure_ringF) _ _ HK. rewrite Eu Eu' => Ku. have := r_m_mul _ sure_ringF _ _ _ _ HK (r_mat _ _ _ Ku). rewrite Em Em' => -[_ [Km _]].
    rewrite ER. have [_ [Cu _]] := Hu. have [_ [Cm _]] := Hm. have [_ [Kc _]] := Ku. split; [exact: (etrans Kc Cu)|exact: (etrans Km Cm)].
  have [d [Ed Hd]] := r_sure_wide _ (sure_ring t) (sure_div t) (sure_zero Ht) _ _ run_sqrt _ _ run_copysign _ _ _ _ _ W Wb S L HQ E.
  have [x [Ex Hx]] := r_sure_wide _ sure_ringF sure_divF sure_zeroF _ _ (@contains_sqrt F) _ _ (@contains_copysign F) _ _ _ _ _ (known_contains F A) (known_f2 b) S L HQ E.
  have Hr5 : (r <= 5)%N by exact: leq_trans Hr4 _.
  have [y [X [Ey Hy E1 E2]]] := C96_solve_wide (field_real F) field_z (@ra_copysign F) HM HV Hrk Hr5 Sr Fk HI. have Exy : x = y by move: Ex; rewrite Ey => -[].
  exists d, X. split; [exact: Ed|exact: E1|exact: E2|]. apply: near_of_vec; last exact: Hy. rewrite -Exy. exact: near_list.
Qed.
End Spec.

(** * Examples *)
(** 3 x + 4 y = 1, x + 2 y = 2: the run with bounds ends with bounds below 2^-46. *)
Definition exb : seq double := [:: natd 1; natd 2].
Definition low_all (eps : Q) (r : Res (seq bounded)) : bool := if r is Ok c then (0 < size c)%N && le_all eps c else false.
Example ex_square : low_all (2 ^ (-46))%QQ (solve (O := sureops) bsqrt bcopysign (each known exM) (map known exb)).
Proof. lazy. reflexivity. Qed.
Definition exTall : Mat.Matrix double := mkM 2 1 [:: natd 3; natd 4].
Example ex_tall : low_all (2 ^ (-46))%QQ (solve (O := sureops) bsqrt bcopysign (each known exTall) (map known exb)).
Proof. lazy. reflexivity. Qed.
Definition exWide : Mat.Matrix double := mkM 1 2 [:: natd 3; natd 4].
Example ex_wide : low_all (2 ^ (-46))%QQ (solve (O := sureops) bsqrt bcopysign (each known exWide) (map known [:: natd 1])).
Proof. lazy. reflexivity. Qed.
(** A singular matrix: nothing is certain, and the result is empty. *)
Example ex_singular : solve (O := sureops) bsqrt bcopysign (each known (mkM 2 2 [:: natd 1; natd 2; natd 2; natd 4])) (map known exb) = Ok [::].
Proof. lazy. reflexivity. Qed.
Lemma low_all_ok eps r : low_all eps r -> exists c, [/\ r = Ok c, c <> [::] & le_all eps c].
Proof. case: r => [c| | | |] //= /andP [H L]. exists c. split=> //. by case: c H {L}. Qed.
Lemma exb_finite : all_finite exb.
Proof. repeat (apply: List.Forall_cons; [split; [by lazy|exact: I]|]). exact: List.Forall_nil. Qed.
Lemma tol6_small : small_tol tol6.
Proof. eexists. eexists. split; [reflexivity|]. split; by lazy. Qed.
Section Ex.
Variable F : rcfType.
Definition vb : 'cV[F]_2 := \col_i (i.+1)%:R.
Lemma exb_col : column exb vb.
Proof.
  split; first by []. split; first by case: shape22. case=> [|[|i]] Hi; last lia.
  - by rewrite -[List.nth_error _ _]/(Some (dreal F (natd 1))) dreal_nat // /cvf -[0%N]/(val (0 : 'I_2)) -[X in mxf _ _ X]/(val (0 : 'I_1)) mxfE mxE.
  - by rewrite -[List.nth_error _ _]/(Some (dreal F (natd 2))) dreal_nat // /cvf -[1%N]/(val (1 : 'I_2)) -[X in mxf _ _ X]/(val (0 : 'I_1)) mxfE mxE.
Qed.
Lemma near_low n eps c d (X : 'cV[F]_n) : near_v c d X -> le_all eps c -> forall i : 'I_n, proper (nth nan d i) /\ `|dreal F (nth nan d i) - X i 0| <= 2%:R * qr F eps.
Proof.
  move=> [_ [S N]] L i. have Hi : (i < size c)%N by rewrite S. have := elimT (all_nthP None) L _ Hi. have := N i. case: (nth None c i) => [[v e]|] // K Le. have [P D] := K _ _ (erefl _). split=> //.
  apply: le_trans D _. apply: ler_wpmul2l; first exact: ler0n. apply: qr_le. exact: qleb_true Le.
Qed.
(** The computed x and y are within 2^-45 of those of the solution. *)
Example C127_ex : exists d (X : 'cV[F]_2), [/\ solve (O := fops tol6) dsqrt dcopysign exM exb = Ok d, mM F *m X = vb &
  forall i : 'I_2, proper (nth nan d i) /\ `|dreal F (nth nan d i) - X i 0| <= 2%:R * qr F (2 ^ (-46))%QQ].
Proof.
  have [c [E Ne L]] := low_all_ok ex_square. have [d [X [Ed _ EX N]]] := @C127_square F tol6 exM exb 2 (mM F) vb c tol6_small exM_finite exb_finite (exM_is F) exb_col isT E Ne.
  exists d, X. split; [exact Ed|exact EX|exact: near_low N L].
Qed.
(** 3 x = 1, 4 x = 2 in the sense of least squares, and 3 x + 4 y = 1 with the shortest x and y. *)
Lemma tall_is : is_mx (each (dreal F) exTall) (c34 F).
Proof. rewrite -[each _ _]/(mkM 2 1 [:: dreal F (natd 3); dreal F (natd 4)]) !dreal_nat //. exact: m34_ok. Qed.
Lemma wide_is : is_mx (each (dreal F) exWide) (c34 F)^T.
Proof. rewrite -[each _ _]/(mkM 1 2 [:: dreal F (natd 3); dreal F (natd 4)]) !dreal_nat //. exact: m43_ok. Qed.
Lemma tall_finite : all_finite (data exTall).
Proof. repeat (apply: List.Forall_cons; [split; [by lazy|exact: I]|]). exact: List.Forall_nil. Qed.
Example C127_ex_tall : exists d (X : 'cV[F]_1), [/\ solve (O := fops tol6) dsqrt dcopysign exTall exb = Ok d, forall Y, sqlen (c34 F *m X - vb) <= sqlen (c34 F *m Y - vb) &
  forall i : 'I_1, proper (nth nan d i) /\ `|dreal F (nth nan d i) - X i 0| <= 2%:R * qr F (2 ^ (-46))%QQ].
Proof.
  have [c [E Ne L]] := low_all_ok ex_tall. have [d [X [Ed _ EX N]]] := @C127_tall F tol6 exTall exb 2 1 (c34 F) vb c tol6_small tall_finite exb_finite tall_is exb_col isT isT shape22 (@c34_indep F) E Ne.
  exists d, X. split; [exact Ed|exact EX|exact: near_low N L].
Qed.
Definition v1 : 'cV[F]_1 := \col_i 1.
Lemma v1_col : column [:: natd 1] v1.
Proof. split; first by []. split; first by vm_compute. case=> [|i] Hi; last lia. by rewrite -[List.nth_error _ _]/(Some (dreal F (natd 1))) dreal_nat // /cvf -[0%N]/(val (0 : 'I_1)) mxfE mxE. Qed.
Lemma shape11 : shape_ok 1 1. Proof. by repeat split; vm_compute. Qed.
Lemma indepTT : indep ((c34 F)^T)^T. Proof. rewrite trmxK. exact: c34_indep. Qed.
Lemma one_finite : all_finite [:: natd 1].
Proof. repeat (apply: List.Forall_cons; [split; [by lazy|exact: I]|]). exact: List.Forall_nil. Qed.
Example C127_ex_wide : exists d (X : 'cV[F]_2), [/\ solve (O := fops tol6) dsqrt dcopysign exWide [:: natd 1] = Ok d, (c34 F)^T *m X = v1, forall Y, (c34 F)^T *m Y = v1 -> sqlen X <= sqlen Y &
  forall i : 'I_2, proper (nth nan d i) /\ `|dreal F (nth nan d i) - X i 0| <= 2%:R * qr F (2 ^ (-46))%QQ].
Proof.
  have [c [E _ L]] := low_all_ok ex_wide. have F2 : fits 2 by case: shape22. have [d [X [Ed EX EY N]]] := @C127_wide F tol6 exWide [:: natd 1] 1 2 (c34 F)^T v1 c tol6_small tall_finite one_finite wide_is v1_col isT isT shape11 F2 indepTT E.
  exists d, X. split; [exact Ed|exact EX|exact EY|exact: near_low N L].
Qed.
End Ex.
