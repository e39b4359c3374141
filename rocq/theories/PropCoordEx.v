(** PropCoordEx.v: a concrete case for C115 over the rational numbers: an oscillator with friction in
    the coordinates (position + speed, speed), and with its states exchanged. *)
From Verif Require Import LinalgFacts2 PropMatrix PropUtil PropMath RingM DetFacts RatOps PropLinalg PropRing PropField PropReal Control ControlSpec ControlFacts CharPoly PropControl PropControl2 PropExpm PropFieldEx PropControlEx PropExpmEx PropExpmBound PropDimsEx PropSteady PropSteadyEx PropCoord PropCoord2.
From mathcomp Require Import all_ssreflect all_algebra all_fingroup.
Set Implicit Arguments.
Unset Strict Implicit.
Unset Printing Implicit Defensive.
Import Order.Theory GRing.Theory Num.Theory.
Local Open Scope ring_scope.
Local Opaque expm c2d simulate acker ctrb obsv.
Definition tab r c (l : seq rat) : 'M[rat]_(r, c) := \matrix_(i, j) nth 0 l (i * c + j)%N.
Definition oscA := tab 2 2 [:: 0; 1; -2%:R; -3%:R].
Definition oscB := tab 2 1 [:: 0; 1].
Definition oscC := tab 1 2 [:: 1; 0].
Definition oscD := tab 1 1 [:: 0].
Definition oscT := tab 2 2 [:: 1; 1; 0; 1].
Definition oscS := tab 2 2 [:: 1; -1; 0; 1].
Ltac two := apply/matrixP => -[[|[|i]] Hi] // -[[|[|j]] Hj] //; rewrite !mxE !big_ord_recl big_ord0 /= ?mxE /=; by rewrite ?mulr0 ?mul0r ?mulr1 ?mul1r ?addr0 ?add0r ?subrr ?addNr.
Lemma TS : oscT *m oscS = 1%:M. Proof. two. Qed.
Lemma shp r c : (r <= 9)%N -> (c <= 9)%N -> shape_ok r c.
Proof. move=> Hr Hc. exact: (shape_mx (qmx_ok (0 : 'M[rat]_(r, c)) Hr Hc)). Qed.
Lemma ctrb_osc : \det (ctrbmx (n := 1) oscA oscB) != 0.
Proof.
  have -> : ctrbmx (n := 1) oscA oscB = tab 2 2 [:: 0; 1; 1; -3%:R].
    apply/matrixP => -[[|[|i]] Hi] // -[[|[|j]] Hj] //; rewrite [LHS]mxE /= ?expr0 ?expr1 ?mul1mx ?[in LHS]mxE ?big_ord_recl ?big_ord0 /= ?mxE /=; by rewrite ?mulr0 ?mul0r ?mulr1 ?mul1r ?addr0 ?add0r.
  rewrite (expand_det_row _ 0) !big_ord_recl big_ord0 /= /matrix.cofactor !det_mx11 !mxE /=. by vm_compute.
Qed.
Notation Q M := (mb_of_mat (qmx M)).
Notation HQ M := (qmx_ok M isT isT).
Example C115_ex : 
  (exists m m', [/\ ctrb (Q oscA) (Q oscB) = Ok m, ctrb (Q (oscT *m oscA *m oscS)) (Q (oscT *m oscB)) = Ok m' & m_mul (Q oscT) (mb_of_mat m) = Ok m']) /\
  (exists m m', [/\ obsv (Q oscA) (Q oscC) = Ok m, obsv (Q (oscT *m oscA *m oscS)) (Q (oscC *m oscS)) = Ok m' & m_mul (mb_of_mat m) (Q oscS) = Ok m']) /\
  (exists k k', [/\ acker (Q oscA) (Q oscB) (Q (tab 1 2 [:: -1; -2%:R])) = Ok k, acker (Q (oscT *m oscA *m oscS)) (Q (oscT *m oscB)) (Q (tab 1 2 [:: -1; -2%:R])) = Ok k' & m_mul (mb_of_mat k) (Q oscS) = Ok k']).
Proof.
  split; [|split].
  - exact: (C115_ctrb rat_ring TS (HQ oscA) (HQ oscB) (HQ (oscT *m oscA *m oscS)) (HQ (oscT *m oscB)) (is_mx_qmx oscT isT isT) (@shp 2 2 isT isT)).
  - exact: (C115_obsv rat_ring TS (HQ oscA) (HQ oscC) (HQ (oscT *m oscA *m oscS)) (HQ (oscC *m oscS)) (is_mx_qmx oscS isT isT) (@shp 2 2 isT isT)).
  - have [H1 H2] := HQ (tab 1 2 [:: -1; -2%:R]).
    exact: (C115_acker rat_field rat_exactZ TS isT (HQ oscA) (HQ oscB) (HQ (oscT *m oscA *m oscS)) (HQ (oscT *m oscB)) (is_mx_qmx oscS isT isT) (conj H1 H2) erefl ctrb_osc).
Qed.
Definition dsys_of (A : 'M[rat]_2) (B : 'M[rat]_(2, 1)) (C : 'M[rat]_(1, 2)) : DSS rat := mkDSS (mkSS (qmx A) (qmx B) (qmx C) (qmx oscD)) 1.
Definition cv2 (a b : rat) : 'cV[rat]_2 := tab 2 1 [:: a; b].
Lemma v2 a b : is_vec [:: a; b] 2 (cvf (cv2 a b)).
Proof.
  split; [by []|split; [by rewrite /fits /alloc_max; lia|]]. move=> [|[|i]] Hi; last lia.
  - by rewrite -[0%N]/(val (ord0 : 'I_2)) cvfE mxE.
  - by rewrite -[1%N]/(val (ord_max : 'I_2)) cvfE mxE.
Qed.
Example C115_simulate_ex : exists t x x' y, [/\ simulate (fun _ => Ok 3%N) (dsys_of oscA oscB oscC) [:: [:: 1]; [:: 2%:R]] 3%:R [:: 1; 1] = Ok (t, x, y),
  simulate (fun _ => Ok 3%N) (dsys_of (oscT *m oscA *m oscS) (oscT *m oscB) (oscC *m oscS)) [:: [:: 1]; [:: 2%:R]] 3%:R [:: 2%:R; 1] = Ok (t, x', y), length x' = length x &
  forall k xk, nth_error x k = Some xk -> exists xk', nth_error x' k = Some xk' /\ m_mulv (Q oscT) xk = Ok xk'].
Proof.
  have HU : inputs [:: [:: 1]; [:: 2%:R]] 1 (fun k => cvf (const_mx (if k == 0%N then 1 else 2%:R) : 'cV[rat]_1)).
    move=> [|[|k]] v /=; [case=> <-; exact: v1|case=> <-; exact: v1|by case: k].
  have F1 : fits 1 by rewrite /fits /alloc_max; lia.
  have E2 : m_mulv (Q oscT) [:: 1; 1] = Ok [:: 2%:R; 1].
    have F2 : fits 2 by rewrite /fits /alloc_max; lia.
    have [w [-> W]] := mulv_cv rat_ring (is_mx_reads (is_mx_qmx oscT isT isT)) (v2 1 1) F2. congr Ok. apply: is_vec_unique W _.
    have -> : oscT *m cv2 1 1 = cv2 2%:R 1 by apply/matrixP => -[[|[|i]] Hi] // -[[|j] Hj] //; rewrite !mxE !big_ord_recl big_ord0 /= ?mxE /=; rewrite ?mulr0 ?mul0r ?mulr1 ?mul1r ?addr0 ?add0r.
    exact: v2.
  have E3 : odiv (3%:R : rat) 1 = Ok (3%:R : rat) by vm_compute.
  exact: (C115_simulate (sys := dsys_of oscA oscB oscC) (sys' := dsys_of (oscT *m oscA *m oscS) (oscT *m oscB) (oscC *m oscS)) (trunc := fun _ => Ok 3%N) rat_ring TS
     (is_mx_qmx oscA isT isT) (is_mx_qmx oscB isT isT) (is_mx_qmx oscC isT isT) (is_mx_qmx oscD isT isT)
     (is_mx_qmx (oscT *m oscA *m oscS) isT isT) (is_mx_qmx (oscT *m oscB) isT isT) (is_mx_qmx (oscC *m oscS) isT isT) (is_mx_qmx oscD isT isT) erefl
     (is_mx_qmx oscT isT isT) (v2 1 1) E2 HU F1 E3 erefl).
Qed.
(** The oscillator with its two states exchanged: expm is defined on both and the results are renumbered. *)
Definition swap2 : 'S_2 := tperm ord0 ord_max.
Example C115_expm_ex : swap2 ord0 = ord_max /\ renumbered (n := 1) swap2 (@expm _ qops (fun x : rat => x) (2%:R^-1) 20 (Q oscA) 1) (@expm _ qops (fun x : rat => x) (2%:R^-1) 20 (Q (renumber swap2 oscA)) 1).
Proof.
  split; first by rewrite tpermL.
  exact: (@C115_expm [archiFieldType of rat] qops (realops_ok 0) qops_Z qops_feq0 id (fun x => erefl) 1 swap2 isT (qmx oscA) (qmx (renumber swap2 oscA)) oscA 20 1 (is_mx_qmx oscA isT isT) (is_mx_qmx (renumber swap2 oscA) isT isT)).
Qed.
(** A falling body: position and speed, and the two exchanged; here expm returns the shear matrix and its renumbering. *)
Definition fall : 'M[rat]_2 := tab 2 2 [:: 0; 1; 0; 0].
Example C115_expm_ok : exists fuel m m', [/\ @expm _ qops (fun x : rat => x) (2%:R^-1) fuel (Q fall) 0 = Ok m, is_mx m (1%:M + fall),
  @expm _ qops (fun x : rat => x) (2%:R^-1) fuel (Q (renumber swap2 fall)) 0 = Ok m' & is_mx m' (renumber swap2 (1%:M + fall))].
Proof.
  have F2 : fall ^+ 2 = 0 by rewrite expr2; two.
  have [f0 H] := @C103_square_zero [archiFieldType of rat] qops (realops_ok 0) qops_Z qops_feq0 id (fun x => erefl) (qmx fall) 1 fall (is_mx_qmx fall isT isT) F2 erefl.
  have [E [EE HE]] := H f0 (leqnn f0).
  have := @C115_expm [archiFieldType of rat] qops (realops_ok 0) qops_Z qops_feq0 id (fun x => erefl) 1 swap2 isT (qmx fall) (qmx (renumber swap2 fall)) fall f0 0 (is_mx_qmx fall isT isT) (is_mx_qmx (renumber swap2 fall) isT isT).
  rewrite EE => H0. exists f0, E. move: H0; rewrite /renumbered. case: (expm _ _ _ _ _) => // m' [M [H1 H2]]. exists m'. split=> //.
  suff <- : M = 1%:M + fall by []. apply/matrixP => i j. have H3 := is_mat_fun _ _ _ _ _ H1 HE i j. rewrite !mxfE in H3. by apply: H3; apply/ssrnat.ltP.
Qed.
Example C115_c2d_ex : \det oscA != 0 /\
  match @c2d _ qops (fun x : rat => x) (2%:R^-1) 1 20 (mkSS (qmx oscA) (qmx oscB) (qmx oscC) (qmx oscD)) (2%:R^-1),
        @c2d _ qops (fun x : rat => x) (2%:R^-1) 1 20 (mkSS (qmx (renumber swap2 oscA)) (qmx (renumber_rows swap2 oscB)) (qmx (renumber_cols swap2 oscC)) (qmx oscD)) (2%:R^-1) with
  | Ok d, Ok d' => exists Ad : 'M[rat]_2, is_mx (sA (dsys d)) Ad /\ is_mx (sA (dsys d')) (renumber swap2 Ad)
  | Throw, Throw | UB, UB | Exit, Exit | Fuel, Fuel => True
  | _, _ => False
  end.
Proof.
  have D : \det oscA != 0 by rewrite (expand_det_row _ 0) !big_ord_recl big_ord0 /= /matrix.cofactor !det_mx11 !mxE /=; vm_compute.
  split=> //. have := @C115_c2d [archiFieldType of rat] qops (realops_ok 0) qops_Z qops_feq0 id (fun x => erefl) 1 swap2 isT (mkSS (qmx oscA) (qmx oscB) (qmx oscC) (qmx oscD))
    (mkSS (qmx (renumber swap2 oscA)) (qmx (renumber_rows swap2 oscB)) (qmx (renumber_cols swap2 oscC)) (qmx oscD)) (2%:R^-1) 1 20 0 0 (0, 0)%N oscA oscB oscC oscD
    (is_mx_qmx oscA isT isT) (is_mx_qmx oscB isT isT) (is_mx_qmx oscC isT isT) (is_mx_qmx oscD isT isT) D (is_mx_qmx (renumber swap2 oscA) isT isT) (is_mx_qmx (renumber_rows swap2 oscB) isT isT) (is_mx_qmx (renumber_cols swap2 oscC) isT isT) (is_mx_qmx oscD isT isT).
  do 2!case: (c2d _ _ _ _ _ _) => // ?. by case=> Ad [Bd [[H1 H2] _ _ _ _]]; exists Ad.
Qed.
