(** PropReachEx.v: concrete cases for C121 over the rational numbers: the oscillator of PropCoordEx can be steered by its force
    and watched through its position; driven or read along one of its modes it cannot. *)
From Verif Require Import LinalgFacts2 PropMatrix PropUtil PropMath RingM DetFacts RatOps PropLinalg PropRing PropField PropReal Control ControlSpec ControlFacts CharPoly PropControl PropControl2 PropExpm PropFieldEx PropControlEx PropExpmEx PropExpmBound PropDimsEx PropSteady PropSteadyEx PropCoord PropCoord2 PropCoordEx PropReach.
From mathcomp Require Import all_ssreflect all_algebra all_fingroup.
Set Implicit Arguments.
Unset Strict Implicit.
Unset Printing Implicit Defensive.
Import Order.Theory GRing.Theory Num.Theory.
Local Open Scope ring_scope.
Local Opaque simulate ctrb obsv.
Definition modB := tab 2 1 [:: 1; -1].
Definition modC := tab 1 2 [:: 2%:R; 1].
Ltac ent := rewrite ?expr0 ?expr1 ?mul1mx ?mulmx1 ?[in LHS]mxE ?big_ord_recl ?big_ord0 /= ?mxE /=; rewrite ?mulr0 ?mul0r ?mulr1 ?mul1r ?addr0 ?add0r //.
(** What ctrb and obsv return for one input and one output. *)
Lemma ctrb_two (A : 'M[rat]_2) (B : 'M[rat]_(2, 1)) : exists ct, ctrb (Q A) (Q B) = Ok ct /\ is_mx ct (ctrbmx (n := 1) A B : 'M_(2, 2 * 1)).
Proof.
  have [ct [f [E H1 H2]]] := C57_ctrb rat_ring (HQ A) (HQ B) (@shp 2 2 isT isT). exists ct. split; first exact: E.
  apply: is_mat_ext; first exact: H1. move=> i j Hi Hj. have Hj2 : (j < 2)%N by apply/ssrnat.ltP.
  have := H2 j i 0%N Hj2 isT. rewrite muln1 addn0 => ->. have Hi2 : (i < 2)%N by apply/ssrnat.ltP.
  by rewrite -[i]/(val (Ordinal Hi2)) -[j in RHS]/(val (Ordinal Hj2)) -[X in mxf _ _ X = _]/(val (0 : 'I_1)) !mxfE [RHS]mxE.
Qed.
Definition obsvmx (A : 'M[rat]_2) (C : 'M[rat]_(1, 2)) : 'M[rat]_2 := \matrix_(k, j) (C *m A ^+ k) 0 j.
Lemma obsv_two (A : 'M[rat]_2) (C : 'M[rat]_(1, 2)) : exists ob, obsv (Q A) (Q C) = Ok ob /\ is_mx ob (obsvmx A C : 'M_(2 * 1, 2)).
Proof.
  have [ob [f [E H1 H2]]] := C57_obsv rat_ring (HQ A) (HQ C) (@shp 2 2 isT isT). exists ob. split; first exact: E.
  apply: is_mat_ext; first exact: H1. move=> i j Hi Hj. have Hi2 : (i < 2)%N by apply/ssrnat.ltP.
  have := H2 i 0%N j Hi2 isT. rewrite muln1 addn0 => ->. have Hj2 : (j < 2)%N by apply/ssrnat.ltP.
  by rewrite -[j]/(val (Ordinal Hj2)) -[i in RHS]/(val (Ordinal Hi2)) -[X in mxf _ X _ = _]/(val (0 : 'I_1)) !mxfE [RHS]mxE.
Qed.
Lemma obsv_osc : obsvmx oscA oscC = 1%:M.
Proof. apply/matrixP => -[[|[|i]] Hi] // -[[|[|j]] Hj] //; rewrite [LHS]mxE /=; ent. Qed.
Lemma m31 : - 3%:R + 2%:R = -1 :> rat. Proof. by rewrite (natrD _ 2 1) opprD addrAC addNr add0r. Qed.
Lemma m23 : - 2%:R + 3%:R = 1 :> rat. Proof. by rewrite -(opprK 1) -m31 opprD opprK addrC. Qed.
Ltac num := rewrite ?mulr0 ?mul0r ?mulrNN ?mulr1 ?mul1r ?addr0 ?add0r ?opprK ?mulr1 ?subrr ?addNr ?m23 ?m31 ?(addrC 2%:R) ?m31 //.
Lemma mode_ctrb : (tab 1 2 [:: 1; 1]) *m ctrbmx (n := 1) oscA modB = 0.
Proof.
  have E : oscA *m modB = - modB by apply/matrixP => -[[|[|i]] Hi] // -[[|j] Hj] //; rewrite !mxE !big_ord_recl big_ord0 /= ?mxE /=; num.
  have EC : ctrbmx (n := 1) oscA modB = tab 2 2 [:: 1; -1; -1; 1].
    apply/matrixP => -[[|[|i]] Hi] // -[[|[|j]] Hj] //; rewrite [LHS]mxE /= ?expr0 ?expr1 ?mul1mx ?E ?mxE /= ?mxE /= ?opprK //.
  rewrite EC; apply/matrixP => -[[|i] Hi] // -[[|[|j]] Hj] //; rewrite !mxE !big_ord_recl big_ord0 /= !mxE /=; num.
Qed.
Lemma mode_obsv : obsvmx oscA modC *m tab 2 1 [:: 1; -2%:R] = 0.
Proof.
  have E : modC *m oscA = - modC by apply/matrixP => -[[|i] Hi] // -[[|[|j]] Hj] //; rewrite !mxE !big_ord_recl big_ord0 /= ?mxE /=; num.
  have EC : obsvmx oscA modC = tab 2 2 [:: 2%:R; 1; - 2%:R; -1].
    apply/matrixP => -[[|[|i]] Hi] // -[[|[|j]] Hj] //; rewrite [LHS]mxE /= ?expr0 ?expr1 ?mulmx1 ?E ?mxE /= ?mxE /= ?opprK //.
  rewrite EC; apply/matrixP => -[[|[|i]] Hi] // -[[|j] Hj] //; rewrite !mxE !big_ord_recl big_ord0 /= !mxE /=; num.
Qed.
Notation sq3 := (@simulate rat ratops (fun _ => Ok 3%N)).
Lemma E31 : odiv (3%:R : rat) 1 = Ok (3%:R : rat). Proof. by vm_compute. Qed.
(** Three steps of force lead the oscillator from (1, 1) to (5, -7). *)
Example C121_steer_ex : exists u t x y, [/\ length u = 3%N, sq3 (dsys_of oscA oscB oscC) u 3%:R [:: 1; 1] = Ok (t, x, y) & nth_error x 3 = Some [:: 5%:R; -7%:R]].
Proof.
  have [ct [E H]] := ctrb_two oscA oscB.
  have HR : \rank (ctrbmx (n := 1) oscA oscB : 'M_(2, 2 * 1)) = 2%N by apply: mxrank_unit; rewrite unitmxE unitfE ctrb_osc.
  have [u [fu [t [x [y [_ L E' N]]]]]] := @C121_steer _ ratops rat_ring (dsys_of oscA oscB oscC) 1 1 1 oscA oscB oscC oscD (is_mx_qmx oscA isT isT) (is_mx_qmx oscB isT isT)
    (is_mx_qmx oscC isT isT) (is_mx_qmx oscD isT isT) (@shp 2 2 isT isT) ct _ E H (fun _ => Ok 3%N) 3%:R _ 3 [:: 1; 1] [:: 5%:R; -7%:R] HR E31 erefl isT erefl erefl.
  exists u, t, x, y. split; [exact L|exact E'|exact N].
Qed.
(** Driven along the mode (1, -1) there is a state no run from rest visits. *)
Example C121_out_of_reach_ex : exists x1, length x1 = 2%N /\ forall trunc u fu tm z t x y, inputs u 1 fu -> is_vec z 2 (fun _ => 0) ->
  @simulate rat ratops trunc (dsys_of oscA modB oscC) u tm z = Ok (t, x, y) -> ~ In x1 x.
Proof.
  have [ct [E H]] := ctrb_two oscA modB.
  have HR : \rank (ctrbmx (n := 1) oscA modB : 'M_(2, 2 * 1)) <> 2%N.
    move=> R. have U : row_free (ctrbmx (n := 1) oscA modB) by apply/eqP; exact: R. have := mode_ctrb. rewrite -(mul0mx _ (ctrbmx (n := 1) oscA modB)) => /(row_free_inj U) /matrixP /(_ 0 0).
    by rewrite !mxE /= => /eqP; rewrite oner_eq0.
  exact: (@C121_out_of_reach _ ratops rat_ring (dsys_of oscA modB oscC) 1 1 1 oscA modB oscC oscD (is_mx_qmx oscA isT isT) (is_mx_qmx modB isT isT) (is_mx_qmx oscC isT isT) (is_mx_qmx oscD isT isT) (@shp 2 2 isT isT) ct _ E H HR).
Qed.
(** Two outputs of the position determine the initial state. *)
Example C121_observable_ex init init' t x y t' x' y' : length init = 2%N -> length init' = 2%N ->
  sq3 (dsys_of oscA oscB oscC) [:: [:: 1]; [:: 2%:R]; [:: 0]] 3%:R init = Ok (t, x, y) -> sq3 (dsys_of oscA oscB oscC) [:: [:: 1]; [:: 2%:R]; [:: 0]] 3%:R init' = Ok (t', x', y') ->
  nth_error y 0 = nth_error y' 0 -> nth_error y 1 = nth_error y' 1 -> (1 < length y)%N -> init = init'.
Proof.
  move=> L L' E E' H0 H1 Ly. have [ob [Eo H]] := obsv_two oscA oscC.
  have HR : \rank (obsvmx oscA oscC : 'M_(2 * 1, 2)) = 2%N by rewrite obsv_osc mxrank1.
  have HU : inputs [:: [:: 1]; [:: 2%:R]; [:: 0]] 1 (fun k => cvf (const_mx (if k == 0%N then 1 else if k == 1%N then 2%:R else 0) : 'cV[rat]_1)).
    move=> [|[|[|k]]] v /=; [case=> <-; exact: v1|case=> <-; exact: v1|case=> <-; exact: v1|by case: k].
  apply: (@C121_observable _ ratops rat_ring (dsys_of oscA oscB oscC) 1 1 1 oscA oscB oscC oscD (is_mx_qmx oscA isT isT) (is_mx_qmx oscB isT isT) (is_mx_qmx oscC isT isT) (is_mx_qmx oscD isT isT) (@shp 2 2 isT isT) ob _ Eo H _ _ _ _ _ _ _ _ _ _ _ _ HR HU L L' E E' Ly).
  by case=> [|[|k]].
Qed.
(** Read through (2, 1), two initial states give the same outputs for all inputs. *)
Example C121_blind_ex : exists init init', [/\ length init = 2%N, length init' = 2%N, init <> init' &
  forall trunc u fu tm t x y t' x' y', inputs u 1 fu -> @simulate rat ratops trunc (dsys_of oscA oscB modC) u tm init = Ok (t, x, y) -> simulate trunc (dsys_of oscA oscB modC) u tm init' = Ok (t', x', y') -> y = y'].
Proof.
  have [ob [Eo H]] := obsv_two oscA modC.
  have HR : \rank (obsvmx oscA modC : 'M_(2 * 1, 2)) <> 2%N.
    move=> R. have U : row_full (obsvmx oscA modC) by apply/eqP; exact: R. have := mode_obsv. rewrite -(mulmx0 _ (obsvmx oscA modC)) => /(row_full_inj U) /matrixP /(_ 0 0).
    by rewrite !mxE /= => /eqP; rewrite oner_eq0.
  exact: (@C121_blind _ ratops rat_ring (dsys_of oscA oscB modC) 1 1 1 oscA oscB modC oscD (is_mx_qmx oscA isT isT) (is_mx_qmx oscB isT isT) (is_mx_qmx modC isT isT) (is_mx_qmx oscD isT isT) (@shp 2 2 isT isT) ob _ Eo H HR).
Qed.
(** A run of two inputs continued by one more. *)
Example C121_continue_ex : exists t t1 t2 x1 xe x2 y1 y2, [/\ sq3 (dsys_of oscA oscB oscC) [:: [:: 1]; [:: 2%:R]] 3%:R [:: 1; 1] = Ok (t1, (x1 ++ [:: xe])%list, y1),
  sq3 (dsys_of oscA oscB oscC) [:: [:: 0]] 3%:R xe = Ok (t2, xe :: x2, y2),
  sq3 (dsys_of oscA oscB oscC) [:: [:: 1]; [:: 2%:R]; [:: 0]] 3%:R [:: 1; 1] = Ok (t, (x1 ++ xe :: x2)%list, (y1 ++ y2)%list) & length y1 = 2%N /\ length y2 = 1%N].
Proof.
  have HU : inputs [:: [:: 1]; [:: 2%:R]] 1 (fun k => cvf (const_mx (if k == 0%N then 1 else 2%:R) : 'cV[rat]_1)).
    move=> [|[|k]] v /=; [case=> <-; exact: v1|case=> <-; exact: v1|by case: k].
  have HU' : inputs [:: [:: 0]] 1 (fun k => cvf (const_mx 0 : 'cV[rat]_1)) by move=> [|k] v /=; [case=> <-; exact: v1|by case: k].
  have F1 : fits 1 by rewrite /fits /alloc_max; lia.
  exact: (@C121_continue rat ratops (fun _ => Ok 3%N) (dsys_of oscA oscB oscC) _ _ _ _ _ _ _ _ 3 3 3 _ 2 1 1 _ _ _ _ _ _ _
    (is_mx_qmx oscA isT isT) (is_mx_qmx oscB isT isT) (is_mx_qmx oscC isT isT) (is_mx_qmx oscD isT isT) (v2 1 1) HU HU' F1 E31 erefl isT E31 erefl isT E31 erefl isT).
Qed.
