(** PropPolesEx.v: the oscillator of PropCoordEx.v meets the hypotheses of C117. *)
From Verif Require Import LinalgFacts2 PropMatrix PropUtil PropMath RingM DetFacts RatOps PropLinalg PropRing PropField PropReal Control ControlSpec ControlFacts CharPoly PropControl PropControl2 PropFieldEx PropControlEx PropDimsEx PropSteady PropSteadyEx PropCoordEx PropPoles.
From mathcomp Require Import all_ssreflect all_algebra.
Set Implicit Arguments.
Unset Strict Implicit.
Unset Printing Implicit Defensive.
Import Order.Theory GRing.Theory Num.Theory.
Local Open Scope ring_scope.
Local Opaque simulate acker.
Notation Q M := (mb_of_mat (qmx M)).
Notation HQ M := (qmx_ok M isT isT).
Definition poles0 : 'M[rat]_(1, 2) := 0.
Definition polesh : 'M[rat]_(1, 2) := const_mx (2%:R^-1).
Lemma qops_field : fieldO qops. Proof. by case: (realops_ok (0 : rat)). Qed.
Definition loop (a : Mat.Matrix rat) : DSS rat := mkDSS (mkSS a (qmx oscB) (qmx oscC) (qmx oscD)) 1.
(** Dead-beat: from the second step on, two runs of four steps with an arbitrary input have the same states. *)
Example C117_deadbeat_ex : exists acl, @closed_loop _ qops (Q oscA) (Q oscB) (Q poles0) = Ok acl /\
  exists t x y x' y', [/\ @simulate _ qops (fun _ => Ok 4%N) (loop acl) (List.repeat [:: 1] 4) 1 [:: 1; 1] = Ok (t, x, y),
    @simulate _ qops (fun _ => Ok 4%N) (loop acl) (List.repeat [:: 1] 4) 1 [:: 5%:R; 1] = Ok (t, x', y'), length x = 5%N & forall k, (1 < k)%N -> nth_error x k = nth_error x' k].
Proof.
  have H0 : readsL (Q poles0) 1 2 (fun _ _ => 0).
    apply: readsL_ext (HQ poles0) _ => i j Hi Hj. by rewrite -[i]/(val (Ordinal Hi)) -[j]/(val (Ordinal Hj)) mxfE mxE.
  have F1 : fits 1 by rewrite /fits /alloc_max; lia.
  have HU : inputs (List.repeat [:: 1] 4) 1 (fun k => cvf (const_mx 1 : 'cV[rat]_1)).
    move=> k v Hkv. have Hin := nth_error_In _ _ Hkv. rewrite (repeat_spec _ _ _ Hin). exact: v1.
  have [acl [E H]] := @C117_deadbeat _ qops qops_field qops_Z (Q oscA) (Q oscB) (Q poles0) 1 oscA oscB isT (HQ oscA) (HQ oscB) H0 erefl ctrb_osc.
  exists acl. split; first exact: E. have E3 : @odiv _ qops 1 1 = Ok 1 by rewrite /odiv /= divr1.
  exact: (H (fun _ => Ok 4%N) (loop acl) (List.repeat [:: 1] 4) 1 1 4%N [:: 1; 1] [:: 5%:R; 1] 1%N 1%N oscB oscC oscD (cv2 1 1) (cv2 5%:R 1) (fun _ => const_mx 1)
    erefl (is_mx_qmx oscB isT isT) (is_mx_qmx oscC isT isT) (is_mx_qmx oscD isT isT) (v2 1 1) (v2 5%:R 1) HU F1 E3 erefl).
Qed.
(** Two poles at 1/2. *)
Example C117_regulates_ex (eps : rat) : 0 < eps -> exists acl k1, @closed_loop _ qops (Q oscA) (Q oscB) (Q polesh) = Ok acl /\ forall N, exists t x y,
  @simulate _ qops (fun _ => Ok N) (loop acl) (List.repeat [:: 0] N) 1 [:: 1; 1] = Ok (t, x, y) /\ length x = N.+1 /\
  forall k xk, (k1 <= k)%N -> nth_error x k = Some xk -> exists g, is_vec xk 2 g /\ forall i, (i <= 1)%N -> `|g i| <= eps.
Proof.
  move=> E0. have F1 : fits 1 by rewrite /fits /alloc_max; lia.
  have Hh : forall j, (j <= 1)%N -> -1 < mxf polesh 0 j < 1.
    move=> j Hj. have Hj2 : (j < 2)%N by rewrite ltnS. rewrite -[0%N]/(val (ord0 : 'I_1)) -[j]/(val (Ordinal Hj2)) mxfE mxE. by [].
  have [acl [k1 [E H]]] := @C117_regulates [archiFieldType of rat] qops (realops_ok 0) qops_Z (Q oscA) (Q oscB) (Q polesh) 1 oscA oscB _ 1 eps isT (HQ oscA) (HQ oscB) (HQ polesh) erefl ctrb_osc Hh ler01 E0.
  exists acl, k1. split; first exact: E. move=> N. have E3 : @odiv _ qops 1 1 = Ok 1 by rewrite /odiv /= divr1.
  have HU : inputs (List.repeat [:: 0] N) 1 (fun _ _ => 0 : rat).
    move=> k v Hkv. have Hin := nth_error_In _ _ Hkv. rewrite (repeat_spec _ _ _ Hin). split; first by []. split; first exact: F1. move=> [|i] Hi; [by []|exfalso; lia].
  have Hd : forall i, (i <= 1)%N -> `|cvf (cv2 1 1) i| <= 1.
    move=> i Hi. have Hi2 : (i < 2)%N by rewrite ltnS. rewrite -[i]/(val (Ordinal Hi2)) cvfE mxE. by case: i Hi Hi2 => [|[|i]].
  have [t [x [y [E1 L1 Q1]]]] := H (fun _ => Ok N) (loop acl) (List.repeat [:: 0] N) 1 1 N [:: 1; 1] 1%N 1%N oscB oscC oscD _
    erefl (is_mx_qmx oscB isT isT) (is_mx_qmx oscC isT isT) (is_mx_qmx oscD isT isT) (v2 1 1) Hd HU F1 E3 erefl.
  exists t, x, y. split; first exact: E1. split; last exact: Q1. by rewrite L1 repeat_length Nat.min_id.
Qed.
