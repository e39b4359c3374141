(** PropSteadyEx.v: a concrete case for C111 over the rational numbers. *)
From Verif Require Import LinalgFacts2 PropMatrix PropUtil PropMath RingM DetFacts RatOps PropLinalg PropRing PropField PropReal Control ControlSpec ControlFacts PropControl PropControl2 PropExpm PropFieldEx PropControlEx PropExpmEx PropExpmBound PropDimsEx PropSteady.
From mathcomp Require Import all_ssreflect all_algebra.
Set Implicit Arguments.
Unset Strict Implicit.
Unset Printing Implicit Defensive.
Import Order.Theory GRing.Theory Num.Theory.
Local Open Scope ring_scope.
Local Opaque expm c2d simulate.
(** Rational numbers with exact comparisons. *)
Definition qops : Ops rat := realops (0 : rat).
Lemma qops_Z : @exactZ _ qops.
Proof. move=> x. by rewrite /= mul0r normr_le0. Qed.
Lemma qops_feq0 (x : rat) : @ofeq _ qops x 0 = (x == 0).
Proof. by rewrite /= subr0 mul0r normr_le0. Qed.
(** x' = -x + 2 u, y = x + 5 u, sample time 1/2, accuracy 1: A_d = 1/2, B_d = 1. *)
Definition lag : SS rat := mkSS (mkM 1 1 [:: -1]) (mkM 1 1 [:: 2%:R]) (mkM 1 1 [:: 1]) (mkM 1 1 [:: 5%:R]).
Definition dlag : DSS rat := mkDSS (mkSS (mkM 1 1 [:: 2%:R^-1]) (mkM 1 1 [:: 1]) (mkM 1 1 [:: 1]) (mkM 1 1 [:: 5%:R])) (2%:R^-1).
Lemma c2d_lag : @c2d _ qops (fun x : rat => x) (2%:R^-1) 1 5 lag (2%:R^-1) = Ok dlag.
Proof. by vm_compute. Qed.
Lemma m11 (a : rat) : is_mx (mkM 1 1 [:: a]) (const_mx a : 'M_1). Proof. exact: mx11. Qed.
Lemma v1 (a : rat) : is_vec [:: a] 1 (cvf (const_mx a : 'cV_1)).
Proof.
  split; [by []|split; [by rewrite /fits /alloc_max; lia|]]. move=> [|i] Hi; last lia.
  by rewrite -[O]/(val (ord0 : 'I_1)) cvfE mxE.
Qed.
Lemma det_lag : \det (const_mx (-1) : 'M[rat]_1) != 0. Proof. by rewrite det_mx11 mxE. Qed.
(** Under the input 3 the state 6 is kept, by a single step and by the theorem. *)
Example C111_equilibrium_ex : exists y, @simulate_step _ qops dlag [:: 6%:R] [:: 3%:R] = Ok ([:: 6%:R], y) /\ is_vec y 1 (cvf (const_mx 21%:R : 'cV[rat]_1)).
Proof.
  have H : (const_mx (-1) : 'M[rat]_1) *m (const_mx 6%:R : 'cV_1) + (const_mx 2%:R : 'M_1) *m const_mx 3%:R = 0.
    by apply/matrixP => i j; rewrite !ord1 !mxE !big_ord1 !mxE.
  have [y [E V]] := @C111_equilibrium [archiFieldType of rat] qops (realops_ok 0) qops_Z qops_feq0 id (fun x => erefl) lag _ _ _ 0 0 0 _ _ _ _ _ (m11 _) (m11 _) (m11 _) (m11 _) isT det_lag c2d_lag _ _ _ _ (v1 _) (v1 _) H.
  exists y. split=> //. have <- : (const_mx 1 : 'M_1) *m (const_mx 6%:R : 'cV_1) + (const_mx 5%:R : 'M_1) *m const_mx 3%:R = (const_mx 21%:R : 'cV[rat]_1) by apply/matrixP => i j; rewrite !ord1 !mxE !big_ord1 !mxE.
  exact: V.
Qed.
Example C111_equilibrium_only_ex : (const_mx (-1) : 'M[rat]_1) *m (const_mx 6%:R : 'cV_1) + (const_mx 2%:R : 'M_1) *m const_mx 3%:R = 0.
Proof.
  have [y [E _]] := C111_equilibrium_ex.
  apply: (@C111_equilibrium_only [archiFieldType of rat] qops (realops_ok 0) qops_Z qops_feq0 id (fun x => erefl) lag _ _ _ 0 0 0 _ _ _ _ _ (m11 _) (m11 _) (m11 _) (m11 _) isT det_lag c2d_lag (const_mx (2%:R^-1)) _ _ _ _ _ (m11 _) _ (v1 _) (v1 _) E).
  by rewrite det_mx11 !mxE.
Qed.
(** From 7 the state tends to 6, halving the distance at every step. *)
Example C111_decay_ex (eps : rat) : 0 < eps ->
  exists k1, forall N k0, exists t x y, @simulate _ qops (fun _ => Ok k0) dlag (List.repeat [:: 3%:R] N) 1 [:: 7%:R] = Ok (t, x, y) /\ length x = (Nat.min N k0).+1 /\
    forall k, (k1 <= k <= Nat.min N k0)%N -> exists xk (Z : 'cV[rat]_1), [/\ nth_error x k = Some xk, is_vec xk 1 (cvf Z) & forall i, `|Z i 0 - 6%:R| <= eps].
Proof.
  have HV (i : 'I_1) : (const_mx (-1) : 'M[rat]_1) *m const_mx 1 = (-1) *: (const_mx 1 : 'cV_1).
    apply/matrixP => k l. by rewrite !ord1 !mxE big_ord1 !mxE.
  have V0 (i : 'I_1) : (const_mx 1 : 'cV[rat]_1) != 0.
    apply/eqP => /matrixP /(_ 0 0). by rewrite !mxE.
  move=> He. have [k1 H] := @C111_decay [archiFieldType of rat] qops (realops_ok 0) qops_Z qops_feq0 id (fun x => erefl) lag _ _ _ 0 0 0 _ _ _ _ _ (m11 _) (m11 _) (m11 _) (m11 _) isT det_lag c2d_lag
    1 (fun=> const_mx 1) (fun=> -1) eps HV V0 (fun=> isT) He.
  exists k1 => N k0. have [|||t [x [y [E [L Q]]]]] := H (fun _ => Ok k0) (const_mx 6%:R) (const_mx 3%:R) [:: 7%:R] [:: 3%:R] N 1 2%:R k0 _ _ (v1 _) _ erefl.
  - apply/matrixP => i j. by rewrite !ord1 !mxE !big_ord1 !mxE.
  - rewrite big_ord1 -[7%:R]/(6%:R + 1 : rat). have -> : (const_mx 6%:R + const_mx 1 : 'cV[rat]_1) = const_mx (6%:R + 1) by apply/matrixP => i j; rewrite !mxE. exact: v1.
  - by vm_compute.
  exists t, x, y. split=> //. split=> // k Hk. have [xk [Z [E1 V1 B1]]] := Q k Hk. exists xk, Z. split=> // i. by have := B1 i; rewrite mxE.
Qed.
