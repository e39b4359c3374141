(** PropExactEx.v: a concrete case for C118 over the rational numbers: the lag x' = -x + 2 u of
    PropSteadyEx, sampled every 1/2, started at 7 under the input 3. *)
From Verif Require Import LinalgFacts2 PropMatrix PropUtil PropMath RingM DetFacts RatOps PropLinalg PropRing PropField PropReal Control ControlSpec ControlFacts PropControl PropControl2 PropExpm ExpBound PropFieldEx PropControlEx PropExpmEx PropExpmBound PropDimsEx PropSteady PropSteadyEx PropExact.
From mathcomp Require Import all_ssreflect all_algebra.
Set Implicit Arguments.
Unset Strict Implicit.
Unset Printing Implicit Defensive.
Import Order.Theory GRing.Theory Num.Theory.
Local Open Scope ring_scope.
Local Opaque expm c2d simulate.
Lemma el1 (M : 'M[rat]_1) : M = const_mx (M 0 0). Proof. by apply/matrixP => i j; rewrite !ord1 mxE. Qed.
Lemma pow1 (a : rat) k : ((const_mx a : 'M[rat]_1) ^+ k) 0 0 = a ^+ k.
Proof. elim: k => [|k IH]; first by rewrite !expr0 mxE. by rewrite !exprS mxE big_ord1 IH mxE. Qed.
Lemma series1 (a : rat) L : (\sum_(k < L) (k`!%:R)^-1 *: (const_mx a : 'M[rat]_1) ^+ k) 0 0 = \sum_(k < L) (k`!%:R)^-1 * a ^+ k.
Proof. rewrite summxE. apply: eq_bigr => k _. by rewrite mxE pow1. Qed.
(** 1 - 1/2 + 1/8 = 5/8 is exp(-1/2) up to 1/42. *)
Lemma upto_half : exponential_upto (2%:R^-1 *: (const_mx (-1) : 'M[rat]_1)) (const_mx (5%:R / 8%:R)) (42%:R^-1).
Proof.
  have -> : 2%:R^-1 *: (const_mx (-1) : 'M[rat]_1) = const_mx (- 2%:R^-1) by apply/matrixP => i j; rewrite !mxE mulrN1.
  move=> eps He. exists 2%N => L HL i. rewrite ord1 big_ord1 series1 mxE. apply: le_trans (_ : 42%:R^-1 <= _); last by rewrite ler_addl ltW.
  rewrite -(big_mkord xpredT (fun k => (k`!%:R)^-1 * (- 2%:R^-1) ^+ k)) (@big_cat_nat _ _ _ 3 0) //=.
  have -> : \sum_(0 <= k < 3) (k`!%:R)^-1 * (- 2%:R^-1) ^+ k = 5%:R / 8%:R :> rat by rewrite !big_nat_recr //= big_geq.
  rewrite opprD addrA subrr add0r normrN. apply: le_trans (ler_norm_sum _ _ _) _.
  rewrite (eq_bigr (fun k => (k`!%:R)^-1 * (2%:R^-1) ^+ k)) => [|k _]; last by rewrite normrM normrX normrN !ger0_norm ?invr_ge0 ?ler0n.
  have T := @eterm_tail [realFieldType of rat] (2%:R^-1) 2 L isT isT.
  exact: le_trans T _.
Qed.
Example C118_run_ex N k0 : exists t x y, @simulate _ qops (fun _ => Ok k0) dlag (List.repeat [:: 3%:R] N) 1 [:: 7%:R] = Ok (t, x, y) /\ length x = (Nat.min N k0).+1 /\
  forall k, (k <= Nat.min N k0)%N -> exists xk (V : 'cV[rat]_1), [/\ nth_error x k = Some xk, is_vec xk 1 (cvf V) &
    `|V 0 0 - (6%:R + (5%:R / 8%:R) ^+ k)| <= 5%:R^-1 * (\sum_(j < k) (33%:R / 40%:R) ^+ j) /\ `|V 0 0 - (6%:R + (5%:R / 8%:R) ^+ k)| <= 8%:R / 7%:R].
Proof.
  have [norm [K [_ [i Hn] HK H]]] := @C118_run [archiFieldType of rat] qops (realops_ok 0) qops_Z qops_feq0 id (fun x => erefl) lag _ _ _ 0 0 0 _ _ _ _ _ (m11 _) (m11 _) (m11 _) (m11 _) isT det_lag c2d_lag _ _ upto_half.
  have {i Hn} En : norm = 2%:R^-1 by rewrite -Hn big_ord1 mxE. subst norm.
  have He M : 42%:R^-1 + \sum_(K.+1 <= k < M) (k`!%:R)^-1 * (2%:R^-1) ^+ k <= 5%:R^-1 :> rat.
    apply: le_trans (_ : 42%:R^-1 + eterm (2%:R^-1) 2 * (3%:R / (3%:R - 2%:R^-1)) <= _) => //. rewrite ler_add2l.
    apply: le_trans (@eterm_tail [realFieldType of rat] (2%:R^-1) 1 (K + M) isT isT). rewrite (@big_cat_nat _ _ _ K.+1 2 (K + M).+1) //=; last by rewrite ltnS leq_addr.
    have T k : 0 <= (k`!%:R)^-1 * (2%:R^-1) ^+ k :> rat by apply: mulr_ge0; rewrite ?exprn_ge0 ?invr_ge0 ?ler0n.
    apply: ler_paddl; first by apply: sumr_ge0 => k _; exact: T.
    case: (leqP M K.+1) => HM; first by rewrite big_geq //; apply: sumr_ge0 => k _; exact: T.
    rewrite (@big_cat_nat _ _ _ M K.+1 (K + M).+1) //=; [|by rewrite ltnW|by rewrite leqW // leq_addl].
    rewrite ler_addl. apply: sumr_ge0 => k _; exact: T.
  have [||||||t [x [y [E1 E2 E3]]]] := H _ He (fun _ => Ok k0) (List.repeat [:: 3%:R] N) 1 2%:R k0 [:: 7%:R] (fun=> const_mx 3%:R) (fun=> const_mx 6%:R)
    (fun k => const_mx (6%:R + (5%:R / 8%:R) ^+ k)) (5%:R / 8%:R) 1 (v1 _).
  - move=> k uk Hk. have Hin := nth_error_In _ _ Hk. rewrite (List.repeat_spec _ _ _ Hin). exact: v1.
  - by vm_compute.
  - by [].
  - move=> k. split; apply/matrixP => i j; rewrite !ord1 !mxE !big_ord1 !mxE; first by [].
    by rewrite [6%:R + _ - _]addrC addKr exprS.
  - move=> i. by rewrite big_ord1 mxE.
  - move=> k i. rewrite !mxE [6%:R + _ - _]addrC addKr normrX. by apply: exprn_ile1.
  rewrite List.repeat_length in E2 E3. exists t, x, y. split=> //. split=> // k Hk. have [xk [V [V1 V2 V3]]] := E3 k Hk. exists xk, V. split=> //.
  have [A1 A2] := V3 0. move: A1 A2. rewrite mxE mulr1. have -> : 5%:R / 8%:R + 5%:R^-1 = 33%:R / 40%:R :> rat by [].
  move=> A1 A2. split=> //. have {}A2 := A2 isT. by apply: le_trans A2 _.
Qed.
