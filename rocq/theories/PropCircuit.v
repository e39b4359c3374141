(** PropCircuit.v: the models built by the programs in /repo/examples (C112), in exact arithmetic:
    the circuit of sim_rlc_dt.cpp and the pendulum are stable and balance their energy; the circuit
    of sim_rlc_ct.cpp is not and does not. *)
From Verif Require Import LinalgFacts2 PropMatrix PropUtil PropMath RingM DetFacts CharPoly RatOps PropLinalg PropRing PropField PropReal Control ControlSpec ControlFacts PropControl PropControl2 Examples.
From mathcomp Require Import all_ssreflect all_algebra realalg complex.
Set Implicit Arguments.
Unset Strict Implicit.
Unset Printing Implicit Defensive.
Import Order.Theory GRing.Theory Num.Theory.
Local Open Scope ring_scope.

(** * Specification *)
Section Spec.
Variable R : rcfType.
(** The matrix with the rows (a, b) and (c, d); the column (a, b); the row (a, b). *)
Definition square (a b c d : R) (i j : nat) : R := match i, j with 0, 0 => a | 0, _ => b | _, 0 => c | _, _ => d end%N.
Definition pair (a b : R) (i : nat) : R := if i is 0%N then a else b.
(** The complex number l is an eigenvalue of the real 2 x 2 matrix f. *)
Definition eigenvalue2 (f : nat -> nat -> R) (l : R[i]) : Prop :=
  exists v0 v1 : R[i], [/\ (v0, v1) != (0, 0),
    (f 0 0)%N%:C%C * v0 + (f 0 1)%N%:C%C * v1 = l * v0 & (f 1 0)%N%:C%C * v0 + (f 1 1)%N%:C%C * v1 = l * v1].
(** All modes decay. *)
Definition stable (f : nat -> nat -> R) : Prop := forall l, eigenvalue2 f l -> complex.Re l < 0.
End Spec.

Section RingIds.
Variable K : comRingType.
Add Ring RK : (R_ring K).
Ltac rring := rewrite ?raddE ?rmulE ?roppE ?rzeroE ?roneE; match goal with |- @eq _ ?a ?b => change (@eq (rT K) a b) end; ring.
Lemma row0_id (x a b c d v w : K) : (x * x + - (a + d) * x + (a * d - b * c)) * v = (x - d) * (x * v - (a * v + b * w)) + b * (x * w - (c * v + d * w)).
Proof. rring. Qed.
Lemma row1_id (x a b c d v w : K) : (x * x + - (a + d) * x + (a * d - b * c)) * w = (x - a) * (x * w - (c * v + d * w)) + c * (x * v - (a * v + b * w)).
Proof. rring. Qed.
Lemma rlc_id (s l i k c r x0 x1 u : K) : l * x0 * (- r * i * x0 + s * i * x1 + (1 * i * u)) + c * x1 * (1 * k * x0 + 0 * x1 + 0 * u) = (l * i) * (x0 * (u - r * x0 + s * x1)) + (c * k) * (x0 * x1).
Proof. rring. Qed.
Lemma rlc_dt_id (r x0 x1 u : K) : 1 * (x0 * (u - r * x0 + - 1 * x1)) + 1 * (x0 * x1) = u * x0 - r * x0 * x0. Proof. rring. Qed.
Lemma rlc_ct_id (r x0 x1 u : K) : 1 * (x0 * (u - r * x0 + 1 * x1)) + 1 * (x0 * x1) = u * x0 - r * x0 * x0 + (x0 * x1 + x0 * x1). Proof. rring. Qed.
Lemma pend_id (m l i k b g x0 x1 u : K) : m * l * l * x1 * (- g * i * x0 + - b * k * x1 + 1 * k * u) + m * g * l * x0 * (0 * x0 + 1 * x1 + 0 * u) = (m * l * l * k) * (x1 * (u - b * x1)) + (1 - l * i) * (m * g * l * x0 * x1).
Proof. rring. Qed.
Lemma pend_end (b x1 u z : K) : 1 * (x1 * (u - b * x1)) + (1 - 1) * z = u * x1 - b * x1 * x1. Proof. rring. Qed.
Lemma quad_id (k p x : K) : (1 + 1) * ((1 + 1) * k) * (k * (x * x) + p * x) = (x * ((1 + 1) * k)) * (x * ((1 + 1) * k) + (p + p)). Proof. rring. Qed.
Lemma quad_end (s p : K) : (s - p) * (s - p + (p + p)) = s * s - p * p. Proof. rring. Qed.
Lemma eig_id (l i r c x : K) : l * (- r * i * (c * x) + 1 * i * 1) = (l * i) * (1 - r * c * x). Proof. rring. Qed.
Lemma eig_end (l r c x : K) : 1 * (l * c * (x * x) + r * c * x - r * c * x) = l * (x * (c * x)). Proof. rring. Qed.
Lemma sq_sub (x y : K) : (x - y) * (x + y) = x * x - y * y. Proof. rring. Qed.
End RingIds.

Section Facts.
Variable R : rcfType.
(** ** The roots of a quadratic *)
Lemma root_neg (p q : R) (l : R[i]) : 0 < p -> 0 < q -> l * l + p%:C%C * l + q%:C%C = 0 -> complex.Re l < 0.
Proof.
  case: l => a b p0 q0 /eqP. rewrite eq_complex /= => /andP [/eqP E1 /eqP E2].
  rewrite !mul0r subr0 !addr0 in E1 E2. rewrite ltNge. apply/negP => a0.
  have : b * (a + a + p) = 0 by rewrite -E2 mulrDr mulrDr [b * a]mulrC [b * p]mulrC -!addrA.
  move/eqP. rewrite mulf_eq0 => /orP [/eqP b0|].
  - move: E1. rewrite b0 mul0r subr0 => /eqP. by rewrite gt_eqF // ltr_paddl // addr_ge0 // mulr_ge0 // ltW.
  - by rewrite gt_eqF // ltr_paddl // addr_ge0.
Qed.
Lemma stable_square (f : nat -> nat -> R) : f 0%N 0%N + f 1%N 1%N < 0 -> 0 < f 0%N 0%N * f 1%N 1%N - f 0%N 1%N * f 1%N 0%N -> stable f.
Proof.
  set a := f 0%N 0%N. set b := f 0%N 1%N. set c := f 1%N 0%N. set d := f 1%N 1%N. move=> tr dt l [v0 [v1 [N E1 E2]]].
  rewrite -/a -/b -/c -/d in E1 E2.
  apply: (@root_neg (- (a + d)) (a * d - b * c)) => //; first by rewrite oppr_gt0.
  rewrite rmorphN rmorphD rmorphB !rmorphM /=.
  have W0 := row0_id l a%:C%C b%:C%C c%:C%C d%:C%C v0 v1. have W1 := row1_id l a%:C%C b%:C%C c%:C%C d%:C%C v0 v1.
  rewrite E1 E2 !subrr !mulr0 addr0 in W0 W1. set w := (X in X = 0). apply/eqP. apply: contraNT N => Nw.
  move/eqP: W0. rewrite mulf_eq0 -/w (negbTE Nw) => /eqP ->. move/eqP: W1. by rewrite mulf_eq0 -/w (negbTE Nw) => /eqP ->.
Qed.
End Facts.

Section Models.
Variables (R : rcfType) (O : Ops R).
Hypothesis HR : realO O.
Let HF : fieldO O. Proof. by case: HR. Qed.
Let HO : ringO O. Proof. by case: HF. Qed.
Let dv x y : y != 0 -> odiv x y = Ok (x / y). Proof. by case: HF => _ H _; apply: H. Qed.
Let CE := (oaddE HO, osubE HO, omulE HO, o0E HO, o1E HO, ooppE HO).
Lemma nested22 (a b c d : R) : mat_assign_nested mat_empty [:: [:: a; b]; [:: c; d]] = Ok (mkM 2 2 [:: a; b; c; d]). Proof. by vm_compute. Qed.
Lemma nested21 (a b : R) : mat_assign_nested mat_empty [:: [:: a]; [:: b]] = Ok (mkM 2 1 [:: a; b]). Proof. by vm_compute. Qed.
Lemma nested12 (a b : R) : mat_assign_nested mat_empty [:: [:: a; b]] = Ok (mkM 1 2 [:: a; b]). Proof. by vm_compute. Qed.
Lemma nested11 (a : R) : mat_assign_nested mat_empty [:: [:: a]] = Ok (mkM 1 1 [:: a]). Proof. by vm_compute. Qed.
Lemma is22 (a b c d : R) : is_mat (mkM 2 2 [:: a; b; c; d]) 2 2 (square a b c d).
Proof. split=> //; split=> //; split=> //; split=> // -[|[|i]] [|[|j]] Hi Hj; by [|lia]. Qed.
Lemma is21 (a b : R) : is_mat (mkM 2 1 [:: a; b]) 2 1 (fun i _ => pair a b i).
Proof. split=> //; split=> //; split=> //; split=> // -[|[|i]] [|j] Hi Hj; by [|lia]. Qed.
Lemma is12 (a b : R) : is_mat (mkM 1 2 [:: a; b]) 1 2 (fun _ j => pair a b j).
Proof. split=> //; split=> //; split=> //; split=> // -[|i] [|[|j]] Hi Hj; by [|lia]. Qed.
Lemma is11 (a : R) : is_mat (mkM 1 1 [:: a]) 1 1 (fun _ _ => a).
Proof. split=> //; split=> //; split=> //; split=> // -[|i] [|j] Hi Hj; by [|lia]. Qed.
Local Opaque mat_assign_nested.
(** ** The models *)
Theorem C112_rlc_dt r l c : l != 0 -> c != 0 -> exists sys, rlc_dt r l c = Ok sys /\
  [/\ is_mat (sA sys) 2 2 (square (- r / l) (- 1 / l) (1 / c) 0), is_mat (sB sys) 2 1 (fun i _ => pair (1 / l) 0 i),
      is_mat (sC sys) 1 2 (fun _ j => pair 0 1 j) & is_mat (sD sys) 1 1 (fun _ _ => 0)].
Proof.
  move=> l0 c0. rewrite /rlc_dt !dv // !CE. rewrite 4!bindOk nested22 bindOk nested21 bindOk nested12 bindOk nested11 bindOk.
  eexists; split; first reflexivity. split; [exact: is22|exact: is21|exact: is12|exact: is11].
Qed.
Theorem C112_rlc_ct r l c : l != 0 -> c != 0 -> exists sys, rlc_ct r l c = Ok sys /\
  [/\ is_mat (sA sys) 2 2 (square (- r / l) (1 / l) (1 / c) 0), is_mat (sB sys) 2 1 (fun i _ => pair (1 / l) 0 i),
      is_mat (sC sys) 1 2 (fun _ j => pair 1 0 j) & is_mat (sD sys) 1 1 (fun _ _ => 0)].
Proof.
  move=> l0 c0. rewrite /rlc_ct !dv // !CE. rewrite 4!bindOk nested22 bindOk nested21 bindOk nested12 bindOk nested11 bindOk.
  eexists; split; first reflexivity. split; [exact: is22|exact: is21|exact: is12|exact: is11].
Qed.
Theorem C112_pendulum m l b g : m != 0 -> l != 0 -> exists sys, pendulum m l b g = Ok sys /\
  [/\ is_mat (sA sys) 2 2 (square 0 1 (- g / l) (- b / (m * l * l))), is_mat (sB sys) 2 1 (fun i _ => pair 0 (1 / (m * l * l)) i),
      is_mat (sC sys) 1 2 (fun _ j => pair 0 1 j) & is_mat (sD sys) 1 1 (fun _ _ => 0)].
Proof.
  move=> m0 l0. rewrite /pendulum !CE !dv ?mulf_neq0 // 3!bindOk nested22 bindOk nested21 bindOk nested12 bindOk nested11 bindOk.
  eexists; split; first reflexivity. split; [exact: is22|exact: is21|exact: is12|exact: is11].
Qed.
(** ** Stability *)
Theorem C112_stable r l c : 0 < r -> 0 < l -> 0 < c -> exists sys f, [/\ rlc_dt r l c = Ok sys, is_mat (sA sys) 2 2 f & stable f].
Proof.
  move=> r0 l0 c0. have [sys [E [HA _ _ _]]] := C112_rlc_dt r (lt0r_neq0 l0) (lt0r_neq0 c0). exists sys. eexists; split; [exact: E|exact: HA|].
  apply: stable_square => /=.
  - by rewrite addr0 mulNr oppr_lt0 divr_gt0.
  - rewrite mulr0 add0r mulNr mulNr opprK. by rewrite mulr_gt0 // divr_gt0 // ltr01.
Qed.
Theorem C112_pendulum_stable m l b g : 0 < m -> 0 < l -> 0 < b -> 0 < g -> exists sys f, [/\ pendulum m l b g = Ok sys, is_mat (sA sys) 2 2 f & stable f].
Proof.
  move=> m0 l0 b0 g0. have [sys [E [HA _ _ _]]] := C112_pendulum b g (lt0r_neq0 m0) (lt0r_neq0 l0). exists sys. eexists; split; [exact: E|exact: HA|].
  apply: stable_square => /=.
  - by rewrite add0r mulNr oppr_lt0 divr_gt0 // !mulr_gt0.
  - by rewrite mul0r add0r mul1r mulNr opprK divr_gt0.
Qed.
(** The circuit of sim_rlc_ct.cpp grows without bound, whatever its components are: its matrix
    has a positive eigenvalue. *)
Theorem C112_ct_unstable_refuted r l c : 0 < r -> 0 < l -> 0 < c ->
  exists sys f x v0 v1, [/\ rlc_ct r l c = Ok sys, is_mat (sA sys) 2 2 f, 0 < x, (v0, v1) != (0, 0) :> R * R &
    f 0%N 0%N * v0 + f 0%N 1%N * v1 = x * v0 /\ f 1%N 0%N * v0 + f 1%N 1%N * v1 = x * v1].
Proof.
  move=> r0 l0 c0. have lN := lt0r_neq0 l0. have cN := lt0r_neq0 c0. have [sys [E [HA _ _ _]]] := C112_rlc_ct r lN cN.
  set s := Num.sqrt (r * c * (r * c) + 4%:R * (l * c)). have lc : 0 < l * c by rewrite mulr_gt0. have rc : 0 < r * c by rewrite mulr_gt0.
  have D0 : 0 <= r * c * (r * c) + 4%:R * (l * c) by rewrite addr_ge0 // ?mulr_ge0 ?ler0n // ltW.
  have ss : s * s = r * c * (r * c) + 4%:R * (l * c) by rewrite -expr2 sqr_sqrtr.
  have s0 : 0 <= s by exact: sqrtr_ge0.
  have sr : r * c < s.
    rewrite ltNge. apply/negP => H. have : s * s <= r * c * (r * c) by apply: ler_pmul.
    by rewrite ss ger_addl leNgt mulr_gt0 // ltr0n.
  pose x := (s - r * c) / (2%:R * (l * c)). have x0 : 0 < x by rewrite divr_gt0 ?subr_gt0 // mulr_gt0 // ltr0n.
  have X : l * c * (x * x) + r * c * x = 1.
    have K0 : (1 + 1) * ((1 + 1) * (l * c)) != 0 :> R by rewrite lt0r_neq0 // !mulr_gt0 // addr_gt0 // ltr01.
    apply: (mulfI K0). rewrite quad_id mulr1. have -> : x * ((1 + 1) * (l * c)) = s - r * c by rewrite /x divfK // mulf_neq0 ?pnatr_eq0 // lt0r_neq0.
    by rewrite quad_end ss addrAC subrr add0r -[4%:R]/((2 * 2)%N%:R) natrM -mulrA.
  exists sys. exists (square (- r / l) (1 / l) (1 / c) 0), x, (c * x), 1. split=> //.
  - by rewrite xpair_eqE oner_eq0 andbF.
  - split=> /=; last by rewrite mul0r addr0 mul1r mulrA mulVf // mul1r mulr1.
    apply: (mulfI lN). by rewrite eig_id mulfV // -{2}X eig_end.
Qed.
(** ** Energy *)
Lemma derivative_ok sys fA (fB : nat -> R) x0 x1 u : is_mat (sA sys) 2 2 fA -> is_mat (sB sys) 2 1 (fun i _ => fB i) ->
  exists dx, derivative sys [:: x0; x1] [:: u] = Ok dx /\
    is_vec dx 2 (fun i => fA i 0%N * x0 + fA i 1%N * x1 + fB i * u).
Proof.
  move=> HA HB. have F2 : fits 2 by rewrite /fits /alloc_max; lia. have F1 : fits 1 by rewrite /fits /alloc_max; lia.
  have Vx : is_vec [:: x0; x1] 2 (pair x0 x1) by split=> //; split=> // -[|[|i]] Hi; by [|lia].
  have Vu : is_vec [:: u] 1 (fun _ => u) by split=> //; split=> // -[|i] Hi; by [|lia].
  rewrite /derivative. have [ax [E1 Q1]] := dot_ok' _ 2 2 fA _ _ (is_mat_reads _ _ _ _ HA) Vx F2. rewrite E1 bindOk.
  have [bu [E2 Q2]] := dot_ok' _ 2 1 _ _ _ (is_mat_reads _ _ _ _ HB) Vu F2. rewrite E2 bindOk.
  have [_ G] := C32_vec_add ax bu 2%N _ 2%N _ Q1 Q2. have [dx [E3 Q3]] := G erefl. exists dx. split=> //.
  case: Q3 => L3 [S3 N3]. split=> //. split=> // i Hi. by rewrite (N3 i Hi) /= !CE !add0r.
Qed.
Lemma vec2 dx (g : nat -> R) : is_vec dx 2 g -> dx = [:: g 0%N; g 1%N].
Proof. case=> L [_ N]. case: dx L N => [|a [|b []]] // _ N. by have [->] := N 0%N ltac:(lia); have [->] := N 1%N ltac:(lia). Qed.
(** The energy stored in the coil and the capacitor changes by what the source brings in less
    what the resistance takes. *)
Theorem C112_energy r l c x0 x1 u : l != 0 -> c != 0 -> exists sys d0 d1, [/\ rlc_dt r l c = Ok sys, derivative sys [:: x0; x1] [:: u] = Ok [:: d0; d1] &
  l * x0 * d0 + c * x1 * d1 = u * x0 - r * x0 * x0].
Proof.
  move=> l0 c0. have [sys [E [HA HB _ _]]] := C112_rlc_dt r l0 c0. have [dx [ED V]] := derivative_ok x0 x1 u HA HB. rewrite (vec2 V) in ED.
  exists sys. do 2 eexists. split; [exact: E|exact: ED|]. rewrite [square]lock [pair]lock /= -!lock /=. by rewrite rlc_id !mulfV // rlc_dt_id.
Qed.
Theorem C112_ct_energy_refuted r l c x0 x1 u : l != 0 -> c != 0 -> exists sys d0 d1, [/\ rlc_ct r l c = Ok sys, derivative sys [:: x0; x1] [:: u] = Ok [:: d0; d1] &
  l * x0 * d0 + c * x1 * d1 = u * x0 - r * x0 * x0 + (x0 * x1 + x0 * x1)].
Proof.
  move=> l0 c0. have [sys [E [HA HB _ _]]] := C112_rlc_ct r l0 c0. have [dx [ED V]] := derivative_ok x0 x1 u HA HB. rewrite (vec2 V) in ED.
  exists sys. do 2 eexists. split; [exact: E|exact: ED|]. rewrite /=. by rewrite rlc_id !mulfV // rlc_ct_id.
Qed.
(** The same for the pendulum: the torque brings energy in and the friction takes it. *)
Theorem C112_pendulum_energy m l b g x0 x1 u : m != 0 -> l != 0 -> exists sys d0 d1, [/\ pendulum m l b g = Ok sys, derivative sys [:: x0; x1] [:: u] = Ok [:: d0; d1] &
  m * l * l * x1 * d1 + m * g * l * x0 * d0 = u * x1 - b * x1 * x1].
Proof.
  move=> m0 l0. have [sys [E [HA HB _ _]]] := C112_pendulum b g m0 l0. have [dx [ED V]] := derivative_ok x0 x1 u HA HB. rewrite (vec2 V) in ED.
  exists sys. do 2 eexists. split; [exact: E|exact: ED|]. rewrite /=. by rewrite pend_id !mulfV ?mulf_neq0 // pend_end.
Qed.
(** ** The characteristic polynomial, controllability and observability *)
Lemma det22 (f : nat -> nat -> R) : \det (fmx 2 2 f) = f 0%N 0%N * f 1%N 1%N - f 0%N 1%N * f 1%N 0%N.
Proof.
  rewrite (expand_det_row _ 0) !big_ord_recl big_ord0 addr0 /cofactor !det_mx11 !mxE /= expr0 expr1 mul1r mulN1r mulrN.
  by congr (_ - _).
Qed.
Lemma fits3 : fits 3. Proof. rewrite /fits /alloc_max; lia. Qed.
Theorem C112_poly r l c : l != 0 -> c != 0 -> exists sys, rlc_dt r l c = Ok sys /\ poly_m (mb_of_mat (sA sys)) = Ok [:: 1; r / l; 1 / (l * c)].
Proof.
  move=> l0 c0. have [sys [E [HA _ _ _]]] := C112_rlc_dt r l0 c0. exists sys. split=> //. have HM := is_mx_reads (is_mx_mat HA).
  have [|d [Ed]] := C59_char_poly HF HM fits3.
    move=> m /andP [Hm _]. split; first by case: HR. by rewrite pnatr_eq0 -lt0n (ltn_trans _ Hm).
  rewrite Ed. case=> L [_ N]. set P := char_poly _ in N. have e0 : P`_2 = 1 by apply: char_poly_top.
  have e1 : P`_1 = r / l by rewrite /P (char_poly_trace (fmx 2 2 _)) // /mxtrace !big_ord_recr big_ord0 /= !mxE /= add0r addr0 mulNr opprK.
  have e2 : P`_0 = 1 / (l * c) by rewrite /P char_poly_det det22 /= expr2 mulrNN !mul1r mulr0 add0r mulN1r mulNr opprK invfM.
  congr Ok. case: d L N {Ed} => [|x [|y [|z []]]] // _ N. have [->] := N 0%N ltac:(lia). have [->] := N 1%N ltac:(lia). have [->] := N 2%N ltac:(lia).
  by rewrite -[(2 - 0)%N]/2%N -[(2 - 1)%N]/1%N -[(2 - 2)%N]/0%N e0 e1 e2.
Qed.
(** The input reaches both states and the output shows both. *)
Theorem C112_controllable r l c : l != 0 -> c != 0 -> exists sys w o, [/\ rlc_dt r l c = Ok sys,
    ctrb (mb_of_mat (sA sys)) (mb_of_mat (sB sys)) = Ok w /\ is_mat w 2 2 (square (1 / l) (- r / l * (1 / l)) 0 (1 / c * (1 / l))),
    obsv (mb_of_mat (sA sys)) (mb_of_mat (sC sys)) = Ok o /\ is_mat o 2 2 (square 0 1 (1 / c) 0) &
    1 / l * (1 / c * (1 / l)) != 0 /\ 1 / c != 0].
Proof.
  move=> l0 c0. have [sys [E [HA HB HC _]]] := C112_rlc_dt r l0 c0.
  have MA := is_mx_reads (is_mx_mat HA). have MB := is_mx_reads (is_mx_mat HB). have MC := is_mx_reads (is_mx_mat HC).
  have S2 : shape_ok 2 2 by [].
  have [w [f [Ew Hw Qw]]] := C57_ctrb HO (q := 1) MA MB S2. have [o [g [Eo Ho Qo]]] := C57_obsv HO (p := 1) MA MC S2.
  exists sys, w, o. split=> //.
  - split=> //. apply: is_mat_ext; first exact: Hw. move=> i j /ssrnat.ltP Hi /ssrnat.ltP Hj.
    have -> : f i j = f i (j * 1 + 0)%N by rewrite muln1 addn0. rewrite Qw // -[X in mxf _ X _]/(val (Ordinal Hi)) -[0%N]/(val (0 : 'I_1)) mxfE.
    case: j Hj => [|[|j]] // _; [rewrite expr0 mul1mx|rewrite expr1]; rewrite mxE; case: i Hi => [|[|i]] // Hi; rewrite ?big_ord_recl ?big_ord0 ?mxE /= ?mulr0 ?addr0 //.
  - split=> //. apply: is_mat_ext; first exact: Ho. move=> i j /ssrnat.ltP Hi /ssrnat.ltP Hj.
    have -> : g i j = g (i * 1 + 0)%N j by rewrite muln1 addn0. rewrite Qo // -[X in mxf _ _ X]/(val (Ordinal Hj)) -[X in mxf _ X]/(val (0 : 'I_1)) mxfE.
    case: i Hi => [|[|i]] // _; [rewrite expr0 mulmx1|rewrite expr1]; rewrite mxE; case: j Hj => [|[|j]] // Hj; rewrite ?big_ord_recl ?big_ord0 ?mxE /= ?mul0r ?add0r ?mul1r ?addr0 //.
  - by rewrite !mul1r !mulf_neq0 ?invr_neq0.
Qed.
End Models.

(** * Cases *)
(** The components of the example programs, over the real algebraic numbers. *)
Definition cops : Ops realalg := realops 0.
Example C112_stable_case : exists sys f, [/\ rlc_dt (O := cops) 1 (2%:R^-1) (2%:R^-1) = Ok sys, is_mat (sA sys) 2 2 f & stable f].
Proof. apply: (C112_stable (realops_ok (0 : realalg))); rewrite ?invr_gt0 ?ltr0n ?ltr01 //. Qed.
Example C112_unstable_case : exists sys f x v0 v1, [/\ rlc_ct (O := cops) 1 (2%:R^-1) (2%:R^-1) = Ok sys, is_mat (sA sys) 2 2 f, 0 < x, (v0, v1) != (0, 0) :> realalg * realalg &
  f 0%N 0%N * v0 + f 0%N 1%N * v1 = x * v0 /\ f 1%N 0%N * v0 + f 1%N 1%N * v1 = x * v1].
Proof. apply: (C112_ct_unstable_refuted (realops_ok (0 : realalg))); rewrite ?invr_gt0 ?ltr0n ?ltr01 //. Qed.
(** Without an input the energy of sim_rlc_ct.cpp's circuit can grow: 2 - 1 at the state (1, 1). *)
Example C112_ct_energy_case : exists sys d0 d1, [/\ rlc_ct (O := cops) 1 (2%:R^-1) (2%:R^-1) = Ok sys, derivative (O := cops) sys [:: 1; 1] [:: 0] = Ok [:: d0; d1] &
  0 < 2%:R^-1 * 1 * d0 + 2%:R^-1 * 1 * d1].
Proof.
  have H2 : (2%:R^-1 : realalg) != 0 by rewrite invr_neq0 // pnatr_eq0.
  have [sys [d0 [d1 [E1 E2 E3]]]] := C112_ct_energy_refuted (realops_ok (0 : realalg)) 1 1 1 0 H2 H2.
  exists sys, d0, d1. split=> //. by rewrite E3 !mulr1 sub0r addrA addNr add0r ltr01.
Qed.
Example C112_pendulum_case : exists sys f, [/\ pendulum (O := cops) 3%:R 1 1 10%:R = Ok sys, is_mat (sA sys) 2 2 f & stable f].
Proof. apply: (C112_pendulum_stable (realops_ok (0 : realalg))); rewrite ?ltr0n ?ltr01 //. Qed.
