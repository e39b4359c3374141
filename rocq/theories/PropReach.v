(** PropReach.v: C121, what the results of ctrb and obsv say about the runs of simulate: which states
    inputs can reach, and which initial states the outputs can tell apart. *)
From Verif Require Import LinalgFacts2 MathFacts PropMatrix PropUtil PropMath RingM DetFacts PropLinalg PropRing Control ControlSpec ControlFacts PropControl PropCoord.
From mathcomp Require Import all_ssreflect all_algebra.
Set Implicit Arguments.
Unset Strict Implicit.
Unset Printing Implicit Defensive.
Import GRing.Theory.
Local Open Scope ring_scope.
Local Opaque simulate ctrb obsv.

(** * Runs can be interrupted and continued (any element type) *)
Section Restart.
Variables (T : Type) (O : Ops T).
Lemma traj_left n m (A B : nat -> nat -> T) fu fu1 x N : (forall k, (k < N)%N -> fu k = fu1 k) -> forall k, (k <= N)%N -> traj n m A B fu x k = traj n m A B fu1 x k.
Proof. move=> H. elim=> [|k IH] Hk //=. by rewrite IH ?H // ltnW. Qed.
Lemma traj_right n m (A B : nat -> nat -> T) fu fu2 x N : (forall k, fu (N + k)%N = fu2 k) -> forall k, traj n m A B fu x (N + k) = traj n m A B fu2 (traj n m A B fu x N) k.
Proof. move=> H. elim=> [|k IH] /=; first by rewrite addn0. by rewrite addnS /= IH H. Qed.
Lemma nth_lt X (l : seq X) k v : nth_error l k = Some v -> (k < length l)%N.
Proof. move=> E. apply/ssrnat.ltP. apply/nth_error_Some. by rewrite E. Qed.
Lemma nth_ge X (l : seq X) k : (length l <= k)%N -> nth_error l k = None.
Proof. move=> H. apply/nth_error_None. exact/ssrnat.leP. Qed.
(** The run on the inputs u1 followed by u2 is the run on u1 followed by the run on u2 from the last state. *)
Theorem C121_continue trunc (sys : DSS T) u1 u2 tm tm1 tm2 q q1 q2 K K1 K2 init n m p fA fB fC fD fx fu1 fu2 :
  is_mat (sA (dsys sys)) n n fA -> is_mat (sB (dsys sys)) n m fB -> is_mat (sC (dsys sys)) p n fC -> is_mat (sD (dsys sys)) p m fD ->
  is_vec init n fx -> inputs u1 m fu1 -> inputs u2 m fu2 -> fits p ->
  odiv tm (sample_time sys) = Ok q -> trunc q = Ok K -> (length u1 + length u2 <= K)%N ->
  odiv tm1 (sample_time sys) = Ok q1 -> trunc q1 = Ok K1 -> (length u1 <= K1)%N ->
  odiv tm2 (sample_time sys) = Ok q2 -> trunc q2 = Ok K2 -> (length u2 <= K2)%N ->
  exists t t1 t2 x1 xe x2 y1 y2, [/\ simulate trunc sys u1 tm1 init = Ok (t1, (x1 ++ [:: xe])%list, y1), simulate trunc sys u2 tm2 xe = Ok (t2, xe :: x2, y2),
    simulate trunc sys (u1 ++ u2)%list tm init = Ok (t, (x1 ++ xe :: x2)%list, (y1 ++ y2)%list) & length y1 = length u1 /\ length y2 = length u2].
Proof.
  move=> HA HB HC HD Hx Hu1 Hu2 Fp Hq HK LK Hq1 HK1 LK1 Hq2 HK2 LK2.
  pose N := length u1. pose fu k := if (k < N)%N then fu1 k else fu2 (k - N)%N.
  have F1 k : (k < N)%N -> fu k = fu1 k by rewrite /fu => ->.
  have F2 k : fu (N + k)%N = fu2 k by rewrite /fu ltnNge leq_addr addKn.
  have Hu : inputs (u1 ++ u2)%list m fu.
    move=> k v. case: (ltnP k N) => Hk; first by rewrite F1 // nth_error_app1; [exact: Hu1|exact/ssrnat.ltP].
    rewrite nth_error_app2; last exact/ssrnat.leP. rewrite -{2}(subnKC Hk) F2. exact: Hu2.
  have [t1 [x1 [y1 [E1 _ Lx1 Ly1 [S1 O1 _ _]]]]] := C61_simulate HA HB HC HD Hx Hu1 Fp Hq1 HK1.
  have M1 : Nat.min (length u1) K1 = N by apply: Nat.min_l; apply/ssrnat.leP. rewrite M1 in Lx1 Ly1 S1 O1.
  have [xe [Ee Ve]] := S1 N (leqnn N).
  have [t2 [x2 [y2 [E2 _ Lx2 Ly2 [S2 O2 _ _]]]]] := C61_simulate HA HB HC HD Ve Hu2 Fp Hq2 HK2.
  have M2 : Nat.min (length u2) K2 = length u2 by apply: Nat.min_l; apply/ssrnat.leP. rewrite M2 in Lx2 Ly2 S2 O2.
  have [t [x [y [E _ Lx Ly [S Oy _ _]]]]] := C61_simulate HA HB HC HD Hx Hu Fp Hq HK.
  have M : Nat.min (length (u1 ++ u2)%list) K = (N + length u2)%N by rewrite app_length; apply: Nat.min_l; apply/ssrnat.leP. rewrite M in Lx Ly S Oy.
  have TL k : (k <= N)%N -> traj n m fA fB fu fx k = traj n m fA fB fu1 fx k by exact: traj_left.
  have TR k : traj n m fA fB fu fx (N + k) = traj n m fA fB fu2 (traj n m fA fB fu1 fx N) k by rewrite (traj_right n m fA fB fx F2) TL.
  have [x1' [a Ex1]] : exists l a, x1 = (l ++ [:: a])%list.
    have N1 : x1 <> [::] by move=> Z; move: Lx1; rewrite Z.
    have [l [a Ea]] := exists_last N1. by exists l, a.
  have Lx1' : length x1' = N by move: Lx1; rewrite Ex1 app_length Nat.add_1_r => -[].
  have Ea : a = xe by move: Ee; rewrite Ex1 nth_error_app2 Lx1' // Nat.sub_diag => -[].
  subst a.
  have [v0 [Ev0 V0]] := S2 0%N (leq0n _).
  have [b [x2' Ex2]] : exists b l, x2 = b :: l by case: (x2) Lx2 => [|b l] // _; exists b, l.
  have Eb : b = xe by move: Ev0; rewrite Ex2 /= => -[->]; have V0e : is_vec v0 n (traj n m fA fB fu1 fx N) := V0; exact: (is_vec_unique _ _ _ _ V0e Ve).
  subst b.
  exists t, t1, t2, x1', xe, x2', y1, y2. split; [by rewrite -Ex1|by rewrite -Ex2| |by split].
  rewrite E. congr (Ok (_, _, _)).
  - apply: nth_error_ext => k. case: (leqP k N) => Hk.
      have [v [Ev Vv]] := S k (leq_trans Hk (leq_addr _ _)). have [w [Ew Vw]] := S1 k Hk. rewrite TL // in Vv.
      rewrite Ev (is_vec_unique _ _ _ _ Vv Vw) -Ew Ex1. case: (ltnP k N) => Hk'.
        rewrite !nth_error_app1 // Lx1'; exact/ssrnat.ltP.
      have -> : k = N by apply/eqP; rewrite eqn_leq Hk. by rewrite !nth_error_app2 Lx1' // Nat.sub_diag.
    rewrite nth_error_app2 Lx1'; last by apply/ssrnat.leP; exact: ltnW. rewrite -Ex2.
    have Ek := subnKC (ltnW Hk). case: (leqP (k - N) (length u2)) => H2.
      have [v [Ev Vv]] : exists v, nth_error x k = Some v /\ is_vec v n (traj n m fA fB fu fx k) by apply: S; rewrite -Ek leq_add2l.
      have [w [Ew Vw]] := S2 _ H2. rewrite -Ek TR in Vv. by rewrite Ev (is_vec_unique _ _ _ _ Vv Vw) -Ew.
    by rewrite !nth_ge // ?Lx ?Lx2 // -Ek -addnS leq_add2l.
  - apply: nth_error_ext => k. case: (ltnP k N) => Hk.
      have [v [Ev Vv]] := Oy k (leq_trans Hk (leq_addr _ _)). have [w [Ew Vw]] := O1 k Hk. rewrite /outp (F1 _ Hk) (TL _ (ltnW Hk)) in Vv.
      rewrite nth_error_app1; last by rewrite Ly1; exact/ssrnat.ltP. by rewrite Ev Ew (is_vec_unique _ _ _ _ Vv Vw).
    rewrite nth_error_app2 Ly1; last exact/ssrnat.leP. have Ek := subnKC Hk. case: (ltnP (k - N) (length u2)) => H2.
      have [v [Ev Vv]] : exists v, nth_error y k = Some v /\ is_vec v p (outp n m fA fB fC fD fu fx k) by apply: Oy; rewrite -Ek ltn_add2l.
      have [w [Ew Vw]] := O2 _ H2. rewrite -Ek /outp TR F2 in Vv. by rewrite Ev (is_vec_unique _ _ _ _ Vv Vw) -Ew.
    by rewrite !nth_ge // ?Ly ?Ly2 // -Ek leq_add2l.
Qed.
End Restart.

(** * Spans of the columns A^k B *)
Section Span.
Variables (F : fieldType) (n : nat) (A : 'M[F]_n.+1).
Lemma horner_sum (p : {poly F}) : horner_mx A p = \sum_(i < size p) p`_i *: A ^+ i.
Proof. rewrite -{1}[p]coefK poly_def rmorph_sum /=. apply: eq_bigr => i _. by rewrite linearZ /= rmorphX /= horner_mx_X. Qed.
(** A^(n+1+k) is a combination of lower powers. *)
Lemma pow_low k : exists c : nat -> F, A ^+ (n.+1 + k) = \sum_(i < n.+1) c i *: A ^+ (i + k).
Proof.
  exists (fun i => - (char_poly A)`_i). have := Cayley_Hamilton A. rewrite horner_sum size_char_poly big_ord_recr /=.
  have -> : (char_poly A)`_n.+1 = 1 by have := char_poly_monic A; rewrite monicE lead_coefE size_char_poly => /eqP.
  rewrite scale1r => /eqP. rewrite addrC addr_eq0 => /eqP H.
  rewrite exprD H mulNr mulr_suml -sumrN. apply: eq_bigr => i _. by rewrite exprD scaleNr scalerAl.
Qed.
(** A property of the matrices A^k that holds up to k = n and of combinations holds for all k. *)
Lemma pow_all (P : 'M[F]_n.+1 -> Prop) : P 0 -> (forall X Y, P X -> P Y -> P (X + Y)) -> (forall a X, P X -> P (a *: X)) ->
  (forall k, (k <= n)%N -> P (A ^+ k)) -> forall k, P (A ^+ k).
Proof.
  move=> P0 PD PZ Pn. have H b k : (k < b)%N -> P (A ^+ k).
    elim: b k => [|b IH] k //. rewrite ltnS => Hk. case: (leqP k n) => Hn; first exact: Pn.
    have [c] := pow_low (k - n.+1). rewrite subnKC // => ->. elim/big_ind: _ => // i _. apply: PZ. apply: IH.
    apply: leq_trans Hk. rewrite -{2}(subnKC Hn) ltn_add2r. exact: ltn_ord.
  move=> k. exact: (H k.+1).
Qed.
End Span.
Lemma sum_blocks (V : zmodType) a q (f : nat -> V) : \sum_(c < a * q) f c = \sum_(k < a) \sum_(j < q) f (k * q + j)%N.
Proof.
  elim: a => [|a IH]; first by rewrite mul0n !big_ord0. by rewrite mulSnr big_split_ord /= IH big_ord_recr.
Qed.
(** Block [k] of [q] elements of a vector. *)
Definition blk (F : fieldType) N q (W : 'cV[F]_N) (k : nat) : 'cV[F]_q := \col_j mxf W (k * q + j)%N 0%N.
Section Ctrb.
Variables (F : fieldType) (n q : nat) (A : 'M[F]_n.+1) (B : 'M[F]_(n.+1, q)) (Q : 'M[F]_(n.+1, n.+1 * q)).
Hypothesis HQ : forall k i j, (k <= n)%N -> (j < q)%N -> mxf Q i (k * q + j)%N = mxf (A ^+ k *m B) i j.
Lemma ctrb_sum (W : 'cV[F]_(n.+1 * q)) : Q *m W = \sum_(k < n.+1) A ^+ k *m B *m blk q W k.
Proof.
  apply/matrixP => i z. rewrite ord1 !mxE summxE.
  transitivity (\sum_(c < n.+1 * q) mxf Q i c * mxf W c 0%N).
    apply: eq_bigr => c _. by rewrite -[0%N]/(val (0 : 'I_1)) !mxfE.
  rewrite (sum_blocks n.+1 q (fun c => mxf Q i c * mxf W c 0%N)). apply: eq_bigr => k _. rewrite mxE. apply: eq_bigr => j _.
  rewrite HQ ?mxfE; [|by rewrite -ltnS; exact: ltn_ord|exact: ltn_ord]. by rewrite /blk mxE.
Qed.
Lemma blk_all (U : nat -> 'cV[F]_q) : exists W : 'cV[F]_(n.+1 * q), forall k, (k <= n)%N -> blk q W k = U k.
Proof.
  exists (\col_c mxf (U (Nat.div c q)) (Nat.modulo c q) 0%N). move=> k Hk. apply/matrixP => j z. rewrite ord1 !mxE.
  have Hj := ltn_ord j. have Hc : (k * q + j < n.+1 * q)%N.
    apply: leq_trans (_ : k * q + q <= _)%N; first by rewrite -addnS leq_add2l. by rewrite -mulSnr leq_mul2r ltnS Hk orbT.
  rewrite -[(k * q + j)%N]/(val (Ordinal Hc)) -[0%N]/(val (0 : 'I_1)) mxfE mxE /=.
  have [-> ->] := block_div k j q (elimT ssrnat.ltP Hj). by rewrite -[X in mxf _ _ X]/(val (0 : 'I_1)) mxfE.
Qed.
Lemma ctrb_one k (u : 'cV[F]_q) : exists W, A ^+ k *m B *m u = Q *m W.
Proof.
  apply: (@pow_all F n A (fun X => exists W, X *m B *m u = Q *m W)) => {k}.
  - exists 0. by rewrite !mul0mx mulmx0.
  - move=> X Y [W E] [W' E']. exists (W + W'). by rewrite !mulmxDl E E' mulmxDr.
  - move=> a X [W E]. exists (a *: W). by rewrite -!scalemxAl E scalemxAr.
  - move=> k Hk. have [W HW] := blk_all (fun i => if i == k then u else 0). exists W. rewrite ctrb_sum.
    have Hk' : (k < n.+1)%N by []. rewrite (bigD1 (Ordinal Hk')) //= HW // eqxx big1 ?addr0 // => i Hi.
    rewrite HW; last by rewrite -ltnS; exact: ltn_ord.
    have -> : (val i == k) = false by apply/eqP => E; move/eqP: Hi; apply; apply: val_inj.
    by rewrite mulmx0.
Qed.
Lemma ctrb_state (U : nat -> 'cV[F]_q) k : exists W, state A B U 0 k = Q *m W.
Proof.
  rewrite /state mulmx0 add0r. elim/big_ind: _ => [|x y [W ->] [W' ->]|j _]; [by exists 0; rewrite mulmx0|by exists (W + W'); rewrite mulmxDr|exact: ctrb_one].
Qed.
(** Inputs that lead to A^k x0 + Q W after k > n steps. *)
Lemma ctrb_input X0 W k : (n < k)%N -> exists U, state A B U X0 k = A ^+ k *m X0 + Q *m W.
Proof.
  move=> Hk. exists (fun j => if (k.-1 - j <= n)%N then blk q W (k.-1 - j) else 0). rewrite /state. congr (_ + _). rewrite ctrb_sum.
  case: k Hk => [|k] // Hk. rewrite [k.+1.-1]/=. rewrite (reindex_inj rev_ord_inj) /=.
  rewrite (eq_bigr (fun j : 'I_k.+1 => if (j <= n)%N then A ^+ j *m B *m blk q W j else 0)); last first.
    move=> j _. rewrite subSS subKn; last by rewrite -ltnS. by case: ifP => // _; rewrite mulmx0.
  have -> : k.+1 = (n.+1 + (k - n))%N by rewrite addSn subnKC.
  rewrite big_split_ord /= [X in _ + X]big1 ?addr0; last by move=> j _; have -> // : (n.+1 + j <= n)%N = false; apply/negbTE; rewrite -ltnNge addSn ltnS leq_addr.
  apply: eq_bigr => j _. have -> // : (j <= n)%N by rewrite -ltnS; exact: ltn_ord.
Qed.
End Ctrb.

Section Obsv.
Variables (F : fieldType) (n p : nat) (A : 'M[F]_n.+1) (C : 'M[F]_(p, n.+1)) (Q : 'M[F]_(n.+1 * p, n.+1)).
Hypothesis HQ : forall k i j, (k <= n)%N -> (i < p)%N -> mxf Q (k * p + i)%N j = mxf (C *m A ^+ k) i j.
Lemma obsv_apply (V : 'cV[F]_n.+1) k : (k <= n)%N -> blk p (Q *m V) k = C *m A ^+ k *m V.
Proof.
  move=> Hk. apply/matrixP => i z. rewrite ord1 mxE [RHS]mxE. have Hi := ltn_ord i.
  have Hc : (k * p + i < n.+1 * p)%N.
    apply: leq_trans (_ : k * p + p <= _)%N; first by rewrite -addnS leq_add2l. by rewrite -mulSnr leq_mul2r ltnS Hk orbT.
  rewrite -[(k * p + i)%N]/(val (Ordinal Hc)) -[0%N]/(val (0 : 'I_1)) mxfE mxE. apply: eq_bigr => j _.
  have := HQ j Hk Hi. rewrite -[(k * p + i)%N]/(val (Ordinal Hc)) mxfE => ->. by rewrite mxfE.
Qed.
Lemma blk_inj N (V W : 'cV[F]_(N * p)) : (forall k, (k < N)%N -> blk p V k = blk p W k) -> V = W.
Proof.
  move=> H. apply/matrixP => c z. rewrite ord1. have Hc := ltn_ord c. have Hp : (0 < p)%N by have := leq_ltn_trans (leq0n _) Hc; rewrite muln_gt0 => /andP [].
  have Hk : (c %/ p < N)%N by rewrite ltn_divLR. have Hj : (c %% p < p)%N by rewrite ltn_mod.
  have := congr1 (fun X : 'cV[F]_p => X (Ordinal Hj) 0) (H _ Hk). rewrite /blk !mxE /= -divn_eq. by rewrite -[0%N]/(val (0 : 'I_1)) !mxfE.
Qed.
(** Q V = 0 if and only if C A^k V = 0 for all k up to n, or for all k. *)
Lemma obsv_all (V : 'cV[F]_n.+1) : Q *m V = 0 -> forall k, C *m A ^+ k *m V = 0.
Proof.
  move=> E. apply: (@pow_all F n A (fun X => C *m X *m V = 0)).
  - by rewrite mulmx0 mul0mx.
  - move=> X Y H1 H2. by rewrite mulmxDr mulmxDl H1 H2 addr0.
  - move=> a X H1. by rewrite -scalemxAr -scalemxAl H1 scaler0.
  - move=> k Hk. rewrite -obsv_apply // E. apply/matrixP => i z. rewrite !mxE /mxf. by case: insub => [?|] //; case: insub => [?|] //; rewrite mxE.
Qed.
Lemma obsv_none (V : 'cV[F]_n.+1) : (forall k, (k <= n)%N -> C *m A ^+ k *m V = 0) -> Q *m V = 0.
Proof.
  move=> H. apply: blk_inj => k Hk. rewrite obsv_apply // H //. apply/matrixP => i z. rewrite !mxE /mxf. by case: insub => [?|] //; case: insub => [?|] //; rewrite mxE.
Qed.
End Obsv.

(** * Vectors and inputs with given elements *)
Section Lists.
Variables (F : fieldType).
Definition vlist n (V : 'cV[F]_n) : seq F := List.map (cvf V) (List.seq 0 n).
Lemma map_seq_nth X (f : nat -> X) n k : (k < n)%coq_nat -> nth_error (List.map f (List.seq 0 n)) k = Some (f k).
Proof.
  move=> Hk. rewrite nth_error_map (nth_error_nth' _ 0%N); last by rewrite seq_length. by rewrite seq_nth.
Qed.
Lemma vlist_is n (V : 'cV[F]_n) : fits n -> is_vec (vlist V) n (cvf V).
Proof. move=> Fn. split; [by rewrite map_length seq_length|split=> // i Hi; exact: map_seq_nth]. Qed.
Definition ulist m (U : nat -> 'cV[F]_m) (K : nat) : seq (seq F) := List.map (fun k => vlist (U k)) (List.seq 0 K).
Lemma ulist_is m (U : nat -> 'cV[F]_m) K : fits m -> inputs (ulist U K) m (fun k => cvf (U k)).
Proof.
  move=> Fm k v E. have Hk : (k < K)%coq_nat by have : (k < length (ulist U K))%coq_nat; [apply/nth_error_Some; rewrite E|rewrite map_length seq_length].
  move: E. rewrite /ulist map_seq_nth //. case=> <-. exact: vlist_is.
Qed.
Lemma ulist_len m (U : nat -> 'cV[F]_m) K : length (ulist U K) = K.
Proof. by rewrite map_length seq_length. Qed.
(** Any inputs of [m] elements are given by column vectors. *)
Lemma inputs_col u m fu : inputs u m fu -> exists U : nat -> 'cV[F]_m, inputs u m (fun k => cvf (U k)).
Proof.
  move=> Hu. exists (fun k => \col_i fu k i) => k v Ev. apply: is_vec_ext; first exact: Hu Ev.
  move=> i /ssrnat.ltP Hi. by rewrite -[i]/(val (Ordinal Hi)) cvfE mxE.
Qed.
Lemma vec_col n (l : seq F) : length l = n -> fits n -> exists V : 'cV[F]_n, is_vec l n (cvf V).
Proof.
  move=> L Fn. exists (\col_i nth 0 l i). split=> //. split=> // i Hi. have Hi' : (i < n)%N by apply/ssrnat.ltP.
  rewrite -[i in RHS]/(val (Ordinal Hi')) cvfE mxE /= (nth_error_nth' _ 0); last by rewrite L. congr Some.
  elim: l i {L Hi Hi'} => [|a l IH] [|i] //=.
Qed.
Lemma vec_is_col n (l : seq F) (V W : 'cV[F]_n) : is_vec l n (cvf V) -> is_vec l n (cvf W) -> V = W.
Proof.
  move=> HV HW. apply/matrixP => i z. rewrite ord1 -!cvfE. apply: (vec_fun HV HW). exact: ltn_ord.
Qed.
End Lists.

Lemma simulate_inv T (O : Ops T) trunc (sys : DSS T) u tm init r : simulate trunc sys u tm init = Ok r ->
  exists q K, odiv tm (sample_time sys) = Ok q /\ trunc q = Ok K.
Proof.
  Transparent simulate. rewrite /simulate. case E: (odiv tm (sample_time sys)) => [q| | | |] //=. case E': (trunc q) => [K| | | |] //= _. by exists q, K.
  Opaque simulate.
Qed.

(** * C121 *)
Section Runs.
Variables (F : fieldType) (O : Ops F).
Hypothesis HO : ringO O.
Variables (sys : DSS F) (n m p : nat).
Variables (A : 'M[F]_n.+1) (B : 'M[F]_(n.+1, m)) (C : 'M[F]_(p, n.+1)) (D : 'M[F]_(p, m)).
Hypothesis HA : is_mx (sA (dsys sys)) A.
Hypothesis HB : is_mx (sB (dsys sys)) B.
Hypothesis HC : is_mx (sC (dsys sys)) C.
Hypothesis HD : is_mx (sD (dsys sys)) D.
Lemma n_fits : fits n.+1.
Proof. have [_ [_ [[_ [_ H]] _]]] := HA. apply: fits_le H. apply/ssrnat.leP. exact: (@leq_pmulr n.+1 n.+1). Qed.
Lemma m_fits : fits m.
Proof. have [_ [_ [[_ [_ H]] _]]] := HB. apply: fits_le H. apply/ssrnat.leP. exact: (@leq_pmull m n.+1). Qed.
Lemma p_fits : fits p.
Proof. have [_ [_ [[_ [_ H]] _]]] := HC. apply: fits_le H. apply/ssrnat.leP. exact: (@leq_pmulr p n.+1). Qed.
Lemma zero_vec (z : seq F) : is_vec z n.+1 (fun _ => 0) -> is_vec z n.+1 (cvf (0 : 'cV[F]_n.+1)).
Proof. move=> H. apply: is_vec_ext; first exact: H. move=> i /ssrnat.ltP Hi. by rewrite -[i]/(val (Ordinal Hi)) cvfE mxE. Qed.
(** What a run that ends has computed. *)
Lemma run_is trunc u tm init t x y (X0 : 'cV[F]_n.+1) (U : nat -> 'cV[F]_m) : simulate trunc sys u tm init = Ok (t, x, y) ->
  is_vec init n.+1 (cvf X0) -> inputs u m (fun k => cvf (U k)) ->
  [/\ length x = (length y).+1, (length y <= length u)%N,
    forall k, (k <= length y)%N -> exists xk, nth_error x k = Some xk /\ is_vec xk n.+1 (cvf (state A B U X0 k)) &
    forall k, (k < length y)%N -> exists yk, nth_error y k = Some yk /\ is_vec yk p (cvf (C *m state A B U X0 k + D *m U k))].
Proof.
  move=> E Hx Hu. have [q [K [Hq HK]]] := simulate_inv E.
  have [t' [x' [y' [E' Lt Lx Ly [Q1 Q2 _ _]]]]] := C61_closed_form HO HA HB HC HD Hx Hu p_fits Hq HK. move: E'. rewrite E => -[Et Ex Ey]. subst t' x' y'.
  rewrite Lx Ly. split=> //. apply/ssrnat.leP. exact: Nat.le_min_l.
Qed.
Lemma run_to trunc tm q K (X0 : 'cV[F]_n.+1) (U : nat -> 'cV[F]_m) init : odiv tm (sample_time sys) = Ok q -> trunc q = Ok K ->
  is_vec init n.+1 (cvf X0) -> exists t x y xk, [/\ simulate trunc sys (ulist U K) tm init = Ok (t, x, y), length x = K.+1, nth_error x K = Some xk & is_vec xk n.+1 (cvf (state A B U X0 K))].
Proof.
  move=> Hq HK Hx. have [t [x [y [E Lt Lx Ly [Q1 Q2 _ _]]]]] := C61_closed_form HO HA HB HC HD Hx (@ulist_is F m U K m_fits) p_fits Hq HK.
  rewrite ulist_len Nat.min_id in Lx Q1. have [xk [E1 V1]] := Q1 K (leqnn K). by exists t, x, y, xk.
Qed.

(** ** ctrb: the states that inputs can reach *)
Section Reach.
Hypothesis Hs : shape_ok n.+1 (n.+1 * m).
Variables (ct : Mat.Matrix F) (Q : 'M[F]_(n.+1, n.+1 * m)).
Hypothesis Ect : ctrb (mb_of_mat (sA (dsys sys))) (mb_of_mat (sB (dsys sys))) = Ok ct.
Hypothesis HQ : is_mx ct Q.
Lemma ctrb_HQ k i j : (k <= n)%N -> (j < m)%N -> mxf Q i (k * m + j)%N = mxf (A ^+ k *m B) i j.
Proof.
  move=> Hk Hj. have [ct' [f [E H1 H2]]] := C57_ctrb HO (is_mx_reads HA) (is_mx_reads HB) Hs. move: E. rewrite Ect => -[E]. subst ct'.
  rewrite (is_mx_fun HQ (is_mx_mat H1)). case: (ltnP i n.+1) => Hi; last by rewrite !mxf_out // ltnNge Hi.
  rewrite mxf_fmx ?H2 //. apply: leq_trans (_ : k * m + m <= _)%N; first by rewrite -addnS leq_add2l. by rewrite -mulSnr leq_mul2r ltnS Hk orbT.
Qed.
(** From the zero state, every state of every run is ctrb(A, B) times some vector. *)
Theorem C121_reachable trunc u fu tm z t x y xk : inputs u m fu -> is_vec z n.+1 (fun _ => 0) -> simulate trunc sys u tm z = Ok (t, x, y) -> In xk x ->
  exists W, is_vec xk n.+1 (cvf (Q *m W)).
Proof.
  move=> Hu Hz E Hin. have [U HU] := inputs_col Hu. have [L1 L2 Q1 _] := run_is E (zero_vec Hz) HU.
  have [k Ek] := In_nth_error _ _ Hin. have Hk : (k <= length y)%N by rewrite -ltnS -L1; apply/ssrnat.ltP; apply/nth_error_Some; rewrite Ek.
  have [xk' [Ek' V]] := Q1 k Hk. move: Ek'. rewrite Ek => -[E1]. subst xk'. have [W EW] := ctrb_state ctrb_HQ U k. exists W. by rewrite -EW.
Qed.
(** Any such vector can be added to what the initial state would become after more than n steps without input. *)
Theorem C121_steer_by trunc tm q K init (X0 : 'cV[F]_n.+1) W : odiv tm (sample_time sys) = Ok q -> trunc q = Ok K -> (n < K)%N -> is_vec init n.+1 (cvf X0) ->
  exists u fu t x y xk, [/\ inputs u m fu, length u = K, simulate trunc sys u tm init = Ok (t, x, y), nth_error x K = Some xk &
    is_vec xk n.+1 (cvf (A ^+ K *m X0 + Q *m W))].
Proof.
  move=> Hq HK Hn Hx. have [U EU] := ctrb_input ctrb_HQ X0 W Hn. have [t [x [y [xk [E L1 Ek V]]]]] := run_to U Hq HK Hx.
  exists (ulist U K), (fun k => cvf (U k)), t, x, y, xk. rewrite -EU. split=> //; [exact: ulist_is m_fits|exact: ulist_len].
Qed.
(** Full rank: in any number of steps above n, some inputs lead from any state to any state. *)
Theorem C121_steer trunc tm q K init x1 : \rank Q = n.+1 -> odiv tm (sample_time sys) = Ok q -> trunc q = Ok K -> (n < K)%N -> length init = n.+1 -> length x1 = n.+1 ->
  exists u fu t x y, [/\ inputs u m fu, length u = K, simulate trunc sys u tm init = Ok (t, x, y) & nth_error x K = Some x1].
Proof.
  move=> HR Hq HK Hn L0 L1. have [X0 H0] := vec_col L0 n_fits. have [X1 H1] := vec_col L1 n_fits.
  have [u [fu [t [x [y [xk [H2 H3 H4 H5 V]]]]]]] := C121_steer_by (pinvmx Q *m (X1 - A ^+ K *m X0)) Hq HK Hn H0.
  exists u, fu, t, x, y. split=> //. rewrite H5. congr Some. apply: is_vec_unique V _. 
  rewrite mulmxA mulmxVp ?mul1mx; last by rewrite /row_free HR. by rewrite addrC subrK.
Qed.
(** Otherwise some state is out of reach of the zero state, whatever the inputs and however long the run. *)
Theorem C121_out_of_reach : \rank Q <> n.+1 -> exists x1, length x1 = n.+1 /\
  forall trunc u fu tm z t x y, inputs u m fu -> is_vec z n.+1 (fun _ => 0) -> simulate trunc sys u tm z = Ok (t, x, y) -> ~ In x1 x.
Proof.
  move=> HR. have [j Hj] : exists j : 'I_n.+1, ~~ (row j (1%:M : 'M[F]_n.+1) <= Q^T)%MS.
    apply/existsP. rewrite -negb_forall. apply/negP => /forallP H. apply: HR. apply/eqP. rewrite -mxrank_tr eqn_leq rank_leq_col /=.
    have : (1%:M <= Q^T)%MS by apply/row_subP. by move/mxrankS; rewrite mxrank1.
  exists (vlist (delta_mx j 0 : 'cV[F]_n.+1)). split; first by rewrite map_length seq_length.
  move=> trunc u fu tm z t x y Hu Hz E Hin. have [W HW] := C121_reachable Hu Hz E Hin. move/negP: Hj; apply.
  have EW := vec_is_col HW (vlist_is _ n_fits). apply/submxP. exists W^T. rewrite -trmx_mul EW trmx_delta. by rewrite rowE mulmx1.
Qed.
End Reach.

(** ** obsv: the initial states that outputs tell apart *)
Section Observe.
Hypothesis Hs : shape_ok (n.+1 * p) n.+1.
Variables (ob : Mat.Matrix F) (Q : 'M[F]_(n.+1 * p, n.+1)).
Hypothesis Eob : obsv (mb_of_mat (sA (dsys sys))) (mb_of_mat (sC (dsys sys))) = Ok ob.
Hypothesis HQ : is_mx ob Q.
Lemma obsv_HQ k i j : (k <= n)%N -> (i < p)%N -> mxf Q (k * p + i)%N j = mxf (C *m A ^+ k) i j.
Proof.
  move=> Hk Hi. have [ob' [f [E H1 H2]]] := C57_obsv HO (is_mx_reads HA) (is_mx_reads HC) Hs. move: E. rewrite Eob => -[E]. subst ob'.
  rewrite (is_mx_fun HQ (is_mx_mat H1)). case: (ltnP j n.+1) => Hj; last by rewrite !mxf_out // negb_and -[X in _ || X]leqNgt Hj orbT.
  rewrite mxf_fmx ?H2 //. apply: leq_trans (_ : k * p + p <= _)%N; first by rewrite -addnS leq_add2l. by rewrite -mulSnr leq_mul2r ltnS Hk orbT.
Qed.
Lemma out_diff (U : nat -> 'cV[F]_m) X0 X0' k : C *m state A B U X0 k + D *m U k - (C *m state A B U X0' k + D *m U k) = C *m A ^+ k *m (X0 - X0').
Proof. by rewrite opprD addrACA subrr addr0 -mulmxBr /state opprD addrACA subrr addr0 -mulmxBr mulmxA. Qed.
Lemma out_agree trunc u fu tm init init' (X0 X0' : 'cV[F]_n.+1) t x y t' x' y' k : inputs u m fu -> is_vec init n.+1 (cvf X0) -> is_vec init' n.+1 (cvf X0') ->
  simulate trunc sys u tm init = Ok (t, x, y) -> simulate trunc sys u tm init' = Ok (t', x', y') -> (k < length y)%N ->
  nth_error y k = nth_error y' k <-> C *m A ^+ k *m (X0 - X0') = 0.
Proof.
  move=> Hu Hx Hx' E E' Hk. have [U HU] := inputs_col Hu. have [q [K [Hq HK]]] := simulate_inv E.
  have [t1 [x1 [y1 [E1 _ _ Ly [_ Q2 _ _]]]]] := C61_closed_form HO HA HB HC HD Hx HU p_fits Hq HK. move: E1. rewrite E => -[_ _ Ey]. subst y1.
  have [t2 [x2 [y2 [E2 _ _ Ly' [_ Q2' _ _]]]]] := C61_closed_form HO HA HB HC HD Hx' HU p_fits Hq HK. move: E2. rewrite E' => -[_ _ Ey]. subst y2.
  rewrite Ly in Hk. have [yk [-> V]] := Q2 k Hk. have [yk' [-> V']] := Q2' k Hk. rewrite -(out_diff U). split.
    case=> Ey. subst yk'. rewrite (vec_is_col V V') subrr. by [].
  move=> /eqP. rewrite subr_eq0 => /eqP Ed. congr Some. apply: is_vec_unique V _. by rewrite Ed.
Qed.
Lemma out_len trunc u tm init init' t x y t' x' y' fu : inputs u m fu -> length init = n.+1 -> length init' = n.+1 ->
  simulate trunc sys u tm init = Ok (t, x, y) -> simulate trunc sys u tm init' = Ok (t', x', y') -> length y = length y'.
Proof.
  move=> Hu L L' E E'. have [U HU] := inputs_col Hu. have [q [K [Hq HK]]] := simulate_inv E. have [X0 Hx] := vec_col L n_fits. have [X0' Hx'] := vec_col L' n_fits.
  have [t1 [x1 [y1 [E1 _ _ Ly _]]]] := C61_closed_form HO HA HB HC HD Hx HU p_fits Hq HK. move: E1. rewrite E => -[_ _ Ey]. subst y1.
  have [t2 [x2 [y2 [E2 _ _ Ly' _]]]] := C61_closed_form HO HA HB HC HD Hx' HU p_fits Hq HK. move: E2. rewrite E' => -[_ _ Ey]. subst y2.
  by rewrite Ly.
Qed.
(** Two runs with the same inputs and more than n outputs give the same outputs if and only if obsv(A, C) takes
    their initial states to the same vector. *)
Theorem C121_outputs trunc u fu tm init init' (X0 X0' : 'cV[F]_n.+1) t x y t' x' y' : inputs u m fu -> is_vec init n.+1 (cvf X0) -> is_vec init' n.+1 (cvf X0') ->
  simulate trunc sys u tm init = Ok (t, x, y) -> simulate trunc sys u tm init' = Ok (t', x', y') -> (n < length y)%N ->
  y = y' <-> Q *m X0 = Q *m X0'.
Proof.
  move=> Hu Hx Hx' E E' Hn. have L := out_len Hu (proj1 Hx) (proj1 Hx') E E'. have G := out_agree Hu Hx Hx' E E'. split=> H.
    apply/eqP. rewrite -subr_eq0 -mulmxBr. apply/eqP. apply: (obsv_none obsv_HQ) => k Hk. apply/(G k); last by rewrite H. exact: leq_trans Hn.
  apply: nth_error_ext => k. case: (ltnP k (length y)) => Hk.
    apply/(G k Hk). apply: (obsv_all obsv_HQ). by rewrite mulmxBr H subrr.
  by rewrite !(proj2 (nth_error_None _ _)) // -?L; apply/ssrnat.leP.
Qed.
(** Full rank: the first n + 1 outputs determine the initial state. *)
Theorem C121_observable trunc u fu tm init init' t x y t' x' y' : \rank Q = n.+1 -> inputs u m fu -> length init = n.+1 -> length init' = n.+1 ->
  simulate trunc sys u tm init = Ok (t, x, y) -> simulate trunc sys u tm init' = Ok (t', x', y') -> (n < length y)%N ->
  (forall k, (k <= n)%N -> nth_error y k = nth_error y' k) -> init = init'.
Proof.
  move=> HR Hu L L' E E' Hn H. have [X0 Hx] := vec_col L n_fits. have [X0' Hx'] := vec_col L' n_fits. have G := out_agree Hu Hx Hx' E E'.
  have Z : Q *m (X0 - X0') = 0 by apply: (obsv_none obsv_HQ) => k Hk; apply/(G k); [exact: leq_trans Hn|exact: H].
  have EX : X0 = X0'.
    apply/eqP. rewrite -subr_eq0. have := congr1 (mulmx (pinvmx Q)) Z. by rewrite mulmxA mulVpmx ?mul1mx ?mulmx0 /row_full ?HR // => ->.
  apply: is_vec_unique Hx _. by rewrite EX.
Qed.
(** Otherwise two initial states give the same outputs for all inputs and however long the run. *)
Theorem C121_blind : \rank Q <> n.+1 -> exists init init', [/\ length init = n.+1, length init' = n.+1, init <> init' &
  forall trunc u fu tm t x y t' x' y', inputs u m fu -> simulate trunc sys u tm init = Ok (t, x, y) -> simulate trunc sys u tm init' = Ok (t', x', y') -> y = y'].
Proof.
  move=> HR. have [V [HV NV]] : exists V : 'cV[F]_n.+1, Q *m V = 0 /\ V != 0.
    have Hk : kermx Q^T != 0. { rewrite -mxrank_eq0 mxrank_ker mxrank_tr subn_eq0 -ltnNge ltn_neqAle rank_leq_col andbT. by apply/eqP. }
    have [i Hi] : exists i, row i (kermx Q^T) != 0 by apply/existsP; rewrite -negb_forall; apply: contra Hk => /forallP H; apply/eqP/row_matrixP => i; rewrite row0; apply/eqP.
    exists (row i (kermx Q^T))^T. split; last by rewrite -(inj_eq (@trmx_inj _ _ _)) trmxK trmx0.
    apply: (@trmx_inj). by rewrite trmx_mul trmxK -row_mul mulmx_ker row0 trmx0.
  exists (vlist V), (vlist (0 : 'cV[F]_n.+1)). have H1 := vlist_is V n_fits. have H2 := vlist_is (0 : 'cV[F]_n.+1) n_fits.
  split; [exact: (proj1 H1)|exact: (proj1 H2)| |].
    move=> E. rewrite E in H1. by rewrite (vec_is_col H1 H2) eqxx in NV.
  move=> trunc u fu tm t x y t' x' y' Hu E E'. have G := out_agree Hu H1 H2 E E'. have L := out_len Hu (proj1 H1) (proj1 H2) E E'.
  apply: nth_error_ext => k. case: (ltnP k (length y)) => Hk.
    apply/(G k Hk). apply: (obsv_all obsv_HQ). by rewrite subr0.
  by rewrite !(proj2 (nth_error_None _ _)) // -?L; apply/ssrnat.leP.
Qed.
End Observe.

(** ** The response to an impulse *)
Theorem C121_impulse trunc u tm z t x y j : (j < m)%N -> inputs u m (fun k i => if (k == 0%N) && (i == j) then 1 else 0) -> is_vec z n.+1 (fun _ => 0) ->
  simulate trunc sys u tm z = Ok (t, x, y) ->
  (forall y0, nth_error y 0 = Some y0 -> is_vec y0 p (fun i => mxf D i j)) /\
  forall k yk, nth_error y k.+1 = Some yk -> is_vec yk p (fun i => mxf (C *m A ^+ k *m B) i j).
Proof.
  move=> Hj Hu Hz E. pose ej : 'cV[F]_m := delta_mx (Ordinal Hj) 0. pose U (k : nat) := if k == 0%N then ej else 0.
  have HU : inputs u m (fun k => cvf (U k)).
    move=> k v Ev. apply: is_vec_ext; first exact: Hu Ev. move=> i /ssrnat.ltP Hi. rewrite -[i in RHS]/(val (Ordinal Hi)) cvfE /U.
    case: (k == 0%N) => /=; rewrite mxE //= andbT. rewrite -val_eqE /=. by case: (i == j).
  have [L1 L2 _ Q2] := run_is E (zero_vec Hz) HU.
  have col_j r (X : 'M[F]_(r, m)) i : (i < r)%N -> cvf (X *m ej) i = mxf X i j.
    move=> Hi. rewrite -[i]/(val (Ordinal Hi)) cvfE -colE mxE. by rewrite -[j]/(val (Ordinal Hj)) mxfE.
  have S k : state A B U 0 k.+1 = A ^+ k *m B *m ej.
    rewrite /state mulmx0 add0r (bigD1 ord0) //= subn0 /U eqxx big1 ?addr0 // => i Hi.
    have -> : (val i == 0%N) = false by apply/eqP => E0; move/eqP: Hi; apply; apply: val_inj. by rewrite mulmx0.
  have Hlt k yk : nth_error y k = Some yk -> (k < length y)%N by move=> Ek; apply/ssrnat.ltP; apply/nth_error_Some; rewrite Ek.
  split=> [y0 E0|k yk Ek].
    have [y0' [E0' V]] := Q2 0%N (Hlt _ _ E0). move: E0'. rewrite E0 => -[E1]. subst y0'. apply: is_vec_ext; first exact: V. move=> i /ssrnat.ltP Hi.
    by rewrite /state mulmx0 big_ord0 addr0 mulmx0 add0r /U eqxx col_j.
  have [yk' [Ek' V]] := Q2 k.+1 (Hlt _ _ Ek). move: Ek'. rewrite Ek => -[E1]. subst yk'. apply: is_vec_ext; first exact: V. move=> i /ssrnat.ltP Hi.
  by rewrite S /U /= mulmx0 addr0 !mulmxA col_j.
Qed.
End Runs.
