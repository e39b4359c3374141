(** PropReal.v: properties over ordered fields: linspace (C28), norms (C40),
    log2_ceil (C43). *)
From Verif Require Import MathFacts Util UtilFacts2 PropUtil MathM RingM DetFacts RatOps.
From mathcomp Require Import all_ssreflect all_algebra realalg.
Set Implicit Arguments.
Unset Strict Implicit.
Unset Printing Implicit Defensive.
Import Order.Theory GRing.Theory Num.Theory.
Local Open Scope ring_scope.

(** The element type's arithmetic and order are those of the ordered field F. *)
Definition realO (F : realFieldType) (O : Ops F) : Prop :=
  [/\ fieldO O, (forall x y, olt x y = (x < y)), (forall x y, ole x y = (x <= y)) & (forall n, ofnat n = n%:R :> F)].

(** * C28 *)
Section Linspace.
Variable F : realFieldType.
Variable O : Ops F.
Hypothesis HO : realO O.

(** First element [start], last element [stop], all steps equal to (stop-start)/(n-1):
    increasing and decreasing. *)
Theorem C28_linspace_exact : forall (start stop : F) n, (2 <= n)%N -> fits n -> ofeq start stop = false ->
  exists d f, [/\ linspace start stop n = Ok d, is_vec d n f, f 0%N = start, f n.-1 = stop &
    forall i, (i.+1 < n)%N -> f i.+1 - f i = (stop - start) / n.-1%:R].
Proof.
  move=> start stop n Hn Hf Hne. case: HO => -[HR HD _] Hlt _ Hnat.
  have Hn1 : (n - 1)%coq_nat = n.-1 by rewrite -subn1.
  have N0 : n.-1%:R != 0 :> F by rewrite pnatr_eq0; case: n Hn {Hf Hn1} => [|[|n]].
  have HL : (2 <= n)%coq_nat by apply/ssrnat.leP.
  have [H1 H2] := C28_linspace_elements start stop n HL Hf Hne.
  destruct (olt start stop) eqn:L.
  - have E : odiv (osub stop start) (ofnat (n - 1)%coq_nat) = Ok ((stop - start) / n.-1%:R).
      by rewrite Hnat Hn1 (osubE HR) HD.
    have [d [Ed Hd]] := H1 erefl _ E. exists d, (fun i => start + (stop - start) / n.-1%:R * i%:R). split=> //.
    + apply: is_vec_ext; first exact: Hd. by move=> i _ /=; rewrite (oaddE HR) (omulE HR) Hnat.
    + by rewrite mulr0 addr0.
    + by rewrite divfK // addrCA subrr addr0.
    + move=> i _. by rewrite opprD addrACA subrr add0r -mulrBr -natrB // subSnn mulr1.
  - have E : odiv (osub start stop) (ofnat (n - 1)%coq_nat) = Ok ((start - stop) / n.-1%:R).
      by rewrite Hnat Hn1 (osubE HR) HD.
    have [d [Ed Hd]] := H2 erefl _ E. exists d, (fun i => start - (start - stop) / n.-1%:R * i%:R). split=> //.
    + apply: is_vec_ext; first exact: Hd. by move=> i _ /=; rewrite (osubE HR) (omulE HR) Hnat.
    + by rewrite mulr0 subr0.
    + by rewrite divfK // opprB addrCA subrr addr0.
    + move=> i _. have -> : (stop - start) / n.-1%:R = - ((start - stop) / n.-1%:R) by rewrite -mulNr opprB.
      by rewrite mulrSr mulrDr mulr1 opprB addrC addrA subrK opprD addrA subrr add0r.
Qed.
End Linspace.
Lemma near_eq (F : realFieldType) (t : F) : 0 < t -> `|1 - (1 + t)| <= t * Num.max `|1| `|1 + t|.
Proof.
  move=> H0. rewrite opprD addrA subrr add0r normrN (gtr0_norm H0) normr1.
  have P : 0 < 1 + t by exact: (addr_gt0 ltr01 H0).
  rewrite (gtr0_norm P) max_r; last by rewrite ler_addl ltW.
  by rewrite ler_pmulr // ler_addl ltW.
Qed.
(** With the tolerance of feq, start and stop that differ by a relative 1e-6 or less
    count as equal: the first element is then [stop], not [start]. *)
Theorem C28_nearly_equal_refuted : forall n, (1 <= n)%N -> fits n ->
  exists (start stop : rat) d, [/\ start < stop, linspace start stop n = Ok d & forall i, (i < n)%N -> List.nth_error d i = Some stop].
Proof.
  move=> n Hn Hf. have /andP [H0 H1] := rtol_lt1.
  exists 1, (1 + rtol), (List.repeat (1 + rtol) n). split.
  - rewrite ltr_addl. exact: H0.
  - have [_ [_ H]] := C28_linspace_degenerate (1 : rat) (1 + rtol) n Hf. apply: H; first exact/ssrnat.leP.
    exact: near_eq H0.
  - move=> i /ssrnat.ltP Hi. exact: nth_error_repeat_lt.
Qed.

(** * C40.  U is the real type of the element type T; [sq] is the squared modulus,
    [ab] the absolute value, [nsqrt] the square root. *)
Section Norms.
Variable U : realFieldType.
Variable OU : Ops U.
Hypothesis HU : realO OU.
Let HR : ringO OU. Proof. by case: HU => -[]. Qed.
Let Hlt x y : olt x y = (x < y) :> bool. Proof. by case: HU. Qed.
Variables (T : Type) (sq ab : T -> U).
Hypothesis ab0 : forall x, 0 <= ab x.
Variable nsqrt : U -> U.

Lemma sum_range lo hi (body : nat -> U -> Res U) (g : nat -> U) s :
  (forall i s, (lo <= i < hi)%N -> body i s = Ok (oadd s (g i))) ->
  for_range lo hi body s = Ok (s + \sum_(lo <= i < hi) g i).
Proof.
  move=> Hb. case: (leqP lo hi) => L; last first.
    rewrite for_range_empty; last by apply/ssrnat.leP; apply: ltnW.
    by rewrite big_geq ?addr0 // ltnW.
  have [||s' [E Q]] := for_range_inv (fun k a => a = s + \sum_(lo <= i < k) g i) lo hi body s
    (elimT ssrnat.leP L); last by rewrite -Q.
  - by rewrite big_geq // addr0.
  - move=> i a [/ssrnat.leP Hi1 /ssrnat.ltP Hi2] ->. rewrite Hb ?Hi1 //. eexists. split; first by [].
    by rewrite (oaddE HR) big_nat_recr //= addrA.
Qed.
(** Folding with "keep the larger" gives the largest. *)
Lemma max_range lo hi (body : nat -> U -> Res U) (g : nat -> U) s : (lo <= hi)%N ->
  (forall i s, (lo <= i < hi)%N -> body i s = Ok (if olt s (g i) then g i else s)) ->
  exists x, [/\ for_range lo hi body s = Ok x, s <= x, (forall i, (lo <= i < hi)%N -> g i <= x) &
    x = s \/ exists i, (lo <= i < hi)%N /\ x = g i].
Proof.
  move=> L Hb.
  have [||x [E [H1 H2 H3]]] := for_range_inv (fun k x => [/\ s <= x, (forall i, (lo <= i < k)%N -> g i <= x) &
    x = s \/ exists i, (lo <= i < k)%N /\ x = g i]) lo hi body s (elimT ssrnat.leP L); last by exists x.
  - split=> //; last by left. move=> i /andP [A B]. by move: (leq_trans B A); rewrite ltnn.
  - move=> i x [/ssrnat.leP Hi1 /ssrnat.ltP Hi2] [Q1 Q2 Q3]. rewrite Hb ?Hi1 // Hlt.
    eexists. split; first by []. case: ltP => Hx; split.
    + exact: le_trans Q1 (ltW Hx).
    + move=> k /andP [K1]. rewrite ltnS leq_eqVlt => /orP [/eqP -> //|K2]. apply: le_trans (ltW Hx). apply: Q2. by rewrite K1.
    + right. exists i. by rewrite Hi1 ltnSn.
    + exact: Q1.
    + move=> k /andP [K1]. rewrite ltnS leq_eqVlt => /orP [/eqP -> //|K2]. apply: Q2. by rewrite K1.
    + case: Q3 => [->|[k [/andP [K1 K2] ->]]]; [by left|right]. exists k. by rewrite K1 ltnW.
Qed.

(** square_norm: the square root of the sum of the squares. *)
Theorem C40_square_norm_vector : forall (v : list T) n f, is_vec v n f ->
  square_norm_v sq nsqrt v = Ok (nsqrt (\sum_(i < n) sq (f i))).
Proof.
  move=> v n f H. have [El _] := H. rewrite /square_norm_v El (o0E HR).
  rewrite (@sum_range _ _ _ (fun i => sq (f i))).
    by rewrite /= add0r big_mkord.
  move=> i s /andP [_ /ssrnat.ltP Hi]. by rewrite (is_vec_get _ _ _ _ H).
Qed.
Theorem C40_square_norm_matrix : forall (A : MB T) r c f, reads A r c f ->
  square_norm_m sq nsqrt A = Ok (nsqrt (\sum_(i < r) \sum_(j < c) sq (f i j))).
Proof.
  move=> A r c f [Er [Ec [_ [_ Hg]]]]. rewrite /square_norm_m Er Ec (o0E HR).
  rewrite (@sum_range _ _ _ (fun i => \sum_(j < c) sq (f i j))).
    by rewrite /= add0r big_mkord.
  move=> i s /andP [_ /ssrnat.ltP Hi]. rewrite (@sum_range _ _ _ (fun j => sq (f i j))).
    by rewrite (oaddE HR) big_mkord.
  move=> j s' /andP [_ /ssrnat.ltP Hj]. by rewrite Hg.
Qed.
Theorem C40_vector_length : forall (A : MB T) r c f j r0 r1, reads A r c f -> (j < c)%N ->
  vector_length sq nsqrt A j r0 r1 = Ok (nsqrt (\sum_(r0 <= i < minn r1 r) sq (f i j))).
Proof.
  move=> A r c f j r0 r1 [Er [Ec [_ [_ Hg]]]] /ssrnat.ltP Hj. rewrite /vector_length Er (o0E HR).
  have -> : Nat.min r1 r = minn r1 r.
    case: (leqP r1 r) => H; [apply: Nat.min_l|apply: Nat.min_r]; apply/ssrnat.leP; [exact: H|exact: ltnW].
  rewrite (@sum_range _ _ _ (fun i => sq (f i j))); first by rewrite /= add0r.
  move=> i s /andP [_]. rewrite leq_min => /andP [_ /ssrnat.ltP Hi]. by rewrite Hg.
Qed.
(** infinity_norm of a vector: the largest absolute value; 0 if the vector is empty. *)
Theorem C40_infinity_norm_vector : forall (v : list T) n f, is_vec v n f ->
  (n = 0%N -> infinity_norm_v ab v = Ok 0) /\
  ((0 < n)%N -> exists x, [/\ infinity_norm_v ab v = Ok x, (forall i, (i < n)%N -> ab (f i) <= x) &
     exists i, (i < n)%N /\ x = ab (f i)]).
Proof.
  move=> v n f H. have [El _] := H. rewrite /infinity_norm_v El. split=> [->|Hn]; first by rewrite /= (o0E HR).
  destruct (Nat.eqb_spec n 0) as [E|_]; first by rewrite E in Hn.
  rewrite (is_vec_get _ _ _ _ H (elimT ssrnat.ltP Hn)) [bind _ _]/=.
  have [|x [E H1 H2 H3]] := @max_range 1 n (fun i mx => let* x := lget v i in Ok (if olt mx (ab x) then ab x else mx)) (fun i => ab (f i)) (ab (f 0%N)) Hn; last first.
    exists x. split; first exact: E.
    - case=> [_|i Hi]; [exact: H1|exact: H2].
    - case: H3 => [->|[i [/andP [_ Hi] ->]]]; [by exists 0%N|by exists i].
  move=> i s /andP [_ /ssrnat.ltP Hi]. by rewrite (is_vec_get _ _ _ _ H).
Qed.
(** infinity_norm of a Matrix: the largest row sum of absolute values; 0 if it is empty. *)
Theorem C40_infinity_norm_matrix : forall (m : Mat.Matrix T) r c f, is_mat m r c f ->
  ((r * c)%N = 0%N -> infinity_norm_m ab (mb_of_mat m) = Ok 0) /\
  ((0 < r * c)%N -> exists x, [/\ infinity_norm_m ab (mb_of_mat m) = Ok x,
     (forall i, (i < r)%N -> \sum_(j < c) ab (f i j) <= x) &
     exists i, (i < r)%N /\ x = \sum_(j < c) ab (f i j)]).
Proof.
  move=> m r c f H. have [Er [Ec [_ [El _]]]] := H. have [_ [_ [_ [_ Hg]]]] := is_mat_reads _ _ _ _ H.
  rewrite /infinity_norm_m [mempty _]/= [mrows _]/= [mcols _]/= Er Ec !nateqbE -muln_eq0. split=> [->|Hn]; first by rewrite /= (o0E HR).
  rewrite eqn0Ngt Hn [~~ true]/=.
  have [|x [E H1 H2 H3]] := @max_range 0 r (fun i mx => let* acc := for_range 0 c (fun j acc => let* x := mat_at m i j in Ok (oadd acc (ab x))) o0 in
    Ok (if olt mx acc then acc else mx)) (fun i => \sum_(j < c) ab (f i j)) o0 (leq0n r); last first.
    exists x. split; [exact: E|exact: H2|]. move: H1 H3; rewrite (o0E HR) => H1 [H3|[i [Hi ->]]]; last by exists i.
    have Hr : (0 < r)%N by move: Hn; rewrite muln_gt0 => /andP [].
    exists 0%N. split=> //. apply/le_anti. rewrite {1}H3 H2 ?Hr // andbT. by apply: sumr_ge0 => j _.
  move=> i s /andP [_ /ssrnat.ltP Hi]. rewrite (@sum_range _ _ _ (fun j => ab (f i j))).
    by rewrite /= (o0E HR) add0r big_mkord.
  move=> j s' /andP [_ /ssrnat.ltP Hj]. by move: (Hg i j Hi Hj) => /= ->.
Qed.
(** sub_norm of a Matrix: the Frobenius norm of the strictly lower part. *)
Theorem C40_sub_norm : forall (m : Mat.Matrix T) r c f, is_mat m r c f ->
  ((r * c)%N = 0%N -> sub_norm sq nsqrt (mb_of_mat m) = Ok 0) /\
  ((0 < r * c)%N -> r <> c -> sub_norm sq nsqrt (mb_of_mat m) = Throw) /\
  ((0 < r * c)%N -> r = c ->
     sub_norm sq nsqrt (mb_of_mat m) = Ok (nsqrt (\sum_(i < r) \sum_(j < c | (j < i)%N) sq (f i j)))).
Proof.
  move=> m r c f H. have [Er [Ec [_ [El _]]]] := H. have [_ [_ [_ [_ Hg]]]] := is_mat_reads _ _ _ _ H.
  rewrite /sub_norm /is_square [mempty _]/= [mrows _]/= [mcols _]/= Er Ec !nateqbE -muln_eq0. split=> [->|]; first by rewrite /= (o0E HR).
  split=> Hn Hrc; rewrite eqn0Ngt Hn.
    have /negbTE -> : r != c by apply/eqP. by [].
  rewrite {1}Hrc eqxx [~~ true]/= (o0E HR).
  have Hr : (0 < r)%N by move: Hn; rewrite muln_gt0 => /andP [].
  rewrite (@sum_range _ _ _ (fun i => \sum_(j < c | (j < i)%N) sq (f i j))).
    rewrite /= add0r. congr (Ok (nsqrt _)). rewrite -(big_mkord xpredT (fun i => \sum_(j < c | (j < i)%N) sq (f i j))).
    rewrite [RHS]big_ltn //. rewrite [X in _ = X + _]big1 ?add0r //.
  move=> i s /andP [_ Hi]. rewrite (@sum_range _ _ _ (fun j => sq (f i j))).
    rewrite (oaddE HR) big_mkord. congr (Ok (_ + _)).
    by rewrite (big_ord_widen c (fun j => sq (f i j))) // -Hrc ltnW.
  move=> j s' /andP [_ Hj]. have Hjc : (j < c)%N by rewrite -Hrc (ltn_trans Hj Hi).
  by move: (Hg i j (elimT ssrnat.ltP Hi) (elimT ssrnat.ltP Hjc)) => /= ->.
Qed.
(** On a view both are 0, whatever the elements are. *)
Theorem C40_view_norms : forall (m : Mat.Matrix T) p, p <> Root ->
  infinity_norm_m ab (vmb p m) = Ok 0 /\ sub_norm sq nsqrt (vmb p m) = Ok 0.
Proof. move=> m [|rr rc p|er ec p] // _; by rewrite /infinity_norm_m /sub_norm /= (o0E HR). Qed.
Theorem C40_view_norm_refuted : forall x : T, 0 < ab x ->
  exists (m : Mat.Matrix T) p, [/\ is_mat m 1 1 (fun _ _ => x), vshape p 1 1 = Some (1%N, 1%N),
    infinity_norm_m ab (vmb p m) = Ok 0 & infinity_norm_m ab (mb_of_mat m) = Ok (ab x)].
Proof.
  move=> x Hx. exists (mkM 1 1 [:: x]), (PView (mkRange 0 1) (mkRange 0 1) Root). split.
  - split=> //. split=> //. split=> //. split=> //. move=> i j Hi Hj.
    by case: i Hi => [|i] Hi; [case: j Hj => [|j] Hj //|]; exfalso; Lia.lia.
  - by [].
  - by rewrite /infinity_norm_m /= (o0E HR).
  - by rewrite /infinity_norm_m /= /for_range /= (oaddE HR) (o0E HR) add0r Hlt Hx.
Qed.
End Norms.

(** The real instance: squares, absolute values and the real square root. *)
Section RealNorms.
Variable U : rcfType.
Variable OU : Ops U.
Hypothesis HU : realO OU.
Definition rsq (x : U) : U := x ^+ 2.
Definition rabs (x : U) : U := `|x|.
Definition rsqrt (x : U) : U := Num.sqrt x.
(** The square root is the non-negative number whose square is the sum of the squares,
    so the norm is characterised without mentioning the root. *)
Theorem C40_real_norms : forall (A : MB U) r c f, reads A r c f ->
  exists x, [/\ square_norm_m rsq rsqrt A = Ok x, 0 <= x & x ^+ 2 = \sum_(i < r) \sum_(j < c) f i j ^+ 2].
Proof.
  move=> A r c f H. exists (Num.sqrt (\sum_(i < r) \sum_(j < c) f i j ^+ 2)). split.
  - exact: (C40_square_norm_matrix HU rsq rsqrt H).
  - exact: sqrtr_ge0.
  - rewrite sqr_sqrtr //. by apply: sumr_ge0 => i _; apply: sumr_ge0 => j _; apply: sqr_ge0.
Qed.
Theorem C40_real_norms_vector : forall (v : list U) n f, is_vec v n f ->
  exists x, [/\ square_norm_v rsq rsqrt v = Ok x, 0 <= x & x ^+ 2 = \sum_(i < n) f i ^+ 2].
Proof.
  move=> v n f H. exists (Num.sqrt (\sum_(i < n) f i ^+ 2)). split.
  - exact: (C40_square_norm_vector HU rsq rsqrt H).
  - exact: sqrtr_ge0.
  - rewrite sqr_sqrtr //. by apply: sumr_ge0 => i _; apply: sqr_ge0.
Qed.
End RealNorms.

(** * C43 *)
Section Log2.
Variable U : archiFieldType.
Variable OU : Ops U.
Hypothesis HU : realO OU.
Let HR : ringO OU. Proof. by case: HU => -[]. Qed.
Let Hlt x y : olt x y = (x < y) :> bool. Proof. by case: HU. Qed.
Variables (T : Type) (ab : T -> U).

Lemma log2_loop_stop (norm : U) k fuel it : (k <= fuel)%N ->
  norm * (2%:R^-1) ^+ (it + k) <= 1 -> (forall j, (j < k)%N -> 1 < norm * (2%:R^-1) ^+ (it + j)) ->
  log2_loop (2%:R^-1) fuel norm ((2%:R^-1) ^+ it) it = Ok ((it + k)%N, (2%:R^-1) ^+ (it + k)).
Proof.
  elim: k fuel it => [|k IH] fuel it Hf Hk Hj.
  - rewrite addn0 in Hk *. case: fuel {Hf} => [|fuel] /=; by rewrite Hlt (o1E HR) (omulE HR) ltNge Hk.
  - case: fuel Hf => // fuel Hf /=. have := Hj 0%N (ltn0Sn k). rewrite addn0 => H0.
    rewrite Hlt (o1E HR) !(omulE HR) H0 -exprSr -addSnnS. apply: IH => //.
    + by rewrite addSnnS.
    + move=> j Hjk. rewrite addSnnS. exact: Hj.
Qed.
Lemma two_pow_ge n : (n%:R : U) <= 2%:R ^+ n.
Proof. by rewrite -natrX ler_nat ltnW // ltn_expl. Qed.

Hypothesis ab0 : forall x, 0 <= ab x.
Lemma log2_of_norm (A : MB T) (norm : U) : infinity_norm_m ab A = Ok norm ->
  exists k, [/\ norm / 2%:R ^+ k <= 1, (forall j, (j < k)%N -> 1 < norm / 2%:R ^+ j) &
    forall fuel, (k <= fuel)%N -> log2_ceil ab (2%:R^-1) fuel A = Ok (k, (2%:R ^+ k)^-1)].
Proof.
  move=> En.
  have Hex : exists k, norm / 2%:R ^+ k <= 1.
    case: (leP norm 0) => [N0|P0].
      exists 0%N. rewrite expr0 divr1. exact: le_trans N0 ler01.
    exists (Num.ExtraDef.archi_bound norm). rewrite ler_pdivr_mulr ?exprn_gt0 ?ltr0n // mul1r.
    apply: le_trans (two_pow_ge _). apply: ltW. by have := archi_boundP (ltW P0).
  case: (ex_minnP Hex) => k Hk Hmin. exists k.
  have Hj j : (j < k)%N -> 1 < norm / 2%:R ^+ j.
    move=> Hj. rewrite ltNge. apply/negP => /Hmin. by rewrite leqNgt Hj.
  split=> // fuel Hf. rewrite /log2_ceil En [bind _ _]/=.
  have := @log2_loop_stop norm k fuel 0 Hf. rewrite !add0n expr0 (o1E HR) exprVn => ->//.
  move=> j Hjk. rewrite add0n exprVn. exact: Hj.
Qed.
(** The loop ends, and gives the least k with norm / 2^k <= 1 and the scale 2^-k. *)
Theorem C43_log2_ceil : forall (m : Mat.Matrix T) r c f, is_mat m r c f ->
  exists norm k, [/\ infinity_norm_m ab (mb_of_mat m) = Ok norm, norm / 2%:R ^+ k <= 1,
    (forall j, (j < k)%N -> 1 < norm / 2%:R ^+ j) &
    forall fuel, (k <= fuel)%N -> log2_ceil ab (2%:R^-1) fuel (mb_of_mat m) = Ok (k, (2%:R ^+ k)^-1)].
Proof.
  move=> m r c f H. have [H1 H2] := C40_infinity_norm_matrix HU ab0 H.
  have [norm En] : exists norm, infinity_norm_m ab (mb_of_mat m) = Ok norm.
    case: (posnP (r * c)%N) => [/H1 E|/H2 [x [E _ _]]]; [by exists 0|by exists x].
  have [k [K1 K2 K3]] := log2_of_norm En. by exists norm, k.
Qed.
(** For a view the norm is taken to be 0, so no scaling ever happens. *)
Theorem C43_log2_ceil_view : forall (m : Mat.Matrix T) p fuel, p <> Root ->
  log2_ceil ab (2%:R^-1) fuel (vmb p m) = Ok (0%N, 1).
Proof.
  move=> m p fuel Hp. rewrite /log2_ceil. have [-> _] := C40_view_norms HU ab ab id m Hp.
  rewrite [bind _ _]/=. by case: fuel => [|fuel] /=; rewrite Hlt (omulE HR) !(o1E HR) mul0r ltNge ler01.
Qed.
End Log2.

(** * The hypotheses are met: real algebraic numbers and rationals *)
Definition realops (F : realFieldType) (tol : F) : Ops F := {|
  o0 := 0; o1 := 1; oadd := +%R; osub := fun a b => a - b; omul := *%R; oopp := -%R;
  odiv := fun a b => if b == 0 then UB else Ok (a / b);
  oeq := fun a b => a == b; olt := fun a b => a < b; ole := fun a b => a <= b;
  ofeq := fun a b => `|a - b| <= tol * Num.max `|a| `|b|; oisz := fun a => `|a| <= tol * `|a|;
  oabs := fun a => `|a|; ofnat := fun n => n%:R |}.
Lemma realops_ok (F : realFieldType) (tol : F) : realO (realops tol).
Proof. split=> //. split=> // x y /= N. by rewrite (negbTE N). Qed.
Lemma rat_real : realO ratops.
Proof. split=> //. exact: rat_field. Qed.

Example ex_C28 : exists (start stop : rat), ofeq start stop = false /\ start < stop.
Proof.
  exists 0, 1. split; last exact: ltr01. rewrite [ofeq _ _]/= sub0r normrN normr1 normr0. rewrite (max_r ler01) mulr1. apply/negbTE.
  rewrite -ltNge. by case/andP: rtol_lt1.
Qed.
(** The Frobenius norm of [3 4] is 5. *)
Example ex_C40 : square_norm_v (@rsq [rcfType of realalg]) (@rsqrt [rcfType of realalg]) (OU := realops 0) [:: 3%:R; 4%:R] = Ok 5%:R.
Proof.
  have H : is_vec [:: (3%:R : realalg); 4%:R] 2 (fun i => if i is 0 then 3%:R else 4%:R).
    split=> //. split=> //. case=> [|[|i]] // Hi. exfalso. Lia.lia.
  rewrite (C40_square_norm_vector (realops_ok 0) _ _ H) !big_ord_recl big_ord0 /= addr0 /rsqrt /rsq -!natrX -natrD.
  congr Ok. rewrite (_ : (3 ^ 2 + 4 ^ 2 = 5 ^ 2)%N) // natrX sqrtr_sqr. by rewrite normr_nat.
Qed.
Example ex_C43 : exists m : Mat.Matrix rat, is_mat m 2 2 (qrow [:: [:: 3%:R; -4%:R]; [:: 1; 0]]).
Proof. exists (qmat 2 2 (qrow [:: [:: 3%:R; -4%:R]; [:: 1; 0]])). exact: qmat_ok. Qed.
