(** PropRoundEx.v: an arithmetic with rounding that meets the hypotheses of PropRound.v:
    rationals, every result chopped to about p significant bits. *)
From Verif Require Import MathFacts PropMath RingM DetFacts LinalgFacts2 LURound PropRound RatOps PropFieldEx PropControlEx.
From mathcomp Require Import all_ssreflect all_algebra.
Set Implicit Arguments.
Unset Strict Implicit.
Unset Printing Implicit Defensive.
Import Order.Theory GRing.Theory Num.Theory.
Local Open Scope ring_scope.

Definition flq (x : rat) : int := (numq x %/ denq x)%Z.
(** The unit in the last place. *)
Definition ulp (p : nat) (x : rat) : rat := 2%:R ^+ trunc_log 2 `|numq x|%N / 2%:R ^+ ((trunc_log 2 `|denq x|%N).+1 + p).
Definition chop (p : nat) (x : rat) : rat := if x == 0 then 0 else (flq (x / ulp p x))%:~R * ulp p x.
#[local] Instance chopops p : Ops rat := {
  o0 := 0; o1 := 1;
  oadd := fun x y => if x == 0 then y else if y == 0 then x else chop p (x + y);
  osub := fun x y => if y == 0 then x else chop p (x - y);
  omul := fun x y => chop p (x * y); oopp := fun x => - x;
  odiv := fun x y => Ok (chop p (x / y));
  oeq := fun x y => x == y; olt := fun x y => x < y; ole := fun x y => x <= y;
  ofeq := fun x y => x == y; oisz := fun x => x == 0; oabs := fun x => `|x|; ofnat := fun n => n%:R }.

Lemma flq_err (x : rat) : `|(flq x)%:~R - x| <= 1.
Proof.
  have d0 : (0 < (denq x)%:~R :> rat) by rewrite ltr0z denq_gt0.
  rewrite distrC -{1}(divq_num_den x) {1}(divz_eq (numq x) (denq x)) -/(flq x) rmorphD rmorphM /= mulrDl mulfK ?lt0r_neq0 //.
  rewrite addrC addKr ger0_norm.
  - by rewrite ler_pdivr_mulr // mul1r ler_int ltW // ltz_pmod // denq_gt0.
  - by apply: divr_ge0; [rewrite ler0z modz_ge0 // denq_eq0|exact: ltW].
Qed.
Lemma ulp_gt0 p x : 0 < ulp p x.
Proof. by rewrite /ulp divr_gt0 // exprn_gt0. Qed.
Lemma ulp_le p x : x != 0 -> ulp p x <= 2%:R ^- p * `|x|.
Proof.
  move=> x0. have n0 : (0 < `|numq x|)%N by rewrite absz_gt0 numq_eq0.
  have d0 : (0 < `|denq x|)%N by rewrite absz_gt0 denq_neq0.
  have /andP [Hn _] := trunc_log_bounds (isT : 1 < 2)%N n0. have /andP [_ Hd] := trunc_log_bounds (isT : 1 < 2)%N d0.
  have -> : `|x| = (`|numq x|%N)%:R / (`|denq x|%N)%:R.
    by rewrite -{1}(divq_num_den x) normrM normfV -!intr_norm -!abszE.
  rewrite /ulp exprD invfM [X in X <= _]mulrA [X in X <= _]mulrC. apply: ler_wpmul2l; first by rewrite invr_ge0 exprn_ge0.
  apply: ler_pmul; rewrite ?invr_ge0 ?exprn_ge0 //.
  - by rewrite -natrX ler_nat.
  - rewrite lef_pinv ?posrE ?exprn_gt0 ?ltr0n // -natrX ler_nat. exact: ltnW.
Qed.
Lemma chop_near p x : near (2%:R ^- p) (chop p x) x.
Proof.
  rewrite /near /chop. case: eqP => [->|/eqP x0]; first by rewrite subrr normr0 mulr0.
  apply: le_trans (ulp_le p x0). have g0 := ulp_gt0 p x. move: (ulp p x) g0 => g g0.
  have {2}-> : x = (x / g) * g by rewrite divfK ?lt0r_neq0.
  rewrite -mulrBl normrM (gtr0_norm g0) ler_pimull ?(ltW g0) //. exact: flq_err.
Qed.
Lemma near_refl (u x : rat) : 0 <= u -> near u x x.
Proof. move=> u0. by rewrite /near subrr normr0 mulr_ge0. Qed.
Lemma chop_round p : roundO (chopops p) id (2%:R ^- p).
Proof.
  have u0 : (0 : rat) <= 2%:R ^- p by rewrite invr_ge0 exprn_ge0.
  split=> //.
  - move=> x y /=. case: eqP => [->|_]; first by rewrite add0r; exact: near_refl.
    case: eqP => [->|_]; first by rewrite addr0; exact: near_refl. exact: chop_near.
  split.
  - move=> x y /=. case: eqP => [->|_]; first by rewrite subr0; exact: near_refl. exact: chop_near.
  - move=> x y /=. exact: chop_near.
  - move=> x y y0 /=. eexists; split; [reflexivity|exact: chop_near].
Qed.
Lemma chop_u1 p : (2%:R ^- p.+1 : rat) < 1.
Proof. by rewrite invf_lt1 ?exprn_gt0 // exprn_egt1. Qed.

Lemma chop_neq0 p x : x != 0 -> chop p.+1 x != 0.
Proof.
  move=> x0. apply/negP => /eqP E. have := chop_near p.+1 x. rewrite /near E sub0r normrN.
  by rewrite -[X in X <= _]mul1r ler_pmul2r ?normr_gt0 // leNgt chop_u1.
Qed.
(** Rounding does happen. *)
Example chop_inexact : chop 3 (1 / 3%:R) = 5%:R / 16%:R. Proof. by vm_compute. Qed.

Definition f3 : nat -> nat -> rat := qrow [:: [:: 3%:R; 1]; [:: 1; 2%:R]].
Lemma reads_f3 : reads (mb_of_mat (qmat 2 2 f3)) 2 2 f3.
Proof. apply: is_mat_reads. apply: qmat_ok. by apply: shape_small. Qed.
Lemma vec3 : is_vec [:: 1 / 3%:R; 2%:R; -5%:R : rat] 3 (seq.nth 0 [:: 1 / 3%:R; 2%:R; -5%:R]).
Proof. exact: (@qvec_ok [:: 1 / 3%:R; 2%:R; -5%:R]). Qed.
Example C79_ex : forall p, exists s, dot (O := chopops p) [:: 1 / 3%:R; 2%:R; -5%:R] [:: 1 / 3%:R; 2%:R; -5%:R] = Ok s /\
  `|s - \sum_(i < 3) seq.nth 0 [:: 1 / 3%:R; 2%:R; -5%:R] i * seq.nth 0 [:: 1 / 3%:R; 2%:R; -5%:R] i| <=
    ((1 + 2%:R ^- p) ^+ 3 - 1) * \sum_(i < 3) `|seq.nth 0 [:: 1 / 3%:R; 2%:R; -5%:R] i * seq.nth 0 [:: 1 / 3%:R; 2%:R; -5%:R] i|.
Proof. move=> p. exact: (C79_dot (chop_round p) vec3 vec3). Qed.
(** The second pivot 2 - 1 * (1/3), each operation rounded. *)
Lemma pivot1 p : @osub _ (chopops p.+1) 2%:R (@omul _ (chopops p.+1) 1 (chop p.+1 (1 / 3%:R))) != 0.
Proof.
  have u1 := chop_u1 p. have B x : `|chop p.+1 x| <= 2%:R * `|x|.
    apply: le_trans (near_abs (chop_near p.+1 x)) _. apply: ler_wpmul2r => //. by rewrite -[2%:R]/(1 + 1) ler_add2l ltW.
  have B1 : `|chop p.+1 (1 * chop p.+1 (1 / 3%:R))| < 2%:R.
    apply: le_lt_trans (B _) _. rewrite mul1r. apply: le_lt_trans (_ : 2%:R * (2%:R * `|1 / 3%:R|) < _); first exact: ler_wpmul2l.
    by [].
  rewrite /osub /omul /chopops. move: (chop p.+1 (1 * _)) B1 => y B1.
  case: (y == 0); first by rewrite pnatr_eq0. apply: chop_neq0. rewrite subr_eq0 eq_sym.
  apply/negP => /eqP E. by rewrite E ger0_norm ?ltxx in B1.
Qed.
Example C80_ex : forall p, exists l m L U, [/\ lu_decomposition (O := chopops p.+1) (mb_of_mat (qmat 2 2 f3)) = Ok (l, m),
  is_mat l 2 2 L, is_mat m 2 2 U, forall i, (i < 2)%N -> L i i != 0 & forall i j, (i < 2)%N -> (j < 2)%N ->
  `|\sum_(t < 2) L i t * U t j - f3 i j| <= ((1 - 2%:R ^- p.+1)^-1 ^+ 3 - 1) * \sum_(t < 2) `|L i t * U t j|].
Proof.
  move=> p. have [|l [m E]] := C80_lu_defined (O := chopops p.+1) _ reads_f3; first by move=> x y; eexists.
  have [L [U [Hl Hu H]]] := C80_lu_backward (chop_round p.+1) (chop_u1 p) reads_f3 E.
  have Hd i : (i < 2)%N -> L i i != 0; last first.
    exists l, m, L, U. split=> //. exact: (H Hd).
  have [L' [U' [Hl' _ HL HU]]] := lu_entries reads_f3 E. rewrite /= in Hl'.
  have EL j : (j < 2)%N -> L j j = L' j j by move=> /ssrnat.ltP Hj; exact: (is_mat_fun _ _ _ _ _ Hl Hl').
  have L0 j : (j < 2)%N -> L' j 0%N = f3 j 0%N by move=> Hj; rewrite (HL j 0%N).
  case: i => [_|[|//] _]; first by rewrite EL // L0.
  rewrite EL // (HL 1%N 1%N isT isT) ltnn. 
  have D : divides (chopops p.+1) (L' 0%N 0%N) by move=> x; eexists.
  have U0 : U' 0%N 1%N = chop p.+1 (1 / 3%:R) by rewrite (HU 0%N 1%N isT isT D) L0.
  have -> : @osubs _ (chopops p.+1) 1 (f3 1%N 1%N) (fun t => @omul _ (chopops p.+1) (L' 1%N t) (U' t 1%N)) =
    @osub _ (chopops p.+1) 2%:R (@omul _ (chopops p.+1) (L' 1%N 0%N) (U' 0%N 1%N)) by [].
  rewrite U0 L0 //. exact: pivot1.
Qed.
