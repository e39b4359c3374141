(** FloatMono.v: rounding is a function and monotone. *)
From Coq Require Import ZArith QArith Qabs Qpower Bool Lia Lqa SpecFloat.
From Verif Require Import Float FloatFacts FloatValid FloatRound FloatArith FloatCmp.
Local Open Scope Z_scope.
Section Mono.
Variables (prec emax : Z).
Hypothesis Hprec : 0 < prec.
Notation valid := (valid_binary prec emax).
Notation rounds := (rounds prec emax).
Notation crt := (crt prec emax).
Lemma unit_unique v v' e1 e1' : (v == v')%Q -> SpecFloat.emin prec emax <= e1 ->
  (v < p2 (e1 + prec))%Q -> (e1' = SpecFloat.emin prec emax \/ p2 (e1' + prec - 1) <= v')%Q -> e1' <= e1.
Proof.
  intros E G LT [SZ|SZ]; [lia|]. rewrite <- E in SZ. destruct (Z.le_gt_cases e1' e1) as [|L]; [auto|exfalso].
  pose proof (q2_mono (e1 + prec) (e1' + prec - 1) ltac:(lia)). lra.
Qed.
Lemma rounds_unique s v v' y y' : (v == v')%Q -> rounds s v y -> rounds s v' y' -> y = y'.
Proof.
  intros EV (R & e1 & -> & [R0 R1] & G & N & SZ & LT & TE) (R' & e1' & -> & [R0' R1'] & G' & N' & SZ' & LT' & TE').
  assert (E : e1 = e1').
  { pose proof (unit_unique v v' e1 e1' EV G LT SZ'). pose proof (unit_unique v' v e1' e1 (Qeq_sym _ _ EV) G' LT' SZ). lia. }
  subst e1'. rewrite <- EV in N', TE'. destruct (Z.eq_dec R R') as [->|NE]; [reflexivity|exfalso]. pose proof (q2_pos e1) as P1. set (w := p2 e1) in *.
  set (d := Qabs (v - inject_Z R * w)) in *. set (d' := Qabs (v - inject_Z R' * w)) in *.
  assert (T : (Qabs (inject_Z (R - R') * w) <= d + d')%Q).
  { unfold d. rewrite (Qabs_Qminus v (inject_Z R * w)). eapply Qle_trans; [|apply Qabs_triangle]. apply Qle_lteq. right. apply Qabs_wd. unfold Z.sub. rewrite inject_Z_plus, inject_Z_opp. ring. }
  rewrite Qabs_Qmult, injZ_abs, (Qabs_pos w) in T by lra.
  assert (D : Z.abs (R - R') = 1).
  { assert (inject_Z (Z.abs (R - R')) <= 1)%Q by (apply (Qmult_lt_0_le_reg_r _ _ w P1); lra). change 1%Q with (inject_Z 1) in H. rewrite <- Zle_Qle in H. lia. }
  rewrite D in T. change (inject_Z 1) with 1%Q in T. assert (A : (2 * d == w)%Q) by lra. assert (A' : (2 * d' == w)%Q) by lra.
  apply TE in A. apply TE' in A'. apply Z.even_spec in A, A'. destruct A as [a A], A' as [a' A']. lia.
Qed.
Lemma crt_unique w w' y y' : (w == w')%Q -> crt w y -> crt w' y' -> fin y -> fin y' -> valid y = true -> valid y' = true -> (sval y == sval y')%Q.
Proof.
  intros EW C C' F F' V V'. pose proof C as C0. pose proof C' as C0'. destruct C as [[_ E]|(s & v & Hv & E & H)].
  - pose proof (crt_nearest prec emax Hprec w' y' y C0' F' V F) as N. assert (X : (sval y - w' == 0)%Q) by (rewrite E, EW; ring). rewrite X in N. change (Qabs 0) with 0%Q in N.
    pose proof (Qle_Qabs (sval y' - w')). pose proof (Qle_Qabs (- (sval y' - w'))) as Q. rewrite Qabs_opp in Q. rewrite E, EW. lra.
  - destruct C' as [[_ E']|(s' & v' & Hv' & E' & H')].
    + pose proof (crt_nearest prec emax Hprec w y y' C0 F V' F') as N. assert (X : (sval y' - w == 0)%Q) by (rewrite E', EW; ring). rewrite X in N. change (Qabs 0) with 0%Q in N.
      pose proof (Qle_Qabs (sval y - w)). pose proof (Qle_Qabs (- (sval y - w))) as Q. rewrite Qabs_opp in Q. rewrite E', <- EW. lra.
    + assert (s = s' /\ (v == v')%Q) as [-> EV] by (destruct s, s'; cbn [sgn] in *; split; auto; lra).
      now rewrite (rounds_unique s' v v' y y' EV H H').
Qed.
Theorem crt_mono w w' y y' : (w <= w')%Q -> crt w y -> crt w' y' -> fin y -> fin y' -> valid y = true -> valid y' = true -> (sval y <= sval y')%Q.
Proof.
  intros L C C' F F' V V'. destruct (Qlt_le_dec (sval y') (sval y)) as [G|G]; [|exact G].
  pose proof (crt_nearest prec emax Hprec w y y' C F V' F') as N. pose proof (crt_nearest prec emax Hprec w' y' y C' F' V F) as N'.
  assert (A : (sval y + sval y' <= 2 * w)%Q).
  { destruct (Qlt_le_dec w (sval y')) as [B|B].
    - exfalso. rewrite (Qabs_pos (sval y - w)), (Qabs_pos (sval y' - w)) in N by lra. lra.
    - rewrite (Qabs_neg (sval y' - w)) in N by lra. pose proof (Qle_Qabs (sval y - w)). lra. }
  assert (A' : (2 * w' <= sval y + sval y')%Q).
  { destruct (Qlt_le_dec (sval y) w') as [B|B].
    - exfalso. rewrite (Qabs_neg (sval y - w')), (Qabs_neg (sval y' - w')) in N' by lra. lra.
    - rewrite (Qabs_pos (sval y - w')) in N' by lra. pose proof (Qle_Qabs (- (sval y' - w'))) as Q. rewrite Qabs_opp in Q. lra. }
  assert (E : (w == w')%Q) by lra. rewrite (crt_unique w w' y y' E C C' F F' V V'). apply Qle_refl.
Qed.
(** A number of the format is an upper (lower) bound of the rounded number as soon as it is one of the exact number. *)
Lemma crt_le w y z : crt w y -> fin y -> valid y = true -> fin z -> valid z = true -> (w <= sval z)%Q -> (sval y <= sval z)%Q.
Proof. intros C F V Fz Vz L. apply (crt_mono w (sval z) y z); auto. left. split; [auto|reflexivity]. Qed.
Lemma crt_ge w y z : crt w y -> fin y -> valid y = true -> fin z -> valid z = true -> (sval z <= w)%Q -> (sval z <= sval y)%Q.
Proof. intros C F V Fz Vz L. apply (crt_mono (sval z) w z y); auto. left. split; [auto|reflexivity]. Qed.
End Mono.
