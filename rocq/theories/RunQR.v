(** RunQR.v: running error bounds, as in C107, for the square root and copysign. *)
From Coq Require Import ZArith QArith Qabs Lia Lqa SpecFloat.
From Verif Require Import Control Ints Float FloatFacts FloatValid FloatRound FloatIOFacts FloatArith FloatSum FloatCmp PropFloat PropFloat2 PropFloatIO PropFloatSum PropFloatCmp PropFloatNorm PropQRFloat Rel PropRel PropRelInt PropRunErr.
Local Open Scope Q_scope.

(** A rational number near the root of [c] (any positive one will do). *)
Definition near_root (c : Q) : Q := let a := (Qnum c * Zpos (Qden c) * 2 ^ 136)%Z in inject_Z (Z.sqrt a) / inject_Z (Zpos (Qden c) * 2 ^ 68).
(** At most [k] significant bits of a fraction, rounded down or (for the error) up.  Only to
    keep the numbers short: any fraction would do for the centre, and any larger one for the error. *)
Definition pow2 (j : Z) : Q := if (0 <=? j)%Z then inject_Z (2 ^ j) else 1 # Z.to_pos (2 ^ (- j)).
Fixpoint power_of_2 (p : positive) : bool := match p with xH => true | xO q => power_of_2 q | xI _ => false end.
Definition floorq (c : Q) : Z := if power_of_2 (Qden c) then Z.shiftr (Qnum c) (Z.log2 (Zpos (Qden c))) else (Qnum c / Zpos (Qden c))%Z.
Definition size2 (c : Q) : Z := (Z.log2 (Z.abs (Qnum c)) - Z.log2 (Zpos (Qden c)))%Z.
Definition short (k : Z) (c : Q) : Q := if Qeq_bool c 0 then 0 else let j := (k - size2 c)%Z in inject_Z (floorq (c * pow2 j)) * pow2 (- j).
Definition short_up (k : Z) (c : Q) : Q := let d := if Qeq_bool c 0 then 0 else let j := (k - size2 c)%Z in inject_Z (floorq (c * pow2 j) + 1) * pow2 (- j) in if Qle_bool c d then d else c.
(** Rounding a number within [b] of [v], as in C107, with a short centre, a short and larger
    bound, and a smaller range. *)
Definition small : Q := 2 ^ (-100).
Definition wide (v b : Q) : bounded :=
  if Qle_bool (2 ^ 100) (Qabs v + b) then None else let c := short 64 v in Some (c, short_up 20 (b + Qabs (v - c) + unit * (Qabs v + b) + small)).
Definition wideops : Ops bounded := {|
  o0 := Some (0, 0); o1 := Some (1, 0);
  oadd := lift (fun x y => wide (fst x + fst y) (snd x + snd y));
  osub := lift (fun x y => wide (fst x - fst y) (snd x + snd y));
  omul := lift (fun x y => wide (fst x * fst y) (Qabs (fst x) * snd y + snd x * Qabs (fst y) + snd x * snd y));
  oopp := fun x => match x with Some (q, e) => Some (- q, e) | None => None end;
  odiv := fun x y => Ok (lift (fun x y =>
    if Qle_bool (Qabs (fst y)) (snd y) then None
    else let q := fst x / fst y in wide q ((snd x + Qabs q * snd y) / (Qabs (fst y) - snd y))) x y);
  oeq := fun _ _ => false; olt := fun _ _ => false; ole := fun _ _ => false; ofeq := fun _ _ => false; oisz := fun _ => false; oabs := fun x => x;
  ofnat := fun n => if (Z.of_nat n <=? 2 ^ 53)%Z then Some (inject_Z (Z.of_nat n), 0) else None |}.
(** The root of a number within [e] of [c] is within this bound of [s], even after rounding. *)
Definition bsqrt (x : bounded) : bounded :=
  match x with
  | Some (c, e) => let s := short 64 (near_root c) in
      if Qle_bool c e then None else if Qle_bool s 0 then None
      else Some (s, short_up 20 (((2 * unit + unit * unit) * (c + e) + e + Qabs (c - s * s)) / s))
  | None => None
  end.
(** The sign of the second number, when it is certain, for a first that cannot be negative. *)
Definition bcopysign (x y : bounded) : bounded :=
  match x, y with
  | Some (a, ea), Some (b, eb) => if negb (Qle_bool ea a) then None else if Qle_bool (Qabs b) eb then None else Some (if Qle_bool b 0 then - a else a, ea)
  | _, _ => None
  end.


Lemma qleb_true a b : Qle_bool a b = true -> a <= b. Proof. apply Qle_bool_iff. Qed.
Lemma qleb_false a b : Qle_bool a b = false -> b < a. Proof. intros H. apply Qnot_le_lt. intros K. apply Qle_bool_iff in K. congruence. Qed.
Lemma short_up_le k c : c <= short_up k c.
Proof. unfold short_up. cbv zeta. match goal with |- context [Qle_bool c ?d] => destruct (Qle_bool c d) eqn:E end; [now apply qleb_true|apply Qle_refl]. Qed.
Lemma wide_within v b d : within (rounded v b) d -> within (wide v b) d.
Proof.
  unfold rounded, wide. cbv zeta. destruct (Qle_bool (2 ^ 100) (Qabs v + b)) eqn:L; [exact (fun _ => I)|]. apply qleb_false in L. destruct (Qle_bool limit (Qabs (Qred v) + Qred b)) eqn:L'.
  { exfalso. apply qleb_true in L'. rewrite !Qred_correct in L'. assert (2 ^ 100 < limit) by reflexivity. lra. }
  intros [P E]. rewrite !Qred_correct in E. generalize (short 64 v). intros c. split; [exact P|]. eapply Qle_trans; [|apply short_up_le].
  setoid_replace (dval d - c) with ((dval d - v) + (v - c)) by ring. eapply Qle_trans; [apply Qabs_triangle|]. assert (tiny <= small) by discriminate. lra.
Qed.
Lemma wide_ring t : same_ring wideops (fops t) within.
Proof.
  destruct (run_ring t) as [H0 H1 H2 H3 H4 H5 H6]. split; try assumption; intros [x|] d [y|] f X Y; try exact I; apply wide_within.
  - exact (H2 (Some x) d (Some y) f X Y).
  - exact (H3 (Some x) d (Some y) f X Y).
  - exact (H4 (Some x) d (Some y) f X Y).
Qed.
Lemma wide_div t : same_div wideops (fops t) within.
Proof.
  destruct (run_div t) as [H]. split. intros [x|] d [y|] f X Y; try exact I. specialize (H (Some x) d (Some y) f X Y). cbn [odiv wideops runops fops lift rres] in *. cbv zeta. destruct (Qle_bool (Qabs (fst y)) (snd y)); [exact I|]. now apply wide_within.
Qed.
Lemma run_sqrt x d : within x d -> within (bsqrt x) (dsqrt d).
Proof.
  destruct x as [[c e]|]; [|exact (fun _ => I)]. intros [P E]. cbn [bsqrt]. destruct (Qle_bool c e) eqn:L; [exact I|]. apply qleb_false in L. destruct (Qle_bool (short 64 (near_root c)) 0) eqn:S; [exact I|]. apply qleb_false in S.
  set (s := short 64 (near_root c)) in *. clearbody s. apply Qabs_Qle_condition in E. destruct P as [V F]. destruct (C102_square_root d V) as (VZ & H & _). destruct (H F) as ((PZ & _ & _) & Z0 & R); [lra|]. split; [exact PZ|].
  eapply Qle_trans; [|apply short_up_le]. unfold root_error in R. assert (G : growth 2 - 1 == 2 * unit + unit * unit) by reflexivity. rewrite G in R. set (k := 2 * unit + unit * unit) in *.
  assert (K0 : 0 <= k) by (unfold k; vm_compute; discriminate). clearbody k. set (z := dval (dsqrt d)) in *. clearbody z.
  assert (B : Qabs (z - s) * (z + s) <= k * (c + e) + e + Qabs (c - s * s)).
  { assert (X : Qabs (z - s) * (z + s) == Qabs (z * z - s * s)). { rewrite <- (Qabs_pos (z + s)) at 1 by lra. rewrite <- Qabs_Qmult. apply Qabs_wd. ring. }
    rewrite X. setoid_replace (z * z - s * s) with ((z * z - dval d) + ((dval d - c) + (c - s * s))) by ring.
    pose proof (Qabs_triangle (z * z - dval d) ((dval d - c) + (c - s * s))) as T1. pose proof (Qabs_triangle (dval d - c) (c - s * s)) as T2.
    assert (T3 : Qabs (dval d - c) <= e) by (apply Qabs_Qle_condition; lra). assert (T4 : k * dval d <= k * (c + e)) by (rewrite !(Qmult_comm k); apply Qmult_le_compat_r; lra). lra. }
  apply Qle_shift_div_l; [exact S|]. eapply Qle_trans; [|exact B]. rewrite !(Qmult_comm (Qabs (z - s))). apply Qmult_le_compat_r; [lra|apply Qabs_nonneg].
Qed.
Lemma run_copysign x d y f : within x d -> within y f -> within (bcopysign x y) (dcopysign d f).
Proof.
  destruct x as [[a ea]|]; [|exact (fun _ _ => I)]. destruct y as [[b eb]|]; [|exact (fun _ _ => I)]. intros [[V F] E] [[V' F'] E']. cbn [bcopysign]. destruct (Qle_bool ea a) eqn:L; cbn [negb]; [|exact I]. apply qleb_true in L.
  destruct (Qle_bool (Qabs b) eb) eqn:B; [exact I|]. apply qleb_false in B. pose proof E as E0. apply Qabs_Qle_condition in E, E'.
  assert (S : dneg f = Qle_bool b 0).
  { destruct f as [s|s| |[|] m e]; try contradiction; cbn [dneg]; symmetry.
    - exfalso. cbn in E'. assert (Qabs b <= eb) by (apply Qabs_Qle_condition; lra). lra.
    - apply Qle_bool_iff. destruct (Qlt_le_dec 0 b) as [N|N]; [|lra]. rewrite Qabs_pos in B by lra. cbn [dval] in E'. pose proof (mpos_val m e). lra.
    - destruct (Qle_bool b 0) eqn:N; [|reflexivity]. apply qleb_true in N. rewrite Qabs_neg in B by lra. cbn [dval] in E'. pose proof (mpos_val m e). lra. }
  assert (D : is_double (dcopysign d f) /\ is_finite (dcopysign d f) /\ dval (dcopysign d f) == if dneg f then - dval d else dval d).
  { destruct d as [s|s| |s m e]; try contradiction; cbn [dcopysign]; [split; [reflexivity|split; [exact I|destruct (dneg f); reflexivity]]|]. split; [destruct (dneg f); exact V|]. split; [exact I|].
    destruct s; [exfalso; cbn [dval] in E; pose proof (mpos_val m e); lra|]. destruct (dneg f); cbn [dval]; ring. }
  destruct D as (D1 & D2 & D3). split; [now split|]. rewrite D3, S. destruct (Qle_bool b 0); [|exact E0]. setoid_replace (- dval d - - a) with (- (dval d - a)) by ring. now rewrite Qabs_opp.
Qed.
