(** PropIdent.v: multiplication of doubles by the identity, and the first power (C109). *)
From Coq Require Import ZArith QArith Qabs Bool Lia Lqa SpecFloat List.
From Verif Require Import LinalgFacts2 PropMatrix PropUtil PropMath PropLinalg Control ControlFacts Feq Float FloatFacts FloatValid FloatRound FloatArith FloatSum FloatCmp FloatDet FloatLoop PropFloat PropFloat2 PropFloatIO PropFloatSum PropFloatCmp PropFloatExpm PropTotal PropTotalFloat.
Import ListNotations.
Local Open Scope nat_scope.

(** [m] holds the numbers that [f] holds, r x c of them; a zero may have lost its sign. *)
Definition same_numbers (m : Matrix double) (r c : nat) (f : nat -> nat -> double) : Prop :=
  exists g, is_mat m r c g /\ forall i j, i < r -> j < c -> proper (g i j) /\ (dval (g i j) == dval (f i j))%Q.

Lemma crt_self x y : proper x -> is_double y -> crt prec64 emax64 (dval x) y -> proper y /\ (dval y == dval x)%Q.
Proof.
  intros [Vx Fx] Vy C. destruct fmt2 as [P1 P3], fmt3 as [P4 P5]. assert (B := valid_below prec64 emax64 P1 x P5 Vx Fx).
  destruct (crt_range prec64 emax64 P1 P3 _ _ P4 P5 Vy C) as [[F _]|[[_ L]|[_ L]]].
  - split; [split; assumption|]. assert (N := crt_nearest prec64 emax64 P1 _ _ x C F Vx Fx). assert (Z : (Qabs (dval x - dval x) == 0)%Q) by (setoid_replace (dval x - dval x)%Q with 0%Q by ring; reflexivity).
    change (Qabs (dval y - dval x) <= Qabs (dval x - dval x))%Q in N. rewrite Z in N. apply Qabs_Qle_condition in N. destruct N. lra.
  - exfalso. apply Qabs_Qlt_condition in B. change (sval x) with (dval x) in B. destruct B. lra.
  - exfalso. apply Qabs_Qlt_condition in B. change (sval x) with (dval x) in B. destruct B. lra.
Qed.
Section I.
Variable tol : double.
#[local] Instance Oi : Ops double := fops tol.
Lemma add_num x y v : proper x -> proper y -> proper v -> (dval x + dval y == dval v)%Q -> proper (oadd x y) /\ (dval (oadd x y) == dval v)%Q.
Proof. intros Px Py Pv E. destruct (add_facts x y Px Py) as [V C]. apply crt_self; auto. now apply (crt_wd _ _ _ _ _ E). Qed.
Lemma mul_num x y v : proper x -> proper y -> proper v -> (dval x * dval y == dval v)%Q -> proper (omul x y) /\ (dval (omul x y) == dval v)%Q.
Proof. intros Px Py Pv E. destruct (mul_facts x y Px Py) as [V C]. apply crt_self; auto. now apply (crt_wd _ _ _ _ _ E). Qed.
(** A sum of zeros and one number. *)
Lemma osum_one n g k v : k < n -> proper v -> (forall i, i < n -> proper (g i) /\ (dval (g i) == if i =? k then dval v else 0)%Q) -> proper (osum n g) /\ (dval (osum n g) == dval v)%Q.
Proof.
  intros Hk Pv H. destruct zero_proper as [PZ EZ].
  assert (G : forall m, m <= n -> proper (osum m g) /\ (dval (osum m g) == if k <? m then dval v else 0)%Q).
  { induction m as [|m IH]; intros Hm; cbn [osum]; [split; [exact PZ|exact EZ]|]. destruct (IH ltac:(lia)) as [P1 E1]. destruct (H m ltac:(lia)) as [P2 E2].
    destruct (Nat.ltb_spec k (S m)) as [L|L].
    - apply add_num; auto. rewrite E1, E2. destruct (Nat.ltb_spec k m), (Nat.eqb_spec m k); try lia; ring.
    - destruct (add_num (osum m g) (g m) (S754_zero false) P1 P2 PZ) as [P3 E3]; [rewrite E1, E2, EZ; destruct (Nat.ltb_spec k m), (Nat.eqb_spec m k); try lia; ring|].
      split; [exact P3|]. rewrite E3. exact EZ. }
  destruct (G n ltac:(lia)) as [P E]. split; [exact P|]. rewrite E. destruct (Nat.ltb_spec k n); [reflexivity|lia].
Qed.
Definition unitf (i j : nat) : double := if i =? j then o1 else o0.
Lemma unit_num i j : proper (unitf i j) /\ (dval (unitf i j) == if i =? j then 1 else 0)%Q.
Proof. unfold unitf. destruct (i =? j); [exact one_proper|exact zero_proper]. Qed.
Lemma unit_left n f i j : i < n -> (forall k, k < n -> proper (f k j)) -> proper (mprod n unitf f i j) /\ (dval (mprod n unitf f i j) == dval (f i j))%Q.
Proof.
  intros Hi H. unfold mprod. apply (osum_one n _ i); auto. intros k Hk. destruct (unit_num i k) as [P E]. destruct zero_proper as [PZ EZ]. rewrite Nat.eqb_sym.
  destruct (Nat.eqb_spec i k) as [<-|N]; [apply mul_num; auto; rewrite E; ring|].
  destruct (mul_num (unitf i k) (f k j) (S754_zero false) P (H k Hk) PZ) as [P' E']; [rewrite E, EZ; ring|]. split; [exact P'|]. rewrite E'. exact EZ.
Qed.
Lemma unit_right n f i j : j < n -> (forall k, k < n -> proper (f i k)) -> proper (mprod n f unitf i j) /\ (dval (mprod n f unitf i j) == dval (f i j))%Q.
Proof.
  intros Hj H. unfold mprod. apply (osum_one n _ j); auto. intros k Hk. destruct (unit_num k j) as [P E]. destruct zero_proper as [PZ EZ].
  destruct (Nat.eqb_spec k j) as [<-|N]; [apply mul_num; auto; rewrite E; ring|].
  destruct (mul_num (f i k) (unitf k j) (S754_zero false) (H k Hk) P PZ) as [P' E']; [rewrite E, EZ; ring|]. split; [exact P'|]. rewrite E'. exact EZ.
Qed.
(** * Multiplying finite doubles by the identity, on either side, changes no number *)
Theorem C109_identity : forall A r c f, @reads double A r c f -> 0 < r -> 0 < c -> shape_ok r r -> shape_ok c c -> (forall i j, i < r -> j < c -> proper (f i j)) ->
  exists il ir l rr, identity r o1 = Ok il /\ identity c o1 = Ok ir /\ m_mul (mb_of_mat il) A = Ok l /\ m_mul A (mb_of_mat ir) = Ok rr /\
    same_numbers l r c f /\ same_numbers rr r c f.
Proof.
  intros A r c f HA Hr Hc Sr Sc Hf. assert (Sh : shape_ok r c) by apply HA. destruct (C21_identity r (o1 : double) Hr Sr) as (il & El & Hl). destruct (C21_identity c (o1 : double) Hc Sc) as (ir & Er & Hir).
  destruct (m_mul_ok (mb_of_mat il) A r r c _ f (is_mat_reads _ _ _ _ Hl) HA Sh) as (l & E1 & H1). destruct (m_mul_ok A (mb_of_mat ir) r c c f _ HA (is_mat_reads _ _ _ _ Hir) Sh) as (rr & E2 & H2).
  exists il, ir, l, rr. do 4 (split; [assumption|]). split; eexists; (split; [eassumption|]); intros i j Hi Hj; [apply unit_left|apply unit_right]; auto.
Qed.
(** * So powm(A, 1) holds the numbers of A, and the second block of ctrb(A, B) those of A B *)
Theorem C109_powm_one : forall A n f, @reads double A n n f -> 0 < n -> (forall i j, i < n -> j < n -> proper (f i j)) -> exists m, powm A 1 = Ok m /\ same_numbers m n n f.
Proof.
  intros A n f HA Hn Hf. destruct (C109_powm A n f 1 HA Hn) as (m & E & Hm). exists m. split; [exact E|]. eexists. split; [exact Hm|]. intros i j Hi Hj. apply unit_left; auto.
Qed.
End I.
(** An infinite element is enough for both to fail: zero times infinity is NaN, and the rest of its row
    and column is lost. *)
Theorem C109_powm_one_refuted : exists (A m : Matrix double) f, is_mat A 2 2 f /\ f 0 0 = inf false /\ (forall i j, i < 2 -> j < 2 -> is_double (f i j)) /\
  @powm double (fops tol6) (mb_of_mat A) 1 = Ok m /\ data m = [inf false; one; nan; one] /\ data A = [inf false; one; one; one].
Proof.
  exists (mkM 2 2 [inf false; one; one; one]), (mkM 2 2 [inf false; one; nan; one]), (fun i j => if (i =? 0) && (j =? 0) then inf false else one).
  split; [split; [reflexivity|]; split; [reflexivity|]; split; [repeat split; vm_compute; reflexivity|]; split; [reflexivity|]; intros i j Hi Hj; destruct i as [|[|]]; destruct j as [|[|]]; try lia; reflexivity|].
  split; [reflexivity|]. split; [intros i j _ _; destruct (_ && _); reflexivity|]. split; [vm_compute; reflexivity|]. split; reflexivity.
Qed.

(** * Examples: the hypotheses are met *)
Definition d2 (a b c d : nat) : Matrix double := mkM 2 2 [natd a; natd b; natd c; natd d].
Definition col2 (a b : nat) : Matrix double := mkM 2 1 [natd a; natd b].
Lemma shape22 : shape_ok 2 2 /\ shape_ok 2 1 /\ shape_ok 1 2. Proof. repeat split; vm_compute; reflexivity. Qed.
Example C109_ex_reads : readsL (mb_of_mat (d2 1 2 3 4)) 2 2 (fun i j => natd (2 * i + j + 1)) /\ readsL (mb_of_mat (col2 1 2)) 2 1 (fun i _ => natd (i + 1)) /\
  (forall x y : double, exists q, @odiv double (fops tol6) x y = Ok q) /\ (forall i j, i < 2 -> j < 2 -> proper (natd (2 * i + j + 1))).
Proof.
  split; [|split; [|split; [apply fdiv_total|]]].
  - apply is_mat_readsL. split; [reflexivity|]. split; [reflexivity|]. split; [apply shape22|]. split; [reflexivity|]. intros i j Hi Hj; destruct i as [|[|]]; destruct j as [|[|]]; try lia; reflexivity.
  - apply is_mat_readsL. split; [reflexivity|]. split; [reflexivity|]. split; [apply shape22|]. split; [reflexivity|]. intros i j Hi Hj; destruct i as [|[|]]; destruct j; try lia; reflexivity.
  - intros i j Hi Hj. destruct i as [|[|]]; destruct j as [|[|]]; try lia; split; reflexivity || exact I.
Qed.
(** ctrb, poly and acker of a controllable system with 2 states; one pole too few; not controllable. *)
Example C109_ex_acker :
  @ctrb double (fops tol6) (mb_of_mat (d2 1 1 0 1)) (mb_of_mat (col2 0 1)) = Ok (d2 0 1 1 1) /\
  @poly_m double (fops tol6) (mb_of_mat (d2 1 2 3 4)) = Ok [one; SFopp (natd 5); SFopp (natd 2)] /\
  @acker double (fops tol6) (mb_of_mat (d2 1 1 0 1)) (mb_of_mat (col2 0 1)) (mb_of_mat (mkM 1 2 [S754_zero false; S754_zero false])) = Ok (mkM 1 2 [one; natd 2]) /\
  @acker double (fops tol6) (mb_of_mat (d2 1 1 0 1)) (mb_of_mat (col2 0 1)) (mb_of_mat (mkM 1 1 [S754_zero false])) = UB /\
  @acker double (fops tol6) (mb_of_mat (d2 1 0 0 1)) (mb_of_mat (col2 1 1)) (mb_of_mat (mkM 1 1 [S754_zero false])) = Exit.
Proof. repeat split; vm_compute; reflexivity. Qed.
(** c2d of a system with one state, sampled every 2^-30 seconds: C must have one column; a zero A throws. *)
Definition ts30 : double := S754_finite false 4503599627370496 (-82).
Definition one_state (a : double) (C : Matrix double) : SS double := mkSS (mkM 1 1 [a]) (mkM 1 1 [one]) C (mkM 1 1 [one]).
Example C109_ex_c2d :
  (exists d, @c2d double (fops tol6) (SFsqrt prec64 emax64) half tol6 1076 (one_state one (mkM 2 1 [one; one])) ts30 = Ok d /\ sC (dsys d) = mkM 2 1 [one; one]) /\
  @c2d double (fops tol6) (SFsqrt prec64 emax64) half tol6 1076 (one_state one (mkM 1 2 [one; one])) ts30 = UB /\
  @c2d double (fops tol6) (SFsqrt prec64 emax64) half tol6 1076 (one_state (S754_zero false) (mkM 1 1 [one])) ts30 = Throw.
Proof. split; [eexists; split; [vm_compute; reflexivity|reflexivity]|]. split; vm_compute; reflexivity. Qed.
