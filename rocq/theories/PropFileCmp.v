(** PropFileCmp.v: C105, a file of doubles read back compares equal to what was written. *)
From Coq Require Import ZArith QArith Qabs Qpower Qminmax Bool Lia Lqa SpecFloat List String.
From Verif Require Import Scalar MatFacts PropMatrix PropIO IOSpec Linalg LinalgFacts2 PropUtil PropMath Feq IO IOFacts PropIO3 Float FloatFacts FloatValid FloatRound FloatIO FloatIOFacts FloatIOFacts2 FileFacts FloatArith FloatSum FloatCmp PropFloat PropFloat2 PropFloatIO PropFloatSum PropFloatCmp.
Import ListNotations.
Local Open Scope nat_scope.

(** * Specification *)
(** A finite double of size at most 10^308. *)
Definition in_reach (x : double) : Prop := proper x /\ (Qabs (dval x) <= inject_Z (10 ^ 308))%Q.
(** The unit of the last of P significant digits, as a fraction of the number: 10^(1-P). *)
Definition last_digit (P : nat) : Q := (/ inject_Z (10 ^ (Z.of_nat (Nat.max P 1) - 1)))%Q.

(** What is read differs from what was written by at most one unit of the last digit. *)
Lemma near_close P x y : proper x -> near P x y -> proper y /\ (Qabs (dval y - dval x) <= last_digit P * Qabs (dval x))%Q.
Proof.
  intros [Dx Fx] (q & Hq & (Dy & Fy & N)). split; [split; [exact Dy|exact Fy]|].
  specialize (N x Dx Fx). assert (T : (Qabs (dval y - dval x) <= Qabs (dval y - q) + Qabs (q - dval x))%Q).
  { setoid_replace (dval y - dval x)%Q with ((dval y - q) + (q - dval x))%Q by ring. apply Qabs_triangle. }
  assert (N' : (Qabs (dval y - q) <= Qabs (q - dval x))%Q) by (rewrite (Qabs_Qminus q (dval x)); exact N).
  rewrite inject_Z_mult in Hq. unfold last_digit. set (v := inject_Z (10 ^ (Z.of_nat (Nat.max P 1) - 1))) in *.
  assert (V : (0 < v)%Q) by (unfold v, Qlt; cbn [Qnum Qden inject_Z]; pose proof (p10_pos (Z.of_nat (Nat.max P 1) - 1)); lia). clearbody v.
  rewrite Qmult_comm. apply Qle_shift_div_l; [exact V|].
  set (d := Qabs (q - dval x)) in *. set (b := Qabs (dval y - dval x)) in *. set (c := Qabs (dval y - q)) in *. assert (BD : (b <= 2 * d)%Q) by lra. clearbody b c d.
  pose proof (Qmult_le_compat_r _ _ v BD (Qlt_le_weak _ _ V)) as M. eapply Qle_trans; [exact M|]. change (inject_Z 2) with 2%Q in Hq. setoid_replace (2 * d * v)%Q with (2 * v * d)%Q by ring. exact Hq.
Qed.

Local Open Scope string_scope.
(** Every finite double of size at most 10^308 is read back, at every precision. *)
Lemma reach_reads plus P x : in_reach x -> exists y, reads_as (show_double plus P) get_double x y /\ near P x y.
Proof.
  intros [[Hd Hf] HX]. destruct (near_reads plus P x Hd Hf) as (y & [H|[_ (s & -> & H)]]); [exists y; auto|exfalso].
  destruct (C88_accuracy plus P x "" " " Hd Hf I (ws_sp "")) as (q & Hq & [(y & _ & E)|(Hi & s' & E)]).
  - destruct (H "" " " I (ws_sp "")) as (s0 & E0 & F). rewrite E in E0. injection E0 as _ <-. discriminate.
  - pose proof (Qabs_triangle (q - dval x) (dval x)) as HT. setoid_replace (q - dval x + dval x)%Q with q in HT by ring.
    assert (HV : (1 <= inject_Z (10 ^ (Z.of_nat (Nat.max P 1) - 1)))%Q) by (unfold Qle; cbn [Qnum Qden inject_Z]; pose proof (p10_pos (Z.of_nat (Nat.max P 1) - 1)); lia).
    rewrite inject_Z_mult in Hq. set (v := inject_Z (10 ^ (Z.of_nat (Nat.max P 1) - 1))) in *. pose proof (Qabs_nonneg (q - dval x)) as HN.
    set (d := Qabs (q - dval x)) in *. set (a := Qabs (dval x)) in *. set (b := Qabs q) in *. clearbody v d a b.
    assert (H2 : (2 * d <= a)%Q).
    { apply Qle_trans with (inject_Z 2 * v * d)%Q; [|exact Hq]. setoid_replace (2 * d)%Q with (1 * (2 * d))%Q by ring. setoid_replace (inject_Z 2 * v * d)%Q with (v * (2 * d))%Q by (unfold inject_Z; ring).
      apply Qmult_le_compat_r; [exact HV|]. lra. }
    assert (HC : (3 * inject_Z (10 ^ 308) < 2 * inject_Z (2 ^ 1024 - 2 ^ 970))%Q) by (vm_compute; reflexivity).
    set (c1 := inject_Z (10 ^ 308)) in *. set (c2 := inject_Z (2 ^ 1024 - 2 ^ 970)) in *. clearbody c1 c2. lra.
Qed.
Lemma size_comm x y : (size x y == size y x)%Q.
Proof. apply Q.max_comm. Qed.
Lemma near_equal t P x y : proper t -> (last_digit P <= dval t <= 1)%Q -> proper x -> near P x y -> feq t y x = true /\ feq t x y = true.
Proof.
  intros Ht [T1 T2] Hx N. destruct (near_close P x y Hx N) as [Hy C].
  assert (L0 : (0 <= last_digit P)%Q).
  { unfold last_digit. apply Qinv_le_0_compat. unfold Qle. cbn [Qnum Qden inject_Z]. pose proof (p10_pos (Z.of_nat (Nat.max P 1) - 1)). lia. }
  assert (TR : (0 <= dval t <= 1)%Q) by (split; [eapply Qle_trans; [exact L0|exact T1]|exact T2]).
  assert (B : (Qabs (dval y - dval x) <= dval t * size y x)%Q).
  { eapply Qle_trans; [exact C|]. eapply Qle_trans; [apply Qmult_le_compat_r; [exact T1|apply Qabs_nonneg]|].
    rewrite (Qmult_comm (dval t)), (Qmult_comm (dval t)). apply Qmult_le_compat_r; [apply Q.le_max_r|apply TR]. }
  split; [apply (equal_val t y x); auto|apply (equal_val t x y); auto]. rewrite Qabs_Qminus, size_comm. exact B.
Qed.

(** * C105 *)
Section Tol.
Variables (tol : double) (P : nat).
Hypothesis Ht : proper tol.
Hypothesis Hd : (last_digit P <= dval tol <= 1)%Q.
#[local] Existing Instance fops0.

Lemma all_true_v (E : list bool) n : is_vec E n (fun _ => true) -> all_v E = Ok true.
Proof. intros HE. destruct (C37_all_vec E n _ HE) as (b & Eb & Hb). rewrite Eb. f_equal. apply Hb. intros i Hi. reflexivity. Qed.
Lemma all_true_m (E : Matrix bool) r c g : is_mat E r c g -> (forall i j, i < r -> j < c -> g i j = true) -> all_m (mb_of_mat E) = Ok true.
Proof.
  intros HE HG. destruct (C37_all (mb_of_mat E) r c _ (is_mat_readsL _ _ _ _ HE)) as (b & Eb & Hb). rewrite Eb. f_equal. apply Hb.
  intros i j Hi Hj. rewrite (HG i j Hi Hj). reflexivity.
Qed.
(** A Vector saved with P significant digits and loaded again: all(loaded == saved), if the tolerance is at least
    10^(1-P). *)
Theorem C105_vector : forall plus l target lead tail, fits (length l) -> Forall in_reach l -> blank lead ->
  exists txt ws l' E E', write_v (show_double plus P) (show_double false P) l = Ok txt /\ blank ws /\
    gread_v get_double target (good (lead ++ txt ++ tail)) = Ok (l', good (ws ++ tail)) /\
    @v_eq double (fops tol) l' l = Ok E /\ all_v E = Ok true /\ @v_eq double (fops tol) l l' = Ok E' /\ all_v E' = Ok true.
Proof.
  intros plus l target lead tail Hl Hr Hb.
  assert (H : exists l', Forall2 (reads_as (show_double plus P) get_double) l l' /\ Forall2 (near P) l l').
  { clear Hl. induction l as [|x l IH]; [exists nil; split; constructor|]. inversion Hr; subst. destruct IH as (l' & H1' & H2'); auto.
    destruct (reach_reads plus P x) as (y & Y1 & Y2); auto. exists (y :: l'). split; constructor; auto. }
  destruct H as (l' & H1 & H2). destruct (gfile_v (show_double plus P) get_double (show_double false P) l l' target lead tail Hl H1 Hb) as (txt & ws & E1 & E2 & E3).
  assert (L : length l = length l') by (clear - H2; induction H2; cbn; congruence).
  pose proof (vec_as_fun l nan Hl) as V. pose proof (vec_as_fun l' nan ltac:(rewrite <- L; exact Hl)) as V'. rewrite <- L in V'.
  assert (Q : forall i, i < length l -> feq tol (nth i l' nan) (nth i l nan) = true /\ feq tol (nth i l nan) (nth i l' nan) = true).
  { intros i Hi. apply (near_equal tol P); auto.
    - rewrite Forall_forall in Hr. apply Hr. now apply nth_In.
    - clear - H2 Hi. revert i Hi. induction H2 as [|x y l l' N F IH]; intros i Hi; [cbn in Hi; lia|]. destruct i as [|i]; [exact N|]. cbn. apply IH. cbn in Hi. lia. }
  destruct (@C36_compare_vec double (fops tol)) as (K & _).
  destruct (proj2 (K l' l _ _ _ _ V' V) eq_refl) as (E & HE & IE). destruct (proj2 (K l l' _ _ _ _ V V') eq_refl) as (E' & HE' & IE').
  exists txt, ws, l', E, E'. split; [auto|]. split; [auto|]. split; [auto|]. split; [exact HE|]. split; [|split; [exact HE'|]].
  - apply (all_true_v E (length l)). destruct IE as (? & ? & G). split; [auto|]. split; [auto|]. intros i Hi. rewrite (G i Hi). f_equal. apply Q, Hi.
  - apply (all_true_v E' (length l)). destruct IE' as (? & ? & G). split; [auto|]. split; [auto|]. intros i Hi. rewrite (G i Hi). f_equal. apply Q, Hi.
Qed.
(** The same for a Matrix or a View of one. *)
Theorem C105_matrix : forall plus A r c f target lead tail, readsL A r c f -> (forall i j, i < r -> j < c -> in_reach (f i j)) -> wf target -> blank lead ->
  exists txt ws m E E', write_m (show_double plus P) (show_double false P) A = Ok txt /\ blank ws /\
    gread_m get_double target (good (lead ++ txt ++ tail)) = Ok (m, good (ws ++ tail)) /\ rows m = r /\ cols m = c /\
    @m_eq double (fops tol) (mb_of_mat m) A = Ok E /\ all_m (mb_of_mat E) = Ok true /\ @m_eq double (fops tol) A (mb_of_mat m) = Ok E' /\ all_m (mb_of_mat E') = Ok true.
Proof.
  intros plus A r c f target lead tail HA HF Hwf Hb.
  destruct (choice2 r c (fun i j y => reads_as (show_double plus P) get_double (f i j) y /\ near P (f i j) y)) as (g & Hg).
  { intros i j Hi Hj. apply reach_reads; auto. }
  destruct (gfile_m (show_double plus P) get_double (show_double false P) A r c f g target lead tail HA) as (txt & ws & m & E1 & E2 & E3 & E4); auto.
  { intros i j Hi Hj. now apply Hg. }
  pose proof (is_mat_readsL _ _ _ _ E4) as HM. destruct (@C36_compare double (fops tol)) as (K & _).
  destruct (proj2 (K _ _ _ _ _ _ _ _ HM HA) eq_refl eq_refl) as (E & HE & IE). destruct (proj2 (K _ _ _ _ _ _ _ _ HA HM) eq_refl eq_refl) as (E' & HE' & IE').
  assert (Q : forall i j, i < r -> j < c -> feq tol (g i j) (f i j) = true /\ feq tol (f i j) (g i j) = true).
  { intros i j Hi Hj. apply (near_equal tol P); auto; [apply HF; auto|apply Hg; auto]. }
  exists txt, ws, m, E, E'. split; [auto|]. split; [auto|]. split; [auto|]. split; [apply E4|]. split; [apply E4|]. split; [exact HE|]. split; [|split; [exact HE'|]].
  - apply (all_true_m E r c _ IE). intros i j Hi Hj. now apply Q.
  - apply (all_true_m E' r c _ IE'). intros i j Hi Hj. now apply Q.
Qed.
End Tol.
(** tests/test_read_write_file.cpp, for every Vector and Matrix of numbers in the range the test draws from: nine digits
    and the tolerance 10^-6. *)
Lemma ten_reach x : proper x -> (Qabs (dval x) <= 10)%Q -> in_reach x.
Proof. intros H B. split; [exact H|]. eapply Qle_trans; [exact B|]. vm_compute. discriminate. Qed.
Lemma test_tolerance : proper tol6 /\ (last_digit 9 <= dval tol6 <= 1)%Q.
Proof. split; [split; vm_compute; auto|]. split; vm_compute; discriminate. Qed.
#[local] Existing Instance fops0.
Theorem C105_test : 
  (forall l, fits (length l) -> Forall (fun x => proper x /\ (Qabs (dval x) <= 10)%Q) l ->
   exists txt ws l' E, write_v (show_double false 9) (show_double false 9) l = Ok txt /\ blank ws /\
     gread_v get_double [] (good txt) = Ok (l', good ws) /\ @v_eq double (fops tol6) l' l = Ok E /\ all_v E = Ok true) /\
  (forall M r c f, is_mat M r c f -> (forall i j, i < r -> j < c -> proper (f i j) /\ (Qabs (dval (f i j)) <= 10)%Q) ->
   exists txt ws m E, write_m (show_double false 9) (show_double false 9) (mb_of_mat M) = Ok txt /\ blank ws /\
     gread_m get_double (mkM 0 0 []) (good txt) = Ok (m, good ws) /\ @m_eq double (fops tol6) (mb_of_mat m) (mb_of_mat M) = Ok E /\ all_m (mb_of_mat E) = Ok true).
Proof.
  destruct test_tolerance as [T1 T2]. assert (AN : forall s, (s ++ "")%string = s) by (induction s as [|a s IH]; [reflexivity|cbn; now rewrite IH]). split.
  - intros l Hl HF. destruct (C105_vector tol6 9 T1 T2 false l [] "" "" Hl) as (txt & ws & l' & E & E' & A1 & A2 & A3 & A4 & A5 & _); [|exact I|].
    { eapply Forall_impl; [|exact HF]. intros x [? ?]. now apply ten_reach. }
    exists txt, ws, l', E. rewrite !AN in A3. cbn [append] in A3. auto.
  - intros M r c f HM HF. destruct (C105_matrix tol6 9 T1 T2 false (mb_of_mat M) r c f (mkM 0 0 []) "" "" (is_mat_readsL _ _ _ _ HM)) as (txt & ws & m & E & E' & A1 & A2 & A3 & _ & _ & A4 & A5 & _); [| | |].
    { intros i j Hi Hj. destruct (HF i j Hi Hj). now apply ten_reach. }
    { split; [|reflexivity]. repeat split; now vm_compute. }
    { exact I. }
    exists txt, ws, m, E. rewrite !AN in A3. cbn [append] in A3. auto.
Qed.
(** With the stream's default of six digits it fails: 1.2345649... *)
Definition seven : double := S754_finite false 5559986023604694 (-52).
Theorem C105_default_refuted : ~ (forall l, fits (length l) -> Forall (fun x => proper x /\ (Qabs (dval x) <= 10)%Q) l ->
   exists txt ws l' E, write_v (show_double false 6) (show_double false 6) l = Ok txt /\
     gread_v get_double [] (good txt) = Ok (l', good ws) /\ @v_eq double (fops tol6) l' l = Ok E /\ all_v E = Ok true).
Proof.
  intros H. destruct (H [seven]) as (txt & ws & l' & E & A1 & A2 & A3 & A4).
  - vm_compute; auto.
  - repeat constructor; vm_compute; auto; discriminate.
  - vm_compute in A1. injection A1 as <-. vm_compute in A2. injection A2 as <- _. vm_compute in A3. injection A3 as <-. discriminate A4.
Qed.
(** A concrete case of the hypotheses: 1.2345649 and -0.5 with eight digits. *)
Theorem C105_ex : Forall in_reach [seven; S754_finite true 4503599627370496 (-53)] /\ proper tol6 /\ (last_digit 8 <= dval tol6 <= 1)%Q /\ (dval tol6 < last_digit 7)%Q /\ write_v (show_double false 6) (show_double false 6) [seven] = Ok ("V 1
1.23456
") /\ (exists txt, write_v (show_double false 8) (show_double false 8) [seven; S754_finite true 4503599627370496 (-53)] = Ok txt).
Proof.
  split; [repeat constructor; vm_compute; auto; discriminate|]. split; [apply test_tolerance|]. split; [split; vm_compute; discriminate|].
  split; [vm_compute; reflexivity|]. split; [vm_compute; reflexivity|]. eexists. vm_compute. reflexivity.
Qed.
