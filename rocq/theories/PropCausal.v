(** PropCausal.v: C123, runs of simulate for any system of any shapes, over any element type: what they
    are, that they cannot look ahead, and how they fail. *)
From Verif Require Import BaseFacts MathFacts Control ControlSpec.

Section Causal.
Context {T : Type} {O : Ops T}.
(** ** Specification *)
(** The states after the initial one, and the outputs. *)
Fixpoint follow (sys : DSS T) (x : list T) (us : list (list T)) : Res (list (list T) * list (list T)) :=
  match us with
  | nil => Ok (nil, nil)
  | u :: us => let* (x', y) := simulate_step sys x u in let* (xs, ys) := follow sys x' us in Ok (x' :: xs, y :: ys)
  end.
(** The times: 0, 0 + ts, 0 + ts + ts, ... for each step, and then one last 0. *)
Definition times (sys : DSS T) (n : nat) : list T := map (ntimes (sample_time sys)) (seq 0 n) ++ [o0].

(** ** Facts *)
Lemma last_cons {A} (xs : list A) a d : last (a :: xs) d = last xs a.
Proof. revert a d. induction xs as [|b xs IH]; intros a d; [reflexivity|]. change (last (a :: b :: xs) d) with (last (b :: xs) d). now rewrite !IH. Qed.
Lemma follow_app sys us vs x : follow sys x (us ++ vs) =
  let* (xs, ys) := follow sys x us in let* (xs', ys') := follow sys (last xs x) vs in Ok (xs ++ xs', ys ++ ys').
Proof.
  revert x. induction us as [|u us IH]; intros x; cbn [app follow].
  - cbn [bind last]. destruct (follow sys x vs) as [[xs ys]| | | |]; reflexivity.
  - destruct (simulate_step sys x u) as [[x' y]| | | |]; cbn [bind]; auto. rewrite IH.
    destruct (follow sys x' us) as [[xs ys]| | | |]; cbn [bind]; auto.
    rewrite last_cons.
    destruct (follow sys (last xs x') vs) as [[xs' ys']| | | |]; reflexivity.
Qed.
Lemma follow_len sys us : forall x xs ys, follow sys x us = Ok (xs, ys) -> length xs = length us /\ length ys = length us.
Proof.
  induction us as [|u us IH]; intros x xs ys; cbn [follow].
  - intros [= <- <-]. auto.
  - destruct (simulate_step sys x u) as [[x' y]| | | |]; cbn [bind]; try discriminate.
    destruct (follow sys x' us) as [[a b]| | | |] eqn:E; cbn [bind]; try discriminate. intros [= <- <-]. destruct (IH _ _ _ E). cbn. lia.
Qed.
Lemma last_nth {A} (xs : list A) x : nth_error (x :: xs) (length xs) = Some (last xs x).
Proof. revert x. induction xs as [|a xs IH]; intros x; [reflexivity|]. rewrite last_cons. cbn [length nth_error]. apply IH. Qed.
Lemma firstn_snoc {A} (l : list A) i a : nth_error l i = Some a -> firstn (S i) l = firstn i l ++ [a].
Proof. revert i. induction l as [|b l IH]; intros [|i]; cbn [nth_error]; try discriminate; intros E. - injection E as ->. reflexivity. - cbn [firstn app]. f_equal. now apply IH. Qed.
Lemma upd_app {A} (l : list A) b r v : upd (l ++ b :: r) (length l) v = l ++ v :: r.
Proof. induction l as [|a l IH]; [reflexivity|]. cbn [app length upd]. now rewrite IH. Qed.
Lemma loop_is sys (u : list (list T)) init N : N <= length u -> forall i, i <= N ->
  for_range 0 i (fun i (s : list T * list (list T) * list (list T) * T) =>
    let '(t, x, y, rtime) := s in
    let* t := lset t i rtime in
    let* xb := lget x (length x - 1) in
    let* ui := lget u i in
    let* (x', y') := simulate_step sys xb ui in
    Ok (t, x ++ [x'], y ++ [y'], oadd rtime (sample_time sys))) (repeat o0 (N + 1), [init], nil, o0) =
  let* (xs, ys) := follow sys init (firstn i u) in
  Ok (map (ntimes (sample_time sys)) (seq 0 i) ++ repeat o0 (N + 1 - i), init :: xs, ys, ntimes (sample_time sys) i).
Proof.
  intros LN. induction i as [|i IH]; intros Li.
  - rewrite for_range_empty by lia. cbn [firstn follow bind seq map app ntimes]. now rewrite Nat.sub_0_r.
  - rewrite for_range_last by lia. rewrite IH by lia. destruct (nth_error_lt u i) as [ui Eu]; [lia|]. rewrite (firstn_snoc _ _ _ Eu), follow_app.
    destruct (follow sys init (firstn i u)) as [[xs ys]| | | |] eqn:Ef; cbn [bind]; auto. destruct (follow_len _ _ _ _ _ Ef) as [Lx Ly].
    rewrite firstn_length_le in Lx, Ly by lia.
    assert (Lm : length (map (ntimes (sample_time sys)) (seq 0 i)) = i) by now rewrite map_length, seq_length.
    rewrite lset_ok by (rewrite app_length, Lm, repeat_length; lia). cbn [bind length]. replace (S (length xs) - 1) with (length xs) by lia.
    rewrite (lget_ok _ _ _ (last_nth xs init)). cbn [bind]. rewrite (lget_ok _ _ _ Eu). cbn [bind follow].
    destruct (simulate_step sys (last xs init) ui) as [[x' y']| | | |]; cbn [bind]; auto. cbn [app].
    replace (N + 1 - i) with (S (N + 1 - S i)) by lia. cbn [repeat]. pose proof (upd_app (map (ntimes (sample_time sys)) (seq 0 i)) o0 (repeat o0 (N + 1 - S i)) (ntimes (sample_time sys) i)) as U. rewrite Lm in U. rewrite U. rewrite seq_S, map_app, Nat.add_0_l. cbn [map]. rewrite <- app_assoc. reflexivity.
Qed.

(** ** C123 *)
(** A run is the division, the conversion, and then the steps: with every failure, for any shapes. *)
Theorem C123_run trunc sys u tm init : simulate trunc sys u tm init =
  let* q := odiv tm (sample_time sys) in
  let* k := trunc q in
  let* (xs, ys) := follow sys init (firstn k u) in
  Ok (times sys (length ys), init :: xs, ys).
Proof.
  unfold simulate. destruct (odiv tm (sample_time sys)) as [q| | | |]; cbn [bind]; auto. destruct (trunc q) as [k| | | |]; cbn [bind]; auto.
  rewrite loop_is by lia. assert (E : firstn (Nat.min (length u) k) u = firstn k u).
  { destruct (Nat.le_ge_cases (length u) k) as [L|L]; [rewrite Nat.min_l by lia; now rewrite !firstn_all2 by lia|now rewrite Nat.min_r by lia]. }
  rewrite E. destruct (follow sys init (firstn k u)) as [[xs ys]| | | |] eqn:Ef; cbn [bind]; auto. destruct (follow_len _ _ _ _ _ Ef) as [_ Ly]. rewrite firstn_length in Ly.
  replace (Nat.min (length u) k) with (length ys) by lia. replace (length ys + 1 - length ys) with 1 by lia. reflexivity.
Qed.
(** How many steps a run of this duration may take at most. *)
Definition horizon trunc (sys : DSS T) tm (k : nat) : Prop := exists q, odiv tm (sample_time sys) = Ok q /\ trunc q = Ok k.
Lemma run_is trunc sys u tm init k : horizon trunc sys tm k -> simulate trunc sys u tm init = let* (xs, ys) := follow sys init (firstn k u) in Ok (times sys (length ys), init :: xs, ys).
Proof. intros (q & E1 & E2). rewrite C123_run, E1. cbn [bind]. now rewrite E2. Qed.
Lemma follow_first sys us : forall x xs ys k, follow sys x us = Ok (xs, ys) -> follow sys x (firstn k us) = Ok (firstn k xs, firstn k ys).
Proof.
  induction us as [|u us IH]; intros x xs ys k; cbn [follow].
  - intros [= <- <-]. rewrite !firstn_nil. reflexivity.
  - destruct (simulate_step sys x u) as [[x' y]| | | |] eqn:Es; cbn [bind]; try discriminate.
    destruct (follow sys x' us) as [[a b]| | | |] eqn:E; cbn [bind]; try discriminate. intros [= <- <-]. destruct k as [|k]; [reflexivity|].
    cbn [firstn follow]. rewrite Es. cbn [bind]. now rewrite (IH _ _ _ k E).
Qed.
(** Running on the first inputs only, or for a shorter time, gives the beginning of the run. *)
Theorem C123_prefix trunc sys u tm tm' init K K' k t x y : horizon trunc sys tm K -> horizon trunc sys tm' K' -> simulate trunc sys u tm init = Ok (t, x, y) ->
  let n := Nat.min k K' in n <= K -> simulate trunc sys (firstn k u) tm' init = Ok (times sys (Nat.min n (length y)), firstn (S n) x, firstn n y).
Proof.
  intros H H' E n L. rewrite (run_is _ _ _ _ _ _ H) in E. rewrite (run_is _ _ _ _ _ _ H'). destruct (follow sys init (firstn K u)) as [[xs ys]| | | |] eqn:Ef; cbn [bind] in E; try discriminate.
  injection E as <- <- <-. rewrite firstn_firstn. replace (Nat.min K' k) with (Nat.min n K) by (subst n; lia). rewrite <- firstn_firstn. rewrite (follow_first _ _ _ _ _ n Ef). cbn [bind firstn].
  rewrite firstn_length. reflexivity.
Qed.
(** Two runs on inputs whose first [k] are the same have the same first [k] outputs and the same states up to then:
    no output depends on a later input. *)
Theorem C123_causal trunc trunc' sys u u' tm tm' init K K' k t x y t' x' y' : horizon trunc sys tm K -> horizon trunc' sys tm' K' -> k <= K -> k <= K' -> firstn k u = firstn k u' ->
  simulate trunc sys u tm init = Ok (t, x, y) -> simulate trunc' sys u' tm' init = Ok (t', x', y') -> firstn (S k) x = firstn (S k) x' /\ firstn k y = firstn k y'.
Proof.
  intros H H' L L' Eu E E'. rewrite (run_is _ _ _ _ _ _ H) in E. rewrite (run_is _ _ _ _ _ _ H') in E'.
  destruct (follow sys init (firstn K u)) as [[xs ys]| | | |] eqn:Ef; cbn [bind] in E; try discriminate. destruct (follow sys init (firstn K' u')) as [[xs' ys']| | | |] eqn:Ef'; cbn [bind] in E'; try discriminate.
  injection E as <- <- <-. injection E' as <- <- <-. pose proof (follow_first _ _ _ _ _ k Ef) as F. pose proof (follow_first _ _ _ _ _ k Ef') as F'. rewrite !firstn_firstn in F, F'. rewrite !Nat.min_l in F, F' by lia.
  rewrite Eu in F. rewrite F in F'. injection F' as E1 E2. cbn [firstn]. now rewrite E1, E2.
Qed.
(** A run that fails within its horizon fails in one definite step: on the inputs before it the run succeeds, and the
    step from the state reached so far fails in just that way. *)
Theorem C123_failure trunc sys u tm init K : horizon trunc sys tm K -> (forall r, simulate trunc sys u tm init <> Ok r) ->
  exists i ui t x xi y, i < K /\ nth_error u i = Some ui /\ simulate trunc sys (firstn i u) tm init = Ok (t, x ++ [xi], y) /\ length x = i /\
    match simulate_step sys xi ui, simulate trunc sys u tm init with Throw, Throw | UB, UB | Exit, Exit | Fuel, Fuel => True | _, _ => False end.
Proof.
  intros H F. rewrite (run_is _ _ _ _ _ _ H) in *. assert (G : forall r, follow sys init (firstn K u) <> Ok r) by (intros [xs ys] E; rewrite E in F; eapply F; reflexivity).
  assert (S : exists i ui xs ys, nth_error (firstn K u) i = Some ui /\ follow sys init (firstn i (firstn K u)) = Ok (xs, ys) /\
    match simulate_step sys (last xs init) ui, follow sys init (firstn K u) with Throw, Throw | UB, UB | Exit, Exit | Fuel, Fuel => True | _, _ => False end).
  { clear H F. revert init G. induction (firstn K u) as [|v us IH]; intros init G; [exfalso; eapply G; reflexivity|]. cbn [follow] in G |- *.
    destruct (simulate_step sys init v) as [[x' y']| | | |] eqn:Es; cbn [bind] in *.
    - destruct (IH x') as (i & ui & xs & ys & E1 & E2 & E3). { intros [a b] E. rewrite E in G. eapply G. reflexivity. }
      exists (S i), ui, (x' :: xs), (y' :: ys). cbn [nth_error firstn follow]. rewrite Es. cbn [bind]. rewrite E2. cbn [bind]. split; [exact E1|]. split; [reflexivity|].
      rewrite last_cons. destruct (simulate_step sys (last xs x') ui), (follow sys x' us) as [[? ?]| | | |]; cbn [bind]; auto.
    - exists 0, v, nil, nil. cbn. rewrite Es. auto.
    - exists 0, v, nil, nil. cbn. rewrite Es. auto.
    - exists 0, v, nil, nil. cbn. rewrite Es. auto.
    - exists 0, v, nil, nil. cbn. rewrite Es. auto. }
  destruct S as (i & ui & xs & ys & E1 & E2 & E3). assert (Li : i < length (firstn K u)) by (apply nth_error_Some; congruence). rewrite firstn_length in Li.
  assert (E1' : nth_error u i = Some ui). { rewrite <- (firstn_skipn K u). rewrite nth_error_app1 by (rewrite firstn_length; lia). exact E1. }
  destruct (follow_len _ _ _ _ _ E2) as [Lx Ly]. rewrite firstn_firstn, firstn_length in Lx. 
  destruct (@exists_last _ (init :: xs)) as (pre & xl & Ep); [discriminate|]. assert (El : xl = last xs init). { assert (X : last (init :: xs) init = last (pre ++ [xl]) init) by now rewrite Ep. rewrite last_last, last_cons in X. congruence. }
  exists i, ui, (times sys (length ys)), pre, xl, ys. split; [lia|]. split; [exact E1'|]. split.
  - rewrite (run_is _ _ _ _ _ _ H). rewrite firstn_firstn, Nat.min_comm, <- firstn_firstn, E2. cbn [bind]. now rewrite Ep.
  - split; [assert (X := f_equal (@length _) Ep); rewrite app_length in X; cbn in X; lia|].
    rewrite El. destruct (simulate_step sys (last xs init) ui), (follow sys init (firstn K u)) as [[? ?]| | | |]; cbn [bind]; auto.
Qed.
(** The run on the inputs [u1] followed by [u2] is the run on [u1] continued by the run on [u2] from its last state; it
    fails when one of the two does. *)
Theorem C123_continue trunc sys u1 u2 tm init K : horizon trunc sys tm K -> length u1 + length u2 <= K ->
  match simulate trunc sys u1 tm init, simulate trunc sys (u1 ++ u2) tm init with
  | Ok (t1, x1, y1), r => match simulate trunc sys u2 tm (last x1 init), r with
      | Ok (t2, x2, y2), Ok (t, x, y) => x = x1 ++ tl x2 /\ y = y1 ++ y2 /\ t = times sys (length y1 + length y2)
      | Throw, Throw | UB, UB | Exit, Exit | Fuel, Fuel => True | _, _ => False end
  | Throw, Throw | UB, UB | Exit, Exit | Fuel, Fuel => True | _, _ => False end.
Proof.
  intros H L. rewrite !(run_is _ _ _ _ _ _ H). rewrite !firstn_all2 by (rewrite ?app_length; lia). rewrite follow_app.
  destruct (follow sys init u1) as [[xs ys]| | | |] eqn:E1; cbn [bind]; auto. rewrite (run_is _ _ _ _ _ _ H). rewrite firstn_all2 by lia. rewrite last_cons.
  destruct (follow sys (last xs init) u2) as [[xs' ys']| | | |] eqn:E2; cbn [bind]; auto. cbn [tl]. rewrite app_length. auto.
Qed.
End Causal.

(** ** Examples *)
(** A system over the integers with two states, one input and one output; each step takes one unit of time. *)
Definition csys : DSS Z := mkDSS (mkSS (mkM 2 2 [1; 1; 0; 1]%Z) (mkM 2 1 [0; 1]%Z) (mkM 1 2 [1; 0]%Z) (mkM 1 1 [2]%Z)) 1%Z.
Definition whole_steps (z : Z) : Res nat := if (z <? 0)%Z then UB else Ok (Z.to_nat z).
Definition cu : list (list Z) := [[3]; [-1]; [4]; [1]]%Z.
Example C123_horizon4 : horizon whole_steps csys 4%Z 4.
Proof. exists 4%Z. split; reflexivity. Qed.
Example C123_horizon2 : horizon whole_steps csys 2%Z 2.
Proof. exists 2%Z. split; reflexivity. Qed.
Example C123_ex_run : simulate whole_steps csys cu 4%Z [5; 0]%Z =
  Ok ([0; 1; 2; 3; 0], [[5; 0]; [5; 3]; [8; 2]; [10; 6]; [16; 7]], [[11]; [3]; [16]; [12]])%Z.
Proof. vm_compute. reflexivity. Qed.
Example C123_ex_prefix : simulate whole_steps csys (firstn 3 cu) 2%Z [5; 0]%Z = Ok ([0; 1; 0], [[5; 0]; [5; 3]; [8; 2]], [[11]; [3]])%Z.
Proof. refine (C123_prefix whole_steps csys cu 4%Z 2%Z [5; 0]%Z 4 2 3 _ _ _ C123_horizon4 C123_horizon2 C123_ex_run _). vm_compute. lia. Qed.
(** Another run with the same first two inputs. *)
Definition cu' : list (list Z) := [[3]; [-1]; [100]]%Z.
Example C123_ex_causal : exists t x y, simulate whole_steps csys cu' 4%Z [5; 0]%Z = Ok (t, x, y) /\ firstn 3 x = [[5; 0]; [5; 3]; [8; 2]]%Z /\ firstn 2 y = [[11]; [3]]%Z /\ y <> [[11]; [3]; [16]]%Z.
Proof.
  destruct (simulate whole_steps csys cu' 4%Z [5; 0]%Z) as [[[t x] y]| | | |] eqn:E; try (vm_compute in E; discriminate E). exists t, x, y. split; [reflexivity|].
  destruct (C123_causal whole_steps whole_steps csys cu cu' 4%Z 4%Z [5; 0]%Z 4 4 2 _ _ _ _ _ _ C123_horizon4 C123_horizon4 ltac:(lia) ltac:(lia) eq_refl C123_ex_run E) as [E1 E2].
  rewrite <- E1, <- E2. split; [reflexivity|]. split; [reflexivity|]. vm_compute in E. injection E as <- <- <-. discriminate.
Qed.
(** An empty input in the third step: dot reads past its end. *)
Definition cbad : list (list Z) := [[3]; [-1]; []; [1]]%Z.
Example C123_ex_failure : simulate whole_steps csys cbad 4%Z [5; 0]%Z = UB /\
  exists i ui t x xi y, i < 4 /\ nth_error cbad i = Some ui /\ simulate whole_steps csys (firstn i cbad) 4%Z [5; 0]%Z = Ok (t, x ++ [xi], y) /\ simulate_step csys xi ui = UB.
Proof.
  assert (E : simulate whole_steps csys cbad 4%Z [5; 0]%Z = UB) by (vm_compute; reflexivity). split; [exact E|].
  destruct (C123_failure whole_steps csys cbad 4%Z [5; 0]%Z 4 C123_horizon4) as (i & ui & t & x & xi & y & H1 & H2 & H3 & _ & H4). { intros r. rewrite E. discriminate. }
  exists i, ui, t, x, xi, y. split; [exact H1|]. split; [exact H2|]. split; [exact H3|]. rewrite E in H4. destruct (simulate_step csys xi ui); auto; contradiction.
Qed.
(** Two and then two inputs. *)
Example C123_ex_continue : exists t x y, simulate whole_steps csys ([[3]; [-1]]%Z ++ [[4]; [1]]%Z) 4%Z [5; 0]%Z = Ok (t, x, y) /\ y = ([[11]; [3]] ++ [[16]; [12]])%Z.
Proof.
  pose proof (C123_continue whole_steps csys [[3]; [-1]]%Z [[4]; [1]]%Z 4%Z [5; 0]%Z 4 C123_horizon4 (le_n 4)) as H.
  destruct (simulate whole_steps csys [[3]; [-1]]%Z 4%Z [5; 0]%Z) as [[[t1 x1] y1]| | | |] eqn:E1; try (vm_compute in E1; discriminate E1).
  vm_compute in E1. injection E1 as <- <- <-. 
  destruct (simulate whole_steps csys ([[3]; [-1]]%Z ++ [[4]; [1]]%Z) 4%Z [5; 0]%Z) as [[[t x] y]| | | |] eqn:E2; try (vm_compute in E2; discriminate E2).
  exists t, x, y. split; [reflexivity|]. match type of H with context [simulate ?a ?b ?c ?d ?e] => destruct (simulate a b c d e) as [[[t2 x2] y2]| | | |] eqn:E3 end; try contradiction.
  destruct H as (_ & -> & _). vm_compute in E3. injection E3 as <- <- <-. reflexivity.
Qed.
