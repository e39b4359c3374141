(** PropRelProg.v: C126.  Whole programs (C83) in another arithmetic: as C106 for one function, but for
    any sequence of statements, with exceptions that are caught and values that are read. *)
From Coq Require Import ZArith QArith Qabs List Lia.
From Verif Require Import PropFloat FloatLoop MatProg Control Ints Float PropFloatIO PropFloatCmp Rel RelProg PropRel PropRelInt PropRunErr.
Import ListNotations.
Local Open Scope nat_scope.

(** * Specification *)
Section Map.
Context {A B : Type} (h : A -> B).
(** The same program with other constants. *)
Definition mop_map (c : @mop A) : @mop B :=
  match c with
  | MNew x => MNew x | MFill x r c v => MFill x r c (h v) | MList x r c l => MList x r c (map h l) | MNested x ll => MNested x (map (map h) ll)
  | MCopy x y p => MCopy x y p | MMove x y => MMove x y | MAssign x y p => MAssign x y p | MMoveAssign x y => MMoveAssign x y
  | MAssignNested x ll => MAssignNested x (map (map h) ll) | MResize x r c => MResize x r c | MReshape x r c => MReshape x r c
  | MRemoveRow x k => MRemoveRow x k | MRemoveCol x k => MRemoveCol x k | MSwapRows x p i j a b => MSwapRows x p i j a b | MSwapCols x p i j a b => MSwapCols x p i j a b
  | MSet x p i j v => MSet x p i j (h v) | MViewAssign x p y => MViewAssign x p y | MAdd x p y => MAdd x p y | MSub x p y => MSub x p y | MMul x p y => MMul x p y
  | MScale x p s => MScale x p (h s) | MGet x p i j => MGet x p i j | MDestroy x => MDestroy x
  end.
Fixpoint expr_map (a : @expr A) : @expr B :=
  match a with
  | EVar y p => EVar y p | EAdd a b => EAdd (expr_map a) (expr_map b) | ESub a b => ESub (expr_map a) (expr_map b) | EMul a b => EMul (expr_map a) (expr_map b)
  | EEw a b => EEw (expr_map a) (expr_map b) | EScale a s => EScale (expr_map a) (h s) | ETrans a => ETrans (expr_map a)
  end.
Definition stmt_map (c : @stmt A) : @stmt B := match c with SOp c => SOp (mop_map c) | SLet x a => SLet x (expr_map a) | SAssign x a => SAssign x (expr_map a) | SDims x p => SDims x p end.
Definition obs_map (o : @obs A) : @obs B := match o with Done => Done | Threw => Threw | Val v => Val (h v) | Dims r c => Dims r c end.
(** A run of the mapped program: the same outcome; mapped variables and observations. *)
Definition mapped (x : Res (@menv A * list (@obs A))) (y : Res (@menv B * list (@obs B))) : Prop :=
  rres (fun a b => (forall v, fst b v = option_map (each h) (fst a v)) /\ snd b = map obs_map (snd a)) x y.
End Map.
(** The constants of a program. *)
Definition mop_consts {A} (c : @mop A) : list A :=
  match c with MFill _ _ _ v | MSet _ _ _ _ v | MScale _ _ v => [v] | MList _ _ _ l => l | MNested _ ll | MAssignNested _ ll => concat ll | _ => [] end.
Fixpoint expr_consts {A} (a : @expr A) : list A :=
  match a with EVar _ _ => [] | EAdd a b | ESub a b | EMul a b | EEw a b => expr_consts a ++ expr_consts b | EScale a s => s :: expr_consts a | ETrans a => expr_consts a end.
Definition stmt_consts {A} (c : @stmt A) : list A := match c with SOp c => mop_consts c | SLet _ a | SAssign _ a => expr_consts a | SDims _ _ => [] end.
Definition consts {A} (cs : list (@stmt A)) : list A := flat_map stmt_consts cs.
(** A program that starts without variables. *)
Definition start {A} : @menv A := fun _ => None.
(** What a program with bounds says about one with doubles and the exact one. *)
Definition cert_obs (b : @obs bounded) (d : @obs double) (q : @obs Q) : Prop :=
  match b, d, q with
  | Done, Done, Done | Threw, Threw, Threw => True
  | Val b, Val d, Val q => certified1 b d q
  | Dims r c, Dims r' c', Dims r'' c'' => r = r' /\ r = r'' /\ c = c' /\ c = c''
  | _, _, _ => False
  end.
Definition cert_var (b : option (Matrix bounded)) (d : option (Matrix double)) (q : option (Matrix Q)) : Prop :=
  match b, d, q with Some b, Some d, Some q => certified_m b d q | None, None, None => True | _, _, _ => False end.

(** * Proofs *)
Section Maps.
Context {A B C : Type} (f : A -> B) (g : A -> C) (P : A -> Prop) (R : B -> C -> Prop) (HR : forall v, P v -> R (f v) (g v)).
Lemma r_maps l : Forall P l -> Forall2 R (map f l) (map g l).
Proof. induction 1; cbn; constructor; auto. Qed.
Lemma r_maps2 ll : Forall P (concat ll) -> Forall2 (Forall2 R) (map (map f) ll) (map (map g) ll).
Proof. induction ll as [|l ll IH]; cbn; [constructor|]. intros H. apply Forall_app in H as [H1 H2]. constructor; [now apply r_maps|now apply IH]. Qed.
Lemma r_mop_map c : Forall P (mop_consts c) -> rmop R (mop_map f c) (mop_map g c).
Proof. destruct c; cbn [mop_consts mop_map]; intros H; constructor; try (now apply r_maps); try (now apply r_maps2); apply HR; now inversion H. Qed.
Lemma r_expr_map a : Forall P (expr_consts a) -> rexpr R (expr_map f a) (expr_map g a).
Proof.
  induction a; cbn [expr_consts expr_map]; intros H; try (apply Forall_app in H as [H1 H2]); constructor; auto; inversion H; auto.
Qed.
Lemma r_prog_map cs : Forall P (consts cs) -> Forall2 (rstmt R) (map (stmt_map f) cs) (map (stmt_map g) cs).
Proof.
  induction cs as [|c cs IH]; cbn [consts flat_map map]; [constructor|]. intros H. apply Forall_app in H as [H1 H2]. constructor; [|now apply IH].
  destruct c; cbn [stmt_consts stmt_map] in *; constructor; auto using r_mop_map, r_expr_map.
Qed.
End Maps.
Lemma map_same {A} (l : list A) : map (fun x => x) l = l. Proof. apply map_id. Qed.
Lemma map_same2 {A} (l : list (list A)) : map (map (fun x => x)) l = l. Proof. induction l as [|x l IH]; cbn; [reflexivity|now rewrite map_same, IH]. Qed.
Lemma prog_same {A} (cs : list (@stmt A)) : map (stmt_map (fun x => x)) cs = cs.
Proof.
  assert (E : forall a : @expr A, expr_map (fun x => x) a = a) by (induction a; cbn; congruence).
  induction cs as [|c cs IH]; cbn [map]; [reflexivity|]. rewrite IH. f_equal. destruct c as [c|x a|x a|x p]; cbn [stmt_map]; rewrite ?E; try reflexivity. f_equal. destruct c; cbn [mop_map]; rewrite ?map_same, ?map_same2; reflexivity.
Qed.
Lemma start_rel {A B} (R : A -> B -> Prop) : renv R start start. Proof. intros x. exact I. Qed.
Lemma all_true {A} (l : list A) : Forall (fun _ => True) l. Proof. induction l; constructor; auto. Qed.
Lemma rel_graph {A B} (h : A -> B) x y : rres (rpair (renv (fun a b => b = h a)) (Forall2 (robs (fun a b => b = h a)))) x y -> mapped h x y.
Proof.
  destruct x as [[e os]| | | |], y as [[e' os']| | | |]; cbn; try contradiction; auto. intros [H1 H2]. cbn [fst snd] in *. split.
  - intros v. specialize (H1 v). destruct (e v) as [m|], (e' v) as [m'|]; try contradiction; [|reflexivity]. cbn. f_equal. destruct H1 as (E1 & E2 & E3). destruct m as [r c d], m' as [r' c' d']. cbn in *. subst r' c'. unfold each. cbn. f_equal. induction E3; cbn; congruence.
  - induction H2 as [|o o' os os' H _ IH]; cbn [map]; [reflexivity|]. rewrite IH. f_equal. destruct H; cbn; congruence.
Qed.

(** * C126 *)
(** The same program in two arithmetics: the same outcome, related variables and observations. *)
Theorem C126_programs {A B} (O1 : Ops A) (O2 : Ops B) (R : A -> B -> Prop) : same_ring O1 O2 R -> forall cs cs', Forall2 (rstmt R) cs cs' -> forall e e', renv R e e' ->
  rres (rpair (renv R) (Forall2 (robs R))) (prun (O := O1) e cs) (prun (O := O2) e' cs').
Proof. intros SR cs cs' H e e' K. now apply r_prun. Qed.
(** A homomorphism can be applied to the constants before the run or to the results after it. *)
Theorem C126_homomorphism {A B} (O1 : Ops A) (O2 : Ops B) (h : A -> B) : same_ring O1 O2 (fun a b => b = h a) -> forall cs,
  mapped h (prun (O := O1) start cs) (prun (O := O2) start (map (stmt_map h) cs)).
Proof.
  intros SR cs. apply rel_graph. rewrite <- (prog_same cs) at 1. apply (r_prun _ SR); [|apply start_rel]. apply (r_prog_map _ _ (fun _ => True)); [reflexivity|apply all_true].
Qed.
(** Unsigned integers of w bits: the low bits of what mathematical integers would give. *)
Theorem C126_unsigned : forall w cs, (0 <= w)%Z -> mapped (low w) (prun (O := zops) start cs) (prun (O := uops w) start (map (stmt_map (low w)) cs)).
Proof. intros w cs H. apply C126_homomorphism. now apply low_ring. Qed.
(** Doubles: if the program with bounds returns, so do the one with doubles and the exact one, and
    every variable and every value that was read is within its bound, if it has one. *)
Theorem C126_doubles : forall t cs, all_finite (consts cs) -> forall e os, prun (O := runops) start (map (stmt_map known) cs) = Ok (e, os) ->
  exists ed od eq oq, prun (O := fops t) start cs = Ok (ed, od) /\ prun (O := exactops) start (map (stmt_map dval) cs) = Ok (eq, oq) /\
    (forall v, cert_var (e v) (ed v) (eq v)) /\ length od = length os /\ length oq = length os /\
    forall i b, nth_error os i = Some b -> exists d q, nth_error od i = Some d /\ nth_error oq i = Some q /\ cert_obs b d q.
Proof.
  intros t cs HF e os E.
  assert (W : Forall2 (rstmt within) (map (stmt_map known) cs) (map (stmt_map (fun x => x)) cs)).
  { apply (r_prog_map _ _ proper); [|exact HF]. intros v Hv. pose proof (known_within [v] (Forall_cons v Hv (Forall_nil _))) as K. now inversion K. }
  assert (C : Forall2 (rstmt centre) (map (stmt_map known) cs) (map (stmt_map dval) cs)).
  { apply (r_prog_map _ _ (fun _ => True)); [|apply all_true]. intros v _. split; [reflexivity|discriminate]. }
  rewrite prog_same in W. pose proof (r_prun _ (run_ring t) _ _ W _ _ (start_rel _)) as HW. pose proof (r_prun _ centre_ring _ _ C _ _ (start_rel _)) as HC. rewrite E in HW, HC.
  destruct (prun start cs) as [[ed od]| | | |]; cbn [rres] in HW; try contradiction. destruct (prun start (map (stmt_map dval) cs)) as [[eq oq]| | | |]; cbn [rres] in HC; try contradiction.
  destruct HW as [V1 S1], HC as [V2 S2]. cbn [fst snd] in *. exists ed, od, eq, oq. split; [reflexivity|]. split; [reflexivity|]. split; [|split; [symmetry; exact (f2_len _ _ _ S1)|split; [symmetry; exact (f2_len _ _ _ S2)|]]].
  - intros v. specialize (V1 v). specialize (V2 v). unfold cert_var. destruct (e v), (ed v), (eq v); try contradiction; auto. now apply cert_m.
  - intros i b Hb. pose proof (f2_nth _ _ _ i S1) as N1. pose proof (f2_nth _ _ _ i S2) as N2. rewrite Hb in N1, N2. destruct (nth_error od i) as [d|]; [|contradiction]. destruct (nth_error oq i) as [q|]; [|contradiction].
    exists d, q. split; [reflexivity|]. split; [reflexivity|]. inversion N1; subst; inversion N2; subst; cbn; auto. now apply cert1.
Qed.
(** Signed integers of w bits: the same outcome as with mathematical integers, and every value that
    does not depend on an overflow ([None] marks one that does) is the exact one. *)
Definition exact_obs (o : @obs (option Z)) (q : @obs Z) : Prop :=
  match o, q with Done, Done | Threw, Threw => True | Val x, Val z => x = None \/ x = Some z | Dims r c, Dims r' c' => r = r' /\ c = c' | _, _ => False end.
Definition exact_var (o : option (Matrix (option Z))) (q : option (Matrix Z)) : Prop :=
  match o, q with Some m, Some n => rows m = rows n /\ cols m = cols n /\ Forall2 exact_or_lost (data m) (data n) | None, None => True | _, _ => False end.
Theorem C126_signed : forall w cs, rres (fun a b => (forall v, exact_var (fst a v) (fst b v)) /\ Forall2 exact_obs (snd a) (snd b)) (prun (O := sops w) start (map (stmt_map Some) cs)) (prun (O := zops) start cs).
Proof.
  intros w cs. assert (S : Forall2 (rstmt exact_or_lost) (map (stmt_map Some) cs) (map (stmt_map (fun x => x)) cs)).
  { apply (r_prog_map _ _ (fun _ => True)); [|apply all_true]. intros v _. now right. }
  rewrite prog_same in S. pose proof (r_prun _ (signed_ring w) _ _ S _ _ (start_rel _)) as H.
  destruct (prun start (map (stmt_map Some) cs)) as [[e os]| | | |], (prun start cs) as [[e' os']| | | |]; cbn [rres] in *; try contradiction; auto. destruct H as [V K]. cbn [fst snd] in *. split.
  - intros v. specialize (V v). unfold exact_var. destruct (e v), (e' v); try contradiction; auto.
  - induction K as [|o o' os os' H _ IH]; constructor; auto. destruct H; cbn; auto.
Qed.

(** ** Examples *)
(** Matrix x{{a, b}, {c, d}}; Matrix y(x * x + x); y += x of the wrong shape is caught; read y(1, 0). *)
Definition exProg {A} (a b c d : A) : list (@stmt A) :=
  [SOp (MNested 0 [[a; b]; [c; d]]); SLet 1 (EAdd (EMul (EVar 0 Root) (EVar 0 Root)) (EVar 0 Root)); SOp (MList 2 1 2 [a; b]); SOp (MAdd 1 Root 2); SOp (MGet 1 Root 1 0); SDims 2 Root].
Definition obs_of {A} (x : Res (@menv A * list (@obs A))) : option (list (@obs A)) := match x with Ok (_, os) => Some os | _ => None end.
Example C126_ex_exact : obs_of (prun (O := zops) start (exProg 100 2 3 4)%Z) = Some [Done; Done; Done; Threw; Val 315%Z; Dims 1 2].
Proof. reflexivity. Qed.
Example C126_ex_unsigned : obs_of (prun (O := uops 8) start (exProg 100 2 3 4)%Z) = Some [Done; Done; Done; Threw; Val 59%Z; Dims 1 2].
Proof. reflexivity. Qed.
Example C126_ex_signed : obs_of (prun (O := sops 8) start (map (stmt_map Some) (exProg 100 2 3 4)%Z)) = Some [Done; Done; Done; Threw; Val None; Dims 1 2]
  /\ obs_of (prun (O := sops 16) start (map (stmt_map Some) (exProg 100 2 3 4)%Z)) = Some [Done; Done; Done; Threw; Val (Some 315%Z); Dims 1 2].
Proof. split; reflexivity. Qed.
(** Doubles: 1/10 rounded, 3, 1 and 7; the value read has a bound below 2^-48. *)
Definition exDoubles : list (@stmt double) := exProg tenth (natd 3) PropFloat.one (natd 7).
Example C126_ex_doubles : match obs_of (prun (O := runops) start (map (stmt_map known) exDoubles)) with Some [Done; Done; Done; Threw; Val b; Dims 1 2] => all_bounds [b] (2 ^ (-48)) | _ => false end = true.
Proof. vm_compute. reflexivity. Qed.
Example C126_ex_finite : all_finite (consts exDoubles).
Proof. repeat (apply Forall_cons; [split; [vm_compute; reflexivity|vm_compute; exact I]|]). apply Forall_nil. Qed.
