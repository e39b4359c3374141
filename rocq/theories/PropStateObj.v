(** PropStateObj.v: C116, objects of StateSpace and DiscreteStateSpace: constructors, copies,
    moves, and variables that are assigned to again and again. *)
From Verif Require Import ViewFacts2 Scalar PropMatrix StateObj.

Section Props.
Context {T : Type} {O : Ops T}.

(** All four matrices of a model are usable objects (they can be empty). *)
Definition wf_ss (s : SS T) : Prop := wf (sA s) /\ wf (sB s) /\ wf (sC s) /\ wf (sD s).
(** The matrix b has at least one element. *)
Definition nonempty (b : Matrix T) : Prop := 0 < rows b * cols b.

Lemma wf_is (m : Matrix T) : wf m -> exists f, is_mat m (rows m) (cols m) f.
Proof.
  intros (Hs & Hl). exists (fun i j => nth (i * cols m + j) (data m) o0). repeat split; auto; try apply Hs.
  intros i j Hi Hj. apply nth_error_nth'. rewrite Hl. apply idx_lt; auto.
Qed.
Lemma copy_id (m : Matrix T) : wf m -> mat_copy m = Ok m.
Proof. intros H. destruct (wf_is m H) as (f & Hf). eapply mat_copy_ok; eauto. Qed.

(** The constructor and the copy constructors give models with the same matrices and sample time. *)
Theorem C116_construct (A B C D : Matrix T) (ts : T) : wf A -> wf B -> wf C -> wf D ->
  ss_new A B C D = Ok (mkSS A B C D) /\ dss_new A B C D ts = Ok (mkDSS (mkSS A B C D) ts) /\
  ss_copy (mkSS A B C D) = Ok (mkSS A B C D) /\ dss_copy (mkDSS (mkSS A B C D) ts) = Ok (mkDSS (mkSS A B C D) ts).
Proof.
  intros HA HB HC HD. unfold dss_new, dss_copy, ss_copy, ss_new. cbn [sA sB sC sD dsys sample_time].
  rewrite !copy_id by auto. cbn [bind]. auto.
Qed.
(** A default constructed model has four 0 x 0 matrices and sample time 0. *)
Theorem C116_default : dss_default = mkDSS (mkSS (mkM 0 0 nil) (mkM 0 0 nil) (mkM 0 0 nil) (mkM 0 0 nil)) o0 /\ wf_ss (dsys dss_default).
Proof. split; [reflexivity|]. repeat split; try (vm_compute; reflexivity). Qed.

(** The matrix that a member holds after an assignment from b: an empty b is not copied. *)
Definition overwrite (old b : Matrix T) : Matrix T := if rows b * cols b =? 0 then old else b.
Lemma assign_over (m b : Matrix T) : wf b -> mat_assign (fun _ => mb_of_mat b) m = Ok (overwrite m b).
Proof. intros H. destruct (wf_is b H) as (f & Hf). apply (C07_assign_from_matrix _ _ _ _ _ Hf). Qed.
Lemma move_over (m b : Matrix T) : wf b -> fst (mat_move_assign m b) = overwrite m b.
Proof. intros (Hs & _). unfold mat_move_assign, overwrite. rewrite mul64_small by (apply shape_size; auto). destruct (_ =? 0); destruct b; reflexivity. Qed.

(** Assigning a model whose four matrices have elements gives an equal model, whatever the target held. *)
Theorem C116_assign (dst src : DSS T) : wf_ss (dsys src) -> nonempty (sA (dsys src)) -> nonempty (sB (dsys src)) -> nonempty (sC (dsys src)) -> nonempty (sD (dsys src)) ->
  dss_assign dst src = Ok src /\ fst (dss_move_assign dst src) = src.
Proof.
  intros (HA & HB & HC & HD) NA NB NC ND. destruct src as [[A B C D] ts]. cbn [dsys sA sB sC sD] in *.
  assert (W : forall m b, nonempty b -> overwrite m b = b) by (intros m b Hb; unfold overwrite, nonempty in *; destruct (Nat.eqb_spec (rows b * cols b) 0); [lia|auto]).
  unfold dss_assign, ss_assign, dss_move_assign, ss_move_assign. cbn [dsys sA sB sC sD sample_time]. rewrite !assign_over by auto. cbn [bind]. rewrite !W by auto. split; [auto|].
  pose proof (move_over (sA (dsys dst)) A HA) as QA. pose proof (move_over (sB (dsys dst)) B HB) as QB.
  pose proof (move_over (sC (dsys dst)) C HC) as QC. pose proof (move_over (sD (dsys dst)) D HD) as QD. rewrite W in * by auto.
  destruct (mat_move_assign (sA (dsys dst)) A), (mat_move_assign (sB (dsys dst)) B), (mat_move_assign (sC (dsys dst)) C), (mat_move_assign (sD (dsys dst)) D). cbn [fst] in *. congruence.
Qed.

(** The members named by a history, oldest first: the sources of its assignments. *)
Fixpoint sources (get : SS T -> Matrix T) (ops : list (sop T)) : list (Matrix T) :=
  match ops with
  | nil => nil
  | (AssignCopy src | AssignMove src) :: rest => get (dsys src) :: sources get rest
  | _ :: rest => sources get rest
  end.
Definition times (ops : list (sop T)) : list T :=
  flat_map (fun op => match op with AssignCopy src | AssignMove src => [sample_time src] | SetTime ts => [ts] | AssignSelf => nil end) ops.
(** m is the last element of l with elements, or m0 if there is none. *)
Definition last_nonempty (m0 : Matrix T) (l : list (Matrix T)) (m : Matrix T) : Prop :=
  (m = m0 /\ forall b, In b l -> ~ nonempty b) \/
  exists before after, l = before ++ m :: after /\ nonempty m /\ forall b, In b after -> ~ nonempty b.
Lemma last_cons m0 b l m : last_nonempty (overwrite m0 b) l m -> last_nonempty m0 (b :: l) m.
Proof.
  unfold overwrite. intros [(-> & H)|(be & af & -> & H)].
  - destruct (Nat.eqb_spec (rows b * cols b) 0) as [Z|Z].
    + left. split; auto. intros b' [<-|Hb]; [unfold nonempty; lia|auto].
    + right. exists nil, l. repeat split; auto. unfold nonempty; lia.
  - right. exists (b :: be), af. auto.
Qed.
Definition wf_op (op : sop T) : Prop := match op with AssignCopy src | AssignMove src => wf_ss (dsys src) | _ => True end.

(** A variable that is assigned to any number of times holds, for each of its matrices, the last assigned one that is not empty, and the last sample time. *)
Theorem C116_history (ops : list (sop T)) : forall d, Forall wf_op ops -> exists d', srun d ops = Ok d' /\
  last_nonempty (sA (dsys d)) (sources sA ops) (sA (dsys d')) /\ last_nonempty (sB (dsys d)) (sources sB ops) (sB (dsys d')) /\
  last_nonempty (sC (dsys d)) (sources sC ops) (sC (dsys d')) /\ last_nonempty (sD (dsys d)) (sources sD ops) (sD (dsys d')) /\
  sample_time d' = last (times ops) (sample_time d).
Proof.
  assert (L : forall (l : list T) a d, last (a :: l) d = last l a). { intros l. induction l as [|b l IH]; intros a d; [reflexivity|]. change (last (a :: b :: l) d) with (last (b :: l) d). rewrite !IH. reflexivity. }
  induction ops as [|op ops IH]; intros d H.
  - exists d. split; [reflexivity|]. repeat split; left; cbn; tauto.
  - inversion H as [|? ? Hop Hr]; subst. cbn [srun]. destruct op as [src|src| |ts]; cbn [sstep wf_op] in *.
    + destruct Hop as (HA & HB & HC & HD). unfold dss_assign, ss_assign. rewrite !assign_over by auto. cbn [bind].
      destruct (IH (mkDSS (mkSS (overwrite (sA (dsys d)) (sA (dsys src))) (overwrite (sB (dsys d)) (sB (dsys src))) (overwrite (sC (dsys d)) (sC (dsys src))) (overwrite (sD (dsys d)) (sD (dsys src)))) (sample_time src)) Hr) as (d' & E & Q1 & Q2 & Q3 & Q4 & Q5).
      exists d'. split; [exact E|]. cbn [dsys sA sB sC sD sample_time sources times flat_map app] in *. repeat split; try (apply last_cons; assumption). rewrite L. exact Q5.
    + destruct Hop as (HA & HB & HC & HD). cbn [bind].
      destruct (IH (fst (dss_move_assign d src)) Hr) as (d' & E & Q1 & Q2 & Q3 & Q4 & Q5). exists d'. split; [exact E|].
      pose proof (move_over (sA (dsys d)) _ HA) as EA. pose proof (move_over (sB (dsys d)) _ HB) as EB. pose proof (move_over (sC (dsys d)) _ HC) as EC. pose proof (move_over (sD (dsys d)) _ HD) as ED.
      unfold dss_move_assign, ss_move_assign in *.
      destruct (mat_move_assign (sA (dsys d)) _), (mat_move_assign (sB (dsys d)) _), (mat_move_assign (sC (dsys d)) _), (mat_move_assign (sD (dsys d)) _).
      cbn [fst dsys sA sB sC sD sample_time sources times flat_map app] in *. subst. repeat split; try (apply last_cons; assumption). rewrite L. exact Q5.
    + unfold dss_assign_self, mat_assign_self. cbn [bind]. destruct d as [[A B C D] t]. apply (IH (mkDSS (mkSS A B C D) t) Hr).
    + cbn [bind]. destruct (IH (mkDSS (dsys d) ts) Hr) as (d' & E & Q1 & Q2 & Q3 & Q4 & Q5). exists d'. split; [exact E|].
      cbn [dsys sample_time sources times flat_map app] in *. rewrite L. auto 6.
Qed.

(** A moved-from model keeps its dimensions, but no element of its matrices can be read. *)
Theorem C116_move (s : SS T) : exists s', ss_move s = (s, s') /\
  forall get, In get [sA; sB; sC; sD] -> rows (get s') = rows (get s) /\ cols (get s') = cols (get s) /\ forall i j, mget (mb_of_mat (get s')) i j = UB.
Proof.
  destruct s as [A B C D]. unfold ss_move, mat_move_ctor. cbn [sA sB sC sD]. eexists. split; [destruct A, B, C, D; reflexivity|].
  intros get Hg. cbn [In] in Hg.
  assert (U : forall (m : Matrix T) i j, mget (mb_of_mat (mkM (rows m) (cols m) (@nil T))) i j = UB). { intros m i j. cbn. unfold mat_at. cbn. unfold lget. cbn. destruct (mat_idx _ _ _); reflexivity. }
  destruct Hg as [<-|[<-|[<-|[<-|[]]]]]; cbn [sA sB sC sD rows cols]; auto.
Qed.

(** The same for a discrete model: both objects have its sample time. *)
Theorem C116_move_discrete (d : DSS T) : exists d', dss_move d = (d, d') /\ sample_time d' = sample_time d /\
  forall get, In get [sA; sB; sC; sD] -> rows (get (dsys d')) = rows (get (dsys d)) /\ cols (get (dsys d')) = cols (get (dsys d)) /\ forall i j, mget (mb_of_mat (get (dsys d'))) i j = UB.
Proof.
  destruct d as [s ts]. destruct (C116_move s) as (s' & E & H). exists (mkDSS s' ts). unfold dss_move. cbn [dsys sample_time]. rewrite E. auto.
Qed.
(** The source of a move assignment keeps its sample time and all its dimensions; its matrices with elements cannot be read any more, the empty ones are as before. *)
Theorem C116_move_source (dst src : DSS T) : wf_ss (dsys src) -> exists d', snd (dss_move_assign dst src) = d' /\ sample_time d' = sample_time src /\
  forall get, In get [sA; sB; sC; sD] -> rows (get (dsys d')) = rows (get (dsys src)) /\ cols (get (dsys d')) = cols (get (dsys src)) /\
    (nonempty (get (dsys src)) -> forall i j, mget (mb_of_mat (get (dsys d'))) i j = UB) /\ (~ nonempty (get (dsys src)) -> get (dsys d') = get (dsys src)).
Proof.
  intros (HA & HB & HC & HD). eexists. split; [reflexivity|].
  assert (U : forall (m b : Matrix T), wf b -> rows (snd (mat_move_assign m b)) = rows b /\ cols (snd (mat_move_assign m b)) = cols b /\
    (nonempty b -> forall i j, mget (mb_of_mat (snd (mat_move_assign m b))) i j = UB) /\ (~ nonempty b -> snd (mat_move_assign m b) = b)).
  { intros m b (Hs & _). unfold mat_move_assign, nonempty. rewrite mul64_small by (apply shape_size; auto). destruct (Nat.eqb_spec (rows b * cols b) 0); cbn [snd]; repeat split; try lia; auto.
    intros _ i j. cbn. unfold mat_at. cbn. unfold lget. cbn. destruct (mat_idx _ _ _); reflexivity. }
  pose proof (U (sA (dsys dst)) _ HA) as QA. pose proof (U (sB (dsys dst)) _ HB) as QB. pose proof (U (sC (dsys dst)) _ HC) as QC. pose proof (U (sD (dsys dst)) _ HD) as QD.
  unfold dss_move_assign, ss_move_assign.
  destruct (mat_move_assign (sA (dsys dst)) _), (mat_move_assign (sB (dsys dst)) _), (mat_move_assign (sC (dsys dst)) _), (mat_move_assign (sD (dsys dst)) _). cbn [snd sample_time dsys] in *.
  split; [reflexivity|]. intros get Hg. cbn [In] in Hg. destruct Hg as [<-|[<-|[<-|[<-|[]]]]]; cbn [sA sB sC sD]; assumption.
Qed.

(** Vector(size, {values}): the size must be the number of values. *)
Theorem C116_sized_vector n (l : list T) : fits (length l) -> vec_of_list_n n l = if n =? length l then Ok l else UB.
Proof. intros H. unfold vec_of_list_n. destruct (_ =? _); [apply vec_of_list_ok; auto|reflexivity]. Qed.
End Props.

(** A model without feed-through (an empty D) assigned to a variable that held one with D = [1]: the old D stays. *)
Definition z11 (x : Z) : Matrix Z := mkM 1 1 [x].
Definition with_d : DSS Z := mkDSS (mkSS (z11 2) (z11 1) (z11 1) (z11 1)) 1%Z.
Definition without_d : DSS Z := mkDSS (mkSS (z11 3) (z11 1) (z11 1) (mkM 0 0 nil)) 1%Z.
Lemma z11_wf x : wf (z11 x). Proof. repeat split; vm_compute; reflexivity. Qed.
Theorem C116_assign_refuted : exists dst src : DSS Z, wf_ss (dsys dst) /\ wf_ss (dsys src) /\
  exists d, dss_assign dst src = Ok d /\ sA (dsys d) = sA (dsys src) /\ sD (dsys d) = sD (dsys dst) /\ sD (dsys d) <> sD (dsys src) /\
  (** and its outputs are not those of the assigned model *)
  exists out, simulate (fun x => Ok (Z.to_nat x)) d [[5]%Z] 1%Z [0%Z] = Ok out /\ snd out = [[5]%Z].
Proof.
  assert (E : wf (mkM 0 0 (@nil Z))) by (repeat split; vm_compute; reflexivity).
  exists with_d, without_d. split; [repeat split; apply z11_wf|]. split; [split; [|split; [|split]]; try apply z11_wf; exact E|].
  exists (mkDSS (mkSS (z11 3) (z11 1) (z11 1) (z11 1)) 1%Z). split; [vm_compute; reflexivity|]. split; [reflexivity|]. split; [reflexivity|]. split; [discriminate|].
  eexists. split; [vm_compute; reflexivity|]. reflexivity.
Qed.
Example C116_construct_ex : dss_new (z11 2) (z11 1) (z11 1) (z11 1) 1%Z = Ok with_d.
Proof. apply C116_construct; apply z11_wf. Qed.
Example C116_history_ex : srun dss_default [AssignCopy with_d; SetTime 4%Z; AssignSelf; AssignMove without_d] = Ok (mkDSS (mkSS (z11 3) (z11 1) (z11 1) (z11 1)) 1%Z).
Proof. vm_compute. reflexivity. Qed.
