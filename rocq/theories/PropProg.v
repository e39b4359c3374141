(** PropProg.v: every legal program over matrices computes what the mathematical reading
    of its statements says (C83). *)
From Verif Require Import ProgSpec MathFacts UtilFacts ViewFacts ViewFacts2 PropMath PropUtil PropLinalg.
From Verif Require Import MatProg.
Arguments Nat.ltb : simpl never.
Arguments Nat.leb : simpl never.
Arguments Nat.eqb : simpl never.

Lemma shape_okbP r c : shape_okb r c = true -> shape_ok r c.
Proof.
  unfold shape_okb, shape_ok, is_size, fits, fitsb. rewrite !andb_true_iff, !N.ltb_lt. tauto.
Qed.
Lemma sizebP n : sizeb n = true -> is_size n.
Proof. apply N.ltb_lt. Qed.
Lemma lin_okbP p r c : lin_okb p r c = true -> lin_ok p r c.
Proof.
  unfold lin_okb, lin_ok. destruct p; auto. destruct (vshape _ r c) as [[r' c']|]; [|discriminate]. apply Nat.eqb_eq.
Qed.
Lemma vinv_vpos p : forall a b i j, vinv p a b = Some (i, j) -> vpos p i j = (a, b).
Proof.
  induction p as [|rr rc p IH|er ec p IH]; intros a b i j; cbn.
  - congruence.
  - destruct (vinv p a b) as [[i1 j1]|] eqn:E; [|discriminate].
    destruct (Nat.leb_spec (start rr) i1), (Nat.ltb_spec i1 (stop rr)), (Nat.leb_spec (start rc) j1), (Nat.ltb_spec j1 (stop rc)); try discriminate.
    cbn. intros HH. injection HH as <- <-. rewrite <- (IH a b i1 j1 E). f_equal; lia.
  - destruct (vinv p a b) as [[i1 j1]|] eqn:E; [|discriminate].
    destruct (Nat.eqb_spec i1 er), (Nat.eqb_spec j1 ec); try discriminate. cbn. intros HH. injection HH as <- <-.
    rewrite <- (IH a b i1 j1 E). f_equal.
    + destruct (Nat.ltb_spec i1 er); [destruct (Nat.ltb_spec i1 er)|destruct (Nat.ltb_spec (i1 - 1) er)]; lia.
    + destruct (Nat.ltb_spec j1 ec); [destruct (Nat.ltb_spec j1 ec)|destruct (Nat.ltb_spec (j1 - 1) ec)]; lia.
Qed.
Lemma vpos_vinv p : forall r c r' c' i j, vshape p r c = Some (r', c') -> i < r' -> j < c' ->
  vinv p (fst (vpos p i j)) (snd (vpos p i j)) = Some (i, j).
Proof.
  induction p as [|rr rc p IH|er ec p IH]; intros r c r' c' i j H Hi Hj.
  - reflexivity.
  - apply vshape_view in H. destruct H as (r1 & c1 & H & G1 & G2 & H1 & H2 & -> & ->). cbn.
    rewrite (IH r c r1 c1) by (auto; lia).
    destruct (Nat.leb_spec (start rr) (start rr + i)), (Nat.ltb_spec (start rr + i) (stop rr)),
      (Nat.leb_spec (start rc) (start rc + j)), (Nat.ltb_spec (start rc + j) (stop rc)); try lia. cbn. f_equal. f_equal; lia.
  - apply vshape_cof in H. destruct H as (r1 & c1 & H & H1 & H2 & -> & ->). cbn.
    rewrite (IH r c r1 c1) by (auto; destruct (_ <? _); lia).
    destruct (Nat.ltb_spec i er), (Nat.ltb_spec j ec);
      match goal with |- context [(?a =? er) || (?b =? ec)] => destruct (Nat.eqb_spec a er), (Nat.eqb_spec b ec) end; try lia; cbn;
      match goal with |- context [if ?a <? er then _ else _] => destruct (Nat.ltb_spec a er) end;
      match goal with |- context [if ?a <? ec then _ else _] => destruct (Nat.ltb_spec a ec) end; try lia; f_equal; f_equal; lia.
Qed.

Section Proofs.
Context {T : Type} {O : Ops T}.

Lemma awrite_ok p r c r' c' f h (m : Matrix T) : vshape p r c = Some (r', c') -> vstate p r c r' c' f h m ->
  is_mat m r c (awrite p r' c' h f).
Proof.
  intros Hv (f' & H & W1 & W2). eapply is_mat_ext; [exact H|]. intros a b Ha Hb. unfold awrite.
  destruct (vinv p a b) as [[i j]|] eqn:E.
  - assert (P := vinv_vpos p a b i j E). destruct (Nat.ltb_spec i r'), (Nat.ltb_spec j c'); cbn.
    + rewrite <- (W1 i j) by auto. rewrite P. reflexivity.
    + apply W2; auto. intros i' j' Hi' Hj' P'. rewrite <- P in P'. apply vpos_inj in P'. lia.
    + apply W2; auto. intros i' j' Hi' Hj' P'. rewrite <- P in P'. apply vpos_inj in P'. lia.
    + apply W2; auto. intros i' j' Hi' Hj' P'. rewrite <- P in P'. apply vpos_inj in P'. lia.
  - apply W2; auto. intros i j Hi Hj P. assert (Q := vpos_vinv p r c r' c' i j Hv Hi Hj). rewrite P in Q. cbn in Q. congruence.
Qed.

(** Model state and specification state agree. *)
Definition agrees (a : option (@aval T)) (b : option (Matrix T)) : Prop :=
  match a with
  | None => b = None
  | Some (Mx r c f) => exists m, b = Some m /\ is_mat m r c f
  | Some Moved => exists m, b = Some m /\ shape_ok (rows m) (cols m) /\ 0 < rows m * cols m /\ data m = nil
  end.
Definition AG (s : aenv) (e : @menv T) : Prop := forall x, agrees (s x) (e x).

Lemma AG_look s e x r c f : AG s e -> s x = Some (Mx r c f) -> exists m, mlook e x = Ok m /\ e x = Some m /\ is_mat m r c f.
Proof. intros H Hx. specialize (H x). rewrite Hx in H. destruct H as (m & E & Q). exists m. unfold mlook. rewrite E. auto. Qed.
Lemma AG_any s e x a : AG s e -> s x = Some a -> exists m, mlook e x = Ok m /\ e x = Some m.
Proof.
  intros H Hx. specialize (H x). unfold mlook. rewrite Hx in H. destruct a; destruct H as (m & -> & _); eauto.
Qed.
Lemma AG_fresh s e x : AG s e -> s x = None -> mfresh e x = Ok tt.
Proof. intros H Hx. specialize (H x). rewrite Hx in H. cbn in H. unfold mfresh. rewrite H. reflexivity. Qed.
Lemma AG_upd s e x a b : AG s e -> agrees a b -> AG (aset s x a) (mbind e x b).
Proof. intros H G y. unfold aset, mbind. destruct (y =? x); auto. Qed.
Lemma AG_id s e x m : AG s e -> e x = Some m -> AG s (mbind e x (Some m)).
Proof. intros H Hx y. unfold mbind. destruct (Nat.eqb_spec y x) as [->|]; auto. rewrite <- Hx. auto. Qed.

(** The expression evaluates to the specified table, or throws. *)
Definition evals (e : @menv T) (a : expr) (o : option (nat * nat * (nat -> nat -> T))) : Prop :=
  match o with
  | None => eval e a = Throw
  | Some (r, c, f) => exists X, eval e a = Ok X /\ readsL X r c f
  end.
Lemma eval_ok s e : AG s e -> forall a o, aeval s a = Some o -> evals e a o.
Proof.
  intros HM.
  assert (Bin : forall (op : MB T -> MB T -> Res (Matrix T)) g a b o, elementwise op g ->
    (forall o, aeval s a = Some o -> evals e a o) -> (forall o, aeval s b = Some o -> evals e b o) ->
    azip g (aeval s a) (aeval s b) = Some o ->
    match o with
    | None => (let* A := eval e a in let* B := eval e b in let* m := op A B in Ok (mb_of_mat m)) = Throw
    | Some (r, c, f) => exists X, (let* A := eval e a in let* B := eval e b in let* m := op A B in Ok (mb_of_mat m)) = Ok X /\ readsL X r c f
    end).
  { intros op g a b o Hop IHa IHb. unfold azip.
    destruct (aeval s a) as [[[[r c] f]|]|] eqn:Ea; [| |destruct (aeval s b); discriminate].
    2:{ specialize (IHa _ eq_refl). cbn in IHa. destruct (aeval s b) as [o2|]; [|discriminate].
        intros H. injection H as <-. rewrite IHa. reflexivity. }
    specialize (IHa _ eq_refl). destruct IHa as (X & EX & HX).
    destruct (aeval s b) as [[[[r' c'] f']|]|] eqn:Eb; [| |discriminate].
    2:{ specialize (IHb _ eq_refl). cbn in IHb. intros H. injection H as <-. rewrite EX. cbn [bind]. rewrite IHb. reflexivity. }
    specialize (IHb _ eq_refl). destruct IHb as (Y & EY & HY). rewrite EX, EY. cbn [bind].
    destruct (Hop X Y r c f r' c' f' HX HY) as (G1 & G2).
    destruct (Nat.eqb_spec r r') as [E1|E1]; [destruct (Nat.eqb_spec c c') as [E2|E2]|]; cbn; intros H; injection H as <-.
    - destruct (G2 E1 E2) as (m & -> & Q). cbn. eexists. split; [reflexivity|]. apply is_mat_readsL; auto.
    - rewrite (proj2 G1) by tauto. reflexivity.
    - rewrite (proj2 G1) by tauto. reflexivity. }
  induction a as [y p|a IHa b IHb|a IHa b IHb|a IHa b IHb|a IHa b IHb|a IHa w|a IHa]; intros o; cbn [aeval].
  - destruct (s y) as [[r c f|]|] eqn:Ey; try discriminate. destruct (vshape p r c) as [[r' c']|] eqn:Ev; [|discriminate].
    destruct (lin_okb p r c) eqn:El; [|discriminate]. intros H. injection H as <-. apply lin_okbP in El.
    destruct (AG_look s e y r c f HM Ey) as (m & E & _ & Q). cbn. rewrite E. cbn. eexists. split; [reflexivity|].
    eapply vmb_readsL; eauto.
  - intros H. exact (Bin m_add oadd a b o C32_add IHa IHb H).
  - intros H. exact (Bin m_sub osub a b o C32_sub IHa IHb H).
  - destruct (aeval s a) as [[[[r n] f]|]|] eqn:Ea; [| |destruct (aeval s b); discriminate].
    2:{ specialize (IHa _ eq_refl). cbn in IHa. destruct (aeval s b) as [o2|]; [|discriminate].
        intros H. injection H as <-. cbn. rewrite IHa. reflexivity. }
    specialize (IHa _ eq_refl). destruct IHa as (X & EX & HX).
    destruct (aeval s b) as [[[[n' c] g]|]|] eqn:Eb; [| |discriminate].
    2:{ specialize (IHb _ eq_refl). cbn in IHb. intros H. injection H as <-. cbn. rewrite EX. cbn [bind]. rewrite IHb. reflexivity. }
    specialize (IHb _ eq_refl). destruct IHb as (Y & EY & HY).
    destruct (Nat.eqb_spec n n') as [<-|N]; cbn [negb].
    + destruct (shape_okb r c) eqn:Es; [|discriminate]. intros H. injection H as <-. apply shape_okbP in Es.
      destruct (C33_product X Y r n f n c g (proj1 HX) (proj1 HY) Es) as (_ & G). destruct (G eq_refl) as (m & Em & Q).
      cbn. rewrite EX, EY. cbn [bind]. rewrite Em. cbn. eexists. split; [reflexivity|]. apply is_mat_readsL; auto.
    + intros H. injection H as <-. cbn. rewrite EX, EY. cbn [bind]. unfold m_mul.
      destruct HX as ((_ & -> & _) & _). destruct HY as ((-> & _) & _). destruct (Nat.eqb_spec n n'); [congruence|]. reflexivity.
  - intros H. exact (Bin ew_product omul a b o C42_hadamard IHa IHb H).
  - destruct (aeval s a) as [[[[r c] f]|]|] eqn:Ea; [| |discriminate]; intros H; injection H as <-; specialize (IHa _ eq_refl).
    + destruct IHa as (X & EX & HX). cbn. rewrite EX. cbn [bind].
      destruct (proj1 (C32_mul_scalar w) X r c f HX) as (m & -> & Q). cbn. eexists. split; [reflexivity|]. apply is_mat_readsL; auto.
    + cbn in *. rewrite IHa. reflexivity.
  - destruct (aeval s a) as [[[[r c] f]|]|] eqn:Ea; [| |discriminate]; intros H; injection H as <-; specialize (IHa _ eq_refl).
    + destruct IHa as (X & EX & HX). cbn. rewrite EX. cbn [bind].
      destruct (C20_transpose X r c f (proj1 HX)) as (m & -> & Q). cbn. eexists. split; [reflexivity|]. apply is_mat_readsL; auto.
    + cbn in *. rewrite IHa. reflexivity.
Qed.
Lemma evalm_ok s e a r c f : AG s e -> aeval s a = Some (Some (r, c, f)) -> exists m, evalm e a = Ok m /\ is_mat m r c f.
Proof.
  intros HM E. destruct (eval_ok s e HM a _ E) as (X & EX & HX). unfold evalm. rewrite EX. cbn. apply mat_of_mb_ok; auto.
Qed.
Lemma evalm_throw s e a : AG s e -> aeval s a = Some None -> evalm e a = Throw.
Proof. intros HM E. assert (H := eval_ok s e HM a _ E). cbn in H. unfold evalm. rewrite H. reflexivity. Qed.

Lemma AG_view s e x p r c f r' c' h m' : AG s e -> vshape p r c = Some (r', c') -> vstate p r c r' c' f h m' ->
  AG (aset s x (Some (Mx r c (awrite p r' c' h f)))) (mbind e x (Some m')).
Proof. intros H Hv Q. apply AG_upd; auto. exists m'. split; auto. eapply awrite_ok; eauto. Qed.
Lemma atable_ok (ll : list (list T)) r c f : atable ll = Some (Some (r, c, f)) ->
  exists m, mat_of_nested ll = Ok m /\ (forall m0, mat_assign_nested m0 ll = Ok m) /\ is_mat m r c f.
Proof.
  unfold atable. destruct ll as [|[|a first] rest]; try discriminate. set (ll := (a :: first) :: rest).
  destruct (shape_okb _ _) eqn:Es; [|discriminate]. destruct (forallb _ ll) eqn:Ef; [|discriminate]. cbn [andb].
  intros H. injection H as <- <- <-. apply shape_okbP in Es. rewrite forallb_forall in Ef.
  destruct (mat_of_nested_ok ll (length ll) (length (a :: first)) (fun i j => nth j (nth i ll nil) o0)) as (m & E & Q); auto.
  - unfold ll. cbn. lia.
  - cbn. lia.
  - intros row E. unfold ll in E. cbn in E. congruence.
  - intros i j Hi Hj. destruct (nth_error_lt ll i) as (row & E); [lia|]. exists row. split; auto.
    rewrite (nth_error_nth ll i nil E). apply nth_error_nth'.
    assert (HL := Ef row (nth_error_In _ _ E)). apply Nat.leb_le in HL. lia.
  - exists m. split; auto.
Qed.
Lemma atable_none (ll : list (list T)) : atable ll = Some None -> ll = nil \/ exists rest, ll = nil :: rest.
Proof.
  unfold atable. destruct ll as [|[|a first] rest]; eauto. destruct (_ && _); discriminate.
Qed.

Definition steps (s : aenv) (e : @menv T) (st : stmt) (s' : aenv) (o : obs) : Prop :=
  (pstep e st = Throw /\ o = Threw /\ s' = s) \/ (exists e', pstep e st = Ok (e', o) /\ o <> Threw /\ AG s' e').

Ltac fin := eexists; split; [reflexivity|]; split; [discriminate|].
Lemma assign_step s e x y p s' o : AG s e ->
  match s x with
  | None => None
  | Some _ => if x =? y then if is_root p then Some (s, Done) else None
      else match s y with
           | Some (Mx r c f) =>
               match vshape p r c with
               | Some (r', c') => if r' * c' =? 0 then Some (s, Done) else Some (aset s x (Some (Mx r' c' (vsel p f))), Done)
               | None => None
               end
           | _ => None
           end
  end = Some (s', o) ->
  exists e' : @menv T, (let* e := mstep e (MAssign x y p) in Ok (e, @Done T)) = Ok (e', o) /\ o <> Threw /\ AG s' e'.
Proof.
  intros HM. destruct (s x) as [ax|] eqn:Ex; [|discriminate]. destruct (AG_any s e x ax HM Ex) as (mx & Lx & Ex').
  cbn [mstep]. rewrite Lx. cbn [bind]. destruct (Nat.eqb_spec x y) as [<-|N].
  - destruct p; try discriminate. intros H; injection H as <- <-. rewrite Lx. cbn. fin. auto.
  - destruct (s y) as [[r c f|]|] eqn:Ey; try discriminate. destruct (AG_look s e y r c f HM Ey) as (my & -> & Ey' & Q). cbn [bind].
    destruct (vshape p r c) as [[r' c']|] eqn:Ev; [|discriminate]. assert (HR := vmb_reads p my r c f r' c' Q Ev).
    destruct (Nat.eqb_spec (r' * c') 0) as [E0|E0]; intros H; injection H as <- <-.
    + rewrite mat_assign_empty. 2:{ destruct HR as (_ & _ & -> & _). auto. } cbn. fin. apply AG_id; auto.
    + destruct (mat_assign_ok _ mx r' c' _ HR) as (m' & -> & Q'); [lia|]. cbn. fin. apply AG_upd; auto. cbn. eauto.
Qed.
Lemma arith_step s e x p y (op : vpath -> (Matrix T -> MB T) -> Matrix T -> Res (Matrix T)) g s' o : AG s e -> inplace_elementwise op g ->
  match s x with
  | Some (Mx r c f) =>
      match vshape p r c with
      | Some (r', c') =>
          match (match s x with Some (Mx r0 c0 _) => if lin_okb p r0 c0 then
             match s y with
             | Some (Mx ry cy h) =>
               if (x =? y) && negb (is_root p) then None
               else if (ry =? r') && (cy =? c') then Some (Some (fun i j => g (vsel p f i j) (h i j))) else Some None
             | _ => None end else None | _ => None end) with
          | None => None
          | Some None => Some (s, Threw)
          | Some (Some h) => Some (aset s x (Some (Mx r c (awrite p r' c' h f))), Done)
          end
      | None => None
      end
  | _ => None
  end = Some (s', o) ->
  let q := let* e0 := (let* mx := mlook e x in let* my := mlook e y in
      keep e x (op p (if x =? y then mb_of_mat else fun _ => mb_of_mat my) mx)) in Ok (e0, @Done T) in
  q = Throw /\ o = Threw /\ s' = s \/ (exists e' : menv, q = Ok (e', o) /\ o <> Threw /\ AG s' e').
Proof.
  intros HM Hop. destruct (s x) as [[rr cc f|]|] eqn:Ex; try discriminate. destruct (AG_look s e x rr cc f HM Ex) as (m & Lx & Ex' & Q). rewrite Lx. cbn [bind].
  destruct (vshape p rr cc) as [[r' c']|] eqn:Ev; [|discriminate]. destruct (lin_okb p rr cc) eqn:El; [|discriminate]. apply lin_okbP in El.
  destruct (s y) as [[ry cy h|]|] eqn:Ey; try discriminate. destruct (AG_look s e y ry cy h HM Ey) as (my & -> & Ey' & Qy). cbn [bind].
  destruct (Hop m rr cc f p r' c' Q Ev El) as (G1 & G2). destruct (Nat.eqb_spec x y) as [<-|N]; cbn [andb].
  - destruct p; try discriminate. cbn [is_root negb]. cbn in Ev. injection Ev as <- <-.
    assert (m = my) by congruence. subst my. rewrite Ex in Ey. injection Ey as <- <- <-.
    rewrite !Nat.eqb_refl. cbn [andb]. intros H; injection H as <- <-. right.
    destruct G2 as (m' & E & Q'). cbn [vmb] in E. change (fun m0 : Matrix T => mb_of_mat m0) with (@mb_of_mat T) in E.
    rewrite E. cbn [keep bind]. fin. eapply AG_view; eauto; reflexivity.
  - destruct (G1 (mb_of_mat my) ry cy h) as (Gt & Gok); [apply is_mat_readsL; auto|].
    destruct (Nat.eqb_spec ry r') as [E1|N1]; [destruct (Nat.eqb_spec cy c') as [E2|N2]|]; cbn [andb]; intros H; injection H as <- <-.
    + right. destruct (Gok (eq_sym E1) (eq_sym E2)) as (m' & -> & Q'). cbn [keep bind]. fin. eapply AG_view; eauto.
    + left. rewrite (proj2 Gt) by (intros (A & B); congruence). auto.
    + left. rewrite (proj2 Gt) by (intros (A & B); congruence). auto.
Qed.
Lemma step_ok s e st s' o : AG s e -> astep s st = Some (s', o) -> steps s e st s' o.
Proof.
  intros HM. unfold steps. destruct st as [c|x a|x a|x p].
  - destruct c; cbn [astep pstep mstep].
    + destruct (s x) eqn:Ex; [discriminate|]. intros HH; injection HH as <- <-. right. rewrite (AG_fresh s e x) by auto. cbn. fin.
      apply AG_upd; auto. exists mat_empty. split; auto. repeat split; auto. intros i j Hi. lia.
    + destruct (s x) eqn:Ex; [discriminate|]. destruct (shape_okb r c) eqn:Es; [|discriminate]. apply shape_okbP in Es.
      intros HH; injection HH as <- <-. right. rewrite (AG_fresh s e x) by auto. cbn [bind].
      destruct (mat_new_ok r c v) as (m & -> & Q); auto. cbn. fin. apply AG_upd; auto. cbn. eauto.
    + destruct (s x) eqn:Ex; [discriminate|]. destruct (shape_okb r c) eqn:Es; [|discriminate]. apply shape_okbP in Es.
      destruct (Nat.leb_spec (r * c) (length l)) as [L|L]; [|discriminate]. cbn [andb].
      intros HH; injection HH as <- <-. right. rewrite (AG_fresh s e x) by auto. cbn [bind].
      destruct (mat_of_list_ok r c l Es L o0) as (m & -> & Q). cbn. fin. apply AG_upd; auto. cbn. eauto.
    + destruct (s x) eqn:Ex; [discriminate|]. rewrite (AG_fresh s e x) by auto. cbn [bind].
      destruct (atable ll) as [[[[r c] f]|]|] eqn:Et; [| |discriminate]; intros HH; injection HH as <- <-.
      * right. destruct (atable_ok ll r c f Et) as (m & -> & _ & Q). cbn. fin. apply AG_upd; auto. cbn. eauto.
      * left. destruct (atable_none ll Et) as [->|(rest & ->)]; auto.
    + destruct (s x) eqn:Ex; [discriminate|]. rewrite (AG_fresh s e x) by auto. cbn [bind].
      destruct (aeval s (EVar y p)) as [[[[r c] f]|]|] eqn:Ea; [| |discriminate]; intros HH; injection HH as <- <-.
      * right. destruct (evalm_ok s e _ r c f HM Ea) as (m & Em & Q). unfold evalm in Em. cbn [eval] in Em.
        destruct (mlook e y) as [my| | | |]; cbn [bind] in *; try discriminate. rewrite Em. cbn. fin. apply AG_upd; auto. cbn. eauto.
      * cbn in Ea. destruct (s y) as [[]|]; try discriminate. destruct (vshape p r c) as [[]|]; try discriminate. destruct (lin_okb p r c); discriminate.
    + destruct (s x) eqn:Ex; [discriminate|]. rewrite (AG_fresh s e x) by auto. cbn [bind].
      destruct (s y) as [[r c f|]|] eqn:Ey; try discriminate. intros HH; injection HH as <- <-.
      destruct (AG_look s e y r c f HM Ey) as (m & -> & Em & Q). cbn [bind]. right. fin. apply AG_upd.
      * assert (Q' := Q). destruct Q' as (Er & Ec & Es & El & _). cbn [mat_move_ctor snd]. destruct (Nat.eqb_spec (r * c) 0) as [E0|E0].
        -- assert (mkM (rows m) (cols m) nil = m) as ->. { rewrite E0 in El. destruct m as [a b d]. cbn in *. destruct d; [auto|discriminate]. }
           apply AG_id; auto.
        -- apply AG_upd; auto. eexists. split; [reflexivity|]. cbn. rewrite Er, Ec. repeat split; auto; try apply Es. lia.
      * exists m. split; auto. destruct m; reflexivity.
    + intros H. right. exact (assign_step s e x y p s' o HM H).
    + destruct (s x) as [ax|] eqn:Ex; [|discriminate]. destruct (AG_any s e x ax HM Ex) as (mx & Lx & Ex'). rewrite Lx. cbn [bind]. intros H; right; revert H.
      destruct (Nat.eqb_spec x y) as [<-|N].
      { intros HH; injection HH as <- <-. rewrite Lx. cbn. fin. auto. }
      destruct (s y) as [[r c f|]|] eqn:Ey; [| |discriminate].
      * destruct (AG_look s e y r c f HM Ey) as (m & -> & Ey' & Q). cbn [bind]. assert (Q' := Q). destruct Q' as (Er & Ec & Es & El & _).
        unfold mat_move_assign. rewrite Er, Ec, mul64_small by (apply shape_size; auto).
        destruct (Nat.eqb_spec (r * c) 0) as [E0|E0]; cbn [fst snd]; intros HH; injection HH as <- <-; fin.
        -- assert (AG s (mbind e y (Some m))) by (apply AG_id; auto).
           apply AG_id; auto. unfold mbind. destruct (Nat.eqb_spec x y); congruence.
        -- apply AG_upd. { apply AG_upd; auto. eexists. split; [reflexivity|]. cbn. repeat split; auto; try apply Es. lia. }
           exists m. split; auto. destruct m; cbn in *; congruence.
      * intros HH; injection HH as <- <-. destruct (AG_any s e y Moved HM Ey) as (my & -> & Ey'). cbn [bind].
        assert (G := HM y). rewrite Ey in G. destruct G as (m & Em & G1 & G2 & G3).
        assert (m = my) by congruence. subst m. unfold mat_move_assign. rewrite mul64_small by (apply shape_size; auto).
        destruct (Nat.eqb_spec (rows my * cols my) 0); [lia|]. cbn [fst snd]. fin.
        apply AG_upd; [|cbn; eauto]. assert (mkM (rows my) (cols my) nil = my) as -> by (destruct my; cbn in *; congruence). apply AG_id; auto.
    + destruct (s x) as [ax|] eqn:Ex; [|discriminate]. destruct (AG_any s e x ax HM Ex) as (mx & -> & Ex'). cbn [bind]. intros H; right; revert H.
      destruct (atable ll) as [[[[r c] f]|]|] eqn:Et; [| |discriminate]; intros HH; injection HH as <- <-.
      * destruct (atable_ok ll r c f Et) as (m & _ & E & Q). rewrite E. cbn. fin. apply AG_upd; auto. cbn. eauto.
      * exists (mbind e x (Some mx)). split; [destruct (atable_none ll Et) as [->|(rest & ->)]; reflexivity|]. split; [discriminate|]. apply AG_id; auto.
    + destruct (s x) as [[r0 c0 f|]|] eqn:Ex; try discriminate. destruct (AG_look s e x r0 c0 f HM Ex) as (m & -> & Ex' & Q). cbn [bind].
      destruct (shape_okb r c) eqn:Es; [|discriminate]. apply shape_okbP in Es. intros HH; injection HH as <- <-. right.
      destruct (mat_resize_ok m r0 c0 f r c Q Es) as (m' & -> & Q'). cbn. fin. apply AG_upd; auto. cbn. eauto.
    + destruct (s x) as [[r0 c0 f|]|] eqn:Ex; try discriminate. destruct (AG_look s e x r0 c0 f HM Ex) as (m & -> & Ex' & Q). cbn [bind].
      destruct (sizeb r) eqn:S1; [|discriminate]. destruct (sizeb c) eqn:S2; [|discriminate]. destruct (sizeb (r * c)) eqn:S3; [|discriminate].
      apply sizebP in S1, S2, S3. cbn [andb]. destruct (Nat.eqb_spec (r * c) (r0 * c0)) as [E|E]; intros HH; injection HH as <- <-.
      * right. destruct (mat_reshape_ok m r0 c0 f r c Q) as (m' & -> & _ & Q'); auto. cbn. fin. apply AG_upd; auto. cbn. eauto.
      * left. rewrite (mat_reshape_throw m r0 c0 f r c) by auto. auto.
    + destruct (s x) as [[r0 c0 f|]|] eqn:Ex; try discriminate. destruct (AG_look s e x r0 c0 f HM Ex) as (m & -> & Ex' & Q). cbn [bind].
      destruct (Nat.ltb_spec k r0) as [E|E]; intros HH; injection HH as <- <-.
      * right. destruct (remove_row_ok m r0 c0 f k Q E) as (m' & -> & Q'). cbn. fin. apply AG_upd; auto. cbn. exists m'. split; auto.
        eapply is_mat_ext; [exact Q'|]. intros i j _ _. cbn. destruct (i <? k); reflexivity.
      * left. rewrite remove_row_throw; auto. destruct Q as (-> & _). auto.
    + destruct (s x) as [[r0 c0 f|]|] eqn:Ex; try discriminate. destruct (AG_look s e x r0 c0 f HM Ex) as (m & -> & Ex' & Q). cbn [bind].
      destruct (Nat.ltb_spec k c0) as [E|E]; intros HH; injection HH as <- <-.
      * right. destruct (remove_column_ok m r0 c0 f k Q E) as (m' & -> & Q'). cbn. fin. apply AG_upd; auto. cbn. exists m'. split; auto.
        eapply is_mat_ext; [exact Q'|]. intros i j _ _. cbn. destruct (j <? k); reflexivity.
      * left. rewrite remove_column_throw; auto. destruct Q as (_ & -> & _). auto.
    + destruct (s x) as [[r0 cc f|]|] eqn:Ex; try discriminate. destruct (AG_look s e x r0 cc f HM Ex) as (m & -> & Ex' & Q). cbn [bind].
      destruct (vshape p r0 cc) as [[r' c']|] eqn:Ev; [|discriminate].
      destruct (Nat.ltb_spec i r') as [Hi|]; [|discriminate]. destruct (Nat.ltb_spec j r') as [Hj|]; [|discriminate]. cbn [andb].
      intros HH; injection HH as <- <-. right. destruct (swap_rows_ok p r0 cc r' c' f m i j c0 c1 Q Ev Hi Hj) as (m' & -> & Q').
      cbn [keep bind]. fin. eapply AG_view; eauto. eapply vstate_ext; [|exact Q']. intros a b Ha Hb. unfold fswap_rows.
      destruct (Nat.leb_spec c0 b); cbn; auto. destruct (Nat.ltb_spec b (Nat.min c1 c')), (Nat.ltb_spec b c1); try lia; auto.
      destruct (a =? i); auto. destruct (a =? j); auto.
    + destruct (s x) as [[rr cc f|]|] eqn:Ex; try discriminate. destruct (AG_look s e x rr cc f HM Ex) as (m & -> & Ex' & Q). cbn [bind].
      destruct (vshape p rr cc) as [[r' c']|] eqn:Ev; [|discriminate].
      destruct (Nat.ltb_spec i c') as [Hi|]; [|discriminate]. destruct (Nat.ltb_spec j c') as [Hj|]; [|discriminate]. cbn [andb].
      intros HH; injection HH as <- <-. right. destruct (swap_cols_ok p rr cc r' c' f m i j r0 r1 Q Ev Hi Hj) as (m' & -> & Q').
      cbn [keep bind]. fin. eapply AG_view; eauto. eapply vstate_ext; [|exact Q']. intros a b Ha Hb. unfold fswap_cols.
      destruct (Nat.leb_spec r0 a); cbn; auto. destruct (Nat.ltb_spec a (Nat.min r1 r')), (Nat.ltb_spec a r1); try lia; auto.
      destruct (b =? i); auto. destruct (b =? j); auto.
    + destruct (s x) as [[rr cc f|]|] eqn:Ex; try discriminate. destruct (AG_look s e x rr cc f HM Ex) as (m & -> & Ex' & Q). cbn [bind].
      destruct (vshape p rr cc) as [[r' c']|] eqn:Ev; [|discriminate].
      destruct (Nat.ltb_spec i r') as [Hi|]; [|discriminate]. destruct (Nat.ltb_spec j c') as [Hj|]; [|discriminate]. cbn [andb].
      intros HH; injection HH as <- <-. right. destruct (vstate_set p rr cc r' c' f (vsel p f) m i j v Ev) as (m' & -> & Q'); auto.
      { apply vstate_init; auto. }
      cbn [keep bind]. fin. eapply AG_view; eauto.
    + destruct (s x) as [[rr cc f|]|] eqn:Ex; try discriminate. destruct (AG_look s e x rr cc f HM Ex) as (m & -> & Ex' & Q). cbn [bind].
      destruct (vshape p rr cc) as [[r' c']|] eqn:Ev; [|discriminate].
      destruct (s y) as [[ry cy g|]|] eqn:Ey; try discriminate. destruct (AG_look s e y ry cy g HM Ey) as (my & -> & Ey' & Qy). cbn [bind].
      destruct (Nat.eqb_spec x y); [discriminate|]. destruct (Nat.eqb_spec ry r') as [->|]; [|discriminate].
      destruct (Nat.eqb_spec cy c') as [->|]; [|discriminate]. cbn [negb andb]. intros HH; injection HH as <- <-. right.
      destruct (view_assign_const p (mb_of_mat my) m rr cc f r' c' g Q Ev) as (m' & f' & -> & Q' & W); auto; [apply is_mat_reads; auto|].
      cbn [keep bind]. fin. eapply AG_view; eauto. exists f'. auto.
    + exact (arith_step s e x p y _ oadd s' o HM C32_inplace_add).
    + exact (arith_step s e x p y _ osub s' o HM C32_inplace_sub).
    + destruct (s x) as [[rr cc f|]|] eqn:Ex; try discriminate. destruct (AG_look s e x rr cc f HM Ex) as (m & -> & Ex' & Q). cbn [bind].
      destruct (vshape p rr cc) as [[r' c']|] eqn:Ev; [|discriminate]. destruct (lin_okb p rr cc) eqn:El; [|discriminate]. apply lin_okbP in El.
      destruct (s y) as [[ry cy g|]|] eqn:Ey; try discriminate. destruct (AG_look s e y ry cy g HM Ey) as (my & -> & Ey' & Qy). cbn [bind].
      destruct ((x =? y) && negb (is_root p)) eqn:Al; [discriminate|].
      set (src := if x =? y then _ else _).
      assert (Hsrc : reads (src m) ry cy g).
      { unfold src. destruct (Nat.eqb_spec x y) as [<-|N]; apply is_mat_reads; [|auto].
        assert (m = my) by congruence. subst my. auto. }
      destruct (Nat.eqb_spec ry c') as [E1|N1]; cbn [negb].
      * destruct (Nat.leb_spec cy c') as [L|L]; [|discriminate]. intros HH; injection HH as <- <-. right. subst ry.
        destruct (m_imul_ok p src rr cc r' c' f m cy g Q Ev El Hsrc L) as (m' & -> & Q'). cbn [keep bind]. fin. eapply AG_view; eauto.
      * intros HH; injection HH as <- <-. left. unfold m_imul. rewrite (vmb_cols p rr cc r' c' m f Q Ev). destruct Hsrc as (-> & _).
        destruct (Nat.eqb_spec c' ry); [congruence|]. auto.
    + destruct (s x) as [[rr cc f|]|] eqn:Ex; try discriminate. destruct (AG_look s e x rr cc f HM Ex) as (m & E & Ex' & Q). rewrite E. cbn [bind].
      destruct (vshape p rr cc) as [[r' c']|] eqn:Ev; [|discriminate]. destruct (lin_okb p rr cc) eqn:El; [|discriminate]. apply lin_okbP in El.
      intros HH; injection HH as <- <-. right.
      match goal with |- context [m_imuls p ?w m] => destruct (C32_inplace_mul_scalar w m rr cc f p r' c' Q Ev El) as (m' & -> & Q') end.
      cbn [keep bind]. fin. eapply AG_view; eauto.
    + destruct (s x) as [[rr cc f|]|] eqn:Ex; try discriminate. destruct (AG_look s e x rr cc f HM Ex) as (m & -> & Ex' & Q). cbn [bind].
      destruct (vshape p rr cc) as [[r' c']|] eqn:Ev; [|discriminate].
      destruct (Nat.ltb_spec i r') as [Hi|]; [|discriminate]. destruct (Nat.ltb_spec j c') as [Hj|]; [|discriminate]. cbn [andb].
      intros HH; injection HH as <- <-. right. destruct (vmb_reads p m rr cc f r' c' Q Ev) as (_ & _ & _ & _ & Hg). rewrite Hg by auto. cbn. fin. auto.
    + destruct (s x) as [ax|] eqn:Ex; [|discriminate]. destruct (AG_any s e x ax HM Ex) as (mx & -> & Ex'). cbn [bind].
      intros HH; injection HH as <- <-. right. fin. apply AG_upd; auto. reflexivity.
  - cbn [astep pstep]. destruct (s x) eqn:Ex; [discriminate|]. rewrite (AG_fresh s e x) by auto. cbn [bind].
    destruct (aeval s a) as [[[[r c] f]|]|] eqn:Ea; [| |discriminate]; intros HH; injection HH as <- <-.
    + right. destruct (evalm_ok s e _ r c f HM Ea) as (m & -> & Q). cbn. fin. apply AG_upd; auto. cbn. eauto.
    + left. rewrite (evalm_throw s e a HM Ea). auto.
  - assert (G : (match s x with
      | None => None
      | Some _ => match aeval s a with
             | None => None
             | Some None => Some (s, Threw)
             | Some (Some (r, c, f)) => if r * c =? 0 then Some (s, Done) else Some (aset s x (Some (Mx r c f)), Done)
             end end = Some (s', o)) ->
      let q := (let* mx := mlook e x in let* m := evalm e a in Ok (mbind e x (Some (fst (mat_move_assign mx m))), Done)) in
      q = Throw /\ o = Threw /\ s' = s \/ (exists e' : menv, q = Ok (e', o) /\ o <> Threw /\ AG s' e')).
    { destruct (s x) as [ax|] eqn:Ex; [|discriminate]. destruct (AG_any s e x ax HM Ex) as (mx & -> & Ex'). cbn [bind].
      destruct (aeval s a) as [[[[r c] f]|]|] eqn:Ea; [| |discriminate].
      - destruct (evalm_ok s e _ r c f HM Ea) as (m & -> & Q). cbn [bind]. assert (Q' := Q). destruct Q' as (Er & Ec & Es & _).
        unfold mat_move_assign. rewrite Er, Ec, mul64_small by (apply shape_size; auto).
        destruct (Nat.eqb_spec (r * c) 0) as [E0|E0]; intros HH; injection HH as <- <-; right; cbn [fst]; fin.
        + apply AG_id; auto.
        + apply AG_upd; auto. exists m. split; auto. destruct m; cbn in *; congruence.
      - intros HH; injection HH as <- <-. left. rewrite (evalm_throw s e a HM Ea). auto. }
    destruct a; try exact G. intros H. right. exact (assign_step s e x y p s' o HM H).
  - cbn [astep pstep]. destruct (s x) as [[rr cc f|]|] eqn:Ex; try discriminate. destruct (AG_look s e x rr cc f HM Ex) as (m & -> & Ex' & Q). cbn [bind].
    destruct (vshape p rr cc) as [[r' c']|] eqn:Ev; [|discriminate]. intros HH; injection HH as <- <-. right.
    destruct (vmb_reads p m rr cc f r' c' Q Ev) as (E1 & E2 & _). rewrite E1, E2. fin. auto.
Qed.
Lemma run_ok cs : forall s e s' os, AG s e -> arun s cs = Some (s', os) -> exists e', prun e cs = Ok (e', os) /\ AG s' e'.
Proof.
  induction cs as [|c cs IH]; intros s e s' os HM; cbn [arun prun].
  - intros HH; injection HH as <- <-. eauto.
  - destruct (astep s c) as [[s1 o1]|] eqn:E1; [|discriminate]. destruct (arun s1 cs) as [[s2 os2]|] eqn:E2; [|discriminate].
    intros HH; injection HH as <- <-. destruct (step_ok s e c s1 o1 HM E1) as [(-> & -> & ->)|(e1 & -> & No & H1)].
    + destruct (IH s e s2 os2 HM E2) as (e' & -> & Q). cbn. eauto.
    + cbn [bind]. destruct (IH s1 e1 s2 os2 H1 E2) as (e' & -> & Q). cbn. eauto.
Qed.

(** A matrix object holds the table: shape, number of elements, each element. *)
Definition holds (m : Matrix T) (r c : nat) (f : nat -> nat -> T) : Prop :=
  mrows (mb_of_mat m) = r /\ mcols (mb_of_mat m) = c /\ msize (mb_of_mat m) = r * c /\ length (data m) = r * c /\
  forall i j, i < r -> j < c -> mget (mb_of_mat m) i j = Ok (f i j).
(** The program behaves as specified: the same outputs, statement by statement, and in
    the end every matrix holds what the specification says. *)
Theorem C83_programs : forall cs s os, arun (fun _ => None) cs = Some (s, os) ->
  exists e : @menv T, prun (fun _ => None) cs = Ok (e, os) /\
    forall x, match s x with
              | None => e x = None
              | Some (Mx r c f) => exists m, e x = Some m /\ holds m r c f
              | Some Moved => exists m, e x = Some m /\ data m = nil /\ forall i j, mget (mb_of_mat m) i j = UB
              end.
Proof.
  intros cs s os H. destruct (run_ok cs (fun _ => None) (fun _ => None) s os) as (e & E & HM); auto.
  { intros x. reflexivity. }
  exists e. split; auto. intros x. specialize (HM x). destruct (s x) as [[r c f|]|]; auto.
  - destruct HM as (m & Ex & Q). exists m. split; auto. destruct (is_mat_reads _ _ _ _ Q) as (A & B & C & _ & D).
    split; [exact A|]. split; [exact B|]. split; [exact C|]. split; [apply Q|]. exact D.
  - destruct HM as (m & Ex & S & P & D). exists m. split; auto. split; auto. intros i j. cbn. unfold mat_at. rewrite D. apply lget_ub. cbn. lia.
Qed.
End Proofs.

(** A legal program over integers with views, nested expressions, exceptions, moves and
    in-place arithmetic, and what it shows. *)
From Verif Require Import Scalar.
Definition ex_prog : list (@stmt Z) :=
  [SOp (MNested 0 [[1;2;3];[4;5;6]]%Z);
   SLet 1 (EMul (EVar 0 Root) (ETrans (EVar 0 Root)));                               (* [[14,32],[32,77]] *)
   SLet 2 (EAdd (EVar 1 Root) (EVar 0 Root));                                        (* throws: 2x2 + 2x3 *)
   SLet 2 (ESub (EVar 0 (PView (mkRange 0 2) (mkRange 1 3) Root)) (EScale (EVar 1 Root) 2%Z)); (* [[-26,-61],[-59,-148]] *)
   SOp (MMul 0 Root 2);                                                              (* throws: 2x3 *= 2x2 *)
   SOp (MAdd 0 (PView (mkRange 0 2) (mkRange 0 2) Root) 1);                          (* [[15,34,3],[36,82,6]] *)
   SOp (MSwapRows 0 (PView (mkRange 0 2) (mkRange 1 3) Root) 0 1 0 5);               (* [[15,82,6],[36,34,3]] *)
   SOp (MGet 0 (PCof 1 0 Root) 0 1);                                                 (* 6 *)
   SOp (MReshape 0 3 2);                                                             (* [[15,82],[6,36],[34,3]] *)
   SOp (MRemoveRow 0 1);                                                             (* [[15,82],[34,3]] *)
   SDims 0 Root;
   SAssign 1 (EEw (EVar 0 Root) (EVar 0 Root));                                      (* [[225,6724],[1156,9]] *)
   SOp (MMoveAssign 2 1);
   SOp (MGet 2 Root 0 1);
   SOp (MDestroy 0)].
Example ex_C83 : exists s, arun (fun _ => None) ex_prog =
    Some (s, [Done; Done; Threw; Done; Threw; Done; Done; Val 6%Z; Done; Done; Dims 2 2; Done; Done; Val 6724%Z; Done]) /\
  s 0 = None /\ s 1 = Some Moved /\ exists f, s 2 = Some (Mx 2 2 f) /\ f 0 0 = 225%Z /\ f 0 1 = 6724%Z /\ f 1 0 = 1156%Z /\ f 1 1 = 9%Z.
Proof.
  eexists. split; [reflexivity|]. split; [reflexivity|]. split; [reflexivity|]. eexists. split; [reflexivity|]. vm_compute. auto.
Qed.
