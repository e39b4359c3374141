(** LinalgFacts.v: lemmas about the model of linalg.hpp, for any element type. *)
From Verif Require Export MathFacts Linalg.
From Coq Require Import ZifyBool ZifyNat ZifyN.
Ltac Zify.zify_post_hook ::= Z.div_mod_to_equations.

Section L.
Context {T : Type} {O : Ops T}.
Implicit Types (A B : MB T).

Lemma tmap_ok (g : T -> T) A r c f : reads A r c f -> exists m, tmap g A = Ok m /\ is_mat m c r (fun i j => g (f j i)).
Proof.
  intros (Ar & Ac & _ & As & Ag). unfold tmap. rewrite Ar, Ac.
  destruct (mat_new_ok (T:=T) c r o0 (shape_ok_sym _ _ As)) as (m & E & Hm). rewrite E. cbn [bind].
  destruct (for2_inv (fun i j m => is_mat m c r (fun a b => if before i j b a then g (f b a) else o0)) r c
    (fun i j m => let* x := mget A i j in mat_set m j i (g x)) m) as (m' & E' & Q).
  - eapply is_mat_ext; [exact Hm|]. intros a b Ha Hb. unfold before. nb.
  - intros i j s Hi Hj Q. rewrite Ag by auto. cbn [bind]. destruct (mat_set_ok s c r _ j i (g (f i j)) Q Hj Hi) as (s' & E' & Q').
    exists s'. split; auto. eapply is_mat_ext; [exact Q'|]. intros a b Ha Hb. unfold fset, before.
    destruct (Nat.eqb_spec a j) as [->|N]; destruct (Nat.eqb_spec b i) as [->|N2]; nb.
  - intros i s Hi Q. eapply is_mat_ext; [exact Q|]. intros a b Ha Hb. unfold before. nb.
  - exists m'. split; auto. eapply is_mat_ext; [exact Q|]. intros a b Ha Hb. unfold before. nb.
Qed.

Lemma fminor_reads A n k f i j : readsL A n k f -> 0 < n -> 0 < k ->
  reads (mb_cof i j A) (n - 1) (k - 1) (fminor i j f).
Proof.
  intros ((Ar & Ac & Az & As & Ag) & Al) Hn Hk. assert (S1 : is_size 1). { apply (size_le _ n); auto. apply As. }
  assert (En : sub64 n 1 = n - 1) by (apply sub64_small; [lia|apply As]).
  assert (Ek : sub64 k 1 = k - 1) by (apply sub64_small; [lia|apply As]).
  assert (Hs : shape_ok (n - 1) (k - 1)) by (apply (shape_ok_le n k); auto; lia).
  repeat split; cbn; rewrite ?Ar, ?Ac, ?En, ?Ek; auto; try apply Hs.
  - apply mul64_small. apply shape_size; auto.
  - intros a b Ha Hb. unfold fminor.
    rewrite (skip_small i a n), (skip_small j b k) by (lia || apply As).
    apply Ag; [destruct (Nat.ltb_spec a i)|destruct (Nat.ltb_spec b j)]; lia.
Qed.
Lemma cof_readsL A n f i j : readsL A n n f -> 0 < n ->
  readsL (mb_cof i j A) (n - 1) (n - 1) (fminor i j f).
Proof.
  intros H Hn. assert (R := fminor_reads A n n f i j H Hn Hn). split; auto.
  intros k Hk. destruct R as (Rr & Rc & _ & _ & Rg). cbn [mlin mb_cof]. cbn [mrows mb_cof] in Rr. rewrite Rr.
  destruct (Nat.eqb_spec (n - 1) 0) as [E|N]; [rewrite E in Hk; lia|].
  assert (D1 := div_lt_rc _ _ _ Hk). assert (D2 := mod_lt_rc _ _ _ Hk). apply (Rg _ _ D1 D2).
Qed.

Lemma cofactor_ok A r c f p q : reads A r c f -> p < r -> q < c ->
  exists m, cofactor A p q = Ok m /\ is_mat m (r - 1) (c - 1) (fminor p q f).
Proof.
  intros (Ar & Ac & _ & As & Ag) Hp Hq. unfold cofactor. rewrite Ar, Ac.
  rewrite !sub64_small by (lia || apply As).
  assert (Hs : shape_ok (r - 1) (c - 1)) by (apply (shape_ok_le r c); auto; lia).
  destruct (mat_new_ok (T:=T) (r-1) (c-1) o0 Hs) as (m & E & Hm). rewrite E. cbn [bind].
  set (ri := fun row => if row <=? p then row else row - 1).
  set (ci := fun col => if col <=? q then col else col - 1).
  set (L := fun row col => ri row * (c - 1) + (if row =? p then 0 else ci col)).
  set (body := fun row col (s : Matrix T * nat * nat) =>
      let '(m, i, j) := s in
      if negb (row =? p) && negb (col =? q) then
        let* x := mget A row col in
        let* m := mat_set m i j x in
        if S j =? c - 1 then Ok (m, S i, 0) else Ok (m, i, S j)
      else Ok s).
  set (P := fun row col (s : Matrix T * nat * nat) => let '(m, i, j) := s in
     is_mat m (r - 1) (c - 1) (fun a b => if a * (c - 1) + b <? L row col then fminor p q f a b else o0) /\
     (1 < c -> i * (c - 1) + j = L row col /\ j < c - 1)).
  destruct (for2_inv P r c body (m, 0, 0)) as (((m' & i) & j) & E' & Q & _).
  - split.
    + eapply is_mat_ext; [exact Hm|]. intros a b Ha Hb. replace (L 0 0) with 0 by (unfold L, ri, ci; nb). reflexivity.
    + intros Hc. replace (L 0 0) with 0 by (unfold L, ri, ci; nb). lia.
  - intros row col ((s & i) & j) Hrow Hcol (Q & Hij). unfold body.
    destruct (Nat.eqb_spec row p) as [Ep|Np]; cbn [negb andb].
    + eexists. split; [reflexivity|]. assert (EL : L row (S col) = L row col). { unfold L. nb. }
      split; rewrite EL; auto.
    + destruct (Nat.eqb_spec col q) as [Eq|Nq]; cbn [negb andb].
      * eexists. split; [reflexivity|]. assert (EL : L row (S col) = L row col). { unfold L, ci. nb. }
        split; rewrite EL; auto.
      * assert (Hc : 1 < c) by lia. destruct (Hij Hc) as (H1 & H2). rewrite Ag by auto. cbn [bind].
        assert (Hci : ci col < c - 1) by (unfold ci; nb). assert (Hri : ri row < r - 1) by (unfold ri; nb).
        assert (EL : L row col = ri row * (c - 1) + ci col) by (unfold L; nb).
        assert (EL2 : L row (S col) = S (L row col)) by (unfold L, ci; nb).
        rewrite EL in H1. destruct (idx_inj _ _ _ _ _ H2 Hci H1) as (-> & ->).
        destruct (mat_set_ok s (r-1) (c-1) _ (ri row) (ci col) (f row col) Q Hri Hci) as (s' & Es & Qs). rewrite Es. cbn [bind].
        assert (Qs' : is_mat s' (r - 1) (c - 1) (fun a b => if a * (c - 1) + b <? L row (S col) then fminor p q f a b else o0)).
        { eapply is_mat_ext; [exact Qs|]. intros a b Ha Hb. unfold fset. rewrite EL2, EL.
          destruct (Nat.eqb_spec a (ri row)) as [->|Na]; destruct (Nat.eqb_spec b (ci col)) as [->|Nb]; cbn [andb].
          - destruct (Nat.ltb_spec (ri row * (c - 1) + ci col) (S (ri row * (c - 1) + ci col))); [|lia].
            unfold fminor, ri, ci. f_equal; nb.
          - nb.
          - assert (a * (c-1) + ci col <> ri row * (c - 1) + ci col) by (intros E2; destruct (idx_inj _ _ _ _ _ Hb Hci E2); congruence). nb.
          - assert (a * (c-1) + b <> ri row * (c - 1) + ci col) by (intros E2; destruct (idx_inj _ _ _ _ _ Hb Hci E2); congruence). nb. }
        destruct (Nat.eqb_spec (S (ci col)) (c - 1)) as [Ec|Nc]; (eexists; split; [reflexivity|]); (split; [exact Qs'|]); intros _; rewrite EL2, EL; split; lia.
  - intros row ((s & i) & j) Hrow (Q & Hij).
    assert (EL : L (S row) 0 = L row c) by (unfold L, ri, ci; nb; nia).
    unfold P. rewrite EL. auto.
  - unfold body in E'. rewrite E'. cbn. exists m'. split; auto. eapply is_mat_ext; [exact Q|]. intros a b Ha Hb. cbn.
    assert (EL : L r 0 = (r - 1) * (c - 1)) by (unfold L, ri, ci; nb; nia). rewrite EL.
    destruct (Nat.ltb_spec (a * (c - 1) + b) ((r - 1) * (c - 1))); auto. assert (a * (c-1) + b < (r-1)*(c-1)) by (apply idx_lt; auto). lia.
Qed.

Lemma mget_all_ok A n f : reads A n n f -> exists g, mget_all A n = Ok g /\ forall i j, i < n -> j < n -> g i j = f i j.
Proof.
  intros (_ & _ & _ & _ & Ag). unfold mget_all.
  destruct (for2_inv (fun i j g => forall a b, a < n -> b < n -> before i j a b = true -> g a b = f a b) n n
    (fun i j (f : nat -> nat -> T) => let* x := mget A i j in
    Ok (fun a b => if (a =? i) && (b =? j) then x else f a b)) (fun _ _ => o0)) as (g & E & Q).
  - intros a b _ _ H. unfold before in H. nb.
  - intros i j g Hi Hj Q. rewrite Ag by auto. cbn [bind]. eexists. split; [reflexivity|]. intros a b Ha Hb H. cbn.
    destruct (Nat.eqb_spec a i) as [->|N]; destruct (Nat.eqb_spec b j) as [->|N2]; cbn; auto; apply Q; auto; unfold before in *; nb.
  - intros i g Hi Q a b Ha Hb H. apply Q; auto. unfold before in *. nb.
  - exists g. split; auto. intros i j Hi Hj. apply Q; auto. unfold before. nb.
Qed.

(** One elimination step, when the divisions succeed. *)
Lemma det_elim_ok (m : Matrix T) n f c pivot (ratio : nat -> T) : is_mat m n n f -> c < n ->
  (forall r, c < r -> r < n -> odiv (f r c) pivot = Ok (ratio r)) ->
  exists m', det_elim n c pivot m = Ok m' /\
    is_mat m' n n (fun i j => if (c <? i) && (c <=? j) then osub (f i j) (omul (ratio i) (f c j)) else f i j).
Proof.
  intros Hm Hc Hr. unfold det_elim.
  set (F := fun t i j => if (c <? i) && (i <? t) && (c <=? j) then osub (f i j) (omul (ratio i) (f c j)) else f i j).
  destruct (for_range_inv (fun t m => is_mat m n n (F t)) (S c) n
    (fun r (A : Matrix T) => let* x := mat_at A r c in let* ratio := odiv x pivot in
       for_range c n (fun k (A : Matrix T) => let* x := mat_at A r k in let* y := mat_at A c k in mat_set A r k (osub x (omul ratio y))) A) m) as (m' & E & Q).
  - lia.
  - eapply is_mat_ext; [exact Hm|]. intros i j Hi Hj. unfold F. nb.
  - intros r s Hr' Q. rewrite (is_mat_at _ _ _ _ r c Q) by lia. cbn [bind].
    replace (F r r c) with (f r c) by (unfold F; nb). rewrite Hr by lia. cbn [bind].
    destruct (for_range_inv (fun t m => is_mat m n n (fun i j => if (i =? r) && (c <=? j) && (j <? t) then osub (f i j) (omul (ratio i) (f c j)) else F r i j)) c n
      (fun k (A : Matrix T) => let* x := mat_at A r k in let* y := mat_at A c k in mat_set A r k (osub x (omul (ratio r) y))) s) as (s' & E & Q').
    + lia.
    + eapply is_mat_ext; [exact Q|]. intros i j Hi Hj. cbn. nb.
    + intros k s1 Hk Q1. rewrite (is_mat_at _ _ _ _ r k Q1), (is_mat_at _ _ _ _ c k Q1) by lia. cbn [bind].
      match goal with |- exists s', mat_set s1 r k ?v = _ /\ _ => destruct (mat_set_ok s1 n n _ r k v Q1) as (s2 & E2 & Q2); try lia end.
      exists s2. split; auto. eapply is_mat_ext; [exact Q2|]. intros i j Hi Hj. unfold fset, F.
      destruct (Nat.eqb_spec i r) as [->|N]; destruct (Nat.eqb_spec j k) as [->|N2]; nb.
    + exists s'. split; auto. eapply is_mat_ext; [exact Q'|]. intros i j Hi Hj. unfold F.
      destruct (Nat.eqb_spec i r) as [->|N]; nb.
  - exists m'. split; auto. eapply is_mat_ext; [exact Q|]. intros i j Hi Hj. unfold F. nb.
Qed.

Definition fswap (i k : nat) (f : nat -> nat -> T) : nat -> nat -> T :=
  fun a b => f (if a =? i then k else if a =? k then i else a) b.
(** The row exchange: either the diagonal element is usable; or some lower one is,
    and the rows are exchanged; or the column is zero from the diagonal down. *)
Lemma det_pivot_ok (m : Matrix T) n f c det : is_mat m n n f -> c < n ->
  (oisz (f c c) = false /\ det_pivot c m det = Ok (Some (m, det))) \/
  (exists k m', c < k /\ k < n /\ oisz (f k c) = false /\ is_mat m' n n (fswap c k f) /\
     det_pivot c m det = Ok (Some (m', omul det (oopp o1)))) \/
  ((forall k, c <= k -> k < n -> oisz (f k c) = true) /\ det_pivot c m det = Ok None).
Proof.
  intros Hm Hc. unfold det_pivot. rewrite (is_mat_at _ _ _ _ c c Hm) by auto. cbn [bind].
  destruct (oisz (f c c)) eqn:Ez; [|left; auto]. right.
  assert (Er : rows m = n) by apply Hm. rewrite Er.
  destruct (first_range_spec (fun k => if oisz (f k c) then None else Some k)
     (fun k => let* x := mat_at m k c in Ok (if oisz x then None else Some k)) (S c) n) as [(k & a & Hk & Ek & _ & E)|(Hn & E)].
  - intros i Hi. rewrite (is_mat_at _ _ _ _ i c Hm) by lia. reflexivity.
  - left. rewrite E. cbn [bind]. destruct (oisz (f k c)) eqn:Ek2; [discriminate|]. injection Ek as <-.
    destruct (swap_rows_ok Root n n n n f m c k 0 (N.to_nat size_max) Hm eq_refl Hc ltac:(lia)) as (m' & E' & Q). rewrite E'. cbn [bind].
    exists k, m'. split; [lia|]. split; [lia|]. split; auto. split; auto.
    apply vstate_root in Q. eapply is_mat_ext; [exact Q|]. intros i j Hi Hj. unfold fswap_rows, fswap, vsel. cbn [vpos fst snd].
    assert (j < Nat.min (N.to_nat size_max) n).
    { assert (is_size n) by apply (is_mat_shape _ _ _ _ Hm). unfold is_size, two64 in *. unfold size_max. lia. }
    destruct (Nat.leb_spec 0 j); [|lia]. destruct (Nat.ltb_spec j (Nat.min (N.to_nat size_max) n)); [|lia]. cbn [andb].
    destruct (i =? c); auto. destruct (i =? k); auto.
  - right. rewrite E. cbn [bind]. split; auto. intros k H1 H2. destruct (Nat.eq_dec k c) as [->|N]; auto.
    specialize (Hn k ltac:(lia)). destruct (oisz (f k c)); auto; discriminate.
Qed.
End L.
