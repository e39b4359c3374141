(** LURound.v: the entries that lu_decomposition computes, for every element type. *)
From Verif Require Import LinalgFacts2 RingM DetFacts.
From mathcomp Require Import all_ssreflect.
Set Implicit Arguments.
Unset Strict Implicit.
Unset Printing Implicit Defensive.

Section LU.
Variables (T : Type) (O : Ops T).
Implicit Types (f L U : nat -> nat -> T).
(** The quotient x / d when the division is defined. *)
Definition quo (x d : T) : T := match odiv x d with Ok q => q | _ => o0 end.
Definition divides (d : T) : Prop := forall x, exists q, odiv x d = Ok q.

Definition lcol n f L U i : Prop := forall j k, j < n -> k < i ->
  L j k = if j < k then o0 else osubs k (f j k) (fun t => omul (L j t) (U t k)).
Definition urow n f L U i : Prop := forall k j, k < i -> j < n -> divides (L k k) ->
  U k j = if j < k then o0 else if j == k then o1 else
    osubs k (quo (f k j) (L k k)) (fun t => quo (omul (L k t) (U t j)) (L k k)).

Variables (A : MB T) (n : nat) (f : nat -> nat -> T).
Hypothesis HA : reads A n n f.
Definition lu_inv i (s : Mat.Matrix T * Mat.Matrix T) : Prop :=
  exists L U, [/\ is_mat s.1 n n L, is_mat s.2 n n U, lcol n f L U i & urow n f L U i].

Lemma osubs_eq i a (s s' : nat -> T) : (forall k, k < i -> s k = s' k) -> osubs i a s = osubs i a s'.
Proof. move=> H. apply: osubs_ext => k /ltP. exact: H. Qed.

Lemma lu_l_step i (l u : Mat.Matrix T) L U : i < n -> is_mat l n n L -> is_mat u n n U -> lcol n f L U i -> urow n f L U i ->
  exists l' L', [/\ lu_l A n i (l, u) = Ok (l', u), is_mat l' n n L', lcol n f L' U i.+1 & urow n f L' U i].
Proof.
  move=> Hi Hl Hu HL HU. have [l' [E H]] := lu_l_ok A n f i l u L U HA Hl Hu (elimT ltP Hi).
  have H' : is_mat l' n n (fun a b => if b == i then (if a < i then o0 else osubs i (f a i) (fun k => omul (L a k) (U k i))) else L a b).
    apply: is_mat_ext; first exact: H. move=> a b _ _ /=. by rewrite nateqbE ltbE.
  exists l'. eexists. split; [exact: E|exact: H'| |].
  - move=> j k Hj. rewrite ltnS leq_eqVlt => /orP [/eqP ->|Hk].
      rewrite eqxx. case: ltnP => // _. apply: osubs_eq => t Ht. by rewrite (ltn_eqF Ht).
    rewrite (ltn_eqF Hk) (HL j k Hj Hk). case: ltnP => // _. apply: osubs_eq => t Ht. by rewrite (ltn_eqF (ltn_trans Ht Hk)).
  - move=> k j Hk Hj. rewrite (ltn_eqF Hk) => Hd. rewrite (HU k j Hk Hj Hd). case: ltnP => // _. case: eqP => // _.
    apply: osubs_eq => t Ht. by rewrite (ltn_eqF (ltn_trans Ht Hk)).
Qed.
Lemma lu_u_partial i (l u : Mat.Matrix T) L U s' : i < n -> is_mat l n n L -> is_mat u n n U -> lcol n f L U i.+1 -> urow n f L U i ->
  lu_u A n i (l, u) = Ok s' -> lu_inv i.+1 s'.
Proof.
  move=> Hi Hl Hu HL HU. case: s' => l' u' E.
  have [E1 [V [H1 H2]]] := lu_u_frame A n i l u U _ Hu (elimT ltP Hi) E. rewrite /= in E1 H1. subst l'.
  have H2' a b : a < i -> b < n -> V a b = U a b.
    move=> Ha Hb. apply: H2; [exact/ltP/(ltn_trans Ha)|exact/ltP|]. by move=> E'; rewrite E' ltnn in Ha.
  exists L, V. split=> //.
  - move=> j k Hj Hk. rewrite (HL j k Hj Hk). case: ltnP => // _. apply: osubs_eq => t Ht.
    rewrite H2' //; first by apply: (leq_trans Ht); rewrite -ltnS. exact: leq_trans Hk Hi.
  - move=> k j. rewrite ltnS leq_eqVlt => /orP [/eqP ->|Hk] Hj Hd'; last first.
      rewrite H2' // (HU k j Hk Hj Hd'). case: ltnP => // _. case: eqP => // _. apply: osubs_eq => t Ht.
      by rewrite H2' // (ltn_trans Ht Hk).
    have [|u2 [E2 H]] := lu_u_ok A n f i l u L U (fun x => quo x (L i i)) HA Hl Hu (elimT ltP Hi).
      by move=> x; rewrite /quo; case: (Hd' x) => q ->.
    have Eu : u2 = u' by move: E; rewrite E2; case.
    subst u2. rewrite (is_mat_fun _ _ _ _ _ H1 H i j (elimT ltP Hi) (elimT ltP Hj)) !nateqbE ltbE eqxx.
    case: ltnP => // _. case: eqP => // _. apply: osubs_eq => t Ht. by rewrite H2'.
Qed.
Lemma lu_start : exists l, mat_new n n (o0 : T) = Ok l /\ lu_inv 0 (l, l).
Proof.
  have [_ [_ [_ [Hs _]]]] := HA. have [l [E H]] := mat_new_ok n n (o0 : T) Hs.
  exists l. split=> //. exists (fun _ _ => o0), (fun _ _ => o0). by split.
Qed.
Lemma lu_unfold : lu_decomposition A = (let* l := mat_new n n o0 in let* u := mat_new n n o0 in
  for_range 0 n (fun i s => let* s := lu_l A n i s in lu_u A n i s) (l, u)).
Proof. have [Ar [Ac _]] := HA. by rewrite /lu_decomposition /is_square Ar Ac Nat.eqb_refl. Qed.
Lemma lu_entries l u : lu_decomposition A = Ok (l, u) -> lu_inv n (l, u).
Proof.
  rewrite lu_unfold. have [l0 [-> H0]] := lu_start. rewrite /bind -/(bind _ _) => E.
  refine (for_range_partial lu_inv _ 0 n (l0, l0) (l, u) _ H0 E _); first exact/leP.
  move=> i [s1 s2] s' _ /ltP Hi [L [U [H1 H2 H3 H4]]]. rewrite /= in H1 H2.
  have [l' [L' [E' H1' H3' H4']]] := lu_l_step Hi H1 H2 H3 H4. rewrite E' /=. exact: lu_u_partial H1' H2 H3' H4'.
Qed.
(** With a division that always has a value, so has the decomposition. *)
Lemma lu_total : (forall d, divides d) -> exists l u, lu_decomposition A = Ok (l, u).
Proof.
  move=> Hd. rewrite lu_unfold. have [l0 [-> H0]] := lu_start. rewrite /bind -/(bind _ _).
  have [|i [s1 s2] [_ /ltP Hi] [L [U [H1 H2 H3 H4]]]|[l u] [E _]] := for_range_inv lu_inv 0 n (fun i s => let* s := lu_l A n i s in lu_u A n i s) (l0, l0) _ H0;
    [exact/leP| |by exists l, u].
  rewrite /= in H1 H2. have [l' [L' [E' H1' H3' H4']]] := lu_l_step Hi H1 H2 H3 H4. rewrite E' /=.
  have [|u2 [E2 _]] := lu_u_ok A n f i l' s2 L' U (fun x => quo x (L' i i)) HA H1' H2 (elimT ltP Hi).
    by move=> x; rewrite /quo; case: (Hd (L' i i) x) => q ->.
  exists (l', u2). split=> //. exact: lu_u_partial H1' H2 H3' H4' E2.
Qed.
End LU.
