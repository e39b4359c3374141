(** PropControl.v: controllability and observability matrices, polynomials of roots,
    polyreduce and discrete simulation (C57, C58, C60, C61, C62). *)
From Verif Require Import LinalgFacts2 PropMatrix PropUtil PropMath RingM DetFacts RatOps PropLinalg PropRing Control ControlSpec ControlFacts.
From mathcomp Require Import all_ssreflect all_algebra.
Set Implicit Arguments.
Unset Strict Implicit.
Unset Printing Implicit Defensive.
Import GRing.Theory.
Local Open Scope ring_scope.

(** * Any element type *)
Section Any.
Variables (T : Type) (O : Ops T).
(** polyreduce removes exactly the leading zeros, or returns {0}. *)
Theorem C60_polyreduce (a : seq T) : fits (length a) ->
  (exists k x rest, [/\ List.skipn k a = x :: rest, forall y, In y (List.firstn k a) -> oeq y o0 = true, oeq x o0 = false & polyreduce a = Ok (x :: rest)]) \/
  ((forall x, In x a -> oeq x o0 = true) /\ polyreduce a = Ok [:: o0]).
Proof.
  move=> F. have [[k [Hk [H1 [H2 E]]]]|] := polyreduce_ok a F; last by right. left.
  have [x Ex] := nth_error_lt a k Hk.
  have Es : List.skipn k a = x :: List.skipn k.+1 a.
    elim: a k Ex {F Hk H1 H2 E} => [|b a IH] [|k] //= E; [by case: E => ->|exact: IH].
  exists k, x, (List.skipn k.+1 a). split=> //; last by rewrite -Es.
  - move=> y Hy. have [i Ei] := In_nth_error _ _ Hy. have Hi : (i < length (List.firstn k a))%coq_nat by apply: (proj1 (nth_error_Some _ _)); rewrite Ei.
    rewrite firstn_length in Hi. apply: (H1 i); first lia. rewrite -Ei. symmetry. apply: nth_error_firstn_lt. lia.
  - exact: H2.
Qed.
Theorem C60_idempotent (a : seq T) : fits (length a) -> exists r, polyreduce a = Ok r /\ polyreduce r = Ok r.
Proof.
  move=> F. have [[k [x [rest [Es H1 H2 E]]]]|[_ E]] := C60_polyreduce F.
  - exists (x :: rest). split=> //. have F' : fits (length (x :: rest)). { rewrite -Es. apply: (fits_le _ (length a)) => //. rewrite skipn_length. lia. }
    have [[k' [x' [rest' [Es' H1' H2' E']]]]|[Hz _]] := C60_polyreduce F'; last by rewrite (Hz x) in H2; [|left].
    rewrite E'. case: k' Es' H1' => [|k'] Es' H1'; first by rewrite -Es'. by rewrite (H1' x) in H2; [|left].
  - exists [:: o0]. split=> //. have [[k' [x' [rest' [Es' H1' H2' E']]]]|[_ ->]] := @C60_polyreduce [:: o0] fits_1 => //.
    rewrite E'. case: k' Es' H1' => [|[|k']] //= Es' H1'; by rewrite Es'.
Qed.

(** simulate performs min(u.size(), K) steps, where K is the duration in steps, and
    returns the states, outputs and times; the last time point stays zero. *)
Theorem C61_simulate trunc (sys : DSS T) u tm q K init n m p fA fB fC fD fx fu :
  is_mat (sA (dsys sys)) n n fA -> is_mat (sB (dsys sys)) n m fB -> is_mat (sC (dsys sys)) p n fC -> is_mat (sD (dsys sys)) p m fD ->
  is_vec init n fx -> inputs u m fu -> fits p -> odiv tm (sample_time sys) = Ok q -> trunc q = Ok K ->
  let steps := Nat.min (length u) K in
  exists t x y, [/\ simulate trunc sys u tm init = Ok (t, x, y), length t = steps.+1, length x = steps.+1, length y = steps &
    [/\ forall k, (k <= steps)%N -> exists xk, nth_error x k = Some xk /\ is_vec xk n (traj n m fA fB fu fx k),
        forall k, (k < steps)%N -> exists yk, nth_error y k = Some yk /\ is_vec yk p (outp n m fA fB fC fD fu fx k),
        forall k, (k < steps)%N -> nth_error t k = Some (ntimes (sample_time sys) k) & nth_error t steps = Some o0]].
Proof.
  move=> HA HB HC HD Hx Hu Fp Hq HK steps.
  have [t [x [y [E [L1 [L2 [L3 [Q1 [Q2 [Q3 Q4]]]]]]]]]] := simulate_ok trunc sys u tm q K init n m p fA fB fC fD fx fu HA HB HC HD Hx Hu Fp Hq HK.
  exists t, x, y. split=> //. split=> // k Hk; [apply: Q1|apply: Q2|apply: Q3]; [exact: (elimT ssrnat.leP)|exact: (elimT ssrnat.ltP)|exact: (elimT ssrnat.ltP)].
Qed.
(** generate_state_zero / generate_input_zero give zero vectors of the right size. *)
Theorem C62_generate_zero (sys : SS T) n m fA fB : is_mat (sA sys) n n fA -> is_mat (sB sys) n m fB -> fits n -> fits m ->
  exists x u, [/\ generate_state_zero sys = Ok x, generate_input_zero sys = Ok u, is_vec x n (fun _ => o0) & is_vec u m (fun _ => o0)].
Proof.
  move=> [E1 _] [_ [E2 _]] Fn Fm. rewrite /generate_state_zero /generate_input_zero E1 E2. exists (List.repeat o0 n), (List.repeat o0 m).
  rewrite !vec_new_ok //. split=> //; split; rewrite ?repeat_length //; split=> // i Hi; exact: nth_error_repeat_lt.
Qed.
(** * C57: when ctrb and obsv throw; zero states *)
Theorem C57_ctrb_throws A B ra ca fa rb cb fb : reads (T:=T) A ra ca fa -> reads B rb cb fb -> ra <> ca \/ ra <> rb -> ctrb A B = Throw.
Proof. move=> [Ar [Ac _]] [Br _] H. apply: ctrb_throw. by rewrite Ar Ac Br. Qed.
Theorem C57_obsv_throws A C ra ca fa rc cc fc : reads (T:=T) A ra ca fa -> reads C rc cc fc -> ra <> ca \/ ra <> cc -> obsv A C = Throw.
Proof. move=> [Ar [Ac _]] [_ [Cc _]] H. apply: obsv_throw. by rewrite Ar Ac Cc. Qed.
Theorem C57_no_states A B C fa cb fb rc fc : reads (T:=T) A 0 0 fa -> readsL B 0 cb fb -> readsL C rc 0 fc ->
  exists b c, [/\ ctrb A B = Ok b, is_mat b 0 cb fb, obsv A C = Ok c & is_mat c rc 0 fc].
Proof.
  move=> [Ar [Ac _]] HB HC. have [[Br _] _] := HB. have [[_ [Cc _]] _] := HC.
  have [b [Eb Hb]] := mat_of_mb_ok B 0 cb fb HB. have [c [Ec Hc]] := mat_of_mb_ok C rc 0 fc HC. exists b, c.
  by rewrite /ctrb /obsv /is_square Ar Ac Br Cc /= Eb Ec.
Qed.
End Any.

(** * Commutative rings *)
Section Ring.
Variables (R : comRingType) (O : Ops R).
Hypothesis HO : ringO O.

(** Columns k*q .. k*q+q-1 of ctrb(A, B) are A^k B. *)
Theorem C57_ctrb A B n q (M : 'M[R]_n.+1) (N : 'M[R]_(n.+1, q)) : reads_mx A M -> reads_mx B N -> shape_ok n.+1 (n.+1 * q) ->
  exists m f, [/\ ctrb A B = Ok m, is_mat m n.+1 (n.+1 * q) f &
    forall k i (j : nat), (k <= n)%N -> (j < q)%N -> f i (k * q + j)%N = mxf (M ^+ k *m N) i j].
Proof.
  move=> HA HB Hs. have [[Ar [Ac _]] _] := HA. have [[Br [Bc _]] _] := HB. have Sb := shape_mx HB.
  rewrite /ctrb /is_square Ar Ac Br Nat.eqb_refl [~~ true]/=.
  have [m0 [E0 H0]] := mat_of_mb_ok B n.+1 q _ HB. rewrite E0 [bind _ _]/=.
  pose f := fun a b => mxf (M ^+ (Nat.div b q) *m N) a (Nat.modulo b q).
  have [||i s Hi Hs'|m [E H]] := for_range_inv (fun i m => is_mat m n.+1 (i * q)%N f) 1 n.+1 (fun i result =>
      let* P := powm A i in let* P := m_mul (mb_of_mat P) B in let* h := hstack (mb_of_mat result) (mb_of_mat P) in
      Ok (fst (mat_move_assign result h))) m0.
  - lia.
  - rewrite mul1n. apply: is_mat_ext; first exact: H0. move=> a b _ Hb.
    by rewrite /f (Nat.div_small b q Hb) (Nat.mod_small b q Hb) expr0 mul1mx.
  - have [P [-> HP]] := C46_powm HO i HA. rewrite [bind _ _]/=.
    have [Q [-> HQ HQ']] := m_mul_mxL HO (is_mx_reads HP) HB Sb. rewrite [bind (Ok _) _]/=.
    have Hle : (i.+1 * q <= n.+1 * q)%N by apply: leq_mul => //; apply/ssrnat.leP; lia.
    have [|h [-> Hh]] := hstack_ok _ _ n.+1 (i * q)%N q f _ (is_mat_reads _ _ _ _ Hs') (proj1 HQ').
      apply: (shape_le _ (n.+1 * q)%N) => //. apply/ssrnat.leP. by rewrite -[((i * q)%N + q)%coq_nat]/((i * q) + q)%N -mulSnr.
    rewrite [bind (Ok _) _]/=. eexists. split; first reflexivity.
    have Hh' : is_mat h n.+1 (i.+1 * q)%N f.
      have -> : (i.+1 * q)%N = ((i * q)%N + q)%coq_nat by rewrite mulSnr. apply: is_mat_ext; first exact: Hh.
      move=> a b Ha Hb. cbv beta. destruct (Nat.ltb_spec b (i * q)%N) as [L|L]; first reflexivity.
      have Hb' := sub_blk _ _ _ L Hb.
      have Eb : b = ((i * q)%coq_nat + (b - (i * q)%N)%coq_nat)%coq_nat := sub_add _ _ L.
      rewrite /f {2 3}Eb. have [-> ->] := block_div i _ q Hb'. by [].
    apply: (move_assign_ok s h n.+1 (i * q)%N f); [exact: Hs'|exact: Hh'|].
    case: (q) => [|q']; [right|left; apply/ssrnat.ltP]; by rewrite ?muln0.
  - exists m, f. rewrite E. split=> //. move=> k i0 j Hk Hj. rewrite /f.
    by have [-> ->] := block_div k j q (elimT ssrnat.ltP Hj).
Qed.
(** Rows k*p .. k*p+p-1 of obsv(A, C) are C A^k. *)
Theorem C57_obsv A C n p (M : 'M[R]_n.+1) (N : 'M[R]_(p, n.+1)) : reads_mx A M -> reads_mx C N -> shape_ok (n.+1 * p) n.+1 ->
  exists m f, [/\ obsv A C = Ok m, is_mat m (n.+1 * p) n.+1 f &
    forall k (i : nat) j, (k <= n)%N -> (i < p)%N -> f (k * p + i)%N j = mxf (N *m M ^+ k) i j].
Proof.
  move=> HA HB Hs. have [[Ar [Ac _]] _] := HA. have [[Br [Bc _]] _] := HB. have Sb := shape_mx HB.
  rewrite /obsv /is_square Ar Ac Bc Nat.eqb_refl [~~ true]/=.
  have [m0 [E0 H0]] := mat_of_mb_ok C p n.+1 _ HB. rewrite E0 [bind _ _]/=.
  pose f := fun a b => mxf (N *m M ^+ (Nat.div a p)) (Nat.modulo a p) b.
  have [||i s Hi Hs'|m [E H]] := for_range_inv (fun i m => is_mat m (i * p)%N n.+1 f) 1 n.+1 (fun i result =>
      let* P := powm A i in let* P := m_mul C (mb_of_mat P) in let* h := vstack (mb_of_mat result) (mb_of_mat P) in
      Ok (fst (mat_move_assign result h))) m0.
  - lia.
  - rewrite mul1n. apply: is_mat_ext; first exact: H0. move=> a b Ha _.
    by rewrite /f (Nat.div_small a p Ha) (Nat.mod_small a p Ha) expr0 mulmx1.
  - have [P [-> HP]] := C46_powm HO i HA. rewrite [bind _ _]/=.
    have [Q [-> HQ HQ']] := m_mul_mxL HO HB (is_mx_reads HP) Sb. rewrite [bind (Ok _) _]/=.
    have Hle : (i.+1 * p <= n.+1 * p)%N by apply: leq_mul => //; apply/ssrnat.leP; lia.
    have [|h [-> Hh]] := vstack_ok _ _ (i * p)%N p n.+1 f _ (is_mat_reads _ _ _ _ Hs') (proj1 HQ').
      apply: (shape_le' (n.+1 * p)%N) => //. apply/ssrnat.leP. by rewrite -[((i * p)%N + p)%coq_nat]/((i * p) + p)%N -mulSnr.
    rewrite [bind (Ok _) _]/=. eexists. split; first reflexivity.
    have Hh' : is_mat h (i.+1 * p)%N n.+1 f.
      have -> : (i.+1 * p)%N = ((i * p)%N + p)%coq_nat by rewrite mulSnr. apply: is_mat_ext; first exact: Hh.
      move=> a b Ha Hb. cbv beta. destruct (Nat.ltb_spec a (i * p)%N) as [L|L]; first reflexivity.
      have Hb' := sub_blk _ _ _ L Ha.
      have Eb : a = ((i * p)%coq_nat + (a - (i * p)%N)%coq_nat)%coq_nat := sub_add _ _ L.
      rewrite /f {2 3}Eb. have [-> ->] := block_div i _ p Hb'. by [].
    apply: (move_assign_ok s h (i * p)%N n.+1 f); [exact: Hs'|exact: Hh'|].
    case: (p) => [|p']; [right|left; apply/ssrnat.ltP]; by rewrite ?muln0.
  - exists m, f. rewrite E. split=> //. move=> k i0 j Hk Hj. rewrite /f.
    by have [-> ->] := block_div k i0 p (elimT ssrnat.ltP Hj).
Qed.

Lemma tr_mx A r c (M : 'M[R]_(r, c)) : reads_mx A M -> exists m, transpose A = Ok m /\ is_mx m M^T.
Proof.
  move=> HA. have [t [E H]] := tmap_ok (fun x => x) A r c (mxf M) (proj1 HA). exists t. split=> //.
  apply: is_mat_ext; first exact: H. move=> i j /ltP Hi /ltP Hj.
  by rewrite -[i]/(val (Ordinal Hi)) -[j]/(val (Ordinal Hj)) !mxfE mxE.
Qed.
Lemma mxf_tr r c (M : 'M[R]_(r, c)) i j : mxf M^T i j = mxf M j i.
Proof.
  rewrite /mxf. case: insubP => [i' _ _|_]; case: insubP => [j' _ _|_] //. by rewrite mxE.
Qed.
Lemma tr_expr n (M : 'M[R]_n.+1) k : (M^T) ^+ k = (M ^+ k)^T.
Proof. elim: k => [|k IH]; first by rewrite !expr0 trmx1. by rewrite exprS IH exprSr -[_ * _]/(_ *m _) -trmx_mul. Qed.
Lemma shape_tr r c : shape_ok r c -> shape_ok c r.
Proof. move=> [H1 [H2 H3]]. split=> //. split=> //. by rewrite Nat.mul_comm. Qed.
(** obsv(A, C) == transpose(ctrb(transpose(A), transpose(C))) *)
Theorem C57_duality A C n p (M : 'M[R]_n.+1) (N : 'M[R]_(p, n.+1)) : reads_mx A M -> reads_mx C N -> shape_ok (n.+1 * p) n.+1 ->
  exists At Ct X m, [/\ transpose A = Ok At, transpose C = Ok Ct, ctrb (mb_of_mat At) (mb_of_mat Ct) = Ok X,
    transpose (mb_of_mat X) = Ok m & obsv A C = Ok m].
Proof.
  move=> HA HC Hs. have [At [E1 H1]] := tr_mx HA. have [Ct [E2 H2]] := tr_mx HC.
  have [X [f [E3 H3 Q3]]] := C57_ctrb (is_mx_reads H1) (is_mx_reads H2) (shape_tr Hs).
  have [m [g [E4 H4 Q4]]] := C57_obsv HA HC Hs.
  have [t [E5 H5]] := tmap_ok (fun x => x) _ _ _ _ (is_mat_reads _ _ _ _ H3).
  exists At, Ct, X, t. split=> //. rewrite E4. congr Ok. apply: is_mat_unique; first exact: H4.
  apply: is_mat_ext; first exact: H5. move=> a b Ha Hb. cbv beta.
  have Hp : (p <> 0)%N by move=> Z; move: Ha; rewrite Z muln0; lia.
  have Hm : (Nat.modulo a p < p)%N by apply/ssrnat.ltP; apply: Nat.mod_upper_bound.
  have Hd : (Nat.div a p <= n)%N.
    rewrite -ltnS. apply/ssrnat.ltP. apply: Nat.div_lt_upper_bound => //. by rewrite Nat.mul_comm.
  have -> : a = (Nat.div a p * p + Nat.modulo a p)%N.
    rewrite mulnC. exact: Nat.div_mod.
  rewrite (Q4 _ _ b Hd Hm) (Q3 _ b _ Hd Hm). by rewrite tr_expr -trmx_mul mxf_tr.
Qed.

(** * C58 poly of roots *)
Lemma pcoef_out (a : nat -> R) j i : (j < i)%N -> pcoef a j i = 0.
Proof.
  elim: j i => [|j IH] [|i] //= H; first by rewrite (o0E HO). rewrite lebE leqNgt H /= IH //. exact: ltnW.
Qed.
Lemma pcoefE (a : nat -> R) j i : (i <= j)%N -> pcoef a j i = (\prod_(k < j) ('X - (a k)%:P))`_(j - i).
Proof.
  elim: j i => [|j IH] i Hi.
    move: Hi; rewrite leqn0 => /eqP ->. by rewrite /= big_ord0 coef1 (o1E HO).
  rewrite big_ord_recr /= mulrBr coefB coefMX coefMC.
  case: i Hi => [|i] Hi.
    rewrite subn0 /= IH // subn0. have S : (size (\prod_(k < j) ('X - (a k)%:P))%R <= j.+1)%N by rewrite size_prod_XsubC /index_enum -enumT size_enum_ord.
    by rewrite (nth_default 0 S) mul0r subr0.
  rewrite lebE Hi (osubE HO) (omulE HO) subSS (IH i Hi) (mulrC (a j)). congr (_ - _).
  move: Hi; rewrite ltnS leq_eqVlt => /orP [/eqP ->|Hi]; first by rewrite subnn /= pcoef_out.
  rewrite IH //. have -> : (j - i == 0)%N = false by rewrite subn_eq0 leqNgt Hi. by rewrite subnS.
Qed.
(** [d] holds the coefficients, highest degree first, of the polynomial P, size n+1. *)
Definition coeffs (d : seq R) (n : nat) (P : {poly R}) : Prop := is_vec d n.+1 (fun i => P`_(n - i)).
Theorem C58_poly_vector (a : seq R) n f : is_vec a n f -> fits n.+1 ->
  exists d, [/\ poly_v a = Ok d, coeffs d n (\prod_(k < n) ('X - (f k)%:P)) & nth_error d 0 = Some 1].
Proof.
  move=> Ha F. have E1 : (n + 1)%coq_nat = n.+1 by rewrite Nat.add_1_r. have [|d [E H]] := poly_v_ok a n f Ha; first by rewrite E1.
  rewrite E1 in H. exists d. split=> //.
    apply: is_vec_ext; first exact: H. move=> i Hi. apply: pcoefE. rewrite -ltnS. exact/ssrnat.ltP.
  have [_ [_ H']] := H. rewrite H'; last lia. rewrite pcoefE // subn0. congr Some.
  have : lead_coef (\prod_(k < n) ('X - (f k)%:P)) = 1 by apply/eqP; apply: monic_prod_XsubC.
  by rewrite /lead_coef size_prod_XsubC /index_enum -enumT size_enum_ord.
Qed.
(** Rows and columns, matrix or view. *)
Theorem C58_poly_matrix A r c f : readsL (T:=R) A r c f -> r = 1%N \/ c = 1%N -> (0 < r * c)%N -> fits (r * c).+1 ->
  exists d, poly_m A = Ok d /\ coeffs d (r * c) (\prod_(k < r * c) ('X - (if r == 1%N then f 0%N k else f k 0%N)%:P)).
Proof.
  move=> HA Hv Hp F. have E1 : ((r * c)%coq_nat + 1)%coq_nat = (r * c).+1 by rewrite Nat.add_1_r.
  have [||d [E H]] := poly_m_vec A r c f HA Hv; first exact/ssrnat.ltP. { by rewrite E1. }
  rewrite E1 in H. exists d. split=> //. apply: is_vec_ext; first exact: H. move=> i Hi. rewrite pcoefE; last by rewrite -ltnS; exact/ssrnat.ltP.
  congr (nth 0 _ _). congr (polyseq _). apply: eq_bigr => k _. congr ('X - _%:P). have Hk := ltn_ord k. move: (nat_of_ord k) Hk => kk Hk {H E E1 d Hi F HA Hp k}.
  case: Hv => E'; subst.
    rewrite eqxx. move: Hk; rewrite Nat.mul_1_l => /ssrnat.ltP Hk. by rewrite (Nat.div_small _ _ Hk) (Nat.mod_small _ _ Hk).
  rewrite Nat.div_1_r Nat.mod_1_r. case: eqP => // Er. subst. move: Hk. rewrite Nat.mul_1_r. by case: kk.
Qed.

(** * C60 the value of the polynomial *)
Lemma pvalueE (l : seq R) x acc : fold_left (fun acc a => oadd (omul acc x) a) l acc = fold_left (fun acc a => acc * x + a) l acc.
Proof. elim: l acc => [|a l IH] acc //=. by rewrite IH (omulE HO) (oaddE HO). Qed.
Theorem C60_same_value (a : seq R) x : (forall y, oeq y o0 = (y == 0)) -> fits (length a) ->
  exists r, polyreduce a = Ok r /\ pvalue r x = pvalue a x.
Proof.
  move=> HE F.
  have Z (l1 l2 : seq R) : (forall y, In y l1 -> oeq y o0 = true) -> pvalue (l1 ++ l2)%list x = pvalue l2 x.
    elim: l1 => [|y l1 IH] //= H. rewrite -IH; last by move=> z Hz; apply: H; right.
    rewrite /pvalue /= !pvalueE. have := H y (or_introl erefl). rewrite HE => /eqP ->.
    by rewrite (omulE HO) (oaddE HO) (o0E HO) mul0r addr0.
  have [[k [y [rest [Es H1 H2 ->]]]]|[H ->]] := C60_polyreduce O F.
    exists (y :: rest). split=> //. by rewrite -[in RHS](firstn_skipn k a) Z // Es.
  exists [:: o0]. split=> //. rewrite -[in RHS](app_nil_r a) Z // /pvalue /= (omulE HO) (oaddE HO) (o0E HO). by rewrite mul0r addr0.
Qed.

(** * C61 closed form and times *)
Lemma ntimesE (ts : R) k : ntimes ts k = ts *+ k.
Proof. elim: k => [|k IH] /=; first by rewrite (o0E HO). by rewrite (oaddE HO) IH mulrSr. Qed.
(** column vectors *)
Definition cvf n (V : 'cV[R]_n) (i : nat) : R := mxf V i 0%N.
Lemma cvfE n (V : 'cV[R]_n) (i : 'I_n) : cvf V i = V i 0.
Proof. by rewrite /cvf -[0%N]/(val (0 : 'I_1)) mxfE. Qed.
Definition state n m (M : 'M[R]_n.+1) (N : 'M[R]_(n.+1, m)) (U : nat -> 'cV[R]_m) (X0 : 'cV[R]_n.+1) (k : nat) : 'cV[R]_n.+1 :=
  M ^+ k *m X0 + \sum_(j < k) M ^+ (k.-1 - j) *m N *m U j.
Lemma stateS n m (M : 'M[R]_n.+1) (N : 'M[R]_(n.+1, m)) U X0 k : state M N U X0 k.+1 = M *m state M N U X0 k + N *m U k.
Proof.
  rewrite /state exprS big_ord_recr /= subnn expr0 mul1mx addrA. congr (_ + _). rewrite mulmxDr -mulmxA. congr (_ + _).
  rewrite mulmx_sumr. apply: eq_bigr => j _. rewrite !mulmxA -[M *m M ^+ _]/(M * M ^+ _) -exprS.
  case: k j => [|k] [j Hj] //. congr (M ^+ _ *m _ *m _). by rewrite /= subSn // -ltnS.
Qed.
Lemma trajS n m (A B : nat -> nat -> R) u x k i : traj n m A B u x k.+1 i = oadd (osum n (fun j => omul (A i j) (traj n m A B u x k j))) (osum m (fun j => omul (B i j) (u k j))).
Proof. by []. Qed.
Lemma trajE n m (M : 'M[R]_n.+1) (N : 'M[R]_(n.+1, m)) (U : nat -> 'cV[R]_m) X0 k i : (i < n.+1)%N ->
  traj n.+1 m (mxf M) (mxf N) (fun k => cvf (U k)) (cvf X0) k i = cvf (state M N U X0 k) i.
Proof.
  elim: k i => [|k IH] i Hi; first by rewrite /state expr0 mul1mx big_ord0 addr0.
  rewrite stateS trajS !(osumE HO) (oaddE HO) -[i]/(val (Ordinal Hi)) cvfE !mxE.
  congr (_ + _); apply: eq_bigr => j _; rewrite (omulE HO).
    by rewrite IH // mxfE cvfE.
  by rewrite mxfE cvfE.
Qed.
(** The states are A^k x0 + sum_{j<k} A^(k-1-j) B u_j, the outputs C x_k + D u_k and
    the times k * Ts, except for the last. *)
Theorem C61_closed_form trunc (sys : DSS R) u tm q K init n m p (A : 'M[R]_n.+1) (B : 'M[R]_(n.+1, m)) (C : 'M[R]_(p, n.+1)) (D : 'M[R]_(p, m)) X0 U :
  is_mx (sA (dsys sys)) A -> is_mx (sB (dsys sys)) B -> is_mx (sC (dsys sys)) C -> is_mx (sD (dsys sys)) D ->
  is_vec init n.+1 (cvf X0) -> inputs u m (fun k => cvf (U k)) -> fits p -> odiv tm (sample_time sys) = Ok q -> trunc q = Ok K ->
  let steps := Nat.min (length u) K in
  exists t x y, [/\ simulate trunc sys u tm init = Ok (t, x, y), length t = steps.+1, length x = steps.+1, length y = steps &
    [/\ forall k, (k <= steps)%N -> exists xk, nth_error x k = Some xk /\
          is_vec xk n.+1 (cvf (A ^+ k *m X0 + \sum_(j < k) A ^+ (k.-1 - j) *m B *m U j)),
        forall k, (k < steps)%N -> exists yk, nth_error y k = Some yk /\
          is_vec yk p (cvf (C *m (A ^+ k *m X0 + \sum_(j < k) A ^+ (k.-1 - j) *m B *m U j) + D *m U k)),
        forall k, (k < steps)%N -> nth_error t k = Some (k%:R * sample_time sys) & nth_error t steps = Some 0]].
Proof.
  move=> HA HB HC HD Hx Hu Fp Hq HK steps.
  have [t [x [y [E L1 L2 L3 [Q1 Q2 Q3 Q4]]]]] := C61_simulate HA HB HC HD Hx Hu Fp Hq HK.
  exists t, x, y. split=> //. split=> //.
  - move=> k Hk. have [xk [E1 V1]] := Q1 k Hk. exists xk. split=> //. apply: is_vec_ext; first exact: V1. move=> i /ssrnat.ltP Hi. exact: trajE.
  - move=> k Hk. have [yk [E1 V1]] := Q2 k Hk. exists yk. split=> //. apply: is_vec_ext; first exact: V1. move=> i /ssrnat.ltP Hi.
    rewrite /outp !(osumE HO) (oaddE HO) -[i]/(val (Ordinal Hi)) cvfE mxE [in RHS]mxE [(D *m _) _ _]mxE.
    congr (_ + _); apply: eq_bigr => j _; rewrite (omulE HO).
      by rewrite trajE // mxfE cvfE.
    by rewrite mxfE cvfE.
  - move=> k Hk. by rewrite (Q3 k Hk) ntimesE mulr_natl.
  - by rewrite Q4 (o0E HO).
Qed.

(** * C62 superposition *)
Lemma traj_add n m (A B : nat -> nat -> R) (u u' u'' : nat -> nat -> R) (x x' x'' : nat -> R) N :
  (forall k i, (k < N)%N -> (i < m)%N -> u'' k i = u k i + u' k i) -> (forall i, (i < n)%N -> x'' i = x i + x' i) ->
  forall k, (k <= N)%N -> forall i, (i < n)%N -> traj n m A B u'' x'' k i = traj n m A B u x k i + traj n m A B u' x' k i.
Proof.
  move=> Hu Hx. elim=> [|k IH] Hk i Hi; first exact: Hx.
  rewrite /= !(osumE HO) !(oaddE HO) [RHS]addrACA -!big_split. congr (_ + _); apply: eq_bigr => j _; rewrite /= !(omulE HO) -mulrDr.
    by rewrite IH // ltnW.
  by rewrite Hu.
Qed.
Lemma outp_add n m (A B C D : nat -> nat -> R) (u u' u'' : nat -> nat -> R) (x x' x'' : nat -> R) N :
  (forall k i, (k < N)%N -> (i < m)%N -> u'' k i = u k i + u' k i) -> (forall i, (i < n)%N -> x'' i = x i + x' i) ->
  forall k, (k < N)%N -> forall i, outp n m A B C D u'' x'' k i = outp n m A B C D u x k i + outp n m A B C D u' x' k i.
Proof.
  move=> Hu Hx k Hk i. rewrite /outp !(osumE HO) !(oaddE HO) [RHS]addrACA -!big_split. congr (_ + _); apply: eq_bigr => j _; rewrite /= !(omulE HO) -mulrDr.
    by rewrite (traj_add A B Hu Hx (ltnW Hk)).
  by rewrite Hu.
Qed.
Lemma vec_fun (l : seq R) n f g : is_vec l n f -> is_vec l n g -> forall i, (i < n)%N -> f i = g i.
Proof. move=> [_ [_ H]] [_ [_ H']] i /ssrnat.ltP Hi. have := H i Hi. rewrite (H' i Hi). by case. Qed.
Lemma v_add_is (a b c : seq R) n f g : is_vec a n f -> is_vec b n g -> is_vec c n (fun i => f i + g i) -> v_add a b = Ok c.
Proof.
  move=> Ha Hb Hc. have [_ H] := C32_vec_add a b n f n g Ha Hb. have [d [-> Hd]] := H erefl. congr Ok.
  apply: is_vec_unique; first exact: Hd. apply: is_vec_ext; first exact: Hc. move=> i _. by rewrite /= (oaddE HO).
Qed.
Lemma v_add_vec (a b c : seq R) n f g : is_vec a n f -> is_vec b n g -> v_add a b = Ok c -> is_vec c n (fun i => f i + g i).
Proof.
  move=> Ha Hb E. have [_ H] := C32_vec_add a b n f n g Ha Hb. have [d [Ed Hd]] := H erefl. move: E. rewrite Ed. case=> <-.
  apply: is_vec_ext; first exact: Hd. move=> i _. by rewrite /= (oaddE HO).
Qed.
(** The response to the sum of two inputs and initial states is the sum of the responses. *)
Theorem C62_superposition trunc (sys : DSS R) (u u' u'' : seq (seq R)) tm q K (x0 x0' x0'' : seq R) n m p fA fB fC fD fx fx' fu fu' fu'' :
  is_mat (sA (dsys sys)) n n fA -> is_mat (sB (dsys sys)) n m fB -> is_mat (sC (dsys sys)) p n fC -> is_mat (sD (dsys sys)) p m fD -> fits p ->
  odiv tm (sample_time sys) = Ok q -> trunc q = Ok K ->
  is_vec x0 n fx -> is_vec x0' n fx' -> inputs u m fu -> inputs u' m fu' -> inputs u'' m fu'' ->
  v_add x0 x0' = Ok x0'' -> length u' = length u -> length u'' = length u ->
  (forall k a b c, nth_error u k = Some a -> nth_error u' k = Some b -> nth_error u'' k = Some c -> v_add a b = Ok c) ->
  exists t x y x' y' x'' y'', [/\ simulate trunc sys u tm x0 = Ok (t, x, y), simulate trunc sys u' tm x0' = Ok (t, x', y'),
    simulate trunc sys u'' tm x0'' = Ok (t, x'', y''),
    (forall k, (k <= Nat.min (length u) K)%N -> exists a b c, [/\ nth_error x k = Some a, nth_error x' k = Some b, nth_error x'' k = Some c & v_add a b = Ok c]) &
    (forall k, (k < Nat.min (length u) K)%N -> exists a b c, [/\ nth_error y k = Some a, nth_error y' k = Some b, nth_error y'' k = Some c & v_add a b = Ok c])].
Proof.
  move=> HA HB HC HD Fp Hq HK Hx Hx' Hu Hu' Hu'' Ex L1 L2 Eu.
  have Hx'' := v_add_vec Hx Hx' Ex.
  have [t [x [y [E1 T1 X1 Y1 [Q1 P1 R1 S1]]]]] := C61_simulate HA HB HC HD Hx Hu Fp Hq HK.
  have [t' [x' [y' [E2 T2 X2 Y2 [Q2 P2 R2 S2]]]]] := C61_simulate HA HB HC HD Hx' Hu' Fp Hq HK.
  have [t'' [x'' [y'' [E3 T3 X3 Y3 [Q3 P3 R3 S3]]]]] := C61_simulate HA HB HC HD Hx'' Hu'' Fp Hq HK.
  rewrite L1 in T2 X2 Y2 Q2 P2 R2 S2. rewrite L2 in T3 X3 Y3 Q3 P3 R3 S3. set N := Nat.min _ K in T1 X1 Y1 Q1 P1 R1 S1 T2 X2 Y2 Q2 P2 R2 S2 T3 X3 Y3 Q3 P3 R3 S3 *.
  have TT (s s' : seq R) : length s = N.+1 -> length s' = N.+1 -> (forall k, (k < N)%N -> nth_error s k = Some (ntimes (sample_time sys) k)) ->
    (forall k, (k < N)%N -> nth_error s' k = Some (ntimes (sample_time sys) k)) -> nth_error s N = Some o0 -> nth_error s' N = Some o0 -> s' = s.
    move=> l l' h h' e e'. apply: list_ext; first by rewrite l l'. move=> i; rewrite l' => /ssrnat.ltP; rewrite ltnS leq_eqVlt => /orP [/eqP ->|Hi]; by rewrite ?e ?e' ?h ?h'.
  exists t, x, y, x', y', x'', y''.
  have Ht' : t' = t by apply: TT. have Ht'' : t'' = t by apply: TT. subst t' t''.
  have UU k i : (k < N)%N -> (i < m)%N -> fu'' k i = fu k i + fu' k i.
    move=> Hk Hi. have Hl : (k < length u)%coq_nat by apply/ssrnat.ltP; apply: (leq_trans Hk); apply/ssrnat.leP; exact: Nat.le_min_l.
    have [a Ea] := nth_error_lt u k Hl. have [|b Eb] := nth_error_lt u' k; first by rewrite L1. have [|c Ec] := nth_error_lt u'' k; first by rewrite L2.
    apply: (vec_fun (Hu'' _ _ Ec) (v_add_vec (Hu _ _ Ea) (Hu' _ _ Eb) (Eu _ _ _ _ Ea Eb Ec)) Hi).
  split=> // k Hk.
  - have [a [Ea Va]] := Q1 k Hk. have [b [Eb Vb]] := Q2 k Hk. have [c [Ec Vc]] := Q3 k Hk. exists a, b, c. split=> //.
    apply: v_add_is Va Vb _. apply: is_vec_ext; first exact: Vc. move=> i /ssrnat.ltP Hi. by apply: (traj_add fA fB UU _ Hk Hi).
  - have [a [Ea Va]] := P1 k Hk. have [b [Eb Vb]] := P2 k Hk. have [c [Ec Vc]] := P3 k Hk. exists a, b, c. split=> //.
    apply: v_add_is Va Vb _. apply: is_vec_ext; first exact: Vc. move=> i _. by apply: (outp_add fA fB fC fD UU _ Hk).
Qed.
(** From the zero state with zero inputs everything stays zero. *)
Theorem C62_zero trunc (sys : DSS R) N tm q K x0 u0 n m p fA fB fC fD :
  is_mat (sA (dsys sys)) n n fA -> is_mat (sB (dsys sys)) n m fB -> is_mat (sC (dsys sys)) p n fC -> is_mat (sD (dsys sys)) p m fD ->
  fits n -> fits m -> fits p -> odiv tm (sample_time sys) = Ok q -> trunc q = Ok K ->
  generate_state_zero (dsys sys) = Ok x0 -> generate_input_zero (dsys sys) = Ok u0 ->
  exists t x y, [/\ simulate trunc sys (List.repeat u0 N) tm x0 = Ok (t, x, y), length x = (Nat.min N K).+1, length y = Nat.min N K,
    forall v, In v x -> v = x0 & forall v, In v y -> is_vec v p (fun _ => 0)].
Proof.
  move=> HA HB HC HD Fn Fm Fp Hq HK Gx Gu. have [x1 [u1 [Ex Eu Vx Vu]]] := C62_generate_zero O HA HB Fn Fm.
  move: Ex; rewrite Gx => -[Ex]. move: Eu; rewrite Gu => -[Eu]. subst x1 u1.
  have Hu : inputs (List.repeat u0 N) m (fun _ _ => o0).
    move=> k v E. have Hk : (k < length (List.repeat u0 N))%coq_nat by apply/nth_error_Some; rewrite E.
    rewrite repeat_length in Hk. by move: E; rewrite nth_error_repeat_lt // => -[<-].
  have [t [x [y [E T1 X1 Y1 [Q1 P1 R1 S1]]]]] := C61_simulate HA HB HC HD Vx Hu Fp Hq HK. rewrite repeat_length in T1 X1 Y1 Q1 P1 R1 S1.
  have TZ k i : traj n m fA fB (fun _ _ => o0) (fun _ => o0) k i = 0 :> R.
    elim: k i => [|k IH] i /=; first exact: (o0E HO). rewrite !(osumE HO) (oaddE HO) !big1 ?addr0 // => j _; rewrite (omulE HO) ?IH ?(o0E HO) mulr0 //.
  exists t, x, y. split=> // v Hv; have [k Ek] := In_nth_error _ _ Hv.
  - have Hk : (k < length x)%coq_nat by apply/nth_error_Some; rewrite Ek. rewrite X1 in Hk. have Hk' : (k <= Nat.min N K)%N by rewrite -ltnS; apply/ssrnat.ltP.
    have [xk [Exk Vxk]] := Q1 k Hk'. move: Exk; rewrite Ek => -[Exk]. subst xk. apply: is_vec_unique Vxk _. apply: is_vec_ext; first exact: Vx.
    move=> i _. by rewrite TZ (o0E HO).
  - have Hk : (k < length y)%coq_nat by apply/nth_error_Some; rewrite Ek. rewrite Y1 in Hk.
    have [yk [Eyk Vyk]] := P1 k (introT ssrnat.ltP Hk). move: Eyk; rewrite Ek => -[Eyk]. subst yk. apply: is_vec_ext; first exact: Vyk.
    move=> i _. rewrite /outp !(osumE HO) (oaddE HO) !big1 ?addr0 // => j _; rewrite (omulE HO) ?TZ ?(o0E HO) mulr0 //.
Qed.
End Ring.
