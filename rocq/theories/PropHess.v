(** PropHess.v: eigen::hessenberg (C97), with the repairs of Eigen.v. *)
From Verif Require Import MathFacts MatFacts Util UtilFacts2 PropUtil PropMath MathM ControlFacts RingM DetFacts PropRing PropReal PropControl PropControl2 QR PropQR Eigen.
From mathcomp Require Import all_ssreflect all_algebra.
From Verif Require Import EigenMath.
Set Implicit Arguments.
Unset Strict Implicit.
Unset Printing Implicit Defensive.
Import Order.Theory GRing.Theory Num.Theory.
Local Open Scope ring_scope.

(** The arithmetic of std::complex<T> is that of the complex numbers K over the real
    numbers U, exactly: [emb] is the embedding of U into K, [cnorm], [cabs], [conj], [ofr]
    are std::norm, std::abs, std::conj and the conversion from T. *)
Definition complexO (K : numClosedFieldType) (U : rcfType) (emb : {rmorphism U -> K}) (OC : Ops K) (OU : Ops U)
  (cnorm cabs : K -> U) (conj : K -> K) (ofr : U -> K) : Prop :=
  [/\ fieldO OC, realO OU, {mono emb : x y / x <= y} &
   [/\ (forall z, emb (cnorm z) = `|z| ^+ 2), (forall z, emb (cabs z) = `|z|), (forall z, conj z = z^*) & (forall x, ofr x = emb x)]].

Section Hess.
Variables (K : numClosedFieldType) (U : rcfType) (emb : {rmorphism U -> K}) (OC : Ops K) (OU : Ops U).
Variables (cnorm cabs : K -> U) (conj : K -> K) (ofr : U -> K).
Hypothesis HC : complexO emb OC OU cnorm cabs conj ofr.

Let HF : fieldO OC. Proof. by case: HC. Qed.
Let HO : ringO OC. Proof. by case: HF. Qed.
Let HU : realO OU. Proof. by case: HC. Qed.
Let HV : ringO OU. Proof. by case: HU => -[]. Qed.
Let HD (x y : K) : y != 0 -> odiv x y = Ok (x / y). Proof. case: HF => _ H _. exact: H. Qed.
Let Hlt (x y : U) : olt x y = (x < y). Proof. by case: HU. Qed.
Let Hnorm z : emb (cnorm z) = `|z| ^+ 2. Proof. by case: HC => _ _ _ []. Qed.
Let Habs z : emb (cabs z) = `|z|. Proof. by case: HC => _ _ _ []. Qed.
Let Hconj z : conj z = z^*. Proof. by case: HC => _ _ _ []. Qed.
Let Hofr x : ofr x = emb x. Proof. by case: HC => _ _ _ []. Qed.
Lemma emb_le x y : (emb x <= emb y) = (x <= y). Proof. by case: HC. Qed.
Lemma emb_lt x y : (emb x < emb y) = (x < y). Proof. exact: (leW_mono emb_le). Qed.
Lemma emb_eq0 x : (emb x == 0) = (x == 0). Proof. by rewrite fmorph_eq0. Qed.
Lemma emb_real x : emb x \is Num.real.
Proof. rewrite realE -(rmorph0 emb) !emb_le. exact: num_real. Qed.
Lemma cnorm_ge0 z : 0 <= cnorm z.
Proof. by rewrite -emb_le rmorph0 Hnorm exprn_ge0. Qed.
Lemma cnorm0 : cnorm 0 = 0.
Proof. apply: (fmorph_inj emb). by rewrite Hnorm normr0 expr0n rmorph0. Qed.
Lemma cabs_gt0 z : (0 < cabs z) = (z != 0).
Proof. by rewrite -emb_lt rmorph0 Habs normr_gt0. Qed.
Lemma cabs_ge0 z : 0 <= cabs z.
Proof. by rewrite -emb_le rmorph0 Habs. Qed.
Lemma cabs0 : cabs 0 = 0.
Proof. apply: (fmorph_inj emb). by rewrite Habs normr0 rmorph0. Qed.

(** The length of a column. *)
Definition clen n (x : 'cV[K]_n) : U := Num.sqrt (\sum_i cnorm (x i 0)).
Lemma clen_sq n (x : 'cV[K]_n) : emb (clen x) ^+ 2 = sql x.
Proof.
  rewrite -rmorphX /= sqr_sqrtr; last by apply: sumr_ge0 => i _; exact: cnorm_ge0.
  rewrite rmorph_sum. by apply: eq_bigr => i _; rewrite /= Hnorm.
Qed.
Lemma clen_ge0 n (x : 'cV[K]_n) : 0 <= clen x. Proof. exact: sqrtr_ge0. Qed.
Lemma clen_eq0 n (x : 'cV[K]_n) : clen x = 0 -> x = 0.
Proof. move=> E. apply: sql_eq0. by rewrite -clen_sq E rmorph0 expr0n. Qed.

Variable eps : U.
Hypothesis eps_gt0 : 0 < eps.

(** Column k below row k; the reflection vector computed from it. *)
Definition hcolk n (M : 'M[K]_n) (k : 'I_n) : 'cV[K]_n := \col_i (if (k < i)%N then M i k else 0).
Definition hrho (z : K) : K := if eps < cabs z then - z / emb (cabs z) else 1.
Definition hv n (x : 'cV[K]_n) (e : 'I_n) : 'cV[K]_n := x - (hrho (x e 0) * emb (clen x)) *: delta_mx e 0.
Definition hl n (v : 'cV[K]_n) : U := if clen v < eps then eps else clen v.
Definition hu n (M : 'M[K]_n) (k e : 'I_n) : 'cV[K]_n := let v := hv (hcolk M k) e in (emb (hl v))^-1 *: v.

Lemma hl_gt0 n (v : 'cV[K]_n) : 0 < hl v.
Proof. rewrite /hl. case: (ltP (clen v) eps) => // H. exact: (lt_le_trans eps_gt0 H). Qed.

Lemma cvfE' n (V : 'cV[K]_n) i (Hi : (i < n)%N) : cvf V i = V (Ordinal Hi) 0. Proof. by rewrite -cvfE. Qed.

Lemma vec_fill0 n : fits n -> is_vec (List.repeat (o0 : K) n) n (fun _ => 0).
Proof.
  move=> Hf. split; first exact: repeat_length. split=> // i Hi. rewrite (o0E HO). exact: nth_error_repeat_lt.
Qed.
Lemma sum_tail n (k : nat) (g : 'cV[K]_n) : (forall i : 'I_n, (i <= k)%N -> g i 0 = 0) ->
  \sum_(k.+1 <= i < n) cnorm (cvf g i) = \sum_i cnorm (g i 0).
Proof.
  move=> Hz. case: (leqP k.+1 n) => L.
  - have -> : \sum_(i < n) cnorm (g i 0) = \sum_(i < n) cnorm (cvf g i) by apply: eq_bigr => i _; rewrite cvfE.
    rewrite -(big_mkord xpredT (fun i => cnorm (cvf g i))) [RHS](big_cat_nat _ (n := k.+1)) //= [X in _ = X + _]big_nat_cond [X in _ = X + _]big1 ?add0r //.
    move=> i /andP [/andP [_ Hi] _]. have Hn : (i < n)%N by exact: leq_trans L. by rewrite (cvfE' _ Hn) Hz // cnorm0.
  - rewrite big_geq; last exact: ltnW. apply/esym/big1 => i _. rewrite Hz ?cnorm0 //. by move: (ltn_ord i) => H; rewrite -ltnS (leq_trans H) // ltnW // -ltnS.
Qed.

Lemma hess_vector_ok (H : Mat.Matrix K) n (M : 'M[K]_n) (k e : 'I_n) : is_mx H M -> nat_of_ord e = k.+1 -> fits n ->
  exists u, hess_vector cnorm cabs ofr Num.sqrt eps H n k = Ok u /\ is_vec u n (cvf (hu M k e)).
Proof.
  move=> HH Ee Fn. have [Er _] := HH. rewrite /hess_vector Er.
  have k1 : (k + 1)%coq_nat = k.+1 by lia. have k2 : (k + 2)%coq_nat = k.+2 by lia. rewrite k1 k2.
  have Lk : (k.+1 < n)%N by rewrite -Ee.
  set x := hcolk M k. set v := hv x e.
  have xE i : (i < n)%N -> cvf x i = if (k < i)%N then mxf M i k else 0.
    move=> Hi. rewrite (cvfE' _ Hi) mxE /=. by rewrite -[i]/(val (Ordinal Hi)) mxfE.
  have x0 (i : 'I_n) : (i <= k)%N -> x i 0 = 0 by move=> L; rewrite mxE ltnNge L.
  rewrite (C40_vector_length HU cnorm Num.sqrt _ _ (proj1 (is_mx_reads HH)) (ltn_ord k)) minnn.
  have -> : Num.sqrt (\sum_(k.+1 <= i < n) cnorm (mxf M i k)) = clen x.
    rewrite /clen -(sum_tail x0). congr (Num.sqrt _). apply: eq_big_nat => i /andP [L1 L2]. by rewrite xE // L1.
  rewrite bindOk vec_fill_ok // bindOk.
  have Ez : mxf M k.+1 k = x e 0 by rewrite -[k.+1]Ee mxfE mxE Ee ltnSn.
  rewrite (is_mat_at _ _ _ _ _ _ HH (elimT ssrnat.ltP Lk) (elimT ssrnat.ltP (ltn_ord k))) bindOk Ez.
  set z := x e 0.
  have -> : (if olt eps (cabs z) then odiv (oopp z) (ofr (cabs z)) else Ok o1) = Ok (hrho z).
    rewrite Hlt /hrho. case: ltP => Hz; last by rewrite (o1E HO).
    rewrite Hofr (ooppE HO) HD //. rewrite emb_eq0 gt_eqF //. exact: lt_trans Hz.
  rewrite bindOk. set t := osub _ _.
  have Et : t = v e 0. { rewrite /t (osubE HO) (omulE HO) Hofr /v /hv -/z. move: (hrho z * _) => w. by rewrite !mxE !eqxx mulr1 /z mxE. }
  have vE (i : 'I_n) : v i 0 = if (i == k.+1 :> nat) then t else x i 0.
    case: eqP => Hi; first by rewrite Et; congr (v _ 0); apply: ord_inj; rewrite Ee.
    rewrite !mxE. have -> : (i == e) = false by apply/negbTE/eqP => E; apply: Hi; rewrite E. by rewrite mulr0 subr0.
  have v0 (i : 'I_n) : (i <= k)%N -> v i 0 = 0.
    move=> L. rewrite vE ltn_eqF; last by rewrite ltnS. by apply: x0.
  have [u0 [-> Hu0]] := vec_set t (vec_fill0 Fn) Lk. rewrite bindOk.
  rewrite (is_vec_get _ _ _ _ Hu0 (elimT ssrnat.ltP Lk)) eqxx bindOk.
  set body1 := fun (i : nat) (s : seq K * U) => _.
  have [||[u1 l1] [-> [Hu1 El1]]] := for_range_inv (fun i (s : seq K * U) => is_vec s.1 n (fun j => if (j < i)%N then cvf v j else 0) /\
     s.2 = \sum_(k.+1 <= j < i) cnorm (cvf v j)) k.+2 n body1 (u0, cnorm t) (elimT ssrnat.leP Lk).
  - split.
    + apply: is_vec_ext; first exact: Hu0. move=> j /ssrnat.ltP Hj /=. rewrite (cvfE' _ Hj) vE /=. case: (ltngtP j k.+1) => Hj1.
      * by rewrite ltnW // x0.
      * by rewrite ltnNge Hj1.
      * by rewrite Hj1 ltnSn.
    + rewrite /= big_nat1. by rewrite -Ee cvfE -Et.
  - move=> i [u l] [/ssrnat.leP Hi1 /ssrnat.ltP Hi2] [/= Hu ->]. rewrite /body1 /=.
    rewrite (is_mat_at _ _ _ _ _ _ HH (elimT ssrnat.ltP Hi2) (elimT ssrnat.ltP (ltn_ord k))) bindOk.
    have [u' [-> Hu']] := vec_set (mxf M i k) Hu Hi2. rewrite bindOk.
    rewrite (is_vec_get _ _ _ _ Hu' (elimT ssrnat.ltP Hi2)) eqxx bindOk. eexists; split; first reflexivity.
    have vi : cvf v i = mxf M i k.
      rewrite (cvfE' _ Hi2) vE /= gtn_eqF // mxE /= ltnW //. by rewrite -[i]/(val (Ordinal Hi2)) mxfE.
    split=> /=.
    + apply: is_vec_ext; first exact: Hu'. move=> j /ssrnat.ltP Hj /=. rewrite ltnS. case: (ltngtP j i) => // ->. by rewrite vi.
    + rewrite (oaddE HV) -vi big_nat_recr //=. exact: ltnW.
  rewrite bindOk Hlt.
  have -> : Num.sqrt l1 = clen v by rewrite [l1]El1 (sum_tail v0).
  rewrite -[(if clen v < eps then eps else clen v)]/(hl v).
  set body2 := fun (i : nat) (u : seq K) => _.
  have Nl : emb (hl v) != 0 by rewrite emb_eq0 gt_eqF // hl_gt0.
  have uE j : cvf (hu M k e) j = cvf v j / emb (hl v).
    case: (ltnP j n) => Hj; first by rewrite !(cvfE' _ Hj) [LHS]mxE mulrC.
    by rewrite /cvf !mxf_out ?mul0r // negb_and -leqNgt Hj.
  have [||u2 [-> Hu2]] := for_range_inv (fun i (u : seq K) => is_vec u n (fun j => if (j < i)%N then cvf (hu M k e) j else cvf v j)) k.+1 n body2 u1 (elimT ssrnat.leP (ltnW Lk)).
  - apply: is_vec_ext; first exact: Hu1. move=> j /ssrnat.ltP Hj /=. rewrite Hj. case: (ltnP j k.+1) => // Lj. by rewrite uE (cvfE' _ Hj) v0 // mul0r.
  - move=> i u [/ssrnat.leP Hi1 /ssrnat.ltP Hi2] Hu. rewrite /body2 (is_vec_get _ _ _ _ Hu (elimT ssrnat.ltP Hi2)) ltnn bindOk Hofr HD // bindOk.
    have [u' [-> Hu']] := vec_set (cvf v i / emb (hl v)) Hu Hi2. eexists; split; first reflexivity.
    apply: is_vec_ext; first exact: Hu'. move=> j /ssrnat.ltP Hj /=. rewrite ltnS. case: (ltngtP j i) => // ->. by rewrite uE.
  exists u2. split=> //. apply: is_vec_ext; first exact: Hu2. move=> j /ssrnat.ltP Hj /=. by rewrite Hj.
Qed.

(** A square block of a matrix, cell by cell. *)
Lemma block_loop (m0 : Mat.Matrix K) n lo f (g : nat -> nat -> K) body : is_mat m0 n n f -> (lo <= n)%N ->
  (forall r c m' f', (lo <= r < n)%N -> (lo <= c < n)%N -> is_mat m' n n f' -> f' r c = f r c -> body r c m' = mat_set m' r c (g r c)) ->
  exists m', for_range lo n (fun r m => for_range lo n (fun c m => body r c m) m) m0 = Ok m' /\
    is_mat m' n n (fun a b => if (lo <= a)%N && (lo <= b)%N then g a b else f a b).
Proof.
  move=> Hm Ln Hb. have Ln' := elimT ssrnat.leP Ln.
  have [||m' [E Hm']] := for_range_inv (fun r m => is_mat m n n (fun a b => if (lo <= a < r)%N && (lo <= b)%N then g a b else f a b)) lo n
    (fun r m => for_range lo n (fun c m => body r c m) m) m0 Ln'.
  - apply: is_mat_ext; first exact: Hm. move=> a b _ _ /=. by case: (leqP lo a).
  - move=> r m1 [/ssrnat.leP Hr1 /ssrnat.ltP Hr2] Hm1.
    have [||m2 [E2 Hm2]] := for_range_inv (fun c m => is_mat m n n (fun a b => if ((lo <= a < r)%N && (lo <= b)%N) || ((a == r) && (lo <= b < c)%N) then g a b else f a b)) lo n
      (fun c m => body r c m) m1 Ln'.
    + apply: is_mat_ext; first exact: Hm1. move=> a b _ _ /=. by case: (leqP lo b) => Lb; rewrite /= ?andbF ?orbF.
    + move=> c m2 [/ssrnat.leP Hc1 /ssrnat.ltP Hc2] Hm2. rewrite (Hb r c m2 _ _ _ Hm2); first last.
      * by rewrite ltnn andbF /= ltnn andbF andbF.
      * by rewrite Hc1.
      * by rewrite Hr1.
      have [m3 [E3 Hm3]] := mat_set_ok _ _ _ _ r c (g r c) Hm2 (elimT ssrnat.ltP Hr2) (elimT ssrnat.ltP Hc2).
      exists m3. split; first exact: E3. apply: is_mat_ext; first exact: Hm3. move=> a b _ _. rewrite /fset !nateqbE ltnS.
      case: (eqVneq a r) => [->|Na] /=; last by [].
      rewrite ltnn andbF /=. case: (ltngtP b c) => [|Lb|->] //=; by rewrite ?Hc1 ?leqnn.
    exists m2. split; first exact: E2. apply: is_mat_ext; first exact: Hm2. move=> a b _ /ssrnat.ltP Hb' /=. rewrite Hb' andbT ltnS.
    case: (ltngtP a r) => [La|La|->] /=; rewrite ?andbF ?andbT ?orbF ?Hr1 //.
  exists m'. split; first exact: E. apply: is_mat_ext; first exact: Hm'. move=> a b /ssrnat.ltP Ha _ /=. by rewrite Ha andbT.
Qed.
Lemma hess_reflection_ok n (u : seq K) (w : 'cV[K]_n) k : (0 < n)%N -> shape_ok n n -> (k < n)%N -> is_vec u n (cvf w) ->
  (forall i : 'I_n, (i <= k)%N -> w i 0 = 0) ->
  exists PK, hess_reflection conj u n k = Ok PK /\ is_mx PK (refl w).
Proof.
  move=> Hn Hs Hk Hu Hw. rewrite /hess_reflection. have [J [-> HJ _]] := identity_mx HO Hn Hs. rewrite bindOk.
  have k1 : (k + 1)%coq_nat = k.+1 by lia. rewrite k1.
  have [|PK [E HP]] := block_loop (g := fun r c => mxf (refl w) r c) (body := fun r c PK =>
    let* x := mat_at PK r c in
    let* ur := lget u r in
    let* uc := lget u c in
    mat_set PK r c (osub x (omul (omul (oadd o1 o1) ur) (conj uc)))) HJ Hk.
  - move=> r c m' f' /andP [_ /[dup] Hr /ssrnat.ltP Hr'] /andP [_ /[dup] Hc /ssrnat.ltP Hc'] Hm' Ef.
    rewrite (is_mat_at _ _ _ _ _ _ Hm' Hr' Hc') Ef bindOk (is_vec_get _ _ _ _ Hu Hr') bindOk (is_vec_get _ _ _ _ Hu Hc') bindOk.
    congr mat_set. rewrite !(cvfE' _ Hr) !(cvfE' _ Hc) -[r]/(val (Ordinal Hr)) -[c]/(val (Ordinal Hc)) !mxfE reflE [_%:M _ _]mxE.
    by rewrite (osubE HO) !(omulE HO) (oaddE HO) (o1E HO) Hconj.
  - exists PK. split; first exact: E. apply: is_mat_ext; first exact: HP. move=> a b /ssrnat.ltP Ha /ssrnat.ltP Hb /=.
    rewrite -[a]/(val (Ordinal Ha)) -[b]/(val (Ordinal Hb)) !mxfE reflE [_%:M _ _]mxE.
    case: (ltnP k a) => La /=; [case: (ltnP k b) => Lb //=|].
    + by rewrite [w (Ordinal Hb) _]Hw // rmorph0 mulr0 subr0.
    + by rewrite [w (Ordinal Ha) _]Hw // mulr0 mul0r subr0.
Qed.

Lemma hu_low n (M : 'M[K]_n) (k e : 'I_n) : nat_of_ord e = k.+1 -> forall i : 'I_n, (i <= k)%N -> hu M k e i 0 = 0.
Proof.
  move=> Ee i L. rewrite !mxE [(k < i)%N]ltnNge L. have -> : (i == e) = false by apply/negbTE/eqP => E; move: L; rewrite E Ee ltnn.
  by rewrite mulr0 subr0 mulr0.
Qed.
Lemma mv_assign (m h : Mat.Matrix K) r c (M N : 'M[K]_(r, c)) : is_mx m M -> is_mx h N -> is_mx (fst (mat_move_assign m h)) N.
Proof. move=> Hm Hh. apply: (move_assign_ok _ _ _ _ _ _ _ _ Hm Hh). by right. Qed.

(** One pass: H becomes W H W and P becomes P W, W the reflection for column k. *)
Lemma hess_step_ok (P H : Mat.Matrix K) n (MP MH : 'M[K]_n) (k e : 'I_n) : is_mx P MP -> is_mx H MH -> nat_of_ord e = k.+1 ->
  let W := refl (hu MH k e) in
  exists P' H', [/\ hess_step cnorm cabs conj ofr Num.sqrt eps n k (P, H) = Ok (P', H'), is_mx P' (MP *m W) & is_mx H' (W *m (MH *m W))].
Proof.
  move=> HP HH Ee W. have Hs := shape_mx (is_mx_reads HH). have Hn : (0 < n)%N by exact: leq_trans (ltn_ord k).
  have Fn : fits n. { case: Hs => _ [_ F]. apply: (fits_le _ _ _ F). rewrite -[(n * n)%coq_nat]/(n * n)%N. apply/ssrnat.leP. exact: leq_pmulr. }
  rewrite /hess_step. have [u [-> Hu]] := hess_vector_ok HH Ee Fn. rewrite bindOk.
  have [PK [-> HK]] := hess_reflection_ok Hn Hs (ltn_ord k) Hu (hu_low MH Ee). rewrite bindOk.
  have RK := is_mx_reads HK. have [X [-> _ RX]] := m_mul_mxL HO (is_mx_reads HH) RK Hs. rewrite bindOk.
  have [Y [-> HY _]] := m_mul_mxL HO RK RX Hs. rewrite bindOk.
  have [Z [-> HZ _]] := m_mul_mxL HO (is_mx_reads HP) RK Hs. rewrite bindOk.
  eexists _, _. split; first reflexivity; [exact: mv_assign HP HZ|exact: mv_assign HH HY].
Qed.

(** hessenberg returns P and H with H = P* A P, whatever the elements. *)
Theorem C97_hessenberg_conjugate (A : Mat.Matrix K) n (MA : 'M[K]_n) : (0 < n)%N -> is_mx A MA ->
  exists P H (MP MH : 'M[K]_n), [/\ hessenberg cnorm cabs conj ofr Num.sqrt eps A = Ok (P, H), is_mx P MP, is_mx H MH & MH = adj MP *m MA *m MP].
Proof.
  move=> Hn HA. have Hs := shape_mx (is_mx_reads HA). have [Er _] := HA. rewrite /hessenberg Er.
  have [J [-> HJ _]] := identity_mx HO Hn Hs. rewrite bindOk (mat_copy_ok _ _ _ _ HA) bindOk.
  have [||[P H] [E [MP [MH [/= H1 H2 H3]]]]] := for_range_inv (fun _ (s : Mat.Matrix K * Mat.Matrix K) =>
      exists MP MH : 'M[K]_n, [/\ is_mx s.1 MP, is_mx s.2 MH & MH = adj MP *m MA *m MP]) 0 (n - 2)%coq_nat
    (hess_step cnorm cabs conj ofr Num.sqrt eps n) (J, A) (Nat.le_0_l _).
  - exists 1%:M, MA. split; [exact: HJ|exact: HA|by rewrite adj1 mul1mx mulmx1].
  - move=> k [P H] [_ Hk] [MP [MH [/= HP HH E]]]. have Lk : (k < n)%N by apply/ssrnat.ltP; lia. have Le : (k.+1 < n)%N by apply/ssrnat.ltP; lia.
    have [P' [H' [Es HP' HH']]] := hess_step_ok (k := Ordinal Lk) (e := Ordinal Le) HP HH erefl.
    exists (P', H'). split; first exact: Es. eexists _, _. split; first exact: HP'; first exact: HH'.
    by rewrite adj_mul refl_herm E !mulmxA.
  exists P, H, MP, MH. split=> //.
Qed.
End Hess.
