(** PropInt.v: C86 and C87, overflow of signed and unsigned integer elements. *)
From Verif Require Import LinalgFacts2 PropMath PropLinalg Ints.
Local Open Scope Z_scope.

(** The mathematical sum g 0 + ... + g (n-1). *)
Fixpoint zsum (n : nat) (g : nat -> Z) : Z := match n with O => 0 | S k => zsum k g + g k end.
Definition zprod (n : nat) (f g : nat -> nat -> Z) (i j : nat) : Z := zsum n (fun k => f i k * g k j).
Definition ints (f : nat -> nat -> Z) : nat -> nat -> option Z := fun i j => Some (f i j).
Definition vints (f : nat -> Z) : nat -> option Z := fun i => Some (f i).
(** n! *)
Fixpoint zfact (n : nat) : Z := match n with O => 1 | S k => Z.of_nat (S k) * zfact k end.

Section Signed.
Variable w : Z.
Hypothesis Hw : 1 <= w.
Notation SO := (sops w).
Lemma range_0 : in_range w 0.
Proof. unfold in_range. assert (0 < 2 ^ (w - 1)) by (apply Z.pow_pos_nonneg; lia). lia. Qed.
Lemma rangeb_spec z : in_rangeb w z = true <-> in_range w z.
Proof. unfold in_rangeb, in_range. rewrite andb_true_iff, Z.leb_le, Z.ltb_lt. tauto. Qed.
Lemma checked_in z : in_range w z -> checked w z = Some z.
Proof. intros H. apply rangeb_spec in H. unfold checked. rewrite H. reflexivity. Qed.
Lemma checked_out z : ~ in_range w z -> checked w z = None.
Proof. intros H. unfold checked. destruct (in_rangeb w z) eqn:E; [|reflexivity]. apply rangeb_spec in E. contradiction. Qed.
Lemma range_dec z : {in_range w z} + {~ in_range w z}.
Proof. destruct (in_rangeb w z) eqn:E; [left|right]; [apply rangeb_spec, E|]. intros H. apply rangeb_spec in H. congruence. Qed.

(** What a sum of n values (each undefined unless [ok]) is. *)
Definition sum_defined (n : nat) (ok : nat -> Prop) (g : nat -> Z) : Prop :=
  (forall k, (k < n)%nat -> ok k) /\ (forall k, (k <= n)%nat -> in_range w (zsum k g)).
Lemma osum_s n (t : nat -> option Z) (g : nat -> Z) (ok : nat -> Prop) :
  (forall k, (k < n)%nat -> (ok k /\ t k = Some (g k)) \/ (~ ok k /\ t k = None)) ->
  (sum_defined n ok g /\ @osum _ SO n t = Some (zsum n g)) \/ (~ sum_defined n ok g /\ @osum _ SO n t = None).
Proof.
  induction n as [|n IH]; intros Ht.
  - left. split; [|reflexivity]. split; [intros; lia|]. intros k Hk. replace k with 0%nat by lia. apply range_0.
  - destruct IH as [(D & E)|(D & E)]; [intros; apply Ht; lia| |].
    + destruct (Ht n) as [(Hok & Et)|(Hok & Et)]; [lia| |].
      * cbn [osum zsum oadd sops]. rewrite E, Et. cbn [lift2]. destruct (range_dec (zsum n g + g n)) as [R|R].
        -- left. rewrite checked_in by auto. split; [|reflexivity]. destruct D as [D1 D2]. split.
           ++ intros k Hk. destruct (Nat.eq_dec k n) as [->|N]; [auto|]. apply D1. lia.
           ++ intros k Hk. destruct (Nat.eq_dec k (S n)) as [->|N]; [exact R|]. apply D2. lia.
        -- right. rewrite checked_out by auto. split; [|reflexivity]. intros [_ D2]. apply R. apply (D2 (S n)). lia.
      * right. cbn [osum oadd sops]. rewrite E, Et. split; [|reflexivity]. intros [D1 _]. apply Hok, D1. lia.
    + right. cbn [osum oadd sops]. rewrite E. split; [|reflexivity]. intros [D1 D2]. apply D. split; [intros; apply D1|intros; apply D2]; lia.
Qed.

(** * C86 *)
(** A + B, A - B, A * s: each element is defined exactly when its value is in range. *)
Theorem C86_elementwise A B r c fa fb : @readsL (option Z) A r c (ints fa) -> readsL B r c (ints fb) ->
  (exists m, @m_add _ SO A B = Ok m /\ is_mat m r c (fun i j => checked w (fa i j + fb i j))) /\
  (exists m, @m_sub _ SO A B = Ok m /\ is_mat m r c (fun i j => checked w (fa i j - fb i j))) /\
  (forall s, exists m, @m_muls _ SO A (Some s) = Ok m /\ is_mat m r c (fun i j => checked w (fa i j * s))).
Proof.
  intros HA HB. split; [|split].
  - apply (@C32_add _ SO A B _ _ _ _ _ _ HA HB); reflexivity.
  - apply (@C32_sub _ SO A B _ _ _ _ _ _ HA HB); reflexivity.
  - intros s. apply (proj1 (@C32_mul_scalar _ SO (Some s)) A r c _ HA).
Qed.
(** sum, dot, A * b and A * B: the result is defined exactly when every product and every
    partial sum is in range, and is then the mathematical one.  In-range results whose
    partial sums overflow are undefined. *)
Theorem C86_sum v n f : is_vec v n (vints f) ->
  exists x, @sum _ SO v = Ok x /\ (((forall k, (k <= n)%nat -> in_range w (zsum k f)) /\ x = Some (zsum n f)) \/
    ((exists k, (k <= n)%nat /\ ~ in_range w (zsum k f)) /\ x = None)).
Proof.
  intros Hv. eexists. split; [apply (@C39_sum _ SO v n _ Hv)|].
  destruct (osum_s n (vints f) f (fun _ => True)) as [((_ & D) & E)|(D & E)]; [left; auto|left; auto|right]. split; [|exact E].
  assert (K : forall m, (exists k, (k <= m)%nat /\ ~ in_range w (zsum k f)) \/ forall k, (k <= m)%nat -> in_range w (zsum k f)).
  { induction m as [|m IH]; [right; intros k Hk; replace k with 0%nat by lia; apply range_0|].
    destruct IH as [(k & Hk & Nk)|IH]; [left; exists k; split; [lia|auto]|]. destruct (range_dec (zsum (S m) f)) as [R|R]; [|left; exists (S m); auto].
    right. intros k Hk. destruct (Nat.eq_dec k (S m)) as [->|N]; [auto|]. apply IH. lia. }
  destruct (K n) as [K1|K1]; [auto|]. exfalso. apply D. split; auto.
Qed.
(** One entry of a product, or a dot product. *)
Definition dot_defined (n : nat) (a b : nat -> Z) : Prop :=
  (forall k, (k < n)%nat -> in_range w (a k * b k)) /\ (forall k, (k <= n)%nat -> in_range w (zsum k (fun i => a i * b i))).
Lemma osum_prod n a b :
  (dot_defined n a b /\ @osum _ SO n (fun k => @omul _ SO (Some (a k)) (Some (b k))) = Some (zsum n (fun k => a k * b k))) \/
  (~ dot_defined n a b /\ @osum _ SO n (fun k => @omul _ SO (Some (a k)) (Some (b k))) = None).
Proof.
  apply (osum_s n _ (fun k => a k * b k) (fun k => in_range w (a k * b k))). intros k _. cbn [omul sops lift2].
  destruct (range_dec (a k * b k)) as [R|R]; [left; rewrite checked_in by auto|right; rewrite checked_out by auto]; auto.
Qed.
Theorem C86_dot a b n fa fb : is_vec a n (vints fa) -> is_vec b n (vints fb) ->
  exists x, @dot _ SO a b = Ok x /\ ((dot_defined n fa fb /\ x = Some (zsum n (fun k => fa k * fb k))) \/ (~ dot_defined n fa fb /\ x = None)).
Proof.
  intros Ha Hb. eexists. split; [apply (@C35_dot _ SO a b n _ n _ Ha Hb); reflexivity|]. apply osum_prod.
Qed.
Theorem C86_product A B r n c fa fb : @reads (option Z) A r n (ints fa) -> reads B n c (ints fb) -> shape_ok r c ->
  exists m g, @m_mul _ SO A B = Ok m /\ is_mat m r c g /\ forall i j, (i < r)%nat -> (j < c)%nat ->
    (dot_defined n (fa i) (fun k => fb k j) /\ g i j = Some (zprod n fa fb i j)) \/ (~ dot_defined n (fa i) (fun k => fb k j) /\ g i j = None).
Proof.
  intros HA HB Hs. destruct (proj2 (@C33_product _ SO A B r n _ n c _ HA HB Hs) eq_refl) as (m & E & Hm).
  exists m. eexists. split; [exact E|]. split; [exact Hm|]. intros i j _ _. apply (osum_prod n (fa i) (fun k => fb k j)).
Qed.
(** A sufficient condition: n times the largest |a| times the largest |b| is in range. *)
Lemma zsum_bound n g b : (forall k, (k < n)%nat -> Z.abs (g k) <= b) -> Z.abs (zsum n g) <= Z.of_nat n * b.
Proof. induction n as [|n IH]; intros H; cbn [zsum]; [lia|]. specialize (IH ltac:(intros; apply H; lia)). specialize (H n ltac:(lia)). lia. Qed.
Lemma range_abs z b : Z.abs z <= b -> b < 2 ^ (w - 1) -> in_range w z.
Proof. unfold in_range. lia. Qed.
Lemma dot_bound n a b x y : 0 <= x -> 0 <= y -> (forall k, (k < n)%nat -> Z.abs (a k) <= x /\ Z.abs (b k) <= y) -> Z.of_nat n * (x * y) < 2 ^ (w - 1) -> dot_defined n a b.
Proof.
  intros Hx Hy H Hb. assert (P : forall k, (k < n)%nat -> Z.abs (a k * b k) <= x * y).
  { intros k Hk. destruct (H k Hk). rewrite Z.abs_mul. apply Z.mul_le_mono_nonneg; lia. }
  split; intros k Hk.
  - eapply range_abs; [apply P, Hk|]. assert (0 <= x * y) by nia. assert (1 <= Z.of_nat n) by lia. nia.
  - eapply range_abs; [apply zsum_bound; intros; apply P; lia|]. assert (0 <= x * y) by nia. nia.
Qed.
Theorem C86_product_bound A B r n c fa fb x y : @reads (option Z) A r n (ints fa) -> reads B n c (ints fb) -> shape_ok r c -> 0 <= x -> 0 <= y ->
  (forall i k, (i < r)%nat -> (k < n)%nat -> Z.abs (fa i k) <= x) -> (forall k j, (k < n)%nat -> (j < c)%nat -> Z.abs (fb k j) <= y) ->
  Z.of_nat n * (x * y) < 2 ^ (w - 1) -> exists m, @m_mul _ SO A B = Ok m /\ is_mat m r c (ints (zprod n fa fb)).
Proof.
  intros HA HB Hs Hx Hy Ba Bb Hn. destruct (C86_product A B r n c fa fb HA HB Hs) as (m & g & E & Hm & Hg). exists m. split; [exact E|].
  eapply is_mat_ext; [exact Hm|]. intros i j Hi Hj. destruct (Hg i j Hi Hj) as [(_ & ->)|(N & _)]; [reflexivity|]. exfalso. apply N.
  apply (dot_bound n _ _ x y Hx Hy); auto.
Qed.
(** Determinants up to 4 x 4: n! times the n-th power of the largest |a| in range suffices. *)
Definition bnd (x : option Z) (z b : Z) : Prop := x = Some z /\ Z.abs z <= b.
Lemma bnd_add x z b x' z' b' : bnd x z b -> bnd x' z' b' -> b + b' < 2 ^ (w - 1) -> bnd (@oadd _ SO x x') (z + z') (b + b').
Proof. intros [-> H] [-> H'] Hb. split; [|lia]. cbn. apply checked_in. eapply range_abs; [|exact Hb]. lia. Qed.
Lemma bnd_sub x z b x' z' b' : bnd x z b -> bnd x' z' b' -> b + b' < 2 ^ (w - 1) -> bnd (@osub _ SO x x') (z - z') (b + b').
Proof. intros [-> H] [-> H'] Hb. split; [|lia]. cbn. apply checked_in. eapply range_abs; [|exact Hb]. lia. Qed.
Lemma bnd_mul x z b x' z' b' : bnd x z b -> bnd x' z' b' -> b * b' < 2 ^ (w - 1) -> bnd (@omul _ SO x x') (z * z') (b * b').
Proof.
  intros [-> H] [-> H'] Hb. assert (Z.abs (z * z') <= b * b') by (rewrite Z.abs_mul; apply Z.mul_le_mono_nonneg; lia).
  split; [|auto]. cbn. apply checked_in. eapply range_abs; [|exact Hb]. auto.
Qed.
Theorem C86_determinant_bound A B n f x : @readsL (option Z) A n n (ints f) -> @readsL Z B n n f -> (1 <= n <= 4)%nat -> 1 <= x ->
  (forall i j, (i < n)%nat -> (j < n)%nat -> Z.abs (f i j) <= x) -> zfact n * x ^ Z.of_nat n < 2 ^ (w - 1) ->
  exists d, @determinant Z zops B = Ok d /\ @determinant _ SO A = Ok (Some d).
Proof.
  intros HA HB Hn Hx Hf Hb. assert (HA' := HA). assert (HB' := HB). destruct HA' as ((Ar & Ac & _ & _ & Ag) & _). destruct HB' as ((Br & Bc & _ & _ & Bg) & _).
  unfold determinant, is_square. rewrite Ar, Ac, Br, Bc, Nat.eqb_refl. cbn [negb].
  assert (Cases : n = 1%nat \/ n = 2%nat \/ n = 3%nat \/ n = 4%nat) by lia.
  assert (X2 : x <= x * x) by nia. assert (X3 : x * x <= x * x * x) by nia. assert (X4 : x * x * x <= x * x * x * x) by nia.
  destruct Cases as [->|[->|[->| ->]]]; cbv beta iota zeta delta [Nat.eqb].
  - rewrite Ag, Bg by lia. eexists. split; reflexivity.
  - destruct (@mget_all_ok _ SO A 2 _ (proj1 HA)) as (g & -> & Hg). destruct (@mget_all_ok _ zops B 2 _ (proj1 HB)) as (h & -> & Hh). cbn [bind].
    eexists. split; [reflexivity|]. f_equal.
    assert (E : forall i j, (i < 2)%nat -> (j < 2)%nat -> bnd (g i j) (h i j) x) by (intros i j Hi Hj; rewrite Hg, Hh by auto; split; [reflexivity|auto]).
    assert (Hb' : 2 * (x * x) < 2 ^ (w - 1)) by (change (zfact 2) with 2 in Hb; replace (x ^ Z.of_nat 2) with (x * x) in Hb by (change (Z.of_nat 2) with 2; ring); exact Hb).
    unfold det2. refine (proj1 (bnd_sub _ _ (x * x) _ _ (x * x) _ _ _)); [apply bnd_mul; [apply E; lia|apply E; lia|lia]..|lia].
  - destruct (@mget_all_ok _ SO A 3 _ (proj1 HA)) as (g & -> & Hg). destruct (@mget_all_ok _ zops B 3 _ (proj1 HB)) as (h & -> & Hh). cbn [bind].
    eexists. split; [reflexivity|]. f_equal.
    assert (E : forall i j, (i < 3)%nat -> (j < 3)%nat -> bnd (g i j) (h i j) x) by (intros i j Hi Hj; rewrite Hg, Hh by auto; split; [reflexivity|auto]).
    assert (Hb' : 6 * (x * x * x) < 2 ^ (w - 1)) by (change (zfact 3) with 6 in Hb; replace (x ^ Z.of_nat 3) with (x * x * x) in Hb by (change (Z.of_nat 3) with 3; ring); exact Hb).
    assert (T3 : forall p q r s t zp zq zr zs zt, bnd p zp x -> bnd q zq x -> bnd r zr x -> bnd s zs x -> bnd t zt x ->
      bnd (@omul _ SO p (@osub _ SO (@omul _ SO q r) (@omul _ SO s t))) (zp * (zq * zr - zs * zt)) (2 * (x * x * x))).
    { intros p q r s t zp zq zr zs zt Hp Hq Hr Hs Ht. replace (2 * (x * x * x)) with (x * (x * x + x * x)) by ring.
      apply bnd_mul; [auto| |nia]. apply bnd_sub; [apply bnd_mul; [auto|auto|nia]..|nia]. }
    unfold det3. refine (proj1 (bnd_add _ _ (2 * (x * x * x) + 2 * (x * x * x)) _ _ (2 * (x * x * x)) _ _ _)).
    + apply bnd_sub; [apply T3; apply E; lia..|lia].
    + apply T3; apply E; lia.
    + lia.
  - destruct (@mget_all_ok _ SO A 4 _ (proj1 HA)) as (g & -> & Hg). destruct (@mget_all_ok _ zops B 4 _ (proj1 HB)) as (h & -> & Hh). cbn [bind].
    eexists. split; [reflexivity|]. f_equal.
    assert (E : forall i j, (i < 4)%nat -> (j < 4)%nat -> bnd (g i j) (h i j) x) by (intros i j Hi Hj; rewrite Hg, Hh by auto; split; [reflexivity|auto]).
    set (P := x * x * x * x) in *.
    assert (Hb' : 24 * P < 2 ^ (w - 1)) by (change (zfact 4) with 24 in Hb; replace (x ^ Z.of_nat 4) with P in Hb by (unfold P; change (Z.of_nat 4) with 4; ring); exact Hb).
    assert (T4 : forall a b c d, (a < 4)%nat -> (b < 4)%nat -> (c < 4)%nat -> (d < 4)%nat ->
      bnd (@omul _ SO (@omul _ SO (@omul _ SO (g 0%nat a) (g 1%nat b)) (g 2%nat c)) (g 3%nat d)) (h 0%nat a * h 1%nat b * h 2%nat c * h 3%nat d) P).
    { intros a b c d Ha Hb1 Hc Hd. assert (0 < P) by (unfold P; nia). apply bnd_mul; [apply bnd_mul; [apply bnd_mul; [apply E; lia|apply E; lia|lia]|apply E; lia|lia]|apply E; lia|fold P; lia]. }
    assert (P0 : 0 < P) by (unfold P; nia). clearbody P.
    unfold det4. cbv zeta. change (@omul Z zops) with Z.mul. change (@oadd Z zops) with Z.add. change (@osub Z zops) with Z.sub.
    eassert (K : bnd _ _ (P+P+P+P+P+P+P+P+P+P+P+P+P+P+P+P+P+P+P+P+P+P+P+P)); [|exact (proj1 K)].
    repeat first [apply T4; lia | apply bnd_add; [| |lia] | apply bnd_sub; [| |lia]].
Qed.
(** factorial(n) is defined exactly when n! is in range. *)
Lemma zfact_pos n : 1 <= zfact n.
Proof. induction n as [|n IH]; cbn [zfact]; lia. Qed.
Theorem C86_factorial fuel n : (n <= fuel)%nat -> 2 <= w ->
  (in_range w (zfact n) -> factorial_s w fuel (Z.of_nat n) = Ok (Some (zfact n))) /\
  (~ in_range w (zfact n) -> factorial_s w fuel (Z.of_nat n) = Ok None).
Proof.
  intros Hf Hw2. revert fuel Hf. induction n as [|n IH]; intros fuel Hf.
  - assert (2 ^ 1 <= 2 ^ (w - 1) \/ w = 2) by (destruct (Z.eq_dec w 2); [auto|left; apply Z.pow_le_mono_r; lia]).
    split; [intros _; destruct fuel; reflexivity|]. intros N. exfalso. apply N. cbn. unfold in_range.
    assert (2 ^ 1 <= 2 ^ (w - 1)) by (apply Z.pow_le_mono_r; lia). lia.
  - destruct fuel as [|fuel]; [lia|]. cbn [factorial_s]. destruct (Z.leb_spec (Z.of_nat (S n)) 0); [lia|].
    replace (Z.of_nat (S n) - 1) with (Z.of_nat n) by lia. destruct (IH fuel ltac:(lia)) as [I1 I2]. pose proof (zfact_pos n) as Pf.
    assert (0 < 2 ^ (w - 1)) by (apply Z.pow_pos_nonneg; lia).
    destruct (range_dec (zfact n)) as [R|R]; [rewrite (I1 R)|rewrite (I2 R)]; cbn [bind lift2].
    + split; intros R'; [rewrite checked_in by exact R'|rewrite checked_out by exact R']; reflexivity.
    + split; [|reflexivity]. intros R'. exfalso. apply R. unfold in_range in *. cbn [zfact] in R'. nia.
Qed.
End Signed.
(** 12! is the last one for 32 bits, 20! for 64. *)
Theorem C86_factorial_32_64 n : (in_range 32 (zfact n) <-> (n <= 12)%nat) /\ (in_range 64 (zfact n) <-> (n <= 20)%nat).
Proof.
  assert (M : forall a b, (a <= b)%nat -> zfact a <= zfact b).
  { intros a b H. induction H as [|b H IH]; [lia|]. cbn [zfact]. pose proof (zfact_pos b). nia. }
  split; split; intros H.
  - destruct (Nat.le_gt_cases n 12) as [|G]; [auto|]. exfalso. specialize (M 13%nat n G). assert (E : zfact 13 = 6227020800) by reflexivity.
    unfold in_range in H. change (2 ^ (32 - 1)) with 2147483648 in H. lia.
  - specialize (M n 12%nat H). assert (E : zfact 12 = 479001600) by reflexivity. pose proof (zfact_pos n). unfold in_range. change (2 ^ (32 - 1)) with 2147483648. lia.
  - destruct (Nat.le_gt_cases n 20) as [|G]; [auto|]. exfalso. specialize (M 21%nat n G). assert (E : zfact 21 = 51090942171709440000) by reflexivity.
    unfold in_range in H. change (2 ^ (64 - 1)) with 9223372036854775808 in H. lia.
  - specialize (M n 20%nat H). assert (E : zfact 20 = 2432902008176640000) by reflexivity. pose proof (zfact_pos n). unfold in_range. change (2 ^ (64 - 1)) with 9223372036854775808. lia.
Qed.
