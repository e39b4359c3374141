(** PropRelFloat.v: C106 for doubles and whole numbers.  As long as no intermediate result
    leaves -2^53 ... 2^53 - 1, what the library computes with doubles that hold whole numbers
    is exactly what it computes with integers.  The integers are those of [sops 54], where
    [None] marks a value that depends on one outside that range. *)
From Coq Require Import ZArith QArith Qabs Lia Lqa SpecFloat List.
From Verif Require Import Control Ints Float FloatFacts FloatValid FloatRound FloatIOFacts FloatArith FloatSum FloatCmp PropFloat PropFloat2 PropFloatIO PropFloatSum PropFloatCmp FloatLoop PropFloatLin FloatDet Rel PropRel PropRelInt.
Local Open Scope Z_scope.

(** The double holds the whole number, unless it is lost. *)
Definition holds (x : option Z) (d : double) : Prop := x = None \/ exists z, x = Some z /\ proper d /\ (dval d == inject_Z z)%Q.

Lemma checked_holds w z d : (w == inject_Z z)%Q -> is_double d -> crt prec64 emax64 w d -> holds (checked 54 z) d.
Proof.
  intros W V C. destruct (checked 54 z) as [a|] eqn:E; [|now left]. apply checked_some in E. destruct E as [-> E]. right. exists z. split; [reflexivity|].
  assert (B : Z.abs z <= 2 ^ 53) by (unfold in_range in E; change (54 - 1) with 53 in E; lia).
  destruct (grid_round 0 (2 ^ 53) d (inject_Z z) w V C W) as (P & D & _); [exists z; split; [change (p2 0) with 1%Q; ring|exact B]|lia|lia|]. now split.
Qed.
Lemma whole_ring t : same_ring (sops 54) (fops t) holds.
Proof.
  split.
  - right. exists 0. split; [reflexivity|]. apply zero_proper.
  - right. exists 1. split; [reflexivity|]. apply one_proper.
  - intros a b a' b' [->|(z & -> & P & E)] [->|(z' & -> & P' & E')]; try (now left). destruct (add_facts b b' P P') as [V C].
    eapply checked_holds; [|exact V|exact C]. now rewrite E, E', inject_Z_plus.
  - intros a b a' b' [->|(z & -> & P & E)] [->|(z' & -> & P' & E')]; try (now left). destruct (sub_facts b b' P P') as [V C].
    eapply checked_holds; [|exact V|exact C]. unfold Z.sub. now rewrite E, E', inject_Z_plus, inject_Z_opp.
  - intros a b a' b' [->|(z & -> & P & E)] [->|(z' & -> & P' & E')]; try (now left). destruct (mul_facts b b' P P') as [V C].
    eapply checked_holds; [|exact V|exact C]. now rewrite E, E', inject_Z_mult.
  - intros a b [->|(z & -> & [V F] & E)]; [now left|]. cbn [oopp sops lift2]. destruct (checked_cases 54 (0 - z)) as [->| ->]; [now left|]. right. exists (0 - z). split; [reflexivity|]. cbn [oopp fops].
    split; [split; [now apply double_ops|destruct b; auto]|]. rewrite dval_opp, E. change (0 - z) with (- z). now rewrite inject_Z_opp.
  - intros n. destruct (checked 54 (Z.of_nat n)) as [a|] eqn:E; [|left; exact E]. right. apply checked_some in E as E'. destruct E' as [-> E']. exists (Z.of_nat n). split; [exact E|].
    apply natd_exact. unfold in_range in E'. change (54 - 1) with 53 in E'. lia.
Qed.
Theorem C106_doubles t : ring_agree (sops 54) (fops t) holds.
Proof. apply C106_ring, whole_ring. Qed.

(** ** Example *)
Definition d_of (z : Z) : double := binary_normalize prec64 emax64 z 0 false.
Definition wm : Matrix Z := mkM 2 2 [3; -7; 11; 1000003].
Lemma wm_holds : rmat holds (each Some wm) (each d_of wm).
Proof. repeat split. repeat (constructor; [right; eexists; split; [reflexivity|split; [split; reflexivity|reflexivity]]|]). constructor. Qed.
Definition wm2 : Matrix Z := mkM 2 2 [-68; -7000042; 11000066; 1000005999932].
Example C106_ex_doubles : powm (O := sops 54) (mb_of_mat (each Some wm)) 2 = Ok (each Some wm2) /\
  powm (O := fops tol6) (mb_of_mat (each d_of wm)) 2 = Ok (each d_of wm2).
Proof. split; vm_compute; reflexivity. Qed.
