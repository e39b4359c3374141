(** PropIntInvEx.v: examples for C104, and what goes wrong from order 5 on. *)
From Coq Require Import ZArith QArith Qabs Bool Lia Lqa SpecFloat List String.
From Verif Require Import Scalar Linalg LinalgFacts MatFacts Ints PropInt IntInv Float FloatIO IO PropFloat PropFloatIO FloatValid FloatArith PropFloatSum PropFloatDet PropIntInv.
Import ListNotations.
Local Open Scope nat_scope.

Definition imat (n : nat) (l : list Z) : MB (option Z) := mb_of_mat (mkM n n (map Some l)).
(** 2 1 / 1 1, continued by the identity: the determinant is 1. *)
Definition half5 : list Z := [2;1;0;0;0; 1;1;0;0;0; 0;0;1;0;0; 0;0;0;1;0; 0;0;0;0;1]%Z.
Definition at5 (l : list Z) (i j : nat) : Z := nth (i * 5 + j) l 0%Z.
(** From order 5 on the elimination divides integers, and 1 / 2 is 0: the determinant is wrong
    without any overflow, and so is the inverse: its last element is 1/2 instead of 1. *)
Theorem C104_order5_refuted : (qdet 5 (fracs (at5 half5)) == 1)%Q /\
  @determinant _ (sops 32) (imat 5 half5) = Ok (Some 2%Z) /\
  exists m, inverse_int 32 tol6 (imat 5 half5) = Ok m /\ mat_at m 4 4 = Ok (SFdiv prec64 emax64 one (z_double 2)).
Proof. split; [reflexivity|]. split; [reflexivity|]. eexists. split; [vm_compute; reflexivity|vm_compute; reflexivity]. Qed.

(** * The repository's own test (tests/test_math.cpp:6-77) *)
Definition lit (s : string) : double := match get_double (good s) with (Some d, _) => d | _ => nan end.
Definition test_a : list Z := [-77;43;81;-60;-33; -95;-40;14;41;13; 0;41;93;-89;-17; -60;1;-74;-53;69; -9;10;-89;30;-72]%Z.
Definition test_b : list Z := [67;38;34;88;28; 0;-12;-12;42;-69; 20;-54;15;-27;-20; 77;16;54;-18;18; -8;93;88;-40;-9]%Z.
(** tests/test_math.cpp:45-51, the recorded quotient. *)
Definition test_div : Matrix double := mkM 5 5 (map lit
  ["-0.724101333"; "0.959172965"; "-3.50660292"; "3.52737442"; "-3.30035297";
   "-3.87515054"; "3.01491411"; "-6.44053984"; "7.70150764"; "-2.09035033";
   "0.609014897"; "0.368501698"; "-1.70527853"; "-0.311900352"; "-2.16473747";
   "1.87805156"; "1.93870341"; "2.98797968"; "-0.462939925"; "1.27233358";
   "2.98660079"; "-4.03525548"; "5.63094744"; "-3.59205073"; "1.89608685"]%string).
(** The exact quotient is test_n divided by the determinant of b. *)
Definition test_det : Z := (-2443504650)%Z.
Definition test_n : list Z := [-759571095;1006157600;-3678372210;3700161195;-3462019200; -4064972955;3162598250;-6756026640;8078762355;-2192745150;
  638847204;386552580;-1788810798;-327178644;-2270776110; 1970047029;2033669880;3134344452;-485616819;1334658240; 3132898017;-4232920560;5906776746;-3768005637;1988965770]%Z.
(** The test divides two 5 x 5 matrices of int.  The determinant of b overflows, which is undefined;
    with wrapping arithmetic the test passes, but the values it expects are those of the wrapped
    determinant of a wrong elimination: the first is negative, and that of the exact quotient
    positive. *)
Theorem C104_test_refuted :
  (qdet 5 (fracs (at5 test_b)) == inject_Z test_det)%Q /\
  (forall i j, i < 5 -> j < 5 -> (qsum 5 (fun k => inject_Z (at5 test_n i k) / inject_Z test_det * inject_Z (at5 test_b k j)) == inject_Z (at5 test_a i j))%Q) /\
  div_int 32 tol6 (imat 5 test_a) (imat 5 test_b) = UB /\
  @determinant _ (sops 64) (imat 5 test_b) = Ok (Some (-3245982768)%Z) /\
  @determinant _ (wops 32) (imat 5 test_b) = Ok (Some 1048984528%Z) /\
  (exists m e, div_in (wops 32) tol6 (imat 5 test_a) (imat 5 test_b) = Ok m /\ @m_eq _ (fops tol6) (mb_of_mat m) (mb_of_mat test_div) = Ok e /\ @all_m _ boolops (mb_of_mat e) = Ok true) /\
  (dval (lit "-0.724101333") < 0)%Q /\ (0 < inject_Z (at5 test_n 0 0) / inject_Z test_det)%Q.
Proof.
  split; [vm_compute; reflexivity|]. split.
  { intros i j Hi Hj. do 5 (destruct i as [|i]; [do 5 (destruct j as [|j]; [vm_compute; reflexivity|]); lia|]); lia. }
  split; [vm_compute; reflexivity|]. split; [vm_compute; reflexivity|]. split; [vm_compute; reflexivity|].
  split; [eexists; eexists; split; [vm_compute; reflexivity|split; vm_compute; reflexivity]|]. split; vm_compute; reflexivity.
Qed.

(** * Examples *)
(** For int: elements up to 32767, 709 and 97 at orders 2, 3 and 4. *)
Example C104_limits : (Z.of_nat (Factorial.fact 2) * 32767 ^ 2 < 2 ^ (32 - 1))%Z /\ (Z.of_nat (Factorial.fact 3) * 709 ^ 3 < 2 ^ (32 - 1))%Z /\ (Z.of_nat (Factorial.fact 4) * 97 ^ 4 < 2 ^ (32 - 1))%Z.
Proof. vm_compute. repeat split. Qed.
Definition at2 (l : list Z) (i j : nat) : Z := nth (i * 2 + j) l 0%Z.
Lemma imat2 l : List.length l = 4 -> readsL (imat 2 l) 2 2 (ints (at2 l)).
Proof.
  intros H. destruct l as [|a [|b [|c [|d [|]]]]]; try discriminate H. apply is_mat_readsL.
  assert (S2 : shape_ok 2 2) by (repeat split; now vm_compute).
  pose proof (wf_is_mat (Some 0%Z) (mkM 2 2 (map Some [a; b; c; d])) (conj S2 eq_refl)) as M. eapply is_mat_ext; [exact M|].
  intros [|[|i]] [|[|j]] Hi Hj; try lia; reflexivity.
Qed.
Example C104_ex : inverse_int 32 tol6 (imat 2 [2; 1; 1; 3]%Z) =
    Ok (mkM 2 2 [SFdiv prec64 emax64 (z_double 3) (z_double 5); SFdiv prec64 emax64 (z_double (-1)) (z_double 5); SFdiv prec64 emax64 (z_double (-1)) (z_double 5); SFdiv prec64 emax64 (z_double 2) (z_double 5)]) /\
  inverse_int 32 tol6 (imat 2 [1; 2; 2; 4]%Z) = Ok mat_empty /\
  @adjoint _ (sops 32) (imat 2 [2; 1; 1; 3]%Z) = Ok (mkM 2 2 (map Some [3; -1; -1; 2]%Z)) /\
  div_int 32 tol6 (imat 2 [4; 2; 3; 9]%Z) (imat 2 [2; 1; 1; 3]%Z) <> Throw /\ div_int 32 tol6 (imat 2 [4; 2; 3; 9]%Z) (imat 2 [1; 2; 2; 4]%Z) = Throw.
Proof. vm_compute. repeat split. discriminate. Qed.
Example C104_inverse_ex : exists m g h, inverse_int 32 tol6 (imat 2 [2; 1; 1; 3]%Z) = Ok m /\ is_mat m 2 2 g /\
  inverse_of 2 (fracs (at2 [2; 1; 1; 3]%Z)) h /\ (forall i j, i < 2 -> j < 2 -> correctly_rounded (h i j) (g i j)).
Proof.
  destruct (C104_inverse 32 tol6 tol6_small (imat 2 [2; 1; 1; 3]%Z) 2 (at2 [2; 1; 1; 3]%Z) 3 (imat2 [2; 1; 1; 3]%Z eq_refl) ltac:(lia) ltac:(lia)) as [_ H].
  - intros [|[|i]] [|[|j]] Hi Hj; try lia; vm_compute; discriminate.
  - vm_compute. reflexivity.
  - vm_compute. discriminate.
  - destruct H as (m & g & E & Hm & h & Hh & R); [vm_compute; discriminate|]. exists m, g, h. auto.
Qed.
