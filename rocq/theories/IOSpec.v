(** IOSpec.v: the vocabulary of the input/output theorems. *)
From Coq Require Import String Ascii.
From Verif Require Import Mat Spec IO.
Local Open Scope string_scope.
Local Open Scope nat_scope.

(** Only white space. *)
Fixpoint blank (s : string) : Prop :=
  match s with "" => True | String c s' => isspace c = true /\ blank s' end.
(** The number of characters of the longest text. *)
Definition longest (l : list string) : nat := list_max (map String.length l).
(** [n] texts, separated by [sep]; [concat] is Coq's String.concat. *)
Definition joined (sep : string) (n : nat) (t : nat -> string) : string := String.concat sep (map t (seq 0 n)).
(** All elements of an r x c matrix function, row by row. *)
Definition elems {T} (r c : nat) (f : nat -> nat -> T) : list T :=
  flat_map (fun i => map (fun j => f i j) (seq 0 c)) (seq 0 r).
(** Values of a signed integer type. *)
Definition in_range (lo hi : Z) (z : Z) : Prop := (lo <= z <= hi)%Z.
(** The text goes on with something that is not a digit. *)
Definition nodigit (t : string) : Prop := match t with "" => False | String c _ => digit c = None end.
(** [toks p l s r]: the text [s] is the numbers [l], each preceded by white space (none is
    needed for the first), then white space and [r]. *)
Inductive toks (p : bool) : list Z -> string -> string -> Prop :=
| toks_nil w r : blank w -> toks p nil (w ++ r) r
| toks_cons w z l s r : blank w -> nodigit s -> toks p l s r -> toks p (z :: l) (w ++ show_Z p z ++ s) r.
