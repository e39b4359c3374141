(** IO.v: model of io.hpp.
    Output: a function gives the text that the C++ operator appends to the stream
    (a stream that never fails; fill character ' ', right adjustment: the defaults).
    Input: the text still to be read and the stream's fail/eof bits.  Text in the "C"
    locale.  What is written to std::cerr is not modelled. *)
From Coq Require Import String Ascii DecimalString.
From Verif Require Import Mat.
Local Open Scope string_scope.
Local Open Scope nat_scope.

(** "\n" *)
Definition nl : string := String (ascii_of_nat 10) "".

(** * The parts of the standard library that io.hpp uses *)

(** [ostream << n] for an unsigned n: decimal digits. *)
Definition show_N (n : N) : string := NilZero.string_of_uint (N.to_uint n).
Definition show_nat (n : nat) : string := show_N (N.of_nat n).
(** [ostream << z] for a signed z; [plus]: the stream has the showpos flag. *)
Definition show_Z (plus : bool) (z : Z) : string :=
  (if plus && (0 <=? z)%Z then "+" else "") ++ NilZero.string_of_int (Z.to_int z).
Fixpoint spaces (n : nat) : string := match n with O => "" | S n' => String " " (spaces n') end.
(** [ostream << setw(w) << x] where x's text is s. *)
Definition setw (w : nat) (s : string) : string := spaces (w - String.length s) ++ s.

Record istream := mkIn { rest : string; failbit : bool; eofbit : bool }.
(** A stream in good state. *)
Definition good (t : string) : istream := mkIn t false false.
(** isspace in the "C" locale. *)
Definition isspace (c : ascii) : bool :=
  let n := nat_of_ascii c in (n =? 32) || ((9 <=? n) && (n <=? 13)).
Fixpoint skipws (t : string) : string :=
  match t with String c t' => if isspace c then skipws t' else t | "" => "" end.
(** The sentry that every [>>] constructs: [None] when the extraction does not start
    (stream not good, or only white space left), which sets failbit. *)
Definition sentry (s : istream) : option string * istream :=
  if failbit s || eofbit s then (None, mkIn (rest s) true (eofbit s))
  else match skipws (rest s) with
       | "" => (None, mkIn "" true true)
       | t => (Some t, mkIn t false false)
       end.
(** [>> char]; [None]: the variable is not assigned. *)
Definition get_char (s : istream) : option ascii * istream :=
  match sentry s with
  | (Some (String c t), _) => (Some c, good t)
  | (_, s') => (None, s')
  end.
Definition digit (c : ascii) : option N :=
  let n := nat_of_ascii c in if (48 <=? n) && (n <=? 57) then Some (N.of_nat (n - 48)) else None.
(** Consume decimal digits: value, whether there was at least one, remaining text. *)
Fixpoint scan (t : string) (acc : N) (any : bool) : N * bool * string :=
  match t with
  | "" => (acc, any, "")
  | String c t' => match digit c with Some d => scan t' (10 * acc + d)%N true | None => (acc, any, t) end
  end.
(** An optional sign. *)
Definition scan_sign (t : string) : bool * string :=
  match t with
  | String c t' => if Ascii.eqb c "-" then (true, t') else if Ascii.eqb c "+" then (false, t') else (false, t)
  | "" => (false, "")
  end.
(** [>> x] for a signed integer type with values lo..hi (std::num_get): 0 and failbit
    when there are no digits, the nearest bound and failbit when out of range; eofbit
    when the end was reached.  [None]: x is not assigned. *)
Definition get_int (lo hi : Z) (s : istream) : option Z * istream :=
  match sentry s with
  | (Some t, _) =>
      let (neg, t1) := scan_sign t in
      let '(n, any, t2) := scan t1 0 false in
      let e := String.eqb t2 "" in
      if negb any then (Some 0%Z, mkIn t2 true e)
      else let z := if neg then (- Z.of_N n)%Z else Z.of_N n in
           if (z <? lo)%Z then (Some lo, mkIn t2 true e)
           else if (hi <? z)%Z then (Some hi, mkIn t2 true e)
           else (Some z, mkIn t2 false e)
  | (None, s') => (None, s')
  end.
(** [>> n] for a size_t n: as above; a minus sign negates modulo 2^64. *)
Definition get_size (s : istream) : option N * istream :=
  match sentry s with
  | (Some t, _) =>
      let (neg, t1) := scan_sign t in
      let '(n, any, t2) := scan t1 0 false in
      let e := String.eqb t2 "" in
      if negb any then (Some 0%N, mkIn t2 true e)
      else if (size_max <? n)%N then (Some size_max, mkIn t2 true e)
      else (Some (if neg then ((two64 - n) mod two64)%N else n), mkIn t2 false e)
  | (None, s') => (None, s')
  end.

(** * io.hpp: output.
    [sh]: the text of an element on the stream; [sh0]: its text on the fresh
    stringstream of get_longhest_value, which has the stream's precision but none of
    its other flags. *)
Section Output.
Context {T : Type}.
Variables (sh sh0 : T -> string).

(** io.hpp:28-42; [n] is data.size() and [g] data[i].  Lengths are below 2^31. *)
Definition get_longhest_value (n : nat) (g : nat -> Res T) : Res nat :=
  for_range 0 n (fun i longhest =>
    let* x := g i in
    let length := String.length (sh0 x) in
    Ok (if longhest <? length then length else longhest)) 0.
(** The loop of io.hpp:58-63 and 107-112. *)
Definition out_elems (w : nat) (v : list T) : Res string :=
  for_range 0 (length v) (fun i s =>
    let* x := lget v i in
    let s := s ++ setw w (sh x) in
    Ok (if i <? sub64 (length v) 1 then s ++ " " else s)) "".
(** The loop of io.hpp:79-89 and 131-141. *)
Definition out_rows (w : nat) (A : MB T) : Res string :=
  for_range 0 (mrows A) (fun r s =>
    let* s := for_range 0 (mcols A) (fun c s =>
      let* x := mget A r c in
      let s := s ++ setw w (sh x) in
      Ok (if c <? sub64 (mcols A) 1 then s ++ " " else s)) s in
    Ok (if r <? sub64 (mrows A) 1 then s ++ nl else s)) "".
(** io.hpp:51-65 [ostream << Vector]. *)
Definition print_v (v : list T) : Res string :=
  let* w := get_longhest_value (length v) (lget v) in out_elems w v.
(** io.hpp:72-91 [ostream << MatrixBase]. *)
Definition print_m (A : MB T) : Res string :=
  let* w := get_longhest_value (msize A) (mlin A) in out_rows w A.
(** io.hpp:98-115 [ofstream << Vector]. *)
Definition write_v (v : list T) : Res string :=
  let* w := get_longhest_value (length v) (lget v) in
  let* s := out_elems w v in
  Ok ("V " ++ show_nat (length v) ++ nl ++ s ++ nl).
(** io.hpp:122-144 [ofstream << MatrixBase]. *)
Definition write_m (A : MB T) : Res string :=
  let* w := get_longhest_value (msize A) (mlin A) in
  let* s := out_rows w A in
  Ok ("M " ++ show_nat (mrows A) ++ " " ++ show_nat (mcols A) ++ nl ++ s ++ nl).
(** io.hpp:257-262. *)
Definition dump_vector (name : string) (v : list T) : Res string :=
  let* s := print_v v in Ok (name ++ " = " ++ s).
(** io.hpp:269-275. *)
Definition dump_matrix (name : string) (A : MB T) : Res string :=
  let* s := print_m A in Ok (name ++ " = " ++ nl ++ s).
(** io.hpp:282-294; [sh] on a default stringstream. *)
Definition to_matlab_v (name : string) (v : list T) : Res string :=
  let* s := for_range 0 (length v) (fun i s =>
    let* x := lget v i in
    let s := s ++ sh x in
    Ok (if i <? sub64 (length v) 1 then s ++ " " else s)) (name ++ " = [") in
  Ok (s ++ "]").
(** io.hpp:301-321; for complex elements [sh] is real part, imaginary part with
    showpos, "i" (lines 308-310). *)
Definition to_matlab_m (name : string) (A : MB T) : Res string :=
  let* s := for_range 0 (mrows A) (fun r s =>
    let* s := for_range 0 (mcols A) (fun c s =>
      let* x := mget A r c in
      let s := s ++ sh x in
      Ok (if c <? sub64 (mcols A) 1 then s ++ " " else s)) (s ++ "[") in
    Ok (s ++ "];")) (name ++ " = [") in
  Ok (s ++ "]").
End Output.
(** Lines 308-310 for std::complex elements given as (real, imaginary). *)
Definition show_cplx (z : Z * Z) : string := show_Z false (fst z) ++ show_Z true (snd z) ++ "i".
(** io.hpp:150-154 [ostream << Range]. *)
Definition print_range (r : Range) : string := "[" ++ show_nat (start r) ++ ", " ++ show_nat (stop r) ++ "]".

(** A full expression [f << x1 << x2 << ...]; [file]: the static type of the left
    operand is std::ofstream&.  The Vector and Matrix operators return the type they
    got; every other operator<< returns std::ostream&, for which the untagged
    operators (io.hpp:51-91) are selected. *)
Inductive witem :=
| WVec (v : list Z) | WMat (A : MB Z) | WText (t : string).
Fixpoint write_chain (file : bool) (l : list witem) : Res string :=
  match l with
  | nil => Ok ""
  | WVec v :: l' =>
      let* s := (if file then write_v (show_Z false) (show_Z false) v else print_v (show_Z false) (show_Z false) v) in
      let* s' := write_chain file l' in Ok (s ++ s')
  | WMat A :: l' =>
      let* s := (if file then write_m (show_Z false) (show_Z false) A else print_m (show_Z false) (show_Z false) A) in
      let* s' := write_chain file l' in Ok (s ++ s')
  | WText t :: l' => let* s' := write_chain false l' in Ok (t ++ s')
  end.

(** * io.hpp: input of integer elements with values lo..hi *)
Section Input.
Context {O : Ops Z}.
Variables (lo hi : Z).
(** [lhs >> rhs[i]] on the buffer of a Vector. *)
Definition in_elem (i : nat) (st : list Z * istream) : Res (list Z * istream) :=
  match get_int lo hi (snd st) with
  | (Some z, s) => let* d := lset (fst st) i z in Ok (d, s)
  | (None, s) => if i <? length (fst st) then Ok (fst st, s) else UB
  end.
(** io.hpp:161-181.  [type] and [size] are not initialised: using them when the
    extraction did not start is UB. *)
Definition read_v (v : list Z) (s : istream) : Res (list Z * istream) :=
  match get_char s with
  | (None, _) => UB
  | (Some type, s) =>
      if negb (Ascii.eqb type "V") then Ok (v, s)
      else match get_size s with
      | (None, _) => UB
      | (Some size, s) =>
          let* v := vec_allocate v (N.to_nat size) in
          for_range 0 (length v) in_elem (v, s)
      end
  end.
(** io.hpp:188-211. *)
Definition read_m (m : Matrix Z) (s : istream) : Res (Matrix Z * istream) :=
  match get_char s with
  | (None, _) => UB
  | (Some type, s) =>
      if negb (Ascii.eqb type "M") then Ok (m, s)
      else match get_size s with
      | (None, _) => UB
      | (Some r, s) =>
          match get_size s with
          | (None, _) => UB
          | (Some c, s) =>
              let* m := mat_resize m (N.to_nat r) (N.to_nat c) in
              for_range 0 (rows m) (fun r st =>
                for_range 0 (cols m) (fun c (st : Matrix Z * istream) =>
                  let* st' := in_elem (mat_idx (fst st) r c) (data (fst st), snd st) in
                  Ok (mkM (rows (fst st)) (cols (fst st)) (fst st'), snd st')) st) (m, s)
          end
      end
  end.
End Input.
