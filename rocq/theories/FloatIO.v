(** FloatIO.v: text input/output of doubles, for io.hpp with element type [double].
    The formats are the C and C++ standards': [os << x] in the default float format is
    printf("%.*g") with the stream's precision (6 unless the user changed it), [is >> x]
    is std::num_get, which collects characters and calls strtod.  Both conversions are
    correctly rounded (as in glibc), ties to even.  "C" locale.  There is one NaN and its
    sign is not printed. *)
From Coq Require Import ZArith String Ascii SpecFloat.
From Verif Require Import Mat IO Float FloatRound.
Local Open Scope string_scope.
Local Open Scope Z_scope.

(** * Output: %g *)
(** Number of decimal digits, 0 for 0; [fuel] is at least that number. *)
Fixpoint ndig (fuel : nat) (n : Z) : nat :=
  match fuel with
  | O => O
  | S fuel' => if n =? 0 then O else S (ndig fuel' (n / 10))
  end.
Definition ndigits (n : Z) : Z := Z.of_nat (ndig (Z.to_nat (Z.log2_up n + 1)) n).
(** The integer nearest to n/d, ties to even. *)
Definition rne (n d : Z) : Z :=
  let q := n / d in
  match (2 * (n mod d) ?= d) with Lt => q | Gt => q + 1 | Eq => if Z.even q then q else q + 1 end.
(** a/b > 0 to p >= 1 significant decimal digits: the p-digit integer and the exponent of
    its first digit. *)
Definition sci_digits (p : nat) (a b : Z) : Z * Z :=
  let X := if b <=? a then ndigits (a / b) - 1 else - ndigits ((b - 1) / a) in
  let s := Z.of_nat p - 1 - X in
  let D := if 0 <=? s then rne (a * 10 ^ s) b else rne a (b * 10 ^ (- s)) in
  if D =? 10 ^ Z.of_nat p then (10 ^ (Z.of_nat p - 1), X + 1) else (D, X).
(** Drop up to f trailing zeros of d: the number of decimals left, and d without them. *)
Fixpoint strip (f : nat) (d : Z) : nat * Z :=
  match f with
  | O => (O, d)
  | S f' => if d mod 10 =? 0 then strip f' (d / 10) else (f, d)
  end.
Definition digit_char (d : Z) : ascii := ascii_of_nat (48 + Z.to_nat d).
(** d < 10^f with exactly f digits. *)
Fixpoint pad (f : nat) (d : Z) : string :=
  match f with
  | O => ""
  | S f' => String (digit_char (d / 10 ^ Z.of_nat f')) (pad f' (d mod 10 ^ Z.of_nat f'))
  end.
(** d / 10^f with f decimals; no decimal point when f = 0. *)
Definition point (fd : nat * Z) : string :=
  let '(f, d) := fd in
  show_N (Z.to_N (d / 10 ^ Z.of_nat f)) ++ (match f with O => "" | _ => "." ++ pad f (d mod 10 ^ Z.of_nat f) end).
(** An exponent has at least two digits. *)
Definition show_exp (X : Z) : string :=
  (if X <? 0 then "e-" else "e+") ++ (if Z.abs X <? 10 then "0" else "") ++ show_N (Z.to_N (Z.abs X)).
(** The text of a positive number from its digits: fixed notation when -4 <= X < p. *)
Definition show_digits (p : nat) (DX : Z * Z) : string :=
  let '(D, X) := DX in
  if (-4 <=? X) && (X <? Z.of_nat p) then point (strip (Z.to_nat (Z.of_nat p - 1 - X)) D)
  else point (strip (p - 1) D) ++ show_exp X.
(** The finite number m * 2^e as a fraction. *)
Definition fnum (m : positive) (e : Z) : Z := if 0 <=? e then Zpos m * 2 ^ e else Zpos m.
Definition fden (e : Z) : Z := if 0 <=? e then 1 else 2 ^ (- e).
Definition show_sign (plus s : bool) : string := if s then "-" else if plus then "+" else "".
(** [os << x] (io.hpp:35, 59, 81, 108, 133); [P]: os.precision() (0 counts as 1), [plus]: showpos. *)
Definition show_double (plus : bool) (P : nat) (x : double) : string :=
  match x with
  | S754_nan => "nan"
  | S754_infinity s => show_sign plus s ++ "inf"
  | S754_zero s => show_sign plus s ++ "0"
  | S754_finite s m e => let p := Nat.max P 1 in show_sign plus s ++ show_digits p (sci_digits p (fnum m e) (fden e))
  end.

(** * Input: strtod of the decimal n * 10^k *)
Definition read_decimal (neg : bool) (n k : Z) : double :=
  if n =? 0 then S754_zero neg
  else if 0 <=? k then round_rat prec64 emax64 neg (n * 10 ^ k) 1
  else round_rat prec64 emax64 neg n (10 ^ (- k)).
(** The largest double. *)
Definition max_double (s : bool) : double := S754_finite s (2 ^ 53 - 1) 971.
(** An exponent part, if there is one: its value; [None]: an "e" without digits. *)
Definition scan_exp (t : string) : option Z * string :=
  match t with
  | String c t1 =>
      if Ascii.eqb c "e" || Ascii.eqb c "E" then
        let (neg, t2) := scan_sign t1 in
        let '(n, any, t3) := scan t2 0 false in
        ((if any then Some (if neg then - Z.of_N n else Z.of_N n) else None), t3)
      else (Some 0, t)
  | "" => (Some 0, "")
  end.
(** [is >> x] (io.hpp:178, 207): sign, digits, point, digits, exponent.  0 and failbit when that is no
    number, the largest double and failbit on overflow; [None]: x is not assigned.
    Hexadecimal floats, "inf" and "nan" are not accepted (libstdc++). *)
Definition get_double (s : istream) : option double * istream :=
  match sentry s with
  | (Some t, _) =>
      let (neg, t1) := scan_sign t in
      let '(n1, any1, t2) := scan t1 0 false in
      let '(n2, any2, t3, f) :=
        match t2 with
        | String c t2' =>
            if Ascii.eqb c "." then let '(n, any, t3) := scan t2' n1 any1 in (n, any, t3, Z.of_nat (String.length t2' - String.length t3))
            else (n1, any1, t2, 0)
        | "" => (n1, any1, t2, 0)
        end in
      if negb any2 then (Some (S754_zero false), mkIn t3 true (String.eqb t3 ""))
      else let '(x, t4) := scan_exp t3 in
           let e := String.eqb t4 "" in
           match x with
           | None => (Some (S754_zero false), mkIn t4 true e)
           | Some x =>
               match read_decimal neg (Z.of_N n2) (x - f) with
               | S754_infinity b => (Some (max_double b), mkIn t4 true e)
               | y => (Some y, mkIn t4 false e)
               end
           end
  | (None, s') => (None, s')
  end.

(** * io.hpp: input, for an element type read by [get] *)
Section Input.
Context {T : Type} {O : Ops T}.
Variable get : istream -> option T * istream.
(** [lhs >> rhs[i]] on the buffer of a Vector. *)
Definition gin_elem (i : nat) (st : list T * istream) : Res (list T * istream) :=
  match get (snd st) with
  | (Some z, s) => let* d := lset (fst st) i z in Ok (d, s)
  | (None, s) => if (i <? length (fst st))%nat then Ok (fst st, s) else UB
  end.
(** io.hpp:161-181, as [IO.read_v]. *)
Definition gread_v (v : list T) (s : istream) : Res (list T * istream) :=
  match get_char s with
  | (None, _) => UB
  | (Some type, s) =>
      if negb (Ascii.eqb type "V") then Ok (v, s)
      else match get_size s with
      | (None, _) => UB
      | (Some size, s) =>
          let* v := vec_allocate v (N.to_nat size) in
          for_range 0 (length v) gin_elem (v, s)
      end
  end.
(** io.hpp:188-211, as [IO.read_m]. *)
Definition gread_m (m : Matrix T) (s : istream) : Res (Matrix T * istream) :=
  match get_char s with
  | (None, _) => UB
  | (Some type, s) =>
      if negb (Ascii.eqb type "M") then Ok (m, s)
      else match get_size s with
      | (None, _) => UB
      | (Some r, s) =>
          match get_size s with
          | (None, _) => UB
          | (Some c, s) =>
              let* m := mat_resize m (N.to_nat r) (N.to_nat c) in
              for_range 0 (rows m) (fun r st =>
                for_range 0 (cols m) (fun c (st : Matrix T * istream) =>
                  let* st' := gin_elem (mat_idx (fst st) r c) (data (fst st), snd st) in
                  Ok (mkM (rows (fst st)) (cols (fst st)) (fst st'), snd st')) st) (m, s)
          end
      end
  end.
End Input.
(** They are the functions of IO.v when the elements are integers. *)
Lemma gread_v_int {O : Ops Z} lo hi v s : gread_v (get_int lo hi) v s = read_v lo hi v s.
Proof. reflexivity. Qed.
Lemma gread_m_int {O : Ops Z} lo hi m s : gread_m (get_int lo hi) m s = read_m lo hi m s.
Proof. reflexivity. Qed.
