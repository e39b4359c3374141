(** MatProg.v: programs over named matrices with expressions and output. *)
From Verif Require Export MatHist Linalg.

Section ProgModel.
Context {T : Type} {O : Ops T}.

(** Expressions.  A leaf is a named matrix or a view of it; every operator returns a new
    Matrix (a temporary). *)
Inductive expr :=
| EVar (y : nat) (p : vpath)
| EAdd (a b : expr)          (* a + b                       math.hpp:21-39 *)
| ESub (a b : expr)          (* a - b                       math.hpp:99-117 *)
| EMul (a b : expr)          (* a * b                       math.hpp:177-197 *)
| EEw (a b : expr)           (* element_wise_product(a, b)  math.hpp:1184-1187 *)
| EScale (a : expr) (s : T)  (* a * s                       math.hpp:204-215 *)
| ETrans (a : expr).         (* transpose(a)                linalg.hpp:22-32 *)

Inductive stmt :=
| SOp (c : @mop T)
| SLet (x : nat) (a : expr)  (* Matrix<T> x(a); *)
| SAssign (x : nat) (a : expr) (* x = a;  from a temporary: matrix.hpp:355-365 *)
| SDims (x : nat) (p : vpath). (* read rows() and cols() of x or a view of x *)

(** What a statement lets the caller see. *)
Inductive obs := Done | Threw | Val (v : T) | Dims (r c : nat).

(** Simplification: the left operand is evaluated first. *)
Fixpoint eval (e : menv) (a : expr) : Res (MB T) :=
  match a with
  | EVar y p => let* m := mlook e y in Ok (vmb p m)
  | EAdd a b => let* A := eval e a in let* B := eval e b in let* m := m_add A B in Ok (mb_of_mat m)
  | ESub a b => let* A := eval e a in let* B := eval e b in let* m := m_sub A B in Ok (mb_of_mat m)
  | EMul a b => let* A := eval e a in let* B := eval e b in let* m := m_mul A B in Ok (mb_of_mat m)
  | EEw a b => let* A := eval e a in let* B := eval e b in let* m := ew_product A B in Ok (mb_of_mat m)
  | EScale a s => let* A := eval e a in let* m := m_muls A s in Ok (mb_of_mat m)
  | ETrans a => let* A := eval e a in let* m := transpose A in Ok (mb_of_mat m)
  end.
(** The result as a new Matrix.  Simplification: a temporary is copied here, while C++
    may construct it in place (the contents are the same). *)
Definition evalm (e : menv) (a : expr) : Res (Matrix T) := let* A := eval e a in mat_of_mb A.

Definition pstep (e : menv) (s : stmt) : Res (@menv T * obs) :=
  match s with
  | SOp (MGet x p i j) => let* mx := mlook e x in let* v := mget (vmb p mx) i j in Ok (e, Val v)
  | SOp c => let* e := mstep e c in Ok (e, Done)
  | SLet x a => let* _ := mfresh e x in let* m := evalm e a in Ok (mbind e x (Some m), Done)
  | SAssign x (EVar y p) => let* e := mstep e (MAssign x y p) in Ok (e, Done)
  | SAssign x a =>
      let* mx := mlook e x in let* m := evalm e a in
      Ok (mbind e x (Some (fst (mat_move_assign mx m))), Done)
  | SDims x p => let* mx := mlook e x in Ok (e, Dims (mrows (vmb p mx)) (mcols (vmb p mx)))
  end.
(** Exceptions are caught; they are all thrown before anything is changed. *)
Fixpoint prun (e : menv) (cs : list stmt) : Res (@menv T * list obs) :=
  match cs with
  | nil => Ok (e, nil)
  | c :: cs =>
      match pstep e c with
      | Throw => let* (e, os) := prun e cs in Ok (e, Threw :: os)
      | r => let* (e, o) := r in let* (e, os) := prun e cs in Ok (e, o :: os)
      end
  end.
End ProgModel.
