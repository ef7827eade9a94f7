(** * Model of problem.cc: the operators that write constraints *)

From Coq Require Import Ascii String.
From Verif Require Import Num Solver Api.

Section problem.
  (** [show]: the text clingo writes for a symbol *)
  Context {Sym : Type} (show : Sym -> list ascii).

  (** operator<< for Relation, problem.cc 24-48. *)
  Definition write_rel (r : rel) : list ascii :=
    match r with
    | Rle => ["<"; "="]%char
    | Rge => [">"; "="]%char
    | Req => ["="]%char
    | Rlt => ["<"]%char
    | Rgt => [">"]%char
    end.
  (** operator<< for Term, problem.cc 50-58. *)
  Definition write_term (t : Qc * Sym) : list ascii :=
    (if Qc_eq_bool t.1 (-(1))%Qc then ["-"%char] else if negb (Qc_eq_bool t.1 1) then print_rat t.1 ++ ["*"%char] else []) ++ show t.2.
  (** The loop of operator<< for Inequality, problem.cc 61-69; [plus]: the
      local variable of that name. *)
  Fixpoint write_terms (plus : bool) (ts : list (Qc * Sym)) : list ascii :=
    match ts with
    | [] => []
    | t :: ts' => (if plus then [" "; "+"; " "]%char else []) ++ write_term t ++ write_terms true ts'
    end.
  (** operator<< for Inequality, problem.cc 60-75.  The literal is not written. *)
  Definition write_ineq (q : ineq Sym) : list ascii :=
    write_terms false (q_lhs q) ++ (match q_lhs q with [] => ["0"%char] | _ => [] end) ++ [" "%char] ++ write_rel (q_rel q) ++ [" "%char] ++ print_rat (q_rhs q).
End problem.
