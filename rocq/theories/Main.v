(** * The applications (app/src/main.cc, libpyclingo-lpx/clingolpx/__main__.py): printing of answers

    The order of symbols and how clingo writes them are parameters of the model. *)

From Coq Require Import Ascii String.
From Verif Require Import Num Solver Propagator Parsing Api.

Section app.
  Context {V} {IV : Value V}.
  (** operator<< for values (Api.v: print_rat or print_ratq) *)
  Context (pv : V -> list ascii).
  (** operator<< for Clingo::Symbol, or str(symbol) *)
  Context (show : symbol -> list ascii).
  (** std::sort with operator< for symbols, or sorted *)
  Context (srt : list symbol -> list symbol).

  (** extend_model, clingo-lpx.cc 171-191: the symbols given to model.extend *)
  Definition lpx_atom (x : symbol) (v : V) : symbol := SFun "__lpx" [x; SStr (string_of_list_ascii (pv v))] true.
  Definition objective_atom (v : V) (b : bool) : symbol :=
    SFun "__lpx_objective" [SStr (string_of_list_ascii (pv v)); SNum (if b then 1 else 0)%Z] true.
  Definition extension (p : propagator V symbol) (t : nat) : res (list symbol) :=
    '(l, obj) ← extend_model p t;
    Ok (map (fun '(x, v) => lpx_atom x v) l ++ match obj with Some (v, b) => [objective_atom v b] | None => [] end).

  (** Symbol::match of clingo.hh: name and number of arguments; Python's match
      also wants a positive sign *)
  Definition smatch (s : symbol) (n : string) (k : nat) : bool :=
    match s with SFun m l _ => String.eqb m n && (length l =? k) | _ => false end.
  Definition py_match (s : symbol) (n : string) (k : nat) : bool :=
    match s with SFun m l pos => String.eqb m n && (length l =? k) && pos | _ => false end.
  Definition sargs (s : symbol) : list symbol := match s with SFun _ l _ => l | _ => [] end.

  (** newline and space *)
  Definition nl : list ascii := ["010"%char].
  Definition sp : list ascii := [" "%char].
  Notation text s := (list_ascii_of_string s).

  (** main.cc 71-79: the loop over the shown symbols *)
  Fixpoint print_shown (comma : bool) (l : list symbol) : list ascii :=
    match l with [] => [] | s :: r => (if comma then sp else []) ++ show s ++ print_shown true r end.
  (** main.cc 85-100: the loop over the theory symbols; what is printed and the objective.
      back() and front() of an empty vector do not occur because of match. *)
  Fixpoint print_assignment (comma : bool) (obj : option (string * bool)) (l : list symbol) : list ascii * option (string * bool) :=
    match l with
    | [] => ([], obj)
    | s :: r =>
        match smatch s "__lpx" 2, sargs s with
        | true, [x; SStr v] => let '(o, ob) := print_assignment true obj r in ((if comma then sp else []) ++ show x ++ text "=" ++ text v ++ o, ob)
        | _, _ =>
            match smatch s "__lpx_objective" 2, sargs s with
            | true, [SStr v; SNum z] => print_assignment comma (Some (v, (z =? 1)%Z)) r
            | _, _ => print_assignment comma obj r
            end
        end
    end.
  (** print_model, main.cc 66-107 *)
  Definition print_model (shown theory : list symbol) : list ascii :=
    let '(o, ob) := print_assignment false None (srt theory) in
    print_shown false (srt shown) ++ nl ++ text "Assignment:" ++ nl ++ o ++
    match ob with Some (v, b) => nl ++ text "Optimization: " ++ text v ++ text " [" ++ text (if b : bool then "bounded" else "unbounded") ++ text "]" | None => [] end ++ nl.

  (** __main__.py 48-67: None if args[1].string raises *)
  Fixpoint join (l : list (list ascii)) : list ascii :=
    match l with [] => [] | [x] => x | x :: r => x ++ sp ++ join r end.
  Fixpoint py_assignment (l : list symbol) : option (list (list ascii)) :=
    match l with
    | [] => Some []
    | s :: r =>
        if py_match s "__lpx" 2 then
          match sargs s with
          | [x; SStr v] => match py_assignment r with Some o => Some ((show x ++ text "=" ++ text v) :: o) | None => None end
          | _ => None
          end
        else py_assignment r
    end.
  Definition py_print_model (shown theory : list symbol) : option (list ascii) :=
    match py_assignment (srt theory) with
    | Some o => Some (join (map show (srt shown)) ++ nl ++ text "Assignment:" ++ nl ++ join o ++ nl)
    | None => None
    end.
End app.
