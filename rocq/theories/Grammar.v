(** * Registration and the theory grammar (parsing.hh 8-55, clingo-lpx.cc 117-138, 342-354)

    The texts THEORY and THEORY_Q are data for clingo's parser of theory terms,
    which is not part of the repository; its rules (operators with a larger
    priority bind stronger, the associativity of the operator to the right
    decides between equal ones) are restated here. *)

From Verif Require Import Num Solver Propagator Parsing Api.

(** ** Theory definitions *)
Record opdef := OpDef { od_op : string; od_prio : nat; od_unary : bool; od_left : bool }.
Inductive placement := Head | Directive.
Record atomdef := AtomDef { ad_name : string; ad_term : string; ad_guard : option (list string * string); ad_place : placement }.
Record theorydef := TheoryDef { td_terms : list (string * list opdef); td_atoms : list atomdef }.

Section definitions.
Local Open Scope string_scope.
(** parsing.hh 9-15 and 35-41 *)
Definition sum_ops : list opdef :=
  [OpDef "+" 1 false true; OpDef "-" 1 false true; OpDef "*" 2 false true; OpDef "/" 2 false true; OpDef "-" 3 true true].
(** parsing.hh 16-23 and 42-49 *)
Definition dom_ops : list opdef :=
  [OpDef ".." 0 false true; OpDef "+" 1 false true; OpDef "-" 1 false true; OpDef "*" 2 false true; OpDef "/" 2 false true; OpDef "-" 3 true true].
(** parsing.hh 7-31 *)
Definition THEORY : theorydef := TheoryDef [("sum_term", sum_ops); ("dom_term", dom_ops)]
  [ AtomDef "minimize" "sum_term" None Directive;
    AtomDef "maximize" "sum_term" None Directive;
    AtomDef "sum" "sum_term" (Some (["<="; "="; ">="], "sum_term")) Head;
    AtomDef "diff" "sum_term" (Some (["<="; "="; ">="], "sum_term")) Head;
    AtomDef "dom" "dom_term" (Some (["="], "dom_term")) Head ].
(** parsing.hh 33-57 *)
Definition THEORY_Q : theorydef := TheoryDef [("sum_term", sum_ops); ("dom_term", dom_ops)]
  [ AtomDef "minimize" "sum_term" None Directive;
    AtomDef "maximize" "sum_term" None Directive;
    AtomDef "sum" "sum_term" (Some (["<="; "="; ">="; "<"; ">"], "sum_term")) Head;
    AtomDef "diff" "sum_term" (Some (["<="; "="; ">="; "<"; ">"], "sum_term")) Head;
    AtomDef "dom" "dom_term" (Some (["="], "dom_term")) Head ].
End definitions.

(** ** clingolpx_register, clingo-lpx.cc 342-351, and the constructor of the
    facade, 119-131: the value type, the grammar and whether clingo is given the
    callback decide. *)
Inductive value_type := TRational | TRationalQ.
Record registration := Registration { rg_value : value_type; rg_theory : theorydef; rg_options : options; rg_decide : bool }.
Definition facade (vt : value_type) (g : theorydef) (o : options) : registration :=
  Registration vt g o (match o_select o with SelectNone => false | _ => true end).
Definition clingolpx_register (t : theory) : registration :=
  if negb (t_strict t) then facade TRational THEORY (t_opts t) else facade TRationalQ THEORY_Q (t_opts t).

(** ** clingo's parser for theory terms *)
Inductive token := Op (s : string) | Operand (t : tterm).
(** what is on the stack below the current operand *)
Inductive frame := FBin (lhs : tterm) (op : string) (prio : nat) | FUn (op : string) (prio : nat).
Definition frame_prio (f : frame) : nat := match f with FBin _ _ p | FUn _ p => p end.
Definition frame_apply (f : frame) (t : tterm) : tterm :=
  match f with FBin l op _ => TFun op [l; t] | FUn op _ => TFun op [t] end.
Fixpoint find_op (ops : list opdef) (op : string) (unary : bool) : option opdef :=
  match ops with
  | [] => None
  | d :: r => if String.eqb (od_op d) op && Bool.eqb (od_unary d) unary then Some d else find_op r op unary
  end.
(** reduce while the operator on the stack binds stronger than the next one *)
Fixpoint reduce (p : nat) (left : bool) (st : list frame) (t : tterm) : list frame * tterm :=
  match st with
  | [] => ([], t)
  | f :: r => if (p <? frame_prio f) || ((p =? frame_prio f) && left) then reduce p left r (frame_apply f t) else (st, t)
  end.
Definition reduce_all (st : list frame) (t : tterm) : tterm := fold_left (fun t f => frame_apply f t) st t.
Fixpoint parse_tokens (ops : list opdef) (st : list frame) (cur : option tterm) (ts : list token) : option tterm :=
  match cur, ts with
  | None, Op op :: r =>
      match find_op ops op true with Some d => parse_tokens ops (FUn op (od_prio d) :: st) None r | None => None end
  | None, Operand t :: r => parse_tokens ops st (Some t) r
  | Some t, Op op :: r =>
      match find_op ops op false with
      | Some d => let '(st', t') := reduce (od_prio d) (od_left d) st t in parse_tokens ops (FBin t' op (od_prio d) :: st') None r
      | None => None
      end
  | Some t, [] => Some (reduce_all st t)
  | _, _ => None
  end.
Definition clingo_reads (ops : list opdef) (ts : list token) : option tterm := parse_tokens ops [] None ts.

(** ** The atoms clingo passes on for a grammar *)

(** [_']*[a-z][A-Za-z0-9_']* *)
Definition is_lower (c : ascii) : bool := (97 <=? nat_of_ascii c) && (nat_of_ascii c <=? 122).
Definition is_upper (c : ascii) : bool := (65 <=? nat_of_ascii c) && (nat_of_ascii c <=? 90).
Definition is_mark (c : ascii) : bool := (nat_of_ascii c =? 95) || (nat_of_ascii c =? 39).
Fixpoint is_identifier (s : list ascii) : bool :=
  match s with
  | [] => false
  | c :: r => if is_mark c then is_identifier r
              else is_lower c && forallb (fun c => is_lower c || is_upper c || is_digit c || is_mark c) r
  end.
(** the text of a string token: no backslash, newline or quote unless escaped, cf. the lexer of clingo *)
Fixpoint is_string_text (s : list ascii) : bool :=
  match s with
  | [] => true
  | c :: r =>
      if (nat_of_ascii c =? 92) then
        match r with
        | d :: r' => ((nat_of_ascii d =? 92) || (nat_of_ascii d =? 110) || (nat_of_ascii d =? 34)) && is_string_text r'
        | [] => false
        end
      else negb ((nat_of_ascii c =? 34) || (nat_of_ascii c =? 10)) && is_string_text r
  end.
(** tokens clingo accepts and tokens it does not *)
Example lexer_identifiers : map (fun n => is_identifier (list_ascii_of_string n)) ["a"; "z"; "start_1"; "_aB'9z"; "__z"; "zazAZ09_'"]%string = [true; true; true; true; true; true] /\
  map (fun n => is_identifier (list_ascii_of_string n)) [""; "_"; "X"; "_X"; "1x"; "a-b"; "a{"; "a@"; "a["; "a/"; "a:"; "a^"; "a&"; "a`"; "`a"; "{"; "a b"; "+"]%string = replicate 18 false.
Proof. split; vm_compute; reflexivity. Qed.
Example lexer_strings : is_string_text (list_ascii_of_string "1/2, a_Z +") = true /\ is_string_text [ascii_of_nat 92; dquote; "x"%char; ascii_of_nat 92; "n"%char; ascii_of_nat 92; ascii_of_nat 92] = true /\
  is_string_text [dquote] = false /\ is_string_text [ascii_of_nat 10] = false /\ is_string_text [ascii_of_nat 92] = false /\ is_string_text [ascii_of_nat 92; "a"%char] = false.
Proof. repeat split; vm_compute; reflexivity. Qed.

(** terms built with the operators [ops] *)
Inductive built (ops : list opdef) : tterm -> Prop :=
  | bu_num z : built ops (TNum z)
  | bu_con n : is_identifier (list_ascii_of_string n) = true -> built ops (TSym n)
  | bu_str n s : list_ascii_of_string n = dquote :: s ++ [dquote] -> is_string_text s = true -> built ops (TSym n)
  | bu_fun n args : is_identifier (list_ascii_of_string n) = true -> Forall (built ops) args -> built ops (TFun n args)
  | bu_tup args : Forall (built ops) args -> built ops (TTup args)
  | bu_lst args : Forall (built ops) args -> built ops (TLst args)
  | bu_set args : Forall (built ops) args -> built ops (TSet args)
  | bu_ops ts t : (forall u, Operand u ∈ ts -> built ops u) -> clingo_reads ops ts = Some t -> built ops t.

Fixpoint find_term (l : list (string * list opdef)) (n : string) : option (list opdef) :=
  match l with [] => None | (m, o) :: r => if String.eqb m n then Some o else find_term r n end.
(** [a] is an atom of the theory [g] *)
Inductive admitted (g : theorydef) (a : tatom) : Prop :=
  | adm_atom d ops : d ∈ td_atoms g -> (ta_term a = TSym (ad_name d) \/ ta_term a = TFun (ad_name d) []) ->
      find_term (td_terms g) (ad_term d) = Some ops ->
      (forall e t, e ∈ ta_elems a -> t ∈ te_tuple e -> built ops t) ->
      match ta_guard a, ad_guard d with
      | None, _ => True
      | Some (r, t), Some (rs, term) => r ∈ rs /\ exists gops, find_term (td_terms g) term = Some gops /\ built gops t
      | Some _, None => False
      end -> admitted g a.
(** programs may use further theories: their atoms have other names *)
Definition foreign (g : theorydef) (a : tatom) : Prop :=
  (forall d, d ∈ td_atoms g -> ta_term a <> TSym (ad_name d) /\ ta_term a <> TFun (ad_name d) []) /\
  (forall e t, e ∈ ta_elems a -> t ∈ te_tuple e -> exists ops, built ops t) /\
  (forall r t, ta_guard a = Some (r, t) -> exists ops, built ops t).
