(** * The C API: options, configuration, assignment access, printing, statistics
      (clingo-lpx.cc, clingo-lpx.h, number.hh 389-403, solving.cc 1090-1104)

    Strings are C strings: lists of characters other than NUL.  [tolower] is
    that of the "C" locale. *)

From Coq Require Import Ascii String.
From Verif Require Import Num Solver Propagator Parsing.

(** ** Options *)

(** tolower *)
Definition lower (c : ascii) : ascii :=
  let n := nat_of_ascii c in if (65 <=? n) && (n <=? 90) then ascii_of_nat (n + 32) else c.
(** iequals_pre, clingo-lpx.cc 202-209: None is nullptr. *)
Fixpoint iequals_pre (a b : list ascii) {struct b} : option (list ascii) :=
  match b with
  | [] => Some a
  | d :: b' => match a with
               | [] => None
               | c :: a' => if Ascii.eqb (lower c) (lower d) then iequals_pre a' b' else None
               end
  end.
(** iequals, clingo-lpx.cc 212-215. *)
Definition iequals (a : list ascii) (b : string) : bool :=
  match iequals_pre a (list_ascii_of_string b) with Some [] => true | _ => false end.

(** parse_bool, clingo-lpx.cc 220-231: the value stored, None for a parse error. *)
Definition parse_bool (v : list ascii) : option bool :=
  if iequals v "no" || iequals v "off" || iequals v "0" then Some false
  else if iequals v "yes" || iequals v "on" || iequals v "1" then Some true
  else None.

Definition set_select x (o : options) := Options x (o_store o) (o_global o) (o_pmode o) (o_pconf o).
Definition set_store x (o : options) := Options (o_select o) x (o_global o) (o_pmode o) (o_pconf o).
Definition set_global x (o : options) := Options (o_select o) (o_store o) x (o_pmode o) (o_pconf o).
Definition set_pmode x (o : options) := Options (o_select o) (o_store o) (o_global o) x (o_pconf o).
Definition set_pconf x (o : options) := Options (o_select o) (o_store o) (o_global o) (o_pmode o) x.

(** parse_select, parse_propagate, parse_store, clingo-lpx.cc 234-285: the new
    options and the returned Boolean. *)
Definition parse_select (v : list ascii) (o : options) : options * bool :=
  if iequals v "none" then (set_select SelectNone o, true)
  else if iequals v "match" then (set_select SelectMatch o, true)
  else if iequals v "conflict" then (set_select SelectConflict o, true)
  else (o, false).
Definition parse_propagate (v : list ascii) (o : options) : options * bool :=
  if iequals v "none" then (set_pmode PropNone o, true)
  else if iequals v "changed" then (set_pmode PropChanged o, true)
  else if iequals v "full" then (set_pmode PropFull o, true)
  else (o, false).
Definition parse_store (v : list ascii) (o : options) : options * bool :=
  if iequals v "no" then (set_store StoreNo o, true)
  else if iequals v "partial" then (set_store StorePartial o, true)
  else if iequals v "total" then (set_store StoreTotal o, true)
  else (o, false).
(** parse_objective, clingo-lpx.cc 288-312.  [rd]: the constructor
    Rational{value, 10}; None: it throws. *)
Definition parse_objective (rd : list ascii -> option Qc) (v : list ascii) (o : options) : res (options * bool) :=
  if iequals v "local" then Ok (set_global None o, true)
  else match iequals_pre v (list_ascii_of_string "global") with
       | None => Ok (o, false)
       | Some [] => Ok (set_global (Some (mkRatQ 0%Qc 0%Qc)) o, true)
       | Some v1 =>
           match iequals_pre v1 (list_ascii_of_string ",") with
           | None => Ok (o, false)
           | Some v2 =>
               if iequals v2 "e" then Ok (set_global (Some (mkRatQ 0%Qc 1%Qc)) o, true)
               else match rd v2 with
                    | None => Exn
                    | Some q => Ok (set_global (Some (mkRatQ q 0%Qc)) o, true)
                    end
           end
       end.

(** struct clingolpx_theory, clingo-lpx.cc 329-333, without the propagator. *)
Record theory := Theory { t_opts : options; t_strict : bool }.
Definition new_theory : theory := Theory default_options false.

(** The outcome of clingolpx_configure: the new settings, the result and the
    key or value error: [BadValue k] is "invalid value for 'k'". *)
Inductive message := BadValue (key : string) | BadKey (key : string).
Definition configured : Type := theory * option message.
Definition check_parse (key : string) (t t' : theory) (ok : bool) : configured :=
  if ok then (t', None) else (t, Some (BadValue key)).

(** clingolpx_configure, clingo-lpx.cc 380-406.
    "objective": parse_bool writes a bool through a pointer to a
    std::optional<RationalQ>; "propagate-bounds": parse_propagate takes the
    address of the member propagate_mode for that of the Options, its write is
    out of bounds.  Both only if the value is accepted. *)
Definition configure (key : string) (v : list ascii) (t : theory) : res configured :=
  let o := t_opts t in
  let with_opts '(o', ok) k := Ok (check_parse k t (Theory o' (t_strict t)) ok) in
  if String.eqb key "strict" then
    match parse_bool v with
    | Some b => Ok (check_parse "strict" t (Theory o b) true)
    | None => Ok (check_parse "strict" t t false)
    end
  else if String.eqb key "objective" then
    match parse_bool v with Some _ => UB | None => Ok (check_parse "objective" t t false) end
  else if String.eqb key "propagate-conflicts" then
    match parse_bool v with
    | Some b => with_opts (set_pconf b o, true) "propagate-conflicts"%string
    | None => with_opts (o, false) "propagate-conflicts"%string
    end
  else if String.eqb key "propagate-bounds" then
    if (parse_propagate v o).2 then UB else Ok (check_parse "propagate-bounds" t t false)
  else if String.eqb key "select" then with_opts (parse_select v o) "select"%string
  else if String.eqb key "store" then with_opts (parse_store v o) "select"%string
  else Ok (t, Some (BadKey key)).

(** The parsers registered by clingolpx_register_options, clingo-lpx.cc
    408-425.  "strict" and "propagate-conflicts" are flags, parsed by clingo. *)
Definition command_line (rd : list ascii -> option Qc) (key : string) (v : list ascii) (t : theory) : res (theory * bool) :=
  let lift '(o', ok) := Ok (Theory o' (t_strict t), ok) in
  if String.eqb key "propagate-bounds" then lift (parse_propagate v (t_opts t))
  else if String.eqb key "objective" then '(o', ok) ← parse_objective rd v (t_opts t); Ok (Theory o' (t_strict t), ok)
  else if String.eqb key "select" then lift (parse_select v (t_opts t))
  else if String.eqb key "store" then lift (parse_store v (t_opts t))
  else Ok (t, false).

(** clingolpx_validate_options, clingo-lpx.cc 427-435. *)
Definition validate_options (t : theory) : bool :=
  negb (negb (t_strict t) && match o_global (t_opts t) with Some g => negb (Qc_eq_bool (rq_k g) 0) | None => false end).

(** ** Access to assignments (class LPXPropagatorFacade, clingo-lpx.cc 126-199) *)
Section facade.
  Context {V : Type} `{Value V}.
  Implicit Types p : propagator V symbol.

  (** Symbol::type() == Number: the symbols of auxiliary variables *)
  Definition is_number (x : symbol) : bool := match x with SNum _ => true | _ => false end.

  (** lookup_symbol 140-146, get_symbol 148, has_value 150-152, get_value
      154-159 (the value before printing). Index 0 is never valid. *)
  Definition f_lookup p (x : symbol) : option nat := match p_lookup_symbol p x with Some i => Some (i + 1) | None => None end.
  Definition f_get_symbol p (i : nat) : res symbol := match i with 0 => UB | S k => p_get_symbol p k end.
  Definition f_has_value p (t i : nat) : bool := (0 <? i) && p_has_value p t (i - 1).
  Definition f_get_value p (t i : nat) : res V := match i with 0 => UB | S k => p_get_value p t k end.
  (** next, 161-169: the new value of *current, None if false is returned.
      [k] bounds the number of iterations. *)
  Fixpoint next_loop p (t k cur : nat) : res (option nat) :=
    match k with
    | 0 => Ok None
    | S k' => if cur <? p_n_values p t
              then x ← p_get_symbol p cur; if is_number x then next_loop p t k' (S cur) else Ok (Some (S cur))
              else Ok None
    end.
  Definition f_next p (t cur : nat) : res (option nat) := next_loop p t (p_n_values p t - cur) cur.
  (** clingolpx_assignment_begin, clingo-lpx.cc 453-457. *)
  Definition f_begin : nat := 0.
  (** the usual loop: assignment_begin, then assignment_next until false *)
  Fixpoint f_iterate (k : nat) p (t cur : nat) : res (list nat) :=
    match k with
    | 0 => Fuel
    | S k' => n ← f_next p t cur; match n with None => Ok [] | Some i => r ← f_iterate k' p t i; Ok (i :: r) end
    end.

  (** extend_model, 171-191: the symbols and values of the __lpx atoms, and the
      objective with its bounded flag; the values before printing. *)
  Fixpoint get_pairs p (t : nat) (is : list nat) : res (list (symbol * V)) :=
    match is with
    | [] => Ok []
    | i :: r => x ← p_get_symbol p (i - 1); v ← p_get_value p t (i - 1); l ← get_pairs p t r; Ok ((x, v) :: l)
    end.
  Definition extend_model p (t : nat) : res (list (symbol * V) * option (V * bool)) :=
    is ← f_iterate (S (p_n_values p t)) p t f_begin; l ← get_pairs p t is; v ← p_get_objective p t; Ok (l, v).
End facade.

(** ** Printing *)

(** decimal digits of a natural number; enough steps: more than its value *)
Definition digit_char (d : Z) : ascii := ascii_of_nat (Z.to_nat (48 + d)).
Fixpoint print_digits (k : nat) (n : Z) : list ascii :=
  match k with
  | 0 => []
  | S k' => (if (n <? 10)%Z then [] else print_digits k' (n / 10)%Z) ++ [digit_char (n mod 10)%Z]
  end.
(** operator<< for Integer, number_flint.hh 402-409, number_imath.hh 396-402. *)
Definition print_int (z : Z) : list ascii :=
  (if (z <? 0)%Z then ["-"%char] else []) ++ print_digits (S (Z.to_nat (Z.abs z))) (Z.abs z).
(** operator<< for Rational, number_flint.hh 760-767, number_imath.hh 687-700:
    numerator, and slash and denominator unless it is 1. *)
Definition print_rat (q : Qc) : list ascii :=
  print_int (Qnum (this q)) ++ (if (Zpos (Qden (this q)) =? 1)%Z then [] else "/"%char :: print_int (Zpos (Qden (this q)))).
(** operator<< for RationalQ, number.hh 389-403. *)
Definition print_ratq (v : RatQ) : list ascii :=
  (if negb (Qc_eq_bool (rq_c v) 0) || Qc_eq_bool (rq_k v) 0 then print_rat (rq_c v) else []) ++
  (if negb (Qc_eq_bool (rq_k v) 0)
   then (if negb (Qc_eq_bool (rq_c v) 0) then ["+"%char] else []) ++
        (if negb (Qc_eq_bool (rq_k v) 1) then print_rat (rq_k v) ++ ["*"%char] else []) ++ ["e"%char]
   else []).

(** ** Comparison of Integers *)

(** compare for Integer in number_imath.hh 408-410: mp_int_compare. *)
Definition compare_imath (a b : Z) : comparison := Z.compare a b.
(** An fmpz is a machine word: the number itself if it is at most 2^62-1 in
    absolute value, otherwise a pointer to the number with bit 62 set and bit 63
    clear (FLINT, fmpz.h).  [heap z]: the word for a large number, any value in
    that range. *)
Definition coeff_max : Z := (2 ^ 62 - 1)%Z.
Definition fmpz_word (heap : Z -> Z) (z : Z) : Z := if (Z.abs z <=? coeff_max)%Z then z else heap z.
Definition heap_ok (heap : Z -> Z) : Prop := forall z, (2 ^ 62 <= heap z < 2 ^ 63)%Z.
(** compare(Integer const &, fixed_int), number_flint.hh 413: fmpz_cmp_si. *)
Definition compare_flint_si (a b : Z) : comparison := Z.compare a b.
(** compare(Integer const &, Integer const &), number_flint.hh 415:
    fmpz_cmp_si(&a.num_, b.num_) passes the word of b. *)
Definition compare_flint (heap : Z -> Z) (a b : Z) : comparison := compare_flint_si a (fmpz_word heap b).
(** operator<, <=, >, >= in terms of compare, number_flint.hh 365-386,
    number_imath.hh 360-380. *)
Definition lt_of (c : comparison) : bool := match c with Lt => true | _ => false end.
Definition le_of (c : comparison) : bool := match c with Gt => false | _ => true end.
Definition gt_of (c : comparison) : bool := match c with Gt => true | _ => false end.
Definition ge_of (c : comparison) : bool := match c with Lt => false | _ => true end.

(** ** Statistics *)

(** The values of one key below "Simplex" in clingo's statistics *)
Record stats := Stats { st_pivots : nat; st_bounds : nat }.
(** Propagator::on_statistics, solving.cc 1090-1104: the loop over slvs_.
    add_subkey keeps an existing value. *)
Definition on_statistics {V Sym} (p : propagator V Sym) (step accu : stats) : stats * stats :=
  fold_left (fun '(st, ac) sl => (Stats (s_pivots sl.2) (s_props sl.2),
                                  Stats (st_pivots ac + s_pivots sl.2) (st_bounds ac + s_props sl.2)))
            (p_slvs p) (step, accu).
