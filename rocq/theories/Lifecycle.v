(** * The extern "C" functions of clingo-lpx.cc as calls on a theory object

    The functions of Api.v, Grammar.v, Propagator.v and Parsing.v behind the C
    interface: which object they work on, what happens to C++ exceptions, null
    and dangling pointers.  [bk] is the arithmetic library, [m] clingo's
    solver_literal, [rd] the constructor Rational{value, 10}. *)

From Coq Require Import Ascii String.
From Verif Require Import Num Solver Propagator World Parsing Api Main Grammar.

(** How a function called through the C interface ends: it returns, a C++
    exception leaves it, its behaviour is undefined, or it needs more steps. *)
Inductive left (A : Type) := Returned (a : A) | Escaped | Undefined | Running.
Arguments Returned {A}. Arguments Escaped {A}. Arguments Undefined {A}. Arguments Running {A}.
(** CLINGOLPX_TRY { ... } CLINGOLPX_CATCH, clingo-lpx.cc 36-42: None is false. *)
Definition guarded {A} (r : res A) : left (option A) :=
  match r with Ok a => Returned (Some a) | Exn => Returned None | UB => Undefined | Fuel => Running end.
(** a function without it *)
Definition bare {A} (r : res A) : left A :=
  match r with Ok a => Returned a | Exn => Escaped | UB => Undefined | Fuel => Running end.

(** An object of class LPXPropagatorFacade<Value> (clingo-lpx.cc 117-199): the
    options copied into the propagator (solving.hh 276, 311), aux_map_, iqs_
    and objective_, and the rest of the propagator, together with what clingo
    has been told ([World.v]). *)
Inductive status := Fresh | Searching | Ended.
Record object (V : Type) := Object { ob_opts : options; ob_parsed : pstate; ob_world : world V symbol; ob_status : status }.
Arguments Object {V}. Arguments ob_opts {V}. Arguments ob_parsed {V}. Arguments ob_world {V}. Arguments ob_status {V}.
Definition new_object {V} `{Value V} (o : options) : object V := Object o new_pstate (World new_propagator [] [] []) Fresh.

(** the arguments of clingo's call of init: theory atoms, threads, the replies
    to add_clause ([h], Propagator.v) and the order of std::sort *)
Record init_args (V : Type) := InitArgs { ia_atoms : list tatom; ia_threads : nat; ia_host : host; ia_sort : nat -> list (bound V) -> list (bound V) }.
Arguments ia_atoms {V}. Arguments ia_threads {V}. Arguments ia_host {V}. Arguments ia_sort {V}.

(** what the functions return; [Failed]: false with an error set; [Extended]:
    true, after Model::extend with these symbols *)
Inductive answer :=
  | Done | Failed | Nothing | Extended (symbols : list symbol)
  | Decision (l : Z) | Index (i : option nat) | TheSymbol (x : symbol) | HasValue (b : bool)
  | TheValue (text : list ascii) | Numbers (step accu : stats) | Passed (b : bool).

Section object.
  Context {V : Type} `{Value V} (print : V -> list ascii) (bk : backend) (m : Z -> Z).
  Implicit Types x : object V.

  Definition with_world (x : object V) (w : world V symbol) : object V := Object (ob_opts x) (ob_parsed x) w (ob_status x).
  (** a guarded callback: [Failed] ends the search *)
  Definition reply {A} (x : object V) (r : left (option A)) (f : A -> answer * object V) : left (answer * object V) :=
    match r with
    | Returned (Some a) => Returned (f a)
    | Returned None => Returned (Failed, Object (ob_opts x) (ob_parsed x) (ob_world x) Ended)
    | Escaped => Escaped | Undefined => Undefined | Running => Running
    end.

  (** init, clingo-lpx.cc 49-55, and Propagator::init, solving.cc 1046-1079.
      After an exception or a conflict clingo does not use the object any more;
      its state is then left as it was before. *)
  Definition c_init (a : init_args V) x : left (answer * object V) :=
    reply x (guarded (
      st ← evaluate_theory bk m (ia_atoms a) (ob_parsed x);
      '(p, log, ok) ← p_init (ia_host a) (ob_opts x) (ia_sort a) (ia_threads a) (ps_iqs st) (ps_obj st) (w_p (ob_world x)) (w_log (ob_world x));
      Ok (Object (ob_opts x) st (start p log) (if (ok : bool) then Searching else Ended)))) (fun x' => (Done, x')).
  (** propagate 58-65, check 75-81: guarded; undo 68-72: not; on_model
      437-443 and extend_model 171-191: guarded *)
  Definition c_event (fuel : nat) (e : event) x : left (answer * object V) :=
    let run := wstep fuel (ob_opts x) e (ob_world x) in
    match e with
    | EvUndo _ => match bare run with
        | Returned w => Returned (Nothing, with_world x w) | Escaped => Escaped | Undefined => Undefined | Running => Running end
    | EvModel t => reply x (guarded (l ← extension print (w_p (ob_world x)) t; w ← run; Ok (l, w))) (fun '(l, w) => (Extended l, with_world x w))
    | _ => reply x (guarded run) (fun w => (Done, with_world x w))
    end.
  (** decide 84-92 *)
  Definition c_decide (t : nat) (l : Z) x : left (answer * object V) :=
    reply x (guarded (p_decide (ob_opts x) t l (w_p (ob_world x)))) (fun l' => (Decision l', x)).

  (** clingolpx_lookup_symbol 445-447, get_symbol 449-451, assignment_begin
      453-457, assignment_next 459-461, assignment_has_value 463-465,
      assignment_get_value 467-470, on_statistics 472-484 *)
  Inductive query :=
    | QLookup (s : symbol) | QGetSymbol (i : nat) | QBegin (t : nat) | QNext (t cur : nat) | QHasValue (t i : nat) | QGetValue (t i : nat)
    | QStatistics (roots : bool) (step accu : stats).   (* [roots]: clingo_statistics_root succeeds *)
  Definition answered (r : left answer) x : left (answer * object V) :=
    match r with Returned a => Returned (a, x) | Escaped => Escaped | Undefined => Undefined | Running => Running end.
  Definition c_query (q : query) x : left (answer * object V) :=
    let p := w_p (ob_world x) in
    match q with
    | QLookup s => answered (bare (Ok (Index (f_lookup p s)))) x
    | QGetSymbol i => answered (bare (s ← f_get_symbol p i; Ok (TheSymbol s))) x
    | QBegin _ => answered (bare (Ok (Index (Some f_begin)))) x
    | QNext t cur => answered (bare (i ← f_next p t cur; Ok (Index i))) x
    | QHasValue t i => answered (bare (Ok (HasValue (f_has_value p t i)))) x
    | QGetValue t i => answered (bare (v ← f_get_value p t i; Ok (TheValue (print v)))) x
    | QStatistics roots s a => reply x (guarded (if roots then Ok (on_statistics p s a) else Exn)) (fun '(s', a') => (Numbers s' a', x))
    end.
End object.

(** struct clingolpx_theory, clingo-lpx.cc 329-333.  [hd_count]: how many
    facades have been created so far; the last one is the living one, the
    others have been deleted by the assignment to the unique_ptr. *)
Inductive registered := Plain (x : object Qc) | Strict (x : object RatQ).
Record handle := Handle { hd_theory : theory; hd_prop : option registered; hd_count : nat }.
Definition new_handle : handle := Handle new_theory None 0.

(** Calls.  [g]: the number of the facade whose address clingo was given when
    it was registered. *)
Inductive call :=
  | Configure (key : string) (v : list ascii)
  | CommandLine (key : string) (v : list ascii) | Flag (key : string) (b : bool)
  | Validate
  | Register (added registered : bool)      (* whether clingo_control_add and clingo_control_register_propagator succeed *)
  | RewriteAst (accepts : bool) | Prepare   (* [accepts]: what the callback returns for the statement *)
  | InitPlain (g : nat) (a : init_args Qc) | InitStrict (g : nat) (a : init_args RatQ)
  | Callback (g : nat) (e : event) | Decide (g t : nat) (l : Z)
  | OnModel (t : nat) | Query (q : query)
  | Destroy.

Section api.
  Context (rd : list ascii -> option Qc) (bk : backend) (m : Z -> Z).

  Definition with_theory (th : theory) (h : handle) : handle := Handle th (hd_prop h) (hd_count h).
  Definition settings (h : handle) (r : res (theory * bool)) : left (answer * option handle) :=
    match bare r with
    | Returned (th, ok) => Returned (if ok : bool then Done else Failed, Some (with_theory th h))
    | Escaped => Escaped | Undefined => Undefined | Running => Running
    end.
  (** dereference theory->clingolpx *)
  Definition on_object (h : handle) (f : registered -> left (answer * registered)) : left (answer * option handle) :=
    match hd_prop h with
    | None => Undefined
    | Some x => match f x with
                | Returned (a, x') => Returned (a, Some (Handle (hd_theory h) (Some x') (hd_count h)))
                | Escaped => Escaped | Undefined => Undefined | Running => Running
                end
    end.
  Definition lift {V} (inj : object V -> registered) (r : left (answer * object V)) : left (answer * registered) :=
    match r with Returned (a, x) => Returned (a, inj x) | Escaped => Escaped | Undefined => Undefined | Running => Running end.
  (** the facade clingo calls is the living one *)
  Definition alive (g : nat) (h : handle) (r : left (answer * option handle)) : left (answer * option handle) :=
    if S g =? hd_count h then r else Undefined.

  Definition api_call (fuel : nat) (c : call) (h : handle) : left (answer * option handle) :=
    match c with
    | Configure k v => (* 380-406, Api.v *)
        match guarded (configure k v (hd_theory h)) with
        | Returned (Some (th, None)) => Returned (Done, Some (with_theory th h))
        | Returned (Some (th, Some _)) => Returned (Failed, Some (with_theory th h))
        | Returned None => Returned (Failed, Some h)
        | Escaped => Escaped | Undefined => Undefined | Running => Running
        end
    | CommandLine k v => settings h (command_line rd k v (hd_theory h))   (* the parsers are handed to clingo as they are, 408-425 *)
    | Flag k b => (* clingo_options_add_flag 411-414: clingo writes the variable *)
        let th := hd_theory h in
        if String.eqb k "strict" then Returned (Done, Some (with_theory (Theory (t_opts th) b) h))
        else if String.eqb k "propagate-conflicts" then Returned (Done, Some (with_theory (Theory (set_pconf b (t_opts th)) (t_strict th)) h))
        else Returned (Failed, Some h)
    | Validate => (* 427-435 *)
        match guarded (if validate_options (hd_theory h) then Ok tt else Exn) with
        | Returned (Some _) => Returned (Done, Some h) | Returned None => Returned (Failed, Some h)
        | Escaped => Escaped | Undefined => Undefined | Running => Running
        end
    | Register added registered => (* 352-361 and the constructor 119-131: handle_error throws if clingo fails, then the
                                      new object is gone and theory->clingolpx is unchanged *)
        match guarded (if added && registered then Ok (clingolpx_register (hd_theory h)) else Exn) with
        | Returned (Some r) =>
            let x := match rg_value r with TRational => Plain (new_object (rg_options r)) | TRationalQ => Strict (new_object (rg_options r)) end in
            Returned (Done, Some (Handle (hd_theory h) (Some x) (S (hd_count h))))
        | Returned None => Returned (Failed, Some h)
        | Escaped => Escaped | Undefined => Undefined | Running => Running
        end
    | RewriteAst accepts => Returned (Passed accepts, Some h)              (* 363-367: return add(ast, data) *)
    | Prepare => Returned (Done, Some h)                                   (* 369-373 *)
    | InitPlain g a => alive g h (on_object h (fun x => match x with Plain y => lift Plain (c_init bk m a y) | Strict _ => Undefined end))
    | InitStrict g a => alive g h (on_object h (fun x => match x with Strict y => lift Strict (c_init bk m a y) | Plain _ => Undefined end))
    | Callback g e => alive g h (on_object h (fun x => match x with Plain y => lift Plain (c_event print_rat fuel e y) | Strict y => lift Strict (c_event print_ratq fuel e y) end))
    | Decide g t l => alive g h (on_object h (fun x => match x with Plain y => lift Plain (c_decide t l y) | Strict y => lift Strict (c_decide t l y) end))
    | OnModel t => on_object h (fun x => match x with Plain y => lift Plain (c_event print_rat fuel (EvModel t) y) | Strict y => lift Strict (c_event print_ratq fuel (EvModel t) y) end)
    | Query (QBegin _) => Returned (Index (Some f_begin), Some h)          (* does not use the theory *)
    | Query q => on_object h (fun x => match x with Plain y => lift Plain (c_query print_rat q y) | Strict y => lift Strict (c_query print_ratq q y) end)
    | Destroy => Returned (Done, None)                                     (* 375-378 *)
    end.
End api.
