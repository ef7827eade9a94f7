(** * Concurrency: the callbacks as sequences of accesses to shared memory

    In World.v a history is a sequence of callbacks.  clingo runs the callbacks
    of different threads at the same time.  Here every callback is a program
    whose steps are the accesses to the members of class Propagator
    (solving.hh 309-319) that threads share; everything in between is local.
    A machine interleaves the steps of the programs of all threads.

    Granularity: the solver of a thread, facts_, facts_offset_ and the symbol
    table are one location each; the two methods of ObjectiveState are one
    step each, since they hold its mutex (solving.cc 41-45, 55-59).  Reading
    and writing a location takes one step; that this is adequate although a
    vector insertion is not atomic is exactly what the absence of data races
    is about. *)

From Verif Require Import Num Tableau Solver Propagator World.

Section race.
  Context {V : Type} `{Value V} {Sym : Type} `{EqDecision Sym}.

  (** What a callback returns: the clauses it handed to clingo and the return
      value of solve/check in the model; a literal; a value; ... *)
  Inductive answer :=
    | AClauses (cs : list (list Z)) (ok : bool)
    | ALit (l : Z)
    | AVal (v : V)
    | AObj (v : option (V * bool))
    | AIndex (i : option nat)
    | ASym (x : Sym)
    | ANum (n : nat)
    | ANone.

  Inductive prog :=
    | Ret (a : answer)
    | Abort                                        (* undefined behaviour, exception, no fuel *)
    | RdSlv (t : nat) (k : nat * solver V -> prog) (* slvs_[t] *)
    | WrSlv (t : nat) (x : nat * solver V) (k : prog)
    | RdFacts (k : list Z -> prog)                 (* facts_ *)
    | WrFacts (l : list Z) (k : prog)              (* facts_.insert at the end *)
    | RdFoff (k : nat -> prog)                     (* facts_offset_ *)
    | RdState (k : objst V -> prog)                (* objective_state_, mutex held *)
    | WrState (x : V * bool) (k : prog)
    | RdVars (k : list Sym -> prog).               (* var_map_, var_vec_ *)

  Definition lift {A} (r : res A) (k : A -> prog) : prog := match r with Ok a => k a | _ => Abort end.

  (** The callbacks of World.v and the remaining methods of Propagator that
      can be called during the search: decide, lookup_symbol, get_symbol,
      has_value (n_values), get_value, get_objective. *)
  Inductive call :=
    | CEv (e : event)
    | CDecide (t : nat) (l : Z)
    | CLookup (t : nat) (x : Sym)
    | CSymbol (t i : nat)
    | CCount (t : nat)
    | CValue (t i : nat)
    | CObjective (t : nat).
  Definition ev_thread (e : event) : nat :=
    match e with EvPropagate t _ _ _ | EvCheck t _ _ _ _ _ | EvUndo t | EvModel t => t end.
  Definition call_thread (c : call) : nat :=
    match c with CEv e => ev_thread e | CDecide t _ | CLookup t _ | CSymbol t _ | CCount t | CValue t _ | CObjective t => t end.

  (** Propagator::check from line 1141 on. *)
  Definition check_rest (fuel : nat) (h : host) (o : options) (total : bool) (lit2 : Z) (t off : nat) (s2 : solver V) (lg2 : list (list Z)) : prog :=
    if total then
      lift (optimize fuel o s2) (fun s3 =>
      lift (match o_store o with StoreNo => Ok s3 | _ => store_sat s3 end) (fun s4 =>
      lift (discard_bounded h o lit2 s4 lg2) (fun '(s5, log5, _) => WrSlv t (off, s5) (Ret (AClauses log5 true)))))
    else Ret (AClauses lg2 true).
  (** lines 1137-1140: without global optimization integrate_objective does
      not touch objective_state_. *)
  Definition check_integrate (fuel : nat) (h : host) (o : options) (total : bool) (lit1 lit2 : Z) (t off : nat) (s1 : solver V) (log1 : list (list Z)) : prog :=
    match o_global o with
    | None => check_rest fuel h o total lit2 t off s1 log1
    | Some _ => RdState (fun st => lift (integrate_objective h o lit1 st s1 log1) (fun '(s2, lg2, ok2) =>
        WrSlv t (off, s2) (if negb ok2 then Ret (AClauses lg2 true) else check_rest fuel h o total lit2 t off s2 lg2)))
    end.

  Definition prog_of (fuel : nat) (o : options) (c : call) : prog :=
    match c with
    | CEv (EvPropagate t h a lits) => (* solving.cc 1154-1163 *)
        let rest := RdSlv t (fun '(off, s) => lift (solve fuel h o a lits s []) (fun '(s', log, ok) => WrSlv t (off, s') (Ret (AClauses log ok)))) in
        if (a_dl a =? 0) && (t =? 0) then WrFacts lits rest else rest
    | CEv (EvCheck t h a total lit1 lit2) => (* solving.cc 1124-1152 *)
        RdSlv t (fun '(off, s) =>
          if a_dl a =? 0 then
            RdFoff (fun foff => if off <? foff then
              RdFacts (fun facts => lift (guard_ub (off + foff <=? length facts)) (fun _ =>
                lift (solve fuel h o a (take foff (drop off facts)) s []) (fun '(s1, log1, ok1) =>
                  WrSlv t (foff, s1) (if negb ok1 then Ret (AClauses log1 false) else check_integrate fuel h o total lit1 lit2 t foff s1 log1))))
              else check_integrate fuel h o total lit1 lit2 t off s [])
          else check_integrate fuel h o total lit1 lit2 t off s [])
    | CEv (EvUndo t) => (* solving.cc 1165-1169 *)
        RdSlv t (fun '(off, s) => lift (undo s) (fun s' => WrSlv t (off, s') (Ret ANone)))
    | CEv (EvModel t) => (* solving.cc 1112-1122 *)
        match o_global o with
        | None => Ret ANone
        | Some _ => RdSlv t (fun '(_, s) => lift (get_objective s) (fun v => match v with None => Ret ANone | Some x => WrState x (Ret ANone) end))
        end
    | CDecide t l => RdSlv t (fun '(_, s) => lift (adjust o s l) (fun l' => Ret (ALit l'))) (* solving.cc 1106-1110 *)
    | CLookup _ x => RdVars (fun vs => Ret (AIndex (find_sym vs x))) (* solving.cc 1171-1176 *)
    | CSymbol _ i => RdVars (fun vs => lift (at_ vs i) (fun x => Ret (ASym x))) (* solving.cc 1178 *)
    | CCount _ => RdVars (fun vs => Ret (ANum (length vs))) (* solving.cc 1180-1183, 1194-1197 *)
    | CValue t i => RdSlv t (fun '(_, s) => lift (get_value s i) (fun v => Ret (AVal v))) (* solving.cc 1185-1187 *)
    | CObjective t => RdSlv t (fun '(_, s) => lift (get_objective s) (fun v => Ret (AObj v))) (* solving.cc 1189-1192 *)
    end.

  Definition add_facts (l : list Z) (p : propagator V Sym) : propagator V Sym :=
    Propagator (p_vars p) (p_obj p) (p_iqs p) (p_foff p) (p_facts p ++ l) (p_slvs p) (p_state p).
  Definition up_state (x : V * bool) (p : propagator V Sym) : propagator V Sym :=
    Propagator (p_vars p) (p_obj p) (p_iqs p) (p_foff p) (p_facts p) (p_slvs p) (os_update x (p_state p)).

  (** One step of a program. *)
  Definition act (q : prog) (p : propagator V Sym) : option (propagator V Sym * prog) :=
    match q with
    | Ret _ | Abort => None
    | RdSlv t k => match p_slvs p !! t with Some x => Some (p, k x) | None => Some (p, Abort) end
    | WrSlv t x k => Some (put_thread t x p, k)
    | RdFacts k => Some (p, k (p_facts p))
    | WrFacts l k => Some (add_facts l p, k)
    | RdFoff k => Some (p, k (p_foff p))
    | RdState k => Some (p, k (p_state p))
    | WrState x k => Some (up_state x p, k)
    | RdVars k => Some (p, k (p_vars p))
    end.

  (** ** Data races *)

  Inductive loc := LSlv (t : nat) | LFacts | LFoff | LState | LVars.
  (** the access a program performs next: location, does it write, does it
      hold the mutex of the location *)
  Definition next (q : prog) : option (loc * bool * bool) :=
    match q with
    | Ret _ | Abort => None
    | RdSlv t _ => Some (LSlv t, false, false)
    | WrSlv t _ _ => Some (LSlv t, true, false)
    | RdFacts _ => Some (LFacts, false, false)
    | WrFacts _ _ => Some (LFacts, true, false)
    | RdFoff _ => Some (LFoff, false, false)
    | RdState _ => Some (LState, false, true)
    | WrState _ _ => Some (LState, true, true)
    | RdVars _ => Some (LVars, false, false)
    end.
  (** Two programs of different threads can perform conflicting accesses at
      the same time. *)
  Definition conflicting (q1 q2 : prog) : Prop := exists l w1 w2 m1 m2,
    next q1 = Some (l, w1, m1) /\ next q2 = Some (l, w2, m2) /\ w1 || w2 = true /\ m1 && m2 = false.

  (** ** The machine *)

  Inductive label := LCall (c : call) | LRet (t : nat) (a : answer).
  (** shared memory; for each thread the call in progress and what is left of it *)
  Record machine := Machine { m_p : propagator V Sym; m_ctl : nat -> option (call * prog) }.
  Definition set_ctl (t : nat) (x : option (call * prog)) (f : nat -> option (call * prog)) : nat -> option (call * prog) :=
    fun t' => if t' =? t then x else f t'.
  Definition idle (p : propagator V Sym) : machine := Machine p (fun _ => None).

  Inductive mstep (fuel : nat) (o : options) : machine -> option label -> machine -> Prop :=
    | ms_call p ctl c : ctl (call_thread c) = None -> call_thread c < length (p_slvs p) ->
        mstep fuel o (Machine p ctl) (Some (LCall c)) (Machine p (set_ctl (call_thread c) (Some (c, prog_of fuel o c)) ctl))
    | ms_act p ctl t c q p' q' : ctl t = Some (c, q) -> act q p = Some (p', q') ->
        mstep fuel o (Machine p ctl) None (Machine p' (set_ctl t (Some (c, q')) ctl))
    | ms_ret p ctl t c a : ctl t = Some (c, Ret a) ->
        mstep fuel o (Machine p ctl) (Some (LRet t a)) (Machine p (set_ctl t None ctl)).
  (** executions and their histories of calls and returns *)
  Inductive mexec (fuel : nat) (o : options) : machine -> list label -> machine -> Prop :=
    | me_refl m : mexec fuel o m [] m
    | me_step m1 l m2 ls m3 : mexec fuel o m1 ls m2 -> mstep fuel o m2 l m3 ->
        mexec fuel o m1 (ls ++ match l with Some x => [x] | None => [] end) m3.

  (** ** The atomic object: every call takes effect in one step *)

  Definition seq_call (fuel : nat) (o : options) (c : call) (p : propagator V Sym) : res (propagator V Sym * answer) :=
    match c with
    | CEv (EvPropagate t h a lits) => '(p', log, ok) ← p_propagate fuel h o a lits t p []; Ok (p', AClauses log ok)
    | CEv (EvCheck t h a total l1 l2) => '(p', log, ok) ← p_check fuel h o a total l1 l2 t p []; Ok (p', AClauses log ok)
    | CEv (EvUndo t) => p' ← p_undo t p; Ok (p', ANone)
    | CEv (EvModel t) => p' ← p_on_model o t p; Ok (p', ANone)
    | CDecide t l => l' ← p_decide o t l p; Ok (p, ALit l')
    | CLookup _ x => Ok (p, AIndex (p_lookup_symbol p x))
    | CSymbol _ i => x ← p_get_symbol p i; Ok (p, ASym x)
    | CCount t => Ok (p, ANum (p_n_values p t))
    | CValue t i => v ← p_get_value p t i; Ok (p, AVal v)
    | CObjective t => v ← p_get_objective p t; Ok (p, AObj v)
    end.
  Inductive phase := PCalled (c : call) | PDone (a : answer).
  Record atomic := Atomic { at_p : propagator V Sym; at_ctl : nat -> option phase; at_order : list call }.
  Definition set_ph (t : nat) (x : option phase) (f : nat -> option phase) : nat -> option phase :=
    fun t' => if t' =? t then x else f t'.
  (** [at_order]: the calls in the order in which they took effect *)
  Inductive astep (fuel : nat) (o : options) : atomic -> option label -> atomic -> Prop :=
    | as_call p ctl ord c : ctl (call_thread c) = None ->
        astep fuel o (Atomic p ctl ord) (Some (LCall c)) (Atomic p (set_ph (call_thread c) (Some (PCalled c)) ctl) ord)
    | as_commit p ctl ord c p' a : ctl (call_thread c) = Some (PCalled c) -> seq_call fuel o c p = Ok (p', a) ->
        astep fuel o (Atomic p ctl ord) None (Atomic p' (set_ph (call_thread c) (Some (PDone a)) ctl) (ord ++ [c]))
    | as_ret p ctl ord t a : ctl t = Some (PDone a) ->
        astep fuel o (Atomic p ctl ord) (Some (LRet t a)) (Atomic p (set_ph t None ctl) ord).
  Inductive aexec (fuel : nat) (o : options) : atomic -> list label -> atomic -> Prop :=
    | ae_refl m : aexec fuel o m [] m
    | ae_step m1 l m2 ls m3 : aexec fuel o m1 ls m2 -> astep fuel o m2 l m3 ->
        aexec fuel o m1 (ls ++ match l with Some x => [x] | None => [] end) m3.
End race.

Global Arguments prog V Sym : clear implicits.
Global Arguments answer V Sym : clear implicits.
Global Arguments call Sym : clear implicits.
Global Arguments machine V Sym : clear implicits.
Global Arguments atomic V Sym : clear implicits.
Global Arguments label V Sym : clear implicits.
