(** * ObjectiveState and Propagator (solving.hh 53-70, 274-320; solving.cc 34-64, 631-663, 1046-1197)

    A Propagator owns one Solver per thread.  The threads share facts_ and
    objective_state_.  A callback of clingo is a function of the shared state
    and the solver of its thread; concurrency is interleaving of callbacks
    (what is not covered by that view is the subject of property C36). *)

From Verif Require Import Num Tableau Solver.

Section propagator.
  Context {V : Type} `{Value V}.

  (** class ObjectiveState (solving.hh 54-70); the mutex makes every method
      atomic. *)
  Record objst := ObjSt { os_val : V; os_gen : nat; os_bounded : bool }.
  (** ObjectiveState::reset, solving.cc 34-38. *)
  Definition os_reset : objst := ObjSt vzero 0 true.
  (** ObjectiveState::update, solving.cc 40-51. *)
  Definition os_update (x : V * bool) (st : objst) : objst :=
    if os_bounded st && (negb x.2 || (os_gen st =? 0) || vgtb x.1 (os_val st))
    then ObjSt x.1 (S (os_gen st)) x.2 else st.
  (** ObjectiveState::value, solving.cc 53-64: new generation and result. *)
  Definition os_value (gen : nat) (st : objst) : nat * option (V * bool) :=
    if negb (gen =? os_gen st) then (os_gen st, Some (os_val st, os_bounded st)) else (gen, None).

  (** Solver::integrate_objective, solving.cc 631-653; [lit] is the literal a
      call to add_literal returns. *)
  Definition integrate_objective (h : host) (o : options) (lit : Z) (st : objst) (s : solver V) (log : list (list Z))
      : res (solver V * list (list Z) * bool) :=
    match o_global o with
    | None => Ok (s, log, true)
    | Some g =>
        let '(gen, v) := os_value (ob_gen (s_obj s)) st in
        let s1 := set_obj (obj_set_gen gen (s_obj s)) s in
        match v with
        | None => Ok (s1, log, true)
        | Some (_, false) => Ok (set_obj (obj_set_discard true (s_obj s1)) s1, log, true)
        | Some (w, true) =>
            match vstep g with
            | None => Exn
            | Some d => Ok (assert_bound h lit (vadd w d) s1 log)
            end
        end
    end.

  (** Solver::discard_bounded, solving.cc 655-663. *)
  Definition discard_bounded (h : host) (o : options) (lit : Z) (s : solver V) (log : list (list Z))
      : res (solver V * list (list Z) * bool) :=
    if negb (ob_active (s_obj s)) || negb (match o_global o with Some _ => true | None => false end)
       || negb (ob_bounded (s_obj s)) || negb (ob_discard (s_obj s))
    then Ok (s, log, true)
    else v ← at_ (s_vars s) (ob_var (s_obj s)); Ok (assert_bound h lit (vadd (v_val v) (vofq 1)) s log).

  (** ** One thread: the pair (offset, solver) of slvs_ *)

  (** Propagator::check, solving.cc 1124-1152, for the thread with [offset]
      and solver [s].  [total]: ass.is_total(); [lit1], [lit2]: the literals
      add_literal returns.  The last component of the result is false iff the
      call to solve in line 1129 failed. *)
  Definition t_check (fuel : nat) (h : host) (o : options) (a : asg) (total : bool) (lit1 lit2 : Z)
      (facts : list Z) (foff : nat) (st : objst) (offset : nat) (s : solver V) (log : list (list Z))
      : res (nat * solver V * list (list Z) * bool) :=
    '(off1, s1, log1, ok1) ←
      (if (a_dl a =? 0) && (offset <? foff) then
         (* LiteralSpan{facts_.data() + offset, facts_offset_} *)
         _ ← guard_ub (offset + foff <=? length facts);
         '(s1, log1, ok1) ← solve fuel h o a (take foff (drop offset facts)) s log;
         Ok (foff, s1, log1, ok1)
       else Ok (offset, s, log, true));
    if negb ok1 then Ok (off1, s1, log1, false)
    else
      '(s2, log2, ok2) ← integrate_objective h o lit1 st s1 log1;
      if negb ok2 then Ok (off1, s2, log2, true)
      else if total : bool then
        s3 ← optimize fuel o s2;
        s4 ← (match o_store o with StoreNo => Ok s3 | _ => store_sat s3 end);
        '(s5, log5, _) ← discard_bounded h o lit2 s4 log2;
        Ok (off1, s5, log5, true)
      else Ok (off1, s2, log2, true).

  (** ** The propagator *)
  Context {Sym : Type} `{EqDecision Sym}.

  (** The members of class Propagator (solving.hh 309-319) but aux_map_ (see
      Parsing.v) and options_ (a parameter of the functions).  var_map_ is the
      function [find_sym] of var_vec_. *)
  Record propagator := Propagator {
    p_vars : list Sym;
    p_obj : list (Qc * Sym);
    p_iqs : list (ineq Sym);
    p_foff : nat;
    p_facts : list Z;
    p_slvs : list (nat * solver V);
    p_state : objst;
  }.
  Definition new_propagator : propagator := Propagator [] [] [] 0 [] [] os_reset.

  Fixpoint find_from (k : nat) (vs : list Sym) (x : Sym) : option nat :=
    match vs with
    | [] => None
    | y :: r => if decide (x = y) then Some k else find_from (S k) r x
    end.
  (** var_map_.find *)
  Definition find_sym (vs : list Sym) (x : Sym) : option nat := find_from 0 vs x.

  (** gather_vars, solving.cc 1056-1067. *)
  Definition gather (vs : list Sym) (ts : list (Qc * Sym)) : list Sym :=
    fold_left (fun vs t => match find_sym vs t.2 with Some _ => vs | None => vs ++ [t.2] end) ts vs.

  (** slvs_: prepare the solvers of the threads until one fails, solving.cc 1071-1078. *)
  Fixpoint prep_threads (h : host) (o : options) (shuf : nat -> list (bound V) -> list (bound V)) (vs : list Sym)
      (iqs : list (ineq Sym)) (obj : list (Qc * Sym)) (ids : list nat) (log : list (list Z))
      : res (list (nat * solver V) * list (list Z) * bool) :=
    match ids with
    | [] => Ok ([], log, true)
    | i :: ids' =>
        '(s, log1, ok) ← prepare h o (shuf i) (length vs) (find_sym vs) iqs obj (i =? 0) log;
        if negb ok then Ok ([(0, s)], log1, false)
        else '(r, log2, ok2) ← prep_threads h o shuf vs iqs obj ids' log1; Ok ((0, s) :: r, log2, ok2)
    end.

  (** Propagator::init, solving.cc 1046-1079, after evaluate_theory returned
      the constraints [iqs] and the objective [obj] (see Parsing.v). *)
  Definition p_init (h : host) (o : options) (shuf : nat -> list (bound V) -> list (bound V)) (threads : nat)
      (iqs : list (ineq Sym)) (obj : list (Qc * Sym)) (p : propagator) (log : list (list Z))
      : res (propagator * list (list Z) * bool) :=
    let vs := fold_left (fun vs q => gather vs (q_lhs q)) iqs (gather (p_vars p) obj) in
    '(slvs, log', ok) ← prep_threads h o shuf vs iqs obj (seq 0 threads) log;
    Ok (Propagator vs obj iqs (length (p_facts p)) (p_facts p) slvs os_reset, log', ok).

  (** init asks for calls of check on partial assignments, solving.cc 1047-1050. *)
  Definition init_check_both (o : options) (p : propagator) : bool :=
    (0 <? length (p_facts p)) || (match o_global o with Some _ => true | None => false end).

  Definition put_thread (t : nat) (x : nat * solver V) (p : propagator) : propagator :=
    Propagator (p_vars p) (p_obj p) (p_iqs p) (p_foff p) (p_facts p) (<[t := x]> (p_slvs p)) (p_state p).

  (** Propagator::check, solving.cc 1124-1152. *)
  Definition p_check (fuel : nat) (h : host) (o : options) (a : asg) (total : bool) (lit1 lit2 : Z) (t : nat)
      (p : propagator) (log : list (list Z)) : res (propagator * list (list Z) * bool) :=
    '(off, s) ← at_ (p_slvs p) t;
    '(off', s', log', ok) ← t_check fuel h o a total lit1 lit2 (p_facts p) (p_foff p) (p_state p) off s log;
    Ok (put_thread t (off', s') p, log', ok).

  (** Propagator::propagate, solving.cc 1154-1163. *)
  Definition p_propagate (fuel : nat) (h : host) (o : options) (a : asg) (changes : list Z) (t : nat)
      (p : propagator) (log : list (list Z)) : res (propagator * list (list Z) * bool) :=
    let p1 := if (a_dl a =? 0) && (t =? 0)
              then Propagator (p_vars p) (p_obj p) (p_iqs p) (p_foff p) (p_facts p ++ changes) (p_slvs p) (p_state p)
              else p in
    '(off, s) ← at_ (p_slvs p1) t;
    '(s', log', ok) ← solve fuel h o a changes s log;
    Ok (put_thread t (off, s') p1, log', ok).

  (** Propagator::undo, solving.cc 1165-1169. *)
  Definition p_undo (t : nat) (p : propagator) : res propagator :=
    '(off, s) ← at_ (p_slvs p) t;
    s' ← undo s;
    Ok (put_thread t (off, s') p).

  (** Propagator::on_model, solving.cc 1112-1122; [t] is model.thread_id(). *)
  Definition p_on_model (o : options) (t : nat) (p : propagator) : res propagator :=
    match o_global o with
    | None => Ok p
    | Some _ =>
        '(_, s) ← at_ (p_slvs p) t;
        v ← get_objective s;
        match v with
        | None => Ok p
        | Some x => Ok (Propagator (p_vars p) (p_obj p) (p_iqs p) (p_foff p) (p_facts p) (p_slvs p) (os_update x (p_state p)))
        end
    end.

  (** Propagator::decide, solving.cc 1106-1110. *)
  Definition p_decide (o : options) (t : nat) (lit : Z) (p : propagator) : res Z :=
    '(_, s) ← at_ (p_slvs p) t; adjust o s lit.

  (** Propagator::lookup_symbol, get_symbol, has_value, get_value,
      get_objective, n_values, solving.cc 1171-1197. *)
  Definition p_lookup_symbol (p : propagator) (x : Sym) : option nat := find_sym (p_vars p) x.
  Definition p_get_symbol (p : propagator) (i : nat) : res Sym := at_ (p_vars p) i.
  Definition p_has_value (p : propagator) (t i : nat) : bool := i <? length (p_vars p).
  Definition p_get_value (p : propagator) (t i : nat) : res V := '(_, s) ← at_ (p_slvs p) t; get_value s i.
  Definition p_get_objective (p : propagator) (t : nat) : res (option (V * bool)) :=
    '(_, s) ← at_ (p_slvs p) t; get_objective s.
  Definition p_n_values (p : propagator) (t : nat) : nat := length (p_vars p).
End propagator.

Global Arguments objst V : clear implicits.
Global Arguments propagator V Sym : clear implicits.
