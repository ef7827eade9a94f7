(** * Watches: which literals the propagator asks clingo to report

    clingo calls propagate only for literals the propagator has put on its
    watch list (PropagateInit::add_watch, PropagateControl::add_watch).
    Propagator.v and Solver.v leave these requests out; here [f_wt] is the
    function [f] of Propagator.v or World.v that also returns the requests. *)

From Verif Require Import Num Tableau Solver Propagator World.

Section watch.
  Context {V : Type} `{Value V} {Sym : Type} `{EqDecision Sym}.

  (** Propagator::init, solving.cc 1064-1067: init.add_watch(x.lit) for every
      constraint, on all threads. *)
  Definition init_watches (threads : nat) (iqs : list (ineq Sym)) : list (list Z) :=
    replicate threads (map q_lit iqs).

  (** Solver::assert_bound_, solving.cc 619-629: add_watch in line 624, on the
      thread of the caller. *)
  Definition assert_bound_wt (h : host) (lit : Z) (v : V) (s : solver V) (log : list (list Z))
      : solver V * list (list Z) * bool * list Z :=
    let b := Bound (length (s_bounds s)) v (ob_bound_var (s_obj s)) lit BGe in
    let s1 := set_clause [lit] (set_bounds (s_bounds s ++ [b]) s) in
    let log1 := log ++ [[lit]] in
    (s1, log1, h_reply h log1, [lit]).

  (** Solver::integrate_objective, solving.cc 631-653 *)
  Definition integrate_objective_wt (h : host) (o : options) (lit : Z) (st : objst V) (s : solver V) (log : list (list Z))
      : res (solver V * list (list Z) * bool * list Z) :=
    match o_global o with
    | None => Ok (s, log, true, [])
    | Some g =>
        let '(gen, v) := os_value (ob_gen (s_obj s)) st in
        let s1 := set_obj (obj_set_gen gen (s_obj s)) s in
        match v with
        | None => Ok (s1, log, true, [])
        | Some (_, false) => Ok (set_obj (obj_set_discard true (s_obj s1)) s1, log, true, [])
        | Some (w, true) =>
            match vstep g with
            | None => Exn
            | Some d => Ok (assert_bound_wt h lit (vadd w d) s1 log)
            end
        end
    end.

  (** Solver::discard_bounded, solving.cc 655-663 *)
  Definition discard_bounded_wt (h : host) (o : options) (lit : Z) (s : solver V) (log : list (list Z))
      : res (solver V * list (list Z) * bool * list Z) :=
    if negb (ob_active (s_obj s)) || negb (match o_global o with Some _ => true | None => false end)
       || negb (ob_bounded (s_obj s)) || negb (ob_discard (s_obj s))
    then Ok (s, log, true, [])
    else v ← at_ (s_vars s) (ob_var (s_obj s)); Ok (assert_bound_wt h lit (vadd (v_val v) (vofq 1)) s log).

  (** Propagator::check, solving.cc 1124-1152 *)
  Definition t_check_wt (fuel : nat) (h : host) (o : options) (a : asg) (total : bool) (lit1 lit2 : Z)
      (facts : list Z) (foff : nat) (st : objst V) (offset : nat) (s : solver V) (log : list (list Z))
      : res (nat * solver V * list (list Z) * bool * list Z) :=
    '(off1, s1, log1, ok1) ←
      (if (a_dl a =? 0) && (offset <? foff) then
         _ ← guard_ub (offset + foff <=? length facts);
         '(s1, log1, ok1) ← solve fuel h o a (take foff (drop offset facts)) s log;
         Ok (foff, s1, log1, ok1)
       else Ok (offset, s, log, true));
    if negb ok1 then Ok (off1, s1, log1, false, [])
    else
      '(s2, log2, ok2, ws2) ← integrate_objective_wt h o lit1 st s1 log1;
      if negb ok2 then Ok (off1, s2, log2, true, ws2)
      else if total : bool then
        s3 ← optimize fuel o s2;
        s4 ← (match o_store o with StoreNo => Ok s3 | _ => store_sat s3 end);
        '(s5, log5, _, ws5) ← discard_bounded_wt h o lit2 s4 log2;
        Ok (off1, s5, log5, true, ws2 ++ ws5)
      else Ok (off1, s2, log2, true, ws2).

  (** One callback; [ws]: the watch lists of the threads.  Only check asks for
      watches: propagate (solving.cc 1154-1163), undo (1165-1169) and on_model
      (1112-1122) do not call add_watch. *)
  Definition wstep_wt (fuel : nat) (o : options) (e : event) (w : world V Sym) (ws : list (list Z))
      : res (world V Sym * list (list Z)) :=
    match e with
    | EvCheck t h a total lit1 lit2 =>
        '(off, s) ← at_ (p_slvs (w_p w)) t;
        let k := if (a_dl a =? 0) && (off <? p_foff (w_p w))
                 then deliver 0 (take (p_foff (w_p w)) (p_facts (w_p w))) (snaps (w_p w) t) (th_stk (thread_of w t))
                 else th_stk (thread_of w t) in
        '(off', s', log', ok, new) ←
          t_check_wt fuel h o a total lit1 lit2 (p_facts (w_p w)) (p_foff (w_p w)) (p_state (w_p w)) off s (w_log w);
        Ok (World (put_thread t (off', s') (w_p w)) log' (<[t := Thread k (blocks ok k log')]> (w_th w)) (w_rep w),
            alter (fun l => l ++ new) t ws)
    | _ => w' ← wstep fuel o e w; Ok (w', ws)
    end.
End watch.
