(** * Histories: arbitrary interleavings of clingo's callbacks

    This file fixes what a run of the propagator is.  A history is a list of
    callbacks, in any order and on any thread; the arguments of each callback
    (literals, levels, replies of clingo) are arbitrary.  [adm] lists what the
    theorems assume about clingo (see DESIGN.md, "host protocol"). *)

From Verif Require Import Num Sums Tableau Solver Spec Propagator.

Section world.
  Context {V : Type} `{Value V} {Sym : Type} `{EqDecision Sym}.

  (** A callback: Propagator::propagate, check, undo and on_model on thread [t]. *)
  Inductive event :=
    | EvPropagate (t : nat) (h : host) (a : asg) (lits : list Z)
    | EvCheck (t : nat) (h : host) (a : asg) (total : bool) (lit1 lit2 : Z)
    | EvUndo (t : nat)
    | EvModel (t : nat).

  (** What clingo knows about a thread.  One entry per decision level at which
      literals were delivered and not undone, topmost first: the level, the
      literals, and (for observation only) lower bound, upper bound and value
      of the thread's variables before.  [th_blk]: the last call added a clause all of whose
      literals are false, and no level was undone since. *)
  Definition snap : Type := option (bound V) * option (bound V) * V.
  Record entry := Entry { en_level : nat; en_lits : list Z; en_snap : list snap }.
  Record thread := Thread { th_stk : list entry; th_blk : bool }.

  Definition held (k : list entry) : list Z := concat (map en_lits k).
  Definition toplevel (k : list entry) : nat := match k with [] => 0 | e :: _ => en_level e end.
  Definition deliver (dl : nat) (lits : list Z) (vals : list snap) (k : list entry) : list entry :=
    match k with
    | [] => [Entry dl lits vals]
    | e :: r => if en_level e <? dl then Entry dl lits vals :: k else Entry (en_level e) (en_lits e ++ lits) (en_snap e) :: r
    end.
  Definition falsified (held : list Z) (c : list Z) : bool := forallb (fun l => bool_decide ((- l)%Z ∈ held)) c.
  Definition blocks (ok : bool) (k : list entry) (log : list (list Z)) : bool :=
    negb ok && match last log with Some c => falsified (held k) c | None => false end.

  Record world := World {
    w_p : propagator V Sym;
    w_log : list (list Z);        (* all clauses handed to clingo *)
    w_th : list thread;
    w_rep : list (V * bool);      (* objective values of the models reported so far *)
  }.

  Definition snap_of (v : var V) : snap := (v_lower v, v_upper v, v_val v).
  Definition snaps (p : propagator V Sym) (t : nat) : list snap :=
    match p_slvs p !! t with Some (_, s) => map snap_of (s_vars s) | None => [] end.
  Definition thread_of (w : world) (t : nat) : thread := default (Thread [] false) (w_th w !! t).

  Definition wstep (fuel : nat) (o : options) (e : event) (w : world) : res world :=
    match e with
    | EvPropagate t h a lits =>
        let k := deliver (a_dl a) lits (snaps (w_p w) t) (th_stk (thread_of w t)) in
        '(p, log, ok) ← p_propagate fuel h o a lits t (w_p w) (w_log w);
        Ok (World p log (<[t := Thread k (blocks ok k log)]> (w_th w)) (w_rep w))
    | EvCheck t h a total lit1 lit2 =>
        '(off, _) ← at_ (p_slvs (w_p w)) t;
        let k := if (a_dl a =? 0) && (off <? p_foff (w_p w))
                 then deliver 0 (take (p_foff (w_p w)) (p_facts (w_p w))) (snaps (w_p w) t) (th_stk (thread_of w t))
                 else th_stk (thread_of w t) in
        '(p, log, ok) ← p_check fuel h o a total lit1 lit2 t (w_p w) (w_log w);
        Ok (World p log (<[t := Thread k (blocks ok k log)]> (w_th w)) (w_rep w))
    | EvUndo t =>
        p ← p_undo t (w_p w);
        Ok (World p (w_log w) (<[t := Thread (tail (th_stk (thread_of w t))) false]> (w_th w)) (w_rep w))
    | EvModel t =>
        v ← p_get_objective (w_p w) t;
        p ← p_on_model o t (w_p w);
        Ok (World p (w_log w) (w_th w) (match v with Some x => w_rep w ++ [x] | None => w_rep w end))
    end.
  Fixpoint run (fuel : nat) (o : options) (evs : list event) (w : world) : res world :=
    match evs with
    | [] => Ok w
    | e :: evs' => w1 ← wstep fuel o e w; run fuel o evs' w1
    end.

  (** the literals add_literal returned during a call *)
  Definition ev_lits (e : event) : list Z := match e with EvCheck _ _ _ _ l1 l2 => [l1; l2] | _ => [] end.

  (** Assignment::level agrees with the level at which literals were delivered. *)
  Definition levels (a : asg) (k : list entry) : Prop := forall e l, e ∈ k -> l ∈ en_lits e -> a_level a l = en_level e.

  (** The assumptions about clingo. *)
  Definition adm (e : event) (w : world) : Prop :=
    match e with
    | EvPropagate t h a lits =>
        t < length (w_th w) /\ th_blk (thread_of w t) = false /\
        toplevel (th_stk (thread_of w t)) <= a_dl a /\
        levels a (th_stk (thread_of w t)) /\ (forall l, l ∈ lits -> a_level a l = a_dl a)
    | EvCheck t h a total lit1 lit2 =>
        t < length (w_th w) /\ th_blk (thread_of w t) = false /\
        toplevel (th_stk (thread_of w t)) <= a_dl a /\
        levels a (th_stk (thread_of w t)) /\
        (forall l, l ∈ p_facts (w_p w) -> a_level a l = 0) /\
        (* add_literal returns a literal that is not in use *)
        (forall l, l = lit1 \/ l = lit2 -> l ∉ held (th_stk (thread_of w t)) /\ l ∉ p_facts (w_p w))
    | EvUndo t => t < length (w_th w) /\ 0 < toplevel (th_stk (thread_of w t))
    | EvModel t => t < length (w_th w) /\ th_blk (thread_of w t) = false
    end.
  (** [eq_safe e w]: the call [e] does not run into the equality bug of the
      trail (Props_Equality.v).  Nothing is asked of calls on level 0 and of
      calls other than propagate.  Above level 0: a literal of an equality on
      a single variable, [c*x = rhs], is only delivered if every constraint
      [c'*x rel' rhs'] on the same variable whose literal is assigned (before
      or by this call) is an equality too, is violated by x = rhs/c, or is
      satisfied by it with equality. *)
  Definition eq_safe (e : event) (w : world) : Prop :=
    match e with
    | EvPropagate t h a lits => a_dl a = 0 \/
        forall q q' c c' x, q ∈ p_iqs (w_p w) -> q' ∈ p_iqs (w_p w) -> q_lhs q = [(c, x)] -> q_lhs q' = [(c', x)] -> q_rel q = Req -> q_rel q' <> Req ->
          q_lit q ∈ lits -> q_lit q' ∈ held (th_stk (thread_of w t)) ++ lits -> ~ slack q q' c c'
    | _ => True
    end.
  Fixpoint adm_run (fuel : nat) (o : options) (evs : list event) (w : world) : Prop :=
    match evs with
    | [] => True
    | e :: evs' => adm e w /\ match wstep fuel o e w with Ok w1 => adm_run fuel o evs' w1 | _ => True end
    end.

  (** The world after init. *)
  Definition start (p : propagator V Sym) (log : list (list Z)) : world :=
    World p log (map (fun _ => Thread [] false) (p_slvs p)) [].

  (** One callback returns normally: enough fuel exists. *)
  Definition step (o : options) (e : event) (w w' : world) : Prop := exists fuel, wstep fuel o e w = Ok w'.
End world.

Global Arguments world V Sym : clear implicits.
Global Arguments entry V : clear implicits.
Global Arguments thread V : clear implicits.

(** * Sessions: any number of init calls, each followed by any history *)
Section session.
  Context {V : Type} `{Value V} {Sym : Type} `{EqDecision Sym}.

  (** The arguments of a call of init: clingo's replies, the order in which
      std::sort leaves the bounds of each thread, the number of threads, the
      constraints and the objective returned by evaluate_theory. *)
  Record shot := Shot {
    sh_host : host;
    sh_sort : nat -> list (bound V) -> list (bound V);
    sh_threads : nat;
    sh_iqs : list (ineq Sym);
    sh_obj : list (Qc * Sym);
    sh_log : list (list Z);     (* clauses handed over before *)
  }.

  (** left-hand sides as evaluate_theory leaves them: no symbol twice, no
      coefficient 0 (proved of the model of evaluate_theory in Parsing.v) *)
  Definition normal (ts : list (Qc * Sym)) : Prop := NoDup (map snd ts) /\ forall c x, (c, x) ∈ ts -> c <> 0%Qc.
  (** The relations V can represent: all of them for RatQ, the non-strict ones
      for Qc (the grammar registered without --strict refuses the others, C46). *)
  Definition representable (r : rel) : Prop :=
    forall q, (vemb (vbound q r : V)).2 = match r with Rlt => (-(1))%Qc | Rgt => 1%Qc | _ => 0%Qc end.
  Record shot_ok (sh : shot) : Prop := {
    so_lhs : forall q, q ∈ sh_iqs sh -> normal (q_lhs q);
    so_obj : normal (sh_obj sh);
    so_rel : forall q, q ∈ sh_iqs sh -> representable (q_rel q) /\ representable (invert (q_rel q));
    so_sort : forall i l, sh_sort sh i l ≡ₚ l;
  }.
  (** the step of global optimization is representable (validate_options) *)
  Definition step_ok (o : options) : Prop := forall g, o_global o = Some g -> vstep (V := V) g <> None.

  (** [reach o sh w]: the session is in state [w], in the shot [sh]. *)
  Inductive reach (o : options) : shot -> world V Sym -> Prop :=
    | reach_first sh p log : shot_ok sh -> sh_log sh = [] ->
        p_init (sh_host sh) o (sh_sort sh) (sh_threads sh) (sh_iqs sh) (sh_obj sh) new_propagator [] = Ok (p, log, true) ->
        reach o sh (start p log)
    | reach_next sh0 w0 sh p log : reach o sh0 w0 -> shot_ok sh -> sh_log sh = w_log w0 ->
        p_init (sh_host sh) o (sh_sort sh) (sh_threads sh) (sh_iqs sh) (sh_obj sh) (w_p w0) (w_log w0) = Ok (p, log, true) ->
        reach o sh (start p log)
    | reach_step sh w e w' : reach o sh w -> adm e w -> eq_safe e w -> step o e w w' -> reach o sh w'.

  (** A sufficient condition on the constraints alone: if a constraint on a
      single variable is an equality then so are all other constraints on just
      that variable. *)
  Definition eq_separate (qs : list (ineq Sym)) : Prop := forall q q' c c' x, q ∈ qs -> q' ∈ qs ->
    q_lhs q = [(c, x)] -> q_lhs q' = [(c', x)] -> q_rel q = Req -> q_rel q' = Req.
  Lemma eq_separate_safe e (w : world V Sym) : eq_separate (p_iqs (w_p w)) -> eq_safe e w.
  Proof. intros Hs. destruct e as [t h a lits| | |]; cbn; auto. right. intros q q' c c' x H1 H2 H3 H4 H5 H6. exfalso. apply H6. eapply Hs; eauto. Qed.
End session.

Global Arguments shot V Sym : clear implicits.
