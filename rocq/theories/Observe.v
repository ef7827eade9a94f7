(** * What a user of the API sees, and the theorems about it in terms of V

    The first section is the vocabulary of the property theorems: values and
    objective as returned by the API, literals assigned by clingo. *)

From Verif Require Import Num Sums Tableau Solver Spec Eps Propagator World.

Section observe.
  Context {V : Type} `{Value V} {Sym : Type} `{EqDecision Sym}.

  (** the value of a symbol: lookup_symbol, then get_value *)
  Definition api_value (p : propagator V Sym) (t : nat) (x : Sym) : V :=
    match p_lookup_symbol p x with
    | Some i => match p_get_value p t i with Ok v => v | _ => vzero end
    | None => vzero
    end.
  (** literals delivered to thread [t] and not undone *)
  Definition assigned (w : world V Sym) (t : nat) : list Z := held (th_stk (thread_of w t)).
  (** the last call on thread [t] did not end in a conflict *)
  Definition accepted (w : world V Sym) (t : nat) : Prop := t < length (w_th w) /\ th_blk (thread_of w t) = false.
  Definition blocked (w : world V Sym) (t : nat) : Prop := t < length (w_th w) /\ th_blk (thread_of w t) = true.
  (** the literal of [q] was not false when init ran (otherwise the constraint
      is dropped; clingo never makes such a literal true) *)
  Definition watched (sh : shot V Sym) (q : ineq Sym) : Prop := forall log, h_false (sh_host sh) log (q_lit q) = false.
  (** the clauses handed to clingo in the current shot, those of init included *)
  Definition shot_log (sh : shot V Sym) (w : world V Sym) : list (list Z) := drop (length (sh_log sh)) (w_log w).
  Lemma shot_log_sub (sh : shot V Sym) (w : world V Sym) : shot_log sh w ⊆ w_log w.
  Proof. intros c Hc. rewrite <- (take_drop (length (sh_log sh)) (w_log w)). apply elem_of_app. right. exact Hc. Qed.
  (** constraints of the current shot whose literal is true in thread [t] *)
  Definition in_force (sh : shot V Sym) (w : world V Sym) (t : nat) (q : ineq Sym) : Prop :=
    q ∈ sh_iqs sh /\ q_lit q ∈ assigned w t /\ watched sh q.
End observe.
