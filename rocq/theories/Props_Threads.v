(** * C57: threads do not influence one another

    What a thread reports only depends on the callbacks on that thread, on
    clingo's replies to it, and, with global optimization, on the models reported
    by other threads. *)

From Verif Require Import Num Solver Spec Propagator World WeakReach Observe Progress Examples.

(** ** Replies of clingo, relative to the clauses added during a call *)
Section relative.
  Context {V : Type} `{Value V}.
  Notation clauses := (list (list Z)).

  (** clingo's replies: the same clauses added to [log] and to [log'] get the same answers *)
  Definition replies (h : host) (log : clauses) (h' : host) (log' : clauses) : Prop := forall cs,
    h_reply h (log ++ cs) = h_reply h' (log' ++ cs) /\ forall x, h_false h (log ++ cs) x = h_false h' (log' ++ cs) x.
  Lemma replies_app h log h' log' cs : replies h log h' log' -> replies h (log ++ cs) h' (log' ++ cs).
  Proof. intros R ds. rewrite <- !app_assoc. apply R. Qed.
  Lemma replies_now h log h' log' : replies h log h' log' -> h_reply h log = h_reply h' log' /\ forall x, h_false h log x = h_false h' log' x.
  Proof. intros R. specialize (R []). rewrite !app_nil_r in R. exact R. Qed.

  (** a result depends on the clauses before the call only by listing them first;
      a failure comes with a clause *)
  Definition relative {A} (f : host -> clauses -> res (A * clauses * bool)) : Prop := forall h log h' log' x log1 ok, replies h log h' log' ->
    f h log = Ok (x, log1, ok) -> exists cs, log1 = log ++ cs /\ (ok = false -> cs <> []) /\ f h' log' = Ok (x, log' ++ cs, ok).

  Lemma relative_ret {A} (x : A) : relative (fun h log => Ok (x, log, true)).
  Proof. intros h log h' log' y log1 ok R [= <- <- <-]. exists []. rewrite !app_nil_r. split; [reflexivity|]. split; [discriminate|reflexivity]. Qed.
  (** first [f]; if it succeeds, then [g] *)
  Lemma relative_then {A B} (f : host -> clauses -> res (A * clauses * bool)) (g : A -> host -> clauses -> res (B * clauses * bool)) (k : A -> B) : relative f -> (forall x, relative (g x)) ->
    relative (fun h log => '(x, log1, ok) ← f h log; if (ok : bool) then g x h log1 else Ok (k x, log1, false)).
  Proof.
    intros Hf Hg h log h' log' y log2 ok R E. apply bind_ok in E as ([[x log1] ok1] & E1 & E). destruct (Hf _ _ _ _ _ _ _ R E1) as (cs & -> & Hc & E1').
    rewrite E1'. cbn [mbind res_bind]. destruct ok1.
    - destruct (Hg x _ _ _ _ _ _ _ (replies_app _ _ _ _ cs R) E) as (ds & -> & Hd & E2). exists (cs ++ ds). rewrite !app_assoc. split; [reflexivity|]. split; [|exact E2].
      intros Eo En. apply (Hd Eo). destruct ds; [reflexivity|]. apply app_nil in En as [_ En]. discriminate En.
    - injection E as <- <- <-. exists cs. split; [reflexivity|]. split; [exact Hc|reflexivity].
  Qed.
  Lemma relative_bind {A B} (r : res A) (g : A -> host -> clauses -> res (B * clauses * bool)) : (forall a, relative (g a)) -> relative (fun h log => a ← r; g a h log).
  Proof. intros Hg h log h' log' y log1 ok R E. apply bind_ok in E as (a & -> & E). exact (Hg a _ _ _ _ _ _ _ R E). Qed.

  Lemma prop_bounds_relative test clause bs : forall s : solver V, relative (fun h log => Ok (prop_bounds h test clause bs s log)).
  Proof.
    induction bs as [|b bs IH]; intros s; [apply relative_ret|]. intros h log h' log' y log1 ok R [= E]. cbn [prop_bounds] in E |- *.
    destruct (replies_now _ _ _ _ R) as [_ Hf]. rewrite (Hf (b_lit b)) in E. destruct (test b && negb (h_false h' log' (b_lit b))).
    - pose proof (replies_app _ _ _ _ [clause ++ [(- b_lit b)%Z]] R) as R1. destruct (replies_now _ _ _ _ R1) as [Hr _]. rewrite Hr in E. destruct (h_reply h' (log' ++ [clause ++ [(- b_lit b)%Z]])).
      + destruct (IH _ _ _ _ _ _ _ _ R1 (f_equal Ok E)) as (cs & -> & _ & E2). injection E2 as E2. exists ((clause ++ [(- b_lit b)%Z]) :: cs). split; [rewrite <- app_assoc; reflexivity|].
        split; [discriminate|]. rewrite E2, <- app_assoc. reflexivity.
      + injection E as <- <- <-. exists [clause ++ [(- b_lit b)%Z]]. split; [reflexivity|]. split; [discriminate|reflexivity].
    - exact (IH s _ _ _ _ _ _ _ R (f_equal Ok E)).
  Qed.
  Lemma prop_row_relative i (s : solver V) : relative (fun h log => prop_row h i s log).
  Proof.
    unfold prop_row. apply relative_bind. intros _. cbv zeta. apply relative_bind. intros [lo up]. destruct (negb up && negb lo); [apply relative_ret|].
    apply relative_bind. intros [l u]. apply relative_bind. intros yi. apply relative_bind. intros y.
    intros h log h' log' x log1 ok R E.
    set (f := fun (h : host) (log : clauses) => match u.1 with Some uv => prop_bounds h (fun b => match b_rel b with BLe => false | _ => vgtb (b_val b) uv end) u.2 (v_bounds y) (upd_var i (vset_prop false) s) log
      | None => (upd_var i (vset_prop false) s, log, true) end) in *.
    set (g := fun (s1 : solver V) (h : host) (log1 : clauses) => match l.1 with
        | Some lv => Ok (prop_bounds h (fun b => match b_rel b with BGe => false | _ => vltb (b_val b) lv end) l.2 (v_bounds y) s1 log1)
        | None => Ok (s1, log1, true) end).
    assert (Hf : relative (fun h log => Ok (f h log))) by (unfold f; destruct (u.1); [apply prop_bounds_relative|apply relative_ret]).
    assert (Hg : forall s1, relative (g s1)) by (intros s1; unfold g; destruct (l.1); [apply prop_bounds_relative|apply relative_ret]).
    pose proof (relative_then (fun h log => Ok (f h log)) g (fun s1 => s1) Hf Hg) as G.
    assert (Q : forall h log, (let '(s1, log1, ok1) := f h log in if negb ok1 then Ok (s1, log1, false) else g s1 h log1) =
      ('(x, log1, ok) ← Ok (f h log); if (ok : bool) then g x h log1 else Ok (x, log1, false))).
    { intros h0 log0. cbn [mbind res_bind]. destruct (f h0 log0) as [[s1 l1] [|]]; reflexivity. }
    change ((let '(s1, log1, ok1) := f h log in if negb ok1 then Ok (s1, log1, false) else g s1 h log1) = Ok (x, log1, ok)) in E. rewrite Q in E.
    destruct (G h log h' log' x log1 ok R E) as (cs & E1 & Hc & E2). exists cs. split; [exact E1|]. split; [exact Hc|]. rewrite <- Q in E2. exact E2.
  Qed.
  Lemma prop_rows_relative changed is : forall s : solver V, relative (fun h log => prop_rows h changed is s log).
  Proof.
    induction is as [|i is IH]; intros s; cbn [prop_rows]; [apply relative_ret|].
    exact (relative_then (fun h log => prop_row h i (if changed then set_pq is s else s) log) (fun x h log => prop_rows h changed is x log) (fun x => x) (prop_row_relative i _) (fun x => IH x)).
  Qed.
  Lemma propagate_relative o (s : solver V) : relative (fun h log => propagate_ h o s log).
  Proof. unfold propagate_. destruct (o_pmode o); [apply relative_ret|apply prop_rows_relative|apply prop_rows_relative]. Qed.
  Lemma solve_relative fuel o a lits (s : solver V) : relative (fun h log => solve fuel h o a lits s log).
  Proof.
    unfold solve. apply relative_bind. intros [s1 ok]. destruct ok; [apply propagate_relative|].
    intros h log h' log' x log1 ok R [= <- <- <-]. exists [s_clause s1]. split; [reflexivity|]. split; [discriminate|reflexivity].
  Qed.
  Lemma assert_relative lit v (s : solver V) : relative (fun h log => Ok (assert_bound h lit v s log)).
  Proof.
    intros h log h' log' x log1 ok R [= <- <- <-]. exists [[lit]]. split; [reflexivity|]. split; [discriminate|]. unfold assert_bound.
    destruct (replies_now _ _ _ _ (replies_app _ _ _ _ [[lit]] R)) as [-> _]. reflexivity.
  Qed.
  Lemma integrate_relative o lit st (s : solver V) : relative (fun h log => integrate_objective h o lit st s log).
  Proof.
    unfold integrate_objective. destruct (o_global o) as [g|]; [|apply relative_ret]. destruct (os_value _ _) as [gen v]. destruct v as [[w [|]]|]; [|apply relative_ret|apply relative_ret].
    destruct (vstep g); [apply assert_relative|]. intros h log h' log' x log1 ok R E. discriminate E.
  Qed.
  Lemma discard_relative o lit (s : solver V) : relative (fun h log => discard_bounded h o lit s log).
  Proof. unfold discard_bounded. destruct (_ || _); [apply relative_ret|]. apply relative_bind. intros v. apply assert_relative. Qed.

  (** the facts an earlier shot left, as t_check reads them *)
  Lemma t_check_relative fuel o a total l1 l2 facts facts' foff st off (s : solver V) h log h' log' off1 s1 log1 ok : replies h log h' log' ->
    take foff facts' = take foff facts -> foff <= length facts' -> off = 0 \/ off = foff ->
    t_check fuel h o a total l1 l2 facts foff st off s log = Ok (off1, s1, log1, ok) ->
    exists cs, log1 = log ++ cs /\ (ok = false -> cs <> []) /\ (off1 = 0 \/ off1 = foff) /\ t_check fuel h' o a total l1 l2 facts' foff st off s log' = Ok (off1, s1, log' ++ cs, ok).
  Proof.
    intros R Hf Hl Ho. unfold t_check. intros E. apply bind_ok in E as ([[[off2 s2] log2] ok2] & E1 & E).
    assert (S1 : exists cs, log2 = log ++ cs /\ (ok2 = false -> cs <> []) /\ (off2 = 0 \/ off2 = foff) /\
      (if (a_dl a =? 0) && (off <? foff) then _ ← guard_ub (off + foff <=? length facts');
         '(s1, log1, ok1) ← solve fuel h' o a (take foff (drop off facts')) s log'; Ok (foff, s1, log1, ok1) else Ok (off, s, log', true)) = Ok (off2, s2, log' ++ cs, ok2)).
    { destruct ((a_dl a =? 0) && (off <? foff)) eqn:Ec.
      - apply andb_true_iff in Ec as [_ Ec]. apply Nat.ltb_lt in Ec. assert (off = 0) as -> by lia. apply bind_ok in E1 as (u & _ & E1).
        apply bind_ok in E1 as ([[s3 log3] ok3] & E3 & E1). injection E1 as <- <- <- <-. rewrite !drop_0, Hf. rewrite drop_0 in E3.
        destruct (solve_relative _ _ _ _ _ _ _ _ _ _ _ _ R E3) as (cs & -> & Hc & E3'). exists cs. split; [reflexivity|]. split; [exact Hc|]. split; [right; reflexivity|].
        assert (Eg : (0 + foff <=? length facts') = true) by (apply Nat.leb_le; lia). rewrite Eg. cbn [guard_ub mbind res_bind]. rewrite E3'. reflexivity.
      - injection E1 as <- <- <- <-. exists []. rewrite !app_nil_r. split; [reflexivity|]. split; [discriminate|]. split; [exact Ho|reflexivity]. }
    clear E1. destruct S1 as (cs & -> & Hc & Hoff & E1). rewrite E1. cbn [mbind res_bind]. destruct ok2; cbn [negb] in E |- *.
    2:{ injection E as <- <- <- <-. exists cs. split; [reflexivity|]. split; [exact Hc|]. split; [exact Hoff|reflexivity]. }
    pose proof (replies_app _ _ _ _ cs R) as R1. apply bind_ok in E as ([[s3 log3] ok3] & E2 & E). destruct (integrate_relative o l1 st s2 _ _ _ _ _ _ _ R1 E2) as (ds & -> & _ & E2'). rewrite E2'.
    cbn [mbind res_bind]. destruct ok3; cbn [negb] in E |- *.
    2:{ injection E as <- <- <- <-. exists (cs ++ ds). rewrite !app_assoc. split; [reflexivity|]. split; [discriminate|]. split; [exact Hoff|reflexivity]. }
    pose proof (replies_app _ _ _ _ ds R1) as R2. destruct total.
    2:{ injection E as <- <- <- <-. exists (cs ++ ds). rewrite !app_assoc. split; [reflexivity|]. split; [discriminate|]. split; [exact Hoff|reflexivity]. }
    apply bind_ok in E as (s4 & E3 & E). rewrite E3. cbn [mbind res_bind]. apply bind_ok in E as (s5 & E4 & E). rewrite E4. cbn [mbind res_bind].
    apply bind_ok in E as ([[s6 log6] ok6] & E5 & E). destruct (discard_relative o l2 s5 _ _ _ _ _ _ _ R2 E5) as (es & -> & _ & E5'). rewrite E5'. cbn [mbind res_bind].
    injection E as <- <- <- <-. exists ((cs ++ ds) ++ es). rewrite !app_assoc. split; [reflexivity|]. split; [discriminate|]. split; [exact Hoff|reflexivity].
  Qed.
  (** clauses are only added *)
  Lemma t_check_log fuel h o a total l1 l2 facts foff st off (s : solver V) log off1 s1 log1 ok : t_check fuel h o a total l1 l2 facts foff st off s log = Ok (off1, s1, log1, ok) -> exists cs, log1 = log ++ cs.
  Proof.
    assert (R : forall h log, replies h log h log) by (intros h0 log0 cs; split; reflexivity).
    unfold t_check. intros E. apply bind_ok in E as ([[[off2 s2] log2] ok2] & E1 & E).
    assert (S1 : exists cs, log2 = log ++ cs).
    { destruct (_ && _); [|injection E1 as <- <- <- <-; exists []; rewrite app_nil_r; reflexivity]. apply bind_ok in E1 as (u & _ & E1). apply bind_ok in E1 as ([[s3 log3] ok3] & E3 & E1). injection E1 as <- <- <- <-.
      destruct (solve_relative _ _ _ _ _ _ _ _ _ _ _ _ (R _ _) E3) as (cs & -> & _). exists cs. reflexivity. }
    destruct S1 as (cs & ->). destruct ok2; cbn [negb] in E; [|injection E as <- <- <- <-; exists cs; reflexivity].
    apply bind_ok in E as ([[s3 log3] ok3] & E2 & E). destruct (integrate_relative o l1 st s2 _ _ _ _ _ _ _ (R _ _) E2) as (ds & -> & _).
    destruct ok3; cbn [negb] in E; [|injection E as <- <- <- <-; exists (cs ++ ds); rewrite app_assoc; reflexivity].
    destruct total; [|injection E as <- <- <- <-; exists (cs ++ ds); rewrite app_assoc; reflexivity].
    apply bind_ok in E as (s4 & E3 & E). apply bind_ok in E as (s5 & E4 & E). apply bind_ok in E as ([[s6 log6] ok6] & E5 & E).
    destruct (discard_relative o l2 s5 _ _ _ _ _ _ _ (R _ _) E5) as (es & -> & _). injection E as <- <- <- <-. exists ((cs ++ ds) ++ es). rewrite !app_assoc. reflexivity.
  Qed.
End relative.

Section threads.
  Context {V : Type} `{Value V} {Sym : Type} `{EqDecision Sym}.
  Implicit Types w : world V Sym.
  Implicit Types sh : shot V Sym.
  Notation clauses := (list (list Z)).

  (** ** Specification *)

  (** thread [t] looks the same in both states: through every function of the
      API, to clingo's decision heuristic, and in its assigned literals *)
  Record looks_same (o : options) (t : nat) w w' : Prop := {
    ls_lookup : forall x, p_lookup_symbol (w_p w') x = p_lookup_symbol (w_p w) x;
    ls_symbol : forall i, p_get_symbol (w_p w') i = p_get_symbol (w_p w) i;
    ls_has : forall i, p_has_value (w_p w') t i = p_has_value (w_p w) t i;
    ls_value : forall i, p_get_value (w_p w') t i = p_get_value (w_p w) t i;
    ls_count : p_n_values (w_p w') t = p_n_values (w_p w) t;
    ls_objective : p_get_objective (w_p w') t = p_get_objective (w_p w) t;
    ls_decide : forall l, p_decide o t l (w_p w') = p_decide o t l (w_p w);
    ls_assigned : assigned w' t = assigned w t;
    ls_accepted : accepted w' t <-> accepted w t;
    ls_blocked : blocked w' t <-> blocked w t;
  }.

  (** a callback that returned: its arguments, the clauses handed to clingo
      before, and the clauses it added *)
  Record call := Call { c_event : event; c_before : clauses; c_added : clauses }.
  Inductive run_from (o : options) : world V Sym -> list call -> world V Sym -> Prop :=
    | rf_nil w : run_from o w [] w
    | rf_snoc w cs w1 e w2 new : run_from o w cs w1 -> adm e w1 -> step o e w1 w2 -> w_log w2 = w_log w1 ++ new -> run_from o w (cs ++ [Call e (w_log w1) new]) w2.
  (** the same callback with the same arguments and the same replies of clingo *)
  Inductive same_event (log log' : clauses) : event -> event -> Prop :=
    | se_propagate t h h' a lits : replies h log h' log' -> same_event log log' (EvPropagate t h a lits) (EvPropagate t h' a lits)
    | se_check t h h' a total l1 l2 : replies h log h' log' -> same_event log log' (EvCheck t h a total l1 l2) (EvCheck t h' a total l1 l2)
    | se_undo t : same_event log log' (EvUndo t) (EvUndo t)
    | se_model t : same_event log log' (EvModel t) (EvModel t).
  (** the same callback, adding the same clauses *)
  Definition same_call (c c' : call) : Prop := same_event (c_before c) (c_before c') (c_event c) (c_event c') /\ c_added c' = c_added c.
  (** a model reported by another thread, while optimizing globally *)
  Definition foreign_model (o : options) (t : nat) (e : event) : Prop := is_model e = true /\ ev_thread e <> t /\ o_global o <> None.
  Definition of_thread (t : nat) (c : call) : bool := ev_thread (c_event c) =? t.

  (** ** Proof *)
  Record agree (t : nat) w w' : Prop := {
    ag_vars : p_vars (w_p w') = p_vars (w_p w);
    ag_iqs : p_iqs (w_p w') = p_iqs (w_p w);
    ag_foff : p_foff (w_p w') = p_foff (w_p w);
    ag_facts : take (p_foff (w_p w)) (p_facts (w_p w')) = take (p_foff (w_p w)) (p_facts (w_p w));
    ag_len : p_foff (w_p w) <= length (p_facts (w_p w'));
    ag_len2 : p_foff (w_p w) <= length (p_facts (w_p w));
    ag_sub : p_facts (w_p w') ⊆ p_facts (w_p w);
    ag_slv : p_slvs (w_p w') !! t = p_slvs (w_p w) !! t;
    ag_off : forall x, p_slvs (w_p w) !! t = Some x -> x.1 = 0 \/ x.1 = p_foff (w_p w);
    ag_state : p_state (w_p w') = p_state (w_p w);
    ag_th : w_th w' !! t = w_th w !! t;
  }.
  Lemma agree_looks o t w w' : agree t w w' -> looks_same o t w w'.
  Proof.
    intros [A1 A2 A3 A4 A5 A5' A6 A7 A8 A9 A10]. assert (Ht : thread_of w' t = thread_of w t) by (unfold thread_of; rewrite A10; reflexivity).
    assert (Hl : t < length (w_th w') <-> t < length (w_th w)). { rewrite <- !lookup_lt_is_Some, A10. reflexivity. }
    constructor; intros; unfold p_lookup_symbol, p_get_symbol, p_has_value, p_get_value, p_n_values, p_get_objective, p_decide, assigned, accepted, blocked, at_; rewrite ?A1, ?A7, ?Ht, ?Hl; reflexivity.
  Qed.
  (** offsets and facts in every session *)
  Definition off_ok w : Prop := p_foff (w_p w) <= length (p_facts (w_p w)) /\ forall t x, p_slvs (w_p w) !! t = Some x -> x.1 = 0 \/ x.1 = p_foff (w_p w).
  Lemma agree_refl t w : off_ok w -> agree t w w.
  Proof. intros [O1 O2]. constructor; try reflexivity; [exact O1|exact O1|]. intros x. apply O2. Qed.

  (** the event with clingo's replies moved to another list of clauses *)
  Definition move_host (log log' : clauses) (h : host) : host := Host (fun l => h_false h (log ++ drop (length log') l)) (fun l => h_reply h (log ++ drop (length log') l)).
  Definition move (log log' : clauses) (e : event) : event :=
    match e with EvPropagate t h a lits => EvPropagate t (move_host log log' h) a lits | EvCheck t h a total l1 l2 => EvCheck t (move_host log log' h) a total l1 l2 | _ => e end.
  Lemma move_replies log log' h : replies h log (move_host log log' h) log'.
  Proof. intros cs. unfold move_host; cbn [h_reply h_false]. rewrite drop_app. split; [reflexivity|intros x; reflexivity]. Qed.
  Lemma move_same log log' e : same_event log log' e (move log log' e).
  Proof. destruct e; cbn [move]; constructor; apply move_replies. Qed.
  Lemma move_adm t w w' e : agree t w w' -> ev_thread e = t -> adm e w -> adm (move (w_log w) (w_log w') e) w'.
  Proof.
    intros A Et. pose proof (ag_th _ _ _ A) as A10. assert (Ht : thread_of w' t = thread_of w t) by (unfold thread_of; rewrite A10; reflexivity).
    assert (Hl : t < length (w_th w') <-> t < length (w_th w)). { rewrite <- !lookup_lt_is_Some, A10. reflexivity. }
    destruct e as [u h a lits|u h a total l1 l2|u|u]; cbn [ev_thread] in Et; subst u; cbn [move adm]; rewrite Ht, Hl.
    - intros Ha; exact Ha.
    - intros (H1 & H2 & H3 & H4 & H5 & H6). pose proof (ag_sub _ _ _ A) as A6. split; [exact H1|]. split; [exact H2|]. split; [exact H3|]. split; [exact H4|]. split.
      + intros l Hi. apply H5, A6, Hi.
      + intros l Hi. destruct (H6 l Hi) as [K1 K2]. split; [exact K1|]. intros K. apply K2, A6, K.
    - intros Ha; exact Ha.
    - intros Ha; exact Ha.
  Qed.
  Lemma last_app_new (log log' cs : clauses) : cs <> [] -> last (log' ++ cs) = last (log ++ cs).
  Proof. intros Hn. rewrite !last_app. destruct cs as [|c cs]; [contradiction|]. destruct (last (c :: cs)) eqn:E; [reflexivity|]. apply last_None in E. discriminate E. Qed.
  Lemma blocks_same ok (k : list (entry V)) (log log' cs : clauses) : (ok = false -> cs <> []) -> blocks ok k (log' ++ cs) = blocks ok k (log ++ cs).
  Proof. intros Hc. unfold blocks. destruct ok; [reflexivity|]. rewrite (last_app_new log log' cs (Hc eq_refl)). reflexivity. Qed.

  (** a callback on [t] has the same effect in both states *)
  Lemma own_step o t w w' e w1 : agree t w w' -> ev_thread e = t -> t < length (w_th w) -> step o e w w1 ->
    exists w1' new, step o (move (w_log w) (w_log w') e) w' w1' /\ w_log w1 = w_log w ++ new /\ w_log w1' = w_log w' ++ new /\ agree t w1 w1'.
  Proof.
    intros A Et Hlt (fuel & E). pose proof (ag_th _ _ _ A) as A10. assert (Ht : thread_of w' t = thread_of w t) by (unfold thread_of; rewrite A10; reflexivity).
    assert (Hl' : t < length (w_th w')). { apply lookup_lt_is_Some. rewrite A10. apply lookup_lt_is_Some. exact Hlt. }
    destruct A as [A1 A2 A3 A4 A5 A5' A6 A7 A8 A9 _].
    assert (Hsn : snaps (w_p w') t = snaps (w_p w) t) by (unfold snaps; rewrite A7; reflexivity).
    destruct e as [u h a lits|u h a total l1 l2|u|u]; cbn [ev_thread] in Et; subst u; cbn [wstep move] in E |- *.
    - apply bind_ok in E as ([[p log] ok] & E1 & E). injection E as <-. unfold p_propagate in E1. apply bind_ok in E1 as ([off s] & Ea & E1). apply bind_ok in E1 as ([[s1 log1] ok1] & E2 & E1).
      injection E1 as <- <- <-. destruct (solve_relative _ _ _ _ _ _ _ _ _ _ _ _ (move_replies (w_log w) (w_log w') h) E2) as (cs & -> & Hc & E2').
      set (fs := if (a_dl a =? 0) && (t =? 0) then p_facts (w_p w) ++ lits else p_facts (w_p w)). set (fs' := if (a_dl a =? 0) && (t =? 0) then p_facts (w_p w') ++ lits else p_facts (w_p w')).
      eexists (World (Propagator (p_vars (w_p w')) (p_obj (w_p w')) (p_iqs (w_p w')) (p_foff (w_p w')) fs' (<[t := (off, s1)]> (p_slvs (w_p w'))) (p_state (w_p w'))) (w_log w' ++ cs) _ (w_rep w')), cs. split.
      { exists fuel. cbn [wstep]. unfold p_propagate. rewrite Hsn, Ht. assert (Ea' : at_ (p_slvs (if (a_dl a =? 0) && (t =? 0) then Propagator (p_vars (w_p w')) (p_obj (w_p w')) (p_iqs (w_p w')) (p_foff (w_p w')) (p_facts (w_p w') ++ lits) (p_slvs (w_p w')) (p_state (w_p w')) else w_p w')) t = Ok (off, s)).
        { apply at_ok. apply at_ok in Ea. transitivity (p_slvs (w_p w') !! t); [destruct (_ && _); reflexivity|]. rewrite A7. revert Ea. destruct (_ && _); auto. }
        rewrite Ea'. cbn [mbind res_bind]. rewrite E2'. cbn [mbind res_bind]. rewrite (blocks_same ok1 _ (w_log w) (w_log w') cs Hc). unfold put_thread, fs'. destruct (_ && _); reflexivity. }
      cbn [w_log]. split; [reflexivity|]. split; [reflexivity|].
      assert (Hslv : p_slvs (w_p w) !! t = Some (off, s)). { apply at_ok in Ea. revert Ea. destruct (_ && _); auto. }
      assert (Hp : put_thread t (off, s1) (if (a_dl a =? 0) && (t =? 0) then Propagator (p_vars (w_p w)) (p_obj (w_p w)) (p_iqs (w_p w)) (p_foff (w_p w)) (p_facts (w_p w) ++ lits) (p_slvs (w_p w)) (p_state (w_p w)) else w_p w)
        = Propagator (p_vars (w_p w)) (p_obj (w_p w)) (p_iqs (w_p w)) (p_foff (w_p w)) fs (<[t := (off, s1)]> (p_slvs (w_p w))) (p_state (w_p w))).
      { unfold put_thread, fs. destruct (_ && _); reflexivity. }
      rewrite Hp. constructor; cbn [w_p w_th p_vars p_iqs p_foff p_facts p_slvs p_state]; try assumption.
      + unfold fs, fs'. destruct (_ && _); [|exact A4]. rewrite !take_app_le by assumption. exact A4.
      + unfold fs'. destruct (_ && _); [rewrite app_length; lia|exact A5].
      + unfold fs. destruct (_ && _); [rewrite app_length; lia|exact A5'].
      + unfold fs, fs'. destruct (_ && _); [|exact A6]. intros x Hx. apply elem_of_app in Hx as [Hx|Hx]; apply elem_of_app; [left; apply A6, Hx|right; exact Hx].
      + rewrite !list_lookup_insert; [reflexivity|apply lookup_lt_Some in Hslv; exact Hslv|rewrite <- A7 in Hslv; apply lookup_lt_Some in Hslv; exact Hslv].
      + intros x. rewrite list_lookup_insert by (apply lookup_lt_Some in Hslv; exact Hslv). intros [= <-]. exact (A8 _ Hslv).
      + rewrite !list_lookup_insert by assumption. reflexivity.
    - apply bind_ok in E as ([off s] & Ea & E). apply bind_ok in E as ([[p log] ok] & E1 & E). injection E as <-. unfold p_check in E1. rewrite Ea in E1. cbn [mbind res_bind] in E1.
      apply bind_ok in E1 as ([[[off1 s1] log1] ok1] & E2 & E1). injection E1 as <- <- <-. apply at_ok in Ea.
      destruct (t_check_relative _ _ _ _ _ _ _ (p_facts (w_p w')) _ _ _ _ _ _ _ _ _ _ _ _ (move_replies (w_log w) (w_log w') h) A4 A5 (A8 _ Ea) E2) as (cs & -> & Hc & Hoff & E2'). cbn [fst] in E2'.
      eexists (World (Propagator (p_vars (w_p w')) (p_obj (w_p w')) (p_iqs (w_p w')) (p_foff (w_p w')) (p_facts (w_p w')) (<[t := (off1, s1)]> (p_slvs (w_p w'))) (p_state (w_p w'))) (w_log w' ++ cs) _ (w_rep w')), cs. split.
      { exists fuel. cbn [wstep]. unfold p_check. assert (Ea' : at_ (p_slvs (w_p w')) t = Ok (off, s)) by (apply at_ok; rewrite A7; exact Ea). rewrite Ea'. cbn [mbind res_bind].
        rewrite A3, A9, Hsn, Ht, A4, E2'. cbn [mbind res_bind]. rewrite (blocks_same ok1 _ (w_log w) (w_log w') cs Hc). unfold put_thread. rewrite A3, A9. reflexivity. }
      cbn [w_log]. split; [reflexivity|]. split; [reflexivity|].
      constructor; cbn [w_p w_th put_thread p_vars p_iqs p_foff p_facts p_slvs p_state]; try assumption.
      + rewrite !list_lookup_insert; [reflexivity|apply lookup_lt_Some in Ea; exact Ea|rewrite <- A7 in Ea; apply lookup_lt_Some in Ea; exact Ea].
      + intros x. rewrite list_lookup_insert by (apply lookup_lt_Some in Ea; exact Ea). intros [= <-]. exact Hoff.
      + rewrite !list_lookup_insert by assumption. reflexivity.
    - apply bind_ok in E as (p & E1 & E). injection E as <-. unfold p_undo in E1. apply bind_ok in E1 as ([off s] & Ea & E1). apply bind_ok in E1 as (s1 & E2 & E1). injection E1 as <-. apply at_ok in Ea.
      eexists (World (put_thread t (off, s1) (w_p w')) (w_log w') _ (w_rep w')), []. split.
      { exists fuel. cbn [wstep]. unfold p_undo. assert (Ea' : at_ (p_slvs (w_p w')) t = Ok (off, s)) by (apply at_ok; rewrite A7; exact Ea). rewrite Ea'. cbn [mbind res_bind]. rewrite E2, Ht. reflexivity. }
      cbn [w_log]. rewrite !app_nil_r. split; [reflexivity|]. split; [reflexivity|].
      constructor; cbn [w_p w_th put_thread p_vars p_iqs p_foff p_facts p_slvs p_state]; try assumption.
      + rewrite !list_lookup_insert; [reflexivity|apply lookup_lt_Some in Ea; exact Ea|rewrite <- A7 in Ea; apply lookup_lt_Some in Ea; exact Ea].
      + intros x. rewrite list_lookup_insert by (apply lookup_lt_Some in Ea; exact Ea). intros [= <-]. exact (A8 _ Ea).
      + rewrite !list_lookup_insert by assumption. reflexivity.
    - apply bind_ok in E as (v & Ev & E). apply bind_ok in E as (p & E1 & E). injection E as <-.
      assert (Ev' : p_get_objective (w_p w') t = Ok v). { rewrite <- Ev. unfold p_get_objective, at_. rewrite A7. reflexivity. }
      assert (E1' : exists p', p_on_model o t (w_p w') = Ok p' /\ p_vars p = p_vars (w_p w) /\ p_iqs p = p_iqs (w_p w) /\ p_foff p = p_foff (w_p w) /\ p_facts p = p_facts (w_p w) /\ p_slvs p = p_slvs (w_p w) /\
        p_vars p' = p_vars (w_p w') /\ p_iqs p' = p_iqs (w_p w') /\ p_foff p' = p_foff (w_p w') /\ p_facts p' = p_facts (w_p w') /\ p_slvs p' = p_slvs (w_p w') /\ p_state p' = p_state p).
      { unfold p_on_model in *. destruct (o_global o); [|injection E1 as <-; exists (w_p w'); repeat (split; [reflexivity|]); exact A9].
        apply bind_ok in E1 as ([off s] & Ea & E1). assert (Ea' : at_ (p_slvs (w_p w')) t = Ok (off, s)) by (apply at_ok; rewrite A7; apply at_ok; exact Ea). rewrite Ea'. cbn [mbind res_bind].
        apply bind_ok in E1 as (x & Ex & E1). rewrite Ex. cbn [mbind res_bind]. destruct x as [x|]; injection E1 as <-; eexists; (split; [reflexivity|]); cbn [p_vars p_iqs p_foff p_facts p_slvs p_state];
          repeat (split; [reflexivity|]); [rewrite A9; reflexivity|exact A9]. }
      destruct E1' as (p' & E1' & P1 & P2 & P3 & P4 & P5 & Q1 & Q2 & Q3 & Q4 & Q5 & Q6).
      eexists (World p' (w_log w') (w_th w') _), []. split; [exists fuel; cbn [wstep]; rewrite Ev'; cbn [mbind res_bind]; rewrite E1'; reflexivity|].
      cbn [w_log]. rewrite !app_nil_r. split; [reflexivity|]. split; [reflexivity|].
      constructor; cbn [w_p w_th]; rewrite ?P1, ?P2, ?P3, ?P4, ?P5, ?Q1, ?Q2, ?Q3, ?Q4, ?Q5; assumption.
  Qed.
  (** a callback on another thread leaves [t] alone *)
  Lemma other_frame o t w w' e w1 : agree t w w' -> ev_thread e <> t -> ~ foreign_model o t e -> step o e w w1 -> agree t w1 w' /\ exists new, w_log w1 = w_log w ++ new.
  Proof.
    intros [A1 A2 A3 A4 A5 A5' A6 A7 A8 A9 A10] Et Hm (fuel & E). destruct e as [u h a lits|u h a total l1 l2|u|u]; cbn [ev_thread] in Et; cbn [wstep] in E.
    - apply bind_ok in E as ([[p log] ok] & E1 & E). injection E as <-. unfold p_propagate in E1. apply bind_ok in E1 as ([off s] & Ea & E1). apply bind_ok in E1 as ([[s1 log1] ok1] & E2 & E1).
      injection E1 as <- <- <-. destruct (solve_relative _ _ _ _ _ _ _ _ _ _ _ _ (move_replies (w_log w) [] h) E2) as (cs & -> & _). split; [|exists cs; reflexivity].
      set (fs := if (a_dl a =? 0) && (u =? 0) then p_facts (w_p w) ++ lits else p_facts (w_p w)).
      assert (Hp : put_thread u (off, s1) (if (a_dl a =? 0) && (u =? 0) then Propagator (p_vars (w_p w)) (p_obj (w_p w)) (p_iqs (w_p w)) (p_foff (w_p w)) (p_facts (w_p w) ++ lits) (p_slvs (w_p w)) (p_state (w_p w)) else w_p w)
        = Propagator (p_vars (w_p w)) (p_obj (w_p w)) (p_iqs (w_p w)) (p_foff (w_p w)) fs (<[u := (off, s1)]> (p_slvs (w_p w))) (p_state (w_p w))).
      { unfold put_thread, fs. destruct (_ && _); reflexivity. }
      rewrite Hp. constructor; cbn [w_p w_th p_vars p_iqs p_foff p_facts p_slvs p_state]; try assumption.
      + unfold fs. destruct (_ && _); [|exact A4]. rewrite take_app_le by assumption. exact A4.
      + unfold fs. destruct (_ && _); [rewrite app_length; lia|exact A5'].
      + unfold fs. destruct (_ && _); [|exact A6]. intros x Hx. apply elem_of_app. left. apply A6, Hx.
      + rewrite list_lookup_insert_ne by exact Et. exact A7.
      + rewrite list_lookup_insert_ne by exact Et. exact A8.
      + rewrite list_lookup_insert_ne by exact Et. exact A10.
    - apply bind_ok in E as ([off s] & Ea & E). apply bind_ok in E as ([[p log] ok] & E1 & E). injection E as <-. unfold p_check in E1. rewrite Ea in E1. cbn [mbind res_bind] in E1.
      apply bind_ok in E1 as ([[[off1 s1] log1] ok1] & E2 & E1). injection E1 as <- <- <-. split; [|destruct (t_check_log _ _ _ _ _ _ _ _ _ _ _ _ _ _ _ _ _ E2) as (cs & ->); exists cs; reflexivity].
      constructor; cbn [w_p w_th put_thread p_vars p_iqs p_foff p_facts p_slvs p_state]; try assumption; rewrite list_lookup_insert_ne by exact Et; assumption.
    - apply bind_ok in E as (p & E1 & E). injection E as <-. unfold p_undo in E1. apply bind_ok in E1 as ([off s] & Ea & E1). apply bind_ok in E1 as (s1 & E2 & E1). injection E1 as <-.
      split; [|exists []; rewrite app_nil_r; reflexivity].
      constructor; cbn [w_p w_th put_thread p_vars p_iqs p_foff p_facts p_slvs p_state]; try assumption; rewrite list_lookup_insert_ne by exact Et; assumption.
    - apply bind_ok in E as (v & Ev & E). apply bind_ok in E as (p & E1 & E). injection E as <-. split; [|exists []; rewrite app_nil_r; reflexivity].
      unfold p_on_model in E1. destruct (o_global o) as [g|] eqn:Eg.
      + exfalso. apply Hm. split; [reflexivity|]. split; [exact Et|]. rewrite Eg. discriminate.
      + injection E1 as <-. constructor; assumption.
  Qed.

  Lemma other_frame_foff o e w w1 : step o e w w1 -> p_foff (w_p w1) = p_foff (w_p w).
  Proof.
    intros (fuel & E). destruct e as [u h a lits|u h a total l1 l2|u|u]; cbn [wstep] in E.
    - apply bind_ok in E as ([[p log] ok] & E1 & E). injection E as <-. unfold p_propagate in E1. apply bind_ok in E1 as ([off s] & Ea & E1). apply bind_ok in E1 as ([[s1 log1] ok1] & E2 & E1).
      injection E1 as <- <- <-. cbn [w_p put_thread p_foff]. destruct (_ && _); reflexivity.
    - apply bind_ok in E as ([off s] & Ea & E). apply bind_ok in E as ([[p log] ok] & E1 & E). injection E as <-. unfold p_check in E1. rewrite Ea in E1. cbn [mbind res_bind] in E1.
      apply bind_ok in E1 as ([[[off1 s1] log1] ok1] & E2 & E1). injection E1 as <- <- <-. reflexivity.
    - apply bind_ok in E as (p & E1 & E). injection E as <-. unfold p_undo in E1. apply bind_ok in E1 as ([off s] & Ea & E1). apply bind_ok in E1 as (s1 & E2 & E1). injection E1 as <-. reflexivity.
    - apply bind_ok in E as (v & Ev & E). apply bind_ok in E as (p & E1 & E). injection E as <-. unfold p_on_model in E1. destruct (o_global o); [|injection E1 as <-; reflexivity].
      apply bind_ok in E1 as ([off s] & Ea & E1). apply bind_ok in E1 as (x & Ex & E1). destruct x; injection E1 as <-; reflexivity.
  Qed.
  Lemma off_ok_step o e w w1 : off_ok w -> adm e w -> step o e w w1 -> off_ok w1.
  Proof.
    intros [O1 O2] Ha Hs. pose proof Hs as Hs0.
    assert (Hlt : ev_thread e < length (w_th w)). { destruct e; cbn [adm ev_thread] in *; destruct Ha; assumption. }
    assert (F : forall t, t <> ev_thread e -> p_slvs (w_p w1) !! t = p_slvs (w_p w) !! t).
    { intros t Ht. destruct Hs as (fuel & E). destruct e as [u h a lits|u h a total l1 l2|u|u]; cbn [ev_thread] in Ht; cbn [wstep] in E.
      - apply bind_ok in E as ([[p log] ok] & E1 & E). injection E as <-. unfold p_propagate in E1. apply bind_ok in E1 as ([off s] & Ea & E1). apply bind_ok in E1 as ([[s1 log1] ok1] & E2 & E1).
        injection E1 as <- <- <-. cbn [w_p put_thread p_slvs]. rewrite list_lookup_insert_ne by (intros <-; contradiction). destruct (_ && _); reflexivity.
      - apply bind_ok in E as ([off s] & Ea & E). apply bind_ok in E as ([[p log] ok] & E1 & E). injection E as <-. unfold p_check in E1. rewrite Ea in E1. cbn [mbind res_bind] in E1.
        apply bind_ok in E1 as ([[[off1 s1] log1] ok1] & E2 & E1). injection E1 as <- <- <-. cbn [w_p put_thread p_slvs]. rewrite list_lookup_insert_ne by (intros <-; contradiction). reflexivity.
      - apply bind_ok in E as (p & E1 & E). injection E as <-. unfold p_undo in E1. apply bind_ok in E1 as ([off s] & Ea & E1). apply bind_ok in E1 as (s1 & E2 & E1). injection E1 as <-.
        cbn [w_p put_thread p_slvs]. rewrite list_lookup_insert_ne by (intros <-; contradiction). reflexivity.
      - apply bind_ok in E as (v & Ev & E). apply bind_ok in E as (p & E1 & E). injection E as <-. unfold p_on_model in E1. destruct (o_global o); [|injection E1 as <-; reflexivity].
        apply bind_ok in E1 as ([off s] & Ea & E1). apply bind_ok in E1 as (x & Ex & E1). destruct x; injection E1 as <-; reflexivity. }
    destruct (own_step o (ev_thread e) w w e w1 (agree_refl _ w (conj O1 O2)) eq_refl Hlt Hs0) as (w1' & new & _ & _ & _ & [_ _ _ _ _ B5 _ _ B8 _ _]).
    assert (Hfo : p_foff (w_p w1) = p_foff (w_p w)).
    { exact (other_frame_foff o e w w1 Hs0). }
    split; [exact B5|]. intros t x Hx. destruct (decide (t = ev_thread e)) as [->|Ht]; [exact (B8 x Hx)|]. rewrite Hfo. rewrite (F t Ht) in Hx. exact (O2 t x Hx).
  Qed.
  Lemma reach_off o sh w : reach_any o sh w -> off_ok w.
  Proof.
    assert (S : forall sh p log p' log', p_init (sh_host sh) o (sh_sort sh) (sh_threads sh) (sh_iqs sh) (sh_obj sh) p log = Ok (p', log', true) -> off_ok (start p' log')).
    { intros sh0 p log p' log' E. unfold p_init in E. apply bind_ok in E as ([[slvs log1] ok] & E & Ei). injection Ei as <- _ _. split; cbn [start w_p p_foff p_facts p_slvs]; [reflexivity|].
      intros t x Hx. left. apply elem_of_list_lookup_2 in Hx. clear -E Hx. revert log slvs log1 ok E Hx. generalize (seq 0 (sh_threads sh0)). intros ids. generalize (fold_left (fun vs q => gather vs (q_lhs q)) (sh_iqs sh0) (gather (p_vars p) (sh_obj sh0))). intros vs.
      induction ids as [|i ids IH]; intros log slvs log1 ok E Hx; cbn [prep_threads] in E; [injection E as <- _ _; inversion Hx|].
      apply bind_ok in E as ([[s l1] ok1] & _ & E). destruct (negb ok1); [injection E as <- _ _; apply elem_of_list_singleton in Hx as ->; reflexivity|].
      apply bind_ok in E as ([[r l2] ok2] & E2 & E). injection E as <- _ _. apply elem_of_cons in Hx as [-> |Hx]; [reflexivity|]. exact (IH _ _ _ _ E2 Hx). }
    induction 1 as [sh p log _ E|sh0 w0 sh p log _ _ _ E|sh w e w' _ IH Ha Hs]; [exact (S _ _ _ _ _ E)|exact (S _ _ _ _ _ E)|exact (off_ok_step o e w w' IH Ha Hs)].
  Qed.
  Lemma run_reach o sh w cs w1 : run_from o w cs w1 -> reach_any o sh w -> reach_any o sh w1.
  Proof. induction 1 as [|w cs w1 e w2 new _ IH Ha Hs _]; intros R; [exact R|]. exact (any_step o sh w1 e w2 (IH R) Ha Hs). Qed.

  (** ** The theorems *)

  (** a callback on one thread changes nothing another thread shows *)
  Theorem C57_untouched o sh w e w1 t : reach_any o sh w -> adm e w -> step o e w w1 -> ev_thread e <> t -> looks_same o t w w1.
  Proof.
    intros R Ha Hs Ht. destruct (is_model e) eqn:Em.
    - destruct e as [u h a lits|u h a total l1 l2|u|u]; try discriminate Em. destruct Hs as (fuel & E). cbn [wstep] in E. apply bind_ok in E as (v & Ev & E). apply bind_ok in E as (p & E1 & E). injection E as <-.
      assert (K : p_vars p = p_vars (w_p w) /\ p_slvs p = p_slvs (w_p w)).
      { unfold p_on_model in E1. destruct (o_global o); [|injection E1 as <-; split; reflexivity]. apply bind_ok in E1 as ([off s] & Ea & E1). apply bind_ok in E1 as (x & Ex & E1). destruct x; injection E1 as <-; split; reflexivity. }
      destruct K as [K1 K2]. constructor; intros; unfold p_lookup_symbol, p_get_symbol, p_has_value, p_get_value, p_n_values, p_get_objective, p_decide, assigned, accepted, blocked, thread_of, at_; cbn [w_p w_th]; rewrite ?K1, ?K2; reflexivity.
    - assert (Hm : ~ foreign_model o t e) by (intros (E & _); rewrite Em in E; discriminate E).
      destruct (other_frame o t w w e w1 (agree_refl t w (reach_off o sh w R)) Ht Hm Hs) as [A _]. apply (agree_looks o) in A. destruct A as [L1 L2 L3 L4 L5 L6 L7 L8 L9 L10].
      constructor; intros; symmetry; [apply L1|apply L2|apply L3|apply L4|exact L5|exact L6|apply L7|exact L8|exact L9|exact L10].
  Qed.

  (** from any point on, what thread [t] shows is what it would show if clingo
      made only the callbacks on [t]; they add the same clauses *)
  Theorem C57_alone o sh w cs w1 t : reach_any o sh w -> run_from o w cs w1 -> (forall c, c ∈ cs -> ~ foreign_model o t (c_event c)) ->
    exists cs' w1', run_from o w cs' w1' /\ Forall2 same_call (List.filter (of_thread t) cs) cs' /\ looks_same o t w1 w1'.
  Proof.
    intros R Hr Hm. assert (G : exists cs' w1', run_from o w cs' w1' /\ Forall2 same_call (List.filter (of_thread t) cs) cs' /\ agree t w1 w1').
    { induction Hr as [w|w cs w1 e w2 new Hr IH Ha Hs Hl].
      - exists [], w. split; [apply rf_nil|]. split; [constructor|]. exact (agree_refl t w (reach_off o sh w R)).
      - destruct IH as (cs' & w1' & Hr' & HF & A); [exact R|intros c Hc; apply Hm, elem_of_app; left; exact Hc|]. rewrite List.filter_app. cbn [List.filter]. change (of_thread t (Call e (w_log w1) new)) with (ev_thread e =? t).
        destruct (Nat.eqb_spec (ev_thread e) t) as [Et|Et].
        + assert (Hlt : t < length (w_th w1)). { subst t. destruct e; cbn [adm ev_thread] in *; destruct Ha; assumption. }
          destruct (own_step o t w1 w1' e w2 A Et Hlt Hs) as (w2' & new' & Hs' & L1 & L2 & A'). assert (new' = new) as -> by (rewrite Hl in L1; apply app_inv_head in L1; auto).
          exists (cs' ++ [Call (move (w_log w1) (w_log w1') e) (w_log w1') new]), w2'. split; [|split; [|exact A']].
          * exact (rf_snoc o w cs' w1' _ w2' new Hr' (move_adm t w1 w1' e A Et Ha) Hs' L2).
          * apply Forall2_app; [exact HF|]. constructor; [|constructor]. split; [apply move_same|reflexivity].
        + destruct (other_frame o t w1 w1' e w2 A Et) as [A' _]; [apply (Hm (Call e (w_log w1) new)), elem_of_app; right; left|exact Hs|].
          exists cs', w1'. rewrite app_nil_r. split; [exact Hr'|]. split; [exact HF|exact A']. }
    destruct G as (cs' & w1' & G1 & G2 & G3). exists cs', w1'. split; [exact G1|]. split; [exact G2|]. exact (agree_looks o t w1 w1' G3).
  Qed.
End threads.

(** ** A run of two threads

    x <= 4, x >= 5, x >= 1, x <= 0.  Thread 0 runs into a conflict, thread 1
    into another one and backtracks. *)
Definition tw_iqs : list (ineq nat) := [Ineq [(qz 1, 0)] (qz 4) Rle 10; Ineq [(qz 1, 0)] (qz 5) Rge 21; Ineq [(qz 1, 0)] (qz 1) Rge 31; Ineq [(qz 1, 0)] (qz 0) Rle 42].
Definition tw_evs : list event := [ev_prop 0 0 [10%Z]; ev_prop 1 0 [10%Z]; ev_prop 1 1 [31%Z]; ev_prop 0 1 [21%Z]; ev_prop 1 2 [42%Z]; EvUndo 0; EvUndo 1; ev_check 1 1 true 901 911].
Fixpoint tw_run (evs : list event) (w : world Qc nat) : option (list call * world Qc nat) :=
  match evs with
  | [] => Some ([], w)
  | e :: r => if admb e w then match wstep 50 default_options e w with
                | Ok w1 => if bool_decide (take (length (w_log w)) (w_log w1) = w_log w) then '(cs, w2) ← tw_run r w1; Some (Call e (w_log w) (drop (length (w_log w)) (w_log w1)) :: cs, w2) else None
                | _ => None end
              else None
  end.
Lemma tw_run_ok evs : forall w0 cs0 w cs w1, run_from default_options w0 cs0 w -> tw_run evs w = Some (cs, w1) -> run_from default_options w0 (cs0 ++ cs) w1.
Proof.
  induction evs as [|e r IH]; intros w0 cs0 w cs w1 R; cbn [tw_run]; [intros [= <- <-]; rewrite app_nil_r; exact R|].
  destruct (admb e w) eqn:Ea; [|discriminate]. destruct (wstep 50 default_options e w) as [w2| | |] eqn:Es; try discriminate. destruct (bool_decide _) eqn:El; [|discriminate]. apply bool_decide_eq_true in El.
  destruct (tw_run r w2) as [[cs1 w3]|] eqn:Er; cbn [mbind option_bind]; [|discriminate]. intros [= <- <-]. rewrite cons_middle, app_assoc. refine (IH w0 _ w2 cs1 w3 _ Er).
  apply (rf_snoc default_options w0 cs0 w e w2); [exact R|exact (admb_ok _ _ Ea)|exists 50; exact Es|]. rewrite <- El at 1. symmetry. apply take_drop.
Qed.
Definition tw_view (x : option (world Qc nat)) : option (list call * world Qc nat) := w ← x; tw_run tw_evs w.
Definition tw_clauses (cs : list call) : list (list Z) := concat (map c_added cs).
Lemma tw_check : match tw_view (any_world default_options 2 tw_iqs [] []) with
  | Some (cs, w) => bool_decide (tw_clauses (List.filter (of_thread 0) cs) = [[(-10)%Z; (-21)%Z]]) && bool_decide (tw_clauses (List.filter (of_thread 1) cs) = [[(-42)%Z; (-31)%Z]]) &&
      bool_decide (length (List.filter (of_thread 1) cs) = 5) && bool_decide (assigned w 1 = [31%Z; 10%Z]) && (match p_get_value (w_p w) 1 0 with Ok v => Qc_eq_bool v (qz 1) | _ => false end)
  | None => false end = true.
Proof. vm_compute. reflexivity. Qed.

(** the hypotheses of C57_alone hold for both threads of this run: thread 1
    undoes its conflict and reports x = 1, in the run with thread 0 and alone *)
Example C57_example : exists w cs w1 cs' w1', reach_any default_options (any_shot 2 tw_iqs []) w /\ run_from default_options w cs w1 /\
  tw_clauses (List.filter (of_thread 0) cs) = [[(-10)%Z; (-21)%Z]] /\ tw_clauses (List.filter (of_thread 1) cs) = [[(-42)%Z; (-31)%Z]] /\ (forall c, c ∈ cs -> ~ foreign_model default_options 1 (c_event c)) /\
  run_from default_options w cs' w1' /\ Forall2 same_call (List.filter (of_thread 1) cs) cs' /\ p_get_value (w_p w1') 1 0 = Ok (qz 1) /\ assigned w1' 1 = [31%Z; 10%Z].
Proof.
  pose proof tw_check as E. unfold tw_view in E. destruct (any_world default_options 2 tw_iqs [] []) as [w|] eqn:Ew; [|discriminate E]. cbn [mbind option_bind] in E.
  destruct (tw_run tw_evs w) as [[cs w1]|] eqn:Er; [|discriminate E]. rewrite !andb_true_iff in E. destruct E as ((((E1 & E2) & _) & E4) & E5). apply bool_decide_eq_true in E1, E2, E4.
  pose proof (tw_run_ok tw_evs w [] w cs w1 (rf_nil _ _) Er) as R. cbn [app] in R.
  assert (Hr : reach_any default_options (any_shot 2 tw_iqs []) w) by (apply reach_reach_any; exact (any_reach default_options 2 tw_iqs [] [] w eq_refl Ew)).
  assert (Hm : forall c, c ∈ cs -> ~ foreign_model default_options 1 (c_event c)) by (intros c _ (_ & _ & K); apply K; reflexivity).
  destruct (C57_alone default_options _ w cs w1 1 Hr R Hm) as (cs' & w1' & R' & HF & L).
  exists w, cs, w1, cs', w1'. split; [exact Hr|]. split; [exact R|]. split; [exact E1|]. split; [exact E2|]. split; [exact Hm|]. split; [exact R'|]. split; [exact HF|]. split.
  - rewrite (ls_value _ _ _ _ L 0). destruct (p_get_value (w_p w1) 1 0) as [v| | |]; try discriminate E5. apply Qc_eq_bool_correct in E5 as ->. reflexivity.
  - rewrite (ls_assigned _ _ _ _ L). exact E4.
Qed.
