(** * The counters of the statistics

    Which functions of the solver change the numbers of pivots and propagated
    bounds, for every state: only propagate_ counts bounds, one for every
    clause it hands to clingo, and the number of pivots never decreases. *)
From Verif Require Import Num Tableau Solver Propagator World.

Section counters.
  Context {V : Type} `{Value V}.
  Implicit Types s : solver V.

  (** no bound is counted *)
  Definition kp s s' : Prop := s_props s' = s_props s /\ s_pivots s <= s_pivots s'.
  Lemma kp_refl s : kp s s. Proof. split; auto. Qed.
  Lemma kp_trans (a b c : solver V) : kp a b -> kp b c -> kp a c. Proof. intros (A & B) (C & D). split; [congruence|lia]. Qed.

  Lemma row_inv {S} (P : S -> Prop) (f : nat -> Z -> Z -> S -> res S) t i st st' :
    (forall j a d (s1 s2 : S), P s1 -> f j a d s1 = Ok s2 -> P s2) -> update_row t i f st = Ok st' -> P st -> P st'.
  Proof.
    intros Hf. unfold update_row. destruct (t_rows t !! i) as [r|]; [|intros [= <-]; auto]. generalize (r_den r) as d. intros d.
    revert st. induction (r_cells r) as [|[c v] l IH]; intros st; cbn [row_loop]; [intros [= <-]; auto|].
    intros E Hp. apply bind_ok in E as (s1 & E1 & E). eapply IH; eauto.
  Qed.
  Lemma col_kp (j : nat) (f : nat -> Z -> Z -> solver V -> res (solver V)) s s' :
    (forall i a d s1 s2, f i a d s1 = Ok s2 -> kp s1 s2) -> update_col s_tab set_tab j f s = Ok s' -> kp s s'.
  Proof.
    intros Hf. unfold update_col. destruct (_ !! j) as [col|]; [|intros [= <-]; apply kp_refl]. intros E. apply bind_ok in E as ([kept s1] & E1 & E). injection E as <-.
    change (kp s s1). revert s E1. generalize (@nil nat). induction col as [|i is IH]; intros q s; cbn [col_loop]; [intros [= _ <-]; apply kp_refl|].
    intros E. apply bind_ok in E as (r & _ & E). destruct (clook _ _); [|eauto]. apply bind_ok in E as (s2 & E2 & E). eapply kp_trans; eauto.
  Qed.
  Ltac binds E := repeat (lazymatch type of E with mbind _ _ = Ok _ => idtac end; let x := fresh "x" in let Ex := fresh "Ex" in apply bind_ok in E as (x & Ex & E)).

  Lemma set_value_c x lvl v add s s' : set_value x lvl v add s = Ok s' -> kp s s'.
  Proof. unfold set_value. intros E. binds E. injection E as <-. destruct (negb _); split; cbn; auto. Qed.
  Lemma enqueue_c o i s s' : enqueue o i s = Ok s' -> kp s s'.
  Proof.
    unfold enqueue. intros E. binds E. set (s1 := if (negb _ && _) then _ else s) in E.
    assert (F1 : kp s s1) by (unfold s1; destruct (negb _ && _); split; cbn; auto).
    destruct (o_pmode o); try (injection E as <-; exact F1). binds E. destruct (v_prop _); injection E as <-; exact F1.
  Qed.
  Lemma update_c o level j v s s' : update_ o level j v s = Ok s' -> kp s s'.
  Proof.
    unfold update_. intros E. binds E. eapply kp_trans; [|eapply set_value_c; exact E]. eapply col_kp; [|eassumption].
    intros i a d s1 s2 E1. cbn beta in E1. binds E1. eapply kp_trans; [eapply set_value_c; eassumption|eapply enqueue_c; eassumption].
  Qed.
  Lemma pivot_c o level i j v s s' : pivot_ o level i j v s = Ok s' -> kp s s'.
  Proof.
    unfold pivot_. intros E. apply bind_ok in E as ([[p a] d] & _ & E). binds E. injection E as <-.
    match goal with E1 : set_value _ _ _ _ s = Ok ?s1, E2 : set_value _ _ _ _ ?s1 = Ok ?s2, E3 : update_col _ _ _ _ ?s2 = Ok ?s3, E6 : enqueue _ _ ?t0 = Ok ?t |- _ =>
      apply set_value_c in E1; apply set_value_c in E2; apply col_kp in E3; [apply enqueue_c in E6; pose proof (kp_trans _ _ _ E1 (kp_trans _ _ _ E2 E3)) as (A & B); destruct E6 as (C & D); cbn in C, D; split; cbn; [congruence|lia]|] end.
    intros k a1 d1 s1 s2 E1. cbn beta in E1. destruct (k =? i); [injection E1 as <-; apply kp_refl|]. binds E1. eapply kp_trans; [eapply set_value_c; eassumption|eapply enqueue_c; eassumption].
  Qed.
  Lemma select_loop_c q s r s' : select_loop q s = Ok (r, s') -> kp s s'.
  Proof.
    revert s. induction q as [|ii q IH]; intros s; cbn [select_loop]; [intros [= <- <-]; split; cbn; auto|].
    intros E. apply bind_ok in E as (xi & Exi & E). destruct (_ <? _); [eapply (IH (upd_var ii (vset_queued false) s)); eauto|].
    destruct (_ || _); [|eapply (IH (upd_var ii (vset_queued false) s)); eauto].
    apply bind_ok in E as (b & Eb & E). apply bind_ok in E as ([[kk rj] cl] & Er & E). destruct (_ =? _); injection E as <- <-; split; cbn; auto.
  Qed.
  Lemma update_upper_c a b x s s' ok : update_upper a b x s = Ok (s', ok) -> kp s s'.
  Proof. unfold update_upper. intros E. binds E. injection E as <- _. destruct (below_upper _ _); [|apply kp_refl]. match goal with |- context [if ?c then _ else _] => destruct c end; split; cbn; auto. Qed.
  Lemma update_lower_c a b x s s' ok : update_lower a b x s = Ok (s', ok) -> kp s s'.
  Proof.
    unfold update_lower. intros E. binds E. injection E as <- _.
    match goal with E : (if _ then _ else _) = Ok _ |- _ => rename E into E1 end. destruct (above_lower _ _); [|injection E1 as <-; apply kp_refl].
    binds E1. injection E1 as <-.
    match goal with E : (if _ then _ else _) = Ok _ |- _ => rename E into E2 end. match type of E2 with (if ?c then _ else _) = _ => destruct c end; [|injection E2 as <-; split; cbn; auto].
    destruct (negb _); [injection E2 as <-; split; cbn; auto|]. binds E2. injection E2 as <-. split; cbn; auto.
  Qed.
  Lemma update_var_c a b x s s' ok : update_var a b x s = Ok (s', ok) -> kp s s'.
  Proof.
    unfold update_var. intros E. destruct (b_rel b); [eapply update_upper_c; eauto|eapply update_lower_c; eauto|]. apply bind_ok in E as ([s1 ok1] & E1 & E).
    apply update_upper_c in E1. destruct ok1; [|injection E as <- _; exact E1]. eapply kp_trans; [exact E1|]. eapply update_lower_c; eauto.
  Qed.
  Lemma update_bound_c o a b s s' ok : update_bound o a b s = Ok (s', ok) -> kp s s'.
  Proof.
    unfold update_bound. intros E. apply bind_ok in E as ([s1 ok1] & E1 & E). apply update_var_c in E1. apply bind_ok in E as (x & Ex & E).
    eapply kp_trans; [exact E1|]. destruct (negb ok1); [binds E; injection E as <- _; split; cbn; auto|].
    destruct (_ <? _); [|binds E; injection E as <- _; eapply enqueue_c; eauto].
    destruct (viol_lower x); [|destruct (viol_upper x)]; [binds E; injection E as <- _; eapply update_c; eauto..|injection E as <- _; apply kp_refl].
  Qed.
  Lemma apply_bounds_c o a bs s s' ok : apply_bounds o a bs s = Ok (s', ok) -> kp s s'.
  Proof.
    revert s. induction bs as [|b bs IH]; intros s; cbn [apply_bounds]; [intros [= <- <-]; apply kp_refl|].
    intros E. apply bind_ok in E as ([s1 ok1] & E1 & E). apply update_bound_c in E1. eapply kp_trans; [exact E1|]. destruct ok1; [eauto|injection E as <- <-; apply kp_refl].
  Qed.
  Lemma simplex_loop_c fuel o level s s' ok : simplex_loop fuel o level s = Ok (s', ok) -> kp s s'.
  Proof.
    revert s. induction fuel as [|fuel IH]; intros s; cbn [simplex_loop]; [discriminate|].
    intros E. apply bind_ok in E as ([r s1] & E1 & E). apply select_loop_c in E1. eapply kp_trans; [exact E1|]. destruct r; [injection E as <- <-; apply kp_refl..|].
    apply bind_ok in E as (s2 & E2 & E). eapply kp_trans; [eapply pivot_c; exact E2|eauto].
  Qed.
  Lemma reset_levels_c t s s' : reset_levels t s = Ok s' -> kp s s'.
  Proof.
    revert s. induction t as [|[[l x] v] t IH]; intros s; cbn [reset_levels]; [intros [= <-]; apply kp_refl|].
    intros E. apply bind_ok in E as (w & _ & E). exact (IH _ E).
  Qed.
  Lemma store_sat_c s s' : store_sat s = Ok s' -> kp s s'.
  Proof. unfold store_sat. intros E. binds E. injection E as <-. match goal with E : reset_levels _ _ = Ok _ |- _ => apply reset_levels_c in E; exact E end. Qed.
  Lemma solve_core_c fuel o a lits s s' ok : solve_core fuel o a lits s = Ok (s', ok) -> kp s s'.
  Proof.
    unfold solve_core, apply_lits. intros E. apply bind_ok in E as ([s1 ok1] & E1 & E). apply apply_bounds_c in E1.
    assert (F0 : kp s (push_offset a s)) by (unfold push_offset; match goal with |- context [if ?c then _ else _] => destruct c end; split; cbn; auto).
    pose proof (kp_trans _ _ _ F0 E1) as F1. destruct (negb ok1); [injection E as <- <-; exact F1|].
    apply bind_ok in E as ([s2 ok2] & E2 & E). apply simplex_loop_c in E2. pose proof (kp_trans _ _ _ F1 E2) as F2.
    destruct ok2; [|injection E as <- <-; exact F2]. destruct (o_store o); try (injection E as <- _; exact F2). binds E. injection E as <- _. eapply kp_trans; [exact F2|eapply store_sat_c; eauto].
  Qed.

  (** ** propagate_: every clause is counted *)
  Definition cnt (n : nat) s s' : Prop := s_props s' = s_props s + n /\ s_pivots s <= s_pivots s'.
  Definition ext (log log' : list (list Z)) (n : nat) : Prop := exists cs, log' = log ++ cs /\ length cs = n.
  Lemma ext_0 log : ext log log 0. Proof. exists []. rewrite app_nil_r. auto. Qed.
  Lemma ext_1 log c : ext log (log ++ [c]) 1. Proof. exists [c]. auto. Qed.
  Lemma ext_add l1 l2 l3 n k : ext l1 l2 n -> ext l2 l3 k -> ext l1 l3 (n + k).
  Proof. intros (a & -> & <-) (b & -> & <-). exists (a ++ b). rewrite app_assoc, app_length. auto. Qed.
  Definition counted s log s' log' : Prop := exists n, ext log log' n /\ cnt n s s'.
  Lemma counted_refl s s' log : kp s s' -> counted s log s' log. Proof. intros (A & B). exists 0. split; [apply ext_0|]. split; [lia|exact B]. Qed.
  Lemma counted_trans s1 l1 s2 l2 s3 l3 : counted s1 l1 s2 l2 -> counted s2 l2 s3 l3 -> counted s1 l1 s3 l3.
  Proof. intros (n & A & B & C) (k & D & E & F). exists (n + k). split; [eapply ext_add; eauto|]. split; lia. Qed.
  Lemma prop_bounds_c h test cl (bs : list (bound V)) s log s' log' ok : prop_bounds h test cl bs s log = (s', log', ok) -> counted s log s' log'.
  Proof.
    revert s log. induction bs as [|b bs IH]; intros s log; cbn [prop_bounds]; [intros [= <- <- <-]; apply counted_refl, kp_refl|].
    intros E. destruct (test b && _); [|eauto]. assert (Ho : counted s log (set_stats (s_pivots s) (S (s_props s)) s) (log ++ [cl ++ [(- b_lit b)%Z]])) by (exists 1; split; [apply ext_1|split; cbn; lia]).
    destruct (h_reply _ _); [|injection E as <- <- <-; exact Ho]. eapply counted_trans; [exact Ho|eauto].
  Qed.
  Lemma prop_row_c h i s log s' log' ok : prop_row h i s log = Ok (s', log', ok) -> counted s log s' log'.
  Proof.
    unfold prop_row. intros E. apply bind_ok in E as (w & _ & E). set (s1 := upd_var i (vset_prop false) s) in *.
    assert (H1 : forall t l, counted s1 log t l -> counted s log t l) by (intros t l Ht; exact Ht).
    apply bind_ok in E as ([lo up] & _ & E). destruct (negb up && negb lo); [injection E as <- <- <-; apply H1, counted_refl, kp_refl|].
    apply bind_ok in E as ([l u] & Elu & E). apply bind_ok in E as (ii & _ & E). apply bind_ok in E as (yv & Ey & E).
    match type of E with (let '(_, _) := ?m in _) = _ => destruct m as [[s2 log2] ok2] eqn:E2 end.
    assert (H2 : counted s1 log s2 log2) by (destruct u.1; [eapply prop_bounds_c; eauto|injection E2 as <- <- <-; apply counted_refl, kp_refl]).
    destruct (negb ok2); [injection E as <- <- <-; auto|].
    destruct l.1; [|injection E as <- <- <-; auto]. injection E as E. apply prop_bounds_c in E. apply H1. eapply counted_trans; eauto.
  Qed.
  Lemma prop_rows_c h (changed : bool) is s log s' log' ok : prop_rows h changed is s log = Ok (s', log', ok) -> counted s log s' log'.
  Proof.
    revert s log. induction is as [|i is IH]; intros s log; cbn [prop_rows]; [intros [= <- <- <-]; apply counted_refl, kp_refl|].
    intros E. apply bind_ok in E as ([[s1 log1] ok1] & E1 & E). apply prop_row_c in E1. assert (H1 : counted s log s1 log1) by (destruct changed; exact E1).
    destruct ok1; [|injection E as <- <- <-; auto]. eapply counted_trans; eauto.
  Qed.
  (** solve: either all clauses are counted or there is one, a conflict *)
  Definition told (o : options) s log s' log' : Prop :=
    exists n k, ext log log' n /\ s_props s' = s_props s + k /\ s_pivots s <= s_pivots s' /\ (k = n \/ (k = 0 /\ n = 1)) /\ (o_pmode o = PropNone -> k = 0).
  Lemma solve_c fuel h (o : options) a lits s log s' log' ok : solve fuel h o a lits s log = Ok (s', log', ok) -> told o s log s' log'.
  Proof.
    unfold solve. intros E. apply bind_ok in E as ([s1 ok1] & E1 & E). apply solve_core_c in E1 as (A & B).
    destruct ok1; [|injection E as <- <- <-; exists 1, 0; split; [apply ext_1|split; [lia|split; [exact B|split; [auto|auto]]]]].
    unfold propagate_ in E. destruct (o_pmode o) eqn:Em; [injection E as <- <- <-; exists 0, 0; split; [apply ext_0|split; [lia|split; [exact B|split; auto]]]|..];
      apply prop_rows_c in E as (n & X & C & D); exists n, n; (split; [exact X|]); (split; [lia|]); (split; [lia|]); (split; [auto|]); rewrite Em; discriminate.
  Qed.

  (** ** undo, optimize *)
  Lemma undo_bounds_c t s s' : undo_bounds t s = Ok s' -> kp s s'.
  Proof. revert s. induction t as [|[[x r] b] t IH]; intros s; cbn [undo_bounds]; [intros [= <-]; apply kp_refl|]. intros E. apply bind_ok in E as (w & _ & E). exact (IH _ E). Qed.
  Lemma undo_values_c t s s' : undo_values t s = Ok s' -> kp s s'.
  Proof. revert s. induction t as [|[[l x] v] t IH]; intros s; cbn [undo_values]; [intros [= <-]; apply kp_refl|]. intros E. apply bind_ok in E as (w & _ & E). exact (IH _ E). Qed.
  Lemma clear_queue_c q s s' : clear_queue q s = Ok s' -> kp s s'.
  Proof. revert s. induction q as [|x q IH]; intros s; cbn [clear_queue]; [intros [= <-]; split; cbn; auto|]. intros E. apply bind_ok in E as (w & _ & E). exact (IH _ E). Qed.
  Lemma undo_c s s' : undo s = Ok s' -> kp s s'.
  Proof.
    unfold undo. intros E. apply bind_ok in E as (f & _ & E). apply bind_ok in E as (u1 & _ & E). apply bind_ok in E as (s1 & E1 & E).
    apply bind_ok in E as (u2 & _ & E). apply bind_ok in E as (s3 & E3 & E). apply bind_ok in E as (s5 & E5 & E). injection E as <-.
    apply undo_bounds_c in E1. apply undo_values_c in E3. apply clear_queue_c in E5. exact (kp_trans _ _ _ E1 (kp_trans _ _ _ E3 E5)).
  Qed.
  Lemma optimize_c fuel o s s' : optimize fuel o s = Ok s' -> kp s s'.
  Proof.
    unfold optimize. destruct (ob_active _); [|intros [= <-]; split; cbn; auto].
    revert s. induction fuel as [|fuel IH]; intros s; cbn [optimize_loop]; [discriminate|].
    intros E. apply bind_ok in E as ([s1 fin] & E1 & E). assert (H1 : kp s s1).
    { unfold optimize_step in E1. apply bind_ok in E1 as (xz & _ & E1). apply bind_ok in E1 as ([ee pos] & _ & E1).
      destruct (ee =? _); [injection E1 as <- _; split; cbn; auto|]. apply bind_ok in E1 as (xe & _ & E1). apply bind_ok in E1 as ([t cand] & _ & E1).
      destruct cand as [[[ll v] b]|].
      - binds E1. injection E1 as <- _. match goal with E : pivot_ _ _ _ _ _ _ = Ok _ |- _ => exact (pivot_c _ _ _ _ _ _ _ E) end.
      - destruct (if pos then _ else _) as [b|]; [|injection E1 as <- _; split; cbn; auto]. binds E1. injection E1 as <- _. match goal with E : update_ _ _ _ _ _ = Ok _ |- _ => exact (update_c _ _ _ _ _ _ E) end. }
    destruct fin; [injection E as <-; exact H1|]. eapply kp_trans; [exact H1|eauto].
  Qed.
  Lemma integrate_c h (o : options) lit st s log s' log' ok : integrate_objective h o lit st s log = Ok (s', log', ok) -> kp s s' /\ exists n, ext log log' n /\ (o_global o = None -> n = 0).
  Proof.
    unfold integrate_objective. destruct (o_global o) eqn:Eg; [|intros [= <- <- _]; split; [apply kp_refl|exists 0; split; [apply ext_0|auto]]].
    destruct (os_value _ _) as [gen [[w []]|]]; try (intros [= <- <- _]; split; [split; cbn; auto|exists 0; split; [apply ext_0|auto]]).
    destruct (vstep _) as [dd|]; [|discriminate]. intros E.
    assert (E' : assert_bound h lit (vadd w dd) (set_obj (obj_set_gen gen (s_obj s)) s) log = (s', log', ok)) by congruence. unfold assert_bound in E'. injection E' as <- <- _.
    split; [split; cbn; auto|]. exists 1. split; [apply ext_1|discriminate].
  Qed.
  Lemma discard_c h (o : options) lit s log s' log' ok : discard_bounded h o lit s log = Ok (s', log', ok) -> kp s s' /\ exists n, ext log log' n /\ (o_global o = None -> n = 0).
  Proof.
    unfold discard_bounded. destruct (o_global o) eqn:Eg; cbn [negb]; [|rewrite orb_true_r; cbn [orb]; intros [= <- <- _]; split; [apply kp_refl|exists 0; split; [apply ext_0|auto]]].
    match goal with |- (if ?c then _ else _) = _ -> _ => destruct c end; [intros [= <- <- _]; split; [apply kp_refl|exists 0; split; [apply ext_0|auto]]|].
    intros E. apply bind_ok in E as (v & _ & E). assert (E' : assert_bound h lit (vadd (v_val v) (vofq 1)) s log = (s', log', ok)) by congruence. unfold assert_bound in E'. injection E' as <- <- _.
    split; [split; cbn; auto|]. exists 1. split; [apply ext_1|discriminate].
  Qed.
  (** check: clauses of the objective are not counted *)
  Definition heard (o : options) s log s' log' : Prop :=
    exists n k, ext log log' n /\ s_props s' = s_props s + k /\ s_pivots s <= s_pivots s' /\ k <= n /\ (o_pmode o = PropNone -> k = 0) /\ (o_global o = None -> k = n \/ (k = 0 /\ n = 1)).
  Lemma told_heard o s log s' log' : told o s log s' log' -> heard o s log s' log'.
  Proof. intros (n & k & A & B & C & D & E). exists n, k. split; [exact A|]. split; [exact B|]. split; [exact C|]. split; [lia|]. auto. Qed.
  Lemma heard_more o s log s1 log1 s2 log2 : heard o s log s1 log1 -> kp s1 s2 /\ (exists n, ext log1 log2 n /\ (o_global o = None -> n = 0)) -> heard o s log s2 log2.
  Proof.
    intros (n & k & A & B & C & D & E & F) ((G1 & G2) & j & J & K). exists (n + j), k. split; [eapply ext_add; eauto|]. split; [lia|]. split; [lia|]. split; [lia|]. split; [exact E|].
    intros Hg. rewrite (K Hg), Nat.add_0_r. auto.
  Qed.
  Lemma t_check_c fuel h (o : options) a total l1 l2 facts foff st off s log off' s' log' ok :
    t_check fuel h o a total l1 l2 facts foff st off s log = Ok (off', s', log', ok) -> heard o s log s' log'.
  Proof.
    unfold t_check. intros E. apply bind_ok in E as ([[[off1 s1] log1] ok1] & E1 & E).
    assert (F1 : heard o s log s1 log1).
    { destruct (_ && _); [|injection E1 as _ <- <- _; exists 0, 0; split; [apply ext_0|split; [lia|split; [lia|split; [lia|auto]]]]]. apply bind_ok in E1 as (u & _ & E1). apply bind_ok in E1 as ([[s2 log2] ok2] & E2 & E1).
      injection E1 as _ <- <- _. apply told_heard. eapply solve_c; eauto. }
    destruct (negb ok1); [injection E as _ <- <- _; auto|].
    apply bind_ok in E as ([[s2 log2] ok2] & E2 & E). apply integrate_c in E2. pose proof (heard_more _ _ _ _ _ _ _ F1 E2) as F2.
    destruct (negb ok2); [injection E as _ <- <- _; auto|]. destruct total; [|injection E as _ <- <- _; auto].
    apply bind_ok in E as (s3 & E3 & E). apply bind_ok in E as (s4 & E4 & E). apply bind_ok in E as ([[s5 log5] ok5] & E5 & E). injection E as _ <- <- _.
    apply optimize_c in E3. assert (F4 : kp s3 s4) by (destruct (o_store o); try (injection E4 as <-; apply kp_refl); eapply store_sat_c; eauto).
    refine (heard_more _ _ _ _ _ _ _ (heard_more _ _ _ _ _ s4 log2 F2 _) (discard_c _ _ _ _ _ _ _ _ E5)).
    split; [exact (kp_trans _ _ _ E3 F4)|]. exists 0. split; [apply ext_0|auto].
  Qed.

  (** ** prepare: the counters start at 0 *)
  Definition zero s : Prop := s_props s = 0 /\ s_pivots s = 0.
  Context {Sym : Type} `{EqDecision Sym}.
  Lemma prep_ineqs_c h find master (qs : list (ineq Sym)) s log s' log' ok : prep_ineqs h find master qs s log = Ok (s', log', ok) -> zero s -> zero s'.
  Proof.
    revert s log. induction qs as [|q qs IH]; intros s log; cbn [prep_ineqs]; [intros [= <- <- <-]; auto|].
    intros E Hz. apply bind_ok in E as ([[s1 log1] ok1] & E1 & E). assert (H1 : zero s1).
    { unfold prep_ineq in E1. destruct (h_false _ _ _); [injection E1 as <- <- <-; exact Hz|].
      apply bind_ok in E1 as (row & _ & E1). destruct row as [|[j v] [|? ?]].
      - destruct (negb master); [injection E1 as <- <- <-; exact Hz|]. destruct (empty_row_clause _ _); injection E1 as <- <- <-; exact Hz.
      - apply bind_ok in E1 as (u & _ & E1). apply bind_ok in E1 as (vj & _ & E1). injection E1 as <- <- <-. exact Hz.
      - destruct (add_basic s) as [s2 i] eqn:Ea. injection E1 as <- <- <-. unfold add_basic in Ea. injection Ea as <- _. exact Hz. }
    destruct ok1; [eauto|injection E as <- <- <-; exact H1].
  Qed.
  Lemma prep_enqueue_c o is s s' : prep_enqueue o is s = Ok s' -> s_props s' = s_props s /\ s_pivots s' = s_pivots s.
  Proof.
    revert s. induction is as [|i is IH]; intros s; cbn [prep_enqueue]; [intros [= <-]; auto|]. intros E. apply bind_ok in E as (s1 & E1 & E). apply IH in E as [-> ->].
    unfold enqueue in E1. binds E1. destruct (o_pmode o); try (injection E1 as <-; destruct (negb _ && _); auto). binds E1. destruct (v_prop _); injection E1 as <-; cbn; destruct (negb _ && _); auto.
  Qed.
  Lemma prep_register_c (bs : list (bound V)) s s' : prep_register bs s = Ok s' -> s_props s' = s_props s /\ s_pivots s' = s_pivots s.
  Proof. revert s. induction bs as [|b bs IH]; intros s; cbn [prep_register]; [intros [= <-]; auto|]. intros E. apply bind_ok in E as (v & Ev & E). exact (IH _ E). Qed.
  Lemma prepare_c h o shuf n (find : Sym -> option nat) qs obj master log s' log' ok : prepare h o shuf n find qs obj master log = Ok (s', log', ok) -> zero s'.
  Proof.
    intros E. unfold prepare in E. apply bind_ok in E as ([[s1 log1] ok1] & E1 & E).
    apply prep_ineqs_c in E1; [|split; reflexivity]. destruct (negb ok1); [injection E as <- <- <-; auto|].
    apply bind_ok in E as (s2 & E2 & E). assert (H2 : zero s2).
    { unfold prep_objective in E2. destruct obj as [|t ts]; [injection E2 as <-; exact E1|]. apply bind_ok in E2 as (row & _ & E2). destruct (o_global o); cbn in E2; injection E2 as <-; exact E1. }
    apply bind_ok in E as (s3 & E3 & E). apply prep_enqueue_c in E3 as [A3 B3]. cbv zeta in E.
    apply bind_ok in E as (s4 & E4 & E). apply prep_register_c in E4 as [A4 B4]. cbn in A4, B4. assert (H4 : zero s4) by (destruct H2; split; congruence).
    destruct (o_pconf o && master); [|injection E as <- <- <-; auto]. destruct (static_vars h (s_vars s4) log1) as [log2 ok2] eqn:E5. injection E as <- <- <-. exact H4.
  Qed.
  Lemma prep_threads_c h o shuf vs (iqs : list (ineq Sym)) obj ids log r log' ok : prep_threads h o shuf vs iqs obj ids log = Ok (r, log', ok) -> Forall (fun x : nat * solver V => zero x.2) r.
  Proof.
    revert log r log' ok. induction ids as [|i ids IH]; intros log r log' ok; cbn [prep_threads]; [intros [= <- <- <-]; constructor|].
    intros E. apply bind_ok in E as ([[s log1] ok1] & E1 & E). apply prepare_c in E1.
    destruct (negb ok1); [injection E as <- <- <-; constructor; [exact E1|constructor]|].
    apply bind_ok in E as ([[r2 log2] ok2] & E2 & E). injection E as <- <- <-. constructor; [exact E1|]. eapply IH; eauto.
  Qed.
End counters.
