(** * C36: data races and the meaning of concurrent callbacks *)

From Verif Require Import Num Sums Tableau Solver Spec Propagator World WorldProofs Reach Race RaceProofs Examples Observe.

Section shift.
  Context {V : Type} `{Value V} {Sym : Type} `{EqDecision Sym}.

  (** the same replies when [n] clauses were handed over by other calls before *)
  Definition shift (n : nat) (h : host) : host := Host (fun l => h_false h (drop n l)) (fun l => h_reply h (drop n l)).
  Definition pre {A B} (L : list (list Z)) (r : res (A * list (list Z) * B)) : res (A * list (list Z) * B) :=
    '(s, l, ok) ← r; Ok (s, L ++ l, ok).

  Lemma prop_bounds_shift L h test cl (bs : list (bound V)) : forall s l,
    prop_bounds (shift (length L) h) test cl bs s (L ++ l) = let '(s', l', ok) := prop_bounds h test cl bs s l in (s', L ++ l', ok).
  Proof.
    induction bs as [|b bs IH]; intros s l; cbn [prop_bounds]; auto. cbn [shift h_false h_reply]. rewrite <- !app_assoc, !drop_app.
    destruct (test b && negb (h_false h l (b_lit b))); auto. destruct (h_reply h (l ++ [cl ++ [(- b_lit b)%Z]])); auto.
  Qed.
  Lemma prop_row_shift L h i (s : solver V) l : prop_row (shift (length L) h) i s (L ++ l) = pre L (prop_row h i s l).
  Proof.
    unfold prop_row, pre. destruct (at_ (s_vars s) i); cbn; auto. destruct (update_row _ i (prop_cell1 _) _) as [[lo up]| | |]; cbn; auto.
    destruct (negb up && negb lo); cbn; auto. destruct (update_row _ i (prop_cell2 _) _) as [[lw u]| | |]; cbn; auto. destruct (basic_ _ i) as [yi| | |]; cbn; auto.
    destruct (at_ _ yi) as [y| | |]; cbn; auto. destruct u.1 as [uv|].
    - rewrite prop_bounds_shift. destruct (prop_bounds h _ _ _ _ l) as [[s1 l1] ok1]. destruct ok1; cbn; auto. destruct lw.1; cbn; auto.
      rewrite prop_bounds_shift. destruct (prop_bounds h _ _ _ _ l1) as [[s2 l2] ok2]. auto.
    - cbn. destruct lw.1; cbn; auto. rewrite prop_bounds_shift. destruct (prop_bounds h _ _ _ _ l) as [[s2 l2] ok2]. auto.
  Qed.
  Lemma prop_rows_shift L h ch is : forall (s : solver V) l, prop_rows (shift (length L) h) ch is s (L ++ l) = pre L (prop_rows h ch is s l).
  Proof.
    induction is as [|i is IH]; intros s l; cbn [prop_rows]; auto. rewrite prop_row_shift. unfold pre. destruct (prop_row h i _ l) as [[[s1 l1] ok]| | |]; cbn; auto.
    destruct ok; cbn; auto. apply IH.
  Qed.
  Lemma solve_shift fuel L h o a lits (s : solver V) l : solve fuel (shift (length L) h) o a lits s (L ++ l) = pre L (solve fuel h o a lits s l).
  Proof.
    unfold solve. destruct (solve_core fuel o a lits s) as [[s1 ok]| | |]; cbn [mbind res_bind]; auto. destruct ok.
    - unfold propagate_. destruct (o_pmode o); [reflexivity|apply prop_rows_shift..].
    - cbn. rewrite <- app_assoc. auto.
  Qed.
  Lemma integrate_shift L h o lit st (s : solver V) l : integrate_objective (shift (length L) h) o lit st s (L ++ l) = pre L (integrate_objective h o lit st s l).
  Proof.
    unfold integrate_objective. destruct (o_global o) as [g|]; cbn; auto. destruct (os_value (ob_gen (s_obj s)) st) as [gen v]. destruct v as [[w []]|]; cbn; auto.
    destruct (vstep g); cbn; auto. unfold assert_bound. cbn. rewrite <- app_assoc, drop_app. auto.
  Qed.
  Lemma discard_shift L h o lit (s : solver V) l : discard_bounded (shift (length L) h) o lit s (L ++ l) = pre L (discard_bounded h o lit s l).
  Proof.
    unfold discard_bounded. destruct (negb _ || _ || _ || _); cbn; auto. destruct (at_ (s_vars s) (ob_var (s_obj s))); cbn; auto.
    unfold assert_bound. cbn. rewrite <- app_assoc, drop_app. auto.
  Qed.
  Lemma t_check_shift fuel L h o a total l1 l2 facts foff st off (s : solver V) l :
    t_check fuel (shift (length L) h) o a total l1 l2 facts foff st off s (L ++ l) = pre L (t_check fuel h o a total l1 l2 facts foff st off s l).
  Proof.
    unfold t_check. set (g := (a_dl a =? 0) && (off <? foff)).
    assert (K : forall (off1 : nat) (s1 : solver V) (lg1 : list (list Z)), ('(s2, log2, ok2) ← integrate_objective (shift (length L) h) o l1 st s1 (L ++ lg1);
      if negb ok2 then Ok (off1, s2, log2, true) else if total : bool then s3 ← optimize fuel o s2; s4 ← (match o_store o with StoreNo => Ok s3 | _ => store_sat s3 end);
        '(s5, log5, _) ← discard_bounded (shift (length L) h) o l2 s4 log2; Ok (off1, s5, log5, true) else Ok (off1, s2, log2, true)) =
      pre L ('(s2, log2, ok2) ← integrate_objective h o l1 st s1 lg1;
      if negb ok2 then Ok (off1, s2, log2, true) else if total : bool then s3 ← optimize fuel o s2; s4 ← (match o_store o with StoreNo => Ok s3 | _ => store_sat s3 end);
        '(s5, log5, _) ← discard_bounded h o l2 s4 log2; Ok (off1, s5, log5, true) else Ok (off1, s2, log2, true))).
    { intros off1 s1 lg1. rewrite integrate_shift. unfold pre at 1. destruct (integrate_objective h o l1 st s1 lg1) as [[[s2 lg2] ok2]| | |]; cbn; auto. destruct ok2; cbn; auto.
      destruct total; cbn; auto. destruct (optimize fuel o s2) as [s3| | |]; cbn; auto. destruct (match o_store o with StoreNo => _ | _ => _ end) as [s4| | |]; cbn; auto.
      rewrite discard_shift. unfold pre at 1. destruct (discard_bounded h o l2 s4 lg2) as [[[s5 lg5] ok5]| | |]; cbn; auto. }
    destruct g.
    - destruct (guard_ub _) as [[]| | |]; cbn [mbind res_bind]; auto. rewrite solve_shift. unfold pre at 1. destruct (solve fuel h o a _ s l) as [[[s1 lg1] ok1]| | |]; cbn [mbind res_bind]; auto.
      destruct ok1; cbn [negb]; auto.
    - cbn [mbind res_bind negb]. apply K.
  Qed.

  Definition shift_ev (n : nat) (e : event) : event :=
    match e with
    | EvPropagate t h a lits => EvPropagate t (shift n h) a lits
    | EvCheck t h a total l1 l2 => EvCheck t (shift n h) a total l1 l2
    | EvUndo t => EvUndo t
    | EvModel t => EvModel t
    end.
  Definition clauses (a : answer V Sym) : list (list Z) := match a with AClauses cs _ => cs | _ => [] end.
  Lemma seq_wstep fuel o e (w : world V Sym) p' a : seq_call fuel o (CEv e) (w_p w) = Ok (p', a) -> (forall t, e = EvModel t -> o_global o <> None) ->
    exists w', wstep fuel o (shift_ev (length (w_log w)) e) w = Ok w' /\ w_p w' = p' /\ w_log w' = w_log w ++ clauses a.
  Proof.
    destruct e as [t h a0 lits|t h a0 total l1 l2|t|t]; cbn [seq_call shift_ev wstep]; intros E Hm.
    - unfold p_propagate in *. set (p1 := if (a_dl a0 =? 0) && (t =? 0) then _ else _) in *. destruct (at_ (p_slvs p1) t) as [[off s]| | |]; cbn in *; try discriminate.
      pose proof (solve_shift fuel (w_log w) h o a0 lits s []) as Es. rewrite app_nil_r in Es. rewrite Es. unfold pre. destruct (solve fuel h o a0 lits s []) as [[[s' lg] ok]| | |]; cbn in *; try discriminate.
      injection E as <- <-. eauto.
    - unfold p_check in *. destruct (at_ (p_slvs (w_p w)) t) as [[off s]| | |]; cbn in *; try discriminate.
      pose proof (t_check_shift fuel (w_log w) h o a0 total l1 l2 (p_facts (w_p w)) (p_foff (w_p w)) (p_state (w_p w)) off s []) as Es. rewrite app_nil_r in Es. rewrite Es. unfold pre.
      destruct (t_check fuel h o a0 total l1 l2 _ _ _ off s []) as [[[[off' s'] lg] ok]| | |]; cbn in *; try discriminate. injection E as <- <-. eauto.
    - destruct (p_undo t (w_p w)); cbn in *; try discriminate. injection E as <- <-. eexists. split; [reflexivity|]. cbn. rewrite app_nil_r. auto.
    - unfold p_get_objective, p_on_model in *. destruct (o_global o); [|exfalso; eapply Hm; eauto]. destruct (at_ (p_slvs (w_p w)) t) as [[off s]| | |]; cbn in *; try discriminate.
      destruct (get_objective s) as [[x|]| | |]; cbn in *; try discriminate; injection E as <- <-; (eexists; split; [reflexivity|]; cbn; rewrite app_nil_r; auto).
  Qed.
  Lemma seq_read fuel o c (p p' : propagator V Sym) a : seq_call fuel o c p = Ok (p', a) -> (forall e, c <> CEv e) -> p' = p.
  Proof.
    destruct c as [e|t l|t x|t i|t|t i|t]; cbn; intros E Hn.
    - exfalso. eapply Hn; eauto.
    - destruct (p_decide o t l p); cbn in E; congruence.
    - congruence.
    - destruct (p_get_symbol p i); cbn in E; congruence.
    - congruence.
    - destruct (p_get_value p t i); cbn in E; congruence.
    - destruct (p_get_objective p t); cbn in E; congruence.
  Qed.
End shift.

Section c36.
  Context {V : Type} `{VL : ValueLaws V} {Sym : Type} `{EqDecision Sym}.
  Implicit Types (w : world V Sym) (p : propagator V Sym) (m : machine V Sym).

  (** ** Data races

      [racing m t1 t2]: in state [m] the calls in progress on the threads [t1]
      and [t2] are both about to access the same location, at least one of
      them writes, and they do not both hold its mutex. *)
  Definition racing m (t1 t2 : nat) : Prop := t1 <> t2 /\ exists c1 q1 c2 q2, m_ctl m t1 = Some (c1, q1) /\ m_ctl m t2 = Some (c2, q2) /\ conflicting q1 q2.

  (** The only race, in all executions of the machine (any calls on any
      threads with any arguments, any schedule): thread 0 runs propagate on
      level 0, and the other one check on level 0 and has not yet processed
      the facts of earlier shots. *)
  Definition the_race m (t1 t2 : nat) : Prop := t1 = 0 /\ exists h1 a1 lits1 h2 a2 total l1 l2 q1 q2 off s,
    m_ctl m t1 = Some (CEv (EvPropagate 0 h1 a1 lits1), q1) /\ a_dl a1 = 0 /\
    m_ctl m t2 = Some (CEv (EvCheck t2 h2 a2 total l1 l2), q2) /\ a_dl a2 = 0 /\
    p_slvs (m_p m) !! t2 = Some (off, s) /\ off < p_foff (m_p m).
  Theorem C36_one_race_partial fuel o p h m t1 t2 : mexec fuel o (idle p) h m -> racing m t1 t2 -> the_race m t1 t2 \/ the_race m t2 t1.
  Proof.
    intros E (Hn & c1 & q1 & c2 & q2 & H1 & H2 & l & w1 & w2 & m1 & m2 & N1 & N2 & Hw & Hm).
    destruct (minv_exec _ _ _ _ _ E) as (I & _ & _). destruct (I _ _ _ H1) as (T1 & [off1 s1] & Y1 & F1), (I _ _ _ H2) as (T2 & [off2 s2] & Y2 & F2).
    destruct l as [t| | | |].
    - exfalso. apply Hn. assert (t = t1 /\ t = t2) as [-> ->]; [|auto]. destruct q1, q2; cbn in N1, N2; try discriminate; cbn [foot] in F1, F2;
        destruct F1 as [F1 _], F2 as [F2 _]; injection N1; injection N2; intros; subst; auto.
    - assert (K : forall ta ca qa off s tb cb qb offb sb wa wb ma mb, m_ctl m ta = Some (ca, qa) -> m_ctl m tb = Some (cb, qb) -> call_thread ca = ta -> call_thread cb = tb ->
        foot ca qa (off, s) (p_foff (m_p m)) -> foot cb qb (offb, sb) (p_foff (m_p m)) -> p_slvs (m_p m) !! tb = Some (offb, sb) ->
        next qa = Some (LFacts, wa, ma) -> next qb = Some (LFacts, wb, mb) -> wa = true -> wb = false -> the_race m ta tb).
      { intros ta ca qa off s tb cb qb offb sb wa wb ma mb Ha Hb Ta Tb Fa Fb Yb Na Nb -> ->. destruct qa, qb; cbn in Na, Nb; try discriminate.
        destruct Fa as ((ha & aa & la & Eca & Dla) & _), Fb as ((tt0 & hb & ab & tot & l1 & l2 & Ecb & Dlb & Hlt) & _). rewrite Eca in Ha, Ta. rewrite Ecb in Hb, Tb. cbn in Ta, Tb, Hlt. subst ta tt0.
        split; auto. exists ha, aa, la, hb, ab, tot, l1, l2. do 4 eexists. split; [exact Ha|]. split; [exact Dla|]. split; [exact Hb|]. split; [exact Dlb|]. split; [exact Yb|exact Hlt]. }
      destruct w1, w2; try discriminate.
      + exfalso. destruct q1, q2; cbn in N1, N2; try discriminate. destruct F1 as ((? & ? & ? & E1 & _) & _), F2 as ((? & ? & ? & E2 & _) & _).
        rewrite E1 in T1. rewrite E2 in T2. cbn in T1, T2. congruence.
      + left. eapply K with (ca := c1) (cb := c2); eauto.
      + right. eapply K with (ca := c2) (cb := c1); eauto.
    - exfalso. destruct q1, q2; cbn in N1, N2; try discriminate; injection N1 as <- <-; injection N2 as <- <-; discriminate.
    - exfalso. destruct q1, q2; cbn in N1, N2; try discriminate; injection N1 as <- <-; injection N2 as <- <-; discriminate.
    - exfalso. destruct q1, q2; cbn in N1, N2; try discriminate; injection N1 as <- <-; injection N2 as <- <-; discriminate.
  Qed.
  (** No race if no facts were recorded before init, in particular in the first
      shot, and none with a single thread. *)
  Theorem C36_first_shot_no_race fuel o p h m t1 t2 : mexec fuel o (idle p) h m -> p_foff p = 0 \/ length (p_slvs p) <= 1 -> ~ racing m t1 t2.
  Proof.
    intros E Hc Hr. destruct (minv_exec _ _ _ _ _ E) as (I & E2 & E3).
    assert (K : forall ta tb, ta <> tb -> ~ the_race m ta tb).
    { intros ta tb Hn (Ta & h1 & a1 & ls1 & h2 & a2 & tot & l1 & l2 & q1 & q2 & off & s & M1 & _ & M2 & _ & Y & Hlt). destruct Hc as [Hc|Hc]; [lia|].
      apply lookup_lt_Some in Y. lia. }
    assert (Hn : t1 <> t2) by apply Hr. destruct (C36_one_race_partial _ _ _ _ _ _ _ E Hr) as [X|X]; [apply (K t1 t2); auto|apply (K t2 t1); auto].
  Qed.

  (** ** Concurrent callbacks behave like a sequence of callbacks

      For every execution of the machine after which no call is in progress
      there is an execution of the atomic object with the same history of
      calls and returns and the same final state.  (The atomic object performs
      each call in one step between its call and its return.) *)
  Lemma reach_good o (sh : shot V Sym) w : step_ok (V := V) o -> reach o sh w -> good (w_p w).
  Proof.
    intros Hs Hr. destruct (reach_inv o sh w Hs Hr) as (s0s & new0 & facts0 & ass & I). destruct (ri_w _ _ _ _ _ _ _ I) as [_ _ _ W1 W2 W3 [new W4] W5 _ _ _].
    split.
    - rewrite W3, W4, app_length. lia.
    - intros t off s Es. destruct (lookup_lt_is_Some_2 s0s t) as [s0 Hs0]; [rewrite <- W1; eapply lookup_lt_Some; eauto|].
      destruct (W5 t _ s0 Es Hs0) as [fs T]. destruct (ti_off _ _ _ _ _ _ _ _ _ _ _ T) as [X|X]; cbn in X; auto. right. lia.
  Qed.
  Definition quiescent m : Prop := forall t, m_ctl m t = None.
  Theorem C36_linearizable fuel o (sh : shot V Sym) w h m : step_ok (V := V) o -> reach o sh w -> mexec fuel o (idle (w_p w)) h m -> quiescent m ->
    exists A, aexec fuel o (Atomic (w_p w) (fun _ => None) []) h A /\ (forall t, at_ctl A t = None) /\ at_p A = m_p m.
  Proof.
    intros Hs Hr E Hq. destruct (sim_exec fuel o (w_p w) h m (reach_good _ _ _ Hs Hr) E) as [(t & c & q & y & Hc & _)|(A & HA & (E1 & E2 & E3 & E4 & E5 & E6 & E7) & _ & Ht)].
    - rewrite Hq in Hc. discriminate.
    - exists A. split; auto. assert (K : forall t, at_ctl A t = None /\ p_slvs (m_p m) !! t = p_slvs (at_p A) !! t).
      { intros t. specialize (Ht t). rewrite Hq in Ht. unfold tsim in Ht. destruct (at_ctl A t); [contradiction|auto]. }
      split; [apply K|]. assert (E8 : p_slvs (m_p m) = p_slvs (at_p A)) by (apply list_eq; apply K).
      destruct (m_p m), (at_p A). cbn in *. congruence.
  Qed.

  (** The order in which the calls of an execution of the atomic object took
      effect, as a history of World.v: every theorem about histories applies
      to the state reached by the concurrent execution.  (The replies of
      clingo are numbered by the clauses of the call itself in the machine, and
      by all clauses in World.v; reading calls disappear; without global
      optimization on_model does nothing, and World.v only models it with.) *)
  Inductive ordered (fuel : nat) (o : options) : world V Sym -> list (call Sym) -> world V Sym -> Prop :=
    | ord_nil w : ordered fuel o w [] w
    | ord_event w cs w1 e w2 : ordered fuel o w cs w1 -> wstep fuel o (shift_ev (length (w_log w1)) e) w1 = Ok w2 -> ordered fuel o w (cs ++ [CEv e]) w2
    | ord_read w cs w1 c : ordered fuel o w cs w1 -> (forall e, c <> CEv e) -> ordered fuel o w (cs ++ [c]) w1.
  Definition calls (h : list (label V Sym)) : list (call Sym) := omap (fun l => match l with LCall c => Some c | LRet _ _ => None end) h.
  Definition pending (ctl : nat -> option (phase (V := V) (Sym := Sym))) (c : call Sym) : Prop := ctl (call_thread c) = Some (PCalled c).

  Lemma aexec_ordered fuel o w h A : (forall t, CEv (EvModel t) ∈ calls h -> o_global o <> None) -> aexec fuel o (Atomic (w_p w) (fun _ => None) []) h A ->
    (forall c, c ∈ at_order A \/ pending (at_ctl A) c -> c ∈ calls h) /\ (forall t c, at_ctl A t = Some (PCalled c) -> call_thread c = t) /\
    exists w', ordered fuel o w (at_order A) w' /\ w_p w' = at_p A.
  Proof.
    intros Hm E. remember (Atomic (w_p w) (fun _ => None) []) as A0. induction E as [A|A0' l A1 ls A2 E IH Hs]; subst.
    - split; [|split].
      + intros c [Hc|Hc]; [inversion Hc|discriminate].
      + discriminate.
      + exists w. split; [apply ord_nil|auto].
    - destruct IH as (I1 & I2 & w1 & I3 & I4); auto. { intros t Ht. apply (Hm t). unfold calls. rewrite omap_app. apply elem_of_app. auto. }
      assert (Hsub : forall c, c ∈ calls ls -> c ∈ calls (ls ++ match l with Some x => [x] | None => [] end)) by (intros c Hc; unfold calls; rewrite omap_app; apply elem_of_app; auto).
      destruct Hs as [p ctl ord c Hc|p ctl ord c p' a Hc Es|p ctl ord t a Hc]; cbn [at_p at_ctl at_order] in *.
      + split; [|split].
        * intros c' [Hc'|Hc']; [apply Hsub, I1; auto|]. unfold pending, set_ph in Hc'. destruct (call_thread c' =? call_thread c) eqn:Et; [|apply Hsub, I1; auto].
          injection Hc' as ->. unfold calls. rewrite omap_app. apply elem_of_app. right. cbn. left.
        * intros t c'. unfold set_ph. destruct (t =? call_thread c) eqn:Et; [|apply I2]. intros [= ->]. apply Nat.eqb_eq in Et. auto.
        * exists w1. auto.
      + assert (Hin : c ∈ calls ls) by (apply I1; right; exact Hc). split; [|split].
        * intros c' [Hc'|Hc']; [apply elem_of_app in Hc' as [Hc'|Hc']; [apply Hsub, I1; auto|apply elem_of_list_singleton in Hc' as ->; auto]|].
          unfold pending, set_ph in Hc'. destruct (call_thread c' =? call_thread c); [discriminate|apply Hsub, I1; auto].
        * intros t c'. unfold set_ph. destruct (t =? call_thread c); [discriminate|apply I2].
        * subst p. destruct c as [e|t0 l0|t0 x0|t0 i0|t0|t0 i0|t0].
          -- destruct (seq_wstep fuel o e w1 p' a Es) as (w2 & E2 & E3 & E4).
             { intros t ->. apply (Hm t). apply Hsub. auto. }
             exists w2. split; auto. eapply ord_event; eauto.
          -- exists w1. split; [apply ord_read; auto; discriminate|]. symmetry. eapply seq_read; [exact Es|discriminate].
          -- exists w1. split; [apply ord_read; auto; discriminate|]. symmetry. eapply seq_read; [exact Es|discriminate].
          -- exists w1. split; [apply ord_read; auto; discriminate|]. symmetry. eapply seq_read; [exact Es|discriminate].
          -- exists w1. split; [apply ord_read; auto; discriminate|]. symmetry. eapply seq_read; [exact Es|discriminate].
          -- exists w1. split; [apply ord_read; auto; discriminate|]. symmetry. eapply seq_read; [exact Es|discriminate].
          -- exists w1. split; [apply ord_read; auto; discriminate|]. symmetry. eapply seq_read; [exact Es|discriminate].
      + split; [|split].
        * intros c' [Hc'|Hc']; [apply Hsub, I1; auto|]. unfold pending, set_ph in Hc'. destruct (call_thread c' =? t); [discriminate|apply Hsub, I1; auto].
        * intros t' c'. unfold set_ph. destruct (t' =? t); [discriminate|apply I2].
        * exists w1. auto.
  Qed.
  Theorem C36_concurrent_is_sequential fuel o (sh : shot V Sym) w h m : step_ok (V := V) o -> reach o sh w -> mexec fuel o (idle (w_p w)) h m -> quiescent m ->
    (forall t, CEv (EvModel t) ∈ calls h -> o_global o <> None) ->
    exists A w', aexec fuel o (Atomic (w_p w) (fun _ => None) []) h A /\ ordered fuel o w (at_order A) w' /\ w_p w' = m_p m.
  Proof.
    intros Hs Hr E Hq Hm. destruct (C36_linearizable fuel o sh w h m Hs Hr E Hq) as (A & HA & _ & EA).
    destruct (aexec_ordered fuel o w h A Hm HA) as (_ & _ & w' & Ho & Ew). exists A, w'. split; auto. split; auto. congruence.
  Qed.
End c36.

(** ** The race happens

    Two shots with two threads.  In the first, 10 : x <= 4 becomes true on
    level 0 on thread 0.  In the second, thread 0 learns the fact 20 : x >= 1
    while thread 1 performs its first check. *)
Definition race_iqs : list (ineq nat) := [Ineq [(qz 1, 0)] (qz 4) Rle 10; Ineq [(qz 1, 0)] (qz 1) Rge 20].
Definition race_shot (log : list (list Z)) : shot Qc nat := Shot quiet (fun _ l => l) 2 race_iqs [] log.
Definition c_prop : call nat := CEv (ev_prop 0 0 [20%Z]).
Definition c_check : call nat := CEv (ev_check 1 0 false 901 911).
Notation race_init := (fun w : world Qc nat => p_init quiet default_options (fun _ l => l) 2 race_iqs [] (w_p w) (w_log w)).
Definition race_test (w : world Qc nat) : bool :=
  match race_init w with
  | Ok (p, log, true) => (p_foff p =? 1) && match p_slvs p !! 1 with Some (0, _) => true | _ => false end && admb (ev_prop 0 0 [20%Z]) (start p log) && admb (ev_check 1 0 false 901 911) (start p log)
      && (1 <? length (p_slvs p))
  | _ => false
  end.
Lemma race_run : match any_world default_options 2 race_iqs [] [ev_prop 0 0 [10%Z]] with Some w => race_test w | None => false end = true.
Proof. vm_compute. reflexivity. Qed.
Lemma race_shot_ok log : shot_ok (race_shot log).
Proof.
  constructor; cbn.
  - intros q Hq. apply normalb_ok. unfold race_iqs in Hq. rewrite !elem_of_cons in Hq. destruct Hq as [-> |[-> |Hq]]; [vm_compute; reflexivity..|inversion Hq].
  - apply normalb_ok. reflexivity.
  - intros q Hq. unfold race_iqs in Hq. rewrite !elem_of_cons in Hq. destruct Hq as [-> |[-> |Hq]]; [split; apply representable_Qc; auto..|inversion Hq].
  - auto.
Qed.
Theorem C36_refuted : exists (o : options) (sh : shot Qc nat) (w : world Qc nat) (e1 e2 : event) h m fuel,
  step_ok (V := Qc) o /\ reach o sh w /\ adm e1 w /\ adm e2 w /\ mexec fuel o (idle (w_p w)) h m /\ h = [LCall (CEv e1); LCall (CEv e2)] /\ racing m 0 1.
Proof.
  pose proof race_run as E. destruct (any_world default_options 2 race_iqs [] [ev_prop 0 0 [10%Z]]) as [w0|] eqn:Ew; [|discriminate].
  apply any_reach in Ew; [|vm_compute; reflexivity]. unfold race_test in E. destruct (p_init _ _ _ _ _ _ _ _) as [[[p log] [|]]| | |] eqn:Ei; try discriminate.
  rewrite !andb_true_iff in E. destruct E as ((((E1 & E2) & E3) & E4) & E5). apply Nat.eqb_eq in E1. destruct (p_slvs p !! 1) as [[[|] s]|] eqn:Es; try discriminate. apply Nat.ltb_lt in E5.
  pose (e1 := ev_prop 0 0 [20%Z]). pose (e2 := ev_check 1 0 false 901 911).
  exists default_options, (race_shot (w_log w0)), (start p log), e1, e2. do 2 eexists. exists 50.
  split; [intros g; discriminate|]. split; [eapply reach_next; [exact Ew|apply race_shot_ok|reflexivity|exact Ei]|]. split; [apply admb_ok, E3|]. split; [apply admb_ok, E4|].
  split; [|split].
  - eapply me_step; [eapply me_step; [eapply me_step; [eapply me_step; [apply me_refl|]|]|]|].
    + apply (ms_call 50 default_options p (fun _ => None) (CEv e1)); [reflexivity|cbn; lia].
    + apply (ms_call 50 default_options p _ (CEv e2)); [reflexivity|cbn; lia].
    + eapply (ms_act 50 default_options p _ 1); [reflexivity|]. cbn. rewrite Es. reflexivity.
    + eapply (ms_act 50 default_options p _ 1); [reflexivity|]. cbn. reflexivity.
  - reflexivity.
  - split; [auto|]. do 4 eexists. cbn. split; [reflexivity|]. split; [reflexivity|]. exists LFacts, true, false, false, false. rewrite E1. repeat split; reflexivity.
Qed.

(** The machine can run every call to completion: the hypotheses of
    C36_linearizable are met after every call that returns. *)
Section complete.
  Context {V : Type} `{Value V} {Sym : Type} `{EqDecision Sym}.
  Lemma mexec_prog fuel o (p0 : propagator V Sym) h t c q : forall p p' a, exec q p = Some (p', a) ->
    forall ctl, ctl t = Some (c, q) -> mexec fuel o (idle p0) h (Machine p ctl) -> (forall t', t' <> t -> ctl t' = None) ->
    exists m, mexec fuel o (idle p0) (h ++ [LRet t a]) m /\ quiescent m /\ m_p m = p'.
  Proof.
    induction q as [a0| |t' k IH|t' x k IH|k IH|l k IH|k IH|k IH|x k IH|k IH]; intros p p' a E ctl Hc Hm Hn; cbn [exec] in E.
    - injection E as <- <-. eexists. split; [eapply me_step with (l := Some (LRet t a0)); [exact Hm|eapply ms_ret; exact Hc]|]. split; auto.
      intros t'. cbn. unfold set_ctl. destruct (t' =? t) eqn:Et; auto. apply Hn. apply Nat.eqb_neq; auto.
    - discriminate.
    - destruct (p_slvs p !! t') as [y|] eqn:Ey; [|discriminate]. eapply (IH y p p' a E (set_ctl t (Some (c, k y)) ctl)).
      + unfold set_ctl. apply set_ctl_eq.
      + rewrite <- (app_nil_r h). eapply me_step with (l := None); [exact Hm|]. eapply ms_act; [exact Hc|]. cbn. rewrite Ey. auto.
      + intros t2 H2. unfold set_ctl. rewrite set_ctl_ne; auto.
    - eapply (IH _ p' a E (set_ctl t (Some (c, k)) ctl)).
      + unfold set_ctl. apply set_ctl_eq.
      + rewrite <- (app_nil_r h). eapply me_step with (l := None); [exact Hm|]. eapply ms_act; [exact Hc|]. reflexivity.
      + intros t2 H2. unfold set_ctl. rewrite set_ctl_ne; auto.
    - eapply (IH _ p p' a E (set_ctl t (Some (c, k (p_facts p))) ctl)).
      + unfold set_ctl. apply set_ctl_eq.
      + rewrite <- (app_nil_r h). eapply me_step with (l := None); [exact Hm|]. eapply ms_act; [exact Hc|]. reflexivity.
      + intros t2 H2. unfold set_ctl. rewrite set_ctl_ne; auto.
    - eapply (IH _ p' a E (set_ctl t (Some (c, k)) ctl)).
      + unfold set_ctl. apply set_ctl_eq.
      + rewrite <- (app_nil_r h). eapply me_step with (l := None); [exact Hm|]. eapply ms_act; [exact Hc|]. reflexivity.
      + intros t2 H2. unfold set_ctl. rewrite set_ctl_ne; auto.
    - eapply (IH _ p p' a E (set_ctl t (Some (c, k (p_foff p))) ctl)).
      + unfold set_ctl. apply set_ctl_eq.
      + rewrite <- (app_nil_r h). eapply me_step with (l := None); [exact Hm|]. eapply ms_act; [exact Hc|]. reflexivity.
      + intros t2 H2. unfold set_ctl. rewrite set_ctl_ne; auto.
    - eapply (IH _ p p' a E (set_ctl t (Some (c, k (p_state p))) ctl)).
      + unfold set_ctl. apply set_ctl_eq.
      + rewrite <- (app_nil_r h). eapply me_step with (l := None); [exact Hm|]. eapply ms_act; [exact Hc|]. reflexivity.
      + intros t2 H2. unfold set_ctl. rewrite set_ctl_ne; auto.
    - eapply (IH _ p' a E (set_ctl t (Some (c, k)) ctl)).
      + unfold set_ctl. apply set_ctl_eq.
      + rewrite <- (app_nil_r h). eapply me_step with (l := None); [exact Hm|]. eapply ms_act; [exact Hc|]. reflexivity.
      + intros t2 H2. unfold set_ctl. rewrite set_ctl_ne; auto.
    - eapply (IH _ p p' a E (set_ctl t (Some (c, k (p_vars p))) ctl)).
      + unfold set_ctl. apply set_ctl_eq.
      + rewrite <- (app_nil_r h). eapply me_step with (l := None); [exact Hm|]. eapply ms_act; [exact Hc|]. reflexivity.
      + intros t2 H2. unfold set_ctl. rewrite set_ctl_ne; auto.
  Qed.
  Theorem C36_calls_complete fuel o c (p p' : propagator V Sym) a : call_thread c < length (p_slvs p) -> seq_call fuel o c p = Ok (p', a) ->
    exists m, mexec fuel o (idle p) [LCall c; LRet (call_thread c) a] m /\ quiescent m /\ m_p m = p'.
  Proof.
    intros Hl E. pose proof (exec_prog fuel o c p Hl) as Ex. rewrite E in Ex. cbn in Ex.
    destruct (mexec_prog fuel o p [LCall c] (call_thread c) c _ p p' a Ex (set_ctl (call_thread c) (Some (c, prog_of fuel o c)) (fun _ => None))) as (m & H1 & H2); eauto.
    - unfold set_ctl. apply set_ctl_eq.
    - apply (me_step fuel o (idle p) (Some (LCall c)) (idle p) []); [apply me_refl|]. apply ms_call; auto.
    - intros t' Hn. unfold set_ctl. rewrite set_ctl_ne; auto.
  Qed.
End complete.
