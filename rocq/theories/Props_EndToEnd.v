(** * C48: the guarantees from program text to reported answers

    Everything together, for the programs that do not touch the defects listed
    in DESIGN.md (section 5): the only assumptions are about the text of the
    program, the validated options and clingo ([adm]). *)

From Verif Require Import Num Solver Spec Eps Propagator World WorldProofs Reach Observe Parsing ParseSpec ParseNum ParseProofs ParseSum ParseTheory ParseAtoms ParsePrograms ParseSyntax.
From Verif Require Import Props_Parsing Api Examples Props_Solver Props_Decision Props_Program Grammar Props_Grammar.

Section endtoend.
  Context {V : Type} `{VL : ValueLaws V} (th : theory) (m : Z -> Z) (bk : backend).
  Implicit Types w : world V symbol.
  Implicit Types sh : shot V symbol.
  Notation opts := (rg_options (clingolpx_register th)).
  Notation grammar := (rg_theory (clingolpx_register th)).

  (** [sh] is a call of init for the program [l], made of atoms that clingo
      lets through; conditional elements have no constant part, operands of
      &diff are not negated, a constraint without variables is an equality;
      if a constraint on a single variable is an equality then so are all
      other constraints on just that variable. *)
  Record regular (l : list tatom) sh : Prop := {
    re_loaded : exists st, loaded m bk l st /\ sh_iqs sh = ps_iqs st /\ sh_obj sh = ps_obj st;
    re_grammar : forall a, a ∈ l -> admitted grammar a \/ foreign grammar a;
    re_atoms : forall a, a ∈ l -> homogeneous_conditions a /\ plain_difference a;
    re_empty : forall q, q ∈ sh_iqs sh -> q_lhs q = [] -> q_rel q = Req;
    re_equalities : eq_separate (sh_iqs sh);
    re_sort : forall i b, sh_sort sh i b ≡ₚ b;
  }.
  (** any number of shots with regular programs, each followed by any callbacks clingo may make *)
  Inductive session : list tatom -> shot V symbol -> world V symbol -> Prop :=
    | se_first l sh p log : regular l sh -> sh_log sh = [] ->
        p_init (sh_host sh) opts (sh_sort sh) (sh_threads sh) (sh_iqs sh) (sh_obj sh) new_propagator [] = Ok (p, log, true) -> session l sh (start p log)
    | se_next l0 sh0 w0 l sh p log : session l0 sh0 w0 -> regular l sh -> sh_log sh = w_log w0 ->
        p_init (sh_host sh) opts (sh_sort sh) (sh_threads sh) (sh_iqs sh) (sh_obj sh) (w_p w0) (w_log w0) = Ok (p, log, true) -> session l sh (start p log)
    | se_step l sh w e w' : session l sh w -> adm e w -> step opts e w w' -> session l sh w'.

  (** what holds in every state of such a session *)
  Record guarantees (l : list tatom) sh w : Prop := {
    (** every callback returns, without undefined behaviour or exception *)
    gu_returns : forall e, adm e w -> exists n, forall fuel, n <= fuel -> exists w', wstep fuel opts e w = Ok w';
    gu_no_ub : forall e fuel, adm e w -> wstep fuel opts e w <> UB /\ wstep fuel opts e w <> Exn;
    gu_next_shot : forall l' sh', regular l' sh' ->
      exists p log ok, p_init (sh_host sh') opts (sh_sort sh') (sh_threads sh') (sh_iqs sh') (sh_obj sh') (w_p w) (w_log w) = Ok (p, log, ok);
    (** the values reported without conflict satisfy the program *)
    gu_values : forall t tr, accepted w t -> assignment_of m sh w t tr -> exists e0, (0 < e0)%Qc /\ forall e, (0 < e)%Qc -> (e <= e0)%Qc ->
      solves m (fun x => inst e (api_value (w_p w) t x)) tr l /\
      forall v b, p_get_objective (w_p w) t = Ok (Some (v, b)) -> objective_means (fun x => inst e (api_value (w_p w) t x)) (tru m tr) l (inst e v);
    (** conflicts exactly if there is no solution; no clause excludes one *)
    gu_decides : o_global opts = None -> forall t tr, t < length (w_th w) -> assignment_of m sh w t tr -> (accepted w t <-> exists A, solves m A tr l);
    gu_no_solution_lost : o_global opts = None -> forall tr A, (forall x, tr x = true \/ tr (- x)%Z = true) -> consistent m tr -> solves m A tr l ->
      forall c, c ∈ w_log w -> c ∉ sh_log sh -> clause_true (fun x => tr x = true) c;
    (** a check of a total assignment that adds no clause leaves the optimum *)
    gu_optimum : forall t tr h a l1 l2 w', sh_obj sh <> [] -> adm (EvCheck t h a true l1 l2) w -> step opts (EvCheck t h a true l1 l2) w w' ->
      w_log w' = w_log w -> accepted w' t -> assignment_of m sh w' t tr ->
      exists v b, p_get_objective (w_p w') t = Ok (Some (v, b)) /\
        (b = true -> (forall A y, solves m A tr l -> objective_means A (tru m tr) l y -> vle (vofq y) v) /\
           exists e0, (0 < e0)%Qc /\ forall e, (0 < e)%Qc -> (e <= e0)%Qc -> exists A, solves m A tr l /\ objective_means A (tru m tr) l (inst e v)) /\
        (b = false -> forall M : Qc, exists A y, solves m A tr l /\ objective_means A (tru m tr) l y /\ (M < y)%Qc);
    (** undo restores bounds, and values unless they are to be kept *)
    gu_undo : forall t w' e, adm (EvUndo t) w -> step opts (EvUndo t) w w' -> head (th_stk (thread_of w t)) = Some e ->
      map fst (snaps (w_p w') t) = map fst (en_snap e) /\ (o_store opts = StoreNo -> snaps (w_p w') t = en_snap e) /\
      th_stk (thread_of w' t) = tail (th_stk (thread_of w t)) /\ accepted w' t;
  }.

  Context (Hshot : forall l sh, regular l sh -> shot_ok sh) (Hstep : step_ok (V := V) opts).
  Lemma session_current l sh w : session l sh w -> regular l sh.
  Proof. induction 1; assumption. Qed.
  Lemma session_reach l sh w : session l sh w -> reach opts sh w.
  Proof.
    induction 1 as [l sh p log R Hl E|l0 sh0 w0 l sh p log S IH R Hl E|l sh w e w' S IH Ha Hs].
    - apply reach_first; [exact (Hshot _ _ R)|exact Hl|exact E].
    - apply (reach_next opts sh0 w0 sh p log IH (Hshot _ _ R) Hl E).
    - apply (reach_step opts sh w e w' IH Ha); [|exact Hs]. apply eq_separate_safe.
      destruct (reach_inv opts sh w Hstep IH) as (s0s & new0 & facts0 & ass & I).
      replace (p_iqs (w_p w)) with (sh_iqs sh) by (symmetry; apply I). apply (re_equalities _ _ (session_current _ _ _ S)).
  Qed.
  Lemma session_safe l sh w e : session l sh w -> eq_safe e w.
  Proof.
    intros S. apply eq_separate_safe. destruct (reach_inv opts sh w Hstep (session_reach _ _ _ S)) as (s0s & new0 & facts0 & ass & I).
    replace (p_iqs (w_p w)) with (sh_iqs sh) by (symmetry; apply I). apply (re_equalities _ _ (session_current _ _ _ S)).
  Qed.
  Lemma regular_program l sh : regular l sh -> program m bk l sh.
  Proof.
    intros R. constructor; [apply R| |apply R]. intros a Ha. split; [exact (admitted_clean _ _ (re_grammar _ _ R a Ha))|exact (re_atoms _ _ R a Ha)].
  Qed.
  Lemma session_guarantees l sh w : session l sh w -> guarantees l sh w.
  Proof.
    intros S. pose proof (session_reach _ _ _ S) as Hr. pose proof (regular_program _ _ (session_current _ _ _ S)) as Hp.
    pose proof (fun e => session_safe l sh w e S) as Hsafe.
    destruct (C14_no_undefined_behaviour_partial opts sh w Hstep Hr) as (U1 & U2 & _ & _).
    constructor.
    - intros e Ha. exact (C06_callbacks_terminate_partial opts sh w e Hstep Hr Ha (Hsafe e)).
    - intros e fuel Ha. exact (U1 e fuel Ha (Hsafe e)).
    - intros l' sh' R. exact (U2 sh' (Hshot _ _ R)).
    - intros t tr Hacc Has. exact (C01_reported_values_satisfy_program_partial m bk opts l sh w t tr Hstep Hr Hp Hacc Has).
    - intros Hg t tr Ht Has. exact (C07_decides_program_partial m bk opts l sh w t tr Hstep Hr Hp Hg Ht Has).
    - intros Hg tr A Htot Hc HA. exact (C02_no_program_solution_lost_partial m bk opts l sh w tr A Hstep Hr Hp Hg Htot Hc HA).
    - intros t tr h a l1 l2 w' Hob Ha Hs Hl Hacc Has. apply (C08_program_optimum_partial m bk opts l sh w w' t tr Hstep); [|exact Hp|exact Has].
      split; [exact Hr|]. split; [exact Hob|]. split; [exact Hl|]. split; [exact Hacc|]. exists h, a, l1, l2. split; assumption.
    - intros t w' e Ha Hs He. exact (C05_undo_restores_partial opts sh w t w' e Hstep Hr Ha Hs He).
  Qed.
End endtoend.

(** ** The two kinds of registration *)
Lemma shot_eta {V Sym} (sh : shot V Sym) : sh = Shot (sh_host sh) (sh_sort sh) (sh_threads sh) (sh_iqs sh) (sh_obj sh) (sh_log sh).
Proof. now destruct sh. Qed.
Lemma loaded_nil m bk : loaded m bk [] new_pstate.
Proof. constructor. Qed.
Theorem C48_without_strict th m bk l (sh : shot Qc symbol) w : t_strict th = false -> validate_options th = true -> session th m bk l sh w ->
  rg_value (clingolpx_register th) = TRational /\ guarantees th m bk l sh w.
Proof.
  intros Ht Hv S. split; [unfold clingolpx_register; now rewrite Ht|]. apply session_guarantees; [..|exact S].
  - intros l' sh' R. destruct (re_loaded _ _ _ _ _ R) as (st & Hl & Ei & Eo).
    destruct (C46_plain_shots th bk m l' st (sh_host sh') (sh_sort sh') (sh_threads sh') (sh_log sh') Ht Hv Hl (re_grammar _ _ _ _ _ R) (re_sort _ _ _ _ _ R)) as (_ & H & _).
    rewrite (shot_eta sh'), Ei, Eo. exact H.
  - destruct (re_loaded _ _ _ _ _ (session_current _ _ _ _ _ _ S)) as (st & Hl & Ei & Eo).
    exact (proj1 (proj2 (proj2 (C46_plain_shots th bk m l st (sh_host sh) (sh_sort sh) (sh_threads sh) (sh_log sh) Ht Hv Hl (re_grammar _ _ _ _ _ (session_current _ _ _ _ _ _ S)) (re_sort _ _ _ _ _ (session_current _ _ _ _ _ _ S)))))).
Qed.
Theorem C48_with_strict th m bk l (sh : shot RatQ symbol) w : t_strict th = true -> session th m bk l sh w ->
  rg_value (clingolpx_register th) = TRationalQ /\ guarantees th m bk l sh w.
Proof.
  intros Ht S. split; [unfold clingolpx_register; now rewrite Ht|]. apply session_guarantees; [..|exact S].
  - intros l' sh' R. destruct (re_loaded _ _ _ _ _ R) as (st & Hl & Ei & Eo).
    destruct (C46_strict_shots th bk m l' st (sh_host sh') (sh_sort sh') (sh_threads sh') (sh_log sh') Ht Hl (re_grammar _ _ _ _ _ R) (re_sort _ _ _ _ _ R)) as (_ & H & _).
    rewrite (shot_eta sh'), Ei, Eo. exact H.
  - intros g Hg. cbn. discriminate.
Qed.

(** ** Programs without equalities and conditions are regular, up to constraints without variables *)
Definition no_equality (a : tatom) : Prop := called "sum" a \/ called "diff" a -> forall g, ta_guard a <> Some ("="%string, g).
Lemma parse_atom_inequalities bk mp a st st' : unconditional a -> no_equality a -> parse_atom bk mp a st = Ok st' ->
  Forall (fun q : ineq symbol => q_rel q <> Req) (ps_iqs st) -> Forall (fun q : ineq symbol => q_rel q <> Req) (ps_iqs st').
Proof.
  intros Hu Hne E H.
  assert (Hrel : called "sum" a \/ called "diff" a -> forall r t R, ta_guard a = Some (r, t) -> evaluate_cmp r = Ok R -> R <> Req).
  { intros Hc r t R Er ER ->. apply (Hne Hc t). rewrite Er. f_equal. f_equal.
    unfold evaluate_cmp in ER. destruct (String.eqb_spec r "<="); [discriminate ER|]. destruct (String.eqb_spec r ">="); [discriminate ER|].
    destruct (String.eqb_spec r "="); [assumption|]. destruct (String.eqb_spec r ">"); [discriminate ER|]. destruct (String.eqb_spec r "<"); discriminate ER. }
  assert (Hel : forall es aux iqs aux' iqs' ts, (forall e, e ∈ es -> te_cond e = []) -> parse_sum_elems bk mp es aux iqs = Ok (aux', iqs', ts) -> iqs' = iqs).
  { induction es as [|e es IH]; intros aux iqs aux' iqs' ts Hc Ee; cbn [parse_sum_elems] in Ee.
    - injection Ee as <- <- <-. reflexivity.
    - destruct (te_tuple e) as [|t [|? ?]]; try discriminate.
      apply bind_ok in Ee as [x [_ Ee]]. apply bind_ok in Ee as [[[aux1 iqs1] x'] [E1 Ee]]. apply bind_ok in Ee as [[[aux2 iqs2] y] [E2 Ee]].
      injection Ee as <- <- <-. rewrite (Hc e (elem_of_list_here _ _)) in E1. injection E1 as <- <- <-.
      exact (IH _ _ _ _ _ (fun e' He => Hc e' (elem_of_list_further _ _ _ He)) E2). }
  unfold parse_atom in E.
  destruct (match0 (ta_term a) "dom") eqn:M1.
  { destruct (ta_elems a) as [|e [|? ?]]; try discriminate. destruct (ta_guard a) as [[r g]|]; [|discriminate].
    destruct (te_tuple e) as [|[| |n [|l [|u [|? ?]]]| | |] [|? ?]]; try discriminate. destruct (te_cond e); [|discriminate].
    destruct (String.eqb n ".."); [|discriminate].
    apply bind_ok in E as [x [_ E]]. apply bind_ok in E as [hi [_ E]]. apply bind_ok in E as [lo [_ E]]. injection E as <-. cbn [ps_iqs].
    apply Forall_app. split; [exact H|]. constructor; [discriminate|]. constructor; [discriminate|constructor]. }
  destruct (match0 (ta_term a) "diff") eqn:M2.
  { apply match0_called in M2. destruct (ta_guard a) as [[r g]|] eqn:Eg; [|discriminate]. destruct (ta_elems a) as [|e [|? ?]]; try discriminate.
    destruct (te_tuple e) as [|t [|? ?]]; try discriminate. destruct (te_cond e); [|discriminate].
    apply bind_ok in E as [x [_ E]]. apply bind_ok in E as [y [_ E]]. destruct (simplify _) as [lhs rhs].
    apply bind_ok in E as [R [ER E]]. injection E as <-. cbn [ps_iqs]. apply Forall_app. split; [exact H|]. constructor; [|constructor].
    cbn [q_rel]. exact (Hrel (or_intror M2) r g R eq_refl ER). }
  destruct (match0 (ta_term a) "sum") eqn:M3.
  { apply match0_called in M3. destruct (ta_guard a) as [[r g]|] eqn:Eg; [|discriminate].
    apply bind_ok in E as [[[aux iqs] x] [Es E]]. apply bind_ok in E as [y [_ E]]. destruct (simplify _) as [lhs rhs].
    apply bind_ok in E as [R [ER E]]. injection E as <-. cbn [ps_iqs]. apply Forall_app. split; [rewrite (Hel _ _ _ _ _ _ Hu Es); exact H|].
    constructor; [|constructor]. cbn [q_rel]. exact (Hrel (or_introl M3) r g R eq_refl ER). }
  destruct (_ || _).
  { apply bind_ok in E as [[[aux iqs] x] [Es E]]. injection E as <-. cbn [ps_iqs]. rewrite (Hel _ _ _ _ _ _ Hu Es). exact H. }
  injection E as <-. exact H.
Qed.
Lemma loaded_inequalities bk mp l st : loaded mp bk l st -> (forall a, a ∈ l -> unconditional a /\ no_equality a) ->
  Forall (fun q : ineq symbol => q_rel q <> Req) (ps_iqs st).
Proof.
  induction 1 as [|l st l' st' Hl IH E]; intros Ha; [constructor|].
  assert (Hall : forall as' st0 st1, (forall a, a ∈ as' -> unconditional a /\ no_equality a) -> parse_atoms bk mp as' st0 = Ok st1 ->
    Forall (fun q : ineq symbol => q_rel q <> Req) (ps_iqs st0) -> Forall (fun q : ineq symbol => q_rel q <> Req) (ps_iqs st1)).
  { induction as' as [|a as' IHa]; intros st0 st1 Hok E1 H; cbn [parse_atoms] in E1; [injection E1 as <-; exact H|].
    apply bind_ok in E1 as [st2 [E2 E1]]. destruct (Hok a (elem_of_list_here _ _)) as [H1 H2].
    exact (IHa st2 st1 (fun b Hb => Hok b (elem_of_list_further _ _ _ Hb)) E1 (parse_atom_inequalities bk mp a st0 st2 H1 H2 E2 H)). }
  unfold evaluate_theory in E. apply bind_ok in E as [st1 [E1 E]].
  assert (H1 : Forall (fun q : ineq symbol => q_rel q <> Req) (ps_iqs st1)).
  { eapply Hall; [|exact E1|]; [intros a Hin|apply IH; intros a Hin]; apply Ha, elem_of_app; auto. }
  destruct (simplify _) as [obj rhs]. destruct (decide _); [|discriminate]. injection E as <-. exact H1.
Qed.
Theorem C48_simple_programs_regular th m bk l st {V} (h : host) (srt : nat -> list (bound V) -> list (bound V)) n log :
  loaded m bk l st -> (forall a, a ∈ l -> admitted (rg_theory (clingolpx_register th)) a \/ foreign (rg_theory (clingolpx_register th)) a) ->
  (forall a, a ∈ l -> unconditional a /\ no_equality a /\ plain_difference a) -> (forall q, q ∈ ps_iqs st -> q_lhs q <> []) -> (forall i b, srt i b ≡ₚ b) ->
  regular th m bk l (Shot h srt n (ps_iqs st) (ps_obj st) log).
Proof.
  intros Hl Hg Ha He Hs. pose proof (loaded_inequalities bk m l st Hl) as Hq. rewrite Forall_forall in Hq.
  assert (Hq' : forall q, q ∈ ps_iqs st -> q_rel q <> Req) by (apply Hq; intros a Hin; destruct (Ha a Hin) as (? & ? & _); auto).
  constructor; cbn [sh_iqs sh_obj sh_sort].
  - exists st. auto.
  - exact Hg.
  - intros a Hin. destruct (Ha a Hin) as (Hu & _ & Hp). split; [|exact Hp]. intros e t H1 H2. exfalso. apply H2, Hu, H1.
  - intros q Hin E. exfalso. exact (He q Hin E).
  - intros q q' c c' x Hin _ _ _ E. exfalso. exact (Hq' q Hin E).
  - exact Hs.
Qed.

(** ** The program of Props_Program.v (with a strict inequality, a conditional
    element, a domain, a difference and an objective) is regular, and runs to
    a state in which its optimum is reported. *)
Definition sepb (qs : list (ineq symbol)) : bool :=
  forallb (fun q => forallb (fun q' => match q_lhs q, q_lhs q', q_rel q, q_rel q' with
    | [(c, x)], [(c', x')], Req, Req => true
    | [(c, x)], [(c', x')], Req, _ => negb (bool_decide (x = x'))
    | _, _, _, _ => true end) qs) qs.
Lemma sepb_ok qs : sepb qs = true -> eq_separate qs.
Proof.
  intros E q q' c c' x Hq Hq' El El' Er. unfold sepb in E. rewrite forallb_forall in E. specialize (E q (proj1 (elem_of_list_In _ _) Hq)).
  cbv beta in E. rewrite forallb_forall in E. specialize (E q' (proj1 (elem_of_list_In _ _) Hq')). cbv beta in E. rewrite El, El', Er in E.
  destruct (q_rel q'); try reflexivity; rewrite bool_decide_eq_true_2 in E by reflexivity; discriminate.
Qed.
Lemma pgm_sep : sepb (ps_iqs pgm_st) = true.
Proof. vm_compute. reflexivity. Qed.
Lemma pgm_regular : regular (a_theory true) shift_mapper Flint pgm pgm_shot.
Proof.
  constructor.
  - exists pgm_st. split; [exact pgm_loaded|]. split; reflexivity.
  - intros a Ha. left. exact (pgm_admitted a Ha).
  - exact pgm_conditions.
  - exact (pg_plain _ _ _ _ pgm_program).
  - exact (sepb_ok _ pgm_sep).
  - intros i b. reflexivity.
Qed.
Lemma runs_session th m bk l (sh : shot RatQ symbol) fuel evs : forall w w', session th m bk l sh w -> runs fuel (rg_options (clingolpx_register th)) evs w = Some w' -> session th m bk l sh w'.
Proof.
  induction evs as [|e evs IH]; intros w w' S E; cbn [runs] in E; [injection E as <-; exact S|].
  destruct (admb e w && safeb e w) eqn:Eb; [|discriminate]. apply andb_true_iff in Eb as [Ea _].
  destruct (wstep fuel _ e w) as [w1| | |] eqn:Es; try discriminate. refine (IH w1 w' _ E).
  apply (se_step _ _ _ _ _ w e w1 S); [exact (admb_ok _ _ Ea)|exists fuel; exact Es].
Qed.
Lemma first_of_session th m bk l (sh : shot RatQ symbol) r w : regular th m bk l sh -> sh_log sh = [] ->
  r = p_init (sh_host sh) (rg_options (clingolpx_register th)) (sh_sort sh) (sh_threads sh) (sh_iqs sh) (sh_obj sh) new_propagator [] ->
  first_of r = Some w -> session th m bk l sh w.
Proof.
  intros R Hl Er E. unfold first_of in E. destruct r as [[[p log] [|]]| | |]; try discriminate E. injection E as <-.
  apply se_first; [exact R|exact Hl|symmetry; exact Er].
Qed.
Lemma C48_example_aux (w0 : option (world RatQ symbol)) e1 e2 :
  (forall w, w0 = Some w -> session (a_theory true) shift_mapper Flint pgm pgm_shot w) ->
  match w0 with
  | Some w0 => match runs 50 pgm_opts [e1] w0 with
      | Some w => admb e2 w && match wstep 50 pgm_opts e2 w with
          | Ok w' => bool_decide (w_log w' = w_log w) && accb w' && no_units w' && lits_as w' && objb w'
          | _ => false end
      | None => false end
  | None => false
  end = true ->
  exists w v, session (a_theory true) shift_mapper Flint pgm pgm_shot w /\ accepted w 0 /\ assignment_of shift_mapper pgm_shot w 0 all_true /\
    p_get_objective (w_p w) 0 = Ok (Some (v, true)) /\ vemb v = (qz 3, (-(1))%Qc).
Proof.
  intros Hr E. destruct w0 as [w0|]; [|discriminate]. specialize (Hr w0 eq_refl). destruct (runs 50 pgm_opts [e1] w0) as [w|] eqn:E1; [|discriminate].
  apply andb_true_iff in E as [Ea E]. destruct (wstep 50 pgm_opts e2 w) as [w'| | |] eqn:E2; try discriminate.
  rewrite !andb_true_iff in E. destruct E as ((((_ & L2) & L3) & L4) & L5). unfold accb in L2. apply andb_true_iff in L2 as [L2a L2b].
  apply Nat.ltb_lt in L2a. apply negb_true_iff in L2b. unfold objb in L5. destruct (p_get_objective (w_p w') 0) as [[[v bb]|]| | |] eqn:Eo; try discriminate.
  apply andb_true_iff in L5 as [-> L5]. apply bool_decide_eq_true in L5.
  exists w', v. split; [|split; [split; assumption|split; [|split; [exact Eo|exact L5]]]].
  - apply (se_step _ _ _ _ _ w e2 w'); [exact (runs_session (a_theory true) _ _ _ _ 50 [e1] w0 w Hr E1)|exact (admb_ok _ _ Ea)|exists 50; exact E2].
  - constructor.
    + apply all_true_consistent.
    + intros q Hq. apply lits_as_ok; assumption.
    + intros q _ _ log. reflexivity.
    + intros x Hx. apply no_units_ok; [assumption|]. exact (shot_log_sub _ _ _ Hx).
Qed.
Example C48_example : exists w v, session (a_theory true) shift_mapper Flint pgm pgm_shot w /\ accepted w 0 /\ assignment_of shift_mapper pgm_shot w 0 all_true /\
  p_get_objective (w_p w) 0 = Ok (Some (v, true)) /\ vemb v = (qz 3, (-(1))%Qc).
Proof.
  apply (C48_example_aux pgm_first pgm_prop pgm_check).
  - intros w. exact (first_of_session (a_theory true) shift_mapper Flint pgm pgm_shot _ w pgm_regular eq_refl eq_refl).
  - exact pgm_runs_ok.
Qed.
