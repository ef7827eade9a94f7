(** * C63: which literals occur in the clauses handed to clingo

    In every session through the C interface, whatever calls are made in
    whatever order with whatever arguments, legal or not, the clauses the
    object has handed to clingo consist of negations of the literals of the
    constraints in the theory atoms it has been given. *)

From Coq Require Import Ascii String.
From Verif Require Import Num Solver Propagator World Parsing ParseSpec ParseAtoms Props_Parsing Api Examples Props_Program Grammar Main Lifecycle Props_Lifecycle Literals.

(** ** Specification *)
(** The literals of the constraints written in the atoms [l]: the literal of
    every atom that states a constraint, and the literal of the condition of
    every conditional element and its negation (the element is equal to an
    auxiliary variable if the condition holds, the auxiliary variable to 0
    otherwise).  [m]: clingo's solver_literal. *)
Inductive constraint_lit (m : Z -> Z) (l : list tatom) : Z -> Prop :=
  | cl_atom a : a ∈ l -> called "sum" a \/ called "diff" a \/ called "dom" a -> constraint_lit m l (m (ta_lit a))
  | cl_condition a e : a ∈ l -> called "sum" a \/ called "minimize" a \/ called "maximize" a -> e ∈ ta_elems a -> te_cond e <> [] -> constraint_lit m l (m (te_cid e))
  | cl_no_condition a e : a ∈ l -> called "sum" a \/ called "minimize" a \/ called "maximize" a -> e ∈ ta_elems a -> te_cond e <> [] -> constraint_lit m l (- m (te_cid e))%Z.

(** a session: calls that returned, from clingolpx_create on *)
Section session.
  Context (rd : list ascii -> option Qc) (bk : backend) (m : Z -> Z).
  Inductive session : list call -> handle -> Prop :=
    | ss_new : session [] new_handle
    | ss_call cs h c fuel a h' : session cs h -> api_call rd bk m fuel c h = Returned (a, Some h') -> session (cs ++ [c]) h'.
End session.

Definition atoms_in (c : call) : list tatom := match c with InitPlain _ a => ia_atoms a | InitStrict _ a => ia_atoms a | _ => [] end.
(** the literals clingo returns from add_literal during a call *)
Definition added_in (c : call) : list Z := match c with Callback _ e => ev_lits e | _ => [] end.
(** std::sort permutes *)
Definition sorts (c : call) : Prop := match c with InitPlain _ a => forall i l, ia_sort a i l ≡ₚ l | InitStrict _ a => forall i l, ia_sort a i l ≡ₚ l | _ => True end.
Definition clauses_of (x : registered) : list (list Z) := match x with Plain y => w_log (ob_world y) | Strict y => w_log (ob_world y) end.
Definition has_global (x : registered) : Prop := match x with Plain y => o_global (ob_opts y) <> None | Strict y => o_global (ob_opts y) <> None end.
Definition atoms_of (cs : list call) : list tatom := List.concat (map atoms_in cs).
Definition added_of (cs : list call) : list Z := List.concat (map added_in cs).

(** ** Parsing *)
Section parse.
  Context (bk : backend) (m : Z -> Z) (P : Z -> Prop).
  Notation all := (Forall (fun q : ineq symbol => P (q_lit q))).
  Lemma cond_terms_k cid ts : forall aux iqs aux' iqs' ts', cond_terms m cid ts aux iqs = Ok (aux', iqs', ts') -> P (m cid) -> P (- m cid)%Z -> all iqs -> all iqs'.
  Proof.
    induction ts as [|t ts IH]; intros aux iqs aux' iqs' ts'; cbn [cond_terms]; [intros [= _ <- _] _ _ Hq; exact Hq|].
    intros E H1 H2 Hq. apply bind_ok in E as ([[a1 q1] t1] & E1 & E). apply bind_ok in E as ([[a2 q2] r2] & E2 & E). injection E as _ <- _.
    refine (IH _ _ _ _ _ E2 H1 H2 _). unfold cond_term in E1. destruct (_ <? _)%Z; [discriminate|]. destruct (aux_find _ _); injection E1 as _ <- _; [exact Hq|].
    apply Forall_app. split; [exact Hq|]. constructor; [exact H2|]. constructor; [exact H1|constructor].
  Qed.
  Lemma sum_elems_k es : forall aux iqs aux' iqs' x, parse_sum_elems bk m es aux iqs = Ok (aux', iqs', x) ->
    (forall e, e ∈ es -> te_cond e <> [] -> P (m (te_cid e)) /\ P (- m (te_cid e))%Z) -> all iqs -> all iqs'.
  Proof.
    induction es as [|e es IH]; intros aux iqs aux' iqs' x; cbn [parse_sum_elems]; [intros [= _ <- _] _ Hq; exact Hq|].
    intros E He Hq. destruct (te_tuple e) as [|t [|? ?]]; try discriminate. apply bind_ok in E as (y & _ & E).
    apply bind_ok in E as ([[a1 q1] x1] & E1 & E). apply bind_ok in E as ([[a2 q2] y2] & E2 & E). injection E as _ <- _.
    refine (IH _ _ _ _ _ E2 (fun e' He' => He e' (elem_of_list_further _ _ _ He')) _).
    pose proof (He e (elem_of_list_here _ _)) as Hc. destruct (te_cond e); [injection E1 as _ <- _; exact Hq|].
    destruct Hc as [H1 H2]; [discriminate|]. exact (cond_terms_k _ _ _ _ _ _ _ E1 H1 H2 Hq).
  Qed.
  Lemma atom_k a st st' : parse_atom bk m a st = Ok st' -> (forall c, constraint_lit m [a] c -> P c) -> all (ps_iqs st) -> all (ps_iqs st').
  Proof.
    intros E Hp Hq. unfold parse_atom in E. assert (Ha : a ∈ [a]) by left.
    assert (Hs : called "sum" a \/ called "minimize" a \/ called "maximize" a -> forall e, e ∈ ta_elems a -> te_cond e <> [] -> P (m (te_cid e)) /\ P (- m (te_cid e))%Z).
    { intros Hc e He Hn. split; apply Hp; [eapply cl_condition|eapply cl_no_condition]; eauto. }
    destruct (match0 (ta_term a) "dom") eqn:M1; [|destruct (match0 (ta_term a) "diff") eqn:M2; [|destruct (match0 (ta_term a) "sum") eqn:M3; [|destruct (match0 (ta_term a) "minimize" || match0 (ta_term a) "maximize")%bool eqn:M4; [|injection E as <-; exact Hq]]]].
    - apply called_of in M1. assert (Hl : P (m (ta_lit a))) by (apply Hp; eapply cl_atom; [exact Ha|auto]).
      destruct (ta_elems a) as [|e [|? ?]]; try discriminate. destruct (ta_guard a) as [[? g]|]; try discriminate.
      destruct (te_tuple e) as [|[| |n [|lo [|up [|? ?]]]| | |] [|? ?]]; try discriminate. destruct (te_cond e); try discriminate.
      destruct (String.eqb n ".."); try discriminate. apply bind_ok in E as (x & _ & E). apply bind_ok in E as (hi & _ & E). apply bind_ok in E as (lw & _ & E). injection E as <-.
      cbn [ps_iqs]. apply Forall_app. split; [exact Hq|]. constructor; [exact Hl|]. constructor; [exact Hl|constructor].
    - apply called_of in M2. assert (Hl : P (m (ta_lit a))) by (apply Hp; eapply cl_atom; [exact Ha|auto]).
      destruct (ta_guard a) as [[r g]|]; try discriminate. destruct (ta_elems a) as [|e [|? ?]]; try discriminate.
      destruct (te_tuple e) as [|t [|? ?]]; try discriminate. destruct (te_cond e); try discriminate.
      apply bind_ok in E as (x & _ & E). apply bind_ok in E as (y & _ & E). destruct (simplify _) as [lhs rhs]. apply bind_ok in E as (rl & _ & E). injection E as <-.
      cbn [ps_iqs]. apply Forall_app. split; [exact Hq|]. constructor; [exact Hl|constructor].
    - apply called_of in M3. assert (Hl : P (m (ta_lit a))) by (apply Hp; eapply cl_atom; [exact Ha|auto]).
      destruct (ta_guard a) as [[r g]|]; try discriminate. apply bind_ok in E as ([[aux iqs] x] & E1 & E). apply bind_ok in E as (y & _ & E).
      destruct (simplify _) as [lhs rhs]. apply bind_ok in E as (rl & _ & E). injection E as <-.
      cbn [ps_iqs]. apply Forall_app. split; [|constructor; [exact Hl|constructor]]. refine (sum_elems_k _ _ _ _ _ _ E1 (Hs _) Hq). auto.
    - apply bind_ok in E as ([[aux iqs] x] & E1 & E). injection E as <-. cbn [ps_iqs]. refine (sum_elems_k _ _ _ _ _ _ E1 (Hs _) Hq).
      apply Bool.orb_true_iff in M4 as [M|M]; apply called_of in M; auto.
  Qed.
  Lemma constraint_sub l1 l2 c : (forall a, a ∈ l1 -> a ∈ l2) -> constraint_lit m l1 c -> constraint_lit m l2 c.
  Proof. intros Hl [a Ha Hc|a e Ha Hc He Hn|a e Ha Hc He Hn]; [apply cl_atom|eapply cl_condition|eapply cl_no_condition]; eauto. Qed.
  Lemma atoms_k l : forall st st', parse_atoms bk m l st = Ok st' -> (forall c, constraint_lit m l c -> P c) -> all (ps_iqs st) -> all (ps_iqs st').
  Proof.
    induction l as [|a l IH]; intros st st'; cbn [parse_atoms]; [intros [= <-] _ Hq; exact Hq|].
    intros E Hp Hq. apply bind_ok in E as (s1 & E1 & E). refine (IH _ _ E _ _).
    - intros c Hc. apply Hp. revert Hc. apply constraint_sub. intros b Hb. right. exact Hb.
    - refine (atom_k _ _ _ E1 _ Hq). intros c Hc. apply Hp. revert Hc. apply constraint_sub. intros b Hb. apply elem_of_list_singleton in Hb as ->. left.
  Qed.
  Lemma evaluate_k l st st' : evaluate_theory bk m l st = Ok st' -> (forall c, constraint_lit m l c -> P c) -> all (ps_iqs st) -> all (ps_iqs st').
  Proof.
    intros E Hp Hq. unfold evaluate_theory in E. apply bind_ok in E as (s1 & E1 & E). destruct (simplify _) as [obj rhs]. destruct (decide _); [|discriminate]. injection E as <-.
    cbn [ps_iqs]. exact (atoms_k _ _ _ E1 Hp Hq).
  Qed.
End parse.

(** ** Objects *)
Section object.
  Context {V : Type} `{Value V} (print : V -> list ascii) (bk : backend) (m : Z -> Z).
  Definition lits_of (o : options) (ats : list tatom) (own : list Z) (l : Z) : Prop := constraint_lit m ats l \/ (o_global o <> None /\ l ∈ own).
  Definition good (ats : list tatom) (own : list Z) (x : object V) : Prop :=
    Forall (fun q => lits_of (ob_opts x) ats own (q_lit q)) (ps_iqs (ob_parsed x)) /\ Kp (lits_of (ob_opts x) ats own) (w_p (ob_world x)) /\
    Forall (ka (lits_of (ob_opts x) ats own) (ob_opts x) own) (w_log (ob_world x)).
  Lemma good_grow ats own ats' own' x : good ats own x -> good (ats ++ ats') (own ++ own') x.
  Proof.
    assert (Hl : forall l, lits_of (ob_opts x) ats own l -> lits_of (ob_opts x) (ats ++ ats') (own ++ own') l).
    { intros l [A|[A B]]; [left|right; split; [exact A|apply elem_of_app; auto]]. revert A. apply constraint_sub. intros a Ha. apply elem_of_app. auto. }
    intros (A & B & C). split; [|split].
    - eapply Forall_impl; [exact A|]. intros q. apply Hl.
    - eapply Forall_impl; [exact B|]. intros y (X & Y & T). assert (Hb : forall b : bound V, kb (lits_of (ob_opts x) ats own) b -> kb (lits_of (ob_opts x) (ats ++ ats') (own ++ own')) b) by (intros b; apply Hl).
      assert (Ho : forall b : option (bound V), ko (lits_of (ob_opts x) ats own) b -> ko (lits_of (ob_opts x) (ats ++ ats') (own ++ own')) b) by (intros [b|]; [apply Hb|auto]).
      split; [|split].
      + eapply Forall_impl; [exact X|]. exact Hb.
      + eapply Forall_impl; [exact Y|]. intros v (V1 & V2 & V3). split; [auto|]. split; [auto|]. eapply Forall_impl; [exact V3|]. exact Hb.
      + eapply Forall_impl; [exact T|]. intros t. apply Ho.
    - eapply Forall_impl; [exact C|]. intros c [[N D]|(G & l & Hi & ->)]; [left; split; [exact N|]|right; split; [exact G|]; exists l; split; [apply elem_of_app; auto|reflexivity]].
      eapply Forall_impl; [exact D|]. intros l. apply Hl.
  Qed.
  Lemma good_new o ats own : good ats own (new_object o).
  Proof. split; [constructor|]. split; [constructor|constructor]. Qed.
  Lemma good_status ats own x st : good ats own x -> good ats own (Object (ob_opts x) (ob_parsed x) (ob_world x) st).
  Proof. intros G. exact G. Qed.
  Lemma good_more ats own o own' log log' : (forall l, l ∈ own' -> l ∈ own) -> Forall (ka (lits_of o ats own) o own) log -> more (ka (lits_of o ats own) o own') log log' -> Forall (ka (lits_of o ats own) o own) log'.
  Proof.
    intros Ho Hl (cs & -> & Hc). apply Forall_app. split; [exact Hl|]. eapply Forall_impl; [exact Hc|]. intros c [A|(G & l & Hi & ->)]; [left; exact A|right; split; [exact G|]; exists l; auto].
  Qed.
  Lemma good_init a x r x' own : c_init bk m a x = Returned (r, x') -> (forall i l, ia_sort a i l ≡ₚ l) -> forall ats, good (ats ++ ia_atoms a) own x -> good (ats ++ ia_atoms a) own x'.
  Proof.
    intros E Hs ats G. unfold c_init, reply, guarded in E.
    match type of E with context [match ?r with Ok _ => _ | Exn => _ | UB => _ | Fuel => _ end] => destruct r as [y| | |] eqn:Er end; try discriminate; [|injection E as _ <-; exact G].
    injection E as _ <-. apply bind_ok in Er as (st & E1 & Er). apply bind_ok in Er as ([[p log] ok] & E2 & Er). injection Er as <-. destruct G as (A & B & C).
    assert (Hq : Forall (fun q => lits_of (ob_opts x) (ats ++ ia_atoms a) own (q_lit q)) (ps_iqs st)).
    { refine (evaluate_k _ _ _ _ _ _ E1 _ A). intros c Hc. left. revert Hc. apply constraint_sub. intros b Hb. apply elem_of_app. auto. }
    apply p_init_k with (K := lits_of (ob_opts x) (ats ++ ia_atoms a) own) in E2 as [K1 K2]; [|exact Hs|intros q; rewrite Forall_forall in Hq; apply Hq].
    split; [exact Hq|]. split; [exact K1|]. cbn. eapply (good_more _ own _ []); [intros l Hl; inversion Hl|exact C|]. eapply more_weak; [|exact K2]. intros c Hc. left. exact Hc.
  Qed.
  Lemma good_step fuel e x w ats own : wstep fuel (ob_opts x) e (ob_world x) = Ok w -> (forall l, l ∈ ev_lits e -> l ∈ own) -> good ats own x -> good ats own (with_world x w).
  Proof.
    intros E Hl (A & B & C). apply wstep_k with (K := lits_of (ob_opts x) ats own) in E as [K1 K2]; [|intros Hg l Hi; right; auto|exact B].
    split; [exact A|]. split; [exact K1|]. eapply good_more; [exact Hl|exact C|exact K2].
  Qed.
  Lemma good_event fuel e x r x' ats own : c_event print fuel e x = Returned (r, x') -> (forall l, l ∈ ev_lits e -> l ∈ own) -> good ats own x -> good ats own x'.
  Proof.
    intros E Hl G. unfold c_event, reply, guarded, bare in E. destruct e as [t h a lits|t h a total l1 l2|t|t].
    - match type of E with context [wstep ?f ?o ?e ?w] => destruct (wstep f o e w) as [w'| | |] eqn:Ew end; try discriminate; injection E as _ <-; [eapply good_step; eauto|exact G].
    - match type of E with context [wstep ?f ?o ?e ?w] => destruct (wstep f o e w) as [w'| | |] eqn:Ew end; try discriminate; injection E as _ <-; [eapply good_step; eauto|exact G].
    - match type of E with context [wstep ?f ?o ?e ?w] => destruct (wstep f o e w) as [w'| | |] eqn:Ew end; try discriminate; injection E as _ <-; eapply good_step; eauto.
    - match type of E with context [match ?r with Ok _ => _ | Exn => _ | UB => _ | Fuel => _ end] => destruct r as [[l' w']| | |] eqn:Er end; try discriminate; [|injection E as _ <-; exact G].
      injection E as _ <-. apply bind_ok in Er as (l & _ & Er). apply bind_ok in Er as (w & Ew & Er). injection Er as _ <-. eapply good_step; eauto.
  Qed.
  Lemma good_decide t l x r x' ats own : c_decide t l x = Returned (r, x') -> good ats own x -> good ats own x'.
  Proof. intros E G. unfold c_decide, reply, guarded in E. destruct (p_decide _ _ _ _); try discriminate; injection E as _ <-; exact G. Qed.
  Lemma good_query q x r x' ats own : c_query print q x = Returned (r, x') -> good ats own x -> good ats own x'.
  Proof.
    intros E G. unfold c_query in E. assert (Ha : forall l, answered l x = Returned (r, x') -> x' = x) by (intros l; unfold answered; destruct l; try discriminate; intros [= _ <-]; reflexivity).
    destruct q as [s|i|t|t cur|t i|t i|roots st ac]; try (rewrite (Ha _ E); exact G).
    destruct roots; cbn in E; [|injection E as _ <-; exact G]. destruct (on_statistics _ _ _) as [s' a']. injection E as _ <-. exact G.
  Qed.
End object.

(** ** Sessions *)
Section session.
  Context (rd : list ascii -> option Qc) (bk : backend) (m : Z -> Z).
  Definition sound_reg (cs : list call) (x : registered) : Prop :=
    match x with Plain y => good m (atoms_of cs) (added_of cs) y | Strict y => good m (atoms_of cs) (added_of cs) y end.
  Definition sound_handle (cs : list call) (h : handle) : Prop := forall x, hd_prop h = Some x -> sound_reg cs x.
  Lemma concat_snoc {A B} (f : A -> list B) l x : List.concat (map f (l ++ [x])) = List.concat (map f l) ++ f x.
  Proof. rewrite map_app, List.concat_app. cbn. rewrite app_nil_r. reflexivity. Qed.
  Lemma sound_grow cs c h : sound_handle cs h -> sound_handle (cs ++ [c]) h.
  Proof.
    intros G x Hx. specialize (G x Hx). unfold sound_reg, atoms_of, added_of. rewrite !concat_snoc. destruct x; apply good_grow; exact G.
  Qed.
  Lemma on_object_k cs h f a h' : on_object h f = Returned (a, Some h') -> sound_handle cs h -> (forall x b x', f x = Returned (b, x') -> sound_reg cs x -> sound_reg cs x') -> sound_handle cs h'.
  Proof.
    intros E G Hf. unfold on_object in E. destruct (hd_prop h) as [x|] eqn:Ex; [|discriminate]. destruct (f x) as [[b x']| | |] eqn:Ef; try discriminate. injection E as _ <-.
    intros y [= <-]. exact (Hf _ _ _ Ef (G x Ex)).
  Qed.
  Lemma alive_k g h r a h' : alive g h r = Returned (a, Some h') -> r = Returned (a, Some h').
  Proof. unfold alive. destruct (S g =? hd_count h); [auto|discriminate]. Qed.
  Lemma lift_k {V} (inj : object V -> registered) r b x' : lift inj r = Returned (b, x') -> exists y, r = Returned (b, y) /\ x' = inj y.
  Proof. unfold lift. destruct r as [[? y]| | |]; try discriminate. intros [= -> <-]. eauto. Qed.
  Lemma same_object h h' : hd_prop h' = hd_prop h -> forall cs, sound_handle cs h -> sound_handle cs h'.
  Proof. intros E cs G x Hx. apply G. rewrite <- E. exact Hx. Qed.
  Lemma call_k cs h c fuel a h' : sound_handle cs h -> sorts c -> api_call rd bk m fuel c h = Returned (a, Some h') -> sound_handle (cs ++ [c]) h'.
  Proof.
    intros G Hs E. pose proof (sound_grow cs c h G) as G'.
    assert (Hat : atoms_of (cs ++ [c]) = atoms_of cs ++ atoms_in c) by apply concat_snoc. assert (Had : added_of (cs ++ [c]) = added_of cs ++ added_in c) by apply concat_snoc.
    destruct c as [k v|k v|k b| |ad rg|ac| |g ia|g ia|g e|g t l|t|q|]; cbn [api_call] in E.
    - destruct (guarded _) as [[[th [|]]|]| | |]; try discriminate; injection E as _ <-; (eapply same_object; [|exact G']); reflexivity.
    - unfold settings in E. destruct (bare _) as [[th ok]| | |]; try discriminate. injection E as _ <-. eapply same_object; [|exact G']. reflexivity.
    - destruct (String.eqb _ _); [|destruct (String.eqb _ _)]; injection E as _ <-; (eapply same_object; [|exact G']); reflexivity.
    - destruct (guarded _) as [[|]| | |]; try discriminate; injection E as _ <-; exact G'.
    - destruct (guarded _) as [[r|]| | |]; try discriminate; injection E as _ <-; [|exact G']. intros x [= <-]. destruct (rg_value r); apply good_new.
    - injection E as _ <-. exact G'.
    - injection E as _ <-. exact G'.
    - apply alive_k in E. refine (on_object_k _ _ _ _ _ E G' _). intros [x|x] b x' Ef; [|discriminate]. apply lift_k in Ef as (y & Ey & ->). unfold sound_reg. rewrite Hat. eapply good_init; eauto.
    - apply alive_k in E. refine (on_object_k _ _ _ _ _ E G' _). intros [x|x] b x' Ef; [discriminate|]. apply lift_k in Ef as (y & Ey & ->). unfold sound_reg. rewrite Hat. eapply good_init; eauto.
    - apply alive_k in E. assert (Hin : forall l, l ∈ ev_lits e -> l ∈ added_of (cs ++ [Callback g e])) by (intros l Hl; rewrite Had; apply elem_of_app; auto).
      refine (on_object_k _ _ _ _ _ E G' _). intros [x|x] b x' Ef; apply lift_k in Ef as (y & Ey & ->); unfold sound_reg; eapply good_event; eauto.
    - apply alive_k in E. refine (on_object_k _ _ _ _ _ E G' _). intros [x|x] b x' Ef; apply lift_k in Ef as (y & Ey & ->); unfold sound_reg; eapply good_decide; eauto.
    - refine (on_object_k _ _ _ _ _ E G' _). intros [x|x] b x' Ef; apply lift_k in Ef as (y & Ey & ->); unfold sound_reg; (eapply good_event; [exact Ey|]); cbn [ev_lits]; intros l Hl; inversion Hl.
    - assert (F : on_object h (fun x => match x with Plain y => lift Plain (c_query print_rat q y) | Strict y => lift Strict (c_query print_ratq q y) end) = Returned (a, Some h') -> sound_handle (cs ++ [Query q]) h').
      { clear E. intros E. refine (on_object_k _ _ _ _ _ E G' _). intros [x|x] b x' Ef; apply lift_k in Ef as (y & Ey & ->); unfold sound_reg; eapply good_query; eauto. }
      destruct q; try exact (F E). injection E as _ <-. exact G'.
    - discriminate.
  Qed.
  Lemma session_k cs h : session rd bk m cs h -> Forall sorts cs -> sound_handle cs h.
  Proof.
    induction 1 as [|cs h c fuel a h' S IH E]; intros Hs; [intros x [=]|].
    apply Forall_app in Hs as [H1 H2]. inversion H2; subst. eapply call_k; eauto.
  Qed.

  (** Every clause is nonempty and consists of negations of literals of the
      constraints; with global optimization also of literals added for bounds on
      the objective, and such a literal may be asserted by a unit clause. *)
  Theorem C63_clauses cs h x c : session rd bk m cs h -> Forall sorts cs -> hd_prop h = Some x -> c ∈ clauses_of x ->
    (c <> [] /\ forall l, l ∈ c -> constraint_lit m (atoms_of cs) (- l)%Z \/ (has_global x /\ (- l)%Z ∈ added_of cs)) \/
    (has_global x /\ exists l, l ∈ added_of cs /\ c = [l]).
  Proof.
    intros S Hs Hx Hc. pose proof (session_k _ _ S Hs x Hx) as G.
    destruct x as [y|y]; destruct G as (_ & _ & G); rewrite Forall_forall in G; (destruct (G c Hc) as [[N D]|D]; [left; split; [exact N|]|right; exact D]);
      intros l Hl; exact (proj1 (Forall_forall _ _) D l Hl).
  Qed.
  (** Without global optimization: only negations of literals of constraints. *)
  Theorem C63_no_objective cs h x c : session rd bk m cs h -> Forall sorts cs -> hd_prop h = Some x -> ~ has_global x -> c ∈ clauses_of x ->
    c <> [] /\ forall l, l ∈ c -> constraint_lit m (atoms_of cs) (- l)%Z.
  Proof.
    intros S Hs Hx Hg Hc. destruct (C63_clauses _ _ _ _ S Hs Hx Hc) as [[A B]|[A _]]; [|tauto]. split; [exact A|]. intros l Hl. destruct (B l Hl) as [C|[C _]]; tauto.
  Qed.
  (** Atoms that state no constraint: the object is silent. *)
  Theorem C63_silent cs h x : session rd bk m cs h -> Forall sorts cs -> hd_prop h = Some x -> ~ has_global x ->
    (forall a, a ∈ atoms_of cs -> ~ called "sum" a /\ ~ called "diff" a /\ ~ called "dom" a) ->
    (forall a e, a ∈ atoms_of cs -> called "minimize" a \/ called "maximize" a -> e ∈ ta_elems a -> te_cond e = []) -> clauses_of x = [].
  Proof.
    intros S Hs Hx Hg Ha He. destruct (clauses_of x) as [|c r] eqn:Ec; [reflexivity|]. exfalso.
    assert (Hc : c ∈ clauses_of x) by (rewrite Ec; left). destruct (C63_no_objective _ _ _ _ S Hs Hx Hg Hc) as [N D]. destruct c as [|l c]; [auto|].
    destruct (D l (elem_of_list_here _ _)) as [a Hi Hn|a e Hi Hn Hel Hcd|a e Hi Hn Hel Hcd].
    - destruct (Ha a Hi) as (A & B & C). tauto.
    - destruct (Ha a Hi) as (A & B & C). apply Hcd. apply (He a e Hi); [tauto|exact Hel].
    - destruct (Ha a Hi) as (A & B & C). apply Hcd. apply (He a e Hi); [tauto|exact Hel].
  Qed.
End session.

(** ** Examples *)
Definition call_all (bk : backend) (m : Z -> Z) : list call -> handle -> option handle :=
  fix go cs h := match cs with
  | [] => Some h
  | c :: cs => match api_call no_numbers bk m 50 c h with Returned (_, Some h') => go cs h' | _ => None end
  end.
Lemma call_all_session bk m cs cs0 h h' : session no_numbers bk m cs0 h -> call_all bk m cs h = Some h' -> session no_numbers bk m (cs0 ++ cs) h'.
Proof.
  revert cs0 h. induction cs as [|c cs IH]; intros cs0 h S; cbn [call_all]; [intros [= <-]; rewrite app_nil_r; exact S|].
  destruct (api_call no_numbers bk m 50 c h) as [[a [h1|]]| | |] eqn:E; try discriminate. intros E'.
  change (c :: cs) with ([c] ++ cs). rewrite app_assoc. exact (IH _ _ (ss_call _ _ _ _ _ _ _ _ _ S E) E').
Qed.
Definition handed (o : option handle) : option (list (list Z)) := match o with Some h => match hd_prop h with Some x => Some (clauses_of x) | None => None end | None => None end.
Lemma call_all_handed bk m cs cl : handed (call_all bk m cs new_handle) = Some cl ->
  exists h x, session no_numbers bk m cs h /\ hd_prop h = Some x /\ clauses_of x = cl.
Proof.
  unfold handed. destruct (call_all bk m cs new_handle) as [h|] eqn:E; [|discriminate]. destruct (hd_prop h) as [x|] eqn:Ex; [|discriminate]. intros [= <-].
  exists h, x. split; [exact (call_all_session bk m cs [] new_handle h (ss_new _ _ _) E)|]. auto.
Qed.
(** [&sum { x } <= 1], [&sum { x : c } >= 2]; both are true, and so is the
    condition; the second propagation repeats the literals although the first
    one has been answered by a conflict: no assumption on clingo is made. *)
Definition two_atoms : list tatom :=
  [ TAtom (TSym "sum") [TElem [TSym "x"] [] 0%Z] (Some ("<="%string, TNum 1)) 9%Z;
    TAtom (TSym "sum") [TElem [TSym "x"] [49%Z] 49%Z] (Some (">="%string, TNum 2)) 19%Z ].
Definition two_calls : list call :=
  [ Register true true; InitPlain 0 (InitArgs _ two_atoms 1 quiet (fun _ l => l));
    Callback 0 (EvPropagate 0 quiet (lev 0) [10%Z; 20%Z; 50%Z]); Callback 0 (EvPropagate 0 quiet (lev 0) [10%Z; 20%Z; 50%Z]) ].
Lemma two_calls_handed : handed (call_all Flint shift_mapper two_calls new_handle) = Some [[-10; -50; -20]; [-10; -50; -20]]%Z.
Proof. vm_compute. reflexivity. Qed.
Lemma two_calls_sorts : Forall sorts two_calls.
Proof. repeat (constructor; [try exact Logic.I; intros i l; reflexivity|]). constructor. Qed.
(** With global optimization: [&sum { x } <= 7], [&sum { x } <= 5],
    [&maximize { x }].  After the answer [x = 7] the second check asserts a bound
    on the objective by the added literal 1003, and the last propagation hands
    over a clause with its negation. *)
Definition best_atoms : list tatom :=
  [ TAtom (TSym "sum") [TElem [TSym "x"] [] 0%Z] (Some ("<="%string, TNum 7)) 9%Z;
    TAtom (TSym "sum") [TElem [TSym "x"] [] 0%Z] (Some ("<="%string, TNum 5)) 19%Z; TAtom (TSym "maximize") [TElem [TSym "x"] [] 0%Z] None 0%Z ].
Definition best_calls : list call :=
  [ CommandLine "objective" (list_ascii_of_string "global"); Register true true; InitPlain 0 (InitArgs _ best_atoms 1 quiet (fun _ l => l));
    Callback 0 (EvPropagate 0 quiet (lev 0) [10%Z]); Callback 0 (EvCheck 0 quiet (lev 0) true 1001%Z 1002%Z); Callback 0 (EvModel 0);
    Callback 0 (EvCheck 0 quiet (lev 0) true 1003%Z 1004%Z); Callback 0 (EvPropagate 0 quiet (lev 0) [1003%Z; 20%Z]) ].
Lemma best_calls_handed : handed (call_all Flint shift_mapper best_calls new_handle) = Some [[1003]; [-1003; -20]]%Z.
Proof. vm_compute. reflexivity. Qed.
Lemma best_calls_sorts : Forall sorts best_calls.
Proof. repeat (constructor; [try exact Logic.I; intros i l; reflexivity|]). constructor. Qed.
(** only objectives: a check on a total assignment, and nothing is handed over *)
Definition quiet_calls : list call :=
  [ Register true true; InitPlain 0 (InitArgs _ [TAtom (TSym "maximize") [TElem [TSym "x"] [] 0%Z] None 0%Z] 1 quiet (fun _ l => l));
    Callback 0 (EvPropagate 0 quiet (lev 0) [10%Z]); Callback 0 (EvCheck 0 quiet (lev 0) true 1001%Z 1002%Z); Callback 0 (EvModel 0) ].
Lemma quiet_calls_handed : handed (call_all Flint shift_mapper quiet_calls new_handle) = Some [].
Proof. vm_compute. reflexivity. Qed.
Definition hands (cs : list call) (cl : list (list Z)) : Prop :=
  exists h x, session no_numbers Flint shift_mapper cs h /\ hd_prop h = Some x /\ clauses_of x = cl.
Theorem C63_example :
  hands two_calls [[-10; -50; -20]; [-10; -50; -20]]%Z /\ Forall sorts two_calls /\
  hands best_calls [[1003]; [-1003; -20]]%Z /\ Forall sorts best_calls /\ hands quiet_calls [].
Proof.
  split; [exact (call_all_handed _ _ _ _ two_calls_handed)|]. split; [exact two_calls_sorts|].
  split; [exact (call_all_handed _ _ _ _ best_calls_handed)|]. split; [exact best_calls_sorts|].
  exact (call_all_handed _ _ _ _ quiet_calls_handed).
Qed.
