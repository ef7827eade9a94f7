(** * The literals in the clauses handed to clingo

    [K]: a set of literals.  If all bounds of a solver have a literal in [K]
    then so they do after every function of the solver, and every clause built
    consists of negations of literals in [K], whatever the state of the solver
    is otherwise. *)
From Verif Require Import Num Tableau Solver Propagator World.

Section literals.
  Context {V : Type} `{Value V} (K : Z -> Prop).
  Implicit Types s : solver V.

  Definition kb (b : bound V) : Prop := K (b_lit b).
  Definition ko (o : option (bound V)) : Prop := match o with Some b => kb b | None => True end.
  Definition kv (v : var V) : Prop := ko (v_lower v) /\ ko (v_upper v) /\ Forall kb (v_bounds v).
  Definition kt (t : nat * brel * option (bound V)) : Prop := ko t.2.
  Definition kl (c : list Z) : Prop := Forall (fun l => K (- l)%Z) c.
  Definition kc (c : list Z) : Prop := c <> [] /\ kl c.
  Definition Kin s : Prop := Forall kb (s_bounds s) /\ Forall kv (s_vars s) /\ Forall kt (s_btrail s).

  Lemma row_inv {S} (P : S -> Prop) (f : nat -> Z -> Z -> S -> res S) t i st st' :
    (forall j a d (s1 s2 : S), P s1 -> f j a d s1 = Ok s2 -> P s2) -> update_row t i f st = Ok st' -> P st -> P st'.
  Proof.
    intros Hf. unfold update_row. destruct (t_rows t !! i) as [r|]; [|intros [= <-]; auto]. generalize (r_den r) as d. intros d.
    revert st. induction (r_cells r) as [|[c v] l IH]; intros st; cbn [row_loop]; [intros [= <-]; auto|].
    intros E Hp. apply bind_ok in E as (s1 & E1 & E). eapply IH; eauto.
  Qed.
  Lemma col_inv (j : nat) (f : nat -> Z -> Z -> solver V -> res (solver V)) s s' :
    (forall i a d s1 s2, Kin s1 -> f i a d s1 = Ok s2 -> Kin s2) -> update_col s_tab set_tab j f s = Ok s' -> Kin s -> Kin s'.
  Proof.
    intros Hf. unfold update_col. destruct (_ !! j) as [col|]; [|intros [= <-]; auto]. intros E Hk. apply bind_ok in E as ([kept s1] & E1 & E). injection E as <-.
    change (Kin s1). revert s Hk E1. generalize (@nil nat). induction col as [|i is IH]; intros kp s Hk; cbn [col_loop]; [intros [= _ <-]; exact Hk|].
    intros E. apply bind_ok in E as (r & _ & E). destruct (clook _ _); [|eauto]. apply bind_ok in E as (s2 & E2 & E). eauto.
  Qed.

  Lemma at_kv s x v : Kin s -> at_ (s_vars s) x = Ok v -> kv v.
  Proof. intros (_ & Hv & _) E. apply at_ok in E. rewrite Forall_forall in Hv. apply Hv. eapply elem_of_list_lookup_2; eauto. Qed.
  Lemma kin_upd x f s : (forall v, kv v -> kv (f v)) -> Kin s -> Kin (upd_var x f s).
  Proof. intros Hf (A & B & C). split; [exact A|]. split; [|exact C]. cbn. apply Forall_alter; [exact B|]. intros v _. apply Hf. Qed.
  Lemma kin_free x f s : (forall v, v_lower (f v) = v_lower v /\ v_upper (f v) = v_upper v /\ v_bounds (f v) = v_bounds v) -> Kin s -> Kin (upd_var x f s).
  Proof. intros Hf. apply kin_upd. intros v. unfold kv. destruct (Hf v) as (-> & -> & ->). auto. Qed.
  Lemma kin_trail t s : kt t -> Kin s -> Kin (set_btrail (s_btrail s ++ [t]) s).
  Proof. intros Ht (A & B & C). split; [exact A|]. split; [exact B|]. apply Forall_app. split; [exact C|]. constructor; [exact Ht|constructor]. Qed.

  Ltac binds E := repeat (lazymatch type of E with mbind _ _ = Ok _ => idtac end; let x := fresh "x" in let Ex := fresh "Ex" in apply bind_ok in E as (x & Ex & E)).
  Ltac free := (apply kin_free; [intros ?; split; [reflexivity|split; reflexivity]|]).

  Lemma set_value_k x lvl v add s s' : set_value x lvl v add s = Ok s' -> Kin s -> Kin s'.
  Proof. unfold set_value. intros E Hk. binds E. injection E as <-. free. destruct (negb _); exact Hk. Qed.
  Lemma enqueue_k o i s s' : enqueue o i s = Ok s' -> Kin s -> Kin s'.
  Proof.
    unfold enqueue. intros E Hk. binds E. set (s1 := if (negb _ && _) then _ else s) in E.
    assert (F1 : Kin s1) by (unfold s1; destruct (negb _ && _); [free|]; exact Hk).
    destruct (o_pmode o); try (injection E as <-; exact F1). binds E. destruct (v_prop _); injection E as <-; [exact F1|].
    match goal with |- Kin (set_pq _ ?t) => change (Kin t) end. free. exact F1.
  Qed.
  Lemma update_k o level j v s s' : update_ o level j v s = Ok s' -> Kin s -> Kin s'.
  Proof.
    unfold update_. intros E Hk. binds E. eapply set_value_k; [exact E|]. eapply col_inv; [|eassumption|exact Hk].
    intros i a d s1 s2 H1 E1. cbn beta in E1. binds E1. eapply enqueue_k; [eassumption|]. eapply set_value_k; eassumption.
  Qed.
  Lemma pivot_k o level i j v s s' : pivot_ o level i j v s = Ok s' -> Kin s -> Kin s'.
  Proof.
    unfold pivot_. intros E Hk. apply bind_ok in E as ([[p a] d] & _ & E). binds E. injection E as <-.
    match goal with E6 : enqueue _ _ _ = Ok ?t |- _ => change (Kin t); refine (enqueue_k _ _ _ _ E6 _) end.
    free. free. free. free. eapply col_inv; [|eassumption|].
    - intros k a1 d1 s1 s2 H1 E1. cbn beta in E1. destruct (k =? i); [injection E1 as <-; exact H1|]. binds E1. eapply enqueue_k; [eassumption|]. eapply set_value_k; eassumption.
    - eapply set_value_k; [eassumption|]. eapply set_value_k; eassumption.
  Qed.
  Lemma kl_snoc c b : kl c -> kb b -> kl (c ++ [(- b_lit b)%Z]).
  Proof. intros Hc Hb. apply Forall_app. split; [exact Hc|]. constructor; [|constructor]. rewrite Z.opp_involutive. exact Hb. Qed.
  Lemma deref_ko (o : option (bound V)) b : ko o -> deref o = Ok b -> kb b.
  Proof. destruct o; cbn; [intros ? [= <-]; auto|discriminate]. Qed.

  Lemma select_cell_k s lower j a d st st' : Kin s -> kc st.2 -> select_cell s lower j a d st = Ok st' -> kc st'.2.
  Proof.
    intros Hk. destruct st as [[kk rj] cl]. cbn [snd]. intros Hc. unfold select_cell. intros E. apply bind_ok in E as (vj & _ & E).
    destruct (_ <? _); [injection E as <-; exact Hc|]. apply bind_ok in E as (xj & Ex & E). apply (at_kv s _ _ Hk) in Ex as (A & B & _). destruct Hc as [Hn Hc].
    assert (Hs : forall b, kb b -> kc (cl ++ [(- b_lit b)%Z])) by (intros b Hb; split; [intros En; apply app_nil in En as [_ En]; discriminate En|apply kl_snoc; auto]).
    destruct (Bool.eqb _ _).
    - destruct (v_upper xj) as [b|]; [destruct (vgeb _ _)|]; injection E as <-; cbn; [apply Hs, B|split; auto..].
    - destruct (v_lower xj) as [b|]; [destruct (vleb _ _)|]; injection E as <-; cbn; [apply Hs, A|split; auto..].
  Qed.
  Lemma select_loop_k q s r s' : select_loop q s = Ok (r, s') -> Kin s -> Kin s' /\ (r = SelUnsat -> kc (s_clause s')).
  Proof.
    revert s. induction q as [|ii q IH]; intros s; cbn [select_loop]; [intros [= <- <-] Hk; split; [exact Hk|discriminate]|].
    intros E Hk. apply bind_ok in E as (xi & Exi & E). pose proof (at_kv s _ _ Hk Exi) as (A & B & _).
    assert (F1 : Kin (upd_var ii (vset_queued false) s)) by (free; exact Hk).
    destruct (_ <? _); [eauto|]. destruct (_ || _); [|eauto].
    apply bind_ok in E as (b & Eb & E). apply bind_ok in E as ([[kk rj] cl] & Er & E).
    assert (Hb : kb b) by (eapply deref_ko; [|exact Eb]; destruct (viol_lower xi); auto).
    assert (Hc : kc cl).
    { refine (row_inv (fun st : nat * nat * list Z => kc st.2) _ _ _ _ (kk, rj, cl) _ Er _).
      - intros j a d s1 s2 H1 E1. exact (select_cell_k _ _ _ _ _ _ _ F1 H1 E1).
      - cbn. split; [discriminate|]. apply (kl_snoc [] b); [constructor|exact Hb]. }
    destruct (_ =? _); injection E as <- <-; (split; [exact F1|]); [intros _; exact Hc|discriminate].
  Qed.

  Lemma update_upper_k a b x s s' ok : update_upper a b x s = Ok (s', ok) -> kb b -> Kin s -> Kin s'.
  Proof.
    unfold update_upper. intros E Hb Hk. binds E. injection E as <- _. match goal with E : at_ (s_vars s) x = Ok _ |- _ => pose proof (at_kv s _ _ Hk E) as (_ & B & _) end.
    destruct (below_upper _ _); [|exact Hk]. apply kin_upd; [intros v (V1 & V2 & V3); split; [exact V1|split; [exact Hb|exact V3]]|].
    match goal with |- Kin (if ?c then _ else _) => destruct c end; [apply kin_trail; auto|exact Hk].
  Qed.
  Lemma trail_back_k t t' : trail_back_eq t = Ok t' -> Forall kt t -> Forall kt t'.
  Proof.
    unfold trail_back_eq. destruct (last t) as [[[x r] b]|] eqn:El; [|discriminate]. intros [= <-] Ht. apply Forall_app. split; [apply Forall_take; exact Ht|].
    constructor; [|constructor]. apply last_Some in El as [l ->]. apply Forall_app in Ht as [_ Ht]. inversion Ht; subst. auto.
  Qed.
  Lemma update_lower_k a b x s s' ok : update_lower a b x s = Ok (s', ok) -> kb b -> Kin s -> Kin s'.
  Proof.
    unfold update_lower. intros E Hb Hk. binds E. injection E as <- _. match goal with E : at_ (s_vars s) x = Ok _ |- _ => pose proof (at_kv s _ _ Hk E) as (A & _ & _) end.
    match goal with E : (if _ then _ else _) = Ok _ |- _ => rename E into E1 end. destruct (above_lower _ _); [|injection E1 as <-; exact Hk].
    binds E1. injection E1 as <-. apply kin_upd; [intros v (V1 & V2 & V3); split; [exact Hb|split; [exact V2|exact V3]]|].
    match goal with E : (if _ then _ else _) = Ok _ |- _ => rename E into E2 end. match type of E2 with (if ?c then _ else _) = _ => destruct c end; [|injection E2 as <-; exact Hk].
    destruct (negb _); [injection E2 as <-; apply kin_trail; auto|]. binds E2. injection E2 as <-.
    destruct Hk as (H1 & H2 & H3). split; [exact H1|]. split; [exact H2|]. eapply trail_back_k; eauto.
  Qed.
  Lemma update_var_k a b x s s' ok : update_var a b x s = Ok (s', ok) -> kb b -> Kin s -> Kin s'.
  Proof.
    unfold update_var. intros E Hb Hk. destruct (b_rel b); [eapply update_upper_k; eauto|eapply update_lower_k; eauto|]. apply bind_ok in E as ([s1 ok1] & E1 & E).
    apply update_upper_k in E1; auto. destruct ok1; [|injection E as <- _; exact E1]. eapply update_lower_k; eauto.
  Qed.
  Lemma update_bound_k o a b s s' ok : update_bound o a b s = Ok (s', ok) -> kb b -> Kin s -> Kin s' /\ (ok = false -> kc (s_clause s')).
  Proof.
    unfold update_bound. intros E Hb Hk. apply bind_ok in E as ([s1 ok1] & E1 & E). apply update_var_k in E1; auto. apply bind_ok in E as (x & Ex & E).
    destruct (negb ok1).
    { pose proof (at_kv s1 _ _ E1 Ex) as (A & B & _). apply bind_ok in E as (u & Eu & E). apply bind_ok in E as (l & El & E). injection E as <- <-. split; [exact E1|]. intros _.
      split; [discriminate|]. change (kl (([] ++ [(- b_lit u)%Z]) ++ [(- b_lit l)%Z])). apply kl_snoc; [apply kl_snoc; [constructor|exact (deref_ko _ _ B Eu)]|exact (deref_ko _ _ A El)]. }
    destruct (_ <? _); [|binds E; injection E as <- <-; split; [eapply enqueue_k; eauto|discriminate]].
    destruct (viol_lower x); [|destruct (viol_upper x)].
    - binds E. injection E as <- <-. split; [eapply update_k; eauto|discriminate].
    - binds E. injection E as <- <-. split; [eapply update_k; eauto|discriminate].
    - injection E as <- <-. split; [exact E1|discriminate].
  Qed.
  Lemma apply_bounds_k o a bs s s' ok : apply_bounds o a bs s = Ok (s', ok) -> Forall kb bs -> Kin s -> Kin s' /\ (ok = false -> kc (s_clause s')).
  Proof.
    revert s. induction bs as [|b bs IH]; intros s; cbn [apply_bounds]; [intros [= <- <-] _ Hk; split; [exact Hk|discriminate]|].
    intros E Hb Hk. inversion Hb; subst. apply bind_ok in E as ([s1 ok1] & E1 & E). apply update_bound_k in E1; auto. destruct ok1; [apply IH in E; auto; tauto|injection E as <- <-; exact E1].
  Qed.
  Lemma find_bounds_k s lits : Kin s -> Forall kb (List.concat (map (find_bounds s) lits)).
  Proof.
    intros (A & _ & _). induction lits as [|l lits IH]; [constructor|]. cbn [map List.concat]. apply Forall_app. split; [|exact IH].
    rewrite Forall_forall in A |- *. intros b Hb. apply A. unfold find_bounds in Hb. apply elem_of_list_In, filter_In in Hb as [Hb _]. apply elem_of_list_In. exact Hb.
  Qed.
  Lemma simplex_loop_k fuel o level s s' ok : simplex_loop fuel o level s = Ok (s', ok) -> Kin s -> Kin s' /\ (ok = false -> kc (s_clause s')).
  Proof.
    revert s. induction fuel as [|fuel IH]; intros s; cbn [simplex_loop]; [discriminate|].
    intros E Hk. apply bind_ok in E as ([r s1] & E1 & E). apply select_loop_k in E1 as [F1 F2]; [|exact Hk]. destruct r.
    - injection E as <- <-. split; [exact F1|discriminate].
    - injection E as <- <-. split; [exact F1|auto].
    - apply bind_ok in E as (s2 & E2 & E). exact (IH _ E (pivot_k _ _ _ _ _ _ _ E2 F1)).
  Qed.
  Lemma reset_levels_k t s s' : reset_levels t s = Ok s' -> Kin s -> Kin s'.
  Proof.
    revert s. induction t as [|[[l x] v] t IH]; intros s; cbn [reset_levels]; [intros [= <-]; auto|].
    intros E Hk. apply bind_ok in E as (w & _ & E). apply (IH _ E). free. exact Hk.
  Qed.
  Lemma store_sat_k s s' : store_sat s = Ok s' -> Kin s -> Kin s'.
  Proof. unfold store_sat. intros E Hk. binds E. injection E as <-. match goal with E : reset_levels _ _ = Ok ?t |- _ => change (Kin t); eapply reset_levels_k; eauto end. Qed.
  Lemma push_offset_k a s : Kin s -> Kin (push_offset a s).
  Proof. unfold push_offset. intros Hk. match goal with |- Kin (if ?c then _ else _) => destruct c end; exact Hk. Qed.
  Lemma solve_core_k fuel o a lits s s' ok : solve_core fuel o a lits s = Ok (s', ok) -> Kin s -> Kin s' /\ (ok = false -> kc (s_clause s')).
  Proof.
    unfold solve_core, apply_lits. intros E Hk. apply push_offset_k with (a := a) in Hk. apply bind_ok in E as ([s1 ok1] & E1 & E).
    apply apply_bounds_k in E1; [|apply find_bounds_k; exact Hk|exact Hk]. destruct E1 as [F1 G1].
    destruct (negb ok1) eqn:En; [injection E as <- <-; split; [exact F1|intros _; apply G1; apply negb_true_iff; exact En]|].
    apply bind_ok in E as ([s2 ok2] & E2 & E). apply simplex_loop_k in E2 as [F2 G2]; [|exact F1].
    destruct ok2; [|injection E as <- <-; auto]. split; [|destruct (o_store o); binds E; injection E as <- <-; discriminate].
    destruct (o_store o); try (injection E as <- _; exact F2). binds E. injection E as <- _. eapply store_sat_k; eauto.
  Qed.

  (** ** propagate_ *)
  Definition more (P : list Z -> Prop) (log log' : list (list Z)) : Prop := exists cs, log' = log ++ cs /\ Forall P cs.
  Lemma more_refl P log : more P log log. Proof. exists []. rewrite app_nil_r. split; [reflexivity|constructor]. Qed.
  Lemma more_one (P : list Z -> Prop) log c : P c -> more P log (log ++ [c]). Proof. exists [c]. split; [reflexivity|]. constructor; [assumption|constructor]. Qed.
  Lemma more_trans P l1 l2 l3 : more P l1 l2 -> more P l2 l3 -> more P l1 l3.
  Proof. intros (c1 & -> & A) (c2 & -> & B). exists (c1 ++ c2). rewrite app_assoc. split; [reflexivity|]. apply Forall_app. auto. Qed.
  Lemma more_weak (P Q : list Z -> Prop) l1 l2 : (forall c, P c -> Q c) -> more P l1 l2 -> more Q l1 l2.
  Proof. intros Hw (c1 & -> & A). exists c1. split; [reflexivity|]. eapply Forall_impl; eauto. Qed.
  Notation mk := (more kc).

  Lemma prop_bounds_k h test cl (bs : list (bound V)) s log s' log' ok : prop_bounds h test cl bs s log = (s', log', ok) -> kl cl -> Forall kb bs -> Kin s -> Kin s' /\ mk log log'.
  Proof.
    revert s log. induction bs as [|b bs IH]; intros s log; cbn [prop_bounds]; [intros [= <- <- <-] _ _ Hk; split; [exact Hk|apply more_refl]|].
    intros E Hc Hb Hk. inversion Hb as [|? ? Hb1 Hb2]; subst. destruct (test b && _); [|eapply IH; eauto].
    assert (Ho : mk log (log ++ [cl ++ [(- b_lit b)%Z]])).
    { apply more_one. split; [intros En; apply app_nil in En as [_ En]; discriminate En|apply kl_snoc; auto]. }
    destruct (h_reply _ _); [|injection E as <- <- <-; split; [exact Hk|exact Ho]].
    apply IH in E; auto. destruct E as [F G]. split; [exact F|]. eapply more_trans; eauto.
  Qed.
  Lemma prop_add_k ob a d (st : option V * list Z) : ko ob -> kl st.2 -> kl (prop_add ob a d st).2.
  Proof. intros Ho Hc. unfold prop_add. destruct st.1; [|exact Hc]. destruct ob as [b|]; [|exact Hc]. cbn. apply kl_snoc; auto. Qed.
  Lemma prop_row_k h i s log s' log' ok : prop_row h i s log = Ok (s', log', ok) -> Kin s -> Kin s' /\ mk log log'.
  Proof.
    unfold prop_row. intros E Hk. apply bind_ok in E as (w & _ & E). set (s1 := upd_var i (vset_prop false) s) in *.
    assert (H1 : Kin s1) by (unfold s1; free; exact Hk).
    apply bind_ok in E as ([lo up] & _ & E). destruct (negb up && negb lo); [injection E as <- <- <-; split; [exact H1|apply more_refl]|].
    apply bind_ok in E as ([l u] & Elu & E).
    assert (Hlu : kl l.2 /\ kl u.2).
    { refine (row_inv (fun st : (option V * list Z) * (option V * list Z) => kl st.1.2 /\ kl st.2.2) _ _ _ _ (l, u) _ Elu _).
      - intros j a d st1 st2 [A B] E1. unfold prop_cell2 in E1. apply bind_ok in E1 as (jj & _ & E1). apply bind_ok in E1 as (xj & Ex & E1). apply (at_kv s1 _ _ H1) in Ex as (X & Y & _).
        destruct (Bool.eqb _ _); injection E1 as <-; cbn [fst snd]; split; apply prop_add_k; auto.
      - cbn. split; constructor. }
    destruct Hlu as [Hl Hu]. apply bind_ok in E as (ii & _ & E). apply bind_ok in E as (yv & Ey & E). apply (at_kv s1 _ _ H1) in Ey as (_ & _ & Hy).
    match type of E with (let '(_, _) := ?m in _) = _ => destruct m as [[s2 log2] ok2] eqn:E2 end.
    assert (H2 : Kin s2 /\ mk log log2).
    { destruct u.1; [eapply prop_bounds_k; eauto|injection E2 as <- <- <-; split; [exact H1|apply more_refl]]. }
    destruct H2 as [H2 M2]. destruct (negb ok2); [injection E as <- <- <-; auto|].
    destruct l.1; [|injection E as <- <- <-; auto]. injection E as E. apply prop_bounds_k in E as [A B]; auto. split; [exact A|]. eapply more_trans; eauto.
  Qed.
  Lemma prop_rows_k h (changed : bool) is s log s' log' ok : prop_rows h changed is s log = Ok (s', log', ok) -> Kin s -> Kin s' /\ mk log log'.
  Proof.
    revert s log. induction is as [|i is IH]; intros s log; cbn [prop_rows]; [intros [= <- <- <-] Hk; split; [exact Hk|apply more_refl]|].
    intros E Hk. apply bind_ok in E as ([[s1 log1] ok1] & E1 & E). apply prop_row_k in E1 as [H1 M1]; [|destruct changed; exact Hk].
    destruct ok1; [|injection E as <- <- <-; auto]. apply IH in E as [A B]; [|exact H1]. split; [exact A|]. eapply more_trans; eauto.
  Qed.
  Lemma solve_k fuel h (o : options) a lits s log s' log' ok : solve fuel h o a lits s log = Ok (s', log', ok) -> Kin s -> Kin s' /\ mk log log'.
  Proof.
    unfold solve. intros E Hk. apply bind_ok in E as ([s1 ok1] & E1 & E). apply solve_core_k in E1 as [H1 C1]; [|exact Hk].
    destruct ok1; [|injection E as <- <- <-; split; [exact H1|apply more_one; auto]].
    unfold propagate_ in E. destruct (o_pmode o); [injection E as <- <- <-; split; [exact H1|apply more_refl]|..]; (eapply prop_rows_k; [exact E|exact H1]).
  Qed.

  (** ** undo *)
  Lemma undo_bounds_k t s s' : undo_bounds t s = Ok s' -> Forall kt t -> Kin s -> Kin s'.
  Proof.
    revert s. induction t as [|[[x r] b] t IH]; intros s; cbn [undo_bounds]; [intros [= <-]; auto|].
    intros E Ht Hk. inversion Ht as [|? ? Hb Ht']; subst. apply bind_ok in E as (w & _ & E). apply (IH _ E Ht'). apply kin_upd; [|exact Hk]. cbn in Hb.
    intros v (A & B & C). destruct r; (split; [|split]); auto.
  Qed.
  Lemma undo_values_k t s s' : undo_values t s = Ok s' -> Kin s -> Kin s'.
  Proof.
    revert s. induction t as [|[[l x] v] t IH]; intros s; cbn [undo_values]; [intros [= <-]; auto|].
    intros E Hk. apply bind_ok in E as (w & _ & E). apply (IH _ E). free. exact Hk.
  Qed.
  Lemma clear_queue_k q s s' : clear_queue q s = Ok s' -> Kin s -> Kin s'.
  Proof.
    revert s. induction q as [|x q IH]; intros s; cbn [clear_queue]; [intros [= <-] Hk; exact Hk|].
    intros E Hk. apply bind_ok in E as (w & _ & E). apply (IH _ E). free. exact Hk.
  Qed.
  Lemma undo_k s s' : undo s = Ok s' -> Kin s -> Kin s'.
  Proof.
    unfold undo. intros E Hk. apply bind_ok in E as (f & _ & E). apply bind_ok in E as (u1 & _ & E). apply bind_ok in E as (s1 & E1 & E).
    apply bind_ok in E as (u2 & _ & E). apply bind_ok in E as (s3 & E3 & E). apply bind_ok in E as (s5 & E5 & E). injection E as <-.
    change (Kin s5). refine (clear_queue_k _ _ _ E5 _). change (Kin s3). refine (undo_values_k _ _ _ E3 _).
    assert (H1 : Kin s1) by (refine (undo_bounds_k _ _ _ E1 _ Hk); destruct Hk as (_ & _ & C); apply Forall_drop; exact C).
    destruct H1 as (A & B & C). split; [exact A|]. split; [exact B|]. apply Forall_take. exact C.
  Qed.

  (** ** optimize and the objective bounds *)
  Lemma optimize_k fuel o s s' : optimize fuel o s = Ok s' -> Kin s -> Kin s'.
  Proof.
    unfold optimize. destruct (ob_active _); [|intros [= <-]; auto].
    revert s. induction fuel as [|fuel IH]; intros s; cbn [optimize_loop]; [discriminate|].
    intros E Hk. apply bind_ok in E as ([s1 fin] & E1 & E). assert (H1 : Kin s1).
    { unfold optimize_step in E1. apply bind_ok in E1 as (xz & _ & E1). apply bind_ok in E1 as ([ee pos] & _ & E1).
      destruct (ee =? _); [injection E1 as <- _; exact Hk|]. apply bind_ok in E1 as (xe & _ & E1). apply bind_ok in E1 as ([t cand] & _ & E1).
      destruct cand as [[[ll v] b]|].
      - binds E1. injection E1 as <- _. eapply pivot_k; [eassumption|]. exact Hk.
      - destruct (if pos then _ else _) as [b|]; [|injection E1 as <- _; exact Hk]. binds E1. injection E1 as <- _. eapply update_k; [eassumption|]. exact Hk. }
    destruct fin; [injection E as <-; exact H1|eauto].
  Qed.
  Lemma assert_bound_k h lit v s log s' log' ok : assert_bound h lit v s log = (s', log', ok) -> K lit -> Kin s -> Kin s' /\ log' = log ++ [[lit]].
  Proof.
    unfold assert_bound. intros [= <- <- _] Hl (A & B & C). split; [|reflexivity]. split; [|split; [exact B|exact C]]. cbn. apply Forall_app. split; [exact A|]. constructor; [exact Hl|constructor].
  Qed.
  (** clauses a check hands over: conflict clauses and, with global
      optimization, the literal of a bound on the objective *)
  Definition ka (o : options) (own : list Z) (c : list Z) : Prop := kc c \/ (o_global o <> None /\ exists l, l ∈ own /\ c = [l]).
  Lemma integrate_k h (o : options) lit st s log s' log' ok own : lit ∈ own -> (o_global o <> None -> K lit) -> integrate_objective h o lit st s log = Ok (s', log', ok) -> Kin s ->
    Kin s' /\ more (ka o own) log log'.
  Proof.
    intros Ho Hl. unfold integrate_objective. destruct (o_global o) eqn:Eg; [|intros [= <- <- _] Hk; split; [exact Hk|apply more_refl]].
    destruct (os_value _ _) as [gen [[w []]|]]; try (intros [= <- <- _] Hk; split; [exact Hk|apply more_refl]).
    destruct (vstep _) as [dd|]; [|discriminate]. intros E Hk.
    assert (E' : assert_bound h lit (vadd w dd) (set_obj (obj_set_gen gen (s_obj s)) s) log = (s', log', ok)) by congruence.
    destruct (assert_bound_k _ _ _ _ _ _ _ _ E' (Hl ltac:(discriminate)) Hk) as [A ->]. split; [exact A|].
    apply more_one. right. split; [rewrite Eg; discriminate|]. exists lit. auto.
  Qed.
  Lemma discard_k h (o : options) lit s log s' log' ok own : lit ∈ own -> (o_global o <> None -> K lit) -> discard_bounded h o lit s log = Ok (s', log', ok) -> Kin s ->
    Kin s' /\ more (ka o own) log log'.
  Proof.
    intros Ho Hl. unfold discard_bounded. destruct (o_global o) eqn:Eg; cbn [negb]; [|rewrite orb_true_r; cbn [orb]; intros [= <- <- _] Hk; split; [exact Hk|apply more_refl]].
    match goal with |- (if ?c then _ else _) = _ -> _ => destruct c end; [intros [= <- <- _] Hk; split; [exact Hk|apply more_refl]|].
    intros E Hk. apply bind_ok in E as (v & _ & E). assert (E' : assert_bound h lit (vadd (v_val v) (vofq 1)) s log = (s', log', ok)) by congruence. destruct (assert_bound_k _ _ _ _ _ _ _ ok E' (Hl ltac:(discriminate)) Hk) as [A ->]. split; [exact A|].
    apply more_one. right. split; [rewrite Eg; discriminate|]. exists lit. auto.
  Qed.
  Lemma t_check_k fuel h (o : options) a total l1 l2 facts foff st off s log off' s' log' ok : (o_global o <> None -> K l1 /\ K l2) ->
    t_check fuel h o a total l1 l2 facts foff st off s log = Ok (off', s', log', ok) -> Kin s -> Kin s' /\ more (ka o [l1; l2]) log log'.
  Proof.
    intros Hl. unfold t_check. intros E Hk. apply bind_ok in E as ([[[off1 s1] log1] ok1] & E1 & E).
    assert (F1 : Kin s1 /\ more (ka o [l1; l2]) log log1).
    { destruct (_ && _); [|injection E1 as _ <- <- _; split; [exact Hk|apply more_refl]]. apply bind_ok in E1 as (u & _ & E1). apply bind_ok in E1 as ([[s2 log2] ok2] & E2 & E1).
      injection E1 as _ <- <- _. apply solve_k in E2 as [A B]; [|exact Hk]. split; [exact A|]. eapply more_weak; [|exact B]. intros c Hc. left. exact Hc. }
    destruct F1 as [F1 M1]. destruct (negb ok1); [injection E as _ <- <- _; auto|].
    apply bind_ok in E as ([[s2 log2] ok2] & E2 & E). apply (integrate_k _ _ _ _ _ _ _ _ _ [l1; l2]) in E2 as [F2 M2]; [|left|tauto|exact F1].
    pose proof (more_trans _ _ _ _ M1 M2) as M12.
    destruct (negb ok2); [injection E as _ <- <- _; auto|]. destruct total; [|injection E as _ <- <- _; auto].
    apply bind_ok in E as (s3 & E3 & E). apply bind_ok in E as (s4 & E4 & E). apply bind_ok in E as ([[s5 log5] ok5] & E5 & E). injection E as _ <- <- _.
    apply optimize_k in E3; [|exact F2]. assert (F4 : Kin s4) by (destruct (o_store o); try (injection E4 as <-; exact E3); eapply store_sat_k; eauto).
    apply (discard_k _ _ _ _ _ _ _ _ [l1; l2]) in E5 as [F5 M5]; [|right; left|tauto|exact F4]. split; [exact F5|]. eapply more_trans; eauto.
  Qed.

  (** ** prepare *)
  Context {Sym : Type} `{EqDecision Sym}.
  Lemma kin_bounds s b : kb b -> Kin s -> Kin (set_bounds (s_bounds s ++ [b]) s).
  Proof. intros Hb (A & B & C). split; [|split; [exact B|exact C]]. cbn. apply Forall_app. split; [exact A|]. constructor; [exact Hb|constructor]. Qed.
  Lemma kv_new i : kv (new_var i). Proof. split; [exact I|]. split; [exact I|constructor]. Qed.
  Lemma add_basic_k s : Kin s -> Kin (add_basic s).1.
  Proof. intros (A & B & C). split; [exact A|]. split; [|exact C]. cbn. apply Forall_app. split; [exact B|]. constructor; [apply kv_new|constructor]. Qed.
  Lemma prep_ineqs_k h find master (qs : list (ineq Sym)) s log s' log' ok : (forall q, q ∈ qs -> K (q_lit q)) ->
    prep_ineqs h find master qs s log = Ok (s', log', ok) -> Kin s -> Kin s' /\ mk log log'.
  Proof.
    revert s log. induction qs as [|q qs IH]; intros s log Hq; cbn [prep_ineqs]; [intros [= <- <- <-] Hk; split; [exact Hk|apply more_refl]|].
    intros E Hk. apply bind_ok in E as ([[s1 log1] ok1] & E1 & E). assert (H1 : Kin s1 /\ mk log log1).
    { assert (Kq : K (q_lit q)) by (apply Hq; left). unfold prep_ineq in E1. destruct (h_false _ _ _); [injection E1 as <- <- <-; split; [exact Hk|apply more_refl]|].
      apply bind_ok in E1 as (row & _ & E1). destruct row as [|[j v] [|? ?]].
      - destruct (negb master); [injection E1 as <- <- <-; split; [exact Hk|apply more_refl]|]. destruct (empty_row_clause _ _); injection E1 as <- <- <-; (split; [exact Hk|]); [|apply more_refl].
        apply more_one. split; [discriminate|]. constructor; [|constructor]. rewrite Z.opp_involutive. exact Kq.
      - apply bind_ok in E1 as (u & _ & E1). apply bind_ok in E1 as (vj & _ & E1). injection E1 as <- <- <-. split; [|apply more_refl]. apply kin_bounds; [exact Kq|exact Hk].
      - destruct (add_basic s) as [s2 i] eqn:Ea. injection E1 as <- <- <-. split; [|apply more_refl]. apply add_basic_k in Hk. rewrite Ea in Hk. cbn [fst] in Hk.
        match goal with |- Kin (set_cells _ _ ?t) => change (Kin t) end. apply kin_bounds; [exact Kq|exact Hk]. }
    destruct H1 as [H1 M1]. destruct ok1; [|injection E as <- <- <-; auto]. apply IH in E as [A B]; [|intros q' Hq'; apply Hq; right; exact Hq'|exact H1].
    split; [exact A|]. eapply more_trans; eauto.
  Qed.
  Lemma prep_enqueue_k o is s s' : prep_enqueue o is s = Ok s' -> Kin s -> Kin s'.
  Proof.
    revert s. induction is as [|i is IH]; intros s; cbn [prep_enqueue]; [intros [= <-]; auto|]. intros E Hk. apply bind_ok in E as (s1 & E1 & E). apply enqueue_k in E1; eauto.
  Qed.
  Lemma prep_register_k bs s s' : prep_register bs s = Ok s' -> Forall kb bs -> Kin s -> Kin s'.
  Proof.
    revert s. induction bs as [|b bs IH]; intros s; cbn [prep_register]; [intros [= <-]; auto|]. intros E Hb Hk. inversion Hb as [|? ? Hb1 Hb2]; subst.
    apply bind_ok in E as (v & Ev & E). refine (IH _ E Hb2 _). pose proof (at_kv s _ _ Hk Ev) as (_ & _ & Hv). apply kin_upd; [|exact Hk].
    intros w (A & B & C). split; [exact A|]. split; [exact B|]. cbn. apply Forall_app. split; [exact Hv|]. constructor; [exact Hb1|constructor].
  Qed.
  Lemma static_k h (vs : list (var V)) log log' ok : static_vars h vs log = (log', ok) -> Forall kv vs -> mk log log'.
  Proof.
    revert log. induction vs as [|v vs IH]; intros log; cbn [static_vars]; [intros [= <- _] _; apply more_refl|].
    intros E Hv. inversion Hv as [|? ? (_ & _ & Hb) Hv2]; subst. destruct (static_outer h (v_bounds v) log) as [log1 ok1] eqn:E1.
    assert (M1 : mk log log1).
    { clear E IH. revert log E1. induction (v_bounds v) as [|ba bs IHb]; intros log; cbn [static_outer]; [intros [= <- _]; apply more_refl|].
      intros E1. inversion Hb as [|? ? Hb1 Hb2]; subst. destruct (static_inner h ba bs log) as [log2 ok2] eqn:E2.
      assert (M2 : mk log log2).
      { clear E1 IHb Hb. revert log E2. induction bs as [|bb bs IHi]; intros log; cbn [static_inner]; [intros [= <- _]; apply more_refl|].
        inversion Hb2 as [|? ? Hc1 Hc2]; subst. destruct (_ && _); [|apply IHi; exact Hc2].
        assert (Ho : mk log (log ++ [[(- b_lit ba)%Z; (- b_lit bb)%Z]])).
        { apply more_one. split; [discriminate|]. constructor; [|constructor; [|constructor]]; rewrite Z.opp_involutive; assumption. }
        destruct (h_reply _ _); [|intros [= <- _]; exact Ho]. intros E2. eapply more_trans; [exact Ho|]. exact (IHi Hc2 _ E2). }
      destruct ok2; [|injection E1 as <- _; exact M2]. eapply more_trans; [exact M2|]. exact (IHb Hb2 _ E1). }
    destruct ok1; [|injection E as <- _; exact M1]. eapply more_trans; [exact M1|]. exact (IH _ E Hv2).
  Qed.
  Lemma prepare_k h o shuf n (find : Sym -> option nat) qs obj master log s' log' ok : (forall l, shuf l ≡ₚ l) -> (forall q, q ∈ qs -> K (q_lit q)) ->
    prepare h o shuf n find qs obj master log = Ok (s', log', ok) -> Kin s' /\ mk log log'.
  Proof.
    intros Hs Hq E. unfold prepare in E. apply bind_ok in E as ([[s1 log1] ok1] & E1 & E).
    assert (H0 : Kin (prep_init n : solver V)).
    { split; [constructor|]. split; [|constructor]. cbn. apply Forall_fmap. apply Forall_forall. intros i _. apply kv_new. }
    apply prep_ineqs_k in E1 as [H1 M1]; [|exact Hq|exact H0]. destruct (negb ok1); [injection E as <- <- <-; auto|].
    apply bind_ok in E as (s2 & E2 & E). assert (H2 : Kin s2).
    { unfold prep_objective in E2. destruct obj as [|t ts]; [injection E2 as <-; exact H1|]. apply bind_ok in E2 as (row & _ & E2).
      pose proof (add_basic_k s1 H1) as A1. destruct (o_global o).
      - destruct (add_basic s1) as [sa i] eqn:Ea. cbn [fst] in A1. pose proof (add_basic_k (set_cells i row sa) A1) as A2.
        destruct (add_basic (set_cells i row sa)) as [sb k] eqn:Eb. injection E2 as <-. exact A2.
      - destruct (add_basic s1) as [sa i] eqn:Ea. injection E2 as <-. exact A1. }
    apply bind_ok in E as (s3 & E3 & E). apply prep_enqueue_k in E3; [|exact H2]. cbv zeta in E.
    assert (H3 : Kin (set_bounds (shuf (s_bounds s3)) s3)).
    { destruct E3 as (A & B & C). split; [|split; [exact B|exact C]]. cbn. rewrite Hs. exact A. }
    apply bind_ok in E as (s4 & E4 & E). apply prep_register_k in E4; [|exact (proj1 H3)|exact H3].
    destruct (o_pconf o && master); [|injection E as <- <- <-; auto]. destruct (static_vars h (s_vars s4) log1) as [log2 ok2] eqn:E5. injection E as <- <- <-.
    split; [exact E4|]. eapply more_trans; [exact M1|]. eapply static_k; [exact E5|]. exact (proj1 (proj2 E4)).
  Qed.

  (** ** The propagator *)
  Definition Kp (p : propagator V Sym) : Prop := Forall (fun x : nat * solver V => Kin x.2) (p_slvs p).
  Lemma prep_threads_k h o shuf vs (iqs : list (ineq Sym)) obj ids log r log' ok : (forall i l, shuf i l ≡ₚ l) -> (forall q, q ∈ iqs -> K (q_lit q)) ->
    prep_threads h o shuf vs iqs obj ids log = Ok (r, log', ok) -> Forall (fun x : nat * solver V => Kin x.2) r /\ mk log log'.
  Proof.
    intros Hs Hq. revert log r log' ok. induction ids as [|i ids IH]; intros log r log' ok; cbn [prep_threads]; [intros [= <- <- <-]; split; [constructor|apply more_refl]|].
    intros E. apply bind_ok in E as ([[s log1] ok1] & E1 & E). apply prepare_k in E1 as [H1 M1]; [|apply Hs|exact Hq].
    destruct (negb ok1); [injection E as <- <- <-; split; [constructor; [exact H1|constructor]|exact M1]|].
    apply bind_ok in E as ([[r2 log2] ok2] & E2 & E). injection E as <- <- <-. apply IH in E2 as [H2 M2]. split; [constructor; [exact H1|exact H2]|]. eapply more_trans; eauto.
  Qed.
  Lemma p_init_k h o shuf n (iqs : list (ineq Sym)) obj p log p' log' ok : (forall i l, shuf i l ≡ₚ l) -> (forall q, q ∈ iqs -> K (q_lit q)) ->
    p_init h o shuf n iqs obj p log = Ok (p', log', ok) -> Kp p' /\ mk log log'.
  Proof.
    intros Hs Hq E. unfold p_init in E. apply bind_ok in E as ([[r log1] ok1] & E1 & E). injection E as <- <- <-. exact (prep_threads_k _ _ _ _ _ _ _ _ _ _ _ Hs Hq E1).
  Qed.
  Lemma kp_put t x (p : propagator V Sym) : Kin x.2 -> Kp p -> Kp (put_thread t x p).
  Proof. intros Hx Hp. unfold Kp. cbn. apply Forall_insert; auto. Qed.
  Lemma kp_at (p : propagator V Sym) t off s : Kp p -> at_ (p_slvs p) t = Ok (off, s) -> Kin s.
  Proof. intros Hp E. apply at_ok in E. unfold Kp in Hp. rewrite Forall_forall in Hp. apply (Hp (off, s)). eapply elem_of_list_lookup_2; eauto. Qed.
  Lemma wstep_k fuel (o : options) e (w w' : world V Sym) : wstep fuel o e w = Ok w' -> (o_global o <> None -> forall l, l ∈ ev_lits e -> K l) -> Kp (w_p w) ->
    Kp (w_p w') /\ more (ka o (ev_lits e)) (w_log w) (w_log w').
  Proof.
    destruct e as [t h a lits|t h a total l1 l2|t|t]; cbn [wstep ev_lits]; intros E Hl Hp.
    - apply bind_ok in E as ([[p log] ok] & E1 & E). injection E as <-. cbn [w_p w_log]. unfold p_propagate in E1.
      match type of E1 with context [at_ (p_slvs ?q) t] => set (p1 := q) in E1 end. assert (Hp1 : Kp p1) by (unfold p1; destruct (_ && _); exact Hp).
      apply bind_ok in E1 as ([off s] & E2 & E1). apply bind_ok in E1 as ([[s' log1] ok1] & E3 & E1). injection E1 as <- <- _. apply solve_k in E3 as [A B]; [|eapply kp_at; eauto].
      split; [apply kp_put; assumption|]. eapply more_weak; [|exact B]. intros c Hc. left. exact Hc.
    - apply bind_ok in E as ([off0 s0] & _ & E). apply bind_ok in E as ([[p log] ok] & E1 & E). injection E as <-. cbn [w_p w_log]. unfold p_check in E1.
      apply bind_ok in E1 as ([off s] & E2 & E1). apply bind_ok in E1 as ([[[off' s'] log1] ok1] & E3 & E1). injection E1 as <- <- _.
      apply t_check_k in E3 as [A B]; [|intros Hg; split; apply (Hl Hg); [left|right; left]|eapply kp_at; eauto]. split; [apply kp_put; assumption|exact B].
    - apply bind_ok in E as (p & E1 & E). injection E as <-. cbn [w_p w_log]. unfold p_undo in E1. apply bind_ok in E1 as ([off s] & E2 & E1). apply bind_ok in E1 as (s' & E3 & E1). injection E1 as <-.
      split; [|apply more_refl]. apply kp_put; [|exact Hp]. cbn. eapply undo_k; [exact E3|]. eapply kp_at; eauto.
    - apply bind_ok in E as (v & _ & E). apply bind_ok in E as (p & E1 & E). injection E as <-. cbn [w_p w_log]. split; [|apply more_refl]. unfold p_on_model in E1.
      destruct (o_global o); [|injection E1 as <-; exact Hp]. apply bind_ok in E1 as ([off s] & _ & E1). apply bind_ok in E1 as (x & _ & E1). destruct x; injection E1 as <-; exact Hp.
  Qed.
End literals.
