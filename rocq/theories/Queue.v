(** * The bounds attached to the variables and the queue of rows
    What no callback changes: the list of bounds of every variable
    ([v_bounds], filled once by prepare), and that a row whose flag
    in_propagation_queue is set is in the propagation queue. *)
From Verif Require Import Num Sums Tableau TableauProofs Solver SolverBase Propagator.

Section queue.
  Context {V : Type} `{VL : ValueLaws V}.
  Implicit Types s : solver V.
  Implicit Types x y : nat.

  (** every flagged row is in the queue *)
  Definition PQ s : Prop := forall i, v_prop (vr s i) = true -> i ∈ s_pq s.
  (** frame of a function that only adds to the queue *)
  Definition Fr s s' : Prop :=
    nv s' = nv s /\ (forall y, v_bounds (vr s' y) = v_bounds (vr s y)) /\ (forall k, k ∈ s_pq s -> k ∈ s_pq s') /\
    (forall y, v_prop (vr s' y) = true -> v_prop (vr s y) = true \/ y ∈ s_pq s').
  (** frame with the queue only known to stay consistent *)
  Definition Fq s s' : Prop := (forall y, v_bounds (vr s' y) = v_bounds (vr s y)) /\ (PQ s -> PQ s').

  Lemma Fr_refl s : Fr s s. Proof. repeat split; auto. Qed.
  Lemma Fr_trans s1 s2 s3 : Fr s1 s2 -> Fr s2 s3 -> Fr s1 s3.
  Proof.
    intros (A1 & A2 & A3 & A4) (B1 & B2 & B3 & B4). split; [congruence|]. split; [intros y; rewrite B2; auto|]. split; [auto|].
    intros y Hy. destruct (B4 y Hy) as [E|E]; auto. destruct (A4 y E) as [E'|E']; auto.
  Qed.
  Lemma Fr_Fq s s' : Fr s s' -> Fq s s'.
  Proof. intros (A1 & A2 & A3 & A4). split; [exact A2|]. intros P i Hi. destruct (A4 i Hi) as [E|E]; auto. Qed.
  Lemma Fq_refl s : Fq s s. Proof. split; auto. Qed.
  Lemma Fq_trans s1 s2 s3 : Fq s1 s2 -> Fq s2 s3 -> Fq s1 s3.
  Proof. intros [A1 A2] [B1 B2]. split; [intros y; rewrite B1; auto|auto]. Qed.

  Lemma Fr_same s s' : s_vars s' = s_vars s -> (forall k, k ∈ s_pq s -> k ∈ s_pq s') -> Fr s s'.
  Proof.
    intros E Q. split; [unfold nv; rewrite E; auto|]. split; [intros y; unfold vr; rewrite E; auto|]. split; [auto|].
    intros y. unfold vr. rewrite E. auto.
  Qed.
  Lemma at_lt s x v : at_ (s_vars s) x = Ok v -> x < nv s /\ v = vr s x.
  Proof. intros E. apply at_ok in E. split; [apply lookup_lt_Some in E; exact E|]. unfold vr. rewrite E. reflexivity. Qed.
  Lemma Fr_upd s x f : (forall v, v_bounds (f v) = v_bounds v) -> (forall v, v_prop (f v) = true -> v_prop v = true) -> Fr s (upd_var x f s).
  Proof.
    intros Hb Hp. split; [apply nv_upd|]. assert (E : forall y, vr (upd_var x f s) y = vr s y \/ y = x /\ vr (upd_var x f s) y = f (vr s y)).
    { intros y. destruct (lt_dec x (nv s)) as [Hx|Hx].
      - rewrite vr_upd by auto. destruct (Nat.eqb_spec y x); subst; auto.
      - left. unfold vr, upd_var. cbn. destruct (Nat.eq_dec y x) as [->|Hne]; [|rewrite list_lookup_alter_ne by auto; reflexivity]. rewrite list_lookup_alter. destruct (s_vars s !! x) eqn:El; [|reflexivity]. apply lookup_lt_Some in El. unfold nv in Hx. lia. }
    split; [intros y; destruct (E y) as [->|[_ ->]]; auto|]. split; [auto|]. intros y. destruct (E y) as [->|[_ ->]]; auto.
  Qed.
  Ltac fr_upd := (apply Fr_upd; [reflexivity|intros ?; exact id]).
  Ltac fr_same := (apply Fr_same; [reflexivity|intros ?; exact id]).
  Ltac binds E := repeat (lazymatch type of E with mbind _ _ = Ok _ => idtac end; let x := fresh "x" in let Ex := fresh "Ex" in apply bind_ok in E as (x & Ex & E)).
  Ltac fr := lazymatch goal with
    | |- Fr ?s ?s => exact (Fr_refl _)
    | |- Fr ?s (upd_var ?x ?f ?s1) => apply (Fr_trans s s1); [fr|fr_upd]
    | |- Fr ?s (set_conf _ ?s1) => apply (Fr_trans s s1); [fr|fr_same]
    | |- Fr ?s (set_clause _ ?s1) => apply (Fr_trans s s1); [fr|fr_same]
    | |- Fr ?s (set_tab _ ?s1) => apply (Fr_trans s s1); [fr|fr_same]
    | |- Fr ?s (set_obj _ ?s1) => apply (Fr_trans s s1); [fr|fr_same]
    | |- Fr ?s (set_offs _ ?s1) => apply (Fr_trans s s1); [fr|fr_same]
    | |- Fr ?s (set_atrail _ ?s1) => apply (Fr_trans s s1); [fr|fr_same]
    | |- Fr ?s (set_btrail _ ?s1) => apply (Fr_trans s s1); [fr|fr_same]
    | |- Fr ?s (set_bounds _ ?s1) => apply (Fr_trans s s1); [fr|fr_same]
    | |- Fr ?s (set_stats _ _ ?s1) => apply (Fr_trans s s1); [fr|fr_same]
    end.

  Lemma set_value_fr x lvl v add s s' : set_value x lvl v add s = Ok s' -> Fr s s'.
  Proof. unfold set_value. intros E. binds E. injection E as <-. eapply Fr_trans; [|fr_upd]. destruct (negb _); fr. Qed.
  Lemma enqueue_fr o i s s' : enqueue o i s = Ok s' -> Fr s s'.
  Proof.
    unfold enqueue. intros E. binds E. set (s1 := if (negb _ && _) then _ else s) in E.
    assert (F1 : Fr s s1) by (unfold s1; destruct (negb _ && _); fr).
    destruct (o_pmode o); try (injection E as <-; exact F1). binds E. destruct (v_prop x1) eqn:Ep; injection E as <-; [exact F1|].
    eapply Fr_trans; [exact F1|]. destruct (at_lt _ _ _ Ex1) as [Hi _].
    split; [apply nv_upd|]. split; [intros y; cbn; change (vr (set_pq ?q ?s) y) with (vr s y); rewrite vr_upd by auto; destruct (Nat.eqb_spec y i); subst; auto|].
    split; [intros k Hk; cbn; apply elem_of_app; auto|].
    intros y. change (vr (set_pq ?q ?s) y) with (vr s y). rewrite vr_upd by auto. cbn. destruct (Nat.eqb_spec y i) as [->|]; auto.
    intros _. right. apply elem_of_app. right. left.
  Qed.
  Lemma col_loop_fr (j : nat) (f : nat -> Z -> Z -> solver V -> res (solver V)) is kept s kept' s' :
    (forall i a d s1 s2, f i a d s1 = Ok s2 -> Fr s1 s2) -> col_loop s_tab j f is kept s = Ok (kept', s') -> Fr s s'.
  Proof.
    intros Hf. revert kept s. induction is as [|i is IH]; intros kept s; cbn [col_loop]; [intros [= _ <-]; apply Fr_refl|].
    intros E. apply bind_ok in E as (r & _ & E). destruct (clook _ _); [|eauto]. apply bind_ok in E as (s1 & E1 & E).
    eapply Fr_trans; [eapply Hf; eauto|eauto].
  Qed.
  Lemma update_col_fr (j : nat) (f : nat -> Z -> Z -> solver V -> res (solver V)) s s' :
    (forall i a d s1 s2, f i a d s1 = Ok s2 -> Fr s1 s2) -> update_col s_tab set_tab j f s = Ok s' -> Fr s s'.
  Proof.
    intros Hf. unfold update_col. destruct (_ !! j); [|intros [= <-]; apply Fr_refl]. intros E. apply bind_ok in E as ([kept s1] & E1 & E). injection E as <-.
    eapply Fr_trans; [eapply col_loop_fr; eauto|fr_same].
  Qed.
  Lemma update_fr o level j v s s' : update_ o level j v s = Ok s' -> Fr s s'.
  Proof.
    unfold update_. intros E. binds E. eapply Fr_trans; [|eapply set_value_fr; eauto]. eapply update_col_fr; [|exact Ex0].
    intros i a d s1 s2 E1. cbn beta in E1. binds E1. eapply Fr_trans; [eapply set_value_fr; eauto|eapply enqueue_fr; eauto].
  Qed.
  Lemma pivot_fr o level i j v s s' : pivot_ o level i j v s = Ok s' -> Fr s s'.
  Proof.
    unfold pivot_. intros E. apply bind_ok in E as ([[p a] d] & _ & E). binds E. injection E as <-.
    eapply Fr_trans; [eapply set_value_fr; eauto|]. eapply Fr_trans; [eapply set_value_fr; eauto|].
    eapply Fr_trans; [eapply update_col_fr; [|eassumption]|].
    - intros k a1 d1 s1 s2 E1. cbn beta in E1. destruct (k =? i); [injection E1 as <-; apply Fr_refl|]. binds E1. eapply Fr_trans; [eapply set_value_fr; eauto|eapply enqueue_fr; eauto].
    - match goal with E : enqueue _ _ _ = Ok _ |- _ => pose proof (enqueue_fr _ _ _ _ E) as F end.
      eapply Fr_trans; [|eapply Fr_trans; [exact F|fr_same]]. fr.
  Qed.
  Lemma select_loop_fr q s r s' : select_loop q s = Ok (r, s') -> Fr s s'.
  Proof.
    revert s. induction q as [|ii q IH]; intros s; cbn [select_loop]; [intros [= _ <-]; fr|].
    intros E. apply bind_ok in E as (xi & _ & E). assert (F1 : Fr s (upd_var ii (vset_queued false) s)) by fr_upd.
    destruct (_ <? _); [eapply Fr_trans; eauto|]. destruct (_ || _); [|eapply Fr_trans; eauto].
    apply bind_ok in E as (b & _ & E). apply bind_ok in E as ([[kk rj] cl] & _ & E).
    destruct (_ =? _); injection E as _ <-; (eapply Fr_trans; [exact F1|fr_same]).
  Qed.
  Lemma update_upper_fr a b x s s' ok : update_upper a b x s = Ok (s', ok) -> Fr s s'.
  Proof.
    unfold update_upper. intros E. binds E. injection E as <- _. destruct (below_upper _ _); [|apply Fr_refl].
    destruct (match v_upper _ with Some _ => _ | None => _ end); fr.
  Qed.
  Lemma update_lower_fr a b x s s' ok : update_lower a b x s = Ok (s', ok) -> Fr s s'.
  Proof.
    unfold update_lower. intros E. binds E. injection E as <- _.
    match goal with E : (if _ then _ else _) = Ok _ |- _ => rename E into E1 end.
    destruct (above_lower _ _); [|injection E1 as <-; apply Fr_refl].
    binds E1. injection E1 as <-. eapply Fr_trans; [|fr_upd].
    match goal with E : (if _ then _ else _) = Ok _ |- _ => rename E into E2 end.
    destruct (match v_lower _ with Some _ => _ | None => _ end); [|injection E2 as <-; apply Fr_refl].
    destruct (negb _); [injection E2 as <-; fr|]. binds E2. injection E2 as <-. fr.
  Qed.
  Lemma update_var_fr a b x s s' ok : update_var a b x s = Ok (s', ok) -> Fr s s'.
  Proof.
    unfold update_var. destruct (b_rel b); [apply update_upper_fr|apply update_lower_fr|]. intros E. apply bind_ok in E as ([s1 ok1] & E1 & E).
    apply update_upper_fr in E1. destruct ok1; [|injection E as <- _; exact E1]. apply update_lower_fr in E. eapply Fr_trans; eauto.
  Qed.
  Lemma update_bound_fr o a b s s' ok : update_bound o a b s = Ok (s', ok) -> Fr s s'.
  Proof.
    unfold update_bound. intros E. apply bind_ok in E as ([s1 ok1] & E1 & E). apply update_var_fr in E1. apply bind_ok in E as (x & _ & E).
    eapply Fr_trans; [exact E1|]. destruct (negb ok1); [binds E; injection E as <- _; fr|].
    destruct (_ <? _); [|binds E; injection E as <- _; eapply enqueue_fr; eauto].
    destruct (viol_lower x); [|destruct (viol_upper x)].
    - binds E. injection E as <- _. eapply update_fr; eauto.
    - binds E. injection E as <- _. eapply update_fr; eauto.
    - injection E as <- _. apply Fr_refl.
  Qed.
  Lemma apply_bounds_fr o a bs s s' ok : apply_bounds o a bs s = Ok (s', ok) -> Fr s s'.
  Proof.
    revert s. induction bs as [|b bs IH]; intros s; cbn [apply_bounds]; [intros [= <- _]; apply Fr_refl|].
    intros E. apply bind_ok in E as ([s1 ok1] & E1 & E). apply update_bound_fr in E1. destruct ok1; [eapply Fr_trans; eauto|injection E as <- _; exact E1].
  Qed.
  Lemma simplex_loop_fr fuel o level s s' ok : simplex_loop fuel o level s = Ok (s', ok) -> Fr s s'.
  Proof.
    revert s. induction fuel as [|fuel IH]; intros s; cbn [simplex_loop]; [discriminate|].
    intros E. apply bind_ok in E as ([r s1] & E1 & E). apply select_loop_fr in E1. destruct r; try (injection E as <- _; exact E1).
    apply bind_ok in E as (s2 & E2 & E). apply pivot_fr in E2. eapply Fr_trans; [exact E1|]. eapply Fr_trans; [exact E2|]. auto.
  Qed.
  Lemma reset_levels_fr t s s' : reset_levels t s = Ok s' -> Fr s s'.
  Proof.
    revert s. induction t as [|[[l x] v] t IH]; intros s; cbn [reset_levels]; [intros [= <-]; apply Fr_refl|].
    intros E. apply bind_ok in E as (w & _ & E). eapply Fr_trans; [|exact (IH _ E)]. fr_upd.
  Qed.
  Lemma store_sat_fr s s' : store_sat s = Ok s' -> Fr s s'.
  Proof. unfold store_sat. intros E. binds E. injection E as <-. eapply Fr_trans; [eapply reset_levels_fr; eauto|fr]. Qed.
  Lemma push_offset_fr a s : Fr s (push_offset a s).
  Proof. unfold push_offset. destruct (match last _ with None => _ | Some _ => _ end); fr. Qed.
  Lemma solve_core_fr fuel o a lits s s' ok : solve_core fuel o a lits s = Ok (s', ok) -> Fr s s'.
  Proof.
    unfold solve_core, apply_lits. intros E. apply bind_ok in E as ([s1 ok1] & E1 & E). apply apply_bounds_fr in E1.
    eapply Fr_trans; [apply (push_offset_fr a)|]. eapply Fr_trans; [exact E1|].
    destruct (negb ok1); [injection E as <- _; apply Fr_refl|]. apply bind_ok in E as ([s2 ok2] & E2 & E). apply simplex_loop_fr in E2.
    eapply Fr_trans; [exact E2|]. destruct ok2; [|injection E as <- _; apply Fr_refl].
    destruct (o_store o); try (injection E as <- _; apply Fr_refl). binds E. injection E as <- _. eapply store_sat_fr; eauto.
  Qed.

  (** ** propagate_ *)
  Lemma prop_bounds_vars h test cl (bs : list (bound V)) s log : s_vars (prop_bounds h test cl bs s log).1.1 = s_vars s /\ s_pq (prop_bounds h test cl bs s log).1.1 = s_pq s.
  Proof.
    revert s log. induction bs as [|b bs IH]; intros s log; cbn [prop_bounds]; auto. destruct (test b && _); [|apply IH].
    destruct (h_reply _ _); [apply (IH (set_stats _ _ s))|auto].
  Qed.
  (** a row that has been examined is not flagged any more *)
  Lemma prop_row_fq h i s log s' log' ok : prop_row h i s log = Ok (s', log', ok) ->
    (forall y, vr s' y = if y =? i then vset_prop false (vr s y) else vr s y) /\ s_pq s' = s_pq s /\ i < nv s.
  Proof.
    unfold prop_row. intros E. apply bind_ok in E as (w & Ew & E). destruct (at_lt _ _ _ Ew) as [Hi _].
    set (s1 := upd_var i (vset_prop false) s) in *.
    assert (H1 : forall y, vr s1 y = if y =? i then vset_prop false (vr s y) else vr s y).
    { intros y. unfold s1. rewrite vr_upd by auto. destruct (Nat.eqb_spec y i); subst; auto. }
    assert (Hs : forall s2, s_vars s2 = s_vars s1 /\ s_pq s2 = s_pq s1 -> (forall y, vr s2 y = if y =? i then vset_prop false (vr s y) else vr s y) /\ s_pq s2 = s_pq s /\ i < nv s).
    { intros s2 [E1 E2]. split; [intros y; unfold vr at 1; rewrite E1; exact (H1 y)|]. split; [exact E2|exact Hi]. }
    apply bind_ok in E as ([lo' up'] & _ & E). destruct (negb up' && negb lo'); [injection E as <- _ _; apply Hs; auto|].
    apply bind_ok in E as ([l u] & _ & E). apply bind_ok in E as (ii & _ & E). apply bind_ok in E as (yv & _ & E).
    match type of E with (let '(_, _) := ?m in _) = _ => destruct m as [[s2 log2] ok2] eqn:E2 end.
    assert (H2 : s_vars s2 = s_vars s1 /\ s_pq s2 = s_pq s1).
    { destruct u as [[uv|] ucl]; cbn [fst snd] in E2; [|injection E2 as <- _ _; auto].
      match type of E2 with ?m = _ => assert (Em : m.1.1 = s2) by (rewrite E2; reflexivity) end. rewrite <- Em. apply prop_bounds_vars. }
    destruct (negb ok2); [injection E as <- _ _; auto|].
    destruct l as [[lv|] lcl]; cbn [fst snd] in E; [|injection E as <- _ _; auto]. injection E as E.
    match type of E with ?m = _ => assert (Em : m.1.1 = s') by (rewrite E; reflexivity) end. apply Hs. rewrite <- Em.
    match goal with |- s_vars (prop_bounds ?h ?t ?c ?b ?s ?l).1.1 = _ /\ _ => destruct (prop_bounds_vars h t c b s l) as [-> ->] end. auto.
  Qed.
  Lemma prop_rows_fq h (changed : bool) is s log s' log' ok : (changed = true -> s_pq s = is) ->
    prop_rows h changed is s log = Ok (s', log', ok) -> Fq s s'.
  Proof.
    revert s log. induction is as [|i is IH]; intros s log Hq; cbn [prop_rows]; [intros [= <- _ _]; apply Fq_refl|].
    intros E. apply bind_ok in E as ([[s1 log1] ok1] & E1 & E). apply prop_row_fq in E1 as (H1 & Q1 & _).
    assert (F1 : Fq s s1).
    { split.
      - intros y. rewrite H1. destruct changed; change (vr (set_pq ?q ?s) y) with (vr s y); destruct (y =? i); auto.
      - intros P k. rewrite H1, Q1. destruct changed; cbn [s_pq set_pq]; change (vr (set_pq ?q ?s) k) with (vr s k).
        + destruct (Nat.eqb_spec k i) as [->|Hk]; [discriminate|]. intros Hp. apply P in Hp. rewrite (Hq eq_refl) in Hp. apply elem_of_cons in Hp as [->|Hp]; [congruence|exact Hp].
        + destruct (Nat.eqb_spec k i) as [->|Hk]; [discriminate|]. auto. }
    destruct ok1; [|injection E as <- _ _; exact F1]. eapply Fq_trans; [exact F1|]. eapply IH; [|exact E].
    intros ->. rewrite Q1. reflexivity.
  Qed.
  Lemma propagate_fq h (o : options) s log s' log' ok : propagate_ h o s log = Ok (s', log', ok) -> Fq s s'.
  Proof.
    unfold propagate_. destruct (o_pmode o); [intros [= <- _ _]; apply Fq_refl|..]; apply prop_rows_fq; auto; discriminate.
  Qed.
  Lemma solve_fq fuel h (o : options) a lits s log s' log' ok : solve fuel h o a lits s log = Ok (s', log', ok) -> Fq s s'.
  Proof.
    unfold solve. intros E. apply bind_ok in E as ([s1 ok1] & E1 & E). apply solve_core_fr, Fr_Fq in E1.
    destruct ok1; [|injection E as <- _ _; exact E1]. eapply Fq_trans; [exact E1|]. eapply propagate_fq; eauto.
  Qed.

  (** ** undo *)
  Lemma undo_bounds_fr t s s' : undo_bounds t s = Ok s' -> Fr s s'.
  Proof.
    revert s. induction t as [|[[x r] b] t IH]; intros s; cbn [undo_bounds]; [intros [= <-]; apply Fr_refl|].
    intros E. apply bind_ok in E as (w & _ & E). eapply Fr_trans; [|exact (IH _ E)]. destruct r; fr_upd.
  Qed.
  Lemma undo_values_fr t s s' : undo_values t s = Ok s' -> Fr s s'.
  Proof.
    revert s. induction t as [|[[l x] v] t IH]; intros s; cbn [undo_values]; [intros [= <-]; apply Fr_refl|].
    intros E. apply bind_ok in E as (w & _ & E). eapply Fr_trans; [|exact (IH _ E)]. fr_upd.
  Qed.
  Lemma clear_queue_fr q s s' : clear_queue q s = Ok s' -> Fr s s'.
  Proof.
    revert s. induction q as [|x q IH]; intros s; cbn [clear_queue]; [intros [= <-]; fr|].
    intros E. apply bind_ok in E as (w & _ & E). eapply Fr_trans; [|exact (IH _ E)]. fr_upd.
  Qed.
  Lemma undo_fr s s' : undo s = Ok s' -> Fr s s'.
  Proof.
    unfold undo. intros E. binds E. injection E as <-.
    eapply Fr_trans; [eapply undo_bounds_fr; eauto|]. eapply Fr_trans; [apply (Fr_same _ (set_btrail (take (o_bound x) (s_btrail x1)) x1)); auto|].
    eapply Fr_trans; [eapply undo_values_fr; eauto|]. eapply Fr_trans; [|apply (Fr_same x4); auto].
    eapply Fr_trans; [apply (Fr_same _ (set_atrail (take (o_asg x) (s_atrail x3)) x3)); auto|]. eapply clear_queue_fr; eauto.
  Qed.

  (** ** optimize and the objective bounds *)
  Lemma optimize_step_fr o s s' fin : optimize_step o s = Ok (s', fin) -> Fr s s'.
  Proof.
    unfold optimize_step. intros E. apply bind_ok in E as (xz & _ & E). apply bind_ok in E as ([ee pos] & _ & E).
    destruct (ee =? _); [injection E as <- _; fr|]. apply bind_ok in E as (xe & _ & E). apply bind_ok in E as ([t cand] & _ & E).
    destruct cand as [[[ll v] b]|].
    - binds E. injection E as <- _. eapply Fr_trans; [|eapply pivot_fr; eauto]. fr.
    - destruct (if pos then _ else _) as [b|]; [|injection E as <- _; fr]. binds E. injection E as <- _. eapply Fr_trans; [|eapply update_fr; eauto]. fr.
  Qed.
  Lemma optimize_fr fuel o s s' : optimize fuel o s = Ok s' -> Fr s s'.
  Proof.
    unfold optimize. destruct (ob_active _); [|intros [= <-]; apply Fr_refl].
    revert s. induction fuel as [|fuel IH]; intros s; cbn [optimize_loop]; [discriminate|].
    intros E. apply bind_ok in E as ([s1 fin] & E1 & E). apply optimize_step_fr in E1. destruct fin; [injection E as <-; exact E1|]. eapply Fr_trans; eauto.
  Qed.
  Lemma assert_bound_fr h lit v s log : Fr s (assert_bound h lit v s log).1.1.
  Proof. unfold assert_bound. cbn [fst]. fr. Qed.
  Lemma integrate_fr h (o : options) lit st s log s' log' ok : integrate_objective h o lit st s log = Ok (s', log', ok) -> Fr s s'.
  Proof.
    unfold integrate_objective. destruct (o_global o); [|intros [= <- _ _]; apply Fr_refl]. destruct (os_value _ _) as [gen [[w []]|]].
    - destruct (vstep _); [|discriminate]. intros [= <- _ _]. fr.
    - intros [= <- _ _]. fr.
    - intros [= <- _ _]. fr.
  Qed.
  Lemma discard_fr h (o : options) lit s log s' log' ok : discard_bounded h o lit s log = Ok (s', log', ok) -> Fr s s'.
  Proof.
    unfold discard_bounded. destruct (_ || _); [intros [= <- _ _]; apply Fr_refl|]. intros E. apply bind_ok in E as (v & _ & E).
    injection E as <- _ _. fr.
  Qed.
  Lemma t_check_fq fuel h (o : options) a total l1 l2 facts foff st off s log off' s' log' ok :
    t_check fuel h o a total l1 l2 facts foff st off s log = Ok (off', s', log', ok) -> Fq s s'.
  Proof.
    unfold t_check. intros E. apply bind_ok in E as ([[[off1 s1] log1] ok1] & E1 & E).
    assert (F1 : Fq s s1).
    { destruct (_ && _); [|injection E1 as _ <- _ _; apply Fq_refl]. apply bind_ok in E1 as (u & _ & E1). apply bind_ok in E1 as ([[s2 log2] ok2] & E2 & E1).
      injection E1 as _ <- _ _. eapply solve_fq; eauto. }
    eapply Fq_trans; [exact F1|]. destruct (negb ok1); [injection E as _ <- _ _; apply Fq_refl|].
    apply bind_ok in E as ([[s2 log2] ok2] & E2 & E). apply integrate_fr, Fr_Fq in E2. eapply Fq_trans; [exact E2|].
    destruct (negb ok2); [injection E as _ <- _ _; apply Fq_refl|]. destruct total; [|injection E as _ <- _ _; apply Fq_refl].
    apply bind_ok in E as (s3 & E3 & E). apply bind_ok in E as (s4 & E4 & E). apply bind_ok in E as ([[s5 log5] ok5] & E5 & E). injection E as _ <- _ _.
    apply Fr_Fq. eapply Fr_trans; [eapply optimize_fr; eauto|]. eapply Fr_trans; [|eapply discard_fr; eauto].
    destruct (o_store o); try (injection E4 as <-; apply Fr_refl); eapply store_sat_fr; eauto.
  Qed.
End queue.
