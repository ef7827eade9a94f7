(** * C35: facts survive multi-shot steps *)

From Verif Require Import Num Sums Tableau TableauProofs Bland Solver SolverBase SolverStep Simplex SimplexLoop Hist Updates Core CoreSolve Propagate
  OptSelect Optimize Spec Eps Prepare Propagator World ThreadOk WorldProofs Reach Observe ObserveProofs Props_Solver.

Section facts.
  Context {V : Type} `{VL : ValueLaws V} {Sym : Type} `{EqDecision Sym}.
  Implicit Types w : world V Sym.
  Implicit Types sh : shot V Sym.

  (** callbacks of the same shot *)
  Inductive later (o : options) : world V Sym -> world V Sym -> Prop :=
    | later_refl w : later o w w
    | later_step w w' e w'' : later o w w' -> adm e w' -> eq_safe e w' -> step o e w' w'' -> later o w w''.

  (** literals that were true on the top level before the current shot *)
  Definition old_facts w : list Z := take (p_foff (w_p w)) (p_facts (w_p w)).

  (** ** facts are recorded *)
  Definition recorded (e : event) : list Z :=
    match e with EvPropagate t _ a lits => if (a_dl a =? 0) && (t =? 0) then lits else [] | _ => [] end.
  Theorem C35_facts_recorded o e w w' : step o e w w' ->
    p_facts (w_p w') = p_facts (w_p w) ++ recorded e /\ p_foff (w_p w') = p_foff (w_p w).
  Proof.
    intros (fuel & E). destruct e as [t h a lits|t h a total l1 l2|t|t]; cbn [wstep recorded] in *.
    - apply bind_ok in E as ([[p log] ok] & E1 & E2). injection E2 as <-. cbn. unfold p_propagate in E1.
      apply bind_ok in E1 as ([off s] & _ & E1). apply bind_ok in E1 as ([[s1 log1] ok1] & _ & E1). injection E1 as <- _ _. cbn. destruct (_ && _); cbn; rewrite ?app_nil_r; auto.
    - apply bind_ok in E as ([off0 s0] & _ & E). apply bind_ok in E as ([[p log] ok] & E1 & E2). injection E2 as <-. cbn. unfold p_check in E1.
      apply bind_ok in E1 as ([off s] & _ & E1). apply bind_ok in E1 as ([[[off1 s1] log1] ok1] & _ & E1). injection E1 as <- _ _. cbn. rewrite app_nil_r. auto.
    - apply bind_ok in E as (p & E1 & E2). injection E2 as <-. cbn. unfold p_undo in E1. apply bind_ok in E1 as ([off s] & _ & E1). apply bind_ok in E1 as (s1 & _ & E1).
      injection E1 as <-. cbn. rewrite app_nil_r. auto.
    - rewrite app_nil_r. apply bind_ok in E as (v & _ & E). apply bind_ok in E as (p & E1 & E2). injection E2 as <-. cbn. unfold p_on_model in E1. destruct (o_global o).
      + apply bind_ok in E1 as ([off s] & _ & E1). apply bind_ok in E1 as (v1 & _ & E1). destruct v1; injection E1 as <-; auto.
      + injection E1 as <-. auto.
  Qed.
  (** the next init keeps them, all of them are old facts of the next shot, and
      if there are any then check is called on partial assignments *)
  Theorem C35_facts_kept o sh (p p' : propagator V Sym) log log' ok :
    p_init (sh_host sh) o (sh_sort sh) (sh_threads sh) (sh_iqs sh) (sh_obj sh) p log = Ok (p', log', ok) ->
    old_facts (start p' log') = p_facts p /\ p_facts p' = p_facts p /\ (p_facts p <> [] -> init_check_both o p = true).
  Proof.
    unfold p_init. intros E. apply bind_ok in E as ([[sl lg] ok'] & _ & E). injection E as <- _ _. unfold old_facts. cbn.
    rewrite take_ge by lia. split; auto. split; auto. intros Hne. unfold init_check_both. destruct (p_facts p); [congruence|auto].
  Qed.

  (** When init does not ask for calls on partial assignments, nothing is lost:
      such a call would change nothing and add no clause, in this shot; and
      init asks for them exactly if there are old facts or the objective is
      optimized globally. *)
  Theorem C35_partial_checks o sh (p p' : propagator V Sym) log log' ok w t h a l1 l2 w' :
    p_init (sh_host sh) o (sh_sort sh) (sh_threads sh) (sh_iqs sh) (sh_obj sh) p log = Ok (p', log', ok) ->
    (init_check_both o p = true <-> p_facts p <> [] \/ exists g, o_global o = Some g) /\
    (init_check_both o p = false -> later o (start p' log') w -> step o (EvCheck t h a false l1 l2) w w' ->
     w_p w' = w_p w /\ w_log w' = w_log w).
  Proof.
    intros E. split.
    - unfold init_check_both. rewrite orb_true_iff, Nat.ltb_lt. split.
      + intros [Hl|Hg]; [left; destruct (p_facts p); [cbn in Hl; lia|discriminate]|right]. destruct (o_global o) as [g|]; [eauto|discriminate].
      + intros [Hl|(g & ->)]; [left; destruct (p_facts p); [congruence|cbn; lia]|right; reflexivity].
    - intros Hb Hl Hs. unfold init_check_both in Hb. apply orb_false_iff in Hb as [Hf Hg]. apply Nat.ltb_ge in Hf.
      assert (F0 : p_foff (w_p (start p' log')) = 0).
      { unfold p_init in E. apply bind_ok in E as ([[sl lg] ok'] & _ & E). injection E as <- _ _. cbn. lia. }
      assert (F : p_foff (w_p w) = 0).
      { clear Hs. remember (start p' log') as w0 eqn:E0. clear E0. induction Hl as [|w0 w1 e w2 Hl IH Ha Hsf Hs]; auto.
        destruct (C35_facts_recorded o e w1 w2 Hs) as [_ ->]. auto. }
      destruct Hs as (fuel & Ew). cbn [wstep] in Ew. apply bind_ok in Ew as ([off s] & Es & Ew). apply bind_ok in Ew as ([[p1 log1] ok1] & E1 & Ew).
      injection Ew as <-. cbn. unfold p_check in E1. rewrite Es in E1. apply bind_ok in E1 as ([off' s'] & Es' & E1). injection Es' as <- <-. apply bind_ok in E1 as ([[[off2 s2] log2] ok2] & Et & E1). injection E1 as <- <- <-.
      unfold t_check in Et. rewrite F in Et. replace (off <? 0) with false in Et by (symmetry; apply Nat.ltb_ge; lia). rewrite andb_false_r in Et. cbn in Et.
      unfold integrate_objective in Et. destruct (o_global o); [discriminate Hg|]. cbn in Et. injection Et as <- <- <- <-. split; [|reflexivity].
      apply at_ok in Es. unfold put_thread. rewrite list_insert_id by exact Es. destruct (w_p w). reflexivity.
  Qed.

  (** ** facts are enforced *)
  (** literals delivered on level 0 *)
  Definition base (k : list (entry V)) : list Z := concat (map (fun e => if en_level e =? 0 then en_lits e else []) k).
  Lemma base_held k : base k ⊆ held k.
  Proof.
    unfold base, held. induction k as [|e k IH]; cbn; auto. intros x Hx. apply elem_of_app in Hx as [Hx|Hx]; apply elem_of_app; auto.
    destruct (en_level e =? 0); auto. inversion Hx.
  Qed.
  Lemma base_deliver dl lits vals k : base k ⊆ base (deliver dl lits vals k).
  Proof.
    unfold base. destruct k as [|e k]; cbn; [intros x Hx; inversion Hx|]. destruct (en_level e <? dl); cbn.
    - intros x Hx. apply elem_of_app. auto.
    - intros x Hx. apply elem_of_app in Hx as [Hx|Hx]; apply elem_of_app; auto. left. destruct (en_level e =? 0); auto. apply elem_of_app; auto.
  Qed.
  Lemma base_deliver0 lits vals (k : list (entry V)) : toplevel k <= 0 -> lits ⊆ base (deliver 0 lits vals k).
  Proof.
    unfold base. destruct k as [|e k]; cbn; intros Ht x Hx.
    - apply elem_of_app; auto.
    - destruct (Nat.ltb_spec (en_level e) 0); [lia|]. cbn. destruct (Nat.eqb_spec (en_level e) 0); [|lia]. apply elem_of_app. left. apply elem_of_app; auto.
  Qed.
  Lemma base_tail (k : list (entry V)) : 0 < toplevel k -> base (tail k) = base k.
  Proof. unfold base. destruct k as [|e k]; cbn; [lia|]. intros Ht. destruct (Nat.eqb_spec (en_level e) 0); [lia|]. auto. Qed.

  Definition off_of w t : nat := match p_slvs (w_p w) !! t with Some (off, _) => off | None => 0 end.
  Definition fact_ok w t : Prop := off_of w t = p_foff (w_p w) -> old_facts w ⊆ base (th_stk (thread_of w t)).
  Record FI w : Prop := {
    fi_len : p_foff (w_p w) <= length (p_facts (w_p w));
    fi_th : length (p_slvs (w_p w)) = length (w_th w);
    fi_off : forall t, off_of w t = 0 \/ off_of w t = p_foff (w_p w);
    fi_ok : forall t, fact_ok w t;
  }.
  Lemma t_check_off fuel h o a total l1 l2 facts foff st off (s : solver V) log off' s' log' ok :
    t_check fuel h o a total l1 l2 facts foff st off s log = Ok (off', s', log', ok) -> off' = if (a_dl a =? 0) && (off <? foff) then foff else off.
  Proof.
    unfold t_check. intros E. apply bind_ok in E as ([[[off1 s1] log1] ok1] & E1 & E).
    assert (off1 = if (a_dl a =? 0) && (off <? foff) then foff else off) as <-.
    { destruct ((a_dl a =? 0) && (off <? foff)); [|injection E1 as <- _ _ _; auto]. apply bind_ok in E1 as (u & _ & E1). apply bind_ok in E1 as ([[s2 log2] ok2] & _ & E1). injection E1 as <- _ _ _. auto. }
    destruct (negb ok1); [injection E as <- _ _ _; auto|]. apply bind_ok in E as ([[s2 log2] ok2] & _ & E).
    destruct (negb ok2); [injection E as <- _ _ _; auto|]. destruct total; [|injection E as <- _ _ _; auto].
    apply bind_ok in E as (s3 & _ & E). apply bind_ok in E as (s4 & _ & E). apply bind_ok in E as ([[s5 log5] ok5] & _ & E). injection E as <- _ _ _. auto.
  Qed.
  Lemma old_facts_step o e w w' : FI w -> step o e w w' -> old_facts w' = old_facts w.
  Proof.
    intros [A _ _ _] Hs. destruct (C35_facts_recorded o e w w' Hs) as [E1 E2]. unfold old_facts. rewrite E1, E2. apply take_app_le. auto.
  Qed.

  Lemma FI_step o e w w' : FI w -> adm e w -> step o e w w' ->
    FI w' /\ (forall t h a total l1 l2, e = EvCheck t h a total l1 l2 -> a_dl a = 0 -> old_facts w ⊆ base (th_stk (thread_of w' t))) /\
    (forall t, t < length (w_th w) -> base (th_stk (thread_of w t)) ⊆ base (th_stk (thread_of w' t))).
  Proof.
    intros HF Ha Hs. pose proof (old_facts_step o e w w' HF Hs) as Ho. destruct (C35_facts_recorded o e w w' Hs) as [Ef Eo]. destruct HF as [F1 F2 F3 F4].
    assert (L : p_foff (w_p w') <= length (p_facts (w_p w'))) by (rewrite Ef, Eo, app_length; lia).
    destruct Hs as (fuel & E). destruct e as [t h a lits|t h a total l1 l2|t|t]; cbn [wstep] in E.
    - apply bind_ok in E as ([[p log] ok] & E1 & E2). injection E2 as <-. unfold p_propagate in E1. set (p1 := if (a_dl a =? 0) && (t =? 0) then _ else _) in E1.
      assert (Es1 : p_slvs p1 = p_slvs (w_p w)) by (subst p1; destruct (_ && _); auto).
      apply bind_ok in E1 as ([off s] & Es & E1). apply bind_ok in E1 as ([[s1 log1] ok1] & _ & E1). injection E1 as <- _ _.
      destruct Ha as (Ht & _). apply at_ok in Es. rewrite Es1 in Es.
      assert (Hoff : forall u, off_of (World (put_thread t (off, s1) p1) log (<[t:=Thread (deliver (a_dl a) lits (snaps (w_p w) t) (th_stk (thread_of w t))) (blocks ok (deliver (a_dl a) lits (snaps (w_p w) t) (th_stk (thread_of w t))) log)]> (w_th w)) (w_rep w)) u = off_of w u).
      { intros u. unfold off_of. cbn. rewrite Es1. destruct (decide (u = t)) as [->|]; [rewrite list_lookup_insert, Es; auto; lia|rewrite list_lookup_insert_ne; auto]. }
      assert (Hb : forall u, base (th_stk (thread_of w u)) ⊆ base (th_stk (thread_of (World (put_thread t (off, s1) p1) log (<[t:=Thread (deliver (a_dl a) lits (snaps (w_p w) t) (th_stk (thread_of w t))) (blocks ok (deliver (a_dl a) lits (snaps (w_p w) t) (th_stk (thread_of w t))) log)]> (w_th w)) (w_rep w)) u))).
      { intros u. unfold thread_of. cbn. destruct (decide (u = t)) as [->|]; [rewrite list_lookup_insert by auto; apply base_deliver|rewrite list_lookup_insert_ne; auto]. }
      split; [|split; [discriminate|auto]]. constructor; auto.
      + cbn. rewrite Es1, !insert_length. auto.
      + intros u. rewrite Hoff, Eo. auto.
      + intros u Hu. rewrite Hoff, Eo in Hu. rewrite Ho. intros x Hx. apply Hb, F4; auto.
    - apply bind_ok in E as ([off0 s0] & Es0 & E). apply bind_ok in E as ([[p log] ok] & E1 & E2). injection E2 as <-. unfold p_check in E1.
      apply bind_ok in E1 as ([off s] & Es & E1). apply bind_ok in E1 as ([[[off1 s1] log1] ok1] & Et & E1). injection E1 as <- _ _.
      assert (off0 = off) as -> by congruence. apply t_check_off in Et. destruct Ha as (Ht & _ & Htop & _). apply at_ok in Es.
      set (k := if (a_dl a =? 0) && (off <? p_foff (w_p w)) then _ else _). set (w' := World _ _ _ _) in *.
      assert (Kt : th_stk (thread_of w' t) = k) by (unfold thread_of; cbn; rewrite list_lookup_insert by auto; auto).
      assert (Kn : forall u, u <> t -> thread_of w' u = thread_of w u) by (intros u Hu; unfold thread_of; cbn; rewrite list_lookup_insert_ne; auto).
      assert (Ot : off_of w' t = off1) by (unfold off_of; cbn; rewrite list_lookup_insert by lia; auto).
      assert (On : forall u, u <> t -> off_of w' u = off_of w u) by (intros u Hu; unfold off_of; cbn; rewrite list_lookup_insert_ne; auto).
      assert (Oo : off_of w t = off) by (unfold off_of; rewrite Es; auto).
      assert (Kb : base (th_stk (thread_of w t)) ⊆ base k) by (subst k; destruct (_ && _); [apply base_deliver|auto]).
      assert (Kf : (a_dl a =? 0) && (off <? p_foff (w_p w)) = true -> old_facts w ⊆ base k).
      { intros Hc. subst k. rewrite Hc. apply andb_true_iff in Hc as [Hc _]. apply Nat.eqb_eq in Hc. rewrite Hc in Htop. apply base_deliver0. auto. }
      pose proof (F3 t) as F3t. pose proof (F4 t) as F4t. unfold fact_ok in F4t. rewrite Oo in F3t, F4t.
      split; [|split].
      + constructor; auto.
        * cbn. rewrite !insert_length. auto.
        * intros u. rewrite Eo. destruct (decide (u = t)) as [->|]; [|rewrite On; auto]. rewrite Ot, Et. destruct (_ && _); auto.
        * intros u. unfold fact_ok. rewrite Ho, Eo. destruct (decide (u = t)) as [->|]; [|rewrite On, Kn by auto; apply F4].
          rewrite Ot, Kt, Et. destruct ((a_dl a =? 0) && (off <? p_foff (w_p w))) eqn:Ec; [intros _; auto|]. intros Hu x Hx. apply Kb, F4t; auto.
      + intros t0 h0 a0 tot0 m1 m2 Ee Hd. injection Ee as <- <- <- <- <- <-. rewrite Kt.
        destruct ((a_dl a =? 0) && (off <? p_foff (w_p w))) eqn:Ec; [auto|]. intros x Hx. apply Kb, F4t; auto.
        rewrite Hd in Ec. cbn in Ec. apply Nat.ltb_ge in Ec. lia.
      + intros u _. destruct (decide (u = t)) as [->|]; [rewrite Kt; auto|rewrite Kn; auto].
    - apply bind_ok in E as (p & E1 & E2). injection E2 as <-. unfold p_undo in E1. apply bind_ok in E1 as ([off s] & Es & E1). apply bind_ok in E1 as (s1 & _ & E1).
      injection E1 as <-. apply at_ok in Es. destruct Ha as (Ht & Hp). set (w' := World _ _ _ _) in *.
      assert (Hoff : forall u, off_of w' u = off_of w u).
      { intros u. unfold off_of. cbn. destruct (decide (u = t)) as [->|]; [rewrite list_lookup_insert, Es; auto; lia|rewrite list_lookup_insert_ne; auto]. }
      assert (Hb : forall u, base (th_stk (thread_of w' u)) = base (th_stk (thread_of w u))).
      { intros u. unfold thread_of at 1. cbn. destruct (decide (u = t)) as [->|]; [rewrite list_lookup_insert by auto; apply base_tail; auto|rewrite list_lookup_insert_ne; auto]. }
      split; [|split; [discriminate|intros u _; rewrite Hb; auto]]. constructor; auto.
      + cbn. rewrite !insert_length. auto.
      + intros u. rewrite Hoff, Eo. auto.
      + intros u Hu. rewrite Hoff, Eo in Hu. rewrite Ho, Hb. apply F4; auto.
    - apply bind_ok in E as (v & _ & E). apply bind_ok in E as (p & E1 & E2). injection E2 as <-.
      assert (Es : p_slvs p = p_slvs (w_p w)).
      { unfold p_on_model in E1. destruct (o_global o); [|injection E1 as <-; auto]. apply bind_ok in E1 as ([off s] & _ & E1). apply bind_ok in E1 as (v1 & _ & E1). destruct v1; injection E1 as <-; auto. }
      split; [|split; [discriminate|intros u _; auto]]. constructor; auto.
      + cbn. rewrite Es. auto.
      + intros u. unfold off_of. rewrite Eo. cbn. rewrite Es. apply F3.
      + intros u Hu. unfold off_of in Hu. rewrite Eo in Hu. cbn in Hu. rewrite Es in Hu. rewrite Ho. apply F4. auto.
  Qed.

  Lemma FI_start o sh (p p' : propagator V Sym) log log' ok :
    p_init (sh_host sh) o (sh_sort sh) (sh_threads sh) (sh_iqs sh) (sh_obj sh) p log = Ok (p', log', ok) -> FI (start p' log').
  Proof.
    intros E. unfold p_init in E. apply bind_ok in E as ([[sl lg] ok'] & E1 & E). injection E as <- _ _.
    assert (Hz : forall x, x ∈ sl -> x.1 = 0).
    { revert E1. generalize (seq 0 (sh_threads sh)) log sl lg ok'. intros ids. clear. induction ids as [|i ids IH]; intros log sl lg ok E x Hx; cbn in E.
      - injection E as <- _ _. inversion Hx.
      - apply bind_ok in E as ([[s l1] k] & _ & E). destruct k; cbn in E.
        + apply bind_ok in E as ([[r l2] k2] & E2 & E). injection E as <- _ _. apply elem_of_cons in Hx as [->|Hx]; eauto.
        + injection E as <- _ _. apply elem_of_list_singleton in Hx as ->. auto. }
    assert (H0 : forall t, off_of (start (Propagator (fold_left (fun vs q => gather vs (q_lhs q)) (sh_iqs sh) (gather (p_vars p) (sh_obj sh))) (sh_obj sh) (sh_iqs sh) (length (p_facts p)) (p_facts p) sl os_reset) log') t = 0).
    { intros t. unfold off_of. cbn. destruct (sl !! t) as [[off s]|] eqn:El; auto. apply (Hz (off, s)). eapply elem_of_list_lookup_2; eauto. }
    constructor.
    - cbn. lia.
    - cbn. rewrite map_length. auto.
    - intros t. left. apply H0.
    - intros t. unfold fact_ok. rewrite H0. unfold old_facts. cbn. intros <-. cbn. intros x Hx. inversion Hx.
  Qed.
  Lemma FI_reach o sh w : reach o sh w -> FI w.
  Proof.
    induction 1 as [sh p log Hsh El E|sh0 w0 sh p log Hr IH Hsh El E|sh w e w' Hr IH Ha Hsf Hs].
    - eapply FI_start; eauto.
    - eapply FI_start; eauto.
    - eapply FI_step; eauto.
  Qed.
  Lemma reach_later o sh w w' : reach o sh w -> later o w w' -> reach o sh w'.
  Proof. intros Hr Hl. induction Hl as [|w w1 e w2 Hl IH Ha Hsf Hs]; [exact Hr|]. exact (reach_step o sh w1 e w2 (IH Hr) Ha Hsf Hs). Qed.
  Lemma later_base o sh w w' t : reach o sh w -> later o w w' -> t < length (w_th w) ->
    length (w_th w') = length (w_th w) /\ old_facts w' = old_facts w /\ base (th_stk (thread_of w t)) ⊆ base (th_stk (thread_of w' t)).
  Proof.
    intros Hr Hl Ht. induction Hl as [|w w' e w'' Hl IH Ha Hsf Hs]; auto. destruct IH as (A & B & C); auto.
    pose proof (FI_reach o sh w' (reach_later o sh w w' Hr Hl)) as F. destruct (FI_step o e w' w'' F Ha Hs) as (_ & _ & D).
    split; [|split].
    - rewrite <- A. destruct Hs as (fuel & E). destruct e as [u h a lits|u h a total l1 l2|u|u]; cbn [wstep] in E.
      + apply bind_ok in E as ([[p log] ok] & _ & E). injection E as <-. cbn. apply insert_length.
      + apply bind_ok in E as ([off s] & _ & E). apply bind_ok in E as ([[p log] ok] & _ & E). injection E as <-. cbn. apply insert_length.
      + apply bind_ok in E as (p & _ & E). injection E as <-. cbn. apply insert_length.
      + apply bind_ok in E as (v & _ & E). apply bind_ok in E as (p & _ & E). injection E as <-. auto.
    - rewrite <- B. eapply old_facts_step; eauto.
    - intros x Hx. apply D; [lia|auto].
  Qed.

  (** Once check was called on the top level on thread [t], the old facts are
      assigned on that thread for the rest of the shot, so the values of every
      accepted state satisfy their constraints. *)
  Theorem C35_facts_enforced_partial o sh w t h a total l1 l2 w1 w2 : step_ok (V := V) o -> reach o sh w ->
    adm (EvCheck t h a total l1 l2) w -> a_dl a = 0 -> step o (EvCheck t h a total l1 l2) w w1 -> later o w1 w2 ->
    old_facts w ⊆ assigned w2 t /\
    (accepted w2 t -> forall q, q ∈ sh_iqs sh -> q_lit q ∈ old_facts w -> watched sh q -> q_lhs q <> [] -> holdsV (api_value (w_p w2) t) q).
  Proof.
    intros So Hr Ha Hd Hs Hl. destruct (FI_step o _ w w1 (FI_reach o sh w Hr) Ha Hs) as (F1 & B1 & _).
    specialize (B1 t h a total l1 l2 eq_refl Hd). assert (Hr1 : reach o sh w1) by (eapply reach_step; eauto; exact Logic.I).
    assert (Ht1 : t < length (w_th w1)).
    { assert (Ht : t < length (w_th w)) by apply Ha. destruct Hs as (fuel & E). cbn [wstep] in E.
      apply bind_ok in E as ([off s] & _ & E). apply bind_ok in E as ([[p log] ok] & _ & E). injection E as <-. cbn. rewrite insert_length. auto. }
    destruct (later_base o sh w1 w2 t Hr1 Hl Ht1) as (_ & _ & B2).
    assert (Hsub : old_facts w ⊆ assigned w2 t) by (intros x Hx; apply base_held, B2, B1; auto). split; auto.
    intros Hacc q Hq Hf Hw Hne. eapply C01_values_satisfy_constraints_partial; eauto using reach_later. split; auto.
  Qed.
End facts.
