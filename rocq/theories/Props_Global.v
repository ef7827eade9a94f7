(** * C26, C27: objective values shared between threads; global optimization *)

From Verif Require Import Num Sums Tableau TableauProofs Bland Solver SolverBase SolverStep Simplex SimplexLoop Hist Updates Core CoreSolve Propagate
  OptSelect Optimize Spec Eps Prepare Propagator World ThreadOk WorldProofs Reach Observe ObserveProofs Props_Solver.

(** ** C26: every schedule of reports and polls on one ObjectiveState *)
Section state.
  Context {V : Type} `{VL : ValueLaws V}.

  (** thread reports a value, or thread [t] asks for news (the generation it
      saw last is kept by the thread: Objective::generation) *)
  Inductive call := Report (x : V * bool) | Poll (t : nat).
  (** the state, the generations the threads have seen, and what the last call
      returned *)
  Record sys := Sys { sy_st : objst V; sy_seen : nat -> nat; sy_ret : option (V * bool) }.
  Definition sys_init : sys := Sys os_reset (fun _ => 0) None.
  Definition exec (c : call) (y : sys) : sys :=
    match c with
    | Report x => Sys (os_update x (sy_st y)) (sy_seen y) None
    | Poll t => let '(g, r) := os_value (sy_seen y t) (sy_st y) in
                Sys (sy_st y) (fun u => if u =? t then g else sy_seen y u) r
    end.
  Definition execs (cs : list call) (y : sys) : sys := fold_left (fun y c => exec c y) cs y.

  (** ** specification *)
  Definition reports (cs : list call) : list (V * bool) := omap (fun c => match c with Report x => Some x | Poll _ => None end) cs.
  (** the reports up to the first unbounded one *)
  Fixpoint upto (xs : list (V * bool)) : list V * option V :=
    match xs with
    | [] => ([], None)
    | (v, true) :: r => let '(l, u) := upto r in (v :: l, u)
    | (v, false) :: _ => ([], Some v)
    end.
  (** [m] is the greatest element of [l] *)
  Definition is_max (m : V) (l : list V) : Prop := m ∈ l /\ forall v, v ∈ l -> vle v m.
  (** what a thread should find in the shared state after reports [xs] *)
  Definition best (xs : list (V * bool)) (r : option (V * bool)) : Prop :=
    match (upto xs).2, (upto xs).1 with
    | Some u, _ => r = Some (u, false)
    | None, [] => r = None
    | None, l => exists m, r = Some (m, true) /\ is_max m l
    end.
  Definition content (st : objst V) : option (V * bool) := if os_gen st =? 0 then None else Some (os_val st, os_bounded st).

  Lemma upto_app_none xs ys : (upto xs).2 = None -> upto (xs ++ ys) = ((upto xs).1 ++ (upto ys).1, (upto ys).2).
  Proof.
    induction xs as [|[v b] xs IH]; cbn [upto app].
    - intros _. destruct (upto ys). auto.
    - destruct b; cbn; [|discriminate]. destruct (upto xs) as [l u]. cbn in *. intros Hu. rewrite IH by auto. auto.
  Qed.
  Lemma upto_app_some xs ys u : (upto xs).2 = Some u -> upto (xs ++ ys) = upto xs.
  Proof.
    induction xs as [|[v b] xs IH]; cbn [upto app]; [discriminate|].
    destruct b; cbn; auto. destruct (upto xs) as [l u']. cbn in *. intros Hu. rewrite IH by auto. auto.
  Qed.

  Definition good (xs : list (V * bool)) (st : objst V) : Prop :=
    match (upto xs).2, (upto xs).1 with
    | Some u, _ => os_gen st <> 0 /\ os_val st = u /\ os_bounded st = false
    | None, [] => os_gen st = 0 /\ os_bounded st = true
    | None, l => os_gen st <> 0 /\ os_bounded st = true /\ is_max (os_val st) l
    end.
  Lemma good_best xs st : good xs st -> best xs (content st).
  Proof.
    unfold good, best, content. destruct (upto xs) as [l [u|]]; cbn [fst snd].
    - intros (G & -> & ->). destruct (Nat.eqb_spec (os_gen st) 0); [lia|auto].
    - destruct l as [|v l].
      + intros [-> _]. auto.
      + intros (G & E & M). destruct (Nat.eqb_spec (os_gen st) 0); [lia|]. rewrite E. eauto.
  Qed.
  Lemma update_good xs st v b : good xs st -> good (xs ++ [(v, b)]) (os_update (v, b) st).
  Proof.
    unfold good. destruct ((upto xs).2) as [u|] eqn:Eu.
    - intros (A & B & C). rewrite (upto_app_some xs [(v, b)] u Eu), Eu. unfold os_update. rewrite C. cbn. auto.
    - rewrite (upto_app_none xs _ Eu). generalize (upto xs).1. intros l G. cbn [fst snd]. unfold os_update. cbn [fst snd].
      assert (Eb : os_bounded st = true) by (destruct l; tauto). rewrite Eb. cbn [andb]. destruct b; cbn [upto fst snd negb orb].
      + destruct l as [|v0 l].
        * destruct G as [-> _]. cbn. split; auto. split; auto. split; [left|]. intros x Hx. apply elem_of_list_singleton in Hx as ->. apply vle_refl.
        * destruct G as (G1 & _ & M1 & M2). cbn [app]. destruct (Nat.eqb_spec (os_gen st) 0); [lia|]. cbn [orb].
          destruct (vgtb v (os_val st)) eqn:Ev; cbn.
          -- apply vgtb_lt in Ev. split; auto. split; auto. split; [right; apply elem_of_app; right; left|].
             intros x Hx. change (v0 :: l ++ [v]) with ((v0 :: l) ++ [v]) in Hx. apply elem_of_app in Hx as [Hx|Hx].
             ++ eapply vle_trans; [apply M2; auto|]. apply vlt_le; auto.
             ++ apply elem_of_list_singleton in Hx as ->. apply vle_refl.
          -- apply vgtb_false in Ev. split; auto. split; auto. change (v0 :: l ++ [v]) with ((v0 :: l) ++ [v]). split; [apply elem_of_app; auto|].
             intros x Hx. apply elem_of_app in Hx as [Hx|Hx]; auto. apply elem_of_list_singleton in Hx as ->. auto.
      + destruct l; cbn; auto.
  Qed.

  Lemma execs_snoc cs c y : execs (cs ++ [c]) y = exec c (execs cs y).
  Proof. unfold execs. rewrite fold_left_app. auto. Qed.
  Lemma execs_good cs : good (reports cs) (sy_st (execs cs sys_init)) /\ forall t, sy_seen (execs cs sys_init) t <= os_gen (sy_st (execs cs sys_init)).
  Proof.
    induction cs as [|c cs [IH1 IH2]] using rev_ind.
    - cbn. split; [split; auto|]. intros t. lia.
    - rewrite execs_snoc. unfold reports. rewrite omap_app. fold (reports cs). destruct c as [[v b]|t]; cbn [omap list_omap exec].
      + cbn [sy_st sy_seen]. split; [apply update_good; auto|]. intros t. specialize (IH2 t). unfold os_update. destruct (_ && _); cbn; lia.
      + rewrite app_nil_r. unfold os_value. destruct (Nat.eqb_spec (sy_seen (execs cs sys_init) t) (os_gen (sy_st (execs cs sys_init)))) as [E|E]; cbn [negb].
        * cbn. split; auto. intros u. destruct (Nat.eqb_spec u t); [subst; lia|auto].
        * cbn. split; auto. intros u. destruct (Nat.eqb_spec u t); [lia|auto].
  Qed.

  (** Whatever the schedule: the state holds the best report, and a poll of
      thread [t] returns it exactly if something changed since the last poll of [t]. *)
  Theorem C26_shared_objective cs :
    best (reports cs) (content (sy_st (execs cs sys_init))).
  Proof. apply good_best, execs_good. Qed.

  (** a poll returns the current content or nothing *)
  Theorem C26_poll_returns_best cs t x : sy_ret (execs (cs ++ [Poll t]) sys_init) = Some x -> best (reports cs) (Some x).
  Proof.
    rewrite execs_snoc. destruct (execs_good cs) as [G S]. cbn [exec]. unfold os_value.
    destruct (Nat.eqb_spec (sy_seen (execs cs sys_init) t) (os_gen (sy_st (execs cs sys_init)))) as [E|E]; cbn; [discriminate|].
    intros [= <-]. apply good_best in G. unfold content in G. specialize (S t). destruct (Nat.eqb_spec (os_gen (sy_st (execs cs sys_init))) 0); [lia|auto].
  Qed.
  Definition poll_free (t : nat) (cs : list call) : Prop := Poll t ∉ cs.
  Lemma update_gen x st : (os_gen (os_update x st) = os_gen st /\ os_update x st = st) \/ os_gen st < os_gen (os_update x st).
  Proof. unfold os_update. destruct (_ && _); cbn; [right; lia|auto]. Qed.
  Lemma execs_gen cs y : os_gen (sy_st y) <= os_gen (sy_st (execs cs y)).
  Proof.
    revert y. induction cs as [|c cs IH]; intros y; [cbn; lia|]. cbn. etransitivity; [|apply IH]. destruct c as [x|t]; cbn.
    - destruct (update_gen x (sy_st y)) as [[-> _]|]; lia.
    - destruct (os_value _ _). cbn. lia.
  Qed.
  Lemma execs_seen t cs y : poll_free t cs -> sy_seen (execs cs y) t = sy_seen y t.
  Proof.
    unfold poll_free. revert y. induction cs as [|c cs IH]; intros y Hp; [auto|]. apply not_elem_of_cons in Hp as [Hc Hp]. cbn. rewrite IH by auto. destruct c as [x|u]; cbn; auto.
    destruct (os_value _ _). cbn. destruct (Nat.eqb_spec t u); [congruence|auto].
  Qed.
  Lemma execs_content cs y : os_gen (sy_st (execs cs y)) = os_gen (sy_st y) -> sy_st (execs cs y) = sy_st y.
  Proof.
    revert y. induction cs as [|c cs IH]; intros y Hg; [auto|]. cbn in *. pose proof (execs_gen cs (exec c y)) as Hle. unfold execs in Hle.
    destruct c as [x|t]; cbn in *.
    - destruct (update_gen x (sy_st y)) as [[E1 E2]|Hlt]; [|lia]. rewrite E2 in *. rewrite IH; cbn; auto; lia.
    - destruct (os_value _ _). cbn in *. rewrite IH; cbn; auto.
  Qed.
  Lemma poll_seen t y : sy_seen (exec (Poll t) y) t = os_gen (sy_st y) /\ sy_st (exec (Poll t) y) = sy_st y.
  Proof.
    cbn. unfold os_value. destruct (Nat.eqb_spec (sy_seen y t) (os_gen (sy_st y))); cbn; rewrite Nat.eqb_refl; auto.
  Qed.

  (** The state changes only by improvements: a bounded report changes it iff it
      is the first or greater than all before, an unbounded one iff it is the
      first unbounded one. *)
  Theorem C26_changes cs v b : let st := sy_st (execs cs sys_init) in let st' := sy_st (execs (cs ++ [Report (v, b)]) sys_init) in
    (os_gen st' <> os_gen st <-> match content st with None => True | Some (_, false) => False | Some (m, true) => b = false \/ vlt m v end).
  Proof.
    cbn zeta. rewrite execs_snoc. cbn [exec sy_st]. destruct (execs_good cs) as [G _]. set (st := sy_st (execs cs sys_init)) in *.
    unfold os_update, content. cbn [fst snd]. destruct (Nat.eqb_spec (os_gen st) 0) as [E|E].
    - assert (os_bounded st = true) as -> by (unfold good in G; destruct (upto (reports cs)) as [[|] [u|]]; cbn in G; tauto).
      rewrite orb_true_r. cbn. split; auto.
    - rewrite orb_false_r. destruct (os_bounded st); cbn [andb]; [|cbn; split; [congruence|tauto]].
      destruct b; cbn [negb orb].
      + destruct (vgtb v (os_val st)) eqn:Ev; cbn.
        * apply vgtb_lt in Ev. split; auto.
        * apply vgtb_false in Ev. split; [congruence|]. intros [|Hl]; [discriminate|]. apply vnot_lt in Ev. contradiction.
      + cbn. split; auto.
  Qed.
  (** Between two polls of a thread: the second one returns something iff the
      state changed in between; so no change is missed and none is seen twice. *)
  Theorem C26_each_change_once cs ds t : poll_free t ds ->
    let a := sy_st (execs (cs ++ [Poll t]) sys_init) in let z := sy_st (execs (cs ++ [Poll t] ++ ds) sys_init) in
    (sy_ret (execs (cs ++ [Poll t] ++ ds ++ [Poll t]) sys_init) = None <-> os_gen z = os_gen a) /\
    (os_gen z = os_gen a -> content z = content a) /\
    (os_gen z <> os_gen a -> sy_ret (execs (cs ++ [Poll t] ++ ds ++ [Poll t]) sys_init) = content z).
  Proof.
    intros Hp. cbn zeta. rewrite !app_assoc, execs_snoc. set (y := execs (cs ++ [Poll t]) sys_init).
    assert (Ez : execs ((cs ++ [Poll t]) ++ ds) sys_init = execs ds y) by (unfold execs; rewrite fold_left_app; auto). rewrite Ez.
    assert (Hs : sy_seen (execs ds y) t = os_gen (sy_st y)).
    { rewrite execs_seen by auto. subst y. rewrite execs_snoc. destruct (poll_seen t (execs cs sys_init)) as [-> ->]. auto. }
    cbn [exec]. rewrite Hs. unfold os_value. destruct (Nat.eqb_spec (os_gen (sy_st y)) (os_gen (sy_st (execs ds y)))) as [E|E]; cbn [negb sy_ret].
    - split; [split; auto|]. split; [|congruence]. intros _. rewrite (execs_content ds y); auto.
    - split; [split; [discriminate|congruence]|]. split; [congruence|]. intros _. unfold content. pose proof (execs_gen ds y).
      destruct (Nat.eqb_spec (os_gen (sy_st (execs ds y))) 0); [lia|auto].
  Qed.
  (** the first poll of a thread returns what has been reported, if anything *)
  Theorem C26_first_poll cs t : poll_free t cs -> sy_ret (execs (cs ++ [Poll t]) sys_init) = content (sy_st (execs cs sys_init)).
  Proof.
    intros Hp. rewrite execs_snoc. cbn [exec]. rewrite execs_seen by auto. cbn [sys_init sy_seen]. unfold os_value, content.
    destruct (Nat.eqb_spec 0 (os_gen (sy_st (execs cs sys_init)))); cbn; destruct (Nat.eqb_spec (os_gen (sy_st (execs cs sys_init))) 0); auto; lia.
  Qed.
End state.

(** ** The propagator uses it that way: in every session the shared state is
    the one obtained from the reported models *)
Section session.
  Context {V : Type} `{VL : ValueLaws V} {Sym : Type} `{EqDecision Sym}.
  Implicit Types w : world V Sym.
  Implicit Types sh : shot V Sym.

  Theorem C26_reported_models_shared o sh w : reach o sh w -> o_global o <> None ->
    best (w_rep w) (content (p_state (w_p w))).
  Proof.
    intros Hr Hg.
    assert (G : good (w_rep w) (p_state (w_p w))).
    { induction Hr as [sh p log Hsh El E|sh0 w0 sh p log Hr IH Hsh El E|sh w e w' Hr IH Ha Hsf (fuel & E)].
      - unfold p_init in E. apply bind_ok in E as ([[sl lg] ok] & _ & E). injection E as <- _ _. split; auto.
      - unfold p_init in E. apply bind_ok in E as ([[sl lg] ok] & _ & E). injection E as <- _ _. split; auto.
      - destruct e as [t h a lits|t h a total l1 l2|t|t]; cbn [wstep] in E.
        + apply bind_ok in E as ([[p log] ok] & E1 & E2). injection E2 as <-. cbn. unfold p_propagate in E1.
          apply bind_ok in E1 as ([off s] & _ & E1). apply bind_ok in E1 as ([[s1 log1] ok1] & _ & E1). injection E1 as <- _ _. cbn. destruct (_ && _); auto.
        + apply bind_ok in E as ([off0 s0] & _ & E). apply bind_ok in E as ([[p log] ok] & E1 & E2). injection E2 as <-. cbn. unfold p_check in E1.
          apply bind_ok in E1 as ([off s] & _ & E1). apply bind_ok in E1 as ([[[off1 s1] log1] ok1] & _ & E1). injection E1 as <- _ _. auto.
        + apply bind_ok in E as (p & E1 & E2). injection E2 as <-. cbn. unfold p_undo in E1. apply bind_ok in E1 as ([off s] & _ & E1). apply bind_ok in E1 as (s1 & _ & E1).
          injection E1 as <-. auto.
        + apply bind_ok in E as (v & Ev & E). apply bind_ok in E as (p & E1 & E2). injection E2 as <-. cbn. unfold p_on_model in E1. destruct (o_global o); [|congruence].
          unfold p_get_objective in Ev. apply bind_ok in Ev as ([off s] & Es & Ev). rewrite Es in E1. cbn [mbind res_bind] in E1. rewrite Ev in E1. cbn [mbind res_bind] in E1.
          destruct v as [[v b]|]; injection E1 as <-; auto. cbn. apply update_good. auto. }
    apply good_best. auto.
  Qed.

  (** ** C27 *)
  (** [tr]: a total boolean assignment in which the asserted literals are true.
      [A]: a solution of its constraints that beats every reported value by the
      step.  Then no clause of the shot is violated. *)
  Theorem C27_improving_solutions_kept_partial o sh w : step_ok (V := V) o -> reach o sh w -> plain sh ->
    exists asserted : list Z, (forall l, l ∈ asserted -> [l] ∈ w_log w) /\
      forall (tr : Z -> Prop), (forall l, tr l \/ tr (- l)%Z) -> (forall l, l ∈ asserted -> tr l) ->
      forall (A : Sym -> Qc), (forall q, q ∈ sh_iqs sh -> tr (q_lit q) -> holds A q) ->
      (forall u, (u, false) ∉ w_rep w) ->
      (forall best g d, (best, true) ∈ w_rep w -> o_global o = Some g -> vstep g = Some d -> vle (vadd best d) (vofq (lin A (sh_obj sh)))) ->
      forall c, c ∈ w_log w -> c ∉ sh_log sh -> clause_true tr c.
  Proof.
    intros So Hr Hp. destruct (C02_clauses_sound_global_partial o sh w So Hr Hp) as (ass & Ha & Hl). exists (map fst ass). split.
    { intros l Hin. apply elem_of_list_fmap in Hin as ([l' v] & -> & Hin). apply (Ha l' v Hin). }
    intros tr Ht Hta A HA Hu Hb c Hc Hn. destruct (Hl c Hc) as [|[Hs|(l & v & Hi & ->)]]; [contradiction| |].
    - eapply clause_sound_obj_true; eauto. intros l v Hi. destruct (Ha l v Hi) as [_ [(b & g & d & H1 & H2 & H3 & ->)|(_ & u & Hx)]]; [eauto|]. exfalso. eapply Hu; eauto.
    - exists l. split; [left|]. apply Hta. apply elem_of_list_fmap. exists (l, v). auto.
  Qed.
  (** boolean assignments whose objective is unbounded are never excluded *)
  Theorem C27_unbounded_solutions_kept_partial o sh w : step_ok (V := V) o -> reach o sh w -> plain sh ->
    exists asserted : list Z, (forall l, l ∈ asserted -> [l] ∈ w_log w) /\
      forall (tr : Z -> Prop), (forall l, tr l \/ tr (- l)%Z) -> (forall l, l ∈ asserted -> tr l) ->
      (forall M : Qc, exists A : Sym -> Qc, (forall q, q ∈ sh_iqs sh -> tr (q_lit q) -> holds A q) /\ (M < lin A (sh_obj sh))%Qc) ->
      forall c, c ∈ w_log w -> c ∉ sh_log sh -> clause_true tr c.
  Proof.
    intros So Hr Hp. destruct (C02_clauses_sound_global_partial o sh w So Hr Hp) as (ass & Ha & Hl). exists (map fst ass). split.
    { intros l Hin. apply elem_of_list_fmap in Hin as ([l' v] & -> & Hin). apply (Ha l' v Hin). }
    intros tr Ht Hta HM c Hc Hn. destruct (Hl c Hc) as [|[Hs|(l & v & Hi & ->)]]; [contradiction| |].
    - assert (HB : exists M : Qc, forall l v, (l, v) ∈ ass -> ((vemb v).1 <= M)%Qc).
      { clear. induction ass as [|[l v] ass (M & HM)].
        - exists 0%Qc. intros l v Hi. inversion Hi.
        - destruct (Qclt_le_dec M (vemb v).1) as [Hc|Hc].
          + exists (vemb v).1. intros l' v' Hi. apply elem_of_cons in Hi as [Hi|Hi]; [injection Hi as _ ->; apply Qcle_refl|]. specialize (HM l' v' Hi). qclra.
          + exists M. intros l' v' Hi. apply elem_of_cons in Hi as [Hi|Hi]; [injection Hi as _ ->; auto|]. eauto. }
      destruct HB as (M & HB). destruct (HM M) as (A & HA & HMA). eapply clause_sound_obj_true; eauto. intros l v Hi. specialize (HB l v Hi).
      apply vlt_le, vlt_emb. rewrite vemb_ofq. left. cbn. qclra.
    - exists l. split; [left|]. apply Hta. apply elem_of_list_fmap. exists (l, v). auto.
  Qed.
End session.
