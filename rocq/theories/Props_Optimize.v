(** * C08, C09, C10: Solver::optimize from every feasible state of the solver

    The theorems of Props_Decision.v speak about sessions.  Here the solver
    alone is considered, in any state that is well-formed and feasible, however
    it was reached. *)
From stdpp Require Import list_numbers.
From Verif Require Import Num Sums Tableau TableauProofs Bland Solver SolverBase SolverStep Simplex SimplexLoop Hist Updates Core CoreSolve OptSelect Optimize.
From Verif Require Import Spec Propagator World ThreadOk WorldProofs Reach Observe ObserveProofs Prepare Examples.

Section spec.
  Context {V : Type} `{Value V}.
  Implicit Types s : solver V.

  (** [solution s a]: the assignment [a] of the variables satisfies the
      equations of the tableau and the bounds that are in force. *)
  Definition equations s (a : nat -> V) : Prop :=
    forall b, b < length (s_vars s) -> Bs s b = true ->
      a b = vsum (length (s_vars s)) (fun k => if Bs s k then vzero else vscale (Ts s b k) (a k)).
  Definition in_bounds s (a : nat -> V) : Prop :=
    forall x v, s_vars s !! x = Some v ->
      (forall l, v_lower v = Some l -> vle (b_val l) (a x)) /\ (forall u, v_upper v = Some u -> vle (a x) (b_val u)).
  Definition solution s (a : nat -> V) : Prop := equations s a /\ in_bounds s a.
  (** the assignment the solver holds *)
  Definition current s : nat -> V := fun x => match s_vars s !! x with Some v => v_val v | None => vzero end.

  (** a state in which optimize may be called: the data structure is
      well-formed, the queue of conflicts is sorted and contains the marked
      variables, the current assignment is a solution, and the objective is a
      basic variable without bounds *)
  Record optimizable s : Prop := {
    oz_shape : shape s;
    oz_queue : Qinv s;
    oz_sol : solution s (current s);
    oz_active : ob_active (s_obj s) = true;
    oz_obj : exists v, s_vars s !! ob_var (s_obj s) = Some v /\ v_lower v = None /\ v_upper v = None /\ s_nn s <= v_rindex v;
  }.
  Definition objective s : V := current s (ob_var (s_obj s)).
  Definition bounds_of s : list (option (bound V) * option (bound V)) := map (fun v => (v_lower v, v_upper v)) (s_vars s).

  (** [iterations o s s']: [s'] occurs at the head of the loop of optimize *)
  Inductive iterations (o : options) s : solver V -> Prop :=
    | it_0 : iterations o s s
    | it_S s1 s2 : iterations o s s1 -> optimize_step o s1 = Ok (s2, false) -> iterations o s s2.
End spec.

Section optimize.
  Context {V : Type} `{VL : ValueLaws V}.
  Implicit Types s : solver V.

  Lemma current_val s : forall x, current s x = match s_vars s !! x with Some _ => val s x | None => vzero end.
  Proof. intros x. unfold current, val, vr. destruct (s_vars s !! x); auto. Qed.
  Lemma current_in s x : x < nv s -> current s x = val s x.
  Proof. intros Hx. rewrite current_val. destruct (lookup_lt_is_Some_2 _ _ Hx) as [v ->]. auto. Qed.
  Lemma equations_rows s a : equations s a <-> rows s a.
  Proof. reflexivity. Qed.
  Lemma equations_ext s a a' : (forall x, x < nv s -> a x = a' x) -> equations s a -> equations s a'.
  Proof.
    intros E Ha b Hb B. rewrite <- E by auto. rewrite (Ha b Hb B). apply vsum_ext. intros k Hk. rewrite E; auto.
  Qed.
  Lemma in_bounds_within s a : in_bounds s a <-> forall x, x < nv s -> within (lov s) (upv s) x (a x).
  Proof.
    split.
    - intros Hb x Hx. destruct (lookup_lt_is_Some_2 _ _ Hx) as [v Ev]. destruct (Hb x v Ev) as [B1 B2].
      unfold within, lov, upv, lo, up, vr. rewrite Ev. cbn. split; intros w Hw; apply fmap_Some in Hw as (b & Hb' & ->); auto.
    - intros Hw x v Ev. destruct (Hw x (lookup_lt_Some _ _ _ Ev)) as [W1 W2]. unfold lov, upv, lo, up, vr in W1, W2. rewrite Ev in W1, W2. cbn in *.
      split; intros b Hb; rewrite Hb in *; auto.
  Qed.
  Lemma solution_inall s a : solution s a <-> inall s a.
  Proof. unfold solution, inall. rewrite equations_rows, in_bounds_within. tauto. Qed.
  Lemma feasible_current s : feasible s <-> in_bounds s (current s).
  Proof. rewrite in_bounds_within. unfold feasible, inb. split; intros Hf x Hx; specialize (Hf x Hx); rewrite current_in in * by auto; auto. Qed.

  Lemma bounds_lookup s x : bounds_of s !! x = if decide (x < nv s) then Some (lo s x, up s x) else None.
  Proof.
    unfold bounds_of. rewrite list_lookup_fmap. destruct (decide (x < nv s)) as [Hx|Hx].
    - destruct (lookup_lt_is_Some_2 _ _ Hx) as [v Ev]. unfold lo, up, vr. rewrite Ev. auto.
    - rewrite lookup_ge_None_2; auto. unfold nv in Hx. lia.
  Qed.
  Lemma bounds_same s s' : nv s' = nv s -> bnd_same s s' -> bounds_of s' = bounds_of s.
  Proof.
    intros En Hb. apply list_eq. intros x. rewrite !bounds_lookup, En. destruct (Hb x) as (-> & -> & _). auto.
  Qed.

  Lemma optimizable_LK s : optimizable s <-> LK (ob_var (s_obj s)) s /\ ob_active (s_obj s) = true.
  Proof.
    split.
    - intros [Sh Hq [Se Sb] Ha (v & Ev & Hl & Hu & Hr)]. split; auto. constructor; auto.
      + constructor; auto.
        * apply (equations_ext s (current s)); auto. apply current_in.
        * split; auto. intros x Hx Bx Hc. exfalso. apply feasible_current in Sb. specialize (Sb x Hx). apply conf_at_inb in Sb. congruence.
        * apply feasible_current; auto.
      + apply lookup_lt_Some in Ev. exact Ev.
      + unfold Bs, ridx, vr. rewrite Ev. cbn. destruct (Nat.ltb_spec (v_rindex v) (s_nn s)); auto; try lia. apply Nat.leb_le; lia.
      + unfold lo, vr. rewrite Ev. auto.
      + unfold up, vr. rewrite Ev. auto.
    - intros [[[Sh Hr Hq Hf] Hz Bz Lz Uz] Ha]. constructor; auto.
      + apply Hq.
      + split; [|apply feasible_current; auto]. apply (equations_ext s (val s)); auto. intros x Hx. rewrite current_in; auto.
      + destruct (lookup_lt_is_Some_2 _ _ Hz) as [v Ev]. exists v. split; auto. unfold lo, up, Bs, ridx, vr in *. rewrite Ev in *. cbn in *.
        split; auto. split; auto. try (apply Nat.leb_le; auto); try (apply negb_true_iff, Nat.ltb_ge in Bz; auto).
  Qed.

  Lemma step_iter o s : optimizable s -> exists s' fin, optimize_step o s = Ok (s', fin) /\
    (fin = false -> optimizable s' /\ bounds_of s' = bounds_of s /\ (forall a, solution s' a <-> solution s a) /\ vle (objective s) (objective s') /\ ob_var (s_obj s') = ob_var (s_obj s)).
  Proof.
    intros HO. pose proof HO as HO'. apply optimizable_LK in HO' as [HK Ha]. set (z := ob_var (s_obj s)) in *.
    destruct (opt_step z o s HK eq_refl) as (s' & fin & E & Hres). exists s', fin. split; auto. intros ->.
    destruct Hres as (K' & Vr & HR & Hv & _). destruct (vreach_facts _ _ _ Vr) as (Bt & St & Bn). pose proof (stat_nv _ _ St) as En.
    assert (Eo : s_obj s' = s_obj s) by exact (stat_obj _ _ St). split.
    { apply optimizable_LK. rewrite Eo. auto. }
    split; [apply bounds_same; auto|]. split.
    { intros a. rewrite !solution_inall. unfold inall. rewrite HR, En. split; intros [A B]; split; auto; intros x Hx; specialize (B x Hx).
      - apply (within_same s' s); auto. intros y. destruct (Bn y) as (-> & -> & ->). auto.
      - apply (within_same s s'); auto. }
    split; [|rewrite Eo; auto]. unfold objective. rewrite Eo. fold z. pose proof (lk_z _ _ HK) as Hz. rewrite (current_in s z) by exact Hz. rewrite (current_in s' z) by (rewrite En; exact Hz). exact Hv.
  Qed.

  (** C10.  optimize ends, in every feasible state; in every iteration the
      bounds in force are the ones at the beginning and are satisfied, the set
      of solutions is unchanged and the objective does not decrease. *)
  Theorem C10_optimize_from_every_feasible_state (o : options) s : optimizable s ->
    (exists fuel, forall n, fuel <= n -> exists s', optimize n o s = Ok s' /\
       solution s' (current s') /\ bounds_of s' = bounds_of s /\ (forall a, solution s' a <-> solution s a) /\ vle (objective s) (objective s')) /\
    (forall s1, iterations o s s1 ->
       solution s1 (current s1) /\ bounds_of s1 = bounds_of s /\ (forall a, solution s1 a <-> solution s a) /\ vle (objective s) (objective s1) /\
       exists s2 fin, optimize_step o s1 = Ok (s2, fin) /\ (fin = false -> vle (objective s1) (objective s2))).
  Proof.
    intros HO. split.
    - exists (4 ^ nv s). intros n Hn. pose proof HO as HO'. apply optimizable_LK in HO' as [[HF Hz Bz Lz Uz] Ha].
      destruct (optimize_FS _ n o s HF Ha eq_refl Hz Bz Lz Uz Hn) as (s' & E & [P1 _ P2 P3 P4 (bd & P5) P6 P7 P8]). exists s'. split; auto.
      assert (En : nv s' = nv s) by congruence.
      split; [split; [apply (equations_ext s' (val s')); [intros x Hx; rewrite current_in; auto|apply P1]|apply feasible_current, P1]|].
      split; [apply bounds_same; auto|]. split.
      { intros a. rewrite !solution_inall. unfold inall. rewrite P3, En. split; intros [A B]; split; auto; intros x Hx; specialize (B x Hx).
        - apply (within_same s' s); auto. intros y. destruct (P4 y) as (-> & -> & ->). auto.
        - apply (within_same s s'); auto. }
      unfold objective. rewrite P5. cbn [ob_var obj_set_bounded]. rewrite !current_in; auto. rewrite En; auto.
    - intros s1 Hit.
      assert (G : optimizable s1 /\ bounds_of s1 = bounds_of s /\ (forall a, solution s1 a <-> solution s a) /\ vle (objective s) (objective s1)).
      { induction Hit as [|s1 s2 Hit (I1 & I2 & I3 & I4) E].
        - split; auto. split; auto. split; [tauto|apply vle_refl].
        - destruct (step_iter o s1 I1) as (s2' & fin & E' & Hres). rewrite E in E'. injection E' as <- <-. destruct (Hres eq_refl) as (Q1 & Q2 & Q3 & Q4 & Q5).
          split; auto. split; [congruence|]. split; [intros a; rewrite Q3; auto|]. eapply vle_trans; eauto. }
      destruct G as (I1 & I2 & I3 & I4). split; [apply I1|]. split; auto. split; auto. split; auto.
      destruct (step_iter o s1 I1) as (s2 & fin & E' & Hres). exists s2, fin. split; auto. intros Hf. apply (Hres Hf).
  Qed.

  (** C08 and C09 for every feasible state: a result marked bounded is
      attained and no solution is better; otherwise solutions exist for every
      value from the current one on. *)
  Theorem C08_optimum_from_every_feasible_state (o : options) n s s' : optimizable s -> 4 ^ length (s_vars s) <= n -> optimize n o s = Ok s' ->
    ob_bounded (s_obj s') = true -> solution s (current s') /\ forall a, solution s a -> vle (a (ob_var (s_obj s))) (objective s').
  Proof.
    intros HO Hn E Hb. pose proof HO as HO'. apply optimizable_LK in HO' as [[HF Hz Bz Lz Uz] Ha].
    destruct (optimize_FS _ n o s HF Ha eq_refl Hz Bz Lz Uz Hn) as (s1 & E1 & [P1 _ P2 P3 P4 (bd & P5) P6 P7 P8]). rewrite E in E1. injection E1 as <-.
    assert (En : nv s' = nv s) by congruence. rewrite Hb in P7.
    assert (G : forall a, solution s' a <-> solution s a).
    { intros a. rewrite !solution_inall. unfold inall. rewrite P3, En. split; intros [A B]; split; auto; intros x Hx; specialize (B x Hx).
      - apply (within_same s' s); auto. intros y. destruct (P4 y) as (-> & -> & ->). auto.
      - apply (within_same s s'); auto. }
    split.
    - apply G. split; [apply (equations_ext s' (val s')); [intros x Hx; rewrite current_in; auto|apply P1]|apply feasible_current, P1].
    - intros a Hs. unfold objective. rewrite P5. cbn [ob_var obj_set_bounded]. rewrite current_in by (rewrite En; auto). apply P7. apply solution_inall, G; auto.
  Qed.
  Theorem C09_unbounded_from_every_feasible_state (o : options) n s s' : optimizable s -> 4 ^ length (s_vars s) <= n -> optimize n o s = Ok s' ->
    ob_bounded (s_obj s') = false -> forall M : V, exists a, solution s a /\ vle M (a (ob_var (s_obj s))).
  Proof.
    intros HO Hn E Hb M. pose proof HO as HO'. apply optimizable_LK in HO' as [[HF Hz Bz Lz Uz] Ha].
    destruct (optimize_FS _ n o s HF Ha eq_refl Hz Bz Lz Uz Hn) as (s1 & E1 & [P1 _ P2 P3 P4 (bd & P5) P6 P7 P8]). rewrite E in E1. injection E1 as <-.
    assert (En : nv s' = nv s) by congruence. rewrite Hb in P7.
    assert (G : forall a, inall s' a -> solution s a).
    { intros a. rewrite !solution_inall. unfold inall. rewrite P3, En. intros [A B]; split; auto; intros x Hx; specialize (B x Hx).
      apply (within_same s' s); auto. intros y. destruct (P4 y) as (-> & -> & ->). auto. }
    destruct (decide (vle (val s' (ob_var (s_obj s))) M)) as [Hle|Hnle].
    - destruct (P7 M Hle) as (a & Hi & Hm). exists a. split; auto. rewrite Hm. apply vle_refl.
    - apply vnot_le in Hnle. exists (current s'). split.
      + apply G, solution_inall. split; [apply (equations_ext s' (val s')); [intros x Hx; rewrite current_in; auto|apply P1]|apply feasible_current, P1].
      + rewrite current_in by (rewrite En; auto). apply vlt_le; auto.
  Qed.

  (** The hypothesis is met in every session, by every thread with an
      objective that is not in conflict. *)
  Theorem C10_reachable_states_are_optimizable {Sym : Type} `{EqDecision Sym} o (sh : shot V Sym) w t off s : step_ok (V := V) o -> reach o sh w ->
    t < length (w_th w) -> th_blk (thread_of w t) = false -> sh_obj sh <> [] -> p_slvs (w_p w) !! t = Some (off, s) -> optimizable s.
  Proof.
    intros So Hr Ht Hb Hne Es. destruct (reach_inv o sh w So Hr) as (s0s & new0 & facts0 & ass & I). destruct (get_view o sh s0s new0 facts0 ass w t I Ht) as (s0 & s1 & fs & E0 & VW).
    pose proof VW as [(off' & Es') P Ea HL _ T Nv]. rewrite Es in Es'. injection Es' as <- <-. specialize (HL Hb).
    destruct (pd_obj1 _ _ _ _ _ _ _ P Hne) as (Hact & Hrow & _).
    assert (Ez : ob_var (s_obj s) = ob_var (s_obj s0)) by exact (tb_var _ _ _ _ _ T).
    destruct (r0_var _ _ (prepared_rows0 _ _ _ _ _ _ P) Hact) as [Hz _].
    destruct (psnd_free _ _ s (ob_var (s_obj s0)) (md_ps _ _ _ _ (lv_M _ _ _ _ HL)) (TB_free o s0 ass (w_rep w) s (prepared_rows0 _ _ _ _ _ _ P) T Hact)) as [Lz Uz].
    apply optimizable_LK. rewrite Ez. split; [|rewrite (tb_act _ _ _ _ _ T); auto]. constructor; auto.
    - eapply Live_FS; eauto.
    - rewrite Nv; auto.
    - apply T; auto.
  Qed.
End optimize.

(** A concrete state: the session of [ex_opt] before its check call.  optimize
    runs and improves the objective strictly; the result is marked bounded. *)
Definition evs_before : list event := [ev_prop 0 0 [10%Z]; ev_prop 0 1 [21%Z; 31%Z]].
Definition improves (w : world RatQ nat) : bool :=
  match p_slvs (w_p w) !! 0 with
  | Some (_, s) => match optimize 50 ex_opts s with Ok s' => vltb (objective s) (objective s') && ob_bounded (s_obj s') | _ => false end
  | None => false
  end.
Lemma before_ok : improves (ex_world ex_opts 1 evs_before) = true /\ (0 <? length (w_th (ex_world ex_opts 1 evs_before))) = true /\
  th_blk (thread_of (ex_world ex_opts 1 evs_before) 0) = false /\ works ex_opts 1 evs_before = true.
Proof. vm_compute. auto. Qed.
Lemma improves_ok w : reach ex_opts (ex_shot 1 []) w -> improves w = true -> (0 <? length (w_th w)) = true -> th_blk (thread_of w 0) = false ->
  exists s s' : solver RatQ, optimizable s /\ optimize 50 ex_opts s = Ok s' /\ vltb (objective s) (objective s') = true /\ ob_bounded (s_obj s') = true.
Proof.
  intros Hr E Ht Hb. apply Nat.ltb_lt in Ht.
  unfold improves in E. destruct (p_slvs (w_p w) !! 0) as [[off s]|] eqn:Es; [|discriminate].
  destruct (optimize 50 ex_opts s) as [s'| | |] eqn:Eo; try discriminate. apply andb_true_iff in E as [E1 E2]. exists s, s'. split; auto.
  apply (C10_reachable_states_are_optimizable ex_opts (ex_shot 1 []) w 0 off s); try assumption; [apply ex_step_ok|discriminate].
Qed.
Example C10_example : exists s s' : solver RatQ, optimizable s /\ optimize 50 ex_opts s = Ok s' /\ vltb (objective s) (objective s') = true /\ ob_bounded (s_obj s') = true.
Proof. destruct before_ok as (E1 & E2 & E3 & E4). exact (improves_ok _ (ex_reach _ _ _ E4) E1 E2 E3). Qed.
