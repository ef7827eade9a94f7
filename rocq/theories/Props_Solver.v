(** * Properties of sessions

    All theorems quantify over every session [reach o sh w]: any number of
    init calls with any constraints, any number of threads and any admissible
    interleaving of callbacks.  [o]: any options.  V: rationals (Qc) or
    rationals with epsilon (RatQ).  [reach] excludes two inputs for which the
    program is wrong (Props_Equality.v, Props_EmptyRow.v), hence the suffix
    _partial of the theorems whose English property does not exclude them. *)

From Verif Require Import Num Sums Tableau TableauProofs Bland Solver SolverBase SolverStep Simplex SimplexLoop Hist Updates Core CoreSolve Propagate
  OptSelect Optimize Spec Eps Prepare Propagator World ThreadOk WorldProofs Reach Observe ObserveProofs.

Section props.
  Context {V : Type} `{VL : ValueLaws V} {Sym : Type} `{EqDecision Sym}.
  Implicit Types w : world V Sym.
  Implicit Types sh : shot V Sym.

  (** ** C01 *)
  Theorem C01_values_satisfy_constraints_partial o sh w t q : step_ok (V := V) o -> reach o sh w -> accepted w t ->
    in_force sh w t q -> q_lhs q <> [] -> holdsV (api_value (w_p w) t) q.
  Proof.
    intros So Hr [Ht Hb] Hq Hne. destruct (reach_inv o sh w So Hr) as (s0s & new0 & facts0 & ass & I).
    destruct (get_view o sh s0s new0 facts0 ass w t I Ht) as (s0 & s & fs & E0 & VW).
    pose proof (vw_live _ _ _ _ _ _ _ _ VW Hb) as HL.
    assert (Hh : holdsV (rd (find_sym (p_vars (w_p w))) (val s)) q).
    { eapply accept_holds; [apply I|apply I|eauto| | |auto|auto].
      - intros b Hbi Hl. eapply live_bsat; eauto.
      - apply (md_R _ _ _ _ (lv_M _ _ _ _ HL)). apply (j_rows _ (md_J _ _ _ _ (lv_M _ _ _ _ HL))). }
    unfold holdsV in *. rewrite (linV_ext _ (rd (find_sym (p_vars (w_p w))) (val s))); auto.
    intros c x _. eapply api_rd; eauto. apply I.
  Qed.

  (** ** C15 *)
  Lemma relv_dec r (x y : V) : {relv r x y} + {~ relv r x y}.
  Proof.
    destruct r; cbn.
    - destruct (decide (vle x y)); auto.
    - destruct (decide (vle y x)); auto.
    - destruct (decide (vle x y)) as [A|A], (decide (vle y x)) as [B|B]; [left; apply vle_antisym; auto|right; intros ->; first [apply A, vle_refl|apply B, vle_refl]..].
    - destruct (decide (vle y x)) as [A|A]; [right|left; apply vnot_le; auto]. intros Hl. apply vnot_lt in A. auto.
    - destruct (decide (vle x y)) as [A|A]; [right|left; apply vnot_le; auto]. intros Hl. apply vnot_lt in A. auto.
  Qed.
  Lemma small_holds (A : Sym -> V) (qs : list (ineq Sym)) :
    small (fun e => forall q, q ∈ qs -> holdsV A q -> holds (fun x => inst e (A x)) q).
  Proof.
    apply (small_list (fun q e => holdsV A q -> holds (fun x => inst e (A x)) q)). intros q _.
    destruct (relv_dec (q_rel q) (linV A (q_lhs q)) (vofq (q_rhs q))) as [Hh|Hh].
    - eapply small_mono; [|apply (holdsV_small A q Hh)]. auto.
    - apply small_all. intros e _ Hc. exfalso. auto.
  Qed.

  (** [inst e v]: the rational number obtained from [v] by setting epsilon to [e] *)
  Theorem C15_epsilon_instances_satisfy_constraints_partial o sh w t : step_ok (V := V) o -> reach o sh w -> accepted w t ->
    exists e0, (0 < e0)%Qc /\ forall e, (0 < e)%Qc -> (e <= e0)%Qc ->
      forall q, in_force sh w t q -> q_lhs q <> [] -> holds (fun x => inst e (api_value (w_p w) t x)) q.
  Proof.
    intros So Hr Ha. destruct (small_holds (api_value (w_p w) t) (sh_iqs sh)) as (e0 & H0 & He). exists e0. split; auto.
    intros e He0 Hle q Hq Hne. apply He; auto; [apply Hq|]. eapply C01_values_satisfy_constraints_partial; eauto.
  Qed.

  (** ** C02, C03 *)
  (** constraints without variables are equalities: the others are handled
      wrongly, see Props_EmptyRow.v *)
  Definition plain sh : Prop := forall q, q ∈ sh_iqs sh -> q_lhs q = [] -> q_rel q = Req.

  Lemma init_clause_sound o sh c : plain sh -> init_clause o (sh_iqs sh) c -> clause_sound (sh_iqs sh) c.
  Proof.
    intros Hp [(q & Hq & El & -> & Ee)|(_ & qa & qb & _ & _ & _ & Hs)]; auto.
    exists [q]. split; auto. split; [intros q' Hq'; apply elem_of_list_singleton in Hq' as ->; auto|].
    intros (A & HA). specialize (HA q (elem_of_list_here _ _)). unfold holds in HA. rewrite El, (Hp q Hq El) in HA. cbn in HA.
    rewrite (Hp q Hq El) in Ee. unfold empty_row_clause in Ee. rewrite <- HA in Ee. vm_compute in Ee. discriminate.
  Qed.

  (** an asserted bound "objective >= v" comes from a reported model *)
  Definition asserted_ok (o : options) (rep : list (V * bool)) (v : V) : Prop :=
    (exists best g d, (best, true) ∈ rep /\ o_global o = Some g /\ vstep g = Some d /\ v = vadd best d) \/ (o_global o <> None /\ exists u, (u, false) ∈ rep).
  Lemma justified_asserted o rep (v : V) : justified o rep v -> asserted_ok o rep v.
  Proof. intros [Hj|[Hg Hj]]; [left; auto|right]. split; auto. unfold glob in Hg. destruct (o_global o); [discriminate|congruence]. Qed.

  Theorem C02_clauses_sound_global_partial o sh w : step_ok (V := V) o -> reach o sh w -> plain sh ->
    exists ass : list (Z * V), (forall l v, (l, v) ∈ ass -> [l] ∈ w_log w /\ asserted_ok o (w_rep w) v) /\
      forall c, c ∈ w_log w -> c ∈ sh_log sh \/ clause_sound_obj (sh_iqs sh) (sh_obj sh) ass c \/ exists l v, (l, v) ∈ ass /\ c = [l].
  Proof.
    intros So Hr Hp. destruct (reach_inv o sh w So Hr) as (s0s & new0 & facts0 & ass & I). exists ass. split.
    - intros l v Hl. destruct (wi_ass _ _ _ _ _ _ _ _ _ (ri_w _ _ _ _ _ _ _ I) l v Hl). split; auto using justified_asserted.
    - intros c Hc. destruct (wi_log _ _ _ _ _ _ _ _ _ (ri_w _ _ _ _ _ _ _ I)) as (new & E & Hn). rewrite E in Hc. apply elem_of_app in Hc as [Hc|Hc]; auto.
      apply elem_of_app in Hc as [Hc|Hc]; auto. right. left. apply (ri_init _ _ _ _ _ _ _ I) in Hc. apply (init_clause_sound o) in Hc; auto.
      destruct Hc as (bad & -> & Hs & Hu). exists (map inl bad). split; [rewrite map_map; auto|]. split.
      + intros g Hg. apply elem_of_list_fmap in Hg as (q & -> & Hq). auto.
      + intros (A & HA). apply Hu. exists A. intros q Hq. apply (HA (inl q)). apply elem_of_list_fmap. eauto.
  Qed.
  (** without global optimization: every clause is a conflict clause *)
  Theorem C02_clauses_sound_partial o sh w : step_ok (V := V) o -> reach o sh w -> plain sh -> o_global o = None ->
    forall c, c ∈ w_log w -> c ∈ sh_log sh \/ clause_sound (sh_iqs sh) c.
  Proof.
    intros So Hr Hp Hg c Hc. destruct (C02_clauses_sound_global_partial o sh w So Hr Hp) as (ass & Ha & Hl).
    assert (ass = []) as ->.
    { destruct ass as [|[l v] ass]; auto. destruct (Ha l v (elem_of_list_here _ _)) as [_ [(b & g & d & _ & E & _)|[E _]]]; congruence. }
    destruct (Hl c Hc) as [|[Hs|(l & v & Hi & _)]]; [auto| |inversion Hi]. right. eapply clause_sound_obj_nil; eauto.
  Qed.
  (** no solution is lost: a total boolean assignment [tr] with a rational
      solution [A] of its constraints satisfies every clause of the shot *)
  Theorem C02_no_solution_lost_partial o sh w (tr : Z -> Prop) (A : Sym -> Qc) : step_ok (V := V) o -> reach o sh w -> plain sh -> o_global o = None ->
    (forall l, tr l \/ tr (- l)%Z) -> (forall q, q ∈ sh_iqs sh -> tr (q_lit q) -> holds A q) ->
    forall c, c ∈ w_log w -> c ∉ sh_log sh -> clause_true tr c.
  Proof.
    intros So Hr Hp Hg Ht HA c Hc Hn. destruct (C02_clauses_sound_partial o sh w So Hr Hp Hg c Hc) as [|Hs]; [contradiction|]. eapply clause_sound_true; eauto.
  Qed.

  Lemma step_big o e w w' n : step o e w w' -> exists fuel, n <= fuel /\ wstep fuel o e w = Ok w'.
  Proof. intros (f & E). exists (Nat.max n f). split; [lia|]. apply (wstep_mono o e w f); [lia|auto]. Qed.

  (** the clauses of one propagate call, whatever the propagation mode, do not
      even need the hypothesis [plain] *)
  Theorem C03_propagated_clauses_valid_partial o sh w t h a lits w' : step_ok (V := V) o -> reach o sh w -> adm (EvPropagate t h a lits) w -> eq_safe (EvPropagate t h a lits) w ->
    step o (EvPropagate t h a lits) w w' ->
    exists (ass : list (Z * V)) new, w_log w' = w_log w ++ new /\ (forall l v, (l, v) ∈ ass -> [l] ∈ w_log w /\ asserted_ok o (w_rep w) v) /\
      forall c, c ∈ new -> clause_sound_obj (sh_iqs sh) (sh_obj sh) ass c.
  Proof.
    intros So Hr Ha Hsf Hs. destruct (reach_inv o sh w So Hr) as (s0s & new0 & facts0 & ass & I).
    destruct (step_big o _ w w' (4 ^ maxnv s0s) Hs) as (fuel & Hf & E).
    pose proof Ha as (Ht & Hblk & Htop & Hlv & Hll). destruct (get_view o sh s0s new0 facts0 ass w t I Ht) as (s0 & s & fs & E0 & VW).
    pose proof I as [R1 R2 R3 R4 R5 R6 R7 R7b R8 [I1 I2 I3 I4 I5 I6 I7 I8 I9 I10 I11]].
    destruct (vw_at _ _ _ _ _ _ _ _ VW) as (off & Es). destruct (I8 t _ s0 Es E0) as (fs1 & [T1 T2 T2b T3 T4 T5 T6]). rewrite Hblk in T2. cbn [fst snd] in *.
    rewrite <- T1, <- top_level in Htop. rewrite <- T1 in Hlv. apply levels_ok in Hlv.
    exists ass. cbn [wstep] in E. apply bind_ok in E as ([[p log] ok] & E1 & E2). injection E2 as <-. cbn [w_log]. unfold p_propagate in E1.
    apply bind_ok in E1 as ([off1 s1] & Ea & E1). apply bind_ok in E1 as ([[s2 log2] ok2] & E2 & E1). injection E1 as <- <- <-.
    assert (Es1 : s1 = s). { apply at_ok in Ea. destruct ((a_dl a =? 0) && (t =? 0)); cbn in Ea; congruence. } subst s1.
    destruct (solve_ok (keep0 o) s0 fs1 s a o h lits (w_log w) fuel T2 Htop) as (s' & log' & ok & Esol & Ep & Hfk & (new & El & Hn) & Hres).
    { unfold keep0. destruct (o_store o); congruence. }
    { apply enter_lv; auto. }
    { eapply (safe_lsafe o (sh_iqs sh) (sh_obj sh) (p_vars (w_p w)) (sh_host sh)); eauto. apply VW. }
    { rewrite (vw_nv _ _ _ _ _ _ _ _ VW). etransitivity; [apply pow_le, maxnv_le; eapply elem_of_list_lookup_2; eauto|auto]. }
    rewrite E2 in Esol. injection Esol as <- <- <-. exists new. split; auto. split.
    - intros l v Hl. destruct (I10 l v Hl). split; auto using justified_asserted.
    - intros c Hc. eapply (valid_sound o (sh_iqs sh) (sh_obj sh) (p_vars (w_p w)) (sh_host sh)); eauto. apply VW.
  Qed.

  (** ** C05, C34 *)
  (** [en_snap e]: lower bound, upper bound and value of every variable of the
      thread just before the first literal of the undone level was delivered *)
  Theorem C05_undo_restores_partial o sh w t w' e : step_ok (V := V) o -> reach o sh w -> adm (EvUndo t) w -> step o (EvUndo t) w w' ->
    head (th_stk (thread_of w t)) = Some e ->
    map fst (snaps (w_p w') t) = map fst (en_snap e) /\ (o_store o = StoreNo -> snaps (w_p w') t = en_snap e) /\
    th_stk (thread_of w' t) = tail (th_stk (thread_of w t)) /\ accepted w' t.
  Proof.
    intros So Hr Ha Hs He. destruct (reach_inv o sh w So Hr) as (s0s & new0 & facts0 & ass & I). pose proof I as [R1 R2 R3 R4 R5 R6 R7 R7b R8 RW].
    destruct (step_big o _ w w' 0 Hs) as (fuel & Hf & E).
    destruct (step_undo o (sh_iqs sh) (sh_obj sh) (p_vars (w_p w)) s0s (sh_log sh ++ new0) facts0 fuel ass w t RW Ha) as (w1 & E1 & I1 & Hu).
    rewrite E in E1. injection E1 as <-. destruct (Hu e He) as [A B]. split; auto. split; auto.
    cbn [wstep] in E. apply bind_ok in E as (p & _ & E). injection E as <-. destruct Ha as [Ht _]. unfold accepted, thread_of. cbn [w_th].
    rewrite insert_length, !list_lookup_insert by auto. auto.
  Qed.

  (** whatever is stored, after backtracking the remaining constraints hold
      and the bounds are those of the level *)
  Theorem C34_stored_values_satisfy_partial o sh w t w' e : step_ok (V := V) o -> reach o sh w -> o_store o <> StoreNo -> adm (EvUndo t) w -> step o (EvUndo t) w w' ->
    head (th_stk (thread_of w t)) = Some e ->
    map fst (snaps (w_p w') t) = map fst (en_snap e) /\
    (forall q, in_force sh w' t q -> q_lhs q <> [] -> holdsV (api_value (w_p w') t) q) /\
    (sh_obj sh <> [] -> exists b, p_get_objective (w_p w') t = Ok (Some (linV (api_value (w_p w') t) (sh_obj sh), b))).
  Proof.
    intros So Hr Hst Ha Hs He. destruct (C05_undo_restores_partial o sh w t w' e So Hr Ha Hs He) as (A & _ & B & C). split; auto.
    assert (Hr' : reach o sh w') by (eapply reach_step; eauto; exact Logic.I). split.
    - intros q Hq Hne. eapply C01_values_satisfy_constraints_partial; eauto.
    - intros Hne. destruct (reach_inv o sh w' So Hr') as (s0s & new0 & facts0 & ass & I). destruct C as [Ht Hb].
      destruct (get_view o sh s0s new0 facts0 ass w' t I Ht) as (s0 & s & fs & E0 & VW).
      rewrite (view_objective o sh ass w' t s0 s fs) by (auto; apply I). destruct (decide (sh_obj sh = [])); [contradiction|]. eauto.
  Qed.

  (** ** C06, C14 *)
  (** Every callback returns: there is a bound on the iterations of its loops
      that is enough, and no undefined behaviour and no exception occurs. *)
  Theorem C06_callbacks_terminate_partial o sh w e : step_ok (V := V) o -> reach o sh w -> adm e w -> eq_safe e w ->
    exists n, forall fuel, n <= fuel -> exists w', wstep fuel o e w = Ok w'.
  Proof.
    intros So Hr Ha Hsf. destruct (reach_inv o sh w So Hr) as (s0s & new0 & facts0 & ass & I). exists (4 ^ maxnv s0s). intros fuel Hf.
    destruct (step_progress o sh s0s new0 facts0 ass w e fuel I So Ha Hsf Hf) as (w' & ass' & E & _). eauto.
  Qed.

  Theorem C14_no_undefined_behaviour_partial o sh w : step_ok (V := V) o -> reach o sh w ->
    (forall e fuel, adm e w -> eq_safe e w -> wstep fuel o e w <> UB /\ wstep fuel o e w <> Exn) /\
    (forall sh', shot_ok sh' -> exists p log ok, p_init (sh_host sh') o (sh_sort sh') (sh_threads sh') (sh_iqs sh') (sh_obj sh') (w_p w) (w_log w) = Ok (p, log, ok)) /\
    (forall t i, t < length (w_th w) -> p_has_value (w_p w) t i = true -> exists v, p_get_value (w_p w) t i = Ok v) /\
    (forall t, t < length (w_th w) -> exists v, p_get_objective (w_p w) t = Ok v).
  Proof.
    intros So Hr. destruct (reach_inv o sh w So Hr) as (s0s & new0 & facts0 & ass & I). split; [|split; [|split]].
    - intros e fuel Ha Hsf. destruct (step_progress o sh s0s new0 facts0 ass w e (Nat.max fuel (4 ^ maxnv s0s)) I So Ha Hsf ltac:(lia)) as (w' & ass' & E & _).
      assert (G : wstep fuel o e w = Ok w' \/ wstep fuel o e w = Fuel).
      { pose proof (wstep_le o e w fuel (Nat.max fuel (4 ^ maxnv s0s)) ltac:(lia)) as [Ef|Ef]; [auto|]. left. congruence. }
      destruct G as [-> | ->]; split; discriminate.
    - intros sh' Hsh'. destruct (p_init_ok o sh' (w_p w) (w_log w) Hsh' (ri_nd _ _ _ _ _ _ _ I)) as (p' & log' & ok & E & _). eauto.
    - intros t i Ht Hi. destruct (get_view o sh s0s new0 facts0 ass w t I Ht) as (s0 & s & fs & E0 & [(off & Es) P _ _ _ T Nv]).
      unfold p_get_value, at_ at 1. rewrite Es. cbn [mbind res_bind]. unfold get_value. unfold p_has_value in Hi. apply Nat.ltb_lt in Hi.
      rewrite at_vr; [cbn; eauto|]. rewrite Nv. pose proof (pd_nn _ _ _ _ _ _ _ P) as Hnn.
      pose proof (sh_len _ (j_shape _ (md_J _ _ _ _ (lv_M _ _ _ _ (pd_live _ _ _ _ _ _ _ P true))))). lia.
    - intros t Ht. destruct (get_view o sh s0s new0 facts0 ass w t I Ht) as (s0 & s & fs & E0 & [(off & Es) P _ _ _ T Nv]).
      unfold p_get_objective, at_ at 1. rewrite Es. cbn [mbind res_bind]. unfold get_objective. rewrite (tb_act _ _ _ _ _ T), (tb_var _ _ _ _ _ T).
      destruct (ob_active (s_obj s0)) eqn:Ea; [|eauto]. pose proof (prepared_rows0 _ _ _ _ _ _ P) as [R1 _]. rewrite at_vr; [cbn; eauto|]. rewrite Nv. apply R1. auto.
  Qed.
End props.
