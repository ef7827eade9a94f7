(** * C41: after an unbounded report bounded answers are excluded

    Once a model with unbounded objective was reported, a check on a total
    assignment whose objective is bounded adds a unit clause.  Its literal
    stands for a bound that is greater than the optimum of the assignment, so
    the assignment is never accepted again together with that literal. *)
From Verif Require Import Num Sums Tableau TableauProofs Bland Solver SolverBase SolverStep Simplex SimplexLoop Hist Updates Core CoreSolve Propagate
  OptSelect Weak WeakHist Optimize Spec Eps Prepare Propagator World ThreadOk WorldProofs Reach WeakReach Observe ObserveProofs Props_Solver Props_Decision Props_Global Progress Examples.

Section thread.
  Context {V : Type} `{VL : ValueLaws V}.
  Implicit Types s : solver V.

  Lemma vlt_succ (v : V) : vlt v (vadd v (vofq 1)).
  Proof. apply vlt_emb. left. rewrite vemb_add, vemb_ofq. cbn [fst]. qclra. Qed.

  Lemma t_check_discard s0 ks (o : options) act fuel h (a : asg) l1 l2 facts foff st off s log g d fr off' s' log' ok :
    step_ok (V := V) o -> o_global o = Some g -> vstep g = Some d -> W s0 ks s -> OW o act s0 log s -> act = true ->
    PT d st log fr s -> os_gen st <> 0 -> os_bounded st = false -> (a_dl a =? 0) && (off <? foff) = false ->
    t_check fuel h o a true l1 l2 facts foff st off s log = Ok (off', s', log', ok) -> ob_bounded (s_obj s') = true ->
    log' = log ++ [[l2]] /\ exists b, b ∈ s_bounds s' /\ b_lit b = l2 /\ b_rel b = BGe /\ b_var b = ob_bound_var (s_obj s') /\ b_val b = vadd (val s' (ob_var (s_obj s'))) (vofq 1).
  Proof.
    intros So Eg Ed HW HO Hact [P1 P2] Hg Hb Hc E Hbd. unfold t_check in E. rewrite Hc in E. cbn [mbind res_bind] in E.
    apply bind_ok in E as ([[s2 log2] ok2] & E2 & E). destruct (integrate_p h o l1 st s log g d s2 log2 ok2 Eg Ed E2) as (A & B & C).
    assert (D2 : log2 = log /\ ok2 = true /\ ob_discard (s_obj s2) = true).
    { destruct (Nat.eqb_spec (ob_gen (s_obj s)) (os_gen st)) as [Eq|Eq].
      - destruct C as (_ & -> & -> & ->). specialize (P2 Eq Hg). rewrite Hb in P2. auto.
      - rewrite Hb in C. destruct C as (_ & -> & -> & ->). auto. }
    destruct D2 as (-> & -> & Hd). cbn [negb] in E.
    pose proof (integrate_w s0 ks o act h l1 st s log So HW HO ltac:(auto)) as H2. rewrite E2 in H2. cbn [okub fst snd] in H2. destruct H2 as [HW2 HO2].
    apply bind_ok in E as (s3 & E3 & E). apply bind_ok in E as (s4 & E4 & E). apply bind_ok in E as ([[s5 log5] ok5] & E5 & E). injection E as <- <- <- <-.
    assert (Hz : ob_active (s_obj s2) = true -> ob_var (s_obj s2) < nv s2) by (rewrite (ow_act _ _ _ _ _ HO2); apply HO2).
    destruct (optimize_w s0 ks o fuel s2 HW2 Hz s3 E3) as [HW3 (Q1 & Q2 & Q3 & Q4 & Q5 & Q6)].
    assert (H4 : W s0 ks s4 /\ pstat s4 = pstat s3).
    { destruct (o_store o); [injection E4 as <-; auto| |]; destruct (W_store s0 ks s3 HW3) as (s4' & E4' & W4 & P4); rewrite E4' in E4; injection E4 as <-; auto. }
    destruct H4 as [HW4 P4]. assert (Eo : s_obj s4 = s_obj s3) by (unfold pstat in P4; congruence).
    assert (Ha4 : ob_active (s_obj s4) = true) by (rewrite Eo, Q3, (ow_act _ _ _ _ _ HO2); exact Hact).
    unfold discard_bounded in E5. rewrite Eg, Ha4, Eo, Q6, Hd in E5. cbn [negb orb] in E5. rewrite !orb_false_r in E5. destruct (ob_bounded (s_obj s3)) eqn:Eb3; cbn [negb] in E5.
    2:{ injection E5 as <- _ _. congruence. }
    rewrite at_vr in E5.
    2:{ rewrite (wk_nv _ _ _ HW4), <- (wk_nv _ _ _ HW2), Q1. apply Hz. rewrite (ow_act _ _ _ _ _ HO2). exact Hact. }
    cbn [mbind res_bind] in E5. unfold assert_bound in E5. injection E5 as <- <- _. split; [reflexivity|]. eexists. split; [cbn; apply elem_of_app; right; left|]. cbn. rewrite Eo. auto.
  Qed.
  Lemma t_check_bounds s0 ks (o : options) act fuel h (a : asg) total l1 l2 facts foff st off s log g d fr off' s' log' ok : step_ok (V := V) o -> o_global o = Some g -> vstep g = Some d ->
    W s0 ks s -> OW o act s0 log s -> (os_gen st <> 0 -> act = true) -> topl ks <= a_dl a -> 8 ^ nv s <= fuel ->
    t_check fuel h o a total l1 l2 facts foff st off s log = Ok (off', s', log', ok) -> PT d st log fr s ->
    s_bounds s ⊆ s_bounds s' /\ ob_bound_var (s_obj s') = ob_bound_var (s_obj s).
  Proof.
    intros So Eg Ed HW HO Hst Ht Hf E HP.
    refine (proj1 (proj2 (t_check_p s0 ks o act fuel h a total l1 l2 facts foff st off s log g d (l1 :: fr) off' s' log' ok So Eg Ed HW HO Hst Ht Hf ltac:(left) E _))).
    eapply PT_more; [apply omore_refl|reflexivity| |exact HP]. intros l Hl. right. exact Hl.
  Qed.
End thread.

Section session.
  Context {V : Type} `{VL : ValueLaws V} {Sym : Type} `{EqDecision Sym}.
  Implicit Types w : world V Sym.
  Implicit Types sh : shot V Sym.

  (** [w'] is reached from [w] by callbacks of the same shot *)
  Inductive later (o : options) : world V Sym -> world V Sym -> Prop :=
    | later_refl w : later o w w
    | later_step w1 w2 e w3 : later o w1 w2 -> adm e w2 -> eq_safe e w2 -> step o e w2 w3 -> later o w1 w3.

  (** the constraints and asserted bounds of a thread are never dropped *)
  Definition keeps w w' (t : nat) : Prop := forall off s, p_slvs (w_p w) !! t = Some (off, s) -> exists off' s', p_slvs (w_p w') !! t = Some (off', s') /\ s_bounds s ⊆ s_bounds s'.
  Lemma keeps_refl w t : keeps w w t.
  Proof. intros off s E. exists off, s. auto. Qed.
  Lemma keeps_put w t x (p : propagator V Sym) log th rep t' : p_slvs p = p_slvs (w_p w) ->
    (forall off s, p_slvs (w_p w) !! t = Some (off, s) -> s_bounds s ⊆ s_bounds x.2) -> keeps w (World (put_thread t x p) log th rep) t'.
  Proof.
    intros E Hx off s Es. cbn [w_p put_thread p_slvs]. rewrite E. destruct (Nat.eq_dec t t') as [<-|Hne].
    - exists x.1, x.2. rewrite list_lookup_insert by (eapply lookup_lt_Some; exact Es). split; [destruct x; reflexivity|eapply Hx; exact Es].
    - exists off, s. rewrite list_lookup_insert_ne by auto. auto.
  Qed.
  Lemma step_keeps o sh evs w g d e w' t' : step_ok (V := V) o -> o_global o = Some g -> vstep g = Some d -> history_any o sh evs w -> adm e w -> step o e w w' -> keeps w w' t'.
  Proof.
    intros So Eg Ed Hh Ha (fuel0 & E0). pose proof (history_progress o sh evs w g d So Eg Ed Hh) as HP.
    pose proof (history_any_reach o sh evs w Hh) as Hr. destruct (any_inv o sh w So Hr) as (act & s0s & I). set (fuel := Nat.max fuel0 (8 ^ maxnv s0s)).
    pose proof (wstep_mono o e w fuel0 fuel ltac:(subst fuel; lia) w' E0) as E. clear E0.
    pose proof I as [A A1 A2 A3 B C D G G2].
    assert (Hth : forall t, t < length (w_th w) -> exists off s s0, p_slvs (w_p w) !! t = Some (off, s) /\ s0s !! t = Some s0 /\
      W s0 (map en_level (th_stk (thread_of w t))) s /\ OW o act s0 (w_log w) s /\ 8 ^ nv s <= fuel).
    { intros t Ht. destruct (lookup_lt_is_Some_2 (p_slvs (w_p w)) t) as [[off s] Es]; [lia|]. destruct (lookup_lt_is_Some_2 s0s t) as [s0 Es0]; [lia|].
      exists off, s, s0. split; auto. split; auto. destruct (D t (off, s) s0 Es Es0) as [D1 D2]. split; auto. split; auto.
      transitivity (8 ^ maxnv s0s); [|subst fuel; lia]. apply pow8_le. change s with ((off, s).2). rewrite (wk_nv _ _ _ D1). apply maxnv_le. eapply elem_of_list_lookup_2; eauto. }
    assert (Hps : forall s1 s2 : solver V, pstat s2 = pstat s1 -> s_bounds s1 ⊆ s_bounds s2).
    { intros s1 s2 P. unfold pstat in P. replace (s_bounds s2) with (s_bounds s1) by congruence. auto. }
    destruct e as [t h a lits|t h a total l1 l2|t|t]; cbn [wstep adm] in *.
    - destruct Ha as (Ht & Hb & Hdl & _). destruct (Hth t Ht) as (off & s & s0 & Es & Es0 & HW & HO & Hfs). rewrite toplevel_topl in Hdl.
      apply bind_ok in E as ([[p log] ok] & E1 & E2). injection E2 as <-. unfold p_propagate in E1. set (p1 := if (a_dl a =? 0) && (t =? 0) then _ else _) in E1.
      assert (F2 : p_slvs p1 = p_slvs (w_p w)) by (unfold p1; destruct ((a_dl a =? 0) && (t =? 0)); auto).
      unfold at_ at 1 in E1. rewrite F2, Es in E1. cbn [deref mbind res_bind] in E1. apply bind_ok in E1 as ([[s1 log1] ok1] & E1 & E2). injection E2 as <- <- <-.
      pose proof (solve_w s0 _ h o a lits fuel s (w_log w) HW Hdl Hfs) as Hs. rewrite E1 in Hs. cbn [okub fst snd] in Hs. destruct Hs as [_ P1].
      apply keeps_put; auto. intros off1 s2 Es2. rewrite Es in Es2. injection Es2 as <- <-. cbn [snd]. apply Hps; exact P1.
    - destruct Ha as (Ht & Hb & Hdl & _). destruct (Hth t Ht) as (off & s & s0 & Es & Es0 & HW & HO & Hfs). rewrite toplevel_topl in Hdl.
      apply bind_ok in E as ([offx sx] & _ & E). apply bind_ok in E as ([[p log] ok] & E1 & E2). injection E2 as <-. unfold p_check in E1. unfold at_ at 1 in E1. rewrite Es in E1. cbn [deref mbind res_bind] in E1.
      apply bind_ok in E1 as ([[[off1 s1] log1] ok1] & E1 & E2). injection E2 as <- <- <-.
      apply keeps_put; auto. intros off2 s2 Es2. rewrite Es in Es2. injection Es2 as <- <-. cbn [snd].
      exact (proj1 (t_check_bounds s0 _ o act fuel h a total l1 l2 _ _ (p_state (w_p w)) off s (w_log w) g d (fresh t evs) off1 s1 log1 ok1 So Eg Ed HW HO G Hdl Hfs E1 (HP t (off, s) Es))).
    - destruct Ha as (Ht & Hdl). destruct (Hth t Ht) as (off & s & s0 & Es & Es0 & HW & HO & Hfs). rewrite toplevel_topl in Hdl.
      apply bind_ok in E as (p & E1 & E2). injection E2 as <-. unfold p_undo in E1. unfold at_ at 1 in E1. rewrite Es in E1. cbn [deref mbind res_bind] in E1.
      destruct (th_stk (thread_of w t)) as [|en r] eqn:Ek; [cbn in Hdl; lia|].
      cbn [map topl] in Hdl, HW. destruct (undo_w s0 (en_level en) (map en_level r) s HW Hdl) as (s1 & Eu & HW1 & P1). rewrite Eu in E1. cbn [mbind res_bind] in E1. injection E1 as <-.
      apply keeps_put; auto. intros off2 s2 Es2. rewrite Es in Es2. injection Es2 as <- <-. cbn [snd]. apply Hps; exact P1.
    - apply bind_ok in E as (v & Ev & E). apply bind_ok in E as (p & E1 & E2). injection E2 as <-. unfold p_on_model in E1. rewrite Eg in E1.
      apply bind_ok in E1 as ([off s] & Es & E1). apply bind_ok in E1 as (v1 & Ev1 & E1).
      intros off2 s2 Es2. exists off2, s2. cbn [w_p]. split; [destruct v1; injection E1 as <-; exact Es2|auto].
  Qed.

  (** what stays the same from [w] to a later [w'] *)
  Lemma later_inv o sh w w' s0s new0 facts0 ass t g d evs : step_ok (V := V) o -> o_global o = Some g -> vstep g = Some d -> history o sh evs w -> RInv o sh s0s new0 facts0 ass w -> later o w w' ->
    (exists evs', history o sh evs' w') /\ (exists ass', RInv o sh s0s new0 facts0 ass' w') /\ keeps w w' t.
  Proof.
    intros So Eg Ed Hh I Hl. induction Hl as [w|w1 w2 e w3 Hl IH Ha Hs E]; [split; [eauto|]; split; [eauto|apply keeps_refl]|].
    destruct (IH Hh I) as ((evs' & Hh2) & (ass' & I2) & K). split; [eexists; eapply hist_step; eauto|]. split.
    - destruct (step_big o e w2 w3 (4 ^ maxnv s0s) E) as (fuel & Hf & E'). destruct (step_progress o sh s0s new0 facts0 ass' w2 e fuel I2 So Ha Hs Hf) as (w4 & ass4 & E4 & I4 & _).
      rewrite E' in E4. injection E4 as <-. eauto.
    - intros off s Es. destruct (K off s Es) as (off1 & s1 & Es1 & Hb1). destruct (step_keeps o sh evs' w2 g d e w3 t So Eg Ed (history_history_any _ _ _ _ Hh2) Ha E off1 s1 Es1) as (off2 & s2 & Es2 & Hb2).
      exists off2, s2. split; [exact Es2|]. intros b Hb. apply Hb2, Hb1, Hb.
  Qed.
  Lemma later_reach o sh w w' : reach o sh w -> later o w w' -> reach o sh w'.
  Proof. intros Hr Hl. induction Hl as [w|w1 w2 e w3 Hl IH Ha Hs E]; [exact Hr|]. exact (reach_step o sh w2 e w3 (IH Hr) Ha Hs E). Qed.

  (** A check on a total assignment that hands over no facts, after an
      unbounded report: if the objective [v] of the assignment is bounded then
      the unit clause [l2] is added, and whenever the thread accepts an
      assignment with [l2] its objective is greater than [v]; the assignment
      of the check is never accepted again. *)
  Theorem C41_bounded_excluded_partial o sh w w' t h a l1 l2 v : step_ok (V := V) o -> reach o sh w -> o_global o <> None -> sh_obj sh <> [] -> (exists u, (u, false) ∈ w_rep w) ->
    adm (EvCheck t h a true l1 l2) w -> step o (EvCheck t h a true l1 l2) w w' -> th_stk (thread_of w' t) = th_stk (thread_of w t) ->
    p_get_objective (w_p w') t = Ok (Some (v, true)) ->
    w_log w' = w_log w ++ [[l2]] /\
    forall w'', later o w' w'' -> accepted w'' t -> l2 ∈ assigned w'' t ->
      vle (vadd v (vofq 1)) (linV (api_value (w_p w'') t) (sh_obj sh)) /\ ~ assigned w' t ⊆ assigned w'' t.
  Proof.
    intros So Hr Hg Hob (u & Hu) Ha Hs Hk Hv. destruct (o_global o) as [g|] eqn:Eg; [|congruence]. destruct (vstep (V := V) g) as [d|] eqn:Ed; [|exfalso; eapply So; eauto].
    destruct (reach_history o sh w Hr) as (evs & Hh). pose proof (history_history_any _ _ _ _ Hh) as Hha. pose proof (history_any_reach _ _ _ _ Hha) as Hra.
    destruct (good_unbounded _ _ u (good_any o sh w Hra ltac:(congruence)) Hu) as [G1 G2].
    assert (Hr' : reach o sh w') by (eapply reach_step; eauto; exact Logic.I).
    destruct (check_big o sh w t h a true l1 l2 w' So Hr Ha Hs) as [Hopt Hacc]. destruct (Hacc Hk) as [Hblk _]. specialize (Hopt eq_refl (or_intror (conj Hk G2)) Hblk).
    destruct (reach_history o sh w' Hr') as (evs' & Hh').
    destruct (reach_inv o sh w' So Hr') as (s0s & new0 & facts0 & ass & I).
    assert (Ht : t < length (w_th w')).
    { destruct Hs as (f & E). cbn [wstep] in E. apply bind_ok in E as ([off s] & _ & E). apply bind_ok in E as ([[p log] ok] & _ & E). injection E as <-. cbn. rewrite insert_length. apply Ha. }
    destruct (get_view o sh s0s new0 facts0 ass w' t I Ht) as (s0 & s' & fs & E0 & VW). pose proof VW as [(off' & Es') P Ea HL _ T Nv]. specialize (HL Hblk).
    destruct (pd_obj1 _ _ _ _ _ _ _ P Hob) as (Hact0 & Hrow & Hbr). destruct Hbr as ((_ & _ & _ & Hval) & _); [congruence|].
    assert (Hv' : v = val s' (ob_var (s_obj s0)) /\ ob_bounded (s_obj s') = true).
    { unfold p_get_objective, at_ at 1 in Hv. rewrite Es' in Hv. cbn [mbind res_bind] in Hv. unfold get_objective in Hv. rewrite (tb_act _ _ _ _ _ T), Hact0, (tb_var _ _ _ _ _ T) in Hv.
      rewrite at_vr in Hv by (rewrite Nv; exact (proj1 Hrow)). cbn [mbind res_bind] in Hv. injection Hv as <- Hb. split; [reflexivity|exact Hb]. }
    destruct Hv' as [-> Hbd]. specialize (Hopt off' s' Es'). unfold optres in Hopt. rewrite (tb_act _ _ _ _ _ T), Hact0, (tb_var _ _ _ _ _ T), Hbd in Hopt. specialize (Hopt eq_refl).
    (* the check itself *)
    assert (HD : w_log w' = w_log w ++ [[l2]] /\ exists b, b ∈ s_bounds s' /\ b_lit b = l2 /\ b_rel b = BGe /\ b_var b = ob_bound_var (s_obj s') /\ b_val b = vadd (val s' (ob_var (s_obj s'))) (vofq 1)).
    { destruct (any_inv o sh w So Hra) as (act & s1s & IA). destruct Hs as (fuel & E). pose proof (history_progress o sh evs w g d So Eg Ed Hha) as HP.
      pose proof IA as [A A1 A2 A3 B C D G G3]. destruct Ha as (Ht0 & Hb & Hdl & _).
      destruct (lookup_lt_is_Some_2 (p_slvs (w_p w)) t) as [[off s] Es]; [lia|]. destruct (lookup_lt_is_Some_2 s1s t) as [s1 Es1]; [lia|]. destruct (D t (off, s) s1 Es Es1) as [HW HO]. cbn [snd] in HW, HO.
      cbn [wstep] in E. unfold at_ at 1 in E. rewrite Es in E. cbn [mbind res_bind] in E. set (k := if (a_dl a =? 0) && (off <? p_foff (w_p w)) then deliver 0 _ _ (th_stk (thread_of w t)) else th_stk (thread_of w t)) in E. apply bind_ok in E as ([[p log] ok] & E1 & E2).
      assert (Ek : k = th_stk (thread_of w t)).
      { rewrite <- Hk. injection E2 as <-. unfold thread_of. cbn [w_th]. rewrite list_lookup_insert by exact Ht0. reflexivity. }
      assert (Hstk : (a_dl a =? 0) && (off <? p_foff (w_p w)) = false).
      { destruct ((a_dl a =? 0) && (off <? p_foff (w_p w))) eqn:Ec; [|reflexivity]. exfalso. subst k. rewrite ?Ec in Ek. apply andb_true_iff in Ec as [_ Ec2]. apply Nat.ltb_lt in Ec2.
        assert (Hlen : 0 < length (take (p_foff (w_p w)) (p_facts (w_p w)))).
        { destruct (reach_inv o sh w So Hr) as (x1 & x2 & x3 & x4 & IR). destruct (wi_facts _ _ _ _ _ _ _ _ _ (ri_w _ _ _ _ _ _ _ IR)) as (nf & Ef).
          rewrite take_length, Ef, app_length. pose proof (wi_foff _ _ _ _ _ _ _ _ _ (ri_w _ _ _ _ _ _ _ IR)). lia. }
        unfold deliver in Ek. destruct (th_stk (thread_of w t)) as [|e r]; [discriminate|]. destruct (Nat.ltb_spec (en_level e) 0); [lia|].
        apply (f_equal head) in Ek. cbn in Ek. injection Ek as Ek. destruct e as [L0 l0 sn0]. cbn in Ek. injection Ek as Ek. apply (f_equal length) in Ek. rewrite app_length in Ek. lia. }
      unfold p_check in E1. unfold at_ at 1 in E1. rewrite Es in E1. cbn [mbind res_bind] in E1. apply bind_ok in E1 as ([[[off1 s2] log1] ok1] & E1 & E3). injection E3 as <- <- <-. injection E2 as <-.
      cbn [w_p put_thread p_slvs] in Es'. rewrite list_lookup_insert in Es' by lia. injection Es' as <- <-. cbn [w_log].
      refine (t_check_discard s1 _ o act fuel h a l1 l2 _ _ (p_state (w_p w)) off s (w_log w) g d (fresh t evs) off1 s2 log1 ok1 So Eg Ed HW HO (G G1) (HP t (off, s) Es) G1 G2 Hstk E1 Hbd). }
    destruct HD as (El & b & B1 & B2 & B3 & B4 & B5). split; [exact El|]. intros w'' Hl Hacc'' Hin.
    destruct (later_inv o sh w' w'' s0s new0 facts0 ass t g d evs' So Eg Ed Hh' I Hl) as (_ & (ass'' & I'') & K).
    destruct (K off' s' Es') as (off2 & s2 & Es2 & Hsub). destruct Hacc'' as [Ht'' Hb''].
    destruct (get_view o sh s0s new0 facts0 ass'' w'' t I'' Ht'') as (s0' & s2' & fs2 & E0' & VW2). rewrite E0 in E0'. injection E0' as <-.
    pose proof VW2 as [(offx & Ex) P2 Ea2 HL2 _ T2 Nv2]. specialize (HL2 Hb''). rewrite Es2 in Ex. injection Ex as <- <-.
    assert (Hrows : rows s0 (val s2)) by (apply (md_R _ _ _ _ (lv_M _ _ _ _ HL2)), (j_rows _ (md_J _ _ _ _ (lv_M _ _ _ _ HL2)))).
    assert (Hobj : val s2 (ob_bound_var (s_obj s0)) = val s2 (ob_var (s_obj s0)) /\ val s2 (ob_var (s_obj s0)) = linV (api_value (w_p w'') t) (sh_obj sh)).
    { assert (Ei : val s2 (ob_var (s_obj s0)) = linV (api_value (w_p w'') t) (sh_obj sh)).
      { destruct (pd_obj1 _ _ _ _ _ _ _ P2 Hob) as (_ & (_ & _ & _ & R4) & _). rewrite R4 by exact Hrows. apply linV_ext. intros c x _. symmetry. exact (api_rd o sh ass'' w'' t s0 s2 fs2 x (ri_nd _ _ _ _ _ _ _ I'') VW2). }
      split; [|exact Ei]. destruct (pd_obj1 _ _ _ _ _ _ _ P2 Hob) as (_ & (_ & _ & _ & R4) & Rb). destruct Rb as ((_ & _ & _ & Rv) & _); [congruence|]. rewrite Rv, R4 by exact Hrows. reflexivity. }
    destruct Hobj as [Ho1 Ho2].
    assert (Hbs : bsat (val s2) b) by (eapply ObserveProofs.live_bsat; [exact HL2|apply Hsub; exact B1|rewrite Ea2, B2; exact Hin]).
    unfold bsat in Hbs. rewrite B3, B4, B5, (tb_bvar _ _ _ _ _ T), (tb_var _ _ _ _ _ T), Ho1 in Hbs. split; [rewrite <- Ho2; exact Hbs|].
    intros Hs2. assert (Hi : inall s' (val s2)).
    { eapply inall_of; [exact HL|exact Hrows|]. intros c Hc Hlc. eapply ObserveProofs.live_bsat; [exact HL2|apply Hsub; exact Hc|]. rewrite Ea2. apply Hs2. rewrite <- Ea. exact Hlc. }
    apply Hopt in Hi. apply (vlt_irrefl (val s' (ob_var (s_obj s0)))). eapply vlt_le_trans; [apply vlt_succ|]. eapply vle_trans; [exact Hbs|exact Hi].
  Qed.
End session.

(** ** The hypotheses are met
    maximize x.  With 51 (x >= 0) alone the objective is unbounded; then 21
    (x <= 5) is checked with the optimum 5, and with 931 the literal 31
    (x <= 9) is accepted. *)
Definition un_iqs : list (ineq nat) := [Ineq [(qz 1, 0)] (qz 0) Rge 51; Ineq [(qz 1, 0)] (qz 5) Rle 21; Ineq [(qz 1, 0)] (qz 9) Rle 31].
Definition un_opts : options := Options SelectNone StoreNo (Some (mkRatQ 1%Qc 0%Qc)) PropFull true.
Definition un_evs : list event := [ev_prop 0 1 [51%Z]; ev_check 0 1 true 901 911; EvModel 0; EvUndo 0; ev_prop 0 1 [21%Z]].
Notation un_world := (any_world un_opts 1 un_iqs [(qz 1, 0)] un_evs).
Definition un_later : list event := [EvUndo 0; ev_prop 0 1 [31%Z; 931%Z]].
Definition un_rep (r : list (Qc * bool)) : bool := existsb (fun p => negb p.2) r.
Definition un_obj (r : res (option (Qc * bool))) : bool := match r with Ok (Some (v, true)) => Qc_eq_bool v (qz 5) | _ => false end.
Definition un_test (x : option (world Qc nat)) : bool :=
  match x with
  | Some w =>
      match wstep 50 un_opts (ev_check 0 1 true 921 931) w with
      | Ok w' => admb (ev_check 0 1 true 921 931) w && un_rep (w_rep w) && un_obj (p_get_objective (w_p w') 0) &&
          match runs 50 un_opts un_later w' with
          | Some w'' => bool_decide (0 < length (w_th w'')) && negb (th_blk (thread_of w'' 0)) && bool_decide (931%Z ∈ assigned w'' 0)
          | None => false
          end
      | _ => false
      end
  | None => false
  end.
Lemma un_ok : un_test un_world = true.
Proof. vm_compute. reflexivity. Qed.
Lemma runs_later fuel o es : forall w0 w w' : world Qc nat, later o w0 w -> runs fuel o es w = Some w' -> later o w0 w'.
Proof.
  induction es as [|e es IH]; intros w0 w w' Hl; cbn [runs]; [intros [= <-]; auto|]. destruct (admb e w && safeb e w) eqn:Ea; [|discriminate]. apply andb_true_iff in Ea as [A B].
  destruct (wstep fuel o e w) as [w1| | |] eqn:E1; try discriminate. intros E. apply (IH w0 w1 w'); [|exact E]. apply (later_step o w0 w e w1 Hl); [apply admb_ok, A|apply safeb_ok, B|exists fuel; exact E1].
Qed.
Lemma check_stk fuel o t h a total l1 l2 (w w' : world Qc nat) : a_dl a <> 0 -> t < length (w_th w) -> wstep fuel o (EvCheck t h a total l1 l2) w = Ok w' -> th_stk (thread_of w' t) = th_stk (thread_of w t).
Proof.
  intros Ha Ht E. cbn [wstep] in E. apply bind_ok in E as ([off s] & _ & E). apply bind_ok in E as ([[p log] ok] & _ & E). injection E as <-. unfold thread_of at 1. cbn [w_th].
  rewrite list_lookup_insert by exact Ht. cbn. apply Nat.eqb_neq in Ha. rewrite Ha. reflexivity.
Qed.
Theorem C41_bounded_excluded_used : exists w w' w'', reach un_opts (any_shot 1 un_iqs [(qz 1, 0)]) w /\ (exists u, (u, false) ∈ w_rep w) /\
  adm (ev_check 0 1 true 921 931) w /\ step un_opts (ev_check 0 1 true 921 931) w w' /\ th_stk (thread_of w' 0) = th_stk (thread_of w 0) /\
  p_get_objective (w_p w') 0 = Ok (Some (qz 5, true)) /\ later un_opts w' w'' /\ accepted w'' 0 /\ 931%Z ∈ assigned w'' 0.
Proof.
  pose proof un_ok as T. revert T. generalize (eq_refl un_world). generalize un_world at 1 3 as x. intros x Ex. unfold un_test. destruct x as [w|]; [|intros T; discriminate T].
  destruct (wstep _ _ _ _) as [w'| | |] eqn:E; try (intros T; discriminate T). rewrite !andb_true_iff. intros [[[T1 T2] T3] T4]. destruct (runs _ _ _ _) as [w''|] eqn:E2; [|discriminate T4].
  rewrite !andb_true_iff, negb_true_iff in T4. destruct T4 as [[T4 T5] T6]. apply bool_decide_eq_true in T4, T6. apply admb_ok in T1.
  exists w, w', w''. split; [exact (any_reach un_opts 1 un_iqs [(qz 1, 0)] _ w eq_refl (eq_sym Ex))|]. split.
  { unfold un_rep in T2. apply existsb_exists in T2 as ([u b] & Hu & Hb). destruct b; [discriminate Hb|]. exists u. apply elem_of_list_In. exact Hu. }
  split; [exact T1|]. split; [exists 50; exact E|]. split; [refine (check_stk 50 un_opts 0 _ _ _ _ _ w w' _ _ E); [discriminate|apply T1]|].
  split. { unfold un_obj in T3. destruct (p_get_objective (w_p w') 0) as [[[v [|]]|]| | |]; try discriminate T3. apply Qc_eq_bool_correct in T3 as ->. reflexivity. }
  split; [exact (runs_later 50 un_opts un_later w' w' w'' (later_refl _ _) E2)|]. split; [split; [exact T4|exact T5]|exact T6].
Qed.
