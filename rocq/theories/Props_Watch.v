(** * C50: the propagator watches exactly the literals that concern it *)

From Verif Require Import Num Sums Tableau Solver Spec Eps Propagator World WorldProofs Reach WeakHist WeakReach Observe Watch.
From Verif Require Import SolverBase Simplex Hist Updates Core CoreSolve Weak Prepare.

Section watch.
  Context {V : Type} `{VL : ValueLaws V} {Sym : Type} `{EqDecision Sym}.
  Implicit Types s : solver V.
  Implicit Types w : world V Sym.
  Implicit Types sh : shot V Sym.

  (** Sessions (any admissible history, the equality bug included) together
      with the watch lists of the threads.  Watches of earlier shots are not
      counted. *)
  Inductive watching (o : options) : shot V Sym -> world V Sym -> list (list Z) -> Prop :=
    | wt_first sh p log : shot_ok sh ->
        p_init (sh_host sh) o (sh_sort sh) (sh_threads sh) (sh_iqs sh) (sh_obj sh) new_propagator [] = Ok (p, log, true) ->
        watching o sh (start p log) (init_watches (sh_threads sh) (sh_iqs sh))
    | wt_next sh0 w0 ws0 sh p log : watching o sh0 w0 ws0 -> shot_ok sh ->
        p_init (sh_host sh) o (sh_sort sh) (sh_threads sh) (sh_iqs sh) (sh_obj sh) (w_p w0) (w_log w0) = Ok (p, log, true) ->
        watching o sh (start p log) (init_watches (sh_threads sh) (sh_iqs sh))
    | wt_step sh w ws e w' ws' : watching o sh w ws -> adm e w -> (exists fuel, wstep_wt fuel o e w ws = Ok (w', ws')) -> watching o sh w' ws'.

  (** ** The model with watches is the model without *)
  Definition forget {A B} (r : res (A * B)) : res A := '(a, _) ← r; Ok a.
  Lemma integrate_forget h (o : options) l st s log : integrate_objective h o l st s log = forget (integrate_objective_wt h o l st s log).
  Proof.
    unfold integrate_objective, integrate_objective_wt. destruct (o_global o) as [g|]; [|reflexivity].
    destruct (os_value _ _) as [gen [[x [|]]|]]; cbv zeta; try reflexivity. destruct (vstep g); reflexivity.
  Qed.
  Lemma discard_forget h (o : options) l s log : discard_bounded h o l s log = forget (discard_bounded_wt h o l s log).
  Proof. unfold discard_bounded, discard_bounded_wt. destruct (_ || _); [reflexivity|]. destruct (at_ _ _); reflexivity. Qed.
  Lemma t_check_forget fuel h (o : options) a total l1 l2 facts foff st off s log :
    t_check fuel h o a total l1 l2 facts foff st off s log = forget (t_check_wt fuel h o a total l1 l2 facts foff st off s log).
  Proof.
    unfold t_check, t_check_wt. match goal with |- (?m ≫= _) = _ => destruct m as [[[[off1 s1] log1] ok1]| | |]; try reflexivity end.
    cbn [mbind res_bind]. destruct ok1; cbn [negb]; [|reflexivity]. rewrite integrate_forget.
    destruct (integrate_objective_wt h o l1 st s1 log1) as [[[[s2 log2] ok2] ws2]| | |]; try reflexivity. cbn [mbind res_bind forget].
    destruct ok2; cbn [negb]; [|reflexivity]. destruct total; [|reflexivity]. destruct (optimize fuel o s2) as [s3| | |]; try reflexivity. cbn [mbind res_bind].
    match goal with |- (?m ≫= _) = _ => destruct m as [s4| | |]; try reflexivity end. cbn [mbind res_bind]. rewrite discard_forget.
    destruct (discard_bounded_wt h o l2 s4 log2) as [[[[s5 log5] ok5] ws5]| | |]; reflexivity.
  Qed.
  Lemma wstep_forget fuel o e w ws : wstep fuel o e w = forget (wstep_wt fuel o e w ws).
  Proof.
    destruct e as [t h a lits|t h a total l1 l2|t|t]; cbn [wstep_wt]; try (destruct (wstep _ _ _ _); reflexivity).
    cbn [wstep]. unfold p_check. destruct (at_ (p_slvs (w_p w)) t) as [[off s]| | |]; try reflexivity. cbn [mbind res_bind].
    rewrite t_check_forget. destruct (t_check_wt _ _ _ _ _ _ _ _ _ _ _ _ _) as [[[[[off1 s1] log1] ok1] new]| | |]; reflexivity.
  Qed.

  (** ** New bounds are watched *)
  Lemma integrate_new h (o : options) l st s log s2 log2 ok2 ws2 : integrate_objective_wt h o l st s log = Ok (s2, log2, ok2, ws2) ->
    exists ex, s_bounds s2 = s_bounds s ++ ex /\ map b_lit ex = ws2 /\ forall x, x ∈ ws2 -> [x] ∈ log2.
  Proof.
    unfold integrate_objective_wt. destruct (o_global o) as [g|].
    - destruct (os_value _ _) as [gen [[x [|]]|]]; cbv zeta.
      + destruct (vstep g); [|discriminate]. intros [= <- <- <- <-]. eexists. split; [reflexivity|]. split; [reflexivity|].
        intros x0 Hx. apply elem_of_list_singleton in Hx as ->. apply elem_of_app. right. left.
      + intros [= <- <- <- <-]. exists []. rewrite app_nil_r. split; [reflexivity|]. split; [reflexivity|]. intros ? Hx; inversion Hx.
      + intros [= <- <- <- <-]. exists []. rewrite app_nil_r. split; [reflexivity|]. split; [reflexivity|]. intros ? Hx; inversion Hx.
    - intros [= <- <- <- <-]. exists []. rewrite app_nil_r. split; [reflexivity|]. split; [reflexivity|]. intros ? Hx; inversion Hx.
  Qed.
  Lemma discard_new h (o : options) l s log s2 log2 ok2 ws2 : discard_bounded_wt h o l s log = Ok (s2, log2, ok2, ws2) ->
    exists ex, s_bounds s2 = s_bounds s ++ ex /\ map b_lit ex = ws2 /\ forall x, x ∈ ws2 -> [x] ∈ log2.
  Proof.
    unfold discard_bounded_wt. destruct (_ || _).
    - intros [= <- <- <- <-]. exists []. rewrite app_nil_r. split; [reflexivity|]. split; [reflexivity|]. intros ? Hx; inversion Hx.
    - intros E. apply bind_ok in E as (v & _ & E). injection E as <- <- <- <-. eexists. split; [reflexivity|]. split; [reflexivity|].
      intros x0 Hx. apply elem_of_list_singleton in Hx as ->. apply elem_of_app. right. left.
  Qed.

  Lemma solve_any s0 ks h (o : options) a lits fuel s log r : W s0 ks s -> topl ks <= a_dl a -> solve fuel h o a lits s log = Ok r ->
    W s0 (kenter (a_dl a) ks) r.1.1 /\ pstat r.1.1 = pstat s.
  Proof.
    intros HW Ht E. pose proof (solve_w s0 ks h o a lits (Nat.max fuel (8 ^ nv s)) s log HW Ht ltac:(lia)) as Hs.
    destruct (solve_mono h o a lits fuel (Nat.max fuel (8 ^ nv s)) s log ltac:(lia)) as [Hf|Hf]; [congruence|]. rewrite <- Hf, E in Hs. exact Hs.
  Qed.
  Lemma pstat_bounds s s' : pstat s' = pstat s -> s_bounds s' = s_bounds s.
  Proof. unfold pstat. congruence. Qed.

  Lemma t_check_new s0 ks (o : options) act fuel h (a : asg) total l1 l2 facts foff st off s log off' s' log' ok ws : step_ok (V := V) o ->
    W s0 ks s -> OW o act s0 log s -> (os_gen st <> 0 -> act = true) -> topl ks <= a_dl a ->
    t_check_wt fuel h o a total l1 l2 facts foff st off s log = Ok (off', s', log', ok, ws) ->
    exists ex, s_bounds s' = s_bounds s ++ ex /\ map b_lit ex = ws /\ forall x, x ∈ ws -> [x] ∈ log'.
  Proof.
    intros So HW HO Hst Ht E. unfold t_check_wt in E. apply bind_ok in E as ([[[off1 s1] log1] ok1] & E1 & E).
    assert (H1 : exists ks1, W s0 ks1 s1 /\ pstat s1 = pstat s /\ log ⊆ log1).
    { destruct ((a_dl a =? 0) && (off <? foff)).
      - apply bind_ok in E1 as (u & _ & E1). apply bind_ok in E1 as ([[s1' log1'] ok1'] & E2 & E1). injection E1 as <- <- <- <-.
        exists (kenter (a_dl a) ks). destruct (solve_any s0 ks h o a _ fuel s log _ HW Ht E2) as [A B]. apply solve_log in E2. cbn [fst snd] in A, B, E2. split; [exact A|]. split; [exact B|exact E2].
      - injection E1 as <- <- <- <-. exists ks. split; [exact HW|]. split; reflexivity. }
    destruct H1 as (ks1 & HW1 & P1 & L1). apply pstat_bounds in P1 as B1.
    assert (HO1 : OW o act s0 log1 s1) by (eapply OW_pstat; [exact P1|]; eapply OW_log; [exact L1|exact HO]).
    destruct ok1; cbn [negb] in E; [|injection E as <- <- <- <- <-; exists []; rewrite B1, app_nil_r; split; [reflexivity|]; split; [reflexivity|]; intros x Hx; inversion Hx].
    apply bind_ok in E as ([[[s2 log2] ok2] ws2] & E2 & E).
    pose proof (integrate_w s0 ks1 o act h l1 st s1 log1 So HW1 HO1 Hst) as H2. rewrite integrate_forget, E2 in H2. cbn in H2. destruct H2 as [HW2 HO2].
    destruct (integrate_new _ _ _ _ _ _ _ _ _ _ E2) as (ex2 & B2 & M2 & L2). rewrite B1 in B2.
    destruct ok2; cbn [negb] in E; [|injection E as <- <- <- <- <-; exists ex2; auto]. destruct total; [|injection E as <- <- <- <- <-; exists ex2; auto].
    apply bind_ok in E as (s3 & E3 & E). apply bind_ok in E as (s4 & E4 & E). apply bind_ok in E as ([[[s5 log5] ok5] ws5] & E5 & E). injection E as <- <- <- <- <-.
    assert (Hz : ob_active (s_obj s2) = true -> ob_var (s_obj s2) < nv s2) by (rewrite (ow_act _ _ _ _ _ HO2); apply HO2).
    destruct (optimize_w s0 ks1 o fuel s2 HW2 Hz s3 E3) as [HW3 (_ & _ & _ & _ & B3 & _)].
    assert (B4 : s_bounds s4 = s_bounds s3).
    { destruct (o_store o); [injection E4 as <-; reflexivity|..]; destruct (W_store s0 ks1 s3 HW3) as (s4' & E4' & _ & P4); rewrite E4' in E4; injection E4 as <-; apply pstat_bounds, P4. }
    destruct (discard_new _ _ _ _ _ _ _ _ _ E5) as (ex5 & B5 & M5 & L5). exists (ex2 ++ ex5). split; [rewrite B5, B4, B3, B2, app_assoc; reflexivity|]. split; [rewrite map_app, M2, M5; reflexivity|].
    intros x Hx. apply elem_of_app in Hx as [Hx|Hx]; [|exact (L5 x Hx)]. apply L2 in Hx.
    assert (Hl5 : log2 ⊆ log5).
    { pose proof (discard_forget h o l2 s4 log2) as Hd. rewrite E5 in Hd. cbn in Hd. exact (discard_log _ _ _ _ _ _ Hd). }
    exact (Hl5 _ Hx).
  Qed.

  (** [WL]: the invariant of the watch lists *)
  Record WL sh w (ws : list (list Z)) : Prop := {
    wl_len : length ws = length (p_slvs (w_p w));
    wl_bounds : forall t off s wl, p_slvs (w_p w) !! t = Some (off, s) -> ws !! t = Some wl -> forall b, b ∈ s_bounds s -> b_lit b ∈ wl;
    wl_all : forall t wl q, ws !! t = Some wl -> q ∈ sh_iqs sh -> q_lit q ∈ wl;
    wl_only : forall t wl x, ws !! t = Some wl -> x ∈ wl -> (exists q, q ∈ sh_iqs sh /\ q_lit q = x) \/ [x] ∈ w_log w;
  }.
  Lemma start_WL o sh p log p' log' : shot_ok sh -> NoDup (p_vars p) ->
    p_init (sh_host sh) o (sh_sort sh) (sh_threads sh) (sh_iqs sh) (sh_obj sh) p log = Ok (p', log', true) ->
    WL sh (start p' log') (init_watches (sh_threads sh) (sh_iqs sh)).
  Proof.
    intros Hsh Hn E. destruct (p_init_ok o sh p log Hsh Hn) as (p1 & log1 & ok1 & E' & A1 & A2 & A3 & A4 & A5 & A6 & A7 & A8 & A9 & A10 & _).
    rewrite E' in E. injection E as -> <- ->. destruct (A10 eq_refl) as [B1 B2]. unfold init_watches. constructor; cbn [start w_p w_log].
    - rewrite replicate_length. symmetry. exact B1.
    - intros t off s wl Es Ew b Hb. apply lookup_replicate in Ew as [-> _]. destruct (B2 _ (elem_of_list_lookup_2 _ _ _ Es)) as [_ P]. cbn [snd] in P.
      destruct (pd_snd _ _ _ _ _ _ _ P b Hb) as (q & Hq & _ & Hr). assert (El : b_lit b = q_lit q) by apply Hr. rewrite El.
      apply elem_of_list_In, in_map, elem_of_list_In. exact Hq.
    - intros t wl q Ew Hq. apply lookup_replicate in Ew as [-> _]. apply elem_of_list_In, in_map, elem_of_list_In. exact Hq.
    - intros t wl x Ew Hx. apply lookup_replicate in Ew as [-> _]. apply elem_of_list_In, in_map_iff in Hx as (q & <- & Hq). left. exists q. split; [apply elem_of_list_In; exact Hq|reflexivity].
  Qed.
  Lemma watching_reach o sh w ws : watching o sh w ws -> reach_any o sh w.
  Proof.
    induction 1 as [sh p log Hs E|sh0 w0 ws0 sh p log Hw IH Hs E|sh w ws e w' ws' Hw IH Ha (fuel & E)]; [exact (any_first o sh p log Hs E)|exact (any_next o sh0 w0 sh p log IH Hs E)|].
    apply (any_step o sh w e w' IH Ha). exists fuel. rewrite (wstep_forget fuel o e w ws), E. reflexivity.
  Qed.

  Lemma step_WL o sh w ws e w' ws' : step_ok (V := V) o -> reach_any o sh w -> WL sh w ws -> adm e w -> (exists fuel, wstep_wt fuel o e w ws = Ok (w', ws')) -> WL sh w' ws'.
  Proof.
    intros So Hr I Ha (fuel & E). destruct (any_inv o sh w So Hr) as (act & s0s & WW0). pose proof I as [A B C D].
    assert (Hth : forall t, t < length (w_th w) -> exists off s s0, p_slvs (w_p w) !! t = Some (off, s) /\ s0s !! t = Some s0 /\
      W s0 (map en_level (th_stk (thread_of w t))) s /\ OW o act s0 (w_log w) s).
    { intros t Ht. rewrite (ww_len2 _ _ _ _ _ WW0) in Ht. destruct (lookup_lt_is_Some_2 (p_slvs (w_p w)) t) as [[off s] Es]; [rewrite (ww_len1 _ _ _ _ _ WW0); exact Ht|].
      destruct (lookup_lt_is_Some_2 s0s t) as [s0 E0]; [exact Ht|]. exists off, s, s0. split; [exact Es|]. split; [exact E0|]. exact (ww_th _ _ _ _ _ WW0 t (off, s) s0 Es E0). }
    (* one thread changes, its bounds do not *)
    assert (keep : forall t off s off' s' p log th, p_slvs (w_p w) !! t = Some (off, s) -> p_slvs p = p_slvs (w_p w) -> s_bounds s' = s_bounds s -> w_log w ⊆ log ->
      WL sh (World (put_thread t (off', s') p) log th (w_rep w)) ws).
    { intros t off s off' s' p log th Es Ep Eb Hl. constructor; cbn [w_p w_log put_thread p_slvs].
      - rewrite insert_length, Ep. exact A.
      - intros t' off1 s1 wl Es1 Ew b Hb. rewrite Ep in Es1. destruct (Nat.eq_dec t t') as [<-|Hne].
        + rewrite list_lookup_insert in Es1 by (eapply lookup_lt_Some; exact Es). injection Es1 as <- <-. rewrite Eb in Hb. exact (B t off s wl Es Ew b Hb).
        + rewrite list_lookup_insert_ne in Es1 by exact Hne. exact (B t' off1 s1 wl Es1 Ew b Hb).
      - exact C.
      - intros t' wl x Ew Hx. destruct (D t' wl x Ew Hx) as [Hq|Hq]; [left; exact Hq|right; exact (Hl _ Hq)]. }
    destruct e as [t h a lits|t h a total l1 l2|t|t]; cbn [wstep_wt adm] in E, Ha.
    - apply bind_ok in E as (w1 & E1 & E). injection E as <- <-. destruct Ha as (Ht & _ & Hdl & _). destruct (Hth t Ht) as (off & s & s0 & Es & E0 & HW & HO).
      rewrite toplevel_topl in Hdl. cbn [wstep] in E1. unfold p_propagate in E1.
      set (p1 := if (a_dl a =? 0) && (t =? 0) then _ else _) in E1.
      assert (F2 : p_slvs p1 = p_slvs (w_p w)) by (unfold p1; destruct ((a_dl a =? 0) && (t =? 0)); reflexivity).
      unfold at_ at 1 in E1. rewrite F2, Es in E1. cbn [deref mbind res_bind] in E1. destruct (solve fuel h o a lits s (w_log w)) as [[[s1 log1] ok1]| | |] eqn:Es1; [|discriminate E1..].
      cbn [mbind res_bind] in E1. injection E1 as <-. destruct (solve_any s0 _ h o a lits fuel s (w_log w) _ HW Hdl Es1) as [_ P1]. apply solve_log in Es1. cbn [fst snd] in P1, Es1.
      exact (keep t off s off s1 p1 log1 _ Es F2 (pstat_bounds _ _ P1) Es1).
    - destruct Ha as (Ht & _ & Hdl & _). destruct (Hth t Ht) as (off & s & s0 & Es & E0 & HW & HO). rewrite toplevel_topl in Hdl.
      unfold at_ at 1 in E. rewrite Es in E. cbn [deref mbind res_bind] in E.
      destruct (t_check_wt _ _ _ _ _ _ _ _ _ _ _ _ _) as [[[[[off1 s1] log1] ok1] new]| | |] eqn:Ec; [|discriminate E..]. cbn [mbind res_bind] in E. injection E as <- <-.
      destruct (t_check_new s0 _ o act fuel h a total l1 l2 _ _ _ off s (w_log w) off1 s1 log1 ok1 new So HW HO (ww_gen _ _ _ _ _ WW0) Hdl Ec) as (ex & Eb & Em & Hl).
      assert (Hsub : w_log w ⊆ log1).
      { pose proof (t_check_forget fuel h o a total l1 l2 (p_facts (w_p w)) (p_foff (w_p w)) (p_state (w_p w)) off s (w_log w)) as Hf. rewrite Ec in Hf. cbn in Hf. exact (t_check_log _ _ _ _ _ _ _ _ _ _ _ _ _ _ Hf). }
      assert (Hal : forall t' wl, alter (fun l => l ++ new) t ws !! t' = Some wl -> exists wl0, ws !! t' = Some wl0 /\ wl = if decide (t = t') then wl0 ++ new else wl0).
      { intros t' wl Ew. destruct (decide (t = t')) as [<-|Hne].
        - rewrite list_lookup_alter in Ew. destruct (ws !! t) as [wl0|]; [|discriminate Ew]. injection Ew as <-. eauto.
        - rewrite list_lookup_alter_ne in Ew by exact Hne. eauto. }
      constructor; cbn [w_p w_log put_thread p_slvs].
      + rewrite alter_length, insert_length. exact A.
      + intros t' off2 s2 wl Es2 Ew b Hb. destruct (Hal t' wl Ew) as (wl0 & Ew0 & ->). destruct (decide (t = t')) as [<-|Hne].
        * rewrite list_lookup_insert in Es2 by (eapply lookup_lt_Some; exact Es). injection Es2 as <- <-. rewrite Eb in Hb. apply elem_of_app. apply elem_of_app in Hb as [Hb|Hb].
          -- left. exact (B t off s wl0 Es Ew0 b Hb).
          -- right. rewrite <- Em. apply elem_of_list_In, in_map, elem_of_list_In. exact Hb.
        * rewrite list_lookup_insert_ne in Es2 by exact Hne. exact (B t' off2 s2 wl0 Es2 Ew0 b Hb).
      + intros t' wl q Ew Hq. destruct (Hal t' wl Ew) as (wl0 & Ew0 & ->). pose proof (C t' wl0 q Ew0 Hq) as Hc. destruct (decide (t = t')); [apply elem_of_app; left; exact Hc|exact Hc].
      + intros t' wl x Ew Hx. destruct (Hal t' wl Ew) as (wl0 & Ew0 & ->).
        assert (Hx' : x ∈ wl0 \/ x ∈ new) by (destruct (decide (t = t')); [apply elem_of_app; exact Hx|left; exact Hx]).
        destruct Hx' as [Hx'|Hx']; [|right; exact (Hl x Hx')]. destruct (D t' wl0 x Ew0 Hx') as [Hq|Hq]; [left; exact Hq|right; exact (Hsub _ Hq)].
    - apply bind_ok in E as (w1 & E1 & E). injection E as <- <-. destruct Ha as (Ht & Hdl). destruct (Hth t Ht) as (off & s & s0 & Es & E0 & HW & HO). rewrite toplevel_topl in Hdl.
      cbn [wstep] in E1. unfold p_undo in E1. unfold at_ at 1 in E1. rewrite Es in E1. cbn [deref mbind res_bind] in E1.
      destruct (th_stk (thread_of w t)) as [|en r] eqn:Ek; [cbn in Hdl; lia|]. cbn [map topl] in Hdl, HW.
      destruct (undo_w s0 (en_level en) (map en_level r) s HW Hdl) as (s1 & Eu & _ & P1). rewrite Eu in E1. cbn [mbind res_bind] in E1. injection E1 as <-.
      exact (keep t off s off s1 (w_p w) (w_log w) _ Es eq_refl (pstat_bounds _ _ P1) (reflexivity _)).
    - apply bind_ok in E as (w1 & E1 & E). injection E as <- <-. cbn [wstep] in E1. apply bind_ok in E1 as (v & _ & E1). apply bind_ok in E1 as (p & Ep & E1). injection E1 as <-.
      assert (F : p_slvs p = p_slvs (w_p w)).
      { unfold p_on_model in Ep. destruct (o_global o); [|injection Ep as <-; reflexivity]. apply bind_ok in Ep as ([off s] & _ & Ep). apply bind_ok in Ep as (x & _ & Ep). destruct x; injection Ep as <-; reflexivity. }
      constructor; cbn [w_p w_log]; rewrite ?F; assumption.
  Qed.
  Lemma watching_WL o sh w ws : step_ok (V := V) o -> watching o sh w ws -> WL sh w ws.
  Proof.
    intros So Hw. induction Hw as [sh p log Hs E|sh0 w0 ws0 sh p log Hw IH Hs E|sh w ws e w' ws' Hw IH Ha Hstep].
    - apply (start_WL o sh new_propagator [] p log Hs); [constructor|exact E].
    - destruct (any_inv o sh0 w0 So (watching_reach _ _ _ _ Hw)) as (act & s0s & WW0). exact (start_WL o sh (w_p w0) (w_log w0) p log Hs (ww_nd _ _ _ _ _ WW0) E).
    - exact (step_WL o sh w ws e w' ws' So (watching_reach _ _ _ _ Hw) IH Ha Hstep).
  Qed.

  (** ** The claims *)

  (** Keeping the watch lists changes nothing: the sessions are those of the
      other theorems. *)
  Theorem C50_same_sessions o sh w : (exists ws, watching o sh w ws) <-> reach_any o sh w.
  Proof.
    split; [intros (ws & Hw); exact (watching_reach _ _ _ _ Hw)|]. induction 1 as [sh p log Hs E|sh0 w0 sh p log Hr IH Hs E|sh w e w' Hr IH Ha (fuel & E)].
    - eexists. exact (wt_first o sh p log Hs E).
    - destruct IH as (ws0 & Hw). eexists. exact (wt_next o sh0 w0 ws0 sh p log Hw Hs E).
    - destruct IH as (ws & Hw). rewrite (wstep_forget fuel o e w ws) in E. apply bind_ok in E as ([w1 ws1] & E & E1). injection E1 as <-.
      exists ws1. apply (wt_step o sh w ws e w1 ws1 Hw Ha). exists fuel. exact E.
  Qed.

  (** In every state of every session, on every thread: the literal of every
      constraint is watched; nothing else is, but the literals the propagator
      itself has created for bounds on the objective (they are the unit
      clauses handed to clingo). *)
  Theorem C50_watched o sh w ws t wl : step_ok (V := V) o -> watching o sh w ws -> ws !! t = Some wl ->
    (forall q, q ∈ sh_iqs sh -> q_lit q ∈ wl) /\ (forall x, x ∈ wl -> (exists q, q ∈ sh_iqs sh /\ q_lit q = x) \/ [x] ∈ w_log w).
  Proof. intros So Hw Ew. pose proof (watching_WL o sh w ws So Hw) as [A B C D]. split; [intros q; apply (C t); exact Ew|intros x; apply (D t); exact Ew]. Qed.

  (** It makes no difference whether clingo reports other literals: delivering
      only the watched ones leads to the same solver, the same clauses and the
      same result. *)
  Theorem C50_unwatched_ignored o sh w ws t wl off s fuel h a lits : step_ok (V := V) o -> watching o sh w ws -> ws !! t = Some wl -> p_slvs (w_p w) !! t = Some (off, s) ->
    solve fuel h o a lits s (w_log w) = solve fuel h o a (filter (fun x => x ∈ wl) lits) s (w_log w).
  Proof.
    intros So Hw Ew Es. pose proof (watching_WL o sh w ws So Hw) as [A B C D]. specialize (B t off s wl Es Ew).
    assert (Hf : List.concat (map (find_bounds (push_offset a s)) lits) = List.concat (map (find_bounds (push_offset a s)) (filter (fun x => x ∈ wl) lits))).
    { assert (Eb : s_bounds (push_offset a s) = s_bounds s) by (unfold push_offset; destruct (match last (s_offs s) with None => true | Some f => o_level f <? a_dl a end); reflexivity).
      induction lits as [|x lits IH]; [reflexivity|]. rewrite filter_cons. cbn [map concat]. destruct (decide (x ∈ wl)) as [Hx|Hx]; [cbn [map concat]; rewrite IH; reflexivity|].
      rewrite <- IH. assert (Ex : find_bounds (push_offset a s) x = []); [|rewrite Ex; reflexivity].
      unfold find_bounds. rewrite Eb. destruct (List.filter _ (s_bounds s)) as [|b r] eqn:E; [reflexivity|exfalso]. assert (Hb : b ∈ b :: r) by left.
      rewrite <- E in Hb. apply elem_of_list_In, filter_In in Hb as [Hb El]. apply Z.eqb_eq in El. apply Hx. rewrite <- El. apply B, elem_of_list_In, Hb. }
    unfold solve, solve_core, apply_lits. rewrite Hf. reflexivity.
  Qed.
End watch.

(** ** From watches to answers

    The theorems on programs (C48) speak about [assignment_of]: the literals of
    true constraints have been delivered.  Here this follows from what clingo
    promises about watched literals. *)
From Verif Require Import Parsing ParseSpec ParseTheory ParseAtoms ParsePrograms Api Grammar Props_Grammar Props_Parsing Props_Solver Props_Decision Props_Program Props_EndToEnd Examples.

Section answers.
  Context {V : Type} `{VL : ValueLaws V} (th : theory) (m : Z -> Z) (bk : backend).
  Implicit Types w : world V symbol.
  Implicit Types sh : shot V symbol.
  Notation opts := (rg_options (clingolpx_register th)).

  (** What clingo promises thread [t] with watch list [wl] about its assignment
      [tr] when it calls check on a total assignment: the watched literals that
      are true were delivered, only true literals are, literals that were
      false when init ran are false, and the clauses handed over are satisfied. *)
  Record clingo_assignment sh w (t : nat) (wl : list Z) (tr : Z -> bool) : Prop := {
    ca_consistent : forall x, tr x = true -> tr (- x)%Z = false;
    ca_total : forall x, x <> 0%Z -> tr x = true \/ tr (- x)%Z = true;
    ca_delivered : forall x, x ∈ wl -> tr x = true -> x ∈ assigned w t;
    ca_true : forall x, x ∈ assigned w t -> tr x = true;
    ca_init : forall log x, h_false (sh_host sh) log x = true -> tr x = false;
    ca_clauses : forall c, c ∈ shot_log sh w -> exists x, x ∈ c /\ tr x = true;
  }.
  Context (m_nonzero : forall c, m c <> 0%Z).   (* clingo has no literal 0 *)
  Lemma clingo_assignment_of sh w ws t wl tr : step_ok (V := V) opts -> watching opts sh w ws -> ws !! t = Some wl ->
    clingo_assignment sh w t wl tr -> assignment_of m sh w t tr.
  Proof.
    intros So Hw Ew [A A' B C D E]. destruct (C50_watched opts sh w ws t wl So Hw Ew) as [Hall _]. constructor.
    - intros c. destruct (tr (m c)) eqn:Et; [exact (A _ Et)|]. destruct (A' (m c) (m_nonzero c)) as [Hx|Hx]; [congruence|exact Hx].
    - intros q Hq. split; [apply C|]. intros Ht. apply B; [exact (Hall q Hq)|exact Ht].
    - intros q Hq Ht log. destruct (h_false (sh_host sh) log (q_lit q)) eqn:Ef; [|reflexivity]. apply D in Ef. congruence.
    - intros x Hx Hin. destruct (E _ Hx) as (y & Hy & Ty). apply elem_of_list_singleton in Hy as ->. rewrite (A x (C x Hin)) in Ty. discriminate Ty.
  Qed.

  (** The reported values satisfy the program and conflicts occur exactly if
      there is no solution: in terms of the true theory atoms, given that
      clingo delivers what is watched. *)
  Theorem C50_answers l sh w ws t wl tr : step_ok (V := V) opts -> guarantees th m bk l sh w -> watching opts sh w ws -> ws !! t = Some wl -> t < length (w_th w) ->
    clingo_assignment sh w t wl tr ->
    (accepted w t -> exists e0, (0 < e0)%Qc /\ forall e, (0 < e)%Qc -> (e <= e0)%Qc -> solves m (fun x => inst e (api_value (w_p w) t x)) tr l) /\
    (o_global opts = None -> (accepted w t <-> exists A, solves m A tr l)).
  Proof.
    intros So G Hw Ew Ht Hc. pose proof (clingo_assignment_of sh w ws t wl tr So Hw Ew Hc) as Ha. split.
    - intros Hacc. destruct (gu_values _ _ _ _ _ _ G t tr Hacc Ha) as (e0 & He & Hs). exists e0. split; [exact He|]. intros e E1 E2. exact (proj1 (Hs e E1 E2)).
    - intros Hg. exact (gu_decides _ _ _ _ _ _ G Hg t tr Ht Ha).
  Qed.
  (** A check on a total assignment that adds no clause reports the optimum
      over all solutions of the true atoms. *)
  Theorem C50_optimum l sh w ws t h a l1 l2 w' ws' wl tr : step_ok (V := V) opts -> guarantees th m bk l sh w -> watching opts sh w ws -> sh_obj sh <> [] ->
    adm (EvCheck t h a true l1 l2) w -> (exists fuel, wstep_wt fuel opts (EvCheck t h a true l1 l2) w ws = Ok (w', ws')) -> w_log w' = w_log w -> accepted w' t ->
    ws' !! t = Some wl -> clingo_assignment sh w' t wl tr ->
    exists v b, p_get_objective (w_p w') t = Ok (Some (v, b)) /\
      (b = true -> forall A y, solves m A tr l -> objective_means A (tru m tr) l y -> vle (vofq y) v) /\
      (b = false -> forall M : Qc, exists A y, solves m A tr l /\ objective_means A (tru m tr) l y /\ (M < y)%Qc).
  Proof.
    intros So G Hw Ho Ha (fuel & Hs) El Hacc Ew Hc. assert (Hw' : watching opts sh w' ws') by (apply (wt_step opts sh w ws _ w' ws' Hw Ha); exists fuel; exact Hs).
    pose proof (clingo_assignment_of sh w' ws' t wl tr So Hw' Ew Hc) as Has.
    assert (Hst : step opts (EvCheck t h a true l1 l2) w w') by (exists fuel; rewrite (wstep_forget fuel opts _ w ws), Hs; reflexivity).
    destruct (gu_optimum _ _ _ _ _ _ G t tr h a l1 l2 w' Ho Ha Hst El Hacc Has) as (v & b & Ev & H1 & H2). exists v, b. split; [exact Ev|]. split; [|exact H2].
    intros Hb. exact (proj1 (H1 Hb)).
  Qed.
End answers.

(** ** The program of Props_Program.v: after the final check all of this holds *)
Lemma C50_example_aux (r : res (propagator RatQ symbol * list (list Z) * bool)) e1 e2 :
  r = p_init (sh_host pgm_shot) pgm_opts (sh_sort pgm_shot) (sh_threads pgm_shot) (sh_iqs pgm_shot) (sh_obj pgm_shot) new_propagator [] ->
  match first_of r with
  | Some w0 => match wstep_wt 50 pgm_opts e1 w0 (init_watches 1 (ps_iqs pgm_st)) with
      | Ok (w, ws) => admb e1 w0 && admb e2 w && match wstep_wt 50 pgm_opts e2 w ws with
          | Ok (w', ws') => bool_decide (w_log w' = []) && accb w' && lits_as w' && forallb all_true (assigned w' 0) && bool_decide (ws' = [map q_lit (ps_iqs pgm_st)])
          | _ => false end
      | _ => false end
  | None => false
  end = true ->
  exists w wl, watching pgm_opts pgm_shot w [wl] /\ accepted w 0 /\ clingo_assignment pgm_shot w 0 wl (fun x => (0 <? x)%Z) /\ length wl = 7.
Proof.
  intros Er E. unfold first_of in E. destruct r as [[[p log] [|]]| | |]; [|discriminate E..].
  destruct (wstep_wt 50 pgm_opts e1 (start p log) _) as [[w ws]| | |] eqn:E1; [|discriminate E..]. apply andb_true_iff in E as [Ea E]. apply andb_true_iff in Ea as [Ea1 Ea2].
  destruct (wstep_wt 50 pgm_opts e2 w ws) as [[w' ws']| | |] eqn:E2; [|discriminate E..]. rewrite !andb_true_iff in E. destruct E as ((((L1 & L2) & L3) & L4) & L5).
  apply bool_decide_eq_true in L1, L5. unfold accb in L2. apply andb_true_iff in L2 as [L2a L2b]. apply Nat.ltb_lt in L2a. apply negb_true_iff in L2b. rewrite forallb_forall in L4. subst ws'.
  exists w', (map q_lit (ps_iqs pgm_st)). split; [|split; [split; [exact L2a|exact L2b]|split]].
  - apply (wt_step pgm_opts pgm_shot w ws e2 w' _).
    + apply (wt_step pgm_opts pgm_shot (start p log) (init_watches 1 (ps_iqs pgm_st)) e1 w ws); [|exact (admb_ok _ _ Ea1)|exists 50; exact E1].
      apply (wt_first pgm_opts pgm_shot p log pgm_shot_ok). symmetry. exact Er.
    + exact (admb_ok _ _ Ea2).
    + exists 50. exact E2.
  - constructor.
    + intros x Hx. apply Z.ltb_lt in Hx. apply Z.ltb_ge. lia.
    + intros x Hx. destruct (Z.ltb_spec 0 x); [left; reflexivity|right]. apply Z.ltb_lt. lia.
    + intros x Hx Ht. apply elem_of_list_In, in_map_iff in Hx as (q & <- & Hq). apply (lits_as_ok w' q L3); [apply elem_of_list_In; exact Hq|exact Ht].
    + intros x Hx. apply L4. apply elem_of_list_In. exact Hx.
    + intros log' x Hf. discriminate Hf.
    + intros c Hc. unfold shot_log in Hc. rewrite L1 in Hc. destruct (length (sh_log pgm_shot)); inversion Hc.
  - rewrite map_length. vm_compute. reflexivity.
Qed.
Example C50_example : exists w wl, watching pgm_opts pgm_shot w [wl] /\ accepted w 0 /\ clingo_assignment pgm_shot w 0 wl (fun x => (0 <? x)%Z) /\ length wl = 7.
Proof. eapply (C50_example_aux _ pgm_prop pgm_check); [reflexivity|]. vm_compute. reflexivity. Qed.
