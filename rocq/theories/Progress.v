(** * C41: progress of global optimization

    A check on a total assignment that adds no clause precedes every model.
    With an optimization step configured, the objective value of thread [t] at
    that moment is better, by at least the step, than every value reported
    before, on any thread; after an unbounded report only unbounded ones
    follow.  Needs, of clingo, that a literal obtained from add_literal,
    watched and asserted by a unit clause is delivered to the thread before
    the assignment is total. *)

From Verif Require Import Num Sums Tableau TableauProofs Bland Solver SolverBase SolverStep Simplex SimplexLoop Hist Updates Core CoreSolve Propagate
  OptSelect Weak WeakHist Optimize Spec Eps Prepare Propagator World ThreadOk WorldProofs Reach WeakReach Observe ObserveProofs Props_Solver Props_Decision Props_Global.

(** ** Histories of a shot: the callbacks since the last init *)
Section history.
  Context {V : Type} `{Value V} {Sym : Type} `{EqDecision Sym}.

  (** [history_any o sh evs w]: like [reach_any], remembering the callbacks of
      the current shot; [history] like [reach] *)
  Inductive history_any (o : options) : shot V Sym -> list event -> world V Sym -> Prop :=
    | hany_first sh p log : shot_ok sh ->
        p_init (sh_host sh) o (sh_sort sh) (sh_threads sh) (sh_iqs sh) (sh_obj sh) new_propagator [] = Ok (p, log, true) ->
        history_any o sh [] (start p log)
    | hany_next sh0 w0 sh p log : reach_any o sh0 w0 -> shot_ok sh ->
        p_init (sh_host sh) o (sh_sort sh) (sh_threads sh) (sh_iqs sh) (sh_obj sh) (w_p w0) (w_log w0) = Ok (p, log, true) ->
        history_any o sh [] (start p log)
    | hany_step sh evs w e w' : history_any o sh evs w -> adm e w -> step o e w w' -> history_any o sh (evs ++ [e]) w'.
  Inductive history (o : options) : shot V Sym -> list event -> world V Sym -> Prop :=
    | hist_first sh p log : shot_ok sh -> sh_log sh = [] ->
        p_init (sh_host sh) o (sh_sort sh) (sh_threads sh) (sh_iqs sh) (sh_obj sh) new_propagator [] = Ok (p, log, true) ->
        history o sh [] (start p log)
    | hist_next sh0 w0 sh p log : reach o sh0 w0 -> shot_ok sh -> sh_log sh = w_log w0 ->
        p_init (sh_host sh) o (sh_sort sh) (sh_threads sh) (sh_iqs sh) (sh_obj sh) (w_p w0) (w_log w0) = Ok (p, log, true) ->
        history o sh [] (start p log)
    | hist_step sh evs w e w' : history o sh evs w -> adm e w -> eq_safe e w -> step o e w w' -> history o sh (evs ++ [e]) w'.

  Lemma history_reach o sh evs w : history o sh evs w -> reach o sh w.
  Proof. induction 1; [eapply reach_first|eapply reach_next|eapply reach_step]; eauto. Qed.
  Lemma reach_history o sh w : reach o sh w -> exists evs, history o sh evs w.
  Proof.
    induction 1 as [| |? ? ? ? ? [evs IH]]; [exists []; eapply hist_first|exists []; eapply hist_next|eexists; eapply hist_step]; eauto.
  Qed.
  Lemma history_any_reach o sh evs w : history_any o sh evs w -> reach_any o sh w.
  Proof. induction 1; [eapply any_first|eapply any_next|eapply any_step]; eauto. Qed.
  Lemma history_history_any o sh evs w : history o sh evs w -> history_any o sh evs w.
  Proof. induction 1; [eapply hany_first|eapply hany_next|eapply hany_step]; eauto. eapply (reach_reach_any (V := V)); eauto. Qed.

  (** the literals add_literal returned to thread [t] *)
  Definition fresh (t : nat) (evs : list event) : list Z :=
    concat (map (fun e => match e with EvCheck t' _ _ _ l1 l2 => if t' =? t then [l1; l2] else [] | _ => [] end) evs).
  Lemma fresh_app t evs evs' : fresh t (evs ++ evs') = fresh t evs ++ fresh t evs'.
  Proof. unfold fresh. rewrite map_app, concat_app. auto. Qed.
  Lemma fresh_mono t evs e : fresh t evs ⊆ fresh t (evs ++ [e]).
  Proof. rewrite fresh_app. intros l Hl. apply elem_of_app; auto. Qed.
End history.

(** ** The invariant of one thread *)
Section thread.
  Context {V : Type} `{VL : ValueLaws V}.
  Implicit Types s : solver V.

  (** the thread has not seen the state of the objective, or has asserted the
      bound that belongs to it, or has been told that the objective is unbounded *)
  Definition PT (d : V) (st : objst V) (log : list (list Z)) (fr : list Z) s : Prop :=
    ob_gen (s_obj s) <= os_gen st /\
    (ob_gen (s_obj s) = os_gen st -> os_gen st <> 0 ->
      if os_bounded st then exists b, b ∈ s_bounds s /\ b_rel b = BGe /\ b_var b = ob_bound_var (s_obj s) /\ b_val b = vadd (os_val st) d /\ [b_lit b] ∈ log /\ b_lit b ∈ fr
      else ob_discard (s_obj s) = true).

  (** same objective but for [ob_bounded]; more bounds *)
  Definition omore s s' : Prop := ob_gen (s_obj s') = ob_gen (s_obj s) /\ ob_bound_var (s_obj s') = ob_bound_var (s_obj s) /\
    ob_discard (s_obj s') = ob_discard (s_obj s) /\ s_bounds s ⊆ s_bounds s'.
  Lemma omore_refl s : omore s s.
  Proof. repeat split; auto. Qed.
  Lemma omore_trans s1 s2 s3 : omore s1 s2 -> omore s2 s3 -> omore s1 s3.
  Proof. intros (A1 & A2 & A3 & A4) (B1 & B2 & B3 & B4). unfold omore. rewrite B1, B2, B3. split; auto. split; auto. split; auto. intros x Hx. auto. Qed.
  Lemma omore_pstat s s' : pstat s' = pstat s -> omore s s'.
  Proof. unfold pstat. intros P. assert (E : s_obj s' = s_obj s /\ s_bounds s' = s_bounds s) by (split; congruence). destruct E as [E1 E2]. unfold omore. rewrite E1, E2. repeat split; auto. Qed.
  Lemma omore_same s s' : obsame s s' -> omore s s'.
  Proof. intros (A & B & C & D & E & F). unfold omore. rewrite E. repeat split; auto. Qed.
  Lemma PT_more d st log log' fr fr' s s' : omore s s' -> log ⊆ log' -> fr ⊆ fr' -> PT d st log fr s -> PT d st log' fr' s'.
  Proof.
    intros (A & B & C & D) Hl Hf [P1 P2]. unfold PT. rewrite A, B, C. split; auto. intros E Hg. specialize (P2 E Hg). destruct (os_bounded st); auto.
    destruct P2 as (b & H1 & H2 & H3 & H4 & H5 & H6). exists b. auto 10.
  Qed.

  (** what integrate_objective does *)
  Lemma integrate_p h (o : options) lit st s log g d s' log' ok : o_global o = Some g -> vstep g = Some d ->
    integrate_objective h o lit st s log = Ok (s', log', ok) ->
    ob_gen (s_obj s') = os_gen st /\ ob_bound_var (s_obj s') = ob_bound_var (s_obj s) /\
    (if ob_gen (s_obj s) =? os_gen st then s_bounds s' = s_bounds s /\ ob_discard (s_obj s') = ob_discard (s_obj s) /\ log' = log /\ ok = true
     else if os_bounded st then (exists b, s_bounds s' = s_bounds s ++ [b] /\ b_rel b = BGe /\ b_var b = ob_bound_var (s_obj s) /\ b_val b = vadd (os_val st) d /\ b_lit b = lit) /\ log' = log ++ [[lit]]
     else s_bounds s' = s_bounds s /\ ob_discard (s_obj s') = true /\ log' = log /\ ok = true).
  Proof.
    intros Eg Ed. unfold integrate_objective. rewrite Eg. unfold os_value. destruct (Nat.eqb_spec (ob_gen (s_obj s)) (os_gen st)) as [E|E]; cbn [negb].
    - intros [= <- <- <-]. cbn. rewrite E. auto 8.
    - destruct (os_bounded st).
      + rewrite Ed. unfold assert_bound. cbv zeta. intros [= <- <- <-]. split; [reflexivity|]. split; [reflexivity|]. split; [|reflexivity].
        eexists. split; [reflexivity|]. auto.
      + intros [= <- <- <-]. cbn. auto 8.
  Qed.
  Lemma discard_p h (o : options) lit s log s' log' ok : discard_bounded h o lit s log = Ok (s', log', ok) ->
    omore s s' /\ log ⊆ log' /\ length log <= length log' /\ (log' = log -> s' = s /\ (ob_active (s_obj s) = true -> glob o = true -> ob_discard (s_obj s) = true -> ob_bounded (s_obj s) = false)).
  Proof.
    unfold discard_bounded. unfold glob. destruct (_ || _) eqn:Ec.
    - intros [= <- <- <-]. split; [apply omore_refl|]. split; auto. split; auto. intros _. split; auto. intros H1 H2 H3. rewrite H1, H3 in Ec. cbn in Ec.
      destruct (o_global o); [|discriminate]. cbn in Ec. destruct (ob_bounded (s_obj s)); auto.
    - intros E. apply bind_ok in E as (v & _ & E). unfold assert_bound in E. cbv zeta in E. injection E as <- <- <-. split; [|split; [|split]].
      + split; [reflexivity|]. split; [reflexivity|]. split; [reflexivity|]. cbn. intros b Hb. apply elem_of_app; auto.
      + intros c Hc. apply elem_of_app; auto.
      + rewrite app_length. lia.
      + intros El. apply (f_equal length) in El. rewrite app_length in El. cbn in El. lia.
  Qed.

  Lemma PT_integrate h (o : options) lit st s log g d s' log' ok fr : o_global o = Some g -> vstep g = Some d ->
    integrate_objective h o lit st s log = Ok (s', log', ok) -> lit ∈ fr -> PT d st log fr s -> PT d st log' fr s'.
  Proof.
    intros Eg Ed E Hl [P1 P2]. destruct (integrate_p h o lit st s log g d s' log' ok Eg Ed E) as (A & B & C). unfold PT. rewrite A. split; auto. intros _ Hg.
    destruct (Nat.eqb_spec (ob_gen (s_obj s)) (os_gen st)) as [Eq|Eq].
    - destruct C as (C1 & C2 & -> & _). specialize (P2 Eq Hg). rewrite B, C1, C2. auto.
    - destruct (os_bounded st).
      + destruct C as ((b & C1 & C2 & C3 & C4 & C5) & ->). exists b. rewrite C1, B, C5. split; [apply elem_of_app; right; left|]. repeat (split; auto). apply elem_of_app; right; left.
      + apply C.
  Qed.

  (** check: the invariant is kept; if no clause was added then the thread has
      seen the state and asserted no bound *)
  Lemma t_check_p s0 ks (o : options) act fuel h (a : asg) total l1 l2 facts foff st off s log g d fr off' s' log' ok : step_ok (V := V) o -> o_global o = Some g -> vstep g = Some d ->
    W s0 ks s -> OW o act s0 log s -> (os_gen st <> 0 -> act = true) -> topl ks <= a_dl a -> 8 ^ nv s <= fuel -> l1 ∈ fr ->
    t_check fuel h o a total l1 l2 facts foff st off s log = Ok (off', s', log', ok) -> PT d st log fr s ->
    PT d st log' fr s' /\ (s_bounds s ⊆ s_bounds s' /\ ob_bound_var (s_obj s') = ob_bound_var (s_obj s)) /\
    (length log' = length log -> total = true -> ob_gen (s_obj s') = os_gen st /\
      (ob_gen (s_obj s) <> os_gen st -> os_bounded st = false) /\ (act = true -> ob_discard (s_obj s') = true -> ob_bounded (s_obj s') = false)).
  Proof.
    intros So Eg Ed HW HO Hst Ht Hf Hfr E HP. unfold t_check in E. apply bind_ok in E as ([[[off1 s1] log1] ok1] & E1 & E). set (ks1 := if (a_dl a =? 0) && (off <? foff) then kenter 0 ks else ks).
    assert (H1 : W s0 ks1 s1 /\ OW o act s0 log1 s1 /\ pstat s1 = pstat s /\ log ⊆ log1 /\ length log <= length log1 /\ (ok1 = false -> length log < length log1)).
    { unfold ks1. destruct ((a_dl a =? 0) && (off <? foff)) eqn:Edl; [|injection E1 as <- <- <- <-; auto 8 using Nat.le_refl].
      - apply andb_true_iff in Edl as [Edl _]. apply Nat.eqb_eq in Edl. apply bind_ok in E1 as (u & _ & E1). apply bind_ok in E1 as ([[s1' log1'] ok1'] & E2 & E1). injection E1 as <- <- <- <-.
        pose proof (solve_w s0 ks h o a (take foff (drop off facts)) fuel s log HW Ht Hf) as Hs. rewrite E2 in Hs. cbn [okub fst snd] in Hs. destruct Hs as [HW1 P1]. rewrite Edl in HW1.
        pose proof (solve_log _ _ _ _ _ _ _ _ E2) as Hl. cbn in Hl. destruct (solve_grew _ _ _ _ _ _ _ _ _ _ E2) as [G1 G2]. split; auto. split; [|auto].
        eapply OW_pstat; eauto. eapply OW_log; eauto.
      - split; auto. split; auto. split; auto. split; auto. split; auto. discriminate. }
    destruct H1 as (HW1 & HO1 & P1 & Hl1 & G1 & G2). assert (HP1 : PT d st log1 fr s1) by (eapply PT_more; eauto using omore_pstat).
    destruct ok1; cbn [negb] in E. 2:{ injection E as <- <- <- <-. split; auto. split; [unfold pstat in P1; replace (s_bounds s1) with (s_bounds s) by congruence; split; auto; congruence|]. intros El. specialize (G2 eq_refl). lia. }
    apply bind_ok in E as ([[s2 log2] ok2] & E2 & E). pose proof (PT_integrate h o l1 st s1 log1 g d s2 log2 ok2 fr Eg Ed E2 Hfr HP1) as HP2.
    destruct (integrate_p h o l1 st s1 log1 g d s2 log2 ok2 Eg Ed E2) as (A & B & C).
    assert (Hb1 : s_bounds s1 = s_bounds s) by (unfold pstat in P1; congruence).
    assert (Hb2 : s_bounds s ⊆ s_bounds s2).
    { rewrite <- Hb1. destruct (ob_gen (s_obj s1) =? os_gen st); [destruct C as (-> & _); auto|]. destruct (os_bounded st); [destruct C as ((b & -> & _) & _); intros x Hx; apply elem_of_app; auto|destruct C as (-> & _); auto]. }
    assert (Hb3 : ob_bound_var (s_obj s2) = ob_bound_var (s_obj s)) by (rewrite B; unfold pstat in P1; congruence).
    assert (Eob : ob_gen (s_obj s1) = ob_gen (s_obj s)) by (unfold pstat in P1; congruence). rewrite Eob in C.
    pose proof (integrate_w s0 ks1 o act h l1 st s1 log1 So HW1 HO1 Hst) as H2. rewrite E2 in H2. cbn [okub fst snd] in H2. destruct H2 as [HW2 HO2].
    assert (Hl2 : length log1 <= length log2 /\ (length log2 = length log1 -> ok2 = true /\ (ob_gen (s_obj s) <> os_gen st -> os_bounded st = false))).
    { destruct (Nat.eqb_spec (ob_gen (s_obj s)) (os_gen st)) as [Eq|Eq].
      - destruct C as (_ & _ & -> & ->). split; auto. intros _. split; auto. intros Hx. contradiction.
      - destruct (os_bounded st).
        + destruct C as (_ & ->). rewrite app_length. cbn. split; [lia|]. intros Hx. lia.
        + destruct C as (_ & _ & -> & ->). auto. }
    destruct Hl2 as [G3 G4]. destruct ok2; cbn [negb] in E. 2:{ injection E as <- <- <- <-. split; auto. split; auto. intros El _. destruct G4 as [G4 _]; [lia|discriminate]. }
    destruct total. 2:{ injection E as <- <- <- <-. split; auto. split; auto. discriminate. }
    apply bind_ok in E as (s3 & E3 & E). apply bind_ok in E as (s4 & E4 & E). apply bind_ok in E as ([[s5 log5] ok5] & E5 & E). injection E as <- <- <- <-.
    assert (Hz : ob_active (s_obj s2) = true -> ob_var (s_obj s2) < nv s2) by (rewrite (ow_act _ _ _ _ _ HO2); apply HO2).
    destruct (optimize_w s0 ks1 o fuel s2 HW2 Hz s3 E3) as [HW3 Ob3].
    assert (H4 : pstat s4 = pstat s3). { destruct (o_store o); [injection E4 as <-; auto| |]; destruct (W_store s0 ks1 s3 HW3) as (s4' & E4' & _ & P4); rewrite E4' in E4; injection E4 as <-; auto. }
    assert (M : omore s2 s4). { eapply omore_trans; [apply omore_same; exact Ob3|apply omore_pstat; auto]. }
    destruct (discard_p h o l2 s4 log2 s5 log5 ok5 E5) as (M5 & Hl5 & G5 & D5).
    split. { eapply PT_more; [eapply omore_trans; [exact M|exact M5]|exact Hl5| |exact HP2]. auto. }
    split. { destruct M as (_ & M3 & _ & M4), M5 as (_ & M5' & _ & M5). split; [intros x Hx; auto|congruence]. }
    intros El _. assert (El2 : log5 = log2).
    { unfold discard_bounded in E5. destruct (_ || _); [injection E5 as _ <- _; auto|]. apply bind_ok in E5 as (v & _ & E5). unfold assert_bound in E5. cbv zeta in E5. injection E5 as _ <- _.
      rewrite app_length in El. cbn in El. lia. }
    destruct (D5 El2) as [-> D]. split; [|split].
    - destruct M as (-> & _). auto.
    - apply G4. rewrite El2 in El. lia.
    - intros Ha. apply D.
      + assert (Ha4 : ob_active (s_obj s4) = ob_active (s_obj s2)). { unfold pstat in H4. destruct Ob3 as (_ & _ & <- & _). congruence. } rewrite Ha4, (ow_act _ _ _ _ _ HO2). auto.
      + unfold glob. rewrite Eg. auto.
  Qed.
End thread.

(** ** The invariant of sessions *)
Section session.
  Context {V : Type} `{VL : ValueLaws V} {Sym : Type} `{EqDecision Sym}.
  Implicit Types w : world V Sym.
  Implicit Types sh : shot V Sym.

  Definition PW (d : V) (evs : list event) w : Prop :=
    forall t x, p_slvs (w_p w) !! t = Some x -> PT d (p_state (w_p w)) (w_log w) (fresh t evs) x.2.

  Lemma PW_put d evs e w t x (p : propagator V Sym) log th rep : PW d evs w -> p_slvs p = p_slvs (w_p w) -> p_state p = p_state (w_p w) -> w_log w ⊆ log ->
    PT d (p_state (w_p w)) log (fresh t (evs ++ [e])) x.2 -> PW d (evs ++ [e]) (World (put_thread t x p) log th rep).
  Proof.
    intros HP E1 E2 Hl Hx t' x' Hx'. cbn [w_p put_thread p_slvs p_state w_log] in *. rewrite E1 in Hx'. rewrite E2. destruct (Nat.eq_dec t t') as [<-|Hne].
    - destruct (decide (t < length (p_slvs (w_p w)))) as [Hlt|Hge].
      + rewrite list_lookup_insert in Hx' by auto. injection Hx' as <-. auto.
      + rewrite list_insert_ge in Hx' by lia. apply lookup_lt_Some in Hx'. lia.
    - rewrite list_lookup_insert_ne in Hx' by auto. eapply PT_more; [apply omore_refl|exact Hl|apply fresh_mono|apply HP; auto].
  Qed.

  Lemma start_progress o sh p log p' log' d : shot_ok sh -> NoDup (p_vars p) ->
    p_init (sh_host sh) o (sh_sort sh) (sh_threads sh) (sh_iqs sh) (sh_obj sh) p log = Ok (p', log', true) -> PW d [] (start p' log').
  Proof.
    intros Hsh Hn E. destruct (p_init_ok o sh p log Hsh Hn) as (p1 & log1 & ok1 & E' & A1 & A2 & A3 & A4 & A5 & A6 & A7 & A8 & A9 & A10 & _).
    rewrite E' in E. injection E as -> <- ->. destruct (A10 eq_refl) as [B1 B2]. intros t x Hx. cbn [start w_p w_log] in *. rewrite A5.
    destruct (B2 x (elem_of_list_lookup_2 _ _ _ Hx)) as [_ P]. destruct (pd_new _ _ _ _ _ _ _ P) as (Ez & _). split; [rewrite Ez; cbn; lia|]. cbn. congruence.
  Qed.

  Theorem history_progress o sh evs w g d : step_ok (V := V) o -> o_global o = Some g -> vstep g = Some d -> history_any o sh evs w -> PW d evs w.
  Proof.
    intros So Eg Ed Hh. induction Hh as [sh p log Hsh E|sh0 w0 sh p log Hr Hsh E|sh evs w e w' Hh IH Ha (fuel0 & E0)].
    - apply (start_progress o sh new_propagator [] p log d Hsh); auto. constructor.
    - destruct (any_inv o sh0 w0 So Hr) as (act & s0s & I). exact (start_progress o sh (w_p w0) (w_log w0) p log d Hsh (ww_nd _ _ _ _ _ I) E).
    - pose proof (history_any_reach o sh evs w Hh) as Hr. destruct (any_inv o sh w So Hr) as (act & s0s & I). set (fuel := Nat.max fuel0 (8 ^ maxnv s0s)).
      pose proof (wstep_mono o e w fuel0 fuel ltac:(subst fuel; lia) w' E0) as E. clear E0.
      pose proof I as [A A1 A2 A3 B C D G G2].
      assert (Hth : forall t, t < length (w_th w) -> exists off s s0, p_slvs (w_p w) !! t = Some (off, s) /\ s0s !! t = Some s0 /\
        W s0 (map en_level (th_stk (thread_of w t))) s /\ OW o act s0 (w_log w) s /\ 8 ^ nv s <= fuel).
      { intros t Ht. destruct (lookup_lt_is_Some_2 (p_slvs (w_p w)) t) as [[off s] Es]; [lia|]. destruct (lookup_lt_is_Some_2 s0s t) as [s0 Es0]; [lia|].
        exists off, s, s0. split; auto. split; auto. destruct (D t (off, s) s0 Es Es0) as [D1 D2]. split; auto. split; auto.
        transitivity (8 ^ maxnv s0s); [|subst fuel; lia]. apply pow8_le. change s with ((off, s).2). rewrite (wk_nv _ _ _ D1). apply maxnv_le. eapply elem_of_list_lookup_2; eauto. }
      destruct e as [t h a lits|t h a total l1 l2|t|t]; cbn [wstep adm] in *.
      + destruct Ha as (Ht & Hb & Hdl & _). destruct (Hth t Ht) as (off & s & s0 & Es & Es0 & HW & HO & Hfs). rewrite toplevel_topl in Hdl.
        apply bind_ok in E as ([[p log] ok] & E1 & E2). injection E2 as <-. unfold p_propagate in E1. set (p1 := if (a_dl a =? 0) && (t =? 0) then _ else _) in E1.
        assert (F : p_slvs p1 = p_slvs (w_p w) /\ p_state p1 = p_state (w_p w)) by (unfold p1; destruct ((a_dl a =? 0) && (t =? 0)); auto). destruct F as (F2 & F3).
        unfold at_ at 1 in E1. rewrite F2, Es in E1. cbn [deref mbind res_bind] in E1. apply bind_ok in E1 as ([[s1 log1] ok1] & E1 & E2). injection E2 as <- <- <-.
        pose proof (solve_w s0 _ h o a lits fuel s (w_log w) HW Hdl Hfs) as Hs. rewrite E1 in Hs. cbn [okub fst snd] in Hs. destruct Hs as [_ P1]. apply solve_log in E1. cbn in E1.
        apply PW_put with (w := w); auto. cbn [snd]. eapply PT_more; [apply omore_pstat; exact P1|exact E1|apply fresh_mono|exact (IH t (off, s) Es)].
      + destruct Ha as (Ht & Hb & Hdl & _). destruct (Hth t Ht) as (off & s & s0 & Es & Es0 & HW & HO & Hfs). rewrite toplevel_topl in Hdl.
        apply bind_ok in E as ([offx sx] & _ & E). apply bind_ok in E as ([[p log] ok] & E1 & E2). injection E2 as <-. unfold p_check in E1. unfold at_ at 1 in E1. rewrite Es in E1. cbn [deref mbind res_bind] in E1.
        apply bind_ok in E1 as ([[[off1 s1] log1] ok1] & E1 & E2). injection E2 as <- <- <-. pose proof (t_check_log _ _ _ _ _ _ _ _ _ _ _ _ _ _ E1) as Hl. cbn [fst snd] in Hl.
        apply PW_put with (w := w); auto. cbn [snd].
        refine (proj1 (t_check_p s0 _ o act fuel h a total l1 l2 _ _ (p_state (w_p w)) off s (w_log w) g d (fresh t (evs ++ [EvCheck t h a total l1 l2])) off1 s1 log1 ok1 So Eg Ed HW HO G Hdl Hfs _ E1 _)).
        * rewrite fresh_app. apply elem_of_app. right. cbn. rewrite Nat.eqb_refl. left.
        * eapply PT_more; [apply omore_refl|reflexivity|apply fresh_mono|exact (IH t (off, s) Es)].
      + destruct Ha as (Ht & Hdl). destruct (Hth t Ht) as (off & s & s0 & Es & Es0 & HW & HO & Hfs). rewrite toplevel_topl in Hdl.
        apply bind_ok in E as (p & E1 & E2). injection E2 as <-. unfold p_undo in E1. unfold at_ at 1 in E1. rewrite Es in E1. cbn [deref mbind res_bind] in E1.
        destruct (th_stk (thread_of w t)) as [|en r] eqn:Ek; [cbn in Hdl; lia|].
        cbn [map topl] in Hdl, HW. destruct (undo_w s0 (en_level en) (map en_level r) s HW Hdl) as (s1 & Eu & HW1 & P1). rewrite Eu in E1. cbn [mbind res_bind] in E1. injection E1 as <-.
        apply PW_put with (w := w); auto. cbn [snd]. eapply PT_more; [apply omore_pstat; exact P1|reflexivity|apply fresh_mono|exact (IH t (off, s) Es)].
      + apply bind_ok in E as (v & Ev & E). apply bind_ok in E as (p & E1 & E2). injection E2 as <-. unfold p_on_model in E1. rewrite Eg in E1.
        apply bind_ok in E1 as ([off s] & Es & E1). apply bind_ok in E1 as (v1 & Ev1 & E1).
        intros t' x Hx. cbn [w_p w_log] in *. rewrite fresh_app. cbn. rewrite app_nil_r.
        destruct v1 as [x1|]; injection E1 as <-; [|apply IH; auto]. cbn [p_slvs p_state] in *. specialize (IH t' x Hx). destruct IH as [I1 I2].
        destruct (update_gen x1 (p_state (w_p w))) as [[_ ->]|Hlt]; [split; auto|]. split; [lia|]. intros Hx1. lia.
  Qed.

  (** ** the shared state holds the best report, in every session *)
  Lemma good_any o sh w : reach_any o sh w -> o_global o <> None -> good (w_rep w) (p_state (w_p w)).
  Proof.
    intros Hr Hg. induction Hr as [sh p log Hsh E|sh0 w0 sh p log Hr IH Hsh E|sh w e w' Hr IH Ha (fuel & E)].
    - unfold p_init in E. apply bind_ok in E as ([[sl lg] ok] & _ & E). injection E as <- _ _. split; auto.
    - unfold p_init in E. apply bind_ok in E as ([[sl lg] ok] & _ & E). injection E as <- _ _. split; auto.
    - destruct e as [t h a lits|t h a total l1 l2|t|t]; cbn [wstep] in E.
      + apply bind_ok in E as ([[p log] ok] & E1 & E2). injection E2 as <-. cbn. unfold p_propagate in E1.
        apply bind_ok in E1 as ([off s] & _ & E1). apply bind_ok in E1 as ([[s1 log1] ok1] & _ & E1). injection E1 as <- _ _. cbn. destruct (_ && _); auto.
      + apply bind_ok in E as ([off0 s0] & _ & E). apply bind_ok in E as ([[p log] ok] & E1 & E2). injection E2 as <-. cbn. unfold p_check in E1.
        apply bind_ok in E1 as ([off s] & _ & E1). apply bind_ok in E1 as ([[[off1 s1] log1] ok1] & _ & E1). injection E1 as <- _ _. auto.
      + apply bind_ok in E as (p & E1 & E2). injection E2 as <-. cbn. unfold p_undo in E1. apply bind_ok in E1 as ([off s] & _ & E1). apply bind_ok in E1 as (s1 & _ & E1).
        injection E1 as <-. auto.
      + apply bind_ok in E as (v & Ev & E). apply bind_ok in E as (p & E1 & E2). injection E2 as <-. cbn. unfold p_on_model in E1. destruct (o_global o); [|congruence].
        unfold p_get_objective in Ev. apply bind_ok in Ev as ([off s] & Es & Ev). rewrite Es in E1. cbn [mbind res_bind] in E1. rewrite Ev in E1. cbn [mbind res_bind] in E1.
        destruct v as [[v b]|]; injection E1 as <-; auto. cbn. apply update_good. auto.
  Qed.
  Lemma upto_unbounded (xs : list (V * bool)) u : (u, false) ∈ xs -> exists u', (upto xs).2 = Some u'.
  Proof.
    induction xs as [|[v b] xs IH]; intros Hu; [inversion Hu|]. cbn. destruct b; [|eauto]. apply elem_of_cons in Hu as [Hu|Hu]; [discriminate|].
    destruct (IH Hu) as (u' & E). destruct (upto xs). cbn in *. eauto.
  Qed.
  Lemma upto_bounded (xs : list (V * bool)) : (forall u, (u, false) ∉ xs) -> (upto xs).2 = None /\ forall v, (v, true) ∈ xs -> v ∈ (upto xs).1.
  Proof.
    induction xs as [|[v b] xs IH]; intros Hu; cbn; [split; auto; intros v Hv; inversion Hv|]. destruct b; [|exfalso; eapply Hu; left].
    destruct IH as [A B]. { intros u Hx. apply (Hu u). right. auto. } destruct (upto xs) as [l r]. cbn in *. split; auto. intros v' Hv. apply elem_of_cons in Hv as [Hv|Hv].
    - injection Hv as ->. left.
    - right. auto.
  Qed.
  Lemma good_unbounded (xs : list (V * bool)) st u : good xs st -> (u, false) ∈ xs -> os_gen st <> 0 /\ os_bounded st = false.
  Proof. intros G Hu. destruct (upto_unbounded xs u Hu) as (u' & E). unfold good in G. rewrite E in G. tauto. Qed.
  Lemma good_bounded (xs : list (V * bool)) st v : good xs st -> (forall u, (u, false) ∉ xs) -> (v, true) ∈ xs -> os_gen st <> 0 /\ os_bounded st = true /\ vle v (os_val st).
  Proof.
    intros G Hu Hv. destruct (upto_bounded xs Hu) as [E B]. specialize (B v Hv). unfold good in G. rewrite E in G. destruct ((upto xs).1) as [|x l]; [inversion B|].
    destruct G as (G1 & G2 & G3). split; auto. split; auto. apply G3. auto.
  Qed.

  (** check on a total assignment, without a new clause, in any session *)
  Definition quiet_check o w w' (t : nat) : Prop := w_log w' = w_log w /\ exists h a l1 l2, adm (EvCheck t h a true l1 l2) w /\ step o (EvCheck t h a true l1 l2) w w'.

  Lemma quiet_thread o sh evs w w' t g d act s0s : step_ok (V := V) o -> o_global o = Some g -> vstep g = Some d -> history_any o sh evs w -> quiet_check o w w' t ->
    WW o sh act s0s w ->
    p_state (w_p w') = p_state (w_p w) /\ w_rep w' = w_rep w /\ exists off s off' s', p_slvs (w_p w) !! t = Some (off, s) /\ p_slvs (w_p w') !! t = Some (off', s') /\
      PT d (p_state (w_p w)) (w_log w) (fresh t evs) s /\ (s_bounds s ⊆ s_bounds s' /\ ob_bound_var (s_obj s') = ob_bound_var (s_obj s)) /\
      (ob_gen (s_obj s) <> os_gen (p_state (w_p w)) -> os_bounded (p_state (w_p w)) = false) /\
      (os_gen (p_state (w_p w)) <> 0 -> os_bounded (p_state (w_p w)) = false -> ob_bounded (s_obj s') = false).
  Proof.
    intros So Eg Ed Hh (El & h & a & l1 & l2 & Ha & (fuel0 & E0)) I. pose proof (history_progress o sh evs w g d So Eg Ed Hh) as HP. set (fuel := Nat.max fuel0 (8 ^ maxnv s0s)).
    pose proof (wstep_mono o _ w fuel0 fuel ltac:(subst fuel; lia) w' E0) as E. clear E0. pose proof I as [A A1 A2 A3 B C D G G2].
    destruct Ha as (Ht & Hb & Hdl & _). destruct (lookup_lt_is_Some_2 (p_slvs (w_p w)) t) as [[off s] Es]; [lia|]. destruct (lookup_lt_is_Some_2 s0s t) as [s0 Es0]; [lia|].
    destruct (D t (off, s) s0 Es Es0) as [HW HO]. cbn [snd] in HW, HO. specialize (HP t (off, s) Es). cbn [snd] in HP.
    assert (Hfs : 8 ^ nv s <= fuel). { transitivity (8 ^ maxnv s0s); [|subst fuel; lia]. apply pow8_le. rewrite (wk_nv _ _ _ HW). apply maxnv_le. eapply elem_of_list_lookup_2; eauto. }
    rewrite toplevel_topl in Hdl. cbn [wstep] in E. apply bind_ok in E as ([offx sx] & _ & E). apply bind_ok in E as ([[p log] ok] & E1 & E2). injection E2 as <-. unfold p_check in E1. unfold at_ at 1 in E1. rewrite Es in E1. cbn [deref mbind res_bind] in E1.
    apply bind_ok in E1 as ([[[off1 s1] log1] ok1] & E1 & E2). injection E2 as <- <- <-. cbn in El. subst log1. split; [reflexivity|]. split; [reflexivity|].
    exists off, s, off1, s1. split; auto. cbn. split; [apply list_lookup_insert; lia|]. split; auto.
    destruct (t_check_p s0 _ o act fuel h a true l1 l2 _ _ (p_state (w_p w)) off s (w_log w) g d (l1 :: fresh t evs) off1 s1 (w_log w) ok1 So Eg Ed HW HO G Hdl Hfs ltac:(left) E1) as (T1 & T2 & T3).
    { eapply PT_more; [apply omore_refl|reflexivity| |exact HP]. intros l Hl. right. auto. }
    split; auto. destruct (T3 eq_refl eq_refl) as (T4 & T5 & T6). split; auto. intros Hg Hbd. apply T6; [apply G; auto|].
    destruct T1 as [_ T1]. specialize (T1 T4 Hg). rewrite Hbd in T1. auto.
  Qed.

  (** ** C41 *)
  (** after an unbounded report all models have an unbounded objective: in every session *)
  Theorem C41_unbounded_then_unbounded o sh w w' t u : step_ok (V := V) o -> reach_any o sh w -> o_global o <> None -> sh_obj sh <> [] ->
    quiet_check o w w' t -> (u, false) ∈ w_rep w -> exists v, p_get_objective (w_p w') t = Ok (Some (v, false)).
  Proof.
    intros So Hr Hg Ho Hq Hu. destruct (o_global o) as [g|] eqn:Eg; [|congruence]. destruct (vstep (V := V) g) as [d|] eqn:Ed; [|exfalso; eapply So; eauto].
    destruct (good_unbounded _ _ u (good_any o sh w Hr ltac:(congruence)) Hu) as [G1 G2].
    assert (Hh : exists evs, history_any o sh evs w).
    { clear -Hr. induction Hr as [| |? ? ? ? ? [evs IH]]; [exists []; eapply hany_first|exists []; eapply hany_next|eexists; eapply hany_step]; eauto. }
    destruct Hh as (evs & Hh). destruct (any_inv o sh w So Hr) as (act & s0s & I).
    destruct (quiet_thread o sh evs w w' t g d act s0s So Eg Ed Hh Hq I) as (_ & _ & off & s & off' & s' & Es & Es' & _ & _ & _ & Hb).
    destruct Hq as (El & h & a & l1 & l2 & Ha & Hs). assert (Hr' : reach_any o sh w') by (eapply any_step; eauto).
    destruct (any_inv o sh w' So Hr') as (act' & s0s' & I'). destruct (lookup_lt_is_Some_2 s0s' t) as [s0 Es0].
    { rewrite <- (ww_len1 _ _ _ _ _ I'). eapply lookup_lt_Some; eauto. }
    destruct (ww_th _ _ _ _ _ I' t _ s0 Es' Es0) as [HW HO]. cbn [snd] in HW, HO. assert (Ea : act' = true) by (rewrite (ww_act _ _ _ _ _ I'); apply bool_decide_eq_true_2; auto).
    unfold p_get_objective, at_ at 1. rewrite Es'. cbn [deref mbind res_bind]. unfold get_objective. rewrite (ow_act _ _ _ _ _ HO), Ea. rewrite at_vr by (apply HO; auto). cbn [mbind res_bind].
    eexists. rewrite (Hb G1 G2). reflexivity.
  Qed.

  (** the literals add_literal returned to the thread and that were asserted by a unit clause have been delivered *)
  Definition delivered (t : nat) (evs : list event) w w' : Prop := forall l, l ∈ fresh t evs -> [l] ∈ w_log w -> l ∈ assigned w' t.

  Lemma final_quiet o sh w w' t : final o sh w w' t -> quiet_check o w w' t.
  Proof. intros (A & B & C & D & E). split; auto. Qed.

  Theorem C41_progress_partial o sh evs w w' t g d : step_ok (V := V) o -> history o sh evs w -> final o sh w w' t -> o_global o = Some g -> vstep g = Some d ->
    delivered t evs w w' ->
    exists v b, p_get_objective (w_p w') t = Ok (Some (v, b)) /\ v = linV (api_value (w_p w') t) (sh_obj sh) /\
      ((exists u, (u, false) ∈ w_rep w) -> b = false) /\
      ((forall u, (u, false) ∉ w_rep w) -> forall best, (best, true) ∈ w_rep w -> vle (vadd best d) v).
  Proof.
    intros So Hh Hf Eg Ed Hd. pose proof (history_history_any o sh evs w Hh) as Hha. pose proof (history_any_reach o sh evs w Hha) as Hra.
    pose proof (good_any o sh w Hra ltac:(congruence)) as G. destruct (any_inv o sh w So Hra) as (act & s0s1 & I1).
    destruct (quiet_thread o sh evs w w' t g d act s0s1 So Eg Ed Hha (final_quiet o sh w w' t Hf) I1) as (Est & Erep & off & s & off' & s' & Es & Es' & [_ HP] & [Hsub Ebv] & Hn & Hb).
    destruct (final_view o sh w w' t So Hf) as (Hr' & s0s & new0 & facts0 & ass & s0 & sx & fs & I & VW & HL & Eo & Hact & Hrow & Hopt).
    assert (sx = s') as -> by (destruct (vw_at _ _ _ _ _ _ _ _ VW) as (offx & Ex); congruence).
    eexists _, _. split; [exact Eo|]. split; auto. split.
    - intros (u & Hu). destruct (good_unbounded _ _ u G Hu) as [G1 G2]. auto.
    - intros Hu bst Hv. destruct (good_bounded _ _ bst G Hu Hv) as (G1 & G2 & G3).
      assert (Hgen : ob_gen (s_obj s) = os_gen (p_state (w_p w))).
      { destruct (Nat.eq_dec (ob_gen (s_obj s)) (os_gen (p_state (w_p w)))) as [|Hne]; auto. specialize (Hn Hne). congruence. }
      specialize (HP Hgen G1). rewrite G2 in HP. destruct HP as (b & B1 & B2 & B3 & B4 & B5 & B6).
      pose proof VW as [_ P Ea _ _ T Nv]. assert (Hbs : bsat (val s') b) by (eapply live_bsat; eauto; rewrite Ea; apply Hd; auto).
      destruct (pd_obj1 _ _ _ _ _ _ _ P (proj1 (proj2 Hf))) as (_ & _ & Rb). destruct Rb as ((_ & _ & _ & Hval) & _); [congruence|].
      unfold bsat in Hbs. rewrite B2, B4, B3, <- Ebv, (tb_bvar _ _ _ _ _ T) in Hbs. rewrite Hval in Hbs.
      2:{ apply (md_R _ _ _ _ (lv_M _ _ _ _ HL)). apply (j_rows _ (md_J _ _ _ _ (lv_M _ _ _ _ HL))). }
      rewrite (linV_ext _ (api_value (w_p w') t)) in Hbs.
      2:{ intros c x _. symmetry. exact (api_rd o sh ass w' t s0 s' fs x (ri_nd _ _ _ _ _ _ _ I) VW). }
      eapply vle_trans; [|exact Hbs]. apply vadd_le_mono; auto. apply vle_refl.
  Qed.

  (** ** Runs in which a model is reported after the check that accepted it *)
  Definition ev_thread (e : event) : nat := match e with EvPropagate t _ _ _ => t | EvCheck t _ _ _ _ _ => t | EvUndo t => t | EvModel t => t end.
  Definition is_model (e : event) : bool := match e with EvModel _ => true | _ => false end.
  (** callbacks on other threads, none of which reports a model *)
  Inductive meanwhile (o : options) (t : nat) : list event -> world V Sym -> world V Sym -> Prop :=
    | mw_refl w : meanwhile o t [] w w
    | mw_step evs w1 w2 e w3 : meanwhile o t evs w1 w2 -> ev_thread e <> t -> is_model e = false -> adm e w2 -> eq_safe e w2 -> step o e w2 w3 -> meanwhile o t (evs ++ [e]) w1 w3.
  (** every report of thread [t] follows a check of [t] that accepted a total
      assignment; meanwhile other threads may run but do not report *)
  Inductive orderly (o : options) : shot V Sym -> list event -> world V Sym -> Prop :=
    | ord_start sh w : history o sh [] w -> orderly o sh [] w
    | ord_step sh evs w e w' : orderly o sh evs w -> is_model e = false -> adm e w -> eq_safe e w -> step o e w w' -> orderly o sh (evs ++ [e]) w'
    | ord_model sh evs w t h a l1 l2 w1 oth w2 w3 : orderly o sh evs w ->
        adm (EvCheck t h a true l1 l2) w -> step o (EvCheck t h a true l1 l2) w w1 -> w_log w1 = w_log w -> accepted w1 t -> delivered t evs w w1 ->
        meanwhile o t oth w1 w2 -> adm (EvModel t) w2 -> step o (EvModel t) w2 w3 ->
        orderly o sh (((evs ++ [EvCheck t h a true l1 l2]) ++ oth) ++ [EvModel t]) w3.

  Lemma meanwhile_history o t oth w1 w2 sh evs : meanwhile o t oth w1 w2 -> history o sh evs w1 -> history o sh (evs ++ oth) w2.
  Proof. intros Hm. revert evs. induction Hm; intros evs0 Hh; [rewrite app_nil_r; auto|]. rewrite app_assoc. eapply hist_step; eauto. Qed.
  Lemma orderly_history o sh evs w : orderly o sh evs w -> history o sh evs w.
  Proof.
    induction 1; auto; [eapply hist_step; eauto|]. eapply hist_step; [|eauto|exact Logic.I|eauto]. eapply meanwhile_history; eauto.
    eapply hist_step; eauto. exact Logic.I.
  Qed.
  Lemma other_step o e w w' t : ev_thread e <> t -> is_model e = false -> step o e w w' -> w_rep w' = w_rep w /\ p_slvs (w_p w') !! t = p_slvs (w_p w) !! t.
  Proof.
    intros Ht Hm (fuel & E). destruct e as [u h a lits|u h a total l1 l2|u|u]; cbn [wstep ev_thread is_model] in *; [| | |discriminate].
    - apply bind_ok in E as ([[p log] ok] & E1 & E2). injection E2 as <-. cbn. unfold p_propagate in E1.
      apply bind_ok in E1 as ([off s] & _ & E1). apply bind_ok in E1 as ([[s1 log1] ok1] & _ & E1). injection E1 as <- _ _. cbn. split; auto. rewrite list_lookup_insert_ne by auto. destruct (_ && _); auto.
    - apply bind_ok in E as ([off0 s0] & _ & E). apply bind_ok in E as ([[p log] ok] & E1 & E2). injection E2 as <-. cbn. unfold p_check in E1.
      apply bind_ok in E1 as ([off s] & _ & E1). apply bind_ok in E1 as ([[[off1 s1] log1] ok1] & _ & E1). injection E1 as <- _ _. cbn. rewrite list_lookup_insert_ne by auto. auto.
    - apply bind_ok in E as (p & E1 & E2). injection E2 as <-. cbn. unfold p_undo in E1. apply bind_ok in E1 as ([off s] & _ & E1). apply bind_ok in E1 as (s1 & _ & E1).
      injection E1 as <-. cbn. rewrite list_lookup_insert_ne by auto. auto.
  Qed.
  Lemma meanwhile_same o t oth w1 w2 : meanwhile o t oth w1 w2 -> w_rep w2 = w_rep w1 /\ p_get_objective (w_p w2) t = p_get_objective (w_p w1) t.
  Proof.
    intros Hm. assert (G : w_rep w2 = w_rep w1 /\ p_slvs (w_p w2) !! t = p_slvs (w_p w1) !! t).
    { induction Hm as [|evs w1 w2 e w3 Hm [IH1 IH2] Ht Hmo Ha Hs E]; auto. destruct (other_step o e w2 w3 t Ht Hmo E) as [-> ->]. auto. }
    destruct G as [G1 G2]. split; auto. unfold p_get_objective, at_. rewrite G2. auto.
  Qed.
  Lemma model_step o t w w' : step o (EvModel t) w w' -> exists v, p_get_objective (w_p w) t = Ok v /\ w_rep w' = match v with Some x => w_rep w ++ [x] | None => w_rep w end.
  Proof. intros (fuel & E). cbn [wstep] in E. apply bind_ok in E as (v & Ev & E). apply bind_ok in E as (p & _ & E). injection E as <-. exists v. auto. Qed.
  Lemma no_model_rep o e w w' : is_model e = false -> step o e w w' -> w_rep w' = w_rep w.
  Proof. intros Hm Hs. apply (other_step o e w w' (S (ev_thread e))); auto. Qed.
  Lemma objective_none o sh w t x : step_ok (V := V) o -> reach_any o sh w -> sh_obj sh = [] -> p_get_objective (w_p w) t <> Ok (Some x).
  Proof.
    intros So Hr Eo E. destruct (any_inv o sh w So Hr) as (act & s0s & I). unfold p_get_objective, at_ at 1 in E. destruct (p_slvs (w_p w) !! t) as [[off s]|] eqn:Es; [|discriminate].
    cbn [deref mbind res_bind] in E. destruct (lookup_lt_is_Some_2 s0s t) as [s0 Es0]. { rewrite <- (ww_len1 _ _ _ _ _ I). eapply lookup_lt_Some; eauto. }
    destruct (ww_th _ _ _ _ _ I t _ s0 Es Es0) as [_ HO]. unfold get_objective in E. cbn [snd] in HO. rewrite (ow_act _ _ _ _ _ HO), (ww_act _ _ _ _ _ I), bool_decide_eq_false_2 in E; [discriminate|auto].
  Qed.

  (** each report is better than all before: bounded ones by at least [d], and
      after an unbounded one all are unbounded *)
  Definition improving (d : V) (xs : list (V * bool)) : Prop := forall i j x y, i < j -> xs !! i = Some x -> xs !! j = Some y ->
    (x.2 = false -> y.2 = false) /\ (x.2 = true -> y.2 = true -> vle (vadd x.1 d) y.1).

  Theorem C41_reports_improve_partial o sh evs w g d : step_ok (V := V) o -> o_global o = Some g -> vstep g = Some d -> orderly o sh evs w -> improving d (w_rep w).
  Proof.
    intros So Eg Ed Ho. induction Ho as [sh w Hh|sh evs w e w' Ho IH Hm Ha Hs E|sh evs w t h a l1 l2 w1 oth w2 w3 Ho IH Ha1 E1 El Hacc Hd Hmw Ha3 E3].
    - inversion Hh as [sh1 p log ? ? E Q1 Q2 Q3| |? evs1 ? ? ? ? ? ? ? Q1 Q2]; subst; try (intros i j x y _ Hx; cbn in Hx; rewrite lookup_nil in Hx; discriminate). destruct evs1; discriminate.
    - rewrite (no_model_rep o e w w' Hm E). auto.
    - pose proof (orderly_history o sh evs w Ho) as Hh. destruct (meanwhile_same o t oth w1 w2 Hmw) as [R2 O2]. destruct (model_step o t w2 w3 E3) as (v & Ev & ->).
      rewrite R2. pose proof (no_model_rep o (EvCheck t h a true l1 l2) w w1 eq_refl E1) as R1. rewrite R1. destruct v as [x|]; [|auto]. rewrite O2 in Ev.
      destruct (decide (sh_obj sh = [])) as [En|Hne].
      { exfalso. refine (objective_none o sh w1 t x So _ En Ev). exact (any_step o sh w _ w1 (history_any_reach o sh evs w (history_history_any o sh evs w Hh)) Ha1 E1). }
      assert (Hf : final o sh w w1 t). { split; [eapply history_reach; eauto|]. split; auto. split; auto. split; auto. exists h, a, l1, l2. auto. }
      destruct (C41_progress_partial o sh evs w w1 t g d So Hh Hf Eg Ed Hd) as (v & b & Ev' & _ & P1 & P2). rewrite Ev' in Ev. injection Ev as <-.
      intros i j x y Hij Hx Hy. assert (Hj : j < length (w_rep w ++ [(v, b)])) by (eapply lookup_lt_Some; eauto). rewrite app_length in Hj. change (length [(v, b)]) with 1 in Hj.
      rewrite lookup_app_l in Hx by lia. destruct (decide (j < length (w_rep w))) as [Hjl|Hjg]; [rewrite lookup_app_l in Hy by auto; exact (IH i j x y Hij Hx Hy)|].
      assert (j = length (w_rep w)) as -> by lia. rewrite lookup_app_r, Nat.sub_diag in Hy by lia. cbn in Hy. injection Hy as <-. cbn.
      apply elem_of_list_lookup_2 in Hx. destruct x as [vx bx]. cbn. split.
      + intros ->. apply P1. eauto.
      + intros -> ->. apply P2; auto. intros u Hu. specialize (P1 (ex_intro _ u Hu)). discriminate.
  Qed.

  (** hence only finitely many bounded reports if the objective is bounded and
      the standard part of the step is positive *)
  Theorem C41_number_of_reports o sh evs w g d v0 b0 : step_ok (V := V) o -> o_global o = Some g -> vstep g = Some d -> orderly o sh evs w -> w_rep w !! 0 = Some (v0, b0) ->
    (forall u, (u, false) ∉ w_rep w) -> forall n v b, w_rep w !! n = Some (v, b) -> (Q2Qc (inject_Z (Z.of_nat n)) * (vemb d).1 + (vemb v0).1 <= (vemb v).1)%Qc.
  Proof.
    intros So Eg Ed Ho E0 Hu. pose proof (C41_reports_improve_partial o sh evs w g d So Eg Ed Ho) as Hi.
    induction n as [|n IH]; intros v b En.
    - rewrite E0 in En. injection En as <- _. change (Q2Qc (inject_Z (Z.of_nat 0))) with 0%Qc. qclra.
    - destruct (w_rep w !! n) as [[v1 b1]|] eqn:E1. 2:{ apply lookup_ge_None in E1. apply lookup_lt_Some in En. lia. }
      specialize (IH v1 b1 eq_refl). destruct (Hi n (S n) _ _ (Nat.lt_succ_diag_r n) E1 En) as [_ Hi2]. cbn in Hi2.
      assert (b1 = true) as -> by (destruct b1; auto; exfalso; eapply Hu, elem_of_list_lookup_2; eauto).
      assert (b = true) as -> by (destruct b; auto; exfalso; eapply Hu, elem_of_list_lookup_2; eauto). specialize (Hi2 eq_refl eq_refl).
      apply vle_emb in Hi2. rewrite vemb_add in Hi2. cbn in Hi2.
      assert (Es : Q2Qc (inject_Z (Z.of_nat (S n))) = (Q2Qc (inject_Z (Z.of_nat n)) + 1)%Qc).
      { apply Qc_is_canon. unfold Qcplus. cbn [this Q2Qc]. rewrite !Qred_correct. rewrite Nat2Z.inj_succ. unfold Z.succ. rewrite inject_Z_plus. reflexivity. }
      rewrite Es. assert (Hs : ((vemb v1).1 + (vemb d).1 <= (vemb v).1)%Qc) by (destruct Hi2 as [Hx|[Hx _]]; [apply Qclt_le_weak; exact Hx|rewrite Hx; apply Qcle_refl]).
      eapply Qcle_trans; [|exact Hs]. replace ((Q2Qc (inject_Z (Z.of_nat n)) + 1) * (vemb d).1 + (vemb v0).1)%Qc with ((Q2Qc (inject_Z (Z.of_nat n)) * (vemb d).1 + (vemb v0).1) + (vemb d).1)%Qc by ring.
      apply Qcplus_le_compat; [exact IH|apply Qcle_refl].
  Qed.
End session.
