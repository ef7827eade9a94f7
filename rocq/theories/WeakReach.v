(** * Sessions with the equality bug: what holds in every state *)

From stdpp Require Import list_numbers.
From Verif Require Import Num Sums Tableau TableauProofs Bland Solver SolverBase SolverStep Simplex SimplexLoop Hist Updates Core CoreSolve Propagate OptSelect Weak WeakHist.
From Verif Require Import Spec Prepare Propagator World ThreadOk WorldProofs Reach.

Section weakopt.
  Context {V : Type} `{VL : ValueLaws V}.
  Implicit Types s : solver V.
  Implicit Types ks : list nat.

  (** the objective, and the bounds asserted on it ([s0]: the solver after
      init) *)
  Record OW (o : options) (act : bool) s0 (log : list (list Z)) s : Prop := {
    ow_act : ob_active (s_obj s) = act;
    ow_var : act = true -> ob_var (s_obj s) < nv s;
    ow_bvar : act = true -> glob o = true -> ob_bound_var (s_obj s) < nv s;
    ow_gen : ob_gen (s_obj s) <> 0 -> act = true;
    ow_obv : ob_var (s_obj s) = ob_var (s_obj s0);
    ow_bs : exists ex, s_bounds s = s_bounds s0 ++ ex /\ forall b, b ∈ ex -> [b_lit b] ∈ log;
  }.
  Lemma OW_log o act s0 log log' s : log ⊆ log' -> OW o act s0 log s -> OW o act s0 log' s.
  Proof. intros Hl [A B C D E (ex & F & G)]. constructor; auto. exists ex. split; auto. Qed.

  (** clauses are only added *)
  Lemma prop_bounds_log h test cl bs : forall s log, log ⊆ (prop_bounds h test cl bs s log).1.2.
  Proof.
    induction bs as [|b bs IH]; intros s log; cbn [prop_bounds]; [cbn; intros c; auto|]. destruct (_ && _); [|apply IH]. cbv zeta.
    destruct (h_reply _ _); [etransitivity; [|apply IH]|cbn]; intros c Hc; apply elem_of_app; auto.
  Qed.
  Lemma prop_row_log h i s log r : prop_row h i s log = Ok r -> log ⊆ r.1.2.
  Proof.
    unfold prop_row. intros E. apply bind_ok in E as (v & _ & E). cbv zeta in E. apply bind_ok in E as ([lo up] & _ & E).
    destruct (negb up && negb lo); [injection E as <-; reflexivity|]. apply bind_ok in E as ([l u] & _ & E). apply bind_ok in E as (yi & _ & E). apply bind_ok in E as (y & _ & E).
    match type of E with (let '(_, _) := ?m in _) = _ => destruct m as [[s1 log1] ok1] eqn:E1 end.
    assert (Hl : log ⊆ log1).
    { destruct (u.1); [|injection E1 as <- <- <-; reflexivity].
      match type of E1 with ?m = _ => change log1 with (s1, log1, ok1).1.2; rewrite <- E1; apply prop_bounds_log end. }
    destruct ok1; cbn [negb] in E; [|injection E as <-; exact Hl]. etransitivity; [exact Hl|].
    destruct (l.1); injection E as <-; [apply prop_bounds_log|reflexivity].
  Qed.
  Lemma prop_rows_log h ch is : forall s log r, prop_rows h ch is s log = Ok r -> log ⊆ r.1.2.
  Proof.
    induction is as [|i is IH]; intros s log r; cbn [prop_rows]; [intros [= <-]; reflexivity|]. intros E. apply bind_ok in E as ([[s1 log1] ok] & E1 & E).
    apply prop_row_log in E1. cbn in E1. etransitivity; [exact E1|]. destruct ok; [eapply IH; eauto|injection E as <-; reflexivity].
  Qed.
  Lemma solve_log fuel h (o : options) a lits s log r : solve fuel h o a lits s log = Ok r -> log ⊆ r.1.2.
  Proof.
    unfold solve. intros E. apply bind_ok in E as ([s1 ok] & _ & E). destruct ok.
    - unfold propagate_ in E. destruct (o_pmode o); [injection E as <-; reflexivity|eapply prop_rows_log; eauto..].
    - injection E as <-. cbn. intros c Hc. apply elem_of_app; auto.
  Qed.

  Lemma W_obj s0 ks s ob : W s0 ks s -> W s0 ks (set_obj ob s).
  Proof. intros [[Sh Hr Hq] HR Hnv Hh]. constructor; auto. constructor; auto. destruct Sh. constructor; auto. Qed.
  Lemma W_tab s0 ks s t : W s0 ks s -> tab_wf t -> t_rows t = t_rows (s_tab s) -> W s0 ks (set_tab t s).
  Proof.
    intros HW Wt Et. pose proof HW as [[Sh Hr Hq] HR Hnv Hh].
    assert (Hrw : forall a, rows (set_tab t s) a <-> rows s a) by (intros a; apply rows_same; auto; intros y; split; reflexivity).
    apply (W_move s0 ks s); auto.
    - eapply vreach_quiet; [apply vreach_refl|]. repeat (split; [reflexivity|]). split; intros y; auto.
    - constructor; auto; [|apply Hrw; exact Hr].
      apply (shape_keep s); auto; [intros y; split; reflexivity|exact (sh_conf _ Sh)|exact (sh_pq _ Sh)|exact (sh_at _ Sh)|exact (sh_bt _ Sh)].
  Qed.
  Lemma W_bound s0 ks s b : W s0 ks s -> b_var b < nv s -> W s0 ks (set_bounds (s_bounds s ++ [b]) s).
  Proof.
    intros [[Sh Hr Hq] HR Hnv Hh] Hb. constructor; auto. constructor; auto. destruct Sh. constructor; auto.
    - intros c Hc. cbn in Hc. apply elem_of_app in Hc as [Hc|Hc]; auto. apply elem_of_list_singleton in Hc as ->. auto.
    - intros x c Hc. destruct (sh_vb x c Hc). split; auto. cbn. apply elem_of_app; auto.
  Qed.
  Lemma W_clause s0 ks s c : W s0 ks s -> W s0 ks (set_clause c s).
  Proof. intros [[Sh Hr Hq] HR Hnv Hh]. constructor; auto. constructor; auto. destruct Sh. constructor; auto. Qed.
  Lemma W_level s0 ks s : W s0 ks s -> match last (s_offs s) with None => 0 | Some f => o_level f end = topl ks.
  Proof. intros [_ _ _ Hh]. pose proof (vhist_top _ _ _ _ _ _ Hh) as Ht. destruct (last (s_offs s)) as [f|]; [apply Ht|subst ks; auto]. Qed.

  Lemma ridx_entry s i j a d : shape s -> (j, a, d) ∈ row_entries (s_tab s) i -> i < s_nb s /\ j < s_nn s.
  Proof. intros Sh Hin. destruct (row_entries_facts _ _ _ _ _ Sh Hin) as (Hnz & Hj & E & _). auto. Qed.

  Lemma enter_row_w s i : shape s -> exists ee pos, update_row (s_tab s) i (enter_cell s) (nv s, false) = Ok (ee, pos) /\
    (ee = nv s \/ (ee < nv s /\ exists j, j < s_nn s /\ ee = idx s j)).
  Proof.
    intros Sh. destruct (le_lt_dec (s_nb s) i) as [Hge|Hlt].
    - assert (En : row_entries (s_tab s) i = []).
      { destruct (row_entries (s_tab s) i) as [|[[j a] d] r] eqn:E; auto. exfalso. assert (Hin : (j, a, d) ∈ row_entries (s_tab s) i) by (rewrite E; left).
        apply ridx_entry in Hin; auto. lia. }
      rewrite update_row_mfold, En. exists (nv s), false. split; auto.
    - destruct (enter_row s i Sh Hlt) as (ee & pos & E & Hee). exists ee, pos. split; auto.
      destruct Hee as [[-> _]|(Hee & j & a & d & Hin & Eee & _)]; auto. right. split; auto. exists j. split; auto. apply ridx_entry in Hin; tauto.
  Qed.

  Definition obsame (s s' : solver V) : Prop := ob_var (s_obj s') = ob_var (s_obj s) /\ ob_bound_var (s_obj s') = ob_bound_var (s_obj s) /\
    ob_active (s_obj s') = ob_active (s_obj s) /\ ob_gen (s_obj s') = ob_gen (s_obj s) /\ s_bounds s' = s_bounds s /\
    ob_discard (s_obj s') = ob_discard (s_obj s).
  Lemma obsame_eq s s' : s_obj s' = s_obj s -> s_bounds s' = s_bounds s -> obsame s s'.
  Proof. intros E E2. unfold obsame. rewrite E, E2. auto 8. Qed.
  Lemma obsame_trans s1 s2 s3 : obsame s1 s2 -> obsame s2 s3 -> obsame s1 s3.
  Proof. unfold obsame. intros (A1 & A2 & A3 & A4 & A5 & A6) (B1 & B2 & B3 & B4 & B5 & B6). rewrite B1, B2, B3, B4, B5, B6. auto 8. Qed.

  (** one iteration of optimize *)
  Lemma optimize_step_w s0 ks (o : options) s : W s0 ks s -> ob_var (s_obj s) < nv s ->
    exists s' fin, optimize_step o s = Ok (s', fin) /\ W s0 ks s' /\ obsame s s'.
  Proof.
    intros HW Hz. pose proof (k_shape _ (wk_K _ _ _ HW)) as Sh. unfold optimize_step. rewrite at_vr by auto. cbn [mbind res_bind].
    destruct (enter_row_w s (v_rindex (vr s (ob_var (s_obj s))) - s_nn s) Sh) as (ee & pos & E & Hee). change (length (s_vars s)) with (nv s). rewrite E. cbn [mbind res_bind].
    destruct Hee as [->|(Hee & j & Hj & Eee)].
    - rewrite Nat.eqb_refl. eexists _, true. split; [reflexivity|]. split; [apply W_obj; auto|]. repeat split.
    - destruct (Nat.eqb_spec ee (nv s)); [lia|]. rewrite at_vr by auto. cbn [mbind res_bind]. change (v_rindex (vr s ee)) with (ridx s ee).
      destruct (idx_nonbasic s j Sh Hj) as (Hx & Bx & Rx). rewrite <- Eee in Hx, Bx, Rx. rewrite Rx.
      destruct (leave_col s ee j pos Sh Hee Hj) as (t & cand & E1 & Wt & Et & Hcand). rewrite E1. cbn [mbind res_bind].
      set (s1 := set_tab t s). assert (HW1 : W s0 ks s1) by (apply W_tab; auto). pose proof (wk_K _ _ _ HW1) as HK1. pose proof HK1 as [Sh1 Hr1 Hq1].
      rewrite (W_level s0 ks s1 HW1).
      destruct cand as [[[ll v_e] bv]|].
      + destruct Hcand as [(e0 & b0 & Hin0 & Hs0 & -> & Ev & -> & _) _]. destruct e0 as [[i0 a0] d0]. cbn [fst].
        destruct (col_entries_facts _ _ _ _ _ Sh Hin0) as (Hi0 & Eg0 & Ha0 & Hd0).
        destruct (idx_basic s i0 Sh Hi0) as (Hl & Bl & Rl). fold (yv s i0) in Hl, Bl, Rl. set (l := yv s i0) in *.
        rewrite (at_vr s1 l) by exact Hl. cbn [mbind res_bind]. change (v_rindex (vr s1 l)) with (ridx s l). change (s_nn s1) with (s_nn s). rewrite Rl.
        replace (i0 + s_nn s - s_nn s) with i0 by lia.
        assert (Hnz : tget (s_tab s1) i0 j <> 0%Qc). { change (tget t i0 j <> 0%Qc). unfold tget. rewrite Et. fold (tget (s_tab s) i0 j). rewrite Eg0. apply qmk_nz; auto. }
        destruct (wpivot o (topl ks) s1 i0 j (b_val b0) HK1 Hnz) as (s2 & -> & HK2 & Vr2 & Pst & _). cbn [mbind res_bind].
        exists s2, false. split; auto. destruct (vreach_facts _ _ _ Vr2) as (_ & St2 & _). split.
        * apply (W_move s0 ks s1); auto. apply Pst.
        * apply obsame_eq; [rewrite (stat_obj _ _ St2)|rewrite (stat_bounds _ _ St2)]; reflexivity.
      + destruct (if pos then v_upper (vr s ee) else v_lower (vr s ee)) as [b|].
        * destruct (update_ok o (topl ks) s1 j (b_val b) Sh1 Hj) as (s2' & E2' & _ & _ & _ & _ & _ & _ & _ & HQ).
          destruct (update_step o (topl ks) s1 j (b_val b) Sh1 Hr1 Hj) as (s2 & E2 & Sh2 & Hr2 & Vr2 & Cl2 & Pm2 & Tb2 & Hval2 & _).
          rewrite E2 in E2'. injection E2' as <-. destruct (HQ Hq1) as [Q2 _]. rewrite E2. cbn [mbind res_bind]. exists s2, false. split; auto.
          destruct (vreach_facts _ _ _ Vr2) as (_ & St2 & _). split.
          -- apply (W_move s0 ks s1); auto; [constructor; auto|]. intros c. apply rows_same; auto.
          -- apply obsame_eq; [rewrite (stat_obj _ _ St2)|rewrite (stat_bounds _ _ St2)]; reflexivity.
        * eexists _, true. split; [reflexivity|]. split; [apply W_obj; auto|]. repeat split.
  Qed.
  Lemma optimize_w s0 ks (o : options) fuel s : W s0 ks s -> (ob_active (s_obj s) = true -> ob_var (s_obj s) < nv s) ->
    forall s', optimize fuel o s = Ok s' -> W s0 ks s' /\ obsame s s'.
  Proof.
    intros HW Hz s'. unfold optimize. destruct (ob_active (s_obj s)); [|intros [= <-]; split; auto; apply obsame_eq; auto]. specialize (Hz eq_refl).
    revert s HW Hz. induction fuel as [|fuel IH]; intros s HW Hz; cbn [optimize_loop]; [discriminate|].
    destruct (optimize_step_w s0 ks o s HW Hz) as (s1 & fin & -> & HW1 & Ob1). cbn [mbind res_bind]. destruct fin.
    - intros [= <-]. auto.
    - intros E. destruct (IH s1) as [HW2 Ob2]; auto.
      + destruct Ob1 as (-> & _). rewrite (wk_nv _ _ _ HW1), <- (wk_nv _ _ _ HW). auto.
      + split; auto. eapply obsame_trans; eauto.
  Qed.
  (** it does not throw and has no undefined behaviour; whether it ends is not claimed *)
  Lemma optimize_w_safe s0 ks (o : options) fuel s : W s0 ks s -> (ob_active (s_obj s) = true -> ob_var (s_obj s) < nv s) ->
    optimize fuel o s = Fuel \/ exists s', optimize fuel o s = Ok s'.
  Proof.
    intros HW Hz. unfold optimize. destruct (ob_active (s_obj s)); [|eauto]. specialize (Hz eq_refl).
    revert s HW Hz. induction fuel as [|fuel IH]; intros s HW Hz; cbn [optimize_loop]; auto.
    destruct (optimize_step_w s0 ks o s HW Hz) as (s1 & fin & -> & HW1 & Ob1). cbn [mbind res_bind]. destruct fin; [eauto|].
    apply IH; auto. destruct Ob1 as (-> & _). rewrite (wk_nv _ _ _ HW1), <- (wk_nv _ _ _ HW). auto.
  Qed.

  Lemma OW_pstat o act s0 log s s' : pstat s' = pstat s -> OW o act s0 log s -> OW o act s0 log s'.
  Proof.
    intros P [A B C D F G]. assert (E : s_obj s' = s_obj s /\ nv s' = nv s /\ s_bounds s' = s_bounds s) by (unfold pstat in P; split; [|split]; congruence). destruct E as (E1 & E2 & E3).
    constructor; rewrite ?E1, ?E2, ?E3; auto.
  Qed.
  Lemma OW_same o act s0 log s s' : obsame s s' -> nv s' = nv s -> OW o act s0 log s -> OW o act s0 log s'.
  Proof. intros (E1 & E2 & E3 & E4 & E5 & _) E [A B C D F G]. constructor; rewrite ?E1, ?E2, ?E3, ?E4, ?E5, ?E; auto. Qed.

  (** [okf b P r]: like [okub], but running out of fuel is allowed if [b] *)
  Definition okf {A} (b : bool) (P : A -> Prop) (r : res A) : Prop := match r with Ok a => P a | UB => True | Exn => False | Fuel => b = true end.
  Lemma okf_bind {A B} b (P : A -> Prop) (Q : B -> Prop) (m : res A) (f : A -> res B) : okf b P m -> (forall a, P a -> okf b Q (f a)) -> okf b Q (m ≫= f).
  Proof. destruct m; cbn; intros Hm Hf; auto; contradiction. Qed.
  Lemma okf_okub {A} b (P : A -> Prop) (r : res A) : okub P r -> okf b P r.
  Proof. destruct r; cbn; auto; contradiction. Qed.
  Lemma okf_weak {A} b (P Q : A -> Prop) (r : res A) : (forall a, P a -> Q a) -> okf b P r -> okf b Q r.
  Proof. destruct r; cbn; auto. Qed.

  Lemma assert_w s0 ks (o : options) h lit v s log : W s0 ks s -> OW o true s0 log s -> glob o = true ->
    W s0 ks (assert_bound h lit v s log).1.1 /\ OW o true s0 (assert_bound h lit v s log).1.2 (assert_bound h lit v s log).1.1.
  Proof.
    intros HW HO Hg. unfold assert_bound. cbn [fst snd]. split.
    - apply W_clause, W_bound; auto. cbn. exact (ow_bvar _ _ _ _ _ HO eq_refl Hg).
    - destruct HO as [A B C D E (ex & F & G)]. constructor; auto. cbn. rewrite F. eexists. rewrite <- app_assoc. split; [reflexivity|].
      intros b Hb. apply elem_of_app. apply elem_of_app in Hb as [Hb|Hb]; [left; auto|right]. apply elem_of_list_singleton in Hb as ->. cbn. left.
  Qed.
  Lemma OW_set_obj o act s0 log s ob : OW o act s0 log s -> ob_var ob = ob_var (s_obj s) -> ob_bound_var ob = ob_bound_var (s_obj s) ->
    ob_active ob = ob_active (s_obj s) -> (ob_gen ob <> 0 -> act = true) -> OW o act s0 log (set_obj ob s).
  Proof. intros [A B C D E F] E1 E2 E3 E4. constructor; cbn; rewrite ?E1, ?E2, ?E3; auto. Qed.
  Lemma integrate_w s0 ks (o : options) act h lit st s log : step_ok (V := V) o -> W s0 ks s -> OW o act s0 log s -> (os_gen st <> 0 -> act = true) ->
    okub (fun r => W s0 ks r.1.1 /\ OW o act s0 r.1.2 r.1.1) (integrate_objective h o lit st s log).
  Proof.
    intros So HW HO Hst. unfold integrate_objective. destruct (o_global o) as [g|] eqn:Eg; [|cbn; auto]. unfold os_value.
    destruct (Nat.eqb_spec (ob_gen (s_obj s)) (os_gen st)) as [Ee|Ee]; cbn [negb].
    - cbn. split; [apply W_obj; auto|]. apply OW_set_obj; auto. cbn. intros Hx. apply Hst. congruence.
    - assert (Ha : act = true). { destruct (Nat.eq_dec (os_gen st) 0) as [Ez|Ez]; auto. apply (ow_gen _ _ _ _ _ HO). congruence. } subst act.
      set (s1 := set_obj _ s). assert (HO1 : OW o true s0 log s1) by (apply OW_set_obj; auto). assert (HW1 : W s0 ks s1) by (apply W_obj; auto).
      destruct (os_bounded st).
      + destruct (vstep g) as [d|] eqn:Ed; [|exfalso; eapply So; eauto]. cbn [okub]. apply assert_w; auto. unfold glob. rewrite Eg. auto.
      + cbn. split; [apply W_obj; auto|]. apply OW_set_obj; auto.
  Qed.
  Lemma discard_w s0 ks (o : options) act h lit s log : W s0 ks s -> OW o act s0 log s ->
    okub (fun r => W s0 ks r.1.1 /\ OW o act s0 r.1.2 r.1.1) (discard_bounded h o lit s log).
  Proof.
    intros HW HO. unfold discard_bounded. destruct (ob_active (s_obj s)) eqn:Ea; cbn [negb orb]; [|cbn; auto].
    assert (Hact : act = true) by (rewrite <- (ow_act _ _ _ _ _ HO); auto). subst act.
    destruct (o_global o) as [g|] eqn:Eg; cbn [negb orb]; [|cbn; auto]. destruct (ob_bounded (s_obj s)); cbn [negb orb]; [|cbn; auto].
    destruct (ob_discard (s_obj s)); cbn [negb orb]; [|cbn; auto]. rewrite at_vr by (apply HO; auto). cbn [mbind res_bind okub].
    apply assert_w; auto. unfold glob. rewrite Eg. auto.
  Qed.

  Lemma t_check_w s0 ks (o : options) act fuel h (a : asg) total l1 l2 facts foff st off s log : step_ok (V := V) o ->
    W s0 ks s -> OW o act s0 log s -> (os_gen st <> 0 -> act = true) -> topl ks <= a_dl a -> 8 ^ nv s <= fuel ->
    okf total (fun r => W s0 (if (a_dl a =? 0) && (off <? foff) then kenter 0 ks else ks) r.1.1.2 /\ OW o act s0 r.1.2 r.1.1.2)
      (t_check fuel h o a total l1 l2 facts foff st off s log).
  Proof.
    intros So HW HO Hst Ht Hf. unfold t_check. set (ks1 := if (a_dl a =? 0) && (off <? foff) then kenter 0 ks else ks).
    apply okf_bind with (P := fun r : nat * solver V * list (list Z) * bool => W s0 ks1 r.1.1.2 /\ OW o act s0 r.1.2 r.1.1.2).
    { apply okf_okub. unfold ks1. destruct ((a_dl a =? 0) && (off <? foff)) eqn:Ed; [|cbn; auto].
      apply andb_true_iff in Ed as [Ed _]. apply Nat.eqb_eq in Ed. destruct (off + foff <=? length facts); [|cbn; auto]. cbn [guard_ub mbind res_bind].
      pose proof (solve_w s0 ks h o a (take foff (drop off facts)) fuel s log HW Ht Hf) as Hs. pose proof (solve_log fuel h o a (take foff (drop off facts)) s log) as Hl.
      destruct (solve _ _ _ _ _ _ _) as [[[s1 log1] ok1]| | |]; cbn [okub] in Hs; [|exact Logic.I|contradiction|contradiction].
      destruct Hs as [HW1 P1]. specialize (Hl _ eq_refl). cbn in HW1, P1, Hl |- *. rewrite Ed in HW1. split; auto.
      eapply OW_pstat; eauto. eapply OW_log; eauto. }
    intros [[[off1 s1] log1] ok1] [HW1 HO1]. cbn [fst snd] in *. destruct ok1; cbn [negb]; [|cbn; auto].
    eapply okf_bind; [apply okf_okub, (integrate_w s0 ks1 o act h l1 st s1 log1); auto|].
    intros [[s2 log2] ok2] [HW2 HO2]. cbn [fst snd] in *. destruct ok2; cbn [negb]; [|cbn; auto]. destruct total; [|cbn; auto].
    assert (Hz : ob_active (s_obj s2) = true -> ob_var (s_obj s2) < nv s2) by (rewrite (ow_act _ _ _ _ _ HO2); apply HO2).
    apply okf_bind with (P := fun s3 => W s0 ks1 s3 /\ OW o act s0 log2 s3).
    { destruct (optimize_w_safe s0 ks1 o fuel s2 HW2 Hz) as [-> |(s3 & E)]; [cbn; auto|]. destruct (optimize_w s0 ks1 o fuel s2 HW2 Hz s3 E) as [HW3 Ob3]. rewrite E. cbn.
      split; auto. eapply OW_same; eauto. rewrite (wk_nv _ _ _ HW3), (wk_nv _ _ _ HW2). auto. }
    intros s3 [HW3 HO3]. apply okf_bind with (P := fun s4 => W s0 ks1 s4 /\ OW o act s0 log2 s4).
    { destruct (o_store o); [cbn; auto| |]; destruct (W_store s0 ks1 s3 HW3) as (s4 & -> & HW4 & P4); cbn; split; auto; eapply OW_pstat; eauto. }
    intros s4 [HW4 HO4]. eapply okf_bind; [apply okf_okub, (discard_w s0 ks1 o act h l2 s4 log2); auto|].
    intros [[s5 log5] ok5] [HW5 HO5]. cbn. auto.
  Qed.
  (** the log of check *)
  Lemma integrate_log h (o : options) lit st s log r : integrate_objective h o lit st s log = Ok r -> log ⊆ r.1.2.
  Proof.
    unfold integrate_objective. destruct (o_global o); [|intros [= <-]; reflexivity]. destruct (os_value _ _) as [gen [[v [|]]|]]; cbv zeta.
    - destruct (vstep _); [|discriminate]. intros [= <-]. cbn. intros c Hc. apply elem_of_app; auto.
    - intros [= <-]. reflexivity.
    - intros [= <-]. reflexivity.
  Qed.
  Lemma discard_log h (o : options) lit s log r : discard_bounded h o lit s log = Ok r -> log ⊆ r.1.2.
  Proof.
    unfold discard_bounded. destruct (_ || _); [intros [= <-]; reflexivity|]. intros E. apply bind_ok in E as (v & _ & E). injection E as <-. cbn. intros c Hc. apply elem_of_app; auto.
  Qed.
  Lemma t_check_log fuel h (o : options) a total l1 l2 facts foff st off s log r : t_check fuel h o a total l1 l2 facts foff st off s log = Ok r -> log ⊆ r.1.2.
  Proof.
    unfold t_check. intros E. apply bind_ok in E as ([[[off1 s1] log1] ok1] & E1 & E).
    assert (H1 : log ⊆ log1).
    { destruct (_ && _); [|injection E1 as <- <- <- <-; reflexivity]. apply bind_ok in E1 as (u & _ & E1). apply bind_ok in E1 as ([[s1' log1'] ok1'] & E2 & E1).
      injection E1 as <- <- <- <-. apply solve_log in E2. exact E2. }
    etransitivity; [exact H1|]. destruct ok1; cbn [negb] in E; [|injection E as <-; reflexivity].
    apply bind_ok in E as ([[s2 log2] ok2] & E2 & E). apply integrate_log in E2. cbn in E2. etransitivity; [exact E2|].
    destruct ok2; cbn [negb] in E; [|injection E as <-; reflexivity]. destruct total; [|injection E as <-; reflexivity].
    apply bind_ok in E as (s3 & _ & E). apply bind_ok in E as (s4 & _ & E). apply bind_ok in E as ([[s5 log5] ok5] & E5 & E). injection E as <-.
    apply discard_log in E5. exact E5.
  Qed.
End weakopt.

(** ** Sessions without the restriction on equalities *)
Section anyreach.
  Context {V : Type} `{VL : ValueLaws V} {Sym : Type} `{EqDecision Sym}.
  Implicit Types s : solver V.
  Implicit Types w : world V Sym.
  Implicit Types sh : shot V Sym.

  Lemma deliver_levels dl lits (v : list (@snap V)) (k : list (entry V)) : map en_level (deliver dl lits v k) = kenter dl (map en_level k).
  Proof. destruct k as [|e r]; cbn; auto. destruct (en_level e <? dl); auto. Qed.
  Lemma toplevel_topl (k : list (entry V)) : toplevel k = topl (map en_level k).
  Proof. destruct k; auto. Qed.

  Record WW (o : options) sh (act : bool) (s0s : list (solver V)) w : Prop := {
    ww_nd : NoDup (p_vars (w_p w));
    ww_lhs : forall q, q ∈ sh_iqs sh -> okterms (find_sym (p_vars (w_p w))) (q_lhs q);
    ww_obj : okterms (find_sym (p_vars (w_p w))) (sh_obj sh);
    ww_prep : forall s0, s0 ∈ s0s -> prepared (p_vars (w_p w)) (find_sym (p_vars (w_p w))) (sh_host sh) o (sh_iqs sh) (sh_obj sh) s0;
    ww_len1 : length (p_slvs (w_p w)) = length s0s;
    ww_len2 : length (w_th w) = length s0s;
    ww_th : forall t x s0, p_slvs (w_p w) !! t = Some x -> s0s !! t = Some s0 ->
        W s0 (map en_level (th_stk (thread_of w t))) x.2 /\ OW o act s0 (w_log w) x.2;
    ww_gen : os_gen (p_state (w_p w)) <> 0 -> act = true;
    ww_act : act = bool_decide (sh_obj sh <> []);
  }.

  Lemma start_w o sh p log p' log' : shot_ok sh -> NoDup (p_vars p) ->
    p_init (sh_host sh) o (sh_sort sh) (sh_threads sh) (sh_iqs sh) (sh_obj sh) p log = Ok (p', log', true) ->
    exists act, WW o sh act (map snd (p_slvs p')) (start p' log').
  Proof.
    intros Hsh Hn E. destruct (p_init_ok o sh p log Hsh Hn) as (p1 & log1 & ok1 & E' & A1 & A2 & A3 & A4 & A5 & A6 & A7 & A8 & A9 & A10 & _).
    rewrite E' in E. injection E as -> <- ->. destruct (A10 eq_refl) as [B1 B2].
    exists (bool_decide (sh_obj sh <> [])). constructor; cbn [start w_p w_th]; auto.
    - intros s0 H0. apply elem_of_list_In, in_map_iff in H0 as (x & <- & Hx). apply (B2 x). apply elem_of_list_In; auto.
    - rewrite map_length. auto.
    - rewrite !map_length. auto.
    - intros t x s0 Ex E0. rewrite list_lookup_fmap, Ex in E0. cbn in E0. injection E0 as <-.
      destruct (B2 x (elem_of_list_lookup_2 _ _ _ Ex)) as [Hx P].
      unfold thread_of. cbn [w_th start]. rewrite list_lookup_fmap, Ex. cbn [fmap option_fmap option_map default id th_stk map].
      split; [apply (Live_W true), (pd_live _ _ _ _ _ _ _ P)|]. pose proof (prepared_rows0 _ _ _ _ _ _ P) as [R1 R2].
      assert (Ea : ob_active (s_obj x.2) = bool_decide (sh_obj sh <> [])).
      { destruct (decide (sh_obj sh = [])) as [E|E].
        - rewrite bool_decide_eq_false_2 by auto. apply (pd_obj0 _ _ _ _ _ _ _ P E).
        - rewrite bool_decide_eq_true_2 by auto. apply (pd_obj1 _ _ _ _ _ _ _ P E). }
      rewrite <- Ea. constructor; auto.
      + intros Ha. apply R1; auto.
      + intros Ha Hg. apply R2; auto.
      + destruct (pd_new _ _ _ _ _ _ _ P) as (-> & _). congruence.
      + exists []. rewrite app_nil_r. split; auto. intros b Hb. inversion Hb.
    - rewrite A5. cbn. congruence.
  Qed.

  Definition long (e : @event) : bool := match e with EvCheck _ _ _ total _ _ => total | _ => false end.

  Lemma WW_put o sh act s0s w t s0 (p : propagator V Sym) x log th rep : WW o sh act s0s w -> t < length (w_th w) -> s0s !! t = Some s0 ->
    p_vars p = p_vars (w_p w) -> p_slvs p = p_slvs (w_p w) -> p_state p = p_state (w_p w) ->
    W s0 (map en_level (th_stk th)) x.2 -> OW o act s0 log x.2 -> w_log w ⊆ log ->
    WW o sh act s0s (World (put_thread t x p) log (<[t := th]> (w_th w)) rep).
  Proof.
    intros [A A1 A2 A3 B C D E G] Ht E0 F1 F2 F3 HW HO Hl. constructor; cbn; rewrite ?insert_length, ?F1, ?F2, ?F3; auto.
    intros t' x' s0' Ex E0'. destruct (Nat.eq_dec t t') as [<-|Hne].
    - rewrite list_lookup_insert in Ex by lia. injection Ex as <-. rewrite E0 in E0'. injection E0' as <-.
      unfold thread_of. cbn [w_th]. rewrite thread_same by auto. auto.
    - rewrite list_lookup_insert_ne in Ex by auto. unfold thread_of. cbn [w_th]. rewrite thread_other by auto. destruct (D t' x' s0' Ex E0'). split; auto. eapply OW_log; eauto.
  Qed.

  Lemma pow8_le n m : n <= m -> 8 ^ n <= 8 ^ m.
  Proof. intros Hl. apply Nat.pow_le_mono_r; lia. Qed.

  Theorem step_w o sh act s0s w e fuel : step_ok (V := V) o -> WW o sh act s0s w -> adm e w -> 8 ^ maxnv s0s <= fuel ->
    okf (long e) (WW o sh act s0s) (wstep fuel o e w).
  Proof.
    intros So I Ha Hf. pose proof I as [A A1 A2 A3 B C D E G].
    assert (Hth : forall t, t < length (w_th w) -> exists off s s0, p_slvs (w_p w) !! t = Some (off, s) /\ s0s !! t = Some s0 /\
      W s0 (map en_level (th_stk (thread_of w t))) s /\ OW o act s0 (w_log w) s /\ 8 ^ nv s <= fuel).
    { intros t Ht. destruct (lookup_lt_is_Some_2 (p_slvs (w_p w)) t) as [[off s] Es]; [lia|]. destruct (lookup_lt_is_Some_2 s0s t) as [s0 E0]; [lia|].
      exists off, s, s0. split; auto. split; auto. destruct (D t (off, s) s0 Es E0) as [D1 D2]. split; auto. split; auto.
      etransitivity; [|exact Hf]. apply pow8_le. change s with ((off, s).2). rewrite (wk_nv _ _ _ D1). apply maxnv_le. eapply elem_of_list_lookup_2; eauto. }
    destruct e as [t h a lits|t h a total l1 l2|t|t]; cbn [wstep long adm] in *.
    - destruct Ha as (Ht & Hb & Hdl & _). destruct (Hth t Ht) as (off & s & s0 & Es & E0 & HW & HO & Hfs). rewrite toplevel_topl in Hdl.
      unfold p_propagate. set (p1 := if (a_dl a =? 0) && (t =? 0) then _ else _).
      assert (F : p_vars p1 = p_vars (w_p w) /\ p_slvs p1 = p_slvs (w_p w) /\ p_state p1 = p_state (w_p w)) by (unfold p1; destruct ((a_dl a =? 0) && (t =? 0)); auto).
      destruct F as (F1 & F2 & F3). unfold at_ at 1. rewrite F2, Es. cbn [deref mbind res_bind].
      pose proof (solve_w s0 _ h o a lits fuel s (w_log w) HW Hdl Hfs) as Hs. pose proof (solve_log fuel h o a lits s (w_log w)) as Hl.
      destruct (solve fuel h o a lits s (w_log w)) as [[[s1 log1] ok1]| | |]; cbn [okub] in Hs; [|exact Logic.I|contradiction|contradiction].
      destruct Hs as [HW1 P1]. specialize (Hl _ eq_refl). cbn [fst snd] in HW1, P1, Hl. cbn [mbind res_bind okf]. apply (WW_put o sh act s0s w t s0); auto.
      + cbn [th_stk snd]. rewrite deliver_levels. auto.
      + cbn [snd]. eapply OW_pstat; eauto. eapply OW_log; eauto.
    - destruct Ha as (Ht & Hb & Hdl & _). destruct (Hth t Ht) as (off & s & s0 & Es & E0 & HW & HO & Hfs). rewrite toplevel_topl in Hdl.
      unfold at_ at 1. rewrite Es. cbn [deref mbind res_bind]. unfold p_check. unfold at_ at 1. rewrite Es. cbn [deref mbind res_bind].
      pose proof (t_check_w s0 _ o act fuel h a total l1 l2 (p_facts (w_p w)) (p_foff (w_p w)) (p_state (w_p w)) off s (w_log w) So HW HO E Hdl Hfs) as Hs.
      pose proof (t_check_log fuel h o a total l1 l2 (p_facts (w_p w)) (p_foff (w_p w)) (p_state (w_p w)) off s (w_log w)) as Hl.
      destruct (t_check _ _ _ _ _ _ _ _ _ _ _ _ _) as [[[[off1 s1] log1] ok1]| | |]; cbn [okf] in Hs; [|exact Logic.I|contradiction|exact Hs].
      destruct Hs as [HW1 HO1]. specialize (Hl _ eq_refl). cbn [fst snd] in HW1, HO1, Hl. cbn [mbind res_bind okf]. apply (WW_put o sh act s0s w t s0); auto.
      cbn [th_stk snd]. destruct ((a_dl a =? 0) && (off <? p_foff (w_p w))); auto. rewrite deliver_levels. auto.
    - destruct Ha as (Ht & Hdl). destruct (Hth t Ht) as (off & s & s0 & Es & E0 & HW & HO & Hfs). rewrite toplevel_topl in Hdl.
      unfold p_undo. unfold at_ at 1. rewrite Es. cbn [deref mbind res_bind]. destruct (th_stk (thread_of w t)) as [|en r] eqn:Ek; [cbn in Hdl; lia|].
      cbn [map topl] in Hdl, HW. destruct (undo_w s0 (en_level en) (map en_level r) s HW Hdl) as (s1 & -> & HW1 & P1). cbn [mbind res_bind okf tail].
      apply (WW_put o sh act s0s w t s0); auto. cbn [snd]. eapply OW_pstat; eauto.
    - destruct Ha as (Ht & _). destruct (Hth t Ht) as (off & s & s0 & Es & E0 & HW & HO & Hfs).
      assert (Ego : exists v, get_objective s = Ok v /\ (v <> None -> act = true)).
      { unfold get_objective. destruct (ob_active (s_obj s)) eqn:Eo; [|exists None; split; auto; congruence].
        assert (Hact : act = true) by (rewrite <- (ow_act _ _ _ _ _ HO); auto). rewrite at_vr by (apply HO; auto). cbn. eauto. }
      destruct Ego as (v & Ev & Hv). unfold p_get_objective. unfold at_ at 1. rewrite Es. cbn [deref mbind res_bind]. rewrite Ev. cbn [mbind res_bind].
      unfold p_on_model. destruct (o_global o); [|cbn; constructor; auto]. unfold at_ at 1. rewrite Es. cbn [deref mbind res_bind]. rewrite Ev. cbn [mbind res_bind].
      destruct v as [x|]; [|cbn; constructor; auto]. cbn [mbind res_bind okf]. constructor; cbn; auto; try (intros _; apply Hv; discriminate).
  Qed.

  (** [reach_any o sh w]: like [reach] (World.v), but for every admissible
      history: nothing is asked of equalities. *)
  Inductive reach_any (o : options) : shot V Sym -> world V Sym -> Prop :=
    | any_first sh p log : shot_ok sh ->
        p_init (sh_host sh) o (sh_sort sh) (sh_threads sh) (sh_iqs sh) (sh_obj sh) new_propagator [] = Ok (p, log, true) ->
        reach_any o sh (start p log)
    | any_next sh0 w0 sh p log : reach_any o sh0 w0 -> shot_ok sh ->
        p_init (sh_host sh) o (sh_sort sh) (sh_threads sh) (sh_iqs sh) (sh_obj sh) (w_p w0) (w_log w0) = Ok (p, log, true) ->
        reach_any o sh (start p log)
    | any_step sh w e w' : reach_any o sh w -> adm e w -> step o e w w' -> reach_any o sh w'.
  Lemma reach_reach_any o sh w : reach o sh w -> reach_any o sh w.
  Proof. induction 1; [eapply any_first|eapply any_next|eapply any_step]; eauto. Qed.

  Lemma any_inv o sh w : step_ok (V := V) o -> reach_any o sh w -> exists act s0s, WW o sh act s0s w.
  Proof.
    intros So Hr. induction Hr as [sh p log Hsh E|sh0 w0 sh p log Hr IH Hsh E|sh w e w' Hr IH Ha (fuel & E)].
    - destruct (start_w o sh new_propagator [] p log) as [act I]; eauto. constructor.
    - destruct IH as (act & s0s & I). destruct (start_w o sh (w_p w0) (w_log w0) p log) as [act' I']; eauto. apply (ww_nd _ _ _ _ _ I).
    - destruct IH as (act & s0s & I). exists act, s0s. set (f := Nat.max fuel (8 ^ maxnv s0s)).
      pose proof (step_w o sh act s0s w e f So I Ha ltac:(subst f; lia)) as Hs.
      rewrite (wstep_mono o e w fuel f ltac:(subst f; lia) w' E) in Hs. exact Hs.
  Qed.
End anyreach.
