(** * Solver::solve, undo and store_sat_assignment keep the invariant *)

From stdpp Require Import list_numbers.
From Verif Require Import Num Sums Tableau TableauProofs Bland Solver SolverBase SolverStep Simplex SimplexLoop Hist Updates.

Section core.
  Context {V : Type} `{VL : ValueLaws V}.
  Implicit Types s : solver V.
  Implicit Types x y : nat.
  Implicit Types b l u : bound V.
  Implicit Types fs : list (frame V).

  Lemma update_step o L s j v : shape s -> rows s (val s) -> j < s_nn s ->
    exists s', update_ o L j v s = Ok s' /\ shape s' /\ rows s' (val s') /\ vreach L s s' /\ s_clause s' = s_clause s /\
      perm_same s s' /\ t_rows (s_tab s') = t_rows (s_tab s) /\
      (forall y, y < nv s -> val s' y = if y =? idx s j then v else if Bs s y then vadd (val s y) (vscale (Ts s y (idx s j)) (vsub v (val s (idx s j)))) else val s y) /\
      (CQ s -> CQ s').
  Proof.
    intros Sh Hr Hj. destruct (idx_nonbasic s j Sh Hj) as (He & Be & Re).
    destruct (update_ok o L s j v Sh Hj) as (s' & E & Sh' & Vr & Tb & Pm & Cl & Hval & Hcm & HQ).
    set (e := idx s j) in *. destruct (vreach_facts _ _ _ Vr) as (Bt & St & Bn).
    exists s'. split; auto. split; auto. split; [|split; [auto|split; [auto|split; [auto|split; [auto|split; [auto|]]]]]].
    - apply (rows_same s s'); auto. intros c Hc Bc.
      assert (Ec : rowval (nv s) (Bs s) (Ts s) (val s') c = vadd (val s c) (vscale (Ts s c e) (vsub v (val s e)))).
      { rewrite (Hr c Hc Bc). unfold rowval. apply (vsum_update (nv s) e); auto.
        - intros k Hk Hke. destruct (Bs s k) eqn:Bk; auto. rewrite Hval by auto. destruct (Nat.eqb_spec k e); [congruence|]. rewrite Bk. auto.
        - rewrite Be, Hval by auto. rewrite Nat.eqb_refl. vring. }
      rewrite Ec, Hval by auto. destruct (Nat.eqb_spec c e); [congruence|]. rewrite Bc. auto.
    - intros [Qi Qc]. destruct (HQ Qi) as [Qi' Qc']. split; auto. intros y Hy By Hc. rewrite (stat_nv _ _ St) in Hy.
      rewrite (Bs_same s s') in By by auto.
      destruct (Qc_eq_dec (Ts s y e) 0) as [E0|E0]; [|apply Qc'; auto].
      apply Hcm, Qc; auto. rewrite <- Hc. symmetry. apply conf_at_same; [apply Bn|apply Bn|].
      rewrite Hval by auto. destruct (Nat.eqb_spec y e); [congruence|]. rewrite By, E0, vscale_0, vadd_0_r. auto.
  Qed.

  (** ** Invariants *)
  (** the part that also holds after a conflict *)
  Record Dead (keep : bool) (s0 : solver V) fs s : Prop := {
    dd_sh : shape s;
    dd_q : Qinv s;
    dd_h : hist keep s0 (s_bounds s) fs (s_offs s) (s_btrail s) (s_atrail s) (obs s);
    dd_R : forall a, rows s a <-> rows s0 a;
    dd_nv : nv s = nv s0;
    dd_bs : bstat (s_bounds s);
  }.
  Record Mid (keep : bool) (s0 : solver V) fs s : Prop := {
    md_J : J s;
    md_h : hist keep s0 (s_bounds s) fs (s_offs s) (s_btrail s) (s_atrail s) (obs s);
    md_ps : psnd (s_bounds s) (active fs) (obs s);
    md_eq : eqp (obs s);
    md_R : forall a, rows s a <-> rows s0 a;
    md_nv : nv s = nv s0;
    md_bs : bstat (s_bounds s);
  }.
  Lemma Mid_Dead keep s0 fs s : Mid keep s0 fs s -> Dead keep s0 fs s.
  Proof. intros [[] A B C D E F]. constructor; auto. apply j_cq. Qed.
  (** satisfying state *)
  Record Live (keep : bool) (s0 : solver V) fs s : Prop := {
    lv_M : Mid keep s0 fs s;
    lv_feas : feasible s;
    lv_cp : compl (s_bounds s) (active fs) (obs s);
  }.

  Lemma psnd_psound Bd act s : psnd Bd act (obs s) -> psound s.
  Proof.
    intros Hp x b. split; intros E.
    - destruct (Hp true x b E) as (_ & ? & ? & _). auto.
    - destruct (Hp false x b E) as (_ & ? & ? & _). auto.
  Qed.

  Lemma Live_good keep s0 fs s : Live keep s0 fs s -> good s0 (s_bounds s) (active fs) (obs s).
  Proof.
    intros [[HJ A B C D E F] G H']. constructor; auto.
    - apply D. apply (j_rows _ HJ).
    - rewrite <- E. apply feasible_cfeas; auto.
  Qed.

  (** a clause that the bounds of active literals refute *)
  Definition refutes (s0 : solver V) (Bd : list (bound V)) (act : list Z) (cl : list Z) : Prop :=
    exists bs, cl = map (fun b => (- b_lit b)%Z) bs /\ (forall b, b ∈ bs -> b ∈ Bd /\ b_lit b ∈ act) /\
      forall a, rows s0 a -> (forall b, b ∈ bs -> bsat a b) -> False.

  Lemma bsat_upper (a : nat -> V) b : b_rel b <> BGe -> bsat a b -> vle (a (b_var b)) (b_val b).
  Proof. unfold bsat. destruct (b_rel b); intros H1 H2; auto; [congruence|]. rewrite H2. apply vle_refl. Qed.
  Lemma bsat_lower (a : nat -> V) b : b_rel b <> BLe -> bsat a b -> vle (b_val b) (a (b_var b)).
  Proof. unfold bsat. destruct (b_rel b); intros H1 H2; auto; [congruence|]. rewrite H2. apply vle_refl. Qed.

  Lemma pair_refutes s0 Bd act c x l u : psnd Bd act c -> n_lo c x = Some l -> n_up c x = Some u -> vlt (b_val u) (b_val l) ->
    refutes s0 Bd act [(- b_lit u)%Z; (- b_lit l)%Z].
  Proof.
    intros Hp El Eu Hlt. destruct (Hp true x l El) as (L1 & L2 & L3 & L4). destruct (Hp false x u Eu) as (U1 & U2 & U3 & U4).
    exists [u; l]. split; auto. split.
    - intros b Hb. rewrite !elem_of_cons, elem_of_nil in Hb. destruct Hb as [->|[->|[]]]; auto.
    - intros a _ Hs. assert (S1 : bsat a u) by (apply Hs; rewrite !elem_of_cons; auto). assert (S2 : bsat a l) by (apply Hs; rewrite !elem_of_cons; auto).
      apply bsat_upper in S1; auto. apply bsat_lower in S2; auto. rewrite U2 in S1. rewrite L2 in S2.
      apply (vlt_irrefl (b_val u)). eapply vlt_le_trans; eauto. eapply vle_trans; eauto.
  Qed.

  (** ** update_bound *)
  Section prop.
    Context (keep : bool) (s0 : solver V) (L : nat) (lits : list Z) (p : solver V) (fs : list (frame V)) (a : asg) (o : options).
    Let fs' := Frame L lits p :: fs.
    Context (Hlv : lv_ok a fs') (Hdl : a_dl a = L).

    Lemma bcons_other s s' x : (forall (m : bool) y, y <> x -> n_side (obs s') m y = n_side (obs s) m y) -> bounds_consistent_at s' x -> bcons s -> bcons s'.
    Proof.
      intros Ho Hx Hb y l u El Eu. destruct (Nat.eq_dec y x) as [->|Hy]; [apply Hx; auto|].
      apply (Hb y); [rewrite <- El; symmetry; exact (Ho true y Hy)|rewrite <- Eu; symmetry; exact (Ho false y Hy)].
    Qed.

    Definition spost s s' (ok : bool) (P : snap -> Prop) : Prop :=
      stat s' = stat s /\ tighter (obs s) (obs s') /\ (forall z, z < nv s -> Bs s z = true -> Bs s' z = true) /\
      if ok then Mid keep s0 fs' s' /\ P (obs s')
      else Dead keep s0 fs' s' /\ refutes s0 (s_bounds s) (active fs') (s_clause s').

    Theorem update_bound_ok s b : Mid keep s0 fs' s -> b ∈ s_bounds s -> b_lit b ∈ lits -> eqsafe L (s_bounds s) (active fs') b ->
      exists s' ok, update_bound o a b s = Ok (s', ok) /\ spost s s' ok (fun c => bimpl c b).
    Proof.
      intros [[Sh Ps Bc Hr Hn [Qi Qc]] Hh Hps Heq HR Hnv Hbs] Hb Hlit Hsafe.
      destruct (update_var_ok keep s0 L lits p fs a Hlv Hdl s b Sh Hh Hps Heq Bc Hbs Hb Hlit Hsafe) as (s1 & ok & E & [Bo Sh1 Hh1 Hps1 Ht1 Ho1 Hok]).
      unfold update_bound. rewrite E. cbn [mbind res_bind]. pose proof Bo as (A1 & A2 & A3 & A4 & A5 & A6 & A7 & A8 & A9 & A10).
      assert (Hx : b_var b < nv s1) by (rewrite (stat_nv _ _ A1); apply (sh_bv _ Sh); auto).
      rewrite at_vr by auto. cbn [mbind res_bind]. set (x := b_var b) in *.
      assert (Qi1 : Qinv s1). { destruct Qi as [Qa Qb]. split; rewrite A4; auto. intros y. rewrite A8. auto. }
      assert (HR1 : forall c, rows s1 c <-> rows s0 c). { intros c. rewrite <- HR. apply rows_same; auto. rewrite A2; auto. }
      assert (Hnv1 : nv s1 = nv s0) by (rewrite (stat_nv _ _ A1); auto).
      assert (Eb1 : s_bounds s1 = s_bounds s) by (apply stat_bounds; auto).
      assert (HB1 : forall z, Bs s1 z = Bs s z) by (intros z; apply Bs_same; auto).
      destruct ok; cbn [negb].
      2:{ destruct Hok as (l & u & El & Eu & Hlt). unfold lo in El. unfold up in Eu. rewrite Eu, El. cbn [deref mbind res_bind].
          eexists _, false. split; [reflexivity|]. split; [exact A1|]. split; [exact Ht1|]. split; [intros z _ Bz; rewrite <- HB1 in Bz; exact Bz|]. split.
          - constructor; auto.
            + apply (shape_keep s1 (set_clause _ s1)); auto; [intros y; split; reflexivity|exact (sh_tab _ Sh1)|exact (sh_conf _ Sh1)|exact (sh_pq _ Sh1)|exact (sh_at _ Sh1)|exact (sh_bt _ Sh1)].
            + cbn. rewrite Eb1; exact Hh1.
            + cbn. rewrite Eb1; auto.
          - exact (pair_refutes s0 _ _ (obs s1) x l u Hps1 El Eu Hlt). }
      destruct Hok as (Heq1 & Hc1 & Him). 
      assert (Hr1 : rows s1 (val s1)).
      { apply (rows_ext s1 (val s)); [intros y _; symmetry; apply A7|]. apply HR1, HR; auto. }
      assert (Bc1 : bcons s1) by (eapply bcons_other; eauto).
      assert (Hin1 : forall y, y <> x -> inb s1 y <-> inb s y).
      { intros y Hy. apply inb_same; [exact (Ho1 true y Hy)|exact (Ho1 false y Hy)|apply A7]. }
      assert (Hcf1 : forall y, y <> x -> conf_at s1 y = conf_at s y).
      { intros y Hy. apply conf_at_same; [exact (Ho1 true y Hy)|exact (Ho1 false y Hy)|apply A7]. }
      assert (Ps1 : psound s1) by (eapply psnd_psound; eauto).
      destruct (Nat.ltb_spec (v_rindex (vr s1 x)) (s_nn s1)) as [Hnb|Hnb].
      - (* non-basic *)
        assert (Bx : Bs s1 x = false) by (unfold Bs; apply Nat.leb_gt; auto).
        destruct (nonbasic_idx s1 x Sh1 Hx Bx) as [Hj Hidx].
        assert (CQ1 : CQ s1).
        { split; auto. intros y Hy By Hc. rewrite A4. assert (y <> x) by congruence. apply Qc.
          - rewrite <- (stat_nv _ _ A1); auto.
          - rewrite <- HB1; auto.
          - rewrite <- Hcf1; auto. }
        assert (Hupd : forall v, (forall l, lo s1 x = Some l -> vle (b_val l) v) -> (forall u, up s1 x = Some u -> vle v (b_val u)) ->
          exists s', (s2 ← update_ o (a_dl a) (v_rindex (vr s1 x)) v s1; Ok (s2, true)) = Ok (s', true) /\ spost s s' true (fun c => bimpl c b)).
        { intros v Hv1 Hv2. destruct (update_step o (a_dl a) s1 (ridx s1 x) v Sh1 Hr1 Hj) as (s2 & E2 & Sh2 & Hr2 & Vr2 & Cl2 & Pm2 & Tb2 & Hval2 & HQ2).
          change (v_rindex (vr s1 x)) with (ridx s1 x). rewrite E2. cbn [mbind res_bind]. exists s2. split; auto.
          destruct (vreach_facts _ _ _ Vr2) as (Bt2 & St2 & Bn2). rewrite Hidx in Hval2.
          split; [congruence|]. split; [eapply tighter_trans; [exact Ht1|apply tighter_eq, obs_bnd; auto]|].
          split; [intros z _ Bz; rewrite (Bs_same s1 s2), HB1; auto|]. split; [|eapply bimpl_eq; [apply obs_bnd; eauto|auto]].
          constructor.
          - constructor; auto.
            + eapply psound_same; eauto.
            + eapply bcons_same; eauto.
            + intros y Hy By. rewrite (stat_nv _ _ St2) in Hy. rewrite (Bs_same s1 s2) in By by auto.
              destruct (Nat.eq_dec y x) as [->|Hyx].
              * unfold inb. rewrite Hval2 by auto. rewrite Nat.eqb_refl.
                split; intros w; rewrite ?(lov_same s1 s2), ?(upv_same s1 s2) by auto; unfold lov, upv; intros Hw; apply fmap_Some in Hw as (c & Hc & ->); auto.
              * apply (inb_same s1 s2); [apply Bn2|apply Bn2| |].
                { rewrite Hval2 by auto. destruct (Nat.eqb_spec y x); [congruence|]. rewrite By. auto. }
                apply Hin1; auto. apply Hn; [rewrite <- (stat_nv _ _ A1); auto|rewrite <- HB1; auto].
          - rewrite (stat_bounds _ _ St2), Eb1. apply (hist_vreach _ _ _ _ (a_dl a) s1); auto.
          - rewrite (stat_bounds _ _ St2), Eb1. eapply psnd_eq; [apply obs_bnd; eauto|auto].
          - eapply eqp_eq; [apply obs_bnd; eauto|auto].
          - intros c. rewrite <- HR1. apply rows_same; auto.
          - rewrite (stat_nv _ _ St2); auto.
          - rewrite (stat_bounds _ _ St2), Eb1; auto. }
        destruct (viol_lower (vr s1 x)) eqn:Evl.
        { unfold viol_lower in Evl. destruct (v_lower (vr s1 x)) as [l|] eqn:El; [|discriminate]. cbn [deref mbind res_bind].
          destruct (Hupd (b_val l)) as (s' & E' & P').
          - intros l' El'. unfold lo in El'. rewrite El in El'. injection El' as ->. apply vle_refl.
          - intros u Eu. apply (Bc1 x); auto.
          - exists s', true. auto. }
        destruct (viol_upper (vr s1 x)) eqn:Evu.
        { unfold viol_upper in Evu. destruct (v_upper (vr s1 x)) as [u|] eqn:Eu; [|discriminate]. cbn [deref mbind res_bind].
          destruct (Hupd (b_val u)) as (s' & E' & P').
          - intros l El. apply (Bc1 x); auto.
          - intros u' Eu'. unfold up in Eu'. rewrite Eu in Eu'. injection Eu' as ->. apply vle_refl.
          - exists s', true. auto. }
        exists s1, true. split; auto. split; auto. split; auto. split; [intros z _ Bz; rewrite HB1; auto|]. split; auto. constructor; auto.
        + constructor; auto. intros y Hy By. destruct (Nat.eq_dec y x) as [->|Hyx].
          * apply conf_at_inb. unfold conf_at, has_conflict. rewrite Evl, Evu. auto.
          * apply Hin1; auto. apply Hn; [rewrite <- (stat_nv _ _ A1); auto|rewrite <- HB1; auto].
        + rewrite Eb1; auto.
        + rewrite Eb1; auto.
        + rewrite Eb1; auto.
      - (* basic *)
        assert (Bx : Bs s1 x = true) by (unfold Bs; apply Nat.leb_le; auto).
        destruct (basic_idx s1 x Sh1 Hx Bx) as [Hi Hidx].
        change (v_rindex (vr s1 x)) with (ridx s1 x).
        destruct (enqueue_ok o (ridx s1 x - s_nn s1) s1 Sh1 Hi) as (s2 & -> & Q & C1 & C2 & C3 & C4 & C5). cbn [mbind res_bind].
        exists s2, true. split; auto. pose proof Q as (B1 & B2 & B3 & B4 & B5 & B6 & B7 & B8). rewrite Hidx in C5. destruct (C5 Qi1) as [Qi2 Qx].
        split; [congruence|]. split; [eapply tighter_trans; [exact Ht1|apply tighter_eq, obs_bnd; auto]|].
        split; [intros z _ Bz; rewrite (Bs_same s1 s2), HB1; auto|]. split; [|eapply bimpl_eq; [apply obs_bnd; eauto|auto]].
        constructor.
        + constructor.
          * apply (qonly_shape s1); auto.
            { intros y Hy. apply C1 in Hy as [Hy|Hy]; auto. apply (sh_conf _ Sh1); auto. }
            { intros k Hk. apply C2 in Hk as [Hk| ->]; auto. apply (sh_pq _ Sh1); auto. }
          * eapply psound_same; eauto.
          * eapply bcons_same; eauto.
          * apply (rows_same s1 s2); auto; [rewrite B2; auto|]. apply (rows_ext s1 (val s1)); auto. intros y _. symmetry. apply B8.
          * intros y Hy By. rewrite (stat_nv _ _ B1) in Hy. rewrite (Bs_same s1 s2) in By by auto.
            apply (inb_same s1 s2); [apply B7|apply B7|apply B8|]. apply Hin1; [congruence|]. apply Hn; [rewrite <- (stat_nv _ _ A1); auto|rewrite <- HB1; auto].
          * split; auto. intros y Hy By Hc. rewrite (stat_nv _ _ B1) in Hy. rewrite (Bs_same s1 s2) in By by auto.
            assert (Hc' : conf_at s1 y = true) by (rewrite <- Hc; symmetry; apply conf_at_same; [apply B7|apply B7|apply B8]).
            destruct (Nat.eq_dec y x) as [->|Hyx]; [apply Qx; auto|]. apply C3. rewrite A4. apply Qc.
            { rewrite <- (stat_nv _ _ A1); auto. }
            { rewrite <- HB1; auto. }
            { rewrite <- Hcf1; auto. }
        + rewrite (stat_bounds _ _ B1), Eb1, (stat_offs _ _ B1), B4, B3. apply (hist_eq _ _ _ _ _ _ _ (obs s1)); auto; [apply obs_bnd; auto|apply obs_asg; auto].
        + rewrite (stat_bounds _ _ B1), Eb1. eapply psnd_eq; [apply obs_bnd; eauto|auto].
        + eapply eqp_eq; [apply obs_bnd; eauto|auto].
        + intros c. rewrite <- HR1. apply rows_same; auto. rewrite B2; auto.
        + rewrite (stat_nv _ _ B1); auto.
        + rewrite (stat_bounds _ _ B1), Eb1; auto.
    Qed.
  End prop.

  Section prop2.
    Context (keep : bool) (s0 : solver V) (L : nat) (lits : list Z) (p : solver V) (fs : list (frame V)) (a : asg) (o : options).
    Let fs' := Frame L lits p :: fs.
    Context (Hlv : lv_ok a fs') (Hdl : a_dl a = L).

    Lemma apply_bounds_ok bs s : Mid keep s0 fs' s -> (forall b, b ∈ bs -> b ∈ s_bounds s /\ b_lit b ∈ lits /\ eqsafe L (s_bounds s) (active fs') b) ->
      exists s' ok, apply_bounds o a bs s = Ok (s', ok) /\ spost keep s0 L lits p fs s s' ok (fun c => forall b, b ∈ bs -> bimpl c b).
    Proof.
      revert s. induction bs as [|b bs IH]; intros s HM Hbs; cbn [apply_bounds].
      - exists s, true. split; auto. split; auto. split; [apply tighter_refl|]. split; auto. split; auto. intros b Hb. inversion Hb.
      - destruct (Hbs b) as (Hb1 & Hb2 & Hb3); [apply elem_of_cons; auto|].
        destruct (update_bound_ok keep s0 L lits p fs a o Hlv Hdl s b HM Hb1 Hb2 Hb3) as (s1 & ok & E & St & Ti & HB & Hres). rewrite E. cbn [mbind res_bind].
        destruct ok.
        + destruct Hres as [HM1 Him]. destruct (IH s1 HM1) as (s2 & ok2 & E2 & St2 & Ti2 & HB2 & Hres2).
          { intros c Hc. rewrite (stat_bounds _ _ St). apply Hbs. apply elem_of_cons; auto. }
          exists s2, ok2. split; auto. split; [congruence|]. split; [eapply tighter_trans; eauto|]. split.
          { intros z Hz Bz. apply HB2; auto. rewrite (stat_nv _ _ St); auto. }
          destruct ok2.
          * destruct Hres2 as [HM2 Him2]. split; auto. intros c Hc. apply elem_of_cons in Hc as [->|Hc]; auto. eapply bimpl_tight; eauto.
          * destruct Hres2 as [HD Hf]. rewrite (stat_bounds _ _ St) in Hf. auto.
        + exists s1, false. split; auto. split; auto.
    Qed.

    Lemma find_bounds_elem s lit b : b ∈ find_bounds s lit <-> b ∈ s_bounds s /\ b_lit b = lit.
    Proof. unfold find_bounds. rewrite elem_of_list_In, List.filter_In, <- elem_of_list_In, Z.eqb_eq. tauto. Qed.
    Lemma concat_find_elem s ls b : b ∈ List.concat (map (find_bounds s) ls) <-> b ∈ s_bounds s /\ b_lit b ∈ ls.
    Proof.
      rewrite elem_of_list_In, in_concat. split.
      - intros (l & Hl & Hb). apply in_map_iff in Hl as (lit & <- & Hl). apply elem_of_list_In, find_bounds_elem in Hb as [Hb <-]. split; auto. apply elem_of_list_In; auto.
      - intros [Hb Hl]. exists (find_bounds s (b_lit b)). split.
        + apply in_map_iff. exists (b_lit b). split; auto. apply elem_of_list_In; auto.
        + apply elem_of_list_In, find_bounds_elem; auto.
    Qed.
  End prop2.

  (** ** store_sat_assignment *)
  Lemma reset_levels_ok t s : (forall e, e ∈ t -> e.1.2 < nv s) ->
    exists s', reset_levels t s = Ok s' /\ stat s' = stat s /\ s_tab s' = s_tab s /\ s_atrail s' = s_atrail s /\ s_btrail s' = s_btrail s /\
      s_conf s' = s_conf s /\ s_pq s' = s_pq s /\ s_clause s' = s_clause s /\ perm_same s s' /\ bnd_same s s' /\ (forall y, val s' y = val s y) /\ (forall y, qd s' y = qd s y) /\
      (forall y, lvl s' y = if bool_decide (y ∈ map (fun e : nat * nat * V => e.1.2) t) then 0 else lvl s y).
  Proof.
    revert s. induction t as [|[[k x] v] t IH]; intros s Ht; cbn [reset_levels].
    - exists s. split; auto. repeat (split; [auto using perm_same_refl, bnd_same_refl; fail|]). intros y. rewrite bool_decide_eq_false_2; auto. cbn. apply not_elem_of_nil.
    - assert (Hx : x < nv s) by (apply (Ht (k, x, v)), elem_of_cons; auto).
      rewrite at_vr by auto. cbn [mbind res_bind]. set (s1 := upd_var x (fun v0 => vset_val (v_val v0) 0 v0) s).
      assert (Hv : forall y, vr s1 y = if y =? x then vset_val (v_val (vr s x)) 0 (vr s x) else vr s y) by (intros y; unfold s1; rewrite vr_upd by auto; auto).
      assert (Hst : stat s1 = stat s) by apply stat_upd.
      destruct (IH s1) as (s2 & E & St & Tb & At & Bt & Cf & Pq & Cl & Pm & Bn & Va & Qd & Lv).
      { intros e He. rewrite (stat_nv _ _ Hst). apply Ht, elem_of_cons; auto. }
      exists s2. split; auto. split; [congruence|]. split; [rewrite Tb; auto|]. split; [rewrite At; auto|]. split; [rewrite Bt; auto|].
      split; [rewrite Cf; auto|]. split; [rewrite Pq; auto|]. split; [rewrite Cl; auto|].
      split; [|split; [|split; [|split]]].
      + intros y. destruct (Pm y) as [-> ->]. unfold idx, ridx. rewrite Hv. destruct (Nat.eqb_spec y x) as [->|]; auto.
      + intros y. destruct (Bn y) as (-> & -> & ->). unfold lo, up. rewrite Hv. destruct (Nat.eqb_spec y x) as [->|]; auto.
      + intros y. rewrite Va. unfold val. rewrite Hv. destruct (Nat.eqb_spec y x) as [->|]; auto.
      + intros y. rewrite Qd. unfold qd. rewrite Hv. destruct (Nat.eqb_spec y x) as [->|]; auto.
      + intros y. rewrite Lv. unfold lvl. rewrite Hv. cbn [map fst snd]. destruct (Nat.eqb_spec y x) as [->|].
        * rewrite (bool_decide_eq_true_2 (x ∈ x :: _)) by (apply elem_of_cons; auto). destruct (bool_decide _); auto.
        * destruct (decide (y ∈ map (fun e : nat * nat * V => e.1.2) t)).
          { rewrite !bool_decide_eq_true_2; auto. apply elem_of_cons; auto. }
          { rewrite !bool_decide_eq_false_2; auto. rewrite elem_of_cons. tauto. }
  Qed.

  Lemma hist_lvl0 keep s0 Bd fs offs bt at_ c : hist keep s0 Bd fs offs bt at_ c -> forall x, x ∉ map (fun e : nat * nat * V => e.1.2) at_ -> n_lvl c x = 0.
  Proof.
    induction 1 as [c H1|lits p bt ob oa c H1 H2 H2b|L lits p fs offs bt at_ pre bs vs c H1 IH H2 H3 H4 H5 H6]; intros x Hx; auto.
    rewrite map_app in Hx. destruct (vg_out _ _ _ _ H6 x) as [-> _].
    - intros Hin. apply Hx, elem_of_app; auto.
    - apply IH. intros Hin. apply Hx, elem_of_app; auto.
  Qed.

  Theorem store_sat_ok keep s0 fs s : Live keep s0 fs s ->
    exists s', store_sat s = Ok s' /\ Live false s0 fs s' /\ bnd_same s s' /\ (forall y, val s' y = val s y) /\ perm_same s s' /\ s_tab s' = s_tab s /\
      s_bounds s' = s_bounds s /\ s_obj s' = s_obj s /\ s_nn s' = s_nn s /\ s_nb s' = s_nb s /\ nv s' = nv s.
  Proof.
    intros [[[Sh Ps Bc Hr Hn [[Qa Qb] Qc]] Hh Hps Heq HR Hnv Hbs] Hf Hcp].
    destruct (reset_levels_ok (s_atrail s) s) as (s1 & E & St & Tb & At & Bt & Cf & Pq & Cl & Pm & Bn & Va & Qd & Lv); [apply Sh|].
    unfold store_sat. rewrite E. cbn [mbind res_bind]. eexists. split; [reflexivity|].
    rewrite (stat_offs _ _ St), (proj2 (hist_mono _ _ _ _ _ _ _ _ Hh)). set (s2 := set_atrail [] _).
    assert (Hlv : forall y, lvl s2 y = 0).
    { intros y. change (lvl s2 y) with (lvl s1 y). rewrite Lv. destruct (decide (y ∈ map (fun e : nat * nat * V => e.1.2) (s_atrail s))).
      - rewrite bool_decide_eq_true_2; auto.
      - rewrite bool_decide_eq_false_2; auto. apply (hist_lvl0 _ _ _ _ _ _ _ _ Hh); auto. }
    assert (Bn2 : bnd_same s s2) by exact Bn. assert (Va2 : forall y, val s2 y = val s y) by exact Va. assert (Pm2 : perm_same s s2) by exact Pm.
    assert (Tb2 : s_tab s2 = s_tab s) by exact Tb. assert (Nv2 : nv s2 = nv s) by exact (stat_nv _ _ St). assert (Nn2 : s_nn s2 = s_nn s) by exact (stat_nn _ _ St).
    assert (Nb2 : s_nb s2 = s_nb s) by exact (stat_nb _ _ St). assert (Bd2 : s_bounds s2 = s_bounds s) by exact (stat_bounds _ _ St).
    assert (Ob2 : s_obj s2 = s_obj s) by exact (stat_obj _ _ St).
    assert (HB2 : forall y, Bs s2 y = Bs s y) by (intros y; unfold Bs; rewrite Nn2; destruct (Pm2 y) as [_ ->]; auto).
    assert (HT2 : forall (b k : nat), Ts s2 b k = Ts s b k) by (intros b k; unfold Ts; rewrite Nn2, Tb2; destruct (Pm2 b) as [_ ->], (Pm2 k) as [_ ->]; auto).
    assert (Hrw : forall c, rows s2 c <-> rows s c).
    { intros c. unfold rows, rowval. rewrite Nv2. split; intros Hc b Hb HBb; (rewrite Hc; [|auto|rewrite ?HB2 in *; auto]); apply vsum_ext; intros k _; rewrite HB2, HT2; auto. }
    assert (Hf2 : feasible s2).
    { intros y Hy. apply (inb_same s s2); [apply Bn2|apply Bn2|apply Va2|]. apply Hf. rewrite <- Nv2; auto. }
    split; [|auto 12].
    constructor; [constructor| |]; auto.
    - constructor.
      + constructor; rewrite ?Nv2, ?Nb2, ?Nn2, ?Bd2, ?Tb2.
        * apply Sh.
        * apply Sh.
        * intros x Hx. destruct (Pm2 x) as [_ ->]. destruct (Pm2 (ridx s x)) as [-> _]. apply (sh_ri _ Sh); auto.
        * intros x Hx. destruct (Pm2 x) as [-> _]. destruct (Pm2 (idx s x)) as [_ ->]. apply (sh_ir _ Sh); auto.
        * apply Sh.
        * change (s_conf s2) with (s_conf s1). rewrite Cf. apply Sh.
        * change (s_pq s2) with (s_pq s1). rewrite Pq. apply Sh.
        * intros e He. inversion He.
        * change (s_btrail s2) with (s_btrail s1). rewrite Bt. apply Sh.
        * apply Sh.
        * intros x b. destruct (Bn2 x) as (_ & _ & ->). apply (sh_vb _ Sh).
      + eapply psound_same; eauto.
      + eapply bcons_same; eauto.
      + apply Hrw. apply (rows_ext s (val s)); auto.
      + intros y Hy _. apply Hf2; auto.
      + split.
        * split; change (s_conf s2) with (s_conf s1); rewrite Cf; auto. intros y Hy. apply Qa. rewrite <- Qd. exact Hy.
        * intros y Hy _ Hc. exfalso. pose proof (proj2 (conf_at_inb s2 y) (Hf2 y Hy)). congruence.
    - change (s_offs s2) with (map roff (s_offs s)). change (s_btrail s2) with (s_btrail s1). rewrite Bt, Bd2. change (s_atrail s2) with (@nil (nat * nat * V)).
      apply (hist_eq _ _ _ _ _ _ _ (reset_snap (val s) (obs s))).
      + intros [] y; cbn; symmetry; apply Bn2.
      + intros y. cbn. rewrite Hlv, Va2. auto.
      + apply (hist_store s0 _ fs _ _ (s_atrail s) (obs s) (val s) keep); auto.
        * apply HR; auto.
        * rewrite <- Hnv. pose proof (proj1 (feasible_cfeas s) Hf) as Hc. intros y Hy. exact (Hc y Hy).
    - rewrite Bd2. eapply psnd_eq; [apply obs_bnd; eauto|auto].
    - eapply eqp_eq; [apply obs_bnd; eauto|auto].
    - intros c. rewrite Hrw. auto.
    - congruence.
    - rewrite Bd2; auto.
    - rewrite Bd2. intros b Hb1 Hb2. eapply bimpl_eq; [apply obs_bnd; eauto|auto].
  Qed.

  (** ** undo *)
  Lemma undo_bounds_ok t s : (forall e, e ∈ t -> e.1.1 < nv s) -> NoDup (map fst (sidesl t)) ->
    exists s', undo_bounds t s = Ok s' /\ bonly s s' /\ s_btrail s' = s_btrail s /\
      (forall x (m : bool) ob, (x, m, ob) ∈ sidesl t -> n_side (obs s') m x = ob) /\
      (forall x (m : bool), (x, m) ∉ map fst (sidesl t) -> n_side (obs s') m x = n_side (obs s) m x).
  Proof.
    revert s. induction t as [|[[x r] ob] t IH]; intros s Ht Hnd; cbn [undo_bounds].
    - exists s. split; auto. split; [apply bonly_refl|]. split; auto. split; auto. intros x m ob Hin. inversion Hin.
    - assert (Hx : x < nv s) by (apply (Ht (x, r, ob)), elem_of_cons; auto).
      rewrite at_vr by auto. cbn [mbind res_bind].
      set (f := match r with BLe => vset_upper ob | BGe => vset_lower ob | BEq => fun v => vset_lower ob (vset_upper ob v) end). set (s1 := upd_var x f s).
      assert (Hv : forall y, vr s1 y = if y =? x then f (vr s x) else vr s y) by (intros y; unfold s1; rewrite vr_upd by auto; auto).
      assert (Hst : stat s1 = stat s) by apply stat_upd.
      assert (Bo1 : bonly s s1).
      { split; auto. repeat (split; [reflexivity|]). split; [|split; [|split; [|split; [|reflexivity]]]]; intros y; unfold idx, ridx, val, lvl, qd; rewrite Hv;
          destruct (Nat.eqb_spec y x) as [->|]; auto; unfold f; destruct r; auto. }
      unfold sidesl in Hnd. cbn [map concat] in Hnd. rewrite map_app in Hnd. apply NoDup_app in Hnd as (Hn1 & Hn2 & Hn3).
      assert (Hs1in : forall y (m : bool) o, (y, m, o) ∈ sides (x, r, ob) -> n_side (obs s1) m y = o).
      { intros y m o Hin. unfold sides in Hin. destruct r; rewrite ?elem_of_cons, ?elem_of_nil in Hin.
        - destruct Hin as [E|[]]. injection E as -> -> ->. cbn. unfold up. rewrite Hv, Nat.eqb_refl. auto.
        - destruct Hin as [E|[]]. injection E as -> -> ->. cbn. unfold lo. rewrite Hv, Nat.eqb_refl. auto.
        - destruct Hin as [E|[E|[]]]; injection E as -> -> ->; cbn; unfold up, lo; rewrite Hv, Nat.eqb_refl; auto. }
      assert (Hs1out : forall y (m : bool), (y, m) ∉ map fst (sides (x, r, ob)) -> n_side (obs s1) m y = n_side (obs s) m y).
      { intros y m Hin. unfold n_side, obs, lo, up; cbn. destruct m; rewrite Hv; destruct (Nat.eqb_spec y x) as [->|]; auto; unfold f; destruct r; cbn in *; auto; exfalso; apply Hin; rewrite !elem_of_cons; auto. }
      destruct (IH s1) as (s2 & E & Bo2 & Bt2 & Hin2 & Hout2).
      { intros e He. rewrite (stat_nv _ _ Hst). apply Ht, elem_of_cons; auto. }
      { exact Hn3. }
      exists s2. split; auto. split; [eapply bonly_trans; eauto|]. split; [rewrite Bt2; reflexivity|]. split.
      + intros y m o Hin. unfold sidesl in Hin. cbn [map concat] in Hin. apply elem_of_app in Hin as [Hin|Hin]; [|apply Hin2; auto].
        rewrite Hout2; [apply Hs1in; auto|]. intros Hin'. apply (Hn2 (y, m)); auto.
        apply elem_of_list_In, in_map_iff. exists (y, m, o). split; auto. apply elem_of_list_In; auto.
      + intros y m Hin. unfold sidesl in Hin. cbn [map concat] in Hin. rewrite map_app in Hin.
        rewrite Hout2, Hs1out; auto; intros Hin'; apply Hin, elem_of_app; auto.
  Qed.

  Lemma undo_values_ok t s : (forall e, e ∈ t -> e.1.2 < nv s) -> NoDup (map (fun e : nat * nat * V => e.1.2) t) ->
    exists s', undo_values t s = Ok s' /\ stat s' = stat s /\ s_tab s' = s_tab s /\ s_atrail s' = s_atrail s /\ s_btrail s' = s_btrail s /\
      s_conf s' = s_conf s /\ s_pq s' = s_pq s /\ s_clause s' = s_clause s /\ perm_same s s' /\ bnd_same s s' /\ (forall y, qd s' y = qd s y) /\
      (forall k x v, (k, x, v) ∈ t -> lvl s' x = k /\ val s' x = v) /\
      (forall x, x ∉ map (fun e : nat * nat * V => e.1.2) t -> lvl s' x = lvl s x /\ val s' x = val s x).
  Proof.
    revert s. induction t as [|[[k x] v] t IH]; intros s Ht Hnd; cbn [undo_values].
    - exists s. split; auto. repeat (split; [auto using perm_same_refl, bnd_same_refl; fail|]). split; auto. intros k x v Hin. inversion Hin.
    - assert (Hx : x < nv s) by (apply (Ht (k, x, v)), elem_of_cons; auto).
      rewrite at_vr by auto. cbn [mbind res_bind]. set (s1 := upd_var x (vset_val v k) s).
      assert (Hv : forall y, vr s1 y = if y =? x then vset_val v k (vr s x) else vr s y) by (intros y; unfold s1; rewrite vr_upd by auto; auto).
      assert (Hst : stat s1 = stat s) by apply stat_upd.
      cbn [map fst snd] in Hnd. apply NoDup_cons in Hnd as [Hn1 Hn2].
      destruct (IH s1) as (s2 & E & St & Tb & At & Bt & Cf & Pq & Cl & Pm & Bn & Qd & Hin2 & Hout2); auto.
      { intros e He. rewrite (stat_nv _ _ Hst). apply Ht, elem_of_cons; auto. }
      exists s2. split; auto. split; [congruence|]. split; [rewrite Tb; auto|]. split; [rewrite At; auto|]. split; [rewrite Bt; auto|].
      split; [rewrite Cf; auto|]. split; [rewrite Pq; auto|]. split; [rewrite Cl; auto|].
      split; [|split; [|split; [|split]]].
      + intros y. destruct (Pm y) as [-> ->]. unfold idx, ridx. rewrite Hv. destruct (Nat.eqb_spec y x) as [->|]; auto.
      + intros y. destruct (Bn y) as (-> & -> & ->). unfold lo, up. rewrite Hv. destruct (Nat.eqb_spec y x) as [->|]; auto.
      + intros y. rewrite Qd. unfold qd. rewrite Hv. destruct (Nat.eqb_spec y x) as [->|]; auto.
      + intros k' y w Hin. apply elem_of_cons in Hin as [Hin|Hin]; [|apply Hin2; auto]. injection Hin as -> -> ->.
        destruct (Hout2 x Hn1) as [-> ->]. unfold lvl, val. rewrite Hv, Nat.eqb_refl. auto.
      + intros y Hin. cbn [map fst snd] in Hin. rewrite elem_of_cons in Hin. destruct (Hout2 y) as [-> ->]; [tauto|].
        unfold lvl, val. rewrite Hv. destruct (Nat.eqb_spec y x) as [->|]; auto. tauto.
  Qed.

  Lemma clear_queue_ok q s : (forall x, x ∈ q -> x < nv s) ->
    exists s', clear_queue q s = Ok s' /\ stat s' = stat s /\ s_tab s' = s_tab s /\ s_atrail s' = s_atrail s /\ s_btrail s' = s_btrail s /\
      s_conf s' = [] /\ s_pq s' = s_pq s /\ s_clause s' = s_clause s /\ perm_same s s' /\ bnd_same s s' /\ val_same s s' /\
      (forall y, qd s' y = if bool_decide (y ∈ q) then false else qd s y).
  Proof.
    revert s. induction q as [|x q IH]; intros s Hq; cbn [clear_queue].
    - eexists. split; [reflexivity|]. repeat (split; [auto using perm_same_refl, bnd_same_refl; fail|]). split; [intros y; auto|].
      split; [intros y; auto|]. split; [intros y; auto|]. intros y. rewrite bool_decide_eq_false_2; auto. apply not_elem_of_nil.
    - assert (Hx : x < nv s) by (apply Hq, elem_of_cons; auto).
      rewrite at_vr by auto. cbn [mbind res_bind]. set (s1 := upd_var x (vset_queued false) s).
      assert (Hv : forall y, vr s1 y = if y =? x then vset_queued false (vr s x) else vr s y) by (intros y; unfold s1; rewrite vr_upd by auto; auto).
      assert (Hst : stat s1 = stat s) by apply stat_upd.
      destruct (IH s1) as (s2 & E & St & Tb & At & Bt & Cf & Pq & Cl & Pm & Bn & Vs & Qd).
      { intros e He. rewrite (stat_nv _ _ Hst). apply Hq, elem_of_cons; auto. }
      exists s2. split; auto. split; [congruence|]. split; [rewrite Tb; auto|]. split; [rewrite At; auto|]. split; [rewrite Bt; auto|].
      split; [rewrite Cf; auto|]. split; [rewrite Pq; auto|]. split; [rewrite Cl; auto|].
      split; [|split; [|split]].
      + intros y. destruct (Pm y) as [-> ->]. unfold idx, ridx. rewrite Hv. destruct (Nat.eqb_spec y x) as [->|]; auto.
      + intros y. destruct (Bn y) as (-> & -> & ->). unfold lo, up. rewrite Hv. destruct (Nat.eqb_spec y x) as [->|]; auto.
      + intros y. destruct (Vs y) as [-> ->]. unfold lvl, val. rewrite Hv. destruct (Nat.eqb_spec y x) as [->|]; auto.
      + intros y. rewrite Qd. unfold qd. rewrite Hv. destruct (Nat.eqb_spec y x) as [->|].
        * rewrite (bool_decide_eq_true_2 (x ∈ x :: _)) by (apply elem_of_cons; auto). destruct (bool_decide _); auto.
        * destruct (decide (y ∈ q)).
          { rewrite !bool_decide_eq_true_2; auto. apply elem_of_cons; auto. }
          { rewrite !bool_decide_eq_false_2; auto. rewrite elem_of_cons. tauto. }
  Qed.

  Theorem undo_ok keep s0 L lits p fs s : Dead keep s0 (Frame L lits p :: fs) s -> 0 < L ->
    exists s', undo s = Ok s' /\ Live keep s0 fs s' /\
      (forall x, lo s' x = lo p x /\ up s' x = up p x /\ (keep = true -> val s' x = val p x)) /\
      perm_same s s' /\ s_tab s' = s_tab s /\ s_bounds s' = s_bounds s /\ s_obj s' = s_obj s /\ s_nn s' = s_nn s /\ s_nb s' = s_nb s /\ nv s' = nv s.
  Proof.
    intros [Sh [Qa Qb] Hh HR Hnv Hbs] HL. remember (Frame L lits p :: fs) as fs' eqn:Ef. remember (s_offs s) as offs0 eqn:Eo.
    remember (s_btrail s) as bt0 eqn:Ebt. remember (s_atrail s) as at0 eqn:Eat. remember (obs s) as c0 eqn:Ec.
    destruct Hh as [c H1|lits0 p0 bt ob oa c H1 H2|L0 lits0 p0 fs0 offs bt at_ pre bs vs c H1 H2 H3 H4 H5 H6]; [discriminate| |]; injection Ef; intros; subst; [lia|].
    unfold undo. rewrite <- Eo, last_snoc. cbn [deref mbind res_bind o_bound o_asg].
    rewrite <- Ebt. unfold guard_ub. rewrite (proj2 (Nat.leb_le _ _)) by (rewrite app_length; lia). cbn [mbind res_bind].
    rewrite drop_app.
    destruct (undo_bounds_ok bs s) as (s1 & E1 & Bo1 & Bt1 & Bin & Bout).
    { intros e He. apply (sh_bt _ Sh). rewrite <- Ebt. apply elem_of_app; auto. }
    { apply H5. }
    rewrite E1. cbn [mbind res_bind]. pose proof Bo1 as (A1 & A2 & A3 & A4 & A5 & A6 & A7 & A8 & A9 & A10).
    cbn [s_atrail set_btrail]. rewrite A3, <- Eat, (proj2 (Nat.leb_le _ _)) by (rewrite app_length; lia). cbn [mbind res_bind].
    rewrite drop_app, Bt1, <- Ebt, take_app. set (s2 := set_btrail bt s1).
    destruct (undo_values_ok vs s2) as (s3 & E3 & St3 & Tb3 & At3 & Bt3 & Cf3 & Pq3 & Cl3 & Pm3 & Bn3 & Qd3 & Vin & Vout).
    { intros e He. change (nv s2) with (nv s1). rewrite (stat_nv _ _ A1). apply (sh_at _ Sh). rewrite <- Eat. apply elem_of_app; auto. }
    { apply H6. }
    rewrite E3. cbn [mbind res_bind]. rewrite At3. change (s_atrail s2) with (s_atrail s1). rewrite A3, <- Eat, take_app.
    set (s4 := set_atrail at_ s3).
    destruct (clear_queue_ok (s_conf s4) s4) as (s5 & E5 & St5 & Tb5 & At5 & Bt5 & Cf5 & Pq5 & Cl5 & Pm5 & Bn5 & Vs5 & Qd5).
    { intros x Hx. change (s_conf s4) with (s_conf s3) in Hx. rewrite Cf3 in Hx. change (s_conf s2) with (s_conf s1) in Hx. rewrite A4 in Hx.
      change (nv s4) with (nv s3). rewrite (stat_nv _ _ St3). change (nv s2) with (nv s1). rewrite (stat_nv _ _ A1). apply (sh_conf _ Sh); auto. }
    rewrite E5. cbn [mbind res_bind]. eexists. split; [reflexivity|].
    assert (Stt : stat s5 = stat s). { rewrite St5. change (stat s4) with (stat s3). rewrite St3. exact A1. }
    assert (Eo5 : take (length (s_offs s5) - 1) (s_offs s5) = offs).
    { rewrite (stat_offs _ _ Stt), <- Eo, app_length. cbn. replace (length offs + 1 - 1) with (length offs) by lia. apply take_app. }
    rewrite Eo5. set (s6 := set_offs offs s5).
    assert (Pm : perm_same s s6). { eapply perm_same_trans; [exact A6|]. eapply perm_same_trans; [exact Pm3|]. exact Pm5. }
    assert (Tb : s_tab s6 = s_tab s). { change (s_tab s6) with (s_tab s5). rewrite Tb5. change (s_tab s4) with (s_tab s3). rewrite Tb3. exact A2. }
    assert (Nv : nv s6 = nv s) by exact (stat_nv _ _ Stt). assert (Nn : s_nn s6 = s_nn s) by exact (stat_nn _ _ Stt).
    assert (Nb : s_nb s6 = s_nb s) by exact (stat_nb _ _ Stt). assert (Bd : s_bounds s6 = s_bounds s) by exact (stat_bounds _ _ Stt).
    assert (Ob : s_obj s6 = s_obj s) by exact (stat_obj _ _ Stt).
    assert (Hob : bnd_eq pre (obs s6)).
    { intros m x. assert (E6 : n_side (obs s6) m x = n_side (obs s1) m x).
      { change (obs s6) with (obs s5). destruct (Bn5 x) as (E7 & E8 & _), (Bn3 x) as (E9 & E10 & _).
        destruct m; [exact (eq_trans E7 E9)|exact (eq_trans E8 E10)]. }
      rewrite E6. destruct (decide ((x, m) ∈ map fst (sidesl bs))) as [Hin|Hin].
      - apply elem_of_list_In, in_map_iff in Hin as ([[x' m'] ob] & E & Hin). cbn in E. injection E as -> ->. apply elem_of_list_In in Hin.
        rewrite (Bin _ _ _ Hin). apply (bg_in _ _ _ _ H5); auto.
      - rewrite Bout by auto. symmetry. apply (bg_out _ _ _ _ H5); auto. }
    assert (Hoa : asg_eq pre (obs s6)).
    { intros x. change (obs s6) with (obs s5). cbn. destruct (Vs5 x) as [-> ->]. change (lvl s4 x) with (lvl s3 x). change (val s4 x) with (val s3 x).
      destruct (decide (x ∈ map (fun e : nat * nat * V => e.1.2) vs)) as [Hin|Hin].
      - apply elem_of_list_In, in_map_iff in Hin as ([[k x'] w] & E & Hin). cbn in E. subst x'. apply elem_of_list_In in Hin.
        destruct (Vin _ _ _ Hin) as [-> ->]. destruct (vg_in _ _ _ _ H6 _ _ _ Hin) as (? & ? & _). auto.
      - destruct (Vout x Hin) as [-> ->]. destruct (vg_out _ _ _ _ H6 x Hin) as [E7 E8]. cbn in E7, E8.
        change (lvl s2 x) with (lvl s1 x). change (val s2 x) with (val s1 x). destruct (A7 x) as [-> ->]. auto. }
    assert (HB : forall y, Bs s6 y = Bs s y) by (intros y; unfold Bs; rewrite Nn; destruct (Pm y) as [_ ->]; auto).
    assert (HT : forall (b k : nat), Ts s6 b k = Ts s b k) by (intros b k; unfold Ts; rewrite Nn, Tb; destruct (Pm b) as [_ ->], (Pm k) as [_ ->]; auto).
    assert (Hrw : forall c, rows s6 c <-> rows s c).
    { intros c. unfold rows, rowval. rewrite Nv. split; intros Hc b Hb HBb; (rewrite Hc; [|auto|rewrite ?HB in *; auto]); apply vsum_ext; intros k _; rewrite HB, HT; auto. }
    pose proof (good_eq _ _ _ _ _ Hob Hoa H3) as [G1 G2 G3 G4 G5].
    assert (Hf : feasible s6). { apply feasible_cfeas. rewrite Nv, Hnv. auto. }
    split.
    - constructor; [constructor| |]; auto.
      + constructor.
        * constructor; rewrite ?Nv, ?Nb, ?Nn, ?Bd, ?Tb.
          { apply Sh. }
          { apply Sh. }
          { intros x Hx. destruct (Pm x) as [_ ->]. destruct (Pm (ridx s x)) as [-> _]. apply (sh_ri _ Sh); auto. }
          { intros x Hx. destruct (Pm x) as [-> _]. destruct (Pm (idx s x)) as [_ ->]. apply (sh_ir _ Sh); auto. }
          { apply Sh. }
          { change (s_conf s6) with (s_conf s5). rewrite Cf5. intros x Hx. inversion Hx. }
          { change (s_pq s6) with (s_pq s5). rewrite Pq5. change (s_pq s4) with (s_pq s3). rewrite Pq3. change (s_pq s2) with (s_pq s1). rewrite A5. apply Sh. }
          { change (s_atrail s6) with (s_atrail s5). rewrite At5. intros e He. apply (sh_at _ Sh). rewrite <- Eat. apply elem_of_app; auto. }
          { change (s_btrail s6) with (s_btrail s5). rewrite Bt5. change (s_btrail s4) with (s_btrail s3). rewrite Bt3. intros e He. apply (sh_bt _ Sh). rewrite <- Ebt. apply elem_of_app; auto. }
          { apply Sh. }
          { intros x b. change (vr s6 x) with (vr s5 x). destruct (Bn5 x) as (_ & _ & ->). change (vr s4 x) with (vr s3 x). destruct (Bn3 x) as (_ & _ & ->).
            change (vr s2 x) with (vr s1 x). rewrite A9. apply (sh_vb _ Sh). }
        * eapply psnd_psound; eauto.
        * intros x l u El Eu. destruct (Nat.lt_ge_cases x (nv s6)) as [Hx|Hx].
          { apply (cfeas_bcons (nv s0) (obs s6) G2 x); auto. rewrite <- Hnv, <- Nv; auto. }
          { exfalso. unfold lo, vr in El. rewrite lookup_ge_None_2 in El by exact Hx. discriminate. }
        * apply Hrw, HR; auto.
        * intros y Hy _. apply Hf; auto.
        * split.
          { split; change (s_conf s6) with (s_conf s5); rewrite Cf5; [|constructor]. intros y Hy. exfalso.
            change (qd s6 y) with (qd s5 y) in Hy. rewrite Qd5 in Hy. destruct (decide (y ∈ s_conf s4)) as [Hin|Hin].
            - rewrite bool_decide_eq_true_2 in Hy; auto. discriminate.
            - rewrite bool_decide_eq_false_2 in Hy; auto. apply Hin. change (s_conf s4) with (s_conf s3). rewrite Cf3. change (s_conf s2) with (s_conf s1). rewrite A4.
              apply Qa. rewrite <- A8. change (qd s4 y) with (qd s3 y) in Hy. rewrite Qd3 in Hy. exact Hy. }
          { intros y Hy _ Hc. exfalso. pose proof (proj2 (conf_at_inb s6 y) (Hf y Hy)). congruence. }
      + rewrite Bd. change (s_offs s6) with offs. change (s_btrail s6) with (s_btrail s5). rewrite Bt5. change (s_btrail s4) with (s_btrail s3). rewrite Bt3.
        change (s_atrail s6) with (s_atrail s5). rewrite At5. apply (hist_eq _ _ _ _ _ _ _ pre); auto.
      + rewrite Bd; auto.
      + intros c. rewrite Hrw. auto.
      + congruence.
      + rewrite Bd; auto.
      + rewrite Bd; auto.
    - split; [|auto 12]. intros x. destruct (H4 x) as (P1 & P2 & P3). split; [|split].
      + rewrite <- P1. symmetry. exact (Hob true x).
      + rewrite <- P2. symmetry. exact (Hob false x).
      + intros Hk. rewrite <- (P3 Hk). symmetry. apply (Hoa x).
  Qed.
End core.
