(** * The feasibility loop terminates and decides *)

From stdpp Require Import list_numbers.
From Verif Require Import Num Sums Tableau TableauProofs Bland Solver SolverBase SolverStep Simplex.

Section loop.
  Context {V : Type} `{VL : ValueLaws V}.
  Implicit Types s : solver V.
  Implicit Types x y : nat.

  (** invariant of the loop *)
  Record J s : Prop := {
    j_shape : shape s;
    j_psound : psound s;
    j_bcons : bcons s;
    j_rows : rows s (val s);
    j_nbok : nbok s;
    j_cq : CQ s;
  }.

  Lemma psound_same s s' : bnd_same s s' -> psound s -> psound s'.
  Proof. intros Hb Hp x b. destruct (Hb x) as (-> & -> & _). apply Hp. Qed.
  Lemma bcons_same s s' : bnd_same s s' -> bcons s -> bcons s'.
  Proof. intros Hb Hp x l u. destruct (Hb x) as (-> & -> & _). apply Hp. Qed.
  Lemma lov_same s s' x : bnd_same s s' -> lov s' x = lov s x.
  Proof. intros Hb. unfold lov. destruct (Hb x) as (-> & _ & _). auto. Qed.
  Lemma upv_same s s' x : bnd_same s s' -> upv s' x = upv s x.
  Proof. intros Hb. unfold upv. destruct (Hb x) as (_ & -> & _). auto. Qed.

  Lemma selonly_J s s' : selonly s s' -> shape s' -> CQ s' -> J s -> J s'.
  Proof.
    intros (A1 & A2 & A3 & A4 & A5 & A6 & A7 & A8) Sh Cq [J1 J2 J3 J4 J5 J6]. constructor; auto.
    - eapply psound_same; eauto.
    - eapply bcons_same; eauto.
    - apply (rows_same s s'); auto; try congruence. apply (rows_ext s (val s)); auto. intros y _. symmetry. apply A8.
    - intros x Hx HB. apply (inb_same s s'); [apply A7|apply A7|apply A8|].
      apply J5; [rewrite <- (stat_nv _ _ A1); auto|]. rewrite <- (Bs_same s s'); auto.
  Qed.

  (** facts about one pivot, as seen by the termination argument *)
  Record pstep s s' (b e : nat) (v : V) : Prop := {
    ps_stat : stat s' = stat s;
    ps_bnd : bnd_same s s';
    ps_rows : forall a, rows s' a <-> rows s a;
    ps_B : forall y, y < nv s -> Bs s' y = if y =? b then false else if y =? e then true else Bs s y;
    ps_b : val s' b = v;
    ps_nb : forall y, y < nv s -> Bs s y = false -> y <> e -> val s' y = val s y;
  }.

  Lemma pivot_step o L s i j v : shape s -> rows s (val s) -> tget (s_tab s) i j <> 0%Qc ->
    exists s', pivot_ o L i j v s = Ok s' /\ shape s' /\ rows s' (val s') /\ vreach L s s' /\ s_clause s' = s_clause s /\
      pstep s s' (idx s (i + s_nn s)) (idx s j) v /\
      (forall y, y < nv s -> val s' y = if y =? idx s (i + s_nn s) then v else if y =? idx s j then vadd (val s (idx s j)) (vscale (1 / Ts s (idx s (i + s_nn s)) (idx s j)) (vsub v (val s (idx s (i + s_nn s))))) else
          if Bs s y then vadd (val s y) (vscale (Ts s y (idx s j)) (vscale (1 / Ts s (idx s (i + s_nn s)) (idx s j)) (vsub v (val s (idx s (i + s_nn s)))))) else val s y) /\
      (CQ s -> CQ s').
  Proof.
    intros Sh Hr Hnz. destruct (sh_nz _ Sh _ _ Hnz) as [Hi Hj].
    destruct (idx_basic s i Sh Hi) as (Hb & Bb & Rb). destruct (idx_nonbasic s j Sh Hj) as (He & Be & Re).
    destruct (pivot_ok o L s i j v Sh Hnz) as (s' & E & Sh' & Vr & Cl & HB & (T1 & T2 & T3 & T4) & Hval & Hcm & HQ).
    set (b := idx s (i + s_nn s)) in *. set (e := idx s j) in *. set (th := vscale (1 / Ts s b e) (vsub v (val s b))) in *.
    destruct (vreach_facts _ _ _ Vr) as (Bt & St & Bn).
    assert (ET : Ts s b e = tget (s_tab s) i j). { unfold Ts. rewrite Rb, Re. replace (i + s_nn s - s_nn s) with i by lia. auto. }
    assert (Hne : b <> e) by congruence.
    assert (Hrows : forall a, rows s' a <-> rows s a).
    { intros a. unfold rows. rewrite (stat_nv _ _ St). symmetry. apply (rows_pivot_abs (nv s) (Bs s) (Bs s') (Ts s) (Ts s') b e a); auto. rewrite ET; auto. }
    assert (Hrs : rows s (val s')).
    { intros c Hc Bc. assert (Ec : rowval (nv s) (Bs s) (Ts s) (val s') c = vadd (val s c) (vscale (Ts s c e) th)).
      { rewrite (Hr c Hc Bc). unfold rowval. apply (vsum_update (nv s) e); auto.
        - intros k Hk Hke. destruct (Bs s k) eqn:Bk; auto. rewrite Hval by auto. destruct (Nat.eqb_spec k b); [congruence|].
          destruct (Nat.eqb_spec k e); [congruence|]. rewrite Bk. auto.
        - rewrite Be, Hval by auto. destruct (Nat.eqb_spec e b); [congruence|]. rewrite Nat.eqb_refl. vring. }
      rewrite Ec, Hval by auto. destruct (Nat.eqb_spec c b) as [->|Hcb].
      - unfold th. rewrite vscale_scale. replace (Ts s b e * (1 / Ts s b e))%Qc with 1%Qc by (field; rewrite ET; auto).
        rewrite vscale_1. vring.
      - destruct (Nat.eqb_spec c e); [congruence|]. rewrite Bc. auto. }
    exists s'. split; auto. split; auto. split; [apply Hrows; auto|]. split; auto. split; auto. split; [|split; [exact Hval|]].
    - constructor; auto.
      + rewrite Hval by auto. rewrite Nat.eqb_refl. auto.
      + intros y Hy By Hye. rewrite Hval by auto. destruct (Nat.eqb_spec y b); [congruence|]. destruct (Nat.eqb_spec y e); [congruence|]. rewrite By. auto.
    - intros [Qi Qc]. destruct (HQ Qi) as [Qi' Qc']. split; auto. intros y Hy By Hc. rewrite (stat_nv _ _ St) in Hy.
      destruct (Nat.eq_dec y e) as [->|Hye]; [apply Qc'; auto|].
      destruct (Qc_eq_dec (Ts s y e) 0) as [E0|E0]; [|apply Qc'; auto].
      pose proof By as By'. rewrite HB in By' by auto. destruct (Nat.eqb_spec y b); [discriminate|]. destruct (Nat.eqb_spec y e); [congruence|].
      apply Hcm, Qc; auto. rewrite <- Hc. symmetry. apply conf_at_same; [apply Bn|apply Bn|].
      rewrite Hval by auto. destruct (Nat.eqb_spec y b); [congruence|]. destruct (Nat.eqb_spec y e); [congruence|]. rewrite By', E0, vscale_0, vadd_0_r. auto.
  Qed.

  Lemma pivot_J o L s i j v m : J s -> pivot_choice s i j v m ->
    exists s', pivot_ o L i j v s = Ok s' /\ J s' /\ vreach L s s' /\ pstep s s' (idx s (i + s_nn s)) (idx s j) v.
  Proof.
    intros [Sh Ps Bc Hr Hn Hq] [P1 P2 P3 P4 P5 P6 P7].
    destruct (pivot_step o L s i j v Sh Hr P3) as (s' & E & Sh' & Hr' & Vr & Cl & St & _ & Hq').
    exists s'. split; auto. split; [|auto]. pose proof St as [S1 S2 S3 S4 S5 S6]. constructor; auto.
    - eapply psound_same; eauto.
    - eapply bcons_same; eauto.
    - intros y Hy HB. rewrite (stat_nv _ _ S1) in Hy. rewrite S4 in HB by auto. unfold inb.
      set (b := idx s (i + s_nn s)) in *. destruct (Nat.eqb_spec y b) as [->|Hyb].
      + rewrite S5. destruct P4 as (c & Hc & <- & _). split; intros w; rewrite ?(lov_same s s'), ?(upv_same s s') by auto; unfold lov, upv; intros Hw; apply fmap_Some in Hw as (c' & Hc' & ->).
        * destruct m; [rewrite Hc in Hc'; injection Hc' as ->; apply vle_refl|]. apply (Bc b c' c); auto.
        * destruct m; [|rewrite Hc in Hc'; injection Hc' as ->; apply vle_refl]. apply (Bc b c c'); auto.
      + destruct (Nat.eqb_spec y (idx s j)); [discriminate|]. rewrite S6 by auto.
        destruct (Hn y Hy HB) as [H1 H2]. split; intros w; rewrite ?(lov_same s s'), ?(upv_same s s') by auto; auto.
  Qed.

  (** result of a run of the loop *)
  Definition unsat_clause s s' : Prop := exists bs, s_clause s' = map (fun b => (- b_lit b)%Z) bs /\
    (forall b, b ∈ bs -> exists x, lo s x = Some b \/ up s x = Some b) /\
    (forall a, rows s a -> (forall c, c ∈ bs -> bsat a c) -> False).
  Record lpost (L : nat) s s' (r : bool) : Prop := {
    lp_J : J s';
    lp_vr : vreach L s s';
    lp_rows : forall a, rows s' a <-> rows s a;
    lp_res : if r then feasible s' /\ s_conf s' = [] else unsat_clause s s';
    lp_free : forall z, z < nv s -> lo s z = None -> up s z = None -> Bs s z = true -> Bs s' z = true;
  }.

  Definition trun (n : nat) s (f : nat -> solver V) (c : nat -> nat * nat * V * bool) : Prop :=
    f 0 = s /\ forall t, t < n -> let '(i, j, v, m) := c t in
      J (f t) /\ J (f (S t)) /\ pivot_choice (f t) i j v m /\ pstep (f t) (f (S t)) (idx (f t) (i + s_nn (f t))) (idx (f t) j) v.

  Lemma select_J s : J s -> exists r s', select_ s = Ok (r, s') /\ selonly s s' /\ J s' /\
      match r with
      | SelSat => feasible s' /\ s_conf s' = []
      | SelUnsat => unsat_clause s s'
      | SelPivot i j v => exists m, pivot_choice s i j v m
      end.
  Proof.
    intros HJ. pose proof HJ as [Sh Ps Bc Hr Hn [[Q1 Q2] Q3]].
    destruct (select_loop_ok (s_conf s) s Sh Ps) as (r & s' & E & So & Sh' & Cq & Hres); auto.
    { apply Sh. }
    exists r, s'. split; auto. split; auto. split; [apply (selonly_J s); auto|]. destruct r as [| |i j v]; auto.
    - destruct Hres as [Hres Hc]. split; auto. pose proof So as (A1 & A2 & A3 & A4 & A5 & A6 & A7 & A8).
      intros x Hx. apply (inb_same s s'); [apply A7|apply A7|apply A8|]. rewrite (stat_nv _ _ A1) in Hx.
      destruct (Bs s x) eqn:Bx; [apply Hres; auto|apply Hn; auto].
    - apply Hres; auto.
  Qed.

  Lemma simplex_run n o L s : J s ->
    (exists s' r, simplex_loop n o L s = Ok (s', r) /\ lpost L s s' r) \/ (exists f c, trun n s f c).
  Proof.
    revert s. induction n as [|n IH]; intros s HJ.
    - right. exists (fun _ => s), (fun _ => (0, 0, vzero, true)). split; auto. intros; lia.
    - cbn [simplex_loop]. destruct (select_J s HJ) as (r & s1 & E & So & HJ1 & Hres). rewrite E. cbn [mbind res_bind].
      pose proof So as (A1 & A2 & A3 & A4 & A5 & A6 & A7 & A8).
      assert (Hrw : forall a, rows s1 a <-> rows s a) by (intros a; apply rows_same; auto; congruence).
      assert (Vr1 : vreach L s s1) by (eapply vreach_quiet; [apply vreach_refl|]; apply selonly_quiet; auto).
      destruct r as [| |i j v].
      + left. exists s1, true. split; auto. constructor; auto. intros z _ _ _ Bz. rewrite (Bs_same s s1); auto.
      + left. exists s1, false. split; auto. constructor; auto. intros z _ _ _ Bz. rewrite (Bs_same s s1); auto.
      + destruct Hres as (m & Hpc). assert (Hpc1 : pivot_choice s1 i j v m) by (apply (pivot_choice_same s); auto).
        destruct (pivot_J o L s1 i j v m HJ1 Hpc1) as (s2 & E2 & HJ2 & Vr2 & Pst). rewrite E2. cbn [mbind res_bind].
        assert (Ei : forall y, idx s1 y = idx s y) by apply A6.
        assert (Pst0 : pstep s s2 (idx s (i + s_nn s)) (idx s j) v).
        { rewrite (stat_nn _ _ A1), !Ei in Pst. destruct Pst as [S1 S2 S3 S4 S5 S6]. constructor; auto.
          - congruence.
          - eapply bnd_same_trans; eauto.
          - intros a. rewrite S3. auto.
          - intros y Hy. rewrite S4 by (rewrite (stat_nv _ _ A1); auto). rewrite (Bs_same s s1) by auto. auto.
          - intros y Hy HB Hne. rewrite S6; [apply A8|rewrite (stat_nv _ _ A1); auto|rewrite (Bs_same s s1); auto|auto]. }
        destruct (IH s2 HJ2) as [(s' & r & E3 & [P1 P2 P3 P4 P5])|(f & c & F0 & Fs)].
        * left. exists s', r. split; auto. constructor; auto.
          { eapply vreach_trans; [exact Vr1|]. eapply vreach_trans; eauto. }
          { intros a. rewrite P3. apply Pst0. }
          { destruct r; auto. destruct P4 as (bs & B1 & B2 & B3). exists bs. split; auto. split.
            - intros b Hb. destruct (B2 b Hb) as (x & Hx). exists x. destruct (ps_bnd _ _ _ _ _ Pst0 x) as (<- & <- & _). auto.
            - intros a Ha. apply B3. apply Pst0; auto. }
          { intros z Hz Lz Uz Bz. destruct (ps_bnd _ _ _ _ _ Pst0 z) as (El & Eu & _). apply P5.
            - rewrite (stat_nv _ _ (ps_stat _ _ _ _ _ Pst0)); auto.
            - congruence.
            - congruence.
            - rewrite (ps_B _ _ _ _ _ Pst0) by auto. destruct (Nat.eqb_spec z (idx s (i + s_nn s))) as [->|].
              + destruct (pc_viol _ _ _ _ _ Hpc) as (c & Hc & _). destruct m; congruence.
              + rewrite Bz. destruct (z =? idx s j); auto. }
        * right. exists (fun t => match t with 0 => s | S t => f t end), (fun t => match t with 0 => (i, j, v, m) | S t => c t end).
          split; auto. intros [|t] Ht.
          { rewrite F0. auto. }
          { apply Fs. lia. }
  Qed.

  (** ** Termination *)
  Lemma trun_inv n s f c : J s -> trun n s f c -> forall t, t <= n ->
    J (f t) /\ stat (f t) = stat s /\ bnd_same s (f t) /\ (forall a, rows (f t) a <-> rows s a).
  Proof.
    intros HJ [F0 Fs] t. induction t as [|t IH]; intros Ht.
    - rewrite F0. split; auto. split; auto. split; [apply bnd_same_refl|tauto].
    - destruct IH as (I1 & I2 & I3 & I4); [lia|]. specialize (Fs t ltac:(lia)). destruct (c t) as [[[i j] v] m].
      destruct Fs as (_ & J2 & _ & [S1 S2 S3 S4 S5 S6]). split; auto. split; [congruence|]. split; [eapply bnd_same_trans; eauto|].
      intros a. rewrite S3. auto.
  Qed.

  Lemma incr_room m q : incr (Bool.eqb m true) q \/ incr (Bool.eqb m false) q -> q <> 0%Qc.
  Proof. intros Hi ->. destruct m; destruct Hi as [Hi|Hi]; exact (qc_lt_irrefl _ Hi). Qed.

  Theorem simplex_terminates n s f c : J s -> trun n s f c -> n < 4 ^ nv s.
  Proof.
    intros HJ Hrun. pose proof (trun_inv n s f c HJ Hrun) as Hinv. destruct Hrun as [F0 Fs].
    assert (Hnv : forall t, t <= n -> nv (f t) = nv s) by (intros t Ht; apply stat_nv; apply (Hinv t Ht)).
    assert (Hnn : forall t, t <= n -> s_nn (f t) = s_nn s) by (intros t Ht; apply stat_nn; apply (Hinv t Ht)).
    set (bi := fun t => let '(i, j, v, m) := c t in idx (f t) (i + s_nn (f t))).
    set (ei := fun t => let '(i, j, v, m) := c t in idx (f t) j).
    set (mi := fun t => let '(i, j, v, m) := c t in m).
    apply (feas_bound (nv s) (lov s) (upv s) n (fun t k => (k <? nv s) && Bs (f t) k) (fun t => Ts (f t)) (fun t => val (f t))
             (fun t => EPiv (bi t) (ei t) (mi t))).
    - intros t t' b Ht Ht' Hb HB. apply andb_true_iff in HB as [_ HB].
      assert (Hr : rows (f t) (val (f t'))).
      { apply (Hinv t Ht). apply (Hinv t' Ht'). apply (j_rows _ (proj1 (Hinv t' Ht'))). }
      specialize (Hr b). rewrite (Hnv t Ht) in Hr. rewrite (Hr Hb HB). apply vsum_ext. intros k Hk.
      destruct (Nat.ltb_spec k (nv s)); [|lia]. auto.
    - intros t k Ht Hk HB. destruct (Nat.ltb_spec k (nv s)); [|lia]. cbn in HB.
      destruct (Hinv t Ht) as (Jt & St & Bt & _). pose proof (j_nbok _ Jt k ltac:(rewrite Hnv; auto) HB) as [W1 W2].
      split; intros w Hw; [apply W1|apply W2]; rewrite ?(lov_same s (f t)), ?(upv_same s (f t)); auto.
    - intros t Ht. eauto.
    - intros t i j m Ht E. injection E as <- <- <-. specialize (Fs t Ht). unfold bi, ei, mi. destruct (c t) as [[[i0 j0] v0] m0].
      destruct Fs as (J1 & J2 & Pc & Pst). pose proof (j_shape _ J1) as Sh.
      destruct (idx_basic (f t) i0 Sh (pc_i _ _ _ _ _ Pc)) as (Hb & Bb & _). destruct (idx_nonbasic (f t) j0 Sh (pc_j _ _ _ _ _ Pc)) as (He & Be & _).
      rewrite Hnv in Hb, He by lia. destruct Pst as [S1 S2 S3 S4 S5 S6]. rewrite Hnv in S4, S6 by lia.
      split; auto. split; auto. split. { apply andb_true_iff; split; auto. apply Nat.ltb_lt; auto. }
      split. { rewrite Be, andb_false_r; auto. }
      split.
      + intros k. destruct (Nat.ltb_spec k (nv s)) as [Hk|Hk]; cbn; auto.
        destruct (Nat.eqb_spec k (idx (f t) (i0 + s_nn (f t)))); [auto|]. destruct (Nat.eqb_spec k (idx (f t) j0)); [lia|auto].
      + intros k Hk HB Hne. destruct (Nat.ltb_spec k (nv s)); [|lia]. cbn in HB. auto.
    - intros t i j m Ht E. injection E as <- <- <-. specialize (Fs t Ht). unfold bi, ei, mi. destruct (c t) as [[[i0 j0] v0] m0].
      destruct Fs as (J1 & J2 & Pc & Pst). destruct (Hinv t ltac:(lia)) as (_ & St & Bt & _). split.
      + destruct (pc_viol _ _ _ _ _ Pc) as (b & Hb & <- & Hv). rewrite (ps_b _ _ _ _ _ Pst). destruct m0.
        * exists (b_val b). split; auto. rewrite <- (lov_same s (f t)) by auto. unfold lov. rewrite Hb. auto.
        * exists (b_val b). split; auto. rewrite <- (upv_same s (f t)) by auto. unfold upv. rewrite Hb. auto.
      + intros b Hb HB. apply andb_true_iff in HB as [_ HB]. pose proof (pc_min _ _ _ _ _ Pc b Hb HB) as [W1 W2].
        split; intros w Hw; [apply W1|apply W2]; rewrite ?(lov_same s (f t)), ?(upv_same s (f t)); auto.
    - intros t i j m Ht E. injection E as <- <- <-. specialize (Fs t Ht). unfold bi, ei, mi. destruct (c t) as [[[i0 j0] v0] m0].
      destruct Fs as (J1 & J2 & Pc & Pst). destruct (Hinv t ltac:(lia)) as (_ & St & Bt & _). pose proof (j_shape _ J1) as Sh.
      destruct (idx_basic (f t) i0 Sh (pc_i _ _ _ _ _ Pc)) as (Hb & Bb & Rb). destruct (idx_nonbasic (f t) j0 Sh (pc_j _ _ _ _ _ Pc)) as (He & Be & Re).
      assert (ET : Ts (f t) (idx (f t) (i0 + s_nn (f t))) (idx (f t) j0) = tget (s_tab (f t)) i0 j0).
      { unfold Ts. rewrite Rb, Re. replace (i0 + s_nn (f t) - s_nn (f t)) with i0 by lia. auto. }
      rewrite ET. pose proof (pc_room _ _ _ _ _ Pc) as Hroom. unfold room in Hroom. split; intros Hi w Hw.
      + replace (Bool.eqb m0 (bool_decide (0 < tget (s_tab (f t)) i0 j0)%Qc)) with true in Hroom.
        { apply Hroom. rewrite (upv_same s (f t)); auto. }
        destruct m0; cbn in Hi; [rewrite bool_decide_eq_true_2; auto|rewrite bool_decide_eq_false_2; auto].
        intros Hp. apply (qc_lt_irrefl 0%Qc). eapply Qclt_trans; eauto.
      + replace (Bool.eqb m0 (bool_decide (0 < tget (s_tab (f t)) i0 j0)%Qc)) with false in Hroom.
        { apply Hroom. rewrite (lov_same s (f t)); auto. }
        destruct m0; cbn in Hi; [rewrite bool_decide_eq_false_2; auto|rewrite bool_decide_eq_true_2; auto].
        intros Hp. apply (qc_lt_irrefl 0%Qc). eapply Qclt_trans; eauto.
    - intros t i j m k Ht E Hk HB. injection E as <- <- <-. specialize (Fs t Ht). unfold bi, ei, mi in *. destruct (c t) as [[[i0 j0] v0] m0].
      destruct Fs as (J1 & J2 & Pc & Pst). destruct (Hinv t ltac:(lia)) as (_ & St & Bt & _). pose proof (j_shape _ J1) as Sh.
      destruct (idx_nonbasic (f t) j0 Sh (pc_j _ _ _ _ _ Pc)) as (He & Be & Re). rewrite Hnv in He by lia.
      destruct (Nat.ltb_spec k (nv s)); [|lia]. cbn in HB. pose proof (pc_first _ _ _ _ _ Pc k Hk HB) as Hf. split; intros Hi.
      + destruct (Hf true) as (u & Hu & Hle); [destruct m0; auto|]. exists u. rewrite (upv_same s (f t)) in Hu; auto.
      + destruct (Hf false) as (u & Hu & Hle); [destruct m0; auto|]. exists u. rewrite (lov_same s (f t)) in Hu; auto.
  Qed.

  Theorem simplex_ok fuel o L s : J s -> 4 ^ nv s <= fuel ->
    exists s' r, simplex_loop fuel o L s = Ok (s', r) /\ lpost L s s' r.
  Proof.
    intros HJ Hf. destruct (simplex_run fuel o L s HJ) as [Hok|(f & c & Hr)]; auto.
    exfalso. pose proof (simplex_terminates fuel s f c HJ Hr). lia.
  Qed.
End loop.
