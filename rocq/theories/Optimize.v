(** * Solver::optimize: terminates, keeps feasibility, finds the optimum *)
From stdpp Require Import list_numbers.
From Verif Require Import Num Sums Tableau TableauProofs Bland Solver SolverBase SolverStep Simplex SimplexLoop Hist Updates Core CoreSolve OptSelect.

Section optimize.
  Context {V : Type} `{VL : ValueLaws V}.
  Implicit Types s : solver V.
  Implicit Types x y : nat.
  Implicit Types b l u : bound V.
  Implicit Types fs : list (frame V).

  (** ** Live is kept by moves along the rows *)
  Lemma Live_move keep s0 fs s s' : Live keep s0 fs s -> vreach (top fs) s s' -> shape s' -> rows s' (val s') -> CQ s' ->
    (forall a, rows s' a <-> rows s a) -> feasible s' -> Live keep s0 fs s'.
  Proof.
    intros [[[Sh Ps Bc Hr Hn Hq] Hh Hps Heq HR Hnv Hbs] Hf Hc] Vr Sh' Hr' Hq' HR' Hf'.
    destruct (vreach_facts _ _ _ Vr) as (Bt & St & Bn). constructor; [constructor|..]; auto.
    - constructor; auto.
      + eapply psound_same; eauto.
      + eapply bcons_same; eauto.
      + intros x Hx _. apply Hf'; auto.
    - rewrite (stat_bounds _ _ St). apply (hist_vreach _ _ _ _ (top fs) s); auto.
    - rewrite (stat_bounds _ _ St). eapply psnd_eq; [apply obs_bnd; eauto|auto].
    - eapply eqp_eq; [apply obs_bnd; eauto|auto].
    - intros a. rewrite HR'. auto.
    - rewrite (stat_nv _ _ St); auto.
    - rewrite (stat_bounds _ _ St); auto.
    - rewrite (stat_bounds _ _ St). intros b Hb Hl. eapply bimpl_eq; [apply obs_bnd; eauto|apply Hc; auto].
  Qed.
  Lemma Live_tab keep s0 fs s t : Live keep s0 fs s -> tab_wf t -> t_rows t = t_rows (s_tab s) -> Live keep s0 fs (set_tab t s).
  Proof.
    intros HL Wt Et. pose proof HL as [[[Sh Ps Bc Hr Hn Hq] Hh Hps Heq HR Hnv Hbs] Hf Hc].
    assert (Hrw : forall a, rows (set_tab t s) a <-> rows s a) by (intros a; apply rows_same; auto; intros y; split; reflexivity).
    apply (Live_move keep s0 fs s); auto.
    - eapply vreach_quiet; [apply vreach_refl|]. repeat (split; [reflexivity|]). split; intros y; auto.
    - apply (shape_keep s); auto; [intros y; split; reflexivity|exact (sh_conf _ Sh)|exact (sh_pq _ Sh)|exact (sh_at _ Sh)|exact (sh_bt _ Sh)].
    - apply Hrw. exact Hr.
  Qed.
  Lemma Live_obj keep s0 fs s ob : Live keep s0 fs s -> Live keep s0 fs (set_obj ob s).
  Proof.
    intros [[[Sh Ps Bc Hr Hn Hq] Hh Hps Heq HR Hnv Hbs] Hf Hc]. constructor; [constructor|..]; auto. constructor; auto.
    destruct Sh. constructor; auto.
  Qed.

  (** ** Feasible states: all that the loop needs *)
  Record FS s : Prop := {
    fs_shape : shape s;
    fs_rows : rows s (val s);
    fs_cq : CQ s;
    fs_feas : feasible s;
  }.
  Lemma FS_bcons s : FS s -> bcons s.
  Proof.
    intros [_ _ _ Hf] x l u Hl Hu. destruct (Nat.lt_ge_cases x (nv s)) as [Hx|Hx].
    - destruct (Hf x Hx) as [F1 F2]. eapply vle_trans; [apply (F1 (b_val l))|apply (F2 (b_val u))]; unfold lov, upv; rewrite ?Hl, ?Hu; auto.
    - exfalso. unfold lo, vr in Hl. rewrite lookup_ge_None_2 in Hl by exact Hx. discriminate.
  Qed.
  Lemma Live_FS keep s0 fs s : Live keep s0 fs s -> FS s.
  Proof. intros [[[Sh Ps Bc Hr Hn Hq] Hh Hps Heq HR Hnv Hbs] Hf Hc]. constructor; auto. Qed.
  Lemma FS_tab s t : FS s -> tab_wf t -> t_rows t = t_rows (s_tab s) -> FS (set_tab t s).
  Proof.
    intros [Sh Hr Hq Hf] Wt Et.
    assert (Hrw : forall a, rows (set_tab t s) a <-> rows s a) by (intros a; apply rows_same; auto; intros y; split; reflexivity).
    constructor; auto.
    - apply (shape_keep s); auto; [intros y; split; reflexivity|exact (sh_conf _ Sh)|exact (sh_pq _ Sh)|exact (sh_at _ Sh)|exact (sh_bt _ Sh)].
    - apply Hrw. exact Hr.
  Qed.
  Lemma FS_obj s ob : FS s -> FS (set_obj ob s).
  Proof. intros [Sh Hr Hq Hf]. constructor; auto. destruct Sh. constructor; auto. Qed.

  (** ** Signs *)
  Lemma incr_dec (q : Qc) : q <> 0%Qc -> exists r, incr r q.
  Proof. intros Hq. destruct (qc_total q 0) as [E|[E|E]]; [exists false; auto|contradiction|exists true; auto]. Qed.
  Lemma incr_nz r q : incr r q -> q <> 0%Qc.
  Proof. destruct r; cbn; intros Hr ->; exact (qc_lt_irrefl _ Hr). Qed.
  Lemma incr_inv r q : incr r q -> incr r (1 / q)%Qc.
  Proof.
    unfold Qcdiv. destruct r; cbn; intros Hr.
    - rewrite Qcmult_1_l. apply qc_inv_pos; auto.
    - assert (Hp : (0 < / (- q))%Qc) by (apply qc_inv_pos; qclra).
      assert (q <> 0%Qc) by (intros ->; exact (qc_lt_irrefl _ Hr)).
      assert (E : (1 * / q)%Qc = (- / (- q))%Qc) by (field; split; auto; intros E; apply H0; rewrite <- (Qcopp_involutive q), E; reflexivity). rewrite E. qclra.
  Qed.
  (** scaling by a coefficient of sign [r] turns direction [p] into [eqb p r] *)
  Lemma scale_dle p r q (v w : V) : incr r q -> dle p v w -> dle (Bool.eqb p r) (vscale q v) (vscale q w).
  Proof.
    intros Hi Hd. destruct p, r; cbn in *; first [apply vscale_le; [apply Qclt_le_weak; exact Hi|exact Hd]|apply vscale_le_neg; [apply Qclt_le_weak; exact Hi|exact Hd]].
  Qed.
  Lemma eqb_invol p r : Bool.eqb (Bool.eqb p r) r = p.
  Proof. destruct p, r; auto. Qed.
  Lemma eqb_invol2 p q : Bool.eqb p (Bool.eqb p q) = q.
  Proof. destruct p, q; auto. Qed.
  Lemma dle_add_l p (c v w : V) : dle p v w <-> dle p (vadd c v) (vadd c w).
  Proof.
    assert (G : forall v w : V, vle v w <-> vle (vadd c v) (vadd c w)).
    { intros v1 w1. rewrite (vle_sub v1), (vle_sub (vadd c v1)). replace (vsub (vadd c w1) (vadd c v1)) with (vsub w1 v1) by vring. tauto. }
    destruct p; apply G.
  Qed.
  Lemma scale_cancel q (v : V) : q <> 0%Qc -> vscale q (vscale (1 / q) v) = v.
  Proof. intros Hq. rewrite vscale_scale. replace (q * (1 / q))%Qc with 1%Qc by (field; auto). apply vscale_1. Qed.

  (** moving a basic variable along with the entering one *)
  Lemma move_within (lo' up' : nat -> option V) p y (yy ve th : V) (T : Qc) :
    within lo' up' y yy -> dle p vzero th ->
    (forall q w, incr (Bool.eqb p q) T -> bnd lo' up' q y = Some w -> dle p (vadd ve th) (vadd ve (vscale (1 / T) (vsub w yy)))) ->
    within lo' up' y (vadd yy (vscale T th)).
  Proof.
    intros Hw Hth Hb. destruct (Qc_eq_dec T 0) as [->|Hnz]; [rewrite vscale_0, vadd_0_r; auto|].
    destruct (incr_dec T Hnz) as (r & Hr). set (q := Bool.eqb p r).
    pose proof (scale_dle p r T vzero th Hr Hth) as Hdir. fold q in Hdir. rewrite vscale_zero in Hdir.
    assert (Hgrow : dle q yy (vadd yy (vscale T th))).
    { assert (G := proj1 (dle_add_l q yy _ _) Hdir). rewrite vadd_0_r in G. exact G. }
    assert (Hlim : forall w, bnd lo' up' q y = Some w -> dle q (vadd yy (vscale T th)) w).
    { intros w Hw'. specialize (Hb q w). unfold q in Hb. rewrite eqb_invol2 in Hb. fold q in Hb. specialize (Hb Hr Hw').
      apply dle_add_l in Hb. apply (scale_dle p r T) in Hb; auto. fold q in Hb. rewrite scale_cancel in Hb by auto.
      assert (G := proj1 (dle_add_l q yy _ _) Hb). replace (vadd yy (vsub w yy)) with w in G by vring. exact G. }
    destruct Hw as [W1 W2]. split; intros w Ew.
    - destruct q; cbn in *; [eapply vle_trans; [apply W1; exact Ew|exact Hgrow]|apply Hlim; auto].
    - destruct q; cbn in *; [apply Hlim; auto|eapply vle_trans; [exact Hgrow|apply W2; exact Ew]].
  Qed.

  Lemma room_dle (lo' up' : nat -> option V) p k (v w : V) : room lo' up' p k v -> atbound lo' up' p k w -> dle p v w.
  Proof.
    destruct p; cbn; intros Hr (u & Hu & Hle).
    - eapply vle_trans; [apply vlt_le, Hr; eauto|auto].
    - eapply vle_trans; [eauto|apply vlt_le, Hr; eauto].
  Qed.

  (** ** What one iteration does *)
  Definition entering z s e : Prop := exists p, incr p (Ts s z e) /\ room (lov s) (upv s) p e (val s e) /\
    (forall k, k < e -> Bs s k = false -> forall q, incr q (Ts s z k) -> atbound (lov s) (upv s) q k (val s k)).
  Definition ofacts z s s' (ev : event) : Prop :=
    match ev with
    | EFlip e m => e < nv s /\ Bs s e = false /\ entering z s e /\ (forall k, Bs s' k = Bs s k) /\
        bnd (lov s) (upv s) (negb m) e = Some (val s' e) /\ incr (negb m) (Ts s z e) /\
        (forall k, k < nv s -> k <> e -> Bs s k = false -> val s' k = val s k)
    | EPiv l e m => e < nv s /\ Bs s e = false /\ entering z s e /\ l < nv s /\ Bs s l = true /\ Ts s l e <> 0%Qc /\
        (forall k, k < nv s -> Bs s' k = if k =? l then false else if k =? e then true else Bs s k) /\
        (forall k, k < nv s -> k <> e -> Bs s k = false -> val s' k = val s k) /\
        bnd (lov s) (upv s) (negb m) l = Some (val s' l) /\
        (forall p, incr p (Ts s z e) -> incr (Bool.eqb p (negb m)) (Ts s l e)) /\
        (forall p y (w : V), incr p (Ts s z e) -> y < nv s -> Bs s y = true -> Ts s y e <> 0%Qc ->
          forall q, incr (Bool.eqb p q) (Ts s y e) -> bnd (lov s) (upv s) q y = Some w ->
          let v := vadd (val s e) (vscale (1 / Ts s y e)%Qc (vsub w (val s y))) in
          atbound (lov s) (upv s) p e v \/ (dle p (val s' e) v /\ (v = val s' e -> l <= y)))
    end.

  (** all variables are within their bounds under [a] *)
  Definition inall s (a : nat -> V) : Prop := rows s a /\ forall x, x < nv s -> within (lov s) (upv s) x (a x).
  Definition optimal z s : Prop := forall a, inall s a -> vle (a z) (val s z).
  Definition ray z s : Prop := forall M, vle (val s z) M -> exists a, inall s a /\ a z = M.

  Record LK z s : Prop := {
    lk_F : FS s;
    lk_z : z < nv s;
    lk_zb : Bs s z = true;
    lk_lo : lo s z = None;
    lk_up : up s z = None;
  }.
  Definition olevel s : nat := match last (s_offs s) with None => 0 | Some f => o_level f end.
  Lemma olevel_top keep s0 fs s : Live keep s0 fs s -> olevel s = top fs.
  Proof.
    intros HL. pose proof (hist_top _ _ _ _ _ _ _ _ (md_h _ _ _ _ (lv_M _ _ _ _ HL))) as Ht. unfold olevel.
    destruct (last (s_offs s)); [apply Ht|]. rewrite Ht. reflexivity.
  Qed.
  Lemma LK_move z L s s' : LK z s -> vreach L s s' -> shape s' -> rows s' (val s') -> CQ s' ->
    (forall a, rows s' a <-> rows s a) -> feasible s' -> Bs s' z = true -> LK z s'.
  Proof.
    intros [HL Hz Hzb Hlo Hup] Vr Sh' Hr' Hq' HR' Hf' Bz. destruct (vreach_facts _ _ _ Vr) as (Bt & St & Bn). constructor; auto.
    - constructor; auto.
    - rewrite (stat_nv _ _ St); auto.
    - rewrite <- Hlo. apply Bn.
    - rewrite <- Hup. apply Bn.
  Qed.

  Lemma Ts_row s i j : shape s -> i < s_nb s -> j < s_nn s -> Ts s (idx s (i + s_nn s)) (idx s j) = tget (s_tab s) i j.
  Proof.
    intros Sh Hi Hj. destruct (idx_basic s i Sh Hi) as (_ & _ & Rb). destruct (idx_nonbasic s j Sh Hj) as (_ & _ & Re).
    unfold Ts. rewrite Rb, Re. replace (i + s_nn s - s_nn s) with i by lia. auto.
  Qed.
  Lemma cpos_incr a d : a <> 0%Z -> d <> 0%Z -> incr (cpos a d) (qmk a d).
  Proof. intros Ha Hd. pose proof (cpos_spec a d Ha Hd). destruct (cpos a d); auto. Qed.

  Lemma within_same s s' x v : bnd_same s s' -> within (lov s) (upv s) x v -> within (lov s') (upv s') x v.
  Proof. intros Bn [W1 W2]. split; intros w Hw; [apply W1|apply W2]; rewrite ?(lov_same s s'), ?(upv_same s s') in *; auto. Qed.

  (** an entry of the row of [z] *)
  Lemma z_entry s z k q : shape s -> z < nv s -> Bs s z = true -> k < nv s -> Bs s k = false -> incr q (Ts s z k) ->
    exists a d, (ridx s k, a, d) ∈ row_entries (s_tab s) (ridx s z - s_nn s) /\ cpos a d = q /\ idx s (ridx s k) = k.
  Proof.
    intros Sh Hz Bz Hk Bk Hq. destruct (nonbasic_idx s k Sh Hk Bk) as [Hj Ej]. pose proof (incr_nz _ _ Hq) as Hnz. unfold Ts in Hnz, Hq.
    destruct (row_entries_nz s _ _ Sh Hnz) as (a & d & Hin). exists a, d. split; auto. split; auto.
    destruct (row_entries_facts _ _ _ _ _ Sh Hin) as (_ & _ & Eg & Ha & Hd). rewrite Eg in Hq. apply (incr_bool _ _ (qmk a d)); auto. apply cpos_incr; auto.
  Qed.
  (** an entry of the column of [e] *)
  Lemma e_entry s e y p q (w : V) : shape s -> e < nv s -> Bs s e = false -> y < nv s -> Bs s y = true -> incr (Bool.eqb p q) (Ts s y e) -> bnd (lov s) (upv s) q y = Some w ->
    exists a d b, (ridx s y - s_nn s, a, d) ∈ col_entries (s_tab s) (ridx s e) /\ lsel s p (ridx s y - s_nn s, a, d) = Some b /\ b_val b = w /\ yv s (ridx s y - s_nn s) = y /\
      lval s e (ridx s y - s_nn s, a, d) b = vadd (val s e) (vscale (1 / Ts s y e) (vsub w (val s y))).
  Proof.
    intros Sh He Be Hy By Hi Hw. destruct (basic_idx s y Sh Hy By) as [Hk Ek]. pose proof (incr_nz _ _ Hi) as Hnz. unfold Ts in Hnz.
    destruct (col_entries_nz s _ _ Sh Hnz) as (a & d & Hin). destruct (col_entries_facts _ _ _ _ _ Sh Hin) as (_ & Eg & Ha & Hd).
    assert (Ec : cpos a d = Bool.eqb p q). { unfold Ts in Hi. rewrite Eg in Hi. apply (incr_bool _ _ (qmk a d)); auto. apply cpos_incr; auto. }
    assert (Eq : Bool.eqb (cpos a d) p = q) by (rewrite Ec; destruct p, q; auto).
    assert (Hb : exists b, lsel s p (ridx s y - s_nn s, a, d) = Some b /\ b_val b = w).
    { unfold lsel, yv. rewrite Eq, Ek. unfold bnd, lov, upv in Hw. destruct q; apply fmap_Some in Hw as (b & Hb & ->); eauto. }
    destruct Hb as (b & Hb1 & Hb2). exists a, d, b. split; auto. split; auto. split; auto. split; auto.
    unfold lval, yv. rewrite Ek, Hb2. unfold Ts. rewrite Eg, (qmk_inv a d); auto.
  Qed.

  Lemma inc_val pos q (th v : V) : incr pos q -> dle pos vzero th -> vle v (vadd v (vscale q th)).
  Proof.
    intros Hi Hd. apply (scale_dle pos pos q) in Hd; auto. rewrite vscale_zero in Hd. replace (Bool.eqb pos pos) with true in Hd by (destruct pos; auto).
    assert (G := proj1 (dle_add_l true v _ _) Hd). rewrite vadd_0_r in G. exact G.
  Qed.
  Theorem opt_step z o s : LK z s -> ob_var (s_obj s) = z ->
    exists s' fin, optimize_step o s = Ok (s', fin) /\
      if fin then exists t (bd : bool), s' = set_obj (obj_set_bounded bd (s_obj s)) (set_tab t s) /\ tab_wf t /\ t_rows t = t_rows (s_tab s) /\
                    (if bd then optimal z s else ray z s)
      else LK z s' /\ vreach (olevel s) s s' /\ (forall a, rows s' a <-> rows s a) /\ vle (val s z) (val s' z) /\ exists ev, ofacts z s s' ev.
  Proof.
    intros HK Ez. pose proof HK as [HL Hz Bz Loz Upz]. pose proof HL as [Sh Hr Hq Hf]. pose proof (FS_bcons s HL) as Bc.
    unfold optimize_step. rewrite Ez, at_vr by auto. cbn [mbind res_bind]. change (v_rindex (vr s z)) with (ridx s z).
    destruct (basic_idx s z Sh Hz Bz) as [Hzi Ezi]. set (zi := ridx s z - s_nn s) in *.
    destruct (enter_row s zi Sh Hzi) as (ee & pos & E & Hee). change (length (s_vars s)) with (nv s). rewrite E. cbn [mbind res_bind].
    destruct Hee as [[-> Hopt]|(Hee & j & a & d & Hin & Eee & Ep & Hroom & Hfirst)].
    - rewrite Nat.eqb_refl. eexists _, true. split; [reflexivity|]. exists (s_tab s), true. split; [destruct s; reflexivity|]. split; [apply Sh|]. split; auto.
      intros w [Hrw Hwi]. rewrite (Hrw z Hz Bz), (Hr z Hz Bz). rewrite <- Ezi. rewrite !row_sum by auto. apply lsum_le. intros [[j a] d] He. cbn [fst snd].
      destruct (row_entries_facts _ _ _ _ _ Sh He) as (_ & Hj & _ & Ha & Hd). destruct (idx_nonbasic s j Sh Hj) as (Hx & Bx & _).
      destruct (Hwi (idx s j) Hx) as [W1 W2]. specialize (Hopt j a d He). pose proof (cpos_spec a d Ha Hd) as Hcp. destruct (cpos a d); destruct Hopt as (b & Hb & Hle).
      + apply vscale_le; [apply Qclt_le_weak; auto|]. eapply vle_trans; eauto.
      + apply vscale_le_neg; [apply Qclt_le_weak; auto|]. eapply vle_trans; eauto.
    - destruct (Nat.eqb_spec ee (nv s)); [lia|]. rewrite at_vr by auto. cbn [mbind res_bind]. change (v_rindex (vr s ee)) with (ridx s ee).
      destruct (row_entries_facts _ _ _ _ _ Sh Hin) as (_ & Hj & Eg & Ha & Hd). destruct (idx_nonbasic s j Sh Hj) as (Hx & Bx & Rx). rewrite <- Eee in Hx, Bx, Rx.
      rewrite Rx. assert (ETz : Ts s z ee = qmk a d). { rewrite <- Ezi, Eee, Ts_row; auto. }
      assert (Hp : incr pos (Ts s z ee)) by (rewrite ETz, Ep; apply cpos_incr; auto).
      assert (Hent : entering z s ee).
      { exists pos. split; auto. split; auto. intros k Hk Bk q Hiq. assert (Hkn : k < nv s) by lia.
        destruct (z_entry s z k q Sh Hz Bz Hkn Bk Hiq) as (a' & d' & Hin' & <- & Ek). fold zi in Hin'.
        specialize (Hfirst _ _ _ Hin'). rewrite Ek in Hfirst. auto. }
      destruct (leave_col s ee j pos Sh Hee Hj) as (t & cand & E1 & Wt & Et & Hcand). rewrite E1. cbn [mbind res_bind].
      fold (olevel (set_tab t s)). change (olevel (set_tab t s)) with (olevel s).
      set (s1 := set_tab t s). assert (HL1 : FS s1) by (apply FS_tab; auto).
      assert (Sh1 : shape s1) by apply HL1.
      assert (Hr1 : rows s1 (val s1)) by apply HL1.
      assert (Hq1 : CQ s1) by apply HL1.
      assert (Hrw1 : forall w, rows s1 w <-> rows s w) by (intros w; apply rows_same; auto; intros y; split; reflexivity).
      assert (ETs : forall y k, Ts s1 y k = Ts s y k) by (intros y k; apply Ts_same; auto; intros w; split; reflexivity).
      assert (Vr1 : vreach (olevel s) s s1). { eapply vreach_quiet; [apply vreach_refl|]. repeat (split; [reflexivity|]). split; intros y; auto. }
      assert (Hrow : forall e0 b0, e0 ∈ col_entries (s_tab s) j -> lsel s pos e0 = Some b0 -> exists i0 a0 d0, e0 = (i0, a0, d0) /\ i0 < s_nb s /\ a0 <> 0%Z /\ d0 <> 0%Z /\ Ts s (yv s i0) ee = qmk a0 d0 /\
                       bnd (lov s) (upv s) (Bool.eqb (cpos a0 d0) pos) (yv s i0) = Some (b_val b0)).
      { intros [[i0 a0] d0] b0 Hin0 Hs0. destruct (col_entries_facts _ _ _ _ _ Sh Hin0) as (Hi0 & Eg0 & Ha0 & Hd0). exists i0, a0, d0. split; auto. split; auto. split; auto. split; auto. split.
        - rewrite Eee. unfold yv. rewrite Ts_row; auto.
        - unfold lsel in Hs0. unfold bnd, lov, upv. destruct (Bool.eqb (cpos a0 d0) pos); rewrite Hs0; auto. }
      destruct cand as [[[ll v_e] bv]|].
      + (* pivot *)
        destruct Hcand as [(e0 & b0 & Hin0 & Hs0 & -> & Ev & -> & Hroom_e) Hbest]. destruct (Hrow e0 b0 Hin0 Hs0) as (i0 & a0 & d0 & -> & Hi0 & Ha0 & Hd0 & ETl & Hbnd). cbn [fst].
        destruct (idx_basic s i0 Sh Hi0) as (Hl & Bl & Rl). fold (yv s i0) in Hl, Bl, Rl. set (l := yv s i0) in *.
        rewrite (at_vr s1 l) by exact Hl. cbn [mbind res_bind]. change (v_rindex (vr s1 l)) with (ridx s l). change (s_nn s1) with (s_nn s). rewrite Rl.
        replace (i0 + s_nn s - s_nn s) with i0 by lia.
        assert (Hnz : tget (s_tab s1) i0 j <> 0%Qc). { change (tget t i0 j <> 0%Qc). unfold tget. rewrite Et. fold (tget (s_tab s) i0 j). rewrite <- Ts_row by auto. fold (yv s i0). rewrite <- Eee. fold l. rewrite ETl. apply qmk_nz; auto. }
        destruct (pivot_step o (olevel s) s1 i0 j (b_val b0) Sh1 Hr1 Hnz) as (s2 & -> & Sh2 & Hr2 & Vr2 & Cl2 & Pst & Hval & HQ2). cbn [mbind res_bind].
        change (idx s1 (i0 + s_nn s1)) with l in *. change (idx s1 j) with (idx s j) in *. rewrite <- Eee in *. change (nv s1) with (nv s) in *.
        rewrite ETs in Hval. change (val s1 ?y) with (val s y) in Hval.
        set (q := Bool.eqb (cpos a0 d0) pos) in *. set (th := vscale (1 / Ts s l ee) (vsub (b_val b0) (val s l))) in *.
        assert (Hlnz : Ts s l ee <> 0%Qc) by (rewrite ETl; apply qmk_nz; auto).
        assert (Hve : v_e = vadd (val s ee) th). { rewrite Ev. unfold lval, th. fold l. rewrite ETl, (qmk_inv a0 d0); auto. }
        assert (Hcl : incr (Bool.eqb pos q) (Ts s l ee)). { rewrite ETl. unfold q. replace (Bool.eqb pos (Bool.eqb (cpos a0 d0) pos)) with (cpos a0 d0) by (destruct pos, (cpos a0 d0); auto). apply cpos_incr; auto. }
        assert (Hdth : dle pos vzero th).
        { assert (G : dle q vzero (vsub (b_val b0) (val s l))).
          { destruct (Hf l Hl) as [F1 F2]. unfold bnd in Hbnd. destruct q; cbn.
            - apply (proj1 (vle_sub _ _)). apply F2; auto.
            - specialize (F1 _ Hbnd). rewrite vle_sub in F1 |- *. replace (vsub vzero _) with (vsub (val s l) (b_val b0)) by vring. auto. }
          apply (scale_dle q (Bool.eqb pos q) (1 / Ts s l ee)) in G; [|apply incr_inv; auto]. rewrite vscale_zero in G. fold th in G.
          replace (Bool.eqb q (Bool.eqb pos q)) with pos in G by (destruct pos, q; auto). auto. }
        assert (Hne : l <> ee) by congruence. destruct Pst as [S1 S2 S3 S4 S5 S6].
        assert (Hz1 : z <> l). { intros ->. unfold bnd, lov, upv in Hbnd. rewrite Loz, Upz in Hbnd. destruct q; discriminate. }
        assert (Hlim : forall y q' w, y < nv s -> Bs s y = true -> incr (Bool.eqb pos q') (Ts s y ee) -> bnd (lov s) (upv s) q' y = Some w ->
                  atbound (lov s) (upv s) pos ee (vadd (val s ee) (vscale (1 / Ts s y ee) (vsub w (val s y)))) \/
                  (dle pos v_e (vadd (val s ee) (vscale (1 / Ts s y ee) (vsub w (val s y)))) /\ (vadd (val s ee) (vscale (1 / Ts s y ee) (vsub w (val s y))) = v_e -> l <= y))).
        { intros y q' w Hy By Hiy Hw. destruct (e_entry s ee y pos q' w Sh Hee Bx Hy By Hiy Hw) as (a' & d' & b' & Hin' & Hs' & _ & Ey & Elv). rewrite Rx in Hin'.
          destruct (Hbest _ _ Hin' Hs') as [G|[G1 G2]]; rewrite Elv in *; auto. right. split; auto. cbn [fst] in G2. rewrite Ey in G2. auto. }
        assert (Hf2 : feasible s2).
        { intros y Hy. rewrite (stat_nv _ _ S1) in Hy. change (nv s1) with (nv s) in Hy. unfold inb. apply (within_same s1 s2); auto. change (lov s1) with (lov s). change (upv s1) with (upv s).
          rewrite Hval by auto. destruct (Nat.eqb_spec y l) as [->|Hyl].
          - destruct (Hf l Hl) as [F1 F2]. unfold bnd in Hbnd. pose proof (Bc l) as Bcl. unfold lov, upv in *. split; intros w Hw; apply fmap_Some in Hw as (c & Hc' & ->); destruct q; apply fmap_Some in Hbnd as (c' & Hc'' & ->); first [solve [apply Bcl; auto]|rewrite Hc' in Hc''; injection Hc'' as ->; apply vle_refl].
          - destruct (Nat.eqb_spec y ee) as [->|Hye].
            + rewrite <- Hve. destruct (Hf ee Hee) as [F1 F2]. assert (Gd : dle pos (val s ee) v_e). { rewrite Hve. assert (G := proj1 (dle_add_l pos (val s ee) _ _) Hdth). rewrite vadd_0_r in G. auto. }
              split; intros w Hw; destruct pos; cbn in *; [eapply vle_trans; [apply F1; exact Hw|exact Gd]|apply vlt_le, Hroom_e; auto|apply vlt_le, Hroom_e; auto|eapply vle_trans; [exact Gd|apply F2; exact Hw]].
            + change (Bs s1 y) with (Bs s y). destruct (Bs s y) eqn:By; [|exact (Hf y Hy)]. rewrite ETs. change (val s1 y) with (val s y).
              apply (move_within (lov s) (upv s) pos y (val s y) (val s ee) th); [apply Hf; auto|auto|].
              intros q' w Hiy Hw. rewrite <- Hve. destruct (Hlim y q' w Hy By Hiy Hw) as [G|[G _]]; auto. eapply room_dle; eauto. }
        assert (Bz2 : Bs s2 z = true). { rewrite S4 by auto. destruct (Nat.eqb_spec z l); [congruence|]. destruct (Nat.eqb_spec z ee); auto. }
        exists s2, false. split; auto. split.
        { apply (LK_move z (olevel s) s); auto; [eapply vreach_trans; eauto|]. intros w. rewrite S3. auto. }
        split; [eapply vreach_trans; eauto|]. split; [intros w; rewrite S3; auto|].
        split.
        { rewrite (Hval z) by auto. destruct (Nat.eqb_spec z l); [congruence|]. destruct (Nat.eqb_spec z ee); [congruence|].
          change (Bs s1 z) with (Bs s z). rewrite Bz, ETs. apply (inc_val pos); auto. }
        exists (EPiv l ee (negb q)). cbn [ofacts]. rewrite negb_involutive. split; auto. split; auto. split; auto. split; auto. split; auto. split; auto. split; auto. split.
        { intros k Hk Hke Bk. apply S6; auto. }
        rewrite S5. split; auto. split; [intros p Hp'; rewrite (incr_bool _ _ _ Hp' Hp); auto|].
        intros p y w Hp' Hy By Hyn q' Hiq Hw. rewrite (incr_bool _ _ _ Hp' Hp) in *. cbn zeta.
        assert (Ee2 : val s2 ee = v_e). { rewrite Hval by auto. destruct (Nat.eqb_spec ee l); [congruence|]. rewrite Nat.eqb_refl. auto. }
        rewrite Ee2. apply (Hlim y q' w); auto.
      + (* no leaving variable *)
        assert (Hat : forall y q' w, y < nv s -> Bs s y = true -> incr (Bool.eqb pos q') (Ts s y ee) -> bnd (lov s) (upv s) q' y = Some w ->
                  atbound (lov s) (upv s) pos ee (vadd (val s ee) (vscale (1 / Ts s y ee) (vsub w (val s y))))).
        { intros y q' w Hy By Hiy Hw. destruct (e_entry s ee y pos q' w Sh Hee Bx Hy By Hiy Hw) as (a' & d' & b' & Hin' & Hs' & _ & Ey & Elv). rewrite Rx in Hin'.
          rewrite <- Elv. apply Hcand; auto. }
        assert (Hstep : forall th, dle pos vzero th -> (forall w, bnd (lov s) (upv s) pos ee = Some w -> w = vadd (val s ee) th) ->
                  exists s2, update_ o (olevel s) j (vadd (val s ee) th) s1 = Ok s2 /\ LK z s2 /\ vreach (olevel s) s s2 /\ (forall w, rows s2 w <-> rows s w) /\ feasible s2 /\
                    val s2 ee = vadd (val s ee) th /\ val s2 z = vadd (val s z) (vscale (Ts s z ee) th) /\ (forall k, Bs s2 k = Bs s k) /\ (forall k, k < nv s -> k <> ee -> Bs s k = false -> val s2 k = val s k)).
        { intros th Hth Hub. destruct (update_step o (olevel s) s1 j (vadd (val s ee) th) Sh1 Hr1 Hj) as (s2 & E2 & Sh2 & Hr2 & Vr2 & Cl2 & Pm2 & Tb2 & Hval & HQ2).
          change (idx s1 j) with (idx s j) in Hval. rewrite <- Eee in Hval. change (nv s1) with (nv s) in Hval.
          destruct (vreach_facts _ _ _ Vr2) as (Bt2 & St2 & Bn2).
          assert (HB2 : forall k, Bs s2 k = Bs s k) by (intros k; rewrite (Bs_same s1 s2); auto).
          assert (Hv2 : forall y, y < nv s -> val s2 y = if y =? ee then vadd (val s ee) th else if Bs s y then vadd (val s y) (vscale (Ts s y ee) th) else val s y).
          { intros y Hy. rewrite Hval by auto. destruct (y =? ee); auto. change (Bs s1 y) with (Bs s y). destruct (Bs s y); auto. rewrite ETs. change (val s1 ?k) with (val s k). f_equal. f_equal. vring. }
          assert (Hf2 : feasible s2).
          { intros y Hy. rewrite (stat_nv _ _ St2) in Hy. change (nv s1) with (nv s) in Hy. unfold inb. apply (within_same s1 s2); auto. change (lov s1) with (lov s). change (upv s1) with (upv s).
            rewrite Hv2 by auto. destruct (Nat.eqb_spec y ee) as [->|Hye].
            - destruct (Hf ee Hee) as [F1 F2]. assert (Gd := proj1 (dle_add_l pos (val s ee) _ _) Hth). rewrite vadd_0_r in Gd.
              split; intros w Hw; destruct pos; cbn in *; [eapply vle_trans; [apply F1; exact Hw|exact Gd]|rewrite (Hub w Hw); apply vle_refl|rewrite (Hub w Hw); apply vle_refl|eapply vle_trans; [exact Gd|apply F2; exact Hw]].
            - destruct (Bs s y) eqn:By; [|apply Hf; auto].
              apply (move_within (lov s) (upv s) pos y (val s y) (val s ee) th); [apply Hf; auto|auto|].
              intros q' w Hiy Hw. pose proof (Hat y q' w Hy By Hiy Hw) as G. unfold atbound in G. unfold bnd in Hub. destruct pos; destruct G as (c & Hc1 & Hc2); rewrite (Hub c Hc1) in Hc2; auto. }
          exists s2. split; auto. split.
          { apply (LK_move z (olevel s) s); auto; [eapply vreach_trans; eauto|intros w; rewrite (rows_same s1 s2 w); auto|rewrite HB2; auto]. }
          split; [eapply vreach_trans; eauto|]. split; [intros w; rewrite (rows_same s1 s2 w); auto|]. split; auto.
          split; [rewrite Hv2 by auto; rewrite Nat.eqb_refl; auto|].
          split; [rewrite Hv2 by auto; destruct (Nat.eqb_spec z ee); [congruence|]; rewrite Bz; auto|]. split; auto.
          intros k Hk Hke Bk. rewrite Hv2 by auto. destruct (Nat.eqb_spec k ee); [congruence|]. rewrite Bk. auto. }
        destruct (if pos then v_upper (vr s ee) else v_lower (vr s ee)) as [b|] eqn:Eb.
        * assert (Hbw : bnd (lov s) (upv s) pos ee = Some (b_val b)). { unfold bnd, lov, upv, lo, up. destruct pos; rewrite Eb; auto. }
          set (th := vsub (b_val b) (val s ee)). assert (Eth : vadd (val s ee) th = b_val b) by (unfold th; vring).
          assert (Hd0 : dle pos vzero th).
          { destruct (Hf ee Hee) as [F1 F2]. unfold bnd in Hbw. unfold th. destruct pos; cbn.
            - apply (proj1 (vle_sub _ _)). apply F2; auto.
            - specialize (F1 _ Hbw). rewrite vle_sub in F1 |- *. replace (vsub vzero _) with (vsub (val s ee) (b_val b)) by vring. auto. }
          destruct (Hstep th Hd0) as (s2 & E2 & K2 & Vr2 & HR2 & Hf2 & V1 & V2 & HB2 & Hoth).
          { intros w Hw. rewrite Eth. rewrite Hw in Hbw. congruence. }
          rewrite Eth in E2, V1. rewrite E2. cbn [mbind res_bind]. exists s2, false. split; auto. split; auto. split; auto. split; auto.
          split; [rewrite V2; apply (inc_val pos); auto|].
          exists (EFlip ee (negb pos)). cbn [ofacts]. rewrite negb_involutive. rewrite V1. auto 10.
        * eexists _, true. split; [reflexivity|]. exists t, false. split; [reflexivity|]. split; auto. split; auto.
          intros M HM. set (th := vscale (1 / Ts s z ee) (vsub M (val s z))).
          destruct (Hstep th) as (s2 & E2 & K2 & Vr2 & HR2 & Hf2 & V1 & V2 & HB2 & Hoth).
          { assert (G : dle true vzero (vsub M (val s z))) by (apply (proj1 (vle_sub _ _)); auto).
            apply (scale_dle true pos (1 / Ts s z ee)) in G; [|apply incr_inv; auto]. rewrite vscale_zero in G. destruct pos; auto. }
          { intros w Hw. unfold bnd, lov, upv, lo, up in Hw. destruct pos; rewrite Eb in Hw; discriminate. }
          exists (val s2). destruct (vreach_facts _ _ _ Vr2) as (Bt2 & St2 & Bn2). split.
          { split; [apply HR2; apply (fs_rows _ (lk_F _ _ K2))|].
            intros x Hx0. rewrite <- (stat_nv _ _ St2) in Hx0. specialize (Hf2 x Hx0). unfold inb in Hf2. destruct Hf2 as [F1 F2]. split; intros w Hw; [apply F1; rewrite (lov_same s s2)|apply F2; rewrite (upv_same s s2)]; auto. }
          rewrite V2. unfold th. rewrite scale_cancel by (eapply incr_nz; eauto). vring.
  Qed.

  (** ** Termination *)
  Definition orun z (n : nat) s (f : nat -> solver V) (ev : nat -> event) : Prop :=
    f 0 = s /\ forall t, t < n -> LK z (f (S t)) /\ vreach (olevel (f t)) (f t) (f (S t)) /\ (forall a, rows (f (S t)) a <-> rows (f t) a) /\ ofacts z (f t) (f (S t)) (ev t).

  Record opost z s s' : Prop := {
    op_F : FS s';
    op_end : exists s1 t bd, vreach (olevel s) s s1 /\ FS s1 /\ (forall a, rows s1 a <-> rows s a) /\ tab_wf t /\ t_rows t = t_rows (s_tab s1) /\ s' = set_obj (obj_set_bounded bd (s_obj s1)) (set_tab t s1);
    op_zb : Bs s' z = true;
    op_rows : forall a, rows s' a <-> rows s a;
    op_bnd : bnd_same s s';
    op_obj : exists bd, s_obj s' = obj_set_bounded bd (s_obj s);
    op_stat : (s_nn s', s_nb s', s_bounds s', s_offs s', nv s') = (s_nn s, s_nb s, s_bounds s, s_offs s, nv s);
    op_res : if ob_bounded (s_obj s') then optimal z s' else ray z s';
    op_mono : vle (val s z) (val s' z);
  }.
  Lemma opt_run z n o s : LK z s -> ob_var (s_obj s) = z ->
    (exists s', optimize_loop n o s = Ok s' /\ opost z s s') \/ (exists f ev, orun z n s f ev).
  Proof.
    revert s. induction n as [|n IH]; intros s HK Ez.
    - right. exists (fun _ => s), (fun _ => EFlip 0 true). split; auto. intros; lia.
    - cbn [optimize_loop]. destruct (opt_step z o s HK Ez) as (s1 & fin & E & Hres). rewrite E. cbn [mbind res_bind]. destruct fin.
      + left. destruct Hres as (t & bd & -> & Wt & Et & Hopt). eexists. split; [reflexivity|].
        assert (Hrw : forall a, rows (set_obj (obj_set_bounded bd (s_obj s)) (set_tab t s)) a <-> rows s a).
        { intros a. exact (rows_same s (set_tab t s) a eq_refl (fun y => conj eq_refl eq_refl) Et). }
        constructor; auto.
        * apply FS_obj, FS_tab; auto. apply HK.
        * exists s, t, bd. split; [apply vreach_refl|]. split; [apply HK|]. split; [tauto|]. auto.
        * apply HK.
        * intros y. auto.
        * exists bd. reflexivity.
        * change (ob_bounded (s_obj (set_obj (obj_set_bounded bd (s_obj s)) (set_tab t s)))) with bd. destruct bd.
          { intros a [Ha1 Ha2]. apply (Hopt a). split; auto. apply Hrw; auto. }
          { intros M HM. destruct (Hopt M HM) as (a & [Ha1 Ha2] & Ha3). exists a. split; auto. split; auto. apply Hrw; auto. }
        * apply vle_refl.
      + destruct Hres as (HK1 & Vr1 & HR1 & Hinc & ev & Hev). destruct (vreach_facts _ _ _ Vr1) as (Bt & St & Bn).
        destruct (IH s1 HK1) as [(s' & E' & [P1 (s2 & t & bd & Q1 & Q2 & Q3 & Q4 & Q5 & Q6) P2 P3 P4 P5 P6 P7 P8])|(f & evs & F0 & Fs)].
        { rewrite (stat_obj _ _ St). auto. }
        * left. exists s'. split; auto. constructor; auto.
          { exists s2, t, bd. replace (olevel s1) with (olevel s) in Q1 by (unfold olevel; rewrite (stat_offs _ _ St); auto).
            split; [eapply vreach_trans; eauto|]. split; auto. split; [intros a; rewrite Q3; auto|auto]. }
          { intros a. rewrite P3. auto. }
          { eapply bnd_same_trans; eauto. }
          { destruct P5 as (bd' & ->). exists bd'. rewrite (stat_obj _ _ St). auto. }
          { rewrite P6. unfold stat in St. congruence. }
          { eapply vle_trans; eauto. }
        * right. exists (fun t => match t with 0 => s | S t => f t end), (fun t => match t with 0 => ev | S t => evs t end). split; auto.
          intros [|t] Ht; [rewrite F0; auto|]. apply Fs. lia.
  Qed.

  Theorem opt_terminates z n s f ev : LK z s -> orun z n s f ev -> n < 4 ^ nv s.
  Proof.
    intros HK [F0 Fs].
    assert (Hinv : forall t, t <= n -> LK z (f t) /\ stat (f t) = stat s /\ bnd_same s (f t) /\ (forall a, rows (f t) a <-> rows s a)).
    { induction t as [|t IH]; intros Ht.
      - rewrite F0. split; auto. split; auto. split; [apply bnd_same_refl|tauto].
      - destruct IH as (I1 & I2 & I3 & I4); [lia|]. destruct (Fs t ltac:(lia)) as (K1 & Vr & HR & _). destruct (vreach_facts _ _ _ Vr) as (Bt & St & Bn).
        split; auto. split; [congruence|]. split; [eapply bnd_same_trans; eauto|]. intros a. rewrite HR. auto. }
    assert (Hnv : forall t, t <= n -> nv (f t) = nv s) by (intros t Ht; apply stat_nv; apply (Hinv t Ht)).
    assert (Hlo : forall t k, t <= n -> lov (f t) k = lov s k) by (intros t k Ht; apply lov_same, (Hinv t Ht)).
    assert (Hup : forall t k, t <= n -> upv (f t) k = upv s k) by (intros t k Ht; apply upv_same, (Hinv t Ht)).
    assert (Hat : forall t p k v, t <= n -> atbound (lov (f t)) (upv (f t)) p k v -> atbound (lov s) (upv s) p k v).
    { intros t p k v Ht. unfold atbound. rewrite Hlo, Hup by auto. auto. }
    assert (Hrm : forall t p k v, t <= n -> room (lov (f t)) (upv (f t)) p k v -> room (lov s) (upv s) p k v).
    { intros t p k v Ht. unfold room. rewrite Hlo, Hup by auto. auto. }
    assert (Hbn : forall t p k, t <= n -> bnd (lov (f t)) (upv (f t)) p k = bnd (lov s) (upv s) p k).
    { intros t p k Ht. unfold bnd. rewrite Hlo, Hup by auto. auto. }
    assert (Hz : z < nv s) by exact (lk_z _ _ HK).
    set (B := fun t k => (k <? nv s) && Bs (f t) k).
    assert (HB : forall t k, k < nv s -> B t k = Bs (f t) k). { intros t k Hk. unfold B. destruct (Nat.ltb_spec k (nv s)); [auto|lia]. }
    assert (HBt : forall t k, B t k = true -> k < nv s /\ Bs (f t) k = true). { intros t k E. apply andb_true_iff in E as [E1 E2]. apply Nat.ltb_lt in E1. auto. }
    assert (Hent : forall t e, t <= n -> e < nv s -> entering z (f t) e -> exists p, incr p (Ts (f t) z e) /\ room (lov s) (upv s) p e (val (f t) e) /\
              (forall k, k < e -> B t k = false -> forall q, incr q (Ts (f t) z k) -> atbound (lov s) (upv s) q k (val (f t) k))).
    { intros t e Ht He (p & E1 & E2 & E3). exists p. split; auto. split; [eapply Hrm; eauto|]. intros k Hk Bk q Hq. rewrite HB in Bk by lia. eapply Hat; eauto. }
    apply (opt_bound (nv s) (lov s) (upv s) n z (rows s) B (fun t => Ts (f t)) (fun t => val (f t)) ev); auto.
    - intros t Ht. rewrite HB by auto. apply (Hinv t Ht).
    - intros t a Ht. destruct (Hinv t Ht) as (_ & _ & _ & HR). rewrite <- HR. unfold rows. rewrite Hnv by auto. split.
      + intros Hr b Hb HBb. rewrite HB in HBb by auto. rewrite (Hr b Hb HBb). apply vsum_ext. intros k Hk. rewrite HB by auto. auto.
      + intros Hr b Hb HBb. rewrite (Hr b Hb) by (rewrite HB; auto). apply vsum_ext. intros k Hk. rewrite HB by auto. auto.
    - intros t Ht. apply (Hinv t Ht). apply (fs_rows _ (lk_F _ _ (proj1 (Hinv t Ht)))).
    - intros t k Ht Hk. destruct (Hinv t Ht) as (K & _). pose proof (fs_feas _ (lk_F _ _ K) k) as Hi. rewrite Hnv in Hi by auto. destruct (Hi Hk) as [I1 I2].
      split; intros w Hw; [apply I1; rewrite Hlo|apply I2; rewrite Hup]; auto.
    - intros t e Ht Hev. destruct (Fs t Ht) as (_ & _ & _ & Hof). destruct Hev as [(l & m & E)|(m & E)]; rewrite E in Hof; destruct Hof as (He & Be & Hen & _); rewrite Hnv in He by lia;
        (split; [auto|]); (split; [rewrite HB; auto|]); apply Hent; auto; lia.
    - intros t e m Ht E. destruct (Fs t Ht) as (_ & _ & _ & Hof). rewrite E in Hof. destruct Hof as (He & Be & Hen & O1 & O2 & O3 & O4). rewrite Hnv in * by lia. rewrite Hbn in O2 by lia.
      split; [intros k; unfold B; rewrite O1; auto|]. split; auto. split; auto. intros k Hk Hke Bk. apply O4; auto. rewrite HB in Bk; auto.
    - intros t l e m Ht E. destruct (Fs t Ht) as (_ & _ & _ & Hof). rewrite E in Hof. destruct Hof as (He & Be & Hen & Hl & Bl & Hnz & O1 & O2 & O3 & O4 & O5). rewrite Hnv in * by lia. rewrite Hbn in O3 by lia.
      split; auto. split; [rewrite HB; auto|]. split; auto. split.
      { intros k. unfold B. destruct (Nat.ltb_spec k (nv s)) as [Hk|Hk]; cbn; [rewrite O1; auto|].
        destruct (Nat.eqb_spec k l); [lia|]. destruct (Nat.eqb_spec k e); [lia|]. auto. }
      split; [intros k Hk Hke Bk; rewrite HB in Bk by auto; auto|]. split; auto. split; auto.
      intros p b w Hp Hb HBb Hn q Hq Hw. rewrite HB in HBb by auto. rewrite <- (Hbn t) in Hw by lia. destruct (O5 p b w Hp Hb HBb Hn q Hq Hw) as [G|G]; [left; eapply Hat; [|exact G]; lia|right; exact G].
  Qed.

  (** from every feasible state with an objective *)
  Theorem optimize_FS z fuel o s : FS s -> ob_active (s_obj s) = true -> ob_var (s_obj s) = z ->
    z < nv s -> Bs s z = true -> lo s z = None -> up s z = None -> 4 ^ nv s <= fuel ->
    exists s', optimize fuel o s = Ok s' /\ opost z s s'.
  Proof.
    intros HL Ha Ez Hz Bz Lz Uz Hfuel. unfold optimize. rewrite Ha. assert (HK : LK z s) by (constructor; auto).
    destruct (opt_run z fuel o s HK Ez) as [|(f & ev & Hrun)]; auto. apply opt_terminates in Hrun; auto. lia.
  Qed.
  Theorem optimize_ok keep s0 fs z fuel o s : Live keep s0 fs s -> ob_active (s_obj s) = true -> ob_var (s_obj s) = z ->
    z < nv s -> Bs s z = true -> lo s z = None -> up s z = None -> 4 ^ nv s <= fuel ->
    exists s', optimize fuel o s = Ok s' /\ Live keep s0 fs s' /\ opost z s s'.
  Proof.
    intros HL Ha Ez Hz Bz Lz Uz Hfuel. destruct (optimize_FS z fuel o s (Live_FS _ _ _ _ HL) Ha Ez Hz Bz Lz Uz Hfuel) as (s' & E & P).
    exists s'. split; auto. split; auto. destruct (op_end _ _ _ P) as (s1 & t & bd & Q1 & [F1 F2 F3 F4] & Q3 & Q4 & Q5 & ->).
    rewrite (olevel_top _ _ _ _ HL) in Q1. apply Live_obj, Live_tab; auto. eapply Live_move; eauto.
  Qed.
End optimize.
