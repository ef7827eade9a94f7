(** * Bound propagation: every clause propagate_ adds is valid *)
From stdpp Require Import list_numbers.
From Verif Require Import Num Sums Tableau TableauProofs Bland Solver SolverBase SolverStep Simplex SimplexLoop Hist Updates Core CoreSolve.

Section propagate.
  Context {V : Type} `{VL : ValueLaws V}.
  Implicit Types s : solver V.
  Implicit Types x y : nat.
  Implicit Types b l u : bound V.
  Implicit Types fs : list (frame V).

  (** the bounds whose literals the clause negates cannot hold together *)
  Definition valid (s0 : solver V) (Bd : list (bound V)) (cl : list Z) : Prop :=
    exists bs, cl = map (fun b => (- b_lit b)%Z) bs /\ (forall b, b ∈ bs -> b ∈ Bd) /\
      forall a, rows s0 a -> (forall b, b ∈ bs -> bsat a b) -> False.
  (** all literals but the last are negations of active literals *)
  Definition unitlike (act : list Z) (cl : list Z) : Prop :=
    exists (ls : list Z) (last : Z), cl = map Z.opp ls ++ [last] /\ forall k, k ∈ ls -> k ∈ act.

  Lemma refutes_valid s0 Bd act cl : refutes s0 Bd act cl -> valid s0 Bd cl.
  Proof. intros (bs & -> & Hb & Hr). exists bs. split; auto. split; auto. intros b Hin. apply Hb; auto. Qed.
  Lemma valid_mono s0 Bd Bd' cl : Bd ⊆ Bd' -> valid s0 Bd cl -> valid s0 Bd' cl.
  Proof. intros Hs (bs & -> & Hb & Hr). exists bs. split; auto. Qed.

  (** nothing but the propagation queue and the statistics changes *)
  Definition ponly s s' : Prop :=
    stat s' = stat s /\ s_tab s' = s_tab s /\ s_atrail s' = s_atrail s /\ s_btrail s' = s_btrail s /\ s_clause s' = s_clause s /\
    s_conf s' = s_conf s /\ perm_same s s' /\ bnd_same s s' /\ val_same s s' /\ (forall y, qd s' y = qd s y).
  Lemma ponly_refl s : ponly s s. Proof. repeat split. Qed.
  Lemma ponly_trans s1 s2 s3 : ponly s1 s2 -> ponly s2 s3 -> ponly s1 s3.
  Proof.
    intros (A1 & A2 & A3 & A4 & A5 & A6 & A7 & A8 & A9 & A10) (B1 & B2 & B3 & B4 & B5 & B6 & B7 & B8 & B9 & B10).
    split; [congruence|]. split; [congruence|]. split; [congruence|]. split; [congruence|]. split; [congruence|]. split; [congruence|].
    split; [eapply perm_same_trans; eauto|]. split; [eapply bnd_same_trans; eauto|].
    split; [intros y; destruct (A9 y), (B9 y); split; congruence|]. intros y. rewrite B10. auto.
  Qed.
  Lemma ponly_shape s s' : shape s -> ponly s s' -> (forall k, k ∈ s_pq s' -> k ∈ s_pq s) -> shape s'.
  Proof.
    intros Sh (A1 & A2 & A3 & A4 & A5 & A6 & A7 & A8 & A9 & A10) Hpq. apply (shape_keep s); auto.
    - rewrite A2. apply Sh.
    - congruence.
    - rewrite A6. apply Sh.
    - intros k Hk. apply (sh_pq _ Sh), Hpq, Hk.
    - rewrite A3. apply Sh.
    - rewrite A4. apply Sh.
    - intros x. apply A8.
  Qed.
  Lemma ponly_selonly s s' : ponly s s' -> s_pq s' = s_pq s -> selonly s s'.
  Proof. intros (A1 & A2 & A3 & A4 & A5 & A6 & A7 & A8 & A9 & A10) E. repeat split; auto; try apply A7; try apply A8; apply A9. Qed.
  Lemma ponly_CQ s s' : ponly s s' -> CQ s -> CQ s'.
  Proof.
    intros (A1 & A2 & A3 & A4 & A5 & A6 & A7 & A8 & A9 & A10) [[Q1 Q2] Q3]. split; [split|].
    - intros x. rewrite A10, A6. auto.
    - rewrite A6; auto.
    - intros x Hx Bx Hc. rewrite A6. apply Q3.
      + rewrite <- (stat_nv _ _ A1); auto.
      + rewrite (Bs_same s s') in Bx; auto.
      + rewrite <- Hc. symmetry. apply conf_at_same; [apply A8|apply A8|apply A9].
  Qed.
  Lemma ponly_J s s' : ponly s s' -> (forall k, k ∈ s_pq s' -> k ∈ s_pq s) -> J s -> J s'.
  Proof.
    intros P Hpq [Sh Ps Bc Hr Hn Hq]. pose proof (ponly_shape _ _ Sh P Hpq) as Sh'. pose proof (ponly_CQ _ _ P Hq) as Hq'.
    destruct P as (A1 & A2 & A3 & A4 & A5 & A6 & A7 & A8 & A9 & A10). constructor; auto.
    - eapply psound_same; eauto.
    - eapply bcons_same; eauto.
    - apply (rows_same s s'); auto; [rewrite A2; auto|]. apply (rows_ext s (val s)); auto. intros y _. symmetry. apply A9.
    - intros y Hy By. rewrite (stat_nv _ _ A1) in Hy. rewrite (Bs_same s s') in By by auto.
      apply (inb_same s s'); [apply A8|apply A8|apply A9|]. auto.
  Qed.
  Lemma ponly_Live keep s0 fs s s' : ponly s s' -> (forall k, k ∈ s_pq s' -> k ∈ s_pq s) -> Live keep s0 fs s -> Live keep s0 fs s'.
  Proof.
    intros P Hpq [[HJ Hh Hps Heq HR Hnv Hbs] Hf Hc]. pose proof (ponly_J _ _ P Hpq HJ) as HJ'.
    destruct P as (A1 & A2 & A3 & A4 & A5 & A6 & A7 & A8 & A9 & A10).
    constructor; [constructor; auto|..].
    - rewrite (stat_bounds _ _ A1), (stat_offs _ _ A1), A3, A4. eapply hist_eq; [apply obs_bnd; eauto|apply obs_asg; eauto|auto].
    - rewrite (stat_bounds _ _ A1). eapply psnd_eq; [apply obs_bnd; eauto|auto].
    - eapply eqp_eq; [apply obs_bnd; eauto|auto].
    - intros a. rewrite <- HR. apply rows_same; auto. rewrite A2; auto.
    - rewrite (stat_nv _ _ A1); auto.
    - rewrite (stat_bounds _ _ A1); auto.
    - intros x Hx. rewrite (stat_nv _ _ A1) in Hx. apply (inb_same s s'); [apply A8|apply A8|apply A9|]. auto.
    - rewrite (stat_bounds _ _ A1). intros b Hb Hl. eapply bimpl_eq; [apply obs_bnd; eauto|apply Hc; auto].
  Qed.

  (** the bound of the non-basic variable used for the lower (m = true) or upper sum *)
  Definition psel s (m : bool) (e : nat * Z * Z) : option (bound V) :=
    let '(j, a, d) := e in if Bool.eqb m (cpos a d) then lo s (idx s j) else up s (idx s j).

  Lemma prop_cell1_eq s j a d (fl fu : bool) : j < nv s -> idx s j < nv s ->
    prop_cell1 s j a d (fl, fu) = Ok (match psel s true (j, a, d) with None => false | Some _ => fl end,
                                      match psel s false (j, a, d) with None => false | Some _ => fu end).
  Proof.
    intros Hj Hx. unfold prop_cell1, non_basic_. rewrite at_vr by auto. cbn [mbind res_bind].
    change (v_index (vr s j)) with (idx s j). rewrite at_vr by auto. cbn [mbind res_bind]. fold (cpos a d).
    unfold psel. destruct (cpos a d); reflexivity.
  Qed.
  Lemma prop_cell2_eq s j a d (st : (option V * list Z) * (option V * list Z)) : j < nv s -> idx s j < nv s ->
    prop_cell2 s j a d st = Ok (prop_add (psel s true (j, a, d)) a d st.1, prop_add (psel s false (j, a, d)) a d st.2).
  Proof.
    intros Hj Hx. unfold prop_cell2, non_basic_. rewrite at_vr by auto. cbn [mbind res_bind].
    change (v_index (vr s j)) with (idx s j). rewrite at_vr by auto. cbn [mbind res_bind]. fold (cpos a d).
    unfold psel. destruct (cpos a d); reflexivity.
  Qed.

  Lemma row_lt s i j a d : shape s -> (j, a, d) ∈ row_entries (s_tab s) i -> j < nv s /\ idx s j < nv s.
  Proof.
    intros Sh He. destruct (row_entries_facts _ _ _ _ _ Sh He) as (_ & Hj & _). pose proof (sh_len _ Sh).
    destruct (idx_nonbasic s j Sh Hj) as (Hx & _). lia.
  Qed.
  Lemma mid_elem {A} (l don : list A) e rest : l = don ++ e :: rest -> e ∈ l.
  Proof. intros ->. apply elem_of_app; right; apply elem_of_cons; auto. Qed.

  Definition fsel (m : bool) (p : bool * bool) : bool := if m then p.1 else p.2.
  Lemma pass1 s i : shape s -> exists fl fu, update_row (s_tab s) i (prop_cell1 s) (true, true) = Ok (fl, fu) /\
    forall (m : bool) e, e ∈ row_entries (s_tab s) i -> fsel m (fl, fu) = true -> exists b, psel s m e = Some b.
  Proof.
    intros Sh. rewrite update_row_mfold.
    destruct (mfold_inv (prop_cell1 s) (row_entries (s_tab s) i) (true, true) (fun don st =>
      forall (m : bool) e, e ∈ don -> fsel m st = true -> exists b, psel s m e = Some b)) as ([fl fu] & E & P).
    - intros m e He. inversion He.
    - intros don j a d rest [fl fu] El P. destruct (row_lt s i j a d Sh (mid_elem _ _ _ _ El)).
      rewrite prop_cell1_eq by auto. eexists; split; [reflexivity|]. intros m e He Hf. apply elem_of_app in He as [He|He].
      + apply (P m e He). destruct m; cbn [fsel fst snd] in *; [destruct (psel s true _)|destruct (psel s false _)]; cbn in *; congruence.
      + apply elem_of_list_singleton in He as ->. destruct m; cbn [fsel fst snd] in *; [destruct (psel s true _)|destruct (psel s false _)]; cbn in *; try congruence; eauto.
    - eauto.
  Qed.

  (** the sum of the row up to now, and what the propagated value says about it *)
  Definition part s (a : nat -> V) (l : list (nat * Z * Z)) : V := lsum (fun e : nat * Z * Z => vscale (qmk e.1.2 e.2) (a (idx s e.1.1))) l.
  Definition pass2_inv s (m f : bool) (don : list (nat * Z * Z)) (st : option V * list Z) : Prop :=
    if f then exists v bs, st = (Some v, map (fun b => (- b_lit b)%Z) bs) /\ (forall b, b ∈ bs -> exists e, e ∈ don /\ psel s m e = Some b) /\
      (forall a, (forall b, b ∈ bs -> bsat a b) -> if m then vle v (part s a don) else vle (part s a don) v)
    else st = (None, []).
  Lemma pass2_step s i m f don j a d rest st : shape s -> psound s -> row_entries (s_tab s) i = don ++ (j, a, d) :: rest ->
    (f = true -> exists b, psel s m (j, a, d) = Some b) ->
    pass2_inv s m f don st -> pass2_inv s m f (don ++ [(j, a, d)]) (prop_add (psel s m (j, a, d)) a d st).
  Proof.
    intros Sh Ps El Hf P. destruct f; [|red in P; subst st; reflexivity]. destruct Hf as (b & Eb); auto. rewrite Eb.
    destruct P as (v & bs & -> & Pin & Pv). cbn [prop_add fst snd].
    destruct (row_entries_facts _ _ _ _ _ Sh (mid_elem _ _ _ _ El)) as (_ & _ & _ & Ha & Hd).
    exists (vadd v (vdivz (vmulz (b_val b) a) d)), (bs ++ [b]). split; [rewrite map_app; reflexivity|]. split.
    - intros c Hc. apply elem_of_app in Hc as [Hc|Hc].
      + destruct (Pin c Hc) as (e & He & E). exists e. split; auto. apply elem_of_app; auto.
      + apply elem_of_list_singleton in Hc as ->. exists (j, a, d). split; auto. apply elem_of_app; right; apply elem_of_list_singleton; auto.
    - intros w Hw. specialize (Pv w). unfold part in *. rewrite lsum_app. cbn [lsum fst snd]. rewrite vadd_0_r, vmuldiv by auto.
      assert (Pw := Pv ltac:(intros c Hc; apply Hw; apply elem_of_app; auto)).
      assert (Hb := Hw b ltac:(apply elem_of_app; right; apply elem_of_list_singleton; auto)).
      pose proof (cpos_spec a d Ha Hd) as Hcp. unfold psel in Eb. destruct (Ps (idx s j) b) as [PL PU].
      destruct m, (cpos a d); cbn [Bool.eqb] in Eb.
      + destruct (PL Eb) as [E1 E2]. apply bsat_lower in Hb; auto. rewrite E1 in Hb. apply vadd_le_mono; auto. apply vscale_le; auto. apply Qclt_le_weak; auto.
      + destruct (PU Eb) as [E1 E2]. apply bsat_upper in Hb; auto. rewrite E1 in Hb. apply vadd_le_mono; auto. apply vscale_le_neg; auto. apply Qclt_le_weak; auto.
      + destruct (PU Eb) as [E1 E2]. apply bsat_upper in Hb; auto. rewrite E1 in Hb. apply vadd_le_mono; auto. apply vscale_le; auto. apply Qclt_le_weak; auto.
      + destruct (PL Eb) as [E1 E2]. apply bsat_lower in Hb; auto. rewrite E1 in Hb. apply vadd_le_mono; auto. apply vscale_le_neg; auto. apply Qclt_le_weak; auto.
  Qed.
  Lemma pass2 s i (fl fu : bool) : shape s -> psound s ->
    (forall (m : bool) e, e ∈ row_entries (s_tab s) i -> fsel m (fl, fu) = true -> exists b, psel s m e = Some b) ->
    exists (l u : option V * list Z), update_row (s_tab s) i (prop_cell2 s) ((if fl then Some vzero else None, []), (if fu then Some vzero else None, [])) = Ok (l, u) /\
      pass2_inv s true fl (row_entries (s_tab s) i) l /\ pass2_inv s false fu (row_entries (s_tab s) i) u.
  Proof.
    intros Sh Ps Hf. rewrite update_row_mfold.
    destruct (mfold_inv (prop_cell2 s) (row_entries (s_tab s) i) ((if fl then Some vzero else None, []), (if fu then Some vzero else None, [])) (fun don st =>
      pass2_inv s true fl don st.1 /\ pass2_inv s false fu don st.2)) as ([l u] & E & P1 & P2).
    - split; [destruct fl|destruct fu]; cbn; auto; exists vzero, []; (split; [reflexivity|]); (split; [intros b Hb; inversion Hb|]); intros w _; apply vle_refl.
    - intros don j a d rest [l u] El [P1 P2]. destruct (row_lt s i j a d Sh (mid_elem _ _ _ _ El)).
      rewrite prop_cell2_eq by auto. eexists; split; [reflexivity|]. cbn [fst snd].
      split; eapply pass2_step; eauto; intros E; [apply (Hf true)|apply (Hf false)]; auto; eapply mid_elem; eauto.
    - eauto.
  Qed.

  (** ** the clauses *)
  Lemma prop_bounds_ok h (test : bound V -> bool) cl bs s log :
    exists s' log' ok, prop_bounds h test cl bs s log = (s', log', ok) /\ ponly s s' /\ s_pq s' = s_pq s /\
      exists new, log' = log ++ new /\ forall c, c ∈ new -> exists b, b ∈ bs /\ test b = true /\ c = cl ++ [(- b_lit b)%Z].
  Proof.
    revert s log. induction bs as [|b bs IH]; intros s log; cbn [prop_bounds].
    - exists s, log, true. split; auto. split; [apply ponly_refl|]. split; auto. exists []. rewrite app_nil_r. split; auto. intros c Hc. inversion Hc.
    - assert (Hlift : forall c, (exists b0, b0 ∈ bs /\ test b0 = true /\ c = cl ++ [(- b_lit b0)%Z]) -> exists b0, b0 ∈ b :: bs /\ test b0 = true /\ c = cl ++ [(- b_lit b0)%Z]).
      { intros c (b0 & H1 & H2). exists b0. split; auto. apply elem_of_cons; auto. }
      destruct (test b && negb (h_false h log (b_lit b))) eqn:Et.
      + apply andb_prop in Et as [Et _].
        assert (P1 : ponly s (set_stats (s_pivots s) (S (s_props s)) s)) by (repeat split).
        destruct (h_reply h (log ++ [cl ++ [(- b_lit b)%Z]])).
        * destruct (IH (set_stats (s_pivots s) (S (s_props s)) s) (log ++ [cl ++ [(- b_lit b)%Z]])) as (s' & log' & ok & E & P & Q & new & -> & Hn).
          eexists s', _, ok. split; [exact E|]. split; [exact (ponly_trans _ _ _ P1 P)|]. split; auto.
          exists ([cl ++ [(- b_lit b)%Z]] ++ new). split; [symmetry; apply app_assoc|]. intros c Hc. apply elem_of_cons in Hc as [->|Hc]; auto.
          exists b. split; auto. apply elem_of_cons; auto.
        * eexists _, _, false. split; [reflexivity|]. split; auto. split; auto. eexists; split; [reflexivity|].
          intros c Hc. apply elem_of_list_singleton in Hc as ->. exists b. split; auto. apply elem_of_cons; auto.
      + destruct (IH s log) as (s' & log' & ok & E & P & Q & new & -> & Hn). eexists s', _, ok. split; [exact E|]. split; auto. split; auto. exists new. split; auto.
  Qed.

  Lemma psel_pointer s m e b : psel s m e = Some b -> exists (k : bool) y, n_side (obs s) k y = Some b.
  Proof. destruct e as [[j a] d]. unfold psel. destruct (Bool.eqb m (cpos a d)); intros E; [exists true|exists false]; exists (idx s j); exact E. Qed.

  (** the clause built from the sums and a bound it contradicts *)
  Lemma row_clause s0 act s i m v cl b : shape s -> i < s_nb s -> (forall a, rows s a <-> rows s0 a) -> psnd (s_bounds s) act (obs s) ->
    pass2_inv s m true (row_entries (s_tab s) i) (Some v, cl) ->
    b ∈ v_bounds (vr s (idx s (i + s_nn s))) ->
    (if m then b_rel b <> BGe /\ vlt (b_val b) v else b_rel b <> BLe /\ vlt v (b_val b)) ->
    valid s0 (s_bounds s) (cl ++ [(- b_lit b)%Z]) /\ unitlike act (cl ++ [(- b_lit b)%Z]).
  Proof.
    intros Sh Hi HR Hps (v' & bs & E & Pin & Pv) Hb Ht. injection E as <- ->.
    destruct (sh_vb _ Sh _ _ Hb) as [Hb1 Hb2]. destruct (idx_basic s i Sh Hi) as (Hx & Bx & _).
    assert (Hin : forall c, c ∈ bs -> c ∈ s_bounds s /\ b_lit c ∈ act).
    { intros c Hc. destruct (Pin c Hc) as (e & _ & Ee). apply psel_pointer in Ee as (k & y & Ey). destruct (Hps k y c Ey) as (? & _ & _ & ?). auto. }
    split.
    - exists (bs ++ [b]). split; [rewrite map_app; auto|]. split.
      { intros c Hc. apply elem_of_app in Hc as [Hc|Hc]; [apply Hin; auto|]. apply elem_of_list_singleton in Hc as ->. auto. }
      intros a Ha Hs. apply HR in Ha. pose proof (Ha _ Hx Bx) as Ea. rewrite row_sum in Ea by auto. fold (part s a (row_entries (s_tab s) i)) in Ea.
      assert (Pa := Pv a ltac:(intros c Hc; apply Hs; apply elem_of_app; auto)). rewrite <- Ea in Pa.
      assert (Hsb := Hs b ltac:(apply elem_of_app; right; apply elem_of_list_singleton; auto)). destruct m, Ht as [Ht1 Ht2].
      + apply bsat_upper in Hsb; auto. rewrite Hb2 in Hsb. apply (vlt_irrefl v). eapply vle_lt_trans; [|exact Ht2]. eapply vle_trans; eauto.
      + apply bsat_lower in Hsb; auto. rewrite Hb2 in Hsb. apply (vlt_irrefl v). eapply vlt_le_trans; [exact Ht2|]. eapply vle_trans; eauto.
    - exists (map b_lit bs), (- b_lit b)%Z. split; [rewrite map_map; auto|]. intros k Hk. apply elem_of_list_fmap in Hk as (c & -> & Hc). apply Hin; auto.
  Qed.

  (** all new clauses are valid *)
  Definition newvalid s0 Bd act (log log' : list (list Z)) : Prop :=
    exists new, log' = log ++ new /\ forall c, c ∈ new -> valid s0 Bd c /\ unitlike act c.
  Lemma newvalid_refl s0 Bd act log : newvalid s0 Bd act log log.
  Proof. exists []. rewrite app_nil_r. split; auto. intros c Hc. inversion Hc. Qed.
  Lemma newvalid_trans s0 Bd act (l1 l2 l3 : list (list Z)) : newvalid s0 Bd act l1 l2 -> newvalid s0 Bd act l2 l3 -> newvalid s0 Bd act l1 l3.
  Proof. intros (n1 & -> & H1) (n2 & -> & H2). exists (n1 ++ n2). rewrite app_assoc. split; auto. intros c Hc. apply elem_of_app in Hc as [|]; auto. Qed.

  Lemma prop_row_ok h s0 act s i log : shape s -> psound s -> (forall a, rows s a <-> rows s0 a) -> psnd (s_bounds s) act (obs s) -> i < s_nb s ->
    exists s' log' ok, prop_row h i s log = Ok (s', log', ok) /\ ponly s s' /\ s_pq s' = s_pq s /\ newvalid s0 (s_bounds s) act log log'.
  Proof.
    intros Sh Ps HR Hps Hi. unfold prop_row. pose proof (sh_len _ Sh) as Hlen. assert (Hiv : i < nv s) by lia.
    rewrite at_vr by auto. cbn [mbind res_bind]. set (s1 := upd_var i (vset_prop false) s).
    assert (V1 : forall y, vr s1 y = if y =? i then vset_prop false (vr s i) else vr s y) by (intros y; unfold s1; rewrite vr_upd by exact Hiv; reflexivity).
    assert (P1 : ponly s s1).
    { split; [unfold s1; rewrite stat_upd; reflexivity|]. repeat (split; [reflexivity|]).
      split; [intros y; unfold idx, ridx; rewrite V1; destruct (Nat.eqb_spec y i); subst; auto|].
      split; [intros y; unfold lo, up; rewrite V1; destruct (Nat.eqb_spec y i); subst; auto|].
      split; [intros y; unfold val, lvl; rewrite V1; destruct (Nat.eqb_spec y i); subst; auto|].
      intros y; unfold qd; rewrite V1; destruct (Nat.eqb_spec y i); subst; auto. }
    assert (Sh1 : shape s1) by (eapply ponly_shape; eauto). pose proof P1 as (A1 & A2 & _ & _ & _ & _ & A7 & A8 & A9 & _).
    assert (Ps1 : psound s1) by (eapply psound_same; eauto).
    assert (HR1 : forall a, rows s1 a <-> rows s0 a). { intros a. rewrite <- HR. apply rows_same; auto. }
    assert (Hps1 : psnd (s_bounds s1) act (obs s1)) by (rewrite (stat_bounds _ _ A1); eapply psnd_eq; [apply obs_bnd; eauto|auto]).
    assert (Hi1 : i < s_nb s1) by auto. assert (Eb : s_bounds s1 = s_bounds s) by auto.
    destruct (pass1 s1 i Sh1) as (fl & fu & -> & Hf). cbn [mbind res_bind].
    destruct (negb fu && negb fl).
    { exists s1, log, true. split; auto. split; auto. split; auto. apply newvalid_refl. }
    destruct (pass2 s1 i fl fu Sh1 Ps1 Hf) as (l & u & -> & PL & PU). cbn [mbind res_bind].
    destruct (idx_basic s1 i Sh1 Hi1) as (Hx & Bx & _).
    assert (Hr : i + s_nn s1 < nv s1). { pose proof (sh_len _ Sh1). lia. }
    unfold basic_. rewrite at_vr by auto. cbn [mbind res_bind]. change (v_index (vr s1 (i + s_nn s1))) with (idx s1 (i + s_nn s1)).
    rewrite at_vr by auto. cbn [mbind res_bind].
    set (bs := v_bounds (vr s1 (idx s1 (i + s_nn s1)))) in *. rewrite <- Eb.
    assert (Hhalf : forall (m f : bool) (st : option V * list Z) s2 log2, pass2_inv s1 m f (row_entries (s_tab s1) i) st ->
      match st.1 with None => True | Some v => 
        exists s' log' ok, prop_bounds h (fun b => match b_rel b with BLe => if m then vltb (b_val b) v else false | BGe => if m then false else vgtb (b_val b) v | BEq => if m then vltb (b_val b) v else vgtb (b_val b) v end) st.2 bs s2 log2 = (s', log', ok)
          /\ ponly s2 s' /\ s_pq s' = s_pq s2 /\ newvalid s0 (s_bounds s1) act log2 log' end).
    { intros m f st s2 log2 P. destruct f; [|red in P; subst st; exact I]. pose proof P as (v & bs' & E & _). subst st. cbn [fst snd].
      edestruct (prop_bounds_ok h (fun b => match b_rel b with BLe => if m then vltb (b_val b) v else false | BGe => if m then false else vgtb (b_val b) v | BEq => if m then vltb (b_val b) v else vgtb (b_val b) v end)
         (map (fun b => (- b_lit b)%Z) bs') bs s2 log2) as (s' & log' & ok & E & P' & Q' & new & -> & Hn).
      exists s', (log2 ++ new), ok. split; auto. split; auto. split; auto. exists new. split; auto. intros c Hc. destruct (Hn c Hc) as (b & Hb & Ht & ->).
      apply (row_clause s0 act s1 i m v); auto. destruct m; destruct (b_rel b) eqn:Er; try discriminate Ht; (split; [congruence|]); first [apply vltb_lt; exact Ht|apply vgtb_lt; exact Ht]. }
    assert (Hext : forall t1 t2 cl bs s2 log2, (forall b, t1 b = t2 b) -> prop_bounds h t1 cl bs s2 log2 = prop_bounds h t2 cl bs s2 log2).
    { clear. intros t1 t2 cl bs s2 log2 E. revert s2 log2. induction bs as [|b bs IH]; intros; cbn; auto. rewrite E. destruct (_ && _); auto. destruct (h_reply _ _); auto. }
    assert (HU := Hhalf false fu u s1 log PU).
    assert (Hupper : exists s2 log2 ok2, match u.1 with Some uv => prop_bounds h (fun b => match b_rel b with BLe => false | _ => vgtb (b_val b) uv end) u.2 bs s1 log | None => (s1, log, true) end = (s2, log2, ok2)
        /\ ponly s1 s2 /\ s_pq s2 = s_pq s1 /\ newvalid s0 (s_bounds s1) act log log2).
    { destruct u.1 as [uv|].
      - destruct HU as (s' & log' & ok & E & R). exists s', log', ok. split; auto.
      - exists s1, log, true. split; auto. split; [apply ponly_refl|]. split; auto. apply newvalid_refl. }
    destruct Hupper as (s2 & log2 & ok2 & -> & P2 & Q2 & N2). destruct ok2; cbn [negb].
    2:{ exists s2, log2, false. split; auto. split; [eapply ponly_trans; eauto|]. split; auto. }
    assert (HL := Hhalf true fl l s2 log2 PL). destruct l.1 as [lv|].
    - destruct HL as (s' & log' & ok & E & R1 & R2 & R3). exists s', log', ok. split.
      { f_equal. rewrite <- E. apply Hext. intros b. destruct (b_rel b); auto. }
      split; [eapply ponly_trans; [eauto|eapply ponly_trans; eauto]|]. split; [rewrite R2, Q2; reflexivity|]. eapply newvalid_trans; eauto.
    - exists s2, log2, true. split; auto. split; [eapply ponly_trans; eauto|]. split; auto.
  Qed.

  Lemma prop_rows_ok h s0 act (changed : bool) is s log : shape s -> psound s -> (forall a, rows s a <-> rows s0 a) -> psnd (s_bounds s) act (obs s) ->
    (forall i, i ∈ is -> i < s_nb s) -> (changed = true -> s_pq s = is) ->
    exists s' log' ok, prop_rows h changed is s log = Ok (s', log', ok) /\ ponly s s' /\ (forall k, k ∈ s_pq s' -> k ∈ s_pq s) /\ newvalid s0 (s_bounds s) act log log'.
  Proof.
    revert s log. induction is as [|i is IH]; intros s log Sh Ps HR Hps Hi Hq; cbn [prop_rows].
    - exists s, log, true. split; auto. split; [apply ponly_refl|]. split; auto. apply newvalid_refl.
    - set (s1 := if changed then set_pq is s else s).
      assert (P1 : ponly s s1) by (unfold s1; destruct changed; repeat split).
      assert (Q1 : forall k, k ∈ s_pq s1 -> k ∈ s_pq s). { unfold s1. destruct changed; auto. cbn. rewrite Hq by auto. intros k Hk. apply elem_of_cons; auto. }
      assert (Sh1 : shape s1) by (eapply ponly_shape; eauto). pose proof P1 as (A1 & A2 & _ & _ & _ & _ & A7 & A8 & A9 & _).
      assert (Ps1 : psound s1) by (eapply psound_same; eauto).
      assert (HR1 : forall a, rows s1 a <-> rows s0 a). { intros a. rewrite <- HR. apply rows_same; auto. rewrite A2; auto. }
      assert (Hps1 : psnd (s_bounds s1) act (obs s1)) by (rewrite (stat_bounds _ _ A1); eapply psnd_eq; [apply obs_bnd; eauto|auto]).
      destruct (prop_row_ok h s0 act s1 i log Sh1 Ps1 HR1 Hps1) as (s2 & log2 & ok & -> & P2 & Q2 & N2).
      { rewrite (stat_nb _ _ A1). apply Hi, elem_of_cons; auto. }
      cbn [mbind res_bind]. rewrite (stat_bounds _ _ A1) in N2. assert (P12 : ponly s s2) by (eapply ponly_trans; eauto).
      assert (Q12 : forall k, k ∈ s_pq s2 -> k ∈ s_pq s) by (intros k; rewrite Q2; auto).
      destruct ok; [|exists s2, log2, false; auto].
      pose proof P12 as (B1 & B2 & _ & _ & _ & _ & B7 & B8 & B9 & _).
      destruct (IH s2 log2) as (s3 & log3 & ok & -> & P3 & Q3 & N3).
      + exact (ponly_shape _ _ Sh P12 Q12).
      + eapply psound_same; eauto.
      + intros a. rewrite <- HR. apply rows_same; auto. rewrite B2; auto.
      + rewrite (stat_bounds _ _ B1); eapply psnd_eq; [apply obs_bnd; eauto|auto].
      + intros k Hk. rewrite (stat_nb _ _ B1). apply Hi, elem_of_cons; auto.
      + intros ->. rewrite Q2. reflexivity.
      + exists s3, log3, ok. split; auto. split; [eapply ponly_trans; eauto|]. split; auto. rewrite (stat_bounds _ _ B1) in N3. eapply newvalid_trans; eauto.
  Qed.

  Theorem propagate_ok h o keep s0 fs s log : Live keep s0 fs s ->
    exists s' log' ok, propagate_ h o s log = Ok (s', log', ok) /\ Live keep s0 fs s' /\ ponly s s' /\ newvalid s0 (s_bounds s) (active fs) log log'.
  Proof.
    intros HL. pose proof HL as [[[Sh Ps Bc Hr Hn Hq] Hh Hps Heq HR Hnv Hbs] Hf Hc]. unfold propagate_.
    destruct (o_pmode o).
    - exists s, log, true. split; auto. split; auto. split; [apply ponly_refl|]. apply newvalid_refl.
    - destruct (prop_rows_ok h s0 (active fs) true (s_pq s) s log) as (s' & log' & ok & E & P & Q & N); auto; [apply (sh_pq _ Sh)|].
      exists s', log', ok. split; auto. split; [eapply ponly_Live; eauto|]. auto.
    - destruct (prop_rows_ok h s0 (active fs) false (seq 0 (s_nb s)) s log) as (s' & log' & ok & E & P & Q & N); auto; try discriminate.
      { intros i Hi. apply elem_of_seq in Hi. lia. }
      exists s', log', ok. split; auto. split; [eapply ponly_Live; eauto|]. auto.
  Qed.

  (** ** the whole of Solver::solve *)
  Theorem solve_ok keep s0 fs s (a : asg) (o : options) h lits log fuel :
    Live keep s0 fs s -> top fs <= a_dl a -> (keep = true -> o_store o <> StorePartial) ->
    lv_ok a (enter (a_dl a) lits s fs) -> lsafe (a_dl a) (s_bounds s) (active (enter (a_dl a) lits s fs)) lits -> 4 ^ nv s <= fuel ->
    exists s' log' ok, solve fuel h o a lits s log = Ok (s', log', ok) /\ pstat s' = pstat s /\ freek s s' /\
      (exists new, log' = log ++ new /\ forall c, c ∈ new -> valid s0 (s_bounds s) c) /\
      (Live keep s0 (enter (a_dl a) lits s fs) s' \/
       ok = false /\ Dead keep s0 (enter (a_dl a) lits s fs) s' /\
       exists c, log' = log ++ [c] /\ refutes s0 (s_bounds s) (active (enter (a_dl a) lits s fs)) c).
  Proof.
    intros HL Htop Hk Hlv Hsf Hfuel. unfold solve.
    destruct (solve_core_ok keep s0 fs s a o lits fuel HL Htop Hk Hlv Hsf Hfuel) as (s1 & ok & -> & Ep & Hfr & Hres). cbn [mbind res_bind].
    assert (Ebs : s_bounds s1 = s_bounds s) by (unfold pstat in Ep; congruence).
    destruct ok.
    - destruct (propagate_ok h o keep s0 (enter (a_dl a) lits s fs) s1 log Hres) as (s2 & log2 & ok2 & E2 & L2 & P2 & (new & -> & N2)).
      exists s2, (log ++ new), ok2. split; auto. pose proof P2 as (B1 & B2 & _ & _ & _ & _ & B7 & B8 & B9 & _).
      split; [rewrite <- Ep; apply stat_pstat; auto|].
      split; [intros z Hz Hb Bz; rewrite (Bs_same s1 s2) by auto; apply Hfr; auto|].
      split; [|left; auto]. exists new. split; auto. intros c Hc. rewrite <- Ebs. apply N2; auto.
    - destruct Hres as [HD Hf]. exists s1, (log ++ [s_clause s1]), false. split; auto. split; auto. split; auto. split.
      + exists [s_clause s1]. split; auto. intros c Hc. apply elem_of_list_singleton in Hc as ->. eapply refutes_valid; eauto.
      + right. split; auto. split; auto. eauto.
  Qed.
End propagate.
