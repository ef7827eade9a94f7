(** * The assertions of the cross-check build hold (proofs about Checks.v) *)

From stdpp Require Import list_numbers.
From Verif Require Import Num Sums Tableau TableauProofs Bland Solver SolverBase SolverStep Simplex SimplexLoop Hist Updates Core CoreSolve Propagate
  OptSelect Optimize Spec Eps Prepare Propagator World ThreadOk WorldProofs Reach Checks.

(** ** Loops *)
Lemma for_all_true f l : (forall i, i ∈ l -> f i = Ok true) -> for_all f l = Ok true.
Proof.
  induction l as [|i l IH]; intros Hf; auto. cbn. rewrite Hf by (apply elem_of_cons; auto). cbn. apply IH. intros k Hk. apply Hf, elem_of_cons; auto.
Qed.
Lemma mfold_ext {S} (f g : nat -> Z -> Z -> S -> res S) (P : S -> Prop) l s :
  P s -> (forall i v d s1, (i, v, d) ∈ l -> P s1 -> f i v d s1 = g i v d s1) ->
  (forall i v d s1 s2, (i, v, d) ∈ l -> P s1 -> g i v d s1 = Ok s2 -> P s2) -> mfold f l s = mfold g l s.
Proof.
  revert s. induction l as [|[[i v] d] l IH]; intros s Ps Hfg Hg; auto. cbn.
  rewrite Hfg by (auto; apply elem_of_cons; auto). destruct (g i v d s) as [s1| | |] eqn:E; cbn; auto. apply IH.
  - eapply Hg; eauto. apply elem_of_cons; auto.
  - intros i0 v0 d0 s0 H0. apply Hfg, elem_of_cons; auto.
  - intros i0 v0 d0 s0 s2 H0. apply Hg, elem_of_cons; auto.
Qed.
Lemma update_row_ext {S} t i (f g : nat -> Z -> Z -> S -> res S) s :
  (forall j v d s1, (j, v, d) ∈ row_entries t i -> f j v d s1 = g j v d s1) -> update_row t i f s = update_row t i g s.
Proof. intros Hfg. rewrite !update_row_mfold. apply (mfold_ext f g (fun _ => True)); auto. Qed.
Lemma update_col_ext {S} (rd : S -> tableau) (wr : tableau -> S -> S) j (f g : nat -> Z -> Z -> S -> res S) (P : S -> Prop) s :
  tab_wf (rd s) -> P s ->
  (forall i v d s1, (i, v, d) ∈ col_entries (rd s) j -> P s1 -> f i v d s1 = g i v d s1) ->
  (forall i v d s1 s2, (i, v, d) ∈ col_entries (rd s) j -> P s1 -> g i v d s1 = Ok s2 -> P s2) ->
  (forall i v d s1 s2, rd s1 = rd s -> g i v d s1 = Ok s2 -> rd s2 = rd s) ->
  (forall i v d s1 s2, rd s1 = rd s -> f i v d s1 = Ok s2 -> rd s2 = rd s) ->
  update_col rd wr j f s = update_col rd wr j g s.
Proof.
  intros W Ps Hfg Hg Hrg Hrf. rewrite !update_col_mfold by auto. destruct (t_cols (rd s) !! j); auto.
  rewrite (mfold_ext f g P); auto.
Qed.

(** ** Tableau::pivot *)
Lemma merge_asserts_nil_r j Ai : (forall v, (j, v) ∉ Ai) -> merge_asserts j Ai [] = true.
Proof.
  induction Ai as [|[c v] Ai IH]; intros Hn; auto. cbn. destruct (Nat.eqb_spec c j) as [->|]; [exfalso; apply (Hn v), elem_of_cons; auto|].
  cbn. apply IH. intros w Hw. apply (Hn w), elem_of_cons; auto.
Qed.
Lemma merge_asserts_nil_l j Ak : (forall v, (j, v) ∉ Ak) -> merge_asserts j [] Ak = true.
Proof.
  induction Ak as [|[c v] Ak IH]; intros Hn; auto. cbn. destruct (Nat.eqb_spec c j) as [->|]; [exfalso; apply (Hn v), elem_of_cons; auto|].
  cbn. apply IH. intros w Hw. apply (Hn w), elem_of_cons; auto.
Qed.
Lemma merge_asserts_ok j Ai : forall Ak, csorted Ai -> csorted Ak -> ((exists v, (j, v) ∈ Ai) <-> (exists v, (j, v) ∈ Ak)) -> merge_asserts j Ai Ak = true.
Proof.
  induction Ai as [|[c v] Ai IH]; intros Ak Si Sk He.
  - apply merge_asserts_nil_l. intros w Hw. destruct He as [_ He]. destruct He as (u & Hu); [eauto|inversion Hu].
  - induction Ak as [|[c' v'] Ak IHk].
    + apply merge_asserts_nil_r. intros w Hw. destruct He as [He _]. destruct He as (u & Hu); [eauto|inversion Hu].
    + pose proof Si as Si0. pose proof Sk as Sk0. apply csorted_cons in Si0 as [Li Si']. apply csorted_cons in Sk0 as [Lk Sk'].
      cbn [merge_asserts]. destruct (Nat.ltb_spec c c').
      * assert (c <> j).
        { intros ->. destruct He as [He _]. destruct He as (u & Hu); [exists v; apply elem_of_cons; auto|]. apply elem_of_cons in Hu as [Hu|Hu]; [injection Hu as ->; lia|]. apply Lk in Hu. cbn in Hu. lia. }
        rewrite (proj2 (Nat.eqb_neq _ _)) by auto. cbn [negb andb]. apply IH; auto.
        rewrite <- He. split; intros (u & Hu).
        -- exists u. apply elem_of_cons; auto.
        -- apply elem_of_cons in Hu as [Hu|Hu]; [congruence|eauto].
      * destruct (Nat.ltb_spec c' c).
        -- assert (c' <> j).
           { intros ->. destruct He as [_ He]. destruct He as (u & Hu); [exists v'; apply elem_of_cons; auto|]. apply elem_of_cons in Hu as [Hu|Hu]; [injection Hu as ->; lia|]. apply Li in Hu. cbn in Hu. lia. }
           rewrite (proj2 (Nat.eqb_neq _ _)) by auto. cbn [negb andb]. apply IHk; auto.
           rewrite He. split; intros (u & Hu); [|exists u; apply elem_of_cons; auto]. apply elem_of_cons in Hu as [Hu|Hu]; [congruence|eauto].
        -- assert (c = c') as -> by lia. apply IH; auto. split; intros (u & Hu).
           ++ destruct He as [He _]. destruct He as (u' & Hu'); [exists u; apply elem_of_cons; auto|]. apply Li in Hu. cbn in Hu. apply elem_of_cons in Hu' as [Hu'|Hu']; [injection Hu' as -> ->; lia|eauto].
           ++ destruct He as [_ He]. destruct He as (u' & Hu'); [exists u; apply elem_of_cons; auto|]. apply Lk in Hu. cbn in Hu. apply elem_of_cons in Hu' as [Hu'|Hu']; [injection Hu' as -> ->; lia|eauto].
Qed.

Lemma apply_ins_rows k ins s s' : apply_ins k ins s = Ok s' -> t_rows (p_tab s') = t_rows (p_tab s).
Proof.
  revert s. induction ins as [|[pos c] ins IH]; intros s E; cbn in E; [injection E as <-; auto|].
  apply bind_ok in E as (col & _ & E). apply bind_ok in E as (n & _ & E). apply IH in E. rewrite E. reflexivity.
Qed.
Lemma pivot_row_rows i j Ai a_ij d_i k a_kj d_k s s' k' : pivot_row i j Ai a_ij d_i k a_kj d_k s = Ok s' -> k' <> k -> t_rows (p_tab s') !! k' = t_rows (p_tab s) !! k'.
Proof.
  unfold pivot_row. destruct (k =? i); [intros [= <-]; auto|]. intros E Hk. apply bind_ok in E as (u & _ & E). apply bind_ok in E as (rk & _ & E).
  apply bind_ok in E as (c & _ & E). apply bind_ok in E as (rk' & _ & E). apply bind_ok in E as (s1 & E1 & E). injection E as <-. cbn.
  rewrite list_lookup_insert_ne by auto. rewrite (apply_ins_rows _ _ _ _ E1). auto.
Qed.
Lemma pivot_loop_x i j Ai a_ij d_i is kept s : csorted Ai -> is_Some (clook Ai j) -> NoDup is ->
  (forall k r, k ∈ is -> t_rows (p_tab s) !! k = Some r -> csorted (r_cells r)) ->
  col_loop p_tab j (pivot_row_x i j Ai a_ij d_i) is kept s = col_loop p_tab j (pivot_row i j Ai a_ij d_i) is kept s.
Proof.
  intros SA [v0 Hj]. revert kept s. induction is as [|k is IH]; intros kept s Nd Hs; auto. cbn [col_loop].
  apply NoDup_cons in Nd as [Nk Nd]. destruct (at_ (t_rows (p_tab s)) k) as [r| | |] eqn:Er; cbn [mbind res_bind]; auto. apply at_ok in Er.
  assert (Hs' : forall k' r', k' ∈ is -> t_rows (p_tab s) !! k' = Some r' -> csorted (r_cells r')) by (intros k' r' Hk'; apply Hs, elem_of_cons; auto).
  destruct (clook (r_cells r) j) as [v|] eqn:Ev; [|apply IH; auto].
  assert (Sr : csorted (r_cells r)) by (apply (Hs k); auto; apply elem_of_cons; auto).
  assert (E : pivot_row_x i j Ai a_ij d_i k v (r_den r) s = pivot_row i j Ai a_ij d_i k v (r_den r) s).
  { unfold pivot_row_x. destruct (k =? i) eqn:Eki; [unfold pivot_row; rewrite Eki; auto|].
    unfold guard_ub. destruct (negb (Z.gcd a_ij v =? 0)%Z) eqn:Eg; cbn [mbind res_bind].
    - rewrite (proj2 (at_ok _ _ _) Er). cbn [mbind res_bind]. rewrite merge_asserts_ok; auto.
      split; intros _; [exists v|exists v0]; apply clook_elem; auto.
    - unfold pivot_row. rewrite Eki. unfold guard_ub. rewrite Eg. auto. }
  rewrite E. destruct (pivot_row i j Ai a_ij d_i k v (r_den r) s) as [s'| | |] eqn:E1; cbn [mbind res_bind]; auto. apply IH; auto.
  intros k' r' Hk' Hr'. rewrite (pivot_row_rows _ _ _ _ _ _ _ _ _ _ k' E1) in Hr'; [eapply Hs'; eauto|]. intros ->. auto.
Qed.
Lemma tpivot_x_eq t i j p : tab_wf t -> tget t i j <> 0%Qc -> tpivot_x t i j p = tpivot t i j p.
Proof.
  intros W Hnz. destruct (tget_nz _ _ _ W Hnz) as (ri & v & Hri & Hv & Hv0 & Hd0 & Eget). pose proof (tw_rows _ W _ _ Hri) as Wri.
  unfold tpivot_x, tpivot. rewrite (proj2 (at_ok _ _ _) Hri). cbn [mbind res_bind].
  set (Ai := map (fun c : cell => if c.1 =? j then c else (c.1, (- c.2)%Z)) (r_cells ri)).
  assert (EAi : Ai = map (fun c : cell => (c.1, if c.1 =? j then c.2 else (- c.2)%Z)) (r_cells ri)).
  { unfold Ai. apply map_ext. intros [c w]; cbn. destruct (c =? j); auto. }
  assert (SAi : csorted Ai). { rewrite EAi. apply (csorted_map (fun c => if c.1 =? j then c.2 else (- c.2)%Z)), Wri. }
  assert (Aij : is_Some (clook Ai j)).
  { rewrite EAi, (clook_mapc (fun c z => if c =? j then z else (- z)%Z)), Hv. cbn. eauto. }
  clearbody Ai. destruct (at_ Ai p) as [aij| | |]; cbn [mbind res_bind]; auto.
  assert (E : update_col p_tab (fun t' s => PState t' (p_sizes s)) j (pivot_row_x i j Ai aij.2 (r_den ri)) (PState (Tab (<[i:=Row (r_den ri) Ai]> (t_rows t)) (t_cols t)) (replicate (length Ai) 0)) =
     update_col p_tab (fun t' s => PState t' (p_sizes s)) j (pivot_row i j Ai aij.2 (r_den ri)) (PState (Tab (<[i:=Row (r_den ri) Ai]> (t_rows t)) (t_cols t)) (replicate (length Ai) 0))).
  { unfold update_col. cbn [p_tab t_cols]. destruct (t_cols t !! j) as [col|] eqn:Ec; auto. rewrite pivot_loop_x; auto.
    - apply ssorted_nodup. apply (tw_cols _ W _ _ Ec).
    - intros k r _. cbn. destruct (Nat.eq_dec k i) as [->|Hk].
      + rewrite list_lookup_insert by (eapply lookup_lt_Some; eauto). intros [= <-]. auto.
      + rewrite list_lookup_insert_ne by auto. intros Hr. apply (tw_rows _ W _ _ Hr). }
  rewrite E. reflexivity.
Qed.

Section checks.
  Context {V : Type} `{VL : ValueLaws V}.
  Implicit Types s : solver V.
  Implicit Types x y : nat.

  (** ** The checks *)
  Lemma assert_true : assert_ true = Ok tt. Proof. reflexivity. Qed.
  Lemma basic_x_eq s i : i < s_nb s -> basic_x s i = basic_ s i.
  Proof. intros Hi. unfold basic_x. rewrite (proj2 (Nat.ltb_lt _ _)) by auto. reflexivity. Qed.
  Lemma non_basic_x_eq s j : j < s_nn s -> non_basic_x s j = non_basic_ s j.
  Proof. intros Hi. unfold non_basic_x. rewrite (proj2 (Nat.ltb_lt _ _)) by auto. reflexivity. Qed.
  Lemma enqueue_x_eq o i s : i < s_nb s -> enqueue_x o i s = enqueue o i s.
  Proof. intros Hi. unfold enqueue_x. rewrite (proj2 (Nat.ltb_lt _ _)) by auto. reflexivity. Qed.
  Lemma basic_ok s i : shape s -> i < s_nb s -> basic_ s i = Ok (idx s (i + s_nn s)).
  Proof. intros Sh Hi. pose proof (sh_len _ Sh). unfold basic_. rewrite at_vr by lia. reflexivity. Qed.
  Lemma non_basic_ok s j : shape s -> j < s_nn s -> non_basic_ s j = Ok (idx s j).
  Proof. intros Sh Hi. pose proof (sh_len _ Sh). unfold non_basic_. rewrite at_vr by lia. reflexivity. Qed.

  Lemma row_value s i (a0 : V) : shape s -> i < s_nb s ->
    update_row (s_tab s) i (fun j a_ij d_i v => jj ← non_basic_x s j; x ← at_ (s_vars s) jj; Ok (vadd v (vdivz (vmulz (v_val x) a_ij) d_i))) a0 =
    Ok (vadd a0 (lsum (fun e : nat * Z * Z => vscale (qmk e.1.2 e.2) (val s (idx s e.1.1))) (row_entries (s_tab s) i))).
  Proof.
    intros Sh Hi. rewrite update_row_mfold. assert (Hl : forall e, e ∈ row_entries (s_tab s) i -> e ∈ row_entries (s_tab s) i) by auto.
    revert Hl. generalize (row_entries (s_tab s) i) at 1 3 4. intros l. revert a0. induction l as [|[[j a] d] l IH]; intros a0 Hl; cbn.
    - rewrite vadd_0_r. auto.
    - destruct (row_entries_facts s i j a d Sh) as (_ & Hj & _); [apply Hl, elem_of_cons; auto|].
      rewrite non_basic_x_eq, non_basic_ok by auto. cbn. rewrite at_vr by (apply (idx_nonbasic s j Sh Hj)). cbn.
      rewrite IH by (intros e He; apply Hl, elem_of_cons; auto). rewrite vmuldiv. f_equal. change (v_val (vr s (idx s j))) with (val s (idx s j)). vring.
  Qed.
  Lemma check_tableau_ok s : shape s -> rows s (val s) -> check_tableau s = Ok true.
  Proof.
    intros Sh Hr. apply for_all_true. intros i Hi. apply elem_of_seq in Hi. assert (Hi' : i < s_nb s) by lia. unfold check_tableau_row.
    rewrite row_value by auto. cbn [mbind res_bind]. rewrite basic_x_eq, basic_ok by auto. cbn [mbind res_bind].
    destruct (idx_basic s i Sh Hi') as (Hb & Bb & _). rewrite at_vr by auto. cbn [mbind res_bind]. change (v_val (vr s (idx s (i + s_nn s)))) with (val s (idx s (i + s_nn s))).
    rewrite (Hr _ Hb Bb), row_sum by auto. f_equal. apply veqb_spec. vring.
  Qed.
  (** queue flags: basic variables outside their bounds are queued *)
  Definition QF s : Prop := forall x, x < nv s -> Bs s x = true -> conf_at s x = true -> qd s x = true.
  Lemma check_basic_ok s : shape s -> QF s -> check_basic s = Ok true.
  Proof.
    intros Sh Hq. apply for_all_true. intros i Hi. apply elem_of_seq in Hi. assert (Hi' : i < s_nb s) by lia.
    rewrite basic_x_eq, basic_ok by auto. cbn [mbind res_bind]. destruct (idx_basic s i Sh Hi') as (Hb & Bb & _). rewrite at_vr by auto. cbn [mbind res_bind].
    set (x := idx s (i + s_nn s)) in *. specialize (Hq x Hb Bb). unfold conf_at, has_conflict, qd in Hq.
    destruct (viol_lower (vr s x)), (viol_upper (vr s x)), (v_queued (vr s x)); cbn in *; auto; specialize (Hq eq_refl); discriminate.
  Qed.
  Lemma check_non_basic_ok s : shape s -> nbok s -> check_non_basic s = Ok true.
  Proof.
    intros Sh Hn. apply for_all_true. intros j Hj. apply elem_of_seq in Hj. assert (Hj' : j < s_nn s) by lia.
    rewrite non_basic_x_eq, non_basic_ok by auto. cbn [mbind res_bind]. destruct (idx_nonbasic s j Sh Hj') as (Hb & Bb & _). rewrite at_vr by auto. cbn [mbind res_bind].
    pose proof (proj2 (conf_at_inb _ _) (Hn _ Hb Bb)) as Hc. unfold conf_at, has_conflict in Hc. apply orb_false_iff in Hc as [-> ->]. reflexivity.
  Qed.
  Lemma feasible_QF s : feasible s -> QF s.
  Proof. intros Hf x Hx _ Hc. apply Hf, conf_at_inb in Hx. congruence. Qed.
  Lemma feasible_nbok s : feasible s -> nbok s.
  Proof. intros Hf x Hx _. apply Hf; auto. Qed.
  Lemma check_solution_ok s : shape s -> rows s (val s) -> feasible s -> check_solution s = Ok true.
  Proof.
    intros Sh Hr Hf. unfold check_solution. replace (forallb within_bounds (s_vars s)) with true.
    - rewrite check_tableau_ok by auto. cbn [mbind res_bind]. apply check_basic_ok; auto using feasible_QF.
    - symmetry. apply forallb_forall. intros v Hv. apply elem_of_list_In, elem_of_list_lookup in Hv as (x & Hx).
      assert (Hl : x < nv s) by (eapply lookup_lt_Some; eauto). assert (Ev : vr s x = v) by (unfold vr; rewrite Hx; auto).
      destruct (Hf x Hl) as [H1 H2]. unfold lov, upv, lo, up, val in H1, H2. rewrite Ev in H1, H2. unfold within_bounds. apply andb_true_iff. split.
      + destruct (v_lower v) as [b|]; auto. apply negb_true_iff. destruct (vgtb (b_val b) (v_val v)) eqn:E; auto. apply vgtb_lt in E. exfalso.
        apply (vlt_irrefl (b_val b)). eapply vle_lt_trans; [apply H1; reflexivity|auto].
      + destruct (v_upper v) as [b|]; auto. apply negb_true_iff. destruct (vgtb (v_val v) (b_val b)) eqn:E; auto. apply vgtb_lt in E. exfalso.
        apply (vlt_irrefl (b_val b)). eapply vlt_le_trans; [exact E|apply H2; reflexivity].
  Qed.
  Lemma crosscheck_ok s : shape s -> rows s (val s) -> QF s -> nbok s -> crosscheck s = Ok tt.
  Proof. intros Sh Hr Hq Hn. unfold crosscheck. rewrite check_tableau_ok, check_basic_ok, check_non_basic_ok by auto. reflexivity. Qed.

  (** ** update_ and pivot_ *)
  Lemma set_value_nb x L v add s s' : set_value x L v add s = Ok s' -> s_nb s' = s_nb s.
  Proof. unfold set_value. intros E. apply bind_ok in E as (w & _ & E). injection E as <-. cbn. destruct (negb _); auto. Qed.
  Lemma enqueue_nb o i s s' : enqueue o i s = Ok s' -> s_nb s' = s_nb s.
  Proof.
    unfold enqueue. intros E. apply bind_ok in E as (ii & _ & E). apply bind_ok in E as (xi & _ & E).
    assert (G : forall c, s_nb (if (c : bool) then upd_var ii (vset_queued true) (set_conf (pq_insert ii (s_conf s)) s) else s) = s_nb s) by (intros []; auto).
    destruct (o_pmode o).
    - injection E as <-. auto.
    - apply bind_ok in E as (w & _ & E). destruct (v_prop w); injection E as <-; cbn; auto.
    - injection E as <-. auto.
  Qed.
  Lemma enqueue_x_tab o i s s' : enqueue_x o i s = Ok s' -> s_tab s' = s_tab s.
  Proof. unfold enqueue_x. intros E. apply bind_ok in E as (u & _ & E). eapply enqueue_tab; eauto. Qed.
  Lemma row_step_eq o L s k v : k < s_nb s ->
    (kk ← basic_x s k; s' ← set_value kk L v true s; enqueue_x o k s') = (kk ← basic_ s k; s' ← set_value kk L v true s; enqueue o k s').
  Proof.
    intros Hk. rewrite basic_x_eq by auto. destruct (basic_ s k) as [kk| | |]; cbn [mbind res_bind]; auto.
    destruct (set_value kk L v true s) as [s'| | |] eqn:E; cbn [mbind res_bind]; auto. apply enqueue_x_eq. rewrite (set_value_nb _ _ _ _ _ _ E). auto.
  Qed.
  Lemma row_step_nb o L s k v s' : (kk ← basic_ s k; s' ← set_value kk L v true s; enqueue o k s') = Ok s' -> s_nb s' = s_nb s.
  Proof. intros E. apply bind_ok in E as (kk & _ & E). apply bind_ok in E as (s1 & E1 & E2). rewrite (enqueue_nb _ _ _ _ E2), (set_value_nb _ _ _ _ _ _ E1). auto. Qed.
  Lemma row_step_tab o L s k v s' : (kk ← basic_ s k; s' ← set_value kk L v true s; enqueue o k s') = Ok s' -> s_tab s' = s_tab s.
  Proof. intros E. apply bind_ok in E as (kk & _ & E). apply bind_ok in E as (s1 & E1 & E2). rewrite (enqueue_tab _ _ _ _ E2), (set_value_tab _ _ _ _ _ _ E1). auto. Qed.
  Lemma row_step_x_tab o L s k v s' : (kk ← basic_x s k; s' ← set_value kk L v true s; enqueue_x o k s') = Ok s' -> s_tab s' = s_tab s.
  Proof. intros E. apply bind_ok in E as (kk & _ & E). apply bind_ok in E as (s1 & E1 & E2). rewrite (enqueue_x_tab _ _ _ _ E2), (set_value_tab _ _ _ _ _ _ E1). auto. Qed.

  Lemma update_x_eq o L j v s : shape s -> j < s_nn s -> update_x o L j v s = update_ o L j v s.
  Proof.
    intros Sh Hj. unfold update_x, update_. rewrite non_basic_x_eq by auto. destruct (non_basic_ s j) as [jj| | |]; cbn [mbind res_bind]; auto.
    rewrite (update_col_ext s_tab set_tab j _ (fun i a_ij d_i s => xj ← at_ (s_vars s) jj; ii ← basic_ s i; s' ← set_value ii L (vdivz (vmulz (vsub v (v_val xj)) a_ij) d_i) true s; enqueue o i s')
      (fun s1 => s_nb s1 = s_nb s)); auto.
    - apply Sh.
    - intros i a d s1 Hin E. destruct (col_entries_facts _ _ _ _ _ Sh Hin) as (Hi & _). destruct (at_ (s_vars s1) jj) as [xj| | |]; cbn [mbind res_bind]; auto.
      apply row_step_eq. rewrite E. auto.
    - intros i a d s1 s2 Hin E E2. apply bind_ok in E2 as (xj & _ & E2). apply row_step_nb in E2. congruence.
    - intros i a d s1 s2 E E2. apply bind_ok in E2 as (xj & _ & E2). apply row_step_tab in E2. congruence.
    - intros i a d s1 s2 E E2. apply bind_ok in E2 as (xj & _ & E2). apply row_step_x_tab in E2. congruence.
  Qed.

  Lemma pivot_x_eq o L i j v s : shape s -> rows s (val s) -> tget (s_tab s) i j <> 0%Qc ->
    pivot_x o L i j v s = (s' ← pivot_ o L i j v s; _ ← crosscheck s'; Ok s').
  Proof.
    intros Sh Hr Hnz. destruct (sh_nz _ Sh _ _ Hnz) as [Hi Hj]. pose proof (sh_len _ Sh) as Hl.
    destruct (idx_nonbasic s j Sh Hj) as (He & Be & Re). destruct (idx_basic s i Sh Hi) as (Hb & Bb & Rb).
    set (b := idx s (i + s_nn s)) in *. set (e := idx s j) in *. set (th := vscale (1 / Ts s b e) (vsub v (val s b))).
    assert (Hne : b <> e) by congruence.
    unfold pivot_x, pivot_. destruct (unsafe_get_ok s i j Sh Hnz) as (p & a & d & Eg & Eq & Ha & Hd). rewrite Eg. cbn [mbind res_bind].
    rewrite (proj2 (Z.eqb_neq _ _)) by auto. cbn [negb]. rewrite assert_true. cbn [mbind res_bind].
    rewrite basic_x_eq, basic_ok, non_basic_x_eq, non_basic_ok by auto. cbn [mbind res_bind]. fold b e.
    rewrite (at_vr s b), (at_vr s e) by auto. cbn [mbind res_bind]. change (v_val (vr s b)) with (val s b).
    assert (ETbe : Ts s b e = qmk a d). { unfold Ts. rewrite Rb, Re. replace (i + s_nn s - s_nn s) with i by lia. auto. }
    rewrite vdivmul, (qmk_inv a d), <- ETbe by auto. fold th.
    destruct (set_value_ok s b L v false Hb) as (s1 & -> & Vm1 & Tb1 & Pm1 & Val1 & Qd1 & Cf1 & Pq1 & Cl1). cbn [mbind res_bind].
    pose proof Vm1 as (x1 & w1 & Hx1 & _ & Hat1 & Hbt1 & Hst1 & Hbs1).
    destruct (set_value_ok s1 e L th true) as (s2 & -> & Vm2 & Tb2 & Pm2 & Val2 & Qd2 & Cf2 & Pq2 & Cl2).
    { rewrite (stat_nv _ _ Hst1). auto. }
    cbn [mbind res_bind]. pose proof Vm2 as (x2 & w2 & Hx2 & _ & Hat2 & Hbt2 & Hst2 & Hbs2).
    assert (St2 : stat s2 = stat s) by congruence. assert (Pm02 : perm_same s s2) by (eapply perm_same_trans; eauto).
    assert (Sh2 : shape s2).
    { apply (shape_keep s); auto.
      - rewrite Tb2, Tb1. apply Sh.
      - rewrite Tb2, Tb1; auto.
      - rewrite Cf2, Cf1. apply Sh.
      - rewrite Pq2, Pq1. apply Sh.
      - rewrite Hat2, Hat1. rewrite (stat_nv _ _ Hst1) in Hx2. intros e0. rewrite !elem_of_app. intros [[H0|H0]|H0].
        + apply (sh_at _ Sh); auto.
        + destruct (L =? lvl s x1); [inversion H0|]. apply elem_of_list_singleton in H0 as ->. auto.
        + destruct (L =? lvl s1 x2); [inversion H0|]. apply elem_of_list_singleton in H0 as ->. auto.
      - rewrite Hbt2, Hbt1. apply Sh.
      - intros y. destruct (Hbs2 y) as (_ & _ & ->), (Hbs1 y) as (_ & _ & ->). auto. }
    assert (Ei2 : forall y, idx s2 y = idx s y) by apply Pm02.
    assert (Er2 : forall y, ridx s2 y = ridx s y) by apply Pm02.
    assert (Bs2 : forall y, Bs s2 y = Bs s y) by (intros; apply Bs_same; auto).
    assert (Ts2 : forall y k, Ts s2 y k = Ts s y k) by (intros; apply Ts_same; auto; rewrite Tb2, Tb1; auto).
    (* the column loop with assertions is the one without *)
    assert (Ecol : update_col s_tab set_tab j (fun k a_kj d_k s0 => if k =? i then Ok s0 else kk ← basic_x s0 k; s' ← set_value kk L (vdivz (vmulz th a_kj) d_k) true s0; enqueue_x o k s') s2
      = update_col s_tab set_tab j (fun k a_kj d_k s0 => if k =? i then Ok s0 else kk ← basic_ s0 k; s' ← set_value kk L (vdivz (vmulz th a_kj) d_k) true s0; enqueue o k s') s2).
    { apply (update_col_ext s_tab set_tab j _ _ (fun s1 => s_nb s1 = s_nb s2)); auto.
      - apply Sh2.
      - intros k a0 d0 s0 Hin E. destruct (col_entries_facts _ _ _ _ _ Sh2 Hin) as (Hk & _). destruct (k =? i); auto. apply row_step_eq. rewrite E. auto.
      - intros k a0 d0 s0 s4 Hin E E2. destruct (k =? i); [congruence|]. apply row_step_nb in E2. congruence.
      - intros k a0 d0 s0 s4 E E2. destruct (k =? i); [congruence|]. apply row_step_tab in E2. congruence.
      - intros k a0 d0 s0 s4 E E2. destruct (k =? i); [congruence|]. apply row_step_x_tab in E2. congruence. }
    rewrite Ecol. clear Ecol.
    destruct (col_fold o L s2 j th (fun k => k =? i)
      (fun k a_kj d_k s0 => if k =? i then Ok s0 else kk ← basic_ s0 k; s' ← set_value kk L (vdivz (vmulz th a_kj) d_k) true s0; enqueue o k s'))
      as (s3 & E3 & Sh3 & Vr3 & Tb3 & Pm3 & Cl3 & Val3 & Cm3 & Q3); auto.
    { rewrite (stat_nn _ _ St2). auto. }
    { intros k a0 d0 s0 _ _ ->. auto. }
    { intros k a0 d0 s0 _ _ ->. rewrite vmuldiv. reflexivity. }
    { intros k a0 d0 s0 s4 E. destruct (k =? i); [congruence|]. apply row_step_tab in E. auto. }
    rewrite E3. cbn [mbind res_bind]. destruct (vreach_facts _ _ _ Vr3) as (Bt3 & St3 & Bn3).
    assert (St03 : stat s3 = stat s) by congruence. assert (Pm03 : perm_same s s3) by (eapply perm_same_trans; eauto).
    assert (Tr3 : t_rows (s_tab s3) = t_rows (s_tab s)) by (rewrite Tb3, Tb2, Tb1; auto).
    assert (Nv3 : nv s3 = nv s) by (apply (stat_nv _ _ St03)).
    (* the values satisfy the old rows *)
    assert (Valy : forall y, y < nv s -> val s3 y = if y =? b then v else if y =? e then vadd (val s e) th else
          if Bs s y then vadd (val s y) (vscale (Ts s y e) th) else val s y).
    { intros y Hy. rewrite Val3 by (rewrite (stat_nv _ _ St2); auto).
      rewrite Bs2, Er2, (stat_nn _ _ St2), Ei2. fold e. rewrite Ts2, Val2, !Val1.
      destruct (Nat.eqb_spec y b) as [->|Hyb].
      - destruct (Nat.eqb_spec b e); [congruence|]. rewrite Bb, Rb. replace (i + s_nn s - s_nn s) with i by lia. rewrite !Nat.eqb_refl. auto.
      - destruct (Nat.eqb_spec y e) as [->|Hye].
        + rewrite Be. cbn. destruct (Nat.eqb_spec e b); [congruence|auto].
        + destruct (Bs s y) eqn:By; auto. destruct (Nat.eqb_spec (ridx s y - s_nn s) i) as [E|]; auto. exfalso.
          destruct (basic_idx s y Sh Hy By) as [_ Ey]. rewrite E in Ey. unfold b in Hyb. congruence. }
    assert (Hr3 : rows s3 (val s3)).
    { apply (rows_same s s3); auto. intros c Hc Bc. assert (Ec : rowval (nv s) (Bs s) (Ts s) (val s3) c = vadd (val s c) (vscale (Ts s c e) th)).
      { rewrite (Hr c Hc Bc). unfold rowval. apply (vsum_update (nv s) e); auto.
        - intros k Hk Hke. destruct (Bs s k) eqn:Bk; auto. rewrite Valy by auto. destruct (Nat.eqb_spec k b); [congruence|].
          destruct (Nat.eqb_spec k e); [congruence|]. rewrite Bk. auto.
        - rewrite Be, Valy by auto. destruct (Nat.eqb_spec e b); [congruence|]. rewrite Nat.eqb_refl. vring. }
      rewrite Ec, Valy by auto. destruct (Nat.eqb_spec c b) as [->|Hcb].
      - unfold th. rewrite vscale_scale. replace (Ts s b e * (1 / Ts s b e))%Qc with 1%Qc by (field; rewrite ETbe, <- Eq; auto).
        rewrite vscale_1. vring.
      - destruct (Nat.eqb_spec c e); [congruence|]. rewrite Bc. auto. }
    unfold assert_extra at 1. rewrite check_tableau_ok by auto. cbn [mbind res_bind]. rewrite assert_true. cbn [mbind res_bind].
    destruct (at_ (s_vars s3) b) as [xi3| | |]; cbn [mbind res_bind]; auto. destruct (at_ (s_vars s3) e) as [xj3| | |]; cbn [mbind res_bind]; auto.
    set (s4 := upd_var e (vset_rindex (v_rindex xi3)) (upd_var b (vset_rindex (v_rindex xj3)) s3)).
    destruct (at_ (s_vars s4) (i + s_nn s4)) as [ri| | |]; cbn [mbind res_bind]; auto. destruct (at_ (s_vars s4) j) as [rj| | |]; cbn [mbind res_bind]; auto.
    set (s5 := upd_var j (vset_index (v_index ri)) (upd_var (i + s_nn s4) (vset_index (v_index rj)) s4)).
    rewrite enqueue_x_eq by (change (s_nb s5) with (s_nb s3); rewrite (stat_nb _ _ St03); auto).
    destruct (enqueue o i s5) as [s6| | |] eqn:E6; cbn [mbind res_bind]; auto.
    assert (T6 : s_tab s6 = s_tab s3) by (rewrite (enqueue_tab _ _ _ _ E6); reflexivity).
    rewrite tpivot_x_eq.
    - destruct (tpivot (s_tab s6) i j p) as [t| | |]; reflexivity.
    - rewrite T6. apply Sh3.
    - rewrite T6, (tget_rows _ (s_tab s)) by auto. auto.
  Qed.

  (** ** select_ and the simplex loop *)
  Definition QFx (b : nat) s : Prop := forall x, x < nv s -> Bs s x = true -> x <> b -> conf_at s x = true -> qd s x = true.
  Lemma QF_QFx b s : QF s -> QFx b s.
  Proof. intros Hq x Hx HB _. apply Hq; auto. Qed.

  Lemma select_loop_x_eq q s : shape s -> rows s (val s) -> nbok s -> (forall x, x ∈ q -> x < nv s) ->
    (forall x, x < nv s -> Bs s x = true -> conf_at s x = true -> x ∈ q) -> select_loop_x q s = select_loop q s.
  Proof.
    revert s. induction q as [|x q IH]; intros s Sh Hr Hn Hq Hcf; cbn [select_loop_x select_loop].
    - unfold assert_extra. rewrite check_solution_ok; auto. intros y Hy. destruct (Bs s y) eqn:By; [|apply Hn; auto].
      apply conf_at_inb. destruct (conf_at s y) eqn:E; auto. apply Hcf in E; auto. inversion E.
    - assert (Hx : x < nv s) by (apply Hq, elem_of_cons; auto). rewrite at_vr by auto. cbn [mbind res_bind].
      destruct (sh_ri _ Sh x Hx) as [A B]. change (v_rindex (vr s x)) with (ridx s x). rewrite at_vr by auto. cbn [mbind res_bind].
      change (v_index (vr s (ridx s x))) with (idx s (ridx s x)). rewrite B, Nat.eqb_refl, assert_true. cbn [mbind res_bind].
      set (s1 := upd_var x (vset_queued false) s). pose proof (selonly_unq s x Hx) as So1. fold s1 in So1.
      pose proof So1 as (A1 & A2 & A3 & A4 & A5 & A6 & A7 & A8).
      assert (Skip : (Bs s x = true -> conf_at s x = false) -> select_loop_x q s1 = select_loop q s1).
      { intros Hnc. apply IH.
        - apply (selonly_shape s); auto; apply Sh.
        - apply (rows_same s s1); auto; try congruence. apply (rows_ext s (val s)); auto. intros y _. symmetry. apply A8.
        - intros y Hy HB. apply (inb_same s s1); [apply A7|apply A7|apply A8|]. apply Hn; [rewrite <- (stat_nv _ _ A1); auto|]. rewrite <- (Bs_same s s1); auto.
        - intros y Hy. rewrite (stat_nv _ _ A1). apply Hq, elem_of_cons; auto.
        - intros y Hy HB Hc. rewrite (stat_nv _ _ A1) in Hy. rewrite (Bs_same s s1) in HB by auto.
          rewrite (conf_at_same s s1) in Hc; [|apply A7|apply A7|apply A8]. pose proof (Hcf y Hy HB Hc) as Hin.
          apply elem_of_cons in Hin as [->|]; auto. rewrite Hnc in Hc by auto. discriminate. }
      destruct (Nat.ltb_spec (ridx s x) (s_nn s)) as [Hlt|Hge].
      { apply Skip. unfold Bs. intros HB. apply Nat.leb_le in HB. lia. }
      destruct (viol_lower (vr s x) || viol_upper (vr s x)) eqn:Ev; [reflexivity|]. apply Skip. intros _. exact Ev.
  Qed.
  Lemma select_x_eq s : J s -> select_x s = select_ s.
  Proof.
    intros [Sh Ps Bc Hr Hn [[Q1 Q2] Q3]]. unfold select_x, select_. apply select_loop_x_eq; auto. apply Sh.
  Qed.

  Lemma select_loop_QF q s i j v s' : shape s -> (forall x, x ∈ q -> x < nv s) -> QF s -> select_loop q s = Ok (SelPivot i j v, s') ->
    QFx (idx s (i + s_nn s)) s'.
  Proof.
    revert s. induction q as [|x q IH]; intros s Sh Hq Hf E; cbn [select_loop] in E; [discriminate|].
    assert (Hx : x < nv s) by (apply Hq, elem_of_cons; auto). rewrite at_vr in E by auto. cbn [mbind res_bind] in E.
    set (s1 := upd_var x (vset_queued false) s) in E. pose proof (selonly_unq s x Hx) as So1. fold s1 in So1.
    pose proof So1 as (A1 & A2 & A3 & A4 & A5 & A6 & A7 & A8).
    assert (Ef : forall y, y <> x -> qd s1 y = qd s y) by (intros y Hy; unfold qd, s1; rewrite vr_upd by auto; destruct (Nat.eqb_spec y x); [congruence|auto]).
    assert (Skip : (Bs s x = true -> conf_at s x = false) -> select_loop q s1 = Ok (SelPivot i j v, s') -> QFx (idx s (i + s_nn s)) s').
    { intros Hnc E1. rewrite <- (stat_nn s s1) by auto. destruct (A6 (i + s_nn s1)) as [<- _]. apply IH; auto.
      - apply (selonly_shape s); auto; apply Sh.
      - intros y Hy. rewrite (stat_nv _ _ A1). apply Hq, elem_of_cons; auto.
      - intros y Hy HB Hc. rewrite (stat_nv _ _ A1) in Hy. rewrite (Bs_same s s1) in HB by auto.
        rewrite (conf_at_same s s1) in Hc; [|apply A7|apply A7|apply A8]. rewrite Ef; [apply Hf; auto|]. intros ->. rewrite Hnc in Hc by auto. discriminate. }
    change (v_rindex (vr s x)) with (ridx s x) in E.
    destruct (Nat.ltb_spec (ridx s x) (s_nn s)) as [Hlt|Hge].
    { apply Skip; auto. unfold Bs. intros HB. apply Nat.leb_le in HB. lia. }
    destruct (viol_lower (vr s x) || viol_upper (vr s x)) eqn:Ev; [|apply Skip; auto].
    apply bind_ok in E as (b & _ & E). apply bind_ok in E as ([[kk rj] cl] & _ & E). destruct (kk =? length (s_vars s1)); [discriminate|]. injection E as <- _ _ <-.
    replace (idx s (ridx s x - s_nn s + s_nn s)) with x by (symmetry; apply basic_idx; auto; apply Nat.leb_le; auto).
    intros y Hy HB Hne Hc. change (qd (set_conf (x :: q) (set_clause cl s1)) y) with (qd s1 y). rewrite Ef by auto.
    apply Hf.
    - rewrite <- (stat_nv _ _ A1). exact Hy.
    - rewrite <- (Bs_same s s1); auto.
    - rewrite <- (conf_at_same s s1); [exact Hc|apply A7|apply A7|apply A8].
  Qed.

  Lemma pivot_QF o L s i j v s' : shape s -> rows s (val s) -> tget (s_tab s) i j <> 0%Qc -> Qinv s -> QFx (idx s (i + s_nn s)) s -> pivot_ o L i j v s = Ok s' -> QF s'.
  Proof.
    intros Sh Hr Hnz Qi Hf E. destruct (pivot_ok o L s i j v Sh Hnz) as (s1 & E1 & Sh' & Vr & Cl & HB & _ & Hval & Hcm & HQ).
    assert (s1 = s') as -> by congruence. destruct (HQ Qi) as [_ Q2]. destruct (vreach_facts _ _ _ Vr) as (Bt & St & Bn).
    set (b := idx s (i + s_nn s)) in *. set (e := idx s j) in *.
    intros y Hy By Hc. rewrite (stat_nv _ _ St) in Hy.
    destruct (Nat.eq_dec y e) as [->|Hye]; [apply Q2; auto|].
    destruct (Qc_eq_dec (Ts s y e) 0) as [E0|E0]; [|apply Q2; auto].
    pose proof By as By'. rewrite HB in By' by auto. destruct (Nat.eqb_spec y b); [discriminate|]. destruct (Nat.eqb_spec y e); [congruence|].
    apply Hcm, Hf; auto. rewrite <- Hc. symmetry. apply conf_at_same; [apply Bn|apply Bn|].
    rewrite Hval by auto. destruct (Nat.eqb_spec y b); [congruence|]. destruct (Nat.eqb_spec y e); [congruence|]. rewrite By', E0, vscale_0, vadd_0_r. auto.
  Qed.

  Lemma simplex_loop_x_eq fuel o L s : J s -> QF s -> simplex_loop_x fuel o L s = simplex_loop fuel o L s.
  Proof.
    revert s. induction fuel as [|fuel IH]; intros s HJ Hf; auto. cbn [simplex_loop_x simplex_loop]. rewrite select_x_eq by auto.
    destruct (select_J s HJ) as (r & s1 & E & So & HJ1 & Hres). rewrite E. cbn [mbind res_bind]. destruct r as [| |i j v]; auto.
    destruct Hres as (m & Hpc). assert (Hpc1 : pivot_choice s1 i j v m) by (apply (pivot_choice_same s); auto).
    assert (Hf1 : QFx (idx s1 (i + s_nn s1)) s1).
    { pose proof So as (A1 & A2 & A3 & A4 & A5 & A6 & A7 & A8). rewrite (stat_nn _ _ A1). destruct (A6 (i + s_nn s)) as [-> _].
      eapply select_loop_QF; [apply HJ|apply (j_shape _ HJ)|exact Hf|exact E]. }
    rewrite pivot_x_eq; [|apply HJ1|apply HJ1|apply Hpc1].
    destruct (pivot_J o L s1 i j v m HJ1 Hpc1) as (s2 & E2 & HJ2 & Vr2 & Pst). rewrite E2. cbn [mbind res_bind].
    assert (Hf2 : QF s2) by (eapply (pivot_QF o L s1); eauto; [apply HJ1|apply HJ1|apply Hpc1|apply (j_cq _ HJ1)]).
    rewrite crosscheck_ok; [|apply HJ2|apply HJ2|exact Hf2|apply HJ2]. cbn [mbind res_bind]. apply IH; auto.
  Qed.

  (** ** update_bound_ and the loop over the literals *)
  Lemma update_QF o L s j v s' : shape s -> j < s_nn s -> Qinv s -> QF s -> update_ o L j v s = Ok s' -> QF s'.
  Proof.
    intros Sh Hj Qi Hf E. destruct (update_ok o L s j v Sh Hj) as (s1 & E1 & Sh' & Vr & Tb & Pm & Cl & Hval & Hcm & HQ).
    assert (s1 = s') as -> by congruence. destruct (HQ Qi) as [_ Q2]. destruct (vreach_facts _ _ _ Vr) as (Bt & St & Bn).
    destruct (idx_nonbasic s j Sh Hj) as (He & Be & Re). set (e := idx s j) in *.
    intros y Hy By Hc. rewrite (stat_nv _ _ St) in Hy. rewrite (Bs_same s s') in By by auto.
    destruct (Qc_eq_dec (Ts s y e) 0) as [E0|E0]; [|apply Q2; auto].
    apply Hcm, Hf; auto. rewrite <- Hc. symmetry. apply conf_at_same; [apply Bn|apply Bn|].
    rewrite Hval by auto. destruct (Nat.eqb_spec y e); [congruence|]. rewrite By, E0, vscale_0, vadd_0_r. auto.
  Qed.

  Section bounds.
    Context (keep : bool) (s0 : solver V) (L : nat) (lits : list Z) (p : solver V) (fs : list (frame V)) (a : asg) (o : options).
    Let fs' := Frame L lits p :: fs.
    Context (Hlv : lv_ok a fs') (Hdl : a_dl a = L).

    Lemma update_bound_x_eq s b : Mid keep s0 fs' s -> QF s -> b ∈ s_bounds s -> b_lit b ∈ lits -> eqsafe L (s_bounds s) (active fs') b ->
      update_bound_x o a b s = update_bound o a b s /\ forall s', update_bound o a b s = Ok (s', true) -> QF s'.
    Proof.
      intros [[Sh Ps Bc Hr Hn [Qi Qc]] Hh Hps Heq HR Hnv Hbs] Hf Hb Hlit Hsafe.
      destruct (update_var_ok keep s0 L lits p fs a Hlv Hdl s b Sh Hh Hps Heq Bc Hbs Hb Hlit Hsafe) as (s1 & ok & E & [Bo Sh1 Hh1 Hps1 Ht1 Ho1 Hok]).
      unfold update_bound_x, update_bound. rewrite E. cbn [mbind res_bind]. pose proof Bo as (A1 & A2 & A3 & A4 & A5 & A6 & A7 & A8 & A9 & A10).
      assert (Hx : b_var b < nv s1) by (rewrite (stat_nv _ _ A1); apply (sh_bv _ Sh); auto).
      rewrite at_vr by auto. cbn [mbind res_bind]. set (x := b_var b) in *.
      assert (Qi1 : Qinv s1). { destruct Qi as [Qa Qb]. split; rewrite A4; auto. intros y. rewrite A8. auto. }
      assert (Hf1 : QFx x s1).
      { intros y Hy By Hyx Hc. rewrite A8. apply Hf.
        - rewrite <- (stat_nv _ _ A1); auto.
        - rewrite <- (Bs_same s s1); auto.
        - rewrite <- Hc. symmetry. apply conf_at_same; [exact (Ho1 true y Hyx)|exact (Ho1 false y Hyx)|apply A7]. }
      destruct ok; cbn [negb].
      2:{ split; auto. intros s' E'. apply bind_ok in E' as (u & _ & E'). apply bind_ok in E' as (l & _ & E'). discriminate. }
      destruct (Nat.ltb_spec (v_rindex (vr s1 x)) (s_nn s1)) as [Hnb|Hnb].
      - assert (Bx : Bs s1 x = false) by (unfold Bs; apply Nat.leb_gt; auto).
        assert (Hf1' : QF s1) by (intros y Hy By; apply Hf1; auto; congruence).
        destruct (viol_lower (vr s1 x)).
        + destruct (deref (v_lower (vr s1 x))) as [l| | |]; cbn [mbind res_bind]; [|split; [auto|discriminate]..].
          rewrite update_x_eq by auto. split; auto. intros s' E'. apply bind_ok in E' as (s2 & E2 & E'). injection E' as <-. eapply update_QF; eauto.
        + destruct (viol_upper (vr s1 x)); [|split; auto; intros s' [= <-]; auto].
          destruct (deref (v_upper (vr s1 x))) as [l| | |]; cbn [mbind res_bind]; [|split; [auto|discriminate]..].
          rewrite update_x_eq by auto. split; auto. intros s' E'. apply bind_ok in E' as (s2 & E2 & E'). injection E' as <-. eapply update_QF; eauto.
      - assert (Bx : Bs s1 x = true) by (unfold Bs; apply Nat.leb_le; auto).
        destruct (basic_idx s1 x Sh1 Hx Bx) as [Hi Hidx]. change (v_rindex (vr s1 x)) with (ridx s1 x). rewrite enqueue_x_eq by auto. split; auto.
        destruct (enqueue_ok o (ridx s1 x - s_nn s1) s1 Sh1 Hi) as (s2 & -> & Q & C1 & C2 & C3 & C4 & C5). cbn [mbind res_bind]. intros s' [= <-].
        rewrite Hidx in C5. destruct (C5 Qi1) as [_ Qx]. pose proof Q as (B1 & B2 & B3 & B4 & B5 & B6 & B7 & B8).
        intros y Hy By Hc. rewrite (stat_nv _ _ B1) in Hy. rewrite (Bs_same s1 s2) in By by auto.
        assert (Hc' : conf_at s1 y = true) by (rewrite <- Hc; symmetry; apply conf_at_same; [apply B7|apply B7|apply B8]).
        destruct (Nat.eq_dec y x) as [->|Hyx]; [apply Qx; auto|]. apply C4, Hf1; auto.
    Qed.

    Lemma apply_bounds_x_eq lbs s : Mid keep s0 fs' s -> QF s ->
      (forall lit b, (lit, b) ∈ lbs -> lit = b_lit b /\ b ∈ s_bounds s /\ b_lit b ∈ lits /\ eqsafe L (s_bounds s) (active fs') b) ->
      apply_bounds_x o a lbs s = apply_bounds o a (map snd lbs) s /\ forall s', apply_bounds o a (map snd lbs) s = Ok (s', true) -> QF s'.
    Proof.
      revert s. induction lbs as [|[lit b] lbs IH]; intros s HM Hf Hbs; cbn [apply_bounds_x apply_bounds map snd].
      - split; auto. intros s' [= <-]. auto.
      - destruct (Hbs lit b) as (-> & Hb1 & Hb2 & Hb3); [apply elem_of_cons; auto|]. rewrite Z.eqb_refl, assert_true. cbn [mbind res_bind].
        destruct (update_bound_x_eq s b HM Hf Hb1 Hb2 Hb3) as [-> Hq].
        destruct (update_bound_ok keep s0 L lits p fs a o Hlv Hdl s b HM Hb1 Hb2 Hb3) as (s1 & ok & E & St & Ti & HB & Hres). rewrite E. cbn [mbind res_bind].
        destruct ok; [|split; [auto|discriminate]]. destruct Hres as [HM1 _]. apply IH; auto.
        intros l c Hc. rewrite (stat_bounds _ _ St). apply Hbs. apply elem_of_cons; auto.
    Qed.
  End bounds.

  Lemma lits_bounds s (ls : list Z) : map snd (List.concat (map (fun lit => map (pair lit) (find_bounds s lit)) ls)) = List.concat (map (find_bounds s) ls).
  Proof. induction ls as [|lit ls IH]; cbn; auto. rewrite map_app, IH. f_equal. induction (find_bounds s lit); cbn; congruence. Qed.
  Lemma lits_pairs s (ls : list Z) lit b : (lit, b) ∈ List.concat (map (fun lit => map (pair lit) (find_bounds s lit)) ls) -> lit = b_lit b /\ b ∈ s_bounds s /\ lit ∈ ls.
  Proof.
    rewrite elem_of_list_In, in_concat. intros (l & Hl & Hb). apply in_map_iff in Hl as (lit' & <- & Hl). apply in_map_iff in Hb as (b' & [= -> ->] & Hb).
    apply elem_of_list_In, find_bounds_elem in Hb as [Hb <-]. split; auto. split; auto. apply elem_of_list_In; auto.
  Qed.

  Lemma solve_core_x_eq keep s0 fs s (a : asg) (o : options) lits fuel :
    Live keep s0 fs s -> top fs <= a_dl a ->
    lv_ok a (enter (a_dl a) lits s fs) -> lsafe (a_dl a) (s_bounds s) (active (enter (a_dl a) lits s fs)) lits ->
    solve_core_x fuel o a lits s = solve_core fuel o a lits s.
  Proof.
    intros HL Ht Hlv Hsafe. pose proof (push_offset_mid keep s0 fs s a lits HL Ht) as HM.
    assert (Ep : obs (push_offset a s) = obs s /\ s_bounds (push_offset a s) = s_bounds s /\ nv (push_offset a s) = nv s).
    { unfold push_offset. destruct (match last (s_offs s) with None => true | Some f => o_level f <? a_dl a end); auto. }
    assert (Hf : QF (push_offset a s)).
    { pose proof (feasible_QF s (lv_feas _ _ _ _ HL)) as Hf. unfold push_offset. destruct (match last (s_offs s) with None => true | Some f => o_level f <? a_dl a end); auto. }
    set (s1 := push_offset a s) in *. destruct Ep as (Eobs & Ebd & _).
    pose proof (enter_top (a_dl a) lits s fs Ht) as Htop.
    assert (Hlits : forall lit, lit ∈ lits -> lit ∈ match enter (a_dl a) lits s fs with [] => [] | f :: _ => f_lits f end).
    { intros lit Hl. unfold enter. destruct fs as [|f r]; cbn; auto. destruct (f_level f <? a_dl a); cbn; auto. apply elem_of_app; auto. }
    remember (enter (a_dl a) lits s fs) as fs1 eqn:Efs1. destruct fs1 as [|[L ls p] r].
    { exfalso. unfold enter in Efs1. destruct fs as [|f r]; [discriminate|]. destruct (f_level f <? a_dl a); discriminate. }
    cbn in Htop, Hlits. unfold solve_core_x, solve_core. fold s1. unfold apply_lits_x, apply_lits.
    destruct (apply_bounds_x_eq keep s0 L ls p r a o Hlv (eq_sym Htop) (List.concat (map (fun lit => map (pair lit) (find_bounds s1 lit)) lits)) s1 HM Hf) as [-> Hq].
    { intros lit b Hb. apply lits_pairs in Hb as (-> & Hb & Hl). split; auto. split; auto. split; auto. rewrite Ebd, Htop in *. apply Hsafe; auto. }
    rewrite lits_bounds in *.
    destruct (apply_bounds_ok keep s0 L ls p r a o Hlv (eq_sym Htop) (List.concat (map (find_bounds s1) lits)) s1 HM) as (s2 & ok & E2 & St2 & Ti2 & HB2 & Hres2).
    { intros b Hb. apply concat_find_elem in Hb as [Hb Hl]. split; auto. split; auto. rewrite Ebd, Htop in *. apply Hsafe; auto. }
    rewrite E2 in *. cbn [mbind res_bind]. destruct ok; cbn [negb]; auto. destruct Hres2 as [[HJ2 _ _ _ _ _ _] _]. specialize (Hq s2 eq_refl).
    rewrite crosscheck_ok; [|apply HJ2|apply HJ2|exact Hq|apply HJ2]. cbn [mbind res_bind]. rewrite simplex_loop_x_eq by auto. reflexivity.
  Qed.

  (** ** propagate_, solve and undo *)
  Lemma prop_row_x_eq h i s log : shape s -> i < s_nb s -> prop_row_x h i s log = prop_row h i s log.
  Proof.
    intros Sh Hi. unfold prop_row_x, prop_row. destruct (at_ (s_vars s) i) as [w| | |]; cbn [mbind res_bind]; auto.
    change (s_tab (upd_var i (vset_prop false) s)) with (s_tab s). set (s1 := upd_var i (vset_prop false) s).
    assert (Hj : forall j a d, (j, a, d) ∈ row_entries (s_tab s) i -> (j <? s_nn s1) = true).
    { intros j a d Hin. destruct (row_entries_facts _ _ _ _ _ Sh Hin) as (_ & Hj & _). apply Nat.ltb_lt. exact Hj. }
    rewrite (update_row_ext (s_tab s) i (fun j a_ij d_i st => _ ← assert_ (j <? s_nn s1); prop_cell1 s1 j a_ij d_i st) (prop_cell1 s1)) by (intros j a d st Hin; rewrite (Hj j a d Hin); reflexivity).
    destruct (update_row (s_tab s) i (prop_cell1 s1) (true, true)) as [[lo up]| | |]; cbn [mbind res_bind]; auto.
    destruct (negb up && negb lo); auto.
    rewrite (update_row_ext (s_tab s) i (fun j a_ij d_i st => _ ← assert_ (j <? s_nn s1); prop_cell2 s1 j a_ij d_i st) (prop_cell2 s1)) by (intros j a d st Hin; rewrite (Hj j a d Hin); reflexivity).
    rewrite basic_x_eq by exact Hi. reflexivity.
  Qed.

  Lemma prop_rows_x_eq h s0 act (changed : bool) is s log : shape s -> psound s -> (forall a, rows s a <-> rows s0 a) -> psnd (s_bounds s) act (obs s) ->
    (forall i, i ∈ is -> i < s_nb s) -> (changed = true -> s_pq s = is) -> prop_rows_x h changed is s log = prop_rows h changed is s log.
  Proof.
    revert s log. induction is as [|i is IH]; intros s log Sh Ps HR Hps Hi Hq; cbn [prop_rows prop_rows_x]; auto.
    set (s1 := if changed then set_pq is s else s).
    assert (P1 : ponly s s1) by (unfold s1; destruct changed; repeat split).
    assert (Q1 : forall k, k ∈ s_pq s1 -> k ∈ s_pq s). { unfold s1. destruct changed; auto. cbn. rewrite Hq by auto. intros k Hk. apply elem_of_cons; auto. }
    assert (Sh1 : shape s1) by (eapply ponly_shape; eauto). pose proof P1 as (A1 & A2 & _ & _ & _ & _ & A7 & A8 & A9 & _).
    assert (Ps1 : psound s1) by (eapply psound_same; eauto).
    assert (HR1 : forall a, rows s1 a <-> rows s0 a). { intros a. rewrite <- HR. apply rows_same; auto. rewrite A2; auto. }
    assert (Hps1 : psnd (s_bounds s1) act (obs s1)) by (rewrite (stat_bounds _ _ A1); eapply psnd_eq; [apply obs_bnd; eauto|auto]).
    assert (Hi1 : i < s_nb s1) by (rewrite (stat_nb _ _ A1); apply Hi, elem_of_cons; auto).
    rewrite prop_row_x_eq by auto.
    destruct (prop_row_ok h s0 act s1 i log Sh1 Ps1 HR1 Hps1 Hi1) as (s2 & log2 & ok & -> & P2 & Q2 & _).
    cbn [mbind res_bind]. assert (P12 : ponly s s2) by (eapply ponly_trans; eauto).
    assert (Q12 : forall k, k ∈ s_pq s2 -> k ∈ s_pq s) by (intros k; rewrite Q2; auto).
    destruct ok; auto. pose proof P12 as (B1 & B2 & _ & _ & _ & _ & B7 & B8 & B9 & _).
    apply IH.
    - exact (ponly_shape _ _ Sh P12 Q12).
    - eapply psound_same; eauto.
    - intros a. rewrite <- HR. apply rows_same; auto. rewrite B2; auto.
    - rewrite (stat_bounds _ _ B1); eapply psnd_eq; [apply obs_bnd; eauto|auto].
    - intros k Hk. rewrite (stat_nb _ _ B1). apply Hi, elem_of_cons; auto.
    - intros ->. rewrite Q2. reflexivity.
  Qed.
  Lemma propagate_x_eq h o keep s0 fs s log : Live keep s0 fs s -> propagate_x h o s log = propagate_ h o s log.
  Proof.
    intros HL. pose proof HL as [[[Sh Ps Bc Hr Hn Hq] Hh Hps Heq HR Hnv Hbs] Hf Hc]. unfold propagate_x, propagate_.
    destruct (o_pmode o); auto.
    - apply (prop_rows_x_eq h s0 (active fs)); auto. apply (sh_pq _ Sh).
    - apply (prop_rows_x_eq h s0 (active fs)); auto; try discriminate. intros i Hi. apply elem_of_seq in Hi. lia.
  Qed.
  Lemma solve_x_eq keep s0 fs s (a : asg) (o : options) h lits log fuel :
    Live keep s0 fs s -> top fs <= a_dl a -> (keep = true -> o_store o <> StorePartial) ->
    lv_ok a (enter (a_dl a) lits s fs) -> lsafe (a_dl a) (s_bounds s) (active (enter (a_dl a) lits s fs)) lits -> 4 ^ nv s <= fuel ->
    solve_x fuel h o a lits s log = solve fuel h o a lits s log.
  Proof.
    intros HL Htop Hk Hlv Hsf Hfuel. unfold solve_x, solve. rewrite (solve_core_x_eq keep s0 fs) by auto.
    destruct (solve_core_ok keep s0 fs s a o lits fuel HL Htop Hk Hlv Hsf Hfuel) as (s1 & ok & -> & Ep & Hfr & Hres). cbn [mbind res_bind].
    destruct ok; auto. apply (propagate_x_eq h o keep s0 (enter (a_dl a) lits s fs)); auto.
  Qed.
  Lemma undo_x_FS s s' : undo s = Ok s' -> FS s' -> undo_x s = Ok s'.
  Proof. intros E [Sh Hr Hq Hf]. unfold undo_x. rewrite E. cbn [mbind res_bind]. unfold assert_extra. rewrite check_solution_ok by auto. reflexivity. Qed.

  (** ** optimize *)
  Lemma leave_cell_x_eq s ee pos i a d st : shape s -> i < s_nb s -> leave_cell_x s ee pos i a d st = leave_cell s ee pos i a d st.
  Proof.
    intros Sh Hi. unfold leave_cell_x. rewrite basic_x_eq, basic_ok by auto. cbn [mbind res_bind].
    destruct (idx_basic s i Sh Hi) as (Hb & Bb & Rb). rewrite at_vr by auto. cbn [mbind res_bind].
    change (v_rindex (vr s (idx s (i + s_nn s)))) with (ridx s (idx s (i + s_nn s))). rewrite Rb.
    replace (i =? i + s_nn s - s_nn s) with true by (symmetry; apply Nat.eqb_eq; lia).
    destruct (if Bool.eqb (Bool.eqb (0 <? a)%Z (0 <? d)%Z) pos then v_upper (vr s (idx s (i + s_nn s))) else v_lower (vr s (idx s (i + s_nn s)))); reflexivity.
  Qed.
  Lemma leave_cell_fst s ee pos i a d st st' : leave_cell s ee pos i a d st = Ok st' -> st'.1 = st.1.
  Proof.
    unfold leave_cell. intros E. apply bind_ok in E as (yi & _ & E). apply bind_ok in E as (y & _ & E). apply bind_ok in E as (xe & _ & E).
    destruct (if Bool.eqb _ _ then _ else _) as [b|]; [|congruence]. apply bind_ok in E as (w & _ & E).
    destruct (if pos then _ else _); [congruence|]. destruct (match st.2 with None => true | Some _ => _ end); [|congruence]. injection E as <-. reflexivity.
  Qed.
  Lemma leave_cell_x_fst s ee pos i a d st st' : leave_cell_x s ee pos i a d st = Ok st' -> st'.1 = st.1.
  Proof.
    unfold leave_cell_x. intros E. apply bind_ok in E as (yi & _ & E). apply bind_ok in E as (y & _ & E). apply bind_ok in E as (u & _ & E). eapply leave_cell_fst; eauto.
  Qed.
  Lemma FS_check s : FS s -> assert_extra (check_solution s) = Ok tt.
  Proof. intros [Sh Hr Hq Hf]. unfold assert_extra. rewrite check_solution_ok by auto. reflexivity. Qed.
  Lemma FS_crosscheck s : FS s -> crosscheck s = Ok tt.
  Proof. intros [Sh Hr Hq Hf]. apply crosscheck_ok; auto using feasible_QF, feasible_nbok. Qed.

  Lemma optimize_step_x_eq z o s : LK z s -> ob_var (s_obj s) = z -> optimize_step_x o s = optimize_step o s.
  Proof.
    intros HK Ez. destruct (opt_step z o s HK Ez) as (s' & fin & E & Hres). pose proof HK as [HL Hz Bz Loz Upz]. pose proof HL as [Sh Hr Hq Hf].
    unfold optimize_step_x. rewrite E. unfold optimize_step in E. rewrite Ez, at_vr in * by auto. cbn [mbind res_bind] in *. change (v_rindex (vr s z)) with (ridx s z) in *.
    destruct (basic_idx s z Sh Hz Bz) as [Hzi Ezi]. set (zi := ridx s z - s_nn s) in *.
    destruct (enter_row s zi Sh Hzi) as (ee & pos & Ee & Hee). change (length (s_vars s)) with (nv s) in *. rewrite Ee in *. cbn [mbind res_bind] in *.
    destruct Hee as [[-> _]|(Hee & j & a & d & Hin & Eee & _)].
    - rewrite Nat.eqb_refl in *. rewrite FS_check by auto. cbn [mbind res_bind]. exact E.
    - destruct (Nat.eqb_spec ee (nv s)); [lia|]. rewrite at_vr in * by auto. cbn [mbind res_bind] in *. change (v_rindex (vr s ee)) with (ridx s ee) in *.
      destruct (row_entries_facts _ _ _ _ _ Sh Hin) as (_ & Hj & _). destruct (idx_nonbasic s j Sh Hj) as (Hx & Bx & Rx). rewrite <- Eee in Hx, Bx, Rx. rewrite Rx in *.
      pose proof (sh_len _ Sh) as Hlen. rewrite (at_vr s j) by lia. cbn [mbind res_bind]. change (v_index (vr s j)) with (idx s j). rewrite <- Eee, Nat.eqb_refl, assert_true. cbn [mbind res_bind].
      rewrite (update_col_ext fst (fun (t : tableau) (st : tableau * option (nat * V * V)) => (t, st.2)) j (leave_cell_x s ee pos) (leave_cell s ee pos) (fun _ => True)); auto.
      2:{ apply Sh. }
      2:{ intros i a' d' s1 Hin' _. apply leave_cell_x_eq; auto. cbn [fst] in Hin'. destruct (col_entries_facts _ _ _ _ _ Sh Hin'); auto. }
      2:{ intros i a' d' s1 s2 E1 E2. rewrite (leave_cell_fst _ _ _ _ _ _ _ _ E2). auto. }
      2:{ intros i a' d' s1 s2 E1 E2. rewrite (leave_cell_x_fst _ _ _ _ _ _ _ _ E2). auto. }
      destruct (leave_col s ee j pos Sh Hee Hj) as (t & cand & E1 & Wt & Et & Hcand). rewrite E1 in *. cbn [mbind res_bind] in *.
      set (s1 := set_tab t s) in *. assert (HL1 : FS s1) by (apply FS_tab; auto). pose proof HL1 as [Sh1 Hr1 Hq1 Hf1].
      destruct cand as [[[ll v_e] bv]|].
      + destruct Hcand as [([[i0 a0] d0] & b0 & Hin0 & Hs0 & -> & _) _]. cbn [fst] in *. destruct (col_entries_facts _ _ _ _ _ Sh Hin0) as (Hi0 & Eg0 & Ha0 & Hd0).
        destruct (idx_basic s i0 Sh Hi0) as (Hl & Bl & Rl). fold (yv s i0) in Hl, Bl, Rl. set (l := yv s i0) in *.
        rewrite (at_vr s1 l) in * by exact Hl. cbn [mbind res_bind] in *. change (v_rindex (vr s1 l)) with (ridx s l) in *. change (s_nn s1) with (s_nn s) in *. rewrite Rl in *.
        replace (i0 + s_nn s - s_nn s) with i0 in * by lia.
        assert (Hnz : tget (s_tab s1) i0 j <> 0%Qc).
        { change (tget t i0 j <> 0%Qc). unfold tget. rewrite Et. fold (tget (s_tab s) i0 j). rewrite Eg0. apply qmk_nz; auto. }
        rewrite pivot_x_eq by auto. apply bind_ok in E as (s2 & E2 & E). injection E as -> <-. rewrite E2. cbn [mbind res_bind].
        destruct Hres as (K2 & _). rewrite FS_crosscheck by apply K2. reflexivity.
      + destruct (if pos then v_upper (vr s ee) else v_lower (vr s ee)) as [b|].
        * rewrite update_x_eq by auto. exact E.
        * rewrite FS_check by auto. cbn [mbind res_bind]. exact E.
  Qed.
  Lemma optimize_loop_x_eq z fuel o s : LK z s -> ob_var (s_obj s) = z -> optimize_loop_x fuel o s = optimize_loop fuel o s.
  Proof.
    revert s. induction fuel as [|fuel IH]; intros s HK Ez; auto. cbn [optimize_loop_x optimize_loop]. rewrite (optimize_step_x_eq z) by auto.
    destruct (opt_step z o s HK Ez) as (s1 & fin & -> & Hres). cbn [mbind res_bind]. destruct fin; auto. destruct Hres as (K1 & Vr & _).
    apply IH; auto. destruct (vreach_facts _ _ _ Vr) as (_ & St & _). rewrite (stat_obj _ _ St). auto.
  Qed.
  Lemma optimize_x_eq z fuel o s : FS s -> (ob_active (s_obj s) = true -> ob_var (s_obj s) = z /\ z < nv s /\ Bs s z = true /\ lo s z = None /\ up s z = None) ->
    optimize_x fuel o s = optimize fuel o s.
  Proof.
    intros HF Hz. unfold optimize_x, optimize. destruct (ob_active (s_obj s)); auto. destruct Hz as (Ez & Hz & Bz & Lz & Uz); auto.
    rewrite Ez, at_vr by auto. cbn [mbind res_bind]. change (v_rindex (vr s z)) with (ridx s z). change (s_nn s <=? ridx s z) with (Bs s z). rewrite Bz, assert_true. cbn [mbind res_bind].
    rewrite FS_check by auto. cbn [mbind res_bind]. apply (optimize_loop_x_eq z); auto. constructor; auto.
  Qed.

  (** ** check *)
  Lemma enter_facts_lv (a : asg) fs s foff facts : top fs <= a_dl a -> lv_ok a fs -> (forall l, l ∈ facts -> a_level a l = 0) -> a_dl a = 0 ->
    lv_ok a (enter (a_dl a) (take foff facts) s fs).
  Proof.
    intros Htop Hlv Hfl Ed. rewrite Ed. unfold enter. destruct fs as [|f r].
    - intros f l Hf Hl. apply elem_of_list_singleton in Hf as ->. cbn in *. apply Hfl. eapply elem_of_take in Hl as (i & ? & _). eapply elem_of_list_lookup_2; eauto.
    - rewrite Ed in Htop. cbn in Htop. destruct (Nat.ltb_spec (f_level f) 0); [lia|]. intros f' l Hf Hl. apply elem_of_cons in Hf as [->|Hf].
      + cbn in *. apply elem_of_app in Hl as [Hl|Hl]; [apply Hlv; auto; left|]. replace (f_level f) with 0 by lia.
        apply Hfl. eapply elem_of_take in Hl as (i & ? & _). eapply elem_of_list_lookup_2; eauto.
      + apply Hlv; auto. right; auto.
  Qed.
  Lemma t_check_x_eq (keep : bool) o s0 fs s ass rep fuel h (a : asg) total lit1 lit2 facts foff st off log :
    rows0 o s0 -> stepok o -> Live keep s0 fs s -> TB o s0 ass rep s -> keep = match o_store o with StoreNo => true | _ => false end ->
    top fs <= a_dl a -> lv_ok a fs -> (forall l, l ∈ facts -> a_level a l = 0) -> osok st s0 rep -> ob_gen (s_obj s) <= os_gen st ->
    (forall l, l = lit1 \/ l = lit2 -> l ∉ active fs /\ l ∉ facts) -> (off = 0 \/ off = foff) -> foff <= length facts -> 4 ^ nv s0 <= fuel ->
    t_check_x fuel h o a total lit1 lit2 facts foff st off s log = t_check fuel h o a total lit1 lit2 facts foff st off s log.
  Proof.
    intros R0 So HL HT Hk Htop Hlv Hfl Ho Hg Hfresh Hoff Hfo Hfuel. unfold t_check_x, t_check.
    pose proof (md_nv _ _ _ _ (lv_M _ _ _ _ HL)) as Hnv.
    assert (Hkeep : keep = true -> o_store o <> StorePartial) by (rewrite Hk; destruct (o_store o); congruence).
    set (fs' := if (a_dl a =? 0) && (off <? foff) then enter 0 (take foff facts) s fs else fs).
    (* solving the facts *)
    assert (HA : (if (a_dl a =? 0) && (off <? foff) then
         _ ← guard_ub (off + foff <=? length facts);
         '(s1, log1, ok1) ← solve_x fuel h o a (take foff (drop off facts)) s log; Ok (foff, s1, log1, ok1)
       else Ok (off, s, log, true)) =
       (if (a_dl a =? 0) && (off <? foff) then
         _ ← guard_ub (off + foff <=? length facts);
         '(s1, log1, ok1) ← solve fuel h o a (take foff (drop off facts)) s log; Ok (foff, s1, log1, ok1)
       else Ok (off, s, log, true)) /\
       exists off1 s1 log1 ok1, (if (a_dl a =? 0) && (off <? foff) then
         _ ← guard_ub (off + foff <=? length facts);
         '(s1, log1, ok1) ← solve fuel h o a (take foff (drop off facts)) s log; Ok (foff, s1, log1, ok1)
       else Ok (off, s, log, true)) = Ok (off1, s1, log1, ok1) /\ pstat s1 = pstat s /\ freek s s1 /\ (ok1 = true -> Live keep s0 fs' s1)).
    { subst fs'. destruct (Nat.eqb_spec (a_dl a) 0) as [Ed|Ed], (Nat.ltb_spec off foff) as [Ef|Ef]; cbn [andb];
        try (split; [reflexivity|]; exists off, s, log, true; split; [reflexivity|]; split; [reflexivity|]; split; [intros z _ _ ?; auto|auto]; fail).
      assert (off = 0) as -> by lia. rewrite drop_0. unfold guard_ub. rewrite (proj2 (Nat.leb_le _ _)) by lia. cbn [mbind res_bind].
      assert (Hlv' : lv_ok a (enter (a_dl a) (take foff facts) s fs)) by (apply enter_facts_lv; auto).
      assert (Hsf : lsafe (a_dl a) (s_bounds s) (active (enter (a_dl a) (take foff facts) s fs)) (take foff facts)) by (intros b Hb Hl; left; auto).
      assert (Hfu : 4 ^ nv s <= fuel) by (rewrite Hnv; auto).
      rewrite (solve_x_eq keep s0 fs) by auto. split; [reflexivity|].
      destruct (solve_ok keep s0 fs s a o h (take foff facts) log fuel HL Htop Hkeep Hlv' Hsf Hfu) as (s1 & log1 & ok1 & Esol & Ep & Hfk & Hnew & Hres).
      rewrite Esol. cbn [mbind res_bind]. rewrite Ed in Hres. exists foff, s1, log1, ok1. split; auto. split; auto. split; auto.
      intros ->. destruct Hres as [|(? & _)]; [auto|discriminate]. }
    destruct HA as [-> (off1 & s1 & log1 & ok1 & -> & Ep & Hfk & Hres)]. cbn [mbind res_bind]. destruct ok1; cbn [negb]; auto. specialize (Hres eq_refl).
    assert (HT1 : TB o s0 ass rep s1) by (eapply TB_pstat; eauto).
    assert (Hg1 : ob_gen (s_obj s1) <= os_gen st) by (unfold pstat in Ep; replace (s_obj s1) with (s_obj s) by congruence; auto).
    assert (Hfresh' : forall l, l = lit1 \/ l = lit2 -> l ∉ active fs').
    { intros l Hl. destruct (Hfresh l Hl) as [A B]. subst fs'. destruct ((a_dl a =? 0) && (off <? foff)); auto. rewrite enter_active. intros [|Hi]; auto.
      apply B. eapply elem_of_take in Hi as (i & ? & _). eapply elem_of_list_lookup_2; eauto. }
    destruct (integrate_ok keep o s0 fs' s1 ass rep h lit1 st log1 R0 So Hres HT1 Ho Hg1) as (s2 & log2 & ok2 & ass2 & -> & L2 & T2 & G2 & V2 & D2); [apply Hfresh'; auto|].
    cbn [mbind res_bind]. destruct ok2; cbn [negb]; auto. destruct total; auto.
    rewrite (optimize_x_eq (ob_var (s_obj s0))); [reflexivity|eapply Live_FS; eauto|].
    intros Ea. pose proof (md_nv _ _ _ _ (lv_M _ _ _ _ L2)) as Hnv2. pose proof (tb_act _ _ _ _ _ T2) as Ha. rewrite Ea in Ha. symmetry in Ha.
    destruct (r0_var _ _ R0 Ha) as [Hz _]. 
    destruct (psnd_free _ _ s2 (ob_var (s_obj s0)) (md_ps _ _ _ _ (lv_M _ _ _ _ L2)) (TB_free o s0 _ rep s2 R0 T2 Ha)) as [Lz Uz].
    split; [apply (tb_var _ _ _ _ _ T2)|]. split; [rewrite Hnv2; auto|]. split; [apply T2; auto|]. auto.
  Qed.

  (** ** init *)
  Context {Sym : Type} `{EqDecision Sym}.
  Lemma prep_enqueue_x_eq o is : forall s, (forall i, i ∈ is -> i < s_nb s) -> prep_enqueue_x o is s = prep_enqueue o is s.
  Proof.
    induction is as [|i is IH]; intros s Hi; cbn [prep_enqueue_x prep_enqueue]; auto. rewrite enqueue_x_eq by (apply Hi, elem_of_cons; auto).
    destruct (enqueue o i s) as [s1| | |] eqn:E; cbn [mbind res_bind]; auto. apply IH. intros k Hk. rewrite (enqueue_nb _ _ _ _ E). apply Hi, elem_of_cons; auto.
  Qed.
  Lemma prep_enqueue_pconf o is b : forall s : solver V, prep_enqueue (Options (o_select o) (o_store o) (o_global o) (o_pmode o) b) is s = prep_enqueue o is s.
  Proof.
    induction is as [|i is IH]; intros s; cbn [prep_enqueue]; auto.
    change (enqueue (Options (o_select o) (o_store o) (o_global o) (o_pmode o) b) i s) with (enqueue o i s).
    destruct (enqueue o i s); cbn [mbind res_bind]; auto.
  Qed.
  Lemma prepare_x_eq (syms : list Sym) (find : Sym -> option nat) (Hfind : forall (x : Sym) k, find x = Some k <-> syms !! k = Some x) h (o : options) shuf qs obj master log :
    (forall l, shuf l ≡ₚ l) -> (forall q, q ∈ qs -> okterms find (q_lhs q)) -> okterms find obj ->
    (forall q, q ∈ qs -> srel (V := V) (q_rel q) /\ srel (V := V) (invert (q_rel q))) ->
    prepare_x h o shuf (length syms) find qs obj master log = prepare (V := V) h o shuf (length syms) find qs obj master log.
  Proof.
    intros Hsh Ho Hobj Hrel. set (o' := Options (o_select o) (o_store o) (o_global o) (o_pmode o) false).
    destruct (prepare_ok syms find Hfind h o' shuf qs obj master log Hsh Ho Hobj Hrel) as (s & log' & ok & E & P & _).
    unfold prepare_x, prepare in *. destruct (prep_ineqs h find master qs (prep_init (length syms)) log) as [[[s1 log1] ok1]| | |]; cbn [mbind res_bind] in *; auto.
    destruct ok1; cbn [negb] in *; auto. change (prep_objective o' find obj s1) with (prep_objective o find obj s1) in E.
    destruct (prep_objective o find obj s1) as [s2| | |]; cbn [mbind res_bind] in *; auto.
    rewrite prep_enqueue_x_eq by (intros i Hi; apply elem_of_seq in Hi; lia).
    unfold o' in E. rewrite prep_enqueue_pconf in E.
    destruct (prep_enqueue o (seq 0 (s_nb s2)) s2) as [s3| | |]; cbn [mbind res_bind] in *; auto.
    destruct (prep_register (s_bounds (set_bounds (shuf (s_bounds s3)) s3)) (set_bounds (shuf (s_bounds s3)) s3)) as [s4| | |]; cbn [mbind res_bind] in *; auto.
    cbn [o_pconf andb] in E. injection E as -> -> <-. specialize (P eq_refl). rewrite FS_crosscheck; [reflexivity|].
    eapply Live_FS. apply (pd_live _ _ _ _ _ _ _ P true).
  Qed.
  Lemma prep_threads_x_eq h o shuf (vs : list Sym) qs obj : NoDup vs -> (forall q, q ∈ qs -> okterms (find_sym vs) (q_lhs q)) -> okterms (find_sym vs) obj ->
    (forall q, q ∈ qs -> representable (V := V) (q_rel q) /\ representable (V := V) (invert (q_rel q))) -> (forall i l, shuf i l ≡ₚ l) ->
    forall ids log, prep_threads_x (V := V) h o shuf vs qs obj ids log = prep_threads (V := V) h o shuf vs qs obj ids log.
  Proof.
    intros Hn Hq Ho Hr Hs ids. induction ids as [|i ids IH]; intros log; cbn [prep_threads_x prep_threads]; auto.
    rewrite (prepare_x_eq vs (find_sym vs) (find_sym_spec vs Hn)) by auto.
    destruct (prepare h o (shuf i) (length vs) (find_sym vs) qs obj (i =? 0) log) as [[[s log1] ok1]| | |]; cbn [mbind res_bind]; auto.
    destruct ok1; cbn [negb]; auto. rewrite IH. reflexivity.
  Qed.
  Theorem p_init_x_eq o (sh : shot V Sym) p log : shot_ok sh -> NoDup (p_vars p) ->
    p_init_x (sh_host sh) o (sh_sort sh) (sh_threads sh) (sh_iqs sh) (sh_obj sh) p log = p_init (sh_host sh) o (sh_sort sh) (sh_threads sh) (sh_iqs sh) (sh_obj sh) p log.
  Proof.
    intros [S1 S2 S3 S5] Hn. unfold p_init_x, p_init. set (vs := fold_left _ _ _).
    destruct (gather_ok (sh_obj sh) (p_vars p) Hn) as (A & B & C). destruct (gathers_ok (sh_iqs sh) _ A) as (D & E & F). fold vs in D, E, F.
    assert (Hq : forall q, q ∈ sh_iqs sh -> okterms (find_sym vs) (q_lhs q)) by (intros q Hq; apply normal_okterms; eauto).
    assert (Ho : okterms (find_sym vs) (sh_obj sh)) by (apply normal_okterms; eauto).
    rewrite (prep_threads_x_eq (sh_host sh) o (sh_sort sh) vs (sh_iqs sh) (sh_obj sh)) by auto. reflexivity.
  Qed.

  (** ** The callbacks *)
  Theorem wstep_x_eq o (sh : shot V Sym) s0s new0 facts0 ass w e fuel : RInv o sh s0s new0 facts0 ass w -> step_ok (V := V) o -> adm e w -> eq_safe e w ->
    4 ^ maxnv s0s <= fuel -> wstep_x fuel o e w = wstep fuel o e w.
  Proof.
    intros [R1 R2 R3 R4 R5 R6 R7 R7b R8 RW] So Ha Hsf Hf.
    assert (Hfuel : forall s0, s0 ∈ s0s -> 4 ^ nv s0 <= fuel) by (intros s0 Hs; etransitivity; [apply pow_le, maxnv_le; eauto|auto]).
    pose proof RW as [I1 I2 I3 I4 I5 I6 I7 I8 I9 I10 I11].
    assert (HX : forall t, t < length (w_th w) -> exists off s s0 fs, p_slvs (w_p w) !! t = Some (off, s) /\ s0 ∈ s0s /\ 
              TI o (sh_iqs sh) (sh_obj sh) ass (w_rep w) (p_foff (w_p w)) (os_gen (p_state (w_p w))) s0 (thread_of w t) (off, s) fs).
    { intros t Ht. destruct (lookup_lt_is_Some_2 (p_slvs (w_p w)) t ltac:(lia)) as [[off s] E]. destruct (lookup_lt_is_Some_2 s0s t ltac:(lia)) as [s0 E0].
      destruct (I8 t _ s0 E E0) as (fs & HT). exists off, s, s0, fs. split; auto. split; auto. eapply elem_of_list_lookup_2; eauto. }
    destruct e as [t h a lits|t h a total l1 l2|t|t]; cbn [wstep_x wstep].
    - destruct Ha as (Ht & Hblk & Htop & Hlv & Hll). destruct (HX t Ht) as (off & s & s0 & fs & Es & H0 & [T1 T2 TB2 T3 T4 T5 T6]). rewrite Hblk in T2. cbn [fst snd] in *.
      assert (Hnv : nv s = nv s0) by apply T2.
      assert (Q : p_propagate_x fuel h o a lits t (w_p w) (w_log w) = p_propagate fuel h o a lits t (w_p w) (w_log w)); [|rewrite Q; reflexivity].
      unfold p_propagate_x, p_propagate. set (p1 := if (a_dl a =? 0) && (t =? 0) then _ else w_p w).
      assert (Hp1 : p_slvs p1 = p_slvs (w_p w)) by (subst p1; destruct (_ && _); auto). rewrite Hp1. unfold at_. rewrite Es. cbn [mbind res_bind].
      rewrite <- T1, <- top_level in Htop. rewrite <- T1 in Hlv. apply levels_ok in Hlv.
      rewrite (solve_x_eq (keep0 o) s0 fs); [reflexivity|auto|auto|..].
      + unfold keep0. destruct (o_store o); congruence.
      + apply enter_lv; auto.
      + eapply safe_lsafe; eauto.
      + rewrite Hnv; auto.
    - destruct Ha as (Ht & Hblk & Htop & Hlv & Hfl & Hfresh). destruct (HX t Ht) as (off & s & s0 & fs & Es & H0 & [T1 T2 TB2 T3 T4 T5 T6]). rewrite Hblk in T2. cbn [fst snd] in *.
      assert (Q : p_check_x fuel h o a total l1 l2 t (w_p w) (w_log w) = p_check fuel h o a total l1 l2 t (w_p w) (w_log w)); [|rewrite Q; reflexivity].
      unfold p_check_x, p_check. unfold at_. rewrite Es. cbn [mbind res_bind].
      rewrite <- T1, <- top_level in Htop. rewrite <- T1 in Hlv. apply levels_ok in Hlv.
      rewrite (t_check_x_eq (keep0 o) o s0 fs s ass (w_rep w)); auto.
      + eapply prepared_rows0. apply R4; auto.
      + intros l Hl. rewrite active_held, T1. auto.
      + destruct I7 as (nf & ->). rewrite app_length. lia.
    - destruct Ha as (Ht & Hl). destruct (HX t Ht) as (off & s & s0 & fs & Es & H0 & [T1 T2 TB2 T3 T4 T5 T6]). cbn [fst snd] in *.
      assert (HD : Dead (keep0 o) s0 fs s) by (destruct (th_blk (thread_of w t)); auto; apply Mid_Dead, T2).
      rewrite <- T1 in Hl. destruct fs as [|[L lits p] fs]; [cbn in Hl; lia|]. cbn in Hl.
      assert (Q : p_undo_x t (w_p w) = p_undo t (w_p w)); [|rewrite Q; reflexivity].
      unfold p_undo_x, p_undo. unfold at_. rewrite Es. cbn [mbind res_bind].
      destruct (undo_ok (keep0 o) s0 L lits p fs s HD Hl) as (s' & E & L' & _). rewrite (undo_x_FS s s' E) by (eapply Live_FS; eauto). rewrite E. reflexivity.
    - reflexivity.
  Qed.
End checks.

(** ** More fuel does not change a result *)
Section fuel_x.
  Context {V : Type} `{Value V} {Sym : Type} `{EqDecision Sym}.
  Lemma simplex_x_mono o l : forall f f' (s : solver V), f <= f' -> rle (simplex_loop_x f o l s) (simplex_loop_x f' o l s).
  Proof.
    induction f as [|f IH]; intros f' s Hf; [apply rle_fuel|]. destruct f' as [|f']; [lia|]. cbn [simplex_loop_x].
    apply rle_bind; [apply rle_refl|]. intros [r s1]. destruct r; try apply rle_refl. apply rle_bind; [apply rle_refl|]. intros s2. apply IH. lia.
  Qed.
  Lemma optimize_loop_x_mono o : forall f f' (s : solver V), f <= f' -> rle (optimize_loop_x f o s) (optimize_loop_x f' o s).
  Proof.
    induction f as [|f IH]; intros f' s Hf; [apply rle_fuel|]. destruct f' as [|f']; [lia|]. cbn [optimize_loop_x].
    apply rle_bind; [apply rle_refl|]. intros [s1 fin]. destruct fin; [apply rle_refl|]. apply IH. lia.
  Qed.
  Lemma optimize_x_mono o f f' (s : solver V) : f <= f' -> rle (optimize_x f o s) (optimize_x f' o s).
  Proof.
    intros Hf. unfold optimize_x. destruct (ob_active (s_obj s)); [|apply rle_refl].
    apply rle_bind; [apply rle_refl|]. intros xz. apply rle_bind; [apply rle_refl|]. intros _. apply rle_bind; [apply rle_refl|]. intros _. apply optimize_loop_x_mono; auto.
  Qed.
  Lemma solve_x_mono h o a lits f f' (s : solver V) log : f <= f' -> rle (solve_x f h o a lits s log) (solve_x f' h o a lits s log).
  Proof.
    intros Hf. unfold solve_x. apply rle_bind; [|intros [s1 ok]; apply rle_refl]. unfold solve_core_x. apply rle_bind; [apply rle_refl|].
    intros [s1 ok]. destruct (negb ok); [apply rle_refl|]. apply rle_bind; [apply rle_refl|]. intros _. apply rle_bind; [apply simplex_x_mono; auto|]. intros [s2 ok2]. apply rle_refl.
  Qed.
  Lemma t_check_x_mono h o a total l1 l2 facts foff st off f f' (s : solver V) log : f <= f' ->
    rle (t_check_x f h o a total l1 l2 facts foff st off s log) (t_check_x f' h o a total l1 l2 facts foff st off s log).
  Proof.
    intros Hf. unfold t_check_x. apply rle_bind.
    - destruct ((a_dl a =? 0) && (off <? foff)); [|apply rle_refl]. apply rle_bind; [apply rle_refl|]. intros _. apply rle_bind; [apply solve_x_mono; auto|].
      intros [[s1 log1] ok1]. apply rle_refl.
    - intros [[[off1 s1] log1] ok1]. destruct (negb ok1); [apply rle_refl|]. apply rle_bind; [apply rle_refl|]. intros [[s2 log2] ok2].
      destruct (negb ok2); [apply rle_refl|]. destruct total; [|apply rle_refl]. apply rle_bind; [apply optimize_x_mono; auto|]. intros s3. apply rle_refl.
  Qed.
  Lemma wstep_x_le o e (w : world V Sym) f f' : f <= f' -> rle (wstep_x f o e w) (wstep_x f' o e w).
  Proof.
    intros Hf. destruct e as [t h a lits|t h a total l1 l2|t|t]; cbn [wstep_x]; try apply rle_refl.
    - apply rle_bind; [|intros [[p log] ok]; apply rle_refl]. unfold p_propagate_x. apply rle_bind; [apply rle_refl|]. intros [off s].
      apply rle_bind; [apply solve_x_mono; auto|]. intros [[s1 log1] ok1]. apply rle_refl.
    - apply rle_bind; [apply rle_refl|]. intros [off0 s0']. apply rle_bind; [|intros [[p log] ok]; apply rle_refl]. unfold p_check_x.
      apply rle_bind; [apply rle_refl|]. intros [off s]. apply rle_bind; [apply t_check_x_mono; auto|]. intros [[[off1 s1] log1] ok1]. apply rle_refl.
  Qed.
  Lemma wstep_x_mono o e (w : world V Sym) f f' : f <= f' -> forall w', wstep_x f o e w = Ok w' -> wstep_x f' o e w = Ok w'.
  Proof. intros Hf w' E. destruct (wstep_x_le o e w f f' Hf) as [C|C]; congruence. Qed.
End fuel_x.
