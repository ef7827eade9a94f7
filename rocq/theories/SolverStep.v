(** * Effects of update_ and pivot_ (proofs about Solver.v) *)

From stdpp Require Import list_numbers.
From Verif Require Import Num Sums Tableau TableauProofs Bland Solver SolverBase.

Section step.
  Context {V : Type} `{VL : ValueLaws V}.
  Implicit Types s : solver V.
  Implicit Types x y : nat.

  (** ** Pivoting keeps the solution space *)
  Lemma rows_pivot_abs n (B B' : nat -> bool) (T T' : nat -> nat -> Qc) (b e : nat) (a : nat -> V) :
    b < n -> e < n -> B b = true -> B e = false -> T b e <> 0%Qc ->
    (forall k, k < n -> B' k = if k =? b then false else if k =? e then true else B k) ->
    T' e b = (1 / T b e)%Qc ->
    (forall k, k < n -> B k = false -> k <> e -> T' e k = (- T b k / T b e)%Qc) ->
    (forall c, c < n -> B c = true -> c <> b -> T' c b = (T c e / T b e)%Qc) ->
    (forall c k, c < n -> k < n -> B c = true -> c <> b -> B k = false -> k <> e -> T' c k = (T c k - T c e * T b k / T b e)%Qc) ->
    (forall c, c < n -> B c = true -> a c = rowval n B T a c) <-> (forall c, c < n -> B' c = true -> a c = rowval n B' T' a c).
  Proof.
    intros Hb He Bb Be Hq HB' Teb Tek Tcb Tck.
    assert (Hbe : b <> e) by congruence.
    set (S := fun c => vsum n (fun k => if k =? e then vzero else if B k then vzero else vscale (T c k) (a k))).
    assert (R : forall c, rowval n B T a c = vadd (vscale (T c e) (a e)) (S c)).
    { intros c. unfold rowval. rewrite (vsum_split n e) by auto. rewrite Be. reflexivity. }
    assert (R'e : rowval n B' T' a e = vscale (1 / T b e) (vsub (a b) (S b))).
    { unfold rowval. rewrite (vsum_split n b) by auto. rewrite HB', Nat.eqb_refl, Teb by auto.
      rewrite (vsum_ext n _ (fun k => vscale (- (1 / T b e)) (if k =? e then vzero else if B k then vzero else vscale (T b k) (a k)))).
      - rewrite vsum_scale. unfold S. vring.
      - intros k Hk. rewrite HB' by auto. destruct (Nat.eqb_spec k b) as [->|].
        + destruct (Nat.eqb_spec b e); [congruence|]. rewrite Bb. vring.
        + destruct (Nat.eqb_spec k e) as [->|]; [vring|]. destruct (B k) eqn:Bk; [vring|]. rewrite Tek by auto. vring. }
    assert (R'c : forall c, c < n -> B c = true -> c <> b ->
              rowval n B' T' a c = vadd (vscale (T c e / T b e) (vsub (a b) (S b))) (S c)).
    { intros c Hc Bc Hcb. unfold rowval. rewrite (vsum_split n b) by auto. rewrite HB', Nat.eqb_refl, Tcb by auto.
      rewrite (vsum_ext n _ (fun k => vadd (vscale (- (T c e / T b e)) (if k =? e then vzero else if B k then vzero else vscale (T b k) (a k)))
                                         (if k =? e then vzero else if B k then vzero else vscale (T c k) (a k)))).
      - rewrite vsum_add, vsum_scale. unfold S. vring.
      - intros k Hk. rewrite HB' by auto. destruct (Nat.eqb_spec k b) as [->|].
        + destruct (Nat.eqb_spec b e); [congruence|]. rewrite Bb. vring.
        + destruct (Nat.eqb_spec k e) as [->|]; [vring|]. destruct (B k) eqn:Bk; [vring|]. rewrite Tck by auto. vring. }
    assert (E1 : a b = vadd (vscale (T b e) (a e)) (S b) <-> a e = vscale (1 / T b e) (vsub (a b) (S b))).
    { split; intros E.
      - rewrite E. apply v_ext; vpush; field; auto.
      - rewrite E. apply v_ext; vpush; field; auto. }
    split.
    - intros Hr c Hc Bc. rewrite HB' in Bc by auto. destruct (Nat.eqb_spec c b); [discriminate|].
      assert (Ee : a e = vscale (1 / T b e) (vsub (a b) (S b))) by (apply E1; rewrite <- R; auto).
      destruct (Nat.eqb_spec c e) as [->|].
      + rewrite R'e. auto.
      + rewrite R'c by auto. rewrite (Hr c Hc Bc), R at 1. rewrite Ee. apply v_ext; vpush; field; auto.
    - intros Hr c Hc Bc.
      assert (Ee : a e = vscale (1 / T b e) (vsub (a b) (S b))).
      { rewrite <- R'e. apply Hr; auto. rewrite HB' by auto. destruct (Nat.eqb_spec e b); [congruence|]. rewrite Nat.eqb_refl. auto. }
      rewrite R. destruct (Nat.eq_dec c b) as [->|Hne].
      + apply E1; auto.
      + assert (Bc' : B' c = true). { rewrite HB' by auto. destruct (Nat.eqb_spec c b); [congruence|]. destruct (c =? e); auto. }
        rewrite (Hr c Hc Bc'), R'c by auto. rewrite Ee. apply v_ext; vpush; field; auto.
  Qed.

  Lemma col_entries_facts s j k a d : shape s -> (k, a, d) ∈ col_entries (s_tab s) j ->
    k < s_nb s /\ tget (s_tab s) k j = qmk a d /\ a <> 0%Z /\ d <> 0%Z.
  Proof.
    intros Sh He. apply col_entries_elem in He as (r & Hr & -> & Hc); [|apply Sh].
    pose proof (tw_rows _ (sh_tab _ Sh) _ _ Hr) as Wr.
    assert (a <> 0%Z) by (eapply rw_nz; eauto). assert (r_den r <> 0%Z) by apply Wr.
    assert (E : tget (s_tab s) k j = qmk a (r_den r)). { rewrite (tget_rget _ _ _ _ Hr). unfold rget. rewrite Hc. auto. }
    split; [|auto]. apply (sh_nz _ Sh k j). rewrite E. apply qmk_nz; auto.
  Qed.
  Lemma col_entries_nz s j k : shape s -> tget (s_tab s) k j <> 0%Qc -> exists a d, (k, a, d) ∈ col_entries (s_tab s) j.
  Proof.
    intros Sh Hnz. destruct (tget_nz _ _ _ (sh_tab _ Sh) Hnz) as (r & v & Hr & Hv & _).
    exists v, (r_den r). apply col_entries_elem; [apply Sh|]. eauto.
  Qed.
  Lemma row_entries_facts s i j a d : shape s -> (j, a, d) ∈ row_entries (s_tab s) i ->
    i < s_nb s /\ j < s_nn s /\ tget (s_tab s) i j = qmk a d /\ a <> 0%Z /\ d <> 0%Z.
  Proof.
    intros Sh He. apply row_entries_elem in He as (r & Hr & -> & Hc); [|apply Sh].
    pose proof (tw_rows _ (sh_tab _ Sh) _ _ Hr) as Wr.
    assert (a <> 0%Z) by (eapply rw_nz; eauto). assert (r_den r <> 0%Z) by apply Wr.
    assert (E : tget (s_tab s) i j = qmk a (r_den r)). { rewrite (tget_rget _ _ _ _ Hr). unfold rget. rewrite Hc. auto. }
    destruct (sh_nz _ Sh i j) as [? ?]; [rewrite E; apply qmk_nz; auto|]. auto.
  Qed.
  Lemma row_entries_nz s i j : shape s -> tget (s_tab s) i j <> 0%Qc -> exists a d, (j, a, d) ∈ row_entries (s_tab s) i.
  Proof.
    intros Sh Hnz. destruct (tget_nz _ _ _ (sh_tab _ Sh) Hnz) as (r & v & Hr & Hv & _).
    exists v, (r_den r). apply row_entries_elem; [apply Sh|]. eauto.
  Qed.

  Lemma ssorted_nodup l : StronglySorted lt l -> NoDup l.
  Proof.
    induction 1 as [|a l Hs IH Hf]; constructor; auto. intros Ha. rewrite List.Forall_forall in Hf.
    apply elem_of_list_In, Hf in Ha. lia.
  Qed.

  (** basic and non-basic variables by tableau index *)
  Lemma idx_basic s i : shape s -> i < s_nb s -> idx s (i + s_nn s) < nv s /\ Bs s (idx s (i + s_nn s)) = true /\ ridx s (idx s (i + s_nn s)) = i + s_nn s.
  Proof.
    intros Sh Hi. pose proof (sh_len _ Sh). destruct (sh_ir _ Sh (i + s_nn s)) as [A B]; [lia|]. split; auto. split; auto.
    unfold Bs. rewrite B. apply Nat.leb_le. lia.
  Qed.
  Lemma idx_nonbasic s j : shape s -> j < s_nn s -> idx s j < nv s /\ Bs s (idx s j) = false /\ ridx s (idx s j) = j.
  Proof.
    intros Sh Hj. pose proof (sh_len _ Sh). destruct (sh_ir _ Sh j) as [A B]; [lia|]. split; auto. split; auto.
    unfold Bs. rewrite B. apply Nat.leb_gt. lia.
  Qed.
  Lemma basic_idx s y : shape s -> y < nv s -> Bs s y = true -> ridx s y - s_nn s < s_nb s /\ idx s (ridx s y - s_nn s + s_nn s) = y.
  Proof.
    intros Sh Hy HB. pose proof (sh_len _ Sh). destruct (sh_ri _ Sh y Hy) as [A B]. unfold Bs in HB. apply Nat.leb_le in HB.
    split; [lia|]. replace (ridx s y - s_nn s + s_nn s) with (ridx s y) by lia. auto.
  Qed.
  Lemma nonbasic_idx s y : shape s -> y < nv s -> Bs s y = false -> ridx s y < s_nn s /\ idx s (ridx s y) = y.
  Proof. intros Sh Hy HB. destruct (sh_ri _ Sh y Hy) as [A B]. unfold Bs in HB. apply Nat.leb_gt in HB. auto. Qed.

  (** ** The column loop of update_ and pivot_ *)
  Lemma col_fold o L s j (th : V) (skip : nat -> bool) (f : nat -> Z -> Z -> solver V -> res (solver V)) :
    shape s -> j < s_nn s ->
    (forall k a d s1, nv s1 = nv s -> val s1 (idx s j) = val s (idx s j) -> skip k = true -> f k a d s1 = Ok s1) ->
    (forall k a d s1, nv s1 = nv s -> val s1 (idx s j) = val s (idx s j) -> skip k = false ->
       f k a d s1 = (kk ← basic_ s1 k; s' ← set_value kk L (vscale (qmk a d) th) true s1; enqueue o k s')) ->
    (forall k a d s1 s2, f k a d s1 = Ok s2 -> s_tab s2 = s_tab s1) ->
    exists s', update_col s_tab set_tab j f s = Ok s' /\
      shape s' /\ vreach L s s' /\ t_rows (s_tab s') = t_rows (s_tab s) /\ perm_same s s' /\ s_clause s' = s_clause s /\
      (forall y, y < nv s -> val s' y = if Bs s y && negb (skip (ridx s y - s_nn s)) then vadd (val s y) (vscale (Ts s y (idx s j)) th) else val s y) /\
      (forall x, (x ∈ s_conf s -> x ∈ s_conf s') /\ (qd s x = true -> qd s' x = true)) /\
      (Qinv s -> Qinv s' /\ forall y, y < nv s -> Bs s y = true -> skip (ridx s y - s_nn s) = false -> Ts s y (idx s j) <> 0%Qc ->
         conf_at s' y = true -> qd s' y = true /\ y ∈ s_conf s').
  Proof.
    intros Sh Hj Hskip Hf Htab. destruct (idx_nonbasic s j Sh Hj) as (He & Be & Re). set (e := idx s j) in *.
    assert (HT : forall y, Ts s y e = tget (s_tab s) (ridx s y - s_nn s) j) by (intros y; unfold Ts; rewrite Re; auto).
    pose proof (col_entries_sorted (s_tab s) j (sh_tab _ Sh)) as Hsorted. apply ssorted_nodup in Hsorted.
    set (key := fun e : nat * Z * Z => e.1.1) in *.
    destruct (mfold_inv f (col_entries (s_tab s) j) s (fun don s1 =>
      shape s1 /\ vreach L s s1 /\ s_tab s1 = s_tab s /\ perm_same s s1 /\ s_clause s1 = s_clause s /\
      (forall y, y < nv s -> val s1 y = if Bs s y && negb (skip (ridx s y - s_nn s)) && bool_decide (ridx s y - s_nn s ∈ map key don)
                             then vadd (val s y) (vscale (Ts s y e) th) else val s y) /\
      (forall x, (x ∈ s_conf s -> x ∈ s_conf s1) /\ (qd s x = true -> qd s1 x = true)) /\
      (Qinv s -> Qinv s1 /\ forall y, y < nv s -> Bs s y = true -> skip (ridx s y - s_nn s) = false -> ridx s y - s_nn s ∈ map key don ->
         conf_at s1 y = true -> qd s1 y = true /\ y ∈ s_conf s1))) as (s1 & Hfold & Sh1 & Vr1 & Tb1 & Pm1 & Cl1 & Val1 & Cm1 & Q1).
    { split; [auto|]. split; [apply vreach_refl|]. split; [auto|]. split; [apply perm_same_refl|]. split; [auto|]. split; [|split; [auto|]].
      - intros y Hy. rewrite andb_false_r. auto.
      - intros HQ. split; auto. intros y _ _ _ Hin. inversion Hin. }
    { intros don k a d rest s1 El (Sh1 & Vr1 & Tb1 & Pm1 & Cl1 & Val1 & Cm1 & Q1).
      destruct (vreach_facts _ _ _ Vr1) as (Bt1 & St1 & Bn1).
      assert (Hin : (k, a, d) ∈ col_entries (s_tab s) j) by (rewrite El; apply elem_of_app; right; apply elem_of_cons; auto).
      destruct (col_entries_facts _ _ _ _ _ Sh Hin) as (Hk & Ekj & _ & _).
      assert (Hnd : k ∉ map key don).
      { rewrite El, map_app in Hsorted. apply NoDup_app in Hsorted as (_ & Hd & _). intros Hk'. apply (Hd k Hk'). cbn. apply elem_of_cons; auto. }
      assert (He1 : val s1 e = val s e). { rewrite Val1, Be by auto. auto. }
      destruct (idx_basic s k Sh Hk) as (Hb & Bb & Rb). set (b := idx s (k + s_nn s)) in *.
      assert (Ekb : forall y, y < nv s -> Bs s y = true -> ridx s y - s_nn s = k -> y = b).
      { intros y Hy By E. destruct (basic_idx s y Sh Hy By) as [_ Ey]. rewrite E in Ey. auto. }
      destruct (skip k) eqn:Esk.
      - rewrite Hskip by (auto; apply (stat_nv _ _ St1)). exists s1. split; auto.
        split; [auto|]. split; [auto|]. split; [auto|]. split; [auto|]. split; [auto|]. split; [|split; [auto|]].
        + intros y Hy. rewrite Val1 by auto. destruct (Bs s y) eqn:By; auto. destruct (skip (ridx s y - s_nn s)) eqn:Esy; auto. cbn.
          rewrite map_app. cbn. assert (ridx s y - s_nn s <> k) by congruence.
          erewrite bool_decide_ext; [reflexivity|]. rewrite elem_of_app, elem_of_list_singleton. cbn; tauto.
        + intros HQ. destruct (Q1 HQ) as [Qa Qb]. split; auto. intros y Hy By Esy. rewrite map_app, elem_of_app. cbn. rewrite elem_of_list_singleton.
          intros [Hd|Hd]; [auto|]. unfold key in Hd. cbn in Hd. congruence.
      - rewrite Hf by (auto; apply (stat_nv _ _ St1)).
        destruct (row_update_ok o s1 k L (vscale (qmk a d) th) Sh1) as (s2 & E2 & Sh2 & Vr2 & Tb2 & Pm2 & Cl2 & Val2 & Cm2 & Q2).
        { rewrite (stat_nb _ _ St1). auto. }
        exists s2. split; [exact E2|].
        rewrite (stat_nn _ _ St1) in Val2, Q2. destruct (Pm1 (k + s_nn s)) as [Eib _]. rewrite Eib in Val2, Q2. fold b in Val2, Q2.
        split; [auto|]. split; [eapply vreach_trans; eauto|]. split; [congruence|]. split; [eapply perm_same_trans; eauto|]. split; [congruence|]. split; [|split; [intros z; split; intros Hz; apply Cm2, Cm1; exact Hz|]].
        + intros y Hy. rewrite Val2, Val1 by auto. rewrite map_app. cbn.
          destruct (Nat.eqb_spec y b) as [->|Hne].
          * rewrite Bb, Rb. replace (k + s_nn s - s_nn s) with k by lia. rewrite Esk. cbn.
            rewrite bool_decide_eq_false_2 by auto.
            rewrite bool_decide_eq_true_2 by (apply elem_of_app; right; apply elem_of_list_singleton; auto).
            rewrite HT, Rb. replace (k + s_nn s - s_nn s) with k by lia. rewrite Ekj. auto.
          * destruct (Bs s y) eqn:By; auto. destruct (skip (ridx s y - s_nn s)) eqn:Esy; auto. cbn.
            assert (ridx s y - s_nn s <> k) by (intros E; apply Hne, Ekb; auto).
            erewrite bool_decide_ext; [reflexivity|]. rewrite elem_of_app, elem_of_list_singleton. cbn; tauto.
        + intros HQ. destruct (Q1 HQ) as [Qa Qb]. destruct (Q2 Qa) as [Qc Qd]. split; auto.
          intros y Hy By Esy. rewrite map_app, elem_of_app. cbn. rewrite elem_of_list_singleton. intros Hd Hc.
          destruct (Nat.eq_dec y b) as [->|Hne]; [auto|]. cut (qd s1 y = true /\ y ∈ s_conf s1); [intros [G1 G2]; split; apply Cm2; auto|apply Qb; auto].
          * destruct Hd as [Hd|Hd]; auto. exfalso. apply Hne, Ekb; auto.
          * rewrite <- Hc. symmetry. destruct (vreach_facts _ _ _ Vr2) as (_ & _ & Bn2). apply conf_at_same; [apply Bn2|apply Bn2|].
            rewrite Val2. destruct (Nat.eqb_spec y b); congruence. }
    destruct (vreach_facts _ _ _ Vr1) as (Bt1 & St1 & Bn1).
    assert (Hfin : exists t, update_col s_tab set_tab j f s = Ok (set_tab t s1) /\ t_rows t = t_rows (s_tab s) /\ tab_wf t).
    { rewrite update_col_mfold; [|apply Sh|intros ? ? ? ? ? E1 E2; rewrite (Htab _ _ _ _ _ E2); auto].
      destruct (t_cols (s_tab s) !! j) as [col|] eqn:Ec.
      - rewrite Hfold. cbn [mbind res_bind]. eexists. split; [reflexivity|]. rewrite Tb1. split; [reflexivity|]. apply set_col_entries_wf; [apply Sh|eauto].
      - unfold col_entries in Hfold. rewrite Ec in Hfold. cbn in Hfold. injection Hfold as <-.
        exists (s_tab s). split; [|split; [auto|apply Sh]]. destruct s; auto. }
    destruct Hfin as (t & -> & Ht & Wt). exists (set_tab t s1). split; auto.
    split; [|split; [|split; [|split; [|split; [|split; [|split]]]]]].
    - apply (shape_keep s1); auto; try apply Sh1.
      + intros y; split; reflexivity.
      + cbn. congruence.
    - eapply vreach_quiet; [exact Vr1|]. repeat (split; [reflexivity|]). split; intros y; auto.
    - auto.
    - exact Pm1.
    - auto.
    - intros y Hy. change (val (set_tab t s1) y) with (val s1 y). rewrite Val1 by auto.
      destruct (Bs s y) eqn:By; auto. destruct (skip (ridx s y - s_nn s)) eqn:Esy; auto. cbn.
      case_bool_decide as Hin; auto. destruct (Qc_eq_dec (Ts s y e) 0) as [E0|E0].
      + rewrite E0, vscale_0, vadd_0_r. auto.
      + exfalso. apply Hin. rewrite HT in E0. destruct (col_entries_nz s j _ Sh E0) as (a & d & Hd).
        apply elem_of_list_In, in_map_iff. exists (ridx s y - s_nn s, a, d). split; auto. apply elem_of_list_In; auto.
    - exact Cm1.
    - intros HQ. destruct (Q1 HQ) as [Qa Qb]. split; [exact Qa|]. intros y Hy By Esy E0. apply Qb; auto.
      rewrite HT in E0. destruct (col_entries_nz s j _ Sh E0) as (a & d & Hd).
      apply elem_of_list_In, in_map_iff. exists (ridx s y - s_nn s, a, d). split; auto. apply elem_of_list_In; auto.
  Qed.

  Lemma set_value_tab x L v add s s' : set_value x L v add s = Ok s' -> s_tab s' = s_tab s.
  Proof. unfold set_value. intros E. apply bind_ok in E as (w & _ & E). injection E as <-. cbn. destruct (negb _); auto. Qed.
  Lemma enqueue_tab o i s s' : enqueue o i s = Ok s' -> s_tab s' = s_tab s.
  Proof.
    unfold enqueue. intros E. apply bind_ok in E as (ii & _ & E). apply bind_ok in E as (xi & _ & E).
    assert (G : forall c, s_tab (if (c : bool) then upd_var ii (vset_queued true) (set_conf (pq_insert ii (s_conf s)) s) else s) = s_tab s) by (intros []; auto).
    destruct (o_pmode o).
    - injection E as <-. auto.
    - apply bind_ok in E as (w & _ & E). destruct (v_prop w); injection E as <-; cbn; auto.
    - injection E as <-. auto.
  Qed.

  (** ** update_ *)
  Theorem update_ok o L s j v : shape s -> j < s_nn s ->
    exists s', update_ o L j v s = Ok s' /\
      shape s' /\ vreach L s s' /\ t_rows (s_tab s') = t_rows (s_tab s) /\ perm_same s s' /\ s_clause s' = s_clause s /\
      (forall y, y < nv s -> val s' y = if y =? idx s j then v else if Bs s y then vadd (val s y) (vscale (Ts s y (idx s j)) (vsub v (val s (idx s j)))) else val s y) /\
      (forall x, (x ∈ s_conf s -> x ∈ s_conf s') /\ (qd s x = true -> qd s' x = true)) /\
      (Qinv s -> Qinv s' /\ forall y, y < nv s -> Bs s y = true -> Ts s y (idx s j) <> 0%Qc -> conf_at s' y = true -> qd s' y = true /\ y ∈ s_conf s').
  Proof.
    intros Sh Hj. unfold update_, non_basic_. pose proof (sh_len _ Sh) as Hl. rewrite at_vr by lia. cbn [mbind res_bind].
    change (v_index (vr s j)) with (idx s j). destruct (idx_nonbasic s j Sh Hj) as (He & Be & Re). set (e := idx s j) in *.
    destruct (col_fold o L s j (vsub v (val s e)) (fun _ => false)
      (fun i a_ij d_i s0 => xj ← at_ (s_vars s0) e; ii ← basic_ s0 i; s' ← set_value ii L (vdivz (vmulz (vsub v (v_val xj)) a_ij) d_i) true s0; enqueue o i s'))
      as (s1 & -> & Sh1 & Vr1 & Tb1 & Pm1 & Cl1 & Val1 & Cm1 & Q1); auto.
    { discriminate. }
    { intros k a d s1 Hn Hv _. rewrite at_vr by lia. cbn [mbind res_bind]. fold e in Hv. unfold val in Hv. rewrite Hv, vmuldiv. reflexivity. }
    { intros k a d s1 s2 E. apply bind_ok in E as (w & _ & E). apply bind_ok in E as (ii & _ & E). apply bind_ok in E as (s3 & E1 & E2).
      rewrite (enqueue_tab _ _ _ _ E2), (set_value_tab _ _ _ _ _ _ E1). auto. }
    fold e in Val1, Q1. cbn [mbind res_bind]. destruct (vreach_facts _ _ _ Vr1) as (Bt1 & St1 & Bn1).
    destruct (set_value_ok s1 e L v false) as (s2 & -> & Vm & Tb2 & Pm2 & Val2 & Qd2 & Cf2 & Pq2 & Cl2).
    { rewrite (stat_nv _ _ St1). auto. }
    exists s2. split; auto. pose proof Vm as (x0 & v0 & Hx0 & _ & Hat & Hbt & Hst & Hbs).
    assert (Valy : forall y, y < nv s -> val s2 y = if y =? e then v else if Bs s y then vadd (val s y) (vscale (Ts s y e) (vsub v (val s e))) else val s y).
    { intros y Hy. rewrite Val2. destruct (Nat.eqb_spec y e); auto. rewrite Val1 by auto. rewrite andb_true_r. auto. }
    split; [|split; [|split; [|split; [|split; [|split; [|split]]]]]].
    - apply (shape_keep s1); auto.
      + rewrite Tb2. apply Sh1.
      + rewrite Tb2; auto.
      + rewrite Cf2. apply Sh1.
      + rewrite Pq2. apply Sh1.
      + rewrite Hat. intros e0. rewrite elem_of_app. intros [H0|H0]; [apply (sh_at _ Sh1); auto|].
        destruct (L =? lvl s1 x0); [inversion H0|]. apply elem_of_list_singleton in H0 as ->. auto.
      + rewrite Hbt. apply Sh1.
      + intros y. apply Hbs.
    - eapply vreach_move; eauto.
    - rewrite Tb2. auto.
    - eapply perm_same_trans; eauto.
    - congruence.
    - exact Valy.
    - intros y. rewrite Cf2, Qd2. apply Cm1.
    - intros HQ. destruct (Q1 HQ) as [[Qa Qa'] Qb]. split.
      + split; rewrite Cf2; auto. intros y. rewrite Qd2. auto.
      + rewrite Cf2. intros y Hy By E0 Hc. rewrite Qd2. apply Qb; auto. rewrite <- Hc. symmetry. apply conf_at_same; [apply Hbs|apply Hbs|].
        rewrite Val2. destruct (Nat.eqb_spec y e); [congruence|auto].
  Qed.

  Lemma unsafe_get_ok s i j : shape s -> tget (s_tab s) i j <> 0%Qc ->
    exists p a d, unsafe_get (s_tab s) i j = Ok (p, a, d) /\ tget (s_tab s) i j = qmk a d /\ a <> 0%Z /\ d <> 0%Z.
  Proof.
    intros Sh Hnz. destruct (tget_nz _ _ _ (sh_tab _ Sh) Hnz) as (r & v & Hr & Hv & Hv0 & Hd0 & Eget).
    exists (lb j (r_cells r)), v, (r_den r). split; [|auto]. unfold unsafe_get. rewrite (proj2 (at_ok _ _ _) Hr). cbn [mbind res_bind].
    rewrite (proj2 (at_ok _ _ _) (proj1 (clook_lb _ _ _) Hv)). auto.
  Qed.
  Lemma qmk_inv a d : a <> 0%Z -> d <> 0%Z -> qmk d a = (1 / qmk a d)%Qc.
  Proof. intros Ha Hd. unfold qmk. assert (zq a <> 0%Qc) by (apply zq_nz; auto). assert (zq d <> 0%Qc) by (apply zq_nz; auto). field. auto. Qed.
  Lemma unsafe_get_rows t t' i j : t_rows t = t_rows t' -> unsafe_get t i j = unsafe_get t' i j.
  Proof. unfold unsafe_get. intros ->. auto. Qed.

  (** ** pivot_ *)
  Theorem pivot_ok o L s i j v : shape s -> tget (s_tab s) i j <> 0%Qc ->
    let b := idx s (i + s_nn s) in let e := idx s j in let th := vscale (1 / Ts s b e) (vsub v (val s b)) in
    exists s', pivot_ o L i j v s = Ok s' /\
      shape s' /\ vreach L s s' /\ s_clause s' = s_clause s /\
      (forall y, y < nv s -> Bs s' y = if y =? b then false else if y =? e then true else Bs s y) /\
      (Ts s' e b = (1 / Ts s b e)%Qc /\
       (forall k, k < nv s -> Bs s k = false -> k <> e -> Ts s' e k = (- Ts s b k / Ts s b e)%Qc) /\
       (forall c, c < nv s -> Bs s c = true -> c <> b -> Ts s' c b = (Ts s c e / Ts s b e)%Qc) /\
       (forall c k, c < nv s -> k < nv s -> Bs s c = true -> c <> b -> Bs s k = false -> k <> e -> Ts s' c k = (Ts s c k - Ts s c e * Ts s b k / Ts s b e)%Qc)) /\
      (forall y, y < nv s -> val s' y = if y =? b then v else if y =? e then vadd (val s e) th else
          if Bs s y then vadd (val s y) (vscale (Ts s y e) th) else val s y) /\
      (forall x, (x ∈ s_conf s -> x ∈ s_conf s') /\ (qd s x = true -> qd s' x = true)) /\
      (Qinv s -> Qinv s' /\ forall y, y < nv s -> Bs s' y = true -> (y = e \/ Ts s y e <> 0%Qc) -> conf_at s' y = true -> qd s' y = true /\ y ∈ s_conf s').
  Proof.
    intros Sh Hnz b e th. destruct (sh_nz _ Sh _ _ Hnz) as [Hi Hj]. pose proof (sh_len _ Sh) as Hl.
    destruct (idx_nonbasic s j Sh Hj) as (He & Be & Re). destruct (idx_basic s i Sh Hi) as (Hb & Bb & Rb). fold b in Hb, Bb, Rb. fold e in He, Be, Re.
    assert (Hne : b <> e) by congruence.
    unfold pivot_, basic_, non_basic_. destruct (unsafe_get_ok s i j Sh Hnz) as (p & a & d & Eg & Eq & Ha & Hd). rewrite Eg. cbn [mbind res_bind].
    rewrite (at_vr s (i + s_nn s)), (at_vr s j) by lia. cbn [mbind res_bind].
    change (v_index (vr s (i + s_nn s))) with b. change (v_index (vr s j)) with e.
    rewrite (at_vr s b), (at_vr s e) by auto. cbn [mbind res_bind]. change (v_val (vr s b)) with (val s b).
    assert (ETbe : Ts s b e = qmk a d). { unfold Ts. rewrite Rb, Re. replace (i + s_nn s - s_nn s) with i by lia. auto. }
    rewrite vdivmul, (qmk_inv a d), <- ETbe by auto. fold th.
    destruct (set_value_ok s b L v false Hb) as (s1 & -> & Vm1 & Tb1 & Pm1 & Val1 & Qd1 & Cf1 & Pq1 & Cl1). cbn [mbind res_bind].
    pose proof Vm1 as (x1 & w1 & Hx1 & _ & Hat1 & Hbt1 & Hst1 & Hbs1).
    destruct (set_value_ok s1 e L th true) as (s2 & -> & Vm2 & Tb2 & Pm2 & Val2 & Qd2 & Cf2 & Pq2 & Cl2).
    { rewrite (stat_nv _ _ Hst1). auto. }
    cbn [mbind res_bind]. pose proof Vm2 as (x2 & w2 & Hx2 & _ & Hat2 & Hbt2 & Hst2 & Hbs2).
    assert (St2 : stat s2 = stat s) by congruence. assert (Pm02 : perm_same s s2) by (eapply perm_same_trans; eauto).
    assert (Vr2 : vreach L s s2) by (eapply vreach_move; [eapply vreach_move; [apply vreach_refl|exact Vm1]|exact Vm2]).
    assert (Sh2 : shape s2).
    { apply (shape_keep s); auto.
      - rewrite Tb2, Tb1. apply Sh.
      - rewrite Tb2, Tb1; auto.
      - rewrite Cf2, Cf1. apply Sh.
      - rewrite Pq2, Pq1. apply Sh.
      - rewrite Hat2, Hat1. rewrite (stat_nv _ _ Hst1) in Hx2. intros e0. rewrite !elem_of_app. intros [[H0|H0]|H0].
        + apply (sh_at _ Sh); auto.
        + destruct (L =? lvl s x1); [inversion H0|]. apply elem_of_list_singleton in H0 as ->. auto.
        + destruct (L =? lvl s1 x2); [inversion H0|]. apply elem_of_list_singleton in H0 as ->. auto.
      - rewrite Hbt2, Hbt1. apply Sh.
      - intros y. destruct (Hbs2 y) as (_ & _ & ->), (Hbs1 y) as (_ & _ & ->). auto. }
    assert (Ei2 : forall y, idx s2 y = idx s y) by apply Pm02.
    assert (Er2 : forall y, ridx s2 y = ridx s y) by apply Pm02.
    assert (Bs2 : forall y, Bs s2 y = Bs s y) by (intros; apply Bs_same; auto).
    assert (Ts2 : forall y k, Ts s2 y k = Ts s y k) by (intros; apply Ts_same; auto; rewrite Tb2, Tb1; auto).
    destruct (col_fold o L s2 j th (fun k => k =? i)
      (fun k a_kj d_k s0 => if k =? i then Ok s0 else kk ← (v0 ← at_ (s_vars s0) (k + s_nn s0); Ok (v_index v0)); s' ← set_value kk L (vdivz (vmulz th a_kj) d_k) true s0; enqueue o k s'))
      as (s3 & -> & Sh3 & Vr3 & Tb3 & Pm3 & Cl3 & Val3 & Cm3 & Q3); auto.
    { rewrite (stat_nn _ _ St2). auto. }
    { intros k a0 d0 s0 _ _ ->. auto. }
    { intros k a0 d0 s0 _ _ ->. rewrite vmuldiv. reflexivity. }
    { intros k a0 d0 s0 s4 E. destruct (k =? i); [congruence|]. apply bind_ok in E as (ii & _ & E). apply bind_ok in E as (s5 & E1 & E2).
      rewrite (enqueue_tab _ _ _ _ E2), (set_value_tab _ _ _ _ _ _ E1). auto. }
    cbn [mbind res_bind]. destruct (vreach_facts _ _ _ Vr3) as (Bt3 & St3 & Bn3).
    assert (St03 : stat s3 = stat s) by congruence. assert (Pm03 : perm_same s s3) by (eapply perm_same_trans; eauto).
    assert (Nv3 : nv s3 = nv s) by (apply (stat_nv _ _ St03)).
    rewrite (at_vr s3 b), (at_vr s3 e) by lia. cbn [mbind res_bind].
    change (v_rindex (vr s3 b)) with (ridx s3 b). change (v_rindex (vr s3 e)) with (ridx s3 e).
    destruct (Pm03 b) as [_ ->], (Pm03 e) as [_ ->]. rewrite Rb, Re.
    set (s4 := upd_var e (vset_rindex (i + s_nn s)) (upd_var b (vset_rindex j) s3)).
    assert (Nv4 : nv s4 = nv s) by (unfold s4; rewrite !nv_upd; auto).
    assert (Nn4 : s_nn s4 = s_nn s) by (apply (stat_nn _ _ St03)). rewrite Nn4.
    rewrite (at_vr s4 (i + s_nn s)), (at_vr s4 j) by lia. cbn [mbind res_bind].
    assert (V4 : forall y, vr s4 y = vset_rindex (if y =? e then i + s_nn s else if y =? b then j else ridx s y) (vr s3 y)).
    { intros y. unfold s4. rewrite vr_upd by (rewrite nv_upd; lia). destruct (Nat.eqb_spec y e) as [->|].
      - rewrite vr_upd by lia. destruct (Nat.eqb_spec e b); [congruence|]. auto.
      - rewrite vr_upd by lia. destruct (Nat.eqb_spec y b) as [->|]; auto. destruct (Pm03 y) as [_ <-]. unfold ridx. destruct (vr s3 y); auto. }
    assert (I4 : forall y, v_index (vr s4 y) = idx s y) by (intros y; rewrite V4; cbn; apply Pm03).
    rewrite !I4. fold b. fold e.
    set (s5 := upd_var j (vset_index b) (upd_var (i + s_nn s) (vset_index e) s4)).
    assert (Nv5 : nv s5 = nv s) by (unfold s5; rewrite !nv_upd; auto).
    assert (V5 : forall y, vr s5 y = vset_index (if y =? j then b else if y =? i + s_nn s then e else idx s y) (vr s4 y)).
    { intros y. unfold s5. rewrite vr_upd by (rewrite nv_upd; lia). destruct (Nat.eqb_spec y j) as [->|].
      - rewrite vr_upd by lia. destruct (Nat.eqb_spec j (i + s_nn s)); [lia|]. auto.
      - rewrite vr_upd by lia. destruct (Nat.eqb_spec y (i + s_nn s)) as [->|]; auto. rewrite <- I4. destruct (vr s4 y); auto. }
    assert (I5 : forall y, idx s5 y = if y =? j then b else if y =? i + s_nn s then e else idx s y) by (intros y; unfold idx at 1; rewrite V5; auto).
    assert (R5 : forall y, ridx s5 y = if y =? e then i + s_nn s else if y =? b then j else ridx s y) by (intros y; unfold ridx at 1; rewrite V5, V4; auto).
    assert (St5 : stat s5 = stat s). { unfold s5, s4. rewrite !stat_upd. auto. }
    assert (Vq : vquiet s3 s5).
    { split; [reflexivity|]. split; [reflexivity|]. split; [congruence|]. split; intros y; unfold lo, up, val, lvl; rewrite V5, V4; auto. }
    assert (Qd5 : forall y, qd s5 y = qd s3 y) by (intros y; unfold qd; rewrite V5, V4; auto).
    assert (Sh5 : shape s5).
    { constructor.
      - rewrite Nv5, (stat_nn _ _ St5), (stat_nb _ _ St5). auto.
      - apply Sh3.
      - rewrite Nv5. intros x Hx. rewrite R5. destruct (Nat.eqb_spec x e) as [->|]; [|destruct (Nat.eqb_spec x b) as [->|]].
        + split; [lia|]. rewrite I5, Nat.eqb_refl. destruct (Nat.eqb_spec (i + s_nn s) j); [lia|auto].
        + split; [lia|]. rewrite I5, Nat.eqb_refl. auto.
        + destruct (sh_ri _ Sh x Hx) as [A B]. split; auto. rewrite I5. destruct (Nat.eqb_spec (ridx s x) j) as [E|]; [exfalso; unfold e in n; rewrite <- E in n; congruence|].
          destruct (Nat.eqb_spec (ridx s x) (i + s_nn s)) as [E|]; [exfalso; unfold b in n0; rewrite <- E in n0; congruence|]. auto.
      - rewrite Nv5. intros r Hr. rewrite I5. destruct (Nat.eqb_spec r j) as [->|]; [|destruct (Nat.eqb_spec r (i + s_nn s)) as [->|]].
        + split; auto. rewrite R5. destruct (Nat.eqb_spec b e); [congruence|]. rewrite Nat.eqb_refl. auto.
        + split; auto. rewrite R5, Nat.eqb_refl. auto.
        + destruct (sh_ir _ Sh r Hr) as [A B]. split; auto. rewrite R5. destruct (Nat.eqb_spec (idx s r) e) as [E|]; [exfalso; rewrite E, Re in B; congruence|].
          destruct (Nat.eqb_spec (idx s r) b) as [E|]; [exfalso; rewrite E, Rb in B; congruence|]. auto.
      - intros k l. rewrite (stat_nn _ _ St5), (stat_nb _ _ St5). rewrite <- (stat_nn _ _ St03), <- (stat_nb _ _ St03). apply (sh_nz _ Sh3).
      - rewrite Nv5, <- Nv3. apply (sh_conf _ Sh3).
      - rewrite (stat_nb _ _ St5), <- (stat_nb _ _ St03). apply (sh_pq _ Sh3).
      - rewrite Nv5, <- Nv3. apply (sh_at _ Sh3).
      - rewrite Nv5, <- Nv3. apply (sh_bt _ Sh3).
      - rewrite Nv5, (stat_bounds _ _ St5). apply Sh.
      - rewrite (stat_bounds _ _ St5), <- (stat_bounds _ _ St03). intros x b0. rewrite V5, V4. apply (sh_vb _ Sh3). }
    destruct (enqueue_ok o i s5 Sh5) as (s6 & -> & Qo & C1 & C2 & C3 & C4 & C5).
    { rewrite (stat_nb _ _ St5). auto. }
    cbn [mbind res_bind]. pose proof Qo as (A1 & A2 & A3 & A4 & A5 & A6 & A7 & A8).
    assert (Sh6 : shape s6).
    { apply (qonly_shape s5); auto.
      - intros x Hx. apply C1 in Hx as [Hx|Hx]; auto. apply (sh_conf _ Sh5); auto.
      - intros k Hk. apply C2 in Hk as [Hk| ->]; [apply (sh_pq _ Sh5); auto|]. rewrite (stat_nb _ _ St5). auto. }
    assert (Tr6 : t_rows (s_tab s6) = t_rows (s_tab s)).
    { rewrite A2. change (s_tab s5) with (s_tab s3). rewrite Tb3, Tb2, Tb1. auto. }
    assert (Tg6 : forall k l, tget (s_tab s6) k l = tget (s_tab s) k l) by (intros; apply tget_rows; auto).
    destruct (tpivot_spec (s_tab s6) i j p a d) as (t & -> & Wt & Lr & Lc & Ht).
    { apply Sh6. }
    { rewrite Tg6. auto. }
    { rewrite <- Eg. apply unsafe_get_rows; auto. }
    cbn [mbind res_bind]. eexists. split; [reflexivity|]. set (s' := set_stats _ _ _).
    assert (St6 : stat s6 = stat s) by congruence.
    assert (St' : stat s' = stat s) by (exact St6).
    assert (R' : forall y, ridx s' y = if y =? e then i + s_nn s else if y =? b then j else ridx s y).
    { intros y. change (ridx s' y) with (ridx s6 y). destruct (A6 y) as [_ ->]. auto. }
    assert (I' : forall y, idx s' y = if y =? j then b else if y =? i + s_nn s then e else idx s y).
    { intros y. change (idx s' y) with (idx s6 y). destruct (A6 y) as [-> _]. auto. }
    assert (B' : forall y, y < nv s -> Bs s' y = if y =? b then false else if y =? e then true else Bs s y).
    { intros y Hy. unfold Bs. change (s_nn s') with (s_nn s6). rewrite (stat_nn _ _ St6), R'. destruct (Nat.eqb_spec y b) as [->|].
      - destruct (Nat.eqb_spec b e); [congruence|]. apply Nat.leb_gt. lia.
      - destruct (Nat.eqb_spec y e); auto. apply Nat.leb_le. lia. }
    assert (Valy : forall y, y < nv s -> val s' y = if y =? b then v else if y =? e then vadd (val s e) th else
          if Bs s y then vadd (val s y) (vscale (Ts s y e) th) else val s y).
    { intros y Hy. change (val s' y) with (val s6 y). destruct (A8 y) as [-> _].
      assert (E5 : val s5 y = val s3 y) by (apply Vq). rewrite E5, Val3 by (rewrite (stat_nv _ _ St2); auto).
      rewrite Bs2, Er2, (stat_nn _ _ St2), Ei2. fold e. rewrite Ts2, Val2, !Val1.
      destruct (Nat.eqb_spec y b) as [->|Hyb].
      - destruct (Nat.eqb_spec b e); [congruence|]. rewrite Bb, Rb. replace (i + s_nn s - s_nn s) with i by lia. rewrite !Nat.eqb_refl. auto.
      - destruct (Nat.eqb_spec y e) as [->|Hye].
        + rewrite Be. cbn. destruct (Nat.eqb_spec e b); [congruence|auto].
        + destruct (Bs s y) eqn:By; auto. destruct (Nat.eqb_spec (ridx s y - s_nn s) i) as [E|]; auto. exfalso.
          destruct (basic_idx s y Sh Hy By) as [_ Ey]. rewrite E in Ey. unfold b in Hyb. congruence. }
    assert (Tt : forall k l, tget (s_tab s') k l = if k =? i then (if l =? j then 1 / tget (s_tab s) i j else - tget (s_tab s) i l / tget (s_tab s) i j)%Qc
         else (if l =? j then tget (s_tab s) k j / tget (s_tab s) i j else tget (s_tab s) k l - tget (s_tab s) k j * tget (s_tab s) i l / tget (s_tab s) i j)%Qc).
    { intros k l. change (s_tab s') with t. rewrite Ht, !Tg6. auto. }
    split; [|split; [|split; [|split; [|split; [|split; [|split]]]]]].
    - constructor.
      + apply Sh6.
      + exact Wt.
      + apply (sh_ri _ Sh6).
      + apply (sh_ir _ Sh6).
      + intros k l. rewrite Tt. change (s_nb s') with (s_nb s6). change (s_nn s') with (s_nn s6). rewrite (stat_nb _ _ St6), (stat_nn _ _ St6).
        pose proof (sh_nz _ Sh) as Hz.
        destruct (Nat.eqb_spec k i) as [->|]; destruct (Nat.eqb_spec l j) as [->|]; intros Hn.
        * auto.
        * apply Hz. intros E. apply Hn. rewrite E. unfold Qcdiv. ring.
        * apply Hz. intros E. apply Hn. rewrite E. unfold Qcdiv. ring.
        * destruct (Qc_eq_dec (tget (s_tab s) k l) 0) as [E|E]; [|apply Hz; auto].
          destruct (Qc_eq_dec (tget (s_tab s) k j) 0) as [E'|E']. { exfalso. apply Hn. rewrite E, E'. unfold Qcdiv. ring. }
          destruct (Qc_eq_dec (tget (s_tab s) i l) 0) as [E2|E2]. { exfalso. apply Hn. rewrite E, E2. unfold Qcdiv. ring. }
          split; [apply (Hz k j); auto|apply (Hz i l); auto].
      + apply (sh_conf _ Sh6).
      + apply (sh_pq _ Sh6).
      + apply (sh_at _ Sh6).
      + apply (sh_bt _ Sh6).
      + apply (sh_bv _ Sh6).
      + apply (sh_vb _ Sh6).
    - eapply vreach_trans; [exact Vr2|]. eapply vreach_trans; [exact Vr3|].
      eapply vreach_quiet; [eapply vreach_quiet; [apply vreach_refl|exact Vq]|].
      pose proof (qonly_quiet _ _ Qo) as (X1 & X2 & X3 & X4 & X5). repeat (split; auto).
    - change (s_clause s') with (s_clause s6). rewrite A5. change (s_clause s5) with (s_clause s3). congruence.
    - exact B'.
    - unfold Ts. change (s_nn s') with (s_nn s6). rewrite (stat_nn _ _ St6), Rb, Re. replace (i + s_nn s - s_nn s) with i by lia.
      assert (Rpe : ridx s' e = i + s_nn s) by (rewrite R', Nat.eqb_refl; auto).
      assert (Rpb : ridx s' b = j) by (rewrite R', Nat.eqb_refl; destruct (Nat.eqb_spec b e); [congruence|auto]).
      assert (Rpo : forall y, y <> b -> y <> e -> ridx s' y = ridx s y).
      { intros y Y1 Y2. rewrite R'. destruct (Nat.eqb_spec y e); [congruence|]. destruct (Nat.eqb_spec y b); [congruence|]. auto. }
      assert (Nj : forall y, y < nv s -> y <> e -> ridx s y <> j).
      { intros y Hy Y2 E. apply Y2. destruct (sh_ri _ Sh y Hy) as [_ <-]. unfold e. congruence. }
      assert (Ni : forall y, y < nv s -> Bs s y = true -> y <> b -> ridx s y - s_nn s <> i).
      { intros y Hy By Y2 E. apply Y2. destruct (basic_idx s y Sh Hy By) as [_ <-]. unfold b. congruence. }
      rewrite Rpe, Rpb. replace (i + s_nn s - s_nn s) with i by lia. split; [|split; [|split]].
      + rewrite Tt, !Nat.eqb_refl. auto.
      + intros k Hk Bk Hke. assert (k <> b) by congruence. rewrite Rpo by auto. rewrite Tt, Nat.eqb_refl.
        destruct (Nat.eqb_spec (ridx s k) j) as [E|]; [exfalso; apply (Nj k); auto|]. auto.
      + intros c Hc Bc Hcb. assert (c <> e) by congruence. rewrite Rpo by auto. rewrite Tt, Nat.eqb_refl.
        destruct (Nat.eqb_spec (ridx s c - s_nn s) i) as [E|]; [exfalso; apply (Ni c); auto|]. auto.
      + intros c k Hc Hk Bc Hcb Bk Hke. assert (c <> e) by congruence. assert (k <> b) by congruence. rewrite !Rpo by auto. rewrite Tt.
        destruct (Nat.eqb_spec (ridx s c - s_nn s) i) as [E|]; [exfalso; apply (Ni c); auto|].
        destruct (Nat.eqb_spec (ridx s k) j) as [E|]; [exfalso; apply (Nj k); auto|]. auto.
    - exact Valy.
    - intros x. split; intros Hx.
      + change (s_conf s') with (s_conf s6). apply C3. change (s_conf s5) with (s_conf s3). apply Cm3. rewrite Cf2, Cf1. auto.
      + change (qd s' x) with (qd s6 x). apply C4. rewrite Qd5. apply Cm3. rewrite Qd2, Qd1. auto.
    - intros [Qa Qa']. destruct Q3 as [[Q3a Q3a'] Q3b].
      { split; rewrite Cf2, Cf1; auto. intros y. rewrite Qd2, Qd1. auto. }
      destruct C5 as [[Q6a Q6a'] Q6b].
      { split; [|exact Q3a']. intros y. rewrite Qd5. apply Q3a. }
      split; [split; auto|]. intros y Hy By Hor Hc. change (s_conf s') with (s_conf s6).
      assert (Hc6 : conf_at s6 y = true) by exact Hc.
      assert (Hc5 : conf_at s5 y = true). { rewrite <- Hc6. symmetry. apply conf_at_same; [apply A7|apply A7|apply A8]. }
      assert (Hc3 : conf_at s3 y = true). { rewrite <- Hc5. symmetry. apply conf_at_same; apply Vq. }
      rewrite (stat_nn _ _ St5), I5, Nat.eqb_refl in Q6b. destruct (Nat.eqb_spec (i + s_nn s) j); [lia|].
      destruct (Nat.eq_dec y e) as [->|Hye]; [apply Q6b; auto|].
      destruct Hor as [|Hor]; [congruence|]. rewrite B' in By by auto. destruct (Nat.eqb_spec y b) as [|Hyb]; [discriminate|].
      destruct (Nat.eqb_spec y e); [congruence|].
      cut (qd s3 y = true /\ y ∈ s_conf s3); [intros [G1 G2]; split; [apply C4; rewrite Qd5; exact G1|apply C3; exact G2]|]. apply Q3b; auto.
      + rewrite (stat_nv _ _ St2). auto.
      + rewrite Bs2. auto.
      + rewrite Er2, (stat_nn _ _ St2). apply Nat.eqb_neq. intros E. apply Hyb. destruct (basic_idx s y Sh Hy By) as [_ <-]. unfold b. congruence.
      + rewrite Ts2, Ei2. auto.
  Qed.
End step.
