(** * Which rows propagate-bounds=changed examines
    Between the start of solve and the call of propagate_, a row is queued as
    soon as its basic variable or the value of that variable changes. *)
From Verif Require Import Num Sums Tableau TableauProofs Bland Solver SolverBase SolverStep Simplex SimplexLoop Hist Updates Core CoreSolve Propagate Weak WeakHist Propagator Queue.

Section track.
  Context {V : Type} `{VL : ValueLaws V} (o : options) (Hmode : o_pmode o = PropChanged).
  Implicit Types s : solver V.
  Implicit Types x y : nat.

  (** row [k] has the same basic variable with the same value *)
  Definition unmoved s s' k : Prop := idx s' (k + s_nn s) = idx s (k + s_nn s) /\ val s' (idx s (k + s_nn s)) = val s (idx s (k + s_nn s)).
  Definition Tr (X : nat -> Prop) s s' : Prop :=
    s_nn s' = s_nn s /\ (forall k, k ∈ s_pq s -> k ∈ s_pq s') /\ forall k, k + s_nn s < nv s -> X k \/ k ∈ s_pq s' \/ unmoved s s' k.
  Definition none (k : nat) : Prop := False.
  Definition inj s : Prop := forall a b, a < nv s -> b < nv s -> idx s a = idx s b -> a = b.
  Lemma shape_inj s : shape s -> inj s.
  Proof. intros Sh a b Ha Hb E. rewrite <- (proj2 (sh_ir _ Sh a Ha)), <- (proj2 (sh_ir _ Sh b Hb)), E. reflexivity. Qed.

  Lemma Tr_refl X s : Tr X s s. Proof. split; [reflexivity|]. split; [auto|]. intros k _. right. right. split; reflexivity. Qed.
  Lemma Tr_trans X s1 s2 s3 : nv s2 = nv s1 -> Tr X s1 s2 -> Tr X s2 s3 -> Tr X s1 s3.
  Proof.
    intros N (A1 & A2 & A3) (B1 & B2 & B3). split; [congruence|]. split; [auto|]. intros k Hk.
    destruct (A3 k Hk) as [E|[E|[E1 E2]]]; auto. destruct (B3 k) as [F|[F|[F1 F2]]]; auto; [rewrite N, A1; exact Hk|].
    right. right. rewrite A1 in F1, F2. split; [congruence|]. rewrite E1 in F2. congruence.
  Qed.
  Lemma Tr_weak (X : nat -> Prop) s s' : Tr none s s' -> Tr X s s'.
  Proof. intros (A & B & C). split; [exact A|]. split; [exact B|]. intros k Hk. destruct (C k Hk) as [[]|E]; auto. Qed.
  Lemma Tr_same X s s' : s_nn s' = s_nn s -> s_pq s' = s_pq s -> (forall y, idx s' y = idx s y) -> (forall y, val s' y = val s y) -> Tr X s s'.
  Proof. intros E1 E2 E3 E4. split; [exact E1|]. split; [rewrite E2; auto|]. intros k _. right. right. split; auto. Qed.
  Lemma Tr_pick i s s' : Tr (fun k => k = i) s s' -> i ∈ s_pq s' -> Tr none s s'.
  Proof. intros (A & B & C) Hi. split; [exact A|]. split; [exact B|]. intros k Hk. destruct (C k Hk) as [->|E]; auto. Qed.

  Lemma upd_idx s x f y : (forall v, v_index (f v) = v_index v) -> idx (upd_var x f s) y = idx s y.
  Proof.
    intros Hf. unfold idx, vr, upd_var. cbn. destruct (Nat.eq_dec y x) as [->|Hne]; [|rewrite list_lookup_alter_ne by auto; reflexivity].
    rewrite list_lookup_alter. destruct (s_vars s !! x); [apply Hf|reflexivity].
  Qed.
  Lemma upd_val s x f y : (forall v, v_val (f v) = v_val v) -> val (upd_var x f s) y = val s y.
  Proof.
    intros Hf. unfold val, vr, upd_var. cbn. destruct (Nat.eq_dec y x) as [->|Hne]; [|rewrite list_lookup_alter_ne by auto; reflexivity].
    rewrite list_lookup_alter. destruct (s_vars s !! x); [apply Hf|reflexivity].
  Qed.

  (** ** Single steps *)
  Lemma set_value_tr x lvl v add s s' : set_value x lvl v add s = Ok s' -> x < nv s /\
    s_nn s' = s_nn s /\ nv s' = nv s /\ s_pq s' = s_pq s /\ s_tab s' = s_tab s /\ (forall y, idx s' y = idx s y) /\ forall y, y <> x -> val s' y = val s y.
  Proof.
    intros E. assert (Hx : x < nv s). { unfold set_value in E. apply bind_ok in E as (w & Ew & _). apply (at_lt _ _ _ Ew). }
    split; [exact Hx|]. destruct (set_value_ok s x lvl v add Hx) as (s2 & E2 & Vm & T & P & A & _ & _ & Q & _). rewrite E in E2. injection E2 as <-.
    destruct Vm as (x1 & w1 & _ & _ & _ & _ & St & _). split; [apply (stat_nn _ _ St)|]. split; [apply (stat_nv _ _ St)|]. split; [exact Q|]. split; [exact T|].
    split; [intros y; apply P|]. intros y Hy. rewrite A. destruct (Nat.eqb_spec y x); congruence.
  Qed.
  Lemma enqueue_tr i s s' : PQ s -> enqueue o i s = Ok s' -> i ∈ s_pq s' /\ s_nn s' = s_nn s /\ nv s' = nv s /\ s_tab s' = s_tab s /\
    (forall k, k ∈ s_pq s -> k ∈ s_pq s') /\ (forall y, idx s' y = idx s y) /\ forall y, val s' y = val s y.
  Proof.
    intros P E. pose proof (enqueue_fr o i s s' E) as (F1 & _ & F3 & _). unfold enqueue in E. apply bind_ok in E as (ii & _ & E). apply bind_ok in E as (xi & Ex & E).
    destruct (at_lt _ _ _ Ex) as [Hii _]. set (s1 := if (negb _ && _) then _ else s) in E.
    assert (H1 : s_pq s1 = s_pq s /\ s_nn s1 = s_nn s /\ nv s1 = nv s /\ s_tab s1 = s_tab s /\ forall y, idx s1 y = idx s y /\ val s1 y = val s y /\ v_prop (vr s1 y) = v_prop (vr s y)).
    { unfold s1. destruct (negb _ && _); [|repeat split; reflexivity]. split; [reflexivity|]. split; [reflexivity|]. split; [rewrite nv_upd; reflexivity|]. split; [reflexivity|].
      intros y. unfold idx, val. change (upd_var ii (vset_queued true) (set_conf (pq_insert ii (s_conf s)) s)) with (set_conf (pq_insert ii (s_conf s)) (upd_var ii (vset_queued true) s)).
      change (vr (set_conf ?q ?s) y) with (vr s y). rewrite vr_upd by exact Hii. destruct (Nat.eqb_spec y ii) as [->|]; split_and!; reflexivity. }
    destruct H1 as (Q1 & N1 & V1 & T1 & G1). rewrite Hmode in E. apply bind_ok in E as (w & Ew & E). destruct (at_lt _ _ _ Ew) as [Hi ->].
    destruct (v_prop (vr s1 i)) eqn:Ep; injection E as <-.
    - split; [rewrite Q1; apply P; destruct (G1 i) as (_ & _ & <-); exact Ep|]. split; [exact N1|]. split; [exact V1|]. split; [exact T1|]. split; [exact F3|]. split; intros y; apply G1.
    - split; [apply elem_of_app; right; left|]. split; [exact N1|]. split; [exact F1|]. split; [exact T1|]. split; [exact F3|].
      split; intros y; unfold idx, val; change (vr (set_pq ?q ?s) y) with (vr s y); rewrite vr_upd by auto; destruct (Nat.eqb_spec y i) as [->|]; apply (G1 _).
  Qed.
  (** one step of the column loops *)
  Lemma row_step_tr k lvl v s s' : PQ s -> inj s -> (kk ← basic_ s k; s1 ← set_value kk lvl v true s; enqueue o k s1) = Ok s' ->
    Tr none s s' /\ PQ s' /\ inj s' /\ nv s' = nv s /\ s_nn s' = s_nn s /\ s_tab s' = s_tab s /\ forall y, idx s' y = idx s y.
  Proof.
    intros P I E. apply bind_ok in E as (kk & Ek & E). apply bind_ok in E as (s1 & E1 & E). unfold basic_ in Ek. apply bind_ok in Ek as (w & Ew & Ek).
    destruct (at_lt _ _ _ Ew) as [Hk ->]. injection Ek as <-. change (v_index (vr s (k + s_nn s))) with (idx s (k + s_nn s)) in *.
    pose proof (set_value_fr _ _ _ _ _ _ E1) as F1. pose proof (enqueue_fr _ _ _ _ E) as F2.
    assert (P1 : PQ s1) by (apply (Fr_Fq _ _ F1); exact P).
    destruct (set_value_tr _ _ _ _ _ _ E1) as (_ & A1 & A2 & A3 & A4 & A5 & A6). destruct (enqueue_tr _ _ _ P1 E) as (B0 & B1 & B2 & B3 & B4 & B5 & B6).
    assert (Ei : forall y, idx s' y = idx s y) by (intros y; rewrite B5; auto). assert (En : nv s' = nv s) by congruence.
    split; [|split; [apply (Fr_Fq _ _ F2); exact P1|split; [intros a b; rewrite En, !Ei; apply I|split; [exact En|split; [congruence|split; [congruence|exact Ei]]]]]].
    split; [congruence|]. split; [intros c Hc; apply B4; rewrite A3; exact Hc|]. intros c Hc. right. destruct (Nat.eq_dec c k) as [->|Hne]; [left; exact B0|right].
    split; [apply Ei|]. rewrite B6. apply A6. intros Ec. apply I in Ec; lia.
  Qed.
  Definition stepping s s' : Prop := Tr none s s' /\ PQ s' /\ inj s' /\ nv s' = nv s /\ s_nn s' = s_nn s /\ s_tab s' = s_tab s /\ forall y, idx s' y = idx s y.
  Lemma col_loop_tr n (skip : nat -> bool) (f : nat -> Z -> Z -> solver V -> res (solver V)) j is kept s kept' s' :
    (forall i a d s1 s2, nv s1 = n -> PQ s1 -> inj s1 -> f i a d s1 = Ok s2 -> if skip i then s2 = s1 else exists v lvl, (kk ← basic_ s1 i; s3 ← set_value kk lvl v true s1; enqueue o i s3) = Ok s2) ->
    nv s = n -> PQ s -> inj s -> col_loop s_tab j f is kept s = Ok (kept', s') -> stepping s s'.
  Proof.
    intros Hf. revert kept s. induction is as [|i is IH]; intros kept s En P I E; cbn [col_loop] in E.
    - injection E as _ <-. split; [apply Tr_refl|]. auto 10.
    - apply bind_ok in E as (r & _ & E). destruct (clook _ _); [|eapply IH; eauto].
      apply bind_ok in E as (s1 & E1 & E). apply Hf in E1; auto. destruct (skip i).
      + subst s1. eapply IH; eauto.
      + destruct E1 as (v & lvl & E1). destruct (row_step_tr _ _ _ _ _ P I E1) as (A1 & A2 & A3 & A4 & A5 & A6 & A7).
        destruct (IH _ s1 ltac:(congruence) A2 A3 E) as (B1 & B2 & B3 & B4 & B5 & B6 & B7).
        split; [eapply Tr_trans; eauto|]. split; [exact B2|]. split; [exact B3|]. split; [congruence|]. split; [congruence|]. split; [congruence|]. intros y. rewrite B7. auto.
  Qed.
  Lemma update_col_tr (skip : nat -> bool) (f : nat -> Z -> Z -> solver V -> res (solver V)) j s s' :
    (forall i a d s1 s2, nv s1 = nv s -> PQ s1 -> inj s1 -> f i a d s1 = Ok s2 -> if skip i then s2 = s1 else exists v lvl, (kk ← basic_ s1 i; s3 ← set_value kk lvl v true s1; enqueue o i s3) = Ok s2) ->
    PQ s -> inj s -> update_col s_tab set_tab j f s = Ok s' -> Tr none s s' /\ PQ s' /\ inj s' /\ nv s' = nv s /\ s_nn s' = s_nn s /\ forall y, idx s' y = idx s y.
  Proof.
    intros Hf P I E. unfold update_col in E. destruct (_ !! j) as [col|]; [|injection E as <-; split; [apply Tr_refl|]; auto 10].
    apply bind_ok in E as ([kept s1] & E1 & E). injection E as <-. destruct (col_loop_tr (nv s) skip f j col [] s kept s1 Hf eq_refl P I E1) as (A1 & A2 & A3 & A4 & A5 & A6 & A7).
    split; [|auto 10]. eapply Tr_trans; [exact A4|exact A1|]. apply Tr_same; reflexivity.
  Qed.

  (** ** update_ and pivot_ *)
  Lemma nonbasic_value j lvl v add s s' : inj s -> j < s_nn s -> set_value (idx s j) lvl v add s = Ok s' -> Tr none s s'.
  Proof.
    intros I Hj E. destruct (set_value_tr _ _ _ _ _ _ E) as (_ & A1 & A2 & A3 & A4 & A5 & A6). split; [exact A1|]. split; [rewrite A3; auto|].
    intros k Hk. right. right. split; [apply A5|]. apply A6. intros Ek. apply I in Ek; lia.
  Qed.
  Lemma update_tr lvl j v s s' : PQ s -> inj s -> j < s_nn s -> update_ o lvl j v s = Ok s' -> Tr none s s'.
  Proof.
    intros P I Hj E. unfold update_ in E. apply bind_ok in E as (jj & Ej & E). apply bind_ok in E as (s1 & E1 & E).
    unfold non_basic_ in Ej. apply bind_ok in Ej as (w & Ew & Ej). destruct (at_lt _ _ _ Ew) as [_ ->]. injection Ej as <-. change (v_index (vr s j)) with (idx s j) in *.
    apply (update_col_tr (fun _ => false)) in E1; [|intros i a d s3 s4 _ _ _ F; cbn beta in F; apply bind_ok in F as (xj & _ & F); eauto|exact P|exact I]. destruct E1 as (A1 & A2 & A3 & A4 & A5 & A6).
    eapply Tr_trans; [exact A4|exact A1|]. rewrite <- A6 in E. eapply nonbasic_value; [exact A3| |exact E]. lia.
  Qed.
  Lemma pivot_tr lvl i j v s s' : PQ s -> inj s -> j < s_nn s -> pivot_ o lvl i j v s = Ok s' -> Tr none s s'.
  Proof.
    intros P I Hj E. unfold pivot_ in E. apply bind_ok in E as ([[p a] d] & _ & E). apply bind_ok in E as (ii & Ei & E). apply bind_ok in E as (jj & Ej & E).
    apply bind_ok in E as (xi & _ & E). apply bind_ok in E as (xj & _ & E). apply bind_ok in E as (s1 & E1 & E). apply bind_ok in E as (s2 & E2 & E). apply bind_ok in E as (s3 & E3 & E).
    apply bind_ok in E as (xi3 & Exi & E). apply bind_ok in E as (xj3 & Exj & E).
    unfold basic_ in Ei. apply bind_ok in Ei as (w & Ew & Ei). destruct (at_lt _ _ _ Ew) as [Hi ->]. injection Ei as <-. change (v_index (vr s (i + s_nn s))) with (idx s (i + s_nn s)) in *.
    unfold non_basic_ in Ej. apply bind_ok in Ej as (w & Ew' & Ej). destruct (at_lt _ _ _ Ew') as [Hjn ->]. injection Ej as <-. change (v_index (vr s j)) with (idx s j) in *.
    pose proof (Fr_Fq _ _ (set_value_fr _ _ _ _ _ _ E1)) as [_ P1]. pose proof (Fr_Fq _ _ (set_value_fr _ _ _ _ _ _ E2)) as [_ P2].
    destruct (set_value_tr _ _ _ _ _ _ E1) as (_ & A1 & A2 & A3 & A4 & A5 & A6).
    assert (T1 : Tr (fun k => k = i) s s1).
    { split; [exact A1|]. split; [rewrite A3; auto|]. intros k Hk. destruct (Nat.eq_dec k i) as [->|Hne]; [left; reflexivity|]. right. right. split; [apply A5|]. apply A6. intros Ek. apply I in Ek; lia. }
    assert (I1 : inj s1) by (intros x y; rewrite A2, !A5; apply I).
    rewrite <- A5 in E2. assert (Hj1 : j < s_nn s1) by lia. pose proof (nonbasic_value _ _ _ _ _ _ I1 Hj1 E2) as T2. destruct (set_value_tr _ _ _ _ _ _ E2) as (_ & B1 & B2 & B3 & B4 & B5 & B6).
    assert (I2 : inj s2) by (intros x y; rewrite B2, !B5; apply I1).
    apply (update_col_tr (fun k => k =? i)) in E3; [|intros k a0 d0 s4 s5 _ _ _ F; cbn beta in F; destruct (k =? i); [congruence|eauto]|exact (P2 (P1 P))|exact I2]. destruct E3 as (T3 & P3 & I3 & C1 & C2 & C3).
    set (s4 := upd_var (idx s j) (vset_rindex (v_rindex xi3)) (upd_var (idx s (i + s_nn s)) (vset_rindex (v_rindex xj3)) s3)) in *. cbv zeta in E.
    apply bind_ok in E as (ri & Eri & E). apply bind_ok in E as (rj & Erj & E). apply bind_ok in E as (s6 & E6 & E). apply bind_ok in E as (t & _ & E). injection E as <-.
    destruct (at_lt _ _ _ Exi) as [Hx1 _]. destruct (at_lt _ _ _ Exj) as [Hx2 _]. destruct (at_lt _ _ _ Eri) as [Hr1 ->]. destruct (at_lt _ _ _ Erj) as [Hr2 ->].
    assert (N4 : nv s4 = nv s3) by (unfold s4; rewrite !nv_upd; reflexivity).
    assert (G4 : forall y, idx s4 y = idx s3 y /\ val s4 y = val s3 y).
    { intros y. unfold s4. split; [rewrite !upd_idx by reflexivity|rewrite !upd_val by reflexivity]; reflexivity. }
    set (s5 := upd_var j (vset_index (v_index (vr s4 (i + s_nn s4)))) (upd_var (i + s_nn s4) (vset_index (v_index (vr s4 j))) s4)) in *.
    assert (Nn4 : s_nn s4 = s_nn s) by (change (s_nn s4) with (s_nn s3); congruence). rewrite Nn4 in *.
    assert (G5 : forall y, y <> j -> y <> i + s_nn s -> idx s5 y = idx s4 y).
    { intros y H1 H2. unfold s5, idx. rewrite Nn4. rewrite vr_upd by (rewrite nv_upd; exact Hr2). destruct (Nat.eqb_spec y j); [congruence|]. rewrite vr_upd by exact Hr1. destruct (Nat.eqb_spec y (i + s_nn s)); [congruence|]. reflexivity. }
    assert (V5 : forall y, val s5 y = val s4 y).
    { intros y. unfold s5. rewrite !upd_val by reflexivity. reflexivity. }
    assert (T35 : Tr (fun k => k = i) s3 s5).
    { split; [change (s_nn s5) with (s_nn s3); reflexivity|]. split; [auto|]. intros k Hk. destruct (Nat.eq_dec k i) as [->|Hne]; [left; reflexivity|]. right. right.
      split; [|rewrite V5; apply G4]. rewrite G5 by (change (s_nn s4) with (s_nn s3) in Nn4; lia). apply G4. }
    assert (F35 : PQ s5). { assert (F : Fr s3 s5). { unfold s5, s4. repeat (eapply Fr_trans; [|apply Fr_upd; [reflexivity|intros ?; exact id]]). apply Fr_refl. } apply (Fr_Fq _ _ F). exact P3. }
    destruct (enqueue_tr _ _ _ F35 E6) as (D0 & D1 & D2 & D3 & D4 & D5 & D6).
    assert (T : Tr (fun k => k = i) s s6).
    { eapply Tr_trans; [exact A2|exact T1|]. eapply Tr_trans; [exact B2|apply Tr_weak, T2|]. eapply Tr_trans; [exact C1|apply Tr_weak, T3|].
      eapply Tr_trans; [|exact T35|]; [unfold s5, s4; rewrite !nv_upd; reflexivity|]. split; [exact D1|]. split; [exact D4|]. intros k _. right. right. split; auto. }
    apply (Tr_pick i) in T; [|exact D0]. eapply Tr_trans; [|exact T|apply Tr_same; reflexivity].
    rewrite D2. unfold s5, s4. rewrite !nv_upd. congruence.
  Qed.

  (** ** solve *)
  Lemma val_trans X s s' : nv s' = nv s -> stat s' = stat s -> s_pq s' = s_pq s -> perm_same s s' -> val_same s s' -> Tr X s s'.
  Proof. intros _ St Q P A. apply Tr_same; [apply (stat_nn _ _ St)|exact Q|intros y; apply P|intros y; apply A]. Qed.
  Lemma simplex_tr fuel lvl s s' ok : K s -> PQ s -> simplex_loop fuel o lvl s = Ok (s', ok) -> Tr none s s'.
  Proof.
    revert s. induction fuel as [|fuel IH]; intros s HK P E; cbn [simplex_loop] in E; [discriminate|].
    destruct (wselect s HK) as (r & s1 & E1 & So & HK1 & _ & Hr). rewrite E1 in E. cbn [mbind res_bind] in E.
    pose proof So as (A1 & A2 & A3 & A4 & A5 & A6 & A7 & A8). pose proof (stat_nv _ _ A1) as N1.
    assert (T1 : Tr none s s1) by (apply val_trans; auto).
    assert (P1 : PQ s1) by (apply (Fr_Fq _ _ (select_loop_fr _ _ _ _ E1)); exact P).
    destruct r as [| |i j v]; try (injection E as <- _; exact T1). destruct Hr as [(m & Hm) _].
    apply bind_ok in E as (s2 & E2 & E). pose proof (wc_nz _ _ _ _ _ _ Hm) as Hnz. pose proof (wc_j _ _ _ _ _ _ Hm) as Hj.
    destruct (wpivot o lvl s1 i j v HK1) as (s2' & E2' & HK2 & Vr2 & _); [rewrite A2; exact Hnz|]. rewrite E2 in E2'. injection E2' as <-.
    destruct (vreach_facts _ _ _ Vr2) as (_ & St2 & _).
    assert (T2 : Tr none s1 s2) by (eapply pivot_tr; [exact P1|apply shape_inj, HK1| |exact E2]; rewrite (stat_nn _ _ A1); exact Hj).
    assert (P2 : PQ s2) by (apply (Fr_Fq _ _ (pivot_fr _ _ _ _ _ _ _ E2)); exact P1).
    eapply Tr_trans; [exact N1|exact T1|]. eapply Tr_trans; [apply (stat_nv _ _ St2)|exact T2|]. apply (IH s2); auto.
  Qed.
  Lemma update_bound_tr (a : asg) b s s' ok : shape s -> b_var b < nv s -> PQ s -> update_bound o a b s = Ok (s', ok) -> Tr none s s'.
  Proof.
    intros Sh Hb P E. unfold update_bound in E. pose proof (var_w a b s Sh Hb) as Hv. apply bind_ok in E as ([s1 ok1] & E1 & E). rewrite E1 in Hv. cbn [okub fst snd] in Hv.
    destruct Hv as (Bo & Sh1 & _). pose proof Bo as (A1 & A2 & A3 & A4 & A5 & A6 & A7 & A8 & A9 & A10). pose proof (stat_nv _ _ A1) as N1.
    assert (P1 : PQ s1) by (apply (Fr_Fq _ _ (update_var_fr _ _ _ _ _ _ E1)); exact P).
    eapply Tr_trans; [exact N1|apply val_trans; auto|]. apply bind_ok in E as (x & Ex & E). destruct (at_lt _ _ _ Ex) as [_ ->].
    destruct (negb ok1). { apply bind_ok in E as (u & _ & E). apply bind_ok in E as (l & _ & E). injection E as <- _. apply Tr_same; reflexivity. }
    destruct (Nat.ltb_spec (v_rindex (vr s1 (b_var b))) (s_nn s1)) as [Hj|Hj].
    - destruct (viol_lower _); [|destruct (viol_upper _); [|injection E as <- _; apply Tr_refl]].
      all: apply bind_ok in E as (l & _ & E); apply bind_ok in E as (s2 & E2 & E); injection E as <- _; eapply update_tr; [exact P1|apply shape_inj, Sh1|exact Hj|exact E2].
    - apply bind_ok in E as (s2 & E2 & E). injection E as <- _. destruct (enqueue_tr _ _ _ P1 E2) as (D0 & D1 & D2 & D3 & D4 & D5 & D6).
      split; [exact D1|]. split; [exact D4|]. intros k _. right. right. split; auto.
  Qed.
  Lemma apply_bounds_tr s0 ks (a : asg) bs s s' ok : W s0 ks s -> a_dl a = topl ks -> (forall b, b ∈ bs -> b_var b < nv s) -> PQ s ->
    apply_bounds o a bs s = Ok (s', ok) -> Tr none s s'.
  Proof.
    intros HW Hdl. revert s HW. induction bs as [|b bs IH]; intros s HW Hb P E; cbn [apply_bounds] in E; [injection E as <- _; apply Tr_refl|].
    apply bind_ok in E as ([s1 ok1] & E1 & E). pose proof (update_bound_w s0 ks o a b s HW Hdl ltac:(apply Hb; left)) as Hu. rewrite E1 in Hu. cbn [okub fst] in Hu. destruct Hu as [HW1 P1].
    assert (N1 : nv s1 = nv s) by (unfold pstat in P1; congruence).
    assert (T1 : Tr none s s1) by (eapply update_bound_tr; [apply (k_shape _ (wk_K _ _ _ HW))| |exact P|exact E1]; apply Hb; left).
    destruct ok1; [|injection E as <- _; exact T1]. eapply Tr_trans; [exact N1|exact T1|]. apply (IH s1); auto.
    - intros c Hc. rewrite N1. apply Hb; right; exact Hc.
    - apply (Fr_Fq _ _ (update_bound_fr _ _ _ _ _ _ E1)). exact P.
  Qed.
  Lemma reset_levels_tr t s s' : reset_levels t s = Ok s' -> s_nn s' = s_nn s /\ s_pq s' = s_pq s /\ (forall y, idx s' y = idx s y) /\ (forall y, val s' y = val s y).
  Proof.
    revert s. induction t as [|[[l x] v] t IH]; intros s; cbn [reset_levels]; [intros [= <-]; auto|].
    intros E. apply bind_ok in E as (w & Ew & E). destruct (at_lt _ _ _ Ew) as [Hx _]. destruct (IH _ E) as (A1 & A2 & A3 & A4).
    split; [exact A1|]. split; [exact A2|]. split; intros y.
    - rewrite A3. unfold idx. rewrite vr_upd by exact Hx. destruct (Nat.eqb_spec y x); subst; reflexivity.
    - rewrite A4. unfold val. rewrite vr_upd by exact Hx. destruct (Nat.eqb_spec y x); subst; reflexivity.
  Qed.
  Theorem solve_core_tr s0 ks fuel (a : asg) lits s s' ok : W s0 ks s -> topl ks <= a_dl a -> PQ s ->
    solve_core fuel o a lits s = Ok (s', ok) -> Tr none s s'.
  Proof.
    intros HW Ht P E. pose proof (W_push s0 ks s a HW Ht) as HW1. pose proof (kenter_top (a_dl a) ks Ht) as Hdl. unfold solve_core in E. set (s1 := push_offset a s) in *. set (ks1 := kenter (a_dl a) ks) in *.
    assert (V1 : s_vars s1 = s_vars s /\ s_nn s1 = s_nn s /\ s_pq s1 = s_pq s) by (unfold s1, push_offset; destruct (match last (s_offs s) with None => true | Some f => o_level f <? a_dl a end); auto).
    destruct V1 as (V1 & V2 & V3). assert (N1 : nv s1 = nv s) by (unfold nv; rewrite V1; reflexivity).
    assert (T1 : Tr none s s1) by (apply Tr_same; auto; intros y; unfold idx, val, vr; rewrite V1; reflexivity).
    eapply Tr_trans; [exact N1|exact T1|]. assert (P1 : PQ s1) by (intros i; unfold vr; rewrite V1, V3; exact (P i)).
    apply bind_ok in E as ([s2 ok2] & E2 & E). unfold apply_lits in E2.
    assert (Hbv : forall b, b ∈ List.concat (map (find_bounds s1) lits) -> b_var b < nv s1).
    { intros b Hb. apply concat_find_elem in Hb as [Hb _]. apply (sh_bv _ (k_shape _ (wk_K _ _ _ HW1))); auto. }
    pose proof (apply_bounds_w s0 ks1 o a _ s1 HW1 ltac:(symmetry; exact Hdl) Hbv) as Hw. rewrite E2 in Hw. cbn [okub fst] in Hw. destruct Hw as [HW2 Ps2].
    pose proof (apply_bounds_tr s0 ks1 a _ s1 s2 ok2 HW1 ltac:(symmetry; exact Hdl) Hbv P1 E2) as T2.
    assert (P2 : PQ s2) by (apply (Fr_Fq _ _ (apply_bounds_fr _ _ _ _ _ _ E2)); exact P1).
    assert (N2 : nv s2 = nv s1) by (unfold pstat in Ps2; congruence).
    eapply Tr_trans; [exact N2|exact T2|]. destruct (negb ok2); [injection E as <- _; apply Tr_refl|].
    apply bind_ok in E as ([s3 ok3] & E3 & E). pose proof (simplex_tr _ _ _ _ _ (wk_K _ _ _ HW2) P2 E3) as T3. destruct (simplex_loop_fr _ _ _ _ _ _ E3) as (N3 & _).
    eapply Tr_trans; [exact N3|exact T3|]. destruct ok3; [|injection E as <- _; apply Tr_refl].
    destruct (o_store o); try (injection E as <- _; apply Tr_refl). apply bind_ok in E as (s4 & E4 & E). injection E as <- _.
    unfold store_sat in E4. apply bind_ok in E4 as (s5 & E5 & E4). injection E4 as <-. destruct (reset_levels_tr _ _ _ E5) as (B1 & B2 & B3 & B4).
    apply Tr_same; auto.
  Qed.
End track.
