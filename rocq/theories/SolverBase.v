(** * Effects of the solver primitives (proofs about Solver.v) *)

From stdpp Require Import list_numbers.
From Verif Require Import Num Sums Tableau TableauProofs Bland Solver.

Lemma mfold_inv {S} (f : nat -> Z -> Z -> S -> res S) l s (P : list (nat * Z * Z) -> S -> Prop) :
  P [] s ->
  (forall don i v d rest s1, l = don ++ (i, v, d) :: rest -> P don s1 -> exists s2, f i v d s1 = Ok s2 /\ P (don ++ [(i, v, d)]) s2) ->
  exists s', mfold f l s = Ok s' /\ P l s'.
Proof.
  intros H0 Hs.
  assert (G : forall rest don s1, l = don ++ rest -> P don s1 -> exists s', mfold f rest s1 = Ok s' /\ P l s').
  { induction rest as [|[[i v] d] rest IH]; intros don s1 E Hp.
    - rewrite app_nil_r in E. subst. exists s1. auto.
    - cbn. destruct (Hs don i v d rest s1 E Hp) as (s2 & -> & Hp2). cbn.
      apply (IH (don ++ [(i, v, d)])); auto. rewrite <- app_assoc. auto. }
  apply (G l [] s); auto.
Qed.

Section base.
  Context {V : Type} `{VL : ValueLaws V}.
  Implicit Types s : solver V.
  Implicit Types x y : nat.

  (** ** Views *)
  Definition vr s x : var V := default (new_var x) (s_vars s !! x).
  Definition nv s : nat := length (s_vars s).
  Definition val s x : V := v_val (vr s x).
  Definition lvl s x : nat := v_level (vr s x).
  Definition lo s x : option (bound V) := v_lower (vr s x).
  Definition up s x : option (bound V) := v_upper (vr s x).
  Definition idx s x : nat := v_index (vr s x).
  Definition ridx s x : nat := v_rindex (vr s x).
  Definition qd s x : bool := v_queued (vr s x).
  Definition lov s x : option V := b_val <$> lo s x.
  Definition upv s x : option V := b_val <$> up s x.
  (** is [x] basic; coefficient of [k] in the row of [b] *)
  Definition Bs s x : bool := s_nn s <=? ridx s x.
  Definition Ts s b k : Qc := tget (s_tab s) (ridx s b - s_nn s) (ridx s k).

  Lemma at_vr s x : x < nv s -> at_ (s_vars s) x = Ok (vr s x).
  Proof. intros Hx. apply at_ok. unfold vr. destruct (s_vars s !! x) eqn:E; auto. apply lookup_ge_None in E. unfold nv in Hx. lia. Qed.

  Lemma vr_upd s x f y : x < nv s -> vr (upd_var x f s) y = if y =? x then f (vr s x) else vr s y.
  Proof.
    intros Hx. unfold vr, upd_var. cbn. destruct (Nat.eqb_spec y x) as [->|Hne].
    - rewrite list_lookup_alter. destruct (s_vars s !! x) eqn:E; auto. apply lookup_ge_None in E. unfold nv in Hx. lia.
    - rewrite list_lookup_alter_ne by auto. auto.
  Qed.
  Lemma nv_upd s x f : nv (upd_var x f s) = nv s.
  Proof. unfold nv, upd_var. cbn. apply alter_length. Qed.

  (** parts of the state no arithmetic operation changes *)
  Definition stat s := (s_nn s, s_nb s, s_bounds s, s_obj s, s_offs s, nv s).
  Lemma stat_nn s s' : stat s' = stat s -> s_nn s' = s_nn s. Proof. unfold stat. congruence. Qed.
  Lemma stat_nb s s' : stat s' = stat s -> s_nb s' = s_nb s. Proof. unfold stat. congruence. Qed.
  Lemma stat_bounds s s' : stat s' = stat s -> s_bounds s' = s_bounds s. Proof. unfold stat. congruence. Qed.
  Lemma stat_obj s s' : stat s' = stat s -> s_obj s' = s_obj s. Proof. unfold stat. congruence. Qed.
  Lemma stat_offs s s' : stat s' = stat s -> s_offs s' = s_offs s. Proof. unfold stat. congruence. Qed.
  Lemma stat_nv s s' : stat s' = stat s -> nv s' = nv s. Proof. unfold stat. congruence. Qed.
  Lemma stat_upd s x f : stat (upd_var x f s) = stat s.
  Proof. unfold stat. rewrite nv_upd. auto. Qed.

  (** ** Shape *)
  Record shape s : Prop := {
    sh_len : nv s = s_nn s + s_nb s;
    sh_tab : tab_wf (s_tab s);
    sh_ri : forall x, x < nv s -> ridx s x < nv s /\ idx s (ridx s x) = x;
    sh_ir : forall r, r < nv s -> idx s r < nv s /\ ridx s (idx s r) = r;
    sh_nz : forall i j, tget (s_tab s) i j <> 0%Qc -> i < s_nb s /\ j < s_nn s;
    sh_conf : forall x, x ∈ s_conf s -> x < nv s;
    sh_pq : forall i, i ∈ s_pq s -> i < s_nb s;
    sh_at : forall e, e ∈ s_atrail s -> e.1.2 < nv s;
    sh_bt : forall e, e ∈ s_btrail s -> e.1.1 < nv s;
    sh_bv : forall b, b ∈ s_bounds s -> b_var b < nv s;
    sh_vb : forall x b, b ∈ v_bounds (vr s x) -> b ∈ s_bounds s /\ b_var b = x;
  }.

  (** the permutation and the tableau as seen through variables *)
  Definition perm_same s s' : Prop := forall y, idx s' y = idx s y /\ ridx s' y = ridx s y.
  Definition bnd_same s s' : Prop := forall y, lo s' y = lo s y /\ up s' y = up s y /\ v_bounds (vr s' y) = v_bounds (vr s y).
  Definition val_same s s' : Prop := forall y, val s' y = val s y /\ lvl s' y = lvl s y.

  Lemma Bs_same s s' x : stat s' = stat s -> perm_same s s' -> Bs s' x = Bs s x.
  Proof. intros Hst Hp. unfold Bs. rewrite (stat_nn s s' Hst). destruct (Hp x) as [_ ->]. auto. Qed.
  Lemma Ts_same s s' b k : stat s' = stat s -> perm_same s s' -> t_rows (s_tab s') = t_rows (s_tab s) -> Ts s' b k = Ts s b k.
  Proof.
    intros Hst Hp Ht. unfold Ts. rewrite (stat_nn s s' Hst). destruct (Hp b) as [_ ->], (Hp k) as [_ ->]. apply tget_rows; auto.
  Qed.

  (** row satisfaction: the assignment [a] fulfils all rows *)
  Definition rows s (a : nat -> V) : Prop :=
    forall b, b < nv s -> Bs s b = true -> a b = rowval (nv s) (Bs s) (Ts s) a b.

  Lemma rows_same s s' a : stat s' = stat s -> perm_same s s' -> t_rows (s_tab s') = t_rows (s_tab s) -> rows s' a <-> rows s a.
  Proof.
    intros Hst Hp Ht. unfold rows, rowval. rewrite (stat_nv _ _ Hst).
    assert (E : forall b, vsum (nv s) (fun k => if Bs s' k then vzero else vscale (Ts s' b k) (a k))
                   = vsum (nv s) (fun k => if Bs s k then vzero else vscale (Ts s b k) (a k))).
    { intros b. apply vsum_ext. intros k _. rewrite (Bs_same s s'), (Ts_same s s'); auto. }
    split; intros Hr b Hb HB.
    - rewrite <- E. apply Hr; auto. rewrite (Bs_same s s'); auto.
    - rewrite E. apply Hr; auto. rewrite <- (Bs_same s s'); auto.
  Qed.
  Lemma rows_ext s a a' : (forall x, x < nv s -> a x = a' x) -> rows s a -> rows s a'.
  Proof.
    intros E Hr b Hb HB. rewrite <- E by auto. rewrite (Hr b Hb HB). apply vsum_ext. intros k Hk. rewrite E; auto.
  Qed.

  (** ** The value trail *)
  (** one call of set_value, seen from the parts the trail is about *)
  Definition vmove (L : nat) s s' : Prop :=
    exists x v, x < nv s /\
      (forall y, (lvl s' y, val s' y) = if y =? x then (L, v) else (lvl s y, val s y)) /\
      s_atrail s' = s_atrail s ++ (if L =? lvl s x then [] else [(lvl s x, x, val s x)]) /\
      s_btrail s' = s_btrail s /\ stat s' = stat s /\ bnd_same s s'.
  Definition vquiet s s' : Prop :=
    s_atrail s' = s_atrail s /\ s_btrail s' = s_btrail s /\ stat s' = stat s /\ bnd_same s s' /\ val_same s s'.
  Inductive vreach (L : nat) : solver V -> solver V -> Prop :=
  | vreach_refl s : vreach L s s
  | vreach_move s1 s2 s3 : vreach L s1 s2 -> vmove L s2 s3 -> vreach L s1 s3
  | vreach_quiet s1 s2 s3 : vreach L s1 s2 -> vquiet s2 s3 -> vreach L s1 s3.

  Lemma vreach_trans L s1 s2 s3 : vreach L s1 s2 -> vreach L s2 s3 -> vreach L s1 s3.
  Proof.
    intros A B. induction B as [|a b c _ IH M|a b c _ IH M]; auto.
    - eapply vreach_move; [apply IH; exact A|exact M].
    - eapply vreach_quiet; [apply IH; exact A|exact M].
  Qed.

  Lemma vreach_facts L s s' : vreach L s s' -> s_btrail s' = s_btrail s /\ stat s' = stat s /\ bnd_same s s'.
  Proof.
    induction 1 as [|s1 s2 s3 _ (A & B & C) (x & v & _ & _ & _ & A' & B' & C')|s1 s2 s3 _ (A & B & C) (_ & A' & B' & C' & _)].
    - split; [|split]; auto. intros y; auto.
    - split; [congruence|]. split; [congruence|]. intros y. destruct (C y) as (? & ? & ?), (C' y) as (? & ? & ?). split; [|split]; congruence.
    - split; [congruence|]. split; [congruence|]. intros y. destruct (C y) as (? & ? & ?), (C' y) as (? & ? & ?). split; [|split]; congruence.
  Qed.

  (** ** set_value *)
  Lemma set_value_ok s x L v add : x < nv s ->
    exists s', set_value x L v add s = Ok s' /\ vmove L s s' /\
      s_tab s' = s_tab s /\ perm_same s s' /\
      (forall y, val s' y = if y =? x then (if add then vadd (val s x) v else v) else val s y) /\
      (forall y, qd s' y = qd s y) /\ s_conf s' = s_conf s /\ s_pq s' = s_pq s /\ s_clause s' = s_clause s.
  Proof.
    intros Hx. unfold set_value. rewrite at_vr by auto. cbn [mbind res_bind]. eexists. split; [reflexivity|].
    set (s1 := if negb (L =? v_level (vr s x)) then _ else s).
    assert (Hn : nv s1 = nv s) by (unfold s1; destruct (negb _); auto).
    assert (Hv : forall y, vr s1 y = vr s y) by (intros y; unfold s1; destruct (negb _); auto).
    assert (Hst : stat s1 = stat s) by (unfold s1; destruct (negb _); auto).
    split; [|split; [|split; [|split; [|split]]]].
    - exists x, (if add then vadd (v_val (vr s x)) v else v). split; auto. split; [|split; [|split; [|split]]].
      + intros y. unfold lvl, val. rewrite vr_upd, !Hv by lia. destruct (y =? x); auto.
      + cbn. unfold s1, lvl, val. destruct (L =? v_level (vr s x)); cbn; auto. rewrite app_nil_r. auto.
      + cbn. unfold s1. destruct (negb _); auto.
      + rewrite stat_upd. auto.
      + intros y. unfold lo, up. rewrite vr_upd, !Hv by lia. destruct (Nat.eqb_spec y x) as [->|]; auto.
    - cbn. unfold s1. destruct (negb _); auto.
    - intros y. unfold idx, ridx. rewrite vr_upd, !Hv by lia. destruct (Nat.eqb_spec y x) as [->|]; auto.
    - intros y. unfold val. rewrite vr_upd, !Hv by lia. destruct (Nat.eqb_spec y x) as [->|]; auto.
    - intros y. unfold qd. rewrite vr_upd, !Hv by lia. destruct (Nat.eqb_spec y x) as [->|]; auto.
    - cbn. unfold s1. destruct (negb _); auto.
  Qed.

  (** ** enqueue *)
  Definition Qinv s : Prop := (forall x, qd s x = true -> x ∈ s_conf s) /\ StronglySorted le (s_conf s).

  Lemma pq_insert_elem x q y : y ∈ pq_insert x q <-> y = x \/ y ∈ q.
  Proof.
    induction q as [|z q IH]; cbn.
    - rewrite elem_of_list_singleton, elem_of_nil. tauto.
    - destruct (x <=? z); rewrite !elem_of_cons; [tauto|]. rewrite IH. tauto.
  Qed.
  Lemma pq_insert_sorted x q : StronglySorted le q -> StronglySorted le (pq_insert x q).
  Proof.
    induction 1 as [|z q Hs IH Hf]; cbn; [repeat constructor|].
    destruct (Nat.leb_spec x z).
    - constructor; [constructor; auto|]. apply List.Forall_forall. intros w [<-|Hw]; auto.
      rewrite List.Forall_forall in Hf. apply Hf in Hw. lia.
    - constructor; auto. apply List.Forall_forall. intros w Hw. apply elem_of_list_In, pq_insert_elem in Hw as [->|Hw]; [lia|].
      rewrite List.Forall_forall in Hf. apply Hf, elem_of_list_In; auto.
  Qed.

  Lemma has_conflict_same (v w : var V) : v_lower v = v_lower w -> v_upper v = v_upper w -> v_val v = v_val w -> has_conflict v = has_conflict w.
  Proof. unfold has_conflict, viol_lower, viol_upper. intros -> -> ->. auto. Qed.

  (** everything but the queues is unchanged *)
  Definition qonly s s' : Prop :=
    stat s' = stat s /\ s_tab s' = s_tab s /\ s_atrail s' = s_atrail s /\ s_btrail s' = s_btrail s /\ s_clause s' = s_clause s /\
    perm_same s s' /\ bnd_same s s' /\ val_same s s'.
  Lemma qonly_refl s : qonly s s.
  Proof. repeat split. Qed.
  Lemma qonly_trans s1 s2 s3 : qonly s1 s2 -> qonly s2 s3 -> qonly s1 s3.
  Proof.
    intros (A1 & A2 & A3 & A4 & A5 & A6 & A7 & A8) (B1 & B2 & B3 & B4 & B5 & B6 & B7 & B8).
    repeat (split; [congruence|]). split; [|split].
    - intros y. destruct (A6 y), (B6 y). split; congruence.
    - intros y. destruct (A7 y) as (?&?&?), (B7 y) as (?&?&?). split; [|split]; congruence.
    - intros y. destruct (A8 y), (B8 y). split; congruence.
  Qed.
  Lemma qonly_quiet s s' : qonly s s' -> vquiet s s'.
  Proof. intros (A1 & A2 & A3 & A4 & A5 & A6 & A7 & A8). repeat (split; auto). Qed.

  (** conflict seen through the views *)
  Definition conf_at s x : bool := has_conflict (vr s x).
  Lemma conf_at_same s s' x : lo s' x = lo s x -> up s' x = up s x -> val s' x = val s x -> conf_at s' x = conf_at s x.
  Proof. apply has_conflict_same. Qed.

  Lemma enqueue_ok o i s : shape s -> i < s_nb s ->
    exists s', enqueue o i s = Ok s' /\ qonly s s' /\
      (forall x, x ∈ s_conf s' -> x ∈ s_conf s \/ x < nv s) /\ (forall k, k ∈ s_pq s' -> k ∈ s_pq s \/ k = i) /\
      (forall x, x ∈ s_conf s -> x ∈ s_conf s') /\ (forall x, qd s x = true -> qd s' x = true) /\
      (Qinv s -> Qinv s' /\ (conf_at s (idx s (i + s_nn s)) = true -> qd s' (idx s (i + s_nn s)) = true /\ idx s (i + s_nn s) ∈ s_conf s')).
  Proof.
    intros Sh Hi. unfold enqueue, basic_. pose proof (sh_len _ Sh) as Hl.
    rewrite at_vr by lia. cbn [mbind res_bind]. set (ii := v_index (vr s (i + s_nn s))).
    assert (Hii : ii < nv s) by (apply (sh_ir _ Sh (i + s_nn s)); lia).
    rewrite at_vr by auto. cbn [mbind res_bind].
    set (s1 := if negb (v_queued (vr s ii)) && has_conflict (vr s ii) then _ else s).
    assert (Q1 : qonly s s1 /\ nv s1 = nv s /\ s_pq s1 = s_pq s).
    { unfold s1. destruct (negb _ && _); [|split; [apply qonly_refl|auto]]. split; [|split; [rewrite nv_upd; reflexivity|reflexivity]].
      split; [rewrite stat_upd; reflexivity|]. repeat (split; [reflexivity|]).
      assert (G : forall y, exists q, vr (upd_var ii (vset_queued true) (set_conf (pq_insert ii (s_conf s)) s)) y = vset_queued q (vr s y)).
      { intros y. rewrite vr_upd by exact Hii. destruct (Nat.eqb_spec y ii) as [->|]; [exists true; auto|]. exists (v_queued (vr s y)).
        change (vr (set_conf (pq_insert ii (s_conf s)) s) y) with (vr s y). destruct (vr s y); auto. }
      split; [|split]; intros y; unfold idx, ridx, lo, up, val, lvl; destruct (G y) as (q & ->); repeat split. }
    destruct Q1 as (Q1 & Hn1 & Hpq1).
    assert (C1 : forall x, x ∈ s_conf s1 -> x ∈ s_conf s \/ x < nv s).
    { intros x. unfold s1. destruct (negb _ && _); auto. cbn. rewrite pq_insert_elem. intros [->|]; auto. }
    assert (C2 : forall x, x ∈ s_conf s -> x ∈ s_conf s1).
    { intros x. unfold s1. destruct (negb _ && _); auto. cbn. rewrite pq_insert_elem. auto. }
    assert (C4 : forall x, qd s x = true -> qd s1 x = true).
    { intros x. unfold s1. destruct (negb _ && _); auto. unfold qd. rewrite vr_upd by exact Hii. destruct (Nat.eqb_spec x ii) as [->|]; auto. }
    assert (C3 : Qinv s -> Qinv s1 /\ (conf_at s ii = true -> qd s1 ii = true /\ ii ∈ s_conf s1)).
    { intros [Qa Qb]. unfold s1, conf_at. destruct (negb (v_queued (vr s ii)) && has_conflict (vr s ii)) eqn:E.
      - cbn. split.
        + split.
          * intros x. unfold qd. rewrite vr_upd by exact Hii. cbn [s_conf upd_var set_vars set_conf]. rewrite pq_insert_elem. destruct (Nat.eqb_spec x ii); [auto|].
            intros Hq. right. apply Qa. exact Hq.
          * cbn. apply pq_insert_sorted; auto.
        + intros _. split; [unfold qd; rewrite vr_upd by exact Hii; rewrite Nat.eqb_refl; auto|apply pq_insert_elem; auto].
      - split; [split; auto|]. intros Hc. rewrite Hc, andb_true_r in E. apply negb_false_iff in E. split; [exact E|apply Qa; exact E]. }
    assert (G2 : forall s2, qonly s1 s2 -> s_conf s2 = s_conf s1 -> (forall x, qd s2 x = qd s1 x) -> (forall k, k ∈ s_pq s2 -> k ∈ s_pq s1 \/ k = i) ->
      exists s', Ok s2 = Ok s' /\ qonly s s' /\
        (forall x, x ∈ s_conf s' -> x ∈ s_conf s \/ x < nv s) /\ (forall k, k ∈ s_pq s' -> k ∈ s_pq s \/ k = i) /\
        (forall x, x ∈ s_conf s -> x ∈ s_conf s') /\ (forall x, qd s x = true -> qd s' x = true) /\
        (Qinv s -> Qinv s' /\ (conf_at s (idx s (i + s_nn s)) = true -> qd s' (idx s (i + s_nn s)) = true /\ idx s (i + s_nn s) ∈ s_conf s'))).
    { intros s2 Hq Hc Hqd Hpq. exists s2. split; auto. split; [eapply qonly_trans; eauto|]. rewrite Hc, <- Hpq1.
      split; auto. split; auto. split; auto. split; [intros x Hx; rewrite Hqd; auto|].
      intros HQ. destruct (C3 HQ) as [[Ca Cb] Cc]. split; [split; rewrite Hc; auto; intros x; rewrite Hqd; auto|]. rewrite Hqd. exact Cc. }
    destruct (o_pmode o) eqn:Em.
    - apply G2; auto. apply qonly_refl.
    - rewrite at_vr by lia. cbn [mbind res_bind]. destruct (v_prop (vr s1 i)).
      { apply G2; auto. apply qonly_refl. }
      assert (G : forall y, exists p, vr (set_pq (s_pq s1 ++ [i]) (upd_var i (vset_prop true) s1)) y = vset_prop p (vr s1 y)).
      { intros y. change (vr (set_pq (s_pq s1 ++ [i]) (upd_var i (vset_prop true) s1)) y) with (vr (upd_var i (vset_prop true) s1) y).
        rewrite vr_upd by lia. destruct (Nat.eqb_spec y i) as [->|]; [exists true; auto|]. exists (v_prop (vr s1 y)). destruct (vr s1 y); auto. }
      apply G2.
      + split. { unfold stat; cbn. unfold nv; cbn. rewrite alter_length. auto. }
        repeat (split; [reflexivity|]).
        split; [|split]; intros y; unfold idx, ridx, lo, up, val, lvl; destruct (G y) as (p & ->); repeat split.
      + reflexivity.
      + intros x. unfold qd. destruct (G x) as (p & ->). auto.
      + cbn. intros k. rewrite elem_of_app, elem_of_list_singleton. auto.
    - apply G2; auto. apply qonly_refl.
  Qed.

  (** shape is kept by changes that keep tableau rows and permutation *)
  Lemma shape_keep s s' : shape s -> stat s' = stat s -> perm_same s s' -> tab_wf (s_tab s') -> t_rows (s_tab s') = t_rows (s_tab s) ->
    (forall x, x ∈ s_conf s' -> x < nv s) -> (forall k, k ∈ s_pq s' -> k < s_nb s) ->
    (forall e, e ∈ s_atrail s' -> e.1.2 < nv s) -> (forall e, e ∈ s_btrail s' -> e.1.1 < nv s) ->
    (forall x, v_bounds (vr s' x) = v_bounds (vr s x)) -> shape s'.
  Proof.
    intros Sh Hst Hp Hw Ht Hc Hq Ha Hb Hvb.
    rewrite <- (stat_nv _ _ Hst), <- (stat_nb _ _ Hst) in *.
    constructor; auto.
    - rewrite (stat_nv _ _ Hst), (stat_nn _ _ Hst), (stat_nb _ _ Hst). apply Sh.
    - rewrite (stat_nv _ _ Hst). intros x Hx. destruct (Hp x) as [_ ->]. destruct (Hp (ridx s x)) as [-> _]. apply Sh; auto.
    - rewrite (stat_nv _ _ Hst). intros x Hx. destruct (Hp x) as [-> _]. destruct (Hp (idx s x)) as [_ ->]. apply Sh; auto.
    - intros i j. rewrite (tget_rows _ (s_tab s)) by auto. rewrite (stat_nn _ _ Hst), (stat_nb _ _ Hst). apply Sh.
    - rewrite (stat_bounds _ _ Hst), (stat_nv _ _ Hst). apply Sh.
    - rewrite (stat_bounds _ _ Hst). intros x b. rewrite Hvb. apply Sh.
  Qed.

  Lemma qonly_shape s s' : shape s -> qonly s s' -> (forall x, x ∈ s_conf s' -> x < nv s) -> (forall k, k ∈ s_pq s' -> k < s_nb s) -> shape s'.
  Proof.
    intros Sh (A1 & A2 & A3 & A4 & A5 & A6 & A7 & A8) Hc Hq. apply (shape_keep s); auto.
    - rewrite A2. apply Sh.
    - rewrite A2. auto.
    - rewrite A3. apply Sh.
    - rewrite A4. apply Sh.
    - intros x. apply (A7 x).
  Qed.

  Lemma perm_same_refl s : perm_same s s. Proof. intros y; auto. Qed.
  Lemma perm_same_trans s1 s2 s3 : perm_same s1 s2 -> perm_same s2 s3 -> perm_same s1 s3.
  Proof. intros A B y. destruct (A y), (B y). split; congruence. Qed.
  Lemma bnd_same_refl s : bnd_same s s. Proof. intros y; auto. Qed.
  Lemma bnd_same_trans s1 s2 s3 : bnd_same s1 s2 -> bnd_same s2 s3 -> bnd_same s1 s3.
  Proof. intros A B y. destruct (A y) as (?&?&?), (B y) as (?&?&?). split; [|split]; congruence. Qed.

  (** one row update of update_ and pivot_: set the value of a basic variable, then enqueue it *)
  Lemma row_update_ok o s k L v : shape s -> k < s_nb s ->
    exists s', (kk ← basic_ s k; s1 ← set_value kk L v true s; enqueue o k s1) = Ok s' /\
      shape s' /\ vreach L s s' /\ s_tab s' = s_tab s /\ perm_same s s' /\ s_clause s' = s_clause s /\
      (forall y, val s' y = if y =? idx s (k + s_nn s) then vadd (val s y) v else val s y) /\
      (forall x, (x ∈ s_conf s -> x ∈ s_conf s') /\ (qd s x = true -> qd s' x = true)) /\
      (Qinv s -> Qinv s' /\ (conf_at s' (idx s (k + s_nn s)) = true -> qd s' (idx s (k + s_nn s)) = true /\ idx s (k + s_nn s) ∈ s_conf s')).
  Proof.
    intros Sh Hk. unfold basic_. pose proof (sh_len _ Sh) as Hl. rewrite at_vr by lia. cbn [mbind res_bind].
    change (v_index (vr s (k + s_nn s))) with (idx s (k + s_nn s)). set (x := idx s (k + s_nn s)).
    assert (Hx : x < nv s) by (apply (sh_ir _ Sh (k + s_nn s)); lia).
    destruct (set_value_ok s x L v true Hx) as (s1 & -> & Hm & Ht & Hp & Hval & Hqd & Hcf & Hpq & Hcl). cbn [mbind res_bind].
    pose proof Hm as (x' & v' & _ & _ & Hat & Hbt & Hst & Hbs).
    assert (Sh1 : shape s1).
    { apply (shape_keep s); auto.
      - rewrite Ht. apply Sh.
      - rewrite Ht. auto.
      - rewrite Hcf. apply Sh.
      - rewrite Hpq. apply Sh.
      - destruct Hm as (x0 & v0 & Hx0 & _ & -> & _). intros e. rewrite elem_of_app. intros [He|He]; [apply (sh_at _ Sh); auto|].
        destruct (L =? lvl s x0); [inversion He|]. apply elem_of_list_singleton in He as ->. auto.
      - rewrite Hbt. apply Sh.
      - intros y. apply Hbs. }
    destruct (enqueue_ok o k s1 Sh1) as (s2 & -> & Q & C1 & C2 & C3 & C4 & C5).
    { rewrite (stat_nb _ _ Hst). auto. }
    exists s2. split; auto. pose proof Q as (A1 & A2 & A3 & A4 & A5 & A6 & A7 & A8).
    split; [|split; [|split; [|split; [|split; [|split; [|split]]]]]].
    - apply (qonly_shape s1); auto.
      + intros y Hy. apply C1 in Hy as [Hy|Hy]; auto. apply Sh1 in Hy. auto.
      + intros y Hy. apply C2 in Hy as [Hy| ->]; [apply Sh1; auto|]. rewrite (stat_nb _ _ Hst). auto.
    - eapply vreach_quiet; [eapply vreach_move; [apply vreach_refl|exact Hm]|]. apply qonly_quiet; auto.
    - congruence.
    - eapply perm_same_trans; eauto.
    - congruence.
    - intros y. destruct (A8 y) as [-> _]. rewrite Hval. destruct (Nat.eqb_spec y x) as [->|]; auto.
    - intros y. split; intros Hy; [apply C3; rewrite Hcf; auto|apply C4; rewrite Hqd; auto].
    - intros [Q1 Q2]. destruct C5 as [C5 C6].
      { split; rewrite Hcf; auto. intros y. rewrite Hqd. auto. }
      split; auto. intros Hc. rewrite (stat_nn _ _ Hst) in C6. destruct (Hp (k + s_nn s)) as [Hp' _]. rewrite Hp' in C6. fold x in C6.
      apply C6. rewrite <- Hc. symmetry. apply conf_at_same; [apply A7|apply A7|apply A8].
  Qed.
End base.
