(** * Solver::solve up to propagate_ *)

From stdpp Require Import list_numbers.
From Verif Require Import Num Sums Tableau TableauProofs Bland Solver SolverBase SolverStep Simplex SimplexLoop Hist Updates Core.

Section coresolve.
  Context {V : Type} `{VL : ValueLaws V}.
  Implicit Types s : solver V.
  Implicit Types x y : nat.
  Implicit Types b l u : bound V.
  Implicit Types fs : list (frame V).

  (** the frames after the host delivered [lits] at level [dl] *)
  Definition enter (dl : nat) (lits : list Z) s fs : list (frame V) :=
    match fs with
    | [] => [Frame dl lits s]
    | f :: r => if f_level f <? dl then Frame dl lits s :: fs else Frame (f_level f) (f_lits f ++ lits) (f_pre f) :: r
    end.

  Lemma enter_active dl lits s fs lit : lit ∈ active (enter dl lits s fs) <-> lit ∈ active fs \/ lit ∈ lits.
  Proof.
    unfold enter, active. destruct fs as [|f r]; cbn.
    - rewrite app_nil_r, elem_of_nil. tauto.
    - destruct (f_level f <? dl); cbn; rewrite !elem_of_app; tauto.
  Qed.
  Lemma enter_top dl lits s fs : top fs <= dl -> top (enter dl lits s fs) = dl.
  Proof. unfold enter. destruct fs as [|f r]; cbn; auto. destruct (Nat.ltb_spec (f_level f) dl); cbn; lia. Qed.

  (** unchanged by all operations but assert_bound *)
  Definition pstat s := (s_nn s, s_nb s, s_bounds s, s_obj s, nv s).
  Lemma stat_pstat s s' : stat s' = stat s -> pstat s' = pstat s.
  Proof. unfold stat, pstat. congruence. Qed.
  Definition freek s s' : Prop := forall z, z < nv s -> (forall b, b ∈ s_bounds s -> b_var b <> z) -> Bs s z = true -> Bs s' z = true.
  Lemma freek_trans s1 s2 s3 : pstat s2 = pstat s1 -> freek s1 s2 -> freek s2 s3 -> freek s1 s3.
  Proof.
    intros E A B z Hz Hb HB. unfold pstat in E. apply B; [congruence| |apply A; auto].
    intros b Hb'. apply Hb. congruence.
  Qed.

  Lemma psnd_free Bd act s z : psnd Bd act (obs s) -> (forall b, b ∈ Bd -> b_var b <> z) -> lo s z = None /\ up s z = None.
  Proof.
    intros Hp Hz. split.
    - destruct (lo s z) as [b|] eqn:E; auto. destruct (Hp true z b E) as (Hb & Hv & _). exfalso. eapply Hz; eauto.
    - destruct (up s z) as [b|] eqn:E; auto. destruct (Hp false z b E) as (Hb & Hv & _). exfalso. eapply Hz; eauto.
  Qed.

  Lemma push_offset_mid keep s0 fs s (a : asg) lits : Live keep s0 fs s -> top fs <= a_dl a ->
    Mid keep s0 (enter (a_dl a) lits s fs) (push_offset a s).
  Proof.
    intros HL Ht. pose proof (Live_good _ _ _ _ HL) as Hg. destruct HL as [[[J1 J2 J3 J4 J5 J6] Hh Hps Heq HR Hnv Hbs] Hf Hcp].
    assert (HJ : forall x : list toff, J (set_offs x s)).
    { intros x. destruct J1 as [S1 S2 S3 S4 S5 S6 S7 S8 S9 S10 S11]. constructor; [constructor; auto| | | | | ]; auto. }
    pose proof (hist_top _ _ _ _ _ _ _ _ Hh) as Htop. unfold push_offset.
    assert (Hps' : psnd (s_bounds s) (active (enter (a_dl a) lits s fs)) (obs s)).
    { eapply psnd_mono; [| |exact Hps]; auto. intros lit Hl. apply enter_active; auto. }
    assert (Hh' : hist keep s0 (s_bounds s) (enter (a_dl a) lits s fs)
       (if match last (s_offs s) with None => true | Some f => o_level f <? a_dl a end then s_offs s ++ [TOff (a_dl a) (length (s_btrail s)) (length (s_atrail s))] else s_offs s)
       (s_btrail s) (s_atrail s) (obs s)).
    { unfold enter. destruct (last (s_offs s)) as [f|].
      - destruct Htop as [Hne El]. destruct fs as [|[L ls p] r]; [congruence|]. cbn in El, Ht. rewrite El. cbn [f_level f_lits f_pre]. destruct (Nat.ltb_spec L (a_dl a)) as [Hlt|Hge].
        + apply hist_push; auto.
        + eapply hist_lits; [|exact Hh]. intros lit Hl. apply elem_of_app; auto.
      - subst fs. apply hist_push; auto. }
    destruct (match last (s_offs s) with None => true | Some f => o_level f <? a_dl a end).
    - constructor; auto.
    - constructor; auto. constructor; auto.
  Qed.

  (** no equality among the delivered literals can damage the trail *)
  Definition lsafe (dl : nat) (Bd : list (bound V)) (act lits : list Z) : Prop := forall b, b ∈ Bd -> b_lit b ∈ lits -> eqsafe dl Bd act b.

  Theorem solve_core_ok keep s0 fs s (a : asg) (o : options) lits fuel :
    Live keep s0 fs s -> top fs <= a_dl a -> (keep = true -> o_store o <> StorePartial) ->
    lv_ok a (enter (a_dl a) lits s fs) -> lsafe (a_dl a) (s_bounds s) (active (enter (a_dl a) lits s fs)) lits -> 4 ^ nv s <= fuel ->
    exists s' ok, solve_core fuel o a lits s = Ok (s', ok) /\ pstat s' = pstat s /\ freek s s' /\
      if ok then Live keep s0 (enter (a_dl a) lits s fs) s'
      else Dead keep s0 (enter (a_dl a) lits s fs) s' /\ refutes s0 (s_bounds s) (active (enter (a_dl a) lits s fs)) (s_clause s').
  Proof.
    intros HL Ht Hst Hlv Hsafe Hfuel. pose proof (push_offset_mid keep s0 fs s a lits HL Ht) as HM.
    assert (Ep : pstat (push_offset a s) = pstat s /\ obs (push_offset a s) = obs s /\ (forall z, Bs (push_offset a s) z = Bs s z) /\ s_bounds (push_offset a s) = s_bounds s).
    { unfold push_offset. destruct (match last (s_offs s) with None => true | Some f => o_level f <? a_dl a end); auto. }
    set (s1 := push_offset a s) in *. destruct Ep as (Ep & Eobs & EB & Ebd).
    pose proof (enter_active (a_dl a) lits s fs) as Hact. pose proof (enter_top (a_dl a) lits s fs Ht) as Htop.
    assert (Hlits : forall lit, lit ∈ lits -> lit ∈ match enter (a_dl a) lits s fs with [] => [] | f :: _ => f_lits f end).
    { intros lit Hl. unfold enter. destruct fs as [|f r]; cbn; auto. destruct (f_level f <? a_dl a); cbn; auto. apply elem_of_app; auto. }
    remember (enter (a_dl a) lits s fs) as fs1 eqn:Efs1. destruct fs1 as [|[L ls p] r].
    { exfalso. unfold enter in Efs1. destruct fs as [|f r]; [discriminate|]. destruct (f_level f <? a_dl a); discriminate. }
    cbn in Htop, Hlits. unfold solve_core. fold s1. unfold apply_lits.
    destruct (apply_bounds_ok keep s0 L ls p r a o Hlv (eq_sym Htop) (List.concat (map (find_bounds s1) lits)) s1 HM) as (s2 & ok & E2 & St2 & Ti2 & HB2 & Hres2).
    { intros b Hb. apply concat_find_elem in Hb as [Hb Hl]. split; auto. split; auto. rewrite Ebd, Htop in *. apply Hsafe; auto. }
    rewrite E2. cbn [mbind res_bind].
    assert (Ep2 : pstat s2 = pstat s) by (rewrite <- Ep; apply stat_pstat; auto).
    assert (Hnv1 : nv s1 = nv s) by (unfold pstat in Ep; congruence).
    assert (Hfk2 : freek s s2).
    { intros z Hz _ Bz. apply HB2; [rewrite Hnv1; auto|rewrite EB; auto]. }
    destruct ok; cbn [negb].
    2:{ exists s2, false. split; auto. split; auto. split; auto. destruct Hres2 as [HD Hr]. rewrite Ebd in Hr. auto. }
    destruct Hres2 as [HM2 Him].
    assert (Hcp2 : compl (s_bounds s2) (active (Frame L ls p :: r)) (obs s2)).
    { intros b Hb Hl. rewrite (stat_bounds _ _ St2), Ebd in Hb. apply Hact in Hl as [Hl|Hl].
      - eapply bimpl_tight; [exact Ti2|]. rewrite Eobs. apply (lv_cp _ _ _ _ HL); auto.
      - apply Him, concat_find_elem. rewrite Ebd. auto. }
    destruct (simplex_ok fuel o (a_dl a) s2 (md_J _ _ _ _ HM2)) as (s3 & r3 & E3 & [HJ3 Vr3 Hrw3 Hres3 Hfree3]).
    { rewrite (stat_nv _ _ St2), Hnv1; auto. }
    rewrite E3. cbn [mbind res_bind]. destruct (vreach_facts _ _ _ Vr3) as (Bt3 & St3 & Bn3).
    assert (Ep3 : pstat s3 = pstat s) by (rewrite <- Ep2; apply stat_pstat; auto).
    destruct HM2 as [HJ2 Hh2 Hps2 Heq2 HR2 Hnv2 Hbs2].
    assert (Hfk3 : freek s s3).
    { eapply freek_trans; [exact Ep2|exact Hfk2|]. intros z Hz Hb Bz. destruct (psnd_free _ _ s2 z Hps2 Hb) as [El Eu]. apply Hfree3; auto. }
    assert (HM3 : Mid keep s0 (Frame L ls p :: r) s3).
    { constructor; auto.
      - rewrite (stat_bounds _ _ St3). apply (hist_vreach _ _ _ _ (a_dl a) s2); auto.
      - rewrite (stat_bounds _ _ St3). eapply psnd_eq; [apply obs_bnd; eauto|auto].
      - eapply eqp_eq; [apply obs_bnd; eauto|auto].
      - intros c. rewrite Hrw3. auto.
      - rewrite (stat_nv _ _ St3); auto.
      - rewrite (stat_bounds _ _ St3); auto. }
    destruct r3.
    - destruct Hres3 as [Hf3 Hc3].
      assert (HL3 : Live keep s0 (Frame L ls p :: r) s3).
      { constructor; auto. rewrite (stat_bounds _ _ St3). intros b Hb Hl. eapply bimpl_eq; [apply obs_bnd; eauto|auto]. }
      destruct (o_store o) eqn:Es.
      + exists s3, true. auto.
      + destruct (store_sat_ok keep s0 (Frame L ls p :: r) s3 HL3) as (s4 & E4 & HL4 & Bn4 & Va4 & Pm4 & Tb4 & Bd4 & Ob4 & Nn4 & Nb4 & Nv4).
        rewrite E4. cbn [mbind res_bind]. exists s4, true. split; auto.
        assert (Ep4 : pstat s4 = pstat s3) by (unfold pstat; congruence).
        split; [congruence|]. split.
        * eapply freek_trans; [exact Ep3|exact Hfk3|]. intros z Hz _ Bz. unfold Bs. rewrite Nn4. destruct (Pm4 z) as [_ ->]. exact Bz.
        * destruct keep; [exfalso; apply Hst; auto|exact HL4].
      + exists s3, true. auto.
    - exists s3, false. split; auto. split; auto. split; auto. split; [apply Mid_Dead; auto|].
      destruct Hres3 as (bs & Ec & Hbs & Hun). exists bs. split; auto. split.
      + intros b Hb. destruct (Hbs b Hb) as (x & Hx).
        assert (G : exists m : bool, n_side (obs s2) m x = Some b) by (destruct Hx as [Hx|Hx]; [exists true|exists false]; exact Hx).
        destruct G as (m & G). destruct (Hps2 m x b G) as (B1 & B2 & B3 & B4). rewrite (stat_bounds _ _ St2), Ebd in B1. auto.
      + intros c Hc. apply Hun. apply HR2; auto.
  Qed.
End coresolve.
