(** * From the invariant to observations *)

From Verif Require Import Num Sums Tableau TableauProofs Bland Solver SolverBase SolverStep Simplex SimplexLoop Hist Updates Core CoreSolve Propagate
  OptSelect Optimize Spec Eps Prepare Propagator World ThreadOk WorldProofs Reach Observe.

Section observe.
  Context {V : Type} `{VL : ValueLaws V} {Sym : Type} `{EqDecision Sym}.
  Implicit Types w : world V Sym.
  Implicit Types sh : shot V Sym.
  Implicit Types s : solver V.

  Lemma live_bsat keep s0 fs s b : Live keep s0 fs s -> b ∈ s_bounds s -> b_lit b ∈ active fs -> bsat (val s) b.
  Proof.
    intros HL Hb Hl. destruct (lv_cp _ _ _ _ HL b Hb Hl) as [Hu Hlo]. cbn [obs n_up n_lo] in Hu, Hlo.
    assert (Hx : b_var b < nv s) by (apply (sh_bv _ (j_shape _ (md_J _ _ _ _ (lv_M _ _ _ _ HL)))); auto).
    destruct (lv_feas _ _ _ _ HL (b_var b) Hx) as [F1 F2].
    assert (U : b_rel b <> BGe -> vle (val s (b_var b)) (b_val b)).
    { intros Hr. destruct (Hu Hr) as (u & Eu & Hle). eapply vle_trans; [|exact Hle]. apply F2. unfold upv. rewrite Eu. auto. }
    assert (L : b_rel b <> BLe -> vle (b_val b) (val s (b_var b))).
    { intros Hr. destruct (Hlo Hr) as (u & Eu & Hle). eapply vle_trans; [exact Hle|]. apply F1. unfold lov. rewrite Eu. auto. }
    unfold bsat. destruct (b_rel b); [apply U; discriminate|apply L; discriminate|apply vle_antisym; [apply U|apply L]; discriminate].
  Qed.

  (** an assignment that satisfies the active bounds lies within lower and upper *)
  Lemma inall_of keep s0 fs s a : Live keep s0 fs s -> rows s0 a -> (forall b, b ∈ s_bounds s -> b_lit b ∈ active fs -> bsat a b) -> inall s a.
  Proof.
    intros HL Hr Hb. split; [apply (md_R _ _ _ _ (lv_M _ _ _ _ HL)); auto|]. intros x Hx. pose proof (md_ps _ _ _ _ (lv_M _ _ _ _ HL)) as Hp. split; intros v Ev.
    - unfold lov in Ev. apply fmap_Some in Ev as (b & Eb & ->). destruct (Hp true x b Eb) as (B1 & <- & B3 & B4). apply bsat_lower; auto.
    - unfold upv in Ev. apply fmap_Some in Ev as (b & Eb & ->). destruct (Hp false x b Eb) as (B1 & <- & B3 & B4). apply bsat_upper; auto.
  Qed.
  Lemma inall_bsat keep s0 fs s a b : Live keep s0 fs s -> inall s a -> b ∈ s_bounds s -> b_lit b ∈ active fs -> bsat a b.
  Proof.
    intros HL [_ Hi] Hb Hl. destruct (lv_cp _ _ _ _ HL b Hb Hl) as [Hu Hlo]. cbn [obs n_up n_lo] in Hu, Hlo.
    assert (Hx : b_var b < nv s) by (apply (sh_bv _ (j_shape _ (md_J _ _ _ _ (lv_M _ _ _ _ HL)))); auto).
    destruct (Hi (b_var b) Hx) as [F1 F2].
    assert (U : b_rel b <> BGe -> vle (a (b_var b)) (b_val b)).
    { intros Hr. destruct (Hu Hr) as (u & Eu & Hle). eapply vle_trans; [|exact Hle]. apply F2. unfold upv. rewrite Eu. auto. }
    assert (L : b_rel b <> BLe -> vle (b_val b) (a (b_var b))).
    { intros Hr. destruct (Hlo Hr) as (u & Eu & Hle). eapply vle_trans; [exact Hle|]. apply F1. unfold lov. rewrite Eu. auto. }
    unfold bsat. destruct (b_rel b); [apply U; discriminate|apply L; discriminate|apply vle_antisym; [apply U|apply L]; discriminate].
  Qed.

  (** everything about one thread *)
  Record view (o : options) sh (ass : list (Z * V)) w (t : nat) (s0 : solver V) s fs : Prop := {
    vw_at : exists off, p_slvs (w_p w) !! t = Some (off, s);
    vw_prep : prepared (p_vars (w_p w)) (find_sym (p_vars (w_p w))) (sh_host sh) o (sh_iqs sh) (sh_obj sh) s0;
    vw_act : active fs = assigned w t;
    vw_live : th_blk (thread_of w t) = false -> Live (keep0 o) s0 fs s;
    vw_blk : th_blk (thread_of w t) = true -> exists c, clause_sound_obj (sh_iqs sh) (sh_obj sh) ass c /\ falsified (assigned w t) c = true;
    vw_tb : TB o s0 ass (w_rep w) s;
    vw_nv : nv s = nv s0;
  }.
  Lemma get_view o sh s0s new0 facts0 ass w t : RInv o sh s0s new0 facts0 ass w -> t < length (w_th w) ->
    exists s0 s fs, s0s !! t = Some s0 /\ view o sh ass w t s0 s fs.
  Proof.
    intros [R1 R2 R3 R4 R5 R6 R7 R7b R8 [I1 I2 I3 I4 I5 I6 I7 I8 I9 I10 I11]] Ht.
    destruct (lookup_lt_is_Some_2 (p_slvs (w_p w)) t ltac:(lia)) as [[off s] Es]. destruct (lookup_lt_is_Some_2 s0s t ltac:(lia)) as [s0 E0].
    destruct (I8 t _ s0 Es E0) as (fs & [T1 T2 T2b T3 T4 T5 T6]). cbn [fst snd] in *. exists s0, s, fs. split; auto.
    constructor; eauto.
    - apply R4. eapply elem_of_list_lookup_2; eauto.
    - unfold assigned. rewrite <- T1. apply active_held.
    - intros Hb. rewrite Hb in T2. auto.
    - destruct (th_blk (thread_of w t)); apply T2.
  Qed.

  Lemma api_rd o sh ass w t s0 s fs x : NoDup (p_vars (w_p w)) -> view o sh ass w t s0 s fs -> api_value (w_p w) t x = rd (find_sym (p_vars (w_p w))) (val s) x.
  Proof.
    intros Hn [(off & Es) P _ _ _ T Nv]. unfold api_value, p_lookup_symbol, rd. destruct (find_sym (p_vars (w_p w)) x) as [k|] eqn:E; auto.
    apply find_sym_spec in E; auto. unfold p_get_value, at_ at 1. rewrite Es. cbn [mbind res_bind]. unfold get_value.
    assert (Hk : k < nv s).
    { apply lookup_lt_Some in E. rewrite Nv. pose proof (pd_nn _ _ _ _ _ _ _ P) as Hnn. pose proof (sh_len _ (j_shape _ (md_J _ _ _ _ (lv_M _ _ _ _ (pd_live _ _ _ _ _ _ _ P true))))). lia. }
    rewrite at_vr by auto. auto.
  Qed.

  (** values of the solver satisfy the constraints in force *)
  Lemma accept_holds o sh ass w t s0 s fs a q : NoDup (p_vars (w_p w)) -> (forall q, q ∈ sh_iqs sh -> okterms (find_sym (p_vars (w_p w))) (q_lhs q)) ->
    view o sh ass w t s0 s fs -> (forall b, b ∈ s_bounds s -> b_lit b ∈ active fs -> bsat a b) -> rows s0 a ->
    in_force sh w t q -> q_lhs q <> [] -> holdsV (rd (find_sym (p_vars (w_p w))) a) q.
  Proof.
    intros Hn Ho [Es P Ea _ _ T Nv] Hb Hr (Hq & Hl & Hwt) Hne.
    destruct (pd_cpl _ _ _ _ _ _ _ P q Hq Hne Hwt) as (b & Hb0 & R). pose proof R as (El & R1 & _). apply R1; auto.
    apply Hb; [|rewrite El, Ea; auto]. destruct (tb_bs _ _ _ _ _ T) as (ex & -> & _). apply elem_of_app; auto.
  Qed.
  (** ... and the converse for rational assignments *)
  Lemma force_bsat o sh ass w t s0 s fs (A : Sym -> Qc) a : (forall q, q ∈ sh_iqs sh -> okterms (find_sym (p_vars (w_p w))) (q_lhs q)) -> okterms (find_sym (p_vars (w_p w))) (sh_obj sh) ->
    view o sh ass w t s0 s fs -> rows s0 a -> (forall x, is_Some (find_sym (p_vars (w_p w)) x) -> rd (find_sym (p_vars (w_p w))) a x = vofq (A x)) ->
    (forall q, q ∈ sh_iqs sh -> q_lit q ∈ assigned w t -> q_lhs q <> [] -> holds A q) ->
    (forall l v, (l, v) ∈ ass -> l ∈ assigned w t -> vle v (vofq (lin A (sh_obj sh)))) ->
    forall b, b ∈ s_bounds s -> b_lit b ∈ active fs -> bsat a b.
  Proof.
    intros Ho Hobj VW Hr Ha Hq Hass b Hb Hl. pose proof VW as [Es P Ea _ _ T Nv].
    destruct (bound_reason o (sh_iqs sh) (sh_obj sh) (p_vars (w_p w)) (sh_host sh) s0 s ass (w_rep w) b P T Hb) as [(q & Hqi & Hne & R)|(Hin & Hne & Er & Hv)].
    - eapply (holds_bsat (find_sym (p_vars (w_p w)))); eauto. apply Hq; auto. destruct R as (<- & _). rewrite <- Ea. auto.
    - unfold bsat. rewrite Er, Hv by auto. rewrite (linV_ext _ (fun x => vofq (A x))), linV_ofq.
      + apply (Hass (b_lit b)); auto. rewrite <- Ea. auto.
      + intros c x Hc. apply Ha. apply (proj2 Hobj c x); auto.
  Qed.

  (** the objective *)
  Lemma view_objective o sh ass w t s0 s fs : okterms (find_sym (p_vars (w_p w))) (sh_obj sh) -> NoDup (p_vars (w_p w)) -> view o sh ass w t s0 s fs -> th_blk (thread_of w t) = false ->
    p_get_objective (w_p w) t = Ok (if decide (sh_obj sh = []) then None else Some (linV (api_value (w_p w) t) (sh_obj sh), ob_bounded (s_obj s))).
  Proof.
    intros Ho Hn VW Hb. pose proof VW as [(off & Es) P Ea HL _ T Nv]. specialize (HL Hb). unfold p_get_objective, at_ at 1. rewrite Es. cbn [mbind res_bind]. unfold get_objective.
    rewrite (tb_act _ _ _ _ _ T), (tb_var _ _ _ _ _ T). destruct (decide (sh_obj sh = [])) as [E|E].
    - rewrite (pd_obj0 _ _ _ _ _ _ _ P E). auto.
    - destruct (pd_obj1 _ _ _ _ _ _ _ P E) as (Hact & (R1 & R2 & R3 & R4) & _). rewrite Hact. rewrite at_vr by lia. cbn [mbind res_bind].
      f_equal. f_equal. f_equal. change (v_val (vr s (ob_var (s_obj s0)))) with (val s (ob_var (s_obj s0))). rewrite R4.
      + apply linV_ext. intros c x _. symmetry. eapply api_rd; eauto.
      + apply (md_R _ _ _ _ (lv_M _ _ _ _ HL)). apply (j_rows _ (md_J _ _ _ _ (lv_M _ _ _ _ HL))).
  Qed.
End observe.
