(** * C07-C10: the solver decides satisfiability and optimizes

    Same setting as Props_Solver.v: every session, any interleaving. *)

From Verif Require Import Num Sums Tableau TableauProofs Bland Solver SolverBase SolverStep Simplex SimplexLoop Hist Updates Core CoreSolve Propagate
  OptSelect Optimize Spec Eps Prepare Propagator World ThreadOk WorldProofs Reach Observe ObserveProofs Props_Solver.

Section props.
  Context {V : Type} `{VL : ValueLaws V} {Sym : Type} `{EqDecision Sym}.
  Implicit Types w : world V Sym.
  Implicit Types sh : shot V Sym.

  (** clingo respects the unit clauses it was given *)
  Definition honoured sh w (t : nat) : Prop := forall l, [(- l)%Z] ∈ shot_log sh w -> l ∉ assigned w t.

  Lemma empty_holds o sh w t q (A : Sym -> Qc) : step_ok (V := V) o -> reach o sh w -> t < length (w_th w) -> honoured sh w t -> in_force sh w t q -> q_lhs q = [] -> q_rel q = Req -> holds A q.
  Proof.
    intros So Hr Ht Hh (Hq & Hl & Hwt) El Er. destruct (reach_inv o sh w So Hr) as (s0s & new0 & facts0 & ass & I).
    unfold holds. rewrite El, Er. cbn. destruct (Qc_eq_dec 0 (q_rhs q)) as [|Hne]; auto. exfalso.
    apply (Hh (q_lit q)); auto. destruct (wi_log _ _ _ _ _ _ _ _ _ (ri_w _ _ _ _ _ _ _ I)) as (new & Elog & _). unfold shot_log. rewrite Elog, <- app_assoc, drop_app. apply elem_of_app. left.
    assert (Ht0 : sh_threads sh <> 0).
    { rewrite <- (ri_threads _ _ _ _ _ _ _ I), <- (wi_len2 _ _ _ _ _ _ _ _ _ (ri_w _ _ _ _ _ _ _ I)). lia. }
    apply (ri_empty _ _ _ _ _ _ _ I Ht0 q Hq El Hwt). rewrite Er. unfold empty_row_clause. apply negb_true_iff, veqb_false. congruence.
  Qed.

  (** ** C01 for constraints without variables as well *)
  Theorem C01_all_constraints_partial o sh w t q : step_ok (V := V) o -> reach o sh w -> plain sh -> accepted w t -> honoured sh w t ->
    in_force sh w t q -> holdsV (api_value (w_p w) t) q.
  Proof.
    intros So Hr Hp Ha Hh Hq. destruct (decide (q_lhs q = [])) as [El|]; [|eapply C01_values_satisfy_constraints_partial; eauto].
    pose proof (Hp q (proj1 Hq) El) as Er. pose proof (empty_holds o sh w t q (fun _ => 0%Qc) So Hr (proj1 Ha) Hh Hq El Er) as Hx.
    unfold holds, holdsV in *. rewrite El, Er in *. cbn in *. rewrite <- Hx. apply v_ext; rewrite vemb_zero, vemb_ofq; auto.
  Qed.

  (** ** C07 *)
  (** a conflict is only reported if the constraints assigned true are unsatisfiable *)
  Theorem C07_conflict_unsatisfiable_partial o sh w t : step_ok (V := V) o -> reach o sh w -> o_global o = None -> blocked w t ->
    ~ exists A : Sym -> Qc, forall q, q ∈ sh_iqs sh -> q_lit q ∈ assigned w t -> holds A q.
  Proof.
    intros So Hr Hg [Ht Hb] (A & HA). destruct (reach_inv o sh w So Hr) as (s0s & new0 & facts0 & ass & I).
    destruct (get_view o sh s0s new0 facts0 ass w t I Ht) as (s0 & s & fs & E0 & VW).
    assert (Ea : ass = []).
    { destruct ass as [|[l v] ass]; auto. destruct (wi_ass _ _ _ _ _ _ _ _ _ (ri_w _ _ _ _ _ _ _ I) l v (elem_of_list_here _ _)) as [_ Hj].
      apply justified_asserted in Hj as [(b & g & d & _ & E & _)|[E _]]; congruence. }
    destruct (vw_blk _ _ _ _ _ _ _ _ VW Hb) as (c & Hs & Hf). rewrite Ea in Hs. apply clause_sound_obj_nil in Hs as (bad & -> & Hsub & Hun).
    apply Hun. exists A. intros q Hq. apply HA; auto. unfold falsified in Hf. rewrite forallb_forall in Hf.
    specialize (Hf (- q_lit q)%Z). rewrite bool_decide_eq_true in Hf. rewrite Z.opp_involutive in Hf. apply Hf. apply in_map_iff. exists q. split; auto. apply elem_of_list_In. auto.
  Qed.
  (** with global optimization: unsatisfiable together with the bounds asserted on the objective *)
  Theorem C07_conflict_unsatisfiable_global_partial o sh w t : step_ok (V := V) o -> reach o sh w -> blocked w t ->
    exists ass : list (Z * V), (forall l v, (l, v) ∈ ass -> [l] ∈ w_log w /\ asserted_ok o (w_rep w) v) /\
      ~ exists A : Sym -> Qc, (forall q, q ∈ sh_iqs sh -> q_lit q ∈ assigned w t -> holds A q) /\ forall l v, (l, v) ∈ ass -> l ∈ assigned w t -> vle v (vofq (lin A (sh_obj sh))).
  Proof.
    intros So Hr [Ht Hb]. destruct (reach_inv o sh w So Hr) as (s0s & new0 & facts0 & ass & I).
    destruct (get_view o sh s0s new0 facts0 ass w t I Ht) as (s0 & s & fs & E0 & VW). exists ass. split.
    { intros l v Hl. destruct (wi_ass _ _ _ _ _ _ _ _ _ (ri_w _ _ _ _ _ _ _ I) l v Hl). split; auto using justified_asserted. }
    destruct (vw_blk _ _ _ _ _ _ _ _ VW Hb) as (c & (bad & -> & Hsub & Hun) & Hf). intros (A & HA & HB).
    apply Hun. exists A. intros g Hg. assert (Hl : reason_lit g ∈ assigned w t).
    { unfold falsified in Hf. rewrite forallb_forall in Hf. specialize (Hf (- reason_lit g)%Z). rewrite bool_decide_eq_true in Hf. rewrite Z.opp_involutive in Hf. apply Hf.
      apply in_map_iff. exists g. split; auto. apply elem_of_list_In. auto. }
    specialize (Hsub g Hg). destruct g as [q|[l v]]; cbn in *; eauto.
  Qed.
  (** no conflict: the constraints assigned true are satisfiable *)
  Theorem C07_no_conflict_satisfiable_partial o sh w t : step_ok (V := V) o -> reach o sh w -> accepted w t ->
    exists A : Sym -> Qc, forall q, in_force sh w t q -> q_lhs q <> [] -> holds A q.
  Proof.
    intros So Hr Ha. destruct (C15_epsilon_instances_satisfy_constraints_partial o sh w t So Hr Ha) as (e & He & Hq).
    exists (fun x => inst e (api_value (w_p w) t x)). intros q Hf Hne. apply Hq; [auto|apply Qcle_refl|auto|auto].
  Qed.
  (** hence a decision procedure *)
  Theorem C07_decides_satisfiability_partial o sh w t : step_ok (V := V) o -> reach o sh w -> plain sh -> o_global o = None -> t < length (w_th w) -> honoured sh w t ->
    (forall q, q ∈ sh_iqs sh -> q_lit q ∈ assigned w t -> watched sh q) ->
    (accepted w t <-> exists A : Sym -> Qc, forall q, q ∈ sh_iqs sh -> q_lit q ∈ assigned w t -> holds A q).
  Proof.
    intros So Hr Hp Hg Ht Hh Hw. split.
    - intros Ha. destruct (C07_no_conflict_satisfiable_partial o sh w t So Hr Ha) as (A & HA). exists A. intros q Hq Hl.
      assert (Hf : in_force sh w t q) by (split; auto). destruct (decide (q_lhs q = [])) as [El|]; auto.
      eapply empty_holds; eauto.
    - intros HA. split; auto. destruct (th_blk (thread_of w t)) eqn:Eb; auto. exfalso.
      exact (C07_conflict_unsatisfiable_partial o sh w t So Hr Hg (conj Ht Eb) HA).
  Qed.

  (** ** C08, C09, C10 *)
  Lemma check_big o sh w t h a total l1 l2 w' : step_ok (V := V) o -> reach o sh w -> adm (EvCheck t h a total l1 l2) w -> step o (EvCheck t h a total l1 l2) w w' ->
    (total = true -> w_log w' = w_log w \/ th_stk (thread_of w' t) = th_stk (thread_of w t) /\ os_bounded (p_state (w_p w)) = false -> th_blk (thread_of w' t) = false -> forall off s, p_slvs (w_p w') !! t = Some (off, s) -> optres s) /\
    (th_stk (thread_of w' t) = th_stk (thread_of w t) -> th_blk (thread_of w' t) = false /\ forall v b v' b', p_get_objective (w_p w) t = Ok (Some (v, b)) -> p_get_objective (w_p w') t = Ok (Some (v', b')) -> vle v v').
  Proof.
    intros So Hr Ha Hs. destruct (reach_inv o sh w So Hr) as (s0s & new0 & facts0 & ass & I). pose proof I as [R1 R2 R3 R4 R5 R6 R7 R7b R8 RW].
    destruct (step_big o _ w w' (4 ^ maxnv s0s) Hs) as (fuel & Hf & E).
    assert (Hfuel : forall s0, s0 ∈ s0s -> 4 ^ nv s0 <= fuel) by (intros s0 H0'; etransitivity; [apply pow_le, maxnv_le; eauto|auto]).
    destruct (step_check o (sh_iqs sh) (sh_obj sh) (p_vars (w_p w)) (sh_host sh) R2 R3 s0s (sh_log sh ++ new0) facts0 R4 So fuel Hfuel ass w t h a total l1 l2 RW Ha) as (w1 & ass' & E1 & _ & A & B & _).
    rewrite E in E1. injection E1 as <-. auto.
  Qed.

  (** check on a total assignment that returns without adding a clause *)
  Definition final o sh w w' t : Prop := reach o sh w /\ sh_obj sh <> [] /\ w_log w' = w_log w /\ accepted w' t /\
    exists h a l1 l2, adm (EvCheck t h a true l1 l2) w /\ step o (EvCheck t h a true l1 l2) w w'.

  Lemma final_view o sh w w' t : step_ok (V := V) o -> final o sh w w' t ->
    reach o sh w' /\ exists s0s new0 facts0 ass s0 s fs, RInv o sh s0s new0 facts0 ass w' /\ view o sh ass w' t s0 s fs /\
      Live (keep0 o) s0 fs s /\ p_get_objective (w_p w') t = Ok (Some (linV (api_value (w_p w') t) (sh_obj sh), ob_bounded (s_obj s))) /\
      ob_active (s_obj s0) = true /\ is_row (find_sym (p_vars (w_p w'))) s0 (ob_var (s_obj s0)) (sh_obj sh) /\
      (if ob_bounded (s_obj s) then optimal (ob_var (s_obj s0)) s else ray (ob_var (s_obj s0)) s).
  Proof.
    intros So (Hr & Hne & Hlog & [Ht Hb] & h & a & l1 & l2 & Ha & Hs).
    assert (Hr' : reach o sh w') by (eapply reach_step; eauto; exact Logic.I). split; auto.
    destruct (reach_inv o sh w' So Hr') as (s0s & new0 & facts0 & ass & I). destruct (get_view o sh s0s new0 facts0 ass w' t I Ht) as (s0 & s & fs & E0 & VW).
    exists s0s, new0, facts0, ass, s0, s, fs. split; auto. split; auto. pose proof VW as [(off & Es) P Ea HL _ T Nv]. specialize (HL Hb). split; auto.
    rewrite (view_objective o sh ass w' t s0 s fs) by (auto; apply I). destruct (decide (sh_obj sh = [])); [contradiction|]. split; auto.
    destruct (pd_obj1 _ _ _ _ _ _ _ P Hne) as (Hact & Hrow & _). split; auto. split; auto.
    destruct (check_big o sh w t h a true l1 l2 w' So Hr Ha Hs) as [Ho _]. specialize (Ho eq_refl (or_introl Hlog) Hb off s Es).
    unfold optres in Ho. rewrite (tb_act _ _ _ _ _ T), (tb_var _ _ _ _ _ T) in Ho. exact (Ho Hact).
  Qed.

  Theorem C08_optimum_partial o sh w w' t : step_ok (V := V) o -> final o sh w w' t ->
    exists v b, p_get_objective (w_p w') t = Ok (Some (v, b)) /\ v = linV (api_value (w_p w') t) (sh_obj sh) /\
      (b = true ->
        (* no solution of the constraints assigned true is better *)
        (forall A : Sym -> Qc, (forall q, q ∈ sh_iqs sh -> q_lit q ∈ assigned w' t -> q_lhs q <> [] -> holds A q) -> vle (vofq (lin A (sh_obj sh))) v) /\
        (* the value is reached for every small epsilon *)
        (exists e0, (0 < e0)%Qc /\ forall e, (0 < e)%Qc -> (e <= e0)%Qc -> exists A : Sym -> Qc,
            (forall q, in_force sh w' t q -> q_lhs q <> [] -> holds A q) /\ lin A (sh_obj sh) = inst e v)).
  Proof.
    intros So Hf. destruct (final_view o sh w w' t So Hf) as (Hr' & s0s & new0 & facts0 & ass & s0 & s & fs & I & VW & HL & Eo & Hact & Hrow & Ho).
    eexists _, _. split; [exact Eo|]. split; auto. intros Hbd. rewrite Hbd in Ho. pose proof VW as [Es P Ea _ _ T Nv]. set (z := ob_var (s_obj s0)) in *.
    assert (Hz : val s z = linV (api_value (w_p w') t) (sh_obj sh)).
    { destruct Hrow as (R1 & R2 & R3 & R4). rewrite R4.
      - apply linV_ext. intros c x _. symmetry. exact (api_rd o sh ass w' t s0 s fs x (ri_nd _ _ _ _ _ _ _ I) VW).
      - apply (md_R _ _ _ _ (lv_M _ _ _ _ HL)). apply (j_rows _ (md_J _ _ _ _ (lv_M _ _ _ _ HL))). }
    split.
    - intros A HA. rewrite <- Hz. destruct (decide (vle (vofq (lin A (sh_obj sh))) (val s z))) as [|Hn]; auto. apply vnot_le in Hn. exfalso.
      destruct (pd_ext _ _ _ _ _ _ _ P (fun x => vofq (A x))) as (a & Hr & Ha).
      assert (Haz : a z = vofq (lin A (sh_obj sh))).
      { destruct Hrow as (R1 & R2 & R3 & R4). rewrite (R4 a Hr), <- linV_ofq. apply linV_ext. intros c x Hin. apply Ha. apply (proj2 (ri_obj _ _ _ _ _ _ _ I) c x); auto. }
      assert (Hi : inall s a).
      { eapply inall_of; eauto. intros b Hb Hl.
        destruct (bound_reason o (sh_iqs sh) (sh_obj sh) (p_vars (w_p w')) (sh_host sh) s0 s ass (w_rep w') b P T Hb) as [(q & Hqi & Hne & R)|(Hin & Hne & Er & Hv)].
        - eapply (holds_bsat (find_sym (p_vars (w_p w')))); eauto; [apply (ri_lhs _ _ _ _ _ _ _ I); auto|]. apply HA; auto. destruct R as (<- & _). rewrite <- Ea. auto.
        - pose proof (live_bsat _ _ _ _ b HL Hb Hl) as Hbs. unfold bsat in *. rewrite Er in *. destruct Hrow as (R1 & R2 & R3 & R4).
          assert (Rs : rows s0 (val s)) by (apply (md_R _ _ _ _ (lv_M _ _ _ _ HL)), (j_rows _ (md_J _ _ _ _ (lv_M _ _ _ _ HL)))).
          rewrite Hv in Hbs by auto. rewrite <- R4 in Hbs by auto. rewrite Hv, <- R4 by auto. fold z. rewrite Haz. eapply vle_trans; [exact Hbs|]. apply vlt_le. auto. }
      apply Ho in Hi. rewrite Haz in Hi. apply vnot_lt in Hi. auto.
    - destruct (C15_epsilon_instances_satisfy_constraints_partial o sh w' t So Hr') as (e0 & He0 & He); [apply Hf|]. exists e0. split; auto.
      intros e Hp Hl. exists (fun x => inst e (api_value (w_p w') t x)). split; auto. rewrite <- inst_linV. auto.
  Qed.

  Theorem C09_unbounded_partial o sh w w' t v : step_ok (V := V) o -> final o sh w w' t -> p_get_objective (w_p w') t = Ok (Some (v, false)) ->
    forall M : Qc, exists A : Sym -> Qc, (forall q, in_force sh w' t q -> q_lhs q <> [] -> holds A q) /\ (M < lin A (sh_obj sh))%Qc.
  Proof.
    intros So Hf Hv M. destruct (final_view o sh w w' t So Hf) as (Hr' & s0s & new0 & facts0 & ass & s0 & s & fs & I & VW & HL & Eo & Hact & Hrow & Ho).
    rewrite Eo in Hv. injection Hv as _ Eb. rewrite Eb in Ho. set (z := ob_var (s_obj s0)) in *. pose proof VW as [Es P Ea _ _ T Nv].
    set (m := if Qclt_le_dec M (vemb (val s z)).1 then ((vemb (val s z)).1 + 1)%Qc else (M + 1)%Qc).
    assert (Hm : (M < m)%Qc /\ ((vemb (val s z)).1 < m)%Qc) by (subst m; destruct (Qclt_le_dec _ _); split; qclra).
    destruct (Ho (vofq m)) as (a & Hi & Haz). { apply vle_emb. rewrite vemb_ofq. left. apply Hm. }
    destruct (small_holds (rd (find_sym (p_vars (w_p w'))) a) (sh_iqs sh)) as (e & He & Hq).
    exists (fun x => inst e (rd (find_sym (p_vars (w_p w'))) a x)). assert (Hr : rows s0 a) by (apply (md_R _ _ _ _ (lv_M _ _ _ _ HL)); apply Hi). split.
    - intros q Hfo Hne. apply Hq; [auto|apply Qcle_refl|apply Hfo|].
      apply (accept_holds o sh ass w' t s0 s fs); auto; [apply I|apply I|]. intros b Hb Hl. eapply inall_bsat; eauto.
    - rewrite <- inst_linV. destruct Hrow as (R1 & R2 & R3 & R4). rewrite <- (R4 a Hr). fold z. rewrite Haz, inst_ofq. apply Hm.
  Qed.

  (** check terminates, does not report a conflict of its own, keeps the
      constraints satisfied and does not decrease the objective *)
  Theorem C10_optimize_keeps_feasible_partial o sh w t h a total l1 l2 : step_ok (V := V) o -> reach o sh w -> adm (EvCheck t h a total l1 l2) w ->
    exists w', step o (EvCheck t h a total l1 l2) w w' /\
      (* no facts had to be handed to the thread *)
      (assigned w' t = assigned w t /\ th_stk (thread_of w' t) = th_stk (thread_of w t) -> accepted w' t /\
        (forall q, in_force sh w' t q -> q_lhs q <> [] -> holdsV (api_value (w_p w') t) q) /\
        (sh_obj sh <> [] -> vle (linV (api_value (w_p w) t) (sh_obj sh)) (linV (api_value (w_p w') t) (sh_obj sh)))).
  Proof.
    intros So Hr Ha. destruct (C06_callbacks_terminate_partial o sh w _ So Hr Ha Logic.I) as (n & Hn). destruct (Hn n ltac:(lia)) as (w' & E). exists w'.
    assert (Hs : step o (EvCheck t h a total l1 l2) w w') by (exists n; auto). split; auto. intros [_ Hk].
    assert (Hr' : reach o sh w') by (eapply reach_step; eauto; exact Logic.I). destruct (check_big o sh w t h a total l1 l2 w' So Hr Ha Hs) as [_ B]. destruct (B Hk) as [Hb Hm].
    assert (Ht : t < length (w_th w)) by apply Ha.
    assert (Ht' : t < length (w_th w')).
    { cbn [wstep] in E. apply bind_ok in E as ([off s] & _ & E). apply bind_ok in E as ([[p log] ok] & _ & E). injection E as <-. cbn. rewrite insert_length. auto. }
    split; [split; auto|]. split; [intros q Hq Hne; eapply C01_values_satisfy_constraints_partial; eauto; split; auto|].
    intros Hne. destruct (reach_inv o sh w So Hr) as (s0s & new0 & facts0 & ass & I). destruct (get_view o sh s0s new0 facts0 ass w t I Ht) as (s0 & s & fs & E0 & VW).
    destruct (reach_inv o sh w' So Hr') as (s0s' & new0' & facts0' & ass' & I'). destruct (get_view o sh s0s' new0' facts0' ass' w' t I' Ht') as (s0' & s' & fs' & E0' & VW').
    pose proof (view_objective o sh ass w t s0 s fs ltac:(apply I) ltac:(apply I) VW ltac:(apply Ha)) as O1.
    pose proof (view_objective o sh ass' w' t s0' s' fs' ltac:(apply I') ltac:(apply I') VW' Hb) as O2.
    destruct (decide (sh_obj sh = [])); [contradiction|]. eapply Hm; eauto.
  Qed.
End props.
