(** * C06: every callback that runs the feasibility loop ends

    Unlike most theorems about histories, the ones here do not ask the history
    to avoid the equality bug ([eq_safe], World.v): [reach_any] ranges over all
    admissible histories of all sessions.  In a state damaged by that bug a
    call can run into undefined behaviour ([UB]: back() of an empty vector in
    update_lower, see Props_Equality.v, C14_refuted), but the loops of
    propagate, undo and check (on partial assignments) still end: their number
    of iterations is bounded by a number that depends on the state only. *)

From Verif Require Import Num Sums Tableau TableauProofs Bland Solver SolverBase Spec Prepare Propagator World ThreadOk WorldProofs Reach Weak WeakHist WeakReach Observe Examples Props_Equality.

Section props.
  Context {V : Type} `{VL : ValueLaws V} {Sym : Type} `{EqDecision Sym}.
  Implicit Types w : world V Sym.

  (** the callback has been computed to its end: it returned or ran into undefined behaviour *)
  Definition ended {A} (r : res A) : Prop := match r with Ok _ | UB => True | _ => False end.

  (** For every problem, every history of every session and every set of
      literals: a call to propagate does not loop and does not throw. *)
  Theorem C06_propagate_terminates o sh w t h a lits : step_ok (V := V) o -> reach_any o sh w -> adm (EvPropagate t h a lits) w ->
    exists n, forall fuel, n <= fuel -> ended (wstep fuel o (EvPropagate t h a lits) w).
  Proof.
    intros So Hr Ha. destruct (any_inv o sh w So Hr) as (act & s0s & I). exists (8 ^ maxnv s0s). intros fuel Hf.
    pose proof (step_w o sh act s0s w _ fuel So I Ha Hf) as Hs. destruct (wstep fuel o _ w); cbn in *; auto. discriminate.
  Qed.
  (** The same for check unless it is called on a total assignment (then it
      also optimizes; see C10 for histories that avoid the equality bug). *)
  Theorem C06_check_terminates o sh w t h a l1 l2 : step_ok (V := V) o -> reach_any o sh w -> adm (EvCheck t h a false l1 l2) w ->
    exists n, forall fuel, n <= fuel -> ended (wstep fuel o (EvCheck t h a false l1 l2) w).
  Proof.
    intros So Hr Ha. destruct (any_inv o sh w So Hr) as (act & s0s & I). exists (8 ^ maxnv s0s). intros fuel Hf.
    pose proof (step_w o sh act s0s w _ fuel So I Ha Hf) as Hs. destruct (wstep fuel o _ w); cbn in *; auto. discriminate.
  Qed.
  (** undo and on_model have no loop that depends on the values; they always return *)
  Theorem C06_undo_returns o sh w t : step_ok (V := V) o -> reach_any o sh w -> adm (EvUndo t) w ->
    forall fuel, exists w', wstep fuel o (EvUndo t) w = Ok w'.
  Proof.
    intros So Hr Ha fuel. destruct (any_inv o sh w So Hr) as (act & s0s & [A A1 A2 A3 B C D E G]). destruct Ha as (Ht & Hdl).
    destruct (lookup_lt_is_Some_2 (p_slvs (w_p w)) t) as [[off s] Es]; [lia|]. destruct (lookup_lt_is_Some_2 s0s t) as [s0 E0]; [lia|].
    destruct (D t (off, s) s0 Es E0) as [HW _]. cbn [snd] in HW. cbn [wstep]. unfold p_undo. unfold at_ at 1. rewrite Es. cbn [deref mbind res_bind].
    destruct (th_stk (thread_of w t)) as [|en r] eqn:Ek; [cbn in Hdl; lia|]. cbn [map toplevel] in Hdl, HW.
    destruct (undo_w s0 (en_level en) (map en_level r) s HW Hdl) as (s1 & -> & _). cbn [mbind res_bind]. eauto.
  Qed.
  (** the pivots: the number of pivots of a propagate call is at most 8 to the
      power of the number of variables (including one per constraint) *)
  Theorem C06_bound o sh w : step_ok (V := V) o -> reach_any o sh w ->
    exists m, (forall t x, p_slvs (w_p w) !! t = Some x -> length (s_vars x.2) <= m) /\
      forall e, adm e w -> (forall t h a l1 l2, e <> EvCheck t h a true l1 l2) -> ended (wstep (8 ^ m) o e w).
  Proof.
    intros So Hr. destruct (any_inv o sh w So Hr) as (act & s0s & I). exists (maxnv s0s). split.
    - intros t x Ex. destruct (lookup_lt_is_Some_2 s0s t) as [s0 E0]; [rewrite <- (ww_len1 _ _ _ _ _ I); eapply lookup_lt_Some; eauto|].
      destruct (ww_th _ _ _ _ _ I t x s0 Ex E0) as [HW _]. change (length (s_vars x.2)) with (nv x.2). rewrite (wk_nv _ _ _ HW). apply maxnv_le. eapply elem_of_list_lookup_2; eauto.
    - intros e Ha Hne. pose proof (step_w o sh act s0s w e (8 ^ maxnv s0s) So I Ha ltac:(lia)) as Hs. destruct (wstep _ o e w); cbn in *; auto.
      destruct e as [| t h a total l1 l2| |]; try discriminate. cbn in Hs. subst total. exfalso. eapply Hne; eauto.
  Qed.
End props.

(** ** The hypotheses are met by states damaged by the equality bug *)
Definition shot_eq (iqs : list (ineq nat)) : shot Qc nat := Shot quiet (fun _ l => l) 1 iqs [] [].
Lemma run_any o (sh : shot Qc nat) fuel evs : forall w w', reach_any o sh w -> adm_run fuel o evs w -> run fuel o evs w = Ok w' -> reach_any o sh w'.
Proof.
  induction evs as [|e evs IH]; intros w w' Hr Ha E; cbn [run adm_run] in *.
  - injection E as <-. auto.
  - destruct Ha as [Ha Hn]. apply bind_ok in E as (w1 & E1 & E2). rewrite E1 in Hn. apply (IH w1 w'); auto. eapply any_step; eauto. exists fuel. auto.
Qed.
Lemma session_any iqs w : session iqs w -> reach_any opts (shot_eq iqs) w.
Proof.
  intros (Hq & w0 & evs & fuel & E0 & Ha & E). apply (run_any opts (shot_eq iqs) fuel evs w0 w); auto. unfold begin in E0.
  apply bind_ok in E0 as ([[p log] ok] & E0 & E1). destruct ok; [|discriminate]. injection E1 as <-. apply any_first; [|exact E0]. constructor; cbn.
  - intros q Hin. apply Hq; auto.
  - split; [constructor|]. intros c x Hin. inversion Hin.
  - intros q Hin. destruct (Hq q Hin) as [_ Hr]. split; apply representable_Qc; destruct Hr as [-> |[-> | ->]]; cbn; auto.
  - auto.
Qed.
(** in this state x = 0 although x >= 1 is assigned true; propagate may be called in it and ends *)
Theorem C06_covers_damaged_states : exists sh (w : world Qc nat) q h a lits, reach_any opts sh w /\ accepted w 0 /\
  q ∈ sh_iqs sh /\ q_lit q ∈ assigned w 0 /\ ~ holdsV (api_value (w_p w) 0) q /\ adm (EvPropagate 0 h a lits) w.
Proof.
  exists (shot_eq iqs_lo), w_lo, (Ineq [(qz 1, 0)] (qz 1) Rge 10), quiet, (lev 2), [22%Z].
  split; [apply session_any; eapply session_of; [vm_compute; reflexivity|apply get_eq]|].
  split; [split; [vm_compute; lia|vm_compute; reflexivity]|]. split; [left|]. split; [vm_compute; right; left|].
  split; [vm_compute; intros F; apply F; reflexivity|]. apply admb_ok. vm_compute. reflexivity.
Qed.
(** and the case of undefined behaviour does occur *)
Theorem C06_covers_undefined : exists sh (w : world Qc nat) h a lits, reach_any opts sh w /\ adm (EvPropagate 0 h a lits) w /\ forall fuel, wstep fuel opts (EvPropagate 0 h a lits) w = UB.
Proof.
  destruct C14_refuted as (iqs & w & l & Hs & Hl). exists (shot_eq iqs), w, quiet, (Asg (fun _ => 0) 0), [l].
  split; [apply session_any; auto|]. apply Hl; auto.
Qed.
