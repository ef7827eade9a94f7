(** * C49: the assertions of the cross-check build never fail

    Checks.v models the build with CLINGOLPX_CROSSCHECK and without NDEBUG:
    [wstep_x] and [p_init_x] are the callbacks and init with all assertions; a
    failing assertion gives [UB]. *)

From stdpp Require Import list_numbers.
From Verif Require Import Num Sums Tableau TableauProofs Bland Solver SolverBase SolverStep Simplex SimplexLoop Optimize Spec Prepare Propagator World ThreadOk WorldProofs Reach Weak WeakHist WeakReach
  Observe Examples Props_Equality Props_Terminate Checks ChecksProofs.

Section props.
  Context {V : Type} `{VL : ValueLaws V} {Sym : Type} `{EqDecision Sym}.
  Implicit Types w : world V Sym.
  Implicit Types sh : shot V Sym.

  (** Sessions of the cross-check build: as [reach] (World.v), but every init and
      every callback is the one with assertions and returns normally. *)
  Inductive reach_x (o : options) : shot V Sym -> world V Sym -> Prop :=
    | reach_x_first sh p log : shot_ok sh -> sh_log sh = [] ->
        p_init_x (sh_host sh) o (sh_sort sh) (sh_threads sh) (sh_iqs sh) (sh_obj sh) new_propagator [] = Ok (p, log, true) ->
        reach_x o sh (start p log)
    | reach_x_next sh0 w0 sh p log : reach_x o sh0 w0 -> shot_ok sh -> sh_log sh = w_log w0 ->
        p_init_x (sh_host sh) o (sh_sort sh) (sh_threads sh) (sh_iqs sh) (sh_obj sh) (w_p w0) (w_log w0) = Ok (p, log, true) ->
        reach_x o sh (start p log)
    | reach_x_step sh w e w' : reach_x o sh w -> adm e w -> eq_safe e w -> (exists fuel, wstep_x fuel o e w = Ok w') -> reach_x o sh w'.

  Lemma reach_nodup o sh w : step_ok (V := V) o -> reach o sh w -> NoDup (p_vars (w_p w)).
  Proof. intros So R. destruct (reach_inv o sh w So R) as (s0s & new0 & facts0 & ass & I). apply (ri_nd _ _ _ _ _ _ _ I). Qed.
  Lemma step_x_iff o sh w e w' : step_ok (V := V) o -> reach o sh w -> adm e w -> eq_safe e w -> (exists fuel, wstep_x fuel o e w = Ok w') <-> step o e w w'.
  Proof.
    intros So R Ha Hs. destruct (reach_inv o sh w So R) as (s0s & new0 & facts0 & ass & I). split; intros (fuel & E); set (f := Nat.max fuel (4 ^ maxnv s0s)); exists f.
    - rewrite <- (wstep_x_eq o sh s0s new0 facts0 ass w e f I So Ha Hs) by (subst f; lia). revert E. apply wstep_x_mono. subst f; lia.
    - rewrite (wstep_x_eq o sh s0s new0 facts0 ass w e f I So Ha Hs) by (subst f; lia). revert E. apply wstep_mono. subst f; lia.
  Qed.

  (** Both builds have the same sessions. *)
  Theorem C49_same_sessions o sh w : step_ok (V := V) o -> reach_x o sh w <-> reach o sh w.
  Proof.
    intros So. split; intros R.
    - induction R as [sh p log Hs El E|sh0 w0 sh p log R IH Hs El E|sh w e w' R IH Ha Hsf E].
      + rewrite p_init_x_eq in E by (auto; constructor). apply reach_first; auto.
      + rewrite p_init_x_eq in E by (auto; eapply reach_nodup; eauto). eapply reach_next; eauto.
      + eapply reach_step; eauto. eapply step_x_iff; eauto.
    - induction R as [sh p log Hs El E|sh0 w0 sh p log R IH Hs El E|sh w e w' R IH Ha Hsf E].
      + apply reach_x_first; auto. rewrite p_init_x_eq by (auto; constructor). auto.
      + eapply reach_x_next; eauto. rewrite p_init_x_eq by (auto; eapply reach_nodup; eauto). auto.
      + eapply reach_x_step; eauto. eapply step_x_iff; eauto.
  Qed.

  (** In every state of every session: every callback passes all its assertions
      and ends in the state in which the release build ends. *)
  Theorem C49_callbacks_partial o sh w e : step_ok (V := V) o -> reach o sh w -> adm e w -> eq_safe e w ->
    exists w' n, forall fuel, n <= fuel -> wstep_x fuel o e w = Ok w' /\ wstep fuel o e w = Ok w'.
  Proof.
    intros So R Ha Hs. destruct (reach_inv o sh w So R) as (s0s & new0 & facts0 & ass & I).
    destruct (step_progress o sh s0s new0 facts0 ass w e (4 ^ maxnv s0s) I So Ha Hs ltac:(lia)) as (w' & ass' & E & _).
    exists w', (4 ^ maxnv s0s). intros fuel Hf. rewrite (wstep_x_eq o sh s0s new0 facts0 ass w e fuel I So Ha Hs Hf). split; revert E; apply wstep_mono; auto.
  Qed.

  (** no assertion fails in init: not in the first call ... *)
  Theorem C49_init o sh : shot_ok sh ->
    exists p log ok, p_init_x (sh_host sh) o (sh_sort sh) (sh_threads sh) (sh_iqs sh) (sh_obj sh) new_propagator [] = Ok (p, log, ok) /\
      p_init (sh_host sh) o (sh_sort sh) (sh_threads sh) (sh_iqs sh) (sh_obj sh) new_propagator [] = Ok (p, log, ok).
  Proof.
    intros Hs. rewrite p_init_x_eq by (auto; constructor).
    destruct (p_init_ok o sh new_propagator [] Hs ltac:(constructor)) as (p & log & ok & -> & _). eauto.
  Qed.
  (** ... and not in later ones, whatever happened before (equality bug included) *)
  Theorem C49_init_next o sh0 w sh : step_ok (V := V) o -> reach_any o sh0 w -> shot_ok sh ->
    exists p log ok, p_init_x (sh_host sh) o (sh_sort sh) (sh_threads sh) (sh_iqs sh) (sh_obj sh) (w_p w) (w_log w) = Ok (p, log, ok) /\
      p_init (sh_host sh) o (sh_sort sh) (sh_threads sh) (sh_iqs sh) (sh_obj sh) (w_p w) (w_log w) = Ok (p, log, ok).
  Proof.
    intros So Hr Hs. destruct (any_inv o sh0 w So Hr) as (act & s0s & I). rewrite p_init_x_eq by (auto; apply (ww_nd _ _ _ _ _ I)).
    destruct (p_init_ok o sh (w_p w) (w_log w) Hs (ww_nd _ _ _ _ _ I)) as (p & log & ok & -> & _). eauto.
  Qed.

  (** The tableau never goes wrong: between any two callbacks of any session,
      the ones that run into the equality bug included, check_tableau_ finds
      that the values satisfy all rows. *)
  Theorem C49_tableau o sh w : step_ok (V := V) o -> reach_any o sh w -> forall t off s, p_slvs (w_p w) !! t = Some (off, s) -> check_tableau s = Ok true.
  Proof.
    intros So Hr t off s Es. destruct (any_inv o sh w So Hr) as (act & s0s & I).
    destruct (lookup_lt_is_Some_2 s0s t) as [s0 E0]; [rewrite <- (ww_len1 _ _ _ _ _ I); eapply lookup_lt_Some; eauto|].
    destruct (ww_th _ _ _ _ _ I t _ s0 Es E0) as [[HK HR Hnv Hh] _]. apply check_tableau_ok; apply HK.
  Qed.

  (** ** What the checks mean *)
  (** check_solution_ accepts a state only if the values are within all bounds *)
  Theorem C49_check_bounds (s : solver V) : check_solution s = Ok true -> forall x v, s_vars s !! x = Some v ->
    (forall b, v_lower v = Some b -> vle (b_val b) (v_val v)) /\ (forall b, v_upper v = Some b -> vle (v_val v) (b_val b)).
  Proof.
    unfold check_solution. destruct (forallb within_bounds (s_vars s)) eqn:E; [|discriminate]. intros _ x v Hx.
    rewrite forallb_forall in E. specialize (E v). rewrite <- elem_of_list_In in E. specialize (E (elem_of_list_lookup_2 _ _ _ Hx)).
    unfold within_bounds in E. apply andb_true_iff in E as [E1 E2]. split; intros b Hb; rewrite Hb in *.
    - apply negb_true_iff in E1. apply vgtb_false; auto.
    - apply negb_true_iff in E2. apply vgtb_false; auto.
  Qed.
  Lemma for_all_inv f l : for_all f l = Ok true -> forall i, i ∈ l -> f i = Ok true.
  Proof.
    induction l as [|k l IH]; cbn; intros E i Hi; [inversion Hi|]. apply bind_ok in E as (b & E1 & E). destruct b; [|discriminate].
    apply elem_of_cons in Hi as [->|Hi]; auto.
  Qed.
  (** check_tableau_ accepts a state only if every basic variable has the value of its row *)
  Theorem C49_check_rows (s : solver V) : shape s -> (check_tableau s = Ok true <-> rows s (val s)).
  Proof.
    intros Sh. split; [|apply check_tableau_ok; auto]. intros E b Hb Bb. destruct (basic_idx s b Sh Hb Bb) as [Hi Ei].
    assert (Hr := for_all_inv _ _ E (ridx s b - s_nn s) ltac:(apply elem_of_seq; lia)). unfold check_tableau_row in Hr. rewrite row_value in Hr by auto.
    cbn [mbind res_bind] in Hr. rewrite basic_x_eq, basic_ok in Hr by auto. cbn [mbind res_bind] in Hr. rewrite Ei in Hr. rewrite at_vr in Hr by auto. cbn [mbind res_bind] in Hr.
    injection Hr as Hr. apply veqb_spec in Hr. change (v_val (vr s b)) with (val s b) in Hr. rewrite <- Hr. pose proof (row_sum s (ridx s b - s_nn s) (val s) Sh Hi) as Hs. rewrite Ei in Hs. rewrite Hs. vring.
  Qed.
End props.

(** ** Examples and the equality bug *)
(** the cross-check build runs the example session with global optimization *)
Theorem C49_example : reach_x ex_gopts (ex_shot 2 []) (ex_world ex_gopts 2 evs_global).
Proof. apply C49_same_sessions; [apply ex_step_ok|apply ex_global]. Qed.

(** The equality bug makes an assertion fail: after x <= 5 on level 0 and x = 3
    on level 1 undo gives x the lower bound 5 while its value is 0; the
    cross-check build aborts, the release build continues. *)
Definition w_before_undo : world Qc nat := get (world_of iqs_up [ev_prop 0 0 [10%Z]; ev_prop 0 1 [21%Z]]) ltac:(vm_compute; reflexivity).
Theorem C49_refuted : exists iqs w, session iqs w /\ adm (EvUndo 0) w /\ (forall fuel, exists w', wstep fuel opts (EvUndo 0) w = Ok w') /\
  forall fuel, wstep_x fuel opts (EvUndo 0) w = UB.
Proof.
  exists iqs_up, w_before_undo. split; [eapply session_of; [vm_compute; reflexivity|apply get_eq]|].
  split; [apply admb_ok; vm_compute; reflexivity|]. split; intros fuel.
  - cbn [wstep]. destruct (p_undo 0 (w_p w_before_undo)) as [p| | |] eqn:E; [cbn [mbind res_bind]; eauto|exfalso..];
      (assert (X : match p_undo 0 (w_p w_before_undo) with Ok _ => true | _ => false end = true) by (vm_compute; reflexivity)); rewrite E in X; discriminate X.
  - vm_compute. reflexivity.
Qed.
