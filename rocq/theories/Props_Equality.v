(** * The trail mishandles equality bounds: C01, C02, C05, C07 are false in general

    Variable::update_lower (solving.cc 190-204) merges the trail entries of an
    equality: it turns the last entry into "restore lower and upper bound to
    the same bound".  If the variable had a bound on one side before, undo
    gives it that bound on both sides, or loses it.  The theorems of
    Props_Solver.v exclude this by [eq_safe]. *)

From Verif Require Import Num Sums Tableau Solver Spec Propagator World Observe Examples.

(** a session of one shot and one thread, default options, over rationals;
    no condition on the use of equalities *)
Definition opts : options := default_options.
Definition begin (iqs : list (ineq nat)) : res (world Qc nat) :=
  '(p, log, ok) ← p_init quiet opts (fun _ l => l) 1 iqs [] new_propagator []; if (ok : bool) then Ok (start p log) else Exn.
Definition session (iqs : list (ineq nat)) (w : world Qc nat) : Prop :=
  (forall q, q ∈ iqs -> normal (q_lhs q) /\ (q_rel q = Rle \/ q_rel q = Rge \/ q_rel q = Req)) /\
  exists w0 evs fuel, begin iqs = Ok w0 /\ adm_run fuel opts evs w0 /\ run fuel opts evs w0 = Ok w.

Definition world_of (iqs : list (ineq nat)) (evs : list event) : option (world Qc nat) :=
  match begin iqs with Ok w0 => runb 50 opts evs w0 | _ => None end.
Definition wf_iq (q : ineq nat) : bool :=
  bool_decide (NoDup (map snd (q_lhs q))) && forallb (fun t => negb (Qc_eq_bool t.1 0)) (q_lhs q) && match q_rel q with Rle | Rge | Req => true | _ => false end.
Lemma session_of iqs evs w : forallb wf_iq iqs = true -> world_of iqs evs = Some w -> session iqs w.
Proof.
  intros Hw E. split.
  - intros q Hq. rewrite forallb_forall in Hw. specialize (Hw q (proj1 (elem_of_list_In _ _) Hq)). unfold wf_iq in Hw. apply andb_true_iff in Hw as [Hw Hr]. apply andb_true_iff in Hw as [H1 H2].
    apply bool_decide_eq_true in H1. split; [split; auto|destruct (q_rel q); auto; discriminate]. intros c x Hin ->. rewrite forallb_forall in H2.
    specialize (H2 _ (proj1 (elem_of_list_In _ _) Hin)). discriminate.
  - unfold world_of in E. destruct (begin iqs) as [w0| | |] eqn:E0; try discriminate. apply runb_ok in E as [E1 E2]. exists w0, evs, 50. auto.
Qed.

(** x <= 5 on level 0, x = 3 on level 1, backtrack, x <= 4 on level 1 *)
Definition iqs_up : list (ineq nat) := [Ineq [(qz 1, 0)] (qz 5) Rle 10; Ineq [(qz 1, 0)] (qz 3) Req 21; Ineq [(qz 1, 0)] (qz 4) Rle 31].
Definition evs_up : list event := [ev_prop 0 0 [10%Z]; ev_prop 0 1 [21%Z]; EvUndo 0; ev_prop 0 1 [31%Z]].
(** x >= 1 on level 0, x = 3 on level 1, backtrack, x <= 0 on level 1 *)
Definition iqs_lo : list (ineq nat) := [Ineq [(qz 1, 0)] (qz 1) Rge 10; Ineq [(qz 1, 0)] (qz 3) Req 21; Ineq [(qz 1, 0)] (qz 0) Rle 31].
Definition evs_lo : list event := [ev_prop 0 0 [10%Z]; ev_prop 0 1 [21%Z]; EvUndo 0; ev_prop 0 1 [31%Z]].

Definition get {A} (o : option A) (H : match o with Some _ => true | None => false end = true) : A :=
  match o return match o with Some _ => true | None => false end = true -> A with
  | Some x => fun _ => x
  | None => fun H => False_rect _ (Bool.diff_false_true H)
  end H.
Lemma get_eq {A} (o : option A) H : o = Some (get o H).
Proof. destruct o; [auto|discriminate]. Qed.

Definition w_up : world Qc nat := get (world_of iqs_up evs_up) ltac:(vm_compute; reflexivity).
Definition w_lo : world Qc nat := get (world_of iqs_lo evs_lo) ltac:(vm_compute; reflexivity).

(** a state is accepted although the values violate a constraint assigned true:
    x = 0 is reported with x >= 1 true *)
Theorem C01_refuted : exists iqs w q, session iqs w /\ accepted w 0 /\ q ∈ iqs /\ q_lit q ∈ assigned w 0 /\ ~ holdsV (api_value (w_p w) 0) q.
Proof.
  exists iqs_lo, w_lo, (Ineq [(qz 1, 0)] (qz 1) Rge 10). split; [|split; [|split; [|split]]].
  - eapply session_of; [vm_compute; reflexivity|apply get_eq].
  - split; [vm_compute; lia|vm_compute; reflexivity].
  - left.
  - vm_compute. right. left.
  - vm_compute. intros H. apply H. reflexivity.
Qed.
(** a clause is added that forbids x <= 5 together with x <= 4 *)
Theorem C02_refuted : exists iqs w c, session iqs w /\ c ∈ w_log w /\ ~ clause_sound iqs c.
Proof.
  exists iqs_up, w_up, [(-31)%Z; (-10)%Z]. split; [|split].
  - eapply session_of; [vm_compute; reflexivity|apply get_eq].
  - vm_compute. left.
  - intros (bad & E & Hs & Hu). apply Hu. exists (fun _ => qz 0). intros q Hq. specialize (Hs q Hq).
    assert (Hl : (- q_lit q)%Z ∈ [(-31)%Z; (-10)%Z]) by (rewrite E; apply elem_of_list_In, in_map_iff; exists q; split; auto; apply elem_of_list_In; auto).
    unfold iqs_up in Hs. rewrite !elem_of_cons in Hs. destruct Hs as [-> |[-> |[-> |Hs]]]; [| | |inversion Hs].
    + vm_compute. discriminate.
    + exfalso. rewrite !elem_of_cons in Hl. destruct Hl as [Hl|[Hl|Hl]]; [discriminate..|inversion Hl].
    + vm_compute. discriminate.
Qed.
(** undo does not restore the bounds: after x <= 5, x = 3, undo the lower bound is not the one before *)
Theorem C05_refuted : exists iqs w w' e, session iqs w /\ adm (EvUndo 0) w /\ step opts (EvUndo 0) w w' /\
  head (th_stk (thread_of w 0)) = Some e /\ map fst (snaps (w_p w') 0) <> map fst (en_snap e).
Proof.
  set (w := get (world_of iqs_up [ev_prop 0 0 [10%Z]; ev_prop 0 1 [21%Z]]) ltac:(vm_compute; reflexivity)).
  assert (H : match wstep 50 opts (EvUndo 0) w with Ok _ => true | _ => false end = true) by (vm_compute; reflexivity).
  destruct (wstep 50 opts (EvUndo 0) w) as [w'| | |] eqn:E; try discriminate.
  exists iqs_up, w, w', (hd (Entry 0 [] []) (th_stk (thread_of w 0))). split; [eapply session_of; [vm_compute; reflexivity|apply get_eq]|].
  split; [apply admb_ok; vm_compute; reflexivity|]. split; [exists 50; auto|]. split; [vm_compute; reflexivity|].
  assert (X : map (fun x => match x.1 with Some _ => true | None => false end) (map fst (snaps (w_p w') 0)) = [true]).
  { assert (Y : match wstep 50 opts (EvUndo 0) w with Ok w1 => map (fun x => match x.1 with Some _ => true | None => false end) (map fst (snaps (w_p w1) 0)) | _ => [] end = [true]) by (vm_compute; reflexivity).
    rewrite E in Y. exact Y. }
  intros Eq. rewrite Eq in X. revert X. vm_compute. discriminate.
Qed.
(** a conflict is reported although the constraints assigned true have a solution, and
    conversely: the check is not a decision procedure *)
Theorem C07_refuted : (exists iqs w, session iqs w /\ blocked w 0 /\ exists A : nat -> Qc, forall q, q ∈ iqs -> q_lit q ∈ assigned w 0 -> holds A q) /\
  (exists iqs w, session iqs w /\ accepted w 0 /\ ~ exists A : nat -> Qc, forall q, q ∈ iqs -> q_lit q ∈ assigned w 0 -> holds A q).
Proof.
  split.
  - exists iqs_up, w_up. split; [eapply session_of; [vm_compute; reflexivity|apply get_eq]|]. split; [split; [vm_compute; lia|vm_compute; reflexivity]|].
    exists (fun _ => qz 0). intros q Hq Hl. unfold iqs_up in Hq. rewrite !elem_of_cons in Hq. destruct Hq as [-> |[-> |[-> |Hq]]]; [| | |inversion Hq].
    + vm_compute. discriminate.
    + exfalso. revert Hl. replace (assigned w_up 0) with [31%Z; 10%Z] by (vm_compute; reflexivity). cbn. intros Hl.
      rewrite !elem_of_cons in Hl. destruct Hl as [Hl|[Hl|Hl]]; [discriminate..|inversion Hl].
    + vm_compute. discriminate.
  - exists iqs_lo, w_lo. split; [eapply session_of; [vm_compute; reflexivity|apply get_eq]|]. split; [split; [vm_compute; lia|vm_compute; reflexivity]|].
    intros (A & HA). assert (Ea : assigned w_lo 0 = [31%Z; 10%Z]) by (vm_compute; reflexivity). rewrite Ea in HA.
    assert (H1 := HA (Ineq [(qz 1, 0)] (qz 1) Rge 10) ltac:(left) ltac:(right; left)).
    assert (H2 := HA (Ineq [(qz 1, 0)] (qz 0) Rle 31) ltac:(right; right; left) ltac:(left)).
    unfold holds in H1, H2. cbn in H1, H2. assert (E1 : qz 1 = 1%Qc) by (apply Qc_is_canon; reflexivity). assert (E0 : qz 0 = 0%Qc) by (apply Qc_is_canon; reflexivity).
    rewrite E1, ?E0 in *. clear - H1 H2. qclra.
Qed.

(** Undefined behaviour: y >= 1 on level 1; x <= 10, y >= 2 and x = 3 on level
    2.  The equality on x turns the trail entry of y >= 2 into "restore both
    bounds of y".  After undoing both levels y keeps an upper bound whose
    literal is unassigned and the trail is empty.  Then y = 0 on level 0
    evaluates bound_trail_.back() on the empty trail, whatever level clingo
    reports for the unassigned literal. *)
Definition iqs_ub : list (ineq nat) :=
  [Ineq [(qz 1, 0)] (qz 1) Rge 11; Ineq [(qz 1, 1)] (qz 10) Rle 12; Ineq [(qz 1, 0)] (qz 2) Rge 22; Ineq [(qz 1, 1)] (qz 3) Req 32; Ineq [(qz 1, 0)] (qz 0) Req 40].
Definition evs_ub : list event := [ev_prop 0 1 [11%Z]; ev_prop 0 2 [12%Z; 22%Z; 32%Z]; EvUndo 0; EvUndo 0].
Definition w_ub : world Qc nat := get (world_of iqs_ub evs_ub) ltac:(vm_compute; reflexivity).
Theorem C14_refuted : exists iqs w l, session iqs w /\ forall h a, a_dl a = 0 -> a_level a l = 0 ->
  adm (EvPropagate 0 h a [l]) w /\ forall fuel, wstep fuel opts (EvPropagate 0 h a [l]) w = UB.
Proof.
  exists iqs_ub, w_ub, 40%Z. split; [eapply session_of; [vm_compute; reflexivity|apply get_eq]|].
  intros h [lv dl] Hd Hl. cbn in Hd, Hl. subst dl. split.
  - cbn [adm]. split; [vm_compute; lia|]. split; [vm_compute; reflexivity|]. split; [vm_compute; lia|]. split.
    + replace (th_stk (thread_of w_ub 0)) with (@nil (entry Qc)) by (vm_compute; reflexivity). intros e l He. inversion He.
    + intros l Hin. apply elem_of_list_singleton in Hin as ->. auto.
  - intros fuel. vm_compute. reflexivity.
Qed.

(** The verdict depends on the history: with x <= 5 and x <= 4 true the session
    that tried x = 3 before reports a conflict, the one that did not accepts. *)
Definition w_direct : world Qc nat := get (world_of iqs_up [ev_prop 0 0 [10%Z]; ev_prop 0 1 [31%Z]]) ltac:(vm_compute; reflexivity).
Theorem C44_refuted : exists iqs w w', session iqs w /\ session iqs w' /\ assigned w 0 = assigned w' 0 /\ blocked w 0 /\ accepted w' 0.
Proof.
  exists iqs_up, w_up, w_direct. split; [|split; [|split; [|split]]].
  - eapply session_of; [vm_compute; reflexivity|apply get_eq].
  - eapply session_of; [vm_compute; reflexivity|apply get_eq].
  - vm_compute. reflexivity.
  - split; [vm_compute; lia|vm_compute; reflexivity].
  - split; [vm_compute; lia|vm_compute; reflexivity].
Qed.
