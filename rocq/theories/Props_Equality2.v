(** * The equality bug: C03, C08, C09, C27, C34, C35, C41, C42 are false in general

    The same defect as in Props_Equality.v, seen through the other properties:
    their theorems are false if [reach] is replaced by [reach_any], that is,
    if nothing is asked of equalities. *)

From Verif Require Import Num Sums Tableau Solver Spec Prepare Propagator World WorldProofs Reach WeakReach Observe Examples Props_Equality Props_Solver Props_Facts Progress Props_Progress.

Section any.
  Definition shot2 (iqs : list (ineq nat)) (obj : list (Qc * nat)) : shot Qc nat := Shot quiet (fun _ l => l) 1 iqs obj [].
  Definition begin2 (o : options) (iqs : list (ineq nat)) (obj : list (Qc * nat)) (p : propagator Qc nat) (log : list (list Z)) : option (world Qc nat) :=
    match p_init quiet o (fun _ l => l) 1 iqs obj p log with Ok (p, log, true) => Some (start p log) | _ => None end.
  Definition world2 (o : options) (iqs : list (ineq nat)) (obj : list (Qc * nat)) (evs : list event) : option (world Qc nat) :=
    match begin2 o iqs obj new_propagator [] with Some w0 => runb 50 o evs w0 | None => None end.
  Definition wf_obj (ts : list (Qc * nat)) : bool := bool_decide (NoDup (map snd ts)) && forallb (fun t => negb (Qc_eq_bool t.1 0)) ts.
  Lemma wf_normal ts : wf_obj ts = true -> normal ts.
  Proof.
    intros Hw. apply andb_true_iff in Hw as [H1 H2]. apply bool_decide_eq_true in H1. split; auto. intros c x Hin ->. rewrite forallb_forall in H2.
    specialize (H2 _ (proj1 (elem_of_list_In _ _) Hin)). discriminate.
  Qed.
  Lemma shot2_ok iqs obj log : forallb wf_iq iqs = true -> wf_obj obj = true -> shot_ok (Shot quiet (fun _ l => l) 1 iqs obj log : shot Qc nat).
  Proof.
    intros Hw Ho. assert (Hq : forall q, q ∈ iqs -> normal (q_lhs q) /\ (q_rel q = Rle \/ q_rel q = Rge \/ q_rel q = Req)).
    { intros q Hq. rewrite forallb_forall in Hw. specialize (Hw q (proj1 (elem_of_list_In _ _) Hq)). unfold wf_iq in Hw. apply andb_true_iff in Hw as [Hw Hr].
      split; [apply wf_normal; exact Hw|destruct (q_rel q); auto; discriminate]. }
    constructor; cbn; auto.
    - intros q Hin. apply Hq; auto.
    - apply wf_normal; auto.
    - intros q Hin. destruct (Hq q Hin) as [_ Hr]. split; apply representable_Qc; destruct Hr as [-> |[-> | ->]]; cbn; auto.
  Qed.
  Lemma runb_any o (sh : shot Qc nat) fuel evs : forall w w', reach_any o sh w -> runb fuel o evs w = Some w' -> reach_any o sh w'.
  Proof.
    induction evs as [|e evs IH]; intros w w' Hr; cbn [runb]; [intros [= <-]; auto|]. destruct (admb e w) eqn:Ea; [|discriminate].
    destruct (wstep fuel o e w) as [w1| | |] eqn:E1; try discriminate. apply IH. eapply any_step; [exact Hr|apply admb_ok, Ea|exists fuel; exact E1].
  Qed.
  Lemma any_of o iqs obj evs w : forallb wf_iq iqs = true -> wf_obj obj = true -> world2 o iqs obj evs = Some w -> reach_any o (shot2 iqs obj) w.
  Proof.
    intros Hw Ho E. unfold world2 in E. destruct (begin2 o iqs obj new_propagator []) as [w0|] eqn:E0; [|discriminate]. eapply runb_any; [|exact E].
    unfold begin2 in E0. destruct (p_init _ _ _ _ _ _ _ _) as [[[p log] [|]]| | |] eqn:Ei; try discriminate. injection E0 as <-. apply any_first; [apply shot2_ok; auto|exact Ei].
  Qed.
End any.


Definition dfq : world Qc nat := World new_propagator [] [] [].
Definition some {A} (x : option A) : bool := match x with Some _ => true | None => false end.
Lemma some_eq (x : option (world Qc nat)) : some x = true -> x = Some (default dfq x).
Proof. destruct x; [auto|discriminate]. Qed.
Ltac any ok := eapply any_of; [vm_compute; reflexivity|vm_compute; reflexivity|exact (some_eq _ ok)].
Ltac accpt := split; [vm_compute; lia|vm_compute; reflexivity].

(** ** C03 *)
(** x <= 5 and y >= 0 on level 0, x = 3 on level 1, backtrack: then x >= 5 is
    taken to hold because of x <= 5, and x + y <= 4 is excluded *)
Definition o_full : options := Options SelectNone StoreNo None PropFull false.
Definition iqs3 : list (ineq nat) :=
  [Ineq [(qz 1, 0)] (qz 5) Rle 10; Ineq [(qz 1, 1)] (qz 0) Rge 20; Ineq [(qz 1, 0)] (qz 3) Req 31; Ineq [(qz 1, 0); (qz 1, 1)] (qz 4) Rle 41; Ineq [(qz 1, 1)] (qz 9) Rle 51].
Definition w3 : world Qc nat := default dfq (world2 o_full iqs3 [] [ev_prop 0 0 [10%Z; 20%Z]; ev_prop 0 1 [31%Z]; EvUndo 0]).
Lemma w3_ok : some (world2 o_full iqs3 [] [ev_prop 0 0 [10%Z; 20%Z]; ev_prop 0 1 [31%Z]; EvUndo 0]) = true.
Proof. vm_compute. reflexivity. Qed.
Definition w3' : world Qc nat := default dfq (runb 50 o_full [ev_prop 0 1 [51%Z]] w3).
Lemma w3'_ok : some (runb 50 o_full [ev_prop 0 1 [51%Z]] w3) = true.
Proof. vm_compute. reflexivity. Qed.
Lemma runb_one {V} `{Value V} o e (w w' : world V nat) : runb 50 o [e] w = Some w' -> adm e w /\ step o e w w'.
Proof.
  cbn [runb]. destruct (admb e w) eqn:Ea; [|discriminate]. destruct (wstep 50 o e w) as [w1| | |] eqn:E; try discriminate. intros [= <-]. split; [apply admb_ok; auto|exists 50; auto].
Qed.
Theorem C03_refuted : exists o sh (w w' : world Qc nat) t h a lits c, step_ok (V := Qc) o /\ reach_any o sh w /\ adm (EvPropagate t h a lits) w /\
  step o (EvPropagate t h a lits) w w' /\ accepted w' t /\ w_log w' = w_log w ++ [c] /\
  exists A : nat -> Qc, forall q, q ∈ sh_iqs sh -> (- q_lit q)%Z ∈ c -> holds A q.
Proof.
  exists o_full, (shot2 iqs3 []), w3, w3', 0, quiet, (lev 1), [51%Z], [(-10)%Z; (-20)%Z; (-41)%Z].
  assert (R : adm (ev_prop 0 1 [51%Z]) w3 /\ step o_full (ev_prop 0 1 [51%Z]) w3 w3') by (apply runb_one; exact (some_eq _ w3'_ok)).
  split; [intros g E; discriminate|]. split; [any w3_ok|]. split; [apply R|]. split; [apply R|]. split; [accpt|]. split; [vm_compute; reflexivity|].
  exists (fun _ => qz 0). intros q Hq Hl. cbn [sh_iqs shot2] in Hq. unfold iqs3 in Hq. rewrite !elem_of_cons in Hq.
  destruct Hq as [-> |[-> |[-> |[-> |[-> |Hq]]]]]; [vm_compute; discriminate| vm_compute; discriminate| |vm_compute; discriminate|vm_compute; discriminate|inversion Hq].
  exfalso. clear -Hl. cbn in Hl. rewrite !elem_of_cons in Hl. destruct Hl as [Hl|[Hl|[Hl|Hl]]]; [discriminate..|inversion Hl].
Qed.

(** ** C08, C09 *)
(** x <= 5 on level 0, x = 3 on level 1, backtrack, x >= 0 on level 1: the
    minimum of x is 0 (maximize -x) but 5 is reported to be the optimum *)
Definition iqs8 : list (ineq nat) := [Ineq [(qz 1, 0)] (qz 5) Rle 10; Ineq [(qz 1, 0)] (qz 3) Req 21; Ineq [(qz 1,0)] (qz 0) Rge 31].
Definition neg_x : list (Qc * nat) := [(qz (-1), 0)].
Definition w8 : world Qc nat := default dfq (world2 opts iqs8 neg_x [ev_prop 0 0 [10%Z]; ev_prop 0 1 [21%Z]; EvUndo 0; ev_prop 0 1 [31%Z]]).
Lemma w8_ok : some (world2 opts iqs8 neg_x [ev_prop 0 0 [10%Z]; ev_prop 0 1 [21%Z]; EvUndo 0; ev_prop 0 1 [31%Z]]) = true.
Proof. vm_compute. reflexivity. Qed.
Definition w8' : world Qc nat := default dfq (runb 50 opts [ev_check 0 1 true 901 911] w8).
Lemma w8'_ok : some (runb 50 opts [ev_check 0 1 true 901 911] w8) = true.
Proof. vm_compute. reflexivity. Qed.
Lemma obj_is (p : propagator Qc nat) v b : match p_get_objective p 0 with Ok (Some (v', b')) => Qc_eq_bool v v' && Bool.eqb b b' | _ => false end = true -> p_get_objective p 0 = Ok (Some (v, b)).
Proof.
  destruct (p_get_objective p 0) as [[[v' b']|]| | |]; try discriminate. intros E. apply andb_true_iff in E as [E1 E2]. apply Qc_eq_bool_correct in E1. apply Bool.eqb_prop in E2. subst. auto.
Qed.
Theorem C08_refuted : exists o sh (w w' : world Qc nat) h a l1 l2 v, reach_any o sh w /\ sh_obj sh <> [] /\ w_log w' = w_log w /\ accepted w' 0 /\
  adm (EvCheck 0 h a true l1 l2) w /\ step o (EvCheck 0 h a true l1 l2) w w' /\ p_get_objective (w_p w') 0 = Ok (Some (v, true)) /\
  exists A : nat -> Qc, (forall q, q ∈ sh_iqs sh -> q_lit q ∈ assigned w' 0 -> holds A q) /\ (v < lin A (sh_obj sh))%Qc.
Proof.
  exists opts, (shot2 iqs8 neg_x), w8, w8', quiet, (lev 1), 901%Z, 911%Z, (qz (-5)).
  assert (R : adm (ev_check 0 1 true 901 911) w8 /\ step opts (ev_check 0 1 true 901 911) w8 w8') by (apply runb_one; exact (some_eq _ w8'_ok)).
  split; [any w8_ok|]. split; [discriminate|]. split; [vm_compute; reflexivity|]. split; [accpt|]. split; [apply R|]. split; [apply R|].
  split; [apply obj_is; vm_compute; reflexivity|]. exists (fun _ => qz 0). split; [|vm_compute; reflexivity].
  intros q Hq Hl. assert (Ea : assigned w8' 0 = [31%Z; 10%Z]) by (vm_compute; reflexivity). rewrite Ea in Hl. cbn [sh_iqs shot2] in Hq. unfold iqs8 in Hq. rewrite !elem_of_cons in Hq.
  destruct Hq as [-> |[-> |[-> |Hq]]]; [vm_compute; discriminate| |vm_compute; discriminate|inversion Hq].
  exfalso. clear -Hl. cbn in Hl. rewrite !elem_of_cons in Hl. destruct Hl as [Hl|[Hl|Hl]]; [discriminate..|inversion Hl].
Qed.
(** x >= 1 on level 0, x = 3 on level 1, backtrack: the minimum of x is 1 but
    the objective is reported to be unbounded *)
Definition iqs9 : list (ineq nat) := [Ineq [(qz 1, 0)] (qz 1) Rge 10; Ineq [(qz 1, 0)] (qz 3) Req 21].
Definition w9 : world Qc nat := default dfq (world2 opts iqs9 neg_x [ev_prop 0 0 [10%Z]; ev_prop 0 1 [21%Z]; EvUndo 0]).
Lemma w9_ok : some (world2 opts iqs9 neg_x [ev_prop 0 0 [10%Z]; ev_prop 0 1 [21%Z]; EvUndo 0]) = true.
Proof. vm_compute. reflexivity. Qed.
Definition w9' : world Qc nat := default dfq (runb 50 opts [ev_check 0 0 true 901 911] w9).
Lemma w9'_ok : some (runb 50 opts [ev_check 0 0 true 901 911] w9) = true.
Proof. vm_compute. reflexivity. Qed.
Theorem C09_refuted : exists o sh (w w' : world Qc nat) h a l1 l2 v, reach_any o sh w /\ sh_obj sh <> [] /\ w_log w' = w_log w /\ accepted w' 0 /\
  adm (EvCheck 0 h a true l1 l2) w /\ step o (EvCheck 0 h a true l1 l2) w w' /\ p_get_objective (w_p w') 0 = Ok (Some (v, false)) /\
  exists M : Qc, forall A : nat -> Qc, (forall q, in_force sh w' 0 q -> holds A q) -> (lin A (sh_obj sh) <= M)%Qc.
Proof.
  exists opts, (shot2 iqs9 neg_x), w9, w9', quiet, (lev 0), 901%Z, 911%Z, (qz (-1)).
  assert (R : adm (ev_check 0 0 true 901 911) w9 /\ step opts (ev_check 0 0 true 901 911) w9 w9') by (apply runb_one; exact (some_eq _ w9'_ok)).
  split; [any w9_ok|]. split; [discriminate|]. split; [vm_compute; reflexivity|]. split; [accpt|]. split; [apply R|]. split; [apply R|].
  split; [apply obj_is; vm_compute; reflexivity|]. exists (qz (-1)). intros A HA.
  assert (Hf : in_force (shot2 iqs9 neg_x) w9' 0 (Ineq [(qz 1, 0)] (qz 1) Rge 10)).
  { split; [left|]. split; [|intros log; reflexivity]. assert (Ea : assigned w9' 0 = [10%Z]) by (vm_compute; reflexivity). rewrite Ea. left. }
  specialize (HA _ Hf). unfold holds in HA. cbn in HA |- *.
  replace (qz 1) with 1%Qc in HA by (apply Qc_is_canon; reflexivity). replace (qz (-1)) with (- (1))%Qc by (apply Qc_is_canon; reflexivity). clear -HA. qclra.
Qed.

(** ** C27 *)
(** maximize x with step 1: x <= 5 on level 0, x = 3 on level 1; the model with
    x = 3 is reported; backtrack, x <= 4 on level 1: conflict.  The clause
    excludes x = 4. *)
Definition o_glob : options := Options SelectNone StoreNo (Some (mkRatQ 1%Qc 0%Qc)) PropNone false.
Definition pos_x : list (Qc * nat) := [(qz 1, 0)].
Definition evs27 : list event := [ev_prop 0 0 [10%Z]; ev_prop 0 1 [21%Z]; ev_check 0 1 true 901 911; EvModel 0; EvUndo 0; ev_prop 0 1 [31%Z]].
Definition w27 : world Qc nat := default dfq (world2 o_glob iqs_up pos_x evs27).
Lemma w27_ok : some (world2 o_glob iqs_up pos_x evs27) = true.
Proof. vm_compute. reflexivity. Qed.
Definition tr27 (l : Z) : Prop := l <> (-10)%Z /\ l <> (-31)%Z /\ l <> 21%Z.
Lemma rep27 : forallb (fun x => Qc_eq_bool x.1 (qz 3) && x.2) (w_rep w27) = true.
Proof. vm_compute. reflexivity. Qed.
Lemma vstep_one d : vstep (V := Qc) (mkRatQ 1%Qc 0%Qc) = Some d -> d = 1%Qc.
Proof. intros E. cbn in E. injection E as <-. reflexivity. Qed.
Theorem C27_refuted : exists o sh (w : world Qc nat), step_ok (V := Qc) o /\ reach_any o sh w /\ plain sh /\
  forall asserted : list Z, (forall l, l ∈ asserted -> [l] ∈ w_log w) ->
  exists (tr : Z -> Prop) (A : nat -> Qc), (forall l, tr l \/ tr (- l)%Z) /\ (forall l, l ∈ asserted -> tr l) /\
    (forall q, q ∈ sh_iqs sh -> tr (q_lit q) -> holds A q) /\ (forall u, (u, false) ∉ w_rep w) /\ w_rep w <> [] /\
    (forall best g d, (best, true) ∈ w_rep w -> o_global o = Some g -> vstep g = Some d -> vle (vadd best d) (vofq (lin A (sh_obj sh)))) /\
    exists c, c ∈ w_log w /\ c ∉ sh_log sh /\ ~ clause_true tr c.
Proof.
  exists o_glob, (shot2 iqs_up pos_x), w27. split; [intros g [= <-]; discriminate|]. split; [any w27_ok|].
  split; [intros q Hq; cbn [sh_iqs shot2] in Hq; unfold iqs_up in Hq; rewrite !elem_of_cons in Hq; destruct Hq as [-> |[-> |[-> |Hq]]]; [discriminate..|inversion Hq]|].
  assert (El : w_log w27 = [[(-31)%Z; (-10)%Z]]) by (vm_compute; reflexivity).
  assert (Er : forall x, x ∈ w_rep w27 -> x.1 = qz 3 /\ x.2 = true).
  { intros x Hx. pose proof rep27 as F. rewrite forallb_forall in F. specialize (F x (proj1 (elem_of_list_In _ _) Hx)). apply andb_true_iff in F as [F1 F2]. apply Qc_eq_bool_correct in F1. auto. }
  assert (En : w_rep w27 <> []) by (assert (X : length (w_rep w27) = 1) by (vm_compute; reflexivity); intros E; rewrite E in X; discriminate X).
  intros asserted Ha. exists tr27, (fun _ => qz 4). split; [intros l; unfold tr27; lia|]. split.
  { intros l Hl. specialize (Ha l Hl). rewrite El in Ha. apply elem_of_list_singleton in Ha. discriminate Ha. }
  split.
  { intros q Hq Ht. cbn [sh_iqs shot2] in Hq. unfold iqs_up in Hq. rewrite !elem_of_cons in Hq. destruct Hq as [-> |[-> |[-> |Hq]]]; [vm_compute; discriminate| |vm_compute; discriminate|inversion Hq].
    exfalso. destruct Ht as (_ & _ & Ht). apply Ht. reflexivity. }
  split; [intros u Hu; destruct (Er _ Hu) as [_ X]; discriminate X|]. split; [exact En|]. split.
  { intros best g d Hb [= <-] Ed. apply vstep_one in Ed as ->. destruct (Er _ Hb) as [X _]. cbn in X. subst best. vm_compute. discriminate. }
  exists [(-31)%Z; (-10)%Z]. split; [rewrite El; left|]. split; [intros Hx; inversion Hx|].
  intros (l & Hl & T1 & T2 & _). clear -Hl T1 T2. rewrite !elem_of_cons in Hl. destruct Hl as [-> |[-> |Hl]]; [congruence|congruence|inversion Hl].
Qed.

(** ** C34 *)
(** the session of C01_refuted with store-solution-assignment: the stored
    value x = 0 stays after backtracking, x >= 1 is true *)
Definition o_store_t : options := Options SelectNone StoreTotal None PropNone false.
Definition w34 : world Qc nat := default dfq (world2 o_store_t iqs_lo [] (evs_lo ++ [ev_check 0 1 true 901 911])).
Lemma w34_ok : some (world2 o_store_t iqs_lo [] (evs_lo ++ [ev_check 0 1 true 901 911])) = true.
Proof. vm_compute. reflexivity. Qed.
Definition w34' : world Qc nat := default dfq (runb 50 o_store_t [EvUndo 0] w34).
Lemma w34'_ok : some (runb 50 o_store_t [EvUndo 0] w34) = true.
Proof. vm_compute. reflexivity. Qed.
Theorem C34_refuted : exists o sh (w w' : world Qc nat) q, reach_any o sh w /\ o_store o <> StoreNo /\ adm (EvUndo 0) w /\ step o (EvUndo 0) w w' /\
  in_force sh w' 0 q /\ q_lhs q <> [] /\ ~ holdsV (api_value (w_p w') 0) q.
Proof.
  exists o_store_t, (shot2 iqs_lo []), w34, w34', (Ineq [(qz 1, 0)] (qz 1) Rge 10).
  assert (R : adm (EvUndo 0) w34 /\ step o_store_t (EvUndo 0) w34 w34') by (apply runb_one; exact (some_eq _ w34'_ok)).
  split; [any w34_ok|]. split; [discriminate|]. split; [apply R|]. split; [apply R|]. split.
  - split; [left|]. split; [|intros log; reflexivity]. assert (Ea : assigned w34' 0 = [10%Z]) by (vm_compute; reflexivity). rewrite Ea. left.
  - split; [discriminate|]. vm_compute. intros F. apply F. reflexivity.
Qed.

(** ** C35 *)
(** x >= 1 is a fact of the first shot.  In the second shot: check on level 0,
    x = 3 on level 1, backtrack, x <= 0 on level 1: accepted with x = 0. *)
Definition w35a : world Qc nat := default dfq (world2 opts iqs_lo [] [ev_prop 0 0 [10%Z]]).
Lemma w35a_ok : some (world2 opts iqs_lo [] [ev_prop 0 0 [10%Z]]) = true.
Proof. vm_compute. reflexivity. Qed.
Definition w35b : world Qc nat := default dfq (begin2 opts iqs_lo [] (w_p w35a) (w_log w35a)).
Lemma w35b_ok : some (begin2 opts iqs_lo [] (w_p w35a) (w_log w35a)) = true.
Proof. vm_compute. reflexivity. Qed.
Definition w35c : world Qc nat := default dfq (runb 50 opts [ev_check 0 0 false 901 911] w35b).
Lemma w35c_ok : some (runb 50 opts [ev_check 0 0 false 901 911] w35b) = true.
Proof. vm_compute. reflexivity. Qed.
Definition w35d : world Qc nat := default dfq (runb 50 opts [ev_prop 0 1 [21%Z]; EvUndo 0; ev_prop 0 1 [31%Z]] w35c).
Lemma w35d_ok : some (runb 50 opts [ev_prop 0 1 [21%Z]; EvUndo 0; ev_prop 0 1 [31%Z]] w35c) = true.
Proof. vm_compute. reflexivity. Qed.
Lemma begin2_any o sh0 w0 iqs obj w : reach_any o sh0 w0 -> forallb wf_iq iqs = true -> wf_obj obj = true -> begin2 o iqs obj (w_p w0) (w_log w0) = Some w ->
  reach_any o (Shot quiet (fun _ l => l) 1 iqs obj (w_log w0)) w.
Proof.
  intros Hr Hw Ho E0. unfold begin2 in E0. destruct (p_init _ _ _ _ _ _ _ _) as [[[p log] [|]]| | |] eqn:Ei; try discriminate. injection E0 as <-.
  eapply any_next; [exact Hr|apply shot2_ok; auto|exact Ei].
Qed.
Theorem C35_refuted : exists o sh (w w1 w2 : world Qc nat) h a total l1 l2 q evs, reach_any o sh w /\ adm (EvCheck 0 h a total l1 l2) w /\ a_dl a = 0 /\
  step o (EvCheck 0 h a total l1 l2) w w1 /\ adm_run 50 o evs w1 /\ run 50 o evs w1 = Ok w2 /\ accepted w2 0 /\
  q ∈ sh_iqs sh /\ q_lit q ∈ old_facts w /\ watched sh q /\ q_lhs q <> [] /\ ~ holdsV (api_value (w_p w2) 0) q.
Proof.
  exists opts, (Shot quiet (fun _ l => l) 1 iqs_lo [] (w_log w35a)), w35b, w35c, w35d, quiet, (lev 0), false, 901%Z, 911%Z, (Ineq [(qz 1, 0)] (qz 1) Rge 10), [ev_prop 0 1 [21%Z]; EvUndo 0; ev_prop 0 1 [31%Z]].
  assert (R : adm (ev_check 0 0 false 901 911) w35b /\ step opts (ev_check 0 0 false 901 911) w35b w35c) by (apply runb_one; exact (some_eq _ w35c_ok)).
  assert (R2 : run 50 opts [ev_prop 0 1 [21%Z]; EvUndo 0; ev_prop 0 1 [31%Z]] w35c = Ok w35d /\ adm_run 50 opts [ev_prop 0 1 [21%Z]; EvUndo 0; ev_prop 0 1 [31%Z]] w35c) by (apply runb_ok; exact (some_eq _ w35d_ok)).
  split; [eapply (begin2_any opts (shot2 iqs_lo []) w35a); [any w35a_ok|vm_compute; reflexivity|vm_compute; reflexivity|exact (some_eq _ w35b_ok)]|].
  split; [apply R|]. split; [reflexivity|]. split; [apply R|]. split; [exact (proj2 R2)|]. split; [exact (proj1 R2)|]. split; [accpt|]. split; [left|].
  split; [assert (Eo : old_facts w35b = [10%Z]) by (vm_compute; reflexivity); rewrite Eo; left|]. split; [intros log; reflexivity|]. split; [discriminate|].
  vm_compute. intros F. apply F. reflexivity.
Qed.

(** ** C41 *)
Lemma runb_history o (sh : shot Qc nat) fuel evs : forall pre w w', history_any o sh pre w -> runb fuel o evs w = Some w' -> history_any o sh (pre ++ evs) w'.
Proof.
  induction evs as [|e evs IH]; intros pre w w' Hh; cbn [runb]; [intros [= <-]; rewrite app_nil_r; auto|]. destruct (admb e w) eqn:Ea; [|discriminate].
  destruct (wstep fuel o e w) as [w1| | |] eqn:E1; try discriminate. intros E. rewrite cons_middle, app_assoc. apply (IH _ w1); [|exact E].
  eapply hany_step; [exact Hh|apply admb_ok, Ea|exists fuel; exact E1].
Qed.
Lemma history_of o iqs obj evs w : forallb wf_iq iqs = true -> wf_obj obj = true -> world2 o iqs obj evs = Some w -> history_any o (shot2 iqs obj) evs w.
Proof.
  intros Hw Ho E. unfold world2 in E. destruct (begin2 o iqs obj new_propagator []) as [w0|] eqn:E0; [|discriminate]. apply (runb_history o _ 50 evs [] w0 w); [|exact E].
  unfold begin2 in E0. destruct (p_init _ _ _ _ _ _ _ _) as [[[p log] [|]]| | |] eqn:Ei; try discriminate. injection E0 as <-. apply hany_first; [apply shot2_ok; auto|exact Ei].
Qed.
(** maximize x with step 1, where u = x + w, w >= 0, u >= 5 on level 0.  With
    x <= 5 the optimum 5 is reported.  Then x >= 6 is asserted by literal 920
    and delivered.  On level 1: y <= 10, u >= 6, y = 3; the equality on y turns
    the trail entry of u into one for both bounds, backtracking leaves u with
    upper bound 5 and value 6.  The final check moves x from 6 back to 5, and 5
    is reported again. *)
Definition o41 : options := Options SelectNone StoreNo (Some (mkRatQ 1%Qc 0%Qc)) PropNone false.
Definition iqs41 : list (ineq nat) :=
  [Ineq [(qz 1, 0)] (qz 5) Rle 11; Ineq [(qz 1, 0); (qz 1, 1); (qz (-1), 2)] (qz 0) Req 20; Ineq [(qz 1, 2)] (qz 5) Rge 30; Ineq [(qz 1, 1)] (qz 0) Rge 80;
   Ineq [(qz 1, 3)] (qz 10) Rle 41; Ineq [(qz 1, 2)] (qz 6) Rge 51; Ineq [(qz 1, 3)] (qz 3) Req 61; Ineq [(qz 1, 1)] (qz 9) Rle 71].
Definition evs41 : list event :=
  [ev_prop 0 0 [20%Z; 80%Z; 30%Z]; ev_prop 0 1 [11%Z]; ev_check 0 1 true 901 911; EvModel 0; EvUndo 0; ev_check 0 0 false 920 931; ev_prop 0 0 [920%Z];
   ev_prop 0 1 [41%Z; 51%Z; 61%Z]; EvUndo 0; ev_prop 0 1 [71%Z]].
Definition w41 : world Qc nat := default dfq (world2 o41 iqs41 [(qz 1, 0)] evs41).
Lemma w41_ok : some (world2 o41 iqs41 [(qz 1, 0)] evs41) = true.
Proof. vm_compute. reflexivity. Qed.
Definition w41' : world Qc nat := default dfq (runb 50 o41 [ev_check 0 1 true 941 951] w41).
Lemma w41'_ok : some (runb 50 o41 [ev_check 0 1 true 941 951] w41) = true.
Proof. vm_compute. reflexivity. Qed.
Theorem C41_refuted : exists o sh evs (w w' : world Qc nat) t g d best v, history_any o sh evs w /\ sh_obj sh <> [] /\ quiet_check o w w' t /\ accepted w' t /\
  o_global o = Some g /\ vstep g = Some d /\ delivered t evs w w' /\ (forall u, (u, false) ∉ w_rep w) /\
  (best, true) ∈ w_rep w /\ p_get_objective (w_p w') t = Ok (Some (v, true)) /\ ~ vle (vadd best d) v.
Proof.
  exists o41, (shot2 iqs41 [(qz 1, 0)]), evs41, w41, w41', 0, (mkRatQ 1%Qc 0%Qc), 1%Qc, (qz 5), (qz 5).
  assert (R : adm (ev_check 0 1 true 941 951) w41 /\ step o41 (ev_check 0 1 true 941 951) w41 w41') by (apply runb_one; exact (some_eq _ w41'_ok)).
  assert (Er : w_rep w41 = [(qz 5, true)]) by (apply (repb_ok [5%Z]); vm_compute; reflexivity).
  split; [apply history_of; [vm_compute; reflexivity|vm_compute; reflexivity|exact (some_eq _ w41_ok)]|]. split; [discriminate|].
  split; [split; [vm_compute; reflexivity|]; exists quiet, (lev 1), 941%Z, 951%Z; exact R|]. split; [accpt|]. split; [reflexivity|]. split; [reflexivity|].
  split; [|split; [|split; [|split]]].
  - assert (Ef : fresh 0 evs41 = [901%Z; 911%Z; 920%Z; 931%Z]) by (vm_compute; reflexivity). assert (El : w_log w41 = [[920%Z]]) by (vm_compute; reflexivity).
    assert (Ea : assigned w41' 0 = [71%Z; 20%Z; 80%Z; 30%Z; 920%Z]) by (vm_compute; reflexivity).
    intros l _ Hl. rewrite El in Hl. apply elem_of_list_singleton in Hl. injection Hl as ->. rewrite Ea. rewrite !elem_of_cons. auto 10.
  - intros u Hu. rewrite Er in Hu. apply elem_of_list_singleton in Hu. discriminate Hu.
  - rewrite Er. left.
  - assert (E : match p_get_objective (w_p w41') 0 with Ok (Some (v, b)) => Qc_eq_bool v (qz 5) && b | _ => false end = true) by (vm_compute; reflexivity).
    destruct (p_get_objective (w_p w41') 0) as [[[v b]|]| | |]; try discriminate E. apply andb_true_iff in E as [E ->]. apply Qc_eq_bool_correct in E as ->. reflexivity.
  - vm_compute. intros F. apply F. reflexivity.
Qed.

(** ** C42 *)
(** the session of C02_refuted; the program makes 10 and 31 true, x <= 5 and
    x <= 4 have a solution *)
Definition w42 : world Qc nat := default dfq (world2 opts iqs_up [] evs_up).
Lemma w42_ok : some (world2 opts iqs_up [] evs_up) = true.
Proof. vm_compute. reflexivity. Qed.
Definition P42 (tr : Z -> Prop) : Prop := tr 10%Z /\ tr 31%Z.
Definition tr42 (l : Z) : Prop := (0 <= l /\ l <> 21)%Z \/ l = (-21)%Z.
Theorem C42_refuted : exists o sh evs (w : world Qc nat) P tr, o_global o = None /\ history_any o sh evs w /\ plain sh /\ new_ok evs sh /\ ignores evs P /\ exhausted P sh w /\
  assignment tr /\ P tr /\ exists A : nat -> Qc, forall q, q ∈ sh_iqs sh -> tr (q_lit q) -> holds A q.
Proof.
  exists opts, (shot2 iqs_up []), evs_up, w42, P42, tr42. split; [reflexivity|].
  split; [apply history_of; [vm_compute; reflexivity|vm_compute; reflexivity|exact (some_eq _ w42_ok)]|].
  assert (En : new_lits evs_up = []) by reflexivity.
  split; [|split; [|split; [|split; [|split; [|split]]]]].
  - intros q Hq. assert (E : q_lhs q <> []). { revert q Hq. apply Forall_forall. repeat constructor; discriminate. } intros El. contradiction.
  - intros l Hl. rewrite En in Hl. inversion Hl.
  - intros tr tr' Hs [H1 H2]. split; (apply Hs; [rewrite En; intros Hi; inversion Hi..|assumption]).
  - intros tr [_ C] [H1 H2] Hall. assert (El : [(-31)%Z; (-10)%Z] ∈ w_log w42) by (vm_compute; left).
    destruct (Hall _ El) as (l & Hl & T); [intros Hi; inversion Hi|]. apply elem_of_cons in Hl as [-> |Hl].
    + apply (C 31%Z); [discriminate|]. split; assumption.
    + apply elem_of_list_singleton in Hl as ->. apply (C 10%Z); [discriminate|]. split; assumption.
  - unfold tr42. split; intros l; lia.
  - unfold P42, tr42. lia.
  - exists (fun _ => qz 0). intros q Hq Hl. change (q ∈ iqs_up) in Hq. unfold iqs_up in Hq. rewrite !elem_of_cons in Hq. destruct Hq as [-> |[-> |[-> |Hq]]]; [| | |inversion Hq].
    + vm_compute. discriminate.
    + exfalso. unfold tr42 in Hl. cbn in Hl. lia.
    + vm_compute. discriminate.
Qed.
