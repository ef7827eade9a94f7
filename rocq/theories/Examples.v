(** * Concrete sessions

    They show that the hypotheses of the session theorems are met by
    non-trivial states.  [admb] decides [adm]. *)

From Verif Require Import Num Sums Tableau Solver Spec Propagator World Observe.

Section decide.
  Context {V : Type} `{Value V} {Sym : Type} `{EqDecision Sym}.

  Definition levelsb (a : asg) (k : list (entry V)) : bool :=
    forallb (fun e => forallb (fun l => a_level a l =? en_level e) (en_lits e)) k.
  Lemma levelsb_ok a k : levelsb a k = true -> levels a k.
  Proof.
    unfold levelsb. intros Hl e l He Hi. rewrite forallb_forall in Hl. specialize (Hl e (proj1 (elem_of_list_In _ _) He)).
    rewrite forallb_forall in Hl. specialize (Hl l (proj1 (elem_of_list_In _ _) Hi)). apply Nat.eqb_eq in Hl. auto.
  Qed.
  Definition admb (e : event) (w : world V Sym) : bool :=
    match e with
    | EvPropagate t h a lits =>
        (t <? length (w_th w)) && negb (th_blk (thread_of w t)) && (toplevel (th_stk (thread_of w t)) <=? a_dl a) &&
        levelsb a (th_stk (thread_of w t)) && forallb (fun l => a_level a l =? a_dl a) lits
    | EvCheck t h a total lit1 lit2 =>
        (t <? length (w_th w)) && negb (th_blk (thread_of w t)) && (toplevel (th_stk (thread_of w t)) <=? a_dl a) &&
        levelsb a (th_stk (thread_of w t)) && forallb (fun l => a_level a l =? 0) (p_facts (w_p w)) &&
        forallb (fun l => negb (existsb (Z.eqb l) (held (th_stk (thread_of w t)) ++ p_facts (w_p w)))) [lit1; lit2]
    | EvUndo t => (t <? length (w_th w)) && (0 <? toplevel (th_stk (thread_of w t)))
    | EvModel t => (t <? length (w_th w)) && negb (th_blk (thread_of w t))
    end.
  Lemma existsb_no l ls : existsb (Z.eqb l) ls = false -> l ∉ ls.
  Proof.
    intros E Hin. assert (X : existsb (Z.eqb l) ls = true); [|congruence]. apply existsb_exists. exists l. split; [apply elem_of_list_In; auto|apply Z.eqb_refl].
  Qed.
  Lemma admb_ok e (w : world V Sym) : admb e w = true -> adm e w.
  Proof.
    destruct e as [t h a lits|t h a total l1 l2|t|t]; cbn [admb adm]; rewrite ?andb_true_iff, ?Nat.ltb_lt, ?Nat.leb_le, ?negb_true_iff.
    - intros ((((A & B) & C) & D) & E). split; auto. split; auto. split; auto. split; [apply levelsb_ok; auto|]. intros l Hl. rewrite forallb_forall in E.
      apply Nat.eqb_eq. apply E. apply elem_of_list_In; auto.
    - intros (((((A & B) & C) & D) & E) & F). split; auto. split; auto. split; auto. split; [apply levelsb_ok; auto|]. split.
      + intros l Hl. rewrite forallb_forall in E. apply Nat.eqb_eq. apply E. apply elem_of_list_In; auto.
      + cbn in F. rewrite andb_true_r, andb_true_iff, !negb_true_iff in F. destruct F as [F1 F2]. intros l [-> | ->].
        * apply existsb_no in F1. rewrite not_elem_of_app in F1. auto.
        * apply existsb_no in F2. rewrite not_elem_of_app in F2. auto.
    - auto.
    - auto.
  Qed.

  (** decides [eq_safe] *)
  Definition relqb (r : rel) (x y : Qc) : bool :=
    match r with Rle => bool_decide (x <= y)%Qc | Rge => bool_decide (y <= x)%Qc | Req => Qc_eq_bool x y | Rlt => bool_decide (x < y)%Qc | Rgt => bool_decide (y < x)%Qc end.
  Definition memz (l : Z) (ls : list Z) : bool := existsb (Z.eqb l) ls.
  Definition pairb (lits act : list Z) (q q' : ineq Sym) : bool :=
    match q_lhs q, q_lhs q', q_rel q, q_rel q' with
    | [(c, x)], [(c', x')], Req, r => if memz (q_lit q) lits && memz (q_lit q') act && bool_decide (x = x') && match r with Req => false | _ => true end
        then relqb r (c' * (q_rhs q / c))%Qc (q_rhs q') && negb (Qc_eq_bool (c' * (q_rhs q / c))%Qc (q_rhs q')) else false
    | _, _, _, _ => false
    end.
  Definition safeb (e : event) (w : world V Sym) : bool :=
    match e with
    | EvPropagate t h a lits => (a_dl a =? 0) || forallb (fun q => forallb (fun q' => negb (pairb lits (held (th_stk (thread_of w t)) ++ lits) q q')) (p_iqs (w_p w))) (p_iqs (w_p w))
    | _ => true
    end.
  Lemma relqb_ok r x y : relq r x y -> relqb r x y = true.
  Proof. destruct r; cbn; try (intros; apply bool_decide_eq_true_2; auto). Qed.
  Lemma memz_ok l ls : l ∈ ls -> memz l ls = true.
  Proof. intros Hl. apply existsb_exists. exists l. split; [apply elem_of_list_In; auto|apply Z.eqb_refl]. Qed.
  Lemma safeb_ok e (w : world V Sym) : safeb e w = true -> eq_safe e w.
  Proof.
    destruct e as [t h a lits| | |]; cbn [safeb eq_safe]; auto. intros E. apply orb_true_iff in E as [E|E]; [left; apply Nat.eqb_eq; auto|right].
    intros q q' c c' x Hq Hq' E1 E2 E3 E4 L1 L2 [S1 S2]. rewrite forallb_forall in E. specialize (E q (proj1 (elem_of_list_In _ _) Hq)).
    rewrite forallb_forall in E. specialize (E q' (proj1 (elem_of_list_In _ _) Hq')). unfold pairb in E. rewrite E1, E2, E3, (memz_ok _ _ L1), (memz_ok _ _ L2), (relqb_ok _ _ _ S1) in E.
    rewrite bool_decide_eq_true_2 in E by auto. unfold Qc_eq_bool in E. destruct (Qc_eq_dec (c' * (q_rhs q / c)) (q_rhs q')); [contradiction|].
    destruct (q_rel q'); cbn in E; congruence.
  Qed.

  Fixpoint runb (fuel : nat) (o : options) (evs : list event) (w : world V Sym) : option (world V Sym) :=
    match evs with
    | [] => Some w
    | e :: evs' => if admb e w then match wstep fuel o e w with Ok w1 => runb fuel o evs' w1 | _ => None end else None
    end.
  Lemma runb_ok fuel o evs : forall w w' : world V Sym, runb fuel o evs w = Some w' -> run fuel o evs w = Ok w' /\ adm_run fuel o evs w.
  Proof.
    induction evs as [|e evs IH]; intros w w'; cbn [runb run adm_run].
    - intros [= ->]. auto.
    - destruct (admb e w) eqn:Ea; [|discriminate]. destruct (wstep fuel o e w) as [w1| | |]; try discriminate. intros E. apply IH in E as [E1 E2]. cbn. auto using admb_ok.
  Qed.
  (** the same, with safe calls only *)
  Fixpoint runs (fuel : nat) (o : options) (evs : list event) (w : world V Sym) : option (world V Sym) :=
    match evs with
    | [] => Some w
    | e :: evs' => if admb e w && safeb e w then match wstep fuel o e w with Ok w1 => runs fuel o evs' w1 | _ => None end else None
    end.
  Lemma runs_reach fuel o (sh : shot V Sym) evs : forall w w' : world V Sym, reach o sh w -> runs fuel o evs w = Some w' -> reach o sh w'.
  Proof.
    induction evs as [|e evs IH]; intros w w' Hr; cbn [runs].
    - intros [= <-]. auto.
    - destruct (admb e w && safeb e w) eqn:Ea; [|discriminate]. apply andb_true_iff in Ea as [A B]. destruct (wstep fuel o e w) as [w1| | |] eqn:E1; try discriminate.
      apply IH. eapply reach_step; [exact Hr|apply admb_ok, A|apply safeb_ok, B|exists fuel; auto].
  Qed.
End decide.

(** all replies: nothing is false yet, every clause is accepted *)
Definition quiet : host := Host (fun _ _ => false) (fun _ => true).
(** every clause leads to a conflict *)
Definition refuse : host := Host (fun _ _ => false) (fun _ => false).
(** literal [l] was assigned on level [l] (literals of facts on level 0) *)
Definition lev (dl : nat) : asg := Asg (fun l => Z.to_nat (l mod 10)) dl.
Definition qz (z : Z) : Qc := Q2Qc (inject_Z z).

(** Scenario over RatQ: x=0, y=1 are the symbols.
      10: x + y <= 4     (level 0)
      21: x >= 1         (level 1)
      31: y - x < 0      (level 1)
      42: x + y >= 5     (level 2)
    maximize x + 2*y. *)
Definition ex_iqs : list (ineq nat) :=
  [ Ineq [(qz 1, 0); (qz 1, 1)] (qz 4) Rle 10; Ineq [(qz 1, 0)] (qz 1) Rge 21;
    Ineq [(qz (-1), 0); (qz 1, 1)] (qz 0) Rlt 31; Ineq [(qz 1, 0); (qz 1, 1)] (qz 5) Rge 42 ].
Definition ex_obj : list (Qc * nat) := [(qz 1, 0); (qz 2, 1)].

Lemma representable_RatQ r : representable (V := RatQ) r.
Proof. intros q. destruct r; reflexivity. Qed.
Lemma representable_Qc r : r = Rle \/ r = Rge \/ r = Req -> representable (V := Qc) r.
Proof. intros [-> |[-> | ->]] q; reflexivity. Qed.

Definition ex_shot {V} (n : nat) (log : list (list Z)) : shot V nat := Shot quiet (fun _ l => l) n ex_iqs ex_obj log.
Lemma ex_nodup : normal ex_obj /\ forall q, q ∈ ex_iqs -> normal (q_lhs q).
Proof.
  assert (A : forall ts : list (Qc * nat), bool_decide (NoDup (map snd ts)) && forallb (fun t => negb (Qc_eq_bool t.1 0)) ts = true -> normal ts).
  { intros ts E. apply andb_true_iff in E as [E1 E2]. apply bool_decide_eq_true in E1. split; auto. intros c x Hin ->. rewrite forallb_forall in E2.
    specialize (E2 _ (proj1 (elem_of_list_In _ _) Hin)). discriminate. }
  split; [apply A; reflexivity|]. intros q Hq. apply A. unfold ex_iqs in Hq. rewrite !elem_of_cons in Hq. destruct Hq as [-> |[-> |[-> |[-> |Hq]]]]; [reflexivity..|inversion Hq].
Qed.
Lemma ex_shot_ok n log : shot_ok (ex_shot n log : shot RatQ nat).
Proof.
  constructor; cbn; try apply ex_nodup.
  - intros q _. split; apply representable_RatQ.
  - auto.
Qed.

Definition ex_opts : options := Options SelectNone StoreNo None PropFull true.
Definition ex_gopts : options := Options SelectMatch StoreTotal (Some (mkRatQ 0%Qc 1%Qc)) PropChanged true.

Definition first_world (o : options) (n : nat) : option (world RatQ nat) :=
  match p_init quiet o (fun _ l => l) n ex_iqs ex_obj new_propagator [] with Ok (p, log, true) => Some (start p log) | _ => None end.
Definition dflt : world RatQ nat := World new_propagator [] [] [].
Definition ex_world (o : options) (n : nat) (evs : list event) : world RatQ nat :=
  default dflt (w ← first_world o n; runs 50 o evs w).
Definition works (o : options) (n : nat) (evs : list event) : bool :=
  match (w ← first_world o n; runs 50 o evs w) with Some _ => true | None => false end.
Lemma ex_reach o n evs : works o n evs = true -> reach o (ex_shot n []) (ex_world o n evs).
Proof.
  unfold works, ex_world. intros Hw. destruct (first_world o n) as [w0|] eqn:E0; [|discriminate]. cbn in *.
  destruct (runs 50 o evs w0) as [w|] eqn:E1; [|discriminate]. cbn. eapply runs_reach; [|exact E1].
  unfold first_world in E0. destruct (p_init _ _ _ _ _ _ _ _) as [[[p log] [|]]| | |] eqn:E; try discriminate. injection E0 as <-.
  apply reach_first; auto. apply ex_shot_ok.
Qed.

Definition ev_prop (t : nat) (dl : nat) (lits : list Z) : event := EvPropagate t quiet (lev dl) lits.
Definition ev_check (t : nat) (dl : nat) (total : bool) (a b : Z) : event := EvCheck t quiet (lev dl) total a b.

(** accepted, 3 constraints in force, optimum computed *)
Definition evs_opt : list event := [ev_prop 0 0 [10%Z]; ev_prop 0 1 [21%Z; 31%Z]; ev_check 0 1 true 901 911].
(** ... then a conflict on level 2 *)
Definition evs_confl : list event := evs_opt ++ [ev_prop 0 2 [42%Z]].
Definition evs_undone : list event := evs_confl ++ [EvUndo 0].
(** two threads, global optimization: a model is reported on thread 0, thread 1 learns of it *)
Definition evs_global : list event :=
  [ev_prop 0 0 [10%Z]; ev_prop 1 0 [10%Z]; ev_prop 0 1 [21%Z; 31%Z]; ev_check 0 1 true 901 911; EvModel 0; ev_prop 1 1 [21%Z]; ev_check 1 1 false 921 931].

Definition rq (c k : Z) : RatQ := mkRatQ (qz c) (qz k).
Definition is_val (x : res (option (RatQ * bool))) (v : RatQ) (b : bool) : bool :=
  match x with Ok (Some (v', b')) => veqb v v' && Bool.eqb b b' | _ => false end.

(** x = 2 + e/2, y = 2 - e/2, objective 6 - e/2: accepted, optimal, no clause added *)
Definition half : Qc := Q2Qc (1 # 2).
Example ex_opt : reach ex_opts (ex_shot 1 []) (ex_world ex_opts 1 evs_opt) /\ accepted (ex_world ex_opts 1 evs_opt) 0 /\
  assigned (ex_world ex_opts 1 evs_opt) 0 = [21%Z; 31%Z; 10%Z] /\
  veqb (api_value (w_p (ex_world ex_opts 1 evs_opt)) 0 0) (mkRatQ (qz 2) half) = true /\
  veqb (api_value (w_p (ex_world ex_opts 1 evs_opt)) 0 1) (mkRatQ (qz 2) (- half)%Qc) = true /\
  is_val (p_get_objective (w_p (ex_world ex_opts 1 evs_opt)) 0) (mkRatQ (qz 6) (- half)%Qc) true = true /\ w_log (ex_world ex_opts 1 evs_opt) = [].
Proof.
  split; [apply ex_reach; vm_compute; reflexivity|]. split; [split; [vm_compute; lia|vm_compute; reflexivity]|]. repeat split; vm_compute; reflexivity.
Qed.
(** conflict: the clause forbids 42 together with 10 *)
Example ex_confl : reach ex_opts (ex_shot 1 []) (ex_world ex_opts 1 evs_confl) /\ blocked (ex_world ex_opts 1 evs_confl) 0 /\
  w_log (ex_world ex_opts 1 evs_confl) = [[(-42)%Z; (-10)%Z]].
Proof.
  split; [apply ex_reach; vm_compute; reflexivity|]. split; [split; [vm_compute; lia|vm_compute; reflexivity]|]. vm_compute; reflexivity.
Qed.
(** after undo the solver accepts again *)
Example ex_undone : reach ex_opts (ex_shot 1 []) (ex_world ex_opts 1 evs_undone) /\ accepted (ex_world ex_opts 1 evs_undone) 0 /\
  adm (EvUndo 0) (ex_world ex_opts 1 evs_confl).
Proof.
  split; [apply ex_reach; vm_compute; reflexivity|]. split; [split; [vm_compute; lia|vm_compute; reflexivity]|]. apply admb_ok. vm_compute. reflexivity.
Qed.
(** thread 1 asserts the value reported by thread 0 *)
Example ex_global : reach ex_gopts (ex_shot 2 []) (ex_world ex_gopts 2 evs_global) /\ accepted (ex_world ex_gopts 2 evs_global) 0 /\
  accepted (ex_world ex_gopts 2 evs_global) 1 /\ w_log (ex_world ex_gopts 2 evs_global) = [[921%Z]] /\ length (w_rep (ex_world ex_gopts 2 evs_global)) = 1.
Proof.
  split; [apply ex_reach; vm_compute; reflexivity|]. repeat split; vm_compute; try reflexivity; lia.
Qed.
Lemma ex_step_ok : step_ok (V := RatQ) ex_opts /\ step_ok (V := RatQ) ex_gopts.
Proof. split; intros g; cbn; congruence. Qed.
Lemma ex_plain n log : forall q, q ∈ sh_iqs (ex_shot n log : shot RatQ nat) -> q_lhs q = [] -> q_rel q = Req.
Proof.
  intros q Hq El. unfold ex_shot, ex_iqs in Hq. cbn in Hq. rewrite !elem_of_cons in Hq. destruct Hq as [-> |[-> |[-> |[-> |Hq]]]]; try discriminate. inversion Hq.
Qed.

(** A session with equalities next to other constraints on the same variable:
    x = 2 and x <= 4 on level 0, y >= 1 and then y = 1 on level 1, x - y = 1 on level 1. *)
Definition eqx_iqs : list (ineq nat) :=
  [ Ineq [(qz 1, 0)] (qz 4) Rle 10; Ineq [(qz 1, 0)] (qz 2) Req 20; Ineq [(qz 1, 1)] (qz 1) Rge 31; Ineq [(qz 2, 1)] (qz 2) Req 41; Ineq [(qz 1, 0); (qz (-1), 1)] (qz 1) Req 51 ].
Definition eqx_evs : list event := [ev_prop 0 0 [10%Z]; ev_prop 0 0 [20%Z]; ev_prop 0 1 [31%Z]; ev_prop 0 1 [41%Z; 51%Z]; ev_check 0 1 true 901 911].
Definition any_shot (n : nat) (iqs : list (ineq nat)) (obj : list (Qc * nat)) : shot Qc nat := Shot quiet (fun _ l => l) n iqs obj [].
Definition any_world (o : options) (n : nat) (iqs : list (ineq nat)) (obj : list (Qc * nat)) (evs : list event) : option (world Qc nat) :=
  match p_init quiet o (fun _ l => l) n iqs obj new_propagator [] with Ok (p, log, true) => runs 50 o evs (start p log) | _ => None end.
Definition normalb (ts : list (Qc * nat)) : bool := bool_decide (NoDup (map snd ts)) && forallb (fun t => negb (Qc_eq_bool t.1 0)) ts.
Lemma normalb_ok ts : normalb ts = true -> normal ts.
Proof.
  intros E. apply andb_true_iff in E as [E1 E2]. apply bool_decide_eq_true in E1. split; auto. intros c x Hin ->. rewrite forallb_forall in E2.
  specialize (E2 _ (proj1 (elem_of_list_In _ _) Hin)). discriminate.
Qed.
Definition shotb (iqs : list (ineq nat)) (obj : list (Qc * nat)) : bool :=
  normalb obj && forallb (fun q => normalb (q_lhs q) && match q_rel q with Rle | Rge | Req => true | _ => false end) iqs.
Lemma any_reach o n iqs obj evs w : shotb iqs obj = true -> any_world o n iqs obj evs = Some w -> reach o (any_shot n iqs obj) w.
Proof.
  unfold shotb, any_world. intros Hs E. apply andb_true_iff in Hs as [S1 S2]. destruct (p_init _ _ _ _ _ _ _ _) as [[[p log] [|]]| | |] eqn:Ei; try discriminate.
  eapply runs_reach; [|exact E]. apply reach_first; auto. rewrite forallb_forall in S2. constructor; cbn; auto using normalb_ok.
  - intros q Hq. apply normalb_ok. specialize (S2 q (proj1 (elem_of_list_In _ _) Hq)). apply andb_true_iff in S2. apply S2.
  - intros q Hq. specialize (S2 q (proj1 (elem_of_list_In _ _) Hq)). apply andb_true_iff in S2 as [_ S2]. split; apply representable_Qc; destruct (q_rel q); cbn; auto; discriminate.
Qed.
Notation eqx_world := (any_world default_options 1 eqx_iqs [] eqx_evs).
Lemma eqx_run : match eqx_world with Some w => bool_decide (0 < length (w_th w)) && negb (th_blk (thread_of w 0)) && bool_decide (assigned w 0 = [31%Z; 41%Z; 51%Z; 10%Z; 20%Z]) | None => false end = true.
Proof. vm_compute; reflexivity. Qed.
Example ex_equalities : exists w, reach default_options (any_shot 1 eqx_iqs []) w /\ accepted w 0 /\ assigned w 0 = [31%Z; 41%Z; 51%Z; 10%Z; 20%Z] /\ ~ eq_separate eqx_iqs.
Proof.
  pose proof eqx_run as E. destruct eqx_world as [w|] eqn:Ew; [|discriminate]. exists w. rewrite !andb_true_iff, negb_true_iff in E. destruct E as [[E1 E2] E3].
  apply bool_decide_eq_true in E1, E3. split; [|split; [split; [exact E1|exact E2]|split; [exact E3|]]].
  - apply any_reach with (2 := Ew). vm_compute. reflexivity.
  - intros Hs. specialize (Hs (Ineq [(qz 1, 0)] (qz 2) Req 20) (Ineq [(qz 1, 0)] (qz 4) Rle 10) (qz 1) (qz 1) 0 ltac:(right; left) ltac:(left) eq_refl eq_refl eq_refl). discriminate.
Qed.
