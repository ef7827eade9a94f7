(** * From the program text to the reported values

    The theorems of Props_Solver.v and Props_Decision.v speak about the
    constraints handed to the solver, those of Props_Parsing.v about how theory
    atoms are turned into constraints.  Here both are put together: theory
    atoms as written by the user on one side, callbacks of clingo and values
    returned by the API on the other. *)
From Verif Require Import Num Sums Tableau Solver Spec Eps Propagator World Observe Reach Props_Solver Props_Decision.
From Verif Require Import Parsing ParseSpec ParseNum ParseProofs ParseSum ParseTheory ParseAtoms ParsePrograms ParseSyntax Props_Parsing Examples.

Section program.
  Context {V : Type} `{VL : ValueLaws V}.
  Variable m : Z -> Z.    (* program literals to solver literals *)
  Variable bk : backend.
  Implicit Types (sh : shot V symbol) (w : world V symbol).

  (** The constraints and the objective of the shot are the ones
      evaluate_theory computes from the atoms [l].  Excluded are constant
      summands under a condition (C21_refuted), negated operands of differences
      (C20_refuted), and inequalities without variables (C24_refuted). *)
  Record program (l : list tatom) sh : Prop := {
    pg_loaded : exists st, loaded m bk l st /\ sh_iqs sh = ps_iqs st /\ sh_obj sh = ps_obj st;
    pg_atoms : forall a, a ∈ l -> clean_atom a /\ homogeneous_conditions a /\ plain_difference a;
    pg_plain : forall q, q ∈ sh_iqs sh -> q_lhs q = [] -> q_rel q = Req;
  }.

  (** [tr] is clingo's assignment, as far as it concerns thread [t]: the literals
      of constraints that are true were handed over, and no others; they were not
      false before; the unit clauses the propagator added in this shot hold. *)
  Record assignment_of sh w (t : nat) (tr : Z -> bool) : Prop := {
    as_cons : consistent m tr;
    as_lits : forall q, q ∈ sh_iqs sh -> (q_lit q ∈ assigned w t <-> tr (q_lit q) = true);
    as_watched : forall q, q ∈ sh_iqs sh -> tr (q_lit q) = true -> watched sh q;
    as_units : forall x, [(- x)%Z] ∈ shot_log sh w -> x ∉ assigned w t;
  }.
  (** [A] satisfies the theory atoms that are true *)
  Definition solves (A : symbol -> Qc) (tr : Z -> bool) (l : list tatom) : Prop :=
    forall a, a ∈ l -> is_constraint a -> tr (m (ta_lit a)) = true -> atom_true A (tru m tr) a.

  Lemma accepted_holds o l sh w t tr : step_ok (V := V) o -> reach o sh w -> program l sh -> accepted w t -> assignment_of sh w t tr ->
    exists e0, (0 < e0)%Qc /\ forall e, (0 < e)%Qc -> (e <= e0)%Qc ->
      forall q, q ∈ sh_iqs sh -> tr (q_lit q) = true -> holds (fun x => inst e (api_value (w_p w) t x)) q.
  Proof.
    intros So Hr [_ _ Hp] Ha [A1 A2 A3 A4]. destruct (C15_epsilon_instances_satisfy_constraints_partial o sh w t So Hr Ha) as (e0 & He & Hq).
    exists e0. split; auto. intros e E1 E2 q Hin Ht. assert (Hf : in_force sh w t q). { split; auto. split; [apply A2; auto|auto]. }
    destruct (decide (q_lhs q = [])) as [El|Hne]; auto. exact (empty_holds o sh w t q _ So Hr (proj1 Ha) A4 Hf El (Hp q Hin El)).
  Qed.

  (** The values the API returns satisfy all true theory atoms, for every
      small enough positive value of epsilon; so does the objective: the
      reported value is the one the objective atoms denote. *)
  Theorem C01_reported_values_satisfy_program_partial o l sh w t tr : step_ok (V := V) o -> reach o sh w -> program l sh -> accepted w t -> assignment_of sh w t tr ->
    exists e0, (0 < e0)%Qc /\ forall e, (0 < e)%Qc -> (e <= e0)%Qc ->
      solves (fun x => inst e (api_value (w_p w) t x)) tr l /\
      forall v b, p_get_objective (w_p w) t = Ok (Some (v, b)) -> objective_means (fun x => inst e (api_value (w_p w) t x)) (tru m tr) l (inst e v).
  Proof.
    intros So Hr HP Ha HA. destruct (accepted_holds o l sh w t tr So Hr HP Ha HA) as (e0 & He & Hq). exists e0. split; auto. intros e E1 E2.
    specialize (Hq e E1 E2). destruct HP as [(st & Hl & Ei & Eo) Hat Hp]. destruct HA as [A1 A2 A3 A4]. rewrite Ei in Hq. split.
    - exact (C21_solutions_satisfy_atoms_partial m bk l st Hl Hat tr _ A1 Hq).
    - intros v b Hv. pose proof (C22_objective_partial m bk l st Hl ltac:(intros a Ha'; destruct (Hat a Ha') as (? & ? & ?); auto) tr _ A1 Hq) as Ho.
      assert (v = linV (api_value (w_p w) t) (sh_obj sh)) as ->.
      { destruct (reach_inv o sh w So Hr) as (s0s & new0 & facts0 & ass & I). destruct Ha as [Ht Hb]. destruct (ObserveProofs.get_view o sh s0s new0 facts0 ass w t I Ht) as (s0 & s & fs & _ & VW).
        pose proof (ObserveProofs.view_objective o sh ass w t s0 s fs ltac:(apply I) ltac:(apply I) VW Hb) as Hvo. rewrite Hvo in Hv. destruct (decide (sh_obj sh = [])); congruence. }
      rewrite inst_linV, Eo. exact Ho.
  Qed.

  (** A thread is in conflict iff no assignment of rationals satisfies the true
      theory atoms. *)
  Theorem C07_decides_program_partial o l sh w t tr : step_ok (V := V) o -> reach o sh w -> program l sh -> o_global o = None -> t < length (w_th w) -> assignment_of sh w t tr ->
    (accepted w t <-> exists A, solves A tr l).
  Proof.
    intros So Hr HP Hg Ht HA. split.
    - intros Ha. destruct (C01_reported_values_satisfy_program_partial o l sh w t tr So Hr HP Ha HA) as (e & He & Hs). destruct (Hs e He (Qcle_refl _)) as [S _]. eauto.
    - intros (A & Hs). pose proof HP as [(st & Hl & Ei & Eo) Hat Hp]. destruct HA as [A1 A2 A3 A4].
      destruct (C21_solutions_kept_partial m bk l st Hl ltac:(intros a Ha; destruct (Hat a Ha) as (? & ? & ?); auto) tr A A1 Hs) as (B & _ & HB & _).
      apply (C07_decides_satisfiability_partial o sh w t So Hr Hp Hg Ht A4).
      + intros q Hq Hq'. apply A3; auto. apply A2; auto.
      + exists B. intros q Hq Hl'. apply HB; [rewrite <- Ei; auto|apply A2; auto].
  Qed.

  (** The clauses of the propagator never exclude a solution of the program:
      they are true in every total assignment whose true atoms can be
      satisfied. *)
  Theorem C02_no_program_solution_lost_partial o l sh w tr A : step_ok (V := V) o -> reach o sh w -> program l sh -> o_global o = None ->
    (forall x, tr x = true \/ tr (- x)%Z = true) -> consistent m tr -> solves A tr l ->
    forall c, c ∈ w_log w -> c ∉ sh_log sh -> clause_true (fun x => tr x = true) c.
  Proof.
    intros So Hr HP Hg Htot Hc Hs. pose proof HP as [(st & Hl & Ei & Eo) Hat Hp].
    destruct (C21_solutions_kept_partial m bk l st Hl ltac:(intros a Ha; destruct (Hat a Ha) as (? & ? & ?); auto) tr A Hc Hs) as (B & _ & HB & _).
    apply (C02_no_solution_lost_partial o sh w (fun x => tr x = true) B So Hr Hp Hg Htot). intros q Hq Ht. apply HB; auto. rewrite <- Ei; auto.
  Qed.

  (** An objective value marked bounded is reached (for every small epsilon) by
      a solution, and no solution of the true atoms is better; with an
      unbounded objective there are solutions beyond every number. *)
  Theorem C08_program_optimum_partial o l sh w w' t tr : step_ok (V := V) o -> final o sh w w' t -> program l sh -> assignment_of sh w' t tr ->
    exists v b, p_get_objective (w_p w') t = Ok (Some (v, b)) /\
      (b = true -> (forall A y, solves A tr l -> objective_means A (tru m tr) l y -> vle (vofq y) v) /\
         exists e0, (0 < e0)%Qc /\ forall e, (0 < e)%Qc -> (e <= e0)%Qc -> exists A, solves A tr l /\ objective_means A (tru m tr) l (inst e v)) /\
      (b = false -> forall M : Qc, exists A y, solves A tr l /\ objective_means A (tru m tr) l y /\ (M < y)%Qc).
  Proof.
    intros So Hf HP HA. assert (Ha : accepted w' t) by apply Hf. assert (Hr' : reach o sh w') by (apply (final_view o sh w w' t So Hf)).
    destruct (C08_optimum_partial o sh w w' t So Hf) as (v & b & Ev & Elin & Hopt). exists v, b. split; auto.
    destruct (C01_reported_values_satisfy_program_partial o l sh w' t tr So Hr' HP Ha HA) as (e0 & He0 & Hs).
    pose proof HP as [(st & Hl & Ei & Eo) Hat Hp]. pose proof HA as [A1 A2 A3 A4]. split.
    - intros Hb. destruct (Hopt Hb) as [Hbest _]. split.
      + intros A y HsA Hy.
        destruct (C21_solutions_kept_partial m bk l st Hl ltac:(intros a Ha'; destruct (Hat a Ha') as (? & ? & ?); auto) tr A A1 HsA) as (B & _ & HB & Hob).
        rewrite (objective_fun _ _ _ _ _ Hy Hob), <- Eo. apply Hbest. intros q Hq Hlq _. apply HB; [rewrite <- Ei; auto|apply A2; auto].
      + exists e0. split; auto. intros e E1 E2. destruct (Hs e E1 E2) as [S1 S2]. eexists. split; [exact S1|]. eapply S2; eauto.
    - intros -> M. destruct (C09_unbounded_partial o sh w w' t v So Hf Ev M) as (A & HqA & HM). exists A, (lin A (sh_obj sh)).
      assert (Hq : forall q, q ∈ ps_iqs st -> tr (q_lit q) = true -> holds A q).
      { intros q Hq Ht. rewrite <- Ei in Hq. assert (Hfo : in_force sh w' t q). { split; auto. split; [apply A2; auto|auto]. }
        destruct (decide (q_lhs q = [])) as [El|Hne]; auto. exact (empty_holds o sh w' t q _ So Hr' (proj1 Ha) A4 Hfo El (Hp q Hq El)). }
      split; [exact (C21_solutions_satisfy_atoms_partial m bk l st Hl Hat tr _ A1 Hq)|]. split; auto. rewrite Eo.
      exact (C22_objective_partial m bk l st Hl ltac:(intros a Ha'; destruct (Hat a Ha') as (? & ? & ?); auto) tr _ A1 Hq).
  Qed.
End program.

(** Every accepted program is a valid shot of the strict version, whatever
    clingo replies and std::sort does. *)
Theorem C25_programs_are_shots m bk l st (h : host) (srt : nat -> list (bound RatQ) -> list (bound RatQ)) n log :
  loaded m bk l st -> (forall a, a ∈ l -> clean_atom a) -> (forall i x, srt i x ≡ₚ x) ->
  shot_ok (Shot h srt n (ps_iqs st) (ps_obj st) log : shot RatQ symbol).
Proof.
  intros Hl Hc Hs. destruct (C18_programs m bk l st Hl Hc) as [H1 H2]. constructor; cbn; auto. intros q _. split; apply representable_RatQ.
Qed.

(** ** A concrete program, from its atoms to the reported optimum

      &sum { x; y } <= 4.   &sum { 2*y : c; x } < 3.   &dom { 0..10 } = x.
      &diff { x-y } >= -5.  &maximize { x; 2*y }.

    with all atoms and the condition [c] true.  The facts are delivered on
    level 0, then check is called on the total assignment. *)
Definition pgm : list tatom :=
  [ TAtom (TSym "sum") [TElem [TSym "x"] [] 0%Z; TElem [TSym "y"] [] 0%Z] (Some ("<="%string, TNum 4)) 9%Z;
    TAtom (TSym "sum") [TElem [TFun "*" [TNum 2; TSym "y"]] [49%Z] 49%Z; TElem [TSym "x"] [] 0%Z] (Some ("<"%string, TNum 3)) 19%Z;
    TAtom (TSym "dom") [TElem [TFun ".." [TNum 0; TNum 10]] [] 0%Z] (Some ("="%string, TSym "x")) 29%Z;
    TAtom (TSym "diff") [TElem [TFun "-" [TSym "x"; TSym "y"]] [] 0%Z] (Some (">="%string, TNum (-5))) 39%Z;
    TAtom (TSym "maximize") [TElem [TSym "x"] [] 0%Z; TElem [TFun "*" [TNum 2; TSym "y"]] [] 0%Z] None 59%Z ].
Definition pgm_st : pstate := match evaluate_theory Flint shift_mapper pgm new_pstate with Ok st => st | _ => new_pstate end.
Lemma pgm_loaded : loaded shift_mapper Flint pgm pgm_st.
Proof.
  apply (ld_next _ _ [] _ pgm _ (ld_new _ _)).
  assert (E : match evaluate_theory Flint shift_mapper pgm new_pstate with Ok _ => true | _ => false end = true) by (vm_compute; reflexivity).
  unfold pgm_st. destruct (evaluate_theory Flint shift_mapper pgm new_pstate); try discriminate. reflexivity.
Qed.
Lemma pgm_clean a : a ∈ pgm -> clean_atom a.
Proof.
  unfold pgm. rewrite !elem_of_cons. intros [-> |[-> |[-> |[-> |[-> |H]]]]]; [..|inversion H]; (split; [intros e t He Ht|intros r g E]);
    cbn [ta_elems ta_guard] in *; rewrite ?elem_of_cons in *; try (injection E as <- <-); try discriminate; try exact Logic.I; try (apply clean_name; reflexivity).
  all: repeat match goal with H : _ \/ _ |- _ => destruct H | H : _ ∈ [] |- _ => inversion H end; subst; cbn [te_tuple] in *; rewrite ?elem_of_cons in *;
    repeat match goal with H : _ \/ _ |- _ => destruct H | H : _ ∈ [] |- _ => inversion H end; subst; cbn [clean]; repeat split; try (apply clean_name; reflexivity).
Qed.
Lemma pgm_conditions a : a ∈ pgm -> homogeneous_conditions a /\ plain_difference a.
Proof.
  unfold pgm. rewrite !elem_of_cons. intros [-> |[-> |[-> |[-> |[-> |H]]]]]; [..|inversion H]; (split; [intros e t He Hc Ht|intros Hm e s t He Ht]); cbn in Hm || idtac; try discriminate;
    cbn [ta_elems] in *; rewrite ?elem_of_cons in *;
    repeat match goal with H : _ \/ _ |- _ => destruct H | H : _ ∈ [] |- _ => inversion H end; subst; cbn [te_tuple te_cond] in *; try congruence; rewrite ?elem_of_cons in *;
    repeat match goal with H : _ \/ _ |- _ => destruct H | H : _ ∈ [] |- _ => inversion H end; subst; try congruence.
  - apply ho_mul2; [apply vf_num|]. apply (ho_var _ _ (plain_variable "y" eq_refl)).
  - injection Ht as <- <-. split; right; split; intros (? & ?); discriminate.
Qed.
Definition pgm_shot : shot RatQ symbol := Shot quiet (fun _ l => l) 1 (ps_iqs pgm_st) (ps_obj pgm_st) [].
Lemma pgm_shot_ok : shot_ok pgm_shot.
Proof. apply (C25_programs_are_shots shift_mapper Flint pgm); [apply pgm_loaded|apply pgm_clean|auto]. Qed.
Lemma pgm_plain : forallb (fun q : ineq symbol => match q_lhs q with [] => false | _ => true end) (ps_iqs pgm_st) = true.
Proof. vm_compute. reflexivity. Qed.
Lemma pgm_program : program shift_mapper Flint pgm pgm_shot.
Proof.
  constructor.
  - exists pgm_st. split; [apply pgm_loaded|]. split; reflexivity.
  - intros a Ha. split; [apply pgm_clean; auto|]. apply pgm_conditions; auto.
  - intros q Hq E. pose proof pgm_plain as P. rewrite forallb_forall in P. specialize (P q (proj1 (elem_of_list_In _ _) Hq)). rewrite E in P. discriminate.
Qed.

Definition pgm_opts : options := Options SelectNone StoreNo None PropNone true.
Definition first_of (r : res (propagator RatQ symbol * list (list Z) * bool)) : option (world RatQ symbol) :=
  match r with Ok (p, log, true) => Some (start p log) | _ => None end.
Lemma first_of_ok sh r w : shot_ok sh -> sh_log sh = [] ->
  r = p_init (sh_host sh) pgm_opts (sh_sort sh) (sh_threads sh) (sh_iqs sh) (sh_obj sh) new_propagator [] -> first_of r = Some w -> reach pgm_opts sh w.
Proof.
  intros Hs Hl Er E. unfold first_of in E. destruct r as [[[p log] [|]]| | |]; try discriminate. injection E as <-. apply reach_first; auto.
Qed.
Definition pgm_first : option (world RatQ symbol) :=
  first_of (p_init quiet pgm_opts (fun _ l => l) 1 (ps_iqs pgm_st) (ps_obj pgm_st) new_propagator []).
Definition pgm_prop : event := EvPropagate 0 quiet (lev 0) [10%Z; 20%Z; 30%Z; 40%Z; 50%Z].
Definition pgm_check : event := EvCheck 0 quiet (lev 0) true 1001%Z 1002%Z.
Definition no_units (w : world RatQ symbol) : bool :=
  forallb (fun c => match c with [y] => negb (existsb (Z.eqb (- y)) (assigned w 0)) | _ => true end) (w_log w).
Definition lits_as (w : world RatQ symbol) : bool := forallb (fun q : ineq symbol => eqb (existsb (Z.eqb (q_lit q)) (assigned w 0)) (all_true (q_lit q))) (ps_iqs pgm_st).
Definition accb (w : world RatQ symbol) : bool := (0 <? length (w_th w)) && negb (th_blk (thread_of w 0)).
Definition objb (w : world RatQ symbol) : bool :=
  match p_get_objective (w_p w) 0 with Ok (Some (v, b)) => b && bool_decide (vemb v = (qz 3, (-(1))%Qc)) | _ => false end.
Definition pgm_runs : bool :=
  match pgm_first with
  | Some w0 => match runs 50 pgm_opts [pgm_prop] w0 with
      | Some w => admb pgm_check w && match wstep 50 pgm_opts pgm_check w with
          | Ok w' => bool_decide (w_log w' = w_log w) && accb w' && no_units w' && lits_as w' && objb w'
          | _ => false end
      | None => false end
  | None => false
  end.
Lemma pgm_runs_ok : pgm_runs = true.
Proof. vm_compute. reflexivity. Qed.

Lemma lits_as_ok w (q : ineq symbol) : lits_as w = true -> q ∈ ps_iqs pgm_st -> (q_lit q ∈ assigned w 0 <-> all_true (q_lit q) = true).
Proof.
  intros E Hq. unfold lits_as in E. rewrite forallb_forall in E. specialize (E q (proj1 (elem_of_list_In _ _) Hq)). apply eqb_prop in E. rewrite <- E. split.
  - intros Hin. apply existsb_exists. exists (q_lit q). split; [apply elem_of_list_In; auto|apply Z.eqb_refl].
  - intros Hin. apply existsb_exists in Hin as (y & Hy & Ey). apply Z.eqb_eq in Ey as ->. apply elem_of_list_In; auto.
Qed.
Lemma no_units_ok w : no_units w = true -> forall x, [(- x)%Z] ∈ w_log w -> x ∉ assigned w 0.
Proof.
  intros E x Hl. unfold no_units in E. rewrite forallb_forall in E. specialize (E _ (proj1 (elem_of_list_In _ _) Hl)). cbn in E. apply negb_true_iff in E.
  intros Hin. rewrite Z.opp_involutive in E. apply existsb_no in E. auto.
Qed.
Lemma pgm_example_aux (e1 e2 : event) (b : bool) (w0 : option (world RatQ symbol)) :
  (forall w, w0 = Some w -> reach pgm_opts pgm_shot w) -> (exists h a l1 l2, e2 = EvCheck 0 h a true l1 l2) ->
  match w0 with
  | Some w0 => match runs 50 pgm_opts [e1] w0 with
      | Some w => admb e2 w && match wstep 50 pgm_opts e2 w with
          | Ok w' => bool_decide (w_log w' = w_log w) && accb w' && no_units w' && lits_as w' && objb w'
          | _ => false end
      | None => false end
  | None => false
  end = true -> sh_obj pgm_shot <> [] ->
  exists w w' v, final pgm_opts pgm_shot w w' 0 /\ assignment_of shift_mapper pgm_shot w' 0 all_true /\ p_get_objective (w_p w') 0 = Ok (Some (v, true)) /\ vemb v = (qz 3, (-(1))%Qc).
Proof.
  intros Hr (h & a & l1 & l2 & ->) E Hne. destruct w0 as [w0|]; [|discriminate]. specialize (Hr w0 eq_refl). destruct (runs 50 pgm_opts [e1] w0) as [w|] eqn:E1; [|discriminate].
  apply andb_true_iff in E as [Ea E]. destruct (wstep 50 pgm_opts (EvCheck 0 h a true l1 l2) w) as [w'| | |] eqn:E2; try discriminate.
  rewrite !andb_true_iff in E. destruct E as ((((L1 & L2) & L3) & L4) & L5). apply bool_decide_eq_true in L1. unfold accb in L2. apply andb_true_iff in L2 as [L2a L2b].
  apply Nat.ltb_lt in L2a. apply negb_true_iff in L2b. unfold objb in L5. destruct (p_get_objective (w_p w') 0) as [[[v bb]|]| | |] eqn:Eo; try discriminate.
  apply andb_true_iff in L5 as [-> L5]. apply bool_decide_eq_true in L5.
  exists w, w', v. split; [|split; [|split; auto]].
  - split; [exact (runs_reach _ _ _ _ _ _ Hr E1)|]. split; [exact Hne|]. split; [exact L1|]. split; [split; assumption|]. exists h, a, l1, l2. split; [apply admb_ok; exact Ea|exists 50; exact E2].
  - constructor.
    + apply all_true_consistent.
    + intros q Hq. apply lits_as_ok; assumption.
    + intros q _ _ log. reflexivity.
    + intros x Hx. apply no_units_ok; [assumption|]. exact (shot_log_sub _ _ _ Hx).
Qed.
Lemma pgm_obj_ne : match ps_obj pgm_st with [] => false | _ => true end = true.
Proof. vm_compute. reflexivity. Qed.
Lemma pgm_step_ok : step_ok (V := RatQ) pgm_opts.
Proof. intros g E. discriminate. Qed.
Theorem C08_program_example : exists w w' v, final pgm_opts pgm_shot w w' 0 /\ assignment_of shift_mapper pgm_shot w' 0 all_true /\
  p_get_objective (w_p w') 0 = Ok (Some (v, true)) /\ vemb v = (qz 3, (-(1))%Qc).
Proof.
  apply (pgm_example_aux pgm_prop pgm_check true pgm_first).
  - intros w. exact (first_of_ok pgm_shot _ w pgm_shot_ok eq_refl eq_refl).
  - exists quiet, (lev 0), 1001%Z, 1002%Z. reflexivity.
  - exact pgm_runs_ok.
  - pose proof pgm_obj_ne as P. cbn. intros E. rewrite E in P. discriminate.
Qed.
(** what this says about the program: no solution reaches 3, the supremum *)
Theorem C08_program_example_optimum : exists v : RatQ, vemb v = (qz 3, (-(1))%Qc) /\
  forall A y, solves shift_mapper A all_true pgm -> objective_means A (tru shift_mapper all_true) pgm y -> vle (vofq y) v.
Proof.
  destruct C08_program_example as (w & w' & v & Hf & HA & Eo & Ev). exists v. split; auto. intros A y HS Hy.
  destruct (C08_program_optimum_partial shift_mapper Flint pgm_opts pgm pgm_shot w w' 0 all_true pgm_step_ok Hf pgm_program HA) as (v' & b & E & H1 & _).
  rewrite Eo in E. injection E as <- <-. exact (proj1 (H1 eq_refl) A y HS Hy).
Qed.
