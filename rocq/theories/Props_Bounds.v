(** * C04, C15, C25: from constraints to bounds

    What init makes of the constraints.  [rows s a]: the assignment [a] of
    rationals (with epsilon) to the solver's variables fulfils the tableau of
    the thread's solver [s].  [bsat a b]: it satisfies the bound [b]. *)

From Verif Require Import Num Sums Tableau TableauProofs Bland Solver SolverBase SolverStep Simplex SimplexLoop Hist Updates Core CoreSolve Propagate
  OptSelect Optimize Spec Eps Prepare Propagator World ThreadOk WorldProofs Reach Observe ObserveProofs Props_Solver Examples.

Section bounds.
  Context {V : Type} `{VL : ValueLaws V} {Sym : Type} `{EqDecision Sym}.
  Implicit Types sh : shot V Sym.
  Implicit Types b c : bound V.
  Implicit Types p : propagator V Sym.

  (** init for the constraints of the shot succeeded *)
  Definition initialized o sh p (log : list (list Z)) p' (log' : list (list Z)) : Prop :=
    shot_ok sh /\ NoDup (p_vars p) /\ p_init (sh_host sh) o (sh_sort sh) (sh_threads sh) (sh_iqs sh) (sh_obj sh) p log = Ok (p', log', true).
  (** the solver's variables of the symbols have the values [A] *)
  Definition gives p (a : nat -> V) (A : Sym -> V) : Prop := forall x i, p_lookup_symbol p x = Some i -> a i = A x.
  (** the value of a symbol under an assignment of the solver's variables *)
  Definition value_in p (a : nat -> V) (x : Sym) : V := match p_lookup_symbol p x with Some i => a i | None => vzero end.

  Lemma gives_rd p a A : gives p a A <-> forall x, is_Some (find_sym (p_vars p) x) -> rd (find_sym (p_vars p)) a x = A x.
  Proof.
    unfold gives, p_lookup_symbol, rd. split; intros Hg x.
    - intros [k E]. rewrite E. auto.
    - intros i E. specialize (Hg x). rewrite E in Hg. apply Hg. eauto.
  Qed.

  (** ** C25 *)

  (** A constraint with one variable: the bound computed from it (quotient,
      inverted relation if the coefficient is negative) holds for a rational
      value iff the constraint does. *)
  Theorem C25_single_variable r (co rhs y : Qc) : representable (V := V) r -> representable (V := V) (invert r) -> co <> 0%Qc ->
    let r' := if vltb co 0%Qc then invert r else r in
    bs_rel (bound_rel r') (vofq y : V) (vbound (rhs / co)%Qc r') <-> relq r (co * y)%Qc rhs.
  Proof.
    intros R1 R2 Hc r'. assert (R : srel (V := V) r') by (subst r'; destruct (vltb co 0%Qc); auto).
    assert (E : vscale co (vofq y : V) = vofq (co * y)%Qc) by vring. rewrite <- (relv_ofq (V := V)), <- E, <- (relv_scale r co rhs (vofq y) Hc). fold r'.
    split; [apply bound_relv; auto|apply relv_bound; auto; apply std_ofq].
  Qed.

  (** Every thread's solver: any rational assignment of the symbols extends to
      one that fulfils the tableau, and under each such extension a bound with
      the literal of the constraint holds iff the constraint does; there are
      no other bounds.  (Constraints without variables are C24.) *)
  Theorem C25_bounds_equivalent_to_constraints o sh p log p' log' off s : initialized o sh p log p' log' -> (off, s) ∈ p_slvs p' ->
    (forall A : Sym -> Qc, exists a, rows s a /\ gives p' a (fun x => vofq (A x))) /\
    (forall q, q ∈ sh_iqs sh -> q_lhs q <> [] -> watched sh q -> exists b, b ∈ s_bounds s /\ b_lit b = q_lit q /\
       forall (A : Sym -> Qc) a, rows s a -> gives p' a (fun x => vofq (A x)) -> bsat a b <-> holds A q) /\
    (forall b, b ∈ s_bounds s -> exists q, q ∈ sh_iqs sh /\ q_lhs q <> [] /\ b_lit b = q_lit q /\
       forall (A : Sym -> Qc) a, rows s a -> gives p' a (fun x => vofq (A x)) -> bsat a b <-> holds A q).
  Proof.
    intros (So & Hn & E) Hs. destruct (p_init_ok o sh p log So Hn) as (p1 & log1 & ok1 & E' & A1 & A2 & A3 & A4 & A5 & A6 & A7 & A8 & A9 & A10 & _).
    rewrite E' in E. injection E as -> -> ->. destruct (A10 eq_refl) as [_ P]. destruct (P _ Hs) as [_ Pr]. cbn in Pr. destruct Pr.
    assert (K : forall q b, q ∈ sh_iqs sh -> repr (find_sym (p_vars p')) s q b -> forall (A : Sym -> Qc) a, rows s a -> gives p' a (fun x => vofq (A x)) -> bsat a b <-> holds A q).
    { intros q b Hq Hr A a Ha Hg. rewrite gives_rd in Hg. split.
      - intros Hb. destruct Hr as (_ & R & _). specialize (R a Ha Hb). apply (holdsV_ofq (V := V)). unfold holdsV in *.
        rewrite (linV_ext _ (rd (find_sym (p_vars p')) a)); auto. intros c x Hx. symmetry. apply Hg. apply (proj2 (A8 q Hq) c x Hx).
      - intros Hh. eapply holds_bsat; eauto. }
    split; [|split].
    - intros A. destruct (pd_ext (fun x => vofq (A x))) as (a & Ha & Hx). exists a. split; auto. apply gives_rd. auto.
    - intros q Hq Hne Hw. destruct (pd_cpl q Hq Hne Hw) as (b & Hb & Hr). exists b. split; auto. split; [apply Hr|]. eauto.
    - intros b Hb. destruct (pd_snd b Hb) as (q & Hq & Hne & Hr). exists q. split; auto. split; auto. split; [apply Hr|]. eauto.
  Qed.

  (** ** C15 *)

  (** Let [L] be the true literals.  If values with epsilon fulfil the tableau
      and the bounds of [L] then, for all small positive rationals [e], the
      values with [e] for epsilon satisfy the constraints of [L].  Conversely a
      rational solution of the constraints of [L] gives one of the tableau and
      the bounds of [L]. *)
  Theorem C15_epsilon_faithful o sh p log p' log' off s (L : Z -> Prop) : initialized o sh p log p' log' -> (off, s) ∈ p_slvs p' ->
    (forall a, rows s a -> (forall b, b ∈ s_bounds s -> L (b_lit b) -> bsat a b) ->
      exists e0, (0 < e0)%Qc /\ forall e, (0 < e)%Qc -> (e <= e0)%Qc ->
        forall q, q ∈ sh_iqs sh -> q_lhs q <> [] -> watched sh q -> L (q_lit q) -> holds (fun x => inst e (value_in p' a x)) q) /\
    (forall A : Sym -> Qc, (forall q, q ∈ sh_iqs sh -> q_lhs q <> [] -> L (q_lit q) -> holds A q) ->
      exists a, rows s a /\ gives p' a (fun x => vofq (A x)) /\ forall b, b ∈ s_bounds s -> L (b_lit b) -> bsat a b).
  Proof.
    intros Hi Hs. pose proof (C25_bounds_equivalent_to_constraints o sh p log p' log' off s Hi Hs) as (X1 & _ & X3).
    destruct Hi as (So & Hn & E). destruct (p_init_ok o sh p log So Hn) as (p1 & log1 & ok1 & E' & A1 & A2 & A3 & A4 & A5 & A6 & A7 & A8 & A9 & A10 & _).
    rewrite E' in E. injection E as -> -> ->. destruct (A10 eq_refl) as [_ P]. destruct (P _ Hs) as [_ Pr]. cbn in Pr. destruct Pr.
    split.
    - intros a Ha Hb. destruct (small_holds (value_in p' a) (sh_iqs sh)) as (e0 & H0 & He). exists e0. split; auto.
      intros e H1 H2 q Hq Hne Hw HL. apply He; auto. destruct (pd_cpl q Hq Hne Hw) as (b & Hbi & Hr & R & _). apply (R a Ha). apply Hb; auto. rewrite Hr. auto.
    - intros A HA. destruct (X1 A) as (a & Ha & Hg). exists a. split; auto. split; auto. intros b Hb HL. destruct (X3 b Hb) as (q & Hq & Hne & El & K).
      apply (K A a Ha Hg). apply HA; auto. rewrite <- El. auto.
  Qed.

  (** In terms of the constraints only: assignments with epsilon are faithful
      to assignments of rationals. *)
  Theorem C15_assignments_faithful (qs : list (ineq Sym)) :
    (forall A : Sym -> V, (forall q, q ∈ qs -> holdsV A q) ->
      exists e0, (0 < e0)%Qc /\ forall e, (0 < e)%Qc -> (e <= e0)%Qc -> forall q, q ∈ qs -> holds (fun x => inst e (A x)) q) /\
    (forall A : Sym -> Qc, (forall q, q ∈ qs -> holds A q) -> forall q, q ∈ qs -> holdsV (fun x => vofq (A x) : V) q).
  Proof.
    split.
    - intros A HA. destruct (small_holds A qs) as (e0 & H0 & He). exists e0. split; auto.
    - intros A HA q Hq. apply holdsV_ofq. auto.
  Qed.

  (** ** C04 *)

  (** Bound::conflicts is exact. *)
  Theorem C04_conflicts_exact b c :
    bconflicts b c = true <-> ~ exists v : V, bs_rel (b_rel b) v (b_val b) /\ bs_rel (b_rel c) v (b_val c).
  Proof. apply bconflicts_spec. Qed.
  Theorem C04_conflicts_symmetric b c : bconflicts b c = bconflicts c b.
  Proof.
    destruct (bconflicts b c) eqn:E1, (bconflicts c b) eqn:E2; auto; exfalso.
    - apply C04_conflicts_exact in E1. assert (E : bconflicts c b = true) by (apply C04_conflicts_exact; intros (v & ? & ?); eauto). congruence.
    - apply C04_conflicts_exact in E2. assert (E : bconflicts b c = true) by (apply C04_conflicts_exact; intros (v & ? & ?); eauto). congruence.
  Qed.

  (** two constraints on one variable *)
  Definition on_one_variable (q q' : ineq Sym) : Prop := exists (k k' : Qc) x, q_lhs q = [(k, x)] /\ q_lhs q' = [(k', x)].

  (** The clauses init adds: a negated literal of a constraint without
      variables (C24), or, with propagate-conflicts, the negated literals of
      two constraints that no rational assignment satisfies both. *)
  Theorem C04_static_clauses_sound o sh p log p' log' (c : list Z) : initialized o sh p log p' log' -> c ∈ log' -> c ∉ log ->
    (exists q, q ∈ sh_iqs sh /\ q_lhs q = [] /\ c = [(- q_lit q)%Z]) \/
    (o_pconf o = true /\ clause_sound (sh_iqs sh) c /\ exists q q', q ∈ sh_iqs sh /\ q' ∈ sh_iqs sh /\ c = [(- q_lit q)%Z; (- q_lit q')%Z]).
  Proof.
    intros (So & Hn & E) Hc Hl. destruct (p_init_ok o sh p log So Hn) as (p1 & log1 & ok1 & E' & A1 & A2 & A3 & A4 & A5 & A6 & A7 & A8 & A9 & A10 & (new & -> & N & _)).
    rewrite E' in E. injection E as -> <- ->. apply elem_of_app in Hc as [Hc|Hc]; [contradiction|].
    destruct (N c Hc) as [(q & Hq & El & -> & _)|(Hp & q & q' & Hq & Hq' & -> & Hs)]; [left; eauto|right; eauto 10].
  Qed.

  (** Conversely, with propagate-conflicts every two jointly unsatisfiable
      constraints on one variable get their clause, unless one literal is
      already false or they are complementary. *)
  Theorem C04_static_clauses_complete o sh p log p' log' q q' : initialized o sh p log p' log' -> sh_threads sh <> 0 -> o_pconf o = true ->
    q ∈ sh_iqs sh -> q' ∈ sh_iqs sh -> on_one_variable q q' -> watched sh q -> watched sh q' -> (q_lit q <> - q_lit q')%Z ->
    ~ satisfiable [q; q'] -> exists c : list Z, c ∈ log' /\ c ≡ₚ [(- q_lit q)%Z; (- q_lit q')%Z].
  Proof.
    intros (So & Hn & E) Ht Hp Hq Hq' (c & c' & x & E1 & E2) Hw Hw' Hl Hu.
    destruct (p_init_ok o sh p log So Hn) as (p1 & log1 & ok1 & E' & A1 & A2 & A3 & A4 & A5 & A6 & A7 & A8 & A9 & A10 & (new & -> & _ & _ & K)).
    rewrite E' in E. injection E as -> <- ->.
    destruct (K eq_refl Ht Hp q q' c c' x Hq Hq' E1 E2 Hw Hw' Hl) as [Hc|Hc].
    - intros (A & H1 & H2). apply Hu. destruct (small_ex _ (small_and _ _ (holdsV_small A q H1) (holdsV_small A q' H2))) as (e & _ & G1 & G2).
      eexists. intros q0 Hq0. apply elem_of_cons in Hq0 as [->|Hq0]; [exact G1|]. apply elem_of_list_singleton in Hq0 as ->. exact G2.
    - eexists. split; [apply elem_of_app; right; exact Hc|]. auto.
    - eexists. split; [apply elem_of_app; right; exact Hc|]. apply Permutation_swap.
  Qed.
End bounds.

(** ** Concrete cases *)

(** -2x < -6 and x < 3, y - x >= 1: x > 3 and x < 3 exclude each other. *)
Definition bd_iqs : list (ineq nat) :=
  [ Ineq [(qz (-2), 0)] (qz (-6)) Rlt 10; Ineq [(qz 1, 0)] (qz 3) Rlt 20; Ineq [(qz 1, 1); (qz (-1), 0)] (qz 1) Rge 30 ].
Definition bd_shot : shot RatQ nat := Shot quiet (fun _ l => l) 1 bd_iqs [] [].
Lemma bd_shot_ok : shot_ok bd_shot.
Proof.
  assert (N : forall q, q ∈ bd_iqs -> normalb (q_lhs q) = true).
  { intros q Hq. assert (E : forallb (fun q => normalb (q_lhs q)) bd_iqs = true) by (vm_compute; reflexivity). rewrite forallb_forall in E. apply E, elem_of_list_In, Hq. }
  constructor; cbn; auto.
  - intros q Hq. apply normalb_ok, N, Hq.
  - apply normalb_ok. reflexivity.
  - intros q _. split; apply representable_RatQ.
Qed.
Definition bd_result : option (propagator RatQ nat * list (list Z)) :=
  match p_init quiet ex_opts (fun _ l => l) 1 bd_iqs [] new_propagator [] with Ok (p, log, true) => Some (p, log) | _ => None end.
Lemma bd_check : match bd_result with Some (p, log) => bool_decide (log = [[(-10)%Z; (-20)%Z]]) && (length (p_slvs p) =? 1) && (length (p_vars p) =? 2) | None => false end = true.
Proof. vm_compute. reflexivity. Qed.
Lemma initialized_example : exists p log, initialized ex_opts bd_shot new_propagator [] p log /\ log = [[(-10)%Z; (-20)%Z]] /\ length (p_slvs p) = 1 /\ length (p_vars p) = 2.
Proof.
  pose proof bd_check as C. unfold bd_result in C. destruct (p_init _ _ _ _ _ _ _ _) as [[[p log] [|]]| | |] eqn:E; try discriminate.
  apply andb_true_iff in C as [C C3]. apply andb_true_iff in C as [C1 C2]. apply bool_decide_eq_true in C1. apply Nat.eqb_eq in C2, C3.
  exists p, log. split; [|auto]. split; [apply bd_shot_ok|]. split; [apply NoDup_nil_2|exact E].
Qed.
(** the two constraints meet the hypotheses of C04_static_clauses_complete *)
Example C04_example : exists q q', q ∈ sh_iqs bd_shot /\ q' ∈ sh_iqs bd_shot /\ on_one_variable q q' /\ watched bd_shot q /\ watched bd_shot q' /\
  (q_lit q <> - q_lit q')%Z /\ ~ satisfiable [q; q'].
Proof.
  exists (Ineq [(qz (-2), 0)] (qz (-6)) Rlt 10), (Ineq [(qz 1, 0)] (qz 3) Rlt 20). split; [left|]. split; [right; left|].
  split; [eexists _, _, _; split; reflexivity|]. split; [intros log; reflexivity|]. split; [intros log; reflexivity|]. split; [cbn; lia|].
  intros (A & HA). pose proof (HA _ (elem_of_list_here _ _)) as H1. pose proof (HA _ (elem_of_list_further _ _ _ (elem_of_list_here _ _))) as H2.
  unfold holds in *. cbn [q_lhs q_rhs q_rel relq lin] in *.
  assert (E1 : qz (-6) = (- (qz 3 + qz 3))%Qc) by (apply Qc_is_canon; reflexivity). assert (E2 : qz (-2) = (- (1 + 1))%Qc) by (apply Qc_is_canon; reflexivity).
  assert (E3 : qz 1 = 1%Qc) by (apply Qc_is_canon; reflexivity). rewrite E1, E2 in H1. rewrite E3 in H2. set (y := qz 3) in *. clearbody y. qclra.
Qed.
