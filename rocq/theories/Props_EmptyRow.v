(** * C24: constraints without variables

    prepare (solving.cc 293-330) forces the literal of such a constraint to
    false.  For equalities the test is right; for <, <=, > and >= it is the
    wrong way round. *)

From Verif Require Import Num Sums Tableau TableauProofs Bland Solver SolverBase SolverStep Simplex SimplexLoop Hist Updates Core CoreSolve Propagate
  OptSelect Optimize Spec Eps Prepare Propagator World ThreadOk WorldProofs Reach Observe Examples Props_Equality.

Section empty.
  Context {V : Type} `{VL : ValueLaws V} {Sym : Type} `{EqDecision Sym}.
  Implicit Types sh : shot V Sym.

  (** equalities: the literal is forced false iff the constraint is false *)
  Theorem C24_equalities_partial o sh (p p' : propagator V Sym) log log' : shot_ok sh -> NoDup (p_vars p) -> sh_threads sh <> 0 ->
    p_init (sh_host sh) o (sh_sort sh) (sh_threads sh) (sh_iqs sh) (sh_obj sh) p log = Ok (p', log', true) ->
    (forall q, q ∈ sh_iqs sh -> q_lhs q = [] -> q_rel q = Req -> watched sh q -> ~ holds (fun _ => 0%Qc) q -> [(- q_lit q)%Z] ∈ log') /\
    (forall l, [l] ∈ log' -> [l] ∉ log -> exists q, q ∈ sh_iqs sh /\ l = (- q_lit q)%Z /\ q_lhs q = [] /\ (q_rel q = Req -> ~ holds (fun _ => 0%Qc) q)).
  Proof.
    intros Hsh Hn Ht E. destruct (p_init_ok o sh p log Hsh Hn) as (p1 & log1 & ok1 & E' & _ & _ & _ & _ & _ & _ & _ & _ & _ & _ & (new & -> & N & M)).
    rewrite E' in E. injection E as _ <- ->. split.
    - intros q Hq El Er Hw Hh. apply elem_of_app. right. apply M; auto. rewrite Er. unfold empty_row_clause. apply negb_true_iff, veqb_false.
      intros E0. apply Hh. unfold holds. rewrite El, Er, E0. reflexivity.
    - intros l Hl Hn'. apply elem_of_app in Hl as [|Hl]; [contradiction|]. destruct (N _ Hl) as [(q & Hq & El & Ec & Ee)|(_ & qa & qb & _ & _ & Ec & _)]; [|discriminate].
      injection Ec as ->. exists q. split; auto. split; auto. split; auto. intros Er Hh. unfold holds in Hh. rewrite El, Er in Hh. cbn in Hh.
      rewrite Er in Ee. unfold empty_row_clause in Ee. apply negb_true_iff, veqb_false in Ee. auto.
  Qed.
End empty.

(** For each of the other relations there are a constraint that holds and is
    forced false, and one that does not hold and is not: no state with its
    literal true is rejected. *)
Definition sat0 (q : ineq nat) : Prop := holds (fun _ => 0%Qc) q.
Theorem C24_refuted : 
  (exists iqs w q, session iqs w /\ q ∈ iqs /\ q_lhs q = [] /\ sat0 q /\ [(- q_lit q)%Z] ∈ w_log w) /\
  (exists iqs w q, session iqs w /\ q ∈ iqs /\ q_lhs q = [] /\ ~ sat0 q /\ accepted w 0 /\ q_lit q ∈ assigned w 0 /\ w_log w = []).
Proof.
  split.
  - set (q := Ineq ([] : list (Qc * nat)) (qz 1) Rle 10).
    exists [q], (get (world_of [q] []) ltac:(vm_compute; reflexivity)), q.
    split; [eapply session_of; [vm_compute; reflexivity|apply get_eq]|]. split; [left|]. split; auto. split; [vm_compute; discriminate|]. vm_compute. left.
  - set (q := Ineq ([] : list (Qc * nat)) (qz (-1)) Rle 10).
    exists [q], (get (world_of [q] [ev_prop 0 0 [10%Z]; ev_check 0 0 true 901 911]) ltac:(vm_compute; reflexivity)), q.
    split; [eapply session_of; [vm_compute; reflexivity|apply get_eq]|]. split; [left|]. split; auto.
    split; [vm_compute; intros H; apply H; reflexivity|]. split; [split; [vm_compute; lia|vm_compute; reflexivity]|]. split; [vm_compute; left|vm_compute; reflexivity].
Qed.
(** exactly how wrong: for every right-hand side *)
Theorem C24_inverted : forall rhs : Qc,
  (empty_row_clause Rle rhs = true <-> (0 < rhs)%Qc) /\ (empty_row_clause Rge rhs = true <-> (rhs < 0)%Qc) /\
  (empty_row_clause Rlt rhs = true <-> (0 <= rhs)%Qc) /\ (empty_row_clause Rgt rhs = true <-> (rhs <= 0)%Qc).
Proof.
  intros rhs. unfold empty_row_clause. rewrite vgtb_lt, vltb_lt, vgeb_le, vleb_le. rewrite !vlt_emb, !vle_emb. cbn.
  repeat split; intros; try (destruct H as [|[E ?]]; [qclra|try subst rhs; qclra]); try qclra.
  all: try (left; qclra).
  all: destruct (qc_total rhs 0) as [|[->|]]; auto; try (exfalso; qclra); right; split; auto; apply Qcle_refl.
Qed.
