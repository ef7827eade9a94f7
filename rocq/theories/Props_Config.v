(** * C44: options, threads and search order do not change the answers

    Two sessions with the same constraints true give the same verdict and the
    same optimum, whatever their options, numbers of threads, sorting of
    bounds, histories and previous shots are. *)

From Verif Require Import Num Sums Tableau TableauProofs Bland Solver SolverBase SolverStep Simplex SimplexLoop Hist Updates Core CoreSolve Propagate
  OptSelect Optimize Spec Eps Prepare Propagator World ThreadOk WorldProofs Reach Observe ObserveProofs ObserveWeak Props_Solver Props_Decision Examples.

Section exact.
  Context {V : Type} `{VL : ValueLaws V} {Sym : Type} `{EqDecision Sym}.
  Implicit Types w : world V Sym.
  Implicit Types sh : shot V Sym.

  (** ** C08: which value exactly

      [keptV] (Spec.v): the constraint, where a strict one asks for a distance of
      at least epsilon.  The values of the API keep the constraints in force,
      and no values with epsilon that keep the constraints assigned true are better. *)
  Theorem C08_exact_optimum_partial o sh w w' t : step_ok (V := V) o -> final o sh w w' t ->
    exists b, p_get_objective (w_p w') t = Ok (Some (linV (api_value (w_p w') t) (sh_obj sh), b)) /\
      (forall q, in_force sh w' t q -> q_lhs q <> [] -> keptV (api_value (w_p w') t) q) /\
      (b = true -> forall A : Sym -> V, (forall q, q ∈ sh_iqs sh -> q_lit q ∈ assigned w' t -> q_lhs q <> [] -> keptV A q) ->
         vle (linV A (sh_obj sh)) (linV (api_value (w_p w') t) (sh_obj sh))).
  Proof.
    intros So Hf. destruct (final_view o sh w w' t So Hf) as (Hr' & s0s & new0 & facts0 & ass & s0 & s & fs & I & VW & HL & Eo & Hact & Hrow & Ho).
    eexists. split; [exact Eo|]. pose proof VW as [Es P Ea _ _ T Nv]. set (z := ob_var (s_obj s0)) in *.
    assert (Rs : rows s0 (val s)) by (apply (md_R _ _ _ _ (lv_M _ _ _ _ HL)), (j_rows _ (md_J _ _ _ _ (lv_M _ _ _ _ HL)))).
    assert (Hapi : forall x, api_value (w_p w') t x = rd (find_sym (p_vars (w_p w'))) (val s) x).
    { intros x. exact (api_rd o sh ass w' t s0 s fs x (ri_nd _ _ _ _ _ _ _ I) VW). }
    assert (Hz : val s z = linV (api_value (w_p w') t) (sh_obj sh)).
    { destruct Hrow as (R1 & R2 & R3 & R4). rewrite R4; auto. apply linV_ext. intros c x _. auto. }
    split.
    - intros q (Hq & Hl & Hwt) Hne. destruct (pd_cpl _ _ _ _ _ _ _ P q Hq Hne Hwt) as (b & Hb0 & R). pose proof R as (El & _ & _ & R4).
      apply (keptV_ext (rd (find_sym (p_vars (w_p w'))) (val s))); [intros x; auto|]. apply R4; auto.
      eapply live_bsat; eauto; [destruct (tb_bs _ _ _ _ _ T) as (ex & -> & _); apply elem_of_app; auto|]. rewrite El, Ea. auto.
    - intros Hbd A HA. rewrite Hbd in Ho. rewrite <- Hz. destruct (decide (vle (linV A (sh_obj sh)) (val s z))) as [|Hn]; auto. apply vnot_le in Hn. exfalso.
      destruct (pd_ext _ _ _ _ _ _ _ P A) as (a & Hr & Ha).
      assert (Haz : a z = linV A (sh_obj sh)).
      { destruct Hrow as (R1 & R2 & R3 & R4). rewrite (R4 a Hr). apply linV_ext. intros c x Hin. apply Ha. apply (proj2 (ri_obj _ _ _ _ _ _ _ I) c x); auto. }
      assert (Hi : inall s a).
      { eapply inall_of; eauto. intros b Hb Hl.
        destruct (bound_reason o (sh_iqs sh) (sh_obj sh) (p_vars (w_p w')) (sh_host sh) s0 s ass (w_rep w') b P T Hb) as [(q & Hqi & Hne & R)|(Hin & Hne & Er & Hv)].
        - pose proof R as (El & _ & _ & R4). apply R4; auto.
          assert (Hk : keptV A q) by (apply HA; auto; rewrite <- El, <- Ea; auto).
          pose proof (ri_lhs _ _ _ _ _ _ _ I q Hqi) as Hok. clear -Hk Ha Hok VL. unfold keptV in *.
          assert (E : linV (rd (find_sym (p_vars (w_p w'))) a) (q_lhs q) = linV A (q_lhs q)).
          { apply linV_ext. intros c x Hin. apply Ha. apply (proj2 Hok c x); auto. }
          assert (E1 : forall c x, (c, x) ∈ q_lhs q -> rd (find_sym (p_vars (w_p w'))) a x = A x) by (intros c x Hin; apply Ha; apply (proj2 Hok c x); auto).
          destruct (q_lhs q) as [|[c x] [|y l]]; [rewrite E; auto| |rewrite E; auto]. rewrite (E1 c x); auto. left.
        - pose proof (live_bsat _ _ _ _ b HL Hb Hl) as Hbs. unfold bsat in *. rewrite Er in *. destruct Hrow as (R1 & R2 & R3 & R4).
          rewrite Hv in Hbs by auto. rewrite <- R4 in Hbs by auto. rewrite Hv, <- R4 by auto. fold z. rewrite Haz. eapply vle_trans; [exact Hbs|]. apply vlt_le. auto. }
      apply Ho in Hi. rewrite Haz in Hi. apply vnot_lt in Hi. auto.
  Qed.
End exact.

(** ** Specification: two sessions over the same problem *)

(** The same constraints and the same objective. *)
Definition same_problem {V V' Sym} (sh : shot V Sym) (sh' : shot V' Sym) : Prop :=
  (forall q, q ∈ sh_iqs sh <-> q ∈ sh_iqs sh') /\ sh_obj sh ≡ₚ sh_obj sh'.
(** Of these the same ones are assigned true, and none was dropped by init
    because its literal was false. *)
Definition same_true {V V' Sym} (sh : shot V Sym) (sh' : shot V' Sym) (w : world V Sym) (w' : world V' Sym) (t t' : nat) : Prop :=
  forall q, q ∈ sh_iqs sh -> (q_lit q ∈ assigned w t <-> q_lit q ∈ assigned w' t') /\
    (q_lit q ∈ assigned w t -> watched sh q /\ watched sh' q).

Lemma same_problem_sym {V V' Sym} (sh : shot V Sym) (sh' : shot V' Sym) : same_problem sh sh' -> same_problem sh' sh.
Proof. intros [A B]. split; [intros q; symmetry; auto|symmetry; auto]. Qed.
Lemma same_true_sym {V V' Sym} (sh : shot V Sym) (sh' : shot V' Sym) w w' t t' : same_problem sh sh' -> same_true sh sh' w w' t t' -> same_true sh' sh w' w t' t.
Proof.
  intros [A _] T q Hq. apply A in Hq. destruct (T q Hq) as [E W]. split; [symmetry; auto|]. intros Hl. apply E in Hl. apply W in Hl. tauto.
Qed.

Section config.
  Context {V : Type} `{VL : ValueLaws V} {V' : Type} `{VL' : ValueLaws V'} {Sym : Type} `{EqDecision Sym}.
  Implicit Types w : world V Sym.
  Implicit Types sh : shot V Sym.

  (** The same verdict, also with and without --strict: either both calls were
      accepted or both reported a conflict. *)
  Theorem C44_same_verdict_partial o o' sh (sh' : shot V' Sym) w (w' : world V' Sym) t t' :
    step_ok (V := V) o -> step_ok (V := V') o' -> reach o sh w -> reach o' sh' w' -> o_global o = None -> o_global o' = None ->
    plain sh -> t < length (w_th w) -> t' < length (w_th w') -> honoured sh w t -> honoured sh' w' t' ->
    same_problem sh sh' -> same_true sh sh' w w' t t' ->
    (accepted w t <-> accepted w' t') /\ (blocked w t <-> blocked w' t').
  Proof.
    intros So So' Hr Hr' Hg Hg' Hp Ht Ht' Hh Hh' SP ST.
    assert (Hp' : plain sh') by (intros q Hq; apply Hp, SP; auto).
    assert (E : accepted w t <-> accepted w' t').
    { rewrite (C07_decides_satisfiability_partial o sh w t So Hr Hp Hg Ht Hh).
      - rewrite (C07_decides_satisfiability_partial o' sh' w' t' So' Hr' Hp' Hg' Ht' Hh').
        + split; intros (A & HA); exists A; intros q Hq Hl; apply HA; auto; [apply SP; auto| |apply SP; auto|].
          * apply (ST q); [apply SP; auto|auto].
          * apply (ST q); auto.
        + intros q Hq Hl. apply SP in Hq. apply (ST q Hq). apply (ST q Hq). auto.
      - intros q Hq Hl. apply (ST q Hq). auto. }
    split; auto. unfold accepted, blocked in *. destruct (th_blk (thread_of w t)), (th_blk (thread_of w' t')); intuition congruence.
  Qed.

  (** Whether the objective is unbounded does not depend on the configuration either. *)
  Lemma bounded_agrees o o' sh (sh' : shot V' Sym) w0 w (w0' w' : world V' Sym) t t' v v' b b' :
    step_ok (V := V) o -> step_ok (V := V') o' -> final o sh w0 w t -> final o' sh' w0' w' t' ->
    same_problem sh sh' -> same_true sh sh' w w' t t' ->
    p_get_objective (w_p w) t = Ok (Some (v, b)) -> p_get_objective (w_p w') t' = Ok (Some (v', b')) -> b = true -> b' = true.
  Proof.
    intros So So' Hf Hf' SP ST E E' ->. destruct b'; auto. exfalso.
    destruct (C08_optimum_partial o sh w0 w t So Hf) as (u & bu & Eu & _ & Ho). rewrite E in Eu. injection Eu as <- <-. destruct (Ho eq_refl) as [Ho1 _].
    destruct (C09_unbounded_partial o' sh' w0' w' t' v' So' Hf' E' ((vemb v).1 + 1)%Qc) as (A & HA & Hlt).
    assert (Hle : vle (vofq (lin A (sh_obj sh)) : V) v).
    { apply Ho1. intros q Hq Hl Hne. apply HA; auto. split; [apply SP; auto|]. split; [apply (ST q Hq); auto|apply (ST q Hq); auto]. }
    assert (El : lin A (sh_obj sh) = lin A (sh_obj sh')).
    { destruct SP as [_ P]. clear -P. induction P as [|[c x] l l' _ IH|[c x] [c' x'] l|]; cbn; [reflexivity|rewrite IH; reflexivity|ring|congruence]. }
    apply vle_emb in Hle. rewrite vemb_ofq in Hle. cbn in Hle. rewrite El in Hle. destruct Hle as [Hle|[Hle _]]; qclra.
  Qed.
End config.

Section same_mode.
  Context {V : Type} `{VL : ValueLaws V} {Sym : Type} `{EqDecision Sym}.
  Implicit Types w : world V Sym.
  Implicit Types sh : shot V Sym.

  Lemma linV_perm (A : Sym -> V) l l' : l ≡ₚ l' -> linV A l = linV A l'.
  Proof.
    induction 1 as [|[c x] l l' _ IH|[c x] [c' x'] l|]; cbn; [reflexivity|rewrite IH; reflexivity| |congruence].
    rewrite !vadd_assoc. f_equal. apply vadd_comm.
  Qed.

  (** The same optimum, to the epsilon. *)
  Theorem C44_same_optimum_partial o o' sh sh' w0 w w0' w' t t' v v' b b' :
    step_ok (V := V) o -> step_ok (V := V) o' -> final o sh w0 w t -> final o' sh' w0' w' t' ->
    same_problem sh sh' -> same_true sh sh' w w' t t' ->
    p_get_objective (w_p w) t = Ok (Some (v, b)) -> p_get_objective (w_p w') t' = Ok (Some (v', b')) ->
    b = b' /\ (b = true -> v = v').
  Proof.
    intros So So' Hf Hf' SP ST E E'. pose proof (same_problem_sym _ _ SP) as SP'. pose proof (same_true_sym _ _ _ _ _ _ SP ST) as ST'.
    assert (Eb : b = b').
    { pose proof (bounded_agrees o o' sh sh' w0 w w0' w' t t' v v' b b' So So' Hf Hf' SP ST E E') as X.
      pose proof (bounded_agrees o' o sh' sh w0' w' w0 w t' t v' v b' b So' So Hf' Hf SP' ST' E' E) as X'.
      destruct b, b'; auto; symmetry; auto. }
    split; auto. intros Hb. subst b'.
    destruct (C08_exact_optimum_partial o sh w0 w t So Hf) as (c & Ec & K & M). rewrite E in Ec. injection Ec as -> <-.
    destruct (C08_exact_optimum_partial o' sh' w0' w' t' So' Hf') as (c' & Ec' & K' & M'). rewrite E' in Ec'. injection Ec' as -> <-.
    apply vle_antisym.
    - rewrite (linV_perm _ _ _ (proj2 SP)). apply M'; auto. intros q Hq Hl Hne. apply K; auto. apply SP in Hq. split; [auto|]. split; [apply (ST q Hq); auto|]. apply (ST q Hq). apply (ST q Hq). auto.
    - rewrite <- (linV_perm _ _ _ (proj2 SP)). apply M; auto.
      intros q Hq Hl Hne. apply K'; auto. split; [apply SP; auto|]. split; [apply (ST q Hq); auto|]. apply (ST q Hq). auto.
  Qed.
End same_mode.

Section two_modes.
  Context {V : Type} `{VL : ValueLaws V} {V' : Type} `{VL' : ValueLaws V'} {Sym : Type} `{EqDecision Sym}.
  Implicit Types w : world V Sym.
  Implicit Types sh : shot V Sym.

  (** --strict does not change the optimum of constraints that need no
      epsilon: if one of two sessions computes with rationals ([std]: every value
      is one) then the other has the same optimum without epsilon. *)
  Theorem C44_strict_same_optimum_partial o o' sh (sh' : shot V' Sym) w0 w (w0' w' : world V' Sym) t t' v v' b b' :
    (forall u : V, std u) ->
    step_ok (V := V) o -> step_ok (V := V') o' -> final o sh w0 w t -> final o' sh' w0' w' t' ->
    same_problem sh sh' -> same_true sh sh' w w' t t' ->
    p_get_objective (w_p w) t = Ok (Some (v, b)) -> p_get_objective (w_p w') t' = Ok (Some (v', b')) ->
    b = b' /\ (b = true -> vemb v = vemb v').
  Proof.
    intros Std So So' Hf Hf' SP ST E E'. pose proof (same_problem_sym _ _ SP) as SP'. pose proof (same_true_sym _ _ _ _ _ _ SP ST) as ST'.
    assert (Eb : b = b').
    { pose proof (bounded_agrees o o' sh sh' w0 w w0' w' t t' v v' b b' So So' Hf Hf' SP ST E E') as X.
      pose proof (bounded_agrees o' o sh' sh w0' w' w0 w t' t v' v b' b So' So Hf' Hf SP' ST' E' E) as X'.
      destruct b, b'; auto; symmetry; auto. }
    split; auto. intros Hb. subst b'.
    assert (El : forall A : Sym -> Qc, lin A (sh_obj sh) = lin A (sh_obj sh')).
    { intros A. destruct SP as [_ P]. clear -P. induction P as [|[c x] l l' _ IH|[c x] [c' x'] l|]; cbn; [reflexivity|rewrite IH; reflexivity|ring|congruence]. }
    destruct (C08_optimum_partial o sh w0 w t So Hf) as (u & bu & Eu & _ & Ho). rewrite E in Eu. injection Eu as <- <-. destruct (Ho Hb) as [M (e0 & He0 & R)].
    destruct (C08_optimum_partial o' sh' w0' w' t' So' Hf') as (u & bu & Eu & _ & Ho'). rewrite E' in Eu. injection Eu as <- <-. destruct (Ho' Hb) as [M' (e0' & He0' & R')].
    pose proof (Std v) as Sv. unfold std in Sv.
    (* the optimum of the first is a rational solution *)
    assert (H1 : vle (vofq (vemb v).1 : V') v').
    { destruct (R e0 He0 (Qcle_refl _)) as (A & HA & EA). assert (lin A (sh_obj sh') = (vemb v).1) as <- by (rewrite <- El, EA; apply inst_std; auto).
      apply M'. intros q Hq Hl Hne. apply SP in Hq. apply HA; auto. split; auto. split; [apply (ST q Hq); auto|]. apply (ST q Hq), (ST q Hq). auto. }
    (* and instances of the second are at most the first *)
    assert (H2 : forall e, (0 < e)%Qc -> (e <= e0')%Qc -> ((vemb v').1 + (vemb v').2 * e <= (vemb v).1)%Qc).
    { intros e He Hle. destruct (R' e He Hle) as (A & HA & EA).
      assert (X : vle (vofq (lin A (sh_obj sh)) : V) v).
      { apply M. intros q Hq Hl Hne. apply HA; auto. split; [apply SP; auto|]. split; [apply (ST q Hq); auto|]. apply (ST q Hq). auto. }
      rewrite El, EA in X. apply vle_emb in X. rewrite vemb_ofq in X. cbn in X. unfold inst in X. destruct X as [X|[X _]].
      - apply Qclt_le_weak. exact X.
      - rewrite <- X. apply Qcle_refl. }
    apply vle_emb in H1. rewrite vemb_ofq in H1. cbn in H1.
    set (a := (vemb v').1) in *. set (k := (vemb v').2) in *. set (d := (vemb v).1) in *.
    assert (Ea : a = d /\ k = 0%Qc).
    { destruct H1 as [H1|[H1 Hk]].
      - exfalso.
        (* d < a but a + k e <= d for all small e *)
        assert (Hk : (k < 0)%Qc).
        { destruct (Qclt_le_dec k 0) as [|Hk]; auto. exfalso. specialize (H2 e0' He0' (Qcle_refl _)). pose proof (qc_mul_nonneg k e0' Hk (Qclt_le_weak _ _ He0')). qclra. }
        set (m := ((a - d) / (2 * - k))%Qc).
        assert (Hm : (0 < m)%Qc).
        { unfold m, Qcdiv. apply qc_mul_pos; [qclra|]. apply qc_inv_pos. qclra. }
        assert (Hkm : (k * m = - ((a - d) / 2))%Qc) by (unfold m; field; repeat split; try discriminate; intros Hz; qclra).
        set (h := ((a - d) / 2)%Qc) in *. assert (Y : (h + h = a - d)%Qc) by (unfold h; field; discriminate).
        destruct (Qclt_le_dec e0' m) as [Hc|Hc].
        + specialize (H2 e0' He0' (Qcle_refl _)).
          assert (X : (k * m <= k * e0')%Qc). { assert (0 <= (- k) * (m - e0'))%Qc by (apply qc_mul_nonneg; qclra). qclra. }
          rewrite Hkm in X. qclra.
        + specialize (H2 m Hm Hc). rewrite Hkm in H2. qclra.
      - split; auto. specialize (H2 e0' He0' (Qcle_refl _)). destruct (Qcle_lt_or_eq _ _ Hk) as [Hk'|]; auto. exfalso.
        pose proof (qc_mul_pos k e0' Hk' He0'). qclra. }
    destruct Ea as [Ea Ek]. rewrite (surjective_pairing (vemb v)), (surjective_pairing (vemb v')). fold a k d. rewrite Sv, Ea, Ek. reflexivity.
  Qed.
End two_modes.

(** ** Two sessions that differ in everything else

    10: x + y <= 4, 21: x >= 1, 31: x - y <= 2, 42: x + y >= 5, maximize x + 2*y.
    The first computes with rationals, one thread, default options; the second
    with --strict, two threads, another order of constraints, of bounds and of
    callbacks, other options, and a conflict on the way. *)
Definition cfg_iqs : list (ineq nat) :=
  [ Ineq [(qz 1, 0); (qz 1, 1)] (qz 4) Rle 10; Ineq [(qz 1, 0)] (qz 1) Rge 21;
    Ineq [(qz 1, 0); (qz (-1), 1)] (qz 2) Rle 31; Ineq [(qz 1, 0); (qz 1, 1)] (qz 5) Rge 42 ].
Definition cfg_obj : list (Qc * nat) := [(qz 1, 0); (qz 2, 1)].
Definition cfg_shot1 : shot Qc nat := Shot quiet (fun _ l => l) 1 cfg_iqs cfg_obj [].
Definition cfg_shot2 : shot RatQ nat := Shot quiet (fun _ l => reverse l) 2 (reverse cfg_iqs) (reverse cfg_obj) [].
Definition cfg_opts1 : options := default_options.
Definition cfg_opts2 : options := Options SelectConflict StorePartial None PropFull false.
Definition cfg_evs1 : list event := [ev_prop 0 0 [10%Z]; ev_prop 0 1 [21%Z; 31%Z]].
Definition cfg_evs2 : list event :=
  [ev_prop 1 0 [10%Z]; ev_prop 1 1 [31%Z]; ev_prop 0 0 [10%Z]; ev_prop 1 2 [42%Z]; EvUndo 1; ev_prop 1 1 [21%Z]].

Section cfg_example.
  Context {V : Type} `{VL : ValueLaws V}.
  Definition cfg_first (o : options) (sh : shot V nat) : option (world V nat) :=
    match p_init (sh_host sh) o (sh_sort sh) (sh_threads sh) (sh_iqs sh) (sh_obj sh) new_propagator [] with Ok (p, log, true) => Some (start p log) | _ => None end.
  Definition cfg_runs (o : options) (sh : shot V nat) (evs : list event) (t : nat) (P : world V nat -> bool) : bool :=
    match cfg_first o sh with
    | Some w0 => match runs 50 o evs w0 with
        | Some w => admb (ev_check t 1 true 901 911) w && match wstep 50 o (ev_check t 1 true 901 911) w with
            | Ok w' => bool_decide (w_log w' = w_log w) && (t <? length (w_th w')) && negb (th_blk (thread_of w' t)) && P w'
            | _ => false end
        | None => false end
    | None => false
    end.
  Lemma cfg_final o (sh : shot V nat) evs t P : shot_ok sh -> sh_log sh = [] -> sh_obj sh <> [] -> cfg_runs o sh evs t P = true ->
    exists w w', final o sh w w' t /\ P w' = true.
  Proof.
    unfold cfg_runs, cfg_first. intros So Hl Hne E. destruct (p_init _ _ _ _ _ _ _ _) as [[[p log] [|]]| | |] eqn:Ei; try discriminate.
    destruct (runs 50 o evs (start p log)) as [w|] eqn:E1; [|discriminate]. apply andb_true_iff in E as [Ea E].
    destruct (wstep 50 o (ev_check t 1 true 901 911) w) as [w'| | |] eqn:E2; try discriminate. rewrite !andb_true_iff in E. destruct E as (((L1 & L2) & L3) & L4).
    apply bool_decide_eq_true in L1. apply Nat.ltb_lt in L2. apply negb_true_iff in L3. exists w, w'. split; [|exact L4].
    split; [exact (runs_reach _ _ _ _ _ _ (reach_first o sh p log So Hl Ei) E1)|]. split; [exact Hne|]. split; [exact L1|]. split; [split; [exact L2|exact L3]|].
    exists quiet, (lev 1), 901%Z, 911%Z. split; [apply admb_ok; exact Ea|exists 50; exact E2].
  Qed.
  Definition cfg_seen (t : nat) (v : V) (w : world V nat) : bool :=
    bool_decide (Permutation (assigned w t) [10; 21; 31]%Z) &&
    match p_get_objective (w_p w) t with Ok (Some (u, b)) => b && veqb u v | _ => false end.
End cfg_example.

Lemma cfg_ok1 : shot_ok cfg_shot1.
Proof.
  constructor; [|apply normalb_ok; vm_compute; reflexivity| |cbn; auto].
  - intros q Hq. apply normalb_ok. assert (X : forallb (fun q => normalb (q_lhs q)) cfg_iqs = true) by (vm_compute; reflexivity). rewrite forallb_forall in X. apply X, elem_of_list_In, Hq.
  - intros q Hq. assert (X : forallb (fun q : ineq nat => match q_rel q with Rle | Rge | Req => true | _ => false end) cfg_iqs = true) by (vm_compute; reflexivity).
    rewrite forallb_forall in X. specialize (X q (proj1 (elem_of_list_In _ _) Hq)). split; apply representable_Qc; destruct (q_rel q); cbn; auto; discriminate.
Qed.
Lemma cfg_ok2 : shot_ok cfg_shot2.
Proof.
  constructor; [|apply normalb_ok; vm_compute; reflexivity|intros q _; split; apply representable_RatQ|intros i l; cbn; apply reverse_Permutation].
  intros q Hq. apply normalb_ok. assert (X : forallb (fun q => normalb (q_lhs q)) (reverse cfg_iqs) = true) by (vm_compute; reflexivity). rewrite forallb_forall in X. apply X, elem_of_list_In, Hq.
Qed.
Lemma cfg_run1 : cfg_runs cfg_opts1 cfg_shot1 cfg_evs1 0 (cfg_seen 0 (qz 7)) = true.
Proof. vm_compute. reflexivity. Qed.
Lemma cfg_run2 : cfg_runs cfg_opts2 cfg_shot2 cfg_evs2 1 (cfg_seen 1 (mkRatQ (qz 7) (qz 0))) = true.
Proof. vm_compute. reflexivity. Qed.

Theorem C44_used : exists w0 w w0' w' v v',
  step_ok (V := Qc) cfg_opts1 /\ step_ok (V := RatQ) cfg_opts2 /\ final cfg_opts1 cfg_shot1 w0 w 0 /\ final cfg_opts2 cfg_shot2 w0' w' 1 /\
  same_problem cfg_shot1 cfg_shot2 /\ same_true cfg_shot1 cfg_shot2 w w' 0 1 /\
  p_get_objective (w_p w) 0 = Ok (Some (v, true)) /\ p_get_objective (w_p w') 1 = Ok (Some (v', true)) /\ vemb v = vemb v' /\ (forall u : Qc, std u).
Proof.
  destruct (cfg_final _ _ _ _ _ cfg_ok1 eq_refl ltac:(discriminate) cfg_run1) as (w0 & w & F & S). destruct (cfg_final _ _ _ _ _ cfg_ok2 eq_refl ltac:(discriminate) cfg_run2) as (w0' & w' & F' & S').
  unfold cfg_seen in S, S'. apply andb_true_iff in S as [P S], S' as [P' S']. apply bool_decide_eq_true in P, P'.
  destruct (p_get_objective (w_p w) 0) as [[[v b]|]| | |] eqn:E; try discriminate. destruct (p_get_objective (w_p w') 1) as [[[v' b']|]| | |] eqn:E'; try discriminate.
  apply andb_true_iff in S as [-> S], S' as [-> S'].
  assert (SP : same_problem cfg_shot1 cfg_shot2).
  { split; [intros q; cbn [cfg_shot1 cfg_shot2 sh_iqs]; symmetry; apply elem_of_reverse|cbn [cfg_shot1 cfg_shot2 sh_obj]; symmetry; apply reverse_Permutation]. }
  assert (ST : same_true cfg_shot1 cfg_shot2 w w' 0 1).
  { intros q _. rewrite P, P'. split; [reflexivity|]. intros _. split; intros log; reflexivity. }
  assert (So : step_ok (V := Qc) cfg_opts1) by (intros g Hg; discriminate Hg). assert (So' : step_ok (V := RatQ) cfg_opts2) by (intros g Hg; discriminate Hg).
  assert (Sd : forall u : Qc, std u) by (intros u; reflexivity).
  exists w0, w, w0', w', v, v'. split; [exact So|]. split; [exact So'|]. split; [exact F|]. split; [exact F'|]. split; [exact SP|]. split; [exact ST|]. split; [exact E|]. split; [exact E'|]. split; [|exact Sd].
  exact (proj2 (C44_strict_same_optimum_partial _ _ _ _ _ _ _ _ _ _ _ _ _ _ Sd So So' F F' SP ST E E') eq_refl).
Qed.
