(** * What a user of the API sees in every state of every session

    Unlike ObserveProofs.v, nothing is asked of equalities: [reach_any]
    (WeakReach.v). *)

From Verif Require Import Num Sums Tableau TableauProofs Bland Solver SolverBase SolverStep Simplex SimplexLoop Hist Updates Core CoreSolve Propagate OptSelect Weak WeakHist Spec.
From Verif Require Import Prepare Propagator World ThreadOk WorldProofs Reach WeakReach Observe.

Section observe.
  Context {V : Type} `{VL : ValueLaws V} {Sym : Type} `{EqDecision Sym}.
  Implicit Types s : solver V.
  Implicit Types w : world V Sym.
  Implicit Types sh : shot V Sym.

  Record glimpse (o : options) sh w (t : nat) (s0 : solver V) s : Prop := {
    gl_at : exists off, p_slvs (w_p w) !! t = Some (off, s);
    gl_nd : NoDup (p_vars (w_p w));
    gl_lhs : forall q, q ∈ sh_iqs sh -> okterms (find_sym (p_vars (w_p w))) (q_lhs q);
    gl_obj : okterms (find_sym (p_vars (w_p w))) (sh_obj sh);
    gl_prep : prepared (p_vars (w_p w)) (find_sym (p_vars (w_p w))) (sh_host sh) o (sh_iqs sh) (sh_obj sh) s0;
    gl_shape : shape s;
    gl_rows : rows s0 (val s);
    gl_nv : nv s = nv s0;
    gl_act : ob_active (s_obj s) = ob_active (s_obj s0);
    gl_var : ob_var (s_obj s) = ob_var (s_obj s0);
    gl_bs : exists ex, s_bounds s = s_bounds s0 ++ ex /\ forall b, b ∈ ex -> [b_lit b] ∈ w_log w;
  }.
  Lemma get_glimpse o sh w t : step_ok (V := V) o -> reach_any o sh w -> t < length (w_th w) -> exists s0 s, glimpse o sh w t s0 s.
  Proof.
    intros So Hr Ht. destruct (any_inv o sh w So Hr) as (act & s0s & [A A1 A2 A3 B C D E G]).
    destruct (lookup_lt_is_Some_2 (p_slvs (w_p w)) t ltac:(lia)) as [[off s] Es]. destruct (lookup_lt_is_Some_2 s0s t ltac:(lia)) as [s0 E0].
    destruct (D t _ s0 Es E0) as [[[Sh Rw Q] Rs Nv _] [O1 O2 O3 O4 O5 O6]]. cbn [snd] in *. exists s0, s.
    assert (P := A3 s0 (elem_of_list_lookup_2 _ _ _ E0)). constructor; eauto.
    - apply Rs; auto.
    - rewrite O1, G. destruct (decide (sh_obj sh = [])) as [Eo|Eo].
      + rewrite bool_decide_eq_false_2 by auto. symmetry. apply (pd_obj0 _ _ _ _ _ _ _ P Eo).
      + rewrite bool_decide_eq_true_2 by auto. symmetry. apply (pd_obj1 _ _ _ _ _ _ _ P Eo).
  Qed.

  Lemma glimpse_idx o sh w t s0 s k x : glimpse o sh w t s0 s -> p_vars (w_p w) !! k = Some x -> k < nv s.
  Proof.
    intros G E. apply lookup_lt_Some in E. rewrite (gl_nv _ _ _ _ _ _ G). pose proof (gl_prep _ _ _ _ _ _ G) as P. pose proof (pd_nn _ _ _ _ _ _ _ P) as Hnn.
    pose proof (sh_len _ (j_shape _ (md_J _ _ _ _ (lv_M _ _ _ _ (pd_live _ _ _ _ _ _ _ P true))))). lia.
  Qed.
  (** get_value does not fail and returns the current value *)
  Lemma glimpse_get o sh w t s0 s k x : glimpse o sh w t s0 s -> p_vars (w_p w) !! k = Some x -> p_get_value (w_p w) t k = Ok (val s k).
  Proof.
    intros G E. destruct (gl_at _ _ _ _ _ _ G) as (off & Es). unfold p_get_value, at_ at 1. rewrite Es. cbn [mbind res_bind]. unfold get_value.
    rewrite at_vr by (eapply glimpse_idx; eauto). auto.
  Qed.
  Lemma glimpse_rd o sh w t s0 s x : glimpse o sh w t s0 s -> api_value (w_p w) t x = rd (find_sym (p_vars (w_p w))) (val s) x.
  Proof.
    intros G. unfold api_value, p_lookup_symbol, rd. destruct (find_sym (p_vars (w_p w)) x) as [k|] eqn:E; auto.
    apply find_sym_spec in E; [|apply (gl_nd _ _ _ _ _ _ G)]. rewrite (glimpse_get _ _ _ _ _ _ _ _ G E). auto.
  Qed.
  Lemma glimpse_objective o sh w t s0 s : glimpse o sh w t s0 s ->
    p_get_objective (w_p w) t = Ok (if decide (sh_obj sh = []) then None else Some (linV (api_value (w_p w) t) (sh_obj sh), ob_bounded (s_obj s))).
  Proof.
    intros G. destruct (gl_at _ _ _ _ _ _ G) as (off & Es). unfold p_get_objective, at_ at 1. rewrite Es. cbn [mbind res_bind]. unfold get_objective.
    rewrite (gl_act _ _ _ _ _ _ G), (gl_var _ _ _ _ _ _ G). pose proof (gl_prep _ _ _ _ _ _ G) as P. destruct (decide (sh_obj sh = [])) as [E|E].
    - rewrite (pd_obj0 _ _ _ _ _ _ _ P E). auto.
    - destruct (pd_obj1 _ _ _ _ _ _ _ P E) as (Hact & (R1 & R2 & R3 & R4) & _). rewrite Hact. rewrite at_vr by (rewrite (gl_nv _ _ _ _ _ _ G); auto). cbn [mbind res_bind].
      f_equal. f_equal. f_equal. change (v_val (vr s (ob_var (s_obj s0)))) with (val s (ob_var (s_obj s0))). rewrite R4 by apply (gl_rows _ _ _ _ _ _ G).
      apply linV_ext. intros c x _. symmetry. eapply glimpse_rd; eauto.
  Qed.
  (** the bounds of a literal are those of its constraints *)
  Lemma keptV_ext A A' (q : ineq Sym) : (forall x, A x = A' x :> V) -> keptV A q -> keptV A' q.
  Proof.
    intros E. unfold keptV. assert (El : forall ts, linV A ts = linV A' ts) by (intros ts; apply linV_ext; intros; apply E). destruct (q_lhs q) as [|[c x] [|y l]]; rewrite ?El, ?E; auto.
  Qed.
  Lemma glimpse_bounds o sh w t s0 s l (Hw : forall q, q ∈ sh_iqs sh -> q_lit q = l -> watched sh q) : glimpse o sh w t s0 s -> [l] ∉ w_log w ->
    (forall b, b ∈ s_bounds s -> b_lit b = l -> exists q, q ∈ sh_iqs sh /\ q_lhs q <> [] /\ q_lit q = l /\ (bsat (val s) b <-> keptV (api_value (w_p w) t) q)) /\
    (forall q, q ∈ sh_iqs sh -> q_lhs q <> [] -> q_lit q = l -> exists b, b ∈ s_bounds s /\ b_lit b = l /\ (bsat (val s) b <-> keptV (api_value (w_p w) t) q)).
  Proof.
    intros G Hl. pose proof (gl_prep _ _ _ _ _ _ G) as P. destruct (gl_bs _ _ _ _ _ _ G) as (ex & Eb & Hex).
    assert (K : forall q b, repr (find_sym (p_vars (w_p w))) s0 q b -> bsat (val s) b <-> keptV (api_value (w_p w) t) q).
    { intros q b (_ & _ & _ & R). rewrite (R (val s)) by apply (gl_rows _ _ _ _ _ _ G). split; apply keptV_ext; intros x; rewrite (glimpse_rd _ _ _ _ _ _ x G); auto. }
    split.
    - intros b Hb El. rewrite Eb in Hb. apply elem_of_app in Hb as [Hb|Hb]; [|exfalso; apply Hl; rewrite <- El; auto].
      destruct (pd_snd _ _ _ _ _ _ _ P b Hb) as (q & Hq & Hne & R). exists q. split; auto. split; auto. split; [rewrite <- (proj1 R); auto|auto].
    - intros q Hq Hne El. destruct (pd_cpl _ _ _ _ _ _ _ P q Hq Hne (Hw q Hq El)) as (b & Hb & R). exists b. split; [rewrite Eb; apply elem_of_app; auto|].
      split; [rewrite (proj1 R); auto|auto].
  Qed.
End observe.
