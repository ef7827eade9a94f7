(** * C58: bound propagation misses nothing a row implies

    With propagate-bounds=full, a call of propagate that reports no conflict
    has looked at every row of the tableau: a constraint the row excludes under
    the bounds in force is false afterwards.  With propagate-bounds=changed
    this holds for the rows whose basic variable or its value changed in the
    call; with propagate-bounds=none nothing is derived. *)
From stdpp Require Import list_numbers.
From Verif Require Import Num Sums Tableau TableauProofs Bland Solver SolverBase SolverStep Simplex SimplexLoop Hist Updates Core CoreSolve Propagate Weak WeakHist Spec Prepare Propagator World ThreadOk WorldProofs Reach WeakReach Examples Queue Complete Track.

(** ** Specification *)
Section spec.
  Context {V : Type} `{Value V} {Sym : Type} `{EqDecision Sym}.

  (** [s] is the solver of thread [t] *)
  Definition solver_of (p : propagator V Sym) (t : nat) (s : solver V) : Prop := exists off, p_slvs p !! t = Some (off, s).
  (** constraint [q] is a bound on variable [x] *)
  Definition bounds_var (p : propagator V Sym) (s : solver V) (q : ineq Sym) (x : nat) : Prop :=
    exists b, b ∈ v_bounds (vr s x) /\ b_lit b = q_lit q /\
      forall a, rows s a -> bsat a b <-> keptV (fun y => match find_sym (p_vars p) y with Some k => a k | None => vzero end) q.
  (** no values that respect the tableau and the bounds in force on the
      non-basic variables of row [i] satisfy [q] *)
  Definition row_excludes (p : propagator V Sym) (s : solver V) (i : nat) (q : ineq Sym) : Prop :=
    forall a, rows s a -> (forall x, in_row s i x -> inside s x (a x)) -> ~ keptV (fun y => match find_sym (p_vars p) y with Some k => a k | None => vzero end) q.
  (** every constraint on the basic variable of row [i] that the row excludes
      is dealt with *)
  Definition row_done (h : host) (sh : shot V Sym) (p : propagator V Sym) (s : solver V) (log log' : list (list Z)) (i : nat) : Prop :=
    forall q, q ∈ sh_iqs sh -> bounds_var p s q (idx s (i + s_nn s)) -> row_excludes p s i q -> handled h s i log log' (q_lit q).
  (** row [i] got another basic variable or its basic variable another value *)
  Definition row_changed (s s' : solver V) (i : nat) : Prop :=
    idx s' (i + s_nn s) <> idx s (i + s_nn s) \/ val s' (idx s (i + s_nn s)) <> val s (idx s (i + s_nn s)).
End spec.

Section proofs.
  Context {V : Type} `{VL : ValueLaws V} {Sym : Type} `{EqDecision Sym}.
  Implicit Types s : solver V.
  Implicit Types w : world V Sym.
  Implicit Types sh : shot V Sym.

  Lemma row_excludes_ruled (p : propagator V Sym) s i q b : shape s -> i < s_nb s -> b_var b = idx s (i + s_nn s) ->
    (forall a, rows s a -> bsat a b -> keptV (fun y => match find_sym (p_vars p) y with Some k => a k | None => vzero end) q) ->
    row_excludes p s i q -> ruled_out s i b.
  Proof.
    intros Sh Hi Hb Hs Hx a Ha Hin Hbs.
    set (a' := fun y => if Bs s y then rowval (nv s) (Bs s) (Ts s) a y else a y).
    assert (Nb : forall j, j < s_nn s -> a' (idx s j) = a (idx s j)).
    { intros j Hj. destruct (idx_nonbasic s j Sh Hj) as (_ & B & _). unfold a'. rewrite B. reflexivity. }
    assert (Hr : rows s a').
    { intros y Hy By. unfold a' at 1. rewrite By. unfold rowval. apply vsum_ext. intros k _. destruct (Bs s k) eqn:Bk; [reflexivity|]. unfold a'. rewrite Bk. reflexivity. }
    apply (Hx a' Hr).
    - intros x (j & Hj & Hnz & ->). rewrite Nb by exact Hj. apply Hin. exists j. auto.
    - apply Hs; [exact Hr|]. destruct (idx_basic s i Sh Hi) as (_ & Bx & _).
      assert (E : a' (idx s (i + s_nn s)) = a (idx s (i + s_nn s))).
      { unfold a'. rewrite Bx, (row_sum s i a Sh Hi). symmetry. apply row_holds_lsum; auto. }
      unfold bsat in *. rewrite Hb in *. rewrite E. exact Hbs.
  Qed.

  (** ** The lists of bounds never change *)
  Lemma prep_threads_queue h (o : options) shuf (vs : list Sym) qs obj ids log slvs log' :
    prep_threads (V := V) h o shuf vs qs obj ids log = Ok (slvs, log', true) -> forall x, x ∈ slvs ->
      PQ x.2 /\ registered x.2 /\ (o_pmode o = PropChanged -> forall i, i < s_nb x.2 -> i ∈ s_pq x.2).
  Proof.
    revert log slvs log'. induction ids as [|i ids IH]; intros log slvs log'; cbn [prep_threads]; [intros [= <- _] x Hx; inversion Hx|].
    intros E. apply bind_ok in E as ([[s log1] ok1] & E1 & E). destruct ok1; cbn [negb] in E; [|discriminate].
    apply bind_ok in E as ([[r log2] ok2] & E2 & E). injection E as <- _ ->. intros x Hx. apply elem_of_cons in Hx as [->|Hx]; [|eapply IH; eauto].
    eapply prepare_queue; eauto.
  Qed.
  Lemma p_init_queue h (o : options) shuf n qs obj (p p' : propagator V Sym) log log' :
    p_init h o shuf n qs obj p log = Ok (p', log', true) -> forall x, x ∈ p_slvs p' ->
      PQ x.2 /\ registered x.2 /\ (o_pmode o = PropChanged -> forall i, i < s_nb x.2 -> i ∈ s_pq x.2).
  Proof.
    unfold p_init. intros E. apply bind_ok in E as ([[slvs log1] ok] & E1 & E). injection E as <- _ ->. eapply prep_threads_queue; eauto.
  Qed.

  Definition tracked (s0s : list (solver V)) w : Prop := forall t x s0, p_slvs (w_p w) !! t = Some x -> s0s !! t = Some s0 ->
    registered s0 /\ PQ x.2 /\ forall y, v_bounds (vr x.2 y) = v_bounds (vr s0 y).
  Lemma put_tracked s0s w t (p : propagator V Sym) off s off' s' log th rep : tracked s0s w -> p_slvs (w_p w) !! t = Some (off, s) ->
    p_slvs p = p_slvs (w_p w) -> Fq s s' -> tracked s0s (World (put_thread t (off', s') p) log th rep).
  Proof.
    intros T Es Ep [F1 F2] t' x' s0 Ex E0. cbn [w_p put_thread p_slvs] in Ex. rewrite Ep in Ex. destruct (Nat.eq_dec t t') as [<-|Hne].
    - rewrite list_lookup_insert in Ex by (eapply lookup_lt_Some; eauto). injection Ex as <-. destruct (T t (off, s) s0 Es E0) as (T1 & T2 & T3). cbn [snd] in *.
      split; [exact T1|]. split; [auto|]. intros y. rewrite F1. auto.
    - rewrite list_lookup_insert_ne in Ex by auto. eauto.
  Qed.
  Lemma step_tracked s0s fuel (o : options) e w w' : tracked s0s w -> wstep fuel o e w = Ok w' -> tracked s0s w'.
  Proof.
    intros T E. destruct e as [t h a lits|t h a total l1 l2|t|t]; cbn [wstep] in E.
    - apply bind_ok in E as ([[p log] ok] & E1 & E). injection E as <-. unfold p_propagate in E1. set (p1 := if (a_dl a =? 0) && (t =? 0) then _ else _) in E1.
      assert (F : p_slvs p1 = p_slvs (w_p w)) by (unfold p1; destruct ((a_dl a =? 0) && (t =? 0)); auto).
      apply bind_ok in E1 as ([off s] & Es & E1). apply at_ok in Es. rewrite F in Es. apply bind_ok in E1 as ([[s1 log1] ok1] & E2 & E1). injection E1 as <- _ _.
      eapply put_tracked; eauto. eapply solve_fq; eauto.
    - apply bind_ok in E as ([off0 s00] & _ & E). apply bind_ok in E as ([[p log] ok] & E1 & E). injection E as <-. unfold p_check in E1.
      apply bind_ok in E1 as ([off s] & Es & E1). apply at_ok in Es. apply bind_ok in E1 as ([[[off1 s1] log1] ok1] & E2 & E1). injection E1 as <- _ _.
      eapply put_tracked; eauto. eapply t_check_fq; eauto.
    - apply bind_ok in E as (p & E1 & E). injection E as <-. unfold p_undo in E1. apply bind_ok in E1 as ([off s] & Es & E1). apply at_ok in Es. apply bind_ok in E1 as (s1 & E2 & E1). injection E1 as <-.
      eapply put_tracked; eauto. apply Fr_Fq, undo_fr, E2.
    - apply bind_ok in E as (v & _ & E). apply bind_ok in E as (p & E1 & E). injection E as <-. unfold p_on_model in E1.
      assert (Es : p_slvs p = p_slvs (w_p w)).
      { destruct (o_global o); [|injection E1 as <-; reflexivity]. apply bind_ok in E1 as ([off s] & _ & E1). apply bind_ok in E1 as (u & _ & E1). destruct u; injection E1 as <-; reflexivity. }
      intros t' x s0. cbn [w_p]. rewrite Es. apply T.
  Qed.
  Lemma start_tracked h (o : options) shuf n qs obj (p p' : propagator V Sym) log log' :
    p_init h o shuf n qs obj p log = Ok (p', log', true) -> tracked (map snd (p_slvs p')) (start p' log').
  Proof.
    intros E t x s0 Ex E0. cbn [start w_p] in Ex. rewrite list_lookup_fmap, Ex in E0. injection E0 as <-.
    destruct (p_init_queue _ _ _ _ _ _ _ _ _ _ E x (elem_of_list_lookup_2 _ _ _ Ex)) as (A & B & _). auto.
  Qed.
  Lemma any_tracked (o : options) sh w : step_ok (V := V) o -> reach_any o sh w -> exists act s0s, WW o sh act s0s w /\ tracked s0s w.
  Proof.
    intros So Hr. induction Hr as [sh p log Hsh E|sh0 w0 sh p log Hr IH Hsh E|sh w e w' Hr IH Ha (fuel & E)].
    - destruct (start_w o sh new_propagator [] p log) as [act I]; auto; [constructor|]. exists act, (map snd (p_slvs p)). split; [exact I|]. eapply start_tracked; eauto.
    - destruct IH as (act & s0s & I & _). destruct (start_w o sh (w_p w0) (w_log w0) p log) as [act' I']; auto; [apply (ww_nd _ _ _ _ _ I)|].
      exists act', (map snd (p_slvs p)). split; [exact I'|]. eapply start_tracked; eauto.
    - destruct IH as (act & s0s & I & T). exists act, s0s. split; [|eapply step_tracked; eauto]. set (f := Nat.max fuel (8 ^ maxnv s0s)).
      pose proof (step_w o sh act s0s w e f So I Ha ltac:(subst f; lia)) as Hs.
      rewrite (wstep_mono o e w fuel f ltac:(subst f; lia) w' E) in Hs. exact Hs.
  Qed.

  (** every constraint that is not void or false from the start is a bound on a variable *)
  Theorem C58_attached (o : options) sh w t s q : step_ok (V := V) o -> reach_any o sh w -> solver_of (w_p w) t s ->
    q ∈ sh_iqs sh -> q_lhs q <> [] -> (forall log, h_false (sh_host sh) log (q_lit q) = false) ->
    exists x, x < nv s /\ bounds_var (w_p w) s q x.
  Proof.
    intros So Hr (off & Es) Hq Hl Hf. destruct (any_tracked o sh w So Hr) as (act & s0s & I & T).
    destruct (lookup_lt_is_Some_2 s0s t) as [s0 E0]; [rewrite <- (ww_len1 _ _ _ _ _ I); eapply lookup_lt_Some; eauto|].
    destruct (T t _ s0 Es E0) as (T1 & T2 & T3). destruct (ww_th _ _ _ _ _ I t _ s0 Es E0) as [HW _]. cbn [snd] in *.
    pose proof (ww_prep _ _ _ _ _ I s0 (elem_of_list_lookup_2 _ _ _ E0)) as P. destruct (pd_cpl _ _ _ _ _ _ _ P q Hq Hl Hf) as (b & Hb & Hrep).
    pose proof (k_shape _ (wk_K _ _ _ HW)) as Sh.
    assert (Hvb : b ∈ v_bounds (vr s (b_var b))) by (rewrite T3; apply T1; exact Hb).
    exists (b_var b). split; [apply (sh_bv _ Sh), (sh_vb _ Sh _ _ Hvb)|]. exists b. split; [exact Hvb|]. destruct Hrep as (R1 & _ & _ & R4). split; [exact R1|].
    intros a Ha. apply R4. apply (wk_R _ _ _ HW). exact Ha.
  Qed.

  (** what one call of propagate that reports no conflict does *)
  Lemma propagate_run (o : options) sh w t h a lits fuel p' log' s s' : step_ok (V := V) o -> reach_any o sh w -> adm (EvPropagate t h a lits) w ->
    p_propagate fuel h o a lits t (w_p w) (w_log w) = Ok (p', log', true) -> solver_of (w_p w) t s -> solver_of p' t s' ->
    exists s1, shape s1 /\ PQ s /\ solve_core fuel o a lits s = Ok (s1, true) /\ Fr s s1 /\ propagate_ h o s1 (w_log w) = Ok (s', log', true) /\
      (o_pmode o = PropChanged -> Tr none s s1) /\ s_nn s1 = s_nn s /\ nv s1 = nv s /\ p_vars p' = p_vars (w_p w).
  Proof.
    intros So Hr Ha E (off & Es) (off' & Es'). destruct (any_tracked o sh w So Hr) as (act & s0s & I & T).
    unfold p_propagate in E. set (p1 := if (a_dl a =? 0) && (t =? 0) then _ else _) in E.
    assert (F : p_slvs p1 = p_slvs (w_p w) /\ p_vars p1 = p_vars (w_p w)) by (unfold p1; destruct ((a_dl a =? 0) && (t =? 0)); auto). destruct F as [F1 F2].
    apply bind_ok in E as ([off1 s2] & E2 & E). apply at_ok in E2. rewrite F1, Es in E2. injection E2 as <- <-.
    apply bind_ok in E as ([[s3 log3] ok3] & E3 & E). injection E as <- <- ->. cbn [put_thread p_slvs] in Es'.
    rewrite list_lookup_insert in Es' by (rewrite F1; eapply lookup_lt_Some; eauto). injection Es' as _ ->.
    destruct (lookup_lt_is_Some_2 s0s t) as [s0 E0]; [rewrite <- (ww_len1 _ _ _ _ _ I); eapply lookup_lt_Some; eauto|].
    destruct (T t _ s0 Es E0) as (_ & T2 & _). destruct (ww_th _ _ _ _ _ I t _ s0 Es E0) as [HW _]. cbn [snd] in *.
    unfold solve in E3. apply bind_ok in E3 as ([s1 ok1] & E1 & E3). destruct ok1; [|injection E3 as _ _ E3; discriminate].
    destruct Ha as (_ & _ & Hdl & _). rewrite toplevel_topl in Hdl.
    assert (Hw : W s0 (kenter (a_dl a) (map en_level (th_stk (thread_of w t)))) s1 /\ pstat s1 = pstat s).
    { pose proof (solve_core_w s0 _ o a lits (Nat.max fuel (8 ^ nv s)) s HW Hdl ltac:(lia)) as Hc.
      assert (Em : solve_core (Nat.max fuel (8 ^ nv s)) o a lits s = Ok (s1, true)).
      { assert (R : rle (solve_core fuel o a lits s) (solve_core (Nat.max fuel (8 ^ nv s)) o a lits s)).
        { unfold solve_core. apply rle_bind; [apply rle_refl|]. intros [s4 ok4]. destruct (negb ok4); [apply rle_refl|]. apply rle_bind; [apply simplex_mono; lia|]. intros [s5 ok5]. apply rle_refl. }
        destruct R as [R|R]; [rewrite R in E1; discriminate|]. rewrite <- R. exact E1. }
      rewrite Em in Hc. exact Hc. }
    destruct Hw as [HW1 Ps]. exists s1. split; [apply (k_shape _ (wk_K _ _ _ HW1))|]. split; [exact T2|]. split; [exact E1|]. split; [eapply solve_core_fr; eauto|]. split; [exact E3|].
    split; [intros Hm; eapply solve_core_tr; eauto|]. unfold pstat in Ps. split; [congruence|]. split; [congruence|]. exact F2.
  Qed.

  Lemma rows_done h sh (changed : bool) is (p' : propagator V Sym) s s' log log' : shape s -> (forall i, i ∈ is -> i < s_nb s) -> (changed = true -> s_pq s = is) ->
    prop_rows h changed is s log = Ok (s', log', true) -> ponly s s' /\ forall i, i ∈ is -> consistent_row s' i -> row_done h sh p' s' log log' i.
  Proof.
    intros Sh Hi Hq E. destruct (prop_rows_complete h changed is s log s' log' Sh Hi Hq E) as (K & _ & G).
    destruct (prop_rows_w h changed is s log Sh Hi Hq) as (s2 & log2 & ok2 & E2 & P & Q). rewrite E in E2. injection E2 as <- <- <-.
    split; [exact P|]. pose proof (ponly_shape _ _ Sh P Q) as Sh'. pose proof P as (A1 & A2 & _ & _ & _ & _ & A7 & A8 & _).
    intros i Hin Hc q _ (b & Hb & El & Hb2) Hx. apply (handled_keeps h s s' i log log' (q_lit q) K). rewrite <- El.
    assert (Eidx : idx s' (i + s_nn s') = idx s (i + s_nn s)) by (rewrite (stat_nn _ _ A1); apply A7).
    apply (G i Hin).
    - eapply consistent_keeps; [apply keeps_sym; exact K|exact Hc].
    - rewrite Eidx in Hb. destruct (A8 (idx s (i + s_nn s))) as (_ & _ & <-). exact Hb.
    - apply (ruled_keeps s' s i b (keeps_sym _ _ K)). apply (row_excludes_ruled p' s' i q b Sh'); auto.
      + rewrite (stat_nb _ _ A1). apply Hi; exact Hin.
      + apply (sh_vb _ Sh' _ _ Hb).
      + intros a Ha. apply Hb2; exact Ha.
  Qed.

  (** ** propagate-bounds=full *)
  Theorem C58_full (o : options) sh w t h a lits fuel p' log' s' : step_ok (V := V) o -> reach_any o sh w -> adm (EvPropagate t h a lits) w ->
    o_pmode o = PropFull -> p_propagate fuel h o a lits t (w_p w) (w_log w) = Ok (p', log', true) -> solver_of p' t s' ->
    forall i, i < s_nb s' -> consistent_row s' i -> row_done h sh p' s' (w_log w) log' i.
  Proof.
    intros So Hr Ha Hm E Es' i Hi Hc. assert (Es : exists s, solver_of (w_p w) t s).
    { destruct (any_inv o sh w So Hr) as (act & s0s & I). destruct Ha as (Ht & _). destruct (lookup_lt_is_Some_2 (p_slvs (w_p w)) t) as [[off s] Es]; [rewrite (ww_len1 _ _ _ _ _ I), <- (ww_len2 _ _ _ _ _ I); exact Ht|]. exists s, off. exact Es. }
    destruct Es as (s & Es). destruct (propagate_run o sh w t h a lits fuel p' log' s s' So Hr Ha E Es Es') as (s1 & Sh1 & _ & _ & _ & E1 & _).
    unfold propagate_ in E1. rewrite Hm in E1. destruct (rows_done h sh false (seq 0 (s_nb s1)) p' s1 s' (w_log w) log' Sh1) as [P G]; auto; [|discriminate|].
    - intros k Hk. apply elem_of_seq in Hk. lia.
    - apply G; [|exact Hc]. apply elem_of_seq. destruct P as (A1 & _). rewrite (stat_nb _ _ A1) in Hi. lia.
  Qed.

  (** ** propagate-bounds=changed *)
  Theorem C58_changed (o : options) sh w t h a lits fuel p' log' s s' : step_ok (V := V) o -> reach_any o sh w -> adm (EvPropagate t h a lits) w ->
    o_pmode o = PropChanged -> p_propagate fuel h o a lits t (w_p w) (w_log w) = Ok (p', log', true) -> solver_of (w_p w) t s -> solver_of p' t s' ->
    forall i, i < s_nb s' -> row_changed s s' i -> consistent_row s' i -> row_done h sh p' s' (w_log w) log' i.
  Proof.
    intros So Hr Ha Hm E Es Es' i Hi Hch Hc. destruct (propagate_run o sh w t h a lits fuel p' log' s s' So Hr Ha E Es Es') as (s1 & Sh1 & _ & _ & _ & E1 & HT & Nn & Nv & _).
    unfold propagate_ in E1. rewrite Hm in E1. destruct (rows_done h sh true (s_pq s1) p' s1 s' (w_log w) log' Sh1) as [P G]; auto; [apply Sh1|].
    apply G; [|exact Hc]. destruct (HT Hm) as (_ & _ & T). pose proof P as (A1 & _ & _ & _ & _ & _ & A7 & _ & A9 & _).
    destruct (T i) as [[]|[Hq|[U1 U2]]]; [|exact Hq|exfalso].
    - rewrite <- Nn, <- Nv, (sh_len _ Sh1). rewrite (stat_nb _ _ A1) in Hi. lia.
    - destruct Hch as [C|C]; apply C; [destruct (A7 (i + s_nn s)) as [-> _]; exact U1|destruct (A9 (idx s (i + s_nn s))) as [-> _]; exact U2].
  Qed.
  (** the first call after init looks at every row *)
  Theorem C58_changed_first (o : options) sh p log t h a lits fuel p' log' s' : step_ok (V := V) o -> reach_any o sh (start p log) -> adm (EvPropagate t h a lits) (start p log) ->
    (exists p0 log0, p_init (sh_host sh) o (sh_sort sh) (sh_threads sh) (sh_iqs sh) (sh_obj sh) p0 log0 = Ok (p, log, true)) ->
    o_pmode o = PropChanged -> p_propagate fuel h o a lits t p log = Ok (p', log', true) -> solver_of p' t s' ->
    forall i, i < s_nb s' -> consistent_row s' i -> row_done h sh p' s' log log' i.
  Proof.
    intros So Hr Ha (p0 & log0 & E0) Hm E Es' i Hi Hc. assert (Es : exists s, solver_of p t s).
    { destruct Ha as (Ht & _). cbn [start w_th] in Ht. rewrite map_length in Ht. destruct (lookup_lt_is_Some_2 (p_slvs p) t) as [[off s] Es]; [exact Ht|]. exists s, off. exact Es. }
    destruct Es as (s & Es). destruct (propagate_run o sh (start p log) t h a lits fuel p' log' s s' So Hr Ha E Es Es') as (s1 & Sh1 & _ & _ & F & E1 & _ & Nn & Nv & _).
    destruct Es as (off & Es). destruct (p_init_queue _ _ _ _ _ _ _ _ _ _ E0 (off, s) (elem_of_list_lookup_2 _ _ _ Es)) as (_ & _ & Q). cbn [snd] in Q.
    destruct (any_inv o sh (start p log) So Hr) as (act & s0s & I).
    destruct (lookup_lt_is_Some_2 s0s t) as [s0 E00]; [rewrite <- (ww_len1 _ _ _ _ _ I); eapply lookup_lt_Some; exact Es|].
    destruct (ww_th _ _ _ _ _ I t (off, s) s0 Es E00) as [HW _]. cbn [snd] in HW. pose proof (k_shape _ (wk_K _ _ _ HW)) as Sh.
    unfold propagate_ in E1. rewrite Hm in E1. destruct (rows_done h sh true (s_pq s1) p' s1 s' log log' Sh1) as [P G]; auto; [apply Sh1|].
    apply G; [|exact Hc]. destruct F as (_ & _ & F & _). apply F, (Q Hm). destruct P as (A1 & _). rewrite (stat_nb _ _ A1) in Hi.
    pose proof (sh_len _ Sh1). pose proof (sh_len _ Sh). lia.
  Qed.

  (** ** propagate-bounds=none *)
  Theorem C58_none (o : options) (p : propagator V Sym) log t h a lits fuel p' log' ok : o_pmode o = PropNone ->
    p_propagate fuel h o a lits t p log = Ok (p', log', ok) -> if ok then log' = log else exists c, log' = log ++ [c].
  Proof.
    intros Hm E. unfold p_propagate in E. apply bind_ok in E as ([off s] & _ & E). apply bind_ok in E as ([[s1 log1] ok1] & E1 & E). injection E as _ <- <-.
    unfold solve in E1. apply bind_ok in E1 as ([s2 ok2] & _ & E1). destruct ok2; [|injection E1 as _ <- <-; eauto].
    unfold propagate_ in E1. rewrite Hm in E1. injection E1 as _ <- <-. reflexivity.
  Qed.

  (** ** The bounds in force do not contradict one another *)
  Theorem C58_consistent (o : options) sh w t h a lits fuel p' log' s' : step_ok (V := V) o -> reach o sh w -> adm (EvPropagate t h a lits) w -> eq_safe (EvPropagate t h a lits) w ->
    p_propagate fuel h o a lits t (w_p w) (w_log w) = Ok (p', log', true) -> solver_of p' t s' -> forall i, consistent_row s' i.
  Proof.
    intros So Hr Ha He E (off & Es) i. pose proof Ha as (Ht & _).
    assert (Hstep : step o (EvPropagate t h a lits) w (World p' log' (<[t := Thread (deliver (a_dl a) lits (snaps (w_p w) t) (th_stk (thread_of w t))) false]> (w_th w)) (w_rep w))).
    { exists fuel. cbn [wstep]. rewrite E. cbn [mbind res_bind]. unfold blocks. reflexivity. }
    pose proof (reach_step o sh w _ _ Hr Ha He Hstep) as Hr'. destruct (reach_inv o sh _ So Hr') as (s0s & new0 & facts0 & ass & I). pose proof (ri_w _ _ _ _ _ _ _ I) as Iw.
    cbn [w_p] in Iw. destruct (lookup_lt_is_Some_2 s0s t) as [s0 E0].
    { rewrite <- (wi_len1 _ _ _ _ _ _ _ _ _ Iw). cbn [w_p]. eapply lookup_lt_Some; eauto. }
    destruct (wi_th _ _ _ _ _ _ _ _ _ Iw t (off, s') s0 Es E0) as (fs & TT). pose proof (ti_live _ _ _ _ _ _ _ _ _ _ _ TT) as HL.
    unfold thread_of in HL. cbn [w_th] in HL. rewrite thread_same in HL by exact Ht. cbn [th_blk snd] in HL.
    pose proof (lv_feas _ _ _ _ HL) as Hf. pose proof (md_J _ _ _ _ (lv_M _ _ _ _ HL)) as HJ. pose proof (j_shape _ HJ) as Sh.
    intros x l u (j & Hj & _ & ->) El Eu. destruct (idx_nonbasic s' j Sh Hj) as (Hx & _ & _). pose proof (Hf _ Hx) as Hin. unfold inb, within, lov, upv in Hin. rewrite El, Eu in Hin. cbn in Hin.
    destruct Hin as [H1 H2]. eapply vle_trans; [apply H1; reflexivity|apply H2; reflexivity].
  Qed.
End proofs.

(** ** A concrete call

    11: x >= 3, 31: y >= 0, 42: x + y <= 2.  When 11 and 31 become true the row
    of x + y excludes 42, and propagate says so. *)
Definition bp_iqs : list (ineq nat) := [Ineq [(qz 1, 0)] (qz 3) Rge 11; Ineq [(qz 1, 1)] (qz 0) Rge 31; Ineq [(qz 1, 0); (qz 1, 1)] (qz 2) Rle 42].
Definition bp_opts (m : prop_mode) : options := Options SelectNone StoreNo None m false.
Notation bp_world m := (any_world (bp_opts m) 1 bp_iqs [] []).
Definition bp_ev : event := EvPropagate 0 quiet (lev 1) [11%Z; 31%Z].
Definition bp_low (s : solver Qc) (x : nat) (v : Qc) : bool := match lo s x with Some b => Qc_eq_bool (b_val b) v | None => false end.
Definition bp_none (s : solver Qc) (x : nat) : bool := forallb (fun b => negb (Z.eqb (b_lit b) 42)) (v_bounds (vr s x)).
Definition bp_state (p : propagator Qc nat) (s : solver Qc) : bool :=
  bool_decide (s_nb s = 1) && bool_decide (nv s = 3) && bool_decide (s_nn s = 2) && bool_decide (p_vars p = [0; 1]) && bool_decide (map (idx s) [0; 1; 2] = [0; 1; 2]) &&
  negb (Qc_eq_bool (tget (s_tab s) 0 0) 0) && negb (Qc_eq_bool (tget (s_tab s) 0 1) 0) && bp_low s 0 (qz 3) && bp_low s 1 (qz 0) && bp_none s 0 && bp_none s 1.
Definition bp_view (o : options) (x : option (world Qc nat)) : option (world Qc nat * propagator Qc nat * list (list Z) * solver Qc) :=
  w ← x;
  match p_propagate 50 quiet o (lev 1) [11%Z; 31%Z] 0 (w_p w) (w_log w) with
  | Ok (p, log, true) => match p_slvs p !! 0 with Some (_, s) => Some (w, p, log, s) | None => None end
  | _ => None
  end.
Definition bp_test (o : options) (x : option (world Qc nat)) : bool :=
  match bp_view o x with
  | Some (w, p, log, s) => admb bp_ev w && forallb (fun q => match q_rel q with Req => false | _ => true end) (p_iqs (w_p w)) && bp_state p s && bool_decide (w_log w = []) && bool_decide (log = [[(-11)%Z; (-31)%Z; (-42)%Z]])
  | None => false
  end.
Lemma bp_full : bp_test (bp_opts PropFull) (bp_world PropFull) = true.
Proof. vm_compute. reflexivity. Qed.
Lemma bp_changed : bp_test (bp_opts PropChanged) (bp_world PropChanged) = true.
Proof. vm_compute. reflexivity. Qed.
Lemma bp_quiet : match bp_view (bp_opts PropNone) (bp_world PropNone) with Some (_, _, log, _) => bool_decide (log = []) | None => false end = true.
Proof. vm_compute. reflexivity. Qed.

Definition bp_q : ineq nat := Ineq [(qz 1, 0); (qz 1, 1)] (qz 2) Rle 42.
Lemma bp_excludes (p : propagator Qc nat) s : bp_state p s = true -> s_nb s = 1 /\ nv s = 3 /\ (forall x, bounds_var p s bp_q x -> x < 3 -> x = idx s (0 + s_nn s)) /\ row_excludes p s 0 bp_q.
Proof.
  unfold bp_state. rewrite !andb_true_iff, !negb_true_iff. intros ((((((((((E1 & E2) & E3) & E4) & E5) & E6) & E7) & E8) & E9) & E10) & E11).
  apply bool_decide_eq_true in E1, E2, E3, E4, E5. injection E5 as I0 I1 I2. split; [exact E1|]. split; [exact E2|]. split.
  - intros x (b & Hb & El & _) Hx. rewrite E3. cbn [Nat.add]. rewrite I2. assert (N : bp_none s x = true -> False).
    { intros N. unfold bp_none in N. rewrite forallb_forall in N. specialize (N b (proj1 (elem_of_list_In _ _) Hb)). rewrite El in N. discriminate N. }
    destruct x as [|[|[|x]]]; [exfalso; exact (N E10)|exfalso; exact (N E11)|reflexivity|lia].
  - intros a _ Hin. cbn [bp_q keptV q_lhs q_rel q_rhs]. rewrite E4. cbn. intros K.
    assert (L : forall x v, bp_low s x v = true -> in_row s 0 x -> (v <= a x)%Qc).
    { intros x v El Hx. unfold bp_low in El. destruct (lo s x) as [b|] eqn:Eb; [|discriminate El]. apply Qc_eq_bool_correct in El as <-. apply (Hin x Hx), Eb. }
    assert (N : forall c : Qc, Qc_eq_bool c 0 = false -> c <> 0%Qc) by (intros c Ec ->; discriminate Ec).
    pose proof (L 0 _ E8) as L0. pose proof (L 1 _ E9) as L1.
    assert (R0 : in_row s 0 0) by (exists 0; rewrite E3, I0; split; [lia|split; [exact (N _ E6)|reflexivity]]).
    assert (R1 : in_row s 0 1) by (exists 1; rewrite E3, I1; split; [lia|split; [exact (N _ E7)|reflexivity]]).
    specialize (L0 R0). specialize (L1 R1). clear Hin L N. rewrite decide_True, decide_False, decide_True in K by (reflexivity || discriminate).
    change (vle ?u ?v) with (u <= v)%Qc in K. revert L0 L1 K. generalize (a 0) (a 1). clear. intros u v L0 L1 K.
    assert (K2 : (u + v <= qz 2)%Qc) by (etransitivity; [|exact K]; apply Qcle_minus_iff; match goal with |- (0 <= ?t)%Qc => replace t with 0%Qc; [apply Qcle_refl|] end;
      replace (zq (Qnum (Qred (inject_Z 1)))) with 1%Qc by (apply Qc_is_canon; reflexivity); replace (zq (QDen (Qred (inject_Z 1)))) with 1%Qc by (apply Qc_is_canon; reflexivity); field; discriminate).
    replace (qz 3) with (1 + 1 + 1)%Qc in L0 by (apply Qc_is_canon; reflexivity). replace (qz 2) with (1 + 1)%Qc in K2 by (apply Qc_is_canon; reflexivity).
    replace (qz 0) with 0%Qc in L1 by (apply Qc_is_canon; reflexivity). clear K. qclra.
Qed.

Lemma bp_generic w p s off : let o := bp_opts PropFull in reach o (any_shot 1 bp_iqs []) w -> adm bp_ev w -> forallb (fun q => match q_rel q with Req => false | _ => true end) (p_iqs (w_p w)) = true ->
  bp_state p s = true -> w_log w = [] -> p_propagate 50 quiet o (lev 1) [11%Z; 31%Z] 0 (w_p w) (w_log w) = Ok (p, [[(-11)%Z; (-31)%Z; (-42)%Z]], true) -> p_slvs p !! 0 = Some (off, s) ->
  reach_any (bp_opts PropFull) (any_shot 1 bp_iqs []) w /\ adm bp_ev w /\ w_log w = [] /\
  p_propagate 50 quiet (bp_opts PropFull) (lev 1) [11%Z; 31%Z] 0 (w_p w) (w_log w) = Ok (p, [[(-11)%Z; (-31)%Z; (-42)%Z]], true) /\
  solver_of p 0 s /\ 0 < s_nb s /\ consistent_row s 0 /\ bounds_var p s bp_q (idx s (0 + s_nn s)) /\ row_excludes p s 0 bp_q /\ handled quiet s 0 [] [[(-11)%Z; (-31)%Z; (-42)%Z]] 42.
Proof.
  intros o Hr T1 T5 T2 T3 Ep Es. subst o. pose proof (reach_reach_any _ _ _ Hr) as Hra. assert (So : step_ok (V := Qc) (bp_opts PropFull)) by (intros g Eg; discriminate Eg).
  assert (Hs : solver_of p 0 s) by (exists off; exact Es).
  destruct (bp_excludes p s T2) as (N1 & N2 & Hx & He).
  assert (Hc : consistent_row s 0).
  { refine (C58_consistent _ _ w 0 quiet (lev 1) [11%Z; 31%Z] 50 p _ s So Hr T1 _ Ep Hs 0). right.
    intros q q' c c' x Hq _ _ _ Eq. rewrite forallb_forall in T5. specialize (T5 q (proj1 (elem_of_list_In _ _) Hq)). rewrite Eq in T5. discriminate T5. }
  assert (Hb : bounds_var p s bp_q (idx s (0 + s_nn s))).
  { set (w1 := World p [[(-11)%Z; (-31)%Z; (-42)%Z]] (<[0 := Thread (deliver (a_dl (lev 1)) [11%Z; 31%Z] (snaps (w_p w) 0) (th_stk (thread_of w 0))) false]> (w_th w)) (w_rep w)).
    assert (Hstep : step (bp_opts PropFull) bp_ev w w1).
    { exists 50. unfold bp_ev. cbn [wstep]. rewrite Ep. cbn [mbind res_bind]. reflexivity. }
    pose proof (any_step _ _ w bp_ev w1 Hra T1 Hstep) as Hr1.
    destruct (C58_attached _ _ w1 0 s bp_q So Hr1 Hs) as (x & Hx1 & Hx2).
    - right. right. left.
    - intros K; discriminate K.
    - intros ?; reflexivity.
    - rewrite <- (Hx x Hx2) by (rewrite <- N2; exact Hx1). exact Hx2. }
  split; [exact Hra|]. split; [exact T1|]. split; [exact T3|]. split; [rewrite T3 in *; exact Ep|]. split; [exact Hs|]. split; [rewrite N1; apply Nat.lt_0_1|]. split; [exact Hc|]. split; [exact Hb|]. split; [exact He|].
  rewrite <- T3 at 1. refine (C58_full _ _ w 0 quiet (lev 1) [11%Z; 31%Z] 50 p _ s So Hra T1 eq_refl Ep Hs 0 _ Hc bp_q _ Hb He); [rewrite N1; apply Nat.lt_0_1|]. right. right. left.
Qed.

Lemma bp_test_spec o x : bp_test o x = true -> exists w p s off, x = Some w /\ adm bp_ev w /\ forallb (fun q => match q_rel q with Req => false | _ => true end) (p_iqs (w_p w)) = true /\
  bp_state p s = true /\ w_log w = [] /\ p_propagate 50 quiet o (lev 1) [11%Z; 31%Z] 0 (w_p w) (w_log w) = Ok (p, [[(-11)%Z; (-31)%Z; (-42)%Z]], true) /\ p_slvs p !! 0 = Some (off, s).
Proof.
  intros T. unfold bp_test in T. destruct (bp_view _) as [[[[w p] log] s]|] eqn:E; [|discriminate T].
  apply andb_true_iff in T as [T T4]. apply andb_true_iff in T as [T T3]. apply andb_true_iff in T as [T T2]. apply andb_true_iff in T as [T1 T5]. apply bool_decide_eq_true in T3, T4. apply admb_ok in T1.
  unfold bp_view in E. destruct x as [w0|]; [|discriminate E]. cbn [mbind option_bind] in E.
  destruct (p_propagate _ _ _ _ _ _ _ _) as [[[p0 log0] [|]]| | |] eqn:Ep; try discriminate E. destruct (p_slvs p0 !! 0) as [[off s0]|] eqn:Es; [|discriminate E].
  injection E as -> -> -> ->. subst log. exists w, p, s, off. auto 10.
Qed.

Example C58_example : exists w p s, reach_any (bp_opts PropFull) (any_shot 1 bp_iqs []) w /\ adm bp_ev w /\ w_log w = [] /\
  p_propagate 50 quiet (bp_opts PropFull) (lev 1) [11%Z; 31%Z] 0 (w_p w) (w_log w) = Ok (p, [[(-11)%Z; (-31)%Z; (-42)%Z]], true) /\
  solver_of p 0 s /\ 0 < s_nb s /\ consistent_row s 0 /\ bounds_var p s bp_q (idx s (0 + s_nn s)) /\ row_excludes p s 0 bp_q /\ handled quiet s 0 [] [[(-11)%Z; (-31)%Z; (-42)%Z]] 42.
Proof.
  destruct (bp_test_spec _ _ bp_full) as (w & p & s & off & Ew & T1 & T5 & T2 & T3 & Ep & Es). exists w, p, s.
  exact (bp_generic w p s off (any_reach _ 1 bp_iqs [] [] w eq_refl Ew) T1 T5 T2 T3 Ep Es).
Qed.
