(** * C28, C29, C33: assignments, sign heuristic, statistics *)

From Coq Require Import Sorting.Sorted.
From Verif Require Import Num Sums Tableau TableauProofs Bland Solver SolverBase SolverStep Simplex SimplexLoop Hist Updates Core CoreSolve Propagate
  OptSelect Optimize Spec Eps Prepare Parsing Propagator World ThreadOk WorldProofs Reach Weak WeakHist WeakReach Observe ObserveProofs ObserveWeak Api Examples Props_Solver.

(** ** C28 *)
Section assignment.
  Context {V : Type} `{VL : ValueLaws V}.
  Implicit Types w : world V symbol.
  Implicit Types sh : shot V symbol.

  Lemma reach_nodup o sh w : step_ok (V := V) o -> reach_any o sh w -> NoDup (p_vars (w_p w)).
  Proof. intros So Hr. destruct (any_inv o sh w So Hr) as (? & ? & I). apply I. Qed.

  (** lookup_symbol and get_symbol are inverse to each other *)
  Theorem C28_lookup_get o sh w x i : step_ok (V := V) o -> reach_any o sh w ->
    f_lookup (w_p w) x = Some i <-> 0 < i /\ f_get_symbol (w_p w) i = Ok x.
  Proof.
    intros So Hr. pose proof (reach_nodup o sh w So Hr) as Hn. unfold f_lookup, p_lookup_symbol, f_get_symbol, p_get_symbol.
    destruct i as [|i]; [destruct (find_sym _ x); split; [intros [= E]; lia|intros [? _]; lia|discriminate|intros [? _]; lia]|].
    unfold at_. destruct (find_sym (p_vars (w_p w)) x) as [k|] eqn:E.
    - split.
      + intros [= Ek]. assert (k = i) as -> by lia. apply find_sym_spec in E; auto. rewrite E. split; auto; lia.
      + intros [_ Ex]. destruct (p_vars (w_p w) !! i) as [y|] eqn:Ey; [|discriminate]. injection Ex as ->. apply (find_sym_spec _ Hn) in Ey. f_equal. rewrite E in Ey. injection Ey as ->. lia.
    - split; [discriminate|]. intros [_ Ex]. destruct (p_vars (w_p w) !! i) as [y|] eqn:Ey; [|discriminate]. injection Ex as ->. apply (find_sym_spec _ Hn) in Ey. congruence.
  Qed.

  (** every variable of the current constraints and objective is known *)
  Theorem C28_known o sh w x : step_ok (V := V) o -> reach_any o sh w ->
    (exists q c, q ∈ sh_iqs sh /\ (c, x) ∈ q_lhs q) \/ (exists c, (c, x) ∈ sh_obj sh) -> exists i, f_lookup (w_p w) x = Some i.
  Proof.
    intros So Hr Hx. destruct (any_inv o sh w So Hr) as (? & ? & I).
    assert (Hs : is_Some (find_sym (p_vars (w_p w)) x)).
    { destruct Hx as [(q & c & Hq & Hc)|(c & Hc)]; [apply (proj2 (ww_lhs _ _ _ _ _ I q Hq) c x Hc)|apply (proj2 (ww_obj _ _ _ _ _ I) c x Hc)]. }
    destruct Hs as [k E]. unfold f_lookup, p_lookup_symbol. rewrite E. eauto.
  Qed.

  (** has_value holds exactly of the indices lookup returns *)
  Theorem C28_has_value o sh w t i : step_ok (V := V) o -> reach_any o sh w -> f_has_value (w_p w) t i = true <-> exists x, f_lookup (w_p w) x = Some i.
  Proof.
    intros So Hr. unfold f_has_value, p_has_value. rewrite andb_true_iff, !Nat.ltb_lt. split.
    - intros [Hi Hl]. destruct (lookup_lt_is_Some_2 _ _ Hl) as [x Ex]. exists x. apply (C28_lookup_get o sh w x i So Hr). split; [exact Hi|].
      destruct i as [|i]; [lia|]. replace (S i - 1) with i in Ex by lia. unfold f_get_symbol, p_get_symbol, at_. rewrite Ex. reflexivity.
    - intros [x Ex]. apply (C28_lookup_get o sh w x i So Hr) in Ex as [Hi Ex]. split; [exact Hi|]. destruct i as [|i]; [lia|]. replace (S i - 1) with i by lia.
      unfold f_get_symbol, p_get_symbol, at_ in Ex. destruct (p_vars (w_p w) !! i) as [y|] eqn:Ey; [|discriminate]. apply lookup_lt_Some in Ey. exact Ey.
  Qed.

  (** values and the objective can be read in every state *)
  Lemma reads o sh w : step_ok (V := V) o -> reach_any o sh w -> forall t, t < length (w_th w) ->
    (forall i, p_has_value (w_p w) t i = true -> exists v, p_get_value (w_p w) t i = Ok v) /\ exists ob, p_get_objective (w_p w) t = Ok ob.
  Proof.
    intros So Hr t Ht. destruct (get_glimpse o sh w t So Hr Ht) as (s0 & s & G). split.
    - intros i Hi. apply Nat.ltb_lt in Hi. destruct (lookup_lt_is_Some_2 (p_vars (w_p w)) i Hi) as [x E]. exists (val s i). eapply glimpse_get; eauto.
    - rewrite (glimpse_objective _ _ _ _ _ _ G). eauto.
  Qed.

  (** get_symbol on valid indices *)
  Lemma get_sym_ok (p : propagator V symbol) i : i < length (p_vars p) -> exists x, p_vars p !! i = Some x /\ p_get_symbol p i = Ok x.
  Proof. intros Hi. destruct (lookup_lt_is_Some_2 (p_vars p) i Hi) as [x E]. exists x. split; auto. unfold p_get_symbol, at_. rewrite E. auto. Qed.
  Lemma next_loop_ok (p : propagator V symbol) t : forall k cur, p_n_values p t - cur <= k -> exists r, next_loop p t k cur = Ok r /\
    match r with
    | Some i => cur < i <= length (p_vars p) /\ (exists x, p_vars p !! (i - 1) = Some x /\ is_number x = false) /\
                forall j x, cur < j -> j < i -> p_vars p !! (j - 1) = Some x -> is_number x = true
    | None => forall j x, cur < j -> p_vars p !! (j - 1) = Some x -> is_number x = true
    end.
  Proof.
    unfold p_n_values. induction k as [|k IH]; intros cur Hk; cbn [next_loop].
    - eexists. split; [reflexivity|]. cbn. intros j x Hj E. apply lookup_lt_Some in E. lia.
    - unfold p_n_values. destruct (Nat.ltb_spec cur (length (p_vars p))) as [Hc|Hc].
      + destruct (get_sym_ok p cur Hc) as (x & Ex & Eg). rewrite Eg. cbn [mbind res_bind]. destruct (is_number x) eqn:En.
        * destruct (IH (S cur)) as (r & -> & Hr); [lia|]. exists r. split; auto. destruct r as [i|].
          -- destruct Hr as (Hi & Hx & Hb). split; [lia|]. split; auto. intros j y Hj1 Hj2 Ey. destruct (decide (j = S cur)) as [-> |]; [|apply (Hb j); auto; lia].
             replace (S cur - 1) with cur in Ey by lia. congruence.
          -- intros j y Hj Ey. destruct (decide (j = S cur)) as [-> |]; [|apply (Hr j); auto; lia]. replace (S cur - 1) with cur in Ey by lia. congruence.
        * eexists. split; [reflexivity|]. cbn. split; [lia|]. split; [exists x; replace (cur - 0) with cur by lia; auto|]. intros j y Hj1 Hj2. lia.
      + eexists. split; [reflexivity|]. cbn. intros j x Hj E. apply lookup_lt_Some in E. lia.
  Qed.
  Lemma f_iterate_ok (p : propagator V symbol) t : forall k cur, p_n_values p t - cur < k -> exists is, f_iterate k p t cur = Ok is /\
    StronglySorted lt is /\ forall i, i ∈ is <-> cur < i /\ exists x, p_vars p !! (i - 1) = Some x /\ is_number x = false.
  Proof.
    induction k as [|k IH]; intros cur Hk; [lia|]. cbn [f_iterate]. unfold f_next.
    destruct (next_loop_ok p t (p_n_values p t - cur) cur ltac:(lia)) as (r & -> & Hr). cbn [mbind res_bind]. destruct r as [i|].
    - destruct Hr as (Hi & (x & Ex & Enx) & Hb). unfold p_n_values in *. destruct (IH i ltac:(lia)) as (is & -> & Hs & His). cbn [mbind res_bind].
      eexists. split; [reflexivity|]. split.
      + constructor; auto. apply Forall_forall. intros j Hj. apply His in Hj. lia.
      + intros j. rewrite elem_of_cons, His. split.
        * intros [-> |[Hj Hx]]; [split; [lia|eauto]|]. split; [lia|auto].
        * intros [Hj (y & Ey & Eny)]. destruct (Nat.lt_trichotomy j i) as [Hl|[Hl|Hl]]; auto.
          -- rewrite (Hb j y) in Eny; auto. discriminate.
          -- right. split; eauto.
    - eexists. split; [reflexivity|]. split; [constructor|]. intros j. split; [intros Hj; inversion Hj|]. intros [Hj (y & Ey & Eny)]. rewrite (Hr j y) in Eny; auto. discriminate.
  Qed.

  (** assignment_begin/next enumerate, in increasing order, exactly the
      indices of the symbols that are not numbers; each has a value *)
  Theorem C28_iteration o sh w t : step_ok (V := V) o -> reach_any o sh w -> t < length (w_th w) ->
    exists is, f_iterate (S (p_n_values (w_p w) t)) (w_p w) t f_begin = Ok is /\ StronglySorted lt is /\
      (forall i, i ∈ is <-> exists x, is_number x = false /\ f_lookup (w_p w) x = Some i) /\
      forall i, i ∈ is -> f_has_value (w_p w) t i = true /\ exists v, f_get_value (w_p w) t i = Ok v.
  Proof.
    intros So Hr Ht. destruct (f_iterate_ok (w_p w) t (S (p_n_values (w_p w) t)) f_begin) as (is & E & Hs & Hi); [unfold f_begin; lia|].
    exists is. split; auto. split; auto. split.
    - intros i. rewrite Hi. unfold f_begin. split.
      + intros [Hp (x & Ex & En)]. exists x. split; auto. apply (C28_lookup_get o sh w x i So Hr). split; auto. destruct i as [|i]; [lia|].
        replace (S i - 1) with i in Ex by lia. unfold f_get_symbol, p_get_symbol, at_. rewrite Ex. auto.
      + intros (x & En & El). apply (C28_lookup_get o sh w x i So Hr) in El as [Hp El]. split; auto. exists x. split; auto. destruct i as [|i]; [lia|].
        replace (S i - 1) with i by lia. unfold f_get_symbol, p_get_symbol, at_ in El. destruct (p_vars (w_p w) !! i); congruence.
    - intros i Hii. apply Hi in Hii as [Hp (x & Ex & _)]. unfold f_begin in Hp. destruct i as [|i]; [lia|]. replace (S i - 1) with i in Ex by lia. apply lookup_lt_Some in Ex.
      assert (Hh : p_has_value (w_p w) t i = true) by (unfold p_has_value; apply Nat.ltb_lt; auto).
      split; [unfold f_has_value; replace (S i - 1) with i by lia; rewrite Hh; auto|].
      destruct (reads o sh w So Hr t Ht) as [Hv _]. apply Hv; auto.
  Qed.

  (** extend_model adds one atom for each of these symbols, with its value, and the objective *)
  Lemma get_pairs_ok o sh w t : step_ok (V := V) o -> reach_any o sh w -> t < length (w_th w) -> forall is, (forall i, i ∈ is -> 0 < i <= length (p_vars (w_p w))) ->
    exists l, get_pairs (w_p w) t is = Ok l /\ length l = length is /\
      forall k i, is !! k = Some i -> exists x v, l !! k = Some (x, v) /\ f_lookup (w_p w) x = Some i /\ f_get_value (w_p w) t i = Ok v.
  Proof.
    intros So Hr Ht is. induction is as [|i is IH]; intros Hi; cbn [get_pairs].
    - eexists. split; [reflexivity|]. split; auto. intros k i. discriminate.
    - destruct (IH (fun j Hj => Hi j (elem_of_list_further _ _ _ Hj))) as (l & E & El & Hl). specialize (Hi i (elem_of_list_here _ _)).
      destruct (get_sym_ok (w_p w) (i - 1) ltac:(lia)) as (x & Ex & ->). cbn [mbind res_bind].
      destruct (reads o sh w So Hr t Ht) as [Hv _]. destruct (Hv (i - 1)) as [v Ev]; [unfold p_has_value; apply Nat.ltb_lt; lia|].
      rewrite Ev, E. cbn [mbind res_bind]. eexists. split; [reflexivity|]. split; [cbn; auto|]. intros [|k] j Ej; cbn in Ej.
      + injection Ej as <-. exists x, v. split; auto. destruct i as [|i]; [lia|]. replace (S i - 1) with i in * by lia. split; auto.
        apply (C28_lookup_get o sh w x _ So Hr). split; [lia|]. unfold f_get_symbol, p_get_symbol, at_. rewrite Ex. auto.
      + destruct (Hl k j Ej) as (x' & v' & A & B). exists x', v'. auto.
  Qed.
  Theorem C28_extend_model o sh w t : step_ok (V := V) o -> reach_any o sh w -> t < length (w_th w) ->
    exists l obj, extend_model (w_p w) t = Ok (l, obj) /\ p_get_objective (w_p w) t = Ok obj /\ NoDup (map fst l) /\
      forall x v, (x, v) ∈ l <-> is_number x = false /\ exists i, f_lookup (w_p w) x = Some i /\ f_get_value (w_p w) t i = Ok v.
  Proof.
    intros So Hr Ht. destruct (C28_iteration o sh w t So Hr Ht) as (is & E & Hs & Hi & Hv). unfold extend_model. rewrite E. cbn [mbind res_bind].
    assert (Hlk : forall x i, f_lookup (w_p w) x = Some i -> 0 < i <= length (p_vars (w_p w))).
    { intros x i El. unfold f_lookup, p_lookup_symbol in El. destruct (find_sym _ x) as [k|] eqn:Ek; [|discriminate]. injection El as <-.
      apply find_sym_spec in Ek; [|apply (reach_nodup o sh w So Hr)]. apply lookup_lt_Some in Ek. lia. }
    destruct (get_pairs_ok o sh w t So Hr Ht is) as (l & -> & El & Hl); [intros i Hii; apply Hi in Hii as (x & _ & Ex); eauto|]. cbn [mbind res_bind].
    destruct (reads o sh w So Hr t Ht) as [_ [ob Eo]]. rewrite Eo. cbn [mbind res_bind].
    exists l, ob. split; auto. split; auto.
    assert (Hk : forall k x v, l !! k = Some (x, v) -> exists i, is !! k = Some i /\ f_lookup (w_p w) x = Some i /\ f_get_value (w_p w) t i = Ok v).
    { intros k x v Ek. pose proof (lookup_lt_Some _ _ _ Ek) as Hlt. destruct (lookup_lt_is_Some_2 is k ltac:(lia)) as [i Ei]. exists i. split; auto.
      destruct (Hl k i Ei) as (x' & v' & Ek' & A & B). rewrite Ek in Ek'. injection Ek' as <- <-. auto. }
    split.
    - apply NoDup_alt. intros a b y Ea Eb. rewrite list_lookup_fmap in Ea, Eb. destruct (l !! a) as [[xa va]|] eqn:La; [|discriminate]. destruct (l !! b) as [[xb vb]|] eqn:Lb; [|discriminate].
      cbn in Ea, Eb. injection Ea as ->. injection Eb as ->. destruct (Hk _ _ _ La) as (i & Ia & La' & _). destruct (Hk _ _ _ Lb) as (j & Ib & Lb' & _).
      assert (j = i) as -> by congruence. assert (Hnd : NoDup is).
      { clear -Hs. induction Hs as [|i is Hs IH Hf]; constructor; auto. rewrite Forall_forall in Hf. intros Hin. specialize (Hf i Hin). lia. }
      eapply NoDup_lookup; eauto.
    - intros x v. split.
      + intros Hin. apply elem_of_list_lookup in Hin as (k & Ek). destruct (Hk _ _ _ Ek) as (i & Ei & A & B). split; [|eauto].
        apply elem_of_list_lookup_2, Hi in Ei as (x' & Hn & A'). apply (C28_lookup_get o sh w x i So Hr) in A as [_ A]. apply (C28_lookup_get o sh w x' i So Hr) in A' as [_ A']. congruence.
      + intros (Hn & i & A & B). assert (Hin : i ∈ is) by (apply Hi; eauto). apply elem_of_list_lookup in Hin as (k & Ek). destruct (Hl k i Ek) as (x' & v' & Lk & A' & B').
        apply (C28_lookup_get o sh w x i So Hr) in A as [_ A]. apply (C28_lookup_get o sh w x' i So Hr) in A' as [_ A']. apply elem_of_list_lookup. exists k. congruence.
  Qed.

  (** indices never change, neither by callbacks nor by further steps, even if
      init stops early *)
  Inductive later (o : options) : world V symbol -> world V symbol -> Prop :=
    | later_refl w : later o w w
    | later_step w w1 e w' : later o w w1 -> step o e w1 w' -> later o w w'
    | later_init w w1 sh p log ok : later o w w1 ->
        p_init (sh_host sh) o (sh_sort sh) (sh_threads sh) (sh_iqs sh) (sh_obj sh) (w_p w1) (w_log w1) = Ok (p, log, ok) -> later o w (start p log).
  Lemma gather_prefix (ts : list (Qc * symbol)) : forall vs, vs `prefix_of` gather vs ts.
  Proof.
    unfold gather. induction ts as [|t ts IH]; intros vs; cbn [fold_left]; [reflexivity|]. etransitivity; [|apply IH]. destruct (find_sym vs t.2); [reflexivity|]. exists [t.2]. auto.
  Qed.
  Lemma gathers_prefix (qs : list (ineq symbol)) : forall vs, vs `prefix_of` fold_left (fun vs q => gather vs (q_lhs q)) qs vs.
  Proof. induction qs as [|q qs IH]; intros vs; cbn [fold_left]; [reflexivity|]. etransitivity; [apply gather_prefix|apply IH]. Qed.
  Lemma later_prefix o w w' : later o w w' -> p_vars (w_p w) `prefix_of` p_vars (w_p w').
  Proof.
    induction 1 as [w|w w1 e w' Hl IH (f & E)|w w1 sh p log ok Hl IH E]; [reflexivity| |]; etransitivity; try exact IH.
    - rewrite (vars_kept o e w1 f w' E). reflexivity.
    - unfold p_init in E. apply bind_ok in E as ([[slvs log1] ok1] & _ & E). injection E as <- _ _. cbn. etransitivity; [apply gather_prefix|apply gathers_prefix].
  Qed.
  Lemma find_from_prefix (vs : list symbol) x : forall k i ws, find_from k vs x = Some i -> find_from k (vs ++ ws) x = Some i.
  Proof. induction vs as [|y vs IH]; intros k i ws; cbn; [discriminate|]. destruct (decide (x = y)); auto. Qed.
  Theorem C28_indices_stable o w w' x i : later o w w' -> f_lookup (w_p w) x = Some i -> f_lookup (w_p w') x = Some i.
  Proof.
    intros Hl. destruct (later_prefix o w w' Hl) as [ws E]. unfold f_lookup, p_lookup_symbol, find_sym. destruct (find_from 0 (p_vars (w_p w)) x) as [k|] eqn:Ek; [|discriminate].
    intros [= <-]. rewrite E, (find_from_prefix _ x 0 k ws Ek). auto.
  Qed.
End assignment.

(** ** C29 *)
Section heuristic.
  Context {V : Type} `{VL : ValueLaws V} {Sym : Type} `{EqDecision Sym}.
  Implicit Types w : world V Sym.
  Implicit Types sh : shot V Sym.

  Lemma bcompare_bsat (s : solver V) b : bcompare b (val s (b_var b)) = true <-> bsat (val s) b.
  Proof. unfold bcompare, bsat. destruct (b_rel b); [apply vleb_le|apply vgeb_le|apply veqb_spec]. Qed.
  Lemma adjust_loop_ok (s : solver V) (want : bool) bs : (forall b, b ∈ bs -> b_var b < nv s) ->
    adjust_loop s want bs = Ok (existsb (fun b => Bool.eqb (bcompare b (val s (b_var b))) want) bs).
  Proof.
    induction bs as [|b bs IH]; intros Hb; cbn [adjust_loop existsb]; auto. rewrite at_vr by (apply Hb; left). cbn [mbind res_bind]. change (v_val (vr s (b_var b))) with (val s (b_var b)).
    destruct (Bool.eqb _ want); cbn; auto. apply IH. intros c Hc. apply Hb. right; auto.
  Qed.
  (** some bound of literal [l] holds/does not hold in the current assignment *)
  Definition some_bound (s : solver V) (l : Z) (holding : bool) : Prop :=
    exists b, b ∈ s_bounds s /\ b_lit b = l /\ if holding then bsat (val s) b else ~ bsat (val s) b.
  Lemma find_some s l (want : bool) : existsb (fun b => Bool.eqb (bcompare b (val s (b_var b))) want) (find_bounds s l) = true <-> some_bound s l want.
  Proof.
    rewrite existsb_exists. unfold find_bounds, some_bound. split; intros (b & A & B); exists b.
    - apply filter_In in A as [A1 A2]. apply Z.eqb_eq in A2. split; [apply elem_of_list_In; auto|]. split; auto. apply eqb_prop in B. pose proof (bcompare_bsat s b). destruct want; [|intros C; apply H0 in C; congruence]. apply H0; auto.
    - destruct B as [B1 B2]. split; [apply filter_In; split; [apply elem_of_list_In; auto|apply Z.eqb_eq; auto]|]. pose proof (bcompare_bsat s b) as C. destruct (bcompare b _), want; auto; [destruct B2; apply C; auto|]. apply C in B2. discriminate.
  Qed.
  Lemma adjust_spec o (s : solver V) lit : (forall b, b ∈ s_bounds s -> b_var b < nv s) -> exists r, adjust o s lit = Ok r /\
    match o_select o with
    | SelectNone => r = lit
    | SelectMatch => (some_bound s lit false \/ some_bound s (- lit) true) /\ r = (- lit)%Z \/ ~ (some_bound s lit false \/ some_bound s (- lit) true) /\ r = lit
    | SelectConflict => (some_bound s lit true \/ some_bound s (- lit) false) /\ r = (- lit)%Z \/ ~ (some_bound s lit true \/ some_bound s (- lit) false) /\ r = lit
    end.
  Proof.
    intros Hb. assert (Hf : forall l b, b ∈ find_bounds s l -> b_var b < nv s).
    { intros l b Hi. apply Hb. apply elem_of_list_In in Hi. apply filter_In in Hi as [Hi _]. apply elem_of_list_In; auto. }
    assert (Ha : forall l wt, adjust_loop s wt (find_bounds s l) = Ok (existsb (fun b => Bool.eqb (bcompare b (val s (b_var b))) wt) (find_bounds s l))) by (intros; apply adjust_loop_ok, Hf).
    assert (Hd : forall w1 w2 : bool, exists r : Z, (f1 ← adjust_loop s w1 (find_bounds s lit); if (f1 : bool) then Ok (- lit)%Z else f2 ← adjust_loop s w2 (find_bounds s (- lit)%Z); if (f2 : bool) then Ok (- lit)%Z else Ok lit) = Ok r /\
      ((some_bound s lit w1 \/ some_bound s (- lit) w2) /\ r = (- lit)%Z \/ ~ (some_bound s lit w1 \/ some_bound s (- lit) w2) /\ r = lit)).
    { intros w1 w2. rewrite !Ha. cbn [mbind res_bind]. pose proof (find_some s lit w1) as G1. pose proof (find_some s (- lit) w2) as G2.
      destruct (existsb _ (find_bounds s lit)); [eexists; split; [reflexivity|]; left; tauto|]. destruct (existsb _ (find_bounds s (- lit))); (eexists; split; [reflexivity|]); [left; tauto|right].
      split; auto. intros [C|C]; [apply G1 in C|apply G2 in C]; discriminate. }
    unfold adjust. destruct (o_select o); [eauto|apply Hd..].
  Qed.

  (** some constraint of literal [l] is satisfied/violated by the values the
      API returns.  [keptV] (Spec.v): a strict constraint counts as satisfied
      if it holds by a distance of at least epsilon.  Constraints without
      variables are not considered. *)
  Definition satisfied sh w t (l : Z) : Prop := exists q, q ∈ sh_iqs sh /\ q_lhs q <> [] /\ q_lit q = l /\ keptV (api_value (w_p w) t) q.
  Definition violated sh w t (l : Z) : Prop := exists q, q ∈ sh_iqs sh /\ q_lhs q <> [] /\ q_lit q = l /\ ~ keptV (api_value (w_p w) t) q.

  (** The distance only matters if values have epsilon parts. *)
  Theorem keptV_holds (A : Sym -> V) (q : ineq Sym) : (forall c x, (c, x) ∈ q_lhs q -> c <> 0%Qc) -> keptV A q -> holdsV A q.
  Proof.
    intros Hc. assert (K : forall r x c, relm r x c -> relv r x (vofq c : V)).
    { intros r x c. destruct r; cbn; auto; rewrite vlt_emb, vemb_ofq; cbn; (intros [?|[E ?]]; auto; right; split; [auto|qclra]). }
    unfold keptV, holdsV. destruct (q_lhs q) as [|[c x] [|y l]]; auto. intros Hk. apply K in Hk. specialize (Hc c x (elem_of_list_here _ _)).
    cbn [linV]. rewrite vadd_0_r. apply relv_scale; auto.
    replace (if vltb c 0%Qc then invert (q_rel q) else q_rel q) with (if Qclt_le_dec c 0 then mirrored (q_rel q) else q_rel q); auto.
    destruct (Qclt_le_dec c 0) as [Hlt|Hle].
    - rewrite (proj2 (vltb_lt c 0%Qc)); [destruct (q_rel q); auto|]. rewrite vlt_emb. cbn. auto.
    - destruct (vltb c 0%Qc) eqn:Es; auto. exfalso. apply vltb_lt in Es. rewrite vlt_emb in Es. cbn in Es. destruct Es as [?|[_ ?]]; qclra.
  Qed.
  Theorem holds_keptV (A : Sym -> V) (q : ineq Sym) : (forall c x, (c, x) ∈ q_lhs q -> c <> 0%Qc) ->
    (q_rel q <> Rlt /\ q_rel q <> Rgt) \/ (forall x, std (A x)) -> holdsV A q -> keptV A q.
  Proof.
    intros Hc Hs. assert (K : forall r x c, (r <> Rlt /\ r <> Rgt) \/ std x -> relv r x (vofq c : V) -> relm r x c).
    { intros r x c Hr. destruct r; cbn; auto; (destruct Hr as [[? ?]|Hr]; [congruence|]); rewrite vlt_emb, vemb_ofq; cbn; rewrite Hr; (intros [?|[E ?]]; auto; exfalso; qclra). }
    unfold keptV, holdsV. destruct (q_lhs q) as [|[c x] [|y l]].
    - intros Hk. apply K; auto. destruct Hs as [?|Hs]; auto. right. apply std_linV; auto.
    - specialize (Hc c x (elem_of_list_here _ _)). cbn [linV]. rewrite vadd_0_r. intros Hk. apply relv_scale in Hk; auto. apply K.
      + destruct Hs as [[N1 N2]|Hs]; [left|right; auto]. destruct (Qclt_le_dec c 0), (q_rel q); cbn; split; congruence.
      + replace (if Qclt_le_dec c 0 then mirrored (q_rel q) else q_rel q) with (if vltb c 0%Qc then invert (q_rel q) else q_rel q); auto.
        destruct (Qclt_le_dec c 0) as [Hlt|Hle].
        * rewrite (proj2 (vltb_lt c 0%Qc)); [destruct (q_rel q); auto|]. rewrite vlt_emb. cbn. auto.
        * destruct (vltb c 0%Qc) eqn:Es; auto. exfalso. apply vltb_lt in Es. rewrite vlt_emb in Es. cbn in Es. destruct Es as [?|[_ ?]]; qclra.
    - intros Hk. apply K; auto. destruct Hs as [?|Hs]; auto. right. apply std_linV; auto.
  Qed.

  (** In every state of every session, decide returns the literal or its
      complement and, in the modes match and conflict, the complement exactly
      if the current values disagree with the literal (match) or agree with it
      (conflict).  The literal is one clingo still has to decide: neither it
      nor its complement was false when init ran, and neither was added as a
      fact (literals of bounds on the objective are). *)
  Theorem C29_decide o sh w t lit : step_ok (V := V) o -> reach_any o sh w -> t < length (w_th w) ->
    (forall q, q ∈ sh_iqs sh -> q_lit q = lit \/ q_lit q = (- lit)%Z -> watched sh q) -> [lit] ∉ w_log w -> [(- lit)%Z] ∉ w_log w ->
    exists r, p_decide o t lit (w_p w) = Ok r /\
      match o_select o with
      | SelectNone => r = lit
      | SelectMatch => (violated sh w t lit \/ satisfied sh w t (- lit)) /\ r = (- lit)%Z \/ ~ (violated sh w t lit \/ satisfied sh w t (- lit)) /\ r = lit
      | SelectConflict => (satisfied sh w t lit \/ violated sh w t (- lit)) /\ r = (- lit)%Z \/ ~ (satisfied sh w t lit \/ violated sh w t (- lit)) /\ r = lit
      end.
  Proof.
    intros So Hr Ht Hw N1 N2. destruct (get_glimpse o sh w t So Hr Ht) as (s0 & s & G). destruct (gl_at _ _ _ _ _ _ G) as (off & Es).
    unfold p_decide, at_. rewrite Es. cbn [mbind res_bind]. destruct (adjust_spec o s lit (sh_bv _ (gl_shape _ _ _ _ _ _ G))) as (r & -> & Hs). exists r. split; auto.
    assert (K : forall l, l = lit \/ l = (- lit)%Z -> (some_bound s l true <-> satisfied sh w t l) /\ (some_bound s l false <-> violated sh w t l)).
    { intros l Hl. assert (Nl : [l] ∉ w_log w) by (destruct Hl as [-> | ->]; auto).
      destruct (glimpse_bounds o sh w t s0 s l) as [B1 B2]; auto; [intros q Hq <-; apply Hw; auto|].
      split; (split; [intros (b & Hb & El & Hx); destruct (B1 b Hb El) as (q & Hq & Hne & Elq & Hiff)|intros (q & Hq & Hne & El & Hx); destruct (B2 q Hq Hne El) as (b & Hb & Elb & Hiff)]).
      1, 3: exists q; tauto.
      all: exists b; tauto. }
    destruct (K lit) as [K1 K2]; auto. destruct (K (- lit)%Z) as [K3 K4]; auto. destruct (o_select o); auto; tauto.
  Qed.
  (** Without the assumptions on the literal: decide does not fail and returns
      the literal or its complement. *)
  Theorem C29_only_sign o sh w t lit : step_ok (V := V) o -> reach_any o sh w -> t < length (w_th w) ->
    exists r, p_decide o t lit (w_p w) = Ok r /\ (r = lit \/ r = (- lit)%Z) /\ (o_select o = SelectNone -> r = lit).
  Proof.
    intros So Hr Ht. destruct (get_glimpse o sh w t So Hr Ht) as (s0 & s & G). destruct (gl_at _ _ _ _ _ _ G) as (off & Es).
    unfold p_decide, at_. rewrite Es. cbn [mbind res_bind]. destruct (adjust_spec o s lit (sh_bv _ (gl_shape _ _ _ _ _ _ G))) as (r & -> & Hs). exists r. split; auto.
    destruct (o_select o); [subst; auto|..]; (split; [destruct Hs as [[_ ->]|[_ ->]]; auto|discriminate]).
  Qed.
End heuristic.

(** In this session x + y <= 4, x >= 1 and y - x < 0 are true and x + 2*y has been
    maximized, so that x + y >= 5 (literal 42) is violated; at the beginning all
    values are 0, so that y - x < 0 (literal 31) is violated. *)
Example C29_used : let w := ex_world ex_gopts 1 evs_opt in reach_any ex_gopts (ex_shot 1 []) w /\ 0 < length (w_th w) /\
  (forall q, q ∈ ex_iqs -> watched (ex_shot 1 [] : shot RatQ nat) q) /\ [42%Z] ∉ w_log w /\ [(-42)%Z] ∉ w_log w /\
  p_decide ex_gopts 0 42 (w_p w) = Ok (-42)%Z /\ p_decide ex_gopts 0 31 (w_p w) = Ok 31%Z /\ p_decide ex_gopts 0 31 (w_p (ex_world ex_gopts 1 [])) = Ok (-31)%Z.
Proof.
  cbv zeta. split; [apply reach_reach_any, ex_reach; vm_compute; reflexivity|]. split; [vm_compute; lia|]. split; [intros q _ log; reflexivity|].
  assert (E : bool_decide ([42%Z] ∈ w_log (ex_world ex_gopts 1 evs_opt)) || bool_decide ([(-42)%Z] ∈ w_log (ex_world ex_gopts 1 evs_opt)) = false) by (vm_compute; reflexivity).
  apply orb_false_iff in E as [E1 E2]. apply bool_decide_eq_false in E1, E2. split; [exact E1|]. split; [exact E2|].
  split; [vm_compute; reflexivity|]. split; vm_compute; reflexivity.
Qed.

(** ** C40 *)
Section consistent.
  Context {V : Type} `{VL : ValueLaws V} {Sym : Type} `{EqDecision Sym}.
  (** In every state of every session, whatever the thread, the objective value
      the API returns is the objective expression at the values the API
      returns; there is none exactly if the program has no objective. *)
  Theorem C40_objective_consistent o (sh : shot V Sym) w t : step_ok (V := V) o -> reach_any o sh w -> t < length (w_th w) ->
    exists r, p_get_objective (w_p w) t = Ok r /\ (r = None <-> sh_obj sh = []) /\
      forall v bounded, r = Some (v, bounded) -> v = linV (api_value (w_p w) t) (sh_obj sh).
  Proof.
    intros So Hr Ht. destruct (get_glimpse o sh w t So Hr Ht) as (s0 & s & G). rewrite (glimpse_objective _ _ _ _ _ _ G). eexists. split; [reflexivity|].
    destruct (decide (sh_obj sh = [])) as [E|E]; (split; [split; intros; (congruence || discriminate || auto)|]); [discriminate|]. intros v b [= <- _]. auto.
  Qed.
End consistent.
Example C40_used : let w := ex_world ex_opts 1 evs_opt in reach_any ex_opts (ex_shot 1 []) w /\ 0 < length (w_th w) /\
  is_val (p_get_objective (w_p w) 0) (mkRatQ (qz 6) (- half)%Qc) true = true.
Proof. cbv zeta. split; [apply reach_reach_any, ex_reach; vm_compute; reflexivity|]. split; [vm_compute; lia|]. vm_compute. reflexivity. Qed.

(** ** C33 *)
Section statistics.
  Context {V : Type} `{Value V} {Sym : Type} `{EqDecision Sym}.
  Fixpoint total (f : solver V -> nat) (l : list (nat * solver V)) : nat := match l with [] => 0 | x :: r => f x.2 + total f r end.
  Lemma on_statistics_gen (l : list (nat * solver V)) : forall st ac, fold_left (fun '(st, ac) sl => (Stats (s_pivots sl.2) (s_props sl.2),
      Stats (st_pivots ac + s_pivots sl.2) (st_bounds ac + s_props sl.2))) l (st, ac) =
    (match last l with Some x => Stats (s_pivots x.2) (s_props x.2) | None => st end, Stats (st_pivots ac + total s_pivots l) (st_bounds ac + total s_props l)).
  Proof.
    induction l as [|x l IH]; intros st ac; cbn [fold_left total].
    - rewrite !Nat.add_0_r. destruct ac. auto.
    - rewrite IH. cbn [st_pivots st_bounds]. rewrite !Nat.add_assoc. f_equal. destruct l; [reflexivity|]. cbn [last]. destruct (last (p :: l)) eqn:E; auto. apply last_None in E. discriminate.
  Qed.
  (** the accumulated values grow by the sums over the threads *)
  Theorem C33_accumulated (p : propagator V Sym) st ac :
    (on_statistics p st ac).2 = Stats (st_pivots ac + total s_pivots (p_slvs p)) (st_bounds ac + total s_props (p_slvs p)).
  Proof. unfold on_statistics. rewrite on_statistics_gen. auto. Qed.
  (** Missing: several threads, for which the claim is false (C33_refuted). *)
  Theorem C33_step_partial (p : propagator V Sym) st ac : length (p_slvs p) = 1 ->
    (on_statistics p st ac).1 = Stats (total s_pivots (p_slvs p)) (total s_props (p_slvs p)).
  Proof. intros Hl. unfold on_statistics. rewrite on_statistics_gen. destruct (p_slvs p) as [|x [|y l]]; try discriminate. cbn. rewrite !Nat.add_0_r. auto. Qed.
End statistics.
(** two threads, thread 0 made a pivot: the step statistics say 0 *)
Theorem C33_refuted : exists (sh : shot RatQ nat) w, reach ex_gopts sh w /\
  st_pivots (on_statistics (w_p w) (Stats 0 0) (Stats 0 0)).1 < total s_pivots (p_slvs (w_p w)).
Proof.
  exists (ex_shot 2 []), (ex_world ex_gopts 2 [ev_prop 0 0 [10%Z]; ev_prop 0 1 [21%Z; 31%Z]; ev_check 0 1 true 901 911]). split; [apply ex_reach; vm_compute; reflexivity|]. vm_compute. lia.
Qed.
