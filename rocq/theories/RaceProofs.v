(** * Proofs about Race.v *)

From Verif Require Import Num Tableau Solver Propagator World Race.

Section proofs.
  Context {V : Type} `{Value V} {Sym : Type} `{EqDecision Sym}.
  Implicit Types (p P : propagator V Sym) (q : prog V Sym) (t : nat).

  Lemma put_put t x y p : put_thread t x (put_thread t y p) = put_thread t x p.
  Proof. unfold put_thread. cbn. rewrite list_insert_insert. reflexivity. Qed.
  Lemma put_id t x p : p_slvs p !! t = Some x -> put_thread t x p = p.
  Proof. intros E. unfold put_thread. rewrite list_insert_id by auto. destruct p; reflexivity. Qed.
  Lemma put_get t x p : t < length (p_slvs p) -> p_slvs (put_thread t x p) !! t = Some x.
  Proof. intros Hl. cbn. apply list_lookup_insert. auto. Qed.
  Lemma put_get_ne t t' x p : t <> t' -> p_slvs (put_thread t x p) !! t' = p_slvs p !! t'.
  Proof. intros Hn. cbn. apply list_lookup_insert_ne. auto. Qed.

  (** A program run without interruption. *)
  Fixpoint exec q p : option (propagator V Sym * answer V Sym) :=
    match q with
    | Ret a => Some (p, a)
    | Abort => None
    | RdSlv t k => match p_slvs p !! t with Some x => exec (k x) p | None => None end
    | WrSlv t x k => exec k (put_thread t x p)
    | RdFacts k => exec (k (p_facts p)) p
    | WrFacts l k => exec k (add_facts l p)
    | RdFoff k => exec (k (p_foff p)) p
    | RdState k => exec (k (p_state p)) p
    | WrState x k => exec k (up_state x p)
    | RdVars k => exec (k (p_vars p)) p
    end.
  Definition of_res {A} (r : res A) : option A := match r with Ok a => Some a | _ => None end.

  Lemma exec_rest fuel h o total lit2 t off s2 lg p : t < length (p_slvs p) -> p_slvs p !! t = Some (off, s2) ->
    exec (check_rest fuel h o total lit2 t off s2 lg) p =
    of_res ('(s5, log5) ← (if total : bool then s3 ← optimize fuel o s2; s4 ← (match o_store o with StoreNo => Ok s3 | _ => store_sat s3 end);
                '(s5, log5, _) ← discard_bounded h o lit2 s4 lg; Ok (s5, log5) else Ok (s2, lg));
            Ok (put_thread t (off, s5) p, AClauses log5 true)).
  Proof.
    intros Hl Hp. unfold check_rest. destruct total; cbn.
    - destruct (optimize fuel o s2) as [s3| | |]; cbn; auto. destruct (match o_store o with StoreNo => _ | _ => _ end) as [s4| | |]; cbn; auto.
      destruct (discard_bounded h o lit2 s4 lg) as [[[s5 log5] ok]| | |]; cbn; auto.
    - rewrite put_id; auto.
  Qed.
  Lemma exec_integrate fuel h o total lit1 lit2 t off s1 lg p : t < length (p_slvs p) -> p_slvs p !! t = Some (off, s1) ->
    exec (check_integrate fuel h o total lit1 lit2 t off s1 lg) p =
    of_res ('(s2, log2, ok2) ← integrate_objective h o lit1 (p_state p) s1 lg;
            '(s5, log5) ← (if negb ok2 then Ok (s2, log2) else if total : bool then s3 ← optimize fuel o s2; s4 ← (match o_store o with StoreNo => Ok s3 | _ => store_sat s3 end);
                '(s5, log5, _) ← discard_bounded h o lit2 s4 log2; Ok (s5, log5) else Ok (s2, log2));
            Ok (put_thread t (off, s5) p, AClauses log5 true)).
  Proof.
    intros Hl Hp. unfold check_integrate. destruct (o_global o) eqn:Eg.
    - cbn [exec]. destruct (integrate_objective h o lit1 (p_state p) s1 lg) as [[[s2 log2] ok2]| | |]; cbn; auto.
      destruct ok2; cbn; auto. rewrite exec_rest; [|cbn; rewrite insert_length; auto|apply put_get; auto].
      match goal with |- of_res (?x ≫= _) = of_res (?x ≫= _) => destruct x as [[s5 l5]| | |]; cbn; auto end. rewrite put_put. auto.
    - rewrite exec_rest by auto. unfold integrate_objective. rewrite Eg. cbn. auto.
  Qed.

  (** the programs compute the callbacks of Propagator.v *)
  Lemma exec_prog fuel o c p : call_thread c < length (p_slvs p) -> exec (prog_of fuel o c) p = of_res (seq_call fuel o c p).
  Proof.
    intros Hl. destruct c as [[t h a lits|t h a total l1 l2|t|t]|t l|t x|t i|t|t i|t]; cbn [call_thread ev_thread] in Hl.
    - unfold prog_of, seq_call, p_propagate. destruct (lookup_lt_is_Some_2 _ _ Hl) as [[off s] Hs].
      destruct ((a_dl a =? 0) && (t =? 0)); cbn [exec]; unfold add_facts; cbn [p_slvs]; unfold at_; rewrite Hs; cbn;
        destruct (solve fuel h o a lits s []) as [[[s1 lg] ok]| | |]; cbn; auto.
    - unfold prog_of, seq_call, p_check. destruct (lookup_lt_is_Some_2 _ _ Hl) as [[off s] Hs]. cbn [exec]. unfold at_. rewrite Hs. cbn.
      unfold t_check. destruct (a_dl a =? 0) eqn:E0; cbn [exec andb].
      + destruct (off <? p_foff p) eqn:Eo; cbn [exec].
        * destruct (guard_ub (off + p_foff p <=? length (p_facts p))) as [[]| | |]; cbn; auto.
          destruct (solve fuel h o a _ s []) as [[[s1 lg] ok]| | |]; cbn; auto. destruct ok; cbn; auto.
          rewrite exec_integrate; [|cbn; rewrite insert_length; auto|apply put_get; auto]. cbn.
          destruct (integrate_objective h o l1 (p_state p) s1 lg) as [[[s2 log2] ok2]| | |]; cbn; auto.
          destruct ok2; cbn; [|rewrite put_put; auto]. destruct total; cbn; [|rewrite put_put; auto].
          destruct (optimize fuel o s2) as [s3| | |]; cbn; auto. destruct (match o_store o with StoreNo => _ | _ => _ end) as [s4| | |]; cbn; auto.
          destruct (discard_bounded h o l2 s4 log2) as [[[s5 log5] ok5]| | |]; cbn; auto. rewrite put_put. auto.
        * rewrite exec_integrate by auto. cbn.
          destruct (integrate_objective h o l1 (p_state p) s []) as [[[s2 log2] ok2]| | |]; cbn; auto.
          destruct ok2; cbn; auto. destruct total; cbn; auto.
          destruct (optimize fuel o s2) as [s3| | |]; cbn; auto. destruct (match o_store o with StoreNo => _ | _ => _ end) as [s4| | |]; cbn; auto.
          destruct (discard_bounded h o l2 s4 log2) as [[[s5 log5] ok5]| | |]; cbn; auto.
      + rewrite exec_integrate by auto. cbn.
          destruct (integrate_objective h o l1 (p_state p) s []) as [[[s2 log2] ok2]| | |]; cbn; auto.
          destruct ok2; cbn; auto. destruct total; cbn; auto.
          destruct (optimize fuel o s2) as [s3| | |]; cbn; auto. destruct (match o_store o with StoreNo => _ | _ => _ end) as [s4| | |]; cbn; auto.
          destruct (discard_bounded h o l2 s4 log2) as [[[s5 log5] ok5]| | |]; cbn; auto.
    - cbn. unfold p_undo, at_. destruct (p_slvs p !! t) as [[off s]|]; cbn; auto. destruct (undo s); cbn; auto.
    - cbn. unfold p_on_model, at_. destruct (o_global o); cbn; auto. destruct (p_slvs p !! t) as [[off s]|]; cbn; auto.
      destruct (get_objective s) as [[x|]| | |]; cbn; auto.
    - cbn. unfold p_decide, at_. destruct (p_slvs p !! t) as [[off s]|]; cbn; auto. destruct (adjust o s l); cbn; auto.
    - cbn. auto.
    - cbn. unfold p_get_symbol. destruct (at_ (p_vars p) i); cbn; auto.
    - cbn. auto.
    - cbn. unfold p_get_value, at_. destruct (p_slvs p !! t) as [[off s]|]; cbn; auto. destruct (get_value s i); cbn; auto.
    - cbn. unfold p_get_objective, at_. destruct (p_slvs p !! t) as [[off s]|]; cbn; auto. destruct (get_objective s); cbn; auto.
  Qed.

  (** ** Programs that only touch the solver of their thread *)
  Fixpoint local t q : Prop :=
    match q with
    | Ret _ | Abort => True
    | RdSlv t' k => t' = t /\ forall x, local t (k x)
    | WrSlv t' _ k => t' = t /\ local t k
    | _ => False
    end.
  Lemma exec_local t q : local t q -> forall p y, t < length (p_slvs p) -> p_slvs p !! t = Some y ->
    forall p1 a, exec q p = Some (p1, a) -> exists y', p1 = put_thread t y' p /\
      forall p', t < length (p_slvs p') -> p_slvs p' !! t = Some y -> exec q p' = Some (put_thread t y' p', a).
  Proof.
    induction q as [a0| |t' k IH|t' x k IH|k IH|l k IH|k IH|k IH|x k IH|k IH]; cbn [local exec]; intros Hlo p y Hl Hy p1 a E; try contradiction.
    - injection E as <- <-. exists y. rewrite put_id by auto. split; auto. intros p' Hl' Hy'. rewrite put_id by auto. auto.
    - discriminate.
    - destruct Hlo as [-> Hlo]. rewrite Hy in E. destruct (IH y (Hlo y) p y Hl Hy p1 a E) as (y' & E1 & E2). exists y'. split; auto.
      intros p' Hl' Hy'. rewrite Hy'. auto.
    - destruct Hlo as [-> Hlo]. destruct (IH Hlo (put_thread t x p) x) with (p1 := p1) (a := a) as (y' & E1 & E2); auto.
      { cbn. rewrite insert_length. auto. } { apply put_get; auto. }
      exists y'. rewrite put_put in E1. split; auto. intros p' Hl' Hy'. rewrite E2; [rewrite put_put; auto|cbn; rewrite insert_length; auto|apply put_get; auto].
  Qed.
  Lemma exec_local_none t q : local t q -> forall p p' y, t < length (p_slvs p) -> t < length (p_slvs p') -> p_slvs p !! t = Some y -> p_slvs p' !! t = Some y ->
    exec q p = None -> exec q p' = None.
  Proof.
    intros Hlo p p' y Hl Hl' Hy Hy' E. destruct (exec q p') as [[p1 a]|] eqn:E'; auto.
    destruct (exec_local t q Hlo p' y Hl' Hy' p1 a E') as (y' & _ & E2). rewrite (E2 p Hl Hy) in E. discriminate.
  Qed.

  Lemma exec_act q p p' q' : act q p = Some (p', q') -> exec q p = exec q' p'.
  Proof.
    destruct q; cbn; intros E; try discriminate; try (injection E as <- <-; auto; fail).
    destruct (p_slvs p !! t); injection E as <- <-; auto.
  Qed.

  (** [stable t q y foff F vs]: what the program [q] of thread [t] does before
      its access to objective_state_ or its insertion into facts_ does not
      change if other threads extend facts_ = [F]; afterwards it is local. *)
  Fixpoint stable t q (y : nat * solver V) (foff : nat) (F : list Z) (vs : list Sym) : Prop :=
    match q with
    | Ret _ | Abort => True
    | RdSlv t' k => t' = t /\ stable t (k y) y foff F vs
    | WrSlv t' x k => t' = t /\ stable t k x foff F vs
    | RdFacts k => (forall F', F `prefix_of` F' -> k F' = k F) /\ stable t (k F) y foff F vs
    | RdFoff k => stable t (k foff) y foff F vs
    | RdVars k => stable t (k vs) y foff F vs
    | RdState k => forall S, local t (k S)
    | WrFacts _ k => local t k
    | WrState _ k => local t k
    end.
  Lemma local_stable t q : local t q -> forall y foff F vs, stable t q y foff F vs.
  Proof.
    induction q as [a0| |t' k IH|t' x k IH|k IH|l k IH|k IH|k IH|x k IH|k IH]; cbn [local stable]; intros Hlo y foff F vs; try contradiction; auto.
    - destruct Hlo as [-> Hlo]. auto.
    - destruct Hlo as [-> Hlo]. auto.
  Qed.
  Lemma stable_mono t q : forall y foff F F' vs, F `prefix_of` F' -> stable t q y foff F vs -> stable t q y foff F' vs.
  Proof.
    induction q as [a0| |t' k IH|t' x k IH|k IH|l k IH|k IH|k IH|x k IH|k IH]; cbn [stable]; intros y foff F F' vs Hp Hs; auto.
    - destruct Hs as [-> Hs]. split; eauto.
    - destruct Hs as [-> Hs]. split; eauto.
    - destruct Hs as [E Hs]. split.
      + intros F2 H2. rewrite (E F') by auto. apply E. transitivity F'; auto.
      + rewrite (E F') by auto. eauto.
    - eauto.
    - eauto.
  Qed.

  (** Every thread has processed the old facts or none of them. *)
  Definition good p : Prop := p_foff p <= length (p_facts p) /\ forall t off s, p_slvs p !! t = Some (off, s) -> off = 0 \/ p_foff p <= off.
  Lemma local_rest fuel h o total lit2 t off s2 lg : local t (check_rest fuel h o total lit2 t off s2 lg).
  Proof.
    unfold check_rest. destruct total; cbn; auto. destruct (optimize fuel o s2) as [s3| | |]; cbn; auto.
    destruct (match o_store o with StoreNo => _ | _ => _ end) as [s4| | |]; cbn; auto. destruct (discard_bounded h o lit2 s4 lg) as [[[s5 log5] ok]| | |]; cbn; auto.
  Qed.
  Lemma stable_integrate fuel h o total lit1 lit2 t off s1 lg y foff F vs : stable t (check_integrate fuel h o total lit1 lit2 t off s1 lg) y foff F vs.
  Proof.
    unfold check_integrate. destruct (o_global o).
    - cbn [stable]. intros S. destruct (integrate_objective h o lit1 S s1 lg) as [[[s2 log2] ok2]| | |]; cbn; auto. split; auto. destruct ok2; cbn; auto. apply local_rest.
    - apply local_stable, local_rest.
  Qed.
  Lemma stable_prog fuel o c p y : p_foff p <= length (p_facts p) -> y.1 = 0 \/ p_foff p <= y.1 -> p_slvs p !! call_thread c = Some y ->
    stable (call_thread c) (prog_of fuel o c) y (p_foff p) (p_facts p) (p_vars p).
  Proof.
    intros G1 G2 Hy. destruct y as [off s]. cbn in G2. destruct c as [[t h a lits|t h a total l1 l2|t|t]|t l|t x|t i|t|t i|t]; cbn [call_thread ev_thread] in *; unfold prog_of.
    - destruct ((a_dl a =? 0) && (t =? 0)); cbn [stable local].
      + split; auto. intros [off' s']. destruct (solve fuel h o a lits s' []) as [[[s1 lg] ok]| | |]; cbn; auto.
      + split; auto. destruct (solve fuel h o a lits s []) as [[[s1 lg] ok]| | |]; cbn; auto.
    - cbn [stable]. split; auto. destruct (a_dl a =? 0); [|apply stable_integrate]. cbn [stable].
      destruct (off <? p_foff p) eqn:Eo; [|apply stable_integrate]. apply Nat.ltb_lt in Eo. assert (off = 0) as -> by (destruct G2; auto; lia).
      assert (K : forall F', p_facts p `prefix_of` F' -> guard_ub (0 + p_foff p <=? length F') = Ok tt /\ take (p_foff p) (drop 0 F') = take (p_foff p) (drop 0 (p_facts p))).
      { intros F' [l ->]. rewrite app_length. split.
        - replace (0 + p_foff p <=? length (p_facts p) + length l) with true; auto. symmetry. apply Nat.leb_le. lia.
        - rewrite !drop_0. rewrite take_app_le by auto. auto. }
      cbn [stable]. split.
      + intros F' HF. destruct (K F' HF) as [-> ->]. destruct (K _ (reflexivity (p_facts p))) as [-> _]. auto.
      + destruct (K _ (reflexivity (p_facts p))) as [-> _]. cbn [lift]. destruct (solve fuel h o a _ s []) as [[[s1 lg] ok]| | |]; cbn [lift stable]; auto. split; auto.
        destruct ok; cbn [negb]; [apply stable_integrate|cbn; auto].
    - cbn. split; auto. destruct (undo s); cbn; auto.
    - destruct (o_global o); cbn; auto. split; auto. destruct (get_objective s) as [[x|]| | |]; cbn; auto.
    - cbn. split; auto. destruct (adjust o s l); cbn; auto.
    - cbn. auto.
    - cbn. destruct (at_ (p_vars p) i); cbn; auto.
    - cbn. auto.
    - cbn. split; auto. destruct (get_value s i); cbn; auto.
    - cbn. split; auto. destruct (get_objective s); cbn; auto.
  Qed.

  Lemma good_put t off s p : good p -> off = 0 \/ p_foff p <= off -> good (put_thread t (off, s) p).
  Proof.
    intros [G1 G2] Ho. split; [exact G1|]. intros t' off' s' E. cbn in *. apply list_lookup_insert_Some in E as [(-> & [= <- <-] & _)|(Hn & E)]; auto. eapply G2; eauto.
  Qed.
  Lemma good_facts l p : good p -> good (add_facts l p).
  Proof. intros [G1 G2]. split; [cbn; rewrite app_length; lia|exact G2]. Qed.
  Lemma good_state x p : good p -> good (up_state x p).
  Proof. intros [G1 G2]. split; [exact G1|exact G2]. Qed.
  Lemma good_seq fuel o c p p' a : good p -> seq_call fuel o c p = Ok (p', a) -> good p'.
  Proof.
    intros G E. destruct c as [[t h a0 lits|t h a0 total l1 l2|t|t]|t l|t x|t i|t|t i|t]; cbn in E.
    - unfold p_propagate in E.
      assert (G1 : good (if (a_dl a0 =? 0) && (t =? 0) then add_facts lits p else p)) by (destruct (_ && _); auto using good_facts). unfold add_facts in G1.
      set (p1 := if (a_dl a0 =? 0) && (t =? 0) then _ else p) in *. unfold at_ in E. destruct (p_slvs p1 !! t) as [[off s]|] eqn:Es; cbn in E; [|discriminate].
      destruct (solve fuel h o a0 lits s []) as [[[s' lg] ok]| | |]; cbn in E; try discriminate. injection E as <- <-. apply good_put; auto. destruct G1 as [_ G1]. eapply G1; eauto.
    - unfold p_check, at_ in E. destruct (p_slvs p !! t) as [[off s]|] eqn:Es; cbn in E; [|discriminate].
      destruct (t_check fuel h o a0 total l1 l2 (p_facts p) (p_foff p) (p_state p) off s []) as [[[[off' s'] lg] ok]| | |] eqn:Et; cbn in E; try discriminate. injection E as <- <-.
      apply good_put; auto. assert (off' = off \/ off' = p_foff p) as [-> | ->]; [| |right; auto].
      2:{ destruct G as [_ G]. eapply G; eauto. }
      unfold t_check in Et. destruct ((a_dl a0 =? 0) && (off <? p_foff p)).
      + right. destruct (guard_ub _) as [[]| | |]; cbn in Et; try discriminate. destruct (solve fuel h o a0 _ s []) as [[[s1 l3] ok1]| | |]; cbn in Et; try discriminate.
        destruct ok1; cbn in Et; [|congruence]. destruct (integrate_objective h o l1 (p_state p) s1 l3) as [[[s2 log2] ok2]| | |]; cbn in Et; try discriminate.
        destruct ok2; cbn in Et; [|congruence]. destruct total; cbn in Et; [|congruence]. destruct (optimize fuel o s2) as [s3| | |]; cbn in Et; try discriminate.
        destruct (match o_store o with StoreNo => _ | _ => _ end) as [s4| | |]; cbn in Et; try discriminate.
        destruct (discard_bounded h o l2 s4 log2) as [[[s5 log5] ok5]| | |]; cbn in Et; try discriminate. congruence.
      + left. cbn in Et. destruct (integrate_objective h o l1 (p_state p) s []) as [[[s2 log2] ok2]| | |]; cbn in Et; try discriminate.
        destruct ok2; cbn in Et; [|congruence]. destruct total; cbn in Et; [|congruence]. destruct (optimize fuel o s2) as [s3| | |]; cbn in Et; try discriminate.
        destruct (match o_store o with StoreNo => _ | _ => _ end) as [s4| | |]; cbn in Et; try discriminate.
        destruct (discard_bounded h o l2 s4 log2) as [[[s5 log5] ok5]| | |]; cbn in Et; try discriminate. congruence.
    - unfold p_undo, at_ in E. destruct (p_slvs p !! t) as [[off s]|] eqn:Es; cbn in E; [|discriminate]. destruct (undo s); cbn in E; try discriminate.
      injection E as <- <-. apply good_put; auto. destruct G as [_ G]. eapply G; eauto.
    - unfold p_on_model, at_ in E. destruct (o_global o); cbn in E; [|congruence]. destruct (p_slvs p !! t) as [[off s]|] eqn:Es; cbn in E; [|discriminate].
      destruct (get_objective s) as [[x|]| | |]; cbn in E; try discriminate; injection E as <- <-; auto.
    - unfold p_decide, at_ in E. destruct (p_slvs p !! t) as [[off s]|]; cbn in E; [|discriminate]. destruct (adjust o s l); cbn in E; congruence.
    - congruence.
    - unfold p_get_symbol in E. destruct (at_ (p_vars p) i); cbn in E; congruence.
    - congruence.
    - destruct (p_get_value p t i); cbn in E; congruence.
    - destruct (p_get_objective p t); cbn in E; congruence.
  Qed.

  (** ** The simulation *)
  Definition same p P : Prop := p_vars p = p_vars P /\ p_foff p = p_foff P /\ p_facts p = p_facts P /\ p_state p = p_state P /\ p_obj p = p_obj P /\ p_iqs p = p_iqs P /\ length (p_slvs p) = length (p_slvs P).
  (** what other threads can turn [p] into, as seen by thread [t] *)
  Definition future t y p p' : Prop := t < length (p_slvs p') /\ p_slvs p' !! t = Some y /\ p_foff p' = p_foff p /\ p_vars p' = p_vars p /\ p_facts p `prefix_of` p_facts p'.
  Definition tsim fuel o t p P (x : option (call Sym * prog V Sym)) (x' : option phase) : Prop :=
    match x, x' with
    | None, None => p_slvs p !! t = p_slvs P !! t
    | Some (c, q), Some (PCalled c') => c' = c /\ call_thread c = t /\ exists y z, p_slvs p !! t = Some y /\ p_slvs P !! t = Some z /\
        stable t q y (p_foff p) (p_facts p) (p_vars p) /\ forall p', future t y p p' -> exec q p' = exec (prog_of fuel o c) (put_thread t z p')
    | Some (c, q), Some (PDone a) => call_thread c = t /\ exists y z, p_slvs p !! t = Some y /\ p_slvs P !! t = Some z /\ local t q /\ exec q p = Some (put_thread t z p, a)
    | _, _ => False
    end.
  Definition sim fuel o (m : machine V Sym) (A : atomic V Sym) : Prop :=
    same (m_p m) (at_p A) /\ good (at_p A) /\ forall t, tsim fuel o t (m_p m) (at_p A) (m_ctl m t) (at_ctl A t).
  Definition doomed (m : machine V Sym) : Prop := exists t c q y, m_ctl m t = Some (c, q) /\ p_slvs (m_p m) !! t = Some y /\ local t q /\ exec q (m_p m) = None.

  Lemma slt t y p : p_slvs p !! t = Some y -> t < length (p_slvs p).
  Proof. intros E. apply lookup_lt_Some in E. auto. Qed.

  (** steps of one thread as the others see them *)
  Definition env t p p' : Prop := p_slvs p' !! t = p_slvs p !! t /\ p_foff p' = p_foff p /\ p_vars p' = p_vars p /\ p_facts p `prefix_of` p_facts p' .
  Lemma tsim_env fuel o t p p' P P' x x' : env t p p' -> p_slvs P' !! t = p_slvs P !! t -> tsim fuel o t p P x x' -> tsim fuel o t p' P' x x'.
  Proof.
    intros (E1 & E2 & E3 & E4) EP. destruct x as [[c q]|], x' as [[c'|a]|]; cbn [tsim]; auto.
    - intros (-> & Ht & y & z & Hy & Hz & Hs & Hx). repeat (split; auto). exists y, z. rewrite E1, EP. repeat (split; auto).
      + rewrite E2, E3. eapply stable_mono; eauto.
      + intros p2 (F1 & F2 & F3 & F4 & F5). apply Hx. repeat (split; auto); try congruence. etransitivity; eauto.
    - intros (Ht & y & z & Hy & Hz & Hl & Hx). repeat (split; auto). exists y, z. rewrite E1, EP. repeat (split; auto).
      destruct (exec_local t q Hl p y (slt _ _ _ Hy) Hy _ _ Hx) as (y' & Ey & Hp).
      assert (y' = z) as ->. { assert (X : p_slvs (put_thread t z p) !! t = p_slvs (put_thread t y' p) !! t) by congruence. rewrite !put_get in X by (eapply slt; eauto). congruence. }
      rewrite <- E1 in Hy. apply Hp; auto. eapply slt; eauto.
    - intros E. rewrite E1, EP. auto.
  Qed.
  Lemma doomed_env t0 p p' ctl x : (forall t, t <> t0 -> env t p p') -> (forall c q, ctl t0 = Some (c, q) -> ~ (local t0 q /\ exec q p = None)) ->
    doomed (Machine p ctl) -> doomed (Machine p' (set_ctl t0 x ctl)).
  Proof.
    intros He Hn (t & c & q & y & Hc & Hy & Hl & Hx). cbn in *. destruct (decide (t = t0)) as [-> |Hne].
    - exfalso. eapply Hn; eauto.
    - destruct (He t Hne) as (E1 & E2 & E3 & E4). exists t, c, q, y. cbn. unfold set_ctl. replace (t =? t0) with false by (symmetry; apply Nat.eqb_neq; auto).
      repeat (split; auto). + congruence. + assert (Hy' : p_slvs p' !! t = Some y) by congruence. eapply exec_local_none with (p := p); eauto using slt.
  Qed.

  (** ** Footprints: which accesses the program of call [c] can perform, if
      its solver is [y] and facts_offset_ is [foff] *)
  Definition writes_facts (c : call Sym) : Prop := exists h a lits, c = CEv (EvPropagate 0 h a lits) /\ a_dl a = 0.
  Definition reads_facts (c : call Sym) (off foff : nat) : Prop := exists t h a total l1 l2, c = CEv (EvCheck t h a total l1 l2) /\ a_dl a = 0 /\ off < foff.
  Fixpoint foot (c : call Sym) q (y : nat * solver V) (foff : nat) : Prop :=
    match q with
    | Ret _ | Abort => True
    | RdSlv t' k => t' = call_thread c /\ foot c (k y) y foff
    | WrSlv t' x k => t' = call_thread c /\ foot c k x foff
    | RdFacts k => reads_facts c y.1 foff /\ forall F, foot c (k F) y foff
    | WrFacts _ k => writes_facts c /\ foot c k y foff
    | RdFoff k => foot c (k foff) y foff
    | RdState k => forall S, foot c (k S) y foff
    | WrState _ k => foot c k y foff
    | RdVars k => forall vs, foot c (k vs) y foff
    end.
  Lemma local_foot c q : local (call_thread c) q -> forall y foff, foot c q y foff.
  Proof.
    induction q as [a0| |t' k IH|t' x k IH|k IH|l k IH|k IH|k IH|x k IH|k IH]; cbn [local foot]; intros Hlo y foff; try contradiction; auto.
    - destruct Hlo as [-> Hlo]. auto.
    - destruct Hlo as [-> Hlo]. auto.
  Qed.
  Lemma foot_integrate fuel h o total lit1 lit2 c off s1 lg y foff : foot c (check_integrate fuel h o total lit1 lit2 (call_thread c) off s1 lg) y foff.
  Proof.
    unfold check_integrate. destruct (o_global o).
    - cbn [foot]. intros S. destruct (integrate_objective h o lit1 S s1 lg) as [[[s2 log2] ok2]| | |]; cbn; auto. split; auto. destruct ok2; cbn; auto. apply local_foot, local_rest.
    - apply local_foot, local_rest.
  Qed.
  Lemma foot_prog fuel o c y foff : foot c (prog_of fuel o c) y foff.
  Proof.
    destruct y as [off s]. destruct c as [[t h a lits|t h a total l1 l2|t|t]|t l|t x|t i|t|t i|t] eqn:Ec; cbn [call_thread ev_thread] in *; unfold prog_of.
    - destruct ((a_dl a =? 0) && (t =? 0)) eqn:E; cbn [foot call_thread ev_thread].
      + apply andb_true_iff in E as [E1%Nat.eqb_eq E2%Nat.eqb_eq]. subst t. split; [exists h, a, lits; auto|]. split; auto.
        destruct (solve fuel h o a lits s []) as [[[s1 lg] ok]| | |]; cbn; auto.
      + split; auto. destruct (solve fuel h o a lits s []) as [[[s1 lg] ok]| | |]; cbn; auto.
    - rewrite <- Ec. assert (Et : call_thread c = t) by (rewrite Ec; auto). rewrite <- Et. cbn [foot]. split; auto. destruct (a_dl a =? 0) eqn:E0; [|apply foot_integrate]. cbn [foot].
      destruct (off <? foff) eqn:Eo; [|apply foot_integrate]. apply Nat.ltb_lt in Eo. apply Nat.eqb_eq in E0.
      cbn [foot]. split; [exists t, h, a, total, l1, l2; auto|].
      intros F. destruct (guard_ub _) as [[]| | |]; cbn [lift foot]; auto. destruct (solve fuel h o a _ s []) as [[[s1 lg] ok]| | |]; cbn [lift foot]; auto. split; auto.
      destruct ok; cbn [negb]; [apply foot_integrate|cbn; auto].
    - cbn. split; auto. destruct (undo s); cbn; auto.
    - destruct (o_global o); cbn; auto. split; auto. destruct (get_objective s) as [[x|]| | |]; cbn; auto.
    - cbn. split; auto. destruct (adjust o s l); cbn; auto.
    - cbn. auto.
    - cbn. intros vs. destruct (at_ vs i); cbn; auto.
    - cbn. auto.
    - cbn. split; auto. destruct (get_value s i); cbn; auto.
    - cbn. split; auto. destruct (get_objective s); cbn; auto.
  Qed.
  Definition minv (m : machine V Sym) : Prop := forall t c q, m_ctl m t = Some (c, q) -> call_thread c = t /\ exists y, p_slvs (m_p m) !! t = Some y /\ foot c q y (p_foff (m_p m)).
  Lemma act_env c q p p' q' y : foot c q y (p_foff p) -> act q p = Some (p', q') -> forall t', t' <> call_thread c -> env t' p p'.
  Proof.
    intros Hs E t' Hn. unfold env. destruct q; cbn [foot act] in *; try discriminate; try (injection E as <- <-; cbn; repeat (split; auto); apply prefix_app_r; reflexivity).
    - destruct (p_slvs p !! t); injection E as <- <-; auto.
    - destruct Hs as [-> Hs]. injection E as <- <-. cbn. rewrite list_lookup_insert_ne by auto. auto.
  Qed.
  Lemma act_foot c q p p' q' y : p_slvs p !! call_thread c = Some y -> foot c q y (p_foff p) -> act q p = Some (p', q') ->
    p_foff p' = p_foff p /\ exists y', p_slvs p' !! call_thread c = Some y' /\ foot c q' y' (p_foff p').
  Proof.
    intros Hy Hs E. destruct q; cbn [foot act] in *; try discriminate; try (injection E as <- <-; cbn; split; auto; exists y; split; auto; apply Hs; fail).
    - destruct Hs as [-> Hs]. rewrite Hy in E. injection E as <- <-. eauto.
    - destruct Hs as [-> Hs]. injection E as <- <-. cbn. split; auto. exists x. split; auto. apply list_lookup_insert. eapply slt; eauto.
  Qed.
  Lemma set_ctl_eq {A} t (x : A) f : (if t =? t then x else f) = x.
  Proof. rewrite Nat.eqb_refl. auto. Qed.
  Lemma set_ctl_ne {A} t t' (x : A) f : t' <> t -> (if t' =? t then x else f) = f.
  Proof. intros Hn. replace (t' =? t) with false; auto. symmetry. apply Nat.eqb_neq. auto. Qed.

  Lemma minv_idle p : minv (idle p).
  Proof. intros t c q E. discriminate. Qed.
  Lemma minv_step fuel o m l m' : minv m -> mstep fuel o m l m' -> minv m' /\ p_foff (m_p m') = p_foff (m_p m) /\ length (p_slvs (m_p m')) = length (p_slvs (m_p m)).
  Proof.
    intros Hi Hs. destruct Hs as [p ctl c Hc Hl|p ctl t c q p' q' Hc Ha|p ctl t c a Hc]; cbn.
    - split; auto. intros t c' q E. cbn in *. unfold set_ctl in E. destruct (t =? call_thread c) eqn:Et.
      + apply Nat.eqb_eq in Et as ->. injection E as <- <-. split; auto. destruct (lookup_lt_is_Some_2 _ _ Hl) as [y Hy]. exists y. split; auto. apply foot_prog.
      + apply (Hi t c' q E).
    - destruct (Hi t c q Hc) as (Et & y & Hy & Hf). cbn in *. subst t. destruct (act_foot _ _ _ _ _ _ Hy Hf Ha) as (E1 & y' & Hy' & Hf').
      split; [|split; auto].
      + intros t c' q2 E. cbn in *. unfold set_ctl in E. destruct (t =? call_thread c) eqn:Et.
        * apply Nat.eqb_eq in Et as ->. injection E as <- <-. split; auto. exists y'. auto.
        * apply Nat.eqb_neq in Et. destruct (Hi t c' q2 E) as (E2 & y2 & Hy2 & Hf2). split; auto. destruct (act_env _ _ _ _ _ _ Hf Ha t Et) as (A & B & _).
          cbn in *. exists y2. rewrite A, B. auto.
      + destruct q; cbn in Ha; try discriminate; try (injection Ha as <- <-; cbn; rewrite ?insert_length; auto; fail). destruct (p_slvs p !! t); injection Ha as <- <-; auto.
    - split; auto. intros t' c' q E. cbn in *. unfold set_ctl in E. destruct (t' =? t) eqn:Et; [discriminate|]. apply (Hi t' c' q E).
  Qed.
  Lemma minv_exec fuel o p h m : mexec fuel o (idle p) h m -> minv m /\ p_foff (m_p m) = p_foff p /\ length (p_slvs (m_p m)) = length (p_slvs p).
  Proof.
    intros E. remember (idle p) as m0. induction E as [m|m1 l m2 ls m3 E IH Hs]; subst.
    - split; [apply minv_idle|auto].
    - destruct IH as (I1 & I2 & I3); auto. destruct (minv_step _ _ _ _ _ I1 Hs) as (J1 & J2 & J3). split; auto. split; congruence.
  Qed.

  (** a thread that is going to fail stays so *)
  Lemma doomed_step fuel o m l m' : minv m -> doomed m -> mstep fuel o m l m' -> doomed m'.
  Proof.
    intros Hi (t0 & c0 & q0 & y0 & Hc0 & Hy0 & Hl0 & Hx0) Hs. destruct Hs as [p ctl c Hc Hl|p ctl t c q p' q' Hc Ha|p ctl t c a Hc]; cbn in *.
    - exists t0, c0, q0, y0. cbn. unfold set_ctl. rewrite set_ctl_ne by congruence. auto.
    - destruct (Hi t c q Hc) as (Et & y & Hy & Hf). cbn in *. destruct (decide (t0 = t)) as [-> |Hn].
      + assert (E : (c0, q0) = (c, q)) by congruence. injection E as -> ->. subst t. destruct (act_foot _ _ _ _ _ _ Hy Hf Ha) as (E1 & y' & Hy' & Hf').
        exists (call_thread c), c, q', y'. cbn. unfold set_ctl. rewrite set_ctl_eq. split; auto. split; auto. split.
        * destruct q; cbn in Hl0, Ha; try discriminate; try contradiction.
          -- destruct Hl0 as [-> Hl0]. rewrite Hy in Ha. injection Ha as <- <-. auto.
          -- destruct Hl0 as [-> Hl0]. injection Ha as <- <-. auto.
        * rewrite <- (exec_act _ _ _ _ Ha). auto.
      + subst t. destruct (act_env _ _ _ _ _ _ Hf Ha t0 Hn) as (A & B & _). exists t0, c0, q0, y0. cbn. unfold set_ctl. rewrite set_ctl_ne by auto. split; auto.
        assert (Hy0' : p_slvs p' !! t0 = Some y0) by congruence. split; auto. split; auto. eapply exec_local_none with (p := p); eauto using slt.
    - assert (t0 <> t). { intros ->. assert (E : (c0, q0) = (c, Ret a)) by congruence. injection E as -> ->. discriminate. }
      exists t0, c0, q0, y0. cbn. unfold set_ctl. rewrite set_ctl_ne by congruence. auto.
  Qed.

  Inductive asteps fuel o : atomic V Sym -> option (label V Sym) -> atomic V Sym -> Prop :=
    | a_none A : asteps fuel o A None A
    | a_one A l A' : astep fuel o A l A' -> asteps fuel o A l A'
    | a_two A A1 l A2 : astep fuel o A None A1 -> astep fuel o A1 l A2 -> asteps fuel o A l A2.

  Lemma same_future t y z p P : same p P -> p_slvs p !! t = Some y -> p_slvs P !! t = Some z -> future t y p (put_thread t y P).
  Proof.
    intros (E1 & E2 & E3 & E4 & E5 & E6 & E7) Hy Hz. unfold future. cbn. rewrite insert_length. split; [eapply slt; eauto|]. split; [apply list_lookup_insert; eapply slt; eauto|].
    split; auto. split; auto. rewrite E3. reflexivity.
  Qed.
  Lemma of_res_some {A} (r : res A) x : of_res r = Some x -> r = Ok x.
  Proof. destruct r; cbn; congruence. Qed.

  (** a thread whose call has not taken effect performs the rest of it at once *)
  Lemma commit fuel o c q p P : same p P -> tsim fuel o (call_thread c) p P (Some (c, q)) (Some (PCalled c)) ->
    forall y, p_slvs p !! call_thread c = Some y -> of_res (seq_call fuel o c P) = exec q (put_thread (call_thread c) y P).
  Proof.
    intros Hsame (_ & _ & y & z & Hy & Hz & Hst & Hx) y' Hy'. assert (y' = y) as -> by congruence.
    rewrite (Hx _ (same_future _ _ _ _ _ Hsame Hy Hz)), put_put, put_id by auto. symmetry. apply exec_prog. eapply slt; eauto.
  Qed.

  Lemma same_slvs p P P' : same p P -> p_vars P' = p_vars P -> p_foff P' = p_foff P -> p_facts P' = p_facts P -> p_state P' = p_state P -> p_obj P' = p_obj P -> p_iqs P' = p_iqs P -> length (p_slvs P') = length (p_slvs P) -> same p P'.
  Proof. intros (E1 & E2 & E3 & E4 & E5 & E6 & E7). unfold same. intuition congruence. Qed.
  Lemma same_put t x p P : same p P -> same p (put_thread t x P).
  Proof. intros Hs. eapply same_slvs; [exact Hs|..]; auto. cbn. apply insert_length. Qed.
  Lemma same_sym p P : same p P -> same P p.
  Proof. intros (E1 & E2 & E3 & E4 & E5 & E6 & E7). unfold same. intuition congruence. Qed.
  Lemma env_refl t p : env t p p.
  Proof. unfold env. repeat split; auto. Qed.

  (** the step at which a call takes effect *)
  Lemma lin_step fuel o c q p P ctl ctlA ord f q' y : same p P -> good P -> (forall t, tsim fuel o t p P (ctl t) (ctlA t)) ->
    ctl (call_thread c) = Some (c, q) -> ctlA (call_thread c) = Some (PCalled c) -> p_slvs p !! call_thread c = Some y ->
    (forall p, p_slvs (f p) = p_slvs p) -> (forall t x p, f (put_thread t x p) = put_thread t x (f p)) -> same (f p) (f P) ->
    (forall t, t <> call_thread c -> env t p (f p)) ->
    local (call_thread c) q' -> (exec q (put_thread (call_thread c) y P) = exec q' (f (put_thread (call_thread c) y P))) ->
    doomed (Machine (f p) (set_ctl (call_thread c) (Some (c, q')) ctl)) \/
    exists A', asteps fuel o (Atomic P ctlA ord) None A' /\ sim fuel o (Machine (f p) (set_ctl (call_thread c) (Some (c, q')) ctl)) A'.
  Proof.
    intros Hsame Hg Ht Hc HcA Hy Hf1 Hf2 Hf3 Henv Hloc Hx. set (t := call_thread c) in *.
    pose proof (Ht t) as Htc. rewrite Hc, HcA in Htc. pose proof (commit fuel o c q p P Hsame Htc y Hy) as Hcom. fold t in Hcom. rewrite Hx in Hcom.
    assert (HlP : t < length (p_slvs P)). { destruct Hsame as (_ & _ & _ & _ & _ & _ & E7). rewrite <- E7. eapply slt; eauto. }
    rewrite Hf2 in Hcom. assert (HyP : p_slvs (put_thread t y (f P)) !! t = Some y) by (apply put_get; rewrite Hf1; auto).
    assert (Hyf : p_slvs (f p) !! t = Some y) by (rewrite Hf1; auto).
    destruct (exec q' (put_thread t y (f P))) as [[P1 a]|] eqn:Ee.
    - right. apply of_res_some in Hcom. destruct (exec_local t q' Hloc _ y (slt _ _ _ HyP) HyP _ _ Ee) as (y' & -> & Hp). rewrite put_put in Hcom.
      eexists. split; [apply a_one, as_commit; [exact HcA|exact Hcom]|]. split; [cbn [at_p m_p]; apply same_put; auto|]. split; [cbn [at_p m_p]; eapply good_seq; [exact Hg|exact Hcom]|].
      intros t'. cbn. unfold set_ctl, set_ph. fold t. destruct (t' =? t) eqn:Et.
      + apply Nat.eqb_eq in Et as ->. cbn [tsim]. split; auto. exists y, y'. split; auto. split; [apply put_get; rewrite Hf1; auto|]. split; auto. apply Hp; auto. eapply slt; eauto.
      + apply Nat.eqb_neq in Et. eapply tsim_env; [apply Henv; exact Et| |apply Ht]. rewrite put_get_ne by auto. rewrite Hf1. auto.
    - left. exists t, c, q', y. cbn. unfold set_ctl. rewrite set_ctl_eq. split; auto. split; auto. split; auto. eapply exec_local_none with (p := put_thread t y (f P)); eauto using slt.
  Qed.

  Lemma sim_step fuel o m A l m' : minv m -> sim fuel o m A -> mstep fuel o m l m' -> doomed m' \/ exists A', asteps fuel o A l A' /\ sim fuel o m' A'.
  Proof.
    intros Hi (Hsame & Hg & Ht) Hs. destruct A as [P ctlA ord]. cbn in *. destruct Hs as [p ctl c Hc Hl|p ctl t c q p' q' Hc Ha|p ctl t c a Hc]; cbn in *.
    - (* call *) right. pose proof (Ht (call_thread c)) as Htc. rewrite Hc in Htc. cbn in Htc. destruct (ctlA (call_thread c)) eqn:EcA; [contradiction|].
      eexists. split; [apply a_one, as_call; auto|]. split; [exact Hsame|]. split; [exact Hg|]. intros t. cbn. unfold set_ctl, set_ph.
      destruct (t =? call_thread c) eqn:Et; [|apply Ht]. apply Nat.eqb_eq in Et as ->. cbn [tsim]. split; auto. split; auto.
      destruct (lookup_lt_is_Some_2 _ _ Hl) as [y Hy]. exists y, y. split; auto. split; [congruence|]. split.
      + destruct Hsame as (E1 & E2 & E3 & E4 & E5 & E6 & E7). destruct Hg as [G1 G2]. apply stable_prog; auto; [congruence|].
        destruct y as [off s]. rewrite E2. apply (G2 (call_thread c) off s). congruence.
      + intros p2 (F1 & F2 & _). rewrite put_id; auto.
    - destruct (Hi t c q Hc) as (Et & y & Hy & Hf). cbn in *. subst t. set (t := call_thread c) in *.
      pose proof (act_env _ _ _ _ _ _ Hf Ha) as Henv. pose proof (Ht t) as Htc. rewrite Hc in Htc. destruct (ctlA t) as [[c'|a]|] eqn:EcA; cbn in Htc; [| |contradiction].
      + (* not yet effective *)
        destruct Htc as (-> & _ & y0 & z & Hy0 & Hz & Hst & Hx). assert (y0 = y) as -> by congruence.
        assert (Hkeep : forall y', same p' p -> (forall t', t' <> t -> env t' p p') -> p_slvs p' !! t = Some y' -> stable t q' y' (p_foff p') (p_facts p') (p_vars p') ->
            (forall p2, future t y' p' p2 -> exec q' p2 = exec (prog_of fuel o c) (put_thread t z p2)) ->
            exists A', asteps fuel o (Atomic P ctlA ord) None A' /\ sim fuel o (Machine p' (set_ctl t (Some (c, q')) ctl)) A').
        { intros y' Hs' He' Hy' Hst' Hx'. exists (Atomic P ctlA ord). split; [apply a_none|]. split; [|split; [exact Hg|]].
          - cbn. apply same_sym. apply same_sym in Hsame. destruct Hsame as (E1 & E2 & E3 & E4 & E5 & E6 & E7), Hs' as (D1 & D2 & D3 & D4 & D5 & D6 & D7). unfold same. intuition congruence.
          - intros t'. cbn. unfold set_ctl. destruct (t' =? t) eqn:Et'.
            + apply Nat.eqb_eq in Et' as ->. rewrite EcA. cbn [tsim]. split; auto. split; auto. exists y', z. auto.
            + apply Nat.eqb_neq in Et'. eapply tsim_env; [apply He'; exact Et'|reflexivity|apply Ht]. }
        assert (Hsm : forall p, same p p) by (intros; unfold same; auto 10).
        destruct q as [a0| |t' k|t' x k|k|l k|k|k|x k|k]; cbn [act] in Ha; cbn [stable] in Hst; try discriminate.
        * destruct Hst as [-> Hst]. rewrite Hy in Ha. injection Ha as <- <-. right. apply (Hkeep y); auto.
          intros p2 F. rewrite <- Hx by auto. cbn. destruct F as (F1 & F2 & _). rewrite F2. auto.
        * destruct Hst as [-> Hst]. injection Ha as <- <-. right. apply (Hkeep x); auto.
          -- apply same_sym, same_put. auto.
          -- apply put_get. eapply slt; eauto.
          -- intros p2 (F1 & F2 & F3 & F4 & F5). cbn in F3, F4, F5.
             assert (Ff : future t y p (put_thread t y p2)). { unfold future. cbn. rewrite insert_length. split; auto. split; [apply list_lookup_insert; auto|auto]. }
             pose proof (Hx _ Ff) as E. cbn [exec] in E. rewrite !put_put in E. rewrite (put_id t x p2) in E by auto. auto.
        * destruct Hst as [Hk Hst]. injection Ha as <- <-. right. apply (Hkeep y); auto.
          intros p2 F. rewrite <- Hx by auto. cbn. destruct F as (F1 & F2 & F3 & F4 & F5). rewrite (Hk _ F5). auto.
        * injection Ha as <- <-. apply lin_step with (q := WrFacts l k) (y := y) (f := add_facts l); auto.
          destruct Hsame as (E1 & E2 & E3 & E4 & E5 & E6 & E7). unfold same. cbn. intuition congruence.
        * injection Ha as <- <-. right. apply (Hkeep y); auto.
          intros p2 F. rewrite <- Hx by auto. cbn. destruct F as (F1 & F2 & F3 & F4 & F5). rewrite F3. auto.
        * injection Ha as <- <-. apply lin_step with (q := RdState k) (y := y) (f := fun p => p); auto.
          cbn. destruct Hsame as (E1 & E2 & E3 & E4 & E5 & E6 & E7). rewrite E4. auto.
        * injection Ha as <- <-. apply lin_step with (q := WrState x k) (y := y) (f := up_state x); auto.
          destruct Hsame as (E1 & E2 & E3 & E4 & E5 & E6 & E7). unfold same. cbn. rewrite E4. intuition congruence.
        * injection Ha as <- <-. right. apply (Hkeep y); auto.
          intros p2 F. rewrite <- Hx by auto. cbn. destruct F as (F1 & F2 & F3 & F4 & F5). rewrite F4. auto.
      + (* already effective *)
        destruct Htc as (_ & y0 & z & Hy0 & Hz & Hloc & Hx). assert (y0 = y) as -> by congruence. right. exists (Atomic P ctlA ord). split; [apply a_none|].
        assert (Hpp : local t q' /\ (exists y', p' = put_thread t y' p)).
        { destruct q; cbn in Hloc, Ha; try discriminate; try contradiction.
          - destruct Hloc as [-> Hl]. rewrite Hy in Ha. injection Ha as <- <-. split; auto. exists y. rewrite put_id; auto.
          - destruct Hloc as [-> Hl]. injection Ha as <- <-. split; auto. eauto. }
        destruct Hpp as [Hloc' [y' ->]]. split; [|split; [exact Hg|]].
        * cbn. apply same_sym, same_put, same_sym. auto.
        * intros t'. cbn. unfold set_ctl. destruct (t' =? t) eqn:Et'.
          -- apply Nat.eqb_eq in Et' as ->. rewrite EcA. cbn [tsim]. split; auto. exists y', z. split; [apply put_get; eapply slt; eauto|]. split; auto. split; auto.
             rewrite <- (exec_act _ _ _ _ Ha), Hx, put_put. auto.
          -- apply Nat.eqb_neq in Et'. eapply tsim_env; [apply Henv; exact Et'|reflexivity|apply Ht].
    - (* return *) right. destruct (Hi t c (Ret a) Hc) as (Et & y & Hy & _). cbn in *. subst t. set (t := call_thread c) in *.
      pose proof (Ht t) as Htc. rewrite Hc in Htc. destruct (ctlA t) as [[c'|a']|] eqn:EcA; [| |contradiction].
      + assert (c' = c) as -> by (destruct Htc; auto). pose proof (commit fuel o c _ p P Hsame Htc y Hy) as Hcom. fold t in Hcom. cbn [exec] in Hcom. apply of_res_some in Hcom.
        destruct Htc as (_ & _ & y0 & z & Hy0 & Hz & _).
        eexists. split; [eapply a_two; [apply as_commit; [exact EcA|exact Hcom]|apply as_ret with (t := t); unfold set_ph; fold t; apply set_ctl_eq]|].
        split; [cbn; apply same_put; auto|]. split; [eapply good_seq; [exact Hg|exact Hcom]|]. intros t'. cbn. unfold set_ctl, set_ph. fold t. destruct (t' =? t) eqn:Et'.
        * apply Nat.eqb_eq in Et' as ->. cbn [tsim]. rewrite Hy. symmetry. apply put_get. eapply slt; eauto.
        * apply Nat.eqb_neq in Et'. eapply tsim_env; [apply env_refl| |apply Ht]. apply put_get_ne; auto.
      + destruct Htc as (_ & y0 & z & Hy0 & Hz & _ & Hx). cbn in Hx. injection Hx as Hx <-. eexists. split; [apply a_one, as_ret; exact EcA|].
        split; [exact Hsame|]. split; [exact Hg|]. intros t'. cbn. unfold set_ctl, set_ph. destruct (t' =? t) eqn:Et'; [|apply Ht].
        apply Nat.eqb_eq in Et' as ->. cbn [tsim]. rewrite Hz, Hx. apply put_get. eapply slt; eauto.
  Qed.

  Lemma asteps_exec fuel o A0 h A l A' : aexec fuel o A0 h A -> asteps fuel o A l A' -> aexec fuel o A0 (h ++ match l with Some x => [x] | None => [] end) A'.
  Proof.
    intros He Hs. destruct Hs as [A|A l A' Hs|A A1 l A2 H1 H2].
    - rewrite app_nil_r. auto.
    - eapply ae_step; eauto.
    - eapply ae_step; [|eauto]. rewrite <- (app_nil_r h). apply (ae_step fuel o A0 None A h A1 He H1).
  Qed.
  Definition rest (p : propagator V Sym) : atomic V Sym := Atomic p (fun _ => None) [].
  Theorem sim_exec fuel o p h m : good p -> mexec fuel o (idle p) h m -> doomed m \/ exists A, aexec fuel o (rest p) h A /\ sim fuel o m A.
  Proof.
    intros Hg E. remember (idle p) as m0. induction E as [m|m1 l m2 ls m3 E IH Hs]; subst.
    - right. exists (rest p). split; [apply ae_refl|]. split; [cbn; unfold same; auto 10|]. split; auto. intros t. cbn. auto.
    - destruct (minv_exec _ _ _ _ _ E) as (I1 & _). destruct (IH eq_refl) as [D|(A & HA & Hsim)].
      + left. eapply doomed_step; eauto.
      + destruct (sim_step _ _ _ _ _ _ I1 Hsim Hs) as [D|(A' & HA' & Hsim')]; auto. right. exists A'. split; auto. eapply asteps_exec; eauto.
  Qed.
End proofs.
