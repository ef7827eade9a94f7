(** * C59: every clause is violated or tells clingo something new

    A call of propagate or check adds either one conflict clause, all of whose
    literals are false and one of which became false with this call, or
    clauses all of whose literals but the last are false while the last one is
    not true yet, or the unit clauses of global optimization.  So clingo can
    never go on as before after a clause. *)
From stdpp Require Import list_numbers.
From Verif Require Import Num Sums Tableau TableauProofs Bland Solver SolverBase SolverStep Simplex SimplexLoop Hist Updates Core CoreSolve Propagate Spec Prepare Propagator World ThreadOk WorldProofs Reach Observe ObserveProofs WeakReach Props_Solver Examples Props_Equality Props_Equality2 Props_Propagation.

(** ** Specification *)
(** all literals of the clause are false when the literals [held] are true *)
Definition violated (held : list Z) (c : list Z) : Prop := forall l, l ∈ c -> (- l)%Z ∈ held.
(** all literals but the last are false, the last one is the complement of
    [k] and clingo answered that [k] is not false *)
Definition forcing (h : host) (held : list Z) (log : list (list Z)) (c : list Z) : Prop :=
  exists ls k, c = ls ++ [(- k)%Z] /\ violated held ls /\ h_false h log k = false.
(** [new] is one conflict clause; one of its literals became false with this call *)
Definition conflict (before held : list Z) (new : list (list Z)) : Prop :=
  exists c, new = [c] /\ violated held c /\ exists l, l ∈ c /\ (- l)%Z ∉ before.
(** what holds of every clause of [new] and the clauses given to clingo before it *)
Definition each (P : list (list Z) -> list Z -> Prop) (log new : list (list Z)) : Prop :=
  forall n1 c n2, new = n1 ++ c :: n2 -> P (log ++ n1) c.

Section clauses.
  Context {V : Type} `{VL : ValueLaws V}.
  Implicit Types s : solver V.
  Notation clauses := (list (list Z)).

  Lemma each_nil (P : clauses -> list Z -> Prop) log : each P log [].
  Proof. intros n1 c n2 E. destruct n1; discriminate E. Qed.
  Lemma each_one (P : clauses -> list Z -> Prop) log c : P log c -> each P log [c].
  Proof. intros Hc n1 c' n2 E. destruct n1 as [|x n1]; [injection E as -> _; rewrite app_nil_r; exact Hc|]. injection E as _ E. destruct n1; discriminate E. Qed.
  Lemma each_app (P : clauses -> list Z -> Prop) log new new' : each P log new -> each P (log ++ new) new' -> each P log (new ++ new').
  Proof.
    intros A B n1 c n2 E. destruct (app_eq_inv _ _ _ _ E) as [(k & E1 & E2)|(k & E1 & E2)].
    - destruct k as [|x k]; cbn in E2.
      + rewrite app_nil_r in E1. subst n1. specialize (B [] c n2). rewrite app_nil_r in B. apply B. first [exact E2|symmetry; exact E2].
      + injection E2 as -> E2. apply (A n1 x k). exact E1.
    - subst n1. rewrite app_assoc. apply (B k c n2). exact E2.
  Qed.
  Lemma each_impl (P Q : clauses -> list Z -> Prop) log new : (forall l0 c, c ∈ new -> P l0 c -> Q l0 c) -> each P log new -> each Q log new.
  Proof. intros I A n1 c n2 E. apply I; [rewrite E; apply elem_of_app; right; left|apply (A n1 c n2 E)]. Qed.

  (** clauses are only derived for literals that are not false *)
  Definition asked (h : host) (log : clauses) (c : list Z) : Prop := exists ls k, c = ls ++ [(- k)%Z] /\ h_false h log k = false.
  Definition grows h (log log' : clauses) : Prop := exists new, log' = log ++ new /\ each (asked h) log new.
  Lemma grows_refl h log : grows h log log.
  Proof. exists []. rewrite app_nil_r. split; [reflexivity|apply each_nil]. Qed.
  Lemma grows_trans h l1 l2 l3 : grows h l1 l2 -> grows h l2 l3 -> grows h l1 l3.
  Proof. intros (n1 & -> & A) (n2 & -> & B). exists (n1 ++ n2). rewrite app_assoc. split; [reflexivity|]. apply each_app; assumption. Qed.
  Lemma prop_bounds_asked h test clause bs : forall s log s' log' ok, prop_bounds h test clause bs s log = (s', log', ok) -> grows h log log'.
  Proof.
    induction bs as [|b bs IH]; intros s log s' log' ok; cbn [prop_bounds]; [intros [= _ <- _]; apply grows_refl|].
    destruct (test b && negb (h_false h log (b_lit b))) eqn:Et; [|apply IH].
    apply andb_true_iff in Et as [_ Et]. apply negb_true_iff in Et.
    assert (G : grows h log (log ++ [clause ++ [(- b_lit b)%Z]])).
    { exists [clause ++ [(- b_lit b)%Z]]. split; [reflexivity|]. apply each_one. exists clause, (b_lit b). split; [reflexivity|exact Et]. }
    destruct (h_reply h _); [|intros [= _ <- _]; exact G]. intros E. eapply grows_trans; [exact G|]. eapply IH. exact E.
  Qed.
  Lemma prop_row_asked h i s log s' log' ok : prop_row h i s log = Ok (s', log', ok) -> grows h log log'.
  Proof.
    unfold prop_row. intros E. apply bind_ok in E as (v & _ & E). cbv zeta in E. apply bind_ok in E as ([lo up] & _ & E).
    destruct (negb up && negb lo); [injection E as _ <- _; apply grows_refl|].
    apply bind_ok in E as ([l u] & _ & E). apply bind_ok in E as (yi & _ & E). apply bind_ok in E as (y & _ & E).
    destruct (match u.1 with Some _ => _ | None => _ end) as [[s1 log1] ok1] eqn:E1.
    assert (G1 : grows h log log1) by (destruct (u.1); [eapply prop_bounds_asked; exact E1|injection E1 as _ <- _; apply grows_refl]).
    destruct ok1; cbn [negb] in E; [|injection E as _ <- _; exact G1].
    eapply grows_trans; [exact G1|]. destruct (l.1); [injection E as E; eapply prop_bounds_asked; exact E|injection E as _ <- _; apply grows_refl].
  Qed.
  Lemma prop_rows_asked h ch is : forall s log s' log' ok, prop_rows h ch is s log = Ok (s', log', ok) -> grows h log log'.
  Proof.
    induction is as [|i is IH]; intros s log s' log' ok; cbn [prop_rows]; [intros [= _ <- _]; apply grows_refl|].
    intros E. apply bind_ok in E as ([[s1 log1] ok1] & E1 & E). apply prop_row_asked in E1. destruct ok1; [|injection E as _ <- _; exact E1].
    eapply grows_trans; [exact E1|]. eapply IH; exact E.
  Qed.
  Lemma propagate_asked h o s log s' log' ok : propagate_ h o s log = Ok (s', log', ok) -> grows h log log'.
  Proof. unfold propagate_. destruct (o_pmode o); [intros [= _ <- _]; apply grows_refl|apply prop_rows_asked|apply prop_rows_asked]. Qed.

  Lemma refutes_new keep s0 fs s act c : Live keep s0 fs s -> refutes s0 (s_bounds s) act c -> violated act c /\ exists l, l ∈ c /\ (- l)%Z ∉ active fs.
  Proof.
    intros HL (bs & -> & Hb & Hr). split.
    - intros l Hl. apply elem_of_list_fmap in Hl as (b & -> & Hin). rewrite Z.opp_involutive. apply Hb; exact Hin.
    - destruct (decide (Forall (fun b => b_lit b ∈ active fs) bs)) as [F|F].
      + exfalso. apply (Hr (val s)).
        * apply (md_R _ _ _ _ (lv_M _ _ _ _ HL)). apply (j_rows _ (md_J _ _ _ _ (lv_M _ _ _ _ HL))).
        * intros b Hin. rewrite Forall_forall in F. eapply live_bsat; [exact HL|apply Hb; exact Hin|apply F; exact Hin].
      + apply not_Forall_Exists in F; [|intros b; apply _]. apply Exists_exists in F as (b & Hin & Hn). exists (- b_lit b)%Z. split.
        * apply elem_of_list_fmap. exists b. auto.
        * rewrite Z.opp_involutive. exact Hn.
  Qed.

  Lemma solve_clauses keep s0 fs s (a : asg) (o : options) h lits log fuel s' log' ok :
    Live keep s0 fs s -> top fs <= a_dl a -> (keep = true -> o_store o <> StorePartial) ->
    lv_ok a (enter (a_dl a) lits s fs) -> lsafe (a_dl a) (s_bounds s) (active (enter (a_dl a) lits s fs)) lits -> 4 ^ nv s <= fuel ->
    solve fuel h o a lits s log = Ok (s', log', ok) ->
    exists new, log' = log ++ new /\
      (ok = false /\ conflict (active fs) (active (enter (a_dl a) lits s fs)) new \/ each (forcing h (active (enter (a_dl a) lits s fs))) log new).
  Proof.
    intros HL Htop Hk Hlv Hsf Hfuel. unfold solve.
    destruct (solve_core_ok keep s0 fs s a o lits fuel HL Htop Hk Hlv Hsf Hfuel) as (s1 & ok1 & -> & Ep & Hfr & Hres). cbn [mbind res_bind].
    destruct ok1.
    - destruct (propagate_ok h o keep s0 (enter (a_dl a) lits s fs) s1 log Hres) as (s2 & log2 & ok2 & E2 & L2 & P2 & (new & -> & N2)).
      rewrite E2. intros [= <- <- <-]. exists new. split; [reflexivity|]. right. destruct (propagate_asked _ _ _ _ _ _ _ E2) as (new' & Eq & A).
      apply app_inv_head in Eq as <-. eapply each_impl; [|exact A]. intros l0 c Hc (ls & k & -> & Hf). destruct (N2 _ Hc) as (_ & ls' & x & Ec & Ha).
      apply app_inj_tail in Ec as [-> <-]. exists (map Z.opp ls'), k. split; [reflexivity|]. split; [|exact Hf].
      intros l Hl. apply elem_of_list_fmap in Hl as (y & -> & Hy). rewrite Z.opp_involutive. apply Ha; exact Hy.
    - destruct Hres as [_ Hr]. intros [= <- <- <-]. exists [s_clause s1]. split; [reflexivity|]. left. split; [reflexivity|].
      destruct (refutes_new _ _ _ _ _ _ HL Hr) as [A B]. exists (s_clause s1). auto.
  Qed.
End clauses.

Section calls.
  Context {V : Type} `{VL : ValueLaws V} {Sym : Type} `{EqDecision Sym}.
  Implicit Types (w : world V Sym) (sh : shot V Sym).

  (** ** Theorems *)
  (** The clauses [new] of a call of propagate: one conflict clause, after
      which clingo has to backtrack, or clauses that force a literal. *)
  Theorem C59_propagate_partial o sh w t h a lits w' : step_ok (V := V) o -> reach o sh w -> adm (EvPropagate t h a lits) w -> eq_safe (EvPropagate t h a lits) w ->
    step o (EvPropagate t h a lits) w w' ->
    exists new, w_log w' = w_log w ++ new /\
      (conflict (assigned w t) (assigned w' t) new /\ blocked w' t \/ each (forcing h (assigned w' t)) (w_log w) new).
  Proof.
    intros So Hr Ha Hsf Hs. destruct (reach_inv o sh w So Hr) as (s0s & new0 & facts0 & ass & I).
    destruct (step_big o _ w w' (4 ^ maxnv s0s) Hs) as (fuel & Hf & E).
    pose proof Ha as (Ht & Hblk & Htop & Hlv & Hll). destruct (get_view o sh s0s new0 facts0 ass w t I Ht) as (s0 & s & fs & E0 & VW).
    pose proof I as [R1 R2 R3 R4 R5 R6 R7 R7b R8 [I1 I2 I3 I4 I5 I6 I7 I8 I9 I10 I11]].
    destruct (vw_at _ _ _ _ _ _ _ _ VW) as (off & Es). destruct (I8 t _ s0 Es E0) as (fs1 & [T1 T2 T2b T3 T4 T5 T6]). rewrite Hblk in T2. cbn [fst snd] in *.
    rewrite <- T1, <- top_level in Htop. rewrite <- T1 in Hlv. apply levels_ok in Hlv.
    cbn [wstep] in E. apply bind_ok in E as ([[p log] ok] & E1 & E2). injection E2 as <-. unfold p_propagate in E1.
    apply bind_ok in E1 as ([off1 s1] & Ea & E1). apply bind_ok in E1 as ([[s2 log2] ok2] & E2 & E1). injection E1 as <- <- <-.
    assert (Es1 : s1 = s). { apply at_ok in Ea. destruct ((a_dl a =? 0) && (t =? 0)); cbn in Ea; congruence. } subst s1.
    destruct (solve_clauses (keep0 o) s0 fs1 s a o h lits (w_log w) fuel s2 log2 ok2 T2 Htop) as (new & -> & Hc); auto.
    { unfold keep0. destruct (o_store o); congruence. }
    { apply enter_lv; auto. }
    { eapply (safe_lsafe o (sh_iqs sh) (sh_obj sh) (p_vars (w_p w)) (sh_host sh)); eauto. apply VW. }
    { rewrite (vw_nv _ _ _ _ _ _ _ _ VW). etransitivity; [apply pow_le, maxnv_le; eapply elem_of_list_lookup_2; eauto|auto]. }
    exists new. split; [reflexivity|].
    assert (Ek : map entry_of (enter (a_dl a) lits s fs1) = deliver (a_dl a) lits (snaps (w_p w) t) (th_stk (thread_of w t))).
    { rewrite enter_deliver, T1. unfold snaps. rewrite Es. reflexivity. }
    set (w' := World _ _ _ _).
    assert (Eth : thread_of w' t = Thread (deliver (a_dl a) lits (snaps (w_p w) t) (th_stk (thread_of w t))) (blocks ok2 (deliver (a_dl a) lits (snaps (w_p w) t) (th_stk (thread_of w t))) (w_log w ++ new))).
    { unfold thread_of at 1. subst w'. cbn [w_th]. rewrite list_lookup_insert by exact Ht. reflexivity. }
    assert (Ht' : t < length (w_th w')) by (subst w'; cbn [w_th]; rewrite insert_length; exact Ht).
    unfold assigned, blocked. rewrite Eth. cbn [th_stk th_blk].
    rewrite <- Ek, <- active_held, <- T1, <- active_held. destruct Hc as [[-> Hc]|Hc]; [left|right; exact Hc]. split; [exact Hc|]. split; [exact Ht'|].
    destruct Hc as (c & -> & Hv & _). unfold blocks. rewrite last_snoc. cbn [negb andb]. unfold falsified. apply forallb_forall. intros l Hl. apply bool_decide_eq_true_2.
    rewrite <- active_held. apply Hv, elem_of_list_In, Hl.
  Qed.

  Lemma integrate_log (s : solver V) h o lit st log s' log' ok : integrate_objective h o lit st s log = Ok (s', log', ok) -> log' = log \/ log' = log ++ [[lit]] /\ o_global o <> None.
  Proof.
    unfold integrate_objective. destruct (o_global o) as [g|]; [|intros [= _ <- _]; auto]. destruct (os_value _ _) as [gen v].
    destruct v as [[v [|]]|]; [|intros [= _ <- _]; auto|intros [= _ <- _]; auto]. destruct (vstep g); [|discriminate]. unfold assert_bound. intros [= _ <- _]. right. split; [reflexivity|discriminate].
  Qed.
  Lemma discard_log (s : solver V) h o lit log s' log' ok : discard_bounded h o lit s log = Ok (s', log', ok) -> log' = log \/ log' = log ++ [[lit]] /\ o_global o <> None.
  Proof.
    unfold discard_bounded. destruct (o_global o) as [g|]; cbn [negb]; [|rewrite orb_true_r; cbn; intros [= _ <- _]; auto].
    destruct (_ || _); [intros [= _ <- _]; auto|]. intros E. apply bind_ok in E as (v & _ & E). unfold assert_bound in E. injection E as _ <- _. right. split; [reflexivity|discriminate].
  Qed.
  (** the unit clauses a call of check may add *)
  Definition units (o : options) (lit1 lit2 : Z) (us : list (list Z)) : Prop :=
    us = [] \/ o_global o <> None /\ (us = [[lit1]] \/ us = [[lit2]] \/ us = [[lit1]; [lit2]]).

  (** A call of check: either it adds one conflict clause and clingo has to
      backtrack, or clauses that force a literal, followed by at most two unit
      clauses of global optimization over the literals that were created
      during the call. *)
  Theorem C59_check_partial o sh w t h a total lit1 lit2 w' : step_ok (V := V) o -> reach o sh w -> adm (EvCheck t h a total lit1 lit2) w ->
    step o (EvCheck t h a total lit1 lit2) w w' ->
    exists new, w_log w' = w_log w ++ new /\
      (conflict (assigned w t) (assigned w' t) new /\ blocked w' t \/
       exists fs us, new = fs ++ us /\ each (forcing h (assigned w' t)) (w_log w) fs /\ units o lit1 lit2 us).
  Proof.
    intros So Hr Ha Hs. destruct (reach_inv o sh w So Hr) as (s0s & new0 & facts0 & ass & I).
    destruct (step_big o _ w w' (4 ^ maxnv s0s) Hs) as (fuel & Hf & E).
    pose proof Ha as (Ht & Hblk & Htop & Hlv & Hfl & Hfresh). destruct (get_view o sh s0s new0 facts0 ass w t I Ht) as (s0 & s & fs & E0 & VW).
    pose proof I as [R1 R2 R3 R4 R5 R6 R7 R7b R8 [I1 I2 I3 I4 I5 I6 I7 I8 I9 I10 I11]].
    destruct (vw_at _ _ _ _ _ _ _ _ VW) as (off & Es). destruct (I8 t _ s0 Es E0) as (fs1 & [T1 T2 T2b T3 T4 T5 T6]). rewrite Hblk in T2. cbn [fst snd] in *.
    rewrite <- T1, <- top_level in Htop. rewrite <- T1 in Hlv. apply levels_ok in Hlv.
    cbn [wstep] in E. apply bind_ok in E as ([off0 s1] & Ea & E). apply at_ok in Ea. rewrite Es in Ea. injection Ea as <- <-.
    apply bind_ok in E as ([[p log] ok] & E1 & E2). injection E2 as <-. unfold p_check in E1.
    apply bind_ok in E1 as ([off1 s1] & Ea & E1). apply at_ok in Ea. rewrite Es in Ea. injection Ea as <- <-.
    apply bind_ok in E1 as ([[[off2 s2] log2] ok2] & E2 & E1). injection E1 as <- <- <-.
    set (k := if (a_dl a =? 0) && (off <? p_foff (w_p w)) then deliver 0 (take (p_foff (w_p w)) (p_facts (w_p w))) (snaps (w_p w) t) (th_stk (thread_of w t)) else th_stk (thread_of w t)).
    set (w' := World _ _ _ _).
    assert (Eth : thread_of w' t = Thread k (blocks ok2 k log2)).
    { unfold thread_of at 1. subst w'. cbn [w_th]. rewrite list_lookup_insert by exact Ht. reflexivity. }
    assert (Ht' : t < length (w_th w')) by (subst w'; cbn [w_th]; rewrite insert_length; exact Ht).
    unfold assigned, blocked. rewrite Eth. cbn [th_stk th_blk]. change (w_log w') with log2. clearbody w'.
    unfold t_check in E2. apply bind_ok in E2 as ([[[off1 s1] log1] ok1] & EA & E2).
    assert (HA : exists new, log1 = w_log w ++ new /\ (ok1 = false /\ conflict (held (th_stk (thread_of w t))) (held k) new \/ each (forcing h (held k)) (w_log w) new)).
    { destruct (Nat.eqb_spec (a_dl a) 0) as [Ed|Ed], (Nat.ltb_spec off (p_foff (w_p w))) as [Ef|Ef]; cbn [andb] in EA, k;
        try (injection EA as <- <- <- <-; exists []; rewrite app_nil_r; split; [reflexivity|right; apply each_nil]).
      assert (off = 0) as -> by lia. apply bind_ok in EA as (u & _ & EA). rewrite drop_0 in EA. apply bind_ok in EA as ([[s3 log3] ok3] & EA & E3). injection E3 as <- <- <- <-.
      assert (Ek : map entry_of (enter (a_dl a) (take (p_foff (w_p w)) (p_facts (w_p w))) s fs1) = k).
      { rewrite enter_deliver, T1, Ed. subst k. unfold snaps. rewrite Es. reflexivity. }
      assert (Hft : forall l, l ∈ take (p_foff (w_p w)) (p_facts (w_p w)) -> a_level a l = a_dl a).
      { intros l Hl. rewrite Ed. apply Hfl. apply elem_of_take in Hl as (i & Hi & _). eapply elem_of_list_lookup_2; exact Hi. }
      destruct (solve_clauses (keep0 o) s0 fs1 s a o h (take (p_foff (w_p w)) (p_facts (w_p w))) (w_log w) fuel s3 log3 ok3 T2 Htop) as (new & -> & Hc); auto.
      { unfold keep0. destruct (o_store o); congruence. }
      { apply enter_lv; auto. }
      { intros b Hb Hl. left. exact Ed. }
      { rewrite (vw_nv _ _ _ _ _ _ _ _ VW). etransitivity; [apply pow_le, maxnv_le; eapply elem_of_list_lookup_2; eauto|auto]. }
      exists new. split; [reflexivity|]. rewrite <- Ek, <- active_held, <- T1, <- active_held. exact Hc. }
    clearbody k. destruct HA as (new & -> & Hc). destruct ok1; cbn [negb] in E2.
    - assert (Hfo : each (forcing h (held k)) (w_log w) new) by (destruct Hc as [[Hc _]|Hc]; [discriminate Hc|exact Hc]).
      apply bind_ok in E2 as ([[s3 log3] ok3] & E3 & E2). apply integrate_log in E3.
      assert (H4 : log2 = log3 \/ log2 = log3 ++ [[lit2]] /\ o_global o <> None).
      { destruct ok3; cbn [negb] in E2; [|injection E2 as _ _ <- _; auto]. destruct total; [|injection E2 as _ _ <- _; auto].
        apply bind_ok in E2 as (s4 & _ & E2). apply bind_ok in E2 as (s5 & _ & E2). apply bind_ok in E2 as ([[s6 log6] ok6] & E6 & E2). injection E2 as _ _ <- _.
        eapply discard_log; exact E6. }
      destruct E3 as [->|[-> Hg]], H4 as [->|[-> Hg']].
      + exists new. split; [reflexivity|]. right. exists new, []. rewrite app_nil_r. split; [reflexivity|]. split; [exact Hfo|left; reflexivity].
      + exists (new ++ [[lit2]]). rewrite app_assoc. split; [reflexivity|]. right. exists new, [[lit2]]. split; [reflexivity|]. split; [exact Hfo|right; auto].
      + exists (new ++ [[lit1]]). rewrite app_assoc. split; [reflexivity|]. right. exists new, [[lit1]]. split; [reflexivity|]. split; [exact Hfo|right; auto].
      + exists (new ++ [[lit1]; [lit2]]). rewrite <- !app_assoc. split; [reflexivity|]. right. exists new, [[lit1]; [lit2]]. split; [reflexivity|]. split; [exact Hfo|right; auto].
    - injection E2 as _ _ <- <-. exists new. split; [reflexivity|]. destruct Hc as [[_ Hc]|Hc].
      + left. split; [exact Hc|]. split; [exact Ht'|]. destruct Hc as (c & -> & Hv & _). unfold blocks. rewrite last_snoc. cbn [negb andb]. unfold falsified.
        apply forallb_forall. intros l Hl. apply bool_decide_eq_true_2. apply Hv, elem_of_list_In, Hl.
      + right. exists new, []. rewrite app_nil_r. split; [reflexivity|]. split; [exact Hc|left; reflexivity].
  Qed.
End calls.

(** ** Both kinds of clauses occur
    The literals 11 (x >= 3) and 31 (y >= 0) make 41 (x + y <= 2) impossible,
    which propagate says if it comes before 41 and reports as a conflict if 41
    is true already. *)
Definition cl_ev (lits : list Z) : event := EvPropagate 0 quiet (lev 1) lits.
Definition cl_test (o : options) (x : option (world Qc nat)) (lits : list Z) (c : list Z) : bool :=
  match x with
  | Some w =>
      match wstep 50 o (cl_ev lits) w with
      | Ok w' => admb (cl_ev lits) w && forallb (fun q => match q_rel q with Req => false | _ => true end) (p_iqs (w_p w)) && bool_decide (w_log w = []) && bool_decide (w_log w' = [c])
      | _ => false
      end
  | None => false
  end.
Lemma cl_test_spec o x lits c : cl_test o x lits c = true ->
  exists w w', x = Some w /\ adm (cl_ev lits) w /\ eq_safe (cl_ev lits) w /\ step o (cl_ev lits) w w' /\ w_log w = [] /\ w_log w' = [c].
Proof.
  unfold cl_test. destruct x as [w|]; [|intros T; discriminate T]. destruct (wstep _ _ _ _) as [w'| | |] eqn:E; try (intros T; discriminate T).
  rewrite !andb_true_iff. intros [[[T1 T2] T3] T4]. apply bool_decide_eq_true in T3, T4. apply admb_ok in T1. exists w, w'. split; [reflexivity|]. split; [exact T1|].
  split; [|split; [exists 50; exact E|auto]]. right. intros q q' c1 c2 x Hq _ _ _ R _ _ _ _. rewrite forallb_forall in T2. specialize (T2 q (proj1 (elem_of_list_In _ _) Hq)). rewrite R in T2. discriminate T2.
Qed.
Definition cl_iqs : list (ineq nat) := [Ineq [(qz 1, 0)] (qz 3) Rge 11; Ineq [(qz 1, 1)] (qz 0) Rge 31; Ineq [(qz 1, 0); (qz 1, 1)] (qz 2) Rle 41].
Notation cl_world evs := (any_world (bp_opts PropFull) 1 cl_iqs [] evs).
Lemma cl_forcing : cl_test (bp_opts PropFull) (cl_world []) [11%Z; 31%Z] [(-11)%Z; (-31)%Z; (-41)%Z] = true.
Proof. vm_compute. reflexivity. Qed.
Lemma cl_conflict : cl_test (bp_opts PropFull) (cl_world [cl_ev [41%Z]]) [11%Z; 31%Z] [(-41)%Z; (-11)%Z; (-31)%Z] = true.
Proof. vm_compute. reflexivity. Qed.

Theorem C59_example_forcing : exists w w', reach (bp_opts PropFull) (any_shot 1 cl_iqs []) w /\ adm (cl_ev [11%Z; 31%Z]) w /\ eq_safe (cl_ev [11%Z; 31%Z]) w /\
  step (bp_opts PropFull) (cl_ev [11%Z; 31%Z]) w w' /\ w_log w = [] /\ w_log w' = [[(-11)%Z; (-31)%Z; (-41)%Z]].
Proof.
  destruct (cl_test_spec _ _ _ _ cl_forcing) as (w & w' & Ew & A & B & C & D). exists w, w'. split; [exact (any_reach _ 1 cl_iqs [] _ w eq_refl Ew)|]. exact (conj A (conj B (conj C D))).
Qed.
Theorem C59_example_conflict : exists w w', reach (bp_opts PropFull) (any_shot 1 cl_iqs []) w /\ adm (cl_ev [11%Z; 31%Z]) w /\ eq_safe (cl_ev [11%Z; 31%Z]) w /\
  step (bp_opts PropFull) (cl_ev [11%Z; 31%Z]) w w' /\ w_log w = [] /\ w_log w' = [[(-41)%Z; (-11)%Z; (-31)%Z]].
Proof.
  destruct (cl_test_spec _ _ _ _ cl_conflict) as (w & w' & Ew & A & B & C & D). exists w, w'. split; [exact (any_reach _ 1 cl_iqs [] _ w eq_refl Ew)|]. exact (conj A (conj B (conj C D))).
Qed.

(** ** The equality bug
    11: x <= 5 and 21: y <= 5 on level 1, 12: x = 3 and 22: y = 3 on level 2;
    after backtracking to level 0 the solver still has the lower bounds x >= 5
    and y >= 5 with the literals 11 and 21.  The clause against 31: x + y <= -1
    then has two literals that are not false. *)
Definition iqs59 : list (ineq nat) :=
  [Ineq [(qz 1, 0)] (qz 5) Rle 11; Ineq [(qz 1, 1)] (qz 5) Rle 21; Ineq [(qz 1, 0)] (qz 3) Req 12; Ineq [(qz 1, 1)] (qz 3) Req 22; Ineq [(qz 1, 0); (qz 1, 1)] (qz (-1)) Rle 31].
Definition evs59 : list event := [ev_prop 0 1 [11%Z; 21%Z]; ev_prop 0 2 [12%Z; 22%Z]; EvUndo 0; EvUndo 0].
Definition w59 : world Qc nat := default dfq (world2 opts iqs59 [] evs59).
Lemma w59_ok : some (world2 opts iqs59 [] evs59) = true.
Proof. vm_compute. reflexivity. Qed.
Definition w59' : world Qc nat := default dfq (runb 50 opts [ev_prop 0 1 [31%Z]] w59).
Lemma w59'_ok : some (runb 50 opts [ev_prop 0 1 [31%Z]] w59) = true.
Proof. vm_compute. reflexivity. Qed.
Lemma w59_log : w_log w59 = [] /\ w_log w59' = [[(-31)%Z; (-11)%Z; (-21)%Z]] /\ assigned w59' 0 = [31%Z].
Proof. vm_compute. auto. Qed.
Theorem C59_refuted : exists o sh (w w' : world Qc nat) t h a lits, step_ok (V := Qc) o /\ reach_any o sh w /\ adm (EvPropagate t h a lits) w /\
  step o (EvPropagate t h a lits) w w' /\
  forall new, w_log w' = w_log w ++ new -> ~ (conflict (assigned w t) (assigned w' t) new \/ each (forcing h (assigned w' t)) (w_log w) new).
Proof.
  exists opts, (shot2 iqs59 []), w59, w59', 0, quiet, (lev 1), [31%Z].
  assert (R : adm (ev_prop 0 1 [31%Z]) w59 /\ step opts (ev_prop 0 1 [31%Z]) w59 w59') by (apply runb_one; exact (some_eq _ w59'_ok)).
  split; [intros g E; discriminate|]. split; [apply (any_of opts iqs59 [] evs59 w59); [vm_compute; reflexivity|vm_compute; reflexivity|exact (some_eq _ w59_ok)]|]. split; [apply R|]. split; [apply R|].
  clear R. destruct w59_log as (E1 & E2 & E3). rewrite E1, E2, E3. cbn [app]. intros new <-.
  assert (N : 11%Z ∈ [31%Z] -> False) by (intros N; apply elem_of_list_singleton in N; discriminate N).
  intros [(c & E & Hv & _)|Hf].
  - injection E as <-. apply N. apply (Hv (-11)%Z). right. left.
  - destruct (Hf [] _ [] eq_refl) as (ls & k & E & Hv & _). apply N. apply (Hv (-11)%Z).
    change [(-31)%Z; (-11)%Z; (-21)%Z] with ([(-31)%Z; (-11)%Z] ++ [(-21)%Z]) in E. apply app_inj_tail in E as [<- _]. right. left.
Qed.
