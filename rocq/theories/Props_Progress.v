(** * C41, C42: global optimization makes progress and ends with the optimum *)

From Verif Require Import Num Sums Tableau TableauProofs Bland Solver SolverBase SolverStep Simplex SimplexLoop Hist Updates Core CoreSolve Propagate
  OptSelect Weak WeakHist Optimize Spec Eps Prepare Propagator World ThreadOk WorldProofs Reach WeakReach Observe ObserveProofs Props_Solver Props_Decision Props_Global Progress Examples.

(** ** The hypotheses of C41 are met: two threads, two improving reports *)
Section decide.
  Context {V : Type} `{Value V} {Sym : Type} `{EqDecision Sym}.
  (** a callback other than on_model, or an accepting check followed by
      callbacks on other threads and the report *)
  Inductive item := Plain (e : event) | Report (t : nat) (h : host) (a : asg) (l1 l2 : Z) (oth : list event).
  Definition sb (fuel : nat) (o : options) (e : event) (w : world V Sym) : option (world V Sym) :=
    if admb e w && safeb e w then match wstep fuel o e w with Ok w1 => Some w1 | _ => None end else None.
  Lemma sb_ok fuel o e w w' : sb fuel o e w = Some w' -> adm e w /\ eq_safe e w /\ step o e w w'.
  Proof.
    unfold sb. destruct (admb e w && safeb e w) eqn:Ea; [|discriminate]. apply andb_true_iff in Ea as [A B]. destruct (wstep fuel o e w) as [w1| | |] eqn:E1; try discriminate.
    intros [= <-]. split; [apply admb_ok; auto|]. split; [apply safeb_ok; auto|]. exists fuel. auto.
  Qed.
  Fixpoint mruns (fuel : nat) (o : options) (t : nat) (oth : list event) (w : world V Sym) : option (world V Sym) :=
    match oth with
    | [] => Some w
    | e :: r => if negb (ev_thread e =? t) && negb (is_model e) then w1 ← sb fuel o e w; mruns fuel o t r w1 else None
    end.
  Lemma mruns_ok fuel o t oth : forall pre w0 w w', meanwhile o t pre w0 w -> mruns fuel o t oth w = Some w' -> meanwhile o t (pre ++ oth) w0 w'.
  Proof.
    induction oth as [|e r IH]; intros pre w0 w w' Hm; cbn [mruns]; [intros [= <-]; rewrite app_nil_r; auto|].
    destruct (_ && _) eqn:Ec; [|discriminate]. apply andb_true_iff in Ec as [C1 C2]. apply negb_true_iff in C1, C2. apply Nat.eqb_neq in C1.
    destruct (sb fuel o e w) as [w1|] eqn:E1; cbn; [|discriminate]. apply sb_ok in E1 as (A & B & C). intros E. rewrite cons_middle, app_assoc. eapply IH; [|exact E]. eapply mw_step; eauto.
  Qed.
  Definition ostep (fuel : nat) (o : options) (i : item) (x : list event * world V Sym) : option (list event * world V Sym) :=
    match i with
    | Plain e => if is_model e then None else w1 ← sb fuel o e x.2; Some (x.1 ++ [e], w1)
    | Report t h a l1 l2 oth =>
        w1 ← sb fuel o (EvCheck t h a true l1 l2) x.2;
        if bool_decide (w_log w1 = w_log x.2) && (t <? length (w_th w1)) && negb (th_blk (thread_of w1 t)) && forallb (fun l => negb (bool_decide ([l] ∈ w_log x.2)) || bool_decide (l ∈ assigned w1 t)) (fresh t x.1)
        then w2 ← mruns fuel o t oth w1; w3 ← sb fuel o (EvModel t) w2; Some (((x.1 ++ [EvCheck t h a true l1 l2]) ++ oth) ++ [EvModel t], w3) else None
    end.
  Lemma ostep_ok fuel o i sh evs w evs' w' : orderly o sh evs w -> ostep fuel o i (evs, w) = Some (evs', w') -> orderly o sh evs' w'.
  Proof.
    intros Ho. destruct i as [e|t h a l1 l2 oth]; cbn [ostep fst snd].
    - destruct (is_model e) eqn:Em; [discriminate|]. destruct (sb fuel o e w) as [w1|] eqn:E1; cbn; [|discriminate]. intros [= <- <-]. apply sb_ok in E1 as (A & B & C). eapply ord_step; eauto.
    - destruct (sb fuel o _ w) as [w1|] eqn:E1; cbn [mbind option_bind]; [|discriminate]. destruct (_ && _) eqn:Ec; [|discriminate]. rewrite !andb_true_iff, negb_true_iff in Ec. destruct Ec as (((C1 & C2) & C3) & C4).
      destruct (mruns fuel o t oth w1) as [w2|] eqn:E2; cbn [mbind option_bind]; [|discriminate]. destruct (sb fuel o _ w2) as [w3|] eqn:E3; cbn; [|discriminate]. intros [= <- <-].
      apply sb_ok in E1 as (A1 & B1 & D1), E3 as (A3 & B3 & D3). apply bool_decide_eq_true in C1. apply Nat.ltb_lt in C2. eapply ord_model; [exact Ho|exact A1|exact D1|exact C1|split; auto| | |exact A3|exact D3].
      + intros l Hl Hu. rewrite forallb_forall in C4. specialize (C4 l (proj1 (elem_of_list_In _ _) Hl)). rewrite bool_decide_eq_true_2 in C4 by auto. apply bool_decide_eq_true in C4. auto.
      + apply (mruns_ok fuel o t oth [] w1 w1 w2); auto. constructor.
  Qed.
  Definition oruns (fuel : nat) (o : options) (is : list item) (x : list event * world V Sym) : option (list event * world V Sym) :=
    fold_left (fun r i => x ← r; ostep fuel o i x) is (Some x).
  Lemma oruns_ok fuel o is sh : forall evs w evs' w', orderly o sh evs w -> oruns fuel o is (evs, w) = Some (evs', w') -> orderly o sh evs' w'.
  Proof.
    unfold oruns. induction is as [|i is IH]; intros evs w evs' w' Ho; cbn [fold_left]; [intros [= <- <-]; auto|]. cbn [mbind option_bind].
    destruct (ostep fuel o i (evs, w)) as [[evs1 w1]|] eqn:E1.
    - apply IH. eapply ostep_ok; eauto.
    - intros E. exfalso. clear -E. induction is as [|i' is IH]; cbn in E; [discriminate|auto].
  Qed.
End decide.

(** maximize x; literal 11: x <= 2, 21: x <= 5, 31: x <= 9 *)
Definition pg_opts : options := Options SelectNone StoreNo (Some (mkRatQ 1%Qc 0%Qc)) PropFull true.
Definition pg_iqs : list (ineq nat) := [Ineq [(qz 1, 0)] (qz 2) Rle 11; Ineq [(qz 1, 0)] (qz 5) Rle 21; Ineq [(qz 1, 0)] (qz 9) Rle 31].
Definition pg_items : list item :=
  [ Plain (ev_prop 0 1 [11%Z]); Report 0 quiet (lev 1) 901 911 [ev_prop 1 1 [21%Z]];   (* thread 0: 2 *)
    Plain (ev_check 1 1 true 921 931);                                                 (* thread 1 learns 2, asserts x >= 3 by 921 *)
    Plain (ev_prop 1 1 [921%Z]); Report 1 quiet (lev 1) 941 951 [];                    (* thread 1: 5 *)
    Plain (EvUndo 0); Plain (ev_check 0 0 false 961 971);                              (* thread 0 learns 5, asserts x >= 6 by 961 *)
    Plain (ev_prop 0 1 [31%Z; 961%Z]); Report 0 quiet (lev 1) 981 991 [] ].            (* thread 0: 9 *)
Definition pg_run : option (list event * world Qc nat) :=
  match p_init quiet pg_opts (fun _ l => l) 2 pg_iqs [(qz 1, 0)] new_propagator [] with Ok (p, log, true) => oruns 50 pg_opts pg_items ([], start p log) | _ => None end.
Definition repb (xs : list (Qc * bool)) (vs : list Z) : bool := bool_decide (length xs = length vs) && forallb (fun p => Qc_eq_bool p.1.1 (qz p.2) && p.1.2) (zip xs vs).
Lemma repb_ok vs : forall xs, repb xs vs = true -> xs = map (fun z => (qz z, true)) vs.
Proof.
  unfold repb. induction vs as [|z vs IH]; intros [|[x b] xs] E; rewrite ?andb_true_iff in E; destruct E as [E1 E2]; apply bool_decide_eq_true in E1; try discriminate; auto.
  cbn in E2. rewrite !andb_true_iff in E2. destruct E2 as [[E2 ->] E3]. apply Qc_eq_bool_correct in E2 as ->. cbn. f_equal. apply IH. rewrite andb_true_iff. split; [apply bool_decide_eq_true_2; cbn in E1; lia|exact E3].
Qed.
Lemma pg_ok : match pg_run with Some (_, w) => repb (w_rep w) [2%Z; 5%Z; 9%Z] && bool_decide (w_log w = [[921%Z]; [961%Z]; [(-961)%Z; (-11)%Z]; [(-961)%Z; (-21)%Z]]) | None => false end = true.
Proof. vm_compute. reflexivity. Qed.
Example C41_used : exists evs w, orderly pg_opts (any_shot 2 pg_iqs [(qz 1, 0)]) evs w /\ w_rep w = [(qz 2, true); (qz 5, true); (qz 9, true)] /\
  o_global pg_opts = Some (mkRatQ 1%Qc 0%Qc) /\ vstep (V := Qc) (mkRatQ 1%Qc 0%Qc) = Some 1%Qc.
Proof.
  pose proof pg_ok as E. unfold pg_run in E. destruct (p_init _ _ _ _ _ _ _ _) as [[[p log] [|]]| | |] eqn:Ei; try discriminate E.
  destruct (oruns _ _ _ _) as [[evs w]|] eqn:Eo; [|discriminate E]. apply andb_true_iff in E as [E1 _]. exists evs, w. split; [|split; [exact (repb_ok _ _ E1)|split; reflexivity]].
  apply (oruns_ok 50 pg_opts pg_items _ [] (start p log) evs w); [|exact Eo]. apply ord_start. apply hist_first; [|reflexivity|exact Ei].
  clear. constructor; cbn.
  - intros q Hq. apply normalb_ok. revert q Hq. apply Forall_forall. repeat constructor.
  - apply normalb_ok. reflexivity.
  - intros q Hq. assert (E : q_rel q = Rle). { revert q Hq. apply Forall_forall. repeat constructor. } rewrite E. split; apply representable_Qc; cbn; auto.
  - auto.
Qed.

(** ** C42: what an exhausted search means *)
Section exhausted.
  Context {V : Type} `{VL : ValueLaws V} {Sym : Type} `{EqDecision Sym}.
  Implicit Types w : world V Sym.
  Implicit Types sh : shot V Sym.

  (** the literals add_literal returned in this shot, on any thread *)
  Definition new_lits (evs : list event) : list Z := concat (map ev_lits evs).

  (** the asserted literals are among them *)
  Lemma history_inv o sh evs w : step_ok (V := V) o -> history o sh evs w ->
    exists s0s new0 facts0 ass, RInv o sh s0s new0 facts0 ass w /\ forall l v, (l, v) ∈ ass -> l ∈ new_lits evs.
  Proof.
    intros So Hr. induction Hr as [sh p log Hsh El E|sh0 w0 sh p log Hr Hsh El E|sh evs w e w' Hr IH Ha Hsf (fuel & E)].
    - destruct (start_ok o sh new_propagator [] p log) as (s0s & new0 & R); [auto|constructor|auto|auto|]. exists s0s, new0, (p_facts (new_propagator (V := V) (Sym := Sym))), []. split; auto. intros l v Hl. inversion Hl.
    - destruct (reach_inv o sh0 w0 So Hr) as (s0s' & new0' & facts0' & ass' & I). destruct (start_ok o sh (w_p w0) (w_log w0) p log Hsh (ri_nd _ _ _ _ _ _ _ I) El E) as (s0s & new0 & R).
      exists s0s, new0, (p_facts (w_p w0)), []. split; auto. intros l v Hl. inversion Hl.
    - destruct IH as (s0s & new0 & facts0 & ass & I & Hl). set (f := Nat.max fuel (4 ^ maxnv s0s)).
      destruct (step_progress o sh s0s new0 facts0 ass w e f I So Ha Hsf) as (w1 & ass1 & E1 & I1 & Hl1); [subst f; lia|].
      rewrite (wstep_mono o e w fuel f ltac:(subst f; lia) w' E) in E1. injection E1 as <-. exists s0s, new0, facts0, (ass ++ ass1). split; auto.
      intros l v Hin. unfold new_lits. rewrite map_app, concat_app. apply elem_of_app. apply elem_of_app in Hin as [Hin|Hin]; [left; eapply Hl; eauto|right]. cbn. rewrite app_nil_r. eapply Hl1; eauto.
  Qed.

  (** a total truth assignment (there is no literal 0) *)
  Definition assignment (tr : Z -> Prop) : Prop := (forall l, tr l \/ tr (- l)%Z) /\ forall l, l <> 0%Z -> ~ (tr l /\ tr (- l)%Z).
  (** literals returned by add_literal are positive and new *)
  Definition new_ok (evs : list event) sh : Prop := forall l, l ∈ new_lits evs -> (0 < l)%Z /\ forall q, q ∈ sh_iqs sh -> q_lit q <> l /\ q_lit q <> (- l)%Z.
  (** [P] does not speak about them *)
  Definition ignores (evs : list event) (P : (Z -> Prop) -> Prop) : Prop := forall tr tr' : Z -> Prop,
    (forall l, l ∉ new_lits evs -> (- l)%Z ∉ new_lits evs -> (tr l <-> tr' l)) -> P tr -> P tr'.
  (** clingo has found that no total assignment of the program (minus the
      models reported, plus clauses of earlier shots) satisfies the clauses *)
  Definition exhausted (P : (Z -> Prop) -> Prop) sh w : Prop := forall tr, assignment tr -> P tr -> ~ forall c, c ∈ w_log w -> c ∉ sh_log sh -> clause_true tr c.

  Definition with_new (evs : list event) (tr : Z -> Prop) (l : Z) : Prop := l ∈ new_lits evs \/ (l ∉ new_lits evs /\ (- l)%Z ∉ new_lits evs /\ tr l).
  Lemma with_new_ok evs sh tr : new_ok evs sh -> assignment tr -> assignment (with_new evs tr).
  Proof.
    intros Hn [T C]. unfold with_new. split.
    - intros l. rewrite Z.opp_involutive. destruct (decide (l ∈ new_lits evs)); [auto|]. destruct (decide ((- l)%Z ∈ new_lits evs)); [auto|]. destruct (T l); [left|right]; right; auto.
    - intros l Hl0. rewrite Z.opp_involutive. intros [[H1|(H1 & H2 & H3)] [H4|(H4 & H5 & H6)]]; try contradiction.
      + apply Hn in H1, H4. lia.
      + apply (C l Hl0). auto.
  Qed.
  Lemma with_new_lit evs sh tr q : new_ok evs sh -> q ∈ sh_iqs sh -> with_new evs tr (q_lit q) -> tr (q_lit q).
  Proof. intros Hn Hq [H1|(_ & _ & H1)]; auto. exfalso. apply Hn in H1 as [_ H1]. destruct (H1 q Hq) as [H2 _]. congruence. Qed.

  (** no clause of the shot is violated by an assignment of the program that
      admits a solution satisfying the asserted bounds *)
  Lemma exhausted_no o sh evs w P : step_ok (V := V) o -> history o sh evs w -> plain sh -> new_ok evs sh -> ignores evs P -> exhausted P sh w ->
    exists vs : list V, (forall v, v ∈ vs -> asserted_ok o (w_rep w) v) /\
      forall tr (A : Sym -> Qc), assignment tr -> P tr -> (forall q, q ∈ sh_iqs sh -> tr (q_lit q) -> holds A q) -> ~ (forall v, v ∈ vs -> vle v (vofq (lin A (sh_obj sh)))).
  Proof.
    intros So Hh Hp Hn Hi Hx. destruct (history_inv o sh evs w So Hh) as (s0s & new0 & facts0 & ass & I & Hl).
    assert (Ha : forall l v, (l, v) ∈ ass -> [l] ∈ w_log w /\ asserted_ok o (w_rep w) v).
    { intros l v Hin. destruct (wi_ass _ _ _ _ _ _ _ _ _ (ri_w _ _ _ _ _ _ _ I) l v Hin). split; auto using justified_asserted. }
    exists (map snd ass). split. { intros v Hv. apply elem_of_list_fmap in Hv as ([l v'] & -> & Hin). apply (Ha l v' Hin). }
    intros tr A Ht HP HA HB. apply (Hx (with_new evs tr) (with_new_ok evs sh tr Hn Ht)).
    { apply (Hi tr); auto. intros l L1 L2. unfold with_new. split; [intros Hl'; right; auto|intros [Hl'|(_ & _ & Hl')]; [contradiction|auto]]. }
    intros c Hc Hsh. assert (Hs : clause_sound_obj (sh_iqs sh) (sh_obj sh) ass c \/ exists l v, (l, v) ∈ ass /\ c = [l]).
    { destruct (wi_log _ _ _ _ _ _ _ _ _ (ri_w _ _ _ _ _ _ _ I)) as (new & E & Hnw). rewrite E in Hc. apply elem_of_app in Hc as [Hc|Hc]; auto.
      apply elem_of_app in Hc as [Hc|Hc]; [contradiction|]. left. apply (ri_init _ _ _ _ _ _ _ I) in Hc. apply (init_clause_sound o) in Hc; auto.
      destruct Hc as (bad & -> & Hs & Hu). exists (map inl bad). split; [rewrite map_map; auto|]. split.
      + intros g Hg. apply elem_of_list_fmap in Hg as (q & -> & Hq). auto.
      + intros (A' & HA'). apply Hu. exists A'. intros q Hq. apply (HA' (inl q)). apply elem_of_list_fmap. eauto. }
    destruct Hs as [Hs|(l & v & Hin & ->)].
    - eapply clause_sound_obj_true; [exact Hs|apply (with_new_ok evs sh tr Hn Ht)| |].
      + intros q Hq Hq'. apply HA; auto. eapply with_new_lit; eauto.
      + intros l v Hin. apply HB. apply elem_of_list_fmap. exists (l, v). auto.
    - exists l. split; [left|]. left. eapply Hl; eauto.
  Qed.

  (** the best value reported cannot be improved by the step; if nothing was
      reported there is no solution at all *)
  Theorem C42_optimum_when_exhausted_partial o sh evs w P g d : step_ok (V := V) o -> history o sh evs w -> plain sh -> new_ok evs sh -> ignores evs P -> exhausted P sh w ->
    o_global o = Some g -> vstep g = Some d -> (forall u, (u, false) ∉ w_rep w) ->
    forall tr (A : Sym -> Qc), assignment tr -> P tr -> (forall q, q ∈ sh_iqs sh -> tr (q_lit q) -> holds A q) ->
    exists best, (best, true) ∈ w_rep w /\ vlt (vofq (lin A (sh_obj sh))) (vadd best d).
  Proof.
    intros So Hh Hp Hn Hi Hx Eg Ed Hu tr A Ht HP HA.
    destruct (decide (Exists (fun x => vlt (vofq (lin A (sh_obj sh))) (vadd x.1 d)) (w_rep w))) as [He|He].
    - apply Exists_exists in He as ([v b] & Hv & Hlt). exists v. cbn in Hlt. split; auto. destruct b; auto. exfalso. eapply Hu; eauto.
    - exfalso. destruct (exhausted_no o sh evs w P So Hh Hp Hn Hi Hx) as (vs & Hvs & Hno). apply (Hno tr A Ht HP HA). intros v Hv. destruct (Hvs v Hv) as [(b & g' & d' & Hb & Eg' & Ed' & ->)|(_ & u & Hux)]; [|exfalso; eapply Hu; eauto].
      assert (d' = d) as -> by congruence. apply vnot_lt. intros Hlt. apply He, Exists_exists. exists (b, true). auto.
  Qed.
  (** no assignment of the program with an unbounded objective is left *)
  Theorem C42_no_unbounded_when_exhausted_partial o sh evs w P : step_ok (V := V) o -> history o sh evs w -> plain sh -> new_ok evs sh -> ignores evs P -> exhausted P sh w ->
    forall tr, assignment tr -> P tr -> ~ forall M : Qc, exists A : Sym -> Qc, (forall q, q ∈ sh_iqs sh -> tr (q_lit q) -> holds A q) /\ (M < lin A (sh_obj sh))%Qc.
  Proof.
    intros So Hh Hp Hn Hi Hx tr Ht HP HM. destruct (exhausted_no o sh evs w P So Hh Hp Hn Hi Hx) as (vs & _ & Hno).
    assert (HB : exists M : Qc, forall v, v ∈ vs -> ((vemb v).1 <= M)%Qc).
    { clear. induction vs as [|v vs (M & HM)].
      - exists 0%Qc. intros v Hi. inversion Hi.
      - destruct (Qclt_le_dec M (vemb v).1) as [Hc|Hc].
        + exists (vemb v).1. intros v' Hi. apply elem_of_cons in Hi as [-> |Hi]; [apply Qcle_refl|]. specialize (HM v' Hi). qclra.
        + exists M. intros v' Hi. apply elem_of_cons in Hi as [-> |Hi]; auto. }
    destruct HB as (M & HB). destruct (HM M) as (A & HA & HMA). apply (Hno tr A Ht HP HA). intros v Hi'. specialize (HB v Hi').
    apply vlt_le, vlt_emb. rewrite vemb_ofq. left. cbn. qclra.
  Qed.
  (** without global optimization: an exhausted search means that no model of
      the program (not reported before) has a solution *)
  Theorem C42_no_solution_when_exhausted_partial o sh evs w P : step_ok (V := V) o -> history o sh evs w -> plain sh -> new_ok evs sh -> ignores evs P -> exhausted P sh w ->
    o_global o = None \/ w_rep w = [] -> forall tr, assignment tr -> P tr -> ~ exists A : Sym -> Qc, forall q, q ∈ sh_iqs sh -> tr (q_lit q) -> holds A q.
  Proof.
    intros So Hh Hp Hn Hi Hx Hg tr Ht HP (A & HA). destruct (exhausted_no o sh evs w P So Hh Hp Hn Hi Hx) as (vs & Hvs & Hno). apply (Hno tr A Ht HP HA).
    intros v Hv. exfalso. destruct (Hvs v Hv) as [(b & g & d & Hb & Eg & _)|(Eg & u & Hu)]; destruct Hg as [Hg|Hg]; try congruence; rewrite Hg in *; [inversion Hb|inversion Hu].
  Qed.
End exhausted.

(** The session above continues: thread 0 learns 9 and asserts x >= 10 by 1001;
    the clauses then exclude each of 11, 21, 31.  Program: at least one of them. *)
Definition pg_items2 : list item := pg_items ++ [Plain (EvUndo 0); Plain (ev_check 0 0 false 1001 1011); Plain (ev_prop 0 1 [1001%Z])].
Definition pg_run2 : option (list event * world Qc nat) :=
  match p_init quiet pg_opts (fun _ l => l) 2 pg_iqs [(qz 1, 0)] new_propagator [] with Ok (p, log, true) => oruns 50 pg_opts pg_items2 ([], start p log) | _ => None end.
Definition pg_P (tr : Z -> Prop) : Prop := tr 11%Z \/ tr 21%Z \/ tr 31%Z.
Definition pg_clauses : list (list Z) := [[1001%Z]; [(-1001)%Z; (-11)%Z]; [(-1001)%Z; (-21)%Z]; [(-1001)%Z; (-31)%Z]].
Definition pg_new : list Z := [901%Z; 911%Z; 921%Z; 931%Z; 941%Z; 951%Z; 961%Z; 971%Z; 981%Z; 991%Z; 1001%Z; 1011%Z].
Lemma pg_ok2 : match pg_run2 with Some (evs, w) => repb (w_rep w) [2%Z; 5%Z; 9%Z] && forallb (fun c => bool_decide (c ∈ w_log w)) pg_clauses && bool_decide (concat (map ev_lits evs) = pg_new) | None => false end = true.
Proof. vm_compute. reflexivity. Qed.
Lemma pg_exhausted (w : world Qc nat) : forallb (fun c => bool_decide (c ∈ w_log w)) pg_clauses = true -> exhausted pg_P (any_shot 2 pg_iqs [(qz 1, 0)]) w.
Proof.
  intros Hc tr [_ C] HP Hall. rewrite forallb_forall in Hc.
  assert (K : forall c, c ∈ pg_clauses -> clause_true tr c). { intros c Hi. apply Hall; [|cbn; intros Hn; inversion Hn]. specialize (Hc c (proj1 (elem_of_list_In _ _) Hi)). apply bool_decide_eq_true in Hc. auto. }
  assert (T : tr 1001%Z). { destruct (K [1001%Z] ltac:(left)) as (l & Hl & T). apply elem_of_list_singleton in Hl as ->. auto. }
  assert (N : forall l, [(-1001)%Z; (- l)%Z] ∈ pg_clauses -> tr (- l)%Z).
  { intros l Hi. destruct (K _ Hi) as (l' & Hl & T'). apply elem_of_cons in Hl as [-> |Hl]; [|apply elem_of_list_singleton in Hl as ->; auto]. exfalso. apply (C 1001%Z); [discriminate|]. split; [exact T|exact T']. }
  destruct HP as [H1|[H1|H1]].
  - apply (C 11%Z); [discriminate|]. split; auto. apply N. right. left.
  - apply (C 21%Z); [discriminate|]. split; auto. apply N. right. right. left.
  - apply (C 31%Z); [discriminate|]. split; auto. apply N. right. right. right. left.
Qed.
Lemma pg_shot_ok : shot_ok (any_shot 2 pg_iqs [(qz 1, 0)]).
Proof.
  constructor; cbn.
  - intros q Hq. apply normalb_ok. revert q Hq. apply Forall_forall. repeat constructor.
  - apply normalb_ok. reflexivity.
  - intros q Hq. assert (E : q_rel q = Rle). { revert q Hq. apply Forall_forall. repeat constructor. } rewrite E. split; apply representable_Qc; cbn; auto.
  - auto.
Qed.
Example C42_used : exists evs w, let sh := any_shot 2 pg_iqs [(qz 1, 0)] in history pg_opts sh evs w /\ plain sh /\ new_ok evs sh /\ ignores evs pg_P /\ exhausted pg_P sh w /\
  w_rep w = [(qz 2, true); (qz 5, true); (qz 9, true)] /\ exists tr, assignment tr /\ pg_P tr.
Proof.
  pose proof pg_ok2 as E. unfold pg_run2 in E. destruct (p_init _ _ _ _ _ _ _ _) as [[[p log] [|]]| | |] eqn:Ei; try discriminate E.
  destruct (oruns _ _ _ _) as [[evs w]|] eqn:Eo; [|discriminate E]. rewrite !andb_true_iff in E. destruct E as [[E1 E2] E3]. apply bool_decide_eq_true in E3.
  assert (Hn : forall l, l ∈ new_lits evs -> l ∈ pg_new) by (intros l Hl; rewrite <- E3; exact Hl).
  exists evs, w. split; [|split; [|split; [|split; [|split; [exact (pg_exhausted w E2)|split; [exact (repb_ok _ _ E1)|]]]]]].
  - apply orderly_history. apply (oruns_ok 50 pg_opts pg_items2 _ [] (start p log) evs w); [|exact Eo]. apply ord_start. apply hist_first; [exact pg_shot_ok|reflexivity|exact Ei].
  - clear. intros q Hq. assert (E : q_lhs q <> []). { revert q Hq. apply Forall_forall. repeat constructor; discriminate. } intros El. contradiction.
  - clear -Hn. intros l Hl. apply Hn in Hl. assert (Hl' : (900 < l)%Z). { revert l Hl. apply Forall_forall. repeat constructor. } split; [lia|].
    assert (Hq : forall q, q ∈ pg_iqs -> (0 < q_lit q < 100)%Z). { apply Forall_forall. repeat constructor. } intros q Hin. specialize (Hq q Hin). lia.
  - clear -Hn. intros tr tr' Hs HP. assert (K : forall l, (0 < l < 100)%Z -> tr l -> tr' l).
    { intros l Hl. apply Hs; intros Hi; apply Hn in Hi; assert (Hp : forall k, k ∈ pg_new -> (900 < k)%Z) by (apply Forall_forall; repeat constructor); apply Hp in Hi; lia. }
    destruct HP as [H1|[H1|H1]]; [left|right; left|right; right]; (apply K; [lia|exact H1]).
  - exists (fun l => (0 <= l)%Z). split; [split|left; lia]; intros l; lia.
Qed.
