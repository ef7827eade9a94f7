(** * Reachable states satisfy the invariant *)

From Verif Require Import Num Sums Tableau TableauProofs Bland Solver SolverBase SolverStep Simplex SimplexLoop Hist Updates Core CoreSolve Propagate
  OptSelect Optimize Spec Eps Prepare Propagator World ThreadOk WorldProofs.

(** ** More fuel does not change a result *)
Section fuel.
  Context {V : Type} `{Value V} {Sym : Type} `{EqDecision Sym}.

  Definition rle {A} (m m' : res A) : Prop := m = Fuel \/ m = m'.
  Lemma rle_refl {A} (m : res A) : rle m m.
  Proof. right. auto. Qed.
  Lemma rle_bind {A B} (m m' : res A) (f f' : A -> res B) : rle m m' -> (forall a, rle (f a) (f' a)) -> rle (m ≫= f) (m' ≫= f').
  Proof. intros [-> | ->] Hf; [left; auto|]. destruct m'; cbn; try (apply rle_refl). apply Hf. Qed.
  Lemma rle_fuel {A} (m : res A) : rle Fuel m.
  Proof. left. auto. Qed.

  Lemma simplex_mono o l : forall f f' (s : solver V), f <= f' -> rle (simplex_loop f o l s) (simplex_loop f' o l s).
  Proof.
    induction f as [|f IH]; intros f' s Hf; [apply rle_fuel|]. destruct f' as [|f']; [lia|]. cbn [simplex_loop].
    apply rle_bind; [apply rle_refl|]. intros [r s1]. destruct r; try apply rle_refl. apply rle_bind; [apply rle_refl|]. intros s2. apply IH. lia.
  Qed.
  Lemma optimize_loop_mono o : forall f f' (s : solver V), f <= f' -> rle (optimize_loop f o s) (optimize_loop f' o s).
  Proof.
    induction f as [|f IH]; intros f' s Hf; [apply rle_fuel|]. destruct f' as [|f']; [lia|]. cbn [optimize_loop].
    apply rle_bind; [apply rle_refl|]. intros [s1 fin]. destruct fin; [apply rle_refl|]. apply IH. lia.
  Qed.
  Lemma optimize_mono o f f' (s : solver V) : f <= f' -> rle (optimize f o s) (optimize f' o s).
  Proof. intros Hf. unfold optimize. destruct (ob_active (s_obj s)); [apply optimize_loop_mono; auto|apply rle_refl]. Qed.
  Lemma solve_mono h o a lits f f' (s : solver V) log : f <= f' -> rle (solve f h o a lits s log) (solve f' h o a lits s log).
  Proof.
    intros Hf. unfold solve. apply rle_bind; [|intros [s1 ok]; apply rle_refl]. unfold solve_core. apply rle_bind; [apply rle_refl|].
    intros [s1 ok]. destruct (negb ok); [apply rle_refl|]. apply rle_bind; [apply simplex_mono; auto|]. intros [s2 ok2]. apply rle_refl.
  Qed.
  Lemma t_check_mono h o a total l1 l2 facts foff st off f f' (s : solver V) log : f <= f' ->
    rle (t_check f h o a total l1 l2 facts foff st off s log) (t_check f' h o a total l1 l2 facts foff st off s log).
  Proof.
    intros Hf. unfold t_check. apply rle_bind.
    - destruct ((a_dl a =? 0) && (off <? foff)); [|apply rle_refl]. apply rle_bind; [apply rle_refl|]. intros _. apply rle_bind; [apply solve_mono; auto|].
      intros [[s1 log1] ok1]. apply rle_refl.
    - intros [[[off1 s1] log1] ok1]. destruct (negb ok1); [apply rle_refl|]. apply rle_bind; [apply rle_refl|]. intros [[s2 log2] ok2].
      destruct (negb ok2); [apply rle_refl|]. destruct total; [|apply rle_refl]. apply rle_bind; [apply optimize_mono; auto|]. intros s3. apply rle_refl.
  Qed.
  Lemma wstep_le o e (w : world V Sym) f f' : f <= f' -> rle (wstep f o e w) (wstep f' o e w).
  Proof.
    intros Hf. destruct e as [t h a lits|t h a total l1 l2|t|t]; cbn [wstep]; try apply rle_refl.
    - apply rle_bind; [|intros [[p log] ok]; apply rle_refl]. unfold p_propagate. apply rle_bind; [apply rle_refl|]. intros [off s].
      apply rle_bind; [apply solve_mono; auto|]. intros [[s1 log1] ok1]. apply rle_refl.
    - apply rle_bind; [apply rle_refl|]. intros [off0 s0']. apply rle_bind; [|intros [[p log] ok]; apply rle_refl]. unfold p_check.
      apply rle_bind; [apply rle_refl|]. intros [off s]. apply rle_bind; [apply t_check_mono; auto|]. intros [[[off1 s1] log1] ok1]. apply rle_refl.
  Qed.
  Lemma wstep_mono o e (w : world V Sym) f f' : f <= f' -> forall w', wstep f o e w = Ok w' -> wstep f' o e w = Ok w'.
  Proof. intros Hf w' E. destruct (wstep_le o e w f f' Hf) as [C|C]; congruence. Qed.
End fuel.

(** ** init *)
Section init.
  Context {Sym : Type} `{EqDecision Sym}.

  Lemma gather_ok (ts : list (Qc * Sym)) : forall vs, NoDup vs -> NoDup (gather vs ts) /\ vs ⊆ gather vs ts /\ forall c x, (c, x) ∈ ts -> x ∈ gather vs ts.
  Proof.
    unfold gather. induction ts as [|[c0 x0] ts IH]; intros vs Hn; cbn [fold_left].
    - split; auto. split; auto. intros c x Hx. inversion Hx.
    - set (vs1 := match find_sym vs _ with Some _ => vs | None => _ end). cbn in vs1.
      assert (H1 : NoDup vs1 /\ vs ⊆ vs1 /\ x0 ∈ vs1).
      { subst vs1. destruct (find_sym vs x0) as [k|] eqn:E.
        - split; auto. split; auto. apply (find_sym_spec vs Hn) in E. eapply elem_of_list_lookup_2; eauto.
        - apply find_sym_none in E. split; [|split].
          + apply NoDup_app. split; auto. split; [|apply NoDup_singleton]. intros y Hy Hy'. apply elem_of_list_singleton in Hy' as ->. auto.
          + intros y Hy. apply elem_of_app; auto.
          + apply elem_of_app. right. left. }
      destruct H1 as (A & B & C). destruct (IH vs1 A) as (D & E & F). split; auto. split; [intros y Hy; auto|].
      intros c x Hx. apply elem_of_cons in Hx as [Hx|Hx]; [injection Hx as -> ->; auto|eauto].
  Qed.
  Lemma gathers_ok (qs : list (ineq Sym)) : forall vs, NoDup vs ->
    NoDup (fold_left (fun vs q => gather vs (q_lhs q)) qs vs) /\ vs ⊆ fold_left (fun vs q => gather vs (q_lhs q)) qs vs /\
    forall q c x, q ∈ qs -> (c, x) ∈ q_lhs q -> x ∈ fold_left (fun vs q => gather vs (q_lhs q)) qs vs.
  Proof.
    induction qs as [|q0 qs IH]; intros vs Hn; cbn [fold_left].
    - split; auto. split; auto. intros q c x Hq. inversion Hq.
    - destruct (gather_ok (q_lhs q0) vs Hn) as (A & B & C). destruct (IH (gather vs (q_lhs q0)) A) as (D & E & F).
      split; auto. split; [intros y Hy; auto|]. intros q c x Hq Hx. apply elem_of_cons in Hq as [->|Hq]; eauto.
  Qed.

  Context {V : Type} `{VL : ValueLaws V}.

  Lemma normal_okterms vs (ts : list (Qc * Sym)) : NoDup vs -> normal ts -> (forall c x, (c, x) ∈ ts -> x ∈ vs) -> okterms (find_sym vs) ts.
  Proof.
    intros Hn [A B] C. split; auto. intros c x Hx. split; [|eauto]. destruct (find_sym vs x) eqn:E; [eauto|]. apply find_sym_none in E. exfalso. eauto.
  Qed.

  (** the clauses handed over by init *)
  Definition init_clause (o : options) (qs : list (ineq Sym)) (c : list Z) : Prop :=
    unit_clause qs c \/ (o_pconf o = true /\ exists qa qb, qa ∈ qs /\ qb ∈ qs /\ c = [(- q_lit qa)%Z; (- q_lit qb)%Z] /\ clause_sound qs c).

  Lemma prep_threads_ok h o shuf vs qs obj : NoDup vs -> (forall q, q ∈ qs -> okterms (find_sym vs) (q_lhs q)) -> okterms (find_sym vs) obj ->
    (forall q, q ∈ qs -> representable (V := V) (q_rel q) /\ representable (V := V) (invert (q_rel q))) -> (forall i l, shuf i l ≡ₚ l) ->
    forall ids log, exists slvs log' ok, prep_threads (V := V) h o shuf vs qs obj ids log = Ok (slvs, log', ok) /\
      (ok = true -> length slvs = length ids /\ forall x, x ∈ slvs -> x.1 = 0 /\ prepared vs (find_sym vs) h o qs obj x.2) /\
      (exists new, log' = log ++ new /\ (forall c, c ∈ new -> init_clause o qs c) /\
        (ok = true -> 0 ∈ ids -> forall q, q ∈ qs -> q_lhs q = [] -> (forall log, h_false h log (q_lit q) = false) ->
           empty_row_clause (q_rel q) (q_rhs q) = true -> [(- q_lit q)%Z] ∈ new) /\
        (ok = true -> 0 ∈ ids -> o_pconf o = true -> static_complete (V := V) h qs new)).
  Proof.
    intros Hn Hq Ho Hr Hs ids. induction ids as [|i ids IH]; intros log; cbn [prep_threads].
    - eexists _, _, _. split; [reflexivity|]. split; [split; auto; intros x Hx; inversion Hx|]. exists []. rewrite app_nil_r. split; auto.
      split; [intros c Hc; inversion Hc|]. split; intros _ Hi; inversion Hi.
    - destruct (prepare_ok vs (find_sym vs) (find_sym_spec vs Hn) h o (shuf i) qs obj (i =? 0) log (Hs i) Hq Ho Hr) as (s & log1 & ok1 & -> & P & (n1 & -> & N1 & M1 & K1)).
      cbn [mbind res_bind]. destruct ok1; cbn [negb].
      2:{ eexists _, _, _. split; [reflexivity|]. split; [discriminate|]. exists n1. split; auto. split; [exact N1|split; discriminate]. }
      destruct (IH (log ++ n1)) as (slvs & log2 & ok2 & -> & Q & (n2 & -> & N2 & M2 & K2)). cbn [mbind res_bind].
      eexists _, _, _. split; [reflexivity|]. split.
      + intros Hok. destruct (Q Hok) as [Q1 Q2]. split; [cbn; auto|]. intros x Hx. apply elem_of_cons in Hx as [->|Hx]; auto.
      + exists (n1 ++ n2). rewrite app_assoc. split; auto. split.
        * intros c Hc. apply elem_of_app in Hc as [Hc|Hc]; auto. exact (N1 c Hc).
        * split; [intros Hok Hi q Hqin El Hf He; apply elem_of_app; apply elem_of_cons in Hi as [<-|Hi]; auto|].
          intros Hok Hi Hpc qa qb ca cb x Q1 Q2 Q3 Q4 Q5 Q6 Q7 Q8. rewrite !elem_of_app. apply elem_of_cons in Hi as [<-|Hi].
          -- destruct (K1 eq_refl eq_refl Hpc qa qb ca cb x Q1 Q2 Q3 Q4 Q5 Q6 Q7 Q8); auto.
          -- destruct (K2 Hok Hi Hpc qa qb ca cb x Q1 Q2 Q3 Q4 Q5 Q6 Q7 Q8); auto.
  Qed.

  Lemma p_init_ok o (sh : shot V Sym) p log : shot_ok sh -> NoDup (p_vars p) ->
    exists p' log' ok, p_init (sh_host sh) o (sh_sort sh) (sh_threads sh) (sh_iqs sh) (sh_obj sh) p log = Ok (p', log', ok) /\
      p_iqs p' = sh_iqs sh /\ p_obj p' = sh_obj sh /\ p_facts p' = p_facts p /\ p_foff p' = length (p_facts p) /\ p_state p' = os_reset /\
      NoDup (p_vars p') /\ p_vars p ⊆ p_vars p' /\
      (forall q, q ∈ sh_iqs sh -> okterms (find_sym (p_vars p')) (q_lhs q)) /\ okterms (find_sym (p_vars p')) (sh_obj sh) /\
      (ok = true -> length (p_slvs p') = sh_threads sh /\ forall x, x ∈ p_slvs p' -> x.1 = 0 /\ prepared (p_vars p') (find_sym (p_vars p')) (sh_host sh) o (sh_iqs sh) (sh_obj sh) x.2) /\
      (exists new, log' = log ++ new /\ (forall c, c ∈ new -> init_clause o (sh_iqs sh) c) /\
        (ok = true -> sh_threads sh <> 0 -> forall q, q ∈ sh_iqs sh -> q_lhs q = [] -> (forall log, h_false (sh_host sh) log (q_lit q) = false) ->
           empty_row_clause (q_rel q) (q_rhs q) = true -> [(- q_lit q)%Z] ∈ new) /\
        (ok = true -> sh_threads sh <> 0 -> o_pconf o = true -> static_complete (V := V) (sh_host sh) (sh_iqs sh) new)).
  Proof.
    intros [S1 S2 S3 S5] Hn. unfold p_init. set (vs := fold_left _ _ _).
    destruct (gather_ok (sh_obj sh) (p_vars p) Hn) as (A & B & C). destruct (gathers_ok (sh_iqs sh) _ A) as (D & E & F). fold vs in D, E, F.
    assert (Hq : forall q, q ∈ sh_iqs sh -> okterms (find_sym vs) (q_lhs q)) by (intros q Hq; apply normal_okterms; eauto).
    assert (Ho : okterms (find_sym vs) (sh_obj sh)) by (apply normal_okterms; eauto).
    destruct (prep_threads_ok (sh_host sh) o (sh_sort sh) vs (sh_iqs sh) (sh_obj sh) D Hq Ho S3 S5 (seq 0 (sh_threads sh)) log) as (slvs & log' & ok & -> & P & (new & -> & N & M & K)).
    cbn [mbind res_bind]. eexists _, _, _. split; [reflexivity|]. cbn [p_iqs p_obj p_facts p_foff p_state p_vars p_slvs].
    split; auto. split; auto. split; auto. split; auto. split; auto. split; auto. split; [intros x Hx; auto|]. split; auto. split; auto. split.
    - intros Hok. destruct (P Hok) as [P1 P2]. rewrite seq_length in P1. auto.
    - exists new. split; auto. split; auto. split; intros Hok Ht; [apply M|apply K]; auto; apply elem_of_list_In, in_seq; lia.
  Qed.
End init.

(** ** The invariant of sessions *)
Section reach.
  Context {V : Type} `{VL : ValueLaws V} {Sym : Type} `{EqDecision Sym}.
  Implicit Types w : world V Sym.
  Implicit Types sh : shot V Sym.

  (** the solvers at the beginning of the shot, the log and the facts after init *)
  Record RInv (o : options) sh (s0s : list (solver V)) (new0 : list (list Z)) (facts0 : list Z) (ass : list (Z * V)) w : Prop := {
    ri_nd : NoDup (p_vars (w_p w));
    ri_lhs : forall q, q ∈ sh_iqs sh -> okterms (find_sym (p_vars (w_p w))) (q_lhs q);
    ri_obj : okterms (find_sym (p_vars (w_p w))) (sh_obj sh);
    ri_prep : forall s0, s0 ∈ s0s -> prepared (p_vars (w_p w)) (find_sym (p_vars (w_p w))) (sh_host sh) o (sh_iqs sh) (sh_obj sh) s0;
    ri_threads : length s0s = sh_threads sh;
    ri_init : forall c, c ∈ new0 -> init_clause o (sh_iqs sh) c;
    ri_empty : sh_threads sh <> 0 -> forall q, q ∈ sh_iqs sh -> q_lhs q = [] -> (forall log, h_false (sh_host sh) log (q_lit q) = false) ->
           empty_row_clause (q_rel q) (q_rhs q) = true -> [(- q_lit q)%Z] ∈ new0;
    ri_static : sh_threads sh <> 0 -> o_pconf o = true -> static_complete (V := V) (sh_host sh) (sh_iqs sh) new0;
    ri_ok : shot_ok sh;
    ri_w : WInv o (sh_iqs sh) (sh_obj sh) (p_vars (w_p w)) s0s (sh_log sh ++ new0) facts0 ass w;
  }.

  Lemma start_ok o sh p log p' log' : shot_ok sh -> NoDup (p_vars p) -> sh_log sh = log ->
    p_init (sh_host sh) o (sh_sort sh) (sh_threads sh) (sh_iqs sh) (sh_obj sh) p log = Ok (p', log', true) ->
    exists s0s new0, RInv o sh s0s new0 (p_facts p) [] (start p' log').
  Proof.
    intros Hsh Hn El E. destruct (p_init_ok o sh p log Hsh Hn) as (p1 & log1 & ok1 & E' & A1 & A2 & A3 & A4 & A5 & A6 & A7 & A8 & A9 & A10 & (new & -> & N & M & K)).
    rewrite E' in E. injection E as -> <- ->. destruct (A10 eq_refl) as [B1 B2].
    exists (map snd (p_slvs p')), new. constructor; auto.
    - intros s0 Hs0. apply elem_of_list_fmap in Hs0 as (x & -> & Hx). apply B2; auto.
    - rewrite map_length. auto.
    - unfold start. constructor; cbn [w_p w_log w_th w_rep]; auto.
      + rewrite map_length. auto.
      + rewrite !map_length. auto.
      + exists []. rewrite app_nil_r. auto.
      + intros t x s0 Ex E0. rewrite list_lookup_fmap, Ex in E0. cbn in E0. injection E0 as <-.
        destruct (B2 x (elem_of_list_lookup_2 _ _ _ Ex)) as [Hx P]. exists [].
        unfold thread_of. cbn [w_th]. rewrite list_lookup_fmap, Ex. cbn [fmap option_fmap option_map default id].
        constructor; auto.
        * apply (pd_live _ _ _ _ _ _ _ P).
        * discriminate.
        * eapply prepared_TB; eauto.
        * destruct (pd_new _ _ _ _ _ _ _ P) as (-> & _). lia.
        * intros f Hf. inversion Hf.
      + intros s0 _. rewrite A5. intros Hg. cbn in Hg. congruence.
      + intros l v Hi. inversion Hi.
      + exists []. rewrite El, app_nil_r. split; auto. intros c Hc. inversion Hc.
  Qed.

  (** the bound on the number of iterations *)
  Fixpoint maxnv (l : list (solver V)) : nat := match l with [] => 0 | s :: r => Nat.max (nv s) (maxnv r) end.
  Lemma maxnv_le l s : s ∈ l -> nv s <= maxnv l.
  Proof. induction 1; cbn; lia. Qed.
  Lemma pow_le n m : n <= m -> 4 ^ n <= 4 ^ m.
  Proof. intros Hl. apply Nat.pow_le_mono_r; lia. Qed.

  Lemma vars_kept o e w fuel w' : wstep fuel o e w = Ok w' -> p_vars (w_p w') = p_vars (w_p w).
  Proof.
    destruct e as [t h a lits|t h a total l1 l2|t|t]; cbn [wstep]; intros E.
    - apply bind_ok in E as ([[p log] ok] & E1 & E2). injection E2 as <-. cbn. unfold p_propagate in E1.
      apply bind_ok in E1 as ([off s] & _ & E1). apply bind_ok in E1 as ([[s1 log1] ok1] & _ & E1). injection E1 as <- _ _. cbn. destruct (_ && _); auto.
    - apply bind_ok in E as ([off0 s0] & _ & E). apply bind_ok in E as ([[p log] ok] & E1 & E2). injection E2 as <-. cbn. unfold p_check in E1.
      apply bind_ok in E1 as ([off s] & _ & E1). apply bind_ok in E1 as ([[[off1 s1] log1] ok1] & _ & E1). injection E1 as <- _ _. auto.
    - apply bind_ok in E as (p & E1 & E2). injection E2 as <-. cbn. unfold p_undo in E1. apply bind_ok in E1 as ([off s] & _ & E1). apply bind_ok in E1 as (s1 & _ & E1).
      injection E1 as <-. auto.
    - apply bind_ok in E as (v & _ & E). apply bind_ok in E as (p & E1 & E2). injection E2 as <-. cbn. unfold p_on_model in E1. destruct (o_global o).
      + apply bind_ok in E1 as ([off s] & _ & E1). apply bind_ok in E1 as (v1 & _ & E1). destruct v1; injection E1 as <-; auto.
      + injection E1 as <-. auto.
  Qed.

  (** every admissible callback returns normally and keeps the invariant; the
      number of iterations of its loops is bounded *)
  Theorem step_progress o sh s0s new0 facts0 ass w e fuel : RInv o sh s0s new0 facts0 ass w -> step_ok (V := V) o -> adm e w -> eq_safe e w -> 4 ^ maxnv s0s <= fuel ->
    exists w' ass', wstep fuel o e w = Ok w' /\ RInv o sh s0s new0 facts0 (ass ++ ass') w' /\ forall l v, (l, v) ∈ ass' -> l ∈ ev_lits e.
  Proof.
    intros [R1 R2 R3 R4 R5 R6 R7 R7b R8 RW] So Ha Hsf Hf.
    assert (Hfuel : forall s0, s0 ∈ s0s -> 4 ^ nv s0 <= fuel) by (intros s0 Hs; etransitivity; [apply pow_le, maxnv_le; eauto|auto]).
    assert (D : exists w' ass', wstep fuel o e w = Ok w' /\ WInv o (sh_iqs sh) (sh_obj sh) (p_vars (w_p w)) s0s (sh_log sh ++ new0) facts0 (ass ++ ass') w' /\ forall l v, (l, v) ∈ ass' -> l ∈ ev_lits e).
    { assert (Hnil : forall l (v : V), (l, v) ∈ [] -> l ∈ ev_lits e) by (intros l v Hl; inversion Hl). destruct e as [t h a lits|t h a total l1 l2|t|t].
      - destruct (step_propagate o (sh_iqs sh) (sh_obj sh) (p_vars (w_p w)) (sh_host sh) R2 R3 s0s (sh_log sh ++ new0) facts0 R4 fuel Hfuel ass w t h a lits RW Ha Hsf) as (w' & E & I).
        exists w', []. rewrite app_nil_r. auto.
      - destruct (step_check o (sh_iqs sh) (sh_obj sh) (p_vars (w_p w)) (sh_host sh) R2 R3 s0s (sh_log sh ++ new0) facts0 R4 So fuel Hfuel ass w t h a total l1 l2 RW Ha) as (w' & ass' & E & I & _ & _ & L).
        exists w', ass'. split; auto. split; auto. intros l v Hl. cbn. destruct (L l v Hl) as [-> | ->]; [left|right; left].
      - destruct (step_undo o (sh_iqs sh) (sh_obj sh) (p_vars (w_p w)) s0s (sh_log sh ++ new0) facts0 fuel ass w t RW Ha) as (w' & E & I & _).
        exists w', []. rewrite app_nil_r. auto.
      - destruct (step_model o (sh_iqs sh) (sh_obj sh) (p_vars (w_p w)) (sh_host sh) s0s (sh_log sh ++ new0) facts0 R4 fuel ass w t RW Ha) as (w' & E & I).
        exists w', []. rewrite app_nil_r. auto. }
    destruct D as (w' & ass' & E & I & L). exists w', ass'. split; auto. split; auto. pose proof (vars_kept o e w fuel w' E) as Ev.
    constructor; rewrite ?Ev; auto.
  Qed.

  Theorem reach_inv o sh w : step_ok (V := V) o -> reach o sh w -> exists s0s new0 facts0 ass, RInv o sh s0s new0 facts0 ass w.
  Proof.
    intros So Hr. induction Hr as [sh p log Hsh El E|sh0 w0 sh p log Hr IH Hsh El E|sh w e w' Hr IH Ha Hsf (fuel & E)].
    - destruct (start_ok o sh new_propagator [] p log) as (s0s & new0 & R); [auto|constructor|auto|auto|]. eauto 10.
    - destruct IH as (s0s' & new0' & facts0' & ass' & I). destruct (start_ok o sh (w_p w0) (w_log w0) p log) as (s0s & new0 & R); eauto 10. apply (ri_nd _ _ _ _ _ _ _ I).
    - destruct IH as (s0s & new0 & facts0 & ass & I). set (f := Nat.max fuel (4 ^ maxnv s0s)).
      destruct (step_progress o sh s0s new0 facts0 ass w e f I So Ha Hsf) as (w1 & ass1 & E1 & I1 & _); [subst f; lia|].
      rewrite (wstep_mono o e w fuel f ltac:(subst f; lia) w' E) in E1. injection E1 as <-. eauto 10.
  Qed.
End reach.
