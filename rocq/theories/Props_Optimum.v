(** * C56: what the answers of a finished search say about the program

    Sessions of Props_EndToEnd.v, followed until clingo has exhausted the
    search space.  A run [search] records the answers: the truth assignment
    clingo had found and the objective value reported for it.  Composition of
    C41 and C42 with C48: from the text of the program to the list of answers. *)

From Verif Require Import Num Solver Spec Eps Propagator World WorldProofs Reach WeakReach Observe Parsing ParseSpec ParseNum ParseProofs ParseSum ParseTheory ParseAtoms ParsePrograms ParseSyntax.
From Verif Require Import Props_Parsing Api Examples Props_Solver Props_Decision Props_Global Progress Props_Progress Props_Program Grammar Props_Grammar Props_EndToEnd Lifecycle Props_Lifecycle.

Notation holds_in tr := (fun x : Z => tr x = true).

(** ** Meaning only depends on the truth of program literals *)
Section same.
  Context (m : Z -> Z).
  (** the two assignments agree on the literals of the program *)
  Definition same_model (tr tr' : Z -> bool) : Prop := forall c, tr (m c) = tr' (m c).
  Lemma sum_means_same A (T T' : Z -> Prop) es x : (forall c, T c <-> T' c) -> sum_means A T es x -> sum_means A T' es x.
  Proof.
    intros HT. induction 1 as [|t cond cid es x y Hc Hm _ IH|t cond cid es x y Hc Hn Hm _ IH].
    - apply su_nil.
    - apply su_in; [destruct Hc as [Hc|Hc]; [left; exact Hc|right; apply HT; exact Hc]|exact Hm|exact IH].
    - apply (su_out _ _ t cond cid es x y Hc); [intros Hc'; apply Hn, HT, Hc'|exact Hm|exact IH].
  Qed.
  Lemma atom_true_same A (T T' : Z -> Prop) a : (forall c, T c <-> T' c) -> atom_true A T a -> atom_true A T' a.
  Proof.
    intros HT [a' r g R x y H1 H2 H3 H4 H5 H6|a' r g R s t cid x y z H1 H2 H3 H4 H5 H6 H7 H8|a' r g v l u cid x y H1 H2 H3 H4 H5 H6 H7].
    - exact (at_sum _ _ a' r g R x y H1 H2 H3 (sum_means_same _ _ _ _ _ HT H4) H5 H6).
    - exact (at_diff _ _ a' r g R s t cid x y z H1 H2 H3 H4 H5 H6 H7 H8).
    - exact (at_dom _ _ a' r g v l u cid x y H1 H2 H3 H4 H5 H6 H7).
  Qed.
  Lemma objective_means_same A (T T' : Z -> Prop) l y : (forall c, T c <-> T' c) -> objective_means A T l y -> objective_means A T' l y.
  Proof.
    intros HT. induction 1 as [|a l x y H1 H2 _ IH|a l x y H1 H2 _ IH|a l y H1 H2 _ IH].
    - apply ob_nil.
    - exact (ob_max _ _ a l x y H1 (sum_means_same _ _ _ _ _ HT H2) IH).
    - exact (ob_min _ _ a l x y H1 (sum_means_same _ _ _ _ _ HT H2) IH).
    - exact (ob_other _ _ a l y H1 H2 IH).
  Qed.
  Lemma same_tru tr tr' c : same_model tr tr' -> (tru m tr c <-> tru m tr' c).
  Proof. intros Hs. unfold tru. rewrite (Hs c). reflexivity. Qed.
  Lemma solves_same A tr tr' l : same_model tr tr' -> solves m A tr l -> solves m A tr' l.
  Proof.
    intros Hs H a Ha Hc Ht. rewrite <- (Hs (ta_lit a)) in Ht. exact (atom_true_same A _ _ a (fun c => same_tru tr tr' c Hs) (H a Ha Hc Ht)).
  Qed.
End same.

Section optimum.
  Context {V : Type} `{VL : ValueLaws V} (th : theory) (m : Z -> Z) (bk : backend).
  Implicit Types w : world V symbol.
  Implicit Types sh : shot V symbol.
  Notation opts := (rg_options (clingolpx_register th)).

  (** callbacks on threads other than [t], none of which reports a model *)
  Inductive others (t : nat) : list event -> world V symbol -> world V symbol -> Prop :=
    | ot_refl w : others t [] w w
    | ot_step evs w1 w2 e w3 : others t evs w1 w2 -> ev_thread e <> t -> is_model e = false -> adm e w2 -> step opts e w2 w3 -> others t (evs ++ [e]) w1 w3.

  (** an answer: the assignment of clingo and the objective (value, whether bounded) *)
  Definition answer : Type := (Z -> bool) * option (V * bool).

  (** [search P l sh evs w ans]: the program [l] is being solved; [evs] are the
      callbacks since init, [ans] the answers so far.  An answer of thread [t]
      follows a check of [t] on a total assignment that added no clause; the
      assignment is one the program [P] allows.  With global optimization, the
      unit clauses that assert a bound have reached the thread by then. *)
  Inductive search (P : (Z -> Prop) -> Prop) (l : list tatom) : shot V symbol -> list event -> world V symbol -> list answer -> Prop :=
    | sr_first sh p log : regular th m bk l sh -> sh_log sh = [] ->
        p_init (sh_host sh) opts (sh_sort sh) (sh_threads sh) (sh_iqs sh) (sh_obj sh) new_propagator [] = Ok (p, log, true) -> search P l sh [] (start p log) []
    | sr_next l0 sh0 w0 sh p log : session th m bk l0 sh0 w0 -> regular th m bk l sh -> sh_log sh = w_log w0 ->
        p_init (sh_host sh) opts (sh_sort sh) (sh_threads sh) (sh_iqs sh) (sh_obj sh) (w_p w0) (w_log w0) = Ok (p, log, true) -> search P l sh [] (start p log) []
    | sr_step sh evs w ans e w' : search P l sh evs w ans -> is_model e = false -> adm e w -> step opts e w w' -> search P l sh (evs ++ [e]) w' ans
    | sr_model sh evs w ans t h a l1 l2 w1 oth w2 w3 tr obj : search P l sh evs w ans ->
        adm (EvCheck t h a true l1 l2) w -> step opts (EvCheck t h a true l1 l2) w w1 -> w_log w1 = w_log w -> accepted w1 t ->
        assignment_of m sh w1 t tr -> P (holds_in tr) -> (o_global opts <> None -> delivered t evs w w1) ->
        others t oth w1 w2 -> p_get_objective (w_p w2) t = Ok obj -> adm (EvModel t) w2 -> step opts (EvModel t) w2 w3 ->
        search P l sh (((evs ++ [EvCheck t h a true l1 l2]) ++ oth) ++ [EvModel t]) w3 (ans ++ [(tr, obj)]).

  (** clingo has found that every assignment the program allows is either one
      of the answers or violates a clause of the propagator *)
  Definition finished (P : (Z -> Prop) -> Prop) sh w (ans : list answer) : Prop := forall tr : Z -> Prop, assignment tr -> P tr ->
    (forall x, x ∈ ans -> ~ forall c, tr (m c) <-> x.1 (m c) = true) -> ~ forall c, c ∈ w_log w -> c ∉ sh_log sh -> clause_true tr c.
  (** the literals add_literal returned are positive and none of the program *)
  Definition auxiliary (evs : list event) : Prop := forall x, x ∈ new_lits evs -> (0 < x)%Z /\ forall c, m c <> x /\ m c <> (- x)%Z.

  (** the answers are assignments the program allows and for which the theory
      atoms have a solution; every other assignment the program allows has none *)
  Definition enumerates (P : (Z -> Prop) -> Prop) (l : list tatom) (ans : list answer) : Prop :=
    (forall x, x ∈ ans -> P (holds_in x.1) /\ exists A, solves m A x.1 l) /\
    forall tr, assignment (holds_in tr) -> consistent m tr -> P (holds_in tr) -> (forall x, x ∈ ans -> ~ same_model m tr x.1) -> ~ exists A, solves m A tr l.
  (** no answer: no assignment has a solution.  Otherwise the last answer is
      optimal: if its value is marked bounded, it is the value of a solution (for
      every small enough epsilon) and no solution of any assignment the program
      allows is better by the step [d]; if it is marked unbounded, it has
      solutions beyond every number *)
  Definition optimizes (P : (Z -> Prop) -> Prop) (l : list tatom) (d : V) (ans : list answer) : Prop :=
    (ans = [] -> forall tr, assignment (holds_in tr) -> consistent m tr -> P (holds_in tr) -> ~ exists A, solves m A tr l) /\
    (forall before tr obj, ans = before ++ [(tr, obj)] -> exists v b, obj = Some (v, b) /\ P (holds_in tr) /\
      (b = true ->
        (exists e0, (0 < e0)%Qc /\ forall e, (0 < e)%Qc -> (e <= e0)%Qc -> exists A, solves m A tr l /\ objective_means A (tru m tr) l (inst e v)) /\
        forall tr' A y, assignment (holds_in tr') -> consistent m tr' -> P (holds_in tr') -> solves m A tr' l -> objective_means A (tru m tr') l y ->
          vle (vofq y) v \/ vlt (vofq y) (vadd v d)) /\
      (b = false -> forall M : Qc, exists A y, solves m A tr l /\ objective_means A (tru m tr) l y /\ (M < y)%Qc)).

  (** nothing optimal is missing: an assignment the program allows that is not
      among the answers has no solution that reaches the value of the last answer
      plus the step, and its objective is bounded *)
  Definition complete (P : (Z -> Prop) -> Prop) (l : list tatom) (d : V) (ans : list answer) : Prop :=
    forall tr, assignment (holds_in tr) -> consistent m tr -> P (holds_in tr) -> (forall x, x ∈ ans -> ~ same_model m tr x.1) ->
      (forall before tr1 v, ans = before ++ [(tr1, Some (v, true))] -> forall A y, solves m A tr l -> objective_means A (tru m tr) l y -> vlt (vofq y) (vadd v d)) /\
      ~ forall M : Qc, exists A y, solves m A tr l /\ objective_means A (tru m tr) l y /\ (M < y)%Qc.

  Context (Hshot : forall l sh, regular th m bk l sh -> shot_ok sh) (Hstep : step_ok (V := V) opts).

  Lemma others_session t evs w1 w2 l sh : others t evs w1 w2 -> session th m bk l sh w1 -> session th m bk l sh w2.
  Proof. induction 1 as [|evs w1 w2 e w3 _ IH _ _ Ha Hs]; intros S; [exact S|]. exact (se_step _ _ _ _ _ _ e _ (IH S) Ha Hs). Qed.
  Lemma others_meanwhile t evs w1 w2 l sh : others t evs w1 w2 -> session th m bk l sh w1 -> meanwhile opts t evs w1 w2.
  Proof.
    induction 1 as [|evs w1 w2 e w3 Ho IH Ht Hm Ha Hs]; intros S; [apply mw_refl|].
    apply (mw_step opts t evs w1 w2 e w3 (IH S) Ht Hm Ha); [|exact Hs]. exact (session_safe th m bk Hshot Hstep l sh w2 e (others_session _ _ _ _ _ _ Ho S)).
  Qed.
  Lemma search_session P l sh evs w ans : search P l sh evs w ans -> session th m bk l sh w.
  Proof.
    induction 1 as [sh p log R Hl E|l0 sh0 w0 sh p log S R Hl E|sh evs w ans e w' _ IH _ Ha Hs|sh evs w ans t h a l1 l2 w1 oth w2 w3 tr obj _ IH Ha Hs Hl Hac Has HP Hd Ho Hob Ham Hsm].
    - apply se_first; assumption.
    - exact (se_next _ _ _ _ _ _ _ _ _ _ S R Hl E).
    - exact (se_step _ _ _ _ _ _ e _ IH Ha Hs).
    - pose proof (se_step _ _ _ _ _ _ _ _ IH Ha Hs) as S1. pose proof (others_session _ _ _ _ _ _ Ho S1) as S2. exact (se_step _ _ _ _ _ _ _ _ S2 Ham Hsm).
  Qed.
  Lemma search_history P l sh evs w ans : search P l sh evs w ans -> history opts sh evs w.
  Proof.
    induction 1 as [sh p log R Hl E|l0 sh0 w0 sh p log S R Hl E|sh evs w ans e w' S IH _ Ha Hs|sh evs w ans t h a l1 l2 w1 oth w2 w3 tr obj S IH Ha Hs Hl Hac Has HP Hd Ho Hob Ham Hsm].
    - exact (hist_first opts sh p log (Hshot _ _ R) Hl E).
    - exact (hist_next opts sh0 w0 sh p log (session_reach th m bk Hshot Hstep _ _ _ S) (Hshot _ _ R) Hl E).
    - exact (hist_step opts sh evs w e w' IH Ha (session_safe th m bk Hshot Hstep l sh w e (search_session _ _ _ _ _ _ S)) Hs).
    - pose proof (search_session _ _ _ _ _ _ S) as S0. pose proof (se_step _ _ _ _ _ _ _ _ S0 Ha Hs) as S1.
      pose proof (hist_step opts sh evs w _ w1 IH Ha (session_safe th m bk Hshot Hstep l sh w _ S0) Hs) as H1.
      pose proof (meanwhile_history opts t oth w1 w2 sh _ (others_meanwhile t oth w1 w2 l sh Ho S1) H1) as H2.
      exact (hist_step opts sh _ w2 _ w3 H2 Ham Logic.I Hsm).
  Qed.
  Lemma search_orderly P l sh evs w ans : o_global opts <> None -> search P l sh evs w ans -> orderly opts sh evs w.
  Proof.
    intros Hg. induction 1 as [sh p log R Hl E|l0 sh0 w0 sh p log S R Hl E|sh evs w ans e w' S IH Hm Ha Hs|sh evs w ans t h a l1 l2 w1 oth w2 w3 tr obj S IH Ha Hs Hl Hac Has HP Hd Ho Hob Ham Hsm].
    - apply ord_start. exact (hist_first opts sh p log (Hshot _ _ R) Hl E).
    - apply ord_start. exact (hist_next opts sh0 w0 sh p log (session_reach th m bk Hshot Hstep _ _ _ S) (Hshot _ _ R) Hl E).
    - exact (ord_step opts sh evs w e w' IH Hm Ha (session_safe th m bk Hshot Hstep l sh w e (search_session _ _ _ _ _ _ S)) Hs).
    - pose proof (se_step _ _ _ _ _ _ _ _ (search_session _ _ _ _ _ _ S) Ha Hs) as S1.
      exact (ord_model opts sh evs w t h a l1 l2 w1 oth w2 w3 IH Ha Hs Hl Hac (Hd Hg) (others_meanwhile t oth w1 w2 l sh Ho S1) Ham Hsm).
  Qed.
  (** the values of the answers are the values reported *)
  Lemma search_reports P l sh evs w ans : search P l sh evs w ans -> w_rep w = omap snd ans.
  Proof.
    induction 1 as [sh p log R Hl E|l0 sh0 w0 sh p log S R Hl E|sh evs w ans e w' S IH Hm Ha Hs|sh evs w ans t h a l1 l2 w1 oth w2 w3 tr obj S IH Ha Hs Hl Hac Has HP Hd Ho Hob Ham Hsm].
    - reflexivity.
    - reflexivity.
    - rewrite (no_model_rep opts e w w' Hm Hs). exact IH.
    - pose proof (se_step _ _ _ _ _ _ _ _ (search_session _ _ _ _ _ _ S) Ha Hs) as S1.
      destruct (meanwhile_same opts t oth w1 w2 (others_meanwhile t oth w1 w2 l sh Ho S1)) as [R2 _].
      pose proof (no_model_rep opts (EvCheck t h a true l1 l2) w w1 eq_refl Hs) as R1. destruct (model_step opts t w2 w3 Hsm) as (v & Ev & ->).
      rewrite Hob in Ev. injection Ev as <-. rewrite omap_app, R2, R1, IH. destruct obj as [x|]; [reflexivity|]. cbn. rewrite app_nil_r. reflexivity.
  Qed.
  (** what is known about each answer *)
  Definition sound_answer (P : (Z -> Prop) -> Prop) (l : list tatom) sh (x : answer) : Prop :=
    P (holds_in x.1) /\ consistent m x.1 /\ (exists A, solves m A x.1 l) /\
    (sh_obj sh <> [] -> exists v b, x.2 = Some (v, b) /\
      (b = true -> (forall A y, solves m A x.1 l -> objective_means A (tru m x.1) l y -> vle (vofq y) v) /\
         exists e0, (0 < e0)%Qc /\ forall e, (0 < e)%Qc -> (e <= e0)%Qc -> exists A, solves m A x.1 l /\ objective_means A (tru m x.1) l (inst e v)) /\
      (b = false -> forall M : Qc, exists A y, solves m A x.1 l /\ objective_means A (tru m x.1) l y /\ (M < y)%Qc)).
  Lemma search_sound P l sh evs w ans : search P l sh evs w ans -> Forall (sound_answer P l sh) ans.
  Proof.
    induction 1 as [sh p log R Hl E|l0 sh0 w0 sh p log S R Hl E|sh evs w ans e w' S IH Hm Ha Hs|sh evs w ans t h a l1 l2 w1 oth w2 w3 tr obj S IH Ha Hs Hl Hac Has HP Hd Ho Hob Ham Hsm];
      [constructor|constructor|exact IH|].
    pose proof (search_session _ _ _ _ _ _ S) as S0. pose proof (se_step _ _ _ _ _ _ _ _ S0 Ha Hs) as S1.
    pose proof (session_guarantees th m bk Hshot Hstep l sh w S0) as G0. pose proof (session_guarantees th m bk Hshot Hstep l sh w1 S1) as G1.
    apply Forall_app. split; [exact IH|]. constructor; [|constructor]. unfold sound_answer; cbn [fst snd]. split; [exact HP|]. split; [exact (as_cons _ _ _ _ _ Has)|]. split.
    - destruct (gu_values _ _ _ _ _ _ G1 t tr Hac Has) as (e0 & He0 & Hv). destruct (Hv e0 He0 (Qcle_refl _)) as [Hsol _]. eexists. exact Hsol.
    - intros Hob'. destruct (gu_optimum _ _ _ _ _ _ G0 t tr h a l1 l2 w1 Hob' Ha Hs Hl Hac Has) as (v & b & Ev & Hopt). exists v, b. split; [|exact Hopt].
      destruct (meanwhile_same opts t oth w1 w2 (others_meanwhile t oth w1 w2 l sh Ho S1)) as [_ O2]. rewrite O2, Ev in Hob. injection Hob as <-. reflexivity.
  Qed.

  Lemma regular_lits l sh q : regular th m bk l sh -> q ∈ sh_iqs sh -> exists c, q_lit q = m c \/ q_lit q = (- m c)%Z.
  Proof.
    intros R Hq. destruct (re_loaded _ _ _ _ _ R) as (st & Hl & Ei & _). rewrite Ei in Hq.
    assert (Hc : forall a, a ∈ l -> clean_atom a). { intros a Ha. exact (admitted_clean _ _ (re_grammar _ _ _ _ _ R a Ha)). }
    destruct (lo_kind _ _ _ (loaded_spec m bk l st Hl Hc) q Hq) as [(x & cid & a & _ & [-> | ->])|(a & _ & _ & E)].
    - exists cid. right. reflexivity.
    - exists cid. left. reflexivity.
    - exists (ta_lit a). left. exact E.
  Qed.
  Lemma auxiliary_new evs l sh : auxiliary evs -> regular th m bk l sh -> new_ok evs sh.
  Proof.
    intros Hx R x Hin. destruct (Hx x Hin) as [Hp Hc]. split; [exact Hp|]. intros q Hq. destruct (regular_lits l sh q R Hq) as (c & [E|E]); rewrite E; destruct (Hc c) as [H1 H2].
    - split; assumption.
    - split; [intros E'; apply H2; rewrite <- E'; lia|intros E'; apply H1; lia].
  Qed.
  (** the assignments of the program that are not among the answers *)
  Definition remaining (P : (Z -> Prop) -> Prop) (ans : list answer) (tr : Z -> Prop) : Prop :=
    P tr /\ forall x, x ∈ ans -> ~ forall c, tr (m c) <-> x.1 (m c) = true.
  Lemma remaining_ignores P ans evs : auxiliary evs -> ignores evs P -> ignores evs (remaining P ans).
  Proof.
    intros Hx Hi tr tr' Ht [HP Hn]. split; [exact (Hi tr tr' Ht HP)|]. intros x Hin Hs. apply (Hn x Hin). intros c. rewrite <- (Hs c). apply Ht.
    - intros Hc. destruct (Hx _ Hc) as [_ H']. destruct (H' c). congruence.
    - intros Hc. destruct (Hx _ Hc) as [_ H']. destruct (H' c) as [_ H2]. apply H2. lia.
  Qed.
  Lemma finished_exhausted P sh w ans : finished P sh w ans -> exhausted (remaining P ans) sh w.
  Proof. intros Hf tr Ht [HP Hn]. exact (Hf tr Ht HP Hn). Qed.
  (** a solution of the program, as one of the constraints *)
  Lemma constraints_of l sh tr A : regular th m bk l sh -> consistent m tr -> solves m A tr l ->
    exists B, (forall q, q ∈ sh_iqs sh -> tr (q_lit q) = true -> holds B q) /\ objective_means A (tru m tr) l (lin B (sh_obj sh)).
  Proof.
    intros R Hc Hs. destruct (re_loaded _ _ _ _ _ R) as (st & Hl & Ei & Eo). rewrite Ei, Eo.
    destruct (C21_solutions_kept_partial m bk l st Hl) with (tr := tr) (A := A) as (B & _ & HB & Ho); [|exact Hc|exact Hs|exists B; split; assumption].
    intros a Ha. split; [exact (admitted_clean _ _ (re_grammar _ _ _ _ _ R a Ha))|exact (proj2 (re_atoms _ _ _ _ _ R a Ha))].
  Qed.
  Lemma remaining_bool (P : (Z -> Prop) -> Prop) (ans : list answer) (tr : Z -> bool) : P (holds_in tr) -> (forall x, x ∈ ans -> ~ same_model m tr x.1) -> remaining P ans (holds_in tr).
  Proof.
    intros HP Hn. split; [exact HP|]. intros x Hx Hs. apply (Hn x Hx). intros c. specialize (Hs c). destruct (tr (m c)), (x.1 (m c)); try reflexivity; [symmetry; apply Hs; reflexivity|apply Hs; reflexivity].
  Qed.

  (** enumeration: without global optimization the answers of a finished search
      are the assignments of the program for which the theory atoms have a solution *)
  Lemma enumeration P l sh evs w ans : o_global opts = None -> search P l sh evs w ans -> auxiliary evs -> ignores evs P -> finished P sh w ans ->
    enumerates P l ans.
  Proof.
    intros Hg S Hx Hi Hf. pose proof (search_sound _ _ _ _ _ _ S) as Hs. rewrite Forall_forall in Hs. split.
    { intros x Hin. destruct (Hs x Hin) as (H1 & _ & H2 & _). split; assumption. }
    intros tr Ht Hc HP Hn (A & HA). pose proof (session_current _ _ _ _ _ _ (search_session _ _ _ _ _ _ S)) as R. destruct (constraints_of l sh tr A R Hc HA) as (B & HB & _).
    refine (C42_no_solution_when_exhausted_partial opts sh evs w (remaining P ans) Hstep (search_history _ _ _ _ _ _ S) _ (auxiliary_new evs l sh Hx R)
      (remaining_ignores P ans evs Hx Hi) (finished_exhausted _ _ _ _ Hf) (or_introl Hg) (holds_in tr) Ht (remaining_bool P ans tr HP Hn) _); [exact (re_empty _ _ _ _ _ R)|].
    exists B. exact HB.
  Qed.

  Lemma last_best P l sh evs w g d before tr v : o_global opts = Some g -> vstep g = Some d -> vle vzero d -> search P l sh evs w (before ++ [(tr, Some (v, true))]) ->
    forall v' b', (v', b') ∈ w_rep w -> b' = true /\ vle v' v.
  Proof.
    intros Eg Ed Hd S. pose proof (search_reports _ _ _ _ _ _ S) as Er.
    assert (Hrep : w_rep w = omap snd before ++ [(v, true)]) by (rewrite Er, omap_app; reflexivity).
    assert (Hgn : o_global opts <> None) by (rewrite Eg; discriminate).
    pose proof (C41_reports_improve_partial opts sh evs w g d Hstep Eg Ed (search_orderly _ _ _ _ _ _ Hgn S)) as Him.
    intros v' b' Hin. rewrite Hrep in Hin. apply elem_of_app in Hin as [Hin|Hin].
    - apply elem_of_list_lookup_1 in Hin as (i & Hin). pose proof (lookup_lt_Some _ _ _ Hin) as Hlt.
      destruct (Him i (length (omap snd before)) (v', b') (v, true)) as [H1 H2]; [exact Hlt|rewrite Hrep; rewrite lookup_app_l by exact Hlt; exact Hin|rewrite Hrep, lookup_app_r, Nat.sub_diag by lia; reflexivity|].
      cbn [fst snd] in H1, H2. destruct b'; [|discriminate (H1 eq_refl)]. split; [reflexivity|]. specialize (H2 eq_refl eq_refl).
      refine (vle_trans _ _ _ _ H2). assert (E0 : vadd v' vzero = v') by (apply vadd_0_r). rewrite <- E0 at 1. exact (vadd_le_mono _ _ _ _ (vle_refl v') Hd).
    - apply elem_of_list_singleton in Hin. injection Hin as -> ->. split; [reflexivity|apply vle_refl].
  Qed.
  Lemma all_optima P l sh evs w ans g d : o_global opts = Some g -> vstep g = Some d -> vle vzero d ->
    search P l sh evs w ans -> auxiliary evs -> ignores evs P -> finished P sh w ans -> complete P l d ans.
  Proof.
    intros Eg Ed Hd S Hx Hi Hf tr' Ht Hc HP' Hn.
    pose proof (session_current _ _ _ _ _ _ (search_session _ _ _ _ _ _ S)) as R. pose proof (auxiliary_new evs l sh Hx R) as Hnew. pose proof (remaining_ignores P ans evs Hx Hi) as Hign.
    pose proof (finished_exhausted _ _ _ _ Hf) as Hex. pose proof (search_history _ _ _ _ _ _ S) as Hh. split.
    - intros before tr1 v -> A y HA Hy. pose proof (last_best P l sh evs w g d before tr1 v Eg Ed Hd S) as Hall.
      destruct (constraints_of l sh tr' A R Hc HA) as (B & HB & HoB). rewrite (objective_fun _ _ _ _ _ Hy HoB) in *.
      destruct (C42_optimum_when_exhausted_partial opts sh evs w _ g d Hstep Hh (re_empty _ _ _ _ _ R) Hnew Hign Hex Eg Ed) with (tr := holds_in tr') (A := B) as (best & Hbest' & Hlt').
      + intros u Hin. destruct (Hall u false Hin) as [E _]. discriminate E.
      + exact Ht.
      + exact (remaining_bool P _ tr' HP' Hn).
      + exact HB.
      + destruct (Hall best true Hbest') as [_ Hle]. refine (vlt_le_trans _ _ _ Hlt' _). apply vadd_le_mono; [exact Hle|apply vle_refl].
    - intros HM. refine (C42_no_unbounded_when_exhausted_partial opts sh evs w _ Hstep Hh (re_empty _ _ _ _ _ R) Hnew Hign Hex (holds_in tr') Ht (remaining_bool P _ tr' HP' Hn) _).
      intros M. destruct (HM M) as (A & y & HA & Hy & Hlt). destruct (constraints_of l sh tr' A R Hc HA) as (B & HB & HoB). exists B. split; [exact HB|].
      rewrite <- (objective_fun _ _ _ _ _ Hy HoB). exact Hlt.
  Qed.

  (** global optimization *)
  Lemma optimum P l sh evs w ans g d : o_global opts = Some g -> vstep g = Some d -> vle vzero d -> sh_obj sh <> [] ->
    search P l sh evs w ans -> auxiliary evs -> ignores evs P -> finished P sh w ans ->
    optimizes P l d ans.
  Proof.
    intros Eg Ed Hd Hob S Hx Hi Hf. pose proof (search_sound _ _ _ _ _ _ S) as Hs. rewrite Forall_forall in Hs.
    pose proof (session_current _ _ _ _ _ _ (search_session _ _ _ _ _ _ S)) as R. pose proof (search_reports _ _ _ _ _ _ S) as Er.
    pose proof (auxiliary_new evs l sh Hx R) as Hnew. pose proof (remaining_ignores P ans evs Hx Hi) as Hign. pose proof (finished_exhausted _ _ _ _ Hf) as Hex.
    pose proof (search_history _ _ _ _ _ _ S) as Hh. split.
    - intros -> tr Ht Hc HP (A & HA). destruct (constraints_of l sh tr A R Hc HA) as (B & HB & _).
      refine (C42_no_solution_when_exhausted_partial opts sh evs w (remaining P []) Hstep Hh (re_empty _ _ _ _ _ R) Hnew Hign Hex (or_intror Er) (holds_in tr) Ht _ _).
      + apply remaining_bool; [exact HP|]. intros x Hin. inversion Hin.
      + exists B. exact HB.
    - intros before tr obj ->. assert (Hlast : (tr, obj) ∈ before ++ [(tr, obj)]) by (apply elem_of_app; right; left).
      destruct (Hs _ Hlast) as (HP & _ & _ & Hv). destruct (Hv Hob) as (v & b & Eo & Hb & Hu). cbn [snd] in Eo. subst obj. exists v, b. split; [reflexivity|]. split; [exact HP|].
      split; [|exact Hu]. intros ->. destruct (Hb eq_refl) as [Hbest Hatt]. split; [exact Hatt|]. clear Hb Hu.
      pose proof (last_best P l sh evs w g d before tr v Eg Ed Hd S) as Hall.
      intros tr' A y Ht Hc HP' HA Hy. destruct (decide (vlt v (vofq y))) as [Hlt|Hge]; [|left; apply vnot_lt; exact Hge]. right.
      destruct (decide (vlt (vofq y) (vadd v d))) as [Hy2|Hy2]; [exact Hy2|]. exfalso. apply vnot_lt in Hy2.
      assert (Hn : forall x, x ∈ before ++ [(tr, Some (v, true))] -> ~ same_model m tr' x.1).
      { intros x Hin Hsame. destruct (Hs x Hin) as (_ & _ & _ & Hvx). destruct (Hvx Hob) as (vx & bx & Ex & Hbx & _).
        destruct (Hall vx bx) as [-> Hle]. { rewrite Er. apply elem_of_list_omap. exists x. split; assumption. }
        destruct (Hbx eq_refl) as [Hbx' _]. apply (vlt_irrefl v). refine (vlt_le_trans _ _ _ Hlt _). refine (vle_trans _ _ _ _ Hle).
        apply (Hbx' A y); [exact (solves_same m A tr' _ l Hsame HA)|]. refine (objective_means_same A _ _ l y _ Hy). intros c. apply same_tru, Hsame. }
      destruct (constraints_of l sh tr' A R Hc HA) as (B & HB & HoB). rewrite (objective_fun _ _ _ _ _ Hy HoB) in *.
      destruct (C42_optimum_when_exhausted_partial opts sh evs w _ g d Hstep Hh (re_empty _ _ _ _ _ R) Hnew Hign Hex Eg Ed) with (tr := holds_in tr') (A := B) as (best & Hbest' & Hlt').
      + intros u Hin. destruct (Hall u false Hin) as [E _]. discriminate E.
      + exact Ht.
      + exact (remaining_bool P _ tr' HP' Hn).
      + exact HB.
      + destruct (Hall best true Hbest') as [_ Hle]. apply (vlt_irrefl (vofq (lin B (sh_obj sh)))). refine (vlt_le_trans _ _ _ Hlt' _).
        refine (vle_trans _ _ _ _ Hy2). apply vadd_le_mono; [exact Hle|apply vle_refl].
  Qed.
End optimum.

(** ** The two kinds of registration *)
Section registered.
  Context (m : Z -> Z) (bk : backend) (P : (Z -> Prop) -> Prop).

  Theorem C56_enumeration_plain th l (sh : shot Qc symbol) evs w ans : t_strict th = false -> validate_options th = true -> o_global (t_opts th) = None ->
    search th m bk P l sh evs w ans -> auxiliary m evs -> ignores evs P -> finished m P sh w ans -> enumerates m P l ans.
  Proof.
    intros Hs Hv Hg S. pose proof (session_current _ _ _ _ _ _ (search_session _ _ _ _ _ _ _ _ _ S)) as R.
    apply (enumeration th m bk (fun l' sh' R' => proj1 (plain_shot bk m th l' sh' Hs Hv R'))) with (sh := sh) (w := w); [|rewrite opts_of; exact Hg|exact S].
    rewrite opts_of. exact (proj2 (plain_shot bk m th l sh Hs Hv R)).
  Qed.
  Theorem C56_enumeration_strict th l (sh : shot RatQ symbol) evs w ans : t_strict th = true -> validate_options th = true -> o_global (t_opts th) = None ->
    search th m bk P l sh evs w ans -> auxiliary m evs -> ignores evs P -> finished m P sh w ans -> enumerates m P l ans.
  Proof.
    intros Hs Hv Hg S. pose proof (session_current _ _ _ _ _ _ (search_session _ _ _ _ _ _ _ _ _ S)) as R.
    apply (enumeration th m bk (fun l' sh' R' => proj1 (strict_shot bk m th l' sh' Hs Hv R'))) with (sh := sh) (w := w); [|rewrite opts_of; exact Hg|exact S].
    rewrite opts_of. exact (proj2 (strict_shot bk m th l sh Hs Hv R)).
  Qed.
  Theorem C56_optimum_plain th l (sh : shot Qc symbol) evs w ans g d : t_strict th = false -> validate_options th = true ->
    o_global (t_opts th) = Some g -> vstep g = Some d -> vle vzero d -> sh_obj sh <> [] ->
    search th m bk P l sh evs w ans -> auxiliary m evs -> ignores evs P -> finished m P sh w ans -> optimizes m P l d ans.
  Proof.
    intros Hs Hv Hg Hd H0 Hob S. pose proof (session_current _ _ _ _ _ _ (search_session _ _ _ _ _ _ _ _ _ S)) as R.
    apply (optimum th m bk (fun l' sh' R' => proj1 (plain_shot bk m th l' sh' Hs Hv R'))) with (sh := sh) (w := w) (g := g); [|rewrite opts_of; exact Hg|exact Hd|exact H0|exact Hob|exact S].
    rewrite opts_of. exact (proj2 (plain_shot bk m th l sh Hs Hv R)).
  Qed.
  Theorem C56_optimum_strict th l (sh : shot RatQ symbol) evs w ans g d : t_strict th = true -> validate_options th = true ->
    o_global (t_opts th) = Some g -> vstep g = Some d -> vle vzero d -> sh_obj sh <> [] ->
    search th m bk P l sh evs w ans -> auxiliary m evs -> ignores evs P -> finished m P sh w ans -> optimizes m P l d ans.
  Proof.
    intros Hs Hv Hg Hd H0 Hob S. pose proof (session_current _ _ _ _ _ _ (search_session _ _ _ _ _ _ _ _ _ S)) as R.
    apply (optimum th m bk (fun l' sh' R' => proj1 (strict_shot bk m th l' sh' Hs Hv R'))) with (sh := sh) (w := w) (g := g); [|rewrite opts_of; exact Hg|exact Hd|exact H0|exact Hob|exact S].
    rewrite opts_of. exact (proj2 (strict_shot bk m th l sh Hs Hv R)).
  Qed.

  (** --models=0 --objective=global lists every optimum *)
  Theorem C56_all_optima_plain th l (sh : shot Qc symbol) evs w ans g d : t_strict th = false -> validate_options th = true ->
    o_global (t_opts th) = Some g -> vstep g = Some d -> vle vzero d ->
    search th m bk P l sh evs w ans -> auxiliary m evs -> ignores evs P -> finished m P sh w ans -> complete m P l d ans.
  Proof.
    intros Hs Hv Hg Hd H0 S. pose proof (session_current _ _ _ _ _ _ (search_session _ _ _ _ _ _ _ _ _ S)) as R.
    apply (all_optima th m bk (fun l' sh' R' => proj1 (plain_shot bk m th l' sh' Hs Hv R'))) with (sh := sh) (w := w) (g := g); [|rewrite opts_of; exact Hg|exact Hd|exact H0|exact S].
    rewrite opts_of. exact (proj2 (plain_shot bk m th l sh Hs Hv R)).
  Qed.
  Theorem C56_all_optima_strict th l (sh : shot RatQ symbol) evs w ans g d : t_strict th = true -> validate_options th = true ->
    o_global (t_opts th) = Some g -> vstep g = Some d -> vle vzero d ->
    search th m bk P l sh evs w ans -> auxiliary m evs -> ignores evs P -> finished m P sh w ans -> complete m P l d ans.
  Proof.
    intros Hs Hv Hg Hd H0 S. pose proof (session_current _ _ _ _ _ _ (search_session _ _ _ _ _ _ _ _ _ S)) as R.
    apply (all_optima th m bk (fun l' sh' R' => proj1 (strict_shot bk m th l' sh' Hs Hv R'))) with (sh := sh) (w := w) (g := g); [|rewrite opts_of; exact Hg|exact Hd|exact H0|exact S].
    rewrite opts_of. exact (proj2 (strict_shot bk m th l sh Hs Hv R)).
  Qed.

  (** --objective=global, without strict inequalities: the last answer is an
      optimal solution of the program, and whatever is not an answer is worse *)
  Theorem C56_exact_optimum th l (sh : shot Qc symbol) evs w before tr obj : t_strict th = false -> o_global (t_opts th) = Some (mkRatQ 0%Qc 0%Qc) -> sh_obj sh <> [] ->
    search th m bk P l sh evs w (before ++ [(tr, obj)]) -> auxiliary m evs -> ignores evs P -> finished m P sh w (before ++ [(tr, obj)]) ->
    exists v b, obj = Some (v, b) /\
      (b = true -> P (holds_in tr) /\ (exists A, solves m A tr l /\ objective_means A (tru m tr) l v) /\
         forall tr' A y, assignment (holds_in tr') -> consistent m tr' -> P (holds_in tr') -> solves m A tr' l -> objective_means A (tru m tr') l y -> (y <= v)%Qc /\
           ((forall x, x ∈ before ++ [(tr, obj)] -> ~ same_model m tr' x.1) -> (y < v)%Qc)) /\
      (b = false -> P (holds_in tr) /\ forall M : Qc, exists A y, solves m A tr l /\ objective_means A (tru m tr) l y /\ (M < y)%Qc).
  Proof.
    intros Hs Hg Hob S Hx Hi Hf. assert (Hv : validate_options th = true) by (unfold validate_options; rewrite Hs, Hg; reflexivity).
    assert (Hstep : vstep (V := Qc) (mkRatQ 0%Qc 0%Qc) = Some 0%Qc) by reflexivity.
    destruct (C56_optimum_plain th l sh evs w _ _ _ Hs Hv Hg Hstep (vle_refl (V := Qc) _) Hob S Hx Hi Hf) as [_ Ho].
    destruct (Ho before tr obj eq_refl) as (v & b & -> & HP & Hb & Hu). exists v, b. split; [reflexivity|]. split.
    - intros E. destruct (Hb E) as [(e0 & He0 & Hatt) Hbest]. split; [exact HP|]. split.
      { destruct (Hatt e0 He0 (Qcle_refl _)) as (A & H1 & H2). exists A. split; [exact H1|]. replace v with (inst e0 v); [exact H2|]. unfold inst. cbn. ring. }
      intros tr' A y H1 H2 H3 H4 H5. split.
      + destruct (Hbest tr' A y H1 H2 H3 H4 H5) as [Hy|Hy]; [|change 0%Qc with (vzero (V := Qc)) in Hy; rewrite vadd_0_r in Hy; apply vlt_le in Hy]; exact Hy.
      + intros Hn. subst b. destruct (C56_all_optima_plain th l sh evs w _ _ _ Hs Hv Hg Hstep (vle_refl (V := Qc) _) S Hx Hi Hf tr' H1 H2 H3 Hn) as [Hlt _].
        specialize (Hlt before tr v eq_refl A y H4 H5). change 0%Qc with (vzero (V := Qc)) in Hlt. rewrite vadd_0_r in Hlt. exact Hlt.
    - intros E. split; [exact HP|]. exact (Hu E).
  Qed.
End registered.

(** ** A finished search, on two threads

      { a; b; c } >= 1.   &sum { x } <= 2 :- a.   &sum { x } <= 5 :- b.
      &sum { x } <= 9 :- c.   &maximize { x }.

    with --objective=global.  Answers: {a} with 2, {b} with 5, {c} with 9. *)
Definition opt_th : theory := Theory (Options SelectNone StoreNo (Some (mkRatQ 0%Qc 0%Qc)) PropFull true) false.
Definition opt_atom (n lit : Z) : tatom := TAtom (TSym "sum") [TElem [TSym "x"] [] 0%Z] (Some ("<="%string, TNum n)) lit.
Definition opt_pgm : list tatom :=
  [ opt_atom 2 0; opt_atom 5 1; opt_atom 9 2; TAtom (TSym "maximize") [TElem [TSym "x"] [] 0%Z] None 0%Z ].
(** program literals 0, 1, 2 are the solver literals 11, 21, 31 *)
Definition opt_m (c : Z) : Z := (10 * (Z.abs c mod 3) + 11)%Z.
Definition opt_st : pstate := match evaluate_theory Flint opt_m opt_pgm new_pstate with Ok st => st | _ => new_pstate end.
Lemma opt_loaded : loaded opt_m Flint opt_pgm opt_st.
Proof.
  apply (ld_next _ _ [] _ opt_pgm _ (ld_new _ _)).
  assert (E : match evaluate_theory Flint opt_m opt_pgm new_pstate with Ok _ => true | _ => false end = true) by (vm_compute; reflexivity).
  unfold opt_st. destruct (evaluate_theory Flint opt_m opt_pgm new_pstate); try discriminate E. reflexivity.
Qed.
Lemma opt_admitted a : a ∈ opt_pgm -> admitted THEORY a.
Proof.
  unfold opt_pgm, opt_atom. rewrite !elem_of_cons, elem_of_nil. intros H.
  assert (Hd : forall d, d ∈ td_atoms THEORY <-> In d (td_atoms THEORY)) by (intros d; apply elem_of_list_In).
  destruct H as [->|[->|[->|[->|[]]]]].
  1, 2, 3: apply (adm_atom _ _ (AtomDef "sum" "sum_term" (Some (["<="; "="; ">="]%string, "sum_term"%string)) Head) sum_ops).
  16: apply (adm_atom _ _ (AtomDef "maximize" "sum_term" None Directive) sum_ops).
  all: try (apply Hd; cbn; auto 8; fail).
  all: try (left; reflexivity).
  all: try reflexivity.
  all: cbn [ta_guard ad_guard ta_elems].
  all: try (split; [rewrite !elem_of_cons; auto 8|]; eexists; split; [reflexivity|built_op]).
  all: try exact Logic.I.
  all: intros e t He Ht; rewrite ?elem_of_cons, elem_of_nil in He; repeat (destruct He as [He|He]; [subst e; cbn [te_tuple] in Ht; rewrite !elem_of_cons, elem_of_nil in Ht; destruct Ht as [->|[]]; built_op|]); destruct He.
Qed.
Definition opt_shot : shot Qc symbol := Shot Examples.quiet (fun _ l => l) 2 (ps_iqs opt_st) (ps_obj opt_st) [].
Lemma opt_obj : match ps_obj opt_st with [] => false | _ => true end = true.
Proof. vm_compute. reflexivity. Qed.
Lemma opt_lhs : forallb (fun q : ineq symbol => match q_lhs q with [] => false | _ => true end) (ps_iqs opt_st) = true.
Proof. vm_compute. reflexivity. Qed.
Lemma opt_regular : regular opt_th opt_m Flint opt_pgm opt_shot.
Proof.
  apply C48_simple_programs_regular.
  - exact opt_loaded.
  - intros a Ha. left. exact (opt_admitted a Ha).
  - intros a. unfold opt_pgm, opt_atom. rewrite !elem_of_cons, elem_of_nil. intros H.
    assert (Hu : forall t cid e, e ∈ [TElem t [] cid] -> te_cond e = []) by (intros t cid e He; apply elem_of_list_singleton in He as ->; reflexivity).
    destruct H as [->|[->|[->|[->|[]]]]]; (split; [intros e He; exact (Hu _ _ e He)|split; [intros _ g; discriminate|]]); intros [E|E]; discriminate E.
  - intros q Hq. pose proof opt_lhs as L. rewrite forallb_forall in L. specialize (L q (proj1 (elem_of_list_In _ _) Hq)). intros E. rewrite E in L. discriminate L.
  - reflexivity.
Qed.

(** clingo's assignment in which [k] is the only true program literal *)
Definition only (k x : Z) : bool := if (0 <? x)%Z then (x =? k)%Z else negb (- x =? k)%Z.
Lemma opt_range c : opt_m c = 11%Z \/ opt_m c = 21%Z \/ opt_m c = 31%Z.
Proof. unfold opt_m. pose proof (Z.mod_pos_bound (Z.abs c) 3 ltac:(lia)). lia. Qed.
Lemma only_consistent k : consistent opt_m (only k).
Proof.
  intros c. assert (Hp : (0 < opt_m c)%Z) by (pose proof (opt_range c); lia). unfold only.
  destruct (Z.ltb_spec 0 (- opt_m c)) as [|_]; [lia|]. destruct (Z.ltb_spec 0 (opt_m c)) as [_|]; [|lia]. rewrite Z.opp_involutive. reflexivity.
Qed.
(** at least one of a, b, c *)
Definition opt_P (tr : Z -> Prop) : Prop := tr 11%Z \/ tr 21%Z \/ tr 31%Z.

Section checker.
  Notation wld := (world Qc symbol).
  Notation oo := (t_opts opt_th).
  Inductive sitem := SPlain (e : event) | SReport (t : nat) (h : host) (a : asg) (l1 l2 : Z) (k : Z) (oth : list event).
  Definition s1 (e : event) (w : wld) : option wld := if admb e w then match wstep 50 oo e w with Ok w1 => Some w1 | _ => None end else None.
  Fixpoint so (t : nat) (oth : list event) (w : wld) : option wld :=
    match oth with [] => Some w | e :: r => if negb (ev_thread e =? t) && negb (is_model e) then w1 ← s1 e w; so t r w1 else None end.
  Definition asb (w : wld) (t : nat) (k : Z) : bool :=
    forallb (fun q : ineq symbol => Bool.eqb (existsb (Z.eqb (q_lit q)) (assigned w t)) (only k (q_lit q))) (ps_iqs opt_st) &&
    forallb (fun c => match c with [y] => negb (existsb (Z.eqb (- y)) (assigned w t)) | _ => true end) (w_log w) && (existsb (Z.eqb k) [11; 21; 31]%Z).
  Definition sst (i : sitem) (x : list event * wld * list (answer (V := Qc))) : option (list event * wld * list (answer (V := Qc))) :=
    let '(evs, w, ans) := x in
    match i with
    | SPlain e => if is_model e then None else w1 ← s1 e w; Some (evs ++ [e], w1, ans)
    | SReport t h a l1 l2 k oth =>
        w1 ← s1 (EvCheck t h a true l1 l2) w;
        if bool_decide (w_log w1 = w_log w) && (t <? length (w_th w1)) && negb (th_blk (thread_of w1 t)) && asb w1 t k &&
           forallb (fun l => negb (bool_decide ([l] ∈ w_log w)) || bool_decide (l ∈ assigned w1 t)) (fresh t evs)
        then w2 ← so t oth w1; obj ← match p_get_objective (w_p w2) t with Ok v => Some v | _ => None end; w3 ← s1 (EvModel t) w2;
          Some (((evs ++ [EvCheck t h a true l1 l2]) ++ oth) ++ [EvModel t], w3, ans ++ [(only k, obj)])
        else None
    end.
  Lemma s1_ok e w w' : s1 e w = Some w' -> adm e w /\ step (rg_options (clingolpx_register opt_th)) e w w'.
  Proof.
    unfold s1. destruct (admb e w) eqn:Ea; [|discriminate]. destruct (wstep 50 oo e w) as [w1| | |] eqn:E1; try discriminate. intros [= <-]. split; [exact (admb_ok _ _ Ea)|exists 50; exact E1].
  Qed.
  Lemma so_ok t oth : forall pre w0 w w', others opt_th t pre w0 w -> so t oth w = Some w' -> others opt_th t (pre ++ oth) w0 w'.
  Proof.
    induction oth as [|e r IH]; intros pre w0 w w' Ho; cbn [so]; [intros [= <-]; rewrite app_nil_r; exact Ho|].
    destruct (_ && _) eqn:Ec; [|discriminate]. apply andb_true_iff in Ec as [C1 C2]. apply negb_true_iff in C1, C2. apply Nat.eqb_neq in C1.
    destruct (s1 e w) as [w1|] eqn:E1; cbn [mbind option_bind]; [|discriminate]. apply s1_ok in E1 as [A B]. intros E. rewrite cons_middle, app_assoc. refine (IH _ w0 w1 w' _ E).
    exact (ot_step _ _ pre w0 w e w1 Ho C1 C2 A B).
  Qed.
  Lemma asb_ok w t k : asb w t k = true -> assignment_of opt_m opt_shot w t (only k) /\ opt_P (holds_in (only k)).
  Proof.
    unfold asb. rewrite !andb_true_iff. intros [[H1 H2] H3]. rewrite forallb_forall in H1, H2. split.
    - constructor.
      + apply only_consistent.
      + intros q Hq. specialize (H1 q (proj1 (elem_of_list_In _ _) Hq)). apply eqb_prop in H1. rewrite <- H1. rewrite existsb_exists. split.
        * intros Hin. exists (q_lit q). split; [apply elem_of_list_In; exact Hin|apply Z.eqb_refl].
        * intros (x & Hx & E). apply Z.eqb_eq in E as ->. apply elem_of_list_In. exact Hx.
      + intros q _ _ log. reflexivity.
      + intros x Hx. specialize (H2 _ (proj1 (elem_of_list_In _ _) (shot_log_sub _ _ _ Hx))). cbn in H2. rewrite Z.opp_involutive in H2. apply negb_true_iff in H2. exact (existsb_no _ _ H2).
    - apply existsb_exists in H3 as (x & Hx & E). apply Z.eqb_eq in E as ->. unfold opt_P. cbn in Hx. destruct Hx as [<-|[<-|[<-|[]]]]; [left|right; left|right; right]; reflexivity.
  Qed.
  Lemma sst_ok i evs w ans evs' w' ans' : search opt_th opt_m Flint opt_P opt_pgm opt_shot evs w ans -> sst i (evs, w, ans) = Some (evs', w', ans') ->
    search opt_th opt_m Flint opt_P opt_pgm opt_shot evs' w' ans'.
  Proof.
    intros S. destruct i as [e|t h a l1 l2 k oth]; cbn [sst].
    - destruct (is_model e) eqn:Em; [discriminate|]. destruct (s1 e w) as [w1|] eqn:E1; cbn [mbind option_bind]; [|discriminate]. apply s1_ok in E1 as [A B]. intros [= <- <- <-].
      exact (sr_step _ _ _ _ _ _ evs w ans e w1 S Em A B).
    - destruct (s1 _ w) as [w1|] eqn:E1; cbn [mbind option_bind]; [|discriminate]. destruct (_ && _) eqn:Ec; [|discriminate].
      rewrite !andb_true_iff, negb_true_iff in Ec. destruct Ec as ((((C1 & C2) & C3) & C4) & C5).
      destruct (so t oth w1) as [w2|] eqn:E2; cbn [mbind option_bind]; [|discriminate]. destruct (p_get_objective (w_p w2) t) as [obj| | |] eqn:Eo; cbn [mbind option_bind]; try discriminate.
      destruct (s1 _ w2) as [w3|] eqn:E3; cbn [mbind option_bind]; [|discriminate]. intros [= <- <- <-]. apply s1_ok in E1 as [A1 B1], E3 as [A3 B3].
      apply bool_decide_eq_true in C1. apply Nat.ltb_lt in C2. apply asb_ok in C4 as [C4 C6].
      refine (sr_model _ _ _ _ _ _ evs w ans t h a l1 l2 w1 oth w2 w3 (only k) obj S A1 B1 C1 (conj C2 C3) C4 C6 _ (so_ok t oth [] w1 w1 w2 (ot_refl _ _ _) E2) Eo A3 B3).
      intros _ l Hl Hu. rewrite forallb_forall in C5. specialize (C5 l (proj1 (elem_of_list_In _ _) Hl)). rewrite bool_decide_eq_true_2 in C5 by exact Hu. apply bool_decide_eq_true in C5. exact C5.
  Qed.
  Fixpoint srun (is : list sitem) (x : list event * wld * list (answer (V := Qc))) : option (list event * wld * list (answer (V := Qc))) :=
    match is with [] => Some x | i :: r => y ← sst i x; srun r y end.
  Lemma srun_ok is : forall evs w ans evs' w' ans', search opt_th opt_m Flint opt_P opt_pgm opt_shot evs w ans -> srun is (evs, w, ans) = Some (evs', w', ans') ->
    search opt_th opt_m Flint opt_P opt_pgm opt_shot evs' w' ans'.
  Proof.
    induction is as [|i is IH]; intros evs w ans evs' w' ans' S; cbn [srun]; [intros [= <- <- <-]; exact S|].
    destruct (sst i (evs, w, ans)) as [[[evs1 w1] ans1]|] eqn:E1; cbn [mbind option_bind]; [|discriminate]. intros E. exact (IH _ _ _ _ _ _ (sst_ok _ _ _ _ _ _ _ S E1) E).
  Qed.
End checker.
Definition opt_items : list sitem :=
  [ SPlain (ev_prop 0 1 [11%Z]); SReport 0 Examples.quiet (Examples.lev 1) 901 911 11 [ev_prop 1 1 [21%Z]];   (* thread 0: {a}, 2 *)
    SPlain (ev_check 1 1 true 921 931);                                                    (* thread 1 asserts x >= 2 by 921 *)
    SPlain (ev_prop 1 1 [921%Z]); SReport 1 Examples.quiet (Examples.lev 1) 941 951 21 [];                    (* thread 1: {b}, 5 *)
    SPlain (EvUndo 0); SPlain (ev_check 0 0 false 961 971);                                (* thread 0 asserts x >= 5 by 961 *)
    SPlain (ev_prop 0 1 [31%Z; 961%Z]); SReport 0 Examples.quiet (Examples.lev 1) 981 991 31 [];              (* thread 0: {c}, 9 *)
    SPlain (EvUndo 0); SPlain (ev_check 0 0 false 1001 1011); SPlain (ev_prop 0 1 [1001%Z]) ]. (* thread 0 asserts x >= 9 by 1001 *)
Definition init_of (th : theory) (sh : shot Qc symbol) : res (propagator Qc symbol * list (list Z) * bool) :=
  p_init (sh_host sh) (rg_options (clingolpx_register th)) (sh_sort sh) (sh_threads sh) (sh_iqs sh) (sh_obj sh) new_propagator [].
Lemma init_of_search th m P l sh p log : regular th m Flint l sh -> sh_log sh = [] -> init_of th sh = Ok (p, log, true) -> search th m Flint P l sh [] (start p log) [].
Proof. intros R Hl E. exact (sr_first _ _ _ P l sh p log R Hl E). Qed.
Definition opt_init : res (propagator Qc symbol * list (list Z) * bool) := init_of opt_th opt_shot.
Definition opt_clauses : list (list Z) := [[1001%Z]; [(-1001)%Z; (-11)%Z]; [(-1001)%Z; (-21)%Z]].
Definition opt_values (ans : list (answer (V := Qc))) : list (Z * bool) := map (fun x : answer (V := Qc) => match x.2 with Some (v, b) => (Qnum v, b && bool_decide (Qden v = 1%positive)) | None => (0%Z, false) end) ans.
Lemma opt_run_ok : match opt_init with
  | Ok (p, log, true) => match srun opt_items ([], start p log, []) with
      | Some (evs, w, ans) => forallb (fun c => bool_decide (c ∈ w_log w)) opt_clauses && bool_decide (concat (map ev_lits evs) = pg_new) &&
          bool_decide (opt_values ans = [(2%Z, true); (5%Z, true); (9%Z, true)])
      | None => false end
  | _ => false end = true.
Proof. vm_compute. reflexivity. Qed.
Lemma opt_finished (w : world Qc symbol) ans : forallb (fun c => bool_decide (c ∈ w_log w)) opt_clauses = true -> (only 31, Some (qz 9, true)) ∈ ans -> finished opt_m opt_P opt_shot w ans.
Proof.
  intros Hc Hin tr [T C] HP Hn Hall. rewrite forallb_forall in Hc.
  assert (K : forall c, c ∈ opt_clauses -> clause_true tr c). { intros c Hi. apply Hall; [|cbn; intros Hx; inversion Hx]. specialize (Hc c (proj1 (elem_of_list_In _ _) Hi)). apply bool_decide_eq_true in Hc. exact Hc. }
  assert (T1 : tr 1001%Z). { destruct (K [1001%Z] ltac:(left)) as (l & Hl & T1). apply elem_of_list_singleton in Hl as ->. exact T1. }
  assert (N : forall l, l <> 0%Z -> [(-1001)%Z; (- l)%Z] ∈ opt_clauses -> ~ tr l).
  { intros l Hl0 Hi Hl1. destruct (K _ Hi) as (l' & Hl & T'). apply elem_of_cons in Hl as [-> |Hl]; [apply (C 1001%Z); [discriminate|split; [exact T1|exact T']]|].
    apply elem_of_list_singleton in Hl as ->. apply (C l Hl0). split; assumption. }
  assert (N1 : ~ tr 11%Z) by (apply (N 11%Z); [discriminate|right; left]). assert (N2 : ~ tr 21%Z) by (apply (N 21%Z); [discriminate|right; right; left]).
  destruct HP as [H1|[H1|H1]]; [contradiction|contradiction|]. apply (Hn _ Hin). intros c. cbn [fst].
  destruct (opt_range c) as [-> |[-> | ->]]; (split; [intros Hx|intros Hx; vm_compute in Hx]); try contradiction; try discriminate Hx; [reflexivity|exact H1].
Qed.
Lemma opt_values_ok (ans : list (answer (V := Qc))) zs : opt_values ans = map (fun z => (z, true)) zs -> map snd ans = map (fun z => Some (qz z, true)) zs.
Proof.
  revert zs. induction ans as [|[tr [[v b]|]] ans IH]; intros [|z zs] E; try discriminate E; [reflexivity|]; cbn in E.
  injection E as Ez Eb E. apply andb_true_iff in Eb as [-> Eb]. apply bool_decide_eq_true in Eb. cbn [map snd]. rewrite (IH zs E). f_equal. f_equal. f_equal.
  apply Qc_is_canon. subst z. unfold qz. destruct v as [[n dn] cv]. cbn in *. subst dn. rewrite Qred_correct. reflexivity.
Qed.
Lemma opt_first p log : opt_init = Ok (p, log, true) -> search opt_th opt_m Flint opt_P opt_pgm opt_shot [] (start p log) [].
Proof. exact (init_of_search opt_th opt_m opt_P opt_pgm opt_shot p log opt_regular eq_refl). Qed.
Lemma opt_run x : x = opt_init -> match x with
  | Ok (p, log, true) => match srun opt_items ([], start p log, []) with
      | Some (evs, w, ans) => forallb (fun c => bool_decide (c ∈ w_log w)) opt_clauses && bool_decide (concat (map ev_lits evs) = pg_new) &&
          bool_decide (opt_values ans = [(2%Z, true); (5%Z, true); (9%Z, true)])
      | None => false end
  | _ => false end = true -> exists p log evs w ans, opt_init = Ok (p, log, true) /\ srun opt_items ([], start p log, []) = Some (evs, w, ans) /\
    forallb (fun c => bool_decide (c ∈ w_log w)) opt_clauses = true /\ concat (map ev_lits evs) = pg_new /\ opt_values ans = [(2%Z, true); (5%Z, true); (9%Z, true)].
Proof.
  generalize opt_init. intros oi -> E. destruct oi as [[[p log] [|]]| | |]; try discriminate E. destruct (srun _ _) as [[[evs w] ans]|] eqn:Er; [|discriminate E].
  rewrite !andb_true_iff in E. destruct E as [[E1 E2] E3]. apply bool_decide_eq_true in E2, E3. exists p, log, evs, w, ans. split; [reflexivity|]. split; [exact Er|]. split; [exact E1|]. split; [exact E2|exact E3].
Qed.
Lemma srun_answers is : forall evs w ans evs' w' ans', srun is (evs, w, ans) = Some (evs', w', ans') ->
  map fst ans' = map fst ans ++ omap (fun i => match i with SReport _ _ _ _ _ k _ => Some (only k) | SPlain _ => None end) is.
Proof.
  induction is as [|i is IH]; intros evs w ans evs' w' ans'; cbn [srun]; [intros [= _ _ <-]; rewrite app_nil_r; reflexivity|].
  destruct (sst i (evs, w, ans)) as [[[evs1 w1] ans1]|] eqn:E1; cbn [mbind option_bind]; [|discriminate]. intros E. rewrite (IH _ _ _ _ _ _ E). clear IH E.
  destruct i as [e|t h a l1 l2 k oth]; cbn [sst] in E1.
  - destruct (is_model e); [discriminate E1|]. destruct (s1 e w); cbn [mbind option_bind] in E1; [|discriminate E1]. injection E1 as _ _ <-. reflexivity.
  - destruct (s1 _ w) as [w2|]; cbn [mbind option_bind] in E1; [|discriminate E1]. destruct (_ && _); [|discriminate E1].
    destruct (so t oth w2) as [w3|]; cbn [mbind option_bind] in E1; [|discriminate E1]. destruct (p_get_objective (w_p w3) t); cbn [mbind option_bind] in E1; try discriminate E1.
    destruct (s1 _ w3); cbn [mbind option_bind] in E1; [|discriminate E1]. injection E1 as _ _ <-. rewrite map_app, <- app_assoc. reflexivity.
Qed.
Lemma opt_answers (ans : list (answer (V := Qc))) : map fst ans = [only 11; only 21; only 31] -> opt_values ans = [(2%Z, true); (5%Z, true); (9%Z, true)] ->
  ans = [(only 11, Some (qz 2, true)); (only 21, Some (qz 5, true)); (only 31, Some (qz 9, true))].
Proof.
  intros Et E3. pose proof (opt_values_ok ans [2%Z; 5%Z; 9%Z] E3) as Ev. clear E3.
  destruct ans as [|[a1 o1] [|[a2 o2] [|[a3 o3] [|x ans]]]]; try discriminate Et. cbn [map fst snd] in Et, Ev. injection Et as -> -> ->. injection Ev as -> -> ->. reflexivity.
Qed.
Lemma opt_kinds : omap (fun i => match i with SReport _ _ _ _ _ k _ => Some (only k) | SPlain _ => None end) opt_items = [only 11; only 21; only 31].
Proof. reflexivity. Qed.
(** the hypotheses of the theorems hold after three answers; by C56_exact_optimum the value 9 is optimal *)
Example C56_example : exists evs w ans, search opt_th opt_m Flint opt_P opt_pgm opt_shot evs w ans /\ auxiliary opt_m evs /\ ignores evs opt_P /\ finished opt_m opt_P opt_shot w ans /\
  ans = [(only 11, Some (qz 2, true)); (only 21, Some (qz 5, true)); (only 31, Some (qz 9, true))].
Proof.
  destruct (opt_run opt_init eq_refl opt_run_ok) as (p & log & evs & w & ans & Ei & Er & E1 & E2 & E3).
  pose proof (srun_ok opt_items [] (start p log) [] evs w ans (opt_first p log Ei) Er) as S.
  assert (Hn : forall l, l ∈ new_lits evs -> (900 < l)%Z). { intros l Hl. unfold new_lits in Hl. rewrite E2 in Hl. revert l Hl. apply Forall_forall. repeat constructor. }
  pose proof (srun_answers _ _ _ _ _ _ _ Er) as Et. rewrite opt_kinds in Et. pose proof (opt_answers ans Et E3) as Ea.
  exists evs, w, ans. split; [exact S|]. split; [|split; [|split; [|exact Ea]]].
  - intros x Hx. specialize (Hn x Hx). split; [lia|]. intros c. pose proof (opt_range c). lia.
  - intros tr tr' Hs HP. assert (K : forall l, (0 < l < 100)%Z -> tr l -> tr' l).
    { intros l Hl. apply Hs; intros Hi; apply Hn in Hi; lia. }
    destruct HP as [H1|[H1|H1]]; [left|right; left|right; right]; (apply K; [lia|exact H1]).
  - apply opt_finished; [exact E1|]. rewrite Ea. right. right. left.
Qed.
(** the conclusion for this program: 9 is its optimum *)
Theorem C56_example_optimum : (exists A, solves opt_m A (only 31) opt_pgm /\ objective_means A (tru opt_m (only 31)) opt_pgm (qz 9)) /\
  forall tr A y, assignment (holds_in tr) -> consistent opt_m tr -> opt_P (holds_in tr) -> solves opt_m A tr opt_pgm -> objective_means A (tru opt_m tr) opt_pgm y -> (y <= qz 9)%Qc.
Proof.
  destruct C56_example as (evs & w & ans & S & Hx & Hi & Hf & ->).
  change ([(only 11, Some (qz 2, true)); (only 21, Some (qz 5, true)); (only 31, Some (qz 9, true))]) with ([(only 11, Some (qz 2, true)); (only 21, Some (qz 5, true))] ++ [(only 31, Some (qz 9, true))] : list (answer (V := Qc))) in S, Hf.
  assert (Hob : sh_obj opt_shot <> []) by (intros E; pose proof opt_obj as Eo; unfold opt_shot in E; cbn [sh_obj] in E; rewrite E in Eo; discriminate Eo).
  destruct (C56_exact_optimum opt_m Flint opt_P opt_th opt_pgm opt_shot evs w _ _ _ eq_refl eq_refl Hob S Hx Hi Hf) as (v & b & E & Hb & _).
  injection E as <- <-. destruct (Hb eq_refl) as (_ & H1 & H2). split; [exact H1|]. intros tr A y K1 K2 K3 K4 K5. exact (proj1 (H2 tr A y K1 K2 K3 K4 K5)).
Qed.
