(** * C62: the answers of a finished search through the C interface

    From the calls made on the theory object to the printed answers: a search
    is a sequence of calls of the C interface, its answers are the symbols
    clingolpx_on_model gives to Model::extend.  Composition of C51, C53 and C56:
    what the text printed for these symbols says about the program once clingo
    has exhausted the search space. *)

From Coq Require Import Ascii String.
From Verif Require Import Num Solver Spec Eps RationalQ Propagator World WorldProofs Reach WeakReach Observe Parsing ParseSpec ParseNum ParseProofs ParseSum ParseTheory ParseAtoms ParsePrograms ParseSyntax.
From Verif Require Import Props_Parsing Api Examples Props_Solver Props_Decision Props_Global Progress Props_Progress Props_Print Props_Api Props_Program Grammar Props_Grammar Main Props_Main Props_EndToEnd Lifecycle Props_Lifecycle Props_Printed Props_Optimum.

(** ** Specification *)
(** an answer: the assignment of clingo and the symbols added to the model *)
Notation reply_ := ((Z -> bool) * list symbol)%type.
(** the callbacks among the calls (OnModel is one of its own) *)
Definition events_of (c : call) : list event := match c with Callback _ e => [e] | _ => [] end.
Definition elsewhere (t : nat) (c : call) : Prop := match c with Callback _ e => ev_thread e <> t | OnModel _ => False | _ => True end.

Section dialogue.
  Context {V : Type} `{VL : ValueLaws V} (strict : bool) (inj : object V -> registered) (init : nat -> init_args V -> call).
  Context (rd : list ascii -> option Qc) (bk : backend) (m : Z -> Z).
  Notation call_ := (api_call rd bk m).
  Notation usage_ := (usage strict inj init rd bk m).

  (** settings and legal calls that concern other threads *)
  Inductive meanwhile_calls (t : nat) : list event -> handle -> handle -> Prop :=
    | mc_refl h : meanwhile_calls t [] h h
    | mc_setting oth h h1 c fuel a h2 : meanwhile_calls t oth h h1 -> setting c -> call_ fuel c h1 = Returned (a, Some h2) -> meanwhile_calls t oth h h2
    | mc_call oth h h1 x c fuel a h2 : meanwhile_calls t oth h h1 -> hd_prop h1 = Some (inj x) -> legal c (ob_world x) -> elsewhere t c ->
        call_ fuel c h1 = Returned (a, Some h2) -> meanwhile_calls t (oth ++ events_of c) h h2.

  (** [dialogue th P l sh evs h ans]: the calls of a use ([usage], Props_Lifecycle.v)
      from the last init on; [evs]: the callbacks, [ans]: the answers.  An answer
      of thread [t] follows a check of [t] on a total assignment that added no
      clause; the assignment is one the program [P] allows.  With global
      optimization, the unit clauses that assert a bound have reached the thread. *)
  Inductive dialogue (th : theory) (P : (Z -> Prop) -> Prop) : list tatom -> shot V symbol -> list event -> handle -> list reply_ -> Prop :=
    | dl_init l0 sh0 h x a fuel h' x' : usage_ (After th l0 sh0) h -> hd_prop h = Some (inj x) ->
        call_ fuel (init 0 a) h = Returned (Done, Some h') -> hd_prop h' = Some (inj x') -> ob_status x' = Searching ->
        regular th m bk (l0 ++ ia_atoms a) (shot_of a x x') -> dialogue th P (l0 ++ ia_atoms a) (shot_of a x x') [] h' []
    | dl_setting l sh evs h ans c fuel a h' : dialogue th P l sh evs h ans -> setting c -> call_ fuel c h = Returned (a, Some h') -> dialogue th P l sh evs h' ans
    | dl_call l sh evs h ans x c fuel a h' : dialogue th P l sh evs h ans -> hd_prop h = Some (inj x) -> legal c (ob_world x) -> (forall t, c <> OnModel t) ->
        call_ fuel c h = Returned (a, Some h') -> dialogue th P l sh (evs ++ events_of c) h' ans
    | dl_answer l sh evs h ans x t hh a l1 l2 fuel h1 x1 tr oth h2 x2 fuel' symbols h3 : dialogue th P l sh evs h ans -> hd_prop h = Some (inj x) ->
        legal (Callback 0 (EvCheck t hh a true l1 l2)) (ob_world x) -> call_ fuel (Callback 0 (EvCheck t hh a true l1 l2)) h = Returned (Done, Some h1) ->
        hd_prop h1 = Some (inj x1) -> w_log (ob_world x1) = w_log (ob_world x) -> accepted (ob_world x1) t ->
        assignment_of m sh (ob_world x1) t tr -> P (holds_in tr) -> (o_global (t_opts th) <> None -> delivered t evs (ob_world x) (ob_world x1)) ->
        meanwhile_calls t oth h1 h2 -> hd_prop h2 = Some (inj x2) -> legal (OnModel t) (ob_world x2) ->
        call_ fuel' (OnModel t) h2 = Returned (Extended symbols, Some h3) ->
        dialogue th P l sh (((evs ++ [EvCheck t hh a true l1 l2]) ++ oth) ++ [EvModel t]) h3 (ans ++ [(tr, symbols)]).

  (** clingo has found that every assignment the program allows is either one
      of the answers or violates a clause of the propagator *)
  Definition over (P : (Z -> Prop) -> Prop) (sh : shot V symbol) (h : handle) (ans : list reply_) : Prop := exists x, hd_prop h = Some (inj x) /\
    forall tr : Z -> Prop, assignment tr -> P tr -> (forall y, y ∈ ans -> ~ forall c, tr (m c) <-> y.1 (m c) = true) -> ~ forall c, c ∈ w_log (ob_world x) -> c ∉ sh_log sh -> clause_true tr c.
End dialogue.

Section says.
  Context (show : symbol -> list ascii) (srt : list symbol -> list symbol) (m : Z -> Z) (P : (Z -> Prop) -> Prop) (l : list tatom).
  (** every answer is an assignment the program allows; the numbers printed for it
      are a solution, and the objective printed is its value *)
  Definition answers_solve (ans : list reply_) : Prop := forall tr symbols, (tr, symbols) ∈ ans -> P (holds_in tr) /\
    forall shown, exists pairs obj, text_of_answer show shown pairs obj (print_model show srt shown symbols) /\
      forall R, reading pairs R -> RationalQ.eventually (fun e => solves m (at_all e R) tr l /\
        forall txt b r, obj = Some (txt, b) -> shows txt r -> objective_means (at_all e R) (tru m tr) l (at_eps e r)).
  Definition unanswered (ans : list reply_) (tr : Z -> bool) : Prop :=
    assignment (holds_in tr) /\ consistent m tr /\ P (holds_in tr) /\ forall x, x ∈ ans -> ~ same_model m tr x.1.
  (** no assignment the program allows has a solution, unless it is among the answers *)
  Definition answers_exhaust (ans : list reply_) : Prop := forall tr, unanswered ans tr -> ~ exists A, solves m A tr l.
  (** the last answer: an objective value [txt] is printed.  If it is marked as
      the optimum, it is the value of a solution, no solution of any assignment
      the program allows is better by the step [g], and solutions of assignments
      that are not among the answers are worse than that; otherwise the objective
      has no upper bound.  Without answers there is no solution. *)
  Definition last_is_optimal (g : RatQ) (ans : list reply_) : Prop :=
    (ans = [] -> forall tr, assignment (holds_in tr) -> consistent m tr -> P (holds_in tr) -> ~ exists A, solves m A tr l) /\
    forall before tr symbols shown, ans = before ++ [(tr, symbols)] ->
      exists pairs txt b, text_of_answer show shown pairs (Some (txt, b)) (print_model show srt shown symbols) /\
        (b = true -> exists r, shows txt r /\
          RationalQ.eventually (fun e => exists A, solves m A tr l /\ objective_means A (tru m tr) l (at_eps e r)) /\
          forall tr' A y, assignment (holds_in tr') -> consistent m tr' -> P (holds_in tr') -> solves m A tr' l -> objective_means A (tru m tr') l y ->
            RationalQ.eventually (fun e => (y <= at_eps e r)%Qc \/ (y < at_eps e r + at_eps e g)%Qc) /\
            (unanswered ans tr' -> RationalQ.eventually (fun e => (y < at_eps e r + at_eps e g)%Qc))) /\
        (b = false -> no_optimum m tr l).
End says.

(** ** Proofs *)
(** the symbols only depend on the thread that reports *)
Section same.
  Context {V : Type} `{VL : ValueLaws V} (pv : V -> list ascii).
  Lemma next_loop_vars (p p' : propagator V symbol) t : p_vars p' = p_vars p -> forall k cur, next_loop p' t k cur = next_loop p t k cur.
  Proof.
    intros E. assert (Es : forall i, p_get_symbol p' i = p_get_symbol p i) by (intros i; unfold p_get_symbol; now rewrite E).
    assert (En : forall i, p_n_values p' i = p_n_values p i) by (intros i; unfold p_n_values; now rewrite E).
    induction k as [|k IH]; intros cur; cbn [next_loop]; [reflexivity|]. rewrite En, Es. destruct (cur <? p_n_values p t); [|reflexivity].
    destruct (p_get_symbol p cur) as [y| | |]; cbn [mbind res_bind]; [|reflexivity..]. destruct (is_number y); [apply IH|reflexivity].
  Qed.
  Lemma iterate_vars (p p' : propagator V symbol) t : p_vars p' = p_vars p -> forall k cur, f_iterate k p' t cur = f_iterate k p t cur.
  Proof.
    intros E. induction k as [|k IH]; intros cur; cbn [f_iterate]; [reflexivity|]. unfold f_next. rewrite (next_loop_vars _ _ t E). replace (p_n_values p' t) with (p_n_values p t) by (unfold p_n_values; now rewrite E).
    destruct (next_loop p t _ cur) as [[i|]| | |]; cbn [mbind res_bind]; try reflexivity. rewrite IH. reflexivity.
  Qed.
  Lemma pairs_same (p p' : propagator V symbol) t : p_vars p' = p_vars p -> p_slvs p' !! t = p_slvs p !! t -> forall is, get_pairs p' t is = get_pairs p t is.
  Proof.
    intros E Es. induction is as [|i is IH]; cbn [get_pairs]; [reflexivity|]. unfold p_get_symbol, p_get_value, at_. rewrite E, Es, IH. reflexivity.
  Qed.
  Lemma extension_same (p p' : propagator V symbol) t : p_vars p' = p_vars p -> p_slvs p' !! t = p_slvs p !! t -> extension pv p' t = extension pv p t.
  Proof.
    intros E Es. unfold extension, extend_model. rewrite (iterate_vars p p' t E). replace (p_n_values p' t) with (p_n_values p t) by (unfold p_n_values; now rewrite E).
    destruct (f_iterate _ p t f_begin) as [is| | |]; cbn [mbind res_bind]; try reflexivity. rewrite (pairs_same _ _ _ E Es). unfold p_get_objective, at_. rewrite Es. reflexivity.
  Qed.
End same.

Section proofs.
  Context {V : Type} `{VL : ValueLaws V} (strict : bool) (inj : object V -> registered) (init : nat -> init_args V -> call).
  Context (rd : list ascii -> option Qc) (bk : backend) (m : Z -> Z).
  Notation call_ := (api_call rd bk m).
  Notation usage_ := (usage strict inj init rd bk m).
  Notation dialogue_ := (dialogue strict inj init rd bk m).
  Notation in_use_ := (in_use strict inj bk m).
  Notation opts th := (rg_options (clingolpx_register th)).
  Context (Hinj : forall x y, inj x = inj y -> x = y).
  Context (Hinit : forall fuel a h x, hd_count h = 1 -> hd_prop h = Some (inj x) -> call_ fuel (init 0 a) h = wrap inj h (c_init bk m a x)).
  Context (pr : V -> list ascii).
  Context (Hevent : forall fuel e h x, hd_count h = 1 -> hd_prop h = Some (inj x) -> call_ fuel (Callback 0 e) h = wrap inj h (c_event pr fuel e x)).
  Context (Hmodel : forall fuel t h x, hd_count h = 1 -> hd_prop h = Some (inj x) -> call_ fuel (OnModel t) h = wrap inj h (c_event pr fuel (EvModel t) x)).
  Context (Hdecide : forall fuel t l h x, hd_count h = 1 -> hd_prop h = Some (inj x) -> call_ fuel (Decide 0 t l) h = wrap inj h (c_decide t l x)).
  Context (Hquery : forall fuel q h x, hd_count h = 1 -> hd_prop h = Some (inj x) -> call_ fuel (Query q) h = wrap inj h (c_query pr q x)).
  Context (Hregister : forall fuel h, t_strict (hd_theory h) = strict ->
    call_ fuel (Register true true) h = Returned (Done, Some (Handle (hd_theory h) (Some (inj (new_object (t_opts (hd_theory h))))) (S (hd_count h))))).
  Context (Hshot : forall th l (sh : shot V symbol), t_strict th = strict -> validate_options th = true -> regular th m bk l sh -> shot_ok sh).
  Context (Hopts : forall th l (sh : shot V symbol), t_strict th = strict -> validate_options th = true -> regular th m bk l sh -> step_ok (V := V) (t_opts th)).

  (** what a call does to the object *)
  Definition effect (th : theory) (c : call) (a : Lifecycle.answer) (w w' : world V symbol) : Prop :=
    match c with
    | Callback _ e => adm e w /\ is_model e = false /\ step (opts th) e w w'
    | OnModel t => step (opts th) (EvModel t) w w' /\ forall symbols, a = Extended symbols -> extension pr (w_p w) t = Ok symbols
    | _ => w' = w
    end.
  Lemma use_same th l sh h x y : in_use_ th l sh h x -> hd_prop h = Some (inj y) -> y = x.
  Proof. intros I Hy. pose proof (iu_prop _ _ _ _ _ _ _ _ _ I) as Hp. rewrite Hy in Hp. injection Hp as Hp. exact (Hinj _ _ Hp). Qed.
  Lemma call_effect th l sh h x c fuel a h' : in_use_ th l (Some sh) h x -> legal c (ob_world x) -> call_ fuel c h = Returned (a, Some h') ->
    exists x', in_use_ th l (Some sh) h' x' /\ effect th c a (ob_world x) (ob_world x').
  Proof.
    intros I L E. pose proof (iu_prop _ _ _ _ _ _ _ _ _ I) as Hp. pose proof (iu_count _ _ _ _ _ _ _ _ _ I) as Hc. pose proof (iu_opts _ _ _ _ _ _ _ _ _ I) as Ho.
    pose proof (legal_fine strict inj rd bk m pr Hevent Hmodel Hdecide Hquery Hshot Hopts th l sh h x c fuel I L) as F.
    destruct F as [E'|(a' & h1 & E' & _ & x' & I')]; rewrite E in E'; [discriminate E'|]. injection E' as <- <-. exists x'. split; [exact I'|].
    pose proof (iu_prop _ _ _ _ _ _ _ _ _ I') as Hp'.
    assert (K : forall a0 x0, wrap inj h (Returned (a0, x0)) = Returned (a, Some h') -> x' = x0).
    { intros a0 x0 K1. cbn in K1. injection K1 as _ K1. rewrite <- K1 in Hp'. cbn in Hp'. injection Hp' as Hp'. symmetry. exact (Hinj _ _ Hp'). }
    destruct c as [| | | | | | | | |g e|g t lit|t|q|]; cbn [legal] in L; try contradiction; cbn [effect].
    - destruct L as (-> & Ha & Hm). split; [exact Ha|]. split; [destruct e; [reflexivity..|contradiction]|].
      rewrite (Hevent fuel e h x Hc Hp) in E. rewrite opts_of. exists fuel. rewrite <- Ho.
      destruct e as [t hh b lits|t hh b tot l1 l2|t|t]; [| | |contradiction].
      all: unfold c_event in E; destruct (wstep fuel (ob_opts x) _ (ob_world x)) as [w'| | |] eqn:Ew; cbn [guarded bare reply] in E; try discriminate E.
      all: try (rewrite (K _ _ E); reflexivity).
      all: destruct (iu_reach strict inj bk m Hshot Hopts _ _ _ _ _ I) as (_ & _ & G); exfalso; destruct (gu_no_ub _ _ _ _ _ _ G _ fuel Ha) as [_ N]; apply N; rewrite opts_of, <- Ho; exact Ew.
    - destruct L as (-> & Ht). rewrite (Hdecide fuel t lit h x Hc Hp) in E. destruct (iu_reach strict inj bk m Hshot Hopts _ _ _ _ _ I) as (Hr & So & G).
      destruct (C29_only_sign (t_opts th) sh (ob_world x) t lit So (reach_reach_any _ _ _ Hr) Ht) as (r & Er & _). unfold c_decide in E. rewrite Ho, Er in E. cbn [guarded reply] in E.
      rewrite (K _ _ E). reflexivity.
    - rewrite (Hmodel fuel t h x Hc Hp) in E. destruct (iu_reach strict inj bk m Hshot Hopts _ _ _ _ _ I) as (Hr & So & G).
      pose proof (gu_no_ub _ _ _ _ _ _ G _ fuel L) as [N1 N2]. rewrite opts_of, <- Ho in N1, N2. unfold c_event in E.
      destruct (extension pr (w_p (ob_world x)) t) as [ext| | |] eqn:Ex.
      + cbn [mbind res_bind] in E. destruct (wstep fuel (ob_opts x) (EvModel t) (ob_world x)) as [w'| | |] eqn:Ew; [| |now destruct N2|]; cbn [mbind res_bind guarded reply] in E; try discriminate E.
        rewrite (K _ _ E). cbn [ob_world with_world]. split; [exists fuel; rewrite opts_of, <- Ho; exact Ew|]. intros symbols ->. cbn in E. injection E as ->. reflexivity.
      + discriminate E.
      + exfalso. unfold extension in Ex. destruct (C28_extend_model (t_opts th) sh (ob_world x) t So (reach_reach_any _ _ _ Hr) (proj1 L)) as (l' & ob & El & _). rewrite El in Ex. discriminate Ex.
      + discriminate E.
    - rewrite (Hquery fuel q h x Hc Hp) in E.
      destruct (query_fine strict inj bk m pr Hshot Hopts _ _ _ _ _ q I L) as (a' & Eq & _). rewrite Eq in E. rewrite (K _ _ E). reflexivity.
  Qed.
  Lemma setting_use th l sh h x c fuel a h' : in_use_ th l sh h x -> setting c -> call_ fuel c h = Returned (a, Some h') -> in_use_ th l sh h' x.
  Proof.
    intros [I1 I2 I3 I4 I5 I6 I7] Hs E. destruct (setting_keeps rd bk m c fuel h a h' Hs E) as [E1 E2]. constructor; auto; congruence.
  Qed.
  (** calls on other threads are events on other threads *)
  Lemma others_app th t e1 e2 w1 w2 w3 : others (V := V) th t e1 w1 w2 -> others th t e2 w2 w3 -> others th t (e1 ++ e2) w1 w3.
  Proof.
    intros H1 H2. revert H1. induction H2 as [|evs w2 w3 e w4 _ IH A B C D]; intros H1; [rewrite app_nil_r; exact H1|]. rewrite app_assoc. exact (ot_step _ _ _ _ w3 e w4 (IH H1) A B C D).
  Qed.
  Lemma meanwhile_effect th l sh t oth h h2 : meanwhile_calls inj rd bk m t oth h h2 -> forall x, in_use_ th l (Some sh) h x ->
    exists x2, in_use_ th l (Some sh) h2 x2 /\ others th t oth (ob_world x) (ob_world x2).
  Proof.
    induction 1 as [h|oth h h1 c fuel a h2 _ IH Hs E|oth h h1 y c fuel a h2 _ IH Hy L He E]; intros x I.
    - exists x. split; [exact I|apply ot_refl].
    - destruct (IH x I) as (x1 & I1 & O1). exists x1. split; [exact (setting_use _ _ _ _ _ _ _ _ _ I1 Hs E)|exact O1].
    - destruct (IH x I) as (x1 & I1 & O1). pose proof (use_same _ _ _ _ _ _ I1 Hy) as ->. destruct (call_effect _ _ _ _ _ _ _ _ _ I1 L E) as (x2 & I2 & Ef). exists x2. split; [exact I2|].
      destruct c as [| | | | | | | | |g e|g u lit|u|q|]; cbn [legal] in L; try contradiction; cbn [elsewhere effect events_of] in *.
      + destruct Ef as (A & B & C). exact (ot_step _ _ _ _ _ e _ O1 He B A C).
      + rewrite app_nil_r, Ef. exact O1.
      + rewrite app_nil_r, Ef. exact O1.
  Qed.
  Lemma others_keep th t oth w1 w2 : others (V := V) th t oth w1 w2 -> p_vars (w_p w2) = p_vars (w_p w1) /\ p_slvs (w_p w2) !! t = p_slvs (w_p w1) !! t.
  Proof.
    induction 1 as [|evs w1 w2 e w3 _ [IH1 IH2] Ht Hm Ha Hs]; [split; reflexivity|]. destruct (other_step (opts th) e w2 w3 t Ht Hm Hs) as [_ ->]. split; [|exact IH2].
    destruct Hs as [fuel E]. rewrite (vars_kept (opts th) e w2 fuel w3 E). exact IH1.
  Qed.

  (** the state in which an answer was found *)
  Record found (th : theory) (l : list tatom) (sh : shot V symbol) (P : (Z -> Prop) -> Prop) (r : reply_) (y : Props_Optimum.answer (V := V)) : Prop := {
    fo_same : y.1 = r.1;
    fo_state : exists t w w1 hh a l1 l2, session th m bk l sh w /\ adm (EvCheck t hh a true l1 l2) w /\ step (opts th) (EvCheck t hh a true l1 l2) w w1 /\ w_log w1 = w_log w /\
      accepted w1 t /\ assignment_of m sh w1 t r.1 /\ P (holds_in r.1) /\ extension pr (w_p w1) t = Ok r.2 /\ p_get_objective (w_p w1) t = Ok y.2;
  }.
  Lemma dialogue_search th P l sh evs h ans : dialogue_ th P l sh evs h ans ->
    exists x ans', in_use_ th l (Some sh) h x /\ search th m bk P l sh evs (ob_world x) ans' /\ Forall2 (found th l sh P) ans ans'.
  Proof.
    induction 1 as [l0 sh0 h x a fuel h' x' U Hx E Hx' Hst R|l sh evs h ans c fuel a h' D IH Hs E|l sh evs h ans x c fuel a h' D IH Hx L Hn E|
      l sh evs h ans x t hh a l1 l2 fuel h1 x1 tr oth h2 x2 fuel' symbols h3 D IH Hx L E Hx1 Hlog Hac Has HP Hd Hmw Hx2 Lm Em].
    - pose proof (us_init _ _ _ _ _ _ th l0 sh0 h x a fuel h' x' U Hx E Hx' Hst R) as U'.
      destruct (usage_ok strict inj init rd bk m Hinj Hinit pr Hevent Hmodel Hdecide Hquery Hregister Hshot Hopts _ _ U') as [z I']. cbn in I'. pose proof (use_same _ _ _ _ _ _ I' Hx') as <-.
      destruct (usage_ok strict inj init rd bk m Hinj Hinit pr Hevent Hmodel Hdecide Hquery Hregister Hshot Hopts _ _ U) as [z I]. cbn in I. pose proof (use_same _ _ _ _ _ _ I Hx) as <-.
      exists x', []. split; [exact I'|]. split; [|constructor].
      pose proof I as [I1 I2 I3 I4 I5 I6 I7]. rewrite (Hinit fuel a h x I2 I1) in E. unfold c_init in E.
      destruct (evaluate_theory bk m (ia_atoms a) (ob_parsed x)) as [st| | |] eqn:Ee; cbn in E; try discriminate E.
      destruct (p_init _ _ _ _ _ _ _ _) as [[[p log] ok]| | |] eqn:Ei; cbn in E; try discriminate E. injection E as <-. cbn in Hx'. injection Hx' as Hx'.
      apply Hinj in Hx'. subst x'. cbn in Hst. destruct ok; [|discriminate Hst]. unfold shot_of in *. cbn [ob_parsed ob_world] in *.
      destruct sh0 as [s|].
      + apply (sr_next th m bk P _ l0 s (ob_world x)); [exact I7|exact R|reflexivity|]. cbn. rewrite opts_of, <- I5. exact Ei.
      + rewrite I7 in R, Ei |- *. cbn in R, Ei |- *. apply sr_first; [exact R|reflexivity|]. cbn. rewrite opts_of, <- I5. exact Ei.
    - destruct IH as (x & ans' & I & S & F). exists x, ans'. split; [exact (setting_use _ _ _ _ _ _ _ _ _ I Hs E)|]. split; assumption.
    - destruct IH as (y & ans' & I & S & F). pose proof (use_same _ _ _ _ _ _ I Hx) as ->. destruct (call_effect _ _ _ _ _ _ _ _ _ I L E) as (x' & I' & Ef). exists x', ans'. split; [exact I'|]. split; [|exact F].
      destruct c as [| | | | | | | | |g e|g u lit|u|q|]; cbn [legal] in L; try contradiction; cbn [effect events_of] in *.
      + destruct Ef as (A & B & C). exact (sr_step _ _ _ _ _ _ evs _ ans' e _ S B A C).
      + rewrite app_nil_r, Ef. exact S.
      + now destruct (Hn u).
      + rewrite app_nil_r, Ef. exact S.
    - destruct IH as (y & ans' & I & S & F). pose proof (use_same _ _ _ _ _ _ I Hx) as ->. destruct (call_effect _ _ _ _ _ _ _ _ _ I L E) as (z & I1 & Ef).
      pose proof (use_same _ _ _ _ _ _ I1 Hx1) as ->. cbn [effect] in Ef. destruct Ef as (A1 & _ & B1).
      destruct (meanwhile_effect th l sh t oth h1 h2 Hmw z I1) as (z2 & I2 & O2). pose proof (use_same _ _ _ _ _ _ I2 Hx2) as ->.
      destruct (call_effect _ _ _ _ _ _ _ _ _ I2 Lm Em) as (x3 & I3 & Ef3). cbn [effect] in Ef3. destruct Ef3 as [B3 Eext]. specialize (Eext symbols eq_refl).
      destruct (others_keep th t oth _ _ O2) as [Ev Es]. pose proof (extension_same pr _ _ t Ev Es) as Ee. rewrite Eext in Ee. symmetry in Ee.
      destruct (model_step (opts th) t _ _ B3) as (obj & Eo & _).
      assert (Eo1 : p_get_objective (w_p (ob_world z)) t = Ok obj) by (clear - Eo Es; unfold p_get_objective, at_ in Eo |- *; rewrite Es in Eo; exact Eo).
      exists x3, (ans' ++ [(tr, obj)]). split; [exact I3|]. split.
      + refine (sr_model th m bk P l sh evs (ob_world y) ans' t hh a l1 l2 (ob_world z) oth (ob_world z2) (ob_world x3) tr obj S A1 B1 Hlog Hac Has HP _ O2 Eo Lm B3).
        rewrite opts_of. exact Hd.
      + apply Forall2_app; [exact F|]. constructor; [|constructor]. constructor; [reflexivity|]. exists t, (ob_world y), (ob_world z), hh, a, l1, l2. cbn [fst snd].
        split; [exact (search_session th m bk P l sh evs _ ans' S)|]. auto 10.
  Qed.

  (** ** What the printed answers say *)
  Context (emb : V -> RatQ) (emb_shows : forall v, shows (pr v) (emb v)) (emb_at : forall e v, inst e v = at_eps e (emb v)).
  Context (show : symbol -> list ascii) (less : symbol -> symbol -> bool) (srt : list symbol -> list symbol).
  Context (srt_perm : forall l, srt l ≡ₚ l) (srt_sorted : forall l, ascending less (srt l)).
  Context (less_args : forall n x y l l' pos, less x y = true -> less (SFun n (x :: l) pos) (SFun n (y :: l') pos) = true).
  Section one.
    Context (th : theory) (P : (Z -> Prop) -> Prop) (l : list tatom) (sh : shot V symbol) (evs : list event) (h : handle) (ans : list reply_).
    Context (D : dialogue_ th P l sh evs h ans).
    Lemma dialogue_facts : exists x ans', in_use_ th l (Some sh) h x /\ search th m bk P l sh evs (ob_world x) ans' /\ Forall2 (found th l sh P) ans ans' /\
      (forall l' sh', regular th m bk l' sh' -> shot_ok (V := V) sh') /\ step_ok (V := V) (opts th).
    Proof.
      destruct (dialogue_search _ _ _ _ _ _ _ D) as (x & ans' & I & S & F). exists x, ans'. split; [exact I|]. split; [exact S|]. split; [exact F|].
      pose proof I as [_ _ Hs Hv _ _ St]. split; [intros l' sh' R; exact (Hshot th l' sh' Hs Hv R)|]. rewrite opts_of. exact (Hopts th l sh Hs Hv (session_current _ _ _ _ _ _ St)).
    Qed.
    Lemma found_same a a' : Forall2 (found th l sh P) a a' -> map fst a' = map fst a.
    Proof. induction 1 as [|r y a a' Hr _ IH]; [reflexivity|]. cbn [map]. rewrite IH, (fo_same _ _ _ _ _ _ Hr). reflexivity. Qed.
    Lemma found_in a a' y : Forall2 (found th l sh P) a a' -> y ∈ a' -> exists r, r ∈ a /\ r.1 = y.1.
    Proof.
      intros F Hy. assert (Hi : y.1 ∈ map fst a) by (rewrite <- (found_same _ _ F); apply elem_of_list_fmap; exists y; auto).
      apply elem_of_list_fmap in Hi as (r & E & Hr). exists r. auto.
    Qed.
    Lemma found_back a a' r : Forall2 (found th l sh P) a a' -> r ∈ a -> exists y, y ∈ a' /\ y.1 = r.1.
    Proof.
      intros F Hr. assert (Hi : r.1 ∈ map fst a') by (rewrite (found_same _ _ F); apply elem_of_list_fmap; exists r; auto).
      apply elem_of_list_fmap in Hi as (y & E & Hy). exists y. auto.
    Qed.
    Lemma over_finished x ans' : in_use_ th l (Some sh) h x -> Forall2 (found th l sh P) ans ans' -> over inj m P sh h ans -> finished m P sh (ob_world x) ans'.
    Proof.
      intros I F (y & Hy & Ho) tr Ht HP Hn. rewrite <- (use_same _ _ _ _ _ _ I Hy). apply (Ho tr Ht HP).
      intros r Hr. destruct (found_back _ _ _ F Hr) as (z & Hz & <-). exact (Hn z Hz).
    Qed.
    Lemma solve_all : answers_solve show srt m P l ans.
    Proof.
      destruct dialogue_facts as (x & ans' & I & S & F & Sh & So). intros tr symbols Hin.
      apply elem_of_list_lookup in Hin as [i Hi]. destruct (Forall2_lookup_l _ _ _ _ _ F Hi) as (y & Hy & Hf).
      destruct Hf as [_ (t & w & w1 & hh & a & l1 & l2 & S0 & Ha & Hs & Hlog & Hac & Has & HP & Ex & _)]. cbn [fst snd] in *. split; [exact HP|]. intros shown.
      pose proof (se_step _ _ _ _ _ _ _ _ S0 Ha Hs) as S1.
      destruct (prints_solution pr emb emb_shows emb_at show less srt srt_perm srt_sorted less_args m bk th l sh w1 t tr shown So Sh S1 Hac Has) as (theory & pairs & obj & Et & Htx & HR).
      rewrite Ex in Et. injection Et as <-. exists pairs, obj. split; [exact Htx|exact HR].
    Qed.
    Theorem exhaust_all : o_global (t_opts th) = None -> auxiliary m evs -> ignores evs P -> over inj m P sh h ans -> answers_exhaust m P l ans.
    Proof.
      intros Hg Hx Hi Ho. destruct dialogue_facts as (x & ans' & I & S & F & Sh & So). pose proof (over_finished x ans' I F Ho) as Hf.
      intros tr (Ht & Hc & HP & Hn).
      destruct (enumeration th m bk Sh So P l sh evs (ob_world x) ans' ltac:(rewrite opts_of; exact Hg) S Hx Hi Hf) as [_ He].
      apply (He tr Ht Hc HP). intros y Hy. destruct (found_in _ _ _ F Hy) as (r & Hr & <-). exact (Hn r Hr).
    Qed.
    Lemma step_value g : o_global (t_opts th) = Some g -> exists d, vstep (V := V) g = Some d /\ (forall e, inst e d = at_eps e g) /\ (RationalQ.eventually (fun e => (0 <= at_eps e g)%Qc) -> vle vzero d).
    Proof.
      intros Hg. destruct dialogue_facts as (x & ans' & I & S & F & Sh & So). destruct (vstep (V := V) g) as [d|] eqn:Ed.
      2: { exfalso. assert (E : o_global (opts th) = Some g) by (rewrite opts_of; exact Hg). exact (So g E Ed). }
      exists d. split; [reflexivity|].
      assert (Ei : forall e, inst e d = at_eps e g) by (intros e; unfold inst, at_eps; rewrite (vemb_step _ _ Ed); reflexivity). split.
      - exact Ei.
      - intros (e0 & He0 & Hp). apply (small_le_inst vzero d). exists e0. split; [exact He0|]. intros e E1 E2. rewrite Ei. replace (inst e (vzero (V := V))) with 0%Qc by (unfold inst; rewrite vemb_zero; cbn; ring).
        exact (Hp e E1 E2).
    Qed.
    Lemma lt_eventually y v d g : (forall e, inst e d = at_eps e g) -> vlt (vofq y) (vadd v d) -> RationalQ.eventually (fun e => (y < at_eps e (emb v) + at_eps e g)%Qc).
    Proof.
      intros Eg Hlt. destruct (inst_lt_small (vofq y) (vadd v d) Hlt) as (e0 & H0 & He). exists e0. split; [exact H0|]. intros e E1 E2. rewrite <- Eg, <- emb_at, <- (inst_ofq (V := V) e y).
      replace (inst e v + inst e d)%Qc with (inst e (vadd v d)); [exact (He e E1 E2)|]. unfold inst. rewrite vemb_add. cbn. ring.
    Qed.
    Theorem optimal_last g : o_global (t_opts th) = Some g -> RationalQ.eventually (fun e => (0 <= at_eps e g)%Qc) -> sh_obj sh <> [] ->
      auxiliary m evs -> ignores evs P -> over inj m P sh h ans -> last_is_optimal show srt m P l g ans.
    Proof.
      intros Hg Hpos Hob Hx Hi Ho. destruct (step_value g Hg) as (d & Ed & Eg & Hd). specialize (Hd Hpos). destruct dialogue_facts as (x & ans' & I & S & F & Sh & So). pose proof (over_finished x ans' I F Ho) as Hf.
      assert (Hg' : o_global (opts th) = Some g) by (rewrite opts_of; exact Hg).
      destruct (optimum th m bk Sh So P l sh evs (ob_world x) ans' g d Hg' Ed Hd Hob S Hx Hi Hf) as [H1 H2].
      pose proof (all_optima th m bk Sh So P l sh evs (ob_world x) ans' g d Hg' Ed Hd S Hx Hi Hf) as H3. split.
      - intros ->. apply Forall2_nil_inv_l in F as ->. exact (H1 eq_refl).
      - intros before tr symbols shown ->. apply Forall2_app_inv_l in F as F0; destruct F0 as (before' & last' & F1 & F2 & ->). apply Forall2_cons_inv_l in F2 as (y & nil' & Hy & F2 & ->). apply Forall2_nil_inv_l in F2 as ->.
        destruct Hy as [Etr (t & w & w1 & hh & a & l1 & l2 & S0 & Ha & Hs & Hlog & Hac & Has & HP & Ex & Eobj)]. destruct y as [tr' obj]. cbn [fst snd] in *. subst tr'.
        pose proof (se_step _ _ _ _ _ _ _ _ S0 Ha Hs) as S1. pose proof (session_reach th m bk Sh So l sh w1 S1) as Hr1.
        destruct (prints pr emb emb_shows show less srt srt_perm srt_sorted less_args (opts th) sh w1 t shown So (reach_reach_any _ _ _ Hr1) (proj1 Hac)) as (theory & pairs & o' & Et & Htx & _ & ob & Eob & Eo').
        rewrite Ex in Et. injection Et as <-. rewrite Eobj in Eob. injection Eob as <-.
        destruct (H2 before' tr obj eq_refl) as (v & b & -> & _ & Hb & Hu). subst o'. exists pairs, (pr v), b. split; [exact Htx|]. split; [|exact Hu].
        intros ->. destruct (Hb eq_refl) as [(e0 & He0 & Hatt) Hbest]. exists (emb v). split; [apply emb_shows|]. split.
        + exists e0. split; [exact He0|]. intros e E1 E2. rewrite <- emb_at. exact (Hatt e E1 E2).
        + intros tr' A y Ht Hc HP' HA Hy. split.
          * destruct (Hbest tr' A y Ht Hc HP' HA Hy) as [Hle|Hlt].
            -- destruct (le_eventually emb emb_at y v Hle) as (e1 & He1 & Q). exists e1. split; [exact He1|]. intros e E1 E2. left. exact (Q e E1 E2).
            -- destruct (lt_eventually y v d g Eg Hlt) as (e1 & He1 & Q). exists e1. split; [exact He1|]. intros e E1 E2. right. exact (Q e E1 E2).
          * intros (_ & _ & _ & Hn). apply (lt_eventually y v d g Eg).
            destruct (H3 tr' Ht Hc HP') as [H3' _].
            -- intros z Hz. destruct (found_in _ _ _ F Hz) as (r & Hr & <-). exact (Hn r Hr).
            -- exact (H3' before' tr v eq_refl A y HA Hy).
    Qed.
  End one.
End proofs.

(** ** C62 *)
Section c62.
  (** how clingo writes and sorts symbols *)
  Context (show : symbol -> list ascii) (less : symbol -> symbol -> bool) (srt : list symbol -> list symbol).
  Context (srt_perm : forall l, srt l ≡ₚ l) (srt_sorted : forall l, ascending less (srt l)).
  Context (less_args : forall n x y l l' pos, less x y = true -> less (SFun n (x :: l) pos) (SFun n (y :: l') pos) = true).
  Context (rd : list ascii -> option Qc) (bk : backend) (m : Z -> Z) (th : theory) (P : (Z -> Prop) -> Prop) (l : list tatom).
  Notation plain_dialogue := (dialogue false Plain InitPlain rd bk m th P).
  Notation strict_dialogue := (dialogue true Strict InitStrict rd bk m th P).
  Let S1 : forall th' l' (sh' : shot Qc symbol), t_strict th' = false -> validate_options th' = true -> regular th' m bk l' sh' -> shot_ok sh'.
  Proof. intros th' l' sh' X1 X2 R. exact (proj1 (plain_shot bk m th' l' sh' X1 X2 R)). Qed.
  Let S2 : forall th' l' (sh' : shot Qc symbol), t_strict th' = false -> validate_options th' = true -> regular th' m bk l' sh' -> step_ok (V := Qc) (t_opts th').
  Proof. intros th' l' sh' X1 X2 R. exact (proj2 (plain_shot bk m th' l' sh' X1 X2 R)). Qed.
  Let S3 : forall th' l' (sh' : shot RatQ symbol), t_strict th' = true -> validate_options th' = true -> regular th' m bk l' sh' -> shot_ok sh'.
  Proof. intros th' l' sh' X1 X2 R. exact (proj1 (strict_shot bk m th' l' sh' X1 X2 R)). Qed.
  Let S4 : forall th' l' (sh' : shot RatQ symbol), t_strict th' = true -> validate_options th' = true -> regular th' m bk l' sh' -> step_ok (V := RatQ) (t_opts th').
  Proof. intros th' l' sh' X1 X2 R. exact (proj2 (strict_shot bk m th' l' sh' X1 X2 R)). Qed.

  (** every answer printed is a solution *)
  Theorem C62_plain_answers (sh : shot Qc symbol) evs h ans : plain_dialogue l sh evs h ans -> answers_solve show srt m P l ans.
  Proof.
    exact (solve_all false Plain InitPlain rd bk m plain_inj (plain_init rd bk m) print_rat (plain_event rd bk m) (plain_model rd bk m) (plain_decide rd bk m) (plain_query rd bk m) (plain_register rd bk m) S1 S2
      plainly plain_shows plain_at show less srt srt_perm srt_sorted less_args th P l sh evs h ans).
  Qed.
  Theorem C62_strict_answers (sh : shot RatQ symbol) evs h ans : strict_dialogue l sh evs h ans -> answers_solve show srt m P l ans.
  Proof.
    exact (solve_all true Strict InitStrict rd bk m strict_inj (strict_init rd bk m) print_ratq (strict_event rd bk m) (strict_model rd bk m) (strict_decide rd bk m) (strict_query rd bk m) (strict_register rd bk m) S3 S4
      (fun v => v) C37_printed_text strict_at show less srt srt_perm srt_sorted less_args th P l sh evs h ans).
  Qed.
  (** without global optimization, whatever is not answered has no solution *)
  Theorem C62_plain_exhaustive (sh : shot Qc symbol) evs h ans : plain_dialogue l sh evs h ans -> o_global (t_opts th) = None ->
    auxiliary m evs -> ignores evs P -> over Plain m P sh h ans -> answers_exhaust m P l ans.
  Proof.
    exact (exhaust_all false Plain InitPlain rd bk m plain_inj (plain_init rd bk m) print_rat (plain_event rd bk m) (plain_model rd bk m) (plain_decide rd bk m) (plain_query rd bk m) (plain_register rd bk m) S1 S2
      th P l sh evs h ans).
  Qed.
  Theorem C62_strict_exhaustive (sh : shot RatQ symbol) evs h ans : strict_dialogue l sh evs h ans -> o_global (t_opts th) = None ->
    auxiliary m evs -> ignores evs P -> over Strict m P sh h ans -> answers_exhaust m P l ans.
  Proof.
    exact (exhaust_all true Strict InitStrict rd bk m strict_inj (strict_init rd bk m) print_ratq (strict_event rd bk m) (strict_model rd bk m) (strict_decide rd bk m) (strict_query rd bk m) (strict_register rd bk m) S3 S4
      th P l sh evs h ans).
  Qed.
  (** --objective=global: the last answer printed is the optimum *)
  Theorem C62_plain_optimum (sh : shot Qc symbol) evs h ans g : plain_dialogue l sh evs h ans -> o_global (t_opts th) = Some g -> RationalQ.eventually (fun e => (0 <= at_eps e g)%Qc) -> sh_obj sh <> [] ->
    auxiliary m evs -> ignores evs P -> over Plain m P sh h ans -> last_is_optimal show srt m P l g ans.
  Proof.
    intros D. exact (optimal_last false Plain InitPlain rd bk m plain_inj (plain_init rd bk m) print_rat (plain_event rd bk m) (plain_model rd bk m) (plain_decide rd bk m) (plain_query rd bk m) (plain_register rd bk m) S1 S2
      plainly plain_shows plain_at show less srt srt_perm srt_sorted less_args th P l sh evs h ans D g).
  Qed.
  Theorem C62_strict_optimum (sh : shot RatQ symbol) evs h ans g : strict_dialogue l sh evs h ans -> o_global (t_opts th) = Some g -> RationalQ.eventually (fun e => (0 <= at_eps e g)%Qc) -> sh_obj sh <> [] ->
    auxiliary m evs -> ignores evs P -> over Strict m P sh h ans -> last_is_optimal show srt m P l g ans.
  Proof.
    intros D. exact (optimal_last true Strict InitStrict rd bk m strict_inj (strict_init rd bk m) print_ratq (strict_event rd bk m) (strict_model rd bk m) (strict_decide rd bk m) (strict_query rd bk m) (strict_register rd bk m) S3 S4
      (fun v => v) C37_printed_text strict_at show less srt srt_perm srt_sorted less_args th P l sh evs h ans D g).
  Qed.
End c62.

(** ** An example: the search of Props_Optimum.v, from --objective=global on *)
Section lift.
  Context (th : theory) (m : Z -> Z) (P : (Z -> Prop) -> Prop) (l : list tatom) (sh : shot Qc symbol).
  Notation bk := Flint.
  Notation rd := no_numbers.
  Notation call_ := (api_call rd bk m).
  Notation dialogue_ := (dialogue false Plain InitPlain rd bk m th P l sh).
  Implicit Types x : object Qc.
  (** the object in a state [w] of the search *)
  Definition at_world evs (w : world Qc symbol) (ans : list reply_) : Prop :=
    exists h x, dialogue_ evs h ans /\ in_use false Plain bk m th l (Some sh) h x /\ ob_world x = w.
  Lemma call_for h x e w' : in_use false Plain bk m th l (Some sh) h x -> is_model e = false -> adm e (ob_world x) -> step (rg_options (clingolpx_register th)) e (ob_world x) w' ->
    exists fuel h', call_ fuel (Callback 0 e) h = Returned (match e with EvUndo _ => Nothing | _ => Done end, Some h') /\ legal (Callback 0 e) (ob_world x) /\ in_use false Plain bk m th l (Some sh) h' (with_world x w').
  Proof.
    intros I Hm Ha [fuel E]. rewrite opts_of, <- (iu_opts _ _ _ _ _ _ _ _ _ I) in E. exists fuel, (Handle (hd_theory h) (Some (Plain (with_world x w'))) 1).
    split; [|split; [split; [reflexivity|split; [exact Ha|destruct e; [exact Logic.I..|discriminate Hm]]]|exact (keep_step false Plain bk m _ _ _ _ _ _ fuel w' I Ha E)]].
    rewrite (plain_event rd bk m fuel e h x (iu_count _ _ _ _ _ _ _ _ _ I) (iu_prop _ _ _ _ _ _ _ _ _ I)). unfold c_event.
    destruct e as [t hh b lits|t hh b tot l1 l2|t|t]; [| | |discriminate Hm]; rewrite E; reflexivity.
  Qed.
  Lemma at_step evs w ans e w' : at_world evs w ans -> is_model e = false -> adm e w -> step (rg_options (clingolpx_register th)) e w w' -> at_world (evs ++ [e]) w' ans.
  Proof.
    intros (h & x & D & I & <-) Hm Ha Hs. destruct (call_for h x e w' I Hm Ha Hs) as (fuel & h' & E & L & I'). exists h', (with_world x w'). split; [|split; [exact I'|reflexivity]].
    refine (dl_call _ _ _ _ _ _ _ _ l sh evs h ans x (Callback 0 e) fuel _ h' D (iu_prop _ _ _ _ _ _ _ _ _ I) L _ E). discriminate.
  Qed.
  Lemma calls_for t oth w1 w2 : others th t oth w1 w2 -> forall h x, in_use false Plain bk m th l (Some sh) h x -> ob_world x = w1 ->
    exists h2 x2, meanwhile_calls Plain rd bk m t oth h h2 /\ in_use false Plain bk m th l (Some sh) h2 x2 /\ ob_world x2 = w2.
  Proof.
    induction 1 as [w|evs w1 w2 e w3 _ IH Ht Hm Ha Hs]; intros h x I Ew; [exists h, x; split; [apply mc_refl|split; assumption]|].
    destruct (IH h x I Ew) as (h2 & x2 & M & I2 & <-). destruct (call_for h2 x2 e w3 I2 Hm Ha Hs) as (fuel & h3 & E & L & I3). exists h3, (with_world x2 w3). split; [|split; [exact I3|reflexivity]].
    refine (mc_call _ _ _ _ _ evs h h2 x2 (Callback 0 e) fuel _ h3 M (iu_prop _ _ _ _ _ _ _ _ _ I2) L Ht E).
  Qed.
  Lemma at_answer evs w ans t hh a l1 l2 w1 tr oth w2 w3 : at_world evs w ans ->
    adm (EvCheck t hh a true l1 l2) w -> step (rg_options (clingolpx_register th)) (EvCheck t hh a true l1 l2) w w1 -> w_log w1 = w_log w -> accepted w1 t ->
    assignment_of m sh w1 t tr -> P (holds_in tr) -> (o_global (t_opts th) <> None -> delivered t evs w w1) ->
    others th t oth w1 w2 -> adm (EvModel t) w2 -> step (rg_options (clingolpx_register th)) (EvModel t) w2 w3 ->
    exists symbols, at_world (((evs ++ [EvCheck t hh a true l1 l2]) ++ oth) ++ [EvModel t]) w3 (ans ++ [(tr, symbols)]).
  Proof.
    intros (h & x & D & I & <-) Ha Hs Hlog Hac Has HP Hd Ho Ham Hsm.
    destruct (call_for h x (EvCheck t hh a true l1 l2) w1 I eq_refl Ha Hs) as (fuel & h1 & E & L & I1).
    destruct (calls_for t oth w1 w2 Ho h1 (with_world x w1) I1 eq_refl) as (h2 & x2 & M & I2 & <-).
    destruct (iu_reach false Plain bk m (fun th' l' sh' X1 X2 R => proj1 (plain_shot bk m th' l' sh' X1 X2 R)) (fun th' l' sh' X1 X2 R => proj2 (plain_shot bk m th' l' sh' X1 X2 R)) _ _ _ _ _ I2) as (Hr & So & G).
    destruct (C28_extend_model (t_opts th) sh (ob_world x2) t So (reach_reach_any _ _ _ Hr) (proj1 Ham)) as (l' & ob & El & _).
    assert (Ex : exists symbols, extension print_rat (w_p (ob_world x2)) t = Ok symbols) by (unfold extension; rewrite El; cbn [mbind res_bind]; eexists; reflexivity).
    destruct Ex as [symbols Ex]. exists symbols. pose proof (iu_opts _ _ _ _ _ _ _ _ _ I2) as Eo.
    destruct Hsm as [fuel' Ew]. rewrite opts_of, <- Eo in Ew.
    exists (Handle (hd_theory h2) (Some (Plain (with_world x2 w3))) 1), (with_world x2 w3). split; [|split; [exact (keep_step false Plain bk m _ _ _ _ _ _ fuel' w3 I2 Ham Ew)|reflexivity]].
    refine (dl_answer _ _ _ _ _ _ _ _ l sh evs h ans x t hh a l1 l2 fuel h1 (with_world x w1) tr oth h2 x2 fuel' symbols _ D
      (iu_prop _ _ _ _ _ _ _ _ _ I) L E (iu_prop _ _ _ _ _ _ _ _ _ I1) Hlog Hac Has HP Hd M (iu_prop _ _ _ _ _ _ _ _ _ I2) Ham _).
    rewrite (plain_model rd bk m fuel' t h2 x2 (iu_count _ _ _ _ _ _ _ _ _ I2) (iu_prop _ _ _ _ _ _ _ _ _ I2)). unfold c_event. rewrite Ex. cbn [mbind res_bind]. rewrite Ew. reflexivity.
  Qed.
End lift.

Notation opt_at := (at_world opt_th opt_m opt_P opt_pgm opt_shot).
Lemma sst_dialogue i evs w ans evs' w' ans' ra : opt_at evs w ra -> map fst ra = map fst ans -> sst i (evs, w, ans) = Some (evs', w', ans') ->
  exists ra', opt_at evs' w' ra' /\ map fst ra' = map fst ans'.
Proof.
  intros S Ef. destruct i as [e|t h a l1 l2 k oth]; cbn [sst].
  - destruct (is_model e) eqn:Em; [discriminate|]. destruct (s1 e w) as [w1|] eqn:E1; cbn [mbind option_bind]; [|discriminate]. apply s1_ok in E1 as [A B]. intros [= <- <- <-].
    exists ra. split; [|exact Ef]. exact (at_step _ _ _ _ _ evs w ra e w1 S Em A B).
  - destruct (s1 _ w) as [w1|] eqn:E1; cbn [mbind option_bind]; [|discriminate]. destruct (_ && _) eqn:Ec; [|discriminate].
    rewrite !andb_true_iff, negb_true_iff in Ec. destruct Ec as ((((C1 & C2) & C3) & C4) & C5).
    destruct (so t oth w1) as [w2|] eqn:E2; cbn [mbind option_bind]; [|discriminate]. destruct (p_get_objective (w_p w2) t) as [obj| | |] eqn:Eo; cbn [mbind option_bind]; try discriminate.
    destruct (s1 _ w2) as [w3|] eqn:E3; cbn [mbind option_bind]; [|discriminate]. intros [= <- <- <-]. apply s1_ok in E1 as [A1 B1], E3 as [A3 B3].
    apply bool_decide_eq_true in C1. apply Nat.ltb_lt in C2. apply asb_ok in C4 as [C4 C6].
    destruct (at_answer opt_th opt_m opt_P opt_pgm opt_shot evs w ra t h a l1 l2 w1 (only k) oth w2 w3 S A1 B1 C1 (conj C2 C3) C4 C6) as [symbols S']; [|exact (so_ok t oth [] w1 w1 w2 (ot_refl _ _ _) E2)|exact A3|exact B3|].
    + intros _ l Hl Hu. rewrite forallb_forall in C5. specialize (C5 l (proj1 (elem_of_list_In _ _) Hl)). rewrite bool_decide_eq_true_2 in C5 by exact Hu. apply bool_decide_eq_true in C5. exact C5.
    + exists (ra ++ [(only k, symbols)]). split; [exact S'|]. rewrite !map_app, Ef. reflexivity.
Qed.
Lemma srun_dialogue is : forall evs w ans evs' w' ans' ra, opt_at evs w ra -> map fst ra = map fst ans -> srun is (evs, w, ans) = Some (evs', w', ans') ->
  exists ra', opt_at evs' w' ra' /\ map fst ra' = map fst ans'.
Proof.
  induction is as [|i is IH]; intros evs w ans evs' w' ans' ra S Ef; cbn [srun]; [intros [= <- <- <-]; exists ra; split; assumption|].
  destruct (sst i (evs, w, ans)) as [[[evs1 w1] ans1]|] eqn:E1; cbn [mbind option_bind]; [|discriminate].
  destruct (sst_dialogue _ _ _ _ _ _ _ _ S Ef E1) as (ra1 & S1 & Ef1). exact (IH _ _ _ _ _ _ _ S1 Ef1).
Qed.
Lemma opt_evaluates : evaluate_theory Flint opt_m opt_pgm new_pstate = Ok opt_st.
Proof.
  assert (E : match evaluate_theory Flint opt_m opt_pgm new_pstate with Ok _ => true | _ => false end = true) by (vm_compute; reflexivity).
  unfold opt_st. destruct (evaluate_theory Flint opt_m opt_pgm new_pstate); try discriminate E. reflexivity.
Qed.
(** --objective=global --propagate-bounds=full --propagate-conflicts, registration, and init *)
Definition set_1 : theory := Theory (set_global (Some (mkRatQ 0%Qc 0%Qc)) default_options) false.
Definition set_2 : theory := Theory (Options SelectNone StoreNo (Some (mkRatQ 0%Qc 0%Qc)) PropFull false) false.
Lemma opt_registered : usage false Plain InitPlain no_numbers Flint opt_m (After opt_th [] None) (Handle opt_th (Some (Plain (new_object (t_opts opt_th)))) 1).
Proof.
  assert (U1 : usage false Plain InitPlain no_numbers Flint opt_m Before (Handle set_1 None 0)).
  { refine (us_setting _ _ _ _ _ _ Before new_handle (CommandLine "objective" (list_ascii_of_string "global")) 0 Done _ (us_create _ _ _ _ _ _) Logic.I eq_refl). }
  assert (U2 : usage false Plain InitPlain no_numbers Flint opt_m Before (Handle set_2 None 0)).
  { refine (us_setting _ _ _ _ _ _ Before _ (CommandLine "propagate-bounds" (list_ascii_of_string "full")) 0 Done _ U1 Logic.I eq_refl). }
  assert (U3 : usage false Plain InitPlain no_numbers Flint opt_m Before (Handle opt_th None 0)).
  { refine (us_setting _ _ _ _ _ _ Before _ (Flag "propagate-conflicts" true) 0 Done _ U2 Logic.I eq_refl). }
  refine (us_register _ _ _ _ _ _ _ 0 _ U3 eq_refl eq_refl eq_refl).
Qed.
Lemma start_dialogue th m P l st (sh : shot Qc symbol) h p log : usage false Plain InitPlain no_numbers Flint m (After th [] None) h -> hd_prop h = Some (Plain (new_object (t_opts th))) -> hd_count h = 1 ->
  evaluate_theory Flint m l new_pstate = Ok st -> sh = Shot (sh_host sh) (sh_sort sh) (sh_threads sh) (ps_iqs st) (ps_obj st) [] -> regular th m Flint l sh ->
  init_of th sh = Ok (p, log, true) -> at_world th m P l sh [] (start p log) [].
Proof.
  intros U Hp Hc Ee Es R E. unfold init_of in E. rewrite opts_of in E. destruct sh as [hh so n iq ob lg]. cbn [sh_host sh_sort sh_threads sh_iqs sh_obj] in E, Es. injection Es as -> -> ->.
  set (a := InitArgs _ l n hh so). set (x' := Object (t_opts th) st (start p log) Searching).
  set (h' := Handle (hd_theory h) (Some (Plain x')) 1).
  assert (Ec : api_call no_numbers Flint m 0 (InitPlain 0 a) h = Returned (Done, Some h')).
  { rewrite (plain_init no_numbers Flint m 0 a h _ Hc Hp). unfold c_init, a. cbn [ia_atoms ob_parsed new_object]. rewrite Ee. cbn [mbind res_bind ia_host ia_sort ia_threads ob_opts ob_world w_p w_log new_object].
    rewrite E. reflexivity. }
  pose proof (dl_init false Plain InitPlain no_numbers Flint m th P [] None h _ a 0 h' x' U Hp Ec eq_refl eq_refl R) as D.
  exists h', x'. split; [exact D|]. split; [|reflexivity].
  pose proof (us_init false Plain InitPlain no_numbers Flint m th [] None h _ a 0 h' x' U Hp Ec eq_refl eq_refl R) as U'.
  destruct (usage_ok false Plain InitPlain no_numbers Flint m plain_inj (plain_init no_numbers Flint m) print_rat (plain_event no_numbers Flint m) (plain_model no_numbers Flint m) (plain_decide no_numbers Flint m) (plain_query no_numbers Flint m) (plain_register no_numbers Flint m)
    (fun th' l' sh' X1 X2 R' => proj1 (plain_shot Flint m th' l' sh' X1 X2 R')) (fun th' l' sh' X1 X2 R' => proj2 (plain_shot Flint m th' l' sh' X1 X2 R')) _ _ U') as [z I].
  pose proof (iu_prop _ _ _ _ _ _ _ _ _ I) as Hz. cbn [hd_prop h'] in Hz. injection Hz as Hz. rewrite Hz. exact I.
Qed.

Lemma opt_shot_parts : opt_shot = Shot (sh_host opt_shot) (sh_sort opt_shot) (sh_threads opt_shot) (ps_iqs opt_st) (ps_obj opt_st) [].
Proof. unfold opt_shot. cbn [sh_host sh_sort sh_threads]. reflexivity. Qed.
Lemma opt_start p log : opt_init = Ok (p, log, true) -> opt_at [] (start p log) [].
Proof.
  unfold opt_init. intros E. eapply start_dialogue; [exact opt_registered|reflexivity|reflexivity|exact opt_evaluates|exact opt_shot_parts|exact opt_regular|exact E].
Qed.
Lemma three_values (ys : list (Props_Optimum.answer (V := Qc))) (a b c : Qc * bool) : length ys = 3 -> omap snd ys = [a; b; c] -> map snd ys = [Some a; Some b; Some c].
Proof.
  intros Hl. destruct ys as [|[t1 [v1|]] [|[t2 [v2|]] [|[t3 [v3|]] [|y ys]]]]; try discriminate Hl; cbn; intros E; try discriminate E. injection E as -> -> ->. reflexivity.
Qed.
(** three answers, and the search is over: the hypotheses of the theorems hold;
    the last symbols say that the optimum is 9 *)
Theorem C62_example : exists evs h ans, dialogue false Plain InitPlain no_numbers Flint opt_m opt_th opt_P opt_pgm opt_shot evs h ans /\
  auxiliary opt_m evs /\ ignores evs opt_P /\ over Plain opt_m opt_P opt_shot h ans /\
  exists s1 s2 s3, ans = [(only 11, s1); (only 21, s2); (only 31, s3)] /\ SFun "__lpx_objective" [SStr "9"; SNum 1] true ∈ s3.
Proof.
  destruct (opt_run opt_init eq_refl opt_run_ok) as (p & log & evs & w & ans & Ei & Er & E1 & E2 & E3).
  pose proof (srun_ok opt_items [] (start p log) [] evs w ans (opt_first p log Ei) Er) as S.
  assert (Hn : forall l, l ∈ new_lits evs -> (900 < l)%Z). { intros l Hl. unfold new_lits in Hl. rewrite E2 in Hl. revert l Hl. apply Forall_forall. repeat constructor. }
  pose proof (srun_answers _ _ _ _ _ _ _ Er) as Et. rewrite opt_kinds in Et. pose proof (opt_answers ans Et E3) as Ea.
  pose proof (opt_start p log Ei) as D0.
  destruct (srun_dialogue opt_items [] (start p log) [] evs w ans [] D0 eq_refl Er) as (ra & (h & x & D & I & Ex) & Ef).
  exists evs, h, ra. split; [exact D|]. split; [|split; [|split]].
  - intros y Hy. specialize (Hn y Hy). split; [lia|]. intros c. pose proof (opt_range c). lia.
  - intros tr tr' Hs HP. assert (K : forall l, (0 < l < 100)%Z -> tr l -> tr' l).
    { intros l Hl. apply Hs; intros Hi; apply Hn in Hi; lia. }
    destruct HP as [H1|[H1|H1]]; [left|right; left|right; right]; (apply K; [lia|exact H1]).
  - exists x. split; [exact (iu_prop _ _ _ _ _ _ _ _ _ I)|]. rewrite Ex. intros tr Ht HP Hm.
    apply (opt_finished w ans E1); [rewrite Ea; right; right; left|exact Ht|exact HP|].
    intros y Hy. assert (Hi : y.1 ∈ map fst ra) by (rewrite Ef; apply elem_of_list_fmap; exists y; split; [reflexivity|exact Hy]).
    apply elem_of_list_fmap in Hi as (r & Er1 & Hr). rewrite Er1. exact (Hm r Hr).
  - destruct (dialogue_facts false Plain InitPlain no_numbers Flint opt_m plain_inj (plain_init no_numbers Flint opt_m) print_rat (plain_event no_numbers Flint opt_m) (plain_model no_numbers Flint opt_m) (plain_decide no_numbers Flint opt_m) (plain_query no_numbers Flint opt_m) (plain_register no_numbers Flint opt_m)
      (fun th' l' sh' X1 X2 R' => proj1 (plain_shot Flint opt_m th' l' sh' X1 X2 R')) (fun th' l' sh' X1 X2 R' => proj2 (plain_shot Flint opt_m th' l' sh' X1 X2 R')) _ _ _ _ _ _ _ D) as (x' & ys & I' & S' & F & Sh & So).
    assert (Exx : ob_world x' = w) by (rewrite <- Ex; f_equal; pose proof (iu_prop _ _ _ _ _ _ _ _ _ I) as Hp; rewrite (iu_prop _ _ _ _ _ _ _ _ _ I') in Hp; injection Hp as ->; reflexivity).
    rewrite Exx in S'. pose proof (search_reports opt_th opt_m Flint Sh So _ _ _ _ _ _ S) as R1. pose proof (search_reports opt_th opt_m Flint Sh So _ _ _ _ _ _ S') as R2. rewrite R1 in R2.
    rewrite Ea in R2, Ef. cbn [omap list_omap snd fst map] in R2, Ef. clear - R2 Ef F.
    destruct ra as [|[a1 b1] [|[a2 b2] [|[a3 b3] [|? ?]]]]; try discriminate Ef. cbn [map fst] in Ef. injection Ef as -> -> ->. exists b1, b2, b3. split; [reflexivity|].
    pose proof (Forall2_length _ _ _ F) as Hl. symmetry in R2. apply (three_values ys _ _ _ (eq_sym Hl)) in R2.
    destruct (Forall2_lookup_l _ _ _ 2 _ F eq_refl) as (y & Hy & Hf). destruct Hf as [_ (t & w & w1 & hh & a & l1 & l2 & _ & _ & _ & _ & _ & _ & _ & Hx & Ho)]. cbn [snd] in Hx.
    assert (Ey : y.2 = Some (qz 9, true)). { destruct ys as [|y1 [|y2 [|y3 ys]]]; try discriminate Hy. cbn [map] in R2. injection R2 as _ _ R2 _. cbn in Hy. injection Hy as <-. exact R2. }
    rewrite Ey in Ho. clear - Hx Ho. unfold extension, extend_model in Hx. destruct (f_iterate _ _ _ _) as [is| | |]; cbn [mbind res_bind] in Hx; try discriminate Hx.
    destruct (get_pairs _ _ _) as [ps| | |]; cbn [mbind res_bind] in Hx; try discriminate Hx. rewrite Ho in Hx. cbn [mbind res_bind] in Hx. injection Hx as <-.
    apply elem_of_app. right. replace (SFun "__lpx_objective" [SStr "9"; SNum 1] true) with (objective_atom print_rat (qz 9) true); [left|]. vm_compute. reflexivity.
Qed.
