(** * C51, C52: the C interface as a whole *)

From Coq Require Import Ascii String.
From Verif Require Import Num Solver Spec Propagator World WorldProofs Reach WeakReach Observe Parsing ParseSpec ParsePrograms Main.
From Verif Require Import Props_Parsing Api Examples Props_Solver Props_Api Props_Program Grammar Props_Grammar Props_EndToEnd Lifecycle.

(** calls that concern the settings, or leave everything as it is *)
Definition setting (c : call) : Prop :=
  match c with Configure _ _ | CommandLine _ _ | Flag _ _ | Validate | RewriteAst _ | Prepare => True | _ => False end.

Section uses.
  Context {V : Type} `{VL : ValueLaws V} (strict : bool) (inj : object V -> registered) (init : nat -> init_args V -> call).
  Context (rd : list ascii -> option Qc) (bk : backend) (m : Z -> Z).
  Notation call_ := (api_call rd bk m).
  Implicit Types h : handle.
  Implicit Types w : world V symbol.

  (** calls clingo and the user may make during a search; the first (and only)
      registered facade has number 0 *)
  Definition legal (c : call) w : Prop :=
    match c with
    | Callback g e => g = 0 /\ adm e w /\ match e with EvModel _ => False | _ => True end
    | OnModel t => adm (EvModel t) w
    | Decide g t _ => g = 0 /\ t < length (w_th w)
    | Query (QGetSymbol i) => f_has_value (w_p w) 0 i = true
    | Query (QGetValue t i) => t < length (w_th w) /\ f_has_value (w_p w) t i = true
    | Query (QStatistics roots _ _) => roots = true
    | Query _ => True
    | _ => False
    end.

  Inductive phase :=
    | Before                                                    (* not registered *)
    | After (th : theory) (l : list tatom) (sh : option (shot V symbol)). (* registered with settings th; loaded program; current shot *)
  Definition shot_of (a : init_args V) (x x' : object V) : shot V symbol :=
    Shot (ia_host a) (ia_sort a) (ia_threads a) (ps_iqs (ob_parsed x')) (ps_obj (ob_parsed x')) (w_log (ob_world x)).

  (** [usage ph h]: create, then settings in any order and at any time, one
      registration with validated settings, any number of shots with regular
      programs that are not refuted by init, and any legal calls *)
  Inductive usage : phase -> handle -> Prop :=
    | us_create : usage Before new_handle
    | us_setting ph h c fuel a h' : usage ph h -> setting c -> call_ fuel c h = Returned (a, Some h') -> usage ph h'
    | us_register h fuel h' : usage Before h -> validate_options (hd_theory h) = true -> t_strict (hd_theory h) = strict ->
        call_ fuel (Register true true) h = Returned (Done, Some h') -> usage (After (hd_theory h) [] None) h'
    | us_init th l sh h x a fuel h' x' : usage (After th l sh) h -> hd_prop h = Some (inj x) ->
        call_ fuel (init 0 a) h = Returned (Done, Some h') -> hd_prop h' = Some (inj x') -> ob_status x' = Searching ->
        regular th m bk (l ++ ia_atoms a) (shot_of a x x') -> usage (After th (l ++ ia_atoms a) (Some (shot_of a x x'))) h'
    | us_use th l sh h x c fuel a h' : usage (After th l (Some sh)) h -> hd_prop h = Some (inj x) -> legal c (ob_world x) ->
        call_ fuel c h = Returned (a, Some h') -> usage (After th l (Some sh)) h'.

  (** what the API returns if the facade returns [r] *)
  Definition wrap h (r : left (answer * object V)) : left (answer * option handle) :=
    match r with Returned (a, x) => Returned (a, Some (Handle (hd_theory h) (Some (inj x)) 1)) | Escaped => Escaped | Undefined => Undefined | Running => Running end.
  Context (Hinj : forall x y, inj x = inj y -> x = y).
  Context (Hinit : forall fuel a h x, hd_count h = 1 -> hd_prop h = Some (inj x) ->
    call_ fuel (init 0 a) h = wrap h (c_init bk m a x)).
  Context (pr : V -> list ascii).
  Context (Hevent : forall fuel e h x, hd_count h = 1 -> hd_prop h = Some (inj x) ->
    call_ fuel (Callback 0 e) h = wrap h (c_event pr fuel e x)).
  Context (Hmodel : forall fuel t h x, hd_count h = 1 -> hd_prop h = Some (inj x) ->
    call_ fuel (OnModel t) h = wrap h (c_event pr fuel (EvModel t) x)).
  Context (Hdecide : forall fuel t l h x, hd_count h = 1 -> hd_prop h = Some (inj x) ->
    call_ fuel (Decide 0 t l) h = wrap h (c_decide t l x)).
  Context (Hquery : forall fuel q h x, hd_count h = 1 -> hd_prop h = Some (inj x) ->
    call_ fuel (Query q) h = wrap h (c_query pr q x)).
  Context (Hregister : forall fuel h, t_strict (hd_theory h) = strict -> 
    call_ fuel (Register true true) h = Returned (Done, Some (Handle (hd_theory h) (Some (inj (new_object (t_opts (hd_theory h))))) (S (hd_count h))))).
  (** from C46 *)
  Context (Hshot : forall th l (sh : shot V symbol), t_strict th = strict -> validate_options th = true -> regular th m bk l sh -> shot_ok sh).
  Context (Hopts : forall th l (sh : shot V symbol), t_strict th = strict -> validate_options th = true -> regular th m bk l sh -> step_ok (V := V) (t_opts th)).

  (** the handle belongs to a registration with [th] *)
  Record in_use (th : theory) (l : list tatom) (sh : option (shot V symbol)) h (x : object V) : Prop := {
    iu_prop : hd_prop h = Some (inj x);
    iu_count : hd_count h = 1;
    iu_strict : t_strict th = strict;
    iu_valid : validate_options th = true;
    iu_opts : ob_opts x = t_opts th;
    iu_loaded : loaded m bk l (ob_parsed x);
    iu_state : match sh with
               | None => ob_world x = World new_propagator [] [] []
               | Some s => session th m bk l s (ob_world x) end;
  }.
  Lemma opts_of th : rg_options (clingolpx_register th) = t_opts th.
  Proof. unfold clingolpx_register. now destruct (t_strict th). Qed.

  Lemma setting_keeps c fuel h a h' : setting c -> call_ fuel c h = Returned (a, Some h') -> hd_prop h' = hd_prop h /\ hd_count h' = hd_count h.
  Proof.
    destruct c; cbn [setting]; try contradiction; intros _ E; cbn [api_call] in E.
    - destruct (guarded _) as [[[th [msg|]]|]| | |]; try discriminate E; injection E as _ <-; split; reflexivity.
    - unfold settings in E. destruct (bare _) as [[th ok]| | |]; try discriminate E. injection E as _ <-; split; reflexivity.
    - destruct (String.eqb key "strict"); [injection E as _ <-; split; reflexivity|]. destruct (String.eqb key "propagate-conflicts"); injection E as _ <-; split; reflexivity.
    - destruct (guarded _) as [[?|]| | |]; try discriminate E; injection E as _ <-; split; reflexivity.
    - injection E as _ <-; split; reflexivity.
    - injection E as _ <-; split; reflexivity.
  Qed.

  Lemma iu_reach th l sh h x : in_use th l (Some sh) h x -> reach (t_opts th) sh (ob_world x) /\ step_ok (V := V) (t_opts th) /\ guarantees th m bk l sh (ob_world x).
  Proof.
    intros [Hp Hc Hs Hv Ho Hl Hst]. cbn in Hst. pose proof (session_current _ _ _ _ _ _ Hst) as R.
    assert (H1 : forall l' sh', regular th m bk l' sh' -> shot_ok sh') by (intros l' sh'; exact (Hshot th l' sh' Hs Hv)).
    assert (H2 : step_ok (V := V) (rg_options (clingolpx_register th))) by (rewrite opts_of; exact (Hopts th l sh Hs Hv R)).
    split; [|split].
    - rewrite <- (opts_of th). exact (session_reach th m bk H1 H2 l sh _ Hst).
    - rewrite <- (opts_of th). exact H2.
    - exact (session_guarantees th m bk H1 H2 l sh _ Hst).
  Qed.
  Definition fine (th : theory) (l : list tatom) (sh : shot V symbol) (fuel : nat) (c : call) h : Prop :=
    call_ fuel c h = Running \/ exists a h', call_ fuel c h = Returned (a, Some h') /\ a <> Failed /\ exists x', in_use th l (Some sh) h' x'.

  Lemma keep_same th l sh h x : in_use th l (Some sh) h x -> in_use th l (Some sh) (Handle (hd_theory h) (Some (inj x)) 1) x.
  Proof. intros [Hp Hc Hs Hv Ho Hl Hst]. constructor; auto. Qed.
  Lemma keep_step th l sh h x e fuel w' : in_use th l (Some sh) h x -> adm e (ob_world x) -> wstep fuel (ob_opts x) e (ob_world x) = Ok w' ->
    in_use th l (Some sh) (Handle (hd_theory h) (Some (inj (with_world x w'))) 1) (with_world x w').
  Proof.
    intros [Hp Hc Hs Hv Ho Hl Hst] Ha E. constructor; auto. cbn in Hst |- *. apply (se_step _ _ _ _ _ (ob_world x) e w' Hst Ha). exists fuel.
    rewrite opts_of, <- Ho. exact E.
  Qed.
  Lemma event_fine th l sh h x e fuel : in_use th l (Some sh) h x -> adm e (ob_world x) ->
    let r := wrap h (c_event pr fuel e x) in
    (r = Running /\ wstep fuel (ob_opts x) e (ob_world x) = Fuel) \/
    exists a h', r = Returned (a, Some h') /\ a <> Failed /\ exists x', in_use th l (Some sh) h' x'.
  Proof.
    intros I Ha. destruct (iu_reach _ _ _ _ _ I) as (Hr & So & G). pose proof (iu_opts _ _ _ _ _ I) as Ho.
    pose proof (gu_no_ub _ _ _ _ _ _ G e fuel Ha) as [N1 N2]. rewrite opts_of, <- Ho in N1, N2.
    destruct (wstep fuel (ob_opts x) e (ob_world x)) as [w'| | |] eqn:E; [|now destruct N1|now destruct N2|].
    - right. pose proof (keep_step _ _ _ _ _ _ _ _ I Ha E) as K. unfold c_event. destruct e as [t hh a lits|t hh a tot l1 l2|t|t]; rewrite E; cbn [wrap reply guarded bare].
      + exists Done, (Handle (hd_theory h) (Some (inj (with_world x w'))) 1). split; [reflexivity|]. split; [discriminate|]. eauto.
      + exists Done, (Handle (hd_theory h) (Some (inj (with_world x w'))) 1). split; [reflexivity|]. split; [discriminate|]. eauto.
      + exists Nothing, (Handle (hd_theory h) (Some (inj (with_world x w'))) 1). split; [reflexivity|]. split; [discriminate|]. eauto.
      + unfold extension. destruct (C28_extend_model (t_opts th) sh (ob_world x) t So (reach_reach_any _ _ _ Hr) (proj1 Ha)) as (l' & ob & -> & _). cbn [mbind res_bind guarded].
        eexists (Extended _), (Handle (hd_theory h) (Some (inj (with_world x w'))) 1). split; [reflexivity|]. split; [discriminate|]. eauto.
    - left. split; [|reflexivity]. unfold c_event. destruct e as [t hh a lits|t hh a tot l1 l2|t|t]; rewrite E; try reflexivity.
      unfold extension. destruct (C28_extend_model (t_opts th) sh (ob_world x) t So (reach_reach_any _ _ _ Hr) (proj1 Ha)) as (l' & ob & -> & _). reflexivity.
  Qed.
  Lemma query_fine th l sh h x q : in_use th l (Some sh) h x -> legal (Query q) (ob_world x) ->
    exists a, c_query pr q x = Returned (a, x) /\ a <> Failed.
  Proof.
    intros I L. destruct (iu_reach _ _ _ _ _ I) as (Hr & So & G). destruct q as [s|i|t|t cur|t i|t i|roots st ac]; cbn [legal] in L; cbn [c_query].
    - eexists. split; [reflexivity|discriminate].
    - unfold f_has_value in L. apply andb_true_iff in L as [L1 L2]. destruct i as [|i]; [discriminate|]. cbn [f_get_symbol]. unfold p_get_symbol, at_.
      unfold p_has_value in L2. apply Nat.ltb_lt in L2. replace (S i - 1) with i in L2 by lia. destruct (lookup_lt_is_Some_2 _ _ L2) as [y ->].
      cbn. eexists. split; [reflexivity|discriminate].
    - eexists. split; [reflexivity|discriminate].
    - unfold f_next. destruct (next_loop_ok (w_p (ob_world x)) t (p_n_values (w_p (ob_world x)) t - cur) cur ltac:(lia)) as (r & -> & _).
      cbn. eexists. split; [reflexivity|discriminate].
    - eexists. split; [reflexivity|discriminate].
    - destruct L as [Ht L]. unfold f_has_value in L. apply andb_true_iff in L as [L1 L2]. destruct i as [|i]; [discriminate|]. cbn [f_get_value].
      replace (S i - 1) with i in L2 by lia. destruct (proj1 (reads _ _ _ So (reach_reach_any _ _ _ Hr) t Ht) i L2) as [v ->].
      cbn. eexists. split; [reflexivity|discriminate].
    - subst roots. cbn. destruct (on_statistics _ _ _) as [s1 s2]. cbn. eexists. split; [reflexivity|discriminate].
  Qed.
  Lemma legal_fine th l sh h x c fuel : in_use th l (Some sh) h x -> legal c (ob_world x) -> fine th l sh fuel c h.
  Proof.
    intros I L. unfold fine. pose proof (iu_prop _ _ _ _ _ I) as Hp. pose proof (iu_count _ _ _ _ _ I) as Hc.
    destruct c as [| | | | | | | | |g e|g t lit|t|q|]; cbn [legal] in L; try contradiction.
    - destruct L as (-> & Ha & _). rewrite (Hevent fuel e h x Hc Hp). destruct (event_fine _ _ _ _ _ _ fuel I Ha) as [[-> _]|H1]; [left; reflexivity|right; exact H1].
    - destruct L as (-> & Ht). rewrite (Hdecide fuel t lit h x Hc Hp). right. destruct (iu_reach _ _ _ _ _ I) as (Hr & So & G).
      destruct (C29_only_sign (t_opts th) sh (ob_world x) t lit So (reach_reach_any _ _ _ Hr) Ht) as (r & E & _).
      unfold c_decide. rewrite (iu_opts _ _ _ _ _ I), E. cbn. do 2 eexists. split; [reflexivity|]. split; [discriminate|]. eexists. exact (keep_same _ _ _ _ _ I).
    - rewrite (Hmodel fuel t h x Hc Hp). destruct (event_fine _ _ _ _ _ _ fuel I L) as [[-> _]|H1]; [left; reflexivity|right; exact H1].
    - rewrite (Hquery fuel q h x Hc Hp). right. destruct (query_fine _ _ _ _ _ _ I L) as (a & -> & Ha). cbn. do 2 eexists. split; [reflexivity|]. split; [exact Ha|].
      eexists. exact (keep_same _ _ _ _ _ I).
  Qed.
  Lemma legal_returns th l sh h x c : in_use th l (Some sh) h x -> legal c (ob_world x) ->
    exists n, forall fuel, n <= fuel -> exists a h', call_ fuel c h = Returned (a, Some h') /\ a <> Failed.
  Proof.
    intros I L. pose proof (iu_prop _ _ _ _ _ I) as Hp. pose proof (iu_count _ _ _ _ _ I) as Hc. destruct (iu_reach _ _ _ _ _ I) as (Hr & So & G).
    assert (HE : forall e, adm e (ob_world x) -> exists n, forall fuel, n <= fuel -> exists a h', wrap h (c_event pr fuel e x) = Returned (a, Some h') /\ a <> Failed).
    { intros e Ha. destruct (gu_returns _ _ _ _ _ _ G e Ha) as [n Hn]. exists n. intros fuel Hf. destruct (Hn fuel Hf) as [w' E].
      rewrite opts_of, <- (iu_opts _ _ _ _ _ I) in E.
      destruct (event_fine _ _ _ _ _ _ fuel I Ha) as [[_ E']|(a & h' & E' & N & _)]; [rewrite E in E'; discriminate E'|]. eauto. }
    destruct c as [| | | | | | | | |g e|g t lit|t|q|]; cbn [legal] in L; try contradiction.
    - destruct L as (-> & Ha & _). destruct (HE e Ha) as [n Hn]. exists n. intros fuel Hf. rewrite (Hevent fuel e h x Hc Hp). exact (Hn fuel Hf).
    - exists 0. intros fuel _. destruct L as (-> & Ht). rewrite (Hdecide fuel t lit h x Hc Hp).
      destruct (C29_only_sign (t_opts th) sh (ob_world x) t lit So (reach_reach_any _ _ _ Hr) Ht) as (r & E & _).
      unfold c_decide. rewrite (iu_opts _ _ _ _ _ I), E. cbn. do 2 eexists. split; [reflexivity|discriminate].
    - destruct (HE (EvModel t) L) as [n Hn]. exists n. intros fuel Hf. rewrite (Hmodel fuel t h x Hc Hp). exact (Hn fuel Hf).
    - exists 0. intros fuel _. rewrite (Hquery fuel q h x Hc Hp). destruct (query_fine _ _ _ _ _ _ I L) as (a & -> & Ha). cbn. eauto.
  Qed.

  (** the invariant *)
  Definition usage_inv (ph : phase) h : Prop :=
    match ph with Before => hd_prop h = None /\ hd_count h = 0 | After th l sh => exists x, in_use th l sh h x end.
  Lemma usage_ok ph h : usage ph h -> usage_inv ph h.
  Proof.
    induction 1 as [|ph h c fuel a h' U IH Hs E|h fuel h' U IH Hv Ht E|th l sh h x a fuel h' x' U IH Hx E Hx' Hst R|th l sh h x c fuel a h' U IH Hx L E].
    - split; reflexivity.
    - destruct (setting_keeps c fuel h a h' Hs E) as [E1 E2]. destruct ph as [|th l sh]; cbn [usage_inv] in *.
      + rewrite E1, E2. exact IH.
      + destruct IH as [x I]. exists x. destruct I as [I1 I2 I3 I4 I5 I6 I7]. constructor; auto; congruence.
    - cbn [usage_inv] in *. rewrite (Hregister fuel h Ht) in E. injection E as <-. exists (new_object (t_opts (hd_theory h))). destruct IH as [_ Hc].
      constructor; cbn [hd_prop hd_count hd_theory]; [reflexivity|now rewrite Hc|exact Ht|exact Hv|reflexivity|exact (ld_new m bk)|reflexivity].
    - destruct IH as [y I]. pose proof (iu_prop _ _ _ _ _ I) as Hp. rewrite Hx in Hp. injection Hp as Hp. apply Hinj in Hp. subst y.
      pose proof I as [I1 I2 I3 I4 I5 I6 I7]. rewrite (Hinit fuel a h x I2 I1) in E. unfold c_init in E.
      destruct (evaluate_theory bk m (ia_atoms a) (ob_parsed x)) as [st| | |] eqn:Ee; cbn in E; try discriminate E.
      destruct (p_init _ _ _ _ _ _ _ _) as [[[p log] ok]| | |] eqn:Ei; cbn in E; try discriminate E. injection E as <-. cbn in Hx'. injection Hx' as Hx'.
      apply Hinj in Hx'. subst x'. cbn in Hst. destruct ok; [|discriminate Hst]. clear Hst. unfold shot_of in *. cbn [ob_parsed] in *.
      eexists. constructor; [cbn; reflexivity|reflexivity|exact I3|exact I4|exact I5| |].
      + cbn. exact (ld_next m bk l _ _ st I6 Ee).
      + cbn. destruct sh as [s|].
        * apply (se_next th m bk l s (ob_world x)); [exact I7|exact R|reflexivity|]. cbn. rewrite opts_of, <- I5. exact Ei.
        * rewrite I7 in R, Ei |- *. cbn in R, Ei |- *. apply se_first; [exact R|reflexivity|]. cbn. rewrite opts_of, <- I5. exact Ei.
    - destruct IH as [y I]. pose proof (iu_prop _ _ _ _ _ I) as Hp. rewrite Hx in Hp. injection Hp as Hp. apply Hinj in Hp. subst y.
      destruct (legal_fine _ _ _ _ _ c fuel I L) as [E'|(a' & h1 & E' & _ & x' & I')]; rewrite E in E'; [discriminate E'|]. injection E' as <- <-. exists x'. exact I'.
  Qed.
  Lemma init_returns th l sh h x a fuel st : in_use th l sh h x -> evaluate_theory bk m (ia_atoms a) (ob_parsed x) = Ok st ->
    regular th m bk (l ++ ia_atoms a) (Shot (ia_host a) (ia_sort a) (ia_threads a) (ps_iqs st) (ps_obj st) (w_log (ob_world x))) ->
    exists h', call_ fuel (init 0 a) h = Returned (Done, Some h').
  Proof.
    intros I E R. pose proof I as [I1 I2 I3 I4 I5 I6 I7]. rewrite (Hinit fuel a h x I2 I1). unfold c_init. rewrite E. cbn [mbind res_bind].
    assert (Hn : NoDup (p_vars (w_p (ob_world x)))).
    { destruct sh as [s|]; [|rewrite I7; constructor]. destruct (iu_reach _ _ _ _ _ I) as (Hr & So & _). exact (reach_nodup _ _ _ So (reach_reach_any _ _ _ Hr)). }
    destruct (p_init_ok (ob_opts x) _ (w_p (ob_world x)) (w_log (ob_world x)) (Hshot _ _ _ I3 I4 R) Hn) as (p' & log' & ok & Ei & _).
    cbn [sh_host sh_sort sh_threads sh_iqs sh_obj] in Ei. rewrite Ei. cbn. eauto.
  Qed.
  Lemma init_fails th l sh h x a fuel : in_use th l sh h x -> evaluate_theory bk m (ia_atoms a) (ob_parsed x) = Exn ->
    exists h', call_ fuel (init 0 a) h = Returned (Failed, Some h').
  Proof. intros I E. rewrite (Hinit fuel a h x (iu_count _ _ _ _ _ I) (iu_prop _ _ _ _ _ I)). unfold c_init. rewrite E. cbn. eauto. Qed.
  Theorem usage_session th l sh h : usage (After th l (Some sh)) h ->
    exists x, hd_prop h = Some (inj x) /\ ob_opts x = t_opts th /\ session th m bk l sh (ob_world x) /\ guarantees th m bk l sh (ob_world x).
  Proof.
    intros U. destruct (usage_ok _ _ U) as [x I]. exists x. destruct (iu_reach _ _ _ _ _ I) as (_ & _ & G). destruct I as [I1 I2 I3 I4 I5 I6 I7]. auto.
  Qed.
  Theorem usage_returns th l sh h x : usage (After th l (Some sh)) h -> hd_prop h = Some (inj x) -> forall c, legal c (ob_world x) ->
    (exists n, forall fuel, n <= fuel -> exists a h', call_ fuel c h = Returned (a, Some h') /\ a <> Failed) /\
    forall fuel, call_ fuel c h = Running \/ exists a h', call_ fuel c h = Returned (a, Some h') /\ a <> Failed.
  Proof.
    intros U Hx c L. destruct (usage_ok _ _ U) as [y I]. pose proof (iu_prop _ _ _ _ _ I) as Hp. rewrite Hx in Hp. injection Hp as Hp. apply Hinj in Hp. subst y.
    split; [exact (legal_returns _ _ _ _ _ c I L)|]. intros fuel. destruct (legal_fine _ _ _ _ _ c fuel I L) as [E|(a & h' & E & N & _)]; eauto.
  Qed.
  Theorem usage_init th l sh h x a fuel : usage (After th l sh) h -> hd_prop h = Some (inj x) ->
    (forall st, evaluate_theory bk m (ia_atoms a) (ob_parsed x) = Ok st ->
      regular th m bk (l ++ ia_atoms a) (Shot (ia_host a) (ia_sort a) (ia_threads a) (ps_iqs st) (ps_obj st) (w_log (ob_world x))) ->
      exists h', call_ fuel (init 0 a) h = Returned (Done, Some h')) /\
    (evaluate_theory bk m (ia_atoms a) (ob_parsed x) = Exn -> exists h', call_ fuel (init 0 a) h = Returned (Failed, Some h')).
  Proof.
    intros U Hx. destruct (usage_ok _ _ U) as [y I]. pose proof (iu_prop _ _ _ _ _ I) as Hp. rewrite Hx in Hp. injection Hp as Hp. apply Hinj in Hp. subst y.
    split; [intros st E R; exact (init_returns _ _ _ _ _ _ fuel st I E R)|intros E; exact (init_fails _ _ _ _ _ _ fuel I E)].
  Qed.
End uses.

(** ** The two kinds of registration *)
Notation plain_usage := (usage false Plain InitPlain).
Notation strict_usage := (usage true Strict InitStrict).
Arguments Before {V}. Arguments After {V}.

Section facades.
  Context (rd : list ascii -> option Qc) (bk : backend) (m : Z -> Z).
  Notation call_ := (api_call rd bk m).
  Lemma plain_inj x y : Plain x = Plain y -> x = y. Proof. now intros [= ->]. Qed.
  Lemma strict_inj x y : Strict x = Strict y -> x = y. Proof. now intros [= ->]. Qed.
  Ltac facade := let Hc := fresh in let Hp := fresh in intros Hc Hp; cbn [api_call]; unfold alive, on_object; rewrite Hc, ?Hp; cbn [Nat.eqb]; unfold lift, wrap;
    match goal with |- context [match ?r with Returned _ => _ | Escaped => _ | Undefined => _ | Running => _ end] => now destruct r as [[? ?]| | |] | _ => reflexivity end.
  Lemma plain_init fuel a h x : hd_count h = 1 -> hd_prop h = Some (Plain x) -> call_ fuel (InitPlain 0 a) h = wrap Plain h (c_init bk m a x). Proof. facade. Qed.
  Lemma strict_init fuel a h x : hd_count h = 1 -> hd_prop h = Some (Strict x) -> call_ fuel (InitStrict 0 a) h = wrap Strict h (c_init bk m a x). Proof. facade. Qed.
  Lemma plain_event fuel e h x : hd_count h = 1 -> hd_prop h = Some (Plain x) -> call_ fuel (Callback 0 e) h = wrap Plain h (c_event print_rat fuel e x). Proof. facade. Qed.
  Lemma strict_event fuel e h x : hd_count h = 1 -> hd_prop h = Some (Strict x) -> call_ fuel (Callback 0 e) h = wrap Strict h (c_event print_ratq fuel e x). Proof. facade. Qed.
  Lemma plain_model fuel t h x : hd_count h = 1 -> hd_prop h = Some (Plain x) -> call_ fuel (OnModel t) h = wrap Plain h (c_event print_rat fuel (EvModel t) x). Proof. facade. Qed.
  Lemma strict_model fuel t h x : hd_count h = 1 -> hd_prop h = Some (Strict x) -> call_ fuel (OnModel t) h = wrap Strict h (c_event print_ratq fuel (EvModel t) x). Proof. facade. Qed.
  Lemma plain_decide fuel t l h x : hd_count h = 1 -> hd_prop h = Some (Plain x) -> call_ fuel (Decide 0 t l) h = wrap Plain h (c_decide t l x). Proof. facade. Qed.
  Lemma strict_decide fuel t l h x : hd_count h = 1 -> hd_prop h = Some (Strict x) -> call_ fuel (Decide 0 t l) h = wrap Strict h (c_decide t l x). Proof. facade. Qed.
  Lemma handle_same h x : hd_count h = 1 -> hd_prop h = Some x -> h = Handle (hd_theory h) (Some x) 1.
  Proof. intros Hc Hp. destruct h as [th p n]. cbn in *. now subst. Qed.
  Lemma plain_query fuel q h x : hd_count h = 1 -> hd_prop h = Some (Plain x) -> call_ fuel (Query q) h = wrap Plain h (c_query print_rat q x).
  Proof.
    intros Hc Hp. destruct q; try (revert Hc Hp; facade).
    cbn. f_equal. f_equal. f_equal. exact (handle_same h _ Hc Hp).
  Qed.
  Lemma strict_query fuel q h x : hd_count h = 1 -> hd_prop h = Some (Strict x) -> call_ fuel (Query q) h = wrap Strict h (c_query print_ratq q x).
  Proof.
    intros Hc Hp. destruct q; try (revert Hc Hp; facade).
    cbn. f_equal. f_equal. f_equal. exact (handle_same h _ Hc Hp).
  Qed.
  Lemma plain_register fuel h : t_strict (hd_theory h) = false ->
    call_ fuel (Register true true) h = Returned (Done, Some (Handle (hd_theory h) (Some (Plain (new_object (t_opts (hd_theory h))))) (S (hd_count h)))).
  Proof. intros Hs. cbn. unfold clingolpx_register. rewrite Hs. reflexivity. Qed.
  Lemma strict_register fuel h : t_strict (hd_theory h) = true ->
    call_ fuel (Register true true) h = Returned (Done, Some (Handle (hd_theory h) (Some (Strict (new_object (t_opts (hd_theory h))))) (S (hd_count h)))).
  Proof. intros Hs. cbn. unfold clingolpx_register. rewrite Hs. reflexivity. Qed.
  Lemma plain_shot th l (sh : shot Qc symbol) : t_strict th = false -> validate_options th = true -> regular th m bk l sh -> shot_ok sh /\ step_ok (V := Qc) (t_opts th).
  Proof.
    intros Ht Hv R. destruct (re_loaded _ _ _ _ _ R) as (st & Hl & Ei & Eo).
    destruct (C46_plain_shots th bk m l st (sh_host sh) (sh_sort sh) (sh_threads sh) (sh_log sh) Ht Hv Hl (re_grammar _ _ _ _ _ R) (re_sort _ _ _ _ _ R)) as (_ & Hs & Ho & _).
    rewrite opts_of in Ho. split; [|exact Ho]. rewrite (shot_eta sh), Ei, Eo. exact Hs.
  Qed.
  Lemma strict_shot th l (sh : shot RatQ symbol) : t_strict th = true -> validate_options th = true -> regular th m bk l sh -> shot_ok sh /\ step_ok (V := RatQ) (t_opts th).
  Proof.
    intros Ht _ R. destruct (re_loaded _ _ _ _ _ R) as (st & Hl & Ei & Eo).
    destruct (C46_strict_shots th bk m l st (sh_host sh) (sh_sort sh) (sh_threads sh) (sh_log sh) Ht Hl (re_grammar _ _ _ _ _ R) (re_sort _ _ _ _ _ R)) as (_ & Hs & Ho & _).
    rewrite opts_of in Ho. split; [|exact Ho]. rewrite (shot_eta sh), Ei, Eo. exact Hs.
  Qed.

  (** ** C51: the settings at registration determine everything afterwards *)
  Theorem C51_plain th l sh h : plain_usage rd bk m (After th l (Some sh)) h ->
    exists x, hd_prop h = Some (Plain x) /\ ob_opts x = t_opts th /\ session th m bk l sh (ob_world x) /\ guarantees th m bk l sh (ob_world x).
  Proof.
    refine (usage_session false Plain InitPlain rd bk m plain_inj plain_init print_rat plain_event plain_model plain_decide plain_query plain_register _ _ th l sh h).
    - intros th' l' sh' H1 H2 R. exact (proj1 (plain_shot th' l' sh' H1 H2 R)).
    - intros th' l' sh' H1 H2 R. exact (proj2 (plain_shot th' l' sh' H1 H2 R)).
  Qed.
  Theorem C51_strict th l sh h : strict_usage rd bk m (After th l (Some sh)) h ->
    exists x, hd_prop h = Some (Strict x) /\ ob_opts x = t_opts th /\ session th m bk l sh (ob_world x) /\ guarantees th m bk l sh (ob_world x).
  Proof.
    refine (usage_session true Strict InitStrict rd bk m strict_inj strict_init print_ratq strict_event strict_model strict_decide strict_query strict_register _ _ th l sh h).
    - intros th' l' sh' H1 H2 R. exact (proj1 (strict_shot th' l' sh' H1 H2 R)).
    - intros th' l' sh' H1 H2 R. exact (proj2 (strict_shot th' l' sh' H1 H2 R)).
  Qed.

  (** Changing the settings after registration has no effect: however they are
      changed, every other call behaves as if they had not been. *)
  Inductive set_calls : handle -> handle -> Prop :=
    | sc_none h : set_calls h h
    | sc_more h h1 c fuel a h2 : set_calls h h1 -> setting c -> call_ fuel c h1 = Returned (a, Some h2) -> set_calls h h2.
  (** outcome without the settings: the answer, the facade and the facades created *)
  Definition visible (r : left (answer * option handle)) : left (answer * option (option registered * nat)) :=
    match r with
    | Returned (a, h) => Returned (a, match h with Some h' => Some (hd_prop h', hd_count h') | None => None end)
    | Escaped => Escaped | Undefined => Undefined | Running => Running
    end.
  Theorem C51_reconfigure h h' : set_calls h h' -> forall fuel c, ~ setting c -> (forall b b', c <> Register b b') ->
    visible (call_ fuel c h') = visible (call_ fuel c h).
  Proof.
    intros Hs.
    assert (hd_prop h' = hd_prop h /\ hd_count h' = hd_count h) as [E1 E2].
    { induction Hs as [h|h h1 c fuel a h2 _ IH Hc E]; [split; reflexivity|]. destruct (setting_keeps rd bk m c fuel h1 a h2 Hc E) as [-> ->]. exact IH. }
    intros fuel c Hc Hreg. destruct h as [th pr n], h' as [th' pr' n']. cbn in E1, E2. subst pr' n'.
    destruct c as [| | | |b b'| | |g a|g a|g e|g t l|t|q|]; cbn [setting] in Hc; try (exfalso; apply Hc; exact Logic.I); try (now destruct (Hreg b b')).
    - cbn [api_call]. unfold alive, on_object. cbn [hd_prop hd_count hd_theory]. destruct (S g =? n); [|reflexivity]. destruct pr as [x|]; [|reflexivity].
      match goal with |- visible (match ?r with _ => _ end) = _ => destruct r as [[? ?]| | |]; reflexivity end.
    - cbn [api_call]. unfold alive, on_object. cbn [hd_prop hd_count hd_theory]. destruct (S g =? n); [|reflexivity]. destruct pr as [x|]; [|reflexivity].
      match goal with |- visible (match ?r with _ => _ end) = _ => destruct r as [[? ?]| | |]; reflexivity end.
    - cbn [api_call]. unfold alive, on_object. cbn [hd_prop hd_count hd_theory]. destruct (S g =? n); [|reflexivity]. destruct pr as [x|]; [|reflexivity].
      match goal with |- visible (match ?r with _ => _ end) = _ => destruct r as [[? ?]| | |]; reflexivity end.
    - cbn [api_call]. unfold alive, on_object. cbn [hd_prop hd_count hd_theory]. destruct (S g =? n); [|reflexivity]. destruct pr as [x|]; [|reflexivity].
      match goal with |- visible (match ?r with _ => _ end) = _ => destruct r as [[? ?]| | |]; reflexivity end.
    - cbn [api_call]. unfold on_object. cbn [hd_prop hd_count hd_theory]. destruct pr as [x|]; [|reflexivity].
      match goal with |- visible (match ?r with _ => _ end) = _ => destruct r as [[? ?]| | |]; reflexivity end.
    - destruct q; try reflexivity; cbn [api_call]; unfold on_object; cbn [hd_prop hd_count hd_theory]; (destruct pr as [x|]; [|reflexivity]);
      match goal with |- visible (match ?r with _ => _ end) = _ => destruct r as [[? ?]| | |]; reflexivity end.
    - reflexivity.
  Qed.
  (** a theory object serves one control: after a second registration the
      callbacks of the first control use a deleted object *)
  Theorem C51_second_registration h fuel h' : call_ fuel (Register true true) h = Returned (Done, Some h') ->
    forall g, g < hd_count h -> (forall k a, call_ k (InitPlain g a) h' = Undefined /\ forall a, call_ k (InitStrict g a) h' = Undefined) /\
      (forall k e, call_ k (Callback g e) h' = Undefined) /\ (forall k t l, call_ k (Decide g t l) h' = Undefined).
  Proof.
    intros E g Hg. cbn [api_call guarded andb] in E. injection E as <-.
    assert (Hn : (S g =? S (hd_count h)) = false) by (apply Nat.eqb_neq; lia).
    split; [|split]; intros; cbn [api_call]; unfold alive; cbn [hd_count]; rewrite Hn; auto.
  Qed.

  (** ** C52: exceptions *)
  Lemma at_no_exn {A} (l : list A) i : at_ l i <> Exn.
  Proof. unfold at_. destruct (l !! i); discriminate. Qed.
  Lemma bind_no_exn {A B} (r : res A) (f : A -> res B) : r <> Exn -> (forall a, f a <> Exn) -> (a ← r; f a) <> Exn.
  Proof. intros H1 H2. destruct r; cbn; [apply H2|discriminate|now destruct H1|discriminate]. Qed.
  Lemma guard_no_exn b : guard_ub b <> Exn.
  Proof. unfold guard_ub. destruct b; discriminate. Qed.
  Lemma deref_no_exn {A} (x : option A) : deref x <> Exn.
  Proof. destruct x; discriminate. Qed.
  Section undo.
    Context {V : Type} `{Value V}.
    Lemma undo_no_exn (s : solver V) : undo s <> Exn.
    Proof.
      assert (H1 : forall t (s : solver V), undo_bounds t s <> Exn).
      { induction t as [|[[x r] b] t IH]; intros s0; cbn [undo_bounds]; [discriminate|]. apply bind_no_exn; [apply at_no_exn|intros _; apply IH]. }
      assert (H2 : forall t (s : solver V), undo_values t s <> Exn).
      { induction t as [|[[l x] v] t IH]; intros s0; cbn [undo_values]; [discriminate|]. apply bind_no_exn; [apply at_no_exn|intros _; apply IH]. }
      assert (H3 : forall t (s : solver V), clear_queue t s <> Exn).
      { induction t as [|x t IH]; intros s0; cbn [clear_queue]; [discriminate|]. apply bind_no_exn; [apply at_no_exn|intros _; apply IH]. }
      unfold undo. apply bind_no_exn; [apply deref_no_exn|intros f]. apply bind_no_exn; [apply guard_no_exn|intros _]. apply bind_no_exn; [apply H1|intros s1]. cbv zeta.
      apply bind_no_exn; [apply guard_no_exn|intros _]. apply bind_no_exn; [apply H2|intros s3]. apply bind_no_exn; [apply H3|intros s5]. discriminate.
    Qed.
    Lemma event_escapes print fuel e (x : object V) : c_event print fuel e x <> Escaped.
    Proof.
      assert (HG : forall A (r : res A) f, reply x (guarded r) f <> Escaped) by (intros A r f; destruct r; cbn; discriminate).
      destruct e as [t h a lits|t h a tot l1 l2|t|t]; try apply HG. unfold c_event. assert (HN : wstep fuel (ob_opts x) (EvUndo t) (ob_world x) <> Exn).
      { cbn [wstep]. apply bind_no_exn; [|discriminate]. unfold p_undo. apply bind_no_exn; [apply at_no_exn|intros [off s]].
        apply bind_no_exn; [apply undo_no_exn|discriminate]. }
      destruct (wstep fuel (ob_opts x) (EvUndo t) (ob_world x)); cbn; [discriminate|discriminate|now destruct HN|discriminate].
    Qed.
    Lemma query_escapes print q (x : object V) : c_query print q x <> Escaped.
    Proof.
      assert (HB : forall r : res answer, r <> Exn -> answered (bare r) x <> Escaped) by (intros r Hr; destruct r; cbn; [discriminate|discriminate|now destruct Hr|discriminate]).
      destruct q as [s|i|t|t cur|t i|t i|roots st ac]; cbn [c_query]; try (apply HB; discriminate).
      - apply HB. apply bind_no_exn; [|discriminate]. destruct i; [discriminate|]. apply at_no_exn.
      - apply HB. apply bind_no_exn; [|discriminate]. unfold f_next. generalize (p_n_values (w_p (ob_world x)) t - cur). intros k. revert cur.
        induction k as [|k IH]; intros cur; cbn [next_loop]; [discriminate|]. destruct (_ <? _); [|discriminate]. apply bind_no_exn; [apply at_no_exn|].
        intros y. destruct (is_number y); [apply IH|discriminate].
      - apply HB. apply bind_no_exn; [|discriminate]. destruct i; [discriminate|]. cbn [f_get_value]. unfold p_get_value. apply bind_no_exn; [apply at_no_exn|].
        intros [off s]. unfold get_value. apply bind_no_exn; [apply at_no_exn|discriminate].
      - destruct roots; cbn; [|discriminate]. destruct (on_statistics _ _ _). discriminate.
    Qed.
    Lemma decide_escapes t l (x : object V) : c_decide t l x <> Escaped.
    Proof. unfold c_decide. destruct (p_decide _ _ _ _); cbn; discriminate. Qed.
    Lemma init_escapes a (x : object V) : c_init bk m a x <> Escaped.
    Proof. unfold c_init. match goal with |- reply _ (guarded ?r) _ <> _ => destruct r; cbn; discriminate end. Qed.
    Lemma lift_escapes (inj : object V -> registered) r : r <> Escaped -> lift inj r <> Escaped.
    Proof. intros N. destruct r as [[? ?]| | |]; cbn; try discriminate. now destruct N. Qed.
  End undo.
  Lemma on_object_escapes h f : (forall x, f x <> Escaped) -> on_object h f <> Escaped.
  Proof.
    intros Hf. unfold on_object. destruct (hd_prop h) as [x|]; [|discriminate]. specialize (Hf x). destruct (f x) as [[? ?]| | |]; try discriminate. now destruct Hf.
  Qed.
  (** Whatever the state, legal or not: only the option callback for the
      objective lets an exception through. *)
  Theorem C52_never_escapes fuel c h : call_ fuel c h = Escaped ->
    exists v, c = CommandLine "objective" v /\ parse_objective rd v (t_opts (hd_theory h)) = Exn.
  Proof.
    intros E. destruct c as [k v|k v|k b| |b b'| | |g a|g a|g e|g t l|t|q|]; cbn [api_call] in E.
    - exfalso. destruct (configure k v (hd_theory h)) as [[th [msg|]]| | |]; discriminate E.
    - unfold settings, command_line in E. destruct (String.eqb_spec k "propagate-bounds"); [destruct (parse_propagate v _); discriminate E|].
      destruct (String.eqb_spec k "objective") as [-> |].
      + exists v. split; [reflexivity|]. destruct (parse_objective rd v (t_opts (hd_theory h))) as [[o ok]| | |]; try discriminate E. reflexivity.
      + exfalso. destruct (String.eqb_spec k "select"); [destruct (parse_select v _); discriminate E|]. destruct (String.eqb_spec k "store"); [destruct (parse_store v _); discriminate E|]. discriminate E.
    - exfalso. destruct (String.eqb k "strict"); [discriminate E|]. destruct (String.eqb k "propagate-conflicts"); discriminate E.
    - exfalso. destruct (validate_options (hd_theory h)); discriminate E.
    - exfalso. destruct (b && b'); discriminate E.
    - discriminate E.
    - discriminate E.
    - exfalso. revert E. unfold alive. destruct (S g =? hd_count h); [|discriminate]. apply on_object_escapes. intros [x|x]; [apply lift_escapes, init_escapes|discriminate].
    - exfalso. revert E. unfold alive. destruct (S g =? hd_count h); [|discriminate]. apply on_object_escapes. intros [x|x]; [discriminate|apply lift_escapes, init_escapes].
    - exfalso. revert E. unfold alive. destruct (S g =? hd_count h); [|discriminate]. apply on_object_escapes. intros [x|x]; apply lift_escapes, event_escapes.
    - exfalso. revert E. unfold alive. destruct (S g =? hd_count h); [|discriminate]. apply on_object_escapes. intros [x|x]; apply lift_escapes, decide_escapes.
    - exfalso. revert E. apply on_object_escapes. intros [x|x]; apply lift_escapes, event_escapes.
    - exfalso. revert E. destruct q; try (apply on_object_escapes; intros [x|x]; apply lift_escapes, query_escapes). discriminate.
    - discriminate E.
  Qed.
  (** the exception: --objective=global,x where x is not a rational number *)
  Theorem C52_refuted fuel h v : rd v = None -> iequals v "e" = false ->
    call_ fuel (CommandLine "objective" (list_ascii_of_string "global," ++ v)) h = Escaped.
  Proof.
    intros Hr He. cbn [api_call]. unfold settings, command_line. cbn [String.eqb Ascii.eqb Bool.eqb]. unfold parse_objective.
    replace (iequals (list_ascii_of_string "global," ++ v) "local") with false by reflexivity.
    replace (iequals_pre (list_ascii_of_string "global," ++ v) (list_ascii_of_string "global")) with (Some (list_ascii_of_string "," ++ v)) by reflexivity.
    cbn [list_ascii_of_string app]. replace (iequals_pre ("," :: v)%char (","%char :: [])) with (Some v) by (destruct v; reflexivity).
    rewrite He, Hr. reflexivity.
  Qed.
  (** Legal calls return and do not fail: *)
  Theorem C52_plain_calls th l sh h x : plain_usage rd bk m (After th l (Some sh)) h -> hd_prop h = Some (Plain x) -> forall c, legal c (ob_world x) ->
    (exists n, forall fuel, n <= fuel -> exists a h', call_ fuel c h = Returned (a, Some h') /\ a <> Failed) /\
    forall fuel, call_ fuel c h = Running \/ exists a h', call_ fuel c h = Returned (a, Some h') /\ a <> Failed.
  Proof.
    refine (usage_returns false Plain InitPlain rd bk m plain_inj plain_init print_rat plain_event plain_model plain_decide plain_query plain_register _ _ th l sh h x).
    - intros th' l' sh' H1 H2 R. exact (proj1 (plain_shot th' l' sh' H1 H2 R)).
    - intros th' l' sh' H1 H2 R. exact (proj2 (plain_shot th' l' sh' H1 H2 R)).
  Qed.
  Theorem C52_strict_calls th l sh h x : strict_usage rd bk m (After th l (Some sh)) h -> hd_prop h = Some (Strict x) -> forall c, legal c (ob_world x) ->
    (exists n, forall fuel, n <= fuel -> exists a h', call_ fuel c h = Returned (a, Some h') /\ a <> Failed) /\
    forall fuel, call_ fuel c h = Running \/ exists a h', call_ fuel c h = Returned (a, Some h') /\ a <> Failed.
  Proof.
    refine (usage_returns true Strict InitStrict rd bk m strict_inj strict_init print_ratq strict_event strict_model strict_decide strict_query strict_register _ _ th l sh h x).
    - intros th' l' sh' H1 H2 R. exact (proj1 (strict_shot th' l' sh' H1 H2 R)).
    - intros th' l' sh' H1 H2 R. exact (proj2 (strict_shot th' l' sh' H1 H2 R)).
  Qed.
  (** init succeeds for regular programs and fails with an error for malformed ones: *)
  Theorem C52_plain_init th l sh h x a fuel : plain_usage rd bk m (After th l sh) h -> hd_prop h = Some (Plain x) ->
    (forall st, evaluate_theory bk m (ia_atoms a) (ob_parsed x) = Ok st ->
      regular th m bk (l ++ ia_atoms a) (Shot (ia_host a) (ia_sort a) (ia_threads a) (ps_iqs st) (ps_obj st) (w_log (ob_world x))) ->
      exists h', call_ fuel (InitPlain 0 a) h = Returned (Done, Some h')) /\
    (evaluate_theory bk m (ia_atoms a) (ob_parsed x) = Exn -> exists h', call_ fuel (InitPlain 0 a) h = Returned (Failed, Some h')).
  Proof.
    refine (usage_init false Plain InitPlain rd bk m plain_inj plain_init print_rat plain_event plain_model plain_decide plain_query plain_register _ _ th l sh h x a fuel).
    - intros th' l' sh' H1 H2 R. exact (proj1 (plain_shot th' l' sh' H1 H2 R)).
    - intros th' l' sh' H1 H2 R. exact (proj2 (plain_shot th' l' sh' H1 H2 R)).
  Qed.
  Theorem C52_strict_init th l sh h x a fuel : strict_usage rd bk m (After th l sh) h -> hd_prop h = Some (Strict x) ->
    (forall st, evaluate_theory bk m (ia_atoms a) (ob_parsed x) = Ok st ->
      regular th m bk (l ++ ia_atoms a) (Shot (ia_host a) (ia_sort a) (ia_threads a) (ps_iqs st) (ps_obj st) (w_log (ob_world x))) ->
      exists h', call_ fuel (InitStrict 0 a) h = Returned (Done, Some h')) /\
    (evaluate_theory bk m (ia_atoms a) (ob_parsed x) = Exn -> exists h', call_ fuel (InitStrict 0 a) h = Returned (Failed, Some h')).
  Proof.
    refine (usage_init true Strict InitStrict rd bk m strict_inj strict_init print_ratq strict_event strict_model strict_decide strict_query strict_register _ _ th l sh h x a fuel).
    - intros th' l' sh' H1 H2 R. exact (proj1 (strict_shot th' l' sh' H1 H2 R)).
    - intros th' l' sh' H1 H2 R. exact (proj2 (strict_shot th' l' sh' H1 H2 R)).
  Qed.
  (** before registration the model and its assignment must not be asked for *)
  Theorem C52_unregistered fuel h : hd_prop h = None ->
    (forall t, call_ fuel (OnModel t) h = Undefined) /\ (forall q, (forall t, q <> QBegin t) -> call_ fuel (Query q) h = Undefined).
  Proof.
    intros Hp. split; [intros t; cbn; unfold on_object; now rewrite Hp|]. intros q Hq. destruct q; cbn; unfold on_object; try (now rewrite Hp). now destruct (Hq t).
  Qed.
End facades.

(** ** An example: options set, registered with strict semantics, reconfigured,
    the program of Props_Program.v, and a search up to the optimum *)
Definition no_numbers (v : list ascii) : option Qc := None.
Definition handle_with (th th0 : theory) (st : pstate) (w : world RatQ symbol) : handle := Handle th (Some (Strict (Object (t_opts th0) st w Searching))) 1.
Notation reg_handle th th0 w := (handle_with th th0 pgm_st w).
Lemma pgm_evaluates : evaluate_theory Flint shift_mapper pgm new_pstate = Ok pgm_st.
Proof.
  assert (E : match evaluate_theory Flint shift_mapper pgm new_pstate with Ok _ => true | _ => false end = true) by (vm_compute; reflexivity).
  unfold pgm_st. destruct (evaluate_theory Flint shift_mapper pgm new_pstate); try discriminate E. reflexivity.
Qed.
Lemma C51_example_start bk m l st (sh : shot RatQ symbol) p log : evaluate_theory bk m l new_pstate = Ok st ->
  p_init (sh_host sh) pgm_opts (sh_sort sh) (sh_threads sh) (ps_iqs st) (ps_obj st) new_propagator [] = Ok (p, log, true) ->
  sh = Shot (sh_host sh) (sh_sort sh) (sh_threads sh) (ps_iqs st) (ps_obj st) [] -> regular (a_theory true) m bk l sh ->
  strict_usage no_numbers bk m (After (a_theory true) l (Some sh)) (handle_with (Theory pgm_opts false) (a_theory true) st (start p log)).
Proof.
  intros Ee E Es R.
  assert (U1 : strict_usage no_numbers bk m Before (Handle (Theory default_options true) None 0)).
  { refine (us_setting _ _ _ _ _ _ Before new_handle (Flag "strict" true) 0 Done _ (us_create _ _ _ _ _ _) Logic.I eq_refl). }
  assert (U2 : strict_usage no_numbers bk m Before (Handle (a_theory true) None 0)).
  { refine (us_setting _ _ _ _ _ _ Before _ (Flag "propagate-conflicts" true) 0 Done _ U1 Logic.I eq_refl). }
  assert (U3 : strict_usage no_numbers bk m (After (a_theory true) [] None) (Handle (a_theory true) (Some (Strict (new_object pgm_opts))) 1)).
  { refine (us_register _ _ _ _ _ _ _ 0 _ U2 eq_refl eq_refl eq_refl). }
  assert (U4 : strict_usage no_numbers bk m (After (a_theory true) [] None) (Handle (Theory pgm_opts false) (Some (Strict (new_object pgm_opts))) 1)).
  { refine (us_setting _ _ _ _ _ _ _ _ (Flag "strict" false) 0 Done _ U3 Logic.I eq_refl). }
  destruct sh as [hh so n iq ob lg]. cbn [sh_host sh_sort sh_threads] in E, Es. injection Es as -> -> ->.
  set (a := InitArgs _ l n hh so).
  refine (us_init _ _ _ _ _ _ (a_theory true) [] None _ (new_object pgm_opts) a 0 (handle_with (Theory pgm_opts false) (a_theory true) st (start p log)) (Object pgm_opts st (start p log) Searching) U4 eq_refl _ eq_refl eq_refl R).
  cbn [api_call]. unfold alive, on_object. cbn [hd_count hd_prop hd_theory Nat.eqb]. unfold c_init. unfold a. cbn [ia_atoms ob_parsed new_object].
  rewrite Ee. cbn [mbind res_bind ia_host ia_sort ia_threads ob_opts ob_world w_p w_log]. unfold new_object. cbn [ia_host ia_sort ia_threads ob_opts ob_world w_p w_log]. rewrite E. reflexivity.
Qed.
Lemma C51_example_first bk m l st (sh : shot RatQ symbol) r w : evaluate_theory bk m l new_pstate = Ok st -> regular (a_theory true) m bk l sh ->
  sh_iqs sh = ps_iqs st -> sh_obj sh = ps_obj st -> sh_log sh = [] ->
  r = p_init (sh_host sh) pgm_opts (sh_sort sh) (sh_threads sh) (sh_iqs sh) (sh_obj sh) new_propagator [] -> first_of r = Some w ->
  strict_usage no_numbers bk m (After (a_theory true) l (Some sh)) (handle_with (Theory pgm_opts false) (a_theory true) st w).
Proof.
  intros Ee R E1 E2 E3 Er E. unfold first_of in E. destruct r as [[[p log] [|]]| | |]; try discriminate E. injection E as <-.
  apply C51_example_start; [exact Ee|rewrite <- E1, <- E2; symmetry; exact Er| |exact R]. rewrite <- E1, <- E2, <- E3. apply shot_eta.
Qed.
Lemma C51_example_aux (w0 : option (world RatQ symbol)) h0 e1 e2 :
  (forall w, w0 = Some w -> strict_usage no_numbers Flint shift_mapper (After (a_theory true) pgm (Some pgm_shot)) (reg_handle h0 (a_theory true) w)) ->
  (exists t h a l, e1 = EvPropagate t h a l) -> (exists t h a b l l', e2 = EvCheck t h a b l l') ->
  match w0 with
  | Some w0 => match runs 50 pgm_opts [e1] w0 with
      | Some w => admb e2 w && match wstep 50 pgm_opts e2 w with
          | Ok w' => bool_decide (w_log w' = w_log w) && accb w' && no_units w' && lits_as w' && objb w'
          | _ => false end
      | None => false end
  | None => false
  end = true ->
  exists w v, strict_usage no_numbers Flint shift_mapper (After (a_theory true) pgm (Some pgm_shot)) (reg_handle h0 (a_theory true) w) /\
    p_get_objective (w_p w) 0 = Ok (Some (v, true)) /\ vemb v = (qz 3, (-(1))%Qc) /\ legal (OnModel 0) w.
Proof.
  intros Hr He1 He2 E. destruct w0 as [w0|]; [|discriminate E]. specialize (Hr w0 eq_refl). cbn [runs] in E.
  destruct (admb e1 w0 && safeb e1 w0) eqn:Eb; [|discriminate E]. apply andb_true_iff in Eb as [Ea1 _].
  destruct (wstep 50 pgm_opts e1 w0) as [w| | |] eqn:E1; try discriminate E.
  apply andb_true_iff in E as [Ea E]. destruct (wstep 50 pgm_opts e2 w) as [w'| | |] eqn:E2; try discriminate E.
  rewrite !andb_true_iff in E. destruct E as ((((_ & L2) & L3) & L4) & L5). unfold accb in L2. apply andb_true_iff in L2 as [L2a L2b].
  apply Nat.ltb_lt in L2a. apply negb_true_iff in L2b. unfold objb in L5. destruct (p_get_objective (w_p w') 0) as [[[v bb]|]| | |] eqn:Eo; try discriminate L5.
  apply andb_true_iff in L5 as [-> L5]. apply bool_decide_eq_true in L5.
  assert (U1 : strict_usage no_numbers Flint shift_mapper (After (a_theory true) pgm (Some pgm_shot)) (reg_handle h0 (a_theory true) w)).
  { refine (us_use _ _ _ _ _ _ _ _ _ _ (Object (t_opts (a_theory true)) pgm_st w0 Searching) (Callback 0 e1) 50 Done _ Hr eq_refl _ _).
    - split; [reflexivity|]. split; [exact (admb_ok _ _ Ea1)|]. destruct He1 as (? & ? & ? & ? & ->). exact Logic.I.
    - cbn [api_call handle_with hd_count hd_prop hd_theory]. unfold alive, on_object. cbn [hd_count hd_prop Nat.eqb hd_theory]. unfold c_event. cbn [ob_opts ob_world].
      destruct He1 as (? & ? & ? & ? & ->). unfold handle_with, a_theory. cbn [hd_count hd_prop Nat.eqb hd_theory ob_opts ob_world t_opts]. fold pgm_opts. rewrite E1. reflexivity. }
  assert (U2 : strict_usage no_numbers Flint shift_mapper (After (a_theory true) pgm (Some pgm_shot)) (reg_handle h0 (a_theory true) w')).
  { refine (us_use _ _ _ _ _ _ _ _ _ _ (Object (t_opts (a_theory true)) pgm_st w Searching) (Callback 0 e2) 50 Done _ U1 eq_refl _ _).
    - split; [reflexivity|]. split; [exact (admb_ok _ _ Ea)|]. destruct He2 as (? & ? & ? & ? & ? & ? & ->). exact Logic.I.
    - cbn [api_call handle_with hd_count hd_prop hd_theory]. unfold alive, on_object. cbn [hd_count hd_prop Nat.eqb hd_theory]. unfold c_event. cbn [ob_opts ob_world].
      destruct He2 as (? & ? & ? & ? & ? & ? & ->). unfold handle_with, a_theory. cbn [hd_count hd_prop Nat.eqb hd_theory ob_opts ob_world t_opts]. fold pgm_opts. rewrite E2. reflexivity. }
  exists w', v. split; [exact U2|]. split; [exact Eo|]. split; [exact L5|]. split; [exact L2a|exact L2b].
Qed.
Example C51_example : exists h w v, strict_usage no_numbers Flint shift_mapper (After (a_theory true) pgm (Some pgm_shot)) (reg_handle h (a_theory true) w) /\
  t_strict h = false /\ p_get_objective (w_p w) 0 = Ok (Some (v, true)) /\ vemb v = (qz 3, (-(1))%Qc) /\ legal (OnModel 0) w.
Proof.
  destruct (C51_example_aux pgm_first (Theory pgm_opts false) pgm_prop pgm_check) as (w & v & U & E1 & E2 & L).
  - intros w. exact (C51_example_first Flint shift_mapper pgm pgm_st pgm_shot _ w pgm_evaluates pgm_regular eq_refl eq_refl eq_refl eq_refl).
  - do 4 eexists. reflexivity.
  - do 6 eexists. reflexivity.
  - exact pgm_runs_ok.
  - exists (Theory pgm_opts false), w, v. auto.
Qed.
