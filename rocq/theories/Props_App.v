(** * C54: the command line *)

From Coq Require Import Ascii String.
From Verif Require Import Num Solver Spec Propagator World Parsing Api Props_Options Grammar Lifecycle App Props_Lifecycle.

(** ** Specification *)
(** options as clingo hands them over: flags, and texts for the registered parsers *)
Inductive given : call -> string -> Prop :=
  | gv_flag k b : given (Flag k b) k
  | gv_value k v : given (CommandLine k v) k.
Definition option_keys (cs : list call) (ks : list string) : Prop := Forall2 given cs ks.

(** the setting for every option: as given, or the default *)
Record effective (rd : list ascii -> option Qc) (cs : list call) (th : theory) : Prop := {
  ef_strict : Flag "strict" (t_strict th) ∈ cs \/ (forall b, Flag "strict" b ∉ cs) /\ t_strict th = false;
  ef_conflicts : Flag "propagate-conflicts" (o_pconf (t_opts th)) ∈ cs \/ (forall b, Flag "propagate-conflicts" b ∉ cs) /\ o_pconf (t_opts th) = false;
  ef_bounds : (exists v w, CommandLine "propagate-bounds" v ∈ cs /\ said v w /\ propagate_word w (o_pmode (t_opts th))) \/
              (forall v, CommandLine "propagate-bounds" v ∉ cs) /\ o_pmode (t_opts th) = PropNone;
  ef_objective : (exists v, CommandLine "objective" v ∈ cs /\ objective_value rd v (o_global (t_opts th))) \/
                 (forall v, CommandLine "objective" v ∉ cs) /\ o_global (t_opts th) = None;
  ef_select : (exists v w, CommandLine "select" v ∈ cs /\ said v w /\ select_word w (o_select (t_opts th))) \/
              (forall v, CommandLine "select" v ∉ cs) /\ o_select (t_opts th) = SelectNone;
  ef_store : (exists v w, CommandLine "store" v ∈ cs /\ said v w /\ store_word w (o_store (t_opts th))) \/
             (forall v, CommandLine "store" v ∉ cs) /\ o_store (t_opts th) = StoreNo;
}.

(** an option as documented: a flag, or a key with one of its values *)
Inductive well_formed (rd : list ascii -> option Qc) : call -> Prop :=
  | wf_strict b : well_formed rd (Flag "strict" b)
  | wf_conflicts b : well_formed rd (Flag "propagate-conflicts" b)
  | wf_bounds v w x : said v w -> propagate_word w x -> well_formed rd (CommandLine "propagate-bounds" v)
  | wf_objective v x : objective_value rd v x -> well_formed rd (CommandLine "objective" v)
  | wf_select v w x : said v w -> select_word w x -> well_formed rd (CommandLine "select" v)
  | wf_store v w x : said v w -> store_word w x -> well_formed rd (CommandLine "store" v).

Lemma propagate_dec v : (exists w b, said v w /\ propagate_word w b) \/ (forall w b, propagate_word w b -> ~ said v w).
Proof. apply (words_dec propagate_word [("none", PropNone); ("changed", PropChanged); ("full", PropFull)]%string). wl. Qed.

Section c54.
  Context (rd : list ascii -> option Qc) (bk : backend) (m : Z -> Z).
  Notation call_ := (api_call rd bk m).
  Notation settings_ := (app_settings rd bk m).

  (** What one accepted option does *)
  Inductive sets : call -> theory -> theory -> Prop :=
    | st_strict b th : sets (Flag "strict" b) th (Theory (t_opts th) b)
    | st_conf b th : sets (Flag "propagate-conflicts" b) th (Theory (set_pconf b (t_opts th)) (t_strict th))
    | st_bounds v w x th : said v w -> propagate_word w x -> sets (CommandLine "propagate-bounds" v) th (Theory (set_pmode x (t_opts th)) (t_strict th))
    | st_obj v x th : objective_value rd v x -> sets (CommandLine "objective" v) th (Theory (set_global x (t_opts th)) (t_strict th))
    | st_select v w x th : said v w -> select_word w x -> sets (CommandLine "select" v) th (Theory (set_select x (t_opts th)) (t_strict th))
    | st_store v w x th : said v w -> store_word w x -> sets (CommandLine "store" v) th (Theory (set_store x (t_opts th)) (t_strict th)).

  Lemma sets_call c th th' h : sets c th th' -> hd_theory h = th -> call_ 0 c h = Returned (Done, Some (with_theory th' h)).
  Proof.
    intros S E. destruct S as [b th|b th|v w x th Hs Hw|v x th Hv|v w x th Hs Hw|v w x th Hs Hw]; subst th; cbn [api_call]; try reflexivity; unfold settings, command_line; cbn [String.eqb Ascii.eqb Bool.eqb].
    - rewrite (proj1 (C30_propagate_bounds v (t_opts (hd_theory h))) w x Hs Hw). reflexivity.
    - rewrite (proj1 (C30_objective rd v (t_opts (hd_theory h))) x Hv). reflexivity.
    - rewrite (proj1 (C30_select v (t_opts (hd_theory h))) w x Hs Hw). reflexivity.
    - rewrite (proj1 (C30_store v (t_opts (hd_theory h))) w x Hs Hw). reflexivity.
  Qed.
  Lemma parse_objective_said v o o' : parse_objective rd v o = Ok (o', true) -> exists x, objective_value rd v x.
  Proof.
    unfold parse_objective. intros E. destruct (iequals v "local") eqn:E0; [exists None; apply ow_local, iequals_spec; exact E0|].
    destruct (iequals_pre v (list_ascii_of_string "global")) as [[|c r]|] eqn:E1; [| |discriminate E].
    - exists (Some (mkRatQ 0%Qc 0%Qc)). apply ow_global, iequals_spec. unfold iequals. now rewrite E1.
    - destruct (iequals_pre (c :: r) (list_ascii_of_string ",")) as [s|] eqn:E2; [|discriminate E].
      apply iequals_pre_spec in E1 as (a & -> & E1). apply iequals_pre_spec in E2 as (b & -> & E2).
      pose proof (said_app a b "global" "," (proj2 (said_lower a "global") E1) (proj2 (said_lower b ",") E2)) as Hab.
      destruct (iequals s "e") eqn:E3.
      + exists (Some (mkRatQ 0%Qc 1%Qc)). apply ow_eps. apply iequals_spec in E3. rewrite app_assoc. exact (said_app (a ++ b) s "global," "e" Hab E3).
      + destruct (rd s) as [q|] eqn:Er; [|discriminate E]. exists (Some (mkRatQ q 0%Qc)). apply (ow_num rd _ s q); [exists (a ++ b); split; [apply app_assoc|exact Hab]|now apply iequals_no|exact Er].
  Qed.
  Lemma call_sets c k h a h' : given c k -> call_ 0 c h = Returned (a, Some h') -> a <> Failed ->
    exists th', sets c (hd_theory h) th' /\ h' = with_theory th' h.
  Proof.
    intros G E N. destruct G as [k b|k v]; cbn [api_call] in E.
    - destruct (String.eqb_spec k "strict") as [-> |]; [injection E as <- <-; eexists; split; [apply st_strict|reflexivity]|].
      destruct (String.eqb_spec k "propagate-conflicts") as [-> |]; [injection E as <- <-; eexists; split; [apply st_conf|reflexivity]|]. injection E as <- _. now destruct N.
    - unfold settings, command_line in E.
      destruct (String.eqb_spec k "propagate-bounds") as [-> |].
      { destruct (parse_propagate v (t_opts (hd_theory h))) as [o' [|]] eqn:Ep; cbn in E; injection E as <- <-; [|now destruct N].
        assert (exists w x, said v w /\ propagate_word w x) as (w & x & Hs & Hw).
        { destruct (propagate_dec v) as [D|D]; [exact D|]. rewrite (proj2 (C30_propagate_bounds v (t_opts (hd_theory h))) D) in Ep. discriminate Ep. }
        rewrite (proj1 (C30_propagate_bounds v (t_opts (hd_theory h))) w x Hs Hw) in Ep. injection Ep as <-. eexists. split; [eapply st_bounds; eassumption|reflexivity]. }
      destruct (String.eqb_spec k "objective") as [-> |].
      { destruct (parse_objective rd v (t_opts (hd_theory h))) as [[o' [|]]| | |] eqn:Ep; cbn in E; try discriminate E; injection E as <- <-; [|now destruct N].
        assert (exists x, objective_value rd v x) as (x & Hx).
        { exact (parse_objective_said v _ _ Ep). }
        rewrite (proj1 (C30_objective rd v (t_opts (hd_theory h))) x Hx) in Ep. injection Ep as <-. eexists. split; [eapply st_obj; eassumption|reflexivity]. }
      destruct (String.eqb_spec k "select") as [-> |].
      { destruct (parse_select v (t_opts (hd_theory h))) as [o' [|]] eqn:Ep; cbn in E; injection E as <- <-; [|now destruct N].
        assert (exists w x, said v w /\ select_word w x) as (w & x & Hs & Hw).
        { destruct (select_dec v) as [D|D]; [exact D|]. rewrite (proj2 (C30_select v (t_opts (hd_theory h))) D) in Ep. discriminate Ep. }
        rewrite (proj1 (C30_select v (t_opts (hd_theory h))) w x Hs Hw) in Ep. injection Ep as <-. eexists. split; [eapply st_select; eassumption|reflexivity]. }
      destruct (String.eqb_spec k "store") as [-> |].
      { destruct (parse_store v (t_opts (hd_theory h))) as [o' [|]] eqn:Ep; cbn in E; injection E as <- <-; [|now destruct N].
        assert (exists w x, said v w /\ store_word w x) as (w & x & Hs & Hw).
        { destruct (store_dec v) as [D|D]; [exact D|]. rewrite (proj2 (C30_store v (t_opts (hd_theory h))) D) in Ep. discriminate Ep. }
        rewrite (proj1 (C30_store v (t_opts (hd_theory h))) w x Hs Hw) in Ep. injection Ep as <-. eexists. split; [eapply st_store; eassumption|reflexivity]. }
      cbn in E. injection E as <- _. now destruct N.
  Qed.

  (** a command line that is accepted, step by step *)
  Inductive accepts : list call -> theory -> theory -> Prop :=
    | ac_nil th : accepts [] th th
    | ac_cons c cs th th1 th2 : sets c th th1 -> accepts cs th1 th2 -> accepts (c :: cs) th th2.
  Lemma with_same h : with_theory (hd_theory h) h = h.
  Proof. now destruct h. Qed.
  Lemma settings_accepts cs ks : option_keys cs ks -> forall h h', settings_ cs h = Returned (Some h') <-> exists th', accepts cs (hd_theory h) th' /\ h' = with_theory th' h.
  Proof.
    induction 1 as [|c k cs ks G _ IH]; intros h h'; cbn [app_settings].
    - split; [intros [= <-]; exists (hd_theory h); split; [constructor|symmetry; apply with_same]|]. intros (th' & A & ->). inversion A; subst. now rewrite with_same.
    - split.
      + intros E. destruct (call_ 0 c h) as [[a [h1|]]| | |] eqn:Ec; [|destruct a; discriminate E|discriminate E..].
        assert (Na : a <> Failed) by (intros ->; discriminate E).
        destruct (call_sets c k h a h1 G Ec Na) as (th1 & S & ->). assert (E' : settings_ cs (with_theory th1 h) = Returned (Some h')) by (destruct a; try exact E; now destruct Na).
        apply IH in E' as (th' & A & ->). exists th'. split; [exact (ac_cons _ _ _ _ _ S A)|reflexivity].
      + intros (th' & A & ->). inversion A as [|c0 cs0 th th1 th2 S A' E1 E2 E3]; subst. rewrite (sets_call c _ th1 h S eq_refl). cbn iota.
        apply IH. exists th'. split; [exact A'|reflexivity].
  Qed.

  (** independent options may be given in any order *)
  Lemma sets_swap c c' k k' th th1 th2 : given c k -> given c' k' -> k <> k' -> sets c th th1 -> sets c' th1 th2 ->
    exists th1', sets c' th th1' /\ sets c th1' th2.
  Proof.
    intros G G' N S S'.
    Ltac a_set := match goal with
      | |- sets (Flag _ _) ?th _ => first [exact (st_strict _ th)|exact (st_conf _ th)]
      | A : said ?v ?w, B : propagate_word ?w ?x |- sets (CommandLine "propagate-bounds" ?v) ?th _ => exact (st_bounds v w x th A B)
      | A : said ?v ?w, B : select_word ?w ?x |- sets (CommandLine "select" ?v) ?th _ => exact (st_select v w x th A B)
      | A : said ?v ?w, B : store_word ?w ?x |- sets (CommandLine "store" ?v) ?th _ => exact (st_store v w x th A B)
      | A : objective_value rd ?v ?x |- sets _ ?th _ => exact (st_obj v x th A)
      end.
    destruct th as [[o1 o2 o3 o4 o5] o6].
    destruct S; inversion G; subst; (inversion S'; subst); (inversion G'; subst); try (now destruct N); (eexists; split; [a_set|]); cbn [t_opts t_strict o_select o_store o_global o_pmode o_pconf set_select set_store set_global set_pmode set_pconf]; a_set.
  Qed.

  Lemma accepts_perm cs cs' : Permutation cs cs' -> forall ks th th', option_keys cs ks -> NoDup ks -> accepts cs th th' -> accepts cs' th th'.
  Proof.
    induction 1 as [|c cs cs' _ IH|c c' cs|cs cs1 cs' P1 IH1 P2 IH2]; intros ks th th' K N A.
    - exact A.
    - inversion A as [|c0 cs0 th0 th1 th2 S A' E1 E2 E3]; subst. inversion K as [|c0 k cs0 ks0 G K' E1 E2]; subst. apply NoDup_cons in N as [_ N].
      exact (ac_cons _ _ _ _ _ S (IH _ _ _ K' N A')).
    - inversion A as [|c0 cs0 th0 th1 th2 S A' E1 E2 E3]; subst. inversion A' as [|c0 cs0 th0 th3 th4 S' A'' E1 E2 E3]; subst.
      inversion K as [|c0 k cs0 ks0 G K' E1 E2]; subst. inversion K' as [|c0 k' cs0 ks1 G' K'' E1 E2]; subst.
      assert (Nk : k <> k') by (intros ->; apply NoDup_cons in N as [N _]; apply N; left).
      destruct (sets_swap _ _ _ _ _ _ _ G G' Nk S S') as (th1' & S1 & S2).
      exact (ac_cons _ _ _ _ _ S1 (ac_cons _ _ _ _ _ S2 A'')).
    - destruct (Permutation_Forall2 P1 K) as (ks1 & PK & K1). assert (N1 : NoDup ks1) by now rewrite <- PK.
      exact (IH2 _ _ _ K1 N1 (IH1 _ _ _ K N A)).
  Qed.
  Lemma sets_well_formed c th th' : sets c th th' -> well_formed rd c.
  Proof. destruct 1; econstructor; eassumption. Qed.
  Lemma well_formed_sets c th : well_formed rd c -> exists th', sets c th th'.
  Proof. destruct 1; eexists; econstructor; eassumption. Qed.
  Lemma accepts_well_formed cs th th' : accepts cs th th' -> Forall (well_formed rd) cs.
  Proof. induction 1; constructor; eauto using sets_well_formed. Qed.
  Lemma well_formed_accepts cs : Forall (well_formed rd) cs -> forall th, exists th', accepts cs th th'.
  Proof.
    induction 1 as [|c cs W _ IH]; intros th; [exists th; constructor|]. destruct (well_formed_sets c th W) as [th1 S]. destruct (IH th1) as [th2 A].
    exists th2. exact (ac_cons _ _ _ _ _ S A).
  Qed.
  Lemma settings_ends cs ks : option_keys cs ks -> forall h, settings_ cs h <> Undefined /\ settings_ cs h <> Running.
  Proof.
    induction 1 as [|c k cs ks G _ IH]; intros h; cbn [app_settings]; [split; discriminate|].
    assert (E : call_ 0 c h <> Undefined /\ call_ 0 c h <> Running).
    { destruct G as [k b|k v]; cbn [api_call].
      - destruct (String.eqb k "strict"); [split; discriminate|]. destruct (String.eqb k "propagate-conflicts"); split; discriminate.
      - unfold settings, command_line. destruct (String.eqb k "propagate-bounds"); [destruct (parse_propagate v (t_opts (hd_theory h))); split; discriminate|].
        destruct (String.eqb k "objective").
        + assert (P : parse_objective rd v (t_opts (hd_theory h)) <> UB /\ parse_objective rd v (t_opts (hd_theory h)) <> Fuel).
          { unfold parse_objective. repeat match goal with |- context [match ?x with _ => _ end] => destruct x end; split; discriminate. }
          destruct (parse_objective rd v (t_opts (hd_theory h))) as [[o ok]| | |]; destruct P as [P1 P2]; (now destruct P1) || (now destruct P2) || (split; discriminate).
        + destruct (String.eqb k "select"); [destruct (parse_select v (t_opts (hd_theory h))); split; discriminate|].
          destruct (String.eqb k "store"); [destruct (parse_store v (t_opts (hd_theory h))); split; discriminate|]. split; discriminate. }
    destruct E as [E1 E2]. destruct (call_ 0 c h) as [[[] [h1|]]| | |]; try (now destruct E1); try (now destruct E2); try (split; discriminate); apply IH.
  Qed.

  (** what is given last is not touched by other options *)
  Lemma sets_keep c k th th' : given c k -> sets c th th' ->
    (k <> "strict"%string -> t_strict th' = t_strict th) /\
    (k <> "propagate-conflicts"%string -> o_pconf (t_opts th') = o_pconf (t_opts th)) /\
    (k <> "propagate-bounds"%string -> o_pmode (t_opts th') = o_pmode (t_opts th)) /\
    (k <> "objective"%string -> o_global (t_opts th') = o_global (t_opts th)) /\
    (k <> "select"%string -> o_select (t_opts th') = o_select (t_opts th)) /\
    (k <> "store"%string -> o_store (t_opts th') = o_store (t_opts th)).
  Proof. intros G S. destruct S; inversion G; subst; cbn; (do 5 (split; [intros N; first [reflexivity|now destruct N]|])); intros N; first [reflexivity|now destruct N]. Qed.
  Lemma accepts_keep cs ks th th' : option_keys cs ks -> accepts cs th th' ->
    ("strict"%string ∉ ks -> t_strict th' = t_strict th) /\
    ("propagate-conflicts"%string ∉ ks -> o_pconf (t_opts th') = o_pconf (t_opts th)) /\
    ("propagate-bounds"%string ∉ ks -> o_pmode (t_opts th') = o_pmode (t_opts th)) /\
    ("objective"%string ∉ ks -> o_global (t_opts th') = o_global (t_opts th)) /\
    ("select"%string ∉ ks -> o_select (t_opts th') = o_select (t_opts th)) /\
    ("store"%string ∉ ks -> o_store (t_opts th') = o_store (t_opts th)).
  Proof.
    intros K. revert th. induction K as [|c k cs ks G K IH]; intros th A; inversion A as [|c0 cs0 th0 th1 th2 S A' E1 E2 E3]; subst; [auto 10|].
    destruct (sets_keep _ _ _ _ G S) as (S1 & S2 & S3 & S4 & S5 & S6). destruct (IH _ A') as (I1 & I2 & I3 & I4 & I5 & I6).
    assert (Q : forall (k' : string) (X : Type) (a b c : X), (k <> k' -> b = a) -> (k' ∉ ks -> c = b) -> k' ∉ k :: ks -> c = a).
    { intros k' X a b d F1 F2 N. apply not_elem_of_cons in N as [N1 N2]. rewrite (F2 N2). apply F1. congruence. }
    exact (conj (Q _ _ _ _ _ S1 I1) (conj (Q _ _ _ _ _ S2 I2) (conj (Q _ _ _ _ _ S3 I3) (conj (Q _ _ _ _ _ S4 I4) (conj (Q _ _ _ _ _ S5 I5) (Q _ _ _ _ _ S6 I6)))))).
  Qed.
  Lemma keys_in cs ks c k : option_keys cs ks -> c ∈ cs -> given c k -> k ∈ ks.
  Proof.
    induction 1 as [|c0 k0 cs ks G K IH]; intros Hi Gc; [inversion Hi|]. apply elem_of_cons in Hi as [-> |Hi]; [|right; auto].
    destruct G; inversion Gc; subst; left.
  Qed.
  Lemma keys_of cs ks k : option_keys cs ks -> k ∈ ks -> exists c, c ∈ cs /\ given c k.
  Proof.
    induction 1 as [|c0 k0 cs ks G K IH]; intros Hi; [inversion Hi|]. apply elem_of_cons in Hi as [-> |Hi]; [exists c0; split; [left|exact G]|].
    destruct (IH Hi) as (c & Hc & Gc). exists c. split; [right; exact Hc|exact Gc].
  Qed.
  (** the option that is given, moved to the end *)
  Lemma accepts_last cs ks th th' k : option_keys cs ks -> NoDup ks -> accepts cs th th' -> k ∈ ks ->
    exists c th1, c ∈ cs /\ given c k /\ sets c th1 th'.
  Proof.
    intros K N A Hk. destruct (keys_of cs ks k K Hk) as (c & Hc & Gc). exists c.
    destruct (elem_of_Permutation cs c) as [P _]. destruct (P Hc) as [cs1 P1].
    assert (P2 : Permutation cs (cs1 ++ [c])) by (rewrite P1; apply Permutation_cons_append).
    pose proof (accepts_perm _ _ P2 ks th th' K N A) as A2.
    assert (L : forall l th, accepts (l ++ [c]) th th' -> exists th1, sets c th1 th').
    { induction l as [|c1 l IH]; intros th0 A0; inversion A0 as [|c0 cs0 th2 th3 th4 S A' E1 E2 E3]; subst.
      - inversion A'; subst. eauto.
      - eauto. }
    destruct (L _ _ A2) as [th1 S]. eauto.
  Qed.
End c54.

Section theorems.
  Context (rd : list ascii -> option Qc) (bk : backend) (m : Z -> Z).
  Notation settings_ := (app_settings rd bk m).
  Notation start_ := (app_start rd bk m).

  Theorem C54_accepted cs ks : option_keys cs ks ->
    ((exists h, settings_ cs new_handle = Returned (Some h)) <-> Forall (well_formed rd) cs) /\
    settings_ cs new_handle <> Undefined /\ settings_ cs new_handle <> Running.
  Proof.
    intros K. split; [|exact (settings_ends rd bk m cs ks K new_handle)]. split.
    - intros [h E]. apply (settings_accepts rd bk m cs ks K) in E as (th & A & _). exact (accepts_well_formed rd _ _ _ A).
    - intros W. destruct (well_formed_accepts rd cs W (hd_theory new_handle)) as [th A]. exists (with_theory th new_handle).
      apply (settings_accepts rd bk m cs ks K). eauto.
  Qed.
  Theorem C54_effect cs ks h : option_keys cs ks -> NoDup ks -> settings_ cs new_handle = Returned (Some h) -> effective rd cs (hd_theory h).
  Proof.
    intros K N E. apply (settings_accepts rd bk m cs ks K) in E as (th & A & ->). cbn [hd_theory with_theory].
    destruct (accepts_keep rd cs ks _ _ K A) as (I1 & I2 & I3 & I4 & I5 & I6).
    assert (D : forall k, k ∈ ks \/ k ∉ ks) by (intros k; destruct (decide (k ∈ ks)); auto).
    pose proof (fun k => accepts_last rd cs ks _ _ k K N A) as L.
    constructor.
    - destruct (D "strict"%string) as [Hk|Hk]; [left|right].
      + destruct (L _ Hk) as (c & th1 & Hc & G & S). destruct S; inversion G; subst. exact Hc.
      + split; [intros b Hb; apply Hk, (keys_in cs ks _ _ K Hb); constructor|exact (I1 Hk)].
    - destruct (D "propagate-conflicts"%string) as [Hk|Hk]; [left|right].
      + destruct (L _ Hk) as (c & th1 & Hc & G & S). destruct S; inversion G; subst. exact Hc.
      + split; [intros b Hb; apply Hk, (keys_in cs ks _ _ K Hb); constructor|exact (I2 Hk)].
    - destruct (D "propagate-bounds"%string) as [Hk|Hk]; [left|right].
      + destruct (L _ Hk) as (c & th1 & Hc & G & S). destruct S; inversion G; subst. eauto.
      + split; [intros b Hb; apply Hk, (keys_in cs ks _ _ K Hb); constructor|exact (I3 Hk)].
    - destruct (D "objective"%string) as [Hk|Hk]; [left|right].
      + destruct (L _ Hk) as (c & th1 & Hc & G & S). destruct S; inversion G; subst. eauto.
      + split; [intros b Hb; apply Hk, (keys_in cs ks _ _ K Hb); constructor|exact (I4 Hk)].
    - destruct (D "select"%string) as [Hk|Hk]; [left|right].
      + destruct (L _ Hk) as (c & th1 & Hc & G & S). destruct S; inversion G; subst. eauto.
      + split; [intros b Hb; apply Hk, (keys_in cs ks _ _ K Hb); constructor|exact (I5 Hk)].
    - destruct (D "store"%string) as [Hk|Hk]; [left|right].
      + destruct (L _ Hk) as (c & th1 & Hc & G & S). destruct S; inversion G; subst. eauto.
      + split; [intros b Hb; apply Hk, (keys_in cs ks _ _ K Hb); constructor|exact (I6 Hk)].
  Qed.
  Lemma settings_perm cs cs' ks h : Permutation cs cs' -> option_keys cs ks -> NoDup ks ->
    settings_ cs new_handle = Returned (Some h) -> settings_ cs' new_handle = Returned (Some h).
  Proof.
    intros P K N E. apply (settings_accepts rd bk m cs ks K) in E as (th & A & ->).
    destruct (Permutation_Forall2 P K) as (ks' & _ & K').
    apply (settings_accepts rd bk m cs' ks' K'). exists th. split; [exact (accepts_perm rd _ _ P ks _ _ K N A)|reflexivity].
  Qed.
  (** the order of the options does not matter *)
  Theorem C54_order cs cs' ks h a r : Permutation cs cs' -> option_keys cs ks -> NoDup ks ->
    start_ cs a r = Returned (Some h) -> start_ cs' a r = Returned (Some h).
  Proof.
    unfold app_start. intros P K N E. destruct (settings_ cs new_handle) as [[h1|]| | |] eqn:E1; try discriminate E.
    rewrite (settings_perm cs cs' ks h1 P K N E1). exact E.
  Qed.
  (** the settings as handled by clingolpx_register *)
  Lemma settings_usage_plain cs ks : option_keys cs ks -> forall h h', plain_usage rd bk m Before h -> settings_ cs h = Returned (Some h') -> plain_usage rd bk m Before h'.
  Proof.
    induction 1 as [|c k cs ks G _ IH]; intros h h' U E; cbn [app_settings] in E; [injection E as <-; exact U|].
    destruct (api_call rd bk m 0 c h) as [[a [h1|]]| | |] eqn:Ec; [|destruct a; discriminate E|discriminate E..].
    apply (IH h1 h'); [|destruct a; try discriminate E; exact E]. apply (us_setting _ _ _ _ _ _ Before h c 0 a h1 U); [|exact Ec]. destruct G; exact Logic.I.
  Qed.
  Lemma settings_usage_strict cs ks : option_keys cs ks -> forall h h', strict_usage rd bk m Before h -> settings_ cs h = Returned (Some h') -> strict_usage rd bk m Before h'.
  Proof.
    induction 1 as [|c k cs ks G _ IH]; intros h h' U E; cbn [app_settings] in E; [injection E as <-; exact U|].
    destruct (api_call rd bk m 0 c h) as [[a [h1|]]| | |] eqn:Ec; [|destruct a; discriminate E|discriminate E..].
    apply (IH h1 h'); [|destruct a; try discriminate E; exact E]. apply (us_setting _ _ _ _ _ _ Before h c 0 a h1 U); [|exact Ec]. destruct G; exact Logic.I.
  Qed.
  Lemma start_split cs a r h : start_ cs a r = Returned (Some h) ->
    exists h1, settings_ cs new_handle = Returned (Some h1) /\ validate_options (hd_theory h1) = true /\ a = true /\ r = true /\
      api_call rd bk m 0 (Register true true) h1 = Returned (Done, Some h).
  Proof.
    unfold app_start. intros E. destruct (settings_ cs new_handle) as [[h1|]| | |] eqn:E1; try discriminate E. exists h1. split; [reflexivity|].
    cbn [api_call] in E |- *. destruct (validate_options (hd_theory h1)) eqn:V; cbn [guarded] in E; [|discriminate E]. split; [reflexivity|].
    destruct a, r; cbn [andb guarded] in E |- *; try discriminate E. injection E as <-. auto.
  Qed.
  (** The program starts iff all options are well-formed, the settings are
      consistent and clingo accepts the theory. *)
  Theorem C54_start cs ks a r h : option_keys cs ks -> NoDup ks -> start_ cs a r = Returned (Some h) ->
    effective rd cs (hd_theory h) /\ validate_options (hd_theory h) = true /\
    (t_strict (hd_theory h) = false -> plain_usage rd bk m (After (hd_theory h) [] None) h) /\
    (t_strict (hd_theory h) = true -> strict_usage rd bk m (After (hd_theory h) [] None) h).
  Proof.
    intros K N E. destruct (start_split cs a r h E) as (h1 & E1 & V & -> & -> & E2).
    assert (Et : hd_theory h = hd_theory h1) by (cbn [api_call guarded andb] in E2; injection E2 as <-; reflexivity). rewrite Et.
    split; [exact (C54_effect cs ks h1 K N E1)|]. split; [exact V|]. split; intros Hs.
    - apply (us_register false Plain InitPlain rd bk m h1 0 h); [|exact V|exact Hs|exact E2].
      exact (settings_usage_plain cs ks K _ _ (us_create _ _ _ _ _ _) E1).
    - apply (us_register true Strict InitStrict rd bk m h1 0 h); [|exact V|exact Hs|exact E2].
      exact (settings_usage_strict cs ks K _ _ (us_create _ _ _ _ _ _) E1).
  Qed.
  Lemma keys_unique cs ks c c' k : option_keys cs ks -> NoDup ks -> c ∈ cs -> c' ∈ cs -> given c k -> given c' k -> c = c'.
  Proof.
    induction 1 as [|c0 k0 cs ks G K IH]; intros N Hc Hc' Gc Gc'; [inversion Hc|]. apply NoDup_cons in N as [N0 N].
    assert (F : forall c, given c k -> given c k0 -> k = k0) by (intros c1 G1 G2; destruct G1; inversion G2; reflexivity).
    apply elem_of_cons in Hc as [-> |Hc]; apply elem_of_cons in Hc' as [-> |Hc']; [reflexivity| | |exact (IH N Hc Hc' Gc Gc')].
    - destruct N0. rewrite <- (F _ Gc G). exact (keys_in cs ks _ _ K Hc' Gc').
    - destruct N0. rewrite <- (F _ Gc' G). exact (keys_in cs ks _ _ K Hc Gc).
  Qed.
  Lemma objective_fun v x x' : objective_value rd v x -> objective_value rd v x' -> x = x'.
  Proof.
    intros A B. pose proof (proj1 (C30_objective rd v default_options) x A) as E. rewrite (proj1 (C30_objective rd v default_options) x' B) in E.
    injection E as E. now symmetry.
  Qed.
  (** The program starts iff all options are well-formed, and the step is
      rational or strict mode is on. *)
  Theorem C54_starts cs ks : option_keys cs ks -> NoDup ks ->
    (exists h, start_ cs true true = Returned (Some h)) <->
    (Forall (well_formed rd) cs /\
      forall v q, CommandLine "objective" v ∈ cs -> objective_value rd v (Some q) -> rq_k q <> 0%Qc -> Flag "strict" true ∈ cs).
  Proof.
    intros K N. split.
    - intros [h E]. split; [destruct (start_split _ _ _ _ E) as (h1 & E1 & _); apply (proj1 (C54_accepted cs ks K)); eauto|].
      destruct (C54_start cs ks _ _ h K N E) as (F & V & _). intros v q Hv Ov Hq. unfold validate_options in V.
      destruct (ef_objective _ _ _ F) as [(v' & Hv' & Ov')|[Hn _]]; [|now destruct (Hn v)].
      pose proof (keys_unique cs ks _ _ _ K N Hv Hv' (gv_value _ _) (gv_value _ _)) as [= <-].
      rewrite <- (objective_fun _ _ _ Ov Ov') in V. destruct (t_strict (hd_theory h)) eqn:Es.
      + destruct (ef_strict _ _ _ F) as [Hs|[_ Hs]]; rewrite Es in Hs; [exact Hs|discriminate Hs].
      + cbn in V. destruct (Qc_eq_bool (rq_k q) 0) eqn:Eq; [apply Qc_eq_bool_correct in Eq; contradiction|discriminate V].
    - intros [W C]. destruct (proj2 (proj1 (C54_accepted cs ks K)) W) as [h1 E1]. pose proof (C54_effect cs ks h1 K N E1) as F.
      assert (V : validate_options (hd_theory h1) = true).
      { unfold validate_options. destruct (t_strict (hd_theory h1)) eqn:Es; [reflexivity|]. destruct (o_global (t_opts (hd_theory h1))) as [q|] eqn:Eo; [|reflexivity].
        cbn. destruct (Qc_eq_bool (rq_k q) 0) eqn:Eq; [reflexivity|]. exfalso.
        assert (Hq : rq_k q <> 0%Qc) by (intros Hq; rewrite Hq in Eq; discriminate Eq).
        destruct (ef_objective _ _ _ F) as [(v & Hv & Ov)|[_ Hn]]; rewrite Eo in *; [|discriminate Hn].
        pose proof (C v q Hv Ov Hq) as Hs. destruct (ef_strict _ _ _ F) as [Hs'|[Hs' _]]; [|exact (Hs' true Hs)]. rewrite Es in Hs'.
        discriminate (keys_unique cs ks _ _ _ K N Hs Hs' (gv_flag _ _) (gv_flag _ _)). }
      unfold app_start. rewrite E1. cbn [api_call]. rewrite V. cbn. eauto.
  Qed.
  (** with anything malformed, the program does not start, and nothing is
      undefined; only the step of the objective can raise an exception inside
      clingo's callback *)
  Lemma settings_escape cs ks : option_keys cs ks -> forall h, settings_ cs h = Escaped -> exists v o, CommandLine "objective" v ∈ cs /\ parse_objective rd v o = Exn.
  Proof.
    induction 1 as [|c k cs ks G _ IH]; intros h E; cbn [app_settings] in E; [discriminate E|].
    destruct (api_call rd bk m 0 c h) as [[a [h1|]]| | |] eqn:Ec.
    - assert (exists h1, settings_ cs h1 = Escaped) as [h2 E'] by (destruct a; try discriminate E; exists h1; exact E).
      destruct (IH h2 E') as (v & o & Hi & Hv). exists v, o. split; [right; exact Hi|exact Hv].
    - destruct a; discriminate E.
    - destruct (C52_never_escapes rd bk m 0 c h Ec) as (v & -> & Hv). exists v, (t_opts (hd_theory h)). split; [left|exact Hv].
    - discriminate E.
    - discriminate E.
  Qed.
  Theorem C54_refused cs ks a r : option_keys cs ks -> ~ Forall (well_formed rd) cs ->
    start_ cs a r = Returned None \/
    start_ cs a r = Escaped /\ exists v o, CommandLine "objective" v ∈ cs /\ parse_objective rd v o = Exn.
  Proof.
    intros K W. destruct (C54_accepted cs ks K) as (A & U1 & U2). unfold app_start.
    destruct (settings_ cs new_handle) as [[h1|]| | |] eqn:E1; [|left; reflexivity| |now destruct U1|now destruct U2].
    - destruct W. apply A. eauto.
    - right. split; [reflexivity|]. exact (settings_escape cs ks K _ E1).
  Qed.
  (** every statement of the program reaches clingo once and in order, up to the
      first one clingo refuses *)
  Theorem C54_statements {S : Type} (accepts : S -> bool) (stms : list S) h :
    (forall s, s ∈ stms -> accepts s = true) /\ rewriter rd bk m accepts stms h = Returned (stms, true) \/
    exists l s r, stms = l ++ s :: r /\ (forall s', s' ∈ l -> accepts s' = true) /\ accepts s = false /\
      rewriter rd bk m accepts stms h = Returned (l ++ [s], false).
  Proof.
    induction stms as [|s r IH]; [left; split; [intros s Hs; inversion Hs|reflexivity]|]. cbn [rewriter api_call]. destruct (accepts s) eqn:E.
    - destruct IH as [[A ->]|(l & s' & r' & -> & A & B & ->)]; [left|right].
      + split; [|reflexivity]. intros s' Hs. apply elem_of_cons in Hs as [-> |Hs]; [exact E|exact (A s' Hs)].
      + exists (s :: l), s', r'. split; [reflexivity|]. split; [|split; [exact B|reflexivity]].
        intros s2 Hs. apply elem_of_cons in Hs as [-> |Hs]; [exact E|exact (A s2 Hs)].
    - right. exists [], s, r. split; [reflexivity|]. split; [intros s' Hs; inversion Hs|]. split; [exact E|reflexivity].
  Qed.
End theorems.

(** ** A concrete command line: --objective=Global,E --strict --store=total *)
Definition ex_line : list call :=
  [CommandLine "objective" (list_ascii_of_string "Global,E"); Flag "strict" true; CommandLine "store" (list_ascii_of_string "total")].
Lemma ex_line_keys : option_keys ex_line ["objective"; "strict"; "store"]%string /\ NoDup ["objective"; "strict"; "store"]%string.
Proof. split; [repeat constructor|]. apply (bool_decide_unpack (NoDup ["objective"; "strict"; "store"]%string)). vm_compute. exact Logic.I. Qed.
Lemma C54_example bk m : exists h, app_start no_numbers bk m ex_line true true = Returned (Some h) /\
  hd_theory h = Theory (Options SelectNone StoreTotal (Some (mkRatQ 0%Qc 1%Qc)) PropNone false) true /\
  app_start no_numbers bk m [CommandLine "objective" (list_ascii_of_string "Global,E")] true true = Returned None /\
  app_start no_numbers bk m [CommandLine "store" (list_ascii_of_string "some")] true true = Returned None /\
  app_start no_numbers bk m [CommandLine "objective" (list_ascii_of_string "global,x")] true true = Escaped.
Proof. eexists. split; [vm_compute; reflexivity|]. split; [reflexivity|]. split; [|split]; vm_compute; reflexivity. Qed.
