(** * C30-C32 through the C interface

    What a program that sets the options with clingolpx_configure and checks
    them with clingolpx_validate_options sees: the answers of the calls and the
    settings of the theory. *)

From Coq Require Import Ascii String.
From Verif Require Import Num Backend Solver Parsing Propagator World Api Lifecycle Props_Options.

(** a list of calls of clingolpx_configure, whatever they answer *)
Inductive configures (rd : list ascii -> option Qc) (bk : backend) (m : Z -> Z) (fuel : nat) : list (string * list ascii) -> handle -> handle -> Prop :=
  | cf_none h : configures rd bk m fuel [] h h
  | cf_call k v l h h1 h2 a : api_call rd bk m fuel (Configure k v) h = Returned (a, Some h1) ->
      configures rd bk m fuel l h1 h2 -> configures rd bk m fuel ((k, v) :: l) h h2.

(** [x] is the value of the last call for [k] with a valid value, or the
    default if there is none *)
Definition latest {A} (k : string) (word : string -> A -> Prop) (calls : list (string * list ascii)) (default x : A) : Prop :=
  (exists before v w after, calls = before ++ (k, v) :: after /\ said v w /\ word w x /\
     forall v' w' y, (k, v') ∈ after -> word w' y -> ~ said v' w') \/
  (forall v w y, (k, v) ∈ calls -> word w y -> ~ said v w) /\ x = default.

Lemma latest_cons {A} k (word : string -> A -> Prop) k0 v0 l d d1 x : latest k word l d1 x ->
  (k0 = k -> (exists w, said v0 w /\ word w d1) \/ (forall w y, word w y -> ~ said v0 w) /\ d1 = d) -> (k0 <> k -> d1 = d) ->
  latest k word ((k0, v0) :: l) d x.
Proof.
  intros L Hk Hn. destruct L as [(b & v & w & a & -> & Hs & Hw & Ha)|[Ha ->]].
  - left. exists ((k0, v0) :: b), v, w, a. auto.
  - destruct (string_dec k0 k) as [->|N].
    + destruct (Hk eq_refl) as [(w & Hs & Hw)|[Hw ->]].
      * left. exists [], v0, w, l. auto.
      * right. split; [|reflexivity]. intros v w y Hi. apply elem_of_cons in Hi as [[= ->]|Hi]; eauto.
    + right. split; [|auto]. intros v w y Hi. apply elem_of_cons in Hi as [[= -> _]|Hi]; [congruence|eauto].
Qed.

Section calls.
  Context (rd : list ascii -> option Qc) (bk : backend) (m : Z -> Z) (fuel : nat).
  Notation call_ := (api_call rd bk m fuel).

  (** A valid key and value: accepted, and just that setting is changed.
      Anything else: refused, and nothing is changed. *)
  Theorem C31_calls_partial key v h : key <> "objective"%string -> key <> "propagate-bounds"%string ->
    (forall t, setting key v (hd_theory h) t -> call_ (Configure key v) h = Returned (Done, Some (Handle t (hd_prop h) (hd_count h)))) /\
    ((forall t, ~ setting key v (hd_theory h) t) -> call_ (Configure key v) h = Returned (Failed, Some h)).
  Proof.
    intros No Nb. destruct (C31_configure_partial key v (hd_theory h) No Nb) as [S R]. split.
    - intros t Ht. cbn [api_call]. rewrite (S t Ht). reflexivity.
    - intros Hn. destruct (R Hn) as (e & E & _). cbn [api_call]. rewrite E. destruct h. reflexivity.
  Qed.
  Theorem C31_calls_as_command_line_partial key v h : key = "select"%string \/ key = "store"%string ->
    call_ (Configure key v) h = call_ (CommandLine key v) h.
  Proof.
    intros Hk. destruct (C31_as_command_line_partial rd key v (hd_theory h) Hk) as (t & ok & E1 & E2).
    cbn [api_call]. unfold settings. rewrite E1, E2. destruct ok; reflexivity.
  Qed.
  (** the flags are written by clingo, configure takes them as words *)
  Theorem C31_calls_as_flag_partial key v w b h : key = "strict"%string \/ key = "propagate-conflicts"%string -> said v w -> bool_word w b ->
    call_ (Configure key v) h = call_ (Flag key b) h.
  Proof.
    intros Hk Hs Hw. assert (Hn : key <> "objective"%string /\ key <> "propagate-bounds"%string) by (destruct Hk; subst; split; discriminate).
    destruct (C31_calls_partial key v h (proj1 Hn) (proj2 Hn)) as [S _].
    destruct Hk; subst key; [rewrite (S _ (set_strict v w b (hd_theory h) Hs Hw))|rewrite (S _ (set_conflicts v w b (hd_theory h) Hs Hw))]; reflexivity.
  Qed.
  Theorem C31_calls_refuted h :
    call_ (CommandLine "objective" (list_ascii_of_string "global")) h <> Returned (Failed, Some h) /\
    call_ (Configure "objective" (list_ascii_of_string "global")) h = Returned (Failed, Some h) /\
    call_ (Configure "objective" (list_ascii_of_string "yes")) h = Undefined /\
    (forall v w x, said v w -> propagate_word w x -> call_ (Configure "propagate-bounds" v) h = Undefined).
  Proof.
    destruct (C31_refuted (hd_theory h)) as (A & B & C & _). destruct (A rd) as (t & E1 & E2 & _).
    split; [|split; [|split]].
    - cbn [api_call]. unfold settings. rewrite E1. cbn. discriminate.
    - cbn [api_call]. rewrite E2. destruct h. reflexivity.
    - cbn [api_call]. rewrite B. reflexivity.
    - intros v w x Hs Hw. cbn [api_call]. rewrite (C v w x Hs Hw). reflexivity.
  Qed.

  (** settings for different keys do not depend on each other *)
  Lemma setting_comm k1 v1 k2 v2 t t1 t2 : k1 <> k2 -> setting k1 v1 t t1 -> setting k2 v2 t t2 ->
    exists t', setting k2 v2 t1 t' /\ setting k1 v1 t2 t'.
  Proof.
    intros N S1 S2. destruct S1 as [v w b t Hs Hw|v w b t Hs Hw|v w x t Hs Hw|v w x t Hs Hw]; inversion S2 as [v' w' b' t' Hs' Hw'|v' w' b' t' Hs' Hw'|v' w' x' t' Hs' Hw'|v' w' x' t' Hs' Hw']; subst; try congruence;
      destruct t as [o s]; cbn in *;
      (eexists; split; [econstructor; eassumption|]);
      match goal with |- setting ?k ?v ?a ?c => refine (eq_ind _ (setting k v a) _ c _); [econstructor; eassumption|destruct o; reflexivity] end.
  Qed.
  Theorem C31_independent_partial k1 v1 k2 v2 h h1 h12 : k1 <> k2 ->
    Forall (fun k => k <> "objective"%string /\ k <> "propagate-bounds"%string) [k1; k2] ->
    call_ (Configure k1 v1) h = Returned (Done, Some h1) -> call_ (Configure k2 v2) h1 = Returned (Done, Some h12) ->
    exists h2, call_ (Configure k2 v2) h = Returned (Done, Some h2) /\ call_ (Configure k1 v1) h2 = Returned (Done, Some h12).
  Proof.
    intros N F E1 E2. apply Forall_cons in F as [[A1 A2] F]. apply Forall_cons in F as [[B1 B2] _].
    assert (D : forall k v h h', k <> "objective"%string -> k <> "propagate-bounds"%string -> call_ (Configure k v) h = Returned (Done, Some h') ->
      exists t, setting k v (hd_theory h) t /\ h' = Handle t (hd_prop h) (hd_count h)).
    { intros k v g g' C1 C2 E. destruct (C31_configure_partial k v (hd_theory g) C1 C2) as [S R]. cbn [api_call] in E.
      assert (X : (exists t, setting k v (hd_theory g) t) \/ (forall t, ~ setting k v (hd_theory g) t)).
      { destruct (string_dec k "strict") as [->|K1].
        { destruct (bool_dec v) as [(w & b & Hs & Hw)|Hn]; [left; eexists; eapply set_strict; eauto|right; intros t Ht; inversion Ht; subst; eapply Hn; eauto]. }
        destruct (string_dec k "propagate-conflicts") as [->|K2].
        { destruct (bool_dec v) as [(w & b & Hs & Hw)|Hn]; [left; eexists; eapply set_conflicts; eauto|right; intros t Ht; inversion Ht; subst; eapply Hn; eauto]. }
        destruct (string_dec k "select") as [->|K3].
        { destruct (select_dec v) as [(w & b & Hs & Hw)|Hn]; [left; eexists; eapply set_sel; eauto|right; intros t Ht; inversion Ht; subst; eapply Hn; eauto]. }
        destruct (string_dec k "store") as [->|K4].
        { destruct (store_dec v) as [(w & b & Hs & Hw)|Hn]; [left; eexists; eapply set_sto; eauto|right; intros t Ht; inversion Ht; subst; eapply Hn; eauto]. }
        right. intros t Ht. inversion Ht; subst; congruence. }
      destruct X as [[t Ht]|Hn].
      - exists t. split; [exact Ht|]. rewrite (S t Ht) in E. cbn in E. injection E as <-. reflexivity.
      - destruct (R Hn) as (e & E' & _). rewrite E' in E. discriminate E. }
    destruct (D _ _ _ _ A1 A2 E1) as (t1 & S1 & ->). destruct (D _ _ _ _ B1 B2 E2) as (t12 & S12 & ->). cbn [hd_theory hd_prop hd_count] in *.
    assert (X : exists t2, setting k2 v2 (hd_theory h) t2) by (inversion S12; subst; eexists; econstructor; eassumption).
    destruct X as [t2 S2]. destruct (setting_comm _ _ _ _ _ _ _ N S1 S2) as (t' & S12' & S21).
    assert (Et : t12 = t').
    { pose proof (proj1 (C31_configure_partial k2 v2 t1 B1 B2) _ S12) as Ea. rewrite (proj1 (C31_configure_partial k2 v2 t1 B1 B2) _ S12') in Ea. injection Ea as ->. reflexivity. }
    subst t'. exists (Handle t2 (hd_prop h) (hd_count h)). split.
    - exact (proj1 (C31_calls_partial k2 v2 h B1 B2) _ S2).
    - exact (proj1 (C31_calls_partial k1 v1 (Handle t2 (hd_prop h) (hd_count h)) A1 A2) _ S21).
  Qed.

  (** A sequence of calls always gets through, and for every option the last
      valid one counts. *)
  Theorem C31_session_partial calls h : Forall (fun c => c.1 <> "objective"%string /\ c.1 <> "propagate-bounds"%string) calls ->
    exists h', configures rd bk m fuel calls h h' /\ hd_prop h' = hd_prop h /\ hd_count h' = hd_count h /\
      latest "strict" bool_word calls (t_strict (hd_theory h)) (t_strict (hd_theory h')) /\
      latest "propagate-conflicts" bool_word calls (o_pconf (t_opts (hd_theory h))) (o_pconf (t_opts (hd_theory h'))) /\
      latest "select" select_word calls (o_select (t_opts (hd_theory h))) (o_select (t_opts (hd_theory h'))) /\
      latest "store" store_word calls (o_store (t_opts (hd_theory h))) (o_store (t_opts (hd_theory h'))) /\
      o_global (t_opts (hd_theory h')) = o_global (t_opts (hd_theory h)) /\ o_pmode (t_opts (hd_theory h')) = o_pmode (t_opts (hd_theory h)).
  Proof.
    intros F. revert h. induction F as [|[k v] l [No Nb] F IH]; intros h.
    { exists h. split; [constructor|]. do 2 (split; [reflexivity|]).
      do 4 (split; [right; split; [intros v w y Hi; inversion Hi|reflexivity]|]). auto. }
    cbn [fst] in No, Nb.
    assert (X : exists h1 a, call_ (Configure k v) h = Returned (a, Some h1) /\ hd_prop h1 = hd_prop h /\ hd_count h1 = hd_count h /\
      (k = "strict"%string -> (exists w, said v w /\ bool_word w (t_strict (hd_theory h1))) \/ (forall w y, bool_word w y -> ~ said v w) /\ t_strict (hd_theory h1) = t_strict (hd_theory h)) /\
      (k <> "strict"%string -> t_strict (hd_theory h1) = t_strict (hd_theory h)) /\
      (k = "propagate-conflicts"%string -> (exists w, said v w /\ bool_word w (o_pconf (t_opts (hd_theory h1)))) \/ (forall w y, bool_word w y -> ~ said v w) /\ o_pconf (t_opts (hd_theory h1)) = o_pconf (t_opts (hd_theory h))) /\
      (k <> "propagate-conflicts"%string -> o_pconf (t_opts (hd_theory h1)) = o_pconf (t_opts (hd_theory h))) /\
      (k = "select"%string -> (exists w, said v w /\ select_word w (o_select (t_opts (hd_theory h1)))) \/ (forall w y, select_word w y -> ~ said v w) /\ o_select (t_opts (hd_theory h1)) = o_select (t_opts (hd_theory h))) /\
      (k <> "select"%string -> o_select (t_opts (hd_theory h1)) = o_select (t_opts (hd_theory h))) /\
      (k = "store"%string -> (exists w, said v w /\ store_word w (o_store (t_opts (hd_theory h1)))) \/ (forall w y, store_word w y -> ~ said v w) /\ o_store (t_opts (hd_theory h1)) = o_store (t_opts (hd_theory h))) /\
      (k <> "store"%string -> o_store (t_opts (hd_theory h1)) = o_store (t_opts (hd_theory h))) /\
      o_global (t_opts (hd_theory h1)) = o_global (t_opts (hd_theory h)) /\ o_pmode (t_opts (hd_theory h1)) = o_pmode (t_opts (hd_theory h))).
    { destruct (C31_calls_partial k v h No Nb) as [S R].
      assert (B : (forall t, ~ setting k v (hd_theory h) t) -> forall P : handle -> answer -> Prop, P h Failed -> exists h1 a, call_ (Configure k v) h = Returned (a, Some h1) /\ P h1 a).
      { intros Hn P HP. exists h, Failed. split; [exact (R Hn)|exact HP]. }
      Ltac fin := split; [reflexivity|]; split; [reflexivity|]; cbn; repeat (split; [intros; try congruence; eauto|]); auto.
      destruct (string_dec k "strict") as [->|K1].
      { destruct (bool_dec v) as [(w & b & Hs & Hw)|Hn].
        - eexists _, Done. split; [exact (S _ (set_strict v w b _ Hs Hw))|]. fin.
        - apply B; [intros t Ht; inversion Ht; subst; eapply Hn; eauto|]. fin. }
      destruct (string_dec k "propagate-conflicts") as [->|K2].
      { destruct (bool_dec v) as [(w & b & Hs & Hw)|Hn].
        - eexists _, Done. split; [exact (S _ (set_conflicts v w b _ Hs Hw))|]. fin.
        - apply B; [intros t Ht; inversion Ht; subst; eapply Hn; eauto|]. fin. }
      destruct (string_dec k "select") as [->|K3].
      { destruct (select_dec v) as [(w & b & Hs & Hw)|Hn].
        - eexists _, Done. split; [exact (S _ (set_sel v w b _ Hs Hw))|]. fin.
        - apply B; [intros t Ht; inversion Ht; subst; eapply Hn; eauto|]. fin. }
      destruct (string_dec k "store") as [->|K4].
      { destruct (store_dec v) as [(w & b & Hs & Hw)|Hn].
        - eexists _, Done. split; [exact (S _ (set_sto v w b _ Hs Hw))|]. fin.
        - apply B; [intros t Ht; inversion Ht; subst; eapply Hn; eauto|]. fin. }
      apply B; [intros t Ht; inversion Ht; subst; congruence|]. fin. }
    destruct X as (h1 & a & E & X1 & X2 & A1 & A2 & A3 & A4 & A5 & A6 & A7 & A8 & X3 & X4).
    destruct (IH h1) as (h' & C & Y1 & Y2 & L1 & L2 & L3 & L4 & Y3 & Y4). exists h'.
    split; [econstructor; eassumption|]. split; [congruence|]. split; [congruence|].
    split; [eapply latest_cons; eassumption|]. split; [eapply latest_cons; eassumption|]. split; [eapply latest_cons; eassumption|]. split; [eapply latest_cons; eassumption|].
    split; congruence.
  Qed.

  (** The settings are refused exactly if a step with an epsilon part is
      wanted without strict constraints; asking changes nothing. *)
  Theorem C32_calls h :
    (t_strict (hd_theory h) = false /\ (exists g, o_global (t_opts (hd_theory h)) = Some g /\ rq_k g <> 0%Qc) -> call_ Validate h = Returned (Failed, Some h)) /\
    (~ (t_strict (hd_theory h) = false /\ (exists g, o_global (t_opts (hd_theory h)) = Some g /\ rq_k g <> 0%Qc)) -> call_ Validate h = Returned (Done, Some h)).
  Proof.
    split; intros C.
    - apply (C32_validate (hd_theory h)) in C. cbn [api_call]. rewrite C. reflexivity.
    - cbn [api_call]. destruct (validate_options (hd_theory h)) eqn:E; [reflexivity|]. destruct C. apply (C32_validate (hd_theory h)). exact E.
  Qed.
End calls.

(** store is set twice, the second value is no word; select is set in between *)
Theorem C31_calls_example rd bk m fuel : exists h,
  configures rd bk m fuel [("store", list_ascii_of_string "Total"); ("select", list_ascii_of_string "match"); ("store", list_ascii_of_string "tot"); ("objetive", list_ascii_of_string "global")]%string new_handle h /\
  o_store (t_opts (hd_theory h)) = StoreTotal /\ o_select (t_opts (hd_theory h)) = SelectMatch /\ t_strict (hd_theory h) = false.
Proof.
  eexists. split; [|split; [|split]].
  - eapply cf_call; [vm_compute; reflexivity|]. eapply cf_call; [vm_compute; reflexivity|]. eapply cf_call; [vm_compute; reflexivity|]. eapply cf_call; [vm_compute; reflexivity|]. constructor.
  - vm_compute. reflexivity.
  - vm_compute. reflexivity.
  - vm_compute. reflexivity.
Qed.
(** global,e needs strict *)
Theorem C32_calls_example rd bk m fuel : exists h h', api_call rd bk m fuel (CommandLine "objective" (list_ascii_of_string "global,e")) new_handle = Returned (Done, Some h) /\
  api_call rd bk m fuel Validate h = Returned (Failed, Some h) /\
  api_call rd bk m fuel (Configure "strict" (list_ascii_of_string "yes")) h = Returned (Done, Some h') /\ api_call rd bk m fuel Validate h' = Returned (Done, Some h').
Proof.
  eexists _, _. split; [vm_compute; reflexivity|]. split; [vm_compute; reflexivity|]. split; vm_compute; reflexivity.
Qed.
