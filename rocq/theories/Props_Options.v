(** * C30-C32: options

    [said v w]: the text [v] is the word [w] up to the case of letters. *)

From Coq Require Import Ascii String.
From Verif Require Import Num Solver Parsing Propagator World Api Examples.

Definition letters : list (ascii * ascii) :=
  zip (list_ascii_of_string "ABCDEFGHIJKLMNOPQRSTUVWXYZ") (list_ascii_of_string "abcdefghijklmnopqrstuvwxyz").
(** the same character, or the same letter *)
Definition same_letter (c d : ascii) : Prop := c = d \/ (c, d) ∈ letters \/ (d, c) ∈ letters.
Definition said (v : list ascii) (w : string) : Prop := Forall2 same_letter v (list_ascii_of_string w).
(** [v] starts with the word [w] up to the case of letters, [r] follows *)
Definition said_before (v : list ascii) (w : string) (r : list ascii) : Prop :=
  exists a, v = a ++ r /\ said a w.

Definition all_ascii : list ascii := map ascii_of_nat (seq 0 256).
Lemma all_ascii_in c : In c all_ascii.
Proof. apply in_map_iff. exists (nat_of_ascii c). split; [apply ascii_nat_embedding|]. apply in_seq. pose proof (nat_ascii_bounded c). lia. Qed.
Definition is_pair (c d : ascii) : bool := existsb (fun x : ascii * ascii => Ascii.eqb c x.1 && Ascii.eqb d x.2) letters.
Lemma is_pair_ok c d : is_pair c d = true <-> (c, d) ∈ letters.
Proof.
  unfold is_pair. rewrite existsb_exists. split.
  - intros ([c' d'] & Hin & E). apply andb_true_iff in E as [E1 E2]. apply Ascii.eqb_eq in E1, E2. cbn in E1, E2. subst. apply elem_of_list_In; auto.
  - intros Hin. exists (c, d). split; [apply elem_of_list_In; auto|]. cbn. rewrite !Ascii.eqb_refl. auto.
Qed.
Lemma lower_same c d : lower c = lower d <-> same_letter c d.
Proof.
  assert (D : forallb (fun c => forallb (fun d => Bool.eqb (Ascii.eqb (lower c) (lower d)) (Ascii.eqb c d || is_pair c d || is_pair d c)) all_ascii) all_ascii = true) by (vm_compute; reflexivity).
  rewrite forallb_forall in D. specialize (D c (all_ascii_in c)). cbn beta in D. rewrite forallb_forall in D. specialize (D d (all_ascii_in d)). cbn beta in D.
  apply Bool.eqb_prop in D. unfold same_letter. rewrite <- (is_pair_ok c d), <- (is_pair_ok d c), <- (Ascii.eqb_eq c d), <- (Ascii.eqb_eq (lower c) (lower d)), D.
  rewrite !orb_true_iff. tauto.
Qed.
Lemma lower_map a : forall b, map lower a = map lower b <-> Forall2 same_letter a b.
Proof.
  induction a as [|c a IH]; intros [|d b]; cbn; split; intros E; try discriminate; try (inversion E; fail); auto.
  - injection E as E1 E2. constructor; [apply lower_same; auto|apply IH; auto].
  - inversion E; subst. f_equal; [apply lower_same; auto|apply IH; auto].
Qed.
Lemma said_lower v w : said v w <-> map lower v = map lower (list_ascii_of_string w).
Proof. symmetry. apply lower_map. Qed.
Lemma iequals_pre_spec b : forall a r, iequals_pre a b = Some r <-> exists a1, a = a1 ++ r /\ map lower a1 = map lower b.
Proof.
  induction b as [|d b IH]; intros a r; cbn [iequals_pre].
  - split.
    + intros [= ->]. exists []. auto.
    + intros (a1 & -> & E). destruct a1; [auto|discriminate].
  - destruct a as [|c a].
    + split; [discriminate|]. intros (a1 & E & E1). symmetry in E. apply app_eq_nil in E as [-> ->]. discriminate.
    + destruct (Ascii.eqb (lower c) (lower d)) eqn:E.
      * apply Ascii.eqb_eq in E. rewrite IH. split.
        -- intros (a1 & -> & E1). exists (c :: a1). cbn. rewrite E, E1. auto.
        -- intros ([|c' a1] & E1 & E2); cbn in *; [discriminate|]. injection E1 as -> ->. injection E2 as _ E2. eauto.
      * split; [discriminate|]. intros ([|c' a1] & E1 & E2); cbn in *; [discriminate|]. injection E1 as -> ->. injection E2 as E2 _.
        rewrite E2, Ascii.eqb_refl in E. discriminate.
Qed.
Lemma iequals_spec v w : iequals v w = true <-> said v w.
Proof.
  unfold iequals. rewrite said_lower. destruct (iequals_pre v (list_ascii_of_string w)) as [[|c r]|] eqn:E.
  - apply iequals_pre_spec in E as (a & -> & E). rewrite app_nil_r. split; auto.
  - split; [discriminate|]. intros Hs. assert (E' : iequals_pre v (list_ascii_of_string w) = Some []); [|congruence]. apply iequals_pre_spec. exists v. rewrite app_nil_r. auto.
  - split; [discriminate|]. intros Hs. assert (E' : iequals_pre v (list_ascii_of_string w) = Some []); [|congruence]. apply iequals_pre_spec. exists v. rewrite app_nil_r. auto.
Qed.
Lemma iequals_no v w : iequals v w = false <-> ~ said v w.
Proof. rewrite <- iequals_spec. destruct (iequals v w); split; congruence. Qed.
(** words that differ in a letter are different words *)
Lemma said_fun v w w' : said v w -> said v w' -> map lower (list_ascii_of_string w) = map lower (list_ascii_of_string w').
Proof. rewrite !said_lower. congruence. Qed.

Ltac words := repeat match goal with
  | |- context [if iequals ?v ?w then _ else _] => let E := fresh "E" in destruct (iequals v w) eqn:E
  end.
Ltac clash := exfalso; match goal with A : said ?v ?w, B : said ?v ?w' |- _ => pose proof (said_fun _ _ _ A B); discriminate end.

(** ** C30 *)
(** the documented words of the options, and what they select *)
Inductive select_word : string -> select_mode -> Prop :=
  | sw_none : select_word "none" SelectNone | sw_match : select_word "match" SelectMatch | sw_conflict : select_word "conflict" SelectConflict.
Inductive propagate_word : string -> prop_mode -> Prop :=
  | pw_none : propagate_word "none" PropNone | pw_changed : propagate_word "changed" PropChanged | pw_full : propagate_word "full" PropFull.
Inductive store_word : string -> store_mode -> Prop :=
  | tw_no : store_word "no" StoreNo | tw_partial : store_word "partial" StorePartial | tw_total : store_word "total" StoreTotal.
Inductive bool_word : string -> bool -> Prop :=
  | bw_no : bool_word "no" false | bw_off : bool_word "off" false | bw_0 : bool_word "0" false
  | bw_yes : bool_word "yes" true | bw_on : bool_word "on" true | bw_1 : bool_word "1" true.
(** local, global, global,e and global,<number> *)
Inductive objective_value (rd : list ascii -> option Qc) (v : list ascii) : option RatQ -> Prop :=
  | ow_local : said v "local" -> objective_value rd v None
  | ow_global : said v "global" -> objective_value rd v (Some (mkRatQ 0%Qc 0%Qc))
  | ow_eps : said v "global,e" -> objective_value rd v (Some (mkRatQ 0%Qc 1%Qc))
  | ow_num s q : said_before v "global," s -> ~ said s "e" -> rd s = Some q -> objective_value rd v (Some (mkRatQ q 0%Qc)).

(** accepted iff it is a documented word, then just that setting is changed;
    otherwise rejected and nothing is changed *)
Theorem C30_select v o : (forall w m, said v w -> select_word w m -> parse_select v o = (set_select m o, true)) /\
  ((forall w m, select_word w m -> ~ said v w) -> parse_select v o = (o, false)).
Proof.
  unfold parse_select. split.
  - intros w m Hs Hw. words; rewrite ?iequals_spec, ?iequals_no in *; inversion Hw; subst; try clash; try contradiction; auto.
  - intros Hn. words; rewrite ?iequals_spec, ?iequals_no in *; auto; exfalso; (eapply Hn; [|eassumption]; eauto using sw_none, sw_match, sw_conflict).
Qed.
Theorem C30_propagate_bounds v o : (forall w m, said v w -> propagate_word w m -> parse_propagate v o = (set_pmode m o, true)) /\
  ((forall w m, propagate_word w m -> ~ said v w) -> parse_propagate v o = (o, false)).
Proof.
  unfold parse_propagate. split.
  - intros w m Hs Hw. words; rewrite ?iequals_spec, ?iequals_no in *; inversion Hw; subst; try clash; try contradiction; auto.
  - intros Hn. words; rewrite ?iequals_spec, ?iequals_no in *; auto; exfalso; (eapply Hn; [|eassumption]; eauto using pw_none, pw_changed, pw_full).
Qed.
Theorem C30_store v o : (forall w m, said v w -> store_word w m -> parse_store v o = (set_store m o, true)) /\
  ((forall w m, store_word w m -> ~ said v w) -> parse_store v o = (o, false)).
Proof.
  unfold parse_store. split.
  - intros w m Hs Hw. words; rewrite ?iequals_spec, ?iequals_no in *; inversion Hw; subst; try clash; try contradiction; auto.
  - intros Hn. words; rewrite ?iequals_spec, ?iequals_no in *; auto; exfalso; (eapply Hn; [|eassumption]; eauto using tw_no, tw_partial, tw_total).
Qed.
Theorem C30_booleans v : (forall w b, said v w -> bool_word w b -> parse_bool v = Some b) /\
  ((forall w b, bool_word w b -> ~ said v w) -> parse_bool v = None).
Proof.
  assert (K : forall l, existsb (iequals v) l = true <-> exists w, In w l /\ said v w).
  { intros l. rewrite existsb_exists. split; intros (w & A & B); exists w; split; auto; apply iequals_spec; auto. }
  unfold parse_bool. split.
  - intros w b Hs Hw. destruct (iequals v "no" || iequals v "off" || iequals v "0") eqn:E1.
    + assert (E : existsb (iequals v) ["no"; "off"; "0"]%string = true) by (cbn; rewrite orb_false_r, orb_assoc; auto). apply K in E as (w' & Hi & Hs').
      cbn in Hi. destruct Hi as [<-|[<-|[<-|[]]]]; inversion Hw; subst; auto; clash.
    + destruct (iequals v "yes" || iequals v "on" || iequals v "1") eqn:E2.
      * assert (E : existsb (iequals v) ["yes"; "on"; "1"]%string = true) by (cbn; rewrite orb_false_r, orb_assoc; auto). apply K in E as (w' & Hi & Hs').
        cbn in Hi. destruct Hi as [<-|[<-|[<-|[]]]]; inversion Hw; subst; auto; clash.
      * exfalso. rewrite !orb_false_iff, !iequals_no in *. inversion Hw; subst; tauto.
  - intros Hn. assert (N : forall w b, bool_word w b -> iequals v w = false) by (intros; apply iequals_no; eauto).
    rewrite (N _ _ bw_no), (N _ _ bw_off), (N _ _ bw_0), (N _ _ bw_yes), (N _ _ bw_on), (N _ _ bw_1). auto.
Qed.
Lemma ascii_app w w' : list_ascii_of_string (String.append w w') = list_ascii_of_string w ++ list_ascii_of_string w'.
Proof. induction w as [|c w IH]; [reflexivity|]. exact (f_equal (cons c) IH). Qed.
Lemma said_app a b w w' : said a w -> said b w' -> said (a ++ b) (w ++ w').
Proof.
  rewrite !said_lower. intros E1 E2. rewrite map_app, E1, E2. rewrite ascii_app, map_app. reflexivity.
Qed.
Theorem C30_objective rd v o :
  (forall g, objective_value rd v g -> parse_objective rd v o = Ok (set_global g o, true)) /\
  ((forall g, ~ objective_value rd v g) -> parse_objective rd v o = Ok (o, false) \/ parse_objective rd v o = Exn).
Proof.
  unfold parse_objective. set (G := list_ascii_of_string "global"). set (C := list_ascii_of_string ",").
  assert (P1 : forall s, said_before v "global," s -> exists c, iequals_pre v G = Some (c :: s) /\ iequals_pre (c :: s) C = Some s).
  { intros s (a & -> & Ha). apply said_lower in Ha. destruct a as [|a0 [|a1 [|a2 [|a3 [|a4 [|a5 [|a6 [|a7 a]]]]]]]]; try discriminate Ha. cbn in Ha. injection Ha as A1 A2 A3 A4 A5 A6 A7.
    exists a6. cbn [app]. split.
    - apply iequals_pre_spec. exists [a0; a1; a2; a3; a4; a5]. split; auto. cbn. congruence.
    - apply iequals_pre_spec. exists [a6]. split; auto. cbn. congruence. }
  assert (P2 : forall c r s, iequals_pre v G = Some (c :: r) -> iequals_pre (c :: r) C = Some s -> said_before v "global," s).
  { intros c r s E1 E2. apply iequals_pre_spec in E1 as (a & -> & E1). apply iequals_pre_spec in E2 as (b & -> & E2). exists (a ++ b). split; [rewrite app_assoc; auto|].
    exact (said_app a b "global" "," (proj2 (said_lower a "global") E1) (proj2 (said_lower b ",") E2)). }
  assert (PE : forall v0 w, said v0 w -> iequals v0 w = true) by (intros; apply iequals_spec; auto).
  split.
  - intros g Hg. destruct Hg as [Hs|Hs|Hs|s q Hb Hn Hr].
    + rewrite PE by auto. auto.
    + assert (E : iequals v "local" = false). { apply iequals_no. intros Hl. clash. }
      rewrite E. assert (E1 : iequals_pre v G = Some []) by (apply iequals_pre_spec; exists v; rewrite app_nil_r; split; [auto|apply said_lower; auto]). rewrite E1. auto.
    + assert (E : iequals v "local" = false). { apply iequals_no. intros Hl. clash. }
      rewrite E. assert (Hb : exists s, said_before v "global," s /\ said s "e").
      { apply said_lower in Hs. destruct v as [|a0 [|a1 [|a2 [|a3 [|a4 [|a5 [|a6 [|a7 [|a8 v]]]]]]]]]; try discriminate Hs. cbn in Hs. injection Hs as A1 A2 A3 A4 A5 A6 A7 A8.
        exists [a7]. split; [exists [a0; a1; a2; a3; a4; a5; a6]; split; auto|]; apply said_lower; cbn; congruence. }
      destruct Hb as (s & Hb & He). destruct (P1 s Hb) as (c & -> & ->). rewrite PE by auto. auto.
    + assert (E : iequals v "local" = false).
      { apply iequals_no. intros Hl. destruct Hb as (a & -> & Ha). rewrite said_lower in *. rewrite map_app in Hl. rewrite Ha in Hl. discriminate. }
      rewrite E. destruct (P1 s Hb) as (c & -> & ->). apply iequals_no in Hn. rewrite Hn, Hr. auto.
  - intros Hn. destruct (iequals v "local") eqn:E0; [exfalso; apply (Hn None), ow_local, iequals_spec; auto|].
    destruct (iequals_pre v G) as [[|c r]|] eqn:E1; [| |auto].
    + exfalso. apply iequals_pre_spec in E1 as (a & -> & E1). apply (Hn (Some (mkRatQ 0%Qc 0%Qc))). apply ow_global. rewrite app_nil_r. apply said_lower. auto.
    + destruct (iequals_pre (c :: r) C) as [s|] eqn:E2; [|auto]. pose proof (P2 _ _ _ eq_refl E2) as Hb.
      destruct (iequals s "e") eqn:E3.
      * exfalso. apply (Hn (Some (mkRatQ 0%Qc 1%Qc))). apply ow_eps. destruct Hb as (a & -> & Ha). apply iequals_spec in E3. exact (said_app a s "global," "e" Ha E3).
      * destruct (rd s) as [q|] eqn:Er; auto. exfalso. apply (Hn (Some (mkRatQ q 0%Qc))). eapply ow_num; eauto. apply iequals_no. auto.
Qed.
Example C30_used : parse_select (list_ascii_of_string "MaTcH") default_options = (Options SelectMatch StoreNo None PropNone false, true) /\
  parse_objective read_rational (list_ascii_of_string "Global,-3/6") default_options = Ok (Options SelectNone StoreNo (Some (mkRatQ (Q2Qc (-1 # 2)) 0%Qc)) PropNone false, true) /\
  parse_objective read_rational (list_ascii_of_string "global,x") default_options = Exn.
Proof.
  split; [reflexivity|]. split; [|reflexivity]. assert (E : Q2Qc (-1 # 2) = Q2Qc (-3 # 6)) by (apply Qc_is_canon; reflexivity).
  rewrite E. vm_compute. reflexivity.
Qed.

(** ** C31 *)
(** keys configure() handles as the command line does *)
Definition sound_key (key : string) : Prop := (key = "strict" \/ key = "propagate-conflicts" \/ key = "select" \/ key = "store")%string.
(** what a valid key and value select *)
Inductive setting : string -> list ascii -> theory -> theory -> Prop :=
  | set_strict v w b t : said v w -> bool_word w b -> setting "strict" v t (Theory (t_opts t) b)
  | set_conflicts v w b t : said v w -> bool_word w b -> setting "propagate-conflicts" v t (Theory (set_pconf b (t_opts t)) (t_strict t))
  | set_sel v w m t : said v w -> select_word w m -> setting "select" v t (Theory (set_select m (t_opts t)) (t_strict t))
  | set_sto v w m t : said v w -> store_word w m -> setting "store" v t (Theory (set_store m (t_opts t)) (t_strict t)).

Lemma said_dec v w : {said v w} + {~ said v w}.
Proof. destruct (iequals v w) eqn:E; [left; apply iequals_spec; auto|right; apply iequals_no; auto]. Qed.
Ltac oneof H := first [left; eexists _, _; split; [exact H|solve [eauto using sw_none, sw_match, sw_conflict, pw_none, pw_changed, pw_full, tw_no, tw_partial, tw_total, bw_no, bw_off, bw_0, bw_yes, bw_on, bw_1]]].
Lemma words_dec {A} (R : string -> A -> Prop) (l : list (string * A)) v : (forall w m, R w m <-> (w, m) ∈ l) -> (exists w m, said v w /\ R w m) \/ (forall w m, R w m -> ~ said v w).
Proof.
  intros HR. assert (D : (exists w m, said v w /\ (w, m) ∈ l) \/ (forall w m, (w, m) ∈ l -> ~ said v w)).
  { clear HR. induction l as [|[w m] l IH]; [right; intros w m Hi; inversion Hi|].
    destruct (said_dec v w); [left; exists w, m; split; auto; left|]. destruct IH as [(w' & m' & A1 & A2)|IH]; [left; exists w', m'; split; auto; right; auto|].
    right. intros w' m' Hi. apply elem_of_cons in Hi as [[= -> ->]|Hi]; eauto. }
  destruct D as [(w & m & A1 & A2)|D]; [left; exists w, m; split; auto; apply HR; auto|right; intros w m Hw; apply (D w m); apply HR; auto].
Qed.
Ltac wl := intros w m; split; [intros Hw; inversion Hw; subst; rewrite !elem_of_cons; tauto|
  rewrite !elem_of_cons; intros Hw; repeat (destruct Hw as [[= -> ->]|Hw]; [constructor|]); inversion Hw].
Lemma bool_dec v : (exists w b, said v w /\ bool_word w b) \/ (forall w b, bool_word w b -> ~ said v w).
Proof. apply (words_dec bool_word [("no", false); ("off", false); ("0", false); ("yes", true); ("on", true); ("1", true)]%string). wl. Qed.
Lemma select_dec v : (exists w b, said v w /\ select_word w b) \/ (forall w b, select_word w b -> ~ said v w).
Proof. apply (words_dec select_word [("none", SelectNone); ("match", SelectMatch); ("conflict", SelectConflict)]%string). wl. Qed.
Lemma store_dec v : (exists w b, said v w /\ store_word w b) \/ (forall w b, store_word w b -> ~ said v w).
Proof. apply (words_dec store_word [("no", StoreNo); ("partial", StorePartial); ("total", StoreTotal)]%string). wl. Qed.

(** Missing: the keys objective and propagate-bounds, and the message for
    store, see C31_refuted. *)
Theorem C31_configure_partial key v t : key <> "objective"%string -> key <> "propagate-bounds"%string ->
  (forall t', setting key v t t' -> configure key v t = Ok (t', None)) /\
  ((forall t', ~ setting key v t t') -> exists m, configure key v t = Ok (t, Some m) /\
     (sound_key key -> key <> "store"%string -> m = BadValue key) /\ (~ sound_key key -> m = BadKey key)).
Proof.
  intros Ho Hb. split.
  - intros t' Hs. destruct Hs as [v w b t Hs Hw|v w b t Hs Hw|v w m t Hs Hw|v w m t Hs Hw]; unfold configure; cbn.
    + rewrite (proj1 (C30_booleans v) w b Hs Hw). auto.
    + rewrite (proj1 (C30_booleans v) w b Hs Hw). auto.
    + rewrite (proj1 (C30_select v (t_opts t)) w m Hs Hw). auto.
    + rewrite (proj1 (C30_store v (t_opts t)) w m Hs Hw). auto.
  - intros Hn. unfold configure. destruct (String.eqb_spec key "strict") as [->|N1].
    { rewrite (proj2 (C30_booleans v)); [|intros w b Hw Hs; eapply Hn, set_strict; eauto]. eexists. split; [reflexivity|]. split; auto. intros Hk. destruct Hk. unfold sound_key. auto. }
    destruct (String.eqb_spec key "objective") as [->|N2]; [congruence|].
    destruct (String.eqb_spec key "propagate-conflicts") as [->|N3].
    { rewrite (proj2 (C30_booleans v)); [|intros w b Hw Hs; eapply Hn, set_conflicts; eauto]. eexists. split; [reflexivity|]. split; auto. intros Hk. destruct Hk. unfold sound_key. auto. }
    destruct (String.eqb_spec key "propagate-bounds") as [->|N4]; [congruence|].
    destruct (String.eqb_spec key "select") as [->|N5].
    { rewrite (proj2 (C30_select v _)); [|intros w b Hw Hs; eapply Hn, set_sel; eauto]. eexists. split; [reflexivity|]. split; auto. intros Hk. destruct Hk. unfold sound_key. auto. }
    destruct (String.eqb_spec key "store") as [->|N6].
    { rewrite (proj2 (C30_store v _)); [|intros w b Hw Hs; eapply Hn, set_sto; eauto]. eexists. split; [reflexivity|]. split; [congruence|]. intros Hk. destruct Hk. unfold sound_key. auto. }
    eexists. split; [reflexivity|]. split; auto. intros [-> |[-> |[-> | ->]]]; congruence.
Qed.
(** select and store: the same effect as the command-line option *)
Theorem C31_as_command_line_partial rd key v t : key = "select"%string \/ key = "store"%string ->
  exists t' ok, command_line rd key v t = Ok (t', ok) /\ configure key v t = Ok (t', if ok then None else Some (BadValue "select")).
Proof.
  intros [-> | ->]; unfold command_line, configure; cbn.
  - destruct (select_dec v) as [(w & m & Hs & Hw)|Hn].
    + rewrite (proj1 (C30_select v (t_opts t)) w m Hs Hw). eexists _, _. split; reflexivity.
    + rewrite (proj2 (C30_select v (t_opts t)) Hn). destruct t. eexists _, _. split; reflexivity.
  - destruct (store_dec v) as [(w & m & Hs & Hw)|Hn].
    + rewrite (proj1 (C30_store v (t_opts t)) w m Hs Hw). eexists _, _. split; reflexivity.
    + rewrite (proj2 (C30_store v (t_opts t)) Hn). destruct t. eexists _, _. split; reflexivity.
Qed.
(** configure("objective", "global") is refused and configure("objective",
    "yes") writes a bool over an optional; configure("propagate-bounds", w)
    writes out of bounds for every documented word w; a bad value for store is
    reported as one for select *)
Theorem C31_refuted t :
  (forall rd, exists t', command_line rd "objective" (list_ascii_of_string "global") t = Ok (t', true) /\
    configure "objective" (list_ascii_of_string "global") t = Ok (t, Some (BadValue "objective")) /\ o_global (t_opts t') = Some (mkRatQ 0%Qc 0%Qc)) /\
  configure "objective" (list_ascii_of_string "yes") t = UB /\
  (forall v w m, said v w -> propagate_word w m -> configure "propagate-bounds" v t = UB) /\
  (forall v, (forall w m, store_word w m -> ~ said v w) -> configure "store" v t = Ok (t, Some (BadValue "select"))).
Proof.
  split; [intros rd; eexists; split; [reflexivity|]; split; reflexivity|]. split; [reflexivity|]. split.
  - intros v w m Hs Hw. unfold configure. cbn. rewrite (proj1 (C30_propagate_bounds v (t_opts t)) w m Hs Hw). auto.
  - intros v Hn. unfold configure. cbn. rewrite (proj2 (C30_store v (t_opts t)) Hn). auto.
Qed.

(** ** C32 *)
Theorem C32_validate t : validate_options t = false <-> t_strict t = false /\ exists g, o_global (t_opts t) = Some g /\ rq_k g <> 0%Qc.
Proof.
  unfold validate_options. destruct (t_strict t); cbn.
  - split; [discriminate|]. intros [? _]. discriminate.
  - destruct (o_global (t_opts t)) as [g|]; cbn.
    + rewrite negb_involutive. destruct (Qc_eq_bool (rq_k g) 0) eqn:E.
      * apply Qc_eq_bool_iff in E. split; [discriminate|]. intros (_ & g' & [= <-] & Hk). congruence.
      * split; auto. intros _. split; auto. exists g. split; auto. intros E'. apply Qc_eq_bool_iff in E'. congruence.
    + split; [discriminate|]. intros (_ & g & ? & _). discriminate.
Qed.
(** the options can be used by the solver: see C14_no_undefined_behaviour_partial, which
    assumes just this and excludes exceptions *)
Theorem C32_valid_steps t : validate_options t = true ->
  if t_strict t then step_ok (V := RatQ) (t_opts t) else step_ok (V := Qc) (t_opts t).
Proof.
  intros Hv. destruct (t_strict t) eqn:Es; intros g Hg; cbn; [discriminate|].
  unfold validate_options in Hv. rewrite Es, Hg in Hv. cbn in Hv. rewrite negb_involutive in Hv. rewrite Hv. discriminate.
Qed.
Example C32_cases : validate_options (Theory ex_gopts false) = false /\ validate_options (Theory ex_gopts true) = true.
Proof. split; reflexivity. Qed.
