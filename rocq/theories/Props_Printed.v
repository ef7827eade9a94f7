(** * C53: what the application prints is a solution of the program

    From the text of the program (theory atoms) to the text of the answer:
    whoever reads the values off the lines printed by main.cc has a solution,
    and an objective value marked bounded is the optimum. *)

From Coq Require Import Ascii String.
From Verif Require Import Num Solver Spec Eps RationalQ Propagator World WorldProofs Reach WeakReach Observe Parsing ParseSpec ParseNum ParseProofs ParseSum ParseTheory ParseAtoms ParsePrograms ParseSyntax.
From Verif Require Import Props_Parsing Api Examples Props_Solver Props_Decision Props_Print Props_Api Props_Program Grammar Props_Grammar Main Props_Main Props_EndToEnd Lifecycle Props_Lifecycle.

(** ** Specification *)
(** [R] gives every variable the number printed after it; variables that are not printed are free *)
Definition reading (pairs : list (symbol * list ascii)) (R : symbol -> RatQ) : Prop := forall x txt, (x, txt) ∈ pairs -> shows txt (R x).
(** the numbers for a given epsilon *)
Definition at_all (e : Qc) (R : symbol -> RatQ) (x : symbol) : Qc := at_eps e (R x).
(** [y] is the largest value of the objective on the solutions, reached for every small epsilon *)
Definition optimal (m : Z -> Z) (tr : Z -> bool) (l : list tatom) (r : RatQ) : Prop :=
  (forall A y, solves m A tr l -> objective_means A (tru m tr) l y -> RationalQ.eventually (fun e => (y <= at_eps e r)%Qc)) /\
  RationalQ.eventually (fun e => exists A, solves m A tr l /\ objective_means A (tru m tr) l (at_eps e r)).
Definition no_optimum (m : Z -> Z) (tr : Z -> bool) (l : list tatom) : Prop :=
  forall M : Qc, exists A y, solves m A tr l /\ objective_means A (tru m tr) l y /\ (M < y)%Qc.
(** a printed text of the application: shown symbols, values, objective *)
Record text_of_answer (show : symbol -> list ascii) (shown : list symbol) (pairs : list (symbol * list ascii)) (obj : option (list ascii * bool)) (out : list ascii) : Prop := {
  ta_text : exists s shown', shown' ≡ₚ shown /\ Props_Main.answer show shown' pairs s /\ out = s ++ objective_line obj ++ ["010"%char];
  ta_once : NoDup (map fst pairs);
  ta_users : forall x txt, (x, txt) ∈ pairs -> is_number x = false;
  ta_readable : exists R, reading pairs R;
}.

Section printed.
  Context {V : Type} `{VL : ValueLaws V} (pv : V -> list ascii) (emb : V -> RatQ).
  Context (emb_shows : forall v, shows (pv v) (emb v)) (emb_at : forall e v, inst e v = at_eps e (emb v)).
  Context (show : symbol -> list ascii) (less : symbol -> symbol -> bool) (srt : list symbol -> list symbol).
  Context (srt_perm : forall l, srt l ≡ₚ l) (srt_sorted : forall l, ascending less (srt l)).
  Context (less_args : forall n x y l l' pos, less x y = true -> less (SFun n (x :: l) pos) (SFun n (y :: l') pos) = true).
  Context (m : Z -> Z) (bk : backend).

  Lemma user_known x : is_number x = false -> user x.
  Proof. destruct x; cbn; [discriminate|auto|auto]. Qed.
  Lemma known_user x : user x -> is_number x = false.
  Proof. destruct x; cbn; auto. intros []. Qed.

  Lemma prints o sh (w : world V symbol) t shown : step_ok (V := V) o -> reach_any o sh w -> t < length (w_th w) ->
    exists theory pairs obj, extension pv (w_p w) t = Ok theory /\ text_of_answer show shown pairs obj (print_model show srt shown theory) /\
      (forall x i, user x -> f_lookup (w_p w) x = Some i -> (x, pv (api_value (w_p w) t x)) ∈ pairs) /\
      exists ob, p_get_objective (w_p w) t = Ok ob /\ obj = match ob with Some (v, b) => Some (pv v, b) | None => None end.
  Proof.
    intros So Hr Ht. destruct (C47_printed_answer pv show less srt o sh w t shown srt_perm srt_sorted less_args So Hr Ht)
      as (theory & shown' & ass & obj & s & E & Em & _ & Han & Hp & _ & Hn & _ & Hv & Hob).
    set (f := fun '((x, v) : symbol * V) => (x, pv v)).
    assert (Efst : map fst (map f ass) = map fst ass) by (rewrite map_map; apply map_ext; intros [? ?]; reflexivity).
    exists theory, (map f ass), obj. split; [exact E|]. split; [|split; [|exact Hob]].
    - constructor.
      + exists s, shown'. auto.
      + rewrite Efst. exact Hn.
      + intros x txt Hx. apply elem_of_list_fmap in Hx as ([y v] & [= -> ->] & Hy). exact (proj1 (proj1 (Hv y v) Hy)).
      + exists (fun x => emb (api_value (w_p w) t x)). intros x txt Hx. apply elem_of_list_fmap in Hx as ([y v] & [= -> ->] & Hy).
        destruct (proj1 (Hv y v) Hy) as (_ & i & Hi & Hg). unfold api_value. unfold f_lookup in Hi. destruct (p_lookup_symbol (w_p w) y) as [k|]; [|discriminate].
        injection Hi as <-. replace (k + 1) with (S k) in Hg by lia. cbn [f_get_value] in Hg. rewrite Hg. apply emb_shows.
    - intros x i Hu Hi. apply elem_of_list_fmap. exists (x, api_value (w_p w) t x). split; [reflexivity|]. apply Hv. split; [now apply known_user|].
      exists i. split; [exact Hi|]. unfold api_value. unfold f_lookup in Hi. destruct (p_lookup_symbol (w_p w) x) as [k|] eqn:Ek; [|discriminate].
      injection Hi as <-. replace (k + 1) with (S k) by lia. cbn [f_get_value].
      assert (Hk : p_has_value (w_p w) t k = true).
      { unfold p_has_value. apply Nat.ltb_lt. unfold p_lookup_symbol in Ek. apply (find_sym_spec _ (reach_nodup _ _ _ So Hr)) in Ek. apply lookup_lt_Some in Ek. exact Ek. }
      destruct (proj1 (reads o sh w So Hr t Ht) k Hk) as [v ->]. reflexivity.
  Qed.

  (** values *)
  Lemma printed_values o l sh (w : world V symbol) t tr pairs obj : step_ok (V := V) o -> reach o sh w -> program m bk l sh -> accepted w t -> assignment_of m sh w t tr ->
    (forall x i, user x -> f_lookup (w_p w) x = Some i -> (x, pv (api_value (w_p w) t x)) ∈ pairs) ->
    (exists ob, p_get_objective (w_p w) t = Ok ob /\ obj = match ob with Some (v, b) => Some (pv v, b) | None => None end) ->
    forall R, reading pairs R -> RationalQ.eventually (fun e => solves m (at_all e R) tr l /\
      forall txt b r, obj = Some (txt, b) -> shows txt r -> objective_means (at_all e R) (tru m tr) l (at_eps e r)).
  Proof.
    intros So Hr HP Ha HA Hpairs (ob & Eob & ->) R HR.
    destruct (accepted_holds m bk o l sh w t tr So Hr HP Ha HA) as (e0 & He & Hq). exists e0. split; [exact He|]. intros e E1 E2. specialize (Hq e E1 E2).
    set (api := fun x => inst e (api_value (w_p w) t x)) in *.
    set (B := fun x => if is_number x then api x else at_all e R x).
    assert (HB : forall x, (exists i, f_lookup (w_p w) x = Some i) -> api x = B x).
    { intros x [i Hi]. unfold B. destruct (is_number x) eqn:En; [reflexivity|]. unfold api, at_all. rewrite emb_at. f_equal.
      apply (C37_text_unambiguous (pv (api_value (w_p w) t x))); [apply emb_shows|]. apply HR. apply (Hpairs x i); [now apply user_known|exact Hi]. }
    assert (Hag : agree B (at_all e R)). { intros x Hu. unfold B. now rewrite (known_user x Hu). }
    destruct HP as [(st & Hl & Ei & Eo) Hat Hp].
    assert (HqB : forall q, q ∈ ps_iqs st -> tr (q_lit q) = true -> holds B q).
    { intros q Hin Ht. rewrite <- Ei in Hin. specialize (Hq q Hin Ht). unfold holds in *. rewrite <- (lin_ext api B); [exact Hq|].
      intros c x Hx. apply HB. apply (C28_known o sh w x So (reach_reach_any _ _ _ Hr)). left. eauto. }
    pose proof HA as [A1 A2 A3 A4]. split.
    - intros a Hin Hc Ht. apply (atom_agree B); [exact Hag|]. exact (C21_solutions_satisfy_atoms_partial m bk l st Hl Hat tr B A1 HqB a Hin Hc Ht).
    - intros txt b r Eobj Hsh. destruct ob as [[v b']|]; [|discriminate]. injection Eobj as <- <-.
      assert (r = emb v) as -> by (apply (C37_text_unambiguous (pv v)); [exact Hsh|apply emb_shows]). rewrite <- emb_at.
      apply (objective_agree B); [exact Hag|].
      assert (inst e v = lin B (ps_obj st)) as ->.
      {destruct (reach_inv o sh w So Hr) as (s0s & new0 & facts0 & ass & I). destruct Ha as [Ht Hb]. destruct (ObserveProofs.get_view o sh s0s new0 facts0 ass w t I Ht) as (s0 & s & fs & _ & VW).
        pose proof (ObserveProofs.view_objective o sh ass w t s0 s fs ltac:(apply I) ltac:(apply I) VW Hb) as Hvo. rewrite Hvo in Eob.
        assert (v = linV (api_value (w_p w) t) (sh_obj sh)) as -> by (destruct (decide (sh_obj sh = [])); congruence).
        rewrite inst_linV, <- Eo. apply (lin_ext api B). intros c x Hx. apply HB. apply (C28_known o sh w x So (reach_reach_any _ _ _ Hr)). right. eauto. }
      exact (C22_objective_partial m bk l st Hl ltac:(intros a Ha'; destruct (Hat a Ha') as (? & ? & ?); auto) tr B A1 HqB).
  Qed.

  (** everything the printed text says in a state of a session *)
  Lemma prints_solution th l sh (w : world V symbol) t tr shown : step_ok (V := V) (rg_options (clingolpx_register th)) -> (forall l sh, regular th m bk l sh -> shot_ok (V := V) sh) ->
    session th m bk l sh w -> accepted w t -> assignment_of m sh w t tr ->
    exists theory pairs obj, extension pv (w_p w) t = Ok theory /\ text_of_answer show shown pairs obj (print_model show srt shown theory) /\
      forall R, reading pairs R -> RationalQ.eventually (fun e => solves m (at_all e R) tr l /\
        forall txt b r, obj = Some (txt, b) -> shows txt r -> objective_means (at_all e R) (tru m tr) l (at_eps e r)).
  Proof.
    intros So Hsh S Ha HA. pose proof (session_reach th m bk Hsh So l sh w S) as Hr. pose proof (regular_program th m bk l sh (session_current _ _ _ _ _ _ S)) as HP.
    destruct (prints (rg_options (clingolpx_register th)) sh w t shown So (reach_reach_any _ _ _ Hr) (proj1 Ha)) as (theory & pairs & obj & E & Htx & Hpairs & Hob).
    exists theory, pairs, obj. split; [exact E|]. split; [exact Htx|]. exact (printed_values _ l sh w t tr pairs obj So Hr HP Ha HA Hpairs Hob).
  Qed.
  (** the optimum *)
  Lemma le_eventually y v : vle (vofq y) v -> RationalQ.eventually (fun e => (y <= at_eps e (emb v))%Qc).
  Proof.
    intros Hle. destruct (inst_le_small (vofq y) v Hle) as (e0 & H0 & He). exists e0. split; [exact H0|]. intros e E1 E2. rewrite <- emb_at, <- (inst_ofq (V := V) e y). exact (He e E1 E2).
  Qed.
  Lemma prints_optimum th l sh (w w' : world V symbol) t tr h a l1 l2 shown : step_ok (V := V) (rg_options (clingolpx_register th)) -> (forall l sh, regular th m bk l sh -> shot_ok (V := V) sh) ->
    session th m bk l sh w -> sh_obj sh <> [] -> adm (EvCheck t h a true l1 l2) w -> step (rg_options (clingolpx_register th)) (EvCheck t h a true l1 l2) w w' ->
    w_log w' = w_log w -> accepted w' t -> assignment_of m sh w' t tr ->
    exists theory pairs txt b, extension pv (w_p w') t = Ok theory /\ text_of_answer show shown pairs (Some (txt, b)) (print_model show srt shown theory) /\
      (b = true -> exists r, shows txt r /\ optimal m tr l r) /\ (b = false -> no_optimum m tr l).
  Proof.
    intros So Hsh S Ho Had Hst Hlog Ha HA.
    pose proof (session_reach th m bk Hsh So l sh w S) as Hr.
    assert (S' : session th m bk l sh w') by exact (se_step _ _ _ _ _ _ _ _ S Had Hst).
    pose proof (session_reach th m bk Hsh So l sh w' S') as Hr'.
    destruct (prints (rg_options (clingolpx_register th)) sh w' t shown So (reach_reach_any _ _ _ Hr') (proj1 Ha)) as (theory & pairs & obj & E & Htx & _ & ob & Eob & ->).
    pose proof (session_guarantees th m bk Hsh So l sh w S) as G.
    destruct (gu_optimum _ _ _ _ _ _ G t tr h a l1 l2 w' Ho Had Hst Hlog Ha HA) as (v & b & Ev & Hb & Hu). rewrite Eob in Ev. injection Ev as ->.
    exists theory, pairs, (pv v), b. split; [exact E|]. split; [exact Htx|]. split; [|exact Hu].
    intros ->. destruct (Hb eq_refl) as [H1 (e0 & H0 & H2)]. exists (emb v). split; [apply emb_shows|]. split.
    - intros A y HsA Hy. apply le_eventually. exact (H1 A y HsA Hy).
    - exists e0. split; [exact H0|]. intros e E1 E2. destruct (H2 e E1 E2) as (A & HsA & Hy). exists A. split; [exact HsA|]. rewrite <- emb_at. exact Hy.
  Qed.
End printed.

(** clingolpx_on_model *)
Section model.
  Context {V : Type} `{VL : ValueLaws V} (pv : V -> list ascii) (o : options) (x : object V).
  Notation w := (ob_world x).
  Lemma models t theory : ob_opts x = o -> extension pv (w_p w) t = Ok theory -> (exists fuel w', wstep fuel o (EvModel t) w = Ok w') ->
    exists w', (forall fuel, c_event pv fuel (EvModel t) x = Returned (Extended theory, with_world x w')) /\ step o (EvModel t) w w' /\
      p_vars (w_p w') = p_vars (w_p w) /\ p_slvs (w_p w') = p_slvs (w_p w).
  Proof.
    intros Ho El (fuel & w' & E). exists w'. split; [|split].
    - intros k. unfold c_event. rewrite El. cbn [mbind res_bind]. rewrite Ho. change (wstep k o (EvModel t) w) with (wstep fuel o (EvModel t) w). rewrite E. reflexivity.
    - exists fuel. exact E.
    - cbn [wstep] in E. destruct (p_get_objective (w_p w) t) as [v| | |]; cbn [mbind res_bind] in E; try discriminate E.
      unfold p_on_model in E. destruct (o_global o); cbn [mbind res_bind] in E; [|injection E as <-; split; reflexivity].
      destruct (at_ (p_slvs (w_p w)) t) as [[off s]| | |]; cbn [mbind res_bind] in E; try discriminate E.
      destruct (get_objective s) as [[v'|]| | |]; cbn [mbind res_bind] in E; try discriminate E; injection E as <-; split; reflexivity.
  Qed.
End model.

(** ** C53 *)
Section c53.
  (** how clingo writes and sorts symbols *)
  Context (show : symbol -> list ascii) (less : symbol -> symbol -> bool) (srt : list symbol -> list symbol).
  Context (srt_perm : forall l, srt l ≡ₚ l) (srt_sorted : forall l, ascending less (srt l)).
  Context (less_args : forall n x y l l' pos, less x y = true -> less (SFun n (x :: l) pos) (SFun n (y :: l') pos) = true).
  Context (rd : list ascii -> option Qc) (bk : backend) (m : Z -> Z).

  Definition plainly (q : Qc) : RatQ := mkRatQ q 0%Qc.
  Lemma plain_shows q : shows (print_rat q) (plainly q).
  Proof. apply shows_c, print_rat_ok. Qed.
  Lemma plain_at e (q : Qc) : inst e q = at_eps e (plainly q).
  Proof. reflexivity. Qed.
  Lemma strict_at e (v : RatQ) : inst e v = at_eps e v.
  Proof. reflexivity. Qed.

  (** In every state of every use of the API in which clingo may report a model
      ([legal (OnModel t)]): the numbers printed solve the program, whatever is
      assumed for variables that are not printed, and the objective printed is
      the one the program defines. *)
  Lemma setup {V} `{Value V} (strict : bool) (inj : object V -> registered) init ph h : usage strict inj init rd bk m ph h ->
    forall th l sh, ph = After th l sh -> t_strict th = strict /\ validate_options th = true.
  Proof.
    induction 1 as [|ph h c fuel a h' U IH Hs E|h fuel h' U IH Hv Ht E|th0 l0 sh0 h x a fuel h' x' U IH Hx E Hx' Hst R|th0 l0 sh0 h x c fuel a h' U IH Hx L E]; intros th l sh Ep.
    - discriminate Ep.
    - exact (IH th l sh Ep).
    - injection Ep as <- _ _. auto.
    - injection Ep as <- _ _. exact (IH _ _ _ eq_refl).
    - injection Ep as <- _ _. exact (IH _ _ _ eq_refl).
  Qed.
  Lemma plain_counted th l sh h : plain_usage rd bk m (After th l sh) h -> hd_count h = 1.
  Proof.
    intros U.
    assert (H1 : forall th' l' (sh' : shot Qc symbol), t_strict th' = false -> validate_options th' = true -> regular th' m bk l' sh' -> shot_ok sh') by (intros th' l' sh' X1 X2 R; exact (proj1 (plain_shot bk m th' l' sh' X1 X2 R))).
    assert (H2 : forall th' l' (sh' : shot Qc symbol), t_strict th' = false -> validate_options th' = true -> regular th' m bk l' sh' -> step_ok (V := Qc) (t_opts th')) by (intros th' l' sh' X1 X2 R; exact (proj2 (plain_shot bk m th' l' sh' X1 X2 R))).
    destruct (usage_ok false Plain InitPlain rd bk m plain_inj (plain_init rd bk m) print_rat (plain_event rd bk m) (plain_model rd bk m) (plain_decide rd bk m) (plain_query rd bk m) (plain_register rd bk m) H1 H2 _ _ U) as [x I].
    exact (iu_count _ _ _ _ _ _ _ _ _ I).
  Qed.
  Lemma plain_extended th l sh h x t theory : plain_usage rd bk m (After th l (Some sh)) h -> hd_prop h = Some (Plain x) -> legal (OnModel t) (ob_world x) ->
    extension print_rat (w_p (ob_world x)) t = Ok theory -> exists h', forall fuel, api_call rd bk m fuel (OnModel t) h = Returned (Extended theory, Some h').
  Proof.
    intros U Hx L E. destruct (C51_plain rd bk m th l sh h U) as (y & Hy & Eo & S & G). rewrite Hx in Hy. injection Hy as <-. pose proof (plain_counted _ _ _ _ U) as Hc.
    destruct (models print_rat (t_opts th) x t theory Eo E) as (w' & Em & _).
    - destruct (gu_returns _ _ _ _ _ _ G (EvModel t) L) as [n Hn]. destruct (Hn n (le_n n)) as [w' E']. rewrite opts_of in E'. eauto.
    - exists (Handle (hd_theory h) (Some (Plain (with_world x w'))) 1). intros fuel. rewrite (plain_model rd bk m fuel t h x Hc Hx), Em. reflexivity.
  Qed.
  Theorem C53_plain th l sh h x t tr shown : plain_usage rd bk m (After th l (Some sh)) h -> hd_prop h = Some (Plain x) -> legal (OnModel t) (ob_world x) ->
    assignment_of m sh (ob_world x) t tr ->
    exists theory h' pairs obj, (forall fuel, api_call rd bk m fuel (OnModel t) h = Returned (Extended theory, Some h')) /\ text_of_answer show shown pairs obj (print_model show srt shown theory) /\
      forall R, reading pairs R -> RationalQ.eventually (fun e => solves m (at_all e R) tr l /\
        forall txt b r, obj = Some (txt, b) -> shows txt r -> objective_means (at_all e R) (tru m tr) l (at_eps e r)).
  Proof.
    intros U Hx L HA. destruct (C51_plain rd bk m th l sh h U) as (y & Hy & Eo & S & _). rewrite Hx in Hy. injection Hy as <-.
    destruct (setup _ _ _ _ _ U th l (Some sh) eq_refl) as [Hs Hv].
    assert (P1 : step_ok (V := Qc) (rg_options (clingolpx_register th))) by (rewrite opts_of; exact (proj2 (plain_shot bk m th l sh Hs Hv (session_current _ _ _ _ _ _ S)))).
    assert (P2 : forall l' (sh' : shot Qc symbol), regular th m bk l' sh' -> shot_ok sh') by (intros l' sh' R; exact (proj1 (plain_shot bk m th l' sh' Hs Hv R))).
    destruct (prints_solution print_rat plainly plain_shows plain_at show less srt srt_perm srt_sorted less_args m bk th l sh (ob_world x) t tr shown P1 P2 S L HA) as (theory & pairs & obj & Ex & Htx & HR).
    destruct (plain_extended th l sh h x t theory U Hx L Ex) as [h' Eh]. exists theory, h', pairs, obj. split; [exact Eh|]. split; [exact Htx|exact HR].
  Qed.
  Theorem C53_plain_optimum th l sh h x t hh a l1 l2 fuel ans h' x' tr shown : plain_usage rd bk m (After th l (Some sh)) h -> hd_prop h = Some (Plain x) ->
    legal (Callback 0 (EvCheck t hh a true l1 l2)) (ob_world x) -> api_call rd bk m fuel (Callback 0 (EvCheck t hh a true l1 l2)) h = Returned (ans, Some h') ->
    hd_prop h' = Some (Plain x') -> w_log (ob_world x') = w_log (ob_world x) -> sh_obj sh <> [] -> legal (OnModel t) (ob_world x') -> assignment_of m sh (ob_world x') t tr ->
    exists theory h'' pairs txt b, (forall fuel, api_call rd bk m fuel (OnModel t) h' = Returned (Extended theory, Some h'')) /\ text_of_answer show shown pairs (Some (txt, b)) (print_model show srt shown theory) /\
      (b = true -> exists r, shows txt r /\ optimal m tr l r) /\ (b = false -> no_optimum m tr l).
  Proof.
    intros U Hx L E Hx' Hlog Hobj Lm HA. pose proof (us_use _ _ _ _ _ _ _ _ _ _ _ _ _ _ _ U Hx L E) as U'. destruct (C51_plain rd bk m th l sh h U) as (y & Hy & Eo & S & _). rewrite Hx in Hy. injection Hy as <-.
    destruct (setup _ _ _ _ _ U th l (Some sh) eq_refl) as [Hs Hv]. pose proof (plain_counted _ _ _ _ U) as Hc.
    destruct L as (_ & Had & _). rewrite (plain_event rd bk m fuel _ h x Hc Hx) in E. unfold c_event in E.
    destruct (wstep fuel (ob_opts x) (EvCheck t hh a true l1 l2) (ob_world x)) as [w'| | |] eqn:Ew; cbn in E.
    3: { exfalso. assert (So : step_ok (V := Qc) (rg_options (clingolpx_register th))) by (rewrite opts_of; exact (proj2 (plain_shot bk m th l sh Hs Hv (session_current _ _ _ _ _ _ S)))).
         pose proof (session_guarantees th m bk (fun l' sh' R => proj1 (plain_shot bk m th l' sh' Hs Hv R)) So l sh _ S) as G.
         pose proof (gu_no_ub _ _ _ _ _ _ G _ fuel Had) as [_ N]. apply N. rewrite opts_of, <- Eo. exact Ew. }
    2, 3: discriminate E.
    injection E as _ Eh'. pose proof Hx' as Hx2. rewrite <- Eh' in Hx2. cbn in Hx2. injection Hx2 as <-. cbn [ob_world with_world] in *.
    assert (P1 : step_ok (V := Qc) (rg_options (clingolpx_register th))) by (rewrite opts_of; exact (proj2 (plain_shot bk m th l sh Hs Hv (session_current _ _ _ _ _ _ S)))).
    assert (P2 : forall l' (sh' : shot Qc symbol), regular th m bk l' sh' -> shot_ok sh') by (intros l' sh' R; exact (proj1 (plain_shot bk m th l' sh' Hs Hv R))).
    assert (P3 : step (rg_options (clingolpx_register th)) (EvCheck t hh a true l1 l2) (ob_world x) w') by (exists fuel; rewrite opts_of, <- Eo; exact Ew).
    destruct (prints_optimum print_rat plainly plain_shows plain_at show less srt srt_perm srt_sorted less_args m bk th l sh (ob_world x) w' t tr hh a l1 l2 shown P1 P2 S Hobj Had P3 Hlog Lm HA) as (theory & pairs & txt & b & Ex & Htx & HR).
    destruct (plain_extended th l sh h' (with_world x w') t theory U' Hx' Lm Ex) as [h'' Eh]. exists theory, h'', pairs, txt, b. split; [exact Eh|]. split; [exact Htx|exact HR].
  Qed.
  Lemma strict_counted th l sh h : strict_usage rd bk m (After th l sh) h -> hd_count h = 1.
  Proof.
    intros U.
    assert (H1 : forall th' l' (sh' : shot RatQ symbol), t_strict th' = true -> validate_options th' = true -> regular th' m bk l' sh' -> shot_ok sh') by (intros th' l' sh' X1 X2 R; exact (proj1 (strict_shot bk m th' l' sh' X1 X2 R))).
    assert (H2 : forall th' l' (sh' : shot RatQ symbol), t_strict th' = true -> validate_options th' = true -> regular th' m bk l' sh' -> step_ok (V := RatQ) (t_opts th')) by (intros th' l' sh' X1 X2 R; exact (proj2 (strict_shot bk m th' l' sh' X1 X2 R))).
    destruct (usage_ok true Strict InitStrict rd bk m strict_inj (strict_init rd bk m) print_ratq (strict_event rd bk m) (strict_model rd bk m) (strict_decide rd bk m) (strict_query rd bk m) (strict_register rd bk m) H1 H2 _ _ U) as [x I].
    exact (iu_count _ _ _ _ _ _ _ _ _ I).
  Qed.
  Lemma strict_extended th l sh h x t theory : strict_usage rd bk m (After th l (Some sh)) h -> hd_prop h = Some (Strict x) -> legal (OnModel t) (ob_world x) ->
    extension print_ratq (w_p (ob_world x)) t = Ok theory -> exists h', forall fuel, api_call rd bk m fuel (OnModel t) h = Returned (Extended theory, Some h').
  Proof.
    intros U Hx L E. destruct (C51_strict rd bk m th l sh h U) as (y & Hy & Eo & S & G). rewrite Hx in Hy. injection Hy as <-. pose proof (strict_counted _ _ _ _ U) as Hc.
    destruct (models print_ratq (t_opts th) x t theory Eo E) as (w' & Em & _).
    - destruct (gu_returns _ _ _ _ _ _ G (EvModel t) L) as [n Hn]. destruct (Hn n (le_n n)) as [w' E']. rewrite opts_of in E'. eauto.
    - exists (Handle (hd_theory h) (Some (Strict (with_world x w'))) 1). intros fuel. rewrite (strict_model rd bk m fuel t h x Hc Hx), Em. reflexivity.
  Qed.
  Theorem C53_strict th l sh h x t tr shown : strict_usage rd bk m (After th l (Some sh)) h -> hd_prop h = Some (Strict x) -> legal (OnModel t) (ob_world x) ->
    assignment_of m sh (ob_world x) t tr ->
    exists theory h' pairs obj, (forall fuel, api_call rd bk m fuel (OnModel t) h = Returned (Extended theory, Some h')) /\ text_of_answer show shown pairs obj (print_model show srt shown theory) /\
      forall R, reading pairs R -> RationalQ.eventually (fun e => solves m (at_all e R) tr l /\
        forall txt b r, obj = Some (txt, b) -> shows txt r -> objective_means (at_all e R) (tru m tr) l (at_eps e r)).
  Proof.
    intros U Hx L HA. destruct (C51_strict rd bk m th l sh h U) as (y & Hy & Eo & S & _). rewrite Hx in Hy. injection Hy as <-.
    destruct (setup _ _ _ _ _ U th l (Some sh) eq_refl) as [Hs Hv].
    assert (P1 : step_ok (V := RatQ) (rg_options (clingolpx_register th))) by (rewrite opts_of; exact (proj2 (strict_shot bk m th l sh Hs Hv (session_current _ _ _ _ _ _ S)))).
    assert (P2 : forall l' (sh' : shot RatQ symbol), regular th m bk l' sh' -> shot_ok sh') by (intros l' sh' R; exact (proj1 (strict_shot bk m th l' sh' Hs Hv R))).
    destruct (prints_solution print_ratq (fun v => v) C37_printed_text strict_at show less srt srt_perm srt_sorted less_args m bk th l sh (ob_world x) t tr shown P1 P2 S L HA) as (theory & pairs & obj & Ex & Htx & HR).
    destruct (strict_extended th l sh h x t theory U Hx L Ex) as [h' Eh]. exists theory, h', pairs, obj. split; [exact Eh|]. split; [exact Htx|exact HR].
  Qed.
  Theorem C53_strict_optimum th l sh h x t hh a l1 l2 fuel ans h' x' tr shown : strict_usage rd bk m (After th l (Some sh)) h -> hd_prop h = Some (Strict x) ->
    legal (Callback 0 (EvCheck t hh a true l1 l2)) (ob_world x) -> api_call rd bk m fuel (Callback 0 (EvCheck t hh a true l1 l2)) h = Returned (ans, Some h') ->
    hd_prop h' = Some (Strict x') -> w_log (ob_world x') = w_log (ob_world x) -> sh_obj sh <> [] -> legal (OnModel t) (ob_world x') -> assignment_of m sh (ob_world x') t tr ->
    exists theory h'' pairs txt b, (forall fuel, api_call rd bk m fuel (OnModel t) h' = Returned (Extended theory, Some h'')) /\ text_of_answer show shown pairs (Some (txt, b)) (print_model show srt shown theory) /\
      (b = true -> exists r, shows txt r /\ optimal m tr l r) /\ (b = false -> no_optimum m tr l).
  Proof.
    intros U Hx L E Hx' Hlog Hobj Lm HA. pose proof (us_use _ _ _ _ _ _ _ _ _ _ _ _ _ _ _ U Hx L E) as U'. destruct (C51_strict rd bk m th l sh h U) as (y & Hy & Eo & S & _). rewrite Hx in Hy. injection Hy as <-.
    destruct (setup _ _ _ _ _ U th l (Some sh) eq_refl) as [Hs Hv]. pose proof (strict_counted _ _ _ _ U) as Hc.
    destruct L as (_ & Had & _). rewrite (strict_event rd bk m fuel _ h x Hc Hx) in E. unfold c_event in E.
    destruct (wstep fuel (ob_opts x) (EvCheck t hh a true l1 l2) (ob_world x)) as [w'| | |] eqn:Ew; cbn in E.
    3: { exfalso. assert (So : step_ok (V := RatQ) (rg_options (clingolpx_register th))) by (rewrite opts_of; exact (proj2 (strict_shot bk m th l sh Hs Hv (session_current _ _ _ _ _ _ S)))).
         pose proof (session_guarantees th m bk (fun l' sh' R => proj1 (strict_shot bk m th l' sh' Hs Hv R)) So l sh _ S) as G.
         pose proof (gu_no_ub _ _ _ _ _ _ G _ fuel Had) as [_ N]. apply N. rewrite opts_of, <- Eo. exact Ew. }
    2, 3: discriminate E.
    injection E as _ Eh'. pose proof Hx' as Hx2. rewrite <- Eh' in Hx2. cbn in Hx2. injection Hx2 as <-. cbn [ob_world with_world] in *.
    assert (P1 : step_ok (V := RatQ) (rg_options (clingolpx_register th))) by (rewrite opts_of; exact (proj2 (strict_shot bk m th l sh Hs Hv (session_current _ _ _ _ _ _ S)))).
    assert (P2 : forall l' (sh' : shot RatQ symbol), regular th m bk l' sh' -> shot_ok sh') by (intros l' sh' R; exact (proj1 (strict_shot bk m th l' sh' Hs Hv R))).
    assert (P3 : step (rg_options (clingolpx_register th)) (EvCheck t hh a true l1 l2) (ob_world x) w') by (exists fuel; rewrite opts_of, <- Eo; exact Ew).
    destruct (prints_optimum print_ratq (fun v => v) C37_printed_text strict_at show less srt srt_perm srt_sorted less_args m bk th l sh (ob_world x) w' t tr hh a l1 l2 shown P1 P2 S Hobj Had P3 Hlog Lm HA) as (theory & pairs & txt & b & Ex & Htx & HR).
    destruct (strict_extended th l sh h' (with_world x w') t theory U' Hx' Lm Ex) as [h'' Eh]. exists theory, h'', pairs, txt, b. split; [exact Eh|]. split; [exact Htx|exact HR].
  Qed.
End c53.

(** ** An example: the program of Props_Program.v, registered with strict
    semantics; the check of the total assignment, and the text printed then *)
Definition textb (txt : string) (w : world RatQ symbol) : bool :=
  match extension print_ratq (w_p w) 0 with
  | Ok th => bool_decide (string_of_list_ascii (print_model ex_show ex_sort [SFun "b" [] true; SFun "a" [] true] th) = txt) | _ => false end.
Definition printed_run (e1 e2 : event) (txt : string) (w0 : option (world RatQ symbol)) : bool :=
  match w0 with
  | Some w0 => match runs 50 pgm_opts [e1] w0 with
      | Some w => admb e2 w && match wstep 50 pgm_opts e2 w with
          | Ok w' => bool_decide (w_log w' = w_log w) && accb w' && no_units w' && lits_as w' && textb txt w'
          | _ => false end
      | None => false end
  | None => false
  end.
Lemma printed_run_ok : printed_run pgm_prop pgm_check ex_printed pgm_first = true.
Proof. vm_compute. reflexivity. Qed.
Notation pgm_handle w := (reg_handle (Theory pgm_opts false) (a_theory true) w).
Notation pgm_object w := (Object (t_opts (a_theory true)) pgm_st w Searching).
Lemma C53_example_aux (w0 : option (world RatQ symbol)) e1 h a l1 l2 txt :
  (forall w, w0 = Some w -> strict_usage no_numbers Flint shift_mapper (After (a_theory true) pgm (Some pgm_shot)) (pgm_handle w)) ->
  (exists t h a l, e1 = EvPropagate t h a l) -> printed_run e1 (EvCheck 0 h a true l1 l2) txt w0 = true ->
  exists w w' th, strict_usage no_numbers Flint shift_mapper (After (a_theory true) pgm (Some pgm_shot)) (pgm_handle w) /\
    legal (Callback 0 (EvCheck 0 h a true l1 l2)) w /\
    api_call no_numbers Flint shift_mapper 50 (Callback 0 (EvCheck 0 h a true l1 l2)) (pgm_handle w) = Returned (Done, Some (pgm_handle w')) /\
    w_log w' = w_log w /\ legal (OnModel 0) w' /\ assignment_of shift_mapper pgm_shot w' 0 all_true /\
    extension print_ratq (w_p w') 0 = Ok th /\ string_of_list_ascii (print_model ex_show ex_sort [SFun "b" [] true; SFun "a" [] true] th) = txt.
Proof.
  intros Hr He1 E. unfold printed_run in E. destruct w0 as [w0|]; [|discriminate E]. specialize (Hr w0 eq_refl). cbn [runs] in E.
  destruct (admb e1 w0 && safeb e1 w0) eqn:Eb; [|discriminate E]. apply andb_true_iff in Eb as [Ea1 _].
  destruct (wstep 50 pgm_opts e1 w0) as [w| | |] eqn:E1; try discriminate E.
  apply andb_true_iff in E as [Ea E]. destruct (wstep 50 pgm_opts (EvCheck 0 h a true l1 l2) w) as [w'| | |] eqn:E2; try discriminate E.
  rewrite !andb_true_iff in E. destruct E as ((((L1 & L2) & L3) & L4) & L5). apply bool_decide_eq_true in L1. unfold accb in L2. apply andb_true_iff in L2 as [L2a L2b].
  apply Nat.ltb_lt in L2a. apply negb_true_iff in L2b. unfold textb in L5. destruct (extension print_ratq (w_p w') 0) as [th| | |] eqn:Ex; try discriminate L5.
  apply bool_decide_eq_true in L5.
  exists w, w', th. split; [|split; [|split; [|split; [exact L1|split; [split; assumption|split; [|split; [first [exact Ex|reflexivity]|exact L5]]]]]]].
  - refine (us_use _ _ _ _ _ _ _ _ _ _ (pgm_object w0) (Callback 0 e1) 50 Done _ Hr eq_refl _ _).
    + split; [reflexivity|]. split; [exact (admb_ok _ _ Ea1)|]. destruct He1 as (? & ? & ? & ? & ->). exact Logic.I.
    + cbn [api_call handle_with hd_count hd_prop hd_theory]. unfold alive, on_object. cbn [hd_count hd_prop Nat.eqb hd_theory]. unfold c_event. cbn [ob_opts ob_world].
      destruct He1 as (? & ? & ? & ? & ->). unfold handle_with, a_theory. cbn [hd_count hd_prop Nat.eqb hd_theory ob_opts ob_world t_opts]. fold pgm_opts. rewrite E1. reflexivity.
  - split; [reflexivity|]. split; [exact (admb_ok _ _ Ea)|exact Logic.I].
  - cbn [api_call handle_with hd_count hd_prop hd_theory]. unfold alive, on_object. cbn [hd_count hd_prop Nat.eqb hd_theory]. unfold c_event. cbn [ob_opts ob_world].
    unfold handle_with, a_theory. cbn [hd_count hd_prop Nat.eqb hd_theory ob_opts ob_world t_opts]. fold pgm_opts. rewrite E2. reflexivity.
  - constructor.
    + apply all_true_consistent.
    + intros q Hq. apply lits_as_ok; assumption.
    + intros q _ _ log. reflexivity.
    + intros x Hx. apply no_units_ok; [assumption|]. exact (shot_log_sub _ _ _ Hx).
Qed.
Example C53_example : exists w w' th h a l1 l2 h2, strict_usage no_numbers Flint shift_mapper (After (a_theory true) pgm (Some pgm_shot)) (pgm_handle w) /\
    legal (Callback 0 (EvCheck 0 h a true l1 l2)) w /\
    api_call no_numbers Flint shift_mapper 50 (Callback 0 (EvCheck 0 h a true l1 l2)) (pgm_handle w) = Returned (Done, Some (pgm_handle w')) /\
    w_log w' = w_log w /\ legal (OnModel 0) w' /\ assignment_of shift_mapper pgm_shot w' 0 all_true /\ sh_obj pgm_shot <> [] /\
    (forall fuel, api_call no_numbers Flint shift_mapper fuel (OnModel 0) (pgm_handle w') = Returned (Extended th, Some h2)) /\ string_of_list_ascii (print_model ex_show ex_sort [SFun "b" [] true; SFun "a" [] true] th) = ex_printed.
Proof.
  destruct (C53_example_aux pgm_first pgm_prop Examples.quiet (Examples.lev 0) 1001%Z 1002%Z ex_printed) as (w & w' & th & H1 & H2 & H3 & H4 & H5 & H6 & H7 & H8).
  - intros w. exact (C51_example_first Flint shift_mapper pgm pgm_st pgm_shot _ w pgm_evaluates pgm_regular eq_refl eq_refl eq_refl eq_refl).
  - do 4 eexists. reflexivity.
  - exact printed_run_ok.
  - assert (U' : strict_usage no_numbers Flint shift_mapper (After (a_theory true) pgm (Some pgm_shot)) (pgm_handle w')) by exact (us_use _ _ _ _ _ _ _ _ _ _ (pgm_object w) _ _ _ _ H1 eq_refl H2 H3).
    destruct (strict_extended no_numbers Flint shift_mapper (a_theory true) pgm pgm_shot (pgm_handle w') (pgm_object w') 0 th U' eq_refl H5 H7) as [h2 Eh].
    exists w, w', th, Examples.quiet, (Examples.lev 0), 1001%Z, 1002%Z, h2. split; [exact H1|]. split; [exact H2|]. split; [exact H3|]. split; [exact H4|]. split; [exact H5|]. split; [exact H6|].
    split; [|split; [exact Eh|exact H8]]. pose proof pgm_obj_ne as P. cbn. intros E. rewrite E in P. discriminate P.
Qed.
