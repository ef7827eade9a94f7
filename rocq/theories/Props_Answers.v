(** * C61: the answers of the C interface

    What the calls lookup_symbol, get_symbol, assignment_begin/next/has_value/
    get_value, on_statistics and decide return in every state of every use, up to
    reading a solution of the program off them. *)

From Coq Require Import Ascii String.
From Verif Require Import Num Solver Spec Eps RationalQ Propagator World WorldProofs Reach WeakReach Observe Parsing ParseSpec ParsePrograms.
From Verif Require Import Props_Parsing Api Main Examples Props_Solver Props_Decision Props_Print Props_Api Props_Program Grammar Props_Grammar Props_EndToEnd Lifecycle Props_Lifecycle Props_Printed.

(** ** Specification *)
(** the calls of the interface, used on the handle [h] *)
Definition says rd bk m (h : handle) (q : query) (r : answer) : Prop := forall fuel, api_call rd bk m fuel (Query q) h = Returned (r, Some h).

Section spec.
  Context (S : query -> answer -> Prop).
  Definition has_index (x : symbol) (i : nat) : Prop := S (QLookup x) (Index (Some i)).
  (** the loop [for (i = begin(t); next(t, &i); )], started after [cur] *)
  Inductive walk (t : nat) : nat -> list nat -> Prop :=
    | walk_end cur : S (QNext t cur) (Index None) -> walk t cur []
    | walk_next cur i is : S (QNext t cur) (Index (Some i)) -> walk t i is -> walk t cur (i :: is).
  (** [R] gives every variable the number returned for it *)
  Definition read_off (t : nat) (R : symbol -> RatQ) : Prop :=
    forall x i txt, is_number x = false -> has_index x i -> S (QGetValue t i) (TheValue txt) -> shows txt (R x).

  (** the symbols given to Model::extend: for each variable that is not a number,
      the text get_value returns, and at most one objective value *)
  Definition hands_over (t : nat) (symbols : list symbol) : Prop := exists pairs obj,
    symbols = map (fun '(x, txt) => SFun "__lpx" [x; SStr (string_of_list_ascii txt)] true) pairs ++ obj /\ NoDup (map fst pairs) /\
    (forall x txt, (x, txt) ∈ pairs <-> is_number x = false /\ exists i, has_index x i /\ S (QGetValue t i) (TheValue txt)) /\
    (obj = [] \/ exists txt b, obj = [SFun "__lpx_objective" [SStr (string_of_list_ascii txt); SNum (if b : bool then 1 else 0)%Z] true]).

  Record interface (m : Z -> Z) (l : list tatom) {V} `{Value V} (sh : shot V symbol) (w : world V symbol) : Prop := {
    (** at most one answer *)
    in_once : forall q r r', S q r -> S q r' -> r = r';
    (** lookup and get_symbol are inverse; every variable of the program has an index *)
    in_lookup : forall x, (exists i, has_index x i) \/ S (QLookup x) (Index None);
    in_symbol : forall x i, has_index x i <-> 0 < i /\ S (QGetSymbol i) (TheSymbol x);
    in_known : forall x, (exists q c, q ∈ sh_iqs sh /\ (c, x) ∈ q_lhs q) \/ (exists c, (c, x) ∈ sh_obj sh) -> exists i, has_index x i;
    (** has_value is true exactly for these indices *)
    in_has_value : forall t i b, S (QHasValue t i) (HasValue b) <-> (b = true <-> exists x, has_index x i);
    (** the loop visits the indices of the symbols that are not numbers, in order *)
    in_walk : forall t, exists b is, S (QBegin t) (Index (Some b)) /\ walk t b is /\ StronglySorted lt is /\
      forall i, i ∈ is <-> exists x, is_number x = false /\ has_index x i;
    (** get_value returns a number for each index *)
    in_value : forall t x i, t < length (w_th w) -> has_index x i -> exists txt v, S (QGetValue t i) (TheValue txt) /\ shows txt v;
    (** the numbers returned when a model may be reported are a solution *)
    in_solution : forall t tr R, legal (OnModel t) w -> assignment_of m sh w t tr -> read_off t R -> RationalQ.eventually (fun e => solves m (at_all e R) tr l);
    (** accumulated statistics grow by the work of all threads *)
    in_statistics : forall st ac, exists st', S (QStatistics true st ac) (Numbers st' (Stats (st_pivots ac + total s_pivots (p_slvs (w_p w))) (st_bounds ac + total s_props (p_slvs (w_p w))))) /\
      (length (p_slvs (w_p w)) = 1 -> st' = Stats (total s_pivots (p_slvs (w_p w))) (total s_props (p_slvs (w_p w))));
  }.
End spec.

(** ** Proofs *)
Section answers.
  Context {V : Type} `{VL : ValueLaws V} (pv : V -> list ascii) (emb : V -> RatQ).
  Context (emb_shows : forall v, shows (pv v) (emb v)) (emb_at : forall e v, inst e v = at_eps e (emb v)).
  Context (m : Z -> Z) (bk : backend) (o : options) (l : list tatom) (sh : shot V symbol) (x : object V).
  Notation w := (ob_world x).
  Notation p := (w_p w).
  Context (So : step_ok (V := V) o) (Hr : reach o sh w) (HP : program m bk l sh) (Ho : ob_opts x = o).
  Context (S : query -> answer -> Prop) (HS : forall q r, S q r <-> c_query pv q x = Returned (r, x)).

  Let Ha : reach_any o sh w := reach_reach_any _ _ _ Hr.
  Lemma says_lookup y i : has_index S y i <-> f_lookup p y = Some i.
  Proof.
    unfold has_index. rewrite HS. cbn [c_query answered bare]. split; [intros [= E]; exact E|intros E; rewrite E; reflexivity].
  Qed.
  Lemma says_symbol y i : S (QGetSymbol i) (TheSymbol y) <-> f_get_symbol p i = Ok y.
  Proof.
    rewrite HS. cbn [c_query]. destruct (f_get_symbol p i) as [z| | |]; cbn; split; intros E; try discriminate E; injection E as ->; reflexivity.
  Qed.
  Lemma says_walk t : forall k cur, p_n_values p t - cur < k -> exists is, walk S t cur is /\ f_iterate k p t cur = Ok is.
  Proof.
    induction k as [|k IH]; intros cur Hk; [lia|]. cbn [f_iterate].
    destruct (next_loop_ok p t (p_n_values p t - cur) cur ltac:(lia)) as (r & E & Hn). unfold f_next. rewrite E. cbn [mbind res_bind].
    assert (HN : S (QNext t cur) (Index r)). { apply HS. cbn [c_query]. unfold f_next. rewrite E. reflexivity. }
    destruct r as [i|]; [|exists []; split; [apply walk_end; exact HN|reflexivity]].
    unfold p_n_values in *. destruct Hn as (Hi & _ & _). destruct (IH i ltac:(lia)) as (is & Hw & ->). exists (i :: is). split; [eapply walk_next; eassumption|reflexivity].
  Qed.
  Lemma says_value t y i : t < length (w_th w) -> has_index S y i -> S (QGetValue t i) (TheValue (pv (api_value p t y))).
  Proof.
    intros Ht Hi. apply says_lookup in Hi. apply HS. cbn [c_query]. unfold f_lookup in Hi. unfold api_value. destruct (p_lookup_symbol p y) as [k|] eqn:Ek; [|discriminate Hi].
    injection Hi as <-. replace (k + 1) with (Datatypes.S k) by lia. cbn [f_get_value].
    assert (Hk : p_has_value p t k = true).
    { unfold p_has_value. apply Nat.ltb_lt. unfold p_lookup_symbol in Ek. apply (find_sym_spec _ (reach_nodup _ _ _ So Ha)) in Ek. exact (lookup_lt_Some _ _ _ Ek). }
    destruct (proj1 (reads o sh w So Ha t Ht) k Hk) as [v ->]. reflexivity.
  Qed.
  Lemma says_text t i txt : S (QGetValue t i) (TheValue txt) <-> exists v, f_get_value p t i = Ok v /\ txt = pv v.
  Proof.
    rewrite HS. cbn [c_query]. destruct (f_get_value p t i) as [v| | |]; cbn; split.
    - intros [= <-]. eauto.
    - intros (v' & [= <-] & ->). reflexivity.
    - discriminate.
    - intros (v' & [=] & _).
    - discriminate.
    - intros (v' & [=] & _).
    - discriminate.
    - intros (v' & [=] & _).
  Qed.
  Lemma extension_hands t : t < length (w_th w) -> exists symbols, extension pv p t = Ok symbols /\ hands_over S t symbols.
  Proof.
    intros Ht. destruct (C28_extend_model o sh w t So Ha Ht) as (ps & ob & E & _ & Hn & Hps). unfold extension. rewrite E. cbn [mbind res_bind].
    eexists. split; [reflexivity|]. exists (map (fun '(y, v) => (y, pv v)) ps), (match ob with Some (v, b) => [objective_atom pv v b] | None => [] end).
    split; [|split; [|split]].
    - rewrite map_map. f_equal. apply map_ext. intros [y v]. reflexivity.
    - rewrite map_map. replace (map _ ps) with (map fst ps); [exact Hn|]. apply map_ext. intros [y v]. reflexivity.
    - intros y txt. rewrite elem_of_list_fmap. setoid_rewrite says_text. setoid_rewrite says_lookup. split.
      + intros ([z v] & [= -> ->] & Hz). apply Hps in Hz as (En & i & Hi & Ev). split; [exact En|]. exists i. split; [exact Hi|]. eauto.
      + intros (En & i & Hi & v & Ev & ->). exists (y, v). split; [reflexivity|]. apply Hps. split; [exact En|]. eauto.
    - destruct ob as [[v b]|]; [right; exists (pv v), b; reflexivity|left; reflexivity].
  Qed.
  Lemma answers_ok : interface S m l sh w.
  Proof.
    constructor.
    - intros q r r' E1 E2. apply HS in E1. apply HS in E2. rewrite E1 in E2. injection E2 as ->. reflexivity.
    - intros y. destruct (f_lookup p y) as [i|] eqn:E; [left; exists i; apply says_lookup; exact E|right; apply HS; cbn [c_query]; rewrite E; reflexivity].
    - intros y i. rewrite says_lookup, says_symbol. exact (C28_lookup_get o sh w y i So Ha).
    - intros y Hy. destruct (C28_known o sh w y So Ha Hy) as [i Hi]. exists i. apply says_lookup. exact Hi.
    - intros t i b. rewrite HS. cbn [c_query answered bare]. setoid_rewrite says_lookup. rewrite <- (C28_has_value o sh w t i So Ha).
      destruct (f_has_value p t i), b; split; intros E; try reflexivity; try discriminate E; try (split; intros; (reflexivity || discriminate || assumption)).
      + destruct E as [_ E]. specialize (E eq_refl). discriminate E.
      + destruct E as [E _]. specialize (E eq_refl). discriminate E.
    - intros t. destruct (says_walk t (Datatypes.S (p_n_values p t)) f_begin ltac:(lia)) as (is & Hw & E). exists f_begin, is.
      split; [apply HS; reflexivity|]. split; [exact Hw|].
      destruct (f_iterate_ok p t (Datatypes.S (p_n_values p t)) f_begin ltac:(unfold f_begin; lia)) as (is' & E' & Hs & Hi). rewrite E in E'. injection E' as <-.
      split; [exact Hs|]. intros i. rewrite Hi. unfold f_begin. setoid_rewrite says_lookup. split.
      + intros [Hp (y & Ey & En)]. exists y. split; [exact En|]. apply (C28_lookup_get o sh w y i So Ha). split; [exact Hp|]. destruct i as [|i]; [lia|].
        replace (Datatypes.S i - 1) with i in Ey by lia. unfold f_get_symbol, p_get_symbol, at_. rewrite Ey. reflexivity.
      + intros (y & En & El). apply (C28_lookup_get o sh w y i So Ha) in El as [Hp El]. split; [exact Hp|]. exists y. split; [|exact En]. destruct i as [|i]; [lia|].
        replace (Datatypes.S i - 1) with i by lia. unfold f_get_symbol, p_get_symbol, at_ in El. destruct (p_vars p !! i); congruence.
    - intros t y i Ht Hi. exists (pv (api_value p t y)), (emb (api_value p t y)). split; [exact (says_value t y i Ht Hi)|apply emb_shows].
    - intros t tr R L HA HR. cbn [legal adm] in L.
      assert (Hpv : exists ob, p_get_objective p t = Ok ob) by exact (proj2 (reads o sh w So Ha t (proj1 L))). destruct Hpv as [ob Eob].
      set (pairs := map (fun y => (y, pv (api_value p t y))) (List.filter (fun y => negb (is_number y)) (p_vars p))).
      assert (HR' : reading pairs R).
      { intros y txt Hy. apply elem_of_list_fmap in Hy as (z & [= -> ->] & Hz). apply elem_of_list_In in Hz. apply filter_In in Hz as [Hz En]. apply elem_of_list_In in Hz.
        apply elem_of_list_lookup in Hz as [k Hk]. assert (Hi : has_index S z (Datatypes.S k)).
        { apply says_lookup. unfold f_lookup, p_lookup_symbol. rewrite (proj2 (find_sym_spec _ (reach_nodup _ _ _ So Ha) z k) Hk). f_equal. lia. }
        apply negb_true_iff in En. exact (HR z _ _ En Hi (says_value t z _ (proj1 L) Hi)). }
      destruct (printed_values pv emb emb_shows emb_at m bk o l sh w t tr pairs (match ob with Some (v, b) => Some (pv v, b) | None => None end) So Hr HP L HA) with (R := R) as (e0 & He & Hq).
      + intros y i Hu Hi. apply elem_of_list_fmap. exists y. split; [reflexivity|]. apply elem_of_list_In, filter_In. split.
        * apply elem_of_list_In. unfold f_lookup, p_lookup_symbol in Hi. destruct (find_sym _ y) as [k|] eqn:Ek; [|discriminate Hi].
          apply (find_sym_spec _ (reach_nodup _ _ _ So Ha)) in Ek. exact (elem_of_list_lookup_2 _ _ _ Ek).
        * rewrite (known_user y Hu). reflexivity.
      + exists ob. auto.
      + exact HR'.
      + exists e0. split; [exact He|]. intros e E1 E2. exact (proj1 (Hq e E1 E2)).
    - intros st ac. exists ((on_statistics p st ac).1). split.
      + apply HS. cbn [c_query guarded reply]. pose proof (C33_accumulated p st ac) as E. destruct (on_statistics p st ac) as [s1 s2]. cbn in E |- *. rewrite E. reflexivity.
      + intros Hl. exact (C33_step_partial p st ac Hl).
  Qed.

  (** decide *)
  Definition decision (t : nat) (lit r : Z) : Prop :=
    match o_select o with
    | SelectNone => r = lit
    | SelectMatch => (Props_Api.violated sh w t lit \/ satisfied sh w t (- lit)) /\ r = (- lit)%Z \/ ~ (Props_Api.violated sh w t lit \/ satisfied sh w t (- lit)) /\ r = lit
    | SelectConflict => (satisfied sh w t lit \/ Props_Api.violated sh w t (- lit)) /\ r = (- lit)%Z \/ ~ (satisfied sh w t lit \/ Props_Api.violated sh w t (- lit)) /\ r = lit
    end.
  Lemma decides t lit : t < length (w_th w) ->
    exists r, c_decide t lit x = Returned (Decision r, x) /\ (r = lit \/ r = (- lit)%Z) /\
      ((forall q, q ∈ sh_iqs sh -> q_lit q = lit \/ q_lit q = (- lit)%Z -> watched sh q) -> [lit] ∉ w_log w -> [(- lit)%Z] ∉ w_log w -> decision t lit r).
  Proof.
    intros Ht. destruct (C29_only_sign o sh w t lit So Ha Ht) as (r & E & Hs & _). exists r. split; [unfold c_decide; rewrite Ho, E; reflexivity|]. split; [exact Hs|].
    intros Hw N1 N2. destruct (C29_decide o sh w t lit So Ha Ht Hw N1 N2) as (r' & E' & Hd). rewrite E in E'. injection E' as <-. exact Hd.
  Qed.
End answers.

(** reporting a model does not change the answers *)
Section unchanged.
  Context {V : Type} `{VL : ValueLaws V} (pv : V -> list ascii).
  Lemma next_loop_same (p p' : propagator V symbol) t : p_vars p' = p_vars p -> forall k cur, next_loop p' t k cur = next_loop p t k cur.
  Proof.
    intros E. assert (Es : forall i, p_get_symbol p' i = p_get_symbol p i) by (intros i; unfold p_get_symbol; now rewrite E).
    assert (En : forall i, p_n_values p' i = p_n_values p i) by (intros i; unfold p_n_values; now rewrite E).
    induction k as [|k IH]; intros cur; cbn [next_loop]; [reflexivity|]. rewrite En, Es. destruct (cur <? p_n_values p t); [|reflexivity].
    destruct (p_get_symbol p cur) as [y| | |]; cbn [mbind res_bind]; [|reflexivity..]. destruct (is_number y); [apply IH|reflexivity].
  Qed.
  Lemma answers_same (x x' : object V) : p_vars (w_p (ob_world x')) = p_vars (w_p (ob_world x)) -> p_slvs (w_p (ob_world x')) = p_slvs (w_p (ob_world x)) -> ob_status x' = ob_status x ->
    forall q r, c_query pv q x' = Returned (r, x') <-> c_query pv q x = Returned (r, x).
  Proof.
    intros Ev Es Et q r.
    assert (K : forall s : left answer, answered s x' = Returned (r, x') <-> answered s x = Returned (r, x)).
    { intros s. destruct s as [a| | |]; cbn; split; intros E; try discriminate E; injection E as ->; reflexivity. }
    destruct q as [y|i|t|t cur|t i|t i|roots st ac]; cbn [c_query].
    - unfold f_lookup, p_lookup_symbol. rewrite Ev. apply K.
    - unfold f_get_symbol, p_get_symbol. rewrite Ev. apply K.
    - apply K.
    - unfold f_next. rewrite (next_loop_same _ _ t Ev). unfold p_n_values. rewrite Ev. apply K.
    - unfold f_has_value, p_has_value. rewrite Ev. apply K.
    - unfold f_get_value, p_get_value. rewrite Es. apply K.
    - unfold on_statistics. rewrite Es. destruct roots; cbn [guarded reply].
      2: { destruct x as [a1 a2 a3 a4], x' as [b1 b2 b3 b4]. cbn in Et |- *. subst b4. split; intros E; injection E as <- E; subst a4; reflexivity. }
      destruct (fold_left _ _ _) as [s1 s2]. split; intros E; injection E as ->; reflexivity.
  Qed.
End unchanged.
(** ** C61 *)
Section c61.
  Context (rd : list ascii -> option Qc) (bk : backend) (m : Z -> Z).
  Notation call_ := (api_call rd bk m).
  Lemma wrap_same {V} (inj : object V -> registered) (Hinj : forall x y, inj x = inj y -> x = y) h x r a : hd_count h = 1 -> hd_prop h = Some (inj x) ->
    wrap inj h r = Returned (a, Some h) <-> r = Returned (a, x).
  Proof.
    intros Hc Hx. destruct h as [th pr n]. cbn in Hc, Hx. subst. unfold wrap. cbn. split.
    - destruct r as [[a' x']| | |]; intros E; try discriminate E. injection E as -> E. apply Hinj in E. subst. reflexivity.
    - intros ->. reflexivity.
  Qed.
  Lemma plain_says h x q r : hd_count h = 1 -> hd_prop h = Some (Plain x) -> says rd bk m h q r <-> c_query print_rat q x = Returned (r, x).
  Proof.
    intros Hc Hx. unfold says. rewrite <- (wrap_same Plain plain_inj h x _ r Hc Hx). split.
    - intros E. rewrite <- (plain_query rd bk m 0 q h x Hc Hx). exact (E 0).
    - intros E fuel. rewrite (plain_query rd bk m fuel q h x Hc Hx). exact E.
  Qed.
  Lemma strict_says h x q r : hd_count h = 1 -> hd_prop h = Some (Strict x) -> says rd bk m h q r <-> c_query print_ratq q x = Returned (r, x).
  Proof.
    intros Hc Hx. unfold says. rewrite <- (wrap_same Strict strict_inj h x _ r Hc Hx). split.
    - intros E. rewrite <- (strict_query rd bk m 0 q h x Hc Hx). exact (E 0).
    - intros E fuel. rewrite (strict_query rd bk m fuel q h x Hc Hx). exact E.
  Qed.

  Section plain.
    Context (th : theory) (l : list tatom) (sh : shot Qc symbol) (h : handle) (x : object Qc).
    Context (U : plain_usage rd bk m (After th l (Some sh)) h) (Hx : hd_prop h = Some (Plain x)).
    Lemma plain_facts : ob_opts x = t_opts th /\ step_ok (V := Qc) (t_opts th) /\ reach (t_opts th) sh (ob_world x) /\ program m bk l sh /\
      guarantees th m bk l sh (ob_world x).
    Proof.
      destruct (C51_plain rd bk m th l sh h U) as (y & Hy & Eo & S & G). rewrite Hx in Hy. injection Hy as <-.
      destruct (setup rd bk m _ _ _ _ _ U th l (Some sh) eq_refl) as [Hs Hv]. pose proof (session_current _ _ _ _ _ _ S) as R.
      assert (So : step_ok (V := Qc) (t_opts th)) by exact (proj2 (plain_shot bk m th l sh Hs Hv R)). split; [exact Eo|]. split; [exact So|].
      split; [|split; [exact (regular_program th m bk l sh R)|exact G]]. rewrite <- (opts_of th) in So |- *.
      exact (session_reach th m bk (fun l' sh' R' => proj1 (plain_shot bk m th l' sh' Hs Hv R')) So l sh _ S).
    Qed.
    Theorem C61_plain_answers : interface (says rd bk m h) m l sh (ob_world x).
    Proof.
      destruct plain_facts as (Eo & So & Hr & HP & _).
      exact (answers_ok print_rat plainly plain_shows plain_at m bk (t_opts th) l sh x So Hr HP _ (fun q r => plain_says h x q r (plain_counted rd bk m _ _ _ _ U) Hx)).
    Qed.
    Theorem C61_plain_decide t lit : t < length (w_th (ob_world x)) -> exists r, (forall fuel, call_ fuel (Decide 0 t lit) h = Returned (Decision r, Some h)) /\ (r = lit \/ r = (- lit)%Z) /\
      ((forall q, q ∈ sh_iqs sh -> q_lit q = lit \/ q_lit q = (- lit)%Z -> watched sh q) -> [lit] ∉ w_log (ob_world x) -> [(- lit)%Z] ∉ w_log (ob_world x) -> decision (t_opts th) sh x t lit r).
    Proof.
      intros Ht. destruct plain_facts as (Eo & So & Hr & _ & _). destruct (decides (t_opts th) sh x So Hr Eo t lit Ht) as (r & E & Hd). exists r. split; [|exact Hd].
      pose proof (plain_counted rd bk m _ _ _ _ U) as Hc. intros fuel. rewrite (plain_decide rd bk m fuel t lit h x Hc Hx). apply (wrap_same Plain plain_inj h x _ _ Hc Hx). exact E.
    Qed.
    Theorem C61_plain_on_model t : legal (OnModel t) (ob_world x) -> exists h' x' symbols, (forall fuel, call_ fuel (OnModel t) h = Returned (Extended symbols, Some h')) /\ hands_over (says rd bk m h) t symbols /\
      hd_prop h' = Some (Plain x') /\ step (t_opts th) (EvModel t) (ob_world x) (ob_world x') /\ forall q r, says rd bk m h' q r <-> says rd bk m h q r.
    Proof.
      intros L. destruct plain_facts as (Eo & So & Hr & _ & G). pose proof (plain_counted rd bk m _ _ _ _ U) as Hc.
      destruct (extension_hands print_rat (t_opts th) sh x So Hr _ (fun q r => plain_says h x q r Hc Hx) t (proj1 L)) as (symbols & El & Hh).
      destruct (models print_rat (t_opts th) x t symbols Eo El) as (w' & E & Hst & E1 & E2).
      - destruct (gu_returns _ _ _ _ _ _ G (EvModel t) L) as [n Hn]. destruct (Hn n (le_n n)) as [w' E]. rewrite opts_of in E. eauto.
      - exists (Handle (hd_theory h) (Some (Plain (with_world x w'))) 1), (with_world x w'), symbols. split; [|split; [exact Hh|split; [reflexivity|split; [exact Hst|]]]].
        + intros fuel. rewrite (plain_model rd bk m fuel t h x Hc Hx), E. reflexivity.
        + intros q r. rewrite (plain_says (Handle (hd_theory h) (Some (Plain (with_world x w'))) 1) (with_world x w') q r eq_refl eq_refl), (plain_says h x q r Hc Hx). apply answers_same; [exact E1|exact E2|reflexivity].
    Qed.
    (** a callback is the event of World.v, which also defines the literals that
        count as given to the propagator ([assigned]) *)
    Theorem C61_plain_callback e fuel a h' : legal (Callback 0 e) (ob_world x) -> call_ fuel (Callback 0 e) h = Returned (a, Some h') ->
      a = (match e with EvUndo _ => Nothing | _ => Done end) /\ exists x', hd_prop h' = Some (Plain x') /\ step (t_opts th) e (ob_world x) (ob_world x').
    Proof.
      intros L E. destruct plain_facts as (Eo & So & Hr & _ & G). pose proof (plain_counted rd bk m _ _ _ _ U) as Hc. destruct L as (_ & Had & Hm).
      rewrite (plain_event rd bk m fuel e h x Hc Hx) in E. unfold c_event in E. pose proof (gu_no_ub _ _ _ _ _ _ G e fuel Had) as [_ N]. rewrite opts_of, <- Eo in N.
      destruct (wstep fuel (ob_opts x) e (ob_world x)) as [w'| | |] eqn:Ew; [| |now destruct N|].
      2, 3: destruct e; try contradiction; discriminate E.
      rewrite Eo in Ew.
      destruct e as [t hh b lits|t hh b tot l1 l2|t|t]; try contradiction; cbn in E; injection E as <- <-; (split; [reflexivity|]); exists (with_world x w'); (split; [reflexivity|exists fuel; exact Ew]).
    Qed.
  End plain.
  Section strict.
    Context (th : theory) (l : list tatom) (sh : shot RatQ symbol) (h : handle) (x : object RatQ).
    Context (U : strict_usage rd bk m (After th l (Some sh)) h) (Hx : hd_prop h = Some (Strict x)).
    Lemma strict_facts : ob_opts x = t_opts th /\ step_ok (V := RatQ) (t_opts th) /\ reach (t_opts th) sh (ob_world x) /\ program m bk l sh /\
      guarantees th m bk l sh (ob_world x).
    Proof.
      destruct (C51_strict rd bk m th l sh h U) as (y & Hy & Eo & S & G). rewrite Hx in Hy. injection Hy as <-.
      destruct (setup rd bk m _ _ _ _ _ U th l (Some sh) eq_refl) as [Hs Hv]. pose proof (session_current _ _ _ _ _ _ S) as R.
      assert (So : step_ok (V := RatQ) (t_opts th)) by exact (proj2 (strict_shot bk m th l sh Hs Hv R)). split; [exact Eo|]. split; [exact So|].
      split; [|split; [exact (regular_program th m bk l sh R)|exact G]]. rewrite <- (opts_of th) in So |- *.
      exact (session_reach th m bk (fun l' sh' R' => proj1 (strict_shot bk m th l' sh' Hs Hv R')) So l sh _ S).
    Qed.
    Theorem C61_strict_answers : interface (says rd bk m h) m l sh (ob_world x).
    Proof.
      destruct strict_facts as (Eo & So & Hr & HP & _).
      exact (answers_ok print_ratq (fun v => v) C37_printed_text strict_at m bk (t_opts th) l sh x So Hr HP _ (fun q r => strict_says h x q r (strict_counted rd bk m _ _ _ _ U) Hx)).
    Qed.
    Theorem C61_strict_decide t lit : t < length (w_th (ob_world x)) -> exists r, (forall fuel, call_ fuel (Decide 0 t lit) h = Returned (Decision r, Some h)) /\ (r = lit \/ r = (- lit)%Z) /\
      ((forall q, q ∈ sh_iqs sh -> q_lit q = lit \/ q_lit q = (- lit)%Z -> watched sh q) -> [lit] ∉ w_log (ob_world x) -> [(- lit)%Z] ∉ w_log (ob_world x) -> decision (t_opts th) sh x t lit r).
    Proof.
      intros Ht. destruct strict_facts as (Eo & So & Hr & _ & _). destruct (decides (t_opts th) sh x So Hr Eo t lit Ht) as (r & E & Hd). exists r. split; [|exact Hd].
      pose proof (strict_counted rd bk m _ _ _ _ U) as Hc. intros fuel. rewrite (strict_decide rd bk m fuel t lit h x Hc Hx). apply (wrap_same Strict strict_inj h x _ _ Hc Hx). exact E.
    Qed.
    Theorem C61_strict_on_model t : legal (OnModel t) (ob_world x) -> exists h' x' symbols, (forall fuel, call_ fuel (OnModel t) h = Returned (Extended symbols, Some h')) /\ hands_over (says rd bk m h) t symbols /\
      hd_prop h' = Some (Strict x') /\ step (t_opts th) (EvModel t) (ob_world x) (ob_world x') /\ forall q r, says rd bk m h' q r <-> says rd bk m h q r.
    Proof.
      intros L. destruct strict_facts as (Eo & So & Hr & _ & G). pose proof (strict_counted rd bk m _ _ _ _ U) as Hc.
      destruct (extension_hands print_ratq (t_opts th) sh x So Hr _ (fun q r => strict_says h x q r Hc Hx) t (proj1 L)) as (symbols & El & Hh).
      destruct (models print_ratq (t_opts th) x t symbols Eo El) as (w' & E & Hst & E1 & E2).
      - destruct (gu_returns _ _ _ _ _ _ G (EvModel t) L) as [n Hn]. destruct (Hn n (le_n n)) as [w' E]. rewrite opts_of in E. eauto.
      - exists (Handle (hd_theory h) (Some (Strict (with_world x w'))) 1), (with_world x w'), symbols. split; [|split; [exact Hh|split; [reflexivity|split; [exact Hst|]]]].
        + intros fuel. rewrite (strict_model rd bk m fuel t h x Hc Hx), E. reflexivity.
        + intros q r. rewrite (strict_says (Handle (hd_theory h) (Some (Strict (with_world x w'))) 1) (with_world x w') q r eq_refl eq_refl), (strict_says h x q r Hc Hx). apply answers_same; [exact E1|exact E2|reflexivity].
    Qed.
    (** a callback is the event of World.v, which also defines the literals that
        count as given to the propagator ([assigned]) *)
    Theorem C61_strict_callback e fuel a h' : legal (Callback 0 e) (ob_world x) -> call_ fuel (Callback 0 e) h = Returned (a, Some h') ->
      a = (match e with EvUndo _ => Nothing | _ => Done end) /\ exists x', hd_prop h' = Some (Strict x') /\ step (t_opts th) e (ob_world x) (ob_world x').
    Proof.
      intros L E. destruct strict_facts as (Eo & So & Hr & _ & G). pose proof (strict_counted rd bk m _ _ _ _ U) as Hc. destruct L as (_ & Had & Hm).
      rewrite (strict_event rd bk m fuel e h x Hc Hx) in E. unfold c_event in E. pose proof (gu_no_ub _ _ _ _ _ _ G e fuel Had) as [_ N]. rewrite opts_of, <- Eo in N.
      destruct (wstep fuel (ob_opts x) e (ob_world x)) as [w'| | |] eqn:Ew; [| |now destruct N|].
      2, 3: destruct e; try contradiction; discriminate E.
      rewrite Eo in Ew.
      destruct e as [t hh b lits|t hh b tot l1 l2|t|t]; try contradiction; cbn in E; injection E as <- <-; (split; [reflexivity|]); exists (with_world x w'); (split; [reflexivity|exists fuel; exact Ew]).
    Qed.
  End strict.
  (** destroying the handle: no object is left *)
  Theorem C61_destroy fuel h : call_ fuel Destroy h = Returned (Done, None).
  Proof. reflexivity. Qed.
End c61.

(** ** An example: the values of x and y are read off after the check of the
    total assignment in Props_Program.v: x is 3 - e, y is 0 *)
Definition index_of_sym (x : symbol) (w : world RatQ symbol) : option nat := f_lookup (w_p w) x.
Definition asks (x : symbol) (i : nat) (txt : string) (w : world RatQ symbol) : bool :=
  bool_decide (index_of_sym x w = Some i) &&
  match f_get_value (w_p w) 0 i with Ok v => bool_decide (string_of_list_ascii (print_ratq v) = txt) | _ => false end.
Definition asked_run (e1 e2 : event) (x1 x2 : symbol) (i1 i2 : nat) (txt1 txt2 : string) (w0 : option (world RatQ symbol)) : bool :=
  match w0 with
  | Some w0 => match runs 50 pgm_opts [e1; e2] w0 with
      | Some w => accb w && no_units w && lits_as w && asks x1 i1 txt1 w && asks x2 i2 txt2 w
      | None => false end
  | None => false
  end.
Lemma asked_run_ok : asked_run pgm_prop pgm_check (SFun "x" [] true) (SFun "y" [] true) 1 2 "3+-1*e" "0" pgm_first = true.
Proof. vm_compute. reflexivity. Qed.
Lemma asks_ok x i txt w : asks x i txt w = true ->
  has_index (says no_numbers Flint shift_mapper (pgm_handle w)) x i /\ says no_numbers Flint shift_mapper (pgm_handle w) (QGetValue 0 i) (TheValue (list_ascii_of_string txt)).
Proof.
  unfold asks, index_of_sym. intros E. apply andb_true_iff in E as [E1 E2]. apply bool_decide_eq_true in E1.
  destruct (f_get_value (w_p w) 0 i) as [v| | |] eqn:Ev; try discriminate E2. apply bool_decide_eq_true in E2. split.
  - apply (strict_says no_numbers Flint shift_mapper (pgm_handle w) (pgm_object w) _ _ eq_refl eq_refl). cbn [c_query ob_world]. rewrite E1. reflexivity.
  - apply (strict_says no_numbers Flint shift_mapper (pgm_handle w) (pgm_object w) _ _ eq_refl eq_refl). cbn [c_query ob_world]. rewrite Ev. cbn [mbind res_bind bare answered].
    rewrite <- E2, list_ascii_of_string_of_list_ascii. reflexivity.
Qed.
Lemma C61_example_aux (w0 : option (world RatQ symbol)) e1 h a l1 l2 x1 x2 i1 i2 txt1 txt2 :
  (forall w, w0 = Some w -> strict_usage no_numbers Flint shift_mapper (After (a_theory true) pgm (Some pgm_shot)) (pgm_handle w)) ->
  (exists t h a l, e1 = EvPropagate t h a l) -> asked_run e1 (EvCheck 0 h a true l1 l2) x1 x2 i1 i2 txt1 txt2 w0 = true ->
  exists w, strict_usage no_numbers Flint shift_mapper (After (a_theory true) pgm (Some pgm_shot)) (pgm_handle w) /\
    legal (OnModel 0) w /\ assignment_of shift_mapper pgm_shot w 0 all_true /\ asks x1 i1 txt1 w = true /\ asks x2 i2 txt2 w = true.
Proof.
  intros Hr He1 E. unfold asked_run in E. destruct w0 as [w0|]; [|discriminate E]. specialize (Hr w0 eq_refl). cbn [runs] in E.
  destruct (admb e1 w0 && safeb e1 w0) eqn:Eb; [|discriminate E]. apply andb_true_iff in Eb as [Ea1 _].
  destruct (wstep 50 pgm_opts e1 w0) as [w| | |] eqn:E1; try discriminate E.
  destruct (admb (EvCheck 0 h a true l1 l2) w && safeb (EvCheck 0 h a true l1 l2) w) eqn:Eb2; [|discriminate E]. apply andb_true_iff in Eb2 as [Ea _].
  destruct (wstep 50 pgm_opts (EvCheck 0 h a true l1 l2) w) as [w'| | |] eqn:E2; try discriminate E.
  rewrite !andb_true_iff in E. destruct E as ((((L2 & L3) & L4) & L5) & L6). unfold accb in L2. apply andb_true_iff in L2 as [L2a L2b].
  apply Nat.ltb_lt in L2a. apply negb_true_iff in L2b.
  exists w'. split; [|split; [split; assumption|split; [|split; assumption]]].
  - assert (U1 : strict_usage no_numbers Flint shift_mapper (After (a_theory true) pgm (Some pgm_shot)) (pgm_handle w)).
    { refine (us_use _ _ _ _ _ _ _ _ _ _ (pgm_object w0) (Callback 0 e1) 50 Done _ Hr eq_refl _ _).
      + split; [reflexivity|]. split; [exact (admb_ok _ _ Ea1)|]. destruct He1 as (? & ? & ? & ? & ->). exact Logic.I.
      + cbn [api_call handle_with hd_count hd_prop hd_theory]. unfold alive, on_object. cbn [hd_count hd_prop Nat.eqb hd_theory]. unfold c_event. cbn [ob_opts ob_world].
        destruct He1 as (? & ? & ? & ? & ->). unfold handle_with, a_theory. cbn [hd_count hd_prop Nat.eqb hd_theory ob_opts ob_world t_opts]. fold pgm_opts. rewrite E1. reflexivity. }
    refine (us_use _ _ _ _ _ _ _ _ _ _ (pgm_object w) (Callback 0 (EvCheck 0 h a true l1 l2)) 50 Done _ U1 eq_refl _ _).
    + split; [reflexivity|]. split; [exact (admb_ok _ _ Ea)|exact Logic.I].
    + cbn [api_call handle_with hd_count hd_prop hd_theory]. unfold alive, on_object. cbn [hd_count hd_prop Nat.eqb hd_theory]. unfold c_event. cbn [ob_opts ob_world].
      unfold handle_with, a_theory. cbn [hd_count hd_prop Nat.eqb hd_theory ob_opts ob_world t_opts]. fold pgm_opts. rewrite E2. reflexivity.
  - constructor.
    + apply all_true_consistent.
    + intros q Hq. apply lits_as_ok; assumption.
    + intros q _ _ log. reflexivity.
    + intros x Hx. apply no_units_ok; [assumption|]. exact (shot_log_sub _ _ _ Hx).
Qed.
Theorem C61_example : exists w, strict_usage no_numbers Flint shift_mapper (After (a_theory true) pgm (Some pgm_shot)) (pgm_handle w) /\
    legal (OnModel 0) w /\ assignment_of shift_mapper pgm_shot w 0 all_true /\
    let S := says no_numbers Flint shift_mapper (pgm_handle w) in
    (has_index S (SFun "x" [] true) 1 /\ S (QGetValue 0 1) (TheValue (list_ascii_of_string "3+-1*e"))) /\
    (has_index S (SFun "y" [] true) 2 /\ S (QGetValue 0 2) (TheValue (list_ascii_of_string "0"))).
Proof.
  destruct (C61_example_aux pgm_first pgm_prop Examples.quiet (Examples.lev 0) 1001%Z 1002%Z (SFun "x" [] true) (SFun "y" [] true) 1 2 "3+-1*e" "0") as (w & H1 & H2 & H3 & H4 & H5).
  - intros w. exact (C51_example_first Flint shift_mapper pgm pgm_st pgm_shot _ w pgm_evaluates pgm_regular eq_refl eq_refl eq_refl eq_refl).
  - do 4 eexists. reflexivity.
  - exact asked_run_ok.
  - exists w. split; [exact H1|]. split; [exact H2|]. split; [exact H3|]. exact (conj (asks_ok _ _ _ _ H4) (asks_ok _ _ _ _ H5)).
Qed.
