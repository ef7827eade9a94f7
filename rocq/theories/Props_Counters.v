(** * C64: the statistics count what they say

    The numbers clingolpx_on_statistics adds to the accumulated statistics, over
    all calls of the C interface: every clause handed over by bound propagation
    is counted once, nothing else is, and the numbers start at 0 in each init. *)

From Coq Require Import Ascii String.
From Verif Require Import Num Solver Propagator World Parsing Props_Parsing Api Props_Api Examples Props_Program Grammar Main Lifecycle Props_Lifecycle Counters Props_Literals.

(** ** Specification *)
(** on_statistics adds [p] pivots and [b] propagated bounds to the accumulated statistics *)
Definition adds (rd : list ascii -> option Qc) (bk : backend) (m : Z -> Z) (h : handle) (p b : nat) : Prop :=
  forall fuel st ac, exists st', api_call rd bk m fuel (Query (QStatistics true st ac)) h = Returned (Numbers st' (Stats (st_pivots ac + p) (st_bounds ac + b)), Some h).
Definition options_of (x : registered) : options := match x with Plain y => ob_opts y | Strict y => ob_opts y end.
(** calls that neither replace the object nor its threads *)
Definition keeps (c : call) : Prop := match c with Register _ _ | InitPlain _ _ | InitStrict _ _ | Destroy => False | _ => True end.
Definition is_init (c : call) : Prop := match c with InitPlain _ _ | InitStrict _ _ => True | _ => False end.

(** ** Objects *)
Section object.
  Context {V : Type} `{Value V} (print : V -> list ascii) (bk : backend) (m : Z -> Z).
  Definition props (x : object V) : nat := total s_props (p_slvs (w_p (ob_world x))).
  Definition pivs (x : object V) : nat := total s_pivots (p_slvs (w_p (ob_world x))).
  Lemma total_put f (l : list (nat * solver V)) t x y : l !! t = Some x -> total f (<[t := y]> l) + f x.2 = total f l + f y.2.
  Proof.
    revert t. induction l as [|z l IH]; intros [|t] E; try discriminate E.
    - injection E as ->. change (f y.2 + total f l + f x.2 = f x.2 + total f l + f y.2). lia.
    - change (l !! t = Some x) in E. specialize (IH _ E). change (f z.2 + total f (<[t := y]> l) + f x.2 = f z.2 + total f l + f y.2). lia.
  Qed.
  (** [strong]: no clause of the objective *)
  Definition ticks (strong : bool) (x x' : object V) : Prop := ob_opts x' = ob_opts x /\ exists n k,
    ext (w_log (ob_world x)) (w_log (ob_world x')) n /\ props x' = props x + k /\ pivs x <= pivs x' /\ k <= n /\
    (o_pmode (ob_opts x) = PropNone -> k = 0) /\ (strong = true \/ o_global (ob_opts x) = None -> k = n \/ (k = 0 /\ n = 1)).
  Lemma ticks_refl b x x' : ob_opts x' = ob_opts x -> ob_world x' = ob_world x -> ticks b x x'.
  Proof. intros Ho E. split; [exact Ho|]. exists 0, 0. unfold props, pivs. rewrite E. split; [apply ext_0|]. split; [lia|]. split; [lia|]. split; [lia|]. auto. Qed.
  Definition plain_event (e : event) : bool := match e with EvCheck _ _ _ _ _ _ => false | _ => true end.
  Lemma step_ticks fuel e x w : wstep fuel (ob_opts x) e (ob_world x) = Ok w -> ticks (plain_event e) x (with_world x w).
  Proof.
    intros E. split; [reflexivity|]. unfold props, pivs. cbn [with_world ob_world]. set (o := ob_opts x) in *. set (w0 := ob_world x) in *.
    destruct e as [t h a lits|t h a tot l1 l2|t|t]; cbn [wstep plain_event] in *.
    - apply bind_ok in E as ([[p log] ok] & E1 & E). injection E as <-. cbn [w_p w_log]. unfold p_propagate in E1.
      match type of E1 with context [at_ (p_slvs ?q) t] => set (p1 := q) in E1 end. assert (Hp1 : p_slvs p1 = p_slvs (w_p w0)) by (unfold p1; destruct (_ && _); reflexivity).
      apply bind_ok in E1 as ([off s] & E2 & E1). apply bind_ok in E1 as ([[s' log1] ok1] & E3 & E1). injection E1 as <- <- _. rewrite Hp1 in E2. apply at_ok in E2.
      apply solve_c in E3 as (n & k & A & B & C & D & F). exists n, k. cbn [p_slvs put_thread]. rewrite Hp1.
      pose proof (total_put s_props _ _ _ (off, s') E2) as T1. pose proof (total_put s_pivots _ _ _ (off, s') E2) as T2. cbn [snd] in T1, T2.
      split; [exact A|]. split; [lia|]. split; [lia|]. split; [lia|]. auto.
    - apply bind_ok in E as ([off0 s0] & _ & E). apply bind_ok in E as ([[p log] ok] & E1 & E). injection E as <-. cbn [w_p w_log]. unfold p_check in E1.
      apply bind_ok in E1 as ([off s] & E2 & E1). apply bind_ok in E1 as ([[[off' s'] log1] ok1] & E3 & E1). injection E1 as <- <- _. apply at_ok in E2.
      apply t_check_c in E3 as (n & k & A & B & C & D & F & G). exists n, k. cbn [p_slvs put_thread].
      pose proof (total_put s_props _ _ _ (off', s') E2) as T1. pose proof (total_put s_pivots _ _ _ (off', s') E2) as T2. cbn [snd] in T1, T2.
      split; [exact A|]. split; [lia|]. split; [lia|]. split; [lia|]. split; [exact F|]. intros [X|X]; [discriminate|auto].
    - apply bind_ok in E as (p & E1 & E). injection E as <-. cbn [w_p w_log]. unfold p_undo in E1. apply bind_ok in E1 as ([off s] & E2 & E1). apply bind_ok in E1 as (s' & E3 & E1). injection E1 as <-.
      apply at_ok in E2. apply undo_c in E3 as (A & B). exists 0, 0. cbn [p_slvs put_thread].
      pose proof (total_put s_props _ _ _ (off, s') E2) as T1. pose proof (total_put s_pivots _ _ _ (off, s') E2) as T2. cbn [snd] in T1, T2.
      split; [apply ext_0|]. split; [lia|]. split; [lia|]. split; [lia|]. auto.
    - apply bind_ok in E as (v & _ & E). apply bind_ok in E as (p & E1 & E). injection E as <-. cbn [w_p w_log]. exists 0, 0.
      assert (Ep : p_slvs p = p_slvs (w_p w0)).
      { unfold p_on_model in E1. destruct (o_global o); [|injection E1 as <-; reflexivity]. apply bind_ok in E1 as ([off s] & _ & E1). apply bind_ok in E1 as (y & _ & E1). destruct y; injection E1 as <-; reflexivity. }
      rewrite Ep. split; [apply ext_0|]. split; [lia|]. split; [lia|]. split; [lia|]. auto.
  Qed.
  Lemma event_ticks fuel e x r x' : c_event print fuel e x = Returned (r, x') -> ticks (plain_event e) x x'.
  Proof.
    intros E. unfold c_event, reply, guarded, bare in E. destruct e as [t h a lits|t h a tot l1 l2|t|t].
    - match type of E with context [wstep ?f ?o ?e ?w] => destruct (wstep f o e w) as [w'| | |] eqn:Ew end; try discriminate; injection E as _ <-; [apply step_ticks in Ew; exact Ew|apply ticks_refl; reflexivity].
    - match type of E with context [wstep ?f ?o ?e ?w] => destruct (wstep f o e w) as [w'| | |] eqn:Ew end; try discriminate; injection E as _ <-; [apply step_ticks in Ew; exact Ew|apply ticks_refl; reflexivity].
    - match type of E with context [wstep ?f ?o ?e ?w] => destruct (wstep f o e w) as [w'| | |] eqn:Ew end; try discriminate; injection E as _ <-. apply step_ticks in Ew. exact Ew.
    - match type of E with context [match ?r with Ok _ => _ | Exn => _ | UB => _ | Fuel => _ end] => destruct r as [[l' w']| | |] eqn:Er end; try discriminate; [|injection E as _ <-; apply ticks_refl; reflexivity].
      injection E as _ <-. apply bind_ok in Er as (l & _ & Er). apply bind_ok in Er as (w & Ew & Er). injection Er as _ <-. apply step_ticks in Ew. exact Ew.
  Qed.
  Lemma decide_ticks t l x r x' : c_decide t l x = Returned (r, x') -> ticks true x x'.
  Proof. intros E. unfold c_decide, reply, guarded in E. destruct (p_decide _ _ _ _); try discriminate; injection E as _ <-; apply ticks_refl; reflexivity. Qed.
  Lemma query_ticks q x r x' : c_query print q x = Returned (r, x') -> ticks true x x'.
  Proof.
    intros E. unfold c_query in E. assert (Ha : forall l, answered l x = Returned (r, x') -> x' = x) by (intros l; unfold answered; destruct l; try discriminate; intros [= _ <-]; reflexivity).
    destruct q as [s|i|t|t cur|t i|t i|roots st ac]; try (rewrite (Ha _ E); apply ticks_refl; reflexivity).
    destruct roots; cbn in E; [|injection E as _ <-; apply ticks_refl; reflexivity]. destruct (on_statistics _ _ _) as [s' a']. injection E as _ <-. apply ticks_refl; reflexivity.
  Qed.
  Lemma init_zero a x x' : c_init bk m a x = Returned (Done, x') -> ob_opts x' = ob_opts x /\ props x' = 0 /\ pivs x' = 0.
  Proof.
    intros E. unfold c_init, reply, guarded in E.
    match type of E with context [match ?r with Ok _ => _ | Exn => _ | UB => _ | Fuel => _ end] => destruct r as [y| | |] eqn:Er end; try discriminate.
    injection E as <-. apply bind_ok in Er as (st & E1 & Er). apply bind_ok in Er as ([[p log] ok] & E2 & Er). injection Er as <-. split; [reflexivity|].
    unfold p_init in E2. apply bind_ok in E2 as ([[r log1] ok1] & E2 & E3). injection E3 as <- <- <-. apply prep_threads_c in E2. unfold props, pivs. cbn.
    clear E1. induction E2 as [|z l [A B] _ [IH1 IH2]]; [auto|]. cbn. rewrite A, B. auto.
  Qed.
  Lemma init_ticks a x r x' : c_init bk m a x = Returned (r, x') -> r <> Done -> ob_opts x' = ob_opts x /\ ob_world x' = ob_world x.
  Proof.
    intros E Hr. unfold c_init, reply, guarded in E.
    match type of E with context [match ?r with Ok _ => _ | Exn => _ | UB => _ | Fuel => _ end] => destruct r as [y| | |] eqn:Er end; try discriminate; injection E as <- <-; [tauto|auto].
  Qed.
End object.

(** ** Calls *)
Section calls.
  Context (rd : list ascii -> option Qc) (bk : backend) (m : Z -> Z).
  Notation adds_ := (adds rd bk m).
  Definition rprops (x : registered) : nat := match x with Plain y => props y | Strict y => props y end.
  Definition rpivs (x : registered) : nat := match x with Plain y => pivs y | Strict y => pivs y end.
  Lemma adds_iff h x p b : hd_prop h = Some x -> adds_ h p b <-> p = rpivs x /\ b = rprops x.
  Proof.
    assert (Q : forall fuel st ac, hd_prop h = Some x -> exists st', api_call rd bk m fuel (Query (QStatistics true st ac)) h = Returned (Numbers st' (Stats (st_pivots ac + rpivs x) (st_bounds ac + rprops x)), Some h)).
    { intros fuel st ac Hx. destruct h as [th pr ct]. cbn [hd_prop] in Hx. subst pr. destruct x as [y|y]; cbn [api_call]; unfold on_object; cbn [hd_prop hd_theory hd_count]; unfold c_query, reply, guarded;
        pose proof (C33_accumulated (w_p (ob_world y)) st ac) as A; destruct (on_statistics (w_p (ob_world y)) st ac) as [s' a']; cbn [snd] in A; subst a'; exists s'; reflexivity. }
    intros Hx. split.
    - intros A. destruct (A 0 (Stats 0 0) (Stats 0 0)) as (s1 & E1). destruct (Q 0 (Stats 0 0) (Stats 0 0) Hx) as (s2 & E2). rewrite E1 in E2. injection E2 as _ -> ->. auto.
    - intros [-> ->] fuel st ac. exact (Q fuel st ac Hx).
  Qed.
  Definition rticks (strong : bool) (x x' : registered) : Prop := options_of x' = options_of x /\ exists n k,
    ext (clauses_of x) (clauses_of x') n /\ rprops x' = rprops x + k /\ rpivs x <= rpivs x' /\ k <= n /\
    (o_pmode (options_of x) = PropNone -> k = 0) /\ (strong = true \/ o_global (options_of x) = None -> k = n \/ (k = 0 /\ n = 1)).
  Lemma rticks_refl b x : rticks b x x.
  Proof. split; [reflexivity|]. exists 0, 0. split; [apply ext_0|]. split; [lia|]. split; [lia|]. split; [lia|]. auto. Qed.
  Lemma ticks_weak {V} `{Value V} (x x' : object V) b : ticks true x x' -> ticks b x x'.
  Proof. intros (A & n & k & B & C & D & E & F & G). split; [exact A|]. exists n, k. split; [exact B|]. split; [exact C|]. split; [exact D|]. split; [exact E|]. split; [exact F|]. auto. Qed.
  Definition strong_call (c : call) : bool := match c with Callback _ e => plain_event e | _ => true end.
  Lemma on_object_t b h f a h' x : on_object h f = Returned (a, Some h') -> hd_prop h = Some x -> (forall d x', f x = Returned (d, x') -> rticks b x x') -> exists x', hd_prop h' = Some x' /\ rticks b x x'.
  Proof.
    intros E Hx Hf. unfold on_object in E. rewrite Hx in E. destruct (f x) as [[d x']| | |] eqn:Ef; try discriminate. injection E as _ <-. exists x'. split; [reflexivity|eauto].
  Qed.
  Lemma call_ticks fuel c h a h' x : api_call rd bk m fuel c h = Returned (a, Some h') -> keeps c -> hd_prop h = Some x -> exists x', hd_prop h' = Some x' /\ rticks (strong_call c) x x'.
  Proof.
    intros E Hc Hx. assert (G : forall b (h2 : handle), hd_prop h2 = hd_prop h -> exists x', hd_prop h2 = Some x' /\ rticks b x x').
    { intros b h2 E2. exists x. split; [congruence|apply rticks_refl]. }
    destruct c as [k v|k v|k b| |ad rg|ac| |g ia|g ia|g e|g t l|t|q|]; cbn [api_call keeps strong_call] in *; try contradiction.
    - destruct (guarded _) as [[[th [|]]|]| | |]; try discriminate; injection E as _ <-; apply G; reflexivity.
    - unfold settings in E. destruct (bare _) as [[th ok]| | |]; try discriminate. injection E as _ <-. apply G; reflexivity.
    - destruct (String.eqb _ _); [|destruct (String.eqb _ _)]; injection E as _ <-; apply G; reflexivity.
    - destruct (guarded _) as [[|]| | |]; try discriminate; injection E as _ <-; apply G; reflexivity.
    - injection E as _ <-. apply G; reflexivity.
    - injection E as _ <-. apply G; reflexivity.
    - apply alive_k in E. refine (on_object_t _ _ _ _ _ _ E Hx _). intros d x' Ef. destruct x as [x|x]; apply lift_k in Ef as (y & Ey & ->); exact (event_ticks _ _ _ _ _ _ Ey).
    - apply alive_k in E. refine (on_object_t _ _ _ _ _ _ E Hx _). intros d x' Ef. destruct x as [x|x]; apply lift_k in Ef as (y & Ey & ->); exact (decide_ticks _ _ _ _ _ Ey).
    - refine (on_object_t _ _ _ _ _ _ E Hx _). intros d x' Ef. destruct x as [x|x]; apply lift_k in Ef as (y & Ey & ->); exact (event_ticks _ _ _ _ _ _ Ey).
    - destruct q; try (injection E as _ <-; apply G; reflexivity);
        (refine (on_object_t _ _ _ _ _ _ E Hx _); intros d x' Ef; destruct x as [x|x]; apply lift_k in Ef as (y & Ey & ->); exact (query_ticks _ _ _ _ _ Ey)).
  Qed.

  (** A call that keeps the object: the clauses handed over during the call are
      [new]; the number of pivots does not decrease; no more bounds are counted
      than clauses were handed over, and none with propagate-bounds none.
      Without a global objective, and in every call but a check, all clauses are
      counted, or it is one clause that is not: the conflict. *)
  Theorem C64_call fuel c h a h' x p b : api_call rd bk m fuel c h = Returned (a, Some h') -> keeps c -> hd_prop h = Some x -> adds_ h p b ->
    exists x' p' b' new, hd_prop h' = Some x' /\ adds_ h' p' b' /\ clauses_of x' = clauses_of x ++ new /\ p <= p' /\ b <= b' <= b + length new /\
      (o_pmode (options_of x) = PropNone -> b' = b) /\
      ((forall g t hh asg tot l1 l2, c <> Callback g (EvCheck t hh asg tot l1 l2)) \/ o_global (options_of x) = None -> b' = b + length new \/ (b' = b /\ length new = 1)).
  Proof.
    intros E Hc Hx Ha. apply (adds_iff _ _ _ _ Hx) in Ha as [-> ->]. destruct (call_ticks _ _ _ _ _ _ E Hc Hx) as (x' & Hx' & _ & n & k & (new & El & Hn) & B & C & D & F & G).
    exists x', (rpivs x'), (rprops x'), new. split; [exact Hx'|]. split; [apply (adds_iff _ _ _ _ Hx'); auto|]. split; [exact El|]. split; [exact C|]. split; [lia|].
    split; [intros X; specialize (F X); lia|]. intros X. destruct G as [->|[-> K]].
    - destruct X as [X|X]; [left|right; exact X]. destruct c as [| | | | | | | | |g [| | |]| | | |]; try reflexivity. exfalso. eapply X. reflexivity.
    - left. lia.
    - right. lia.
  Qed.
  (** init: the numbers start again at 0 *)
  Theorem C64_init fuel c h h' x : is_init c -> api_call rd bk m fuel c h = Returned (Done, Some h') -> hd_prop h' = Some x -> adds_ h' 0 0.
  Proof.
    intros Hc E Hx. apply (adds_iff _ _ _ _ Hx). destruct c; try contradiction; cbn [api_call] in E; apply alive_k in E; unfold on_object in E;
      destruct (hd_prop h) as [[y|y]|]; try discriminate; destruct (c_init bk m a y) as [[r z]| | |] eqn:Ei; try discriminate; cbn [lift] in E; injection E as -> <-; cbn in Hx; injection Hx as <-;
      apply init_zero in Ei as (_ & A & B); cbn; auto.
  Qed.
  (** In a session no more bounds are counted than clauses have been handed
      over, and none with propagate-bounds none. *)
  Definition covered (h : handle) : Prop := forall x, hd_prop h = Some x -> rprops x <= length (clauses_of x) /\ (o_pmode (options_of x) = PropNone -> rprops x = 0).
  Lemma covered_call fuel c h a h' : api_call rd bk m fuel c h = Returned (a, Some h') -> covered h -> covered h'.
  Proof.
    intros E G. assert (D : keeps c \/ ~ keeps c) by (destruct c; cbn; tauto). destruct D as [D|D].
    - destruct (hd_prop h) as [x|] eqn:Hx.
      + destruct (call_ticks _ _ _ _ _ _ E D Hx) as (x' & Hx' & Ho & n & k & (new & El & Hn) & B & C & F & K & _). intros y Hy. rewrite Hx' in Hy. injection Hy as <-.
        destruct (G x Hx) as [G1 G2]. rewrite El, app_length, Hn, Ho. split; [lia|]. intros X. rewrite B, (G2 X), (K X). reflexivity.
      + intros y Hy. exfalso. destruct c; cbn [keeps] in D; try contradiction; cbn [api_call] in E; try (apply alive_k in E); unfold on_object, settings in E; try rewrite Hx in E; try discriminate.
        * destruct (guarded _) as [[[th [|]]|]| | |]; try discriminate; injection E as _ <-; cbn in Hy; congruence.
        * destruct (bare _) as [[th ok]| | |]; try discriminate. injection E as _ <-. cbn in Hy. congruence.
        * destruct (String.eqb _ _); [|destruct (String.eqb _ _)]; injection E as _ <-; cbn in Hy; congruence.
        * destruct (guarded _) as [[|]| | |]; try discriminate; injection E as _ <-; congruence.
        * injection E as _ <-. congruence.
        * injection E as _ <-. congruence.
        * destruct q; try discriminate. injection E as _ <-. congruence.
    - destruct c; cbn [keeps] in D; try tauto; cbn [api_call] in E.
      + destruct (guarded _) as [[r|]| | |]; try discriminate; injection E as _ <-; [|exact G]. intros y [= <-]. destruct (rg_value r); cbn; split; auto; lia.
      + apply alive_k in E. unfold on_object in E. destruct (hd_prop h) as [[y|y]|] eqn:Hx; try discriminate. destruct (c_init bk m a0 y) as [[r z]| | |] eqn:Ei; try discriminate. cbn [lift] in E. injection E as -> <-.
        intros x [= <-]. assert (D2 : a = Done \/ a <> Done) by (destruct a; auto; right; discriminate). destruct D2 as [->|D2].
        * apply init_zero in Ei as (_ & A & _). cbn. rewrite A. split; [lia|auto].
        * destruct (init_ticks _ _ _ _ _ _ Ei D2) as [Ho Hw]. specialize (G _ Hx). cbn in G |- *. unfold props in *. rewrite Ho, Hw. exact G.
      + apply alive_k in E. unfold on_object in E. destruct (hd_prop h) as [[y|y]|] eqn:Hx; try discriminate. destruct (c_init bk m a0 y) as [[r z]| | |] eqn:Ei; try discriminate. cbn [lift] in E. injection E as -> <-.
        intros x [= <-]. assert (D2 : a = Done \/ a <> Done) by (destruct a; auto; right; discriminate). destruct D2 as [->|D2].
        * apply init_zero in Ei as (_ & A & _). cbn. rewrite A. split; [lia|auto].
        * destruct (init_ticks _ _ _ _ _ _ Ei D2) as [Ho Hw]. specialize (G _ Hx). cbn in G |- *. unfold props in *. rewrite Ho, Hw. exact G.
      + discriminate.
  Qed.
  Theorem C64_session cs h x p b : session rd bk m cs h -> hd_prop h = Some x -> adds_ h p b ->
    b <= length (clauses_of x) /\ (o_pmode (options_of x) = PropNone -> b = 0).
  Proof.
    intros S Hx Ha. apply (adds_iff _ _ _ _ Hx) in Ha as [-> ->]. assert (G : covered h); [|exact (G x Hx)].
    clear Hx. induction S as [|cs h c fuel a h' S IH E]; [intros y [=]|]. eapply covered_call; eauto.
  Qed.
End calls.

(** ** Example: [&sum { x } >= 3], [&sum { y } >= 3], [&sum { x; y } <= 4],
    [&sum { x; y } <= 5], [&sum { x; y } >= 2].  The last one needs a pivot;
    propagating the first two hands over two clauses with propagate-bounds full,
    both counted; then the third leads to a conflict, a clause not counted. *)
Definition row_atom (es : list string) (r : string) (n lit : Z) : tatom := TAtom (TSym "sum") (map (fun x => TElem [TSym x] [] 0%Z) es) (Some (r, TNum n)) lit.
Definition count_calls : list call :=
  [ Register true true;
    InitPlain 0 (InitArgs _ [row_atom ["x"] ">=" 3 9; row_atom ["y"] ">=" 3 19; row_atom ["x"; "y"] "<=" 4 29; row_atom ["x"; "y"] "<=" 5 39; row_atom ["x"; "y"] ">=" 2 49] 1 quiet (fun _ l => l))%string;
    Callback 0 (EvPropagate 0 quiet (lev 0) [50%Z]); Callback 0 (EvPropagate 0 quiet (lev 0) [10%Z; 20%Z]) ].
Definition count_more : list call := [ Callback 0 (EvPropagate 0 quiet (lev 0) [30%Z]) ].
Definition numbers (o : option handle) : option (nat * nat * list (list Z)) :=
  match o with Some h => match hd_prop h with Some x => Some (rpivs x, rprops x, clauses_of x) | None => None end | None => None end.
Definition all_bounds : call := CommandLine "propagate-bounds" (list_ascii_of_string "full").
Lemma numbers_ok bk m cs p b cl : numbers (call_all bk m cs new_handle) = Some (p, b, cl) ->
  exists h x, session no_numbers bk m cs h /\ hd_prop h = Some x /\ adds no_numbers bk m h p b /\ clauses_of x = cl.
Proof.
  unfold numbers. destruct (call_all bk m cs new_handle) as [h|] eqn:E; [|discriminate]. destruct (hd_prop h) as [x|] eqn:Ex; [|discriminate]. intros [= <- <- <-].
  exists h, x. split; [exact (call_all_session bk m cs [] new_handle h (ss_new _ _ _) E)|]. split; [exact Ex|]. split; [|reflexivity]. apply (adds_iff _ _ _ _ _ _ _ Ex). auto.
Qed.
Lemma count_0 : numbers (call_all Flint shift_mapper count_calls new_handle) = Some (2, 0, []).
Proof. vm_compute. reflexivity. Qed.
Lemma count_1 : numbers (call_all Flint shift_mapper (all_bounds :: count_calls) new_handle) = Some (2, 2, [[-10; -20; -30]; [-10; -20; -40]]%Z).
Proof. vm_compute. reflexivity. Qed.
Lemma count_2 : numbers (call_all Flint shift_mapper ((all_bounds :: count_calls) ++ count_more) new_handle) = Some (2, 2, [[-10; -20; -30]; [-10; -20; -40]; [-30; -10; -20]]%Z).
Proof. vm_compute. reflexivity. Qed.
Definition counts (cs : list call) (p b : nat) (cl : list (list Z)) : Prop :=
  exists h x, session no_numbers Flint shift_mapper cs h /\ hd_prop h = Some x /\ adds no_numbers Flint shift_mapper h p b /\ clauses_of x = cl.
Theorem C64_example : counts count_calls 2 0 [] /\
  counts (all_bounds :: count_calls) 2 2 [[-10; -20; -30]; [-10; -20; -40]]%Z /\
  counts ((all_bounds :: count_calls) ++ count_more) 2 2 [[-10; -20; -30]; [-10; -20; -40]; [-30; -10; -20]]%Z.
Proof. split; [exact (numbers_ok _ _ _ _ _ _ count_0)|]. split; [exact (numbers_ok _ _ _ _ _ _ count_1)|exact (numbers_ok _ _ _ _ _ _ count_2)]. Qed.
