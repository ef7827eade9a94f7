(** * What every callback keeps, with or without the equality bug

    The trail of values (unlike the trail of bounds) is not touched by the
    equality bug: undo always restores an assignment that satisfies the row
    equations.  This is all that is needed to apply Weak.v to every state a
    session can reach.  Operations that can run into undefined behaviour in a
    damaged state are described by [okub]. *)

From stdpp Require Import list_numbers.
From Verif Require Import Num Sums Tableau TableauProofs Bland Solver SolverBase SolverStep Simplex SimplexLoop Hist Updates Core CoreSolve Propagate OptSelect Weak.

(** the call returns normally with a result in [P], or it has run into
    undefined behaviour; it neither throws nor runs out of fuel *)
Definition okub {A} (P : A -> Prop) (r : res A) : Prop := match r with Ok a => P a | UB => True | _ => False end.
Lemma okub_bind {A B} (P : A -> Prop) (Q : B -> Prop) (m : res A) (f : A -> res B) : okub P m -> (forall a, P a -> okub Q (f a)) -> okub Q (m ≫= f).
Proof. destruct m; cbn; intros Hm Hf; auto; contradiction. Qed.
Lemma okub_weak {A} (P Q : A -> Prop) (r : res A) : (forall a, P a -> Q a) -> okub P r -> okub Q r.
Proof. destruct r; cbn; auto. Qed.
Lemma okub_ok {A} (P : A -> Prop) (r : res A) a : okub P r -> r = Ok a -> P a.
Proof. intros Hr ->. exact Hr. Qed.
Lemma okub_at {A} (l : list A) x : okub (fun a => l !! x = Some a) (at_ l x).
Proof. unfold at_, deref. destruct (l !! x); cbn; auto. Qed.

Section weakhist.
  Context {V : Type} `{VL : ValueLaws V}.
  Implicit Types s : solver V.
  Implicit Types x y : nat.
  Implicit Types b l u : bound V.
  Implicit Types ks : list nat.

  Definition topl ks : nat := match ks with [] => 0 | k :: _ => k end.

  (** [vhist s0 ks offs nb at_ c]: the trail of values [at_] with offsets
      [offs] leads from [c] back through assignments satisfying the rows of
      [s0], one per level in [ks]; [nb] is the length of the bound trail *)
  Inductive vhist (s0 : solver V) : list nat -> list toff -> nat -> list (nat * nat * V) -> @snap V -> Prop :=
  | vhist_nil nb c : (forall x, n_lvl c x = 0) -> vhist s0 [] [] nb [] c
  | vhist_zero ob nb c : (forall x, n_lvl c x = 0) -> vhist s0 [0] [TOff 0 ob 0] nb [] c
  | vhist_S L ks offs nb0 nb at_ pre vs c :
      vhist s0 ks offs nb0 at_ pre -> topl ks < L -> rows s0 (n_val pre) -> vseg L vs pre c -> nb0 <= nb ->
      vhist s0 (L :: ks) (offs ++ [TOff L nb0 (length at_)]) nb (at_ ++ vs) c.

  Lemma vhist_eq s0 ks offs nb nb' at_ c d : asg_eq c d -> nb <= nb' -> vhist s0 ks offs nb at_ c -> vhist s0 ks offs nb' at_ d.
  Proof.
    intros Ha Hn Hh. destruct Hh as [nb c H1|ob nb c H1|L ks offs nb0 nb at_ pre vs c H1 H2 H3 H4 H5].
    - constructor. intros x. destruct (Ha x) as [<- _]; auto.
    - constructor. intros x. destruct (Ha x) as [<- _]; auto.
    - econstructor; eauto; [|lia]. destruct H4 as [A B C D]. constructor; auto.
      + intros k x v Hin. destruct (B k x v Hin) as (? & ? & ?). destruct (Ha x) as [<- _]. auto.
      + intros x Hin. destruct (C x Hin). destruct (Ha x) as [<- <-]. auto.
  Qed.

  Lemma vhist_lvl s0 ks offs nb at_ c : vhist s0 ks offs nb at_ c -> forall x, n_lvl c x <= topl ks.
  Proof.
    intros Hh x. destruct Hh as [nb c H1|ob nb c H1|L ks offs nb0 nb at_ pre vs c H1 H2 H3 H4 H5]; cbn.
    - rewrite H1. lia.
    - rewrite H1. lia.
    - destruct (decide (x ∈ map (fun e : nat * nat * V => e.1.2) vs)) as [Hin|Hin].
      + apply elem_of_list_In, in_map_iff in Hin as ([[k y] v] & <- & Hin). apply elem_of_list_In in Hin.
        destruct (vg_in _ _ _ _ H4 _ _ _ Hin) as (_ & _ & E). cbn; lia.
      + destruct (vg_out _ _ _ _ H4 x Hin) as [-> _]. pose proof (vg_lt _ _ _ _ H4 x). lia.
  Qed.
  Lemma vhist_top s0 ks offs nb at_ c : vhist s0 ks offs nb at_ c ->
    match last offs with None => ks = [] | Some f => ks <> [] /\ o_level f = topl ks end.
  Proof.
    intros Hh. destruct Hh as [nb c H1|ob nb c H1|L ks offs nb0 nb at_ pre vs c H1 H2 H3 H4 H5]; cbn; auto.
    rewrite last_snoc. auto.
  Qed.

  Lemma vhist_move s0 ks offs nb at_ c d x (v : V) :
    vhist s0 ks offs nb at_ c ->
    (forall y, (n_lvl d y, n_val d y) = if y =? x then (topl ks, v) else (n_lvl c y, n_val c y)) ->
    vhist s0 ks offs nb (at_ ++ (if topl ks =? n_lvl c x then [] else [(n_lvl c x, x, n_val c x)])) d.
  Proof.
    intros Hh Hd. destruct Hh as [nb c H1|ob nb c H1|L ks offs nb0 nb at_ pre vs c H1 H2 H3 H6 H5]; cbn in *.
    - rewrite H1. cbn. constructor. intros y. specialize (Hd y). destruct (y =? x); injection Hd as -> _; auto.
    - rewrite H1. cbn. constructor. intros y; specialize (Hd y); destruct (y =? x); injection Hd as -> _; auto.
    - rewrite <- app_assoc. econstructor; eauto. destruct H6 as [A B C D].
      destruct (Nat.eqb_spec L (n_lvl c x)) as [E|E].
      + rewrite app_nil_r. assert (Hx : x ∈ map (fun e : nat * nat * V => e.1.2) vs).
        { destruct (decide (x ∈ map (fun e : nat * nat * V => e.1.2) vs)); auto. destruct (C x n) as [E' _]. specialize (D x). lia. }
        constructor; auto.
        * intros k y w Hin. destruct (B k y w Hin) as (E1 & E2 & E3). split; auto. split; auto.
          specialize (Hd y). destruct (y =? x); injection Hd as -> _; auto.
        * intros y Hy. assert (y <> x) by congruence. specialize (Hd y). destruct (Nat.eqb_spec y x); [congruence|]. injection Hd as -> ->. auto.
      + assert (Hx : x ∉ map (fun e : nat * nat * V => e.1.2) vs).
        { intros Hin. apply elem_of_list_In, in_map_iff in Hin as ([[k y] w] & <- & Hin). apply elem_of_list_In in Hin.
          destruct (B _ _ _ Hin) as (_ & _ & E'). cbn in E. congruence. }
        destruct (C x Hx) as [C1 C2]. constructor.
        * rewrite map_app. cbn. apply NoDup_app. split; auto. split; [|apply NoDup_singleton].
          intros y Hy Hy'. apply elem_of_list_singleton in Hy'. congruence.
        * intros k y w Hin. apply elem_of_app in Hin as [Hin|Hin].
          { destruct (B k y w Hin) as (E1 & E2 & E3). split; auto. split; auto.
            specialize (Hd y). destruct (y =? x); injection Hd as -> _; auto. }
          { apply elem_of_list_singleton in Hin. injection Hin as -> -> ->. split; auto. split; auto.
            specialize (Hd x). rewrite Nat.eqb_refl in Hd. injection Hd as -> _; auto. }
        * intros y Hy. rewrite map_app in Hy. cbn in Hy. assert (Hyx : y <> x) by (intros ->; apply Hy, elem_of_app; right; apply elem_of_list_singleton; auto).
          assert (Hy' : y ∉ map (fun e : nat * nat * V => e.1.2) vs) by (intros Hin; apply Hy, elem_of_app; auto).
          specialize (Hd y). destruct (Nat.eqb_spec y x); [congruence|]. injection Hd as -> ->. auto.
        * exact D.
  Qed.

  Lemma vhist_vreach s0 ks L s s' : vreach L s s' -> L = topl ks ->
    vhist s0 ks (s_offs s) (length (s_btrail s)) (s_atrail s) (obs s) -> vhist s0 ks (s_offs s') (length (s_btrail s')) (s_atrail s') (obs s').
  Proof.
    intros Hr -> Hh. induction Hr as [s|s1 s2 s3 Hr IH M|s1 s2 s3 Hr IH M]; auto.
    - destruct M as (x & v & Hx & Hv & Hat & Hbt & Hst & Hbs). rewrite Hat, Hbt, (stat_offs _ _ Hst).
      apply (vhist_move s0 ks _ _ _ (obs s2) (obs s3) x v); auto.
    - destruct M as (Hat & Hbt & Hst & Hbs & Hvs). rewrite Hat, Hbt, (stat_offs _ _ Hst).
      apply (vhist_eq _ _ _ (length (s_btrail s2)) _ _ (obs s2)); auto. apply obs_asg; auto.
  Qed.

  Lemma vhist_push s0 ks offs nb at_ c L :
    vhist s0 ks offs nb at_ c -> (ks = [] \/ topl ks < L) -> rows s0 (n_val c) ->
    vhist s0 (L :: ks) (offs ++ [TOff L nb (length at_)]) nb at_ c.
  Proof.
    intros Hh Hlt Hg. pose proof (vhist_lvl _ _ _ _ _ _ Hh) as Hlv.
    destruct (Nat.eq_dec L 0) as [->|HL].
    - destruct Hlt as [->|Hlt]; [|lia]. inversion Hh; subst. cbn. constructor; auto.
    - assert (Hlt' : topl ks < L) by (destruct Hlt as [->|]; cbn; lia).
      rewrite <- (app_nil_r at_) at 2. econstructor; eauto.
      constructor; cbn.
      + constructor.
      + intros x m o Hin. inversion Hin.
      + auto.
      + intros x. specialize (Hlv x). lia.
  Qed.

  Lemma vhist_mono s0 ks offs nb at_ c : vhist s0 ks offs nb at_ c ->
    (forall f, f ∈ offs -> o_asg f <= length at_) /\ rev (reset_offs_rev (rev offs)) = map roff offs.
  Proof.
    induction 1 as [nb c H1|ob nb c H1|L ks offs nb0 nb at_ pre vs c H1 [IH1 IH2] H2 H3 H4 H5].
    - split; auto. intros f Hf. inversion Hf.
    - split; [|reflexivity]. intros f Hf. apply elem_of_list_singleton in Hf as ->. cbn; lia.
    - split.
      + intros f Hf. rewrite app_length. apply elem_of_app in Hf as [Hf|Hf]; [apply IH1 in Hf; lia|].
        apply elem_of_list_singleton in Hf as ->. cbn; lia.
      + rewrite rev_app_distr. cbn. destruct (Nat.ltb_spec 0 (length at_)) as [E|E].
        * cbn. rewrite IH2, map_app. auto.
        * cbn. rewrite rev_involutive, map_app. cbn. assert (length at_ = 0) as -> by lia. f_equal.
          rewrite <- (map_id offs) at 1. apply map_ext_in. intros f Hf. apply elem_of_list_In in Hf. apply IH1 in Hf.
          destruct f as [a1 a2 a3]. cbn in *. unfold roff; cbn. f_equal. lia.
  Qed.
  Lemma vhist_lvl0 s0 ks offs nb at_ c : vhist s0 ks offs nb at_ c -> forall x, x ∉ map (fun e : nat * nat * V => e.1.2) at_ -> n_lvl c x = 0.
  Proof.
    induction 1 as [nb c H1|ob nb c H1|L ks offs nb0 nb at_ pre vs c H1 IH H2 H3 H6 H5]; intros x Hx; auto.
    rewrite map_app in Hx. destruct (vg_out _ _ _ _ H6 x) as [-> _].
    - intros Hin. apply Hx, elem_of_app; auto.
    - apply IH. intros Hin. apply Hx, elem_of_app; auto.
  Qed.
  Lemma vhist_store s0 ks offs nb at_ c v : vhist s0 ks offs nb at_ c -> rows s0 v ->
    vhist s0 ks (map roff offs) nb [] (reset_snap v c).
  Proof.
    induction 1 as [nb c H1|ob nb c H1|L ks offs nb0 nb at_ pre vs c H1 IH H2 H3 H4 H5]; intros Hr; cbn.
    - constructor; auto.
    - constructor; auto.
    - rewrite map_app. cbn. unfold roff at 2. cbn.
      change 0 with (length (@nil (nat * nat * V))) at 1. change (@nil (nat * nat * V)) with (@nil (nat * nat * V) ++ []).
      econstructor; [apply IH; auto|auto|auto| |auto].
      constructor; cbn; auto.
      + constructor.
      + intros k x w Hin. inversion Hin.
      + intros x. lia.
  Qed.

  (** ** The invariant *)
  Record W (s0 : solver V) ks s : Prop := {
    wk_K : K s;
    wk_R : forall a, rows s a <-> rows s0 a;
    wk_nv : nv s = nv s0;
    wk_h : vhist s0 ks (s_offs s) (length (s_btrail s)) (s_atrail s) (obs s);
  }.
  Lemma Live_W keep s0 s : Live keep s0 [] s -> W s0 [] s.
  Proof.
    intros [[[Sh Ps Bc Hr Hn [Hq _]] Hh Hps Heq HR Hnv Hbs] Hf Hc]. constructor; auto.
    - constructor; auto.
    - inversion Hh as [c H1 E1 E2 E3 E4| |]; subst. constructor. auto.
  Qed.

  (** moves along the rows *)
  Lemma W_move s0 ks s s' : W s0 ks s -> vreach (topl ks) s s' -> K s' -> (forall a, rows s' a <-> rows s a) -> W s0 ks s'.
  Proof.
    intros [HK HR Hnv Hh] Vr HK' HR'. destruct (vreach_facts _ _ _ Vr) as (Bt & St & Bn). constructor; auto.
    - intros a. rewrite HR'. auto.
    - rewrite (stat_nv _ _ St). auto.
    - apply (vhist_vreach _ _ (topl ks) s); auto.
  Qed.
  (** changes of bounds, queues and statistics only *)
  Lemma W_quiet s0 ks s s' : W s0 ks s -> stat s' = stat s -> s_tab s' = s_tab s -> s_atrail s' = s_atrail s -> perm_same s s' -> val_same s s' ->
    shape s' -> Qinv s' -> length (s_btrail s) <= length (s_btrail s') -> W s0 ks s'.
  Proof.
    intros [[Sh Hr Hq] HR Hnv Hh] St Tb At Pm Vs Sh' Hq' Hl.
    assert (Hrw : forall a, rows s' a <-> rows s a) by (intros a; apply rows_same; auto; rewrite Tb; auto).
    constructor.
    - constructor; auto. apply Hrw. apply (rows_ext s (val s)); auto. intros y _. symmetry. apply Vs.
    - intros a. rewrite Hrw. auto.
    - rewrite (stat_nv _ _ St); auto.
    - rewrite (stat_offs _ _ St), At. apply (vhist_eq _ _ _ (length (s_btrail s)) _ _ (obs s)); auto. apply obs_asg; auto.
  Qed.

  (** ** push *)
  Definition kenter (dl : nat) ks : list nat := match ks with [] => [dl] | k :: _ => if k <? dl then dl :: ks else ks end.
  Lemma kenter_top dl ks : topl ks <= dl -> topl (kenter dl ks) = dl.
  Proof. unfold kenter. destruct ks as [|k r]; cbn; auto. destruct (Nat.ltb_spec k dl); cbn; lia. Qed.
  Lemma shape_offs s f : shape s -> shape (set_offs f s).
  Proof. intros []. constructor; auto. Qed.
  Lemma W_push s0 ks s (a : asg) : W s0 ks s -> topl ks <= a_dl a -> W s0 (kenter (a_dl a) ks) (push_offset a s).
  Proof.
    intros [[Sh Hr Hq] HR Hnv Hh] Ht. pose proof (vhist_top _ _ _ _ _ _ Hh) as Htop. unfold push_offset, kenter.
    destruct (last (s_offs s)) as [f|].
    - destruct Htop as [Hne El]. destruct ks as [|k r]; [congruence|]. cbn in El, Ht. rewrite El. destruct (Nat.ltb_spec k (a_dl a)) as [Hlt|Hge].
      + constructor; auto.
        * constructor; auto. apply shape_offs; auto.
        * apply vhist_push; auto. apply HR. auto.
      + constructor; auto. constructor; auto.
    - subst ks. constructor; auto.
      + constructor; auto. apply shape_offs; auto.
      + apply (vhist_push s0 [] (s_offs s)); auto. apply HR. auto.
  Qed.

  (** ** bounds *)
  Lemma upper_w (a : asg) b s : b_var b < nv s -> exists s' ok, update_upper a b (b_var b) s = Ok (s', ok) /\ bonly s s' /\
    (forall e, e ∈ s_btrail s' -> e ∈ s_btrail s \/ e.1.1 = b_var b) /\ length (s_btrail s) <= length (s_btrail s') /\
    ok = bounds_consistent (vr s' (b_var b)).
  Proof.
    intros Hx. destruct (update_upper_ok a b s Hx) as (s' & E & Bo & Hc). exists s'. eexists. split; [exact E|]. split; auto.
    destruct (below_upper (vr s (b_var b)) (b_val b)).
    - destruct Hc as (Hbt & _ & _). rewrite Hbt. split; [|split; [rewrite app_length; lia|auto]].
      intros e He. apply elem_of_app in He as [He|He]; auto. destruct (match up s (b_var b) with Some u => _ | None => _ end); [|inversion He].
      apply elem_of_list_singleton in He as ->. auto.
    - subst s'. auto.
  Qed.
  Lemma lower_w (a : asg) b s : b_var b < nv s -> okub (fun r => bonly s r.1 /\
    (forall e, e ∈ s_btrail r.1 -> (exists e', e' ∈ s_btrail s /\ e.1.1 = e'.1.1) \/ e.1.1 = b_var b) /\ length (s_btrail s) <= length (s_btrail r.1) /\
    r.2 = bounds_consistent (vr r.1 (b_var b))) (update_lower a b (b_var b) s).
  Proof.
    intros Hx. destruct (s_btrail s) as [|e0 t0] eqn:Et.
    - (* the trail is empty: back() may be called on it *)
      destruct (above_lower (vr s (b_var b)) (b_val b)) eqn:Ea; [destruct (same_bound (up s (b_var b)) b) eqn:Es;
        [destruct (match lo s (b_var b) with None => true | Some l => a_level a (b_lit l) <? a_dl a end) eqn:Ep|]|].
      + unfold update_lower. rewrite at_vr by auto. cbn [mbind res_bind]. rewrite Ea. unfold lo in Ep. rewrite Ep. unfold up in Es. rewrite Es. cbn [negb].
        unfold trail_back_eq. rewrite Et. cbn. exact Logic.I.
      + destruct (update_lower_ok a b s Hx) as (s' & E & Bo & Hc).
        { intros _ _ Hl. exfalso. destruct (lo s (b_var b)); [|discriminate]. apply Nat.ltb_ge in Ep. lia. }
        rewrite E. cbn. rewrite Ea, Ep in Hc. destruct Hc as (Hbt & _). rewrite Hbt, Et. split; auto. split; [intros e He; inversion He|]. auto.
      + destruct (update_lower_ok a b s Hx) as (s' & E & Bo & Hc); [congruence|].
        rewrite E. cbn. rewrite Ea, Es in Hc. destruct Hc as (Hbt & _). split; auto. destruct (match lo s (b_var b) with Some l => _ | None => _ end); rewrite Hbt, ?Et.
        * split; [|split; [cbn; lia|auto]]. intros e He. cbn in He. apply elem_of_list_singleton in He as ->. auto.
        * split; [intros e He; inversion He|]. auto.
      + destruct (update_lower_ok a b s Hx) as (s' & E & Bo & Hc); [congruence|].
        rewrite E. cbn. rewrite Ea in Hc. subst s'. split; auto. rewrite Et. split; [intros e He; inversion He|]. auto.
    - rewrite <- Et. destruct (update_lower_ok a b s Hx) as (s' & E & Bo & Hc); [intros _ _ _; congruence|].
      rewrite E. cbn. split; auto. destruct (above_lower (vr s (b_var b)) (b_val b)).
      + destruct Hc as (Hbt & _). destruct (match lo s (b_var b) with Some l => _ | None => _ end).
        * destruct (same_bound (up s (b_var b)) b).
          { destruct Hbt as (t & y & r & ob & E1 & E2). rewrite E1, E2. split; [|split; [rewrite !app_length; cbn; lia|auto]].
            intros e He. left. apply elem_of_app in He as [He|He].
            - exists e. split; auto. apply elem_of_app; auto.
            - apply elem_of_list_singleton in He as ->. exists (y, r, ob). split; auto. apply elem_of_app. right. apply elem_of_list_singleton; auto. }
          { rewrite Hbt. split; [|split; [rewrite app_length; lia|auto]]. intros e He. apply elem_of_app in He as [He|He]; [left; eauto|].
            apply elem_of_list_singleton in He as ->. auto. }
        * rewrite Hbt. split; [|auto]. intros e He. left. eauto.
      + subst s'. split; [|auto]. intros e He. left. eauto.
  Qed.

  Lemma var_w (a : asg) b s : shape s -> b_var b < nv s -> okub (fun r => bonly s r.1 /\ shape r.1 /\ length (s_btrail s) <= length (s_btrail r.1) /\
    r.2 = bounds_consistent (vr r.1 (b_var b))) (update_var a b (b_var b) s).
  Proof.
    intros Sh Hx. unfold update_var.
    assert (Up : exists s' ok, update_upper a b (b_var b) s = Ok (s', ok) /\ bonly s s' /\ shape s' /\ length (s_btrail s) <= length (s_btrail s') /\ ok = bounds_consistent (vr s' (b_var b))).
    { destruct (upper_w a b s Hx) as (s' & ok & E & Bo & Hin & Hl & Hok). exists s', ok. split; auto. split; auto. split; [|auto].
      apply (bonly_shape s); auto. intros e He. apply Hin in He as [He| ->]; auto. apply (sh_bt _ Sh); auto. }
    assert (Lo : forall s1, shape s1 -> b_var b < nv s1 -> okub (fun r => bonly s1 r.1 /\ shape r.1 /\ length (s_btrail s1) <= length (s_btrail r.1) /\
      r.2 = bounds_consistent (vr r.1 (b_var b))) (update_lower a b (b_var b) s1)).
    { intros s1 Sh1 Hx1. eapply okub_weak; [|apply (lower_w a b s1 Hx1)]. intros [s' ok] (Bo & Hin & Hl & Hok). cbn in *. split; auto. split; [|auto].
      apply (bonly_shape s1); auto. intros e He. apply Hin in He as [(e' & He & ->)| ->]; auto. apply (sh_bt _ Sh1); auto. }
    destruct (b_rel b).
    - destruct Up as (s' & ok & -> & R). exact R.
    - apply Lo; auto.
    - destruct Up as (s' & ok & -> & Bo & Sh' & Hl & Hok). cbn [mbind res_bind]. destruct ok; [|cbn; auto].
      eapply okub_weak; [|apply (Lo s' Sh')].
      + intros [s2 ok2] (Bo2 & Sh2 & Hl2 & Hok2). cbn in *. split; [eapply bonly_trans; eauto|]. split; auto. split; [lia|auto].
      + destruct Bo as (St & _). rewrite (stat_nv _ _ St); auto.
  Qed.

  Lemma update_bound_w s0 ks (o : options) (a : asg) b s : W s0 ks s -> a_dl a = topl ks -> b_var b < nv s ->
    okub (fun r => W s0 ks r.1 /\ pstat r.1 = pstat s) (update_bound o a b s).
  Proof.
    intros HW Hdl Hx. pose proof HW as [[Sh Hr Hq] HR Hnv Hh]. unfold update_bound. apply okub_bind with (1 := var_w a b s Sh Hx).
    intros [s1 ok] (Bo & Sh1 & Hl & Hok). cbn [fst snd] in *. pose proof Bo as (A1 & A2 & A3 & A4 & A5 & A6 & A7 & A8 & A9 & A10).
    assert (Hx1 : b_var b < nv s1) by (rewrite (stat_nv _ _ A1); auto). rewrite at_vr by auto. cbn [mbind res_bind]. set (x := b_var b) in *.
    assert (Q1 : Qinv s1). { destruct Hq as [Qa Qb]. split; rewrite A4; auto. intros y. rewrite A8. auto. }
    assert (HW1 : W s0 ks s1) by (apply (W_quiet s0 ks s); auto). pose proof (stat_pstat _ _ A1) as P1.
    destruct ok; cbn [negb].
    2:{ symmetry in Hok. destruct (bounds_consistent_false _ _ Hok) as (l & u & El & Eu & _). unfold lo in El. unfold up in Eu. rewrite El, Eu. cbn. split; [|exact P1].
        apply (W_quiet s0 ks s1); auto; try (intros y; split; reflexivity).
        apply (shape_keep s1 (set_clause _ s1)); auto; [intros y; split; reflexivity|exact (sh_tab _ Sh1)|exact (sh_conf _ Sh1)|exact (sh_pq _ Sh1)|exact (sh_at _ Sh1)|exact (sh_bt _ Sh1)]. }
    pose proof HW1 as [[_ Hr1 _] HR1 Hnv1 Hh1].
    destruct (Nat.ltb_spec (v_rindex (vr s1 x)) (s_nn s1)) as [Hnb|Hnb].
    - assert (Bx : Bs s1 x = false) by (unfold Bs; apply Nat.leb_gt; auto).
      destruct (nonbasic_idx s1 x Sh1 Hx1 Bx) as [Hj Hidx].
      assert (Hupd : forall v, okub (fun r => W s0 ks r.1 /\ pstat r.1 = pstat s) (s2 ← update_ o (a_dl a) (v_rindex (vr s1 x)) v s1; Ok (s2, true))).
      { intros v. destruct (update_ok o (a_dl a) s1 (ridx s1 x) v Sh1 Hj) as (s2' & E2' & _ & _ & _ & _ & _ & _ & _ & HQ).
        destruct (update_step o (a_dl a) s1 (ridx s1 x) v Sh1 Hr1 Hj) as (s2 & E2 & Sh2 & Hr2 & Vr2 & Cl2 & Pm2 & Tb2 & Hval2 & _).
        rewrite E2 in E2'. injection E2' as <-. destruct (HQ Q1) as [Q2 _].
        change (v_rindex (vr s1 x)) with (ridx s1 x). rewrite E2. cbn. destruct (vreach_facts _ _ _ Vr2) as (Bt2 & St2 & Bn2). split.
        - apply (W_move s0 ks s1); auto; [rewrite <- Hdl; auto|constructor; auto|]. intros c. apply rows_same; auto.
        - rewrite <- P1. apply stat_pstat; auto. }
      destruct (viol_lower (vr s1 x)) eqn:Evl.
      { unfold viol_lower in Evl. destruct (v_lower (vr s1 x)) as [l|]; [|discriminate]. cbn [deref mbind res_bind]. apply Hupd. }
      destruct (viol_upper (vr s1 x)) eqn:Evu.
      { unfold viol_upper in Evu. destruct (v_upper (vr s1 x)) as [u|]; [|discriminate]. cbn [deref mbind res_bind]. apply Hupd. }
      cbn. auto.
    - assert (Bx : Bs s1 x = true) by (unfold Bs; apply Nat.leb_le; auto).
      destruct (basic_idx s1 x Sh1 Hx1 Bx) as [Hi Hidx]. change (v_rindex (vr s1 x)) with (ridx s1 x).
      destruct (enqueue_ok o (ridx s1 x - s_nn s1) s1 Sh1 Hi) as (s2 & -> & Q & C1 & C2 & C3 & C4 & C5). cbn.
      pose proof Q as (B1 & B2 & B3 & B4 & B5 & B6 & B7 & B8). split; [|rewrite <- P1; apply stat_pstat; auto].
      apply (W_quiet s0 ks s1); auto.
      + apply (qonly_shape s1); auto.
        * intros y Hy. apply C1 in Hy as [Hy|Hy]; auto. apply (sh_conf _ Sh1); auto.
        * intros k Hk. apply C2 in Hk as [Hk| ->]; auto. apply (sh_pq _ Sh1); auto.
      + apply C5; auto.
      + rewrite B4. auto.
  Qed.
  Lemma apply_bounds_w s0 ks (o : options) (a : asg) bs s : W s0 ks s -> a_dl a = topl ks -> (forall b, b ∈ bs -> b_var b < nv s) ->
    okub (fun r => W s0 ks r.1 /\ pstat r.1 = pstat s) (apply_bounds o a bs s).
  Proof.
    intros HW Hdl. revert s HW. induction bs as [|b bs IH]; intros s HW Hb; cbn [apply_bounds]; [cbn; auto|].
    eapply okub_bind; [apply update_bound_w; eauto; apply Hb, elem_of_cons; auto|]. intros [s1 ok] [HW1 P1]. cbn [fst snd] in *.
    destruct ok; [|cbn; auto]. eapply okub_weak; [|apply (IH s1 HW1)].
    - intros [s2 ok2] [HW2 P2]. cbn in *. split; auto. congruence.
    - intros c Hc. assert (E : nv s1 = nv s) by (unfold pstat in P1; congruence). rewrite E. apply Hb, elem_of_cons; auto.
  Qed.

  (** ** store_sat_assignment *)
  Lemma W_store s0 ks s : W s0 ks s -> exists s', store_sat s = Ok s' /\ W s0 ks s' /\ pstat s' = pstat s.
  Proof.
    intros [[Sh Hr [Qa Qb]] HR Hnv Hh].
    destruct (reset_levels_ok (s_atrail s) s) as (s1 & E & St & Tb & At & Bt & Cf & Pq & Cl & Pm & Bn & Va & Qd & Lv); [apply Sh|].
    unfold store_sat. rewrite E. cbn [mbind res_bind]. eexists. split; [reflexivity|].
    rewrite (stat_offs _ _ St), (proj2 (vhist_mono _ _ _ _ _ _ Hh)). set (s2 := set_atrail [] _).
    assert (Hlv : forall y, lvl s2 y = 0).
    { intros y. change (lvl s2 y) with (lvl s1 y). rewrite Lv. destruct (decide (y ∈ map (fun e : nat * nat * V => e.1.2) (s_atrail s))).
      - rewrite bool_decide_eq_true_2; auto.
      - rewrite bool_decide_eq_false_2; auto. apply (vhist_lvl0 _ _ _ _ _ _ Hh); auto. }
    assert (Va2 : forall y, val s2 y = val s y) by exact Va. assert (Pm2 : perm_same s s2) by exact Pm.
    assert (Tb2 : s_tab s2 = s_tab s) by exact Tb. assert (Nv2 : nv s2 = nv s) by exact (stat_nv _ _ St). assert (Nn2 : s_nn s2 = s_nn s) by exact (stat_nn _ _ St).
    assert (Nb2 : s_nb s2 = s_nb s) by exact (stat_nb _ _ St). assert (Bd2 : s_bounds s2 = s_bounds s) by exact (stat_bounds _ _ St).
    assert (Ob2 : s_obj s2 = s_obj s) by exact (stat_obj _ _ St).
    assert (HB2 : forall y, Bs s2 y = Bs s y) by (intros y; unfold Bs; rewrite Nn2; destruct (Pm2 y) as [_ ->]; auto).
    assert (HT2 : forall (b k : nat), Ts s2 b k = Ts s b k) by (intros b k; unfold Ts; rewrite Nn2, Tb2; destruct (Pm2 b) as [_ ->], (Pm2 k) as [_ ->]; auto).
    assert (Hrw : forall c, rows s2 c <-> rows s c).
    { intros c. unfold rows, rowval. rewrite Nv2. split; intros Hc b Hb HBb; (rewrite Hc; [|auto|rewrite ?HB2 in *; auto]); apply vsum_ext; intros k _; rewrite HB2, HT2; auto. }
    split; [|unfold pstat; rewrite Nn2, Nb2, Bd2, Ob2, Nv2; auto]. constructor.
    - constructor.
      + constructor; rewrite ?Nv2, ?Nb2, ?Nn2, ?Bd2, ?Tb2.
        * apply Sh.
        * apply Sh.
        * intros x Hx. destruct (Pm2 x) as [_ ->]. destruct (Pm2 (ridx s x)) as [-> _]. apply (sh_ri _ Sh); auto.
        * intros x Hx. destruct (Pm2 x) as [-> _]. destruct (Pm2 (idx s x)) as [_ ->]. apply (sh_ir _ Sh); auto.
        * apply Sh.
        * change (s_conf s2) with (s_conf s1). rewrite Cf. apply Sh.
        * change (s_pq s2) with (s_pq s1). rewrite Pq. apply Sh.
        * intros e He. inversion He.
        * change (s_btrail s2) with (s_btrail s1). rewrite Bt. apply Sh.
        * apply Sh.
        * intros x b. change (vr s2 x) with (vr s1 x). destruct (Bn x) as (_ & _ & ->). apply (sh_vb _ Sh).
      + apply Hrw. apply (rows_ext s (val s)); auto.
      + split; change (s_conf s2) with (s_conf s1); rewrite Cf; auto. intros y Hy. apply Qa. rewrite <- Qd. exact Hy.
    - intros c. rewrite Hrw. auto.
    - congruence.
    - change (s_offs s2) with (map roff (s_offs s)). change (s_btrail s2) with (s_btrail s1). rewrite Bt. change (s_atrail s2) with (@nil (nat * nat * V)).
      apply (vhist_eq _ _ _ (length (s_btrail s)) _ _ (reset_snap (val s) (obs s))); auto.
      + intros y. cbn. rewrite Hlv, Va2. auto.
      + apply (vhist_store s0 ks _ _ (s_atrail s) (obs s) (val s)); auto. apply HR; auto.
  Qed.

  (** ** solve *)
  Theorem solve_core_w s0 ks (o : options) (a : asg) lits fuel s : W s0 ks s -> topl ks <= a_dl a -> 8 ^ nv s <= fuel ->
    okub (fun r => W s0 (kenter (a_dl a) ks) r.1 /\ pstat r.1 = pstat s) (solve_core fuel o a lits s).
  Proof.
    intros HW Ht Hf. pose proof (W_push s0 ks s a HW Ht) as HW1. pose proof (kenter_top (a_dl a) ks Ht) as Hdl.
    assert (P1 : pstat (push_offset a s) = pstat s) by (unfold push_offset; destruct (match last (s_offs s) with None => true | Some f => o_level f <? a_dl a end); auto).
    unfold solve_core. set (s1 := push_offset a s) in *. set (ks1 := kenter (a_dl a) ks) in *.
    eapply okub_bind; [apply (apply_bounds_w s0 ks1 o a _ s1 HW1); auto|].
    { intros b Hb. apply concat_find_elem in Hb as [Hb _]. apply (sh_bv _ (k_shape _ (wk_K _ _ _ HW1))); auto. }
    intros [s2 ok] [HW2 P2]. cbn [fst snd] in *. destruct ok; cbn [negb]; [|cbn; split; auto; congruence].
    assert (E2 : nv s2 = nv s) by (unfold pstat in P1, P2; congruence).
    destruct (wsimplex_ok fuel o (a_dl a) s2 (wk_K _ _ _ HW2)) as (s3 & r3 & -> & [HK3 Vr3 HR3]); [rewrite E2; auto|]. cbn [mbind res_bind].
    destruct (vreach_facts _ _ _ Vr3) as (_ & St3 & _). pose proof (stat_pstat _ _ St3) as P3.
    assert (HW3 : W s0 ks1 s3) by (apply (W_move s0 ks1 s2); auto; rewrite Hdl; auto).
    destruct r3; [|cbn; split; auto; congruence]. destruct (o_store o); try (cbn; split; auto; congruence).
    destruct (W_store s0 ks1 s3 HW3) as (s4 & -> & HW4 & P4). cbn. split; auto. congruence.
  Qed.

  (** ** propagate_ *)
  Lemma row_mfold_ok {St} s i (f : nat -> Z -> Z -> St -> res St) (st : St) : shape s ->
    (forall j a d st, j < s_nn s -> exists st', f j a d st = Ok st') -> exists st', update_row (s_tab s) i f st = Ok st'.
  Proof.
    intros Sh Hf. rewrite update_row_mfold. destruct (mfold_inv f (row_entries (s_tab s) i) st (fun _ _ => True)) as (st' & E & _); auto.
    - intros don j a d rest st0 El _. assert (Hin : (j, a, d) ∈ row_entries (s_tab s) i) by (rewrite El; apply elem_of_app; right; apply elem_of_cons; auto).
      destruct (row_entries_facts _ _ _ _ _ Sh Hin) as (_ & Hj & _). destruct (Hf j a d st0 Hj) as (st' & E). eauto.
    - eauto.
  Qed.
  Lemma prop_row_w h s i log : shape s -> i < s_nb s ->
    exists s' log' ok, prop_row h i s log = Ok (s', log', ok) /\ ponly s s' /\ s_pq s' = s_pq s.
  Proof.
    intros Sh Hi. unfold prop_row. pose proof (sh_len _ Sh) as Hlen. assert (Hiv : i < nv s) by lia.
    rewrite at_vr by auto. cbn [mbind res_bind]. set (s1 := upd_var i (vset_prop false) s).
    assert (V1 : forall y, vr s1 y = if y =? i then vset_prop false (vr s i) else vr s y) by (intros y; unfold s1; rewrite vr_upd by exact Hiv; reflexivity).
    assert (P1 : ponly s s1).
    { split; [unfold s1; rewrite stat_upd; reflexivity|]. repeat (split; [reflexivity|]).
      split; [intros y; unfold idx, ridx; rewrite V1; destruct (Nat.eqb_spec y i); subst; auto|].
      split; [intros y; unfold lo, up; rewrite V1; destruct (Nat.eqb_spec y i); subst; auto|].
      split; [intros y; unfold val, lvl; rewrite V1; destruct (Nat.eqb_spec y i); subst; auto|].
      intros y; unfold qd; rewrite V1; destruct (Nat.eqb_spec y i); subst; auto. }
    assert (Sh1 : shape s1) by (eapply ponly_shape; eauto). assert (Hi1 : i < s_nb s1) by auto.
    destruct (pass1 s1 i Sh1) as (fl & fu & -> & _). cbn [mbind res_bind].
    destruct (negb fu && negb fl); [exists s1, log, true; auto|].
    destruct (row_mfold_ok s1 i (prop_cell2 s1) ((if fl then Some vzero else None, []), (if fu then Some vzero else None, [])) Sh1) as ([l u] & ->).
    { intros j a d st Hj. destruct (idx_nonbasic s1 j Sh1 Hj) as (Hx & _ & _). pose proof (sh_len _ Sh1). rewrite prop_cell2_eq by lia. eauto. }
    cbn [mbind res_bind]. destruct (idx_basic s1 i Sh1 Hi1) as (Hx & Bx & _).
    assert (Hr : i + s_nn s1 < nv s1). { pose proof (sh_len _ Sh1). lia. }
    unfold basic_. rewrite at_vr by auto. cbn [mbind res_bind]. change (v_index (vr s1 (i + s_nn s1))) with (idx s1 (i + s_nn s1)).
    rewrite at_vr by auto. cbn [mbind res_bind]. set (bs := v_bounds (vr s1 (idx s1 (i + s_nn s1)))) in *.
    assert (Hupper : exists s2 log2 ok2, match u.1 with Some uv => prop_bounds h (fun b => match b_rel b with BLe => false | _ => vgtb (b_val b) uv end) u.2 bs s1 log | None => (s1, log, true) end = (s2, log2, ok2)
        /\ ponly s1 s2 /\ s_pq s2 = s_pq s1).
    { destruct u.1 as [uv|].
      - edestruct prop_bounds_ok as (s' & log' & ok & E & R & Q & _). rewrite E. exists s', log', ok. auto.
      - exists s1, log, true. split; auto. split; [apply ponly_refl|]. auto. }
    destruct Hupper as (s2 & log2 & ok2 & -> & P2 & Q2). destruct ok2; cbn [negb].
    2:{ exists s2, log2, false. split; auto. split; [eapply ponly_trans; eauto|]. auto. }
    destruct l.1 as [lv|].
    - edestruct prop_bounds_ok as (s' & log' & ok & E & R & Q & _). rewrite E. exists s', log', ok. split; auto.
      split; [eapply ponly_trans; [eauto|eapply ponly_trans; eauto]|]. rewrite Q, Q2. reflexivity.
    - exists s2, log2, true. split; auto. split; [eapply ponly_trans; eauto|]. auto.
  Qed.
  Lemma prop_rows_w h (changed : bool) is s log : shape s -> (forall i, i ∈ is -> i < s_nb s) -> (changed = true -> s_pq s = is) ->
    exists s' log' ok, prop_rows h changed is s log = Ok (s', log', ok) /\ ponly s s' /\ (forall k, k ∈ s_pq s' -> k ∈ s_pq s).
  Proof.
    revert s log. induction is as [|i is IH]; intros s log Sh Hi Hq; cbn [prop_rows].
    - exists s, log, true. split; auto. split; [apply ponly_refl|]. auto.
    - set (s1 := if changed then set_pq is s else s).
      assert (P1 : ponly s s1) by (unfold s1; destruct changed; repeat split).
      assert (Q1 : forall k, k ∈ s_pq s1 -> k ∈ s_pq s). { unfold s1. destruct changed; auto. cbn. rewrite Hq by auto. intros k Hk. apply elem_of_cons; auto. }
      assert (Sh1 : shape s1) by (eapply ponly_shape; eauto). pose proof P1 as (A1 & _).
      destruct (prop_row_w h s1 i log Sh1) as (s2 & log2 & ok & -> & P2 & Q2).
      { rewrite (stat_nb _ _ A1). apply Hi, elem_of_cons; auto. }
      cbn [mbind res_bind]. assert (P12 : ponly s s2) by (eapply ponly_trans; eauto).
      assert (Q12 : forall k, k ∈ s_pq s2 -> k ∈ s_pq s) by (intros k; rewrite Q2; auto).
      destruct ok; [|exists s2, log2, false; auto]. pose proof P12 as (B1 & _).
      destruct (IH s2 log2) as (s3 & log3 & ok & -> & P3 & Q3).
      + exact (ponly_shape _ _ Sh P12 Q12).
      + intros k Hk. rewrite (stat_nb _ _ B1). apply Hi, elem_of_cons; auto.
      + intros ->. rewrite Q2. reflexivity.
      + exists s3, log3, ok. split; auto. split; [eapply ponly_trans; eauto|]. auto.
  Qed.
  Lemma ponly_W s0 ks s s' : ponly s s' -> (forall k, k ∈ s_pq s' -> k ∈ s_pq s) -> W s0 ks s -> W s0 ks s'.
  Proof.
    intros P Q HW. pose proof (ponly_shape _ _ (k_shape _ (wk_K _ _ _ HW)) P Q) as Sh'. pose proof HW as [[Sh Hr [Qa Qb]] HR Hnv Hh].
    destruct P as (A1 & A2 & A3 & A4 & A5 & A6 & A7 & A8 & A9 & A10). apply (W_quiet s0 ks s); auto; [|rewrite A4; auto].
    split; rewrite A6; auto. intros y. rewrite A10. auto.
  Qed.
  Lemma propagate_w s0 ks h (o : options) s log : W s0 ks s ->
    exists s' log' ok, propagate_ h o s log = Ok (s', log', ok) /\ W s0 ks s' /\ pstat s' = pstat s.
  Proof.
    intros HW. pose proof (k_shape _ (wk_K _ _ _ HW)) as Sh. unfold propagate_. destruct (o_pmode o).
    - exists s, log, true. auto.
    - destruct (prop_rows_w h true (s_pq s) s log) as (s' & log' & ok & E & P & Q); auto; [apply Sh|].
      exists s', log', ok. split; auto. split; [eapply ponly_W; eauto|]. apply stat_pstat, P.
    - destruct (prop_rows_w h false (seq 0 (s_nb s)) s log) as (s' & log' & ok & E & P & Q); auto; try discriminate.
      { intros i Hi. apply elem_of_seq in Hi. lia. }
      exists s', log', ok. split; auto. split; [eapply ponly_W; eauto|]. apply stat_pstat, P.
  Qed.

  Theorem solve_w s0 ks h (o : options) (a : asg) lits fuel s log : W s0 ks s -> topl ks <= a_dl a -> 8 ^ nv s <= fuel ->
    okub (fun r => W s0 (kenter (a_dl a) ks) r.1.1 /\ pstat r.1.1 = pstat s) (solve fuel h o a lits s log).
  Proof.
    intros HW Ht Hf. unfold solve. eapply okub_bind; [apply (solve_core_w s0 ks o a lits fuel s); auto|].
    intros [s1 ok] [HW1 P1]. cbn [fst snd] in *. destruct ok; [|cbn; auto].
    destruct (propagate_w _ _ h o s1 log HW1) as (s2 & log2 & ok2 & -> & HW2 & P2). cbn. split; auto. congruence.
  Qed.

  (** ** undo *)
  Lemma undo_bounds_w t s : (forall e, e ∈ t -> e.1.1 < nv s) -> exists s', undo_bounds t s = Ok s' /\ bonly s s' /\ s_btrail s' = s_btrail s.
  Proof.
    revert s. induction t as [|[[x r] ob] t IH]; intros s Ht; cbn [undo_bounds].
    - exists s. split; auto. split; [apply bonly_refl|]. auto.
    - assert (Hx : x < nv s) by (apply (Ht (x, r, ob)), elem_of_cons; auto).
      rewrite at_vr by auto. cbn [mbind res_bind].
      set (f := match r with BLe => vset_upper ob | BGe => vset_lower ob | BEq => fun v => vset_lower ob (vset_upper ob v) end). set (s1 := upd_var x f s).
      assert (Hv : forall y, vr s1 y = if y =? x then f (vr s x) else vr s y) by (intros y; unfold s1; rewrite vr_upd by auto; auto).
      assert (Hst : stat s1 = stat s) by apply stat_upd.
      assert (Bo1 : bonly s s1).
      { split; auto. repeat (split; [reflexivity|]). split; [|split; [|split; [|split; [|reflexivity]]]]; intros y; unfold idx, ridx, val, lvl, qd; rewrite Hv;
          destruct (Nat.eqb_spec y x) as [->|]; auto; unfold f; destruct r; auto. }
      destruct (IH s1) as (s2 & E & Bo2 & Bt2).
      { intros e He. rewrite (stat_nv _ _ Hst). apply Ht, elem_of_cons; auto. }
      exists s2. split; auto. split; [eapply bonly_trans; eauto|]. rewrite Bt2; reflexivity.
  Qed.

  Theorem undo_w s0 L ks s : W s0 (L :: ks) s -> 0 < L -> exists s', undo s = Ok s' /\ W s0 ks s' /\ pstat s' = pstat s.
  Proof.
    intros [[Sh Hr [Qa Qb]] HR Hnv Hh] HL. remember (s_offs s) as offs' eqn:Eo. remember (s_atrail s) as at' eqn:Ea. remember (L :: ks) as ks' eqn:Ek.
    remember (length (s_btrail s)) as nb' eqn:En. remember (obs s) as c eqn:Ec.
    destruct Hh as [nb c H1|ob nb c H1|L0 ks0 offs nb0 nb at_ pre vs c H1 H2 H3 H4 H5]; [discriminate|injection Ek as <- <-; lia|injection Ek as -> ->]. subst nb c.
    unfold undo. rewrite <- Eo, last_snoc. cbn [deref mbind res_bind o_bound o_asg].
    rewrite (proj2 (Nat.leb_le _ _) H5). cbn [guard_ub mbind res_bind].
    destruct (undo_bounds_w (drop nb0 (s_btrail s)) s) as (s1 & -> & Bo & Bt1).
    { intros e He. apply (sh_bt _ Sh). rewrite <- (take_drop nb0 (s_btrail s)). apply elem_of_app; auto. }
    cbn [mbind res_bind]. pose proof Bo as (A1 & A2 & A3 & A4 & A5 & A6 & A7 & A8 & A9 & A10).
    set (s2 := set_btrail (take nb0 (s_btrail s1)) s1).
    assert (Eat2 : s_atrail s2 = at_ ++ vs) by (change (s_atrail s2) with (s_atrail s1); rewrite A3; auto).
    rewrite Eat2, (proj2 (Nat.leb_le _ _)) by (rewrite app_length; lia). cbn [guard_ub mbind res_bind]. rewrite drop_app.
    destruct (undo_values_ok vs s2) as (s3 & -> & St3 & Tb3 & At3 & Bt3 & Cf3 & Pq3 & Cl3 & Pm3 & Bn3 & Qd3 & Vin & Vout).
    { intros e He. change (nv s2) with (nv s1). rewrite (stat_nv _ _ A1). apply (sh_at _ Sh). rewrite <- Ea. apply elem_of_app; auto. }
    { apply H4. }
    cbn [mbind res_bind]. rewrite At3, Eat2, take_app. set (s4 := set_atrail at_ s3).
    destruct (clear_queue_ok (s_conf s4) s4) as (s5 & -> & St5 & Tb5 & At5 & Bt5 & Cf5 & Pq5 & Cl5 & Pm5 & Bn5 & Vs5 & Qd5).
    { intros x Hx. change (s_conf s4) with (s_conf s3) in Hx. rewrite Cf3 in Hx. change (s_conf s2) with (s_conf s1) in Hx. rewrite A4 in Hx.
      change (nv s4) with (nv s3). rewrite (stat_nv _ _ St3). change (nv s2) with (nv s1). rewrite (stat_nv _ _ A1). apply (sh_conf _ Sh); auto. }
    cbn [mbind res_bind]. eexists. split; [reflexivity|].
    assert (Stt : stat s5 = stat s). { rewrite St5. change (stat s4) with (stat s3). rewrite St3. exact A1. }
    assert (Eo5 : take (length (s_offs s5) - 1) (s_offs s5) = offs).
    { rewrite (stat_offs _ _ Stt), <- Eo, app_length. cbn. rewrite Nat.add_sub. apply take_app. }
    rewrite Eo5. set (s6 := set_offs offs s5).
    assert (Pm : perm_same s s6). { eapply perm_same_trans; [exact A6|]. eapply perm_same_trans; [exact Pm3|]. exact Pm5. }
    assert (Tb : s_tab s6 = s_tab s). { change (s_tab s6) with (s_tab s5). rewrite Tb5. change (s_tab s4) with (s_tab s3). rewrite Tb3. exact A2. }
    assert (Nv : nv s6 = nv s) by exact (stat_nv _ _ Stt). assert (Nn : s_nn s6 = s_nn s) by exact (stat_nn _ _ Stt).
    assert (Nb : s_nb s6 = s_nb s) by exact (stat_nb _ _ Stt). assert (Bd : s_bounds s6 = s_bounds s) by exact (stat_bounds _ _ Stt).
    assert (Ob : s_obj s6 = s_obj s) by exact (stat_obj _ _ Stt).
    assert (Ebt6 : s_btrail s6 = take nb0 (s_btrail s)).
    { change (s_btrail s6) with (s_btrail s5). rewrite Bt5. change (s_btrail s4) with (s_btrail s3). rewrite Bt3. change (s_btrail s2) with (take nb0 (s_btrail s1)). rewrite Bt1. auto. }
    assert (Hoa : asg_eq pre (obs s6)).
    { intros x. change (obs s6) with (obs s5). cbn. destruct (Vs5 x) as [-> ->]. change (lvl s4 x) with (lvl s3 x). change (val s4 x) with (val s3 x).
      destruct (decide (x ∈ map (fun e : nat * nat * V => e.1.2) vs)) as [Hin|Hin].
      - apply elem_of_list_In, in_map_iff in Hin as ([[k x'] w] & E & Hin). cbn in E. subst x'. apply elem_of_list_In in Hin.
        destruct (Vin _ _ _ Hin) as [-> ->]. destruct (vg_in _ _ _ _ H4 _ _ _ Hin) as (? & ? & _). auto.
      - destruct (Vout x Hin) as [-> ->]. destruct (vg_out _ _ _ _ H4 x Hin) as [E7 E8]. cbn in E7, E8.
        change (lvl s2 x) with (lvl s1 x). change (val s2 x) with (val s1 x). destruct (A7 x) as [-> ->]. auto. }
    assert (HB : forall y, Bs s6 y = Bs s y) by (intros y; unfold Bs; rewrite Nn; destruct (Pm y) as [_ ->]; auto).
    assert (HT : forall (b k : nat), Ts s6 b k = Ts s b k) by (intros b k; unfold Ts; rewrite Nn, Tb; destruct (Pm b) as [_ ->], (Pm k) as [_ ->]; auto).
    assert (Hrw : forall c, rows s6 c <-> rows s c).
    { intros c. unfold rows, rowval. rewrite Nv. split; intros Hc b Hb HBb; (rewrite Hc; [|auto|rewrite ?HB in *; auto]); apply vsum_ext; intros k _; rewrite HB, HT; auto. }
    split; [|unfold pstat; rewrite Nn, Nb, Bd, Ob, Nv; auto]. constructor.
    - constructor.
      + constructor; rewrite ?Nv, ?Nb, ?Nn, ?Bd, ?Tb.
        * apply Sh.
        * apply Sh.
        * intros x Hx. destruct (Pm x) as [_ ->]. destruct (Pm (ridx s x)) as [-> _]. apply (sh_ri _ Sh); auto.
        * intros x Hx. destruct (Pm x) as [-> _]. destruct (Pm (idx s x)) as [_ ->]. apply (sh_ir _ Sh); auto.
        * apply Sh.
        * change (s_conf s6) with (s_conf s5). rewrite Cf5. intros x Hx. inversion Hx.
        * change (s_pq s6) with (s_pq s5). rewrite Pq5. change (s_pq s4) with (s_pq s3). rewrite Pq3. change (s_pq s2) with (s_pq s1). rewrite A5. apply Sh.
        * change (s_atrail s6) with (s_atrail s5). rewrite At5. intros e He. apply (sh_at _ Sh). rewrite <- Ea. apply elem_of_app; auto.
        * rewrite Ebt6. intros e He. apply (sh_bt _ Sh). rewrite <- (take_drop nb0 (s_btrail s)). apply elem_of_app; auto.
        * apply Sh.
        * intros x b. change (vr s6 x) with (vr s5 x). destruct (Bn5 x) as (_ & _ & ->). change (vr s4 x) with (vr s3 x). destruct (Bn3 x) as (_ & _ & ->).
          change (vr s2 x) with (vr s1 x). rewrite A9. apply (sh_vb _ Sh).
      + apply Hrw, HR. apply (rows_ext s0 (n_val pre)); auto. intros x _. apply Hoa.
      + split; change (s_conf s6) with (s_conf s5); rewrite Cf5; [|constructor]. intros y Hy. exfalso.
        change (qd s6 y) with (qd s5 y) in Hy. rewrite Qd5 in Hy. destruct (decide (y ∈ s_conf s4)) as [Hin|Hin].
        * rewrite bool_decide_eq_true_2 in Hy; auto. discriminate.
        * rewrite bool_decide_eq_false_2 in Hy; auto. apply Hin. change (s_conf s4) with (s_conf s3). rewrite Cf3. change (s_conf s2) with (s_conf s1). rewrite A4.
          apply Qa. rewrite <- A8. change (qd s4 y) with (qd s3 y) in Hy. rewrite Qd3 in Hy. exact Hy.
    - intros c. rewrite Hrw. auto.
    - congruence.
    - change (s_offs s6) with offs. rewrite Ebt6, take_length, Nat.min_l by auto. change (s_atrail s6) with (s_atrail s5). rewrite At5.
      apply (vhist_eq _ _ _ nb0 _ _ pre); auto.
  Qed.
End weakhist.
