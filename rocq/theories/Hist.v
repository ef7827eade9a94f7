(** * The history invariant: what the trails remember *)

From stdpp Require Import list_numbers.
From Verif Require Import Num Sums Tableau TableauProofs Bland Solver SolverBase SolverStep Simplex SimplexLoop.

(** A decision level as the host sees it: its number, the literals delivered
    at it and (ghost) the solver before the first of them was delivered. *)
Record frame (V : Type) := Frame { f_level : nat; f_lits : list Z; f_pre : solver V }.
Global Arguments Frame {V}.
Global Arguments f_level {V}.
Global Arguments f_lits {V}.
Global Arguments f_pre {V}.

Definition active {V} (fs : list (frame V)) : list Z := concat (map f_lits fs).
Definition top {V} (fs : list (frame V)) : nat := match fs with [] => 0 | f :: _ => f_level f end.

Section hist.
  Context {V : Type} `{VL : ValueLaws V}.
  Implicit Types s : solver V.
  Implicit Types x y : nat.
  Implicit Types b l u : bound V.
  Implicit Types fs : list (frame V).

  (** bounds, levels and values of all variables *)
  Record snap := Snap { n_lo : nat -> option (bound V); n_up : nat -> option (bound V); n_lvl : nat -> nat; n_val : nat -> V }.
  Implicit Types c d pre : snap.
  Definition obs s : snap := Snap (lo s) (up s) (lvl s) (val s).
  Definition n_side c (m : bool) : nat -> option (bound V) := if m then n_lo c else n_up c.
  Definition bnd_eq c d : Prop := forall m x, n_side c m x = n_side d m x.
  Definition asg_eq c d : Prop := forall x, n_lvl c x = n_lvl d x /\ n_val c x = n_val d x.

  Lemma bnd_eq_refl c : bnd_eq c c. Proof. intros m x; auto. Qed.
  Lemma asg_eq_refl c : asg_eq c c. Proof. intros x; auto. Qed.
  Lemma be_lo c d x : bnd_eq c d -> n_lo d x = n_lo c x. Proof. intros Hb. symmetry. exact (Hb true x). Qed.
  Lemma be_up c d x : bnd_eq c d -> n_up d x = n_up c x. Proof. intros Hb. symmetry. exact (Hb false x). Qed.
  Lemma obs_bnd s s' : bnd_same s s' -> bnd_eq (obs s) (obs s').
  Proof. intros Hb [] x; destruct (Hb x) as (A & B & _); cbn; auto. Qed.
  Lemma obs_asg s s' : val_same s s' -> asg_eq (obs s) (obs s').
  Proof. intros Hb x; destruct (Hb x) as (A & B); cbn; auto. Qed.

  (** tighter bounds *)
  Definition tighter pre c : Prop :=
    (forall x l, n_lo pre x = Some l -> exists l', n_lo c x = Some l' /\ vle (b_val l) (b_val l')) /\
    (forall x u, n_up pre x = Some u -> exists u', n_up c x = Some u' /\ vle (b_val u') (b_val u)).
  Lemma tighter_refl c : tighter c c.
  Proof. split; intros x l E; exists l; split; auto using vle_refl. Qed.
  Lemma tighter_trans c d e : tighter c d -> tighter d e -> tighter c e.
  Proof.
    intros [A1 A2] [B1 B2]. split; intros x l E.
    - destruct (A1 _ _ E) as (l' & E' & L'). destruct (B1 _ _ E') as (l2 & E2 & L2). exists l2. split; auto. eapply vle_trans; eauto.
    - destruct (A2 _ _ E) as (l' & E' & L'). destruct (B2 _ _ E') as (l2 & E2 & L2). exists l2. split; auto. eapply vle_trans; eauto.
  Qed.
  Lemma tighter_eq c d : bnd_eq c d -> tighter c d.
  Proof.
    intros Hb. split; intros x l E; exists l; split; auto using vle_refl.
    - rewrite (be_lo c d); auto.
    - rewrite (be_up c d); auto.
  Qed.

  (** pointers lead to bounds of active literals *)
  Definition psnd (Bd : list (bound V)) (act : list Z) c : Prop := forall m x b, n_side c m x = Some b ->
    b ∈ Bd /\ b_var b = x /\ b_rel b <> (if m then BLe else BGe) /\ b_lit b ∈ act.
  (** a bound is implied by the pointers *)
  Definition bimpl c b : Prop :=
    (b_rel b <> BGe -> exists u, n_up c (b_var b) = Some u /\ vle (b_val u) (b_val b)) /\
    (b_rel b <> BLe -> exists l, n_lo c (b_var b) = Some l /\ vle (b_val b) (b_val l)).
  Definition compl (Bd : list (bound V)) (act : list Z) c : Prop := forall b, b ∈ Bd -> b_lit b ∈ act -> bimpl c b.
  (** the pointers are implied by themselves: an equality used on one side is
      not weaker on the other *)
  Definition eqp c : Prop := forall m x b, n_side c m x = Some b -> bimpl c b.
  Definition cfeas (n : nat) c : Prop := forall x, x < n ->
    (forall l, n_lo c x = Some l -> vle (b_val l) (n_val c x)) /\ (forall u, n_up c x = Some u -> vle (n_val c x) (b_val u)).

  Lemma psnd_mono Bd Bd' act act' c : Bd ⊆ Bd' -> act ⊆ act' -> psnd Bd act c -> psnd Bd' act' c.
  Proof. intros H1 H2 Hp m x b E. destruct (Hp m x b E) as (? & ? & ? & ?). auto. Qed.
  Lemma psnd_eq Bd act c d : bnd_eq c d -> psnd Bd act c -> psnd Bd act d.
  Proof. intros Hb Hp m x b. rewrite <- Hb. apply Hp. Qed.
  Lemma bimpl_tight c d b : tighter c d -> bimpl c b -> bimpl d b.
  Proof.
    intros [T1 T2] [A B]. split; intros Hr.
    - destruct (A Hr) as (u & E & L). destruct (T2 _ _ E) as (u' & E' & L'). exists u'. split; auto. eapply vle_trans; eauto.
    - destruct (B Hr) as (u & E & L). destruct (T1 _ _ E) as (u' & E' & L'). exists u'. split; auto. eapply vle_trans; eauto.
  Qed.
  Lemma bimpl_eq c d b : bnd_eq c d -> bimpl c b -> bimpl d b.
  Proof. intros Hb. apply bimpl_tight, tighter_eq; auto. Qed.
  Lemma eqp_eq c d : bnd_eq c d -> eqp c -> eqp d.
  Proof. intros Hb He m x b. rewrite <- Hb. intros E. eapply bimpl_eq; eauto. Qed.
  Lemma cfeas_eq n c d : bnd_eq c d -> asg_eq c d -> cfeas n c -> cfeas n d.
  Proof.
    intros Hb Ha Hf x Hx. destruct (Hf x Hx) as [A B]. destruct (Ha x) as [_ <-].
    rewrite (be_lo c d), (be_up c d) by auto. auto.
  Qed.
  Lemma cfeas_tight n c d : tighter c d -> (forall x, x < n -> n_val c x = n_val d x) -> cfeas n d -> cfeas n c.
  Proof.
    intros [T1 T2] Hv Hf x Hx. rewrite Hv by auto. destruct (Hf x Hx) as [A B]. split; intros l E.
    - destruct (T1 _ _ E) as (l' & E' & L). eapply vle_trans; eauto.
    - destruct (T2 _ _ E) as (l' & E' & L). eapply vle_trans; eauto.
  Qed.
  Lemma feasible_cfeas s : feasible s <-> cfeas (nv s) (obs s).
  Proof.
    split.
    - intros Hf x Hx. destruct (Hf x Hx) as [A B]. unfold lov, upv in A, B. cbn. split; intros l E; rewrite E in *; cbn in *; eauto.
    - intros Hf x Hx. destruct (Hf x Hx) as [A B]. cbn in A, B. split; intros w; unfold lov, upv; intros E; apply fmap_Some in E as (b & E & ->); auto.
  Qed.
  Lemma cfeas_bcons n c : cfeas n c -> forall x l u, x < n -> n_lo c x = Some l -> n_up c x = Some u -> vle (b_val l) (b_val u).
  Proof. intros Hf x l u Hx El Eu. destruct (Hf x Hx) as [A B]. eapply vle_trans; eauto. Qed.

  (** a satisfying state of the solver for the given literals *)
  Record good (s0 : solver V) (Bd : list (bound V)) (act : list Z) c : Prop := {
    g_rows : rows s0 (n_val c);
    g_feas : cfeas (nv s0) c;
    g_ps : psnd Bd act c;
    g_cp : compl Bd act c;
    g_eq : eqp c;
  }.
  Lemma good_eq s0 Bd act c d : bnd_eq c d -> asg_eq c d -> good s0 Bd act c -> good s0 Bd act d.
  Proof.
    intros Hb Ha [A B C D E]. constructor.
    - apply (rows_ext s0 (n_val c)); auto. intros x _. apply Ha.
    - eapply cfeas_eq; eauto.
    - eapply psnd_eq; eauto.
    - intros b Hb1 Hb2. eapply bimpl_eq; eauto.
    - eapply eqp_eq; eauto.
  Qed.

  (** ** Segments *)
  Definition sides (e : nat * brel * option (bound V)) : list (nat * bool * option (bound V)) :=
    match e with
    | (x, BLe, b) => [(x, false, b)]
    | (x, BGe, b) => [(x, true, b)]
    | (x, BEq, b) => [(x, false, b); (x, true, b)]
    end.
  Definition sidesl (l : list (nat * brel * option (bound V))) := concat (map sides l).

  Record bseg (lits : list Z) (seg : list (nat * brel * option (bound V))) pre c : Prop := {
    bg_nd : NoDup (map fst (sidesl seg));
    bg_in : forall x m ob, (x, m, ob) ∈ sidesl seg -> n_side pre m x = ob /\ exists u, n_side c m x = Some u /\ b_lit u ∈ lits;
    bg_out : forall x m, (x, m) ∉ map fst (sidesl seg) -> n_side c m x = n_side pre m x;
    bg_t : tighter pre c;
  }.
  Record vseg (L : nat) (seg : list (nat * nat * V)) pre c : Prop := {
    vg_nd : NoDup (map (fun e => e.1.2) seg);
    vg_in : forall k x v, (k, x, v) ∈ seg -> n_lvl pre x = k /\ n_val pre x = v /\ n_lvl c x = L;
    vg_out : forall x, x ∉ map (fun e : nat * nat * V => e.1.2) seg -> n_lvl c x = n_lvl pre x /\ n_val c x = n_val pre x;
    vg_lt : forall x, n_lvl pre x < L;
  }.

  Inductive hist (keep : bool) (s0 : solver V) (Bd : list (bound V)) :
      list (frame V) -> list toff -> list (nat * brel * option (bound V)) -> list (nat * nat * V) -> snap -> Prop :=
  | hist_nil c : (forall x, n_lvl c x = 0) -> hist keep s0 Bd [] [] [] [] c
  | hist_zero lits p bt ob oa c : (forall x, n_lvl c x = 0) -> oa = 0 -> (bt = [] -> forall m x, n_side c m x = None) ->
      hist keep s0 Bd [Frame 0 lits p] [TOff 0 ob oa] bt [] c
  | hist_S L lits p fs offs bt at_ pre bs vs c :
      hist keep s0 Bd fs offs bt at_ pre -> top fs < L ->
      good s0 Bd (active fs) pre ->
      (forall x, n_lo pre x = lo p x /\ n_up pre x = up p x /\ (keep = true -> n_val pre x = val p x)) ->
      bseg lits bs pre c -> vseg L vs pre c ->
      hist keep s0 Bd (Frame L lits p :: fs) (offs ++ [TOff L (length bt) (length at_)]) (bt ++ bs) (at_ ++ vs) c.

  Lemma hist_eq keep s0 Bd fs offs bt at_ c d : bnd_eq c d -> asg_eq c d -> hist keep s0 Bd fs offs bt at_ c -> hist keep s0 Bd fs offs bt at_ d.
  Proof.
    intros Hb Ha Hh. destruct Hh as [c H1|lits p bt ob oa c H1 H2 H2b|L lits p fs offs bt at_ pre bs vs c H1 H2 H3 H4 H5 H6].
    - constructor. intros x. destruct (Ha x) as [<- _]; auto.
    - constructor; auto; [intros x; destruct (Ha x) as [<- _]; auto|]. intros Ebt m x. rewrite <- Hb. auto.
    - econstructor; eauto.
      + destruct H5 as [A B C D]. constructor; auto.
        * intros x m ob Hin. destruct (B x m ob Hin) as (? & u & Hu & ?). split; auto. exists u. rewrite <- Hb. auto.
        * intros x m Hin. rewrite <- Hb. auto.
        * eapply tighter_trans; eauto. apply tighter_eq; auto.
      + destruct H6 as [A B C D]. constructor; auto.
        * intros k x v Hin. destruct (B k x v Hin) as (? & ? & ?). destruct (Ha x) as [<- _]. auto.
        * intros x Hin. destruct (C x Hin). destruct (Ha x) as [<- <-]. auto.
  Qed.

  Lemma hist_lits keep s0 Bd L lits lits' p fs offs bt at_ c : lits ⊆ lits' ->
    hist keep s0 Bd (Frame L lits p :: fs) offs bt at_ c -> hist keep s0 Bd (Frame L lits' p :: fs) offs bt at_ c.
  Proof.
    intros Hsub Hh. remember (Frame L lits p :: fs) as fs' eqn:Ef.
    destruct Hh as [c H1|lits0 p0 bt ob oa c H1 H2 H2b|L0 lits0 p0 fs0 offs bt at_ pre bs vs c H1 H2 H3 H4 H5 H6]; [discriminate| |]; injection Ef; intros; subst.
    - constructor; auto.
    - econstructor; eauto. destruct H5 as [A B C D]. constructor; auto.
      intros x m ob Hin. destruct (B x m ob Hin) as (? & u & Hu & ?). split; auto. exists u. auto.
  Qed.

  Lemma hist_bounds keep s0 Bd Bd' fs offs bt at_ c : Bd ⊆ Bd' -> (forall b, b ∈ Bd' -> b_lit b ∈ active fs -> b ∈ Bd) ->
    hist keep s0 Bd fs offs bt at_ c -> hist keep s0 Bd' fs offs bt at_ c.
  Proof.
    intros Hsub Hnew Hh. induction Hh as [c H1|lits p bt ob oa c H1 H2 H2b|L lits p fs offs bt at_ pre bs vs c H1 IH H2 H3 H4 H5 H6].
    - constructor; auto.
    - constructor; auto.
    - assert (Hn : forall b, b ∈ Bd' -> b_lit b ∈ active fs -> b ∈ Bd).
      { intros b Hb Ha. apply Hnew; auto. unfold active in *. cbn. apply elem_of_app; auto. }
      econstructor; eauto. destruct H3 as [A B C D E]. constructor; auto.
      + eapply psnd_mono; eauto.
      + intros b Hb Ha. apply D; auto.
  Qed.

  Lemma hist_lvl keep s0 Bd fs offs bt at_ c : hist keep s0 Bd fs offs bt at_ c -> forall x, n_lvl c x <= top fs.
  Proof.
    intros Hh x. destruct Hh as [c H1|lits p bt ob oa c H1 H2 H2b|L lits p fs offs bt at_ pre bs vs c H1 H2 H3 H4 H5 H6]; cbn.
    - rewrite H1. lia.
    - rewrite H1. lia.
    - destruct (decide (x ∈ map (fun e : nat * nat * V => e.1.2) vs)) as [Hin|Hin].
      + apply elem_of_list_In, in_map_iff in Hin as ([[k y] v] & <- & Hin). apply elem_of_list_In in Hin.
        destruct (vg_in _ _ _ _ H6 _ _ _ Hin) as (_ & _ & E). cbn; lia.
      + destruct (vg_out _ _ _ _ H6 x Hin) as [-> _]. pose proof (vg_lt _ _ _ _ H6 x). lia.
  Qed.

  Lemma hist_top keep s0 Bd fs offs bt at_ c : hist keep s0 Bd fs offs bt at_ c ->
    match last offs with None => fs = [] | Some f => fs <> [] /\ o_level f = top fs end.
  Proof.
    intros Hh. destruct Hh as [c H1|lits p bt ob oa c H1 H2 H2b|L lits p fs offs bt at_ pre bs vs c H1 H2 H3 H4 H5 H6]; cbn; auto.
    rewrite last_snoc. auto.
  Qed.
  Lemma hist_levels keep s0 Bd fs offs bt at_ c : hist keep s0 Bd fs offs bt at_ c -> forall f, f ∈ fs -> f_level f <= top fs.
  Proof.
    induction 1 as [c H1|lits p bt ob oa c H1 H2 H2b|L lits p fs offs bt at_ pre bs vs c H1 IH H2 H3 H4 H5 H6]; intros f Hf.
    - inversion Hf.
    - apply elem_of_list_singleton in Hf as ->. cbn; lia.
    - apply elem_of_cons in Hf as [->|Hf]; cbn; [lia|]. apply IH in Hf. lia.
  Qed.

  (** ** The value trail *)
  Lemma hist_move keep s0 Bd fs offs bt at_ c d x (v : V) :
    hist keep s0 Bd fs offs bt at_ c -> bnd_eq c d ->
    (forall y, (n_lvl d y, n_val d y) = if y =? x then (top fs, v) else (n_lvl c y, n_val c y)) ->
    hist keep s0 Bd fs offs bt (at_ ++ (if top fs =? n_lvl c x then [] else [(n_lvl c x, x, n_val c x)])) d.
  Proof.
    intros Hh Hb Hd. destruct Hh as [c H1|lits p bt ob oa c H1 H2 H2b|L lits p fs offs bt at_ pre bs vs c H1 H2 H3 H4 H5 H6]; cbn in *.
    - rewrite H1. cbn. constructor. intros y. specialize (Hd y). destruct (y =? x); injection Hd as -> _; auto.
    - rewrite H1. cbn. constructor; auto; [intros y; specialize (Hd y); destruct (y =? x); injection Hd as -> _; auto|]. intros Ebt m y. rewrite <- Hb. auto.
    - assert (H5' : bseg lits bs pre d).
      { destruct H5 as [A B C D]. constructor; auto.
        + intros z m o Hin. destruct (B z m o Hin) as (? & u & Hu & ?). split; auto. exists u. rewrite <- Hb. auto.
        + intros z m Hin. rewrite <- Hb. auto.
        + eapply tighter_trans; eauto. apply tighter_eq; auto. }
      rewrite <- app_assoc. econstructor; eauto. destruct H6 as [A B C D].
      destruct (Nat.eqb_spec L (n_lvl c x)) as [E|E].
      + rewrite app_nil_r. assert (Hx : x ∈ map (fun e : nat * nat * V => e.1.2) vs).
        { destruct (decide (x ∈ map (fun e : nat * nat * V => e.1.2) vs)); auto. destruct (C x n) as [E' _]. specialize (D x). lia. }
        constructor; auto.
        * intros k y w Hin. destruct (B k y w Hin) as (E1 & E2 & E3). split; auto. split; auto.
          specialize (Hd y). destruct (y =? x); injection Hd as -> _; auto.
        * intros y Hy. assert (y <> x) by congruence. specialize (Hd y). destruct (Nat.eqb_spec y x); [congruence|]. injection Hd as -> ->. auto.
      + assert (Hx : x ∉ map (fun e : nat * nat * V => e.1.2) vs).
        { intros Hin. apply elem_of_list_In, in_map_iff in Hin as ([[k y] w] & <- & Hin). apply elem_of_list_In in Hin.
          destruct (B _ _ _ Hin) as (_ & _ & E'). cbn in E. congruence. }
        destruct (C x Hx) as [C1 C2]. constructor.
        * rewrite map_app. cbn. apply NoDup_app. split; auto. split; [|apply NoDup_singleton].
          intros y Hy Hy'. apply elem_of_list_singleton in Hy'. congruence.
        * intros k y w Hin. apply elem_of_app in Hin as [Hin|Hin].
          { destruct (B k y w Hin) as (E1 & E2 & E3). split; auto. split; auto.
            specialize (Hd y). destruct (y =? x); injection Hd as -> _; auto. }
          { apply elem_of_list_singleton in Hin. injection Hin as -> -> ->. split; auto. split; auto.
            specialize (Hd x). rewrite Nat.eqb_refl in Hd. injection Hd as -> _; auto. }
        * intros y Hy. rewrite map_app in Hy. cbn in Hy. assert (Hyx : y <> x) by (intros ->; apply Hy, elem_of_app; right; apply elem_of_list_singleton; auto).
          assert (Hy' : y ∉ map (fun e : nat * nat * V => e.1.2) vs) by (intros Hin; apply Hy, elem_of_app; auto).
          specialize (Hd y). destruct (Nat.eqb_spec y x); [congruence|]. injection Hd as -> ->. auto.
        * exact D.
  Qed.

  Lemma hist_vreach keep s0 Bd fs L s s' : vreach L s s' -> L = top fs ->
    hist keep s0 Bd fs (s_offs s) (s_btrail s) (s_atrail s) (obs s) -> hist keep s0 Bd fs (s_offs s') (s_btrail s') (s_atrail s') (obs s').
  Proof.
    intros Hr -> Hh. induction Hr as [s|s1 s2 s3 Hr IH M|s1 s2 s3 Hr IH M]; auto.
    - destruct M as (x & v & Hx & Hv & Hat & Hbt & Hst & Hbs). rewrite Hat, Hbt, (stat_offs _ _ Hst).
      apply (hist_move keep s0 Bd fs _ _ _ (obs s2) (obs s3) x v); auto.
      + apply obs_bnd; auto.
    - destruct M as (Hat & Hbt & Hst & Hbs & Hvs). rewrite Hat, Hbt, (stat_offs _ _ Hst).
      apply (hist_eq _ _ _ _ _ _ _ (obs s2)); auto. apply obs_bnd; auto. apply obs_asg; auto.
  Qed.

  (** a new frame *)
  Lemma hist_push keep s0 Bd fs offs bt at_ c L lits p :
    hist keep s0 Bd fs offs bt at_ c -> (fs = [] \/ top fs < L) -> good s0 Bd (active fs) c ->
    (forall x, n_lo c x = lo p x /\ n_up c x = up p x /\ n_val c x = val p x) ->
    hist keep s0 Bd (Frame L lits p :: fs) (offs ++ [TOff L (length bt) (length at_)]) bt at_ c.
  Proof.
    intros Hh Hlt Hg Hp. pose proof (hist_lvl _ _ _ _ _ _ _ _ Hh) as Hlv.
    destruct (Nat.eq_dec L 0) as [->|HL].
    - destruct Hlt as [->|Hlt]; [|lia]. inversion Hh; subst. cbn. constructor; auto. intros _ m x. destruct (n_side c m x) as [b|] eqn:E; auto. destruct (g_ps _ _ _ _ Hg m x b E) as (_ & _ & _ & Hx). inversion Hx.
    - assert (Hlt' : top fs < L) by (destruct Hlt as [->|]; cbn; lia).
      rewrite <- (app_nil_r bt) at 2. rewrite <- (app_nil_r at_) at 2. econstructor; eauto.
      + intros x. destruct (Hp x) as (? & ? & ?). auto.
      + constructor; cbn.
        * constructor.
        * intros x m o Hin. inversion Hin.
        * auto.
        * apply tighter_refl.
      + constructor; cbn.
        * constructor.
        * intros x m o Hin. inversion Hin.
        * auto.
        * intros x. specialize (Hlv x). lia.
  Qed.

  (** ** storing the assignment *)
  Definition roff (f : toff) : toff := TOff (o_level f) (o_bound f) 0.
  Lemma hist_mono keep s0 Bd fs offs bt at_ c : hist keep s0 Bd fs offs bt at_ c ->
    (forall f, f ∈ offs -> o_asg f <= length at_) /\ rev (reset_offs_rev (rev offs)) = map roff offs.
  Proof.
    induction 1 as [c H1|lits p bt ob oa c H1 H2 H2b|L lits p fs offs bt at_ pre bs vs c H1 [IH1 IH2] H2 H3 H4 H5 H6].
    - split; auto. intros f Hf. inversion Hf.
    - subst. split; [|reflexivity]. intros f Hf. apply elem_of_list_singleton in Hf as ->. cbn; lia.
    - split.
      + intros f Hf. rewrite app_length. apply elem_of_app in Hf as [Hf|Hf]; [apply IH1 in Hf; lia|].
        apply elem_of_list_singleton in Hf as ->. cbn; lia.
      + rewrite rev_app_distr. cbn. destruct (Nat.ltb_spec 0 (length at_)) as [E|E].
        * cbn. rewrite IH2, map_app. auto.
        * cbn. rewrite rev_involutive, map_app. cbn. assert (length at_ = 0) as -> by lia. f_equal.
          rewrite <- (map_id offs) at 1. apply map_ext_in. intros f Hf. apply elem_of_list_In in Hf. apply IH1 in Hf.
          destruct f as [a1 a2 a3]. cbn in *. unfold roff; cbn. f_equal. lia.
  Qed.

  Definition reset_snap (v : nat -> V) c : snap := Snap (n_lo c) (n_up c) (fun _ => 0) v.
  Lemma hist_store s0 Bd fs offs bt at_ c v keep : hist keep s0 Bd fs offs bt at_ c ->
    rows s0 v -> cfeas (nv s0) (reset_snap v c) ->
    hist false s0 Bd fs (map roff offs) bt [] (reset_snap v c).
  Proof.
    induction 1 as [c H1|lits p bt ob oa c H1 H2 H2b|L lits p fs offs bt at_ pre bs vs c H1 IH H2 H3 H4 H5 H6]; intros Hr Hf; cbn.
    - constructor; auto.
    - constructor; auto.
    - rewrite map_app. cbn. unfold roff at 2. cbn.
      assert (Hf' : cfeas (nv s0) (reset_snap v pre)).
      { apply (cfeas_tight _ _ (reset_snap v c)); auto. apply H5. }
      change 0 with (length (@nil (nat * nat * V))) at 1. change (@nil (nat * nat * V)) with (@nil (nat * nat * V) ++ []).
      econstructor; eauto.
      + destruct H3 as [A B C D E]. constructor; auto.
      + intros x. destruct (H4 x) as (E1 & E2 & _). cbn. split; auto. split; auto. discriminate.
      + destruct H5 as [A B C D]. constructor; auto.
      + constructor; cbn; auto.
        * constructor.
        * intros k x w Hin. inversion Hin.
        * intros x. lia.
  Qed.
End hist.
