(** * Bound updates: effect of Variable::update and Solver::update_bound_ *)

From stdpp Require Import list_numbers.
From Verif Require Import Num Sums Tableau TableauProofs Bland Solver SolverBase SolverStep Simplex SimplexLoop Hist.

Section updates.
  Context {V : Type} `{VL : ValueLaws V}.
  Implicit Types s : solver V.
  Implicit Types x y : nat.
  Implicit Types b l u : bound V.
  Implicit Types fs : list (frame V).

  (** the levels reported by the host agree with the frames *)
  Definition lv_ok (a : asg) fs : Prop := forall f lit, f ∈ fs -> lit ∈ f_lits f -> a_level a lit = f_level f.

  Lemma active_elem fs lit : lit ∈ active fs <-> exists f, f ∈ fs /\ lit ∈ f_lits f.
  Proof.
    unfold active. rewrite elem_of_list_In, in_concat. split.
    - intros (l & Hl & Hin). apply in_map_iff in Hl as (f & <- & Hf). exists f. rewrite !elem_of_list_In. auto.
    - intros (f & Hf & Hin). exists (f_lits f). rewrite in_map_iff, <- elem_of_list_In. split; auto. exists f. rewrite <- elem_of_list_In. auto.
  Qed.

  Lemma hist_bset keep s0 Bd L lits p fs offs bt at_ c d (a : asg) x (m : bool) b :
    hist keep s0 Bd (Frame L lits p :: fs) offs bt at_ c -> lv_ok a (Frame L lits p :: fs) -> b_lit b ∈ lits ->
    (forall m' y, n_side d m' y = if (y =? x) && Bool.eqb m' m then Some b else n_side c m' y) -> asg_eq c d ->
    match n_side c m x with None => True | Some u => if m then vle (b_val u) (b_val b) else vle (b_val b) (b_val u) end ->
    hist keep s0 Bd (Frame L lits p :: fs) offs
      (bt ++ if (match n_side c m x with None => true | Some u => a_level a (b_lit u) <? L end) then [(x, if m then BGe else BLe, n_side c m x)] else []) at_ d.
  Proof.
    intros Hh Hl Hb Hd Ha Ht. remember (Frame L lits p :: fs) as fs' eqn:Ef.
    destruct Hh as [c H1|lits0 p0 bt ob oa c H1 H2 H2b|L0 lits0 p0 fs0 offs bt at_ pre bs vs c H1 H2 H3 H4 H5 H6]; [discriminate| |]; injection Ef; intros; subst.
    - constructor; auto; [intros y; destruct (Ha y) as [<- _]; auto|]. intros Ebt. exfalso. apply app_eq_nil in Ebt as [-> Ebt].
      rewrite H2b in Ebt by auto. discriminate.
    - rewrite <- app_assoc. econstructor; eauto; cycle 1.
      { destruct H6 as [A B C D]. constructor; auto.
        - intros k y w Hin. destruct (B k y w Hin) as (? & ? & ?). destruct (Ha y) as [<- _]. auto.
        - intros y Hin. destruct (C y Hin). destruct (Ha y) as [<- <-]. auto. }
      assert (Htt : tighter c d).
      { split; intros y l E.
        - pose proof (Hd true y) as Hy. unfold n_side in Hy. rewrite Hy. destruct ((y =? x) && Bool.eqb true m) eqn:Eb.
          + apply andb_true_iff in Eb as [Ey Em]. apply Nat.eqb_eq in Ey as ->. destruct m; [|discriminate]. unfold n_side in Ht. rewrite E in Ht. exists b; auto.
          + exists l. auto using vle_refl.
        - pose proof (Hd false y) as Hy. unfold n_side in Hy. rewrite Hy. destruct ((y =? x) && Bool.eqb false m) eqn:Eb.
          + apply andb_true_iff in Eb as [Ey Em]. apply Nat.eqb_eq in Ey as ->. destruct m; [discriminate|]. unfold n_side in Ht. rewrite E in Ht. exists b; auto.
          + exists l. auto using vle_refl. }
      pose proof H5 as [A B C D].
      destruct (decide ((x, m) ∈ map fst (sidesl bs))) as [Hin|Hin].
      + pose proof Hin as Hin'. apply elem_of_list_In, in_map_iff in Hin' as ([[x' m'] ob] & E & Hin'). cbn in E. injection E as -> ->. apply elem_of_list_In in Hin'.
        destruct (B _ _ _ Hin') as (E1 & u & E2 & E3). rewrite E2.
        rewrite (Hl (Frame L lits p) (b_lit u)) by (auto; apply elem_of_cons; auto). cbn. rewrite Nat.ltb_irrefl, app_nil_r.
        constructor; auto.
        * intros y m' o Hy. destruct (B y m' o Hy) as (? & w & ? & ?). split; auto. rewrite Hd. destruct (_ && _); eauto.
        * intros y m' Hy. rewrite Hd. destruct ((y =? x) && Bool.eqb m' m) eqn:Eb; [|apply C; auto].
          apply andb_true_iff in Eb as [Ey Em]. apply Nat.eqb_eq in Ey as ->. apply eqb_prop in Em as ->. congruence.
        * eapply tighter_trans; eauto.
      + rewrite (C x m Hin).
        assert (Epush : match n_side pre m x with None => true | Some u => a_level a (b_lit u) <? L end = true).
        { destruct (n_side pre m x) as [u|] eqn:Eu; auto. destruct (g_ps _ _ _ _ H3 m x u Eu) as (_ & _ & _ & Hact).
          apply active_elem in Hact as (f & Hf & Hlit). rewrite (Hl f) by (auto; apply elem_of_cons; auto).
          pose proof (hist_levels _ _ _ _ _ _ _ _ H1 f Hf). apply Nat.ltb_lt. lia. }
        rewrite Epush. assert (Es : sidesl (bs ++ [(x, if m then BGe else BLe, n_side pre m x)]) = sidesl bs ++ [(x, m, n_side pre m x)]).
        { unfold sidesl. rewrite map_app, concat_app. destruct m; auto. }
        constructor; rewrite ?Es, ?map_app; cbn.
        * apply NoDup_app. split; auto. split; [|apply NoDup_singleton]. intros y Hy Hy'. apply elem_of_list_singleton in Hy'. congruence.
        * intros y m' o Hy. apply elem_of_app in Hy as [Hy|Hy].
          { destruct (B y m' o Hy) as (? & w & ? & ?). split; auto. rewrite Hd. destruct (_ && _); eauto. }
          { apply elem_of_list_singleton in Hy. injection Hy as -> -> ->. split; auto. exists b. rewrite Hd, Nat.eqb_refl, eqb_reflx. auto. }
        * intros y m' Hy. rewrite Hd. destruct ((y =? x) && Bool.eqb m' m) eqn:Eb.
          { apply andb_true_iff in Eb as [Ey Em]. apply Nat.eqb_eq in Ey as ->. apply eqb_prop in Em as ->. exfalso. apply Hy, elem_of_app. right. apply elem_of_list_singleton; auto. }
          { apply C. intros Hy'. apply Hy, elem_of_app; auto. }
        * eapply tighter_trans; eauto.
  Qed.

  Lemma hist_eqset keep s0 Bd L lits p fs offs bt at_ c d x b :
    hist keep s0 Bd (Frame L lits p :: fs) offs bt at_ c -> b_lit b ∈ lits -> n_lo c x = None -> n_up c x = None ->
    (forall m' y, n_side d m' y = if y =? x then Some b else n_side c m' y) -> asg_eq c d ->
    hist keep s0 Bd (Frame L lits p :: fs) offs (bt ++ [(x, BEq, None)]) at_ d.
  Proof.
    intros Hh Hb El Eu Hd Ha. remember (Frame L lits p :: fs) as fs' eqn:Ef.
    destruct Hh as [c H1|lits0 p0 bt ob oa c H1 H2 H2b|L0 lits0 p0 fs0 offs bt at_ pre bs vs c H1 H2 H3 H4 H5 H6]; [discriminate| |]; injection Ef; intros; subst.
    - constructor; auto; [intros y; destruct (Ha y) as [<- _]; auto|]. intros Ebt. apply app_eq_nil in Ebt as [_ Ebt]. discriminate.
    - rewrite <- app_assoc. econstructor; eauto; cycle 1.
      { destruct H6 as [A B C D]. constructor; auto.
        - intros k y w Hin. destruct (B k y w Hin) as (? & ? & ?). destruct (Ha y) as [<- _]. auto.
        - intros y Hin. destruct (C y Hin). destruct (Ha y) as [<- <-]. auto. }
      pose proof H5 as [A B C D].
      assert (Hn : forall m, n_side c m x = None) by (intros []; auto).
      assert (Hout : forall m, (x, m) ∉ map fst (sidesl bs)).
      { intros m Hin. apply elem_of_list_In, in_map_iff in Hin as ([[x' m'] ob] & E & Hin). cbn in E. injection E as -> ->. apply elem_of_list_In in Hin.
        destruct (B _ _ _ Hin) as (_ & u & E2 & _). rewrite Hn in E2. discriminate. }
      assert (Hpre : forall m, n_side pre m x = None) by (intros m; rewrite <- (C x m) by auto; auto).
      assert (Es : sidesl (bs ++ [(x, BEq, None)]) = sidesl bs ++ [(x, false, None); (x, true, None)]).
      { unfold sidesl. rewrite map_app, concat_app. auto. }
      constructor; rewrite ?Es, ?map_app; cbn.
      + apply NoDup_app. split; auto. split.
        * intros [y m] Hy Hy'. rewrite !elem_of_cons, elem_of_nil in Hy'. destruct Hy' as [E|[E|[]]]; injection E as -> ->; eapply Hout; eauto.
        * apply NoDup_cons. split; [|apply NoDup_singleton]. intros E. apply elem_of_list_singleton in E. discriminate.
      + intros y m' o Hy. apply elem_of_app in Hy as [Hy|Hy].
        { destruct (B y m' o Hy) as (? & w & ? & ?). split; auto. rewrite Hd. destruct (_ =? _); eauto. }
        { rewrite !elem_of_cons, elem_of_nil in Hy. destruct Hy as [E|[E|[]]]; injection E as -> -> ->; (split; [auto|]; exists b; rewrite Hd, Nat.eqb_refl; auto). }
      + intros y m' Hy. rewrite Hd. destruct (Nat.eqb_spec y x) as [->|].
        * exfalso. apply Hy, elem_of_app. right. rewrite !elem_of_cons. destruct m'; auto.
        * apply C. intros Hy'. apply Hy, elem_of_app; auto.
      + eapply tighter_trans; [exact D|]. split; intros y l E; exists l; split; auto using vle_refl.
        * pose proof (Hd true y) as Hy. cbn in Hy. rewrite Hy. destruct (Nat.eqb_spec y x); congruence.
        * pose proof (Hd false y) as Hy. cbn in Hy. rewrite Hy. destruct (Nat.eqb_spec y x); congruence.
  Qed.

  (** nothing is assumed about the trail of level 0, which is never undone *)
  Lemma hist_top0 keep s0 Bd L lits p fs offs bt bt' at_ c d :
    L = 0 -> hist keep s0 Bd (Frame L lits p :: fs) offs bt at_ c -> asg_eq c d -> bt' <> [] -> hist keep s0 Bd (Frame L lits p :: fs) offs bt' at_ d.
  Proof.
    intros -> Hh Ha Hb. remember (Frame 0 lits p :: fs) as fs' eqn:Ef.
    destruct Hh as [c H1|lits0 p0 bt ob oa c H1 H2 H2b|L0 lits0 p0 fs0 offs bt at_ pre bs vs c H1 H2 H3 H4 H5 H6]; [discriminate| |]; injection Ef; intros; subst.
    - constructor; auto; [intros y; destruct (Ha y) as [<- _]; auto|]. congruence.
    - lia.
  Qed.
  Lemma hist_top0_trail keep s0 Bd L lits p fs offs bt at_ c m x b :
    L = 0 -> hist keep s0 Bd (Frame L lits p :: fs) offs bt at_ c -> n_side c m x = Some b -> bt <> [].
  Proof.
    intros -> Hh. remember (Frame 0 lits p :: fs) as fs' eqn:Ef.
    destruct Hh as [c H1|lits0 p0 bt ob oa c H1 H2 H2b|L0 lits0 p0 fs0 offs bt at_ pre bs vs c H1 H2 H3 H4 H5 H6]; [discriminate| |]; injection Ef; intros; subst.
    - intros ->. rewrite H2b in *; auto. discriminate.
    - lia.
  Qed.

  (** ** Variable::update *)
  Definition bonly s s' : Prop :=
    stat s' = stat s /\ s_tab s' = s_tab s /\ s_atrail s' = s_atrail s /\ s_conf s' = s_conf s /\ s_pq s' = s_pq s /\
    perm_same s s' /\ val_same s s' /\ (forall y, qd s' y = qd s y) /\ (forall y, v_bounds (vr s' y) = v_bounds (vr s y)) /\
    s_clause s' = s_clause s.
  Lemma bonly_refl s : bonly s s. Proof. repeat split. Qed.
  Lemma bonly_trans s1 s2 s3 : bonly s1 s2 -> bonly s2 s3 -> bonly s1 s3.
  Proof.
    intros (A1 & A2 & A3 & A4 & A5 & A6 & A7 & A8 & A9 & A10) (B1 & B2 & B3 & B4 & B5 & B6 & B7 & B8 & B9 & B10).
    repeat (split; [congruence|]). split; [eapply perm_same_trans; eauto|]. split; [|split; [|split; [|congruence]]].
    - intros y. destruct (A7 y), (B7 y). split; congruence.
    - intros y. rewrite B8; auto.
    - intros y. rewrite B9; auto.
  Qed.

  Definition bounds_consistent_at s x : Prop := forall l u, lo s x = Some l -> up s x = Some u -> vle (b_val l) (b_val u).
  Lemma bounds_consistent_true s x : bounds_consistent (vr s x) = true <-> bounds_consistent_at s x.
  Proof.
    unfold bounds_consistent, bounds_consistent_at, lo, up. destruct (v_lower (vr s x)) as [l|], (v_upper (vr s x)) as [u|].
    - rewrite vleb_le. split; [intros Hl l' u' [= ->] [= ->]; auto|intros Hl; apply Hl; auto].
    - split; auto. discriminate.
    - split; auto. discriminate.
    - split; auto. discriminate.
  Qed.
  Lemma bounds_consistent_false s x : bounds_consistent (vr s x) = false -> exists l u, lo s x = Some l /\ up s x = Some u /\ vlt (b_val u) (b_val l).
  Proof.
    unfold bounds_consistent, lo, up. destruct (v_lower (vr s x)) as [l|], (v_upper (vr s x)) as [u|]; try discriminate.
    intros E. apply vleb_false in E. eauto.
  Qed.

  Lemma update_upper_ok (a : asg) b s : b_var b < nv s ->
    let x := b_var b in
    exists s', update_upper a b x s = Ok (s', bounds_consistent (vr s' x)) /\ bonly s s' /\
      if below_upper (vr s x) (b_val b) then
        s_btrail s' = s_btrail s ++ (if (match up s x with None => true | Some u => a_level a (b_lit u) <? a_dl a end) then [(x, BLe, up s x)] else []) /\
        (forall y, lo s' y = lo s y) /\ (forall y, up s' y = if y =? x then Some b else up s y)
      else s' = s.
  Proof.
    intros Hx x. unfold update_upper. rewrite at_vr by auto. cbn [mbind res_bind].
    destruct (below_upper (vr s x) (b_val b)) eqn:E.
    - set (s1 := if match v_upper (vr s x) with Some u => a_level a (b_lit u) <? a_dl a | None => true end then _ else s).
      assert (Hn : nv s1 = nv s /\ (forall y, vr s1 y = vr s y) /\ stat s1 = stat s /\ s_tab s1 = s_tab s /\ s_atrail s1 = s_atrail s /\ s_conf s1 = s_conf s /\ s_pq s1 = s_pq s /\ s_clause s1 = s_clause s).
      { unfold s1. destruct (match v_upper (vr s x) with Some u => _ | None => _ end); repeat (split; [reflexivity|]); reflexivity. }
      destruct Hn as (Hn & Hv & Hst & Htb & Hat & Hcf & Hpq & Hcl).
      assert (Hx1 : x < nv s1) by (rewrite Hn; auto).
      rewrite at_vr by (rewrite nv_upd; auto). cbn [mbind res_bind]. eexists. split; [reflexivity|].
      assert (Hvr : forall y, vr (upd_var x (vset_upper (Some b)) s1) y = if y =? x then vset_upper (Some b) (vr s x) else vr s y).
      { intros y. rewrite vr_upd by auto. rewrite !Hv. auto. }
      split; [|split; [|split]].
      + split; [rewrite stat_upd; auto|]. repeat (split; [auto; fail|]).
        split; [|split; [|split; [|split; [|auto]]]]; intros y; unfold idx, ridx, val, lvl, qd; rewrite Hvr; destruct (Nat.eqb_spec y x) as [->|]; auto.
      + cbn. unfold s1, up. destruct (match v_upper (vr s x) with Some u => _ | None => _ end); cbn; auto. rewrite app_nil_r; auto.
      + intros y. unfold lo. rewrite Hvr. destruct (Nat.eqb_spec y x) as [->|]; auto.
      + intros y. unfold up. rewrite Hvr. destruct (Nat.eqb_spec y x) as [->|]; auto.
    - rewrite at_vr by auto. cbn [mbind res_bind]. exists s. split; auto. split; auto. apply bonly_refl.
  Qed.

  Lemma update_lower_ok (a : asg) b s : b_var b < nv s ->
    let x := b_var b in
    (above_lower (vr s x) (b_val b) = true -> same_bound (up s x) b = true -> match lo s x with None => True | Some l => a_level a (b_lit l) < a_dl a end -> s_btrail s <> []) ->
    exists s', update_lower a b x s = Ok (s', bounds_consistent (vr s' x)) /\ bonly s s' /\
      if above_lower (vr s x) (b_val b) then
        (if (match lo s x with None => true | Some l => a_level a (b_lit l) <? a_dl a end)
         then if same_bound (up s x) b then exists t y r ob, s_btrail s = t ++ [(y, r, ob)] /\ s_btrail s' = t ++ [(y, BEq, ob)]
              else s_btrail s' = s_btrail s ++ [(x, BGe, lo s x)]
         else s_btrail s' = s_btrail s) /\
        (forall y, up s' y = up s y) /\ (forall y, lo s' y = if y =? x then Some b else lo s y)
      else s' = s.
  Proof.
    intros Hx x Hne. unfold update_lower. rewrite at_vr by auto. cbn [mbind res_bind].
    destruct (above_lower (vr s x) (b_val b)) eqn:E.
    - set (r1 := if match v_lower (vr s x) with Some l => a_level a (b_lit l) <? a_dl a | None => true end then _ else Ok s).
      assert (Hr1 : exists bt, r1 = Ok (set_btrail bt s) /\
         (if (match lo s x with None => true | Some l => a_level a (b_lit l) <? a_dl a end)
         then if same_bound (up s x) b then exists t y r ob, s_btrail s = t ++ [(y, r, ob)] /\ bt = t ++ [(y, BEq, ob)]
              else bt = s_btrail s ++ [(x, BGe, lo s x)]
         else bt = s_btrail s)).
      { unfold r1. fold (up s x) (lo s x). destruct (match lo s x with Some l => _ | None => _ end) eqn:Ep.
        - destruct (same_bound (up s x) b) eqn:Es; cbn.
          + destruct (s_btrail s) as [|e0 t0] eqn:Et using rev_ind.
            * exfalso. apply Hne; auto. destruct (lo s x); auto. apply Nat.ltb_lt in Ep. auto.
            * destruct e0 as [[y r] ob]. unfold trail_back_eq. rewrite last_snoc. cbn. eexists. split; [reflexivity|].
              exists t0, y, r, ob. split; auto. rewrite app_length. cbn. replace (length t0 + 1 - 1) with (length t0) by lia. rewrite take_app. auto.
          + eexists. split; reflexivity.
        - exists (s_btrail s). split; auto. f_equal. destruct s; auto. }
      destruct Hr1 as (bt & Er1 & Hbt). rewrite Er1. cbn [mbind res_bind].
      rewrite at_vr by (rewrite nv_upd; auto). cbn [mbind res_bind]. eexists. split; [reflexivity|].
      assert (Hvr : forall y, vr (upd_var x (vset_lower (Some b)) (set_btrail bt s)) y = if y =? x then vset_lower (Some b) (vr s x) else vr s y).
      { intros y. rewrite vr_upd by auto. auto. }
      split; [|split; [|split]].
      + split; [rewrite stat_upd; auto|]. repeat (split; [auto; fail|]).
        split; [|split; [|split; [|split; [|auto]]]]; intros y; unfold idx, ridx, val, lvl, qd; rewrite Hvr; destruct (Nat.eqb_spec y x) as [->|]; auto.
      + exact Hbt.
      + intros y. unfold up. rewrite Hvr. destruct (Nat.eqb_spec y x) as [->|]; auto.
      + intros y. unfold lo. rewrite Hvr. destruct (Nat.eqb_spec y x) as [->|]; auto.
    - cbn [mbind res_bind]. rewrite at_vr by auto. cbn [mbind res_bind]. exists s. split; auto. split; auto. apply bonly_refl.
  Qed.

  Lemma bonly_shape s s' : shape s -> bonly s s' -> (forall e, e ∈ s_btrail s' -> e.1.1 < nv s) -> shape s'.
  Proof.
    intros Sh (A1 & A2 & A3 & A4 & A5 & A6 & A7 & A8 & A9 & A10) Hb. apply (shape_keep s); auto.
    - rewrite A2. apply Sh.
    - rewrite A2. auto.
    - rewrite A4. apply Sh.
    - rewrite A5. apply Sh.
    - rewrite A3. apply Sh.
  Qed.

  (** facts about the set of bounds: a bound is determined by its identity,
      which is its position *)
  Record bstat (Bd : list (bound V)) : Prop := {
    bs_lt : forall b, b ∈ Bd -> b_id b < length Bd;
    bs_inj : forall b b', b ∈ Bd -> b' ∈ Bd -> b_id b = b_id b' -> b = b';
  }.
  Lemma bs_same Bd b b' : bstat Bd -> b ∈ Bd -> b' ∈ Bd -> b_id b = b_id b' -> b = b'.
  Proof. intros [_ Hi]. apply Hi. Qed.

  (** [v] satisfies the inequality [c] with room to spare *)
  Definition bloose (c : bound V) (v : V) : Prop := match b_rel c with BLe => vlt v (b_val c) | BGe => vlt (b_val c) v | BEq => False end.
  (** the update of an equality at level [L] cannot damage the trail *)
  Definition eqsafe (L : nat) (Bd : list (bound V)) (act : list Z) (b : bound V) : Prop :=
    L = 0 \/ (b_rel b = BEq -> forall c, c ∈ Bd -> b_var c = b_var b -> b_lit c ∈ act -> ~ bloose c (b_val b)).


  Record upost (keep : bool) (s0 : solver V) fs s b s' (ok : bool) : Prop := {
    up_bo : bonly s s';
    up_sh : shape s';
    up_h : hist keep s0 (s_bounds s) fs (s_offs s') (s_btrail s') (s_atrail s') (obs s');
    up_ps : psnd (s_bounds s) (active fs) (obs s');
    up_t : tighter (obs s) (obs s');
    up_oth : forall (m : bool) y, y <> b_var b -> n_side (obs s') m y = n_side (obs s) m y;
    up_ok : if ok then eqp (obs s') /\ bounds_consistent_at s' (b_var b) /\ bimpl (obs s') b
            else exists l u, lo s' (b_var b) = Some l /\ up s' (b_var b) = Some u /\ vlt (b_val u) (b_val l);
  }.

  Lemma side_set s s' x (m : bool) b :
    (forall y, (if m then lo s' y else up s' y) = if y =? x then Some b else if m then lo s y else up s y) ->
    (forall y, (if m then up s' y else lo s' y) = if m then up s y else lo s y) ->
    forall m' y, n_side (obs s') m' y = if (y =? x) && Bool.eqb m' m then Some b else n_side (obs s) m' y.
  Proof.
    intros H1 H2 m' y. unfold n_side, obs; cbn. specialize (H1 y). specialize (H2 y).
    destruct m, m'; cbn; destruct (y =? x); cbn; auto.
  Qed.
  Lemma below_upper_lt s x (v : V) : below_upper (vr s x) v = true <-> forall u, up s x = Some u -> vlt v (b_val u).
  Proof.
    unfold below_upper, up. destruct (v_upper (vr s x)) as [u|].
    - rewrite vltb_lt. split; [intros Hl u' [= <-]; auto|intros Hl; auto].
    - split; auto. discriminate.
  Qed.
  Lemma above_lower_lt s x (v : V) : above_lower (vr s x) v = true <-> forall l, lo s x = Some l -> vlt (b_val l) v.
  Proof.
    unfold above_lower, lo. destruct (v_lower (vr s x)) as [u|].
    - rewrite vgtb_lt. split; [intros Hl u' [= <-]; auto|intros Hl; auto].
    - split; auto. discriminate.
  Qed.
  Lemma below_upper_ge s x (v : V) : below_upper (vr s x) v = false -> exists u, up s x = Some u /\ vle (b_val u) v.
  Proof. unfold below_upper, up. destruct (v_upper (vr s x)) as [u|]; [|discriminate]. intros E. apply vltb_false in E. eauto. Qed.
  Lemma above_lower_ge s x (v : V) : above_lower (vr s x) v = false -> exists l, lo s x = Some l /\ vle v (b_val l).
  Proof. unfold above_lower, lo. destruct (v_lower (vr s x)) as [u|]; [|discriminate]. intros E. apply vgtb_false in E. eauto. Qed.

  Section one.
    Context (keep : bool) (s0 : solver V) (L : nat) (lits : list Z) (p : solver V) (fs : list (frame V)) (a : asg).
    Let fs' := Frame L lits p :: fs.
    Context (Hlv : lv_ok a fs') (Hdl : a_dl a = L).

    Lemma psnd_set s s' x (m : bool) b act :
      (forall m' y, n_side (obs s') m' y = if (y =? x) && Bool.eqb m' m then Some b else n_side (obs s) m' y) ->
      psnd (s_bounds s) act (obs s) -> b ∈ s_bounds s -> b_var b = x -> b_rel b <> (if m then BLe else BGe) -> b_lit b ∈ act -> psnd (s_bounds s) act (obs s').
    Proof.
      intros Hs Hp H1 H2 H3 H4 m' y c. rewrite Hs. destruct ((y =? x) && Bool.eqb m' m) eqn:Eb; [|apply Hp].
      apply andb_true_iff in Eb as [Ey Em]. apply Nat.eqb_eq in Ey as ->. apply eqb_prop in Em as ->. intros [= <-]. auto.
    Qed.
    Lemma lits_active lit : lit ∈ lits -> lit ∈ active fs'.
    Proof. intros Hl. unfold active, fs'. cbn. apply elem_of_app; auto. Qed.

    (** one side of a variable is set *)
    Lemma one_side s s' b (m : bool) :
      shape s -> bonly s s' -> hist keep s0 (s_bounds s) fs' (s_offs s) (s_btrail s) (s_atrail s) (obs s) ->
      psnd (s_bounds s) (active fs') (obs s) -> b ∈ s_bounds s -> b_lit b ∈ lits -> b_rel b <> (if m then BLe else BGe) ->
      (forall y, (if m then lo s' y else up s' y) = if y =? b_var b then Some b else if m then lo s y else up s y) ->
      (forall y, (if m then up s' y else lo s' y) = if m then up s y else lo s y) ->
      s_btrail s' = s_btrail s ++ (if (match n_side (obs s) m (b_var b) with None => true | Some u => a_level a (b_lit u) <? L end) then [(b_var b, if m then BGe else BLe, n_side (obs s) m (b_var b))] else []) ->
      (forall u, n_side (obs s) m (b_var b) = Some u -> if m then vlt (b_val u) (b_val b) else vlt (b_val b) (b_val u)) ->
      shape s' /\ hist keep s0 (s_bounds s) fs' (s_offs s') (s_btrail s') (s_atrail s') (obs s') /\ psnd (s_bounds s) (active fs') (obs s') /\ tighter (obs s) (obs s') /\
      (forall (m' : bool) y, y <> b_var b -> n_side (obs s') m' y = n_side (obs s) m' y) /\
      (forall m' y, n_side (obs s') m' y = if (y =? b_var b) && Bool.eqb m' m then Some b else n_side (obs s) m' y).
    Proof.
      intros Sh Bo Hh Hps Hb Hlit Hrel Hset Hoth Hbt Hlt. pose proof (side_set s s' (b_var b) m b Hset Hoth) as Hs.
      pose proof Bo as (A1 & A2 & A3 & A4 & A5 & A6 & A7 & A8 & A9 & A10).
      assert (Hx : b_var b < nv s) by (apply (sh_bv _ Sh); auto).
      split; [|split; [|split; [|split; [|split]]]]; auto.
      - apply (bonly_shape s); auto. rewrite Hbt. intros e He. apply elem_of_app in He as [He|He]; [apply (sh_bt _ Sh); auto|].
        destruct (match n_side _ _ _ with Some u => _ | None => _ end); [|inversion He]. apply elem_of_list_singleton in He as ->. auto.
      - rewrite Hbt, A3, (stat_offs _ _ A1). apply (hist_bset keep s0 _ L lits p fs _ _ _ (obs s) (obs s') a (b_var b) m b); auto.
        + apply obs_asg; auto.
        + destruct (n_side (obs s) m (b_var b)) as [u|]; auto. specialize (Hlt u eq_refl). destruct m; apply vlt_le; auto.
      - eapply psnd_set; eauto. apply lits_active; auto.
      - split; intros y l E.
        + pose proof (Hs true y) as Hy. unfold n_side in Hy. rewrite Hy. destruct ((y =? b_var b) && Bool.eqb true m) eqn:Eb; [|exists l; auto using vle_refl].
          apply andb_true_iff in Eb as [Ey Em]. apply Nat.eqb_eq in Ey as ->. destruct m; [|discriminate]. exists b. split; auto. apply vlt_le, Hlt. exact E.
        + pose proof (Hs false y) as Hy. unfold n_side in Hy. rewrite Hy. destruct ((y =? b_var b) && Bool.eqb false m) eqn:Eb; [|exists l; auto using vle_refl].
          apply andb_true_iff in Eb as [Ey Em]. apply Nat.eqb_eq in Ey as ->. destruct m; [discriminate|]. exists b. split; auto. apply vlt_le, Hlt. exact E.
      - intros m' y Hy. rewrite Hs. destruct (Nat.eqb_spec y (b_var b)); [congruence|]. auto.
    Qed.

    Lemma eqp_set s s' b : tighter (obs s) (obs s') -> (forall m z c, n_side (obs s') m z = Some c -> c = b \/ n_side (obs s) m z = Some c) ->
      bimpl (obs s') b -> eqp (obs s) -> eqp (obs s').
    Proof. intros Ht Hs Hb He m z c Hc. destruct (Hs m z c Hc) as [->|Hc']; auto. eapply bimpl_tight; eauto. Qed.
    Lemma set_or s s' b (m : bool) : (forall m' y, n_side (obs s') m' y = if (y =? b_var b) && Bool.eqb m' m then Some b else n_side (obs s) m' y) ->
      forall m' z c, n_side (obs s') m' z = Some c -> c = b \/ n_side (obs s) m' z = Some c.
    Proof. intros Hs m' z c. rewrite Hs. destruct (_ && _); auto. intros [= <-]. auto. Qed.

    Theorem update_var_ok s b :
      shape s -> hist keep s0 (s_bounds s) fs' (s_offs s) (s_btrail s) (s_atrail s) (obs s) ->
      psnd (s_bounds s) (active fs') (obs s) -> eqp (obs s) -> bcons s -> bstat (s_bounds s) -> b ∈ s_bounds s -> b_lit b ∈ lits ->
      eqsafe L (s_bounds s) (active fs') b ->
      exists s' ok, update_var a b (b_var b) s = Ok (s', ok) /\ upost keep s0 fs' s b s' ok.
    Proof.
      intros Sh Hh Hps Heq Hbc Hbs Hb Hlit Hsafe. assert (Hx : b_var b < nv s) by (apply (sh_bv _ Sh); auto).
      assert (Hsb : same_bound (up s (b_var b)) b = true -> up s (b_var b) = Some b).
      { unfold same_bound. destruct (up s (b_var b)) as [c|] eqn:Ec; [|discriminate]. intros E. apply Nat.eqb_eq in E. f_equal.
        destruct (Hps false (b_var b) c Ec) as (Hc & _). apply (bs_same (s_bounds s)); auto. }
      assert (Hrefl : forall ok, (if (ok : bool) then bounds_consistent_at s (b_var b) /\ bimpl (obs s) b else False) -> upost keep s0 fs' s b s ok).
      { intros ok Hok. constructor; auto using bonly_refl, tighter_refl. destruct ok; [|tauto]. tauto. }
      assert (Hbcx : bounds_consistent_at s (b_var b)) by (intros l u; apply Hbc).
      unfold update_var. destruct (b_rel b) eqn:Er.
      - (* <= *)
        destruct (update_upper_ok a b s Hx) as (s' & E & Bo & Hc). rewrite E. exists s', (bounds_consistent (vr s' (b_var b))). split; auto.
        destruct (below_upper (vr s (b_var b)) (b_val b)) eqn:Eb.
        + destruct Hc as (Hbt & Hlo & Hup). rewrite Hdl in Hbt.
          destruct (one_side s s' b false) as (Sh' & Hh' & Hps' & Ht & Ho & Hs); auto.
          { congruence. }
          { intros u Hu. rewrite below_upper_lt in Eb. apply Eb. exact Hu. }
          assert (Him : bimpl (obs s') b).
          { split; [|congruence]. intros _. exists b. split; [|apply vle_refl]. cbn. rewrite Hup, Nat.eqb_refl. auto. }
          constructor; auto. destruct (bounds_consistent (vr s' (b_var b))) eqn:Eok.
          * split; [apply (eqp_set s s' b); auto; apply (set_or s s' b false); auto|]. split; auto. apply bounds_consistent_true; auto.
          * apply bounds_consistent_false; auto.
        + subst s'. rewrite (proj2 (bounds_consistent_true s (b_var b)) Hbcx). apply Hrefl. split; auto. split; [|congruence].
          intros _. apply below_upper_ge in Eb. auto.
      - (* >= *)
        assert (Hns : same_bound (up s (b_var b)) b = false).
        { apply not_true_is_false. intros E. apply Hsb in E. destruct (Hps false _ _ E) as (_ & _ & Hr & _). congruence. }
        destruct (update_lower_ok a b s Hx) as (s' & E & Bo & Hc). { congruence. }
        rewrite E. exists s', (bounds_consistent (vr s' (b_var b))). split; auto.
        destruct (above_lower (vr s (b_var b)) (b_val b)) eqn:Eb.
        + destruct Hc as (Hbt & Hup & Hlo). rewrite Hdl, Hns in Hbt.
          destruct (one_side s s' b true) as (Sh' & Hh' & Hps' & Ht & Ho & Hs); auto.
          { congruence. }
          { change (n_side (obs s) true (b_var b)) with (lo s (b_var b)). destruct (match lo s (b_var b) with Some l => _ | None => _ end); rewrite ?app_nil_r; auto. }
          { intros u Hu. rewrite above_lower_lt in Eb. apply Eb. exact Hu. }
          assert (Him : bimpl (obs s') b).
          { split; [congruence|]. intros _. exists b. split; [|apply vle_refl]. cbn. rewrite Hlo, Nat.eqb_refl. auto. }
          constructor; auto. destruct (bounds_consistent (vr s' (b_var b))) eqn:Eok.
          * split; [apply (eqp_set s s' b); auto; apply (set_or s s' b true); auto|]. split; auto. apply bounds_consistent_true; auto.
          * apply bounds_consistent_false; auto.
        + subst s'. rewrite (proj2 (bounds_consistent_true s (b_var b)) Hbcx). apply Hrefl. split; auto. split; [congruence|].
          intros _. apply above_lower_ge in Eb. auto.
      - (* = *)
        destruct (update_upper_ok a b s Hx) as (s1 & E & Bo & Hc). rewrite E. cbn [mbind res_bind].
        destruct (below_upper (vr s (b_var b)) (b_val b)) eqn:Eb.
        + destruct Hc as (Hbt & Hlo & Hup). rewrite Hdl in Hbt. rewrite below_upper_lt in Eb.
          destruct (one_side s s1 b false) as (Sh1 & Hh1 & Hps1 & Ht1 & Ho1 & Hs1); auto.
          { congruence. }
          pose proof Bo as (A1 & A2 & A3 & A4 & A5 & A6 & A7 & A8 & A9 & A10).
          assert (Eu1 : up s1 (b_var b) = Some b) by (rewrite Hup, Nat.eqb_refl; auto).
          assert (El1 : lo s1 (b_var b) = lo s (b_var b)) by auto.
          assert (Hx1 : b_var b < nv s1) by (rewrite (stat_nv _ _ A1); auto).
          assert (Ebd : s_bounds s1 = s_bounds s) by (apply stat_bounds; auto).
          destruct (bounds_consistent (vr s1 (b_var b))) eqn:Et.
          2:{ exists s1, false. split; auto. constructor; auto. apply bounds_consistent_false; auto. }
          assert (Esb : same_bound (up s1 (b_var b)) b = true) by (rewrite Eu1; cbn; apply Nat.eqb_refl).
          assert (Hnone : L <> 0 -> above_lower (vr s1 (b_var b)) (b_val b) = true -> lo s (b_var b) = None /\ up s (b_var b) = None).
          { intros HL Eab. rewrite above_lower_lt, El1 in Eab. destruct Hsafe as [|Hsafe]; [contradiction|]. specialize (Hsafe Er). split.
            - destruct (lo s (b_var b)) as [l|] eqn:El; auto. exfalso. destruct (Hps true (b_var b) l El) as (U1 & U2 & U3 & U4). specialize (Eab l eq_refl).
              destruct (b_rel l) eqn:Erl; [congruence|apply (Hsafe l U1 U2 U4); unfold bloose; rewrite Erl; auto|].
              destruct (Heq true (b_var b) l El) as [Hu _]. destruct Hu as (u & Eu & Hle); [congruence|]. rewrite U2 in Eu. specialize (Eb u Eu).
              apply (vlt_irrefl (b_val b)). eapply vlt_le_trans; [exact Eb|]. eapply vle_trans; [exact Hle|]. apply vlt_le; auto.
            - destruct (up s (b_var b)) as [u|] eqn:Eu; auto. exfalso. destruct (Hps false (b_var b) u Eu) as (U1 & U2 & U3 & U4). specialize (Eb u eq_refl).
              destruct (b_rel u) eqn:Erl; [apply (Hsafe u U1 U2 U4); unfold bloose; rewrite Erl; auto|congruence|].
              destruct (Heq false (b_var b) u Eu) as [_ Hl]. destruct Hl as (l & El & Hle); [congruence|]. rewrite U2 in El. specialize (Eab l El).
              apply (vlt_irrefl (b_val b)). eapply vlt_le_trans; [exact Eb|]. eapply vle_trans; [exact Hle|]. apply vlt_le; auto. }
          assert (Hbt1 : above_lower (vr s1 (b_var b)) (b_val b) = true -> s_btrail s1 <> []).
          { intros Eab. destruct (Nat.eq_dec L 0) as [EL|HL].
            - apply (hist_top0_trail keep s0 _ L lits p fs _ _ _ (obs s1) false (b_var b) b EL Hh1 Eu1).
            - destruct (Hnone HL Eab) as [_ Eu]. rewrite Hbt, Eu. destruct (s_btrail s); discriminate. }
          destruct (update_lower_ok a b s1 Hx1) as (s2 & E2 & Bo2 & Hc2); [auto|].
          exists s2, (bounds_consistent (vr s2 (b_var b))). split; auto.
          assert (Bo' : bonly s s2) by (eapply bonly_trans; eauto). pose proof Bo' as (B1 & B2 & B3 & B4 & B5 & B6 & B7 & B8 & B9 & B10).
          destruct (above_lower (vr s1 (b_var b)) (b_val b)) eqn:Eab.
          2:{ (* the lower bound is not improved *)
            subst s2. apply above_lower_ge in Eab as (l & El & Hle). constructor; auto. rewrite Et.
            assert (Him : bimpl (obs s1) b).
            { split; intros _; [exists b|exists l]; split; auto using vle_refl. }
            split; [apply (eqp_set s s1 b); auto; apply (set_or s s1 b false); auto|]. split; auto. apply bounds_consistent_true; auto. }
          destruct Hc2 as (Ht2 & Hup2 & Hlo2).
          assert (El2 : lo s2 (b_var b) = Some b) by (rewrite Hlo2, Nat.eqb_refl; auto).
          assert (Eu2 : up s2 (b_var b) = Some b) by (rewrite Hup2, Hup, Nat.eqb_refl; auto).
          assert (Hs2 : forall m y, n_side (obs s2) m y = if y =? b_var b then Some b else n_side (obs s) m y).
          { intros m y. unfold n_side, obs; cbn. destruct m.
            - rewrite Hlo2, Hlo. destruct (y =? b_var b); reflexivity.
            - rewrite Hup2, Hup. destruct (y =? b_var b); reflexivity. }
          assert (Ok2 : bounds_consistent (vr s2 (b_var b)) = true).
          { apply bounds_consistent_true. intros l u E1 E3. assert (l = b) by congruence. assert (u = b) by congruence. subst. apply vle_refl. }
          assert (Hbtv : forall e, e ∈ s_btrail s2 -> e.1.1 < nv s).
          { intros e He. rewrite Esb in Ht2. pose proof (sh_bt _ Sh1) as Hv1. rewrite (stat_nv _ _ A1) in Hv1.
            destruct (match lo s1 (b_var b) with Some l => _ | None => _ end); [|rewrite Ht2 in He; auto].
            destruct Ht2 as (t & y & r & ob & T1 & T2). rewrite T2 in He. apply elem_of_app in He as [He|He].
            - apply Hv1. rewrite T1. apply elem_of_app; auto.
            - apply elem_of_list_singleton in He as ->. apply (Hv1 (y, r, ob)). rewrite T1. apply elem_of_app. right. left. }
          assert (Ht : tighter (obs s) (obs s2)).
          { split; intros z l E1.
            - change (n_lo (obs s2) z) with (n_side (obs s2) true z). rewrite Hs2. destruct (Nat.eqb_spec z (b_var b)) as [->|]; [|exists l; auto using vle_refl].
              exists b. split; auto. rewrite above_lower_lt in Eab. apply vlt_le, Eab. rewrite El1. exact E1.
            - change (n_up (obs s2) z) with (n_side (obs s2) false z). rewrite Hs2. destruct (Nat.eqb_spec z (b_var b)) as [->|]; [|exists l; auto using vle_refl].
              exists b. split; auto. apply vlt_le, Eb. exact E1. }
          assert (Him : bimpl (obs s2) b) by (split; intros _; exists b; split; auto using vle_refl).
          rewrite Ok2. constructor; auto.
          * apply (bonly_shape s); auto.
          * destruct (Nat.eq_dec L 0) as [EL|HL].
            -- rewrite B3, (stat_offs _ _ B1). apply (hist_top0 keep s0 _ L lits p fs _ (s_btrail s) _ _ (obs s) (obs s2) EL); auto; [apply obs_asg; auto|].
               specialize (Hbt1 eq_refl). rewrite Esb in Ht2. destruct (match lo s1 (b_var b) with Some l => _ | None => _ end); [|rewrite Ht2; auto].
               destruct Ht2 as (t & y & r & ob & T1 & T2). rewrite T2. destruct t; discriminate.
            -- destruct (Hnone HL eq_refl) as [El Eu]. rewrite El1, El, Esb in Ht2. destruct Ht2 as (t & y & r & ob & T1 & T2).
               rewrite Hbt, Eu in T1. apply app_inj_tail in T1 as [<- T1]. injection T1 as <- <- <-.
               rewrite T2, B3, (stat_offs _ _ B1). apply (hist_eqset keep s0 _ L lits p fs _ _ _ (obs s) (obs s2) (b_var b) b); auto. apply obs_asg; auto.
          * intros m z c. rewrite Hs2. destruct (Nat.eqb_spec z (b_var b)) as [->|]; [|apply Hps]. intros [= <-]. split; auto. split; auto.
            split; [|apply lits_active; auto]. destruct m; congruence.
          * intros m z Hz. rewrite Hs2. destruct (Nat.eqb_spec z (b_var b)); congruence.
          * split; [|split; auto; apply bounds_consistent_true; auto]. apply (eqp_set s s2 b); auto. intros m z c. rewrite Hs2. destruct (_ =? _); auto. intros [= <-]. auto.
        + (* upper bound not improved *)
          subst s1. apply below_upper_ge in Eb as (c & Ec & Hle).
          rewrite (proj2 (bounds_consistent_true s (b_var b)) Hbcx).
          assert (Hns : above_lower (vr s (b_var b)) (b_val b) = true -> same_bound (up s (b_var b)) b = false).
          { intros Eab. apply not_true_is_false. intros E0. apply Hsb in E0. rewrite above_lower_lt in Eab.
            destruct (Heq false (b_var b) b E0) as [_ Hl]. destruct Hl as (l & El & Hl); [congruence|]. specialize (Eab l El). apply (vlt_irrefl (b_val b)). eapply vle_lt_trans; eauto. }
          destruct (update_lower_ok a b s Hx) as (s2 & E2 & Bo2 & Hc2). { intros Eab Es. rewrite (Hns Eab) in Es. discriminate. }
          exists s2, (bounds_consistent (vr s2 (b_var b))). split; auto.
          destruct (above_lower (vr s (b_var b)) (b_val b)) eqn:Eab.
          * rewrite (Hns eq_refl), Hdl in Hc2. destruct Hc2 as (Hbt & Hup2 & Hlo2). rewrite above_lower_lt in Eab.
            destruct (one_side s s2 b true) as (Sh' & Hh' & Hps' & Ht & Ho & Hs); auto.
            { congruence. }
            { change (n_side (obs s) true (b_var b)) with (lo s (b_var b)). destruct (match lo s (b_var b) with Some l => _ | None => _ end); rewrite ?app_nil_r; auto. }
            assert (Him : bimpl (obs s2) b).
            { split; intros _; [exists c|exists b]; (split; [|auto using vle_refl]); cbn; [rewrite Hup2; auto|rewrite Hlo2, Nat.eqb_refl; auto]. }
            constructor; auto. destruct (bounds_consistent (vr s2 (b_var b))) eqn:Eok.
            -- split; [apply (eqp_set s s2 b); auto; apply (set_or s s2 b true); auto|]. split; auto. apply bounds_consistent_true; auto.
            -- apply bounds_consistent_false; auto.
          * subst s2. rewrite (proj2 (bounds_consistent_true s (b_var b)) Hbcx). apply Hrefl. split; auto. apply above_lower_ge in Eab as (l & El & Hle').
            split; intros _; [exists c|exists l]; auto.
    Qed.
  End one.
End updates.
