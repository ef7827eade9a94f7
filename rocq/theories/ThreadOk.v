(** * One thread: check keeps the invariant *)

From Verif Require Import Num Sums Tableau TableauProofs Bland Solver SolverBase SolverStep Simplex SimplexLoop Hist Updates Core CoreSolve Propagate OptSelect Optimize Propagator.

Section thread.
  Context {V : Type} `{VL : ValueLaws V}.
  Implicit Types s : solver V.
  Implicit Types fs : list (frame V).

  (** adding a lower bound *)
  Lemma Live_assert keep s0 fs s v x lit cl : Live keep s0 fs s -> x < nv s -> lit ∉ active fs ->
    Live keep s0 fs (set_clause cl (set_bounds (s_bounds s ++ [Bound (length (s_bounds s)) v x lit BGe]) s)).
  Proof.
    intros [[[Sh Ps Bc Hr Hn Hq] Hh Hps Heq HR Hnv Hbs] Hf Hc] Hx Hl. set (nb := Bound (length (s_bounds s)) v x lit BGe).
    assert (Hsub : s_bounds s ⊆ s_bounds s ++ [nb]) by (intros b Hb; apply elem_of_app; auto).
    assert (Hin : forall b, b ∈ s_bounds s ++ [nb] -> b ∈ s_bounds s \/ b = nb).
    { intros b Hb. apply elem_of_app in Hb as [Hb|Hb]; auto. apply elem_of_list_singleton in Hb. auto. }
    assert (Hact : forall b, b ∈ s_bounds s ++ [nb] -> b_lit b ∈ active fs -> b ∈ s_bounds s).
    { intros b Hb Ha. apply Hin in Hb as [|E]; auto. subst b. exfalso. apply Hl, Ha. }
    constructor; [constructor|..]; auto.
    - constructor; auto. destruct Sh. constructor; auto.
      + intros b Hb. apply Hin in Hb as [Hb|E]; auto. rewrite E. exact Hx.
      + intros y b Hb. destruct (sh_vb y b Hb). split; [apply Hsub|]; auto.
    - exact (hist_bounds keep s0 _ _ fs _ _ _ _ Hsub Hact Hh).
    - exact (psnd_mono _ _ _ _ _ Hsub (fun l H' => H') Hps).
    - destruct Hbs as [B1 B2]. constructor; cbn [s_bounds set_clause set_bounds].
      + intros b Hb. rewrite app_length. cbn. apply Hin in Hb as [Hb|E]; [specialize (B1 b Hb); lia|subst b; cbn; lia].
      + intros b b' Hb Hb' E. apply Hin in Hb as [Hb|Eb]; apply Hin in Hb' as [Hb'|Eb']; auto.
        * subst b'. specialize (B1 b Hb). cbn in E. lia.
        * subst b. specialize (B1 b' Hb'). cbn in E. lia.
        * congruence.
    - intros b Hb Ha. apply Hc; [apply Hact|]; auto.
  Qed.

  (** a call that fails has handed over a clause *)
  Definition grew (log log' : list (list Z)) (ok : bool) : Prop := length log <= length log' /\ (ok = false -> length log < length log').
  Lemma prop_bounds_grew h test clause bs s log s' log' ok : prop_bounds h test clause bs s log = (s', log', ok) -> grew log log' ok.
  Proof.
    revert s log. induction bs as [|b bs IH]; intros s log E; cbn [prop_bounds] in E.
    - injection E as <- <- <-. split; [lia|discriminate].
    - destruct (_ && _); [|apply (IH _ _ E)]. destruct (h_reply _ _).
      + destruct (IH _ _ E) as [A B]. rewrite app_length in *. cbn in *. split; [lia|]. intros Hf. specialize (B Hf). lia.
      + injection E as <- <- <-. unfold grew. rewrite app_length. cbn. lia.
  Qed.
  Lemma prop_row_grew h i s log s' log' ok : prop_row h i s log = Ok (s', log', ok) -> grew log log' ok.
  Proof.
    unfold prop_row. destruct (at_ (s_vars s) i); cbn [mbind res_bind]; try discriminate.
    destruct (update_row _ _ _ _) as [[lo0 up0]| | |]; cbn [mbind res_bind]; try discriminate.
    destruct (negb up0 && negb lo0); [intros [= <- <- <-]; split; [lia|discriminate]|].
    destruct (update_row _ _ _ _) as [[l0 u0]| | |]; cbn [mbind res_bind]; try discriminate.
    destruct (basic_ _ _); cbn [mbind res_bind]; try discriminate.
    destruct (at_ _ _); cbn [mbind res_bind]; try discriminate.
    match goal with |- (let '(_, _) := ?X in _) = _ -> _ => destruct X as [[s1 log1] ok1] eqn:E1 end.
    assert (G1 : grew log log1 ok1).
    { destruct (u0.1); [eapply prop_bounds_grew; eauto|]. injection E1 as <- <- <-. split; [lia|discriminate]. }
    destruct ok1; cbn [negb]; [|intros [= <- <- <-]; auto].
    destruct (l0.1); intros E2.
    - injection E2 as E2. destruct (prop_bounds_grew _ _ _ _ _ _ _ _ _ E2) as [A B]. destruct G1 as [C _]. split; [lia|]. intros Hf. specialize (B Hf). lia.
    - injection E2 as <- <- <-. auto.
  Qed.
  Lemma prop_rows_grew h ch is s log s' log' ok : prop_rows h ch is s log = Ok (s', log', ok) -> grew log log' ok.
  Proof.
    revert s log. induction is as [|i is IH]; intros s log; cbn [prop_rows].
    - intros [= <- <- <-]. split; [lia|discriminate].
    - destruct (prop_row _ _ _ _) as [[[s1 log1] ok1]| | |] eqn:E1; cbn [mbind res_bind]; try discriminate.
      apply prop_row_grew in E1 as [A B]. destruct ok1.
      + intros E2. apply IH in E2 as [C D]. split; [lia|]. intros Hf. specialize (D Hf). lia.
      + intros [= <- <- <-]. split; auto.
  Qed.
  Lemma solve_grew fuel h o a lits s log s' log' ok : solve fuel h o a lits s log = Ok (s', log', ok) -> grew log log' ok.
  Proof.
    unfold solve. destruct (solve_core _ _ _ _ _) as [[s1 ok1]| | |]; cbn [mbind res_bind]; try discriminate. destruct ok1.
    - unfold propagate_. destruct (o_pmode o).
      + intros [= <- <- <-]. split; [lia|discriminate].
      + apply prop_rows_grew.
      + apply prop_rows_grew.
    - intros [= <- <- <-]. unfold grew. rewrite app_length. cbn. lia.
  Qed.

  (** ** Invariant of a thread relative to its prepared solver [s0] *)
  Definition glob (o : options) : bool := match o_global o with Some _ => true | None => false end.

  (** [ass]: the objective bounds asserted so far, [rep]: the objective values reported *)
  Record TB (o : options) (s0 : solver V) (ass : list (Z * V)) (rep : list (V * bool)) s : Prop := {
    tb_nn : s_nn s = s_nn s0;
    tb_var : ob_var (s_obj s) = ob_var (s_obj s0);
    tb_bvar : ob_bound_var (s_obj s) = ob_bound_var (s_obj s0);
    tb_act : ob_active (s_obj s) = ob_active (s_obj s0);
    tb_bs : exists ex, s_bounds s = s_bounds s0 ++ ex /\ forall b, b ∈ ex -> b_rel b = BGe /\ b_var b = ob_bound_var (s_obj s0) /\
              (b_lit b, b_val b) ∈ ass /\ ob_active (s_obj s0) = true /\ glob o = true;
    tb_zb : ob_active (s_obj s0) = true -> Bs s (ob_var (s_obj s0)) = true;
    tb_disc : ob_discard (s_obj s) = true -> exists w, (w, false) ∈ rep;
  }.
  (** the objective rows of a prepared solver *)
  Record rows0 (o : options) (s0 : solver V) : Prop := {
    r0_var : ob_active (s_obj s0) = true -> ob_var (s_obj s0) < nv s0 /\ forall b, b ∈ s_bounds s0 -> b_var b <> ob_var (s_obj s0);
    r0_bvar : ob_active (s_obj s0) = true -> glob o = true -> ob_bound_var (s_obj s0) < nv s0 /\ ob_bound_var (s_obj s0) <> ob_var (s_obj s0) /\
       forall b, b ∈ s_bounds s0 -> b_var b <> ob_bound_var (s_obj s0);
  }.

  Lemma TB_mono o s0 ass ass' rep rep' s : ass ⊆ ass' -> rep ⊆ rep' -> TB o s0 ass rep s -> TB o s0 ass' rep' s.
  Proof.
    intros Ha Hr [A B C D (ex & E & F) G I]. constructor; auto.
    - exists ex. split; auto. intros b Hb. destruct (F b Hb) as (? & ? & ? & ? & ?). auto 6.
    - intros Hd. destruct (I Hd) as [w Hw]. exists w. auto.
  Qed.
  Lemma TB_free o s0 ass rep s : rows0 o s0 -> TB o s0 ass rep s -> ob_active (s_obj s0) = true ->
    forall b, b ∈ s_bounds s -> b_var b <> ob_var (s_obj s0).
  Proof.
    intros [R1 R2] [_ _ _ _ (ex & E & F) _ _] Ha b Hb. rewrite E in Hb. apply elem_of_app in Hb as [Hb|Hb]; [apply R1; auto|].
    destruct (F b Hb) as (_ & -> & _ & _ & G). apply (R2 Ha G).
  Qed.
  Lemma TB_pstat o s0 ass rep s s' : rows0 o s0 -> nv s = nv s0 -> TB o s0 ass rep s -> pstat s' = pstat s -> freek s s' -> TB o s0 ass rep s'.
  Proof.
    intros R0 Hn HT Ep Hfk. pose proof HT as [A B C D E F G]. unfold pstat in Ep. injection Ep as E1 E2 E3 E4 E5.
    constructor; rewrite ?E1, ?E3, ?E4; auto.
    intros Ha. apply Hfk; auto.
    - rewrite Hn. apply R0; auto.
    - apply (TB_free o s0 ass rep); auto.
  Qed.
  Lemma TB_obj o s0 ass rep s ob : TB o s0 ass rep s -> ob_var ob = ob_var (s_obj s) -> ob_bound_var ob = ob_bound_var (s_obj s) ->
    ob_active ob = ob_active (s_obj s) -> (ob_discard ob = true -> exists w, (w, false) ∈ rep) -> TB o s0 ass rep (set_obj ob s).
  Proof. intros [A B C D E F G] E1 E2 E3 E4. constructor; cbn; auto; congruence. Qed.

  (** ** assert_bound_ *)
  Lemma assert_ok keep o s0 fs s ass rep h lit v log : rows0 o s0 -> Live keep s0 fs s -> TB o s0 ass rep s ->
    ob_active (s_obj s0) = true -> glob o = true -> lit ∉ active fs -> (lit, v) ∈ ass ->
    exists s' ok, assert_bound h lit v s log = (s', log ++ [[lit]], ok) /\ Live keep s0 fs s' /\ TB o s0 ass rep s' /\ s_obj s' = s_obj s /\ (forall y, val s' y = val s y).
  Proof.
    intros R0 HL HT Ha Hg Hl Hin. unfold assert_bound. eexists _, _. split; [reflexivity|].
    pose proof (md_nv _ _ _ _ (lv_M _ _ _ _ HL)) as Hnv. destruct R0 as [R1 R2]. destruct (R2 Ha Hg) as (P1 & P2 & P3).
    pose proof HT as [A B C D (ex & E & F) G I]. split; [|split; [|split; [reflexivity|intros y; reflexivity]]].
    - apply Live_assert; auto.
      rewrite C, Hnv. auto.
    - constructor; cbn; auto.
      exists (ex ++ [Bound (length (s_bounds s)) v (ob_bound_var (s_obj s)) lit BGe]). rewrite E, app_assoc. split; auto.
      intros b Hb. apply elem_of_app in Hb as [Hb|Hb]; auto. apply elem_of_list_singleton in Hb as ->. cbn. auto.
  Qed.

  (** ** integrate_objective *)
  Definition stepok (o : options) : Prop := forall g, o_global o = Some g -> vstep (V := V) g <> None.
  (** an asserted bound is justified by a reported model *)
  Definition justified (o : options) (rep : list (V * bool)) (v : V) : Prop :=
    (exists w g d, (w, true) ∈ rep /\ o_global o = Some g /\ vstep g = Some d /\ v = vadd w d) \/ (glob o = true /\ exists w, (w, false) ∈ rep).
  (** state of the objective *)
  Definition osok (st : objst V) (s0 : solver V) (rep : list (V * bool)) : Prop :=
    os_gen st <> 0 -> (os_val st, os_bounded st) ∈ rep /\ ob_active (s_obj s0) = true.

  Lemma integrate_ok keep o s0 fs s ass rep h lit st log : rows0 o s0 -> stepok o -> Live keep s0 fs s -> TB o s0 ass rep s ->
    osok st s0 rep -> ob_gen (s_obj s) <= os_gen st -> lit ∉ active fs ->
    exists s' log' ok ass', integrate_objective h o lit st s log = Ok (s', log', ok) /\ Live keep s0 fs s' /\ TB o s0 (ass ++ ass') rep s' /\
      ob_gen (s_obj s') <= os_gen st /\ (forall y, val s' y = val s y) /\
      ((ass' = [] /\ log' = log /\ ok = true) \/ exists v, ass' = [(lit, v)] /\ log' = log ++ [[lit]] /\ justified o rep v).
  Proof.
    intros R0 So HL HT Ho Hg Hl. unfold integrate_objective. destruct (o_global o) as [g|] eqn:Eg.
    2:{ exists s, log, true, []. rewrite app_nil_r. auto 10. }
    assert (Gl : glob o = true) by (unfold glob; rewrite Eg; auto).
    unfold os_value. destruct (Nat.eqb_spec (ob_gen (s_obj s)) (os_gen st)) as [E|E]; cbn [negb].
    - eexists _, _, _, []. split; [reflexivity|]. rewrite app_nil_r. split; [apply Live_obj; auto|]. split; [apply TB_obj; auto; apply HT|].
      split; [cbn; lia|]. split; [intros y; reflexivity|auto].
    - destruct (Ho ltac:(lia)) as [Hin Hact]. destruct (os_bounded st) eqn:Eb.
      + destruct (vstep g) as [d|] eqn:Ed; [|exfalso; apply (So g); auto].
        set (s1 := set_obj (obj_set_gen (os_gen st) (s_obj s)) s). set (v := vadd (os_val st) d).
        assert (HT1 : TB o s0 (ass ++ [(lit, v)]) rep s1).
        { apply TB_obj; auto; [|apply HT]. eapply TB_mono; [| |exact HT]; auto. intros x Hx. apply elem_of_app; auto. }
        destruct (assert_ok keep o s0 fs s1 (ass ++ [(lit, v)]) rep h lit v log R0) as (s' & ok & -> & L' & T' & O' & V'); auto.
        { apply Live_obj; auto. }
        { apply elem_of_app. right. left. }
        exists s', (log ++ [[lit]]), ok, [(lit, v)]. split; auto. split; auto. split; auto. split; [rewrite O'; cbn; lia|].
        split; [exact V'|]. right. exists v. split; auto. split; auto. left. exists (os_val st), g, d. auto.
      + eexists _, _, _, []. split; [reflexivity|]. rewrite app_nil_r. split; [apply Live_obj, Live_obj; auto|]. split; [|split; [cbn; lia|split; [intros y; reflexivity|auto]]].
        apply TB_obj; auto; [apply TB_obj; auto; apply HT|]. intros _. exists (os_val st). auto.
  Qed.

  (** ** discard_bounded *)
  Lemma discard_ok keep o s0 fs s ass rep h lit log : rows0 o s0 -> Live keep s0 fs s -> TB o s0 ass rep s -> lit ∉ active fs ->
    exists s' log' ok ass', discard_bounded h o lit s log = Ok (s', log', ok) /\ Live keep s0 fs s' /\ TB o s0 (ass ++ ass') rep s' /\
      s_obj s' = s_obj s /\ (forall y, val s' y = val s y) /\
      ((ass' = [] /\ log' = log /\ s' = s) \/ exists v, ass' = [(lit, v)] /\ log' = log ++ [[lit]] /\ justified o rep v).
  Proof.
    intros R0 HL HT Hl. unfold discard_bounded. destruct (ob_active (s_obj s)) eqn:Ea; cbn [negb orb].
    2:{ exists s, log, true, []. rewrite app_nil_r. auto 9. }
    change (match o_global o with Some _ => true | None => false end) with (glob o). destruct (glob o) eqn:Eg; cbn [negb orb].
    2:{ exists s, log, true, []. rewrite app_nil_r. auto 9. }
    destruct (ob_bounded (s_obj s)) eqn:Eb; cbn [negb orb].
    2:{ exists s, log, true, []. rewrite app_nil_r. auto 9. }
    destruct (ob_discard (s_obj s)) eqn:Ed; cbn [negb].
    2:{ exists s, log, true, []. rewrite app_nil_r. auto 9. }
    pose proof (md_nv _ _ _ _ (lv_M _ _ _ _ HL)) as Hnv. pose proof (tb_act _ _ _ _ _ HT) as Ha. rewrite Ea in Ha. symmetry in Ha.
    rewrite (tb_var _ _ _ _ _ HT). destruct (r0_var _ _ R0 Ha) as [Hz _].
    rewrite at_vr by (rewrite Hnv; auto). cbn [mbind res_bind]. set (v := vadd _ _).
    destruct (assert_ok keep o s0 fs s (ass ++ [(lit, v)]) rep h lit v log R0) as (s' & ok & -> & L' & T' & O' & V'); auto.
    { eapply TB_mono; [| |exact HT]; auto. intros x Hx. apply elem_of_app; auto. }
    { apply elem_of_app. right. left. }
    exists s', (log ++ [[lit]]), ok, [(lit, v)]. split; auto. split; auto. split; auto. split; auto. split; auto.
    right. exists v. split; auto. split; auto. right. split; auto. apply (tb_disc _ _ _ _ _ HT). auto.
  Qed.

  (** ** optimize and store_sat_assignment *)
  (** the value of the objective is optimal under the bounds of the solver, or the
      objective grows without limit *)
  Definition optres s : Prop := ob_active (s_obj s) = true ->
    if ob_bounded (s_obj s) then optimal (ob_var (s_obj s)) s else ray (ob_var (s_obj s)) s.

  Lemma optimize_thread keep o s0 fs s ass rep fuel : rows0 o s0 -> Live keep s0 fs s -> TB o s0 ass rep s -> 4 ^ nv s0 <= fuel ->
    exists s', optimize fuel o s = Ok s' /\ Live keep s0 fs s' /\ TB o s0 ass rep s' /\ ob_gen (s_obj s') = ob_gen (s_obj s) /\
      bnd_same s s' /\ optres s' /\ (ob_active (s_obj s0) = true -> vle (val s (ob_var (s_obj s0))) (val s' (ob_var (s_obj s0)))).
  Proof.
    intros R0 HL HT Hfuel. destruct (ob_active (s_obj s)) eqn:Ea.
    2:{ exists s. unfold optimize. rewrite Ea. split; auto. split; auto. split; auto. split; auto. split; [intros y; auto|].
        split; [unfold optres; congruence|]. intros _. apply vle_refl. }
    pose proof (md_nv _ _ _ _ (lv_M _ _ _ _ HL)) as Hnv. pose proof (tb_act _ _ _ _ _ HT) as Ha. rewrite Ea in Ha. symmetry in Ha.
    destruct (r0_var _ _ R0 Ha) as [Hz _]. set (z := ob_var (s_obj s0)) in *.
    destruct (psnd_free _ _ s z (md_ps _ _ _ _ (lv_M _ _ _ _ HL)) (TB_free o s0 ass rep s R0 HT Ha)) as [Lz Uz].
    destruct (optimize_ok keep s0 fs z fuel o s HL Ea (tb_var _ _ _ _ _ HT)) as (s' & E & P1 & [_ _ P2 P3 P4 (bd & P5) P6 P7 P8]); auto.
    { rewrite Hnv; auto. }
    { apply HT; auto. }
    { rewrite Hnv; auto. }
    exists s'. split; auto. split; auto. assert (E6 : s_nn s' = s_nn s /\ s_bounds s' = s_bounds s) by (split; congruence). destruct E6 as [E6 E7].
    pose proof HT as [A B C D F G I]. split; [|split; [rewrite P5; auto|split; [auto|split; auto]]].
    - constructor; rewrite ?P5; cbn; auto; try congruence. rewrite E7. auto.
    - intros _. replace (ob_var (s_obj s')) with z by (rewrite P5; cbn; symmetry; exact B). exact P7.
  Qed.

  (** bounds and values unchanged *)
  Lemma optres_same s s' : s_obj s' = s_obj s -> (forall a, rows s' a <-> rows s a) -> bnd_same s s' -> nv s' = nv s ->
    val s' (ob_var (s_obj s)) = val s (ob_var (s_obj s)) -> optres s -> optres s'.
  Proof.
    intros E1 Hr Hb Hn Hv Ho Ha. rewrite E1 in *. specialize (Ho Ha).
    assert (Hi : forall a, inall s' a <-> inall s a).
    { intros a. unfold inall. rewrite Hr, Hn. split; intros [A B]; split; auto; intros x Hx; specialize (B x Hx).
      - apply (within_same s' s); auto. intros y. destruct (Hb y) as (-> & -> & ->). auto.
      - apply (within_same s s'); auto. }
    destruct (ob_bounded (s_obj s)).
    - intros a Ha'. rewrite Hv. apply Ho, Hi; auto.
    - intros M HM. rewrite Hv in HM. destruct (Ho M HM) as (a & Ia & Ea). exists a. split; auto. apply Hi; auto.
  Qed.

  Definition optrun (o : options) (total : bool) s : Prop := total = true -> optres s.
  Lemma integrate_un h o lit st s log s' log' ok : integrate_objective h o lit st s log = Ok (s', log', ok) -> os_bounded st = false -> ok = true.
  Proof.
    unfold integrate_objective. destruct (o_global o) as [g|]; [|intros [= _ _ <-]; auto]. unfold os_value. destruct (negb _); [|intros [= _ _ <-]; auto].
    intros E Eb. rewrite Eb in E. injection E as _ _ <-. reflexivity.
  Qed.
  Lemma discard_optres h o lit s log s' log' ok : discard_bounded h o lit s log = Ok (s', log', ok) -> optres s -> optres s'.
  Proof.
    unfold discard_bounded. destruct (_ || _); [intros [= <- _ _]; auto|]. intros E Ho. apply bind_ok in E as (v & _ & E). unfold assert_bound in E. injection E as <- _ _. exact Ho.
  Qed.

  Theorem t_check_ok (keep : bool) o s0 fs s ass rep fuel h (a : asg) total lit1 lit2 facts foff st off log :
    rows0 o s0 -> stepok o -> Live keep s0 fs s -> TB o s0 ass rep s -> keep = match o_store o with StoreNo => true | _ => false end ->
    top fs <= a_dl a -> lv_ok a fs -> (forall l, l ∈ facts -> a_level a l = 0) -> osok st s0 rep -> ob_gen (s_obj s) <= os_gen st ->
    (forall l, l = lit1 \/ l = lit2 -> l ∉ active fs /\ l ∉ facts) -> (off = 0 \/ off = foff) -> foff <= length facts -> 4 ^ nv s0 <= fuel ->
    let fs' := if (a_dl a =? 0) && (off <? foff) then enter 0 (take foff facts) s fs else fs in
    exists off' s' log' ok ass', t_check fuel h o a total lit1 lit2 facts foff st off s log = Ok (off', s', log', ok) /\
      TB o s0 (ass ++ ass') rep s' /\ ob_gen (s_obj s') <= os_gen st /\ (off' = 0 \/ off' = foff) /\
      (forall l v, (l, v) ∈ ass' -> (l = lit1 \/ l = lit2) /\ justified o rep v /\ [l] ∈ log') /\
      (exists new, log' = log ++ new /\ forall c, c ∈ new -> valid s0 (s_bounds s) c \/ exists l v, (l, v) ∈ ass' /\ c = [l]) /\
      (ok = false -> length log < length log' /\ ass' = []) /\
      ((a_dl a =? 0) && (off <? foff) = false -> ok = true /\ (ob_active (s_obj s0) = true -> vle (val s (ob_var (s_obj s0))) (val s' (ob_var (s_obj s0))))) /\
      (Live keep s0 fs' s' /\ (ok = true -> log' = log \/ os_bounded st = false -> optrun o total s') \/
       ok = false /\ Dead keep s0 fs' s' /\ exists c, log' = log ++ [c] /\ refutes s0 (s_bounds s) (active fs') c).
  Proof.
    intros R0 So HL HT Hk Htop Hlv Hfl Ho Hg Hfresh Hoff Hfo Hfuel fs'. unfold t_check.
    pose proof (md_nv _ _ _ _ (lv_M _ _ _ _ HL)) as Hnv.
    assert (Hkeep : keep = true -> o_store o <> StorePartial) by (rewrite Hk; destruct (o_store o); congruence).
    (* solving the facts *)
    assert (HA : exists off1 s1 log1 ok1,
      (if (a_dl a =? 0) && (off <? foff) then
         _ ← guard_ub (off + foff <=? length facts);
         '(s1, log1, ok1) ← solve fuel h o a (take foff (drop off facts)) s log; Ok (foff, s1, log1, ok1)
       else Ok (off, s, log, true)) = Ok (off1, s1, log1, ok1) /\ pstat s1 = pstat s /\ freek s s1 /\ (off1 = 0 \/ off1 = foff) /\
       (exists new, log1 = log ++ new /\ forall c, c ∈ new -> valid s0 (s_bounds s) c) /\ (ok1 = false -> length log < length log1) /\
       ((a_dl a =? 0) && (off <? foff) = false -> s1 = s /\ ok1 = true) /\
       (Live keep s0 fs' s1 \/ ok1 = false /\ Dead keep s0 fs' s1 /\ exists c, log1 = log ++ [c] /\ refutes s0 (s_bounds s) (active fs') c)).
    { subst fs'. destruct (Nat.eqb_spec (a_dl a) 0) as [Ed|Ed], (Nat.ltb_spec off foff) as [Ef|Ef]; cbn [andb];
        try (exists off, s, log, true; split; [reflexivity|]; split; [reflexivity|]; split; [intros z _ _ ?; auto|]; split; [auto|]; split; [exists []; rewrite app_nil_r; split; auto; intros c Hc; inversion Hc|split; [discriminate|split; [auto|left; auto]]]; fail).
      assert (off = 0) as -> by lia. rewrite drop_0. unfold guard_ub. rewrite (proj2 (Nat.leb_le _ _)) by lia. cbn [mbind res_bind].
      destruct (solve_ok keep s0 fs s a o h (take foff facts) log fuel HL Htop Hkeep) as (s1 & log1 & ok1 & Esol & Ep & Hfk & Hnew & Hres).
      { rewrite Ed. unfold enter. destruct fs as [|f r].
        - intros f l Hf Hl. apply elem_of_list_singleton in Hf as ->. cbn in *. apply Hfl. eapply elem_of_take in Hl as (i & ? & _). eapply elem_of_list_lookup_2; eauto.
        - rewrite Ed in Htop. cbn in Htop. destruct (Nat.ltb_spec (f_level f) 0); [lia|]. intros f' l Hf Hl. apply elem_of_cons in Hf as [->|Hf].
          + cbn in *. apply elem_of_app in Hl as [Hl|Hl]; [apply Hlv; auto; left|]. replace (f_level f) with 0 by lia.
            apply Hfl. eapply elem_of_take in Hl as (i & ? & _). eapply elem_of_list_lookup_2; eauto.
          + apply Hlv; auto. right; auto. }
      { intros b Hb Hl. left. auto. }
      { rewrite Hnv; auto. }
      rewrite Esol. cbn [mbind res_bind]. rewrite Ed in Hres. exists foff, s1, log1, ok1. split; auto. split; auto. split; auto. split; auto. split; auto.
      split; [apply (solve_grew _ _ _ _ _ _ _ _ _ _ Esol)|]. split; [discriminate|auto]. }
    destruct HA as (off1 & s1 & log1 & ok1 & -> & Ep & Hfk & Hoff1 & (n1 & -> & N1) & Hgr & Hsame & Hres). cbn [mbind res_bind].
    assert (HT1 : TB o s0 ass rep s1) by (eapply TB_pstat; eauto).
    assert (Hg1 : ob_gen (s_obj s1) <= os_gen st) by (unfold pstat in Ep; replace (s_obj s1) with (s_obj s) by congruence; auto).
    assert (Eb1 : s_bounds s1 = s_bounds s) by (unfold pstat in Ep; congruence).
    assert (Hfresh' : forall l, l = lit1 \/ l = lit2 -> l ∉ active fs').
    { intros l Hl. destruct (Hfresh l Hl) as [A B]. subst fs'. destruct ((a_dl a =? 0) && (off <? foff)); auto. rewrite enter_active. intros [|Hi]; auto.
      apply B. eapply elem_of_take in Hi as (i & ? & _). eapply elem_of_list_lookup_2; eauto. }
    destruct ok1; cbn [negb].
    2:{ exists off1, s1, (log ++ n1), false, []. rewrite app_nil_r. split; auto. split; auto. split; auto. split; auto. split; [intros l v Hi; inversion Hi|].
        split; [exists n1; split; auto|]. split; auto. split; [intros Hc; destruct (Hsame Hc); discriminate|]. destruct Hres as [Hres|(_ & HD & Hc)]; [left; split; [auto|discriminate]|right; auto]. }
    destruct Hres as [L1|(? & _)]; [|discriminate].
    destruct (integrate_ok keep o s0 fs' s1 ass rep h lit1 st (log ++ n1) R0 So L1 HT1 Ho Hg1) as (s2 & log2 & ok2 & ass2 & EI & L2 & T2 & G2 & V2 & D2); [apply Hfresh'; auto|]. pose proof (integrate_un _ _ _ _ _ _ _ _ _ EI) as Hun. rewrite EI. clear EI.
    cbn [mbind res_bind].
    assert (Hlog2 : exists new, log2 = log ++ new /\ (forall c, c ∈ new -> valid s0 (s_bounds s) c \/ exists l v, (l, v) ∈ ass2 /\ c = [l]) /\ (new = [] -> ass2 = [])).
    { destruct D2 as [(-> & -> & _)|(v & -> & -> & _)].
      - exists n1. split; auto.
      - exists (n1 ++ [[lit1]]). rewrite app_assoc. split; auto. split; [|destruct n1; discriminate]. intros c Hc. apply elem_of_app in Hc as [Hc|Hc]; auto.
        apply elem_of_list_singleton in Hc as ->. right. exists lit1, v. split; auto. left. }
    assert (Hass2 : forall l v, (l, v) ∈ ass2 -> (l = lit1 \/ l = lit2) /\ justified o rep v /\ [l] ∈ log2).
    { intros l v Hi. destruct D2 as [(-> & -> & _)|(v' & -> & -> & Hj)]; [inversion Hi|]. apply elem_of_list_singleton in Hi. injection Hi as -> ->. split; auto. split; auto.
      apply elem_of_app. right. left. }
    destruct Hlog2 as (n2 & -> & N2 & N2e).
    destruct ok2; cbn [negb].
    2:{ exists off1, s2, (log ++ n2), true, ass2. split; auto. split; auto. split; auto. split; auto. split; auto. split; [exists n2; split; auto|]. split; [discriminate|].
        split; [intros Hc; split; auto; intros Hact; destruct (Hsame Hc) as [-> _]; rewrite V2; apply vle_refl|].
        left. split; auto. intros _ [Ee|Ee]; [|specialize (Hun Ee); discriminate]. apply (f_equal length) in Ee. rewrite app_length in Ee. assert (n2 = []) as -> by (destruct n2; cbn in Ee; [auto|lia]).
        destruct D2 as [(-> & _ & ?)|(v & -> & _ & _)]; [discriminate|specialize (N2e eq_refl); discriminate]. }
    destruct total.
    2:{ exists off1, s2, (log ++ n2), true, ass2. split; auto. split; auto. split; auto. split; auto. split; auto. split; [exists n2; split; auto|]. split; [discriminate|].
        split; [intros Hc; split; auto; intros Hact; destruct (Hsame Hc) as [-> _]; rewrite V2; apply vle_refl|].
        left. split; auto. intros _ _ ?. discriminate. }
    destruct (optimize_thread keep o s0 fs' s2 (ass ++ ass2) rep fuel R0 L2 T2 Hfuel) as (s3 & -> & L3 & T3 & G3 & B3 & O3 & M3). cbn [mbind res_bind].
    assert (HS : exists s4, (match o_store o with StoreNo => Ok s3 | _ => store_sat s3 end) = Ok s4 /\ Live keep s0 fs' s4 /\ TB o s0 (ass ++ ass2) rep s4 /\ s_obj s4 = s_obj s3 /\ optres s4 /\ forall y, val s4 y = val s3 y).
    { destruct keep eqn:Ek.
      - exists s3. destruct (o_store o); try discriminate. auto 6.
      - destruct (store_sat_ok false s0 fs' s3 L3) as (s4 & E4 & L4 & B4 & V4 & P4 & Tb4 & Bd4 & Ob4 & Nn4 & Nb4 & Nv4).
        exists s4. split; [destruct (o_store o); [discriminate|auto|auto]|]. split; auto.
        assert (Fk : forall y, Bs s4 y = Bs s3 y) by (intros y; unfold Bs; rewrite Nn4; destruct (P4 y) as [_ ->]; auto).
        pose proof T3 as [A B C D E F I]. split; [constructor; rewrite ?Ob4, ?Nn4, ?Bd4, ?Fk; auto|]. split; auto.
        split; [|exact V4]. apply (optres_same s3); auto. intros c. rewrite (md_R _ _ _ _ (lv_M _ _ _ _ L4)), (md_R _ _ _ _ (lv_M _ _ _ _ L3)). reflexivity. }
    destruct HS as (s4 & -> & L4 & T4 & G4 & O4 & W4). cbn [mbind res_bind].
    destruct (discard_ok keep o s0 fs' s4 (ass ++ ass2) rep h lit2 (log ++ n2) R0 L4 T4) as (s5 & log5 & ok5 & ass5 & EI & L5 & T5 & G5 & V5 & D5); [apply Hfresh'; auto|]. pose proof (discard_optres _ _ _ _ _ _ _ _ EI) as Hop. rewrite EI. clear EI.
    cbn [mbind res_bind]. exists off1, s5, log5, true, (ass2 ++ ass5). rewrite app_assoc. split; auto. split; auto.
    split; [rewrite G5, G4, G3; auto|]. split; auto. split; [|split; [|split; [discriminate|split; [intros Hc; split; auto; intros Hact; destruct (Hsame Hc) as [-> _]; rewrite V5, W4; rewrite <- V2; apply M3; auto|]]]].
    - intros l v Hi. apply elem_of_app in Hi as [Hi|Hi].
      + destruct (Hass2 l v Hi) as (A1 & A2 & A3). split; auto. split; auto. destruct D5 as [(-> & -> & ->)|(v' & -> & -> & Hj)]; auto. apply elem_of_app; auto.
      + destruct D5 as [(-> & -> & ->)|(v' & -> & -> & Hj)]; [inversion Hi|].
        apply elem_of_list_singleton in Hi. injection Hi as -> ->. split; auto. split; auto. apply elem_of_app. right. left.
    - assert (N2' : forall c, c ∈ n2 -> valid s0 (s_bounds s) c \/ exists l v, (l, v) ∈ ass2 ++ ass5 /\ c = [l]).
      { intros c Hc. destruct (N2 c Hc) as [|(l & v & Hi & Ec)]; auto. right. exists l, v. split; auto. apply elem_of_app; auto. }
      destruct D5 as [(-> & -> & ->)|(v & -> & -> & _)]; [exists n2; auto|]. exists (n2 ++ [[lit2]]). rewrite app_assoc. split; auto.
      intros c Hc. apply elem_of_app in Hc as [Hc|Hc]; auto. apply elem_of_list_singleton in Hc as ->. right. exists lit2, v. split; auto.
      apply elem_of_app. right. left.
    - left. split; auto. intros _ _ _. exact (Hop O4).
  Qed.
End thread.
