(** * Proofs about atoms and programs (Parsing.v against ParseSpec.v) *)

From Verif Require Import Num Sums Solver Spec Propagator World Parsing ParseSpec ParseNum ParseProofs ParseSum.

(** ** simplify *)
Fixpoint good (done : terms) : Prop :=
  match done with
  | [] => True
  | t :: r => (t.2 = SNum 0 -> t.1 = 0%Qc) /\ (forall t', t' ∈ r -> t'.2 = t.2 -> t'.1 = 0%Qc) /\ good r
  end.
Lemma add_to_some c x done done' : add_to c x done = Some done' ->
  map snd done' = map snd done /\ x ∈ map snd done /\ (forall A : symbol -> Qc, lin A done' = (lin A done + c * A x)%Qc) /\
  (forall t, t ∈ done' -> t ∈ done \/ (t.2 = x)) .
Proof.
  revert done'. induction done as [|t r IH]; intros done'; cbn [add_to]; [discriminate|].
  destruct (decide (x = t.2)) as [E|E].
  - intros [= <-]. split; [auto|]. split; [cbn; rewrite E; left|]. split.
    + intros A. destruct t as [d y]. cbn in *. subst y. ring.
    + intros t' Ht. apply elem_of_cons in Ht as [->|Ht]; [right; auto|left; right; auto].
  - destruct (add_to c x r) as [r'|] eqn:Er; [|discriminate]. intros [= <-]. destruct (IH _ eq_refl) as (H1 & H2 & H3 & H4). split; [cbn; f_equal; auto|].
    split; [cbn; right; auto|]. split.
    + intros A. destruct t as [d y]. cbn. rewrite H3. ring.
    + intros t' Ht. apply elem_of_cons in Ht as [->|Ht]; [left; left|]. apply H4 in Ht as [Ht|Ht]; [left; right; auto|right; auto].
Qed.
Lemma add_to_none c x done : add_to c x done = None -> x ∉ map snd done.
Proof.
  induction done as [|t r IH]; cbn [add_to map]; [intros _ Hx; inversion Hx|].
  destruct (decide (x = t.2)); [discriminate|]. destruct (add_to c x r); [discriminate|]. intros _ Hx. apply elem_of_cons in Hx as [|Hx]; [auto|]. apply IH; auto.
Qed.
Lemma add_to_good c x done done' : x <> SNum 0 -> good done -> add_to c x done = Some done' -> good done'.
Proof.
  intros Hx. revert done'. induction done as [|t r IH]; intros done' Hg; cbn [add_to]; [discriminate|]. destruct Hg as (G1 & G2 & G3).
  destruct (decide (x = t.2)) as [E|E].
  - intros [= <-]. cbn. split; [intros; congruence|]. auto.
  - destruct (add_to c x r) as [r'|] eqn:Er; [|discriminate]. intros [= <-]. cbn. split; auto. split; [|apply IH; auto].
    intros t' Ht Et. destruct (add_to_some _ _ _ _ Er) as (_ & _ & _ & H4). apply H4 in Ht as [Ht|Ht]; auto. congruence.
Qed.
Lemma good_snoc done t : good done -> (t.1 = 0%Qc \/ (t.2 <> SNum 0 /\ t.2 ∉ map snd done)) -> good (done ++ [t]).
Proof.
  intros Hg Ht. induction done as [|u r IH]; cbn.
  - split; [destruct Ht as [|[? _]]; [auto|congruence]|]. split; auto. intros t' Ht'. inversion Ht'.
  - destruct Hg as (G1 & G2 & G3). split; auto. split.
    + intros t' Ht' E. apply elem_of_app in Ht' as [Ht'|Ht']; auto. apply elem_of_list_singleton in Ht' as ->.
      destruct Ht as [|[_ Hn]]; auto. destruct Hn. cbn. rewrite E. left.
    + apply IH; auto. destruct Ht as [|[? Hn]]; [auto|right]. split; auto. intros Hin. apply Hn. cbn. right. auto.
Qed.
Lemma combine_spec ts : forall done rhs done' rhs', good done -> combine ts done rhs = (done', rhs') ->
  good done' /\ (forall s, s ∈ map snd done' <-> s ∈ map snd done \/ s ∈ map snd ts) /\
  forall A, (lin (with_unit A) done' - rhs' = lin (with_unit A) done + lin (with_unit A) ts - rhs)%Qc.
Proof.
  induction ts as [|t ts IH]; intros done rhs done' rhs' Hg; cbn [combine].
  - intros [= <- <-]. split; auto. split; [|intros A; cbn; ring]. intros s. split; auto. intros [|Hs]; auto. inversion Hs.
  - destruct t as [c x]. cbn [fst snd]. destruct (is_invalid x) eqn:Ei.
    + apply is_invalid_spec in Ei as ->. intros E. apply IH in E as (H1 & H2 & H3); [|apply good_snoc; auto]. split; auto. split.
      * intros s. rewrite H2, map_app. cbn. rewrite elem_of_app, elem_of_list_singleton, elem_of_cons. tauto.
      * intros A. rewrite H3, lin_app. cbn. rewrite with_unit_0. ring.
    + apply is_invalid_false in Ei. destruct (add_to c x done) as [done1|] eqn:Ea; intros E.
      * destruct (add_to_some _ _ _ _ Ea) as (A1 & A2 & A3 & _). apply IH in E as (H1 & H2 & H3); [|apply good_snoc; [apply (add_to_good c x done); auto|auto]]. split; auto. split.
        -- intros s. rewrite H2, map_app, A1. cbn. rewrite elem_of_app, elem_of_list_singleton, elem_of_cons. naive_solver.
        -- intros A. rewrite H3, lin_app, A3. cbn. ring.
      * apply add_to_none in Ea. apply IH in E as (H1 & H2 & H3); [|apply good_snoc; auto]. split; auto. split.
        -- intros s. rewrite H2, map_app. cbn. rewrite elem_of_app, elem_of_list_singleton, elem_of_cons. tauto.
        -- intros A. rewrite H3, lin_app. cbn. ring.
Qed.
Lemma good_filter done : good done -> NoDup (map snd (filter (fun t : Qc * symbol => t.1 <> 0%Qc) done)) /\
  forall c x, (c, x) ∈ filter (fun t : Qc * symbol => t.1 <> 0%Qc) done -> x <> SNum 0.
Proof.
  induction done as [|t r IH]; intros Hg.
  - cbn. split; [constructor|]. intros c x Hx. inversion Hx.
  - destruct Hg as (G1 & G2 & G3). destruct (IH G3) as [N M]. rewrite filter_cons. destruct (decide (t.1 <> 0%Qc)) as [Ht|Ht]; [|split; auto].
    split.
    + cbn. constructor; auto. intros Hin. apply elem_of_list_fmap in Hin as (t' & E & Ht'). apply elem_of_list_filter in Ht' as [Hne Ht'].
      apply Hne, G2; auto.
    + intros c x Hx. apply elem_of_cons in Hx as [<-|Hx]; [|eapply M; eauto]. intros E. cbn in *. auto.
Qed.
Lemma lin_filter (A : symbol -> Qc) done : lin A (filter (fun t : Qc * symbol => t.1 <> 0%Qc) done) = lin A done.
Proof.
  induction done as [|t r IH]; auto. rewrite filter_cons. destruct (decide (t.1 <> 0%Qc)) as [Ht|Ht]; destruct t as [c x]; cbn in *; rewrite IH; auto.
  destruct (Qc_eq_dec c 0%Qc) as [->|]; [ring|contradiction].
Qed.
Lemma simplify_spec ts lhs rhs : simplify ts = (lhs, rhs) ->
  normal lhs /\ (forall c x, (c, x) ∈ lhs -> x <> SNum 0 /\ x ∈ map snd ts) /\
  forall A, lin A lhs = (rhs + lin (with_unit A) ts)%Qc.
Proof.
  unfold simplify. destruct (combine ts [] 0%Qc) as [done rhs'] eqn:E. intros [= <- <-].
  destruct (combine_spec ts [] 0%Qc done rhs' I E) as (H1 & H2 & H3). destruct (good_filter done H1) as [N M].
  split; [split; auto|split].
  - intros c x Hx. apply elem_of_list_filter in Hx as [Hx _]. auto.
  - intros c x Hx. split; [eapply M; eauto|]. apply elem_of_list_filter in Hx as [_ Hx].
    assert (x ∈ map snd done) as Hs by (apply elem_of_list_fmap; exists (c, x); auto). apply H2 in Hs as [Hs|]; auto. inversion Hs.
  - intros A. transitivity (lin (with_unit A) (filter (fun t : Qc * symbol => t.1 <> 0%Qc) done)).
    + apply lin_ext. intros c x Hx. unfold with_unit. rewrite decide_False; auto. eapply M; eauto.
    + rewrite lin_filter. specialize (H3 A). cbn in H3. transitivity (rhs' + (lin (with_unit A) done - rhs'))%Qc; [ring|]. rewrite H3. ring.
Qed.

(** ** auxiliary variables *)
Section aux.
  Variable m : Z -> Z.
  (** solver literals of conditions and their complements have opposite truth values *)
  Definition consistent (tr : Z -> bool) : Prop := forall c, tr (- m c)%Z = negb (tr (m c)).
  Definition tru (tr : Z -> bool) : Z -> Prop := fun c => tr (m c) = true.

  Definition aux_ineq (aux : auxmap) (q : ineq symbol) : Prop := exists x cid a, ((x, cid), a) ∈ aux /\
    (q = Ineq [(1%Qc, a)] 0%Qc Req (- m cid)%Z \/ q = Ineq [(1%Qc, a); ((-(1))%Qc, x)] 0%Qc Req (m cid)).
  Record aux_ok (aux : auxmap) (iqs : list (ineq symbol)) : Prop := {
    ax_num : forall i k a, aux !! i = Some (k, a) -> a = SNum (Z.of_nat i + 1);
    ax_keys : NoDup (map fst aux);
    ax_sym : forall x cid a, ((x, cid), a) ∈ aux -> x = SNum 0 \/ user x;
    ax_iqs : forall q, aux_ineq aux q -> q ∈ iqs;
  }.
  (** the auxiliary variables have the intended values *)
  Definition auxdef (B : symbol -> Qc) (tr : Z -> bool) (aux : auxmap) : Prop :=
    forall x cid a, ((x, cid), a) ∈ aux -> B a = if tr (m cid) then B x else 0%Qc.

  Lemma sat_auxdef B tr aux iqs : aux_ok aux iqs -> consistent tr -> (forall q, q ∈ iqs -> tr (q_lit q) = true -> holds B q) -> auxdef B tr aux.
  Proof.
    intros Ha Ht Hs x cid a Hin.
    destruct (tr (m cid)) eqn:E.
    - assert (Hq := Hs _ (ax_iqs _ _ Ha _ (ex_intro _ x (ex_intro _ cid (ex_intro _ a (conj Hin (or_intror eq_refl)))))) E).
      unfold holds in Hq. cbn in Hq. rewrite <- (Qcplus_0_l (B x)). rewrite <- Hq. ring.
    - assert (Hq := Hs _ (ax_iqs _ _ Ha _ (ex_intro _ x (ex_intro _ cid (ex_intro _ a (conj Hin (or_introl eq_refl)))))) ).
      cbn in Hq. rewrite Ht, E in Hq. specialize (Hq eq_refl). unfold holds in Hq. cbn in Hq. rewrite <- Hq. ring.
  Qed.
  Lemma auxdef_ineq B tr aux q : consistent tr -> auxdef B tr aux -> aux_ineq aux q -> tr (q_lit q) = true -> holds B q.
  Proof.
    intros Ht Hd (x & cid & a & Hin & [-> | ->]) E; cbn in E; specialize (Hd _ _ _ Hin).
    - rewrite Ht in E. apply negb_true_iff in E. rewrite E in Hd. unfold holds. cbn. rewrite Hd. ring.
    - rewrite E in Hd. unfold holds. cbn. rewrite Hd. ring.
  Qed.
  Lemma auxdef_mono B tr aux aux' : aux ⊆ aux' -> auxdef B tr aux' -> auxdef B tr aux.
  Proof. intros Hs Hd x cid a Hin. apply (Hd x). auto. Qed.
  Lemma aux_ineq_mono aux aux' q : aux ⊆ aux' -> aux_ineq aux q -> aux_ineq aux' q.
  Proof. intros Hs (x & cid & a & Hin & E). exists x, cid, a. auto. Qed.
  Lemma aux_ne aux iqs x cid a : aux_ok aux iqs -> ((x, cid), a) ∈ aux -> a <> SNum 0 /\ ~ user a.
  Proof.
    intros Ha Hin. apply elem_of_list_lookup in Hin as (i & Hi). rewrite (ax_num _ _ Ha _ _ _ Hi). split; [|cbn; auto]. intros [= E]. lia.
  Qed.
  Lemma aux_ok_iqs aux iqs iqs' : iqs ⊆ iqs' -> aux_ok aux iqs -> aux_ok aux iqs'.
  Proof. intros Hs [H1 H2 H3 H4]. split; auto. Qed.

  Lemma aux_find_some k aux a : aux_find k aux = Some a -> (k, a) ∈ aux.
  Proof. induction aux as [|[k' s] r IH]; cbn; [discriminate|]. destruct (decide (k = k')) as [->|]; [intros [= ->]; left|right; auto]. Qed.
  Lemma aux_find_none k aux : aux_find k aux = None -> k ∉ map fst aux.
  Proof. induction aux as [|[k' s] r IH]; cbn; [intros _ Hx; inversion Hx|]. destruct (decide (k = k')); [discriminate|]. intros E Hx. apply elem_of_cons in Hx as [|Hx]; auto. apply IH; auto. Qed.

  Lemma cond_term_spec cid t aux iqs aux' iqs' t' : cond_term m cid t aux iqs = Ok (aux', iqs', t') ->
    aux_ok aux iqs -> (t.2 = SNum 0 \/ user t.2) ->
    aux_ok aux' iqs' /\ (exists r, aux' = aux ++ r) /\ (exists nw, iqs' = iqs ++ nw /\ forall q, q ∈ nw -> aux_ineq aux' q) /\
    t'.1 = t.1 /\ ((t.2, cid), t'.2) ∈ aux'.
  Proof.
    unfold cond_term. destruct (_ <? _)%Z; [discriminate|]. destruct (aux_find (t.2, cid) aux) as [a|] eqn:Ef.
    - intros [= <- <- <-] Ha Hx. split; auto. split; [exists []; rewrite app_nil_r; auto|]. split; [exists []; rewrite app_nil_r; split; auto; intros q Hq; inversion Hq|].
      split; auto. apply aux_find_some; auto.
    - intros [= <- <- <-] Ha Hx. set (n := (Z.of_nat (length aux) + 1)%Z). set (aux' := aux ++ [((t.2, cid), SNum n)]).
      assert (Hin : ((t.2, cid), SNum n) ∈ aux') by (apply elem_of_app; right; left).
      assert (Hnew : forall q, q ∈ [Ineq [(1%Qc, SNum n)] 0%Qc Req (- m cid)%Z; Ineq [(1%Qc, SNum n); ((-(1))%Qc, t.2)] 0%Qc Req (m cid)] -> aux_ineq aux' q).
      { intros q Hq. exists t.2, cid, (SNum n). split; auto. apply elem_of_cons in Hq as [->|Hq]; auto. apply elem_of_list_singleton in Hq as ->. auto. }
      split; [|split; [eexists; reflexivity|split; [eexists; split; [reflexivity|auto]|split; auto]]].
      destruct Ha as [H1 H2 H3 H4]. split.
      + intros i k a Hi. apply lookup_app_Some in Hi as [Hi|[Hl Hi]]; [eauto|]. destruct (i - length aux) as [|j] eqn:Ei; [|discriminate].
        injection Hi as <- <-. unfold n. f_equal. lia.
      + unfold aux'. rewrite map_app. apply NoDup_app. split; auto. split; [|cbn; constructor; [intros Hq; inversion Hq|constructor]].
        intros k Hk Hk'. cbn in Hk'. apply elem_of_list_singleton in Hk' as ->. apply (aux_find_none (t.2, cid) aux); auto.
      + intros x c a Hxa. apply elem_of_app in Hxa as [Hxa|Hxa]; [eauto|]. apply elem_of_list_singleton in Hxa as [= -> _ _]. auto.
      + intros q (x & c & a & Hxa & Eq). apply elem_of_app. apply elem_of_app in Hxa as [Hxa|Hxa].
        * left. apply H4. exists x, c, a. auto.
        * right. apply elem_of_list_singleton in Hxa as [= -> -> ->]. destruct Eq as [-> | ->]; [left|right; left].
  Qed.
  Lemma cond_terms_spec cid ts : forall aux iqs aux' iqs' ts', cond_terms m cid ts aux iqs = Ok (aux', iqs', ts') ->
    aux_ok aux iqs -> allin (fun s => s = SNum 0 \/ user s) ts ->
    aux_ok aux' iqs' /\ (exists r, aux' = aux ++ r) /\ (exists nw, iqs' = iqs ++ nw /\ forall q, q ∈ nw -> aux_ineq aux' q) /\
    Forall2 (fun t t' => t'.1 = t.1 /\ ((t.2, cid), t'.2) ∈ aux') ts ts'.
  Proof.
    induction ts as [|t ts IH]; intros aux iqs aux' iqs' ts' E Ha Hu; cbn [cond_terms] in E.
    - injection E as <- <- <-. split; auto. split; [exists []; rewrite app_nil_r; auto|]. split; [exists []; rewrite app_nil_r; split; auto; intros q Hq; inversion Hq|constructor].
    - apply bind_ok in E as ([[aux1 iqs1] t1] & E1 & E). apply bind_ok in E as ([[aux2 iqs2] r2] & E2 & E). injection E as <- <- <-.
      destruct (cond_term_spec _ _ _ _ _ _ _ E1 Ha (Hu t.2 ltac:(left))) as (A1 & (r1 & ->) & (n1 & -> & N1) & T1 & T2).
      destruct (IH _ _ _ _ _ E2 A1) as (A2 & (r3 & ->) & (n3 & -> & N3) & T3); [intros s Hs; apply Hu; right; auto|].
      split; auto. split; [exists (r1 ++ r3); rewrite app_assoc; auto|]. split.
      + exists (n1 ++ n3). rewrite app_assoc. split; auto. intros q Hq. apply elem_of_app in Hq as [Hq|Hq]; auto. apply N1 in Hq. eapply aux_ineq_mono; [|exact Hq]. intros k Hk. apply elem_of_app. auto.
      + constructor; auto. split; auto. apply elem_of_app. auto.
  Qed.
  (** the value of conditional terms *)
  Lemma cond_value B tr aux iqs cid ts ts' : aux_ok aux iqs -> auxdef B tr aux -> (B (SNum 0) = 1%Qc \/ allin (fun s => s <> SNum 0) ts) ->
    Forall2 (fun t t' => t'.1 = t.1 /\ ((t.2, cid), t'.2) ∈ aux) ts ts' ->
    lin (with_unit B) ts' = if tr (m cid) then lin (with_unit B) ts else 0%Qc.
  Proof.
    intros Ha Hd Hu Hf. assert (Hu' : forall s, s ∈ map snd ts -> B s = with_unit B s).
    { intros s Hs. unfold with_unit. destruct (decide (s = SNum 0)) as [->|]; auto. destruct Hu as [|Hu]; auto. destruct (Hu _ Hs); auto. }
    clear Hu. induction Hf as [|[c x] [c' a] ts ts' [E1 Hin] _ IH]; cbn in *; [destruct (tr _); auto|].
    subst c'. destruct (aux_ne _ _ _ _ _ Ha Hin) as [Hne _]. unfold with_unit at 1. rewrite decide_False by auto. rewrite (Hd _ _ _ Hin).
    rewrite IH; [|intros s Hs; apply Hu'; right; auto]. rewrite <- (Hu' x) by left. destruct (tr (m cid)); ring.
  Qed.
  Lemma cond_terms_fine cid ts aux iqs : fine (cond_terms m cid ts aux iqs).
  Proof.
    revert aux iqs. induction ts as [|t ts IH]; intros aux iqs; [exact I|]. cbn [cond_terms]. apply fine_bind.
    - unfold cond_term. destruct (_ <? _)%Z; [exact I|]. destruct (aux_find _ _); exact I.
    - intros [[a b] c] _. apply fine_bind; [apply IH|]. intros [[? ?] ?] _. exact I.
  Qed.

  Variable bk : backend.

  Definition prefix_of' {A} (l l' : list A) : Prop := exists r, l' = l ++ r.
  Lemma prefix_sub {A} (l l' : list A) : prefix_of' l l' -> l ⊆ l'.
  Proof. intros (r & ->) x Hx. apply elem_of_app. auto. Qed.

  Lemma sum_elems_spec es : forall aux iqs aux' iqs' ts, parse_sum_elems bk m es aux iqs = Ok (aux', iqs', ts) ->
    aux_ok aux iqs -> (forall e t, e ∈ es -> t ∈ te_tuple e -> clean t) ->
    aux_ok aux' iqs' /\ (exists r, aux' = aux ++ r) /\ (exists nw, iqs' = iqs ++ nw /\ forall q, q ∈ nw -> aux_ineq aux' q) /\
    (forall e, e ∈ es -> exists t, te_tuple e = [t] /\ linear t) /\
    (forall s, s ∈ map snd ts -> s = SNum 0 \/ user s \/ s ∈ map snd aux') /\
    forall B tr, auxdef B tr aux' -> (B (SNum 0) = 1%Qc \/ forall e t, e ∈ es -> te_cond e <> [] -> t ∈ te_tuple e -> homogeneous t) ->
      sum_means B (tru tr) es (lin (with_unit B) ts).
  Proof.
    induction es as [|e es IH]; intros aux iqs aux' iqs' ts E Ha Hc; cbn [parse_sum_elems] in E.
    - injection E as <- <- <-. split; auto. split; [exists []; rewrite app_nil_r; auto|]. split; [exists []; rewrite app_nil_r; split; auto; intros q Hq; inversion Hq|].
      split; [intros e He; inversion He|]. split; [intros s Hs; inversion Hs|]. intros B tr _ _. constructor.
    - destruct e as [tup cond cid]. cbn [te_tuple te_cond te_cid] in E. destruct tup as [|t [|]]; try discriminate.
      apply bind_ok in E as (x & Ex & E). apply bind_ok in E as ([[aux1 iqs1] x'] & E1 & E). apply bind_ok in E as ([[aux2 iqs2] y] & E2 & E). injection E as <- <- <-.
      assert (Ct : clean t) by (apply (Hc (TElem [t] cond cid)); left). assert (P := psum_sound bk t x Ct Ex).
      assert (K : aux_ok aux1 iqs1 /\ (exists r, aux1 = aux ++ r) /\ (exists nw, iqs1 = iqs ++ nw /\ forall q, q ∈ nw -> aux_ineq aux1 q) /\
        (forall s, s ∈ map snd x' -> s = SNum 0 \/ user s \/ s ∈ map snd aux1) /\
        forall B tr, auxdef B tr aux1 -> (B (SNum 0) = 1%Qc \/ (cond <> [] -> homogeneous t)) ->
          lin (with_unit B) x' = match cond with [] => lin (with_unit B) x | _ => if tr (m cid) then lin (with_unit B) x else 0%Qc end).
      { destruct cond as [|c0 cond].
        - injection E1 as <- <- <-. split; auto. split; [exists []; rewrite app_nil_r; auto|]. split; [exists []; rewrite app_nil_r; split; auto; intros q Hq; inversion Hq|].
          split; [intros s Hs; apply (pa_user _ _ P) in Hs; tauto|auto].
        - apply cond_terms_spec in E1 as (A1 & A2 & A3 & F); auto; [|apply (pa_user _ _ P)]. split; auto. split; auto. split; auto. split.
          + intros s Hs. right. right. apply elem_of_list_fmap in Hs as (t' & -> & Ht'). apply elem_of_list_lookup in Ht' as (i & Hi).
            destruct (Forall2_lookup_r _ _ _ _ _ F Hi) as (t0 & _ & _ & Hin). apply elem_of_list_fmap. exists (t0.2, cid, t'.2). auto.
          + intros B tr Hd Hu. apply (cond_value B tr aux1 iqs1); auto. destruct Hu as [|Hu]; auto. right. apply (pa_hom _ _ P). apply Hu. discriminate. }
      destruct K as (A1 & (r1 & ->) & (n1 & -> & N1) & S1 & V1).
      destruct (IH _ _ _ _ _ E2 A1) as (A2 & (r2 & ->) & (n2 & -> & N2) & L2 & S2 & V2); [intros e' t' He; apply Hc; right; auto|].
      assert (Hsub : aux ++ r1 ⊆ (aux ++ r1) ++ r2) by (intros k Hk; apply elem_of_app; auto).
      split; auto. split; [exists (r1 ++ r2); rewrite app_assoc; auto|]. split; [|split; [|split]].
      + exists (n1 ++ n2). rewrite app_assoc. split; auto. intros q Hq. apply elem_of_app in Hq as [Hq|Hq]; auto. apply N1 in Hq. eapply aux_ineq_mono; eauto.
      + intros e He. apply elem_of_cons in He as [->|He]; auto. exists t. split; auto. apply P.
      + intros s Hs. rewrite map_app, elem_of_app in Hs. destruct Hs as [Hs|Hs]; auto. apply S1 in Hs as [|[|Hs]]; auto. right. right. rewrite map_app. apply elem_of_app. auto.
      + intros B tr Hd Hu. rewrite lin_app.
        assert (Hd1 : auxdef B tr (aux ++ r1)) by (eapply auxdef_mono; eauto).
        assert (V2' : sum_means B (tru tr) es (lin (with_unit B) y)).
        { apply V2; auto. destruct Hu as [|Hu]; auto. right. intros e' t' He. apply Hu. right. auto. }
        rewrite (V1 B tr Hd1); [|destruct Hu as [|Hu]; auto; right; intros Hne; apply (Hu (TElem [t] cond cid)); auto; left].
        pose proof (pa_value _ _ P B) as Hm. destruct cond as [|c0 cond].
        * apply su_in; auto.
        * destruct (tr (m cid)) eqn:Et; [apply su_in; auto|]. rewrite Qcplus_0_l. apply (su_out _ _ _ _ _ _ (lin (with_unit B) x)); auto; try discriminate. unfold tru. rewrite Et. discriminate.
  Qed.
  Lemma sum_elems_fine es : (forall e t, e ∈ es -> t ∈ te_tuple e -> clean t /\ (bk = Flint -> zero_free t)) ->
    forall aux iqs, fine (parse_sum_elems bk m es aux iqs).
  Proof.
    induction es as [|e es IH]; intros Hc aux iqs; [exact I|]. cbn [parse_sum_elems]. destruct e as [tup cond cid]. cbn [te_tuple te_cond te_cid]. destruct tup as [|t [|]]; try exact I.
    destruct (Hc (TElem [t] cond cid) t) as [Ct Zt]; [left|left|]. apply fine_bind; [apply psum_fine; auto|]. intros x _. apply fine_bind.
    - destruct cond; [exact I|apply cond_terms_fine].
    - intros [[a b] c] _. apply fine_bind; [|intros [[? ?] ?] _; exact I]. apply IH. intros e' t' He. apply Hc. right. auto.
  Qed.

  (** sums have at most one value; accepted sums have one *)
  Lemma sum_means_fun A tr es x y : sum_means A tr es x -> sum_means A tr es y -> x = y.
  Proof.
    intros Hx. revert y. induction Hx as [|t cond cid es x y Hin Hm _ IH|t cond cid es x y Hc Hn Hm _ IH]; intros z Hz; inversion Hz; subst; auto.
    - f_equal; auto. eapply (means_fun bk); eauto.
    - exfalso. naive_solver.
    - exfalso. naive_solver.
  Qed.
End aux.
