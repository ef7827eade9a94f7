(** * Correctness of the sparse tableau *)

From Verif Require Import Num Tableau.

(** ** Sorted cells *)

Definition csorted (cells : list cell) : Prop := StronglySorted lt (map fst cells).

Lemma csorted_nil : csorted [].
Proof. constructor. Qed.
Lemma csorted_cons c v r : csorted ((c, v) :: r) <-> (forall x, x ∈ r -> c < x.1) /\ csorted r.
Proof.
  unfold csorted; cbn. split.
  - intros H. inversion H; subst. split; auto. intros x Hx.
    rewrite List.Forall_forall in H3. apply H3. apply in_map, elem_of_list_In; auto.
  - intros [H1 H2]. constructor; auto. apply List.Forall_forall. intros y Hy.
    apply in_map_iff in Hy as (x & <- & Hx). apply H1, elem_of_list_In; auto.
Qed.

Lemma clook_nil j : clook [] j = None.
Proof. reflexivity. Qed.
Lemma clook_cons c v r j :
  clook ((c, v) :: r) j = if c <? j then clook r j else if c =? j then Some v else None.
Proof. unfold clook; cbn [lb]. destruct (c <? j); reflexivity. Qed.

Lemma clook_elem cells j v : csorted cells -> clook cells j = Some v <-> (j, v) ∈ cells.
Proof.
  induction cells as [|[c w] r IH]; intros Hs.
  - rewrite clook_nil. split; [discriminate|]. intros H; inversion H.
  - rewrite clook_cons. apply csorted_cons in Hs as [Hlt Hs]. rewrite elem_of_cons.
    destruct (Nat.ltb_spec c j).
    + rewrite IH by auto. split; auto. intros [[=]|]; auto. lia.
    + destruct (Nat.eqb_spec c j).
      * subst. split; [intros [=]; subst; auto|]. intros [[=]|Hin]; subst; auto.
        apply Hlt in Hin; cbn in Hin; lia.
      * split; [discriminate|]. intros [[=]|Hin]; [lia|]. apply Hlt in Hin; cbn in Hin; lia.
Qed.

Lemma clook_lb cells j v : clook cells j = Some v <-> cells !! lb j cells = Some (j, v).
Proof.
  unfold clook. destruct (cells !! lb j cells) as [[c w]|]; [|split; discriminate].
  destruct (Nat.eqb_spec c j); split; intros [=]; subst; auto; congruence.
Qed.

Lemma clook_none cells j : csorted cells -> clook cells j = None <-> (forall v, (j, v) ∉ cells).
Proof.
  intros Hs. split.
  - intros H v Hin. apply (clook_elem cells j v Hs) in Hin. congruence.
  - intros H. destruct (clook cells j) eqn:E; auto. apply (clook_elem _ _ _ Hs) in E. exfalso; eapply H; eauto.
Qed.

Lemma clook_lookup cells p j v : csorted cells -> cells !! p = Some (j, v) -> clook cells j = Some v /\ p = lb j cells.
Proof.
  revert p. induction cells as [|[c w] r IH]; intros p Hs Hp; [discriminate|].
  apply csorted_cons in Hs as [Hlt Hs]. destruct p as [|p]; cbn in Hp.
  - injection Hp as -> ->. rewrite clook_cons, Nat.ltb_irrefl, Nat.eqb_refl. cbn [lb]. rewrite ?Nat.ltb_irrefl. auto.
  - destruct (IH p Hs Hp) as [H1 H2].
    assert (c < j). { apply (Hlt (j, v)). eapply elem_of_list_lookup_2; eauto. }
    rewrite clook_cons. cbn. destruct (Nat.ltb_spec c j); [|lia]. auto.
Qed.

Lemma csorted_inj cells p q j v w : csorted cells -> cells !! p = Some (j, v) -> cells !! q = Some (j, w) -> p = q /\ v = w.
Proof.
  intros Hs Hp Hq. apply clook_lookup in Hp as [? ->]; auto. apply clook_lookup in Hq as [? ->]; auto.
  split; congruence.
Qed.

(** values mapped without changing columns *)
Lemma csorted_map f cells : csorted cells -> csorted (map (fun c : cell => (c.1, f c)) cells).
Proof. unfold csorted. rewrite map_map. auto. Qed.
Lemma clook_map (f : Z -> Z) cells j :
  clook (map (fun c : cell => (c.1, f c.2)) cells) j = f <$> clook cells j.
Proof.
  induction cells as [|[c v] r IH]; auto. cbn [map fst snd]. rewrite !clook_cons, IH.
  destruct (c <? j); auto. destruct (c =? j); auto.
Qed.

(** ** Rows *)

Record row_wf (r : row) : Prop := {
  rw_den : r_den r <> 0%Z;
  rw_sorted : csorted (r_cells r);
  rw_nz : forall j v, clook (r_cells r) j = Some v -> v <> 0%Z;
}.

Definition rget (r : row) (j : nat) : Qc :=
  match clook (r_cells r) j with Some v => qmk v (r_den r) | None => 0%Qc end.

Lemma qmk_zero d : qmk 0 d = 0%Qc.
Proof. unfold qmk. rewrite zq_0. unfold Qcdiv. ring. Qed.
Lemma qmk_nz n d : n <> 0%Z -> d <> 0%Z -> qmk n d <> 0%Qc.
Proof.
  intros Hn Hd H. apply (zq_nz n Hn). unfold qmk in H.
  assert (zq n = (zq n / zq d) * zq d)%Qc as -> by (field; apply zq_nz; auto). rewrite H. ring.
Qed.
Lemma qmk_cancel n d g : g <> 0%Z -> d <> 0%Z -> qmk (n * g) (d * g) = qmk n d.
Proof. intros. unfold qmk. rewrite !zq_mul. field. split; apply zq_nz; auto. Qed.

Lemma rget_nz r j : row_wf r -> rget r j <> 0%Qc <-> exists v, clook (r_cells r) j = Some v.
Proof.
  intros W. unfold rget. destruct (clook (r_cells r) j) eqn:E; split.
  - eauto.
  - intros _. apply qmk_nz; [eapply rw_nz; eauto | apply W].
  - intros H; destruct H; reflexivity.
  - intros [? ?]; discriminate.
Qed.

Lemma row_gcd_spec cells g g' : row_gcd g cells = Some g' ->
  (g' | g)%Z /\ (forall x, x ∈ cells -> (g' | x.2)%Z).
Proof.
  revert g. induction cells as [|[c v] r IH]; intros g; cbn.
  - intros [=]; subst. split; [reflexivity|]. intros x H; inversion H.
  - destruct (Z.eqb_spec (Z.gcd v g) 1); [discriminate|]. intros H. apply IH in H as [H1 H2].
    split. { etransitivity; [exact H1|]. apply Z.gcd_divide_r. }
    intros x Hx. apply elem_of_cons in Hx as [->|Hx]; cbn; auto.
    etransitivity; [exact H1|]. apply Z.gcd_divide_l.
Qed.

Lemma simplify_row_ok r : row_wf r -> exists r', simplify_row r = Ok r' /\ row_wf r'
  /\ map fst (r_cells r') = map fst (r_cells r) /\ forall j, rget r' j = rget r j.
Proof.
  intros W. unfold simplify_row. destruct (Z.eqb_spec (r_den r) 1). { eauto. }
  destruct (row_gcd (r_den r) (r_cells r)) as [g|] eqn:E; [|eauto].
  apply row_gcd_spec in E as [Hd Hc].
  assert (Hg : g <> 0%Z). { intros ->. apply Z.divide_0_l in Hd. apply W in Hd. auto. }
  destruct (Z.eqb_spec g 0); [congruence|]. cbn. eexists; split; [reflexivity|].
  set (f := fun v => (v / g)%Z).
  assert (Hm : forall j, clook (map (fun c : cell => (c.1, (c.2 / g)%Z)) (r_cells r)) j = f <$> clook (r_cells r) j).
  { intros. apply (clook_map f). }
  assert (Hv : forall j v, clook (r_cells r) j = Some v -> (g | v)%Z).
  { intros j v Hj. apply (clook_elem _ _ _ (rw_sorted _ W)) in Hj. apply (Hc _ Hj). }
  split; [|split].
  - constructor; cbn.
    + intros H0. destruct Hd as [k Hk]. rewrite Hk, Z.div_mul in H0 by auto. apply W. rewrite Hk, H0. lia.
    + apply (csorted_map (fun c => f c.2)), W.
    + intros j v. rewrite Hm. destruct (clook (r_cells r) j) as [w|] eqn:Ew; [|discriminate].
      cbn. intros [=]; subst. intros H0. destruct (Hv _ _ Ew) as [k Hk]. subst f; cbn in H0.
      rewrite Hk, Z.div_mul in H0 by auto. apply (rw_nz _ W j w Ew). rewrite Hk, H0. lia.
  - cbn. rewrite map_map. reflexivity.
  - intros j. unfold rget; cbn. rewrite Hm. destruct (clook (r_cells r) j) as [w|] eqn:Ew; auto. cbn.
    destruct (Hv _ _ Ew) as [k Hk]. destruct Hd as [k' Hk']. subst f; cbn.
    rewrite Hk, Hk', !Z.div_mul by auto. symmetry. apply qmk_cancel; auto.
    intros ->. apply W. rewrite Hk'. lia.
Qed.

(** ** The merge loop *)

Definition mexp (j : nat) (ga gk : Z) (Ai Ak : list cell) (l : nat) : option Z :=
  match clook Ai l, clook Ak l with
  | None, None => None
  | Some a, None => Some (gk * a)%Z
  | None, Some b => Some (b * ga)%Z
  | Some a, Some b =>
      if l =? j then Some 0%Z
      else let v := (b * ga + gk * a)%Z in if (v =? 0)%Z then None else Some v
  end.

Definition mhit (j : nat) (Ai Ak : list cell) : Prop := is_Some (clook Ai j) /\ is_Some (clook Ak j).

Record mspec (j : nat) (ga gk : Z) (Ai : list cell) (pos : nat) (Ak : list cell) (acc acc' : macc) : Prop := {
  ms_row : exists out, m_row acc' = m_row acc ++ out /\ csorted out
            /\ (forall l, clook out l = mexp j ga gk Ai Ak l)
            /\ (mhit j Ai Ak -> m_den acc' = (m_den acc * ga)%Z /\
                   exists q, m_piv acc' = length (m_row acc) + q /\ out !! q = Some (j, 0%Z))
            /\ (~ mhit j Ai Ak -> m_den acc' = m_den acc /\ m_piv acc' = m_piv acc);
  ms_ins : exists ins, m_ins acc' = m_ins acc ++ ins /\ NoDup ins /\
            (forall p c, (p, c) ∈ ins <-> exists q v, p = pos + q /\ Ai !! q = Some (c, v) /\ clook Ak c = None);
}.

Lemma clook_lt_none cells j : csorted cells -> (forall x, x ∈ cells -> j < x.1) -> clook cells j = None.
Proof.
  intros Hs H. apply clook_none; auto. intros v Hin. apply H in Hin. cbn in Hin. lia.
Qed.

Lemma csorted_lt_cons c v r d : csorted ((c, v) :: r) -> d < c -> forall x, x ∈ (c, v) :: r -> d < x.1.
Proof.
  intros Hs Hd x Hx. apply csorted_cons in Hs as [H _]. apply elem_of_cons in Hx as [->|Hx]; cbn; auto.
  apply H in Hx. lia.
Qed.

Lemma mexp_some_in j ga gk Ai Ak l v : mexp j ga gk Ai Ak l = Some v ->
  (exists a, clook Ai l = Some a) \/ (exists b, clook Ak l = Some b).
Proof. unfold mexp. destruct (clook Ai l), (clook Ak l); eauto; discriminate. Qed.

Lemma csorted_out c x out j ga gk Ai Ak :
  csorted out -> (forall l, clook out l = mexp j ga gk Ai Ak l) ->
  csorted Ai -> csorted Ak ->
  (forall y, y ∈ Ai -> c < y.1) -> (forall y, y ∈ Ak -> c < y.1) -> csorted ((c, x) :: out).
Proof.
  intros Ho Hl HAi HAk H1 H2. apply csorted_cons. split; auto. intros [l v] Hin.
  apply (clook_elem _ _ _ Ho) in Hin. rewrite Hl in Hin. apply mexp_some_in in Hin as [[a Ha]|[b Hb]].
  - apply (clook_elem _ _ _ HAi) in Ha. apply (H1 _ Ha).
  - apply (clook_elem _ _ _ HAk) in Hb. apply (H2 _ Hb).
Qed.

Ltac hit_simpl := unfold mhit in *; rewrite ?clook_cons, ?clook_nil in *.

Lemma merge_spec j ga gk Ai pos Ak acc :
  ga <> 0%Z -> gk <> 0%Z ->
  csorted Ai -> csorted Ak -> (forall l a, clook Ai l = Some a -> a <> 0%Z) -> (forall l a, clook Ak l = Some a -> a <> 0%Z) ->
  mspec j ga gk Ai pos Ak acc (merge j ga gk Ai pos Ak acc).
Proof.
  intros Hga Hgk. revert pos Ak acc. induction Ai as [|[c v] Ai IHi]; intros pos Ak acc HAi HAk Hni Hnk.
  - clear Hni. revert acc. induction Ak as [|[c v] Ak IHk]; intros acc.
    + cbn. constructor.
      * exists []. rewrite app_nil_r. split; [auto|]. split; [apply csorted_nil|]. split; [reflexivity|]. split; [intros [[? ?] _]; discriminate|auto].
      * exists []. rewrite app_nil_r. split_and!; auto using NoDup_nil_2.
        intros p c. split; [intros H; inversion H|]. intros (q & v & _ & H & _); discriminate.
    + change (merge j ga gk [] pos ((c, v) :: Ak) acc) with
        (merge j ga gk [] pos Ak (MAcc (m_row acc ++ [(c, (v * ga)%Z)]) (m_piv acc) (m_den acc) (m_ins acc))).
      pose proof HAk as HAk0. apply csorted_cons in HAk as [Hlt HAk].
      assert (Hnk' : forall l a, clook Ak l = Some a -> a <> 0%Z).
      { intros l a Hl. apply (Hnk l). apply (clook_elem _ _ _ HAk0). apply elem_of_cons; right.
        apply (clook_elem _ _ _ HAk); auto. }
      destruct (IHk HAk Hnk' (MAcc (m_row acc ++ [(c, (v * ga)%Z)]) (m_piv acc) (m_den acc) (m_ins acc)))
        as [(out & Ho1 & Ho2 & Ho3 & Ho4 & Ho5) (ins & Hi1 & Hi2 & Hi3)]. cbn in *.
      constructor.
      * exists ((c, (v * ga)%Z) :: out). rewrite Ho1, <- app_assoc. split_and!; auto.
        -- eapply (csorted_out _ _ _ j ga gk [] Ak); auto using csorted_nil; intros y Hy; inversion Hy.
        -- intros l. rewrite clook_cons, Ho3. unfold mexp. rewrite clook_nil, clook_cons.
           destruct (Nat.ltb_spec c l); auto.
           destruct (Nat.eqb_spec c l); subst; auto.
        -- intros [[? ?] _]; discriminate.
        -- intros _. apply Ho5. intros [[? ?] _]; discriminate.
      * exists ins. split_and!; auto. intros p c'. rewrite Hi3.
        split; intros (q & w & ? & H & ?); discriminate.
  - pose proof HAi as HAi0. apply csorted_cons in HAi as [Hilt HAi].
    assert (Hni' : forall l a, clook Ai l = Some a -> a <> 0%Z).
    { intros l a Hl. apply (Hni l). apply (clook_elem _ _ _ HAi0). apply elem_of_cons; right.
      apply (clook_elem _ _ _ HAi); auto. }
    (* common case: head of Ai strictly before Ak *)
    assert (Hbefore : forall Ak acc, csorted Ak -> (forall l a, clook Ak l = Some a -> a <> 0%Z) ->
              (forall x, x ∈ Ak -> c < x.1) ->
              mspec j ga gk ((c, v) :: Ai) pos Ak acc
                (merge j ga gk Ai (S pos) Ak
                  (MAcc (m_row acc ++ [(c, (gk * v)%Z)]) (m_piv acc) (m_den acc) (m_ins acc ++ [(pos, c)])))).
    { clear HAk Hnk Ak acc. intros Ak acc HAk Hnk Hlt.
      destruct (IHi (S pos) Ak (MAcc (m_row acc ++ [(c, (gk * v)%Z)]) (m_piv acc) (m_den acc) (m_ins acc ++ [(pos, c)])) HAi HAk Hni' Hnk)
        as [(out & Ho1 & Ho2 & Ho3 & Ho4 & Ho5) (ins & Hi1 & Hi2 & Hi3)]. cbn in *.
      assert (Hc : clook Ak c = None) by (apply clook_lt_none; auto).
      constructor.
      - exists ((c, (gk * v)%Z) :: out). rewrite Ho1, <- app_assoc. split_and!; auto.
        + eapply csorted_out; eauto.
        + intros l. rewrite clook_cons, Ho3. unfold mexp. rewrite clook_cons.
          destruct (Nat.ltb_spec c l); auto.
          assert (Hl : clook Ak l = None) by (apply clook_lt_none; auto; intros x Hx; apply Hlt in Hx; lia).
          rewrite Hl. destruct (Nat.eqb_spec c l); subst; auto.
        + intros [Hh1 Hh2]. rewrite clook_cons in Hh1. destruct (Nat.ltb_spec c j).
          * destruct Ho4 as (Hd & q & Hq1 & Hq2). { split; auto. }
            split; auto. exists (S q). rewrite Hq1, app_length; cbn. split; [lia|auto].
          * exfalso. rewrite clook_lt_none in Hh2; [destruct Hh2; discriminate|auto|].
            intros x Hx; apply Hlt in Hx; lia.
        + intros Hn. apply Ho5. intros [Hh1 Hh2]. apply Hn. split; auto. rewrite clook_cons.
          destruct (Nat.ltb_spec c j); auto. exfalso.
          rewrite clook_lt_none in Hh2; [destruct Hh2; discriminate|auto|].
          intros x Hx; apply Hlt in Hx; lia.
      - exists ((pos, c) :: ins). rewrite Hi1, <- app_assoc. split_and!; auto.
        + apply NoDup_cons. split; auto. rewrite Hi3. intros (q & w & Hq & _). lia.
        + intros p c'. rewrite elem_of_cons, Hi3. split.
          * intros [[= -> ->]|(q & w & -> & Hq & Hn)].
            -- exists 0, v. split_and!; auto. 
            -- exists (S q), w. split_and!; auto; lia.
          * intros ([|q] & w & -> & Hq & Hn); cbn in Hq.
            -- injection Hq as -> ->. left. f_equal; lia.
            -- right. exists q, w. split_and!; auto; lia. }
    revert acc. induction Ak as [|[c' v'] Ak IHk]; intros acc.
    + change (merge j ga gk ((c, v) :: Ai) pos [] acc) with
        (merge j ga gk Ai (S pos) [] (MAcc (m_row acc ++ [(c, (gk * v)%Z)]) (m_piv acc) (m_den acc) (m_ins acc ++ [(pos, c)]))).
      apply Hbefore; auto. intros x Hx; inversion Hx.
    + pose proof HAk as HAk0. apply csorted_cons in HAk as [Hklt HAk].
      assert (Hnk' : forall l a, clook Ak l = Some a -> a <> 0%Z).
      { intros l a Hl. apply (Hnk l). apply (clook_elem _ _ _ HAk0). apply elem_of_cons; right.
        apply (clook_elem _ _ _ HAk); auto. }
      destruct (Nat.ltb_spec c c') as [Hcc|Hcc].
      { assert (E : merge j ga gk ((c, v) :: Ai) pos ((c', v') :: Ak) acc =
          merge j ga gk Ai (S pos) ((c', v') :: Ak) (MAcc (m_row acc ++ [(c, (gk * v)%Z)]) (m_piv acc) (m_den acc) (m_ins acc ++ [(pos, c)]))).
        { cbn. destruct (Nat.ltb_spec c c'); [reflexivity|lia]. }
        rewrite E. apply Hbefore; auto. apply csorted_lt_cons; auto. }
      destruct (Nat.ltb_spec c' c) as [Hcc'|Hcc'].
      { assert (E : merge j ga gk ((c, v) :: Ai) pos ((c', v') :: Ak) acc =
          merge j ga gk ((c, v) :: Ai) pos Ak (MAcc (m_row acc ++ [(c', (v' * ga)%Z)]) (m_piv acc) (m_den acc) (m_ins acc))).
        { cbn. destruct (Nat.ltb_spec c c'); [lia|]. destruct (Nat.ltb_spec c' c); [reflexivity|lia]. }
        rewrite E. clear E.
        destruct (IHk HAk Hnk' (MAcc (m_row acc ++ [(c', (v' * ga)%Z)]) (m_piv acc) (m_den acc) (m_ins acc)))
          as [(out & Ho1 & Ho2 & Ho3 & Ho4 & Ho5) (ins & Hi1 & Hi2 & Hi3)].
        change (m_row (MAcc (m_row acc ++ [(c', (v' * ga)%Z)]) (m_piv acc) (m_den acc) (m_ins acc))) with (m_row acc ++ [(c', (v' * ga)%Z)]) in *.
        change (m_ins (MAcc (m_row acc ++ [(c', (v' * ga)%Z)]) (m_piv acc) (m_den acc) (m_ins acc))) with (m_ins acc) in *.
        change (m_den (MAcc (m_row acc ++ [(c', (v' * ga)%Z)]) (m_piv acc) (m_den acc) (m_ins acc))) with (m_den acc) in *.
        change (m_piv (MAcc (m_row acc ++ [(c', (v' * ga)%Z)]) (m_piv acc) (m_den acc) (m_ins acc))) with (m_piv acc) in *.
        assert (Hi0 : forall l, l <= c' -> clook ((c, v) :: Ai) l = None).
        { intros l Hl. apply clook_lt_none; auto. apply csorted_lt_cons; auto. lia. }
        constructor.
        - exists ((c', (v' * ga)%Z) :: out). rewrite Ho1, <- app_assoc. split_and!; auto.
          + eapply csorted_out; eauto. apply csorted_lt_cons; auto.
          + intros l. rewrite clook_cons, Ho3. unfold mexp. rewrite (clook_cons c' v' Ak).
            destruct (Nat.ltb_spec c' l); auto. rewrite Hi0 by auto.
            destruct (Nat.eqb_spec c' l); auto.
          + intros [Hh1 Hh2]. rewrite (clook_cons c' v' Ak) in Hh2.
            destruct (Nat.ltb_spec c' j).
            * destruct Ho4 as (Hd & q & Hq1 & Hq2). { split; auto. }
              split; auto. exists (S q). rewrite Hq1, app_length; cbn. split; [lia|auto].
            * rewrite Hi0 in Hh1 by auto. destruct Hh1; discriminate.
          + intros Hn. apply Ho5. intros [Hh1 Hh2]. apply Hn. split; auto. rewrite (clook_cons c' v' Ak).
            destruct (Nat.ltb_spec c' j); auto. rewrite Hi0 in Hh1 by auto. destruct Hh1; discriminate.
        - exists ins. split_and!; auto. intros p d. rewrite Hi3.
          assert (Heq : forall q w, ((c, v) :: Ai) !! q = Some (d, w) -> clook ((c', v') :: Ak) d = clook Ak d).
          { intros q w Hq. assert (c' < d). { apply elem_of_list_lookup_2 in Hq.
              apply (csorted_lt_cons _ _ _ c' HAi0 Hcc' _ Hq). }
            rewrite clook_cons. destruct (Nat.ltb_spec c' d); auto. lia. }
          split; intros (q & w & ? & Hq & ?); exists q, w; split_and!; auto.
          + rewrite (Heq _ _ Hq); auto.
          + rewrite <- (Heq _ _ Hq); auto. }
      assert (c' = c) by lia. subst c'.
      assert (E : merge j ga gk ((c, v) :: Ai) pos ((c, v') :: Ak) acc =
        if negb (c =? j) then
          merge j ga gk Ai (S pos) Ak
            (MAcc (if (v' * ga + gk * v =? 0)%Z then m_row acc else m_row acc ++ [(c, (v' * ga + gk * v)%Z)]) (m_piv acc) (m_den acc) (m_ins acc))
        else merge j ga gk Ai (S pos) Ak (MAcc (m_row acc ++ [(c, 0%Z)]) (length (m_row acc)) (m_den acc * ga)%Z (m_ins acc))).
      { cbn. rewrite Nat.ltb_irrefl. reflexivity. }
      rewrite E; clear E.
      assert (Hins : forall ins, NoDup ins ->
          (forall p d, (p, d) ∈ ins <-> exists q w, p = S pos + q /\ Ai !! q = Some (d, w) /\ clook Ak d = None) ->
          (forall p d, (p, d) ∈ ins <-> exists q w, p = pos + q /\ ((c, v) :: Ai) !! q = Some (d, w) /\ clook ((c, v') :: Ak) d = None)).
      { intros ins _ H p d. rewrite H. split.
        - intros (q & w & -> & Hq & Hn). exists (S q), w. split_and!; [lia|auto|].
          rewrite clook_cons. apply elem_of_list_lookup_2, Hilt in Hq; cbn in Hq.
          destruct (Nat.ltb_spec c d); auto. lia.
        - intros ([|q] & w & -> & Hq & Hn); cbn in Hq.
          + injection Hq as -> ->. rewrite clook_cons, Nat.ltb_irrefl, Nat.eqb_refl in Hn. discriminate.
          + exists q, w. split_and!; [lia|auto|]. rewrite clook_cons in Hn.
            apply elem_of_list_lookup_2, Hilt in Hq; cbn in Hq.
            destruct (Nat.ltb_spec c d); auto. lia. }
      assert (HAi1 : forall l, l <= c -> clook Ai l = None).
      { intros l Hl. apply clook_lt_none; auto. intros x Hx; apply Hilt in Hx; lia. }
      assert (HAk1 : forall l, l <= c -> clook Ak l = None).
      { intros l Hl. apply clook_lt_none; auto. intros x Hx; apply Hklt in Hx; lia. }
      destruct (Nat.eqb_spec c j) as [->|Hcj]; cbn [negb].
      { destruct (IHi (S pos) Ak (MAcc (m_row acc ++ [(j, 0%Z)]) (length (m_row acc)) (m_den acc * ga)%Z (m_ins acc)) HAi HAk Hni' Hnk')
          as [(out & Ho1 & Ho2 & Ho3 & Ho4 & Ho5) (ins & Hi1 & Hi2 & Hi3)]. cbn [m_row m_piv m_den m_ins] in *.
        assert (Hnh : ~ mhit j Ai Ak). { intros [[? Hx] _]. rewrite HAi1 in Hx by auto. discriminate. }
        constructor.
        - exists ((j, 0%Z) :: out). rewrite Ho1, <- app_assoc. split_and!; auto.
          + eapply csorted_out; eauto.
          + intros l. rewrite clook_cons, Ho3. unfold mexp. rewrite !clook_cons.
            destruct (Nat.ltb_spec j l); auto.
            destruct (Nat.eqb_spec j l); subst; auto. rewrite Nat.eqb_refl; auto.
          + intros _. destruct (Ho5 Hnh) as [-> ->]. split; auto. exists 0. rewrite Nat.add_0_r; auto.
          + intros []. hit_simpl. rewrite Nat.ltb_irrefl, Nat.eqb_refl. split; eauto.
        - exists ins. split_and!; auto. }
      assert (Hpre : mhit j ((c, v) :: Ai) ((c, v') :: Ak) <-> mhit j Ai Ak).
      { unfold mhit. rewrite !clook_cons. destruct (Nat.ltb_spec c j); [tauto|].
        destruct (Nat.eqb_spec c j); [congruence|]. rewrite HAi1 by lia. split; intros [[? ?] _]; discriminate. }
      destruct (Z.eqb_spec (v' * ga + gk * v)%Z 0) as [Hz|Hz].
      { destruct (IHi (S pos) Ak (MAcc (m_row acc) (m_piv acc) (m_den acc) (m_ins acc)) HAi HAk Hni' Hnk')
          as [(out & Ho1 & Ho2 & Ho3 & Ho4 & Ho5) (ins & Hi1 & Hi2 & Hi3)]. cbn [m_row m_piv m_den m_ins] in *.
        constructor.
        - exists out. split_and!; auto.
          + intros l. rewrite Ho3. unfold mexp. rewrite !clook_cons.
            destruct (Nat.ltb_spec c l); auto. rewrite HAi1, HAk1 by auto.
            destruct (Nat.eqb_spec c l); auto. subst.
            destruct (Nat.eqb_spec l j); [congruence|]. rewrite Hz. auto.
          + rewrite Hpre. auto.
          + rewrite Hpre. auto.
        - exists ins. split_and!; auto. }
      { destruct (IHi (S pos) Ak (MAcc (m_row acc ++ [(c, (v' * ga + gk * v)%Z)]) (m_piv acc) (m_den acc) (m_ins acc)) HAi HAk Hni' Hnk')
          as [(out & Ho1 & Ho2 & Ho3 & Ho4 & Ho5) (ins & Hi1 & Hi2 & Hi3)]. cbn [m_row m_piv m_den m_ins] in *.
        constructor.
        - exists ((c, (v' * ga + gk * v)%Z) :: out). rewrite Ho1, <- app_assoc. split_and!; auto.
          + eapply csorted_out; eauto.
          + intros l. rewrite clook_cons, Ho3. unfold mexp. rewrite !clook_cons.
            destruct (Nat.ltb_spec c l); auto.
            destruct (Nat.eqb_spec c l); auto; subst.
            * destruct (Nat.eqb_spec l j); [congruence|].
              destruct (Z.eqb_spec (v' * ga + gk * v) 0); congruence.
          + rewrite Hpre. intros Hh. destruct (Ho4 Hh) as (? & q & Hq1 & Hq2). split; auto.
            exists (S q). rewrite Hq1, app_length; cbn; split; [lia|auto].
          + rewrite Hpre. auto.
        - exists ins. split_and!; auto. }
Qed.

(** ** Well-formed tableaus *)

Record tab_wf (t : tableau) : Prop := {
  tw_rows : forall i r, t_rows t !! i = Some r -> row_wf r;
  tw_cols : forall j col, t_cols t !! j = Some col ->
              StronglySorted lt col /\ (forall i, i ∈ col -> i < length (t_rows t));
  tw_in : forall i r j v, t_rows t !! i = Some r -> clook (r_cells r) j = Some v ->
              exists col, t_cols t !! j = Some col /\ i ∈ col;
}.

Lemma empty_tab_wf : tab_wf empty_tab.
Proof. constructor; cbn; intros; discriminate. Qed.

Lemma tget_rget t i r j : t_rows t !! i = Some r -> tget t i j = rget r j.
Proof. unfold tget, rget. intros ->. reflexivity. Qed.
Lemma tget_none t i j : t_rows t !! i = None -> tget t i j = 0%Qc.
Proof. unfold tget. intros ->. reflexivity. Qed.

(** A non-zero entry is a cell. *)
Lemma tget_nz t i j : tab_wf t -> tget t i j <> 0%Qc ->
  exists r v, t_rows t !! i = Some r /\ clook (r_cells r) j = Some v /\ v <> 0%Z /\ r_den r <> 0%Z /\ tget t i j = qmk v (r_den r).
Proof.
  intros W H. destruct (t_rows t !! i) as [r|] eqn:Er; [|rewrite tget_none in H; congruence].
  rewrite (tget_rget _ _ _ _ Er) in *. pose proof (tw_rows _ W _ _ Er) as Wr.
  apply rget_nz in H as [v Hv]; auto. exists r, v. split_and!; auto; try apply Wr.
  - eapply rw_nz; eauto.
  - unfold rget. rewrite Hv; auto.
Qed.

(** ** update_row and update_col *)

Fixpoint mfold {S} (f : nat -> Z -> Z -> S -> res S) (l : list (nat * Z * Z)) (s : S) : res S :=
  match l with
  | [] => Ok s
  | (i, v, d) :: l' => s' ← f i v d s; mfold f l' s'
  end.

Definition row_entries (t : tableau) (i : nat) : list (nat * Z * Z) :=
  match t_rows t !! i with
  | Some r => map (fun c : cell => (c.1, c.2, r_den r)) (r_cells r)
  | None => []
  end.

Definition col_entry (t : tableau) (j i : nat) : option (nat * Z * Z) :=
  match t_rows t !! i with
  | Some r => match clook (r_cells r) j with Some v => Some (i, v, r_den r) | None => None end
  | None => None
  end.

Definition col_entries (t : tableau) (j : nat) : list (nat * Z * Z) :=
  match t_cols t !! j with
  | Some col => omap (col_entry t j) col
  | None => []
  end.

Lemma update_row_mfold {S} t i (f : nat -> Z -> Z -> S -> res S) s :
  update_row t i f s = mfold f (row_entries t i) s.
Proof.
  unfold update_row, row_entries. destruct (t_rows t !! i) as [r|]; auto.
  generalize (r_den r); intros d. revert s. induction (r_cells r) as [|[c v] l IH]; intros s; auto.
  cbn. destruct (f c v d s); cbn; auto.
Qed.

Lemma row_entries_elem t i j v d : tab_wf t ->
  (j, v, d) ∈ row_entries t i <-> exists r, t_rows t !! i = Some r /\ d = r_den r /\ clook (r_cells r) j = Some v.
Proof.
  intros W. unfold row_entries. destruct (t_rows t !! i) as [r|] eqn:Er.
  - pose proof (tw_rows _ W _ _ Er) as Wr. rewrite elem_of_list_In, in_map_iff. split.
    + intros ([c w] & [= -> -> <-] & Hin). exists r. split_and!; auto.
      apply clook_elem; [apply Wr|]. apply elem_of_list_In; auto.
    + intros (r' & [= <-] & -> & Hv). exists (j, v). split; auto. apply elem_of_list_In.
      apply clook_elem; [apply Wr|auto].
  - split; [intros H; inversion H|]. intros (? & ? & _); discriminate.
Qed.

Lemma row_entries_sorted t i : tab_wf t -> StronglySorted lt (map (fun e => e.1.1) (row_entries t i)).
Proof.
  intros W. unfold row_entries. destruct (t_rows t !! i) as [r|] eqn:Er; [|constructor].
  rewrite map_map. cbn. apply (tw_rows _ W _ _ Er).
Qed.

Lemma col_loop_mfold {S} (rd : S -> tableau) j (f : nat -> Z -> Z -> S -> res S) t col kept s :
  (forall i v d s s', rd s = t -> f i v d s = Ok s' -> rd s' = t) -> rd s = t ->
  (forall i, i ∈ col -> i < length (t_rows t)) ->
  col_loop rd j f col kept s =
    (s' ← mfold f (omap (col_entry t j) col) s; Ok (kept ++ map (fun e => e.1.1) (omap (col_entry t j) col), s')).
Proof.
  intros Hf. revert kept s. induction col as [|i col IH]; intros kept s Hs Hlt.
  - cbn. rewrite app_nil_r. auto.
  - cbn. rewrite Hs. destruct (t_rows t !! i) as [r|] eqn:Er.
    2:{ exfalso. apply lookup_ge_None in Er. specialize (Hlt i). rewrite elem_of_cons in Hlt. lia. }
    unfold at_. rewrite Er. cbn.
    assert (Ee : col_entry t j i = match clook (r_cells r) j with Some v => Some (i, v, r_den r) | None => None end).
    { unfold col_entry. rewrite Er. auto. }
    rewrite !Ee.
    assert (Hlt' : forall i, i ∈ col -> i < length (t_rows t)).
    { intros k Hk. apply Hlt. apply elem_of_cons; auto. }
    destruct (clook (r_cells r) j) as [v|]; cbn.
    + destruct (f i v (r_den r) s) as [s'| | |] eqn:Ef; cbn; auto.
      rewrite IH; eauto. destruct (mfold f (omap (col_entry t j) col) s'); cbn; auto.
      rewrite <- app_assoc. reflexivity.
    + rewrite IH; auto.
Qed.

Lemma update_col_mfold {S} (rd : S -> tableau) (wr : tableau -> S -> S) j (f : nat -> Z -> Z -> S -> res S) s :
  tab_wf (rd s) ->
  (forall i v d s1 s2, rd s1 = rd s -> f i v d s1 = Ok s2 -> rd s2 = rd s) ->
  update_col rd wr j f s =
    match t_cols (rd s) !! j with
    | None => Ok s
    | Some _ =>
      s' ← mfold f (col_entries (rd s) j) s;
      Ok (wr (set_col (rd s') j (map (fun e => e.1.1) (col_entries (rd s) j))) s')
    end.
Proof.
  intros W Hf. unfold update_col, col_entries. destruct (t_cols (rd s) !! j) as [col|] eqn:Ec; auto.
  rewrite (col_loop_mfold rd j f (rd s)); auto.
  - destruct (mfold f (omap (col_entry (rd s) j) col) s); reflexivity.
  - apply (tw_cols _ W _ _ Ec).
Qed.

Lemma col_entries_elem t i j v d : tab_wf t ->
  (i, v, d) ∈ col_entries t j <-> exists r, t_rows t !! i = Some r /\ d = r_den r /\ clook (r_cells r) j = Some v.
Proof.
  intros W. unfold col_entries. split.
  - destruct (t_cols t !! j) as [col|] eqn:Ec; [|intros H; inversion H].
    rewrite elem_of_list_omap. intros (k & Hk & He). unfold col_entry in He.
    destruct (t_rows t !! k) as [r|] eqn:Er; [|discriminate].
    destruct (clook (r_cells r) j) eqn:El; [|discriminate]. injection He as -> -> <-. eauto.
  - intros (r & Hr & -> & Hv). destruct (tw_in _ W _ _ _ _ Hr Hv) as (col & -> & Hin).
    apply elem_of_list_omap. exists i. split; auto. unfold col_entry. rewrite Hr, Hv. auto.
Qed.

Lemma omap_sorted (f : nat -> option (nat * Z * Z)) l :
  (forall i e, f i = Some e -> e.1.1 = i) -> StronglySorted lt l ->
  StronglySorted lt (map (fun e => e.1.1) (omap f l)).
Proof.
  intros Hf. induction l as [|a l IH]; intros Hs; cbn; [constructor|].
  inversion Hs; subst. destruct (f a) as [e|] eqn:E; auto. cbn. constructor; auto.
  rewrite (Hf _ _ E). apply List.Forall_forall. intros x Hx. apply in_map_iff in Hx as (e' & <- & He').
  apply elem_of_list_In, elem_of_list_omap in He' as (b & Hb & Eb). rewrite (Hf _ _ Eb).
  rewrite List.Forall_forall in H2. apply H2, elem_of_list_In; auto.
Qed.

Lemma col_entries_sorted t j : tab_wf t -> StronglySorted lt (map (fun e => e.1.1) (col_entries t j)).
Proof.
  intros W. unfold col_entries. destruct (t_cols t !! j) as [col|] eqn:Ec; [|constructor].
  apply omap_sorted; [|apply (tw_cols _ W _ _ Ec)]. intros i e. unfold col_entry.
  destruct (t_rows t !! i); [|discriminate]. destruct (clook _ _); [|discriminate]. intros [= <-]; auto.
Qed.

(** The cleaned column keeps the tableau well-formed and all entries. *)
Lemma set_col_entries_wf t j : tab_wf t -> is_Some (t_cols t !! j) ->
  tab_wf (set_col t j (map (fun e => e.1.1) (col_entries t j))).
Proof.
  intros W [col0 Hcol0]. constructor; cbn.
  - apply W.
  - intros j' col. destruct (decide (j' = j)) as [->|Hne].
    + rewrite list_lookup_insert by (eapply lookup_lt_Some; eauto). intros [= <-].
      split; [apply col_entries_sorted; auto|]. intros i Hi. apply elem_of_list_In, in_map_iff in Hi as ([[i' v] d] & <- & Hi).
      apply elem_of_list_In, col_entries_elem in Hi as (r & Hr & _); auto. cbn. eapply lookup_lt_Some; eauto.
    + rewrite list_lookup_insert_ne by auto. apply W.
  - intros i r j' v Hr Hv. destruct (tw_in _ W _ _ _ _ Hr Hv) as (col & Hc & Hin).
    destruct (decide (j' = j)) as [->|Hne].
    + rewrite list_lookup_insert by (eapply lookup_lt_Some; eauto). eexists; split; [reflexivity|].
      apply elem_of_list_In, in_map_iff. exists (i, v, r_den r). split; auto.
      apply elem_of_list_In, col_entries_elem; eauto.
    + rewrite list_lookup_insert_ne by auto. eauto.
Qed.

Lemma tget_rows t t' i j : t_rows t = t_rows t' -> tget t i j = tget t' i j.
Proof. unfold tget. intros ->. reflexivity. Qed.

(** ** Sorted vectors of row indices *)

Lemma ssorted_cons_iff a l : StronglySorted lt (a :: l) <-> (forall x, x ∈ l -> a < x) /\ StronglySorted lt l.
Proof.
  split.
  - intros H; inversion H; subst. split; auto. intros x Hx. rewrite List.Forall_forall in H3. apply H3, elem_of_list_In; auto.
  - intros [H1 H2]. constructor; auto. apply List.Forall_forall. intros x Hx. apply H1, elem_of_list_In; auto.
Qed.

Lemma col_insert_spec i col : StronglySorted lt col ->
  StronglySorted lt (col_insert i col) /\ forall k, k ∈ col_insert i col <-> k = i \/ k ∈ col.
Proof.
  unfold col_insert. induction col as [|c col IH]; intros Hs.
  - cbn. split; [repeat constructor|]. intros k. rewrite elem_of_list_singleton, elem_of_nil. tauto.
  - apply ssorted_cons_iff in Hs as [Hlt Hs]. cbn [lbn].
    destruct (Nat.ltb_spec c i).
    + destruct (IH Hs) as [IH1 IH2]. cbn [lookup list_lookup].
      change ((c :: col) !! S (lbn i col)) with (col !! lbn i col).
      destruct (col !! lbn i col) as [k|] eqn:Ek.
      * destruct (k =? i).
        -- split; [apply ssorted_cons_iff; auto|]. intros k'. rewrite !elem_of_cons, IH2. tauto.
        -- unfold insert_at in *. cbn [take drop app]. split.
           ++ apply ssorted_cons_iff. split; auto. intros x Hx. apply IH2 in Hx as [->|]; auto.
           ++ intros k'. rewrite !elem_of_cons, IH2. tauto.
      * unfold insert_at in *. cbn [take drop app]. split.
        -- apply ssorted_cons_iff. split; auto. intros x Hx. apply IH2 in Hx as [->|]; auto.
        -- intros k'. rewrite !elem_of_cons, IH2. tauto.
    + change ((c :: col) !! 0) with (Some c). cbv iota beta. destruct (Nat.eqb_spec c i).
      * subst. split; [apply ssorted_cons_iff; auto|]. intros k. rewrite elem_of_cons. tauto.
      * unfold insert_at. cbn [take drop app]. split.
        -- apply ssorted_cons_iff. split; [|apply ssorted_cons_iff; auto].
           intros x Hx. apply elem_of_cons in Hx as [->|Hx]; [lia|]. apply Hlt in Hx. lia.
        -- intros k. rewrite !elem_of_cons. tauto.
Qed.

Lemma set_union_spec l1 l2 : StronglySorted lt l1 -> StronglySorted lt l2 ->
  StronglySorted lt (set_union l1 l2) /\ forall k, k ∈ set_union l1 l2 <-> k ∈ l1 \/ k ∈ l2.
Proof.
  revert l2. induction l1 as [|a l1 IH1]; intros l2 H1 H2.
  - assert (E : set_union [] l2 = l2) by (destruct l2; reflexivity). rewrite E.
    split; auto. intros k. rewrite elem_of_nil. tauto.
  - induction l2 as [|b l2 IH2].
    + cbn. split; auto. intros k. rewrite elem_of_nil. tauto.
    + pose proof H1 as H1'. pose proof H2 as H2'.
      apply ssorted_cons_iff in H1 as [Ha H1]. apply ssorted_cons_iff in H2 as [Hb H2].
      cbn. destruct (Nat.ltb_spec a b); [|destruct (Nat.ltb_spec b a)].
      * destruct (IH1 (b :: l2) H1 H2') as [I1 I2]. split.
        -- apply ssorted_cons_iff. split; auto. intros x Hx. apply I2 in Hx as [Hx|Hx]; auto.
           apply elem_of_cons in Hx as [->|Hx]; auto. apply Hb in Hx. lia.
        -- intros k. rewrite !elem_of_cons, I2, elem_of_cons. tauto.
      * destruct (IH2 H2) as [I1 I2]. split.
        -- apply ssorted_cons_iff. split; auto. intros x Hx. apply I2 in Hx as [Hx|Hx]; auto.
           apply elem_of_cons in Hx as [->|Hx]; auto. apply Ha in Hx. lia.
        -- intros k. rewrite elem_of_cons. rewrite (I2 k). rewrite !elem_of_cons. tauto.
      * assert (a = b) by lia. subst b. destruct (IH1 l2 H1 H2) as [I1 I2]. split.
        -- apply ssorted_cons_iff. split; auto. intros x Hx. apply I2 in Hx as [Hx|Hx]; auto.
        -- intros k. rewrite !elem_of_cons, I2. tauto.
Qed.

Lemma sort_col_spec n col0 app : n = length app -> StronglySorted lt col0 -> StronglySorted lt app ->
  exists col', sort_col n (col0 ++ app) = Ok col' /\ StronglySorted lt col' /\ forall k, k ∈ col' <-> k ∈ col0 \/ k ∈ app.
Proof.
  intros -> H0 H1. unfold sort_col. destruct app as [|a app].
  { cbn. rewrite app_nil_r. eexists; split_and!; eauto. intros k. rewrite elem_of_nil. tauto. }
  destruct app as [|b app].
  { cbn -[last take]. rewrite last_snoc. rewrite app_length. cbn [length].
    replace (length col0 + 1 - 1) with (length col0) by lia. rewrite take_app.
    eexists; split; [reflexivity|]. destruct (col_insert_spec a col0 H0) as [I1 I2]. split; auto.
    intros k. rewrite I2, elem_of_list_singleton. tauto. }
  set (l := a :: b :: app) in *. destruct (Nat.eqb_spec (length l) 0); [cbn in *; lia|].
  destruct (Nat.eqb_spec (length l) 1); [cbn in *; lia|].
  rewrite app_length. destruct (Nat.leb_spec (length l) (length col0 + length l)); [|lia]. cbn [guard_ub].
  replace (length col0 + length l - length l) with (length col0) by lia. rewrite take_app, drop_app.
  cbn. eexists; split; [reflexivity|]. apply set_union_spec; auto.
Qed.

(** ** set *)

Lemma clook_mapc (f : nat -> Z -> Z) cells j :
  clook (map (fun c : cell => (c.1, f c.1 c.2)) cells) j = f j <$> clook cells j.
Proof.
  induction cells as [|[c v] r IH]; auto. cbn [map fst snd]. rewrite !clook_cons, IH.
  destruct (c <? j); auto. destruct (Nat.eqb_spec c j); subst; auto.
Qed.

Definition cput (j : nat) (v : Z) (cells : list cell) : list cell :=
  let p := lb j cells in
  match cells !! p with
  | Some (c, _) => if c =? j then <[p := (c, v)]> cells else insert_at p (j, v) cells
  | None => insert_at p (j, v) cells
  end.

Lemma cput_cons j v c w r : cput j v ((c, w) :: r) =
  if c <? j then (c, w) :: cput j v r
  else if c =? j then (c, v) :: r else (j, v) :: (c, w) :: r.
Proof.
  unfold cput. cbn [lb]. destruct (c <? j).
  - change (((c, w) :: r) !! S (lb j r)) with (r !! lb j r). destruct (r !! lb j r) as [[c' w']|]; auto.
    destruct (c' =? j); auto.
  - change (((c, w) :: r) !! 0) with (Some (c, w)). cbv iota beta. destruct (c =? j); auto.
Qed.

Lemma cput_spec j v cells : csorted cells ->
  csorted (cput j v cells) /\ (forall l, clook (cput j v cells) l = if l =? j then Some v else clook cells l)
  /\ cput j v cells !! lb j cells = Some (j, v).
Proof.
  induction cells as [|[c w] r IH]; intros Hs.
  - cbn. split; [repeat constructor|]. split; auto. intros l.
    change (clook [(j, v)] l = if l =? j then Some v else clook [] l). rewrite clook_cons.
    rewrite clook_nil. destruct (Nat.ltb_spec j l), (Nat.eqb_spec l j), (Nat.eqb_spec j l); auto; lia.
  - pose proof Hs as Hs0. apply csorted_cons in Hs as [Hlt Hs]. destruct (IH Hs) as (I1 & I2 & I3).
    rewrite cput_cons. cbn [lb]. destruct (Nat.ltb_spec c j); [|destruct (Nat.eqb_spec c j)].
    + split_and!; auto.
      * apply csorted_cons. split; auto. intros [l x] Hx. apply (clook_elem _ _ _ I1) in Hx.
        rewrite I2 in Hx. destruct (Nat.eqb_spec l j); [cbn; lia|].
        apply (clook_elem _ _ _ Hs) in Hx. apply (Hlt _ Hx).
      * intros l. rewrite !clook_cons, I2. destruct (Nat.ltb_spec c l), (Nat.eqb_spec l j), (Nat.eqb_spec c l); auto; lia.
    + subst. split; [apply csorted_cons; auto|]. split; [|reflexivity].
      { intros l. rewrite !clook_cons.
        destruct (Nat.ltb_spec j l), (Nat.eqb_spec l j), (Nat.eqb_spec j l); auto; lia. }
    + split; [apply csorted_cons; split; auto; apply csorted_lt_cons; auto; lia|]. split; [|reflexivity].
      { intros l. rewrite (clook_cons j).
        destruct (Nat.ltb_spec j l), (Nat.eqb_spec l j), (Nat.eqb_spec j l); auto; try lia.
        rewrite clook_cons. destruct (Nat.ltb_spec c l), (Nat.eqb_spec c l); auto; lia. }
Qed.

Lemma imap_cput (f : Z -> Z) j p cells : csorted cells -> (exists v, cells !! p = Some (j, v)) ->
  imap (fun q (c : cell) => if q =? p then c else (c.1, f c.2)) cells
  = map (fun c : cell => (c.1, (if c.1 =? j then c.2 else f c.2))) cells.
Proof.
  intros Hs [v Hp]. apply list_eq. intros q. rewrite list_lookup_imap. rewrite list_lookup_fmap.
  destruct (cells !! q) as [[c w]|] eqn:Eq; auto. cbn. f_equal.
  destruct (Nat.eqb_spec q p), (Nat.eqb_spec c j); subst; auto.
  - congruence.
  - destruct (csorted_inj _ _ _ _ _ _ Hs Hp Eq). congruence.
Qed.

Lemma set_row_spec r j a : row_wf r -> a <> 0%Qc ->
  row_wf (set_row r j a) /\ (forall l, rget (set_row r j a) l = if l =? j then a else rget r l)
  /\ (forall l, is_Some (clook (r_cells (set_row r j a)) l) <-> l = j \/ is_Some (clook (r_cells r) l)).
Proof.
  intros W Ha.
  set (g := Z.gcd (Zpos (Qden a)) (r_den r)).
  set (ag := (Zpos (Qden a) / g)%Z). set (rg := (r_den r / g)%Z). set (v := (Qnum a * rg)%Z).
  assert (Hr : set_row r j a =
    if (ag =? 1)%Z then Row (r_den r) (cput j v (r_cells r))
    else Row (r_den r * ag)%Z (imap (fun q (c : cell) => if q =? lb j (r_cells r) then c else (c.1, (c.2 * ag)%Z)) (cput j v (r_cells r)))).
  { reflexivity. }
  rewrite Hr; clear Hr.
  destruct (cput_spec j v (r_cells r) (rw_sorted _ W)) as (S1 & S2 & S3).
  assert (Hg : g <> 0%Z). { unfold g. intros H0. apply Z.gcd_eq_0_l in H0. lia. }
  assert (Hgd : r_den r = (rg * g)%Z).
  { unfold rg. destruct (Z.gcd_divide_r (Zpos (Qden a)) (r_den r)) as [k Hk]. fold g in Hk.
    rewrite Hk, Z.div_mul; auto. }
  assert (Hga : Zpos (Qden a) = (ag * g)%Z).
  { unfold ag. destruct (Z.gcd_divide_l (Zpos (Qden a)) (r_den r)) as [k Hk]. fold g in Hk.
    rewrite Hk, Z.div_mul; auto. }
  assert (Hrg : rg <> 0%Z). { intros H0. apply W. rewrite Hgd, H0. lia. }
  assert (Hag : ag <> 0%Z). { intros H0. rewrite H0 in Hga. lia. }
  assert (Hna : Qnum a <> 0%Z).
  { intros H0. apply Ha. apply Qc_is_canon. destruct a as [[n d] c]. cbn in *. subst n. reflexivity. }
  assert (Hv : v <> 0%Z). { unfold v. apply Z.neq_mul_0; auto. }
  assert (Haq : a = qmk (Qnum a) (Zpos (Qden a))).
  { apply Qc_is_canon. unfold qmk, Qcdiv. rewrite qc_this_mult. destruct a as [[n d] c]. cbn.
    rewrite Qred_correct. unfold Qeq, Qinv; cbn. lia. }
  assert (Hva : qmk v (r_den r * ag) = a).
  { transitivity (qmk (Qnum a) (Zpos (Qden a))); [|auto]. rewrite Hga. unfold v.
    replace (r_den r * ag)%Z with ((ag * g) * rg)%Z by (rewrite Hgd; ring).
    apply qmk_cancel; auto. lia. }
  destruct (Z.eqb_spec ag 1) as [Hag1|Hag1].
  - split_and!.
    + constructor; cbn; [apply W|auto|]. intros l x. rewrite S2. destruct (l =? j); [intros [= <-]; auto|apply W].
    + intros l. unfold rget at 1; cbn. rewrite S2. destruct (l =? j); auto.
      rewrite Hag1, Z.mul_1_r in Hva. auto.
    + intros l. cbn. rewrite S2. destruct (Nat.eqb_spec l j).
      * split; eauto.
      * split; auto. intros [?|?]; auto; congruence.
  - rewrite (imap_cput (fun z => (z * ag)%Z) j) by eauto.
    pose proof (clook_mapc (fun c z => if c =? j then z else (z * ag)%Z) (cput j v (r_cells r))) as Hm. cbn in Hm.
    split_and!.
    + constructor; cbn.
      * apply Z.neq_mul_0; split; auto. apply W.
      * apply (csorted_map (fun c => if c.1 =? j then c.2 else (c.2 * ag)%Z)). auto.
      * intros l x. rewrite Hm, S2. destruct (l =? j) eqn:El; cbn; rewrite ?El; [intros [= <-]; auto|].
        destruct (clook (r_cells r) l) eqn:E; [|discriminate]. cbn. intros [= <-]. apply Z.neq_mul_0; split; auto.
        eapply rw_nz; eauto.
    + intros l. unfold rget; cbn. rewrite Hm, S2. destruct (l =? j) eqn:El; cbn; rewrite ?El; auto.
      destruct (clook (r_cells r) l) eqn:E; auto. cbn. apply qmk_cancel; auto. apply W.
    + intros l. cbn. rewrite Hm, S2. destruct (l =? j) eqn:El; cbn.
      * apply Nat.eqb_eq in El. split; eauto.
      * apply Nat.eqb_neq in El. destruct (clook (r_cells r) l); cbn.
        -- split; intros; eauto.
        -- split; [intros [? ?]; discriminate|]. intros [?|[? ?]]; [congruence|discriminate].
Qed.

Lemma empty_row_wf : row_wf empty_row.
Proof. constructor; cbn; [discriminate|apply csorted_nil|]. intros j v; rewrite clook_nil; discriminate. Qed.

Lemma grow_lookup {A} (d : A) n l i : i < length l -> grow d n l !! i = l !! i.
Proof. intros. unfold grow. apply lookup_app_l; auto. Qed.
Lemma grow_lookup_new {A} (d : A) n l i : length l <= i -> i < n -> grow d n l !! i = Some d.
Proof. intros. unfold grow. rewrite lookup_app_r by auto. apply lookup_replicate; split; auto. lia. Qed.
Lemma grow_length {A} (d : A) n l : length (grow d n l) = max n (length l).
Proof. unfold grow. rewrite app_length, replicate_length. lia. Qed.
Lemma grow_lookup_inv {A} (d : A) n l i x : grow d n l !! i = Some x -> l !! i = Some x \/ (length l <= i /\ x = d).
Proof.
  unfold grow. intros H. apply lookup_app_Some in H as [?|[? H]]; auto.
  apply lookup_replicate in H as [-> ?]. auto.
Qed.

Lemma clook_delete cells j v l : csorted cells -> cells !! lb j cells = Some (j, v) ->
  csorted (delete (lb j cells) cells) /\ clook (delete (lb j cells) cells) l = if l =? j then None else clook cells l.
Proof.
  induction cells as [|[c w] r IH]; intros Hs Hp; [discriminate|].
  pose proof Hs as Hs0. apply csorted_cons in Hs as [Hlt Hs]. cbn [lb] in *.
  destruct (Nat.ltb_spec c j).
  - cbn in Hp. destruct (IH Hs Hp) as [I1 I2].
    change (delete (S (lb j r)) ((c, w) :: r)) with ((c, w) :: delete (lb j r) r). split.
    + apply csorted_cons. split; auto. intros x Hx. apply Hlt. eapply elem_of_list_lookup in Hx as [q Hq].
      destruct (decide (q < lb j r)).
      * rewrite lookup_delete_lt in Hq by auto. eapply elem_of_list_lookup_2; eauto.
      * rewrite lookup_delete_ge in Hq by lia. eapply elem_of_list_lookup_2; eauto.
    + rewrite !clook_cons, I2. destruct (Nat.ltb_spec c l), (Nat.eqb_spec l j), (Nat.eqb_spec c l); auto; lia.
  - cbn in Hp. injection Hp as -> ->. cbn. split; auto. rewrite clook_cons.
    destruct (Nat.ltb_spec j l), (Nat.eqb_spec l j), (Nat.eqb_spec j l); auto; try lia.
    + apply clook_lt_none; auto. intros x Hx. apply Hlt in Hx. lia.
    + apply clook_lt_none; auto. intros x Hx. apply Hlt in Hx. lia.
Qed.

Lemma alter_lookup {A} (f : A -> A) i k (l : list A) :
  alter f i l !! k = if decide (k = i) then f <$> l !! i else l !! k.
Proof. case_decide; [subst; apply list_lookup_alter | apply list_lookup_alter_ne; auto]. Qed.

Theorem tset_spec t i j a : tab_wf t ->
  tab_wf (tset t i j a) /\
  forall k l, tget (tset t i j a) k l = if (k =? i) && (l =? j) then a else tget t k l.
Proof.
  intros W. unfold tset. destruct (Qc_eq_bool a 0) eqn:Ea.
  - apply Qc_eq_bool_iff in Ea. subst a.
    destruct (t_rows t !! i) as [r|] eqn:Er.
    2:{ split; auto. intros k l. destruct (Nat.eqb_spec k i); auto. subst. rewrite (tget_none _ _ _ Er). destruct (l =? j); auto. }
    pose proof (tw_rows _ W _ _ Er) as Wr.
    assert (Hno : (forall v, r_cells r !! lb j (r_cells r) <> Some (j, v)) ->
      forall k l, tget t k l = if (k =? i) && (l =? j) then 0%Qc else tget t k l).
    { intros H k l. destruct (Nat.eqb_spec k i); auto. destruct (Nat.eqb_spec l j); auto. subst. cbn.
      rewrite (tget_rget _ _ _ _ Er). unfold rget. destruct (clook (r_cells r) j) eqn:E; auto.
      apply clook_lb in E. destruct (H _ E). }
    destruct (r_cells r !! lb j (r_cells r)) as [[c v]|] eqn:Ep.
    2:{ split; auto. }
    destruct (Nat.eqb_spec c j) as [->|Hne].
    2:{ split; auto. apply Hno. intros v' [= ? ?]; congruence. }
    clear Hno. destruct (clook_delete _ _ _ 0 (rw_sorted _ Wr) Ep) as [D1 _].
    assert (D2 : forall l, clook (delete (lb j (r_cells r)) (r_cells r)) l = if l =? j then None else clook (r_cells r) l).
    { intros l. apply (clook_delete _ _ _ l (rw_sorted _ Wr) Ep). }
    assert (Hi : i < length (t_rows t)) by (eapply lookup_lt_Some; eauto).
    split.
    + constructor; cbn.
      * intros k r'. destruct (decide (k = i)) as [->|].
        -- rewrite list_lookup_insert by auto. intros [= <-]. constructor; cbn; auto; [apply Wr|].
           intros l x. rewrite D2. destruct (l =? j); [discriminate|apply Wr].
        -- rewrite list_lookup_insert_ne by auto. apply W.
      * intros l col Hc. rewrite insert_length. apply (tw_cols _ W _ _ Hc).
      * intros k r' l x. destruct (decide (k = i)) as [->|].
        -- rewrite list_lookup_insert by auto. intros [= <-]. cbn. rewrite D2. destruct (l =? j); [discriminate|].
           intros Hx. apply (tw_in _ W _ _ _ _ Er Hx).
        -- rewrite list_lookup_insert_ne by auto. apply W.
    + intros k l. unfold tget; cbn. destruct (Nat.eqb_spec k i) as [->|].
      * rewrite list_lookup_insert, Er by auto. cbn. rewrite D2. destruct (l =? j); auto.
      * rewrite list_lookup_insert_ne by auto. auto.
  - assert (Ha : a <> 0%Qc). { intros H. apply Qc_eq_bool_iff in H. congruence. }
    cbn [t_rows t_cols reserve_row reserve_col].
    set (rows1 := grow empty_row (S i) (t_rows t)).
    set (cols1 := grow [] (S j) (t_cols t)).
    assert (Hi : i < length rows1) by (unfold rows1; rewrite grow_length; lia).
    destruct (lookup_lt_is_Some_2 _ _ Hi) as [ri Hri].
    assert (Wi : row_wf ri).
    { apply grow_lookup_inv in Hri as [?|[_ ->]]; [eapply tw_rows; eauto|apply empty_row_wf]. }
    assert (Hj : j < length cols1) by (unfold cols1; rewrite grow_length; lia).
    destruct (lookup_lt_is_Some_2 _ _ Hj) as [cj Hcj].
    assert (Scj : StronglySorted lt cj /\ forall k, k ∈ cj -> k < length (t_rows t)).
    { apply grow_lookup_inv in Hcj as [?|[_ ->]]; [eapply tw_cols; eauto|]. split; [constructor|].
      intros k H; inversion H. }
    destruct (set_row_spec ri j a Wi Ha) as (R1 & R2 & R3).
    destruct (col_insert_spec i cj (proj1 Scj)) as [C1 C2].
    assert (Hcols1 : forall l col, t_cols t !! l = Some col -> cols1 !! l = Some col).
    { intros l col Hl. unfold cols1. rewrite grow_lookup; auto. eapply lookup_lt_Some; eauto. }
    assert (Hlen : length (t_rows t) <= length rows1) by (unfold rows1; rewrite grow_length; lia).
    split.
    + constructor; cbn.
      * intros k r. rewrite alter_lookup. case_decide.
        -- subst k. rewrite Hri. cbn. intros [= <-]. auto.
        -- intros Hr. apply grow_lookup_inv in Hr as [?|[_ ->]]; [eapply tw_rows; eauto|apply empty_row_wf].
      * intros l col. rewrite alter_lookup, alter_length. case_decide.
        -- subst l. rewrite Hcj. cbn. intros [= <-]. split; auto. intros k Hk. apply C2 in Hk as [->|Hk]; auto.
           apply Scj in Hk. lia.
        -- intros Hc. apply grow_lookup_inv in Hc as [Hc|[_ ->]].
           ++ destruct (tw_cols _ W _ _ Hc) as [? Hx]. split; auto. intros k Hk. apply Hx in Hk. lia.
           ++ split; [constructor|]. intros k H'; inversion H'.
      * intros k r l v Hr Hv.
        assert (Hor : (k = i /\ l = j) \/ (exists r0, t_rows t !! k = Some r0 /\ is_Some (clook (r_cells r0) l))).
        { rewrite alter_lookup in Hr. case_decide.
          - subst k. rewrite Hri in Hr. cbn in Hr. injection Hr as <-.
            destruct (proj1 (R3 l)) as [->|Hs]; eauto. apply grow_lookup_inv in Hri as [?|[_ ->]]; eauto.
            cbn in Hs. rewrite clook_nil in Hs. destruct Hs; discriminate.
          - apply grow_lookup_inv in Hr as [?|[_ ->]]; eauto. cbn in Hv. rewrite clook_nil in Hv. discriminate. }
        rewrite alter_lookup. destruct Hor as [[-> ->]|(r0 & Hr0 & [v0 Hv0])].
        -- rewrite decide_True by auto. rewrite Hcj. cbn. eexists; split; [reflexivity|]. apply C2; auto.
        -- destruct (tw_in _ W _ _ _ _ Hr0 Hv0) as (col & Hc & Hin). apply Hcols1 in Hc.
           case_decide; eauto. subst l. rewrite Hc. cbn. rewrite Hc in Hcj. injection Hcj as <-.
           eexists; split; [reflexivity|]. apply C2; auto.
    + intros k l. unfold tget; cbn. rewrite alter_lookup. case_decide as Hk.
      * subst k. rewrite Hri. cbn. change (rget (set_row ri j a) l = if (i =? i) && (l =? j) then a else
          match t_rows t !! i with Some r => rget r l | None => 0%Qc end).
        rewrite R2, Nat.eqb_refl. cbn. destruct (l =? j); auto.
        apply grow_lookup_inv in Hri as [->|[Hge ->]]; auto.
        apply lookup_ge_None in Hge. rewrite Hge. auto.
      * destruct (Nat.eqb_spec k i); [congruence|]. cbn.
        destruct (decide (k < length (t_rows t))).
        -- unfold rows1. rewrite grow_lookup by auto. auto.
        -- assert (Hn : t_rows t !! k = None) by (apply lookup_ge_None; lia). rewrite Hn.
           destruct (rows1 !! k) as [r|] eqn:E; auto. apply grow_lookup_inv in E as [E|[_ ->]]; [congruence|].
           cbn. rewrite clook_nil. auto.
Qed.

(** ** pivot *)

Lemma apply_ins_spec k ins s :
  NoDup (map fst ins) -> NoDup (map snd ins) ->
  (forall p c, (p, c) ∈ ins -> p < length (p_sizes s) /\ c < length (t_cols (p_tab s))) ->
  exists s', apply_ins k ins s = Ok s'
    /\ t_rows (p_tab s') = t_rows (p_tab s)
    /\ length (t_cols (p_tab s')) = length (t_cols (p_tab s))
    /\ length (p_sizes s') = length (p_sizes s)
    /\ (forall c col, t_cols (p_tab s) !! c = Some col ->
          t_cols (p_tab s') !! c = Some (col ++ if decide (c ∈ map snd ins) then [k] else []))
    /\ (forall p n, p_sizes s !! p = Some n ->
          p_sizes s' !! p = Some (n + if decide (p ∈ map fst ins) then 1 else 0)).
Proof.
  revert s. induction ins as [|[p c] ins IH]; intros s N1 N2 Hb.
  - cbn. exists s. split_and!; auto; intros; [rewrite app_nil_r|rewrite Nat.add_0_r]; auto.
  - cbn in N1, N2. apply NoDup_cons in N1 as [N1 N1']. apply NoDup_cons in N2 as [N2 N2'].
    destruct (Hb p c) as [Hp Hc]; [apply elem_of_cons; auto|].
    destruct (lookup_lt_is_Some_2 _ _ Hp) as [n Hn]. destruct (lookup_lt_is_Some_2 _ _ Hc) as [col Hcol].
    cbn. unfold at_. rewrite Hcol. cbn. rewrite Hn. cbn.
    destruct (IH (PState (set_col (p_tab s) c (col ++ [k])) (<[p:=S n]> (p_sizes s)))) as (s' & E & R1 & R2 & R3 & R4 & R5); auto.
    { intros p' c' Hin. cbn. rewrite !insert_length. apply Hb. apply elem_of_cons; auto. }
    cbn in R1, R2, R3, R4, R5. exists s'. split; [exact E|]. rewrite R1, R2, R3, !insert_length. split_and!; auto.
    + intros c' col' Hc'. destruct (decide (c' = c)) as [->|Hne].
      * rewrite Hcol in Hc'; injection Hc' as <-.
        rewrite (R4 c (col ++ [k])) by (rewrite list_lookup_insert; auto).
        rewrite decide_False by auto. rewrite app_nil_r. rewrite decide_True; auto. apply elem_of_cons; auto.
      * rewrite (R4 c' col') by (rewrite list_lookup_insert_ne; auto). do 2 f_equal.
        destruct (decide (c' ∈ map snd ins)); [rewrite decide_True|rewrite decide_False]; auto.
        -- apply elem_of_cons; auto.
        -- rewrite elem_of_cons. tauto.
    + intros p' n' Hp'. destruct (decide (p' = p)) as [->|Hne].
      * rewrite Hn in Hp'; injection Hp' as <-.
        rewrite (R5 p (S n)) by (rewrite list_lookup_insert; auto).
        rewrite decide_False by auto. rewrite decide_True; [f_equal; lia|]. apply elem_of_cons; auto.
      * rewrite (R5 p' n') by (rewrite list_lookup_insert_ne; auto). do 2 f_equal.
        destruct (decide (p' ∈ map fst ins)); [rewrite decide_True|rewrite decide_False]; auto.
        -- apply elem_of_cons; auto.
        -- rewrite elem_of_cons. tauto.
Qed.

Lemma NoDup_map_inj {A B} (f : A -> B) l :
  (forall x y, x ∈ l -> y ∈ l -> f x = f y -> x = y) -> NoDup l -> NoDup (map f l).
Proof.
  intros Hf N. induction l as [|a l IH]; cbn; [constructor|]. apply NoDup_cons in N as [N1 N2].
  apply NoDup_cons. split.
  - rewrite elem_of_list_In, in_map_iff. intros (b & Hb & Hin). apply N1.
    rewrite <- (Hf b a); auto; [apply elem_of_list_In; auto|..]; apply elem_of_cons; auto. right. apply elem_of_list_In; auto.
  - apply IH; auto. intros x y Hx Hy. apply Hf; apply elem_of_cons; auto.
Qed.

Lemma elem_of_map_fst {A B} (l : list (A * B)) a : a ∈ map fst l <-> exists b, (a, b) ∈ l.
Proof.
  rewrite elem_of_list_In, in_map_iff. split.
  - intros ([a' b] & <- & H). exists b. apply elem_of_list_In; auto.
  - intros [b H]. exists (a, b). split; auto. apply elem_of_list_In; auto.
Qed.
Lemma elem_of_map_snd {A B} (l : list (A * B)) b : b ∈ map snd l <-> exists a, (a, b) ∈ l.
Proof.
  rewrite elem_of_list_In, in_map_iff. split.
  - intros ([a b'] & <- & H). exists a. apply elem_of_list_In; auto.
  - intros [a H]. exists (a, b). split; auto. apply elem_of_list_In; auto.
Qed.

(** One row of the elimination loop. *)
Lemma pivot_row_spec i j Ai a_ij d_i k a_kj rk s :
  k <> i -> csorted Ai -> (forall l a, clook Ai l = Some a -> a <> 0%Z) -> clook Ai j = Some a_ij -> d_i <> 0%Z ->
  t_rows (p_tab s) !! k = Some rk -> row_wf rk -> clook (r_cells rk) j = Some a_kj ->
  length (p_sizes s) = length Ai -> (forall l a, clook Ai l = Some a -> l < length (t_cols (p_tab s))) ->
  exists s' rk', pivot_row i j Ai a_ij d_i k a_kj (r_den rk) s = Ok s'
    /\ t_rows (p_tab s') = <[k := rk']> (t_rows (p_tab s))
    /\ row_wf rk'
    /\ (forall l, is_Some (clook (r_cells rk') l) -> is_Some (clook Ai l) \/ is_Some (clook (r_cells rk) l))
    /\ (forall l, rget rk' l =
          if l =? j then (rget rk j / qmk a_ij d_i)%Qc
          else (rget rk l + rget rk j * (match clook Ai l with Some a => qmk a d_i | None => 0 end) / qmk a_ij d_i)%Qc)
    /\ length (t_cols (p_tab s')) = length (t_cols (p_tab s))
    /\ length (p_sizes s') = length (p_sizes s)
    /\ (forall c col, t_cols (p_tab s) !! c = Some col ->
          t_cols (p_tab s') !! c = Some (col ++ if decide (is_Some (clook Ai c) /\ clook (r_cells rk) c = None) then [k] else []))
    /\ (forall p c v n, Ai !! p = Some (c, v) -> p_sizes s !! p = Some n ->
          p_sizes s' !! p = Some (n + if decide (clook (r_cells rk) c = None) then 1 else 0)).
Proof.
  intros Hki Hs Hnz Haij Hdi Hrk Wrk Hakj Hlen Hcols.
  assert (Ha0 : a_ij <> 0%Z) by eauto. assert (Hk0 : a_kj <> 0%Z) by (eapply rw_nz; eauto).
  unfold pivot_row. destruct (Nat.eqb_spec k i); [congruence|].
  set (g := Z.gcd a_ij a_kj).
  assert (Hg : g <> 0%Z). { unfold g. intros H0. apply Z.gcd_eq_0_l in H0. auto. }
  destruct (Z.eqb_spec g 0); [congruence|]. cbn [negb guard_ub mbind res_bind].
  set (ga := (a_ij / g)%Z). set (gk := (a_kj / g)%Z).
  assert (Ega : a_ij = (ga * g)%Z).
  { unfold ga. destruct (Z.gcd_divide_l a_ij a_kj) as [x Hx]. fold g in Hx. rewrite Hx, Z.div_mul; auto. }
  assert (Egk : a_kj = (gk * g)%Z).
  { unfold gk. destruct (Z.gcd_divide_r a_ij a_kj) as [x Hx]. fold g in Hx. rewrite Hx, Z.div_mul; auto. }
  assert (Hga : ga <> 0%Z) by (intros H0; rewrite H0 in Ega; lia).
  assert (Hgk : gk <> 0%Z) by (intros H0; rewrite H0 in Egk; lia).
  rewrite (proj2 (at_ok _ _ _) Hrk). cbn [mbind res_bind].
  clearbody ga gk. clearbody g.
  destruct (merge_spec j ga gk Ai 0 (r_cells rk) (MAcc [] 0 (r_den rk) []) Hga Hgk Hs (rw_sorted _ Wrk) Hnz (rw_nz _ Wrk))
    as [(out & O1 & O2 & O3 & O4 & _) (ins & I1 & I2 & I3)].
  cbn [m_row m_ins m_den m_piv app] in *.
  set (acc := merge j ga gk Ai 0 (r_cells rk) (MAcc [] 0 (r_den rk) [])) in *. clearbody acc.
  destruct O4 as (Hden & q & Hpiv & Hq). { split; eauto. }
  cbn in Hpiv. rewrite O1, I1, Hpiv, Hden. rewrite (proj2 (at_ok _ _ _) Hq). cbn [mbind res_bind fst snd].
  set (cells' := <[q := (j, (gk * d_i)%Z)]> out).
  assert (Hc' : cells' = map (fun c : cell => (c.1, if c.1 =? j then (gk * d_i)%Z else c.2)) out).
  { unfold cells'. apply list_eq. intros p. rewrite list_lookup_fmap. destruct (decide (p = q)) as [->|Hpq].
    - rewrite list_lookup_insert by (eapply lookup_lt_Some; eauto). rewrite Hq. cbn. rewrite Nat.eqb_refl. auto.
    - rewrite list_lookup_insert_ne by auto. destruct (out !! p) as [[c v]|] eqn:Ep; auto. cbn.
      destruct (Nat.eqb_spec c j); auto. subst. destruct (csorted_inj _ _ _ _ _ _ O2 Hq Ep). congruence. }
  assert (Hlk : forall l, clook cells' l = if l =? j then Some (gk * d_i)%Z else mexp j ga gk Ai (r_cells rk) l).
  { intros l. rewrite Hc'. rewrite (clook_mapc (fun c z => if c =? j then (gk * d_i)%Z else z)). rewrite O3.
    destruct (Nat.eqb_spec l j).
    - subst. unfold mexp. rewrite Haij, Hakj, Nat.eqb_refl. auto.
    - destruct (mexp _ _ _ _ _ _); auto. }
  assert (Wr' : row_wf (Row (r_den rk * ga) cells')).
  { constructor; cbn.
    - apply Z.neq_mul_0; split; auto. apply Wrk.
    - rewrite Hc'. apply (csorted_map (fun c => if c.1 =? j then (gk * d_i)%Z else c.2)). auto.
    - intros l v. rewrite Hlk. destruct (Nat.eqb_spec l j). { intros [= <-]. apply Z.neq_mul_0; auto. }
      unfold mexp. destruct (Nat.eqb_spec l j); [congruence|].
      destruct (clook Ai l) eqn:E1, (clook (r_cells rk) l) eqn:E2; try discriminate.
      + cbn. destruct (Z.eqb_spec (z0 * ga + gk * z) 0); [discriminate|]. intros [= <-]; auto.
      + intros [= <-]. apply Z.neq_mul_0; eauto.
      + intros [= <-]. apply Z.neq_mul_0; split; auto. eapply rw_nz; eauto. }
  destruct (simplify_row_ok _ Wr') as (rk' & -> & Wrk' & Hcols' & Hget').
  cbn [mbind res_bind].
  assert (Hins : forall p c, (p, c) ∈ ins <-> exists v, Ai !! p = Some (c, v) /\ clook (r_cells rk) c = None).
  { intros p c. rewrite I3. split.
    - intros (q' & v & -> & ? & ?). eauto.
    - intros (v & ? & ?). exists p, v. auto. }
  destruct (apply_ins_spec k ins s) as (s' & -> & R1 & R2 & R3 & R4 & R5).
  { apply NoDup_map_inj; auto. intros [p c] [p' c'] H1 H2; cbn; intros ->.
    apply Hins in H1 as (v & H1 & _). apply Hins in H2 as (v' & H2 & _). congruence. }
  { apply NoDup_map_inj; auto. intros [p c] [p' c'] H1 H2; cbn; intros ->.
    apply Hins in H1 as (v & H1 & _). apply Hins in H2 as (v' & H2 & _).
    destruct (csorted_inj _ _ _ _ _ _ Hs H1 H2). congruence. }
  { intros p c Hin. apply Hins in Hin as (v & Hp & _). split.
    - rewrite Hlen. eapply lookup_lt_Some; eauto.
    - apply clook_lookup in Hp as [Hp _]; auto. eauto. }
  cbn [mbind res_bind]. eexists _, rk'. split; [reflexivity|]. cbn. rewrite R1, R2, R3.
  split; [auto|]. split; [auto|]. split; [|split; [|split; [auto|split; [auto|split]]]].
  - intros l [v Hl].
    assert (Hl' : is_Some (clook cells' l)).
    { destruct (clook cells' l) eqn:E; eauto. exfalso.
      apply (clook_elem _ _ _ (rw_sorted _ Wrk')) in Hl.
      assert (l ∈ map fst (r_cells rk')). { apply elem_of_map_fst; eauto. }
      rewrite Hcols' in H. cbn in H. apply elem_of_map_fst in H as [x Hx].
      apply (clook_elem _ _ _ (rw_sorted _ Wr')) in Hx. cbn in Hx. congruence. }
    rewrite Hlk in Hl'. destruct (Nat.eqb_spec l j); [subst; left; eauto|].
    destruct Hl' as [w Hw]. apply mexp_some_in in Hw as [[? ?]|[? ?]]; [left|right]; eauto.
  - intros l. rewrite Hget'. unfold rget; cbn. rewrite Hlk. rewrite Hakj.
    assert (Hdk : r_den rk <> 0%Z) by apply Wrk.
    destruct (Nat.eqb_spec l j).
    + unfold qmk. rewrite Ega, Egk, !zq_mul. field. split_and!; apply zq_nz; auto.
    + unfold mexp. destruct (Nat.eqb_spec l j); [congruence|].
      destruct (clook Ai l) as [a|] eqn:E1, (clook (r_cells rk) l) as [b|] eqn:E2.
      * assert (Ex : qmk (b * ga + gk * a) (r_den rk * ga) =
          (qmk b (r_den rk) + qmk a_kj (r_den rk) * qmk a d_i / qmk a_ij d_i)%Qc).
        { unfold qmk. rewrite Ega, Egk, !zq_add, !zq_mul. field. split_and!; apply zq_nz; auto. }
        cbn. destruct (Z.eqb_spec (b * ga + gk * a) 0) as [E0|]; auto.
        rewrite <- Ex, E0, qmk_zero. auto.
      * unfold qmk. rewrite Ega, Egk, !zq_mul. field. split_and!; apply zq_nz; auto.
      * unfold qmk. rewrite Ega, Egk, !zq_mul. field. split_and!; apply zq_nz; auto.
      * unfold Qcdiv. ring.
  - intros c col Hc. rewrite (R4 _ _ Hc). do 2 f_equal.
    assert (Hiff : c ∈ map snd ins <-> is_Some (clook Ai c) /\ clook (r_cells rk) c = None).
    { rewrite elem_of_map_snd. split.
      - intros [p Hp]. apply Hins in Hp as (v & Hp & Hn). apply clook_lookup in Hp as [Hp _]; eauto.
      - intros [[v Hv] Hn]. exists (lb c Ai). apply Hins. exists v. split; auto. apply clook_lb; auto. }
    destruct (decide (c ∈ map snd ins)) as [Hd|Hd]; [rewrite decide_True|rewrite decide_False]; auto; tauto.
  - intros p c v n' Hp Hn. rewrite (R5 _ _ Hn). do 2 f_equal.
    assert (Hiff : p ∈ map fst ins <-> clook (r_cells rk) c = None).
    { rewrite elem_of_map_fst. split.
      - intros [c' Hcc]. apply Hins in Hcc as (v' & Hp' & Hn'). congruence.
      - intros Hn'. exists c. apply Hins. eauto. }
    destruct (decide (p ∈ map fst ins)) as [Hd|Hd]; [rewrite decide_True|rewrite decide_False]; auto; tauto.
Qed.

(** ** The elimination loop *)

Definition aval (Ai : list cell) (d_i : Z) (l : nat) : Qc :=
  match clook Ai l with Some a => qmk a d_i | None => 0%Qc end.

(** What the loop does to row k. *)
Record rspec (i j : nat) (Ai : list cell) (a_ij d_i : Z) (k : nat) (rk rk' : row) : Prop := {
  rs_wf : row_wf rk';
  rs_supp : forall l, is_Some (clook (r_cells rk') l) ->
     is_Some (clook (r_cells rk) l) \/ (k <> i /\ is_Some (clook (r_cells rk) j) /\ is_Some (clook Ai l));
  rs_get : forall l, rget rk' l =
     if k =? i then rget rk l
     else if l =? j then (rget rk j / qmk a_ij d_i)%Qc
     else (rget rk l + rget rk j * aval Ai d_i l / qmk a_ij d_i)%Qc;
}.

Record linv (t1 : tableau) (i j : nat) (Ai : list cell) (a_ij d_i : Z) (done : list nat) (s : pstate) (app : nat -> list nat) : Prop := {
  li_len : length (t_rows (p_tab s)) = length (t_rows t1);
  li_clen : length (t_cols (p_tab s)) = length (t_cols t1);
  li_slen : length (p_sizes s) = length Ai;
  li_same : forall k, k ∉ done -> t_rows (p_tab s) !! k = t_rows t1 !! k;
  li_done : forall k rk, k ∈ done -> t_rows t1 !! k = Some rk ->
      exists rk', t_rows (p_tab s) !! k = Some rk' /\ rspec i j Ai a_ij d_i k rk rk';
  li_cols : forall c col, t_cols t1 !! c = Some col -> t_cols (p_tab s) !! c = Some (col ++ app c);
  li_app : forall c, StronglySorted lt (app c) /\ (forall k, k ∈ app c -> k ∈ done);
  li_appj : app j = [];
  li_appn : forall c, clook Ai c = None -> app c = [];
  li_cover : forall k rk c, k ∈ done -> k <> i -> t_rows t1 !! k = Some rk -> is_Some (clook (r_cells rk) j) ->
      is_Some (clook Ai c) -> is_Some (clook (r_cells rk) c) \/ k ∈ app c;
  li_sizes : forall p c v, Ai !! p = Some (c, v) -> p_sizes s !! p = Some (length (app c));
}.

Lemma ssorted_snoc l k : StronglySorted lt l -> (forall x, x ∈ l -> x < k) -> StronglySorted lt (l ++ [k]).
Proof.
  induction l as [|a l IH]; cbn; intros Hs Hl; [repeat constructor|].
  apply ssorted_cons_iff in Hs as [H1 H2]. apply ssorted_cons_iff. split.
  - intros x Hx. apply elem_of_app in Hx as [?|Hx]; auto. apply elem_of_list_singleton in Hx as ->.
    apply Hl. apply elem_of_cons; auto.
  - apply IH; auto. intros x Hx. apply Hl. apply elem_of_cons; auto.
Qed.

Lemma ssorted_app_mid l k r : StronglySorted lt (l ++ k :: r) -> forall x, x ∈ l -> x < k.
Proof.
  induction l as [|a l IH]; cbn; intros Hs x Hx; [inversion Hx|].
  apply ssorted_cons_iff in Hs as [H1 H2]. apply elem_of_cons in Hx as [->|Hx]; eauto.
  apply H1. apply elem_of_app; right; apply elem_of_cons; auto.
Qed.

Lemma ssorted_app_l l r : StronglySorted lt (l ++ r) -> StronglySorted lt l.
Proof.
  induction l as [|a l IH]; cbn; intros Hs; [constructor|].
  apply ssorted_cons_iff in Hs as [H1 H2]. apply ssorted_cons_iff. split; auto.
  intros x Hx; apply H1, elem_of_app; auto.
Qed.

Lemma ssorted_app_rm l k r : StronglySorted lt (l ++ k :: r) -> StronglySorted lt (l ++ r).
Proof.
  induction l as [|a l IH]; cbn; intros Hs; apply ssorted_cons_iff in Hs as [H1 H2]; auto.
  apply ssorted_cons_iff. split; auto. intros x Hx. apply H1.
  apply elem_of_app in Hx as [?|?]; apply elem_of_app; [auto|right; apply elem_of_cons; auto].
Qed.

Lemma rspec_refl i j Ai a_ij d_i k rk : row_wf rk -> k = i \/ clook (r_cells rk) j = None ->
  rspec i j Ai a_ij d_i k rk rk.
Proof.
  intros W H. constructor; auto. intros l. destruct (Nat.eqb_spec k i); auto. destruct H as [?|H]; [congruence|].
  assert (E : rget rk j = 0%Qc) by (unfold rget; rewrite H; auto). rewrite E.
  destruct (Nat.eqb_spec l j); [subst; rewrite E|]; unfold Qcdiv; ring.
Qed.

Section loop.
  Context (t1 : tableau) (i j : nat) (Ai : list cell) (a_ij d_i : Z).
  Hypothesis W1 : forall k r, t_rows t1 !! k = Some r -> row_wf r.
  Hypothesis Hs : csorted Ai.
  Hypothesis Hnz : forall l a, clook Ai l = Some a -> a <> 0%Z.
  Hypothesis Haij : clook Ai j = Some a_ij.
  Hypothesis Hdi : d_i <> 0%Z.
  Hypothesis Hcols : forall l a, clook Ai l = Some a -> l < length (t_cols t1).

  (** a processed element that changes nothing *)
  Lemma linv_skip done s app k rk : t_rows t1 !! k = Some rk -> k ∉ done ->
    k = i \/ clook (r_cells rk) j = None ->
    linv t1 i j Ai a_ij d_i done s app -> linv t1 i j Ai a_ij d_i (done ++ [k]) s app.
  Proof.
    intros Hk Hnd Hor L. destruct L. constructor; auto.
    - intros k' Hk'. apply li_same0. intros ?. apply Hk'. apply elem_of_app; auto.
    - intros k' rk' Hin Hr. apply elem_of_app in Hin as [Hin|Hin]; eauto.
      apply elem_of_list_singleton in Hin as ->. rewrite Hk in Hr; injection Hr as <-.
      exists rk. rewrite li_same0 by auto. split; auto. apply rspec_refl; eauto.
    - intros c. destruct (li_app0 c) as [H1 H2]. split; auto. intros x Hx. apply elem_of_app; auto.
    - intros k' rk' c Hin Hki Hr Hj Hc. apply elem_of_app in Hin as [Hin|Hin]; eauto.
      apply elem_of_list_singleton in Hin as ->. rewrite Hk in Hr; injection Hr as <-.
      destruct Hor as [?|Hn]; [congruence|]. rewrite Hn in Hj. destruct Hj; discriminate.
  Qed.

  Lemma linv_step done s app k rk a_kj : t_rows t1 !! k = Some rk -> (forall x, x ∈ done -> x < k) ->
    k <> i -> clook (r_cells rk) j = Some a_kj ->
    linv t1 i j Ai a_ij d_i done s app ->
    exists s' app', pivot_row i j Ai a_ij d_i k a_kj (r_den rk) s = Ok s' /\ linv t1 i j Ai a_ij d_i (done ++ [k]) s' app'.
  Proof.
    intros Hk Hlt Hki Hj L.
    assert (Hnd : k ∉ done) by (intros Hin; apply Hlt in Hin; lia).
    assert (Hks : t_rows (p_tab s) !! k = Some rk) by (rewrite (li_same _ _ _ _ _ _ _ _ _ L); auto).
    destruct (pivot_row_spec i j Ai a_ij d_i k a_kj rk s) as (s' & rk' & E & R1 & R2 & R3 & R4 & R5 & R6 & R7 & R8); auto.
    { eauto. } { apply L. } { intros l a Hl. rewrite (li_clen _ _ _ _ _ _ _ _ _ L). eauto. }
    set (ins := fun c => if decide (is_Some (clook Ai c) /\ clook (r_cells rk) c = None) then [k] else []).
    exists s', (fun c => app c ++ ins c). split; auto. destruct L. constructor.
    - rewrite R1, insert_length. auto.
    - congruence.
    - congruence.
    - intros k' Hk'. rewrite R1. rewrite elem_of_app, elem_of_list_singleton in Hk'.
      rewrite list_lookup_insert_ne by (intros ->; tauto). apply li_same0. tauto.
    - intros k' r Hin Hr. rewrite R1. apply elem_of_app in Hin as [Hin|Hin].
      + rewrite list_lookup_insert_ne by (intros ->; tauto). eauto.
      + apply elem_of_list_singleton in Hin as ->. rewrite Hk in Hr; injection Hr as <-.
        exists rk'. rewrite list_lookup_insert by (eapply lookup_lt_Some; eauto). split; auto.
        constructor; auto.
        * intros l Hl. apply R3 in Hl as [?|?]; eauto.
        * intros l. rewrite R4. destruct (Nat.eqb_spec k i); [congruence|]. reflexivity.
    - intros c col Hc. rewrite (R7 c (col ++ app c)) by auto. rewrite app_assoc. reflexivity.
    - intros c. destruct (li_app0 c) as [H1 H2]. unfold ins. case_decide.
      + split. { apply ssorted_snoc; auto. } intros x Hx. apply elem_of_app in Hx as [?|?]; apply elem_of_app; auto.
      + rewrite app_nil_r. split; auto. intros x Hx. apply elem_of_app; auto.
    - rewrite li_appj0. unfold ins. rewrite decide_False; auto. intros [_ ?]; congruence.
    - intros c Hc. rewrite li_appn0 by auto. unfold ins. rewrite decide_False; auto. intros [[? ?] _]; congruence.
    - intros k' r c Hin Hki' Hr Hrj Hc. apply elem_of_app in Hin as [Hin|Hin].
      + destruct (li_cover0 k' r c) as [?|?]; auto. right. apply elem_of_app; auto.
      + apply elem_of_list_singleton in Hin as ->. rewrite Hk in Hr; injection Hr as <-.
        destruct (clook (r_cells rk) c) eqn:Ec; [left; eauto|]. right. apply elem_of_app. right.
        unfold ins. rewrite decide_True by auto. apply elem_of_list_singleton; auto.
    - intros p c v Hp. rewrite (R8 p c v (length (app c))) by eauto. rewrite app_length. do 2 f_equal.
      assert (Hc : is_Some (clook Ai c)). { apply clook_lookup in Hp as [Hp _]; eauto. }
      unfold ins. destruct (decide (clook (r_cells rk) c = None)); [rewrite decide_True|rewrite decide_False]; auto. tauto.
  Qed.

  Lemma pivot_loop_spec is done kept s app :
    linv t1 i j Ai a_ij d_i done s app ->
    StronglySorted lt (done ++ is) -> StronglySorted lt (kept ++ is) -> (forall k, k ∈ is -> k < length (t_rows t1)) ->
    exists kept' s' app', col_loop p_tab j (pivot_row i j Ai a_ij d_i) is kept s = Ok (kept', s')
      /\ linv t1 i j Ai a_ij d_i (done ++ is) s' app'
      /\ StronglySorted lt kept'
      /\ (forall k, k ∈ kept' -> k ∈ kept \/ k ∈ is)
      /\ (forall k, k ∈ kept -> k ∈ kept')
      /\ (forall k r, k ∈ is -> t_rows t1 !! k = Some r -> is_Some (clook (r_cells r) j) -> k ∈ kept').
  Proof.
    revert done kept s app. induction is as [|k is IH]; intros done kept s app L S1 S2 Hlen.
    - cbn. exists kept, s, app. rewrite !app_nil_r in *. split; [auto|]. split; [auto|]. split; [auto|].
      split; [auto|]. split; [auto|]. intros k r Hin; inversion Hin.
    - destruct (lookup_lt_is_Some_2 (t_rows t1) k) as [rk Hk]. { apply Hlen, elem_of_cons; auto. }
      pose proof (ssorted_app_mid _ _ _ S1) as Hlt.
      assert (Hnd : k ∉ done) by (intros Hin; apply Hlt in Hin; lia).
      assert (Hlen' : forall k', k' ∈ is -> k' < length (t_rows t1)) by (intros; apply Hlen, elem_of_cons; auto).
      assert (E1 : done ++ k :: is = (done ++ [k]) ++ is) by (rewrite <- app_assoc; auto).
      cbn [col_loop]. rewrite (proj2 (at_ok _ k rk)) by (rewrite (li_same _ _ _ _ _ _ _ _ _ L); auto). cbn [mbind res_bind].
      destruct (clook (r_cells rk) j) as [a_kj|] eqn:Ej.
      + assert (exists s1 app1, pivot_row i j Ai a_ij d_i k a_kj (r_den rk) s = Ok s1 /\ linv t1 i j Ai a_ij d_i (done ++ [k]) s1 app1) as (s1 & app1 & -> & L1).
        { destruct (Nat.eq_dec k i) as [->|Hki].
          - exists s, app. unfold pivot_row. rewrite Nat.eqb_refl. split; auto. eapply linv_skip; eauto.
          - eapply linv_step; eauto. }
        cbn [mbind res_bind].
        destruct (IH (done ++ [k]) (kept ++ [k]) s1 app1 L1) as (kept' & s' & app' & E & L' & K1 & K2 & K3 & K4); auto.
        { rewrite <- E1; auto. } { rewrite <- app_assoc; auto. }
        exists kept', s', app'. rewrite E1. split; [auto|]. split; [auto|]. split; [auto|]. split; [|split].
        * intros x Hx. rewrite elem_of_cons. apply K2 in Hx as [Hx|Hx]; auto.
          apply elem_of_app in Hx as [?|Hx]; auto. apply elem_of_list_singleton in Hx; auto.
        * intros x Hx. apply K3, elem_of_app; auto.
        * intros x r Hx Hr Hrj. apply elem_of_cons in Hx as [->|Hx]; eauto. apply K3, elem_of_app. right. apply elem_of_list_singleton; auto.
      + destruct (IH (done ++ [k]) kept s app) as (kept' & s' & app' & E & L' & K1 & K2 & K3 & K4); auto.
        { eapply linv_skip; eauto. } { rewrite <- E1; auto. } { eapply ssorted_app_rm; eauto. }
        exists kept', s', app'. rewrite E1. split; [auto|]. split; [auto|]. split; [auto|]. split; [|split].
        * intros x Hx. apply K2 in Hx as [Hx|Hx]; auto. right; apply elem_of_cons; auto.
        * auto.
        * intros x r Hx Hr Hrj. apply elem_of_cons in Hx as [->|Hx]; eauto. rewrite Hk in Hr; injection Hr as <-.
          rewrite Ej in Hrj. destruct Hrj; discriminate.
  Qed.
End loop.

Lemma sort_cols_spec (A B : nat -> list nat) cells sizes t :
  NoDup (map fst cells) ->
  (forall p c v, cells !! p = Some (c, v) -> sizes !! p = Some (length (B c))
      /\ t_cols t !! c = Some (A c ++ B c) /\ StronglySorted lt (A c) /\ StronglySorted lt (B c)) ->
  exists t', sort_cols cells sizes t = Ok t' /\ t_rows t' = t_rows t /\ length (t_cols t') = length (t_cols t)
    /\ (forall c, c ∉ map fst cells -> t_cols t' !! c = t_cols t !! c)
    /\ (forall c, c ∈ map fst cells -> exists col', t_cols t' !! c = Some col' /\ StronglySorted lt col'
           /\ forall k, k ∈ col' <-> k ∈ A c \/ k ∈ B c).
Proof.
  revert sizes t. induction cells as [|[c v] cells IH]; intros sizes t N H.
  - cbn. exists t. split; [auto|]. split; [auto|]. split; [auto|]. split; [auto|]. intros c Hc; inversion Hc.
  - cbn [map fst] in N. apply NoDup_cons in N as [N1 N2].
    destruct (H 0 c v eq_refl) as (Hz & Hc & SA & SB). destruct sizes as [|n sizes]; [discriminate|]. cbn in Hz. injection Hz as ->.
    cbn [sort_cols].
    destruct (sort_col_spec _ (A c) (B c) eq_refl SA SB) as (col' & E & Sc & Hk).
    assert (Hgo : forall t1, t_rows t1 = t_rows t -> length (t_cols t1) = length (t_cols t) ->
       (forall c', c' <> c -> t_cols t1 !! c' = t_cols t !! c') ->
       (exists col', t_cols t1 !! c = Some col' /\ StronglySorted lt col' /\ forall k, k ∈ col' <-> k ∈ A c \/ k ∈ B c) ->
       exists t', sort_cols cells sizes t1 = Ok t' /\ t_rows t' = t_rows t /\ length (t_cols t') = length (t_cols t)
    /\ (forall c', c' ∉ map fst ((c, v) :: cells) -> t_cols t' !! c' = t_cols t !! c')
    /\ (forall c', c' ∈ map fst ((c, v) :: cells) -> exists col', t_cols t' !! c' = Some col' /\ StronglySorted lt col'
           /\ forall k, k ∈ col' <-> k ∈ A c' \/ k ∈ B c')).
    { intros t1 Hr Hl Hne Hcc. destruct (IH sizes t1) as (t' & E' & T1 & T2 & T3 & T4); auto.
      { intros p c' v' Hp. destruct (H (S p) c' v' Hp) as (X1 & X2 & X3 & X4). split_and!; auto.
        rewrite Hne; auto. intros ->. apply N1. apply elem_of_list_lookup. exists p. rewrite list_lookup_fmap, Hp. auto. }
      exists t'. split; [auto|]. split; [congruence|]. split; [congruence|]. cbn [map fst]. split.
      - intros c' Hc'. rewrite elem_of_cons in Hc'. rewrite T3 by tauto. apply Hne. tauto.
      - intros c' Hc'. apply elem_of_cons in Hc' as [->|Hc']; auto. rewrite T3; auto. }
    destruct (Nat.eqb_spec (length (B c)) 0) as [E0|].
    + apply Hgo; auto. rewrite Hc. exists (A c ++ B c). destruct (B c); [|discriminate].
      split; [auto|]. rewrite app_nil_r. split; [auto|]. intros k. rewrite elem_of_nil. tauto.
    + rewrite (proj2 (at_ok _ _ _) Hc). cbn [mbind res_bind]. rewrite E. cbn [mbind res_bind]. apply Hgo; auto; cbn.
      * rewrite insert_length; auto.
      * intros c' Hne. rewrite list_lookup_insert_ne; auto.
      * rewrite list_lookup_insert by (eapply lookup_lt_Some; eauto). eauto.
Qed.

(** ** The pivot operation *)

Theorem tpivot_spec t i j p a d : tab_wf t -> tget t i j <> 0%Qc -> unsafe_get t i j = Ok (p, a, d) ->
  exists t', tpivot t i j p = Ok t' /\ tab_wf t'
    /\ length (t_rows t') = length (t_rows t) /\ length (t_cols t') = length (t_cols t)
    /\ forall k l, tget t' k l =
         if k =? i then (if l =? j then 1 / tget t i j else - tget t i l / tget t i j)%Qc
         else (if l =? j then tget t k j / tget t i j else tget t k l - tget t k j * tget t i l / tget t i j)%Qc.
Proof.
  intros W Hnz0 Hu. destruct (tget_nz _ _ _ W Hnz0) as (ri & v & Hri & Hv & Hv0 & Hd0 & Eget).
  pose proof (tw_rows _ W _ _ Hri) as Wri.
  unfold unsafe_get in Hu. rewrite (proj2 (at_ok _ _ _) Hri) in Hu. cbn [mbind res_bind] in Hu.
  rewrite (proj2 (at_ok _ _ _) (proj1 (clook_lb _ _ _) Hv)) in Hu. cbn in Hu. injection Hu as <- <- <-.
  set (p := lb j (r_cells ri)). unfold tpivot. rewrite (proj2 (at_ok _ _ _) Hri). cbn [mbind res_bind].
  set (d_i := r_den ri) in *.
  set (Ai := map (fun c : cell => if c.1 =? j then c else (c.1, (- c.2)%Z)) (r_cells ri)).
  assert (EAi : Ai = map (fun c : cell => (c.1, if c.1 =? j then c.2 else (- c.2)%Z)) (r_cells ri)).
  { unfold Ai. apply map_ext. intros [c w]; cbn. destruct (c =? j); auto. }
  assert (SAi : csorted Ai). { rewrite EAi. apply (csorted_map (fun c => if c.1 =? j then c.2 else (- c.2)%Z)), Wri. }
  assert (LAi : forall l, clook Ai l = (fun z => if l =? j then z else (- z)%Z) <$> clook (r_cells ri) l).
  { intros l. rewrite EAi. apply (clook_mapc (fun c z => if c =? j then z else (- z)%Z)). }
  assert (Ap : Ai !! p = Some (j, v)).
  { rewrite EAi, list_lookup_fmap. unfold p. rewrite (proj1 (clook_lb _ _ _) Hv). cbn. rewrite Nat.eqb_refl. auto. }
  assert (Nz : forall l b, clook Ai l = Some b -> b <> 0%Z).
  { intros l b. rewrite LAi. destruct (clook (r_cells ri) l) as [z|] eqn:Ez; cbn; [|discriminate].
    intros [= <-]. pose proof (rw_nz _ Wri _ _ Ez). destruct (l =? j); lia. }
  assert (Aij : clook Ai j = Some v). { rewrite LAi, Hv. cbn. rewrite Nat.eqb_refl. auto. }
  assert (HcolA : forall l b, clook Ai l = Some b -> exists col, t_cols t !! l = Some col /\ i ∈ col).
  { intros l b. rewrite LAi. destruct (clook (r_cells ri) l) as [z|] eqn:Ez; cbn; [|discriminate].
    intros _. eapply tw_in; eauto. }
  clearbody Ai p. clear EAi.
  rewrite (proj2 (at_ok _ _ _) Ap). cbn [mbind res_bind fst snd].
  set (t1 := Tab (<[i:=Row d_i Ai]> (t_rows t)) (t_cols t)).
  assert (Hi_lt : i < length (t_rows t)) by (eapply lookup_lt_Some; eauto).
  assert (R1i : t_rows t1 !! i = Some (Row d_i Ai)) by (cbn; apply list_lookup_insert; auto).
  assert (R1n : forall k, k <> i -> t_rows t1 !! k = t_rows t !! k) by (intros; cbn; apply list_lookup_insert_ne; auto).
  assert (WAi : row_wf (Row d_i Ai)) by (constructor; auto).
  assert (W1 : forall k r, t_rows t1 !! k = Some r -> row_wf r).
  { intros k r Hk. destruct (Nat.eq_dec k i) as [->|]; [rewrite R1i in Hk; injection Hk as <-; auto|].
    rewrite R1n in Hk by auto. eapply tw_rows; eauto. }
  destruct (HcolA _ _ Aij) as (colj & Hcolj & Hicol).
  unfold update_col. cbn [p_tab t_cols t1]. rewrite Hcolj.
  destruct (tw_cols _ W _ _ Hcolj) as [Sj Lj].
  destruct (pivot_loop_spec t1 i j Ai v d_i W1 SAi Nz Aij Hd0) with (is := colj) (done := @nil nat) (kept := @nil nat)
    (s := PState t1 (replicate (length Ai) 0)) (app := fun _ : nat => @nil nat)
    as (kept & s & app & E & L & K1 & K2 & _ & K4).
  { intros l b Hl. destruct (HcolA _ _ Hl) as (col & Hc & _). cbn. eapply lookup_lt_Some; eauto. }
  { constructor; cbn [p_tab p_sizes].
    - auto.
    - auto.
    - apply replicate_length.
    - auto.
    - intros k rk Hk; inversion Hk.
    - intros c col Hc. rewrite app_nil_r. auto.
    - intros c. split; [constructor|auto].
    - auto.
    - auto.
    - intros k rk c Hk; inversion Hk.
    - intros q c w Hq. cbn. apply lookup_replicate. split; auto. eapply lookup_lt_Some; eauto. }
  { auto. } { auto. } { intros k Hk. cbn. rewrite insert_length. auto. }
  fold t1. rewrite E. cbn [mbind res_bind]. cbn [List.app] in L. clear E.
  assert (Wn : row_wf (Row v (<[p := (j, d_i)]> Ai))).
  { assert (Ex : <[p := (j, d_i)]> Ai = map (fun c : cell => (c.1, if c.1 =? j then d_i else c.2)) Ai).
    { apply list_eq. intros q. rewrite list_lookup_fmap. destruct (decide (q = p)) as [->|Hpq].
      - rewrite list_lookup_insert by (eapply lookup_lt_Some; eauto). rewrite Ap. cbn. rewrite Nat.eqb_refl. auto.
      - rewrite list_lookup_insert_ne by auto. destruct (Ai !! q) as [[c w]|] eqn:Ep; auto. cbn.
        destruct (Nat.eqb_spec c j); auto. subst. destruct (csorted_inj _ _ _ _ _ _ SAi Ap Ep). congruence. }
    rewrite Ex. constructor; cbn; auto.
    - apply (csorted_map (fun c => if c.1 =? j then d_i else c.2)); auto.
    - intros l b. rewrite (clook_mapc (fun c z => if c =? j then d_i else z)). destruct (clook Ai l) eqn:El; [|discriminate].
      cbn. intros [= <-]. destruct (l =? j); eauto. }
  assert (Lkn : forall l, clook (<[p := (j, d_i)]> Ai) l = if l =? j then Some d_i else clook Ai l).
  { intros l. assert (Ex : <[p := (j, d_i)]> Ai = map (fun c : cell => (c.1, if c.1 =? j then d_i else c.2)) Ai).
    { apply list_eq. intros q. rewrite list_lookup_fmap. destruct (decide (q = p)) as [->|Hpq].
      - rewrite list_lookup_insert by (eapply lookup_lt_Some; eauto). rewrite Ap. cbn. rewrite Nat.eqb_refl. auto.
      - rewrite list_lookup_insert_ne by auto. destruct (Ai !! q) as [[c w]|] eqn:Ep; auto. cbn.
        destruct (Nat.eqb_spec c j); auto. subst. destruct (csorted_inj _ _ _ _ _ _ SAi Ap Ep). congruence. }
    rewrite Ex. rewrite (clook_mapc (fun c z => if c =? j then d_i else z)).
    destruct (Nat.eqb_spec l j); [subst; rewrite Aij; auto|]. destruct (clook Ai l); auto. }
  destruct (simplify_row_ok _ Wn) as (ri' & -> & Wri' & Hfst & Hget'). cbn [mbind res_bind].
  assert (Hfst' : map fst (r_cells ri') = map fst Ai).
  { rewrite Hfst. cbn. apply list_eq. intros q. rewrite !list_lookup_fmap. destruct (decide (q = p)) as [->|Hpq].
    - rewrite list_lookup_insert by (eapply lookup_lt_Some; eauto). rewrite Ap. auto.
    - rewrite list_lookup_insert_ne; auto. }
  assert (Hcellq : forall q c w, r_cells ri' !! q = Some (c, w) -> exists w', Ai !! q = Some (c, w')).
  { intros q c w Hq. assert (Hm : map fst Ai !! q = Some c) by (rewrite <- Hfst', list_lookup_fmap, Hq; auto).
    rewrite list_lookup_fmap in Hm. destruct (Ai !! q) as [[c' w']|]; [|discriminate]. cbn in Hm. injection Hm as ->. eauto. }
  set (A := fun c => if c =? j then kept else match t_cols t !! c with Some col => col | None => [] end).
  set (s' := set_col (p_tab s) j kept).
  assert (Hscol : forall c col, t_cols t !! c = Some col -> t_cols s' !! c = Some (A c ++ app c)).
  { intros c col Hc. unfold s', A. cbn. pose proof (li_cols _ _ _ _ _ _ _ _ _ L c col Hc) as Hc'.
    destruct (Nat.eqb_spec c j) as [->|Hne].
    - rewrite list_lookup_insert by (eapply lookup_lt_Some; eauto). rewrite (li_appj _ _ _ _ _ _ _ _ _ L), app_nil_r. auto.
    - rewrite list_lookup_insert_ne by auto. rewrite Hc. auto. }
  assert (HSA : forall c col, t_cols t !! c = Some col -> StronglySorted lt (A c)).
  { intros c col Hc. unfold A. destruct (c =? j); auto. rewrite Hc. apply (tw_cols _ W _ _ Hc). }
  destruct (sort_cols_spec A app (r_cells ri') (p_sizes s) (Tab (<[i:=ri']> (t_rows s')) (t_cols s')))
    as (t' & E & T1 & T2 & T3 & T4).
  { rewrite Hfst'. clear - SAi. unfold csorted in SAi. induction (map fst Ai) as [|a l IH]; [constructor|].
    apply ssorted_cons_iff in SAi as [H1 H2]. apply NoDup_cons. split; auto. intros Hin. apply H1 in Hin. lia. }
  { intros q c w Hq. destruct (Hcellq _ _ _ Hq) as [w' Hq'].
    pose proof (clook_lookup _ _ _ _ SAi Hq') as [Hc _]. destruct (HcolA _ _ Hc) as (col & Hcol & _).
    split; [eapply li_sizes; eauto|]. split; [cbn; eauto|]. split; [eauto|]. apply (li_app _ _ _ _ _ _ _ _ _ L). }
  cbn [t_rows t_cols p_tab] in E, T1, T2, T3, T4. subst s'. cbn [set_col t_rows t_cols p_tab] in *.
  cbn [p_tab p_sizes set_col t_rows t_cols]. rewrite E. exists t'. split; [reflexivity|].
  assert (Hlen : length (t_rows t') = length (t_rows t)).
  { rewrite T1, insert_length, (li_len _ _ _ _ _ _ _ _ _ L). cbn. apply insert_length. }
  assert (Hclen : length (t_cols t') = length (t_cols t)).
  { rewrite T2, insert_length, (li_clen _ _ _ _ _ _ _ _ _ L). auto. }
  (* rows of the result *)
  assert (Hrow_i : t_rows t' !! i = Some ri').
  { rewrite T1. apply list_lookup_insert. rewrite (li_len _ _ _ _ _ _ _ _ _ L). cbn. rewrite insert_length; auto. }
  assert (Hrow_k : forall k rk, k <> i -> t_rows t !! k = Some rk ->
            exists rk', t_rows t' !! k = Some rk' /\ rspec i j Ai v d_i k rk rk').
  { intros k rk Hk Hrk. rewrite T1, list_lookup_insert_ne by auto.
    assert (Hrk1 : t_rows t1 !! k = Some rk) by (rewrite R1n; auto).
    destruct (decide (k ∈ colj)) as [Hin|Hin].
    - eapply li_done; eauto.
    - exists rk. rewrite (li_same _ _ _ _ _ _ _ _ _ L) by auto. split; auto. apply rspec_refl; eauto. right.
      destruct (clook (r_cells rk) j) as [z|] eqn:Ez; auto. exfalso. apply Hin.
      destruct (tw_in _ W _ _ _ _ Hrk Ez) as (col & Hc & ?). congruence. }
  assert (Hcol' : forall c col, t_cols t !! c = Some col -> exists col', t_cols t' !! c = Some col' /\ StronglySorted lt col'
      /\ forall k, k ∈ col' <-> k ∈ A c \/ k ∈ app c).
  { intros c col Hc. destruct (decide (c ∈ map fst (r_cells ri'))) as [Hin|Hin]; auto.
    rewrite T3 by auto. rewrite (Hscol _ _ Hc). exists (A c ++ app c). split; auto.
    assert (app c = []) as ->.
    { apply (li_appn _ _ _ _ _ _ _ _ _ L). apply clook_none; auto. intros w Hw. apply Hin. rewrite Hfst'. apply elem_of_map_fst. eauto. }
    rewrite app_nil_r. split; eauto. intros k. rewrite elem_of_nil. tauto. }
  split; [|split; [auto|split; [auto|]]].
  - constructor.
    + intros k r Hr. destruct (Nat.eq_dec k i) as [->|Hk]. { rewrite Hrow_i in Hr; injection Hr as <-; auto. }
      destruct (lookup_lt_is_Some_2 (t_rows t) k) as [rk Hrk]. { rewrite <- Hlen. eapply lookup_lt_Some; eauto. }
      destruct (Hrow_k _ _ Hk Hrk) as (rk' & Hr' & Rs). rewrite Hr in Hr'; injection Hr' as <-. apply Rs.
    + intros c col' Hc'. destruct (lookup_lt_is_Some_2 (t_cols t) c) as [col Hc]. { rewrite <- Hclen. eapply lookup_lt_Some; eauto. }
      destruct (Hcol' _ _ Hc) as (col'' & Hc'' & S'' & In''). rewrite Hc' in Hc''; injection Hc'' as <-. split; auto.
      intros k Hk. apply In'' in Hk. rewrite Hlen. destruct Hk as [Hk|Hk].
      * unfold A in Hk. destruct (Nat.eqb_spec c j).
        -- apply K2 in Hk as [Hk|Hk]; [inversion Hk|]. apply Lj; auto.
        -- rewrite Hc in Hk. apply (tw_cols _ W _ _ Hc); auto.
      * apply Lj. apply (li_app _ _ _ _ _ _ _ _ _ L) in Hk. auto.
    + intros k r l w Hr Hl. destruct (Nat.eq_dec k i) as [->|Hk].
      * rewrite Hrow_i in Hr; injection Hr as <-.
        assert (Hl' : is_Some (clook Ai l)).
        { destruct (clook Ai l) eqn:El; eauto. exfalso. apply (clook_elem _ _ _ (rw_sorted _ Wri')) in Hl.
          assert (Hin : l ∈ map fst Ai). { rewrite <- Hfst'. apply elem_of_map_fst; eauto. }
          apply elem_of_map_fst in Hin as [b Hb]. apply (clook_elem _ _ _ SAi) in Hb. congruence. }
        destruct Hl' as [b Hb]. destruct (HcolA _ _ Hb) as (col & Hc & Hin).
        destruct (Hcol' _ _ Hc) as (col' & Hc' & _ & In'). exists col'. split; auto. apply In'. left.
        unfold A. destruct (Nat.eqb_spec l j) as [->|].
        -- apply (K4 i _ Hicol R1i). cbn. eauto.
        -- rewrite Hc. auto.
      * destruct (lookup_lt_is_Some_2 (t_rows t) k) as [rk Hrk]. { rewrite <- Hlen. eapply lookup_lt_Some; eauto. }
        destruct (Hrow_k _ _ Hk Hrk) as (rk' & Hr' & Rs). rewrite Hr in Hr'; injection Hr' as <-.
        assert (Hrk1 : t_rows t1 !! k = Some rk) by (rewrite R1n; auto).
        destruct (clook (r_cells rk) l) as [z|] eqn:Ez.
        -- destruct (tw_in _ W _ _ _ _ Hrk Ez) as (col & Hc & Hin). destruct (Hcol' _ _ Hc) as (col' & Hc' & _ & In').
           exists col'. split; auto. apply In'. left. unfold A. destruct (Nat.eqb_spec l j) as [->|].
           ++ rewrite Hcolj in Hc; injection Hc as <-. eapply K4; eauto.
           ++ rewrite Hc; auto.
        -- destruct (rs_supp _ _ _ _ _ _ _ _ Rs l) as [Hs|(_ & Hj & Hs)]; [eauto|rewrite Ez in Hs; destruct Hs; discriminate|].
           destruct Hs as [b Hb]. destruct (HcolA _ _ Hb) as (col & Hc & _). destruct (Hcol' _ _ Hc) as (col' & Hc' & _ & In').
           exists col'. split; auto. apply In'. right.
           destruct Hj as [z Hz]. destruct (tw_in _ W _ _ _ _ Hrk Hz) as (colj' & Hcj & Hkj).
           rewrite Hcolj in Hcj; injection Hcj as <-.
           destruct (li_cover _ _ _ _ _ _ _ _ _ L k rk l) as [Hx|Hx]; eauto. rewrite Ez in Hx; destruct Hx; discriminate.
  - intros k l.
    assert (Ea : tget t i j = qmk v d_i) by (rewrite (tget_rget _ _ _ _ Hri); unfold rget; rewrite Hv; auto).
    assert (Eav : forall l, l <> j -> aval Ai d_i l = (- tget t i l)%Qc).
    { intros l' Hl'. unfold aval. rewrite LAi, (tget_rget _ _ _ _ Hri). unfold rget.
      destruct (clook (r_cells ri) l') as [z|]; cbn; [|ring]. destruct (Nat.eqb_spec l' j); [congruence|].
      unfold qmk. rewrite zq_opp. fold d_i. unfold Qcdiv. ring. }
    rewrite Ea. destruct (Nat.eqb_spec k i) as [->|Hk].
    + rewrite (tget_rget _ _ _ _ Hrow_i), Hget'. unfold rget; cbn [r_cells r_den]. rewrite Lkn.
      destruct (Nat.eqb_spec l j) as [->|Hl].
      * unfold qmk. field. split; apply zq_nz; auto.
      * rewrite <- (Eav _ Hl). unfold aval. destruct (clook Ai l).
        -- unfold qmk. field. split; apply zq_nz; auto.
        -- unfold Qcdiv. ring.
    + destruct (t_rows t !! k) as [rk|] eqn:Hrk.
      * destruct (Hrow_k _ _ Hk Hrk) as (rk' & Hr' & Rs). rewrite (tget_rget _ _ _ _ Hr'), (rs_get _ _ _ _ _ _ _ _ Rs).
        rewrite !(tget_rget _ _ _ _ Hrk). destruct (Nat.eqb_spec k i); [congruence|].
        destruct (Nat.eqb_spec l j) as [->|Hl]; auto. rewrite (Eav _ Hl). unfold Qcdiv. ring.
      * assert (Hn : t_rows t' !! k = None). { apply lookup_ge_None. rewrite Hlen. apply lookup_ge_None; auto. }
        rewrite !(tget_none _ _ _ Hrk), !(tget_none _ _ _ Hn). unfold Qcdiv. destruct (l =? j); ring.
Qed.
