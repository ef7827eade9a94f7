(** * Proofs about whole programs *)

From Verif Require Import Num Sums Solver Spec Propagator World Parsing ParseSpec ParseNum ParseProofs ParseSum ParseTheory ParseAtoms.

(** ** values only depend on the symbols a user can write *)
Definition agree (A B : symbol -> Qc) : Prop := forall s, user s -> A s = B s.
Lemma agree_sym A B : agree A B -> agree B A.
Proof. intros H s Hs. symmetry. auto. Qed.
Lemma means_agree A B t x : agree A B -> means A t x -> means B t x.
Proof.
  intros Ha. induction 1 as [z|n s q Hq Hd|t s Hv|? ? ? ? _ IH1 _ IH2|? ? ? ? _ IH1 _ IH2|? ? _ IH1|? ? _ IH1|? ? ? ? _ IH1 _ IH2|? ? ? ? _ IH1 _ IH2 Hy].
  - apply me_num.
  - exact (me_dec _ _ _ _ Hq Hd).
  - rewrite (Ha s); [exact (me_var _ _ _ Hv)|]. apply (names_user t). apply Hv.
  - exact (me_add _ _ _ _ _ IH1 IH2).
  - exact (me_sub _ _ _ _ _ IH1 IH2).
  - exact (me_neg _ _ _ IH1).
  - exact (me_pos _ _ _ IH1).
  - exact (me_mul _ _ _ _ _ IH1 IH2).
  - exact (me_div _ _ _ _ _ IH1 IH2 Hy).
Qed.
Lemma sum_agree A B tr es x : agree A B -> sum_means A tr es x -> sum_means B tr es x.
Proof.
  intros Ha. induction 1 as [|t cond cid es x y Hc Hm _ IH|t cond cid es x y Hc Ht Hm _ IH].
  - apply su_nil.
  - apply su_in; auto. eapply means_agree; eauto.
  - apply (su_out _ _ _ _ _ _ x); auto. eapply means_agree; eauto.
Qed.
Lemma atom_agree A B tr a : agree A B -> atom_true A tr a -> atom_true B tr a.
Proof.
  intros Ha. destruct 1 as [a r g R x y M G N S Y H|a r g R s t cid x y z M G N E X Y Z H|a r g v l u cid x y M G N E L U H].
  - eapply at_sum; eauto; [eapply sum_agree; eauto|eapply means_agree; eauto].
  - eapply at_diff; eauto; eapply means_agree; eauto.
  - eapply at_dom; eauto. rewrite <- (Ha v); auto. apply (names_user g). auto.
Qed.
Lemma objective_agree A B tr l x : agree A B -> objective_means A tr l x -> objective_means B tr l x.
Proof.
  intros Ha. induction 1 as [|a l x y M S _ IH|a l x y M S _ IH|a l y M1 M2 _ IH].
  - apply ob_nil.
  - apply ob_max; auto. eapply sum_agree; eauto.
  - apply ob_min; auto. eapply sum_agree; eauto.
  - apply ob_other; auto.
Qed.
Lemma objective_app A tr l l' x y : objective_means A tr l x -> objective_means A tr l' y -> objective_means A tr (l ++ l') (x + y)%Qc.
Proof.
  intros Hx Hy. induction Hx as [|a l x z M S _ IH|a l x z M S _ IH|a l z M1 M2 _ IH]; cbn.
  - replace (0 + y)%Qc with y by ring. auto.
  - replace (x + z + y)%Qc with (x + (z + y))%Qc by ring. apply ob_max; auto.
  - replace (z - x + y)%Qc with (z + y - x)%Qc by ring. apply ob_min; auto.
  - apply ob_other; auto.
Qed.

Section programs.
  Variable m : Z -> Z.
  Variable bk : backend.
  Notation auxdef := (auxdef m). Notation aux_ok := (aux_ok m). Notation aux_ineq := (aux_ineq m). Notation tru := (tru m).

  (** ** extension of a user's assignment to the auxiliary variables *)
  Definition extend (A : symbol -> Qc) (tr : Z -> bool) (aux : auxmap) (s : symbol) : Qc :=
    match s with
    | SNum z => if decide (z = 0)%Z then 1%Qc else
        match aux !! Z.to_nat (z - 1) with
        | Some ((x, cid), _) => if tr (m cid) then with_unit A x else 0%Qc
        | None => 0%Qc
        end
    | _ => A s
    end.
  Lemma extend_agree A tr aux : agree A (extend A tr aux).
  Proof. intros [z|s|n l b] Hu; cbn in *; [contradiction|auto|auto]. Qed.
  Lemma extend_unit A tr aux : extend A tr aux (SNum 0) = 1%Qc.
  Proof. reflexivity. Qed.
  Lemma extend_auxdef A tr aux iqs : aux_ok aux iqs -> auxdef (extend A tr aux) tr aux.
  Proof.
    intros Ha x cid a Hin. assert (Hx : extend A tr aux x = with_unit A x).
    { destruct (ax_sym _ _ _ Ha _ _ _ Hin) as [->|Hu]; [reflexivity|]. rewrite with_unit_user by auto. symmetry. apply extend_agree. auto. }
    rewrite Hx. apply elem_of_list_lookup in Hin as (i & Hi). rewrite (ax_num _ _ _ Ha _ _ _ Hi). cbn [extend].
    destruct (decide (Z.of_nat i + 1 = 0)%Z); [lia|]. replace (Z.to_nat (Z.of_nat i + 1 - 1)) with i by lia. unfold auxmap in *. rewrite Hi. auto.
  Qed.

  (** ** lists of atoms *)
  Definition sane (a : tatom) (B : symbol -> Qc) : Prop := B (SNum 0) = 1%Qc \/ homogeneous_conditions a.
  Record added_all (l : list tatom) (st st' : pstate) (new : list (ineq symbol)) (ox : terms) : Prop := {
    aa_ok : aux_ok (ps_aux st') (ps_iqs st');
    aa_aux : exists r, ps_aux st' = ps_aux st ++ r;
    aa_iqs : ps_iqs st' = ps_iqs st ++ new;
    aa_kind : forall q, q ∈ new -> aux_ineq (ps_aux st') q \/ exists a, a ∈ l /\ is_constraint a /\ q_lit q = m (ta_lit a);
    aa_normal : forall q, q ∈ new -> normal (q_lhs q);
    aa_sem : forall B tr, consistent m tr -> auxdef B tr (ps_aux st') -> (forall a, a ∈ l -> sane a B /\ plain_difference a) ->
      ((forall q, q ∈ new -> tr (q_lit q) = true -> holds B q) <-> (forall a, a ∈ l -> is_constraint a -> tr (m (ta_lit a)) = true -> atom_true B (tru tr) a));
    aa_obj : ps_obj st' = ps_obj st ++ ox;
    aa_val : forall B tr, auxdef B tr (ps_aux st') -> (forall a, a ∈ l -> sane a B) -> objective_means B (tru tr) l (lin (with_unit B) ox);
    aa_sym : forall q c s, q ∈ new -> (c, s) ∈ q_lhs q -> s = SNum 0 \/ user s \/ s ∈ map snd (ps_aux st');
    aa_osym : forall c s, (c, s) ∈ ox -> s = SNum 0 \/ user s \/ s ∈ map snd (ps_aux st');
  }.
  Lemma aux_ineq_normal aux iqs q : aux_ok aux iqs -> aux_ineq aux q -> normal (q_lhs q).
  Proof.
    intros Ha (x & cid & a & Hin & [-> | ->]); cbn.
    - split; [apply NoDup_singleton|]. intros c y Hy. apply elem_of_list_singleton in Hy as [= -> _]. discriminate.
    - destruct (aux_ne _ _ _ _ _ _ Ha Hin) as [H1 H2]. split.
      + cbn. constructor; [|apply NoDup_singleton]. intros Hax. apply elem_of_list_singleton in Hax as ->. destruct (ax_sym _ _ _ Ha _ _ _ Hin); auto.
      + intros c y Hy. apply elem_of_cons in Hy as [[= -> _]|Hy]; [discriminate|]. apply elem_of_list_singleton in Hy as [= -> _]. discriminate.
  Qed.
  Lemma aux_ineq_sym aux iqs q c s : aux_ok aux iqs -> aux_ineq aux q -> (c, s) ∈ q_lhs q -> s = SNum 0 \/ user s \/ s ∈ map snd aux.
  Proof.
    intros Ha (x & cid & a & Hin & [-> | ->]); cbn; intros Hs.
    - apply elem_of_list_singleton in Hs as [= _ ->]. right. right. apply elem_of_list_fmap. exists (x, cid, a). auto.
    - apply elem_of_cons in Hs as [[= _ ->]|Hs]; [right; right; apply elem_of_list_fmap; exists (x, cid, a); auto|].
      apply elem_of_list_singleton in Hs as [= _ ->]. destruct (ax_sym _ _ _ Ha _ _ _ Hin); auto.
  Qed.

  Lemma atoms_spec l : forall st st', parse_atoms bk m l st = Ok st' -> (forall a, a ∈ l -> clean_atom a) -> aux_ok (ps_aux st) (ps_iqs st) ->
    exists new ox, added_all l st st' new ox.
  Proof.
    induction l as [|a l IH]; intros st st' E Hc Ha; cbn [parse_atoms] in E.
    - injection E as <-. exists [], []. split; auto.
      + exists []. rewrite app_nil_r. auto.
      + rewrite app_nil_r. auto.
      + intros q Hq. inversion Hq.
      + intros q Hq. inversion Hq.
      + intros B tr _ _ _. split; intros _ q Hq; inversion Hq.
      + rewrite app_nil_r. auto.
      + intros. constructor.
      + intros q c s Hq. inversion Hq.
      + intros c s Hq. inversion Hq.
    - apply bind_ok in E as (st1 & E1 & E2). destruct (atom_spec m bk a st st1 E1 (Hc a ltac:(left)) Ha) as (auxq & conq & ox1 & D).
      destruct (IH st1 st' E2 ltac:(intros; apply Hc; right; auto) (ad_ok _ _ _ _ _ _ _ D)) as (new & ox2 & G).
      destruct D as [D1 (r1 & D2) D3 D4 D5 D6 D7 D8 D9 D10 D11 D12 D13]. destruct G as [G1 (r2 & G2) G3 G4 G5 G6 G7 G8 G9 G10].
      assert (Hsub : ps_aux st1 ⊆ ps_aux st') by (rewrite G2; intros k Hk; apply elem_of_app; auto).
      assert (Ssub : forall s, s ∈ map snd (ps_aux st1) -> s ∈ map snd (ps_aux st')) by (rewrite G2; intros s Hs; rewrite map_app; apply elem_of_app; auto).
      exists (auxq ++ conq ++ new), (ox1 ++ ox2). split.
      + exact G1.
      + exists (r1 ++ r2). rewrite G2, D2, app_assoc. auto.
      + rewrite G3, D3, <- !app_assoc. auto.
      + intros q Hq. rewrite !elem_of_app in Hq. destruct Hq as [Hq|[Hq|Hq]].
        * left. eapply aux_ineq_mono; eauto.
        * right. exists a. split; [left|]. split; [|apply D5; auto]. destruct D6 as [| ->]; auto. inversion Hq.
        * destruct (G4 q Hq) as [|(a' & Ha' & Hq')]; auto. right. exists a'. split; auto. right. auto.
      + intros q Hq. rewrite !elem_of_app in Hq. destruct Hq as [Hq|[Hq|Hq]]; auto; [|apply D5; auto]. eapply aux_ineq_normal; [exact D1|auto].
      + intros B tr Ht Hd Hs. assert (Hd1 : auxdef B tr (ps_aux st1)) by (eapply auxdef_mono; eauto).
        destruct (Hs a ltac:(left)) as [S1 S2]. specialize (D7 B tr Hd1 S1 S2). specialize (G6 B tr Ht Hd ltac:(intros; apply Hs; right; auto)).
        split.
        * intros Hq a' Ha' Hi Hl. apply elem_of_cons in Ha' as [->|Ha'].
          -- apply D7; auto. intros q Hq'. apply Hq; [rewrite !elem_of_app; auto|]. rewrite (proj1 (D5 q Hq')). auto.
          -- apply G6; auto. intros q Hq' Hl'. apply Hq; auto. rewrite !elem_of_app. auto.
        * intros HA q Hq Hl. rewrite !elem_of_app in Hq. destruct Hq as [Hq|[Hq|Hq]].
          -- eapply (auxdef_ineq m B tr (ps_aux st1)); eauto.
          -- destruct D6 as [Hi| ->]; [|inversion Hq]. rewrite (proj1 (D5 q Hq)) in Hl. apply D7; auto. apply HA; auto. left.
          -- apply G6; auto. intros a' Ha'. apply HA. right. auto.
      + rewrite G7, D8, app_assoc. auto.
      + intros B tr Hd Hs. assert (Hd1 : auxdef B tr (ps_aux st1)) by (eapply auxdef_mono; eauto). rewrite lin_app.
        specialize (G8 B tr Hd ltac:(intros; apply Hs; right; auto)). specialize (Hs a ltac:(left)).
        destruct (match0 (ta_term a) "maximize") eqn:M1; [|destruct (match0 (ta_term a) "minimize") eqn:M2].
        * apply ob_max; auto.
        * replace (lin (with_unit B) ox1 + lin (with_unit B) ox2)%Qc with (lin (with_unit B) ox2 - - lin (with_unit B) ox1)%Qc by ring. apply ob_min; auto.
        * rewrite (D11 (not_called_of _ _ M1) (not_called_of _ _ M2)). cbn. rewrite Qcplus_0_l. apply ob_other; auto.
      + intros q c s Hq Hs. rewrite !elem_of_app in Hq. destruct Hq as [Hq|[Hq|Hq]].
        * destruct (aux_ineq_sym _ _ _ _ _ D1 (D4 q Hq) Hs) as [|[|]]; auto.
        * destruct (D12 q c s Hq Hs); auto.
        * eapply G9; eauto.
      + intros c s Hs. rewrite elem_of_app in Hs. destruct Hs as [Hs|Hs]; [destruct (D13 c s Hs) as [|[|]]; auto|eapply G10; eauto].
  Qed.
  Lemma atoms_fine l : (forall a, a ∈ l -> clean_atom a /\ (bk = Flint -> zero_free_atom a)) -> forall st, fine (parse_atoms bk m l st).
  Proof.
    induction l as [|a l IH]; intros Hl st; [exact I|]. cbn [parse_atoms]. destruct (Hl a ltac:(left)) as [C Z].
    apply fine_bind; [apply atom_fine; auto|]. intros st1 _. apply IH. intros; apply Hl; right; auto.
  Qed.

  (** ** evaluate_theory in one or several steps *)
  Inductive loaded : list tatom -> pstate -> Prop :=
    | ld_new : loaded [] new_pstate
    | ld_next l st l' st' : loaded l st -> evaluate_theory bk m l' st = Ok st' -> loaded (l ++ l') st'.

  Record loaded_ok (l : list tatom) (st : pstate) : Prop := {
    lo_ok : aux_ok (ps_aux st) (ps_iqs st);
    lo_kind : forall q, q ∈ ps_iqs st -> aux_ineq (ps_aux st) q \/ exists a, a ∈ l /\ is_constraint a /\ q_lit q = m (ta_lit a);
    lo_normal : forall q, q ∈ ps_iqs st -> normal (q_lhs q);
    lo_onormal : normal (ps_obj st);
    lo_sem : forall B tr, consistent m tr -> auxdef B tr (ps_aux st) -> (forall a, a ∈ l -> sane a B /\ plain_difference a) ->
      ((forall q, q ∈ ps_iqs st -> tr (q_lit q) = true -> holds B q) <-> (forall a, a ∈ l -> is_constraint a -> tr (m (ta_lit a)) = true -> atom_true B (tru tr) a));
    lo_val : forall B tr, auxdef B tr (ps_aux st) -> (forall a, a ∈ l -> sane a B) -> objective_means B (tru tr) l (lin B (ps_obj st));
    lo_ounit : forall c s, (c, s) ∈ ps_obj st -> s <> SNum 0;
  }.
  Lemma loaded_spec l st : loaded l st -> (forall a, a ∈ l -> clean_atom a) -> loaded_ok l st.
  Proof.
    induction 1 as [|l st l' st' _ IH E]; intros Hc.
    - split; cbn; auto.
      + split; cbn; [intros i k a Hi; discriminate|constructor|intros x c a Hx; inversion Hx|intros q (x & c & a & Hx & _); inversion Hx].
      + intros q Hq. inversion Hq.
      + intros q Hq. inversion Hq.
      + split; [constructor|]. intros c x Hx. inversion Hx.
      + intros B tr _ _ _. split; intros _ q Hq; inversion Hq.
      + intros. constructor.
      + intros c s Hs. inversion Hs.
    - destruct IH as [L1 L2 L3 L4 L5 L6 L7]; [intros; apply Hc; apply elem_of_app; auto|].
      unfold evaluate_theory in E. apply bind_ok in E as (st1 & E1 & E). destruct (simplify (ps_obj st1)) as [obj rhs] eqn:Es.
      destruct (decide (rhs = 0%Qc)) as [->|]; [|discriminate]. injection E as <-.
      destruct (atoms_spec l' st st1 E1 ltac:(intros; apply Hc; apply elem_of_app; auto) L1) as (new & ox & G).
      destruct G as [G1 (r2 & G2) G3 G4 G5 G6 G7 G8 G9 G10]. destruct (simplify_spec _ _ _ Es) as (Nl & Sl & Vl).
      assert (Hsub : ps_aux st ⊆ ps_aux st1) by (rewrite G2; intros k Hk; apply elem_of_app; auto).
      split; cbn [ps_aux ps_iqs ps_obj]; auto.
      + intros q Hq. rewrite G3, elem_of_app in Hq. destruct Hq as [Hq|Hq].
        * destruct (L2 q Hq) as [|(a & Ha & Hq')]; [left; eapply aux_ineq_mono; eauto|right]. exists a. rewrite elem_of_app. auto.
        * destruct (G4 q Hq) as [|(a & Ha & Hq')]; auto. right. exists a. rewrite elem_of_app. auto.
      + intros q Hq. rewrite G3, elem_of_app in Hq. destruct Hq; auto.
      + intros B tr Ht Hd Hs. assert (Hd1 : auxdef B tr (ps_aux st)) by (eapply auxdef_mono; eauto).
        specialize (L5 B tr Ht Hd1 ltac:(intros; apply Hs; apply elem_of_app; auto)). specialize (G6 B tr Ht Hd ltac:(intros; apply Hs; apply elem_of_app; auto)). rewrite G3.
        split.
        * intros Hq a Ha. rewrite elem_of_app in Ha. destruct Ha as [Ha|Ha]; [apply L5|apply G6]; auto; intros q Hq'; apply Hq; rewrite elem_of_app; auto.
        * intros HA q Hq. rewrite elem_of_app in Hq. destruct Hq as [Hq|Hq]; [apply L5|apply G6]; auto; intros a Ha; apply HA; rewrite elem_of_app; auto.
      + intros B tr Hd Hs. assert (Hd1 : auxdef B tr (ps_aux st)) by (eapply auxdef_mono; eauto).
        rewrite Vl, Qcplus_0_l, G7, lin_app. apply objective_app; [|apply G8; auto; intros; apply Hs; apply elem_of_app; auto].
        rewrite (lin_ext _ B); [apply L6; auto; intros; apply Hs; apply elem_of_app; auto|].
        intros c s Hs'. unfold with_unit. rewrite decide_False; auto. eauto.
      + intros c s Hs. eapply Sl; eauto.
  Qed.
End programs.
