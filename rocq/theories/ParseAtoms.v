(** * Proofs about atoms and programs, continued *)

From Coq Require Import Lqa.
From Verif Require Import Num Sums Solver Spec Propagator World Parsing ParseSpec ParseNum ParseProofs ParseSum ParseTheory.

Lemma evaluate_cmp_spec r R : evaluate_cmp r = Ok R <-> relation_name r R.
Proof.
  unfold evaluate_cmp. split.
  - repeat (match goal with |- context[String.eqb r ?s] => destruct (String.eqb_spec r s) as [->|] end; [intros [= <-]; constructor|]). discriminate.
  - destruct 1; reflexivity.
Qed.
Lemma relation_fun r R R' : relation_name r R -> relation_name r R' -> R = R'.
Proof. intros H1 H2. apply evaluate_cmp_spec in H1. apply evaluate_cmp_spec in H2. congruence. Qed.
Lemma evaluate_cmp_fine r : fine (evaluate_cmp r).
Proof. unfold evaluate_cmp. repeat (destruct (String.eqb _ _); [exact I|]). exact I. Qed.
Lemma match0_fun t n n' : match0 t n = true -> match0 t n' = true -> n = n'.
Proof.
  unfold match0. destruct t as [|s|s [|]|?|?|?]; try discriminate; intros H1 H2; apply String.eqb_eq in H1; apply String.eqb_eq in H2; congruence.
Qed.
Lemma called_match n a : called n a <-> match0 (ta_term a) n = true.
Proof.
  unfold called, match0. destruct (ta_term a) as [|s|s [|]|?|?|?]; split; try (intros [E|E]); try discriminate; try (intros E; discriminate).
  - injection E as ->. apply String.eqb_refl.
  - intros E%String.eqb_eq. subst. auto.
  - injection E as ->. apply String.eqb_refl.
  - intros E%String.eqb_eq. subst. auto.
Qed.
Lemma called_of a n : match0 (ta_term a) n = true -> called n a.
Proof. apply called_match. Qed.
Lemma not_called_of a n : match0 (ta_term a) n = false -> ~ called n a.
Proof. rewrite called_match. congruence. Qed.
Lemma called_no a n : ~ called n a -> match0 (ta_term a) n = false.
Proof. rewrite called_match. destruct match0; congruence. Qed.
Lemma called_fun a n n' : called n a -> match0 (ta_term a) n' = true -> n = n'.
Proof. rewrite called_match. apply match0_fun. Qed.
Global Hint Resolve called_of not_called_of : core.
Lemma relq_shift R x y z : relq R x y <-> relq R (z + x)%Qc (z + y)%Qc.
Proof.
  destruct R; cbn; unfold Qcle, Qclt; cbn; rewrite ?Qred_correct; split; try lra.
  - intros ->. auto.
  - intros E. replace x with (z + x - z)%Qc by ring. rewrite E. ring.
Qed.

(** the values of differences *)
Lemma diff_sound bk t ts : clean t -> parse_diff_elem bk t = Ok ts ->
  exists a b, t = TFun "-" [a; b] /\ length ts = 2 /\ allin (fun s => s = SNum 0 \/ user s) ts /\
   (plain_operand a -> linear a) /\ (plain_operand b -> linear b) /\
   (plain_operand a -> plain_operand b -> forall A, exists x y, means A a x /\ means A b y /\ lin (with_unit A) ts = (x - y)%Qc).
Proof.
  destruct t as [|?|n [|a [|b [|c l]]]|?|?|?]; try discriminate. intros Hc. cbn [parse_diff_elem]. destruct (String.eqb_spec n "-") as [->|]; [|discriminate].
  intros E. apply bind_ok in E as (x & Ex & E). apply bind_ok in E as (y & Ey & E). injection E as <-.
  rewrite clean_fun, !Forall_cons in Hc. destruct Hc as (Ca & Cb & _). exists a, b. split; auto. split; auto.
  assert (K : forall k u v, clean u -> evaluate bk true u = Ok v -> (((diff_term k v).2 = SNum 0 \/ user (diff_term k v).2)) /\ (plain_operand u -> linear u) /\ (plain_operand u -> forall A, exists z, means A u z /\ (forall r, lin (with_unit A) (diff_term k v :: r) = (k * z + lin (with_unit A) r)%Qc))).
  { intros k u [q|s] Cu Ev.
    - apply evaluate_numeric in Ev. split; [left; reflexivity|]. split; [intros _; apply (numeric_linear true u q Ev)|]. intros _ A. exists q. split; [apply (numeric_means A true); auto|]. intros r. cbn. rewrite with_unit_0. ring.
    - destruct (evaluate_names _ _ _ _ Cu Ev) as [Hn Hd]. assert (Us := names_user u s Hn). split; [right; auto|].
      assert (Hv : plain_operand u -> variable u s).
      { intros [(q & Hq)|[H1 H2]]; [apply (numeric_evaluate bk) in Hq; congruence|]. split; auto. }
      split; [intros Hp; exact (li_var _ _ (Hv Hp))|]. intros Hp A. exists (A s). split; [exact (me_var _ _ _ (Hv Hp))|]. intros r. cbn. rewrite with_unit_user by auto. ring. }
  destruct (K 1%Qc a x Ca Ex) as (S1 & L1 & V1). destruct (K (-(1))%Qc b y Cb Ey) as (S2 & L2 & V2). split; [|split; [|split]]; auto.
  - intros s Hs. cbn in Hs. apply elem_of_cons in Hs as [->|Hs]; auto. apply elem_of_list_singleton in Hs as ->. auto.
  - intros P1 P2 A. destruct (V1 P1 A) as (u & U1 & U2). destruct (V2 P2 A) as (v & W1 & W2). exists u, v. split; auto. split; auto. rewrite U2, W2. cbn. ring.
Qed.
Lemma diff_fine bk t : clean t -> (bk = Flint -> zero_free t) -> fine (parse_diff_elem bk t).
Proof.
  destruct t as [|?|n [|a [|b [|c l]]]|?|?|?]; try (intros; exact I). intros Hc Hz. cbn [parse_diff_elem]. destruct (String.eqb n "-"); [|exact I].
  rewrite clean_fun, !Forall_cons in Hc. destruct Hc as (Ca & Cb & _).
  assert (Z : bk = Flint -> zero_free a /\ zero_free b). { intros E. specialize (Hz E). rewrite zf_fun, !Forall_cons in Hz. tauto. }
  apply fine_bind; [apply evaluate_fine; auto; intros; apply Z; auto|]. intros x _. apply fine_bind; [apply evaluate_fine; auto; intros; apply Z; auto|]. intros; exact I.
Qed.

Section atoms.
  Variable m : Z -> Z.
  Variable bk : backend.
  Notation auxdef := (auxdef m). Notation aux_ok := (aux_ok m). Notation aux_ineq := (aux_ineq m). Notation tru := (tru m).

  (** what one atom adds *)
  Record added (a : tatom) (st st' : pstate) (auxq conq : list (ineq symbol)) (ox : terms) : Prop := {
    ad_ok : aux_ok (ps_aux st') (ps_iqs st');
    ad_aux : exists r, ps_aux st' = ps_aux st ++ r;
    ad_iqs : ps_iqs st' = ps_iqs st ++ auxq ++ conq;
    ad_auxq : forall q, q ∈ auxq -> aux_ineq (ps_aux st') q;
    ad_lit : forall q, q ∈ conq -> q_lit q = m (ta_lit a) /\ normal (q_lhs q);
    ad_con : is_constraint a \/ conq = [];
    ad_sem : forall B tr, auxdef B tr (ps_aux st') -> (B (SNum 0) = 1%Qc \/ homogeneous_conditions a) -> plain_difference a -> is_constraint a ->
      ((forall q, q ∈ conq -> holds B q) <-> atom_true B (tru tr) a);
    ad_obj : ps_obj st' = ps_obj st ++ ox;
    ad_max : called "maximize" a -> forall B tr, auxdef B tr (ps_aux st') -> (B (SNum 0) = 1%Qc \/ homogeneous_conditions a) ->
      sum_means B (tru tr) (ta_elems a) (lin (with_unit B) ox);
    ad_min : called "minimize" a -> forall B tr, auxdef B tr (ps_aux st') -> (B (SNum 0) = 1%Qc \/ homogeneous_conditions a) ->
      sum_means B (tru tr) (ta_elems a) (- lin (with_unit B) ox)%Qc;
    ad_no : ~ called "maximize" a -> ~ called "minimize" a -> ox = [];
    ad_sym : forall q c s, q ∈ conq -> (c, s) ∈ q_lhs q -> user s \/ s ∈ map snd (ps_aux st');
    ad_osym : forall c s, (c, s) ∈ ox -> s = SNum 0 \/ user s \/ s ∈ map snd (ps_aux st');
  }.

  Lemma atom_spec a st st' : parse_atom bk m a st = Ok st' -> clean_atom a -> aux_ok (ps_aux st) (ps_iqs st) ->
    exists auxq conq ox, added a st st' auxq conq ox.
  Proof.
    destruct a as [tm es gd lit]. unfold clean_atom. cbn [ta_term ta_elems ta_guard ta_lit]. intros E [Ce Cg] Ha. unfold parse_atom in E. cbn [ta_term ta_elems ta_guard ta_lit] in E.
    destruct (match0 tm "dom") eqn:Mdom; [|destruct (match0 tm "diff") eqn:Mdiff; [|destruct (match0 tm "sum") eqn:Msum]].
    - (* dom *)
      destruct es as [|e [|]]; try discriminate. destruct gd as [[r g]|]; [|discriminate]. destruct e as [tup cond cid]. cbn [te_tuple te_cond] in E.
      destruct tup as [|t [|t2 tr2]]; try discriminate; [|destruct t as [|?|n [|l [|u [|? ?]]]|?|?|?]; discriminate]. destruct t as [|?|n [|l [|u [|? ?]]]|?|?|?]; try discriminate.
      destruct cond; [|discriminate]. destruct (String.eqb_spec n "..") as [->|]; [|discriminate].
      apply bind_ok in E as (x & Ex & E). apply bind_ok in E as (hi & Eh & E). apply bind_ok in E as (lo & El & E). injection E as <-.
      apply evaluate_var_spec in Ex; [|eapply Cg; eauto]. apply evaluate_num_spec in Eh. apply evaluate_num_spec in El.
      eexists [], _, []. split; cbn [ps_aux ps_iqs ps_obj ta_term ta_elems ta_lit].
      + eapply aux_ok_iqs; [|exact Ha]. intros q Hq. apply elem_of_app. auto.
      + exists []. rewrite app_nil_r. auto.
      + reflexivity.
      + intros q Hq. inversion Hq.
      + intros q Hq. apply elem_of_cons in Hq as [->|Hq]; [|apply elem_of_list_singleton in Hq as ->]; (split; [reflexivity|split; [apply NoDup_singleton|intros c y Hy; apply elem_of_list_singleton in Hy as [= -> _]; discriminate]]).
      + left. right. right. auto.
      + intros B tr _ _ _ _.
        assert (W : (forall q, q ∈ [Ineq [(1%Qc, x)] hi Rle (m lit); Ineq [(1%Qc, x)] lo Rge (m lit)] -> holds B q) <-> (lo <= B x <= hi)%Qc).
        { assert (Ev : (1 * B x + 0)%Qc = B x) by ring. split.
          - intros Hq. assert (H1 := Hq _ ltac:(left)). assert (H2 := Hq (Ineq [(1%Qc, x)] lo Rge (m lit)) ltac:(right; left)).
            unfold holds in H1, H2. cbn in H1, H2. rewrite Ev in H1, H2. auto.
          - intros [H1 H2] q Hq. apply elem_of_cons in Hq as [->|Hq]; [|apply elem_of_list_singleton in Hq as ->]; unfold holds; cbn; rewrite Ev; auto. }
        rewrite W. split.
        * intros Hx. eapply at_dom; cbn [ta_term ta_elems ta_guard]; eauto.
        * intros Ht. inversion Ht as [a0 r0 g0 R0 x0 y0 M0|a0 r0 g0 R0 s0 t0 cid0 x0 y0 z0 M0|a0 r0 g0 v0 l0 u0 cid0 x0 y0 M0 G0 N0 E0 L0 U0 H1]; subst a0; cbn [ta_term ta_elems ta_guard] in *.
          -- pose proof (called_fun _ _ _ M0 Mdom). discriminate.
          -- pose proof (called_fun _ _ _ M0 Mdom). discriminate.
          -- injection G0 as <- <-. injection E0 as <- <- _. rewrite (names_fun bk _ _ _ Ex N0), (numeric_fun bk _ _ _ _ El L0), (numeric_fun bk _ _ _ _ Eh U0). auto.
      + rewrite app_nil_r. auto.
      + intros Mm. pose proof (called_fun _ _ _ Mm Mdom). discriminate.
      + intros Mm. pose proof (called_fun _ _ _ Mm Mdom). discriminate.
      + auto.
      + intros q c s Hq Hs. left. assert (s = x) as ->; [|apply (names_user g); auto].
        apply elem_of_cons in Hq as [->|Hq]; [|apply elem_of_list_singleton in Hq as ->]; cbn in Hs; apply elem_of_list_singleton in Hs; congruence.
      + intros c s Hs. inversion Hs.
    - (* diff *)
      destruct gd as [[r g]|]; [|discriminate]. destruct es as [|e [|]]; try discriminate. destruct e as [tup cond cid]. cbn [te_tuple te_cond] in E.
      destruct tup as [|t [|]]; try discriminate. destruct cond; [|discriminate].
      apply bind_ok in E as (x & Ex & E). apply bind_ok in E as (y & Ey & E). destruct (simplify (x ++ neg_terms y)) as [lhs rhs] eqn:Es.
      apply bind_ok in E as (R & ER & E). injection E as <-. apply evaluate_cmp_spec in ER.
      assert (Ct : clean t) by (apply (Ce (TElem [t] [] cid)); left). assert (Cg' : clean g) by (eapply Cg; eauto).
      assert (P := psum_sound bk g y Cg' Ey). destruct (diff_sound bk t x Ct Ex) as (a & b & -> & _ & Ux & _ & _ & Vx).
      destruct (simplify_spec _ _ _ Es) as (Nl & Sl & Vl).
      eexists [], _, []. split; cbn [ps_aux ps_iqs ps_obj ta_term ta_elems ta_lit].
      + eapply aux_ok_iqs; [|exact Ha]. intros q Hq. apply elem_of_app. auto.
      + exists []. rewrite app_nil_r. auto.
      + reflexivity.
      + intros q Hq. inversion Hq.
      + intros q Hq. apply elem_of_list_singleton in Hq as ->. auto.
      + left. right. left. auto.
      + intros B tr _ _ Hpd _. destruct (Hpd (called_of (TAtom tm _ _ lit) _ Mdiff) (TElem [TFun "-" [a; b]] [] cid) a b) as [Pa Pb]; [left|auto|].
        destruct (Vx Pa Pb B) as (u & v & Hu & Hv & Ev). assert (Hg := pa_value _ _ P B).
        assert (W : (forall q, q ∈ [Ineq lhs rhs R (m lit)] -> holds B q) <-> relq R (u - v)%Qc (lin (with_unit B) y)).
        { rewrite (relq_shift R (u - v) (lin (with_unit B) y) (rhs - lin (with_unit B) y)).
          assert (E1 : (rhs - lin (with_unit B) y + (u - v))%Qc = lin B lhs) by (rewrite (Vl B), lin_app, lin_neg, Ev; ring).
          assert (E2 : (rhs - lin (with_unit B) y + lin (with_unit B) y)%Qc = rhs) by ring. rewrite E1, E2.
          split; [intros Hq; apply (Hq _ ltac:(left))|intros Hq q Hq'; apply elem_of_list_singleton in Hq' as ->; exact Hq]. }
        rewrite W. split.
        * intros Hx. eapply at_diff; cbn [ta_term ta_elems ta_guard]; eauto.
        * intros Ht. inversion Ht as [a0 r0 g0 R0 x0 y0 M0|a0 r0 g0 R0 s0 t0 cid0 x0 y0 z0 M0 G0 N0 E0 L0 U0 H1 H2|a0 r0 g0 v0 l0 u0 cid0 x0 y0 M0]; subst a0; cbn [ta_term ta_elems ta_guard] in *.
          -- pose proof (called_fun _ _ _ M0 Mdiff). discriminate.
          -- injection G0 as <- <-. injection E0 as <- <- _. rewrite (relation_fun _ _ _ ER N0), (means_fun bk _ _ _ _ Hu L0), (means_fun bk _ _ _ _ Hv U0), (means_fun bk _ _ _ _ Hg H1). auto.
          -- pose proof (called_fun _ _ _ M0 Mdiff). discriminate.
      + rewrite app_nil_r. auto.
      + intros Mm. pose proof (called_fun _ _ _ Mm Mdiff). discriminate.
      + intros Mm. pose proof (called_fun _ _ _ Mm Mdiff). discriminate.
      + auto.
      + intros q c s Hq Hs. apply elem_of_list_singleton in Hq as ->. cbn in Hs. destruct (Sl _ _ Hs) as [Hne Hin]. rewrite map_app, snd_neg, elem_of_app in Hin.
        left. destruct Hin as [Hin|Hin]; [apply Ux in Hin|apply (pa_user _ _ P) in Hin]; destruct Hin; auto; contradiction.
      + intros c s Hs. inversion Hs.
    - (* sum *)
      destruct gd as [[r g]|]; [|discriminate]. apply bind_ok in E as ([[aux iqs] x] & Ex & E). apply bind_ok in E as (y & Ey & E).
      destruct (simplify (x ++ neg_terms y)) as [lhs rhs] eqn:Es. apply bind_ok in E as (R & ER & E). injection E as <-. apply evaluate_cmp_spec in ER.
      assert (Cg' : clean g) by (eapply Cg; eauto). assert (P := psum_sound bk g y Cg' Ey).
      destruct (sum_elems_spec m bk _ _ _ _ _ _ Ex Ha Ce) as (A1 & A2 & (nw & -> & N) & L & S & V).
      destruct (simplify_spec _ _ _ Es) as (Nl & Sl & Vl).
      eexists nw, _, []. split; cbn [ps_aux ps_iqs ps_obj ta_term ta_elems ta_lit].
      + eapply aux_ok_iqs; [|exact A1]. intros q Hq. apply elem_of_app. auto.
      + auto.
      + rewrite <- app_assoc. reflexivity.
      + auto.
      + intros q Hq. apply elem_of_list_singleton in Hq as ->. auto.
      + left. left. auto.
      + intros B tr Hd Hu _ _. assert (Hx := V B tr Hd Hu). assert (Hg := pa_value _ _ P B).
        assert (W : (forall q, q ∈ [Ineq lhs rhs R (m lit)] -> holds B q) <-> relq R (lin (with_unit B) x)%Qc (lin (with_unit B) y)).
        { rewrite (relq_shift R (lin (with_unit B) x) (lin (with_unit B) y) (rhs - lin (with_unit B) y)).
          assert (E1 : (rhs - lin (with_unit B) y + lin (with_unit B) x)%Qc = lin B lhs) by (rewrite (Vl B), lin_app, lin_neg; ring).
          assert (E2 : (rhs - lin (with_unit B) y + lin (with_unit B) y)%Qc = rhs) by ring. rewrite E1, E2.
          split; [intros Hq; apply (Hq _ ltac:(left))|intros Hq q Hq'; apply elem_of_list_singleton in Hq' as ->; exact Hq]. }
        rewrite W. split.
        * intros Hx'. eapply at_sum; cbn [ta_term ta_elems ta_guard]; eauto.
        * intros Ht. inversion Ht as [a0 r0 g0 R0 x0 y0 M0 G0 N0 E0 L0 H1|a0 r0 g0 R0 s0 t0 cid0 x0 y0 z0 M0|a0 r0 g0 v0 l0 u0 cid0 x0 y0 M0]; subst a0; cbn [ta_term ta_elems ta_guard] in *.
          -- injection G0 as <- <-. rewrite (relation_fun _ _ _ ER N0), (sum_means_fun m bk _ _ _ _ _ Hx E0), (means_fun bk _ _ _ _ Hg L0). auto.
          -- apply called_match in M0; cbn in M0; congruence.
          -- apply called_match in M0; cbn in M0; congruence.
      + rewrite app_nil_r. auto.
      + intros Mm. pose proof (called_fun _ _ _ Mm Msum). discriminate.
      + intros Mm. pose proof (called_fun _ _ _ Mm Msum). discriminate.
      + auto.
      + intros q c s Hq Hs. apply elem_of_list_singleton in Hq as ->. cbn in Hs. destruct (Sl _ _ Hs) as [Hne Hin]. rewrite map_app, snd_neg, elem_of_app in Hin.
        destruct Hin as [Hin|Hin]; [apply S in Hin as [|]|apply (pa_user _ _ P) in Hin as [|]]; auto; contradiction.
      + intros c s Hs. inversion Hs.
    - destruct (match0 tm "minimize" || match0 tm "maximize") eqn:Mm.
      + apply bind_ok in E as ([[aux iqs] x] & Ex & E). injection E as <-.
        destruct (sum_elems_spec m bk _ _ _ _ _ _ Ex Ha Ce) as (A1 & A2 & (nw & -> & N) & L & S & V).
        eexists nw, [], _. split; cbn [ps_aux ps_iqs ps_obj ta_term ta_elems ta_lit].
        * auto.
        * auto.
        * rewrite app_nil_r. auto.
        * auto.
        * intros q Hq. inversion Hq.
        * auto.
        * intros B tr _ _ _ [Hi|[Hi|Hi]]; apply called_match in Hi; cbn in Hi; congruence.
        * reflexivity.
        * intros Mx B tr Hd Hu. apply called_match in Mx. cbn in Mx. assert (match0 tm "minimize" = false) as ->. { destruct (match0 tm "minimize") eqn:Mi; auto. pose proof (match0_fun _ _ _ Mi Mx). discriminate. }
          apply V; auto.
        * intros Mi B tr Hd Hu. apply called_match in Mi. cbn in Mi. rewrite Mi, lin_neg, Qcopp_involutive. apply V; auto.
        * intros M1%called_no M2%called_no. cbn in M1, M2. rewrite M1, M2 in Mm. discriminate.
        * intros q c s Hq. inversion Hq.
        * intros c s Hs. apply S. destruct (match0 tm "minimize").
          -- rewrite <- snd_neg. apply elem_of_list_fmap. exists (c, s). auto.
          -- apply elem_of_list_fmap. exists (c, s). auto.
      + injection E as <-. apply orb_false_iff in Mm as [M1 M2]. exists [], [], []. split; cbn [ta_term ta_elems ta_lit]; auto.
        * exists []. rewrite app_nil_r. auto.
        * rewrite !app_nil_r. auto.
        * intros q Hq. inversion Hq.
        * intros q Hq. inversion Hq.
        * intros B tr _ _ _ [Hi|[Hi|Hi]]; apply called_match in Hi; cbn in Hi; congruence.
        * rewrite app_nil_r. auto.
        * intros Hi%called_match. cbn in Hi. congruence.
        * intros Hi%called_match. cbn in Hi. congruence.
        * intros q c s Hq. inversion Hq.
        * intros c s Hs. inversion Hs.
  Qed.

  Lemma atom_fine a st : clean_atom a -> (bk = Flint -> zero_free_atom a) -> fine (parse_atom bk m a st).
  Proof.
    destruct a as [tm es gd lit]. unfold clean_atom, zero_free_atom. cbn [ta_term ta_elems ta_guard ta_lit]. intros [Ce Cg] Hz.
    assert (Fg : forall r g, gd = Some (r, g) -> clean g /\ (bk = Flint -> zero_free g)). { intros r g E. split; [eauto|]. intros Eb. eapply (Hz Eb); eauto. }
    assert (Fe : forall e t, e ∈ es -> t ∈ te_tuple e -> clean t /\ (bk = Flint -> zero_free t)). { intros e t He Ht. split; [eauto|]. intros Eb. destruct (Hz Eb) as [Hz' _]. eauto. }
    unfold parse_atom. cbn [ta_term ta_elems ta_guard ta_lit].
    destruct (match0 tm "dom"); [|destruct (match0 tm "diff"); [|destruct (match0 tm "sum"); [|destruct (match0 tm "minimize" || match0 tm "maximize"); [|exact I]]]].
    - destruct es as [|e [|]]; try exact I; try (destruct gd as [[? ?]|]; exact I). destruct gd as [[r g]|]; [|exact I]. destruct e as [tup cond cid]. cbn [te_tuple te_cond].
      destruct tup as [|t [|t2 tr2]]; try exact I; [|destruct t as [|?|n [|l [|u [|? ?]]]|?|?|?]; exact I]. destruct t as [|?|n [|l [|u [|? ?]]]|?|?|?]; try exact I.
      destruct cond; [|exact I]. destruct (String.eqb n ".."); [|exact I]. destruct (Fg r g eq_refl) as [C1 Z1].
      destruct (Fe _ _ ltac:(left) ltac:(left)) as [C2 Z2]. rewrite clean_fun, !Forall_cons in C2. destruct C2 as (Cl & Cu & _).
      assert (Z3 : bk = Flint -> zero_free l /\ zero_free u). { intros Eb. specialize (Z2 Eb). rewrite zf_fun, !Forall_cons in Z2. tauto. }
      apply fine_bind; [apply evaluate_var_fine; auto|]. intros x _. apply fine_bind; [apply evaluate_num_fine; auto; intros; apply Z3; auto|]. intros hi _.
      apply fine_bind; [apply evaluate_num_fine; auto; intros; apply Z3; auto|]. intros lo _. exact I.
    - destruct gd as [[r g]|]; [|exact I]. destruct es as [|e [|]]; try exact I. destruct e as [tup cond cid]. cbn [te_tuple te_cond].
      destruct tup as [|t [|]]; try exact I. destruct cond; [|exact I]. destruct (Fg r g eq_refl) as [C1 Z1]. destruct (Fe _ _ ltac:(left) ltac:(left)) as [C2 Z2].
      apply fine_bind; [apply diff_fine; auto|]. intros x _. apply fine_bind; [apply psum_fine; auto|]. intros y _. destruct (simplify _). apply fine_bind; [apply evaluate_cmp_fine|]. intros; exact I.
    - destruct gd as [[r g]|]; [|exact I]. destruct (Fg r g eq_refl) as [C1 Z1]. apply fine_bind; [apply sum_elems_fine; auto|]. intros [[? ?] ?] _.
      apply fine_bind; [apply psum_fine; auto|]. intros y _. destruct (simplify _). apply fine_bind; [apply evaluate_cmp_fine|]. intros; exact I.
    - apply fine_bind; [apply sum_elems_fine; auto|]. intros [[? ?] ?] _. exact I.
  Qed.
End atoms.
