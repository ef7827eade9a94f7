(** * Which atoms are accepted; canonical forms *)

From Verif Require Import Num Sums Solver Spec Propagator World Parsing ParseSpec ParseNum ParseProofs ParseSum ParseTheory ParseAtoms ParsePrograms.

(** ** lengths *)
Lemma mul_row_length l y z : mul_row l y = Ok z -> length z = length y.
Proof.
  revert z. induction y as [|r y IH]; intros z; cbn [mul_row]; [intros [= <-]; auto|]. destruct (_ || _); [|discriminate].
  intros E. apply bind_ok in E as (x & Ex & [= <-]). cbn. f_equal. auto.
Qed.
Lemma mul_terms_length x y z : mul_terms x y = Ok z -> length z = length x * length y.
Proof.
  revert z. induction x as [|l x IH]; intros z; cbn [mul_terms]; [intros [= <-]; auto|].
  intros E. apply bind_ok in E as (u & Eu & E). apply bind_ok in E as (v & Ev & [= <-]). rewrite app_length, (mul_row_length _ _ _ Eu), (IH _ Ev). cbn. lia.
Qed.
Lemma neg_terms_length x : length (neg_terms x) = length x.
Proof. apply map_length. Qed.
Lemma psum_length bk t ts : parse_sum_elem bk t = Ok ts -> length ts = summands t.
Proof.
  revert ts. induction t as [z|n|n l IH|l IH|l|l] using tterm_ind'; intros ts; try discriminate.
  - intros [= <-]. auto.
  - cbn [parse_sum_elem summands]. assert (V : (s ← evaluate_var bk (TSym n); Ok [(1%Qc, s)]) = Ok ts -> length ts = 1).
    { intros E. apply bind_ok in E as (s & _ & [= <-]). auto. }
    destruct (is_string n); auto. destruct (as_num n); auto. intros [= <-]. auto.
  - assert (V : (s ← evaluate_var bk (TFun n l); Ok [(1%Qc, s)]) = Ok ts -> length ts = 1).
    { intros E. apply bind_ok in E as (s & _ & [= <-]). auto. }
    destruct l as [|a [|b [|c l]]]; cbn [parse_sum_elem summands]; auto.
    + apply Forall_cons in IH as [Ha _]. destruct (String.eqb n "-") eqn:E1.
      * rewrite orb_true_r. intros E. apply bind_ok in E as (x & Ex & [= <-]). rewrite neg_terms_length. auto.
      * rewrite orb_false_r. destruct (String.eqb n "+"); auto.
    + apply Forall_cons in IH as [Ha IH]. apply Forall_cons in IH as [Hb _].
      destruct (String.eqb n "+") eqn:E1; [cbn [orb]|destruct (String.eqb n "-") eqn:E2; [cbn [orb]|cbn [orb]; destruct (String.eqb n "*") eqn:E3; [|destruct (String.eqb n "/") eqn:E4]]]; auto.
      * intros E. apply bind_ok in E as (x & Ex & E). apply bind_ok in E as (y & Ey & [= <-]). rewrite app_length. auto.
      * intros E. apply bind_ok in E as (x & Ex & E). apply bind_ok in E as (y & Ey & [= <-]). rewrite app_length, neg_terms_length. auto.
      * intros E. apply bind_ok in E as (x & Ex & E). apply bind_ok in E as (y & Ey & E). rewrite (mul_terms_length _ _ _ E). auto.
      * intros E. apply bind_ok in E as (x & Ex & E). apply bind_ok in E as (q & Eq & E). destruct (decide _); [discriminate|]. injection E as <-. rewrite map_length. auto.
  - cbn [parse_sum_elem summands]. intros E. apply bind_ok in E as (s & _ & [= <-]). auto.
Qed.

Section accept.
  Variable m : Z -> Z.
  Variable bk : backend.

  Lemma cond_terms_ok cid ts : forall aux iqs, (Z.of_nat (length aux + length ts) <= 2147483647)%Z ->
    exists aux' iqs' ts', cond_terms m cid ts aux iqs = Ok (aux', iqs', ts') /\ length aux' <= length aux + length ts.
  Proof.
    induction ts as [|t ts IH]; intros aux iqs Hl; cbn [cond_terms length].
    - eexists _, _, _. split; [reflexivity|lia].
    - assert (E : exists aux1 iqs1 t1, cond_term m cid t aux iqs = Ok (aux1, iqs1, t1) /\ length aux1 <= length aux + 1).
      { unfold cond_term. destruct (Z.ltb_spec 2147483647 (Z.of_nat (length aux) + 1)); [cbn in Hl; lia|]. destruct (aux_find _ _).
        - eexists _, _, _. split; [reflexivity|lia].
        - eexists _, _, _. split; [reflexivity|]. rewrite app_length. cbn. lia. }
      destruct E as (aux1 & iqs1 & t1 & E1 & L1). rewrite E1. cbn. destruct (IH aux1 iqs1) as (aux2 & iqs2 & r & E2 & L2); [cbn in Hl; lia|].
      rewrite E2. cbn. eexists _, _, _. split; [reflexivity|lia].
  Qed.
  Lemma sum_elems_ok es : forall aux iqs, linear_elements es -> (forall e t, e ∈ es -> t ∈ te_tuple e -> clean t) ->
    (Z.of_nat (length aux + conditional_summands es) <= 2147483647)%Z -> exists r, parse_sum_elems bk m es aux iqs = Ok r.
  Proof.
    induction es as [|e es IH]; intros aux iqs Hl Hc Hn; cbn [parse_sum_elems]; [eauto|].
    destruct (Hl e ltac:(left)) as (t & Et & Lt). destruct e as [tup cond cid]. cbn [te_tuple te_cond te_cid conditional_summands] in *. subst tup.
    destruct (psum_complete bk t Lt) as (x & Ex); [apply (Hc (TElem [t] cond cid)); left|]. rewrite Ex. cbn.
    match goal with |- exists r, ?X ≫= _ = _ => assert (E : exists aux1 iqs1 x1, X = Ok (aux1, iqs1, x1) /\ (Z.of_nat (length aux1 + conditional_summands es) <= 2147483647)%Z) end.
    { destruct cond as [|c0 cond].
      - eexists _, _, _. split; [reflexivity|]. cbn in Hn. lia.
      - replace (list_sum (map summands [t])) with (summands t) in Hn by (cbn; lia). rewrite <- (psum_length _ _ _ Ex) in Hn. destruct (cond_terms_ok cid x aux iqs) as (aux1 & iqs1 & x1 & E1 & L1); [lia|].
        eexists _, _, _. split; [exact E1|lia]. }
    destruct E as (aux1 & iqs1 & x1 & E1 & L1). rewrite E1. cbn. destruct (IH aux1 iqs1) as ([[aux2 iqs2] y] & E2); auto.
    - intros e He. apply Hl. right. auto.
    - intros e' t' He. apply Hc. right. auto.
    - rewrite E2. cbn. eauto.
  Qed.
  Lemma operand_evaluate t : clean t -> operand t <-> exists v, evaluate bk true t = Ok v.
  Proof.
    intros Hc. split.
    - intros [(q & Hq)|(s & Hs)]; [apply (numeric_evaluate bk) in Hq; eauto|].
      destruct t as [z|n|n l|l|l|l]; try (rewrite (names_evaluate bk _ _ Hs true); [eauto|]; intros _ (n' & ? & ? & E & _); discriminate).
      destruct (as_num n) as [q|] eqn:E.
      + apply as_num_spec in E as (s' & Hq & Hd). exists (inl q). apply numeric_evaluate. econstructor; eauto.
      + rewrite (names_evaluate bk _ _ Hs true); [eauto|]. intros _ (n' & s' & q & [= <-] & Hq & Hd). assert (as_num n = Some q) by (apply as_num_spec; eauto). congruence.
    - intros ([q|s] & E); [left; exists q; apply (evaluate_numeric bk); auto|right; exists s; eapply evaluate_names; eauto].
  Qed.

  Lemma atom_ok a st : clean_atom a -> well_formed a -> (Z.of_nat (length (ps_aux st) + conditional_summands (ta_elems a)) <= 2147483647)%Z ->
    exists st', parse_atom bk m a st = Ok st'.
  Proof.
    destruct a as [tm es gd lit]. intros [Ce Cg] Hw Hn. cbn [ta_term ta_elems ta_guard ta_lit] in *. unfold parse_atom. cbn [ta_term ta_elems ta_guard ta_lit].
    destruct Hw as [r g R M G N Lg Le|r g R s t cid M G N Lg Le Os Ot|r g l u cid v x y M G N E L U|M L|M L|M]; [apply called_match in M..|]; cbn [ta_term ta_elems ta_guard ta_lit] in *.
    - assert (match0 tm "dom" = false) as -> by (destruct (match0 tm "dom") eqn:E; auto; pose proof (match0_fun _ _ _ M E); discriminate).
      assert (match0 tm "diff" = false) as -> by (destruct (match0 tm "diff") eqn:E; auto; pose proof (match0_fun _ _ _ M E); discriminate). rewrite M, G.
      destruct (sum_elems_ok es (ps_aux st) (ps_iqs st) Le Ce Hn) as ([[aux iqs] x] & ->). cbn. destruct (psum_complete bk g Lg) as (y & ->); [eauto|]. cbn.
      destruct (simplify _). apply evaluate_cmp_spec in N. rewrite N. cbn. eauto.
    - assert (match0 tm "dom" = false) as -> by (destruct (match0 tm "dom") eqn:E; auto; pose proof (match0_fun _ _ _ M E); discriminate).
      rewrite M, G, Le. cbn [te_tuple te_cond]. assert (Ct := Ce _ _ ltac:(rewrite Le; left) ltac:(left)). rewrite clean_fun, !Forall_cons in Ct. destruct Ct as (Cs & Ct & _).
      apply operand_evaluate in Os as (u & Eu); auto. apply operand_evaluate in Ot as (v & Ev); auto. cbn [parse_diff_elem String.eqb Ascii.eqb Bool.eqb]. rewrite Eu, Ev. cbn.
      destruct (psum_complete bk g Lg) as (y & ->); [eauto|]. cbn. destruct (simplify _). apply evaluate_cmp_spec in N. rewrite N. cbn. eauto.
    - rewrite M, G, E. cbn [te_tuple te_cond String.eqb Ascii.eqb Bool.eqb]. apply (evaluate_num_spec bk) in L. apply (evaluate_num_spec bk) in U.
      apply (evaluate_var_spec bk) in N; [|eauto]. rewrite N, U, L. cbn. eauto.
    - assert (match0 tm "dom" = false) as -> by (destruct (match0 tm "dom") eqn:E; auto; pose proof (match0_fun _ _ _ M E); discriminate).
      assert (match0 tm "diff" = false) as -> by (destruct (match0 tm "diff") eqn:E; auto; pose proof (match0_fun _ _ _ M E); discriminate).
      assert (match0 tm "sum" = false) as -> by (destruct (match0 tm "sum") eqn:E; auto; pose proof (match0_fun _ _ _ M E); discriminate). rewrite M, orb_true_r.
      destruct (sum_elems_ok es (ps_aux st) (ps_iqs st) L Ce Hn) as ([[aux iqs] x] & ->). cbn. eauto.
    - assert (match0 tm "dom" = false) as -> by (destruct (match0 tm "dom") eqn:E; auto; pose proof (match0_fun _ _ _ M E); discriminate).
      assert (match0 tm "diff" = false) as -> by (destruct (match0 tm "diff") eqn:E; auto; pose proof (match0_fun _ _ _ M E); discriminate).
      assert (match0 tm "sum" = false) as -> by (destruct (match0 tm "sum") eqn:E; auto; pose proof (match0_fun _ _ _ M E); discriminate). rewrite M. cbn [orb].
      destruct (sum_elems_ok es (ps_aux st) (ps_iqs st) L Ce Hn) as ([[aux iqs] x] & ->). cbn. eauto.
    - assert (M' : forall n, n ∈ ["sum"; "diff"; "dom"; "maximize"; "minimize"]%string -> match0 tm n = false) by (intros n Hi; exact (called_no _ _ (M n Hi))).
      rewrite !M' by (repeat first [left|right]). cbn. eauto.
  Qed.
  Lemma atom_wf a st st' : clean_atom a -> aux_ok m (ps_aux st) (ps_iqs st) -> parse_atom bk m a st = Ok st' -> well_formed a.
  Proof.
    destruct a as [tm es gd lit]. intros [Ce Cg] Ha E. cbn [ta_term ta_elems ta_guard ta_lit] in *. unfold parse_atom in E. cbn [ta_term ta_elems ta_guard ta_lit] in E.
    destruct (match0 tm "dom") eqn:Mdom; [|destruct (match0 tm "diff") eqn:Mdiff; [|destruct (match0 tm "sum") eqn:Msum]].
    - destruct es as [|e [|]]; try discriminate. destruct gd as [[r g]|]; [|discriminate]. destruct e as [tup cond cid]. cbn [te_tuple te_cond] in E.
      destruct tup as [|t [|t2 tr2]]; try discriminate; [|destruct t as [|?|n [|l [|u [|? ?]]]|?|?|?]; discriminate]. destruct t as [|?|n [|l [|u [|? ?]]]|?|?|?]; try discriminate.
      destruct cond; [|discriminate]. destruct (String.eqb_spec n "..") as [->|]; [|discriminate].
      apply bind_ok in E as (x & Ex & E). apply bind_ok in E as (hi & Eh & E). apply bind_ok in E as (lo & El & E).
      apply evaluate_var_spec in Ex; [|eapply Cg; eauto]. apply evaluate_num_spec in Eh. apply evaluate_num_spec in El. eapply wf_dom; cbn; eauto.
    - destruct gd as [[r g]|]; [|discriminate]. destruct es as [|e [|]]; try discriminate. destruct e as [tup cond cid]. cbn [te_tuple te_cond] in E.
      destruct tup as [|t [|]]; try discriminate. destruct cond; [|discriminate].
      apply bind_ok in E as (x & Ex & E). apply bind_ok in E as (y & Ey & E). destruct (simplify (x ++ neg_terms y)) as [lhs rhs] eqn:Es.
      apply bind_ok in E as (R & ER & E). apply evaluate_cmp_spec in ER.
      assert (Ct : clean t) by (apply (Ce (TElem [t] [] cid)); left). assert (Cg' : clean g) by (eapply Cg; eauto). assert (P := psum_sound bk g y Cg' Ey).
      destruct t as [|?|n [|a [|b [|c l]]]|?|?|?]; try discriminate. cbn [parse_diff_elem] in Ex. destruct (String.eqb_spec n "-") as [->|]; [|discriminate].
      apply bind_ok in Ex as (u & Eu & Ex). apply bind_ok in Ex as (v & Ev & Ex). rewrite clean_fun, !Forall_cons in Ct. destruct Ct as (Ca & Cb & _).
      eapply wf_diff; cbn; eauto; [apply P|apply operand_evaluate; eauto|apply operand_evaluate; eauto].
    - destruct gd as [[r g]|]; [|discriminate]. apply bind_ok in E as ([[aux iqs] x] & Ex & E). apply bind_ok in E as (y & Ey & E).
      destruct (simplify (x ++ neg_terms y)) as [lhs rhs] eqn:Es. apply bind_ok in E as (R & ER & E). apply evaluate_cmp_spec in ER.
      assert (Cg' : clean g) by (eapply Cg; eauto). assert (P := psum_sound bk g y Cg' Ey). destruct (sum_elems_spec m bk _ _ _ _ _ _ Ex Ha Ce) as (_ & _ & _ & L & _).
      eapply wf_sum; cbn; eauto. apply P.
    - destruct (match0 tm "minimize" || match0 tm "maximize") eqn:Mm.
      + apply bind_ok in E as ([[aux iqs] x] & Ex & E). destruct (sum_elems_spec m bk _ _ _ _ _ _ Ex Ha Ce) as (_ & _ & _ & L & _).
        apply orb_true_iff in Mm as [Mm|Mm]; [apply wf_min|apply wf_max]; auto.
      + apply orb_false_iff in Mm as [M1 M2]. apply wf_other. cbn. intros n Hn. apply not_called_of. cbn. rewrite !elem_of_cons, elem_of_nil in Hn. naive_solver.
  Qed.
End accept.

(** ** constants are merged, whatever their number *)
Definition erase (ts : terms) : terms := filter (fun t : Qc * symbol => t.2 <> SNum 0) ts.
Fixpoint units (ts : terms) : Qc := match ts with [] => 0 | t :: r => (if decide (t.2 = SNum 0) then t.1 else 0) + units r end%Qc.
Lemma erase_app x y : erase (x ++ y) = erase x ++ erase y.
Proof. apply filter_app. Qed.
Lemma units_app x y : units (x ++ y) = (units x + units y)%Qc.
Proof. induction x as [|t x IH]; cbn; [|rewrite IH]; ring. Qed.
Lemma erase_neg x : erase (neg_terms x) = neg_terms (erase x).
Proof.
  unfold neg_terms, erase. induction x as [|[c s] x IH]; auto. rewrite filter_cons. change (map (fun t : Qc * symbol => (- t.1, t.2)%Qc) ((c, s) :: x)) with ((- c, s)%Qc :: map (fun t : Qc * symbol => (- t.1, t.2)%Qc) x).
  rewrite filter_cons. cbn [snd]. destruct (decide (s <> SNum 0)); rewrite IH; auto.
Qed.
Lemma units_neg x : units (neg_terms x) = (- units x)%Qc.
Proof. unfold neg_terms. induction x as [|[c s] x IH]; [reflexivity|]. cbn [map fst snd units]. rewrite IH. destruct (decide (s = SNum 0)); ring. Qed.
Lemma erase_units x : Forall inv_ x -> erase x = [] /\ forall A, units x = lin (with_unit A) x.
Proof.
  induction 1 as [|[c s] x Hs _ [IH1 IH2]]; [split; reflexivity|]. cbn in Hs. unfold inv_ in Hs. cbn in Hs. subst s. split.
  - unfold erase in *. rewrite filter_cons. cbn [snd]. destruct (decide (SNum 0 <> SNum 0)); [contradiction|auto].
  - intros A. cbn [units lin fst snd]. rewrite (IH2 A), with_unit_0, decide_True by auto. ring.
Qed.
Lemma add_to_erase c x done : x <> SNum 0 -> add_to c x (erase done) = match add_to c x done with Some d => Some (erase d) | None => None end.
Proof.
  intros Hx. induction done as [|t r IH]; auto. unfold erase in *. rewrite filter_cons. destruct (decide (t.2 <> SNum 0)) as [Ht|Ht]; cbn [add_to].
  - destruct (decide (x = t.2)) as [E|E].
    + f_equal. rewrite filter_cons. cbn [snd]. destruct (decide (t.2 <> SNum 0)); [auto|contradiction].
    + rewrite IH. destruct (add_to c x r); auto. rewrite filter_cons. destruct (decide (t.2 <> SNum 0)); [auto|contradiction].
  - destruct (decide (t.2 = SNum 0)) as [E0|]; [|contradiction]. rewrite IH. destruct (decide (x = t.2)) as [E|E]; [congruence|]. destruct (add_to c x r) as [r'|]; auto. rewrite filter_cons. destruct (decide (t.2 <> SNum 0)); [contradiction|auto].
Qed.
Lemma erase_one (t : Qc * symbol) : erase [t] = if decide (t.2 = SNum 0) then [] else [t].
Proof. unfold erase. rewrite filter_cons. destruct (decide (t.2 = SNum 0)), (decide (t.2 <> SNum 0)); auto; contradiction. Qed.
Lemma combine_erase ts : forall done rhs done' rhs', combine ts done rhs = (done', rhs') ->
  combine (erase ts) (erase done) 0%Qc = (erase done', 0%Qc) /\ rhs' = (rhs - units ts)%Qc.
Proof.
  induction ts as [|t ts IH]; intros done rhs done' rhs' E.
  - cbn in *. injection E as <- <-. split; auto. ring.
  - cbn [combine] in E. cbn [units]. unfold erase at 1. rewrite filter_cons. destruct (is_invalid t.2) eqn:Ei.
    + apply is_invalid_spec in Ei. destruct (decide (t.2 <> SNum 0)); [contradiction|]. fold (erase ts). apply IH in E as [E1 E2]. rewrite E2. split.
      * rewrite erase_app, erase_one in E1. cbn [snd] in E1. rewrite decide_True, app_nil_r in E1 by auto. auto.
      * rewrite decide_True by auto. ring.
    + apply is_invalid_false in Ei. destruct (decide (t.2 <> SNum 0)); [|contradiction]. fold (erase ts). cbn [combine]. assert (is_invalid t.2 = false) as -> by (apply is_invalid_false; auto).
      rewrite add_to_erase by auto. rewrite decide_False by auto.
      destruct (add_to t.1 t.2 done) as [d|] eqn:Ea; apply IH in E as [E1 E2]; rewrite E2; (split; [|ring]); rewrite erase_app, erase_one in E1; cbn [snd] in E1; rewrite decide_False in E1 by auto; auto.
Qed.
Lemma good_erase d : good d -> filter (fun t : Qc * symbol => t.1 <> 0%Qc) d = filter (fun t : Qc * symbol => t.1 <> 0%Qc) (erase d).
Proof.
  induction d as [|t d IH]; intros Hg; auto. destruct Hg as (G1 & G2 & G3). unfold erase. rewrite !filter_cons. destruct (decide (t.2 <> SNum 0)) as [Hn|Hn].
  - rewrite filter_cons. destruct (decide (t.1 <> 0%Qc)); [f_equal|]; apply IH; auto.
  - destruct (decide (t.2 = SNum 0)) as [E|]; [|contradiction]. destruct (decide (t.1 <> 0%Qc)) as [Hc|]; [destruct Hc; auto|]. apply IH. auto.
Qed.
Lemma simplify_eq ts ts' : erase ts = erase ts' -> units ts = units ts' -> simplify ts = simplify ts'.
Proof.
  intros E1 E2. unfold simplify. destruct (combine ts [] 0%Qc) as [d r] eqn:C. destruct (combine ts' [] 0%Qc) as [d' r'] eqn:C'.
  destruct (combine_spec ts [] 0%Qc d r I C) as [G _]. destruct (combine_spec ts' [] 0%Qc d' r' I C') as [G' _].
  apply combine_erase in C as [C1 C2]. apply combine_erase in C' as [C1' C2']. rewrite E1 in C1. rewrite C1 in C1'. injection C1' as Ed. f_equal; [|congruence].
  rewrite (good_erase d), (good_erase d') by auto. congruence.
Qed.
