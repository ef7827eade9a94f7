(** * C17-C23, C39: theory atoms

    Theorems about the model of parsing.cc (Parsing.v) in terms of the meaning
    of terms and atoms (ParseSpec.v).  [m] maps program literals to solver
    literals; [tr] gives the truth values of solver literals; [tru m tr c]
    says that the program literal or condition [c] is true.
    [loaded m bk l st]: evaluate_theory accepted the atoms [l] (in any number
    of steps) and ended in [st]. *)

From Verif Require Import Num Sums Solver Spec Propagator World Parsing ParseSpec ParseNum ParseProofs ParseSum ParseTheory ParseAtoms ParsePrograms ParseSyntax.

(** ** C23 *)
Theorem C23_quoted_decimals n q : as_num n = Some q <-> exists s, quoted n s /\ decimal s q.
Proof. apply as_num_spec. Qed.
(** every text denotes at most one number, and no quoted text is ambiguous *)
Theorem C23_unique n s s' q q' : quoted n s -> decimal s q -> quoted n s' -> decimal s' q' -> q = q'.
Proof.
  intros H1 H2 H3 H4. assert (as_num n = Some q) by (apply as_num_spec; eauto). assert (as_num n = Some q') by (apply as_num_spec; eauto). congruence.
Qed.
Theorem C23_others_are_no_numbers bk n s : quoted n s -> (forall q, ~ decimal s q) -> escaped s -> exists r, unescaped s r /\
  evaluate bk true (TSym n) = Ok (inr (SStr (string_of_list_ascii r))).
Proof.
  intros Hq Hd (r & Hr). exists r. split; auto. apply names_evaluate; [eapply na_str; eauto|].
  intros _ (n' & s' & q & [= <-] & Hq' & Hd'). rewrite (quoted_fun _ _ _ Hq Hq') in Hd. exact (Hd q Hd').
Qed.

(** ** C17 *)
Theorem C17_terms_denote bk t ts : clean t -> parse_sum_elem bk t = Ok ts -> forall A, means A t (lin (with_unit A) ts).
Proof. intros Hc E A. apply (pa_value _ _ (psum_sound bk t ts Hc E)). Qed.
Theorem C17_value_unique A t x y : means A t x -> means A t y -> x = y.
Proof. apply (means_fun Flint). Qed.
Theorem C17_accepted bk t : clean t -> (exists ts, parse_sum_elem bk t = Ok ts) <-> linear t.
Proof. intros Hc. split; [intros (ts & E); apply (psum_sound bk t ts Hc E)|intros Hl; apply psum_complete; auto]. Qed.
Theorem C17_rejected bk t : clean t -> (bk = Flint -> zero_free t) -> ~ linear t -> parse_sum_elem bk t = Exn.
Proof.
  intros Hc Hz Hl. pose proof (psum_fine bk t Hc Hz) as Hf. destruct (parse_sum_elem bk t) as [ts| | |] eqn:E; cbn in Hf; try contradiction; auto.
  destruct Hl. apply (psum_sound bk t ts Hc E).
Qed.

(** ** C18 *)
Theorem C18_normalization ts lhs rhs : simplify ts = (lhs, rhs) ->
  NoDup (map snd lhs) /\ (forall c x, (c, x) ∈ lhs -> c <> 0%Qc /\ x <> SNum 0) /\
  forall A R, relq R (lin (with_unit A) ts) 0%Qc <-> relq R (lin A lhs) rhs.
Proof.
  intros E. destruct (simplify_spec _ _ _ E) as ([N1 N2] & S & V). split; auto. split; [intros c x Hx; split; [eauto|apply (S c x Hx)]|].
  intros A R. rewrite (relq_shift R (lin (with_unit A) ts) 0%Qc rhs), <- V. replace (rhs + 0)%Qc with rhs by ring. tauto.
Qed.
(** all constraints and the objective of accepted programs are normalized *)
Theorem C18_programs m bk l st : loaded m bk l st -> (forall a, a ∈ l -> clean_atom a) ->
  (forall q, q ∈ ps_iqs st -> normal (q_lhs q)) /\ normal (ps_obj st).
Proof. intros Hl Hc. destruct (loaded_spec m bk l st Hl Hc) as [_ _ N O _ _ _]. auto. Qed.

(** ** C17, C21: accepted programs and their atoms *)

(** every solution of the constraints satisfies all true atoms; conditional
    elements must not have a constant summand (C21_refuted) and differences no
    negated operand (C20_refuted) *)
Theorem C21_solutions_satisfy_atoms_partial m bk l st : loaded m bk l st ->
  (forall a, a ∈ l -> clean_atom a /\ homogeneous_conditions a /\ plain_difference a) ->
  forall tr B, consistent m tr -> (forall q, q ∈ ps_iqs st -> tr (q_lit q) = true -> holds B q) ->
  forall a, a ∈ l -> is_constraint a -> tr (m (ta_lit a)) = true -> atom_true B (tru m tr) a.
Proof.
  intros Hl Ha tr B Ht Hq. destruct (loaded_spec m bk l st Hl ltac:(intros; apply Ha; auto)) as [L1 _ _ _ L5 _ _].
  apply L5; auto; [|intros a Hin; destruct (Ha a Hin) as (? & ? & ?); split; [right; auto|auto]].
  eapply sat_auxdef; eauto.
Qed.
(** conversely, every assignment that satisfies all true atoms can be extended
    to the auxiliary variables; this needs no restriction on conditions *)
Theorem C21_solutions_kept_partial m bk l st : loaded m bk l st -> (forall a, a ∈ l -> clean_atom a /\ plain_difference a) ->
  forall tr A, consistent m tr -> (forall a, a ∈ l -> is_constraint a -> tr (m (ta_lit a)) = true -> atom_true A (tru m tr) a) ->
  exists B, (forall s, user s -> B s = A s) /\ (forall q, q ∈ ps_iqs st -> tr (q_lit q) = true -> holds B q) /\
    objective_means A (tru m tr) l (lin B (ps_obj st)).
Proof.
  intros Hl Ha tr A Ht HA. destruct (loaded_spec m bk l st Hl ltac:(intros; apply Ha; auto)) as [L1 _ _ _ L5 L6 _].
  set (B := extend m A tr (ps_aux st)). assert (Hd : auxdef m B tr (ps_aux st)) by (eapply extend_auxdef; eauto).
  assert (Hg : agree A B) by apply extend_agree. exists B. split; [intros s Hs; symmetry; auto|]. split.
  - apply L5; auto.
    + intros a Hin. split; [left; reflexivity|]. apply Ha. auto.
    + intros a Hin Hi Hl'. eapply atom_agree; [exact Hg|]. auto.
  - eapply objective_agree; [apply agree_sym, Hg|]. apply L6; auto. intros a Hin. left. reflexivity.
Qed.
(** without conditions there are no auxiliary variables: the constraints and
    the atoms have the same solutions *)
Definition unconditional (a : tatom) : Prop := forall e, e ∈ ta_elems a -> te_cond e = [].
Lemma sum_elems_noaux m bk es : (forall e, e ∈ es -> te_cond e = []) -> forall aux iqs aux' iqs' ts, parse_sum_elems bk m es aux iqs = Ok (aux', iqs', ts) -> aux' = aux.
Proof.
  induction es as [|[tup cond cid] es IH]; intros Hc aux iqs aux' iqs' ts E; cbn [parse_sum_elems] in E; [congruence|].
  pose proof (Hc _ ltac:(left)) as Ec. cbn [te_tuple te_cond te_cid] in *. subst cond. destruct tup as [|t [|]]; try discriminate.
  apply bind_ok in E as (x & Ex & E). apply bind_ok in E as ([[aux1 iqs1] x1] & E1 & E). injection E1 as <- <- <-.
  apply bind_ok in E as ([[aux2 iqs2] y] & E2 & E). injection E as <- <- <-. eapply IH; [|exact E2]. intros e He. apply Hc. right. auto.
Qed.
Lemma atom_noaux m bk a st st' : unconditional a -> parse_atom bk m a st = Ok st' -> ps_aux st' = ps_aux st.
Proof.
  destruct a as [tm es gd lit]. intros Hc E. unfold unconditional in Hc. unfold parse_atom in E. cbn [ta_term ta_elems ta_guard ta_lit] in *.
  destruct (match0 tm "dom"); [|destruct (match0 tm "diff"); [|destruct (match0 tm "sum"); [|destruct (match0 tm "minimize" || match0 tm "maximize")]]].
  - destruct es as [|e [|]]; try discriminate. destruct gd as [[r g]|]; [|discriminate]. destruct e as [tup cond cid]. cbn [te_tuple te_cond] in E.
    destruct tup as [|t [|t2 tr2]]; try discriminate; [|destruct t as [|?|n [|l [|u [|? ?]]]|?|?|?]; discriminate]. destruct t as [|?|n [|l [|u [|? ?]]]|?|?|?]; try discriminate.
    destruct cond; [|discriminate]. destruct (String.eqb n ".."); [|discriminate].
    apply bind_ok in E as (x & Ex & E). apply bind_ok in E as (hi & Eh & E). apply bind_ok in E as (lo & El & E). injection E as <-. auto.
  - destruct gd as [[r g]|]; [|discriminate]. destruct es as [|e [|]]; try discriminate. destruct e as [tup cond cid]. cbn [te_tuple te_cond] in E.
    destruct tup as [|t [|]]; try discriminate. destruct cond; [|discriminate].
    apply bind_ok in E as (x & Ex & E). apply bind_ok in E as (y & Ey & E). destruct (simplify (x ++ neg_terms y)) as [lhs rhs] eqn:Es.
    apply bind_ok in E as (R & ER & E). injection E as <-. auto.
  - destruct gd as [[r g]|]; [|discriminate]. apply bind_ok in E as ([[aux iqs] x] & Ex & E). apply bind_ok in E as (y & Ey & E).
    destruct (simplify (x ++ neg_terms y)) as [lhs rhs] eqn:Es. apply bind_ok in E as (R & ER & E). injection E as <-. eapply sum_elems_noaux; eauto.
  - apply bind_ok in E as ([[aux iqs] x] & Ex & E). injection E as <-. eapply sum_elems_noaux; eauto.
  - congruence.
Qed.
Lemma loaded_noaux m bk l st : loaded m bk l st -> (forall a, a ∈ l -> unconditional a) -> ps_aux st = [].
Proof.
  induction 1 as [|l st l' st' _ IH E]; intros Hc; auto. unfold evaluate_theory in E. apply bind_ok in E as (st1 & E1 & E). destruct (simplify _) as [obj rhs].
  destruct (decide _); [|discriminate]. injection E as <-. cbn. rewrite <- IH by (intros; apply Hc; apply elem_of_app; auto).
  assert (Hc' : forall a, a ∈ l' -> unconditional a) by (intros; apply Hc; apply elem_of_app; auto). clear - E1 Hc'. revert st E1.
  induction l' as [|a l' IH]; intros st E1; cbn in E1; [congruence|]. apply bind_ok in E1 as (st2 & E2 & E1).
  rewrite (IH ltac:(intros; apply Hc'; right; auto) st2 E1). eapply atom_noaux; eauto. apply Hc'. left.
Qed.
Theorem C17_programs m bk l st : loaded m bk l st -> (forall a, a ∈ l -> clean_atom a /\ plain_difference a /\ unconditional a) ->
  forall tr A, consistent m tr ->
  ((forall q, q ∈ ps_iqs st -> tr (q_lit q) = true -> holds A q) <->
   (forall a, a ∈ l -> is_constraint a -> tr (m (ta_lit a)) = true -> atom_true A (tru m tr) a)) /\
  objective_means A (tru m tr) l (lin A (ps_obj st)).
Proof.
  intros Hl Ha tr A Ht. destruct (loaded_spec m bk l st Hl ltac:(intros; apply Ha; auto)) as [L1 _ _ _ L5 L6 _].
  assert (Hd : auxdef m A tr (ps_aux st)). { rewrite (loaded_noaux m bk l st Hl) by (intros; apply Ha; auto). intros x c a Hx. inversion Hx. }
  assert (Hh : forall a, a ∈ l -> homogeneous_conditions a). { intros a Hin e t He Hc. destruct Hc. apply (Ha a Hin). auto. }
  split; [apply L5; auto|apply L6; auto].
  - intros a Hin. split; [right; auto|]. apply Ha. auto.
  - intros a Hin. right. auto.
Qed.

(** ** C22 *)
(** the objective has the value of the objective statements in every solution *)
Theorem C22_objective_partial m bk l st : loaded m bk l st -> (forall a, a ∈ l -> clean_atom a /\ homogeneous_conditions a) ->
  forall tr B, consistent m tr -> (forall q, q ∈ ps_iqs st -> tr (q_lit q) = true -> holds B q) ->
  objective_means B (tru m tr) l (lin B (ps_obj st)).
Proof.
  intros Hl Ha tr B Ht Hq. destruct (loaded_spec m bk l st Hl ltac:(intros; apply Ha; auto)) as [L1 _ _ _ _ L6 _].
  apply L6; [eapply sat_auxdef; eauto|]. intros a Hin. right. apply Ha. auto.
Qed.
Lemma objective_fun A tr l x y : objective_means A tr l x -> objective_means A tr l y -> x = y.
Proof.
  intros Hx. revert y. induction Hx as [|a l x y M S _ IH|a l x y M S _ IH|a l y M1 M2 _ IH]; intros z Hz; inversion Hz as [|a0 l0 x0 y0 N T O|a0 l0 x0 y0 N T O|a0 l0 y0 N1 N2 O]; subst; try congruence; auto.
  - rewrite (IH _ O). f_equal. eapply (sum_means_fun (fun z => z) Flint); eauto.
  - apply called_match in N. pose proof (called_fun _ _ _ M N). discriminate.
  - apply called_match in N. pose proof (called_fun _ _ _ M N). discriminate.
  - rewrite (IH _ O). f_equal. f_equal. eapply (sum_means_fun (fun z => z) Flint); eauto.
Qed.
(** constants: rejected exactly if the objective of the new statements is not
    zero where all variables are *)
Theorem C22_constants_rejected_partial m bk l st l' st1 tr : loaded m bk l st -> (forall a, a ∈ l ++ l' -> clean_atom a /\ homogeneous_conditions a) ->
  parse_atoms bk m l' st = Ok st1 ->
  (objective_means (fun _ => 0%Qc) (tru m tr) l' 0%Qc -> exists st', evaluate_theory bk m l' st = Ok st') /\
  (~ objective_means (fun _ => 0%Qc) (tru m tr) l' 0%Qc -> evaluate_theory bk m l' st = Exn).
Proof.
  intros Hl Ha E. destruct (loaded_spec m bk l st Hl ltac:(intros; apply Ha; apply elem_of_app; auto)) as [L1 _ _ _ _ _ L7].
  destruct (atoms_spec m bk l' st st1 E ltac:(intros; apply Ha; apply elem_of_app; auto) L1) as (new & ox & [_ _ _ _ _ _ G7 G8 _ _]).
  unfold evaluate_theory. rewrite E. cbn. destruct (simplify (ps_obj st1)) as [obj rhs] eqn:Es. destruct (simplify_spec _ _ _ Es) as (_ & _ & V).
  set (Z := fun _ : symbol => 0%Qc) in *. assert (Hz : forall ts : terms, lin Z ts = 0%Qc). { induction ts as [|[c x] ts IH]; cbn; auto. rewrite IH. unfold Z. ring. }
  assert (Hv : objective_means Z (tru m tr) l' (lin (with_unit Z) ox)).
  { apply G8; [intros x c a _; unfold Z; destruct (tr (m c)); auto|]. intros a Hin. right. apply Ha. apply elem_of_app; auto. }
  assert (Hr : rhs = (- lin (with_unit Z) ox)%Qc).
  { specialize (V Z). rewrite Hz, G7, lin_app in V. rewrite (lin_ext (with_unit Z) Z (ps_obj st)) in V.
    - rewrite Hz in V. transitivity (rhs + (0 + lin (with_unit Z) ox) - lin (with_unit Z) ox)%Qc; [ring|]. rewrite <- V. ring.
    - intros c s Hs. unfold with_unit. rewrite decide_False; auto. eauto. }
  destruct (decide (rhs = 0%Qc)) as [E0|E0].
  - split; [eauto|]. intros Hn. destruct Hn. assert (E1 : lin (with_unit Z) ox = 0%Qc). { rewrite <- (Qcopp_involutive (lin _ ox)), <- Hr, E0. ring. } rewrite E1 in Hv. auto.
  - split; auto. intros Ho. destruct E0. assert (E1 : lin (with_unit Z) ox = 0%Qc) by (eapply objective_fun; eauto).
    rewrite Hr, E1. ring.
Qed.

(** ** C19, C20 *)
Lemma numeric_units bk t q ts : clean t -> numeric true t q -> parse_sum_elem bk t = Ok ts -> erase ts = [] /\ units ts = q.
Proof.
  intros Hc Hn E. assert (P := psum_sound bk t ts Hc E). destruct (numeric_linear _ _ _ Hn) as [Hf _]. apply (pa_inv _ _ P) in Hf.
  destruct (erase_units ts Hf) as [E1 E2]. split; auto. rewrite (E2 (fun _ => 0%Qc)). eapply (means_fun bk); [apply (pa_value _ _ P)|]. apply (numeric_means _ true). auto.
Qed.

(** C19: the constraints of &dom {l..u} = x are those of &sum {x} <= u and
    &sum {x} >= l.  Missing: guards of the form -f(...), see C19_refuted. *)
Theorem C19_dom_is_two_sums_partial m bk l u g s r cid cid' lit st st' :
  let dom := TAtom (TSym "dom") [TElem [TFun ".." [l; u]] [] cid] (Some (r, g)) lit in
  let le := TAtom (TSym "sum") [TElem [g] [] cid'] (Some ("<="%string, u)) lit in
  let ge := TAtom (TSym "sum") [TElem [g] [] cid'] (Some (">="%string, l)) lit in
  clean_atom dom -> variable g s -> parse_atom bk m dom st = Ok st' -> parse_atoms bk m [le; ge] st = Ok st'.
Proof.
  cbv zeta. intros [Ce Cg] Hv E. assert (Cg' : clean g) by (eapply Cg; reflexivity).
  specialize (Ce (TElem [TFun ".." [l; u]] [] cid) (TFun ".." [l; u]) ltac:(left) ltac:(left)). rewrite clean_fun, !Forall_cons in Ce. destruct Ce as (Cl & Cu & _).
  change (parse_atom bk m _ st) with (x ← evaluate_var bk g; hi ← evaluate_num bk u; lo ← evaluate_num bk l;
     Ok (PState (ps_aux st) (ps_iqs st ++ [Ineq [(1%Qc, x)] hi Rle (m lit); Ineq [(1%Qc, x)] lo Rge (m lit)]) (ps_obj st))) in E.
  apply bind_ok in E as (x & Ex & E). apply bind_ok in E as (hi & Eh & E). apply bind_ok in E as (lo & El & E). injection E as <-.
  apply evaluate_var_spec in Ex; auto. apply evaluate_num_spec in Eh. apply evaluate_num_spec in El.
  assert (x = s) as -> by (eapply (names_fun bk); [exact Ex|apply Hv]).
  assert (K : forall t q R rn, clean t -> numeric true t q -> evaluate_cmp rn = Ok R -> forall st0,
    parse_atom bk m (TAtom (TSym "sum") [TElem [g] [] cid'] (Some (rn, t)) lit) st0 = Ok (PState (ps_aux st0) (ps_iqs st0 ++ [Ineq [(1%Qc, s)] q R (m lit)]) (ps_obj st0))).
  { intros t q R rn Ct Hn ER st0. destruct (psum_complete bk t) as (ts & Et); auto; [apply (numeric_linear true t q); auto|].
    change (parse_atom bk m _ st0) with ('(aux, iqs, x) ← (x ← parse_sum_elem bk g; '(aux1, iqs1, x') ← Ok (ps_aux st0, ps_iqs st0, x); '(aux2, iqs2, y) ← Ok (aux1, iqs1, []); Ok (aux2, iqs2, x' ++ y));
      y ← parse_sum_elem bk t; let '(lhs, rhs) := simplify (x ++ neg_terms y) in rel ← evaluate_cmp rn; Ok (PState aux (iqs ++ [Ineq lhs rhs rel (m lit)]) (ps_obj st0))).
    rewrite (variable_parse bk g s Hv). cbn [mbind res_bind app]. rewrite Et. cbn [mbind res_bind].
    destruct (numeric_units bk t q ts Ct Hn Et) as [U1 U2]. assert (Us : user s) by (apply (names_user g); auto).
    rewrite (simplify_eq _ [(1%Qc, s); ((- q)%Qc, SNum 0)]).
    - unfold simplify. cbn [combine fst snd is_invalid]. assert (is_invalid s = false) as -> by (apply is_invalid_false, user_not_unit; auto). cbn [add_to app combine snd fst].
      change (0 =? 0)%Z with true. cbn iota. rewrite !filter_cons. cbn [fst]. destruct (decide (1%Qc <> 0%Qc)) as [|Hn1]; [|destruct Hn1; discriminate]. destruct (decide (0%Qc <> 0%Qc)); [contradiction|].
      rewrite filter_nil, ER. cbn. replace (0 - - q)%Qc with q by ring. auto.
    - change ((1%Qc, s) :: neg_terms ts) with ([(1%Qc, s)] ++ neg_terms ts). rewrite erase_app, erase_neg, U1. change [(1%Qc, s); ((- q)%Qc, SNum 0)] with ([(1%Qc, s)] ++ [((- q)%Qc, SNum 0)]). rewrite erase_app, !erase_one. cbn [snd]. rewrite (decide_True (P := SNum 0 = SNum 0)) by auto. reflexivity.
    - cbn [units snd fst]. rewrite units_neg, U2. rewrite (decide_True (P := SNum 0 = SNum 0)) by auto. ring. }
  cbn [parse_atoms]. rewrite (K u hi Rle "<="%string Cu Eh eq_refl). cbn [mbind res_bind]. rewrite (K l lo Rge ">="%string Cl El eq_refl). cbn. rewrite <- app_assoc. auto.
Qed.

Example C19_guard_hypothesis : variable (TFun "x" [TNum 1]) (SFun "x" [SNum 1] true).
Proof.
  split; [|split; [intros (n & s & q & E & _); discriminate|split; intros (a & E); discriminate]].
  apply na_fun; [intros [[E _]|[_ E]]; discriminate|]. apply (na_num _ 1); [apply nu_num|lia|apply na_nil].
Qed.

(** C20: &diff {s-t} rel g is &sum {s-t} rel g.  Missing: operands of the form
    -f(...), see C20_refuted. *)
Theorem C20_diff_is_sum_partial m bk s t g r cid lit st st' :
  let diff := TAtom (TSym "diff") [TElem [TFun "-" [s; t]] [] cid] (Some (r, g)) lit in
  let sum := TAtom (TSym "sum") [TElem [TFun "-" [s; t]] [] cid] (Some (r, g)) lit in
  clean_atom diff -> plain_operand s -> plain_operand t -> parse_atom bk m diff st = Ok st' -> parse_atom bk m sum st = Ok st'.
Proof.
  cbv zeta. intros [Ce Cg] Ps Pt E.
  specialize (Ce (TElem [TFun "-" [s; t]] [] cid) (TFun "-" [s; t]) ltac:(left) ltac:(left)). rewrite clean_fun, !Forall_cons in Ce. destruct Ce as (Cs & Ct & _).
  change (parse_atom bk m _ st) with (x ← (x ← evaluate bk true s; y ← evaluate bk true t; Ok [diff_term 1%Qc x; diff_term (-(1))%Qc y]); y ← parse_sum_elem bk g;
    let '(lhs, rhs) := simplify (x ++ neg_terms y) in rel ← evaluate_cmp r; Ok (PState (ps_aux st) (ps_iqs st ++ [Ineq lhs rhs rel (m lit)]) (ps_obj st))) in E.
  apply bind_ok in E as (x & Ex & E). apply bind_ok in Ex as (u & Eu & Ex). apply bind_ok in Ex as (v & Ev & Ex). injection Ex as <-. apply bind_ok in E as (y & Ey & E).
  assert (K : forall k a b, clean a -> plain_operand a -> evaluate bk true a = Ok b -> exists ts, parse_sum_elem bk a = Ok ts /\ erase [diff_term k b] = erase (map (fun t => (k * t.1, t.2)%Qc) ts) /\ units [diff_term k b] = (k * units ts)%Qc).
  { intros k a [q|z] Ca Pa Ea.
    - apply evaluate_numeric in Ea. destruct (psum_complete bk a) as (ts & Et); auto; [apply (numeric_linear true a q); auto|]. exists ts. split; auto.
      destruct (numeric_units bk a q ts Ca Ea Et) as [U1 U2]. rewrite U2. split; [|cbn [units diff_term fst snd]; rewrite decide_True by reflexivity; ring].
      rewrite erase_one. cbn [diff_term snd]. rewrite decide_True by reflexivity. clear - U1. induction ts as [|t ts IH]; auto. cbn [map]. change (?a :: ?b) with ([a] ++ b). change (t :: ts) with ([t] ++ ts) in U1. rewrite erase_app, erase_one in U1. rewrite erase_app, erase_one. cbn [snd].
      destruct (decide (t.2 = SNum 0)); [|discriminate]. apply IH. auto.
    - destruct (evaluate_names _ _ _ _ Ca Ea) as [Hn Hd]. assert (Hv : variable a z).
      { destruct Pa as [(q & Hq)|[H1 H2]]; [apply (numeric_evaluate bk) in Hq; congruence|]. split; auto. }
      exists [(1%Qc, z)]. split; [apply variable_parse; auto|]. assert (Us : z <> SNum 0) by (apply user_not_unit, (names_user a); auto).
      cbn [diff_term map fst snd units]. rewrite !decide_False by auto. split; [|ring]. rewrite !erase_one. cbn [snd]. rewrite !decide_False by auto. f_equal. f_equal. ring. }
  destruct (K 1%Qc s u Cs Ps Eu) as (xs & Es & K1 & K2). destruct (K (-(1))%Qc t v Ct Pt Ev) as (xt & Et & K3 & K4).
  change (parse_atom bk m _ st) with ('(aux, iqs, x) ← (x ← (x ← parse_sum_elem bk s; y ← parse_sum_elem bk t; Ok (x ++ neg_terms y)); '(aux1, iqs1, x') ← Ok (ps_aux st, ps_iqs st, x); '(aux2, iqs2, y) ← Ok (aux1, iqs1, []); Ok (aux2, iqs2, x' ++ y));
      y ← parse_sum_elem bk g; let '(lhs, rhs) := simplify (x ++ neg_terms y) in rel ← evaluate_cmp r; Ok (PState aux (iqs ++ [Ineq lhs rhs rel (m lit)]) (ps_obj st))).
  rewrite Es. cbn [mbind res_bind]. rewrite Et. cbn [mbind res_bind]. rewrite app_nil_r, Ey. cbn [mbind res_bind].
  rewrite (simplify_eq ((xs ++ neg_terms xt) ++ neg_terms y) ([diff_term 1%Qc u; diff_term (-(1))%Qc v] ++ neg_terms y)); [exact E|..].
  - change [diff_term 1%Qc u; diff_term (-(1))%Qc v] with ([diff_term 1%Qc u] ++ [diff_term (-(1))%Qc v]). rewrite !erase_app, K1, K3. apply f_equal2; [|auto]. apply f_equal2.
    + clear. induction xs as [|[c z] xs IH]; auto. cbn [map fst snd]. change (?a :: ?b) with ([a] ++ b). rewrite !erase_app, IH, !erase_one. cbn [snd]. destruct (decide _); auto. f_equal. f_equal. f_equal. ring.
    + reflexivity.
  - change [diff_term 1%Qc u; diff_term (-(1))%Qc v] with ([diff_term 1%Qc u] ++ [diff_term (-(1))%Qc v]). rewrite !units_app, K2, K4, units_neg. ring.
Qed.

(** ** C39 *)
Lemma theory_fine m bk l st : (forall a, a ∈ l -> clean_atom a /\ (bk = Flint -> zero_free_atom a)) -> fine (evaluate_theory bk m l st).
Proof. intros Hl. unfold evaluate_theory. apply fine_bind; [apply atoms_fine; auto|]. intros st1 _. destruct (simplify _). destruct (decide _); exact I. Qed.
Lemma atoms_wf m bk l : forall st st', aux_ok m (ps_aux st) (ps_iqs st) -> (forall a, a ∈ l -> clean_atom a) -> parse_atoms bk m l st = Ok st' -> forall a, a ∈ l -> well_formed a.
Proof.
  induction l as [|b l IH]; intros st st' Ha Hc E a Hin; [inversion Hin|]. cbn [parse_atoms] in E. apply bind_ok in E as (st1 & E1 & E2).
  destruct (atom_spec m bk b st st1 E1 (Hc b ltac:(left)) Ha) as (auxq & conq & ox & D).
  apply elem_of_cons in Hin as [->|Hin]; [eapply atom_wf; eauto; apply Hc; left|].
  eapply (IH st1 st'); eauto; [apply (ad_ok _ _ _ _ _ _ _ D)|]. intros; apply Hc; right; auto.
Qed.
(** evaluation ends normally or with an exception, and with an exception if
    some atom does not follow the documented syntax *)
Theorem C39_no_crash_imath m l st : (forall a, a ∈ l -> clean_atom a) -> (exists st', evaluate_theory Imath m l st = Ok st') \/ evaluate_theory Imath m l st = Exn.
Proof.
  intros Hl. assert (Hf : fine (evaluate_theory Imath m l st)) by (apply theory_fine; intros; split; auto; discriminate).
  destruct (evaluate_theory Imath m l st); cbn in Hf; try contradiction; eauto.
Qed.
(** with FLINT no division by zero may occur, see C39_refuted *)
Theorem C39_no_crash_flint_partial m l st : (forall a, a ∈ l -> clean_atom a /\ zero_free_atom a) -> (exists st', evaluate_theory Flint m l st = Ok st') \/ evaluate_theory Flint m l st = Exn.
Proof.
  intros Hl. assert (Hf : fine (evaluate_theory Flint m l st)) by (apply theory_fine; intros a Ha; split; [|intros _]; apply Hl; auto).
  destruct (evaluate_theory Flint m l st); cbn in Hf; try contradiction; eauto.
Qed.
Theorem C39_malformed_rejected_partial m bk l0 st l a : loaded m bk l0 st -> (forall a, a ∈ l0 ++ l -> clean_atom a) -> (bk = Flint -> forall a, a ∈ l -> zero_free_atom a) ->
  a ∈ l -> ~ well_formed a -> evaluate_theory bk m l st = Exn.
Proof.
  intros Hl Hc Hz Hin Hw. assert (Hf : fine (evaluate_theory bk m l st)) by (apply theory_fine; intros b Hb; split; [apply Hc, elem_of_app; auto|intros E; apply Hz; auto]).
  destruct (evaluate_theory bk m l st) as [st'| | |] eqn:E; cbn in Hf; try contradiction; auto. destruct Hw.
  unfold evaluate_theory in E. apply bind_ok in E as (st1 & E1 & _). eapply atoms_wf; [| |exact E1|exact Hin].
  - apply (lo_ok _ _ _ (loaded_spec m bk l0 st Hl ltac:(intros; apply Hc, elem_of_app; auto))).
  - intros; apply Hc, elem_of_app; auto.
Qed.
(** atoms that follow the syntax are accepted, unless the auxiliary variables
    exceed the numbers clingo can represent *)
Theorem C39_well_formed_accepted m bk a st : clean_atom a -> well_formed a ->
  (Z.of_nat (length (ps_aux st) + conditional_summands (ta_elems a)) <= 2147483647)%Z -> exists st', parse_atom bk m a st = Ok st'.
Proof. apply atom_ok. Qed.

(** ** Counterexamples *)
Definition shift_mapper (c : Z) : Z := (Z.abs c + 1)%Z.
Definition all_true (l : Z) : bool := (0 <? l)%Z.
Lemma all_true_consistent : consistent shift_mapper all_true.
Proof. intros c. unfold all_true, shift_mapper. destruct (Z.ltb_spec 0 (- (Z.abs c + 1))), (Z.ltb_spec 0 (Z.abs c + 1)); auto; lia. Qed.
Lemma plain_name n : is_string n = false -> names (TSym n) (SFun n [] true).
Proof. intros E. apply na_con. apply is_string_false. auto. Qed.
Lemma plain_variable n : is_string n = false -> variable (TSym n) (SFun n [] true).
Proof.
  intros E. split; [apply plain_name; auto|]. split; [|split; intros (? & ?); discriminate].
  intros (n' & s & q & [= <-] & Hq & _). rewrite is_string_false in E. exact (E s Hq).
Qed.
Lemma clean_name n : is_string n = false -> clean (TSym n).
Proof. intros E s Hq. rewrite is_string_false in E. destruct (E s Hq). Qed.

(** C39: &dom { 0..(1/0) } = x aborts the program *)
Theorem C39_refuted : exists l, (forall a, a ∈ l -> clean_atom a) /\ forall m st, evaluate_theory Flint m l st = UB.
Proof.
  exists [TAtom (TSym "dom") [TElem [TFun ".." [TNum 0; TFun "/" [TNum 1; TNum 0]]] [] 0%Z] (Some ("="%string, TSym "x")) 1%Z]. split.
  - intros a Ha. apply elem_of_list_singleton in Ha as ->. split; cbn.
    + intros e t He Ht. apply elem_of_list_singleton in He as ->. cbn in Ht. apply elem_of_list_singleton in Ht as ->. cbn. auto.
    + intros r g [= _ <-]. apply clean_name. reflexivity.
  - intros m st. reflexivity.
Qed.

(** C21: &sum { 5 : c; x } <= 3 with c true has the "solution" x = 10, since
    the constant 5 is multiplied by a free variable *)
Theorem C21_refuted bk : exists l st a B, loaded shift_mapper bk l st /\ (forall a, a ∈ l -> clean_atom a) /\
  (forall q, q ∈ ps_iqs st -> all_true (q_lit q) = true -> holds B q) /\
  a ∈ l /\ is_constraint a /\ all_true (shift_mapper (ta_lit a)) = true /\ ~ atom_true B (tru shift_mapper all_true) a.
Proof.
  set (a := TAtom (TSym "sum") [TElem [TNum 5] [2%Z] 2%Z; TElem [TSym "x"] [] 0%Z] (Some ("<="%string, TNum 3)) 1%Z).
  set (B := fun s => match s with SNum _ => qofz (-10) | _ => qofz 10 end).
  exists [a]. eexists _, a, B. split; [apply (ld_next _ _ [] _ [a] _ (ld_new _ _)); reflexivity|]. split; [|split; [|split; [left|split; [left; left; reflexivity|split; [reflexivity|]]]]].
  - intros b Hb. apply elem_of_list_singleton in Hb as ->. split; cbn.
    + intros e t He Ht. apply elem_of_cons in He as [->|He]; [|apply elem_of_list_singleton in He as ->]; cbn in Ht; apply elem_of_list_singleton in Ht as ->; [exact I|apply clean_name; reflexivity].
    + intros r g [= _ <-]. exact I.
  - intros q Hq. cbn in Hq. apply elem_of_cons in Hq as [->|Hq]; [discriminate|]. apply elem_of_cons in Hq as [->|Hq]; [intros _; vm_compute; reflexivity|].
    apply elem_of_list_singleton in Hq as ->. intros _. unfold holds, relq. cbn [q_rel q_lhs q_rhs]. vm_compute. discriminate.
  - intros Ht. inversion Ht as [a0 r0 g0 R0 x0 y0 M0 G0 N0 E0 L0 H1|a0 r0 g0 R0 s0 t0 cid0 x0 y0 z0 M0|a0 r0 g0 v0 l0 u0 cid0 x0 y0 M0]; subst a0; try (destruct M0; discriminate); cbn in *; try discriminate.
    injection G0 as <- <-. inversion N0; subst R0.
    assert (Hm : sum_means B (tru shift_mapper all_true) (ta_elems a) (qofz 5 + (qofz 10 + 0))%Qc).
    { apply su_in; [right; reflexivity|apply me_num|]. apply su_in; [left; auto| |apply su_nil]. exact (me_var B _ _ (plain_variable "x" eq_refl)). }
    rewrite (sum_means_fun shift_mapper bk _ _ _ _ _ E0 Hm) in H1. rewrite (means_fun bk _ _ _ _ L0 (me_num B 3)) in H1. cbn in H1. vm_compute in H1. apply H1. reflexivity.
Qed.

(** C20: &diff { a-(-b) } <= 0 constrains a variable "-b" *)
Theorem C20_refuted m bk : exists s t g r st1 st2 A,
  let diff := TAtom (TSym "diff") [TElem [TFun "-" [s; t]] [] 0%Z] (Some (r, g)) 1%Z in
  let sum := TAtom (TSym "sum") [TElem [TFun "-" [s; t]] [] 0%Z] (Some (r, g)) 1%Z in
  clean_atom diff /\ parse_atom bk m diff new_pstate = Ok st1 /\ parse_atom bk m sum new_pstate = Ok st2 /\
  (forall q, q ∈ ps_iqs st1 -> holds A q) /\ ~ (forall q, q ∈ ps_iqs st2 -> holds A q).
Proof.
  set (A := fun s => match s with SFun _ _ false => qofz 5 | _ => qofz 1 end).
  eexists (TSym "a"), (TFun "-" [TSym "b"]), (TNum 0), "<="%string, _, _, A. cbv zeta. split; [|split; [reflexivity|split; [reflexivity|split]]].
  - split; cbn.
    + intros e t He Ht. apply elem_of_list_singleton in He as ->. cbn in Ht. apply elem_of_list_singleton in Ht as ->. cbn. split; [apply clean_name; reflexivity|]. split; auto. split; auto. apply clean_name. reflexivity.
    + intros r g [= _ <-]. exact I.
  - intros q Hq. cbn in Hq. apply elem_of_list_singleton in Hq as ->. unfold holds, relq. cbn [q_rel q_lhs q_rhs]. vm_compute. discriminate.
  - intros Hq. assert (Hh := Hq _ ltac:(cbn; left)). unfold holds, relq in Hh. cbn [q_rel q_lhs q_rhs] in Hh. vm_compute in Hh. apply Hh. reflexivity.
Qed.
(** C19: &dom { 1..3 } = -x constrains a variable "-x", &sum { -x } the negated value of x *)
Theorem C19_refuted m bk : exists g st1 st2 A,
  let dom := TAtom (TSym "dom") [TElem [TFun ".." [TNum 1; TNum 3]] [] 0%Z] (Some ("="%string, g)) 1%Z in
  let le := TAtom (TSym "sum") [TElem [g] [] 0%Z] (Some ("<="%string, TNum 3)) 1%Z in
  let ge := TAtom (TSym "sum") [TElem [g] [] 0%Z] (Some (">="%string, TNum 1)) 1%Z in
  clean_atom dom /\ parse_atom bk m dom new_pstate = Ok st1 /\ parse_atoms bk m [le; ge] new_pstate = Ok st2 /\
  (forall q, q ∈ ps_iqs st1 -> holds A q) /\ ~ (forall q, q ∈ ps_iqs st2 -> holds A q).
Proof.
  set (A := fun s => match s with SFun _ _ false => qofz 2 | _ => qofz 7 end).
  eexists (TFun "-" [TSym "x"]), _, _, A. cbv zeta. split; [|split; [reflexivity|split; [reflexivity|split]]].
  - split; cbn.
    + intros e t He Ht. apply elem_of_list_singleton in He as ->. cbn in Ht. apply elem_of_list_singleton in Ht as ->. cbn. auto.
    + intros r g [= _ <-]. cbn. split; auto. apply clean_name. reflexivity.
  - intros q Hq. cbn in Hq. apply elem_of_cons in Hq as [->|Hq]; [|apply elem_of_list_singleton in Hq as ->]; unfold holds, relq; cbn [q_rel q_lhs q_rhs]; vm_compute; discriminate.
  - intros Hq. assert (Hh := Hq _ ltac:(cbn; right; left)). unfold holds, relq in Hh. cbn [q_rel q_lhs q_rhs] in Hh. vm_compute in Hh. apply Hh. reflexivity.
Qed.

(** C22: &maximize { 5 : c; x } is accepted although its constant part does
    not vanish where c holds, and the objective then takes any value *)
Theorem C22_refuted bk : exists l st B, loaded shift_mapper bk l st /\ (forall a, a ∈ l -> clean_atom a) /\
  objective_means (fun _ => 0%Qc) (tru shift_mapper all_true) l (qofz 5) /\
  (forall q, q ∈ ps_iqs st -> all_true (q_lit q) = true -> holds B q) /\
  ~ objective_means B (tru shift_mapper all_true) l (lin B (ps_obj st)).
Proof.
  set (a := TAtom (TSym "maximize") [TElem [TNum 5] [2%Z] 2%Z; TElem [TSym "x"] [] 0%Z] None 1%Z).
  set (B := fun s => match s with SNum _ => qofz (-10) | _ => qofz 10 end).
  assert (K : forall A, objective_means A (tru shift_mapper all_true) [a] (qofz 5 + (A (SFun "x" [] true) + 0) + 0)%Qc).
  { intros A. apply ob_max; [left; reflexivity| |apply ob_nil]. apply su_in; [right; reflexivity|apply me_num|]. apply su_in; [left; auto| |apply su_nil]. exact (me_var A _ _ (plain_variable "x" eq_refl)). }
  exists [a]. eexists _, B. split; [apply (ld_next _ _ [] _ [a] _ (ld_new _ _)); reflexivity|]. split; [|split; [|split]].
  - intros b Hb. apply elem_of_list_singleton in Hb as ->. split; cbn.
    + intros e t He Ht. apply elem_of_cons in He as [->|He]; [|apply elem_of_list_singleton in He as ->]; cbn in Ht; apply elem_of_list_singleton in Ht as ->; [exact I|apply clean_name; reflexivity].
    + intros r g E. discriminate E.
  - pose proof (K (fun _ => 0%Qc)) as X. replace (qofz 5) with (qofz 5 + (0 + 0) + 0)%Qc by ring. exact X.
  - intros q Hq. cbn in Hq. apply elem_of_cons in Hq as [->|Hq]; [discriminate|]. apply elem_of_list_singleton in Hq as ->. intros _. vm_compute. reflexivity.
  - intros Ho. pose proof (objective_fun _ _ _ _ _ Ho (K B)) as X. revert X. vm_compute. discriminate.
Qed.
