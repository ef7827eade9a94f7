(** * Proofs about sums and normalization (Parsing.v against ParseSpec.v) *)

From Verif Require Import Num Solver Spec Parsing ParseSpec ParseNum ParseProofs.

Notation terms := (list (Qc * symbol)).
Definition inv_ (t : Qc * symbol) : Prop := t.2 = SNum 0.

Lemma is_invalid_spec x : is_invalid x = true <-> x = SNum 0.
Proof. destruct x as [z| |]; cbn; try (split; discriminate). rewrite Z.eqb_eq. split; congruence. Qed.
Lemma is_invalid_false x : is_invalid x = false <-> x <> SNum 0.
Proof. rewrite <- is_invalid_spec. destruct (is_invalid x); split; congruence. Qed.
Lemma user_not_unit x : user x -> x <> SNum 0.
Proof. destruct x; cbn; [contradiction|discriminate..]. Qed.
Lemma with_unit_user A x : user x -> with_unit A x = A x.
Proof. intros Hx. unfold with_unit. rewrite decide_False; auto. apply user_not_unit; auto. Qed.
Lemma with_unit_0 A : with_unit A (SNum 0) = 1%Qc.
Proof. unfold with_unit. rewrite decide_True; auto. Qed.

(** ** values of lists of terms *)
Section lin.
  Context {Sym : Type}.
  Implicit Types A : Sym -> Qc.
  Lemma lin_app A x y : lin A (x ++ y) = (lin A x + lin A y)%Qc.
  Proof. induction x as [|[c s] x IH]; cbn; [ring|]. rewrite IH. ring. Qed.
  Lemma lin_ext A B ts : (forall c x, (c, x) ∈ ts -> A x = B x) -> lin A ts = lin B ts.
  Proof. induction ts as [|[c s] ts IH]; cbn; auto. intros E. rewrite (E c s), IH; auto; [intros c' x' Hx; apply (E c'); right; auto|left]. Qed.
End lin.
Lemma lin_neg (A : symbol -> Qc) ts : lin A (neg_terms ts) = (- lin A ts)%Qc.
Proof. unfold neg_terms. induction ts as [|[c s] ts IH]; cbn; [ring|]. rewrite IH. ring. Qed.
Lemma lin_div (A : symbol -> Qc) ts q : q <> 0%Qc -> lin A (map (fun t => (t.1 / q, t.2)%Qc) ts) = (lin A ts / q)%Qc.
Proof. intros Hq. induction ts as [|[c s] ts IH]; cbn; [field; auto|]. rewrite IH. field. auto. Qed.

(** ** products *)
Lemma mul_row_spec l rhs z : mul_row l rhs = Ok z ->
  (forall r, r ∈ rhs -> inv_ l \/ inv_ r) /\ map snd z = map (fun r => if is_invalid l.2 then r.2 else l.2) rhs /\
  forall A, lin (with_unit A) z = (l.1 * with_unit A l.2 * lin (with_unit A) rhs)%Qc.
Proof.
  revert z. induction rhs as [|r rhs IH]; intros z; cbn [mul_row].
  - intros [= <-]. split; [intros r Hr; inversion Hr|]. split; auto. intros A. cbn. ring.
  - destruct (is_invalid l.2 || is_invalid r.2) eqn:E; [|discriminate]. intros E'. apply bind_ok in E' as (x & Ex & [= <-]).
    destruct (IH _ Ex) as (H1 & H2 & H3). split; [|split].
    + intros r' Hr. apply elem_of_cons in Hr as [->|Hr]; auto. apply orb_true_iff in E as [E|E]; apply is_invalid_spec in E; auto.
    + cbn. f_equal. auto.
    + intros A. destruct l as [lc lx], r as [rc rx]. cbn [lin fst snd] in *. rewrite H3.
      destruct (is_invalid lx) eqn:El.
      * apply is_invalid_spec in El as ->. rewrite with_unit_0. ring.
      * cbn in E. apply is_invalid_spec in E as ->. rewrite with_unit_0. ring.
Qed.
Lemma mul_row_ok l rhs : (forall r, r ∈ rhs -> inv_ l \/ inv_ r) -> exists z, mul_row l rhs = Ok z.
Proof.
  induction rhs as [|r rhs IH]; intros Hr; cbn [mul_row]; [eauto|].
  assert (is_invalid l.2 || is_invalid r.2 = true) as ->.
  { apply orb_true_iff. rewrite !is_invalid_spec. destruct (Hr r) as [?|?]; auto. left. }
  destruct IH as (z & ->); [intros; apply Hr; right; auto|]. cbn. eauto.
Qed.
Lemma mul_terms_spec x y z : mul_terms x y = Ok z ->
  (forall l r, l ∈ x -> r ∈ y -> inv_ l \/ inv_ r) /\
  map snd z = concat (map (fun l => map (fun r => if is_invalid l.2 then r.2 else l.2) y) x) /\
  forall A, lin (with_unit A) z = (lin (with_unit A) x * lin (with_unit A) y)%Qc.
Proof.
  revert z. induction x as [|l x IH]; intros z; cbn [mul_terms].
  - intros [= <-]. split; [intros l r Hl; inversion Hl|]. split; auto. intros A. cbn. ring.
  - intros E. apply bind_ok in E as (u & Eu & E). apply bind_ok in E as (v & Ev & [= <-]).
    destruct (IH _ Ev) as (H1 & H2 & H3). destruct (mul_row_spec _ _ _ Eu) as (R1 & R2 & R3). split; [|split].
    + intros l' r Hl Hr. apply elem_of_cons in Hl as [->|Hl]; auto.
    + cbn. rewrite map_app, R2, H2. auto.
    + intros A. rewrite lin_app, R3, H3. destruct l as [c s]. cbn. ring.
Qed.
Lemma mul_terms_ok x y : (forall l r, l ∈ x -> r ∈ y -> inv_ l \/ inv_ r) -> exists z, mul_terms x y = Ok z.
Proof.
  induction x as [|l x IH]; intros Hr; cbn [mul_terms]; [eauto|].
  destruct (mul_row_ok l y) as (u & ->); [intros; apply Hr; auto; left|].
  destruct IH as (v & ->); [intros; apply Hr; auto; right; auto|]. cbn. eauto.
Qed.
Lemma mul_row_fine l rhs : fine (mul_row l rhs).
Proof. induction rhs as [|r rhs IH]; cbn [mul_row]; [exact I|]. destruct (_ || _); [|exact I]. apply fine_bind; auto. intros; exact I. Qed.
Lemma mul_terms_fine x y : fine (mul_terms x y).
Proof. induction x as [|l x IH]; cbn [mul_terms]; [exact I|]. apply fine_bind; [apply mul_row_fine|]. intros. apply fine_bind; auto. intros; exact I. Qed.

Lemma all_or (x y : terms) : (forall l r, l ∈ x -> r ∈ y -> inv_ l \/ inv_ r) -> Forall inv_ x \/ Forall inv_ y.
Proof.
  induction x as [|l x IH]; intros Hx; [left; constructor|].
  destruct (decide (l.2 = SNum 0)) as [E|E].
  - destruct IH as [IH|IH]; [intros; apply Hx; auto; right; auto|left; constructor; auto|auto].
  - right. apply Forall_forall. intros r Hr. destruct (Hx l r) as [Hl|]; auto; [left|]. contradiction.
Qed.
Lemma mul_vars_1 x y z : y <> [] -> Forall inv_ y -> mul_terms x y = Ok z -> forall s, s ∈ map snd z <-> s ∈ map snd x.
Proof.
  intros Hn Hy E s. apply mul_terms_spec in E as (_ & -> & _). rewrite elem_of_list_In, in_concat. split.
  - intros (u & Hu & Hs). apply in_map_iff in Hu as (l & <- & Hl). apply in_map_iff in Hs as (r & Er & Hr).
    rewrite Forall_forall in Hy. specialize (Hy r (proj2 (elem_of_list_In _ _) Hr)). unfold inv_ in Hy. apply elem_of_list_In, in_map_iff.
    exists l. split; auto. destruct (is_invalid l.2) eqn:E; [apply is_invalid_spec in E; congruence|auto].
  - intros Hs. apply elem_of_list_In, in_map_iff in Hs as (l & <- & Hl). destruct y as [|r y]; [congruence|].
    exists (map (fun r => if is_invalid l.2 then r.2 else l.2) (r :: y)). split; [apply in_map_iff; eauto|].
    cbn. left. apply Forall_cons in Hy as [Hr _]. unfold inv_ in Hr. destruct (is_invalid l.2) eqn:E; [apply is_invalid_spec in E; congruence|auto].
Qed.
Lemma mul_vars_2 x y z : x <> [] -> Forall inv_ x -> mul_terms x y = Ok z -> forall s, s ∈ map snd z <-> s ∈ map snd y.
Proof.
  intros Hn Hx E s. apply mul_terms_spec in E as (_ & -> & _). rewrite elem_of_list_In, in_concat. split.
  - intros (u & Hu & Hs). apply in_map_iff in Hu as (l & <- & Hl). apply in_map_iff in Hs as (r & Er & Hr).
    rewrite Forall_forall in Hx. specialize (Hx l (proj2 (elem_of_list_In _ _) Hl)). unfold inv_ in Hx. apply elem_of_list_In, in_map_iff.
    exists r. split; auto. rewrite Hx in Er. cbn in Er. auto.
  - intros Hs. apply elem_of_list_In, in_map_iff in Hs as (r & <- & Hr). destruct x as [|l x]; [congruence|].
    exists (map (fun r => if is_invalid l.2 then r.2 else l.2) y). split; [left; auto|].
    apply in_map_iff. exists r. split; auto. apply Forall_cons in Hx as [Hl _]. unfold inv_ in Hl. rewrite Hl. auto.
Qed.
(** the variables decide everything about constants *)
Definition allin (P : symbol -> Prop) (ts : terms) : Prop := forall s, s ∈ map snd ts -> P s.
Lemma allin_app P x y : allin P (x ++ y) <-> allin P x /\ allin P y.
Proof. unfold allin. rewrite map_app. setoid_rewrite elem_of_app. naive_solver. Qed.
Lemma snd_neg ts : map snd (neg_terms ts) = map snd ts.
Proof. unfold neg_terms. rewrite map_map. auto. Qed.
Lemma snd_div (q : Qc) ts : map snd (map (fun t : Qc * symbol => (t.1 / q, t.2)%Qc) ts) = map snd ts.
Proof. rewrite map_map. auto. Qed.
Lemma allin_neg P ts : allin P (neg_terms ts) <-> allin P ts.
Proof. unfold allin. rewrite snd_neg. auto. Qed.
Lemma allin_div P q ts : allin P (map (fun t : Qc * symbol => (t.1 / q, t.2)%Qc) ts) <-> allin P ts.
Proof. unfold allin. rewrite snd_div. auto. Qed.
Lemma allin_one P c s : allin P [(c, s)] <-> P s.
Proof. unfold allin. cbn. setoid_rewrite elem_of_list_singleton. naive_solver. Qed.
Lemma allin_inv ts : allin (fun s => s = SNum 0) ts <-> Forall inv_ ts.
Proof.
  unfold allin. rewrite Forall_forall. split.
  - intros Hs t Ht. apply Hs. apply elem_of_list_fmap. eauto.
  - intros Hs s Hs'. apply elem_of_list_fmap in Hs' as (t & -> & Ht). apply Hs. auto.
Qed.

Section sum.
  Variable bk : backend.
  Notation parse := (parse_sum_elem bk).

  (** other shapes of functions are variables *)
  Lemma psum_other n args : ~ operator n (length args) -> ~ (n = "+"%string /\ length args = 1) ->
    parse (TFun n args) = (s ← evaluate_var bk (TFun n args); Ok [(1%Qc, s)]).
  Proof.
    intros Ho Hp. destruct args as [|a [|b [|c r]]]; try reflexivity.
    - cbn [parse_sum_elem]. rewrite !eqb_no; [reflexivity|..]; intros ->; [apply Hp; auto|apply Ho; right; auto].
    - cbn [parse_sum_elem]. rewrite !eqb_no; [reflexivity|..]; intros ->; apply Ho; left; naive_solver.
  Qed.
  Lemma psum_tup args : parse (TTup args) = (s ← evaluate_var bk (TTup args); Ok [(1%Qc, s)]).
  Proof. reflexivity. Qed.

  Lemma numeric_means A ns t q : numeric ns t q -> means A t q.
  Proof. induction 1; try (constructor; auto; fail). econstructor; eauto. Qed.
  Lemma numeric_mono ns t q : numeric ns t q -> numeric true t q.
  Proof. induction 1; try (constructor; auto; fail). econstructor; eauto. Qed.
  Lemma numeric_linear ns t q : numeric ns t q -> varfree t /\ linear t.
  Proof.
    induction 1 as [z|n s q E Hq Hd|a b x y _ [IHa La] _ [IHb Lb]|a b x y _ [IHa La] _ [IHb Lb]|a b x y _ [IHa La] _ [IHb Lb]|a b x y Ha [IHa La] Hb [IHb Lb] Hy|a x _ [IHa La]];
      try (split; constructor; auto; fail).
    - assert (decimal_term (TSym n)) by (exists n, s, q; auto). split; constructor; auto.
    - apply numeric_mono in Hb. split; [exact (vf_div _ _ _ IHa Hb Hy)|exact (li_div _ _ _ La Hb Hy)].
  Qed.

  Lemma variable_fun t s s' : variable t s -> variable t s' -> s = s'.
  Proof. intros [H1 _] [H2 _]. exact (names_fun bk _ _ _ H1 H2). Qed.
  Lemma variable_shape t s : variable t s -> forall n args, t = TFun n args -> ~ operator n (length args) /\ ~ (n = "+"%string /\ length args = 1).
  Proof.
    intros (Hn & _ & Hm & Hp) n args ->. split.
    - inversion Hn; subst; auto. exfalso. apply Hm. eexists; eauto.
    - intros [-> E]. apply Hp. destruct args as [|a [|]]; try discriminate. eexists; eauto.
  Qed.
  Lemma variable_parse t s : variable t s -> parse t = Ok [(1%Qc, s)].
  Proof.
    intros Hv. assert (Hn := Hv). destruct Hn as (Hn & Hd & _). assert (E := names_evaluate bk _ _ Hn false ltac:(discriminate)).
    assert (Ev : evaluate_var bk t = Ok s) by (unfold evaluate_var; rewrite E; auto).
    destruct t as [z|n|n l|l|l|l]; try discriminate.
    - cbn [parse_sum_elem]. destruct (is_string n) eqn:Es.
      + destruct (as_num n) as [q|] eqn:E'; [|rewrite Ev; auto]. exfalso. apply Hd. apply as_num_spec in E' as (s' & Hq & Hd'). exists n, s', q. auto.
      + rewrite Ev. auto.
    - destruct (variable_shape _ _ Hv n l eq_refl). rewrite psum_other, Ev; auto.
    - rewrite psum_tup, Ev. auto.
  Qed.
  Lemma decimal_parse t : decimal_term t -> exists q, parse t = Ok [(q, SNum 0)] /\ forall A, means A t q.
  Proof.
    intros (n & s & q & -> & Hq & Hd). exists q. split; [|intros; econstructor; eauto]. cbn [parse_sum_elem].
    assert (is_string n = true) as -> by (apply is_string_quoted; eauto). assert (as_num n = Some q) as -> by (apply as_num_spec; eauto). auto.
  Qed.

  (** the shapes of terms a sum accepts *)
  Record parsed (t : tterm) (ts : terms) : Prop := {
    pa_linear : linear t;
    pa_ne : ts <> [];
    pa_user : allin (fun s => s = SNum 0 \/ user s) ts;
    pa_value : forall A, means A t (lin (with_unit A) ts);
    pa_inv : Forall inv_ ts <-> varfree t;
    pa_hom : allin (fun s => s <> SNum 0) ts <-> homogeneous t;
  }.
  Lemma nonempty_inv_hom ts : ts <> [] -> Forall inv_ ts -> allin (fun s => s <> SNum 0) ts -> False.
  Proof. intros Hn Hi Ha. destruct ts as [|t ts]; [congruence|]. apply Forall_cons in Hi as [Hi _]. apply (Ha t.2); auto. left. Qed.
  Lemma var_no_op t s n args : variable t s -> t = TFun n args -> ~ operator n (length args).
  Proof. intros Hv E. apply (variable_shape _ _ Hv _ _ E). Qed.
  Lemma op2 n : (n = "+" \/ n = "-" \/ n = "*" \/ n = "/" \/ n = "..")%string -> operator n 2.
  Proof. intros. left. auto. Qed.

  Lemma parsed_one_var t s : variable t s -> parsed t [(1%Qc, s)].
  Proof.
    intros Hv. assert (Hu : user s) by (apply (names_user t); apply Hv). split.
    - exact (li_var _ _ Hv).
    - discriminate.
    - apply allin_one. auto.
    - intros A. cbn. rewrite with_unit_user by auto. replace (1 * A s + 0)%Qc with (A s) by ring. exact (me_var _ _ _ Hv).
    - split.
      + intros Hi. apply Forall_cons in Hi as [Hi _]. cbn in Hi. exfalso. apply (user_not_unit s); auto.
      + intros Hf. exfalso. destruct Hv as (Hn & Hd & Hm & Hp).
        destruct Hf; try (inversion Hn; fail); try (inversion Hn; subst; match goal with H : ~ operator _ _ |- _ => apply H; apply op2; tauto end); auto.
        * apply Hm. eexists; eauto.
        * apply Hp. eexists; eauto.
    - rewrite allin_one. split; [intros _; exact (ho_var _ _ Hv)|intros _; apply user_not_unit; auto].
  Qed.
  Lemma parsed_one_num t q : linear t -> varfree t -> (forall A, means A t q) -> (forall s, ~ variable t s) -> ~ homogeneous t -> parsed t [(q, SNum 0)].
  Proof.
    intros Hl Hf Hm Hv Hh. split; [exact Hl|..].
    - discriminate.
    - apply allin_one. auto.
    - intros A. cbn. rewrite with_unit_0. replace (q * 1 + 0)%Qc with q by ring. auto.
    - split; auto. intros _. constructor; [reflexivity|constructor].
    - rewrite allin_one. split; [congruence|contradiction].
  Qed.

  (** inversion *)
  Ltac noop := match goal with
    | H : decimal_term _ |- _ => destruct H as (? & ? & ? & [=] & _)
    | H : variable ?t ?s |- _ => exfalso; first
        [ apply (var_no_op _ _ _ _ H eq_refl); first [apply op2; tauto|right; auto; fail]
        | destruct H as (_ & _ & _ & Hp); apply Hp; eexists; reflexivity ]
    end.
  Lemma vf_inv2 n a b : (n = "+" \/ n = "-" \/ n = "*")%string -> (varfree (TFun n [a; b]) <-> varfree a /\ varfree b).
  Proof.
    intros Hn. split.
    - intros Hf. inversion Hf; subst; try noop; auto; destruct Hn as [|[|]]; discriminate.
    - intros [Ha Hb]. destruct Hn as [->|[->| ->]]; [apply vf_add|apply vf_sub|apply vf_mul]; auto.
  Qed.
  Lemma vf_inv1 n a : (n = "+" \/ n = "-")%string -> (varfree (TFun n [a]) <-> varfree a).
  Proof.
    intros Hn. split.
    - intros Hf. inversion Hf; subst; try noop; auto; destruct Hn as [|[|]]; discriminate.
    - intros Ha. destruct Hn as [->| ->]; [apply vf_pos|apply vf_neg]; auto.
  Qed.
  Lemma vf_invd a b q : numeric true b q -> q <> 0%Qc -> (varfree (TFun "/" [a; b]) <-> varfree a).
  Proof. intros Hb Hq. split; [|intros Ha; exact (vf_div _ _ _ Ha Hb Hq)]. intros Hf. inversion Hf; subst; try noop; auto. Qed.
  Lemma ho_inv2 n a b : (n = "+" \/ n = "-")%string -> (homogeneous (TFun n [a; b]) <-> homogeneous a /\ homogeneous b).
  Proof.
    intros Hn. split.
    - intros Hf. inversion Hf; subst; try noop; auto; try (destruct Hn; discriminate).
    - intros [Ha Hb]. destruct Hn as [->| ->]; [apply ho_add|apply ho_sub]; auto.
  Qed.
  Lemma ho_inv1 n a : (n = "+" \/ n = "-")%string -> (homogeneous (TFun n [a]) <-> homogeneous a).
  Proof.
    intros Hn. split.
    - intros Hf. inversion Hf; subst; auto; try (destruct Hn; discriminate).
      destruct H as (Hv & _ & Hm & Hp). exfalso. destruct Hn as [->| ->]; [apply Hp|apply Hm]; eexists; reflexivity.
    - intros Ha. destruct Hn as [->| ->]; [apply ho_pos|apply ho_neg]; auto.
  Qed.
  Lemma ho_invd a b q : numeric true b q -> q <> 0%Qc -> (homogeneous (TFun "/" [a; b]) <-> homogeneous a).
  Proof. intros Hb Hq. split; [|intros Ha; exact (ho_div _ _ _ Ha Hb Hq)]. intros Hf. inversion Hf; subst; try noop; auto. Qed.
  Lemma ho_invm a b : homogeneous (TFun "*" [a; b]) <-> (homogeneous a /\ varfree b) \/ (varfree a /\ homogeneous b).
  Proof. split; [|intros [[? ?]|[? ?]]; [apply ho_mul1|apply ho_mul2]; auto]. intros Hf. inversion Hf; subst; try noop; auto. Qed.

  Lemma neg_ne ts : ts <> [] -> neg_terms ts <> [].
  Proof. destruct ts; [auto|discriminate]. Qed.
  Lemma app_ne (x y : terms) : x <> [] -> x ++ y <> [].
  Proof. destruct x; [auto|discriminate]. Qed.
  Lemma inv_iff t ts : Forall inv_ ts <-> varfree t -> allin (fun s => s = SNum 0) ts <-> varfree t.
  Proof. rewrite allin_inv. auto. Qed.

  Lemma parsed_add n a b x y : (n = "+" \/ n = "-")%string -> parsed a x -> parsed b y ->
    parsed (TFun n [a; b]) (x ++ if String.eqb n "+" then y else neg_terms y).
  Proof.
    intros Hn [La Na Ua Va Ia Ha] [Lb Nb Ub Vb Ib Hb]. rewrite <- allin_inv in Ia, Ib. split.
    - destruct Hn as [->| ->]; [apply li_add|apply li_sub]; auto.
    - apply app_ne; auto.
    - apply allin_app. split; auto. destruct (String.eqb n "+"); [auto|apply allin_neg; auto].
    - intros A. rewrite lin_app. destruct Hn as [->| ->]; cbn [String.eqb Ascii.eqb Bool.eqb].
      + apply me_add; auto.
      + rewrite lin_neg. apply me_sub; auto.
    - rewrite <- allin_inv, allin_app, vf_inv2, <- Ia, <- Ib by tauto. destruct (String.eqb n "+"); [tauto|rewrite allin_neg; tauto].
    - rewrite allin_app, ho_inv2, <- Ha, <- Hb by tauto. destruct (String.eqb n "+"); [tauto|rewrite allin_neg; tauto].
  Qed.
  Lemma parsed_neg a x : parsed a x -> parsed (TFun "-" [a]) (neg_terms x).
  Proof.
    intros [La Na Ua Va Ia Ha]. rewrite <- allin_inv in Ia. split.
    - apply li_neg; auto.
    - apply neg_ne; auto.
    - apply allin_neg; auto.
    - intros A. rewrite lin_neg. apply me_neg; auto.
    - rewrite <- allin_inv, allin_neg, vf_inv1 by tauto. auto.
    - rewrite allin_neg, ho_inv1 by tauto. auto.
  Qed.
  Lemma parsed_pos a x : parsed a x -> parsed (TFun "+" [a]) x.
  Proof.
    intros [La Na Ua Va Ia Ha]. split; auto.
    - apply li_pos; auto.
    - intros A. apply me_pos; auto.
    - rewrite vf_inv1 by tauto. auto.
    - rewrite ho_inv1 by tauto. auto.
  Qed.
  Lemma parsed_div a b x q : parsed a x -> numeric true b q -> q <> 0%Qc -> parsed (TFun "/" [a; b]) (map (fun t => (t.1 / q, t.2)%Qc) x).
  Proof.
    intros [La Na Ua Va Ia Ha] Hb Hq. rewrite <- allin_inv in Ia. split.
    - exact (li_div _ _ _ La Hb Hq).
    - destruct x; [auto|discriminate].
    - apply allin_div; auto.
    - intros A. rewrite lin_div by auto. apply me_div; auto. apply numeric_means with true; auto.
    - rewrite <- allin_inv, allin_div, (vf_invd a b q) by auto. auto.
    - rewrite allin_div, (ho_invd a b q) by auto. auto.
  Qed.
  Lemma allin_vars P z x : (forall s, s ∈ map snd z <-> s ∈ map snd x) -> (allin P z <-> allin P x).
  Proof. unfold allin. intros E. setoid_rewrite E. auto. Qed.
  Lemma map_ne (z x : terms) : (forall s, s ∈ map snd z <-> s ∈ map snd x) -> x <> [] -> z <> [].
  Proof. intros E Hx ->. destruct x as [|t x]; [congruence|]. assert (t.2 ∈ map snd []) by (apply E; left). inversion H. Qed.
  Lemma parsed_mul a b x y z : parsed a x -> parsed b y -> mul_terms x y = Ok z -> parsed (TFun "*" [a; b]) z.
  Proof.
    intros [La Na Ua Va Ia Ha] [Lb Nb Ub Vb Ib Hb] E. pose proof (mul_terms_spec _ _ _ E) as (Hor & _ & HV). apply all_or in Hor.
    assert (HA : forall A, means A (TFun "*" [a; b]) (lin (with_unit A) z)) by (intros A; rewrite HV; apply me_mul; auto).
    assert (K : linear (TFun "*" [a; b])). { apply li_mul; auto. rewrite <- Ia, <- Ib. auto. }
    destruct Hor as [Hx|Hy].
    - assert (Hz := mul_vars_2 _ _ _ Na Hx E). assert (Hnx : ~ allin (fun s => s <> SNum 0) x) by (intros ?; apply (nonempty_inv_hom x); auto). split; auto.
      + apply (map_ne z y); auto.
      + apply (allin_vars _ z y); auto.
      + rewrite <- allin_inv, (allin_vars _ z y) by auto. rewrite vf_inv2, <- Ia, <- Ib, allin_inv by tauto. tauto.
      + rewrite (allin_vars _ z y) by auto. rewrite ho_invm, <- Ia, <- Ib, <- Ha, <- Hb. tauto.
    - assert (Hz := mul_vars_1 _ _ _ Nb Hy E). assert (Hny : ~ allin (fun s => s <> SNum 0) y) by (intros ?; apply (nonempty_inv_hom y); auto). split; auto.
      + apply (map_ne z x); auto.
      + apply (allin_vars _ z x); auto.
      + rewrite <- allin_inv, (allin_vars _ z x) by auto. rewrite vf_inv2, <- Ia, <- Ib, allin_inv by tauto. tauto.
      + rewrite (allin_vars _ z x) by auto. rewrite ho_invm, <- Ia, <- Ib, <- Ha, <- Hb. tauto.
  Qed.

  Lemma num_not_ho z : ~ homogeneous (TNum z).
  Proof. intros Hh. inversion Hh; subst. destruct H as [Hn _]. inversion Hn. Qed.
  Lemma num_not_var z s : ~ variable (TNum z) s.
  Proof. intros [Hn _]. inversion Hn. Qed.
  Lemma dec_not_ho t : decimal_term t -> ~ homogeneous t.
  Proof. intros Hd Hh. assert (Hd' := Hd). destruct Hd as (n & s & q & -> & _). inversion Hh; subst. destruct H as (_ & Hn & _). auto. Qed.

  Lemma psum_sound t ts : clean t -> parse t = Ok ts -> parsed t ts.
  Proof.
    revert ts. induction t as [z|n|n l IH|l IH|l|l] using tterm_ind'; intros ts Hc.
    - intros [= <-]. apply parsed_one_num; [constructor|constructor|intros; constructor|apply num_not_var|apply num_not_ho].
    - assert (V : (s ← evaluate_var bk (TSym n); Ok [(1%Qc, s)]) = Ok ts -> ~ decimal_term (TSym n) -> parsed (TSym n) ts).
      { intros E Hd. apply bind_ok in E as (s & Es & [= <-]). apply evaluate_var_spec in Es; auto. apply parsed_one_var.
        split; auto. split; auto. split; intros (? & ?); discriminate. }
      cbn [parse_sum_elem]. destruct (is_string n) eqn:Es.
      + destruct (as_num n) as [q|] eqn:Eq.
        * intros [= <-]. apply as_num_spec in Eq as (s & Hq & Hd). assert (Dt : decimal_term (TSym n)) by (exists n, s, q; auto).
          apply parsed_one_num; [apply li_dec; auto|apply vf_dec; auto|intros; exact (me_dec _ _ _ _ Hq Hd)|intros s' (_ & ? & _); auto|apply dec_not_ho; auto].
        * intros E. apply V; auto. intros (n' & s & q & [= <-] & Hq & Hd). assert (as_num n = Some q) by (apply as_num_spec; eauto). congruence.
      + intros E. apply V; auto. intros (n' & s & q & [= <-] & Hq & Hd). rewrite is_string_false in Es. exact (Es _ Hq).
    - assert (Hc' := Hc). rewrite clean_fun in Hc. destruct (fun_cases n l) as [(a & b & -> & Hn)|[(a & -> & ->)|Ho]].
      + apply Forall_cons in IH as [IHa IH]. apply Forall_cons in IH as [IHb _]. apply Forall_cons in Hc as [Ca Hc]. apply Forall_cons in Hc as [Cb _].
        destruct Hn as [->|[->|[->|[->| ->]]]]; cbn [parse_sum_elem String.eqb Ascii.eqb Bool.eqb]; intros E.
        * apply bind_ok in E as (x & Ex & E). apply bind_ok in E as (y & Ey & [= <-]). apply (parsed_add "+" a b x y); auto.
        * apply bind_ok in E as (x & Ex & E). apply bind_ok in E as (y & Ey & [= <-]). apply (parsed_add "-" a b x y); auto.
        * apply bind_ok in E as (x & Ex & E). apply bind_ok in E as (y & Ey & E). apply (parsed_mul a b x y); auto.
        * apply bind_ok in E as (x & Ex & E). apply bind_ok in E as (q & Eq & E). destruct (decide (q = 0%Qc)); [discriminate|]. injection E as <-.
          apply parsed_div; auto. apply evaluate_num_spec in Eq. auto.
        * discriminate.
      + apply Forall_cons in IH as [IHa _]. apply Forall_cons in Hc as [Ca _]. cbn [parse_sum_elem String.eqb Ascii.eqb Bool.eqb]. intros E. apply bind_ok in E as (x & Ex & [= <-]).
        apply parsed_neg; auto.
      + destruct (decide (n = "+"%string /\ length l = 1)) as [[-> E1]|Hp].
        * destruct l as [|a [|]]; try discriminate. apply Forall_cons in IH as [IHa _]. apply Forall_cons in Hc as [Ca _]. cbn [parse_sum_elem String.eqb Ascii.eqb Bool.eqb].
          intros E. apply parsed_pos; auto.
        * rewrite psum_other by auto. intros E. apply bind_ok in E as (s & Es & [= <-]). apply evaluate_var_spec in Es; auto. apply parsed_one_var.
          split; auto. split; [intros (? & ? & ? & ? & _); discriminate|]. split.
          -- intros (a & [= -> ->]). apply Ho. right. auto.
          -- intros (a & [= -> ->]). apply Hp. auto.
    - rewrite psum_tup. intros E. apply bind_ok in E as (s & Es & [= <-]). apply evaluate_var_spec in Es; auto. apply parsed_one_var.
      split; auto. split; [intros (? & ? & ? & ? & _); discriminate|]. split; intros (? & ?); discriminate.
    - discriminate.
    - discriminate.
  Qed.
  Lemma psum_complete t : linear t -> clean t -> exists ts, parse t = Ok ts.
  Proof.
    induction 1 as [z|t Hd|t s Hv|a b _ IHa _ IHb|a b _ IHa _ IHb|a _ IHa|a _ IHa|a b _ IHa _ IHb Hf|a b q _ IHa Hb Hq]; intros Hc.
    - cbn. eauto.
    - destruct (decimal_parse t Hd) as (q & -> & _). eauto.
    - rewrite (variable_parse _ _ Hv). eauto.
    - apply clean_fun, Forall_cons in Hc as [Ca Hc]. apply Forall_cons in Hc as [Cb _]. destruct IHa as (x & Ex); auto. destruct IHb as (y & Ey); auto.
      cbn [parse_sum_elem String.eqb Ascii.eqb Bool.eqb]. rewrite Ex, Ey. cbn. eauto.
    - apply clean_fun, Forall_cons in Hc as [Ca Hc]. apply Forall_cons in Hc as [Cb _]. destruct IHa as (x & Ex); auto. destruct IHb as (y & Ey); auto.
      cbn [parse_sum_elem String.eqb Ascii.eqb Bool.eqb]. rewrite Ex, Ey. cbn. eauto.
    - apply clean_fun, Forall_cons in Hc as [Ca _]. destruct IHa as (x & Ex); auto. cbn [parse_sum_elem String.eqb Ascii.eqb Bool.eqb]. rewrite Ex. cbn. eauto.
    - apply clean_fun, Forall_cons in Hc as [Ca _]. destruct IHa as (x & Ex); auto. cbn [parse_sum_elem String.eqb Ascii.eqb Bool.eqb]. rewrite Ex. cbn. eauto.
    - apply clean_fun, Forall_cons in Hc as [Ca Hc]. apply Forall_cons in Hc as [Cb _]. destruct IHa as (x & Ex); auto. destruct IHb as (y & Ey); auto.
      cbn [parse_sum_elem String.eqb Ascii.eqb Bool.eqb]. rewrite Ex, Ey. cbn. apply mul_terms_ok. intros l r Hl Hr.
      destruct Hf as [Hf|Hf]; [left|right].
      + apply (pa_inv _ _ (psum_sound _ _ Ca Ex)) in Hf. rewrite Forall_forall in Hf. auto.
      + apply (pa_inv _ _ (psum_sound _ _ Cb Ey)) in Hf. rewrite Forall_forall in Hf. auto.
    - apply clean_fun, Forall_cons in Hc as [Ca Hc]. destruct IHa as (x & Ex); auto. cbn [parse_sum_elem String.eqb Ascii.eqb Bool.eqb]. rewrite Ex. cbn.
      apply (evaluate_num_spec bk) in Hb. rewrite Hb. cbn. rewrite decide_False by auto. eauto.
  Qed.
  Lemma psum_fine t : clean t -> (bk = Flint -> zero_free t) -> fine (parse t).
  Proof.
    induction t as [z|n|n l IH|l IH|l|l] using tterm_ind'; intros Hc Hz; try exact I.
    - cbn [parse_sum_elem]. assert (fine (s ← evaluate_var bk (TSym n); Ok [(1%Qc, s)])) by (apply fine_bind; [apply evaluate_var_fine; auto|intros; exact I]).
      destruct (is_string n); auto. destruct (as_num n); auto. exact I.
    - assert (V : fine (s ← evaluate_var bk (TFun n l); Ok [(1%Qc, s)])) by (apply fine_bind; [apply evaluate_var_fine; auto|intros; exact I]).
      assert (All : forall t, t ∈ l -> clean t /\ (bk = Flint -> zero_free t)).
      { rewrite clean_fun, Forall_forall in Hc. rewrite zf_fun in Hz. intros t Ht. split; auto. intros Eb. destruct (Hz Eb) as [Hz' _]. rewrite Forall_forall in Hz'. auto. }
      rewrite Forall_forall in IH.
      destruct (fun_cases n l) as [(a & b & -> & Hn)|[(a & -> & ->)|Ho]].
      + assert (Fa : fine (parse a)) by (apply IH; [left|apply All; left|apply All; left]). assert (Fb : fine (parse b)) by (apply IH; [right; left|apply All; right; left|apply All; right; left]).
        destruct Hn as [->|[->|[->|[->| ->]]]]; cbn [parse_sum_elem String.eqb Ascii.eqb Bool.eqb]; auto.
        * apply fine_bind; auto. intros x _. apply fine_bind; auto. intros; exact I.
        * apply fine_bind; auto. intros x _. apply fine_bind; auto. intros; exact I.
        * apply fine_bind; auto. intros x _. apply fine_bind; auto. intros y _. apply mul_terms_fine.
        * apply fine_bind; auto. intros x _. apply fine_bind; [apply evaluate_num_fine; apply All; right; left|]. intros q _. destruct (decide (q = 0%Qc)); exact I.
      + cbn [parse_sum_elem String.eqb Ascii.eqb Bool.eqb]. apply fine_bind; [apply IH; [left|apply All; left|apply All; left]|intros; exact I].
      + destruct (decide (n = "+"%string /\ length l = 1)) as [[-> E1]|Hp].
        * destruct l as [|a [|]]; try discriminate. cbn [parse_sum_elem String.eqb Ascii.eqb Bool.eqb]. apply IH; [left|apply All; left|apply All; left].
        * rewrite psum_other by auto. auto.
    - rewrite psum_tup. apply fine_bind; [apply evaluate_var_fine; auto|intros; exact I].
  Qed.

  (** terms have at most one value *)
  Lemma variable_means A t s x : variable t s -> means A t x -> x = A s.
  Proof.
    intros Hv Hm. inversion Hm; subst; try noop.
    - destruct Hv as [Hn _]. inversion Hn.
    - exfalso. destruct Hv as (_ & Hd & _). apply Hd. eexists _, _, _. eauto.
    - f_equal. eapply variable_fun; eauto.
  Qed.
  Lemma decimal_fun' n s s' q q' : quoted n s -> decimal s q -> quoted n s' -> decimal s' q' -> q = q'.
  Proof.
    intros H1 H2 H3 H4. assert (as_num n = Some q) by (apply as_num_spec; eauto). assert (as_num n = Some q') by (apply as_num_spec; eauto). congruence.
  Qed.
  Lemma means_fun A t x y : means A t x -> means A t y -> x = y.
  Proof.
    intros Hx. revert y. induction Hx as [z|n s q Hq Hd|t s Hv|a b x y _ IHa _ IHb|a b x y _ IHa _ IHb|a x _ IHa|a x _ IHa|a b x y _ IHa _ IHb|a b x y _ IHa _ IHb Hy]; intros y' Hy'.
    - inversion Hy'; subst; auto. exfalso. eapply num_not_var; eauto.
    - inversion Hy'; subst.
      + eapply (decimal_fun' n s _ _ _ Hq Hd); eassumption.
      + exfalso. destruct H as (_ & Hd' & _). apply Hd'. eexists _, _, _. eauto.
    - symmetry. eapply variable_means; eauto.
    - inversion Hy'; subst; try noop. f_equal; auto.
    - inversion Hy'; subst; try noop. f_equal; auto.
    - inversion Hy'; subst; try noop; try (f_equal; auto).
    - inversion Hy'; subst; try noop. auto.
    - inversion Hy'; subst; try noop. f_equal; auto.
    - inversion Hy'; subst; try noop. f_equal; auto.
  Qed.
End sum.
