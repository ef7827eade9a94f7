(** * Proofs about evaluation of terms (Parsing.v against ParseSpec.v) *)

From Verif Require Import Num Solver Spec Parsing ParseSpec ParseNum.

Section eval.
  Variable bk : backend.

  Definition eval_args : list tterm -> res (list symbol) := fix go (l : list tterm) : res (list symbol) :=
      match l with
      | [] => Ok []
      | x :: r => v ← evaluate bk false x; s ← as_sym v; r' ← go r; Ok (s :: r')
      end.

  Lemma fun_cases n (args : list tterm) :
    (exists a b, args = [a; b] /\ (n = "+" \/ n = "-" \/ n = "*" \/ n = "/" \/ n = "..")%string) \/
    (exists a, args = [a] /\ n = "-"%string) \/ ~ operator n (length args).
  Proof.
    destruct args as [|a [|b [|c r]]].
    - right. right. intros [[? _]|[? _]]; discriminate.
    - destruct (string_eq_dec n "-") as [->|Hn]; [right; left; eauto|]. right. right. intros [[? _]|[_ ?]]; [discriminate|congruence].
    - destruct (string_eq_dec n "+"); [left; eauto 10|]. destruct (string_eq_dec n "-"); [left; eauto 10|].
      destruct (string_eq_dec n "*"); [left; eauto 10|]. destruct (string_eq_dec n "/"); [left; eauto 10|].
      destruct (string_eq_dec n ".."); [left; eauto 10|]. right. right. intros [[_ ?]|[? _]]; [naive_solver|discriminate].
    - right. right. intros [[? _]|[? _]]; discriminate.
  Qed.

  Lemma eqb_no n m : n <> m -> String.eqb n m = false.
  Proof. intros Hn. destruct (String.eqb_spec n m); congruence. Qed.
  Lemma evaluate_other ns n args : ~ operator n (length args) ->
    evaluate bk ns (TFun n args) = (l ← eval_args args; Ok (inr (SFun n l true))).
  Proof.
    intros Ho. destruct args as [|a [|b [|c r]]]; try reflexivity.
    - cbn [evaluate]. rewrite eqb_no; [reflexivity|]. intros ->. apply Ho. right. auto.
    - cbn [evaluate]. rewrite !eqb_no; [reflexivity|..]; intros ->; apply Ho; left; naive_solver.
  Qed.
  Lemma evaluate_tup ns args : evaluate bk ns (TTup args) = (l ← eval_args args; Ok (inr (SFun "" l true))).
  Proof. reflexivity. Qed.

  Lemma as_sym_num z : (-2147483648 <= z <= 2147483647)%Z -> as_sym (inl (qofz z)) = Ok (SNum z).
  Proof.
    intros Hz. unfold as_sym. assert (E : this (qofz z) = inject_Z z).
    { unfold qofz, Q2Qc. cbn [this]. unfold inject_Z. rewrite <- (Qred_identity (z # 1)) at 2; auto. cbn. apply Z.gcd_1_r. }
    rewrite E. cbn [inject_Z Qden Qnum]. rewrite bool_decide_eq_true_2 by auto.
    destruct (Z.leb_spec (-2147483648) z); [|lia]. destruct (Z.leb_spec z 2147483647); [auto|lia].
  Qed.
  Lemma as_sym_inv q s : as_sym (inl q) = Ok s -> exists z, q = qofz z /\ s = SNum z /\ (-2147483648 <= z <= 2147483647)%Z.
  Proof.
    unfold as_sym. destruct (bool_decide (Qden q = 1%positive)) eqn:E1; [|discriminate]. apply bool_decide_eq_true in E1.
    destruct (Z.leb_spec (-2147483648) (Qnum q)); [|discriminate]. destruct (Z.leb_spec (Qnum q) 2147483647); [|discriminate].
    intros [= <-]. exists (Qnum q). split; [|split; [auto|lia]]. apply Qc_is_canon. unfold qofz. cbn [this Q2Qc]. rewrite Qred_correct.
    unfold Qeq, inject_Z. cbn. rewrite E1. auto.
  Qed.

  (** *** completeness *)
  Lemma numeric_evaluate ns t q : numeric ns t q -> evaluate bk ns t = Ok (inl q).
  Proof.
    induction 1 as [z|n s q -> Hq Hd|a b x y _ IHa _ IHb|a b x y _ IHa _ IHb|a b x y _ IHa _ IHb|a b x y _ IHa _ IHb Hy|a x _ IHa]; auto.
    - cbn. assert (is_string n = true) as -> by (apply is_string_quoted; eauto).
      assert (as_num n = Some q) as -> by (apply as_num_spec; eauto). auto.
    - cbn. rewrite IHa, IHb. auto.
    - cbn. rewrite IHa, IHb. auto.
    - cbn. rewrite IHa, IHb. auto.
    - cbn. rewrite IHa, IHb. cbn. unfold qdiv. rewrite decide_False by auto. auto.
    - cbn. rewrite IHa. auto.
  Qed.
  Lemma numeric_fun ns t q q' : numeric ns t q -> numeric ns t q' -> q = q'.
  Proof. intros H1 H2. apply numeric_evaluate in H1, H2. congruence. Qed.

  Scheme names_mind := Minimality for names Sort Prop with names_args_mind := Minimality for names_args Sort Prop.
  Lemma names_evaluate t s : names t s -> forall ns, (ns = true -> ~ decimal_term t) -> evaluate bk ns t = Ok (inr s).
  Proof.
    revert t s.
    refine (names_mind (fun t s => forall ns, (ns = true -> ~ decimal_term t) -> evaluate bk ns t = Ok (inr s)) (fun ts ss => eval_args ts = Ok ss) _ _ _ _ _ _ _ _).
    - intros n Hq ns _. cbn. assert (is_string n = false) as -> by (apply is_string_false; auto). auto.
    - intros n s r Hq Hu ns Hd. cbn. assert (is_string n = true) as -> by (apply is_string_quoted; eauto).
      assert ((if ns then as_num n else None) = None) as ->.
      { destruct ns; auto. destruct (as_num n) eqn:E; auto. apply as_num_spec in E as (s' & Hq' & Hd'). destruct (Hd eq_refl). exists n, s', q. auto. }
      rewrite (quoted_inner _ _ Hq). unfold unquote. rewrite (unquote_complete _ _ Hu). auto.
    - intros n args l Ho _ IH ns _. rewrite evaluate_other, IH; auto.
    - intros args l _ IH ns _. rewrite evaluate_tup, IH. auto.
    - intros a n l pos Hn Ha IH ns _. cbn. rewrite IH.
      + cbn. destruct (String.eqb_spec n ""); [congruence|auto].
      + intros _ (n' & s & q & -> & Hq & _). inversion Ha as [? Hno| | | |]; subst. exact (Hno _ Hq).
    - auto.
    - intros t s ts ss _ IH _ IHs. cbn. rewrite IH by discriminate. cbn. fold eval_args. rewrite IHs. auto.
    - intros t z ts ss Ht Hz _ IHs. cbn [eval_args]. rewrite (numeric_evaluate _ _ _ Ht). cbn [mbind res_bind]. rewrite as_sym_num by auto. cbn. fold eval_args. rewrite IHs. auto.
  Qed.
  Lemma names_fun t s s' : names t s -> names t s' -> s = s'.
  Proof.
    intros H1 H2. assert (E1 := names_evaluate _ _ H1 false). assert (E2 := names_evaluate _ _ H2 false).
    rewrite E1 in E2 by discriminate. assert (E := E2 ltac:(discriminate)). congruence.
  Qed.

  (** *** soundness *)
  Lemma evaluate_numeric ns t q : evaluate bk ns t = Ok (inl q) -> numeric ns t q.
  Proof.
    revert ns q. induction t as [z|n|n l IH|l _|l|l] using tterm_ind'; intros ns q.
    - intros [= <-]. constructor.
    - cbn. destruct (is_string n) eqn:Es; [|discriminate]. destruct ns.
      + destruct (as_num n) as [q'|] eqn:E.
        * intros [= <-]. apply as_num_spec in E as (s & Hq & Hd). eapply nu_dec; eauto.
        * intros E'. apply bind_ok in E' as (? & _ & [=]).
      + intros E'. apply bind_ok in E' as (? & _ & [=]).
    - destruct (fun_cases n l) as [(a & b & -> & Hn)|[(a & -> & ->)|Ho]].
      + apply Forall_cons in IH as [IHa IH]. apply Forall_cons in IH as [IHb _].
        assert (B : forall f r, eval_bin f (evaluate bk ns a) (evaluate bk ns b) = Ok (inl r) -> exists x y, numeric ns a x /\ numeric ns b y /\ f x y = Ok r).
        { intros f r E. apply bind_ok in E as (x & Ex & E). apply bind_ok in E as (y & Ey & E). destruct x as [x|], y as [y|]; try discriminate.
          apply bind_ok in E as (z & Ez & [= ->]). exists x, y. auto. }
        destruct Hn as [->|[->|[->|[->| ->]]]]; cbn [evaluate]; intros E; try (apply B in E as (x & y & Hx & Hy & E)).
        * injection E as <-. constructor; auto.
        * injection E as <-. constructor; auto.
        * injection E as <-. constructor; auto.
        * unfold qdiv in E. destruct (decide (y = 0%Qc)); [destruct bk; discriminate|]. injection E as <-. constructor; auto.
        * discriminate.
      + apply Forall_cons in IH as [IHa _]. cbn. intros E. apply bind_ok in E as (x & Ex & E). destruct x as [x|s].
        * injection E as <-. constructor; auto.
        * destruct s; try discriminate. cbn in E. destruct (String.eqb name ""); discriminate.
      + rewrite evaluate_other by auto. intros E. apply bind_ok in E as (? & _ & [=]).
    - rewrite evaluate_tup. intros E. apply bind_ok in E as (? & _ & [=]).
    - discriminate.
    - discriminate.
  Qed.

  Lemma clean_all l : (fix all (l : list tterm) : Prop := match l with [] => True | x :: r => clean x /\ all r end) l <-> Forall clean l.
  Proof. induction l as [|x l IH]; cbn; [split; auto|]. rewrite Forall_cons, IH. auto. Qed.
  Lemma clean_fun n l : clean (TFun n l) <-> Forall clean l.
  Proof. apply clean_all. Qed.
  Lemma clean_tup l : clean (TTup l) <-> Forall clean l.
  Proof. apply clean_all. Qed.
  Lemma zf_all l : (fix all (l : list tterm) : Prop := match l with [] => True | x :: r => zero_free x /\ all r end) l <-> Forall zero_free l.
  Proof. induction l as [|x l IH]; cbn; [split; auto|]. rewrite Forall_cons, IH. auto. Qed.
  Lemma zf_fun n l : zero_free (TFun n l) <-> Forall zero_free l /\ forall a b ns, n = "/"%string -> l = [a; b] -> ~ numeric ns b 0%Qc.
  Proof. cbn [zero_free]. rewrite zf_all. auto. Qed.
  Lemma zf_tup l : zero_free (TTup l) <-> Forall zero_free l.
  Proof. apply zf_all. Qed.

  Lemma unquote_go_clean s : escaped s -> exists r, unescaped s r /\ unquote_go false s = Ok r.
  Proof. intros (r & Hr). exists r. split; auto. apply unquote_complete; auto. Qed.

  Lemma evaluate_names ns t s : clean t -> evaluate bk ns t = Ok (inr s) -> names t s /\ (ns = true -> ~ decimal_term t).
  Proof.
    revert ns s. induction t as [z|n|n l IH|l IH|l|l] using tterm_ind'; intros ns s Hc.
    - discriminate.
    - cbn. destruct (is_string n) eqn:Es.
      + apply is_string_quoted in Es as (s0 & Hq). destruct (unquote_go_clean s0 (Hc s0 Hq)) as (r & Hu & Er).
        rewrite (quoted_inner _ _ Hq). unfold unquote. rewrite Er. destruct (if ns then as_num n else None) as [q|] eqn:E; [discriminate|].
        intros [= <-]. split; [econstructor; eauto|]. intros -> (n' & s' & q & [= <-] & Hq' & Hd').
        assert (as_num n = Some q) by (apply as_num_spec; eauto). congruence.
      + rewrite is_string_false in Es. intros [= <-]. split; [constructor; auto|]. intros _ (n' & s' & q & [= <-] & Hq' & _). edestruct Es; eauto.
    - rewrite clean_fun in Hc.
      assert (ARGS : forall ss, eval_args l = Ok ss -> names_args l ss).
      { clear -IH Hc. induction l as [|t l IHl]; intros ss E; [injection E as <-; constructor|].
        apply Forall_cons in IH as [IHt IH]. apply Forall_cons in Hc as [Ct Hc].
        cbn in E. apply bind_ok in E as (v & Ev & E). apply bind_ok in E as (s & Es & E). apply bind_ok in E as (r & Er & [= <-]).
        fold eval_args in Er. destruct v as [q|s'].
        - apply as_sym_inv in Es as (z & -> & -> & Hz). apply na_num; auto. apply evaluate_numeric; auto.
        - injection Es as <-. apply na_sym; auto. apply (IHt false); auto. }
      destruct (fun_cases n l) as [(a & b & -> & Hn)|[(a & -> & ->)|Ho]].
      + assert (B : forall f r, eval_bin f (evaluate bk ns a) (evaluate bk ns b) = Ok (inr r) -> False).
        { intros f r E. apply bind_ok in E as (x & Ex & E). apply bind_ok in E as (y & Ey & E). destruct x as [x|], y as [y|]; try discriminate.
          apply bind_ok in E as (z & Ez & [=]). }
        destruct Hn as [->|[->|[->|[->| ->]]]]; cbn [evaluate]; intros E; try (apply B in E as []). discriminate.
      + apply Forall_cons in IH as [IHa _]. apply Forall_cons in Hc as [Ca _]. cbn. intros E. apply bind_ok in E as (x & Ex & E). destruct x as [x|s']; [discriminate|].
        destruct s' as [| |n' l' pos]; try discriminate. cbn in E. destruct (String.eqb_spec n' ""); [discriminate|]. injection E as <-.
        split; [|intros _ (? & ? & ? & ? & _); discriminate]. apply na_neg; auto. apply (IHa ns _ Ca Ex).
      + rewrite evaluate_other by auto. intros E. apply bind_ok in E as (ss & Es & [= <-]). split; [|intros _ (? & ? & ? & ? & _); discriminate].
        apply na_fun; auto.
    - rewrite clean_tup in Hc. rewrite evaluate_tup. intros E. apply bind_ok in E as (ss & Es & [= <-]). split; [|intros _ (? & ? & ? & ? & _); discriminate].
      apply na_tup. revert ss Es. clear -IH Hc. induction l as [|t l IHl]; intros ss E; [injection E as <-; constructor|].
        apply Forall_cons in IH as [IHt IH]. apply Forall_cons in Hc as [Ct Hc].
        cbn in E. apply bind_ok in E as (v & Ev & E). apply bind_ok in E as (s & Es & E). apply bind_ok in E as (r & Er & [= <-]).
        fold eval_args in Er. destruct v as [q|s'].
        + apply as_sym_inv in Es as (z & -> & -> & Hz). apply na_num; auto. apply evaluate_numeric; auto.
        + injection Es as <-. apply na_sym; auto. apply (IHt false); auto.
    - discriminate.
    - discriminate.
  Qed.

  (** *** a term never aborts, unless it divides by zero and the library aborts *)
  Definition fine {A} (m : res A) : Prop := match m with Ok _ | Exn => True | _ => False end.
  Lemma fine_bind {A B} (m : res A) (f : A -> res B) : fine m -> (forall a, m = Ok a -> fine (f a)) -> fine (m ≫= f).
  Proof. destruct m; cbn; auto. Qed.
  Lemma as_sym_fine x : fine (as_sym x).
  Proof. destruct x; cbn; auto. destruct (_ && _); cbn; auto. Qed.
  Lemma eval_args_fine l : (forall t, t ∈ l -> fine (evaluate bk false t)) -> fine (eval_args l).
  Proof.
    induction l as [|t l IH]; intros Hl; [cbn; auto|]. cbn [eval_args]. apply fine_bind; [apply Hl; left|]. intros v _. apply fine_bind; [apply as_sym_fine|].
    intros s _. fold eval_args. apply fine_bind; [apply IH; intros; apply Hl; right; auto|]. intros r _. exact I.
  Qed.
  Lemma evaluate_fine ns t : clean t -> (bk = Flint -> zero_free t) -> fine (evaluate bk ns t).
  Proof.
    revert ns. induction t as [z|n|n l IH|l IH|l|l] using tterm_ind'; intros ns Hc Hz; try exact I.
    - cbn [evaluate]. destruct (is_string n) eqn:Es; [|exact I]. apply is_string_quoted in Es as (s0 & Hq). destruct (unquote_go_clean s0 (Hc s0 Hq)) as (r & Hu & Er).
      rewrite (quoted_inner _ _ Hq). unfold unquote. rewrite Er. destruct (if ns then as_num n else None); exact I.
    - rewrite clean_fun in Hc. rewrite zf_fun in Hz.
      assert (All : forall ns t, t ∈ l -> fine (evaluate bk ns t)).
      { intros ns' t Ht. rewrite Forall_forall in IH, Hc. apply IH; auto. intros Eb. destruct (Hz Eb) as [Hz' _]. rewrite Forall_forall in Hz'. auto. }
      destruct (fun_cases n l) as [(a & b & -> & Hn)|[(a & -> & ->)|Ho]].
      + assert (Fa := All ns a (elem_of_list_here _ _)). assert (Fb := All ns b ltac:(right; left)).
        assert (B : forall f, (forall x y, evaluate bk ns b = Ok (inl y) -> fine (f x y)) -> fine (eval_bin f (evaluate bk ns a) (evaluate bk ns b))).
        { intros f Hf. apply fine_bind; auto. intros x _. apply fine_bind; auto. intros y Ey. destruct x, y; try exact I. apply fine_bind; [apply Hf; auto|]. intros; exact I. }
        destruct Hn as [->|[->|[->|[->| ->]]]]; cbn [evaluate]; try (apply B; intros; exact I); [|exact I].
        apply B. intros x y Ey. unfold qdiv. destruct (decide (y = 0%Qc)) as [->|]; [|exact I]. destruct bk eqn:Eb; [|exact I].
        destruct (Hz eq_refl) as [_ Hd]. destruct (Hd a b ns eq_refl eq_refl). apply evaluate_numeric. rewrite Eb. auto.
      + cbn. apply fine_bind; [apply All; left|]. intros v _. destruct v as [|[]]; try exact I. cbn. destruct (String.eqb name ""); exact I.
      + rewrite evaluate_other by auto. apply fine_bind; [|intros; exact I]. apply eval_args_fine. auto.
    - rewrite clean_tup in Hc. rewrite zf_tup in Hz. rewrite evaluate_tup. apply fine_bind; [|intros; exact I]. apply eval_args_fine.
      intros t Ht. rewrite Forall_forall in IH, Hc. apply IH; auto. intros Eb. specialize (Hz Eb). rewrite Forall_forall in Hz. auto.
  Qed.

  Lemma evaluate_num_spec t q : evaluate_num bk t = Ok q <-> numeric true t q.
  Proof.
    unfold evaluate_num. split.
    - intros E. apply bind_ok in E as ([q'|] & Ev & E); [|discriminate]. injection E as ->. apply evaluate_numeric; auto.
    - intros Hn. rewrite (numeric_evaluate _ _ _ Hn). auto.
  Qed.
  Lemma evaluate_var_spec t s : clean t -> (evaluate_var bk t = Ok s <-> names t s).
  Proof.
    intros Hc. unfold evaluate_var. split.
    - intros E. apply bind_ok in E as ([q'|] & Ev & E); [discriminate|]. injection E as ->. apply (evaluate_names false); auto.
    - intros Hn. rewrite (names_evaluate _ _ Hn false) by discriminate. auto.
  Qed.
  Lemma evaluate_num_fine t : clean t -> (bk = Flint -> zero_free t) -> fine (evaluate_num bk t).
  Proof. intros Hc Hz. apply fine_bind; [apply evaluate_fine; auto|]. intros [|] _; exact I. Qed.
  Lemma evaluate_var_fine t : clean t -> (bk = Flint -> zero_free t) -> fine (evaluate_var bk t).
  Proof. intros Hc Hz. apply fine_bind; [apply evaluate_fine; auto|]. intros [|] _; exact I. Qed.
  Lemma names_user t s : names t s -> user s.
  Proof. intros []; exact I. Qed.
End eval.
