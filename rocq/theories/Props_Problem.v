(** * C60: a written constraint determines the constraint *)

From Coq Require Import Ascii String.
From Verif Require Import Num Parsing ParseSpec ParseNum Solver Api Props_Print Problem.

Section problem.
  Context {Sym : Type} (show : Sym -> list ascii).

  (** ** How a text is read
      A sum of terms [x], [-x] or [c*x], or 0; then a relation and a number
      ([shows_rat], Props_Print.v). *)
  Inductive reads_term : list ascii -> Qc -> Sym -> Prop :=
    | reads_one x : reads_term (show x) 1%Qc x
    | reads_neg x : reads_term ("-"%char :: show x) (-(1))%Qc x
    | reads_times s c x : shows_rat s c -> reads_term (s ++ "*"%char :: show x) c x.
  Inductive reads_terms : list ascii -> list (Qc * Sym) -> Prop :=
    | reads_last s c x : reads_term s c x -> reads_terms s [(c, x)]
    | reads_plus s c x r ts : reads_term s c x -> reads_terms r ts -> reads_terms (s ++ [" "; "+"; " "]%char ++ r) ((c, x) :: ts).
  Inductive reads_sum : list ascii -> list (Qc * Sym) -> Prop :=
    | reads_zero : reads_sum ["0"%char] []
    | reads_some s ts : reads_terms s ts -> reads_sum s ts.
  Inductive reads_rel : list ascii -> rel -> Prop :=
    | reads_le : reads_rel ["<"; "="]%char Rle
    | reads_ge : reads_rel [">"; "="]%char Rge
    | reads_eq : reads_rel ["="]%char Req
    | reads_lt : reads_rel ["<"]%char Rlt
    | reads_gt : reads_rel [">"]%char Rgt.
  Inductive reads : list ascii -> list (Qc * Sym) -> rel -> Qc -> Prop :=
    | reads_ineq s ts r rl n v : reads_sum s ts -> reads_rel r rl -> shows_rat n v -> reads (s ++ " "%char :: r ++ " "%char :: n) ts rl v.

  (** What is needed of the texts of symbols: none starts with a digit or a
      sign, and the end of a symbol can be found in a longer text.  (Symbols
      are names, tuples and strings here; blanks only occur within quotes.) *)
  Definition nameable : Prop := forall x, exists c r, show x = c :: r /\ is_digit c = false /\ c <> "-"%char.
  Definition delimited : Prop := forall x y r r', show x ++ " "%char :: r = show y ++ " "%char :: r' -> x = y /\ r = r'.

  (** ** What is written can be read *)
  Lemma write_term_reads t : reads_term (write_term show t) t.1 t.2.
  Proof.
    destruct t as [c x]. unfold write_term. cbn [fst snd]. destruct (Qc_eq_bool c (-(1))%Qc) eqn:E1.
    - apply Qc_eq_bool_correct in E1 as ->. apply reads_neg.
    - destruct (Qc_eq_bool c 1) eqn:E2; cbn [negb].
      + apply Qc_eq_bool_correct in E2 as ->. apply reads_one.
      + rewrite <- app_assoc. apply reads_times, print_rat_ok.
  Qed.
  Lemma write_terms_reads t ts : reads_terms (write_terms show false (t :: ts)) (t :: ts).
  Proof.
    revert t. induction ts as [|u ts IH]; intros [c x]; cbn [write_terms app].
    - rewrite app_nil_r. apply reads_last, (write_term_reads (c, x)).
    - specialize (IH u). cbn [write_terms app] in IH. exact (reads_plus _ c x _ (u :: ts) (write_term_reads (c, x)) IH).
  Qed.
  Lemma write_rel_reads r : reads_rel (write_rel r) r.
  Proof. destruct r; constructor. Qed.
  Theorem C60_written_reads q : reads (write_ineq show q) (q_lhs q) (q_rel q) (q_rhs q).
  Proof.
    unfold write_ineq. destruct q as [ts v rl lit]. cbn [q_lhs q_rhs q_rel].
    assert (Hs : reads_sum (write_terms show false ts ++ match ts with [] => ["0"%char] | _ => [] end) ts).
    { destruct ts as [|t ts]; [apply reads_zero|]. rewrite app_nil_r. apply reads_some, write_terms_reads. }
    pose proof (reads_ineq _ ts _ rl _ v Hs (write_rel_reads rl) (print_rat_ok v)) as HR. rewrite <- app_assoc in HR. exact HR.
  Qed.

  (** ** A text is read in one way only *)
  Lemma num_head s c : shows_rat s c -> exists d r, is_digit d = true /\ (s = d :: r \/ s = "-"%char :: d :: r).
  Proof.
    assert (HD : forall ds, digits ds -> exists d r, is_digit d = true /\ ds = d :: r).
    { intros ds Hd. pose proof (digits_all _ Hd) as Ha. destruct ds as [|d r]; [destruct Hd as [Hd _]; contradiction|]. exists d, r. split; [|reflexivity]. unfold alldig in Ha. rewrite Forall_cons in Ha. apply Ha. }
    assert (HI : forall t z, shows_int t z -> exists d r, is_digit d = true /\ (t = d :: r \/ t = "-"%char :: d :: r)).
    { intros t z [ds Hd|ds Hd]; destruct (HD ds Hd) as (d & r & Hx & ->); eauto. }
    intros [s' z Hs|a b n Ha Hb _]; [eauto|]. destruct (HI a n Ha) as (d & r & Hx & [-> | ->]); exists d; cbn; eauto.
  Qed.
  Context (Hn : nameable) (Hd : delimited).
  Lemma not_num s c x r r' : shows_rat s c -> show x ++ r <> s ++ r' /\ "-"%char :: show x ++ r <> s ++ r'.
  Proof.
    intros Hs. destruct (num_head s c Hs) as (d & q & Hx & E). destruct (Hn x) as (e & t & -> & He & Hm). cbn.
    destruct E as [-> | ->]; cbn; split; intros [=]; subst; try congruence; discriminate Hx.
  Qed.
  Lemma one_neg x r r' : show x ++ r <> "-"%char :: r'.
  Proof. destruct (Hn x) as (e & t & -> & He & Hm). cbn. congruence. Qed.
  Lemma term_unique a c x b c' x' r r' : reads_term a c x -> reads_term b c' x' -> a ++ " "%char :: r = b ++ " "%char :: r' -> c = c' /\ x = x' /\ r = r'.
  Proof.
    intros H1 H2 E. destruct H1 as [x|x|s c x Hs], H2 as [y|y|s' c' y Hs'].
    - apply Hd in E as [-> ->]. auto.
    - exfalso. exact (one_neg x _ _ E).
    - exfalso. rewrite <- app_assoc in E. exact (proj1 (not_num s' c' x _ _ Hs') E).
    - exfalso. symmetry in E. exact (one_neg y _ _ E).
    - cbn in E. injection E as E. apply Hd in E as [-> ->]. auto.
    - exfalso. rewrite <- app_assoc in E. exact (proj2 (not_num s' c' x _ _ Hs') E).
    - exfalso. rewrite <- app_assoc in E. symmetry in E. exact (proj1 (not_num s c y _ _ Hs) E).
    - exfalso. rewrite <- app_assoc in E. symmetry in E. exact (proj2 (not_num s c y _ _ Hs) E).
    - rewrite <- !app_assoc in E. cbn in E. apply split_unique in E as [-> E].
      + apply Hd in E as [-> ->]. split; [eapply shows_rat_fun; eauto|auto].
      + eapply rat_out; [exact Hs|reflexivity|discriminate|discriminate].
      + eapply rat_out; [exact Hs'|reflexivity|discriminate|discriminate].
  Qed.
  Lemma rel_no_plus r rl t t' : reads_rel r rl -> r ++ t <> "+"%char :: t'.
  Proof. intros [] [=]. Qed.
  Lemma terms_unique a ts : reads_terms a ts -> forall b ts' r rl r' rl' t t', reads_terms b ts' -> reads_rel r rl -> reads_rel r' rl' ->
    a ++ " "%char :: r ++ t = b ++ " "%char :: r' ++ t' -> ts = ts' /\ r ++ t = r' ++ t'.
  Proof.
    intros Ha. induction Ha as [s c x Hs|s c x q ts Hs Hq IH]; intros b ts' r rl r' rl' t t' [s' c' x' Hs'|s' c' x' q' ts2 Hs' Hq'] Hr Hr' E.
    - destruct (term_unique _ _ _ _ _ _ _ _ Hs Hs' E) as (-> & -> & E'). auto.
    - rewrite <- !app_assoc in E. destruct (term_unique _ _ _ _ _ _ _ _ Hs Hs' E) as (_ & _ & E'). exfalso. exact (rel_no_plus _ _ _ _ Hr E').
    - rewrite <- !app_assoc in E. destruct (term_unique _ _ _ _ _ _ _ _ Hs Hs' E) as (_ & _ & E'). exfalso. symmetry in E'. exact (rel_no_plus _ _ _ _ Hr' E').
    - rewrite <- !app_assoc in E. destruct (term_unique _ _ _ _ _ _ _ _ Hs Hs' E) as (-> & -> & E'). cbn in E'. injection E' as E'.
      destruct (IH _ _ _ _ _ _ _ _ Hq' Hr Hr' E') as [-> E2]. auto.
  Qed.
  Lemma zero_not_term s c x r r' : reads_term s c x -> "0"%char :: " "%char :: r <> s ++ " "%char :: r'.
  Proof.
    intros [y|y|u k y Hu].
    - destruct (Hn y) as (e & t & -> & He & Hm). cbn. intros [=]. subst. discriminate He.
    - discriminate.
    - rewrite <- app_assoc. cbn. destruct u as [|d u]; cbn; [intros [=]|]. intros [=]. subst. destruct u as [|e u]; cbn in *; [discriminate|].
      match goal with Q : " "%char :: _ = _ |- _ => injection Q as <- _ end. revert Hu. intros Hu. apply (rat_out _ _ " "%char Hu); try discriminate; [reflexivity|]. right. left.
  Qed.
  Lemma zero_not_terms s ts r r' : reads_terms s ts -> "0"%char :: " "%char :: r <> s ++ " "%char :: r'.
  Proof. intros [u c x Hu|u c x q ts' Hu _]; [apply (zero_not_term _ _ _ _ _ Hu)|]. rewrite <- !app_assoc. cbn. apply (zero_not_term _ _ _ _ _ Hu). Qed.
  Lemma rel_unique r rl r' rl' t t' : reads_rel r rl -> reads_rel r' rl' -> r ++ " "%char :: t = r' ++ " "%char :: t' -> rl = rl' /\ t = t'.
  Proof. intros [] [] [=]; auto. Qed.
  Theorem C60_text_unambiguous s ts rl v ts' rl' v' : reads s ts rl v -> reads s ts' rl' v' -> ts = ts' /\ rl = rl' /\ v = v'.
  Proof.
    intros H1 H2. destruct H1 as [a ts r rl n v Ha Hr Hv]. inversion H2 as [a' ts2 r' rl2 n' v2 Ha' Hr' Hv' E]. subst ts2 rl2 v2.
    assert (K : ts = ts' /\ r ++ " "%char :: n = r' ++ " "%char :: n').
    { destruct Ha as [|a ts Ha], Ha' as [|a' ts' Ha'].
      - cbn in E. injection E as E. auto.
      - exfalso. symmetry in E. cbn in E. exact (zero_not_terms _ _ _ _ Ha' E).
      - exfalso. cbn in E. exact (zero_not_terms _ _ _ _ Ha E).
      - symmetry in E. exact (terms_unique _ _ Ha _ _ _ _ _ _ _ _ Ha' Hr Hr' E). }
    destruct K as [-> K]. destruct (rel_unique _ _ _ _ _ _ Hr Hr' K) as [-> ->]. split; [reflexivity|]. split; [reflexivity|]. eapply shows_rat_fun; eauto.
  Qed.
  Theorem C60_text_determines q q' : write_ineq show q = write_ineq show q' -> q_lhs q = q_lhs q' /\ q_rel q = q_rel q' /\ q_rhs q = q_rhs q'.
  Proof.
    intros E. apply (C60_text_unambiguous (write_ineq show q)); [apply C60_written_reads|]. rewrite E. apply C60_written_reads.
  Qed.
End problem.

(** ** Examples: variables x0, x1, ... *)
Definition xname (n : nat) : list ascii := "x"%char :: print_int (Z.of_nat n).
Lemma print_int_inj a b : print_int a = print_int b -> a = b.
Proof.
  intros E. pose proof (print_int_ok a) as Ha. pose proof (print_int_ok b) as Hb. rewrite E in Ha. pose proof (shows_int_fun _ _ _ Ha Hb) as Q.
  apply (f_equal (fun q : Qc => this q)) in Q. unfold qofz in Q. cbn in Q. rewrite !Qred_identity in Q by apply Z.gcd_1_r. unfold inject_Z in Q. injection Q as ->. reflexivity.
Qed.
Theorem C60_example_names : nameable xname /\ delimited xname.
Proof.
  split.
  - intros n. exists "x"%char, (print_int (Z.of_nat n)). split; [reflexivity|]. split; [reflexivity|discriminate].
  - intros n k r r' E. cbn in E. injection E as E. apply split_unique in E as [E ->].
    + apply print_int_inj, Nat2Z.inj in E as ->. auto.
    + eapply int_out; [apply print_int_ok|reflexivity|discriminate].
    + eapply int_out; [apply print_int_ok|reflexivity|discriminate].
Qed.
Theorem C60_example_texts : map (fun q => string_of_list_ascii (write_ineq xname q))
  [ Ineq [(Q2Qc (2 # 3), 1); ((-(1))%Qc, 2); (1%Qc, 30)] (Q2Qc (-5 # 1)) Rle 7; Ineq [(Q2Qc (-7 # 2), 4)] (Q2Qc (1 # 2)) Rgt 8; Ineq [] 0%Qc Req 9 ] =
  ["2/3*x1 + -x2 + x30 <= -5"; "-7/2*x4 > 1/2"; "0 = 0"]%string.
Proof. vm_compute. reflexivity. Qed.
(** with numbers as variables the text would be ambiguous *)
Theorem C60_example_ambiguous : exists q q' : ineq Z, write_ineq print_int q = write_ineq print_int q' /\ q_lhs q <> q_lhs q'.
Proof. exists (Ineq [((-(1))%Qc, 2%Z)] 0%Qc Req 1%Z), (Ineq [(1%Qc, (-2)%Z)] 0%Qc Req 1%Z). split; [vm_compute; reflexivity|]. discriminate. Qed.
