(** * C46: what the registered grammar lets through is what the solver supports *)

From Verif Require Import Num Solver Spec Propagator World Parsing ParseSpec ParseNum ParseProofs ParseSum ParseTheory ParseAtoms ParsePrograms ParseSyntax.
From Verif Require Import Props_Parsing Api Examples Props_Program Grammar.

(** ** Specification: the conventional reading of an expression

    range ::= sum | range .. sum      sum ::= product | sum (+|-) product
    product ::= factor | product ( *|/) factor      factor ::= operand | - factor *)
Inductive factor : list token -> tterm -> Prop :=
  | fa_operand t : factor [Operand t] t
  | fa_minus ts a : factor ts a -> factor (Op "-" :: ts) (TFun "-" [a]).
Inductive product : list token -> tterm -> Prop :=
  | pr_factor ts a : factor ts a -> product ts a
  | pr_op op ts a us b : op ∈ ["*"; "/"]%string -> product ts a -> factor us b -> product (ts ++ Op op :: us) (TFun op [a; b]).
Inductive sum : list token -> tterm -> Prop :=
  | sm_product ts a : product ts a -> sum ts a
  | sm_op op ts a us b : op ∈ ["+"; "-"]%string -> sum ts a -> product us b -> sum (ts ++ Op op :: us) (TFun op [a; b]).
Inductive range : list token -> tterm -> Prop :=
  | rg_sum ts a : sum ts a -> range ts a
  | rg_op ts a us b : range ts a -> sum us b -> range (ts ++ Op ".." :: us) (TFun ".." [a; b]).

(** ** Proofs *)

(** The four levels at once; [base] is the lowest priority of the table. *)
Inductive lev (bin : string -> nat -> Prop) : nat -> list token -> tterm -> Prop :=
  | lv_operand t : lev bin 3 [Operand t] t
  | lv_minus ts a : lev bin 3 ts a -> lev bin 3 (Op "-" :: ts) (TFun "-" [a])
  | lv_up n ts a : lev bin (S n) ts a -> lev bin n ts a
  | lv_op op n ts a us b : bin op n -> n < 3 -> lev bin n ts a -> lev bin (S n) us b -> lev bin n (ts ++ Op op :: us) (TFun op [a; b]).

Lemma lev_le bin n m ts a : n <= m -> lev bin m ts a -> lev bin n ts a.
Proof. intros H. induction H; auto. intros Hl. apply IHle, lv_up, Hl. Qed.

Record table (ops : list opdef) (bin : string -> nat -> Prop) : Prop := {
  tb_unary : forall op d, find_op ops op true = Some d -> op = "-"%string /\ od_prio d = 3;
  tb_minus : exists d, find_op ops "-" true = Some d /\ od_prio d = 3;
  tb_bin : forall op d, find_op ops op false = Some d -> bin op (od_prio d) /\ od_prio d < 3 /\ od_left d = true;
  tb_has : forall op n, bin op n -> exists d, find_op ops op false = Some d /\ od_prio d = n;
}.

Section parser.
  Context (ops : list opdef) (bin : string -> nat -> Prop) (TB : table ops bin).

  (** *** The tree is a conventional reading *)
  (** [sok n st ts]: the frames [st] stand for the tokens [ts] and wait for an operand of level [n] *)
  Inductive sok : nat -> list frame -> list token -> Prop :=
    | so_nil n : sok n [] []
    | so_bin n lhs op p st ts us : sok p st ts -> lev bin p us lhs -> bin op p -> p < n -> p < 3 -> sok n (FBin lhs op p :: st) (ts ++ us ++ [Op op])
    | so_un st ts : sok 3 st ts -> sok 3 (FUn "-" 3 :: st) (ts ++ [Op "-"]).
  Lemma reduce_sound p st : forall n t ts us st' t',
    reduce p true st t = (st', t') -> sok n st ts -> lev bin n us t -> n <= 3 -> p <= n -> p < 3 ->
    exists ts' us', ts ++ us = ts' ++ us' /\ sok p st' ts' /\ lev bin p us' t'.
  Proof.
    induction st as [|f st IH]; intros n t ts us st' t' E Hs Hl Hn Hp Hp3; cbn [reduce] in E.
    - injection E as <- <-. exists ts, us. split; [reflexivity|]. inversion Hs; subst. split; [constructor|]. exact (lev_le _ _ _ _ _ Hp Hl).
    - inversion Hs as [|n' lhs op q st0 ts0 us0 Hst Hlhs Hop Hq Hq3|st0 ts0 Hst]; subst; cbn [frame_prio] in E.
      + destruct (Nat.ltb_spec p q) as [Hlt|Hge]; cbn [orb] in E.
        * destruct (IH q _ ts0 (us0 ++ Op op :: us) _ _ E) as (ts' & us' & Eq & H1 & H2); try lia.
          { exact Hst. } { cbn [frame_apply]. apply lv_op; auto. apply (lev_le _ _ n); [lia|exact Hl]. }
          exists ts', us'. split; [rewrite <- Eq, <- !app_assoc; reflexivity|auto].
        * destruct (Nat.eqb_spec p q) as [->|Hne]; cbn [andb] in E.
          -- cbn [frame_apply] in E.
             assert (Hnew : lev bin q (us0 ++ Op op :: us) (TFun op [lhs; t])) by (apply lv_op; auto; apply (lev_le _ _ n); [lia|exact Hl]).
             (* everything below has a smaller priority *)
             assert (Hstop : reduce q true st (TFun op [lhs; t]) = (st, TFun op [lhs; t])).
             { inversion Hst as [|? ? ? q' ? ? ? ? ? ? Hq'|]; subst; [reflexivity| |lia]. cbn [reduce frame_prio].
               destruct (Nat.ltb_spec q q'); [lia|]. destruct (Nat.eqb_spec q q'); [lia|]. reflexivity. }
             rewrite Hstop in E. injection E as <- <-. exists ts0, (us0 ++ Op op :: us).
             split; [rewrite <- !app_assoc; reflexivity|]. auto.
          -- injection E as <- <-. exists (ts0 ++ us0 ++ [Op op]), us. split; [reflexivity|]. split; [constructor; auto; lia|].
             exact (lev_le _ _ _ _ _ Hp Hl).
      + destruct (Nat.ltb_spec p 3) as [_|]; [|lia]. cbn [orb frame_apply] in E.
        destruct (IH 3 _ ts0 (Op "-" :: us) _ _ E) as (ts' & us' & Eq & H1 & H2); try lia; [exact Hst|apply lv_minus; exact Hl|].
        exists ts', us'. split; [rewrite <- Eq, <- !app_assoc; reflexivity|auto].
  Qed.
  Lemma reduce_all_sound st : forall n t ts us, sok n st ts -> lev bin n us t -> n <= 3 ->
    lev bin 0 (ts ++ us) (reduce_all st t).
  Proof.
    induction st as [|f st IH]; intros n t ts us Hs Hl Hn; cbn.
    - inversion Hs; subst. cbn. apply (lev_le _ _ n); [lia|exact Hl].
    - inversion Hs as [|n' lhs op q st0 ts0 us0 Hst Hlhs Hop Hq Hq3|st0 ts0 Hst]; subst; cbn [frame_apply].
      + assert (Hnew : lev bin q (us0 ++ Op op :: us) (TFun op [lhs; t])) by (apply lv_op; auto; apply (lev_le _ _ n); [lia|exact Hl]).
        rewrite <- !app_assoc. cbn [app]. apply (IH q); [exact Hst|exact Hnew|lia].
      + rewrite <- !app_assoc. cbn [app]. apply (IH 3); [exact Hst|apply lv_minus; exact Hl|lia].
  Qed.
  Lemma parse_sound l : forall st cur ts r, parse_tokens ops st cur l = Some r ->
    sok 3 st ts ->
    match cur with None => lev bin 0 (ts ++ l) r | Some t => forall us, lev bin 3 us t -> lev bin 0 (ts ++ us ++ l) r end.
  Proof.
    induction l as [|[op|u] l IH]; intros st cur ts r E Hs; destruct cur as [t|]; cbn [parse_tokens] in E; try discriminate.
    - injection E as <-. intros us Hu. rewrite app_nil_r. exact (reduce_all_sound st 3 t ts us Hs Hu (le_n 3)).
    - intros us Hu. destruct (find_op ops op false) as [d|] eqn:Ed; [|discriminate].
      destruct (tb_bin _ _ TB _ _ Ed) as (Hb & Hd & Hleft). rewrite Hleft in E.
      destruct (reduce (od_prio d) true st t) as [st' t'] eqn:Er.
      destruct (reduce_sound _ _ 3 _ ts us _ _ Er Hs Hu) as (ts' & us' & Eq & H1 & H2); try lia.
      specialize (IH _ None ((ts' ++ us') ++ [Op op]) r E). cbn in IH.
      rewrite <- Eq in IH. rewrite app_assoc. replace ((ts ++ us) ++ Op op :: l) with (((ts ++ us) ++ [Op op]) ++ l) by now rewrite <- app_assoc.
      apply IH. rewrite Eq, <- app_assoc. constructor; auto.
    - destruct (find_op ops op true) as [d|] eqn:Ed; [|discriminate]. destruct (tb_unary _ _ TB _ _ Ed) as [-> Hp]. rewrite Hp in E.
      specialize (IH _ None (ts ++ [Op "-"]) r E). cbn in IH. rewrite <- app_assoc in IH. apply IH. now constructor.
    - apply (IH st (Some u) ts r E Hs [Operand u]). constructor.
  Qed.

  (** *** Every conventional reading is the tree *)
  Definition low (n : nat) (st : list frame) : Prop := n < 3 -> match st with [] => True | f :: _ => frame_prio f < n end.
  Lemma reduce_stop n st t : low n st -> n < 3 -> reduce n true st t = (st, t).
  Proof.
    intros H Hn. specialize (H Hn). destruct st as [|f st]; [reflexivity|]. cbn.
    destruct (Nat.ltb_spec n (frame_prio f)); [lia|]. destruct (Nat.eqb_spec n (frame_prio f)); [lia|]. reflexivity.
  Qed.
  Lemma reduce_0_all st : forall t, reduce 0 true st t = ([], reduce_all st t).
  Proof.
    induction st as [|f st IH]; intros t; [reflexivity|]. cbn [reduce reduce_all fold_left].
    destruct (Nat.ltb_spec 0 (frame_prio f)); [apply IH|]. destruct (Nat.eqb_spec 0 (frame_prio f)); [apply IH|lia].
  Qed.
  Lemma parse_complete n ts a : lev bin n ts a -> n <= 3 -> forall st rest, low n st ->
    exists st2 t2, parse_tokens ops st None (ts ++ rest) = parse_tokens ops st2 (Some t2) rest /\
      forall p, p <= n -> p < 3 -> reduce p true st2 t2 = reduce p true st a.
  Proof.
    induction 1 as [t|ts a H IH|n ts a H IH|op n ts a us b Hb Hn Ha IHa Hu IHu]; intros Hn3 st rest Hlow.
    - exists st, t. split; [reflexivity|auto].
    - destruct (tb_minus _ _ TB) as (d & Ed & Hd). cbn [app parse_tokens]. rewrite Ed, Hd.
      destruct (IH Hn3 (FUn "-" 3 :: st) rest) as (st2 & t2 & E & Hr); [intros Hx; lia|].
      exists st2, t2. split; [exact E|]. intros p Hp Hp3. rewrite Hr by auto. cbn [reduce frame_prio frame_apply].
      destruct (Nat.ltb_spec p 3); [reflexivity|lia].
    - destruct (decide (S n <= 3)) as [Hle|Hgt].
      + destruct (IH Hle st rest) as (st2 & t2 & E & Hr).
        { intros Hx. specialize (Hlow ltac:(lia)). destruct st; [exact Hlow|lia]. }
        exists st2, t2. split; [exact E|]. intros p Hp Hp3. apply Hr; lia.
      + exfalso. clear -H Hgt. assert (Hm : forall m us c, lev bin m us c -> m <= 3).
        { intros m us c Hl. induction Hl; lia. }
        pose proof (Hm _ _ _ H). lia.
    - destruct (tb_has _ _ TB _ _ Hb) as (d & Ed & Hd). destruct (tb_bin _ _ TB _ _ Ed) as (_ & _ & Hleft).
      rewrite <- app_assoc. cbn [app].
      destruct (IHa Hn3 st (Op op :: us ++ rest) Hlow) as (st2 & t2 & E & Hr).
      rewrite E. cbn [parse_tokens]. rewrite Ed, Hd, Hleft, (Hr n) by lia. rewrite (reduce_stop n st a Hlow Hn).
      destruct (IHu ltac:(lia) (FBin a op n :: st) rest) as (st3 & t3 & E3 & Hr3); [intros Hx; cbn; lia|].
      exists st3, t3. split; [exact E3|]. intros p Hp Hp3. rewrite Hr3 by lia. cbn [reduce frame_prio frame_apply].
      destruct (Nat.ltb_spec p n); [reflexivity|]. destruct (Nat.eqb_spec p n); [reflexivity|lia].
  Qed.

  Lemma parser_correct ts t : clingo_reads ops ts = Some t <-> lev bin 0 ts t.
  Proof.
    unfold clingo_reads. split.
    - intros E. exact (parse_sound ts [] None [] t E (so_nil 3)).
    - intros Hl. destruct (parse_complete 0 ts t Hl ltac:(lia) [] []) as (st2 & t2 & E & Hr); [intros _; exact Logic.I|].
      rewrite app_nil_r in E. rewrite E. cbn [parse_tokens]. specialize (Hr 0 ltac:(lia) ltac:(lia)).
      rewrite !reduce_0_all in Hr. cbn in Hr. injection Hr as ->. reflexivity.
  Qed.
End parser.

Section tables.
Local Open Scope string_scope.
Definition sum_bin (op : string) (n : nat) : Prop := (n = 1 /\ op ∈ ["+"; "-"]) \/ (n = 2 /\ op ∈ ["*"; "/"]).
Definition dom_bin (op : string) (n : nat) : Prop := sum_bin op n \/ (n = 0 /\ op = "..").
Ltac cases_op op :=
  repeat match goal with
         | |- context [String.eqb ?x op] => let E := fresh in destruct (String.eqb_spec x op) as [E|E]; [subst op|]; cbn [andb Bool.eqb]
         end.
Ltac inlist := rewrite ?elem_of_cons, ?elem_of_nil in *.
Lemma sum_table : table sum_ops sum_bin.
Proof.
  split.
  - intros op d. unfold sum_ops. cbn [find_op od_op od_unary Bool.eqb]. rewrite !andb_false_r. cases_op op; cbn; intros E; try discriminate.
    injection E as <-. auto.
  - eexists. split; reflexivity.
  - intros op d. unfold sum_ops, sum_bin. cbn [find_op od_op od_unary Bool.eqb]. rewrite !andb_true_r, !andb_false_r.
    cases_op op; cbn; intros E; try discriminate; injection E as <-; cbn; (split; [|auto]); inlist; auto.
  - unfold sum_bin. intros op n [[-> H]|[-> H]]; inlist; destruct H as [->|[->|[]]]; eexists; split; reflexivity.
Qed.
Lemma dom_table : table dom_ops dom_bin.
Proof.
  split.
  - intros op d. unfold dom_ops. cbn [find_op od_op od_unary Bool.eqb]. rewrite !andb_false_r. cases_op op; cbn; intros E; try discriminate.
    injection E as <-. auto.
  - eexists. split; reflexivity.
  - intros op d. unfold dom_ops, dom_bin, sum_bin. cbn [find_op od_op od_unary Bool.eqb]. rewrite !andb_true_r, !andb_false_r.
    cases_op op; cbn; intros E; try discriminate; injection E as <-; cbn; (split; [|auto]); inlist; auto 6.
  - unfold dom_bin, sum_bin. intros op n [[[-> H]|[-> H]]|[-> ->]]; inlist; [destruct H as [->|[->|[]]]..|]; eexists; split; reflexivity.
Qed.
End tables.

Lemma sum_levels n ts a : lev sum_bin n ts a ->
  match n with 3 => factor ts a | 2 => product ts a | 1 | 0 => sum ts a | _ => False end.
Proof.
  induction 1 as [t|ts a H IH|n ts a H IH|op n ts a us b Hb Hn Ha IHa Hu IHu].
  - constructor.
  - now constructor.
  - destruct n as [|[|[|[|n]]]]; [exact IH|now constructor|now constructor|destruct IH|destruct IH].
  - destruct Hb as [[-> Hop]|[-> Hop]]; [now apply sm_op|now apply pr_op].
Qed.
Lemma dom_levels n ts a : lev dom_bin n ts a ->
  match n with 3 => factor ts a | 2 => product ts a | 1 => sum ts a | 0 => range ts a | _ => False end.
Proof.
  induction 1 as [t|ts a H IH|n ts a H IH|op n ts a us b Hb Hn Ha IHa Hu IHu].
  - constructor.
  - now constructor.
  - destruct n as [|[|[|[|n]]]]; [now constructor|now constructor|now constructor|destruct IH|destruct IH].
  - destruct Hb as [[[-> Hop]|[-> Hop]]|[-> ->]]; [now apply sm_op|now apply pr_op|now apply rg_op].
Qed.
Lemma factor_lev bin ts a : factor ts a -> lev bin 3 ts a.
Proof. induction 1; now constructor. Qed.
Lemma product_lev (bin : string -> nat -> Prop) ts a : (forall op, op ∈ ["*"; "/"]%string -> bin op 2) -> product ts a -> lev bin 2 ts a.
Proof. intros Hb. induction 1; [now apply lv_up, factor_lev|]. apply lv_op; auto. now apply factor_lev. Qed.
Lemma sum_lev (bin : string -> nat -> Prop) ts a : (forall op, op ∈ ["*"; "/"]%string -> bin op 2) ->
  (forall op, op ∈ ["+"; "-"]%string -> bin op 1) -> sum ts a -> lev bin 1 ts a.
Proof. intros Hb Hb1. induction 1; [now apply lv_up, product_lev|]. apply lv_op; auto. now apply product_lev. Qed.

(** ** C46: theorems *)

(** The tree clingo builds from a term with the operators of the grammar is the
    conventional reading: multiplication and division before addition and
    subtraction, unary minus first, ranges last, equals from left to right.  In
    particular the conventional reading is unique. *)
Theorem C46_conventional_reading ts t :
  (clingo_reads sum_ops ts = Some t <-> sum ts t) /\ (clingo_reads dom_ops ts = Some t <-> range ts t).
Proof.
  split.
  - rewrite (parser_correct _ _ sum_table). split; [apply (sum_levels 0)|]. intros H. apply lv_up.
    apply sum_lev; [..|exact H]; intros op Hop; [right|left]; auto.
  - rewrite (parser_correct _ _ dom_table). split; [apply (dom_levels 0)|].
    assert (Hb : (forall op, op ∈ ["*"; "/"]%string -> dom_bin op 2) /\ (forall op, op ∈ ["+"; "-"]%string -> dom_bin op 1)).
    { split; intros op Hop; left; [right|left]; auto. }
    destruct Hb as [Hb2 Hb1].
    induction 1 as [ts a H|ts a us b Ha IH Hb]; [now apply lv_up, sum_lev|].
    apply lv_op; [right; auto|lia|exact IH|now apply sum_lev].
Qed.
(** 2*x+-y-3 is ((2*x)+(-y))-3 *)
Example C46_reading_example :
  sum [Operand (TNum 2); Op "*"; Operand (TSym "x"); Op "+"; Op "-"; Operand (TSym "y"); Op "-"; Operand (TNum 3)]
      (TFun "-" [TFun "+" [TFun "*" [TNum 2; TSym "x"]; TFun "-" [TSym "y"]]; TNum 3]) /\
  forall t, sum [Operand (TNum 2); Op "*"; Operand (TSym "x"); Op "+"; Op "-"; Operand (TSym "y"); Op "-"; Operand (TNum 3)] t ->
    t = TFun "-" [TFun "+" [TFun "*" [TNum 2; TSym "x"]; TFun "-" [TSym "y"]]; TNum 3].
Proof.
  split.
  - apply C46_conventional_reading. vm_compute. reflexivity.
  - intros t H. apply C46_conventional_reading in H. vm_compute in H. congruence.
Qed.

(** *** Terms *)
Section built_ind.
  Context (ops : list opdef) (P : tterm -> Prop)
    (Hnum : forall z, P (TNum z))
    (Hcon : forall n, is_identifier (list_ascii_of_string n) = true -> P (TSym n))
    (Hstr : forall n s, list_ascii_of_string n = dquote :: s ++ [dquote] -> is_string_text s = true -> P (TSym n))
    (Hfun : forall n args, is_identifier (list_ascii_of_string n) = true -> Forall P args -> P (TFun n args))
    (Htup : forall args, Forall P args -> P (TTup args))
    (Hlst : forall args, Forall P args -> P (TLst args))
    (Hset : forall args, Forall P args -> P (TSet args))
    (Hops : forall ts t, (forall u, Operand u ∈ ts -> P u) -> clingo_reads ops ts = Some t -> P t).
  Fixpoint built_rect (t : tterm) (H : built ops t) {struct H} : P t.
  Proof.
    destruct H as [z|n H|n s E H|n args H F|args F|args F|args F|ts t Ho E].
    - apply Hnum.
    - now apply Hcon.
    - now apply (Hstr n s).
    - apply Hfun; [exact H|]. clear H. induction F; constructor; auto.
    - apply Htup. induction F; constructor; auto.
    - apply Hlst. induction F; constructor; auto.
    - apply Hset. induction F; constructor; auto.
    - apply (Hops ts t); auto.
  Qed.
End built_ind.

(** What holds for operands and is kept by the operators holds for the tree. *)
Lemma tree_ind (ops : list opdef) (P : tterm -> Prop) :
  (forall op d a, find_op ops op true = Some d -> P a -> P (TFun op [a])) ->
  (forall op d a b, find_op ops op false = Some d -> P a -> P b -> P (TFun op [a; b])) ->
  forall ts t, (forall u, Operand u ∈ ts -> P u) -> clingo_reads ops ts = Some t -> P t.
Proof.
  intros H1 H2.
  set (fok := fun f => match f with FBin l op _ => P l /\ exists d, find_op ops op false = Some d | FUn op _ => exists d, find_op ops op true = Some d end).
  assert (Hap : forall f t, fok f -> P t -> P (frame_apply f t)).
  { intros [l op p|op p] t; cbn; [intros [Hl [d Hd]] Ht|intros [d Hd] Ht]; eauto. }
  assert (Hred : forall p lf st t, Forall fok st -> P t -> Forall fok (reduce p lf st t).1 /\ P (reduce p lf st t).2).
  { intros p lf. induction st as [|f st IH]; intros t Hs Ht; cbn [reduce]; [auto|]. destruct (_ || _); [|auto].
    inversion Hs; subst. apply IH; auto. }
  assert (Hall : forall st t, Forall fok st -> P t -> P (reduce_all st t)).
  { induction st as [|f st IH]; intros t Hs Ht; [exact Ht|]. inversion Hs; subst. cbn. apply IH; auto. }
  assert (Hgo : forall ts st cur t, (forall u, Operand u ∈ ts -> P u) -> Forall fok st -> match cur with Some c => P c | None => True end ->
    parse_tokens ops st cur ts = Some t -> P t).
  { induction ts as [|[op|u] ts IH]; intros st cur t Ho Hs Hc E; destruct cur as [c|]; cbn [parse_tokens] in E; try discriminate.
    - injection E as <-. auto.
    - destruct (find_op ops op false) as [d|] eqn:Ed; [|discriminate].
      destruct (Hred (od_prio d) (od_left d) st c Hs Hc) as [Hs' Hc']. destruct (reduce (od_prio d) (od_left d) st c) as [st' c'].
      apply (IH _ _ _) in E; [exact E|intros u Hu; apply Ho; now right|constructor; [split; eauto|exact Hs']|exact Logic.I].
    - destruct (find_op ops op true) as [d|] eqn:Ed; [|discriminate].
      apply (IH _ _ _) in E; [exact E|intros u Hu; apply Ho; now right|constructor; [cbn; eauto|exact Hs]|exact Logic.I].
    - apply (IH _ _ _) in E; [exact E|intros v Hv; apply Ho; now right|exact Hs|apply Ho; left]. }
  intros ts t Ho E. refine (Hgo ts [] None t Ho _ Logic.I E). constructor.
Qed.

Lemma identifier_not_quoted n s : is_identifier (list_ascii_of_string n) = true -> ~ quoted n s.
Proof. unfold quoted. intros H E. rewrite E in H. vm_compute in H. discriminate. Qed.
Lemma identifier_no_operator n k : is_identifier (list_ascii_of_string n) = true -> ~ operator n k.
Proof. intros H [[_ [->|[->|[->|[->| ->]]]]]|[_ ->]]; vm_compute in H; discriminate. Qed.

Lemma ascii_by_code (c : ascii) k : nat_of_ascii c = k -> c = ascii_of_nat k.
Proof. intros <-. symmetry. apply ascii_nat_embedding. Qed.
Lemma string_text_escaped s : is_string_text s = true -> escaped s.
Proof.
  remember (length s) as n eqn:En. revert s En. induction n as [n IH] using lt_wf_ind. intros s -> H.
  destruct s as [|c r]; [exists []; constructor|]. cbn [is_string_text] in H.
  destruct (Nat.eqb_spec (nat_of_ascii c) 92) as [E|E].
  - apply ascii_by_code in E. change (ascii_of_nat 92) with "\"%char in E. subst c. destruct r as [|d r]; [discriminate|].
    apply andb_true_iff in H as [Hd Hr]. destruct (IH (length r) ltac:(cbn; lia) r eq_refl Hr) as [u Hu].
    apply orb_true_iff in Hd as [Hd|Hd]; [apply orb_true_iff in Hd as [Hd|Hd]|]; apply Nat.eqb_eq, ascii_by_code in Hd; subst d.
    + exists ("\"%char :: u). now constructor.
    + exists ("010"%char :: u). now constructor.
    + exists ("034"%char :: u). now constructor.
  - apply andb_true_iff in H as [_ Hr]. destruct (IH (length r) ltac:(cbn; lia) r eq_refl Hr) as [u Hu].
    exists (c :: u). constructor; [|exact Hu]. intros ->. apply E. reflexivity.
Qed.

Lemma clean_all l : Forall clean l -> (fix all (l : list tterm) : Prop := match l with [] => True | x :: r => clean x /\ all r end) l.
Proof. induction 1; cbn; auto. Qed.
Lemma built_clean ops t : built ops t -> clean t.
Proof.
  revert t. apply (built_rect ops clean).
  - intros z. exact Logic.I.
  - intros n H s Hs. now apply identifier_not_quoted in Hs.
  - intros n s E H s' Hs. unfold quoted, dquote in *. rewrite E in Hs. injection Hs as Hs. apply app_inj_tail in Hs as [<- _]. now apply string_text_escaped.
  - intros n args _ F. now apply clean_all.
  - intros args F. now apply clean_all.
  - intros args F. now apply clean_all.
  - intros args F. now apply clean_all.
  - apply tree_ind; cbn; auto.
Qed.

(** Every application in the term is a function of clingo or an operator the parser interprets. *)
Fixpoint known (t : tterm) : Prop :=
  let all := fix all (l : list tterm) : Prop := match l with [] => True | x :: r => known x /\ all r end in
  match t with
  | TNum _ | TSym _ => True
  | TFun n l => (operator n (length l) \/ is_identifier (list_ascii_of_string n) = true) /\ all l
  | TTup l | TLst l | TSet l => all l
  end.
Lemma known_all l : Forall known l -> (fix all (l : list tterm) : Prop := match l with [] => True | x :: r => known x /\ all r end) l.
Proof. induction 1; cbn; auto. Qed.
Lemma built_known ops bin t : table ops bin -> (forall op n, bin op n -> operator op 2) -> built ops t -> known t.
Proof.
  intros TB Hb. revert t. apply (built_rect ops known).
  - intros z. exact Logic.I.
  - intros n H. exact Logic.I.
  - intros n s E H. exact Logic.I.
  - intros n args H F. split; [auto|]. now apply known_all.
  - intros args F. now apply known_all.
  - intros args F. now apply known_all.
  - intros args F. now apply known_all.
  - apply tree_ind; cbn.
    + intros op d a Hd Ha. destruct (tb_unary _ _ TB _ _ Hd) as [-> _]. split; [left; right; auto|auto].
    + intros op d a b Hd Ha Hc. destruct (tb_bin _ _ TB _ _ Hd) as [Hop _]. split; [left; eauto|auto].
Qed.

(** *** Atoms *)
Section atoms.
Local Open Scope string_scope.
Local Open Scope list_scope.

Lemma admitted_clean g a : admitted g a \/ foreign g a -> clean_atom a.
Proof.
  intros [[d ops Hd Hn Hf He Hg]|(Hn & He & Hg)]; split.
  - intros e t H1 H2. exact (built_clean _ _ (He e t H1 H2)).
  - intros r t E. rewrite E in Hg. destruct (ad_guard d) as [[rs tm]|]; [|destruct Hg]. destruct Hg as (_ & gops & _ & H). exact (built_clean _ _ H).
  - intros e t H1 H2. destruct (He e t H1 H2) as [ops H]. exact (built_clean _ _ H).
  - intros r t E. destruct (Hg r t E) as [ops H]. exact (built_clean _ _ H).
Qed.

(** The names of the atoms and their guards, for either grammar. *)
Lemma admitted_cases (s : bool) a : admitted (if s then THEORY_Q else THEORY) a ->
  (exists n : string, n ∈ ["minimize"; "maximize"] /\ called n a /\ ta_guard a = None) \/
  (exists n : string, n ∈ ["sum"; "diff"] /\ called n a /\ forall r t, ta_guard a = Some (r, t) -> r ∈ (if s then ["<="; "="; ">="; "<"; ">"] else ["<="; "="; ">="])) \/
  (called "dom" a /\ forall r t, ta_guard a = Some (r, t) -> r = "=").
Proof.
  intros [d ops Hd Hn _ _ Hg]. unfold called.
  assert (Hd' : d ∈ td_atoms (if s then THEORY_Q else THEORY)) by exact Hd.
  destruct s; cbn [THEORY THEORY_Q td_atoms] in Hd'; rewrite !elem_of_cons, elem_of_nil in Hd';
    (destruct Hd' as [->|[->|[->|[->|[->|[]]]]]]; cbn [ad_name ad_guard] in *).
  all: try (left; eexists; split; [|split; [exact Hn|]]; [rewrite !elem_of_cons; auto|]; destruct (ta_guard a) as [[r t]|]; [destruct Hg|reflexivity]).
  all: try (right; left; eexists; split; [|split; [exact Hn|]]; [rewrite !elem_of_cons; auto|]; intros r t E; rewrite E in Hg; apply Hg).
  all: right; right; split; [exact Hn|]; intros r t E; rewrite E in Hg; destruct Hg as [Hg _]; rewrite elem_of_cons, elem_of_nil in Hg; destruct Hg as [?|[]]; auto.
Qed.

Lemma foreign_other (s : bool) a n : foreign (if s then THEORY_Q else THEORY) a -> n ∈ ["minimize"; "maximize"; "sum"; "diff"; "dom"] -> ~ called n a.
Proof.
  intros [H _] Hn Hc.
  assert (Hd : exists d, d ∈ td_atoms (if s then THEORY_Q else THEORY) /\ ad_name d = n).
  { rewrite !elem_of_cons, elem_of_nil in Hn. destruct s; cbn [THEORY THEORY_Q td_atoms];
      (destruct Hn as [->|[->|[->|[->|[->|[]]]]]]); (eapply (ex_intro _ (AtomDef _ _ _ _)); split; [|cbn [ad_name]; reflexivity]; rewrite !elem_of_cons; eauto 8). }
  destruct Hd as (d & Hd & <-). destruct (H d Hd) as [H1 H2]. destruct Hc; auto.
Qed.

Definition nonstrict (q : ineq symbol) : Prop := q_rel q = Rle \/ q_rel q = Rge \/ q_rel q = Req.
Lemma cond_term_nonstrict mp cid t aux iqs aux' iqs' t' : cond_term mp cid t aux iqs = Ok (aux', iqs', t') ->
  Forall nonstrict iqs -> Forall nonstrict iqs'.
Proof.
  unfold cond_term. intros E H. destruct (_ <? _)%Z; [discriminate|]. destruct (aux_find _ _) as [b|].
  - injection E as <- <- <-. exact H.
  - injection E as <- <- <-. apply Forall_app. split; [exact H|]. repeat constructor; right; right; reflexivity.
Qed.
Lemma cond_terms_nonstrict mp cid ts : forall aux iqs aux' iqs' ts', cond_terms mp cid ts aux iqs = Ok (aux', iqs', ts') ->
  Forall nonstrict iqs -> Forall nonstrict iqs'.
Proof.
  induction ts as [|t ts IH]; intros aux iqs aux' iqs' ts' E H; cbn [cond_terms] in E.
  - injection E as <- <- <-. exact H.
  - apply bind_ok in E as [[[aux1 iqs1] t1] [E1 E]]. apply bind_ok in E as [[[aux2 iqs2] r] [E2 E]]. injection E as <- <- <-.
    eapply IH; [exact E2|]. eapply cond_term_nonstrict; eassumption.
Qed.
Lemma sum_elems_nonstrict bk mp es : forall aux iqs aux' iqs' ts, parse_sum_elems bk mp es aux iqs = Ok (aux', iqs', ts) ->
  Forall nonstrict iqs -> Forall nonstrict iqs'.
Proof.
  induction es as [|e es IH]; intros aux iqs aux' iqs' ts E H; cbn [parse_sum_elems] in E.
  - injection E as <- <- <-. exact H.
  - destruct (te_tuple e) as [|t [|? ?]]; try discriminate.
    apply bind_ok in E as [x [_ E]]. apply bind_ok in E as [[[aux1 iqs1] x'] [E1 E]]. apply bind_ok in E as [[[aux2 iqs2] y] [E2 E]].
    injection E as <- <- <-. eapply IH; [exact E2|]. destruct (te_cond e).
    + injection E1 as <- <- <-. exact H.
    + eapply cond_terms_nonstrict; eassumption.
Qed.
Lemma match0_called t n : match0 t n = true -> t = TSym n \/ t = TFun n [].
Proof. destruct t as [|m|m [|? ?]|?|?|?]; cbn; try discriminate; intros H; apply String.eqb_eq in H; subst; auto. Qed.
Lemma called_inj n n' a : called n a -> called n' a -> n = n'.
Proof. unfold called. intros [H|H] [H'|H']; congruence. Qed.
Lemma parse_atom_nonstrict bk mp a st st' : admitted THEORY a \/ foreign THEORY a -> parse_atom bk mp a st = Ok st' ->
  Forall nonstrict (ps_iqs st) -> Forall nonstrict (ps_iqs st').
Proof.
  intros Ha E H.
  assert (Hrel : forall n, n ∈ ["sum"; "diff"] -> called n a -> forall r t R, ta_guard a = Some (r, t) -> evaluate_cmp r = Ok R -> R = Rle \/ R = Rge \/ R = Req).
  { intros n Hn Hc r t R Er ER. destruct Ha as [Ha|Ha].
    - destruct (admitted_cases false a Ha) as [(n' & Hn' & Hc' & _)|[(n' & Hn' & Hc' & Hg)|[Hc' _]]].
      + pose proof (called_inj _ _ _ Hc Hc') as ->. rewrite !elem_of_cons, elem_of_nil in Hn, Hn'.
        destruct Hn as [->|[->|[]]], Hn' as [?|[?|[]]]; discriminate.
      + specialize (Hg r t Er). cbn iota in Hg. rewrite !elem_of_cons, elem_of_nil in Hg.
        destruct Hg as [->|[->|[->|[]]]]; vm_compute in ER; injection ER as <-; auto.
      + pose proof (called_inj _ _ _ Hc Hc') as ->. rewrite !elem_of_cons, elem_of_nil in Hn. destruct Hn as [?|[?|[]]]; discriminate.
    - exfalso. apply (foreign_other false a n Ha); [|exact Hc]. rewrite !elem_of_cons in *. destruct Hn as [->|[->|Hn]]; auto. inversion Hn. }
  unfold parse_atom in E.
  destruct (match0 (ta_term a) "dom") eqn:M1.
  { destruct (ta_elems a) as [|e [|? ?]]; try discriminate. destruct (ta_guard a) as [[r g]|]; [|discriminate].
    destruct (te_tuple e) as [|[| |n [|l [|u [|? ?]]]| | |] [|? ?]]; try discriminate. destruct (te_cond e); [|discriminate].
    destruct (String.eqb n ".."); [|discriminate].
    apply bind_ok in E as [x [_ E]]. apply bind_ok in E as [hi [_ E]]. apply bind_ok in E as [lo [_ E]]. injection E as <-. cbn [ps_iqs].
    apply Forall_app. split; [exact H|]. constructor; [left; reflexivity|]. constructor; [right; left; reflexivity|constructor]. }
  destruct (match0 (ta_term a) "diff") eqn:M2.
  { apply match0_called in M2. destruct (ta_guard a) as [[r g]|] eqn:Eg; [|discriminate]. destruct (ta_elems a) as [|e [|? ?]]; try discriminate.
    destruct (te_tuple e) as [|t [|? ?]]; try discriminate. destruct (te_cond e); [|discriminate].
    apply bind_ok in E as [x [_ E]]. apply bind_ok in E as [y [_ E]]. destruct (simplify _) as [lhs rhs].
    apply bind_ok in E as [R [ER E]]. injection E as <-. cbn [ps_iqs]. apply Forall_app. split; [exact H|]. constructor; [|constructor].
    unfold nonstrict. cbn [q_rel]. refine (Hrel "diff" _ M2 r g R eq_refl ER). rewrite !elem_of_cons; auto. }
  destruct (match0 (ta_term a) "sum") eqn:M3.
  { apply match0_called in M3. destruct (ta_guard a) as [[r g]|] eqn:Eg; [|discriminate].
    apply bind_ok in E as [[[aux iqs] x] [Es E]]. apply bind_ok in E as [y [_ E]]. destruct (simplify _) as [lhs rhs].
    apply bind_ok in E as [R [ER E]]. injection E as <-. cbn [ps_iqs]. apply Forall_app. split; [eapply sum_elems_nonstrict; eassumption|].
    constructor; [|constructor]. unfold nonstrict. cbn [q_rel]. refine (Hrel "sum" _ M3 r g R eq_refl ER). rewrite !elem_of_cons; auto. }
  destruct (_ || _).
  { apply bind_ok in E as [[[aux iqs] x] [Es E]]. injection E as <-. cbn [ps_iqs]. eapply sum_elems_nonstrict; eassumption. }
  injection E as <-. exact H.
Qed.
Lemma parse_atoms_nonstrict bk mp l : forall st st', (forall a, a ∈ l -> admitted THEORY a \/ foreign THEORY a) ->
  parse_atoms bk mp l st = Ok st' -> Forall nonstrict (ps_iqs st) -> Forall nonstrict (ps_iqs st').
Proof.
  induction l as [|a l IH]; intros st st' Ha E H; cbn [parse_atoms] in E.
  - injection E as <-. exact H.
  - apply bind_ok in E as [st1 [E1 E]]. apply (IH st1 st'); [intros b Hb; apply Ha; now right|exact E|].
    eapply parse_atom_nonstrict; [apply Ha; left|exact E1|exact H].
Qed.
Lemma loaded_nonstrict bk mp l st : loaded mp bk l st -> (forall a, a ∈ l -> admitted THEORY a \/ foreign THEORY a) -> Forall nonstrict (ps_iqs st).
Proof.
  induction 1 as [|l st l' st' Hl IH E]; intros Ha; [constructor|].
  unfold evaluate_theory in E. apply bind_ok in E as [st1 [E1 E]].
  assert (H1 : Forall nonstrict (ps_iqs st1)).
  { eapply parse_atoms_nonstrict; [|exact E1|]; [intros a Hin|apply IH; intros a Hin]; apply Ha, elem_of_app; auto. }
  destruct (simplify _) as [obj rhs]. destruct (decide _); [|discriminate]. injection E as <-. exact H1.
Qed.

(** Without --strict no strict inequality reaches the solver: the programs
    clingo lets through are exactly what [Solver<Rational>] is meant for.  With
    --strict everything is, see [C46_strict_shots]. *)
Theorem C46_nonstrict_only t bk mp l st : t_strict t = false -> loaded mp bk l st ->
  (forall a, a ∈ l -> admitted (rg_theory (clingolpx_register t)) a \/ foreign (rg_theory (clingolpx_register t)) a) ->
  rg_value (clingolpx_register t) = TRational /\ forall q, q ∈ ps_iqs st -> q_rel q = Rle \/ q_rel q = Rge \/ q_rel q = Req.
Proof.
  intros Ht Hl Ha. unfold clingolpx_register in *. rewrite Ht in *. cbn in *. split; [reflexivity|].
  pose proof (loaded_nonstrict bk mp l st Hl Ha) as H. rewrite Forall_forall in H. exact H.
Qed.

(** Sessions of programs that pass the grammar meet the assumptions of the
    theorems about sessions ([shot_ok], [step_ok] and [clean_atom]) for the
    value type that is registered with the grammar. *)
Theorem C46_plain_shots t bk mp l st (h : host) (srt : nat -> list (bound Qc) -> list (bound Qc)) n log :
  t_strict t = false -> validate_options t = true -> loaded mp bk l st ->
  (forall a, a ∈ l -> admitted (rg_theory (clingolpx_register t)) a \/ foreign (rg_theory (clingolpx_register t)) a) ->
  (forall i x, srt i x ≡ₚ x) ->
  rg_value (clingolpx_register t) = TRational /\ shot_ok (Shot h srt n (ps_iqs st) (ps_obj st) log : shot Qc symbol) /\
  step_ok (V := Qc) (rg_options (clingolpx_register t)) /\ (forall a, a ∈ l -> clean_atom a).
Proof.
  intros Ht Hv Hl Ha Hs.
  destruct (C46_nonstrict_only t bk mp l st Ht Hl Ha) as [Hr Hq]. split; [exact Hr|].
  assert (Hc : forall a, a ∈ l -> clean_atom a) by (intros a Hin; exact (admitted_clean _ _ (Ha a Hin))).
  destruct (C18_programs mp bk l st Hl Hc) as [H1 H2]. split; [|split; [|exact Hc]].
  - constructor; cbn; auto. intros q Hin. specialize (Hq q Hin). split; apply representable_Qc; destruct Hq as [->|[->| ->]]; cbn; auto.
  - unfold clingolpx_register. rewrite Ht. cbn. intros g Hg. unfold validate_options in Hv. rewrite Ht, Hg in Hv. cbn in Hv.
    rewrite negb_involutive in Hv. cbn. rewrite Hv. discriminate.
Qed.
Theorem C46_strict_shots t bk mp l st (h : host) (srt : nat -> list (bound RatQ) -> list (bound RatQ)) n log :
  t_strict t = true -> loaded mp bk l st ->
  (forall a, a ∈ l -> admitted (rg_theory (clingolpx_register t)) a \/ foreign (rg_theory (clingolpx_register t)) a) ->
  (forall i x, srt i x ≡ₚ x) ->
  rg_value (clingolpx_register t) = TRationalQ /\ shot_ok (Shot h srt n (ps_iqs st) (ps_obj st) log : shot RatQ symbol) /\
  step_ok (V := RatQ) (rg_options (clingolpx_register t)) /\ (forall a, a ∈ l -> clean_atom a).
Proof.
  intros Ht Hl Ha Hs. split; [unfold clingolpx_register; now rewrite Ht|].
  assert (Hc : forall a, a ∈ l -> clean_atom a) by (intros a Hin; exact (admitted_clean _ _ (Ha a Hin))).
  destruct (C18_programs mp bk l st Hl Hc) as [H1 H2]. split; [|split; [|exact Hc]].
  - constructor; cbn; auto. intros q _. split; apply representable_RatQ.
  - intros g Hg. cbn. discriminate.
Qed.

(** Every atom of the grammar is interpreted: it is one of the five kinds, a
    relation that comes with it has a meaning, and all operators in its terms
    are ones the parser knows; atoms of other theories are ignored. *)
Lemma register_theory t : rg_theory (clingolpx_register t) = if t_strict t then THEORY_Q else THEORY.
Proof. unfold clingolpx_register. now destruct (t_strict t). Qed.
Theorem C46_atoms_interpreted th a : admitted (rg_theory (clingolpx_register th)) a ->
  (exists n : string, n ∈ ["minimize"; "maximize"; "sum"; "diff"; "dom"] /\ called n a) /\
  (forall r g, ta_guard a = Some (r, g) -> is_constraint a /\ (exists R, relation_name r R) /\ known g) /\
  (forall e t, e ∈ ta_elems a -> t ∈ te_tuple e -> known t).
Proof.
  rewrite register_theory. set (s := t_strict th). clearbody s. intros Ha.
  assert (Hk : forall n ops t, find_term (td_terms (if s then THEORY_Q else THEORY)) n = Some ops -> built ops t -> known t).
  { intros n ops t E Hb.
    assert (Hops : ops = sum_ops \/ ops = dom_ops).
    { destruct s; cbn [THEORY THEORY_Q td_terms find_term] in E; destruct (String.eqb "sum_term" n); [injection E; auto| |injection E; auto|];
        (destruct (String.eqb "dom_term" n); [injection E; auto|discriminate]). }
    assert (Hs : forall op n, sum_bin op n -> operator op 2).
    { intros op k [[_ H]|[_ H]]; rewrite !elem_of_cons, elem_of_nil in H; destruct H as [->|[->|[]]]; left; auto 8. }
    destruct Hops as [->| ->]; [exact (built_known _ _ t sum_table Hs Hb)|refine (built_known _ _ t dom_table _ Hb)].
    intros op k [H|[_ ->]]; [eauto|left; auto 8]. }
  split; [|split].
  - destruct (admitted_cases s a Ha) as [(n & Hn & Hc & _)|[(n & Hn & Hc & _)|[Hc _]]].
    + exists n. split; [|exact Hc]. rewrite !elem_of_cons in *. destruct Hn as [->|[->|Hn]]; auto. inversion Hn.
    + exists n. split; [|exact Hc]. rewrite !elem_of_cons in *. destruct Hn as [->|[->|Hn]]; auto. inversion Hn.
    + exists "dom". split; [rewrite !elem_of_cons; auto 8|exact Hc].
  - intros r g Eg. split; [|split].
    + destruct (admitted_cases s a Ha) as [(n & Hn & Hc & E)|[(n & Hn & Hc & _)|[Hc _]]].
      * congruence.
      * unfold is_constraint. rewrite !elem_of_cons, elem_of_nil in Hn. destruct Hn as [->|[->|[]]]; auto.
      * right; right; exact Hc.
    + destruct (admitted_cases s a Ha) as [(n & Hn & Hc & E)|[(n & Hn & Hc & Hg)|[Hc Hg]]].
      * congruence.
      * specialize (Hg r g Eg). destruct s; rewrite !elem_of_cons, elem_of_nil in Hg.
        -- destruct Hg as [->|[->|[->|[->|[->|[]]]]]]; eexists; constructor.
        -- destruct Hg as [->|[->|[->|[]]]]; eexists; constructor.
      * rewrite (Hg r g Eg). eexists. constructor.
    + destruct Ha as [d ops Hd Hn Hf He Hg]. rewrite Eg in Hg. destruct (ad_guard d) as [[rs tm]|]; [|destruct Hg].
      destruct Hg as (_ & gops & E & H). exact (Hk _ _ _ E H).
  - destruct Ha as [d ops Hd Hn Hf He Hg]. intros e t H1 H2. exact (Hk _ _ _ Hf (He e t H1 H2)).
Qed.
Theorem C46_other_theories_ignored th bk mp a st : foreign (rg_theory (clingolpx_register th)) a -> parse_atom bk mp a st = Ok st.
Proof.
  rewrite register_theory. set (s := t_strict th). clearbody s.
  intros Ha. assert (Hm : forall n, n ∈ ["minimize"; "maximize"; "sum"; "diff"; "dom"] -> match0 (ta_term a) n = false).
  { intros n Hn. destruct (match0 (ta_term a) n) eqn:E; [|reflexivity]. exfalso. exact (foreign_other s a n Ha Hn (match0_called _ _ E)). }
  unfold parse_atom. rewrite !Hm by (rewrite !elem_of_cons; auto 8). reflexivity.
Qed.

(** All five relations can be written in strict mode, the strict ones only there. *)
Theorem C46_relations th r R : relation_name r R ->
  (forall d rs t, d ∈ td_atoms (rg_theory (clingolpx_register th)) -> ad_name d ∈ ["sum"; "diff"] -> ad_guard d = Some (rs, t) ->
     (r ∈ rs <-> t_strict th = true \/ (R <> Rlt /\ R <> Rgt))) /\
  (forall n, n ∈ ["sum"; "diff"] -> exists d, d ∈ td_atoms (rg_theory (clingolpx_register th)) /\ ad_name d = n /\ ad_guard d <> None).
Proof.
  rewrite register_theory. set (s := t_strict th). clearbody s. intros HR. split.
  - intros d rs t Hd Hn Hg. destruct s; cbn [THEORY THEORY_Q td_atoms] in Hd; rewrite !elem_of_cons, elem_of_nil in Hd;
      (destruct Hd as [->|[->|[->|[->|[->|[]]]]]]); cbn [ad_name ad_guard] in *; rewrite ?elem_of_cons, ?elem_of_nil in Hn;
      try (destruct Hn as [?|[?|[]]]; discriminate); injection Hg as <- <-; rewrite !elem_of_cons, elem_of_nil.
    all: destruct HR; (split; intros H; [first [left; reflexivity | right; split; discriminate | idtac]|]).
    all: try solve [auto 8].
    all: try solve [exfalso; repeat (destruct H as [H|H]; [discriminate H|]); destruct H].
    all: exfalso; destruct H as [H|[H1 H2]]; [discriminate H|congruence].
  - intros n Hn. rewrite !elem_of_cons, elem_of_nil in Hn.
    destruct s; cbn [THEORY THEORY_Q td_atoms]; (destruct Hn as [->|[->|[]]]); (eapply (ex_intro _ (AtomDef _ _ (Some _) _)); split; [|split; [cbn [ad_name]; reflexivity|discriminate]]; rewrite !elem_of_cons; eauto 8).
Qed.

(** clingo is given the callback for choosing signs iff a heuristic is selected. *)
Theorem C46_decide_registered t : rg_decide (clingolpx_register t) = true <-> o_select (t_opts t) <> SelectNone.
Proof. unfold clingolpx_register, facade. destruct (t_strict t); cbn; destruct (o_select (t_opts t)); split; congruence. Qed.
End atoms.

(** ** The program of [Props_Program] passes the grammar for strict mode, and
    without its second atom also the other one, which refuses the relation of that atom. *)
Definition a_theory (strict : bool) : theory := Theory (Options SelectNone StoreNo None PropNone true) strict.
Ltac built_op := lazymatch goal with
  | |- built _ (TNum _) => apply bu_num
  | |- built _ (TSym _) => apply bu_con; vm_compute; reflexivity
  | |- built _ (TFun ?f [?a; ?b]) => apply (bu_ops _ [Operand a; Op f; Operand b]); [intros u Hu; rewrite !elem_of_cons, elem_of_nil in Hu;
      (destruct Hu as [E|[E|[E|[]]]]); try discriminate E; injection E as ->; built_op|vm_compute; reflexivity]
  end.
Lemma pgm_admitted a : a ∈ pgm -> admitted THEORY_Q a.
Proof.
  unfold pgm. rewrite !elem_of_cons, elem_of_nil. intros H.
  assert (Hd : forall d, d ∈ td_atoms THEORY_Q <-> In d (td_atoms THEORY_Q)) by (intros d; apply elem_of_list_In).
  destruct H as [->|[->|[->|[->|[->|[]]]]]].
  1, 2: apply (adm_atom _ _ (AtomDef "sum" "sum_term" (Some (["<="; "="; ">="; "<"; ">"]%string, "sum_term"%string)) Head) sum_ops).
  11: apply (adm_atom _ _ (AtomDef "dom" "dom_term" (Some (["="]%string, "dom_term"%string)) Head) dom_ops).
  16: apply (adm_atom _ _ (AtomDef "diff" "sum_term" (Some (["<="; "="; ">="; "<"; ">"]%string, "sum_term"%string)) Head) sum_ops).
  21: apply (adm_atom _ _ (AtomDef "maximize" "sum_term" None Directive) sum_ops).
  all: try (apply Hd; cbn; auto 8; fail).
  all: try (left; reflexivity).
  all: try reflexivity.
  all: cbn [ta_guard ad_guard ta_elems].
  all: try (split; [rewrite !elem_of_cons; auto 8|]; eexists; split; [reflexivity|built_op]).
  all: try exact Logic.I.
  all: intros e t He Ht; rewrite ?elem_of_cons, elem_of_nil in He; repeat (destruct He as [He|He]; [subst e; cbn [te_tuple] in Ht; rewrite !elem_of_cons, elem_of_nil in Ht; destruct Ht as [->|[]]; built_op|]); destruct He.
Qed.
Example C46_example : (forall a, a ∈ pgm -> admitted (rg_theory (clingolpx_register (a_theory true))) a) /\
  exists a r, a ∈ pgm /\ ta_guard a = Some ("<"%string, r) /\ ~ admitted (rg_theory (clingolpx_register (a_theory false))) a.
Proof.
  split; [exact pgm_admitted|].
  exists (nth 1 pgm (TAtom (TSym "sum") [] None 0%Z)), (TNum 3). split; [apply elem_of_list_In; cbn; auto|]. split; [reflexivity|].
  intros H. change (admitted (if false then THEORY_Q else THEORY) (nth 1 pgm (TAtom (TSym "sum") [] None 0%Z))) in H.
  destruct (admitted_cases false _ H) as [(n & _ & _ & E)|[(n & _ & _ & E)|[_ E]]]; [discriminate E| |].
  - specialize (E _ _ eq_refl). cbn in E. rewrite !elem_of_cons, elem_of_nil in E. repeat (destruct E as [E|E]; [discriminate E|]). destruct E.
  - specialize (E _ _ eq_refl). discriminate E.
Qed.
