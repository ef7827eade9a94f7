(** * What the constraints mean: the specification the theorems are stated with

    Nothing here refers to the solver: a linear expression over symbols is
    evaluated under an assignment of rationals, and a constraint holds or not. *)

From Verif Require Import Num Sums Solver.

Section spec.
  Context {Sym : Type}.

  (** value of a linear expression *)
  Fixpoint lin (A : Sym -> Qc) (ts : list (Qc * Sym)) : Qc :=
    match ts with [] => 0 | (c, x) :: r => c * A x + lin A r end%Qc.
  Definition relq (r : rel) (x y : Qc) : Prop :=
    match r with Rle => x <= y | Rge => y <= x | Req => x = y | Rlt => x < y | Rgt => y < x end%Qc.
  (** the assignment [A] satisfies the constraint [q] *)
  Definition holds (A : Sym -> Qc) (q : ineq Sym) : Prop := relq (q_rel q) (lin A (q_lhs q)) (q_rhs q).

  (** The value that [q], read as [c*x = rhs], gives to x satisfies [q'], read
      as [c'*x rel' rhs'], but not with equality. *)
  Definition slack (q q' : ineq Sym) (c c' : Qc) : Prop :=
    relq (q_rel q') (c' * (q_rhs q / c))%Qc (q_rhs q') /\ (c' * (q_rhs q / c))%Qc <> q_rhs q'.

  (** A set of constraints is satisfiable. *)
  Definition satisfiable (qs : list (ineq Sym)) : Prop := exists A, forall q, q ∈ qs -> holds A q.
  (** The clause [c] forbids only combinations of literals whose constraints
      are jointly unsatisfiable: it is the clause of the negated literals of
      some unsatisfiable subset of [qs]. *)
  Definition clause_sound (qs : list (ineq Sym)) (c : list Z) : Prop :=
    exists bad, c = map (fun q => (- q_lit q)%Z) bad /\ (forall q, q ∈ bad -> q ∈ qs) /\ ~ satisfiable bad.
  (** the literal [l] is true in the boolean assignment [tr] (a predicate on
      positive and negative literals) *)
  Definition clause_true (tr : Z -> Prop) (c : list Z) : Prop := exists l, l ∈ c /\ tr l.
End spec.

(** A sound clause is never false in a world where every constraint whose
    literal is true is satisfied by one common assignment. *)
Lemma clause_sound_true {Sym} (qs : list (ineq Sym)) c (tr : Z -> Prop) (A : Sym -> Qc) :
  clause_sound qs c -> (forall l, tr l \/ tr (- l)%Z) ->
  (forall q, q ∈ qs -> tr (q_lit q) -> holds A q) -> clause_true tr c.
Proof.
  intros (bad & -> & Hsub & Hun) Htot HA.
  assert (D : (exists q, q ∈ bad /\ tr (- q_lit q)%Z) \/ (forall q, q ∈ bad -> tr (q_lit q))).
  { clear Hun. assert (Hsub' := Hsub). clear Hsub. induction bad as [|q bad IH].
    - right. intros q Hq. inversion Hq.
    - destruct (Htot (q_lit q)) as [Ht|Ht].
      + destruct IH as [(q' & Hq' & Ht')|IH].
        * intros x Hx. apply Hsub', elem_of_cons; auto.
        * left. exists q'. split; auto. apply elem_of_cons; auto.
        * right. intros x Hx. apply elem_of_cons in Hx as [->|Hx]; auto.
      + left. exists q. split; auto. apply elem_of_cons; auto. }
  destruct D as [(q & Hq & Ht)|D].
  - exists (- q_lit q)%Z. split; auto. apply elem_of_list_In, in_map_iff. exists q. split; auto. apply elem_of_list_In; auto.
  - exfalso. apply Hun. exists A. intros q Hq. apply HA; auto.
Qed.

(** The same over the values the solver computes with. *)
Section specv.
  Context {V : Type} `{VL : ValueLaws V} {Sym : Type}.

  Fixpoint linV (A : Sym -> V) (ts : list (Qc * Sym)) : V :=
    match ts with [] => vzero | (c, x) :: r => vadd (vscale c (A x)) (linV A r) end.
  Definition relv (r : rel) (x y : V) : Prop :=
    match r with Rle => vle x y | Rge => vle y x | Req => x = y | Rlt => vlt x y | Rgt => vlt y x end.
  Definition holdsV (A : Sym -> V) (q : ineq Sym) : Prop := relv (q_rel q) (linV A (q_lhs q)) (vofq (q_rhs q)).

  (** A value a + b*epsilon has the components [vemb v = (a, b)].  [relm r v c]:
      like [relv], but a strict relation asks for a distance of at least
      epsilon. *)
  Definition relm (r : rel) (v : V) (c : Qc) : Prop :=
    match r with
    | Rle => vle v (vofq c)
    | Rge => vle (vofq c) v
    | Req => v = vofq c
    | Rlt => ((vemb v).1 < c \/ (vemb v).1 = c /\ (vemb v).2 <= -(1))%Qc
    | Rgt => (c < (vemb v).1 \/ (vemb v).1 = c /\ 1 <= (vemb v).2)%Qc
    end.
  Definition mirrored (r : rel) : rel := match r with Rle => Rge | Rge => Rle | Req => Req | Rlt => Rgt | Rgt => Rlt end.
  (** the constraint with this distance; a constraint on one variable is first
      divided by the coefficient *)
  Definition keptV (A : Sym -> V) (q : ineq Sym) : Prop :=
    match q_lhs q with
    | [(c, x)] => relm (if Qclt_le_dec c 0 then mirrored (q_rel q) else q_rel q) (A x) (q_rhs q / c)%Qc
    | ts => relm (q_rel q) (linV A ts) (q_rhs q)
    end.

  (** a value without epsilon part *)
  Definition std (v : V) : Prop := (vemb v).2 = 0%Qc.

  Lemma std_eq v : std v -> v = vofq (vemb v).1.
  Proof. intros Hs. apply v_ext; rewrite vemb_ofq; cbn; auto. Qed.
  Lemma std_ofq q : std (vofq q).
  Proof. unfold std. rewrite vemb_ofq. auto. Qed.
  Lemma std_add v w : std v -> std w -> std (vadd v w).
  Proof. unfold std. intros E1 E2. rewrite vemb_add. cbn. rewrite E1, E2. ring. Qed.
  Lemma std_scale c v : std v -> std (vscale c v).
  Proof. unfold std. intros E1. rewrite vemb_scale. cbn. rewrite E1. ring. Qed.
  Lemma std_zero : std vzero.
  Proof. unfold std. rewrite vemb_zero. auto. Qed.
  Lemma std_linV A ts : (forall x, std (A x)) -> std (linV A ts).
  Proof. intros Hs. induction ts as [|[c x] ts IH]; cbn; [apply std_zero|]. apply std_add; auto. apply std_scale; auto. Qed.

  Lemma relv_ofq r x y : relv r (vofq x) (vofq y) <-> relq r x y.
  Proof.
    destruct r; cbn; rewrite ?vle_emb, ?vlt_emb, ?vemb_ofq; cbn.
    - split; [intros [?|[-> _]]; qclra|]. intros Hl. apply Qcle_lt_or_eq in Hl as [|]; auto.
    - split; [intros [?|[-> _]]; qclra|]. intros Hl. apply Qcle_lt_or_eq in Hl as [|]; auto.
    - split; [|congruence]. intros E. apply (f_equal vemb) in E. rewrite !vemb_ofq in E. congruence.
    - split; [intros [?|[_ E]]; auto; exfalso; qclra|auto].
    - split; [intros [?|[_ E]]; auto; exfalso; qclra|auto].
  Qed.
  Lemma linV_ofq (A : Sym -> Qc) ts : linV (fun x => vofq (A x)) ts = vofq (lin A ts).
  Proof.
    induction ts as [|[c x] ts IH]; cbn [lin linV].
    - apply v_ext; rewrite vemb_zero, vemb_ofq; auto.
    - rewrite IH. vring.
  Qed.
  Lemma holdsV_ofq A q : holdsV (fun x => vofq (A x)) q <-> holds A q.
  Proof. unfold holdsV, holds. rewrite linV_ofq. apply relv_ofq. Qed.
  Lemma linV_ext A B ts : (forall c x, (c, x) ∈ ts -> A x = B x) -> linV A ts = linV B ts.
  Proof.
    induction ts as [|[c x] ts IH]; cbn; auto. intros Hx. rewrite IH, (Hx c x); auto; [left|]. intros c' x' Hin. apply (Hx c'). right. auto.
  Qed.
End specv.

(** Clauses that also use bounds asserted on the objective.  [ass] lists the
    asserted bounds: literal [l] stands for "objective >= v". *)
Section specobj.
  Context {V : Type} `{VL : ValueLaws V} {Sym : Type}.

  Definition reason : Type := (ineq Sym + Z * V)%type.
  Definition reason_lit (g : reason) : Z := match g with inl q => q_lit q | inr (l, _) => l end.
  Definition reason_holds (obj : list (Qc * Sym)) (A : Sym -> Qc) (g : reason) : Prop :=
    match g with inl q => holds A q | inr (_, v) => vle v (vofq (lin A obj)) end.
  Definition clause_sound_obj (qs : list (ineq Sym)) (obj : list (Qc * Sym)) (ass : list (Z * V)) (c : list Z) : Prop :=
    exists bad : list reason, c = map (fun g => (- reason_lit g)%Z) bad /\
      (forall g, g ∈ bad -> match g with inl q => q ∈ qs | inr lv => lv ∈ ass end) /\
      ~ exists A, forall g, g ∈ bad -> reason_holds obj A g.

  Lemma clause_sound_obj_mono qs obj ass ass' c : ass ⊆ ass' -> clause_sound_obj qs obj ass c -> clause_sound_obj qs obj ass' c.
  Proof. intros Hs (bad & E & A & B). exists bad. split; auto. split; auto. intros g Hg. specialize (A g Hg). destruct g; auto. Qed.
  Lemma clause_sound_obj_nil qs obj c : clause_sound_obj qs obj [] c -> clause_sound qs c.
  Proof.
    intros (bad & -> & A & B).
    assert (E : exists l, bad = map inl l /\ forall q, q ∈ l -> q ∈ qs).
    { clear B. induction bad as [|g bad IH].
      - exists []. split; auto. intros q Hq. inversion Hq.
      - destruct IH as (l & -> & Hl); [intros g' Hg'; apply A; right; auto|].
        pose proof (A g (elem_of_list_here _ _)) as Hg. destruct g as [q|lv]; [|inversion Hg].
        exists (q :: l). split; auto. intros q' Hq'. apply elem_of_cons in Hq' as [->|Hq']; auto. }
    destruct E as (l & -> & Hl). exists l. split; [rewrite map_map; auto|]. split; auto.
    intros (A' & HA). apply B. exists A'. intros g Hg. apply elem_of_list_fmap in Hg as (q & -> & Hq). apply HA. auto.
  Qed.
  (** ... are true whenever the reported objective bounds are beaten *)
  Lemma clause_sound_obj_true qs obj ass c (tr : Z -> Prop) (A : Sym -> Qc) :
    clause_sound_obj qs obj ass c -> (forall l, tr l \/ tr (- l)%Z) ->
    (forall q, q ∈ qs -> tr (q_lit q) -> holds A q) -> (forall l v, (l, v) ∈ ass -> vle v (vofq (lin A obj))) -> clause_true tr c.
  Proof.
    intros (bad & -> & Hsub & Hun) Htot HA Hv.
    assert (D : (exists g, g ∈ bad /\ tr (- reason_lit g)%Z) \/ (forall g, g ∈ bad -> tr (reason_lit g))).
    { clear Hun Hsub. induction bad as [|g bad IH].
      - right. intros g Hg. inversion Hg.
      - destruct (Htot (reason_lit g)) as [Ht|Ht].
        + destruct IH as [(g' & Hg' & Ht')|IH].
          * left. exists g'. split; auto. apply elem_of_cons; auto.
          * right. intros x Hx. apply elem_of_cons in Hx as [->|Hx]; auto.
        + left. exists g. split; auto. apply elem_of_cons; auto. }
    destruct D as [(g & Hg & Ht)|D].
    - exists (- reason_lit g)%Z. split; auto. apply elem_of_list_fmap. exists g. auto.
    - exfalso. apply Hun. exists A. intros g Hg. specialize (Hsub g Hg). specialize (D g Hg). destruct g as [q|[l v]]; cbn in *; eauto.
  Qed.
End specobj.
