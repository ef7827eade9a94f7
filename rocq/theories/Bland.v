(** * Termination of Bland's rule (proof library, no model of code)

    Abstract runs of the two simplex loops.  A run is given by functions of
    the step number; the connection to the code is made in later files. *)

From stdpp Require Import list_numbers.
From Verif Require Import Num Sums.

(** ** Codes: what a variable's value is determined by *)

Inductive event := EPiv (i j : nat) (m : bool) | EFlip (j : nat) (m : bool).

(** code 3: basic; 0: initial value; 1: lower bound; 2: upper bound *)
Definition mark (m : bool) : nat := if m then 1 else 2.

Section codes.
  Context (n : nat) (ev : nat -> event) (code0 : nat -> nat).

  Fixpoint code (t k : nat) : nat :=
    match t with
    | 0 => code0 k
    | S t => match ev t with
             | EPiv i j m => if k =? i then mark m else if k =? j then 3 else code t k
             | EFlip j m => if k =? j then mark m else code t k
             end
    end.

  Definition enters (t k : nat) : Prop := exists i m, ev t = EPiv i k m.
  Definition leaves (t k : nat) (m : bool) : Prop := exists j, ev t = EPiv k j m.

  Context (N : nat).
  Hypothesis Hpiv : forall t i j m, t < N -> ev t = EPiv i j m -> code t i = 3 /\ code t j <> 3 /\ i < n /\ j < n.
  Hypothesis Hflip : forall t j m, t < N -> ev t = EFlip j m -> code t j <> 3 /\ j < n.

  Lemma mark_not3 m : mark m <> 3.
  Proof. destruct m; discriminate. Qed.

  Lemma code_lt3 t k : (forall k, code0 k <= 3) -> code t k <= 3.
  Proof.
    intros H0. induction t as [|t IH]; cbn; auto.
    destruct (ev t) as [i j m|j m].
    - destruct (k =? i); [destruct m; cbn; lia|]. destruct (k =? j); auto.
    - destruct (k =? j); [destruct m; cbn; lia|]. auto.
  Qed.

  Section cycle.
    Context (t1 t2 : nat).
    Hypothesis Ht : t1 < t2.
    Hypothesis HtN : t2 <= N.
    Hypothesis Hnoflip : forall t j m, t1 <= t -> t < t2 -> ev t <> EFlip j m.
    Hypothesis Hcyc : forall k, k < n -> code t1 k = code t2 k.

    Lemma is_pivot t : t1 <= t -> t < t2 -> exists i j m, ev t = EPiv i j m.
    Proof. intros A B. destruct (ev t) eqn:E; eauto. exfalso. eapply Hnoflip; eauto. Qed.

    (** a non-basic variable kept its code or left during the cycle *)
    Lemma code_nonbasic t k : t1 <= t -> t <= t2 -> code t k <> 3 ->
      ((forall x, t1 <= x -> x < t -> ~ enters x k) /\ code t k = code t1 k) \/
      (exists s m, t1 <= s /\ s < t /\ leaves s k m /\ code t k = mark m).
    Proof.
      intros A. induction A as [|t A IH]; intros B C.
      - left. split; auto. intros; lia.
      - destruct (is_pivot t A) as (i & j & m & E); [lia|]. cbn in C |- *. rewrite E in C |- *.
        destruct (Nat.eqb_spec k i) as [->|Hi].
        + right. exists t, m. split; [auto|]. split; [lia|]. split; [exists j; auto|auto].
        + destruct (Nat.eqb_spec k j) as [->|Hj]; [congruence|].
          destruct IH as [[H1 H2]|(s & m' & ? & ? & ? & ?)]; [lia|auto|left|right].
          * split; auto. intros x X1 X2. destruct (Nat.eq_dec x t) as [->|]; [|apply H1; lia].
            intros (i' & m' & E'). congruence.
          * exists s, m'. repeat split; auto.
    Qed.

    (** a variable that never enters and is basic has been basic *)
    Lemma code_basic t k : t1 <= t -> t <= t2 -> (forall x, t1 <= x -> x < t2 -> ~ enters x k) -> code t k = 3 -> code t1 k = 3.
    Proof.
      intros A. induction A as [|t A IH]; intros B C D; auto.
      destruct (is_pivot t A) as (i & j & m & E); [lia|]. cbn in D. rewrite E in D.
      destruct (Nat.eqb_spec k i); [exfalso; eapply mark_not3; eauto|].
      destruct (Nat.eqb_spec k j) as [->|]; [exfalso; apply (C t); [auto|lia|exists i, m; auto]|]. apply IH; auto; lia.
    Qed.

    Lemma code_stays t t' k : t1 <= t -> t <= t' -> t' <= t2 -> (forall x, t1 <= x -> x < t2 -> ~ enters x k) ->
      code t k <> 3 -> code t' k <> 3.
    Proof.
      intros A A' B C D. revert B. induction A' as [|t' A' IH]; intros B; auto.
      destruct (is_pivot t') as (i & j & m & E); [lia|lia|]. cbn. rewrite E.
      destruct (Nat.eqb_spec k i); [apply mark_not3|].
      destruct (Nat.eqb_spec k j) as [->|]; [exfalso; apply (C t'); [lia|lia|exists i, m; auto]|]. apply IH; lia.
    Qed.

    (** who leaves also enters *)
    Lemma leaves_enters s k m : t1 <= s -> s < t2 -> leaves s k m -> exists x, t1 <= x /\ x < t2 /\ enters x k.
    Proof.
      intros A B (j & E). destruct (Hpiv s k j m) as (C & _ & Hk & _); auto; [lia|].
      destruct (decide (Exists (fun x => (match ev x with EPiv _ y _ => y =? k | _ => false end) = true) (seq t1 (t2 - t1)))) as [D|D].
      - apply Exists_exists in D as (x & X1 & X2). apply elem_of_list_In, in_seq in X1. exists x. split; [lia|]. split; [lia|].
        destruct (ev x) as [i y m0|] eqn:Ex; [|discriminate]. apply Nat.eqb_eq in X2 as ->. exists i, m0. auto.
      - exfalso.
        assert (Hno : forall x, t1 <= x -> x < t2 -> ~ enters x k).
        { intros x X1 X2 (i & m' & E'). apply D. apply Exists_exists. exists x. rewrite elem_of_list_In, in_seq, E', Nat.eqb_refl. split; auto. lia. }
        assert (code t1 k = 3) by (apply (code_basic s k); auto; lia).
        assert (code (S s) k <> 3). { cbn. rewrite E, Nat.eqb_refl. apply mark_not3. }
        assert (code t2 k <> 3) by (apply (code_stays (S s) t2 k); auto; lia).
        rewrite <- Hcyc in H1; auto.
    Qed.

    (** the largest variable that enters *)
    Lemma largest_enters : exists r te, t1 <= te /\ te < t2 /\ enters te r /\
      forall t k, t1 <= t -> t < t2 -> enters t k -> k <= r.
    Proof.
      assert (G : forall m, t1 + S m <= t2 -> exists r te, t1 <= te /\ te < t1 + S m /\ enters te r /\
                 forall t k, t1 <= t -> t < t1 + S m -> enters t k -> k <= r).
      { induction m as [|m IH]; intros Hm.
        - destruct (is_pivot t1) as (i & j & mm & E); [lia|lia|]. exists j, t1. split; [lia|]. split; [lia|].
          split; [exists i, mm; auto|]. intros t k A B (i' & m' & E'). assert (t = t1) by lia. subst.
          rewrite E in E'. injection E' as -> -> ->. lia.
        - destruct IH as (r & te & A & B & C & D); [lia|]. destruct (is_pivot (t1 + S m)) as (i & j & mm & E); [lia|lia|].
          destruct (le_lt_dec j r).
          + exists r, te. split; [lia|]. split; [lia|]. split; auto. intros t k X Y Z.
            destruct (Nat.eq_dec t (t1 + S m)) as [->|]; [|apply (D t k); auto; lia].
            destruct Z as (i' & m' & E'). rewrite E in E'. injection E' as -> -> ->. auto.
          + exists j, (t1 + S m). split; [lia|]. split; [lia|]. split; [exists i, mm; auto|]. intros t k X Y Z.
            destruct (Nat.eq_dec t (t1 + S m)) as [->|].
            * destruct Z as (i' & m' & E'). rewrite E in E'. injection E' as -> -> ->. auto.
            * assert (k <= r) by (apply (D t k); auto; lia). lia. }
      destruct (G (t2 - t1 - 1)) as (r & te & A & B & C & D); [lia|].
      exists r, te. split; [lia|]. split; [lia|]. split; [auto|]. intros. eapply D; eauto. lia.
    Qed.

    Lemma code_fixed k t : (forall x, t1 <= x -> x < t2 -> ~ enters x k) -> k < n -> t1 <= t -> t <= t2 ->
      code t k = code t1 k.
    Proof.
      intros Hno Hk A. induction A as [|t A IH]; intros B; auto.
      destruct (is_pivot t A) as (i & j & m & E); [lia|]. cbn. rewrite E.
      destruct (Nat.eqb_spec k i) as [->|].
      { destruct (leaves_enters t i m) as (x & X1 & X2 & X3); [auto|lia|exists j; auto|]. exfalso. eapply Hno; eauto. }
      destruct (Nat.eqb_spec k j) as [->|]; [exfalso; apply (Hno t); [auto|lia|exists i, m; auto]|]. apply IH. lia.
    Qed.

    Theorem cycle_pair : exists r te s m,
      t1 <= te /\ te < t2 /\ t1 <= s /\ s < t2 /\ enters te r /\ leaves s r m /\ code te r = mark m /\
      (forall t k, t1 <= t -> t < t2 -> enters t k -> k <= r) /\
      (forall t k m', t1 <= t -> t < t2 -> leaves t k m' -> k <= r) /\
      (forall k t t', r < k -> k < n -> t1 <= t -> t <= t2 -> t1 <= t' -> t' <= t2 -> code t k = code t' k).
    Proof.
      destruct largest_enters as (r & te & A & B & C & D).
      assert (Hc : code te r <> 3 /\ r < n).
      { destruct C as (i & m & E). destruct (Hpiv te i r m) as (_ & ? & _ & ?); auto. lia. }
      destruct Hc as [Hc Hrn].
      assert (Hs : exists s m, t1 <= s /\ s < t2 /\ leaves s r m /\ code te r = mark m).
      { destruct (code_nonbasic te r) as [[H1 H2]|(s & m & ? & ? & ? & ?)]; [auto|lia|auto| |].
        - destruct (code_nonbasic t2 r) as [[H3 H4]|(s & m & ? & ? & ? & ?)]; [lia|lia|rewrite <- Hcyc; auto; congruence| |].
          + exfalso. apply (H3 te); auto.
          + exists s, m. repeat split; auto. rewrite H2, Hcyc; auto.
        - exists s, m. repeat split; auto. lia. }
      destruct Hs as (s & m & S1 & S2 & S3 & S4).
      exists r, te, s, m. repeat (split; [assumption|]). split.
      - intros t k m' X Y Z. destruct (leaves_enters t k m') as (x & X1 & X2 & X3); auto. eapply D; eauto.
      - intros k t t' Hr Hk X1 X2 Y1 Y2.
        assert (Hno : forall x, t1 <= x -> x < t2 -> ~ enters x k).
        { intros x P Q R. apply D in R; auto. lia. }
        rewrite (code_fixed k t), (code_fixed k t'); auto.
    Qed.
  End cycle.

  (** ** Pigeonhole *)
  Fixpoint key (m t : nat) : nat := match m with 0 => 0 | S m => code t m + 4 * key m t end.

  Lemma key_lt m t : (forall k, code0 k <= 3) -> key m t < 4 ^ m.
  Proof. intros H0. induction m; cbn; [lia|]. pose proof (code_lt3 t m H0). lia. Qed.
  Lemma key_inj m t t' : (forall k, code0 k <= 3) -> key m t = key m t' -> forall k, k < m -> code t k = code t' k.
  Proof.
    intros H0. induction m; intros E k Hk; [lia|]. cbn in E.
    pose proof (code_lt3 t m H0). pose proof (code_lt3 t' m H0).
    destruct (Nat.eq_dec k m) as [->|]; [lia|]. apply IHm; lia.
  Qed.

  Theorem no_cycle_bound : (forall k, code0 k <= 3) ->
    (forall t1 t2, t1 < t2 -> t2 <= N -> (forall k, k < n -> code t1 k = code t2 k) -> False) -> N < 4 ^ n.
  Proof.
    intros H0 Hno.
    assert (ND : NoDup (map (key n) (seq 0 (S N)))).
    { apply NoDup_alt. intros i j x Hi Hj.
      rewrite list_lookup_fmap in Hi, Hj.
      destruct (seq 0 (S N) !! i) as [ti|] eqn:Ei; [|discriminate]. destruct (seq 0 (S N) !! j) as [tj|] eqn:Ej; [|discriminate].
      cbn in Hi, Hj. apply lookup_seq in Ei as [-> Hi']. apply lookup_seq in Ej as [-> Hj']. cbn in *.
      destruct (Nat.lt_trichotomy i j) as [L|[L|L]]; auto; exfalso.
      - apply (Hno i j); auto; [lia|]. apply key_inj; auto. congruence.
      - apply (Hno j i); auto; [lia|]. apply key_inj; auto. congruence. }
    assert (Hincl : incl (map (key n) (seq 0 (S N))) (seq 0 (4 ^ n))).
    { intros x Hx. apply in_map_iff in Hx as (t & <- & _). apply in_seq. pose proof (key_lt n t H0). lia. }
    apply NoDup_ListNoDup in ND. pose proof (NoDup_incl_length ND Hincl) as L.
    rewrite map_length, !seq_length in L. lia.
  Qed.
End codes.

(** a sequence of tuples of [n] numbers below [q] without repetition *)
Section repeat.
  Context (n q N : nat) (c : nat -> nat -> nat).
  Hypothesis Hlt : forall t k, t <= N -> k < n -> c t k < q.
  Hypothesis Hno : forall t1 t2, t1 < t2 -> t2 <= N -> (forall k, k < n -> c t1 k = c t2 k) -> False.
  Fixpoint rkey (m t : nat) : nat := match m with 0 => 0 | S m => c t m + q * rkey m t end.
  Lemma rkey_lt m t : t <= N -> m <= n -> rkey m t < q ^ m.
  Proof. intros Ht. induction m; intros Hm; cbn; [lia|]. specialize (IHm ltac:(lia)). pose proof (Hlt t m Ht ltac:(lia)). nia. Qed.
  Lemma rkey_inj m t t' : t <= N -> t' <= N -> m <= n -> rkey m t = rkey m t' -> forall k, k < m -> c t k = c t' k.
  Proof.
    intros Ht Ht'. induction m; intros Hm E k Hk; [lia|]. cbn in E.
    pose proof (Hlt t m Ht ltac:(lia)). pose proof (Hlt t' m Ht' ltac:(lia)).
    assert (c t m = c t' m /\ rkey m t = rkey m t') as [E1 E2].
    { rewrite !(Nat.add_comm (c _ m)) in E. apply (Nat.div_mod_unique q) in E; [|auto|auto]. tauto. }
    destruct (Nat.eq_dec k m) as [->|]; auto. apply IHm; auto; lia.
  Qed.
  Theorem no_repeat_bound : N < q ^ n.
  Proof.
    assert (ND : NoDup (map (rkey n) (seq 0 (S N)))).
    { apply NoDup_alt. intros i j x Hi Hj.
      rewrite list_lookup_fmap in Hi, Hj.
      destruct (seq 0 (S N) !! i) as [ti|] eqn:Ei; [|discriminate]. destruct (seq 0 (S N) !! j) as [tj|] eqn:Ej; [|discriminate].
      cbn in Hi, Hj. apply lookup_seq in Ei as [-> Hi']. apply lookup_seq in Ej as [-> Hj']. cbn in *.
      destruct (Nat.lt_trichotomy i j) as [L|[L|L]]; auto; exfalso.
      - apply (Hno i j); auto; [lia|]. apply rkey_inj; auto; try lia. congruence.
      - apply (Hno j i); auto; [lia|]. apply rkey_inj; auto; try lia. congruence. }
    assert (Hincl : incl (map (rkey n) (seq 0 (S N))) (seq 0 (q ^ n))).
    { intros x Hx. apply in_map_iff in Hx as (t & <- & Ht). apply in_seq in Ht. apply in_seq. pose proof (rkey_lt n t). lia. }
    apply NoDup_ListNoDup in ND. pose proof (NoDup_incl_length ND Hincl) as L.
    rewrite map_length, !seq_length in L. lia.
  Qed.
End repeat.

(** ** Runs of the feasibility loop *)

Section space.
  Context {V : Type} `{VL : ValueLaws V}.
  Context (n : nat) (lo up : nat -> option V).

  Definition within (k : nat) (v : V) : Prop :=
    (forall l, lo k = Some l -> vle l v) /\ (forall u, up k = Some u -> vle v u).

  (** value of the row of [b] under the assignment [a] *)
  Definition rowval (B : nat -> bool) (T : nat -> nat -> Qc) (a : nat -> V) (b : nat) : V :=
    vsum n (fun k => if B k then vzero else vscale (T b k) (a k)).

  (** the value a code stands for *)
  Definition dec (b0 : nat -> V) (c k : nat) : V :=
    match c with
    | 1 => match lo k with Some l => l | None => vzero end
    | 2 => match up k with Some u => u | None => vzero end
    | _ => b0 k
    end.

  (** increasing the variable with coefficient [q] moves the row in direction [m] *)
  Definition incr (m : bool) (q : Qc) : Prop := if m then (0 < q)%Qc else (q < 0)%Qc.

  Section feas.
    Context (N : nat) (B : nat -> nat -> bool) (T : nat -> nat -> nat -> Qc) (be : nat -> nat -> V) (ev : nat -> event).
    Hypothesis Hrows : forall t t' b, t <= N -> t' <= N -> b < n -> B t b = true -> be t' b = rowval (B t) (T t) (be t') b.
    Hypothesis Hnb : forall t k, t <= N -> k < n -> B t k = false -> within k (be t k).
    Hypothesis Hev : forall t, t < N -> exists i j m, ev t = EPiv i j m.
    Hypothesis Hstep : forall t i j m, t < N -> ev t = EPiv i j m ->
      i < n /\ j < n /\ B t i = true /\ B t j = false /\
      (forall k, B (S t) k = if k =? i then false else if k =? j then true else B t k) /\
      (forall k, k < n -> B t k = false -> k <> j -> be (S t) k = be t k).
    Hypothesis Hviol : forall t i j m, t < N -> ev t = EPiv i j m ->
      (if m then exists l, lo i = Some l /\ vlt (be t i) l /\ be (S t) i = l
       else exists u, up i = Some u /\ vlt u (be t i) /\ be (S t) i = u) /\
      (forall b, b < i -> B t b = true -> within b (be t b)).
    Hypothesis Henter : forall t i j m, t < N -> ev t = EPiv i j m ->
      (incr m (T t i j) -> forall u, up j = Some u -> vlt (be t j) u) /\
      (incr (negb m) (T t i j) -> forall l, lo j = Some l -> vlt l (be t j)).
    Hypothesis Hmin : forall t i j m k, t < N -> ev t = EPiv i j m -> k < j -> B t k = false ->
      (incr m (T t i k) -> exists u, up k = Some u /\ vle u (be t k)) /\
      (incr (negb m) (T t i k) -> exists l, lo k = Some l /\ vle (be t k) l).

    Let c0 := fun k => if B 0 k then 3 else 0.
    Local Notation cd := (code ev c0).

    Lemma feas_code t k : t <= N -> cd t k = 3 <-> B t k = true.
    Proof.
      intros Ht. induction t as [|t IH]; cbn.
      - unfold c0. destruct (B 0 k); split; congruence.
      - destruct (Hev t) as (i & j & m & E); [lia|]. rewrite E.
        destruct (Hstep t i j m) as (_ & _ & _ & _ & HB & _); [lia|auto|]. rewrite HB.
        destruct (k =? i). { split; [|discriminate]. intros X. exfalso. eapply mark_not3; eauto. }
        destruct (k =? j); [tauto|]. apply IH; lia.
    Qed.

    Lemma feas_dec t k : t <= N -> k < n -> B t k = false -> be t k = dec (be 0) (cd t k) k.
    Proof.
      intros Ht Hk. induction t as [|t IH]; intros HBk.
      - cbn. unfold c0. rewrite HBk. reflexivity.
      - destruct (Hev t) as (i & j & m & E); [lia|]. cbn. rewrite E.
        destruct (Hstep t i j m) as (_ & _ & _ & _ & HB & Hb); [lia|auto|].
        destruct (Hviol t i j m) as [Hv _]; [lia|auto|].
        rewrite HB in HBk. destruct (Nat.eqb_spec k i) as [->|].
        + destruct m; destruct Hv as (w & Hw & _ & ->); cbn; rewrite Hw; auto.
        + destruct (Nat.eqb_spec k j); [discriminate|]. rewrite Hb; auto. apply IH; auto. lia.
    Qed.

    Lemma feas_no_cycle t1 t2 : t1 < t2 -> t2 <= N -> (forall k, k < n -> cd t1 k = cd t2 k) -> False.
    Proof.
      intros Ht HtN Hc.
      assert (Hp : forall t i j m, t < N -> ev t = EPiv i j m -> cd t i = 3 /\ cd t j <> 3 /\ i < n /\ j < n).
      { intros t i j m Hlt E. destruct (Hstep t i j m) as (? & ? & B1 & B2 & _); auto.
        split; [apply feas_code; auto; lia|]. split; auto. rewrite feas_code by lia. congruence. }
      destruct (cycle_pair n ev c0 N Hp t1 t2 Ht HtN) as (r & te & s & m & A1 & A2 & A3 & A4 & En & Le & Cr & R1 & R2 & R3); auto.
      { intros t j m X Y. destruct (Hev t) as (? & ? & ? & ->); [lia|discriminate]. }
      destruct En as (i & m' & Ee). destruct Le as (j' & El).
      destruct (Hstep te i r m') as (Hi & Hr & Bi & Br & _ & _); [lia|auto|].
      destruct (Hstep s r j' m) as (_ & _ & Br' & _ & _ & _); [lia|auto|].
      assert (Hir : i < r). { assert (i <= r) by (apply (R2 te i m'); auto; exists r; auto). assert (i <> r) by congruence. lia. }
      destruct (Hviol te i r m') as [Hv _]; [lia|auto|].
      destruct (Hviol s r j' m) as [Hv' Hm']; [lia|auto|].
      (* all variables below r are within bounds at s *)
      assert (Hws : forall k, k < r -> within k (be s k)).
      { intros k Hk. destruct (B s k) eqn:Bk; [apply Hm'; auto|apply Hnb; auto; lia]. }
      (* r sits at the bound it was set to *)
      assert (Hbr : be te r = dec (be 0) (mark m) r) by (rewrite <- Cr; apply feas_dec; auto; lia).
      pose proof (Henter te i r m' ltac:(lia) Ee) as [He1 He2].
      assert (Hrs : be s i = rowval (B te) (T te) (be s) i) by (apply Hrows; auto; lia).
      assert (Hrt : be te i = rowval (B te) (T te) (be te) i) by (apply Hrows; auto; lia).
      assert (Hterm : forall k, k < n -> B te k = false -> if m' then vle (vscale (T te i k) (be s k)) (vscale (T te i k) (be te k))
                                            else vle (vscale (T te i k) (be te k)) (vscale (T te i k) (be s k))).
      { intros k Hk Bk. destruct (Nat.lt_trichotomy k r) as [L|[->|L]].
        - destruct (Hmin te i r m' k) as [M1 M2]; auto; [lia|]. destruct (Hws k L) as [W1 W2].
          destruct (Qc_dec (T te i k) 0) as [[Q|Q]|Q].
          + destruct m'; cbn in M1, M2.
            * destruct (M2 Q) as (l & Hl & Hle). apply vscale_le_neg; [apply Qclt_le_weak; auto|]. eapply vle_trans; eauto.
            * destruct (M1 Q) as (u & Hu & Hle). apply vscale_le_neg; [apply Qclt_le_weak; auto|]. eapply vle_trans; eauto.
          + destruct m'; cbn in M1, M2.
            * destruct (M1 Q) as (u & Hu & Hle). apply vscale_le; [apply Qclt_le_weak; auto|]. eapply vle_trans; eauto.
            * destruct (M2 Q) as (l & Hl & Hle). apply vscale_le; [apply Qclt_le_weak; auto|]. eapply vle_trans; eauto.
          + rewrite Q, !vscale_0. destruct m'; apply vle_refl.
        - destruct (Qc_dec (T te i r) 0) as [[Q|Q]|Q].
          + destruct m; destruct Hv' as (w & Hw & Hlt & _); cbn in Hbr; rewrite Hw in Hbr; destruct m'; cbn in He1, He2.
            * exfalso. apply (vlt_irrefl w). rewrite <- Hbr at 2. auto.
            * rewrite Hbr. apply vscale_le_neg; [apply Qclt_le_weak; auto|]. apply vlt_le; auto.
            * rewrite Hbr. apply vscale_le_neg; [apply Qclt_le_weak; auto|]. apply vlt_le; auto.
            * exfalso. apply (vlt_irrefl w). rewrite <- Hbr at 1. auto.
          + destruct m; destruct Hv' as (w & Hw & Hlt & _); cbn in Hbr; rewrite Hw in Hbr; destruct m'; cbn in He1, He2.
            * rewrite Hbr. apply vscale_le; [apply Qclt_le_weak; auto|]. apply vlt_le; auto.
            * exfalso. apply (vlt_irrefl w). rewrite <- Hbr at 2. auto.
            * exfalso. apply (vlt_irrefl w). rewrite <- Hbr at 1. auto.
            * rewrite Hbr. apply vscale_le; [apply Qclt_le_weak; auto|]. apply vlt_le; auto.
          + rewrite Q, !vscale_0. destruct m'; apply vle_refl.
        - assert (Ek : be s k = be te k).
          { assert (Ec : cd s k = cd te k) by (apply R3; auto; lia).
            assert (Bs : B s k = false). { destruct (B s k) eqn:X; auto. apply feas_code in X; [|lia]. rewrite Ec in X. apply feas_code in X; [congruence|lia]. }
            rewrite !feas_dec by (auto; lia). rewrite Ec. auto. }
          rewrite Ek. destruct m'; apply vle_refl. }
      assert (Hwi : within i (be s i)) by auto. destruct Hwi as [W1 W2].
      destruct m'; destruct Hv as (w & Hw & Hlt & _).
      - assert (Hle : vle (be s i) (be te i)).
        { rewrite Hrs, Hrt. apply vsum_le. intros k Hk. destruct (B te k) eqn:Bk; [apply vle_refl|]. apply (Hterm k); auto. }
        apply (vlt_irrefl w). eapply vle_lt_trans; [|exact Hlt]. eapply vle_trans; eauto.
      - assert (Hle : vle (be te i) (be s i)).
        { rewrite Hrs, Hrt. apply vsum_le. intros k Hk. destruct (B te k) eqn:Bk; [apply vle_refl|]. apply (Hterm k); auto. }
        apply (vlt_irrefl w). eapply vlt_le_trans; [exact Hlt|]. eapply vle_trans; eauto.
    Qed.

    Theorem feas_bound : N < 4 ^ n.
    Proof.
      apply (no_cycle_bound n ev c0).
      - intros k. unfold c0. destruct (B 0 k); lia.
      - apply feas_no_cycle.
    Qed.
  End feas.

  (** ** Runs of the feasibility loop from arbitrary states

      Here the non-basic variables may violate their bounds, lower bounds may
      exceed upper bounds, and violated basic variables may be missing in the
      queue ([St t k]).  The bound on the number of steps is larger. *)
  Section wfeas.
    Context (N : nat) (B : nat -> nat -> bool) (T : nat -> nat -> nat -> Qc) (be : nat -> nat -> V) (ev : nat -> event) (St : nat -> nat -> bool).
    Hypothesis Hrows : forall t t' b, t <= N -> t' <= N -> b < n -> B t b = true -> be t' b = rowval (B t) (T t) (be t') b.
    Hypothesis Hev : forall t, t < N -> exists i j m, ev t = EPiv i j m.
    Hypothesis Hstep : forall t i j m, t < N -> ev t = EPiv i j m ->
      i < n /\ j < n /\ B t i = true /\ B t j = false /\ T t i j <> 0%Qc /\
      (forall k, B (S t) k = if k =? i then false else if k =? j then true else B t k) /\
      (forall k, k < n -> B t k = false -> k <> j -> be (S t) k = be t k).
    Hypothesis Hviol : forall t i j m, t < N -> ev t = EPiv i j m ->
      (if m then exists l, lo i = Some l /\ vlt (be t i) l /\ be (S t) i = l
       else exists u, up i = Some u /\ vlt u (be t i) /\ be (S t) i = u) /\
      St t i = false /\
      (forall b, b < i -> B t b = true -> within b (be t b) \/ St t b = true).
    Hypothesis HSm : forall t k, t < N -> k < n -> St (S t) k = true -> St t k = true.
    Hypothesis HSb : forall t k, t <= N -> k < n -> St t k = true -> B t k = true.
    Hypothesis Henter : forall t i j m, t < N -> ev t = EPiv i j m ->
      (incr m (T t i j) -> forall u, up j = Some u -> vlt (be t j) u) /\
      (incr (negb m) (T t i j) -> forall l, lo j = Some l -> vlt l (be t j)).
    Hypothesis Hmin : forall t i j m k, t < N -> ev t = EPiv i j m -> k < j -> B t k = false ->
      (incr m (T t i k) -> exists u, up k = Some u /\ vle u (be t k)) /\
      (incr (negb m) (T t i k) -> exists l, lo k = Some l /\ vle (be t k) l).

    Let c0 := fun k => if B 0 k then 3 else 0.
    Local Notation cd := (code ev c0).

    Lemma wfeas_code t k : t <= N -> cd t k = 3 <-> B t k = true.
    Proof.
      intros Ht. induction t as [|t IH]; cbn.
      - unfold c0. destruct (B 0 k); split; congruence.
      - destruct (Hev t) as (i & j & m & E); [lia|]. rewrite E.
        destruct (Hstep t i j m) as (_ & _ & _ & _ & _ & HB & _); [lia|auto|]. rewrite HB.
        destruct (k =? i). { split; [|discriminate]. intros X. exfalso. eapply mark_not3; eauto. }
        destruct (k =? j); [tauto|]. apply IH; lia.
    Qed.

    Lemma wfeas_dec t k : t <= N -> k < n -> B t k = false -> be t k = dec (be 0) (cd t k) k.
    Proof.
      intros Ht Hk. induction t as [|t IH]; intros HBk.
      - cbn. unfold c0. rewrite HBk. reflexivity.
      - destruct (Hev t) as (i & j & m & E); [lia|]. cbn. rewrite E.
        destruct (Hstep t i j m) as (_ & _ & _ & _ & _ & HB & Hb); [lia|auto|].
        destruct (Hviol t i j m) as [Hv _]; [lia|auto|].
        rewrite HB in HBk. destruct (Nat.eqb_spec k i) as [->|].
        + destruct m; destruct Hv as (w & Hw & _ & ->); cbn; rewrite Hw; auto.
        + destruct (Nat.eqb_spec k j); [discriminate|]. rewrite Hb; auto. apply IH; auto. lia.
    Qed.

    Lemma wfeas_piv t i j m : t < N -> ev t = EPiv i j m -> cd t i = 3 /\ cd t j <> 3 /\ i < n /\ j < n.
    Proof.
      intros Hlt E. destruct (Hstep t i j m) as (? & ? & B1 & B2 & _); auto.
      split; [apply wfeas_code; auto; lia|]. split; auto. rewrite wfeas_code by lia. congruence.
    Qed.

    Section wcyc.
      Context (t1 t2 : nat).
      Hypothesis Ht : t1 < t2.
      Hypothesis HtN : t2 <= N.
      Hypothesis Hc : forall k, k < n -> cd t1 k = cd t2 k.
      Hypothesis HSc : forall k, k < n -> St t1 k = St t2 k.

      Lemma wcyc_noflip t j m : t1 <= t -> t < t2 -> ev t <> EFlip j m.
      Proof. intros X Y. destruct (Hev t) as (? & ? & ? & ->); [lia|discriminate]. Qed.

      Lemma wcyc_stale t k : t1 <= t -> t <= t2 -> k < n -> St t k = St t1 k.
      Proof.
        intros A C Hk.
        assert (G1 : forall x d, x + d <= N -> St (x + d) k = true -> St x k = true).
        { intros x d. induction d as [|d IH]; intros Hd E; [rewrite Nat.add_0_r in E; auto|].
          rewrite Nat.add_succ_r in *. apply IH; [lia|]. apply HSm; auto. }
        assert (G2 : forall x y, x <= y -> y <= N -> St y k = true -> St x k = true).
        { intros x y Hxy Hy E. replace y with (x + (y - x)) in E by lia. apply (G1 x (y - x)); auto. lia. }
        destruct (St t k) eqn:E.
        - symmetry. apply (G2 t1 t); auto; lia.
        - destruct (St t1 k) eqn:E1; auto. rewrite HSc in E1 by auto. rewrite (G2 t t2) in E; auto.
      Qed.

      Lemma wcyc_mark t x k : t1 <= t -> t <= t2 -> t1 <= x -> x < t2 -> enters ev x k -> k < n -> B t k = false ->
        exists y m, leaves ev y k m /\ y < t2 /\ cd t k = mark m.
      Proof.
        intros A C X1 X2 En Hk Bk.
        assert (N3 : cd t k <> 3) by (rewrite wfeas_code by lia; congruence).
        destruct (code_nonbasic ev c0 N t1 t2 Ht HtN wcyc_noflip t k A C N3) as [[H1 H2]|(y & m & Y1 & Y2 & Y3 & Y4)].
        - assert (N3' : cd t2 k <> 3) by (rewrite <- Hc, <- H2; auto).
          destruct (code_nonbasic ev c0 N t1 t2 Ht HtN wcyc_noflip t2 k ltac:(lia) ltac:(lia) N3') as [[H3 H4]|(y & m & Y1 & Y2 & Y3 & Y4)].
          + exfalso. apply (H3 x); auto.
          + exists y, m. split; auto. split; auto. rewrite H2, Hc; auto.
        - exists y, m. split; auto. split; auto. lia.
      Qed.

      Lemma wcyc_at t x k : t1 <= t -> t <= t2 -> t1 <= x -> x < t2 -> enters ev x k -> k < n -> B t k = false ->
        lo k = Some (be t k) \/ up k = Some (be t k).
      Proof.
        intros A C X1 X2 En Hk Bk. destruct (wcyc_mark t x k) as (y & m & (j & Ey) & Y2 & Y4); auto.
        rewrite (wfeas_dec t k) by (auto; lia). rewrite Y4.
        destruct (Hviol y k j m) as [Hv _]; [lia|auto|]. destruct m; destruct Hv as (w & Hw & _ & _); cbn; rewrite Hw; auto.
      Qed.

      Lemma wcyc_fickle t x k : t1 <= t -> t <= t2 -> t1 <= x -> x < t2 -> enters ev x k -> k < n -> B t k = false -> within k (be t k).
      Proof.
        intros A C X1 X2 En Hk Bk. pose proof En as (i & m & Ex).
        destruct (Hstep x i k m) as (_ & _ & _ & Bx & Hnz & _); [lia|auto|].
        assert (Hcons : forall l u, lo k = Some l -> up k = Some u -> vle l u).
        { intros l u Hl Hu. destruct (vle_total l u) as [|Hgt]; auto. exfalso.
          destruct (Henter x i k m) as [E1 E2]; [lia|auto|].
          assert (Hi : incr m (T x i k) \/ incr (negb m) (T x i k)).
          { destruct (Qc_dec (T x i k) 0) as [[Q|Q]|Q]; [| |contradiction]; destruct m; cbn; auto. }
          destruct (wcyc_at x x k) as [Hb|Hb]; auto; [lia| |].
          - rewrite Hl in Hb. injection Hb as Hb. destruct Hi as [Hi|Hi]; [pose proof (E1 Hi _ Hu) as Hlt|pose proof (E2 Hi _ Hl) as Hlt]; rewrite <- Hb in Hlt.
            + apply (vlt_irrefl l). eapply vlt_trans; eauto.
            + apply (vlt_irrefl l); auto.
          - rewrite Hu in Hb. injection Hb as Hb. destruct Hi as [Hi|Hi]; [pose proof (E1 Hi _ Hu) as Hlt|pose proof (E2 Hi _ Hl) as Hlt]; rewrite <- Hb in Hlt.
            + apply (vlt_irrefl u); auto.
            + apply (vlt_irrefl l). eapply vlt_trans; eauto. }
        destruct (wcyc_at t x k) as [Hb|Hb]; auto; split; intros w Hw.
        - rewrite Hw in Hb. injection Hb as <-. apply vle_refl.
        - eauto.
        - eauto.
        - rewrite Hw in Hb. injection Hb as <-. apply vle_refl.
      Qed.

      Lemma wfeas_no_cycle : False.
      Proof.
        destruct (cycle_pair n ev c0 N wfeas_piv t1 t2 Ht HtN) as (r & te & s & m & A1 & A2 & A3 & A4 & En & Le & Cr & R1 & R2 & R3); auto.
        { apply wcyc_noflip. }
        destruct En as (i & m' & Ee). destruct Le as (j' & El).
        destruct (Hstep te i r m') as (Hi & Hr & Bi & Br & _ & _ & _); [lia|auto|].
        destruct (Hstep s r j' m) as (_ & _ & Br' & _ & _ & _ & _); [lia|auto|].
        assert (Hir : i < r). { assert (i <= r) by (apply (R2 te i m'); auto; exists r; auto). assert (i <> r) by congruence. lia. }
        destruct (Hviol te i r m') as (Hv & Hns & _); [lia|auto|].
        destruct (Hviol s r j' m) as (Hv' & _ & Hm'); [lia|auto|].
        assert (Hws : forall k, k < r -> B te k = false -> be s k = be te k \/ within k (be s k)).
        { intros k Hk Bk. destruct (B s k) eqn:Bsk.
          - right. destruct (Hm' k Hk Bsk) as [|Hst]; auto. exfalso.
            rewrite (wcyc_stale s k) in Hst by lia. rewrite <- (wcyc_stale te k) in Hst by lia. apply HSb in Hst; [congruence|lia|lia].
          - destruct (decide (Exists (fun x => (match ev x with EPiv _ y _ => y =? k | _ => false end) = true) (seq t1 (t2 - t1)))) as [D|D].
            + apply Exists_exists in D as (x & X1 & X2). apply elem_of_list_In, in_seq in X1.
              destruct (ev x) as [i0 y m0|] eqn:Ex; [|discriminate]. apply Nat.eqb_eq in X2 as ->.
              right. apply (wcyc_fickle s x k); auto; try lia. exists i0, m0. auto.
            + left.
              assert (Hno : forall x, t1 <= x -> x < t2 -> ~ enters ev x k).
              { intros x X1 X2 (i0 & m0 & E'). apply D. apply Exists_exists. exists x. rewrite elem_of_list_In, in_seq, E', Nat.eqb_refl. split; auto. lia. }
              rewrite !wfeas_dec by (auto; lia).
              rewrite (code_fixed n ev c0 N wfeas_piv t1 t2 Ht HtN wcyc_noflip Hc k s), (code_fixed n ev c0 N wfeas_piv t1 t2 Ht HtN wcyc_noflip Hc k te); auto; lia. }
        assert (Hbr : be te r = dec (be 0) (mark m) r) by (rewrite <- Cr; apply wfeas_dec; auto; lia).
        pose proof (Henter te i r m' ltac:(lia) Ee) as [He1 He2].
        assert (Hrs : be s i = rowval (B te) (T te) (be s) i) by (apply Hrows; auto; lia).
        assert (Hrt : be te i = rowval (B te) (T te) (be te) i) by (apply Hrows; auto; lia).
        assert (Hterm : forall k, k < n -> B te k = false -> if m' then vle (vscale (T te i k) (be s k)) (vscale (T te i k) (be te k))
                                              else vle (vscale (T te i k) (be te k)) (vscale (T te i k) (be s k))).
        { intros k Hk Bk. destruct (Nat.lt_trichotomy k r) as [L|[->|L]].
          - destruct (Hws k L Bk) as [->|[W1 W2]]; [destruct m'; apply vle_refl|].
            destruct (Hmin te i r m' k) as [M1 M2]; auto; [lia|].
            destruct (Qc_dec (T te i k) 0) as [[Q|Q]|Q].
            + destruct m'; cbn in M1, M2.
              * destruct (M2 Q) as (l & Hl & Hle). apply vscale_le_neg; [apply Qclt_le_weak; auto|]. eapply vle_trans; eauto.
              * destruct (M1 Q) as (u & Hu & Hle). apply vscale_le_neg; [apply Qclt_le_weak; auto|]. eapply vle_trans; eauto.
            + destruct m'; cbn in M1, M2.
              * destruct (M1 Q) as (u & Hu & Hle). apply vscale_le; [apply Qclt_le_weak; auto|]. eapply vle_trans; eauto.
              * destruct (M2 Q) as (l & Hl & Hle). apply vscale_le; [apply Qclt_le_weak; auto|]. eapply vle_trans; eauto.
            + rewrite Q, !vscale_0. destruct m'; apply vle_refl.
          - destruct (Qc_dec (T te i r) 0) as [[Q|Q]|Q].
            + destruct m; destruct Hv' as (w & Hw & Hlt & _); cbn in Hbr; rewrite Hw in Hbr; destruct m'; cbn in He1, He2.
              * exfalso. apply (vlt_irrefl w). rewrite <- Hbr at 2. auto.
              * rewrite Hbr. apply vscale_le_neg; [apply Qclt_le_weak; auto|]. apply vlt_le; auto.
              * rewrite Hbr. apply vscale_le_neg; [apply Qclt_le_weak; auto|]. apply vlt_le; auto.
              * exfalso. apply (vlt_irrefl w). rewrite <- Hbr at 1. auto.
            + destruct m; destruct Hv' as (w & Hw & Hlt & _); cbn in Hbr; rewrite Hw in Hbr; destruct m'; cbn in He1, He2.
              * rewrite Hbr. apply vscale_le; [apply Qclt_le_weak; auto|]. apply vlt_le; auto.
              * exfalso. apply (vlt_irrefl w). rewrite <- Hbr at 2. auto.
              * exfalso. apply (vlt_irrefl w). rewrite <- Hbr at 1. auto.
              * rewrite Hbr. apply vscale_le; [apply Qclt_le_weak; auto|]. apply vlt_le; auto.
            + rewrite Q, !vscale_0. destruct m'; apply vle_refl.
          - assert (Ek : be s k = be te k).
            { assert (Ec : cd s k = cd te k) by (apply R3; auto; lia).
              assert (Bs : B s k = false). { destruct (B s k) eqn:X; auto. apply wfeas_code in X; [|lia]. rewrite Ec in X. apply wfeas_code in X; [congruence|lia]. }
              rewrite !wfeas_dec by (auto; lia). rewrite Ec. auto. }
            rewrite Ek. destruct m'; apply vle_refl. }
        assert (Hwi : within i (be s i)).
        { destruct (B s i) eqn:Bsi.
          - destruct (Hm' i Hir Bsi) as [|Hst]; auto. exfalso. rewrite (wcyc_stale s i) in Hst by lia. rewrite (wcyc_stale te i) in Hns by lia. congruence.
          - destruct (leaves_enters n ev c0 N wfeas_piv t1 t2 Ht HtN wcyc_noflip Hc te i m') as (x & X1 & X2 & X3); auto; [exists r; auto|].
            apply (wcyc_fickle s x i); auto; lia. }
        destruct Hwi as [W1 W2].
        destruct m'; destruct Hv as (w & Hw & Hlt & _).
        - assert (Hle : vle (be s i) (be te i)).
          { rewrite Hrs, Hrt. apply vsum_le. intros k Hk. destruct (B te k) eqn:Bk; [apply vle_refl|]. apply (Hterm k); auto. }
          apply (vlt_irrefl w). eapply vle_lt_trans; [|exact Hlt]. eapply vle_trans; eauto.
        - assert (Hle : vle (be te i) (be s i)).
          { rewrite Hrs, Hrt. apply vsum_le. intros k Hk. destruct (B te k) eqn:Bk; [apply vle_refl|]. apply (Hterm k); auto. }
          apply (vlt_irrefl w). eapply vlt_le_trans; [exact Hlt|]. eapply vle_trans; eauto.
      Qed.
    End wcyc.

    (** codes and stale variables as one code with eight values *)
    Theorem wfeas_bound : N < 8 ^ n.
    Proof.
      apply (no_repeat_bound n 8 N (fun t k => cd t k + (if St t k then 4 else 0))).
      - intros t k _ _. pose proof (code_lt3 ev c0 t k) as L. assert (cd t k <= 3) by (apply L; intros k'; unfold c0; destruct (B 0 k'); lia). destruct (St t k); lia.
      - intros t1 t2 Ht HtN E. apply (wfeas_no_cycle t1 t2); auto; intros k Hk; specialize (E k Hk).
        + assert (H3 : forall t, cd t k <= 3) by (intros t; apply code_lt3; intros k'; unfold c0; destruct (B 0 k'); lia).
          pose proof (H3 t1). pose proof (H3 t2). destruct (St t1 k), (St t2 k); lia.
        + assert (H3 : forall t, cd t k <= 3) by (intros t; apply code_lt3; intros k'; unfold c0; destruct (B 0 k'); lia).
          pose proof (H3 t1). pose proof (H3 t2). destruct (St t1 k), (St t2 k); auto; lia.
    Qed.
  End wfeas.

  (** ** Runs of the optimization loop *)
  Section opt.
    Context (N z : nat) (space : (nat -> V) -> Prop).
    Context (B : nat -> nat -> bool) (T : nat -> nat -> nat -> Qc) (be : nat -> nat -> V) (ev : nat -> event).
    Hypothesis Hz : z < n.
    Hypothesis Hzb : forall t, t <= N -> B t z = true.
    Hypothesis Hspace : forall t a, t <= N -> space a <-> (forall b, b < n -> B t b = true -> a b = rowval (B t) (T t) a b).
    Hypothesis Hbe : forall t, t <= N -> space (be t).
    Hypothesis Hfeas : forall t k, t <= N -> k < n -> within k (be t k).

    (** room to move [e] up ([p]) or down *)
    Definition room (p : bool) (k : nat) (v : V) : Prop :=
      if p then forall u, up k = Some u -> vlt v u else forall l, lo k = Some l -> vlt l v.
    (** [v] is not beyond, resp. not strictly inside, the bound in direction [p] *)
    Definition atbound (p : bool) (k : nat) (v : V) : Prop :=
      if p then exists u, up k = Some u /\ vle u v else exists l, lo k = Some l /\ vle v l.
    Definition dle (p : bool) (a b : V) : Prop := if p then vle a b else vle b a.
    Definition bnd (p : bool) (k : nat) : option V := if p then up k else lo k.

    (** entering variable *)
    Hypothesis Henter : forall t e, t < N -> (exists l m, ev t = EPiv l e m) \/ (exists m, ev t = EFlip e m) ->
      e < n /\ B t e = false /\ exists p, incr p (T t z e) /\ room p e (be t e) /\
      (forall k, k < e -> B t k = false -> forall q, incr q (T t z k) -> atbound q k (be t k)).
    Hypothesis Hflip : forall t e m, t < N -> ev t = EFlip e m ->
      (forall k, B (S t) k = B t k) /\
      bnd (negb m) e = Some (be (S t) e) /\ incr (negb m) (T t z e) /\
      (forall k, k < n -> k <> e -> B t k = false -> be (S t) k = be t k).
    (** leaving variable *)
    Hypothesis Hpiv : forall t l e m, t < N -> ev t = EPiv l e m ->
      l < n /\ B t l = true /\ T t l e <> 0%Qc /\
      (forall k, B (S t) k = if k =? l then false else if k =? e then true else B t k) /\
      (forall k, k < n -> k <> e -> B t k = false -> be (S t) k = be t k) /\
      bnd (negb m) l = Some (be (S t) l) /\
      (forall p, incr p (T t z e) -> incr (Bool.eqb p (negb m)) (T t l e)) /\
      (forall p b w, incr p (T t z e) -> b < n -> B t b = true -> T t b e <> 0%Qc ->
          forall q, incr (Bool.eqb p q) (T t b e) -> bnd q b = Some w ->
          let v := vadd (be t e) (vscale (1 / T t b e)%Qc (vsub w (be t b))) in
          atbound p e v \/ (dle p (be (S t) e) v /\ (v = be (S t) e -> l <= b))).

    Let c0 := fun k => if B 0 k then 3 else 0.
    Local Notation cd := (code ev c0).

    Lemma opt_code t k : t <= N -> cd t k = 3 <-> B t k = true.
    Proof.
      intros Ht. induction t as [|t IH]; cbn.
      - unfold c0. destruct (B 0 k); split; congruence.
      - destruct (ev t) as [l e m|e m] eqn:E.
        + destruct (Hpiv t l e m) as (_ & _ & _ & HB & _); [lia|auto|]. rewrite HB.
          destruct (k =? l). { split; [|discriminate]. intros X. exfalso. eapply mark_not3; eauto. }
          destruct (k =? e); [tauto|]. apply IH; lia.
        + destruct (Hflip t e m) as (HB & _); [lia|auto|]. rewrite HB.
          destruct (Henter t e) as (_ & Be & _); [lia|eauto|].
          destruct (Nat.eqb_spec k e) as [->|]. { rewrite Be. split; [|discriminate]. intros X. exfalso. eapply mark_not3; eauto. }
          apply IH; lia.
    Qed.

    Lemma bnd_dec m k v : bnd (negb m) k = Some v -> v = dec (be 0) (mark m) k.
    Proof. destruct m; cbn; intros ->; auto. Qed.

    Lemma opt_dec t k : t <= N -> k < n -> B t k = false -> be t k = dec (be 0) (cd t k) k.
    Proof.
      intros Ht Hk. induction t as [|t IH]; intros HBk.
      - cbn. unfold c0. rewrite HBk. reflexivity.
      - cbn. destruct (ev t) as [l e m|e m] eqn:E.
        + destruct (Hpiv t l e m) as (_ & _ & _ & HB & Hb & Hw & _); [lia|auto|]. rewrite HB in HBk.
          destruct (Nat.eqb_spec k l) as [->|]; [apply bnd_dec; auto|].
          destruct (Nat.eqb_spec k e); [discriminate|]. rewrite Hb; auto. apply IH; auto. lia.
        + destruct (Hflip t e m) as (HB & Hw & _ & Hb); [lia|auto|]. rewrite HB in HBk.
          destruct (Nat.eqb_spec k e) as [->|]; [apply bnd_dec; auto|]. rewrite Hb; auto. apply IH; auto. lia.
    Qed.

    (** the change of one step: only the entering variable moves among the non-basic ones *)
    Lemma opt_row t e b : t < N -> (exists l m, ev t = EPiv l e m) \/ (exists m, ev t = EFlip e m) -> b < n -> B t b = true ->
      be (S t) b = vadd (be t b) (vscale (T t b e) (vsub (be (S t) e) (be t e))).
    Proof.
      intros Ht Hev Hb HB. destruct (Henter t e Ht Hev) as (He & Be & _).
      rewrite (proj1 (Hspace t (be (S t)) ltac:(lia)) ltac:(apply Hbe; lia) b Hb HB).
      rewrite (proj1 (Hspace t (be t) ltac:(lia)) ltac:(apply Hbe; lia) b Hb HB).
      unfold rowval. apply (vsum_update n e); auto.
      - intros k Hk Hne. destruct (B t k) eqn:Bk; auto. f_equal.
        destruct Hev as [(l & m & E)|(m & E)].
        + apply (Hpiv t l e m); auto.
        + apply (Hflip t e m); auto.
      - rewrite Be. vring.
    Qed.

    Lemma incr_bool p p' q : incr p q -> incr p' q -> p = p'.
    Proof. destruct p, p'; cbn; auto; intros; exfalso; qclra. Qed.

    (** the entering variable moves in the improving direction *)
    Lemma opt_dir t e p : t < N -> (exists l m, ev t = EPiv l e m) \/ (exists m, ev t = EFlip e m) -> incr p (T t z e) ->
      dle p (be t e) (be (S t) e).
    Proof.
      intros Ht Hev Hp. destruct Hev as [(l & m & E)|(m & E)].
      - destruct (Hpiv t l e m) as (Hl & Bl & Hnz & _ & _ & Hw & Hd & _); auto.
        pose proof (opt_row t e l Ht (or_introl (ex_intro _ l (ex_intro _ m E))) Hl Bl) as Er.
        pose proof (Hd p Hp) as Hi. destruct (Hfeas t l) as [F1 F2]; auto; [lia|].
        assert (Hm : dle (negb m) (be t l) (be (S t) l)).
        { destruct m; cbn in *; auto. }
        rewrite Er in Hm. set (x := be (S t) e) in *. set (y := be t e) in *.
        destruct p, m; cbn in *;
          match goal with
          | |- vle ?a ?b => destruct (vle_total a b) as [|Hgt]; auto; exfalso; apply (vlt_irrefl (be t l)); revert Hm;
              rewrite ?vle_emb, !vlt_emb in *; vpush
          end.
        all: clear - Hgt Hi; intros Hm; destruct Hgt as [Hgt|[Eg Hgt]], Hm as [Hm|[Em Hm]]; try (left; qcnra); try (right; split; qcnra).
        all: exfalso; rewrite ?Eg in *; try qcnra.
      - destruct (Hflip t e m) as (_ & Hw & Hi & _); auto. destruct (Hfeas t e) as [F1 F2]; [lia|apply (Henter t e); eauto|].
        rewrite (incr_bool _ _ _ Hp Hi). destruct m; cbn in *; auto.
    Qed.

    Lemma opt_ev t : exists e, (exists l m, ev t = EPiv l e m) \/ (exists m, ev t = EFlip e m).
    Proof. destruct (ev t) as [l e m|e m]; exists e; eauto. Qed.

    Lemma scale_dir_zero p (q : Qc) (a b : V) : incr p q -> vadd a (vscale q b) = a -> b = vzero.
    Proof.
      intros Hi E. assert (Hq : q <> 0%Qc) by (destruct p; cbn in Hi; intros ->; exact (qc_lt_irrefl _ Hi)).
      assert (E1 : vscale q b = vzero).
      { transitivity (vsub (vadd a (vscale q b)) a); [vring|]. rewrite E. vring. }
      transitivity (vscale (/ q) (vscale q b)).
      - rewrite vscale_scale, Qcmult_comm, Qcmult_inv_r, vscale_1; auto.
      - rewrite E1. apply vscale_zero.
    Qed.

    Lemma scale_nonneg p (q : Qc) (a b : V) : incr p q -> dle p a b -> vle vzero (vscale q (vsub b a)).
    Proof.
      intros Hi Hd. destruct p; cbn in *.
      - apply vscale_nonneg; [apply Qclt_le_weak; auto|]. apply (proj1 (vle_sub _ _)); auto.
      - replace (vscale q (vsub b a)) with (vscale (- q) (vsub a b)) by vring.
        apply vscale_nonneg; [|apply (proj1 (vle_sub _ _)); auto]. qclra.
    Qed.

    Lemma opt_mono t e : t < N -> (exists l m, ev t = EPiv l e m) \/ (exists m, ev t = EFlip e m) ->
      vle (be t z) (be (S t) z) /\ (be (S t) z = be t z -> be (S t) e = be t e).
    Proof.
      intros Ht Hev. destruct (Henter t e Ht Hev) as (He & Be & p & Hp & _).
      rewrite (opt_row t e z Ht Hev Hz (Hzb t ltac:(lia))).
      pose proof (scale_nonneg p _ _ _ Hp (opt_dir t e p Ht Hev Hp)) as Hn. split.
      - rewrite <- (vadd_0_r (be t z)) at 1. apply vadd_le_mono; [apply vle_refl|auto].
      - intros E. apply (scale_dir_zero p) in E; auto.
        transitivity (vadd (be t e) (vsub (be (S t) e) (be t e))); [vring|]. rewrite E. vring.
    Qed.

    Lemma opt_mono_le t t' : t <= t' -> t' <= N -> vle (be t z) (be t' z).
    Proof.
      induction 1 as [|t' A IH]; intros B'; [apply vle_refl|]. eapply vle_trans; [apply IH; lia|].
      destruct (opt_ev t') as (e & He). apply (opt_mono t' e); auto.
    Qed.

    Section cyc.
      Context (t1 t2 : nat).
      Hypothesis Ht : t1 < t2.
      Hypothesis HtN : t2 <= N.
      Hypothesis Hc : forall k, k < n -> cd t1 k = cd t2 k.

      Lemma cyc_ends k : k < n -> be t1 k = be t2 k.
      Proof.
        assert (G : forall k, k < n -> B t1 k = false -> be t1 k = be t2 k).
        { intros k' Hk Bk. assert (Bk2 : B t2 k' = false).
          { destruct (B t2 k') eqn:X; auto. apply opt_code in X; auto. rewrite <- Hc in X; auto. apply opt_code in X; [congruence|lia]. }
          rewrite !opt_dec by (auto; lia). rewrite Hc; auto. }
        intros Hk. destruct (B t1 k) eqn:Bk; auto.
        rewrite (proj1 (Hspace t1 (be t1) ltac:(lia)) ltac:(apply Hbe; lia) k Hk Bk).
        rewrite (proj1 (Hspace t1 (be t2) ltac:(lia)) ltac:(apply Hbe; lia) k Hk Bk).
        apply vsum_ext. intros j Hj. destruct (B t1 j) eqn:Bj; auto. rewrite G; auto.
      Qed.

      Lemma cyc_z t : t1 <= t -> t <= t2 -> be t z = be t1 z.
      Proof.
        intros A C. apply vle_antisym; [|apply opt_mono_le; lia].
        rewrite (cyc_ends z Hz). apply opt_mono_le; lia.
      Qed.

      Lemma cyc_e t e : t1 <= t -> t < t2 -> (exists l m, ev t = EPiv l e m) \/ (exists m, ev t = EFlip e m) -> be (S t) e = be t e.
      Proof.
        intros A C He. apply (opt_mono t e); auto; [lia|]. rewrite (cyc_z (S t)), (cyc_z t); auto; lia.
      Qed.

      Lemma cyc_const t k : t1 <= t -> t <= t2 -> k < n -> be t k = be t1 k.
      Proof.
        intros A. induction A as [|t A IH]; intros C Hk; auto. rewrite <- IH by (auto; lia).
        destruct (opt_ev t) as (e & He). pose proof (cyc_e t e A ltac:(lia) He) as Ee.
        destruct (B t k) eqn:Bk.
        - rewrite (opt_row t e k ltac:(lia) He Hk Bk), Ee. vring.
        - destruct (Nat.eq_dec k e) as [->|]; auto.
          destruct He as [(l & m & E)|(m & E)]; [apply (Hpiv t l e m)|apply (Hflip t e m)]; auto; lia.
      Qed.

      Lemma cyc_noflip t j m : t1 <= t -> t < t2 -> ev t <> EFlip j m.
      Proof.
        intros A C E. destruct (Hflip t j m) as (_ & Hw & Hi & _); [lia|auto|].
        destruct (Henter t j) as (_ & _ & p & Hp & Hr & _); [lia|eauto|].
        rewrite (incr_bool _ _ _ Hp Hi) in Hr. rewrite (cyc_e t j) in Hw; [|auto|auto|eauto].
        destruct m; cbn in *; apply (vlt_irrefl (be t j)); auto.
      Qed.
    End cyc.

    Lemma room_atbound p k v : room p k v -> atbound p k v -> False.
    Proof.
      destruct p; cbn; intros Hr (w & Hw & Hle); apply (vlt_irrefl w).
      - eapply vle_lt_trans; eauto.
      - eapply vlt_le_trans; eauto.
    Qed.

    Lemma opt_no_cycle t1 t2 : t1 < t2 -> t2 <= N -> (forall k, k < n -> cd t1 k = cd t2 k) -> False.
    Proof.
      intros Ht HtN Hc.
      assert (Hp : forall t i j m, t < N -> ev t = EPiv i j m -> cd t i = 3 /\ cd t j <> 3 /\ i < n /\ j < n).
      { intros t i j m Hlt E. destruct (Hpiv t i j m) as (? & B1 & _); auto.
        destruct (Henter t j) as (Hj & B2 & _); [lia|eauto|].
        split; [apply opt_code; auto; lia|]. split; auto. rewrite opt_code by lia. congruence. }
      destruct (cycle_pair n ev c0 N Hp t1 t2 Ht HtN) as (r & te & s & m & A1 & A2 & A3 & A4 & En & Le & Cr & R1 & R2 & R3); auto.
      { intros t j m X Y. apply (cyc_noflip t1 t2); auto. }
      destruct En as (i & m' & Ee). destruct Le as (e' & El).
      destruct (Henter te r) as (Hr & Br & p & Pz & Pr & Pmin); [lia|eauto|].
      destruct (Henter s e') as (He' & Be' & p' & Pz' & Pr' & _); [lia|eauto|].
      destruct (Hpiv s r e' m) as (_ & Brs & Hnz & _ & _ & Hw & Hd & Hcand); [lia|auto|].
      assert (Her : e' < r). { assert (e' <= r) by (apply (R1 s e'); auto; exists r, m; auto). assert (e' <> r) by congruence. lia. }
      pose (bb := be t1).
      assert (Hbb : forall t k, t1 <= t -> t <= t2 -> k < n -> be t k = bb k) by (intros; apply (cyc_const t1 t2); auto).
      rewrite (Hbb te r) in Pr by (auto; lia). rewrite (Hbb (S s) r) in Hw by (auto; lia). rewrite (Hbb s e') in Pr' by (auto; lia).
      assert (Epm : p = m).
      { destruct p, m; auto; cbn in Pr, Hw; exfalso; apply (vlt_irrefl (bb r)); auto. }
      pose (dl := if p' then 1%Qc else (-1)%Qc). pose (one := vofq 1 : V).
      pose (dq := fun k => if B s k then (T s k e' * dl)%Qc else if k =? e' then dl else 0%Qc).
      pose (d := fun k => vscale (dq k) one).
      assert (Sd : space d).
      { apply (Hspace s); [lia|]. intros b Hb Bb. unfold rowval.
        rewrite (vsum_single n e'); auto.
        - rewrite Be'. unfold d, dq. rewrite Bb, Be', Nat.eqb_refl. vring.
        - intros j Hj Hne. destruct (B s j) eqn:Bj; auto. unfold d, dq. rewrite Bj.
          destruct (Nat.eqb_spec j e'); [congruence|]. vring. }
      assert (Ez : d z = rowval (B te) (T te) d z) by (apply (proj1 (Hspace te d ltac:(lia)) Sd); auto; apply Hzb; lia).
      assert (Hone : vlt vzero one).
      { unfold one. rewrite vlt_emb, vemb_zero, vemb_ofq. left. cbn. qclra. }
      assert (Hdz : vlt vzero (d z)).
      { unfold d, dq. rewrite (Hzb s) by lia. replace vzero with (vscale (T s z e' * dl) vzero) by vring.
        apply vscale_lt; auto. unfold dl. destruct p'; cbn in Pz'; qclra. }
      assert (Hterm : forall k, k < n -> B te k = false -> (T te z k * dq k <= 0)%Qc).
      { intros k Hk Bk. destruct (Nat.lt_trichotomy k r) as [L|[->|L]].
        - destruct (Qc_dec (T te z k) 0) as [Q|Q].
          2:{ rewrite Q, Qcmult_0_l. apply Qcle_refl. }
          assert (Hq : exists q, incr q (T te z k)) by (destruct Q; [exists false|exists true]; auto). destruct Hq as (q & Hq).
          pose proof (Pmin k L Bk q Hq) as Hat. rewrite (Hbb te k) in Hat by (auto; lia).
          assert (Hnq : ~ incr q (dq k)).
          { intros Hdk. unfold dq in Hdk. destruct (B s k) eqn:Bsk.
            - assert (Hw' : bnd q k = Some (bb k)).
              { destruct (Hfeas t1 k) as [F1 F2]; [lia|auto|]. fold bb in F1, F2.
                destruct q; cbn in Hat |- *; destruct Hat as (w & Hw' & Hle); rewrite Hw'; f_equal; apply vle_antisym; auto. }
              assert (Hk' : incr (Bool.eqb p' q) (T s k e')).
              { unfold dl in Hdk. destruct p', q; cbn in *; qclra. }
              assert (Hnz' : T s k e' <> 0%Qc) by (intros E0; rewrite E0 in Hk'; destruct (Bool.eqb p' q); cbn in Hk'; exact (qc_lt_irrefl _ Hk')).
              pose proof (Hcand p' k (bb k) Pz' Hk Bsk Hnz' q Hk' Hw') as Hv. cbn in Hv.
              rewrite (Hbb s e'), (Hbb s k), (Hbb (S s) e') in Hv by (auto; lia).
              replace (vadd (bb e') (vscale (1 / T s k e')%Qc (vsub (bb k) (bb k)))) with (bb e') in Hv by vring.
              destruct Hv as [Hv|[_ Hv]]; [eapply room_atbound; eauto|]. specialize (Hv eq_refl). lia.
            - destruct (Nat.eqb_spec k e') as [->|]; [|destruct q; cbn in Hdk; exact (qc_lt_irrefl _ Hdk)].
              assert (q = p') as -> by (unfold dl in Hdk; destruct q, p'; auto; cbn in Hdk; exfalso; revert Hdk; qclra).
              eapply room_atbound; eauto. }
          destruct q; cbn in Hq, Hnq; revert Hnq Hq; clear; intros Hnq Hq; apply Qcnot_lt_le in Hnq.
          + apply Qcle_minus_iff. qcnra.
          + apply Qcle_minus_iff. qcnra.
        - unfold dq. rewrite Brs. pose proof (Hd p' Pz') as Hi. subst m. unfold dl.
          revert Hi Pz. clear. destruct p, p'; cbn; intros; qcnra.
        - assert (Bs : B s k = false).
          { destruct (B s k) eqn:X; auto. apply opt_code in X; [|lia]. rewrite (R3 k s te) in X by lia. apply opt_code in X; [congruence|lia]. }
          unfold dq. rewrite Bs. destruct (Nat.eqb_spec k e'); [lia|]. rewrite Qcmult_0_r. apply Qcle_refl. }
      apply (vlt_irrefl (d z)). eapply vle_lt_trans; [|exact Hdz].
      rewrite Ez. unfold rowval. assert (Z0 : vsum n (fun _ => vzero : V) = vzero) by (apply vsum_zero; auto).
      eapply vle_trans; [apply (vsum_le n _ (fun _ => vzero))|rewrite Z0; apply vle_refl].
      intros k Hk. cbn. destruct (B te k) eqn:Bk; [apply vle_refl|].
      replace (vscale (T te z k) (d k)) with (vscale (T te z k * dq k) one) by (unfold d; vring).
      replace vzero with (vscale (T te z k * dq k) vzero) by vring.
      apply vscale_le_neg; auto. apply vlt_le; auto.
    Qed.

    Theorem opt_bound : N < 4 ^ n.
    Proof.
      apply (no_cycle_bound n ev c0).
      - intros k. unfold c0. destruct (B 0 k); lia.
      - apply opt_no_cycle.
    Qed.
  End opt.
End space.
