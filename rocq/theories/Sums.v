(** * Finite sums in the value space (proof library) *)

From Verif Require Import Num.

Section sums.
  Context {V : Type} `{VL : ValueLaws V}.
  Implicit Types f g : nat -> V.

  Fixpoint vsum (n : nat) (f : nat -> V) : V :=
    match n with 0 => vzero | S n => vadd (vsum n f) (f n) end.

  Lemma vsum_ext n f g : (forall j, j < n -> f j = g j) -> vsum n f = vsum n g.
  Proof. induction n; cbn; auto. intros Hf. rewrite IHn, Hf; auto. Qed.
  Lemma vsum_zero n f : (forall j, j < n -> f j = vzero) -> vsum n f = vzero.
  Proof. induction n; cbn; auto. intros Hf. rewrite IHn, Hf; auto. vring. Qed.
  Lemma vsum_add n f g : vsum n (fun j => vadd (f j) (g j)) = vadd (vsum n f) (vsum n g).
  Proof. induction n; cbn; [vring|]. rewrite IHn. vring. Qed.
  Lemma vsum_sub n f g : vsum n (fun j => vsub (f j) (g j)) = vsub (vsum n f) (vsum n g).
  Proof. induction n; cbn; [vring|]. rewrite IHn. vring. Qed.
  Lemma vsum_scale n q f : vsum n (fun j => vscale q (f j)) = vscale q (vsum n f).
  Proof. induction n; cbn; [vring|]. rewrite IHn. vring. Qed.
  Lemma vsum_le n f g : (forall j, j < n -> vle (f j) (g j)) -> vle (vsum n f) (vsum n g).
  Proof. induction n; cbn; intros Hf; [apply vle_refl|]. apply vadd_le_mono; auto. Qed.
  Lemma vsum_lt n f g k : k < n -> vlt (f k) (g k) -> (forall j, j < n -> vle (f j) (g j)) -> vlt (vsum n f) (vsum n g).
  Proof.
    intros Hk Hlt. induction n; cbn; intros Hf; [lia|]. destruct (Nat.eq_dec k n) as [->|].
    - apply vadd_le_lt_mono; auto. apply vsum_le; auto.
    - apply vadd_lt_le_mono; auto. apply IHn; auto; lia.
  Qed.
  (** taking one summand out *)
  Lemma vsum_split n k f : k < n -> vsum n f = vadd (f k) (vsum n (fun j => if j =? k then vzero else f j)).
  Proof.
    induction n; cbn; intros Hk; [lia|]. destruct (Nat.eq_dec k n) as [->|].
    - rewrite Nat.eqb_refl. rewrite (vsum_ext n f (fun j => if j =? n then vzero else f j)); [vring|].
      intros j Hj. destruct (Nat.eqb_spec j n); [lia|auto].
    - rewrite IHn by lia. destruct (Nat.eqb_spec n k); [lia|]. vring.
  Qed.
  Lemma vsum_single n k f : k < n -> (forall j, j < n -> j <> k -> f j = vzero) -> vsum n f = f k.
  Proof.
    intros Hk Hf. rewrite (vsum_split n k f Hk). rewrite vsum_zero; [vring|].
    intros j Hj. destruct (Nat.eqb_spec j k); auto.
  Qed.
  (** a longer range with zero tail *)
  Lemma vsum_tail n m f : n <= m -> (forall j, n <= j -> j < m -> f j = vzero) -> vsum m f = vsum n f.
  Proof.
    intros Hnm. induction Hnm as [|m Hnm IH]; intros Hf; auto. cbn. rewrite IH, (Hf m); auto. vring.
  Qed.
  (** exchanging summation *)
  Lemma vsum_swap n m (f : nat -> nat -> V) :
    vsum n (fun i => vsum m (fun j => f i j)) = vsum m (fun j => vsum n (fun i => f i j)).
  Proof.
    induction n; cbn.
    - symmetry. apply vsum_zero; auto.
    - rewrite IHn. rewrite <- vsum_add. auto.
  Qed.

  Lemma vsum_update n k f (g : nat -> V) d : k < n -> (forall j, j < n -> j <> k -> g j = f j) -> g k = vadd (f k) d ->
    vsum n g = vadd (vsum n f) d.
  Proof.
    intros Hk Hne Hk'. rewrite (vsum_split n k g Hk), (vsum_split n k f Hk), Hk'.
    rewrite (vsum_ext n (fun j => if j =? k then vzero else g j) (fun j => if j =? k then vzero else f j)); [vring|].
    intros j Hj. destruct (Nat.eqb_spec j k); auto.
  Qed.

  (** sums over a list of indices *)
  Fixpoint lsum {A} (f : A -> V) (l : list A) : V :=
    match l with [] => vzero | x :: l => vadd (f x) (lsum f l) end.

  Lemma lsum_app {A} (f : A -> V) l1 l2 : lsum f (l1 ++ l2) = vadd (lsum f l1) (lsum f l2).
  Proof. induction l1; cbn; [vring|]. rewrite IHl1. vring. Qed.
  Lemma lsum_ext {A} (f g : A -> V) l : (forall x, x ∈ l -> f x = g x) -> lsum f l = lsum g l.
  Proof.
    induction l; cbn; auto. intros Hx. rewrite IHl, Hx; auto; [apply elem_of_cons; auto|].
    intros; apply Hx, elem_of_cons; auto.
  Qed.
  (** a list of distinct indices covering the support *)
  Lemma lsum_vsum {A} (key : A -> nat) (f : A -> V) (g : nat -> V) l n :
    NoDup (map key l) -> (forall x, x ∈ l -> key x < n /\ f x = g (key x)) ->
    (forall j, j < n -> g j <> vzero -> exists x, x ∈ l /\ key x = j) ->
    lsum f l = vsum n g.
  Proof.
    revert g. induction l as [|a l IH]; intros g N Hf Hg; cbn.
    - symmetry. apply vsum_zero. intros j Hj. destruct (decide (g j = vzero)) as [|Hne]; auto.
      destruct (Hg j Hj Hne) as (x & Hx & _). inversion Hx.
    - cbn in N. apply NoDup_cons in N as [N1 N2]. destruct (Hf a) as [Ha Hfa]; [apply elem_of_cons; auto|].
      rewrite (vsum_split n (key a) g Ha), Hfa. f_equal.
      apply (IH (fun j => if j =? key a then vzero else g j)); auto.
      + intros x Hx. destruct (Hf x) as [Hx1 Hx2]; [apply elem_of_cons; auto|]. split; auto.
        destruct (Nat.eqb_spec (key x) (key a)) as [E|]; auto. exfalso. apply N1. rewrite <- E.
        apply elem_of_list_In, in_map, elem_of_list_In; auto.
      + intros j Hj. destruct (Nat.eqb_spec j (key a)); [congruence|]. intros Hne.
        destruct (Hg j Hj Hne) as (x & Hx & Hk). apply elem_of_cons in Hx as [->|Hx]; [congruence|]. eauto.
  Qed.
End sums.

Lemma vscale_Qc (q v : Qc) : vscale q v = (q * v)%Qc.
Proof.
  exact (f_equal fst (vemb_scale q v)).
Qed.
