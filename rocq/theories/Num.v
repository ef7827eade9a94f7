(** * Numbers and the result monad

    Models number.hh, number_flint.hh, number_imath.hh (arithmetic only):
    - [Integer]  (number_flint.hh 23-75, number_imath.hh) is [Z];
    - [Rational] (number_flint.hh 89-200) is the canonical rationals [Qc];
      FLINT keeps every [fmpq] canonical, as does [Qc];
    - [RationalQ] (number.hh 12-112) is a pair of [Qc], see [RatQ] below;
    - the template parameter [Value] of [Solver<Value>] (solving.hh 73) is the
      class [Value] below with its two instances.

    Simplification: overloads for [fixed_int]/[Integer]/[Rational] operands are
    identified when the C++ bodies only differ in the operand type. *)

From stdpp Require Export list numbers sorting.
From Coq Require Export ZArith QArith Qcanon Lia.
Global Open Scope Z_scope.
Global Open Scope nat_scope.
Global Arguments Nat.ltb : simpl never.
Global Arguments Nat.eqb : simpl never.
Global Arguments Nat.leb : simpl never.
Global Arguments Z.eqb : simpl never.
Global Arguments Z.ltb : simpl never.

(** ** Results with explicit undefined behaviour *)

(** [UB]: the C++ code would execute undefined behaviour (index out of range,
    null dereference, [back()] on an empty vector, division by zero).
    [Exn]: a C++ exception is thrown.
    [Fuel]: the modelled loop did not end within the given number of steps. *)
Inductive res (A : Type) : Type :=
  | Ok (a : A)
  | UB
  | Exn
  | Fuel.
Arguments Ok {A} a.
Arguments UB {A}.
Arguments Exn {A}.
Arguments Fuel {A}.

Global Instance res_bind : MBind res := fun A B f m =>
  match m with Ok a => f a | UB => UB | Exn => Exn | Fuel => Fuel end.
Global Instance res_ret : MRet res := fun A a => Ok a.

(** [v[i]] on a std::vector: out of range is undefined behaviour. *)
Definition at_ {A} (l : list A) (i : nat) : res A :=
  match l !! i with Some a => Ok a | None => UB end.

(** Dereference of a pointer that may be null. *)
Definition deref {A} (o : option A) : res A :=
  match o with Some a => Ok a | None => UB end.

Definition guard_ub (b : bool) : res unit := if b then Ok tt else UB.

Lemma bind_ok {A B} (m : res A) (f : A -> res B) b :
  m ≫= f = Ok b -> exists a, m = Ok a /\ f a = Ok b.
Proof. destruct m; cbn; try discriminate; eauto. Qed.

Lemma at_ok {A} (l : list A) i a : at_ l i = Ok a <-> l !! i = Some a.
Proof. unfold at_. destruct (l !! i); split; congruence. Qed.

(** ** Integers as rationals *)

Notation zq := Qc_of_Z.

Lemma zq_inj a b : zq a = zq b -> a = b.
Proof. apply Z2Qc_inj. Qed.
Lemma zq_add a b : zq (a + b) = (zq a + zq b)%Qc.
Proof. apply Z2Qc_inj_add. Qed.
Lemma zq_mul a b : zq (a * b) = (zq a * zq b)%Qc.
Proof. apply Z2Qc_inj_mul. Qed.
Lemma zq_opp a : zq (- a) = (- zq a)%Qc.
Proof. apply Z2Qc_inj_opp. Qed.
Lemma zq_0 : zq 0 = 0%Qc.
Proof. apply Z2Qc_inj_0. Qed.
Lemma zq_1 : zq 1 = 1%Qc.
Proof. apply Z2Qc_inj_1. Qed.
Lemma zq_nz a : a <> 0%Z -> zq a <> 0%Qc.
Proof. intros H E. apply H, zq_inj. rewrite zq_0. exact E. Qed.
Lemma zq_lt a b : (zq a < zq b)%Qc <-> (a < b)%Z.
Proof. symmetry; apply Z2Qc_inj_lt. Qed.
Lemma zq_le a b : (zq a <= zq b)%Qc <-> (a <= b)%Z.
Proof. symmetry; apply Z2Qc_inj_le. Qed.

(** Rational(num, den) (number_flint.hh, [Rational::Rational(Integer, Integer)]
    followed by [canonicalize]); the sign of [den] may be negative. *)
Definition qmk (n d : Z) : Qc := (zq n / zq d)%Qc.

(** ** Order facts on Qc *)

Lemma qc_this_plus (a b : Qc) : (this (a + b)%Qc == this a + this b)%Q.
Proof. cbn. apply Qred_correct. Qed.
Lemma qc_this_mult (a b : Qc) : (this (a * b)%Qc == this a * this b)%Q.
Proof. cbn. apply Qred_correct. Qed.
Lemma qc_this_opp (a : Qc) : (this (- a)%Qc == - this a)%Q.
Proof. cbn. apply Qred_correct. Qed.
Lemma qc_this_minus (a b : Qc) : (this (a - b)%Qc == this a - this b)%Q.
Proof. unfold Qcminus. rewrite qc_this_plus, qc_this_opp. reflexivity. Qed.
Lemma qc_eq_this (a b : Qc) : a = b <-> (this a == this b)%Q.
Proof. split; [intros ->; reflexivity | apply Qc_is_canon]. Qed.

From Coq Require Import Lqa.

(** [qclra]: linear arithmetic over Qc by transfer to Q. *)
Ltac qc_push :=
  unfold Qcle, Qclt in *;
  repeat match goal with
  | H : @eq Qc _ _ |- _ => apply qc_eq_this in H
  | |- @eq Qc _ _ => apply qc_eq_this
  end;
  repeat match goal with
  | H : context [this (Qcplus ?a ?b)] |- _ => rewrite (qc_this_plus a b) in H
  | H : context [this (Qcminus ?a ?b)] |- _ => rewrite (qc_this_minus a b) in H
  | H : context [this (Qcopp ?a)] |- _ => rewrite (qc_this_opp a) in H
  | H : context [this (Qcmult ?a ?b)] |- _ => rewrite (qc_this_mult a b) in H
  | |- context [this (Qcplus ?a ?b)] => rewrite (qc_this_plus a b)
  | |- context [this (Qcminus ?a ?b)] => rewrite (qc_this_minus a b)
  | |- context [this (Qcopp ?a)] => rewrite (qc_this_opp a)
  | |- context [this (Qcmult ?a ?b)] => rewrite (qc_this_mult a b)
  end;
  try change (this 0%Qc) with 0%Q in *;
  try change (this 1%Qc) with 1%Q in *.
Ltac qclra := qc_push; lra.
Ltac qcnra := qc_push; nra.

Lemma qc_test (a b c : Qc) : (a < b)%Qc -> (b <= c)%Qc -> (a + 1 < c + 1)%Qc.
Proof. intros. qclra. Qed.

Lemma qc_mul_pos (a b : Qc) : (0 < a)%Qc -> (0 < b)%Qc -> (0 < a * b)%Qc.
Proof. intros. qcnra. Qed.
Lemma qc_mul_nonneg (a b : Qc) : (0 <= a)%Qc -> (0 <= b)%Qc -> (0 <= a * b)%Qc.
Proof. intros. qcnra. Qed.
Lemma qc_lt_le (a b : Qc) : (a < b)%Qc -> (a <= b)%Qc.
Proof. intros. qclra. Qed.
Lemma qc_total (a b : Qc) : (a < b)%Qc \/ a = b \/ (b < a)%Qc.
Proof. destruct (Qclt_le_dec a b); auto. right. destruct (Qcle_lt_or_eq _ _ q); auto. Qed.
Lemma qc_lt_irrefl (a : Qc) : ~ (a < a)%Qc.
Proof. intro. qclra. Qed.
Lemma qc_le_not_lt (a b : Qc) : (a <= b)%Qc <-> ~ (b < a)%Qc.
Proof. split; [intros; intro; qclra|]. intro H. destruct (qc_total a b) as [h|[h|h]]; [qclra|subst; apply Qcle_refl|tauto]. Qed.
Lemma qc_inv_pos (a : Qc) : (0 < a)%Qc -> (0 < / a)%Qc.
Proof.
  intros H. destruct (qc_total (/ a) 0) as [h|[h|h]]; auto; exfalso.
  - assert (a * / a = 1)%Qc by (apply Qcmult_inv_r; intros ->; revert H; apply qc_lt_irrefl). qcnra.
  - assert (a * / a = 1)%Qc by (apply Qcmult_inv_r; intros ->; revert H; apply qc_lt_irrefl).
    rewrite h in H0. qclra.
Qed.

Lemma qc_cmp_lt (a b : Qc) : (a ?= b)%Qc = Lt <-> (a < b)%Qc.
Proof. symmetry; apply Qclt_alt. Qed.
Lemma qc_cmp_gt (a b : Qc) : (a ?= b)%Qc = Gt <-> (b < a)%Qc.
Proof. symmetry; apply Qcgt_alt. Qed.
Lemma qc_cmp_eq (a b : Qc) : (a ?= b)%Qc = Eq <-> a = b.
Proof. symmetry; apply Qceq_alt. Qed.

(** ** RationalQ (number.hh) *)

(** class RationalQ { Rational c_; Rational k_; } : c + k*epsilon
    (number.hh 12, 110-111). *)
Record RatQ := mkRatQ { rq_c : Qc; rq_k : Qc }.

Global Instance RatQ_eq_dec : EqDecision RatQ.
Proof. solve_decision. Defined.

(** compare(RationalQ, RationalQ), number.hh 178-184. *)
Definition rq_compare (a b : RatQ) : comparison :=
  match (rq_c a ?= rq_c b)%Qc with
  | Eq => (rq_k a ?= rq_k b)%Qc
  | r => r
  end.
(** operator==(RationalQ, RationalQ), number.hh 374-376. *)
Definition rq_eqb (a b : RatQ) : bool :=
  Qc_eq_bool (rq_c a) (rq_c b) && Qc_eq_bool (rq_k a) (rq_k b).
(** operator+ / += (RationalQ, RationalQ), number.hh 200-202 and 227-231. *)
Definition rq_add (a b : RatQ) := mkRatQ (rq_c a + rq_c b)%Qc (rq_k a + rq_k b)%Qc.
(** operator- / -= (RationalQ, RationalQ), number.hh 249-251 and 276-280. *)
Definition rq_sub (a b : RatQ) := mkRatQ (rq_c a - rq_c b)%Qc (rq_k a - rq_k b)%Qc.
(** operator- (RationalQ), number.hh 235-239. *)
Definition rq_neg (a : RatQ) := mkRatQ (- rq_c a)%Qc (- rq_k a)%Qc.
(** operator* / *= (RationalQ, Integer|Rational), number.hh 284-318. *)
Definition rq_mul (a : RatQ) (b : Qc) := mkRatQ (rq_c a * b)%Qc (rq_k a * b)%Qc.
(** operator/ / /= (RationalQ, Integer|Rational), number.hh 322-356. *)
Definition rq_div (a : RatQ) (b : Qc) := mkRatQ (rq_c a / b)%Qc (rq_k a / b)%Qc.

(** ** Relations (problem.hh 7-13) *)
Inductive rel := Rle | Rge | Req | Rlt | Rgt.
Global Instance rel_eq_dec : EqDecision rel.
Proof. solve_decision. Defined.

(** invert, problem.cc 3-23. *)
Definition invert (r : rel) : rel :=
  match r with Rle => Rge | Rge => Rle | Req => Req | Rlt => Rgt | Rgt => Rlt end.

(** ** The template parameter Value *)

Class Value (V : Type) := {
  vcmp : V -> V -> comparison;     (* compare(a, b) *)
  veqb : V -> V -> bool;           (* operator== *)
  vzero : V;                       (* Value{} and Value{0} *)
  vadd : V -> V -> V;
  vsub : V -> V -> V;
  vmulz : V -> Z -> V;             (* operator*(Value, Integer) *)
  vdivz : V -> Z -> V;             (* operator/(Value, Integer) *)
  vbound : Qc -> rel -> V;         (* bound_val, solving.cc 84-107 *)
  vofq : Qc -> V;                  (* Value{rational} *)
  vstep : RatQ -> option V;        (* as_value, solving.cc 22-30; None: throws *)
  vemb : V -> Qc * Qc;             (* proof only: components *)
}.

Section ops.
  Context {V : Type} `{Value V}.
  (** operators <, <=, >, >= : number_flint.hh 698-726, number.hh 360-370. *)
  Definition vltb (a b : V) : bool := match vcmp a b with Lt => true | _ => false end.
  Definition vleb (a b : V) : bool := match vcmp a b with Gt => false | _ => true end.
  Definition vgtb (a b : V) : bool := match vcmp a b with Gt => true | _ => false end.
  Definition vgeb (a b : V) : bool := match vcmp a b with Lt => false | _ => true end.
End ops.

(** bound_val<Rational>, solving.cc 86-90 (asserts the relation is not strict;
    with assertions off the relation is ignored). *)
Definition q_bound (x : Qc) (r : rel) : Qc := x.
(** bound_val<RationalQ>, solving.cc 92-107. *)
Definition rq_bound (x : Qc) (r : rel) : RatQ :=
  match r with
  | Rlt => mkRatQ x (-(1))%Qc
  | Rgt => mkRatQ x 1%Qc
  | _ => mkRatQ x 0%Qc
  end.

Global Instance Value_Qc : Value Qc := {
  vcmp := Qccompare;
  veqb := Qc_eq_bool;
  vzero := 0%Qc;
  vadd := Qcplus;
  vsub := Qcminus;
  vmulz a z := (a * zq z)%Qc;
  vdivz a z := (a / zq z)%Qc;
  vbound := q_bound;
  vofq q := q;
  vstep g := if Qc_eq_bool (rq_k g) 0 then Some (rq_c g) else None;  (* as_rational, number.hh 122-129 *)
  vemb q := (q, 0%Qc);
}.

Global Instance Value_RatQ : Value RatQ := {
  vcmp := rq_compare;
  veqb := rq_eqb;
  vzero := mkRatQ 0%Qc 0%Qc;
  vadd := rq_add;
  vsub := rq_sub;
  vmulz a z := rq_mul a (zq z);
  vdivz a z := rq_div a (zq z);
  vbound := rq_bound;
  vofq q := mkRatQ q 0%Qc;
  vstep g := Some g;
  vemb q := (rq_c q, rq_k q);
}.

(** ** Laws *)

Definition lexcmp (a b : Qc * Qc) : comparison :=
  match (a.1 ?= b.1)%Qc with Eq => (a.2 ?= b.2)%Qc | r => r end.

Class ValueLaws (V : Type) `{Value V} := {
  vemb_inj : forall a b : V, vemb a = vemb b -> a = b;
  vemb_cmp : forall a b : V, vcmp a b = lexcmp (vemb a) (vemb b);
  veqb_spec : forall a b : V, veqb a b = true <-> a = b;
  vemb_zero : vemb vzero = (0, 0)%Qc;
  vemb_add : forall a b : V, vemb (vadd a b) = ((vemb a).1 + (vemb b).1, (vemb a).2 + (vemb b).2)%Qc;
  vemb_sub : forall a b : V, vemb (vsub a b) = ((vemb a).1 - (vemb b).1, (vemb a).2 - (vemb b).2)%Qc;
  vemb_mulz : forall (a : V) z, vemb (vmulz a z) = ((vemb a).1 * zq z, (vemb a).2 * zq z)%Qc;
  vemb_divz : forall (a : V) z, vemb (vdivz a z) = ((vemb a).1 / zq z, (vemb a).2 / zq z)%Qc;
  vemb_ofq : forall q, vemb (vofq q) = (q, 0)%Qc;
  vemb_bound1 : forall q r, (vemb (vbound q r)).1 = q;
  vemb_bound2 : forall q r, r = Rle \/ r = Rge \/ r = Req -> (vemb (vbound q r)).2 = 0%Qc;
  vemb_step : forall g w, vstep g = Some w -> vemb w = (rq_c g, rq_k g);
}.

Lemma Qc_eq_bool_iff a b : Qc_eq_bool a b = true <-> a = b.
Proof.
  split; [apply Qc_eq_bool_correct|]. intros ->. unfold Qc_eq_bool.
  destruct (Qc_eq_dec b b); congruence.
Qed.

Global Instance ValueLaws_Qc : ValueLaws Qc.
Proof.
  constructor; cbn.
  - intros a b [=]; auto.
  - intros a b. unfold lexcmp; cbn. destruct (Qccompare a b) eqn:?; auto.
  - apply Qc_eq_bool_iff.
  - reflexivity.
  - intros. f_equal; ring.
  - intros. f_equal; ring.
  - intros. f_equal; ring.
  - intros. f_equal. unfold Qcdiv; ring.
  - reflexivity.
  - reflexivity.
  - reflexivity.
  - intros g w. destruct (Qc_eq_bool (rq_k g) 0) eqn:E; [|discriminate]. apply Qc_eq_bool_iff in E. intros [= <-]. congruence.
Qed.

Global Instance ValueLaws_RatQ : ValueLaws RatQ.
Proof.
  constructor; cbn; auto.
  - intros [] [] [=]; subst; auto.
  - intros [] []; cbn. unfold rq_eqb; cbn. rewrite andb_true_iff, !Qc_eq_bool_iff.
    split; [intros [-> ->]; auto | intros [=]; auto].
  - intros q []; auto.
  - intros q [] [?|[?|?]]; try discriminate; auto.
  - intros g w [= <-]. reflexivity.
Qed.

(** ** The ordered vector space *)

Section space.
  Context {V : Type} `{VL : ValueLaws V}.

  (** scaling by a rational; spec-level operation *)
  Definition vscale (q : Qc) (v : V) : V := vdivz (vmulz v (Qnum q)) (Zpos (Qden q)).

  Lemma vemb_scale q v : vemb (vscale q v) = (q * (vemb v).1, q * (vemb v).2)%Qc.
  Proof.
    unfold vscale. rewrite vemb_divz, vemb_mulz. cbn [fst snd].
    assert (E : q = (zq (Qnum q) / zq (Zpos (Qden q)))%Qc).
    { assert (zq (Zpos (Qden q)) <> 0)%Qc by (apply zq_nz; lia).
      assert (q * zq (Zpos (Qden q)) = zq (Qnum q))%Qc.
      { apply Qc_is_canon. rewrite qc_this_mult. destruct q as [[n d] c]. cbn.
        unfold Qeq; cbn. lia. }
      rewrite <- H1. field. auto. }
    assert (zq (Zpos (Qden q)) <> 0)%Qc by (apply zq_nz; lia).
    f_equal; rewrite E at 3; field; auto.
  Qed.

  Definition vlt (a b : V) : Prop := vcmp a b = Lt.
  Definition vle (a b : V) : Prop := vcmp a b <> Gt.
  Definition vopp (a : V) : V := vsub vzero a.

  Lemma vlt_emb a b : vlt a b <->
    ((vemb a).1 < (vemb b).1)%Qc \/ ((vemb a).1 = (vemb b).1 /\ ((vemb a).2 < (vemb b).2)%Qc).
  Proof.
    unfold vlt. rewrite vemb_cmp. unfold lexcmp.
    destruct ((vemb a).1 ?= (vemb b).1)%Qc eqn:E.
    - apply qc_cmp_eq in E. rewrite qc_cmp_lt, E. split; [auto|]. intros [?|[_ ?]]; auto.
      exfalso; eapply qc_lt_irrefl; eauto.
    - apply qc_cmp_lt in E. split; auto.
    - apply qc_cmp_gt in E. split; [discriminate|]. intros [?|[? _]]; exfalso; qclra.
  Qed.
  Lemma vle_emb a b : vle a b <->
    ((vemb a).1 < (vemb b).1)%Qc \/ ((vemb a).1 = (vemb b).1 /\ ((vemb a).2 <= (vemb b).2)%Qc).
  Proof.
    unfold vle. rewrite vemb_cmp. unfold lexcmp.
    destruct ((vemb a).1 ?= (vemb b).1)%Qc eqn:E.
    - apply qc_cmp_eq in E. rewrite qc_cmp_gt, E, <- qc_le_not_lt. split; [auto|]. intros [?|[_ ?]]; auto.
      exfalso; eapply qc_lt_irrefl; eauto.
    - apply qc_cmp_lt in E. split; auto; intros; discriminate.
    - apply qc_cmp_gt in E. split; [tauto|]. intros [?|[? _]]; exfalso; qclra.
  Qed.

  Lemma vltb_lt a b : vltb a b = true <-> vlt a b.
  Proof. unfold vltb, vlt. destruct (vcmp a b); split; congruence. Qed.
  Lemma vleb_le a b : vleb a b = true <-> vle a b.
  Proof. unfold vleb, vle. destruct (vcmp a b); split; congruence. Qed.
  Lemma vcmp_antisym a b : vcmp b a = CompOpp (vcmp a b).
  Proof.
    rewrite !vemb_cmp. unfold lexcmp.
    assert (A : forall x y : Qc, (y ?= x)%Qc = CompOpp (x ?= y)%Qc).
    { intros x y. destruct (x ?= y)%Qc eqn:E; cbn.
      - apply qc_cmp_eq in E as ->. apply qc_cmp_eq; auto.
      - apply qc_cmp_lt in E. apply qc_cmp_gt; auto.
      - apply qc_cmp_gt in E. apply qc_cmp_lt; auto. }
    rewrite (A (vemb a).1), (A (vemb a).2).
    destruct ((vemb a).1 ?= (vemb b).1)%Qc; reflexivity.
  Qed.
  Lemma vgtb_lt a b : vgtb a b = true <-> vlt b a.
  Proof. unfold vgtb, vlt. rewrite (vcmp_antisym a b). destruct (vcmp a b); cbn; split; congruence. Qed.
  Lemma vgeb_le a b : vgeb a b = true <-> vle b a.
  Proof. unfold vgeb, vle. rewrite (vcmp_antisym a b). destruct (vcmp a b); cbn; split; congruence. Qed.
  Lemma vnot_lt a b : ~ vlt a b <-> vle b a.
  Proof. unfold vlt, vle. rewrite (vcmp_antisym a b). destruct (vcmp a b); cbn; split; congruence. Qed.
  Lemma vnot_le a b : ~ vle a b <-> vlt b a.
  Proof. unfold vlt, vle. rewrite (vcmp_antisym a b). destruct (vcmp a b); cbn; split; try congruence; intros X; exfalso; apply X; congruence. Qed.
  Lemma vltb_false a b : vltb a b = false <-> vle b a.
  Proof. rewrite <- vnot_lt, <- vltb_lt. destruct (vltb a b); split; congruence. Qed.
  Lemma vleb_false a b : vleb a b = false <-> vlt b a.
  Proof. rewrite <- vnot_le, <- vleb_le. destruct (vleb a b); split; congruence. Qed.
  Lemma vgtb_false a b : vgtb a b = false <-> vle a b.
  Proof. rewrite <- vnot_lt, <- vgtb_lt. destruct (vgtb a b); split; congruence. Qed.
  Lemma vgeb_false a b : vgeb a b = false <-> vlt a b.
  Proof. rewrite <- vnot_le, <- vgeb_le. destruct (vgeb a b); split; congruence. Qed.
  Lemma veqb_false a b : veqb a b = false <-> a <> b.
  Proof. rewrite <- veqb_spec. destruct (veqb a b); split; congruence. Qed.

  Global Instance V_eq_dec : EqDecision V.
  Proof. intros a b. destruct (veqb a b) eqn:E; [left; apply veqb_spec; auto|right; apply veqb_false; auto]. Defined.
  Global Instance vlt_dec a b : Decision (vlt a b).
  Proof. unfold vlt. solve_decision. Defined.
  Global Instance vle_dec a b : Decision (vle a b).
  Proof. unfold vle. solve_decision. Defined.

  Lemma v_ext a b : (vemb a).1 = (vemb b).1 -> (vemb a).2 = (vemb b).2 -> a = b.
  Proof. intros. apply vemb_inj. destruct (vemb a), (vemb b); cbn in *; congruence. Qed.
End space.

(** normalise an equation/inequation in V to its components *)
Ltac vpush :=
  unfold vopp in *;
  repeat first
   [ rewrite vemb_scale in * | rewrite vemb_add in * | rewrite vemb_sub in *
   | rewrite vemb_zero in * | rewrite vemb_mulz in * | rewrite vemb_divz in * | rewrite vemb_ofq in * ];
  cbn [fst snd] in *.
Ltac vring := apply v_ext; vpush; try ring; try (unfold Qcdiv; ring).

Section order.
  Context {V : Type} `{VL : ValueLaws V}.
  Implicit Types a b c : V.

  Lemma vle_refl a : vle a a.
  Proof. apply vle_emb. right; split; auto. Qed.
  Lemma vlt_irrefl a : ~ vlt a a.
  Proof. rewrite vnot_lt. apply vle_refl. Qed.
  Lemma vle_trans a b c : vle a b -> vle b c -> vle a c.
  Proof. rewrite !vle_emb. intros [?|[? ?]] [?|[? ?]]; [left|left|left|right;split]; qclra. Qed.
  Lemma vlt_trans a b c : vlt a b -> vlt b c -> vlt a c.
  Proof. rewrite !vlt_emb. intros [?|[? ?]] [?|[? ?]]; [left|left|left|right;split]; qclra. Qed.
  Lemma vle_lt_trans a b c : vle a b -> vlt b c -> vlt a c.
  Proof. rewrite vle_emb, !vlt_emb. intros [?|[? ?]] [?|[? ?]]; [left|left|left|right;split]; qclra. Qed.
  Lemma vlt_le_trans a b c : vlt a b -> vle b c -> vlt a c.
  Proof. rewrite vle_emb, !vlt_emb. intros [?|[? ?]] [?|[? ?]]; [left|left|left|right;split]; qclra. Qed.
  Lemma vlt_le a b : vlt a b -> vle a b.
  Proof. unfold vlt, vle. congruence. Qed.
  Lemma vle_antisym a b : vle a b -> vle b a -> a = b.
  Proof. rewrite !vle_emb. intros [?|[? ?]] [?|[? ?]]; try (exfalso; qclra). apply v_ext; auto. apply Qcle_antisym; auto. Qed.
  Lemma vle_total a b : vle a b \/ vlt b a.
  Proof. destruct (decide (vle a b)); auto. right. apply vnot_le; auto. Qed.
  Lemma vle_lt_eq a b : vle a b -> vlt a b \/ a = b.
  Proof. intros. destruct (decide (vlt a b)); auto. right. apply vle_antisym; auto. apply vnot_lt; auto. Qed.
  Lemma vlt_neq a b : vlt a b -> a <> b.
  Proof. intros ? ->. eapply vlt_irrefl; eauto. Qed.

  Lemma vle_sub a b : vle a b <-> vle vzero (vsub b a).
  Proof. rewrite !vle_emb. vpush. split; (intros [?|[? ?]]; [left|right;split]; qclra). Qed.
  Lemma vlt_sub a b : vlt a b <-> vlt vzero (vsub b a).
  Proof. rewrite !vlt_emb. vpush. split; (intros [?|[? ?]]; [left|right;split]; qclra). Qed.
  Lemma vadd_nonneg a b : vle vzero a -> vle vzero b -> vle vzero (vadd a b).
  Proof. rewrite !vle_emb. vpush. intros [?|[? ?]] [?|[? ?]]; [left|left|left|right;split]; qclra. Qed.
  Lemma vadd_pos_nonneg a b : vlt vzero a -> vle vzero b -> vlt vzero (vadd a b).
  Proof. rewrite !vle_emb, !vlt_emb. vpush. intros [?|[? ?]] [?|[? ?]]; [left|left|left|right;split]; qclra. Qed.
  Lemma vadd_nonpos a b : vle a vzero -> vle b vzero -> vle (vadd a b) vzero.
  Proof. rewrite !vle_emb. vpush. intros [?|[? ?]] [?|[? ?]]; [left|left|left|right;split]; qclra. Qed.
  Lemma vadd_le_mono a b c d : vle a b -> vle c d -> vle (vadd a c) (vadd b d).
  Proof. rewrite !vle_emb. vpush. intros [?|[? ?]] [?|[? ?]]; [left|left|left|right;split]; qclra. Qed.
  Lemma vadd_lt_le_mono a b c d : vlt a b -> vle c d -> vlt (vadd a c) (vadd b d).
  Proof. rewrite !vle_emb, !vlt_emb. vpush. intros [?|[? ?]] [?|[? ?]]; [left|left|left|right;split]; qclra. Qed.
  Lemma vadd_le_lt_mono a b c d : vle a b -> vlt c d -> vlt (vadd a c) (vadd b d).
  Proof. rewrite !vle_emb, !vlt_emb. vpush. intros [?|[? ?]] [?|[? ?]]; [left|left|left|right;split]; qclra. Qed.

  Lemma vscale_nonneg q a : (0 <= q)%Qc -> vle vzero a -> vle vzero (vscale q a).
  Proof.
    rewrite !vle_emb. vpush. intros Hq. destruct (Qcle_lt_or_eq _ _ Hq) as [Hq'|<-].
    - intros [?|[E ?]]; [left; apply qc_mul_pos; auto|right]. rewrite <- E.
      split; [ring|apply qc_mul_nonneg; auto].
    - intros _. right. split; [ring|]. replace (0 * (vemb a).2)%Qc with 0%Qc by ring. apply Qcle_refl.
  Qed.
  Lemma vscale_pos q a : (0 < q)%Qc -> vlt vzero a -> vlt vzero (vscale q a).
  Proof.
    rewrite !vlt_emb. vpush. intros Hq.
    intros [?|[E ?]]; [left; apply qc_mul_pos; auto|right]. rewrite <- E.
    split; [ring|apply qc_mul_pos; auto].
  Qed.
  Lemma vscale_le q a b : (0 <= q)%Qc -> vle a b -> vle (vscale q a) (vscale q b).
  Proof.
    intros Hq. rewrite vle_sub, (vle_sub (vscale q a)). intros.
    replace (vsub (vscale q b) (vscale q a)) with (vscale q (vsub b a)) by vring.
    apply vscale_nonneg; auto.
  Qed.
  Lemma vscale_le_neg q a b : (q <= 0)%Qc -> vle b a -> vle (vscale q a) (vscale q b).
  Proof.
    intros Hq. rewrite vle_sub, (vle_sub (vscale q a)). intros.
    replace (vsub (vscale q b) (vscale q a)) with (vscale (- q) (vsub a b)) by vring.
    apply vscale_nonneg; auto. qclra.
  Qed.
  Lemma vscale_lt q a b : (0 < q)%Qc -> vlt a b -> vlt (vscale q a) (vscale q b).
  Proof.
    intros Hq. rewrite vlt_sub, (vlt_sub (vscale q a)). intros.
    replace (vsub (vscale q b) (vscale q a)) with (vscale q (vsub b a)) by vring.
    apply vscale_pos; auto.
  Qed.
  Lemma vscale_lt_neg q a b : (q < 0)%Qc -> vlt b a -> vlt (vscale q a) (vscale q b).
  Proof.
    intros Hq. rewrite vlt_sub, (vlt_sub (vscale q a)). intros.
    replace (vsub (vscale q b) (vscale q a)) with (vscale (- q) (vsub a b)) by vring.
    apply vscale_pos; auto. qclra.
  Qed.
  Lemma vmuldiv a n d : vdivz (vmulz a n) d = vscale (qmk n d) a.
  Proof. unfold qmk. vring. Qed.
  Lemma vdivmul a n d : vmulz (vdivz a n) d = vscale (qmk d n) a.
  Proof. unfold qmk. vring. Qed.
  Lemma vscale_zero q : vscale q (vzero : V) = vzero.
  Proof. vring. Qed.
  Lemma vscale_0 a : vscale 0 a = vzero.
  Proof. vring. Qed.
  Lemma vscale_1 a : vscale 1 a = a.
  Proof. vring. Qed.
  Lemma vscale_add q a b : vscale q (vadd a b) = vadd (vscale q a) (vscale q b).
  Proof. vring. Qed.
  Lemma vscale_sub q a b : vscale q (vsub a b) = vsub (vscale q a) (vscale q b).
  Proof. vring. Qed.
  Lemma vscale_scale p q a : vscale p (vscale q a) = vscale (p * q) a.
  Proof. vring. Qed.
  Lemma vscale_plus p q a : vscale (p + q) a = vadd (vscale p a) (vscale q a).
  Proof. vring. Qed.
  Lemma vadd_0_l a : vadd vzero a = a.
  Proof. vring. Qed.
  Lemma vadd_0_r a : vadd a vzero = a.
  Proof. vring. Qed.
  Lemma vadd_comm a b : vadd a b = vadd b a.
  Proof. vring. Qed.
  Lemma vadd_assoc a b c : vadd a (vadd b c) = vadd (vadd a b) c.
  Proof. vring. Qed.
  Lemma vsub_diag a : vsub a a = vzero.
  Proof. vring. Qed.
End order.
