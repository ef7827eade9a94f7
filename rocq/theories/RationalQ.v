(** * RationalQ: all operators of number.hh

    Num.v has the operators the solver uses.  Here are all overloads, with a
    rational (Rational), an integer (Integer) or a machine integer (fixed_int)
    as second operand, and the six comparison operators for each.  A machine
    integer is converted without loss, so it is an integer here. *)

From Verif Require Import Num Sums Solver Spec Eps.

(** the second operand *)
Inductive operand := OInt (z : Z) | ORat (q : Qc) | OEps (r : RatQ).
Inductive scalar := SInt (z : Z) | SRat (q : Qc).
Definition scalar_q (b : scalar) : Qc := match b with SInt z => zq z | SRat q => q end.

(** the last three lines of compare(RationalQ, fixed_int), compare(RationalQ,
    Integer) and compare(RationalQ, Rational), number.hh 133-176 *)
Definition k_sign (k : Qc) : comparison := if vltb k 0%Qc then Lt else if vgtb k 0%Qc then Gt else Eq.
(** compare, number.hh 133-184 *)
Definition op_compare (a : RatQ) (b : operand) : comparison :=
  match b with
  | OInt z => match (rq_c a ?= zq z)%Qc with Eq => k_sign (rq_k a) | r => r end
  | ORat q => match (rq_c a ?= q)%Qc with Eq => k_sign (rq_k a) | r => r end
  | OEps r => match (rq_c a ?= rq_c r)%Qc with Eq => (rq_k a ?= rq_k r)%Qc | r => r end
  end.
(** operators <, <=, >, >=, number.hh 360-378 *)
Definition op_lt (a : RatQ) (b : operand) : bool := match op_compare a b with Lt => true | _ => false end.
Definition op_le (a : RatQ) (b : operand) : bool := match op_compare a b with Gt => false | _ => true end.
Definition op_gt (a : RatQ) (b : operand) : bool := match op_compare a b with Gt => true | _ => false end.
Definition op_ge (a : RatQ) (b : operand) : bool := match op_compare a b with Lt => false | _ => true end.
(** operator==, number.hh 380-385; operator!=, 387-390 *)
Definition op_eq (a : RatQ) (b : operand) : bool :=
  match b with
  | OInt z => Qc_eq_bool (rq_k a) 0 && Qc_eq_bool (rq_c a) (zq z)
  | ORat q => Qc_eq_bool (rq_k a) 0 && Qc_eq_bool (rq_c a) q
  | OEps r => Qc_eq_bool (rq_c a) (rq_c r) && Qc_eq_bool (rq_k a) (rq_k r)
  end.
Definition op_ne (a : RatQ) (b : operand) : bool := negb (op_eq a b).
(** operator+ and +=, number.hh 186-231 *)
Definition op_add (a : RatQ) (b : operand) : RatQ :=
  match b with
  | OInt z => mkRatQ (rq_c a + zq z)%Qc (rq_k a)
  | ORat q => mkRatQ (rq_c a + q)%Qc (rq_k a)
  | OEps r => mkRatQ (rq_c a + rq_c r)%Qc (rq_k a + rq_k r)%Qc
  end.
(** operator- and -=, number.hh 241-280 *)
Definition op_sub (a : RatQ) (b : operand) : RatQ :=
  match b with
  | OInt z => mkRatQ (rq_c a - zq z)%Qc (rq_k a)
  | ORat q => mkRatQ (rq_c a - q)%Qc (rq_k a)
  | OEps r => mkRatQ (rq_c a - rq_c r)%Qc (rq_k a - rq_k r)%Qc
  end.
(** unary operator-, number.hh 235-239 *)
Definition op_neg (a : RatQ) : RatQ := mkRatQ (- rq_c a)%Qc (- rq_k a)%Qc.
(** operator* and *=, number.hh 284-318 *)
Definition op_mul (a : RatQ) (b : scalar) : RatQ :=
  match b with SInt z => mkRatQ (rq_c a * zq z)%Qc (rq_k a * zq z)%Qc | SRat q => mkRatQ (rq_c a * q)%Qc (rq_k a * q)%Qc end.
(** operator/ and /=, number.hh 322-356; division by 0 is refused by the
    libraries (flint aborts, imath reports an error) *)
Definition op_div (a : RatQ) (b : scalar) : res RatQ :=
  match b with
  | SInt z => if Z.eqb z 0 then UB else Ok (mkRatQ (rq_c a / zq z)%Qc (rq_k a / zq z)%Qc)
  | SRat q => if Qc_eq_bool q 0 then UB else Ok (mkRatQ (rq_c a / q)%Qc (rq_k a / q)%Qc)
  end.
(** is_rational and as_rational, number.hh 120-127 *)
Definition is_rational (a : RatQ) : bool := Qc_eq_bool (rq_k a) 0.
Definition as_rational (a : RatQ) : res Qc := if is_rational a then Ok (rq_c a) else Exn.

(** ** What the numbers stand for *)

(** the number with epsilon replaced by the rational [e] *)
Definition at_eps (e : Qc) (a : RatQ) : Qc := (rq_c a + rq_k a * e)%Qc.
(** an operand as a number with epsilon *)
Definition operand_r (b : operand) : RatQ := match b with OInt z => mkRatQ (zq z) 0%Qc | ORat q => mkRatQ q 0%Qc | OEps r => r end.
(** [P e] for every sufficiently small positive [e] *)
Definition eventually (P : Qc -> Prop) : Prop := exists e0, (0 < e0)%Qc /\ forall e, (0 < e)%Qc -> (e <= e0)%Qc -> P e.

Lemma op_compare_r a b : op_compare a b = rq_compare a (operand_r b).
Proof.
  assert (K : forall k : Qc, k_sign k = (k ?= 0)%Qc).
  { intros k. unfold k_sign. destruct (vltb k 0%Qc) eqn:E1.
    - apply vltb_lt in E1. symmetry. exact E1.
    - destruct (vgtb k 0%Qc) eqn:E2.
      + unfold vgtb in E2. cbn in E2. destruct (k ?= 0)%Qc; congruence.
      + unfold vltb in E1. unfold vgtb in E2. cbn in E1, E2. destruct (k ?= 0)%Qc; congruence. }
  destruct b; cbn [op_compare operand_r rq_compare]; unfold rq_compare; cbn [rq_c rq_k]; rewrite ?K; auto.
Qed.

Lemma at_inst e (a : RatQ) : at_eps e a = inst e a.
Proof. reflexivity. Qed.
Lemma eventually_lt a b : vlt a b -> eventually (fun e => (at_eps e a < at_eps e b)%Qc).
Proof. intros Hl. destruct (inst_lt_small a b Hl) as (e0 & H0 & He). exists e0. auto. Qed.
Lemma eventually_trich (a b : RatQ) (P : comparison -> Prop) : rq_compare a b = rq_compare a b ->
  match rq_compare a b with
  | Lt => eventually (fun e => (at_eps e a < at_eps e b)%Qc)
  | Eq => a = b
  | Gt => eventually (fun e => (at_eps e b < at_eps e a)%Qc)
  end.
Proof.
  intros _. destruct (rq_compare a b) eqn:E.
  - change (vcmp a b = Eq) in E. rewrite vemb_cmp in E. unfold lexcmp in E. cbn in E. destruct a as [c k], b as [c' k']. cbn in E.
    destruct (c ?= c')%Qc eqn:E1; try discriminate. apply qc_cmp_eq in E1, E. congruence.
  - apply eventually_lt. exact E.
  - apply eventually_lt. change (vcmp b a = Lt). rewrite (vcmp_antisym a b). change (CompOpp (rq_compare a b) = Lt). rewrite E. auto.
Qed.
Lemma eventually_and (P Q : Qc -> Prop) : eventually P -> eventually Q -> exists e, (0 < e)%Qc /\ P e /\ Q e.
Proof. intros HP HQ. apply (small_ex (fun e => P e /\ Q e)). apply small_and; auto. Qed.

(** ** C16 *)
Section c16.
  Implicit Types a b c : RatQ.
  Implicit Types x y : operand.

  (** Each comparison operator compares the rationals the two sides stand for,
      for every small epsilon; any two numbers are comparable. *)
  Theorem C16_order_is_eventual a x :
    (op_lt a x = true <-> eventually (fun e => (at_eps e a < at_eps e (operand_r x))%Qc)) /\
    (op_le a x = true <-> eventually (fun e => (at_eps e a <= at_eps e (operand_r x))%Qc)) /\
    (op_gt a x = true <-> eventually (fun e => (at_eps e (operand_r x) < at_eps e a)%Qc)) /\
    (op_ge a x = true <-> eventually (fun e => (at_eps e (operand_r x) <= at_eps e a)%Qc)) /\
    (op_eq a x = true <-> eventually (fun e => at_eps e a = at_eps e (operand_r x))) /\
    (op_ne a x = true <-> eventually (fun e => at_eps e a <> at_eps e (operand_r x))).
  Proof.
    assert (W : forall P Q : Qc -> Prop, (forall e, P e -> Q e) -> eventually P -> eventually Q).
    { intros P Q HPQ (e0 & H0 & He). exists e0. auto. }
    assert (X : forall P Q : Qc -> Prop, (forall e, P e -> Q e -> False) -> eventually P -> eventually Q -> False).
    { intros P Q HPQ HP HQ. destruct (eventually_and P Q HP HQ) as (e & _ & A & B). eauto. }
    assert (R : forall P : Qc -> Prop, (forall e, P e) -> eventually P) by (intros P HP; exists 1%Qc; split; [reflexivity|auto]).
    assert (Eeq : op_eq a x = true <-> a = operand_r x).
    { destruct x, a as [c k]; cbn; rewrite andb_true_iff, !Qc_eq_bool_iff; split; try (intros [-> ->]; auto); try (intros [=]; auto).
      - destruct r. auto.
      - subst. auto. }
    pose proof (eventually_trich a (operand_r x) (fun _ => True) eq_refl) as T.
    unfold op_lt, op_le, op_gt, op_ge, op_ne. rewrite op_compare_r. set (b := operand_r x) in *.
    assert (Ene : negb (op_eq a x) = true <-> a <> b) by (rewrite negb_true_iff; destruct (op_eq a x); [|]; split; try congruence; intros Hn; [exfalso; apply Hn, Eeq; auto|intros Hc; apply Eeq in Hc; discriminate]).
    rewrite Eeq, Ene. clear Eeq Ene. destruct (rq_compare a b) eqn:Ec.
    - subst a. split; [split; [discriminate|intros Hq; exfalso; eapply X; [|exact Hq|exact Hq]; cbn; intros e Hl _; qclra]|].
      split; [split; auto; intros _; apply R; intros e; apply Qcle_refl|].
      split; [split; [discriminate|intros Hq; exfalso; eapply X; [|exact Hq|exact Hq]; cbn; intros e Hl _; qclra]|].
      split; [split; auto; intros _; apply R; intros e; apply Qcle_refl|].
      split; [split; auto|]. split; [congruence|]. intros Hq _. eapply X; [|exact Hq|exact Hq]. cbn. auto.
    - assert (Hab : a <> b) by (intros E0; subst; eapply X; [|exact T|exact T]; cbn; intros e Hl _; qclra).
      split; [split; auto|]. split; [split; auto; intros _; eapply W; [|exact T]; cbn; intros e Hl; qclra|].
      split; [split; [discriminate|intros Hq; exfalso; eapply X; [|exact T|exact Hq]; cbn; intros e H1 H2; qclra]|].
      split; [split; [discriminate|intros Hq; exfalso; eapply X; [|exact T|exact Hq]; cbn; intros e H1 H2; qclra]|].
      split; [split; [congruence|intros Hq; exfalso; eapply X; [|exact T|exact Hq]; cbn; intros e H1 H2; rewrite H2 in H1; qclra]|].
      split; auto. intros _. eapply W; [|exact T]. cbn. intros e H1 H2. rewrite H2 in H1. qclra.
    - assert (Hab : a <> b) by (intros E0; subst; eapply X; [|exact T|exact T]; cbn; intros e Hl _; qclra).
      split; [split; [discriminate|intros Hq; exfalso; eapply X; [|exact T|exact Hq]; cbn; intros e H1 H2; qclra]|].
      split; [split; [discriminate|intros Hq; exfalso; eapply X; [|exact T|exact Hq]; cbn; intros e H1 H2; qclra]|].
      split; [split; auto|]. split; [split; auto; intros _; eapply W; [|exact T]; cbn; intros e Hl; qclra|].
      split; [split; [congruence|intros Hq; exfalso; eapply X; [|exact T|exact Hq]; cbn; intros e H1 H2; rewrite H2 in H1; qclra]|].
      split; auto. intros _. eapply W; [|exact T]. cbn. intros e H1 H2. rewrite H2 in H1. qclra.
  Qed.

  (** the operators agree with each other *)
  Theorem C16_operators_agree a x :
    (op_gt a x = negb (op_le a x)) /\ (op_ge a x = negb (op_lt a x)) /\ (op_ne a x = negb (op_eq a x)) /\
    (op_eq a x = op_le a x && op_ge a x) /\ (op_le a x = op_lt a x || op_eq a x) /\ (op_ge a x = op_gt a x || op_eq a x) /\
    op_compare a x = op_compare a (OEps (operand_r x)) /\ op_eq a x = op_eq a (OEps (operand_r x)).
  Proof.
    assert (Eeq : op_eq a x = match op_compare a x with Eq => true | _ => false end).
    { assert (Q : forall p q : Qc, Qc_eq_bool p q = match (p ?= q)%Qc with Eq => true | _ => false end).
      { intros p q. destruct (p ?= q)%Qc eqn:E.
        - apply qc_cmp_eq in E as ->. apply Qc_eq_bool_iff. auto.
        - apply qc_cmp_lt in E. destruct (Qc_eq_bool p q) eqn:E2; auto. apply Qc_eq_bool_iff in E2. subst. exfalso. eapply qc_lt_irrefl; eauto.
        - apply qc_cmp_gt in E. destruct (Qc_eq_bool p q) eqn:E2; auto. apply Qc_eq_bool_iff in E2. subst. exfalso. eapply qc_lt_irrefl; eauto. }
      rewrite op_compare_r. unfold rq_compare. destruct x; cbn [op_eq operand_r rq_c rq_k]; rewrite !Q; repeat (destruct (_ ?= _)%Qc; auto). }
    assert (Ec : op_compare a x = op_compare a (OEps (operand_r x))) by (rewrite !op_compare_r; auto).
    split; [|split; [|split; [|split; [|split; [|split; [|split]]]]]]; auto; try (unfold op_gt, op_le, op_ge, op_lt; rewrite ?Eeq; destruct (op_compare a x); reflexivity).
    destruct x as [z|q|r]; unfold op_eq, operand_r; cbn [rq_c rq_k]; [apply andb_comm|apply andb_comm|reflexivity].
  Qed.

  (** a total order *)
  Theorem C16_total_order a b c :
    op_le a (OEps a) = true /\ (op_le a (OEps b) = true -> op_le b (OEps a) = true -> a = b) /\
    (op_le a (OEps b) = true -> op_le b (OEps c) = true -> op_le a (OEps c) = true) /\
    (op_le a (OEps b) = true \/ op_le b (OEps a) = true) /\ (op_eq a (OEps b) = true <-> a = b).
  Proof.
    assert (L : forall a b, op_le a (OEps b) = true <-> vle a b) by (intros a0 b0; exact (vleb_le (V := RatQ) a0 b0)).
    rewrite !L. split; [apply vle_refl|]. split; [apply vle_antisym|]. split; [apply vle_trans|]. split; [destruct (vle_total a b); auto using vlt_le|].
    exact (veqb_spec (V := RatQ) a b).
  Qed.

  (** addition and subtraction, multiplication and division by rationals act
      on the rationals the numbers stand for, whatever epsilon is *)
  Theorem C16_arithmetic a x (s : scalar) e :
    at_eps e (op_add a x) = (at_eps e a + at_eps e (operand_r x))%Qc /\ at_eps e (op_sub a x) = (at_eps e a - at_eps e (operand_r x))%Qc /\
    at_eps e (op_neg a) = (- at_eps e a)%Qc /\ at_eps e (op_mul a s) = (at_eps e a * scalar_q s)%Qc /\
    (if decide (scalar_q s = 0%Qc) then op_div a s = UB else exists d, op_div a s = Ok d /\ at_eps e d = (at_eps e a / scalar_q s)%Qc).
  Proof.
    unfold at_eps. split; [|split; [|split; [|split]]].
    - destruct x; cbn; ring.
    - destruct x; cbn; ring.
    - cbn. ring.
    - destruct s; cbn; ring.
    - destruct s as [z|q]; cbn [scalar_q op_div].
      + destruct (decide _) as [E|E].
        * destruct (Z.eqb_spec z 0); auto. exfalso. apply n. apply zq_inj. rewrite zq_0. auto.
        * destruct (Z.eqb_spec z 0) as [->|]; [exfalso; apply E, zq_0|]. eexists. split; [reflexivity|]. cbn. field. auto.
      + destruct (decide _) as [E|E].
        * rewrite (proj2 (Qc_eq_bool_iff q 0) E). auto.
        * destruct (Qc_eq_bool q 0) eqn:E1; [apply Qc_eq_bool_iff in E1; contradiction|]. eexists. split; [reflexivity|]. cbn. field. auto.
  Qed.

  Lemma op_mul_scale a s : op_mul a s = vscale (scalar_q s) a.
  Proof. apply v_ext; rewrite vemb_scale; destruct s; cbn; ring. Qed.
  Lemma op_lt_vlt a b : op_lt a (OEps b) = true <-> vlt a b.
  Proof. exact (vltb_lt (V := RatQ) a b). Qed.

  (** the order is compatible with these operations *)
  Theorem C16_compatible a b c (s : scalar) :
    op_lt (op_add a (OEps c)) (OEps (op_add b (OEps c))) = op_lt a (OEps b) /\
    op_lt (op_sub a (OEps c)) (OEps (op_sub b (OEps c))) = op_lt a (OEps b) /\
    op_lt (op_neg a) (OEps (op_neg b)) = op_lt b (OEps a) /\
    ((0 < scalar_q s)%Qc -> op_lt (op_mul a s) (OEps (op_mul b s)) = op_lt a (OEps b) /\
       forall a' b', op_div a s = Ok a' -> op_div b s = Ok b' -> op_lt a' (OEps b') = op_lt a (OEps b)) /\
    ((scalar_q s < 0)%Qc -> op_lt (op_mul a s) (OEps (op_mul b s)) = op_lt b (OEps a) /\
       forall a' b', op_div a s = Ok a' -> op_div b s = Ok b' -> op_lt a' (OEps b') = op_lt b (OEps a)).
  Proof.
    assert (B : forall p q : bool, (p = true <-> q = true) -> p = q) by (intros [] [] [H1 H2]; auto; try (symmetry; auto); auto).
    assert (D : forall a a', op_div a s = Ok a' -> scalar_q s <> 0%Qc /\ op_mul a' s = a).
    { intros d d' Hd. pose proof (C16_arithmetic d (OInt 0) s) as Ha. destruct (Qc_eq_dec (scalar_q s) 0) as [E|E].
      - exfalso. destruct (Ha 0%Qc) as (_ & _ & _ & _ & Hx). destruct (decide _); [congruence|contradiction].
      - split; auto. unfold op_div in Hd. destruct s as [z|q]; cbn [scalar_q] in *.
        + destruct (z =? 0)%Z; [discriminate|]. injection Hd as <-. destruct d. unfold op_mul. cbn. f_equal; field; auto.
        + destruct (Qc_eq_bool q 0); [discriminate|]. injection Hd as <-. destruct d. unfold op_mul. cbn. f_equal; field; auto. }
    assert (M1 : (0 < scalar_q s)%Qc -> forall a b, op_lt (op_mul a s) (OEps (op_mul b s)) = op_lt a (OEps b)).
    { intros Hs p q. apply B. rewrite !op_lt_vlt, !op_mul_scale. split; [|apply vscale_lt; auto].
      intros Hl. apply vnot_le. intros Hc. apply vnot_le in Hl. apply Hl. apply vscale_le; auto. apply Qclt_le_weak; auto. }
    assert (M2 : (scalar_q s < 0)%Qc -> forall a b, op_lt (op_mul a s) (OEps (op_mul b s)) = op_lt b (OEps a)).
    { intros Hs p q. apply B. rewrite !op_lt_vlt, !op_mul_scale. split; [|apply vscale_lt_neg; auto].
      intros Hl. apply vnot_le. intros Hc. apply vnot_le in Hl. apply Hl. apply vscale_le_neg; auto. apply Qclt_le_weak; auto. }
    split; [|split; [|split; [|split]]].
    - apply B. rewrite !op_lt_vlt, !vlt_emb. cbn. split; (intros [?|[? ?]]; [left|right; split]; qclra).
    - apply B. rewrite !op_lt_vlt, !vlt_emb. cbn. split; (intros [?|[? ?]]; [left|right; split]; qclra).
    - apply B. rewrite !op_lt_vlt, !vlt_emb. cbn. split; (intros [?|[? ?]]; [left|right; split]; qclra).
    - intros Hs. split; [apply M1; auto|]. intros a' b' Ha Hb. apply D in Ha as [_ Ha], Hb as [_ Hb]. rewrite <- Ha, <- Hb. symmetry. apply M1; auto.
    - intros Hs. split; [apply M2; auto|]. intros a' b' Ha Hb. apply D in Ha as [_ Ha], Hb as [_ Hb]. rewrite <- Ha, <- Hb. symmetry. apply M2; auto.
  Qed.

  (** epsilon is positive and smaller than every positive rational; the
      conversion to a rational succeeds exactly on numbers without epsilon *)
  Theorem C16_epsilon : op_gt (mkRatQ 0 1) (OInt 0) = true /\ (forall q, (0 < q)%Qc -> op_lt (mkRatQ 0 1) (ORat q) = true) /\
    (forall a, as_rational a <> Exn <-> exists q, op_eq a (ORat q) = true) /\ (forall a q, as_rational a = Ok q <-> op_eq a (ORat q) = true).
  Proof.
    split; [vm_compute; reflexivity|]. split; [|split].
    - intros q Hq. unfold op_lt. cbn. rewrite (proj2 (qc_cmp_lt 0 q) Hq). auto.
    - intros a. unfold as_rational, is_rational. cbn. destruct (Qc_eq_bool (rq_k a) 0); split; try discriminate; try congruence.
      + intros _. exists (rq_c a). cbn. apply Qc_eq_bool_iff. auto.
      + intros (q & E). discriminate.
    - intros a q. unfold as_rational, is_rational. cbn. destruct (Qc_eq_bool (rq_k a) 0); cbn; [rewrite Qc_eq_bool_iff; split; congruence|split; discriminate].
  Qed.
End c16.

(** the operators of Num.v, which the solver's theorems use, are these *)
Theorem C16_solver_uses_these (a b : RatQ) (z : Z) :
  vcmp a b = op_compare a (OEps b) /\ veqb a b = op_eq a (OEps b) /\ vadd a b = op_add a (OEps b) /\ vsub a b = op_sub a (OEps b) /\
  vmulz a z = op_mul a (SInt z) /\ (z <> 0%Z -> op_div a (SInt z) = Ok (vdivz a z)).
Proof. repeat split; auto. intros Hz. cbn. destruct (Z.eqb_spec z 0); [contradiction|auto]. Qed.

(** 3 - e < 3 < 3 + e, whatever the operand's type *)
Example C16_example : op_lt (mkRatQ (zq 3) (- (1))) (OInt 3) = true /\ op_gt (mkRatQ (zq 3) 1) (ORat (zq 3)) = true /\
  op_lt (mkRatQ (zq 3) (- (1))) (OEps (mkRatQ (zq 3) 1)) = true /\ as_rational (mkRatQ (zq 3) 1) = Exn.
Proof. repeat split; vm_compute; reflexivity. Qed.
