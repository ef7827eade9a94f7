(** * C37, C38: printed values, comparison of integers *)

From Coq Require Import Ascii String.
From Verif Require Import Num Parsing ParseSpec ParseNum Api.

(** ** C37: how numbers are written

    [int_value ds] is the number written by the digits [ds] (ParseSpec.v). *)
Inductive shows_int : list ascii -> Qc -> Prop :=
  | shows_pos ds : digits ds -> shows_int ds (int_value ds)
  | shows_neg ds : digits ds -> shows_int ("-"%char :: ds) (- int_value ds)%Qc.
Inductive shows_rat : list ascii -> Qc -> Prop :=
  | shows_whole s z : shows_int s z -> shows_rat s z
  | shows_frac a b n : shows_int a n -> digits b -> int_value b <> 0%Qc -> shows_rat (a ++ "/"%char :: b) (n / int_value b)%Qc.
(** a multiple of epsilon, written e *)
Inductive shows_eps : list ascii -> Qc -> Prop :=
  | shows_e : shows_eps ["e"%char] 1%Qc
  | shows_ke s k : shows_rat s k -> shows_eps (s ++ ["*"; "e"]%char) k.
Inductive shows : list ascii -> RatQ -> Prop :=
  | shows_c s c : shows_rat s c -> shows s (mkRatQ c 0%Qc)
  | shows_k s k : shows_eps s k -> shows s (mkRatQ 0%Qc k)
  | shows_ck a b c k : shows_rat a c -> shows_eps b k -> shows (a ++ "+"%char :: b) (mkRatQ c k).

(** the text determines the number *)
Lemma split_unique (c : ascii) a : forall a' r r', c ∉ a -> c ∉ a' -> a ++ c :: r = a' ++ c :: r' -> a = a' /\ r = r'.
Proof.
  induction a as [|x a IH]; intros [|x' a'] r r' Ha Ha' E; cbn in E.
  - injection E as ->. auto.
  - injection E as -> _. exfalso. apply Ha'. left.
  - injection E as -> _. exfalso. apply Ha. left.
  - injection E as -> E. rewrite not_elem_of_cons in Ha, Ha'. destruct (IH a' r r') as [-> ->]; tauto.
Qed.
Lemma digit_out s c : alldig s -> is_digit c = false -> c ∉ s.
Proof. intros Hs Hc Hi. unfold alldig in Hs. rewrite Forall_forall in Hs. specialize (Hs c Hi). congruence. Qed.
Lemma int_out s q c : shows_int s q -> is_digit c = false -> c <> "-"%char -> c ∉ s.
Proof.
  intros [ds Hd|ds Hd] Hc Hn; [apply digit_out; auto; apply digits_all, Hd|]. rewrite not_elem_of_cons. split; auto. apply digit_out; auto. apply digits_all, Hd.
Qed.
Lemma rat_out s q c : shows_rat s q -> is_digit c = false -> c <> "-"%char -> c <> "/"%char -> c ∉ s.
Proof.
  intros [s' z Hs|a b n Ha Hb _] Hc H1 H2; [eapply int_out; eauto|]. rewrite not_elem_of_app, not_elem_of_cons. split; [eapply int_out; eauto|]. split; auto.
  apply digit_out; auto. apply digits_all, Hb.
Qed.
Lemma eps_out s q c : shows_eps s q -> is_digit c = false -> c <> "-"%char -> c <> "/"%char -> c <> "*"%char -> c <> "e"%char -> c ∉ s.
Proof.
  intros [|s' k Hs] Hc H1 H2 H3 H4; [rewrite elem_of_list_singleton; auto|]. rewrite not_elem_of_app, !not_elem_of_cons. split; [eapply rat_out; eauto|].
  split; auto. split; auto. intros Hi. inversion Hi.
Qed.
Lemma shows_int_fun s q q' : shows_int s q -> shows_int s q' -> q = q'.
Proof.
  intros [ds Hd|ds Hd] H2; inversion H2 as [ds' Hd' E1|ds' Hd' E1]; subst; auto; apply digits_all in Hd; apply digits_all in Hd'; exfalso.
  - apply (digit_out _ "-"%char Hd); [reflexivity|left].
  - apply (digit_out _ "-"%char Hd'); [reflexivity|left].
Qed.
Lemma shows_rat_fun s q q' : shows_rat s q -> shows_rat s q' -> q = q'.
Proof.
  intros H1 H2. destruct H1 as [s z Hs|a b n Ha Hb Hz]; inversion H2 as [s' z' Hs' E|a' b' n' Ha' Hb' Hz' E]; subst.
  - eapply shows_int_fun; eauto.
  - exfalso. apply (int_out _ _ "/"%char Hs); [reflexivity|discriminate|]. rewrite elem_of_app, elem_of_cons. auto.
  - exfalso. apply (int_out _ _ "/"%char Hs'); [reflexivity|discriminate|]. rewrite elem_of_app, elem_of_cons. auto.
  - apply split_unique in E as [-> ->]; [f_equal; eapply shows_int_fun; eauto| |]; (eapply int_out; [eassumption|reflexivity|discriminate]).
Qed.
Lemma shows_eps_fun s q q' : shows_eps s q -> shows_eps s q' -> q = q'.
Proof.
  assert (C : forall s k, shows_rat s k -> ["e"%char] <> s ++ ["*"; "e"]%char).
  { intros x k _ E. apply (f_equal (@length _)) in E. rewrite app_length in E. cbn in E. lia. }
  intros H1 H2. destruct H1 as [|s k Hs]; inversion H2 as [E|s' k' Hs' E]; subst; auto.
  - exfalso. eapply C; eauto.
  - exfalso. eapply C; eauto.
  - apply app_inv_tail in E as ->. eapply shows_rat_fun; eauto.
Qed.
Lemma eps_e s k : shows_eps s k -> "e"%char ∈ s.
Proof. intros [|s' k' _]; [left|]. rewrite elem_of_app, !elem_of_cons. auto. Qed.
Lemma rat_not_eps s q k : shows_rat s q -> shows_eps s k -> False.
Proof. intros Hr He. apply eps_e in He. revert He. eapply rat_out; eauto; discriminate. Qed.
Theorem C37_text_unambiguous s v v' : shows s v -> shows s v' -> v = v'.
Proof.
  intros H1 H2. destruct H1 as [s c Hc|s k Hk|a b c k Ha Hb]; inversion H2 as [s' c' Hc' E|s' k' Hk' E|a' b' c' k' Ha' Hb' E]; subst.
  - f_equal. eapply shows_rat_fun; eauto.
  - exfalso. eapply rat_not_eps; eauto.
  - exfalso. apply (rat_out _ _ "+"%char Hc); try discriminate; [reflexivity|]. rewrite elem_of_app, elem_of_cons. auto.
  - exfalso. eapply rat_not_eps; eauto.
  - f_equal. eapply shows_eps_fun; eauto.
  - exfalso. apply (eps_out _ _ "+"%char Hk); try discriminate; [reflexivity|]. rewrite elem_of_app, elem_of_cons. auto.
  - exfalso. apply (rat_out _ _ "+"%char Hc'); try discriminate; [reflexivity|]. rewrite elem_of_app, elem_of_cons. auto.
  - exfalso. apply (eps_out _ _ "+"%char Hk'); try discriminate; [reflexivity|]. rewrite elem_of_app, elem_of_cons. auto.
  - apply split_unique in E as [-> ->]; [f_equal; [eapply shows_rat_fun; eauto|eapply shows_eps_fun; eauto]| |]; (eapply rat_out; [eassumption|reflexivity|discriminate|discriminate]).
Qed.

(** the text printed shows the value *)
Lemma digit_char_ok d : (0 <= d < 10)%Z -> digit_of (digit_char d) <> None /\ digit_value (digit_char d) = qofz d.
Proof.
  intros Hd. assert (K : is_digit (digit_char d) = true /\ digit (digit_char d) = d); [|destruct K as [K1 K2]; rewrite (digit_value_ok _ K1), K2; rewrite digit_of_ok, K1; split; [discriminate|reflexivity]]. assert (E : nat_of_ascii (digit_char d) = Z.to_nat (48 + d)) by (unfold digit_char; apply nat_ascii_embedding; lia).
  unfold is_digit, digit. rewrite E. split; [|lia]. rewrite andb_true_iff, !Nat.leb_le. lia.
Qed.
Lemma print_digits_ok k : forall n, (0 <= n)%Z -> (n < Z.of_nat k)%Z -> digits (print_digits k n) /\ int_value (print_digits k n) = qofz n.
Proof.
  induction k as [|k IH]; intros n H0 Hk; [lia|]. cbn [print_digits].
  destruct (digit_char_ok (n mod 10)) as [D1 D2]; [apply Z.mod_pos_bound; lia|]. destruct (n <? 10)%Z eqn:E.
  - apply Z.ltb_lt in E. cbn [app]. rewrite Z.mod_small in * by lia. split; [split; [discriminate|repeat constructor; auto]|].
    cbn. rewrite D2. ring.
  - apply Z.ltb_ge in E. assert (Hq : (0 <= n / 10 < n)%Z) by (split; [apply Z.div_pos; lia|apply Z.div_lt; lia]).
    destruct (IH (n / 10)%Z) as [[I1 I2] I3]; try lia. split.
    + split; [intros E'; apply app_eq_nil in E' as [_ E']; discriminate|]. apply Forall_app. split; auto.
    + rewrite int_value_app, I3. cbn [length int_value]. rewrite D2. cbn [Qcpower]. unfold ten.
      transitivity (qofz (n / 10) * qofz 10 + qofz (n mod 10))%Qc; [ring|]. rewrite <- qofz_mul, <- qofz_add. f_equal.
      rewrite Z.mul_comm, <- Z.div_mod; auto; lia.
Qed.
Lemma print_int_ok z : shows_int (print_int z) (qofz z).
Proof.
  unfold print_int. destruct (print_digits_ok (S (Z.to_nat (Z.abs z))) (Z.abs z)) as [D E]; [lia|lia|]. destruct (z <? 0)%Z eqn:Es; cbn [app].
  - apply Z.ltb_lt in Es. assert (Ez : qofz z = (- int_value (print_digits (S (Z.to_nat (Z.abs z))) (Z.abs z)))%Qc).
    { rewrite E. assert (Hz : (qofz z + qofz (Z.abs z) = 0)%Qc) by (rewrite <- qofz_add; replace (z + Z.abs z)%Z with 0%Z by lia; apply qofz_0).
      transitivity (qofz z + qofz (Z.abs z) - qofz (Z.abs z))%Qc; [ring|]. rewrite Hz. ring. }
    rewrite Ez. apply shows_neg. auto.
  - apply Z.ltb_ge in Es. replace (qofz z) with (int_value (print_digits (S (Z.to_nat (Z.abs z))) (Z.abs z))) by (rewrite E; f_equal; lia). apply shows_pos. auto.
Qed.
Lemma qc_frac (q : Qc) : (qofz (Qnum (this q)) / qofz (Zpos (Qden (this q))))%Qc = q.
Proof.
  apply Qc_is_canon. destruct q as [[n d] Hq]. cbn [this Qnum Qden]. unfold Qcdiv, Qcmult, Qcinv, qofz. cbn [this Q2Qc].
  rewrite !Qred_correct. unfold Qeq, Qmult, Qinv, inject_Z. cbn. lia.
Qed.
Lemma print_rat_ok q : shows_rat (print_rat q) q.
Proof.
  unfold print_rat. destruct (Z.eqb_spec (Zpos (Qden (this q))) 1) as [E|E].
  - rewrite app_nil_r. rewrite <- (qc_frac q) at 2. rewrite E. replace (qofz (Qnum (this q)) / qofz 1)%Qc with (qofz (Qnum (this q))) by (rewrite qofz_1; field; discriminate).
    apply shows_whole, print_int_ok.
  - rewrite <- (qc_frac q) at 3. pose proof (print_int_ok (Zpos (Qden (this q)))) as Hd.
    set (b := print_int (Zpos (Qden (this q)))) in *.
    assert (Hb : digits b /\ int_value b = qofz (Zpos (Qden (this q)))).
    { subst b. unfold print_int. cbn [Z.ltb Z.compare app Z.abs]. apply print_digits_ok; lia. }
    destruct Hb as [Hb1 Hb2]. rewrite <- Hb2. apply shows_frac; auto; [apply print_int_ok|]. rewrite Hb2. apply qofz_neq0. discriminate.
Qed.
Theorem C37_printed_text v : shows (print_ratq v) v.
Proof.
  destruct v as [c k]. unfold print_ratq. cbn [rq_c rq_k].
  assert (E1 : forall q, Qc_eq_bool q 1 = true -> q = 1%Qc) by (intros; apply Qc_eq_bool_iff; auto).
  assert (Keps : forall s q, shows_rat s q -> shows_eps ((if negb (Qc_eq_bool q 1) then s ++ ["*"%char] else []) ++ ["e"%char]) q).
  { intros s q Hs. destruct (Qc_eq_bool q 1) eqn:E; cbn [negb app]; [rewrite (E1 _ E); apply shows_e|]. rewrite <- app_assoc. apply shows_ke. auto. }
  destruct (Qc_eq_bool k 0) eqn:Ek; cbn [negb].
  - apply Qc_eq_bool_iff in Ek as ->. rewrite orb_true_r, app_nil_r. apply shows_c, print_rat_ok.
  - rewrite orb_false_r. destruct (Qc_eq_bool c 0) eqn:Ec; cbn [negb app].
    + apply Qc_eq_bool_iff in Ec as ->. apply shows_k. apply Keps, print_rat_ok.
    + apply shows_ck; [apply print_rat_ok|]. apply Keps, print_rat_ok.
Qed.
(** without strict mode: the value printed is a Rational *)
Theorem C37_printed_rational q : shows (print_rat q) (mkRatQ q 0%Qc).
Proof. apply shows_c, print_rat_ok. Qed.
Theorem C37_distinct : (forall v v', print_ratq v = print_ratq v' -> v = v') /\ (forall q q', print_rat q = print_rat q' -> q = q').
Proof.
  split.
  - intros v v' E. apply (C37_text_unambiguous (print_ratq v)); [apply C37_printed_text|rewrite E; apply C37_printed_text].
  - intros q q' E. eapply shows_rat_fun; [apply print_rat_ok|]. rewrite E. apply print_rat_ok.
Qed.
Example C37_texts : map (fun v => string_of_list_ascii (print_ratq v))
  [mkRatQ 0%Qc 0%Qc; mkRatQ (Q2Qc (-7 # 12)) 0%Qc; mkRatQ 0%Qc 1%Qc; mkRatQ (Q2Qc 105) (Q2Qc (-1 # 3))] = ["0"; "-7/12"; "e"; "105+-1/3*e"]%string.
Proof. reflexivity. Qed.

(** ** C38 *)
Definition agrees (c : comparison) (a b : Z) : Prop :=
  (lt_of c = true <-> (a < b)%Z) /\ (le_of c = true <-> (a <= b)%Z) /\ (gt_of c = true <-> (a > b)%Z) /\ (ge_of c = true <-> (a >= b)%Z).
Lemma compare_agrees a b : agrees (Z.compare a b) a b.
Proof. unfold agrees, lt_of, le_of, gt_of, ge_of, Z.lt, Z.le, Z.gt, Z.ge. destruct (Z.compare a b); repeat split; intros; congruence. Qed.
Theorem C38_imath a b : agrees (compare_imath a b) a b.
Proof. apply compare_agrees. Qed.
(** Missing: with FLINT, larger second operands, for which the claim is false. *)
Theorem C38_flint_partial heap a b : (Z.abs b <= coeff_max)%Z -> agrees (compare_flint heap a b) a b.
Proof. intros Hb. unfold compare_flint, compare_flint_si, fmpz_word. apply Z.leb_le in Hb. rewrite Hb. apply compare_agrees. Qed.
(** comparison with a machine integer, in particular with 0 and 1 (the only
    comparisons of Integers in the solver) *)
Theorem C38_flint_word a b : agrees (compare_flint_si a b) a b.
Proof. apply compare_agrees. Qed.
(** wherever the large number is stored *)
Theorem C38_refuted heap : heap_ok heap -> ~ agrees (compare_flint heap 0 (- 2 ^ 62)) 0 (- 2 ^ 62).
Proof.
  intros Hh (E & _). unfold compare_flint, compare_flint_si, fmpz_word in E. change (Z.abs (- 2 ^ 62) <=? coeff_max)%Z with false in E. cbv iota in E.
  specialize (Hh (- 2 ^ 62)%Z). assert (C : (0 ?= heap (- 2 ^ 62)%Z)%Z = Lt) by (apply Z.compare_lt_iff; lia). rewrite C in E.
  destruct E as [E _]. specialize (E eq_refl). lia.
Qed.
Example C38_heap : heap_ok (fun z => 2 ^ 62 + Z.abs z mod 2 ^ 62)%Z.
Proof. intros z. pose proof (Z.mod_pos_bound (Z.abs z) (2 ^ 62) ltac:(lia)). lia. Qed.
