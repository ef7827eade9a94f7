(** * Reading numbers and names (proofs about Parsing.v) *)

From Verif Require Import Num Solver Spec Parsing ParseSpec.

(** ** digits *)
Definition alldig (s : list ascii) : Prop := Forall (fun c => is_digit c = true) s.

Lemma digit_of_ok c : digit_of c = if is_digit c then Some (digit c) else None.
Proof. destruct c as [[] [] [] [] [] [] [] []]; reflexivity. Qed.
Lemma digit_value_ok c : is_digit c = true -> digit_value c = qofz (digit c).
Proof. intros Hc. unfold digit_value. rewrite digit_of_ok, Hc. reflexivity. Qed.
Lemma digits_alldig s : digits s <-> s <> [] /\ alldig s.
Proof.
  unfold digits, alldig. split; intros [Hn Hs]; (split; [exact Hn|]); (eapply Forall_impl; [exact Hs|]); intros c Hc; cbn beta in *; rewrite digit_of_ok in *; destruct (is_digit c); congruence.
Qed.
Lemma digits_all s : digits s -> alldig s.
Proof. intros Hs. apply digits_alldig in Hs. apply Hs. Qed.

Lemma span_digits_app s : let '(a, b) := span_digits s in s = a ++ b /\ alldig a /\ (b = [] \/ exists c r, b = c :: r /\ is_digit c = false).
Proof.
  induction s as [|c s IH]; cbn.
  - split; auto. split; [constructor|auto].
  - destruct (is_digit c) eqn:E.
    + destruct (span_digits s) as [a b]. destruct IH as (-> & Ha & Hb). split; auto. split; [constructor; auto|auto].
    + split; auto. split; [constructor|]. right. eauto.
Qed.
Lemma span_digits_all a b : alldig a -> (b = [] \/ exists c r, b = c :: r /\ is_digit c = false) -> span_digits (a ++ b) = (a, b).
Proof.
  intros Ha Hb. induction Ha as [|c a Hc _ IH]; cbn.
  - destruct Hb as [->|(c & r & -> & E)]; cbn; [auto|rewrite E; auto].
  - rewrite Hc, IH. auto.
Qed.
Lemma span_digits_only a : alldig a -> span_digits a = (a, []).
Proof. intros Ha. rewrite <- (app_nil_r a) at 1. apply span_digits_all; auto. Qed.

Lemma digit_neq c d : is_digit c = true -> is_digit d = false -> Ascii.eqb c d = false.
Proof. intros Hc Hd. destruct (Ascii.eqb_spec c d); [congruence|auto]. Qed.

Lemma qofz_add a b : qofz (a + b) = (qofz a + qofz b)%Qc.
Proof. apply Qc_is_canon. unfold qofz. cbn [this Qcplus Q2Qc]. rewrite !Qred_correct. rewrite inject_Z_plus. reflexivity. Qed.
Lemma qofz_mul a b : qofz (a * b) = (qofz a * qofz b)%Qc.
Proof. apply Qc_is_canon. unfold qofz. cbn [this Qcmult Q2Qc]. rewrite !Qred_correct. rewrite inject_Z_mult. reflexivity. Qed.
Lemma qofz_inj a b : qofz a = qofz b -> a = b.
Proof.
  intros E. unfold qofz in E. apply (f_equal this) in E. cbn in E. assert (E' : inject_Z a == inject_Z b).
  { rewrite <- (Qred_correct (inject_Z a)), <- (Qred_correct (inject_Z b)), E. reflexivity. }
  unfold Qeq in E'. cbn in E'. lia.
Qed.
Lemma qofz_0 : qofz 0 = 0%Qc.
Proof. reflexivity. Qed.
Lemma qofz_1 : qofz 1 = 1%Qc.
Proof. reflexivity. Qed.
Lemma qofz_neq0 z : z <> 0%Z -> qofz z <> 0%Qc.
Proof. intros Hz E. rewrite <- qofz_0 in E. apply Hz, qofz_inj. auto. Qed.

Definition ten : Qc := qofz 10.
Lemma ten_neq : ten <> 0%Qc.
Proof. apply qofz_neq0. lia. Qed.
Lemma pow_neq n : (ten ^ n)%Qc <> 0%Qc.
Proof. induction n as [|n IH]; cbn; [discriminate|]. intros E. apply Qcmult_integral in E as [E|E]; [apply ten_neq; auto|auto]. Qed.
Lemma pow_app n m : (ten ^ (n + m) = ten ^ n * ten ^ m)%Qc.
Proof. induction n as [|n IH]; cbn; [ring|]. rewrite IH. ring. Qed.

Lemma read_acc s a : alldig s -> qofz (fold_left (fun a c => 10 * a + digit c)%Z s a) = (qofz a * ten ^ (length s) + int_value s)%Qc.
Proof.
  revert a. induction s as [|c s IH]; intros a Hs; cbn [fold_left length int_value].
  - cbn. ring.
  - inversion Hs; subst. rewrite IH by auto. rewrite digit_value_ok by auto. rewrite qofz_add, qofz_mul. change (qofz 10) with ten. cbn [Qcpower]. ring.
Qed.
Lemma read_nat_value s : alldig s -> qofz (read_nat s) = int_value s.
Proof. intros Hs. unfold read_nat. rewrite read_acc, qofz_0 by auto. ring. Qed.
Lemma int_value_app a b : int_value (a ++ b) = (int_value a * ten ^ (length b) + int_value b)%Qc.
Proof.
  induction a as [|c a IH]; cbn [app int_value].
  - ring.
  - rewrite IH, app_length. change (qofz 10) with ten. rewrite pow_app. ring.
Qed.
Lemma frac_value_int f : frac_value f = (int_value f / ten ^ (length f))%Qc.
Proof.
  induction f as [|c f IH]; cbn [frac_value int_value length Qcpower].
  - field. discriminate.
  - rewrite IH. change (qofz 10) with ten. field. split; [apply pow_neq|apply ten_neq].
Qed.
Lemma frac_zeros f k : frac_value (f ++ repeat "0"%char k) = frac_value f.
Proof.
  induction f as [|c f IH]; cbn [app frac_value].
  - induction k as [|k IH]; cbn [repeat frac_value]; auto. rewrite IH. change (digit_value "0") with 0%Qc. cbn [frac_value]. field. apply ten_neq.
  - rewrite IH. auto.
Qed.
Lemma drop_zeros_spec f : exists k, f = drop_zeros f ++ repeat "0"%char k.
Proof.
  unfold drop_zeros. set (go := fix go l := match l with [] => [] | c :: r => if Ascii.eqb c "0" then go r else l end).
  assert (E : forall l, exists k, l = repeat "0"%char k ++ go l).
  { induction l as [|c l (k & IH)]; cbn; [exists 0; auto|]. destruct (Ascii.eqb_spec c "0") as [->|].
    - exists (S k). cbn. rewrite <- IH. auto.
    - exists 0. auto. }
  destruct (E (reverse f)) as (k & Ek). exists k. rewrite <- (reverse_involutive f) at 1. rewrite Ek at 1. rewrite reverse_app. apply f_equal.
  clear. induction k as [|k IH]; [auto|]. cbn [repeat]. rewrite reverse_cons, IH. clear. induction k as [|k IH]; cbn; [auto|]. rewrite <- IH. auto.
Qed.
Lemma frac_drop f : frac_value (drop_zeros f) = frac_value f.
Proof. destruct (drop_zeros_spec f) as (k & Ek). rewrite Ek at 2. rewrite frac_zeros. auto. Qed.
Lemma drop_zeros_dig f : alldig f -> alldig (drop_zeros f).
Proof. intros Hf. destruct (drop_zeros_spec f) as (k & E). rewrite E in Hf. apply Forall_app in Hf as [? _]. auto. Qed.

Lemma alldig_cons_neq s c r : alldig s -> s = c :: r -> Ascii.eqb c "-" = false.
Proof. intros Hs ->. inversion Hs. apply digit_neq; auto. Qed.
Lemma read_int_digits s : digits s -> read_int s = Some (read_nat s).
Proof.
  intros [Hn Hs]%digits_alldig. unfold read_int. destruct s as [|c r]; [congruence|]. rewrite (alldig_cons_neq _ _ _ Hs eq_refl). rewrite span_digits_only; auto.
Qed.
Lemma split_slash_none s : alldig s -> split_slash s = (s, None).
Proof. intros Hs. induction Hs as [|c s Hc _ IH]; cbn; auto. rewrite (digit_neq c "/"), IH; auto. Qed.
Lemma split_slash_some s b : alldig s -> split_slash (s ++ "/"%char :: b) = (s, Some b).
Proof. intros Hs. induction Hs as [|c s Hc _ IH]; cbn; auto. rewrite (digit_neq c "/"), IH; auto. Qed.
Lemma alldig_zeros k : alldig (repeat "0"%char k).
Proof. induction k; cbn; constructor; auto. Qed.
Lemma int_one_zeros k : int_value ("1"%char :: repeat "0"%char k) = (ten ^ k)%Qc.
Proof.
  cbn [int_value]. rewrite repeat_length. change (qofz 10) with ten. change (digit_value "1") with 1%Qc.
  assert (int_value (repeat "0"%char k) = 0%Qc) as ->; [|ring].
  induction k as [|k IH]; cbn [repeat int_value]; auto. rewrite IH. change (digit_value "0") with 0%Qc. ring.
Qed.
Lemma read_decimal ds f : digits ds -> alldig f ->
  read_rational (ds ++ f ++ ["/"%char; "1"%char] ++ repeat "0"%char (length f)) = Some (int_value ds + frac_value f)%Qc.
Proof.
  intros [Hn Hd]%digits_alldig Hf. unfold read_rational. rewrite app_assoc.
  change (["/"%char; "1"%char] ++ repeat "0"%char (length f)) with ("/"%char :: ("1"%char :: repeat "0"%char (length f))).
  rewrite split_slash_some; [|apply Forall_app; auto].
  rewrite read_int_digits; [|apply digits_alldig; split; [destruct ds; [congruence|discriminate]|apply Forall_app; auto]].
  assert (D1 : alldig ("1"%char :: repeat "0"%char (length f))) by (constructor; [auto|apply alldig_zeros]).
  rewrite read_int_digits; [|apply digits_alldig; split; [discriminate|exact D1]].
  assert (Z : qofz (read_nat ("1"%char :: repeat "0"%char (length f))) = (ten ^ length f)%Qc) by (rewrite read_nat_value by exact D1; apply int_one_zeros).
  destruct (Z.eqb_spec (read_nat ("1"%char :: repeat "0"%char (length f))) 0) as [E|_].
  - rewrite E, qofz_0 in Z. exfalso. apply (pow_neq (length f)). auto.
  - rewrite Z, read_nat_value by (apply Forall_app; auto). rewrite int_value_app, frac_value_int. f_equal. field. apply pow_neq.
Qed.
Lemma read_integer ds : digits ds -> read_rational ds = Some (int_value ds).
Proof. intros Hd. unfold read_rational. rewrite split_slash_none by (apply digits_all, Hd). rewrite read_int_digits by auto. rewrite read_nat_value by (apply digits_all, Hd). auto. Qed.

(** ** quotes *)
Lemma last_snoc {A} (l : list A) x : last (l ++ [x]) = Some x.
Proof. apply last_snoc. Qed.
Lemma removelast_snoc {A} (l : list A) x : removelast (l ++ [x]) = l.
Proof. apply removelast_last. Qed.
Lemma is_string_quoted n : is_string n = true <-> exists s, quoted n s.
Proof.
  unfold is_string, quoted. destruct (list_ascii_of_string n) as [|c r]; [split; [discriminate|intros (s & E); discriminate]|].
  split.
  - intros E. apply andb_true_iff in E as [Ec El]. apply Ascii.eqb_eq in Ec as ->.
    destruct (last r) as [d|] eqn:L; [|discriminate]. apply Ascii.eqb_eq in El as ->.
    apply last_Some in L as (s & ->). exists s. auto.
  - intros (s & [= -> ->]). rewrite last_snoc. cbn. auto.
Qed.
Lemma quoted_inner n s : quoted n s -> inner n = s.
Proof. unfold quoted, inner. intros ->. cbn [tail]. apply removelast_snoc. Qed.
Lemma quoted_fun n s s' : quoted n s -> quoted n s' -> s = s'.
Proof. intros E E'. rewrite <- (quoted_inner _ _ E). apply quoted_inner; auto. Qed.
Lemma is_string_false n : is_string n = false <-> forall s, ~ quoted n s.
Proof.
  split.
  - intros E s Hq. assert (is_string n = true) by (apply is_string_quoted; eauto). congruence.
  - intros Hn. destruct (is_string n) eqn:E; auto. apply is_string_quoted in E as (s & Hs). edestruct Hn; eauto.
Qed.

Lemma match_unsigned_int r ds : digits r -> ds = r -> span_digits r = (ds, []).
Proof. intros Hr ->. apply span_digits_only, digits_all, Hr. Qed.

(** the regular expression recognizes decimals *)
Lemma match_decimal_sound s neg ds fs : match_decimal s = Some (neg, ds, fs) ->
  digits ds /\ (forall f, fs = Some f -> digits f) /\ s = (if neg : bool then ["-"%char] else []) ++ ds ++ match fs with Some f => "."%char :: f | None => [] end.
Proof.
  unfold match_decimal. intros E.
  destruct (match s with [] => (false, []) | c :: r => if Ascii.eqb c "-" then (true, r) else (false, s) end) as [ng r] eqn:E1.
  assert (Es : s = (if ng then ["-"%char] else []) ++ r).
  { destruct s as [|c s']; [injection E1 as <- <-; auto|]. destruct (Ascii.eqb_spec c "-") as [->|]; injection E1 as <- <-; auto. }
  pose proof (span_digits_app r) as Hr. destruct (span_digits r) as [a b]. destruct Hr as (Er & Ha & _).
  destruct a as [|c a']; [discriminate|]. set (a := c :: a') in *.
  assert (Da : digits a) by (apply digits_alldig; split; [discriminate|auto]).
  destruct b as [|d b'].
  - injection E as <- <- <-. split; auto. split; [discriminate|]. rewrite Es, Er, app_nil_r. auto.
  - destruct (Ascii.eqb_spec d ".") as [->|]; [|discriminate].
    pose proof (span_digits_app b') as Hb. destruct (span_digits b') as [f e]. destruct Hb as (Eb & Hf & _).
    destruct f as [|f0 f']; [discriminate|]. destruct e; [|discriminate]. injection E as <- <- <-. split; auto.
    split; [intros f [= <-]; apply digits_alldig; split; [discriminate|auto]|]. rewrite Es, Er, Eb, app_nil_r. auto.
Qed.
Lemma sign_split (neg : bool) ds X : digits ds ->
  (match (if neg then ["-"%char] else []) ++ ds ++ X with
   | [] => (false, [])
   | c :: r => if Ascii.eqb c "-" then (true, r) else (false, (if neg then ["-"%char] else []) ++ ds ++ X)
   end) = (neg, ds ++ X).
Proof. intros [Hn Hd]%digits_alldig. destruct neg; cbn [app]; [auto|]. destruct ds as [|c a]; [congruence|]. cbn [app]. rewrite (alldig_cons_neq _ c a Hd eq_refl). auto. Qed.
Lemma match_decimal_complete (neg : bool) ds fs : digits ds -> (forall f, fs = Some f -> digits f) ->
  match_decimal ((if neg then ["-"%char] else []) ++ ds ++ match fs with Some f => "."%char :: f | None => [] end) = Some (neg, ds, fs).
Proof.
  intros Hd Hf. unfold match_decimal. rewrite sign_split by auto.
  rewrite span_digits_all; [|apply digits_all, Hd|destruct fs; [right; eauto|left; auto]].
  destruct Hd as [Hn _]. destruct ds as [|c a]; [congruence|]. destruct fs as [f|]; [|auto].
  change (Ascii.eqb "." ".") with true. cbn iota. pose proof (Hf f eq_refl) as [Hfn Hfd]%digits_alldig. rewrite span_digits_only; auto. destruct f; [congruence|auto].
Qed.

Lemma decimal_nonempty s q : decimal s q -> s <> [].
Proof. intros [s' q' [? [? ?]|? ? [? ?] _]|s' q' _]; auto; try discriminate. destruct s0; [congruence|discriminate]. Qed.

Lemma as_num_spec n q : as_num n = Some q <-> exists s, quoted n s /\ decimal s q.
Proof.
  unfold as_num. destruct (is_string n) eqn:Es.
  2:{ rewrite orb_true_r. split; [discriminate|]. intros (s & Hq & _). rewrite is_string_false in Es. edestruct Es; eauto. }
  apply is_string_quoted in Es as (s & Hq). cbn [negb]. rewrite orb_false_r. rewrite (quoted_inner _ _ Hq).
  assert (Hl : (length (list_ascii_of_string n) <=? 2) = (length s =? 0)).
  { rewrite Hq. cbn [length]. rewrite app_length. cbn. destruct (Nat.leb_spec (S (length s + 1)) 2), (Nat.eqb_spec (length s) 0); auto; lia. }
  rewrite Hl. destruct (Nat.eqb_spec (length s) 0) as [E0|E0].
  { split; [discriminate|]. intros (s' & Hq' & Hd). rewrite (quoted_fun _ _ _ Hq' Hq) in Hd. apply decimal_nonempty in Hd. destruct s; [congruence|discriminate]. }
  split.
  - intros E. exists s. split; auto. destruct (match_decimal s) as [[[neg ds] fs]|] eqn:M; [|discriminate].
    apply match_decimal_sound in M as (Hds & Hfs & ->).
    assert (U : exists u, unsigned_decimal (ds ++ match fs with Some f => "."%char :: f | None => [] end) u /\
      match fs with None => read_rational ds | Some fs0 => read_rational (ds ++ drop_zeros fs0 ++ ["/"%char; "1"%char] ++ repeat "0"%char (length (drop_zeros fs0))) end = Some u).
    { destruct fs as [f|].
      - specialize (Hfs f eq_refl). exists (int_value ds + frac_value f)%Qc. split; [constructor; auto|].
        rewrite read_decimal; auto; [|apply drop_zeros_dig, digits_all, Hfs]. rewrite frac_drop. auto.
      - exists (int_value ds). split; [rewrite app_nil_r; constructor; auto|apply read_integer; auto]. }
    destruct U as (u & Hu & Eu). cbv zeta in E. 
    assert (E' : Some (if neg then - u else u)%Qc = Some q).
    { destruct fs; rewrite Eu in E; exact E. }
    injection E' as <-. destruct neg; [exact (dec_neg _ _ Hu)|exact (dec_pos _ _ Hu)].
  - intros (s' & Hq' & Hd). rewrite (quoted_fun _ _ _ Hq' Hq) in Hd. clear s' Hq'.
    assert (U : forall neg s0 u, unsigned_decimal s0 u -> s = (if neg : bool then ["-"%char] else []) ++ s0 -> q = (if neg then - u else u)%Qc ->
      match match_decimal s with None => None | Some (neg, ds, fs) =>
        match read_rational match fs with None => ds | Some fs0 => ds ++ drop_zeros fs0 ++ ["/"%char; "1"%char] ++ repeat "0"%char (length (drop_zeros fs0)) end with
        None => None | Some n0 => Some (if neg : bool then - n0 else n0)%Qc end end = Some q).
    { intros neg s0 u Hu -> ->. destruct Hu as [ds Hds|ds f Hds Hf].
      - rewrite <- (app_nil_r ds) at 1. pose proof (match_decimal_complete neg ds None Hds) as ->; [|discriminate]. rewrite read_integer; auto.
      - pose proof (match_decimal_complete neg ds (Some f) Hds) as ->; [|intros ? [= <-]; auto].
        rewrite read_decimal; auto; [|apply drop_zeros_dig, digits_all, Hf]. rewrite frac_drop. auto. }
    destruct Hd as [s0 u Hu|s0 u Hu]; [apply (U false s0 u Hu); auto|apply (U true s0 u Hu); auto].
Qed.

(** ** escapes *)
Lemma unquote_complete s r : unescaped s r -> unquote_go false s = Ok r.
Proof.
  induction 1 as [|c s r Hc _ IH|s r _ IH|s r _ IH|s r _ IH]; cbn; auto.
  - destruct (Ascii.eqb_spec c "\"); [congruence|]. rewrite IH. auto.
  - rewrite IH. auto.
  - rewrite IH. auto.
  - rewrite IH. auto.
Qed.
