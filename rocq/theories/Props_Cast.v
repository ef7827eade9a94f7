(** * C55: checked conversions *)

From Coq Require Import ZArith Lia.
From Verif Require Import Num Cast.
Open Scope Z_scope.

(** the values of a type *)
Definition holds (t : ctype) (z : Z) : Prop := tmin t <= z <= tmax t.

Section c55.
  Context (int_bits : Z) (Hint : 1 < int_bits).
  Notation common := (common int_bits).
  Lemma tmin_tmax t : 0 < ct_bits t -> tmax t = tmin t + 2 ^ ct_bits t - 1.
  Proof.
    intros H. unfold tmin, tmax. destruct (ct_signed t); [|lia].
    replace (2 ^ ct_bits t) with (2 * 2 ^ (ct_bits t - 1)); [lia|]. rewrite <- Z.pow_succ_r; [f_equal; lia|lia].
  Qed.
  Lemma conv_id t z : 0 < ct_bits t -> holds t z -> conv t z = z.
  Proof.
    intros H [H1 H2]. rewrite (tmin_tmax t H) in H2. unfold conv. rewrite Z.mod_small; lia.
  Qed.
  Lemma conv_holds t z : 0 < ct_bits t -> holds t (conv t z).
  Proof.
    intros H. unfold holds. rewrite (tmin_tmax t H). unfold conv. pose proof (Z.mod_pos_bound (z - tmin t) (2 ^ ct_bits t) ltac:(apply Z.pow_pos_nonneg; lia)). lia.
  Qed.
  Lemma mono t t' z : 0 < ct_bits t -> ct_bits t <= ct_bits t' -> ct_signed t = ct_signed t' -> holds t z -> holds t' z.
  Proof.
    unfold holds, tmin, tmax. intros H0 H1 -> [H2 H3]. destruct (ct_signed t').
    - assert (2 ^ (ct_bits t - 1) <= 2 ^ (ct_bits t' - 1)) by (apply Z.pow_le_mono_r; lia). lia.
    - assert (2 ^ ct_bits t <= 2 ^ ct_bits t') by (apply Z.pow_le_mono_r; lia). lia.
  Qed.
  Lemma widen t t' z : 0 < ct_bits t -> ct_signed t = false -> ct_signed t' = true -> ct_bits t < ct_bits t' -> holds t z -> holds t' z.
  Proof.
    unfold holds, tmin, tmax. intros H0 -> -> H1 [H2 H3]. assert (2 ^ ct_bits t <= 2 ^ (ct_bits t' - 1)) by (apply Z.pow_le_mono_r; lia). lia.
  Qed.
  Lemma promote_holds t z : 0 < ct_bits t -> holds t z -> holds (promote int_bits t) z /\ 0 < ct_bits (promote int_bits t).
  Proof.
    intros H0 H. unfold promote. destruct (ct_signed t) eqn:Es.
    - destruct (Z.leb_spec (ct_bits t) int_bits); [|auto]. split; [|cbn; lia]. apply (mono t); cbn; auto.
    - destruct (Z.ltb_spec (ct_bits t) int_bits); [|auto]. split; [|cbn; lia]. apply (widen t); cbn; auto.
  Qed.
  (** non-negative values, or types of the same sign, survive the conversion *)
  Lemma common_pos a b : 0 < ct_bits a -> 0 < ct_bits b -> 0 < ct_bits (common a b).
  Proof.
    intros Ha Hb. unfold Cast.common. cbv zeta.
    assert (forall t, 0 < ct_bits t -> 0 < ct_bits (promote int_bits t)) as P.
    { intros t Ht. unfold promote. destruct (if ct_signed t then _ else _); cbn; lia. }
    pose proof (P a Ha). pose proof (P b Hb). destruct (Bool.eqb _ _); [cbn; lia|]. destruct (ct_signed (promote int_bits a)); destruct (_ <=? _); cbn; auto.
  Qed.
  Lemma nonneg_wider t t' z : 0 < ct_bits t -> (ct_bits t <= ct_bits t') -> 0 <= z -> holds t z -> ct_signed t' = false -> holds t' z.
  Proof.
    intros H0 H1 Hz [H2 H3] E. unfold holds, tmin, tmax in *. rewrite E. destruct (ct_signed t).
    - assert (2 ^ (ct_bits t - 1) <= 2 ^ ct_bits t') by (apply Z.pow_le_mono_r; lia). lia.
    - assert (2 ^ ct_bits t <= 2 ^ ct_bits t') by (apply Z.pow_le_mono_r; lia). lia.
  Qed.
  Lemma common_l a b z : 0 < ct_bits a -> 0 < ct_bits b -> holds a z -> 0 <= z \/ ct_signed (promote int_bits a) = ct_signed (promote int_bits b) -> holds (common a b) z.
  Proof.
    intros Ha Hb Hz Hc. destruct (promote_holds a z Ha Hz) as [Hp Hpa].
    assert (Hpb : 0 < ct_bits (promote int_bits b)) by (unfold promote; destruct (if ct_signed b then _ else _); cbn; lia).
    unfold Cast.common. cbv zeta. destruct (Bool.eqb_spec (ct_signed (promote int_bits a)) (ct_signed (promote int_bits b))) as [E|E].
    - apply (mono (promote int_bits a)); cbn; auto; lia.
    - destruct Hc as [Hc|Hc]; [|contradiction]. destruct (ct_signed (promote int_bits a)) eqn:Ea.
      + destruct (Z.leb_spec (ct_bits (promote int_bits a)) (ct_bits (promote int_bits b))) as [L|L]; [|exact Hp].
        apply (nonneg_wider (promote int_bits a)); auto. destruct (ct_signed (promote int_bits b)); congruence.
      + destruct (Z.leb_spec (ct_bits (promote int_bits b)) (ct_bits (promote int_bits a))) as [L|L]; [exact Hp|].
        apply (widen (promote int_bits a)); auto. destruct (ct_signed (promote int_bits b)); congruence.
  Qed.
  Lemma common_sym a b : common a b = common b a.
  Proof.
    unfold Cast.common. cbv zeta. destruct (promote int_bits a) as [sa ba], (promote int_bits b) as [sb bb]. cbn. rewrite Z.max_comm. destruct sa, sb; reflexivity.
  Qed.
  Lemma signed_promote t : ct_signed t = true -> ct_signed (promote int_bits t) = true.
  Proof. intros E. unfold promote. destruct (if ct_signed t then _ else _); [reflexivity|exact E]. Qed.
  Definition agree a x b y : Prop := (0 <= x /\ 0 <= y) \/ (ct_signed a = true /\ ct_signed b = true).
  Lemma both a x b y : 0 < ct_bits a -> 0 < ct_bits b -> holds a x -> holds b y -> agree a x b y ->
    conv (common a b) x = x /\ conv (common a b) y = y.
  Proof.
    intros Ha Hb Hx Hy A. pose proof (common_pos a b Ha Hb) as P. split; apply conv_id; auto.
    - apply common_l; auto. destruct A as [[A _]|[A B]]; [auto|right; now rewrite !signed_promote].
    - rewrite common_sym. apply common_l; auto. destruct A as [[_ A]|[A B]]; [auto|right; now rewrite !signed_promote].
  Qed.
  Lemma lt_ok a x b y : 0 < ct_bits a -> 0 < ct_bits b -> holds a x -> holds b y -> agree a x b y -> c_lt int_bits a x b y = (x <? y).
  Proof. intros Ha Hb Hx Hy A. unfold c_lt. cbv zeta. destruct (both a x b y Ha Hb Hx Hy A) as [-> ->]. reflexivity. Qed.
  Lemma limits t : 0 < ct_bits t -> holds t (tmin t) /\ holds t (tmax t) /\ tmin t <= 0 <= tmax t /\ (ct_signed t = false -> tmin t = 0).
  Proof.
    intros H. unfold holds. rewrite (tmin_tmax t H). assert (0 < 2 ^ ct_bits t) by (apply Z.pow_pos_nonneg; lia). unfold tmin. destruct (ct_signed t).
    - assert (2 ^ ct_bits t = 2 * 2 ^ (ct_bits t - 1)) by (rewrite <- Z.pow_succ_r; [f_equal; lia|lia]).
      assert (0 < 2 ^ (ct_bits t - 1)) by (apply Z.pow_pos_nonneg; lia). split; [lia|]. split; [lia|]. split; [lia|]. discriminate.
    - split; [lia|]. split; [lia|]. split; [lia|]. reflexivity.
  Qed.

  Theorem C55_safe_cast same T S s : 0 < ct_bits T -> 0 < ct_bits S -> (same = true -> T = S) -> holds S s ->
    (holds T s -> safe_cast int_bits same T S s = Ok s) /\ (~ holds T s -> safe_cast int_bits same T S s = Exn).
  Proof.
    intros HT HS Hsame Hs. destruct (limits T HT) as (T1 & T2 & T3 & T4). destruct (limits S HS) as (S1 & S2 & S3 & S4).
    assert (K : sc_check int_bits same T S s = true <-> ~ holds T s).
    { unfold sc_check. destruct (ct_signed T) eqn:ET, (ct_signed S) eqn:ES.
      - rewrite !lt_ok; auto; try (right; auto). destruct same; cbn.
        + rewrite (Hsame eq_refl). split; [discriminate|contradiction].
        + rewrite orb_true_iff, !Z.ltb_lt. unfold holds. lia.
      - assert (U : conv (unsigned_of T) (tmax T) = tmax T).
        { apply conv_id; [exact HT|]. apply (nonneg_wider T); auto; cbn; lia. }
        rewrite U. rewrite lt_ok; auto; cbn.
        + rewrite Z.ltb_lt. unfold holds in *. specialize (S4 eq_refl). lia.
        + apply (nonneg_wider T); auto; cbn; lia.
        + left. unfold holds in Hs. specialize (S4 eq_refl). lia.
      - rewrite orb_true_iff. rewrite lt_ok; auto; [|cbn; lia|apply (limits (int_type int_bits)); cbn; lia|right; auto].
        unfold c_ne. cbv zeta. destruct (Z.ltb_spec s 0) as [L|L]; [split; [intros _|auto]; unfold holds; specialize (T4 eq_refl); lia|].
        assert (Q : conv (common S S) (conv S (conv T s)) = conv S (conv T s) /\ conv (common S S) s = s) by (apply both; auto; [apply conv_holds; auto|right; auto]).
        destruct Q as [-> ->]. rewrite negb_true_iff, Z.eqb_neq.
        assert (Cmod : conv T s = s mod 2 ^ ct_bits T) by (unfold conv; now rewrite (T4 eq_refl), Z.add_0_r, Z.sub_0_r).
        split.
        + intros [A|A] B; [discriminate|]. apply A. rewrite (conv_id T s HT B). apply conv_id; auto.
        + intros A. right. intros B. apply A. rewrite <- B.
          assert (C1 : conv S (conv T s) = conv T s).
          { apply conv_id; [exact HS|]. rewrite Cmod. unfold holds in *. pose proof (Z.mod_pos_bound s (2 ^ ct_bits T) ltac:(apply Z.pow_pos_nonneg; lia)).
            pose proof (Z.mod_le s (2 ^ ct_bits T) L ltac:(apply Z.pow_pos_nonneg; lia)). lia. }
          rewrite C1. apply conv_holds; auto.
      - assert (0 <= s) by (unfold holds in Hs; specialize (S4 eq_refl); lia). rewrite !lt_ok; auto; try (left; specialize (T4 eq_refl); lia). destruct same; cbn.
        + rewrite (Hsame eq_refl). split; [discriminate|contradiction].
        + rewrite orb_true_iff, !Z.ltb_lt. unfold holds. lia. }
    unfold safe_cast. split; intros A; destruct (sc_check int_bits same T S s) eqn:E.
    - destruct (proj1 K eq_refl A).
    - f_equal. apply conv_id; auto.
    - reflexivity.
    - apply K in A. discriminate A.
  Qed.
End c55.

(** the types of the only use, parsing.cc 345: size_t to int *)
Definition c_int : ctype := CType true 32.
Definition c_size : ctype := CType false 64.
(** the number of an auxiliary variable: exactly the condition of the model
    (Parsing.v, cond_term) *)
Theorem C55_auxiliary n : 0 <= n < 18446744073709551616 ->
  safe_cast 32 false c_int c_size n = if 2147483647 <? n then Exn else Ok n.
Proof.
  intros H. assert (Hs : holds c_size n) by (unfold holds; cbn; lia).
  destruct (C55_safe_cast 32 ltac:(lia) false c_int c_size n ltac:(cbn; lia) ltac:(cbn; lia) ltac:(discriminate) Hs) as [A B].
  destruct (Z.ltb_spec 2147483647 n) as [L|L]; [apply B|apply A]; unfold holds; cbn; lia.
Qed.
(** all four combinations of signs, at the boundary *)
Lemma C55_example :
  safe_cast 32 false c_int c_size 2147483647 = Ok 2147483647 /\ safe_cast 32 false c_int c_size 2147483648 = Exn /\
  safe_cast 32 false c_size c_int (-1) = Exn /\ safe_cast 32 false c_size c_int 2147483647 = Ok 2147483647 /\
  safe_cast 32 false (CType false 8) c_int 256 = Exn /\ safe_cast 32 false (CType false 8) c_int 255 = Ok 255 /\
  safe_cast 32 false (CType true 8) c_int (-129) = Exn /\ safe_cast 32 false (CType true 8) c_int (-128) = Ok (-128) /\
  safe_cast 32 false (CType false 8) c_size 256 = Exn /\ safe_cast 32 true c_int c_int (-5) = Ok (-5).
Proof. repeat split. Qed.
