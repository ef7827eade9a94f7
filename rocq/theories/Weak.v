(** * The feasibility loop from arbitrary states

    The invariants of Simplex.v and SimplexLoop.v exclude states that the
    equality bug of the trail (Props_Equality.v) can produce: non-basic
    variables outside of their bounds, lower bounds above upper bounds and
    violated basic variables missing in the queue.  Here only the shape of the
    solver, the row equations and the consistency of the queue are assumed,
    and the loop is shown to end nevertheless. *)

From stdpp Require Import list_numbers.
From Verif Require Import Num Sums Tableau TableauProofs Bland Solver SolverBase SolverStep Simplex SimplexLoop Hist Updates Core CoreSolve Propagate OptSelect.

Section weak.
  Context {V : Type} `{VL : ValueLaws V}.
  Implicit Types s : solver V.
  Implicit Types x y : nat.

  (** a violated basic variable that is not in the queue *)
  Definition stale s x : Prop := x < nv s /\ Bs s x = true /\ conf_at s x = true /\ x ∉ s_conf s.

  (** what select_ establishes; [St]: the stale variables *)
  Record wchoice (St : nat -> Prop) s (i j : nat) (v : V) (m : bool) : Prop := {
    wc_i : i < s_nb s;
    wc_j : j < s_nn s;
    wc_nz : tget (s_tab s) i j <> 0%Qc;
    wc_viol : exists b, (if m then lo s (idx s (i + s_nn s)) else up s (idx s (i + s_nn s))) = Some b /\ b_val b = v /\
       (if m then vlt (val s (idx s (i + s_nn s))) v else vlt v (val s (idx s (i + s_nn s))));
    wc_min : forall y, y < idx s (i + s_nn s) -> Bs s y = true -> inb s y \/ St y;
    wc_room : room (lov s) (upv s) (Bool.eqb m (bool_decide (0 < tget (s_tab s) i j)%Qc)) (idx s j) (val s (idx s j));
    wc_first : forall k, k < idx s j -> Bs s k = false -> forall q, incr (Bool.eqb m q) (Ts s (idx s (i + s_nn s)) k) -> atbound (lov s) (upv s) q k (val s k);
  }.

  Lemma wchoice_same (St : nat -> Prop) s s' i j v m : selonly s s' -> wchoice St s i j v m -> wchoice St s' i j v m.
  Proof.
    intros (A1 & A2 & A3 & A4 & A5 & A6 & A7 & A8) [P1 P2 P3 P4 P5 P6 P7].
    assert (EI : forall y, idx s' y = idx s y) by apply A6. assert (EV : forall y, val s' y = val s y) by apply A8.
    assert (EL : forall y, lo s' y = lo s y) by apply A7. assert (EU : forall y, up s' y = up s y) by apply A7.
    constructor; rewrite ?A2, ?(stat_nn _ _ A1), ?(stat_nb _ _ A1), ?EI, ?EV, ?EL, ?EU; auto.
    - intros y Hy HB. rewrite (Bs_same s) in HB by auto. destruct (P5 y Hy HB); auto. left. apply (inb_same s); auto.
    - revert P6. unfold room, lov, upv. destruct (Bool.eqb _ _); rewrite ?EL, ?EU; auto.
    - intros k Hk HB q Hq. rewrite (Bs_same s) in HB by auto. rewrite (Ts_same s) in Hq by (auto; rewrite A2; auto).
      rewrite EV. pose proof (P7 k Hk HB q Hq) as P. revert P. unfold atbound, lov, upv. destruct q; rewrite ?EL, ?EU; auto.
  Qed.

  Lemma wchoice_weak (St St' : nat -> Prop) s i j v m : (forall y, St y -> St' y) -> wchoice St s i j v m -> wchoice St' s i j v m.
  Proof. intros Hs [P1 P2 P3 P4 P5 P6 P7]. constructor; auto. intros y Hy HB. destruct (P5 y Hy HB); auto. Qed.

  Lemma selonly_sym s s' : selonly s s' -> selonly s' s.
  Proof.
    intros (A1 & A2 & A3 & A4 & A5 & A6 & A7 & A8).
    split; [congruence|]. split; [congruence|]. split; [congruence|]. split; [congruence|]. split; [congruence|].
    split; [|split]; intros y; [destruct (A6 y)|destruct (A7 y) as (?&?&?)|destruct (A8 y)]; repeat split; congruence.
  Qed.

  Lemma wselect_loop q s : shape s -> (forall x, x ∈ q -> x < nv s) -> StronglySorted le q -> (forall x, qd s x = true -> x ∈ q) ->
    exists r s', select_loop q s = Ok (r, s') /\ selonly s s' /\ shape s' /\ Qinv s' /\
      (forall x, Bs s x = true -> conf_at s x = true -> x ∈ q -> x ∈ s_conf s') /\
      match r with
      | SelPivot i j v => (exists m, wchoice (fun x => x < nv s /\ Bs s x = true /\ conf_at s x = true /\ x ∉ q) s i j v m) /\ idx s (i + s_nn s) ∈ q
      | _ => True
      end.
  Proof.
    revert s. induction q as [|x q IH]; intros s Sh Hq Hs Hqd.
    - cbn. exists SelSat, (set_conf [] s). split; auto. split; [repeat split|]. split.
      { apply (selonly_shape s); [auto|repeat split|]. intros y Hy; inversion Hy. }
      split. { split; [exact Hqd|constructor]. }
      split; auto.
    - cbn [select_loop]. assert (Hx : x < nv s) by (apply Hq, elem_of_cons; auto). rewrite at_vr by auto. cbn [mbind res_bind].
      set (s1 := upd_var x (vset_queued false) s). pose proof (selonly_unq s x Hx) as So1. fold s1 in So1.
      assert (Sh1 : shape s1) by (apply (selonly_shape s); auto; apply Sh).
      pose proof So1 as (A1 & A2 & A3 & A4 & A5 & A6 & A7 & A8).
      assert (Hcf1 : forall y, conf_at s1 y = conf_at s y) by (intros y; apply conf_at_same; [apply A7|apply A7|apply A8]).
      assert (HB1 : forall y, Bs s1 y = Bs s y) by (intros y; apply Bs_same; auto).
      assert (Qd1 : forall y, qd s1 y = true -> y ∈ q).
      { intros y. unfold qd, s1. rewrite vr_upd by auto. destruct (Nat.eqb_spec y x) as [->|Hne]; [discriminate|]. intros Hqy. apply Hqd in Hqy. apply elem_of_cons in Hqy as [?|?]; [congruence|auto]. }
      inversion Hs as [|? ? Hs' Hfor]; subst.
      (* skipping the head *)
      assert (Skip : (Bs s x = true -> conf_at s x = false) ->
        exists r s', select_loop q s1 = Ok (r, s') /\ selonly s s' /\ shape s' /\ Qinv s' /\
          (forall y, Bs s y = true -> conf_at s y = true -> y ∈ x :: q -> y ∈ s_conf s') /\
          match r with
          | SelPivot i j v => (exists m, wchoice (fun y => y < nv s /\ Bs s y = true /\ conf_at s y = true /\ y ∉ x :: q) s i j v m) /\ idx s (i + s_nn s) ∈ x :: q
          | _ => True
          end).
      { intros Hnc. destruct (IH s1) as (r & s' & E & So & Sh' & Cq & Hk & Hr); auto.
        - intros y Hy. rewrite (stat_nv _ _ A1). apply Hq, elem_of_cons; auto.
        - exists r, s'. split; auto. split; [eapply selonly_trans; eauto|]. split; auto. split; auto. split.
          + intros y By Cy Hy. apply Hk; [rewrite HB1; auto|rewrite Hcf1; auto|]. apply elem_of_cons in Hy as [->|]; auto. rewrite Hnc in Cy by auto. discriminate.
          + destruct r as [| |i j v]; auto. destruct Hr as [(m & Hm) Hin]. split.
            * exists m. apply (wchoice_same _ s1 s); [apply selonly_sym; auto|]. eapply wchoice_weak; [|exact Hm]. intros y (Y1 & Y2 & Y3 & Y4).
              rewrite HB1 in Y2. rewrite Hcf1 in Y3. rewrite (stat_nv _ _ A1) in Y1. split; auto. split; auto. split; auto.
              intros Hy. apply elem_of_cons in Hy as [->|]; auto. rewrite Hnc in Y3 by auto. discriminate.
            * destruct (A6 (i + s_nn s)) as [Ei _]. rewrite (stat_nn _ _ A1), Ei in Hin. apply elem_of_cons; auto. }
      change (v_rindex (vr s x)) with (ridx s x).
      destruct (Nat.ltb_spec (ridx s x) (s_nn s)) as [Hlt|Hge].
      { apply Skip. unfold Bs. intros HB. apply Nat.leb_le in HB. lia. }
      assert (Bx : Bs s x = true) by (apply Nat.leb_le; auto).
      destruct (viol_lower (vr s x) || viol_upper (vr s x)) eqn:Ev.
      2:{ apply Skip. intros _. exact Ev. }
      set (m := viol_lower (vr s x)) in *. set (i := ridx s x - s_nn s).
      assert (Hi : i < s_nb s /\ idx s (i + s_nn s) = x) by (apply basic_idx; auto). destruct Hi as [Hi Exi].
      assert (Hb : exists b, (if m then lo s x else up s x) = Some b /\ (if m then vlt (val s x) (b_val b) else vlt (b_val b) (val s x))).
      { unfold m, viol_lower, viol_upper, lo, up, val in *. destruct (v_lower (vr s x)) as [l|].
        - destruct (vltb (v_val (vr s x)) (b_val l)) eqn:El.
          + exists l. split; auto. apply vltb_lt; auto.
          + cbn in Ev. destruct (v_upper (vr s x)) as [u|]; [|discriminate]. exists u. split; auto. apply vgtb_lt; auto.
        - cbn in Ev. destruct (v_upper (vr s x)) as [u|]; [|discriminate]. exists u. split; auto. apply vgtb_lt; auto. }
      destruct Hb as (b & Hb & Hviol).
      assert (Hbd : (if m then v_lower (vr s x) else v_upper (vr s x)) = Some b) by exact Hb.
      rewrite Hbd. cbn [deref mbind res_bind].
      destruct (select_row s1 m i [(- b_lit b)%Z] Sh1) as (kk & rj & cl & E & Hsel).
      { rewrite (stat_nb _ _ A1). auto. }
      assert (Nv1 : nv s1 = nv s) by (apply (stat_nv _ _ A1)). unfold nv in E at 1. rewrite E. cbn [mbind res_bind].
      set (s2 := set_conf (x :: q) (set_clause cl s1)).
      assert (So2 : selonly s s2) by (eapply selonly_trans; [exact So1|]; repeat split).
      assert (Sh2 : shape s2).
      { apply (selonly_shape s); [auto|auto|]. intros y Hy. apply Hq. exact Hy. }
      assert (Cq2 : Qinv s2). { split; [|exact Hs]. intros y Hy. apply elem_of_cons. right. apply Qd1. exact Hy. }
      fold (nv s1). destruct Hsel as [(-> & bs & -> & F)|(Hkk & Hrj & Ekk & Hnz & Hnone & Hmin)].
      + rewrite Nat.eqb_refl. exists SelUnsat, s2. split; auto. 
      + destruct (Nat.eqb_spec kk (nv s1)); [lia|]. exists (SelPivot i rj (b_val b)), s2. split; auto. split; auto. split; auto. split; auto. split; auto.
        split; [|rewrite Exi; apply elem_of_cons; auto].
        exists m. apply (wchoice_same _ s1 s); [apply selonly_sym; auto|].
        assert (Exi1 : idx s1 (i + s_nn s1) = x). { rewrite (stat_nn _ _ A1). destruct (A6 (i + s_nn s)) as [-> _]. auto. }
        destruct (row_entries_nz s1 i rj Sh1 Hnz) as (a & d & Hin).
        destruct (row_entries_facts _ _ _ _ _ Sh1 Hin) as (_ & _ & Eg & Ha & Hd).
        constructor; rewrite ?Exi1.
        * rewrite (stat_nb _ _ A1); auto.
        * auto.
        * auto.
        * exists b. destruct (A7 x) as (-> & -> & _), (A8 x) as (-> & _). auto.
        * intros y Hy HB. destruct (conf_at s1 y) eqn:Ec; [|left; apply conf_at_inb; auto]. right. rewrite Hcf1 in Ec. rewrite HB1 in HB.
          split; [lia|]. split; auto. split; auto. intros Hin'.
          apply elem_of_cons in Hin' as [->|Hin']; [lia|]. rewrite List.Forall_forall in Hfor. apply elem_of_list_In, Hfor in Hin'. lia.
        * rewrite Eg, <- cpos_decide by auto. apply cblock_room. auto.
        * intros k Hk HB qq Hqq. assert (Hkn : k < nv s1) by (destruct (idx_nonbasic s1 rj Sh1 Hrj); lia).
          destruct (nonbasic_idx s1 k Sh1 Hkn HB) as [Rk Ek].
          assert (ET : Ts s1 x k = tget (s_tab s1) i (ridx s1 k)).
          { unfold Ts. rewrite <- Exi1. destruct (idx_basic s1 i Sh1) as (_ & _ & ->); [rewrite (stat_nb _ _ A1); auto|].
            replace (i + s_nn s1 - s_nn s1) with i by lia. auto. }
          rewrite ET in Hqq. assert (Hnz' : tget (s_tab s1) i (ridx s1 k) <> 0%Qc).
          { intros E0. rewrite E0 in Hqq. destruct (Bool.eqb m qq); cbn in Hqq; exact (qc_lt_irrefl _ Hqq). }
          destruct (row_entries_nz s1 i _ Sh1 Hnz') as (a' & d' & Hin').
          destruct (row_entries_facts _ _ _ _ _ Sh1 Hin') as (_ & _ & Eg' & Ha' & Hd').
          destruct (Hmin _ _ _ Hin') as (c & Hc); [rewrite Ek; lia|]. apply cblock_atbound in Hc. rewrite Ek in Hc.
          assert (Eqq : qq = Bool.eqb m (cpos a' d')).
          { pose proof (cpos_spec a' d' Ha' Hd') as Hcp. rewrite Eg' in Hqq. destruct (cpos a' d'), m, qq; auto; cbn in Hqq; exfalso; eapply qc_lt_irrefl; eapply Qclt_trans; eauto. }
          rewrite Eqq. auto.
  Qed.

  (** ** One step *)
  Record K s : Prop := { k_shape : shape s; k_rows : rows s (val s); k_q : Qinv s }.

  Lemma selonly_K s s' : selonly s s' -> shape s' -> Qinv s' -> K s -> K s'.
  Proof.
    intros (A1 & A2 & A3 & A4 & A5 & A6 & A7 & A8) Sh Cq [J1 J2 J3]. constructor; auto.
    apply (rows_same s s'); auto; try congruence. apply (rows_ext s (val s)); auto. intros y _. symmetry. apply A8.
  Qed.

  Lemma wpivot o L s i j v : K s -> tget (s_tab s) i j <> 0%Qc ->
    exists s', pivot_ o L i j v s = Ok s' /\ K s' /\ vreach L s s' /\ pstep s s' (idx s (i + s_nn s)) (idx s j) v /\ (forall x, stale s' x -> stale s x).
  Proof.
    intros [Sh Hr Hq] Hnz. destruct (pivot_step o L s i j v Sh Hr Hnz) as (s' & E & Sh' & Hr' & Vr & Cl & Pst & Hval & _).
    destruct (sh_nz _ Sh _ _ Hnz) as [Hi Hj].
    destruct (idx_basic s i Sh Hi) as (Hb & Bb & Rb). destruct (idx_nonbasic s j Sh Hj) as (He & Be & Re).
    destruct (pivot_ok o L s i j v Sh Hnz) as (s1 & E1 & _ & _ & _ & HB & (T1 & T2 & T3 & T4) & _ & Hcm & HQ).
    rewrite E in E1. injection E1 as <-. destruct (HQ Hq) as [Qi' Qc']. destruct (vreach_facts _ _ _ Vr) as (Bt & St & Bn).
    exists s'. split; auto. split; [constructor; auto|]. split; auto. split; auto.
    set (b := idx s (i + s_nn s)) in *. set (e := idx s j) in *.
    intros y (Hy & By & Hc & Hn). rewrite (stat_nv _ _ St) in Hy.
    destruct (Nat.eq_dec y e) as [->|Hye]; [exfalso; apply Hn, Qc'; auto|].
    destruct (Qc_eq_dec (Ts s y e) 0) as [E0|E0]; [|exfalso; apply Hn, Qc'; auto].
    pose proof By as By'. rewrite HB in By' by auto. destruct (Nat.eqb_spec y b); [discriminate|]. destruct (Nat.eqb_spec y e); [congruence|].
    split; auto. split; auto. split; [|intros Hin; apply Hn, Hcm; auto].
    rewrite <- Hc. symmetry. apply conf_at_same; [apply Bn|apply Bn|].
    rewrite Hval by auto. destruct (Nat.eqb_spec y b); [congruence|]. destruct (Nat.eqb_spec y e); [congruence|]. rewrite By', E0, vscale_0, vadd_0_r. auto.
  Qed.

  Lemma wselect s : K s -> exists r s', select_ s = Ok (r, s') /\ selonly s s' /\ K s' /\ (forall x, stale s' x -> stale s x) /\
      match r with SelPivot i j v => (exists m, wchoice (stale s) s i j v m) /\ ~ stale s (idx s (i + s_nn s)) | _ => True end.
  Proof.
    intros HK. pose proof HK as [Sh Hr [Q1 Q2]].
    destruct (wselect_loop (s_conf s) s Sh) as (r & s' & E & So & Sh' & Cq & Hk & Hres); auto.
    { apply Sh. }
    exists r, s'. split; auto. split; auto. split; [apply (selonly_K s); auto|]. split.
    - pose proof So as (A1 & A2 & A3 & A4 & A5 & A6 & A7 & A8). intros x (X1 & X2 & X3 & X4). rewrite (Bs_same s s') in X2 by auto.
      rewrite (conf_at_same s s') in X3; [|apply A7|apply A7|apply A8]. rewrite (stat_nv _ _ A1) in X1. split; [auto|]. split; [auto|]. split; [auto|]. intros Hin. apply X4. apply Hk; auto.
    - destruct r as [| |i j v]; auto. destruct Hres as [(m & Hm) Hin]. split.
      + exists m. exact Hm.
      + intros (_ & _ & _ & X). auto.
  Qed.

  (** ** Runs *)
  Record wpost (L : nat) s s' : Prop := { wp_K : K s'; wp_vr : vreach L s s'; wp_rows : forall a, rows s' a <-> rows s a }.

  Definition wrun (n : nat) s (f : nat -> solver V) (c : nat -> nat * nat * V * bool) : Prop :=
    f 0 = s /\ forall t, t < n -> let '(i, j, v, m) := c t in
      K (f t) /\ K (f (S t)) /\ wchoice (stale (f t)) (f t) i j v m /\ ~ stale (f t) (idx (f t) (i + s_nn (f t))) /\
      pstep (f t) (f (S t)) (idx (f t) (i + s_nn (f t))) (idx (f t) j) v /\ (forall x, stale (f (S t)) x -> stale (f t) x).

  Lemma wsimplex_run n o L s : K s ->
    (exists s' r, simplex_loop n o L s = Ok (s', r) /\ wpost L s s') \/ (exists f c, wrun n s f c).
  Proof.
    revert s. induction n as [|n IH]; intros s HK.
    - right. exists (fun _ => s), (fun _ => (0, 0, vzero, true)). split; auto. intros; lia.
    - cbn [simplex_loop]. destruct (wselect s HK) as (r & s1 & E & So & HK1 & Hst & Hres). rewrite E. cbn [mbind res_bind].
      pose proof So as (A1 & A2 & A3 & A4 & A5 & A6 & A7 & A8).
      assert (Hrw : forall a, rows s1 a <-> rows s a) by (intros a; apply rows_same; auto; congruence).
      assert (Vr1 : vreach L s s1) by (eapply vreach_quiet; [apply vreach_refl|]; apply selonly_quiet; auto).
      destruct r as [| |i j v].
      + left. exists s1, true. split; auto. constructor; auto.
      + left. exists s1, false. split; auto. constructor; auto.
      + destruct Hres as [(m & Hpc) Hns]. assert (Hpc1 : wchoice (stale s) s1 i j v m) by (apply (wchoice_same _ s); auto).
        destruct (wpivot o L s1 i j v HK1 (wc_nz _ _ _ _ _ _ Hpc1)) as (s2 & E2 & HK2 & Vr2 & Pst & Hst2). rewrite E2. cbn [mbind res_bind].
        assert (Ei : forall y, idx s1 y = idx s y) by apply A6.
        assert (Pst0 : pstep s s2 (idx s (i + s_nn s)) (idx s j) v).
        { rewrite (stat_nn _ _ A1), !Ei in Pst. destruct Pst as [S1 S2 S3 S4 S5 S6]. constructor; auto.
          - congruence.
          - eapply bnd_same_trans; eauto.
          - intros a. rewrite S3. auto.
          - intros y Hy. rewrite S4 by (rewrite (stat_nv _ _ A1); auto). rewrite (Bs_same s s1) by auto. auto.
          - intros y Hy HB Hne. rewrite S6; [apply A8|rewrite (stat_nv _ _ A1); auto|rewrite (Bs_same s s1); auto|auto]. }
        destruct (IH s2 HK2) as [(s' & r & E3 & [P1 P2 P3])|(f & c & F0 & Fs)].
        * left. exists s', r. split; auto. constructor; auto.
          { eapply vreach_trans; [exact Vr1|]. eapply vreach_trans; eauto. }
          { intros a. rewrite P3. apply Pst0. }
        * right. exists (fun t => match t with 0 => s | S t => f t end), (fun t => match t with 0 => (i, j, v, m) | S t => c t end).
          split; auto. intros [|t] Ht.
          { rewrite F0. auto 10. }
          { apply Fs. lia. }
  Qed.

  Lemma wrun_inv n s f c : K s -> wrun n s f c -> forall t, t <= n ->
    K (f t) /\ stat (f t) = stat s /\ bnd_same s (f t) /\ (forall a, rows (f t) a <-> rows s a).
  Proof.
    intros HJ [F0 Fs] t. induction t as [|t IH]; intros Ht.
    - rewrite F0. split; auto. split; auto. split; [apply bnd_same_refl|tauto].
    - destruct IH as (I1 & I2 & I3 & I4); [lia|]. specialize (Fs t ltac:(lia)). destruct (c t) as [[[i j] v] m].
      destruct Fs as (_ & J2 & _ & _ & [S1 S2 S3 S4 S5 S6] & _). split; auto. split; [congruence|]. split; [eapply bnd_same_trans; eauto|].
      intros a. rewrite S3. auto.
  Qed.

  Definition staleb s x : bool := (x <? nv s) && Bs s x && conf_at s x && negb (bool_decide (x ∈ s_conf s)).
  Lemma staleb_stale s x : staleb s x = true <-> stale s x.
  Proof. unfold staleb, stale. rewrite !andb_true_iff, negb_true_iff, bool_decide_eq_false, Nat.ltb_lt. tauto. Qed.

  Theorem wsimplex_terminates n s f c : K s -> wrun n s f c -> n < 8 ^ nv s.
  Proof.
    intros HJ Hrun. pose proof (wrun_inv n s f c HJ Hrun) as Hinv. destruct Hrun as [F0 Fs].
    assert (Hnv : forall t, t <= n -> nv (f t) = nv s) by (intros t Ht; apply stat_nv; apply (Hinv t Ht)).
    assert (Hnn : forall t, t <= n -> s_nn (f t) = s_nn s) by (intros t Ht; apply stat_nn; apply (Hinv t Ht)).
    set (bi := fun t => let '(i, j, v, m) := c t in idx (f t) (i + s_nn (f t))).
    set (ei := fun t => let '(i, j, v, m) := c t in idx (f t) j).
    set (mi := fun t => let '(i, j, v, m) := c t in m).
    assert (ET : forall t i0 j0, t < n -> K (f t) -> i0 < s_nb (f t) -> j0 < s_nn (f t) -> Ts (f t) (idx (f t) (i0 + s_nn (f t))) (idx (f t) j0) = tget (s_tab (f t)) i0 j0).
    { intros t i0 j0 _ HK Hi Hj. destruct (idx_basic (f t) i0 (k_shape _ HK) Hi) as (_ & _ & Rb). destruct (idx_nonbasic (f t) j0 (k_shape _ HK) Hj) as (_ & _ & Re).
      unfold Ts. rewrite Rb, Re. replace (i0 + s_nn (f t) - s_nn (f t)) with i0 by lia. auto. }
    apply (wfeas_bound (nv s) (lov s) (upv s) n (fun t k => (k <? nv s) && Bs (f t) k) (fun t => Ts (f t)) (fun t => val (f t))
             (fun t => EPiv (bi t) (ei t) (mi t)) (fun t => staleb (f t))).
    - intros t t' b Ht Ht' Hb HB. apply andb_true_iff in HB as [_ HB].
      assert (Hr : rows (f t) (val (f t'))).
      { apply (Hinv t Ht). apply (Hinv t' Ht'). apply (k_rows _ (proj1 (Hinv t' Ht'))). }
      specialize (Hr b). rewrite (Hnv t Ht) in Hr. rewrite (Hr Hb HB). apply vsum_ext. intros k Hk.
      destruct (Nat.ltb_spec k (nv s)); [|lia]. auto.
    - intros t Ht. eauto.
    - intros t i j m Ht E. injection E as <- <- <-. specialize (Fs t Ht). unfold bi, ei, mi. destruct (c t) as [[[i0 j0] v0] m0].
      destruct Fs as (J1 & J2 & Pc & _ & Pst & _). pose proof (k_shape _ J1) as Sh.
      destruct (idx_basic (f t) i0 Sh (wc_i _ _ _ _ _ _ Pc)) as (Hb & Bb & _). destruct (idx_nonbasic (f t) j0 Sh (wc_j _ _ _ _ _ _ Pc)) as (He & Be & _).
      rewrite Hnv in Hb, He by lia. destruct Pst as [S1 S2 S3 S4 S5 S6]. rewrite Hnv in S4, S6 by lia.
      split; auto. split; auto. split. { apply andb_true_iff; split; auto. apply Nat.ltb_lt; auto. }
      split. { rewrite Be, andb_false_r; auto. }
      split. { rewrite ET; auto; apply Pc. }
      split.
      + intros k. destruct (Nat.ltb_spec k (nv s)) as [Hk|Hk]; cbn; auto.
        destruct (Nat.eqb_spec k (idx (f t) (i0 + s_nn (f t)))); [auto|]. destruct (Nat.eqb_spec k (idx (f t) j0)); [lia|auto].
      + intros k Hk HB Hne. destruct (Nat.ltb_spec k (nv s)); [|lia]. cbn in HB. auto.
    - intros t i j m Ht E. injection E as <- <- <-. specialize (Fs t Ht). unfold bi, ei, mi. destruct (c t) as [[[i0 j0] v0] m0].
      destruct Fs as (J1 & J2 & Pc & Hns & Pst & _). destruct (Hinv t ltac:(lia)) as (_ & St & Bt & _). split; [|split].
      + destruct (wc_viol _ _ _ _ _ _ Pc) as (b & Hb & <- & Hv). rewrite (ps_b _ _ _ _ _ Pst). destruct m0.
        * exists (b_val b). split; auto. rewrite <- (lov_same s (f t)) by auto. unfold lov. rewrite Hb. auto.
        * exists (b_val b). split; auto. rewrite <- (upv_same s (f t)) by auto. unfold upv. rewrite Hb. auto.
      + apply not_true_is_false. intros X. apply staleb_stale in X. auto.
      + intros b Hb HB. apply andb_true_iff in HB as [_ HB]. destruct (wc_min _ _ _ _ _ _ Pc b Hb HB) as [[W1 W2]|W]; [left|right; apply staleb_stale; auto].
        split; intros w Hw; [apply W1|apply W2]; rewrite ?(lov_same s (f t)), ?(upv_same s (f t)); auto.
    - intros t k Ht Hk X. apply staleb_stale. apply staleb_stale in X. specialize (Fs t Ht). destruct (c t) as [[[i0 j0] v0] m0]. apply Fs. auto.
    - intros t k Ht Hk X. apply staleb_stale in X as (X1 & X2 & _). apply andb_true_iff. split; auto. apply Nat.ltb_lt. rewrite <- (Hnv t Ht). auto.
    - intros t i j m Ht E. injection E as <- <- <-. specialize (Fs t Ht). unfold bi, ei, mi. destruct (c t) as [[[i0 j0] v0] m0].
      destruct Fs as (J1 & J2 & Pc & Hns & Pst & _). destruct (Hinv t ltac:(lia)) as (_ & St & Bt & _).
      rewrite ET by (auto; apply Pc). pose proof (wc_room _ _ _ _ _ _ Pc) as Hroom. unfold room in Hroom. split; intros Hi w Hw.
      + replace (Bool.eqb m0 (bool_decide (0 < tget (s_tab (f t)) i0 j0)%Qc)) with true in Hroom.
        { apply Hroom. rewrite (upv_same s (f t)); auto. }
        destruct m0; cbn in Hi; [rewrite bool_decide_eq_true_2; auto|rewrite bool_decide_eq_false_2; auto].
        intros Hp. apply (qc_lt_irrefl 0%Qc). eapply Qclt_trans; eauto.
      + replace (Bool.eqb m0 (bool_decide (0 < tget (s_tab (f t)) i0 j0)%Qc)) with false in Hroom.
        { apply Hroom. rewrite (lov_same s (f t)); auto. }
        destruct m0; cbn in Hi; [rewrite bool_decide_eq_false_2; auto|rewrite bool_decide_eq_true_2; auto].
        intros Hp. apply (qc_lt_irrefl 0%Qc). eapply Qclt_trans; eauto.
    - intros t i j m k Ht E Hk HB. injection E as <- <- <-. specialize (Fs t Ht). unfold bi, ei, mi in *. destruct (c t) as [[[i0 j0] v0] m0].
      destruct Fs as (J1 & J2 & Pc & Hns & Pst & _). destruct (Hinv t ltac:(lia)) as (_ & St & Bt & _). pose proof (k_shape _ J1) as Sh.
      destruct (idx_nonbasic (f t) j0 Sh (wc_j _ _ _ _ _ _ Pc)) as (He & Be & Re). rewrite Hnv in He by lia.
      destruct (Nat.ltb_spec k (nv s)); [|lia]. cbn in HB. pose proof (wc_first _ _ _ _ _ _ Pc k Hk HB) as Hf. split; intros Hi.
      + destruct (Hf true) as (u & Hu & Hle); [destruct m0; auto|]. exists u. rewrite (upv_same s (f t)) in Hu; auto.
      + destruct (Hf false) as (u & Hu & Hle); [destruct m0; auto|]. exists u. rewrite (lov_same s (f t)) in Hu; auto.
  Qed.

  Theorem wsimplex_ok fuel o L s : K s -> 8 ^ nv s <= fuel -> exists s' r, simplex_loop fuel o L s = Ok (s', r) /\ wpost L s s'.
  Proof.
    intros HJ Hf. destruct (wsimplex_run fuel o L s HJ) as [Hok|(f & c & Hr)]; auto.
    exfalso. pose proof (wsimplex_terminates fuel s f c HJ Hr). lia.
  Qed.
End weak.
