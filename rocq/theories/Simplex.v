(** * The simplex loop: selection, conflict clauses, termination *)

From stdpp Require Import list_numbers.
From Verif Require Import Num Sums Tableau TableauProofs Bland Solver SolverBase SolverStep.

Section simplex.
  Context {V : Type} `{VL : ValueLaws V}.
  Implicit Types s : solver V.
  Implicit Types x y : nat.

  (** an assignment satisfies a bound *)
  Definition bsat (a : nat -> V) (b : bound V) : Prop :=
    match b_rel b with
    | BLe => vle (a (b_var b)) (b_val b)
    | BGe => vle (b_val b) (a (b_var b))
    | BEq => a (b_var b) = b_val b
    end.

  Definition inb s x : Prop := within (lov s) (upv s) x (val s x).
  Definition feasible s : Prop := forall x, x < nv s -> inb s x.
  Definition nbok s : Prop := forall x, x < nv s -> Bs s x = false -> inb s x.
  Definition CQ s : Prop := Qinv s /\ forall x, x < nv s -> Bs s x = true -> conf_at s x = true -> x ∈ s_conf s.
  (** the bounds stored with a variable belong to it and to the right side *)
  Definition psound s : Prop := forall x b,
    (lo s x = Some b -> b_var b = x /\ b_rel b <> BLe) /\ (up s x = Some b -> b_var b = x /\ b_rel b <> BGe).
  Definition bcons s : Prop := forall x l u, lo s x = Some l -> up s x = Some u -> vle (b_val l) (b_val u).

  Lemma conf_at_inb s x : conf_at s x = false <-> inb s x.
  Proof.
    unfold conf_at, has_conflict, viol_lower, viol_upper, inb, within, lov, upv, lo, up, val.
    rewrite orb_false_iff. split.
    - intros [A B]. split; intros w Hw; apply fmap_Some in Hw as (b & Hb & ->); rewrite Hb in *.
      + apply vltb_false; auto.
      + apply vgtb_false; auto.
    - intros [A B]. split.
      + destruct (v_lower (vr s x)) as [b|]; auto. apply vltb_false, A; auto.
      + destruct (v_upper (vr s x)) as [b|]; auto. apply vgtb_false, B; auto.
  Qed.
  Lemma inb_same s s' x : lo s' x = lo s x -> up s' x = up s x -> val s' x = val s x -> inb s' x <-> inb s x.
  Proof. intros A B C. rewrite <- !conf_at_inb, (conf_at_same s s'); tauto. Qed.

  (** ** The row scan *)
  (** the bound that has to be tight for the cell to block, in direction [lower] *)
  Definition cpos (a d : Z) : bool := Bool.eqb (0 <? a)%Z (0 <? d)%Z.
  Lemma cpos_spec a d : a <> 0%Z -> d <> 0%Z -> if cpos a d then (0 < qmk a d)%Qc else (qmk a d < 0)%Qc.
  Proof.
    intros Ha Hd. unfold cpos, qmk. assert (Hz : zq d <> 0%Qc) by (apply zq_nz; auto).
    assert (E : (zq a / zq d = (zq a * zq d) * (/ zq d * / zq d))%Qc) by (field; auto).
    assert (P : (0 < / zq d * / zq d)%Qc).
    { assert (Hi : (/ zq d <> 0)%Qc). { intros E0. apply (f_equal (fun q => q * zq d)%Qc) in E0. rewrite Qcmult_comm, Qcmult_inv_r in E0 by auto. rewrite Qcmult_0_l in E0. discriminate. }
      destruct (qc_total (/ zq d) 0) as [?|[?|?]]; [|congruence|]; qcnra. }
    rewrite E. clear E. rewrite <- zq_mul. destruct (Z.ltb_spec 0 a), (Z.ltb_spec 0 d); cbn.
    - apply qc_mul_pos; auto. rewrite <- zq_0. apply zq_lt. lia.
    - assert (zq (a * d) < 0)%Qc by (rewrite <- zq_0; apply zq_lt; nia). revert H2 P. generalize (zq (a * d)) (/ zq d * / zq d)%Qc. intros; qcnra.
    - assert (zq (a * d) < 0)%Qc by (rewrite <- zq_0; apply zq_lt; nia). revert H2 P. generalize (zq (a * d)) (/ zq d * / zq d)%Qc. intros; qcnra.
    - apply qc_mul_pos; auto. rewrite <- zq_0. apply zq_lt. nia.
  Qed.

  Definition csel s (lower : bool) (e : nat * Z * Z) : option (bound V) :=
    let '(j, a, d) := e in if Bool.eqb lower (cpos a d) then up s (idx s j) else lo s (idx s j).
  Definition cblock s (lower : bool) (e : nat * Z * Z) : option (bound V) :=
    let '(j, a, d) := e in
    match csel s lower e with
    | Some b => if (if Bool.eqb lower (cpos a d) then vgeb (val s (idx s j)) (b_val b) else vleb (val s (idx s j)) (b_val b)) then Some b else None
    | None => None
    end.

  Lemma select_cell_eq s lower j a d kk rj cl : j < nv s -> idx s j < nv s ->
    select_cell s lower j a d (kk, rj, cl) =
      Ok (if kk <? idx s j then (kk, rj, cl) else
          match cblock s lower (j, a, d) with Some b => (kk, rj, cl ++ [(- b_lit b)%Z]) | None => (idx s j, j, cl) end).
  Proof.
    intros Hj Hi. unfold select_cell. rewrite at_vr by auto. cbn [mbind res_bind]. change (v_index (vr s j)) with (idx s j).
    destruct (kk <? idx s j); auto. rewrite at_vr by auto. cbn [mbind res_bind].
    unfold cblock, csel, cpos, lo, up, val. destruct (Bool.eqb lower _).
    - destruct (v_upper (vr s (idx s j))) as [b|]; auto. destruct (vgeb _ _); auto.
    - destruct (v_lower (vr s (idx s j))) as [b|]; auto. destruct (vleb _ _); auto.
  Qed.

  Lemma select_row s lower i c0 : shape s -> i < s_nb s ->
    exists kk rj cl, update_row (s_tab s) i (select_cell s lower) (nv s, 0, c0) = Ok (kk, rj, cl) /\
      ((kk = nv s /\ exists bs, cl = c0 ++ map (fun b => (- b_lit b)%Z) bs /\
          Forall2 (fun e b => cblock s lower e = Some b) (row_entries (s_tab s) i) bs) \/
       (kk < nv s /\ rj < s_nn s /\ kk = idx s rj /\ tget (s_tab s) i rj <> 0%Qc /\
          (forall a d, (rj, a, d) ∈ row_entries (s_tab s) i -> cblock s lower (rj, a, d) = None) /\
          (forall j a d, (j, a, d) ∈ row_entries (s_tab s) i -> idx s j < kk -> exists b, cblock s lower (j, a, d) = Some b))).
  Proof.
    intros Sh Hi. rewrite update_row_mfold.
    pose proof (row_entries_sorted (s_tab s) i (sh_tab _ Sh)) as Hsorted. apply ssorted_nodup in Hsorted.
    assert (Huniq : forall j a d a' d', (j, a, d) ∈ row_entries (s_tab s) i -> (j, a', d') ∈ row_entries (s_tab s) i -> a = a' /\ d = d').
    { intros j a d a' d' H1 H2. apply row_entries_elem in H1 as (r & R1 & -> & R3); [|apply Sh]. apply row_entries_elem in H2 as (r' & R1' & -> & R3'); [|apply Sh].
      rewrite R1 in R1'. injection R1' as <-. rewrite R3 in R3'. injection R3' as <-. auto. }
    destruct (mfold_inv (select_cell s lower) (row_entries (s_tab s) i) (nv s, 0, c0) (fun don st =>
      let '(kk, rj, cl) := st in
      (kk = nv s /\ exists bs, cl = c0 ++ map (fun b => (- b_lit b)%Z) bs /\ Forall2 (fun e b => cblock s lower e = Some b) don bs) \/
      (kk < nv s /\ kk = idx s rj /\ (exists a d, (rj, a, d) ∈ don /\ cblock s lower (rj, a, d) = None) /\
          (forall j a d, (j, a, d) ∈ don -> idx s j < kk -> exists b, cblock s lower (j, a, d) = Some b)))) as ([[kk rj] cl] & E & P).
    { left. split; auto. exists []. rewrite app_nil_r. split; auto. }
    { intros don j a d rest [[kk rj] cl] El P.
      assert (Hin : (j, a, d) ∈ row_entries (s_tab s) i) by (rewrite El; apply elem_of_app; right; apply elem_of_cons; auto).
      destruct (row_entries_facts _ _ _ _ _ Sh Hin) as (_ & Hj & _ & _ & _).
      destruct (idx_nonbasic s j Sh Hj) as (Hx & _ & Rx). pose proof (sh_len _ Sh).
      rewrite select_cell_eq by lia. eexists; split; [reflexivity|].
      destruct P as [(-> & bs & -> & F)|(Hkk & Ekk & (a0 & d0 & HH0 & B0) & Hlt)].
      - destruct (Nat.ltb_spec (nv s) (idx s j)); [lia|]. destruct (cblock s lower (j, a, d)) as [b|] eqn:Eb.
        + left. split; auto. exists (bs ++ [b]). rewrite map_app, app_assoc. split; auto. apply Forall2_app; auto.
        + right. split; auto. split; auto. split. { exists a, d. split; auto. apply elem_of_app; right; apply elem_of_list_singleton; auto. }
          intros j' a' d' Hin' Hlt'. apply elem_of_app in Hin' as [Hin'|Hin'].
          * clear -F Hin'. induction F; [inversion Hin'|]. apply elem_of_cons in Hin' as [<-|]; eauto.
          * apply elem_of_list_singleton in Hin'. injection Hin' as -> -> ->. lia.
      - destruct (Nat.ltb_spec kk (idx s j)) as [L|L].
        + right. split; auto. split; auto. split. { exists a0, d0. split; auto. apply elem_of_app; auto. }
          intros j' a' d' Hin' Hlt'. apply elem_of_app in Hin' as [Hin'|Hin']; [eauto|].
          apply elem_of_list_singleton in Hin'. injection Hin' as -> -> ->. lia.
        + destruct (cblock s lower (j, a, d)) as [b|] eqn:Eb.
          * right. split; auto. split; auto. split. { exists a0, d0. split; auto. apply elem_of_app; auto. }
            intros j' a' d' Hin' Hlt'. apply elem_of_app in Hin' as [Hin'|Hin']; [eauto|].
            apply elem_of_list_singleton in Hin'. injection Hin' as -> -> ->. eauto.
          * right. split; auto. split; auto. split. { exists a, d. split; auto. apply elem_of_app; right; apply elem_of_list_singleton; auto. }
            intros j' a' d' Hin' Hlt'. apply elem_of_app in Hin' as [Hin'|Hin'].
            { apply (Hlt j' a' d'); auto. lia. }
            apply elem_of_list_singleton in Hin'. injection Hin' as -> -> ->. lia. }
    exists kk, rj, cl. split; auto. destruct P as [P|(P1 & P2 & (a & d & P3 & P4) & P5)]; [left; auto|right].
    destruct (row_entries_facts _ _ _ _ _ Sh P3) as (_ & Hj & Eg & Ha & Hd).
    split; auto. split; auto. split; auto. split; [rewrite Eg; apply qmk_nz; auto|]. split; auto.
    intros a' d' Hin. destruct (Huniq _ _ _ _ _ P3 Hin) as [<- <-]. auto.
  Qed.

  (** sum over the entries of a row *)
  Lemma row_sum s i (a : nat -> V) : shape s -> i < s_nb s ->
    rowval (nv s) (Bs s) (Ts s) a (idx s (i + s_nn s)) =
    lsum (fun e : nat * Z * Z => vscale (qmk e.1.2 e.2) (a (idx s e.1.1))) (row_entries (s_tab s) i).
  Proof.
    intros Sh Hi. symmetry. apply (lsum_vsum (fun e : nat * Z * Z => idx s e.1.1)).
    - pose proof (row_entries_sorted (s_tab s) i (sh_tab _ Sh)) as Hs. apply ssorted_nodup in Hs.
      assert (G : forall l : list (nat * Z * Z), (forall e, e ∈ l -> e.1.1 < s_nn s) -> NoDup (map (fun e => e.1.1) l) -> NoDup (map (fun e => idx s e.1.1) l)).
      { induction l as [|e l IH]; cbn; intros Hl Hn; [constructor|]. apply NoDup_cons in Hn as [Hn1 Hn2]. apply NoDup_cons. split.
        - intros Hin. apply Hn1. apply elem_of_list_In, in_map_iff in Hin as (e' & E & He'). apply elem_of_list_In in He'.
          apply elem_of_list_In, in_map_iff. exists e'. split; [|apply elem_of_list_In; auto].
          destruct (idx_nonbasic s e'.1.1 Sh) as (_ & _ & R1); [apply Hl, elem_of_cons; auto|].
          destruct (idx_nonbasic s e.1.1 Sh) as (_ & _ & R2); [apply Hl, elem_of_cons; auto|]. rewrite E in R1. congruence.
        - apply IH; auto. intros; apply Hl, elem_of_cons; auto. }
      apply G; auto. intros [[j v] d] He. apply (row_entries_facts _ _ _ _ _ Sh He).
    - intros [[j v] d] He. destruct (row_entries_facts _ _ _ _ _ Sh He) as (_ & Hj & Eg & _). destruct (idx_nonbasic s j Sh Hj) as (Hx & Bx & Rx).
      cbn. split; auto. rewrite Bx. f_equal. unfold Ts. rewrite Rx. destruct (idx_basic s i Sh Hi) as (_ & _ & Rb). rewrite Rb.
      replace (i + s_nn s - s_nn s) with i by lia. auto.
    - intros x Hx Hn. destruct (Bs s x) eqn:Bx; [congruence|].
      destruct (nonbasic_idx s x Sh Hx Bx) as [Rx Ex].
      assert (Hnz : tget (s_tab s) i (ridx s x) <> 0%Qc).
      { intros E. apply Hn. unfold Ts. destruct (idx_basic s i Sh Hi) as (_ & _ & Rb). rewrite Rb. replace (i + s_nn s - s_nn s) with i by lia. rewrite E. apply vscale_0. }
      destruct (row_entries_nz s i _ Sh Hnz) as (v & d & Hin). exists (ridx s x, v, d). split; auto.
  Qed.

  Lemma lsum_le {A} (f g : A -> V) l : (forall w, w ∈ l -> vle (f w) (g w)) -> vle (lsum f l) (lsum g l).
  Proof.
    induction l; cbn; intros Hf; [apply vle_refl|]. apply vadd_le_mono; [apply Hf, elem_of_cons; auto|]. apply IHl. intros; apply Hf, elem_of_cons; auto.
  Qed.

  (** Farkas: all cells blocked *)
  Lemma farkas s i (lower : bool) (b : bound V) (bs : list (bound V)) : shape s -> i < s_nb s -> psound s -> rows s (val s) ->
    (if lower then lo s (idx s (i + s_nn s)) else up s (idx s (i + s_nn s))) = Some b ->
    (if lower then vlt (val s (idx s (i + s_nn s))) (b_val b) else vlt (b_val b) (val s (idx s (i + s_nn s)))) ->
    Forall2 (fun e b => cblock s lower e = Some b) (row_entries (s_tab s) i) bs ->
    forall a, rows s a -> (forall c, c ∈ b :: bs -> bsat a c) -> False.
  Proof.
    intros Sh Hi Ps Hv Hb Hviol F a Ha Hsat. destruct (idx_basic s i Sh Hi) as (Hx & Bx & _). set (x := idx s (i + s_nn s)) in *.
    assert (Hterm : forall e, e ∈ row_entries (s_tab s) i ->
              let f := fun (a : nat -> V) (e : nat * Z * Z) => vscale (qmk e.1.2 e.2) (a (idx s e.1.1)) in
              if lower then vle (f a e) (f (val s) e) else vle (f (val s) e) (f a e)).
    { intros [[j v] d] He f. unfold f; cbn.
      destruct (row_entries_facts _ _ _ _ _ Sh He) as (_ & Hj & Eg & Hv0 & Hd0). pose proof (cpos_spec v d Hv0 Hd0) as Hc.
      assert (Hex : exists c, c ∈ bs /\ cblock s lower (j, v, d) = Some c).
      { clear -F He. induction F as [|e0 c0 l l' Hc0 F IH]; [inversion He|]. apply elem_of_cons in He as [<-|He].
        - exists c0. split; auto. apply elem_of_cons; auto.
        - destruct IH as (c & ? & ?); auto. exists c. split; auto. apply elem_of_cons; auto. }
      destruct Hex as (c & Hcin & Hcb). pose proof (Hsat c ltac:(apply elem_of_cons; auto)) as Hs. unfold bsat in Hs.
      unfold cblock, csel in Hcb. destruct (cpos v d); destruct lower; cbn [Bool.eqb] in Hcb.
      - destruct (up s (idx s j)) as [c'|] eqn:Ec; [|discriminate]. destruct (vgeb _ _) eqn:Eg'; [|discriminate]. injection Hcb as ->.
        apply vgeb_le in Eg'. destruct (Ps (idx s j) c) as [_ P2]. destruct (P2 Ec) as [P3 P4]. rewrite P3 in Hs.
        apply vscale_le; [apply Qclt_le_weak; auto|]. destruct (b_rel c); try congruence. eapply vle_trans; eauto.
      - destruct (lo s (idx s j)) as [c'|] eqn:Ec; [|discriminate]. destruct (vleb _ _) eqn:Eg'; [|discriminate]. injection Hcb as ->.
        apply vleb_le in Eg'. destruct (Ps (idx s j) c) as [P2 _]. destruct (P2 Ec) as [P3 P4]. rewrite P3 in Hs.
        apply vscale_le; [apply Qclt_le_weak; auto|]. destruct (b_rel c); try congruence. eapply vle_trans; eauto.
      - destruct (lo s (idx s j)) as [c'|] eqn:Ec; [|discriminate]. destruct (vleb _ _) eqn:Eg'; [|discriminate]. injection Hcb as ->.
        apply vleb_le in Eg'. destruct (Ps (idx s j) c) as [P2 _]. destruct (P2 Ec) as [P3 P4]. rewrite P3 in Hs.
        apply vscale_le_neg; [apply Qclt_le_weak; auto|]. destruct (b_rel c); try congruence. eapply vle_trans; eauto.
      - destruct (up s (idx s j)) as [c'|] eqn:Ec; [|discriminate]. destruct (vgeb _ _) eqn:Eg'; [|discriminate]. injection Hcb as ->.
        apply vgeb_le in Eg'. destruct (Ps (idx s j) c) as [_ P2]. destruct (P2 Ec) as [P3 P4]. rewrite P3 in Hs.
        apply vscale_le_neg; [apply Qclt_le_weak; auto|]. destruct (b_rel c); try congruence. eapply vle_trans; eauto. }
    pose proof (Hv x Hx Bx) as Ev. pose proof (Ha x Hx Bx) as Ea. unfold x in Ev, Ea. rewrite row_sum in Ev, Ea by auto. fold x in Ev, Ea.
    pose proof (Hsat b ltac:(apply elem_of_cons; auto)) as Hs. unfold bsat in Hs. destruct (Ps x b) as [P1 P2].
    destruct lower.
    - destruct (P1 Hb) as [P3 P4]. rewrite P3 in Hs.
      assert (Hle : vle (a x) (val s x)) by (rewrite Ev, Ea; apply lsum_le; exact Hterm).
      apply (vlt_irrefl (b_val b)). eapply vle_lt_trans; [|exact Hviol]. eapply vle_trans; [|exact Hle].
      destruct (b_rel b); [congruence|auto|rewrite Hs; apply vle_refl].
    - destruct (P2 Hb) as [P3 P4]. rewrite P3 in Hs.
      assert (Hle : vle (val s x) (a x)) by (rewrite Ev, Ea; apply lsum_le; exact Hterm).
      apply (vlt_irrefl (b_val b)). eapply vlt_le_trans; [exact Hviol|]. eapply vle_trans; [exact Hle|].
      destruct (b_rel b); [auto|congruence|rewrite Hs; apply vle_refl].
  Qed.

  (** ** select_ *)
  Definition selonly s s' : Prop :=
    stat s' = stat s /\ s_tab s' = s_tab s /\ s_atrail s' = s_atrail s /\ s_btrail s' = s_btrail s /\ s_pq s' = s_pq s /\
    perm_same s s' /\ bnd_same s s' /\ val_same s s'.
  Lemma selonly_refl s : selonly s s. Proof. repeat split. Qed.
  Lemma selonly_trans s1 s2 s3 : selonly s1 s2 -> selonly s2 s3 -> selonly s1 s3.
  Proof.
    intros (A1 & A2 & A3 & A4 & A5 & A6 & A7 & A8) (B1 & B2 & B3 & B4 & B5 & B6 & B7 & B8).
    repeat (split; [congruence|]). split; [|split].
    - eapply perm_same_trans; eauto.
    - eapply bnd_same_trans; eauto.
    - intros y. destruct (A8 y), (B8 y). split; congruence.
  Qed.
  Lemma selonly_unq s x : x < nv s -> selonly s (upd_var x (vset_queued false) s).
  Proof.
    intros Hx. split; [apply stat_upd|]. repeat (split; [reflexivity|]).
    assert (G : forall y, exists q, vr (upd_var x (vset_queued false) s) y = vset_queued q (vr s y)).
    { intros y. rewrite vr_upd by auto. destruct (Nat.eqb_spec y x) as [->|]; [exists false; auto|]. exists (v_queued (vr s y)). destruct (vr s y); auto. }
    split; [|split]; intros y; unfold idx, ridx, lo, up, val, lvl; destruct (G y) as (q & ->); repeat split.
  Qed.
  Lemma selonly_shape s s' : shape s -> selonly s s' -> (forall x, x ∈ s_conf s' -> x < nv s) -> shape s'.
  Proof.
    intros Sh (A1 & A2 & A3 & A4 & A5 & A6 & A7 & A8) Hc. apply (shape_keep s); auto.
    - rewrite A2. apply Sh.
    - rewrite A2. auto.
    - rewrite A5. apply Sh.
    - rewrite A3. apply Sh.
    - rewrite A4. apply Sh.
    - intros x. apply (A7 x).
  Qed.
  Lemma selonly_quiet s s' : selonly s s' -> vquiet s s'.
  Proof. intros (A1 & A2 & A3 & A4 & A5 & A6 & A7 & A8). repeat (split; auto). Qed.

  (** what select_ establishes for a pivot: direction [m] (true: below the lower bound) *)
  Record pivot_choice s (i j : nat) (v : V) (m : bool) : Prop := {
    pc_i : i < s_nb s;
    pc_j : j < s_nn s;
    pc_nz : tget (s_tab s) i j <> 0%Qc;
    pc_viol : exists b, (if m then lo s (idx s (i + s_nn s)) else up s (idx s (i + s_nn s))) = Some b /\ b_val b = v /\
       (if m then vlt (val s (idx s (i + s_nn s))) v else vlt v (val s (idx s (i + s_nn s))));
    pc_min : forall y, y < idx s (i + s_nn s) -> Bs s y = true -> inb s y;
    pc_room : room (lov s) (upv s) (Bool.eqb m (bool_decide (0 < tget (s_tab s) i j)%Qc)) (idx s j) (val s (idx s j));
    pc_first : forall k, k < idx s j -> Bs s k = false -> forall q, incr (Bool.eqb m q) (Ts s (idx s (i + s_nn s)) k) -> atbound (lov s) (upv s) q k (val s k);
  }.

  Lemma cblock_atbound s lower j a d b : cblock s lower (j, a, d) = Some b ->
    atbound (lov s) (upv s) (Bool.eqb lower (cpos a d)) (idx s j) (val s (idx s j)).
  Proof.
    unfold cblock, csel, atbound, lov, upv. destruct (Bool.eqb lower (cpos a d)).
    - destruct (up s (idx s j)) as [c|]; [|discriminate]. destruct (vgeb _ _) eqn:E; [|discriminate]. apply vgeb_le in E. intros _. exists (b_val c). auto.
    - destruct (lo s (idx s j)) as [c|]; [|discriminate]. destruct (vleb _ _) eqn:E; [|discriminate]. apply vleb_le in E. intros _. exists (b_val c). auto.
  Qed.
  Lemma cblock_room s lower j a d : cblock s lower (j, a, d) = None ->
    room (lov s) (upv s) (Bool.eqb lower (cpos a d)) (idx s j) (val s (idx s j)).
  Proof.
    unfold cblock, csel, room, lov, upv. destruct (Bool.eqb lower (cpos a d)).
    - destruct (up s (idx s j)) as [c|]; [|intros _ u; discriminate]. destruct (vgeb _ _) eqn:E; [discriminate|]. apply vgeb_false in E. intros _ u [= <-]; auto.
    - destruct (lo s (idx s j)) as [c|]; [|intros _ u; discriminate]. destruct (vleb _ _) eqn:E; [discriminate|]. apply vleb_false in E. intros _ u [= <-]; auto.
  Qed.
  Lemma cpos_decide a d : a <> 0%Z -> d <> 0%Z -> cpos a d = bool_decide (0 < qmk a d)%Qc.
  Proof.
    intros Ha Hd. pose proof (cpos_spec a d Ha Hd) as Hc. destruct (cpos a d).
    - rewrite bool_decide_eq_true_2; auto.
    - rewrite bool_decide_eq_false_2; auto. intros Hp. apply (qc_lt_irrefl 0%Qc). eapply Qclt_trans; eauto.
  Qed.

  Lemma pivot_choice_same s s' i j v m : selonly s s' -> pivot_choice s i j v m -> pivot_choice s' i j v m.
  Proof.
    intros (A1 & A2 & A3 & A4 & A5 & A6 & A7 & A8) [P1 P2 P3 P4 P5 P6 P7].
    assert (EI : forall y, idx s' y = idx s y) by apply A6. assert (EV : forall y, val s' y = val s y) by apply A8.
    assert (EL : forall y, lo s' y = lo s y) by apply A7. assert (EU : forall y, up s' y = up s y) by apply A7.
    constructor; rewrite ?A2, ?(stat_nn _ _ A1), ?(stat_nb _ _ A1), ?EI, ?EV, ?EL, ?EU; auto.
    - intros y Hy HB. rewrite (Bs_same s) in HB by auto. apply (inb_same s); auto.
    - revert P6. unfold room, lov, upv. destruct (Bool.eqb _ _); rewrite ?EL, ?EU; auto.
    - intros k Hk HB q Hq. rewrite (Bs_same s) in HB by auto. rewrite (Ts_same s) in Hq by (auto; rewrite A2; auto).
      rewrite EV. pose proof (P7 k Hk HB q Hq) as P. revert P. unfold atbound, lov, upv. destruct q; rewrite ?EL, ?EU; auto.
  Qed.

  Lemma select_loop_ok q s : shape s -> psound s -> (forall x, x ∈ q -> x < nv s) -> StronglySorted le q ->
    (forall x, qd s x = true -> x ∈ q) -> (forall x, x < nv s -> Bs s x = true -> conf_at s x = true -> x ∈ q) ->
    exists r s', select_loop q s = Ok (r, s') /\ selonly s s' /\ shape s' /\ CQ s' /\
      match r with
      | SelSat => (forall x, x < nv s -> Bs s x = true -> inb s x) /\ s_conf s' = []
      | SelUnsat => rows s (val s) -> exists bs, s_clause s' = map (fun b => (- b_lit b)%Z) bs /\
          (forall b, b ∈ bs -> exists x, lo s x = Some b \/ up s x = Some b) /\
          (forall a, rows s a -> (forall c, c ∈ bs -> bsat a c) -> False)
      | SelPivot i j v => exists m, pivot_choice s i j v m
      end.
  Proof.
    revert s. induction q as [|x q IH]; intros s Sh Ps Hq Hs Hqd Hcf.
    - cbn. exists SelSat, (set_conf [] s). split; auto. split; [repeat split|]. split.
      { apply (selonly_shape s); [auto|repeat split|]. intros y Hy; inversion Hy. }
      split. { split. { split; [exact Hqd|constructor]. } exact Hcf. }
      split; [|reflexivity]. intros y Hy HB. apply conf_at_inb. destruct (conf_at s y) eqn:E; auto. apply Hcf in E; auto. inversion E.
    - cbn [select_loop]. assert (Hx : x < nv s) by (apply Hq, elem_of_cons; auto). rewrite at_vr by auto. cbn [mbind res_bind].
      set (s1 := upd_var x (vset_queued false) s). pose proof (selonly_unq s x Hx) as So1. fold s1 in So1.
      assert (Sh1 : shape s1) by (apply (selonly_shape s); auto; apply Sh).
      pose proof So1 as (A1 & A2 & A3 & A4 & A5 & A6 & A7 & A8).
      assert (Ps1 : psound s1). { intros y b. destruct (A7 y) as (-> & -> & _). apply Ps. }
      assert (Qd1 : forall y, qd s1 y = true -> y ∈ q).
      { intros y. unfold qd, s1. rewrite vr_upd by auto. destruct (Nat.eqb_spec y x) as [->|Hne]; [discriminate|]. intros Hqy. apply Hqd in Hqy. apply elem_of_cons in Hqy as [?|?]; [congruence|auto]. }
      inversion Hs as [|? ? Hs' Hfor]; subst.
      (* skipping the head *)
      assert (Skip : (Bs s x = true -> conf_at s x = false) ->
        exists r s', select_loop q s1 = Ok (r, s') /\ selonly s s' /\ shape s' /\ CQ s' /\
          match r with
          | SelSat => (forall x, x < nv s -> Bs s x = true -> inb s x) /\ s_conf s' = []
          | SelUnsat => rows s (val s) -> exists bs, s_clause s' = map (fun b => (- b_lit b)%Z) bs /\
              (forall b, b ∈ bs -> exists x, lo s x = Some b \/ up s x = Some b) /\
              (forall a, rows s a -> (forall c, c ∈ bs -> bsat a c) -> False)
          | SelPivot i j v => exists m, pivot_choice s i j v m
          end).
      { intros Hnc. destruct (IH s1) as (r & s' & E & So & Sh' & Cq & Hr); auto.
        - intros y Hy. rewrite (stat_nv _ _ A1). apply Hq, elem_of_cons; auto.
        - intros y Hy HB Hc. rewrite (stat_nv _ _ A1) in Hy. rewrite (Bs_same s s1) in HB by auto.
          rewrite (conf_at_same s s1) in Hc; [|apply A7|apply A7|apply A8]. pose proof (Hcf y Hy HB Hc) as Hin.
          apply elem_of_cons in Hin as [->|]; auto. rewrite Hnc in Hc by auto. discriminate.
        - exists r, s'. split; auto. split; [eapply selonly_trans; eauto|]. split; auto. split; auto. destruct r as [| |i j v].
          + destruct Hr as [Hr Hr']. split; auto. intros y Hy HB. apply (inb_same s s1); [apply A7|apply A7|apply A8|].
            apply Hr; [rewrite (stat_nv _ _ A1); auto|]. rewrite (Bs_same s s1); auto.
          + intros Hrows. destruct Hr as (bs & R1 & R2 & R3).
            { apply (rows_same s s1); auto; try congruence. apply (rows_ext s (val s)); auto. intros y _. symmetry. apply A8. }
            exists bs. split; auto. split.
            * intros b Hb. destruct (R2 b Hb) as (y & Hy). exists y. destruct (A7 y) as (E1 & E2 & _). rewrite E1, E2 in Hy. auto.
            * intros a Ha. apply R3. apply (rows_same s s1); auto; congruence.
          + destruct Hr as (m & Hm). exists m.
            assert (So' : selonly s1 s).
            { split; [congruence|]. split; [congruence|]. split; [congruence|]. split; [congruence|]. split; [congruence|].
              split; [|split]; intros y; [destruct (A6 y)|destruct (A7 y) as (?&?&?)|destruct (A8 y)]; repeat split; congruence. }
            apply (pivot_choice_same s1 s); auto. }
      change (v_rindex (vr s x)) with (ridx s x).
      destruct (Nat.ltb_spec (ridx s x) (s_nn s)) as [Hlt|Hge].
      { apply Skip. unfold Bs. intros HB. apply Nat.leb_le in HB. lia. }
      assert (Bx : Bs s x = true) by (apply Nat.leb_le; auto).
      destruct (viol_lower (vr s x) || viol_upper (vr s x)) eqn:Ev.
      2:{ apply Skip. intros _. exact Ev. }
      set (m := viol_lower (vr s x)) in *. set (i := ridx s x - s_nn s).
      assert (Hi : i < s_nb s /\ idx s (i + s_nn s) = x) by (apply basic_idx; auto). destruct Hi as [Hi Exi].
      assert (Hb : exists b, (if m then lo s x else up s x) = Some b /\ (if m then vlt (val s x) (b_val b) else vlt (b_val b) (val s x))).
      { unfold m, viol_lower, viol_upper, lo, up, val in *. destruct (v_lower (vr s x)) as [l|].
        - destruct (vltb (v_val (vr s x)) (b_val l)) eqn:El.
          + exists l. split; auto. apply vltb_lt; auto.
          + cbn in Ev. destruct (v_upper (vr s x)) as [u|]; [|discriminate]. exists u. split; auto. apply vgtb_lt; auto.
        - cbn in Ev. destruct (v_upper (vr s x)) as [u|]; [|discriminate]. exists u. split; auto. apply vgtb_lt; auto. }
      destruct Hb as (b & Hb & Hviol).
      assert (Hbd : (if m then v_lower (vr s x) else v_upper (vr s x)) = Some b) by exact Hb.
      rewrite Hbd. cbn [deref mbind res_bind].
      destruct (select_row s1 m i [(- b_lit b)%Z] Sh1) as (kk & rj & cl & E & Hsel).
      { rewrite (stat_nb _ _ A1). auto. }
      assert (Nv1 : nv s1 = nv s) by (apply (stat_nv _ _ A1)). unfold nv in E at 1. rewrite E. cbn [mbind res_bind].
      set (s2 := set_conf (x :: q) (set_clause cl s1)).
      assert (So2 : selonly s s2) by (eapply selonly_trans; [exact So1|]; repeat split).
      assert (Sh2 : shape s2).
      { apply (selonly_shape s); [auto|auto|]. intros y Hy. apply Hq. exact Hy. }
      assert (Cq2 : CQ s2).
      { split. { split; [|exact Hs]. intros y Hy. apply elem_of_cons. right. apply Qd1. exact Hy. }
        intros y Hy HB Hc. apply Hcf.
        - rewrite <- Nv1. exact Hy.
        - rewrite <- (Bs_same s s2); auto; apply So2.
        - rewrite <- Hc. symmetry. apply conf_at_same; apply So2. }
      fold (nv s1). destruct Hsel as [(-> & bs & -> & F)|(Hkk & Hrj & Ekk & Hnz & Hnone & Hmin)].
      + rewrite Nat.eqb_refl. exists SelUnsat, s2. split; auto. split; auto. split; auto. split; auto.
        intros Hrows. exists (b :: bs). split; [reflexivity|]. split.
        * intros c Hc. apply elem_of_cons in Hc as [->|Hc]; [exists x; destruct m; auto|].
          clear - F Hc A6 A7. induction F as [|e0 c0 l l' Hc0 F IHF]; [inversion Hc|]. apply elem_of_cons in Hc as [->|Hc]; auto.
          destruct e0 as [[j a] d]. unfold cblock, csel in Hc0. exists (idx s1 j). destruct (A7 (idx s1 j)) as (<- & <- & _).
          destruct (Bool.eqb m (cpos a d)).
          { destruct (up s1 (idx s1 j)) as [c'|]; [|discriminate]. destruct (vgeb _ _); [|discriminate]. right; auto. }
          { destruct (lo s1 (idx s1 j)) as [c'|]; [|discriminate]. destruct (vleb _ _); [|discriminate]. left; auto. }
        * intros a Ha Hsat. refine (farkas s1 i m b bs Sh1 _ Ps1 _ _ _ F a _ Hsat).
          { rewrite (stat_nb _ _ A1); auto. }
          { apply (rows_same s s1); auto; try congruence. apply (rows_ext s (val s)); auto. intros y _. symmetry. apply A8. }
          { rewrite (stat_nn _ _ A1). destruct (A6 (i + s_nn s)) as [-> _]. rewrite Exi. destruct (A7 x) as (-> & -> & _). auto. }
          { rewrite (stat_nn _ _ A1). destruct (A6 (i + s_nn s)) as [-> _]. rewrite Exi. destruct (A8 x) as (-> & _). auto. }
          { apply (rows_same s s1); auto; congruence. }
      + destruct (Nat.eqb_spec kk (nv s1)); [lia|]. exists (SelPivot i rj (b_val b)), s2. split; auto. split; auto. split; auto. split; auto.
        exists m. apply (pivot_choice_same s1 s).
        { split; [congruence|]. split; [congruence|]. split; [congruence|]. split; [congruence|]. split; [congruence|].
          split; [|split]; intros y; [destruct (A6 y)|destruct (A7 y) as (?&?&?)|destruct (A8 y)]; repeat split; congruence. }
        assert (Exi1 : idx s1 (i + s_nn s1) = x). { rewrite (stat_nn _ _ A1). destruct (A6 (i + s_nn s)) as [-> _]. auto. }
        destruct (row_entries_nz s1 i rj Sh1 Hnz) as (a & d & Hin).
        destruct (row_entries_facts _ _ _ _ _ Sh1 Hin) as (_ & _ & Eg & Ha & Hd).
        constructor; rewrite ?Exi1.
        * rewrite (stat_nb _ _ A1); auto.
        * auto.
        * auto.
        * exists b. destruct (A7 x) as (-> & -> & _), (A8 x) as (-> & _). auto.
        * intros y Hy HB. apply conf_at_inb. destruct (conf_at s1 y) eqn:Ec; auto. exfalso.
          rewrite (conf_at_same s s1) in Ec; [|apply A7|apply A7|apply A8].
          assert (Hin' : y ∈ x :: q). { apply Hcf; [lia| |auto]. rewrite <- (Bs_same s s1); auto. }
          apply elem_of_cons in Hin' as [->|Hin']; [lia|]. rewrite List.Forall_forall in Hfor. apply elem_of_list_In, Hfor in Hin'. lia.
        * rewrite Eg, <- cpos_decide by auto. apply cblock_room. auto.
        * intros k Hk HB qq Hqq. assert (Hkn : k < nv s1) by (destruct (idx_nonbasic s1 rj Sh1 Hrj); lia).
          destruct (nonbasic_idx s1 k Sh1 Hkn HB) as [Rk Ek].
          assert (ET : Ts s1 x k = tget (s_tab s1) i (ridx s1 k)).
          { unfold Ts. rewrite <- Exi1. destruct (idx_basic s1 i Sh1) as (_ & _ & ->); [rewrite (stat_nb _ _ A1); auto|].
            replace (i + s_nn s1 - s_nn s1) with i by lia. auto. }
          rewrite ET in Hqq. assert (Hnz' : tget (s_tab s1) i (ridx s1 k) <> 0%Qc).
          { intros E0. rewrite E0 in Hqq. destruct (Bool.eqb m qq); cbn in Hqq; exact (qc_lt_irrefl _ Hqq). }
          destruct (row_entries_nz s1 i _ Sh1 Hnz') as (a' & d' & Hin').
          destruct (row_entries_facts _ _ _ _ _ Sh1 Hin') as (_ & _ & Eg' & Ha' & Hd').
          destruct (Hmin _ _ _ Hin') as (c & Hc); [rewrite Ek; lia|]. apply cblock_atbound in Hc. rewrite Ek in Hc.
          assert (Eqq : qq = Bool.eqb m (cpos a' d')).
          { pose proof (cpos_spec a' d' Ha' Hd') as Hcp. rewrite Eg' in Hqq. destruct (cpos a' d'), m, qq; auto; cbn in Hqq; exfalso; eapply qc_lt_irrefl; eapply Qclt_trans; eauto. }
          rewrite Eqq. auto.
  Qed.
End simplex.
