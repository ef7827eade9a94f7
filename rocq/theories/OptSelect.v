(** * Choice of entering and leaving variable in Solver::optimize *)
From stdpp Require Import list_numbers.
From Verif Require Import Num Sums Tableau TableauProofs Bland Solver SolverBase SolverStep Simplex SimplexLoop Hist Updates Core CoreSolve.

Section optselect.
  Context {V : Type} `{VL : ValueLaws V}.
  Implicit Types s : solver V.
  Implicit Types x y : nat.
  Implicit Types b l u : bound V.

  Definition inroom s (p : bool) (x : nat) (v : V) : bool := if p then below_upper (vr s x) v else above_lower (vr s x) v.
  Lemma inroom_true s p x v : inroom s p x v = true -> room (lov s) (upv s) p x v.
  Proof.
    unfold inroom, room, below_upper, above_lower, lov, upv, lo, up. destruct p; intros E w Hw; apply fmap_Some in Hw as (b & Hb & ->); rewrite Hb in E.
    - apply vltb_lt; auto.
    - apply vgtb_lt; auto.
  Qed.
  Lemma inroom_false s p x v : inroom s p x v = false -> atbound (lov s) (upv s) p x v.
  Proof.
    unfold inroom, atbound, below_upper, above_lower, lov, upv, lo, up. destruct p; intros E.
    - destruct (v_upper (vr s x)) as [b|]; [|discriminate]. exists (b_val b). split; auto. apply vltb_false; auto.
    - destruct (v_lower (vr s x)) as [b|]; [|discriminate]. exists (b_val b). split; auto. apply vgtb_false; auto.
  Qed.

  (** ** entering variable *)
  Lemma enter_cell_eq s j a d (ee : nat) (pos : bool) : j < nv s -> idx s j < nv s ->
    enter_cell s j a d (ee, pos) = Ok (if (idx s j <? ee) && inroom s (cpos a d) (idx s j) (val s (idx s j)) then (idx s j, cpos a d) else (ee, pos)).
  Proof.
    intros Hj Hx. unfold enter_cell. rewrite at_vr by auto. cbn [mbind res_bind]. change (v_index (vr s j)) with (idx s j).
    destruct (idx s j <? ee); cbn [andb]; auto. rewrite at_vr by auto. cbn [mbind res_bind]. fold (cpos a d). unfold inroom, val.
    destruct (cpos a d); [destruct (below_upper _ _)|destruct (above_lower _ _)]; reflexivity.
  Qed.

  Lemma enter_row s i : shape s -> i < s_nb s ->
    exists ee pos, update_row (s_tab s) i (enter_cell s) (nv s, false) = Ok (ee, pos) /\
      ((ee = nv s /\ forall j a d, (j, a, d) ∈ row_entries (s_tab s) i -> atbound (lov s) (upv s) (cpos a d) (idx s j) (val s (idx s j))) \/
       (ee < nv s /\ exists j a d, (j, a, d) ∈ row_entries (s_tab s) i /\ ee = idx s j /\ pos = cpos a d /\ room (lov s) (upv s) pos ee (val s ee) /\
          forall j' a' d', (j', a', d') ∈ row_entries (s_tab s) i -> idx s j' < ee -> atbound (lov s) (upv s) (cpos a' d') (idx s j') (val s (idx s j')))).
  Proof.
    intros Sh Hi. rewrite update_row_mfold.
    destruct (mfold_inv (enter_cell s) (row_entries (s_tab s) i) (nv s, false) (fun don st =>
      (st.1 = nv s /\ forall j a d, (j, a, d) ∈ don -> atbound (lov s) (upv s) (cpos a d) (idx s j) (val s (idx s j))) \/
      (st.1 < nv s /\ exists j a d, (j, a, d) ∈ don /\ st.1 = idx s j /\ st.2 = cpos a d /\ room (lov s) (upv s) st.2 st.1 (val s st.1) /\
          forall j' a' d', (j', a', d') ∈ don -> idx s j' < st.1 -> atbound (lov s) (upv s) (cpos a' d') (idx s j') (val s (idx s j'))))) as ([ee pos] & E & P).
    - left. split; auto. intros j a d Hin. inversion Hin.
    - intros don j a d rest [ee pos] El P. cbn [fst snd] in P.
      assert (Hin : (j, a, d) ∈ row_entries (s_tab s) i) by (rewrite El; apply elem_of_app; right; apply elem_of_cons; auto).
      destruct (row_entries_facts _ _ _ _ _ Sh Hin) as (_ & Hj & _). destruct (idx_nonbasic s j Sh Hj) as (Hx & _ & _). pose proof (sh_len _ Sh).
      rewrite enter_cell_eq by lia. eexists; split; [reflexivity|].
      destruct (Nat.ltb_spec (idx s j) ee) as [Hlt|Hge]; cbn [andb].
      + destruct (inroom s (cpos a d) (idx s j) (val s (idx s j))) eqn:Er; cbn [fst snd].
        * right. split; auto. exists j, a, d. split; [apply elem_of_app; right; apply elem_of_list_singleton; auto|]. split; auto. split; auto. split; [apply inroom_true; auto|].
          intros j' a' d' Hin' Hlt'. apply elem_of_app in Hin' as [Hin'|Hin'].
          { destruct P as [(Ee & P)|(He & j0 & a0 & d0 & _ & _ & _ & _ & P)]; [apply P; auto|apply P; auto; lia]. }
          apply elem_of_list_singleton in Hin'. injection Hin' as -> -> ->. lia.
        * apply inroom_false in Er. destruct P as [(Ee & P)|(He & j0 & a0 & d0 & P1 & P2 & P3 & P4 & P)].
          { left. split; auto. intros j' a' d' Hin'. apply elem_of_app in Hin' as [Hin'|Hin']; auto. apply elem_of_list_singleton in Hin'. injection Hin' as -> -> ->. auto. }
          { right. split; auto. exists j0, a0, d0. split; [apply elem_of_app; auto|]. split; auto. split; auto. split; auto.
            intros j' a' d' Hin' Hl. apply elem_of_app in Hin' as [Hin'|Hin']; auto. apply elem_of_list_singleton in Hin'. injection Hin' as -> -> ->. auto. }
      + destruct P as [(Ee & P)|(He & j0 & a0 & d0 & P1 & P2 & P3 & P4 & P)]; [lia|].
        right. split; auto. exists j0, a0, d0. cbn [fst snd]. split; [apply elem_of_app; auto|]. split; auto. split; auto. split; auto.
        intros j' a' d' Hin' Hl. apply elem_of_app in Hin' as [Hin'|Hin']; auto. apply elem_of_list_singleton in Hin'. injection Hin' as -> -> ->. lia.
    - exists ee, pos. split; auto.
  Qed.

  (** ** leaving variable *)
  Definition yv s (i : nat) : nat := idx s (i + s_nn s).
  Definition lsel s (p : bool) (e : nat * Z * Z) : option (bound V) :=
    let '(i, a, d) := e in if Bool.eqb (cpos a d) p then up s (yv s i) else lo s (yv s i).
  Definition lval s (ee : nat) (e : nat * Z * Z) (b : bound V) : V :=
    let '(i, a, d) := e in vadd (val s ee) (vscale (qmk d a) (vsub (b_val b) (val s (yv s i)))).
  Definition dltb (p : bool) (v w : V) : bool := if p then vltb v w else vgtb v w.

  Lemma leave_cell_eq s ee p i a d (st : tableau * option (nat * V * V)) : shape s -> i < s_nb s -> ee < nv s ->
    leave_cell s ee p i a d st = Ok (match lsel s p (i, a, d) with
      | None => st
      | Some b => let v := lval s ee (i, a, d) b in
          if negb (inroom s p ee v) then st
          else if (match st.2 with None => true | Some (ll, v_e, _) => dltb p v v_e || ((yv s i <? ll) && veqb v v_e) end)
               then (st.1, Some (yv s i, v, b_val b)) else st
      end).
  Proof.
    intros Sh Hi He. pose proof (sh_len _ Sh). destruct (idx_basic s i Sh Hi) as (Hy & _ & _).
    assert (Hr : i + s_nn s < nv s) by lia. unfold leave_cell, basic_. rewrite at_vr by auto. cbn [mbind res_bind].
    change (v_index (vr s (i + s_nn s))) with (yv s i) in *. fold (yv s i) in Hy. rewrite at_vr by auto. cbn [mbind res_bind]. rewrite at_vr by auto. cbn [mbind res_bind].
    fold (cpos a d). unfold lsel. unfold up, lo. destruct (Bool.eqb (cpos a d) p);
      [destruct (v_upper (vr s (yv s i))) as [b|]|destruct (v_lower (vr s (yv s i))) as [b|]]; auto;
      cbn zeta; unfold lval; rewrite <- vdivmul; fold (val s ee); fold (val s (yv s i)); unfold inroom, dltb;
      destruct p; destruct (negb _); auto; destruct st as [t [[[ll v_e] w]|]]; cbn [fst snd]; auto; destruct (_ || _); auto.
  Qed.

  Definition leave_inv s ee p (don : list (nat * Z * Z)) (cand : option (nat * V * V)) : Prop :=
    match cand with
    | None => forall e b, e ∈ don -> lsel s p e = Some b -> atbound (lov s) (upv s) p ee (lval s ee e b)
    | Some (ll, v, w) =>
        (exists e b, e ∈ don /\ lsel s p e = Some b /\ ll = yv s e.1.1 /\ v = lval s ee e b /\ w = b_val b /\ room (lov s) (upv s) p ee v) /\
        (forall e b, e ∈ don -> lsel s p e = Some b -> atbound (lov s) (upv s) p ee (lval s ee e b) \/ (dle p v (lval s ee e b) /\ (lval s ee e b = v -> ll <= yv s e.1.1)))
    end.

  Lemma dltb_true (p : bool) (v w : V) : dltb p v w = true -> if p then vlt v w else vlt w v.
  Proof. destruct p; cbn; [apply vltb_lt|apply vgtb_lt]. Qed.
  Lemma dltb_false p (v w : V) : dltb p v w = false -> dle p w v.
  Proof. destruct p; cbn; [apply vltb_false|apply vgtb_false]. Qed.
  Lemma dle_trans p (u v w : V) : dle p u v -> dle p v w -> dle p u w.
  Proof. destruct p; cbn; intros; eapply vle_trans; eauto. Qed.
  Lemma dle_refl p (v : V) : dle p v v.
  Proof. destruct p; cbn; apply vle_refl. Qed.
  Lemma dlt_dle (p : bool) (v w : V) : (if p then vlt v w else vlt w v) -> dle p v w.
  Proof. destruct p; cbn; apply vlt_le. Qed.
  Lemma dlt_not (p : bool) (v w : V) : (if p then vlt v w else vlt w v) -> dle p w v -> False.
  Proof. destruct p; cbn; intros A B; apply (vlt_irrefl v); [eapply vlt_le_trans; eauto|eapply vle_lt_trans; eauto]. Qed.

  Lemma leave_col s ee e p : shape s -> ee < nv s -> e < s_nn s ->
    exists t cand, update_col fst (fun (t : tableau) (st : tableau * option (nat * V * V)) => (t, st.2)) e (leave_cell s ee p) (s_tab s, None) = Ok (t, cand) /\
      tab_wf t /\ t_rows t = t_rows (s_tab s) /\ leave_inv s ee p (col_entries (s_tab s) e) cand.
  Proof.
    intros Sh He Hj.
    destruct (mfold_inv (leave_cell s ee p) (col_entries (s_tab s) e) (s_tab s, None) (fun don st => st.1 = s_tab s /\ leave_inv s ee p don st.2)) as ([t c] & E & Et & P).
    - split; auto. intros e0 b Hin. inversion Hin.
    - intros don i a d rest [t c] El [Et P]. cbn [fst snd] in Et, P. subst t.
      assert (Hin : (i, a, d) ∈ col_entries (s_tab s) e) by (rewrite El; apply elem_of_app; right; apply elem_of_cons; auto).
      destruct (col_entries_facts _ _ _ _ _ Sh Hin) as (Hi & _ & _ & _). rewrite leave_cell_eq by auto. eexists; split; [reflexivity|].
      destruct (lsel s p (i, a, d)) as [b|] eqn:Eb; cbn zeta.
      + set (v := lval s ee (i, a, d) b). destruct (inroom s p ee v) eqn:Er; cbn [negb].
        * apply inroom_true in Er. destruct c as [[[ll v_e] w]|]; cbn [fst snd] in *.
          { destruct P as [P1 P2]. destruct (dltb p v v_e || (yv s i <? ll) && veqb v v_e) eqn:Ebt; cbn [fst snd]; split; auto.
            - split.
              + exists (i, a, d), b. split; [apply elem_of_app; right; apply elem_of_list_singleton; auto|]. auto 10.
              + intros e' b' Hin' Hs'. apply elem_of_app in Hin' as [Hin'|Hin'].
                * destruct (P2 e' b' Hin' Hs') as [|[D1 D2]]; auto. right. apply orb_true_iff in Ebt as [Ed|Ed].
                  { apply dltb_true in Ed. split; [eapply dle_trans; [apply dlt_dle; exact Ed|auto]|]. intros Eq. exfalso. rewrite Eq in D1. eapply dlt_not; eauto. }
                  { apply andb_true_iff in Ed as [Ed1 Ed2]. apply Nat.ltb_lt in Ed1. apply veqb_spec in Ed2. rewrite Ed2. split; auto. intros Eq. specialize (D2 Eq). lia. }
                * apply elem_of_list_singleton in Hin' as ->. rewrite Eb in Hs'. injection Hs' as <-. right. split; [apply dle_refl|]. auto.
            - split.
              + destruct P1 as (e0 & b0 & Q1 & Q2). exists e0, b0. split; [apply elem_of_app; auto|auto].
              + intros e' b' Hin' Hs'. apply elem_of_app in Hin' as [Hin'|Hin']; auto.
                apply elem_of_list_singleton in Hin' as ->. rewrite Eb in Hs'. injection Hs' as <-. right. apply orb_false_iff in Ebt as [Ed1 Ed2].
                split; [apply dltb_false; auto|]. intros Eq. cbn [fst]. apply andb_false_iff in Ed2 as [Ed2|Ed2]; [apply Nat.ltb_ge; auto|]. apply veqb_false in Ed2. contradiction. }
          { split; auto. split.
            - exists (i, a, d), b. split; [apply elem_of_app; right; apply elem_of_list_singleton; auto|]. auto 10.
            - intros e' b' Hin' Hs'. apply elem_of_app in Hin' as [Hin'|Hin']; auto.
              apply elem_of_list_singleton in Hin' as ->. rewrite Eb in Hs'. injection Hs' as <-. right. split; [apply dle_refl|]. auto. }
        * apply inroom_false in Er. cbn [fst snd]. split; auto.
          assert (Hnew : forall e' b', e' ∈ [(i, a, d)] -> lsel s p e' = Some b' -> atbound (lov s) (upv s) p ee (lval s ee e' b')).
          { intros e' b' Hin' Hs'. apply elem_of_list_singleton in Hin' as ->. rewrite Eb in Hs'. injection Hs' as <-. auto. }
          destruct c as [[[ll v_e] w]|]; cbn [leave_inv] in *.
          { destruct P as [(e0 & b0 & Q1 & Q2) P2]. split; [exists e0, b0; split; [apply elem_of_app; auto|auto]|].
            intros e' b' Hin' Hs'. apply elem_of_app in Hin' as [Hin'|Hin']; auto. }
          { intros e' b' Hin' Hs'. apply elem_of_app in Hin' as [Hin'|Hin']; auto. }
      + cbn [fst snd]. split; auto.
        assert (Hnew : forall e' b', e' ∈ [(i, a, d)] -> lsel s p e' = Some b' -> False).
        { intros e' b' Hin' Hs'. apply elem_of_list_singleton in Hin' as ->. congruence. }
        destruct c as [[[ll v_e] w]|]; cbn [leave_inv] in *.
        { destruct P as [(e0 & b0 & Q1 & Q2) P2]. split; [exists e0, b0; split; [apply elem_of_app; auto|auto]|].
          intros e' b' Hin' Hs'. apply elem_of_app in Hin' as [Hin'|Hin']; auto. exfalso; eauto. }
        { intros e' b' Hin' Hs'. apply elem_of_app in Hin' as [Hin'|Hin']; auto. exfalso; eauto. }
    - cbn [fst snd] in Et, P. subst t. rewrite update_col_mfold; [|apply Sh|].
      2:{ intros i a d st1 st2 E1 E2. unfold leave_cell in E2. cbn [fst] in *. 
          repeat match type of E2 with
          | (x ← ?m; _) = _ => let r := fresh "r" in destruct m as [r| | |]; cbn [mbind res_bind] in E2; try discriminate
          | match ?m with Some _ => _ | None => _ end = _ => destruct m
          | (if ?c then _ else _) = _ => destruct c
          end; injection E2 as <-; auto. }
      cbn [fst]. destruct (t_cols (s_tab s) !! e) as [col|] eqn:Ec.
      + rewrite E. cbn [mbind res_bind fst snd]. eexists _, c. split; [reflexivity|]. split; [apply set_col_entries_wf; [apply Sh|eauto]|]. auto.
      + unfold col_entries in E, P. rewrite Ec in E, P. cbn in E. injection E as <-. exists (s_tab s), None. split; auto. split; [apply Sh|]. split; auto.
        unfold col_entries. rewrite Ec. auto.
  Qed.
End optselect.
