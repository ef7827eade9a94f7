(** * Bound propagation derives everything a row implies *)
From stdpp Require Import list_numbers.
From Verif Require Import Num Sums Tableau TableauProofs Bland Solver SolverBase SolverStep Simplex SimplexLoop Hist Updates Core CoreSolve Propagate Weak WeakHist Prepare Propagator Queue.

Section complete.
  Context {V : Type} `{VL : ValueLaws V}.
  Implicit Types s : solver V.
  Implicit Types x y : nat.
  Implicit Types b : bound V.

  (** ** Specification *)
  (** the equation of row [i]: its basic variable is the weighted sum of the
      non-basic variables *)
  Definition row_holds s i (a : nat -> V) : Prop :=
    a (idx s (i + s_nn s)) = vsum (s_nn s) (fun j => vscale (tget (s_tab s) i j) (a (idx s j))).
  Definition in_row s i x : Prop := exists j, j < s_nn s /\ tget (s_tab s) i j <> 0%Qc /\ x = idx s j.
  (** [v] lies between the bounds currently asserted on [x] *)
  Definition inside s x (v : V) : Prop :=
    (forall b, lo s x = Some b -> vle (b_val b) v) /\ (forall b, up s x = Some b -> vle v (b_val b)).
  (** the row and the current bounds of its non-basic variables exclude the
      bound [b] *)
  Definition ruled_out s i b : Prop :=
    forall a, row_holds s i a -> (forall x, in_row s i x -> inside s x (a x)) -> ~ bsat a b.
  Definition consistent_row s i : Prop := forall x l u, in_row s i x -> lo s x = Some l -> up s x = Some u -> vle (b_val l) (b_val u).
  (** [l] is the literal of a bound in force on a non-basic variable of the row *)
  Definition explains s i (k : Z) : Prop := exists x b, in_row s i x /\ (lo s x = Some b \/ up s x = Some b) /\ b_lit b = k.
  (** between [log] and [log'] clingo either says that the literal is false
      or is given a clause that makes it false *)
  Definition handled (h : host) s i (log log' : list (list Z)) (k : Z) : Prop :=
    exists l0, log `prefix_of` l0 /\
      (l0 `prefix_of` log' /\ h_false h l0 k = true \/
       exists ls, l0 ++ [map Z.opp ls ++ [(- k)%Z]] `prefix_of` log' /\ forall r, r ∈ ls -> explains s i r).

  (** ** Values a sum can take *)
  Definition olow (p : option V) (t : V) : Prop := forall v, p = Some v -> vle v t.
  Definition ohigh (p : option V) (t : V) : Prop := forall v, p = Some v -> vle t v.
  Definition ole (p q : option V) : Prop := forall v w, p = Some v -> q = Some w -> vle v w.
  Lemma pick (p1 p2 q1 q2 : option V) : ole p1 q1 -> ole p1 q2 -> ole p2 q1 -> ole p2 q2 ->
    exists t, olow p1 t /\ olow p2 t /\ ohigh q1 t /\ ohigh q2 t.
  Proof.
    unfold ole, olow, ohigh. intros A B C D.
    assert (Hcase : forall (P : V -> Prop), (exists t, P t) -> exists t, P t) by auto.
    destruct p1 as [p1|], p2 as [p2|].
    - destruct (vle_total p1 p2) as [E|E].
      + exists p2. split; [intros v [= <-]; auto|]. split; [intros v [= <-]; apply vle_refl|]. split; intros v Hv; auto.
      + apply vlt_le in E. exists p1. split; [intros v [= <-]; apply vle_refl|]. split; [intros v [= <-]; auto|]. split; intros v Hv; auto.
    - exists p1. split; [intros v [= <-]; apply vle_refl|]. split; [intros v [=]|]. split; intros v Hv; auto.
    - exists p2. split; [intros v [=]|]. split; [intros v [= <-]; apply vle_refl|]. split; intros v Hv; auto.
    - destruct q1 as [q1|], q2 as [q2|].
      + destruct (vle_total q1 q2) as [E|E].
        * exists q1. do 2 (split; [intros v [=]|]). split; intros v [= <-]; auto. apply vle_refl.
        * apply vlt_le in E. exists q2. do 2 (split; [intros v [=]|]). split; intros v [= <-]; auto. apply vle_refl.
      + exists q1. do 2 (split; [intros v [=]|]). split; intros v [=]; subst; apply vle_refl.
      + exists q2. do 2 (split; [intros v [=]|]). split; intros v [=]; subst; apply vle_refl.
      + exists vzero. repeat split; intros v [=].
  Qed.

  (** the extreme value of one entry and of a list of entries *)
  Definition ext1 s (m : bool) (e : nat * Z * Z) : option V :=
    match psel s m e with Some b => Some (vscale (qmk e.1.2 e.2) (b_val b)) | None => None end.
  Fixpoint ext s (m : bool) (l : list (nat * Z * Z)) : option V :=
    match l with
    | [] => Some vzero
    | e :: r => match ext1 s m e, ext s m r with Some v, Some w => Some (vadd v w) | _, _ => None end
    end.
  Definition proper (l : list (nat * Z * Z)) : Prop := forall j a d, (j, a, d) ∈ l -> a <> 0%Z /\ d <> 0%Z.

  Lemma inside_ext1 s j a d (t : V) : a <> 0%Z -> d <> 0%Z ->
    olow (ext1 s true (j, a, d)) t -> ohigh (ext1 s false (j, a, d)) t -> inside s (idx s j) (vscale (/ qmk a d) t).
  Proof.
    intros Ha Hd Hl Hu. pose proof (cpos_spec a d Ha Hd) as Hc. pose proof (qmk_nz a d Ha Hd) as Hq. unfold ext1, psel in Hl, Hu. cbn [fst snd] in Hl, Hu.
    assert (Et : vscale (qmk a d) (vscale (/ qmk a d) t) = t).
    { rewrite vscale_scale. replace (qmk a d * / qmk a d)%Qc with 1%Qc by (field; auto). apply vscale_1. }
    split; intros b Eb; destruct (cpos a d); cbn [Bool.eqb] in Hl, Hu; rewrite Eb in *.
    - apply (vscale_le_iff (qmk a d)); auto. rewrite Et. apply Hl; auto.
    - apply (vscale_le_iff_neg (qmk a d)); auto. rewrite Et. apply Hu; auto.
    - apply (vscale_le_iff (qmk a d)); auto. rewrite Et. apply Hu; auto.
    - apply (vscale_le_iff_neg (qmk a d)); auto. rewrite Et. apply Hl; auto.
  Qed.
  Definition consistent_l s (l : list (nat * Z * Z)) : Prop :=
    forall j a d bl bu, (j, a, d) ∈ l -> lo s (idx s j) = Some bl -> up s (idx s j) = Some bu -> vle (b_val bl) (b_val bu).
  Lemma ext1_ole s j a d : a <> 0%Z -> d <> 0%Z ->
    (forall bl bu, lo s (idx s j) = Some bl -> up s (idx s j) = Some bu -> vle (b_val bl) (b_val bu)) ->
    ole (ext1 s true (j, a, d)) (ext1 s false (j, a, d)).
  Proof.
    intros Ha Hd Hcn v w. pose proof (cpos_spec a d Ha Hd) as Hc. unfold ext1, psel. cbn [fst snd].
    destruct (lo s (idx s j)) as [bl|], (up s (idx s j)) as [bu|]; destruct (cpos a d); cbn [Bool.eqb]; try discriminate; intros [= <-] [= <-].
    - apply (proj1 (vscale_le_iff _ _ _ Hc)); auto.
    - apply (proj1 (vscale_le_iff_neg _ _ _ Hc)); auto.
  Qed.
  Lemma ext_ole s l : proper l -> consistent_l s l -> ole (ext s true l) (ext s false l).
  Proof.
    induction l as [|[[j a] d] l IH]; intros Hp Hc v w; cbn [ext]; [intros [= <-] [= <-]; apply vle_refl|].
    destruct (Hp j a d) as [Ha Hd]; [left|].
    pose proof (ext1_ole s j a d Ha Hd (fun bl bu => Hc j a d bl bu ltac:(left))) as H1.
    assert (H2 := IH (fun j' a' d' Hi => Hp j' a' d' ltac:(right; exact Hi)) (fun j' a' d' bl bu Hi => Hc j' a' d' bl bu ltac:(right; exact Hi))).
    destruct (ext1 s true (j, a, d)) as [v1|], (ext s true l) as [v2|]; try discriminate. intros [= <-].
    destruct (ext1 s false (j, a, d)) as [w1|], (ext s false l) as [w2|]; try discriminate. intros [= <-]. apply vadd_le_mono; auto.
  Qed.
  (** every value between the extremes is taken *)
  Lemma attain s l : proper l -> consistent_l s l -> NoDup (map (fun e : nat * Z * Z => e.1.1) l) -> forall t, olow (ext s true l) t -> ohigh (ext s false l) t ->
    exists c : nat -> V, lsum (fun e : nat * Z * Z => vscale (qmk e.1.2 e.2) (c e.1.1)) l = t /\ forall j a d, (j, a, d) ∈ l -> inside s (idx s j) (c j).
  Proof.
    induction l as [|[[j a] d] l IH]; intros Hp Hc Hn t Hl Hh.
    - exists (fun _ => vzero). split; [|intros j a d Hi; inversion Hi]. cbn [lsum]. apply vle_antisym; [apply Hl|apply Hh]; reflexivity.
    - cbn [map fst] in Hn. apply NoDup_cons in Hn as [Hn1 Hn2]. destruct (Hp j a d) as [Ha Hd]; [left|].
      assert (Hp' : proper l) by (intros j' a' d' Hi; apply (Hp j' a' d'); right; exact Hi).
      assert (Hc' : consistent_l s l) by (intros j' a' d' bl bu Hi; apply (Hc j' a' d' bl bu); right; exact Hi).
      pose proof (ext1_ole s j a d Ha Hd (fun bl bu => Hc j a d bl bu ltac:(left))) as H1. pose proof (ext_ole s l Hp' Hc') as H2.
      cbn [ext] in Hl, Hh.
      assert (Hsub : forall x y z : V, vle (vadd x y) z -> vle x (vsub z y)).
      { intros x y z Hx. apply vle_sub in Hx. apply vle_sub. replace (vsub (vsub z y) x) with (vsub z (vadd x y)) by vring. exact Hx. }
      assert (Hsub' : forall x y z : V, vle z (vadd x y) -> vle (vsub z y) x).
      { intros x y z Hx. apply vle_sub in Hx. apply vle_sub. replace (vsub x (vsub z y)) with (vsub (vadd x y) z) by vring. exact Hx. }
      assert (Hsw : forall x y z : V, vle x (vsub z y) -> vle y (vsub z x)).
      { intros x y z Hx. apply vle_sub in Hx. apply vle_sub. replace (vsub (vsub z x) y) with (vsub (vsub z y) x) by vring. exact Hx. }
      assert (Hsw' : forall x y z : V, vle (vsub z y) x -> vle (vsub z x) y).
      { intros x y z Hx. apply vle_sub in Hx. apply vle_sub. replace (vsub y (vsub z x)) with (vsub x (vsub z y)) by vring. exact Hx. }
      destruct (pick (ext1 s true (j, a, d)) (match ext s false l with Some w => Some (vsub t w) | None => None end)
                     (ext1 s false (j, a, d)) (match ext s true l with Some w => Some (vsub t w) | None => None end)) as (te & P1 & P2 & P3 & P4).
      + exact H1.
      + intros v w Ev. rewrite Ev in Hl. destruct (ext s true l) as [w2|]; [|discriminate]. intros [= <-]. apply Hsub, Hl; reflexivity.
      + intros v w Ev Ew. rewrite Ew in Hh. destruct (ext s false l) as [w2|]; [|discriminate]. injection Ev as <-. apply Hsub', Hh; reflexivity.
      + intros v w. destruct (ext s false l) as [w1|]; [|discriminate]. destruct (ext s true l) as [w2|]; [|discriminate]. intros [= <-] [= <-].
        pose proof (H2 _ _ eq_refl eq_refl) as H3. apply vle_sub in H3. apply vle_sub. replace (vsub (vsub t w2) (vsub t w1)) with (vsub w1 w2) by vring. exact H3.
      + destruct (IH Hp' Hc' Hn2 (vsub t te)) as (c & Ec & Hin).
        * intros v Ev. rewrite Ev in P4. apply Hsw. apply P4; reflexivity.
        * intros v Ev. rewrite Ev in P2. apply Hsw'. apply P2; reflexivity.
        * exists (fun k => if k =? j then vscale (/ qmk a d) te else c k).
          assert (Hne : forall j' a' d', (j', a', d') ∈ l -> (j' =? j) = false).
          { intros j' a' d' Hi. apply Nat.eqb_neq. intros ->. apply Hn1. apply elem_of_list_In, in_map_iff. exists (j, a', d'). split; [reflexivity|]. apply elem_of_list_In; exact Hi. }
          split.
          -- cbn [lsum fst snd]. rewrite Nat.eqb_refl, vscale_scale. pose proof (qmk_nz a d Ha Hd) as Hq.
             replace (qmk a d * / qmk a d)%Qc with 1%Qc by (field; auto). rewrite vscale_1.
             rewrite (lsum_ext _ (fun e : nat * Z * Z => vscale (qmk e.1.2 e.2) (c e.1.1))), Ec; [vring|].
             intros [[j' a'] d'] Hi. cbn [fst snd]. rewrite (Hne j' a' d' Hi). reflexivity.
          -- intros j' a' d' Hi. apply elem_of_cons in Hi as [E|Hi].
             ++ injection E as -> -> ->. rewrite Nat.eqb_refl. apply inside_ext1; auto.
             ++ rewrite (Hne j' a' d' Hi). eapply Hin; eauto.
  Qed.

  (** ** The two passes over a row *)
  Definition some_b {A} (p : option A) : bool := match p with Some _ => true | None => false end.
  Lemma ext1_some s m e : some_b (ext1 s m e) = some_b (psel s m e).
  Proof. unfold ext1. destruct (psel s m e); reflexivity. Qed.
  Lemma ext_some s m e l : some_b (ext s m (e :: l)) = some_b (psel s m e) && some_b (ext s m l).
  Proof. cbn [ext]. rewrite <- ext1_some. destruct (ext1 s m e), (ext s m l); reflexivity. Qed.
  Lemma first_pass s l (fl fu : bool) : (forall j a d, (j, a, d) ∈ l -> j < nv s /\ idx s j < nv s) ->
    mfold (prop_cell1 s) l (fl, fu) = Ok (fl && some_b (ext s true l), fu && some_b (ext s false l)).
  Proof.
    revert fl fu. induction l as [|[[j a] d] l IH]; intros fl fu Hl; [cbn; rewrite !andb_true_r; reflexivity|].
    destruct (Hl j a d) as [H1 H2]; [left|]. cbn [mfold]. rewrite prop_cell1_eq by auto. cbn [mbind res_bind].
    rewrite IH by (intros j' a' d' Hi; apply (Hl j' a' d'); right; exact Hi). rewrite !ext_some.
    destruct (psel s true (j, a, d)), (psel s false (j, a, d)); cbn [some_b andb]; rewrite ?andb_false_r; reflexivity.
  Qed.
  Definition pstep s (m : bool) (l : list (nat * Z * Z)) (st : option V * list Z) : option V * list Z :=
    fold_left (fun st (e : nat * Z * Z) => prop_add (psel s m e) e.1.2 e.2 st) l st.
  Lemma second_pass s l st : (forall j a d, (j, a, d) ∈ l -> j < nv s /\ idx s j < nv s) ->
    mfold (prop_cell2 s) l st = Ok (pstep s true l st.1, pstep s false l st.2).
  Proof.
    revert st. induction l as [|[[j a] d] l IH]; intros st Hl; [destruct st; reflexivity|].
    destruct (Hl j a d) as [H1 H2]; [left|]. cbn [mfold]. rewrite prop_cell2_eq by auto. cbn [mbind res_bind].
    rewrite IH by (intros j' a' d' Hi; apply (Hl j' a' d'); right; exact Hi). reflexivity.
  Qed.
  Lemma pstep_none s m l cl : pstep s m l (None, cl) = (None, cl).
  Proof. induction l as [|e l IH]; [reflexivity|]. exact IH. Qed.
  Lemma pstep_some s m l : proper l -> forall w v cl, ext s m l = Some w -> exists bs, pstep s m l (Some v, cl) = (Some (vadd v w), cl ++ map (fun b => (- b_lit b)%Z) bs) /\
    forall b, b ∈ bs -> exists e, e ∈ l /\ psel s m e = Some b.
  Proof.
    induction l as [|[[j a] d] l IH]; intros Hp w v cl Ew; cbn [ext] in Ew.
    - injection Ew as <-. exists []. cbn. rewrite app_nil_r. split; [f_equal; f_equal; vring|]. intros b Hb; inversion Hb.
    - unfold ext1 in Ew. destruct (psel s m (j, a, d)) as [b|] eqn:Eb; [|discriminate]. destruct (ext s m l) as [w2|] eqn:E2; [|discriminate]. injection Ew as <-.
      destruct (Hp j a d) as [Ha Hd]; [left|].
      destruct (IH (fun j' a' d' Hi => Hp j' a' d' ltac:(right; exact Hi)) w2 (vadd v (vdivz (vmulz (b_val b) a) d)) (cl ++ [(- b_lit b)%Z]) eq_refl) as (bs & E & Hb).
      exists (b :: bs). split.
      + unfold pstep in *. cbn [fold_left fst snd]. rewrite Eb. cbn [prop_add fst snd]. rewrite E. rewrite vmuldiv by auto. cbn [map fst snd]. rewrite <- app_assoc. f_equal. f_equal. vring.
      + intros c Hc. apply elem_of_cons in Hc as [->|Hc]; [exists (j, a, d); split; [left|exact Eb]|]. destruct (Hb c Hc) as (e & He & Ee). exists e. split; [right; exact He|exact Ee].
  Qed.

  Lemma prop_bounds_all h (test : bound V -> bool) cl bs s log s' log' :
    prop_bounds h test cl bs s log = (s', log', true) -> log `prefix_of` log' /\ forall b, b ∈ bs -> test b = true ->
      exists l0, log `prefix_of` l0 /\ (l0 `prefix_of` log' /\ h_false h l0 (b_lit b) = true \/ l0 ++ [cl ++ [(- b_lit b)%Z]] `prefix_of` log').
  Proof.
    revert s log. induction bs as [|b bs IH]; intros s log; cbn [prop_bounds].
    - intros [= _ <-]. split; [reflexivity|]. intros b Hb; inversion Hb.
    - destruct (test b) eqn:Et; cbn [andb].
      + destruct (h_false h log (b_lit b)) eqn:Ef; cbn [negb].
        * intros E. destruct (IH _ _ E) as [P A]. split; [exact P|]. intros c Hc Htc. apply elem_of_cons in Hc as [->|Hc]; [|apply A; auto].
          exists log. split; [reflexivity|]. left. split; [exact P|exact Ef].
        * destruct (h_reply _ _); [|discriminate]. intros E. destruct (IH _ _ E) as [P A].
          assert (P0 : log `prefix_of` log') by (etransitivity; [|exact P]; apply prefix_app_r; reflexivity).
          split; [exact P0|]. intros c Hc Htc. apply elem_of_cons in Hc as [->|Hc].
          -- exists log. split; [reflexivity|]. right. exact P.
          -- destruct (A c Hc Htc) as (l0 & Pl & R). exists l0. split; [|exact R]. etransitivity; [|exact Pl]. apply prefix_app_r; reflexivity.
      + intros E. destruct (IH _ _ E) as [P A]. split; [exact P|]. intros c Hc Htc. apply elem_of_cons in Hc as [->|Hc]; [congruence|]. apply A; auto.
  Qed.

  (** ** One row *)
  Lemma row_holds_lsum s i a : shape s -> row_holds s i a <-> a (idx s (i + s_nn s)) = lsum (fun e : nat * Z * Z => vscale (qmk e.1.2 e.2) (a (idx s e.1.1))) (row_entries (s_tab s) i).
  Proof.
    intros Sh. unfold row_holds. rewrite (lsum_vsum (fun e : nat * Z * Z => e.1.1) _ (fun j => vscale (tget (s_tab s) i j) (a (idx s j))) _ (s_nn s)); [reflexivity|..].
    - apply ssorted_nodup, row_entries_sorted, Sh.
    - intros [[j v] d] Hi. destruct (row_entries_facts _ _ _ _ _ Sh Hi) as (_ & Hj & Eg & _). cbn [fst snd]. rewrite Eg. auto.
    - intros j Hj Hne. destruct (decide (tget (s_tab s) i j = 0%Qc)) as [E|E]; [rewrite E, vscale_0 in Hne; congruence|].
      destruct (row_entries_nz s i j Sh E) as (v & d & Hi). exists (j, v, d). auto.
  Qed.

  Definition keeps s s' : Prop := s_tab s' = s_tab s /\ s_nn s' = s_nn s /\ s_nb s' = s_nb s /\ (forall y, idx s' y = idx s y) /\ (forall y, lo s' y = lo s y) /\ (forall y, up s' y = up s y).
  Lemma ponly_keeps s s' : ponly s s' -> keeps s s'.
  Proof. intros (A1 & A2 & _ & _ & _ & _ & A7 & A8 & _). split; [exact A2|]. split; [apply (stat_nn _ _ A1)|]. split; [apply (stat_nb _ _ A1)|]. split; [intros y; apply A7|]. split; intros y; apply A8. Qed.
  Lemma keeps_sym s s' : keeps s s' -> keeps s' s.
  Proof. intros (A & B & C & D & E & F). repeat split; auto. Qed.
  Lemma in_row_keeps s s' i x : keeps s s' -> in_row s i x -> in_row s' i x.
  Proof. intros (A & B & C & D & E & F) (j & Hj & Hn & ->). exists j. rewrite A, B, D. auto. Qed.
  Lemma ruled_keeps s s' i b : keeps s s' -> ruled_out s i b -> ruled_out s' i b.
  Proof.
    intros K Hr a Ha Hi. apply Hr.
    - destruct K as (A & B & C & D & E & F). unfold row_holds in *. rewrite A, B, D in Ha. rewrite Ha. apply vsum_ext. intros j _. rewrite D. reflexivity.
    - intros x Hx. specialize (Hi x (in_row_keeps _ _ _ _ K Hx)). destruct K as (A & B & C & D & E & F). unfold inside in *. rewrite E, F in Hi. exact Hi.
  Qed.
  Lemma consistent_keeps s s' i : keeps s s' -> consistent_row s i -> consistent_row s' i.
  Proof. intros K Hc x l u Hx. pose proof (in_row_keeps _ _ _ _ (keeps_sym _ _ K) Hx). destruct K as (A & B & C & D & E & F). rewrite E, F. apply Hc; auto. Qed.
  Lemma handled_keeps h s s' i log log' k : keeps s s' -> handled h s i log log' k -> handled h s' i log log' k.
  Proof.
    intros K (l0 & P & [R|(ls & R & Hl)]); exists l0; (split; [exact P|]); [left; exact R|right]. exists ls. split; [exact R|]. intros r Hr.
    destruct (Hl r Hr) as (x & b & Hx & Hb & E). exists x, b. split; [apply (in_row_keeps _ _ _ _ K Hx)|]. destruct K as (_ & _ & _ & _ & E1 & E2). rewrite E1, E2. auto.
  Qed.
  Lemma handled_mono h s i log1 log2 log3 log4 k : log1 `prefix_of` log2 -> log3 `prefix_of` log4 -> handled h s i log2 log3 k -> handled h s i log1 log4 k.
  Proof.
    intros P Q (l0 & P0 & R). exists l0. split; [etransitivity; eassumption|]. destruct R as [[R1 R2]|(ls & R & Hl)].
    - left. split; [etransitivity; eassumption|exact R2].
    - right. exists ls. split; [etransitivity; eassumption|exact Hl].
  Qed.
  Lemma entries_in_row s i j a d : shape s -> (j, a, d) ∈ row_entries (s_tab s) i -> in_row s i (idx s j).
  Proof. intros Sh Hi. destruct (row_entries_facts _ _ _ _ _ Sh Hi) as (_ & Hj & Eg & Ha & Hd). exists j. split; [exact Hj|]. split; [rewrite Eg; apply qmk_nz; auto|reflexivity]. Qed.
  Lemma entries_proper s i : shape s -> proper (row_entries (s_tab s) i).
  Proof. intros Sh j a d Hi. destruct (row_entries_facts _ _ _ _ _ Sh Hi) as (_ & _ & _ & Ha & Hd). auto. Qed.

  Lemma ruled_tests s i b : shape s -> i < s_nb s -> consistent_row s i -> b_var b = idx s (i + s_nn s) -> ruled_out s i b ->
    (exists w, ext s false (row_entries (s_tab s) i) = Some w /\ b_rel b <> BLe /\ vlt w (b_val b)) \/
    (exists w, ext s true (row_entries (s_tab s) i) = Some w /\ b_rel b <> BGe /\ vlt (b_val b) w).
  Proof.
    intros Sh Hi Hc Hb Hr. set (l := row_entries (s_tab s) i). pose proof (entries_proper s i Sh) as Hp. fold l in Hp.
    assert (Hcl : consistent_l s l) by (intros j a d bl bu Hin; apply Hc; eapply entries_in_row; eauto).
    pose proof (ext_ole s l Hp Hcl) as HLU.
    destruct (ext s false l) as [U|] eqn:EU.
    1: destruct (vle_total (b_val b) U) as [HU|HU]; [|destruct (b_rel b) eqn:Er; [|left; exists U; split; [reflexivity|split; [discriminate|exact HU]]..]].
    all: destruct (ext s true l) as [L|] eqn:EL.
    all: try (destruct (vle_total L (b_val b)) as [HL|HL]; [|destruct (b_rel b) eqn:Er'; try discriminate;
      try (right; exists L; split; [reflexivity|split; [discriminate|exact HL]]; fail)]).
    all: exfalso; set (pl := match b_rel b with BLe => None | _ => Some (b_val b) end); set (ph := match b_rel b with BGe => None | _ => Some (b_val b) end).
    all: match type of EU with _ = ?u => match type of EL with _ = ?lw =>
        destruct (pick lw pl u ph) as (t & T1 & T2 & T3 & T4);
          [exact HLU|unfold ph|unfold pl|unfold pl, ph|] end end.
    all: try (intros v w; destruct (b_rel b); try discriminate; intros [= <-] [= <-]; auto using vle_refl; fail).
    all: try (rewrite ?Er, ?Er'; intros v w; try discriminate; intros [= <-] [= <-]; auto using vle_refl; fail).
    all: (destruct (attain s l Hp Hcl (ssorted_nodup _ (row_entries_sorted (s_tab s) i (sh_tab _ Sh))) t) as (c & Ec & Hin); [rewrite EL; exact T1|rewrite EU; exact T3|]).
    all: (apply (Hr (fun x => if x =? idx s (i + s_nn s) then t else c (ridx s x)));
      [apply row_holds_lsum; [exact Sh|]; rewrite Nat.eqb_refl, <- Ec; apply lsum_ext; intros [[j a] d] Hj; cbn [fst snd];
       destruct (row_entries_facts _ _ _ _ _ Sh Hj) as (_ & Hjn & _); destruct (idx_nonbasic s j Sh Hjn) as (_ & Bx & Rx); destruct (idx_basic s i Sh Hi) as (_ & By & _);
       destruct (Nat.eqb_spec (idx s j) (idx s (i + s_nn s))) as [E|_]; [congruence|rewrite Rx; reflexivity]
      |intros x (j & Hj & Hnz & ->); destruct (row_entries_nz s i j Sh Hnz) as (a & d & Hja);
       destruct (idx_nonbasic s j Sh Hj) as (_ & Bx & Rx); destruct (idx_basic s i Sh Hi) as (_ & By & _);
       destruct (Nat.eqb_spec (idx s j) (idx s (i + s_nn s))) as [E|_]; [congruence|rewrite Rx; apply (Hin j a d Hja)]
      |unfold bsat; rewrite Hb, Nat.eqb_refl; unfold pl in T2; unfold ph in T4; destruct (b_rel b); auto; apply vle_antisym; auto]).
  Qed.

  Lemma prop_row_complete h i s log s' log' : shape s -> i < s_nb s -> prop_row h i s log = Ok (s', log', true) ->
    log `prefix_of` log' /\ (consistent_row s i -> forall b, b ∈ v_bounds (vr s (idx s (i + s_nn s))) -> ruled_out s i b -> handled h s i log log' (b_lit b)).
  Proof.
    intros Sh Hi E. unfold prop_row in E. pose proof (sh_len _ Sh) as Hlen. assert (Hiv : i < nv s) by lia.
    rewrite at_vr in E by auto. cbn [mbind res_bind] in E. set (s1 := upd_var i (vset_prop false) s) in *.
    assert (V1 : forall y, vr s1 y = if y =? i then vset_prop false (vr s i) else vr s y) by (intros y; unfold s1; rewrite vr_upd by exact Hiv; reflexivity).
    assert (P1 : ponly s s1).
    { split; [unfold s1; rewrite stat_upd; reflexivity|]. repeat (split; [reflexivity|]).
      split; [intros y; unfold idx, ridx; rewrite V1; destruct (Nat.eqb_spec y i); subst; auto|].
      split; [intros y; unfold lo, up; rewrite V1; destruct (Nat.eqb_spec y i); subst; auto|].
      split; [intros y; unfold val, lvl; rewrite V1; destruct (Nat.eqb_spec y i); subst; auto|].
      intros y; unfold qd; rewrite V1; destruct (Nat.eqb_spec y i); subst; auto. }
    assert (Sh1 : shape s1) by (eapply ponly_shape; eauto). assert (Hi1 : i < s_nb s1) by auto. pose proof (ponly_keeps _ _ P1) as K1.
    assert (Vb : forall y, v_bounds (vr s1 y) = v_bounds (vr s y)) by (intros y; rewrite V1; destruct (Nat.eqb_spec y i); subst; auto).
    rewrite update_row_mfold in E. rewrite (first_pass s1) in E by (intros j a d Hj; apply (row_lt s1 i j a d Sh1 Hj)). cbn [mbind res_bind andb] in E.
    set (l := row_entries (s_tab s1) i) in *. rewrite update_row_mfold in E. fold l in E.
    assert (Hgoal : log `prefix_of` log' /\ (consistent_row s1 i -> forall b, b ∈ v_bounds (vr s1 (idx s1 (i + s_nn s1))) -> ruled_out s1 i b -> handled h s1 i log log' (b_lit b))).
    2:{ destruct Hgoal as [G1 G2]. split; [exact G1|]. intros Hc b Hb Hr. apply (handled_keeps h s1 s); [apply keeps_sym, K1|]. apply G2.
        - eapply consistent_keeps; eauto.
        - destruct K1 as (_ & K2 & _ & K3 & _). rewrite Vb, K3, K2. exact Hb.
        - eapply ruled_keeps; eauto. }
    pose proof (entries_proper s1 i Sh1) as Hp. fold l in Hp.
    assert (Hreason : forall m e b, e ∈ l -> psel s1 m e = Some b -> explains s1 i (b_lit b)).
    { intros m [[j a] d] b He Eb. exists (idx s1 j), b. split; [eapply entries_in_row; eauto|]. split; [|reflexivity]. unfold psel in Eb. destruct (Bool.eqb _ _); auto. }
    destruct (negb (some_b (ext s1 false l)) && negb (some_b (ext s1 true l))) eqn:En.
    { injection E as <- <-. split; [reflexivity|]. intros Hc b Hb Hr. exfalso. destruct (sh_vb _ Sh1 _ _ Hb) as [_ Hbv].
      destruct (ruled_tests s1 i b Sh1 Hi1 Hc Hbv Hr) as [(w & Ew & _)|(w & Ew & _)]; fold l in Ew; rewrite Ew in En; cbn in En; rewrite ?andb_false_r in En; discriminate. }
    rewrite second_pass in E by (intros j a d Hj; apply (row_lt s1 i j a d Sh1 Hj)). cbn [mbind res_bind fst snd] in E.
    assert (Hr : i + s_nn s1 < nv s1). { pose proof (sh_len _ Sh1). lia. } destruct (idx_basic s1 i Sh1 Hi1) as (Hx & Bx & _).
    unfold basic_ in E. rewrite at_vr in E by auto. cbn [mbind res_bind] in E. change (v_index (vr s1 (i + s_nn s1))) with (idx s1 (i + s_nn s1)) in E.
    rewrite at_vr in E by auto. cbn [mbind res_bind] in E. set (bs := v_bounds (vr s1 (idx s1 (i + s_nn s1)))) in *.
    (* upper *)
    match type of E with (let '(_, _) := ?m in _) = _ => destruct m as [[s2 log2] ok2] eqn:E2 end.
    assert (HU : ok2 = true -> log `prefix_of` log2 /\ forall w, ext s1 false l = Some w -> forall b, b ∈ bs -> b_rel b <> BLe -> vlt w (b_val b) -> handled h s1 i log log2 (b_lit b)).
    { intros ->. destruct (ext s1 false l) as [w|] eqn:Ew; cbn [some_b] in E2.
      - destruct (pstep_some s1 false l Hp w vzero [] Ew) as (bsu & Es & Hbu). rewrite Es in E2. cbn [fst snd] in E2.
        apply prop_bounds_all in E2 as [Q A]. split; [exact Q|]. intros w' [= <-] b Hb Hrel Hlt. destruct (A b Hb) as (l0 & Pl & R).
        { destruct (b_rel b); [congruence|..]; apply vgtb_lt; replace (vadd vzero w) with w by vring; exact Hlt. }
        exists l0. split; [exact Pl|]. destruct R as [R|R]; [left; exact R|right]. exists (map b_lit bsu). cbn [app] in R. rewrite map_map. split; [exact R|].
        intros r Hr'. apply elem_of_list_fmap in Hr' as (c & -> & Hc). destruct (Hbu c Hc) as (e & He & Ee). eapply Hreason; eauto.
      - rewrite pstep_none in E2. cbn [fst] in E2. injection E2 as <- <-. split; [reflexivity|]. intros w; discriminate. }
    destruct ok2; cbn [negb] in E; [|discriminate]. destruct (HU eq_refl) as [Q2 HU']. clear HU.
    assert (HLow : log2 `prefix_of` log' /\ forall w, ext s1 true l = Some w -> forall b, b ∈ bs -> b_rel b <> BGe -> vlt (b_val b) w -> handled h s1 i log2 log' (b_lit b)).
    { destruct (ext s1 true l) as [w|] eqn:Ew; cbn [some_b] in E.
      - destruct (pstep_some s1 true l Hp w vzero [] Ew) as (bsu & Es & Hbu). rewrite Es in E. cbn [fst snd] in E. injection E as E.
        apply prop_bounds_all in E as [Q A]. split; [exact Q|]. intros w' [= <-] b Hb Hrel Hlt. destruct (A b Hb) as (l0 & Pl & R).
        { destruct (b_rel b); [|congruence|]; apply vltb_lt; replace (vadd vzero w) with w by vring; exact Hlt. }
        exists l0. split; [exact Pl|]. destruct R as [R|R]; [left; exact R|right]. exists (map b_lit bsu). cbn [app] in R. rewrite map_map. split; [exact R|].
        intros r Hr'. apply elem_of_list_fmap in Hr' as (c & -> & Hc). destruct (Hbu c Hc) as (e & He & Ee). eapply Hreason; eauto.
      - rewrite pstep_none in E. cbn [fst] in E. injection E as <- <-. split; [reflexivity|]. intros w; discriminate. }
    destruct HLow as [Q3 HL']. split; [etransitivity; eassumption|]. intros Hc b Hb Hru. destruct (sh_vb _ Sh1 _ _ Hb) as [_ Hbv].
    destruct (ruled_tests s1 i b Sh1 Hi1 Hc Hbv Hru) as [(w & Ew & Hrel & Hlt)|(w & Ew & Hrel & Hlt)].
    - eapply (handled_mono _ _ _ log log log2 log'); [reflexivity|exact Q3|]. eapply HU'; eauto.
    - eapply (handled_mono _ _ _ log log2 log' log'); [exact Q2|reflexivity|]. eapply HL'; eauto.
  Qed.

  (** ** Several rows *)
  Lemma prop_rows_complete h (changed : bool) is s log s' log' : shape s -> (forall i, i ∈ is -> i < s_nb s) -> (changed = true -> s_pq s = is) ->
    prop_rows h changed is s log = Ok (s', log', true) ->
    keeps s s' /\ log `prefix_of` log' /\
    forall i, i ∈ is -> consistent_row s i -> forall b, b ∈ v_bounds (vr s (idx s (i + s_nn s))) -> ruled_out s i b -> handled h s i log log' (b_lit b).
  Proof.
    revert s log. induction is as [|i is IH]; intros s log Sh Hi Hq E; cbn [prop_rows] in E.
    - injection E as <- <-. split; [apply (ponly_keeps _ _ (ponly_refl s))|]. split; [reflexivity|]. intros i Hin; inversion Hin.
    - apply bind_ok in E as ([[s2 log2] ok] & E2 & E). set (s1 := if changed then set_pq is s else s) in *.
      assert (P1 : ponly s s1) by (unfold s1; destruct changed; repeat split).
      assert (Q1 : forall k, k ∈ s_pq s1 -> k ∈ s_pq s). { unfold s1. destruct changed; auto. cbn. rewrite Hq by auto. intros k Hk. apply elem_of_cons; auto. }
      assert (Sh1 : shape s1) by (eapply ponly_shape; eauto). pose proof P1 as (A1 & _).
      assert (Hi1 : i < s_nb s1) by (rewrite (stat_nb _ _ A1); apply Hi; left).
      destruct (prop_row_w h s1 i log Sh1 Hi1) as (s2' & log2' & ok' & E2' & P2 & Q2). rewrite E2 in E2'. injection E2' as <- <- <-.
      assert (P12 : ponly s s2) by (eapply ponly_trans; eauto).
      assert (Sh2 : shape s2) by (eapply ponly_shape; [exact Sh|exact P12|]; intros k; rewrite Q2; auto).
      destruct ok; [|discriminate]. destruct (prop_row_complete h i s1 log s2 log2 Sh1 Hi1 E2) as [G1 G2].
      destruct (IH s2 log2) as (R1 & R2 & R3); auto.
      { intros k Hk. destruct P12 as (B1 & _). rewrite (stat_nb _ _ B1). apply Hi; right; exact Hk. }
      { intros ->. rewrite Q2. reflexivity. }
      pose proof (ponly_keeps _ _ P12) as K12. pose proof (ponly_keeps _ _ P1) as K1.
      assert (Vb : forall y, v_bounds (vr s2 y) = v_bounds (vr s y)) by (destruct P12 as (_ & _ & _ & _ & _ & _ & _ & B & _); intros y; apply B).
      assert (Vb1 : forall y, v_bounds (vr s1 y) = v_bounds (vr s y)) by (destruct P1 as (_ & _ & _ & _ & _ & _ & _ & B & _); intros y; apply B).
      split; [|split; [etransitivity; eassumption|]].
      { destruct K12 as (X1 & X2 & X3 & X4 & X5 & X6), R1 as (Y1 & Y2 & Y3 & Y4 & Y5 & Y6). split; [congruence|]. split; [congruence|]. split; [congruence|]. split; [intros y; rewrite Y4; auto|]. split; intros y; [rewrite Y5|rewrite Y6]; auto. }
      intros k Hk Hc b Hb Hr. apply elem_of_cons in Hk as [->|Hk].
      + apply (handled_mono h s i log log log2 log'); [reflexivity|exact R2|]. apply (handled_keeps h s1 s); [apply keeps_sym, K1|]. apply G2.
        * eapply consistent_keeps; eauto.
        * destruct K1 as (_ & X2 & _ & X4 & _). rewrite Vb1, X4, X2. exact Hb.
        * eapply ruled_keeps; eauto.
      + apply (handled_mono h s k log log2 log' log'); [exact G1|reflexivity|]. apply (handled_keeps h s2 s); [apply keeps_sym, K12|]. apply R3; auto.
        * eapply consistent_keeps; eauto.
        * destruct K12 as (_ & X2 & _ & X4 & _). rewrite Vb, X4, X2. exact Hb.
        * eapply ruled_keeps; eauto.
  Qed.
End complete.

(** ** What prepare leaves behind *)
Section prepared.
  Context {V : Type} `{VL : ValueLaws V} {Sym : Type}.
  Implicit Types s : solver V.

  (** every bound is in the list of its variable *)
  Definition registered s : Prop := forall b, b ∈ s_bounds s -> b ∈ v_bounds (vr s (b_var b)).
  (** nothing is flagged, the queue is empty *)
  Definition unflagged s : Prop := forall y, v_prop (vr s y) = false.

  Lemma unflagged_same s s' : s_vars s' = s_vars s -> unflagged s -> unflagged s'.
  Proof. intros E U y. unfold vr. rewrite E. apply U. Qed.
  Lemma unflagged_init n : unflagged (prep_init (V := V) n).
  Proof.
    intros y. unfold vr, prep_init. cbn. rewrite list_lookup_fmap. destruct (seq 0 n !! y); reflexivity.
  Qed.
  Lemma unflagged_basic s : unflagged s -> unflagged (add_basic s).1.
  Proof.
    intros U y. unfold vr, add_basic. cbn. destruct (lt_dec y (length (s_vars s))) as [Hy|Hy].
    - rewrite lookup_app_l by exact Hy. apply U.
    - rewrite lookup_app_r by lia. destruct (y - length (s_vars s)) as [|k]; [reflexivity|]. destruct k; reflexivity.
  Qed.
  Lemma prep_ineq_unflagged h find master (q : ineq Sym) s log s' log' ok : unflagged s -> prep_ineq h find master q s log = Ok (s', log', ok) -> unflagged s'.
  Proof.
    intros U. unfold prep_ineq. destruct (h_false _ _ _); [intros [= <- _ _]; exact U|]. intros E. apply bind_ok in E as (row & _ & E). destruct row as [|[j v] [|c row]].
    - destruct (negb master); [injection E as <- _ _; exact U|]. destruct (empty_row_clause _ _); injection E as <- _ _; exact U.
    - cbv zeta in E. apply bind_ok in E as (u & _ & E). apply bind_ok in E as (vj & _ & E). injection E as <- _ _. exact U.
    - injection E as <- _ _. apply (unflagged_same (add_basic s).1); [reflexivity|]. apply unflagged_basic; exact U.
  Qed.
  Lemma prep_ineqs_unflagged h find master (qs : list (ineq Sym)) s log s' log' ok : unflagged s -> prep_ineqs h find master qs s log = Ok (s', log', ok) -> unflagged s'.
  Proof.
    revert s log. induction qs as [|q qs IH]; intros s log U; cbn [prep_ineqs]; [intros [= <- _ _]; exact U|].
    intros E. apply bind_ok in E as ([[s1 log1] ok1] & E1 & E). apply prep_ineq_unflagged in E1; [|exact U]. destruct ok1; [eapply IH; eauto|injection E as <- _ _; exact E1].
  Qed.
  Lemma prep_objective_unflagged (o : options) find (obj : list (Qc * Sym)) s s' : unflagged s -> prep_objective o find obj s = Ok s' -> unflagged s'.
  Proof.
    intros U. unfold prep_objective. destruct obj as [|c obj]; [intros [= <-]; exact U|]. intros E. apply bind_ok in E as (row & _ & E).
    assert (G : forall s1, unflagged s1 -> unflagged (set_cells (s_nb s1) row (add_basic s1).1)) by (intros s1 U1; apply (unflagged_same (add_basic s1).1); [reflexivity|apply unflagged_basic; exact U1]).
    destruct (o_global o); injection E as <-.
    - apply (unflagged_same (set_cells (s_nb (set_cells (s_nb s) row (add_basic s).1)) row (add_basic (set_cells (s_nb s) row (add_basic s).1)).1)); [reflexivity|]. apply G, G, U.
    - apply (unflagged_same (set_cells (s_nb s) row (add_basic s).1)); [reflexivity|]. apply G, U.
  Qed.
  Lemma prep_enqueue_queue (o : options) is s s' : PQ s -> prep_enqueue o is s = Ok s' ->
    Fr s s' /\ (o_pmode o = PropChanged -> forall i, i ∈ is -> i ∈ s_pq s').
  Proof.
    revert s. induction is as [|i is IH]; intros s P; cbn [prep_enqueue]; [intros [= <-]; split; [apply Fr_refl|intros _ i Hi; inversion Hi]|].
    intros E. apply bind_ok in E as (s1 & E1 & E). pose proof (enqueue_fr _ _ _ _ E1) as F1. assert (P1 : PQ s1) by (apply (Fr_Fq _ _ F1); exact P).
    destruct (IH s1 P1 E) as [F2 G2]. split; [eapply Fr_trans; eauto|]. intros Hm k Hk. apply elem_of_cons in Hk as [->|Hk]; [|auto].
    destruct F2 as (_ & _ & F2 & _). apply F2. clear - E1 Hm P P1. unfold enqueue in E1. apply bind_ok in E1 as (ii & _ & E1). apply bind_ok in E1 as (xi & Ex & E1).
    rewrite Hm in E1. set (s2 := if (negb _ && _) then _ else s) in E1. apply bind_ok in E1 as (w & Ew & E1). destruct (v_prop w) eqn:Ep; injection E1 as <-.
    - apply P1. destruct (at_lt _ _ _ Ew) as [_ <-]. exact Ep.
    - apply elem_of_app. right. left.
  Qed.
  Lemma prep_enqueue_nb (o : options) is s s' : prep_enqueue o is s = Ok s' -> s_nb s' = s_nb s.
  Proof.
    revert s. induction is as [|i l IH]; intros s2; cbn [prep_enqueue]; [intros [= <-]; reflexivity|].
    intros E. apply bind_ok in E as (s4 & E4 & E). rewrite (IH _ E). clear - E4. unfold enqueue in E4. apply bind_ok in E4 as (ii & _ & E4). apply bind_ok in E4 as (xi & _ & E4).
    set (s5 := if (negb _ && _) then _ else s2) in E4. assert (N5 : s_nb s5 = s_nb s2) by (unfold s5; destruct (negb _ && _); reflexivity).
    destruct (o_pmode o); try (injection E4 as <-; exact N5). apply bind_ok in E4 as (w & _ & E4). destruct (v_prop w); injection E4 as <-; exact N5.
  Qed.
  Lemma prep_register_all bs s s' : prep_register bs s = Ok s' ->
    nv s' = nv s /\ s_pq s' = s_pq s /\ s_nb s' = s_nb s /\ s_bounds s' = s_bounds s /\ (forall y, v_prop (vr s' y) = v_prop (vr s y)) /\
    (forall y b, b ∈ v_bounds (vr s y) -> b ∈ v_bounds (vr s' y)) /\ (forall b, b ∈ bs -> b ∈ v_bounds (vr s' (b_var b))).
  Proof.
    revert s. induction bs as [|b bs IH]; intros s; cbn [prep_register].
    - intros [= <-]. split_and!; auto. intros b Hb; inversion Hb.
    - intros E. apply bind_ok in E as (v & Ev & E). destruct (at_lt _ _ _ Ev) as [Hb ->]. destruct (IH _ E) as (A1 & A2 & A3 & A4 & A5 & A6 & A7).
      split; [rewrite A1; apply nv_upd|]. split; [exact A2|]. split; [exact A3|]. split; [exact A4|]. split; [|split].
      + intros y. rewrite A5. rewrite vr_upd by exact Hb. destruct (Nat.eqb_spec y (b_var b)); subst; reflexivity.
      + intros y c Hc. apply A6. rewrite vr_upd by exact Hb. destruct (Nat.eqb_spec y (b_var b)); subst; [cbn; apply elem_of_app; auto|exact Hc].
      + intros c Hc. apply elem_of_cons in Hc as [->|Hc]; [|apply A7; exact Hc]. apply A6. rewrite vr_upd by exact Hb. rewrite Nat.eqb_refl. cbn. apply elem_of_app. right. left.
  Qed.
  Theorem prepare_queue h (o : options) shuf n find (qs : list (ineq Sym)) obj master log s log' :
    prepare h o shuf n find qs obj master log = Ok (s, log', true) ->
    PQ s /\ registered s /\ (o_pmode o = PropChanged -> forall i, i < s_nb s -> i ∈ s_pq s).
  Proof.
    unfold prepare. intros E. apply bind_ok in E as ([[s1 log1] ok1] & E1 & E). apply prep_ineqs_unflagged in E1; [|apply unflagged_init].
    destruct (negb ok1); [injection E as _ _ E; discriminate|]. apply bind_ok in E as (s2 & E2 & E). apply prep_objective_unflagged in E2; [|exact E1].
    apply bind_ok in E as (s3 & E3 & E). assert (P2 : PQ s2) by (intros i Hi; rewrite E2 in Hi; discriminate).
    pose proof (prep_enqueue_nb _ _ _ _ E3) as Nb.
    destruct (prep_enqueue_queue _ _ _ _ P2 E3) as [F3 G3]. assert (P3 : PQ s3) by (apply (Fr_Fq _ _ F3); exact P2).
    cbv zeta in E. apply bind_ok in E as (s4 & E4 & E). destruct (prep_register_all _ _ _ E4) as (A1 & A2 & A3 & A4 & A5 & A6 & A7).
    assert (G : PQ s4 /\ registered s4 /\ (o_pmode o = PropChanged -> forall i, i < s_nb s4 -> i ∈ s_pq s4)).
    { split; [intros i Hi; rewrite A2; rewrite A5 in Hi; apply P3; exact Hi|]. split; [intros b Hb; apply A7; rewrite A4 in Hb; exact Hb|].
      intros Hm i Hi. rewrite A2. apply (G3 Hm). apply elem_of_seq. rewrite A3 in Hi. cbn in Hi. lia. }
    destruct (o_pconf o && master); [destruct (static_vars _ _ _) as [log2 ok2]; injection E as <- _ _; exact G|injection E as <- _; exact G].
  Qed.
End prepared.
