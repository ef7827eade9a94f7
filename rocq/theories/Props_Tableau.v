(** * Properties of the tableau data structure (C11, C12, C13) *)

From Verif Require Import Num Sums Tableau TableauProofs.

(** ** Specification *)

(** The tableaus a client can obtain: starting from the empty tableau, any
    sequence of [set], [pivot] on a non-zero element, and column iterations
    (which compact the column vectors). *)
Inductive reachable : tableau -> Prop :=
  | reach_empty : reachable empty_tab
  | reach_set t i j a : reachable t -> reachable (tset t i j a)
  | reach_pivot t t' i j p a d : reachable t -> tget t i j <> 0%Qc ->
      unsafe_get t i j = Ok (p, a, d) -> tpivot t i j p = Ok t' -> reachable t'
  | reach_col t t' j l : reachable t ->
      update_col fst (fun t s => (t, s.2)) j (fun i v d s => Ok (s.1, s.2 ++ [(i, v, d)])) (t, []) = Ok (t', l) ->
      reachable t'.

Fixpoint qsum (n : nat) (f : nat -> Qc) : Qc :=
  match n with 0 => 0%Qc | S n => (qsum n f + f n)%Qc end.

(** [y = A x] where [A] is given by its entries [a], for [m] rows and [n] columns. *)
Definition solves (a : nat -> nat -> Qc) (m n : nat) (y x : nat -> Qc) : Prop :=
  forall i, i < m -> y i = qsum n (fun j => a i j * x j)%Qc.

Definition upd {A} (f : nat -> A) (k : nat) (v : A) : nat -> A := fun i => if i =? k then v else f i.

(** ** Proofs *)

Lemma reachable_wf t : reachable t -> tab_wf t.
Proof.
  induction 1.
  - apply empty_tab_wf.
  - apply tset_spec; auto.
  - destruct (tpivot_spec t i j p a d) as (t2 & E & W & _); auto. congruence.
  - rewrite update_col_mfold in H0; cbn; auto.
    + cbn in H0. destruct (t_cols t !! j) eqn:E; [|injection H0 as <- <-; auto].
      assert (Hm : forall es s, mfold (fun i v d (s : tableau * list (nat * Z * Z)) => Ok (s.1, s.2 ++ [(i, v, d)])) es s = Ok (s.1, s.2 ++ es)).
      { induction es as [|[[i0 v0] d0] es IHes]; intros [s1 s2]; cbn; [rewrite app_nil_r; auto|].
        rewrite IHes. cbn. rewrite <- app_assoc. auto. }
      rewrite Hm in H0. cbn in H0. injection H0 as <- <-. apply set_col_entries_wf; auto.
    + intros i v d [] [] Hs [= <- <-]; auto.
Qed.

Lemma qsum_vsum n f : qsum n f = vsum n f.
Proof. induction n; cbn; congruence. Qed.

Lemma qsum_ext n f g : (forall j, j < n -> f j = g j) -> qsum n f = qsum n g.
Proof. induction n; cbn; auto. intros Hf. rewrite IHn, Hf; auto. Qed.
Lemma qsum_split n k f : k < n -> qsum n f = (f k + qsum n (fun j => if j =? k then 0 else f j))%Qc.
Proof.
  induction n; cbn; intros Hk; [lia|]. destruct (Nat.eq_dec k n) as [->|].
  - rewrite Nat.eqb_refl. rewrite (qsum_ext n f (fun j => if j =? n then 0%Qc else f j)); [ring|].
    intros j Hj. destruct (Nat.eqb_spec j n); [lia|auto].
  - rewrite IHn by lia. destruct (Nat.eqb_spec n k); [lia|]. ring.
Qed.
Lemma qsum_add n f g : qsum n (fun j => f j + g j)%Qc = (qsum n f + qsum n g)%Qc.
Proof. induction n; cbn; [ring|]. rewrite IHn. ring. Qed.
Lemma qsum_scale n q f : qsum n (fun j => q * f j)%Qc = (q * qsum n f)%Qc.
Proof.
  induction n; cbn; [ring|]. rewrite IHn. ring.
Qed.

(** the pivot transformation on matrices *)
Definition pivoted (a a' : nat -> nat -> Qc) (i j : nat) : Prop :=
  forall k l, a' k l =
    if k =? i then (if l =? j then 1 / a i j else - a i l / a i j)%Qc
    else (if l =? j then a k j / a i j else a k l - a k j * a i l / a i j)%Qc.

Lemma pivoted_solves a a' m n i j y x : a i j <> 0%Qc -> i < m -> j < n -> pivoted a a' i j ->
  solves a m n y x -> solves a' m n (upd y i (x j)) (upd x j (y i)).
Proof.
  intros Hnz Hi Hj P S k Hk.
  assert (Ey : forall k, k < m -> y k = (a k j * x j + qsum n (fun l => if l =? j then 0 else a k l * x l))%Qc).
  { intros k' Hk'. rewrite (S k' Hk'). rewrite (qsum_split n j) by auto. auto. }
  rewrite (qsum_split n j) by auto. unfold upd at 1 2. rewrite Nat.eqb_refl.
  rewrite (P k j), Nat.eqb_refl.
  destruct (Nat.eqb_spec k i) as [->|Hne].
  - rewrite (qsum_ext n _ (fun l => - (1 / a i j) * (if l =? j then 0 else a i l * x l))%Qc).
    + rewrite qsum_scale. rewrite (Ey i Hi). field. auto.
    + intros l Hl. unfold upd. rewrite (P i l), Nat.eqb_refl. destruct (Nat.eqb_spec l j); [ring|]. field. auto.
  - rewrite (qsum_ext n _ (fun l => (if l =? j then 0 else a k l * x l) + - (a k j / a i j) * (if l =? j then 0 else a i l * x l))%Qc).
    + rewrite qsum_add, qsum_scale. rewrite (Ey k Hk), (Ey i Hi). field. auto.
    + intros l Hl. unfold upd. rewrite (P k l). destruct (Nat.eqb_spec k i); [congruence|]. destruct (Nat.eqb_spec l j); [ring|]. field. auto.
Qed.

Lemma pivoted_sym a a' i j : a i j <> 0%Qc -> pivoted a a' i j -> pivoted a' a i j /\ a' i j <> 0%Qc.
Proof.
  intros Hnz P. assert (Eij : a' i j = (1 / a i j)%Qc) by (rewrite P, !Nat.eqb_refl; auto).
  assert (Hnz' : a' i j <> 0%Qc).
  { rewrite Eij. intros E. assert (1 = 0)%Qc. { replace 1%Qc with (1 / a i j * a i j)%Qc by (field; auto). rewrite E. ring. } discriminate. }
  split; auto. intros k l. rewrite Eij. rewrite !(P k), !(P i), !Nat.eqb_refl.
  assert (1 / a i j <> 0)%Qc by (rewrite <- Eij; auto).
  destruct (Nat.eqb_spec k i) as [->|]; destruct (Nat.eqb_spec l j) as [->|]; field; auto.
Qed.

(** ** C11: pivoting preserves the represented linear system *)

(** For every tableau a client can build and every non-zero element a_ij, the
    pivot operation succeeds (no undefined behaviour), and the new tableau has
    exactly the solutions of the old one with y_i and x_j exchanged. *)
Theorem C11_pivot_preserves_solutions t i j p a d m n :
  reachable t -> tget t i j <> 0%Qc -> unsafe_get t i j = Ok (p, a, d) ->
  i < m -> j < n ->
  exists t', tpivot t i j p = Ok t' /\ reachable t' /\
    forall y x, solves (tget t) m n y x <-> solves (tget t') m n (upd y i (x j)) (upd x j (y i)).
Proof.
  intros R Hnz Hu Hi Hj. destruct (tpivot_spec t i j p a d (reachable_wf _ R) Hnz Hu) as (t' & E & W & _ & _ & Hget).
  exists t'. split; auto. split; [eapply reach_pivot; eauto|].
  assert (P : pivoted (tget t) (tget t') i j) by exact Hget.
  intros y x. split.
  - apply pivoted_solves; auto.
  - intros S. destruct (pivoted_sym _ _ _ _ Hnz P) as [P' Hnz'].
    pose proof (pivoted_solves _ _ m n i j _ _ Hnz' Hi Hj P' S) as S'.
    intros k Hk. specialize (S' k Hk). unfold upd in S'. rewrite !Nat.eqb_refl in S'.
    assert (E1 : (if k =? i then y i else if k =? i then x j else y k) = y k).
    { destruct (Nat.eqb_spec k i); subst; auto. }
    rewrite E1 in S'. rewrite S'.
    apply qsum_ext; intros l Hl; destruct (Nat.eqb_spec l j); subst; auto.
Qed.

(** The address computation before a pivot (Tableau::unsafe_get) is safe. *)
Theorem C11_unsafe_get_safe t i j : reachable t -> tget t i j <> 0%Qc ->
  exists p a d, unsafe_get t i j = Ok (p, a, d) /\ tget t i j = qmk a d /\ a <> 0%Z /\ d <> 0%Z.
Proof.
  intros R Hnz. destruct (tget_nz _ _ _ (reachable_wf _ R) Hnz) as (r & v & Hr & Hv & Hv0 & Hd & E).
  unfold unsafe_get. rewrite (proj2 (at_ok _ _ _) Hr). cbn [mbind res_bind].
  rewrite (proj2 (at_ok _ _ _) (proj1 (clook_lb _ _ _) Hv)). cbn. eexists _, _, _. split; eauto.
Qed.

(** ** C12: get and set *)
Theorem C12_get_set t i j a : reachable t ->
  reachable (tset t i j a) /\
  forall k l, tget (tset t i j a) k l = if (k =? i) && (l =? j) then a else tget t k l.
Proof. intros R. split; [constructor; auto|]. apply tset_spec, reachable_wf, R. Qed.

(** entries that were never set are zero *)
Theorem C12_get_empty i j : tget empty_tab i j = 0%Qc.
Proof. reflexivity. Qed.

(** ** Tableau::size and Tableau::empty: the non-zero entries *)
Fixpoint entries_from (k : nat) (rows : list row) : list (nat * nat) :=
  match rows with [] => [] | r :: rs => map (fun c : cell => (k, c.1)) (r_cells r) ++ entries_from (S k) rs end.
Lemma entries_from_spec rows : forall k i j, (i, j) ∈ entries_from k rows <-> exists i0 r v, i = k + i0 /\ rows !! i0 = Some r /\ (j, v) ∈ r_cells r.
Proof.
  induction rows as [|r rs IH]; intros k i j; cbn [entries_from].
  - split; [intros Hin; inversion Hin|]. intros (i0 & r & v & _ & Hr & _). rewrite lookup_nil in Hr. discriminate.
  - rewrite elem_of_app, IH, elem_of_list_fmap. split.
    + intros [([c v] & [= -> ->] & Hin)|(i0 & r' & v & -> & Hr & Hin)].
      * exists 0, r, v. split; [lia|]. split; [reflexivity|exact Hin].
      * exists (S i0), r', v. split; [lia|]. split; [exact Hr|exact Hin].
    + intros ([|i0] & r' & v & -> & Hr & Hin); cbn in Hr.
      * injection Hr as ->. left. exists (j, v). split; [|exact Hin]. cbn. f_equal. lia.
      * right. exists i0, r', v. split; [lia|]. split; [exact Hr|exact Hin].
Qed.
Lemma entries_from_nodup rows : forall k, (forall i r, rows !! i = Some r -> row_wf r) -> base.NoDup (entries_from k rows).
Proof.
  induction rows as [|r rs IH]; intros k Hw; cbn [entries_from]; [apply NoDup_nil_2|]. apply NoDup_app. split; [|split].
  - pose proof (rw_sorted _ (Hw 0 r eq_refl)) as Hs. induction (r_cells r) as [|[c v] l IHl]; [apply NoDup_nil_2|]. cbn [map]. apply csorted_cons in Hs as [Hlt Hs].
    apply NoDup_cons. split; [|exact (IHl Hs)]. intros Hin. apply elem_of_list_fmap in Hin as ([c' v'] & [= E] & Hin). apply Hlt in Hin. cbn in Hin. lia.
  - intros [i j] Hin Hin'. apply elem_of_list_fmap in Hin as ([c v] & [= -> ->] & _). apply entries_from_spec in Hin' as (i0 & _ & _ & E & _). lia.
  - apply IH. intros i r' Hr. exact (Hw (S i) r' Hr).
Qed.
Lemma entries_from_length rows : forall k, length (entries_from k rows) = foldr (fun r n => length (r_cells r) + n) 0 rows.
Proof. induction rows as [|r rs IH]; intros k; cbn [entries_from foldr]; [reflexivity|]. rewrite app_length, map_length, IH. reflexivity. Qed.
Theorem C12_size t : reachable t -> exists l : list (nat * nat), base.NoDup l /\ (forall i j, (i, j) ∈ l <-> tget t i j <> 0%Qc) /\ tsize t = length l.
Proof.
  intros R. pose proof (reachable_wf _ R) as W. exists (entries_from 0 (t_rows t)). split; [|split].
  - apply entries_from_nodup. exact (tw_rows _ W).
  - intros i j. rewrite entries_from_spec. split.
    + intros (i0 & r & v & -> & Hr & Hin). cbn [Nat.add]. rewrite (tget_rget _ _ _ _ Hr). pose proof (tw_rows _ W _ _ Hr) as Wr. unfold rget.
      apply (clook_elem _ _ _ (rw_sorted _ Wr)) in Hin. rewrite Hin. pose proof (rw_nz _ Wr _ _ Hin) as Hv. pose proof (rw_den _ Wr) as Hd.
      exact (qmk_nz v (r_den r) Hv Hd).
    + intros Hnz. destruct (tget_nz _ _ _ W Hnz) as (r & v & Hr & Hv & _). exists i, r, v. split; [lia|]. split; [exact Hr|].
      apply clook_elem in Hv; [exact Hv|]. exact (rw_sorted _ (tw_rows _ W _ _ Hr)).
  - symmetry. apply entries_from_length.
Qed.
Theorem C12_empty t : reachable t -> tempty t = true <-> forall i j, tget t i j = 0%Qc.
Proof.
  intros R. destruct (C12_size t R) as (l & Hn & Hl & El).
  assert (Et : tempty t = true <-> tsize t = 0).
  { unfold tempty, tsize. induction (t_rows t) as [|r rs IH]; cbn [forallb foldr]; [tauto|]. rewrite andb_true_iff, IH, Nat.eqb_eq. lia. }
  rewrite Et, El. split.
  - intros E i j. destruct l; [|discriminate E]. destruct (Qc_eq_dec (tget t i j) 0%Qc) as [E0|E0]; [exact E0|]. apply Hl in E0. inversion E0.
  - intros Hz. destruct l as [|[i j] l]; [reflexivity|]. exfalso. apply (proj1 (Hl i j) (elem_of_list_here _ _)). apply Hz.
Qed.

(** ** C13: iteration over rows and columns *)

(** [update_row t i f] calls [f j a d] exactly once for every column [j] whose
    entry is non-zero, in increasing order of [j], with [a/d] the entry. *)
Theorem C13_update_row t i : reachable t ->
  exists es : list (nat * Z * Z),
    (forall (S : Type) (f : nat -> Z -> Z -> S -> res S) (s : S), update_row t i f s = mfold f es s) /\
    StronglySorted lt (map (fun e => e.1.1) es) /\
    (forall j a d, (j, a, d) ∈ es -> tget t i j = qmk a d /\ a <> 0%Z /\ d <> 0%Z) /\
    (forall j, tget t i j <> 0%Qc <-> exists a d, (j, a, d) ∈ es).
Proof.
  intros R. pose proof (reachable_wf _ R) as W. exists (row_entries t i).
  split; [|split; [|split]].
  - intros S f s. apply update_row_mfold.
  - apply row_entries_sorted; auto.
  - intros j a d H. apply row_entries_elem in H as (r & Hr & -> & Hc); auto.
    rewrite (tget_rget _ _ _ _ Hr). unfold rget. rewrite Hc. pose proof (tw_rows _ W _ _ Hr) as Wr.
    split; auto. split; [eapply rw_nz; eauto|apply Wr].
  - intros j. split.
    + intros Hnz. destruct (tget_nz _ _ _ W Hnz) as (r & v & Hr & Hv & _ & _ & _).
      exists v, (r_den r). apply row_entries_elem; eauto.
    + intros (a & d & H). apply row_entries_elem in H as (r & Hr & -> & Hc); auto.
      rewrite (tget_rget _ _ _ _ Hr). unfold rget. rewrite Hc. pose proof (tw_rows _ W _ _ Hr) as Wr.
      apply qmk_nz; [eapply rw_nz; eauto|apply Wr].
Qed.

(** [update_col] calls [f i a d] exactly once for every row [i] whose entry is
    non-zero, in increasing order; it never has undefined behaviour of its own,
    and the iteration leaves all entries of the tableau unchanged.
    [f] may change its own state but not the tableau (the pivot operation,
    which does change it during the iteration, is covered by C11). *)
Theorem C13_update_col t j : reachable t ->
  exists es : list (nat * Z * Z),
    (forall (S : Type) (f : nat -> Z -> Z -> S -> res S) (s : S),
       match mfold f es s with
       | Ok s' => exists t', update_col (fst (B:=S)) (fun t x => (t, x.2)) j (fun i a d x => y ← f i a d x.2; Ok (x.1, y)) (t, s) = Ok (t', s')
                    /\ reachable t' /\ forall k l, tget t' k l = tget t k l
       | UB => update_col (fst (B:=S)) (fun t x => (t, x.2)) j (fun i a d x => y ← f i a d x.2; Ok (x.1, y)) (t, s) = UB
       | Exn => update_col (fst (B:=S)) (fun t x => (t, x.2)) j (fun i a d x => y ← f i a d x.2; Ok (x.1, y)) (t, s) = Exn
       | Fuel => update_col (fst (B:=S)) (fun t x => (t, x.2)) j (fun i a d x => y ← f i a d x.2; Ok (x.1, y)) (t, s) = Fuel
       end) /\
    StronglySorted lt (map (fun e => e.1.1) es) /\
    (forall i a d, (i, a, d) ∈ es -> tget t i j = qmk a d /\ a <> 0%Z /\ d <> 0%Z) /\
    (forall i, tget t i j <> 0%Qc <-> exists a d, (i, a, d) ∈ es).
Proof.
  intros R. pose proof (reachable_wf _ R) as W. exists (col_entries t j).
  split; [|split; [|split]].
  - intros S f s.
    assert (Hm : forall es s, mfold (fun i v d (x : tableau * S) => y ← f i v d x.2; Ok (x.1, y)) es (t, s)
                  = (y ← mfold f es s; Ok (t, y))).
    { induction es as [|[[i v] d] es IH]; intros s1; cbn; auto. destruct (f i v d s1); cbn; auto. }
    assert (Eu : update_col (fst (B:=S)) (fun t x => (t, x.2)) j (fun i a d x => y ← f i a d x.2; Ok (x.1, y)) (t, s) =
      match t_cols t !! j with
      | Some _ => y ← mfold f (col_entries t j) s; Ok (set_col t j (map (fun e => e.1.1) (col_entries t j)), y)
      | None => Ok (t, s)
      end).
    { rewrite update_col_mfold; cbn; auto.
      - destruct (t_cols t !! j) eqn:Ec; auto. rewrite Hm. destruct (mfold f _ s); cbn; auto.
      - intros i v d [t1 x1] [t2 x2] Hs He. cbn in *. destruct (f i v d x1); cbn in He; [|discriminate..].
        injection He as <- <-. auto. }
    rewrite Eu. destruct (t_cols t !! j) as [col|] eqn:Ec.
    + destruct (mfold f (col_entries t j) s) as [s'| | |]; cbn; auto.
      eexists. split; [reflexivity|]. split.
      * eapply (reach_col t _ j (col_entries t j)); auto. rewrite update_col_mfold; cbn; auto.
        -- rewrite Ec.
           assert (Hm' : forall es s, mfold (fun i v d (s : tableau * list (nat * Z * Z)) => Ok (s.1, s.2 ++ [(i, v, d)])) es s = Ok (s.1, s.2 ++ es)).
           { induction es as [|[[i v] d] es IH]; intros s1; cbn; [rewrite app_nil_r; destruct s1; auto|].
             rewrite IH. cbn. rewrite <- app_assoc. auto. }
           rewrite Hm'. cbn. auto.
        -- intros i v d [] [] Hs [= <- <-]; auto.
      * intros k l. apply tget_rows. auto.
    + unfold col_entries. rewrite Ec. cbn. exists t. auto.
  - apply col_entries_sorted; auto.
  - intros i a d H. apply col_entries_elem in H as (r & Hr & -> & Hc); auto.
    rewrite (tget_rget _ _ _ _ Hr). unfold rget. rewrite Hc. pose proof (tw_rows _ W _ _ Hr) as Wr.
    split; auto. split; [eapply rw_nz; eauto|apply Wr].
  - intros i. split.
    + intros Hnz. destruct (tget_nz _ _ _ W Hnz) as (r & v & Hr & Hv & _ & _ & _).
      exists v, (r_den r). apply col_entries_elem; eauto.
    + intros (a & d & H). apply col_entries_elem in H as (r & Hr & -> & Hc); auto.
      rewrite (tget_rget _ _ _ _ Hr). unfold rget. rewrite Hc. pose proof (tw_rows _ W _ _ Hr) as Wr.
      apply qmk_nz; [eapply rw_nz; eauto|apply Wr].
Qed.

(** ** Non-vacuity: a concrete tableau with fill-in and cancellation *)
Definition ex_tab : tableau :=
  tset (tset (tset (tset (tset empty_tab 0 0 (qmk 1 2)) 0 1 (qmk 2 3)) 1 0 (qmk 3 1)) 1 2 (qmk 5 1)) 2 1 (qmk 7 4).
Example ex_tab_reachable : reachable ex_tab.
Proof. repeat constructor. Qed.
Example ex_tab_pivot : exists t', tpivot ex_tab 0 0 0 = Ok t' /\ reachable t' /\
  this (tget t' 1 1) = (-4 # 1)%Q /\ this (tget t' 0 0) = (2 # 1)%Q.
Proof.
  assert (Hnz : tget ex_tab 0 0 <> 0%Qc). { intros E. apply (f_equal this) in E. vm_compute in E. discriminate. }
  destruct (C11_unsafe_get_safe ex_tab 0 0 ex_tab_reachable Hnz) as (p & a & d & Hu & _).
  assert (p = 0). { vm_compute in Hu. injection Hu; auto. } subst p.
  destruct (C11_pivot_preserves_solutions ex_tab 0 0 0 a d 3 3 ex_tab_reachable Hnz Hu) as (t' & E & R & _); [lia|lia|].
  exists t'. split; auto. split; auto. vm_compute in E. injection E as <-. vm_compute. auto.
Qed.

Print Assumptions C11_pivot_preserves_solutions.
Print Assumptions C12_get_set.
Print Assumptions C13_update_col.
