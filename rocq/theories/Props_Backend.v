(** * Both arithmetic libraries compute the same tableau (C43) *)

From Verif Require Import Num Sums Tableau TableauProofs Props_Tableau Backend.

(** ** Specification *)

(** What a client of the tableau can do: set an entry, exchange a row and a
    column whose entry is not zero, iterate over a column. *)
Inductive tab_op := OSet (i j : nat) (a : Qc) | OPivot (i j : nat) | OColumn (j : nat).

(** One operation with library [B].  A client does not pivot on zero. *)
Definition b_step (B : backend) (t : tableau) (o : tab_op) : res tableau :=
  match o with
  | OSet i j a => b_set B t i j a
  | OPivot i j =>
      if Qc_eq_bool (tget t i j) 0 then Ok t
      else '(p, _, _) ← unsafe_get t i j; b_pivot B t i j p
  | OColumn j =>
      '(t', _) ← update_col fst (fun t s => (t, s.2)) j
                   (fun i v d s => Ok (s.1, s.2 ++ [(i, v, d)])) (t, [] : list (nat * Z * Z));
      Ok t'
  end.
Fixpoint b_run (B : backend) (ops : list tab_op) (t : tableau) : res tableau :=
  match ops with [] => Ok t | o :: r => t' ← b_step B t o; b_run B r t' end.

(** ** Proofs *)

Section any.
  Variables junk junk' : Z -> Z -> res Z.
  Let B := Any_ops junk junk'.

  Lemma exact_into a g : g <> 0%Z -> (g | a)%Z -> b_into B a g = Ok (a / g)%Z.
  Proof.
    intros Hg [q ->]. cbn. rewrite (proj2 (Z.eqb_neq g 0)) by auto. rewrite Z.rem_mul, Z.quot_mul, Z.div_mul by auto. reflexivity.
  Qed.
  Lemma exact_divide a g : g <> 0%Z -> (g | a)%Z -> b_divide B a g = Ok (a / g)%Z.
  Proof.
    intros Hg [q ->]. cbn. rewrite (proj2 (Z.eqb_neq g 0)) by auto. rewrite Z.rem_mul, Z.quot_mul, Z.div_mul by auto. reflexivity.
  Qed.
  Lemma b_gcd_div_ok a b : Z.gcd a b <> 0%Z ->
    b_gcd_div B a b = Ok (Z.gcd a b, (a / Z.gcd a b)%Z, (b / Z.gcd a b)%Z).
  Proof.
    intros Hg. unfold b_gcd_div. rewrite !exact_into; auto using Z.gcd_divide_l, Z.gcd_divide_r.
  Qed.
  Lemma b_set_row_ok r j a : b_set_row B r j a = Ok (set_row r j a).
  Proof.
    unfold b_set_row. rewrite b_gcd_div_ok.
    - cbn [mbind res_bind]. unfold set_row. cbv zeta. destruct (_ =? 1)%Z; reflexivity.
    - intros E. apply Z.gcd_eq_0 in E. destruct E. discriminate.
  Qed.
  Lemma b_set_ok t i j a : b_set B t i j a = Ok (tset t i j a).
  Proof.
    unfold b_set, tset. destruct (Qc_eq_bool a 0).
    - destruct (t_rows t !! i) as [r|]; [|auto]. destruct (r_cells r !! _) as [[c v]|]; [|auto]. destruct (c =? j); auto.
    - cbv zeta. cbn [t_rows t_cols reserve_row].
      assert (Hl : i < length (grow empty_row (S i) (t_rows t))) by (unfold grow; rewrite app_length, replicate_length; lia).
      destruct (lookup_lt_is_Some_2 _ _ Hl) as [r Hr]. rewrite (proj2 (at_ok _ _ _) Hr). cbn [mbind res_bind].
      rewrite b_set_row_ok. cbn [mbind res_bind]. do 2 f_equal.
      apply list_eq. intros k. unfold reserve_col. cbn [t_rows].
      destruct (decide (k = i)) as [->|Hne].
      + rewrite list_lookup_insert by auto. rewrite list_lookup_alter. rewrite Hr. reflexivity.
      + rewrite list_lookup_insert_ne by auto. rewrite list_lookup_alter_ne by auto. reflexivity.
  Qed.

  Lemma row_gcd_divides cells : forall g h, row_gcd g cells = Some h ->
    (h | g)%Z /\ Forall (fun c : cell => (h | c.2)%Z) cells.
  Proof.
    induction cells as [|[c v] r IH]; cbn; intros g h Hs.
    - injection Hs as ->. split; [apply Z.divide_refl|constructor].
    - destruct (Z.gcd v g =? 1)%Z; [discriminate|]. destruct (IH _ _ Hs) as [Hd Hf]. split.
      + eapply Z.divide_trans; [exact Hd|apply Z.gcd_divide_r].
      + constructor; auto. cbn. eapply Z.divide_trans; [exact Hd|apply Z.gcd_divide_l].
  Qed.
  Lemma b_divide_cells_ok g cells : g <> 0%Z -> Forall (fun c : cell => (g | c.2)%Z) cells ->
    b_divide_cells B g cells = Ok (map (fun c : cell => (c.1, (c.2 / g)%Z)) cells).
  Proof.
    intros Hg. induction 1 as [|[c v] r Hd _ IH]; cbn [b_divide_cells map]; auto.
    rewrite (exact_divide v g) by auto. cbn [mbind res_bind]. rewrite IH. reflexivity.
  Qed.
  Lemma b_simplify_ok r r' : simplify_row r = Ok r' -> b_simplify_row B r = Ok r'.
  Proof.
    unfold simplify_row, b_simplify_row. destruct (r_den r =? 1)%Z; auto.
    destruct (row_gcd _ _) as [g|] eqn:E; auto. destruct (row_gcd_divides _ _ _ E) as [Hd Hf].
    destruct (Z.eqb_spec g 0) as [->|Hg]; cbn; [discriminate|]. intros [= <-].
    rewrite b_divide_cells_ok by auto. cbn [mbind res_bind].
    pose proof (exact_divide _ _ Hg Hd) as Ed. cbn in Ed. rewrite Ed. reflexivity.
  Qed.
  Lemma b_pivot_row_ok i j Ai a d k a' d' s s' :
    pivot_row i j Ai a d k a' d' s = Ok s' -> b_pivot_row B i j Ai a d k a' d' s = Ok s'.
  Proof.
    unfold pivot_row, b_pivot_row. destruct (k =? i); auto. cbv zeta.
    destruct (Z.eqb_spec (Z.gcd a a') 0) as [E|Hg]; [discriminate|]. cbn [guard_ub negb mbind res_bind].
    rewrite b_gcd_div_ok by auto. cbn [mbind res_bind].
    destruct (at_ (t_rows (p_tab s)) k) as [rk| | |]; try discriminate. cbn [mbind res_bind].
    destruct (at_ _ _) as [c| | |]; try discriminate. cbn [mbind res_bind].
    destruct (simplify_row _) as [rk'| | |] eqn:Es; try discriminate. rewrite (b_simplify_ok _ _ Es). auto.
  Qed.
  Lemma col_loop_mono {S} (rd : S -> tableau) j (f g : nat -> Z -> Z -> S -> res S) :
    (forall i v d s s', f i v d s = Ok s' -> g i v d s = Ok s') ->
    forall is kept s r, col_loop rd j f is kept s = Ok r -> col_loop rd j g is kept s = Ok r.
  Proof.
    intros Hfg. induction is as [|i is IH]; cbn; intros kept s r Hr; auto.
    destruct (at_ _ _) as [rw| | |]; try discriminate. cbn [mbind res_bind] in *.
    destruct (clook _ _) as [v|]; auto.
    destruct (f i v (r_den rw) s) as [s'| | |] eqn:Ef; try discriminate. rewrite (Hfg _ _ _ _ _ Ef). cbn [mbind res_bind] in *. auto.
  Qed.
  Lemma b_pivot_ok t i j p t' : tpivot t i j p = Ok t' -> b_pivot B t i j p = Ok t'.
  Proof.
    unfold tpivot, b_pivot. destruct (at_ (t_rows t) i) as [ri| | |]; try discriminate. cbn [mbind res_bind]. cbv zeta.
    destruct (at_ (map _ _) p) as [aij| | |]; try discriminate. cbn [mbind res_bind].
    unfold update_col at 1 2. cbn [p_tab t_cols].
    destruct (t_cols t !! j) as [col|].
    - destruct (col_loop p_tab j (pivot_row _ _ _ _ _) _ _ _) as [[kept s]| | |] eqn:El; try discriminate.
      rewrite (col_loop_mono _ _ _ (b_pivot_row B i j _ aij.2 (r_den ri)) (fun i0 v d s s' => b_pivot_row_ok _ _ _ _ _ _ _ _ _ _) _ _ _ _ El).
      cbn [mbind res_bind]. destruct (simplify_row _) as [ri'| | |] eqn:Es; try discriminate. rewrite (b_simplify_ok _ _ Es). auto.
    - cbn [mbind res_bind]. destruct (simplify_row _) as [ri'| | |] eqn:Es; try discriminate. rewrite (b_simplify_ok _ _ Es). auto.
  Qed.

  (** the exact tableau of a client's operation *)
  Lemma b_step_ok t o : reachable t -> exists t', reachable t' /\ b_step B t o = Ok t' /\
    match o with
    | OSet i j a => t' = tset t i j a
    | OPivot i j => if Qc_eq_bool (tget t i j) 0 then t' = t else exists p a d, unsafe_get t i j = Ok (p, a, d) /\ tpivot t i j p = Ok t'
    | OColumn j => exists l, update_col fst (fun t s => (t, s.2)) j
                   (fun i v d s => Ok (s.1, s.2 ++ [(i, v, d)])) (t, [] : list (nat * Z * Z)) = Ok (t', l)
    end.
  Proof.
    intros R. destruct o as [i j a|i j|j]; cbn [b_step].
    - exists (tset t i j a). rewrite b_set_ok. split; [constructor; auto|auto].
    - destruct (Qc_eq_bool (tget t i j) 0) eqn:Ez; [exists t; auto|].
      assert (Hnz : tget t i j <> 0%Qc).
      { intros E. rewrite E in Ez. discriminate Ez. }
      destruct (C11_unsafe_get_safe t i j R Hnz) as (p & a & d & Hu & _).
      destruct (C11_pivot_preserves_solutions t i j p a d (S i) (S j) R Hnz Hu) as (t' & Hp & R' & _); [lia|lia|].
      exists t'. split; auto. rewrite Hu. cbn [mbind res_bind]. rewrite (b_pivot_ok _ _ _ _ _ Hp). split; eauto.
    - assert (exists t' l, update_col fst (fun t s => (t, s.2)) j
                   (fun i v d s => Ok (s.1, s.2 ++ [(i, v, d)])) (t, [] : list (nat * Z * Z)) = Ok (t', l)) as (t' & l & El).
      { pose proof (reachable_wf _ R) as W.
        rewrite update_col_mfold; cbn; auto.
        - destruct (t_cols t !! j) eqn:E; [|eauto].
          assert (Hm : forall es s, mfold (fun i v d (s : tableau * list (nat * Z * Z)) => Ok (s.1, s.2 ++ [(i, v, d)])) es s = Ok (s.1, s.2 ++ es)).
          { induction es as [|[[i0 v0] d0] es IHes]; intros [s1 s2]; cbn; [rewrite app_nil_r; auto|].
            rewrite IHes. cbn. rewrite <- app_assoc. auto. }
          rewrite Hm. cbn. eauto.
        - intros i v d [] [] Hs [= <- <-]; auto. }
      exists t'. split; [exact (reach_col t t' j l R El)|]. rewrite El. split; eauto.
  Qed.
End any.

(** ** C43 *)

(** Whatever a client does to a tableau, with a library that is only right
    about divisions without remainder by a divisor other than zero: nothing
    goes wrong and the tableau obtained does not depend on what the library does
    otherwise.  In particular no operation performs such a division. *)
Theorem C43_only_exact_divisions ops : exists t, reachable t /\
  forall junk junk', b_run (Any_ops junk junk') ops empty_tab = Ok t.
Proof.
  assert (H : forall ops t0, reachable t0 -> exists t, reachable t /\ forall junk junk', b_run (Any_ops junk junk') ops t0 = Ok t).
  { clear ops. induction ops as [|o ops IH]; intros t0 R0; [exists t0; cbn; auto|].
    destruct (b_step_ok (fun _ _ => UB) (fun _ _ => UB) t0 o R0) as (t1 & R1 & _ & E1).
    destruct (IH t1 R1) as (t & R & Ht). exists t. split; auto. intros junk junk'. cbn [b_run].
    destruct (b_step_ok junk junk' t0 o R0) as (t1' & _ & Es & E1').
    assert (t1' = t1) as ->.
    { destruct o as [i j a|i j|j].
      - congruence.
      - destruct (Qc_eq_bool (tget t0 i j) 0); [congruence|]. destruct E1 as (p & a & d & ? & ?), E1' as (p' & a' & d' & ? & ?). congruence.
      - destruct E1 as (l & ?), E1' as (l' & ?). congruence. }
    rewrite Es. cbn [mbind res_bind]. apply Ht. }
  apply H, reach_empty.
Qed.

Lemma Flint_any a b : b_divide Flint_ops a b = b_divide (Any_ops (fun _ _ => UB) (fun _ _ => UB)) a b /\
  b_into Flint_ops a b = b_into (Any_ops (fun _ _ => UB) (fun _ _ => UB)) a b.
Proof. cbn. unfold divexact. destruct (b =? 0)%Z; cbn; auto. Qed.

(** The operations only see a library through its divisions. *)
Section ext.
  Context (B B' : backend) (HE : forall a b, b_divide B a b = b_divide B' a b /\ b_into B a b = b_into B' a b).
  Lemma b_gcd_div_ext a b : b_gcd_div B a b = b_gcd_div B' a b.
  Proof. unfold b_gcd_div. rewrite !(proj2 (HE _ _)). auto. Qed.
  Lemma b_divide_cells_ext g cells : b_divide_cells B g cells = b_divide_cells B' g cells.
  Proof. induction cells as [|[c v] r IH]; cbn; auto. rewrite (proj1 (HE v g)), IH. auto. Qed.
  Lemma b_simplify_ext r : b_simplify_row B r = b_simplify_row B' r.
  Proof.
    unfold b_simplify_row. destruct (r_den r =? 1)%Z; auto. destruct (row_gcd _ _) as [g|]; auto.
    rewrite b_divide_cells_ext, (proj1 (HE (r_den r) g)). auto.
  Qed.
  Lemma b_pivot_row_ext i j Ai a d k a' d' s : b_pivot_row B i j Ai a d k a' d' s = b_pivot_row B' i j Ai a d k a' d' s.
  Proof.
    unfold b_pivot_row. destruct (k =? i); auto. rewrite b_gcd_div_ext. destruct (b_gcd_div B' a a') as [[[g x] y]| | |]; auto. cbn [mbind res_bind].
    destruct (at_ (t_rows (p_tab s)) k); auto. cbn [mbind res_bind]. destruct (at_ _ _); auto. cbn [mbind res_bind]. rewrite b_simplify_ext. auto.
  Qed.
  Lemma col_loop_ext i j Ai a d : forall is kept s,
    col_loop p_tab j (b_pivot_row B i j Ai a d) is kept s = col_loop p_tab j (b_pivot_row B' i j Ai a d) is kept s.
  Proof.
    induction is as [|k is IH]; intros kept s; cbn [col_loop]; auto.
    destruct (at_ _ _) as [rw| | |]; auto. cbn [mbind res_bind]. destruct (clook _ _); auto. rewrite b_pivot_row_ext.
    destruct (b_pivot_row B' i j Ai a d _ _ _ _); auto. cbn [mbind res_bind]. auto.
  Qed.
  Lemma b_pivot_ext t i j p : b_pivot B t i j p = b_pivot B' t i j p.
  Proof.
    unfold b_pivot. destruct (at_ (t_rows t) i) as [ri| | |]; auto. cbn [mbind res_bind]. cbv zeta.
    destruct (at_ (map _ _) p) as [aij| | |]; auto. cbn [mbind res_bind]. unfold update_col. cbn [p_tab t_cols].
    destruct (t_cols t !! j); [rewrite col_loop_ext; destruct (col_loop _ _ _ _ _ _) as [[? ?]| | |]; auto; cbn [mbind res_bind]|cbn [mbind res_bind]]; rewrite b_simplify_ext; auto.
  Qed.
  Lemma b_set_ext t i j a : b_set B t i j a = b_set B' t i j a.
  Proof.
    unfold b_set. destruct (Qc_eq_bool a 0); auto. cbv zeta. destruct (at_ _ _) as [r| | |]; auto. cbn [mbind res_bind].
    unfold b_set_row. rewrite b_gcd_div_ext. auto.
  Qed.
  Lemma b_step_ext t o : b_step B t o = b_step B' t o.
  Proof.
    destruct o as [i j a|i j|j]; cbn [b_step]; auto using b_set_ext.
    destruct (Qc_eq_bool _ _); auto. destruct (unsafe_get t i j) as [[[p ?] ?]| | |]; auto. cbn [mbind res_bind]. apply b_pivot_ext.
  Qed.
  Lemma b_run_ext : forall ops t, b_run B ops t = b_run B' ops t.
  Proof.
    induction ops as [|o ops IH]; intros t; cbn [b_run]; auto. rewrite b_step_ext. destruct (b_step B' t o); auto. cbn [mbind res_bind]. auto.
  Qed.
End ext.

(** The tableau is the same with FLINT, where a division with remainder has no
    defined result, and with imath, which truncates and ignores divisions by
    zero; there is no undefined behaviour with either. *)
Theorem C43_backends_agree ops : exists t, reachable t /\
  b_run Flint_ops ops empty_tab = Ok t /\ b_run Imath_ops ops empty_tab = Ok t.
Proof.
  destruct (C43_only_exact_divisions ops) as (t & R & Ht). exists t. split; auto. split.
  - rewrite (b_run_ext _ _ Flint_any). apply Ht.
  - rewrite (b_run_ext Imath_ops (Any_ops (b_divide Imath_ops) (b_into Imath_ops))); [apply Ht|].
    intros a b. cbn. destruct (b =? 0)%Z; cbn; auto. destruct (Z.rem a b =? 0)%Z; auto.
Qed.

(** The calls of the solver.  Solver.v, and with it every theorem about
    sessions, uses [tset] and [tpivot], which divide in [Z].  Whenever these have
    a result - and C14 is about when they have - both libraries produce exactly
    this result. *)
Theorem C43_solver_calls B : B ∈ [Flint_ops; Imath_ops] ->
  (forall t i j a, b_set B t i j a = Ok (tset t i j a)) /\
  (forall t i j p t', tpivot t i j p = Ok t' -> b_pivot B t i j p = Ok t').
Proof.
  intros HB.
  assert (exists junk junk', forall a b, b_divide B a b = b_divide (Any_ops junk junk') a b /\ b_into B a b = b_into (Any_ops junk junk') a b) as (junk & junk' & HE).
  { apply elem_of_cons in HB. destruct HB as [->|HB].
    - exists (fun _ _ => UB), (fun _ _ => UB). apply Flint_any.
    - apply elem_of_list_singleton in HB. subst. exists (b_divide Imath_ops), (b_into Imath_ops).
      intros a b. cbn. destruct (b =? 0)%Z; cbn; auto. destruct (Z.rem a b =? 0)%Z; auto. }
  split.
  - intros t i j a. rewrite (b_set_ext _ _ HE). apply b_set_ok.
  - intros t i j p t' Hp. rewrite (b_pivot_ext _ _ HE). apply b_pivot_ok, Hp.
Qed.

(** ** A case in which the libraries would differ if a division had a remainder *)

Definition C43_example_ops : list tab_op :=
  [OSet 0 0 (qmk 2 3); OSet 0 1 (qmk 5 6); OSet 0 2 (qmk (-4) 1); OSet 1 0 (qmk 3 2); OSet 1 2 (qmk 6 5); OSet 2 1 (qmk 7 1);
   OPivot 0 0; OPivot 1 2; OColumn 1; OSet 2 0 (qmk 1 4); OPivot 2 1].

(** The libraries do differ (-7/2 is -3 for imath and undefined for FLINT), and
    the pivots of the example change the tableau and need a simplification. *)
Example C43_used :
  b_divide Imath_ops (-7) 2 = Ok (-3)%Z /\ b_divide Flint_ops (-7) 2 = UB /\
  b_divide Imath_ops 7 0 = Ok 7%Z /\ b_divide Flint_ops 7 0 = UB /\
  exists t, b_run Flint_ops C43_example_ops empty_tab = Ok t /\ b_run Imath_ops C43_example_ops empty_tab = Ok t /\
    length (t_rows t) = 3 /\ tsize t = 8 /\
    b_run Flint_ops (take 6 C43_example_ops) empty_tab = Ok (Tab [Row 6 [(0, 4%Z); (1, 5%Z); (2, (-24)%Z)]; Row 10 [(0, 15%Z); (2, 12%Z)]; Row 1 [(1, 7%Z)]] [[0; 1]; [0; 2]; [0; 1]]) /\
    b_run Flint_ops (take 7 C43_example_ops) empty_tab = Ok (Tab [Row 4 [(0, 6%Z); (1, (-5)%Z); (2, 24%Z)]; Row 40 [(0, 90%Z); (1, (-75)%Z); (2, 408%Z)]; Row 1 [(1, 7%Z)]] [[0; 1]; [0; 1; 2]; [0; 1]]).
Proof.
  split; [vm_compute; reflexivity|]. split; [vm_compute; reflexivity|]. split; [vm_compute; reflexivity|]. split; [vm_compute; reflexivity|].
  eexists. split; [vm_compute; reflexivity|]. split; [vm_compute; reflexivity|]. split; [vm_compute; reflexivity|]. split; [vm_compute; reflexivity|].
  split; vm_compute; reflexivity.
Qed.
